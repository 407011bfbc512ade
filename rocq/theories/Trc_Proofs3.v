(** One iteration of the subscription loop. *)
From Coq Require Import List Arith NArith Lia Bool Permutation.
From Verif Require Import Lib_Bytes Trc_Model Trc_Proofs Trc_Proofs2.
Import ListNotations.

Lemma SameUpdate_refl u : SameUpdate u u.
Proof. destruct u; cbn; split; auto. Qed.

Section S.
Variable H : bytes -> bytes.
Variables nserv f : nat.
Variable honest : nat -> bool.
Variables (B : nat) (e0 : N) (blk : nat -> bytes * list (bytes * bytes)) (grp : nat -> bytes * list bytes).
Variable ch : nat -> nat -> choice.
Variable ord : list nat -> list nat.
Hypothesis Hlen : forall x, length (H x) = HASHLEN.
Hypothesis He0 : (1 <= e0)%N.
Notation U := (history B e0 blk grp).
Notation posOf := (historyPos B e0).
Hypothesis HU : forall n, exists h, hashUpdate H (U n) = Ok h.
Hypothesis Hord : forall l, Permutation (ord l) l.
Hypothesis Hf : faulty nserv honest <= f.
Notation Al := (Al B e0).
Notation RInv := (RInv H nserv honest B e0 blk grp).
Notation Pos := (Pos honest).
Notation recU := (recU H B e0 blk grp).

(** Where the streams are. *)
Record W (s : st) (n : nat) : Prop := {
  w_dci : s_dci s < nserv;
  w_al : Al s n;
  w_data : forall i p, s_data s i = Some p -> i = s_dci s;
  w_hash : forall i p, s_hash s i = Some p -> i < nserv /\ i <> s_dci s }.
Record Inv (s : st) (n : nat) : Prop := {
  iv_w : W s n;
  iv_data : forall i p, s_data s i = Some p -> honest i = true -> p = n;
  iv_hash : forall i p, s_hash s i = Some p -> honest i = true -> p = n }.

Lemma reset_ok s i n r s' : W s n -> i < nserv -> resetDataStreamTo posOf ch s i = (r, s') ->
  W s' n /\ sameLatest s s' /\ s_dci s' = i /\
  s_data s' i = (match r with RSuccess => Some n | _ => None end) /\
  (forall j, s_hash s' j = if (j =? i) || (j =? s_dci s) then None else s_hash s j) /\
  (r = RSuccess \/ r = RTimeout \/ r = RFailure) /\ r = openRes (c_res (ch i (s_tick s))).
Proof.
  intros [Wd Wa Wdt Wh] Li E. unfold resetDataStreamTo in E.
  set (s2 := setHash (setData (setHash (setData s i None) i None) (s_dci s) None) (s_dci s) None) in E.
  assert (SL : sameLatest s s2) by (repeat split).
  assert (Hh : forall j, s_hash s2 j = if (j =? i) || (j =? s_dci s) then None else s_hash s j).
  { intros j. subst s2. cbn. destruct (Nat.eqb_spec j (s_dci s)); [rewrite orb_true_r; reflexivity|]. rewrite orb_false_r. reflexivity. }
  assert (Hd : forall j, s_data s2 j = None).
  { intros j. subst s2. cbn. destruct (Nat.eqb_spec j (s_dci s)) as [|Nj]; [reflexivity|]. destruct (j =? i); [reflexivity|].
    destruct (s_data s j) eqn:Q; auto. apply Wdt in Q. congruence. }
  assert (Et : s_tick s2 = s_tick s) by reflexivity. clearbody s2.
  destruct (openData posOf ch s2 i) as [r0 s3] eqn:Eo. injection E as <- <-. unfold openData in Eo. injection Eo as Er Es. subst r0 s3.
  rewrite (al_pos B e0 He0 s2 n) by (eapply al_same; eauto). rewrite Et.
  set (r := openRes (c_res (ch i (s_tick s)))).
  assert (Q : r = RSuccess \/ r = RTimeout \/ r = RFailure) by (unfold r; destruct (c_res (ch i (s_tick s))); cbn [openRes]; auto).
  split; [|split; [destruct SL as (A & C & D & F); repeat split; assumption|split; [reflexivity|split; [|split; [|split; auto]]]]].
  - constructor; cbn.
    + exact Li.
    + eapply al_same; [|exact Wa]. destruct SL as (A & C & D & F); repeat split; assumption.
    + intros j p. destruct (Nat.eqb_spec j i); auto. rewrite Hd. discriminate.
    + intros j p. rewrite Hh. destruct (Nat.eqb_spec j i); [discriminate|]. destruct (j =? s_dci s); [discriminate|]. cbn.
      intros Q1. apply Wh in Q1. tauto.
  - cbn. rewrite Nat.eqb_refl. reflexivity.
  - intros j. cbn. apply Hh.
Qed.
Lemma retry_ok s n : W s n -> Inv (retry nserv posOf ch s) n.
Proof.
  intros Ws. unfold retry. pose proof Ws as [Wd Wa Wdt Wh].
  assert (Wc : W (closeAllHashStreams nserv s) n).
  { constructor; [exact Wd|exact Wa|exact Wdt|]. unfold closeAllHashStreams. cbn [s_hash s_dci]. intros i p. destruct ((i <? nserv) && negb (i =? s_dci s)); [discriminate|]. apply Wh. }
  assert (Hn : forall j, s_hash (closeAllHashStreams nserv s) j = None).
  { intros j. unfold closeAllHashStreams. cbn [s_hash]. destruct ((j <? nserv) && negb (j =? s_dci s)) eqn:E; [reflexivity|].
    destruct (s_hash s j) eqn:Q; auto. apply Wh in Q as [Q1 Q2]. apply Nat.ltb_lt in Q1. apply Nat.eqb_neq in Q2.
    rewrite Q1, Q2 in E. discriminate. }
  assert (Li : (s_dci s + 1) mod nserv < nserv) by (apply Nat.mod_upper_bound; lia).
  destruct (resetDataStreamTo posOf ch (closeAllHashStreams nserv s) ((s_dci s + 1) mod nserv)) as [r s'] eqn:E. cbn [snd].
  apply reset_ok with (n := n) in E; auto. destruct E as (W' & _ & Ed & Edt & Eh & _).
  constructor; auto.
  - intros i p Q _. assert (Ei : i = s_dci s') by (eapply w_data; eauto). rewrite Ei, Ed in Q. rewrite Edt in Q.
    destruct r; congruence.
  - intros i p Q _. rewrite Eh, Hn in Q. destruct ((i =? _) || _); discriminate.
Qed.

Lemma rotate_ok n r : forall servers s ou s', rotate H honest U posOf ch servers r s = Ok (ou, s') ->
  W s n -> (forall i, In i servers -> i < nserv) ->
  W s' n /\ sameLatest s s' /\ (forall j p, s_hash s' j = Some p -> s_hash s j = Some p) /\
  match ou with
  | None => True
  | Some u => In (s_dci s') servers /\ idOf u = h_id r /\ hashUpdate H u = Ok (h_hash r) /\
              (honest (s_dci s') = true -> u = U n /\ s_data s' (s_dci s') = Some (S n)) /\
              (honest (s_dci s') = false -> exists t, c_data (ch (s_dci s') t) = DUpd u)
  end.
Proof.
  induction servers as [|i rest IH]; intros s ou s' E Ws Lt.
  { cbn in E. injection E as <- <-. split; auto. split; [repeat split|]. split; auto. }
  cbn [rotate] in E. destruct (resetDataStreamTo posOf ch s i) as [ro s1] eqn:Er.
  apply reset_ok with (n := n) in Er; auto; [|apply Lt; left; reflexivity]. destruct Er as (W1 & SL1 & Ed1 & Edt & Eh1 & Ro & _).
  assert (Hm1 : forall j p, s_hash s1 j = Some p -> s_hash s j = Some p).
  { intros j p Q. rewrite Eh1 in Q. destruct ((j =? i) || _); [discriminate|exact Q]. }
  assert (Go : forall sx, rotate H honest U posOf ch rest r sx = Ok (ou, s') -> W sx n -> sameLatest s sx ->
             (forall j p, s_hash sx j = Some p -> s_hash s j = Some p) ->
     W s' n /\ sameLatest s s' /\ (forall j p, s_hash s' j = Some p -> s_hash s j = Some p) /\
     match ou with
     | None => True
     | Some u => In (s_dci s') (i :: rest) /\ idOf u = h_id r /\ hashUpdate H u = Ok (h_hash r) /\
              (honest (s_dci s') = true -> u = U n /\ s_data s' (s_dci s') = Some (S n)) /\
              (honest (s_dci s') = false -> exists t, c_data (ch (s_dci s') t) = DUpd u)
     end).
  { intros sx Ex Wx SLx Hx. destruct (IH sx ou s' Ex Wx) as (W' & SL' & H' & R'); [intros j Hj; apply Lt; right; exact Hj|].
    split; auto. split; [eapply sameLatest_trans; eauto|]. split; [auto|]. destruct ou; auto. destruct R' as [A R']. split; [right; exact A|exact R']. }
  assert (Ro' : ro = RSuccess \/ (ro <> RSuccess /\ rotate H honest U posOf ch rest r s1 = Ok (ou, s'))).
  { destruct Ro as [->|[->| ->]]; [left; reflexivity|right; split; [discriminate|exact E]..]. }
  destruct Ro' as [->|[_ E1]]; [|apply (Go s1); auto].
  unfold readData in E. rewrite Edt in E.
  assert (Wset : forall q, W (tickS (setData s1 i q)) n).
  { intros q. destruct W1 as [V1 V2 V3 V4]. constructor; [exact V1|exact V2| |exact V4]. cbn. intros j p. rewrite Ed1. destruct (Nat.eqb_spec j i); auto. intros Q. rewrite <- Ed1. eapply V3. exact Q. }
  assert (SLset : forall q, sameLatest s (tickS (setData s1 i q))) by (intros q; exact SL1).
  destruct (c_res (ch i (s_tick s1))) eqn:Ec; cbn [bindO] in E.
  - destruct (if honest i then DUpd (U n) else c_data (ch i (s_tick s1))) as [|u] eqn:Em; [discriminate|].
    destruct (negb (idOf u =? h_id r)%N) eqn:Eid; [apply (Go (tickS (setData s1 i (Some (S n))))); auto|].
    destruct (hashUpdate H u) as [h|e|] eqn:Eh; cbn [bindO] in E; try discriminate.
    destruct (bytes_eqb h (h_hash r)) eqn:Ehh; [|apply (Go (tickS (setData s1 i (Some (S n))))); auto].
    injection E as <- <-. apply bytes_eqb_ok in Ehh. subst h. apply negb_false_iff, N.eqb_eq in Eid.
    split; auto. split; auto. split; auto. cbn. rewrite Ed1. split; [left; reflexivity|]. split; auto. split; auto. split.
    + intros Hh. rewrite Hh in Em. injection Em as <-. split; auto. rewrite Nat.eqb_refl. reflexivity.
    + intros Hh. rewrite Hh in Em. exists (s_tick s1). exact Em.
  - apply (Go (tickS (setData s1 i None))); auto.
  - apply (Go (tickS s1)); auto. destruct W1; constructor; assumption.
  - apply (Go (tickS s1)); auto. destruct W1; constructor; assumption.
  - apply (Go (tickS s1)); auto. destruct W1; constructor; assumption.
Qed.

Lemma readBlock_ok s n r m a0 s1 : Inv s n -> readBlock H honest U ch s emptyR = Ok (r, m, a0, s1) ->
  W s1 n /\ sameLatest s s1 /\ s_dci s1 = s_dci s /\ s_hash s1 = s_hash s /\ RInv n a0 /\ Pos s1 n a0 /\ r_oor a0 = 0 /\ r_pruned a0 = 0 /\
  (r_map a0 = [] \/
   exists u h, m = DUpd u /\ r = RSuccess /\ r_map a0 = [(mkH (kindOf u) (idOf u) h, [s_dci s])] /\ hashUpdate H u = Ok h /\
     (honest (s_dci s) = true -> u = U n) /\ (honest (s_dci s) = false -> exists t, c_data (ch (s_dci s) t) = DUpd u)).
Proof.
  intros [Ws Id Ih] E. pose proof Ws as [Wd Wa Wdt Wh]. unfold readBlock in E.
  assert (R0 : RInv n emptyR) by apply rinv_empty.
  assert (P0 : forall sx, Pos sx n emptyR) by (intros sx i []).
  destruct (s_data s (s_dci s)) as [p|] eqn:Ep.
  2:{ injection E as <- <- <- <-. split; auto. split; [repeat split|]. repeat (split; auto). }
  unfold readData in E. rewrite Ep in E.
  assert (Wset : forall q, W (tickS (setData s (s_dci s) q)) n).
  { intros q. constructor; [exact Wd|exact Wa| |exact Wh]. cbn. intros j q'. destruct (Nat.eqb_spec j (s_dci s)); eauto. }
  destruct (c_res (ch (s_dci s) (s_tick s))) eqn:Ec; cbn [bindO] in E.
  - destruct (if honest (s_dci s) then DUpd (U p) else c_data (ch (s_dci s) (s_tick s))) as [|u] eqn:Em; [discriminate|].
    destruct (idOf u <? latestOf s (kindOf u))%N eqn:El.
    { injection E as <- <- <- <-. split; auto. split; [repeat split|]. repeat (split; auto). }
    destruct (hashUpdate H u) as [h|e|] eqn:Eh; cbn [bindO] in E; try discriminate.
    injection E as <- <- <- <-. split; auto. split; [repeat split|]. split; [reflexivity|]. split; [reflexivity|].
    assert (Hu : honest (s_dci s) = true -> u = U n /\ p = n).
    { intros Hh. rewrite Hh in Em. injection Em as <-. assert (p = n) by eauto. subst p. auto. }
    assert (Em' : r_map (record (s_dci s) (mkH (kindOf u) (idOf u) h) emptyR) = [(mkH (kindOf u) (idOf u) h, [s_dci s])]) by (rewrite record_map; reflexivity).
    split; [|split].
    + apply rinv_record; auto. intros Hh. destruct (Hu Hh) as [-> _]. unfold Trc_Proofs2.recU, hU. rewrite Eh. reflexivity.
    + intros j Hj Hh. rewrite Em' in Hj. unfold servers_of in Hj. cbn in Hj. destruct Hj as [<-|[]]. cbn. rewrite !Nat.eqb_refl.
      destruct (Hu Hh) as [_ ->]. reflexivity.
    + split; [unfold record; destruct (_ <? _); reflexivity|]. split; [unfold record; destruct (_ <? _); reflexivity|].
      right. exists u, h. split; [reflexivity|]. split; [reflexivity|]. split; [exact Em'|]. split; [exact Eh|]. split.
      * intros Hh. apply Hu. exact Hh.
      * intros Hh. rewrite Hh in Em. eauto.
  - injection E as <- <- <- <-. split; auto. split; [repeat split|]. repeat (split; auto).
  - injection E as <- <- <- <-. split; [destruct Ws; constructor; auto|]. split; [repeat split|]. repeat (split; auto).
  - injection E as <- <- <- <-. split; [destruct Ws; constructor; auto|]. split; [repeat split|]. repeat (split; auto).
  - injection E as <- <- <- <-. split; [destruct Ws; constructor; auto|]. split; [repeat split|]. repeat (split; auto).
Qed.

Lemma sortedServers_perm s : Permutation (sortedServers nserv s) (seq 0 nserv).
Proof.
  unfold sortedServers. generalize (seq 0 nserv). intros l. induction l as [|x l IH]; cbn [filter app]; auto.
  destruct (s_hash s x); cbn [negb app].
  - constructor. exact IH.
  - rewrite <- Permutation_middle. constructor. exact IH.
Qed.
Lemma sorted_nodup s : NoDup (sortedServers nserv s).
Proof. apply (Permutation_NoDup (Permutation_sym (sortedServers_perm s))). apply seq_NoDup. Qed.
Lemma sorted_in s i : In i (sortedServers nserv s) <-> i < nserv.
Proof.
  clear Hf He0.
  split; intros Hi.
  - apply (Permutation_in _ (sortedServers_perm s)) in Hi. apply in_seq in Hi. lia.
  - apply (Permutation_in _ (Permutation_sym (sortedServers_perm s))). apply in_seq. lia.
Qed.

(** After the data stream and the hash streams were read. *)
Lemma collected s n r m a0 s1 a s2 : Inv s n -> readBlock H honest U ch s emptyR = Ok (r, m, a0, s1) ->
  findAgreement H nserv f honest U posOf ch s1 (countErr s r a0) = Ok (a, s2) ->
  W s2 n /\ sameLatest s s2 /\ s_dci s2 = s_dci s /\ RInv n a /\ Pos s2 n a /\
  (In (s_dci s2) (servers_of (r_map a)) ->
   exists u h, m = DUpd u /\ hashUpdate H u = Ok h /\
     (forall rc l, In (rc, l) (r_map a) -> In (s_dci s2) l -> rc = mkH (kindOf u) (idOf u) h) /\
     (honest (s_dci s) = true -> u = U n) /\ (honest (s_dci s) = false -> exists t, c_data (ch (s_dci s) t) = DUpd u)).
Proof.
  intros I E1 E2. apply readBlock_ok with (n := n) in E1; auto. destruct E1 as (W1 & SL1 & Ed1 & Eh1 & R0 & P0 & _ & _ & M0).
  unfold findAgreement in E2.
  apply agree_loop_ok with (nserv := nserv) (n := n) in E2; auto.
  - destruct E2 as ((SL2 & Ed2 & Edt2) & R2 & P2 & Q2 & O2). split; [|split; [eapply sameLatest_trans; eauto|split; [congruence|split; [exact R2|split; [exact P2|]]]]].
    + destruct W1 as [Wd Wa Wdt Wh]. constructor.
      * rewrite Ed2. exact Wd.
      * eapply al_same; eauto.
      * intros i p. rewrite Edt2, Ed2. apply Wdt.
      * intros i p Q. rewrite Ed2. destruct (Nat.eq_dec i (s_dci s1)) as [->|Ni].
        -- rewrite Q2 in Q by auto. apply Wh in Q. tauto.
        -- split; auto. destruct (Nat.lt_ge_cases i nserv); auto. rewrite Q2 in Q; [apply Wh in Q; tauto|].
           left. rewrite sorted_in. lia.
    + rewrite countErr_map in O2. intros Hd. apply in_servers in Hd as (rc & l & Hin & Hd). rewrite Ed2 in *.
      destruct (O2 _ _ _ Hin Hd) as [[_ X]|(l0 & Hin0 & Hd0)]; [congruence|].
      destruct M0 as [M0|(u & h & Em & _ & M0 & Ehu & X1 & X2)]; [rewrite M0 in Hin0; destruct Hin0|].
      exists u, h. split; auto. split; auto. split; [|split; auto]. intros rc' l' Hin' Hd'.
      destruct (O2 _ _ _ Hin' Hd') as [[_ X]|(l1 & Hin1 & Hd1)]; [congruence|].
      rewrite M0 in Hin1. destruct Hin1 as [Q|[]]. congruence.
  - apply W1.
  - apply sorted_nodup.
  - intros i Hi. split; [apply sorted_in in Hi; exact Hi|]. intros Ni. rewrite countErr_map.
    destruct M0 as [->|(u & h & _ & _ & -> & _)]; [intros []|]. unfold servers_of. cbn. intros [<-|[]]. congruence.
  - intros i p _ Hh Q. rewrite Eh1 in Q. eapply iv_hash; eauto.
  - apply rinv_count. exact R0.
  - intros i Hi. rewrite countErr_map in Hi. apply P0. exact Hi.
Qed.

Definition Faithful : Prop := forall i t u n, i < nserv -> honest i = false -> c_data (ch i t) = DUpd u -> idOf u = idOf (U n) ->
  hashUpdate H u = hashUpdate H (U n) -> SameUpdate u (U n).

Lemma deliver_inv s2 s3 n a u best :
  RInv n a -> Pos s2 n a -> W s2 n -> W s3 n -> sameLatest s2 s3 -> (forall j p, s_hash s3 j = Some p -> s_hash s2 j = Some p) ->
  SameUpdate u (U n) -> (honest (s_dci s3) = true -> s_data s3 (s_dci s3) = Some (S n)) ->
  Inv (snd (deliver nserv s3 u (membersOf (r_map a) best))) (S n).
Proof.
  intros R P W2 W3 SL Hm Su Hd.
  assert (Al3 : Al (snd (deliver nserv s3 u (membersOf (r_map a) best))) (S n)) by (eapply al_deliver; eauto; apply W3).
  destruct W3 as [Wd Wa Wdt Wh]. constructor; [constructor; [exact Wd|exact Al3|exact Wdt|]|..].
  - unfold deliver. cbn [snd s_hash s_dci]. intros i p. destruct ((i <? nserv) && _); [discriminate|]. apply Wh.
  - unfold deliver. cbn [snd s_data]. intros i p Q Hh. assert (i = s_dci s3) by eauto. rewrite H0 in Q, Hh. rewrite (Hd Hh) in Q. congruence.
  - unfold deliver. cbn [snd s_hash]. intros i p Q Hh. destruct ((i <? nserv) && negb (existsb (Nat.eqb i) (membersOf (r_map a) best))) eqn:C; [discriminate|].
    pose proof Q as Q'. apply Wh in Q' as [Li Ni]. apply Nat.ltb_lt in Li. rewrite Li in C. cbn in C. apply negb_false_iff, existsb_nat in C.
    apply Hm in Q. assert (In i (servers_of (r_map a))).
    { destruct (membersOf_in (r_map a) best) as [E0|Hin]; [rewrite E0 in C; destruct C|]. apply in_servers. eauto. }
    pose proof (w_hash _ _ W2 _ _ Q) as [_ N2]. apply Nat.eqb_neq in N2.
    specialize (P i H0 Hh). rewrite N2 in P. congruence.
Qed.

Lemma round_ok s n ou s' : Faithful -> Inv s n -> round H nserv f honest U posOf ch ord s = Ok (ou, s') ->
  match ou with None => Inv s' n | Some u => SameUpdate u (U n) /\ Inv s' (S n) /\ (honest (s_dci s') = true -> s_data s' (s_dci s') = Some (S n)) end.
Proof.
  intros Fa I E. unfold round in E.
  destruct (readBlock H honest U ch s emptyR) as [[[[r m] a0] s1]|e|] eqn:E1; cbn [bindO] in E; try discriminate.
  destruct (findAgreement H nserv f honest U posOf ch s1 (countErr s r a0)) as [[a s2]|e|] eqn:E2; cbn [bindO] in E; try discriminate.
  destruct (collected _ _ _ _ _ _ _ _ I E1 E2) as (W2 & SL2 & Ed2 & R2 & P2 & C2).
  destruct (r_most a <? f + 1) eqn:Em.
  { unfold noAgreement in E. destruct (_ && _) in E; [discriminate|]. destruct (_ && _) in E; [discriminate|].
    destruct (_ <=? _) in E; [discriminate|]. injection E as <- <-. apply retry_ok. exact W2. }
  apply Nat.ltb_ge in Em.
  destruct (r_best a) as [best|] eqn:Eb; [|discriminate].
  assert (Hb : best = recU n) by (eapply agreed_is_history; eauto). subst best.
  set (mem := membersOf (r_map a) (recU n)) in *.
  assert (Min : forall i, In i mem -> In (recU n, mem) (r_map a)).
  { intros i Hi. destruct (membersOf_in (r_map a) (recU n)) as [E0|Hin]; auto. unfold mem in Hi. rewrite E0 in Hi. destruct Hi. }
  assert (Hnr : hashUpdate H (U n) = Ok (hU H B e0 blk grp n)) by (apply hU_ok; auto).
  destruct (existsb (Nat.eqb (s_dci s2)) mem) eqn:Ex.
  - apply existsb_nat in Ex. destruct C2 as (u & h & -> & Ehu & Crec & Hu1 & Hu2).
    { apply in_servers. eauto. }
    injection E as <- <-. specialize (Crec _ _ (Min _ Ex) Ex). unfold Trc_Proofs2.recU in Crec. injection Crec as Ek Ei Eh.
    assert (Su : SameUpdate u (U n)).
    { destruct (honest (s_dci s)) eqn:Hh.
      - rewrite (Hu1 eq_refl). apply SameUpdate_refl.
      - destruct (Hu2 eq_refl) as [t Et]. eapply Fa; eauto; [apply I|congruence]. }
    assert (Dt : honest (s_dci s2) = true -> s_data s2 (s_dci s2) = Some (S n)).
    { intros Hh. specialize (P2 (s_dci s2)). rewrite Nat.eqb_refl in P2. apply P2; auto. apply in_servers. eauto. }
    split; auto. split; [|exact Dt]. apply (deliver_inv s2 s2 n a u (recU n)); auto. apply sameLatest_refl.
  - destruct (rotate H honest U posOf ch (ord mem) (recU n) s2) as [[ou3 s3]|e|] eqn:E3; cbn [bindO] in E; try discriminate.
    apply rotate_ok with (n := n) in E3; auto.
    + destruct E3 as (W3 & SL3 & Hm3 & X3). destruct ou3 as [u|].
      * injection E as <- <-. destruct X3 as (Hin & Ei & Eh & Xh & Xb).
        assert (Su : SameUpdate u (U n)).
        { destruct (honest (s_dci s3)) eqn:Hh.
          - destruct (Xh eq_refl) as [-> _]. apply SameUpdate_refl.
          - destruct (Xb eq_refl) as [t Et]. eapply Fa; eauto; [apply W3|]. cbn [Trc_Proofs2.recU h_hash] in Eh. congruence. }
        split; auto. split; [apply (deliver_inv s2 s3 n a u (recU n)); auto|]; intros Hh; apply (Xh Hh).
      * injection E as <- <-. apply retry_ok. exact W3.
    + intros i Hi. apply (Permutation_in _ (Hord mem)) in Hi. apply (ri_lt _ _ _ _ _ _ _ _ _ R2). apply in_servers. eauto.
Qed.

Lemma rounds_ok k : forall s n us o, Faithful -> Inv s n -> rounds H nserv f honest U posOf ch ord k s = (us, o) ->
  Forall2 SameUpdate us (map U (seq n (length us))).
Proof.
  induction k as [|k IH]; intros s n us o Fa I E; cbn [rounds] in E.
  { injection E as <- <-. constructor. }
  destruct (round H nserv f honest U posOf ch ord s) as [[ou s']|e|] eqn:Er; [|injection E as <- <-; constructor..].
  destruct (rounds H nserv f honest U posOf ch ord k s') as [us' o'] eqn:Ek. injection E as <- <-.
  pose proof (round_ok _ _ _ _ Fa I Er) as R. destruct ou as [u|].
  - destruct R as (Su & I' & _). cbn [app length seq map]. constructor; auto. eapply IH; eauto.
  - cbn [app]. eapply IH; eauto.
Qed.

(** A request the history can serve. *)
Definition ValidReq (r : request) : Prop :=
  match r with ReqEvents b => (b <= N.of_nat B + 1)%N | ReqGroup g => (e0 <= g)%N end.
Lemma start_inv req lb0 : 0 < nserv -> ValidReq req -> Inv (start posOf ch req lb0) (posOf req).
Proof.
  intros Hn V. unfold start.
  match goal with |- context [resetDataStreamTo posOf ch ?x 0] => set (s0 := x) end.
  assert (W0 : W s0 (posOf req)).
  { constructor; try discriminate; [exact Hn|]. subst s0. destruct req as [b|g]; cbn [ValidReq] in V; [left|right]; cbn [s_eg s_lb s_lg historyPos].
    - repeat split; try lia; destruct (N.ltb_spec 0 b); lia.
    - repeat split; try lia; destruct (N.ltb_spec 0 g); lia. }
  assert (N0 : forall i, s_hash s0 i = None) by reflexivity.
  destruct (resetDataStreamTo posOf ch s0 0) as [r s'] eqn:E. cbn [snd]. apply reset_ok with (n := posOf req) in E; auto.
  destruct E as (W' & _ & Ed & Edt & Eh & _). constructor; auto.
  - intros i p Q _. assert (Ei : i = s_dci s') by (eapply w_data; eauto). rewrite Ei, Ed in Q. rewrite Edt in Q. destruct r; congruence.
  - intros i p Q _. rewrite Eh, N0 in Q. destruct ((i =? _) || _); discriminate.
Qed.

(** The error "2f+1 replicas generated mismatching hashes" *)
Lemma servers_count (m : rmap) : serversWithHash (mkR m 0 None 0 0) = length (servers_of m).
Proof. unfold serversWithHash, servers_of. cbn [r_map]. induction m as [|[r l] m IH]; cbn; auto. rewrite app_length, IH. reflexivity. Qed.
Lemma filter_split {A} (p : A -> bool) l : length (filter p l) + length (filter (fun x => negb (p x)) l) = length l.
Proof. induction l as [|x l IH]; cbn; auto. destruct (p x); cbn; lia. Qed.
Lemma honest_agree n a : RInv n a -> f + f + 1 <= length (servers_of (r_map a)) -> f + 1 <= r_most a.
Proof.
  intros R L. pose proof (filter_split honest (servers_of (r_map a))) as Fs.
  assert (Bad : length (filter (fun x => negb (honest x)) (servers_of (r_map a))) <= faulty nserv honest).
  { unfold faulty. apply NoDup_incl_length.
    - apply NoDup_filter. apply R.
    - intros i Hi. apply filter_In in Hi as [Hi Hh]. apply filter_In. split; auto. apply in_seq. apply (ri_lt _ _ _ _ _ _ _ _ _ R) in Hi. lia. }
  assert (G : length (filter honest (servers_of (r_map a))) <= length (membersOf (r_map a) (recU n))).
  { apply NoDup_incl_length.
    - apply NoDup_filter. apply R.
    - intros i Hi. apply filter_In in Hi as [Hi Hh]. apply in_servers in Hi as (rc & l & Hin & Hi).
      assert (rc = recU n) by (eapply (ri_hon _ _ _ _ _ _ _ _ _ R); eauto). subst rc.
      rewrite (membersOf_entry _ _ _ (ri_keys _ _ _ _ _ _ _ _ _ R) Hin). exact Hi. }
  destruct (membersOf_in (r_map a) (recU n)) as [E0|Hin].
  - rewrite E0 in G. cbn in G. lia.
  - apply (ri_le _ _ _ _ _ _ _ _ _ R) in Hin. lia.
Qed.
End S.
