(** How a subscription ends, and that it goes on when the honest servers answer. *)
From Coq Require Import List Arith NArith Lia Bool Permutation.
From Verif Require Import Lib_Bytes Trc_Model Trc_Proofs Trc_Proofs2 Trc_Proofs3.
Import ListNotations.

Section S.
Variable H : bytes -> bytes.
Variables nserv f : nat.
Variable honest : nat -> bool.
Variables (B : nat) (e0 : N) (blk : nat -> bytes * list (bytes * bytes)) (grp : nat -> bytes * list bytes).
Variable ch : nat -> nat -> choice.
Variable ord : list nat -> list nat.
Hypothesis Hlen : forall x, length (H x) = HASHLEN.
Hypothesis He0 : (1 <= e0)%N.
Notation U := (history B e0 blk grp).
Notation posOf := (historyPos B e0).
Hypothesis HU : forall n, exists h, hashUpdate H (U n) = Ok h.
Hypothesis Hord : forall l, Permutation (ord l) l.
Hypothesis Hf : faulty nserv honest <= f.
Notation Al := (Al B e0).
Notation RInv := (RInv H nserv honest B e0 blk grp).
Notation Pos := (Pos honest).
Notation recU := (recU H B e0 blk grp).
Notation W := (W nserv B e0).
Notation Inv := (Inv nserv honest B e0).

(** A faulty server sent a data message the client cannot hash / no message. *)
Definition DataThrows : Prop := exists i t u, i < nserv /\ honest i = false /\ c_data (ch i t) = DUpd u /\ hashUpdate H u = Throw EInvalidArgument.
Definition Aborts : Prop := exists i t, i < nserv /\ honest i = false /\
  (c_hash (ch i t) = HNone \/ c_data (ch i t) = DNone \/ exists u, c_data (ch i t) = DUpd u /\ hashUpdate H u = Abort).
Definition HonestSaid (R : result) : Prop := exists i t, i < nserv /\ honest i = true /\ c_res (ch i t) = R.
Definition Ending {A} (o : out A) : Prop :=
  match o with
  | Ok _ => True
  | Throw EInternal => False
  | Throw EInvalidArgument => DataThrows
  | Throw EOutOfRange => ~ ~ HonestSaid ROutOfRange
  | Throw ENotFound => ~ ~ HonestSaid RNotFound
  | Abort => Aborts
  end.

Lemma hashUpdate_throw u e : hashUpdate H u = Throw e -> e = EInvalidArgument.
Proof. destruct u; cbn [hashUpdate]; destruct (insertAll _ _); congruence. Qed.
Lemma ending_hash i t u : i < nserv -> (honest i = true -> exists n, u = U n) -> (honest i = false -> c_data (ch i t) = DUpd u) ->
  Ending (hashUpdate H u).
Proof.
  intros Li Hh Hb. destruct (hashUpdate H u) as [h|e|] eqn:E; [exact I| |].
  - pose proof (hashUpdate_throw _ _ E) as ->. destruct (honest i) eqn:Q.
    + destruct (Hh eq_refl) as [n ->]. destruct (HU n) as [h E']. congruence.
    + exists i, t, u. auto.
  - destruct (honest i) eqn:Q.
    + destruct (Hh eq_refl) as [n ->]. destruct (HU n) as [h E']. congruence.
    + exists i, t. split; auto. split; auto. right. right. exists u. auto.
Qed.
Lemma ending_bind {A C} (x : out A) (k : A -> out C) : Ending x -> (forall a, x = Ok a -> Ending (k a)) -> Ending (bindO x k).
Proof. destruct x as [a|e|]; cbn [bindO]; auto. Qed.

Lemma readBlock_ending s n : Inv s n -> Ending (readBlock H honest U ch s emptyR).
Proof.
  intros I0. pose proof (w_dci _ _ _ _ _ (iv_w _ _ _ _ _ _ I0)) as Li. unfold readBlock. destruct (s_data s (s_dci s)) as [p|] eqn:Ep; [|exact I].
  unfold readData. rewrite Ep. destruct (c_res (ch (s_dci s) (s_tick s))); cbn [bindO]; try exact I.
  destruct (if honest (s_dci s) then DUpd (U p) else c_data (ch (s_dci s) (s_tick s))) as [|u] eqn:Em.
  - destruct (honest (s_dci s)) eqn:Hh; [discriminate|]. exists (s_dci s), (s_tick s). auto.
  - destruct (_ <? _)%N; [exact I|]. apply ending_bind; [|intros; exact I].
    apply (ending_hash (s_dci s) (s_tick s)); auto; intros Hh; rewrite Hh in Em; [|exact Em]. injection Em as <-. eauto.
Qed.
Lemma readUpdateHash_ending s i a : i < nserv -> s_hash s i <> None -> Ending (readUpdateHash H honest U ch s i a).
Proof.
  intros Li Hs. unfold readUpdateHash, readHash. destruct (s_hash s i) as [p|]; [|congruence].
  destruct (c_res (ch i (s_tick s))) eqn:Ec; cbn [bindO]; try exact I.
  destruct (if honest i then hashMsgOf H (U p) else c_hash (ch i (s_tick s))) as [|k id h] eqn:Em.
  - destruct (honest i) eqn:Hh.
    + unfold hashMsgOf in Em. destruct (HU p) as [h E]. rewrite E in Em. discriminate.
    + exists i, (s_tick s). auto.
  - destruct (_ <? _)%N; [exact I|]. destruct (_ <? _); exact I.
Qed.
Lemma agree_ending servers : forall s a, (forall i, In i servers -> i < nserv) -> Ending (agree_loop H f honest U posOf ch servers s a).
Proof.
  induction servers as [|i rest IH]; intros s a Lt; cbn [agree_loop]; [exact I|].
  assert (Lr : forall j, In j rest -> j < nserv) by (intros j Hj; apply Lt; right; exact Hj).
  destruct (i =? s_dci s); [apply IH; exact Lr|].
  assert (Rd : forall s1, s_hash s1 i <> None -> Ending (bindO (readUpdateHash H honest U ch s1 i a) (fun '(a', s') => if f + 1 <=? r_most a' then Ok (a', s') else agree_loop H f honest U posOf ch rest s' a'))).
  { intros s1 Hs. apply ending_bind; [apply readUpdateHash_ending; auto; apply Lt; left; reflexivity|].
    intros [a' s'] _. destruct (_ <=? _); [exact I|]. apply IH. exact Lr. }
  destruct (s_hash s i) as [p|] eqn:Es; [apply Rd; congruence|].
  destruct (openHash posOf ch s i) as [r s1] eqn:Eo. apply openHash_frame in Eo as (_ & _ & Er).
  destruct r; try (apply IH; exact Lr). apply Rd. congruence.
Qed.
Lemma rotate_ending n r : forall servers s, W s n -> (forall i, In i servers -> i < nserv) -> Ending (rotate H honest U posOf ch servers r s).
Proof.
  induction servers as [|i rest IH]; intros s Ws Lt; cbn [rotate]; [exact I|].
  assert (Lr : forall j, In j rest -> j < nserv) by (intros j Hj; apply Lt; right; exact Hj).
  assert (Li : i < nserv) by (apply Lt; left; reflexivity).
  destruct (resetDataStreamTo posOf ch s i) as [ro s1] eqn:Er.
  apply reset_ok with (nserv := nserv) (n := n) in Er; auto. destruct Er as (W1 & _ & Ed1 & Edt & _).
  destruct ro; try (apply IH; assumption).
  unfold readData. rewrite Edt.
  assert (Wset : forall q, W (tickS (setData s1 i q)) n).
  { intros q. destruct W1 as [V1 V2 V3 V4]. constructor; [exact V1|exact V2| |exact V4]. cbn. intros j p. rewrite Ed1.
    destruct (Nat.eqb_spec j i); auto. intros Q. rewrite <- Ed1. eapply V3. exact Q. }
  assert (Wt : W (tickS s1) n) by (destruct W1; constructor; assumption).
  destruct (c_res (ch i (s_tick s1))) eqn:Ec; cbn [bindO]; try (apply IH; auto; fail).
  destruct (if honest i then DUpd (U n) else c_data (ch i (s_tick s1))) as [|u] eqn:Em.
  - destruct (honest i) eqn:Hh; [discriminate|]. exists i, (s_tick s1). auto.
  - destruct (negb _); [apply IH; auto|]. apply ending_bind.
    + apply (ending_hash i (s_tick s1)); auto; intros Hh; rewrite Hh in Em; [|exact Em]. injection Em as <-. eauto.
    + intros h _. destruct (bytes_eqb _ _); [exact I|]. apply IH; auto.
Qed.

(** ---------- the error counters ---------- *)
Definition cnt (R : result) (a : racc) : nat := match R with ROutOfRange => r_oor a | RNotFound => r_pruned a | _ => 0 end.
Definition bad (i : nat) : nat := if honest i then 0 else 1.
Definition sumBad (l : list nat) : nat := length (filter (fun i => negb (honest i)) l).
Lemma cnt_countErr R s r a : cnt R (countErr s r a) <= cnt R a + 1 /\ (r <> R -> cnt R (countErr s r a) = cnt R a).
Proof. unfold countErr, cnt. destruct R, r; try (split; intros; try congruence; lia); destruct (s_ok s); cbn; split; intros; try congruence; lia. Qed.
Lemma cnt_record R i r a : cnt R (record i r a) = cnt R a.
Proof. unfold record, cnt. destruct (_ <? _); destruct R; reflexivity. Qed.
Lemma readUpdateHash_cnt R s i a a' s' : i < nserv -> ~ HonestSaid R -> readUpdateHash H honest U ch s i a = Ok (a', s') ->
  cnt R a' <= cnt R a + bad i /\ s_dci s' = s_dci s.
Proof.
  intros Li Nh E. unfold readUpdateHash, readHash in E. destruct (s_hash s i) as [p|]; [|discriminate].
  assert (G : forall r, c_res (ch i (s_tick s)) = r -> cnt R (countErr s r a) <= cnt R a + bad i).
  { intros r Er. destruct (cnt_countErr R s r a) as [A C]. unfold bad. destruct (honest i) eqn:Hh; [|exact A].
    rewrite C; [lia|]. intros ->. apply Nh. exists i, (s_tick s). auto. }
  destruct (c_res (ch i (s_tick s))) eqn:Ec; cbn [bindO] in E.
  - destruct (if honest i then hashMsgOf H (U p) else c_hash (ch i (s_tick s))) as [|k id h]; [discriminate|].
    destruct (_ <? _)%N in E; [injection E as <- <-; split; [lia|reflexivity]|].
    destruct (_ <? _) in E; injection E as <- <-; (split; [|reflexivity]); rewrite ?cnt_record; lia.
  - injection E as <- <-. split; [lia|reflexivity].
  - injection E as <- <-. split; [lia|reflexivity].
  - assert (Q : a' = countErr s ROutOfRange a /\ s' = tickS s) by (split; congruence). destruct Q as [-> ->]. split; [|reflexivity]. apply G. reflexivity.
  - assert (Q : a' = countErr s RNotFound a /\ s' = tickS s) by (split; congruence). destruct Q as [-> ->]. split; [|reflexivity]. apply G. reflexivity.
Qed.
Lemma agree_cnt R d : ~ HonestSaid R -> forall servers s a a' s', (forall i, In i servers -> i < nserv) -> s_dci s = d ->
  agree_loop H f honest U posOf ch servers s a = Ok (a', s') ->
  cnt R a' <= cnt R a + sumBad (filter (fun i => negb (i =? d)) servers).
Proof.
  intros Nh. induction servers as [|i rest IH]; intros s a a' s' Lt Ed E; cbn [agree_loop] in E.
  { injection E as <- <-. lia. }
  assert (Lr : forall j, In j rest -> j < nserv) by (intros j Hj; apply Lt; right; exact Hj).
  rewrite Ed in E. cbn [filter]. destruct (i =? d) eqn:Ei; cbn [negb]; [eapply IH; eauto|].
  assert (Sb : sumBad (i :: filter (fun i => negb (i =? d)) rest) = bad i + sumBad (filter (fun i => negb (i =? d)) rest)).
  { unfold sumBad, bad. cbn [filter]. destruct (honest i); reflexivity. }
  rewrite Sb.
  assert (Rd : forall s1, s_dci s1 = d -> bindO (readUpdateHash H honest U ch s1 i a) (fun '(a', s') => if f + 1 <=? r_most a' then Ok (a', s') else agree_loop H f honest U posOf ch rest s' a') = Ok (a', s') ->
     cnt R a' <= cnt R a + (bad i + sumBad (filter (fun i => negb (i =? d)) rest))).
  { intros s1 E1 E2. destruct (readUpdateHash H honest U ch s1 i a) as [[a1 s2]|e|] eqn:E3; cbn [bindO] in E2; try discriminate.
    apply readUpdateHash_cnt with (R := R) in E3 as [C1 D1]; auto; [|apply Lt; left; reflexivity].
    destruct (_ <=? _) in E2; [injection E2 as <- <-; lia|]. apply IH in E2; auto; [lia|congruence]. }
  destruct (s_hash s i) as [p|] eqn:Es; [eapply Rd; eauto|].
  destruct (openHash posOf ch s i) as [r s1] eqn:Eo. apply openHash_frame in Eo as ((_ & Ed1 & _) & _ & Er).
  destruct r; try contradiction.
  - apply (Rd s1); auto. congruence.
  - cbn [countErr] in E. apply IH in E; auto; [lia|congruence].
  - cbn [countErr] in E. apply IH in E; auto; [lia|congruence].
Qed.
Lemma sumBad_split d servers : Permutation servers (seq 0 nserv) -> d < nserv ->
  bad d + sumBad (filter (fun i => negb (i =? d)) servers) <= faulty nserv honest.
Proof.
  intros P Ld. assert (E : faulty nserv honest = sumBad servers).
  { unfold faulty, sumBad. clear Ld. induction P; cbn [filter]; auto.
    - destruct (negb (honest x)); cbn [length]; congruence.
    - destruct (negb (honest x)), (negb (honest y)); reflexivity.
    - congruence. }
  rewrite E. assert (Hd : In d servers) by (apply (Permutation_in _ (Permutation_sym P)), in_seq; lia).
  clear P E Ld. assert (M : forall l, sumBad (filter (fun i => negb (i =? d)) l) <= sumBad l).
  { induction l as [|x l IH]; [apply Nat.le_refl|]. unfold sumBad in *. cbn [filter]. destruct (x =? d); cbn [negb filter].
    - destruct (negb (honest x)); cbn [length]; lia.
    - destruct (negb (honest x)); cbn [length]; lia. }
  induction servers as [|x l IH]; [destruct Hd|]. specialize (M l). cbn [filter]. destruct (Nat.eqb_spec x d) as [->|Nx]; cbn [negb].
  - unfold sumBad, bad in *. cbn [filter]. destruct (honest d); cbn [negb length]; lia.
  - destruct Hd as [Hd|Hd]; [congruence|]. specialize (IH Hd). unfold sumBad in *. cbn [filter]. destruct (negb (honest x)); cbn [length]; lia.
Qed.

Lemma readBlock_cnt R s n r m a0 s1 : (R = ROutOfRange \/ R = RNotFound) -> Inv s n -> ~ HonestSaid R -> readBlock H honest U ch s emptyR = Ok (r, m, a0, s1) ->
  cnt R (countErr s r a0) <= bad (s_dci s).
Proof.
  intros HR I0 Nh E. pose proof (w_dci _ _ _ _ _ (iv_w _ _ _ _ _ _ I0)) as Li.
  pose proof E as E'. apply readBlock_ok with (nserv := nserv) (n := n) in E'; auto. destruct E' as (_ & _ & _ & _ & _ & _ & Z1 & Z2 & _).
  assert (Z : cnt R a0 = 0) by (unfold cnt; destruct R; auto).
  destruct (cnt_countErr R s r a0) as [C1 C2]. unfold bad. destruct (honest (s_dci s)) eqn:Hh; [|lia].
  rewrite C2, Z; [lia|]. intros ->. unfold readBlock in E. destruct (s_data s (s_dci s)) as [p|] eqn:Ep.
  2:{ injection E as <- _ _ _. destruct HR; discriminate. }
  unfold readData in E. rewrite Ep in E. destruct (c_res (ch (s_dci s) (s_tick s))) eqn:Ec; cbn [bindO] in E.
  - destruct (if honest (s_dci s) then DUpd (U p) else _) as [|u]; [discriminate|]. destruct (_ <? _)%N in E.
    + injection E as <- _ _ _. destruct HR; discriminate.
    + destruct (hashUpdate H u); cbn [bindO] in E; try discriminate. injection E as <- _ _ _. destruct HR; discriminate.
  - injection E as <- _ _ _. destruct HR; discriminate.
  - injection E as <- _ _ _. destruct HR; discriminate.
  - injection E as <- _ _ _. apply Nh. exists (s_dci s), (s_tick s). auto.
  - injection E as <- _ _ _. apply Nh. exists (s_dci s), (s_tick s). auto.
Qed.
Lemma round_cnt R s n r m a0 s1 a s2 : (R = ROutOfRange \/ R = RNotFound) -> Inv s n -> ~ HonestSaid R ->
  readBlock H honest U ch s emptyR = Ok (r, m, a0, s1) ->
  findAgreement H nserv f honest U posOf ch s1 (countErr s r a0) = Ok (a, s2) -> cnt R a <= f.
Proof.
  intros HR I0 Nh E1 E2. pose proof (w_dci _ _ _ _ _ (iv_w _ _ _ _ _ _ I0)) as Li.
  pose proof (readBlock_cnt R s n r m a0 s1 HR I0 Nh E1) as C0.
  apply readBlock_ok with (nserv := nserv) (n := n) in E1; auto. destruct E1 as (_ & _ & Ed1 & _).
  unfold findAgreement in E2. apply agree_cnt with (R := R) (d := s_dci s) in E2; auto.
  - pose proof (sumBad_split (s_dci s) (sortedServers nserv s1) (sortedServers_perm nserv s1) Li). lia.
  - intros i Hi. apply sorted_in in Hi. exact Hi.
Qed.

Lemma round_ending s n : Inv s n -> Ending (round H nserv f honest U posOf ch ord s).
Proof.
  intros I0. unfold round. apply ending_bind; [eapply readBlock_ending; eauto|]. intros [[[r m] a0] s1] E1.
  apply ending_bind; [apply agree_ending; intros i Hi; apply sorted_in in Hi; exact Hi|]. intros [a s2] E2.
  destruct (collected H nserv f honest B e0 blk grp ch Hlen He0 HU Hf _ _ _ _ _ _ _ _ I0 E1 E2) as (W2 & SL2 & Ed2 & R2 & P2 & C2).
  destruct (r_most a <? f + 1) eqn:Em.
  - apply Nat.ltb_lt in Em. unfold noAgreement.
    destruct ((2 * f + 1 <=? serversWithHash a) && negb (hasAgreement f a)) eqn:Q1.
    + apply andb_true_iff in Q1 as [Q1 _]. apply Nat.leb_le in Q1. exfalso.
      assert (L : serversWithHash a = length (servers_of (r_map a))) by (rewrite <- (servers_count (r_map a)); reflexivity).
      assert (f + 1 <= r_most a); [|lia]. eapply honest_agree; eauto. lia.
    + destruct (negb (s_ok s2) && (f + 1 <=? r_oor a)) eqn:Q2.
      * apply andb_true_iff in Q2 as [_ Q2]. apply Nat.leb_le in Q2. intros Nh.
        assert (cnt ROutOfRange a <= f) by (eapply round_cnt; eauto). cbn [cnt] in *. lia.
      * destruct (f + 1 <=? r_pruned a) eqn:Q3; [|exact I]. apply Nat.leb_le in Q3. intros Nh.
        assert (cnt RNotFound a <= f) by (eapply round_cnt; eauto). cbn [cnt] in *. lia.
  - apply Nat.ltb_ge in Em. destruct (ri_best _ _ _ _ _ _ _ _ _ R2) as (b & Eb & _); [lia|]. rewrite Eb.
    destruct (if existsb (Nat.eqb (s_dci s2)) (membersOf (r_map a) b) then m else DNone); [|exact I].
    apply ending_bind; [|intros [[u|] s3] _; exact I]. apply rotate_ending with (n := n); auto.
    intros i Hi. apply (Permutation_in _ (Hord _)) in Hi. apply (ri_lt _ _ _ _ _ _ _ _ _ R2).
    destruct (membersOf_in (r_map a) b) as [E0|Hin]; [rewrite E0 in Hi; destruct Hi|]. apply in_servers. eauto.
Qed.
Lemma rounds_ending k : forall s n us o, Faithful H nserv honest B e0 blk grp ch -> Inv s n ->
  rounds H nserv f honest U posOf ch ord k s = (us, o) -> Ending o.
Proof.
  induction k as [|k IH]; intros s n us o Fa I0 E; cbn [rounds] in E.
  { injection E as <- <-. exact I. }
  pose proof (round_ending s n I0) as Re.
  destruct (round H nserv f honest U posOf ch ord s) as [[ou s']|e|] eqn:Er.
  - destruct (rounds H nserv f honest U posOf ch ord k s') as [us' o'] eqn:Ek. injection E as <- <-.
    pose proof (round_ok H nserv f honest B e0 blk grp ch ord Hlen He0 HU Hord Hf _ _ _ _ Fa I0 Er) as R.
    destruct ou; [destruct R as (_ & R & _)|]; eapply IH; eauto.
  - injection E as <- <-. exact Re.
  - injection E as <- <-. exact Re.
Qed.

(** ---------- progress ---------- *)
Hypothesis HonOk : forall i t, i < nserv -> honest i = true -> c_res (ch i t) = RSuccess.
Hypothesis Enough : f + 1 <= length (filter honest (seq 0 nserv)).
Hypothesis NoAbort : ~ Aborts.
Hypothesis NoThrow : ~ DataThrows.

Lemma readUpdateHash_has s n i a a' s' : Al s n -> i < nserv -> honest i = true -> ~ In i (servers_of (r_map a)) ->
  s_hash s i = Some n -> readUpdateHash H honest U ch s i a = Ok (a', s') -> In i (servers_of (r_map a')).
Proof.
  intros A Li Hh Ni Es E. unfold readUpdateHash, readHash in E. rewrite Es, (HonOk i _ Li Hh), Hh in E. cbn [bindO] in E.
  unfold hashMsgOf in E. destruct (HU n) as [h Eh]. rewrite Eh in E.
  pose proof (al_latest B e0 blk grp He0 s n A) as L. apply N.ltb_ge in L. rewrite L in E.
  assert (Lh : length h = HASHLEN) by (apply hashUpdate_eq in Eh; rewrite Eh; apply Hlen).
  rewrite Lh, Nat.ltb_irrefl in E. injection E as <- <-. rewrite record_map.
  apply (Permutation_in _ (Permutation_sym (addMember_servers _ _ _ Ni))). left. reflexivity.
Qed.
Lemma agree_all n servers : forall s a a' s', agree_loop H f honest U posOf ch servers s a = Ok (a', s') ->
  Al s n -> NoDup servers -> (forall i, In i servers -> i < nserv /\ (i <> s_dci s -> ~ In i (servers_of (r_map a)))) ->
  (forall i p, In i servers -> honest i = true -> s_hash s i = Some p -> p = n) ->
  RInv n a -> Pos s n a ->
  f + 1 <= r_most a' \/
  (incl (servers_of (r_map a)) (servers_of (r_map a')) /\ forall i, In i servers -> i <> s_dci s -> honest i = true -> In i (servers_of (r_map a'))).
Proof.
  induction servers as [|i rest IH]; intros s a a' s' E A ND Lt Hp R P; cbn [agree_loop] in E.
  { injection E as <- <-. right. split; [intros x Hx; exact Hx|intros i []]. }
  inversion ND as [|? ? Ni ND']. subst. destruct (Lt i (or_introl eq_refl)) as [Li Nin].
  destruct (Nat.eqb_spec i (s_dci s)) as [Ed|Nd].
  { destruct (IH s a a' s' E A ND') as [X|[X1 X2]]; auto.
    - intros j Hj. apply Lt. right. exact Hj.
    - intros j p Hj. apply Hp. right. exact Hj.
    - right. split; auto. intros j [<-|Hj] Nj; [congruence|auto]. }
  specialize (Nin Nd).
  assert (Rd : forall s1, Frame s s1 -> (forall j, j <> i -> s_hash s1 j = s_hash s j) ->
     (forall p, honest i = true -> s_hash s1 i = Some p -> p = n) -> (honest i = true -> s_hash s1 i = Some n) ->
     bindO (readUpdateHash H honest U ch s1 i a) (fun '(a', s') => if f + 1 <=? r_most a' then Ok (a', s') else agree_loop H f honest U posOf ch rest s' a') = Ok (a', s') ->
     f + 1 <= r_most a' \/
     (incl (servers_of (r_map a)) (servers_of (r_map a')) /\ forall j, In j (i :: rest) -> j <> s_dci s -> honest j = true -> In j (servers_of (r_map a')))).
  { intros s1 (SL & Ed1 & Eda) Q1 Hp1 Hs1 E1.
    destruct (readUpdateHash H honest U ch s1 i a) as [[a1 s2]|e|] eqn:E2; cbn [bindO] in E1; try discriminate.
    assert (A1 : Al s1 n) by (eapply al_same; eauto).
    assert (Has : honest i = true -> In i (servers_of (r_map a1))) by (intros Hh; eapply readUpdateHash_has; eauto).
    apply readUpdateHash_ok with (nserv := nserv) (n := n) in E2; auto.
    - destruct E2 as ((SL2 & Ed2 & Eda2) & R1 & P1 & Q2 & M1).
      destruct (f + 1 <=? r_most a1) eqn:Ef; [injection E1 as <- <-; left; apply Nat.leb_le; exact Ef|].
      assert (Inc : incl (servers_of (r_map a)) (servers_of (r_map a1))).
      { destruct M1 as [->|(r0 & ->)]; [intros x Hx; exact Hx|]. intros x Hx.
        apply (Permutation_in _ (Permutation_sym (addMember_servers _ _ _ Nin))). right. exact Hx. }
      destruct (IH s2 a1 a' s' E1) as [X|[X1 X2]]; auto.
      + eapply al_same; eauto.
      + intros j Hj. split; [apply Lt; right; exact Hj|]. rewrite Ed2, Ed1. intros Nj. destruct (Lt j (or_intror Hj)) as [_ N0]. specialize (N0 Nj).
        destruct M1 as [->|(r0 & ->)]; auto. intros Hx. apply (Permutation_in _ (addMember_servers _ _ _ Nin)) in Hx as [<-|Hx]; contradiction.
      + intros j p Hj Hh Q. assert (Nj : j <> i) by (intros ->; contradiction). rewrite Q2, Q1 in Q by auto. apply (Hp j p); auto. right. exact Hj.
      + right. split; [intros x Hx; auto|]. rewrite Ed2, Ed1 in X2. intros j [<-|Hj] Nj Hh; auto.
    - congruence.
    - intros j Hj Hh. rewrite Ed1, Eda. specialize (P j Hj Hh). destruct (j =? s_dci s); auto. rewrite Q1; auto. intros ->. contradiction. }
  destruct (s_hash s i) as [p|] eqn:Es.
  - apply (Rd s); auto; [repeat split| |].
    + intros q Hh Q. apply (Hp i q); auto. left. reflexivity.
    + intros Hh. rewrite Es. f_equal. apply (Hp i p); auto. left. reflexivity.
  - destruct (openHash posOf ch s i) as [r s1] eqn:Eo. pose proof Eo as Eo'. apply openHash_frame in Eo as (F1 & Q1 & Er).
    assert (Pn : posOf (requestOf s) = n) by (eapply al_pos; eauto). rewrite Pn in Er.
    assert (Hr : honest i = true -> r = RSuccess).
    { intros Hh. unfold openHash in Eo'. injection Eo' as <- _. rewrite (HonOk i _ Li Hh). reflexivity. }
    assert (Go : r <> RSuccess -> agree_loop H f honest U posOf ch rest s1 a = Ok (a', s') ->
      f + 1 <= r_most a' \/
      (incl (servers_of (r_map a)) (servers_of (r_map a')) /\ forall j, In j (i :: rest) -> j <> s_dci s -> honest j = true -> In j (servers_of (r_map a')))).
    { intros Nr E1. destruct F1 as (SL & Ed1 & Eda). destruct (IH s1 a a' s' E1) as [X|[X1 X2]]; auto.
      - eapply al_same; eauto.
      - intros j Hj. split; [apply Lt; right; exact Hj|]. rewrite Ed1. intros Nj. apply Lt; auto. right. exact Hj.
      - intros j p Hj Hh Q. assert (Nj : j <> i) by (intros ->; contradiction). rewrite Q1 in Q by auto. apply (Hp j p); auto. right. exact Hj.
      - intros j Hj Hh. rewrite Ed1, Eda. specialize (P j Hj Hh). destruct (j =? s_dci s); auto. rewrite Q1; auto. intros ->. contradiction.
      - right. split; auto. rewrite Ed1 in X2. intros j [<-|Hj] Nj Hh; auto. specialize (Hr Hh). contradiction. }
    destruct r; try contradiction.
    + apply (Rd s1); auto. intros q _ Q. congruence.
    + apply Go; [discriminate|exact E].
    + apply Go; [discriminate|exact E].
Qed.
Lemma rotate_finds n : forall servers s s', W s n -> (forall i, In i servers -> i < nserv) -> (exists i, In i servers /\ honest i = true) ->
  rotate H honest U posOf ch servers (recU n) s <> Ok (None, s').
Proof.
  induction servers as [|i rest IH]; intros s s' Ws Lt [i0 [Hi0 Hh0]]; [destruct Hi0|]. cbn [rotate].
  assert (Lr : forall j, In j rest -> j < nserv) by (intros j Hj; apply Lt; right; exact Hj).
  assert (Li : i < nserv) by (apply Lt; left; reflexivity).
  destruct (resetDataStreamTo posOf ch s i) as [ro s1] eqn:Er.
  apply reset_ok with (nserv := nserv) (n := n) in Er; auto. destruct Er as (W1 & _ & Ed1 & Edt & _ & _ & Ero).
  assert (Wset : forall q, W (tickS (setData s1 i q)) n).
  { intros q. destruct W1 as [V1 V2 V3 V4]. constructor; [exact V1|exact V2| |exact V4]. cbn. intros j p. rewrite Ed1.
    destruct (Nat.eqb_spec j i); auto. intros Q. rewrite <- Ed1. eapply V3. exact Q. }
  assert (Wt : W (tickS s1) n) by (destruct W1; constructor; assumption).
  destruct (honest i) eqn:Hh.
  - rewrite (HonOk i _ Li Hh) in Ero. cbn [openRes] in Ero. subst ro. unfold readData. rewrite Edt, (HonOk i _ Li Hh), Hh. cbn [bindO].
    unfold Trc_Proofs2.recU. cbn [h_id h_hash]. rewrite N.eqb_refl. cbn [negb]. rewrite (hU_ok H B e0 blk grp HU n). cbn [bindO].
    assert (Q : bytes_eqb (hU H B e0 blk grp n) (hU H B e0 blk grp n) = true) by (apply bytes_eqb_ok; reflexivity). rewrite Q. discriminate.
  - assert (Ex : exists i, In i rest /\ honest i = true).
    { destruct Hi0 as [<-|Hi0]; [congruence|]. eauto. }
    destruct ro; try (apply IH; assumption). unfold readData. rewrite Edt, Hh.
    destruct (c_res (ch i (s_tick s1))); cbn [bindO]; try (apply IH; auto; fail).
    destruct (c_data (ch i (s_tick s1))) as [|u]; [discriminate|]. destruct (negb _); [apply IH; auto|].
    destruct (hashUpdate H u); cbn [bindO]; try discriminate. destruct (bytes_eqb _ _); [discriminate|]. apply IH; auto.
Qed.
Lemma round_progress s n : Inv s n -> (honest (s_dci s) = true -> s_data s (s_dci s) <> None) -> exists u s', round H nserv f honest U posOf ch ord s = Ok (Some u, s').
Proof.
  intros I0 Op. pose proof (round_ending s n I0) as Re.
  destruct (round H nserv f honest U posOf ch ord s) as [[ou s']|e|] eqn:Er.
  2:{ exfalso. destruct e; cbn [Ending] in Re.
      - exact Re.
      - apply Re. intros (i & t & Li & Hh & Ec). rewrite (HonOk i t Li Hh) in Ec. discriminate.
      - apply Re. intros (i & t & Li & Hh & Ec). rewrite (HonOk i t Li Hh) in Ec. discriminate.
      - exact (NoThrow Re). }
  2:{ exfalso. exact (NoAbort Re). }
  destruct ou as [u|]; [eauto|exfalso]. unfold round in Er.
  destruct (readBlock H honest U ch s emptyR) as [[[[r m] a0] s1]|e|] eqn:E1; cbn [bindO] in Er; try discriminate.
  destruct (findAgreement H nserv f honest U posOf ch s1 (countErr s r a0)) as [[a s2]|e|] eqn:E2; cbn [bindO] in Er; try discriminate.
  destruct (collected H nserv f honest B e0 blk grp ch Hlen He0 HU Hf _ _ _ _ _ _ _ _ I0 E1 E2) as (W2 & SL2 & Ed2 & R2 & P2 & C2).
  assert (Most : f + 1 <= r_most a).
  { pose proof E1 as E1'. apply readBlock_ok with (nserv := nserv) (n := n) in E1'; auto.
    destruct E1' as (W1 & SL1 & Ed1 & Eh1 & R0 & P0 & _ & _ & M0). unfold findAgreement in E2.
    apply agree_all with (n := n) in E2; auto.
    - destruct E2 as [X|[X1 X2]]; auto.
      assert (G : length (filter (fun i => honest i && negb (i =? s_dci s)) (seq 0 nserv)) + (if honest (s_dci s) then 1 else 0) >= f + 1).
      { clear - Enough. revert Enough. generalize (seq_NoDup nserv 0). generalize (seq 0 nserv). intros l ND.
        assert (Q : length (filter honest l) <= length (filter (fun i => honest i && negb (i =? s_dci s)) l) + (if honest (s_dci s) then 1 else 0)); [|lia].
        induction l as [|x l IH]; cbn [filter]; [cbn; lia|]. inversion ND as [|? ? N1 N2]. subst. specialize (IH N2).
        destruct (Nat.eqb_spec x (s_dci s)) as [->|Nx]; cbn [negb].
        - rewrite andb_false_r. assert (Z : filter (fun i => honest i && negb (i =? s_dci s)) l = filter honest l).
          { clear - N1. induction l as [|y l IH]; cbn [filter]; auto. destruct (Nat.eqb_spec y (s_dci s)) as [->|Ny]; [exfalso; apply N1; left; reflexivity|].
            cbn [negb]. rewrite andb_true_r, IH; [reflexivity|]. intros Q. apply N1. right. exact Q. }
          rewrite Z. destruct (honest (s_dci s)); cbn [length]; lia.
        - rewrite andb_true_r. destruct (honest x); cbn [length]; lia. }
      set (L := filter (fun i => honest i && negb (i =? s_dci s)) (seq 0 nserv)) in *.
      assert (HL : forall i, In i L -> i < nserv /\ honest i = true /\ i <> s_dci s).
      { intros i Hi. apply filter_In in Hi as [Hi Q]. apply in_seq in Hi. apply andb_true_iff in Q as [Q1 Q2].
        apply negb_true_iff, Nat.eqb_neq in Q2. repeat split; auto. lia. }
      assert (NL : NoDup L) by (apply NoDup_filter, seq_NoDup).
      assert (Hon : exists L', NoDup L' /\ f + 1 <= length L' /\ forall i, In i L' -> honest i = true /\ In i (servers_of (r_map a))).
      { destruct (honest (s_dci s)) eqn:Hd.
        - exists (s_dci s :: L). split; [constructor; auto; intros Hi; apply HL in Hi; tauto|]. split; [cbn; lia|].
          intros i [<-|Hi].
          + split; auto. apply X1. rewrite countErr_map. destruct M0 as [M0|(u & h & _ & _ & -> & _)].
            * exfalso. pose proof (w_dci _ _ _ _ _ (iv_w _ _ _ _ _ _ I0)) as Li. specialize (Op eq_refl).
              unfold readBlock, readData in E1. destruct (s_data s (s_dci s)) as [p|] eqn:Ep; [|congruence].
              assert (p = n) by (eapply (iv_data _ _ _ _ _ _ I0); eauto). subst p.
              rewrite (HonOk _ _ Li Hd), Hd in E1. cbn [bindO] in E1.
              pose proof (al_latest B e0 blk grp He0 s n (w_al _ _ _ _ _ (iv_w _ _ _ _ _ _ I0))) as La. apply N.ltb_ge in La. rewrite La in E1.
              rewrite (hU_ok H B e0 blk grp HU n) in E1. cbn [bindO] in E1. injection E1 as <- <- <- <-. rewrite record_map in M0. discriminate.
            * left. reflexivity.
          + apply HL in Hi as (Li & Hh & Nd). split; auto. apply X2; auto; [apply sorted_in; exact Li|congruence].
        - exists L. split; auto. split; [lia|]. intros i Hi. apply HL in Hi as (Li & Hh & Nd). split; auto. apply X2; auto; [apply sorted_in; exact Li|congruence]. }
      destruct Hon as (L' & NL' & LL & HL').
      assert (G' : length L' <= length (membersOf (r_map a) (recU n))).
      { apply NoDup_incl_length; auto. intros i Hi. apply HL' in Hi as [Hh Hi]. apply in_servers in Hi as (rc & l & Hin & Hi).
        assert (rc = recU n) by (eapply (ri_hon _ _ _ _ _ _ _ _ _ R2); eauto). subst rc.
        rewrite (membersOf_entry _ _ _ (ri_keys _ _ _ _ _ _ _ _ _ R2) Hin). exact Hi. }
      destruct (membersOf_in (r_map a) (recU n)) as [Z0|Hin]; [rewrite Z0 in G'; cbn in G'; lia|].
      apply (ri_le _ _ _ _ _ _ _ _ _ R2) in Hin. lia.
    - apply W1.
    - apply sorted_nodup.
    - intros i Hi. split; [apply sorted_in in Hi; exact Hi|]. intros Ni. rewrite countErr_map.
      destruct M0 as [->|(u & h & _ & _ & -> & _)]; [intros []|]. unfold servers_of. cbn. intros [<-|[]]. congruence.
    - intros i p _ Hh Q. rewrite Eh1 in Q. eapply iv_hash; eauto.
    - apply rinv_count. exact R0.
    - intros i Hi. rewrite countErr_map in Hi. apply P0. exact Hi. }
  pose proof Most as Em. apply Nat.ltb_ge in Em. rewrite Em in Er.
  destruct (ri_best _ _ _ _ _ _ _ _ _ R2) as (b & Eb & Lb); [lia|]. rewrite Eb in Er.
  assert (Hb : b = recU n) by (eapply agreed_is_history; eauto). subst b.
  destruct (if existsb (Nat.eqb (s_dci s2)) (membersOf (r_map a) (recU n)) then m else DNone); [|discriminate].
  destruct (rotate H honest U posOf ch (ord (membersOf (r_map a) (recU n))) (recU n) s2) as [[ou3 s3]|e|] eqn:E3; cbn [bindO] in Er; try discriminate.
  destruct ou3 as [u|]; [discriminate|].
  destruct (membersOf_in (r_map a) (recU n)) as [Z0|Hin]; [rewrite Z0 in Lb; cbn in Lb; lia|].
  revert E3. apply rotate_finds; auto.
  - intros i Hi. apply (Permutation_in _ (Hord _)) in Hi. apply (ri_lt _ _ _ _ _ _ _ _ _ R2). apply in_servers. eauto.
  - destruct (honest_in nserv f honest e0 He0 Hf (membersOf (r_map a) (recU n))) as (i & Hi & Hh).
    + eapply nodup_concat_member; eauto. apply R2.
    + intros i Hi. apply (ri_lt _ _ _ _ _ _ _ _ _ R2). apply in_servers. eauto.
    + lia.
    + exists i. split; auto. apply (Permutation_in _ (Permutation_sym (Hord _))). exact Hi.
Qed.
Lemma rounds_progress k : forall s n, Faithful H nserv honest B e0 blk grp ch -> Inv s n -> (honest (s_dci s) = true -> s_data s (s_dci s) <> None) ->
  exists us s', rounds H nserv f honest U posOf ch ord k s = (us, Ok s') /\ length us = k.
Proof.
  induction k as [|k IH]; intros s n Fa I0 Op; cbn [rounds]; [exists [], s; auto|].
  destruct (round_progress s n I0 Op) as (u & s1 & Er). rewrite Er.
  pose proof (round_ok H nserv f honest B e0 blk grp ch ord Hlen He0 HU Hord Hf _ _ _ _ Fa I0 Er) as (_ & I1 & D1).
  destruct (IH s1 (S n) Fa I1) as (us & s' & Ek & El); [intros Hh; rewrite (D1 Hh); discriminate|].
  rewrite Ek. exists (u :: us), s'. cbn. auto.
Qed.
End S.
