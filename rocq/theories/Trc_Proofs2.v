(** The subscription loop. *)
From Coq Require Import List Arith NArith Lia Bool Permutation.
From Verif Require Import Lib_Bytes Trc_Model Trc_Proofs.
Import ListNotations.

Lemma bytes_eqb_ok a b : bytes_eqb a b = true <-> a = b.
Proof.
  revert b. induction a as [|x a IH]; destruct b as [|y b]; cbn; split; try discriminate; auto.
  - rewrite andb_true_iff, N.eqb_eq, IH. intros [-> ->]. reflexivity.
  - intros E. injection E as -> ->. rewrite N.eqb_refl. cbn. apply IH. reflexivity.
Qed.
Lemma hrec_eqb_ok a b : hrec_eqb a b = true <-> a = b.
Proof.
  destruct a as [k i h], b as [k' i' h']. unfold hrec_eqb. cbn [h_kind h_id h_hash].
  rewrite !andb_true_iff, N.eqb_eq, bytes_eqb_ok. split.
  - intros [[K ->] ->]. destruct k, k'; try discriminate; reflexivity.
  - intros E. injection E as -> -> ->. destruct k'; auto.
Qed.
Lemma hrec_eqb_refl a : hrec_eqb a a = true.
Proof. apply hrec_eqb_ok. reflexivity. Qed.
Lemma hrec_eqb_neq a b : hrec_eqb a b = false <-> a <> b.
Proof.
  destruct (hrec_eqb a b) eqn:E.
  - apply hrec_eqb_ok in E. split; [discriminate|]. contradiction.
  - split; auto. intros _ Q. apply hrec_eqb_ok in Q. congruence.
Qed.
Lemma existsb_nat i l : existsb (Nat.eqb i) l = true <-> In i l.
Proof.
  rewrite existsb_exists. split.
  - intros (x & Hx & E). apply Nat.eqb_eq in E. congruence.
  - intros Hi. exists i. split; auto. apply Nat.eqb_refl.
Qed.

(** ---------- the map of records ---------- *)
Notation rmap := (list (hrec * list nat)).
Definition servers_of (m : rmap) : list nat := concat (map snd m).
Lemma in_servers m i : In i (servers_of m) <-> exists r l, In (r, l) m /\ In i l.
Proof.
  unfold servers_of. rewrite in_concat. split.
  - intros (l & Hl & Hi). apply in_map_iff in Hl as ([r l'] & E & Hin). cbn in E. subst l'. eauto.
  - intros (r & l & Hin & Hi). exists l. split; auto. apply in_map_iff. exists (r, l). auto.
Qed.
Lemma membersOf_in (m : rmap) r : membersOf m r = [] \/ In (r, membersOf m r) m.
Proof.
  induction m as [|[r' l] m IH]; cbn [membersOf]; auto. destruct (hrec_eqb r r') eqn:E.
  - apply hrec_eqb_ok in E. subst r'. right. left. reflexivity.
  - destruct IH as [E0|Hin]; [left|right; right]; auto.
Qed.
Lemma membersOf_entry (m : rmap) r l : NoDup (map fst m) -> In (r, l) m -> membersOf m r = l.
Proof.
  induction m as [|[r' l'] m IH]; intros ND Hin; [destruct Hin|]. cbn in ND. inversion ND as [|? ? N1 N2]. subst.
  cbn [membersOf]. destruct Hin as [E|Hin].
  - injection E as -> ->. rewrite hrec_eqb_refl. reflexivity.
  - assert (D : hrec_eqb r r' = false).
    { apply hrec_eqb_neq. intros ->. apply N1. apply in_map_iff. exists (r', l). auto. }
    rewrite D. auto.
Qed.
Lemma addMember_fst (m : rmap) r i : map fst (addMember m r i) = if existsb (hrec_eqb r) (map fst m) then map fst m else map fst m ++ [r].
Proof.
  induction m as [|[r' l] m IH]; [reflexivity|]. cbn [addMember map fst existsb]. destruct (hrec_eqb r r') eqn:E.
  - cbn [orb map fst]. reflexivity.
  - cbn [orb map fst]. rewrite IH. destruct (existsb (hrec_eqb r) (map fst m)); reflexivity.
Qed.
Lemma addMember_keys (m : rmap) r i : NoDup (map fst m) -> NoDup (map fst (addMember m r i)).
Proof.
  intros ND. rewrite addMember_fst. destruct (existsb (hrec_eqb r) (map fst m)) eqn:E; auto.
  apply (Permutation_NoDup (l := r :: map fst m)); [apply Permutation_cons_append|]. constructor; auto.
  intros Hin. assert (existsb (hrec_eqb r) (map fst m) = true); [|congruence].
  apply existsb_exists. exists r. split; auto. apply hrec_eqb_refl.
Qed.
Lemma addMember_servers (m : rmap) r i : ~ In i (servers_of m) -> Permutation (servers_of (addMember m r i)) (i :: servers_of m).
Proof.
  induction m as [|[r' l] m IH]; intros Ni; [apply Permutation_refl|]. unfold servers_of in *. cbn [addMember].
  cbn [map snd concat] in Ni. rewrite in_app_iff in Ni. destruct (hrec_eqb r r') eqn:E; cbn [map snd concat].
  - destruct (existsb (Nat.eqb i) l) eqn:Ex; [apply existsb_nat in Ex; tauto|].
    rewrite <- app_assoc. cbn [app]. rewrite <- Permutation_middle. auto.
  - rewrite IH by tauto. rewrite <- Permutation_middle. auto.
Qed.
Lemma addMember_entry (m : rmap) r i r' l' : NoDup (map fst m) -> In (r', l') (addMember m r i) ->
  (r' = r /\ l' = (if existsb (Nat.eqb i) (membersOf m r) then membersOf m r else membersOf m r ++ [i])) \/ (r' <> r /\ In (r', l') m).
Proof.
  induction m as [|[r0 l0] m IH]; intros ND Hin; cbn [addMember membersOf] in *.
  - destruct Hin as [E|[]]. injection E as <- <-. left. auto.
  - cbn in ND. inversion ND as [|? ? N1 N2]. subst. destruct (hrec_eqb r r0) eqn:E.
    + apply hrec_eqb_ok in E. subst r0. destruct Hin as [E|Hin].
      * injection E as <- <-. left. auto.
      * right. split; [|right; exact Hin]. intros ->. apply N1. apply in_map_iff. exists (r, l'). auto.
    + destruct Hin as [Q|Hin].
      * injection Q as -> ->. right. split; [apply hrec_eqb_neq in E; congruence|left; reflexivity].
      * destruct (IH N2 Hin) as [[A B]|[A B]]; [left; auto|right; split; auto; right; exact B].
Qed.
Lemma addMember_members (m : rmap) r i r' :
  membersOf (addMember m r i) r' =
  if hrec_eqb r' r then (if existsb (Nat.eqb i) (membersOf m r) then membersOf m r else membersOf m r ++ [i]) else membersOf m r'.
Proof.
  induction m as [|[r0 l0] m IH]; cbn [addMember membersOf].
  - destruct (hrec_eqb r' r) eqn:E; reflexivity.
  - destruct (hrec_eqb r r0) eqn:E; cbn [membersOf].
    + apply hrec_eqb_ok in E. subst r0. destruct (hrec_eqb r' r); reflexivity.
    + destruct (hrec_eqb r' r0) eqn:E2; [|exact IH].
      apply hrec_eqb_ok in E2. subst r0. destruct (hrec_eqb r' r) eqn:E3; [|reflexivity].
      apply hrec_eqb_ok in E3. subst r'. rewrite hrec_eqb_refl in E. discriminate.
Qed.

Section S.
Variable H : bytes -> bytes.
Variables nserv f : nat.
Variable honest : nat -> bool.
Variables (B : nat) (e0 : N) (blk : nat -> bytes * list (bytes * bytes)) (grp : nat -> bytes * list bytes).
Variable ch : nat -> nat -> choice.
Variable ord : list nat -> list nat.
Hypothesis Hlen : forall x, length (H x) = HASHLEN.
Hypothesis He0 : (1 <= e0)%N.
Notation U := (history B e0 blk grp).
Notation posOf := (historyPos B e0).
Hypothesis HU : forall n, exists h, hashUpdate H (U n) = Ok h.
Hypothesis Hord : forall l, Permutation (ord l) l.
Definition faulty : nat := length (filter (fun i => negb (honest i)) (seq 0 nserv)).
Hypothesis Hf : faulty <= f.

Definition hU (n : nat) : bytes := match hashUpdate H (U n) with Ok h => h | _ => [] end.
Definition recU (n : nat) : hrec := mkH (kindOf (U n)) (idOf (U n)) (hU n).
Lemma hU_ok n : hashUpdate H (U n) = Ok (hU n).
Proof. unfold hU. destruct (HU n) as [h E]. rewrite E. reflexivity. Qed.
Lemma hU_len n : length (hU n) = HASHLEN.
Proof. pose proof (hU_ok n) as E. apply hashUpdate_eq in E. rewrite E. apply Hlen. Qed.
Lemma pad_hU n : pad (hU n) = hU n.
Proof. unfold pad. rewrite hU_len, Nat.sub_diag. apply app_nil_r. Qed.

(** The state is aligned with the history: n updates were verified. *)
Definition Al (s : st) (n : nat) : Prop :=
  (s_eg s = false /\ n <= B /\ s_lb s = N.of_nat n /\ s_lg s = 0%N) \/
  (s_eg s = true /\ B <= n /\ (s_lg s + 1 = e0 + N.of_nat (n - B))%N).
Lemma al_pos s n : Al s n -> posOf (requestOf s) = n.
Proof using He0.
  clear Hf.
  unfold requestOf. intros [(E & L & E1 & E2)|(E & L & E1)]; rewrite E; cbn [historyPos]; lia.
Qed.
Lemma al_latest s n : Al s n -> (latestOf s (kindOf (U n)) <= idOf (U n))%N.
Proof.
  clear Hf.
  unfold history. intros [(E & L & E1 & E2)|(E & L & E1)].
  - destruct (n <? B) eqn:Q; cbn [kindOf idOf latestOf]; [lia|]. rewrite E2. lia.
  - assert (Q : (n <? B) = false) by (apply Nat.ltb_ge; exact L). rewrite Q. cbn [kindOf idOf latestOf]. lia.
Qed.
Definition sameLatest (s s' : st) : Prop := s_lb s' = s_lb s /\ s_lg s' = s_lg s /\ s_eg s' = s_eg s /\ s_ok s' = s_ok s.
Lemma al_same s s' n : sameLatest s s' -> Al s n -> Al s' n.
Proof. intros (A & C & D & _) [X|X]; [left|right]; rewrite ?A, ?C, ?D; exact X. Qed.
Lemma requestOf_same s s' : sameLatest s s' -> requestOf s' = requestOf s.
Proof. intros (A & C & D & _). unfold requestOf. rewrite A, C, D. reflexivity. Qed.
Lemma latestOf_same s s' k : sameLatest s s' -> latestOf s' k = latestOf s k.
Proof. intros (A & C & D & _). unfold latestOf. destruct k; auto. Qed.
Lemma sameLatest_refl s : sameLatest s s.
Proof. repeat split. Qed.
Lemma sameLatest_trans a b c : sameLatest a b -> sameLatest b c -> sameLatest a c.
Proof. intros (A & C & D & E) (A' & C' & D' & E'). repeat split; congruence. Qed.

Lemma al_deliver s n u mem : Al s n -> SameUpdate u (U n) -> Al (snd (deliver nserv s u mem)) (S n).
Proof.
  clear Hf.
  intros A Su. unfold deliver. cbn [snd]. unfold history in Su. destruct (n <? B) eqn:Q.
  - apply Nat.ltb_lt in Q. destruct u as [b c kvs|]; cbn [SameUpdate] in Su; [|contradiction]. destruct Su as [-> _].
    destruct A as [(E & L & E1 & E2)|(E & L & E1)]; [|lia]. left. cbn [s_eg s_lb s_lg]. repeat split; auto; lia.
  - apply Nat.ltb_ge in Q. destruct u as [|g t evs]; cbn [SameUpdate] in Su; [contradiction|]. destruct Su as [-> _].
    right. cbn [s_eg s_lb s_lg]. repeat split; auto; lia.
Qed.

(** ---------- records of one iteration ---------- *)
Record RInv (n : nat) (a : racc) : Prop := {
  ri_keys : NoDup (map fst (r_map a));
  ri_nodup : NoDup (servers_of (r_map a));
  ri_lt : forall i, In i (servers_of (r_map a)) -> i < nserv;
  ri_hon : forall r l i, In (r, l) (r_map a) -> In i l -> honest i = true -> r = recU n;
  ri_le : forall r l, In (r, l) (r_map a) -> length l <= r_most a;
  ri_best : 0 < r_most a -> exists b, r_best a = Some b /\ length (membersOf (r_map a) b) = r_most a }.
Lemma rinv_empty n : RInv n emptyR.
Proof.
  clear Hf Hlen HU Hord He0 ch ord. constructor; cbn; try constructor; try lia; intros; contradiction.
Qed.
Lemma rinv_count n s r a : RInv n a -> RInv n (countErr s r a).
Proof. intros []. unfold countErr. destruct r; try (constructor; assumption). destruct (s_ok s); constructor; assumption. Qed.
Lemma countErr_map s r a : r_map (countErr s r a) = r_map a.
Proof. unfold countErr. destruct r; auto. destruct (s_ok s); reflexivity. Qed.
Lemma countErr_most s r a : r_most (countErr s r a) = r_most a.
Proof. unfold countErr. destruct r; auto. destruct (s_ok s); reflexivity. Qed.
Lemma record_map i r a : r_map (record i r a) = addMember (r_map a) r i.
Proof. unfold record. destruct (_ <? _); reflexivity. Qed.
Lemma rinv_record n i r a : RInv n a -> ~ In i (servers_of (r_map a)) -> i < nserv -> (honest i = true -> r = recU n) ->
  RInv n (record i r a).
Proof.
  clear Hf.
  intros R Ni Li Hh. destruct R as [K N L Ho Le Be].
  assert (P := addMember_servers (r_map a) r i Ni).
  assert (Nm : existsb (Nat.eqb i) (membersOf (r_map a) r) = false).
  { destruct (existsb _ _) eqn:E; auto. apply existsb_nat in E. exfalso. apply Ni. apply in_servers.
    destruct (membersOf_in (r_map a) r) as [E0|Hin]; [rewrite E0 in E; destruct E|]. eauto. }
  assert (Em : membersOf (addMember (r_map a) r i) r = membersOf (r_map a) r ++ [i]).
  { rewrite addMember_members, hrec_eqb_refl, Nm. reflexivity. }
  constructor.
  - rewrite record_map. apply addMember_keys. exact K.
  - rewrite record_map. apply (Permutation_NoDup (Permutation_sym P)). constructor; auto.
  - rewrite record_map. intros j Hj. apply (Permutation_in _ P) in Hj as [<-|Hj]; auto.
  - rewrite record_map. intros r' l j Hin Hj Hon. apply addMember_entry in Hin as [[-> ->]|[_ Hin]]; auto.
    + rewrite Nm in Hj. apply in_app_iff in Hj as [Hj|[<-|[]]]; auto.
      destruct (membersOf_in (r_map a) r) as [E0|Hin]; [rewrite E0 in Hj; destruct Hj|]. eapply Ho; eauto.
    + eapply Ho; eauto.
  - intros r' l. rewrite record_map. intros Hin. unfold record. rewrite Em.
    apply addMember_entry in Hin as [[-> ->]|[_ Hin]]; auto.
    + rewrite Nm. destruct (r_most a <? _) eqn:E; cbn [r_most]; [apply Nat.le_refl|]. apply Nat.ltb_ge in E. exact E.
    + specialize (Le _ _ Hin). destruct (r_most a <? _) eqn:E; cbn [r_most]; [|exact Le]. apply Nat.ltb_lt in E. lia.
  - unfold record. rewrite Em. destruct (r_most a <? _) eqn:E; cbn [r_most r_best r_map].
    + intros _. exists r. split; auto. rewrite Em. reflexivity.
    + apply Nat.ltb_ge in E. intros Hp. destruct (Be Hp) as (b & Eb & Elb). exists b. split; auto.
      rewrite addMember_members. destruct (hrec_eqb b r) eqn:Q; auto. apply hrec_eqb_ok in Q. subst b.
      rewrite app_length in E. cbn in E. lia.
Qed.

(** f + 1 different servers include an honest one. *)
Lemma honest_in l : NoDup l -> (forall i, In i l -> i < nserv) -> f + 1 <= length l -> exists i, In i l /\ honest i = true.
Proof.
  intros ND Lt Len. destruct (existsb honest l) eqn:E.
  - apply existsb_exists in E as (i & Hi & Hh). eauto.
  - exfalso. assert (length l <= faulty); [|lia]. unfold faulty. apply NoDup_incl_length; auto.
    intros i Hi. apply filter_In. split; [apply in_seq; specialize (Lt i Hi); lia|].
    destruct (honest i) eqn:Hh; auto. assert (existsb honest l = true); [|congruence]. apply existsb_exists. eauto.
Qed.
Lemma nodup_concat_member (m : rmap) r l : NoDup (servers_of m) -> In (r, l) m -> NoDup l.
Proof.
  induction m as [|[r' l'] m IH]; intros ND Hin; [destruct Hin|]. unfold servers_of in *. cbn in ND.
  destruct Hin as [E|Hin].
  - injection E as -> ->. revert ND. generalize (concat (map snd m)). intros x ND. clear -ND. induction l; [constructor|].
    cbn in ND. inversion ND; subst. constructor; auto. intros Hin. apply H1. apply in_app_iff. auto.
  - apply IH; auto. clear -ND. induction l'; auto. inversion ND; auto.
Qed.
Lemma agreed_is_history n a b : RInv n a -> f + 1 <= r_most a -> r_best a = Some b -> b = recU n.
Proof.
  intros R M E. destruct (ri_best n a R) as (b' & E' & L); [lia|]. assert (b' = b) by congruence. subst b'.
  destruct (membersOf_in (r_map a) b) as [E0|Hin]; [rewrite E0 in L; cbn in L; lia|].
  destruct (honest_in (membersOf (r_map a) b)) as (i & Hi & Hh).
  - eapply nodup_concat_member; eauto. apply R.
  - intros i Hi. apply (ri_lt n a R). apply in_servers. eauto.
  - lia.
  - eapply (ri_hon n a R); eauto.
Qed.

(** Positions of the streams that were read. *)
Definition Pos (s : st) (n : nat) (a : racc) : Prop :=
  forall i, In i (servers_of (r_map a)) -> honest i = true -> if i =? s_dci s then s_data s i = Some (S n) else s_hash s i = Some (S n).
Definition Frame (s s' : st) : Prop := sameLatest s s' /\ s_dci s' = s_dci s /\ s_data s' = s_data s.

Lemma openHash_frame s i r s' : openHash posOf ch s i = (r, s') ->
  Frame s s' /\ (forall j, j <> i -> s_hash s' j = s_hash s j) /\
  (match r with RSuccess => s_hash s' i = Some (posOf (requestOf s)) | RTimeout | RFailure => s_hash s' i = None | _ => False end).
Proof.
  unfold openHash. intros E. injection E as Er Es. subst r s'. split; [repeat split|]. split.
  - intros j Hj. cbn. apply Nat.eqb_neq in Hj. rewrite Hj. reflexivity.
  - cbn. rewrite Nat.eqb_refl. destruct (c_res _); cbn; reflexivity.
Qed.

Lemma readUpdateHash_ok s i a n a' s' : readUpdateHash H honest U ch s i a = Ok (a', s') ->
  Al s n -> i < nserv -> i <> s_dci s -> ~ In i (servers_of (r_map a)) -> (forall p, honest i = true -> s_hash s i = Some p -> p = n) ->
  RInv n a -> Pos s n a ->
  Frame s s' /\ RInv n a' /\ Pos s' n a' /\ (forall j, j <> i -> s_hash s' j = s_hash s j) /\
  (r_map a' = r_map a \/ exists r, r_map a' = addMember (r_map a) r i).
Proof.
  intros E A Li Nd Ni Hp R P. unfold readUpdateHash, readHash in E.
  destruct (s_hash s i) as [p|] eqn:Ep; [|discriminate].
  assert (Keep : forall a1 q, r_map a1 = r_map a -> RInv n a1 -> Frame s (tickS (setHash s i q)) /\ RInv n a1 /\ Pos (tickS (setHash s i q)) n a1 /\
     (forall j, j <> i -> s_hash (tickS (setHash s i q)) j = s_hash s j) /\ (r_map a1 = r_map a \/ exists r, r_map a1 = addMember (r_map a) r i)).
  { intros a1 q Em R1. split; [repeat split|]. split; auto. split; [|split; [|left; exact Em]].
    - intros j Hj Hh. rewrite Em in Hj. assert (j <> i) by (intros ->; contradiction). specialize (P j Hj Hh).
      cbn. destruct (Nat.eqb_spec j (s_dci s)); auto. apply Nat.eqb_neq in H0. rewrite H0. exact P.
    - intros j Hj. cbn. apply Nat.eqb_neq in Hj. rewrite Hj. reflexivity. }
  assert (Keep0 : forall a1, r_map a1 = r_map a -> RInv n a1 -> Frame s (tickS s) /\ RInv n a1 /\ Pos (tickS s) n a1 /\
     (forall j, j <> i -> s_hash (tickS s) j = s_hash s j) /\ (r_map a1 = r_map a \/ exists r, r_map a1 = addMember (r_map a) r i)).
  { intros a1 Em R1. split; [repeat split|]. split; auto. split; [|split; [|left; exact Em]].
    - intros j Hj Hh. rewrite Em in Hj. specialize (P j Hj Hh). exact P.
    - intros j Hj. reflexivity. }
  destruct (c_res (ch i (s_tick s))) eqn:Ec; cbn [bindO] in E.
  - destruct (if honest i then hashMsgOf H (U p) else c_hash (ch i (s_tick s))) as [|k id h] eqn:Em; [discriminate|].
    destruct (id <? latestOf s k)%N eqn:E1; [injection E as <- <-; apply Keep; auto|].
    destruct (HASHLEN <? length h) eqn:E2; [injection E as <- <-; apply Keep; auto|].
    injection E as <- <-.
    assert (Hr : honest i = true -> mkH k id (pad h) = recU n /\ p = n).
    { intros Hh. rewrite Hh in Em. assert (p = n) by (apply Hp; auto). subst p. unfold hashMsgOf in Em. rewrite hU_ok in Em.
      injection Em as <- <- <-. rewrite pad_hU. split; reflexivity. }
    split; [repeat split|]. split; [apply rinv_record; auto; intros Hh; apply Hr; exact Hh|]. split; [|split].
    + intros j Hj Hh. rewrite record_map in Hj. apply (Permutation_in _ (addMember_servers (r_map a) _ i Ni)) in Hj.
      cbn. destruct Hj as [<-|Hj].
      * apply Nat.eqb_neq in Nd. rewrite Nd, Nat.eqb_refl. destruct (Hr Hh) as [_ ->]. reflexivity.
      * assert (Q : j <> i) by (intros ->; contradiction). specialize (P j Hj Hh). destruct (j =? s_dci s); auto.
        apply Nat.eqb_neq in Q. rewrite Q. exact P.
    + intros j Hj. cbn. apply Nat.eqb_neq in Hj. rewrite Hj. reflexivity.
    + right. exists (mkH k id (pad h)). apply record_map.
  - injection E as <- <-. apply Keep; auto.
  - injection E as <- <-. apply Keep0; auto.
  - assert (Q : a' = countErr s ROutOfRange a /\ s' = tickS s) by (split; congruence). destruct Q as [-> ->].
    apply Keep0; [apply countErr_map|apply rinv_count; auto].
  - assert (Q : a' = countErr s RNotFound a /\ s' = tickS s) by (split; congruence). destruct Q as [-> ->].
    apply Keep0; [apply countErr_map|apply rinv_count; auto].
Qed.

Definition Orig (servers : list nat) (d : nat) (m m' : rmap) : Prop :=
  forall r l j, In (r, l) m' -> In j l -> (In j servers /\ j <> d) \/ exists l0, In (r, l0) m /\ In j l0.
Lemma orig_add (m : rmap) r i : NoDup (map fst m) -> forall r' l j, In (r', l) (addMember m r i) -> In j l ->
  j = i \/ exists l0, In (r', l0) m /\ In j l0.
Proof.
  intros K r' l j Hin Hj. apply addMember_entry in Hin as [[-> ->]|[_ Hin]]; auto; [|right; eauto].
  assert (Q : In j (membersOf m r) \/ j = i).
  { destruct (existsb (Nat.eqb i) (membersOf m r)); auto. apply in_app_iff in Hj as [Hj|[<-|[]]]; auto. }
  destruct Q as [Q|Q]; auto. right. destruct (membersOf_in m r) as [E0|Hin]; [rewrite E0 in Q; destruct Q|]. eauto.
Qed.

Lemma agree_loop_ok n servers : forall s a a' s', agree_loop H f honest U posOf ch servers s a = Ok (a', s') ->
  Al s n -> NoDup servers -> (forall i, In i servers -> i < nserv /\ (i <> s_dci s -> ~ In i (servers_of (r_map a)))) ->
  (forall i p, In i servers -> honest i = true -> s_hash s i = Some p -> p = n) ->
  RInv n a -> Pos s n a ->
  Frame s s' /\ RInv n a' /\ Pos s' n a' /\ (forall j, ~ In j servers \/ j = s_dci s -> s_hash s' j = s_hash s j) /\
  Orig servers (s_dci s) (r_map a) (r_map a').
Proof.
  induction servers as [|i rest IH]; intros s a a' s' E A ND Lt Hp R P.
  - cbn in E. injection E as <- <-. split; [repeat split|]. repeat split; auto; try apply R. intros r l j Hin Hj. right. eauto.
  - cbn [agree_loop] in E. inversion ND as [|? ? Ni ND']. subst.
    assert (Rest : forall s1 a1 (Q : forall j, In j rest -> s_hash s1 j = s_hash s j), agree_loop H f honest U posOf ch rest s1 a1 = Ok (a', s') ->
       Frame s s1 -> RInv n a1 -> Pos s1 n a1 -> (forall j, j <> i \/ j = s_dci s -> s_hash s1 j = s_hash s j) ->
       (r_map a1 = r_map a \/ i <> s_dci s /\ exists r, r_map a1 = addMember (r_map a) r i) ->
       Frame s s' /\ RInv n a' /\ Pos s' n a' /\ (forall j, ~ In j (i :: rest) \/ j = s_dci s -> s_hash s' j = s_hash s j) /\
       Orig (i :: rest) (s_dci s) (r_map a) (r_map a')).
    { intros s1 a1 Q E1 F1 R1 P1 Q2 M1. destruct F1 as (SL & Ed & Eda).
      destruct (IH s1 a1 a' s' E1) as (F' & R' & P' & Q' & O'); auto.
      - eapply al_same; eauto.
      - intros j Hj. split; [apply Lt; right; exact Hj|]. rewrite Ed. intros Nj.
        destruct (Lt j (or_intror Hj)) as [_ Nin]. specialize (Nin Nj). destruct M1 as [M1|(_ & r & M1)]; rewrite M1; auto.
        intros Hin. apply in_servers in Hin as (r' & l & Hin & Hjl). destruct (orig_add _ r i (ri_keys _ _ R) r' l j Hin Hjl) as [-> |(l0 & Hin0 & Hj0)]; [contradiction|].
        apply Nin. apply in_servers. eauto.
      - intros j p Hj Hh Es. rewrite (Q j Hj) in Es. apply (Hp j p); auto. right. exact Hj.
      - rewrite Ed in *. split; [split; [eapply sameLatest_trans; [exact SL|apply F']|destruct F' as (_ & -> & ->); auto]|].
        split; auto. split; auto. split.
        + intros j Hj. rewrite Q' by (destruct Hj as [Hj|Hj]; [left; intros Hr; apply Hj; right; exact Hr|right; exact Hj]).
          apply Q2. destruct Hj as [Hj|Hj]; [left; intros ->; apply Hj; left; reflexivity|right; exact Hj].
        + intros r l j Hin Hj. destruct (O' r l j Hin Hj) as [[Hr Nr]|(l0 & Hin0 & Hj0)]; [left; split; [right|]; auto|].
          destruct M1 as [M1|(Nd & r0 & M1)]; rewrite M1 in Hin0; [right; eauto|].
          destruct (orig_add _ r0 i (ri_keys _ _ R) r l0 j Hin0 Hj0) as [-> |X]; [left; split; [left|]; auto|right; exact X]. }
    destruct (Nat.eqb_spec i (s_dci s)) as [Ed|Nd].
    + apply (Rest s a); auto. repeat split.
    + assert (Read : forall s1, Frame s s1 -> (forall j, j <> i -> s_hash s1 j = s_hash s j) -> (forall p, honest i = true -> s_hash s1 i = Some p -> p = n) ->
         bindO (readUpdateHash H honest U ch s1 i a) (fun '(a', s') => if f + 1 <=? r_most a' then Ok (a', s') else agree_loop H f honest U posOf ch rest s' a') = Ok (a', s') ->
         Frame s s' /\ RInv n a' /\ Pos s' n a' /\ (forall j, ~ In j (i :: rest) \/ j = s_dci s -> s_hash s' j = s_hash s j) /\
         Orig (i :: rest) (s_dci s) (r_map a) (r_map a')).
      { intros s1 (SL & Ed & Eda) Q1 Hp1 E1. destruct (readUpdateHash H honest U ch s1 i a) as [[a1 s2]|e|] eqn:E2; cbn [bindO] in E1; try discriminate.
        apply readUpdateHash_ok with (n := n) in E2; auto.
        - destruct E2 as ((SL2 & Ed2 & Eda2) & R1 & P1 & Q2 & M1).
          assert (F2 : Frame s s2) by (split; [eapply sameLatest_trans; eauto|split; congruence]).
          assert (Q3 : forall j, j <> i -> s_hash s2 j = s_hash s j) by (intros j Hj; rewrite Q2, Q1; auto).
          destruct (f + 1 <=? r_most a1).
          + injection E1 as <- <-. split; auto. split; auto. split; auto. split.
            * intros j [Hj|Hj]; apply Q3; [intros ->; apply Hj; left; reflexivity|congruence].
            * intros r l j Hin Hj. destruct M1 as [M1|(r0 & M1)]; rewrite M1 in Hin; [right; eauto|].
              destruct (orig_add _ r0 i (ri_keys _ _ R) r l j Hin Hj) as [-> |X]; [left; split; [left|]; auto|right; exact X].
          + apply (Rest s2 a1); auto.
            * intros j Hj. apply Q3. intros ->. contradiction.
            * intros j [Hj|Hj]; apply Q3; congruence.
            * destruct M1 as [M1|M1]; [left|right]; auto.
        - eapply al_same; eauto.
        - apply Lt. left. reflexivity.
        - rewrite Ed. exact Nd.
        - apply Lt; [left; reflexivity|exact Nd].
        - intros j Hj Hh. rewrite Ed, Eda. specialize (P j Hj Hh). destruct (j =? s_dci s); auto. rewrite Q1; auto.
          intros ->. eapply Lt; [left; reflexivity|exact Nd|exact Hj]. }
      destruct (s_hash s i) as [p|] eqn:Es.
      * apply (Read s); auto; [repeat split|]. intros q Hh Eq. apply (Hp i q); auto. left. reflexivity.
      * destruct (openHash posOf ch s i) as [r s1] eqn:Eo. apply openHash_frame in Eo as (F1 & Q1 & Er).
        destruct r; try contradiction.
        -- apply (Read s1); auto. intros q _ Eq. rewrite Er in Eq. rewrite (al_pos s n A) in Eq. congruence.
        -- apply (Rest s1 (countErr s1 RTimeout a)); auto.
           ++ intros j Hj. apply Q1. intros ->. contradiction.
           ++ intros j Hj Hh. destruct F1 as (_ & Ed & Eda). rewrite Ed, Eda. specialize (P j Hj Hh). destruct (j =? s_dci s); auto.
              rewrite Q1; auto. intros ->. eapply Lt; [left; reflexivity|exact Nd|exact Hj].
           ++ intros j [Hj|Hj]; apply Q1; congruence.
        -- apply (Rest s1 (countErr s1 RFailure a)); auto.
           ++ intros j Hj. apply Q1. intros ->. contradiction.
           ++ intros j Hj Hh. destruct F1 as (_ & Ed & Eda). rewrite Ed, Eda. specialize (P j Hj Hh). destruct (j =? s_dci s); auto.
              rewrite Q1; auto. intros ->. eapply Lt; [left; reflexivity|exact Nd|exact Hj].
           ++ intros j [Hj|Hj]; apply Q1; congruence.
Qed.
End S.
