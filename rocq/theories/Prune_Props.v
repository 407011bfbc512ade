(** C27. Pruning never removes blocks needed by agreement. *)
From Coq Require Import List Arith Bool Lia Decimal DecimalNat DecimalFacts.
From Verif Require Import Prune_Model.
Import ListNotations.

(** * The signed text *)
Lemma digitsOf_inj : forall u v, digitsOf u = digitsOf v -> u = v.
Proof. induction u; destruct v; cbn; intros E; try discriminate; auto; injection E as E; f_equal; auto. Qed.
Lemma dec_inj n m : dec n = dec m -> n = m.
Proof. intros H. apply digitsOf_inj in H. apply Unsigned.to_uint_inj. exact H. Qed.
Lemma text_inj r b b' : signedText r b = signedText r b' -> b = b'.
Proof. unfold signedText. intros H. apply app_inv_head in H. apply dec_inj. auto. Qed.
Lemma eqText_ok : forall a b, eqText a b = true -> a = b.
Proof. induction a; destruct b; cbn; intros H; try discriminate; auto. apply andb_true_iff in H. destruct H as [H1 H2]. apply Nat.eqb_eq in H1. f_equal; auto. Qed.
Lemma eqText_refl a : eqText a a = true.
Proof. induction a; cbn; auto. rewrite Nat.eqb_refl. auto. Qed.
Lemma mem_In x l : existsb (Nat.eqb x) l = true <-> In x l.
Proof. rewrite existsb_exists. split; [intros (y & H & E); apply Nat.eqb_eq in E; subst; auto|intros H; exists x; rewrite Nat.eqb_refl; auto]. Qed.
Lemma verifyLpb_sig R b : verifyLpb R b = true <-> In (lreplica b) R /\ lsig b = (lreplica b, signedText (lreplica b) (lblock b)).
Proof.
  unfold verifyLpb, sigOk. rewrite !andb_true_iff, mem_In. split.
  - intros (H & H1 & H2). apply Nat.eqb_eq in H1. apply eqText_ok in H2. split; auto. destruct (lsig b). cbn in *. congruence.
  - intros [H ->]. cbn. rewrite Nat.eqb_refl, eqText_refl. auto.
Qed.

(** The text does not determine the replica: 1, 23 and 12, 3 give the same text. The key does. *)
Theorem C27_signed_text_ambiguous_refuted : signedText 1 23 = signedText 12 3.
Proof. reflexivity. Qed.
Print Assumptions C27_signed_text_ambiguous_refuted.
Theorem C27_signature_names_block R b b' : verifyLpb R b = true -> verifyLpb R b' = true -> lsig b = lsig b' -> lreplica b = lreplica b' /\ lblock b = lblock b'.
Proof. rewrite !verifyLpb_sig. intros [_ E] [_ E'] H. rewrite E, E' in H. injection H as H1 H2. rewrite H1 in *. split; auto. eapply text_inj; eauto. Qed.
Print Assumptions C27_signature_names_block.

(** * The verified request *)
Lemma verifyAll_spec R : forall l left, NoDup left -> verifyAll R left l = true ->
  (forall b, In b l -> verifyLpb R b = true) /\ (forall r, In r left <-> In r (map lreplica l)) /\ NoDup (map lreplica l).
Proof.
  induction l as [|b l IH]; intros left N H; cbn in H.
  - destruct left; [|discriminate]. split; [intros b []|]. split; [tauto|constructor].
  - rewrite !andb_true_iff in H. destruct H as [[H1 H2] H3]. apply mem_In in H2.
    assert (N' : NoDup (filter (fun r => negb (r =? lreplica b)) left)) by (apply NoDup_filter; auto).
    destruct (IH _ N' H3) as (I1 & I2 & I3). split; [|split].
    + intros x [<-|Hx]; auto.
    + intros r. cbn. split.
      * intros Hr. destruct (Nat.eq_dec r (lreplica b)) as [->|Hn]; auto. right. apply I2. apply filter_In. split; auto. apply negb_true_iff, Nat.eqb_neq. auto.
      * intros [<-|Hr]; auto. apply I2, filter_In in Hr. tauto.
    + cbn. constructor; auto. intros X. apply I2, filter_In in X. destruct X as [_ X]. rewrite Nat.eqb_refl in X. discriminate.
Qed.
Lemma verifyAll_complete R : forall l left, (forall b, In b l -> verifyLpb R b = true) -> (forall r, In r left <-> In r (map lreplica l)) -> NoDup (map lreplica l) -> verifyAll R left l = true.
Proof.
  induction l as [|b l IH]; intros left H1 H2 H3; cbn.
  - destruct left as [|r left]; auto. exfalso. apply (H2 r). left. auto.
  - inversion H3 as [|? ? N1 N2]; subst. rewrite !andb_true_iff. split; [split|].
    + apply H1. left. auto.
    + apply mem_In, H2. left. auto.
    + apply IH; auto; [intros x Hx; apply H1; right; auto|]. intros r. rewrite filter_In, H2. cbn. split.
      * intros [[->|Hr] Hn]; auto. rewrite Nat.eqb_refl in Hn. discriminate.
      * intros Hr. split; auto. apply negb_true_iff, Nat.eqb_neq. intros ->. auto.
Qed.
(** A request is accepted exactly when it comes from someone who is not a replica and contains exactly one answer of every replica, each
    signed by that replica for the block it names. *)
Theorem C27_request_accepted_iff (replicas : list nat) (q : request) : NoDup replicas ->
  (verifyReq replicas q = true <->
   ~ In (sender q) replicas /\ NoDup (map lreplica (blocks q)) /\ (forall r, In r replicas <-> In r (map lreplica (blocks q))) /\
   (forall b, In b (blocks q) -> lsig b = (lreplica b, signedText (lreplica b) (lblock b)))).
Proof.
  intros N. unfold verifyReq. rewrite !andb_true_iff, negb_true_iff, Nat.eqb_eq. split.
  - intros ((L & S) & V). destruct (verifyAll_spec _ _ _ N V) as (V1 & V2 & V3). split; [|split; [|split]]; auto.
    + intros X. apply mem_In in X. congruence.
    + intros b Hb. apply V1, verifyLpb_sig in Hb. tauto.
  - intros (S & D & E & G). split; [split|].
    + rewrite <- (map_length lreplica (blocks q)). apply Nat.le_antisymm; apply NoDup_incl_length; auto; intros r; apply E.
    + destruct (existsb _ replicas) eqn:X; auto. apply mem_In in X. tauto.
    + apply verifyAll_complete; auto. intros b Hb. apply verifyLpb_sig. split; auto. apply E. apply in_map. auto.
Qed.
Print Assumptions C27_request_accepted_iff.

Lemma agreed_min l t : agreed l = Some t -> (exists b, In b l /\ lblock b = t) /\ (forall b, In b l -> t <= lblock b).
Proof.
  destruct l as [|b l]; cbn [agreed In]; [discriminate|]. intros H. injection H as H.
  assert (G : forall l m t, fold_left (fun m x => if lblock x <? m then lblock x else m) l m = t -> (t = m \/ exists b, In b l /\ lblock b = t) /\ t <= m /\ (forall b, In b l -> t <= lblock b)).
  { clear. induction l as [|x l IH]; cbn [fold_left In]; intros m t H; [subst; split; [auto|split; [auto|intros ? []]]|].
    revert H; destruct (Nat.ltb_spec (lblock x) m) as [Lx|Lx]; intros H; destruct (IH _ _ H) as (I1 & I2 & I3).
    - split; [|split; [lia|]].
      + destruct I1 as [->|(b & Hb & E)]; right; [exists x; auto|exists b; auto].
      + intros b [<-|Hb]; auto.
    - split; [|split; [lia|]].
      + destruct I1 as [->|(b & Hb & E)]; auto. right. exists b; auto.
      + intros b [<-|Hb]; auto. lia. }
  destruct (G _ _ _ H) as (G1 & G2 & G3). split.
  - destruct G1 as [->|(x & Hx & E)]; [exists b; auto|exists x; auto].
  - intros x [<-|Hx]; auto.
Qed.

(** * The two back ends *)
Lemma v4_until c u c' : chainOk c -> delUntilV4 c u = Some c' -> last c' = last c /\ genesis c <= genesis c' /\ genesis c' <= max (genesis c) u /\ 1 <= genesis c' <= last c' /\ genesis c < u.
Proof.
  intros W. unfold delUntilV4. destruct (Nat.eqb_spec (genesis c) 0); [discriminate|]. destruct (Nat.leb_spec u (genesis c)); [discriminate|].
  destruct (Nat.eqb_spec (last c) (genesis c)); intros H1; injection H1 as <-; cbn [last genesis]; destruct W; try lia.
Qed.
Lemma cat_loop m : forall c, chainOk c -> 1 <= genesis c -> genesis c + m <= last c ->
  fold_left (fun c i => match c with Some c => deleteBlockCat c i | None => None end) (seq (genesis c) m) (Some c) = Some (mkChain (genesis c + m) (last c)).
Proof.
  induction m as [|m IH]; intros c W G L; [cbn; destruct c; cbn; do 2 f_equal; lia|]. cbn [seq fold_left].
  assert (E : deleteBlockCat c (genesis c) = Some (mkChain (S (genesis c)) (last c))).
  { unfold deleteBlockCat. destruct (Nat.eqb_spec (genesis c) 0); [lia|]. cbn [orb]. rewrite Nat.ltb_irrefl. destruct (Nat.ltb_spec (last c) (genesis c)); [lia|]. cbn [orb].
    destruct (Nat.eqb_spec (genesis c) (last c)); [lia|]. cbn [andb]. rewrite Nat.eqb_refl. auto. }
  rewrite E. change (S (genesis c)) with (genesis (mkChain (S (genesis c)) (last c))). rewrite IH; cbn [genesis last]; [do 2 f_equal; lia|right; cbn; lia|lia|lia].
Qed.
Lemma cat_until c u : chainOk c -> 1 <= genesis c -> genesis c < u -> delUntilCat c u = if u <=? last c then Some (mkChain u (last c)) else None.
Proof.
  intros W G U. unfold delUntilCat. destruct (Nat.eqb_spec (genesis c) 0); [lia|]. destruct (Nat.leb_spec u (genesis c)); [lia|].
  destruct (Nat.leb_spec u (last c)).
  - rewrite Nat.min_r by lia. replace (S (u - 1) - genesis c) with (u - genesis c) by lia. rewrite cat_loop by (auto; lia). do 2 f_equal. lia.
  - rewrite Nat.min_l by lia. assert (Wl : genesis c <= last c) by (destruct W; lia). replace (S (last c) - genesis c) with ((last c - genesis c) + 1) by lia. rewrite seq_app, fold_left_app, cat_loop by (auto; lia).
    cbn [seq fold_left]. unfold deleteBlockCat. cbn [genesis last]. replace (genesis c + (last c - genesis c)) with (last c) by lia.
    destruct (Nat.eqb_spec (last c) 0); [lia|]. rewrite Nat.ltb_irrefl, Nat.eqb_refl. auto.
Qed.
Lemma until_gen b c u c' : chainOk c -> delUntil b c u = Some c' -> last c' = last c /\ genesis c <= genesis c' <= max (genesis c) u /\ 1 <= genesis c' <= last c' /\ genesis c < u.
Proof.
  destruct b; cbn [delUntil]; intros W H.
  - apply v4_until in H; auto. lia.
  - assert (1 <= genesis c /\ genesis c < u) by (unfold delUntilCat in H; destruct (Nat.eqb_spec (genesis c) 0); [discriminate|]; destruct (Nat.leb_spec u (genesis c)); [discriminate|lia]).
    rewrite cat_until in H by (auto; lia). destruct (Nat.leb_spec u (last c)); [|discriminate]. injection H as <-. cbn. lia.
Qed.
Lemma prune_ok b c t c' : chainOk c -> pruneThrough b c t = Some c' -> chainOk c' /\ last c' = last c /\ genesis c <= genesis c' <= max (genesis c) (S t) /\ (genesis c' = genesis c \/ genesis c' <= last c').
Proof.
  intros W. unfold pruneThrough. destruct (Nat.leb_spec (genesis c) t).
  - intros E. apply until_gen in E; auto. split; [right; lia|]. lia.
  - intros E. injection E as <-. split; auto. lia.
Qed.

(** * The system *)
Section Sys.
Context (replicas : list nat) (cfg : nat -> rcfg) (byz : list nat) (c0 : nat -> chain).
Hypothesis nd : NoDup replicas.
Hypothesis ok0 : forall i, chainOk (c0 i).

Definition Inv (s : sys) : Prop := (forall i, chainOk (chains s i)) /\
  (forall i b, ~ In i byz -> ro (cfg i) = false -> signedPrunable s i b -> b + keep (cfg i) <= last (chains s i) \/ b = 0).
Lemma handlePrune_cases i c q c' : handlePrune replicas (cfg i) c q = Some c' ->
  c' = c \/ (verifyReq replicas q = true /\ exists t, agreed (blocks q) = Some t /\ pruneThrough (store (cfg i)) c t = Some c').
Proof.
  unfold handlePrune. destruct (negb (enabled (cfg i)) || ro (cfg i)); [intros H; injection H as <-; auto|]. destruct (verifyReq replicas q); cbn [negb]; [|intros H; injection H as <-; auto].
  destruct (agreed (blocks q)) as [t|]; [|discriminate]. intros H. right. eauto.
Qed.
Lemma step_inv s s' : step replicas cfg byz s s' -> Inv s -> Inv s'.
Proof.
  intros E [I1 I2]. destruct E as [s i|s i b Hb|s i text Hi|s i q c Hq Hc]; split; cbn [chains made].
  - intros j. unfold upd. destruct (j =? i); auto. right. unfold addBlock. cbn [genesis last]. destruct (I1 i); lia.
  - intros j b Nj Rj Hj. destruct (I2 j b Nj Rj Hj) as [H|H]; auto. left. cbn. unfold upd. destruct (Nat.eqb_spec j i) as [->|]; auto. cbn. lia.
  - auto.
  - intros j b' Nj Rj Hj. destruct Hj as [Hj|Hj]; [|apply I2; auto]. unfold handleLpb in Hb. destruct (negb (enabled (cfg i))); [discriminate|]. injection Hb as <-. cbn [lsig sign] in Hj.
    injection Hj as -> Hj. apply text_inj in Hj. rewrite Rj in Hj. subst b'. unfold latestPrunable. destruct (Nat.ltb_spec (last (chains s j)) (keep (cfg j))); auto. left. cbn. lia.
  - auto.
  - intros j b Nj Rj Hj. destruct Hj as [Hj|Hj]; [injection Hj as -> _; tauto|apply I2; auto].
  - intros j. unfold upd. destruct (Nat.eqb_spec j i) as [->|]; auto. destruct (handlePrune_cases _ _ _ _ Hc) as [->|(V & t & A & P)]; auto. apply prune_ok in P; auto. tauto.
  - intros j b Nj Rj Hj. destruct (I2 j b Nj Rj Hj) as [H|H]; auto. left. cbn. unfold upd. destruct (Nat.eqb_spec j i) as [->|]; auto.
    destruct (handlePrune_cases _ _ _ _ Hc) as [->|(V & t & A & P)]; auto. apply prune_ok in P; auto. destruct P as (_ & P & _). lia.
Qed.
Lemma reach_inv s : reach replicas cfg byz c0 s -> Inv s.
Proof. induction 1; [split; cbn; auto; intros i b _ _ []|eapply step_inv; eauto]. Qed.
End Sys.

(** In every execution: when a correct replica handles a prune request, every block it deletes was signed as prunable by every replica;
    nothing is deleted at the end of the chain; at least one block and at least the configured number of blocks stay. *)
Theorem C27_prune_safe (replicas : list nat) (cfg : nat -> rcfg) (byz : list nat) (c0 : nat -> chain) (s : sys) (i : nat) (q : request) (c : chain) :
  NoDup replicas -> (forall j, chainOk (c0 j)) -> reach replicas cfg byz c0 s ->
  In i replicas -> ~ In i byz ->
  (forall b, In b (blocks q) -> In (lsig b) (made s)) ->
  handlePrune replicas (cfg i) (chains s i) q = Some c ->
  forall x, contains (chains s i) x -> ~ contains c x ->
    (forall r, In r replicas -> exists b, x <= b /\ signedPrunable s r b) /\
    x + keep (cfg i) <= last (chains s i) /\
    last c = last (chains s i) /\ contains c (last c) /\ (forall y, contains c y -> x < y).
Proof.
  intros N O R Ri Bi M H x Cx Nx. destruct (reach_inv _ _ _ _ O s R) as [I1 I2].
  destruct (handlePrune_cases _ _ _ _ _ _ H) as [->|(V & t & A & P)]; [tauto|].
  assert (Ro : ro (cfg i) = false). { unfold handlePrune in H. destruct (ro (cfg i)); auto. rewrite orb_true_r in H. injection H as <-. tauto. }
  destruct (agreed_min _ _ A) as [(b0 & Hb0 & E0) Mn]. pose proof (prune_ok _ _ _ _ (I1 i) P) as (Wc & L & G & D).
  apply C27_request_accepted_iff in V; auto. destruct V as (_ & _ & V2 & V3).
  unfold contains in *.
  assert (Gx : x < genesis c) by lia. assert (Xt : x <= t) by lia.
  assert (Own : t + keep (cfg i) <= last (chains s i)).
  { apply V2, in_map_iff in Ri. destruct Ri as (b & E & Hb). pose proof (Mn b Hb). destruct (I2 i (lblock b) Bi Ro) as [Z|Z]; [|lia|lia].
    unfold signedPrunable. rewrite <- E at 1. rewrite <- E, <- (V3 b Hb). auto. }
  split; [|split; [|split; [|split]]]; auto.
  - intros r Hr. apply V2, in_map_iff in Hr. destruct Hr as (b & E & Hb). exists (lblock b). split; [pose proof (Mn b Hb); lia|]. unfold signedPrunable. rewrite <- E, <- (V3 b Hb). auto.
  - lia.
  - destruct Wc; lia.
  - intros y Hy. lia.
Qed.
Print Assumptions C27_prune_safe.

(** What an accepted request leaves: everything through the smallest answer is gone, except that the last block always stays. *)
Theorem C27_prune_exact (replicas : list nat) (r : rcfg) (c : chain) (q : request) (t : nat) :
  chainOk c -> 1 <= genesis c -> enabled r = true -> ro r = false -> verifyReq replicas q = true ->
  (exists b, In b (blocks q) /\ lblock b = t) -> (forall b, In b (blocks q) -> t <= lblock b) -> t < last c ->
  exists c', handlePrune replicas r c q = Some c' /\ forall x, contains c' x <-> contains c x /\ t < x.
Proof.
  intros W G En Ro V (b & Hb & Eb) Mn Tl. unfold handlePrune. rewrite En, Ro, V. cbn [negb orb].
  destruct (agreed (blocks q)) as [t'|] eqn:A; [|destruct (blocks q); [destruct Hb|discriminate]].
  destruct (agreed_min _ _ A) as [(b' & Hb' & Eb') Mn']. assert (H : t' = t) by (pose proof (Mn b' Hb'); pose proof (Mn' b Hb); lia). replace t' with t in * by auto. clear H.
  cbv beta iota. unfold pruneThrough. destruct (Nat.leb_spec (genesis c) t); [|exists c; split; [reflexivity|intros x; unfold contains; lia]].
  destruct (store r); cbn [delUntil].
  - unfold delUntilV4. destruct (Nat.eqb_spec (genesis c) 0); [lia|]. destruct (Nat.leb_spec (S t) (genesis c)); [lia|]. destruct (Nat.eqb_spec (last c) (genesis c)); [lia|].
    eexists. split; [reflexivity|]. unfold contains. cbn [genesis last]. intros x. lia.
  - rewrite cat_until by (auto; lia). destruct (Nat.leb_spec (S t) (last c)); [|lia]. eexists. split; [reflexivity|]. unfold contains. cbn [genesis last]. intros x. lia.
Qed.
Print Assumptions C27_prune_exact.

(** A correct replica that has at least one block and keeps at least one never ends its process because of a prune request, whatever the
    operator and the Byzantine replicas put into it; with the v4 storage even when it is configured to keep none. *)
Theorem C27_prune_no_crash (replicas : list nat) (cfg : nat -> rcfg) (byz : list nat) (c0 : nat -> chain) (s : sys) (i : nat) (q : request) :
  NoDup replicas -> (forall j, chainOk (c0 j)) -> reach replicas cfg byz c0 s ->
  In i replicas -> ~ In i byz -> (forall b, In b (blocks q) -> In (lsig b) (made s)) ->
  1 <= genesis (chains s i) -> (store (cfg i) = V4 \/ 1 <= keep (cfg i)) ->
  handlePrune replicas (cfg i) (chains s i) q <> None.
Proof.
  intros N O R Ri Bi M G K. destruct (reach_inv _ _ _ _ O s R) as [I1 I2]. unfold handlePrune.
  destruct (negb (enabled (cfg i))); [discriminate|]. destruct (ro (cfg i)) eqn:Ro; [discriminate|]. cbn [orb]. destruct (verifyReq replicas q) eqn:V; [|discriminate]. cbn [negb].
  apply C27_request_accepted_iff in V; auto. destruct V as (_ & _ & V2 & V3).
  pose proof Ri as Ri'. apply V2, in_map_iff in Ri. destruct Ri as (b & E & Hb).
  destruct (agreed (blocks q)) as [t|] eqn:A; [|destruct (blocks q); [destruct Hb|discriminate]].
  destruct (agreed_min _ _ A) as [_ Mn]. pose proof (Mn b Hb) as Tb. unfold pruneThrough. destruct (Nat.leb_spec (genesis (chains s i)) t); [|discriminate].
  destruct (store (cfg i)) eqn:St; cbn [delUntil].
  - unfold delUntilV4. destruct (Nat.eqb_spec (genesis (chains s i)) 0); [lia|]. destruct (Nat.leb_spec (S t) (genesis (chains s i))); [lia|]. destruct (last (chains s i) =? genesis (chains s i)); discriminate.
  - destruct K as [K|K]; [discriminate|]. rewrite cat_until by (auto; lia).
    destruct (I2 i (lblock b) Bi Ro) as [Z|Z]; [unfold signedPrunable; rewrite <- E at 1; rewrite <- E, <- (V3 b Hb); auto| |lia].
    destruct (Nat.leb_spec (S t) (last (chains s i))); [discriminate|lia].
Qed.
Print Assumptions C27_prune_no_crash.

(** The reported last pruned block: everything through it is gone and the block after it is there. *)
Theorem C27_status (c : chain) : chainOk c -> 1 <= genesis c ->
  (forall x, x <= lastPruned c -> ~ contains c x) /\ contains c (S (lastPruned c)).
Proof. intros W G. unfold lastPruned, contains. destruct (Nat.ltb_spec 1 (genesis c)); destruct W; split; intros; lia. Qed.
Print Assumptions C27_status.

(** * What does not hold *)
Definition four : list nat := [0; 1; 2; 3].
Definition allSign (b : nat) : request := mkReq 9 (map (fun r => sign r r b) four).
(** On an empty chain every replica answers 0, and the accepted request then ends the process of every replica that executes it:
    deleting from an empty chain is an assertion (v4) and an exception (categorized), and both are fatal in pruneThroughBlockId. *)
Theorem C27_empty_chain_refuted : forall b k,
  map lblock (blocks (allSign 0)) = map (fun r => latestPrunable 0 k) four /\ handlePrune four (mkR false k true b) (mkChain 0 0) (allSign 0) = None.
Proof. intros [] [|k]; split; reflexivity. Qed.
Print Assumptions C27_empty_chain_refuted.
(** A replica with the categorized storage configured to keep 0 blocks offers its last block and then ends its process on the request. *)
Theorem C27_keep_zero_refuted : forall n, 1 <= n ->
  latestPrunable n 0 = n /\ handlePrune four (mkR false 0 true Cat) (mkChain 1 n) (allSign n) = None.
Proof.
  intros n Hn. split; [unfold latestPrunable; cbn; lia|]. unfold handlePrune. cbn [enabled ro negb orb].
  assert (V : verifyReq four (allSign n) = true).
  { apply C27_request_accepted_iff; [repeat constructor; cbn; intuition discriminate|]. split; [cbn; intuition discriminate|]. split; [repeat constructor; cbn; intuition discriminate|].
    split; [intros r; cbn; tauto|]. intros b Hb. cbn in Hb. intuition (subst; reflexivity). }
  rewrite V. cbn [negb]. assert (A : agreed (blocks (allSign n)) = Some n).
  { destruct (agreed (blocks (allSign n))) as [t|] eqn:A; [|discriminate]. destruct (agreed_min _ _ A) as [(b & Hb & <-) _]. cbn in Hb. f_equal. intuition (subst; reflexivity). }
  rewrite A. unfold pruneThrough. cbn [genesis]. destruct (Nat.leb_spec 1 n); [|lia]. cbn [store delUntil].
  rewrite cat_until; [|right; cbn; lia|cbn; lia|cbn; lia]. cbn [last]. destruct (Nat.leb_spec (S n) n); [lia|]. auto.
Qed.
Print Assumptions C27_keep_zero_refuted.
(** The number of kept blocks is measured when the answer is signed, not when the request is executed, and a read-only replica keeps the
    blocks its object store needs only through its answer: an old signature can be replayed. It stays valid for ever (nothing in the signed
    text says when). It never allows more than was signed, so the only effect is that less is pruned. *)
Theorem C27_old_answers_safe (replicas : list nat) (q : request) (b : lpb) (r : rcfg) (c c' : chain) (x : nat) :
  NoDup replicas -> chainOk c -> In b (blocks q) -> handlePrune replicas r c q = Some c' -> contains c x -> lblock b < x -> contains c' x.
Proof.
  intros N W Hb H Cx Lx. destruct (handlePrune_cases replicas (fun _ => r) 0 _ _ _ H) as [->|(V & t & A & P)]; auto.
  destruct (agreed_min _ _ A) as [_ Mn]. pose proof (Mn b Hb). pose proof (prune_ok _ _ _ _ W P) as (W' & L & G & D). unfold contains in *. lia.
Qed.
Print Assumptions C27_old_answers_safe.

(** Non-vacuity: a run with one Byzantine replica, three blocks, every replica signs, then replica 0 prunes. *)
Definition cfgx (i : nat) : rcfg := mkR false 1 true (if i =? 2 then Cat else V4).
Definition start (i : nat) : chain := mkChain 1 (10 + i).
Definition sgn (r b : nat) : nat * list nat := (r, signedText r b).
Definition sx : sys := mkSys start [sgn 3 40; sgn 2 11; sgn 1 10; sgn 0 9].
Lemma run_reach : reach four cfgx [3] start sx.
Proof.
  unfold sx. eapply RS. eapply RS. eapply RS. eapply RS. apply R0.
  - apply (SLpb _ _ _ _ 0 (sign 0 0 9)). reflexivity.
  - apply (SLpb _ _ _ _ 1 (sign 1 1 10)). reflexivity.
  - apply (SLpb _ _ _ _ 2 (sign 2 2 11)). reflexivity.
  - refine (SByz four cfgx [3] (mkSys start [sgn 2 11; sgn 1 10; sgn 0 9]) 3 (signedText 3 40) _). left. reflexivity.
Qed.
Definition qx : request := mkReq 7 [sign 0 0 9; sign 1 1 10; sign 2 2 11; sign 3 3 40].
Example prune_example : reach four cfgx [3] start sx /\ (forall b, In b (blocks qx) -> In (lsig b) (made sx)) /\
  handlePrune four (cfgx 0) (chains sx 0) qx = Some (mkChain 10 10) /\ handlePrune four (cfgx 2) (chains sx 2) qx = Some (mkChain 10 12) /\
  contains (chains sx 0) 9 /\ ~ contains (mkChain 10 10) 9.
Proof.
  split; [apply run_reach|]. split; [intros b Hb; cbn in Hb; cbn [sx made In]; intuition (subst; auto 6)|].
  split; [reflexivity|]. split; [reflexivity|]. unfold contains, sx, start. cbn. lia.
Qed.
