(** C09: a client accepts a result only with a quorum of matching replies. *)
From Coq Require Import List Arith NArith Lia Bool.
From Verif Require Import Lib_Sets Matcher_Model Matcher_Proofs.
Import ListNotations.

(** C09 (a), soundness: provided replies naming the same primary agree on the result code, the accepted reply was sent, with exactly this
    sequence number, result, data (and primary), by wait_for distinct destinations. *)
Theorem C09_match_sound_partial : forall c history m x, sameResults c (repliesOf history) -> mrun c [] history = (m, Some x) ->
  exists R, NoDup R /\ length R = wait_for c /\ incl R (dests c) /\ k_seq (mt_key x) = m_seq c /\
            forall r, In r R -> exists u, In u (repliesOf history) /\ u_from u = r /\ says c u (mt_key x).
Proof.
  intros c l m x S E. pose proof (mrun_gen c l [] [] S) as G. rewrite E in G.
  destruct G as (G1 & G2 & vs & G3 & (A & B & _)).
  - split; [intros ? ? []|split; [constructor|intros ? []]].
  - intros ? ? [].
  - intros _ ? ? [].
  - destruct (A _ _ G1) as [A1 A2]. exists (map fst (mt_rsi x)).
    assert (Q : forall r, In r (map fst (mt_rsi x)) -> exists u, In u (repliesOf l) /\ mvalid c u = true /\ u_from u = r /\ ukey c u = mt_key x).
    { intros r Hr. destruct (A2 r Hr) as (u & Hu & V & F & K). exists u. apply G3 in Hu. auto. }
    split; auto. split; [rewrite map_length; auto|]. split; [|split].
    + intros r Hr. destruct (Q r Hr) as (u & _ & V & F & _). unfold mvalid in V. apply andb_true_iff in V. destruct V as [_ V].
      apply existsb_exists in V. destruct V as (y & Hy & Ey). apply Nat.eqb_eq in Ey. congruence.
    + destruct (Nat.eq_dec (wait_for c) 0) as [Z|Z].
      * (* wait_for = 0: an entry is never empty, so no match *)
        exfalso. revert E. clear - Z. assert (H : forall l m x m', nonemptyM m -> mrun c m l <> (m', Some x)).
        { clear l m x. induction l as [|[u|] l IH]; intros m x m' NE; simpl; try discriminate.
          - unfold onReply. destruct (mvalid c u); [|apply IH; auto].
            assert (NE' : nonemptyM (minsert m (ukey c u) (u_from u) (u_rsi u))).
            { clear - NE. induction m as [|[k1 l1] m IH]; intros k0 l0 H0; simpl in H0.
              - destruct H0 as [H0|[]]. inversion H0. discriminate.
              - destruct (keyEquiv _ k1).
                + destruct H0 as [H0|H0]; [inversion H0; discriminate|eapply NE; right; eauto].
                + destruct H0 as [H0|H0]; [eapply NE; left; eauto|]. eapply IH; eauto. intros k2 l2 H2. eapply NE. right; eauto. }
            unfold mfind. destruct (find _ _) as [[k0 l0]|] eqn:F; [|apply IH; auto].
            apply find_some in F. destruct F as [F1 F2]. simpl in F2. apply Nat.eqb_eq in F2. rewrite Z in F2. apply NE' in F1. destruct l0; [congruence|discriminate].
          - apply IH. intros ? ? []. }
        apply H. intros ? ? [].
      * destruct (mt_rsi x) as [|[r d] t] eqn:EX; [simpl in G2; lia|]. destruct (Q r) as (u & _ & V & F & K); [simpl; auto|].
        rewrite <- K. simpl. unfold mvalid in V. apply andb_true_iff in V. destruct V as [V _]. apply Nat.eqb_eq in V. auto.
    + intros r Hr. destruct (Q r Hr) as (u & Hu & V & F & K). exists u. split; auto. split; auto. rewrite <- K. unfold says, ukey. simpl.
      repeat split; auto. intros ->. auto.
Qed.
Print Assumptions C09_match_sound_partial.

(** C09 (b): hence with at least f+1 required replies and at most f faulty replicas, a correct replica sent the accepted reply. *)
Theorem C09_match_correct_partial : forall c history m x f faulty, sameResults c (repliesOf history) -> mrun c [] history = (m, Some x) ->
  f + 1 <= wait_for c -> length faulty <= f ->
  exists u, In u (repliesOf history) /\ ~ In (u_from u) faulty /\ In (u_from u) (dests c) /\ says c u (mt_key x).
Proof.
  intros c l m x f faulty S E W F. destruct (C09_match_sound_partial c l m x S E) as (R & ND & L & I & _ & Q).
  pose proof (minus_length R faulty ND) as ML. destruct (length_pos_In (minus R faulty)) as (r & Hr); [lia|]. apply minus_In in Hr. destruct Hr as [H1 H2].
  destruct (Q r H1) as (u & Hu & Fu & Su). exists u. subst r. auto.
Qed.
Print Assumptions C09_match_correct_partial.

(** C09 (c), completeness: as long as no match was reported, fewer than wait_for destinations sent any one reply. *)
Theorem C09_match_complete_partial : forall c history m k R, sameResults c (repliesOf history) -> mrun c [] history = (m, None) -> ~ In MClear history ->
  0 < wait_for c -> k_seq k = m_seq c -> NoDup R -> incl R (dests c) -> (incl_primary c = false -> k_primary k = None) ->
  (forall r, In r R -> exists u, In u (repliesOf history) /\ u_from u = r /\ says c u k) -> length R < wait_for c.
Proof.
  intros c l m k R S E NC W EK ND I KP Q. pose proof (mrun_gen c l [] [] S) as G. rewrite E in G. destruct G as (G1 & G2).
  - split; [intros ? ? []|split; [constructor|intros ? []]].
  - intros ? ? [].
  - intros _ ? ? [].
  - specialize (G1 NC). specialize (G2 W). destruct G1 as (A & B & C). simpl in C.
    destruct R as [|r0 R0] eqn:ER; [simpl; lia|]. rewrite <- ER in *.
    assert (U : forall r, In r R -> exists u, In u (repliesOf l) /\ u_from u = r /\ mvalid c u = true /\ ukey c u = k).
    { intros r Hr. destruct (Q r Hr) as (u & Hu & Fu & (S1 & S2 & S3 & S4)). exists u. split; auto. split; auto. split.
      - unfold mvalid. apply andb_true_iff. split; [apply Nat.eqb_eq; congruence|]. apply existsb_exists. exists r. split; auto. rewrite Fu. apply Nat.eqb_refl.
      - unfold ukey. destruct k; simpl in *. f_equal; auto. destruct (incl_primary c); auto. symmetry; auto. }
    destruct (U r0) as (u0 & Hu0 & F0 & V0 & K0); [subst; simpl; auto|]. destruct (C u0 Hu0 V0) as (l0 & L0 & _). rewrite K0 in L0.
    assert (INC : incl R (map fst l0)).
    { intros r Hr. destruct (U r Hr) as (u & Hu & Fu & Vu & Ku). destruct (C u Hu Vu) as (l1 & L1 & In1). rewrite Ku in L1.
      assert (l1 = l0); [|subst; auto]. clear - B L0 L1. revert B L0 L1. induction m as [|[k1 lx] m IH]; simpl; intros ND H1 H2; [contradiction|].
      inversion ND as [|? ? N1 N2]; subst. destruct H1 as [H1|H1], H2 as [H2|H2].
      - congruence.
      - inversion H1; subst. exfalso. apply N1. apply (in_map fst) in H2. auto.
      - inversion H2; subst. exfalso. apply N1. apply (in_map fst) in H1. auto.
      - auto. }
    pose proof (NoDup_incl_length ND INC) as LE. rewrite map_length in LE. apply G2 in L0. lia.
Qed.
Print Assumptions C09_match_complete_partial.

(** [C09 refuted]: without the condition on result codes one faulty replica decides the accepted reply. n = 4, f = 1, linearizable quorum of 3:
    the faulty replica 3 answers first with another result code and its own data; the replies of the correct replicas 0 and 1 are counted for it,
    because the order on keys ignores the result code and compares data only for equal metadata. *)
Definition cfg4 : mcfg := mkMc 3 [0; 1; 2; 3] 100 true.
Definition good (r : nat) : ureply := mkU (Some 0) 100 0 [1; 1]%N r [].
Definition evil : ureply := mkU (Some 0) 100 1 [66; 6]%N 3 [].
Theorem C09_result_ignored_refuted : exists c history m x faulty,
  wait_for c = 3 /\ length faulty = 1 /\ mrun c [] history = (m, Some x) /\
  (forall u, In u (repliesOf history) -> ~ In (u_from u) faulty -> u_data u <> k_data (mt_key x) /\ u_result u <> k_result (mt_key x)).
Proof.
  exists cfg4, [MReply evil; MReply (good 0); MReply (good 1)]. eexists. eexists. exists [3].
  split; [reflexivity|]. split; [reflexivity|]. split; [vm_compute; reflexivity|].
  intros u [<-|[<-|[<-|[]]]]; simpl; intros H; try (exfalso; apply H; auto; fail); split; discriminate.
Qed.
Print Assumptions C09_result_ignored_refuted.
(** [C09 refuted, primary only]: a request sent to the primary only is decided by any replica that names itself as the primary. *)
Theorem C09_primary_only_refuted : forall r seq data, primaryOnly [mkU (Some r) seq 0 data r []] = Some (mkU (Some r) seq 0 data r []).
Proof. intros. unfold primaryOnly. simpl. rewrite Nat.eqb_refl. auto. Qed.
Print Assumptions C09_primary_only_refuted.

(** C09 (d): the quorum converter asks for the documented number of replies from known replicas, or rejects the request. *)
Theorem C09_converter : forall q x n d, toMofN q x = Some (n, d) ->
  (forall y, x = Linearizable y -> n = 2 * q_f q + q_c q + 1) /\ (forall y, x = ByzSafe y -> n = q_f q + 1) /\
  (forall y, x = QAll y -> n = length d) /\ (forall m y, x = QMofN m y -> n = m /\ d = y) /\
  (forall r, In r d -> In r (q_all q) \/ In r (q_ro q)) /\ (2 * q_f q + q_c q + 1 <= length (q_all q) -> n <= length d).
Proof.
  intros q x n d H.
  assert (V : forall l, validDests q l = true -> forall r, In r l -> In r (q_all q) \/ In r (q_ro q)).
  { intros l Hl r Hr. unfold validDests in Hl. apply andb_true_iff in Hl. destruct Hl as [_ Hl]. rewrite forallb_forall in Hl. apply Hl in Hr.
    apply orb_true_iff in Hr. destruct Hr as [Hr|Hr]; apply existsb_exists in Hr; destruct Hr as (y & Hy & E); apply Nat.eqb_eq in E; subst; auto. }
  assert (AL : forall k l, atLeast q k l = Some (n, d) -> n = k /\ (forall r, In r d -> In r (q_all q) \/ In r (q_ro q)) /\
                (k <= length (q_all q) -> n <= length d)).
  { intros k l E. unfold atLeast in E. destruct (length l =? 0); [inversion E; subst; auto|]. destruct (Nat.ltb_spec (length l) k); [discriminate|].
    destruct (validDests q l) eqn:Vl; [|discriminate]. inversion E; subst. split; auto. split; auto. apply V; auto. }
  destruct x as [y|y|y|m y]; simpl in H.
  - destruct (AL _ _ H) as (A & B & C). repeat split; try (intros; congruence); auto.
  - destruct (AL _ _ H) as (A & B & C). repeat split; try (intros; congruence); auto. intros L. apply C. lia.
  - destruct (length y =? 0).
    + inversion H; subst. repeat split; try (intros; congruence); auto.
    + destruct (validDests q y) eqn:Vy; [|discriminate]. inversion H; subst. repeat split; try (intros; congruence); auto. apply V; auto.
  - destruct (Nat.ltb_spec (length y) m); [discriminate|]. destruct (validDests q y) eqn:Vy; [|discriminate]. inversion H; subst.
    repeat split; try (intros; congruence); auto. apply V; auto.
Qed.
Print Assumptions C09_converter.
(** [C09 refuted, read-only replicas]: a "linearizable" quorum may consist of too few voting replicas, as read-only replicas are accepted as
    destinations. *)
Theorem C09_linearizable_readonly_refuted : exists q d n l, toMofN q (Linearizable d) = Some (n, l) /\ length l = n /\
  length (q_all q) = 3 * q_f q + 2 * q_c q + 1 /\ length (inter l (q_all q)) < q_f q + 1.
Proof. exists (mkQ [0; 1; 2; 3] [4; 5; 6] 1 0), [4; 5; 6]. eexists. eexists. split; [reflexivity|]. vm_compute. auto. Qed.
Print Assumptions C09_linearizable_readonly_refuted.

(** The hypotheses are met, with a faulty replica sending other data first, and a retry that clears the replies. *)
Definition hist4 : list mop := [MReply (mkU (Some 0) 100 0 [9]%N 3 []); MReply (good 0); MClear; MReply (good 1); MReply (mkU (Some 2) 100 0 [1; 1]%N 3 [7]%N); MReply (good 1); MReply (good 0); MReply (good 2)].
Example C09_example : (exists m x, mrun cfg4 [] hist4 = (m, Some x) /\ k_data (mt_key x) = [1; 1]%N) /\ sameResults cfg4 (repliesOf hist4).
Proof.
  split; [eexists; eexists; split; vm_compute; reflexivity|]. intros u v Hu Hv _ _ _. simpl in Hu, Hv.
  repeat (destruct Hu as [<-|Hu]; [repeat (destruct Hv as [<-|Hv]; [reflexivity|]); contradiction|]). contradiction.
Qed.
