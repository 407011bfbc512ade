(** Proofs for the sparse Merkle tree, part 4: BatchedInternalNode::remove and unlinkChild. *)
From Coq Require Import List NArith Bool Arith Lia.
From Verif Require Import Smt_Model Smt_Proofs Smt_Proofs2 Smt_Proofs3.
Import ListNotations.
Set Default Proof Using "Type".

Section S1.
Variable H : Type.
Notation leaf := (leaf H).
Notation node := (node H).
Notation under := (under H).
Notation inner := (inner H).
Notation wf := (wf H).
Notation rm := (rm H).

Lemma peer_enc (c : node) q b :
  peerIndex c (enc (q ++ [b])) = if isEmpty c (enc (q ++ [negb b])) then None else Some (enc (q ++ [negb b])).
Proof.
  unfold peerIndex. rewrite enc_snoc. destruct (Nat.eqb_spec (childIndex b (enc q)) 0) as [E|_]; [now apply childIndex_pos in E|].
  rewrite isLeft_child.
  assert (E : (if negb b then childIndex b (enc q) + 1 else childIndex b (enc q) - 1) = enc (q ++ [negb b])).
  { rewrite enc_snoc. destruct b; cbn [negb]; rewrite childIndex_succ; lia. }
  rewrite E. reflexivity.
Qed.

Lemma countIf_zero f (c : node) a n : a + n <= 31 -> (forall q, length q <= 4 -> a <= enc q -> f (c (enc q)) = false) -> countIf f c a n = 0.
Proof.
  intros L F. unfold countIf. assert (E : filter (fun i => f (c i)) (seq a n) = []); [|now rewrite E].
  assert (G : forall i, In i (seq a n) -> f (c i) = false).
  { intros i Hi. apply in_seq in Hi. destruct (enc_surj i ltac:(lia)) as (q & Lq & <-). apply F; auto; lia. }
  induction (seq a n) as [|i s IH]; cbn; auto. rewrite (G i) by (left; auto). apply IH. intros; apply G; right; auto.
Qed.
Lemma countIf_pos f (c : node) a n q : length q <= 4 -> a <= enc q < a + n -> f (c (enc q)) = true -> countIf f c a n <> 0.
Proof.
  intros L B F. unfold countIf. assert (I : In (enc q) (filter (fun i => f (c i)) (seq a n))).
  { apply filter_In. split; auto. apply in_seq. lia. }
  destruct (filter _ _); [destruct I|discriminate].
Qed.
Definition allNone (c : node) : Prop := forall q, length q <= 4 -> c (enc q) = None.
Lemma allNone_num (c : node) : allNone c -> numChildren c = 0 /\ safeToRemove c = true.
Proof.
  intros A. unfold numChildren, safeToRemove, numLeafChildren, numLevel0Children.
  rewrite !countIf_zero; auto; try (vm_compute; lia); intros q Lq _; rewrite (A q Lq); reflexivity.
Qed.
Lemma onlyRoot_num (c : node) : (forall q, q <> [] -> length q <= 4 -> c (enc q) = None) -> (exists h v, c 0 = Some (Int h v)) ->
  numChildren c = 1 /\ safeToRemove c = true.
Proof.
  intros A (h & u & E0). split.
  - assert (E : numChildren c = S (countIf hasValue c 1 30)).
    { unfold numChildren, countIf. change (seq 0 MAX_CHILDREN) with (0 :: seq 1 30).
      generalize (seq 1 30) as sq. intros sq. cbn [filter]. rewrite E0. reflexivity. }
    rewrite E, countIf_zero; [reflexivity|lia|].
    intros q Lq Lq1. rewrite A; auto. intros ->. cbn in Lq1. lia.
  - unfold safeToRemove, numLeafChildren, numLevel0Children. rewrite !countIf_zero; auto; try (vm_compute; lia).
    + intros q Lq Lq1. rewrite A; auto. intros ->. vm_compute in Lq1. lia.
    + intros q Lq _. destruct (bits_dec q []) as [->|NE]; [rewrite enc_nil, E0; reflexivity|now rewrite A].
Qed.
Lemma leaf_notSafe (c : node) q l : length q <= 4 -> c (enc q) = Some (Leaf l) -> safeToRemove c = false.
Proof.
  intros L E. unfold safeToRemove. assert (numLeafChildren c <> 0).
  { unfold numLeafChildren. apply (countIf_pos _ _ _ _ q); auto; [|now rewrite E]. pose proof (enc_lt q L). change MAX_CHILDREN with 31. lia. }
  destruct (Nat.eqb_spec (numLeafChildren c) 0); [tauto|reflexivity].
Qed.

Lemma rm_single k s : lkey s = k -> rm k [s] = [].
Proof. intros <-. cbn. now rewrite bits_eqb_refl. Qed.
Lemma len1 {A} (u : list A) (p : A) : length u = 1 -> In p u -> u = [p].
Proof. destruct u as [|x [|y u]]; cbn; try lia. intros _ [-> | []]. reflexivity. Qed.
Lemma wf_len_under_sub m Q Q' : isPre Q Q' = true -> length (under m Q') <= length (under m Q).
Proof. apply under_len_sub. Qed.
End S1.

Section S.
Variable H : Type.
Variable hparent : H -> H -> H.
Variable ph : H.
Notation leaf := (leaf H).
Notation node := (node H).
Notation child := (child H).
Notation under := (under H).
Notation inner := (inner H).
Notation lslot := (lslot H).
Notation thash := (thash H hparent ph).
Notation wf := (wf H).
Notation rm := (rm H).
Notation slotOk := (slotOk H hparent ph).
Notation nodeOk := (nodeOk H hparent ph).
Notation updateHashes := (updateHashes H hparent ph).
Notation offk := (offk H).
Notation anc := (anc H).
Notation R := (@nil bool).
Notation allNone := (allNone H).

Lemma uhl_one fuel (cc : node) i v h u : parentIndex i = Some 0 -> cc 0 = Some (Int h u) ->
  exists h', updateHashes_loop H hparent ph (S fuel) cc i v = Some (upd cc 0 (Some (Int h' v))).
Proof.
  intros E1 E2. cbn [updateHashes_loop]. rewrite E1, E2. cbn [Nat.eqb]. eexists. reflexivity.
Qed.
Lemma uh_top (b : bool) (cc : node) v h u : cc 0 = Some (Int h u) ->
  exists h', updateHashes cc (enc ([] ++ [b])) v = Some (upd cc 0 (Some (Int h' v))).
Proof.
  intros E. unfold Smt_Model.updateHashes.
  assert (X : enc ([] ++ [b]) =? 0 = false) by (destruct b; reflexivity). rewrite X.
  apply (uhl_one 30 cc _ v h u); auto. rewrite enc_snoc. apply parent_child.
Qed.

Section Rem.
Set Default Proof Using "All".
Variables (P nb : bits) (m : list leaf) (ver ver' : bits -> N) (c : node) (k : bits) (d : nat) (v : N).
Hypothesis W : wf m.
Hypothesis Lk : length k = KL.
Hypothesis LP : length P = 4 * d.
Hypothesis Ld : d < MAX_NIBBLES.
Hypothesis L4 : length nb = 4.
Hypothesis EP : isPre (P ++ nb) k = true.
Hypothesis OK : nodeOk R m ver P c.
Hypothesis V' : ver' P = v.
Hypothesis VO : veroff k ver ver'.
Notation m' := (rm k m).

Lemma rW' : wf m'.
Proof. apply wf_rm, W. Qed.
Lemma rPreP : isPre P k = true.
Proof. eapply isPre_trans; [apply isPre_app|exact EP]. Qed.
Lemma rnotR q : q <> [] -> P ++ q <> R.
Proof. intros NE E. apply app_eq_nil in E. tauto. Qed.
Lemma rPK : length P + 4 <= KL.
Proof. unfold KL, MAX_NIBBLES in *. lia. Qed.
Lemma rR0 : length R < KL.
Proof. unfold KL. cbn. lia. Qed.
Lemma rR1 : length R <= length P.
Proof. cbn. lia. Qed.

(** below a position with at most one leaf everything is empty *)
Lemma below_none mm vv cc a q : slotOk R mm vv P q (cc (enc q)) -> length (under mm (P ++ a)) <= 1 -> isPre a q = true -> q <> a -> a <> [] -> cc (enc q) = None.
Proof.
  intros S L E NE NA. destruct (snoc_cases q) as [->|(y & z & ->)]; [apply isPre_nil_r in E; congruence|].
  destruct (pre_snoc_cases _ _ _ E) as [X|E2]; [symmetry in X; contradiction|].
  assert (Ny : y <> []) by (intros ->; apply isPre_nil_r in E2; contradiction).
  assert (Nyz : y ++ [z] <> []) by (destruct y; discriminate).
  assert (E3 : isPre (P ++ a) (P ++ y) = true) by now rewrite isPre_app_iff.
  assert (E4 : isPre (P ++ a) (P ++ y ++ [z]) = true) by now rewrite isPre_app_iff.
  pose proof (under_len_sub H mm _ _ E3). pose proof (under_len_sub H mm _ _ E4).
  unfold Smt_Proofs.slotOk in S. rewrite (inner_small H R mm) in S; [|lia|apply rnotR; auto].
  rewrite (proj2 (bits_eqb_neq _ _) (rnotR _ Nyz)) in S. rewrite S. unfold Smt_Proofs.lslot.
  rewrite (app_assoc P y [z]), removelast_snoc. rewrite (inner_small H R mm); [|lia|apply rnotR; auto].
  destruct (under mm ((P ++ y) ++ [z])) as [|? [|? ?]]; reflexivity.
Qed.

(** [cc] is [c] with everything strictly below [a] emptied *)
Definition Clr (a : bits) (cc : node) : Prop :=
  forall q, length q <= 4 -> if isPre a q then (q <> a -> cc (enc q) = None) else cc (enc q) = c (enc q).

(** The last leaf under [a] is put at [a], beside something. *)
Lemma place_ok a0 x p cc : let a := a0 ++ [x] in
  isPre a nb = true -> Clr a cc -> under m' (P ++ a) = [p] -> under m' (P ++ a0 ++ [negb x]) <> [] ->
  (forall q, isPre q a0 = true -> inner R m (P ++ q) = true) ->
  cc (enc a) = Some (Leaf p) ->
  exists c', updateHashes cc (enc a) v = Some c' /\ nodeOk R m' ver' P c' /\ safeToRemove c' = false /\ 2 <= length (under m' P).
Proof.
  intros a Ea CL Up Us IA Ec.
  assert (La : length a <= 4) by (apply isPre_len in Ea; lia).
  assert (La0 : length a = S (length a0)) by (unfold a; rewrite app_length; cbn; lia).
  assert (NA : a <> []) by (intros E; rewrite E in La0; discriminate).
  assert (Cnt : 2 <= length (under m' (P ++ a0))).
  { rewrite (under_snoc_len H m' (P ++ a0) x rW'); [|rewrite app_length; pose proof rPK; lia].
    rewrite <- !app_assoc. fold a. rewrite Up. destruct (under m' (P ++ a0 ++ [negb x])); [congruence|cbn; lia]. }
  assert (IA' : forall q, isPre q a0 = true -> inner R m' (P ++ q) = true).
  { intros q Eq. apply inner_len2. pose proof (under_len_sub H m' (P ++ q) (P ++ a0) ltac:(now rewrite isPre_app_iff)). lia. }
  assert (Ipa : inner R m' (P ++ a0) = true) by (apply IA', isPre_refl).
  assert (SlotA : forall cx, nodeOk R m' ver' P cx -> cx (enc a) = Some (Leaf p)).
  { intros cx Hx. specialize (Hx a La). unfold Smt_Proofs.slotOk in Hx.
    rewrite inner_small in Hx; [|rewrite Up; auto|apply rnotR; auto].
    rewrite (proj2 (bits_eqb_neq _ _) (rnotR _ NA)) in Hx. rewrite Hx. unfold Smt_Proofs.lslot. rewrite Up.
    unfold a. rewrite app_assoc, removelast_snoc, Ipa. reflexivity. }
  destruct (updateHashes_ok' H hparent ph R m' ver' P a cc v) as (c' & E' & OK'); auto.
  - apply rW'.
  - apply rR0.
  - right. apply rR1.
  - intros q Eq. apply IA'. unfold a in Eq. now apply ppre_snoc in Eq.
  - intros q Eq l0. pose proof Eq as Eq2. apply ppre_snoc in Eq2. apply ppre_spec in Eq as [Eq NE].
    assert (Lq : length q <= 4) by (apply isPre_len in Eq; lia).
    specialize (CL q Lq). destruct (isPre a q) eqn:Y.
    { exfalso. apply NE. apply isPre_eq; auto. apply isPre_len in Y; auto. }
    rewrite CL. pose proof (OK q Lq) as S. unfold Smt_Proofs.slotOk in S. rewrite (IA q Eq2) in S. destruct S as (u & -> & _). discriminate.
  - intros q Lq NP. destruct (bits_dec q a) as [->|NE].
    + rewrite Ec. unfold Smt_Proofs.slotOk.
      rewrite inner_small; [|rewrite Up; auto|apply rnotR; auto].
      rewrite (proj2 (bits_eqb_neq _ _) (rnotR _ NA)). unfold Smt_Proofs.lslot. rewrite Up.
      unfold a. rewrite app_assoc, removelast_snoc, Ipa. reflexivity.
    + assert (NPq : isPre q a = false) by (apply not_true_iff_false; intros X; rewrite (proj2 (ppre_spec _ _)) in NP; auto; discriminate).
      pose proof (CL q Lq) as CLq. destruct (isPre a q) eqn:Eaq.
      * rewrite (CLq NE).
        destruct (snoc_cases q) as [->|(y & z & ->)]; [apply isPre_nil_r in Eaq; contradiction|].
        destruct (pre_snoc_cases _ _ _ Eaq) as [X|E2]; [symmetry in X; contradiction|].
        assert (Ny : y <> []) by (intros ->; apply isPre_nil_r in E2; contradiction).
        assert (Nyz : y ++ [z] <> []) by (destruct y; discriminate).
        pose proof (under_len_sub H m' (P ++ a) (P ++ y) ltac:(now rewrite isPre_app_iff)) as L1.
        pose proof (under_len_sub H m' (P ++ a) (P ++ y ++ [z]) ltac:(now rewrite isPre_app_iff)) as L2.
        rewrite Up in L1, L2. cbn [length] in L1, L2.
        unfold Smt_Proofs.slotOk. rewrite inner_small; [|lia|apply rnotR; auto].
        rewrite (proj2 (bits_eqb_neq _ _) (rnotR _ Nyz)). unfold Smt_Proofs.lslot.
        rewrite (app_assoc P y [z]), removelast_snoc. rewrite (inner_small H R m'); [|lia|apply rnotR; auto].
        destruct (under m' ((P ++ y) ++ [z])) as [|? [|? ?]]; reflexivity.
      * rewrite CLq.
        assert (Nk : isPre (P ++ q) k = false).
        { rewrite (onpath P nb) by (auto; lia). apply not_true_iff_false. intros X.
          destruct (le_lt_dec (length q) (length a)).
          - rewrite (isPre_two q a nb) in NPq; auto; discriminate.
          - rewrite (isPre_two a q nb) in Eaq; auto; [discriminate|lia]. }
        apply (slot_move H hparent ph R k m m' ver ver'); auto.
        -- apply offk_rm.
        -- apply rPreP.
        -- apply rR1.
        -- intros s0 _. destruct (snoc_cases q) as [->|(y & z & ->)]; [rewrite app_nil_r, rPreP in Nk; discriminate|].
           rewrite app_assoc, removelast_snoc. destruct (isPre (P ++ y) k) eqn:Ey.
           ++ rewrite app_length in Lq. cbn in Lq. rewrite (onpath P nb) in Ey by (auto; lia).
              assert (Ya : isPre y a0 = true).
              { destruct (le_lt_dec (length a) (length y)) as [Hl|Hl].
                - exfalso. assert (Z : isPre a y = true) by (apply (isPre_two _ _ nb); auto).
                  rewrite (isPre_trans a y (y ++ [z])) in Eaq; auto; [discriminate|apply isPre_app].
                - apply (isPre_two _ _ nb); auto; [|lia]. eapply isPre_trans; [|exact Ea]. apply isPre_app. }
              rewrite (IA y Ya), (IA' y Ya). reflexivity.
           ++ apply inner_under. apply offk_rm. auto.
  - exists c'. split; auto. split; auto. split.
    + apply (leaf_notSafe H c' a p); auto.
    + pose proof (under_len_sub H m' (P ++ []) (P ++ a0) ltac:(rewrite isPre_app_iff; reflexivity)) as Z. rewrite app_nil_r in Z. lia.
Qed.

(** Nothing beside [a]: the leaf moves one level up. *)
Lemma climb a0 x p cc cc1 : let a := a0 ++ [x] in
  isPre a nb = true -> Clr a cc -> under m' (P ++ a) = [p] -> inner R m (P ++ a0) = true ->
  cc (enc (a0 ++ [negb x])) = None ->
  cc1 (enc a) = None -> (forall q, q <> a -> q <> a0 -> cc1 (enc q) = cc (enc q)) ->
  under m' (P ++ a0) = [p] /\ Clr a0 cc1.
Proof.
  intros a Ea CL Up Ia Es E1 E2.
  assert (La : length a <= 4) by (apply isPre_len in Ea; lia).
  assert (La0 : length a = S (length a0)) by (unfold a; rewrite app_length; cbn; lia).
  assert (Nsib : isPre a (a0 ++ [negb x]) = false).
  { apply not_true_iff_false. intros X. unfold a in X. rewrite isPre_app_iff in X. cbn in X. destruct x; discriminate. }
  assert (Lsib : length (a0 ++ [negb x]) <= 4) by (rewrite app_length; cbn; lia).
  assert (Ecs : c (enc (a0 ++ [negb x])) = None).
  { specialize (CL (a0 ++ [negb x]) Lsib). rewrite Nsib in CL. congruence. }
  assert (Us : under m (P ++ a0 ++ [negb x]) = []).
  { pose proof (OK _ Lsib) as S. rewrite Ecs in S. unfold Smt_Proofs.slotOk in S.
    destruct (inner R m (P ++ a0 ++ [negb x])) eqn:I; [destruct S as (u & S & _); discriminate|].
    assert (NN : a0 ++ [negb x] <> []) by (destruct a0; discriminate).
    rewrite (proj2 (bits_eqb_neq _ _) (rnotR _ NN)) in S. unfold Smt_Proofs.lslot in S.
    rewrite app_assoc, removelast_snoc, Ia, <- app_assoc in S.
    destruct (inner_false H R m _ I) as [E|(s & E & _)]; auto. rewrite E in S. discriminate. }
  assert (Us' : under m' (P ++ a0 ++ [negb x]) = []) by (rewrite under_rm, Us; reflexivity).
  assert (Up0 : under m' (P ++ a0) = [p]).
  { apply len1.
    - rewrite (under_snoc_len H m' (P ++ a0) x rW'); [|rewrite app_length; pose proof rPK; lia].
      rewrite <- !app_assoc. fold a. rewrite Up, Us'. reflexivity.
    - assert (In p (under m' (P ++ a))) by (rewrite Up; cbn; auto). apply in_under in H0 as [H1 H2]. apply in_under. split; auto.
      eapply isPre_trans; [|exact H2]. rewrite isPre_app_iff. apply isPre_app. }
  split; auto.
  intros q Lq. destruct (isPre a0 q) eqn:Eq.
  - intros NE. destruct (bits_dec q a) as [->|NEa]; auto. rewrite E2 by auto.
    pose proof (CL q Lq) as CLq. destruct (isPre a q) eqn:Eaq; [auto|]. rewrite CLq.
    (* q is at or below the sibling *)
    destruct (isPre_snoc_or _ _ Eq) as [X|[b X]]; [congruence|].
    assert (b = negb x) as ->.
    { destruct (bool_dec b x) as [->|NB]; [fold a in X; congruence|destruct b, x; congruence || reflexivity]. }
    destruct (bits_dec q (a0 ++ [negb x])) as [->|NQ]; auto.
    eapply below_none; [apply OK; auto|rewrite Us; cbn; lia|exact X|auto|destruct a0; discriminate].
  - assert (q <> a) by (intros ->; unfold a in Eq; rewrite isPre_app in Eq; discriminate).
    assert (q <> a0) by (intros ->; rewrite isPre_refl in Eq; discriminate).
    rewrite E2 by auto. specialize (CL q Lq). destruct (isPre a q) eqn:Eaq; auto.
    rewrite (isPre_trans a0 a q) in Eq; auto; [discriminate|]. unfold a. apply isPre_app.
Qed.

(** * removeLeafChild's loop *)
Lemma one_bit q b1 : isPre q [b1] = true -> q = [] \/ q = [b1].
Proof.
  intros E. destruct q as [|y [|z q]]; auto.
  - right. cbn in E. rewrite andb_true_r in E. apply eqb_prop in E. congruence.
  - apply isPre_len in E. cbn in E. lia.
Qed.
Lemma movePeer_ok p removed : forall fuel a b1 cc,
  length a + 2 <= fuel -> isPre a nb = true -> length a <= 3 -> Clr a cc -> cc (enc a) = c (enc a) -> under m' (P ++ a) = [p] ->
  isPre (P ++ a ++ [b1]) (lkey p) = true ->
  (forall q, isPre q a = true -> inner R m (P ++ q) = true) ->
  exists c' r, movePeer_loop H hparent ph fuel cc (enc (a ++ [b1])) p v removed d = Some (c', r) /\
    ((r = RemComplete removed /\ nodeOk R m' ver' P c' /\ inner R m' P = true) \/
     (r = RemBatched (Some p) removed /\ P <> [] /\ under m' P = [p] /\ allNone c')).
Proof.
  induction fuel as [|fuel IH]; intros a b1 cc LF Ea La CL Ec Up Eb IA; [lia|].
  cbn [movePeer_loop]. rewrite enc_snoc, parent_child.
  destruct (snoc_cases a) as [E|(a0 & x & E)]; rewrite E in *; clear a E.
  - (* at the root of the node *)
    rewrite enc_nil in *. change (peerIndex cc 0) with (@None nat). change (0 =? 0) with true. cbn [andb].
    rewrite app_nil_r in Up. cbn [app] in Eb.
    destruct (Nat.eqb_spec d 0) as [E0|E0].
    + assert (EP0 : P = []) by (apply length_zero_iff_nil; lia).
      change (childIndex b1 0) with (enc [b1]). 
      assert (Iroot : inner R m' P = true).
      { unfold Smt_Proofs.inner. rewrite Up, EP0. reflexivity. }
      assert (Uq : forall q, length (under m' (P ++ q)) <= 1).
      { intros q. pose proof (under_len_sub H m' P (P ++ q) (isPre_app _ _)) as X. rewrite Up in X. auto. }
      assert (Ub : under m' (P ++ [b1]) = [p]).
      { rewrite (under_single_sub H m' P _ p Up (isPre_app _ _)). now rewrite Eb. }
      destruct (updateHashes_ok' H hparent ph R m' ver' P [b1] (upd cc (enc [b1]) (Some (Leaf p))) v) as (c' & E' & OK').
      * apply rW'.
      * apply rR0.
      * right. apply rR1.
      * discriminate.
      * cbn; lia.
      * exact V'.
      * intros q Eq. apply ppre_spec in Eq as [Eq NE]. destruct (one_bit _ _ Eq) as [->|X]; [now rewrite app_nil_r|contradiction].
      * intros q Eq l0. apply ppre_spec in Eq as [Eq NE]. rewrite upd_enc_other by auto.
        destruct (one_bit _ _ Eq) as [->|X]; [|contradiction].
        pose proof (OK [] ltac:(cbn; lia)) as S. unfold Smt_Proofs.slotOk in S. rewrite (IA [] eq_refl) in S. destruct S as (u & S & _).
        rewrite enc_nil in *. rewrite Ec, S. discriminate.
      * intros q Lq NP. destruct (bits_dec q [b1]) as [->|NE].
        -- rewrite upd_same. unfold Smt_Proofs.slotOk. rewrite inner_small; [|auto|apply rnotR; discriminate].
           rewrite (proj2 (bits_eqb_neq _ _) (rnotR [b1] ltac:(discriminate))). unfold Smt_Proofs.lslot. rewrite Ub, removelast_snoc, Iroot. reflexivity.
        -- rewrite upd_enc_other by auto.
           assert (NQ : q <> []) by (intros ->; discriminate).
           specialize (CL q Lq). cbn [isPre] in CL. rewrite (CL NQ). unfold Smt_Proofs.slotOk.
           rewrite inner_small; [|auto|apply rnotR; auto]. rewrite (proj2 (bits_eqb_neq _ _) (rnotR q NQ)). unfold Smt_Proofs.lslot.
           destruct (snoc_cases q) as [->|(y & z & ->)]; [congruence|]. rewrite app_assoc, removelast_snoc.
           destruct y as [|y0 y].
           ++ rewrite app_nil_r. rewrite (under_single_sub H m' P _ p Up (isPre_app _ _)).
              destruct (isPre (P ++ [z]) (lkey p)) eqn:Z; auto. exfalso. apply NE. cbn. f_equal. apply (isPre_snoc_uniq _ _ _ _ Z Eb).
           ++ rewrite (inner_small H R m'); [|auto|apply rnotR; discriminate].
              destruct (under m' ((P ++ y0 :: y) ++ [z])) as [|? [|? ?]]; reflexivity.
      * rewrite E'. eexists. eexists. split; [reflexivity|]. left. auto.
    + assert (EP0 : P <> []) by (intros E; rewrite E in LP; cbn in LP; lia).
      destruct fuel as [|fuel]; [cbn in LF; lia|]. cbn [movePeer_loop]. change (parentIndex 0) with (@None nat).
      eexists. eexists. split; [reflexivity|]. right. split; auto. split; auto. split; auto.
      intros q Lq. destruct (bits_dec q []) as [->|NE]; [rewrite enc_nil; apply upd_same|].
      rewrite <- enc_nil, upd_enc_other by auto. specialize (CL q Lq). cbn [isPre] in CL. auto.
  - (* below the root of the node *)
    rewrite peer_enc. unfold isEmpty.
    assert (Nsib : isPre (a0 ++ [x]) (a0 ++ [negb x]) = false).
    { apply not_true_iff_false. intros X. rewrite isPre_app_iff in X. cbn in X. destruct x; discriminate. }
    assert (Lsib : length (a0 ++ [negb x]) <= 4) by (rewrite app_length in *; cbn in *; lia).
    assert (Ecs : cc (enc (a0 ++ [negb x])) = c (enc (a0 ++ [negb x]))).
    { pose proof (CL (a0 ++ [negb x]) Lsib) as X. rewrite Nsib in X. auto. }
    assert (IA0 : forall q, isPre q a0 = true -> inner R m (P ++ q) = true).
    { intros q Eq. apply IA. eapply isPre_trans; [exact Eq|apply isPre_app]. }
    destruct (cc (enc (a0 ++ [negb x]))) as [y|] eqn:Ey.
    + assert (Us : under m' (P ++ a0 ++ [negb x]) <> []).
      { pose proof (OK _ Lsib) as S. rewrite <- Ecs in S. apply (slot_under H hparent ph R m ver P a0) in S; [|left; auto|apply rR1].
        rewrite (offk_rm H k m).
        - destruct y as [s|h u]; [destruct S as [S _]; rewrite S; discriminate|]. destruct S as [S _]. now apply inner_pos in S.
        - rewrite (onpath P nb) by (auto; lia). apply not_true_iff_false. intros X.
          pose proof (isPre_snoc_uniq _ _ _ _ X Ea). destruct x; discriminate. }
      destruct (place_ok a0 x p (upd cc (enc (a0 ++ [x])) (Some (Leaf p)))) as (c' & E' & OK' & _ & L2); auto.
      * intros q Lq. specialize (CL q Lq). destruct (isPre (a0 ++ [x]) q) eqn:Eq.
        -- intros NE. rewrite upd_enc_other by auto. auto.
        -- rewrite upd_enc_other; auto. intros ->. rewrite isPre_refl in Eq. discriminate.
      * apply upd_same.
      * rewrite E'. eexists. eexists. split; [reflexivity|]. left. split; auto. split; auto. apply inner_len2; auto.
    + assert (Z : (enc (a0 ++ [x]) =? 0) = false) by (apply Nat.eqb_neq; intros X; apply (proj1 (enc_zero _)) in X; destruct a0; discriminate).
      rewrite Z. cbn [andb].
      destruct (climb a0 x p cc (upd cc (enc (a0 ++ [x])) None)) as [Up0 CL0]; auto.
      * apply IA0, isPre_refl.
      * apply upd_same.
      * intros q NE _. apply upd_enc_other; auto.
      * apply IH; auto.
        -- rewrite app_length in LF. cbn in LF. lia.
        -- eapply isPre_snoc_inv; eauto.
        -- rewrite app_length in La. cbn in La. lia.
        -- rewrite upd_enc_other.
           ++ assert (L0 : length a0 <= 4) by (rewrite app_length in La; cbn in La; lia). specialize (CL a0 L0).
              destruct (isPre (a0 ++ [x]) a0) eqn:Y; [|auto]. apply isPre_len in Y. rewrite app_length in Y. cbn in Y. lia.
           ++ intros X. apply (f_equal (@length bool)) in X. rewrite app_length in X. cbn in X. lia.
        -- eapply isPre_trans; [|exact Eb]. rewrite isPre_app_iff. apply isPre_app.
Qed.

(** * remove *)
Definition remPost (c' : node) (r : remRes H) : Prop :=
  match r with
  | RemNotFound => c' = c /\ ~ In k (map lkey m)
  | RemDescend u => c' = c /\ u = ver (P ++ nb) /\ forall q, isPre q nb = true -> inner R m (P ++ q) = true
  | RemComplete u => nodeOk R m' ver' P c' /\ inner R m' P = true /\ exists s, In s m /\ lkey s = k /\ u = lver s
  | RemBatched None u => P = [] /\ safeToRemove c' = true /\ exists s, m = [s] /\ lkey s = k /\ u = lver s
  | RemBatched (Some p) u => P <> [] /\ under m' P = [p] /\ allNone c' /\ exists s, In s m /\ lkey s = k /\ u = lver s
  end.

Lemma removeLeaf_ok qc b s : (forall q, isPre q qc = true -> inner R m (P ++ q) = true) -> length (qc ++ [b]) <= 4 -> isPre (qc ++ [b]) nb = true ->
  under m (P ++ qc ++ [b]) = [s] -> lkey s = k ->
  exists c' r, removeLeafChild H hparent ph c (enc (qc ++ [b])) v (lver s) d = Some (c', r) /\ remPost c' r.
Proof.
  intros A L E Eu Ek. set (qs := qc ++ [b]) in *. set (sb := qc ++ [negb b]).
  assert (NQ : qs <> []) by (unfold qs; destruct qc; discriminate).
  assert (Lqs : length qs = S (length qc)) by (unfold qs; rewrite app_length; cbn; lia).
  assert (Lsb : length sb = S (length qc)) by (unfold sb; rewrite app_length; cbn; lia).
  assert (Nsb : sb <> qs) by (unfold sb, qs; intros X; apply app_inv_head in X; destruct b; discriminate).
  assert (HS : In s m) by (apply (in_under H m (P ++ qs)); rewrite Eu; cbn; auto).
  assert (EKq : isPre (P ++ qs) k = true) by (rewrite (onpath P nb); auto; lia).
  assert (ESq : isPre (P ++ sb) k = false).
  { rewrite (onpath P nb) by (auto; lia). apply not_true_iff_false. intros X.
    pose proof (isPre_snoc_uniq _ _ _ _ X E). destruct b; discriminate. }
  assert (U'q : under m' (P ++ qs) = []) by (rewrite under_rm, Eu; apply rm_single; auto).
  assert (U's : under m' (P ++ sb) = under m (P ++ sb)) by (apply offk_rm; auto).
  assert (Cnt : length (under m (P ++ qc)) = 1 + length (under m (P ++ sb))).
  { rewrite (under_snoc_len H m (P ++ qc) b W); [|rewrite app_length; pose proof rPK; lia].
    rewrite <- !app_assoc. fold qs sb. rewrite Eu. reflexivity. }
  assert (Cnt' : length (under m' (P ++ qc)) = length (under m (P ++ sb))).
  { rewrite (under_snoc_len H m' (P ++ qc) b rW'); [|rewrite app_length; pose proof rPK; lia].
    rewrite <- !app_assoc. fold qs sb. rewrite U'q, U's. reflexivity. }
  unfold removeLeafChild. destruct (Nat.eqb_spec (enc qs) 0) as [X|_]; [apply (proj1 (enc_zero _)) in X; contradiction|].
  unfold qs at 2. rewrite peer_enc. fold sb. unfold isEmpty. rewrite upd_enc_other by auto.
  assert (Lsb4 : length sb <= 4) by lia.
  pose proof (OK sb Lsb4) as S. unfold sb in S at 1. apply (slot_under H hparent ph R m ver P qc) in S; [|left; auto|apply rR1]. fold sb in S.
  destruct (c (enc sb)) as [[p|h u]|] eqn:Ec.
  - (* the peer is a leaf *)
    destruct S as [Us _]. rewrite upd_enc_other by auto. rewrite Ec.
    set (cc := upd (upd c (enc qs) None) (enc sb) None).
    assert (Up : under m' (P ++ qc) = [p]).
    { apply len1; [rewrite Cnt', Us; reflexivity|].
      assert (X : In p (under m' (P ++ sb))) by (rewrite U's, Us; cbn; auto). apply in_under in X as [X1 X2]. apply in_under. split; auto.
      eapply isPre_trans; [|exact X2]. rewrite isPre_app_iff. apply isPre_app. }
    assert (Ipk : isPre (P ++ sb) (lkey p) = true).
    { assert (X : In p (under m (P ++ sb))) by (rewrite Us; cbn; auto). apply in_under in X. tauto. }
    destruct (movePeer_ok p (lver s) 31 qc (negb b) cc) as (c' & r & E' & Post); auto.
    + lia.
    + eapply isPre_snoc_inv; eauto.
    + lia.
    + intros q Lq. destruct (isPre qc q) eqn:Eq.
      * intros NE. unfold cc. destruct (bits_dec q sb) as [->|NE1]; [apply upd_same|]. rewrite upd_enc_other by auto.
        destruct (bits_dec q qs) as [->|NE2]; [apply upd_same|]. rewrite upd_enc_other by auto.
        destruct (isPre_snoc_or _ _ Eq) as [X|[b2 X]]; [congruence|].
        destruct (bool_dec b2 b) as [->|NB].
        -- eapply (below_none m ver c qs q); auto. rewrite Eu. auto.
        -- assert (b2 = negb b) as -> by (destruct b2, b; congruence || reflexivity).
           eapply (below_none m ver c sb q); auto; [rewrite Us; auto|unfold sb; destruct qc; discriminate].
      * unfold cc. rewrite !upd_enc_other; auto; intros ->; [unfold qs in Eq|unfold sb in Eq]; rewrite isPre_app in Eq; discriminate.
    + unfold cc. rewrite !upd_enc_other; auto; intros X; apply (f_equal (@length bool)) in X; lia.
    + fold sb in E'. rewrite E'. exists c', r. split; auto.
      destruct Post as [(-> & Post1 & Post2)|(-> & Post1 & Post2 & Post3)]; cbn [remPost]; eauto 10.
  - (* the peer is internal *)
    destruct S as (I & _ & _). rewrite upd_enc_other by auto. rewrite Ec.
    assert (C2 : 2 <= length (under m (P ++ sb))).
    { apply inner_true in I as [I|(l0 & _ & I)]; auto. apply rnotR in I; [destruct I|unfold sb; destruct qc; discriminate]. }
    assert (IA' : forall q, isPre q qc = true -> inner R m' (P ++ q) = true).
    { intros q Eq. apply inner_len2. pose proof (under_len_sub H m' (P ++ q) (P ++ qc) ltac:(now rewrite isPre_app_iff)). lia. }
    destruct (updateHashes_ok' H hparent ph R m' ver' P qs (upd c (enc qs) None) v) as (c' & E' & OK').
    + apply rW'.
    + apply rR0.
    + right. apply rR1.
    + auto.
    + auto.
    + exact V'.
    + intros q Eq. unfold qs in Eq. apply ppre_snoc in Eq. auto.
    + intros q Eq l0. pose proof Eq as Eq2. unfold qs in Eq2. apply ppre_snoc in Eq2. apply ppre_spec in Eq as [Eq NE]. rewrite upd_enc_other by auto.
      assert (Lq : length q <= 4) by (apply isPre_len in Eq; lia).
      pose proof (OK q Lq) as S. unfold Smt_Proofs.slotOk in S. rewrite (A q Eq2) in S. destruct S as (u0 & -> & _). discriminate.
    + intros q Lq NP. destruct (bits_dec q qs) as [->|NE].
      * rewrite upd_same. unfold Smt_Proofs.slotOk. rewrite inner_small; [|rewrite U'q; cbn; lia|apply rnotR; auto].
        rewrite (proj2 (bits_eqb_neq _ _) (rnotR _ NQ)). unfold Smt_Proofs.lslot. now rewrite U'q.
      * rewrite upd_enc_other by auto.
        assert (NPq : isPre q qs = false) by (apply not_true_iff_false; intros X; rewrite (proj2 (ppre_spec _ _)) in NP; auto; discriminate).
        destruct (isPre (P ++ q) k) eqn:Eqk.
        -- rewrite (onpath P nb) in Eqk by (auto; lia).
           assert (E2 : isPre qs q = true).
           { destruct (le_lt_dec (length qs) (length q)); [apply (isPre_two _ _ nb); auto|].
             rewrite (isPre_two q qs nb) in NPq; auto; [discriminate|lia]. }
           rewrite (below_none m ver c qs q); auto; [|rewrite Eu; auto].
           assert (Nq0 : q <> []) by (intros ->; apply isPre_nil_r in E2; contradiction).
           assert (Uq0 : under m' (P ++ q) = []).
           { apply (under_mono_nil H m' (P ++ qs)); auto. now rewrite isPre_app_iff. }
           unfold Smt_Proofs.slotOk. rewrite inner_small; [|rewrite Uq0; cbn; lia|apply rnotR; auto].
           rewrite (proj2 (bits_eqb_neq _ _) (rnotR _ Nq0)). unfold Smt_Proofs.lslot. now rewrite Uq0.
        -- apply (slot_move H hparent ph R k m m' ver ver'); auto.
           ++ apply offk_rm.
           ++ apply rPreP.
           ++ apply rR1.
           ++ intros s0 Es0. destruct (snoc_cases q) as [->|(y & z & ->)]; [rewrite app_nil_r, rPreP in Eqk; discriminate|].
              rewrite app_assoc, removelast_snoc. destruct (isPre (P ++ y) k) eqn:Ey.
              ** rewrite app_length in Lq. cbn in Lq. rewrite (onpath P nb) in Ey by (auto; lia).
                 assert (Ya : isPre y qc = true).
                 { destruct (le_lt_dec (length qs) (length y)) as [Hl|Hl].
                   - exfalso. assert (Z : isPre qs y = true) by (apply (isPre_two _ _ nb); auto).
                     rewrite (under_single_sub H m _ (P ++ y ++ [z]) s Eu) in Es0 by (rewrite isPre_app_iff; eapply isPre_trans; [exact Z|apply isPre_app]).
                     rewrite Ek, Eqk in Es0. discriminate.
                   - apply (isPre_two _ _ nb); auto; [|lia]. eapply isPre_trans; [|exact E]. apply isPre_app. }
                 rewrite (A y Ya), (IA' y Ya). reflexivity.
              ** apply inner_under. apply offk_rm. auto.
    + rewrite E'. eexists. eexists. split; [reflexivity|]. cbn [remPost]. split; auto. split; eauto.
      specialize (IA' [] eq_refl). now rewrite app_nil_r in IA'.
  - (* no peer: the only leaf of the tree *)
    rewrite S in Cnt. cbn in Cnt.
    assert (Root : P = [] /\ qc = []).
    { specialize (A qc (isPre_refl qc)). apply inner_true in A as [X|(l0 & _ & X)]; [lia|]. now apply app_eq_nil in X. }
    destruct Root as [EP0 Eqc].
    assert (Em : m = [s]).
    { apply len1; auto. rewrite <- (under_nil H m). rewrite <- Cnt. now rewrite EP0, Eqc. }
    assert (None1 : forall q, q <> [] -> length q <= 4 -> upd c (enc qs) None (enc q) = None).
    { intros q NE Lq. destruct (bits_dec q qs) as [->|NE2]; [apply upd_same|]. rewrite upd_enc_other by auto.
      destruct (isPre qs q) eqn:E2.
      - apply (below_none m ver c qs q); auto. rewrite Eu; auto.
      - destruct (isPre sb q) eqn:E3.
        + destruct (bits_dec q sb) as [->|NE3]; auto. apply (below_none m ver c sb q); auto; [rewrite S; cbn; lia|].
          unfold sb; destruct qc; discriminate.
        + exfalso. unfold qs, sb in *. rewrite Eqc in *. destruct q as [|y q]; [congruence|]. cbn in E2, E3. rewrite !andb_true_r in *.
          destruct y, b; discriminate. }
    assert (Root0 : exists h u, upd c (enc qs) None 0 = Some (Int h u)).
    { rewrite <- enc_nil, upd_enc_other by auto. pose proof (OK [] ltac:(cbn; lia)) as S0. unfold Smt_Proofs.slotOk in S0.
      specialize (A [] eq_refl). rewrite A in S0. destruct S0 as (u0 & -> & _). eauto. }
    destruct (onlyRoot_num H _ None1 Root0) as [N1 _]. rewrite N1. cbn [Nat.eqb].
    assert (UH : exists h, updateHashes (upd c (enc qs) None) (enc qs) v = Some (upd (upd c (enc qs) None) 0 (Some (Int h v)))).
    { destruct Root0 as (h & u & E0). unfold qs in *. rewrite Eqc in *. apply (uh_top b _ v h u). exact E0. }
    destruct UH as (h & E'). rewrite E'. eexists. eexists. split; [reflexivity|]. cbn [remPost]. split; auto. split; eauto.
    apply (onlyRoot_num H).
    + intros q NE Lq. rewrite <- enc_nil, upd_enc_other by auto. apply None1; auto.
    + exists h, v. apply upd_same.
Qed.

Lemma remove_loop_ok i : i <= 4 -> anc R m P (firstn (4 - i) nb) ->
  exists c' r, remove_loop H hparent ph i c (enc (firstn (4 - i) nb)) nb k d v = Some (c', r) /\ remPost c' r.
Proof.
  induction i as [|i IH]; intros Li A.
  - cbn [remove_loop]. rewrite Nat.sub_0_r in *. rewrite firstn_all2 in * by lia.
    destruct A as [A|(E & _)]; [|rewrite E in L4; discriminate].
    pose proof (OK nb ltac:(lia)) as S. unfold Smt_Proofs.slotOk in S. rewrite (A nb (isPre_refl nb)) in S.
    destruct S as (u & -> & _ & Hu). eexists. eexists. split; [reflexivity|]. cbn [remPost]. auto.
  - cbn [remove_loop].
    assert (Ei : childIndex (getBit nb i) (enc (firstn (4 - S i) nb)) = enc (firstn (4 - i) nb)).
    { rewrite <- enc_snoc. f_equal. apply getBit_firstn; auto. }
    rewrite Ei. pose proof (getBit_firstn nb i L4 ltac:(lia)) as Eg. set (qc := firstn (4 - S i) nb) in *. set (b := getBit nb i) in *.
    assert (Ls : length (qc ++ [b]) <= 4) by (rewrite Eg, firstn_length; lia).
    assert (Es : isPre (qc ++ [b]) nb = true) by (rewrite Eg; apply isPre_firstn_l).
    assert (HP : forall x, In x m -> lkey x = k -> In x (under m (P ++ firstn (4 - i) nb))).
    { intros x Hx Ex. apply in_under. split; auto. rewrite Ex, (onpath P nb); auto; [rewrite <- Eg; auto|rewrite <- Eg; lia]. }
    pose proof (OK _ Ls) as S. apply (slot_under H hparent ph R m ver P qc) in S; [|auto|apply rR1]. rewrite Eg in S.
    destruct (c (enc (firstn (4 - i) nb))) as [[s|h u]|] eqn:Ec.
    + destruct S as [Eu Ip]. destruct (bits_eqb (lkey s) k) eqn:Ek.
      * apply bits_eqb_spec in Ek. rewrite <- Eg in Eu |- *. apply removeLeaf_ok; auto.
        destruct A as [A|(A1 & A2 & A3)]; auto. exfalso. apply inner_pos in Ip. apply Ip. rewrite A1, app_nil_r. exact A3.
      * apply bits_eqb_neq in Ek. eexists. eexists. split; [reflexivity|]. cbn [remPost]. split; auto.
        intros X. apply in_map_iff in X as (x & Ex & Hx). specialize (HP x Hx Ex). rewrite Eu in HP. destruct HP as [->|[]]. contradiction.
    + destruct S as (I & Eh & Hv). apply IH; auto; [lia|]. left.
      intros q Eq. destruct A as [A|(A1 & A2 & A3)].
      * rewrite <- Eg in Eq. destruct (pre_snoc_cases _ _ _ Eq) as [->|X]; auto. now rewrite Eg.
      * exfalso. apply inner_pos in I. apply I. eapply under_mono_nil; [apply isPre_app|exact A3].
    + eexists. eexists. split; [reflexivity|]. cbn [remPost]. split; auto.
      intros X. apply in_map_iff in X as (x & Ex & Hx). specialize (HP x Hx Ex). rewrite S in HP. destruct HP.
Qed.

Lemma rgetNibble_ok : getNibble k d = Some nb.
Proof.
  unfold getNibble. destruct (Nat.ltb_spec d MAX_NIBBLES); [|lia]. f_equal. rewrite <- LP.
  clear - EP L4. apply isPre_spec in EP as [r ->]. rewrite <- app_assoc, skipn_app, skipn_all, Nat.sub_diag. cbn [app skipn].
  rewrite firstn_app, L4, Nat.sub_diag, <- L4, firstn_all. apply app_nil_r.
Qed.

Lemma nodeRemove_ok : inner R m P = true \/ (P = R /\ under m P = []) ->
  exists c' r, nodeRemove H hparent ph c k d v = Some (c', r) /\ remPost c' r.
Proof.
  intros I. unfold nodeRemove. rewrite rgetNibble_ok.
  change (remove_loop H hparent ph 4 c 0 nb k d v) with (remove_loop H hparent ph 4 c (enc (firstn (4 - 4) nb)) nb k d v).
  apply remove_loop_ok; auto. cbn [Nat.sub firstn].
  destruct I as [I|[I1 I2]].
  - left. intros q Eq. apply isPre_nil_r in Eq as ->. now rewrite app_nil_r.
  - right. auto.
Qed.

(** * unlinkChild, when the node below has been removed and its last leaf is promoted *)
Lemma unlink_loop_ok p : forall fuel a cc,
  length a + 1 <= fuel -> isPre a nb = true -> Clr a cc -> cc (enc a) = Some (Leaf p) -> under m' (P ++ a) = [p] ->
  (forall q, isPre q a = true -> inner R m (P ++ q) = true) ->
  exists c' r, unlink_loop H hparent ph fuel cc (enc a) v = Some (c', r) /\
    ((r = None /\ nodeOk R m' ver' P c' /\ safeToRemove c' = false /\ inner R m' P = true) \/
     (r = Some p /\ under m' P = [p] /\ allNone c')).
Proof.
  induction fuel as [|fuel IH]; intros a cc LF Ea CL Ec Up IA; [lia|].
  cbn [unlink_loop]. destruct (snoc_cases a) as [E|(a0 & x & E)]; rewrite E in *; clear a E.
  - rewrite enc_nil in *. change (parentIndex 0) with (@None nat). cbv iota beta. rewrite Ec.
    assert (AN : allNone (upd cc 0 None)).
    { intros q Lq. destruct (bits_dec q []) as [->|NE]; [rewrite enc_nil; apply upd_same|].
      rewrite <- enc_nil, upd_enc_other by auto. specialize (CL q Lq). cbn [isPre] in CL. auto. }
    destruct (allNone_num H _ AN) as [N0 _]. rewrite N0. cbn [Nat.eqb]. eexists. eexists. split; [reflexivity|]. right.
    rewrite app_nil_r in Up. auto.
  - rewrite enc_snoc, parent_child, <- enc_snoc, peer_enc. unfold isEmpty.
    assert (La : length (a0 ++ [x]) <= 4) by (apply isPre_len in Ea; lia).
    assert (Nsib : isPre (a0 ++ [x]) (a0 ++ [negb x]) = false).
    { apply not_true_iff_false. intros X. rewrite isPre_app_iff in X. cbn in X. destruct x; discriminate. }
    assert (Lsib : length (a0 ++ [negb x]) <= 4) by (rewrite app_length in *; cbn in *; lia).
    assert (Ecs : cc (enc (a0 ++ [negb x])) = c (enc (a0 ++ [negb x]))).
    { pose proof (CL (a0 ++ [negb x]) Lsib) as X. rewrite Nsib in X. auto. }
    assert (IA0 : forall q, isPre q a0 = true -> inner R m (P ++ q) = true).
    { intros q Eq. apply IA. eapply isPre_trans; [exact Eq|apply isPre_app]. }
    destruct (cc (enc (a0 ++ [negb x]))) as [y|] eqn:Ey.
    + rewrite Ec. cbn [hasValue orb].
      assert (Us : under m' (P ++ a0 ++ [negb x]) <> []).
      { pose proof (OK _ Lsib) as S. rewrite <- Ecs in S. apply (slot_under H hparent ph R m ver P a0) in S; [|left; auto|apply rR1].
        rewrite (offk_rm H k m).
        - destruct y as [s|h u]; [destruct S as [S _]; rewrite S; discriminate|]. destruct S as [S _]. now apply inner_pos in S.
        - rewrite (onpath P nb) by (auto; lia). apply not_true_iff_false. intros X.
          pose proof (isPre_snoc_uniq _ _ _ _ X Ea). destruct x; discriminate. }
      destruct (place_ok a0 x p cc) as (c' & E' & OK' & Sf & L2); auto.
      rewrite E'. eexists. eexists. split; [reflexivity|]. left. split; auto. split; auto. split; auto. apply inner_len2; auto.
    + assert (N0 : a0 <> a0 ++ [x]) by (intros X; apply (f_equal (@length bool)) in X; rewrite app_length in X; cbn in X; lia).
      destruct (climb a0 x p cc (upd (upd cc (enc a0) (cc (enc (a0 ++ [x])))) (enc (a0 ++ [x])) None)) as [Up0 CL0]; auto.
      * apply IA0, isPre_refl.
      * apply upd_same.
      * intros q NE1 NE2. rewrite !upd_enc_other; auto.
      * apply IH; auto.
        -- rewrite app_length in LF. cbn in LF. lia.
        -- eapply isPre_snoc_inv; eauto.
        -- rewrite upd_enc_other by auto. rewrite upd_same. exact Ec.
Qed.

Lemma unlink_ok p : inner R m (P ++ nb) = true -> (forall q, isPre q nb = true -> inner R m (P ++ q) = true) -> under m' (P ++ nb) = [p] ->
  exists c' r, unlinkChild H hparent ph c nb v (Some p) = Some (c', r) /\
    ((r = None /\ nodeOk R m' ver' P c' /\ safeToRemove c' = false /\ inner R m' P = true) \/
     (r = Some p /\ under m' P = [p] /\ allNone c')).
Proof.
  intros I IA Up. unfold unlinkChild. rewrite nibbleToIndex_enc by auto.
  set (cc := upd c (enc nb) (Some (Leaf p))).
  assert (CL : Clr nb cc).
  { intros q Lq. destruct (isPre nb q) eqn:E.
    - intros NE. exfalso. apply NE. symmetry. apply isPre_eq; auto. lia.
    - unfold cc. apply upd_enc_other. intros ->. rewrite isPre_refl in E. discriminate. }
  assert (Ec : cc (enc nb) = Some (Leaf p)) by apply upd_same.
  destruct (unlink_loop_ok p 31 nb cc ltac:(lia) (isPre_refl nb) CL Ec Up IA) as (c' & r & E' & Post).
  destruct (peerIndex cc (enc nb)) as [pi|] eqn:Ep.
  - assert (E2 : unlink_loop H hparent ph 31 cc (enc nb) v = match updateHashes cc (enc nb) v with Some c' => Some (c', None) | None => None end).
    { change 31 with (S 30). generalize 30 as fu. intros fu. cbn [unlink_loop]. destruct (snoc_cases nb) as [X|(a0 & x & X)]; [rewrite X in L4; discriminate|].
      assert (Epar : parentIndex (enc nb) = Some (enc a0)) by (rewrite X, enc_snoc; apply parent_child).
      rewrite Epar, Ep, Ec. reflexivity. }
    rewrite E2 in E'. exists c', r. split; auto.
  - exists c', r. split; auto.
Qed.

End Rem.
End S.
