(** Proofs for the sparse Merkle tree, part 3: BatchedInternalNode::insert. *)
From Coq Require Import List NArith Bool Arith Lia.
From Verif Require Import Smt_Model Smt_Proofs Smt_Proofs2.
Import ListNotations.
Set Default Proof Using "Type".

(** in-node paths on the way to a key *)
Lemma onpath P nb k q : isPre (P ++ nb) k = true -> length q <= length nb -> isPre (P ++ q) k = isPre q nb.
Proof.
  intros E L. apply isPre_spec in E as [r ->]. rewrite <- app_assoc, isPre_app_iff.
  destruct (isPre q nb) eqn:F.
  - eapply isPre_trans; [exact F|apply isPre_app].
  - apply not_true_iff_false. intros G. rewrite (isPre_two q nb (nb ++ r)) in F; auto; [discriminate|apply isPre_app].
Qed.
Lemma pre_snoc_cases q qc b : isPre q (qc ++ [b]) = true -> q = qc ++ [b] \/ isPre q qc = true.
Proof. intros E. destruct (bits_dec q (qc ++ [b])) as [->|NE]; auto. right. apply ppre_snoc with (b := b). now apply ppre_spec. Qed.
Lemma isPre_nil_r q : isPre q [] = true -> q = [].
Proof. destruct q; auto; discriminate. Qed.

Section S1.
Variable H : Type.
Notation leaf := (leaf H).
Notation under := (under H).
Notation inner := (inner H).
Notation rm := (rm H).
Notation ins := (ins H).

Lemma under_single_sub m Q Q' s : under m Q = [s] -> isPre Q Q' = true -> under m Q' = if isPre Q' (lkey s) then [s] else [].
Proof. intros E P. rewrite <- (under_app H m Q Q' P), E. unfold Smt_Proofs.under. cbn. now destruct (isPre Q' (lkey s)). Qed.
Lemma inner_small R m Q : length (under m Q) <= 1 -> Q <> R -> inner R m Q = false.
Proof.
  intros L NE. unfold Smt_Proofs.inner. destruct (under m Q) as [|a [|b u]]; auto; [|cbn in L; lia]. now apply bits_eqb_neq.
Qed.
Lemma under_len_sub m Q Q' : isPre Q Q' = true -> length (under m Q') <= length (under m Q).
Proof.
  intros P. rewrite <- (under_app H m Q Q' P). unfold Smt_Proofs.under at 1. generalize (under m Q) as u. intros u.
  induction u as [|a u IH]; cbn; auto. destruct (isPre Q' (lkey a)); cbn; lia.
Qed.
Lemma rm_under_sub k m Q Q' : isPre Q Q' = true -> rm k (under m Q) = [] -> rm k (under m Q') = [].
Proof. intros P E. rewrite <- (under_app H m Q Q' P), <- under_rm, E. reflexivity. Qed.
Lemma rm_nil_len m k : wf H m -> rm k m = [] -> length m <= 1.
Proof. intros W E. pose proof (len_rm_le H k m W) as L. rewrite E in L. cbn in L. lia. Qed.
End S1.

Section S.
Variable H : Type.
Variable hparent : H -> H -> H.
Variable ph : H.
Notation leaf := (leaf H).
Notation node := (node H).
Notation child := (child H).
Notation under := (under H).
Notation inner := (inner H).
Notation lslot := (lslot H).
Notation thash := (thash H hparent ph).
Notation wf := (wf H).
Notation rm := (rm H).
Notation slotOk := (slotOk H hparent ph).
Notation nodeOk := (nodeOk H hparent ph).
Notation updateHashes := (updateHashes H hparent ph).
Notation ins := (ins H).
Notation offk := (offk H).
Notation pend := (pend H hparent ph).
Notation anc := (anc H).

Section Ins.
Set Default Proof Using "All".
Variables (R P nb : bits) (m : list leaf) (ver ver' : bits -> N) (c : node) (l : leaf) (d : nat) (v : N).
Hypothesis W : wf m.
Hypothesis Lk : length (lkey l) = KL.
Hypothesis LR : length R <= length P.
Hypothesis LP : length P = 4 * d.
Hypothesis Ld : d < MAX_NIBBLES.
Hypothesis L4 : length nb = 4.
Hypothesis EP : isPre (P ++ nb) (lkey l) = true.
Hypothesis OK : nodeOk R m ver P c.
Hypothesis V' : ver' P = v.
Hypothesis VO : veroff (lkey l) ver ver'.
Notation k := (lkey l).
Notation m' := (ins l m).

Lemma LRK : length R < KL.
Proof. unfold KL, MAX_NIBBLES in *. lia. Qed.
Lemma isPreP : isPre P k = true.
Proof. eapply isPre_trans; [apply isPre_app|exact EP]. Qed.
Lemma notR q : q <> [] -> P ++ q <> R.
Proof. intros NE E. apply (f_equal (@length bool)) in E. rewrite app_length in E. destruct q; cbn in E; [congruence|lia]. Qed.

Lemma ins_anc qc q : anc R m P qc -> isPre q qc = true -> inner R m' (P ++ q) = true.
Proof.
  intros A E. destruct (anc_sub H R m P qc q A E) as [I|(E1 & E2 & _)].
  - apply inner_ins; auto.
  - rewrite E1, app_nil_r, E2. apply inner_ins_R. rewrite <- E2. apply isPreP.
Qed.

(** a slot beside the path, whose parent is the last internal node of the path or above it *)
Lemma move_high qc q : anc R m P qc -> length q <= 4 -> isPre (P ++ q) k = false ->
  (isPre (P ++ removelast q) k = true -> under m (P ++ q) <> [] -> isPre (removelast q) qc = true) ->
  slotOk R m' ver' P q (c (enc q)).
Proof.
  intros A L E HA. apply (slot_move H hparent ph R k m m' ver ver'); auto.
  - apply offk_ins.
  - apply isPreP.
  - intros s0 Es. assert (NQ : q <> []) by (intros ->; rewrite app_nil_r, isPreP in E; discriminate).
    destruct (snoc_cases q) as [->|(a & b & ->)]; [congruence|].
    rewrite app_assoc, removelast_snoc. rewrite removelast_snoc in HA.
    destruct (isPre (P ++ a) k) eqn:Ea.
    + specialize (HA eq_refl). rewrite Es in HA. specialize (HA ltac:(discriminate)).
      rewrite (ins_anc qc a A HA). destruct (anc_sub H R m P qc a A HA) as [I|(E1 & E2 & E0)]; auto.
      exfalso. assert (X : under m (P ++ a ++ [b]) = []) by (eapply under_mono_nil; [apply isPre_app|exact E0]). congruence.
    + apply inner_under. apply offk_ins. auto.
Qed.

(** Writing the leaf into a slot that is empty or holds the same key. *)
Lemma insert_leaf_ok qc b : anc R m P qc -> length (qc ++ [b]) <= 4 -> isPre (qc ++ [b]) nb = true ->
  rm k (under m (P ++ qc ++ [b])) = [] ->
  exists c', updateHashes (upd c (enc (qc ++ [b])) (Some (Leaf l))) (enc (qc ++ [b])) v = Some c' /\ nodeOk R m' ver' P c'.
Proof.
  intros A L E ER. set (qs := qc ++ [b]) in *.
  assert (NQ : qs <> []) by (unfold qs; destruct qc; discriminate).
  assert (W' : wf m') by (apply wf_ins'; auto).
  assert (EK : isPre (P ++ qs) k = true) by (rewrite (onpath P nb); auto; lia).
  assert (Lu : length (under m (P ++ qs)) <= 1) by (eapply rm_nil_len; [apply wf_under; auto|exact ER]).
  apply (updateHashes_ok' H hparent ph R m' ver' P qs); auto.
  - apply LRK.
  - intros q E'. apply (ins_anc qc); auto. apply ppre_snoc in E'. auto.
  - intros q E' l0. assert (E2 := E'). apply ppre_spec in E2 as [_ NE]. rewrite upd_enc_other by auto. unfold qs in E'. apply ppre_snoc in E'.
    eapply slot_noleaf; eauto. apply OK. apply isPre_len in E'. unfold qs in L. rewrite app_length in L. lia.
  - intros q Lq NP. destruct (bits_dec q qs) as [->|NE].
    + rewrite upd_same. unfold Smt_Proofs.slotOk. 
      assert (Eu : under m' (P ++ qs) = [l]) by (rewrite under_ins, EK, ER; auto).
      rewrite inner_small; [|rewrite Eu; auto|apply notR; auto].
      rewrite (proj2 (bits_eqb_neq _ _) (notR qs NQ)).
      unfold Smt_Proofs.lslot. rewrite Eu. unfold qs. rewrite app_assoc, removelast_snoc.
      now rewrite (ins_anc qc qc A (isPre_refl qc)).
    + rewrite upd_enc_other by auto.
      assert (NPq : isPre q qs = false) by (apply not_true_iff_false; intros X; rewrite (proj2 (ppre_spec q qs)) in NP; auto; discriminate).
      destruct (isPre (P ++ q) k) eqn:Ek.
      * (* deeper on the path *)
        assert (E2 : isPre qs q = true).
        { destruct (le_lt_dec (length qs) (length q)) as [Hl|Hl].
          - assert (X : isPre (P ++ qs) (P ++ q) = true) by (apply (isPre_two _ _ k); auto; rewrite !app_length; lia).
            now rewrite isPre_app_iff in X.
          - exfalso. assert (X : isPre (P ++ q) (P ++ qs) = true) by (apply (isPre_two _ _ k); auto; rewrite !app_length; lia).
            rewrite isPre_app_iff in X. congruence. }
        destruct (snoc_cases q) as [->|(a & b' & ->)]; [rewrite isPre_firstn in E2; destruct qs; discriminate|].
        destruct (pre_snoc_cases _ _ _ E2) as [X|E3]; [congruence|].
        assert (Pq : isPre (P ++ qs) (P ++ a ++ [b']) = true) by now rewrite isPre_app_iff.
        assert (Pa : isPre (P ++ qs) (P ++ a) = true) by now rewrite isPre_app_iff.
        assert (Na : a <> []) by (intros ->; apply isPre_nil_r in E3; congruence).
        assert (Nab : a ++ [b'] <> []) by (destruct a; discriminate).
        assert (EA : isPre (P ++ a) k = true) by (eapply isPre_trans; [|exact Ek]; rewrite isPre_app_iff; apply isPre_app).
        pose proof (under_len_sub H m _ _ Pq) as L1. pose proof (under_len_sub H m _ _ Pa) as L2.
        pose proof (OK (a ++ [b']) Lq) as S. unfold Smt_Proofs.slotOk in S |- *.
        rewrite (inner_small H R m) in S; [|lia|apply notR; auto].
        rewrite (proj2 (bits_eqb_neq _ _) (notR _ Nab)) in *.
        assert (Eu : under m' (P ++ a ++ [b']) = [l]) by (rewrite under_ins, Ek, (rm_under_sub H k m _ _ Pq ER); auto).
        assert (Eua : under m' (P ++ a) = [l]) by (rewrite under_ins, EA, (rm_under_sub H k m _ _ Pa ER); auto).
        rewrite (inner_small H R m'); [|rewrite Eu; auto|apply notR; auto].
        rewrite S. unfold Smt_Proofs.lslot. rewrite Eu. rewrite (app_assoc P a [b']), removelast_snoc.
        rewrite (inner_small H R m'); [|rewrite Eua; auto|apply notR; auto].
        rewrite (inner_small H R m); [|lia|apply notR; auto].
        destruct (under m ((P ++ a) ++ [b'])) as [|x [|y z]]; reflexivity.
      * (* beside the path *)
        destruct (snoc_cases q) as [->|(a & b' & ->)]; [rewrite app_nil_r, isPreP in Ek; discriminate|].
        destruct (isPre (P ++ a) k) eqn:EA.
        2: { apply (move_high qc); auto. intros X. rewrite removelast_snoc in X. congruence. }
        rewrite app_length in Lq. cbn in Lq.
        assert (EA' := EA). rewrite (onpath P nb) in EA' by (auto; lia).
        destruct (isPre a qc) eqn:Eac.
        { apply (move_high qc); auto; [rewrite app_length; cbn; lia|]. intros _ _. now rewrite removelast_snoc. }
        assert (E3 : isPre qs a = true).
        { destruct (le_lt_dec (length qs) (length a)) as [Hl|Hl].
          - apply (isPre_two _ _ nb); auto.
          - exfalso. assert (X : isPre a qs = true) by (apply (isPre_two _ _ nb); auto; lia).
            unfold qs in X, Hl. destruct (pre_snoc_cases _ _ _ X) as [->|Y]; [lia|congruence]. }
        assert (Na : a <> []) by (intros ->; apply isPre_nil_r in E3; congruence).
        assert (Pa : isPre (P ++ qs) (P ++ a) = true) by now rewrite isPre_app_iff.
        pose proof (under_len_sub H m _ _ Pa) as L2.
        apply (slot_move H hparent ph R k m m' ver ver'); auto.
        -- apply offk_ins.
        -- apply isPreP.
        -- intros s0 _. rewrite app_assoc, removelast_snoc.
           rewrite (inner_small H R m); [|lia|apply notR; auto].
           apply inner_small; [|apply notR; auto]. rewrite under_ins, EA, (rm_under_sub H k m _ _ Pa ER). auto.
        -- apply OK. rewrite app_length; cbn; lia.
Qed.

(** * Splitting *)
Lemma insertInternal_ok (c0 : node) u i : u <= i -> i <= 4 ->
  exists c2, insertInternal_loop ph i c0 (enc (firstn (4 - i) nb)) v nb u = (c2, enc (firstn (4 - u) nb)) /\
    forall q, length q <= 4 -> c2 (enc q) = if isPre q nb && (4 - i <? length q) && (length q <=? 4 - u) then Some (Int ph v) else c0 (enc q).
Proof.
  revert c0. induction i as [|i IH]; intros c0 Lu Li.
  - assert (u = 0) as -> by lia. exists c0. split; auto. intros q Lq.
    destruct (Nat.ltb_spec (4 - 0) (length q)); [lia|]. now rewrite andb_false_r.
  - cbn [insertInternal_loop]. destruct (Nat.leb_spec u i) as [Hu|Hu].
    + assert (Ei : childIndex (getBit nb i) (enc (firstn (4 - S i) nb)) = enc (firstn (4 - i) nb)).
      { rewrite <- enc_snoc. f_equal. apply getBit_firstn; auto. }
      rewrite Ei. destruct (IH (upd c0 (enc (firstn (4 - i) nb)) (Some (Int ph v))) Hu ltac:(lia)) as (c2 & E2 & F2).
      exists c2. split; auto. intros q Lq. rewrite F2 by auto.
      destruct (isPre q nb) eqn:Eq; cbn [andb].
      * destruct (Nat.ltb_spec (4 - i) (length q)), (Nat.ltb_spec (4 - S i) (length q)), (Nat.leb_spec (length q) (4 - u)); cbn [andb]; try lia; auto;
        try (rewrite upd_enc_other; auto; intros ->; rewrite firstn_length in *; lia).
        assert (q = firstn (4 - i) nb) as ->; [|apply upd_same].
        apply isPre_firstn in Eq. rewrite Eq. f_equal. lia.
      * rewrite upd_enc_other; auto. intros ->. rewrite isPre_firstn_l in Eq. discriminate.
    + assert (u = S i) as -> by lia. exists c0. split; auto. intros q Lq.
      destruct (Nat.ltb_spec (4 - S i) (length q)), (Nat.leb_spec (length q) (4 - S i)); cbn [andb]; try lia;
      now rewrite ?andb_false_r.
Qed.

Lemma firstn_snoc n (q : bits) : n < length q -> exists b, firstn (S n) q = firstn n q ++ [b].
Proof.
  clear. revert q; induction n as [|n IH]; intros [|x q] L; cbn [length] in L; try lia.
  - now exists x.
  - destruct (IH q ltac:(lia)) as [b E]. exists b. cbn [firstn app] in *. now rewrite E.
Qed.

Lemma split_ok qc b s : anc R m P qc -> length (qc ++ [b]) <= 4 -> isPre (qc ++ [b]) nb = true ->
  under m (P ++ qc ++ [b]) = [s] -> lkey s <> k -> lver l = v -> inner R m (P ++ qc) = true ->
  exists c' r, splitNode H hparent ph c (enc (qc ++ [b])) s l d = Some (c', r) /\
    match r with
    | InsComplete st => st = None /\ nodeOk R m' ver' P c'
    | InsCreateNew s' => s' = s /\ under m (P ++ nb) = [s] /\ pend R m' ver' P nb c' /\ c' 0 = c 0
    | InsExisting _ => False
    end.
Proof.
  intros A L E Eu NK Vl Ip. set (qs := qc ++ [b]) in *.
  assert (NQ : qs <> []) by (unfold qs; destruct qc; discriminate).
  assert (W' : wf m') by (apply wf_ins'; auto).
  assert (EK : isPre (P ++ qs) k = true) by (rewrite (onpath P nb); auto; lia).
  assert (HS : In s m /\ isPre (P ++ qs) (lkey s) = true) by (apply in_under; rewrite Eu; cbn; auto).
  destruct HS as [Is EPs].
  assert (Ls : length (lkey s) = KL) by exact (wf_len H m s W Is).
  assert (qsE : qs = firstn (length qs) nb) by (apply isPre_firstn; auto).
  assert (Lqc : length qs = S (length qc)) by (unfold qs; rewrite app_length; cbn; lia).
  (* under qs, for any deeper path on the way to k *)
  assert (U' : forall q, isPre qs q = true -> isPre (P ++ q) k = true -> under m' (P ++ q) = l :: (if isPre (P ++ q) (lkey s) then [s] else [])).
  { intros q Eq Ek. rewrite under_ins, Ek. f_equal.
    rewrite (under_single_sub H m _ (P ++ q) s Eu) by now rewrite isPre_app_iff.
    destruct (isPre (P ++ q) (lkey s)); auto. cbn. rewrite (proj2 (bits_eqb_neq _ _) NK). reflexivity. }
  unfold splitNode. rewrite height_enc by auto. rewrite Vl.
  set (c1 := upd c (enc qs) (Some (Int ph v))).
  assert (C1 : forall q, q <> qs -> c1 (enc q) = c (enc q)) by (intros; unfold c1; apply upd_enc_other; auto).
  assert (C1s : c1 (enc qs) = Some (Int ph v)) by apply upd_same.
  assert (NLc : forall q, isPre q qc = true -> forall l0, c (enc q) <> Some (Leaf l0)).
  { intros q Eq. eapply slot_noleaf; eauto. apply OK. apply isPre_len in Eq. lia. }
  assert (C10 : c1 0 = c 0) by (rewrite <- enc_nil; apply C1; auto).
  destruct (Nat.eqb_spec (4 - length qs) 0) as [E0|E0].
  { (* level 0 *)
    assert (qs = nb) by (rewrite qsE; apply firstn_all2; lia).
    eexists. eexists. split; [reflexivity|]. cbv iota beta. split; auto. split; [congruence|]. split; auto.
    intros q Lq. destruct (isPre q nb) eqn:Eq.
    - intros NE l0. rewrite C1 by congruence. apply NLc.
      rewrite <- H0 in Eq. unfold qs in Eq. destruct (pre_snoc_cases _ _ _ Eq) as [->|X]; auto; congruence.
    - rewrite C1 by (intros ->; congruence). apply (move_high qc); auto.
      + rewrite (onpath P nb) by (auto; lia). auto.
      + destruct (snoc_cases q) as [->|(a & b' & ->)]; [discriminate|]. rewrite removelast_snoc. rewrite app_length in Lq. cbn in Lq.
        rewrite (onpath P nb) by (auto; lia). intros Ea _. rewrite <- H0 in Ea. unfold qs in Ea.
        destruct (pre_snoc_cases _ _ _ Ea) as [->|X]; auto. exfalso. fold qs in Lq. lia. }
  unfold prefix_bits_from. destruct (Nat.ltb_spec d MAX_NIBBLES); [|lia].
  set (t := prefix_bits (lkey s) k).
  assert (Ht : length P + length qs <= t).
  { unfold t. rewrite <- app_length. apply prefix_bits_common; auto. }
  assert (HtK : t < KL) by (unfold t; rewrite <- Ls; apply prefix_bits_len; auto; congruence).
  destruct (Nat.ltb_spec (d * 4) t) as [_|X]; [|lia].
  set (common := t - d * 4).
  assert (Hc : length qs <= common) by (unfold common; lia).
  destruct (Nat.eqb_spec common 0); [lia|].
  assert (GN : getNibble k d = Some nb).
  { unfold getNibble. destruct (Nat.ltb_spec d MAX_NIBBLES); [|lia]. f_equal. rewrite <- LP.
    clear - EP L4. apply isPre_spec in EP as [r ->]. rewrite <- app_assoc, skipn_app, skipn_all, Nat.sub_diag. cbn [app skipn].
    rewrite firstn_app, L4, Nat.sub_diag, <- L4, firstn_all. apply app_nil_r. }
  rewrite GN. unfold insertInternalChildren. rewrite height_enc by auto.
  set (u := if common <? 4 then 4 - common else 0).
  assert (Hu : u <= 4 - length qs) by (unfold u; destruct (Nat.ltb_spec common 4); lia).
  destruct (insertInternal_ok c1 u (4 - length qs) Hu ltac:(lia)) as (c2 & E2 & F2).
  replace (4 - (4 - length qs)) with (length qs) in E2 by lia. rewrite <- qsE in E2. rewrite E2.
  replace (4 - (4 - length qs)) with (length qs) in F2 by lia.
  assert (C20 : c2 0 = c 0).
  { rewrite <- enc_nil, (F2 []) by (cbn; lia). cbn [length isPre]. destruct (Nat.ltb_spec (length qs) 0); [lia|]. cbn [andb]. exact C10. }
  (* c2 on the path down to the divergence has no leaf; beside it equals c *)
  assert (F2on : forall q, isPre q nb = true -> length q <= 4 - u -> forall l0, c2 (enc q) <> Some (Leaf l0)).
  { intros q Eq Lq l0. rewrite F2 by lia. rewrite Eq. cbn [andb].
    destruct (Nat.ltb_spec (length qs) (length q)), (Nat.leb_spec (length q) (4 - u)); cbn [andb]; try discriminate; try lia.
    destruct (bits_dec q qs) as [->|NE]; [rewrite C1s; discriminate|]. rewrite C1 by auto. apply NLc.
    assert (X : isPre q qs = true) by (apply (isPre_two _ _ nb); auto).
    unfold qs in X. destruct (pre_snoc_cases _ _ _ X) as [->|Y]; auto; unfold qs in NE; congruence. }
  assert (F2off : forall q, length q <= 4 -> isPre q nb = false -> c2 (enc q) = c (enc q)).
  { intros q Lq Eq. rewrite F2 by auto. rewrite Eq. cbn [andb]. apply C1. intros ->. congruence. }
  destruct (Nat.ltb_spec common 4) as [Hc4|Hc4].
  - (* two leaves in this node *)
    assert (Eu' : 4 - u = common) by (unfold u; lia). rewrite Eu' in *. 
    set (qm := firstn common nb) in *.
    assert (Lqm : length qm = common) by (unfold qm; rewrite firstn_length; lia).
    assert (Eqm : isPre qm nb = true) by apply isPre_firstn_l.
    unfold insertTwoLeafChildren. set (bb := getBit nb (4 - common - 1)).
    assert (Eq1 : qm ++ [bb] = firstn (S common) nb).
    { unfold qm, bb. replace common with (4 - S (4 - common - 1)) at 1 by lia. rewrite getBit_firstn by (auto; lia). f_equal. lia. }
    assert (I1 : (if bb then rightChildIndex (enc qm) else leftChildIndex (enc qm)) = enc (qm ++ [bb])) by (rewrite enc_snoc; reflexivity).
    assert (I2 : (if bb then leftChildIndex (enc qm) else rightChildIndex (enc qm)) = enc (qm ++ [negb bb])) by (rewrite enc_snoc; destruct bb; reflexivity).
    rewrite I1, I2.
    assert (E1nb : isPre (qm ++ [bb]) nb = true) by (rewrite Eq1; apply isPre_firstn_l).
    assert (E1k : isPre (P ++ qm ++ [bb]) k = true) by (rewrite (onpath P nb); auto; rewrite app_length; cbn; lia).
    assert (Emk : isPre (P ++ qm) k = true) by (rewrite (onpath P nb); auto; lia).
    assert (Ems : isPre (P ++ qm) (lkey s) = true).
    { apply (common_pre k). auto. rewrite app_length, Lqm, prefix_bits_sym. fold t. lia. }
    assert (E2s : isPre (P ++ qm ++ [negb bb]) (lkey s) = true).
    { destruct (isPre_snoc_or _ _ Ems) as [X|[b2 X]].
      - apply (f_equal (@length bool)) in X. rewrite app_length in X. lia.
      - rewrite app_assoc. assert (b2 = negb bb) as <-; auto.
        destruct (bool_dec b2 bb) as [->|NB]; [|destruct b2, bb; congruence || reflexivity].
        exfalso. pose proof (prefix_bits_common _ _ _ X ltac:(rewrite <- app_assoc; exact E1k)) as Y.
        fold t in Y. rewrite !app_length in Y. cbn in Y. lia. }
    assert (E1s : isPre (P ++ qm ++ [bb]) (lkey s) = false).
    { apply not_true_iff_false. intros X. rewrite app_assoc in X, E2s. pose proof (isPre_snoc_uniq _ _ _ _ X E2s). destruct bb; discriminate. }
    assert (E2k : isPre (P ++ qm ++ [negb bb]) k = false).
    { apply not_true_iff_false. intros X. rewrite app_assoc in X, E1k. pose proof (isPre_snoc_uniq _ _ _ _ X E1k). destruct bb; discriminate. }
    assert (Eqsm : isPre qs qm = true) by (apply (isPre_two _ _ nb); auto; lia).
    assert (Im : inner R m' (P ++ qm) = true).
    { apply inner_len2. rewrite U', Ems by auto. cbn; lia. }
    set (c3 := upd (upd c2 (enc (qm ++ [bb])) (Some (Leaf l))) (enc (qm ++ [negb bb])) (Some (Leaf s))).
    assert (N12 : qm ++ [bb] <> qm ++ [negb bb]) by (intros X; apply app_inv_head in X; destruct bb; discriminate).
    destruct (updateHashes_ok' H hparent ph R m' ver' P (qm ++ [bb]) c3 v) as (c' & Ec' & OK'); auto.
    + apply LRK.
    + destruct qm; discriminate.
    + rewrite app_length. cbn. lia.
    + intros q Eq. apply ppre_snoc in Eq.
      destruct (le_lt_dec (length qs) (length q)) as [Hl|Hl].
      * apply inner_len2. rewrite U'.
        -- replace (isPre (P ++ q) (lkey s)) with true; [cbn; lia|]. symmetry. eapply isPre_trans; [|exact Ems]. now rewrite isPre_app_iff.
        -- apply (isPre_two _ _ qm); auto.
        -- eapply isPre_trans; [|exact Emk]. now rewrite isPre_app_iff.
      * apply (ins_anc qc); auto. apply (isPre_two _ _ qm); auto; try lia. eapply isPre_trans; [|exact Eqsm]. apply isPre_app.
    + intros q Eq l0. apply ppre_snoc in Eq. unfold c3.
      assert (length q <= common) by (apply isPre_len in Eq; lia).
      rewrite !upd_enc_other; try (intros ->; rewrite app_length in *; cbn in *; lia).
      apply F2on; auto. eapply isPre_trans; eauto.
    + intros q Lq NP. destruct (bits_dec q (qm ++ [negb bb])) as [->|NE2].
      { unfold c3. rewrite upd_same. unfold Smt_Proofs.slotOk.
        assert (X : under m' (P ++ qm ++ [negb bb]) = [s]).
        { rewrite under_ins, E2k. rewrite (under_single_sub H m _ _ s Eu); [now rewrite E2s|].
          rewrite isPre_app_iff. eapply isPre_trans; [exact Eqsm|apply isPre_app]. }
        assert (NN : qm ++ [negb bb] <> []) by (destruct qm; discriminate).
        rewrite inner_small; [|rewrite X; auto|apply notR; auto].
        rewrite (proj2 (bits_eqb_neq _ _) (notR _ NN)). unfold Smt_Proofs.lslot. rewrite X.
        rewrite app_assoc, removelast_snoc, Im. reflexivity. }
      unfold c3. rewrite upd_enc_other by auto.
      destruct (bits_dec q (qm ++ [bb])) as [->|NE1].
      { rewrite upd_same. unfold Smt_Proofs.slotOk.
        assert (X : under m' (P ++ qm ++ [bb]) = [l]).
        { rewrite U', E1s; auto. eapply isPre_trans; [exact Eqsm|apply isPre_app]. }
        assert (NN : qm ++ [bb] <> []) by (destruct qm; discriminate).
        rewrite inner_small; [|rewrite X; auto|apply notR; auto].
        rewrite (proj2 (bits_eqb_neq _ _) (notR _ NN)). unfold Smt_Proofs.lslot. rewrite X.
        rewrite app_assoc, removelast_snoc, Im. reflexivity. }
      rewrite upd_enc_other by auto.
      assert (NPq : isPre q (qm ++ [bb]) = false) by (apply not_true_iff_false; intros X; rewrite (proj2 (ppre_spec _ _)) in NP; auto; discriminate).
      destruct (isPre q nb) eqn:Eq.
      * (* deeper than the leaf, on the path of k *)
        assert (Lq2 : S common < length q).
        { destruct (le_lt_dec (length q) (S common)); [|lia]. exfalso.
          assert (X : isPre q (qm ++ [bb]) = true) by (apply (isPre_two _ _ nb); auto; rewrite app_length; cbn; lia). congruence. }
        assert (E3 : isPre (qm ++ [bb]) q = true) by (apply (isPre_two _ _ nb); auto; rewrite app_length; cbn; lia).
        destruct (snoc_cases q) as [->|(a & b' & ->)]; [cbn in Lq2; lia|]. rewrite app_length in Lq, Lq2. cbn in Lq, Lq2.
        destruct (pre_snoc_cases _ _ _ E3) as [X|E4]; [exfalso; apply NE1; symmetry; exact X|].
        assert (Eqa : isPre qs a = true) by (eapply isPre_trans; [exact Eqsm|]; eapply isPre_trans; [|exact E4]; apply isPre_app).
        assert (Ea : isPre a nb = true) by (eapply isPre_snoc_inv; eauto).
        assert (Eak : isPre (P ++ a) k = true) by (rewrite (onpath P nb); auto; lia).
        assert (Eabk : isPre (P ++ a ++ [b']) k = true) by (rewrite (onpath P nb); auto; rewrite app_length; cbn; lia).
        assert (Nas : isPre (P ++ a) (lkey s) = false).
        { apply not_true_iff_false. intros X. rewrite (isPre_trans (P ++ qm ++ [bb]) (P ++ a)) in E1s; auto; [discriminate|]. now rewrite isPre_app_iff. }
        assert (Nabs : isPre (P ++ a ++ [b']) (lkey s) = false).
        { apply not_true_iff_false. intros X. rewrite app_assoc in X. apply isPre_snoc_inv in X. congruence. }
        assert (Eqab : isPre qs (a ++ [b']) = true) by (eapply isPre_trans; [exact Eqa|apply isPre_app]).
        assert (Ua : under m' (P ++ a) = [l]) by (rewrite U', Nas; auto).
        assert (Uab : under m' (P ++ a ++ [b']) = [l]) by (rewrite U', Nabs; auto).
        assert (Umab : under m (P ++ a ++ [b']) = []).
        { rewrite (under_single_sub H m _ _ s Eu); [now rewrite Nabs|]. now rewrite isPre_app_iff. }
        assert (Nab : a ++ [b'] <> []) by (destruct a; discriminate).
        assert (Na : a <> []) by (intros ->; apply isPre_nil_r in E4; destruct qm; discriminate).
        assert (Lab : length (a ++ [b']) <= 4) by (rewrite app_length; cbn; lia).
        rewrite F2, Eq by auto. cbn [andb].
        destruct (Nat.leb_spec (length (a ++ [b'])) common) as [X|_]; [rewrite app_length in X; cbn in X; lia|]. rewrite andb_false_r.
        rewrite C1 by (intros X; apply (f_equal (@length bool)) in X; rewrite app_length in X; cbn in X; lia).
        pose proof (OK (a ++ [b']) Lab) as S. unfold Smt_Proofs.slotOk in S |- *.
        rewrite (inner_small H R m) in S; [|rewrite Umab; cbn; lia|apply notR; auto].
        rewrite (proj2 (bits_eqb_neq _ _) (notR _ Nab)) in *.
        rewrite (inner_small H R m'); [|rewrite Uab; auto|apply notR; auto].
        rewrite S. unfold Smt_Proofs.lslot. rewrite Uab, Umab, app_assoc, removelast_snoc.
        rewrite (inner_small H R m'); [auto|rewrite Ua; auto|apply notR; auto].
      * rewrite F2off by auto.
        apply (move_high qc); auto; [rewrite (onpath P nb); auto; lia|].
        destruct (snoc_cases q) as [->|(a & b' & ->)]; [discriminate|]. rewrite removelast_snoc. rewrite app_length in Lq. cbn in Lq.
        rewrite (onpath P nb) by (auto; lia). intros Ea NU.
        destruct (le_lt_dec (length qs) (length a)) as [Hl|Hl].
        2: { assert (X : isPre a qs = true) by (apply (isPre_two _ _ nb); auto; lia). unfold qs in X.
             destruct (pre_snoc_cases _ _ _ X) as [->|Y]; auto. unfold qs in Hl. lia. }
        exfalso. assert (Eqa : isPre qs a = true) by (apply (isPre_two _ _ nb); auto).
        rewrite (under_single_sub H m _ _ s Eu) in NU.
        2: { rewrite isPre_app_iff. eapply isPre_trans; [exact Eqa|apply isPre_app]. }
        destruct (isPre (P ++ a ++ [b']) (lkey s)) eqn:Es; [|congruence]. clear NU.
        (* then a is the divergence point *)
        assert (Eas : isPre (P ++ a) (lkey s) = true) by (rewrite app_assoc in Es; eapply isPre_snoc_inv; eauto).
        assert (Eak : isPre (P ++ a) k = true) by (rewrite (onpath P nb); auto; lia).
        pose proof (prefix_bits_common _ _ _ Eas Eak) as Y. fold t in Y. rewrite app_length in Y.
        assert (Ya : length a <= common) by (unfold common; lia).
        assert (X : isPre a qm = true) by (apply (isPre_two _ _ nb); auto; lia).
        destruct (Nat.eq_dec (length a) common) as [Z|Z].
        -- assert (a = qm) by (apply isPre_eq; auto; lia). subst a.
           assert (b' = negb bb); [|congruence].
           rewrite app_assoc in Es, E2s. apply (isPre_snoc_uniq _ _ _ _ Es E2s).
        -- assert (X2 : isPre (a ++ [b']) qm = true).
           { assert (Y2 : isPre (P ++ a ++ [b']) (P ++ qm) = true).
             { apply (isPre_two _ _ (lkey s)); auto. rewrite !app_length. cbn. lia. }
             now rewrite isPre_app_iff in Y2. }
           rewrite (isPre_trans _ _ _ X2 Eqm) in Eq. discriminate.
    + fold c3. rewrite Ec'. eexists. eexists. split; [reflexivity|]. cbv iota beta. auto.
  - (* no room: new nodes are needed *)
    assert (Eu' : u = 0) by (unfold u; lia). rewrite Eu' in *. rewrite Nat.sub_0_r in *.
    assert (Enk : isPre (P ++ nb) (lkey s) = true).
    { apply (common_pre k). auto. rewrite app_length, prefix_bits_sym. fold t. unfold common in Hc4. lia. }
    assert (Eqn : isPre qs nb = true) by auto.
    eexists. eexists. split; [reflexivity|]. cbv iota beta. split; auto. split; [|split]; auto.
    + rewrite (under_single_sub H m _ _ s Eu); [now rewrite Enk|]. now rewrite isPre_app_iff.
    + intros q Lq. destruct (isPre q nb) eqn:Eq.
      * intros _. apply F2on; auto.
      * rewrite F2off by auto. apply (move_high qc); auto; [rewrite (onpath P nb); auto; lia|].
        destruct (snoc_cases q) as [->|(a & b' & ->)]; [discriminate|]. rewrite removelast_snoc. rewrite app_length in Lq. cbn in Lq.
        rewrite (onpath P nb) by (auto; lia). intros Ea NU.
        destruct (le_lt_dec (length qs) (length a)) as [Hl|Hl].
        2: { assert (X : isPre a qs = true) by (apply (isPre_two _ _ nb); auto; lia). unfold qs in X.
             destruct (pre_snoc_cases _ _ _ X) as [->|Y]; auto. unfold qs in Hl. lia. }
        exfalso. assert (Eqa : isPre qs a = true) by (apply (isPre_two _ _ nb); auto).
        rewrite (under_single_sub H m _ _ s Eu) in NU.
        2: { rewrite isPre_app_iff. eapply isPre_trans; [exact Eqa|apply isPre_app]. }
        destruct (isPre (P ++ a ++ [b']) (lkey s)) eqn:Es; [|congruence].
        rewrite (onpath P nb) in Es by (auto; rewrite app_length; cbn; lia). congruence.
Qed.

(** * BatchedInternalNode::insert *)
Definition insPost (c' : node) (r : insRes H) : Prop :=
  match r with
  | InsComplete st => nodeOk R m' ver' P c' /\ ((st = None /\ ~ In k (map lkey m)) \/ exists s, In s m /\ lkey s = k /\ st = Some (k, lver s))
  | InsCreateNew s => lkey s <> k /\ under m (P ++ nb) = [s] /\ pend R m' ver' P nb c' /\ c' 0 = c 0
  | InsExisting u => c' = c /\ u = ver (P ++ nb) /\ forall q, isPre q nb = true -> inner R m (P ++ q) = true
  end.
Lemma insert_loop_ok i : i <= 4 -> anc R m P (firstn (4 - i) nb) -> lver l = v \/ under m P = [] ->
  exists c' r, insert_loop H hparent ph i c (enc (firstn (4 - i) nb)) nb l d v = Some (c', r) /\ insPost c' r.
Proof.
  induction i as [|i IH]; intros Li A LV.
  - cbn [insert_loop]. rewrite Nat.sub_0_r in *. rewrite firstn_all2 in * by lia.
    destruct A as [A|(E & _)]; [|rewrite E in L4; discriminate].
    pose proof (OK nb ltac:(lia)) as S. unfold Smt_Proofs.slotOk in S. rewrite (A nb (isPre_refl nb)) in S.
    destruct S as (u & -> & _ & Hu). eexists. eexists. split; [reflexivity|]. cbn [insPost]. auto.
  - cbn [insert_loop].
    assert (Ei : childIndex (getBit nb i) (enc (firstn (4 - S i) nb)) = enc (firstn (4 - i) nb)).
    { rewrite <- enc_snoc. f_equal. apply getBit_firstn; auto. }
    rewrite Ei. pose proof (getBit_firstn nb i L4 ltac:(lia)) as Eg. set (qc := firstn (4 - S i) nb) in *. set (b := getBit nb i) in *.
    assert (Ls : length (qc ++ [b]) <= 4) by (rewrite Eg, firstn_length; lia).
    assert (Es : isPre (qc ++ [b]) nb = true) by (rewrite Eg; apply isPre_firstn_l).
    pose proof (OK _ Ls) as S. apply slot_under in S; auto. rewrite Eg in S.
    destruct (c (enc (firstn (4 - i) nb))) as [[s|h u]|] eqn:Ec.
    + destruct S as [Eu Ip]. assert (HS : In s m) by (apply (in_under H m (P ++ firstn (4 - i) nb)); rewrite Eu; cbn; auto).
      destruct (bits_eqb (lkey s) k) eqn:Ek.
      * apply bits_eqb_spec in Ek.
        assert (lver l = v) as ->.
        { destruct LV as [LV|LV]; auto. exfalso. rewrite (under_mono_nil H m P) in Eu; auto; [discriminate|apply isPre_app]. }
        rewrite <- Eg. destruct (insert_leaf_ok qc b A Ls Es) as (c' & E' & OK').
        { rewrite Eg, Eu. cbn. rewrite Ek, bits_eqb_refl. reflexivity. }
        rewrite E'. eexists. eexists. split; [reflexivity|]. cbn [insPost]. split; auto. right. exists s. rewrite Ek. auto.
      * apply bits_eqb_neq in Ek.
        assert (LV' : lver l = v).
        { destruct LV as [LV|LV]; auto. exfalso. rewrite (under_mono_nil H m P) in Eu; auto; [discriminate|apply isPre_app]. }
        rewrite <- Eg in Eu |- *. destruct (split_ok qc b s A Ls Es Eu Ek LV' Ip) as (c' & r & E' & Post).
        rewrite E'. exists c', r. split; auto. destruct r as [st|s'|u]; cbn [insPost] in *.
        -- destruct Post as [-> Post]. split; auto. left. split; auto. intros X. apply in_map_iff in X as (x & Ex & Hx).
           assert (In x (under m (P ++ qc ++ [b]))).
           { apply in_under. split; auto. rewrite Ex, (onpath P nb); auto; lia. }
           rewrite Eu in H0. destruct H0 as [->|[]]. congruence.
        -- destruct Post as (-> & Post & Post2 & Post3). auto.
        -- destruct Post.
    + destruct S as (I & Eh & Hv). apply IH; auto; [lia|]. left.
      intros q Eq. destruct A as [A|(A1 & A2 & A3)].
      * rewrite <- Eg in Eq. destruct (pre_snoc_cases _ _ _ Eq) as [->|X]; auto. now rewrite Eg.
      * exfalso. apply inner_pos in I. apply I. eapply under_mono_nil; [apply isPre_app|exact A3].
    + rewrite <- Eg in S |- *. destruct (insert_leaf_ok qc b A Ls Es) as (c' & E' & OK').
      { rewrite S. reflexivity. }
      rewrite E'. eexists. eexists. split; [reflexivity|]. cbn [insPost]. split; auto. left. split; auto.
      intros X. apply in_map_iff in X as (x & Ex & Hx).
      assert (In x (under m (P ++ qc ++ [b]))).
      { apply in_under. split; auto. rewrite Ex, (onpath P nb); auto; lia. }
      rewrite S in H0. destruct H0.
Qed.

Lemma getNibble_ok : getNibble k d = Some nb.
Proof.
  unfold getNibble. destruct (Nat.ltb_spec d MAX_NIBBLES); [|lia]. f_equal. rewrite <- LP.
  clear - EP L4. apply isPre_spec in EP as [r ->]. rewrite <- app_assoc, skipn_app, skipn_all, Nat.sub_diag. cbn [app skipn].
  rewrite firstn_app, L4, Nat.sub_diag, <- L4, firstn_all. apply app_nil_r.
Qed.

Lemma nodeInsert_ok : inner R m P = true \/ (P = R /\ under m P = []) -> lver l = v \/ under m P = [] ->
  exists c' r, nodeInsert H hparent ph c l d v = Some (c', r) /\ insPost c' r.
Proof.
  intros I LV. unfold nodeInsert. rewrite getNibble_ok. 
  change (insert_loop H hparent ph 4 c 0 nb l d v) with (insert_loop H hparent ph 4 c (enc (firstn (4 - 4) nb)) nb l d v).
  apply insert_loop_ok; auto. cbn [Nat.sub firstn].
  destruct I as [I|[I1 I2]].
  - left. intros q Eq. apply isPre_nil_r in Eq as ->. now rewrite app_nil_r.
  - right. auto.
Qed.

End Ins.
End S.
