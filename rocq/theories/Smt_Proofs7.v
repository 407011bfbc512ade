(** Proofs about the sparse Merkle tree, part 7: removing one key. *)
From Coq Require Import List NArith Bool Arith Lia.
From Verif Require Import Smt_Model Smt_Proofs Smt_Proofs2 Smt_Proofs3 Smt_Proofs4 Smt_Proofs5 Smt_Proofs6.
Import ListNotations.

Section S.
Variable H : Type.
Variable hparent : H -> H -> H.
Variable ph : H.
Notation leaf := (leaf H).
Notation node := (node H).
Notation under := (under H).
Notation inner := (inner H).
Notation lslot := (lslot H).
Notation thash := (thash H hparent ph).
Notation wf := (wf H).
Notation rm := (rm H).
Notation ins := (ins H).
Notation offk := (offk H).
Notation slotOk := (slotOk H hparent ph).
Notation nodeOk := (nodeOk H hparent ph).
Notation pend := (pend H hparent ph).
Notation pos := (pos H).
Notation stk := (stk H).
Notation ucache := (ucache H).
Notation walker := (walker H).
Notation cacheUpd := (cacheUpd H hparent ph).
Notation Pend := (Pend H hparent ph).

Notation treeOk := (treeOk H hparent ph).
Notation Good := (Good H hparent ph).
Notation wInv := (wInv H hparent ph).
Notation oldv := (oldv H).
Notation allNone := (allNone H).

Section Rem.
Variables (d : db H) (m : list leaf) (ver : bits -> N) (k : bits) (u : ucache) (v : N).
Hypothesis W : wf m.
Hypothesis Lk : length k = KL.
Hypothesis Uv : uc_version u = v.
Hypothesis TO : treeOk d u m ver.
Notation m' := (rm k m).
Notation ver' := (verk k v ver).
Notation old := (oldv m ver).

Lemma kW' : wf m'.
Proof. apply wf_rm; auto. Qed.

Lemma stk_pendR P st : al P -> isPre P k = true -> P = [] \/ inner [] m' P = true -> stk (Good m ver) P st -> stk (Pend m' ver' old) P st.
Proof.
  revert P. induction st as [|c st IH]; intros P A E I'; cbn [Smt_Proofs5.stk]; auto.
  intros (P0 & nb & -> & L4 & [OK I] & S0). exists P0, nb.
  assert (AP : al P0) by (eapply al_pre; eauto).
  assert (E0 : isPre P0 k = true) by (eapply isPre_trans; [apply isPre_app|exact E]).
  assert (I0 : inner [] m P0 = true) by (eapply inner_mono; [apply (isPre_app P0 nb)|exact I]).
  destruct I' as [I'|I']; [apply (f_equal (@length bool)) in I'; rewrite app_length in I'; cbn in I'; lia|].
  repeat split; auto.
  - apply (nodeOk_pend H hparent ph k m m' ver ver' P0 nb c); auto.
    + apply offk_rm.
    + apply verk_off.
  - rewrite (nodeOk_version H hparent ph m ver P0 c OK) by auto. f_equal. symmetry. apply oldv_pos. split; auto.
  - apply IH; auto. right. eapply inner_mono; [apply (isPre_app P0 nb)|exact I'].
Qed.

Lemma remove_desc P nb c dd : length P = 4 * dd -> dd < MAX_NIBBLES -> length nb = 4 -> isPre (P ++ nb) k = true -> nodeOk [] m ver P c ->
  inner [] m (P ++ nb) = true -> nodeRemove H hparent ph c k dd v = Some (c, RemDescend (ver (P ++ nb))).
Proof.
  intros LP Ld L4 EN OK I. unfold nodeRemove. rewrite (getNibble_at P nb k dd) by auto.
  assert (SL : forall q, isPre q nb = true -> exists x, c (enc q) = Some (Int (thash [] m (P ++ q)) x) /\ (length q = 4 -> x = ver (P ++ q))).
  { intros q E. assert (Lq : length q <= 4) by (apply isPre_len in E; lia). specialize (OK q Lq). unfold Smt_Proofs.slotOk in OK.
    rewrite (inner_mono H m (P ++ nb)) in OK; auto; [|rewrite isPre_app_iff; auto]. destruct OK as (x & X & _ & Y). eauto. }
  assert (G : forall i, i <= 4 -> remove_loop H hparent ph i c (enc (firstn (4 - i) nb)) nb k dd v = Some (c, RemDescend (ver (P ++ nb)))).
  { induction i as [|i IH]; intros Li; cbn [remove_loop].
    - rewrite Nat.sub_0_r, <- L4, firstn_all. destruct (SL nb (isPre_refl nb)) as (x & -> & X). rewrite X by auto. reflexivity.
    - rewrite <- enc_snoc, (getBit_firstn nb i) by (auto; lia).
      destruct (SL (firstn (4 - i) nb) (isPre_firstn_l _ _)) as (x & -> & _). apply IH. lia. }
  apply (G 4). lia.
Qed.

Lemma cacheUpd_version mm ve ol vv T D (a b : ucache) : cacheUpd mm ve ol vv T D a b -> uc_version b = uc_version a.
Proof. intros (X & _). exact X. Qed.

(** the set of aligned prefixes of [P] that are not prefixes of [P'] *)
Definition dropped (P P' Q : bits) : Prop := al Q /\ isPre Q P = true /\ isPre Q P' = false.

Lemma rbin_ok p : forall st w, w_stack w = st -> stk (Good m ver) (w_path w) st -> w_path w <> [] -> under m' (w_path w) = [p] ->
  allNone (w_cur w) -> isPre (w_path w) k = true -> pos m (w_path w) -> w_stale w = ver (w_path w) -> w_version w = v ->
  exists w' r, rbin_loop H hparent ph (length st) w (Some p) = Some (w', r) /\
    cacheUpd m' ver' old v none (dropped (w_path w) (w_path w')) (w_cache w) (w_cache w') /\
    isPre (w_path w') (w_path w) = true /\ stk (Good m ver) (w_path w') (w_stack w') /\ w_stale w' = ver (w_path w') /\ w_version w' = v /\
    al (w_path w') /\
    (forall Q, dropped (w_path w) (w_path w') Q -> inner [] m' Q = false) /\
    ((r = None /\ nodeOk [] m' ver' (w_path w') (w_cur w') /\ safeToRemove (w_cur w') = false /\ inner [] m' (w_path w') = true) \/
     (r = Some p /\ w_path w' = [] /\ m' = [p] /\ allNone (w_cur w'))).
Proof.
  induction st as [|c st IH]; intros w Es S0 NP Up AN EK PP ES EV; cbn [Smt_Proofs5.stk] in S0; [congruence|].
  destruct S0 as (P0 & nb & EP & L4 & [OK I] & S0). assert (AP0 : al P0) by (eapply stk_al; eauto).
  pose proof AP0 as [dd LP0].
  assert (I0 : inner [] m P0 = true) by (eapply inner_mono; [apply (isPre_app P0 nb)|exact I]).
  assert (PP0 : pos m P0) by (split; auto).
  assert (Ld : dd < MAX_NIBBLES) by (pose proof (pos_lt H m P0 W PP0); unfold KL, MAX_NIBBLES in *; lia).
  assert (EN : isPre (P0 ++ nb) k = true) by now rewrite <- EP.
  assert (EK0 : isPre P0 k = true) by (eapply isPre_trans; [apply isPre_app|exact EN]).
  cbn [length rbin_loop]. assert (AR : atRoot w = false) by (unfold atRoot; destruct (w_path w); congruence).
  rewrite AR, (proj2 (allNone_num H _ AN)). cbn [negb andb].
  unfold removeCurrentNode, pop.
  assert (E3 : pathPop (w_path w) = Some (nb, P0)).
  { assert (X : forall p : bits, p <> [] -> pathPop p = Some (skipn (length p - 4) p, firstn (length p - 4) p)) by (intros []; [congruence|auto]).
    rewrite X, EP, app_length, L4 by auto. replace (length P0 + 4 - 4) with (length P0) by lia.
    rewrite skipn_app, skipn_all, Nat.sub_diag, firstn_app, firstn_all, Nat.sub_diag. cbn [skipn firstn app]. now rewrite app_nil_r. }
  rewrite E3, Es, (nodeOk_version H hparent ph m ver P0 c OK) by auto. cbn [w_cur w_stack w_path w_stale w_cache].
  set (u1 := ucRemove (markCurrentNodeStale w) (w_path w)).
  assert (C1 : cacheUpd m' ver' old v none (one (w_path w)) (w_cache w) u1).
  { apply (del_ok H hparent ph m' ver' old v w); auto. rewrite oldv_pos; auto. }
  assert (V1 : uc_version u1 = v) by (rewrite (cacheUpd_version _ _ _ _ _ _ _ _ C1); exact EV).
  unfold w_version. cbn [w_cache]. rewrite V1.
  assert (IA : forall q, isPre q nb = true -> inner [] m (P0 ++ q) = true).
  { intros q Eq. eapply inner_mono; [|exact I]. now rewrite isPre_app_iff. }
  destruct (unlink_ok H hparent ph P0 nb m ver ver' c k dd v W Lk LP0 Ld L4 EN OK (verk_on _ _ _ _ EK0) (verk_off _ _ _) p I IA) as (c' & r & EU & R).
  { now rewrite <- EP. }
  rewrite EU.
  assert (DR1 : forall Q, dropped (w_path w) P0 Q <-> one (w_path w) Q).
  { intros Q. unfold dropped, one. rewrite EP. split.
    - intros (A & X & Y). destruct (al_pre_snoc Q P0 nb A AP0 L4 X); congruence.
    - intros ->. split; [apply al_snoc; auto|]. split; [apply isPre_refl|]. apply not_true_iff_false. intros X. apply isPre_len in X.
      rewrite app_length in X. lia. }
  assert (NI : inner [] m' (w_path w) = false).
  { unfold Smt_Proofs.inner. rewrite Up. apply bits_eqb_neq. auto. }
  destruct R as [(-> & OK' & SF & I')|(-> & Up' & AN')].
  - assert (RS : rbin_loop H hparent ph (length st) (mkW u1 st c' P0 (ver P0)) None = Some (mkW u1 st c' P0 (ver P0), None)).
    { destruct st; cbn [length rbin_loop w_cur]; rewrite SF, andb_false_r; reflexivity. }
    rewrite RS. eexists. eexists. split; [reflexivity|]. cbn [w_cur w_stack w_path w_stale w_cache].
    split. { eapply cacheUpd_ext; [| |exact C1]; [reflexivity|]. intros Q. symmetry. apply DR1. }
    split. { rewrite EP. apply isPre_app. }
    split; auto. split; auto. split; auto. split; auto.
    split; [|left; auto]. intros Q X. apply DR1 in X. unfold one in X. now rewrite X.
  - destruct (bits_dec P0 []) as [E0|NE0].
    + assert (st = []) as ->.
      { destruct st; auto. cbn [Smt_Proofs5.stk] in S0. destruct S0 as (P2 & nb2 & X & L2 & _). rewrite E0 in X.
        apply (f_equal (@length bool)) in X. rewrite app_length in X. cbn in X. lia. }
      cbn [length rbin_loop]. unfold atRoot. cbn [w_path]. rewrite E0. cbn [negb andb].
      eexists. eexists. split; [reflexivity|]. cbn [w_cur w_stack w_path w_stale w_cache].
      split. { eapply cacheUpd_ext; [| |exact C1]; [reflexivity|]. intros Q. symmetry. rewrite <- E0. apply DR1. }
      split. { reflexivity. }
      split. { now cbn. } split; auto. split; auto. split; [apply al_nil|].
      split; [|right; rewrite E0 in Up'; rewrite under_nil in Up'; auto].
      intros Q X. rewrite <- E0 in X. apply DR1 in X. unfold one in X. now rewrite X.
    + destruct (IH (mkW u1 st c' P0 (ver P0))) as (w' & r & E' & C2 & X1 & X2 & X3 & X4 & X5 & X6 & X7);
        cbn [w_cur w_stack w_path w_stale w_cache]; auto.
      exists w', r. split; [exact E'|]. cbn [w_cur w_stack w_path w_stale w_cache] in *.
      assert (DR2 : forall Q, dropped (w_path w) (w_path w') Q <-> (one (w_path w) Q \/ dropped P0 (w_path w') Q)).
      { intros Q. unfold dropped. split.
        - intros (A & X & Y). rewrite EP in X. destruct (al_pre_snoc Q P0 nb A AP0 L4 X) as [Z|Z]; [left; unfold one; congruence|right; auto].
        - intros [X|(A & X & Y)].
          + unfold one in X. rewrite X. split; [apply PP|]. split; [apply isPre_refl|]. apply not_true_iff_false. intros Y.
            apply isPre_len in Y. apply isPre_len in X1. rewrite EP, app_length in Y. lia.
          + split; auto. split; auto. rewrite EP. eapply isPre_trans; [exact X|apply isPre_app]. }
      split. { eapply cacheUpd_ext; [| |eapply cacheUpd_trans; [| | |exact C1|exact C2]].
        - intros Q. unfold either, none. tauto.
        - intros Q. unfold either. symmetry. apply DR2.
        - intros Q [[]|X] [[]|(A & Y & Z)]. unfold one in X. rewrite X, EP in Y. apply isPre_len in Y. rewrite app_length in Y. lia.
        - intros Q. right. intros [].
        - intros Q. unfold one. destruct (bits_dec Q (w_path w)); auto. }
      split. { rewrite EP. eapply isPre_trans; [exact X1|apply isPre_app]. }
      repeat (split; [assumption|]). split; [|exact X7]. intros Q X. apply DR2 in X as [X|X]; auto. unfold one in X. now rewrite X.
Qed.

Definition T' (Q : bits) : Prop := isPre Q k = true /\ pos m' Q.
Definition D' (Q : bits) : Prop := isPre Q k = true /\ pos m Q /\ ~ pos m' Q.

Definition remResult (res : option ucache) : Prop :=
  (~ In k (map lkey m) /\ res = Some u) \/
  (exists s u', In s m /\ lkey s = k /\ res = Some u' /\ cacheUpd m' ver' old v T' D' (ucPutStaleLeaf u (Some (k, lver s))) u').

Lemma batched_none_ok w s : wInv m ver k u w -> w_path w = [] -> m = [s] -> lkey s = k -> forall cur, safeToRemove cur = true ->
  let u1 := ucPutStaleLeaf u (Some (k, lver s)) in
  exists u', removeBatchedInternalNode H hparent ph (mkW u1 (w_stack w) cur (w_path w) (w_stale w)) None = Some u' /\
    cacheUpd m' ver' old v T' D' u1 u'.
Proof.
  intros (EC & PP & EK & OK & SK & ES) EP Em Es cur SF u1.
  assert (st0 : w_stack w = []).
  { destruct (w_stack w) as [|x st]; auto. cbn [Smt_Proofs5.stk] in SK. destruct SK as (P2 & nb2 & X & L2 & _). rewrite EP in X.
    apply (f_equal (@length bool)) in X. rewrite app_length in X. cbn in X. lia. }
  unfold removeBatchedInternalNode. cbn [w_stack]. rewrite st0. cbn [length rbin_loop]. unfold atRoot. cbn [w_path]. rewrite EP.
  cbn [negb andb w_cur]. rewrite SF. cbn [andb]. eexists. split; [reflexivity|].
  unfold removeRoot. set (w1 := mkW u1 [] cur [] (w_stale w)).
  assert (M0 : m' = []) by (rewrite Em; cbn; rewrite Es, bits_eqb_refl; reflexivity).
  assert (Ev : w_version w1 = v) by (unfold w_version, w1; cbn [w_cache]; unfold u1; cbn; auto).
  assert (OKe : nodeOk [] m' ver' [] (emptyRoot H ph v)).
  { rewrite M0. intros q Lq. unfold Smt_Proofs.slotOk, Smt_Proofs.inner, Smt_Proofs.lslot. cbn [Smt_Proofs.under filter app].
    destruct (bits_eqb q []) eqn:X.
    - apply bits_eqb_spec in X. rewrite X. right. unfold emptyRoot. rewrite <- enc_nil, upd_same. rewrite verk_on by reflexivity. reflexivity.
    - apply bits_eqb_neq in X. unfold emptyRoot. rewrite <- enc_nil, upd_enc_other by auto. reflexivity. }
  assert (E0 : ucPut (ucRemove (markCurrentNodeStale w1) (w_path w1)) [] (emptyRoot H ph (uc_version (ucRemove (markCurrentNodeStale w1) (w_path w1)))) =
          ucPut (ucRemove (markCurrentNodeStale w1) []) [] (emptyRoot H ph v)).
  { f_equal. f_equal. rewrite <- Ev. unfold w_version, ucRemove, markCurrentNodeStale. cbn. destruct (_ && _); reflexivity. }
  rewrite E0. pose proof (put_ok H hparent ph m' ver' old v w1 (emptyRoot H ph v)) as PO.
  cbn [w_path w1] in PO. specialize (PO OKe). rewrite EP in ES, PP.
  assert (X1 : w_stale w1 = old []) by (cbn [w_stale w1]; rewrite oldv_pos; auto). specialize (PO X1 Ev).
  destruct PO as (A & B & C & E1 & E2 & E3 & E4).
  assert (PQ : forall Q, T' Q <-> one [] Q).
  { intros Q. unfold T', one. rewrite M0. split.
    - intros [X [Y [Z|Z]]]; auto. discriminate.
    - intros ->. split; [reflexivity|]. split; [apply al_nil|auto]. }
  assert (DQ : forall Q, D' Q <-> none Q).
  { intros Q. unfold D', none. split; [|tauto]. intros (X & [A0 [Y|Y]] & Z); [apply Z; split; auto|].
    assert (Q <> []) by (intros ->; apply Z; split; auto). unfold Smt_Proofs.inner in Y. rewrite Em in Y. cbn in Y.
    destruct (isPre Q (lkey s)); [|discriminate]. apply bits_eqb_spec in Y. congruence. }
  apply (cacheUpd_ext H hparent ph m' ver' old v (one []) none); [intros; symmetry; apply PQ|intros; symmetry; apply DQ|].
  assert (NN : forall Q, plookup Q (uc_nodes (ucPut (ucRemove (markCurrentNodeStale w1) []) [] (emptyRoot H ph v))) =
                         plookup Q (uc_nodes (ucPut (markCurrentNodeStale w1) [] (emptyRoot H ph v)))).
  { intros Q. unfold ucPut, ucRemove. cbn [uc_nodes]. rewrite !plookup_put, plookup_premove. destruct (bits_eqb [] Q); auto. }
  split; [exact A|]. split; [exact B|]. split; [exact C|]. split; [|split; [|split; [|exact E4]]].
  - intros Q X. rewrite NN. auto.
  - intros Q [].
  - intros Q X Y. rewrite NN. auto.
Qed.

Lemma batched_some_ok w s p nb : wInv m ver k u w -> w_path w <> [] -> under m' (w_path w) = [p] -> In s m -> lkey s = k ->
  length nb = 4 -> isPre (w_path w ++ nb) k = true -> inner [] m (w_path w ++ nb) = false ->
  forall cur, allNone cur -> let u1 := ucPutStaleLeaf u (Some (k, lver s)) in
  exists u', removeBatchedInternalNode H hparent ph (mkW u1 (w_stack w) cur (w_path w) (w_stale w)) (Some p) = Some u' /\
    cacheUpd m' ver' old v T' D' u1 u'.
Proof.
  intros (EC & PP & EK & OK & SK & ES) NP Up Is Eks L4 EN NIn cur AN u1.
  destruct (rbin_ok p (w_stack w) (mkW u1 (w_stack w) cur (w_path w) (w_stale w))) as (w' & r & ER & C1 & X1 & X2 & X3 & X4 & X5 & X6 & X7);
    cbn [w_cur w_stack w_path w_stale w_cache]; auto.
  cbn [w_cur w_stack w_path w_stale w_cache] in *. unfold removeBatchedInternalNode. cbn [w_stack]. rewrite ER.
  assert (EK' : isPre (w_path w') k = true) by (eapply isPre_trans; eauto).
  assert (PP' : pos m (w_path w')) by (apply (pos_mono H m (w_path w)); auto).
  assert (BELOW : forall Q, isPre Q k = true -> pos m Q -> isPre Q (w_path w) = true).
  { intros Q X [A Y]. destruct (al_next Q (w_path w) nb k A (proj1 PP) L4 X EN) as [Z|Z]; auto. exfalso. destruct Y as [-> |Y].
    - apply isPre_nil_r in Z. apply (f_equal (@length bool)) in Z. rewrite app_length in Z. cbn in Z. lia.
    - rewrite (inner_mono H m Q _ Z Y) in NIn. discriminate. }
  assert (FIN : forall u', cacheUpd m' ver' old v (onp (w_path w')) none (w_cache w') u' -> pos m' (w_path w') -> cacheUpd m' ver' old v T' D' u1 u').
  { intros u' C2 PW. eapply cacheUpd_ext; [| |eapply cacheUpd_trans; [| | |exact C1|exact C2]].
    - intros Q. unfold either, none, onp, T'. split.
      + intros [[]|[A X]]. split; [eapply isPre_trans; eauto|]. apply (pos_mono H m' (w_path w')); auto.
      + intros [X Y]. right. assert (A := proj1 Y). split; auto.
        pose proof (BELOW Q X (pos_rm H k m Q Y)) as Z.
        destruct (isPre Q (w_path w')) eqn:E; auto. exfalso. assert (DR : dropped (w_path w) (w_path w') Q) by (unfold dropped; auto).
        pose proof (X6 Q DR) as NI. destruct Y as [_ [-> |Y]]; [discriminate E|congruence].
    - intros Q. unfold either, none, D'. split.
      + intros [X|[]]. pose proof (X6 Q X) as NI. destruct X as (A & X & Y). split; [eapply isPre_trans; eauto|].
        split; [apply (pos_mono H m (w_path w)); auto|]. intros [_ [Z|Z]]; [rewrite Z in Y; discriminate|congruence].
      + intros (X & Y & Z). left. split; [apply Y|]. split; [apply BELOW; auto|].
        apply not_true_iff_false. intros E. apply Z. eapply pos_mono; [apply Y|exact E|exact PW].
    - intros Q [[]|(_ & _ & X)] [[_ Y]|[]]. congruence.
    - intros Q. right. intros [].
    - intros Q. unfold dropped. destruct (al_dec Q); [|tauto]. destruct (isPre Q (w_path w)); [|right; intros (_ & X & _); discriminate].
      destruct (isPre Q (w_path w')); [right; intros (_ & _ & X); discriminate|auto]. }
  assert (VV : forall Q, isPre Q (w_path w') = true -> ver' Q = v) by (intros Q X; apply verk_on; eapply isPre_trans; eauto).
  destruct X7 as [(-> & OK' & SF & I')|(-> & EP' & EM & AN')].
  - rewrite SF, andb_false_r.
    destruct (ascendToRoot_ok H hparent ph m' ver' old v kW' (w_stack w') w' None) as (u' & EU & CU); auto.
    + apply stk_pendR; auto.
    + rewrite oldv_pos; auto.
    + exists u'. split; [exact EU|]. apply FIN; auto. split; auto.
  - assert (st0 : w_stack w' = []).
    { destruct (w_stack w') as [|x st]; auto. cbn [Smt_Proofs5.stk] in X2. destruct X2 as (P2 & nb2 & X & L2 & _). rewrite EP' in X.
      apply (f_equal (@length bool)) in X. rewrite app_length in X. cbn in X. lia. }
    set (verA := fun Q => if bits_eqb Q [] then 0%N else ver' Q).
    assert (Lp : length (lkey p) = KL). { apply (wf_len H m' p kW'). rewrite EM. cbn; auto. }
    destruct (next_nibble [] (lkey p)) as (nbp & L4p & ENp); auto. { apply al_nil. } { cbn. unfold KL. lia. }
    assert (OKA : nodeOk [] [] verA [] (w_cur w')).
    { intros q Lq. unfold Smt_Proofs.slotOk, Smt_Proofs.inner, Smt_Proofs.lslot. cbn [Smt_Proofs.under filter app]. rewrite (AN' q Lq).
      destruct (bits_eqb q []); [left; split; reflexivity|reflexivity]. }
    assert (VA : veroff (lkey p) verA ver').
    { intros Q E. unfold verA. rewrite (proj2 (bits_eqb_neq _ _)); auto. intros ->. discriminate. }
    assert (R0 : @length bool [] <= @length bool []) by lia.
    assert (L0 : 0 < MAX_NIBBLES) by (unfold MAX_NIBBLES; lia).
    destruct (nodeInsert_ok H hparent ph [] [] nbp [] verA ver' (w_cur w') p 0 v (wf_nil H) Lp R0 eq_refl L0 L4p ENp OKA (verk_on k v ver [] eq_refl) VA) as (c1 & r & E1 & R1).
    { right. auto. } { right. reflexivity. }
    unfold w_depth. rewrite EP'. change (length (@nil bool) / 4) with 0. rewrite X4, E1.
    destruct r as [st1|s1|v1].
    2:{ destruct R1 as (_ & X & _). discriminate. }
    2:{ destruct R1 as (_ & _ & X). specialize (X [] eq_refl). discriminate. }
    destruct R1 as [OK1 _]. change (ins p []) with [p] in OK1. rewrite <- EM in OK1.
    destruct (ascendToRoot_ok H hparent ph m' ver' old v kW' (w_stack w') (mkW (w_cache w') (w_stack w') c1 [] (w_stale w')) None) as (u' & EU & CU);
      cbn [w_cur w_stack w_path w_stale w_cache]; auto.
    + rewrite st0. reflexivity.
    + rewrite X3, EP', oldv_pos; auto. rewrite <- EP'. auto.
    + intros Q X. apply VV. now rewrite EP'.
    + exists u'. split; [exact EU|]. apply FIN; [rewrite EP'; exact CU|]. rewrite EP'. split; [apply al_nil|auto].
Qed.

Lemma treeRemove_ok : forall fuel w dd, wInv m ver k u w -> length (w_path w) = 4 * dd -> MAX_NIBBLES < fuel + dd ->
  remResult (treeRemove H hparent ph fuel d w k).
Proof.
  induction fuel as [|fuel IH]; intros w dd WI LP LF.
  - destruct (depth_ok _ _ _ _ _ _ _ _ W WI) as (d' & E1 & _ & E2). lia.
  - cbn [treeRemove]. destruct (depth_ok _ _ _ _ _ _ _ _ W WI) as (d' & E1 & E2 & E3). assert (Edd : d' = dd) by lia. rewrite Edd in *. clear d' Edd.
    rewrite E2. destruct (Nat.ltb_spec dd MAX_NIBBLES); [|lia]. pose proof WI as (EC & PP & EK & OK & SK & ES).
    destruct (next_nibble (w_path w) k) as (nb & L4 & EN); auto. { apply PP. } { eapply pos_lt; eauto. }
    assert (I0 : inner [] m (w_path w) = true \/ (w_path w = [] /\ under m (w_path w) = [])).
    { destruct PP as [_ [X|X]]; auto. rewrite X. unfold Smt_Proofs.inner. destruct (under m []) as [|? [|? ?]]; auto. }
    destruct (nodeRemove_ok H hparent ph (w_path w) nb m ver ver' (w_cur w) k dd v W Lk LP E3 L4 EN OK (verk_on _ _ _ _ EK) (verk_off _ _ _) I0) as (c1 & r1 & EI & R1).
    unfold w_version. rewrite EC, Uv, EI.
    assert (OV : w_stale w = old (w_path w)) by (rewrite oldv_pos; auto).
    assert (NIn : (forall x, r1 <> RemDescend x) -> inner [] m (w_path w ++ nb) = false).
    { intros ND. apply not_true_iff_false. intros X. pose proof (remove_desc _ nb _ dd LP E3 L4 EN OK X) as Y. rewrite Y in EI.
      injection EI as _ <-. apply (ND _ eq_refl). }
    destruct r1 as [x| |pr x|x].
    + destruct R1 as (OK1 & I' & s & Is & Eks & ->). right. exists s.
      specialize (NIn ltac:(discriminate)).
      destruct (ascendToRoot_ok H hparent ph m' ver' old v kW' (w_stack w) (mkW u (w_stack w) c1 (w_path w) (w_stale w)) (Some (k, lver s))) as (u' & EU & CU);
        cbn [w_cur w_path w_cache w_stack w_stale]; auto.
      { apply stk_pendR; auto. apply PP. }
      { intros Q X. apply verk_on. eapply isPre_trans; eauto. }
      exists u'. split; auto. split; auto. split; [exact EU|]. cbn [w_path w_cache] in CU.
      assert (BELOW : forall Q, isPre Q k = true -> pos m Q -> isPre Q (w_path w) = true).
      { intros Q X [A Y]. destruct (al_next Q (w_path w) nb k A (proj1 PP) L4 X EN) as [Z|Z]; auto. exfalso. destruct Y as [-> |Y].
        - apply isPre_nil_r in Z. apply (f_equal (@length bool)) in Z. rewrite app_length in Z. cbn in Z. lia.
        - rewrite (inner_mono H m Q _ Z Y) in NIn. discriminate. }
      assert (PW : pos m' (w_path w)) by (split; [apply PP|auto]).
      eapply cacheUpd_ext; [| |exact CU]; intros Q; unfold onp, T', D', none.
      * split.
        -- intros [A X]. split; [eapply isPre_trans; eauto|]. apply (pos_mono H m' (w_path w)); auto.
        -- intros [X Y]. split; [apply Y|]. apply BELOW; auto. eapply pos_rm; eauto.
      * split; [tauto|]. intros (X & Y & Z). apply Z. eapply pos_mono; [apply Y|apply BELOW; auto|exact PW].
    + destruct R1 as (-> & NI). left. split; auto.
    + destruct pr as [p|].
      * destruct R1 as (NP & Up & AN & s & Is & Eks & ->). right. exists s. specialize (NIn ltac:(discriminate)).
        destruct (batched_some_ok w s p nb WI NP Up Is Eks L4 EN NIn c1 AN) as (u' & E' & C'). exists u'.
        split; auto.
      * destruct R1 as (EP & SF & s & Em & Eks & ->). right. exists s.
        destruct (batched_none_ok w s WI EP Em Eks c1 SF) as (u' & E' & C'). exists u'.
        split; [rewrite Em; cbn; auto|]. split; auto.
    + destruct R1 as (-> & -> & IA).
      replace (mkW u (w_stack w) (w_cur w) (w_path w) (w_stale w)) with w by (destruct w; cbn in *; congruence).
      destruct (descend_ok H hparent ph d m ver k u w nb W TO WI L4 EN (IA nb (isPre_refl nb))) as (w2 & ED & WI2 & EP2).
      rewrite ED. apply (IH w2 (S dd)); auto.
      * rewrite EP2, app_length. lia.
      * lia.
Qed.

Lemma removeOne_ok : remResult (removeOne H hparent ph d u k).
Proof.
  unfold removeOne. destruct (newWalker_ok H hparent ph d u m ver k TO) as (w & E & WI & EP). rewrite E.
  assert (L0 : length (w_path w) = 4 * 0) by now rewrite EP.
  apply (treeRemove_ok _ w 0 WI L0). unfold MAX_NIBBLES. lia.
Qed.
End Rem.
End S.
