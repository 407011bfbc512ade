(** Proofs about the sparse Merkle tree, part 6: inserting one key. *)
From Coq Require Import List NArith Bool Arith Lia.
From Verif Require Import Smt_Model Smt_Proofs Smt_Proofs2 Smt_Proofs3 Smt_Proofs4 Smt_Proofs5.
Import ListNotations.

Section S.
Variable H : Type.
Variable hparent : H -> H -> H.
Variable ph : H.
Notation leaf := (leaf H).
Notation node := (node H).
Notation under := (under H).
Notation inner := (inner H).
Notation lslot := (lslot H).
Notation thash := (thash H hparent ph).
Notation wf := (wf H).
Notation rm := (rm H).
Notation ins := (ins H).
Notation offk := (offk H).
Notation slotOk := (slotOk H hparent ph).
Notation nodeOk := (nodeOk H hparent ph).
Notation pend := (pend H hparent ph).
Notation pos := (pos H).
Notation stk := (stk H).
Notation ucache := (ucache H).
Notation walker := (walker H).
Notation cacheUpd := (cacheUpd H hparent ph).
Notation Pend := (Pend H hparent ph).

(** every node of the tree can be read, and is right *)
Definition treeOk (d : db H) (u : ucache) (m : list leaf) (ver : bits -> N) : Prop :=
  nodeOk [] m ver [] (ucGetRoot u) /\
  forall Q, pos m Q -> Q <> [] -> exists c, ucGetInternal d u (ver Q) Q = Some c /\ nodeOk [] m ver Q c.

Definition Good (m : list leaf) (ver : bits -> N) (P nb : bits) (c : node) : Prop :=
  nodeOk [] m ver P c /\ inner [] m (P ++ nb) = true.
Definition wInv (m : list leaf) (ver : bits -> N) (k : bits) (u : ucache) (w : walker) : Prop :=
  w_cache w = u /\ pos m (w_path w) /\ isPre (w_path w) k = true /\ nodeOk [] m ver (w_path w) (w_cur w) /\
  stk (Good m ver) (w_path w) (w_stack w) /\ w_stale w = ver (w_path w).

Definition oldv (m : list leaf) (ver : bits -> N) (Q : bits) : N := if pos_dec H m Q then ver Q else 0%N.
Definition verk (k : bits) (v : N) (ver : bits -> N) (Q : bits) : N := if isPre Q k then v else ver Q.

Lemma verk_off k v ver : veroff k ver (verk k v ver).
Proof. intros Q E. unfold verk. now rewrite E. Qed.
Lemma verk_on k v ver Q : isPre Q k = true -> verk k v ver Q = v.
Proof. intros E. unfold verk. now rewrite E. Qed.
Lemma oldv_pos m ver Q : pos m Q -> oldv m ver Q = ver Q.
Proof. clear hparent ph. intros X. unfold oldv. destruct (pos_dec H m Q); tauto. Qed.

Lemma newWalker_ok d u m ver k : treeOk d u m ver -> exists w, newWalker u = Some w /\ wInv m ver k u w /\ w_path w = [] .
Proof.
  intros [OK _]. unfold newWalker. rewrite (nodeOk_version H hparent ph m ver [] (ucGetRoot u)) by auto.
  eexists. split; [reflexivity|]. split; [|reflexivity]. repeat split; cbn [w_cache w_path w_cur w_stack w_stale]; auto.
  - exists 0. reflexivity.
Qed.

Lemma depth_ok m ver k u w : wf m -> wInv m ver k u w -> exists d, length (w_path w) = 4 * d /\ w_depth w = d /\ d < MAX_NIBBLES.
Proof.
  intros W (_ & PP & _). pose proof (pos_lt H m _ W PP) as L. destruct PP as [[d E] _]. exists d. repeat split; auto.
  - unfold w_depth. apply al_div; auto.
  - unfold KL, MAX_NIBBLES in *. lia.
Qed.

Lemma getNibble_at P nb k d : length P = 4 * d -> d < MAX_NIBBLES -> length nb = 4 -> isPre (P ++ nb) k = true -> getNibble k d = Some nb.
Proof.
  intros LP Ld L4 EP. unfold getNibble. destruct (Nat.ltb_spec d MAX_NIBBLES); [|lia]. f_equal. rewrite <- LP.
  apply isPre_spec in EP as [r ->]. rewrite <- app_assoc, skipn_app, skipn_all, Nat.sub_diag. cbn [app skipn].
  rewrite firstn_app, L4, Nat.sub_diag, <- L4, firstn_all. apply app_nil_r.
Qed.

Lemma descend_ok d m ver k u w nb : wf m -> treeOk d u m ver -> wInv m ver k u w -> length nb = 4 ->
  isPre (w_path w ++ nb) k = true -> inner [] m (w_path w ++ nb) = true ->
  exists w2, descend d w k (ver (w_path w ++ nb)) = Some w2 /\ wInv m ver k u w2 /\ w_path w2 = w_path w ++ nb.
Proof.
  intros W [_ TO] WI L4 EP I. destruct (depth_ok _ _ _ _ _ W WI) as (dd & LP & ED & Ld).
  destruct WI as (EC & PP & EK & OK & SK & ES).
  assert (LQ : length (w_path w ++ nb) < KL) by (eapply inner_lt; [exact W| |exact I]; cbn; unfold KL; lia).
  rewrite app_length in LQ. assert (PQ : pos m (w_path w ++ nb)) by (split; [apply al_snoc; auto; apply PP|auto]).
  assert (NE : w_path w ++ nb <> []) by (intros X; apply (f_equal (@length bool)) in X; rewrite app_length in X; cbn in X; lia).
  destruct (TO _ PQ NE) as (c & EG & OKc).
  unfold descend. rewrite ED, (getNibble_at (w_path w) nb k dd) by auto. unfold pathAppend.
  rewrite (al_div _ dd LP). destruct (Nat.ltb_spec dd (MAX_NIBBLES - 1)); [|unfold KL, MAX_NIBBLES in *; lia].
  rewrite EC, EG, (nodeOk_version H hparent ph m ver _ c OKc) by auto.
  eexists. split; [reflexivity|]. split; [|reflexivity]. unfold wInv. cbn [w_cache w_path w_cur w_stack w_stale Smt_Proofs5.stk].
  split; auto. split; auto. split; auto. split; auto. split; auto.
  exists (w_path w), nb. repeat split; auto.
Qed.

Section Ins.
Variables (d : db H) (m : list leaf) (ver : bits -> N) (l : leaf) (u : ucache) (v : N).
Hypothesis W : wf m.
Hypothesis Lk : length (lkey l) = KL.
Hypothesis Lv : lver l = v.
Hypothesis Uv : uc_version u = v.
Hypothesis TO : treeOk d u m ver.
Notation k := (lkey l).
Notation m' := (ins l m).
Notation ver' := (verk k v ver).
Notation old := (oldv m ver).

Definition leafStale (st : option leafkey) : Prop :=
  (st = None /\ ~ In k (map lkey m)) \/ exists s, In s m /\ lkey s = k /\ st = Some (k, lver s).

Lemma iW' : wf m'.
Proof. apply wf_ins'; auto. Qed.

Lemma stk_pend P st : al P -> isPre P k = true -> stk (Good m ver) P st -> stk (Pend m' ver' old) P st.
Proof.
  revert P. induction st as [|c st IH]; intros P A E; cbn [Smt_Proofs5.stk]; auto.
  intros (P0 & nb & -> & L4 & [OK I] & S0). exists P0, nb.
  assert (AP : al P0) by (eapply al_pre; eauto).
  assert (E0 : isPre P0 k = true) by (eapply isPre_trans; [apply isPre_app|exact E]).
  assert (I' : inner [] m' (P0 ++ nb) = true) by (apply inner_ins; auto).
  assert (I0 : inner [] m P0 = true) by (eapply inner_mono; [apply (isPre_app P0 nb)|exact I]).
  repeat split; auto.
  - apply (nodeOk_pend H hparent ph k m m' ver ver' P0 nb c); auto.
    + apply offk_ins.
    + apply verk_off.
  - rewrite (nodeOk_version H hparent ph m ver P0 c OK) by auto. f_equal. symmetry. apply oldv_pos. split; auto.
Qed.

(** The node that holds the two colliding keys is built as a root of its own; it is the node of the tree at that position. *)
Lemma transfer P s c2 : under m P = [s] -> P <> [] -> isPre P k = true -> isPre P (lkey s) = true -> lkey s <> k ->
  nodeOk P (ins l [s]) ver' P c2 -> nodeOk [] m' ver' P c2.
Proof.
  intros Us NP EP EPs NK OK.
  assert (AG : agree H (ins l [s]) m' P).
  { intros Q E. rewrite !under_ins. assert (X : under m Q = under [s] Q); [|now rewrite X].
    rewrite (under_single_sub H m P Q s Us E). cbn. reflexivity. }
  assert (I2 : under m' P = [l; s]).
  { rewrite under_ins, EP, Us. cbn. rewrite (proj2 (bits_eqb_neq _ _) NK). reflexivity. }
  assert (IN : forall Q, isPre P Q = true -> inner [] m' Q = inner P (ins l [s]) Q).
  { intros Q E. unfold Smt_Proofs.inner. rewrite (AG Q E). destruct (bits_dec Q P) as [-> |NE].
    - rewrite <- (AG P (isPre_refl P)), I2. reflexivity.
    - rewrite (proj2 (bits_eqb_neq Q P) NE), (proj2 (bits_eqb_neq Q [])); auto.
      intros ->. apply isPre_nil_r in E. congruence. }
  intros q Lq. specialize (OK q Lq). unfold Smt_Proofs.slotOk in *.
  assert (E : isPre P (P ++ q) = true) by apply isPre_app.
  rewrite (IN _ E). rewrite (thash_agree H hparent ph P [] (ins l [s]) m' (P ++ q)).
  2:{ eapply agree_sub; eauto. }
  2:{ intros Q' X. apply IN. eapply isPre_trans; eauto. }
  destruct (inner P (ins l [s]) (P ++ q)) eqn:I; auto.
  assert (NQ : q <> []).
  { intros ->. rewrite app_nil_r in I. rewrite <- (IN P (isPre_refl P)) in I. rewrite (inner_two H [] m' P l s []) in I by auto. discriminate. }
  assert (X1 : bits_eqb (P ++ q) P = false).
  { apply bits_eqb_neq. intros X. apply (f_equal (@length bool)) in X. rewrite app_length in X. destruct q; cbn in X; [congruence|lia]. }
  assert (X2 : bits_eqb (P ++ q) [] = false) by (apply bits_eqb_neq; destruct P; [congruence|discriminate]).
  rewrite X1 in OK. rewrite X2, OK. unfold Smt_Proofs.lslot. rewrite (AG _ E).
  destruct (snoc_cases q) as [-> |(a & b & ->)]; [congruence|].
  rewrite app_assoc, removelast_snoc, IN; auto. apply isPre_app.
Qed.

Lemma prefix_exact a b Q nb : isPre (Q ++ nb) a = true -> length a = length b -> a <> b -> isPre Q b = true ->
  prefix_bits a b < length Q + length nb -> isPre (Q ++ nb) b = false.
Proof.
  intros E L NE EQ X. apply not_true_iff_false. intros Y. pose proof (prefix_bits_common _ _ _ E Y). rewrite app_length in H0. lia.
Qed.

Lemma ins_single (s : leaf) : ins s [] = [s].
Proof. reflexivity. Qed.
Lemma wf_nil : wf [].
Proof. split; constructor. Qed.

(** appendEmptyNodes pushes pending nodes; the stack runs one node ahead of the path *)
Lemma append_ok s P1 : under m P1 = [s] -> P1 <> [] -> lkey s <> k -> forall n st P nb dd, length P = 4 * dd -> dd + n + 1 < MAX_NIBBLES ->
  length nb = 4 -> isPre (P ++ nb) k = true -> isPre P1 (P ++ nb) = true ->
  4 * (dd + n + 1) <= prefix_bits k (lkey s) -> stk (Pend m' ver' old) (P ++ nb) st ->
  exists st' P' nb', append_loop n k st P = Some (st', P') /\ stk (Pend m' ver' old) (P' ++ nb') st' /\ length P' = 4 * (dd + n) /\
    length nb' = 4 /\ isPre (P' ++ nb') k = true /\ isPre P1 (P' ++ nb') = true.
Proof.
  intros U1 NP1 NK. induction n as [|n IH]; intros st P nb dd LP Ld L4 EP E1 LC S0; cbn [append_loop].
  - exists st, P, nb. rewrite Nat.add_0_r. repeat split; auto.
  - rewrite (al_div P dd LP), (getNibble_at P nb k dd) by (auto; lia).
    unfold pathAppend. rewrite (al_div P dd LP). destruct (Nat.ltb_spec dd (MAX_NIBBLES - 1)); [|unfold MAX_NIBBLES in *; lia].
    set (P0 := P ++ nb) in *. assert (LP0 : length P0 = 4 * S dd) by (unfold P0; rewrite app_length; lia).
    destruct (next_nibble P0 k) as (nb2 & L42 & EPn); auto.
    { exists (S dd); auto. }
    { unfold KL, MAX_NIBBLES in *. lia. }
    assert (EPs : isPre (P0 ++ nb2) (lkey s) = true).
    { apply (common_pre k); auto. rewrite app_length. lia. }
    assert (UP : forall Q, isPre P0 Q = true -> under m Q = if isPre Q (lkey s) then [s] else []).
    { intros Q E. eapply under_single_sub; [exact U1|]. eapply isPre_trans; eauto. }
    assert (NP : P0 <> []) by (intros X; rewrite X in LP0; cbn in LP0; lia).
    destruct (IH (emptyNode :: st) P0 nb2 (S dd)) as (st' & P' & nb' & EA & S' & LP' & L4' & EP' & EPP); auto.
    + lia.
    + eapply isPre_trans; [exact E1|apply isPre_app].
    + lia.
    + cbn [Smt_Proofs5.stk]. exists P0, nb2. split; [reflexivity|]. split; [exact L42|]. split; [|exact S0]. split.
      * intros q Lq. destruct (isPre q nb2) eqn:Eq; [intros; discriminate|].
        assert (Z : under m' (P0 ++ q) = []).
        { rewrite under_ins. rewrite (onpath P0 nb2 k q) by (auto; lia). rewrite Eq. rewrite UP by apply isPre_app.
          rewrite (onpath P0 nb2 (lkey s) q) by (auto; lia). now rewrite Eq. }
        unfold Smt_Proofs.slotOk, Smt_Proofs.lslot, Smt_Proofs.inner. rewrite Z.
        rewrite (proj2 (bits_eqb_neq _ _)); [reflexivity|]. destruct P0; [congruence|discriminate].
      * cbn. f_equal. unfold oldv. destruct (pos_dec H m P0) as [[_ [X|X]]|X]; auto; [congruence|].
        exfalso. unfold Smt_Proofs.inner in X. rewrite (UP P0 (isPre_refl P0)) in X.
        rewrite (isPre_trans P0 (P0 ++ nb2) (lkey s)) in X; auto; [|apply isPre_app].
        rewrite (proj2 (bits_eqb_neq _ _) NP) in X. discriminate.
    + exists st', P', nb'. split; [exact EA|]. repeat (split; auto). lia.
Qed.

(** the pair of inserts of handleCollision *)
Lemma pair_ok s P' dd : under m P' = [s] -> length P' = 4 * dd -> dd < MAX_NIBBLES -> P' <> [] -> isPre P' k = true -> isPre P' (lkey s) = true ->
  lkey s <> k -> prefix_bits k (lkey s) < 4 * dd + 4 ->
  exists c1 r c2, nodeInsert H hparent ph emptyNode s dd v = Some (c1, r) /\
    nodeInsert H hparent ph c1 l dd v = Some (c2, InsComplete None) /\ nodeOk [] m' ver' P' c2.
Proof.
  intros Us LP Ld NP EP EPs NK LC.
  assert (Ls : length (lkey s) = KL).
  { apply (wf_len H m s W). assert (In s (under m P')) by (rewrite Us; cbn; auto). apply in_under in H0. tauto. }
  destruct (next_nibble P' (lkey s)) as (nbs & L4s & ENs); auto. { exists dd; auto. } { unfold KL, MAX_NIBBLES in *; lia. }
  destruct (next_nibble P' k) as (nb & L4 & EN); auto. { exists dd; auto. } { unfold KL, MAX_NIBBLES in *; lia. }
  set (verA := fun Q => if bits_eqb Q P' then 0%N else ver' Q).
  assert (V' : ver' P' = v) by (apply verk_on; auto).
  assert (OKA : nodeOk P' [] verA P' emptyNode).
  { intros q Lq. unfold Smt_Proofs.slotOk, Smt_Proofs.inner, Smt_Proofs.lslot. cbn [Smt_Proofs.under filter].
    destruct (bits_eqb (P' ++ q) P'); [|reflexivity]. left. split; [reflexivity|]. unfold verA. now rewrite bits_eqb_refl. }
  assert (VA : veroff (lkey s) verA ver').
  { intros Q E. unfold verA. rewrite (proj2 (bits_eqb_neq _ _)); auto. intros ->. congruence. }
  destruct (nodeInsert_ok H hparent ph P' P' nbs [] verA ver' emptyNode s dd v wf_nil Ls (le_n _) LP Ld L4s ENs OKA V' VA) as (c1 & r & E1 & R1).
  { right. auto. } { right. reflexivity. }
  destruct r as [st1|s1|v1].
  2:{ destruct R1 as (_ & X & _). discriminate. }
  2:{ destruct R1 as (_ & _ & X). specialize (X [] eq_refl). discriminate. }
  destruct R1 as [OK1 _]. rewrite ins_single in OK1.
  assert (W1 : wf [s]). { split; [repeat constructor; auto|constructor; auto]. }
  assert (V0 : veroff k ver' ver') by (intros Q _; reflexivity).
  destruct (nodeInsert_ok H hparent ph P' P' nb [s] ver' ver' c1 l dd v W1 Lk (le_n _) LP Ld L4 EN OK1 V' V0) as (c2 & r2 & E2 & R2); auto.
  { left. unfold Smt_Proofs.inner. cbn. rewrite EPs. apply bits_eqb_refl. }
  exists c1, (InsComplete st1), c2. split; [exact E1|].
  assert (NS : isPre (P' ++ nb) (lkey s) = false) by (apply (prefix_exact k); auto; try lia; congruence).
  destruct r2 as [st2|s2|v2].
  - destruct R2 as [OK2 [[-> _]|(s0 & [<- |[]] & X & _)]]; [|congruence].
    split; [exact E2|]. apply (transfer P' s c2); auto.
  - exfalso. destruct R2 as (_ & X & _). cbn in X. rewrite NS in X. discriminate.
  - exfalso. destruct R2 as (_ & _ & X). specialize (X nb (isPre_refl nb)). unfold Smt_Proofs.inner in X. cbn in X. rewrite NS in X. discriminate.
Qed.

Lemma collision_ok w s nb : w_cache w = u -> pos m (w_path w) -> length nb = 4 -> isPre (w_path w ++ nb) k = true ->
  stk (Pend m' ver' old) (w_path w) (w_stack w) -> Pend m' ver' old (w_path w) nb (w_cur w) -> under m (w_path w ++ nb) = [s] -> lkey s <> k ->
  exists u', handleCollision H hparent ph w s l = Some u' /\ cacheUpd m' ver' old v (fun Q => isPre Q k = true /\ pos m' Q) none u u'.
Proof.
  intros EC PP L4 EN S0 PD Us NK. pose proof (pos_lt H m _ W PP) as LP. destruct PP as [AL PP]. pose proof AL as [dd ED].
  assert (Ld : dd < MAX_NIBBLES) by (unfold KL, MAX_NIBBLES in *; lia).
  assert (Is : In s (under m (w_path w ++ nb))) by (rewrite Us; cbn; auto). apply in_under in Is as [Is EPs].
  assert (Ls : length (lkey s) = KL) by (apply (wf_len H m s W Is)).
  assert (C0 : length (w_path w ++ nb) <= prefix_bits k (lkey s)) by (apply prefix_bits_common; auto).
  assert (C1 : prefix_bits k (lkey s) < KL) by (rewrite <- Lk; apply prefix_bits_len; [lia|congruence]).
  rewrite app_length, L4 in C0. unfold handleCollision, prefix_bits_from, w_depth. rewrite (al_div _ dd ED).
  destruct (Nat.ltb_spec dd MAX_NIBBLES); [|lia]. cbv zeta.
  destruct (Nat.ltb_spec (dd * 4) (prefix_bits k (lkey s))); [|lia].
  set (pb := prefix_bits k (lkey s)) in *. set (n := (pb - dd * 4) / 4).
  assert (Hn : 4 * n <= pb - dd * 4 < 4 * n + 4).
  { unfold n. pose proof (Nat.div_mod (pb - dd * 4) 4). pose proof (Nat.mod_upper_bound (pb - dd * 4) 4). lia. }
  assert (n1 : exists n', n = S n') by (exists (n - 1); lia). destruct n1 as [n' En].
  unfold appendEmptyNodes. rewrite En. cbn [Nat.sub]. rewrite Nat.sub_0_r.
  destruct (append_ok s (w_path w ++ nb) Us) with (n := n') (st := w_cur w :: w_stack w) (P := w_path w) (nb := nb) (dd := dd)
    as (st' & P' & nb' & EA & S' & LP' & L4' & EP' & EPP); auto.
  { intros X. apply (f_equal (@length bool)) in X. rewrite app_length in X. cbn in X. lia. }
  { unfold KL, MAX_NIBBLES in *. lia. }
  { apply isPre_refl. }
  { lia. }
  { cbn [Smt_Proofs5.stk]. exists (w_path w), nb. repeat split; auto; apply PD. }
  rewrite EA. assert (Ld' : dd + n' < MAX_NIBBLES) by (unfold KL, MAX_NIBBLES in *; lia).
  rewrite (al_div P' (dd + n') LP'), (getNibble_at P' nb' k (dd + n')) by auto.
  unfold pathAppend. rewrite (al_div P' _ LP'). destruct (Nat.ltb_spec (dd + n') (MAX_NIBBLES - 1)); [|unfold KL, MAX_NIBBLES in *; lia].
  set (PQ := P' ++ nb') in *. assert (LQ : length PQ = 4 * (dd + n' + 1)) by (unfold PQ; rewrite app_length; lia).
  cbn [w_cur w_path w_cache w_stack w_stale]. rewrite (al_div PQ _ LQ).
  assert (EQs : isPre PQ (lkey s) = true) by (apply (common_pre k); auto; fold pb; lia).
  assert (UQ : under m PQ = [s]) by (rewrite (under_single_sub H m _ PQ s Us EPP), EQs; reflexivity).
  assert (NQ : PQ <> []) by (intros X; rewrite X in LQ; cbn in LQ; lia).
  destruct (pair_ok s PQ (dd + n' + 1)) as (c1 & r & c2 & E1 & E2 & OK2); auto.
  { unfold KL, MAX_NIBBLES in *. lia. }
  { fold pb. lia. }
  unfold w_version. cbn [w_cache]. rewrite EC, Uv, E1, E2.
  assert (IQ : under m' PQ = [l; s]).
  { rewrite under_ins, EP', UQ. cbn. rewrite (proj2 (bits_eqb_neq _ _) NK). reflexivity. }
  destruct (ascendToRoot_ok H hparent ph m' ver' old v iW' st' (mkW u st' c2 PQ 0%N) None) as (u' & EU & CU);
    cbn [w_cur w_path w_cache w_stack w_stale]; auto.
  { right. eapply inner_two; eauto. }
  { unfold oldv. destruct (pos_dec H m PQ) as [[_ [X|X]]|X]; auto; [congruence|].
    exfalso. unfold Smt_Proofs.inner in X. rewrite UQ, (proj2 (bits_eqb_neq _ _) NQ) in X. discriminate. }
  { intros Q X. apply verk_on. eapply isPre_trans; eauto. }
  exists u'. split; [exact EU|]. cbn [w_path w_cache ucPutStaleLeaf] in CU.
  eapply cacheUpd_ext; [| |exact CU]; [|reflexivity]. intros Q. unfold onp. split.
  - intros [A X]. split; [eapply isPre_trans; eauto|]. split; auto. right. eapply inner_mono; [exact X|]. eapply inner_two; eauto.
  - intros [X [A IQ']]. split; auto.
    destruct (le_lt_dec (length Q) (length PQ)) as [G|G]; [apply (isPre_two Q PQ k); auto|].
    exfalso. destruct IQ' as [-> |IQ']; [cbn in G; lia|].
    assert (EPQ : isPre PQ Q = true) by (apply (isPre_two PQ Q k); auto; lia).
    assert (UQ' : under m Q = []).
    { rewrite (under_single_sub H m PQ Q s UQ EPQ). destruct (isPre Q (lkey s)) eqn:Y; auto. exfalso.
      pose proof (prefix_bits_common _ _ _ X Y). destruct A as [dq A]. fold pb in H1. lia. }
    unfold Smt_Proofs.inner in IQ'. rewrite under_ins, X, UQ' in IQ'. cbn in IQ'. apply bits_eqb_spec in IQ'.
    rewrite IQ' in G. cbn in G. lia.
Qed.

Lemma two_ver P nb dd c c' st : length P = 4 * dd -> dd < MAX_NIBBLES -> length nb = 4 -> isPre (P ++ nb) k = true -> nodeOk [] m ver P c ->
  inner [] m P = true \/ (P = [] /\ under m P = []) ->
  nodeInsert H hparent ph c l dd v = Some (c', InsComplete st) -> inner [] m' (P ++ nb) = false.
Proof.
  intros LP Ld L4 EN OK I E. apply not_true_iff_false. intros X.
  set (verB := fun Q => if bits_eqb Q (P ++ nb) then (v + 1)%N else ver' Q).
  assert (NE : P <> P ++ nb) by (intros Y; apply (f_equal (@length bool)) in Y; rewrite app_length in Y; lia).
  assert (EP : isPre P k = true) by (eapply isPre_trans; [apply isPre_app|exact EN]).
  assert (R0 : @length bool [] <= length P) by (cbn; lia).
  destruct (nodeInsert_ok H hparent ph [] P nb m ver ver' c l dd v W Lk R0 LP Ld L4 EN OK (verk_on _ _ _ _ EP) (verk_off _ _ _) I (or_introl Lv)) as (c1 & r1 & E1 & R1).
  assert (VB : verB P = v) by (unfold verB; rewrite (proj2 (bits_eqb_neq _ _) NE); apply verk_on; auto).
  assert (VO : veroff k ver verB).
  { intros Q EQ. unfold verB. rewrite (proj2 (bits_eqb_neq _ _)); [unfold verk; now rewrite EQ|]. intros ->. congruence. }
  destruct (nodeInsert_ok H hparent ph [] P nb m ver verB c l dd v W Lk R0 LP Ld L4 EN OK VB VO I (or_introl Lv)) as (c2 & r2 & E2 & R2).
  rewrite E in E1, E2. injection E1 as <- <-. injection E2 as <- <-.
  destruct R1 as [OK1 _]. destruct R2 as [OK2 _]. specialize (OK1 nb ltac:(lia)). specialize (OK2 nb ltac:(lia)).
  unfold Smt_Proofs.slotOk in OK1, OK2. rewrite X in OK1, OK2.
  destruct OK1 as (u1 & Y1 & _ & Z1). destruct OK2 as (u2 & Y2 & _ & Z2). specialize (Z1 L4). specialize (Z2 L4).
  rewrite Y1 in Y2. injection Y2 as Y2. unfold verB in Z2. rewrite bits_eqb_refl in Z2. rewrite verk_on in Z1 by auto. lia.
Qed.

Lemma treeInsert_ok : forall fuel w dd, wInv m ver k u w -> length (w_path w) = 4 * dd -> MAX_NIBBLES < fuel + dd ->
  exists u' st, treeInsert H hparent ph fuel d w l = Some u' /\ leafStale st /\
    cacheUpd m' ver' old v (fun Q => isPre Q k = true /\ pos m' Q) none (ucPutStaleLeaf u st) u'.
Proof.
  induction fuel as [|fuel IH]; intros w dd WI LP LF.
  - destruct (depth_ok _ _ _ _ _ W WI) as (d' & E1 & _ & E2). lia.
  - cbn [treeInsert]. destruct (depth_ok _ _ _ _ _ W WI) as (d' & E1 & E2 & E3). assert (Edd : d' = dd) by lia. rewrite Edd in *. clear d' Edd.
    rewrite E2. destruct (Nat.ltb_spec dd MAX_NIBBLES); [|lia]. pose proof WI as (EC & PP & EK & OK & SK & ES).
    destruct (next_nibble (w_path w) k) as (nb & L4 & EN); auto. { apply PP. } { eapply pos_lt; eauto. }
    assert (R0 : @length bool [] <= length (w_path w)) by (cbn; lia).
    assert (I0 : inner [] m (w_path w) = true \/ (w_path w = [] /\ under m (w_path w) = [])).
    { destruct PP as [_ [X|X]]; auto. rewrite X. unfold Smt_Proofs.inner. destruct (under m []) as [|? [|? ?]]; auto. }
    destruct (nodeInsert_ok H hparent ph [] (w_path w) nb m ver ver' (w_cur w) l dd v W Lk R0 LP E3 L4 EN OK (verk_on _ _ _ _ EK) (verk_off _ _ _) I0 (or_introl Lv)) as (c1 & r1 & EI & R1).
    unfold w_version. rewrite EC, Uv, EI.
    assert (SP : stk (Pend m' ver' old) (w_path w) (w_stack w)) by (apply stk_pend; auto; apply PP).
    assert (OV : w_stale w = old (w_path w)) by (rewrite oldv_pos; auto).
    destruct r1 as [st|s|vn].
    + destruct R1 as [OK1 LS]. cbn [insPost] in LS.
      pose proof (two_ver _ nb dd _ _ _ LP E3 L4 EN OK I0 EI) as NI.
      assert (PP' : w_path w = [] \/ inner [] m' (w_path w) = true).
      { destruct PP as [_ [X|X]]; auto. right. apply inner_ins; auto. }
      destruct (ascendToRoot_ok H hparent ph m' ver' old v iW' (w_stack w) (mkW u (w_stack w) c1 (w_path w) (w_stale w)) st) as (u' & EU & CU);
        cbn [w_cur w_path w_cache w_stack w_stale]; auto.
      { intros Q X. apply verk_on. eapply isPre_trans; eauto. }
      exists u', st. split; [exact EU|]. split; [exact LS|]. cbn [w_path w_cache] in CU.
      eapply cacheUpd_ext; [| |exact CU]; [|reflexivity]. intros Q. unfold onp. split.
      * intros [A X]. split; [eapply isPre_trans; eauto|]. apply (pos_mono H m' (w_path w)); auto. split; auto. apply PP.
      * intros [X [A Y]]. split; auto. destruct (al_next Q (w_path w) nb k A (proj1 PP) L4 X EN) as [Z|Z]; auto.
        exfalso. destruct Y as [-> |Y].
        -- apply isPre_nil_r in Z. apply (f_equal (@length bool)) in Z. rewrite app_length in Z. cbn in Z. lia.
        -- rewrite (inner_mono H m' Q _ Z Y) in NI. discriminate.
    + destruct R1 as (NK & Us & PD & E0).
      destruct (collision_ok (mkW u (w_stack w) c1 (w_path w) (w_stale w)) s nb) as (u' & EU & CU);
        cbn [w_cur w_path w_cache w_stack w_stale]; auto.
      { split; auto. unfold nodeVersion. rewrite E0. rewrite <- OV, ES. apply (nodeOk_version H hparent ph m ver (w_path w) (w_cur w)); auto. apply PP. }
      exists u', None. split; [exact EU|]. split; [|exact CU]. left. split; auto. intros X. apply in_map_iff in X as (s' & Ek & I).
      assert (In s' (under m (w_path w ++ nb))) by (apply in_under; split; auto; now rewrite Ek).
      rewrite Us in H1. destruct H1 as [<- |[]]. congruence.
    + destruct R1 as (-> & -> & IA).
      replace (mkW u (w_stack w) (w_cur w) (w_path w) (w_stale w)) with w by (destruct w; cbn in *; congruence).
      destruct (descend_ok d m ver k u w nb W TO WI L4 EN (IA nb (isPre_refl nb))) as (w2 & ED & WI2 & EP2).
      rewrite ED. apply (IH w2 (S dd)); auto.
      * rewrite EP2, app_length. lia.
      * lia.
Qed.

Lemma insertOne_ok : exists u' st, insertOne H hparent ph d u l = Some u' /\ leafStale st /\
    cacheUpd m' ver' old v (fun Q => isPre Q k = true /\ pos m' Q) none (ucPutStaleLeaf u st) u'.
Proof.
  unfold insertOne. destruct (newWalker_ok d u m ver k TO) as (w & E & WI & EP). rewrite E.
  assert (L0 : length (w_path w) = 4 * 0) by now rewrite EP.
  apply (treeInsert_ok _ w 0 WI L0). unfold MAX_NIBBLES. lia.
Qed.
End Ins.
End S.
