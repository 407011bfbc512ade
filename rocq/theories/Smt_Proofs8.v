(** Proofs about the sparse Merkle tree, part 8: one update, and the store. *)
From Coq Require Import List NArith Bool Arith Lia.
From Verif Require Import Smt_Model Smt_Proofs Smt_Proofs2 Smt_Proofs3 Smt_Proofs4 Smt_Proofs5 Smt_Proofs6 Smt_Proofs7.
Import ListNotations.

Section S.
Variable H : Type.
Variable hparent : H -> H -> H.
Variable ph : H.
Notation leaf := (leaf H).
Notation node := (node H).
Notation under := (under H).
Notation inner := (inner H).
Notation lslot := (lslot H).
Notation thash := (thash H hparent ph).
Notation wf := (wf H).
Notation rm := (rm H).
Notation ins := (ins H).
Notation offk := (offk H).
Notation slotOk := (slotOk H hparent ph).
Notation nodeOk := (nodeOk H hparent ph).
Notation pos := (pos H).
Notation ucache := (ucache H).
Notation cacheUpd := (cacheUpd H hparent ph).
Notation treeOk := (treeOk H hparent ph).
Notation oldv := (oldv H).

(** a node beside the path of [k] *)
Lemma nodeOk_move k m m' ver ver' Q c : offk k m m' -> veroff k ver ver' -> isPre Q k = false -> pos m Q -> nodeOk [] m ver Q c -> nodeOk [] m' ver' Q c.
Proof.
  intros O VO E PP OK q Lq. assert (Eq : forall q, isPre (Q ++ q) k = false).
  { intros q0. apply not_true_iff_false. intros X. assert (isPre Q k = true) by (eapply isPre_trans; [apply isPre_app|exact X]). congruence. }
  assert (NQ : Q <> []) by (intros ->; discriminate).
  specialize (OK q Lq). unfold Smt_Proofs.slotOk in *.
  rewrite (inner_under H [] m m' (Q ++ q)) by (apply O; auto).
  rewrite (thash_agree1 H hparent ph [] m m') by (eapply offk_agree; eauto).
  destruct (inner [] m (Q ++ q)) eqn:I.
  - destruct OK as (x & -> & X1 & X2). exists x. rewrite !VO; auto.
  - assert (NE : bits_eqb (Q ++ q) [] = false) by (apply bits_eqb_neq; destruct Q; [congruence|discriminate]).
    rewrite NE in *. rewrite OK. unfold Smt_Proofs.lslot. rewrite (O (Q ++ q)) by auto.
    destruct (snoc_cases q) as [-> |(a & b & ->)].
    + rewrite app_nil_r in *. destruct PP as [_ [X|X]]; [congruence|rewrite X in I; discriminate].
    + rewrite app_assoc, removelast_snoc. rewrite (inner_under H [] m m' (Q ++ a)); auto.
Qed.

Record upInv (d : db H) (m0 : list leaf) (ver0 : bits -> N) (v : N) (m : list leaf) (ver : bits -> N) (u : ucache) : Prop := {
  uW : wf m;
  uV : uc_version u = v;
  uT : treeOk d u m ver;
  uNV : forall Q, pos m Q -> ver Q = v \/ (pos m0 Q /\ ver Q = ver0 Q);
  uC : forall Q, plookup Q (uc_nodes u) <> None <-> pos m Q /\ ver Q = v;
  uS : forall x Q, In (x, Q) (uc_stale_int u) <-> pos m0 Q /\ x = ver0 Q /\ x <> 0%N /\ (~ pos m Q \/ ver Q = v) }.

Section Step.
Variables (d : db H) (m0 : list leaf) (ver0 : bits -> N) (v : N).
Hypothesis V0 : forall Q, pos m0 Q -> (ver0 Q < v)%N.
Hypothesis Vp : v <> 0%N.

Lemma up_step m ver u m' k u1 u' : upInv d m0 ver0 v m ver u -> wf m' -> offk k m m' ->
  uc_version u1 = uc_version u -> uc_root0 u1 = uc_root0 u -> uc_nodes u1 = uc_nodes u -> uc_stale_int u1 = uc_stale_int u ->
  cacheUpd m' (verk k v ver) (oldv m ver) v (fun Q => isPre Q k = true /\ pos m' Q) (fun Q => isPre Q k = true /\ pos m Q /\ ~ pos m' Q) u1 u' ->
  upInv d m0 ver0 v m' (verk k v ver) u'.
Proof.
  intros [W V T NV C S0] W' O E1 E2 E3 E4 (A & B & _ & F1 & F2 & F3 & F4).
  assert (PO : forall Q, isPre Q k = false -> pos m' Q <-> pos m Q) by (intros; eapply pos_off; eauto).
  assert (VO : forall Q, isPre Q k = false -> verk k v ver Q = ver Q) by (intros; unfold verk; now rewrite H0).
  assert (OFF : forall Q, isPre Q k = false -> plookup Q (uc_nodes u') = plookup Q (uc_nodes u)).
  { intros Q X. rewrite F3, E3; auto; intros [Y _]; congruence. }
  split.
  - exact W'.
  - congruence.
  - split.
    + destruct (F1 []) as (c & Ec & OK). { split; [reflexivity|]. split; [apply al_nil|auto]. }
      unfold ucGetRoot. now rewrite Ec.
    + intros Q PQ NQ. destruct (isPre Q k) eqn:X.
      * destruct (F1 Q (conj X PQ)) as (c & Ec & OK). exists c. split; auto. unfold ucGetInternal. now rewrite Ec.
      * apply PO in PQ; auto. destruct T as [_ T]. destruct (T Q PQ NQ) as (c & Ec & OK). exists c. split.
        -- unfold ucGetInternal in *. rewrite OFF, VO; auto.
        -- apply (nodeOk_move k m m' ver); auto using verk_off.
  - intros Q PQ. destruct (isPre Q k) eqn:X.
    + left. now apply verk_on.
    + rewrite VO by auto. apply NV. now apply PO.
  - intros Q. destruct (isPre Q k) eqn:X.
    + rewrite verk_on by auto. destruct (pos_dec H m' Q) as [PQ|NQ].
      * destruct (F1 Q (conj X PQ)) as (c & Ec & _). rewrite Ec. split; [auto|discriminate].
      * destruct (pos_dec H m Q) as [PQ|NQ2].
        -- rewrite F2 by auto. split; [congruence|tauto].
        -- rewrite F3, E3, C by tauto. tauto.
    + rewrite OFF, VO, C, PO; auto. reflexivity.
  - intros x Q. rewrite F4, E4, S0. destruct (isPre Q k) eqn:X.
    + rewrite verk_on by auto. split.
      * intros [(X1 & X2 & X3 & X4)|(TD & X1 & X2 & X3)].
        -- repeat (split; [assumption|]). destruct (pos_dec H m' Q); auto.
        -- unfold Smt_Proofs6.oldv in X1. destruct (pos_dec H m Q) as [PQ|NQ]; [|congruence].
           destruct (NV Q PQ) as [Y|[Y1 Y2]]; [congruence|]. split; auto. split; [congruence|]. split; auto.
      * intros (X1 & X2 & X3 & X4). destruct (pos_dec H m Q) as [PQ|NQ]; [|left; auto].
        destruct (N.eq_dec (ver Q) v) as [Y|Y]; [left; auto|]. right.
        destruct (NV Q PQ) as [Z|[_ Z]]; [congruence|].
        split; [destruct (pos_dec H m' Q); auto|]. rewrite oldv_pos by auto. repeat split; auto; try congruence.
    + rewrite VO by auto. rewrite PO by auto. split; [intros [Y|([[Y _]|[Y _]] & _)]; [auto|congruence|congruence]|auto].
Qed.

Lemma up_insert m ver u l : upInv d m0 ver0 v m ver u -> length (lkey l) = KL -> lver l = v ->
  exists u', insertOne H hparent ph d u l = Some u' /\ upInv d m0 ver0 v (ins l m) (verk (lkey l) v ver) u' /\
    exists st, leafStale H m l st /\ uc_stale_leaf u' = uc_stale_leaf (ucPutStaleLeaf u st).
Proof.
  intros I Lk Lv. destruct (insertOne_ok H hparent ph d m ver l u v) as (u' & st & E & LS & C); try apply I; auto.
  exists u'. split; auto. split; [|exists st; split; auto; apply C].
  eapply (up_step m ver u (ins l m) (lkey l) (ucPutStaleLeaf u st)); auto.
  - apply wf_ins'; auto. apply I.
  - apply offk_ins.
  - destruct st; reflexivity.
  - destruct st; reflexivity.
  - destruct st; reflexivity.
  - destruct st; reflexivity.
  - eapply cacheUpd_ext; [| |exact C]; [reflexivity|]. intros Q. unfold none. split; [tauto|].
    intros (_ & X & Y). apply Y. apply pos_ins; auto. apply I.
Qed.

Lemma up_remove m ver u k : upInv d m0 ver0 v m ver u -> length k = KL ->
  (~ In k (map lkey m) /\ removeOne H hparent ph d u k = Some u) \/
  exists s u', In s m /\ lkey s = k /\ removeOne H hparent ph d u k = Some u' /\ upInv d m0 ver0 v (rm k m) (verk k v ver) u' /\
    uc_stale_leaf u' = (k, lver s) :: uc_stale_leaf u.
Proof.
  intros I Lk. destruct (removeOne_ok H hparent ph d m ver k u v) as [R|(s & u' & Is & Ek & E & C)]; try apply I; auto.
  right. exists s, u'. split; auto. split; auto. split; auto. split; [|apply C].
  eapply (up_step m ver u (rm k m) k (ucPutStaleLeaf u (Some (k, lver s)))); auto.
  - apply wf_rm. apply I.
  - apply offk_rm.
Qed.
End Step.

(** ** folds *)
(** the leaves after a batch *)
Definition delAll (dels : list bits) (m : list leaf) : list leaf := fold_left (fun m k => rm k m) dels m.
Definition putAll (v : N) (puts : list (bits * H)) (m : list leaf) : list leaf :=
  fold_left (fun m p => ins (mkLeaf (snd p) (fst p) v) m) puts m.

Definition leafInv (m0 m : list leaf) (u : ucache) : Prop :=
  forall k x, In (k, x) (uc_stale_leaf u) <-> exists s, In s m0 /\ lkey s = k /\ lver s = x /\ ~ In s m.

Section Fold.
Variables (d : db H) (m0 : list leaf) (ver0 : bits -> N) (v : N).
Hypothesis W0 : wf m0.
Hypothesis V0 : forall Q, pos m0 Q -> (ver0 Q < v)%N.
Hypothesis L0 : forall s, In s m0 -> (lver s < v)%N.
Hypothesis Vp : v <> 0%N.

Lemma rm_same k m : ~ In k (map lkey m) -> rm k m = m.
Proof. apply rm_notin. Qed.

Lemma dels_ok : forall dels m ver u, upInv d m0 ver0 v m ver u -> Forall (fun k => length k = KL) dels ->
  incl m m0 -> leafInv m0 m u ->
  exists u' ver', foldOpt (removeOne H hparent ph d) u dels = Some u' /\ upInv d m0 ver0 v (delAll dels m) ver' u' /\
    incl (delAll dels m) m0 /\ leafInv m0 (delAll dels m) u' /\
    ((Exists (fun k => In k (map lkey m)) dels /\ ver' [] = v) \/ (~ Exists (fun k => In k (map lkey m)) dels /\ u' = u /\ delAll dels m = m /\ ver' = ver)).
Proof.
  induction dels as [|k dels IH]; intros m ver u I F IC LI; cbn [foldOpt delAll fold_left].
  - exists u, ver. repeat (split; [solve [auto]|]). right. repeat split; auto. intros X. inversion X.
  - inversion F as [|? ? Lk F']; subst. destruct (up_remove d m0 ver0 v m ver u k I Lk) as [[NI E]|(s & u1 & Is & Ek & E & I1 & LS)].
    + rewrite E, (rm_same k m NI). destruct (IH m ver u I F' IC LI) as (u' & ver' & E' & I' & IC' & LI' & R).
      exists u', ver'. fold (delAll dels m). repeat (split; [assumption|]).
      destruct R as [[X Y]|(X & Y)]; [left; auto|right; split; auto]. intros Z. inversion Z; auto.
    + rewrite E. assert (IC1 : incl (rm k m) m0) by (intros x X; apply in_rm in X; apply IC; tauto).
      assert (LI1 : leafInv m0 (rm k m) u1).
      { intros k' x. rewrite LS. cbn [In]. split.
        - intros [X|X].
          + injection X as <- <-. exists s. split; auto. split; auto. split; auto. rewrite in_rm. tauto.
          + apply LI in X as (s' & X1 & X2 & X3 & X4). exists s'. repeat (split; auto). rewrite in_rm. tauto.
        - intros (s' & X1 & X2 & X3 & X4). rewrite in_rm in X4. destruct (bits_dec (lkey s') k) as [Y|Y].
          + left. assert (Es : s' = s) by (apply (wf_inj H m0); auto; try congruence; apply IC; auto). rewrite <- X2, <- X3, Es, Ek. reflexivity.
          + right. apply LI. exists s'. repeat (split; auto). }
      destruct (IH (rm k m) _ u1 I1 F' IC1 LI1) as (u' & ver' & E' & I' & IC' & LI' & R).
      exists u', ver'. fold (delAll dels (rm k m)). repeat (split; [assumption|]). left. split.
      * left. apply in_map_iff. eauto.
      * destruct R as [[_ X]|(_ & _ & _ & ->)]; auto.
Qed.

Lemma puts_ok : forall puts m ver u, upInv d m0 ver0 v m ver u -> Forall (fun p => length (fst p) = KL) puts ->
  exists u' ver', foldOpt (fun u p => insertOne H hparent ph d u (mkLeaf (snd p) (fst p) (uc_version u))) u puts = Some u' /\
    upInv d m0 ver0 v (putAll v puts m) ver' u' /\
    ((puts <> [] /\ ver' [] = v) \/ (puts = [] /\ u' = u /\ ver' = ver)) /\
    (NoDup (map fst puts) -> (forall s, In s m -> In (lkey s) (map fst puts) -> In s m0) -> leafInv m0 m u -> leafInv m0 (putAll v puts m) u').
Proof.
  induction puts as [|[k h] puts IH]; intros m ver u I F; cbn [foldOpt putAll fold_left].
  - exists u, ver. split; [auto|]. split; [auto|]. split; auto.
  - inversion F as [|? ? Lk F']; subst. cbn [fst snd] in *.
    set (l := mkLeaf h k (uc_version u)).
    assert (El : l = mkLeaf h k v) by (unfold l; now rewrite (uV _ _ _ _ _ _ _ I)).
    destruct (up_insert d m0 ver0 v m ver u l I Lk (uV _ _ _ _ _ _ _ I)) as (u1 & E & I1 & st & LS & ES).
    rewrite E. destruct (IH (ins l m) _ u1 I1 F') as (u' & ver' & E' & I' & R & LI').
    exists u', ver'. rewrite <- El. fold (putAll v puts (ins l m)). split; auto. split; auto. split.
    + left. split; [discriminate|]. destruct R as [[_ X]|(_ & _ & ->)]; auto.
    + intros ND NM LI. cbn [map fst] in ND, NM. inversion ND as [|? ? N1 N2]; subst. apply LI'; auto.
      * intros s Is Ks. apply in_ins in Is as [-> |[Is NK]]; [contradiction|]. apply NM; auto. right. auto.
      * assert (Nl : forall s, In s m0 -> s <> l).
        { intros s Is ->. pose proof (L0 _ Is) as X. rewrite El in X. cbn in X. lia. }
        intros k' x. rewrite ES. split.
        -- intros X. assert (Y : In (k', x) (uc_stale_leaf u) \/ st = Some (k', x)).
           { destruct st as [[k2 x2]|]; cbn in X; [destruct X as [X|X]; [right; f_equal; exact X|auto]|auto]. }
           destruct Y as [Y|Y].
           ++ apply LI in Y as (s & Y1 & Y2 & Y3 & Y4). exists s. repeat (split; auto). rewrite in_ins. intros [Z|[Z _]]; [eapply Nl; eauto|auto].
           ++ destruct LS as [[Z _]|(s & Z1 & Z2 & Z3)]; [congruence|]. rewrite Z3 in Y. injection Y as <- <-.
              exists s. split; [apply NM; auto; left; auto|]. repeat (split; auto). rewrite in_ins.
              intros [Z|[_ Z]]; [|congruence]. apply (Nl s); auto. apply NM; auto. left; auto.
        -- intros (s & Y1 & Y2 & Y3 & Y4). rewrite in_ins in Y4.
           assert (Z : ~ In s m \/ (In s m /\ lkey s = k)).
           { destruct (in_dec bits_dec (lkey s) [k]) as [Z|Z].
             - destruct Z as [Z|[]]. destruct LS as [[_ NI]|(s' & Z1 & Z2 & _)].
               + left. intros X. apply NI. apply in_map_iff. exists s. split; auto.
               + assert (s = s') as ->; [|right; split; auto].
                 apply (wf_inj H m0); auto; [|cbn in Z2; congruence]. apply NM; auto. left. auto.
             - left. intros X. apply Y4. right. split; auto. intros Z'. apply Z. left. auto. }
           destruct Z as [Z|[Z1 Z2]].
           ++ assert (In (k', x) (uc_stale_leaf u)) by (apply LI; exists s; auto). destruct st; cbn; auto.
           ++ destruct LS as [[_ NI]|(s' & Z3 & Z4 & ->)].
              ** exfalso. apply NI. apply in_map_iff. exists s. auto.
              ** cbn. left. assert (s = s') as ->; [|rewrite <- Y2, <- Y3, Z2; reflexivity].
                 apply (wf_inj H m0); auto; [|cbn in Z4; congruence]. apply NM; auto. left. auto.
Qed.
End Fold.

End S.
