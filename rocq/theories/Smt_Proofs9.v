(** Proofs about the sparse Merkle tree, part 9: the store between updates. *)
From Coq Require Import List NArith Bool Arith Lia.
From Verif Require Import Smt_Model Smt_Proofs Smt_Proofs2 Smt_Proofs3 Smt_Proofs4 Smt_Proofs5 Smt_Proofs6 Smt_Proofs7 Smt_Proofs8 Smt_Spec.
Import ListNotations.

Lemma firstn_snoc0 n (q : bits) : n < length q -> exists b, firstn (S n) q = firstn n q ++ [b].
Proof.
  revert n. induction q as [|x q IH]; intros n L; cbn in L; [lia|]. destruct n as [|n]; [exists x; reflexivity|].
  destruct (IH n ltac:(lia)) as [b E]. exists b. cbn [firstn app] in *. now rewrite E.
Qed.

Section S.
Variable H : Type.
Variable hparent : H -> H -> H.
Variable ph : H.
Notation leaf := (leaf H).
Notation node := (node H).
Notation under := (under H).
Notation inner := (inner H).
Notation lslot := (lslot H).
Notation thash := (thash H hparent ph).
Notation wf := (wf H).
Notation rm := (rm H).
Notation ins := (ins H).
Notation slotOk := (slotOk H hparent ph).
Notation nodeOk := (nodeOk H hparent ph).
Notation pos := (pos H).
Notation ucache := (ucache H).
Notation treeOk := (treeOk H hparent ph).
Notation upInv := (upInv H hparent ph).
Notation putAll := (putAll H).
Notation delAll := (delAll H).
Notation leafInv := (leafInv H).

Record stInv (st : store H) (m : list leaf) (ver : bits -> N) (g : list (N * bits)) : Prop := {
  sW : wf m;
  sR : nodeOk [] m ver [] (st_root st);
  sN : forall Q, pos m Q -> Q <> [] -> exists c, st_db st (ver Q) Q = Some c /\ nodeOk [] m ver Q c;
  sM : forall Q, pos m Q -> (ver Q <= ver [])%N;
  sZ : forall Q, pos m Q -> Q <> [] -> ver Q <> 0%N;
  sL : forall s, In s m -> (lver s <= ver [])%N /\ lver s <> 0%N;
  sG : forall x Q, In (x, Q) g -> (x <= ver [])%N /\ (pos m Q -> (x < ver Q)%N);
  sD : ver [] <> 0%N -> st_db st (ver []) [] = Some (st_root st) }.

Lemma pos_nil m : pos m [].
Proof. split; [apply al_nil|auto]. Qed.

Lemma stInv0 : stInv store0 [] (fun _ => 0%N) [].
Proof.
  split.
  - split; constructor.
  - intros q Lq. unfold Smt_Proofs.slotOk, Smt_Proofs.inner, Smt_Proofs.lslot. cbn.
    destruct (bits_eqb q []); [left; auto|reflexivity].
  - intros Q [_ [X|X]] NE; [congruence|discriminate].
  - intros. lia.
  - intros Q [_ [X|X]] NE; [congruence|discriminate].
  - intros s [].
  - intros x Q [].
  - congruence.
Qed.

Lemma in_delAll dels : forall m s, In s (delAll dels m) -> In s m.
Proof. induction dels as [|k dels IH]; intros m s; cbn; auto. intros X. apply IH in X. apply in_rm in X. tauto. Qed.
Lemma in_putAll v puts : forall m s, In s (putAll v puts m) -> In s m \/ (lver s = v /\ puts <> []).
Proof.
  induction puts as [|p puts IH]; intros m s; cbn; auto. intros X. apply IH in X as [X|[X _]].
  - apply in_ins in X as [-> |[X _]]; auto. right. split; [reflexivity|discriminate].
  - right. split; [auto|discriminate].
Qed.

Lemma upd_ok st m ver g puts dels : stInv st m ver g -> Forall (fun p => length (fst p) = KL) puts -> Forall (fun k => length k = KL) dels ->
  let v := (ver [] + 1)%N in let m' := putAll v puts (delAll dels m) in
  exists st' u ver', treeUpdate H hparent ph st puts dels = Some (st', u) /\ uc_version u = v /\
    stInv st' m' ver' (uc_stale_int u ++ g) /\ upInv (st_db st) m ver v m' ver' u /\
    (NoDup (map fst puts) -> leafInv m m' u) /\
    ((ver' [] = v /\ (puts <> [] \/ Exists (fun k => In k (map lkey m)) dels)) \/
     (ver' = ver /\ puts = [] /\ ~ Exists (fun k => In k (map lkey m)) dels /\ m' = m)).
Proof.
  intros I FP FD v m'. pose proof I as [W R N0 M Z L G D].
  set (u0 := mkUC v (st_root st) [] [] []).
  assert (U0 : upInv (st_db st) m ver v m ver u0).
  { split; auto.
    - split; [exact R|]. exact N0.
    - intros Q. cbn. split; [congruence|]. intros [X Y]. pose proof (M Q X). unfold v in Y. lia.
    - intros x Q. cbn. split; [tauto|]. intros (X & _ & _ & [Y|Y]); [tauto|]. pose proof (M Q X). unfold v in Y. lia. }
  assert (V0 : forall Q, pos m Q -> (ver Q < v)%N) by (intros Q X; pose proof (M Q X); unfold v; lia).
  assert (L0 : forall s, In s m -> (lver s < v)%N) by (intros s X; destruct (L s X); unfold v; lia).
  assert (Vp : v <> 0%N) by (unfold v; lia).
  assert (LI0 : leafInv m m u0).
  { intros k x. cbn. split; [tauto|]. intros (s & X & _ & _ & Y). tauto. }
  destruct (dels_ok H hparent ph (st_db st) m ver v W dels m ver u0 U0 FD (fun x X => X) LI0) as (u1 & ver1 & E1 & U1 & IC1 & LI1 & R1).
  destruct (puts_ok H hparent ph (st_db st) m ver v W L0 Vp puts (delAll dels m) ver1 u1 U1 FP) as (u & ver' & E2 & U2 & R2 & LI2).
  assert (ET : treeUpdate H hparent ph st puts dels = Some (writeBatch st u, u)).
  { unfold treeUpdate, newCache. rewrite (nodeOk_version H hparent ph m ver [] (st_root st) R) by auto.
    fold v. fold u0. unfold updateImpl. rewrite E1, E2. reflexivity. }
  exists (writeBatch st u), u, ver'. split; [exact ET|]. fold m' in U2, LI2. pose proof U2 as [W' UV [UR UN] NV C S0].
  split; [exact UV|].
  assert (TRI : (ver' [] = v /\ (puts <> [] \/ Exists (fun k => In k (map lkey m)) dels)) \/
     (ver' = ver /\ puts = [] /\ ~ Exists (fun k => In k (map lkey m)) dels /\ m' = m /\ u = u0)).
  { destruct R2 as [[X Y]|(X & Y & Y')]; [left; auto|]. destruct R1 as [[X1 Y1]|(X1 & Y1 & Y2 & Y3)].
    - left. split; [congruence|auto].
    - right. repeat split; auto; try congruence. unfold m'. rewrite X. cbn. exact Y2. }
  assert (MON : (ver [] <= ver' [])%N).
  { destruct (NV [] (pos_nil m')) as [X|[_ X]]; rewrite X; unfold v; lia. }
  split; [|split; [exact U2|split; [|]]].
  - split; auto.
    + intros Q PQ NQ. destruct (UN Q PQ NQ) as (c & Ec & OK). exists c. split; auto. unfold writeBatch. cbn [st_db]. rewrite UV.
      unfold ucGetInternal in Ec. destruct (N.eqb_spec (ver' Q) v) as [X|X].
      * exact Ec.
      * destruct (plookup Q (uc_nodes u)) eqn:Y; auto. exfalso. apply X. apply (C Q). congruence.
    + intros Q PQ. destruct TRI as [[X _]|(-> & _ & _ & Em & _)].
      * destruct (NV Q PQ) as [Y|[Y1 Y2]]; [lia|]. rewrite Y2, X. pose proof (V0 Q Y1). lia.
      * apply M. now rewrite <- Em.
    + intros Q PQ NQ. destruct (NV Q PQ) as [Y|[Y1 Y2]]; [unfold v in Y; lia|]. rewrite Y2. auto.
    + intros s Is. apply in_putAll in Is as [Is|[Is NP]].
      * apply in_delAll in Is. destruct (L s Is). split; [lia|auto].
      * destruct TRI as [[X _]|(_ & X & _)]; [|contradiction]. rewrite X, Is. unfold v. lia.
    + intros x Q X. apply in_app_iff in X as [X|X].
      * apply S0 in X as (X1 & X2 & X3 & X4). split; [pose proof (M Q X1); lia|]. intros PQ. destruct X4 as [X4|X4]; [tauto|].
        rewrite X4, X2. auto.
      * apply G in X as [X1 X2]. split; [lia|]. intros PQ. destruct (NV Q PQ) as [Y|[Y1 Y2]]; [rewrite Y; unfold v; lia|].
        rewrite Y2. auto.
    + intros NZ. unfold writeBatch. cbn [st_db st_root]. rewrite UV. destruct (N.eqb_spec (ver' []) v) as [X|X].
      * unfold ucGetRoot. destruct (plookup [] (uc_nodes u)) eqn:Y; auto.
        exfalso. apply (C []); auto. split; [apply pos_nil|auto].
      * destruct TRI as [[Y _]|(-> & _ & _ & _ & ->)]; [congruence|]. cbn. auto.
  - intros ND. apply LI2; auto.
  - destruct TRI as [X|(X1 & X2 & X3 & X4 & _)]; [left; auto|right; auto].
Qed.

Lemma inGarbage_spec g v p : inGarbage g v p = true <-> In (v, p) g.
Proof.
  unfold inGarbage. rewrite existsb_exists. split.
  - intros ([x q] & I & E). cbn in E. apply andb_true_iff in E as [E1 E2]. apply N.eqb_eq in E1. apply bits_eqb_spec in E2. now subst.
  - intros I. exists (v, p). split; auto. cbn. now rewrite N.eqb_refl, bits_eqb_refl.
Qed.

Lemma prune_ok st m ver g sel : stInv st m ver g -> stInv (mkStore (pruneDb H sel g (st_db st)) (st_root st)) m ver g.
Proof.
  intros [W R N0 M Z L G D]. split; auto.
  - intros Q PQ NQ. destruct (N0 Q PQ NQ) as (c & E & OK). exists c. split; auto. cbn [st_db]. unfold pruneDb.
    destruct (inGarbage g (ver Q) Q) eqn:X; auto. apply inGarbage_spec in X. apply G in X as [_ X]. specialize (X PQ). lia.
  - intros NZ. cbn [st_db st_root]. unfold pruneDb. destruct (inGarbage g (ver []) []) eqn:X; [|auto].
    apply inGarbage_spec in X. apply G in X as [_ X]. specialize (X (pos_nil m)). lia.
Qed.

(** ** the contents *)
Definition mval (m : list leaf) (k : bits) : option H := option_map lhash (find (fun l => bits_eqb (lkey l) k) m).
Lemma mval_rm k m k' : mval (rm k m) k' = if bits_eqb k k' then None else mval m k'.
Proof.
  unfold mval, Smt_Proofs.rm. induction m as [|l m IH]; cbn [filter find]; [destruct (bits_eqb k k'); auto|].
  destruct (bits_eqb (lkey l) k) eqn:E; cbn [negb find].
  - rewrite IH. apply bits_eqb_spec in E. rewrite E. destruct (bits_eqb k k'); auto.
  - destruct (bits_eqb (lkey l) k') eqn:E'; [|exact IH]. apply bits_eqb_spec in E'. rewrite <- E'.
    destruct (bits_eqb k (lkey l)) eqn:X; auto. apply bits_eqb_spec in X. rewrite X, bits_eqb_refl in E. discriminate.
Qed.
Lemma mval_ins l m k' : mval (ins l m) k' = if bits_eqb (lkey l) k' then Some (lhash l) else mval m k'.
Proof.
  unfold Smt_Proofs2.ins. unfold mval at 1. cbn [find]. destruct (bits_eqb (lkey l) k') eqn:E; auto.
  change (mval (rm (lkey l) m) k' = mval m k'). rewrite mval_rm, E. reflexivity.
Qed.
Lemma mval_dels dels : forall m f, (forall k, mval m k = f k) -> forall k, mval (delAll dels m) k = fold_left (del1 H) dels f k.
Proof.
  induction dels as [|d dels IH]; intros m f E k; cbn [fold_left Smt_Proofs8.delAll]; auto.
  apply (IH (rm d m)). intros k'. rewrite mval_rm. unfold del1. now rewrite E.
Qed.
Lemma mval_puts v puts : forall m f, (forall k, mval m k = f k) -> forall k, mval (putAll v puts m) k = fold_left (put1 H) puts f k.
Proof.
  induction puts as [|p puts IH]; intros m f E k; cbn [fold_left Smt_Proofs8.putAll]; auto.
  apply (IH (ins (mkLeaf (snd p) (fst p) v) m)). intros k'. rewrite mval_ins. unfold put1. cbn [lkey lhash]. now rewrite E.
Qed.
Lemma mval_in m k h : wf m -> mval m k = Some h <-> exists l, In l m /\ lkey l = k /\ lhash l = h.
Proof.
  intros W. unfold mval. split.
  - destruct (find _ m) as [l|] eqn:E; [|discriminate]. apply find_some in E as [E1 E2]. apply bits_eqb_spec in E2. intros X. injection X as X. eauto.
  - intros (l & I & E1 & E2). destruct (find (fun l0 => bits_eqb (lkey l0) k) m) as [l'|] eqn:E.
    + apply find_some in E as [E3 E4]. apply bits_eqb_spec in E4. assert (l' = l) by (apply (wf_inj H m); auto; congruence). cbn. congruence.
    + exfalso. apply (find_none _ _ E) in I. rewrite E1, bits_eqb_refl in I. discriminate.
Qed.
Lemma mval_none m k : mval m k = None <-> ~ In k (map lkey m).
Proof.
  unfold mval. split.
  - intros X I. apply in_map_iff in I as (l & E & I). destruct (find _ m) eqn:F; [discriminate|].
    apply (find_none _ _ F) in I. rewrite E, bits_eqb_refl in I. discriminate.
  - intros NI. destruct (find _ m) as [l|] eqn:F; auto. exfalso. apply find_some in F as [F1 F2]. apply bits_eqb_spec in F2.
    apply NI. apply in_map_iff. eauto.
Qed.

Lemma exec_ok : forall os st g m ver f, stInv st m ver g -> (forall k, mval m k = f k) -> Forall (okOp H) os ->
  exists st' g' m' ver', foldOpt (exec1 H hparent ph) (st, g) os = Some (st', g') /\ stInv st' m' ver' g' /\
    forall k, mval m' k = fold_left (fun f o => match o with Upd puts dels => batch H f puts dels | Prune _ => f end) os f k.
Proof.
  induction os as [|o os IH]; intros st g m ver f I E F; cbn [foldOpt fold_left].
  - exists st, g, m, ver. auto.
  - inversion F as [|? ? Fo F']; subst. destruct o as [puts dels|sel]; cbn [exec1].
    + destruct Fo as [F1 F2]. destruct (upd_ok st m ver g puts dels I F1 F2) as (st' & u & ver' & ET & _ & I' & _).
      rewrite ET. apply (IH _ _ _ _ (batch H f puts dels) I'); auto.
      intros k. unfold batch. apply mval_puts. apply mval_dels. auto.
    + apply (IH _ _ m ver); auto. apply prune_ok; auto.
Qed.

(** ** the hash *)
Lemma prefixOf_iff Q k : prefixOf Q k <-> isPre Q k = true.
Proof. symmetry. apply isPre_spec. Qed.

Lemma sub_thash m : wf m -> forall n Q, n = KL - length Q -> length Q <= KL -> Q <> [] -> SubHash H hparent ph (mval m) Q (thash [] m Q).
Proof.
  intros W. induction n as [|n IH]; intros Q En LQ NQ.
  all: assert (SML : inner [] m Q = false -> SubHash H hparent ph (mval m) Q (thash [] m Q)).
  1,3: intros I; rewrite thash_leaf by auto; unfold hleaf; destruct (inner_false H [] m Q I) as [U|(l & U & _)]; rewrite U.
  1,3: apply SubEmpty; intros k P; apply mval_none; intros X; apply in_map_iff in X as (l & <- & X);
       assert (Y : In l (under m Q)) by (apply in_under; split; auto; apply prefixOf_iff; auto); rewrite U in Y; destruct Y.
  1,2: assert (Y : In l (under m Q)) by (rewrite U; left; auto); apply in_under in Y as [Y1 Y2];
       apply (SubOne H hparent ph (mval m) Q (lkey l)); [apply prefixOf_iff; auto|apply mval_in; eauto|];
       intros k' P X; destruct (mval m k') as [h|] eqn:V; [|congruence]; apply mval_in in V as (l' & V1 & V2 & V3); auto;
       assert (Z : In l' (under m Q)) by (apply in_under; split; auto; apply prefixOf_iff; rewrite V2; auto); rewrite U in Z; destruct Z as [<- |[]]; auto.
  - apply SML. apply not_true_iff_false. intros I. apply (inner_lt H [] m Q W) in I; [lia|]. cbn. unfold KL. lia.
  - destruct (inner [] m Q) eqn:I; [|auto]. rewrite thash_inner by (auto; lia).
    destruct (inner_true H [] m Q I) as [I2|(l & _ & X)]; [|congruence].
    destruct (under m Q) as [|a [|b t]] eqn:U; cbn in I2; try lia.
    assert (Ia : In a (under m Q)) by (rewrite U; cbn; auto). assert (Ib : In b (under m Q)) by (rewrite U; cbn; auto).
    assert (Nab : lkey a <> lkey b).
    { pose proof (wf_under H m Q W) as [ND _]. rewrite U in ND. cbn in ND. inversion ND as [|? ? N1 N2]; subst. intros X. apply N1. left. auto. }
    apply in_under in Ia as [Ia1 Ia2]. apply in_under in Ib as [Ib1 Ib2].
    apply (SubTwo H hparent ph (mval m) Q (lkey a) (lkey b)); auto.
    + apply prefixOf_iff; auto.
    + apply prefixOf_iff; auto.
    + rewrite (proj2 (mval_in m (lkey a) (lhash a) W)); [discriminate|eauto].
    + rewrite (proj2 (mval_in m (lkey b) (lhash b) W)); [discriminate|eauto].
    + apply IH; try (rewrite app_length; cbn [length]; lia). destruct Q; discriminate.
    + apply IH; try (rewrite app_length; cbn [length]; lia). destruct Q; discriminate.
Qed.

Lemma root_thash m : wf m -> RootHash H hparent ph (mval m) (thash [] m []).
Proof.
  intros W. destruct m as [|a m'] eqn:Em.
  - left. split; auto.
  - right. rewrite <- Em in *. assert (I : inner [] m [] = true).
    { unfold Smt_Proofs.inner. rewrite under_nil, Em. destruct m'; reflexivity. }
    exists (lkey a), (thash [] m [false]), (thash [] m [true]). split; [|split; [|split]].
    + rewrite (proj2 (mval_in m (lkey a) (lhash a) W)); [discriminate|]. exists a. rewrite Em. cbn. auto.
    + apply (sub_thash m W (KL - 1)); [reflexivity|cbn; unfold KL; lia|discriminate].
    + apply (sub_thash m W (KL - 1)); [reflexivity|cbn; unfold KL; lia|discriminate].
    + rewrite thash_inner; auto. cbn. unfold KL. lia.
Qed.

Lemma sub_ext f f' Q h : (forall k, f k = f' k) -> SubHash H hparent ph f Q h -> SubHash H hparent ph f' Q h.
Proof.
  intros E X. induction X as [Q A|Q k h A B C|Q k1 k2 a b A1 A2 A3 A4 A5 S1 IH1 S2 IH2].
  - apply SubEmpty. intros k P. rewrite <- E. auto.
  - apply (SubOne H hparent ph f' Q k); auto. + now rewrite <- E. + intros k' P. rewrite <- E. auto.
  - apply (SubTwo H hparent ph f' Q k1 k2); auto; now rewrite <- E.
Qed.
Lemma root_ext f f' h : (forall k, f k = f' k) -> RootHash H hparent ph f h -> RootHash H hparent ph f' h.
Proof.
  intros E [[A B]|(k & a & b & A & B & C & D)]; [left|right].
  - split; auto. intros. rewrite <- E. auto.
  - exists k, a, b. split; [now rewrite <- E|]. split; [eapply sub_ext; eauto|]. split; [eapply sub_ext; eauto|auto].
Qed.

Lemma sub_det f Q h : SubHash H hparent ph f Q h -> forall h', SubHash H hparent ph f Q h' -> h' = h.
Proof.
  intros X. induction X as [Q A|Q k h A B C|Q k1 k2 a b A1 A2 A3 A4 A5 S1 IH1 S2 IH2]; intros h' Y;
    inversion Y as [Q' A'|Q' k' h2 A' B' C'|Q' k1' k2' a' b' A1' A2' A3' A4' A5' S1' S2']; subst; auto.
  - exfalso. rewrite A in B' by auto. discriminate.
  - exfalso. rewrite A in A4' by auto. congruence.
  - exfalso. rewrite A' in B by auto. discriminate.
  - assert (k' = k) by (apply C; auto; congruence). congruence.
  - exfalso. apply A3'. rewrite (C k1'), (C k2'); auto.
  - exfalso. rewrite A' in A4 by auto. congruence.
  - exfalso. apply A3. rewrite (C' k1), (C' k2); auto.
  - f_equal; auto.
Qed.
Lemma root_det f h h' : RootHash H hparent ph f h -> RootHash H hparent ph f h' -> h' = h.
Proof.
  intros [[A B]|(k & a & b & A & B & C & D)] [[A' B']|(k' & a' & b' & A' & B' & C' & D')].
  - congruence.
  - exfalso. apply A'. auto.
  - exfalso. apply A. auto.
  - rewrite D, D'. f_equal; eapply sub_det; eauto.
Qed.

(** values are bound to the root hash when the set of keys is known *)
Lemma sub_bind f f' : (forall a b a' b', hparent a b = hparent a' b' -> a = a' /\ b = b') ->
  (forall k, f k <> None <-> f' k <> None) -> (forall k, f k <> None -> length k = KL) ->
  forall Q h, SubHash H hparent ph f Q h -> SubHash H hparent ph f' Q h -> forall k, prefixOf Q k -> f k = f' k.
Proof.
  intros INJ DOM LEN Q h X. induction X as [Q A|Q k0 h A B C|Q k1 k2 a b A1 A2 A3 A4 A5 S1 IH1 S2 IH2]; intros Y k P.
  - rewrite A by auto. destruct (f' k) eqn:E; auto. exfalso. apply (proj2 (DOM k)); [congruence|]. auto.
  - destruct (f k) eqn:Ef.
    + assert (k = k0) by (apply C; auto; congruence). subst k. inversion Y as [Q' A'|Q' k' h2 A' B' C'|Q' k1' k2' a' b' A1' A2' A3' A4' A5' S1' S2']; subst.
      * exfalso. apply (proj1 (DOM k0)); [congruence|]. auto.
      * assert (k0 = k') by (apply C'; auto; apply DOM; congruence). subst k'. congruence.
      * exfalso. apply A3'. rewrite (C k1'), (C k2'); auto; apply DOM; auto.
    + destruct (f' k) eqn:E; auto. exfalso. apply (proj2 (DOM k)); congruence.
  - inversion Y as [Q' A' |Q' k' h2 A' B' C'|Q' k1' k2' a' b' A1' A2' A3' A4' A5' S1' S2' EQ1 EQ2].
    + exfalso. apply (proj1 (DOM k1)); auto.
    + exfalso. apply A3. rewrite (C' k1), (C' k2); auto; apply DOM; auto.
    + apply INJ in EQ2 as [-> ->]. destruct (f k) eqn:Ef.
      * rewrite <- Ef. assert (LQ : length Q < KL).
        { pose proof (LEN k1 A4) as L1. pose proof (LEN k2 A5) as L2. destruct A1 as [r1 ->], A2 as [r2 ->].
          rewrite app_length in L1, L2. destruct r1 as [|]; [|cbn in L1; lia]. destruct r2; [congruence|cbn in L1, L2; lia]. }
        assert (Lk : length k = KL) by (apply LEN; congruence).
        apply prefixOf_iff in P. destruct (isPre_snoc_or _ _ P) as [X|[bb X]]; [rewrite X in LQ; lia|].
        apply prefixOf_iff in X. destruct bb; auto.
      * destruct (f' k) eqn:E; auto. exfalso. apply (proj2 (DOM k)); congruence.
Qed.

(** ** reachable nodes and leaves *)
Section Live.
Variables (st : store H) (m : list leaf) (ver : bits -> N) (g : list (N * bits)).
Hypothesis I : stInv st m ver g.

Lemma nodeAt_ok Q : pos m Q -> exists c, nodeAt H st (ver Q) Q = Some c /\ nodeOk [] m ver Q c.
Proof.
  intros PQ. destruct (bits_dec Q []) as [-> |NQ].
  - exists (st_root st). split; auto. apply I.
  - destruct (sN _ _ _ _ I Q PQ NQ) as (c & E & OK). exists c. split; auto. destruct Q; [congruence|exact E].
Qed.
Lemma reach_iff x Q : Reach H st x Q <-> pos m Q /\ x = ver Q /\ x <> 0%N.
Proof.
  split.
  - intros X. induction X as [v E NZ|v p c nb h v' X IH EN L4 EC].
    + unfold rootVersion in E. rewrite (nodeOk_version H hparent ph m ver [] _ (sR _ _ _ _ I)) in E by auto. injection E as <-.
      split; [apply pos_nil|auto].
    + destruct IH as (PP & -> & NZ). destruct (nodeAt_ok p PP) as (c' & EN' & OK). rewrite EN in EN'. injection EN' as <-.
      specialize (OK nb ltac:(lia)). rewrite nibbleToIndex_enc in EC by auto. rewrite EC in OK. unfold Smt_Proofs.slotOk in OK.
      assert (NE : p ++ nb <> []) by (intros Y; apply (f_equal (@length bool)) in Y; rewrite app_length in Y; cbn in Y; lia).
      destruct (inner [] m (p ++ nb)) eqn:IN.
      * destruct OK as (x & Y & _ & Z). injection Y as _ ->. rewrite Z by auto.
        assert (PQ : pos m (p ++ nb)) by (split; [apply al_snoc; auto; apply PP|auto]).
        split; auto. split; auto. apply (sZ _ _ _ _ I); auto.
      * rewrite (proj2 (bits_eqb_neq _ _) NE) in OK. unfold Smt_Proofs.lslot in OK. destruct (under m (p ++ nb)) as [|? [|? ?]]; try discriminate.
        destruct (inner [] m (removelast (p ++ nb))); discriminate.
  - intros (PQ & -> & NZ). destruct PQ as [[dd LQ] PQ]. revert Q LQ PQ NZ. induction dd as [|dd IH]; intros Q LQ PQ NZ.
    + destruct Q; [|cbn in LQ; lia]. apply ReachRoot; auto. apply (nodeOk_version H hparent ph m ver); [apply I|auto].
    + destruct PQ as [-> |IN]; [cbn in LQ; lia|].
      set (P := firstn (4 * dd) Q). set (nb := skipn (4 * dd) Q).
      assert (EQ : Q = P ++ nb) by (symmetry; apply firstn_skipn).
      assert (LP : length P = 4 * dd) by (unfold P; apply firstn_length_le; lia).
      assert (L4 : length nb = 4) by (rewrite EQ, app_length in LQ; lia).
      assert (INP : inner [] m P = true) by (eapply inner_mono; [|exact IN]; rewrite EQ; apply isPre_app).
      assert (PQ : pos m Q) by (split; [exists (S dd)|]; auto).
      assert (PP : pos m P) by (split; [exists dd|]; auto).
      assert (NZP : ver P <> 0%N).
      { destruct (bits_dec P []) as [X|X]; [|apply (sZ _ _ _ _ I); auto]. rewrite X. pose proof (sM _ _ _ _ I Q PQ). lia. }
      destruct (nodeAt_ok P PP) as (c & EN & OK). pose proof (OK nb ltac:(lia)) as SL. unfold Smt_Proofs.slotOk in SL.
      rewrite <- EQ, IN in SL. destruct SL as (x & Y & _ & Z). rewrite Z in Y by auto.
      rewrite EQ. apply (ReachChild H st (ver P) P c nb (thash [] m Q) (ver (P ++ nb))); auto.
      rewrite nibbleToIndex_enc, Y by auto. now rewrite <- EQ.
Qed.

Lemma find_step (k : bits) n : inner [] m [] = true -> inner [] m (firstn n k) = true \/
  exists j, j < n /\ inner [] m (firstn j k) = true /\ inner [] m (firstn (S j) k) = false.
Proof.
  intros I0. induction n as [|n [IH|IH]]; [left; exact I0| |].
  - destruct (inner [] m (firstn (S n) k)) eqn:E; [left; auto|right; exists n; auto].
  - right. destruct IH as (j & A & B). exists j. split; auto.
Qed.

Lemma leaf_iff s : LeafIn H st s <-> In s m.
Proof.
  split.
  - intros (x & Q & c & i & R & EN & Li & Ec). apply reach_iff in R as (PQ & -> & NZ).
    destruct (nodeAt_ok Q PQ) as (c' & EN' & OK). rewrite EN in EN'. injection EN' as <-.
    destruct (enc_surj i Li) as (q & Lq & <-). specialize (OK q Lq). rewrite Ec in OK. unfold Smt_Proofs.slotOk in OK.
    destruct (inner [] m (Q ++ q)); [destruct OK as (y & Y & _); discriminate|].
    destruct (bits_eqb (Q ++ q) []); [destruct OK as [[Y _]|Y]; discriminate|].
    unfold Smt_Proofs.lslot in OK. destruct (under m (Q ++ q)) as [|l [|? ?]] eqn:U; try discriminate.
    destruct (inner [] m (removelast (Q ++ q))); [|discriminate]. injection OK as ->.
    assert (X : In l (under m (Q ++ q))) by (rewrite U; cbn; auto). apply in_under in X. tauto.
  - intros Is. pose proof (sW _ _ _ _ I) as W. assert (Lk : length (lkey s) = KL) by (apply (wf_len H m s W Is)).
    assert (I0 : inner [] m [] = true).
    { unfold Smt_Proofs.inner. rewrite under_nil. destruct m as [|? [|? ?]]; auto. }
    assert (NZ : ver [] <> 0%N). { destruct (sL _ _ _ _ I s Is). lia. }
    destruct (find_step (lkey s) KL I0) as [X|(j & Lj & X & Y)].
    + exfalso. apply (inner_lt H [] m _ W) in X; [|cbn; unfold KL; lia]. rewrite firstn_length_le in X; lia.
    + set (k := lkey s) in *. set (P := firstn (4 * (j / 4)) k).
      assert (Hj : 4 * (j / 4) <= j < 4 * (j / 4) + 4).
      { pose proof (Nat.div_mod j 4). pose proof (Nat.mod_upper_bound j 4). lia. }
      assert (LP : length P = 4 * (j / 4)) by (unfold P; apply firstn_length_le; lia).
      assert (PP : pos m P).
      { split; [exists (j / 4); auto|right]. eapply inner_mono; [|exact X]. unfold P.
        apply (isPre_two _ _ k); try apply isPre_firstn_l. rewrite !firstn_length. lia. }
      set (q := skipn (length P) (firstn (S j) k)).
      assert (EQ : firstn (S j) k = P ++ q).
      { unfold q. rewrite <- (firstn_skipn (length P) (firstn (S j) k)) at 1. f_equal. rewrite firstn_firstn, LP. unfold P. f_equal. lia. }
      assert (Lq : length q <= 4).
      { pose proof (f_equal (@length bool) EQ) as Z. rewrite app_length, firstn_length_le in Z by lia. lia. }
      assert (U : under m (P ++ q) = [s]).
      { rewrite <- EQ. assert (Z : In s (under m (firstn (S j) k))) by (apply in_under; split; auto; apply isPre_firstn_l).
        destruct (inner_false H [] m _ Y) as [U|(l & U & _)]; rewrite U in *; [destruct Z|destruct Z as [<- |[]]; auto]. }
      destruct (nodeAt_ok P PP) as (c & EN & OK). exists (ver P), P, c, (enc q). split; [|split; [exact EN|split; [apply enc_lt; auto|]]].
      * apply reach_iff. split; auto. split; auto.
        destruct (bits_dec P []) as [Z|Z]; [now rewrite Z|apply (sZ _ _ _ _ I); auto].
      * specialize (OK q Lq). unfold Smt_Proofs.slotOk in OK. rewrite <- EQ, Y in OK.
        assert (NE : firstn (S j) k <> []) by (intros Z; apply (f_equal (@length bool)) in Z; rewrite firstn_length_le in Z by lia; discriminate).
        rewrite (proj2 (bits_eqb_neq _ _) NE) in OK. rewrite OK. unfold Smt_Proofs.lslot. rewrite EQ, U.
        rewrite <- EQ. destruct (firstn_snoc0 j k ltac:(lia)) as [b Eb]. rewrite Eb, removelast_snoc, X. reflexivity.
Qed.
End Live.
End S.
