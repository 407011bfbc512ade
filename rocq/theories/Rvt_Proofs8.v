From Coq Require Import List Arith NArith ZArith Bool Lia.
From Verif Require Import Lib_Bytes Rvt_Model Rvt_Proofs Rvt_Proofs2 Rvt_Proofs3 Rvt_Proofs4 Rvt_Proofs5 Rvt_Proofs6 Rvt_Proofs7.
Import ListNotations.
Local Open Scope N_scope.

Section S.
Variable H : bytes -> bytes.
Variables (K : N) (M : Z).
Hypothesis K2 : 2 <= K.
Hypothesis M0 : (0 < M)%Z.
Notation iv := (iv H M).
Notation addVal := (addVal M).
Notation subVal := (subVal M).
Notation Q := (Q K).
Notation ix := (ix K).
Notation kid := (kid K).
Notation val := (val H K M).
Notation cn := (cn H K M).
Notation nd := (nd H K M).
Notation at_ := (at_ K).
Notation Rep := (Rep K).
Notation lfc := (lfc K).
Notation eqm := (eqm M).
Notation Canon := (Canon H K M).

Section Rem.
Variables (a b : N).
Hypothesis AB : a < b.
Variable v : N -> Z.
Hypothesis VA : (0 <= v a < M)%Z.
Variables (m1 m2 : N).
Notation n := (a + 1).
Notation old := (old K a).
Notation SI := (SI H K M a b v).

Lemma si_get l f e j q : SI l f e -> (j <= l)%nat -> Q j n <= q -> f j q = cn n b l v j q.
Proof.
  intros (A & B) J LE. destruct (A j q) as [E|I]; auto. destruct (B _ I) as (j' & q' & E & C). apply at_inj in E; auto. destruct E as (<- & <-). lia.
Qed.

Lemma lfc_pred x l j : (if Nat.eqb j (S l) then None else lfc x (S l) j) = lfc x l j.
Proof. clear. unfold Rvt_Proofs2.lfc. destruct (Nat.eqb_spec j (S l)), (Nat.leb_spec 1 j), (Nat.leb_spec j (S l)), (Nat.leb_spec j l); try lia; reflexivity. Qed.
Lemma shrink_spec fuel : forall l t f e, (1 <= l <= fuel)%nat -> Q l n = Q l b -> SI l f e -> Rep t f (lfc n l) (lfc b l) l (Q l n) e m1 m2 ->
  exists t' l' f' e', shrink K fuel t = Some t' /\ (1 <= l')%nat /\ Q l' n = Q l' b /\ (l' = 1%nat \/ Q (pred l') n <> Q (pred l') b) /\ SI l' f' e' /\ Rep t' f' (lfc n l') (lfc b l') l' (Q l' n) e' m1 m2.
Proof.
  induction fuel as [|fuel IH]; intros l t f e LL QE SF R; [lia|].
  cbn [shrink]. pose proof R as (_ & RL & RR & RO & RE & _). rewrite RO. cbn [bind]. rewrite (rep_get _ _ _ _ _ _ _ _ _ _ _ _ R).
  destruct l as [|l]; [lia|]. rewrite (si_get _ _ _ _ _ SF) by lia. rewrite cn_in by lia. cbn [bind]. unfold Rvt_Proofs2.nd at 1. cbn [kids fst Rvt_Proofs2.at_ pred].
  assert (QN : Q l n <= Q l b) by (apply Qnb; auto). pose proof (Q_in K K2 l n) as (I1 & I2). pose proof (Q_in K K2 l b) as (I3 & I4). rewrite <- QE in I3, I4.
  destruct (N.eq_dec (Q l n) (Q l b)) as [EQ|NE].
  - assert (KD : kid n b l (Q (S l) n) = [Q l n]). { unfold Rvt_Proofs.kid. rewrite N.max_r, N.min_r by lia. rewrite rng_cons, rng_nil by lia. reflexivity. }
    rewrite KD. cbn [map]. destruct (Nat.ltb_spec 1 (S l)) as [L2|L2].
    + cbn [setEr rgt lft]. rewrite (RL l), (RR l), !lfc_in by lia. cbn [option_map]. rewrite EQ, oid_at, Nat.eqb_refl, N.eqb_refl by auto. cbn [andb negb].
      change (S l, ix (S l) (Q (S l) n)) with (at_ (S l) (Q (S l) n)). rewrite RE.
      pose proof (rep_er K _ _ _ _ _ _ _ _ _ (at_ (S l) (Q (S l) n) :: e) R) as R1.
      destruct (arrRemove_last K K2 _ _ _ _ _ _ _ _ _ (S l) (Q (S l) n) R1) as (t2 & ET2 & R2). { rewrite lfc_in by lia. reflexivity. } { rewrite lfc_in by lia. congruence. } { rewrite (si_get _ _ _ _ _ SF) by lia. apply cn_out. lia. }
      rewrite ET2. cbn [bind]. pose proof R2 as (_ & RL2 & RR2 & RO2 & _). rewrite (RR2 l). destruct (Nat.eqb_spec l (S l)) as [X|_]; [lia|]. rewrite lfc_in by lia. cbn [option_map].
      unfold setNewRoot. rewrite RO2. cbn [fst Rvt_Proofs2.at_]. destruct (Nat.eqb_spec l 0) as [X|_]; [lia|]. destruct (Nat.eqb_spec l (S (S l))) as [X|_]; [lia|]. rewrite Nat.eqb_refl.
      rewrite arrRemove_none; [|cbn [fst Rvt_Proofs2.at_]; rewrite (RL2 (S l)), Nat.eqb_refl; reflexivity|cbn [fst Rvt_Proofs2.at_]; rewrite (RR2 (S l)), Nat.eqb_refl; reflexivity].
      cbn [bind]. rewrite <- EQ. change (l, ix l (Q l n)) with (at_ l (Q l n)).
      assert (R3 : Rep (setRoot t2 (Some (at_ l (Q l n)))) f (fun k => if Nat.eqb k (S l) then None else lfc n (S l) k) (fun k => if Nat.eqb k (S l) then None else lfc b (S l) k) l (Q l n) (at_ (S l) (Q (S l) n) :: e) m1 m2).
      { destruct R2 as (A & B & C & D & E). repeat split; auto; try apply A; try apply E. }
      assert (exists l0, l = S l0) as (l0 & LE0) by (destruct l; [lia|eauto]).
      assert (FK : f l (Q l n) = Some (nd n b (S l) v l0 (Q l n))). { rewrite (si_get _ _ _ _ _ SF) by lia. rewrite LE0. apply cn_in; try lia. rewrite <- LE0. lia. }
      destruct (rep_on K K2 _ _ _ _ _ _ _ _ _ _ _ _ (fun m => Some (setPar m nullId)) _ R3 FK eq_refl) as (t4 & ET4 & R4). rewrite ET4. cbn [bind].
      destruct (rep_arrAdd K _ _ _ _ _ _ _ _ _ l (Q l n) R4) as (t5 & ET5 & R5). { destruct (Nat.eqb_spec l (S l)) as [X|_]; [lia|]. rewrite !lfc_in by lia. split; discriminate. }
      rewrite ET5. cbn [bind]. eapply (IH l); [lia|exact EQ| |].
      2: { eapply rep_ext; [reflexivity| | |exact R5].
           - intros j; cbv beta. rewrite !lfc_pred. destruct (Nat.eqb_spec j l) as [->|NJ]; auto. rewrite lfc_in by lia. reflexivity.
           - intros j; cbv beta. rewrite !lfc_pred. destruct (Nat.eqb_spec j l) as [->|NJ]; auto. rewrite lfc_in by lia. congruence. }
      destruct SF as (S1 & S2). split.
      * intros j q. destruct (Nat.eq_dec j (S l)) as [->|NJ].
        -- rewrite fset_other by lia. destruct (N.eq_dec q (Q (S l) n)) as [->|NQ]; [right; left; reflexivity|]. destruct (S1 (S l) q) as [E|I]; [|right; right; exact I]. left. rewrite E, !cn_out by lia. reflexivity.
        -- destruct (Nat.eq_dec j l) as [->|NJ2].
           ++ destruct (N.eq_dec q (Q l n)) as [->|NQ].
              ** left. rewrite fset_same. rewrite LE0. rewrite cn_in; try lia; [|rewrite <- LE0; lia]. f_equal. unfold Rvt_Proofs2.nd, setPar. cbn [par kids cnt ini cur]. rewrite Nat.eqb_refl. reflexivity.
              ** rewrite fset_other by auto. destruct (S1 l q) as [E|I]; [|right; right; exact I]. left. rewrite E, !cn_out by lia. reflexivity.
           ++ rewrite fset_other by auto. destruct (S1 j q) as [E|I]; [|right; right; exact I]. left. rewrite E. destruct (Nat.lt_ge_cases j l); [symmetry; apply cn_below; auto; lia|rewrite !cn_out by lia; reflexivity].
      * intros i [<-|I]; [exists (S l), (Q (S l) n); split; auto; left; lia|]. destruct (S2 i I) as (j & q & E & C). exists j, q. split; auto. lia.
    + exists t, (S l), f, e. split; [reflexivity|]. split; [lia|]. split; [auto|]. split; [left; lia|]. auto.
  - assert (exists x y r, kid n b l (Q (S l) n) = x :: y :: r) as (x & y & r & KD).
    { unfold Rvt_Proofs.kid. rewrite N.max_r, N.min_r by lia. rewrite rng_cons, rng_cons by lia. eauto. }
    rewrite KD. cbn [map]. exists t, (S l), f, e. split; [reflexivity|]. split; [lia|]. split; [auto|]. split; [right; exact NE|]. auto.
Qed.

Lemma rem_rvb t L : (1 <= L)%nat -> Q L a = Q L b -> Rep t (cn a b L v) (lfc a L) (lfc b L) L (Q L a) [] m1 m2 ->
  exists t' l' f' e', removeRVB K M t (a + 1) (v a) = Some t' /\ (1 <= l')%nat /\ Q l' n = Q l' b /\ (l' = 1%nat \/ Q (pred l') n <> Q (pred l') b) /\ SI l' f' e' /\ Rep t' f' (lfc n l') (lfc b l') l' (Q l' n) e' m1 m2.
Proof.
  intros L1 QL R. pose proof (old_L K K2 a b AB L QL) as OL.
  assert (FIN : forall t' f' lf' e', TI H K M a b v L L f' lf' e' -> Rep t' f' lf' (lfc b L) L (Q L a) e' m1 m2 ->
    exists t2 l' f2 e2, bind (onNode t' (at_ L (Q L a)) (fun m => Some (subVal m (v a)))) (fun t => bind (nodes t (at_ L (Q L a))) (fun m => match kids m with [] => setNewRoot K t None | _ => shrink K (S L) t end)) = Some t2 /\
      (1 <= l')%nat /\ Q l' n = Q l' b /\ (l' = 1%nat \/ Q (pred l') n <> Q (pred l') b) /\ SI l' f2 e2 /\ Rep t2 f2 (lfc n l') (lfc b l') l' (Q l' n) e2 m1 m2).
  { intros t' f' lf' e' T' R'. destruct (ti_end H K M K2 M0 a b AB v VA L QL m1 m2 t' f' lf' e' L1 T' R') as (t2 & f2 & E2 & S2 & R2). rewrite E2. cbn [bind].
    rewrite (rep_get _ _ _ _ _ _ _ _ _ _ _ _ R2). assert (exists l, L = S l) as (l & LE) by (destruct L; [lia|eauto]).
    rewrite (si_get _ _ _ _ _ S2) by (try lia; rewrite (old_eq K a L OL); lia).
    assert (GC : exists r, cn n b L v L (Q L a) = Some (nd n b L v l (Q (S l) a)) /\ kids (nd n b L v l (Q (S l) a)) = at_ l (Q l n) :: r).
    { rewrite LE in OL. destruct (kid_stay K K2 a b AB l OL) as (r & KE). exists (map (at_ l) r). split; [rewrite LE; apply cn_in; [lia|rewrite (old_eq K a _ OL); lia|apply Qab'; auto]|]. unfold Rvt_Proofs2.nd. cbn [kids]. rewrite KE. reflexivity. }
    destruct GC as (r & GC & GK). rewrite GC. cbn [bind]. rewrite GK.
    apply (shrink_spec (S L) L t2 f2 e'); auto; try lia. rewrite <- QL. apply (old_eq K a _ OL). }
  unfold removeRVB. pose proof R as (_ & RL & RR & RO & RE & _). rewrite (RL 1%nat), lfc_in by lia. cbn [option_map bind]. rewrite (rep_get _ _ _ _ _ _ _ _ _ _ _ _ R).
  assert (F1 : cn a b L v 1 (Q 1 a) = Some (pth H K M a b L 0 (a :: kid n b 0 (Q 1 a)) (val a b v 1 (Q 1 a)))).
  { rewrite cn_in; [|lia|lia|apply Qab'; auto]. f_equal. rewrite nd_a by auto. f_equal. pose proof (kid_path K K2 a b AB 0) as KP. rewrite old_0, Q_0 in KP. exact KP. }
  assert (UP : forall j, (1 <= j)%nat -> (S j <= L)%nat -> cn a b L v (S j) (Q (S j) a) = Some (pth H K M a b L j (kid a b j (Q (S j) a)) (val a b v (S j) (Q (S j) a)))).
  { intros j J1 J2. rewrite cn_in; [|lia|lia|apply Qab'; auto]. f_equal. apply nd_a; auto. }
  replace (0%nat, n) with (at_ 0 a) by (unfold Rvt_Proofs2.at_; rewrite pos_ix; reflexivity).
  assert (VR : forall j, (- M < val a b v (S j) (Q (S j) a) < M)%Z) by (intros j; pose proof (val_range H K M M0 a b v j (Q (S j) a)); lia).
  rewrite F1. cbn [bind]. unfold pth at 1. cbn [kids map].
  destruct (old 1) eqn:O1.
  - (* the first group keeps a block *)
    destruct (kid_stay K K2 a b AB 0 O1) as (r & KE). rewrite KE. cbn [map bind].
    destruct (rep_on K K2 _ _ _ _ _ _ _ _ _ _ _ _ (fun m => pop m (at_ 0 a)) _ R F1 (pop_here _ _ _ _ _ _ _ _ _ _)) as (t1 & ET1 & R1). rewrite ET1. cbn [bind]. unfold removeUp. pose proof R1 as (_ & _ & _ & RO1 & _). rewrite RO1. cbn [bind fst Rvt_Proofs2.at_]. change (L, ix L (Q L a)) with (at_ L (Q L a)).
    assert (T1 : TI H K M a b v L 1 (fset (cn a b L v) 1 (Q 1 a) (pth H K M a b L 0 (kid n b 0 (Q 1 a)) (val a b v 1 (Q 1 a)))) (lfc a L) []).
    { constructor.
      - intros j q NE. rewrite fset_other; auto. destruct (Nat.eq_dec j 1) as [->|]; auto.
      - intros j B. rewrite fset_other by lia. destruct j as [|j]; [reflexivity|]. apply cn_out. lia.
      - intros; lia.
      - intros; lia.
      - intros i [].
      - cbn [pred]. exists (val a b v 1 (Q 1 a)). rewrite fset_same. split; [reflexivity|]. split; [apply VR|]. cbn [D]. exists 0%Z. ring.
      - intros j B. exists (val a b v (S j) (Q (S j) a)). rewrite fset_other by lia. split; [apply UP; lia|]. split; [apply VR|]. cbn [pred D]. exists 0%Z. ring.
      - intros j. destruct (Nat.leb_spec 1 j), (Nat.ltb_spec j 1); try lia; reflexivity. }
    destruct (Nat.eq_dec L 1) as [EL|NL].
    + destruct (trim_spec H K M K2 M0 a b AB v VA L QL m1 m2 (S L) 0 t1 _ _ _ (at_ 1 (Q 1 a)) eq_refl ltac:(lia) ltac:(lia) ltac:(lia) T1 R1) as (t2 & f2 & lf2 & e2 & ET2 & T2 & R2).
      rewrite ET2. cbn [bind]. eapply FIN; eauto.
    + (* one step by hand: the bottom node *)
      cbn [trim]. rewrite RO1, oid_at by auto. destruct (Nat.eqb_spec L 1) as [X|_]; [lia|]. cbn [andb]. change (1%nat, ix 1 (Q 1 a)) with (at_ 1 (Q 1 a)).
      rewrite (ti_parent H K M K2 a b AB v L QL m1 m2 0 t1 _ _ _ T1) by (auto; lia). cbn [bind]. rewrite (rep_get _ _ _ _ _ _ _ _ _ _ _ _ R1), fset_same. cbn [bind].
      destruct (kids (pth H K M a b L 0 (kid n b 0 (Q 1 a)) (val a b v 1 (Q 1 a)))) as [|k0 k1] eqn:KK; [apply kid_map_nil in KK; congruence|]. cbn [bind].
      destruct (rep_on K K2 _ _ _ _ _ _ _ _ _ _ _ _ (fun m => Some (subVal m (v a))) _ R1 (fset_same _ _ _ _) eq_refl) as (t2 & ET2 & R2). rewrite ET2. cbn [bind].
      rewrite sub_stay in R2; auto. 2: { exists 0%Z. cbn [D]. ring. }
      match type of R2 with Rvt_Proofs2.Rep _ _ ?f _ _ _ _ _ _ _ => assert (T2 : TI H K M a b v L 2 f (lfc a L) []) end.
      { constructor.
        - intros j q NE. rewrite !fset_other; auto; destruct (Nat.eq_dec j 1) as [->|]; auto.
        - intros j B. rewrite !fset_other by lia. destruct j as [|j]; [reflexivity|]. apply cn_out. lia.
        - intros j B O. assert (j = 0%nat) by lia. subst j. apply fset_same.
        - intros j B O. assert (j = 0%nat) by lia. subst j. congruence.
        - intros i [].
        - cbn [pred]. exists (val a b v 2 (Q 2 a)). rewrite !fset_other by lia. split; [rewrite UP by lia; rewrite kid_path, O1 by auto; reflexivity|]. split; [apply VR|]. cbn [D]. rewrite O1. exists 0%Z. ring.
        - intros j B. exists (val a b v (S j) (Q (S j) a)). rewrite !fset_other by lia. split; [apply UP; lia|]. split; [apply VR|]. cbn [pred D]. rewrite O1. exists 0%Z. ring.
        - intros j. unfold Rvt_Proofs2.lfc. destruct (Nat.leb_spec 1 j), (Nat.ltb_spec j 2); cbn [andb]; auto. assert (j = 1%nat) by lia. subst j. replace (Nat.leb 1 L) with true by (symmetry; apply Nat.leb_le; lia). rewrite (old_eq K a _ O1). reflexivity. }
      destruct (trim_spec H K M K2 M0 a b AB v VA L QL m1 m2 L 1 t2 _ _ _ (at_ 1 (Q 1 a)) eq_refl ltac:(lia) ltac:(lia) ltac:(lia) T2 R2) as (t3 & f3 & lf3 & e3 & ET3 & T3 & R3).
      rewrite ET3. cbn [bind]. eapply FIN; eauto.
  - (* the first group becomes empty *)
    pose proof (kid_gone K K2 a b AB 0 O1) as KE. rewrite KE in *. cbn [map].
    assert (NL : (L <> 1)%nat) by (intros X; rewrite X in OL; congruence).
    pose proof (not_old K K2 a _ O1) as ON. pose proof (Qnb K K2 a b AB 1) as NB.
    destruct (arrRemove_next K K2 _ _ _ _ _ _ _ _ _ 1 (Q 1 a) (Q 1 b) (nd a b L v 0 (Q 1 a + 1)) R) as (t1 & ET1 & R1); try (apply lfc_in; lia); [lia|apply cn_in; lia|].
    rewrite ET1. cbn [bind]. assert (ER : er t1 = []) by (destruct R1 as (_ & _ & _ & _ & E & _); exact E). rewrite ER.
    pose proof (rep_er K _ _ _ _ _ _ _ _ _ [at_ 1 (Q 1 a)] R1) as R2.
    assert (PP : parentOf (setEr t1 [at_ 1 (Q 1 a)]) (at_ 1 (Q 1 a)) = Some (Some (at_ 2 (Q 2 a)))).
    { unfold parentOf. pose proof R2 as (_ & _ & _ & RO2 & _). rewrite RO2, oid_at by auto. destruct (Nat.eqb_spec L 1) as [X|_]; [lia|]. cbn [andb]. rewrite (rep_get _ _ _ _ _ _ _ _ _ _ _ _ R2), F1. cbn [bind]. rewrite !path_par. destruct (Nat.eqb_spec 1 L) as [X|_]; [lia|]. rewrite (rep_get _ _ _ _ _ _ _ _ _ _ _ _ R2), UP by lia. reflexivity. }
    rewrite PP. cbn [bind].
    assert (LE2 : (2 <= L)%nat) by lia.
    assert (PO : pathOk K (fun j => Q j a) (cn a b L v) 2 L).
    { intros j B. destruct j as [|j]; [lia|]. rewrite UP by lia. eexists. split; reflexivity. }
    destruct (chain_spec K M K2 (fun j => Q j a) (- iv (at_ 1 (Q 1 a))) _ _ _ _ _ _ _ _ 2 LE2 R2 PO) as (t3 & ET3 & R3).
    change (addChain M (setEr t1 [at_ 1 (Q 1 a)]) (at_ 2 (Q 2 a)) (- ini (pth H K M a b L 0 [a] (val a b v 1 (Q 1 a))))) with (addChain M (setEr t1 [at_ 1 (Q 1 a)]) (at_ 2 (Q 2 a)) (- iv (at_ 1 (Q 1 a)))). rewrite ET3. cbn [bind].
    match type of R3 with Rvt_Proofs2.Rep _ _ ?f _ _ _ _ _ _ _ => set (f3 := f) in *; assert (F3 : f3 1%nat (Q 1 a) = Some (pth H K M a b L 0 [a] (val a b v 1 (Q 1 a)))) by (unfold f3; rewrite bump_out by lia; exact F1) end.
    destruct (rep_on K K2 _ _ _ _ _ _ _ _ _ _ _ _ (fun m => pop m (at_ 0 a)) _ R3 F3 (pop_here _ _ _ _ _ _ _ _ _ _)) as (t4 & ET4 & R4). rewrite ET4. cbn [bind]. unfold removeUp. pose proof R4 as (_ & _ & _ & RO4 & _). rewrite RO4. cbn [bind fst Rvt_Proofs2.at_]. change (L, ix L (Q L a)) with (at_ L (Q L a)).
    cbn [trim]. rewrite RO4, oid_at by auto. destruct (Nat.eqb_spec L 1) as [X|_]; [lia|]. cbn [andb]. change (1%nat, ix 1 (Q 1 a)) with (at_ 1 (Q 1 a)).
    assert (UP3 : forall j, (1 <= j)%nat -> (S j <= L)%nat -> f3 (S j) (Q (S j) a) = Some (pth H K M a b L j (kid a b j (Q (S j) a)) (Z.rem (val a b v (S j) (Q (S j) a) + - iv (at_ 1 (Q 1 a))) M))).
    { intros j J1 J2. unfold f3. rewrite (bump_in _ (fun j => Q j a)) by lia. rewrite UP by lia. reflexivity. }
    assert (PP4 : parentOf t4 (at_ 1 (Q 1 a)) = Some (Some (at_ 2 (Q 2 a)))).
    { unfold parentOf. rewrite RO4, oid_at by auto. destruct (Nat.eqb_spec L 1) as [X|_]; [lia|]. cbn [andb]. rewrite (rep_get _ _ _ _ _ _ _ _ _ _ _ _ R4), fset_same. cbn [bind]. rewrite !path_par. destruct (Nat.eqb_spec 1 L) as [X|_]; [lia|]. rewrite (rep_get _ _ _ _ _ _ _ _ _ _ _ _ R4), fset_other, UP3 by lia. reflexivity. }
    rewrite PP4. cbn [bind]. rewrite (rep_get _ _ _ _ _ _ _ _ _ _ _ _ R4), fset_same. cbn [bind]. unfold pth at 1. cbn [kids map].
    assert (FU : fset f3 1 (Q 1 a) (pth H K M a b L 0 [] (val a b v 1 (Q 1 a))) 2 (Q 2 a) = Some (pth H K M a b L 1 (Q 1 a :: kid n b 1 (Q 2 a)) (Z.rem (val a b v 2 (Q 2 a) + - iv (at_ 1 (Q 1 a))) M))).
    { rewrite fset_other by lia. rewrite UP3 by lia. rewrite kid_path, O1 by auto. reflexivity. }
    destruct (rep_on K K2 _ _ _ _ _ _ _ _ _ _ _ _ (fun m => pop m (at_ 1 (Q 1 a))) _ R4 FU (pop_here _ _ _ _ _ _ _ _ _ _)) as (t5 & ET5 & R5). rewrite ET5. cbn [bind]. rewrite idEq_refl. cbn [bind].
    match type of R5 with Rvt_Proofs2.Rep _ _ ?f _ _ _ _ _ _ _ => assert (F5 : f 1%nat (Q 1 a) = Some (pth H K M a b L 0 [] (val a b v 1 (Q 1 a)))) by (rewrite fset_other by lia; apply fset_same) end.
    destruct (rep_on K K2 _ _ _ _ _ _ _ _ _ _ _ _ (fun m => Some (subVal m (v a))) _ R5 F5 eq_refl) as (t6 & ET6 & R6). rewrite ET6. cbn [bind].
    match type of R6 with Rvt_Proofs2.Rep _ _ ?f ?g _ _ _ ?e _ _ => assert (T6 : TI H K M a b v L 2 f g e) end.
    { assert (ME : forall j, eqm (Z.rem (val a b v (S j) (Q (S j) a) + - iv (at_ 1 (Q 1 a))) M) (val a b v (S j) (Q (S j) a) - (D H K M a v 1 - v a))).
      { intros j. eapply eqm_trans; [apply eqm_rem|]. cbn [D]. rewrite O1. exists 0%Z. ring. }
      constructor.
      - intros j q NE. assert (X1 : (j <> 1)%nat \/ q <> Q 1 a) by (destruct (Nat.eq_dec j 1) as [->|]; auto). assert (X2 : (j <> 2)%nat \/ q <> Q 2 a) by (destruct (Nat.eq_dec j 2) as [->|]; auto).
        rewrite !fset_other by auto. unfold f3. apply bump_out. auto.
      - intros j B. rewrite !fset_other by lia. unfold f3. rewrite bump_out by lia. destruct j as [|j]; [reflexivity|]. apply cn_out. lia.
      - intros j B O. assert (j = 0%nat) by lia. subst j. congruence.
      - intros j B O. assert (j = 0%nat) by lia. subst j. left. reflexivity.
      - intros i [<-|[]]. exists 0%nat. auto.
      - cbn [pred]. eexists. rewrite fset_other by lia. rewrite fset_same. split; [reflexivity|]. split; [apply rem_range; auto|apply ME].
      - intros j B. eexists. rewrite !fset_other by lia. split; [apply UP3; lia|]. split; [apply rem_range; auto|apply ME].
      - intros j. destruct (Nat.eqb_spec j 1) as [->|NJ]; [cbn [Nat.leb Nat.ltb andb]; rewrite ON; reflexivity|]. destruct (Nat.leb_spec 1 j), (Nat.ltb_spec j 2); cbn [andb]; auto; lia. }
    destruct (trim_spec H K M K2 M0 a b AB v VA L QL m1 m2 L 1 t6 _ _ _ (at_ 1 (Q 1 a)) eq_refl ltac:(lia) ltac:(lia) ltac:(lia) T6 R6) as (t7 & f7 & lf7 & e7 & ET7 & T7 & R7).
    rewrite ET7. cbn [bind]. eapply FIN; eauto.
Qed.
End Rem.
End S.
