From Coq Require Import List Arith NArith ZArith Bool Lia.
From Verif Require Import Lib_Bytes Rvt_Model Rvt_Proofs Rvt_Proofs2 Rvt_Proofs3 Rvt_Proofs4 Rvt_Proofs5.
Import ListNotations.
Local Open Scope N_scope.

Section S.
Variable H : bytes -> bytes.
Variables (K : N) (M : Z).
Hypothesis K2 : 2 <= K.
Hypothesis M0 : (0 < M)%Z.
Notation iv := (iv H M).
Notation addVal := (addVal M).
Notation subVal := (subVal M).
Notation push := (push K).
Notation Q := (Q K).
Notation ix := (ix K).
Notation kid := (kid K).
Notation val := (val H K M).
Notation cn := (cn H K M).
Notation nd := (nd H K M).
Notation at_ := (at_ K).
Notation Rep := (Rep K).
Notation lfc := (lfc K).

Definition eqm (x y : Z) : Prop := exists k, (x = y + k * M)%Z.
Lemma eqm_refl x : eqm x x. Proof. exists 0%Z. ring. Qed.
Lemma eqm_mod x : eqm (Z.modulo x M) x. Proof. clear - M0. exists (- (x / M))%Z. pose proof (Z.div_mod x M). lia. Qed.
Lemma eqm_rem x : eqm (Z.rem x M) x. Proof. clear. exists (- Z.quot x M)%Z. pose proof (Z.quot_rem' x M). lia. Qed.
Lemma eqm_trans x y z : eqm x y -> eqm y z -> eqm x z. Proof. intros (k & ->) (j & ->). exists (j + k)%Z. ring. Qed.
Lemma eqm_sym x y : eqm x y -> eqm y x. Proof. intros (k & ->). exists (- k)%Z. ring. Qed.
Lemma eqm_add x y z w : eqm x y -> eqm z w -> eqm (x + z) (y + w). Proof. intros (k & ->) (j & ->). exists (k + j)%Z. ring. Qed.
Lemma eqm_sub x y z w : eqm x y -> eqm z w -> eqm (x - z) (y - w). Proof. intros (k & ->) (j & ->). exists (k - j)%Z. ring. Qed.
Lemma eqm_uniq x y : eqm x y -> (0 <= x < M)%Z -> (0 <= y < M)%Z -> x = y.
Proof. clear - M0. intros (k & E) A B. assert (k = 0)%Z by nia. lia. Qed.

(** updateOpenRvtNodeArrays when the leftmost node of a level goes. *)
Lemma arrRemove_next t f lf rf L r e m1 m2 l q s m : Rep t f lf rf L r e m1 m2 -> lf l = Some q -> rf l = Some s -> q <> s -> f l (q + 1) = Some m ->
  exists t', arrRemove K t (at_ l q) = Some t' /\ Rep t' f (fun k => if Nat.eqb k l then Some (q + 1) else lf k) rf L r e m1 m2.
Proof.
  intros R LF RF NE FN. pose proof R as (A & B & C & D). unfold arrRemove. cbn [fst snd Rvt_Proofs2.at_]. rewrite (B l), (C l), LF, RF. cbn [option_map]. change (l, ix l q) with (at_ l q).
  rewrite !oid_at, Nat.eqb_refl, N.eqb_refl by auto. cbn [andb]. rewrite N.eqb_sym. destruct (N.eqb_spec q s) as [X|_]; [congruence|]. destruct (N.eqb_spec s q) as [X|_]; [congruence|]. cbn [andb negb].
  rewrite nextIdx_ix by auto. cbn [bind]. change (l, ix l (q + 1)) with (at_ l (q + 1)). rewrite (rep_get _ _ _ _ _ _ _ _ _ _ _ _ R), FN. cbn [bind]. eexists. split; [reflexivity|]. split; [exact A|]. split; [|split; auto].
  intros k. cbn [lft setL]. unfold upd. destruct (Nat.eqb_spec k l) as [->|]; [reflexivity|apply B].
Qed.
Lemma arrRemove_last t f lf rf L r e m1 m2 l q : Rep t f lf rf L r e m1 m2 -> lf l = Some q -> rf l = Some q -> f l (q + 1) = None ->
  exists t', arrRemove K t (at_ l q) = Some t' /\ Rep t' f (fun k => if Nat.eqb k l then None else lf k) (fun k => if Nat.eqb k l then None else rf k) L r e m1 m2.
Proof.
  intros R LF RF FN. pose proof R as (A & B & C & D). unfold arrRemove. cbn [fst snd Rvt_Proofs2.at_]. rewrite (B l), (C l), LF, RF. cbn [option_map]. change (l, ix l q) with (at_ l q).
  rewrite !oid_at, Nat.eqb_refl, N.eqb_refl by auto. cbn [andb negb].
  rewrite nextIdx_ix by auto. cbn [bind]. change (l, ix l (q + 1)) with (at_ l (q + 1)). rewrite (rep_get _ _ _ _ _ _ _ _ _ _ _ _ R), FN. cbn [bind]. eexists. split; [reflexivity|]. split; [exact A|]. split; [|split; auto].
  - intros k. cbn [lft setL setR]. unfold upd. destruct (Nat.eqb_spec k l) as [->|]; [reflexivity|apply B].
  - intros k. cbn [rgt setL setR]. unfold upd. destruct (Nat.eqb_spec k l) as [->|]; [reflexivity|apply C].
Qed.
Lemma arrRemove_none t k : lft t (fst k) = None -> rgt t (fst k) = None -> arrRemove K t k = Some t.
Proof. intros A B. unfold arrRemove. rewrite A, B. cbn [oidEq negb andb bind]. reflexivity. Qed.
Lemma rep_er t f lf rf L r e m1 m2 e' : Rep t f lf rf L r e m1 m2 -> Rep (setEr t e') f lf rf L r e' m1 m2.
Proof. intros (A & B & C & D & E & F). repeat split; auto; try apply A; apply F. Qed.

Section Rem.
Variables (a b : N).
Hypothesis AB : a < b.
Variable v : N -> Z.
Hypothesis VA : (0 <= v a < M)%Z.
Notation n := (a + 1).
Notation old := (old K a).

Lemma nb : n <= b. Proof. lia. Qed.
Lemma Qnb l : Q l n <= Q l b. Proof. apply Q_mono; auto. lia. Qed.
Lemma Qab' l : Q l a <= Q l b. Proof. apply Q_mono; auto. lia. Qed.
Lemma Qan' l : Q l a <= Q l n. Proof. apply Q_mono; [auto|apply N.le_add_r]. Qed.
Lemma old_eq l : old l = true -> Q l n = Q l a. Proof. apply N.eqb_eq. Qed.
Lemma old_0 : old 0 = false. Proof. clear. unfold Rvt_Proofs.old. rewrite !Q_0. apply N.eqb_neq. lia. Qed.
Lemma old_down l : old (S l) = false -> old l = false.
Proof. intros O. destruct (old l) eqn:E; auto. apply old_S in E; auto. congruence. Qed.

Lemma kid_path l : kid a b l (Q (S l) a) = if old l then kid n b l (Q (S l) a) else Q l a :: kid n b l (Q (S l) a).
Proof.
  unfold Rvt_Proofs.kid. pose proof (Q_in K K2 l a) as (I1 & I2). pose proof (Qab' l). destruct (old l) eqn:O.
  - rewrite (old_eq l O). reflexivity.
  - apply not_old in O; auto. rewrite O. rewrite (N.max_r _ (Q l a)) by lia. rewrite rng_cons by lia. rewrite N.max_r by lia. reflexivity.
Qed.
Lemma kid_off l q : Q (S l) a < q -> kid a b l q = kid n b l q.
Proof.
  intros LT. unfold Rvt_Proofs.kid. pose proof (Q_in K K2 l a) as (I1 & I2). assert (Q (S l) a * K + K <= q * K) by (replace (Q (S l) a * K + K) with ((Q (S l) a + 1) * K) by ring; apply N.mul_le_mono_r; lia).
  pose proof (Q_succ K K2 l a). rewrite !N.max_l by lia. reflexivity.
Qed.
Lemma kid_gone l : old (S l) = false -> kid n b l (Q (S l) a) = [].
Proof.
  intros O. assert (NE : Q (S l) n <> Q (S l) a) by (apply N.eqb_neq; exact O). destruct (Q_first K K2 l a NE) as (F1 & F2). pose proof (not_old K K2 a _ O) as ON. rewrite ON in F2. unfold Rvt_Proofs.kid. apply rng_nil. replace ((Q (S l) a + 1) * K) with (Q (S l) a * K + K) in F2 by ring. lia.
Qed.
Lemma kid_stay l : old (S l) = true -> exists r, kid n b l (Q (S l) a) = Q l n :: r.
Proof.
  intros O. pose proof (old_eq _ O) as E. pose proof (Q_in K K2 l n) as (I1 & I2). rewrite E in I1, I2. pose proof (Qnb l). unfold Rvt_Proofs.kid. rewrite N.max_r by lia. rewrite rng_cons by lia. eauto.
Qed.
Lemma val_off l : forall q, Q l a < q -> val a b v l q = val n b v l q.
Proof.
  induction l as [|l IH]; intros q LT; [reflexivity|]. cbn [Rvt_Proofs.val]. rewrite kid_off by auto. f_equal. f_equal. f_equal. apply map_ext_in. intros j I. apply IH. apply kid_in in I; auto. destruct I as (I & _).
  destruct (N.lt_ge_cases (Q l a) j); auto. exfalso. assert (j / K <= Q l a / K) by (apply N.div_le_mono; lia). rewrite <- Q_S in * by auto. lia.
Qed.
Fixpoint D (l : nat) : Z := match l with O => v a | S l' => (D l' + (if old l then 0 else iv (at_ l (Q l a))))%Z end.
Lemma val_path l : eqm (val a b v l (Q l a)) ((if old l then val n b v l (Q l a) else 0) + D l).
Proof.
  induction l as [|l IH].
  - rewrite old_0. cbn [Rvt_Proofs.val D]. rewrite Q_0. apply eqm_refl.
  - cbn [Rvt_Proofs.val]. eapply eqm_trans; [apply eqm_mod|]. rewrite kid_path. destruct (old l) eqn:O.
    + rewrite (old_S K K2 a l O). cbn [D]. rewrite (old_S K K2 a l O), Z.add_0_r.
      destruct (kid_stay l (old_S K K2 a l O)) as (r & E). rewrite E. cbn [map sum fold_right]. change (fold_right Z.add 0%Z) with sum. rewrite (old_eq l O).
      assert (RR : map (val a b v l) r = map (val n b v l) r).
      { apply map_ext_in. intros j I. apply val_off. assert (IJ : In j (kid n b l (Q (S l) a))) by (rewrite E; right; auto). assert (ND : NoDup (kid n b l (Q (S l) a))) by apply rng_NoDup. rewrite E in ND. inversion ND; subst. apply kid_in in IJ; auto. destruct IJ as (_ & IJ & _). assert (j <> Q l n) by (intros ->; auto). rewrite (old_eq l O) in *. lia. }
      rewrite RR. eapply eqm_trans; [|apply eqm_add; [apply eqm_sym, eqm_mod|apply eqm_refl]].
      replace (iv (S l, ix (S l) (Q (S l) a)) + (val n b v l (Q l a) + sum (map (val n b v l) r)) + D l)%Z with ((iv (S l, ix (S l) (Q (S l) a)) + sum (map (val n b v l) r)) + (val n b v l (Q l a) + D l))%Z by ring.
      replace (iv (S l, ix (S l) (Q (S l) a)) + (val a b v l (Q l a) + sum (map (val n b v l) r)))%Z with ((iv (S l, ix (S l) (Q (S l) a)) + sum (map (val n b v l) r)) + val a b v l (Q l a))%Z by ring.
      apply eqm_add; [apply eqm_refl|exact IH].
    + cbn [map sum fold_right]. change (fold_right Z.add 0%Z) with sum. cbn [D].
      assert (RR : map (val a b v l) (kid n b l (Q (S l) a)) = map (val n b v l) (kid n b l (Q (S l) a))).
      { apply map_ext_in. intros j I. apply val_off. apply kid_in in I; auto. destruct I as (_ & I & _). apply not_old in O; auto. lia. }
      rewrite RR. destruct (old (S l)) eqn:O1.
      * rewrite Z.add_0_r. eapply eqm_trans; [|apply eqm_add; [apply eqm_sym, eqm_mod|apply eqm_refl]].
        replace (iv (S l, ix (S l) (Q (S l) a)) + (val a b v l (Q l a) + sum (map (val n b v l) (kid n b l (Q (S l) a)))))%Z with ((iv (S l, ix (S l) (Q (S l) a)) + sum (map (val n b v l) (kid n b l (Q (S l) a)))) + val a b v l (Q l a))%Z by ring.
        apply eqm_add; [apply eqm_refl|exact IH].
      * rewrite kid_gone by auto. cbn [map sum fold_right]. rewrite Z.add_0_r, Z.add_0_l in *. unfold Rvt_Proofs2.at_. rewrite (Z.add_comm (D l)). apply eqm_add; [apply eqm_refl|exact IH].
Qed.
Lemma cn_off L l q : q <> Q l a -> cn a b L v l q = cn n b L v l q.
Proof.
  intros NE. destruct l as [|l]; [reflexivity|]. destruct (N.lt_ge_cases q (Q (S l) a)) as [LT|GE].
  - pose proof (Qan' (S l)). rewrite !cn_out by lia. reflexivity.
  - rewrite !cn_nd. assert (GT : Q (S l) a < q) by lia. pose proof (Q_succ K K2 (S l) a). replace (Q (S l) a <=? q) with true by (symmetry; apply N.leb_le; lia). replace (Q (S l) n <=? q) with true by (symmetry; apply N.leb_le; lia).
    destruct (Nat.leb (S l) L && true && (q <=? Q (S l) b)); auto. unfold Rvt_Proofs2.nd. rewrite kid_off by auto. rewrite val_off by auto. reflexivity.
Qed.
End Rem.
End S.
