From Coq Require Import List ZArith Lia Bool.
From Verif Require Import Time_Model.
Import ListNotations.
Open Scope Z_scope.
Lemma minT0 : minT <= 0. Proof. vm_compute. discriminate. Qed.
Opaque minT maxT.
Lemma times_len eps props : forall l, length (times eps l props) = length props.
Proof. induction props; intros; simpl; auto. Qed.
(** The last timestamp after i batches. *)
Definition lastAt (eps : Z) (props : list Z) (i : nat) : Z := match i with O => minT | S i => nth i (times eps minT props) minT end.
Lemma times_step eps props : forall l i t, nth_error props i = Some t ->
  nth_error (times eps l props) i = Some (let x := match i with O => l | S j => nth j (times eps l props) minT end in if x <? t then t else x + eps).
Proof.
  induction props as [|p props IH]; intros l [|i] t H; simpl in *; try discriminate; [inversion H; subst; auto|].
  rewrite (IH _ _ _ H). destruct i; auto.
Qed.
Lemma times_incr eps props : 0 < eps -> forall l i j a b, (i < j)%nat -> nth_error (times eps l props) i = Some a -> nth_error (times eps l props) j = Some b -> a < b.
Proof.
  intros E. induction props as [|p props IH]; intros l i j a b L A B; [destruct i; discriminate|].
  assert (G : forall q l0 j b, nth_error (times eps l0 q) j = Some b -> l0 < b).
  { clear - E. induction q as [|p q IH]; intros l0 j b H; [destruct j; discriminate|]. destruct j; simpl in H.
    - inversion H. destruct (Z.ltb_spec l0 p); lia.
    - apply IH in H. destruct (Z.ltb_spec l0 p); lia. }
  destruct j; [lia|]. destruct i; simpl in A, B; [|eapply (IH _ i j); eauto; lia]. inversion A; subst. eapply G; eauto.
Qed.
Lemma times_upper eps props B : 0 <= eps -> forall l, l <= B -> (forall t, In t props -> t <= B) -> forall i a, nth_error (times eps l props) i = Some a -> a <= B + eps * Z.of_nat (S i).
Proof.
  intros E. revert B. induction props as [|p props IH]; intros B l L H i a A; [destruct i; discriminate|].
  assert (P : p <= B) by (apply H; left; auto).
  destruct i; simpl in A.
  - inversion A. destruct (Z.ltb_spec l p); lia.
  - eapply (IH (B + eps)) in A; [lia| |]; [destruct (Z.ltb_spec l p); lia|]. intros t Ht. assert (t <= B) by (apply H; right; auto). lia.
Qed.
Lemma times_lower eps props : 0 <= eps -> forall l i a t, nth_error (times eps l props) i = Some a -> nth_error props i = Some t -> t <= a.
Proof.
  intros E. induction props as [|p props IH]; intros l [|i] a t A T; simpl in *; try discriminate.
  - inversion A; inversion T; subst. destruct (Z.ltb_spec l t); lia.
  - eapply IH; eauto.
Qed.

Section R.
Variables (eps : Z) (props : list Z).
Hypothesis E0 : 0 < eps.
Hypothesis POS : forall t, In t props -> 0 < t.
Hypothesis FIT : forall t, In t props -> t + eps * Z.of_nat (length props) <= maxT.
Definition TInv (s : tst) : Prop :=
  (forall i ts, In (i, ts) (out s) -> nth_error (times eps minT props) i = Some ts) /\ (cnt s <= length props)%nat /\
  (forall x, page s = Some x -> x = lastAt eps props (cnt s) \/ (desc s = Some (lastAt eps props (cnt s)) /\ x = lastAt eps props (S (cnt s)) /\ (cnt s < length props)%nat)) /\
  (page s = None -> cnt s = O) /\
  match ph s with
  | Idle => last s = lastAt eps props (cnt s) /\ desc s = None
  | Begun => last s = lastAt eps props (cnt s) /\ desc s = Some (lastAt eps props (cnt s))
  | Stamped => last s = lastAt eps props (S (cnt s)) /\ desc s = Some (lastAt eps props (cnt s)) /\ (cnt s < length props)%nat /\ page s = Some (last s)
  end.
Lemma lastAt_nth i x : nth_error (times eps minT props) i = Some x -> lastAt eps props (S i) = x.
Proof. intros H. simpl. apply nth_error_nth. auto. Qed.
Lemma lastAt_lt i : (i < length props)%nat -> lastAt eps props i < lastAt eps props (S i).
Proof.
  intros H. assert (L := times_len eps props minT).
  destruct (nth_error (times eps minT props) i) as [b|] eqn:B; [|apply nth_error_None in B; lia]. rewrite (lastAt_nth i b B).
  destruct (nth_error props i) as [t|] eqn:T; [|apply nth_error_None in T; lia]. pose proof (times_step eps props minT i t T) as S. rewrite B in S. inversion S as [S1]. clear S.
  change (match i with O => minT | S j => nth j (times eps minT props) minT end) with (lastAt eps props i) in *. destruct (Z.ltb_spec (lastAt eps props i) t); lia.
Qed.
Lemma no_overflow i t : nth_error props i = Some t -> compareAndUpdate eps (lastAt eps props i) t = Some (lastAt eps props (S i)).
Proof.
  intros T. pose proof (times_step eps props minT i t T) as St. change (match i with O => minT | S j => nth j (times eps minT props) minT end) with (lastAt eps props i) in *.
  cbv zeta in St. rewrite (lastAt_nth _ _ St). unfold compareAndUpdate. destruct (Z.ltb_spec (lastAt eps props i) t); auto.
  assert (LI : (i < length props)%nat) by (apply nth_error_Some; congruence).
  destruct (Z.leb_spec (lastAt eps props i + eps) maxT); auto. exfalso.
  destruct i as [|j].
  { assert (HI : In t props) by (eapply nth_error_In; eauto). pose proof (FIT t HI). pose proof (POS t HI). assert (eps * 1 <= eps * Z.of_nat (length props)) by (apply Z.mul_le_mono_nonneg_l; lia).
    pose proof minT0. cbn [lastAt] in *. lia. }
  destruct (nth_error (times eps minT props) j) as [a|] eqn:A; [|apply nth_error_None in A; rewrite times_len in A; lia]. rewrite (lastAt_nth _ _ A) in *.
  assert (HB : exists B, (forall t, In t props -> t <= B) /\ In B props).
  { destruct props as [|p q]; [destruct j; discriminate|]. clear. revert p. induction q as [|x q IH]; intros p.
    - exists p. split; [intros t [<-|[]]; lia|left; auto].
    - destruct (IH (Z.max p x)) as (B & H1 & H2). exists B. split.
      + intros t [<-|[<-|Ht]]; [specialize (H1 _ (or_introl eq_refl)); lia|specialize (H1 _ (or_introl eq_refl)); lia|apply H1; right; auto].
      + destruct H2 as [<-|H2]; [|right; right; auto]. destruct (Z.max_spec p x) as [[_ ->]|[_ ->]]; simpl; auto. }
  destruct HB as (B & HB & HI). assert (M0 : minT <= B) by (pose proof minT0; specialize (POS B HI); lia).
  pose proof (times_upper eps props B ltac:(lia) minT M0 HB j a A) as U. specialize (FIT B HI).
  assert (Z.of_nat (S j) + 1 <= Z.of_nat (length props)) by lia. nia.
Qed.
Lemma tstep_inv s o : TInv s -> exists s', tstep eps props s o = Some s' /\ TInv s'.
Proof.
  intros I0. assert (U : exists s', Some s = Some s' /\ TInv s') by eauto. destruct I0 as (A & B & C & D & F). unfold tstep. destruct o.
  - destruct (ph s) eqn:P; try exact U. eexists; (split; [reflexivity|]).
    destruct F as [F1 F2]. split; auto. split; auto. split; [|split; auto].
    + simpl. intros x Hx. destruct (C x Hx) as [->|(Q & _)]; auto. congruence.
    + simpl. split; auto. congruence.
  - destruct (ph s) eqn:P; try exact U.
    destruct (nth_error props (cnt s)) as [t|] eqn:T; [|exact U].
    destruct F as [F1 F2]. rewrite F1, (no_overflow _ _ T). eexists. split; [reflexivity|]. split; [|split; [|split; [|split]]]; simpl; auto.
    + intros i ts [H|H]; auto. inversion H; subst. assert (L := times_len eps props minT). destruct (nth_error (times eps minT props) (cnt s)) eqn:N; [|apply nth_error_None in N; assert (cnt s < length props)%nat by (apply nth_error_Some; congruence); lia].
      f_equal. symmetry. apply (lastAt_nth _ _ N).
    + intros x Hx. inversion Hx; subst. right. split; auto. split; auto. apply nth_error_Some. congruence.
    + discriminate.
    + split; auto. split; auto. split; auto. apply nth_error_Some. congruence.
  - destruct (ph s) eqn:P; try exact U.
    destruct F as (F1 & F2 & F3 & F4). eexists. split; [reflexivity|]. split; [|split; [|split; [|split]]]; simpl; auto.
    + left. rewrite F4 in H. inversion H; subst; auto.
    + rewrite F4. discriminate.
  - destruct (desc s) as [x|] eqn:Ds.
    + assert (X : x = lastAt eps props (cnt s)) by (destruct (ph s); [destruct F; congruence|destruct F; congruence|destruct F as (_ & F & _); congruence]).
      assert (LE : x <= load (page s)).
      { unfold load. destruct (page s) as [y|] eqn:Pg.
        - destruct (C y eq_refl) as [->|(_ & -> & L)]; [lia|]. apply lastAt_lt in L. lia.
        - rewrite X, D; auto. simpl. lia. }
      apply Z.leb_le in LE. rewrite LE. eexists. split; [reflexivity|]. split; [|split; [|split; [|split]]]; simpl; auto; try discriminate.
      * intros y Hy. inversion Hy; subst. auto.
      * subst; auto.
    + eexists. split; [reflexivity|]. assert (PI : ph s = Idle) by (destruct (ph s); auto; [destruct F; congruence|destruct F as (_ & F & _); congruence]). rewrite PI in F. destruct F as [F1 F2].
      split; [|split; [|split; [|split]]]; simpl; auto.
      split; auto. unfold load. destruct (page s) as [y|] eqn:Pg; [destruct (C y eq_refl) as [->|(Q & _)]; auto; discriminate|]. rewrite D; auto.
Qed.
Lemma tinit_inv : TInv tinit.
Proof. split; [intros ? ? []|]. split; [simpl; lia|]. split; [discriminate|]. split; auto. simpl. auto. Qed.
Lemma trun_inv l : forall s, TInv s -> exists s', trun eps props s l = Some s' /\ TInv s'.
Proof. induction l as [|o l IH]; intros s I; simpl; [eauto|]. destruct (tstep_inv s o I) as (s1 & E & I1). rewrite E. auto. Qed.
End R.
