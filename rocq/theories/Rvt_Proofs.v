From Coq Require Import List Arith NArith ZArith Bool Lia.
From Verif Require Import Lib_Bytes Rvt_Model.
Import ListNotations.
Local Open Scope N_scope.

(** Half-open ranges of numbers. *)
Definition rng (lo hi : N) : list N := map (fun t => lo + N.of_nat t) (seq 0 (N.to_nat (hi - lo))).
Lemma rng_nil lo hi : hi <= lo -> rng lo hi = [].
Proof. intros. unfold rng. replace (hi - lo) with 0 by lia. reflexivity. Qed.
Lemma rng_snoc lo hi : lo <= hi -> rng lo (hi + 1) = rng lo hi ++ [hi].
Proof. intros. unfold rng. replace (N.to_nat (hi + 1 - lo)) with (S (N.to_nat (hi - lo))) by lia. rewrite seq_S, map_app. simpl map. f_equal. f_equal. lia. Qed.
Lemma rng_cons lo hi : lo < hi -> rng lo hi = lo :: rng (lo + 1) hi.
Proof. intros. unfold rng. replace (N.to_nat (hi - lo)) with (S (N.to_nat (hi - (lo + 1)))) by lia. cbn [seq map]. rewrite N.add_0_r. f_equal. rewrite <- seq_shift, map_map. apply map_ext. intros. lia. Qed.
Lemma rng_in lo hi x : In x (rng lo hi) <-> lo <= x /\ x < hi.
Proof.
  unfold rng. rewrite in_map_iff. split.
  - intros (t & <- & I). apply in_seq in I. lia.
  - intros (A & B). exists (N.to_nat (x - lo)). split; [lia|]. apply in_seq. lia.
Qed.
Lemma rng_len lo hi : length (rng lo hi) = N.to_nat (hi - lo).
Proof. unfold rng. rewrite map_length, seq_length. reflexivity. Qed.

Lemma idEq_spec a b : reflect (a = b) (idEq a b).
Proof. destruct a as [l i], b as [m j]. unfold idEq. simpl. destruct (Nat.eqb_spec l m), (N.eqb_spec i j); simpl; constructor; congruence. Qed.
Lemma idEq_refl a : idEq a a = true. Proof. destruct (idEq_spec a a); congruence. Qed.
Lemma oidEq_spec a b : reflect (a = b) (oidEq a b).
Proof. destruct a as [a|], b as [b|]; simpl; try (constructor; congruence). destruct (idEq_spec a b); constructor; congruence. Qed.

Section S.
Variable H : bytes -> bytes.
Variables (K : N) (M : Z).
Hypothesis K2 : 2 <= K.
Hypothesis M0 : (0 < M)%Z.
Notation pow := (pow K).
Notation parentIdx := (parentIdx K).
Notation nextIdx := (nextIdx K).
Notation iv := (iv H M).
Notation addVal := (addVal M).
Notation subVal := (subVal M).
Notation push := (push K).

Lemma pow_S l : pow (S l) = K * pow l.
Proof. unfold Rvt_Model.pow. rewrite Nat2N.inj_succ, N.pow_succ_r'. reflexivity. Qed.
Lemma pow_pos l : pow l <> 0.
Proof. unfold Rvt_Model.pow. apply N.pow_nonzero. lia. Qed.
Lemma pow_0 : pow 0 = 1. Proof. reflexivity. Qed.
(** Position at level l of the RVB at (zero-based) position p, and the RVB index of position q at level l. *)
Definition Q (l : nat) (p : N) : N := p / pow l.
Definition ix (l : nat) (q : N) : N := q * pow l + 1.
Lemma Q_0 p : Q 0 p = p. Proof. unfold Q. rewrite pow_0. apply N.div_1_r. Qed.
Lemma Q_S l p : Q (S l) p = Q l p / K.
Proof. unfold Q. rewrite pow_S, N.mul_comm. rewrite N.div_div; auto using pow_pos. lia. Qed.
Lemma Q_mono l a b : a <= b -> Q l a <= Q l b.
Proof. intros. unfold Q. apply N.div_le_mono; auto using pow_pos. Qed.
Lemma divmod j : exists d m, j = d * K + m /\ m < K /\ j / K = d /\ j mod K = m.
Proof. exists (j / K), (j mod K). pose proof (N.div_mod j K ltac:(lia)). pose proof (N.mod_lt j K ltac:(lia)). repeat split; auto. rewrite N.mul_comm. auto. Qed.
Lemma div_val d m : m < K -> (d * K + m) / K = d.
Proof. intros. symmetry. apply N.div_unique with m; [auto|]. rewrite N.mul_comm. reflexivity. Qed.
Lemma div_succ j : (j + 1) / K = j / K /\ j + 1 < j / K * K + K \/ (j + 1) / K = j / K + 1 /\ j + 1 = (j / K + 1) * K.
Proof.
  destruct (divmod j) as (d & m & E & B & -> & _). destruct (N.eq_dec (m + 1) K) as [E2|E2].
  - right. replace (j + 1) with ((d + 1) * K + 0) by (rewrite N.mul_add_distr_r; lia). rewrite div_val by lia. split; lia.
  - left. replace (j + 1) with (d * K + (m + 1)) by lia. rewrite div_val by lia. split; lia.
Qed.
Lemma Q_succ l p : Q l (p + 1) = Q l p \/ Q l (p + 1) = Q l p + 1.
Proof.
  induction l; [rewrite !Q_0; auto|]. rewrite !Q_S. destruct IHl as [-> | ->]; auto.
  destruct (div_succ (Q l p)) as [(E & _)|(E & _)]; auto.
Qed.
Lemma Q_up l p n : Q l n = Q l p -> Q (S l) n = Q (S l) p. Proof. rewrite !Q_S. congruence. Qed.
(** If the next position is in a new parent, it is the first of its siblings. *)
Lemma Q_first l p : Q (S l) (p + 1) <> Q (S l) p -> Q l (p + 1) = Q l p + 1 /\ Q l (p + 1) = Q (S l) (p + 1) * K.
Proof.
  intros NE. destruct (Q_succ l p) as [E|E]; [elim NE; apply Q_up; auto|]. split; auto. rewrite !Q_S in *. rewrite E in *.
  destruct (div_succ (Q l p)) as [(E2 & _)|(E2 & E3)]; [congruence|]. rewrite E2. exact E3.
Qed.
Lemma div_eq j q : q * K <= j -> j < q * K + K -> j / K = q.
Proof. intros. replace j with (q * K + (j - q * K)) by lia. apply div_val. lia. Qed.
Lemma div_in j : j / K * K <= j /\ j < j / K * K + K.
Proof. destruct (divmod j) as (d & m & E & B & -> & _). lia. Qed.
Lemma Q_in l p : Q (S l) p * K <= Q l p /\ Q l p < Q (S l) p * K + K.
Proof. rewrite Q_S. apply div_in. Qed.
Lemma Q_last l p : Q (S l) (p + 1) = Q (S l) p -> Q l (p + 1) + 1 <= Q (S l) p * K + K.
Proof. intros E. rewrite <- E. pose proof (Q_in l (p + 1)). lia. Qed.

Lemma ix_inj l q r : ix l q = ix l r -> q = r.
Proof. unfold ix. intros E. assert (q * pow l = r * pow l) by lia. eapply N.mul_cancel_r; eauto using pow_pos. Qed.
Lemma ix_lt l q r : q < r -> ix l q < ix l r.
Proof. unfold ix. intros E. assert (q * pow l < r * pow l) by (apply N.mul_lt_mono_pos_r; auto; pose proof (pow_pos l); lia). lia. Qed.
Lemma parentIdx_ix l q : parentIdx (ix l q) l = ix (S l) (q / K).
Proof. unfold Rvt_Model.parentIdx, ix. rewrite N.add_sub, pow_S. rewrite N.div_mul_cancel_r by (auto using pow_pos; lia). reflexivity. Qed.
Lemma nextIdx_ix l q : nextIdx (ix l q) l = Some (ix l (q + 1)).
Proof. unfold Rvt_Model.nextIdx, ix. rewrite N.add_sub, N.mod_mul by apply pow_pos. simpl. f_equal. lia. Qed.
Lemma cnt_ix l q : (ix l q - parentIdx (ix l q) l) / pow l = q mod K.
Proof.
  rewrite parentIdx_ix. unfold ix. rewrite pow_S. replace (q * pow l + 1 - (q / K * (K * pow l) + 1)) with ((q mod K) * pow l).
  - apply N.div_mul. apply pow_pos.
  - destruct (divmod q) as (d & m & E & B & -> & ->). subst q. rewrite N.mul_add_distr_r, N.mul_assoc. generalize (d * K * pow l) (m * pow l). intros. lia.
Qed.
Lemma mod_div j : j mod K = j - j / K * K.
Proof. destruct (divmod j) as (d & m & E & B & -> & ->). lia. Qed.

(** * The canonical tree for the positions a..b, with top level L *)
Definition kid (a b : N) (l : nat) (q : N) : list N := rng (N.max (q * K) (Q l a)) (N.min (q * K + K) (Q l b + 1)).
Definition sum (l : list Z) : Z := fold_right Z.add 0%Z l.
Fixpoint val (a b : N) (v : N -> Z) (l : nat) (q : N) : Z :=
  match l with O => v q | S l => Z.modulo (iv (S l, ix (S l) q) + sum (map (val a b v l) (kid a b l q))) M end.
Definition cn (a b : N) (L : nat) (v : N -> Z) (l : nat) (q : N) : option node :=
  match l with
  | O => None
  | S l' => if (Nat.leb l L && (Q l a <=? q) && (q <=? Q l b))%bool then
      Some (mkN (if Nat.eqb l L then nullId else (S l, ix (S l) (q / K))) (map (fun j => (l', ix l' j)) (kid a b l' q))
                (Some (N.min (q * K + K) (Q l' b + 1) - q * K)) (iv (l, ix l q)) (val a b v l q)) else None
  end.
Lemma sum_app a b : sum (a ++ b) = (sum a + sum b)%Z.
Proof. clear. induction a; simpl; lia. Qed.

Lemma iv_range k : (0 <= iv k < M)%Z.
Proof using M0. clear K2 K. unfold Rvt_Model.iv, hval. rewrite Z.rem_mod_nonneg by lia. apply Z.mod_pos_bound; auto. Qed.
Lemma val_range a b v l q : (0 <= val a b v (S l) q < M)%Z.
Proof. cbn [val]. apply Z.mod_pos_bound; auto. Qed.

(** * Adding position b+1 *)
Section Add.
Variables (a b : N).
Hypothesis AB : a <= b.
Variable v : N -> Z.
Definition vset (v : N -> Z) (n : N) (x : Z) : N -> Z := fun q => if q =? n then x else v q.
Variable x : Z.
Notation v' := (vset v (b + 1) x).
Definition old (l : nat) : bool := Q l (b + 1) =? Q l b.
Fixpoint delta (l : nat) : Z := match l with O => x | S l' => if old l then delta l' else Z.modulo (delta l' + iv (l, ix l (Q l (b + 1)))) M end.

Lemma old_S l : old l = true -> old (S l) = true.
Proof. unfold old. rewrite !N.eqb_eq. apply Q_up. Qed.
Lemma not_old l : old l = false -> Q l (b + 1) = Q l b + 1.
Proof. unfold old. rewrite N.eqb_neq. destruct (Q_succ l b) as [E|E]; intros X; [elim X; exact E|exact E]. Qed.
Lemma kid_same l q : q <> Q (S l) (b + 1) -> q <= Q (S l) (b + 1) -> kid a (b + 1) l q = kid a b l q.
Proof.
  intros NE LE. unfold kid. f_equal. destruct (Q_succ l b) as [E|E]; [congruence|]. pose proof (Q_in l (b + 1)) as (I & _).
  assert (q * K + K <= Q (S l) (b + 1) * K) by (assert (q + 1 <= Q (S l) (b + 1)) by lia; replace (q * K + K) with ((q + 1) * K) by lia; apply N.mul_le_mono_r; auto). lia.
Qed.
Lemma kid_here l : kid a (b + 1) l (Q (S l) (b + 1)) = if old l then kid a b l (Q (S l) (b + 1)) else kid a b l (Q (S l) (b + 1)) ++ [Q l (b + 1)].
Proof.
  unfold kid. destruct (old l) eqn:O; [unfold old in O; apply N.eqb_eq in O; rewrite O; reflexivity|]. apply not_old in O. pose proof (Q_in l (b + 1)) as (I1 & I2). pose proof (Q_mono l a b AB).
  rewrite (N.min_r _ (Q l (b + 1) + 1)) by lia. rewrite rng_snoc by lia. rewrite N.min_r by lia. rewrite <- O. reflexivity.
Qed.
Lemma kid_new l : old (S l) = false -> kid a b l (Q (S l) (b + 1)) = [].
Proof.
  intros O. unfold old in O. apply N.eqb_neq in O. destruct (Q_first l b O) as (F1 & F2). unfold kid. apply rng_nil. lia.
Qed.
Lemma val_same l : forall q, q <> Q l (b + 1) -> q <= Q l (b + 1) -> val a (b + 1) v' l q = val a b v l q.
Proof.
  induction l as [|l IH]; intros q NE LE.
  - cbn [val]. rewrite Q_0 in NE. unfold vset. destruct (N.eqb_spec q (b + 1)); [congruence|reflexivity].
  - cbn [val]. rewrite kid_same by auto. f_equal. f_equal. f_equal. apply map_ext_in. intros j I. unfold kid in I. apply rng_in in I. pose proof (Q_succ l b). assert (j / K = q) by (apply div_eq; lia). apply IH; [|lia]. intros ->. apply NE. rewrite Q_S. auto.
Qed.
Lemma val_here l : val a (b + 1) v' l (Q l (b + 1)) = if old l then (match l with O => delta l | _ => Z.modulo (val a b v l (Q l (b + 1)) + delta l) M end) else match l with O => delta l | _ => Z.modulo (delta l) M end.
Proof.
  induction l as [|l IH].
  - cbn [val delta]. rewrite Q_0. unfold vset. rewrite N.eqb_refl. destruct (old 0); reflexivity.
  - cbn [val]. rewrite kid_here. destruct (old (S l)) eqn:O1.
    + cbn [delta]. rewrite O1. destruct (old l) eqn:O.
      * assert (E : exists p, kid a b l (Q (S l) (b + 1)) = p ++ [Q l (b + 1)] /\ forall j, In j p -> j < Q l (b + 1)).
        { unfold old in O. apply N.eqb_eq in O. pose proof (Q_in l (b + 1)) as (I1 & I2). pose proof (Q_mono l a b AB). unfold kid. rewrite (N.min_r _ (Q l b + 1)) by lia. rewrite rng_snoc by lia. rewrite O. eexists. split; [reflexivity|]. intros j I. apply rng_in in I. lia. }
        destruct E as (p & EP & LT). rewrite EP, !map_app, !sum_app. cbn [map sum fold_right]. rewrite IH. 
        replace (map (val a (b + 1) v' l) p) with (map (val a b v l) p). 2: { apply map_ext_in. intros j I. symmetry. apply LT in I. apply val_same; lia. }
        destruct l as [|l]. { exfalso. unfold old in O. rewrite !Q_0 in O. apply N.eqb_eq in O. lia. }
        rewrite Z.add_mod_idemp_l by lia. rewrite !Z.add_0_r. rewrite !Z.add_assoc. rewrite Z.add_mod_idemp_r by lia. f_equal; ring.
      * rewrite map_app, sum_app. cbn [map sum fold_right]. rewrite IH.
        replace (map (val a (b + 1) v' l) (kid a b l (Q (S l) (b + 1)))) with (map (val a b v l) (kid a b l (Q (S l) (b + 1)))).
        2: { apply map_ext_in. intros j I. symmetry. unfold kid in I. apply rng_in in I. apply not_old in O. apply val_same; lia. }
        rewrite Z.add_mod_idemp_l by lia. rewrite Z.add_0_r. destruct l; [f_equal; ring|]. rewrite Z.add_assoc. rewrite Z.add_mod_idemp_r by lia. f_equal; ring.
    + assert (O : old l = false) by (destruct (old l) eqn:O; auto; apply old_S in O; congruence). rewrite O, kid_new by auto. cbn [app map sum fold_right delta]. rewrite O1, IH, O. rewrite Z.add_0_r.
      destruct l; [rewrite Z.mod_mod by lia; f_equal; ring|]. rewrite Z.add_mod_idemp_r by lia. rewrite Z.mod_mod by lia. f_equal; ring.
Qed.
End Add.
End S.
