(** Byte strings: little- and big-endian integers, slices. Bytes are N below 256. *)
From Coq Require Import List Arith NArith Lia Bool.
Import ListNotations.
Local Open Scope N_scope.

Definition bytes := list N.
Definition isByte (b : N) : Prop := b < 256.
(** k low-order bytes of x, least significant first (memcpy of an integer on x86). *)
Fixpoint le (k : nat) (x : N) : bytes := match k with O => [] | S k => (x mod 256) :: le k (x / 256) end.
Fixpoint unle (l : bytes) : N := match l with [] => 0 | b :: t => b + 256 * unle t end.
(** Big endian. *)
Definition be (k : nat) (x : N) : bytes := rev (le k x).
Definition unbe (l : bytes) : N := unle (rev l).
(** Bytes [o, o+k). *)
Definition slice (l : bytes) (o k : nat) : bytes := firstn k (skipn o l).

Lemma le_length k : forall x, length (le k x) = k.
Proof. induction k; simpl; intros; auto. Qed.
Lemma le_bytes k : forall x, Forall isByte (le k x).
Proof. induction k; simpl; intros; constructor; auto. red. apply N.mod_upper_bound. lia. Qed.
Lemma unle_le_mod k : forall x, unle (le k x) = x mod (256 ^ N.of_nat k).
Proof.
  induction k; intros x.
  - simpl. rewrite N.mod_1_r. auto.
  - change (le (S k) x) with ((x mod 256) :: le k (x / 256)). cbn [unle]. rewrite IHk.
    rewrite Nat2N.inj_succ, N.pow_succ_r'. rewrite N.mod_mul_r; [reflexivity|lia|]. apply N.pow_nonzero. lia.
Qed.
Lemma unle_le k x : x < 256 ^ N.of_nat k -> unle (le k x) = x.
Proof. intros. rewrite unle_le_mod. apply N.mod_small. auto. Qed.
Lemma le_unle l : Forall isByte l -> le (length l) (unle l) = l.
Proof.
  induction l as [|b l IH]; intros H; auto. inversion H; subst. unfold isByte in *. cbn [length unle le]. f_equal.
  - rewrite N.mul_comm, N.mod_add by lia. apply N.mod_small; auto.
  - rewrite N.mul_comm, N.div_add by lia. rewrite N.div_small by auto. rewrite N.add_0_l. auto.
Qed.
Lemma unle_bound l : Forall isByte l -> unle l < 256 ^ N.of_nat (length l).
Proof.
  induction l as [|b l IH]; intros H; [simpl; lia|]. inversion H; subst. specialize (IH H3). red in H2.
  cbn [length unle]. rewrite Nat2N.inj_succ, N.pow_succ_r'. nia.
Qed.
Lemma le_inj k x y : x < 256 ^ N.of_nat k -> y < 256 ^ N.of_nat k -> le k x = le k y -> x = y.
Proof. intros Hx Hy E. rewrite <- (unle_le k x), <- (unle_le k y), E; auto. Qed.
Lemma be_length k x : length (be k x) = k.
Proof. unfold be. rewrite rev_length. apply le_length. Qed.
Lemma be_bytes k x : Forall isByte (be k x).
Proof. unfold be. apply Forall_rev. apply le_bytes. Qed.
Lemma unbe_be k x : x < 256 ^ N.of_nat k -> unbe (be k x) = x.
Proof. intros. unfold unbe, be. rewrite rev_involutive. apply unle_le; auto. Qed.
Lemma be_inj k x y : x < 256 ^ N.of_nat k -> y < 256 ^ N.of_nat k -> be k x = be k y -> x = y.
Proof. intros Hx Hy E. rewrite <- (unbe_be k x), <- (unbe_be k y), E; auto. Qed.

Lemma firstn_app_exact {A} (l r : list A) n : length l = n -> firstn n (l ++ r) = l.
Proof. intros <-. rewrite firstn_app, Nat.sub_diag, firstn_all. simpl. apply app_nil_r. Qed.
Lemma skipn_app_exact {A} (l r : list A) n : length l = n -> skipn n (l ++ r) = r.
Proof. intros <-. rewrite skipn_app, Nat.sub_diag, skipn_all. auto. Qed.
Lemma slice_app_skip l r o k : (length l <= o)%nat -> slice (l ++ r) o k = slice r (o - length l) k.
Proof. intros H. unfold slice. rewrite skipn_app. rewrite (skipn_all2 l) by lia. auto. Qed.
Lemma slice_app_here l r k : length l = k -> slice (l ++ r) 0 k = l.
Proof. intros. unfold slice. simpl. apply firstn_app_exact; auto. Qed.
Lemma skipn_add {A} (l : list A) a b : skipn a (skipn b l) = skipn (b + a)%nat l.
Proof. revert l; induction b; simpl; intros; auto. destruct l; auto. apply skipn_nil. Qed.
