(** C49: what binds a signature share to a view and a sequence number. *)
From Coq Require Import NArith Bool Lia.
From Verif Require Import Dig_Model.
Open Scope N_scope.

Lemma lxor_inj a x y : N.lxor a x = N.lxor a y <-> x = y.
Proof.
  split; [|now intros ->]. intros H. apply (f_equal (N.lxor a)) in H. now rewrite <- !N.lxor_assoc, !N.lxor_nilpotent, !N.lxor_0_l in H.
Qed.
Lemma lxor_r x y b : N.lxor x b = N.lxor y b <-> x = y.
Proof. rewrite !(N.lxor_comm _ b). apply lxor_inj. Qed.
Lemma loc_2 d : (locA d = 0 \/ locA d = 1) /\ (locB d = 0 \/ locB d = 1).
Proof.
  assert (Q : forall x, x mod 2 = 0 \/ x mod 2 = 1) by (intros x; rewrite <- N.bit0_mod; destruct (N.testbit x 0); auto). split; apply Q.
Qed.

(** For one digest: exactly when two pairs of a view and a sequence number give the same signed digest. *)
Theorem C49_equal_iff : forall d v s v' s', comb d v s = comb d v' s' <-> if locA d =? locB d then N.lxor v s = N.lxor v' s' else v = v' /\ s = s'.
Proof.
  intros d v s v' s'. unfold comb. destruct (loc_2 d) as [[-> | ->] [-> | ->]]; cbn; (split; [intros H|intros H]).
  - injection H as E. rewrite !N.lxor_assoc in E. now apply lxor_inj in E.
  - now rewrite !N.lxor_assoc, H.
  - injection H as E1 E2. apply lxor_inj in E1. apply lxor_inj in E2. easy.
  - now destruct H as [-> ->].
  - injection H as E1 E2. apply lxor_inj in E1. apply lxor_inj in E2. easy.
  - now destruct H as [-> ->].
  - injection H as E. rewrite !N.lxor_assoc in E. now apply lxor_inj in E.
  - now rewrite !N.lxor_assoc, H.
Qed.
Print Assumptions C49_equal_iff.

(** So for one digest a share for a view and a sequence number counts for no other sequence number in that view, and no other view at that sequence number. *)
Theorem C49_bound_partial : forall d v s v' s', comb d v s = comb d v' s' -> (v = v' -> s = s') /\ (s = s' -> v = v').
Proof.
  intros d v s v' s' H. apply C49_equal_iff in H. destruct (locA d =? locB d); [|tauto]. split; intros ->; [now apply lxor_inj in H|now apply lxor_r in H].
Qed.
Print Assumptions C49_bound_partial.

(** But for the digests whose bits 0 and 8 are equal it counts for other pairs of which both differ, whatever the view and the number. *)
Theorem C49_bound_refuted : forall d v s k, locA d = locB d -> k <> 0 -> comb d (N.lxor v k) (N.lxor s k) = comb d v s /\ N.lxor v k <> v /\ N.lxor s k <> s.
Proof.
  assert (Q : forall v k, k <> 0 -> N.lxor v k <> v) by (intros v k K H; apply K, (lxor_inj v); now rewrite N.lxor_0_r).
  intros d v s k L K. split; [|auto]. apply C49_equal_iff. rewrite L, N.eqb_refl. rewrite N.lxor_assoc, (N.lxor_comm s k), <- (N.lxor_assoc k), N.lxor_nilpotent, N.lxor_0_l. reflexivity.
Qed.
Print Assumptions C49_bound_refuted.
(** Which digests those are. *)
Theorem C49_colliding_digests : forall d, locA d = locB d <-> N.testbit (w0 d) 0 = N.testbit (w0 d) 8.
Proof.
  intros d. unfold locA, locB, X. rewrite <- !N.bit0_mod, N.shiftr_spec by lia. change (0 + 8) with 8. destruct (N.testbit (w0 d) 0), (N.testbit (w0 d) 8); cbn; split; easy.
Qed.
Print Assumptions C49_colliding_digests.

(** Digests of different proposals can only give the same signed digest if they agree in their last 16 bytes. *)
Theorem C49_other_digest : forall d d' v s v' s', comb d v s = comb d' v' s' -> w2 d = w2 d' /\ w3 d = w3 d'.
Proof.
  assert (Q : forall d v s, w2 (comb d v s) = w2 d /\ w3 (comb d v s) = w3 d).
  { intros d v s. unfold comb, xorAt. now destruct (locA d =? 0), (locB d =? 0). }
  intros d d' v s v' s' H. destruct (Q d v s) as [<- <-]. destruct (Q d' v' s') as [<- <-]. now rewrite H.
Qed.
Print Assumptions C49_other_digest.

(** Cases that meet the hypotheses, of both kinds. *)
Example bound_ex : comb (mkD 1 5 6 7) 3 151 = mkD (1 + 150) (5 + 1) 6 7 \/ comb (mkD 1 5 6 7) 3 151 = mkD 150 6 6 7.
Proof. vm_compute. auto. Qed.
Example collision_ex : locA (mkD 257 5 6 7) = locB (mkD 257 5 6 7) /\ comb (mkD 257 5 6 7) 4 10 = comb (mkD 257 5 6 7) 5 11 /\ comb (mkD 1 5 6 7) 4 10 <> comb (mkD 1 5 6 7) 5 11.
Proof. vm_compute. repeat split. discriminate. Qed.
