(** Counting finite sets of replica identifiers, represented as duplicate-free lists of [nat]. No repo code is modelled here. *)
From Coq Require Import List Arith Lia Bool.
Import ListNotations.

Definition mem (x : nat) (l : list nat) : bool := existsb (Nat.eqb x) l.

Lemma mem_In x l : mem x l = true <-> In x l.
Proof.
  unfold mem. rewrite existsb_exists. split.
  - intros (y & H & E). apply Nat.eqb_eq in E. subst. exact H.
  - intros H. exists x. split; [exact H | apply Nat.eqb_refl].
Qed.

Lemma mem_nIn x l : mem x l = false <-> ~ In x l.
Proof. rewrite <- mem_In. destruct (mem x l); split; congruence. Qed.

Definition inter (A B : list nat) := filter (fun x => mem x B) A.
Definition minus (A B : list nat) := filter (fun x => negb (mem x B)) A.

Lemma inter_In x A B : In x (inter A B) <-> In x A /\ In x B.
Proof. unfold inter. rewrite filter_In, mem_In. tauto. Qed.

Lemma minus_In x A B : In x (minus A B) <-> In x A /\ ~ In x B.
Proof. unfold minus. rewrite filter_In, negb_true_iff, mem_nIn. tauto. Qed.

Lemma NoDup_filter {T} (p : T -> bool) (l : list T) : NoDup l -> NoDup (filter p l).
Proof.
  induction 1 as [|x l Hx Hl IH]; simpl; [constructor|].
  destruct (p x); [constructor|]; auto. rewrite filter_In. tauto.
Qed.

Lemma filter_split_length {T} (p : T -> bool) (l : list T) :
  length (filter p l) + length (filter (fun x => negb (p x)) l) = length l.
Proof. induction l as [|x l IH]; simpl; [lia|]. destruct (p x); simpl; lia. Qed.

Lemma inter_minus_length A B : length (inter A B) + length (minus A B) = length A.
Proof. apply filter_split_length. Qed.

Lemma filter_length_le {T} (p : T -> bool) (l : list T) : length (filter p l) <= length l.
Proof. induction l as [|x l IH]; simpl; [lia|]. destruct (p x); simpl; lia. Qed.

Lemma filter_length_mono {T} (p q : T -> bool) (l : list T) :
  (forall x, In x l -> p x = true -> q x = true) -> length (filter p l) <= length (filter q l).
Proof.
  induction l as [|x l IH]; simpl; intros H; [lia|].
  assert (IH' := IH (fun y Hy => H y (or_intror Hy))).
  destruct (p x) eqn:E; [rewrite (H x (or_introl eq_refl) E); simpl; lia|].
  destruct (q x); simpl; lia.
Qed.

(** Inclusion-exclusion lower bound. *)
Lemma inter_length (U A B : list nat) :
  NoDup A -> NoDup B -> incl A U -> incl B U ->
  length A + length B <= length U + length (inter A B).
Proof.
  intros HA HB IA IB.
  assert (Hm : length (minus A B) + length B <= length U).
  { rewrite <- app_length. apply NoDup_incl_length.
    - clear IA IB. assert (HM : NoDup (minus A B)) by (apply NoDup_filter; exact HA).
      assert (D : forall x, In x (minus A B) -> ~ In x B) by (intros x Hx; apply minus_In in Hx; tauto).
      revert HM D. generalize (minus A B) as M. induction M as [|x M IH]; simpl; intros HM D; [exact HB|].
      inversion HM as [|y M' Hx HM']; subst. constructor.
      + rewrite in_app_iff. intros [H|H]; [tauto|]. exact (D x (or_introl eq_refl) H).
      + apply IH; auto.
    - intros x Hx. apply in_app_iff in Hx. destruct Hx as [Hx|Hx]; [apply minus_In in Hx; apply IA; tauto | apply IB; exact Hx]. }
  pose proof (inter_minus_length A B). lia.
Qed.

Lemma minus_length A B : NoDup A -> length A <= length (minus A B) + length B.
Proof.
  intros HA. pose proof (inter_minus_length A B) as E.
  assert (length (inter A B) <= length B).
  { apply NoDup_incl_length; [apply NoDup_filter; exact HA|]. intros x Hx. apply inter_In in Hx. tauto. }
  lia.
Qed.

Lemma length_pos_In {T} (l : list T) : 0 < length l -> exists x, In x l.
Proof. destruct l as [|x l]; simpl; [lia|]. intros _. exists x. left. reflexivity. Qed.

Lemma inter_NoDup A B : NoDup A -> NoDup (inter A B).
Proof. apply NoDup_filter. Qed.
Lemma minus_NoDup A B : NoDup A -> NoDup (minus A B).
Proof. apply NoDup_filter. Qed.

Lemma minus_length_eq A B : NoDup A -> NoDup B -> incl B A -> length (minus A B) + length B = length A.
Proof.
  intros HA HB HI. pose proof (inter_minus_length A B) as E.
  assert (length (inter A B) <= length B).
  { apply NoDup_incl_length; [apply NoDup_filter; exact HA|]. intros x Hx. apply inter_In in Hx. tauto. }
  assert (length B <= length (inter A B)).
  { apply NoDup_incl_length; [exact HB|]. intros x Hx. apply inter_In. split; [apply HI|]; exact Hx. }
  lia.
Qed.
