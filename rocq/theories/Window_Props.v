(** C07: the active window. *)
From Coq Require Import List Arith Lia Bool.
From Verif Require Import Window_Model Window_Proofs.
Import ListNotations.

(** C07. For every template instance, item type, starting number and every sequence of operations, the ring buffer answers exactly
    as the map specification does, including which operations abort; it never accesses its array out of bounds. *)
Theorem C07_window_is_a_map : forall (A : Type) (blank : A) (p : wparams) (first : nat) (ops : list (wop A)),
  validParams p -> wexec blank p first ops = sexec blank p first ops.
Proof. intros. apply exec_eq. auto. Qed.
Print Assumptions C07_window_is_a_map.

(** Reading the specification: what was written is read back while its number stays in the window. *)
Theorem C07_read_back : forall (A : Type) (blank : A) (p : wparams) (s : wspec A) n f s1 b' s2,
  sstep blank p s (Put n f) = Some (s1, OUnit) -> sstep blank p s1 (Advance b') = Some (s2, OUnit) ->
  b' <= n -> sstep blank p s2 (Get n) = Some (s2, OItem (f (sm s n))).
Proof.
  intros A blank p s n f s1 b' s2 H1 H2 H3. simpl in *.
  destruct (multiple p n) eqn:M; [|discriminate]. unfold sActive in *. simpl in H1.
  destruct (Nat.leb_spec (sb s) n); [|discriminate]. destruct (Nat.ltb_spec n (sb s + pW p)); [|discriminate].
  simpl in H1. inversion H1; subst; clear H1. simpl in H2.
  destruct (multiple p b' && (sb s <=? b')) eqn:E; [|discriminate]. inversion H2; subst; clear H2.
  apply andb_true_iff in E. destruct E as [_ E]. apply Nat.leb_le in E. unfold sAdvance. simpl.
  destruct (Nat.ltb_spec (pW p) (b' - sb s)); [lia|]. simpl.
  destruct (Nat.leb_spec b' n); [|lia]. destruct (Nat.ltb_spec n (b' + pW p)); [|lia]. simpl.
  destruct (Nat.ltb_spec n (sb s + pW p)); [|lia]. unfold setm. rewrite Nat.eqb_refl. auto.
Qed.
Print Assumptions C07_read_back.
(** A number that enters the window has a blank item. *)
Theorem C07_new_items_blank : forall (A : Type) (blank : A) (p : wparams) (s : wspec A) b' s' n,
  sstep blank p s (Advance b') = Some (s', OUnit) -> sActive p s n = false -> sActive p s' n = true -> multiple p n = true ->
  sstep blank p s' (Get n) = Some (s', OItem blank).
Proof.
  intros A blank p s b' s' n H Ho Hi M. simpl in *. destruct (multiple p b' && (sb s <=? b')) eqn:E; [|discriminate].
  inversion H; subst; clear H. rewrite M, Hi. simpl. apply andb_true_iff in E. destruct E as [_ E]. apply Nat.leb_le in E.
  unfold sAdvance in *. destruct (Nat.ltb_spec (pW p) (b' - sb s)); simpl; auto. unfold sActive in *. simpl in *.
  destruct (Nat.ltb_spec n (sb s + pW p)); auto. destruct (Nat.leb_spec (sb s) n); simpl in Ho; [discriminate|].
  apply andb_true_iff in Hi. destruct Hi as [Hi _]. apply Nat.leb_le in Hi. lia.
Qed.
Print Assumptions C07_new_items_blank.

(** The instances of ReplicaImp.hpp:168-176 (window 300 with history 1; checkpoints 600 by 150). *)
Example C07_instances : validParams (mkP 300 1 1) /\ validParams (mkP 600 150 0).
Proof. split; unfold validParams, totalItems, maxInactive, numActive; simpl; lia. Qed.
Example C07_run : wexec 0 (mkP 8 2 1) 4 [Put 6 (fun _ => 7); Advance 6; Get 6; Put 12 (fun _ => 9); Advance 14; GetAny 6; GetHistory 12; Get 14; InHistory 4; Range]
  = Some [OUnit; OUnit; OItem 7; OUnit; OUnit; OItem 7; OItem 9; OItem 0; OBool false; ORange (14, 21)].
Proof. reflexivity. Qed.
