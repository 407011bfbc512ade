(** C45: timers go off when they are due, and not otherwise. *)
From Coq Require Import List Arith Bool Sorted Lia.
From Verif Require Import Timers_Model Timers_Proofs.
Import ListNotations.

(** No callback that only resets timers does harm. *)
Theorem C45_no_harm l : Forall onlyResets l -> bad (run l) = false.
Proof. apply safe_run. reflexivity. Qed.
Print Assumptions C45_no_harm.
(** Every handle is new. *)
Theorem C45_handles_new l d r t : bad (run l) = false -> let h := ctr (step (run l) (Op (Add d r t))) in In (mkT h d (t + d) r) (tms (step (run l) (Op (Add d r t)))) /\ ~ In h (map t_id (tms (run l))) /\ NoDup (map t_id (tms (run l))) /\ firedOf h (run l) = [].
Proof.
  intros B. cbn [step]. unfold apply. rewrite B. cbn. destruct (inv_run l start inv_start) as [S F]. fold (run l) in S, F. split; [apply in_or_app; right; left; reflexivity|].
  assert (N : ~ In (Datatypes.S (ctr (run l))) (ids (run l))) by (rewrite Forall_forall in F; intros H; apply F in H; lia). split; [exact N|]. split; [apply ss_nodup, S|].
  apply (fired_le l start (Datatypes.S (ctr (run l)))); [|exact inv_start|unfold start; intros i n []]. auto.
Qed.
Print Assumptions C45_handles_new.
(** A new timer goes off exactly when it is due: at the first time the timers are looked at after its duration, and, if it recurs, at the first time after its duration since it went off last. *)
Theorem C45_schedule l d r t l' : bad (run l) = false -> let s := step (run l) (Op (Add d r t)) in let h := ctr s in Forall (untouched h) l' -> bad (runFrom s l') = false -> firedOf h (runFrom s l') = expected r d (t + d) (evals l').
Proof.
  intros B s h F B'. destruct (C45_handles_new l d r t B) as (I & N & _ & Z). assert (Is : Inv s) by apply (inv_run [Op (Add d r t)] (run l) (inv_run l start inv_start)).
  pose proof (schedule l' s _ Is I F B') as E. cbn [t_id t_rec t_dur t_exp] in E. fold s in E. fold h in E. rewrite E. assert (Q : firedOf h s = firedOf h (run l)) by (apply firedOf_eq; subst s; cbn [step]; unfold apply; rewrite B; reflexivity). fold s h in Z. rewrite Q, Z. reflexivity.
Qed.
Print Assumptions C45_schedule.
(** A reset timer starts anew, with the new duration. *)
Theorem C45_reset l i x d t l' : bad (run l) = false -> In x (tms (run l)) -> t_id x = i -> let s := step (run l) (Op (Reset i d t)) in Forall (untouched i) l' -> bad (runFrom s l') = false ->
  firedOf i (runFrom s l') = firedOf i (run l) ++ expected (t_rec x) d (t + d) (evals l').
Proof.
  intros B X E s F B'. assert (Is : Inv s) by apply (inv_run [Op (Reset i d t)] (run l) (inv_run l start inv_start)). assert (X' : In (mkT i d (t + d) (t_rec x)) (tms s)).
  { subst s. cbn [step]. unfold apply. rewrite B. cbn. apply in_map_iff. exists x. rewrite E, Nat.eqb_refl. auto. }
  pose proof (schedule l' s _ Is X' F B') as Q. cbn [t_id t_rec t_dur t_exp] in Q. rewrite Q. f_equal. apply firedOf_eq. subst s. cbn [step]. unfold apply. rewrite B. reflexivity.
Qed.
Print Assumptions C45_reset.
(** A cancelled timer never goes off again, whatever callbacks do. *)
Theorem C45_cancelled l i l' : bad (run l) = false -> In i (map t_id (tms (run l))) -> firedOf i (run (l ++ [Op (Cancel i)] ++ l')) = firedOf i (run l).
Proof.
  intros B X. unfold run in *. unfold runFrom at 1. rewrite !fold_left_app. cbn [fold_left step]. pose proof (inv_run l start inv_start) as [_ F]. fold (runFrom start l). fold (runFrom (apply false (runFrom start l) (Cancel i)) l').
  assert (G : gone i (apply false (runFrom start l) (Cancel i)) /\ fired (apply false (runFrom start l) (Cancel i)) = fired (runFrom start l)).
  { unfold apply. rewrite B. unfold gone, ids. cbn. split; auto. rewrite map_filter. split; [intros H; apply filter_In in H as [_ H]; rewrite Nat.eqb_refl in H; discriminate|]. rewrite Forall_forall in F. apply F, X. }
  destruct G as [G1 G2]. rewrite (proj1 (gone_run i l' _ G1)). apply firedOf_eq, G2.
Qed.
Print Assumptions C45_cancelled.
(** In one evaluation timers go off in the order in which they were added, each at most once. *)
Theorem C45_order l now cb : noCancel cb -> exists f, fired (step (run l) (Eval now cb)) = fired (run l) ++ f /\ StronglySorted lt (map fst f) /\ forall e, In e f -> snd e = now.
Proof. intros N. destruct (order_loop now cb (length (tms (run l))) N 0 [] (run l) (inv_run l start inv_start) ltac:(lia)) as (f & A & B & C). exists f. split; [exact A|]. split; [exact B|]. intros e He. apply C, He. Qed.
Print Assumptions C45_order.

(** * What does not hold. *)
Definition none : nat -> list op := fun _ => [].
Definition only (i : nat) (l : list op) : nat -> list op := fun j => if j =? i then l else [].
(** A callback that adds a timer makes the vector move while it is iterated. This is what the callback of the state transfer timer does if state transfer does not run in a thread of its own (BCStateTran.cpp:3088-3102, ReplicaForStateTransfer.cpp:65-66 and 162-166). *)
Theorem C45_add_in_callback_refuted : exists l, (forall n cb, In (Eval n cb) l -> forall j o, In o (cb j) -> exists d t, o = Add d false t) /\ bad (run l) = true.
Proof. exists [Op (Add 5 true 0); Eval 9 (only 1 [Add 0 false 9])]. split; [|vm_compute; reflexivity]. intros n cb [H|[H|[]]] j o Ho; [discriminate|]. injection H as <- <-. unfold only in Ho. destruct (j =? 1); [destruct Ho as [<-|[]]; eauto|destruct Ho]. Qed.
Print Assumptions C45_add_in_callback_refuted.
(** A callback that cancels its own timer makes the evaluation pass over the next timer, starts the wrong timer again, and runs beyond the end. *)
Theorem C45_cancel_in_callback_refuted : exists l l', l' = [Eval 9 (only 1 [Cancel 1])] /\ map t_id (tms (run l)) = [1; 2; 3] /\ (forall x, In x (tms (run l)) -> t_exp x <= 9) /\ firedOf 2 (runFrom (run l) l') = [] /\ bad (runFrom (run l) l') = true.
Proof. exists [Op (Add 5 true 0); Op (Add 5 true 0); Op (Add 5 true 0)], [Eval 9 (only 1 [Cancel 1])]. split; [reflexivity|]. split; [vm_compute; reflexivity|]. split; [|split; vm_compute; reflexivity]. intros x H. cbn in H. repeat destruct H as [<-|H]; try destruct H; cbn; lia. Qed.
Print Assumptions C45_cancel_in_callback_refuted.
(** A one-shot timer that its callback arms again does not go off again. *)
Theorem C45_rearm_refuted : exists l l', l' = [Op (Add 5 false 0); Eval 5 (only 1 [Reset 1 5 5])] /\ forall n, firedOf 1 (runFrom (run l') (map (fun t => Eval t none) (l ++ n))) = [5].
Proof.
  exists [], [Op (Add 5 false 0); Eval 5 (only 1 [Reset 1 5 5])]. split; [reflexivity|]. intros n. cbn [app]. destruct (gone_run 1 (map (fun t => Eval t none) n) (run [Op (Add 5 false 0); Eval 5 (only 1 [Reset 1 5 5])])) as [A _]; [split; [vm_compute; tauto|vm_compute; lia]|]. rewrite A. vm_compute. reflexivity.
Qed.
Print Assumptions C45_rearm_refuted.
(** A recurring timer does not go off n times in n durations: the next time is counted from when it was looked at. *)
Theorem C45_no_drift_refuted : exists l, evals l = [14; 20; 28; 34; 42] /\ firedOf 1 (run (Op (Add 10 true 0) :: l)) = [14; 28; 42].
Proof. exists (map (fun t => Eval t none) [14; 20; 28; 34; 42]). split; vm_compute; reflexivity. Qed.
Print Assumptions C45_no_drift_refuted.

(** * The hypotheses are met. *)
Example schedule_ex : let l := [Op (Add 7 true 0); Op (Add 3 false 0); Eval 5 none] in let l' := [Eval 8 (only 1 [Reset 1 100 8]); Op (Cancel 1); Eval 16 none; Op (Add 1 true 16); Eval 21 none; Eval 40 (only 4 [Reset 4 50 40])] in
  bad (run l) = false /\ Forall (untouched 3) l' /\ ctr (step (run l) (Op (Add 10 true 6))) = 3 /\ bad (runFrom (step (run l) (Op (Add 10 true 6))) l') = false /\ firedOf 3 (runFrom (step (run l) (Op (Add 10 true 6))) l') = [16; 40] /\ fired (runFrom (step (run l) (Op (Add 10 true 6))) l') = [(2, 5); (1, 8); (3, 16); (4, 21); (3, 40); (4, 40)].
Proof.
  split; [vm_compute; reflexivity|]. split; [|repeat split; vm_compute; reflexivity].
  assert (U : forall n cb, (forall j o, In o (cb j) -> isCancel o = false /\ target o <> Some 3) -> untouched 3 (Eval n cb)) by (intros n cb H; split; intros j o Ho; apply (H j o Ho)).
  assert (O : forall a o, isCancel o = false -> target o <> Some 3 -> forall j o', In o' (only a [o] j) -> isCancel o' = false /\ target o' <> Some 3) by (intros a o A B j o' H; unfold only in H; destruct (j =? a); [destruct H as [<-|[]]; auto|destruct H]).
  apply Forall_forall. intros e He. cbn [In] in He. repeat destruct He as [<-|He]; try destruct He; try (apply U; (apply O; [reflexivity|discriminate]) || intros j o []); cbn; discriminate.
Qed.
Example reset_ex : firedOf 1 (run [Op (Add 10 true 0); Eval 9 none; Op (Reset 1 10 9); Eval 18 none; Eval 19 none; Eval 28 none; Eval 29 none]) = [19; 29].
Proof. vm_compute. reflexivity. Qed.
Example cancelled_ex : In 1 (map t_id (tms (run [Op (Add 5 true 0); Eval 6 none]))) /\ firedOf 1 (run ([Op (Add 5 true 0); Eval 6 none] ++ [Op (Cancel 1)] ++ [Eval 60 none])) = [6].
Proof. split; vm_compute; auto. Qed.
