(** C42: how the primary turns requests into proposals. *)
From Coq Require Import List Arith Bool Lia Sorted.
From Verif Require Import Batch_Model Batch_Proofs Batch_Proofs2 Batch_Proofs3 Batch_Proofs4.
Import ListNotations.

(** The size the primary has counted for its queue is the size of the requests in it. *)
Theorem C42_queue_size k l : combined (run k l) = total (queue (run k l)).
Proof. exact (proj1 (Base_run k l)). Qed.
Print Assumptions C42_queue_size.

(** Every proposal: in the view it was made in, which was active and this replica's; not empty; within the windows. *)
Theorem C42_proposals_good_partial k l : steady k l -> Forall (good k) (sent (run k l)).
Proof. intros H. apply (Good_run k l H). Qed.
Print Assumptions C42_proposals_good_partial.

(** Later proposals are in higher views, or have higher numbers in the same view: no number twice in a view. *)
Theorem C42_numbers_grow_partial k l : steady k l -> StronglySorted before (sent (run k l)).
Proof. intros H. apply (Good_run k l H). Qed.
Print Assumptions C42_numbers_grow_partial.

(** Without threads, requests are proposed in the order they were taken. *)
Theorem C42_fifo_partial k l v : k_async k = false -> sub (proposed v (run k l)) (takenIn v (run k l)).
Proof. intros H. apply (Fifo_run k l H). Qed.
Print Assumptions C42_fifo_partial.

(** No request is proposed twice in a view. *)
Theorem C42_once_partial k l v : steady k l -> recorded l -> NoDup (map key (proposed v (run k l))).
Proof. intros H K. apply (Once_run k l H K). Qed.
Print Assumptions C42_once_partial.

(** Without threads, every request that the primary of an active view holds as in process has been proposed in that view. *)
Theorem C42_pending_proposed_partial k l x : k_async k = false -> let s := run k l in active s = true -> view s mod k_n k = k_me k -> In x (pend s) -> exists r, key r = x /\ In r (proposed (view s) s).
Proof.
  intros H s A P Hx. destruct (Fifo_run k l H) as (_ & _ & _ & F). assert (P' : prim k s = true) by (unfold prim; apply Nat.eqb_eq; exact P). specialize (F A P' x Hx). apply in_map_iff in F as (r & F1 & F2). eauto.
Qed.
Print Assumptions C42_pending_proposed_partial.

(** What one attempt takes out of the queue: a part of it in the same order is in the message; any other request cannot be processed now (answered, in process, too many of its client), or the whole queue does not fit in one message
    and the request does not fit any more. *)
Theorem C42_taken_from_queue k l e : e = Flush \/ e = Poke -> let s := run k l in let s' := step k s e in exists pop b,
  queue s = pop ++ queue s' /\ sub b pop /\ (b = [] /\ sent s' = sent s /\ transit s' = transit s \/ started k s s' b) /\ NoDup (map key b) /\ (forall r, In r b -> ~ In (key r) (pend s) /\ ~ In (key r) (done s)) /\
  forall r, In r pop -> In r b \/ ~ admissible k s' r \/ exists r0, In r0 (queue s) /\ k_maxMsg k <= k_over k r0 + total (queue s) /\ k_maxMsg k < k_over k r0 + total b + r_sz r.
Proof.
  intros He s s'. assert (Hs : exists logic, s' = try k logic s) by (unfold s'; destruct He as [-> | ->]; cbn [step]; eauto). destruct Hs as (logic & ->).
  destruct (try_sends k logic s (proj1 (Base_run k l))) as (pop & b & H1 & H2 & _ & H4 & _ & [H6 H6'] & H7 & _ & H9). apply env_fields in H1. destruct H1 as (_ & _ & _ & _ & _ & E6 & _).
  exists pop, b. split; [exact H2|]. split; [exact H4|]. split; [|split; [exact H6|split; [exact H6'|]]].
  - unfold effect in H7. unfold started. destruct b as [|x b]; [left; tauto|right]. destruct (k_async k); [tauto|]. destruct H7 as (H7 & _). eexists. split; [exact H7|reflexivity].
  - intros r Hr. destruct (H9 r Hr) as [X|[X|X]]; auto. right. left. intros Y. apply can_iff in Y. rewrite E6 in Y. congruence.
Qed.
Print Assumptions C42_taken_from_queue.
Corollary C42_all_proposed k l e : e = Flush \/ e = Poke -> let s := run k l in let s' := step k s e in (forall r0, In r0 (queue s) -> k_over k r0 + total (queue s) < k_maxMsg k) ->
  exists pop b, queue s = pop ++ queue s' /\ sub b pop /\ (b = [] /\ sent s' = sent s /\ transit s' = transit s \/ started k s s' b) /\ forall r, In r pop -> In r b \/ ~ admissible k s' r.
Proof.
  intros He s s' Hf. destruct (C42_taken_from_queue k l e He) as (pop & b & H1 & H2 & H3 & _ & _ & H4). exists pop, b. split; auto. split; auto. split; auto.
  intros r Hr. destruct (H4 r Hr) as [X|[X|(r0 & X1 & X2 & _)]]; auto. specialize (Hf r0 X1). fold s in X2. lia.
Qed.
Print Assumptions C42_all_proposed.

(** When the primary may send, the timer empties its queue, and the first request, if it can be processed and fits in an empty message, starts the next one. *)
Theorem C42_flush_empties k l : maySend k (run k l) -> queue (step k (run k l) Flush) = [].
Proof. intros H. apply flush_empties, ready_iff, H. Qed.
Print Assumptions C42_flush_empties.
Theorem C42_flush_first k l r q : let s := run k l in maySend k s -> queue s = r :: q -> admissible k s r -> k_over k r + r_sz r <= k_maxMsg k -> exists b, started k s (step k s Flush) (r :: b).
Proof. intros s H Q A Hs. apply (flush_head k s r q); auto; [apply Base_run|apply ready_iff, H|apply can_iff, A]. Qed.
Print Assumptions C42_flush_first.
(** With the self-adjusted policy a primary with nothing in process sends at once. *)
Theorem C42_idle_sends_at_once k l : let s := run k l in k_policy k = SelfAdjusted -> maySend k s -> last s = exec s -> queue (step k s Poke) = [].
Proof. intros s P H E. apply self_empties; auto. apply ready_iff, H. Qed.
Print Assumptions C42_idle_sends_at_once.

(** The batches of the policies by number and by size. *)
Theorem C42_batch_number k l n b : let s := run k l in k_policy k = ByNum n \/ (k_policy k = Adaptive /\ maxNum s = n) -> started k s (step k s Poke) b -> length b <= n.
Proof. intros s P H. exact (try_byNum k n s b H P). Qed.
Print Assumptions C42_batch_number.
Theorem C42_batch_size k l n b x : let s := run k l in k_policy k = BySize n -> started k s (step k s Poke) (b ++ [x]) -> total b < n.
Proof. intros s P H. exact (try_bySize k n s b x H P). Qed.
Print Assumptions C42_batch_size.

(** * What does not hold. *)
Definition config (a : bool) (p : policy) (m : nat) : cfg := mkCfg a 4 0 10 5 10 3 m p 1 2 (fun _ => true) (fun _ => 100).
(** With threads: a message that is finished during a state transfer or pruning is dropped, and its requests stay in process: the primary ignores them until it leaves the view. *)
Theorem C42_pending_not_lost_refuted : exists k l r, k_async k = true /\ (let s := run k l in active s = true /\ view s mod k_n k = k_me k /\ collecting s = false /\ pruning s = false /\ transit s = [] /\ queue s = []) /\
  ~ In (key r) (done (run k l)) /\ In r (takenIn 0 (run k l)) /\ forall l', (forall e, In e l' -> In e [Request r; Flush; Poke; Collect false; Prune false]) -> sent (fold_left (step k) l' (run k l)) = [].
Proof.
  exists (config true SelfAdjusted 1000), [Request (mkRq 7 1 50); Collect true; Finalised 0; Collect false], (mkRq 7 1 50). split; [reflexivity|]. split; [vm_compute; auto 10|]. split; [vm_compute; auto|]. split; [vm_compute; auto|].
  set (s := run _ _). assert (F : forall e, In e [Request (mkRq 7 1 50); Flush; Poke; Collect false; Prune false] -> step (config true SelfAdjusted 1000) s e = s).
  { intros e He. cbn [In] in He. destruct He as [<-|[<-|[<-|[<-|[<-|[]]]]]]; vm_compute; reflexivity. }
  induction l' as [|e l' IH]; intros H; [reflexivity|]. cbn [fold_left]. rewrite F by (apply H; left; reflexivity). apply IH. intros x Hx. apply H. right. exact Hx.
Qed.
Print Assumptions C42_pending_not_lost_refuted.
(** With threads: the batches are proposed in the order they are finished. *)
Theorem C42_fifo_refuted : exists k l v, steady k l /\ ~ sub (proposed v (run k l)) (takenIn v (run k l)).
Proof.
  exists (config true SelfAdjusted 1000), [Request (mkRq 7 1 50); Request (mkRq 8 1 50); Finalised 1; Finalised 0], 0. split.
  - intros _ v H. cbn in H. intuition discriminate.
  - set (a := proposed _ _). set (b := takenIn _ _). assert (Ea : a = [mkRq 8 1 50; mkRq 7 1 50]) by reflexivity. assert (Eb : b = [mkRq 7 1 50; mkRq 8 1 50]) by reflexivity. rewrite Ea, Eb.
    clear. intros H. repeat match goal with X : sub _ _ |- _ => inversion X; clear X; subst end.
Qed.
Print Assumptions C42_fifo_refuted.
(** With threads: a message from an earlier view is sent in a later one, with a number of that one, even before the new view is active. *)
Theorem C42_proposals_good_refuted : exists k l p, In p (sent (run k l)) /\ p_msg p < p_view p /\ p_active p = false.
Proof.
  exists (config true SelfAdjusted 1000), [Request (mkRq 7 1 50); Leave 4; Finalised 0], (mkPr 0 4 false 1 [mkRq 7 1 50] 0 0). split; [vm_compute; left; reflexivity|]. split; [apply Nat.lt_0_succ|reflexivity].
Qed.
Print Assumptions C42_proposals_good_refuted.
(** A request that fits in an empty message is dropped, not kept for the next one, when the message is full; it is neither proposed nor in process nor in the queue. *)
Theorem C42_space_refuted : exists k l r, k_async k = false /\ k_over k r + r_sz r <= k_maxMsg k /\ let s := run k l in let s' := step k s Flush in
  In r (queue s) /\ queue s' = [] /\ ~ In (key r) (pend s') /\ ~ In (key r) (done s') /\ (exists p, sent s' = sent s ++ [p] /\ p_reqs p <> []) /\ ~ In r (proposed 0 s').
Proof.
  set (k := config false (ByNum 5) 300). set (l := [Request (mkRq 7 1 150); Request (mkRq 8 1 150)]). exists k, l, (mkRq 8 1 150). split; [reflexivity|]. split; [cbn; lia|].
  assert (E11 : queue (run k l) = [mkRq 7 1 150; mkRq 8 1 150]) by (vm_compute; reflexivity). assert (E12 : sent (run k l) = []) by (vm_compute; reflexivity).
  assert (E21 : queue (step k (run k l) Flush) = []) by (vm_compute; reflexivity). assert (E22 : pend (step k (run k l) Flush) = [(7, 1)]) by (vm_compute; reflexivity).
  assert (E23 : done (step k (run k l) Flush) = []) by (vm_compute; reflexivity). assert (E24 : sent (step k (run k l) Flush) = [mkPr 0 0 true 1 [mkRq 7 1 150] 0 0]) by (vm_compute; reflexivity).
  cbv zeta. rewrite E11, E12, E21, E22, E23. unfold proposed. rewrite E24.
  split; [right; left; reflexivity|]. split; [reflexivity|]. split; [intros [H|[]]; discriminate|]. split; [intros []|]. split; [eexists; split; [reflexivity|discriminate]|]. cbn [filter p_view Nat.eqb flat_map p_reqs app]. intros [H|[]]; discriminate.
Qed.
Print Assumptions C42_space_refuted.
(** The timer's message may have more requests than the policy's number: when the attempts in between could not send. *)
Theorem C42_flush_number_refuted : exists k l p, k_policy k = ByNum 1 /\ sent (step k (run k l) Flush) = sent (run k l) ++ [p] /\ 1 < length (p_reqs p).
Proof.
  exists (mkCfg false 4 0 10 1 10 3 1000 (ByNum 1) 1 2 (fun _ => true) (fun _ => 100)), [Request (mkRq 7 1 50); Request (mkRq 8 1 50); Request (mkRq 9 1 50); Progress 1 0 0], (mkPr 0 0 true 2 [mkRq 8 1 50; mkRq 9 1 50] 0 1). split; [reflexivity|]. split; [vm_compute; reflexivity|]. cbn. lia.
Qed.
Print Assumptions C42_flush_number_refuted.

(** * The hypotheses are met. *)
Definition ex_run : list event := [Request (mkRq 7 1 50); Request (mkRq 8 1 60); Request (mkRq 8 1 60); Finish (7, 1) true; Progress 1 0 0; Poke; Request (mkRq 7 2 40); Flush].
Example C42_ex_sent : map (fun p => (p_seq p, map key (p_reqs p))) (sent (run (config false SelfAdjusted 1000) ex_run)) = [(1, [(7, 1)]); (2, [(8, 1)]); (3, [(7, 2)])].
Proof. reflexivity. Qed.
Example C42_ex_steady : steady (config true SelfAdjusted 1000) ex_run /\ recorded ex_run.
Proof. split; [intros _ v H; cbn in H; intuition discriminate|]. intros e H. cbn in H. repeat destruct H as [<-|H]; auto. destruct H. Qed.
Definition ex_wait : list event := [Request (mkRq 7 1 50); Request (mkRq 8 1 60); Request (mkRq 9 1 60)].
Example C42_ex_maySend : let k := config false (ByNum 5) 1000 in let s := run k ex_wait in maySend k s /\ admissible k s (mkRq 7 1 50) /\ (forall r0, In r0 (queue s) -> k_over k r0 + total (queue s) < k_maxMsg k) /\
  exists p, sent (step k s Flush) = [p] /\ length (p_reqs p) = 3.
Proof.
  intros k s. assert (E1 : queue s = [mkRq 7 1 50; mkRq 8 1 60; mkRq 9 1 60]) by (vm_compute; reflexivity).
  assert (E2 : (view s, active s, collecting s, pruning s, wedged s, stopAt s, last s, transit s) = (0, true, false, false, false, None, 0, [])) by (vm_compute; reflexivity).
  assert (E3 : (stable s, exec s, execs s, pend s, done s) = (0, 0, 0, [], [])) by (vm_compute; reflexivity).
  assert (E4 : exists p, sent (step k s Flush) = [p] /\ length (p_reqs p) = 3) by (exists (mkPr 0 0 true 1 [mkRq 7 1 50; mkRq 8 1 60; mkRq 9 1 60] 0 0); split; [vm_compute; reflexivity|reflexivity]).
  clearbody s. repeat match type of E2 with (_, _) = _ => let E := fresh "F" in apply pair_equal_spec in E2 as [E2 E] end. repeat match type of E3 with (_, _) = _ => let E := fresh "F" in apply pair_equal_spec in E3 as [E3 E] end.
  unfold maySend, admissible. rewrite E1, E2, E3, F, F0, F1, F2, F3, F4, F5, F6, F7, F8, F9. split; [cbn; repeat split; auto; try lia; discriminate|]. split; [cbn; repeat split; auto; discriminate|]. split; [|exact E4].
  intros r0 _. unfold total, k, config. cbn [k_over k_maxMsg map list_sum fold_right r_sz]. lia.
Qed.
Example C42_ex_new_view : let k := config false SelfAdjusted 1000 in let l := [Request (mkRq 7 1 50); Leave 4; Enter 1; Progress 1 0 0; Request (mkRq 7 1 50); Progress 2 0 0; Request (mkRq 7 2 50)] in
  map (fun p => (p_view p, p_seq p)) (sent (run k l)) = [(0, 1); (4, 2); (4, 3)] /\ recorded l /\ pend (run k l) = [(7, 2); (7, 1)].
Proof. cbv zeta. split; [vm_compute; reflexivity|]. split; [|vm_compute; reflexivity]. intros e H. cbn in H. repeat destruct H as [<-|H]; auto. destruct H. Qed.
Example C42_ex_by_number : let k := mkCfg false 4 0 10 1 10 3 1000 (ByNum 2) 1 2 (fun _ => true) (fun _ => 100) in
  let s := run k [Request (mkRq 7 1 50); Request (mkRq 8 1 50); Request (mkRq 9 1 50); Request (mkRq 9 2 50); Request (mkRq 9 3 50); Progress 1 0 0] in started k s (step k s Poke) [mkRq 9 1 50; mkRq 9 2 50].
Proof. cbv zeta. unfold started. cbn [k_async]. exists (mkPr 0 0 true 2 [mkRq 9 1 50; mkRq 9 2 50] 0 1). split; [vm_compute; reflexivity|reflexivity]. Qed.
Example C42_ex_by_size : let k := mkCfg false 4 0 10 1 10 3 1000 (BySize 80) 1 2 (fun _ => true) (fun _ => 100) in
  let s := run k [Request (mkRq 7 1 90); Request (mkRq 8 1 50); Request (mkRq 9 1 50); Request (mkRq 9 2 50); Progress 1 0 0] in started k s (step k s Poke) ([mkRq 8 1 50] ++ [mkRq 9 1 50]).
Proof. cbv zeta. unfold started. cbn [k_async]. exists (mkPr 0 0 true 2 [mkRq 8 1 50; mkRq 9 1 50] 0 1). split; [vm_compute; reflexivity|reflexivity]. Qed.
