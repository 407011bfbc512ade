(** C44: the messages that are accepted are handled once, in order. *)
From Coq Require Import List Arith Bool Lia.
From Verif Require Import Inq_Model Inq_Proofs.
Import ListNotations.

(** The external messages that were accepted are taken in the order of acceptance, none is lost and none is taken twice; those not yet taken are at most twice the size of the queue. *)
Theorem C44_external_fifo k l : exists w, accepted k start l = tookE (run k l) ++ w /\ length w <= 2 * k_cap k.
Proof. exists (le (run k l) ++ pe (run k l)). split; [symmetry; apply (all_ext k l start)|]. destruct (bounds k l start) as [A B]; [cbn; lia..|]. rewrite app_length. unfold run. lia. Qed.
Print Assumptions C44_external_fifo.
(** The same for internal messages, which are all accepted. *)
Theorem C44_internal_fifo k l : exists w, internals l = tookI (run k l) ++ w.
Proof. exists (li (run k l) ++ pi (run k l)). symmetry. apply (all_int k l start). Qed.
Print Assumptions C44_internal_fifo.
(** A message is refused only when as many as the queue holds have been accepted and not taken; a refused message leaves no trace. *)
Theorem C44_refused_full k l m : fst (pushE k m (run k l)) = false -> length (tookE (run k l)) + k_cap k <= length (accepted k start l) /\
  let s := run k l in let s' := snd (pushE k m s) in pe s' = pe s /\ pi s' = pi s /\ le s' = le s /\ li s' = li s /\ out s' = out s.
Proof.
  intros H. pose proof (all_ext k l start) as A. cbn [tookE out start flat_map le pe app] in A. fold (run k l) in A. change (accepted k {| pe := []; pi := []; le := []; li := []; dropped := 0; stopped := false; out := []; ran := []; popped := [] |} l) with (accepted k start l) in A.
  unfold pushE in *. destruct (k_cap k <=? length (pe (run k l))) eqn:E; [|discriminate]. apply Nat.leb_le in E. cbn. split; [|auto 10]. unfold start in *. cbn in A. rewrite <- A, !app_length. lia.
Qed.
Print Assumptions C44_refused_full.
(** An external message accepted after an internal one was pushed is not taken before it. *)
Theorem C44_internal_first k l1 l2 : length (accepted k start l1) < length (tookE (run k (l1 ++ l2))) -> length (internals l1) <= length (tookI (run k (l1 ++ l2))).
Proof.
  unfold run. rewrite runFrom_app. pose proof (f_equal (@length nat) (all_ext k l1 start)) as A. pose proof (f_equal (@length nat) (all_int k l1 start)) as B. rewrite !app_length in A, B. cbn in A, B.
  apply first; lia.
Qed.
Print Assumptions C44_internal_first.
(** Every accepted message is taken: whatever is pushed after, as soon as the thread has gone on for more turns than messages waited, and then for as many turns as waited or came in between. *)
Theorem C44_served k l l1 l2 : noStop (l ++ l1 ++ l2) -> waiting (run k l) < turns l1 -> waiting (run k l) + (pushes l1 + length (internals l1)) <= turns l2 ->
  exists a b, tookE (run k (l ++ l1 ++ l2)) = accepted k start l ++ a /\ tookI (run k (l ++ l1 ++ l2)) = internals l ++ b.
Proof.
  intros N T1 T2. unfold waiting in *. assert (N1 : noStop (l1 ++ l2)) by (intros H; apply N, in_or_app; auto).
  assert (St : stopped (run k l) = false).
  { assert (X : forall a s, noStop a -> stopped (runFrom k s a) = stopped s).
    { induction a as [|e a IH]; intros s Na; [reflexivity|]. change (runFrom k s (e :: a)) with (runFrom k (step k s e) a). rewrite IH; [|intros H; apply Na; right; exact H]. apply stopped_step. intros ->. apply Na. left. reflexivity. }
    unfold run. rewrite X; [reflexivity|]. intros H. apply N, in_or_app. auto. }
  destruct (served k l1 (run k l) l2 St N1 ltac:(lia) ltac:(lia)) as [A B].
  assert (Pre : forall (x y u v : list nat), x ++ u = y ++ v -> length y <= length x -> exists a, x = y ++ a).
  { clear. induction x as [|c x IH]; intros [|d y] u v H L; cbn in *; try lia; [exists []; reflexivity|eexists; reflexivity|]. injection H as -> H. destruct (IH y u v H ltac:(lia)) as (a & ->). exists a. reflexivity. }
  pose proof (all_ext k l start) as E. pose proof (all_int k l start) as I. fold (run k l) in E, I. pose proof (all_ext k (l1 ++ l2) (run k l)) as E2. pose proof (all_int k (l1 ++ l2) (run k l)) as I2. unfold run in *. rewrite <- runFrom_app in *.
  change (tookE start ++ le start ++ pe start) with (@nil nat) in E. change (tookI start ++ li start ++ pi start) with (@nil nat) in I. cbn [app] in E, I. rewrite E in E2. rewrite I in I2.
  destruct (Pre _ _ _ _ E2) as (a & Ha); [rewrite <- E, !app_length; lia|]. destruct (Pre _ _ _ _ I2) as (b & Hb); [rewrite <- I, !app_length; lia|]. eauto.
Qed.
Print Assumptions C44_served.
(** What was taken is given to its handler, in order, if its type has one; the callback of each external message that was taken ran, once. *)
Theorem C44_handled k l : ran (run k l) = filter (known k) (taken (run k l)) /\ popped (run k l) = tookE (run k l).
Proof. apply handled; reflexivity. Qed.
Print Assumptions C44_handled.
(** A message of the network has at least a header and is not longer than allowed. *)
Theorem C44_lengths k l m : In m (accepted k start l) -> In (PushE m) l \/ In (Net m) l /\ k_hdr k <= k_len k m <= k_maxLen k.
Proof.
  generalize start. induction l as [|e l IH]; intros s H; [destruct H|]. cbn [accepted] in H. apply in_app_or in H as [H|H]; [|destruct (IH _ H) as [?|[? ?]]; [left; right; auto|right; split; [right|]; auto]].
  destruct e; cbn [accepts] in H; try destruct H.
  - destruct (fst _); [|destruct H]. destruct H as [->|[]]. left. left. reflexivity.
  - unfold receive in H. destruct (k_maxLen k <? k_len k m0) eqn:A; [destruct H|]. destruct (k_len k m0 <? k_hdr k) eqn:B; [destruct H|]. apply Nat.ltb_ge in A, B. destruct (fst _); [|destruct H]. destruct H as [->|[]]. right. split; [left; reflexivity|lia].
Qed.
Print Assumptions C44_lengths.

(** * What does not hold. *)
Definition kk : cfg := mkCfg (fun m => m) (fun m => 10) 100 5 (fun t => t <? 50) 3.
(** Messages are not handled in the order of arrival: an internal one overtakes the external ones before it; and one that comes later waits for all external messages taken together with it. *)
Theorem C44_arrival_order_refuted : taken (run kk [Net 1; PushI 2; Turn; Turn]) = [Int 2; Ext 1] /\ taken (run kk [Net 1; Net 2; Net 3; Turn; PushI 4; Turn; Turn; Turn]) = [Ext 1; Ext 2; Ext 3; Int 4].
Proof. split; vm_compute; reflexivity. Qed.
Print Assumptions C44_arrival_order_refuted.
(** The messages accepted before a stop need not be handled. *)
Theorem C44_handled_before_stop_refuted : exists l, accepted kk start l = [1; 2] /\ forall l', tookE (run kk (l ++ l')) = [1].
Proof.
  exists [Net 1; Net 2; Turn; Stop]. split; [vm_compute; reflexivity|]. intros l'. unfold run. rewrite runFrom_app. assert (S : stopped (runFrom kk start [Net 1; Net 2; Turn; Stop]) = true) by (vm_compute; reflexivity). assert (T : tookE (runFrom kk start [Net 1; Net 2; Turn; Stop]) = [1]) by (vm_compute; reflexivity).
  revert S T. generalize (runFrom kk start [Net 1; Net 2; Turn; Stop]). induction l' as [|e l' IH]; intros s S T; [exact T|]. change (runFrom kk s (e :: l')) with (runFrom kk (step kk s e) l').
  assert (D : e = Stop \/ e <> Stop) by (destruct e; (left; reflexivity) || (right; congruence)). apply IH; [destruct D as [->|D]; [reflexivity|rewrite stopped_step; auto]|].
  destruct e; try (match goal with |- context [step kk s ?e] => destruct (pushed kk s e ltac:(congruence)) as (_ & _ & _ & _ & E & _) end; rewrite E; exact T). cbn [step]. unfold dispatch. rewrite S. exact T.
Qed.
Print Assumptions C44_handled_before_stop_refuted.

(** * The hypotheses are met. *)
Example refused_ex : fst (pushE kk 9 (run kk [Net 1; Net 2; Net 3; Turn; Net 4; Net 5; Net 6])) = false /\ fst (pushE kk 9 (run kk [Net 1; Net 2; Net 3; Turn; Net 4; Net 5])) = true.
Proof. split; vm_compute; reflexivity. Qed.
Example first_ex : let l1 := [Net 1; PushI 2] in let l2 := [Net 3; Turn; Turn; Turn] in length (accepted kk start l1) < length (tookE (run kk (l1 ++ l2))).
Proof. vm_compute. lia. Qed.
Example served_ex : let l := [Net 1; PushI 2; Net 60; Turn; PushI 3; Net 4] in let l1 := [Turn; Net 5; Turn; PushI 6; Turn; Turn; Turn; Turn] in let l2 := repeat Turn 8 in noStop (l ++ l1 ++ l2) /\ waiting (run kk l) < turns l1 /\ waiting (run kk l) + (pushes l1 + length (internals l1)) <= turns l2 /\
  taken (run kk (l ++ l1 ++ l2)) = [Int 2; Ext 1; Ext 60; Int 3; Int 6; Ext 4; Ext 5] /\ ran (run kk (l ++ l1 ++ l2)) = [Int 2; Ext 1; Int 3; Int 6; Ext 4; Ext 5].
Proof. split; [intros H; cbn in H; intuition discriminate|]. split; [vm_compute; lia|]. split; [vm_compute; lia|]. split; vm_compute; reflexivity. Qed.
