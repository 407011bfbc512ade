(** C25. The time given to the execution of consecutive batches strictly increases, is never below the primary's proposal, and is the same
    on every replica and after every crash and re-execution; and it is bounded by the proposals plus the drift epsilon. *)
From Coq Require Import List ZArith Lia Bool.
From Verif Require Import Time_Model Time_Proofs.
Import ListNotations.
Open Scope Z_scope.

(** The setting: batch i carries the primary's time [nth i props]; a time of 0 or less is refused (ReplicaImp.cpp:1098), and the clock is far from
    the largest int64. *)
Definition setting (eps : Z) (props : list Z) : Prop :=
  0 < eps /\ (forall t, In t props -> 0 < t) /\ (forall t, In t props -> t + eps * Z.of_nat (length props) <= maxT).

(** Whatever crashes and restarts happen between and within the batches, the replica never aborts, and each time handed out for batch i, also by a
    re-execution, is the i-th time of the crash-free sequence, which depends only on the agreed proposals: all replicas use the same times. *)
Theorem C25_stamps_deterministic eps props l : setting eps props ->
  exists s, trun eps props tinit l = Some s /\ forall i ts, In (i, ts) (out s) -> nth_error (times eps minT props) i = Some ts.
Proof.
  intros (A & B & C). destruct (trun_inv eps props A B C l tinit (tinit_inv eps props)) as (s & E & I). exists s. split; auto. apply I.
Qed.
(** A later batch gets a strictly later time, whatever was proposed and whatever crashed. *)
Theorem C25_strictly_increasing eps props l s i j a b : setting eps props -> trun eps props tinit l = Some s ->
  In (i, a) (out s) -> In (j, b) (out s) -> (i < j)%nat -> a < b.
Proof.
  intros S R Ia Ib L. destruct (C25_stamps_deterministic eps props l S) as (s' & E & D). rewrite R in E. inversion E; subst s'. destruct S as (S & _).
  eapply times_incr; [exact S|exact L|apply D; auto|apply D; auto].
Qed.
(** Re-executing a batch gives it the time it had before. *)
Theorem C25_reexecution_same_time eps props l s i a b : setting eps props -> trun eps props tinit l = Some s ->
  In (i, a) (out s) -> In (i, b) (out s) -> a = b.
Proof.
  intros S R Ia Ib. destruct (C25_stamps_deterministic eps props l S) as (s' & E & D). rewrite R in E. inversion E; subst s'.
  apply D in Ia. apply D in Ib. congruence.
Qed.
(** The time is the proposal if that is later than the previous batch's time, and the previous batch's time plus epsilon otherwise. *)
Theorem C25_value eps props l s i a b t : setting eps props -> trun eps props tinit l = Some s ->
  In (i, a) (out s) -> In (S i, b) (out s) -> nth_error props (S i) = Some t -> b = if a <? t then t else a + eps.
Proof.
  intros S R Ia Ib T. destruct (C25_stamps_deterministic eps props l S) as (s' & E & D). rewrite R in E. inversion E; subst s'.
  apply D in Ia. apply D in Ib. pose proof (times_step eps props minT (Datatypes.S i) t T) as St. rewrite Ib in St. cbv zeta in St.
  assert (N : nth i (times eps minT props) minT = a) by (apply nth_error_nth; exact Ia). rewrite N in St. inversion St. reflexivity.
Qed.
(** Never below the proposal; and at most epsilon per batch above the largest proposal. *)
Theorem C25_bounds eps props l s i a t B : setting eps props -> trun eps props tinit l = Some s -> In (i, a) (out s) -> nth_error props i = Some t ->
  (forall t, In t props -> t <= B) -> t <= a <= B + eps * Z.of_nat (S i).
Proof.
  intros S R Ia T HB. destruct (C25_stamps_deterministic eps props l S) as (s' & E & D). rewrite R in E. inversion E; subst s'. apply D in Ia. destruct S as (S & P & _). split.
  - eapply (times_lower eps props); [lia|exact Ia|exact T].
  - eapply times_upper; [lia| |exact HB|exact Ia]. assert (In t props) by (eapply nth_error_In; eauto). pose proof (P _ H). pose proof (HB _ H). pose proof minT0. lia.
Qed.
(** So if every proposal was within the hard limit of a clock that had not yet passed [now], the i-th time is at most now + hard + eps(i+1). *)
Corollary C25_within_hard_limit eps props l s i a now hard : setting eps props -> trun eps props tinit l = Some s -> In (i, a) (out s) ->
  (forall t, In t props -> exists clock, clock <= now /\ withinHardLimit hard clock t = true) -> a <= now + hard + eps * Z.of_nat (S i).
Proof.
  intros S R Ia H. destruct (C25_stamps_deterministic eps props l S) as (s' & E & D). rewrite R in E. inversion E; subst s'. pose proof (D _ _ Ia) as N.
  assert (LI : (i < length props)%nat) by (rewrite <- (times_len eps props minT); apply nth_error_Some; congruence).
  destruct (nth_error props i) as [t|] eqn:T; [|apply nth_error_None in T; lia].
  eapply (C25_bounds eps props l s i a t (now + hard)); eauto. intros u Hu. destruct (H u Hu) as (c & Hc & W). unfold withinHardLimit in W.
  apply negb_true_iff, orb_false_iff in W. destruct W as [_ W]. apply Z.ltb_ge in W. lia.
Qed.

(** What does not hold. timeServiceEpsilonMillis may be set to 0, and then two batches can get the same time. *)
Theorem C25_epsilon_zero_refuted : exists props l s, (forall t, In t props -> 0 < t) /\ trun 0 props tinit l = Some s /\ In (0%nat, 5) (out s) /\ In (1%nat, 5) (out s).
Proof. exists [5; 5], [Begin; Stamp; Done; Begin; Stamp; Done]. eexists. split; [intros t [<-|[<-|[]]]; lia|]. split; [vm_compute; reflexivity|]. simpl. auto. Qed.
(** A single proposal far in the future is never undone: every later time is above it. A backup's hard-limit check does not examine a proposal
    carried over from an earlier view (ReplicaImp.cpp:1102), so one slow replica clock check is not a bound for those. *)
Theorem C25_future_proposal_sticks eps props l s i j a b t : setting eps props -> trun eps props tinit l = Some s -> In (i, a) (out s) -> In (j, b) (out s) ->
  nth_error props i = Some t -> (i < j)%nat -> t < b.
Proof.
  intros S R Ia Ib T L. pose proof (C25_strictly_increasing _ _ _ _ _ _ _ _ S R Ia Ib L).
  destruct (C25_stamps_deterministic eps props l S) as (s' & E & D). rewrite R in E. inversion E; subst s'. apply D in Ia. destruct S as (S & _).
  pose proof (times_lower eps props ltac:(lia) minT i a t Ia T). lia.
Qed.

Print Assumptions C25_stamps_deterministic.
Print Assumptions C25_strictly_increasing.
Print Assumptions C25_reexecution_same_time.
Print Assumptions C25_value.
Print Assumptions C25_bounds.
Print Assumptions C25_within_hard_limit.
Print Assumptions C25_epsilon_zero_refuted.
Print Assumptions C25_future_proposal_sticks.

(** Non-vacuity: proposals going back and standing still, with crashes after Begin, after Stamp (twice) and when idle. *)
Example C25_example : setting 2 [100; 50; 101; 300] /\ exists s,
  trun 2 [100; 50; 101; 300] tinit [Begin; Crash; Stamp; Crash; Crash; Stamp; Done; Crash; Begin; Stamp; Crash; Stamp; Done; Begin; Stamp; Done; Begin; Stamp] = Some s /\
  out s = [(3%nat, 300); (2%nat, 104); (1%nat, 102); (1%nat, 102); (0%nat, 100); (0%nat, 100)].
Proof.
  split; [|eexists; split; [vm_compute; reflexivity|reflexivity]]. split; [lia|]. split; intros t [<-|[<-|[<-|[<-|[]]]]]; try lia; vm_compute; discriminate.
Qed.
