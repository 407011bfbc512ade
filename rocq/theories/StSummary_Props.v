(** C22: the state-transfer target. n, f, own id, number of read-only replicas, store limits and the outcome of setting the
    range-validation data are arbitrary; events are arbitrary sequences of messages, new cycles and repeated requests. *)
From Coq Require Import List Arith Bool Lia.
From Verif Require Import Cert_Model StSummary_Model StSummary_Proofs.
Import ListNotations.

(** Whenever a replica has a target, at least f+1 different consensus replicas other than itself reported exactly this target during the
    current cycle, each in answer to a request of this cycle; they are the replicas it is going to fetch from. *)
Theorem C22_target_reported n f me ro maxStored lastStored rvbOk l t p :
  run n f me ro maxStored lastStored rvbOk Idle l = Fetching t p ->
  NoDup p /\ f + 1 <= length p /\ forall r, In r p -> r < n /\ r <> me /\ reported (currentCycle [] l) r t.
Proof.
  intros E. pose proof (run_ok n f me ro maxStored lastStored rvbOk l) as Q. rewrite E in Q. simpl in Q. destruct Q as (A & B & C). repeat split; auto; intros; destruct (C r H) as (C1 & m & (D1 & D2 & D3 & D4 & D5 & a & b & D6 & D7 & D8) & D9); auto.
  exists a, b, m. auto.
Qed.
Print Assumptions C22_target_reported.

(** Hence, with at most f faulty replicas, a correct one reported it. *)
Theorem C22_target_correct n f me ro maxStored lastStored rvbOk l t p bad :
  run n f me ro maxStored lastStored rvbOk Idle l = Fetching t p -> length bad <= f ->
  exists r, ~ In r bad /\ r < n /\ r <> me /\ reported (currentCycle [] l) r t.
Proof.
  intros E LB. destruct (C22_target_reported n f me ro maxStored lastStored rvbOk l t p E) as (A & B & C).
  destruct (existsb (fun r => negb (existsb (Nat.eqb r) bad)) p) eqn:X.
  - apply existsb_exists in X. destruct X as (r & Hr & Nr). exists r. destruct (C r Hr) as (C1 & C2 & C3). repeat split; auto. intros W.
    apply negb_true_iff in Nr. assert (existsb (Nat.eqb r) bad = true) by (apply existsb_exists; exists r; split; auto; apply Nat.eqb_refl). congruence.
  - exfalso. assert (L : length p <= length bad); [|lia]. apply NoDup_incl_length; auto. intros r Hr. destruct (existsb (Nat.eqb r) bad) eqn:Y.
    + apply existsb_exists in Y. destruct Y as (y & Hy & E0). apply Nat.eqb_eq in E0. subst; auto.
    + exfalso. rewrite <- not_true_iff_false, existsb_exists in X. apply X. exists r. split; auto. rewrite Y. auto.
Qed.
Print Assumptions C22_target_correct.

(** The target is at or above the replica's own last stored checkpoint, is not checkpoint 0 and names a reserved-pages digest. *)
Theorem C22_target_not_old n f me ro maxStored lastStored rvbOk l t p :
  run n f me ro maxStored lastStored rvbOk Idle l = Fetching t p -> lastStored <= ck t /\ ck t <> 0 /\ digPages t <> 0.
Proof.
  intros E. pose proof (run_ok n f me ro maxStored lastStored rvbOk l) as Q. rewrite E in Q. simpl in Q. destruct Q as (A & B & C). destruct p as [|r p]; [simpl in B; lia|].
  destruct (C r (or_introl eq_refl)) as (C1 & m & (D1 & D2 & D3 & D4 & D5 & _) & D9). unfold sameReport in D9. intuition congruence.
Qed.
Print Assumptions C22_target_not_old.

(** No assertion fails whatever consensus replicas send, in any order. That read-only replicas stay silent is needed: see below. *)
Theorem C22_no_abort n f me ro maxStored lastStored rvbOk l : 1 <= f -> 2 <= n ->
  (forall r m, In (Msg r m) l -> r < n) -> run n f me ro maxStored lastStored rvbOk Idle l <> Crashed.
Proof. intros F N R E. pose proof (run_good n f me ro maxStored lastStored rvbOk F N l R) as G. rewrite E in G. exact G. Qed.
Print Assumptions C22_no_abort.

(** Progress: in a cycle that is neither restarted nor cleared, once f+1 replicas have each answered the current request with the report t,
    none of them contradicting itself about t's checkpoint nor sending more summaries than the limit, fetching has started; nothing the
    other replicas send can prevent it. *)
Theorem C22_progress n f me ro maxStored lastStored rvbOk q0 t l rs : 1 <= f -> 2 <= n -> (forall x, rvbOk x = true) ->
  (forall r m, In (Msg r m) l -> r < n) -> (forall q, ~ In (Cycle q) l) -> (forall q, ~ In (Retry true q) l) ->
  NoDup rs -> f + 1 <= length rs ->
  (forall r, In r rs -> r <> me /\
     (exists a b m, l = a ++ Msg r m :: b /\ ck m = ck t /\ validMsg m = true /\ lastStored <= ck m /\ req m = lastAsked q0 a) /\
     length (filter (fromR r) l) <= maxStored + 1 /\
     (forall m, In (Msg r m) l -> ck m = ck t -> sameReport m t)) ->
  exists t' p, run n f me ro maxStored lastStored rvbOk Idle (Cycle q0 :: l) = Fetching t' p.
Proof. intros F N RV R NC NR ND LR H. change (run n f me ro maxStored lastStored rvbOk Idle (Cycle q0 :: l)) with (run n f me ro maxStored lastStored rvbOk (Collecting (mkColl [] [] q0)) l). eapply (progress n f me ro maxStored lastStored rvbOk F N q0 t RV l rs); eauto. Qed.
Print Assumptions C22_progress.

(** * Witnesses and refutations *)
Definition good7 : summary := mkSum 7 300 11 12 5 [1; 2] true.
Definition bad7 : summary := mkSum 7 300 66 12 5 [1; 2] true.
Definition yes (_ : summary) := true.
(** n = 4, f = 1, own id 3: one faulty report first, then two correct ones to the second request. *)
Example C22_witness : run 4 1 3 1 3 4 yes Idle
  [Cycle 4; Msg 0 bad7; Retry false 5; Msg 0 bad7; Msg 1 good7; Msg 2 good7] = Fetching good7 [1; 2].
Proof. vm_compute. reflexivity. Qed.
Example C22_witness_progress :
  exists t' p, run 4 1 3 1 3 4 yes Idle (Cycle 4 :: [Msg 0 bad7; Retry false 5; Msg 0 bad7; Msg 1 good7; Msg 2 good7]) = Fetching t' p.
Proof.
  apply (C22_progress 4 1 3 1 3 4 yes 4 good7 [Msg 0 bad7; Retry false 5; Msg 0 bad7; Msg 1 good7; Msg 2 good7] [1; 2]); auto.
  - intros r m [H|[H|[H|[H|[H|[]]]]]]; inversion H; subst; lia.
  - intros q [H|[H|[H|[H|[H|[]]]]]]; discriminate.
  - intros q [H|[H|[H|[H|[H|[]]]]]]; discriminate.
  - repeat constructor; simpl; intuition lia.
  - intros r [<-|[<-|[]]]; (split; [lia|]); (split; [|split; [vm_compute; lia|intros m [H|[H|[H|[H|[H|[]]]]]]; inversion H; subst; unfold sameReport; auto]]).
    + exists [Msg 0 bad7; Retry false 5; Msg 0 bad7], [Msg 2 good7], good7. repeat split; vm_compute; lia.
    + exists [Msg 0 bad7; Retry false 5; Msg 0 bad7; Msg 1 good7], [], good7. repeat split; vm_compute; lia.
Qed.

(** Without the assumption on read-only replicas: messages of read-only replicas (ids n..n+ro-1) pass the sender check and count in the
    certificate, but not among the preferred replicas; f correct reports and a copy sent by a read-only replica abort the process. *)
Theorem C22_read_only_abort_refuted : exists l, (forall r m, In (Msg r m) l -> r < 4 + 1) /\ run 4 1 3 1 3 4 yes Idle l = Crashed.
Proof.
  exists [Cycle 5; Msg 1 good7; Msg 4 good7]. split; [|vm_compute; reflexivity]. intros r m [H|[H|[H|[]]]]; inversion H; subst; lia.
Qed.
Print Assumptions C22_read_only_abort_refuted.

(** With f = 0 one report ought to be enough; a first report never completes the certificate. *)
Theorem C22_progress_f0_refuted : exists l, In (Msg 1 good7) l /\ (forall t p, run 2 0 0 0 3 4 yes Idle l <> Fetching t p).
Proof. exists [Cycle 5; Msg 1 good7]. split; [right; left; auto|]. intros t p. vm_compute. discriminate. Qed.
Print Assumptions C22_progress_f0_refuted.
