(** C01 (quorum intersection), C31 (collectors). *)
From Coq Require Import List Arith Lia Bool.
From Verif Require Import Lib_Sets Quorum_Model Quorum_Proofs.
Import ListNotations.

(** Any two slow-path certificates share a correct replica. *)
Theorem C01_slow_slow f c A B Z :
  replicaSet (nReplicas f c) A -> replicaSet (nReplicas f c) B -> length Z <= f ->
  slowQuorum f c <= length A -> slowQuorum f c <= length B ->
  exists i, In i A /\ In i B /\ ~ In i Z.
Proof. exact (slow_slow_lemma f c A B Z). Qed.
Print Assumptions C01_slow_slow.

Theorem C01_slow_fast f c A B Z :
  replicaSet (nReplicas f c) A -> replicaSet (nReplicas f c) B -> length Z <= f ->
  slowQuorum f c <= length A -> fastQuorum f c <= length B ->
  exists i, In i A /\ In i B /\ ~ In i Z.
Proof. exact (slow_fast_lemma f c A B Z). Qed.
Print Assumptions C01_slow_fast.

(** A slow-path certificate meets a view-change quorum in at least c+1 correct replicas. *)
Theorem C01_slow_viewchange f c A B Z :
  replicaSet (nReplicas f c) A -> replicaSet (nReplicas f c) B -> length Z <= f ->
  slowQuorum f c <= length A -> vcQuorum f c <= length B ->
  exists H, NoDup H /\ c + 1 <= length H /\ forall i, In i H -> In i A /\ In i B /\ ~ In i Z.
Proof. exact (slow_vc_lemma f c A B Z). Qed.
Print Assumptions C01_slow_viewchange.

(** A fast-path certificate meets a view-change quorum in at least f+c+1 correct replicas. *)
Theorem C01_fast_viewchange f c A B Z :
  replicaSet (nReplicas f c) A -> replicaSet (nReplicas f c) B -> length Z <= f ->
  fastQuorum f c <= length A -> vcQuorum f c <= length B ->
  exists H, NoDup H /\ f + c + 1 <= length H /\ forall i, In i H -> In i A /\ In i B /\ ~ In i Z.
Proof. exact (fast_vc_lemma f c A B Z). Qed.
Print Assumptions C01_fast_viewchange.

Theorem C01_viewchange_viewchange f c A B Z :
  replicaSet (nReplicas f c) A -> replicaSet (nReplicas f c) B -> length Z <= f ->
  vcQuorum f c <= length A -> vcQuorum f c <= length B ->
  exists H, NoDup H /\ 2 * c + 1 <= length H /\ forall i, In i H -> In i A /\ In i B /\ ~ In i Z.
Proof. exact (vc_vc_lemma f c A B Z). Qed.
Print Assumptions C01_viewchange_viewchange.

(** f+1 complaints contain one from a correct replica. *)
Theorem C01_complaints_honest f (A Z : list nat) : NoDup A -> length Z <= f -> complaintQuorum f <= length A ->
  exists i, In i A /\ ~ In i Z.
Proof. exact (complaint_honest_lemma f A Z). Qed.
Print Assumptions C01_complaints_honest.

(** Availability: the replicas that are not down (D) can form each quorum, as long as D is within the bound of the path. *)
Theorem C01_available f c D :
  replicaSet (nReplicas f c) D ->
  exists H, replicaSet (nReplicas f c) H /\ (forall i, In i H -> ~ In i D) /\
    (length D <= f -> slowQuorum f c <= length H) /\
    (length D <= f -> vcQuorum f c <= length H) /\
    (length D <= f + c -> slowQuorum f c <= length H) /\
    (length D <= c -> fastQuorum f c <= length H) /\
    (length D = 0 -> optimisticQuorum f c <= length H).
Proof. exact (available_lemma f c D). Qed.
Print Assumptions C01_available.

(** C31: with dynamic collectors the collectors of every view and sequence number are distinct replicas other than the
    primary (one if c = 0, two otherwise). *)
Theorem C31_collectors f c v s : 1 <= f + c ->
  let n := nReplicas f c in
  NoDup (collectors true f c v s) /\
  (forall i, In i (collectors true f c v s) -> i < n /\ i <> primaryOfView n v) /\
  length (collectors true f c v s) = (if c =? 0 then 1 else 2).
Proof. exact (collectors_lemma f c v s). Qed.
Print Assumptions C31_collectors.

(** Non-vacuity: n = 6 (f=1,c=1). *)
Example C01_nonvacuous :
  replicaSet (nReplicas 1 1) [0;1;2;3] /\ replicaSet (nReplicas 1 1) [2;3;4;5] /\ slowQuorum 1 1 <= length [0;1;2;3]
  /\ length [2] <= 1 /\ vcQuorum 1 1 <= length [0;1;2;3;4] /\ fastQuorum 1 1 <= length [0;1;2;3;5].
Proof.
  unfold replicaSet, nReplicas, slowQuorum, vcQuorum, fastQuorum; simpl;
  repeat split; repeat constructor; simpl; lia.
Qed.
Example C31_example : collectors true 1 1 0 5 = [3; 1].
Proof. reflexivity. Qed.
(** Degenerate configuration f = c = 0: the only replica is the primary and its own collector. *)
Example C31_degenerate : collectors true 0 0 3 5 = [primaryOfView 1 3].
Proof. reflexivity. Qed.
