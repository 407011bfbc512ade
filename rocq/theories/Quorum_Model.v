(** Configuration, quorum sizes and collector assignment (C01, C31). *)
From Coq Require Import List Arith Lia Bool.
From Verif Require Import Lib_Sets.
Import ListNotations.

(** bftengine/src/bftengine/ReplicasInfo.cpp:141 (ConcordAssert(_numberOfReplicas == 3f+2c+1)). *)
Definition nReplicas (f c : nat) : nat := 3 * f + 2 * c + 1.
(** bftengine/include/bftengine/CryptoManager.hpp:126 createThresholdVerifier(f * 2 + c + 1): prepare, slow-path commit. *)
Definition slowQuorum (f c : nat) : nat := f * 2 + c + 1.
(** CryptoManager.hpp:127 createThresholdVerifier(f * 3 + c + 1): fast path with threshold. *)
Definition fastQuorum (f c : nat) : nat := f * 3 + c + 1.
(** CryptoManager.hpp:128 createThresholdVerifier(numSigners): optimistic fast path. *)
Definition optimisticQuorum (f c : nat) : nat := nReplicas f c.
(** bftengine/src/bftengine/ViewsManager.cpp:195,342,412,762,835 (2F+2C+1): view-change quorum. *)
Definition vcQuorum (f c : nat) : nat := 2 * f + 2 * c + 1.
(** bftengine/src/bftengine/ReplicasAskedToLeaveViewInfo.hpp hasQuorumToLeaveView: f+1 complaints. *)
Definition complaintQuorum (f : nat) : nat := f + 1.
(** bftengine/src/bftengine/CheckpointInfo.hpp: MsgsCertificate(... 2f+c+1 ...). *)
Definition checkpointQuorum (f c : nat) : nat := 2 * f + c + 1.
(** ViewChangeSafetyLogic.cpp:346 (F + C + 1): votes needed to adopt a fast-path value in a view change. *)
Definition fastVoteQuorum (f c : nat) : nat := f + c + 1.

(** A quorum: a duplicate-free set of replica ids below n. *)
Definition replicaSet (n : nat) (A : list nat) : Prop := NoDup A /\ Forall (fun i => i < n) A.

(** ReplicasInfo.hpp:63 primaryOfView. *)
Definition primaryOfView (n v : nat) : nat := v mod n.

(** ReplicasInfo.cpp:171-174 and 193-202: "ignore primary". int16_t arithmetic; values stay below 2n. *)
Definition skipPrimary (n primary collector : nat) : nat :=
  if primary <=? collector then
    let c1 := (collector + 1) mod n in
    if c1 =? primary then (c1 + 1) mod n else c1
  else collector.

(** ReplicasInfo.cpp:145-210 getCollectorsForPartialProofs: the ids put in outCollectorsArray. *)
Definition collectors (dynamic : bool) (f c v seq : nat) : list nat :=
  let n := nReplicas f c in
  let primary := primaryOfView n v in
  if negb dynamic then [primary]
  else if c =? 0 then [skipPrimary n primary (seq mod n)]
  else let half := n / 2 in
       let col1 := seq mod half in
       let col2 := col1 + half in
       [skipPrimary n primary col1; skipPrimary n primary col2].
