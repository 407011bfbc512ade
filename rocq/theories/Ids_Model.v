(** Who is who and who collects shares: bftengine/src/bftengine/ReplicasInfo.cpp:54-243, ReplicasInfo.hpp:33-52. Numbers are naturals: the sums stay below 2^16 and replica numbers below 2^15. *)
From Coq Require Import List Arith Bool.
Import ListNotations.

(** ReplicaConfig: numReplicas, numRoReplicas, numOfClientProxies, numOfExternalClients, numOfClientServices, operatorEnabled_. *)
Record config := mkC { reps : nat; ros : nat; prox : nat; ext : nat; svc : nat; oper : bool }.
Definition b2n (b : bool) : nat := if b then 1 else 0.
(** [start, end). *)
Definition range (start n : nat) : list nat := seq start n.
(** The sets of the constructor: replicas (77-85 and ReplicasInfo.hpp:33, with the replica itself), read-only replicas 87-97 (with myself), 99-108, 110-123, 125-136, 138-148. *)
Definition replicas (c : config) : list nat := range 0 (reps c).
Definition roReplicas (c : config) : list nat := range (reps c) (ros c).
Definition proxies (c : config) : list nat := range (reps c + ros c) (prox c).
Definition externals (c : config) : list nat :=
  let start := reps c + ros c + prox c in let end_ := start + ext c in range start (end_ - b2n (oper c) - start) ++ [end_ + svc c - 1].
Definition services (c : config) : list nat := range (reps c + ros c + prox c + ext c - b2n (oper c)) (svc c).
Definition internals (c : config) : list nat := range (reps c + ros c + prox c + ext c + svc c) (reps c).
(** _maxValidPrincipalId, 64-66; _operator_id, 149-152. *)
Definition maxId (c : config) : nat := reps c + ros c + prox c + ext c + reps c + svc c - 1.
Definition operatorId (c : config) : nat := if oper c then reps c + ros c + prox c + ext c + svc c - 1 else 0.
Definition classes (c : config) : list (list nat) := [replicas c; roReplicas c; proxies c; externals c; services c; internals c].

(** primaryOfView, ReplicasInfo.hpp:52; getCollectorsForPartialProofs, 156-216, with dynamicCollectorForPartialProofs = true (SysConsts.hpp:102). *)
Definition primary (n v : nat) : nat := v mod n.
Definition skip (n prim k : nat) : nat := if prim <=? k then (let k1 := (k + 1) mod n in if k1 =? prim then (k1 + 1) mod n else k1) else k.
Definition collectors (n c v q : nat) : list nat :=
  let prim := primary n v in
  if c =? 0 then [skip n prim (q mod n)]
  else let half := n / 2 in let c1 := q mod half in [skip n prim c1; skip n prim (c1 + half)].
