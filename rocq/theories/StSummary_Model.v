(** Model of the choice of a state-transfer target: bftengine/src/bcstatetransfer/BCStateTran.cpp, onMessage(CheckpointSummaryMsg) and the
    code that starts and repeats the request for summaries. The certificate is the model of MsgsCertificate (Cert_Model), instantiated as
    BCStateTran.hpp 386-389 does: no trusted own message, no `full`.
    Simplified: digests and range-validation data are opaque values (0: the zero digest); block and sequence numbers are naturals;
    whether the message length matches its size is a field of the message; the other assertions of lines 1797-1803 (nothing of a previous
    fetch is left), the persistent store and the messages sent are not modelled; numOfSummariesFromOtherReplicas does not overflow
    16 bits. *)
From Coq Require Import List Arith Bool.
From Verif Require Import Cert_Model.
Import ListNotations.

(** Messages.hpp 80-104. *)
Record summary := mkSum { ck : nat; maxBlock : nat; digBlock : nat; digPages : nat; req : nat; rvb : list nat; sizeOk : bool }.

Definition listEqb (a b : list nat) : bool := if list_eq_dec Nat.eq_dec a b then true else false.
(** CheckpointSummaryMsg::equivalent, Messages.hpp 140-169: everything but the request number. *)
Definition equivalent (a b : summary) : bool :=
  (maxBlock a =? maxBlock b) && (ck a =? ck b) && (digBlock a =? digBlock b) && (digPages a =? digPages b) && listEqb (rvb a) (rvb b).

Section S.
(** numReplicas, fVal, myReplicaId, numRoReplicas, getMaxNumOfStoredCheckpoints, getLastStoredCheckpoint; rvbm_->setRvbData's result. *)
Variables (n f me ro maxStored lastStored : nat) (rvbOk : summary -> bool).
Notation scert := (cert summary).
Notation addS := (addMsg summary equivalent false false n (f + 1) me).

(** BCStateTran.hpp 391-400: summariesCerts, numOfSummariesFromOtherReplicas; lastMsgSeqNum_. *)
Record coll := mkColl { certs : list (nat * scert); counts : list (nat * nat); lastReq : nat }.
(** The rest of the fetching states is one phase here. *)
Inductive phase := Idle | Collecting (c : coll) | Fetching (t : summary) (preferred : list nat) | Crashed.

Fixpoint lookup {A} (d : A) (l : list (nat * A)) (k : nat) : A :=
  match l with [] => d | (k', v) :: l => if k' =? k then v else lookup d l k end.
Fixpoint update {A} (l : list (nat * A)) (k : nat) (v : A) : list (nat * A) :=
  match l with [] => [(k, v)] | (k', v') :: l => if k' =? k then (k, v) :: l else (k', v') :: update l k v end.

(** Lines 1744-1764: valid, relevant. *)
Definition validMsg (m : summary) : bool := sizeOk m && negb (ck m =? 0) && negb (digPages m =? 0) && negb (req m =? 0).
Definition relevant (c : coll) (m : summary) : bool := (req m =? lastReq c) && (lastStored <=? ck m).

(** Lines 1821-1827: the replicas of replicas_ = {0..n-1} whose message in the certificate is equivalent to the best one. *)
Definition preferredOf (s : scert) (t : summary) : list nat :=
  filter (fun r => match msgOf summary (msgs summary s) r with Some m => equivalent m t | None => false end) (seq 0 n).

(** onMessage(CheckpointSummaryMsg), 1729-1898, after the checks of the sender (handleStateTransferMessageImpl 1162-1165). *)
Definition onSummary (c : coll) (r : nat) (m : summary) : phase :=
  if negb (validMsg m) || negb (relevant c m) then Collecting c
  else
    let k := lookup 0 (counts c) r in
    if maxStored + 1 <=? k then Collecting c
    else
      match addS (lookup (cert0 summary) (certs c) (ck m)) r m with
      | None => Crashed
      | Some (s, used) =>
          let c1 := mkColl (update (certs c) (ck m) s) (if used then update (counts c) r (k + 1) else counts c) (lastReq c) in
          if negb (complete summary s) then Collecting c1
          else
            match bestMsg summary f s with
            | Some (Some t) =>
                if negb (rvbOk t) then Collecting (mkColl [] [] 0)   (* 1812-1816; the new cycle's request is the next event *)
                else
                  let p := preferredOf s t in
                  if f + 1 <=? length p then Fetching t p else Crashed   (* 1828 *)
            | _ => Crashed                                              (* 1795 *)
            end
      end.

(** Events: a message handed over by the communication layer; a new cycle with its first request (startCollectingStateImpl 943-964);
    a repeated request by the timer, with (after more than kResetCount_AskForCheckpointSummaries) or without clearing (1019-1029).
    A request number is positive (uniqueMsgSeqNum). *)
Inductive event := Msg (r : nat) (m : summary) | Cycle (q : nat) | Retry (clear : bool) (q : nat).

Definition step (p : phase) (e : event) : phase :=
  match p, e with
  | Crashed, _ => Crashed
  | _, Cycle q => Collecting (mkColl [] [] q)
  | Collecting c, Retry b q => if b then Collecting (mkColl [] [] q) else Collecting (mkColl (certs c) (counts c) q)
  | Collecting c, Msg r m => if (n + ro <=? r) || (r =? me) then p else onSummary c r m   (* 1162-1165 *)
  | _, _ => p
  end.
Definition run (p : phase) (l : list event) : phase := fold_left step l p.
End S.

(** * Specification vocabulary *)
(** Two summaries report the same state: all that state transfer is going to rely on. *)
Definition sameReport (a b : summary) : Prop :=
  ck a = ck b /\ maxBlock a = maxBlock b /\ digBlock a = digBlock b /\ digPages a = digPages b /\ rvb a = rvb b.
(** The requests of a run of events. *)
Definition asked (l : list event) (q : nat) : Prop := In (Cycle q) l \/ exists b, In (Retry b q) l.
(** Events of the current cycle: those since the last Cycle, with it. *)
Fixpoint currentCycle (acc l : list event) : list event :=
  match l with [] => acc | Cycle q :: l => currentCycle [Cycle q] l | e :: l => currentCycle (acc ++ [e]) l end.
(** Replica r reported t, in answer to a request made before. *)
Definition reported (l : list event) (r : nat) (t : summary) : Prop :=
  exists a b m, l = a ++ Msg r m :: b /\ sameReport m t /\ asked a (req m) /\ sizeOk m = true.
