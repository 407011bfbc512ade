(** Model of bftengine/src/bftengine/TimeServiceManager.hpp, TimeServiceResPageClient.cpp and of the code in ReplicaImp.cpp that stamps a
    batch and recovers after a crash. Times are int64_t milliseconds; an overflow is undefined behaviour (None).
    Simplified: saveReservedPage is durable at once; metrics and logs are dropped. *)
From Coq Require Import List ZArith.
Import ListNotations.
Open Scope Z_scope.

Definition minT : Z := - 2 ^ 63.    (* ConsensusTime::min(): the initial last_timestamp_, TimeServiceResPageClient.hpp:34 *)
Definition maxT : Z := 2 ^ 63 - 1.

(** compareAndUpdate, TimeServiceManager.hpp:63-81: the new value of the last timestamp, which is also returned. *)
Definition compareAndUpdate (eps last new : Z) : option Z :=
  if last <? new then Some new else if last + eps <=? maxT then Some (last + eps) else None.
(** isPrimarysTimeWithinBounds, TimeServiceManager.hpp:87-106. *)
Definition withinHardLimit (hard now t : Z) : bool := negb ((t <? now - hard) || (now + hard <? t)).

(** Executing batches. [cnt] batches are finished; [last] is last_timestamp_, [page] the reserved page, [desc] the time in the persisted
    DescriptorOfLastExecution of the batch being executed; [out] records every stamp handed to the execution: (batch, time). *)
Inductive phase := Idle | Begun | Stamped.
Record tst := mkT { cnt : nat; ph : phase; last : Z; page : option Z; desc : option Z; out : list (nat * Z) }.
Definition tinit : tst := mkT 0 Idle minT None None [].
(** TimeServiceResPageClient::load, cpp 43-51. *)
Definition load (p : option Z) : Z := match p with Some x => x | None => minT end.
Inductive top := Begin | Stamp | Done | Crash.
Definition tstep (eps : Z) (props : list Z) (s : tst) (o : top) : option tst :=
  match o, ph s with
  | Begin, Idle =>   (* ReplicaImp.cpp:4928-4935 *)
      Some (mkT (cnt s) Begun (last s) (page s) (Some (last s)) (out s))
  | Stamp, Begun =>  (* ReplicaImp.cpp:4953-4961; setLastTimestamp, TimeServiceResPageClient.cpp:29-34 *)
      match nth_error props (cnt s) with
      | None => Some s
      | Some t => match compareAndUpdate eps (last s) t with
                  | None => None
                  | Some ts => Some (mkT (cnt s) Stamped ts (Some ts) (desc s) ((cnt s, ts) :: out s))
                  end
      end
  | Done, Stamped => (* finishExecutePrePrepareMsg: lastExecutedSeqNum is advanced *)
      Some (mkT (S (cnt s)) Idle (last s) (page s) None (out s))
  | Crash, _ =>      (* restart: ReplicaImp.cpp:4619-4623 and recoverRequests 4640-4645, recoverTime TimeServiceManager.hpp:51-60 *)
      let l := load (page s) in
      match desc s with
      | None => Some (mkT (cnt s) Idle l (page s) None (out s))
      | Some x => if x <=? l then Some (mkT (cnt s) Begun x (Some x) (Some x) (out s)) else None
      end
  | _, _ => Some s
  end.
Fixpoint trun (eps : Z) (props : list Z) (s : tst) (l : list top) : option tst :=
  match l with [] => Some s | o :: l => match tstep eps props s o with Some s' => trun eps props s' l | None => None end end.

(** * Specification: the times of the batches when nothing ever crashes. *)
Fixpoint times (eps last : Z) (props : list Z) : list Z :=
  match props with [] => [] | t :: props => let x := if last <? t then t else last + eps in x :: times eps x props end.
