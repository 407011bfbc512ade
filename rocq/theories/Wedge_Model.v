(** Model of stopping a cluster at an agreed sequence number ("wedge"): bftengine/src/bftengine/ControlStateManager.cpp, the parts of
    bftengine/src/bftengine/ReplicaImp.cpp, Reconfiguration.cpp, kvbc/src/reconfiguration_kvbc_handler.cpp, kvbc/src/Replica.cpp and
    kvbc/src/st_reconfiguration_sm.cpp that set, keep and act on the stop point; and of the restart proof,
    bftengine/src/bftengine/messages/ReplicasRestartReadyProofMsg.cpp.
    Sequence numbers and epochs are integers without overflow. *)
From Coq Require Import ZArith List Bool.
Import ListNotations.
Local Open Scope Z_scope.

Definition CW : Z := 150.   (* checkpointWindowSize, SysConsts.hpp:48 *)
Definition WW : Z := 300.   (* kWorkWindowSize, SysConsts.hpp:46 *)

(** setStopAtNextCheckpoint, ControlStateManager.cpp:33-41; 0 means no stop point (43-46). *)
Definition stopFor (s : Z) : Z := if s =? 0 then 0 else let x := s + 2 * CW in x - x mod CW.

(** Operator commands, as far as they concern stopping. [CNoop] is the noop wedge command a primary adds by itself
    (ReplicaImp.cpp:5811-5840), signed by a replica and not by the operator. *)
Inductive cmd := CWedge | CAddRemove | CRestart | CInstall | CNoop | COther.

(** What the chain keeps: the sequence number and the epoch of the block of the latest wedge key (written for WedgeCommand, 618-629, and,
    include_wedge, for AddRemoveWithWedgeCommand, 716, and RestartCommand, 742-743), of the latest AddRemoveWithWedge (691) and of the
    latest InstallCommand (651-652, not a wedge key), and the latest epoch (67-69). A pruned block is (0, 0)
    (getStoredBftSeqNum / getStoredReconfigData return 0). The global epoch of the reserved page (EpochManager.hpp:41-62) is written
    together with the epoch blocks and is taken to be the latest epoch of the chain. *)
Record chain := mkC { c_kw : option (Z * Z); c_ka : option (Z * Z); c_ki : option Z; c_ep : Z }.

(** A replica. Persistent: last executed, last stable, the accepted proposals, the chain and its checkpoints; in memory: the epoch
    (EpochManager::epochNumber_), wedgePoint and wedged of ControlStateManager. *)
Record rep := mkR { r_le : Z; r_lst : Z; r_acc : list Z; r_ch : chain; r_snap : list (Z * chain); r_self : Z; r_wp : Z; r_wd : bool }.
Definition rep0 : rep := mkR 0 0 [] (mkC None None None 0) [] 0 0 false.

(** Execution of one command at sequence number n, on the chain and the stop point. PRE handlers write the block
    (kvbc/src/reconfiguration_kvbc_handler.cpp:60-111 with the lines above; the epoch written is the replica's own), then
    Reconfiguration.cpp:31-41, 77-98, 202-212, 213-245 set the stop point. The noop command: reconfiguration_kvbc_handler.cpp:1104-1125;
    the handler that sets stop points does not see it, because it verifies the operator's signature. *)
Definition apply1 (n self : Z) (s : chain * Z) (c : cmd) : chain * Z :=
  let '(ch, wp) := s in
  match c with
  | CWedge | CRestart => (mkC (Some (n, self)) (c_ka ch) (c_ki ch) self, stopFor n)
  | CAddRemove => (mkC (Some (n, self)) (Some (n, self)) (c_ki ch) self, stopFor n)
  | CInstall => (mkC (c_kw ch) (c_ka ch) (Some n) self, stopFor n)
  | CNoop => if (wp =? 0) || (wp <? n) then (ch, wp) else (mkC (c_kw ch) (c_ka ch) (c_ki ch) self, wp)
  | COther => (ch, wp)
  end.
Definition applyAll (n self : Z) (s : chain * Z) (l : list cmd) : chain * Z := fold_left (apply1 n self) l s.

(** isSeqNumToStopAt, ReplicaImp.cpp:949-957 (no pruning in progress). *)
Definition refused (r : rep) (n : Z) : bool := r_wd r || (negb (r_wp r =? 0) && (r_wp r <? n)).

(** A proposal is accepted (ReplicaImp.cpp:1056, 959-970) or, by the primary, made (578-592). *)
Definition accept (r : rep) (n : Z) : option rep :=
  if (r_lst r <? n) && (n <=? r_lst r + WW) && negb (refused r n)
  then Some (mkR (r_le r) (r_lst r) (n :: r_acc r) (r_ch r) (r_snap r) (r_self r) (r_wp r) (r_wd r)) else None.

(** One round of executeNextCommittedRequests, ReplicaImp.cpp:5780-5812: the next number, whose proposal the replica has (that it is
    committed is up to the schedule), is executed; then the replica stops if this was the stop point. At a checkpoint number the state
    is kept for state transfer. *)
Definition exec (log : Z -> list cmd) (r : rep) : option rep :=
  let n := r_le r + 1 in
  if (r_le r <? r_lst r + WW) && negb (r_wd r) && existsb (Z.eqb n) (r_acc r) then
    let '(ch, wp) := applyAll n (r_self r) (r_ch r, r_wp r) (log n) in
    Some (mkR n (r_lst r) (r_acc r) ch (if n mod CW =? 0 then (n, ch) :: r_snap r else r_snap r) (r_self r) wp (wp =? n))
  else None.

(** A checkpoint becomes stable, ReplicaImp.cpp:3400-3529 (lastStableSeqNum <= lastExecutedSeqNum is asserted, 5778). *)
Definition stable (r : rep) (n : Z) : option rep :=
  if (r_lst r <? n) && (n <=? r_le r) && (n mod CW =? 0)
  then Some (mkR (r_le r) n (r_acc r) (r_ch r) (r_snap r) (r_self r) (r_wp r) (r_wd r || (negb (r_wp r =? 0) && (r_wp r =? n)))) else None.

(** UnwedgeCommand with enough valid signatures, without restart: reconfiguration_kvbc_handler.cpp:1002-1003, 1022-1028, 113-123. *)
Definition unwedge (r : rep) : option rep :=
  if r_wd r then Some (mkR (r_le r) (r_lst r) (r_acc r) (mkC (c_kw (r_ch r)) (c_ka (r_ch r)) (c_ki (r_ch r)) (r_self r + 1)) (r_snap r) (r_self r + 1) 0 false)
  else None.

(** handleWedgeEvent, kvbc/src/Replica.cpp:225-256: stop point and stopped flag of a starting replica. *)
Definition wedgeEvent (ch : chain) (le : Z) : Z * bool :=
  match c_kw ch with
  | None => (0, false)
  | Some (s, e) =>
      if s =? 0 then (0, false)
      else if e =? c_ep ch then (stopFor s, stopFor s =? le) else (0, false)
  end.
(** Restart of the process: handleNewEpochEvent, Replica.cpp:257-294, then handleWedgeEvent. [flag]: the start-new-epoch flag
    (ReplicaFactory.cpp:161-166) is set. The metadata is kept. *)
Definition start (r : rep) (flag : bool) : rep :=
  let ch := if flag then mkC (c_kw (r_ch r)) (c_ka (r_ch r)) (c_ki (r_ch r)) (c_ep (r_ch r) + 1) else r_ch r in
  let '(wp, wd) := wedgeEvent ch (r_le r) in
  mkR (r_le r) (r_lst r) (r_acc r) ch (r_snap r) (c_ep ch) wp wd.
(** UnwedgeCommand with restart (reconfiguration_kvbc_handler.cpp:1029-1032): the flag is set and the process restarts. [again]: the
    number of crashes between writing the epoch block and its number (Replica.cpp:277-278) and clearing the flag (280). *)
Fixpoint startNew (r : rep) (again : nat) : rep := match again with O => start r true | S k => startNew (start r true) k end.
Definition unwedgeRestart (r : rep) (again : nat) : option rep := if r_wd r then Some (startNew r again) else None.

(** State transfer to checkpoint n with chain [c]: stCallBack, st_reconfiguration_sm.cpp:54-76 (called first, HIGH priority), and
    onTransferringCompleteImp, ReplicaImp.cpp:3298-3384. State: own epoch, stop point, stopped flag. *)
(** handle(InstallCommand), st_reconfiguration_sm.cpp:148-168. *)
Definition stInstall (c : chain) (s : Z * Z * bool) : Z * Z * bool :=
  let '(self, wp, wd) := s in match c_ki c with Some sn => (self, stopFor sn, wd) | None => s end.
(** handle(AddRemoveWithWedgeCommand), 130-137 and 170-233. *)
Definition stAddRemove (n : Z) (c : chain) (s : Z * Z * bool) : Z * Z * bool :=
  let '(self, wp, wd) := s in
  match c_ka c with
  | None => s
  | Some (sn, e) =>
      if e <? self then s
      else if (self =? e) && (self =? c_ep c) && (n <? stopFor sn) then s
      else if self <? c_ep c then (self, stopFor (n - 2 * CW), wd)
      else s
  end.
(** handle(WedgeCommand), 100-128. *)
Definition stWedge (c : chain) (s : Z * Z * bool) : Z * Z * bool :=
  let '(self, wp, wd) := s in
  match c_kw c with
  | None => s
  | Some (sn, e) =>
      if (self =? e) && (self =? c_ep c) then (self, stopFor sn, wd)
      else
        let '(wp, wd) := if (e <? c_ep c) && negb (wp =? 0) then (0, false) else (wp, wd) in
        (c_ep c, wp, wd)
  end.
Definition transfer (r : rep) (n : Z) (c : chain) : option rep :=
  if r_le r <? n then
    if c_ep c <? r_self r then None     (* ConcordAssert(last_known_global_epoch >= my_last_known_epoch) *)
    else
      let '(self, wp, wd) := stInstall c (stWedge c (stAddRemove n c (stInstall c (r_self r, r_wp r, r_wd r)))) in
      let lst := if r_lst r + WW <? n then n - WW else r_lst r in
      let wd := wd || ((r_lst r + WW <? n) && (negb (wp =? 0) && (wp =? n - WW))) in
      Some (mkR n lst (r_acc r) c ((n, c) :: r_snap r) self wp wd)
  else None.

(** The block of the latest wedge command is pruned. *)
Definition pruneKw (r : rep) : option rep :=
  match c_kw (r_ch r) with
  | None => None
  | Some _ => Some (mkR (r_le r) (r_lst r) (r_acc r) (mkC (Some (0, 0)) (c_ka (r_ch r)) (c_ki (r_ch r)) (c_ep (r_ch r))) (r_snap r) (r_self r) (r_wp r) (r_wd r))
  end.

(** * The cluster: correct replicas, all executing the agreed [log], interleaved arbitrarily. State transfer takes a checkpoint of
    another correct replica (f+1 replicas vouch for it, C32, C33). *)
Inductive ev :=
| Accept (i : nat) (n : Z) | Exec (i : nat) | Stable (i : nat) (n : Z) | Unwedge (i : nat) (m : Z)
| Restart (i : nat) | UnwedgeRestart (i : nat) (m : Z) (again : nat) | Transfer (i j : nat) (n : Z) | Prune (i : nat).
Definition cluster := nat -> rep.
Definition put (R : cluster) (i : nat) (r : rep) : cluster := fun k => if Nat.eqb k i then r else R k.
Definition lift (R : cluster) (i : nat) (o : option rep) : option cluster := match o with Some r => Some (put R i r) | None => None end.
Definition snapAt (r : rep) (n : Z) : option chain := match find (fun p => fst p =? n) (r_snap r) with Some (_, c) => Some c | None => None end.
Definition step (log : Z -> list cmd) (R : cluster) (e : ev) : option cluster :=
  match e with
  | Accept i n => lift R i (accept (R i) n)
  | Exec i => lift R i (exec log (R i))
  | Stable i n => lift R i (stable (R i) n)
  | Unwedge i m => if r_le (R i) =? m then lift R i (unwedge (R i)) else None
  | Restart i => Some (put R i (start (R i) false))
  | UnwedgeRestart i m k => if r_le (R i) =? m then lift R i (unwedgeRestart (R i) k) else None
  | Transfer i j n => match snapAt (R j) n with Some c => lift R i (transfer (R i) n c) | None => None end
  | Prune i => lift R i (pruneKw (R i))
  end.
Fixpoint run (log : Z -> list cmd) (R : cluster) (evs : list ev) : option cluster :=
  match evs with [] => Some R | e :: evs => match step log R e with Some R' => run log R' evs | None => None end end.
Definition R0 : cluster := fun _ => rep0.

(** * Specification *)
(** The log orders a stop at number s. *)
Definition ordersStop (log : Z -> list cmd) (s : Z) : Prop := 1 <= s /\ exists c, In c (log s) /\ (c = CWedge \/ c = CAddRemove \/ c = CRestart \/ c = CInstall).
(** The checkpoint to stop at when ordered at s: the second multiple of 150 after s (s itself not counted). *)
Definition secondCheckpointAfter (s m : Z) : Prop := m mod CW = 0 /\ s + CW < m <= s + 2 * CW.
(** m is a stop point of the log: the last order up to m names it. *)
Definition stopPoint (log : Z -> list cmd) (m : Z) : Prop :=
  exists s, ordersStop log s /\ s <= m /\ secondCheckpointAfter s m /\ forall s', s < s' <= m -> ~ ordersStop log s'.
Definition noInstall (log : Z -> list cmd) : Prop := forall n, ~ In CInstall (log n).

(** Events without the cases refuted below. A state transfer does not bring a replica into an epoch in which a stop is already ordered
    (it knows the epoch, or no stop was ordered in it); the block of an order still in force is not pruned; no crash inside the start of
    a new epoch. *)
Definition mild (R : cluster) (e : ev) : Prop :=
  match e with
  | Transfer i j n => forall c s ep, snapAt (R j) n = Some c -> c_kw c = Some (s, ep) -> ep = c_ep c -> r_self (R i) = c_ep c
  | Prune i => forall s ep, c_kw (r_ch (R i)) = Some (s, ep) -> ep < c_ep (r_ch (R i))
  | UnwedgeRestart _ _ k => k = 0%nat
  | _ => True
  end.
Fixpoint mildRun (log : Z -> list cmd) (R : cluster) (evs : list ev) : Prop :=
  match evs with [] => True | e :: evs => mild R e /\ match step log R e with Some R' => mildRun log R' evs | None => True end end.
(** Some replica is let go on at stop point m. *)
Definition released (evs : list ev) (m : Z) : Prop := exists i k, In (Unwedge i m) evs \/ In (UnwedgeRestart i m k) evs.

(** * Restart proof (ReplicasRestartReadyProofMsg.cpp, ReplicaRestartReadyMsg.hpp), on decoded messages. *)
Record ready := mkRd { rd_id : nat; rd_seq : Z; rd_epoch : Z; rd_reason : nat; rd_extra : list N; rd_sig : list N }.
Record proof := mkPf { pf_id : nat; pf_seq : Z; pf_epoch : Z; pf_reason : nat; pf_elems : list ready }.
Section RestartProof.
Context (sigOk : nat -> ready -> bool).   (* SigManager::verifySig of the element's bytes with the key of the given replica *)
Context (nrep f : nat).
Definition goodReason (x : nat) : bool := Nat.eqb x 0 || Nat.eqb x 1.
(** checkElements, 99-141. *)
Definition elemOk (me : nat) (seq : Z) (x : ready) : bool :=
  (rd_seq x =? seq) && goodReason (rd_reason x) && (Nat.eqb me (rd_id x) || sigOk (rd_id x) x).
(** validate, 79-97. *)
Definition proofOk (me : nat) (epoch : Z) (p : proof) : bool :=
  Nat.ltb (pf_id p) nrep && (pf_epoch p =? epoch) && goodReason (pf_reason p) &&
  Nat.leb (nrep - f) (length (pf_elems p)) && forallb (elemOk me (pf_seq p)) (pf_elems p).
(** onRestartProof, ControlStateManager.cpp:56-77: does the replica restart? [bft]: restartBftEnabled_, [st]: isOnStableCheckpoint,
    [sst]: isOnNOutOfNCheckpoint, [wp]: the stop point. *)
Definition restarts (bft st sst : bool) (wp seq : Z) : bool := ((bft && st) || sst) && negb (wp =? 0) && negb (seq =? 0).
(** Handling a received message: ReplicaImp.cpp:3942-3952 after validation. *)
Definition onProof (me : nat) (epoch : Z) (bft st sst : bool) (wp : Z) (p : proof) : bool := proofOk me epoch p && restarts bft st sst wp (pf_seq p).

(** Collecting ready messages, ReplicaImp.cpp:3531-3553, 3913-3940: the first message of each replica is kept (the replica's own
    replaces it); when the target number is reached the proof is made of all of them (3954-3972). *)
Definition target (bft : bool) : nat := if bft then nrep - f else nrep.
Definition readyOk (epoch : Z) (x : ready) : bool := Nat.ltb (rd_id x) nrep && (rd_epoch x =? epoch) && goodReason (rd_reason x) && sigOk (rd_id x) x.
Definition onReady (bft : bool) (wp : Z) (me : nat) (epoch : Z) (reason : nat) (l : list ready) (x : ready) : list ready * option proof :=
  if negb (readyOk epoch x) then (l, None)
  else if existsb (fun y => Nat.eqb (rd_id y) (rd_id x)) l then (l, None)
  else let l := l ++ [x] in
       (l, if Nat.eqb (length l) (target bft) && negb (wp =? 0) then Some (mkPf me wp epoch reason l) else None).
End RestartProof.
