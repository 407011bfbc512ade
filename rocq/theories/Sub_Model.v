(** Subscription buffers of the thin replica server (thin-replica-server/include/thin-replica-server/subscription_buffer.hpp)
    and the legacy-event subscription loop (thin_replica_impl.hpp: SubscribeToUpdates, syncAndSend).
    Model only; the theorems are in Sub_Props.v. *)
From Coq Require Import List Arith Bool Lia.
Import ListNotations.

Section Buffer.
Context {A : Type}.  (* an update *)
Context (idOf : A -> nat).

(** SubUpdateBuffer, subscription_buffer.hpp:47-293 (the block queue; the event-group half, lines 81-96 and 133-164, is the
    same code on its own queue, flag and counter). [cap] is the [size] given to boost's spsc_queue (line 51), whose push fails
    exactly when [cap] elements are stored. Every member function holds the mutex for its whole body, so each is one atomic step. *)
Record buf := mkBuf { queue : list A; tooSlow : bool; newest : nat }.

(** Constructor, subscription_buffer.hpp:49-56. *)
Definition buf0 : buf := mkBuf [] false 0.

(** Push, subscription_buffer.hpp:63-78: [if (!too_slow_ && !queue_.push(update)) too_slow_ = true; else newest_block_id_ = id].
    When the buffer is already too slow, nothing is queued but the counter is still written. *)
Definition push (cap : nat) (u : A) (b : buf) : buf :=
  if tooSlow b then mkBuf (queue b) true (idOf u)
  else if length (queue b) <? cap then mkBuf (queue b ++ [u]) false (idOf u)
  else mkBuf (queue b) true (newest b).

(** Result of one read. [Blocked] stands for Pop waiting (line 102) or TryPop's timeout returning false (line 129). *)
Inductive popRes := Got (u : A) | Blocked | Throw.

(** Pop and TryPop, subscription_buffer.hpp:99-111 and 113-130: throws ConsumerTooSlow whenever the flag is set. *)
Definition pop (b : buf) : popRes * buf :=
  if tooSlow b then (Throw, b)
  else match queue b with
       | [] => (Blocked, b)
       | u :: q => (Got u, mkBuf q false (newest b))
       end.

(** removeAllUpdates, subscription_buffer.hpp:190-193: empties the queue; [too_slow_] is left as it is. *)
Definition removeAll (b : buf) : buf := mkBuf [] (tooSlow b) (newest b).

(** Operations on one buffer, and the observable result of a run: the list of outcomes of its reads. *)
Inductive bop := Push (u : A) | Pop | RemoveAll.
Definition bstep (cap : nat) (b : buf) (o : bop) : buf * list popRes :=
  match o with
  | Push u => (push cap u b, [])
  | Pop => let (r, b') := pop b in (b', [r])
  | RemoveAll => (removeAll b, [])
  end.
Fixpoint brun (cap : nat) (b : buf) (l : list bop) : buf * list popRes :=
  match l with
  | [] => (b, [])
  | o :: l => let (b1, r1) := bstep cap b o in let (b2, r2) := brun cap b1 l in (b2, r1 ++ r2)
  end.

(** newestBlockId, subscription_buffer.hpp:203-210 ([None] = the assertion that the queue is not empty fails). *)
Definition newestBlockId (b : buf) : option nat := match queue b with [] => None | _ => Some (newest b) end.
(** oldestBlockId, subscription_buffer.hpp:223-228. *)
Definition oldestBlockId (b : buf) : option nat := match queue b with [] => None | u :: _ => Some (idOf u) end.

(** Specification vocabulary: what was pushed, what a reader got, whether a push was ever lost. *)
Fixpoint pushes (l : list bop) : list A := match l with [] => [] | Push u :: l => u :: pushes l | _ :: l => pushes l end.
Fixpoint got (l : list popRes) : list A := match l with [] => [] | Got u :: l => u :: got l | _ :: l => got l end.
End Buffer.
Arguments buf : clear implicits.
Arguments popRes : clear implicits.
Arguments bop : clear implicits.

(** SubBufferList, subscription_buffer.hpp:299-349: buffers are identified by a handle; the unordered set is an association list. *)
Section BufList.
Context {A : Type}.
Context (idOf : A -> nat).
Definition subList := list (nat * buf A).
(** addBuffer, subscription_buffer.hpp:308-312: false when the handle is present already. *)
Definition addBuffer (h : nat) (b : buf A) (s : subList) : bool * subList :=
  if existsb (fun p => fst p =? h) s then (false, s) else (true, (h, b) :: s).
(** removeBuffer, subscription_buffer.hpp:315-319 ([None] = assertion). *)
Definition removeBuffer (h : nat) (s : subList) : option subList :=
  if existsb (fun p => fst p =? h) s then Some (filter (fun p => negb (fst p =? h)) s) else None.
(** updateSubBuffers, subscription_buffer.hpp:325-330. *)
Definition updateSubBuffers (cap : nat) (u : A) (s : subList) : subList := map (fun p => (fst p, push idOf cap u (snd p))) s.
Definition getBuf (h : nat) (s : subList) : option (buf A) := option_map snd (find (fun p => fst p =? h) s).
End BufList.

Section Stream.
Context {P V : Type}.
Context (flt : P -> V).  (* KvbAppFilter::filterUpdate / filterKeyValuePairs for this client, and hashUpdate for hash streams *)
Context (cap : nat).     (* kSubUpdateBufferSize, thin_replica_impl.hpp:117 *)
Context (start : nat).   (* request->events().block_id() *)

(** Where the subscriber thread stands in SubscribeToUpdates (thin_replica_impl.hpp:254-478) and syncAndSend (934-1000). *)
Inductive pc :=
| PCheck                 (* 279-281: isRequestOutOfRange (598-603), isUpdatePruned (621-627) *)
| PAdd                   (* 283: subscribeToLiveUpdates (1239-1250) *)
| PLast                  (* 365-367: read last block id, decide to wait *)
| PWait (l : nat)        (* 374-389: wait for a live update with id > l, dropping older ones *)
| PSync                  (* 397: ConcordAssertGT(start_block_id, 0); 941-948: pruned check *)
| PEnd                   (* 949-951: end = getLastBlockId, ConcordAssertLE(start, end) *)
| PRead (cur en : nat)   (* 956: readAndSend [start, end]; cur is the next block to send *)
| PWait2 (en : nat)      (* 959-970 *)
| PCmp (en : nat)        (* 973-975 *)
| PGap (en : nat)        (* 983-985 *)
| PGapRead (cur en : nat)(* 988 *)
| PLe (en : nat)         (* 994 *)
| PDrop (en : nat)       (* 996-999 *)
| PLive                  (* 425-465 *)
| PDone                  (* returned: cancelled, error status, stream closed, or exception *)
| PAbort.                (* a ConcordAssert failed *)

(** [blocks]: the chain, block i being the i-th element, from 1 (rostorage). [genesis]: oldest readable block.
    [pushed]: id of the last block handed to (or withheld from) the subscriber list. *)
Record st := mkS { blocks : list P; genesis : nat; pushed : nat; subscribed : bool; sb : buf (nat * P); at_ : pc; out : list (nat * V);
                   fresh : bool (* no update pushed since subscribing; specification only *) }.
Definition blockAt (s : st) (i : nat) : option P := nth_error (blocks s) (i - 1).
Definition lastId (s : st) : nat := length (blocks s).
Definition setAt (p : pc) (s : st) : st := mkS (blocks s) (genesis s) (pushed s) (subscribed s) (sb s) p (out s) (fresh s).
Definition setBuf (b : buf (nat * P)) (s : st) : st := mkS (blocks s) (genesis s) (pushed s) (subscribed s) b (at_ s) (out s) (fresh s).
Definition emit (i : nat) (v : V) (s : st) : st := mkS (blocks s) (genesis s) (pushed s) (subscribed s) (sb s) (at_ s) (out s ++ [(i, v)]) (fresh s).

(** The rest of the replica: the commands handler stores a block and later hands it to updateSubBuffers (the order stated at
    thin_replica_impl.hpp:372); blocks fetched by state transfer are stored and may never be handed over ([ESkip]); pruning moves genesis. *)
Inductive env : st -> st -> Prop :=
| EStore s p : env s (mkS (blocks s ++ [p]) (max 1 (genesis s)) (pushed s) (subscribed s) (sb s) (at_ s) (out s) (fresh s))
| EPush s p : pushed s < lastId s -> blockAt s (S (pushed s)) = Some p ->
    env s (mkS (blocks s) (genesis s) (S (pushed s)) (subscribed s)
             (if subscribed s then push fst cap (S (pushed s), p) (sb s) else sb s) (at_ s) (out s) (if subscribed s then false else fresh s))
| EPrune s g : genesis s <= g -> g <= lastId s -> env s (mkS (blocks s) g (pushed s) (subscribed s) (sb s) (at_ s) (out s) (fresh s)).
Inductive skip : st -> st -> Prop :=
| ESkip s : pushed s < lastId s -> skip s (mkS (blocks s) (genesis s) (S (pushed s)) (subscribed s) (sb s) (at_ s) (out s) (fresh s)).

(** One step of the subscriber thread. A stored block can be read unless it was pruned meanwhile (kvbc_app_filter.cpp:277-284),
    in which case the reader throws; throws, cancellation and a closed stream end the subscription. The reader's intermediate queue
    of ten updates (thin_replica_impl.hpp:758-811) is a FIFO between two loops of this thread and is not modelled; event groups are off. *)
Inductive sub : st -> st -> Prop :=
| SCheck s : at_ s = PCheck ->
    sub s (setAt (if (start <=? S (lastId s)) && (genesis s <=? start) then PAdd else PDone) s)
| SAdd s : at_ s = PAdd -> sub s (mkS (blocks s) (genesis s) (pushed s) true buf0 PLast (out s) true)
| SLast s : at_ s = PLast -> sub s (setAt (if start =? S (lastId s) then PWait (lastId s) else PSync) s)
| SWaitGo s l i : at_ s = PWait l -> oldestBlockId fst (sb s) = Some i -> S l <= i -> sub s (setAt PSync s)
| SWaitDrop s l i u b : at_ s = PWait l -> oldestBlockId fst (sb s) = Some i -> i < S l -> pop (sb s) = (Got u, b) -> sub s (setBuf b s)
| SWaitThrow s l i b : at_ s = PWait l -> oldestBlockId fst (sb s) = Some i -> i < S l -> pop (sb s) = (Throw, b) -> sub s (setAt PDone s)
| SSync s : at_ s = PSync ->
    sub s (setAt (if start =? 0 then PAbort else if start <? genesis s then PDone else PEnd) s)
| SEnd s : at_ s = PEnd -> sub s (setAt (if start <=? lastId s then PRead start (lastId s) else PAbort) s)
| SRead s cur en p : at_ s = PRead cur en -> cur <= en -> blockAt s cur = Some p -> genesis s <= cur -> sub s (emit cur (flt p) (setAt (PRead (S cur) en) s))
| SReadFail s cur en : at_ s = PRead cur en -> cur <= en -> blockAt s cur = None \/ cur < genesis s -> sub s (setAt PDone s)
| SReadEnd s cur en : at_ s = PRead cur en -> en < cur -> sub s (setAt (PWait2 en) s)
| SWait2 s en i : at_ s = PWait2 en -> oldestBlockId fst (sb s) = Some i -> sub s (setAt (PCmp en) s)
| SCmp s en : at_ s = PCmp en ->
    sub s (setAt (match oldestBlockId fst (sb s) with None => PAbort | Some i => if i =? S en then PLive else PGap en end) s)
| SGap s en : at_ s = PGap en ->
    sub s (setAt (match oldestBlockId fst (sb s), newestBlockId (sb s) with
                  | Some i, Some n => if S en <? i then PGapRead (S en) n else PLe en
                  | _, _ => PAbort end) s)
| SGapRead s cur en p : at_ s = PGapRead cur en -> cur <= en -> blockAt s cur = Some p -> genesis s <= cur -> sub s (emit cur (flt p) (setAt (PGapRead (S cur) en) s))
| SGapFail s cur en : at_ s = PGapRead cur en -> cur <= en -> blockAt s cur = None \/ cur < genesis s -> sub s (setAt PDone s)
| SGapEnd s cur en : at_ s = PGapRead cur en -> en < cur -> sub s (setAt (PLe en) s)
| SLe s en : at_ s = PLe en ->
    sub s (setAt (match oldestBlockId fst (sb s) with None => PAbort | Some i => if i <=? en then PDrop en else PAbort end) s)
| SDrop s en u b : at_ s = PDrop en -> pop (sb s) = (Got u, b) -> sub s (setAt (if fst u <? en then PDrop en else PLive) (setBuf b s))
| SDropThrow s en b : at_ s = PDrop en -> pop (sb s) = (Throw, b) -> sub s (setAt PDone s)
| SLive s u b : at_ s = PLive -> pop (sb s) = (Got u, b) -> sub s (emit (fst u) (flt (snd u)) (setBuf b s))
| SLiveThrow s b : at_ s = PLive -> pop (sb s) = (Throw, b) -> sub s (setAt PDone s)
| SCancel s : at_ s <> PAbort -> sub s (setAt PDone s).

(** The chain before the request: [g] is the genesis id (0 when the chain is empty), [p] the last id handed over. *)
Definition init (bl : list P) (g p : nat) : st := mkS bl g p false buf0 PCheck [] true.
Definition initOk (bl : list P) (g p : nat) : Prop := p <= length bl /\ g <= length bl /\ (1 <= length bl -> 1 <= g).

(** Executions. Blocks may be withheld from the subscribers (state transfer) only as long as none was handed to this one. *)
Inductive reach (bl : list P) (g p : nat) : st -> Prop :=
| r0 : reach bl g p (init bl g p)
| rEnv s s' : reach bl g p s -> env s s' -> reach bl g p s'
| rSub s s' : reach bl g p s -> sub s s' -> reach bl g p s'
| rSkip s s' : reach bl g p s -> fresh s = true -> skip s s' -> reach bl g p s'.

(** Executions in which blocks may be withheld at any time. *)
Inductive reachAny (bl : list P) (g p : nat) : st -> Prop :=
| a0 : reachAny bl g p (init bl g p)
| aEnv s s' : reachAny bl g p s -> env s s' -> reachAny bl g p s'
| aSub s s' : reachAny bl g p s -> sub s s' -> reachAny bl g p s'
| aSkip s s' : reachAny bl g p s -> skip s s' -> reachAny bl g p s'.

(** Specification: the stream so far is the filtered content of blocks start, start+1, ... of the chain, each once, in order. *)
Definition inOrder (s : st) : Prop := forall k o, nth_error (out s) k = Some o -> fst o = start + k /\ option_map flt (blockAt s (start + k)) = Some (snd o).
End Stream.
Arguments st : clear implicits.
