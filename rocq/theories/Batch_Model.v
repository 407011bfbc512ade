(** How the primary turns requests into proposals: its queue, the batching policies, and the sending of PrePrepare messages. bftengine/src/bftengine/ReplicaImp.cpp, RequestsBatchingLogic.cpp,
    messages/PrePrepareMsg.cpp. The table of clients has here only the pending requests and the recorded replies (C08 models it); the content of requests is left out. No overflow of numbers. *)
From Coq Require Import List Arith Bool.
Import ListNotations.

(** A client request: client, number, size of the message. *)
Record req := mkRq { r_cl : nat; r_sq : nat; r_sz : nat }.
Definition key (r : req) : nat * nat := (r_cl r, r_sq r).
(** BatchingPolicy, RequestsBatchingLogic.hpp. *)
Inductive policy := SelfAdjusted | ByNum (n : nat) | BySize (n : nat) | Adaptive.
(** Configuration: [k_async] prePrepareFinalizeAsyncEnabled; replicas and own id; kWorkWindowSize, concurrencyLevel, maxPrimaryQueueSize, maxNumOfReqsPerClient, maxExternalMessageSize,
    batchingFactorCoefficient, maxInitialBatchSize; valid clients; [k_over]: the header of a PrePrepare message with the span context of its first request and the batch's correlation id. *)
Record cfg := mkCfg { k_async : bool; k_n : nat; k_me : nat; k_win : nat; k_conc : nat; k_maxQ : nat; k_maxReqs : nat; k_maxMsg : nat; k_policy : policy; k_coef : nat; k_init : nat;
  k_valid : nat -> bool; k_over : req -> nat }.
(** A proposal: view in the message, current view of the sender and whether it is active, number, requests, lastStableSeqNum and lastExecutedSeqNum + activeExecutions_ when sent. *)
Record proposal := mkPr { p_msg : nat; p_view : nat; p_active : bool; p_seq : nat; p_reqs : list req; p_stable : nat; p_exec : nat }.
Record st := mkSt {
  view : nat; active : bool;
  queue : list req; combined : nat;              (* requestsQueueOfPrimary, primaryCombinedReqSize *)
  last : nat; stable : nat; exec : nat; execs : nat;   (* primaryLastUsedSeqNum, lastStableSeqNum, lastExecutedSeqNum, activeExecutions_ *)
  pend : list (nat * nat); done : list (nat * nat);    (* clients manager: requests in process, recorded replies *)
  transit : list (nat * list req);               (* messages finished by other threads, numOfTransientPreprepareMsgs_; with the view in them *)
  collecting : bool; pruning : bool; wedged : bool; stopAt : option nat;
  factor : nat; recent : nat; maxNum : nat;      (* batchingFactor_, maxNumberOfPendingRequestsInRecentHistory_, maxNumOfRequestsInBatch_ *)
  sent : list proposal; taken : list (nat * req) }.   (* what has been sent; what was put into the queue, and in which view *)

Section Batch.
Context (k : cfg).
Definition prim (s : st) : bool := view s mod k_n k =? k_me k.   (* isCurrentPrimary *)
Definition mem (x : nat * nat) (l : list (nat * nat)) : bool := existsb (fun y => (fst y =? fst x) && (snd y =? snd x)) l.
(** canBecomePending, ClientsManager.cpp:505-530. *)
Definition canBecome (r : req) (p d : list (nat * nat)) : bool :=
  k_valid k (r_cl r) && negb (length (filter (fun y => fst y =? r_cl r) p) =? k_maxReqs k) && negb (mem (key r) p) && negb (mem (key r) d).
(** isSeqNumToStopAt, ReplicaImp.cpp:948-957. *)
Definition stops (n : nat) (s : st) : bool := pruning s || wedged s || match stopAt s with Some m => m <? n | None => false end.
(** checkSendPrePrepareMsgPrerequisites, 562-609. *)
Definition next (s : st) : nat := last s + length (transit s) + 1.
Definition ready (s : st) : bool :=
  prim s && negb (collecting s) && active s && negb (stops (next s) s) && (next s <=? stable s + k_win k) && (next s <=? exec s + k_conc k + execs s) && negb (length (queue s) =? 0).

Definition withQueue (q : list req) (c : nat) (s : st) : st :=
  mkSt (view s) (active s) q c (last s) (stable s) (exec s) (execs s) (pend s) (done s) (transit s) (collecting s) (pruning s) (wedged s) (stopAt s) (factor s) (recent s) (maxNum s) (sent s) (taken s).
Definition withPend (p d : list (nat * nat)) (s : st) : st :=
  mkSt (view s) (active s) (queue s) (combined s) (last s) (stable s) (exec s) (execs s) p d (transit s) (collecting s) (pruning s) (wedged s) (stopAt s) (factor s) (recent s) (maxNum s) (sent s) (taken s).
Definition withTransit (t : list (nat * list req)) (s : st) : st :=
  mkSt (view s) (active s) (queue s) (combined s) (last s) (stable s) (exec s) (execs s) (pend s) (done s) t (collecting s) (pruning s) (wedged s) (stopAt s) (factor s) (recent s) (maxNum s) (sent s) (taken s).
Definition withFactor (f r : nat) (s : st) : st :=
  mkSt (view s) (active s) (queue s) (combined s) (last s) (stable s) (exec s) (execs s) (pend s) (done s) (transit s) (collecting s) (pruning s) (wedged s) (stopAt s) f r (maxNum s) (sent s) (taken s).

(** removeDuplicatedRequestsFromRequestsQueue, 611-621. *)
Fixpoint strip (p d : list (nat * nat)) (q : list req) (c : nat) : list req * nat :=
  match q with [] => ([], c) | r :: t => if canBecome r p d then (q, c) else strip p d t (c - r_sz r) end.
Definition unDup (s : st) : st := let '(q, c) := strip (pend s) (done s) (queue s) (combined s) in withQueue q c s.

(** addRequestToPrePrepareMessage, 709-729, and the loops of buildPrePrepareMessage, ...ByRequestsNum, ...ByBatchSize, 814-867: [cont n used] whether the loop goes on with n requests of [used] bytes
    in a message with room for [cap]. The requests added, what is left of the queue, its size, the pending requests. *)
Fixpoint fill (cont : nat -> nat -> bool) (cap : nat) (d : list (nat * nat)) (q : list req) (c n used : nat) (p : list (nat * nat)) : list req * (list req * nat * list (nat * nat)) :=
  match q with
  | [] => ([], ([], c, p))
  | r :: t =>
      if cont n used then
        if (r_sz r <=? cap - used) && canBecome r p d then
          let '(b, x) := fill cont cap d t (c - r_sz r) (S n) (used + r_sz r) (key r :: p) in (r :: b, x)
        else fill cont cap d t (c - r_sz r) n used p
      else ([], (q, c, p))
  end.
(** The room for requests, PrePrepareMsg.cpp:148-188. *)
Definition room (c over : nat) : nat := if c + over <? k_maxMsg k then c else k_maxMsg k - over.

(** startConsensusProcess, 869-943. *)
Definition propose (m : nat * list req) (s : st) : st :=
  if negb (prim s) then s else
  mkSt (view s) (active s) (queue s) (combined s) (S (last s)) (stable s) (exec s) (execs s) (pend s) (done s) (transit s) (collecting s) (pruning s) (wedged s) (stopAt s) (factor s) (recent s) (maxNum s)
       (sent s ++ [mkPr (fst m) (view s) (active s) (S (last s)) (snd m) (stable s) (exec s + execs s)]) (taken s).
(** createPrePrepareMessage, 687-707, the loop, and finishAddingRequestsToPrePrepareMsg, 737-810, followed by startConsensusProcess when a message is there. *)
Definition build (cont : nat -> nat -> bool) (s : st) : st :=
  match queue s with
  | [] => s
  | r0 :: _ =>
      let '(b, (q, c, p)) := fill cont (room (combined s) (k_over k r0)) (done s) (queue s) (combined s) 0 0 (pend s) in
      let s := withPend p (done s) (withQueue q c s) in
      if length b =? 0 then s
      else if k_async k then withTransit (transit s ++ [(view s, b)]) s
      else propose (view s, b) s
  end.
(** buildPrePrepareMsgBatchByRequestsNum, buildPrePrepareMsgBatchByOverallSize, 625-653. *)
Definition byNum (n : nat) (s : st) : st := if (length (queue s) <? n) || negb (ready s) then s else build (fun m _ => m <? n) (unDup s).
Definition bySize (n : nat) (s : st) : st := if (combined s <? n) || negb (ready s) then s else build (fun _ u => u <? n) (unDup s).
Definition all (_ _ : nat) : bool := true.
(** batchRequestsSelfAdjustedPolicy, RequestsBatchingLogic.cpp:57-88. *)
Definition selfAdjusted (s : st) : st :=
  let s := withFactor (factor s) (Nat.max (recent s) (length (queue s))) s in
  let diff := last s + 1 - exec s in
  let least := if 2 <=? diff then Nat.min (diff * factor s) (k_init k) else 1 in
  if length (queue s) <? least then s
  else build all (if (last s + 1) mod k_win k =? 0 then withFactor (Nat.max 1 (recent s / k_coef k)) 0 s else s).
(** batchRequests, 116-162. *)
Definition batch (s : st) : st :=
  if length (queue s) =? 0 then s else
  match k_policy k with SelfAdjusted => selfAdjusted s | ByNum n => byNum n s | BySize n => bySize n s | Adaptive => byNum (maxNum s) s end.
(** tryToSendPrePrepareMsg, ReplicaImp.cpp:655-685. *)
Definition try (logic : bool) (s : st) : st :=
  if negb (ready s) then s else let s := unDup s in if logic then batch s else build all s.

(** onMessage<ClientRequestMsg>, 396-530, for requests that are not read only. *)
Definition onRequest (r : req) (s : st) : st :=
  if negb (k_valid k (r_cl r)) then s else
  if (prim s && stops (last s + 1) s) || stops (exec s + execs s + 1) s || negb (active s) then s else
  if mem (key r) (done s) then s else
  if negb (canBecome r (pend s) (done s)) then s else
  if prim s then
    if k_maxQ k <=? length (queue s) then s
    else let s := withQueue (queue s ++ [r]) (combined s + r_sz r) s in
         try true (mkSt (view s) (active s) (queue s) (combined s) (last s) (stable s) (exec s) (execs s) (pend s) (done s) (transit s) (collecting s) (pruning s) (wedged s) (stopAt s) (factor s) (recent s) (maxNum s)
                        (sent s) (taken s ++ [(view s, r)]))
  else withPend (key r :: pend s) (done s) s.

Inductive event :=
| Request (r : req)
| Flush                          (* the timer, RequestsBatchingLogic.cpp:46-55; also with control commands *)
| Poke                           (* after an execution, ReplicaImp.cpp:5392, 5879 *)
| Finalised (i : nat)            (* a message is finished by its thread, onInternalMsg, 1523-1541 *)
| Progress (e a st : nat)        (* executions start and end, checkpoints get stable *)
| Jump (n : nat)                 (* a state transfer ends, 3365 *)
| Finish (x : nat * nat) (reply : bool)   (* a request is not pending any more, with or without a recorded reply *)
| Forget (x : nat * nat)         (* a recorded reply is replaced *)
| Leave (v : nat)                (* moves to a higher view *)
| Enter (l : nat)                (* onNewView, 3084-3220: l the last number of the new view's restrictions *)
| Collect (b : bool) | Prune (b : bool) | Wedge (b : bool) | StopAt (o : option nat)
| Resize (n : nat).              (* adjustPreprepareSize, RequestsBatchingLogic.cpp:90-114; any positive size (floating point is not modelled) *)
Definition setNums (l st e a : nat) (s : Batch_Model.st) : Batch_Model.st :=
  mkSt (view s) (active s) (queue s) (combined s) l st e a (pend s) (done s) (transit s) (collecting s) (pruning s) (wedged s) (stopAt s) (factor s) (recent s) (maxNum s) (sent s) (taken s).
Definition setView (v : nat) (b : bool) (s : Batch_Model.st) : Batch_Model.st :=
  mkSt v b (queue s) (combined s) (last s) (stable s) (exec s) (execs s) (pend s) (done s) (transit s) (collecting s) (pruning s) (wedged s) (stopAt s) (factor s) (recent s) (maxNum s) (sent s) (taken s).
Definition setFlags (c p w : bool) (o : option nat) (n : nat) (s : Batch_Model.st) : Batch_Model.st :=
  mkSt (view s) (active s) (queue s) (combined s) (last s) (stable s) (exec s) (execs s) (pend s) (done s) (transit s) c p w o (factor s) (recent s) n (sent s) (taken s).
(** The queue is emptied in onNewView, 3210-3213. *)
Definition clear (q : list req) (c : nat) : nat := fold_left (fun c r => c - r_sz r) q c.
Definition step (s : st) (e : event) : st :=
  match e with
  | Request r => onRequest r s
  | Flush => try false s
  | Poke => try true s
  | Finalised i =>
      match nth_error (transit s) i with
      | None => s
      | Some m => let s := withTransit (firstn i (transit s) ++ skipn (S i) (transit s)) s in if collecting s || pruning s then s else propose m s
      end
  | Progress e a t => if (exec s <=? e) && (exec s + execs s <=? e + a) && (e + a <=? last s) && (stable s <=? t) && (t <=? e) then setNums (last s) t e a s else s
  | Jump n => (* messages of state transfer wait for executions, 388-391 *) if (exec s <? n) && (execs s =? 0) then setNums (Nat.max (last s) n) n n 0 s else s
  | Finish x b => withPend (filter (fun y => negb ((fst y =? fst x) && (snd y =? snd x))) (pend s)) (if b then x :: done s else done s) s
  | Forget x => withPend (pend s) (filter (fun y => negb ((fst y =? fst x) && (snd y =? snd x))) (done s)) s
  | Leave v => if view s <? v then setView v false s else s
  | Enter l => if active s || negb (execs s =? 0) || negb (exec s <=? l) || negb (l <=? stable s + k_win k) then s
               else withPend [] (done s) (withQueue [] (clear (queue s) (combined s)) (setView (view s) true (setNums l (stable s) (exec s) 0 s)))
  | Collect b => setFlags b (pruning s) (wedged s) (stopAt s) (maxNum s) s
  | Prune b => setFlags (collecting s) b (wedged s) (stopAt s) (maxNum s) s
  | Wedge b => setFlags (collecting s) (pruning s) b (stopAt s) (maxNum s) s
  | StopAt o => setFlags (collecting s) (pruning s) (wedged s) o (maxNum s) s
  | Resize n => if n =? 0 then s else setFlags (collecting s) (pruning s) (wedged s) (stopAt s) n s
  end.
Definition start : st := mkSt 0 true [] 0 0 0 0 0 [] [] [] false false false None 1 0 1 [] [].
Definition run (l : list event) : st := fold_left step l start.
End Batch.

(** * Specification. *)
Definition total (l : list req) : nat := list_sum (map r_sz l).
(** A part of a list, in the same order. *)
Inductive sub {A} : list A -> list A -> Prop :=
| sub_nil : sub [] []
| sub_keep x a b : sub a b -> sub (x :: a) (x :: b)
| sub_skip x a b : sub a b -> sub a (x :: b).
(** The requests proposed and the requests taken in view v. *)
Definition proposed (v : nat) (s : st) : list req := flat_map p_reqs (filter (fun p => p_view p =? v) (sent s)).
Definition takenIn (v : nat) (s : st) : list req := map snd (filter (fun x => fst x =? v) (taken s)).

(** A request that may be put into a message: of a known client with fewer requests in process than allowed, neither in process nor already answered. *)
Definition admissible (k : cfg) (s : st) (r : req) : Prop :=
  k_valid k (r_cl r) = true /\ length (filter (fun y => fst y =? r_cl r) (pend s)) <> k_maxReqs k /\ ~ In (key r) (pend s) /\ ~ In (key r) (done s).
(** A proposal as it should be: in the view it was sent in, which was active and is this replica's; not empty; within the windows. *)
Definition good (k : cfg) (p : proposal) : Prop :=
  p_msg p = p_view p /\ p_active p = true /\ p_view p mod k_n k = k_me k /\ p_reqs p <> [] /\ (p_stable p < p_seq p <= p_stable p + k_win k) /\ (p_exec p < p_seq p <= p_exec p + k_conc k).
Definition before (x y : proposal) : Prop := p_view x < p_view y \/ p_view x = p_view y /\ p_seq x < p_seq y.
(** With messages finished by other threads, the replica does not leave the view. *)
Definition steady (k : cfg) (l : list event) : Prop := k_async k = true -> forall v, ~ In (Leave v) l.
(** Every request leaves the table of pending ones with a recorded reply, and the replies stay. *)
Definition recorded (l : list event) : Prop := forall e, In e l -> match e with Forget _ => False | Finish _ b => b = true | _ => True end.
(** The primary of an active view that may send one more message: not in a state transfer, pruning or wedged, before the number to stop at, within the windows, with requests to send. *)
Definition maySend (k : cfg) (s : st) : Prop :=
  view s mod k_n k = k_me k /\ active s = true /\ collecting s = false /\ pruning s = false /\ wedged s = false /\ (forall m, stopAt s = Some m -> last s + length (transit s) < m) /\
  last s + length (transit s) < stable s + k_win k /\ last s + length (transit s) < exec s + execs s + k_conc k /\ queue s <> [].
