(** The queues of received messages and the dispatching thread: bftengine/src/bftengine/IncomingMsgsStorageImp.cpp, .hpp, MsgReceiver.cpp, MsgHandlersRegistrator.hpp.
    Every push runs under the lock, and the dispatching thread takes both queues under the lock; so a run is a sequence of pushes and of dispatches in any order. The wait for the condition variable is in the
    dispatch that follows it. Messages are numbers; types and lengths are given by functions. Timers are in Timers_Model.v. Left out: metrics, logs, the ids of threads. *)
From Coq Require Import List Arith Bool.
Import ListNotations.

(** MsgCode::Type of a message, its length, the largest length allowed, the length of a header, the types that have a handler, maxNumberOfPendingExternalMsgs_ (20000, IncomingMsgsStorageImp.hpp:72). *)
Record cfg := mkCfg { k_type : nat -> nat; k_len : nat -> nat; k_maxLen : nat; k_hdr : nat; k_known : nat -> bool; k_cap : nat }.
Inductive item := Ext (m : nat) | Int (m : nat).
Record st := mkSt {
  pe : list nat; pi : list nat;        (* ptrProtectedQueueForExternalMessages_, ptrProtectedQueueForInternalMessages_ *)
  le : list nat; li : list nat;        (* ptrThreadLocalQueueForExternalMessages_, ptrThreadLocalQueueForInternalMessages_ *)
  dropped : nat;                       (* dropped_msgs *)
  stopped : bool;                      (* stopped_ *)
  out : list (option item);            (* what the dispatching thread found at each turn, oldest first *)
  ran : list item;                     (* the messages given to a handler *)
  popped : list nat }.                 (* the external messages whose onMsgPopped callback ran *)

Section Inq.
Context (k : cfg).
(** pushExternalMsg, IncomingMsgsStorageImp.cpp:71-90: the result and the state. *)
Definition pushE (m : nat) (s : st) : bool * st :=
  if k_cap k <=? length (pe s) then (false, mkSt (pe s) (pi s) (le s) (li s) (S (dropped s)) (stopped s) (out s) (ran s) (popped s))
  else (true, mkSt (pe s ++ [m]) (pi s) (le s) (li s) 0 (stopped s) (out s) (ran s) (popped s)).
(** pushInternalMsg, 103-107. *)
Definition pushI (m : nat) (s : st) : st := mkSt (pe s) (pi s ++ [m]) (le s) (li s) (dropped s) (stopped s) (out s) (ran s) (popped s).
(** MsgReceiver::onNewMessage, MsgReceiver.cpp:26-44. *)
Definition receive (m : nat) (s : st) : bool * st := if k_maxLen k <? k_len k m then (false, s) else if k_len k m <? k_hdr k then (false, s) else pushE m s.
(** popThreadLocal, 145-161: the callback runs before the message is taken. *)
Definition popLocal (s : st) : option item * st :=
  match li s with
  | m :: r => (Some (Int m), mkSt (pe s) (pi s) (le s) r (dropped s) (stopped s) (out s) (ran s) (popped s))
  | [] => match le s with
          | m :: r => (Some (Ext m), mkSt (pe s) (pi s) r (li s) (dropped s) (stopped s) (out s) (ran s) (popped s ++ [m]))
          | [] => (None, s)
          end
  end.
(** getMsgForProcessing, 110-143: the queues are swapped when the local ones are empty. *)
Definition swap (s : st) : st := mkSt (le s) (li s) (pe s) (pi s) (dropped s) (stopped s) (out s) (ran s) (popped s).
Definition getMsg (s : st) : option item * st :=
  match popLocal s with
  | (None, s1) => match pe s1, pi s1 with [], [] => (None, s1) | _, _ => popLocal (swap s1) end
  | r => r
  end.
(** One turn of dispatchMessages, 163-199; an external message without a handler is dropped. *)
Definition dispatch (s : st) : st :=
  if stopped s then s else
  let '(x, s1) := getMsg s in
  let r := match x with None => [] | Some (Ext m) => if k_known k (k_type k m) then [Ext m] else [] | Some (Int m) => [Int m] end in
  mkSt (pe s1) (pi s1) (le s1) (li s1) (dropped s1) (stopped s1) (out s1 ++ [x]) (ran s1 ++ r) (popped s1).

(** A push by a thread of this process (pre-processor, internal client), a message from the network, an internal message, a turn of the dispatching thread, stop (59-65). *)
Inductive event := PushE (m : nat) | Net (m : nat) | PushI (m : nat) | Turn | Stop.
Definition step (s : st) (e : event) : st :=
  match e with
  | PushE m => snd (pushE m s)
  | Net m => snd (receive m s)
  | PushI m => pushI m s
  | Turn => dispatch s
  | Stop => mkSt (pe s) (pi s) (le s) (li s) (dropped s) true (out s) (ran s) (popped s)
  end.
Definition start : st := mkSt [] [] [] [] 0 false [] [] [].
Definition runFrom (s : st) (l : list event) : st := fold_left step l s.
Definition run (l : list event) : st := runFrom start l.
(** The external messages that were accepted: for which the push answered true. *)
Definition accepts (s : st) (e : event) : list nat :=
  match e with PushE m => if fst (pushE m s) then [m] else [] | Net m => if fst (receive m s) then [m] else [] | _ => [] end.
Fixpoint accepted (s : st) (l : list event) : list nat := match l with [] => [] | e :: r => accepts s e ++ accepted (step s e) r end.
End Inq.

(** * Specification. *)
Definition internals (l : list event) : list nat := flat_map (fun e => match e with PushI m => [m] | _ => [] end) l.
(** What the dispatching thread took, external or internal. *)
Definition tookE (s : st) : list nat := flat_map (fun x => match x with Some (Ext m) => [m] | _ => [] end) (out s).
Definition tookI (s : st) : list nat := flat_map (fun x => match x with Some (Int m) => [m] | _ => [] end) (out s).
Definition turns (l : list event) : nat := length (filter (fun e => match e with Turn => true | _ => false end) l).
Definition pushes (l : list event) : nat := length (filter (fun e => match e with PushE _ | Net _ => true | _ => false end) l).
Definition noStop (l : list event) : Prop := ~ In Stop l.
(** All that waits. *)
Definition waiting (s : st) : nat := length (pe s) + length (pi s) + length (le s) + length (li s).
(** The messages that have a handler; all that the dispatching thread took, in order. *)
Definition known (k : cfg) (x : item) : bool := match x with Ext m => k_known k (k_type k m) | Int _ => true end.
Definition taken (s : st) : list item := flat_map (fun x => match x with Some i => [i] | None => [] end) (out s).
