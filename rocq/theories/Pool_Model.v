(** The client pool: requests of many threads on a few clients, with batching. client/client_pool/src/concord_client_pool.cpp and
    external_client.cpp, client/client_pool/include/client/client_pool/client_pool_timer.hpp. A client is a number; every request has a
    callback (without one is for testing only). Metrics, reconfiguration signatures and time stamps are left out; an expiry of the timer
    and the outcome of a job may happen at any time. *)
From Coq Require Import List Arith Bool.
Import ListNotations.

(** A request: who waits for it, correlation id, sequence number (given, or generated at concord_client_pool.cpp:62-67), whether it may be
    batched (IsGoodForBatching, 34-36), whether its timeout is 0. *)
Record req := mkReq { rid : nat; cid : nat; seq : nat; batchable : bool; zero : bool }.
(** What a callback is called with: the reply to the request with a sequence number, or an error. *)
Inductive answer := Reply (s : nat) | Timeout | Overloaded | NotReady | Invalid.
(** A job in the thread pool: of the pending requests of its client, or of one request; whether it has begun. *)
Inductive job := JBatch (begun : bool) | JSingle (r : req) (begun : bool).

Record st := mkSt {
  queue : list nat;                      (* clients_, first to be used in front *)
  serving : nat -> bool;                 (* isServing: enough replicas are connected *)
  pend : nat -> list req;                (* pending_requests_ and pending_replies_ of a client *)
  jobs : list (nat * job);               (* clients in use *)
  post : list (nat * list req);          (* ended jobs whose result is not yet looked at (processReplies 545-551): callbacks *)
  good : nat -> bool;                    (* clientRequestExecutionResult_ of a client is SUCCESS *)
  tclient : option nat;                  (* Timer::client_ *)
  armed : bool; expired : nat;           (* a wait under way; handlers that wait for the timer's thread *)
  fired : option nat;                    (* OnBatchingTimeout called, waiting for the lock *)
  acked : list req;                      (* Acknowledged, latest last *)
  answers : list (nat * answer);         (* calls of callbacks of acknowledged requests *)
  rejected : list (nat * answer);        (* the others *)
  crashed : bool }.

Definition upd {A} (f : nat -> A) (c : nat) (x : A) : nat -> A := fun i => if i =? c then x else f i.

Section Pool.
Context (B : nat) (T : bool).   (* batch_size_; the timeout of the timer is not 0 *)

(** Timer::start, client_pool_timer.hpp:93-110: a new wait replaces one under way. Timer::cancel 122-130: the client stays. *)
Definition timerStart (c : nat) (s : st) : st :=
  if T then mkSt (queue s) (serving s) (pend s) (jobs s) (post s) (good s) (Some c) true (expired s) (fired s) (acked s) (answers s) (rejected s) (crashed s) else s.
Definition timerCancel (s : st) : st :=
  mkSt (queue s) (serving s) (pend s) (jobs s) (post s) (good s) (tclient s) false (expired s) (fired s) (acked s) (answers s) (rejected s) (crashed s).
Definition withQueue (q : list nat) (s : st) : st :=
  mkSt q (serving s) (pend s) (jobs s) (post s) (good s) (tclient s) (armed s) (expired s) (fired s) (acked s) (answers s) (rejected s) (crashed s).
Definition withPend (p : nat -> list req) (s : st) : st :=
  mkSt (queue s) (serving s) p (jobs s) (post s) (good s) (tclient s) (armed s) (expired s) (fired s) (acked s) (answers s) (rejected s) (crashed s).
(** assignJobToClient, 166-206. *)
Definition assign (c : nat) (j : job) (s : st) : st :=
  mkSt (queue s) (serving s) (pend s) (jobs s ++ [(c, j)]) (post s) (good s) (tclient s) (armed s) (expired s) (fired s) (acked s) (answers s) (rejected s) (crashed s).
Definition ack (r : req) (s : st) : st :=
  mkSt (queue s) (serving s) (pend s) (jobs s) (post s) (good s) (tclient s) (armed s) (expired s) (fired s) (acked s ++ [r]) (answers s) (rejected s) (crashed s).
Definition reject (r : req) (a : answer) (s : st) : st :=
  mkSt (queue s) (serving s) (pend s) (jobs s) (post s) (good s) (tclient s) (armed s) (expired s) (fired s) (acked s) (answers s) (rejected s ++ [(rid r, a)]) (crashed s).
Definition crash (s : st) : st :=
  mkSt (queue s) (serving s) (pend s) (jobs s) (post s) (good s) (tclient s) (armed s) (expired s) (fired s) (acked s) (answers s) (rejected s) true.

(** SendRequest, 38-164: the loop, with the number of candidates left; every round either uses up a candidate or takes a client away, so
    [fuel] is not reached when it is the sum of both at first. *)
Fixpoint loop (fuel cand : nat) (r : req) (s : st) : st :=
  match fuel, queue s, cand with
  | _, [], _ => reject r Overloaded s
  | _, _, 0 => reject r NotReady s
  | 0, _, _ => s
  | S fuel, c :: q, S cand' =>
      if negb (serving s c) then loop fuel cand' r (withQueue (q ++ [c]) s)
      else if batchable r then
        let s := match pend s c with [] => timerStart c s | _ => s end in
        let s := withPend (upd (pend s) c (pend s c ++ [r])) s in
        let s := if B <=? length (pend s c) then assign c (JBatch false) (timerCancel (withQueue q s)) else s in
        ack r s
      else
        match pend s c with
        | [] => ack r (assign c (JSingle r false) (withQueue q s))
        | _ => loop fuel cand r (assign c (JBatch false) (timerCancel (withQueue q s)))
        end
  end.
Definition send (r : req) (s : st) : st :=
  if zero r then reject r Invalid s else loop (length (queue s) + length (queue s)) (length (queue s)) r s.

(** Callbacks in SendPendingRequests, external_client.cpp:168-218: for the reply to each sequence number, every pending reply with the
    correlation id of that request. (The order of the replies is that of the numbers; here that of the requests.) *)
Definition batchReplies (l : list req) : list (nat * answer) :=
  flat_map (fun q => map (fun p => (rid p, Reply (seq q))) (filter (fun p => cid p =? cid q) l)) l.
Fixpoint noDup (l : list nat) : bool := match l with [] => true | x :: t => negb (existsb (Nat.eqb x) t) && noDup t end.

Inductive event :=
| Send (r : req)                 (* an application thread *)
| Expire                         (* the timer's wait ends *)
| Handler                        (* the timer's thread calls OnBatchingTimeout, client_pool_timer.hpp:99-103 *)
| OnTimeout                      (* OnBatchingTimeout has the lock, concord_client_pool.cpp:442-457 *)
| Begin (c : nat)                (* a worker begins the job of c *)
| Done (c : nat) (ok : bool)     (* the job ends; c is put back, 460-544 *)
| Check (c : nat)                (* the end of processReplies, 545-550 *)
| Serve (c : nat) (b : bool).    (* connections of c change *)

Definition findJob (c : nat) (s : st) : option job := option_map snd (find (fun x => fst x =? c) (jobs s)).
Definition setJob (c : nat) (j : job) (l : list (nat * job)) : list (nat * job) := map (fun x => if fst x =? c then (c, j) else x) l.
Definition dropJob (c : nat) (l : list (nat * job)) : list (nat * job) := filter (fun x => negb (fst x =? c)) l.

Definition step (s : st) (e : event) : st :=
  if crashed s then s else
  match e with
  | Send r => send r s
  | Expire => if armed s then mkSt (queue s) (serving s) (pend s) (jobs s) (post s) (good s) (tclient s) false (S (expired s)) (fired s) (acked s) (answers s) (rejected s) false else s
  | Handler =>
      (* one thread: not while a call is under way; the client is moved out of the timer *)
      match expired s, fired s with
      | S k, None => match tclient s with
                     | None => crash s   (* client->getClientId() of a null pointer *)
                     | Some c => mkSt (queue s) (serving s) (pend s) (jobs s) (post s) (good s) None (armed s) k (Some c) (acked s) (answers s) (rejected s) false
                     end
      | _, _ => s
      end
  | OnTimeout =>
      match fired s with
      | None => s
      | Some c =>
          let s := mkSt (queue s) (serving s) (pend s) (jobs s) (post s) (good s) (tclient s) (armed s) (expired s) None (acked s) (answers s) (rejected s) false in
          match queue s with
          | [] => crash s   (* clients_.front() of an empty deque *)
          | d :: q => if d =? c then assign c (JBatch false) (withQueue q s) else s
          end
      end
  | Begin c =>
      match findJob c s with
      | Some (JBatch false) =>
          match pend s c with
          | [] => crash s   (* bft_client.cpp:265: write_requests.front() of an empty deque *)
          | _ => mkSt (queue s) (serving s) (pend s) (setJob c (JBatch true) (jobs s)) (post s) (upd (good s) c true) (tclient s) (armed s) (expired s) (fired s) (acked s) (answers s) (rejected s) false
          end
      | Some (JSingle r false) => mkSt (queue s) (serving s) (pend s) (setJob c (JSingle r true) (jobs s)) (post s) (upd (good s) c true) (tclient s) (armed s) (expired s) (fired s) (acked s) (answers s) (rejected s) false
      | _ => s
      end
  | Done c ok =>
      match findJob c s with
      | Some (JBatch true) =>
          (* sendBatch, bft_client.cpp:262-294: all replies, or the exception; two requests of one number never have two replies *)
          let ok := ok && noDup (map seq (pend s c)) in
          mkSt (queue s ++ [c]) (serving s) (upd (pend s) c []) (dropJob c (jobs s)) (post s ++ [(c, pend s c)]) (upd (good s) c ok) (tclient s) (armed s) (expired s) (fired s) (acked s)
               (answers s ++ (if ok then batchReplies (pend s c) else [])) (rejected s) false
      | Some (JSingle r true) =>
          mkSt (queue s ++ [c]) (serving s) (pend s) (dropJob c (jobs s)) (post s ++ [(c, [])]) (upd (good s) c ok) (tclient s) (armed s) (expired s) (fired s) (acked s)
               (answers s ++ [(rid r, if ok then Reply (seq r) else Timeout)]) (rejected s) false
      | _ => s
      end
  | Check c =>
      match find (fun x => fst x =? c) (post s) with
      | None => s
      | Some x =>
          let fix del l := match l with [] => [] | y :: t => if fst y =? c then t else y :: del t end in
          mkSt (queue s) (serving s) (pend s) (jobs s) (del (post s)) (good s) (tclient s) (armed s) (expired s) (fired s) (acked s)
               (answers s ++ (if good s c then [] else map (fun r => (rid r, Timeout)) (snd x))) (rejected s) false
      end
  | Serve c b => mkSt (queue s) (upd (serving s) c b) (pend s) (jobs s) (post s) (good s) (tclient s) (armed s) (expired s) (fired s) (acked s) (answers s) (rejected s) false
  end.

(** CreatePool, 355-428. *)
Definition init (clients : list nat) : st := mkSt clients (fun _ => true) (fun _ => []) [] [] (fun _ => true) None false 0 None [] [] [] false.
Definition run (clients : list nat) (l : list event) : st := fold_left step l (init clients).

(** Runs in which nothing happens between putting a client back and looking at its result. *)
Inductive calm (clients : list nat) : st -> Prop :=
| calm0 : calm clients (init clients)
| calmStep s e : calm clients s -> (forall c ok, e <> Done c ok) -> (forall c, e <> Check c) -> calm clients (step s e)
| calmDone s c ok : calm clients s -> calm clients (step (step s (Done c ok)) (Check c)).
(** Runs in which all clients stay connected. *)
Inductive connected (clients : list nat) : st -> Prop :=
| con0 : connected clients (init clients)
| conStep s e : connected clients s -> (forall c b, e <> Serve c b) -> connected clients (step s e).
(** Runs in which the timer's thread calls OnBatchingTimeout, and gets the lock, as soon as a wait ends. *)
Inductive prompt (clients : list nat) : st -> Prop :=
| pro0 : prompt clients (init clients)
| proStep s e : prompt clients s -> e <> Expire -> e <> Handler -> e <> OnTimeout -> prompt clients (step s e)
| proTimer s : prompt clients s -> prompt clients (step (step (step s Expire) Handler) OnTimeout).
(** Requests in jobs of their own. *)
Definition singles (s : st) : list req := flat_map (fun x => match snd x with JSingle r _ => [r] | _ => [] end) (jobs s).
(** Acknowledged requests still being worked on. *)
Definition working (clients : list nat) (s : st) : list req := flat_map (pend s) clients ++ singles s.
End Pool.
