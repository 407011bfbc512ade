(** Model of bftengine/src/bftengine/ClientsManager.{hpp,cpp}: tables of pending requests and of recorded replies, and the reserved
    pages in which replies are stored. Not modelled: request times and cids (used for timeouts and logs), metrics, key loading into the
    KeyExchangeManager; mutexes (single thread); replica specific information is in Rsi_Model.v (C46; here its length is 0).
    32- and 16-bit page arithmetic is on naturals (page numbers are bounded by the configured number of reserved pages). *)
From Coq Require Import List Arith NArith Lia Bool.
From Verif Require Import Lib_Bytes.
Import ListNotations.

(** Configuration: sorted client ids (clientIds_, hpp 295), sizeOfReservedPage, maxReplySize_, maxNumOfReqsPerClient_. *)
Record cmcfg := mkCm { cids : list nat; psz : nat; maxReply : nat; maxReqs : nat }.
(** Constructor's asserts (cpp 224, 234); a page holds at least a reply header, replies can be non-empty; sizes are uint32. *)
Definition validCm (k : cmcfg) : Prop :=
  NoDup (cids k) /\ 28 <= psz k /\ 1 <= maxReqs k /\ 29 <= maxReply k /\ (N.of_nat (maxReply k) < 256 ^ 4)%N.

(** cpp 256-262, 264-271. *)
Definition pagesPerReq (k : cmcfg) : nat := maxReply k / psz k + (if maxReply k mod psz k =? 0 then 0 else 1).
Definition pagesPerClient (k : cmcfg) : nat := pagesPerReq k * maxReqs k + 1.
(** clientIdsToReservedPages_, cpp 234-238: rank of the id. *)
Fixpoint rank (l : list nat) (c : nat) : nat := match l with [] => 0 | x :: t => if x =? c then 0 else S (rank t c) end.
(** getKeyPageId, getReplyFirstPageId, hpp 206-210. *)
Definition keyPage (k : cmcfg) (c : nat) : nat := rank (cids k) c * pagesPerClient k.
Definition replyFirst (k : cmcfg) (c : nat) : nat := keyPage k c + 1.
Definition isValid (k : cmcfg) (c : nat) : bool := existsb (Nat.eqb c) (cids k).

(** ClientReplyMsgHeader, ClientMsgs.hpp 53-65 (28 bytes, packed) followed by the reply. currentPrimaryId is stored as 0. *)
Definition MsgCodeClientReply : N := 800.
Definition header (primary seq result len rsi : N) : bytes :=
  le 2 MsgCodeClientReply ++ le 4 0 ++ le 2 primary ++ le 8 seq ++ le 4 result ++ le 4 len ++ le 4 rsi.
Definition hType (p : bytes) : N := unle (slice p 0 2).
Definition hPrimary (p : bytes) : N := unle (slice p 6 2).
Definition hSeq (p : bytes) : N := unle (slice p 8 8).
Definition hLen (p : bytes) : N := unle (slice p 20 4).
Definition replyMsg (primary seq result : N) (body : bytes) : bytes := header primary seq result (N.of_nat (length body)) 0 ++ body.

(** One client's entry, hpp 280-284: requestsInfo (number, committed) and repliesInfo (number, index in batch). *)
Record cinfo := mkCi { reqs : list (N * bool); reps : list (N * nat) }.
Record cmst := mkSt { info : nat -> cinfo; pages : nat -> option bytes }.
Definition emptyInfo : cinfo := mkCi [] [].
Definition initSt : cmst := mkSt (fun _ => emptyInfo) (fun _ => None).
Definition upd {A} (f : nat -> A) (i : nat) (x : A) : nat -> A := fun j => if j =? i then x else f j.
Definition updInfo (s : cmst) (c : nat) (f : cinfo -> cinfo) : cmst := mkSt (upd (info s) c (f (info s c))) (pages s).

(** * RequestsInfo *)
Definition findReq (l : list (N * bool)) (r : N) : bool := existsb (fun x => N.eqb (fst x) r) l.
(** emplaceSafe, cpp 31-39. *)
Definition emplace (l : list (N * bool)) (r : N) := if findReq l r then l else (r, false) :: l.
(** removeRequestsOutOfBatchBoundsSafe, cpp 46-62; maxNumOfRequestsInBatch = 4096 (SysConsts.hpp 68). *)
Definition maxNumOfRequestsInBatch : nat := 4096.
Definition maxReq (l : list (N * bool)) : N := fold_left (fun m x => if (m <? fst x)%N then fst x else m) l 0%N.
Definition removeOutOfBounds (l : list (N * bool)) (r : N) :=
  if findReq l r then l
  else if (length l =? maxNumOfRequestsInBatch) && (r <? maxReq l)%N then filter (fun x => negb (N.eqb (fst x) (maxReq l))) l else l.
(** removeOldPendingReqsSafe, cpp 64-74. *)
Definition removeOld (l : list (N * bool)) (r : N) := filter (fun x => negb (fst x <=? r)%N) l.
(** removePendingForExecutionRequestSafe, cpp 76-83. *)
Definition removePending (l : list (N * bool)) (r : N) := filter (fun x => negb (N.eqb (fst x) r)) l.
(** markRequestAsCommitted, cpp 100-108. *)
Definition markCommitted (l : list (N * bool)) (r : N) := map (fun x => if N.eqb (fst x) r then (r, true) else x) l.
(** isPending, cpp 94-98. *)
Definition isPendingL (l : list (N * bool)) (r : N) : bool := existsb (fun x => N.eqb (fst x) r && negb (snd x)) l.

(** * RepliesInfo: a boost::bimap, i.e. a list of pairs in which each left and each right value occurs once. *)
Definition findRep (l : list (N * nat)) (r : N) : bool := existsb (fun x => N.eqb (fst x) r) l.
Definition hasIdx (l : list (N * nat)) (i : nat) : bool := existsb (fun x => snd x =? i) l.
(** deleteReplyIfNeededSafe, cpp 136-162: erase the entry with this index, unless its request number is 0. *)
Definition savedId (l : list (N * nat)) (i : nat) : N := match find (fun x => snd x =? i) l with Some (r, _) => r | None => 0%N end.
Definition deleteReply (l : list (N * nat)) (i : nat) :=
  let sv := savedId l i in if N.eqb sv 0 then l else filter (fun x => negb (N.eqb (fst x) sv)) l.
(** insertOrAssignSafe, cpp 164-167: bimap::insert does nothing when the number or the index is present. *)
Definition insertReply (l : list (N * nat)) (r : N) (i : nat) := if findRep l r || hasIdx l i then l else (r, i) :: l.
(** getIndex, cpp 178-181. *)
Definition getIndex (l : list (N * nat)) (r : N) : nat := match find (fun x => N.eqb (fst x) r) l with Some (_, i) => i | None => 0 end.

(** * Reserved pages: saveReservedPage / loadReservedPage (BCStateTran.cpp 688-741, InMemoryDataStore.cpp 153-186): a write zero-fills
    the rest of the page; a read of a page never written returns false. *)
Definition savePage (k : cmcfg) (pg : nat -> option bytes) (i : nat) (d : bytes) := upd pg i (Some (d ++ repeat 0%N (psz k - length d))).

(** Number of pages of a message and size of the last one, cpp 353-368. *)
Definition numPages (k : cmcfg) (sz : nat) : nat := sz / psz k + (if sz mod psz k =? 0 then 0 else 1).
Definition sizeLast (k : cmcfg) (sz : nat) : nat := if sz mod psz k =? 0 then psz k else sz mod psz k.
Definition pageSize (k : cmcfg) (sz i : nat) : nat := if i <? numPages k sz - 1 then psz k else sizeLast k sz.
(** The write loop, cpp 373-377. *)
Definition writePages (k : cmcfg) (pg : nat -> option bytes) (first : nat) (m : bytes) : nat -> option bytes :=
  fold_left (fun pg i => savePage k pg (first + i) (slice m (i * psz k) (pageSize k (length m) i))) (seq 0 (numPages k (length m))) pg.

(** Result of an operation that can assert (Crash), decline (Nothing) or produce. *)
Inductive res (A : Type) := Crash | Nothing | Ret (a : A).
Arguments Crash {A}. Arguments Nothing {A}. Arguments Ret {A}.

(** allocateNewReplyMsgAndWriteToStorage, cpp 330-388 (without replica specific information); returns the new state and the message. *)
Definition newReply (k : cmcfg) (s : cmst) (c : nat) (r : N) (primary : N) (body : bytes) (idx : nat) (result : N) : res (cmst * bytes) :=
  if negb (idx <? maxReqs k) then Crash
  else if negb (isValid k c) then Nothing
  else
    let s1 := updInfo s c (fun ci => mkCi (reqs ci) (insertReply (deleteReply (reps ci) idx) r idx)) in
    let m := replyMsg 0 r result body in
    if pagesPerClient k <? length m / psz k then Crash
    else Ret (mkSt (info s1) (writePages k (pages s1) (replyFirst k c + idx * pagesPerReq k) m), replyMsg primary r result body).

(** The read loop, cpp 431-436; pages that are absent leave the buffer unchanged (zero here). *)
Definition readPages (k : cmcfg) (pg : nat -> option bytes) (first sz : nat) : bytes :=
  concat (map (fun i => match pg (first + i) with
                        | Some p => firstn (pageSize k sz i) p
                        | None => repeat 0%N (pageSize k sz i) end) (seq 0 (numPages k sz))).
(** allocateReplyFromSavedOne, cpp 396-466. An absent first page leaves the scratch page as it was: modelled as Crash. *)
Definition savedReply (k : cmcfg) (s : cmst) (c : nat) (r : N) (primary : N) : res bytes :=
  if negb (isValid k c) then Nothing
  else
    let idx := getIndex (reps (info s c)) r in
    let first := replyFirst k c + idx * pagesPerReq k in
    match pages s first with
    | None => Crash
    | Some p =>
        if negb (N.eqb (hType p) MsgCodeClientReply) || negb (N.eqb (hPrimary p) 0) || N.eqb (hLen p) 0
           || negb (hLen p + 28 <=? N.of_nat (maxReply k))%N then Crash
        else
          let m := readPages k (pages s) first (28 + N.to_nat (hLen p)) in
          if negb (N.eqb (hSeq m) r) then (if maxReqs k =? 1 then Crash else Nothing)
          else Ret (slice m 0 6 ++ le 2 primary ++ skipn 8 m)
    end.
(** hasReply, cpp 301-312. *)
Definition hasReply (k : cmcfg) (s : cmst) (c : nat) (r : N) : bool := isValid k c && findRep (reps (info s c)) r.
(** canBecomePending, cpp 505-530. *)
Definition canBecomePending (k : cmcfg) (s : cmst) (c : nat) (r : N) : bool :=
  isValid k c && negb (length (reqs (info s c)) =? maxReqs k) && negb (findReq (reqs (info s c)) r) && negb (findRep (reps (info s c)) r).
(** isClientRequestInProcess, isPending: cpp 481-500. *)
Definition inProcess (k : cmcfg) (s : cmst) (c : nat) (r : N) : bool := isValid k c && findReq (reqs (info s c)) r.
Definition isPending (k : cmcfg) (s : cmst) (c : nat) (r : N) : bool := isValid k c && isPendingL (reqs (info s c)) r.

(** loadInfoFromReservedPages, cpp 278-299, for one client and batch index. *)
Definition loadOne (k : cmcfg) (c : nat) (s : option cmst) (i : nat) : option cmst :=
  match s with
  | None => None
  | Some s =>
      match pages s (replyFirst k c + i * pagesPerReq k) with
      | None => Some s
      | Some p =>
          if negb (N.eqb (hType p) 0 || N.eqb (hType p) MsgCodeClientReply) || negb (N.eqb (hPrimary p) 0)
             || negb (hLen p + 28 <=? N.of_nat (maxReply k))%N then None
          else Some (updInfo s c (fun ci => mkCi (removeOld (reqs ci) (hSeq p)) (insertReply (deleteReply (reps ci) i) (hSeq p) i)))
      end
  end.
Definition loadClient (k : cmcfg) (s : option cmst) (c : nat) : option cmst := fold_left (loadOne k c) (seq 0 (maxReqs k)) s.
Definition loadInfo (k : cmcfg) (s : cmst) : option cmst := fold_left (loadClient k) (cids k) (Some s).

(** Operations performed on the manager by the replica. *)
Inductive cop :=
| AddPending (c : nat) (r : N)             (* addPendingRequest, cpp 532-538; ReplicaImp calls it only if canBecomePending *)
| Committed (c : nat) (r : N)              (* markRequestAsCommitted *)
| OutOfBounds (c : nat) (r : N)            (* removeRequestsOutOfBatchBounds *)
| Remove (c : nat) (r : N)                 (* removePendingForExecutionRequest *)
| ClearAll                                 (* clearAllPendingRequests *)
| Reply (c : nat) (r : N) (body : bytes) (idx : nat) (result : N)   (* allocateNewReplyMsgAndWriteToStorage *)
| SetKey (c : nat) (d : bytes)             (* setClientPublicKey: writes the key page *)
| Reload                                   (* loadInfoFromReservedPages in a running process *)
| Restart.                                 (* new process: tables lost, then loadInfoFromReservedPages *)
Definition onReqs (f : list (N * bool) -> list (N * bool)) (ci : cinfo) : cinfo := mkCi (f (reqs ci)) (reps ci).
(** None when the process aborts. *)
Definition cstep (k : cmcfg) (s : cmst) (o : cop) : option cmst :=
  match o with
  | AddPending c r => Some (if canBecomePending k s c r then updInfo s c (onReqs (fun l => emplace l r)) else s)
  | Committed c r => Some (updInfo s c (onReqs (fun l => markCommitted l r)))
  | OutOfBounds c r => Some (updInfo s c (onReqs (fun l => removeOutOfBounds l r)))
  | Remove c r => Some (updInfo s c (onReqs (fun l => removePending l r)))
  | ClearAll => Some (mkSt (fun c => mkCi [] (reps (info s c))) (pages s))
  | Reply c r body idx result => match newReply k s c r 0 body idx result with Crash => None | Nothing => Some s | Ret (s', _) => Some s' end
  | SetKey c d => Some (if isValid k c then mkSt (info s) (savePage k (pages s) (keyPage k c) d) else s)
  | Reload => loadInfo k s
  | Restart => loadInfo k (mkSt (fun _ => emptyInfo) (pages s))
  end.
Fixpoint crun (k : cmcfg) (s : cmst) (l : list cop) : option cmst :=
  match l with [] => Some s | o :: l => match cstep k s o with Some s' => crun k s' l | None => None end end.

(** * Execution of a committed batch, ReplicaImp.cpp 5436-5470 (marking) and 5626-5756 (execution and replies): requests whose reply is
    recorded when the batch starts are skipped; the others are executed and their replies recorded one by one. *)
Record creq := mkReq { rq_client : nat; rq_seq : N; rq_idx : nat; rq_reply : bytes }.
Definition marked (k : cmcfg) (s : cmst) (q : creq) : bool := isValid k (rq_client q) && negb (hasReply k s (rq_client q) (rq_seq q)).
Definition replyAll (k : cmcfg) (s : option cmst) (l : list creq) : option cmst :=
  fold_left (fun s q => match s with Some s => cstep k s (Reply (rq_client q) (rq_seq q) (rq_reply q) (rq_idx q) 0) | None => None end) l s.
Definition execBatch (k : cmcfg) (s : cmst) (l : list creq) : option cmst * list creq :=
  let todo := filter (marked k s) l in (replyAll k (Some s) todo, todo).
(** Execution of a sequence of batches; result: final state and the log of executed requests. *)
Fixpoint execAll (k : cmcfg) (s : cmst) (bs : list (list creq)) : option (cmst * list creq) :=
  match bs with
  | [] => Some (s, [])
  | b :: bs => match execBatch k s b with
               | (Some s', done) => match execAll k s' bs with Some (s2, l2) => Some (s2, done ++ l2) | None => None end
               | (None, _) => None
               end
  end.

(** * Specification vocabulary *)
(** An operation of a correct replica: replies are recorded for requests that have no recorded reply, with a non-zero request number,
    an index below the batch size and a non-empty reply of at most the maximal size; keys fit a page. *)
Definition okOp (k : cmcfg) (s : cmst) (o : cop) : Prop :=
  match o with
  | Reply c r body idx result => hasReply k s c r = false /\ (r <> 0)%N /\ (r < 256 ^ 8)%N /\ idx < maxReqs k /\
                                 body <> [] /\ 28 + length body <= maxReply k
  | SetKey c d => length d <= psz k
  | _ => True
  end.
Fixpoint okRun (k : cmcfg) (s : cmst) (l : list cop) : Prop :=
  match l with [] => True | o :: l => okOp k s o /\ match cstep k s o with Some s' => okRun k s' l | None => True end end.
(** No operation of l records a reply for client c at batch index i. *)
Definition slotKept (c i : nat) (l : list cop) : Prop := forall o, In o l -> match o with Reply c' _ _ i' _ => ~ (c' = c /\ i' = i) | _ => True end.
