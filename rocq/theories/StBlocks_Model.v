(** Model of fetching blocks by state transfer: bftengine/src/bcstatetransfer/BCStateTran.cpp (destination side, state GettingMissingBlocks)
    and the sending of a batch (source side).
    Blocks, digests and messages are byte strings; [H] is the digest function. The RVB manager is a parameter: its state [RV], the digest it
    has stored for a block ([stored]), the acceptance of a serialized group of digests ([setRvb]) and the bound it puts on a batch ([ub]).
    The choices of the source selector, of timers and of the I/O threads are inputs of the step function.
    Simplified: block ids are below 2^64 and sizes below 2^32, so the integer arithmetic is exact; totalSizeOfPendingItemDataMsgs is the sum over
    the pending messages; post-processing, metrics, requests sent and the limit of the I/O pool are left out. *)
From Coq Require Import List Arith NArith Bool.
From Verif Require Import Lib_Bytes.
Import ListNotations.
Local Open Scope N_scope.

(** ItemDataMsg, Messages.hpp 240-262, with the transport's sender. mok: msgLen = size(). *)
Record msg := mkMsg { mfrom : N; mok : bool; mreq : N; mblk : N; mtot : N; mchk : N; mlast : bool; mrvb : N; mdata : bytes }.
Definition dlen (m : msg) : N := N.of_nat (length (mdata m)).
Definition zeros : bytes := repeat 0 32.
Definition isZero (d : bytes) : bool := forallb (N.eqb 0) d.
Definition beq (a b : bytes) : bool := if list_eq_dec N.eq_dec a b then true else false.

(** compareItemDataMsg, BCStateTran.hpp 467-474; std::set::emplace: None when an equal element is present. *)
Definition before (a b : msg) : bool := if mblk a =? mblk b then mchk a <? mchk b else mblk b <? mblk a.
Fixpoint emplace (m : msg) (l : list msg) : option (list msg) :=
  match l with
  | [] => Some [m]
  | x :: t => if before m x then Some (m :: x :: t) else if before x m then option_map (cons x) (emplace m t) else None
  end.
Definition pendSize (l : list msg) : N := fold_right (fun m a => dlen m + a) 0 l.

(** clearPendingItemsData(b, b), 2794-2813: after an erase the iterator is advanced again. None: the end iterator is advanced. *)
Fixpoint clearBlk (b : N) (l : list msg) : option (list msg) :=
  match l with
  | [] => Some []
  | m :: t => if mblk m =? b then match t with [] => None | n :: t' => option_map (cons n) (clearBlk b t') end
              else option_map (cons m) (clearBlk b t)
  end.

(** getNextFullBlock, first loop 2835-2862. *)
Inductive scanR := ScBad | ScPart (maxc : N) | ScFull (tot : N) | ScAbort.
Fixpoint scan (maxSize req tot maxc bsz : N) (l : list msg) : scanR :=
  match l with
  | [] => ScPart maxc
  | m :: t =>
      if negb (mblk m =? req) then ScPart maxc else
      if (mtot m =? 0) || (mchk m =? 0) then ScAbort else
      let tot := if tot =? 0 then mtot m else tot in
      let bsz := bsz + (dlen m - mrvb m) in
      if negb (tot =? mtot m) || (tot <? mchk m) || (maxSize <? bsz) then ScBad else
      if maxc + 1 <? mchk m then ScPart maxc else
      if negb (maxc + 1 =? mchk m) then ScAbort else
      if mchk m =? tot then ScFull tot else scan maxSize req tot (mchk m) bsz t
  end.
(** Second loop, 2876-2902: appends the chunks to the buffer of bufSize bytes. *)
Inductive fullR := FNone | FBad | FBlock (buf : bytes) (rest : list msg) | FAbort | FOverrun.
Fixpoint build (maxSize bufSize req tot cur : N) (acc : bytes) (l : list msg) : fullR :=
  match l with
  | [] => FAbort
  | m :: t =>
      if negb (mblk m =? req) || (mchk m =? 0) || negb (mtot m =? tot) || negb (cur + 1 =? mchk m) then FAbort else
      if maxSize <? N.of_nat (length acc) + dlen m - mrvb m then FAbort else
      if bufSize <? N.of_nat (length acc) + dlen m then FOverrun else
      if mchk m =? tot then FBlock (acc ++ mdata m) t else build maxSize bufSize req tot (mchk m) (acc ++ mdata m) t
  end.
Definition nextFull (maxSize bufSize req : N) (l : list msg) : fullR :=
  match scan maxSize req 0 0 0 l with
  | ScBad => FBad | ScPart _ => FNone | ScAbort => FAbort
  | ScFull tot => build maxSize bufSize req tot 0 [] l
  end.

Section S.
Variable H : bytes -> bytes.
(** as_->getPrevDigestFromBlock: the parent digest an application block carries. *)
Variable prevDig : bytes -> bytes.
Variable RV : Type.
Variable stored : RV -> N -> option bytes.
Variable setRvb : RV -> bytes -> N -> N -> option RV.
Variable ub : RV -> N -> N -> N.
Variable rv0 : RV.
(** fetchRangeSize, maxNumberOfChunksInBatch, config_.maxBlockSize, maxItemSize_ (the size of buffer_, line 371), maxNumOfChunksInAppBlock_,
    maxPendingDataFromSourceReplica, targetCheckpointDesc_.digestOfMaxBlockId. *)
Variables (frs mcb maxBlock bufSize maxChunks maxPend : N) (tdig : bytes).

(** computeDigestOfBlockImpl, 3983-3993. *)
Definition D (id : N) (b : bytes) : bytes := H (le 8 id ++ b).

(** fetchState_ (fmin, fmax, fnext), commitState_ (same min and max; cnext), digestOfNextRequiredBlock_, pendingItemDataMsgs, ioContexts_, the blocks
    in storage, the persistent first and last required block. issued: every block given to putBlock(Async) so far. *)
Record st := mkS { fmin : N; fmax : N; fnext : N; cnext : N; dnext : bytes; pend : list msg; io : list (N * bytes); disk : list (N * bytes);
  firstR : N; lastR : N; rv : RV; src : option N; fin : bool; issued : list (N * bytes) }.
Definition setPend s l := mkS (fmin s) (fmax s) (fnext s) (cnext s) (dnext s) l (io s) (disk s) (firstR s) (lastR s) (rv s) (src s) (fin s) (issued s).
Definition setSrc s x := mkS (fmin s) (fmax s) (fnext s) (cnext s) (dnext s) (pend s) (io s) (disk s) (firstR s) (lastR s) (rv s) x (fin s) (issued s).
Definition setRv s x := mkS (fmin s) (fmax s) (fnext s) (cnext s) (dnext s) (pend s) (io s) (disk s) (firstR s) (lastR s) x (src s) (fin s) (issued s).
Definition setFnext s x := mkS (fmin s) (fmax s) x (cnext s) (dnext s) (pend s) (io s) (disk s) (firstR s) (lastR s) (rv s) (src s) (fin s) (issued s).

(** isRvbBlockId, 3221-3224. *)
Definition isRvb (b : N) : bool := b mod frs =? 0.
(** computeNextBatchToFetch, 3185-3209: the last block of the batch that starts at m. *)
Definition batchMax (r : RV) (last m : N) : N :=
  let x := m + mcb - 1 in
  let x := if isRvb x then x else let d := x mod frs in if (d <=? x) && (m <=? x - d) then x - d else x in
  let x := N.min x last in N.min x (ub r m x).
(** The same function, with its effect on the state and its assertions. *)
Definition nextBatch (s : st) (m : N) : option st :=
  let x := batchMax (rv s) (lastR s) m in
  if negb (m =? 0) && (m <=? x) && (fnext s <? mcb + m)
  then Some (mkS m x x x zeros (pend s) (io s) (disk s) (firstR s) (lastR s) (rv s) (src s) (fin s) (issued s)) else None.

(** finalizePutblockAsync, 3104-3181, for the first k jobs (or all). None: an assertion fails. *)
Fixpoint finalize (k : nat) (s : st) : option st :=
  match io s, k with
  | [], _ | _, O => Some s
  | (id, b) :: r, Datatypes.S k =>
      if negb (id =? cnext s) then None else
      if cnext s =? fmin s then
        if (fmax s + 1 <=? lastR s) && match r with [] => true | _ => false end
        then Some (mkS (fmin s) (fmax s) (fnext s) (cnext s) (dnext s) (pend s) [] ((id, b) :: disk s) (fmax s + 1) (lastR s) (rv s) (src s) (fin s) (issued s))
        else None
      else finalize k (mkS (fmin s) (fmax s) (fnext s) (cnext s - 1) (dnext s) (pend s) r ((id, b) :: disk s) (firstR s) (lastR s) (rv s) (src s) (fin s) (issued s))
  end.
Definition finalizeAll (s : st) : option st := finalize (length (io s)) s.

(** checkBlock, 2905-2941. *)
Inductive chkR := COk | CBad | CAbort.
Definition checkBlock (s : st) (id : N) (b : bytes) : chkR :=
  match b with
  | [] => CAbort
  | _ => if isRvb id then match stored (rv s) id with Some d => if beq d (D id b) then COk else CBad | None => CBad end
         else if (id =? fmax s) && (lastR s =? fmax s) then if beq tdig (D id b) then COk else CBad
         else if isZero (dnext s) then CAbort
         else if beq (D id b) (dnext s) then COk else CBad
  end.

(** What the environment decides in one round of the loop of processData: whether and how the source is replaced, whether a request is due (which
    ends the loop), how many I/O jobs are ready. *)
Inductive mode := Keep | Graceful (r : N) | Immediate (r : N).
Record rnd := mkR { rmode : mode; ralt : N; rsend : bool; rready : nat }.
Definition rnd0 := mkR Keep 0 false 0.
Inductive res := Ok (s : st) | Abort | Overrun | Stuck.

(** processData, 3343-3674 (getting blocks). After the last block of the cycle onGettingMissingBlocksEnd (3679-3688) ends this phase: fin. *)
Fixpoint loop (fuel : nat) (its : list rnd) (bad : bool) (lastIn : bool) (rsz : N) (s : st) : res :=
  match fuel with
  | O => Stuck
  | Datatypes.S fuel =>
      let it := hd rnd0 its in
      (* 3359-3379: select a source; shouldReplaceSource answers IMMEDIATE without a source and after bad data *)
      let mo := if bad || match src s with None => true | Some _ => false end then Immediate (ralt it) else rmode it in
      let newSrc := match mo with Keep => false | _ => true end in
      let s := match mo with Keep => s | Graceful r => setSrc s (Some r) | Immediate r => setPend (setSrc s (Some r)) [] end in
      (* 3384-3395: assertion on the state *)
      if negb ((negb (fmin s =? 0)) && (fmin s <=? fmax s) && (fmin s <=? fnext s) && (fnext s <=? fmax s) && (fnext s <=? cnext s) &&
               ((fnext s =? fmax s) || negb (isZero (dnext s)))) then Abort else
      match nextFull maxBlock bufSize (fnext s) (pend s) with
      | FAbort => Abort
      | FOverrun => Overrun
      | FBad => loop fuel (tl its) true lastIn rsz s
      | FNone => (* 3660-3672 *)
          if newSrc || rsend it || lastIn then match finalize (rready it) s with Some s => Ok s | None => Abort end else Ok s
      | FBlock buf rest =>
          let s := setPend s rest in
          (* 3416-3417: the pointer and the size are moved by the size of the RVB digests in the message just received *)
          if N.of_nat (length buf) <? rsz then Overrun else
          let data := skipn (N.to_nat rsz) buf in
          match (if 0 <? rsz then setRvb (rv s) (firstn (N.to_nat rsz) buf) (fmin s) (fmax s) else Some (rv s)) with
          | None => loop fuel (tl its) true lastIn rsz s
          | Some r =>
              let s := setRv s r in
              match checkBlock s (fnext s) data with
              | CAbort => Abort
              | CBad => loop fuel (tl its) true lastIn rsz s
              | COk =>
                  match finalize (rready it) s with
                  | None => Abort
                  | Some s =>
                      if (fnext s =? fmin s) && (lastR s =? fmax s) then
                        match finalizeAll s with
                        | None => Abort
                        | Some s =>
                            if (cnext s =? fnext s) && match io s with [] => true | _ => false end
                            then Ok (mkS (fmin s) (fmax s) (fnext s) (cnext s) (dnext s) [] [] ((fnext s, data) :: disk s) 0 0 (rv s) (src s) true ((fnext s, data) :: issued s))
                            else Abort
                        end
                      else if maxBlock <? N.of_nat (length data) then Overrun else
                      match clearBlk (fnext s) (pend s) with
                      | None => Overrun
                      | Some p =>
                          let s1 := mkS (fmin s) (fmax s) (fnext s) (cnext s) (prevDig data) p (io s ++ [(fnext s, data)]) (disk s) (firstR s) (lastR s)
                                        (rv s) (src s) (fin s) ((fnext s, data) :: issued s) in
                          match (if fnext s =? fmin s then
                                   if fmax s + 1 <=? lastR s then
                                     match finalizeAll s1 with None => None | Some s2 => nextBatch s2 (fmax s + 1) end
                                   else None
                                 else Some (setFnext s1 (fnext s - 1))) with
                          | None => Abort
                          | Some s2 => if lastIn || rsend it || newSrc then Ok s2 else loop fuel (tl its) false lastIn rsz s2
                          end
                      end
                  end
              end
          end
      end
  end.
Definition processData (its : list rnd) (lastIn : bool) (rsz : N) (s : st) : res := loop (length (pend s) + 2) its false lastIn rsz s.

(** onMessage(ItemDataMsg), 2518-2649. *)
Definition valid (m : msg) : bool :=
  mok m && negb (mreq m =? 0) && negb (mblk m =? 0) && negb (mtot m =? 0) && (mtot m <=? maxChunks) && negb (mchk m =? 0) && negb (dlen m =? 0) && (mrvb m <? dlen m).
Definition relevant (s : st) (m : msg) : bool :=
  match src s with Some r => r =? mfrom m | None => false end && (fmin s <=? mblk m) && (mblk m <=? fnext s) && (dlen m + pendSize (pend s) <=? maxPend).

(** A step: a message, a timer tick (onTimer calls processData), a rejection by the source (2500-2513), a crash of which the I/O jobs in [keep]
    were written, followed by a restart (1482-1489, 395-415; the RVB manager is reloaded). *)
Inductive ev := Recv (m : msg) (its : list rnd) | Tick (its : list rnd) | Reject (its : list rnd) | Crash (keep : list bool).
Fixpoint pick {A} (k : list bool) (l : list A) : list A :=
  match k, l with b :: k, x :: l => if b then x :: pick k l else pick k l | _, _ => [] end.
Definition step (s : st) (e : ev) : res :=
  if fin s then Ok s else
  match e with
  | Recv m its =>
      if valid m && relevant s m then
        match emplace m (pend s) with
        | None => Ok s
        | Some p => processData its (mlast m) (mrvb m) (setPend s p)
        end
      else Ok s
  | Tick its => processData its false 0 s
  | Reject its => processData its false 0 (setPend (setSrc s None) [])
  | Crash k =>
      match nextBatch (mkS 0 0 0 0 zeros [] [] (pick k (io s) ++ disk s) (firstR s) (lastR s) rv0 None false (issued s)) (firstR s) with
      | Some s => Ok s | None => Abort end
  end.
Fixpoint run (s : st) (es : list ev) : res :=
  match es with [] => Ok s | e :: es => match step s e with Ok s => run s es | r => r end end.
(** Start of the phase, 1858-1871 and 1482-1489: blocks first..last are missing. *)
Definition start (first last : N) : option st := nextBatch (mkS 0 0 0 0 zeros [] [] [] first last rv0 None false []) first.

(** continueSendBatch, 2117-2317, for a correct source: the messages for blocks max..min of its chain; rvbs: the serialized digests put in front of
    the first one; mc: maxChunkSize; q: the request number. The batch ends after mcb messages. *)
Variables (mc : nat) (self q : N).
Definition nChunks (b : bytes) : nat := Nat.div (length b) mc + (if (Nat.modulo (length b) mc =? 0)%nat then 0 else 1).
Definition chunk (b : bytes) (i : nat) : bytes := firstn mc (skipn (i * mc) b).
Fixpoint sendChunks (id : N) (b : bytes) (min : N) (rvbs : bytes) (sent : N) (i k : nat) : list msg :=
  match k with
  | O => []
  | Datatypes.S k =>
      mkMsg self true q id (N.of_nat (nChunks b)) (N.of_nat i + 1) ((mcb <=? sent + 1) || (id - 1 <? min)) (N.of_nat (length rvbs)) (rvbs ++ chunk b i)
      :: sendChunks id b min [] (sent + 1) (Datatypes.S i) k
  end.
Fixpoint sendBlocks (chain : N -> bytes) (id : N) (n : nat) (min : N) (rvbs : bytes) (sent : N) : list msg :=
  match n with
  | O => []
  | Datatypes.S n => let k := nChunks (chain id) in
      sendChunks id (chain id) min rvbs sent 0 k ++ sendBlocks chain (id - 1) n min [] (sent + N.of_nat k)
  end.
Definition sendBatch (chain : N -> bytes) (min max : N) (rvbs : bytes) : list msg :=
  firstn (N.to_nat mcb) (sendBlocks chain max (N.to_nat (max - min + 1)) min rvbs 0).
End S.
