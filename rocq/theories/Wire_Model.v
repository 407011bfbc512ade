(** Messages from the network as bytes: every message type whose validation and accessors are not modelled in PrePrep_Model (C20) and
    VcMsg_Model (C19). bftengine/src/bftengine/messages/*.cpp, bftengine/src/preprocessor/messages/*.cpp, the checks of state transfer
    messages in bftengine/src/bcstatetransfer/BCStateTran.cpp, and the reply receiver of the client, client/bftclient/src/msg_receiver.cpp.
    A message is the list of the bytes received; every read names the bytes it reads, and one that leaves the message ends in [Outside].
    Sums that C++ makes in size_t are exact (all operands have at most 32 bits); narrower ones are reduced. All structures are packed and
    little-endian. The dispatcher hands a message to the class of its type field, so the type checks in the bodies are left out. *)
From Coq Require Import List Arith NArith ZArith Bool.
From Verif Require Import Lib_Bytes.
Import ListNotations.
Local Open Scope N_scope.

(** What happens to a message: a result, refused (exception or warning), bytes outside of it are accessed, the process is stopped by an
    assertion. *)
Inductive out (A : Type) := Ok (a : A) | Refuse | Outside | Crash.
Arguments Ok {A}. Arguments Refuse {A}. Arguments Outside {A}. Arguments Crash {A}.
Definition bind {A B} (x : out A) (f : A -> out B) : out B := match x with Ok a => f a | Refuse => Refuse | Outside => Outside | Crash => Crash end.
Definition need (b : bool) : out unit := if b then Ok tt else Refuse.
Definition assert (b : bool) : out unit := if b then Ok tt else Crash.
Declare Scope wire_scope.
Notation "x <- e ;; k" := (bind e (fun x => k)) (at level 61, e at next level, right associativity) : wire_scope.
Notation "e ;; k" := (bind e (fun _ => k)) (at level 61, right associativity) : wire_scope.
Local Open Scope wire_scope.

Definition size (m : bytes) : N := N.of_nat (length m).
(** [k] bytes from offset [o], and the unsigned number they are. *)
Definition part (m : bytes) (o k : N) : out bytes := if o + k <=? size m then Ok (slice m (N.to_nat o) (N.to_nat k)) else Outside.
Definition num (m : bytes) (o k : N) : out N := b <- part m o k ;; Ok (unle b).
(** int64_t *)
Definition signed (x : N) : Z := if x <? 2 ^ 63 then Z.of_N x else (Z.of_N x - 2 ^ 64)%Z.
(** Digest::isZero, crypto/include/crypto/digest_holder.hpp. *)
Definition isZero (d : bytes) : bool := forallb (N.eqb 0) d.

(** MessageBase::Header, MessageBase.hpp:33-36: msgType (2 bytes), spanContextSize (4). MsgReceiver.cpp:24-42: no message shorter than that
    (and none longer than the configured maximum) gets further. *)
Definition headerSize : N := 6.
Definition received (m : bytes) : Prop := headerSize <= size m.
Definition span (m : bytes) : out N := num m 2 4.

(** The receiving replica: its id, the replicas and other principals (ReplicasInfo), epoch (EpochManager), primaries, f, c, the maximal
    number of replicas compiled in (SysConsts.hpp:33-39), whether it collects partial proofs; signatures (SigManager): the length for a
    principal and [verify who text signature]; whether clients sign. *)
Record env := mkEnv {
  me : N; isReplica : N -> bool; isRo : N -> bool; isExternal : N -> bool; isPrincipal : N -> bool;
  epoch : N; primaryOf : N -> N; nReplicas : N; fVal : N; cVal : N; maxReplicas : N; collects : N -> N -> bool;
  sigLen : N -> N; verify : N -> bytes -> bytes -> bool; signing : bool }.

Section Validate.
Context (e : env) (sender : N).   (* [sender]: the node the message came from *)
Definition other : bool := negb (sender =? me e).
Definition peer : bool := other && isReplica e sender.

(** SimpleAckMsg.hpp:39-45 (38 bytes: header, seqNum, viewNum, epochNum, ackData), SimpleAckMsg.cpp:26-31. *)
Definition vAck (m : bytes) : out unit :=
  need (38 <=? size m) ;; ep <- num m 22 8 ;; need (ep =? epoch e) ;; need peer.
Definition ack (m : bytes) : out (N * N * N) := s <- num m 6 8 ;; v <- num m 14 8 ;; d <- num m 30 8 ;; Ok (s, v, d).

(** StartSlowCommitMsg.hpp:42-47 (30: header, viewNum, seqNum, epochNum), StartSlowCommitMsg.cpp:30-35. *)
Definition vSlow (m : bytes) : out unit :=
  sp <- span m ;; need (30 + sp <=? size m) ;; ep <- num m 22 8 ;; need (ep =? epoch e) ;; v <- num m 6 8 ;; need (primaryOf e v =? sender).
Definition slow (m : bytes) : out (N * N * bytes) := v <- num m 6 8 ;; s <- num m 14 8 ;; sp <- span m ;; c <- part m 30 sp ;; Ok (v, s, c).

(** ReqMissingDataMsg.hpp:88-94 (32: header, viewNum, seqNum, epochNum, flags), ReqMissingDataMsg.cpp:34-41. *)
Definition vMissing (m : bytes) : out unit :=
  sp <- span m ;; need (32 + sp <=? size m) ;; need peer ;; ep <- num m 22 8 ;; need (ep =? epoch e).
Definition missing (m : bytes) : out (N * N * N * bytes) := v <- num m 6 8 ;; s <- num m 14 8 ;; f <- num m 30 2 ;; sp <- span m ;; c <- part m 32 sp ;; Ok (v, s, f, c).

(** FullCommitProofMsg.hpp:46-52 and SignedShareBase, SignedShareMsgs.hpp:46-53 (32: header, viewNum, seqNum, epochNum, signature length).
    FullCommitProofMsg.cpp:38-45. *)
Definition vProof (m : bytes) : out unit :=
  need (32 <=? size m) ;; need peer ;; ep <- num m 22 8 ;; need (ep =? epoch e) ;; sl <- num m 30 2 ;; sp <- span m ;; need (32 + sl + sp <=? size m).
(** SignedShareBase::_validate, SignedShareMsgs.cpp:80-87, for PrepareFull and CommitFull (132-134, 171-173). *)
Definition vFull (m : bytes) : out unit :=
  sp <- span m ;; need (32 + sp <=? size m) ;; sl <- num m 30 2 ;; need (32 + sl + sp <=? size m) ;; need other ;;
  ep <- num m 22 8 ;; need (ep =? epoch e) ;; need (isReplica e sender).
(** PreparePartialMsg and CommitPartialMsg, 104-108, 152-156. *)
Definition vPartial (m : bytes) : out unit := vFull m ;; v <- num m 6 8 ;; need (primaryOf e v =? me e).
(** viewNumber, seqNumber, the span context and the signature (signatureBody, SignedShareMsgs.hpp:39; FullCommitProofMsg.hpp:37). *)
Definition share (m : bytes) : out (N * N * bytes * bytes) :=
  v <- num m 6 8 ;; s <- num m 14 8 ;; sp <- span m ;; c <- part m 32 sp ;; sl <- num m 30 2 ;; g <- part m (32 + sp) sl ;; Ok (v, s, c, g).

(** PartialCommitProofMsg.hpp:55-64 (33: header, viewNum, seqNum, epochNum, commitPath int8, signature length), PartialCommitProofMsg.cpp:45-57. *)
Definition vPartProof (m : bytes) : out unit :=
  sp <- span m ;; need (33 + sp <=? size m) ;; ep <- num m 22 8 ;; need (ep =? epoch e) ;; need peer ;;
  p <- num m 30 1 ;; need ((p =? 0) || ((p =? 1) && (0 <? cVal e))) ;; sl <- num m 31 2 ;; need (33 + sl + sp <=? size m) ;;
  v <- num m 6 8 ;; s <- num m 14 8 ;; need (collects e v s).
Definition partProof (m : bytes) : out (N * N * N * bytes * bytes) :=
  v <- num m 6 8 ;; s <- num m 14 8 ;; p <- num m 30 1 ;; sp <- span m ;; c <- part m 33 sp ;; sl <- num m 31 2 ;; g <- part m (33 + sp) sl ;; Ok (v, s, p, c, g).

(** NewViewMsg.hpp:48-62 (24: header, newViewNum, epochNum, elementsCount; elements of 34: replicaId, digest). NewViewMsg.cpp:78-99;
    expectedElements and contentSize are uint16_t. *)
Definition nvExpected : N := (2 * fVal e + 2 * cVal e + 1) mod 2 ^ 16.
Fixpoint nvLoop (m : bytes) (k : nat) (p : N) (prev : option N) : out unit :=
  match k with
  | O => Ok tt
  | S k => id <- num m p 2 ;; need (match prev with None => true | Some q => q <? id end) ;; d <- part m (p + 2) 32 ;; need (negb (isZero d)) ;;
           nvLoop m k (p + 34) (Some id)
  end.
Definition vNewView (m : bytes) : out unit :=
  sp <- span m ;; need ((24 + nvExpected * 34 + sp) mod 2 ^ 16 <=? size m) ;; need (isReplica e sender) ;; need other ;;
  v <- num m 6 8 ;; need (primaryOf e v =? sender) ;; ep <- num m 14 8 ;; need (ep =? epoch e) ;; c <- num m 22 2 ;; need (c =? nvExpected) ;;
  nvLoop m (N.to_nat nvExpected) (24 + sp) None.
(** includesViewChangeFromReplica, 103-119: the digest named for a replica. *)
Fixpoint nvFind (m : bytes) (k : nat) (p r : N) : out (option bytes) :=
  match k with
  | O => Ok None
  | S k => id <- num m p 2 ;; if id =? r then d <- part m (p + 2) 32 ;; Ok (Some d) else if r <? id then Ok None else nvFind m k (p + 34) r
  end.
Definition newViewOf (m : bytes) (r : N) : out (N * option bytes) :=
  v <- num m 6 8 ;; sp <- span m ;; c <- num m 22 2 ;; d <- nvFind m (N.to_nat c) (24 + sp) r ;; Ok (v, d).

(** CheckpointMsg.hpp:86-97 (129: header, seqNum, epochNum, state, three digests, genReplicaId, flags), CheckpointMsg.cpp:49-77. *)
Definition vCheckpoint (m : bytes) : out unit :=
  assert other ;;
  sp <- span m ;; need (129 + sp <=? size m) ;; need (isReplica e sender) ;; g <- num m 126 2 ;; need (isReplica e g) ;;
  s <- num m 6 8 ;; need (Z.rem (signed s) 150 =? 0)%Z ;;
  d1 <- part m 30 32 ;; d2 <- part m 62 32 ;; d3 <- part m 94 32 ;; need (negb (isZero d1 && isZero d2 && isZero d3)) ;;
  need (129 + sp + sigLen e g <=? size m) ;; t <- part m 0 129 ;; sg <- part m (129 + sp) (sigLen e g) ;; need (verify e g t sg).
Record checkpoint := mkCk { ck_seq : N; ck_epoch : N; ck_state : N; ck_d1 : bytes; ck_d2 : bytes; ck_d3 : bytes; ck_gen : N; ck_stable : bool }.
Definition ckpt (m : bytes) : out checkpoint :=
  s <- num m 6 8 ;; ep <- num m 14 8 ;; st <- num m 22 8 ;; d1 <- part m 30 32 ;; d2 <- part m 62 32 ;; d3 <- part m 94 32 ;; g <- num m 126 2 ;; f <- num m 128 1 ;;
  Ok (mkCk s ep st d1 d2 d3 g (N.testbit f 0)).

(** ReplicaStatusMsg.hpp:79-93 (39: header, viewNumber, lastStableSeqNum, lastExecutedSeqNum, epochNum, flags); calcSizeOfReplicaStatusMsg,
    ReplicaStatusMsg.cpp:40-54; kWorkWindowBitMaskSize 38, maxNumberOfReplicasBitMaskSize. *)
Definition rMask : N := (maxReplicas e + 7) / 8.
Definition statusSize (f : N) : N :=
  if N.testbit f 2 && N.testbit f 0 then 39 + 38 + rMask
  else if N.testbit f 0 then 39 + rMask
  else if N.testbit f 3 then 39 + 2 * rMask
  else if N.testbit f 4 then 39 + 38 + rMask
  else 39 + rMask.
(** validate, 102-126. *)
Definition vStatus (m : bytes) : out unit :=
  sp <- span m ;; need (39 + sp <=? size m) ;; need peer ;;
  st <- num m 14 8 ;; need (Z.rem (signed st) 150 =? 0)%Z ;; ex <- num m 22 8 ;; need (signed st <=? signed ex)%Z ;;
  f <- num m 38 1 ;;
  let act := N.testbit f 0 in let pp := N.testbit f 2 in let mvc := N.testbit f 3 in let mpp := N.testbit f 4 in
  need (negb act || N.testbit f 1) ;; need (negb act || negb mvc) ;; need (negb act || negb mpp) ;; need (act || negb pp) ;;
  need (negb ((pp && mvc) || (pp && mpp) || (mvc && mpp))) ;; need (size m =? statusSize f + sp).
Definition bitAt (m : bytes) (base i : N) : out bool := b <- num m (base + i / 8) 1 ;; Ok (N.testbit b (i mod 8)).
(** isPrePrepareInActiveWindow 148-158, isMissingViewChangeMsgForViewChange 160-169, isMissingPrePrepareMsgForViewChange 171-181,
    hasComplaintFromReplica 216-224, with their assertions. [d] is the number asked for minus lastStableSeqNum. *)
Definition inWindow (m : bytes) (d : N) : out bool :=
  f <- num m 38 1 ;; assert (N.testbit f 2) ;; assert ((1 <=? d) && (d <=? 300)) ;; sp <- span m ;; bitAt m (39 + sp + rMask) (d - 1).
Definition missingVc (m : bytes) (r : N) : out bool :=
  f <- num m 38 1 ;; assert (N.testbit f 3) ;; assert (r <? maxReplicas e) ;; sp <- span m ;; bitAt m (39 + sp + rMask) r.
Definition missingPp (m : bytes) (d : N) : out bool :=
  f <- num m 38 1 ;; assert (N.testbit f 4) ;; assert ((1 <=? d) && (d <=? 300)) ;; sp <- span m ;; bitAt m (39 + sp + rMask) (d - 1).
Definition complaint (m : bytes) (r : N) : out bool := assert (r <? maxReplicas e) ;; sp <- span m ;; bitAt m (39 + sp) r.

(** ReplicaAsksToLeaveViewMsg.hpp:55-63 (27: header, genReplicaId, viewNum, epochNum, reason, sigLength), ReplicaAsksToLeaveViewMsg.cpp:51-68. *)
Definition vLeave (m : bytes) : out unit :=
  sp <- span m ;; need (27 + sp <=? size m) ;; ep <- num m 16 8 ;; need (ep =? epoch e) ;; g <- num m 6 2 ;; need (isReplica e g) ;;
  need (27 + sp + sigLen e g <=? size m) ;; t <- part m 0 27 ;; sg <- part m (27 + sp) (sigLen e g) ;; need (verify e g t sg).
Definition leave (m : bytes) : out (N * N * N) := g <- num m 6 2 ;; v <- num m 8 8 ;; r <- num m 24 1 ;; Ok (g, v, r).

(** ReplicaRestartReadyMsg.hpp:68-77 (29: header, genReplicaId, seqNum, epochNum, sigLength, reason, extraDataLen),
    ReplicaRestartReadyMsg.cpp:64-82: the header is read before the size is compared. *)
Definition vReady (m : bytes) : out unit :=
  g <- num m 6 2 ;; sp <- span m ;; xl <- num m 27 2 ;; let d := 29 + sp + xl in
  need (d <=? size m) ;; need (isReplica e g) ;; ep <- num m 16 8 ;; need (ep =? epoch e) ;; r <- num m 26 1 ;; need ((r =? 0) || (r =? 1)) ;;
  need (d + sigLen e g <=? size m) ;; t <- part m 0 d ;; sg <- part m d (sigLen e g) ;; need (verify e g t sg).
(** getExtraData 58-61. *)
Definition ready (m : bytes) : out (N * N * N * bytes) :=
  g <- num m 6 2 ;; s <- num m 8 8 ;; r <- num m 26 1 ;; sp <- span m ;; xl <- num m 27 2 ;; x <- (if r =? 0 then Ok [] else part m (29 + sp) xl) ;; Ok (g, s, r, x).

(** ReplicasRestartReadyProofMsg.hpp:60-72 (31: header, genReplicaId, seqNum, epochNum, reason, elementsCount, locationAfterLast);
    checkElements, ReplicasRestartReadyProofMsg.cpp:99-141: [n] elements read so far, [p] where the next begins, [rem] remainingBytes;
    the result is (elements, remaining bytes). extraDataLen in the loop condition is always 0. *)
Fixpoint rpLoop (m : bytes) (seq cnt sl : N) (fuel : nat) (n p rem : N) : out (N * N) :=
  if (29 + sl <=? rem) && (n <? cnt) then
    match fuel with
    | O => Refuse   (* not reached: [fuel] is at least the number of elements *)
    | S fuel =>
        s <- num m (p + 8) 8 ;; need (s =? seq) ;; r <- num m (p + 26) 1 ;; need ((r =? 0) || (r =? 1)) ;;
        g <- num m (p + 6) 2 ;; xl <- num m (p + 27) 2 ;; gl <- num m (p + 24) 2 ;;
        (if me e =? g then Ok tt else t <- part m p (29 + xl) ;; sg <- part m (p + (29 + xl)) gl ;; need (verify e g t sg)) ;;
        need (29 + xl + gl <=? rem) ;; rpLoop m seq cnt sl fuel (n + 1) (p + (29 + xl + gl)) (rem - (29 + xl + gl))
    end
  else Ok (n, rem).
(** getBodySize 40-44, validate 79-97. *)
Definition vReadyProof (m : bytes) : out unit :=
  sp <- span m ;; need (31 + sp <=? size m) ;; g <- num m 6 2 ;; need (isReplica e g) ;; ep <- num m 16 8 ;; need (ep =? epoch e) ;;
  r <- num m 24 1 ;; need ((r =? 0) || (r =? 1)) ;;
  loc <- num m 27 4 ;; need ((if loc =? 0 then 31 + sp else loc) <=? size m) ;;
  cnt <- num m 25 2 ;; need (nReplicas e - fVal e <=? cnt) ;;
  seq <- num m 8 8 ;; nr <- rpLoop m seq cnt (sigLen e g) (N.to_nat cnt) 0 (31 + sp) (size m - 31 - sp) ;;
  need (fst nr =? cnt) ;; need (loc =? (if 0 <? fst nr then size m - snd nr else 0)).

(** AskForCheckpointMsg.hpp:36-43 (6). *)
Definition vAsk (m : bytes) : out unit := assert other ;; sp <- span m ;; need (size m <=? 6 + sp).
(** StateTransferMsg.cpp:17-20. *)
Definition vSt (m : bytes) : out unit := need (6 <=? size m).

(** ClientReplyMsgHeader, ClientMsgs.hpp:49-62 (28: header, currentPrimaryId, reqSeqNum, result, replyLength, replicaSpecificInfoLength);
    ClientReplyMsg::validate, ClientReplyMsg.cpp:65-69: the sum has 32 bits, and replyLength is read first. *)
Definition vReply (m : bytes) : out unit := rl <- num m 20 4 ;; need ((28 + rl) mod 2 ^ 32 <=? size m).
Definition reply (m : bytes) : out (N * N * bytes) := q <- num m 8 8 ;; r <- num m 16 4 ;; rl <- num m 20 4 ;; b <- part m 28 rl ;; Ok (q, r, b).

(** ClientRequestMsgHeader, ClientMsgs.hpp:33-46 (52: header, idOfClientProxy, flags, result, reqSeqNum, requestLength, timeoutMilli,
    cidLength, reqSignatureLength, extraDataLength, indexInBatch). validateImp, ClientRequestMsg.cpp:114-228. The same for
    ClientPreProcessRequest and PreProcessResult. *)
Definition RECONFIG : N := 5.
Definition INTERNAL : N := 6.
Definition PREPROCESSED : N := 2.
Definition vRequest (m : bytes) : out unit :=
  sp <- span m ;; need (52 + sp <=? size m) ;;
  id <- num m 6 2 ;; fl <- num m 8 8 ;; let special := N.testbit fl RECONFIG || N.testbit fl INTERNAL in
  assert (special || other) ;;
  cl <- num m 40 4 ;; sl <- num m 44 2 ;; need (52 + cl + sp + sl <=? size m) ;;
  if special && (isReplica e id || isRo e id) then Ok tt
  else
    need (isPrincipal e id) ;; need (isPrincipal e sender) ;;
    rl <- num m 28 4 ;; xl <- num m 46 4 ;;
    let signs := isExternal e id && negb (N.testbit fl RECONFIG) && signing e && negb (rl =? 0) in
    need (negb signs || negb (sigLen e id =? 0)) ;;
    let expected := if isExternal e id && N.testbit fl RECONFIG then sl else if signs then sigLen e id else 0 in
    need (expected =? sl) ;; need (size m =? 52 + rl + cl + sp + expected + xl) ;;
    if signs && negb (N.testbit fl PREPROCESSED) then
      t <- part m (52 + sp) rl ;; sg <- (if sl =? 0 then Ok [] else part m (52 + sp + rl + cl) sl) ;; need (verify e id t sg)
    else Ok tt.
(** The fields, ClientRequestMsg.hpp:54-92, ClientRequestMsg.cpp:257-268; the extra data are the last bytes. *)
Record request := mkReq { q_client : N; q_flags : N; q_result : N; q_seq : N; q_timeout : N; q_index : N;
                          q_span : bytes; q_data : bytes; q_cid : bytes; q_sig : bytes; q_extra : bytes }.
Definition requestAt (m : bytes) (p : N) (tail : N -> N -> out bytes) : out request :=
  id <- num m (p + 6) 2 ;; fl <- num m (p + 8) 8 ;; rs <- num m (p + 16) 4 ;; sq <- num m (p + 20) 8 ;; rl <- num m (p + 28) 4 ;; tm <- num m (p + 32) 8 ;;
  cl <- num m (p + 40) 4 ;; sl <- num m (p + 44) 2 ;; xl <- num m (p + 46) 4 ;; ix <- num m (p + 50) 2 ;; sp <- num m (p + 2) 4 ;;
  s <- part m (p + 52) sp ;; d <- part m (p + 52 + sp) rl ;; c <- part m (p + 52 + sp + rl) cl ;; g <- part m (p + 52 + sp + rl + cl) sl ;;
  x <- tail (p + 52 + sp + rl + cl + sl) xl ;;
  Ok (mkReq id fl rs sq tm ix s d c g x).
Definition requestOf (m : bytes) : out request := requestAt m 0 (fun _ xl => if xl <=? size m then part m (size m - xl) xl else Outside).

(** * Preprocessor *)
(** ClientBatchRequestMsgHeader, ClientMsgs.hpp:25-31 (16: msgType, cidSize, clientId, numOfMessagesInBatch, dataSize);
    checkElements and validate, ClientBatchRequestMsg.cpp:58-104. *)
Fixpoint cbLoop (m : bytes) (k : nat) (p : N) : out unit :=
  match k with
  | O => Ok tt
  | S k =>
      id <- num m (p + 6) 2 ;; sl <- num m (p + 44) 2 ;; need ((if signing e then sigLen e id else 0) =? sl) ;;
      rl <- num m (p + 28) 4 ;; need (rl <=? size m) ;; cl <- num m (p + 40) 4 ;; need (cl <=? size m) ;; sp <- num m (p + 2) 4 ;;
      cbLoop m k (p + 52 + sp + rl + cl + sl)
  end.
Definition vClientBatch (m : bytes) : out unit :=
  need (16 <=? size m) ;; ds <- num m 12 4 ;; need (16 + ds <=? size m) ;; need other ;;
  n <- num m 8 4 ;; need (negb (n =? 0) && (n <=? 1024)) ;; cs <- num m 2 4 ;; cbLoop m (N.to_nat n) (16 + cs).
(** getClientPreProcessRequestMsgs 106-149, getCid 53-56. The requests are copied with flags and result of their own and without index and
    extra data (ClientPreProcessRequestMsg.cpp:20-43). *)
Fixpoint cbParse (m : bytes) (k : nat) (p : N) : out (list request) :=
  match k with
  | O => Ok []
  | S k =>
      r <- requestAt m p (fun _ _ => Ok []) ;; l <- cbParse m k (p + 52 + size (q_span r) + size (q_data r) + size (q_cid r) + size (q_sig r)) ;;
      Ok (mkReq (q_client r) 2 1 (q_seq r) (q_timeout r) 0 (q_span r) (q_data r) (q_cid r) (q_sig r) [] :: l)
  end.
Definition clientBatch (m : bytes) : out (N * bytes * list request) :=
  id <- num m 6 2 ;; n <- num m 8 4 ;; cs <- num m 2 4 ;; c <- part m 16 cs ;; l <- cbParse m (N.to_nat n) (16 + cs) ;; Ok (id, c, l).

(** PreProcessRequestMsg.hpp:71-87 (66: header, reqType, reqSeqNum, clientId, reqOffsetInBatch, senderId, requestLength, cidLength,
    spanContextSize, reqRetryId, reqSignatureLength, primaryBlockId, result, viewNum); validate, PreProcessRequestMsg.cpp:87-130: the size
    is compared with the header's own spanContextSize, while requestBuf and requestSignature (hpp:45, 57-62) use that of the base header. *)
Definition vPreReq (m : bytes) : out unit :=
  need (66 <=? size m) ;; sp <- num m 32 4 ;; rl <- num m 24 4 ;; cl <- num m 28 4 ;; sl <- num m 44 2 ;;
  need (size m =? 66 + sp + rl + cl + sl) ;; need other ;;
  if sl =? 0 then Ok tt
  else assert (signing e) ;; bs <- span m ;; t <- part m (66 + bs) rl ;; sg <- part m (66 + bs + rl + cl) sl ;; id <- num m 18 2 ;; need (verify e id t sg).
(** requestBuf, getCid (PreProcessRequestMsg.cpp:162-165) and spanContext (MessageBase.hpp:85-87). *)
Definition preReq (m : bytes) : out (N * N * bytes * bytes * bytes) :=
  id <- num m 18 2 ;; sq <- num m 10 8 ;; bs <- span m ;; s <- part m 66 bs ;; rl <- num m 24 4 ;; d <- part m (66 + bs) rl ;;
  sp <- num m 32 4 ;; cl <- num m 28 4 ;; c <- part m (66 + sp + rl) cl ;; Ok (id, sq, s, d, c).

(** PreProcessReplyMsg.hpp:70-84 (84: header, reqSeqNum, senderId, clientId, reqOffsetInBatch, status, preProcessResult, resultsHash,
    replyLength, cidLength, reqRetryId, viewNum); validate, PreProcessReplyMsg.cpp:58-92. *)
Definition vPreReply (m : bytes) : out unit :=
  need (84 <=? size m) ;; rl <- num m 60 4 ;; need (84 + rl <=? size m) ;; from <- num m 14 2 ;; need (negb (from =? me e)) ;;
  st <- num m 20 4 ;;
  if st =? 0 then need (84 + sigLen e from <=? size m) ;; h <- part m 28 32 ;; sg <- part m 84 (sigLen e from) ;; need (verify e from h sg)
  else Ok tt.
(** getResultHashSignature 94-100, getCid 174-176. *)
Definition preReplySig (m : bytes) : out (N * bytes * bytes) := from <- num m 14 2 ;; h <- part m 28 32 ;; sg <- part m 84 (sigLen e from) ;; Ok (from, h, sg).
Definition preReplyCid (m : bytes) : out bytes := cl <- num m 64 4 ;; if cl <=? size m then part m (size m - cl) cl else Outside.

(** PreProcessBatchRequestMsg.hpp (34: header, reqType, clientId, senderId, cidLength, numOfMessagesInBatch, requestsSize, viewNum);
    checkElements and validate, PreProcessBatchRequestMsg.cpp:54-105. *)
Fixpoint pbLoop (m : bytes) (k : nat) (p : N) : out unit :=
  match k with
  | O => Ok tt
  | S k =>
      id <- num m (p + 18) 2 ;; sl <- num m (p + 44) 2 ;; need ((if signing e then sigLen e id else 0) =? sl) ;;
      rl <- num m (p + 24) 4 ;; need (rl <=? size m) ;; cl <- num m (p + 28) 4 ;; need (cl <=? size m) ;; sp <- num m (p + 32) 4 ;;
      pbLoop m k (p + 66 + sp + rl + cl + sl)
  end.
Definition vPreBatch (m : bytes) : out unit :=
  need (34 <=? size m) ;; rs <- num m 22 4 ;; need (34 + rs <=? size m) ;; need other ;;
  n <- num m 18 4 ;; need (negb (n =? 0) && (n <=? 1024)) ;; cl <- num m 14 4 ;; pbLoop m (N.to_nat n) (34 + cl).
(** getPreProcessRequestMsgs 125-163: type, offset, sequence number, retry id, block, view, span context, request, cid, signature. *)
Record prereq := mkPre { b_type : N; b_client : N; b_offset : N; b_seq : N; b_retry : N; b_block : N; b_view : N;
                         b_span : bytes; b_data : bytes; b_cid : bytes; b_sig : bytes }.
Definition preAt (m : bytes) (p : N) : out prereq :=
  ty <- num m (p + 6) 4 ;; id <- num m (p + 18) 2 ;; off <- num m (p + 20) 2 ;; sq <- num m (p + 10) 8 ;; rt <- num m (p + 36) 8 ;; bl <- num m (p + 46) 8 ;; vw <- num m (p + 58) 8 ;;
  sp <- num m (p + 32) 4 ;; rl <- num m (p + 24) 4 ;; cl <- num m (p + 28) 4 ;; sl <- num m (p + 44) 2 ;;
  s <- part m (p + 66) sp ;; d <- part m (p + 66 + sp) rl ;; c <- part m (p + 66 + sp + rl) cl ;; g <- part m (p + 66 + sp + rl + cl) sl ;;
  Ok (mkPre ty id off sq rt bl vw s d c g).
Fixpoint pbParse (m : bytes) (k : nat) (p : N) : out (list prereq) :=
  match k with
  | O => Ok []
  | S k => r <- preAt m p ;; l <- pbParse m k (p + 66 + size (b_span r) + size (b_data r) + size (b_cid r) + size (b_sig r)) ;; Ok (r :: l)
  end.
Definition preBatch (m : bytes) : out (N * N * bytes * list prereq) :=
  id <- num m 10 2 ;; vw <- num m 26 8 ;; n <- num m 18 4 ;; cl <- num m 14 4 ;; c <- part m 34 cl ;; l <- pbParse m (N.to_nat n) (34 + cl) ;; Ok (id, vw, c, l).

(** PreProcessBatchReplyMsg.hpp (30: header, clientId, senderId, cidLength, numOfMessagesInBatch, repliesSize, viewNum);
    validate, PreProcessBatchReplyMsg.cpp:49-74 (the cid is read for the log when the number is wrong, which is left out). *)
Definition vReplyBatch (m : bytes) : out unit :=
  need (30 <=? size m) ;; rs <- num m 18 4 ;; need (30 + rs <=? size m) ;; need other ;; n <- num m 14 4 ;; need (negb (n =? 0) && (n <=? 1024)).
(** getPreProcessReplyMsgs 88-123; each reply is written to a new message of 1024 bytes (PreProcessReplyMsg.cpp:24, 54-55, 120-125, 167-172). *)
Record prereply := mkPr { p_seq : N; p_offset : N; p_retry : N; p_hash : bytes; p_sig : bytes; p_cid : bytes; p_status : N; p_result : N; p_view : N }.
Definition replyAt (m : bytes) (sl p : N) : out prereply :=
  sq <- num m (p + 6) 8 ;; cl <- num m (p + 64) 4 ;; c <- part m (p + 84 + sl) cl ;; off <- num m (p + 18) 2 ;; rt <- num m (p + 68) 8 ;; h <- part m (p + 28) 32 ;;
  g <- part m (p + 84) sl ;; st <- num m (p + 20) 4 ;; rs <- num m (p + 24) 4 ;; vw <- num m (p + 76) 8 ;;
  if 84 + sigLen e (me e) + cl <=? 1024 then Ok (mkPr sq off rt h g c st rs vw) else Outside.
Fixpoint rbParse (m : bytes) (sl : N) (k : nat) (p : N) : out (list prereply) :=
  match k with
  | O => Ok []
  | S k => r <- replyAt m sl p ;; l <- rbParse m sl k (p + 84 + sl + size (p_cid r)) ;; Ok (r :: l)
  end.
Definition replyBatch (m : bytes) : out (N * N * bytes * list prereply) :=
  id <- num m 6 2 ;; from <- num m 8 2 ;; n <- num m 14 4 ;; cl <- num m 10 4 ;; c <- part m 30 cl ;;
  l <- rbParse m (sigLen e from) (N.to_nat n) (30 + cl) ;; Ok (id, from, c, l).

(** * State transfer messages: what ReplicaForStateTransfer.cpp:119-124 hands over, the message without the base header. *)
(** BCStateTran.cpp:1150-1169: the mark at offset 2 is written before the size is looked at; then the type. *)
Definition stEnter (m : bytes) : out N := _ <- part m 2 1 ;; need (3 <=? size m) ;; need other ;; num m 0 2.
(** 1665; Messages.hpp: 19 bytes (type and mark, msgSeqNum, minRelevantCheckpointNum). *)
Definition stAsk (m : bytes) : out (N * N) := need (19 <=? size m) ;; c <- num m 11 8 ;; need (negb (c =? 0)) ;; s <- num m 3 8 ;; need (negb (s =? 0)) ;; Ok (s, c).
(** 1745; 95 bytes and the data (checkpointNum, maxBlockId, two digests, requestMsgSeqNum, rvbDataSize). *)
Definition stSummary (m : bytes) : out (N * N * bytes * bytes * N * bytes) :=
  rv <- num m 91 4 ;; need (size m =? 95 + rv) ;; c <- num m 3 8 ;; need (negb (c =? 0)) ;; d2 <- part m 51 32 ;; need (negb (isZero d2)) ;;
  q <- num m 83 8 ;; need (negb (q =? 0)) ;; b <- num m 11 8 ;; d1 <- part m 19 32 ;; x <- part m 95 rv ;; Ok (c, b, d1, d2, q, x).
(** 2021; 45 bytes (msgSeqNum, minBlockId, maxBlockId, maxBlockIdInCycle, rvbGroupId, lastKnownChunkInLastRequiredBlock). *)
Definition stFetch (m : bytes) : out (N * N * N * N * N * N) :=
  need (45 <=? size m) ;; s <- num m 3 8 ;; need (negb (s =? 0)) ;; lo <- num m 11 8 ;; need (negb (lo =? 0)) ;; hi <- num m 19 8 ;; need (lo <=? hi) ;;
  cy <- num m 27 8 ;; need (hi <=? cy) ;; g <- num m 35 8 ;; k <- num m 43 2 ;; Ok (s, lo, hi, cy, g, k).
(** 2321; 29 bytes (msgSeqNum, lastCheckpointKnownToRequester, requiredCheckpointNum, lastKnownChunk). *)
Definition stPages (m : bytes) : out (N * N * N * N) :=
  need (29 <=? size m) ;; s <- num m 3 8 ;; need (negb (s =? 0)) ;; c <- num m 19 8 ;; need (negb (c =? 0)) ;; l <- num m 11 8 ;; k <- num m 27 2 ;; Ok (s, l, c, k).
(** 2464; 13 bytes. *)
Definition stReject (m : bytes) : out (N * N) := need (13 <=? size m) ;; q <- num m 3 8 ;; r <- num m 11 2 ;; Ok (q, r).
(** 2541-2559; 32 bytes and the data (requestMsgSeqNum, blockNumber, totalNumberOfChunksInBlock, chunkNumber, lastInBatch, rvbDigestsSize,
    dataSize); size() has 32 bits. [chunks]: the most chunks of a block. *)
Definition stItem (chunks : N) (m : bytes) : out (N * N * N * N * N * N * bytes) :=
  q <- num m 3 8 ;; rv <- num m 24 4 ;; ds <- num m 28 4 ;; l <- num m 23 1 ;; need (size m =? (32 + ds) mod 2 ^ 32) ;; need (negb (q =? 0)) ;;
  b <- num m 11 8 ;; need (negb (b =? 0)) ;; t <- num m 19 2 ;; need (negb (t =? 0) && (t <=? chunks)) ;; c <- num m 21 2 ;; need (negb (c =? 0)) ;;
  need (negb (ds =? 0)) ;; need (rv <? ds) ;; x <- part m 32 ds ;; Ok (q, b, t, c, l, rv, x).
End Validate.

(** * The client's receiver, msg_receiver.cpp:45-89: a reply of at most [limit] bytes (0: none expected). replyLength -
    replicaSpecificInfoLength has 32 bits. Result: primary, request, result, data, replica specific information. *)
Definition clientReceive (limit : N) (m : bytes) : out (N * N * N * bytes * bytes) :=
  need (negb (limit =? 0)) ;; need (size m <=? limit) ;; need (28 <=? size m) ;; ty <- num m 0 2 ;; need (ty =? 800) ;;
  p <- num m 6 2 ;; q <- num m 8 8 ;; r <- num m 16 4 ;; rl <- num m 20 4 ;; sp <- num m 2 4 ;; il <- num m 24 4 ;;
  let n := (rl + 2 ^ 32 - il) mod 2 ^ 32 in
  i <- part m (28 + sp + n) il ;; d <- part m (28 + sp) n ;; Ok (p, q, r, d, i).

(** * Specification: the messages correct nodes make. Constructors: numbers little-endian at the offsets above. *)
Definition len4 (b : bytes) : bytes := le 4 (size b).
Definition base (ty : N) (sp : bytes) : bytes := le 2 ty ++ len4 sp.
(** SimpleAckMsg.cpp:18-24. *)
Definition mkAck (ep s v d : N) : bytes := base 600 [] ++ le 8 s ++ le 8 v ++ le 8 ep ++ le 8 d.
(** StartSlowCommitMsg.cpp:18-28. *)
Definition mkSlow (ep v s : N) (sp : bytes) : bytes := base 601 sp ++ le 8 v ++ le 8 s ++ le 8 ep ++ sp.
(** ReqMissingDataMsg.cpp:18-30. *)
Definition mkMissing (ep v s f : N) (sp : bytes) : bytes := base 602 sp ++ le 8 v ++ le 8 s ++ le 8 ep ++ le 2 f ++ sp.
(** FullCommitProofMsg.cpp:17-36, SignedShareMsgs.cpp:27-78. *)
Definition mkShare (ty ep v s : N) (sp sg : bytes) : bytes := base ty sp ++ le 8 v ++ le 8 s ++ le 8 ep ++ le 2 (size sg) ++ sp ++ sg.
(** PartialCommitProofMsg.cpp:17-43. *)
Definition mkPartProof (ep v s p : N) (sp sg : bytes) : bytes := base 603 sp ++ le 8 v ++ le 8 s ++ le 8 ep ++ le 1 p ++ le 2 (size sg) ++ sp ++ sg.
(** NewViewMsg.cpp:20-76. *)
Definition mkNewView (ep v : N) (sp : bytes) (l : list (N * bytes)) : bytes :=
  base 604 sp ++ le 8 v ++ le 8 ep ++ le 2 (N.of_nat (length l)) ++ sp ++ concat (map (fun x => le 2 (fst x) ++ snd x) l).
(** CheckpointMsg.cpp:20-47. *)
Definition ckHeader (spn ep s st : N) (d1 d2 d3 : bytes) (g : N) (stb : bool) : bytes :=
  le 2 605 ++ le 4 spn ++ le 8 s ++ le 8 ep ++ le 8 st ++ d1 ++ d2 ++ d3 ++ le 2 g ++ le 1 (if stb then 1 else 0).
Definition mkCheckpoint (sign : bytes -> bytes) (ep s st : N) (d1 d2 d3 : bytes) (g : N) (stb : bool) (sp : bytes) : bytes :=
  let h := ckHeader (size sp) ep s st d1 d2 d3 g stb in h ++ sp ++ sign h.
(** ReplicaAsksToLeaveViewMsg.cpp:20-49. *)
Definition mkLeave (sign : bytes -> bytes) (ep g v r sl : N) (sp : bytes) : bytes :=
  let h := base 606 sp ++ le 2 g ++ le 8 v ++ le 8 ep ++ le 1 r ++ le 2 sl in h ++ sp ++ sign h.
(** ReplicaRestartReadyMsg.cpp:18-56. *)
Definition mkReady (sign : bytes -> bytes) (ep g s r sl : N) (x sp : bytes) : bytes :=
  let h := base 607 sp ++ le 2 g ++ le 8 s ++ le 8 ep ++ le 2 sl ++ le 1 r ++ le 2 (size x) ++ sp ++ x in h ++ sign h.
(** ReplicasRestartReadyProofMsg.cpp:18-77. *)
Definition mkReadyProof (ep g s r : N) (sp : bytes) (l : list bytes) : bytes :=
  base 608 sp ++ le 2 g ++ le 8 s ++ le 8 ep ++ le 1 r ++ le 2 (N.of_nat (length l)) ++
  le 4 (match l with [] => 0 | _ => 31 + size sp + size (concat l) end) ++ sp ++ concat l.
(** ClientReplyMsg.cpp:27-32, 45-51. *)
Definition mkReply (pr q r : N) (il : N) (b : bytes) : bytes := base 800 [] ++ le 2 pr ++ le 8 q ++ le 4 r ++ len4 b ++ le 4 il ++ b.
(** ClientRequestMsg.cpp:39-84, 230-255. *)
Definition mkRequest (ty : N) (r : request) : bytes :=
  base ty (q_span r) ++ le 2 (q_client r) ++ le 8 (q_flags r) ++ le 4 (q_result r) ++ le 8 (q_seq r) ++ len4 (q_data r) ++ le 8 (q_timeout r) ++
  len4 (q_cid r) ++ le 2 (size (q_sig r)) ++ len4 (q_extra r) ++ le 2 (q_index r) ++ q_span r ++ q_data r ++ q_cid r ++ q_sig r ++ q_extra r.
(** ClientBatchRequestMsg.cpp:22-51. *)
Definition mkClientBatch (id : N) (cid : bytes) (l : list request) : bytes :=
  let body := concat (map (mkRequest 700) l) in
  le 2 750 ++ len4 cid ++ le 2 id ++ le 4 (N.of_nat (length l)) ++ len4 body ++ cid ++ body.
(** PreProcessRequestMsg.cpp:18-85. *)
Definition mkPreReq (from res : N) (r : prereq) : bytes :=
  base 609 (b_span r) ++ le 4 (b_type r) ++ le 8 (b_seq r) ++ le 2 (b_client r) ++ le 2 (b_offset r) ++ le 2 from ++ len4 (b_data r) ++ len4 (b_cid r) ++ len4 (b_span r) ++
  le 8 (b_retry r) ++ le 2 (size (b_sig r)) ++ le 8 (b_block r) ++ le 4 res ++ le 8 (b_view r) ++ b_span r ++ b_data r ++ b_cid r ++ b_sig r.
(** PreProcessBatchRequestMsg.cpp:20-52. *)
Definition mkPreBatch (ty id from vw res : N) (cid : bytes) (l : list prereq) : bytes :=
  let body := concat (map (mkPreReq from res) l) in
  base 610 [] ++ le 4 ty ++ le 2 id ++ le 2 from ++ len4 cid ++ le 4 (N.of_nat (length l)) ++ len4 body ++ le 8 vw ++ cid ++ body.
(** PreProcessReplyMsg.cpp:26-56, 102-165. *)
Definition mkPreReply (from client : N) (r : prereply) : bytes :=
  base 611 [] ++ le 8 (p_seq r) ++ le 2 from ++ le 2 client ++ le 2 (p_offset r) ++ le 4 (p_status r) ++ le 4 (p_result r) ++ p_hash r ++ le 4 (size (p_sig r)) ++ len4 (p_cid r) ++
  le 8 (p_retry r) ++ le 8 (p_view r) ++ p_sig r ++ p_cid r.
(** PreProcessBatchReplyMsg.cpp:22-47. *)
Definition mkReplyBatch (id from vw : N) (cid : bytes) (l : list prereply) : bytes :=
  let body := concat (map (mkPreReply from id) l) in
  base 612 [] ++ le 2 id ++ le 2 from ++ len4 cid ++ le 4 (N.of_nat (length l)) ++ len4 body ++ le 8 vw ++ cid ++ body.

(** No byte outside is accessed and nothing stops. *)
Definition safely {A} (x : out A) : Prop := x <> Outside /\ x <> Crash.
(** A number that fits in [k] bytes. *)
Definition fits (k x : N) : Prop := x < 256 ^ k.
(** Elements of a new view: ascending replicas, digests that are not zero; the digest of a replica. *)
Fixpoint sortedFrom (prev : option N) (l : list (N * bytes)) : Prop :=
  match l with [] => True | (i, d) :: t => match prev with None => True | Some q => q < i end /\ fits 2 i /\ size d = 32 /\ isZero d = false /\ sortedFrom (Some i) t end.
Fixpoint named (l : list (N * bytes)) (r : N) : option bytes := match l with [] => None | (i, d) :: t => if i =? r then Some d else named t r end.
(** The fields of messages fit their widths. *)
Definition reqFits (r : request) : Prop :=
  fits 2 (q_client r) /\ fits 8 (q_flags r) /\ fits 4 (q_result r) /\ fits 8 (q_seq r) /\ fits 8 (q_timeout r) /\ fits 2 (q_index r) /\
  fits 4 (size (q_span r)) /\ fits 4 (size (q_data r)) /\ fits 4 (size (q_cid r)) /\ fits 2 (size (q_sig r)) /\ fits 4 (size (q_extra r)).
Definition preFits (r : prereq) : Prop :=
  fits 4 (b_type r) /\ fits 2 (b_client r) /\ fits 2 (b_offset r) /\ fits 8 (b_seq r) /\ fits 8 (b_retry r) /\ fits 8 (b_block r) /\ fits 8 (b_view r) /\
  fits 4 (size (b_span r)) /\ fits 4 (size (b_data r)) /\ fits 4 (size (b_cid r)) /\ fits 2 (size (b_sig r)).
Definition prFits (r : prereply) : Prop :=
  fits 8 (p_seq r) /\ fits 2 (p_offset r) /\ fits 8 (p_retry r) /\ fits 4 (p_status r) /\ fits 4 (p_result r) /\ fits 8 (p_view r) /\ size (p_hash r) = 32 /\
  fits 4 (size (p_cid r)) /\ fits 4 (size (p_sig r)).
(** What a batch keeps of a request. *)
Definition copied (r : request) : request := mkReq (q_client r) 2 1 (q_seq r) (q_timeout r) 0 (q_span r) (q_data r) (q_cid r) (q_sig r) [].
(** A signed ready message. *)
Record readyMsg := mkRm { r_gen : N; r_sign : bytes -> bytes; r_seq : N; r_reason : N; r_extra : bytes }.
Section Elements.
Context (e : env).
(** A request in a batch has no extra data and a signature of the length of its client's when clients sign. *)
Definition inBatch (r : request) : Prop := reqFits r /\ q_extra r = [] /\ size (q_sig r) = (if signing e then sigLen e (q_client r) else 0).
Definition preIn (r : prereq) : Prop := preFits r /\ size (b_sig r) = (if signing e then sigLen e (b_client r) else 0).
(** A reply in a batch of [from]; it fits the 1024 bytes of a message of its own. *)
Definition replyIn (from : N) (r : prereply) : Prop := prFits r /\ size (p_sig r) = sigLen e from /\ 84 + sigLen e (me e) + size (p_cid r) <= 1024.
Definition readyBytes (x : readyMsg) : bytes := mkReady (r_sign x) (epoch e) (r_gen x) (r_seq x) (r_reason x) (sigLen e (r_gen x)) (r_extra x) [].
Definition readyIn (seq : N) (x : readyMsg) : Prop :=
  r_seq x = seq /\ fits 8 (r_seq x) /\ r_reason x <= 1 /\ fits 2 (r_gen x) /\ fits 2 (size (r_extra x)) /\ fits 2 (sigLen e (r_gen x)) /\
  (forall t, size (r_sign x t) = sigLen e (r_gen x)) /\ (forall t, verify e (r_gen x) t (r_sign x t) = true).
(** A request that says it is a reconfiguration or internal one and names a replica. *)
Definition specialRequest (m : bytes) : Prop := exists id fl, num m 6 2 = Ok id /\ num m 8 8 = Ok fl /\ (N.testbit fl RECONFIG || N.testbit fl INTERNAL = true) /\ (isReplica e id || isRo e id = true).
End Elements.
