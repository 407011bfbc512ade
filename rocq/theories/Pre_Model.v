(** Pre-processing: bftengine/src/preprocessor/RequestProcessingState.cpp (the primary collects result hashes), the reply messages it takes
    them from, the result message it builds, and the validation of that message by the other replicas. Model and specification only. *)
From Coq Require Import List Arith NArith Bool Lia.
From Verif Require Import Lib_Bytes.
Import ListNotations.
Local Open Scope N_scope.

(** OperationResult, SharedTypes.hpp:19-31: 0 is SUCCESS, 1 is UNKNOWN, all others are errors. *)
Definition SUCCESS : N := 0.
Definition UNKNOWN : N := 1.
(** A SHA3-256 digest, ideal: the bytes that were hashed; [Zero] is the all-zero value of a Digest that was never assigned
    (RequestProcessingState.hpp:135). *)
Inductive hash := Zero | Dig (pre : bytes).
Fixpoint bytesEqb (a b : bytes) : bool := match a, b with [], [] => true | x :: a, y :: b => (x =? y) && bytesEqb a b | _, _ => false end.
Definition hashEqb (a b : hash) : bool := match a, b with Zero, Zero => true | Dig x, Dig y => bytesEqb x y | _, _ => false end.
(** PreProcessResultHashCreator::create, PreProcessResultHashCreator.hpp:21-35: the data only count for SUCCESS. *)
Definition createHash (data : bytes) (res client seq : N) : hash :=
  Dig ((if res =? SUCCESS then data else []) ++ le 4 res ++ le 2 client ++ le 8 seq).

(** PreProcessResultSignature, PreProcessResultMsg.hpp:63-86; a std::set of them is ordered by the sender alone (80). *)
Record vote := mkV { vsender : N; vsig : bytes; vres : N }.
(** std::set::emplace: (set, inserted). *)
Fixpoint sinsert (v : vote) (l : list vote) : list vote * bool :=
  match l with
  | [] => ([v], true)
  | w :: l' => if vsender v <? vsender w then (v :: l, true) else if vsender v =? vsender w then (l, false) else let '(r, b) := sinsert v l' in (w :: r, b)
  end.

(** * The primary *)
Inductive verdict := Continue | Complete | Cancel | Abort.
(** RequestProcessingState.hpp:111-139. [pdata = None]: the pointer is null or was overwritten. [recv] is a uint16_t. *)
Record st := mkSt { votes : list (hash * list vote); recv : N; rejected : list N; busy : bool; pres : N; phash : hash; pdata : option bytes; agreed : N }.
Definition st0 : st := mkSt [] 0 [] false UNKNOWN Zero None UNKNOWN.

Section Primary.
(** [before]: how two digests compare in the std::map (any function here: the digests of different results are in no particular order).
    [sign r h]: the signature of replica [r]. [req] = numOfRequiredEqualReplies_ = f+1 (PreProcessor.cpp:1506); [n] replicas. *)
Context (before : hash -> hash -> bool) (sign : N -> hash -> bytes) (me client seq : N) (req : nat) (n : N).

Fixpoint minsert (h : hash) (vs : list vote) (m : list (hash * list vote)) : list (hash * list vote) :=
  match m with [] => [(h, vs)] | (g, ws) :: m' => if before h g then (h, vs) :: m else (g, ws) :: minsert h vs m' end.
Fixpoint mupdate (h : hash) (v : vote) (m : list (hash * list vote)) : option (list (hash * list vote) * bool) :=
  match m with
  | [] => None
  | (g, ws) :: m' => if hashEqb h g then let '(ws', b) := sinsert v ws in Some ((g, ws') :: m', b)
                     else match mupdate h v m' with Some (r, b) => Some ((g, ws) :: r, b) | None => None end
  end.
(** preProcessingResultHashes_[h].emplace(v): (map, inserted). *)
Definition addVote (h : hash) (v : vote) (m : list (hash * list vote)) : list (hash * list vote) * bool :=
  match mupdate h v m with Some r => r | None => (minsert h [v] m, true) end.

Definition inc (x : N) : N := (x + 1) mod 65536.

(** The bytes setupPreProcessResultData leaves for sending (RequestProcessingState.cpp:75-82): it writes result, client and number over the
    start of the buffer, but moves the data pointer along by 6, so that 14 bytes from there are sent. *)
Definition setupData (buf : bytes) (res : N) : bytes := slice (le 4 res ++ le 2 client ++ le 8 seq ++ skipn 14 buf) 6 14.
(** handlePrimaryPreProcessed, RequestProcessingState.cpp:89-121. [buf] is the result buffer, of which the first [len] bytes are the result.
    [None]: with UNKNOWN the data pointer is null and is written through. *)
Definition primaryDone (buf : bytes) (len : nat) (res : N) (s : st) : option st :=
  if res =? UNKNOWN then None
  else let h := createHash (firstn len buf) res client seq in
       let d := if res =? SUCCESS then firstn len buf else setupData buf res in
       let '(m, added) := addVote h (mkV me (sign me h) res) (votes s) in
       Some (mkSt m (if added then inc (recv s) else recv s) (rejected s) false res h (Some d) (agreed s)).

(** ReplyStatus, PreProcessReplyMsg.hpp:21. *)
Inductive status := Good | Reject | Failed.
(** PreProcessReplyMsg as it arrives: the sender known to the transport, and the fields of the message. *)
Record reply := mkReply { transport : N; hdrSender : N; rstatus : status; rhash : hash; rsig : bytes; rres : N }.
(** Sent alone or inside a PreProcessBatchReplyMsg. *)
Inductive kind := Single | Batch.
(** The sender the vote is filed under: MessageBase::senderId(), which is the transport's for a single message and, for a reply inside a
    batch, the number written in the batch message (PreProcessBatchReplyMsg.cpp:88-110). *)
Definition filedUnder (k : kind) (r : reply) : N := match k with Single => transport r | Batch => hdrSender r end.
(** PreProcessReplyMsg::validate, PreProcessReplyMsg.cpp:56-89 (sizes left out): the signature is checked only with STATUS_GOOD. *)
Definition validReply (verify : N -> hash -> bytes -> bool) (r : reply) : bool :=
  negb (hdrSender r =? me) && match rstatus r with Good => verify (hdrSender r) (rhash r) (rsig r) | _ => true end.
(** handlePreProcessReplyMsg, RequestProcessingState.cpp:147-176. *)
Definition handleReply (k : kind) (r : reply) (s : st) : st :=
  match rstatus r with
  | Reject => mkSt (votes s) (recv s) (rejected s ++ [filedUnder k r]) (busy s) (pres s) (phash s) (pdata s) (agreed s)
  | _ => let '(m, added) := addVote (rhash r) (mkV (filedUnder k r) (rsig r) (rres r)) (votes s) in
         mkSt m (if added then inc (recv s) else recv s) (rejected s) (busy s) (pres s) (phash s) (pdata s) (agreed s)
  end.

(** calculateMaxNbrOfEqualHashes, RequestProcessingState.cpp:184-195. *)
Fixpoint pick (m : list (hash * list vote)) (best : option (hash * list vote)) : option (hash * list vote) :=
  match m with
  | [] => best
  | p :: m => pick m (match best with Some b => if (length (snd b) <? length (snd p))%nat then Some p else best | None => if (0 <? length (snd p))%nat then Some p else None end)
  end.
Definition count (o : option (hash * list vote)) : nat := match o with Some p => length (snd p) | None => 0 end.
(** detectFailureDueToBlockID, RequestProcessingState.cpp:217-237: the primary's result with the last 8 bytes replaced by zeros. *)
Definition zeroed (d : bytes) : bytes := firstn (length d - 8) d ++ le 8 0.
(** definePreProcessingConsensusResult, RequestProcessingState.cpp:271-333; updatePreProcessResultData (84-87) copies the result code over the
    pointer itself; modifyPrimaryResult 239-251. *)
Definition define (s : st) : st * verdict :=
  let tail s := (s, if recv s =? n then Cancel else Continue) in
  if recv s <? N.of_nat req then (s, Continue)
  else if busy s then (s, Continue)
  else match pick (votes s) None with
       | Some (h, vs) =>
           if (req <=? length vs)%nat then
             let ag := match vs with v :: _ => vres v | [] => UNKNOWN end in
             let s := mkSt (votes s) (recv s) (rejected s) (busy s) (pres s) (phash s) (pdata s) ag in
             if hashEqb h (phash s) then (s, Complete)
             else if (pres s =? SUCCESS) && negb (ag =? SUCCESS) then (mkSt (votes s) (recv s) (rejected s) (busy s) (pres s) (phash s) None ag, Complete)
             else if pres s =? SUCCESS then
               match pdata s with
               | Some d => if (length d <=? 8)%nat then (s, Abort)
                           else if hashEqb h (createHash (zeroed d) SUCCESS client seq)
                                then let h' := createHash (zeroed d) SUCCESS client seq in
                                     (mkSt (fst (addVote h' (mkV me (sign me h') (pres s)) (votes s))) (recv s) (rejected s) (busy s) (pres s) h' (Some (zeroed d)) ag, Complete)
                                else (s, Cancel)
               | None => (s, Abort)
               end
             else tail s
           else tail s
       | None => tail s
       end.

(** What happens to one request at the primary, in any order: the pre-processing job starts (PreProcessor.cpp:1851), it ends (2030-2036), a
    reply arrives (1119-1158; a rejection is only recorded). After each the verdict is computed; the request is over unless it is Continue. *)
Inductive event := EStart | EPrimary (buf : bytes) (len : nat) (res : N) | EReply (k : kind) (r : reply).
Definition step (e : event) (s : st) : st * verdict :=
  match e with
  | EStart => (mkSt (votes s) (recv s) (rejected s) true (pres s) (phash s) (pdata s) (agreed s), Continue)
  | EPrimary buf len res => match primaryDone buf len res s with Some s => define s | None => (s, Abort) end
  | EReply k r => let s := handleReply k r s in match rstatus r with Reject => (s, Continue) | _ => define s end
  end.
Fixpoint run (es : list event) (s : st) : st * verdict :=
  match es with [] => (s, Continue) | e :: es => match step e s with (s, Continue) => run es s | r => r end end.

(** finalizePreProcessing, PreProcessor.cpp:1438-1503 (with preExecutionResultAuthEnabled): the message for consensus. *)
Record resultMsg := mkRM { mbody : option bytes; mres : N; mclient : N; mseq : N; msigs : bytes }.
Definition lookup (h : hash) (m : list (hash * list vote)) : option (list vote) :=
  match find (fun p => hashEqb h (fst p)) m with Some p => Some (snd p) | None => None end.
(** serializeResultSignatures, PreProcessResultMsg.cpp:102-123 (at least one signature is required, so [firstn]). *)
Definition serOne (v : vote) : bytes := be 2 (vsender v) ++ be 4 (vres v) ++ be 4 (N.of_nat (length (vsig v))) ++ vsig v.
Definition serialize (k : nat) (vs : list vote) : bytes := concat (map serOne (firstn k vs)).
Definition finalize (s : st) : option resultMsg :=
  match lookup (phash s) (votes s) with                             (* getPreProcessResultSignatures, RequestProcessingState.cpp:339-356 *)
  | Some vs => Some (mkRM (pdata s) (if agreed s =? SUCCESS then UNKNOWN else agreed s) client seq (serialize req vs))
  | None => None                                                    (* assertion *)
  end.
End Primary.

(** * The other replicas *)
(** deserializeResultSignatures, PreProcessResultMsg.cpp:125-163; [None] is the exception. The loop ends when the buffer is used up, so the
    length of the buffer bounds it. *)
Fixpoint deser (fuel : nat) (b : bytes) (acc : list vote) : option (list vote) :=
  match fuel with
  | O => None
  | S fuel =>
      if (length b <? 10)%nat then None
      else let sz := N.to_nat (unbe (slice b 6 4)) in let rest := skipn 10 b in
           if (length rest <? sz)%nat then None
           else let acc := fst (sinsert (mkV (unbe (slice b 0 2)) (firstn sz rest) (unbe (slice b 2 4))) acc) in
                match skipn sz rest with [] => Some acc | rest => deser fuel rest acc end
  end.
Definition deserialize (b : bytes) : option (list vote) := deser (S (length b)) b [].

Section Backup.
Context (sign : N -> hash -> bytes) (verify : N -> hash -> bytes -> bool) (me : N) (f : nat).
(** validatePreProcessResultSignatures, PreProcessResultMsg.cpp:59-100. [None]: the exception of the parser; [Some false]: an error text. *)
Definition validateSigs (m : resultMsg) : option bool :=
  match deserialize (msigs m) with
  | None => None
  | Some vs =>
      if negb (length vs =? S f)%nat then Some false
      else let h := createHash (match mbody m with Some d => d | None => [] end) (match vs with v :: _ => vres v | [] => UNKNOWN end) (mclient m) (mseq m) in
           Some (forallb (fun v => if vsender v =? me then bytesEqb (sign me h) (vsig v) else verify (vsender v) h (vsig v)) vs)
  end.
(** ReplicaImp::validatePreProcessedResults, ReplicaImp.cpp:1012-1052, for the PreProcessResult requests of one pre-prepare message: every check
    runs in a packaged_task (thread_pool.hpp) whose exception stays in the future; wait() does not rethrow it, and the error slot stays empty. *)
Definition acceptResults (ms : list resultMsg) : bool := forallb (fun m => match validateSigs m with Some false => false | _ => true end) ms.
(** Execution (ReplicaImp.cpp:5064-5067): is the body given to the application as a successful result? That depends on the result field of the
    request's header, which no signature covers. *)
Definition executedAsSuccess (m : resultMsg) : bool := mres m =? UNKNOWN.
End Backup.

(** Specification: the replicas whose report of hash [h] is recorded. *)
Definition reported (s : st) (h : hash) (r : N) : Prop := exists vs v, In (h, vs) (votes s) /\ In v vs /\ vsender v = r.
Definition reportedBy (s : st) (h : hash) (k : nat) : Prop := exists l, NoDup l /\ (k <= length l)%nat /\ forall r, In r l -> reported s h r.
(** In the history [es] replica [r] reported the hash [h]: by a reply filed under its number, or it is the primary and computed it. *)
Definition reports (me client seq : N) (es : list event) (h : hash) (r : N) : Prop :=
  (exists k rep, In (EReply k rep) es /\ rstatus rep <> Reject /\ rhash rep = h /\ filedUnder k rep = r) \/
  (r = me /\ exists buf len res, In (EPrimary buf len res) es /\ h = createHash (firstn len buf) res client seq).
