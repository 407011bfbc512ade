(** The pre-prepare message as bytes: bftengine/src/bftengine/messages/PrePrepareMsg.cpp and ClientRequestMsg.cpp. What validation accepts, what
    the request iterator visits, what the digest covers, and the message a primary builds. Model and specification only. *)
From Coq Require Import List Arith NArith ZArith Bool Lia.
From Verif Require Import Lib_Bytes.
Import ListNotations.
Local Open Scope N_scope.

(** The memory from the first byte of the message on. The message occupies the addresses below its size; whatever the heap holds behind it is
    arbitrary, so that a read past the end is a read of an arbitrary value. *)
Definition memory := N -> N.
Definition bytesIn (mem : memory) : Prop := forall i, mem i < 256.
(** [len] bytes from address [o] on; an unsigned little-endian field of [k] bytes. *)
Definition rd (mem : memory) (o len : N) : bytes := map (fun k => mem (o + N.of_nat k)) (seq 0 (N.to_nat len)).
Definition u (k : nat) (mem : memory) (o : N) : N := unle (map (fun j => mem (o + N.of_nat j)) (seq 0 k)).
Definition M32 : N := 4294967296.

(** PrePrepareMsg::Header, PrePrepareMsg.hpp:33-53, packed, 86 bytes (MessageBase.hpp:35-38 for the first two fields). *)
Definition ppSpan (mem : memory) := u 4 mem 2.
Definition ppView (mem : memory) := u 8 mem 6.
Definition ppSeq (mem : memory) := u 8 mem 14.
Definition ppEpoch (mem : memory) := u 8 mem 22.
Definition ppFlags (mem : memory) := u 2 mem 30.
Definition ppCidLen (mem : memory) := u 8 mem 32.
Definition ppTime (mem : memory) := u 8 mem 40.
Definition ppDigest (mem : memory) := rd mem 48 32.
Definition ppNum (mem : memory) := u 2 mem 80.
Definition ppEnd (mem : memory) := u 4 mem 82.
(** ClientRequestMsgHeader, ClientMsgs.hpp:33-46, packed, 52 bytes; [i] is where the request starts. *)
Definition rqType (mem : memory) (i : N) := u 2 mem i.
Definition rqSpan (mem : memory) (i : N) := u 4 mem (i + 2).
Definition rqClient (mem : memory) (i : N) := u 2 mem (i + 6).
Definition rqFlags (mem : memory) (i : N) := u 8 mem (i + 8).
Definition rqResult (mem : memory) (i : N) := u 4 mem (i + 16).
Definition rqSeq (mem : memory) (i : N) := u 8 mem (i + 20).
Definition rqLen (mem : memory) (i : N) := u 4 mem (i + 28).
Definition rqCidLen (mem : memory) (i : N) := u 4 mem (i + 40).
Definition rqSigLen (mem : memory) (i : N) := u 2 mem (i + 44).
Definition rqExtra (mem : memory) (i : N) := u 4 mem (i + 46).
(** compRequestMsgSize, ClientRequestMsg.cpp:27-30: the sum has 64 bits, the result 32 (getRequestSizeTemp 32-36). *)
Definition exactSize (mem : memory) (i : N) : N := 52 + rqSpan mem i + rqLen mem i + rqCidLen mem i + rqSigLen mem i + rqExtra mem i.
Definition reqSize (mem : memory) (i : N) : N := exactSize mem i mod M32.
(** requestBuf, ClientRequestMsg.hpp:68; requestSignature, ClientRequestMsg.cpp:262-268. *)
Definition rqBody (mem : memory) (i : N) : bytes := rd mem (i + 52 + rqSpan mem i) (rqLen mem i).
Definition rqSig (mem : memory) (i : N) : bytes := rd mem (i + 52 + rqSpan mem i + rqLen mem i + rqCidLen mem i) (rqSigLen mem i).

(** payloadShift, PrePrepareMsg.cpp:298-300: the result has 32 bits. *)
Definition payloadShift (mem : memory) : N := (86 + ppCidLen mem + ppSpan mem) mod M32.
(** checkRequests, PrePrepareMsg.cpp:259-284, once the number of requests is known not to be 0. *)
Fixpoint walk (mem : memory) (n : nat) (i : N) : bool :=
  let i' := (i + reqSize mem i) mod M32 in
  match n with
  | S (S _ as n') => if ppEnd mem <=? i' then false else walk mem n' i'
  | _ => i' =? ppEnd mem
  end.
Definition checkRequests (mem : memory) : bool :=
  if ppNum mem =? 0 then ppEnd mem =? payloadShift mem
  else if ppEnd mem <=? payloadShift mem then false else walk mem (N.to_nat (ppNum mem)) (payloadShift mem).

(** RequestsIterator::getAndGoToNext, PrePrepareMsg.cpp:310-350: the position after this call, [None] an assertion failure. *)
Inductive next := Done | At (here after : N) | Broken.
Definition getAndGoToNext (mem : memory) (loc : N) : next :=
  if ppEnd mem <? loc then Broken
  else if loc =? ppEnd mem then Done
  else let loc' := (loc + reqSize mem loc) mod M32 in if ppEnd mem <? loc' then Broken else At loc loc'.
(** The loop over all requests of a message (PrePrepareMsg.cpp:52-70, 122-125 and elsewhere). [None]: an assertion failed, or there are more
    requests than announced (the digest code would then write past its vector, 58). *)
Fixpoint iterate (mem : memory) (fuel : nat) (loc : N) : option (list N) :=
  match getAndGoToNext mem loc with
  | Broken => None
  | Done => Some []
  | At here after => match fuel with O => None | S fuel => match iterate mem fuel after with Some l => Some (here :: l) | None => None end end
  end.
Definition requests (mem : memory) : option (list N) := iterate mem (N.to_nat (ppNum mem)) (payloadShift mem).

(** std::to_string of the int64_t time. *)
Fixpoint dec (fuel : nat) (n : N) : bytes :=
  match fuel with O => [] | S fuel => (if n <? 10 then [] else dec fuel (n / 10)) ++ [48 + n mod 10] end.
Definition timeText (t : N) : bytes := if t <? 2 ^ 63 then dec 19 t else 45 :: dec 19 (2 ^ 64 - t).

(** The replica's configuration and the cryptography, as parameters: [H] the digest (32 bytes), [verify client text signature]. *)
Record config := mkCfg { me : N; isReplica : N -> bool; isRo : N -> bool; isExternal : N -> bool; isPrincipal : N -> bool; cVal : N; epoch : N;
                         signing : bool; keyLen : N -> N; verify : N -> bytes -> bytes -> bool; H : bytes -> bytes }.

(** calculateDigestOfRequests, PrePrepareMsg.cpp:37-80: for a request with a signature the signature, for others the digest of the request; all
    one after the other, and the time in decimal. *)
Definition sigOrDigest (c : config) (mem : memory) (i : N) : bytes :=
  if rqSigLen mem i =? 0 then H c (rd mem i (reqSize mem i)) else rqSig mem i.
Definition digestInput (c : config) (mem : memory) (l : list N) : bytes := concat (map (sigOrDigest c mem) l) ++ timeText (ppTime mem).

Inductive verdict := Accept | Reject | Abort.
Definition seqv (a : verdict) (b : verdict) : verdict := match a with Accept => b | _ => a end.
(** Bits of the request flags, Replica.hpp:47-58. *)
Definition HAS_PRE_PROCESSED : N := 2.
Definition RECONFIG : N := 5.
Definition INTERNAL : N := 6.
(** ClientRequestMsg::validateImp, ClientRequestMsg.cpp:114-228, for a request inside a pre-prepare: its size is [reqSize], its sender is the
    client id it names (ClientRequestMsg.cpp:92-93). *)
Definition validateRequest (c : config) (mem : memory) (i : N) : verdict :=
  let client := rqClient mem i in
  let special := N.testbit (rqFlags mem i) RECONFIG || N.testbit (rqFlags mem i) INTERNAL in
  if reqSize mem i <? 52 + rqSpan mem i then Reject
  else if negb special && (client =? me c) then Abort
  else if reqSize mem i <? 52 + rqCidLen mem i + rqSpan mem i + rqSigLen mem i then Reject
  else if special && (isReplica c client || isRo c client) then Accept
  else if negb (isPrincipal c client) then Reject
  else
    let signed := isExternal c client && negb (N.testbit (rqFlags mem i) RECONFIG) && signing c && negb (rqLen mem i =? 0) in
    if signed && (keyLen c client =? 0) then Reject
    else
      let expected := if isExternal c client && N.testbit (rqFlags mem i) RECONFIG then rqSigLen mem i else if signed then keyLen c client else 0 in
      if negb (expected =? rqSigLen mem i) then Reject
      else if negb (reqSize mem i =? 52 + rqLen mem i + rqCidLen mem i + rqSpan mem i + expected + rqExtra mem i) then Reject
      else if signed && negb (N.testbit (rqFlags mem i) HAS_PRE_PROCESSED) && negb (verify c client (rqBody mem i) (rqSig mem i)) then Reject
      else Accept.

Fixpoint bytesEqb (a b : bytes) : bool := match a, b with [], [] => true | x :: a, y :: b => (x =? y) && bytesEqb a b | _, _ => false end.
(** PrePrepareMsg::validate, PrePrepareMsg.cpp:82-130. *)
Definition validate (c : config) (mem : memory) (size sender : N) : verdict :=
  if sender =? me c then Abort
  else if (size <? 86 + ppSpan mem) || negb (isReplica c sender) || negb (ppEpoch mem =? epoch c) then Reject
  else
    let path := N.land (N.shiftr (ppFlags mem) 2) 3 in
    if (ppSeq mem =? 0) || negb (N.testbit (ppFlags mem) 0) || negb (N.testbit (ppFlags mem) 1) || (3 <=? path) || ((path =? 1) && (cVal c =? 0))
       || negb (N.shiftr (ppFlags mem) 4 =? 0) || (size <? ppEnd mem) || (ppNum mem =? 0) || (ppEnd mem <=? ppNum mem) || negb (checkRequests mem)
    then Reject
    else match requests mem with
         | None => Abort
         | Some l => if negb (bytesEqb (H c (digestInput c mem l)) (ppDigest mem)) then Reject
                     else if signing c then fold_left (fun v i => seqv v (validateRequest c mem i)) l Accept else Accept
         end.

(** The message a primary builds: constructor PrePrepareMsg.cpp:148-189, addRequest 203-217, finishAddingRequests 219-246, with [t] the time set by
    setTime before finishing; [path] the first commit path. The header without the digest first. *)
Definition ppHeader (span view seq ep path cidLen t : N) (digest : bytes) (num fin : N) : bytes :=
  le 2 100 ++ le 4 span ++ le 8 view ++ le 8 seq ++ le 8 ep ++ le 2 (4 * path + 2 + 1) ++ le 8 cidLen ++ le 8 t ++ digest ++ le 2 num ++ le 4 fin.
(** The memory holding the bytes [m], with [rest] behind. *)
Definition memOf (m : bytes) (rest : memory) : memory := fun i => nth (N.to_nat i) m (rest i).
Definition build (c : config) (span cid : bytes) (view seq path t : N) (rs : list bytes) : bytes :=
  let fin := 86 + N.of_nat (length cid) + N.of_nat (length span) + N.of_nat (length (concat rs)) in
  let dig := concat (map (fun r => sigOrDigest c (memOf r (fun _ => 0)) 0) rs) ++ timeText t in
  ppHeader (N.of_nat (length span)) view seq (epoch c) path (N.of_nat (length cid)) t (H c dig) (N.of_nat (length rs)) fin ++ span ++ cid ++ concat rs.

(** * Specification *)
(** The requests lie one behind the other and fill the message from the end of the correlation id to the announced end. *)
Fixpoint tiles (mem : memory) (from : N) (l : list N) (to : N) : Prop :=
  match l with [] => from = to | i :: l => i = from /\ tiles mem (from + exactSize mem i) l to end.
(** No size or position computed while walking over the requests is too large for 32 bits. *)
Definition noWrap (mem : memory) : Prop :=
  86 + ppCidLen mem + ppSpan mem < M32 /\ forall l, requests mem = Some l -> forall i, In i l -> i + exactSize mem i < M32.
(** The bytes of the requests the iterator visits. *)
Definition texts (mem : memory) (l : list N) : list bytes := map (fun i => rd mem i (exactSize mem i)) l.
(** A request as bytes of its own: its length is what its header says. *)
Definition wellFormed (r : bytes) : Prop := Forall isByte r /\ N.of_nat (length r) = exactSize (memOf r (fun _ => 0)) 0.
