(** The view-change message as bytes: bftengine/src/bftengine/messages/ViewChangeMsg.cpp. What validation accepts, what the two iterators visit,
    what the digest reads, and the message a correct replica builds. The memory model is that of PrePrep_Model. Model and specification only. *)
From Coq Require Import List Arith NArith ZArith Bool Lia.
From Verif Require Import Lib_Bytes PrePrep_Model.
Import ListNotations.
Local Open Scope N_scope.

(** int64_t (PrimitiveTypes.hpp:29-30) from its 8 bytes. *)
Definition s64 (x : N) : Z := if x <? 2 ^ 63 then Z.of_N x else (Z.of_N x - 2 ^ 64)%Z.
(** ViewChangeMsg::Header, ViewChangeMsg.hpp:131-147, packed, 44 bytes. *)
Definition vSpan (mem : memory) := u 4 mem 2.
Definition vGen (mem : memory) := u 2 mem 6.
Definition vView (mem : memory) : Z := s64 (u 8 mem 8).
Definition vStable (mem : memory) : Z := s64 (u 8 mem 16).
Definition vEpoch (mem : memory) := u 8 mem 24.
Definition vNumCompl (mem : memory) := u 2 mem 32.
Definition vSizeCompl (mem : memory) := u 4 mem 34.
Definition vNumElem (mem : memory) := u 2 mem 38.
Definition vLoc (mem : memory) := u 4 mem 40.
(** Element and PreparedCertificate, ViewChangeMsg.hpp:29-41: 49 and 10 bytes. *)
Definition eSeq (mem : memory) (p : N) : Z := s64 (u 8 mem p).
Definition eDigest (mem : memory) (p : N) : bytes := rd mem (p + 8) 32.
Definition eView (mem : memory) (p : N) : Z := s64 (u 8 mem (p + 40)).
Definition eHas (mem : memory) (p : N) : bool := negb (u 1 mem (p + 48) =? 0).
Definition cView (mem : memory) (p : N) : Z := s64 (u 8 mem (p + 49)).
Definition cSigLen (mem : memory) (p : N) : N := u 2 mem (p + 57).
Definition eSize (mem : memory) (p : N) : N := if eHas mem p then 59 + cSigLen mem p else 49.
(** kWorkWindowSize, SysConsts.hpp. *)
Definition Window : Z := 300.

(** getBodySize, ViewChangeMsg.cpp:58-62 (32 bits). *)
Definition bodySize (mem : memory) : N := if vLoc mem =? 0 then (44 + vSpan mem) mod M32 else vLoc mem.
(** checkElements, ViewChangeMsg.cpp:191-242. The loop: [p] the address of the next element, [rem] remainingBytes (32 bits), [last] the number
    of the last element; what is left at the end, [None] for "return false" (also when there are too few bytes for the announced number).
    lastStable + kWorkWindowSize is taken to wrap around where C++ leaves it undefined. *)
Fixpoint elems (mem : memory) (k : nat) (p rem : N) (last : Z) : option N :=
  match k with
  | O => Some rem
  | S k =>
      if rem <? 49 then None
      else if (eSeq mem p <=? last)%Z then None
      else if (s64 ((u 8 mem 16 + 300) mod 2 ^ 64) <? eSeq mem p)%Z then None
      else if (vView mem <=? eView mem p)%Z then None
      else if eHas mem p then
        let rem := rem - 49 in
        if rem <? 10 then None
        else if (eView mem p <? cView mem p)%Z then None
        else if cSigLen mem p =? 0 then None
        else if rem <? 10 + cSigLen mem p then None
        else elems mem k (p + 49 + (10 + cSigLen mem p)) (rem - (10 + cSigLen mem p)) (eSeq mem p)
      else elems mem k (p + 49) (rem - 49) (eSeq mem p)
  end.
Definition checkElements (mem : memory) (size sig : N) : bool :=
  match elems mem (N.to_nat (vNumElem mem)) (44 + vSpan mem) ((size + 2 * M32 - sig - 44 - vSpan mem) mod M32) (vStable mem) with
  | None => false
  | Some rem => if vNumElem mem =? 0 then vLoc mem =? 0 else vLoc mem =? (size + 2 * M32 - sig - rem) mod M32
  end.
(** checkComplaints, ViewChangeMsg.cpp:244-270; sizeOfHeader<ReplicaAsksToLeaveViewMsg>() is 27. *)
Fixpoint compls (mem : memory) (k : nat) (p rem : N) : option N :=
  match k with
  | O => Some rem
  | S k => if rem <=? 27 then None
           else let c := u 4 mem p in if c <=? 27 then None else compls mem k (p + 4 + c) ((rem - 4 + M32 - c) mod M32)
  end.
Definition checkComplaints (mem : memory) (size sig : N) : bool :=
  match compls mem (N.to_nat (vNumCompl mem)) (bodySize mem + sig) ((size + 2 * M32 - sig - bodySize mem) mod M32) with
  | None => false | Some rem => rem =? 0
  end.

(** [me], the replicas, the epoch, and the signatures: the length of a replica's and [verify who text signature]. *)
Record config := mkCfg { me : N; isReplica : N -> bool; epoch : N; sigLen : N -> N; verify : N -> bytes -> bytes -> bool }.
(** ViewChangeMsg::validate, ViewChangeMsg.cpp:170-189. dataLength + sigLen is a 32-bit sum. *)
Definition validate (c : config) (mem : memory) (size : N) : bool :=
  let sl := sigLen c (vGen mem) in
  negb ((size <? 44 + vSpan mem) || negb (isReplica c (vGen mem)) || (vGen mem =? me c) || negb (vEpoch mem =? epoch c))
  && negb (size <? (bodySize mem + sl) mod M32)
  && verify c (vGen mem) (rd mem 0 (bodySize mem)) (rd mem (bodySize mem) sl)
  && checkElements mem size sl && checkComplaints mem size sl.

(** ViewChangeMsg.cpp:176-181: the number of bytes from the beginning of the message that verifySig is handed (text and signature), when it is called. *)
Definition handedToVerify (c : config) (mem : memory) (size : N) : option N :=
  let sl := sigLen c (vGen mem) in
  if (size <? 44 + vSpan mem) || negb (isReplica c (vGen mem)) || (vGen mem =? me c) || negb (vEpoch mem =? epoch c) || (size <? (bodySize mem + sl) mod M32) then None
  else Some (bodySize mem + sl).

(** ElementsIterator, ViewChangeMsg.cpp:272-357: the elements the loop "while (it.getAndGoToNext(e))" visits, [None] when an assertion fails (or
    there are more than announced). [n] is nextElementNum - 1. *)
Fixpoint iterE (mem : memory) (fuel : nat) (p : N) (n : N) : option (list N) :=
  if vLoc mem <=? p then (if n =? vNumElem mem then Some [] else None)
  else let rem := vLoc mem - p in
       if rem <? 49 then None
       else if eHas mem p && ((rem <? 59) || (rem <? 59 + cSigLen mem p)) then None
       else match fuel with O => None | S fuel => match iterE mem fuel (p + eSize mem p) (n + 1) with Some l => Some (p :: l) | None => None end end.
Definition iterateElements (mem : memory) : option (list N) :=
  if vNumElem mem =? 0 then Some []
  else if vLoc mem <=? (44 + vSpan mem) mod M32 then None else iterE mem (N.to_nat (vNumElem mem)) ((44 + vSpan mem) mod M32) 0.
(** ComplaintsIterator, ViewChangeMsg.cpp:371-425; [mine] is getMySigLength(), the length of this replica's own signatures. *)
Fixpoint iterC (mem : memory) (size : N) (fuel : nat) (p : N) (n : N) : option (list N) :=
  if size <=? p then (if n =? vNumCompl mem then Some [] else None)
  else if (size + M32 - p - 4) mod M32 <? u 4 mem p then None
  else match fuel with O => None | S fuel => match iterC mem size fuel ((p + 4 + u 4 mem p) mod M32) (n + 1) with Some l => Some (p :: l) | None => None end end.
Definition iterateComplaints (mem : memory) (size mine : N) : option (list N) :=
  if vNumCompl mem =? 0 then Some []
  else if size <=? (bodySize mem + mine) mod M32 then None else iterC mem size (N.to_nat (vNumCompl mem)) ((bodySize mem + mine) mod M32) 0.
(** getMsgDigest, ViewChangeMsg.cpp:51-55: how many bytes from the beginning are hashed. *)
Definition digestLen (mem : memory) : N := (bodySize mem + vSizeCompl mem) mod M32.

(** * The message of a correct replica: constructor 28-46, addElement 64-111, addComplaint 113-136, finalizeMessage 151-172. *)
Record element := mkE { seqNum : N; dig : bytes; origin : N; cert : option (N * bytes) }.
Definition encE (e : element) : bytes :=
  le 8 (seqNum e) ++ dig e ++ le 8 (origin e) ++ match cert e with None => [0] | Some (v, s) => 1 :: le 8 v ++ le 2 (N.of_nat (length s)) ++ s end.
Definition encC (r : bytes) : bytes := le 4 (N.of_nat (length r)) ++ r.
Definition vcHeader (span gen view stable ep ncomp scomp nelem loc : N) : bytes :=
  le 2 101 ++ le 4 span ++ le 2 gen ++ le 8 view ++ le 8 stable ++ le 8 ep ++ le 2 ncomp ++ le 4 scomp ++ le 2 nelem ++ le 4 loc.
(** What is signed, and the message. *)
Definition signedPart (ep : N) (span : bytes) (gen view stable : N) (es : list element) (cs : list bytes) : bytes :=
  vcHeader (N.of_nat (length span)) gen view stable ep (N.of_nat (length cs)) (N.of_nat (length (concat (map encC cs)))) (N.of_nat (length es))
           (match es with [] => 0 | _ => 44 + N.of_nat (length span) + N.of_nat (length (concat (map encE es))) end)
  ++ span ++ concat (map encE es).
Definition build (sign : bytes -> bytes) (ep : N) (span : bytes) (gen view stable : N) (es : list element) (cs : list bytes) : bytes :=
  let b := signedPart ep span gen view stable es cs in b ++ sign b ++ concat (map encC cs).

(** * Specification *)
(** The elements lie one behind the other from [from] to [to]. *)
Fixpoint laid (size : N -> N) (from : N) (l : list N) (to : N) : Prop := match l with [] => from = to | p :: l => p = from /\ laid size (from + size p) l to end.
(** Their numbers increase, beginning above [low], and stay at or below [high]. *)
Fixpoint rising (mem : memory) (low high : Z) (l : list N) : Prop := match l with [] => True | p :: l => (low < eSeq mem p <= high)%Z /\ rising mem (eSeq mem p) high l end.
(** An element as it stands in the message: what the reader finds at [p] is [e]; the same for a complaint. *)
Definition readsE (mem : memory) (p : N) (e : element) : Prop :=
  eSeq mem p = Z.of_N (seqNum e) /\ eDigest mem p = dig e /\ eView mem p = Z.of_N (origin e) /\
  match cert e with None => eHas mem p = false | Some (v, s) => eHas mem p = true /\ cView mem p = Z.of_N v /\ cSigLen mem p = N.of_nat (length s) /\ rd mem (p + 59) (N.of_nat (length s)) = s end.
Definition readsC (mem : memory) (p : N) (r : bytes) : Prop := rd mem (p + 4) (u 4 mem p) = r.
Definition cSize (mem : memory) (p : N) : N := 4 + u 4 mem p.
Definition goodElement (mem : memory) (p : N) : Prop := (eView mem p < vView mem)%Z /\ (eHas mem p = true -> (cView mem p <= eView mem p)%Z /\ cSigLen mem p <> 0).
(** Where the complaints lie, by their announced sizes. None announces more bytes than the message has behind it. *)
Fixpoint chain (mem : memory) (k : nat) (p : N) : list N := match k with O => [] | S k => p :: chain mem k (p + 4 + u 4 mem p) end.
Definition noOverrun (mem : memory) (size sig : N) : Prop :=
  forall p, In p (chain mem (N.to_nat (vNumCompl mem)) (bodySize mem + sig)) -> p + 4 <= size -> p + 4 + u 4 mem p <= size.
(** The elements and complaints a correct replica puts in. *)
Definition wfE (view : N) (e : element) : Prop :=
  length (dig e) = 32%nat /\ Forall isByte (dig e) /\ origin e < view /\ match cert e with None => True | Some (v, s) => v <= origin e /\ 0 < N.of_nat (length s) < 65536 /\ Forall isByte s end.
Fixpoint risingE (low high : N) (es : list element) : Prop := match es with [] => True | e :: es => low < seqNum e <= high /\ risingE (seqNum e) high es end.
Definition wfC (r : bytes) : Prop := (27 < length r)%nat /\ Forall isByte r.
