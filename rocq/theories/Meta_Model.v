(** The persisted consensus metadata: bftengine/src/bftengine/PersistentStorageImp.cpp, PersistentStorageDescriptors.cpp,
    PersistentStorageWindows.cpp, SerializableActiveWindow.cpp, DbMetadataStorage.cpp, and the message format of messages/MessageBase.cpp.
    Model only.  The database is the sequence of the atomic writes RocksDB was given; a crash keeps a prefix of them. *)
From Coq Require Import List Arith NArith Bool Lia.
From Verif Require Import Lib_Bytes.
Import ListNotations.
Local Open Scope N_scope.

Inductive why := Assertion | Exception | Overflow.
Inductive res (A : Type) := Ok (a : A) | Ends (w : why).
Arguments Ok {A}. Arguments Ends {A}.
Definition bind {A B} (r : res A) (f : A -> res B) : res B := match r with Ok a => f a | Ends w => Ends w end.
Notation "'do' x <- r ; e" := (bind r (fun x => e)) (at level 200, x pattern, r at level 100, e at level 200).
Definition guard (b : bool) : res unit := if b then Ok tt else Ends Assertion.
Definition lenN {A} (l : list A) : N := N.of_nat (length l).

(** * Configuration: ReplicaConfig maxExternalMessageSize, numReplicas, f, c, and the two constructor parameters that size the
      replica specific information (PersistentStorageImp.cpp:30-36; the members have 16 bits, PersistentStorageImp.hpp:264-265). *)
Record cfg := { maxExt : N; nRep : N; fVal : N; cVal : N; nPrinc : N; batchSz : N; ckMax : N }.
Definition vcNum (c : cfg) : N := 2 * fVal c + 2 * cVal c + 1.   (* PersistentStorageDescriptors.hpp setViewChangeMsgsNum *)

(** * Object ids, PersistentStorageImp.hpp:52-118 (kWorkWindowSize = 300, checkpointWindowSize = 150: SysConsts.hpp:46-48) *)
Definition idNum := 1.        (* DbMetadataStorage.hpp objectsNumParameterId_ *)
Definition idVersion := 2.
Definition idLastExec := 3.
Definition idPrimUsed := 4.
Definition idLower := 5.
Definition idLastView := 6.
Definition idLastStable := 7.
Definition idErase := 9.
Definition idUser := 10.
Definition idEpoch := 11.
Definition idDbCkpt := 12.
Definition idSeqWin := 512.     (* 13 + 499 *)
Definition idCheckWin := 2313.  (* 512 + 300 * 6 + 1 *)
Definition idWinEnd := 2320.    (* 2313 + 3 * 2 + 1 *)
Definition idExit := 5320.      (* 2320 + 3000 *)
Definition idCompl := 5621.     (* 5320 + 301 *)
Definition idExecDesc := 5922.  (* 5621 + 300 + 1 *)
Definition idStable := 5923.
Definition idNew := 5924.
Definition idRsi := 5925.

(** * Sizes.  RawHeaderOfObjAndMsg (MessageBase.hpp:152-157) has 10 bytes; SPAN_CONTEXT_MAX_SIZE 1024; maxMessageSize<...>. *)
Definition raw := 10.
Definition maxPP (c : cfg) := maxExt c + raw + 1.                   (* PrePrepareMsg.hpp:156, with the flag byte *)
Definition maxFCP := 32 + 1024 + raw + 1.                           (* MessageBase.hpp:181-184: the signature is not counted *)
Definition maxFull := 32 + 1024 + 1024 + raw + 1.                   (* SignedShareMsgs.hpp:126,176 *)
Definition seqElemMax (c : cfg) := maxPP c + maxFCP + maxFull + maxFull + 2.   (* PersistentStorageWindows.cpp:113-117 *)
Definition checkElemMax (c : cfg) := maxExt c + 1024 + raw + 1 + 1. (* PersistentStorageWindows.cpp:178-183 *)
Definition exitSimple (c : cfg) := 1 + 8 + 8 + 8 + 8 + 1 + (maxExt c + 1024 + raw) + 4 + 4.
Definition exitElem (c : cfg) := 2 + ((maxExt c + raw) + (32 + 1024 + 1024 + raw) + 1).
Definition complMax (c : cfg) := maxExt c + 1024 + raw.
Definition newSimple (c : cfg) := 1 + 8 + 8 + 2 + 8 + (maxExt c + 1024 + raw) + (maxExt c + 1024 + raw).
Definition newElem (c : cfg) := 1 + (maxExt c + 1024 + raw).
Definition execMax := 8 + (4 + 512) + 8.                             (* Bitmap of at most 4096 bits *)
Definition stableMax (c : cfg) := 2 + (maxExt c + 1024 + raw) * nRep c.
Definition rsiMax := 24 + 1024 * 1024.

(** getDefaultMetadataObjectDescriptors, PersistentStorageImp.cpp:95-151: the maximal size of each object, 0 for reserved ids. *)
Definition rsiFirst (c : cfg) := idRsi + vcNum c.
Definition rsiEnd (c : cfg) := rsiFirst c + nPrinc c * batchSz c.
Definition descSize (c : cfg) (id : N) : N :=
  if (rsiFirst c <=? id) && (id <? rsiEnd c) then rsiMax
  else if id =? idVersion then 80
  else if (idLastExec <=? id) && (id <=? idLastStable) then 8
  else if id =? idErase then 1
  else if id =? idUser then 256
  else if id =? idEpoch then 1
  else if id =? idDbCkpt then ckMax c
  else if id =? idSeqWin then 8
  else if (idSeqWin <? id) && (id <? idCheckWin) then seqElemMax c
  else if id =? idCheckWin then 8
  else if (idCheckWin <? id) && (id <? idWinEnd) then checkElemMax c
  else if id =? idExit then exitSimple c
  else if (idExit <? id) && (id <? idCompl) then exitElem c
  else if (idCompl <=? id) && (id <? idCompl + 300) then complMax c
  else if id =? idExecDesc then execMax
  else if id =? idStable then stableMax c
  else if id =? idNew then newSimple c
  else if (idNew <? id) && (id <? idRsi + vcNum c) then newElem c
  else 0.
(** The map holds the ids 2 .. mapEnd - 1; numOfObjects = size - 2 is a uint16_t (PersistentStorageImp.cpp:149). *)
Definition mapEnd (c : cfg) : N := N.max 10000 (rsiEnd c).
Definition numOfObjects (c : cfg) : N := (mapEnd c - 2 - 2) mod 65536.
(** initMaxSizeOfObjects, DbMetadataStorage.cpp:49-58, and the constructor: the objects that may be accessed, with their sizes. *)
Definition sizeOf (c : cfg) (id : N) : option N :=
  if id =? idNum then Some 4
  else if (idNum <? id) && (id <? numOfObjects c) then Some (descSize c id) else None.

(** * The database *)
Definition entry := list (N * option bytes).      (* one atomic write: values put, [None] for a deletion *)
Definition store := N -> option bytes.
Definition put1 (s : store) (kv : N * option bytes) : store := fun k => if k =? fst kv then snd kv else s k.
Definition apply (s : store) (e : entry) : store := fold_left put1 e s.
Definition replay (l : list entry) : store := fold_left apply l (fun _ => None).
(** What was written, and how much of it is known to be on stable storage: a write with the sync flag flushes the log up to it. *)
Record disk := mkDisk { log : list entry; synced : nat }.
Definition db (d : disk) : store := replay (log d).
Definition append (d : disk) (e : entry) (sync : bool) : disk :=
  mkDisk (log d ++ [e]) (if sync then S (length (log d)) else synced d).

(** verifyOperation, DbMetadataStorage.cpp:25-41 *)
Definition canWrite (c : cfg) (id : N) (data : bytes) : bool :=
  match sizeOf c id with Some m => negb (lenN data =? 0) && (lenN data <=? m) && negb (id =? 0) | None => false end.
(** read, DbMetadataStorage.cpp:71-88, with rocksdb Client::get (rocksdb_client.cpp:389-402): [None] if there is no such object;
    an object that is larger than the caller's buffer ends in an exception. *)
Definition dbRead (c : cfg) (d : disk) (id buf : N) : res (option bytes) :=
  match sizeOf c id with
  | None => Ends Exception
  | Some _ => match db d id with
              | None => Ok None
              | Some v => if buf <? lenN v then Ends Exception else Ok (Some v)
              end
  end.

(** * Messages in the local buffer format, MessageBase.cpp:201-281 *)
Definition msg := option (N * bytes).               (* the sender and the body; [None] is a null pointer *)
Definition magic := 1431669115.                     (* 0x5555897B, MessageBase.hpp:135 *)
Definition encMsg (m : msg) : bytes :=
  match m with
  | None => [0]
  | Some (sender, body) => 1 :: le 4 magic ++ le 4 (lenN body) ++ le 2 sender ++ body
  end.
Definition rdN (k : nat) (b : bytes) : N * bytes := (unle (firstn k b), skipn k b).
(** deserializeMsg: the message, the size consumed, and the rest of the buffer. *)
Definition decMsg (c : cfg) (bufLen : N) (b : bytes) : res (msg * N * bytes) :=
  let '(flag, b1) := rdN 1 b in
  if flag =? 0 then Ok (None, 1, b1)
  else if bufLen <=? raw then Ends Assertion
  else
    let '(mg, b2) := rdN 4 b1 in
    let '(size, b3) := rdN 4 b2 in
    let '(sender, b4) := rdN 2 b3 in
    if negb (mg =? magic) then Ends Assertion
    else if size =? 0 then Ends Assertion
    else if maxExt c <? size then Ends Assertion
    else if bufLen <? size + raw then Ends Assertion
    else Ok (Some (sender, firstn (N.to_nat size) b4), 1 + raw + size, skipn (N.to_nat size) b4).
Definition encBool (b : bool) : bytes := [if b then 1 else 0].

(** * Descriptors *)
Record exitDesc := mkExit { ex_default : bool; ex_view : N; ex_stable : N; ex_executed : N; ex_lower : N; ex_vc : msg;
  ex_elements : list (msg * msg * bool); ex_complaints : list msg }.
Record newDesc := mkNew { nw_default : bool; nw_view : N; nw_max : N; nw_lower : N; nw_msg : msg; nw_vc : msg; nw_vcs : list msg }.
(** Bitmap.hpp: the number of bits and the bytes *)
Record execDesc := mkExec { xc_seq : N; xc_nbits : N; xc_bytes : bytes; xc_ticks : N }.
Definition realSize (nbits : N) : N := (nbits + 7) / 8.
Definition exit0 := mkExit true 0 0 0 0 None [] [].
Definition new0 (c : cfg) := mkNew true 0 0 0 None None (repeat None (N.to_nat (vcNum c))).
Definition exec0 := mkExec 0 0 [] 0.

(** PersistentStorageDescriptors.cpp:50-88 serializeSimpleParams, written with the whole, zeroed, buffer
    (PersistentStorageImp.cpp:230-238) *)
Definition encExitSimple (c : cfg) (x : exitDesc) : bytes :=
  let b := encBool (ex_default x) ++ le 8 (ex_view x) ++ le 8 (ex_stable x) ++ le 8 (ex_executed x) ++ le 8 (ex_lower x)
           ++ encMsg (ex_vc x) ++ le 4 (lenN (ex_elements x)) ++ le 4 (lenN (ex_complaints x)) in
  b ++ repeat 0 (N.to_nat (exitSimple c) - length b).
(** 90-113 serializeElement, serializeComplaint *)
Definition encExitElem (e : msg * msg * bool) : bytes := let '(pp, pf, h) := e in encMsg pp ++ encMsg pf ++ encBool h.
(** 264-303 *)
Definition encNewSimple (x : newDesc) : bytes :=
  encBool (nw_default x) ++ le 8 (nw_view x) ++ le 8 (nw_max x) ++ le 8 (nw_lower x) ++ encMsg (nw_msg x) ++ encMsg (nw_vc x).
(** 365-383, with Bitmap::writeToBuffer (Bitmap.hpp:150-158) *)
Definition encExec (x : execDesc) : bytes := le 8 (xc_seq x) ++ le 4 (xc_nbits x) ++ xc_bytes x ++ le 8 (xc_ticks x).
(** 411-425 *)
Definition encStable (ms : list msg) : bytes := le 2 (lenN ms) ++ concat (map encMsg ms).
(** setVersion, PersistentStorageImp.cpp:170-181; the version string is "1.1" *)
Definition encVersion : bytes := le 4 3 ++ [49; 46; 49].

(** * The windows *)
Record seqData := mkSeq { sq_pp : msg; sq_fcp : msg; sq_pf : msg; sq_cf : msg; sq_force : bool; sq_slow : bool }.
Definition seq0 := mkSeq None None None None false false.
Record checkData := mkCheck { ck_msg : msg; ck_mark : bool }.
Definition check0 := mkCheck None false.
(** setSeqNumDataElement, PersistentStorageImp.cpp:373-417: the six objects of an element *)
Definition seqElemWrites (index : N) (e : seqData) : list (N * bytes) :=
  let b := idSeqWin + index * 6 in
  [(b + 1, encMsg (sq_pp e)); (b + 2, encMsg (sq_fcp e)); (b + 3, encMsg (sq_pf e)); (b + 4, encMsg (sq_cf e));
   (b + 5, encBool (sq_force e)); (b + 6, encBool (sq_slow e))].
(** setCheckDataElement, PersistentStorageImp.cpp:425-441.  The completed mark is serialized into another buffer than the one that is
    written: what is stored is the first byte of the serialized checkpoint message. *)
Definition checkElemWrites (index : N) (e : checkData) : list (N * bytes) :=
  let b := idCheckWin + index * 2 in [(b + 1, encMsg (ck_msg e)); (b + 2, firstn 1 (encMsg (ck_msg e)))].
(** SerializableActiveWindow.cpp:66-83 insideActiveWindow, convertIndex *)
Definition inside (size : N) (n beg : N) : bool := (beg <=? n) && (n <? beg + size).
Definition convert (size reso n beg : N) : res N :=
  do _ <- guard (n mod reso =? 0); do _ <- guard (inside size n beg); Ok ((n / reso) mod (size / reso)).
(** 101-135 advanceActiveWindow: the indices that were cleaned; the loop from [i] to [stop] in at most [fuel] steps. *)
Fixpoint cleanLoop (fuel : nat) (items i stop : N) : list N :=
  match fuel with
  | O => []
  | S k => if i =? stop then [] else i :: cleanLoop k items ((i + 1) mod items) stop
  end.
Definition advance (size reso beg new : N) : res (list N * N) :=
  do _ <- guard (new mod reso =? 0); do _ <- guard (beg <=? new);
  let items := size / reso in
  if new =? beg then Ok ([], beg)
  else if size <=? new - beg then Ok (map N.of_nat (seq 0 (N.to_nat items)), new)
  else Ok (cleanLoop (N.to_nat items) items ((beg / reso) mod items) ((new / reso) mod items), new).

(** * The object: PersistentStorageImp.hpp:257-296 and DBMetadataStorage's batch *)
Record ps := mkPs { nested : N; batch : option (list (N * bytes)); cLastExec : N; cLastView : N; seqBeg : N; checkBeg : N;
  hasExit : bool; hasNew : bool; hasExec : bool; cExec : execDesc }.
Definition ps0 := mkPs 0 None 0 0 0 0 false false false exec0.

(** writeInBatch, DbMetadataStorage.cpp:131-147: verified, needs an open batch; replaces an earlier value of the same object. *)
Definition put (l : list (N * bytes)) (kv : N * bytes) : list (N * bytes) := filter (fun x => negb (fst x =? fst kv)) l ++ [kv].
Fixpoint writeAll (c : cfg) (b : option (list (N * bytes))) (ws : list (N * bytes)) : res (option (list (N * bytes))) :=
  match ws with
  | [] => Ok b
  | kv :: t => if negb (canWrite c (fst kv) (snd kv)) then Ends Exception
               else match b with None => Ends Exception | Some l => writeAll c (Some (put l kv)) t end
  end.
Definition setBatch (p : ps) b := mkPs (nested p) b (cLastExec p) (cLastView p) (seqBeg p) (checkBeg p) (hasExit p) (hasNew p) (hasExec p) (cExec p).
Definition writes (c : cfg) (p : ps) (ws : list (N * bytes)) : res ps := do b <- writeAll c (batch p) ws; Ok (setBatch p b).
Definition setNested (p : ps) n b := mkPs n b (cLastExec p) (cLastView p) (seqBeg p) (checkBeg p) (hasExit p) (hasNew p) (hasExec p) (cExec p).
Definition setCLastExec (p : ps) n := mkPs (nested p) (batch p) n (cLastView p) (seqBeg p) (checkBeg p) (hasExit p) (hasNew p) (hasExec p) (cExec p).
Definition setCLastView (p : ps) n := mkPs (nested p) (batch p) (cLastExec p) n (seqBeg p) (checkBeg p) (hasExit p) (hasNew p) (hasExec p) (cExec p).
Definition setBegs (p : ps) s k := mkPs (nested p) (batch p) (cLastExec p) (cLastView p) s k (hasExit p) (hasNew p) (hasExec p) (cExec p).
Definition setHasExit (p : ps) := mkPs (nested p) (batch p) (cLastExec p) (cLastView p) (seqBeg p) (checkBeg p) true (hasNew p) (hasExec p) (cExec p).
Definition setHasNew (p : ps) := mkPs (nested p) (batch p) (cLastExec p) (cLastView p) (seqBeg p) (checkBeg p) (hasExit p) true (hasExec p) (cExec p).
Definition setExecCache (p : ps) x := mkPs (nested p) (batch p) (cLastExec p) (cLastView p) (seqBeg p) (checkBeg p) (hasExit p) (hasNew p) true x.

(** PersistentStorageImp.cpp:153-168 *)
Definition inTran (p : ps) : bool := negb (nested p =? 0).
Definition beginTran (p : ps) : ps :=
  let b := if nested p =? 0 then match batch p with Some l => Some l | None => Some [] end else batch p in
  setNested p ((nested p + 1) mod 256) b.
Definition put_ (kv : N * bytes) : N * option bytes := (fst kv, Some (snd kv)).
Definition endTran (d : disk) (p : ps) (sync : bool) : res (disk * ps) :=
  do _ <- guard (inTran p);
  if nested p =? 1 then
    match batch p with
    | None => Ends Exception
    | Some l => Ok (append d (map put_ l) sync, setNested p 0 None)
    end
  else Ok (d, setNested p (nested p - 1) (batch p)).
(** atomicWrite, DbMetadataStorage.cpp:90-98: put is not synced. *)
Definition atomicWrite (c : cfg) (d : disk) (id : N) (data : bytes) : res disk :=
  if canWrite c id data then Ok (append d [put_ (id, data)] false) else Ends Exception.

(** ** Reading descriptors (also used by the setters' checks) *)
(** getAndAllocateDescriptorOfLastExitFromView, PersistentStorageImp.cpp:626-673, with deserializeSimpleParams, deserializeElement,
    deserializeComplaint (PersistentStorageDescriptors.cpp:115-209).  An object that is missing reads as a zeroed buffer of size 0. *)
Definition got (o : option bytes) (buf : N) : bytes := match o with Some v => v | None => repeat 0 (N.to_nat buf) end.
Definition gotLen (o : option bytes) : N := match o with Some v => lenN v | None => 0 end.
Definition readElem (c : cfg) (d : disk) (i : N) : res (msg * msg * bool) :=
  do _ <- guard (idExit + 1 + i <? idCompl);
  do o <- dbRead c d (idExit + 1 + i) (exitElem c);
  do (pp, s1, b1) <- decMsg c (gotLen o) (got o (exitElem c));
  do (pf, s2, b2) <- decMsg c (gotLen o) b1;
  Ok (pp, pf, negb (fst (rdN 1 b2) =? 0)).
Definition readComplaint (c : cfg) (d : disk) (i : N) : res msg :=
  do _ <- guard (idCompl + i <? idExecDesc);
  do o <- dbRead c d (idCompl + i) (complMax c);
  do (m, s, _) <- decMsg c (gotLen o) (got o (complMax c));
  Ok m.
Fixpoint readN {A} (f : N -> res A) (n : nat) (i : N) : res (list A) :=
  match n with
  | O => Ok []
  | S k => do a <- f i; do l <- readN f k (i + 1); Ok (a :: l)
  end.
Definition getExit (c : cfg) (d : disk) (p : ps) : res exitDesc :=
  do _ <- guard (negb (inTran p));
  do o <- dbRead c d idExit (exitSimple c);
  do _ <- guard (gotLen o =? exitSimple c);
  let '(df, b1) := rdN 1 (got o (exitSimple c)) in
  let '(v, b2) := rdN 8 b1 in let '(st, b3) := rdN 8 b2 in let '(xe, b4) := rdN 8 b3 in let '(lo, b5) := rdN 8 b4 in
  do (vc, s, b6) <- decMsg c (exitSimple c) b5;
  let '(ne, b7) := rdN 4 b6 in let '(nc, b8) := rdN 4 b7 in
  do es <- readN (readElem c d) (N.to_nat ne) 0;
  do cs <- readN (readComplaint c d) (N.to_nat nc) 0;
  Ok (mkExit (negb (df =? 0)) v st xe lo vc es cs).
(** getAndAllocateDescriptorOfLastNewView, PersistentStorageImp.cpp:675-700; PersistentStorageDescriptors.cpp:305-358 *)
Definition readVc (c : cfg) (d : disk) (i : N) : res msg :=
  do o <- dbRead c d (idNew + 1 + i) (newElem c);
  do (m, s, _) <- decMsg c (gotLen o) (got o (newElem c));
  Ok m.
Definition getNew (c : cfg) (d : disk) (p : ps) : res newDesc :=
  do o <- dbRead c d idNew (newSimple c);
  let '(df, b1) := rdN 1 (got o (newSimple c)) in
  let '(v, b2) := rdN 8 b1 in let '(mx, b3) := rdN 8 b2 in let '(lo, b4) := rdN 8 b3 in
  do (nm, s1, b5) <- decMsg c (newSimple c) b4;
  do (vc, s2, b6) <- decMsg c (newSimple c) b5;
  do vs <- readN (readVc c d) (N.to_nat (vcNum c)) 0;
  Ok (mkNew (negb (df =? 0)) v mx lo nm vc vs).
(** getDescriptorOfLastExecution, PersistentStorageImp.cpp:702-716; Bitmap.hpp:34-50: a bitmap that does not fit reads as empty *)
Definition getExec (c : cfg) (d : disk) (p : ps) : res (execDesc * ps) :=
  do o <- dbRead c d idExecDesc execMax;
  let '(q, b1) := rdN 8 (got o execMax) in
  let '(nb, b2) := rdN 4 b1 in
  let '(x, b3) := if execMax - 16 <? 4 + realSize nb then ((0, []), b1)
                  else ((nb, firstn (N.to_nat (realSize nb)) b2), skipn (N.to_nat (realSize nb)) b2) in
  let '(t, _) := rdN 8 b3 in
  let r := mkExec q (fst x) (snd x) t in
  let isEmpty := (q =? 0) && (fst x =? 0) && (t =? 0) in
  Ok (r, if isEmpty then p else setExecCache p r).
(** hasDescriptorOfLastExitFromView, hasDescriptorOfLastNewView, PersistentStorageImp.cpp:737-754 *)
Definition hasExitF (c : cfg) (d : disk) (p : ps) : res (bool * ps) :=
  if hasExit p then Ok (true, p)
  else do x <- getExit c d p; if ex_default x then Ok (false, p) else Ok (true, setHasExit p).
Definition hasNewF (c : cfg) (d : disk) (p : ps) : res (bool * ps) :=
  if hasNew p then Ok (true, p)
  else do x <- getNew c d p; if nw_default x then Ok (false, p) else Ok (true, setHasNew p).

(** ** Setters *)
Definition setAllowed (p : ps) : bool := inTran p.
(** nonExecSetIsAllowed, PersistentStorageImp.cpp:1011-1014 *)
Definition nonExecSet (p : ps) : bool := inTran p && (negb (hasExec p) || (xc_seq (cExec p) <=? cLastExec p + 1)).
Definition enum {A} (l : list A) : list (N * A) := combine (map N.of_nat (seq 0 (length l))) l.
(** saveDescriptorOfLastExitFromView, PersistentStorageImp.cpp:229-264 *)
Definition exitWrites (c : cfg) (x : exitDesc) : list (N * bytes) :=
  (idExit, encExitSimple c x) :: map (fun e => (idExit + 1 + fst e, encExitElem (snd e))) (enum (ex_elements x))
  ++ map (fun e => (idCompl + fst e, encMsg (snd e))) (enum (ex_complaints x)).
(** saveDescriptorOfLastNewView, PersistentStorageImp.cpp:284-304: always viewChangeMsgsNum elements, null where there is no message *)
Definition newWrites (c : cfg) (x : newDesc) : list (N * bytes) :=
  (idNew, encNewSimple x)
  :: map (fun i => (idNew + 1 + N.of_nat i, encMsg (nth i (nw_vcs x) None))) (seq 0 (N.to_nat (vcNum c))).
(** the sizes of the buffers the serializers write into without a check of their own, PersistentStorageImp.cpp:38-49 in the order of
    PersistentStorageImp.hpp:283-296: msg_element_buf has CheckData::maxSize bytes, check_data_element_buf maxExternalMessageSize. *)
Definition noOverflow (len buf : N) : res unit := if len <=? buf then Ok tt else Ends Overflow.
Definition exitOverflow (c : cfg) (x : exitDesc) : bool :=
  forallb (fun e => lenN (encExitElem e) <=? exitElem c) (ex_elements x) && forallb (fun m => lenN (encMsg m) <=? complMax c) (ex_complaints x)
  && (41 + lenN (encMsg (ex_vc x)) <=? exitSimple c).
Definition newOverflow (c : cfg) (x : newDesc) : bool :=
  forallb (fun m => lenN (encMsg m) <=? newElem c) (nw_vcs x) && (lenN (encNewSimple x) <=? newSimple c).

(** saveDefaultsInSeqNumWindow, clearSeqNumWindow, PersistentStorageImp.cpp:366-371, 458; saveDefaultsInCheckWindow 419-423 *)
Definition clearSeqWrites (beg : N) : list (N * bytes) :=
  (idSeqWin, le 8 beg) :: concat (map (fun i => seqElemWrites (N.of_nat i) seq0) (seq 0 300)).
Definition clearCheckWrites (beg : N) : list (N * bytes) :=
  (idCheckWin, le 8 beg) :: concat (map (fun i => checkElemWrites (N.of_nat i) check0) (seq 0 3)).

Inductive seqField := PP (m : msg) | FCP (m : msg) | PF (m : msg) | CF (m : msg) | Force (b : bool) | Slow (b : bool).
Inductive setter :=
| SLastExec (n : N) | SPrimUsed (n : N) | SLower (n : N) | SLastView (n : N)
| SExit (x : exitDesc) | SNew (x : newDesc) | SExec (x : execDesc) | SStable (ms : list msg)
| SClearSeq | SLastStable (n : N) | SSeq (n : N) (f : seqField) | SMark (n : N) | SCkpt (n : N) (m : msg)
| SUser (b : bytes) | SRsi (i : N) (b : bytes).
Inductive direct := DUser (b : bytes) | DErase | DEpoch (b : bool) | DDbCkpt (b : bytes).

(** PersistentStorageImp.cpp:475-519: parameter id and bytes *)
Definition fieldId (f : seqField) : N := match f with PP _ => 1 | FCP _ => 2 | PF _ => 3 | CF _ => 4 | Force _ => 5 | Slow _ => 6 end.
Definition fieldBytes (f : seqField) : bytes :=
  match f with PP m | FCP m | PF m | CF m => encMsg m | Force b | Slow b => encBool b end.

Definition doSet (c : cfg) (d : disk) (p : ps) (s : setter) : res ps :=
  match s with
  | SLastExec n =>                                             (* 183-192 *)
      do _ <- guard (setAllowed p); do _ <- guard (cLastExec p <=? n);
      do q <- writes c p [(idLastExec, le 8 n)]; Ok (setCLastExec q n)
  | SPrimUsed n => do _ <- guard (nonExecSet p); writes c p [(idPrimUsed, le 8 n)]        (* 194-202 *)
  | SLower n => do _ <- guard (nonExecSet p); writes c p [(idLower, le 8 n)]              (* 204-212 *)
  | SLastView n =>                                             (* 214-223 *)
      do _ <- guard (nonExecSet p); do _ <- guard (cLastView p <=? n);
      do q <- writes c p [(idLastView, le 8 n)]; Ok (setCLastView q n)
  | SExit x =>                                                 (* 266-277, 918-934; verifyPrevViewInfo only asserts and is left out *)
      do _ <- guard (setAllowed p);
      do (h, p1) <- hasNewF c d p;
      do _ <- guard (h || (ex_view x =? 0));
      do _ <- guard (lenN (ex_elements x) <=? 300);
      do _ <- (if exitOverflow c x then Ok tt else Ends Overflow);
      do _ <- guard (idCompl + lenN (ex_complaints x) <=? idExecDesc);
      do q <- writes c p1 (exitWrites c x); Ok (setHasExit q)
  | SNew x =>                                                  (* 306-317, 950-957; the checks of the messages' contents are left out *)
      do _ <- guard (setAllowed p); do _ <- guard (1 <=? nw_view x);
      do (h, p1) <- hasExitF c d p;
      do _ <- guard h; do _ <- guard (lenN (nw_vcs x) =? vcNum c);
      do _ <- (if newOverflow c x then Ok tt else Ends Overflow);
      do q <- writes c p1 (newWrites c x); Ok (setHasNew q)
  | SExec x =>                                                 (* 319-333, 355-359, 959-965 *)
      do _ <- guard (setAllowed p);
      do _ <- guard (negb (hasExec p) || (xc_seq (cExec p) <? xc_seq x));
      do _ <- guard (cLastExec p + 1 =? xc_seq x);
      do _ <- guard (1 <=? xc_nbits x); do _ <- guard (xc_nbits x <=? 4096);
      do q <- writes c p [(idExecDesc, encExec x)]; Ok (setExecCache q x)
  | SStable ms =>                                              (* 335-345 *)
      do _ <- noOverflow (lenN (encStable ms)) (stableMax c);
      writes c p [(idStable, encStable ms)]
  | SClearSeq => writes c p (clearSeqWrites (seqBeg p))        (* 458 *)
  | SLastStable n =>                                           (* 460-487 *)
      do _ <- guard (checkBeg p mod 150 =? 0);
      do (cc, kb) <- advance 450 150 (checkBeg p) n;
      do (sc, sb) <- advance 300 1 (seqBeg p) (n + 1);
      do q <- writes c p ((idLastStable, le 8 n) :: (idCheckWin, le 8 kb) :: (idSeqWin, le 8 sb)
               :: concat (map (fun i => checkElemWrites i check0) cc) ++ concat (map (fun i => seqElemWrites i seq0) sc));
      Ok (setBegs q sb kb)
  | SSeq n f =>                                                (* 489-531 *)
      do _ <- noOverflow (lenN (fieldBytes f)) (checkElemMax c);
      do i <- convert 300 1 n (seqBeg p);
      writes c p [(idSeqWin + fieldId f + i * 6, fieldBytes f)]
  | SMark n =>                                                 (* 533-542 *)
      do i <- convert 450 150 n (checkBeg p);
      writes c p [(idCheckWin + 2 + i * 2, encBool true)]
  | SCkpt n m =>                                               (* 544-552 *)
      do _ <- noOverflow (lenN (encMsg m)) (maxExt c);
      do i <- convert 450 150 n (checkBeg p);
      writes c p [(idCheckWin + 1 + i * 2, encMsg m)]
  | SUser b =>                                                 (* 561-567 *)
      do _ <- guard (setAllowed p);
      if 256 <? lenN b then Ends Exception else writes c p [(idUser, b)]
  | SRsi i b => writes c p [(idRsi + vcNum c + i, b)]          (* 569-576 *)
  end.
(** 554-559, 1015-1018, 1029-1032, 1043-1046 *)
Definition doDirect (c : cfg) (d : disk) (o : direct) : res disk :=
  match o with
  | DUser b => if 256 <? lenN b then Ends Exception else atomicWrite c d idUser b
  | DErase => atomicWrite c d idErase (encBool true)
  | DEpoch b => atomicWrite c d idEpoch (encBool b)
  | DDbCkpt b => atomicWrite c d idDbCkpt b
  end.

(** ** Getters *)
(** getSeqNum, PersistentStorageImp.cpp:968-974 *)
Definition getNum (c : cfg) (d : disk) (p : ps) (id : N) : res N :=
  do _ <- guard (negb (inTran p));
  do o <- dbRead c d id 8;
  do _ <- guard (gotLen o =? 8);
  Ok (unle (got o 8)).
Definition getLastExec (c : cfg) (d : disk) (p : ps) : res (N * ps) := do n <- getNum c d p idLastExec; Ok (n, setCLastExec p n).
Definition getLastView (c : cfg) (d : disk) (p : ps) : res (N * ps) := do n <- getNum c d p idLastView; Ok (n, setCLastView p n).
(** readBeginningOfActiveWindow, 854-862 *)
Definition readBeg (c : cfg) (d : disk) (id : N) : res N :=
  do o <- dbRead c d id 8; do _ <- guard (gotLen o =? 8); Ok (unle (got o 8)).
(** readMsgFromDisk, 800-813, with the limits of 815-830 *)
Definition readMsg (c : cfg) (d : disk) (p : ps) (n param lim : N) : res msg :=
  do _ <- guard (negb (inTran p));
  do i <- convert 300 1 n (seqBeg p);
  do _ <- guard (idSeqWin + param + i * 6 <? idCheckWin);
  do o <- dbRead c d (idSeqWin + param + i * 6) lim;
  do (m, s, _) <- decMsg c lim (got o lim);
  do _ <- guard (s =? gotLen o);
  Ok m.
Definition getPP (c : cfg) d p n := readMsg c d p n 1 (maxPP c).
Definition getFCP (c : cfg) d p n := readMsg c d p n 2 maxFCP.
Definition getPF (c : cfg) d p n := readMsg c d p n 3 maxFull.
Definition getCF (c : cfg) d p n := readMsg c d p n 4 maxFull.
(** readOneByteFromDisk, 791-798 *)
Definition readByte (c : cfg) (d : disk) (p : ps) (n param : N) : res bool :=
  do _ <- guard (negb (inTran p));
  do i <- convert 300 1 n (seqBeg p);
  do o <- dbRead c d (idSeqWin + param + i * 6) 1;
  Ok (negb (unle (firstn 1 (got o 1)) =? 0)).
Definition getForce (c : cfg) d p n := readByte c d p n 5.
Definition getSlow (c : cfg) d p n := readByte c d p n 6.
(** readCompletedMarkFromDisk, readCheckpointMsgFromDisk, 832-852 *)
Definition getMark (c : cfg) (d : disk) (p : ps) (n : N) : res bool :=
  do _ <- guard (negb (inTran p));
  do i <- convert 450 150 n (checkBeg p);
  do o <- dbRead c d (idCheckWin + 2 + i * 2) 1;
  do _ <- guard (gotLen o =? 1);
  Ok (negb (unle (got o 1) =? 0)).
Definition getCkpt (c : cfg) (d : disk) (p : ps) (n : N) : res msg :=
  do _ <- guard (negb (inTran p));
  do i <- convert 450 150 n (checkBeg p);
  do o <- dbRead c d (idCheckWin + 1 + i * 2) (checkElemMax c);
  do (m, s, _) <- decMsg c (checkElemMax c) (got o (checkElemMax c));
  do _ <- guard (s =? gotLen o);
  Ok m.
(** getDescriptorOfLastStableCheckpoint, 718-735; PersistentStorageDescriptors.cpp:427-443 *)
Fixpoint decMsgs (c : cfg) (n : nat) (bufLen : N) (b : bytes) : res (list msg) :=
  match n with
  | O => Ok []
  | S k => do (m, s, b') <- decMsg c bufLen b; do l <- decMsgs c k bufLen b'; Ok (m :: l)
  end.
Definition getStable (c : cfg) (d : disk) (p : ps) : res (list msg) :=
  do _ <- guard (negb (inTran p));
  do o <- dbRead c d idStable (stableMax c);
  let '(n, b) := rdN 2 (got o (stableMax c)) in
  decMsgs c (N.to_nat n) (stableMax c) b.
(** getUserData 886-895, getReplicaSpecificInfo 578-588, the flags 1020-1041, getDbCheckpointMetadata 1047-1057 *)
Definition getBytes (c : cfg) (d : disk) (id lim : N) : res (option bytes) :=
  do o <- dbRead c d id lim; Ok (if gotLen o =? 0 then None else o).
Definition getUser (c : cfg) d := getBytes c d idUser 256.
Definition getRsi (c : cfg) d i := getBytes c d (idRsi + vcNum c + i) rsiMax.
Definition getFlag (c : cfg) (d : disk) (id : N) : res bool :=
  do o <- dbRead c d id 1; Ok (if gotLen o =? 0 then false else negb (unle (got o 1) =? 0)).

(** ** Start: ReplicaFactory.cpp:139-185 (initMaxSizeOfObjects) and init, PersistentStorageImp.cpp:58-93 *)
Definition defaultWrites (c : cfg) : list (N * bytes) :=
  (idVersion, encVersion) :: (idLastExec, le 8 0) :: (idPrimUsed, le 8 0) :: (idLower, le 8 0) :: (idLastView, le 8 0)
  :: (idLastStable, le 8 0) :: clearSeqWrites 1 ++ clearCheckWrites 0 ++ exitWrites c exit0 ++ newWrites c (new0 c)
  ++ [(idExecDesc, encExec exec0); (idStable, encStable [])].
Definition initObjects (c : cfg) (d : disk) : res disk :=
  do o <- dbRead c d idNum 4;
  if gotLen o =? 0 then atomicWrite c d idNum (le 4 (numOfObjects c)) else Ok d.
Definition initStorage (c : cfg) (d : disk) : res (disk * ps) :=
  do o <- dbRead c d idVersion 80;
  if gotLen o =? 0 then
    let p := setBegs (beginTran ps0) 1 0 in
    do q <- writes c p (defaultWrites c); endTran d q false
  else
    let '(sz, b) := rdN 4 (got o 80) in
    do _ <- guard (if list_eq_dec N.eq_dec (firstn (N.to_nat sz) b) [49; 46; 49] then true else false);
    do sb <- readBeg c d idSeqWin; do kb <- readBeg c d idCheckWin;
    do (_, p) <- getExec c d (setBegs ps0 sb kb);
    Ok (d, p).
(** eraseData, DbMetadataStorage.cpp:159-190 (multiDel deletes the ids 0 .. n-1 where n is how many ids were collected, not the ids
    themselves).  [objectsNum_] is what the database says (isNewStorage, 43-47). *)
Definition collected (c : cfg) (objectsNum : N) : list N :=
  idNum :: filter (fun id => id <? objectsNum) (idNum :: map N.of_nat (seq 2 (N.to_nat (numOfObjects c) - 2))).
Definition eraseEntry (c : cfg) (objectsNum : N) : entry := map (fun i => (N.of_nat i, None)) (seq 0 (length (collected c objectsNum))).
Definition eraseData (c : cfg) (d : disk) : res disk :=
  do o <- dbRead c d idNum 4;
  let n := unle (got o 4) in
  do _ <- guard (lenN (collected c n) <=? n);
  Ok (append d (eraseEntry c n) false).
(** ReplicaFactory.cpp:152-184: if the erase flag is set the metadata are erased and initialized again.  The new-epoch flag and the
    removal of the key files are left out. *)
Definition start (c : cfg) (d : disk) : res (disk * ps) :=
  do d1 <- initObjects c d;
  do e <- getFlag c d1 idErase;
  if e then do d2 <- eraseData c d1; do d3 <- initObjects c d2; initStorage c d3
  else initStorage c d1.

(** * Executions: the calls of the replica, and crashes.  A crash keeps a prefix of the writes, at least those known to be on stable
      storage, and the replica starts again. *)
Inductive event :=
| EBegin | EEnd (sync : bool) | ESet (s : setter) | EDirect (o : direct)
| EHasExit | EHasNew | EGetLastExec | EGetLastView          (* the calls that change cached state *)
| ECrash (k : nat).
Definition stepE (c : cfg) (s : disk * ps) (e : event) : res (disk * ps) :=
  let '(d, p) := s in
  match e with
  | EBegin => Ok (d, beginTran p)
  | EEnd sync => endTran d p sync
  | ESet x => do q <- doSet c d p x; Ok (d, q)
  | EDirect o => do d1 <- doDirect c d o; Ok (d1, p)
  | EHasExit => do (_, q) <- hasExitF c d p; Ok (d, q)
  | EHasNew => do (_, q) <- hasNewF c d p; Ok (d, q)
  | EGetLastExec => do (_, q) <- getLastExec c d p; Ok (d, q)
  | EGetLastView => do (_, q) <- getLastView c d p; Ok (d, q)
  | ECrash k => do _ <- guard ((synced d <=? k)%nat && (k <=? length (log d))%nat);
                start c (mkDisk (firstn k (log d)) (synced d))
  end.
Fixpoint run (c : cfg) (s : disk * ps) (es : list event) : res (disk * ps) :=
  match es with [] => Ok s | e :: t => do s1 <- stepE c s e; run c s1 t end.
Definition boot (c : cfg) : res (disk * ps) := start c (mkDisk [] 0).
