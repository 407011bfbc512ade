(** C17. Database keys: kvbc/src/merkle_tree_key_manipulator.cpp, kvbc/include/merkle_tree_serialization.h, storage/src/merkle_tree_key_manipulator.cpp (v2),
    storage/src/direct_kv_key_manipulator.cpp and kvbc/src/direct_kv_db_adapter.cpp (v1); the searches of kvbc/src/merkle_tree_db_adapter.cpp. *)
From Coq Require Import List Arith NArith ZArith Lia Bool.
From Verif Require Import Lib_Bytes.
Import ListNotations.
Local Open Scope N_scope.

(** The order of RocksDB's default comparator and of std::string: bytes are compared as unsigned numbers, a proper prefix comes first.
    (Specification of the storage engine, not code of the repository.) *)
Fixpoint blt (a b : bytes) : bool :=
  match a, b with _, [] => false | [], _ => true | x :: a, y :: b => if x <? y then true else if y <? x then false else blt a b end.
Fixpoint beqb (a b : bytes) : bool := match a, b with [], [] => true | x :: a, y :: b => (x =? y) && beqb a b | _, _ => false end.

(** * v2 keys *)
(** What a v2 database key stands for. A nibble path is the list of its nibbles. *)
Inductive dkey :=
| KBlock (id : N) (* merkle_tree_key_manipulator.cpp:45 genBlockDbKey *)
| KMeta (o : N) | KSt (o : N) | KPending (page : N) | KPage (page ckpt : N) | KCkpt (ckpt : N) (* storage/src/merkle_tree_key_manipulator.cpp:32-52 *)
| KTemp (id : N) (* :74 generateSTTempBlockKey *)
| KInternal (ver : N) (path : list N) (* :54 genInternalDbKey *)
| KStaleInternal (since ver : N) (path : list N) | KStaleLeaf (since : N) (hash : bytes) (ver : N) | KStaleVersion (since : N) (* :56-66 genStaleDbKey *)
| KLeaf (hash : bytes) (ver : N) (* :47 genDataDbKey *)
| KNonProvableStale (since : N) (key : bytes) (* :70 genNonProvableStaleDbKey *)
| KNonProvable (id : N) (key : bytes). (* :41 genNonProvableDbKey *)
(** sparse_merkle/base_types.h:272-282 NibblePath::append: two nibbles per byte, the first one in the upper half. *)
Fixpoint pathBytes (p : list N) : bytes := match p with [] => [] | [a] => [16 * a] | a :: b :: p => (16 * a + b) :: pathBytes p end.
(** merkle_tree_serialization.h:84-87: one byte for the number of nibbles, then the bytes. *)
Definition encPath (p : list N) : bytes := (N.of_nat (length p) mod 256) :: pathBytes p.
(** merkle_tree_serialization.h:106-109 and :117-120. *)
Definition encInternal (ver : N) (p : list N) : bytes := be 8 ver ++ encPath p.
Definition encLeaf (h : bytes) (ver : N) : bytes := h ++ be 8 ver.
(** The key bytes; types and subtypes as numbered in storage/include/storage/db_types.h:44-71. *)
Definition enc (k : dkey) : bytes :=
  match k with
  | KBlock id => 0 :: be 8 id
  | KMeta o => 1 :: 0 :: be 4 o
  | KSt o => 1 :: 1 :: be 4 o
  | KPending p => 1 :: 2 :: be 4 p
  | KPage p c => 1 :: 3 :: be 4 p ++ be 8 c
  | KCkpt c => 1 :: 4 :: be 8 c
  | KTemp id => 1 :: 5 :: be 8 id
  | KInternal v p => 2 :: 0 :: encInternal v p
  | KStaleInternal s v p => 2 :: 1 :: be 8 s ++ 2 :: 0 :: encInternal v p
  | KStaleLeaf s h v => 2 :: 1 :: be 8 s ++ 2 :: 2 :: encLeaf h v
  | KStaleVersion s => 2 :: 1 :: be 8 s
  | KLeaf h v => 2 :: 2 :: encLeaf h v
  | KNonProvableStale s k => 2 :: 3 :: be 8 s ++ k
  | KNonProvable id k => 2 :: 4 :: k ++ be 8 id
  end.
(** Values that the C++ types can hold: 64-bit ids, 32-bit object and page ids, 32-byte hashes, paths of at most 63 nibbles (base_types.h:245,275). *)
Definition u64 (x : N) := x < 256 ^ 8.
Definition u32 (x : N) := x < 256 ^ 4.
Definition hash32 (h : bytes) := length h = 32%nat /\ Forall isByte h.
Definition path64 (p : list N) := (length p < 64)%nat /\ Forall (fun a => a < 16) p.
Definition wf (k : dkey) : Prop :=
  match k with
  | KBlock id | KTemp id | KCkpt id | KStaleVersion id => u64 id
  | KMeta o | KSt o | KPending o => u32 o
  | KPage p c => u32 p /\ u64 c
  | KInternal v p => u64 v /\ path64 p
  | KStaleInternal s v p => u64 s /\ u64 v /\ path64 p
  | KStaleLeaf s h v => u64 s /\ hash32 h /\ u64 v
  | KLeaf h v => hash32 h /\ u64 v
  | KNonProvableStale s k => u64 s /\ Forall isByte k
  | KNonProvable id k => u64 id /\ Forall isByte k
  end.

(** * Searches *)
Section Db.
Context {V : Type}.
(** The database: key-value pairs; no two have the same key where it matters. *)
Definition db := list (bytes * V).
(** SeekForPrev (rocksdb_client.cpp:866, memorydb_client.cpp:247-273): the entry with the greatest key that is not above k. *)
Fixpoint seekAtMost (d : db) (k : bytes) : option (bytes * V) :=
  match d with
  | [] => None
  | e :: d => if blt k (fst e) then seekAtMost d k else match seekAtMost d k with Some e' => if blt (fst e) (fst e') then Some e' else Some e | None => Some e end
  end.
(** Seek: the entry with the smallest key that is not below k. *)
Fixpoint seekAtLeast (d : db) (k : bytes) : option (bytes * V) :=
  match d with
  | [] => None
  | e :: d => if blt (fst e) k then seekAtLeast d k else match seekAtLeast d k with Some e' => if blt (fst e') (fst e) then Some e' else Some e | None => Some e end
  end.
(** next(): the entry with the smallest key above k. *)
Fixpoint seekAfter (d : db) (k : bytes) : option (bytes * V) :=
  match d with
  | [] => None
  | e :: d => if blt k (fst e) then match seekAfter d k with Some e' => if blt (fst e') (fst e) then Some e' else Some e | None => Some e end else seekAfter d k
  end.
(** getDBKeyType, getKeySubtype, getBftSubtype (merkle_tree_key_manipulator.cpp:160-225): the first and the second byte. *)
Definition typeOf (k : bytes) := nth 0 k 0.
Definition subtypeOf (k : bytes) := nth 1 k 0.
(** extractHashFromLeafKey :106-112, extractBlockIdFromKey :94-104 (last eight bytes), extractKeyFromNonProvableKey :85-92, version after the two type bytes :114-128. *)
Definition leafHash (k : bytes) : bytes := slice k 2 32.
Definition last8 (k : bytes) : N := unbe (slice k (length k - 8) 8).
Definition npKey (k : bytes) : bytes := slice k 2 (length k - 2 - 8).
Definition staleVersion (k : bytes) : N := unbe (slice k 2 8).
(** merkle_tree_db_adapter.cpp:779-790 getLeafKeyValAtMostVersion (the key is hashed by the caller here). *)
Definition getLeafAtMost (d : db) (h : bytes) (v : N) : option (bytes * V) :=
  match seekAtMost d (enc (KLeaf h v)) with
  | Some (k, x) => if (typeOf k =? 2) && (subtypeOf k =? 2) && beqb (leafHash k) h then Some (k, x) else None
  | None => None
  end.
(** :167-179 getValueForNonProvableKey. *)
Definition getNonProvable (d : db) (key : bytes) (id : N) : option (V * N) :=
  match seekAtMost d (enc (KNonProvable id key)) with
  | Some (k, x) => if (typeOf k =? 2) && (subtypeOf k =? 4) && beqb (npKey k) key then Some (x, last8 k) else None
  | None => None
  end.
Definition MAX_ID : N := 256 ^ 8 - 1.
(** :230-237 loadGenesisBlockId, :239-253 loadLastReachableBlockId, :255-268 loadLatestTempSTBlockId. *)
Definition loadGenesis (d : db) : N := match seekAtLeast d (enc (KBlock 1)) with Some (k, _) => if typeOf k =? 0 then last8 k else 0 | None => 0 end.
Definition loadLastReachable (d : db) : N := match seekAtMost d (enc (KBlock MAX_ID)) with Some (k, _) => if typeOf k =? 0 then last8 k else 0 | None => 0 end.
Definition loadLatestTemp (d : db) : option N :=
  match seekAtMost d (enc (KTemp MAX_ID)) with Some (k, _) => if (typeOf k =? 1) && (subtypeOf k =? 5) then Some (last8 k) else None | None => None end.
(** :96-112 keysForVersion: from the first key on, while type, subtype and version agree. [fuel] bounds the loop; the number of entries is always enough. *)
Fixpoint collect (d : db) (sub ver : N) (fuel : nat) (cur : option (bytes * V)) : list bytes :=
  match fuel, cur with
  | S n, Some (k, _) => if (typeOf k =? 2) && (subtypeOf k =? sub) && (staleVersion k =? ver) then k :: collect d sub ver n (seekAfter d k) else []
  | _, _ => []
  end.
Definition keysForVersion (d : db) (first : bytes) (sub ver : N) : list bytes := collect d sub ver (S (length d)) (seekAtLeast d first).
(** :689-719: the three users. The version of an internal key also starts at offset 2. *)
Definition staleNonProvable (d : db) (id : N) := keysForVersion d (enc (KNonProvableStale id [])) 3 id.
Definition staleProvable (d : db) (ver : N) := keysForVersion d (enc (KStaleVersion ver)) 1 ver.
Definition internalKeys (d : db) (ver : N) := keysForVersion d (enc (KInternal ver [])) 0 ver.

(** Every entry of the database was written under the key of something. (Keys of type Migration and of PublicStateHash are left out; they have their own types.) *)
Definition wfDb (d : db) := Forall (fun e => exists k, wf k /\ fst e = enc k) d /\ NoDup (map fst d).
End Db.
Arguments db : clear implicits.

(** * v1 keys *)
Inductive vkey := V1Block (id : N) | V1Key (key : bytes) (id : N) | V1Meta (o : N) | V1St (o : N) | V1Pending (p : N) | V1Page (p c : N) | V1Ckpt (c : N).
(** direct_kv_db_adapter.cpp:180-190 genDbKey and storage/src/direct_kv_key_manipulator.cpp:42-126: type byte, then the fields as copied from memory (little endian);
    types from db_types.h:23-33. *)
Definition enc1 (k : vkey) : bytes :=
  match k with
  | V1Block id => 65 :: le 8 id
  | V1Key key id => 66 :: key ++ le 8 id
  | V1Meta o => 67 :: le 4 o
  | V1St o => 68 :: le 4 o
  | V1Pending p => 69 :: le 4 p
  | V1Page p c => 70 :: le 4 p ++ le 8 c
  | V1Ckpt c => 71 :: le 8 c
  end.
Definition wf1 (k : vkey) : Prop :=
  match k with
  | V1Block x | V1Ckpt x => u64 x | V1Key key id => Forall isByte key /\ u64 id | V1Meta o | V1St o | V1Pending o => u32 o | V1Page p c => u32 p /\ u64 c
  end.
Definition sgn (a b : N) : Z := if b <? a then 1%Z else if a <? b then (-1)%Z else 0%Z.
(** memcmp of the first n bytes, as -1, 0 or 1. *)
Fixpoint memcmp (a b : bytes) (n : nat) : Z :=
  match n, a, b with S n, x :: a, y :: b => if x <? y then (-1)%Z else if y <? x then 1%Z else memcmp a b n | _, _, _ => 0%Z end.
(** direct_kv_db_adapter.cpp:312-337 compareKeyPartOfComposedKey on the key parts. *)
Definition compareKeyPart (a b : bytes) : Z :=
  let la := (length a - 9)%nat in let lb := (length b - 9)%nat in
  let r := memcmp (slice a 1 la) (slice b 1 lb) (Nat.min la lb) in
  if Nat.eqb la lb then r else if Z.eqb r 0 then if Nat.ltb la lb then (-1)%Z else 1%Z else r.
Definition lastLe (n : nat) (k : bytes) : N := unle (slice k (length k - n) n).
(** direct_kv_db_adapter.cpp:109-165 composedKeyComparison; None: the assertion on the key type fails. *)
Definition cmp1 (a b : bytes) : option Z :=
  let ta := nth 0 a 0 in let tb := nth 0 b 0 in
  if negb ((65 <=? ta) && (ta <? 72) && (65 <=? tb) && (tb <? 72)) then None else
  Some (if negb (ta =? tb) then (Z.of_N ta - Z.of_N tb)%Z else
  if (ta =? 68) || (ta =? 69) || (ta =? 67) then sgn (lastLe 4 a) (lastLe 4 b) else
  if ta =? 71 then sgn (unle (slice a 1 8)) (unle (slice b 1 8)) else
  if ta =? 70 then (if unle (slice a 1 4) =? unle (slice b 1 4) then sgn (unle (slice a 5 8)) (unle (slice b 5 8)) else sgn (unle (slice a 1 4)) (unle (slice b 1 4))) else
  if ta =? 66 then (if Z.eqb (compareKeyPart a b) 0 then sgn (lastLe 8 b) (lastLe 8 a) else compareKeyPart a b) else
  sgn (lastLe 8 a) (lastLe 8 b)).
(** Specification of the order: by type; data keys by key bytes and then the newest block first; all others by their fields. *)
Definition type1 (k : vkey) : nat := match k with V1Block _ => 0 | V1Key _ _ => 1 | V1Meta _ => 2 | V1St _ => 3 | V1Pending _ => 4 | V1Page _ _ => 5 | V1Ckpt _ => 6 end.
Definition before1 (a b : vkey) : Prop :=
  (type1 a < type1 b)%nat \/
  match a, b with
  | V1Block x, V1Block y | V1Meta x, V1Meta y | V1St x, V1St y | V1Pending x, V1Pending y | V1Ckpt x, V1Ckpt y => x < y
  | V1Page p c, V1Page p' c' => p < p' \/ (p = p' /\ c < c')
  | V1Key k x, V1Key k' y => blt k k' = true \/ (k = k' /\ y < x)
  | _, _ => False
  end.

(** * Specification of the order of v2 keys *)
Definition rank (k : dkey) : nat :=
  match k with
  | KBlock _ => 0 | KMeta _ => 1 | KSt _ => 2 | KPending _ => 3 | KPage _ _ => 4 | KCkpt _ => 5 | KTemp _ => 6
  | KInternal _ _ => 7 | KStaleVersion _ | KStaleInternal _ _ _ | KStaleLeaf _ _ _ => 8 | KLeaf _ _ => 9 | KNonProvableStale _ _ => 10 | KNonProvable _ _ => 11
  end.
(** Within the stale index of one version: the version alone, then internal nodes, then leaves. *)
Definition staleRank (k : dkey) : nat := match k with KStaleVersion _ => 0 | KStaleInternal _ _ _ => 1 | _ => 2 end.
Definition staleSince (k : dkey) : N := match k with KStaleVersion s | KStaleInternal s _ _ | KStaleLeaf s _ _ => s | _ => 0 end.
(** Internal node keys: by version, then number of nibbles, then nibbles; leaf keys: by hash, then version. *)
Definition beforeInternal (v : N) (p : list N) (v' : N) (p' : list N) : Prop :=
  v < v' \/ (v = v' /\ ((length p < length p')%nat \/ (length p = length p' /\ blt p p' = true))).
Definition beforeLeaf (h : bytes) (v : N) (h' : bytes) (v' : N) : Prop := blt h h' = true \/ (h = h' /\ v < v').
Definition before (a b : dkey) : Prop :=
  (rank a < rank b)%nat \/
  match a, b with
  | KBlock x, KBlock y | KMeta x, KMeta y | KSt x, KSt y | KPending x, KPending y | KCkpt x, KCkpt y | KTemp x, KTemp y => x < y
  | KPage p c, KPage p' c' => p < p' \/ (p = p' /\ c < c')
  | KInternal v p, KInternal v' p' => beforeInternal v p v' p'
  | KLeaf h v, KLeaf h' v' => beforeLeaf h v h' v'
  | KNonProvableStale s k, KNonProvableStale s' k' => s < s' \/ (s = s' /\ blt k k' = true)
  | KNonProvable id k, KNonProvable id' k' => blt k k' = true \/ (k = k' /\ id < id')
  | _, _ => rank a = 8%nat /\ rank b = 8%nat /\
      (staleSince a < staleSince b \/ (staleSince a = staleSince b /\ ((staleRank a < staleRank b)%nat \/
        match a, b with
        | KStaleInternal _ v p, KStaleInternal _ v' p' => beforeInternal v p v' p'
        | KStaleLeaf _ h v, KStaleLeaf _ h' v' => beforeLeaf h v h' v'
        | _, _ => False
        end)))
  end.
(** The non-provable keys of a database all have one length (the constructor checks it: merkle_tree_db_adapter.cpp:149-156). *)
Definition sameLength (a b : dkey) : Prop := match a, b with KNonProvable _ k, KNonProvable _ k' => length k = length k' | _, _ => True end.
