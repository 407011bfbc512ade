(** Model of the Concord message format: messages/compiler/cpp/serialize.hpp (all of it) and the code generated for messages and oneofs by
    messages/compiler/cpp/cpp_visitor.py:24-160. A type of the message language (messages/compiler/grammar.ebnf) is a value of [ty]; serialisation and
    deserialisation are functions of it. Input bytes are numbers below 256; None is a thrown DeserializeError.
    Simplified: pointers are lists of the remaining bytes (an overflow of start + length beyond the address space is ignored); the result object is fresh
    (see [decStringInto] for the other case); the two overloads for vector and string outputs are the same function. *)
From Coq Require Import List Arith NArith ZArith Bool Lia Sorted.
From Verif Require Import Lib_Bytes.
Import ListNotations.
Open Scope Z_scope.

Inductive ty :=
| TBool | TInt (signed : bool) (size : nat)      (* uint8..uint64, int8..int64: size in bytes *)
| TEnum (tags : Z)                               (* number of tags *)
| TString | TBytes                               (* std::string, std::vector<uint8_t> *)
| TPair (a b : ty) | TList (a : ty) | TArray (a : ty) (n : nat) | TMap (k v : ty) | TOpt (a : ty)
| TMsg (fs : flds) | TOneof (al : alts)
with flds := FNil | FCons (t : ty) (fs : flds)
with alts := ANil | ACons (id : Z) (t : ty) (al : alts).
Inductive val :=
| VBool (b : bool) | VInt (z : Z) | VStr (s : bytes) | VPair (a b : val) | VList (l : list val) | VMap (l : list (val * val)) | VOpt (o : option val)
| VMsg (l : list val) | VOneof (id : Z) (v : val).

(** Integers, serialize.hpp:69-87 and 98-124: big endian, two's complement. *)
Definition encInt (k : nat) (z : Z) : bytes := be k (Z.to_N (z mod 2 ^ (8 * Z.of_nat k))).
Definition toSigned (sg : bool) (k : nat) (n : Z) : Z := if sg && (2 ^ (8 * Z.of_nat k - 1) <=? n) then n - 2 ^ (8 * Z.of_nat k) else n.
Definition take (k : nat) (b : bytes) : option (bytes * bytes) := if (length b <? k)%nat then None else Some (firstn k b, skipn k b).
Definition decInt (sg : bool) (k : nat) (b : bytes) : option (Z * bytes) :=
  match take k b with None => None | Some (x, r) => Some (toSigned sg k (Z.of_N (unbe x)), r) end.
(** bool, serialize.hpp:101-113. *)
Definition decBool (b : bytes) : option (bool * bytes) :=
  match b with [] => None | x :: r => if (x =? 0)%N then Some (false, r) else if (x =? 1)%N then Some (true, r) else None end.
(** A length or size: uint32_t, lines 171, 229. *)
Definition encLen (n : nat) : bytes := encInt 4 (Z.of_nat n).
Definition decLen (b : bytes) : option (nat * bytes) := match decInt false 4 b with None => None | Some (z, r) => Some (Z.to_nat z, r) end.
(** Strings, lines 163-189, and vectors of bytes, lines 237-243. *)
Definition encStr (s : bytes) : bytes := encLen (length s) ++ s.
Definition decStr (b : bytes) : option (bytes * bytes) := match decLen b with None => None | Some (n, r) => take n r end.
(** std::copy_n with a back_inserter: the decoded bytes are appended to what the target already holds (lines 186, 243; a map keeps its old entries, line 343). *)
Definition decStringInto (old b : bytes) : option (bytes * bytes) := match decStr b with None => None | Some (s, r) => Some (old ++ s, r) end.
(** operator< on keys, which are primitive: integers, bool, and lexicographically by unsigned bytes. *)
Fixpoint lexlt (a b : bytes) : bool :=
  match a, b with [], [] => false | [], _ => true | _, [] => false | x :: a, y :: b => if (x <? y)%N then true else if (y <? x)%N then false else lexlt a b end.
Definition keylt (a b : val) : bool :=
  match a, b with VBool x, VBool y => negb x && y | VInt x, VInt y => x <? y | VStr x, VStr y => lexlt x y | _, _ => false end.
(** std::map::insert: an existing key is kept. *)
Fixpoint minsert (k v : val) (m : list (val * val)) : list (val * val) :=
  match m with [] => [(k, v)] | (k', v') :: m' => if keylt k' k then (k', v') :: minsert k v m' else if keylt k k' then (k, v) :: m else m end.

(** n elements one after the other: lines 245-249, 282-284, 339-344. *)
Fixpoint decN (d : bytes -> option (val * bytes)) (n : nat) (b : bytes) : option (list val * bytes) :=
  match n with O => Some ([], b) | S n => match d b with None => None | Some (v, r) => match decN d n r with None => None | Some (l, r) => Some (v :: l, r) end end end.
(** The one-byte integral element types (this includes bool), lines 236 and 276: the bytes are copied unchecked. *)
Definition oneByte (a : ty) : option (N -> val) :=
  match a with
  | TBool => Some (fun x => VBool (negb (x =? 0)%N))
  | TInt sg k => if (k =? 1)%nat then Some (fun x => VInt (toSigned sg 1 (Z.of_N x))) else None
  | _ => None
  end.
Definition decElems (a : ty) (d : bytes -> option (val * bytes)) (n : nat) (b : bytes) : option (list val * bytes) :=
  match oneByte a with Some f => match take n b with None => None | Some (x, r) => Some (map f x, r) end | None => decN d n b end.

(** serialize. Values that are not of the type do not occur in C++; [] is returned. *)
Fixpoint enc (t : ty) (v : val) {struct t} : bytes :=
  match t, v with
  | TBool, VBool b => [if b then 1%N else 0%N]
  | TInt _ k, VInt z => encInt k z
  | TEnum _, VInt z => encInt 1 z                                                    (* lines 131-140 *)
  | TString, VStr s => encStr s
  | TBytes, VStr s => encStr s
  | TPair a b, VPair x y => enc a x ++ enc b y                                       (* lines 290-300 *)
  | TList a, VList l => encLen (length l) ++ flat_map (enc a) l                      (* lines 213-231 *)
  | TArray a _, VList l => flat_map (enc a) l                                        (* lines 254-266 *)
  | TMap k w, VMap l => encLen (length l) ++ flat_map (fun p => enc k (fst p) ++ enc w (snd p)) l   (* lines 313-331 *)
  | TOpt a, VOpt o => match o with None => [0%N] | Some x => 1%N :: enc a x end      (* lines 354-368 *)
  | TMsg fs, VMsg l => encF fs l                                                     (* cpp_visitor.py:84-89 *)
  | TOneof al, VOneof id x => encInt 4 id ++ encA al id x                            (* cpp_visitor.py:107-113 *)
  | _, _ => []
  end
with encF (fs : flds) (l : list val) {struct fs} : bytes :=
  match fs, l with FCons t fs, x :: l => enc t x ++ encF fs l | _, _ => [] end
with encA (al : alts) (id : Z) (x : val) {struct al} : bytes :=
  match al with ANil => [] | ACons i t al => if i =? id then enc t x else encA al id x end.

(** deserialize. *)
Fixpoint dec (t : ty) (b : bytes) {struct t} : option (val * bytes) :=
  match t with
  | TBool => match decBool b with None => None | Some (x, r) => Some (VBool x, r) end
  | TInt sg k => match decInt sg k b with None => None | Some (z, r) => Some (VInt z, r) end
  | TEnum n => match decInt false 1 b with None => None | Some (z, r) => if z <? n mod 256 then Some (VInt z, r) else None end   (* lines 142-150; enumSize is a uint8_t *)
  | TString | TBytes => match decStr b with None => None | Some (s, r) => Some (VStr s, r) end
  | TPair a c => match dec a b with None => None | Some (x, r) => match dec c r with None => None | Some (y, r) => Some (VPair x y, r) end end
  | TList a => match decLen b with None => None | Some (n, r) => match decElems a (dec a) n r with None => None | Some (l, r) => Some (VList l, r) end end
  | TArray a n => match decElems a (dec a) n b with None => None | Some (l, r) => Some (VList l, r) end
  | TMap k w => match decLen b with None => None | Some (n, r) =>
      match decN (fun b => match dec k b with None => None | Some (x, r) => match dec w r with None => None | Some (y, r) => Some (VPair x y, r) end end) n r with
      | None => None
      | Some (l, r) => Some (VMap (fold_left (fun m p => match p with VPair x y => minsert x y m | _ => m end) l []), r)
      end end
  | TOpt a => match decBool b with None => None | Some (false, r) => Some (VOpt None, r) | Some (true, r) => match dec a r with None => None | Some (x, r) => Some (VOpt (Some x), r) end end
  | TMsg fs => match decF fs b with None => None | Some (l, r) => Some (VMsg l, r) end
  | TOneof al => match decInt false 4 b with None => None | Some (id, r) => match decA al id r with None => None | Some (x, r) => Some (VOneof id x, r) end end  (* cpp_visitor.py:141-160 *)
  end
with decF (fs : flds) (b : bytes) {struct fs} : option (list val * bytes) :=
  match fs with FNil => Some ([], b) | FCons t fs => match dec t b with None => None | Some (x, r) => match decF fs r with None => None | Some (l, r) => Some (x :: l, r) end end end
with decA (al : alts) (id : Z) (b : bytes) {struct al} : option (val * bytes) :=
  match al with ANil => None | ACons i t al => if i =? id then dec t b else decA al id b end.
(** deserialize(const std::vector<uint8_t>&, msg), cpp_visitor.py:57-67: what is left of the buffer is not looked at. *)
Definition decodeBuffer (t : ty) (b : bytes) : option val := match dec t b with None => None | Some (v, _) => Some v end.

(** * Specification: the values of a type, as the C++ types have them. *)
Definition primitive (t : ty) : Prop := match t with TBool | TInt _ _ | TString | TBytes => True | _ => False end.
(** Types the grammar and the generator allow: sizes 1, 2, 4 or 8, primitive map keys, fewer than 256 tags, 32-bit message ids. *)
Fixpoint wfty (t : ty) : Prop :=
  match t with
  | TBool | TString | TBytes => True
  | TInt _ k => k = 1%nat \/ k = 2%nat \/ k = 4%nat \/ k = 8%nat
  | TEnum n => 0 <= n < 256
  | TPair a b => wfty a /\ wfty b
  | TList a | TArray a _ | TOpt a => wfty a
  | TMap k w => primitive k /\ wfty k /\ wfty w
  | TMsg fs => wfF fs
  | TOneof al => wfA al
  end
with wfF (fs : flds) : Prop := match fs with FNil => True | FCons t fs => wfty t /\ wfF fs end
with wfA (al : alts) : Prop := match al with ANil => True | ACons i t al => 0 <= i < 2 ^ 32 /\ wfty t /\ wfA al end.
Definition size32 (n : nat) : Prop := Z.of_nat n < 2 ^ 32.
Definition strictlySorted (l : list (val * val)) : Prop := StronglySorted (fun a b => keylt (fst a) (fst b) = true) l.
Fixpoint hasType (t : ty) (v : val) {struct t} : Prop :=
  match t, v with
  | TBool, VBool _ => True
  | TInt false k, VInt z => 0 <= z < 2 ^ (8 * Z.of_nat k)
  | TInt true k, VInt z => - 2 ^ (8 * Z.of_nat k - 1) <= z < 2 ^ (8 * Z.of_nat k - 1)
  | TEnum n, VInt z => 0 <= z < n
  | TString, VStr s | TBytes, VStr s => Forall isByte s /\ size32 (length s)
  | TPair a b, VPair x y => hasType a x /\ hasType b y
  | TList a, VList l => size32 (length l) /\ Forall (hasType a) l
  | TArray a n, VList l => length l = n /\ Forall (hasType a) l
  | TMap k w, VMap l => size32 (length l) /\ Forall (fun p => hasType k (fst p) /\ hasType w (snd p)) l /\ strictlySorted l
  | TOpt a, VOpt o => match o with None => True | Some x => hasType a x end
  | TMsg fs, VMsg l => hasF fs l
  | TOneof al, VOneof id x => 0 <= id < 2 ^ 32 /\ hasA al id x
  | _, _ => False
  end
with hasF (fs : flds) (l : list val) {struct fs} : Prop :=
  match fs, l with FNil, [] => True | FCons t fs, x :: l => hasType t x /\ hasF fs l | _, _ => False end
with hasA (al : alts) (id : Z) (x : val) {struct al} : Prop :=
  match al with ANil => False | ACons i t al => if i =? id then hasType t x else hasA al id x end.
(** Types without maps and without lists of bool. *)
Fixpoint canonical (t : ty) : Prop :=
  match t with
  | TBool | TInt _ _ | TEnum _ | TString | TBytes => True
  | TPair a b => canonical a /\ canonical b
  | TList a | TArray a _ => a <> TBool /\ canonical a
  | TOpt a => canonical a
  | TMap _ _ => False
  | TMsg fs => canonF fs
  | TOneof al => canonA al
  end
with canonF (fs : flds) : Prop := match fs with FNil => True | FCons t fs => canonical t /\ canonF fs end
with canonA (al : alts) : Prop := match al with ANil => True | ACons _ t al => canonical t /\ canonA al end.
