(** C14. Immutable key-value category: kvbc/src/categorization/immutable_kv_category.cpp, driven by kv_blockchain.cpp; the proof type is
    the one of the versioned category (base_types.h:46-88). *)
From Coq Require Import List Arith NArith Lia Bool.
From Verif Require Import Lib_Bytes Keys_Model Lib_CF Versioned_Model.
Import ListNotations.
Local Open Scope N_scope.

(** ImmutableInput: a std::map key -> (data, tags); tags come from a std::set (updates.h:50-62). *)
Record iinput := { ikv : list (bytes * (bytes * list bytes)); iwant : bool }.
(** ImmutableOutput: tagged_keys and, if requested, tag_root_hashes (both std::maps). *)
Record ioutput := { tagged : list (bytes * list bytes); tagRoots : option (list (bytes * bytes)) }.
(** The column family: key -> (block id, data) (ImmutableDbValue). *)
Definition icat := list (bytes * (N * bytes)).
Inductive iwop := IPut (k : bytes) (x : N * bytes) | IDel (k : bytes).
Definition iapply1 (s : icat) (o : iwop) : icat := match o with IPut k x => cfPut s k x | IDel k => cfDel s k end.
Definition iapply (s : icat) (os : list iwop) : icat := fold_left iapply1 os s.
Definition hasTag (tag : bytes) (tags : list bytes) : bool := existsb (beqb tag) tags.

Section Cat.
Variable H : bytes -> bytes.
(** A std::map with operator[]-like update of one entry: the hashers per tag (immutable_kv_category.cpp:35-46); a hasher is the bytes fed to it. *)
Fixpoint feed (m : list (bytes * bytes)) (tag x : bytes) : list (bytes * bytes) :=
  match m with
  | [] => [(tag, x)]
  | (t, y) :: m' => if blt tag t then (tag, x) :: m else if beqb tag t then (t, y ++ x) :: m' else (t, y) :: feed m' tag x
  end.
(** immutable_kv_category.cpp:77-123 add *)
Definition iaddOps (b : N) (i : iinput) : list iwop := map (fun u => IPut (fst u) (b, fst (snd u))) (ikv i).
Definition hashers (l : list (bytes * (bytes * list bytes))) : list (bytes * bytes) :=
  fold_left (fun m (u : bytes * (bytes * list bytes)) => fold_left (fun m tag => feed m tag (H (fst u) ++ H (fst (snd u)))) (snd (snd u)) m) l [].
Definition iaddOut (i : iinput) : ioutput :=
  {| tagged := fold_left (fun m u => emplace m (fst u) (snd (snd u))) (ikv i) [];
     tagRoots := if iwant i then Some (map (fun e => (fst e, H (snd e))) (hashers (ikv i))) else None |}.
(** immutable_kv_category.h deleteBlock: delete every key of the block; used for genesis and last blocks (:133-147). *)
Definition idelOps (o : ioutput) : list iwop := map (fun e => IDel (fst e)) (tagged o).
(** :160-166 getLatest, :149-158 get *)
Definition igetLatest (s : icat) (k : bytes) : option (N * bytes) := cfGet s k.
Definition iget (s : icat) (k : bytes) (b : N) : option (N * bytes) :=
  match igetLatest s k with Some (b', d) => if b' =? b then Some (b', d) else None | None => None end.
(** :168-215 multiGet, multiGetLatest *)
Definition imultiGet (s : icat) (ks : list bytes) (vs : list N) : option (list (option (N * bytes))) :=
  if Nat.eqb (length ks) (length vs) then
    Some (map (fun p => match cfGet s (fst p) with Some (b, d) => if b =? snd p then Some (b, d) else None | None => None end) (combine ks vs)) else None.
Definition imultiGetLatest (s : icat) (ks : list bytes) : list (option (N * bytes)) := map (cfGet s) ks.
(** :246-292 getProof: outer None is a failed assertion. *)
Fixpoint iproofLoop (s : icat) (tag key : bytes) (ks : list (bytes * list bytes)) (i idx : nat) (hs : list bytes) : option (nat * list bytes) :=
  match ks with
  | [] => Some (idx, hs)
  | e :: ks =>
    if beqb (fst e) key then iproofLoop s tag key ks i i hs
    else if hasTag tag (snd e) then
      match igetLatest s (fst e) with None => None | Some (_, v) => iproofLoop s tag key ks (i + 2) idx (hs ++ [H (fst e); H v]) end
    else iproofLoop s tag key ks i idx hs
  end.
Definition igetProof (s : icat) (tag key : bytes) (o : ioutput) : option (option kvProof) :=
  match cfGet (tagged o) key with
  | None => Some None
  | Some tags =>
    if hasTag tag tags then
      match igetLatest s key with
      | None => None
      | Some (pb, pv) =>
        match iproofLoop s tag key (tagged o) 0 0 [] with
        | None => None
        | Some (idx, hs) => Some (Some {| pfBlock := pb; pfKey := key; pfValue := pv; pfIndex := idx; pfHashes := hs |})
        end
      end
    else Some None
  end.

(** The chain (kv_blockchain.cpp:189-225, :518-640), as in Versioned_Model. *)
Record ichain := { ist : icat; igenesis : N; ilast : N; iouts : N -> option ioutput }.
Definition iinit : ichain := {| ist := []; igenesis := 1; ilast := 0; iouts := fun _ => None |}.
Definition iupd (f : N -> option ioutput) (b : N) (x : option ioutput) : N -> option ioutput := fun b' => if b' =? b then x else f b'.
Inductive iop := IAdd (i : iinput) | IDelGenesis | IDelLast.
Definition istep (c : ichain) (o : iop) : option ichain :=
  match o with
  | IAdd i => let b := ilast c + 1 in
    Some {| ist := iapply (ist c) (iaddOps b i); igenesis := igenesis c; ilast := b; iouts := iupd (iouts c) b (Some (iaddOut i)) |}
  | IDelGenesis =>
    if igenesis c <? ilast c then
      match iouts c (igenesis c) with
      | None => None
      | Some out => Some {| ist := iapply (ist c) (idelOps out); igenesis := igenesis c + 1; ilast := ilast c; iouts := iupd (iouts c) (igenesis c) None |}
      end
    else None
  | IDelLast =>
    if igenesis c <? ilast c then
      match iouts c (ilast c) with
      | None => None
      | Some out => Some {| ist := iapply (ist c) (idelOps out); igenesis := igenesis c; ilast := ilast c - 1; iouts := iupd (iouts c) (ilast c) None |}
      end
    else None
  end.
Fixpoint irun (c : ichain) (os : list iop) : option ichain := match os with [] => Some c | o :: os => match istep c o with Some c => irun c os | None => None end end.
End Cat.

(** * Specification: the blocks of the chain with their inputs, oldest first. *)
(** (number of blocks ever added and not reverted, blocks of the chain) *)
Definition istate : Type := N * list (N * iinput).
Definition isinit : istate := (0, []).
Definition isstep (s : istate) (o : iop) : istate :=
  match o with
  | IAdd i => (fst s + 1, snd s ++ [(fst s + 1, i)])
  | IDelGenesis => (fst s, tl (snd s))
  | IDelLast => (fst s - 1, removelast (snd s))
  end.
Definition isrun (s : istate) (os : list iop) : istate := fold_left isstep os s.
(** Block [b] of the chain wrote [d] to [k], with the given tags. *)
Definition wrote (s : istate) (b : N) (k d : bytes) (tags : list bytes) : Prop := exists i, In (b, i) (snd s) /\ In (k, (d, tags)) (ikv i).
(** Allowed operations: kv is a map; a key is not written while a block of the chain holds it; the last block is never removed. *)
Definition iallowed (s : istate) (o : iop) : Prop :=
  match o with
  | IAdd i => sorted (ikv i) /\ (forall k d tags, In (k, (d, tags)) (ikv i) -> NoDup tags /\ forall b d' t', ~ wrote s b k d' t')
  | IDelGenesis | IDelLast => (2 <= length (snd s))%nat
  end.
Fixpoint iallAllowed (s : istate) (os : list iop) : Prop := match os with [] => True | o :: os => iallowed s o /\ iallAllowed (isstep s o) os end.
(** The hash input of a tag: key and value hashes of the tagged entries, in key order. *)
Definition tagBytes (H : bytes -> bytes) (tag : bytes) (l : list (bytes * (bytes * list bytes))) : bytes :=
  flat_map (fun u => H (fst u) ++ H (fst (snd u))) (filter (fun u => hasTag tag (snd (snd u))) l).
