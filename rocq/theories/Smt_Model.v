(** Model of the sparse Merkle tree (property C12).
    Sources: kvbc/src/sparse_merkle/{tree,internal_node,walker,update_cache}.cpp and
    kvbc/include/sparse_merkle/{base_types,internal_node,walker,update_cache,update_batch,keys}.h

    Simplifications, valid for the whole file:
    - a [Hash] used as a tree position is the list of its 256 bits, most significant bit first; a [Nibble] is a list of
      4 bits, most significant first; a [NibblePath] is the concatenation of its nibbles;
    - the hash function is a parameter: [hparent] is Hasher::parent, [ph] is PLACEHOLDER_HASH (= Hash()), and the hash of a
      value is part of the input;
    - Version is an unbounded natural number (the C++ one is a uint64_t);
    - ConcordAssert failures, std::get on the wrong alternative, std::optional::value() of nothing and a node that the
      database does not have (std::out_of_range) are all the outcome [None];
    - histograms and toString are left out. *)
From Coq Require Import List NArith Bool Arith Lia.
Import ListNotations.

Definition bits := list bool.

(** base_types.h:30 Hash::SIZE_IN_BITS, MAX_NIBBLES (base_types.h:110-116). *)
Definition KL : nat := 256.
Definition MAX_NIBBLES : nat := 64.

(** base_types.h:54-100 Nibble: [getBit i] counts from the least significant bit; asserts bit < 4. *)
Definition getBit (nb : bits) (i : nat) : bool := nth (3 - i) nb false.
(** the value of the nibble, Nibble::data() *)
Definition b2n (b : bool) : nat := if b then 1 else 0.
Definition nibble_data (nb : bits) : nat :=
  8 * b2n (getBit nb 3) + 4 * b2n (getBit nb 2) + 2 * b2n (getBit nb 1) + b2n (getBit nb 0).

(** base_types.h:160-164 Hash::getNibble(n), asserts n < MAX_NIBBLES. *)
Definition getNibble (k : bits) (d : nat) : option bits :=
  if d <? MAX_NIBBLES then Some (firstn 4 (skipn (4 * d) k)) else None.

(** base_types.h:168-186 prefix_bits_in_common(other): the length of the longest common prefix (the byte-wise shortcut of
    the C++ loop is not modelled). *)
Fixpoint prefix_bits (a b : bits) : nat :=
  match a, b with
  | x :: a', y :: b' => if eqb x y then S (prefix_bits a' b') else 0
  | _, _ => 0
  end.

(** base_types.h:192-200 prefix_bits_in_common(other, depth). *)
Definition prefix_bits_from (a b : bits) (depth : nat) : option nat :=
  if depth <? MAX_NIBBLES then
    Some (let total := prefix_bits a b in
          let bits_to_depth := depth * 4 in
          if bits_to_depth <? total then total - bits_to_depth else 0)
  else None.

Fixpoint bits_eqb (a b : bits) : bool :=
  match a, b with
  | [], [] => true
  | x :: a', y :: b' => eqb x y && bits_eqb a' b'
  | _, _ => false
  end.

(** keys.h:63-96 LeafKey *)
Definition leafkey : Type := bits * N.

Section Smt.

Variable H : Type.
Variable hparent : H -> H -> H.   (* base_types.h:218-223 Hasher::parent *)
Variable ph : H.                  (* base_types.h:229 PLACEHOLDER_HASH, also Hash() *)

(** internal_node.h:51-63 LeafChild *)
Record leaf := mkLeaf { lhash : H; lkey : bits; lver : N }.

(** internal_node.h:69-81 InternalChild and Child *)
Inductive child := Leaf (l : leaf) | Int (h : H) (v : N).

(** internal_node.h:158-159 BatchedInternalNode::Children, an array of 31 optional children.  Here a function on
    indices; only indices < 31 are used. *)
Definition node := nat -> option child.
Definition MAX_CHILDREN : nat := 31.
Definition emptyNode : node := fun _ => None.
Definition upd (c : node) (i : nat) (x : option child) : node := fun j => if j =? i then x else c j.

(** internal_node.h:307-346 index arithmetic *)
Definition parentIndex (i : nat) : option nat := if i =? 0 then None else Some ((i - 1) / 2).
Definition leftChildIndex (i : nat) : nat := 2 * i + 1.
Definition rightChildIndex (i : nat) : nat := 2 * i + 2.
Definition isLeftChild (i : nat) : bool := negb (i mod 2 =? 0).
Definition childIndex (b : bool) (i : nat) : nat := if b then rightChildIndex i else leftChildIndex i.

(** internal_node.h:287 isEmpty; internal_node.cpp:406-411 isInternal *)
Definition isEmpty (c : node) (i : nat) : bool := match c i with None => true | Some _ => false end.
Definition isInternal (c : node) (i : nat) : bool := match c i with Some (Int _ _) => true | _ => false end.

(** internal_node.h:318-326 peerIndex *)
Definition peerIndex (c : node) (i : nat) : option nat :=
  if i =? 0 then None else
  let p := if isLeftChild i then i + 1 else i - 1 in
  if isEmpty c p then None else Some p.

(** internal_node.cpp:390-396 height *)
Definition height (i : nat) : nat :=
  if i =? 0 then 4 else if i <? 3 then 3 else if i <? 7 then 2 else if i <? 15 then 1 else 0.

(** internal_node.cpp:385-388 nibbleToIndex *)
Definition nibbleToIndex (nb : bits) : nat := MAX_CHILDREN / 2 + nibble_data nb.

(** internal_node.cpp:398-404 getHash, internal_node.h:263 hash() *)
Definition hashOf (x : option child) : H :=
  match x with None => ph | Some (Leaf l) => lhash l | Some (Int h _) => h end.
Definition getHash (c : node) (i : nat) : H := hashOf (c i).
Definition nodeHash (c : node) : H := getHash c 0.

(** internal_node.cpp:352-356 version(); std::get on a LeafChild at index 0 throws. *)
Definition nodeVersion (c : node) : option N :=
  match c 0 with None => Some 0%N | Some (Int _ v) => Some v | Some (Leaf _) => None end.

(** internal_node.cpp:358-383 counters *)
Definition countIf (f : option child -> bool) (c : node) (from n : nat) : nat :=
  length (filter (fun i => f (c i)) (seq from n)).
Definition hasValue (x : option child) : bool := match x with None => false | Some _ => true end.
Definition isLeaf (x : option child) : bool := match x with Some (Leaf _) => true | _ => false end.
Definition numChildren (c : node) : nat := countIf hasValue c 0 MAX_CHILDREN.
Definition numLeafChildren (c : node) : nat := countIf isLeaf c 0 MAX_CHILDREN.
Definition numLevel0Children (c : node) : nat := countIf hasValue c (MAX_CHILDREN / 2) (MAX_CHILDREN - MAX_CHILDREN / 2).
(** internal_node.cpp:282 safeToRemove *)
Definition safeToRemove (c : node) : bool := (numLeafChildren c =? 0) && (numLevel0Children c =? 0).

(** internal_node.cpp:26-56 updateHashes.  [fuel] bounds the loop (the index decreases); every call passes 31. *)
Fixpoint updateHashes_loop (fuel : nat) (c : node) (index : nat) (version : N) : option node :=
  match fuel with
  | 0 => None
  | S fuel' =>
    let h := if isLeftChild index then hparent (getHash c index) (getHash c (index + 1))
             else hparent (getHash c (index - 1)) (getHash c index) in
    match parentIndex index with
    | None => None
    | Some p =>
      match c p with
      | Some (Leaf _) => None
      | _ => let c' := upd c p (Some (Int h version)) in
             if p =? 0 then Some c' else updateHashes_loop fuel' c' p version
      end
    end
  end.
Definition updateHashes (c : node) (index : nat) (version : N) : option node :=
  if index =? 0 then None else updateHashes_loop 31 c index version.

(** internal_node.h:166-195 InsertResult *)
Inductive insRes :=
| InsComplete (stale : option leafkey)
| InsCreateNew (stored : leaf)
| InsExisting (next_version : N).

(** internal_node.cpp:157-174 insertInternalChildren; [i] is the C++ loop variable plus one. *)
Fixpoint insertInternal_loop (i : nat) (c : node) (index : nat) (version : N) (nb : bits) (until : nat) : node * nat :=
  match i with
  | 0 => (c, index)
  | S i' =>
    if until <=? i' then
      let index' := childIndex (getBit nb i') index in
      insertInternal_loop i' (upd c index' (Some (Int ph version))) index' version nb until
    else (c, index)
  end.
Definition insertInternalChildren (c : node) (index : nat) (version : N) (nb : bits) (common : nat) : node * nat :=
  insertInternal_loop (height index) c index version nb (if common <? 4 then 4 - common else 0).

(** internal_node.cpp:176-193 insertTwoLeafChildren *)
Definition insertTwoLeafChildren (c : node) (index : nat) (version : N) (nb : bits) (common : nat) (l1 l2 : leaf)
  : option (node * insRes) :=
  let b := getBit nb (4 - common - 1) in
  let i1 := if b then rightChildIndex index else leftChildIndex index in
  let i2 := if b then leftChildIndex index else rightChildIndex index in
  let c1 := upd (upd c i1 (Some (Leaf l1))) i2 (Some (Leaf l2)) in
  match updateHashes c1 i1 version with
  | Some c2 => Some (c2, InsComplete None)
  | None => None
  end.

(** internal_node.cpp:116-155 splitNode *)
Definition splitNode (c : node) (index : nat) (stored l : leaf) (depth : nat) : option (node * insRes) :=
  let version := lver l in
  let c1 := upd c index (Some (Int ph version)) in
  if height index =? 0 then Some (c1, InsCreateNew stored) else
  match prefix_bits_from (lkey stored) (lkey l) depth with
  | None => None
  | Some common =>
    if common =? 0 then None else
    match getNibble (lkey l) depth with
    | None => None
    | Some nb =>
      let '(c2, index') := insertInternalChildren c1 index version nb common in
      if common <? 4 then insertTwoLeafChildren c2 index' version nb common l stored
      else Some (c2, InsCreateNew stored)
    end
  end.

(** internal_node.cpp:58-114 insert, with insertIntoEmptyChild and overwrite; [i] is the loop variable plus one. *)
Fixpoint insert_loop (i : nat) (c : node) (index : nat) (nb : bits) (l : leaf) (depth : nat) (current_version : N)
  : option (node * insRes) :=
  match i with
  | 0 => match c index with
         | Some (Int _ v) => Some (c, InsExisting v)
         | _ => None
         end
  | S i' =>
    let index' := childIndex (getBit nb i') index in
    match c index' with
    | Some (Int _ _) => insert_loop i' c index' nb l depth current_version
    | None =>
      match updateHashes (upd c index' (Some (Leaf l))) index' current_version with
      | Some c' => Some (c', InsComplete None)
      | None => None
      end
    | Some (Leaf s) =>
      if bits_eqb (lkey s) (lkey l) then
        match updateHashes (upd c index' (Some (Leaf l))) index' (lver l) with
        | Some c' => Some (c', InsComplete (Some (lkey s, lver s)))
        | None => None
        end
      else splitNode c index' s l depth
    end
  end.
Definition nodeInsert (c : node) (l : leaf) (depth : nat) (current_version : N) : option (node * insRes) :=
  match getNibble (lkey l) depth with
  | None => None
  | Some nb => insert_loop 4 c 0 nb l depth current_version
  end.

(** internal_node.h:197-240 RemoveResult *)
Inductive remRes :=
| RemComplete (version : N)
| RemNotFound
| RemBatched (promoted : option leaf) (removed_version : N)
| RemDescend (next_version : N).

(** internal_node.cpp:256-279, the loop of removeLeafChild that moves the peer up. *)
Fixpoint movePeer_loop (fuel : nat) (c : node) (peer_index : nat) (peer : leaf) (new_version removed : N) (depth : nat)
  : option (node * remRes) :=
  match fuel with
  | 0 => None
  | S fuel' =>
    match parentIndex peer_index with
    | None => Some (c, RemBatched (Some peer) removed)
    | Some p =>
      match peerIndex c p with
      | Some _ =>
        match updateHashes (upd c p (Some (Leaf peer))) p new_version with
        | Some c' => Some (c', RemComplete removed)
        | None => None
        end
      | None =>
        if (p =? 0) && (depth =? 0) then
          match updateHashes (upd c peer_index (Some (Leaf peer))) peer_index new_version with
          | Some c' => Some (c', RemComplete removed)
          | None => None
          end
        else movePeer_loop fuel' (upd c p None) p peer new_version removed depth
      end
    end
  end.

(** internal_node.cpp:234-280 removeLeafChild *)
Definition removeLeafChild (c0 : node) (index : nat) (new_version removed : N) (depth : nat) : option (node * remRes) :=
  if index =? 0 then None else
  let c := upd c0 index None in
  match peerIndex c index with
  | None =>
    if numChildren c =? 1 then
      match updateHashes c index new_version with
      | Some c' => Some (c', RemBatched None removed)
      | None => None
      end
    else None
  | Some p =>
    match c p with
    | Some (Int _ _) =>
      match updateHashes c index new_version with
      | Some c' => Some (c', RemComplete removed)
      | None => None
      end
    | Some (Leaf peer) => movePeer_loop 31 (upd c p None) p peer new_version removed depth
    | None => None
    end
  end.

(** internal_node.cpp:195-232 remove *)
Fixpoint remove_loop (i : nat) (c : node) (index : nat) (nb : bits) (key : bits) (depth : nat) (new_version : N)
  : option (node * remRes) :=
  match i with
  | 0 => match c index with
         | Some (Int _ v) => Some (c, RemDescend v)
         | _ => None
         end
  | S i' =>
    let index' := childIndex (getBit nb i') index in
    match c index' with
    | Some (Int _ _) => remove_loop i' c index' nb key depth new_version
    | None => Some (c, RemNotFound)
    | Some (Leaf s) =>
      if bits_eqb (lkey s) key then removeLeafChild c index' new_version (lver s) depth
      else Some (c, RemNotFound)
    end
  end.
Definition nodeRemove (c : node) (key : bits) (depth : nat) (new_version : N) : option (node * remRes) :=
  match getNibble key depth with
  | None => None
  | Some nb => remove_loop 4 c 0 nb key depth new_version
  end.

(** internal_node.cpp:299-303 linkChild *)
Definition linkChild (c : node) (nb : bits) (h : H) (v : N) : option node :=
  updateHashes (upd c (nibbleToIndex nb) (Some (Int h v))) (nibbleToIndex nb) v.

(** internal_node.cpp:308-350 unlinkChild *)
Fixpoint unlink_loop (fuel : nat) (c : node) (index : nat) (version : N) : option (node * option leaf) :=
  match fuel with
  | 0 => None
  | S fuel' =>
    match parentIndex index with
    | None =>
      match c index with
      | None => if numChildren c =? 0 then Some (c, None) else None
      | Some (Leaf l) =>
        let c' := upd c index None in
        if numChildren c' =? 0 then Some (c', Some l) else None
      | Some (Int _ _) => None
      end
    | Some p =>
      match peerIndex c index with
      | Some pi =>
        if hasValue (c index) || isInternal c pi then
          match updateHashes c index version with
          | Some c' => Some (c', None)
          | None => None
          end
        else unlink_loop fuel' (upd (upd c p (c pi)) pi None) p version
      | None => unlink_loop fuel' (upd (upd c p (c index)) index None) p version
      end
    end
  end.
Definition unlinkChild (c0 : node) (nb : bits) (version : N) (promoted : option leaf) : option (node * option leaf) :=
  let index := nibbleToIndex nb in
  let c := upd c0 index (match promoted with Some l => Some (Leaf l) | None => None end) in
  match peerIndex c index, promoted with
  | Some _, Some _ =>
    match updateHashes c index version with
    | Some c' => Some (c', None)
    | None => None
    end
  | _, _ => unlink_loop 31 c index version
  end.

(** db_reader.h:36-41 IDBReader::get_internal: the database of internal nodes, keyed by version and path. *)
Definition db := N -> bits -> option node.

(** update_cache.h:35-83 UpdateCache.  [uc_nodes] is std::map<NibblePath, BatchedInternalNode>: an association list with at
    most one entry per path (its order is not modelled); the stale sets are lists read through membership. *)
Record ucache := mkUC {
  uc_version : N;
  uc_root0 : node;
  uc_nodes : list (bits * node);
  uc_stale_int : list (N * bits);
  uc_stale_leaf : list leafkey }.

Fixpoint plookup (p : bits) (ns : list (bits * node)) : option node :=
  match ns with
  | [] => None
  | (q, c) :: ns' => if bits_eqb p q then Some c else plookup p ns'
  end.
Definition premove (p : bits) (ns : list (bits * node)) := filter (fun e => negb (bits_eqb p (fst e))) ns.

(** update_cache.cpp:17-45 *)
Definition ucGetInternal (d : db) (u : ucache) (v : N) (p : bits) : option node :=
  match plookup p (uc_nodes u) with Some c => Some c | None => d v p end.
Definition ucGetRoot (u : ucache) : node :=
  match plookup [] (uc_nodes u) with Some c => c | None => uc_root0 u end.
Definition ucPut (u : ucache) (p : bits) (c : node) : ucache :=
  mkUC (uc_version u) (uc_root0 u) ((p, c) :: premove p (uc_nodes u)) (uc_stale_int u) (uc_stale_leaf u).
Definition ucRemove (u : ucache) (p : bits) : ucache :=
  mkUC (uc_version u) (uc_root0 u) (premove p (uc_nodes u)) (uc_stale_int u) (uc_stale_leaf u).
Definition ucPutStaleInt (u : ucache) (v : N) (p : bits) : ucache :=
  mkUC (uc_version u) (uc_root0 u) (uc_nodes u) ((v, p) :: uc_stale_int u) (uc_stale_leaf u).
Definition ucPutStaleLeaf (u : ucache) (k : option leafkey) : ucache :=
  match k with
  | None => u
  | Some k => mkUC (uc_version u) (uc_root0 u) (uc_nodes u) (uc_stale_int u) (k :: uc_stale_leaf u)
  end.

(** walker.h:29-74 Walker (the reference to the cache is the cache itself). *)
Record walker := mkW {
  w_cache : ucache;
  w_stack : list node;
  w_cur : node;
  w_path : bits;
  w_stale : N }.

Definition w_depth (w : walker) : nat := length (w_path w) / 4.
Definition w_version (w : walker) : N := uc_version (w_cache w).
Definition atRoot (w : walker) : bool := match w_path w with [] => true | _ => false end.

(** walker.h:31-34 the constructor *)
Definition newWalker (u : ucache) : option walker :=
  match nodeVersion (ucGetRoot u) with
  | Some v => Some (mkW u [] (ucGetRoot u) [] v)
  | None => None
  end.

(** base_types.h:268-277 NibblePath::append asserts num_nibbles_ < MAX_NIBBLES - 1. *)
Definition pathAppend (p nb : bits) : option bits :=
  if length p / 4 <? MAX_NIBBLES - 1 then Some (p ++ nb) else None.
(** base_types.h:291-307 popBack asserts non-empty *)
Definition pathPop (p : bits) : option (bits * bits) :=
  match p with
  | [] => None
  | _ => Some (skipn (length p - 4) p, firstn (length p - 4) p)
  end.

(** walker.cpp:21-32 appendEmptyNodes: the loop pushes n - 1 empty nodes. *)
Fixpoint append_loop (n : nat) (key : bits) (stack : list node) (path : bits) : option (list node * bits) :=
  match n with
  | 0 => Some (stack, path)
  | S n' =>
    match getNibble key (length path / 4) with
    | None => None
    | Some nb =>
      match pathAppend path nb with
      | None => None
      | Some path' => append_loop n' key (emptyNode :: stack) path'
      end
    end
  end.
Definition appendEmptyNodes (w : walker) (key : bits) (nodes_to_create : nat) : option walker :=
  match append_loop (nodes_to_create - 1) key (w_cur w :: w_stack w) (w_path w) with
  | None => None
  | Some (stack, path) =>
    match getNibble key (length path / 4) with
    | None => None
    | Some nb =>
      match pathAppend path nb with
      | None => None
      | Some path' => Some (mkW (w_cache w) stack emptyNode path' 0)
      end
    end
  end.

(** walker.cpp:34-42 descend *)
Definition descend (d : db) (w : walker) (key : bits) (next_version : N) : option walker :=
  match getNibble key (w_depth w) with
  | None => None
  | Some nb =>
    match pathAppend (w_path w) nb with
    | None => None
    | Some path' =>
      match ucGetInternal d (w_cache w) next_version path' with
      | None => None
      | Some c =>
        match nodeVersion c with
        | None => None
        | Some v => Some (mkW (w_cache w) (w_cur w :: w_stack w) c path' v)
        end
      end
    end
  end.

(** walker.cpp:96-102 markCurrentNodeStale; walker.cpp:104 cacheCurrentNode *)
Definition markCurrentNodeStale (w : walker) : ucache :=
  if negb (w_stale w =? 0)%N && negb (w_stale w =? w_version w)%N
  then ucPutStaleInt (w_cache w) (w_stale w) (w_path w) else w_cache w.

(** walker.cpp:84-94 pop, with an updated cache *)
Definition pop (w : walker) (u : ucache) : option (walker * bits * H) :=
  match pathPop (w_path w), w_stack w with
  | Some (nb, path'), c :: stack' =>
    match nodeVersion c with
    | Some v => Some (mkW u stack' c path' v, nb, nodeHash (w_cur w))
    | None => None
    end
  | _, _ => None
  end.

(** walker.cpp:56-67 ascend *)
Definition ascend (w : walker) : option walker :=
  let u := ucPut (markCurrentNodeStale w) (w_path w) (w_cur w) in
  match pop w u with
  | None => None
  | Some (w', nb, h) =>
    match linkChild (w_cur w') nb h (w_version w) with
    | None => None
    | Some c => Some (mkW (w_cache w') (w_stack w') c (w_path w') (w_stale w'))
    end
  end.

(** walker.cpp:46-54 ascendToRoot; the loop runs once per element of the stack. *)
Fixpoint ascend_loop (fuel : nat) (w : walker) : option walker :=
  if atRoot w then Some w else
  match fuel with
  | 0 => None
  | S fuel' => match ascend w with Some w' => ascend_loop fuel' w' | None => None end
  end.
Definition ascendToRoot (w0 : walker) (key : option leafkey) : option ucache :=
  let w := mkW (ucPutStaleLeaf (w_cache w0) key) (w_stack w0) (w_cur w0) (w_path w0) (w_stale w0) in
  match ascend_loop (length (w_stack w)) w with
  | None => None
  | Some w' => Some (ucPut (markCurrentNodeStale w') (w_path w') (w_cur w'))
  end.

(** walker.cpp:69-76 removeCurrentNode (away from the root; at the root see [removeRoot]). *)
Definition removeCurrentNode (w : walker) : option (walker * bits) :=
  match pop w (ucRemove (markCurrentNodeStale w) (w_path w)) with
  | Some (w', nb, _) => Some (w', nb)
  | None => None
  end.
(** walker.cpp:69-82 removeCurrentNode at the root followed by insertEmptyRootAtCurrentVersion *)
Definition emptyRoot (v : N) : node := upd emptyNode 0 (Some (Int ph v)).
Definition removeRoot (w : walker) : ucache :=
  let u := ucRemove (markCurrentNodeStale w) (w_path w) in
  ucPut u [] (emptyRoot (uc_version u)).

(** tree.cpp:39-45 handleCollision.  The caller's node was modified by the insert that reported the collision. *)
Definition handleCollision (w : walker) (stored l : leaf) : option ucache :=
  match prefix_bits_from (lkey l) (lkey stored) (w_depth w) with
  | None => None
  | Some common =>
    match appendEmptyNodes w (lkey l) (common / 4) with
    | None => None
    | Some w1 =>
      match nodeInsert (w_cur w1) stored (w_depth w1) (w_version w1) with
      | None => None
      | Some (c1, _) =>
        match nodeInsert c1 l (w_depth w1) (w_version w1) with
        | Some (c2, InsComplete stale) =>
          ascendToRoot (mkW (w_cache w1) (w_stack w1) c2 (w_path w1) (w_stale w1)) stale
        | _ => None
        end
      end
    end
  end.

(** tree.cpp:50-68 insert.  [fuel] bounds the loop; the loop itself asserts depth < MAX_NIBBLES. *)
Fixpoint treeInsert (fuel : nat) (d : db) (w : walker) (l : leaf) : option ucache :=
  match fuel with
  | 0 => None
  | S fuel' =>
    if w_depth w <? MAX_NIBBLES then
      match nodeInsert (w_cur w) l (w_depth w) (w_version w) with
      | None => None
      | Some (c, r) =>
        let w1 := mkW (w_cache w) (w_stack w) c (w_path w) (w_stale w) in
        match r with
        | InsComplete stale => ascendToRoot w1 stale
        | InsCreateNew stored => handleCollision w1 stored l
        | InsExisting v =>
          match descend d w1 (lkey l) v with
          | Some w2 => treeInsert fuel' d w2 l
          | None => None
          end
        end
      end
    else None
  end.

(** tree.cpp:70-93 removeBatchedInternalNode *)
Fixpoint rbin_loop (fuel : nat) (w : walker) (promoted : option leaf) : option (walker * option leaf) :=
  if negb (atRoot w) && safeToRemove (w_cur w) then
    match fuel with
    | 0 => None
    | S fuel' =>
      match removeCurrentNode w with
      | None => None
      | Some (w1, nb) =>
        match unlinkChild (w_cur w1) nb (w_version w1) promoted with
        | None => None
        | Some (c, promoted') =>
          rbin_loop fuel' (mkW (w_cache w1) (w_stack w1) c (w_path w1) (w_stale w1)) promoted'
        end
      end
    end
  else Some (w, promoted).
Definition removeBatchedInternalNode (w0 : walker) (promoted : option leaf) : option ucache :=
  match rbin_loop (length (w_stack w0)) w0 promoted with
  | None => None
  | Some (w, Some l) =>
    match nodeInsert (w_cur w) l (w_depth w) (w_version w) with
    | Some (c, InsComplete _) => ascendToRoot (mkW (w_cache w) (w_stack w) c (w_path w) (w_stale w)) None
    | _ => None
    end
  | Some (w, None) =>
    if atRoot w && safeToRemove (w_cur w) then Some (removeRoot w) else ascendToRoot w None
  end.

(** tree.cpp:95-121 remove *)
Fixpoint treeRemove (fuel : nat) (d : db) (w : walker) (key : bits) : option ucache :=
  match fuel with
  | 0 => None
  | S fuel' =>
    if w_depth w <? MAX_NIBBLES then
      match nodeRemove (w_cur w) key (w_depth w) (w_version w) with
      | None => None
      | Some (c, r) =>
        let w1 := mkW (w_cache w) (w_stack w) c (w_path w) (w_stale w) in
        match r with
        | RemComplete v => ascendToRoot w1 (Some (key, v))
        | RemNotFound => Some (w_cache w1)
        | RemBatched promoted v =>
          removeBatchedInternalNode
            (mkW (ucPutStaleLeaf (w_cache w1) (Some (key, v))) (w_stack w1) (w_cur w1) (w_path w1) (w_stale w1)) promoted
        | RemDescend v =>
          match descend d w1 key v with
          | Some w2 => treeRemove fuel' d w2 key
          | None => None
          end
        end
      end
    else None
  end.

(** one insert or remove with a fresh walker, tree.cpp:160-184 *)
Definition insertOne (d : db) (u : ucache) (l : leaf) : option ucache :=
  match newWalker u with Some w => treeInsert (S MAX_NIBBLES) d w l | None => None end.
Definition removeOne (d : db) (u : ucache) (k : bits) : option ucache :=
  match newWalker u with Some w => treeRemove (S MAX_NIBBLES) d w k | None => None end.

Fixpoint foldOpt {A S : Type} (f : S -> A -> option S) (s : S) (l : list A) : option S :=
  match l with
  | [] => Some s
  | a :: l' => match f s a with Some s' => foldOpt f s' l' | None => None end
  end.

(** tree.cpp:148-191 update_impl: deletes, then updates.  [puts] holds (key hash, value hash) pairs. *)
Definition updateImpl (d : db) (u : ucache) (puts : list (bits * H)) (dels : list bits) : option ucache :=
  match foldOpt (removeOne d) u dels with
  | None => None
  | Some u1 => foldOpt (fun u p => insertOne d u (mkLeaf (snd p) (fst p) (uc_version u))) u1 puts
  end.

(** Storage and its owner: the batch returned by Tree::update is written to the database (update_batch.h); get_latest_root
    returns the root with the largest version, or an empty node (db_reader.h:33). *)
Record store := mkStore { st_db : db; st_root : node }.
Definition store0 : store := mkStore (fun _ _ => None) emptyNode.

(** tree.cpp:130-146 Tree::update, UpdateCache's constructor (update_cache.h:37-38), and the write of the batch. *)
Definition newCache (st : store) : option ucache :=
  match nodeVersion (st_root st) with
  | Some v => Some (mkUC (v + 1) (st_root st) [] [] [])
  | None => None
  end.
Definition writeBatch (st : store) (u : ucache) : store :=
  mkStore (fun v p => if (v =? uc_version u)%N
                      then match plookup p (uc_nodes u) with Some c => Some c | None => st_db st v p end
                      else st_db st v p)
          (ucGetRoot u).

Definition treeUpdate (st : store) (puts : list (bits * H)) (dels : list bits) : option (store * ucache) :=
  match newCache st with
  | None => None
  | Some u0 =>
    match updateImpl (st_db st) u0 puts dels with
    | None => None
    | Some u => Some (writeBatch st u, u)
    end
  end.

(** tree.h:42-44 get_root_hash, get_version, empty *)
Definition rootHash (st : store) : H := nodeHash (st_root st).
Definition rootVersion (st : store) : option N := nodeVersion (st_root st).
Definition treeEmpty (st : store) : bool := numChildren (st_root st) =? 0.

End Smt.

Arguments Leaf {H}. Arguments Int {H}. Arguments mkLeaf {H}. Arguments lhash {H}. Arguments lkey {H}. Arguments lver {H}.
Arguments InsComplete {H}. Arguments InsCreateNew {H}. Arguments InsExisting {H}.
Arguments RemComplete {H}. Arguments RemNotFound {H}. Arguments RemBatched {H}. Arguments RemDescend {H}.
Arguments upd {H}. Arguments emptyNode {H}. Arguments isEmpty {H}. Arguments isInternal {H}. Arguments peerIndex {H}.
Arguments nodeVersion {H}. Arguments countIf {H}. Arguments hasValue {H}. Arguments isLeaf {H}. Arguments numChildren {H}.
Arguments numLeafChildren {H}. Arguments numLevel0Children {H}. Arguments safeToRemove {H}.
Arguments insertInternal_loop {H}. Arguments insertInternalChildren {H}.
Arguments mkUC {H}. Arguments uc_version {H}. Arguments uc_root0 {H}. Arguments uc_nodes {H}. Arguments uc_stale_int {H}.
Arguments uc_stale_leaf {H}. Arguments plookup {H}. Arguments premove {H}. Arguments ucGetInternal {H}. Arguments ucGetRoot {H}.
Arguments ucPut {H}. Arguments ucRemove {H}. Arguments ucPutStaleInt {H}. Arguments ucPutStaleLeaf {H}.
Arguments mkW {H}. Arguments w_cache {H}. Arguments w_stack {H}. Arguments w_cur {H}. Arguments w_path {H}. Arguments w_stale {H}.
Arguments w_depth {H}. Arguments w_version {H}. Arguments atRoot {H}. Arguments newWalker {H}. Arguments append_loop {H}.
Arguments appendEmptyNodes {H}. Arguments descend {H}. Arguments markCurrentNodeStale {H}.
Arguments mkStore {H}. Arguments st_db {H}. Arguments st_root {H}. Arguments store0 {H}. Arguments newCache {H}.
Arguments writeBatch {H}. Arguments rootVersion {H}. Arguments treeEmpty {H}. Arguments foldOpt {A S}.
