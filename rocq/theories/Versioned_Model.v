(** C13. Versioned key-value category: kvbc/src/categorization/versioned_kv_category.cpp, with the parts of
    kvbc/src/categorization/kv_blockchain.cpp that drive it, and kvbc/include/categorization/base_types.h. *)
From Coq Require Import List Arith NArith Lia Bool.
From Verif Require Import Lib_Bytes Keys_Model Lib_CF.
Import ListNotations.
Local Open Scope N_scope.

(** * Stored data *)
(** CMF encoding of VersionedRawKey {string value; uint64 version} (kvbc/cmf/categorized_kvbc_msgs.cmf): length, key, version, all big endian. *)
Definition vkey (k : bytes) (b : N) : bytes := be 4 (N.of_nat (length k)) ++ k ++ be 8 b.
(** deserialize of a VersionedRawKey. *)
Definition unVkey (x : bytes) : bytes * N :=
  let n := N.to_nat (unbe (slice x 0 4)) in (slice x 4 n, unbe (slice x (4 + n) 8)).
(** base_types.h:92-116 TaggedVersion: the high bit of the stored number is the deleted flag. *)
Definition tagBit : N := 2 ^ 63.
Definition tagEnc (deleted : bool) (v : N) : N := if deleted then N.lor v tagBit else v.
Definition tagDec (x : N) : bool * N := (negb (N.land tagBit x =? 0), N.land (tagBit - 1) x).

(** The three column families of a category (versioned_kv_category.cpp:46-56): values, latest versions, active keys of pruned blocks. *)
Record cat := { vals : list (bytes * (bool * bytes)); lat : list (bytes * N); act : list (bytes * N) }.
Definition emptyCat : cat := {| vals := []; lat := []; act := [] |}.
(** Operations collected in a write batch; the batch is applied in order and atomically. details.h:107-150 (LocalWriteBatch keeps the order). *)
Inductive wop := PutV (k : bytes) (x : bool * bytes) | DelV (k : bytes) | PutL (k : bytes) (x : N) | DelL (k : bytes) | PutA (k : bytes) (x : N) | DelA (k : bytes).
Definition apply1 (s : cat) (o : wop) : cat :=
  match o with
  | PutV k x => {| vals := cfPut (vals s) k x; lat := lat s; act := act s |}
  | DelV k => {| vals := cfDel (vals s) k; lat := lat s; act := act s |}
  | PutL k x => {| vals := vals s; lat := cfPut (lat s) k x; act := act s |}
  | DelL k => {| vals := vals s; lat := cfDel (lat s) k; act := act s |}
  | PutA k x => {| vals := vals s; lat := lat s; act := cfPut (act s) k x |}
  | DelA k => {| vals := vals s; lat := lat s; act := cfDel (act s) k |}
  end.
Definition applyAll (s : cat) (os : list wop) : cat := fold_left apply1 os s.

(** VersionedInput: kv is a std::map (sorted, no repeated key), deletes a vector (sorted and without repetition, updates.h:121-140). *)
Record vinput := { kv : list (bytes * (bytes * bool)) (* key, data, stale_on_update *); dels : list bytes; wantHash : bool }.
(** VersionedOutput: key -> (deleted, stale_on_update), root hash. A std::map: emplace keeps the first entry of a key. *)
Record voutput := { okeys : list (bytes * (bool * bool)); rootHash : option bytes }.

Section Cat.
(** The hash function (SHA3-256 in the code), any function. *)
Variable H : bytes -> bytes.

(** versioned_kv_category.cpp:68-82 addDeletes, :100-122 addUpdates, :58-66 add, :90-97 updateRootHash, :134-160. *)
Definition delOps (b : N) (k : bytes) : list wop := [PutL k (tagEnc true b); PutV (vkey k b) (true, [])].
Definition updOps (b : N) (u : bytes * (bytes * bool)) : list wop := [PutL (fst u) (tagEnc false b); PutV (vkey (fst u) b) (false, fst (snd u))].
Definition addOps (b : N) (i : vinput) : list wop := flat_map (delOps b) (dels i) ++ flat_map (updOps b) (kv i).
Definition addOut (i : vinput) : voutput :=
  let o1 := fold_left (fun m k => emplace m k (true, false)) (dels i) [] in
  let o2 := fold_left (fun m u => emplace m (fst u) (false, snd (snd u))) (kv i) o1 in
  {| okeys := o2; rootHash := if wantHash i then Some (H (flat_map (fun u => H (fst u) ++ H (fst (snd u))) (kv i))) else None |}.

(** versioned_kv_category.cpp:361-367 getLatestVersion. *)
Definition latestVersion (s : cat) (k : bytes) : option (bool * N) := match cfGet (lat s) k with Some x => Some (tagDec x) | None => None end.
(** :296-306 get *)
Definition vget (s : cat) (k : bytes) (b : N) : option (N * bytes) :=
  match cfGet (vals s) (vkey k b) with Some (false, x) => Some (b, x) | _ => None end.
(** :308-314 getLatest *)
Definition getLatest (s : cat) (k : bytes) : option (N * bytes) :=
  match latestVersion s k with Some (false, v) => vget s k v | _ => None end.
(** :316-348 multiGet: every (key, version) is looked up on its own; sizes are asserted equal (None). *)
Definition multiGet (s : cat) (ks : list bytes) (vs : list N) : option (list (option (N * bytes))) :=
  if Nat.eqb (length ks) (length vs) then Some (map (fun p => vget s (fst p) (snd p)) (combine ks vs)) else None.
(** :350-388 multiGetLatest: look up the versions, fetch the values of those that exist, and merge. *)
Definition foundP (v : option (bool * N)) : bool := match v with Some (false, _) => true | _ => false end.
Fixpoint mergeFound (vs : list (option (bool * N))) (rs : list (option (N * bytes))) : list (option (N * bytes)) :=
  match vs with
  | [] => []
  | v :: vs => if foundP v then match rs with r :: rs => r :: mergeFound vs rs | [] => None :: mergeFound vs [] end else None :: mergeFound vs rs
  end.
Definition multiGetLatest (s : cat) (ks : list bytes) : option (list (option (N * bytes))) :=
  let versions := map (latestVersion s) ks in
  let found := filter (fun p => foundP (snd p)) (combine ks versions) in
  let fks := map fst found in
  let fvs := map (fun p => match snd p with Some (_, v) => v | None => 0 end) found in
  if Nat.eqb (length fks) (length ks) then multiGet s fks fvs
  else match multiGet s fks fvs with Some rs => Some (mergeFound versions rs) | None => None end.

(** :162-190 activeKeysFromPrunedBlocks and the first loop of deleteGenesisBlock (:225-231). *)
Definition activeOps (s : cat) (o : voutput) : list wop :=
  flat_map (fun e => match cfGet (act s) (fst e) with Some a => [DelV (vkey (fst e) a); DelA (fst e)] | None => [] end) (okeys o).
(** :233-261 the second loop. None: ConcordAssert(latest.has_value()) fails. *)
Definition genesisKeyOps (s : cat) (b : N) (e : bytes * (bool * bool)) : option (list wop) :=
  let k := fst e in let deleted := fst (snd e) in let stale := snd (snd e) in
  match latestVersion s k with
  | None => None
  | Some (_, lv) =>
    Some (if stale then DelV (vkey k b) :: (if lv =? b then [DelL k] else [])
          else if deleted && (lv =? b) then [DelL k; DelV (vkey k b)]
          else if b <? lv then [DelV (vkey k b)]
          else [PutA k b])
  end.
Fixpoint sequence {X} (l : list (option (list X))) : option (list X) :=
  match l with [] => Some [] | None :: _ => None | Some x :: l => match sequence l with Some y => Some (x ++ y) | None => None end end.
Definition genesisOps (s : cat) (b : N) (o : voutput) : option (list wop) :=
  match sequence (map (genesisKeyOps s b) (okeys o)) with Some l => Some (activeOps s o ++ l) | None => None end.

(** :264-294 deleteLastReachableBlock. None: ConcordAssert(iter) fails. *)
Definition lastKeyOps (s : cat) (b : N) (e : bytes * (bool * bool)) : option (list wop) :=
  let k := fst e in
  match seekAtMost (vals s) (vkey k b) with
  | None => None
  | Some (cur, _) =>
    Some ((match seekBefore (vals s) cur with
           | Some (pk, px) => if beqb (fst (unVkey pk)) k then [PutL k (tagEnc (fst px) (snd (unVkey pk)))] else [DelL k]
           | None => [DelL k]
           end) ++ [DelV (vkey k b)])
  end.
Definition lastOps (s : cat) (b : N) (o : voutput) : option (list wop) := sequence (map (lastKeyOps s b) (okeys o)).

(** :196-222 getBlockStaleKeys. None: an assertion fails. *)
Definition staleKey (s : cat) (b : N) (e : bytes * (bool * bool)) : option (list bytes) :=
  match latestVersion s (fst e) with
  | None => None
  | Some (_, lv) => if lv <? b then None else Some (if snd (snd e) || fst (snd e) || (b <? lv) then [fst e] else [])
  end.
Definition getBlockStaleKeys (s : cat) (b : N) (o : voutput) : option (list bytes) := sequence (map (staleKey s b) (okeys o)).

(** :388-430 getProof; base_types.h:46-88 KeyValueProof. The outer option: None is an assertion failure; the inner one is the returned optional. *)
Record kvProof := { pfBlock : N; pfKey : bytes; pfValue : bytes; pfIndex : nat; pfHashes : list bytes }.
Fixpoint proofLoop (s : cat) (b : N) (key : bytes) (ks : list (bytes * (bool * bool))) (i idx : nat) (hs : list bytes) : option (nat * list bytes) :=
  match ks with
  | [] => Some (idx, hs)
  | e :: ks =>
    if beqb (fst e) key then proofLoop s b key ks i i hs
    else match vget s (fst e) b with
         | None => None
         | Some (_, v) => proofLoop s b key ks (i + 2) idx (hs ++ [H (fst e); H v])
         end
  end.
Definition getProof (s : cat) (b : N) (key : bytes) (o : voutput) : option (option kvProof) :=
  if existsb (fun e => beqb (fst e) key) (okeys o) then
    match vget s key b with
    | None => Some None
    | Some (pb, pv) =>
      match proofLoop s b key (okeys o) 0 0 [] with
      | None => None
      | Some (idx, hs) => Some (Some {| pfBlock := pb; pfKey := key; pfValue := pv; pfIndex := idx; pfHashes := hs |})
      end
    end
  else Some None.
(** base_types.h:61-87 calculateRootHash: the bytes fed to the hasher. *)
Fixpoint rootLoop (kh : bytes) (idx i : nat) (hs : list bytes) : bytes :=
  match hs with [] => [] | h :: hs => (if Nat.eqb i idx then kh else []) ++ h ++ rootLoop kh idx (S i) hs end.
Definition calculateRootHash (p : kvProof) : bytes :=
  let kh := H (pfKey p) ++ H (pfValue p) in
  match pfHashes p with
  | [] => H kh
  | _ => H (rootLoop kh (pfIndex p) 0 (pfHashes p) ++ (if Nat.eqb (pfIndex p) (length (pfHashes p)) then kh else []))
  end.

(** * The chain of blocks that drives the category *)
(** kv_blockchain.cpp: a block stores the output of the category; genesis and last ids are cached counters. *)
Record chain := { st : cat; genesis : N; lastId : N; outs : N -> option voutput }.
(** The state of a new database (blockchain.h: genesis and last are 0 when there is no block; the first block gets id 1). To keep one
    arithmetic, genesis is 1 from the start here: it is 1 as soon as there is a block. *)
Definition init : chain := {| st := emptyCat; genesis := 1; lastId := 0; outs := fun _ => None |}.
Definition upd (f : N -> option voutput) (b : N) (x : option voutput) : N -> option voutput := fun b' => if b' =? b then x else f b'.
Inductive op := Add (i : vinput) | DelGenesis | DelLast.
(** None: the operation is refused (exception) or an assertion fails.
    kv_blockchain.cpp:189-225 addBlock, :518-590 deleteGenesisBlock, :596-640 deleteLastReachableBlock. *)
Definition step (c : chain) (o : op) : option chain :=
  match o with
  | Add i =>
    let b := lastId c + 1 in
    Some {| st := applyAll (st c) (addOps b i); genesis := genesis c; lastId := b; outs := upd (outs c) b (Some (addOut i)) |}
  | DelGenesis =>
    if genesis c <? lastId c then
      match outs c (genesis c) with
      | None => None
      | Some out =>
        match genesisOps (st c) (genesis c) out with
        | None => None
        | Some ops => Some {| st := applyAll (st c) ops; genesis := genesis c + 1; lastId := lastId c; outs := upd (outs c) (genesis c) None |}
        end
      end
    else None
  | DelLast =>
    if genesis c <? lastId c then
      match outs c (lastId c) with
      | None => None
      | Some out =>
        match lastOps (st c) (lastId c) out with
        | None => None
        | Some ops => Some {| st := applyAll (st c) ops; genesis := genesis c; lastId := lastId c - 1; outs := upd (outs c) (lastId c) None |}
        end
      end
    else None
  end.
Fixpoint run (c : chain) (os : list op) : option chain := match os with [] => Some c | o :: os => match step c o with Some c => run c os | None => None end end.
End Cat.

(** * Specification *)
(** What block [b] did to key [k]: a value (with its stale-on-update mark) or a deletion. *)
Inductive write := Wrote (data : bytes) (stale : bool) | Deleted.
Definition writeOf (i : vinput) (k : bytes) : option write :=
  match cfGet (kv i) k with
  | Some (d, s) => Some (Wrote d s)
  | None => if existsb (beqb k) (dels i) then Some Deleted else None
  end.
(** The history kept by an observer: the inputs of all blocks that were added and not reverted (block 1 first), each with the genesis id
    at the time when it was added; and the current genesis id. *)
Record hist := { blocks : list (vinput * N); hgen : N }.
Definition hinit : hist := {| blocks := []; hgen := 1 |}.
Definition hlen (h : hist) : N := N.of_nat (length (blocks h)).
Definition hstep (h : hist) (o : op) : hist :=
  match o with
  | Add i => {| blocks := blocks h ++ [(i, hgen h)]; hgen := hgen h |}
  | DelGenesis => {| blocks := blocks h; hgen := hgen h + 1 |}
  | DelLast => {| blocks := removelast (blocks h); hgen := hgen h |}
  end.
Definition hrun (h : hist) (os : list op) : hist := fold_left hstep os h.
(** What block [b] (numbered from 1) wrote to [k], and the genesis id when it was added. *)
Definition at_ (h : hist) (k : bytes) (b : N) : option write :=
  if b =? 0 then None else match nth_error (blocks h) (N.to_nat (b - 1)) with Some (i, _) => writeOf i k | None => None end.
Definition addedAt (h : hist) (b : N) : N := match nth_error (blocks h) (N.to_nat (b - 1)) with Some (_, g) => g | None => 0 end.
(** [p] is the last block up to [n] that wrote [k]. *)
Definition lastWriter (h : hist) (k : bytes) (n p : N) : Prop := p <= n /\ at_ h k p <> None /\ (forall q, p < q <= n -> at_ h k q = None).

(** Inputs the property speaks about: a block does not both update and delete a key; keys shorter than 2^32 bytes; kv is a map; deletes has no repetition. *)
Definition goodInput (i : vinput) : Prop :=
  NoDup (map fst (kv i)) /\ NoDup (dels i) /\ (forall k, In k (dels i) -> ~ In k (map fst (kv i))) /\
  (forall k, In k (dels i) \/ In k (map fst (kv i)) -> N.of_nat (length k) < 256 ^ 4).
(** A last block may be reverted if no block pruned since it was added held the previous value of one of its keys. *)
Definition safeRevert (h : hist) : Prop :=
  forall k p d, at_ h k (hlen h) <> None -> lastWriter h k (hlen h - 1) p -> at_ h k p = Some (Wrote d false) -> p < hgen h -> p < addedAt h (hlen h).
(** An operation the observer may ask for. *)
Definition allowed (h : hist) (o : op) : Prop :=
  match o with
  | Add i => goodInput i /\ hlen h + 1 < tagBit
  | DelGenesis => hgen h < hlen h
  | DelLast => hgen h < hlen h /\ safeRevert h
  end.
Fixpoint allAllowed (h : hist) (os : list op) : Prop := match os with [] => True | o :: os => allowed h o /\ allAllowed (hstep h o) os end.

(** What a read of the latest value must return: the last write; a value marked stale-on-update disappears when its block is pruned. *)
Definition latestSpec (h : hist) (k : bytes) (r : option (N * bytes)) : Prop :=
  match r with
  | Some (p, d) => lastWriter h k (hlen h) p /\ exists s, at_ h k p = Some (Wrote d s) /\ (s = true -> hgen h <= p)
  | None => (forall p, ~ lastWriter h k (hlen h) p) \/
            exists p, lastWriter h k (hlen h) p /\ (at_ h k p = Some Deleted \/ exists d, at_ h k p = Some (Wrote d true) /\ p < hgen h)
  end.
