(** C15, C16. The v4 block chain: kvbc/src/v4blockchain/v4_blockchain.cpp, detail/blockchain.cpp, detail/st_chain.cpp,
    detail/latest_keys.cpp, detail/blocks.cpp.
    Storage is a record of column families; one RocksDB write batch is applied atomically; memory is lost by a crash.
    Block ids and BFT sequence numbers are natural numbers (the code uses uint64_t; wrap-around at 2^64 is not modelled). *)
From Coq Require Import List Arith NArith Lia Bool.
From Verif Require Import Lib_Bytes Keys_Model Lib_CF.
Import ListNotations.
Local Open Scope nat_scope.

(** * Finite maps from block ids (a column family keyed by big endian ids; C17 shows that byte order is the order of ids). *)
Section NMap.
Context {V : Type}.
Fixpoint mget (m : list (nat * V)) (k : nat) : option V :=
  match m with [] => None | (k', v) :: m => if k =? k' then Some v else mget m k end.
Definition mdelIf (f : nat -> bool) (m : list (nat * V)) : list (nat * V) := filter (fun e => negb (f (fst e))) m.
Definition mdel (m : list (nat * V)) (k : nat) := mdelIf (fun i => i =? k) m.
Definition mput (m : list (nat * V)) (k : nat) (v : V) := (k, v) :: mdel m k.
(** seekAtMost(MAX_BLOCK_ID): the greatest key (0: no entry; id 0 is never stored). *)
Definition mmax (m : list (nat * V)) : nat := fold_right (fun e a => Nat.max (fst e) a) 0 m.
(** seekAtLeast(1): the least key. *)
Fixpoint mmin (m : list (nat * V)) : option nat :=
  match m with [] => None | e :: m => match mmin m with None => Some (fst e) | Some a => Some (Nat.min (fst e) a) end end.
End NMap.

(** * Updates: a std::map from category to one of three inputs (updates.h, categorized_kvbc_msgs.cmf) *)
Inductive kind := Merkle | Versioned | Immutable.
(** [c_puts]: key -> (data, stale_on_update); the flag is false for Merkle and true for Immutable. [c_dels] is empty for Immutable. *)
Record cin := { c_kind : kind; c_puts : list (bytes * (bytes * bool)); c_dels : list bytes }.
Definition updates := list (bytes * cin).
(** db_categories.h:30, key_types, block_metadata.hpp:22 *)
Definition cInternal : bytes := [99; 105]%N.
Definition kGenesis : bytes := [103]%N.
Definition kMeta : bytes := [33]%N.
(** v4_blockchain.cpp:307-319 getBlockSequenceNumber. The parsing of the metadata value is the parameter [seqOf]. *)
Definition seqNum (seqOf : bytes -> nat) (u : updates) : nat :=
  match cfGet u cInternal with
  | None => 0
  | Some ci => match cfGet (c_puts ci) kMeta with None => 0 | Some (v, _) => seqOf v end
  end.
(** v4_blockchain.cpp:321-329 addGenesisBlockKey *)
Definition addGenesisKey (g : nat) (u : updates) : updates :=
  let ci := match cfGet u cInternal with Some ci => ci | None => {| c_kind := Versioned; c_puts := []; c_dels := [] |} end in
  cfPut u cInternal {| c_kind := c_kind ci; c_puts := cfPut (c_puts ci) kGenesis (be 8 (N.of_nat g), true); c_dels := c_dels ci |}.
(** v4_blockchain.cpp:446-462: the genesis id recorded in a block *)
Definition recordedGenesis (u : updates) : option nat :=
  match cfGet u cInternal with
  | None => None
  | Some ci => match cfGet (c_puts ci) kGenesis with None => None | Some (v, _) => Some (N.to_nat (unbe v)) end
  end.

(** blocks.h: |VERSION|DIGEST|KEY-VALUES| *)
Record block := { b_parent : bytes; b_upd : updates }.
Definition kind_eq_dec (a b : kind) : {a = b} + {a <> b}.
Proof. decide equality. Defined.
Definition bytes_eq_dec : forall a b : bytes, {a = b} + {a <> b} := list_eq_dec N.eq_dec.
Definition cin_eq_dec (a b : cin) : {a = b} + {a <> b}.
Proof. decide equality; [apply list_eq_dec, bytes_eq_dec|apply list_eq_dec; intros [x [y p]] [z [t q]]; decide equality; [decide equality; [apply Bool.bool_dec|apply bytes_eq_dec]|apply bytes_eq_dec]|apply kind_eq_dec]. Defined.
Definition block_eq_dec (a b : block) : {a = b} + {a <> b}.
Proof. decide equality; [apply list_eq_dec; intros [x y] [z t]; decide equality; [apply cin_eq_dec|apply bytes_eq_dec]|apply bytes_eq_dec]. Defined.

(** * Storage *)
(** One entry of the latest-keys column families: value, STALE_ON_UPDATE flag, version (latest_keys.cpp:84-85, 116-117, 146-147).
    Keys are (category, key): the stored key is a one byte category prefix, distinct per category (categories.cpp:90-107), before the key. *)
Definition lkval : Type := bytes * bool * nat.
Definition lkmap : Type := bytes -> bytes -> option lkval.
Definition lkset (m : lkmap) (c k : bytes) (v : option lkval) : lkmap := fun c' k' => if beqb c' c && beqb k' k then v else m c' k'.
(** A write batch is a list of these. *)
Inductive wop :=
| WLat (c k : bytes) (v : option lkval)      (* LATEST_KEYS_CF put / del *)
| WImm (c k : bytes) (v : option lkval)      (* IMMUTABLE_KEYS_CF put / del *)
| WBlock (id : nat) (b : block)              (* BLOCKS_CF put *)
| WBlockDel (id : nat)
| WBlockRange (until : nat)                  (* BLOCKS_CF delRange [1, until) *)
| WStDel (id : nat)                          (* ST_CHAIN_CF del *)
| WStPut (id : nat) (b : block)
| WGen (g : nat).                            (* MISC_CF genesis_block_key *)
(** [d_snap]: MISC_CF v4_snapshot_sequence: what the recorded RocksDB snapshot reads from the two latest-keys families, and the stable sequence number.
    [d_rec]: the recovery DB, block id -> serialized write batch. *)
Record disk := { d_blocks : list (nat * block); d_st : list (nat * block); d_gen : option nat; d_lat : lkmap; d_imm : lkmap;
                 d_snap : option (lkmap * lkmap * nat); d_rec : list (nat * list wop) }.
Definition setBlocks d x := {| d_blocks := x; d_st := d_st d; d_gen := d_gen d; d_lat := d_lat d; d_imm := d_imm d; d_snap := d_snap d; d_rec := d_rec d |}.
Definition setSt d x := {| d_blocks := d_blocks d; d_st := x; d_gen := d_gen d; d_lat := d_lat d; d_imm := d_imm d; d_snap := d_snap d; d_rec := d_rec d |}.
Definition setGen d x := {| d_blocks := d_blocks d; d_st := d_st d; d_gen := x; d_lat := d_lat d; d_imm := d_imm d; d_snap := d_snap d; d_rec := d_rec d |}.
Definition setLat d x := {| d_blocks := d_blocks d; d_st := d_st d; d_gen := d_gen d; d_lat := x; d_imm := d_imm d; d_snap := d_snap d; d_rec := d_rec d |}.
Definition setImm d x := {| d_blocks := d_blocks d; d_st := d_st d; d_gen := d_gen d; d_lat := d_lat d; d_imm := x; d_snap := d_snap d; d_rec := d_rec d |}.
Definition setSnap d x := {| d_blocks := d_blocks d; d_st := d_st d; d_gen := d_gen d; d_lat := d_lat d; d_imm := d_imm d; d_snap := x; d_rec := d_rec d |}.
Definition setRec d x := {| d_blocks := d_blocks d; d_st := d_st d; d_gen := d_gen d; d_lat := d_lat d; d_imm := d_imm d; d_snap := d_snap d; d_rec := x |}.
Definition apply1 (d : disk) (o : wop) : disk :=
  match o with
  | WLat c k v => setLat d (lkset (d_lat d) c k v)
  | WImm c k v => setImm d (lkset (d_imm d) c k v)
  | WBlock id b => setBlocks d (mput (d_blocks d) id b)
  | WBlockDel id => setBlocks d (mdel (d_blocks d) id)
  | WBlockRange n => setBlocks d (mdelIf (fun i => (1 <=? i) && (i <? n)) (d_blocks d))
  | WStDel id => setSt d (mdel (d_st d) id)
  | WStPut id b => setSt d (mput (d_st d) id b)
  | WGen g => setGen d (Some g)
  end.
Definition applyB (d : disk) (os : list wop) : disk := fold_left apply1 os d.
Definition emptyDisk : disk := {| d_blocks := []; d_st := []; d_gen := None; d_lat := fun _ _ => None; d_imm := fun _ _ => None; d_snap := None; d_rec := [] |}.

(** * Memory: Blockchain::last_reachable_block_id_, genesis_block_id_, future_digest_; StChain::last_block_id_; last_block_sn_ *)
Record mem := { m_last : nat; m_gen : nat; m_future : option bytes; m_stlast : nat; m_sn : option nat }.
Definition state : Type := disk * mem.

Section Chain.
(** computeBlockDigest(id, buffer) (BCStateTran.cpp): over the id, the parent digest and the updates. *)
Variable H : nat -> block -> bytes.
Variable seqOf : bytes -> nat.
Definition zeroD : bytes := repeat 0%N 32.
Notation seqNum := (seqNum seqOf).

(** blockchain.cpp:17-45, st_chain.cpp:60-69: opening the storage; None is a failed assertion (genesis > 0, genesis <= last). *)
Definition loadGenesis (d : disk) : option nat := match d_gen d with Some g => Some g | None => mmin (d_blocks d) end.
Definition open (d : disk) : option mem :=
  let l := mmax (d_blocks d) in
  match loadGenesis d with
  | None => Some {| m_last := l; m_gen := 0; m_future := None; m_stlast := mmax (d_st d); m_sn := None |}
  | Some g => if (0 <? g) && (g <=? l) then Some {| m_last := l; m_gen := g; m_future := None; m_stlast := mmax (d_st d); m_sn := None |} else None
  end.

(** detail/blockchain.cpp:156-164 calculateBlockDigest (None: the block is missing, an assertion fails) *)
Definition calcDigest (d : disk) (id : nat) : option bytes :=
  if id <? 1 then Some zeroD else match mget (d_blocks d) id with Some b => Some (H id b) | None => None end.
(** detail/blockchain.cpp:259-262 setBlockId *)
Definition setBlockId (m : mem) (id : nat) : mem :=
  {| m_last := id; m_gen := if m_gen m =? 0 then id else m_gen m; m_future := m_future m; m_stlast := m_stlast m; m_sn := m_sn m |}.
Definition setFuture m f := {| m_last := m_last m; m_gen := m_gen m; m_future := f; m_stlast := m_stlast m; m_sn := m_sn m |}.
Definition setMGen m g := {| m_last := m_last m; m_gen := g; m_future := m_future m; m_stlast := m_stlast m; m_sn := m_sn m |}.
Definition setStLast m x := {| m_last := m_last m; m_gen := m_gen m; m_future := m_future m; m_stlast := x; m_sn := m_sn m |}.
Definition setSn m x := {| m_last := m_last m; m_gen := m_gen m; m_future := m_future m; m_stlast := m_stlast m; m_sn := x |}.

(** latest_keys.cpp:44-157 addBlockKeys / handleCategoryUpdates *)
Definition catOps (id : nat) (c : bytes) (ci : cin) : list wop :=
  match c_kind ci with
  | Immutable => map (fun p => WImm c (fst p) (Some ([], true, id))) (c_puts ci)
  | _ => map (fun p => WLat c (fst p) (Some (fst (snd p), snd (snd p), id))) (c_puts ci) ++ map (fun k => WLat c k None) (c_dels ci)
  end.
Definition keyOps (id : nat) (u : updates) : list wop := flat_map (fun e => catOps id (fst e) (snd e)) u.

(** v4_blockchain.cpp:236-305 onNewBFTSequenceNumber. The compaction it may start is not a logical change (see [compactLat]). *)
Definition onNewSN (u : updates) (s : state) : state * nat :=
  let (d, m) := s in
  let sn := seqNum u in
  if sn =? 0 then (s, 0) else
  match m_sn m with
  | Some p => if p =? sn then (s, sn) else if sn <? p then (s, 0) else ((setSnap d (Some (d_lat d, d_imm d, p)), m), sn)
  | None => match d_snap d with Some _ => (s, sn) | None => ((setSnap d (Some (d_lat d, d_imm d, 0)), m), sn) end
  end.
Definition noteSN (sn : nat) (m : mem) : mem := if 0 <? sn then setSn m (Some sn) else m.

(** detail/blockchain.cpp:54-80 addBlock, v4_blockchain.cpp:105-114 add, and the write and setBlockId of the callers (v4_blockchain.cpp:78-103, :463-475).
    [extra]: what else the caller put in the batch. *)
Definition writeBlock (extra : list wop) (u : updates) (s : state) : option state :=
  let (d, m) := s in
  let id := S (m_last m) in
  match (match m_future m with Some x => Some x | None => calcDigest d (m_last m) end) with
  | None => None
  | Some p =>
    let b := {| b_parent := p; b_upd := u |} in
    Some (applyB d (extra ++ WBlock id b :: keyOps id u), setFuture (setBlockId m id) (Some (H id b)))
  end.
(** v4_blockchain.cpp:78-103 add *)
Definition add (u : updates) (s : state) : option state :=
  let (s1, sn) := onNewSN u s in
  match writeBlock [] (addGenesisKey (m_gen (snd s)) u) s1 with
  | None => None
  | Some (d, m) => Some (d, noteSN sn m)
  end.

(** detail/blockchain.cpp:82-120 deleteBlocksUntil(until, false); the result is the last deleted id. None: failed assertion. *)
Definition deleteUntil (until : nat) (s : state) : option (state * nat) :=
  let (d, m) := s in
  if (0 <? m_gen m) && (m_gen m <? until) then
    if m_last m =? m_gen m then Some (s, m_gen m - 1)
    else let l := Nat.min (m_last m - 1) (until - 1) in
         Some ((applyB d [WBlockRange (S l); WGen (S l)], setMGen m (S l)), l)
  else None.
(** The same with delete_files_in_range: the files are removed at once, outside the batch, and [keep] of the blocks survive (:101-104);
    then the batch with the genesis key is written (:112-115). *)
Definition deleteFiles (keep : nat -> bool) (l : nat) (d : disk) : disk :=
  setBlocks d (mdelIf (fun i => (1 <=? i) && (i <? S l) && negb (keep i)) (d_blocks d)).
Definition deleteUntilFiles (keep : nat -> bool) (until : nat) (s : state) : option (state * nat) :=
  let (d, m) := s in
  if (0 <? m_gen m) && (m_gen m <? until) then
    if m_last m =? m_gen m then Some (s, m_gen m - 1)
    else let l := Nat.min (m_last m - 1) (until - 1) in
         Some ((applyB (deleteFiles keep l d) [WGen (S l)], setMGen m (S l)), l)
  else None.
(** detail/blockchain.cpp:139-153 deleteGenesisBlock *)
Definition deleteGenesis (s : state) : option state :=
  let (d, m) := s in
  if (0 <? m_gen m) && (m_gen m <? m_last m) then
    Some (applyB d [WBlockDel (m_gen m); WGen (S (m_gen m))], setMGen m (S (m_gen m)))
  else None.

(** v4_blockchain.cpp:131-164 deleteLastReachableBlock. None: exception or failed assertion. *)
Definition deleteLast (s : state) : option state :=
  let (d, m) := s in
  if (m_last m =? 0) || (m_last m =? m_gen m) then None
  else match mget (d_rec d) (m_last m) with
       | None => None
       | Some b => Some (applyB d b, setBlockId m (m_last m - 1))
       end.

(** latest_keys.cpp:159-290 revertLastBlockKeys: the batch that puts back what the snapshot holds. *)
Definition revertCat (sl si : lkmap) (c : bytes) (ci : cin) : list wop :=
  match c_kind ci with
  | Immutable => map (fun p => WImm c (fst p) (si c (fst p))) (c_puts ci)
  | _ => map (fun p => WLat c (fst p) (sl c (fst p))) (c_puts ci) ++
         flat_map (fun k => match sl c k with Some v => [WLat c k (Some v)] | None => [] end) (c_dels ci)
  end.
Definition revertOps (sl si : lkmap) (u : updates) : list wop := flat_map (fun e => revertCat sl si (fst e) (snd e)) u.
(** v4_blockchain.cpp:166-231 storeLastReachableRevertBatch(nullopt), run by BlockchainRecovery (:737-769) on the read-only
    storage before the replica opens it. [fuel] bounds the loop (each turn lowers the block id). *)
Fixpoint revertLoop (fuel last gen stable : nat) (sl si : lkmap) (d : disk) : disk :=
  match fuel with
  | 0 => d
  | S fuel =>
    match mget (d_blocks d) last with
    | None => d
    | Some b =>
      if seqNum (b_upd b) <=? stable then d
      else
        let d := match mget (d_rec d) last with
                 | Some _ => d
                 | None => setRec d (mput (d_rec d) last (revertOps sl si (b_upd b) ++ [WBlockDel last]))
                 end in
        if last - 1 =? gen then d else revertLoop fuel (last - 1) gen stable sl si d
    end
  end.
Definition storeRevert (d : disk) : disk :=
  match open d with
  | None => d
  | Some m =>
    if m_gen m =? m_last m then d
    else match d_snap d with None => d | Some (sl, si, stable) => revertLoop (m_last m) (m_last m) (m_gen m) stable sl si d end
  end.
(** :701-704 onFinishDeleteLastReachable *)
Definition dropRecovery (s : state) : state := (setRec (fst s) [], snd s).

(** * State transfer *)
(** v4_blockchain.cpp:446-462 pruneOnSTLink *)
Fixpoint pruneLoop (fuel : nat) (g : nat) (s : state) : option state :=
  match fuel with
  | 0 => Some s
  | S fuel =>
    let m := snd s in
    if (1 <=? m_gen m) && (m_gen m <? m_last m) && (m_gen m <? g)
    then match deleteGenesis s with None => None | Some s' => pruneLoop fuel g s' end
    else Some s
  end.
Definition pruneOnLink (u : updates) (s : state) : option state :=
  match recordedGenesis u with None => Some s | Some g => pruneLoop (m_last (snd s)) g s end.
(** :463-476 writeSTLinkTransaction *)
Definition linkOne (id : nat) (u : updates) (s : state) : option state :=
  let (s1, sn) := onNewSN u s in
  match writeBlock [WStDel id] u s1 with
  | None => None
  | Some s2 => match pruneOnLink u s2 with None => None | Some (d, m) => Some (d, noteSN sn m) end
  end.
(** :426-445 linkSTChain: [n] turns of the loop starting at id [i]. *)
Fixpoint linkLoop (n i : nat) (s : state) : option (state * bool) :=
  match n with
  | 0 => Some (s, true)
  | S n =>
    match mget (d_st (fst s)) i with
    | None => Some (s, false)
    | Some b => match linkOne i (b_upd b) s with None => None | Some s' => linkLoop n (S i) s' end
    end
  end.
Definition linkST (s : state) : option state :=
  let m := snd s in
  if m_stlast m =? 0 then Some s
  else match linkLoop (m_stlast m - m_last m) (S (m_last m)) s with
       | None => None
       | Some (s', true) => Some (fst s', setStLast (snd s') 0)
       | Some (s', false) => Some s'
       end.
(** :477-520 linkUntilBlockId (without its result) *)
Definition linkUntil (until : nat) (s : state) : option state :=
  if S (m_last (snd s)) <=? until then
    match linkLoop (until - m_last (snd s)) (S (m_last (snd s))) s with None => None | Some (s', _) => Some s' end
  else None.
(** st_chain.cpp:35-41 hasBlock; v4_blockchain.cpp:382-425 addBlockToSTChain. None: exception. *)
Definition stHas (s : state) (id : nat) : bool :=
  if m_stlast (snd s) <? id then false else match mget (d_st (fst s)) id with Some _ => true | None => false end.
Definition stPut (id : nat) (b : block) (s : state) : state :=
  (applyB (fst s) [WStPut id b], if id <=? m_stlast (snd s) then snd s else setStLast (snd s) id).
Definition addST (id : nat) (b : block) (lastBlock : bool) (s : state) : option state :=
  if id <=? m_last (snd s) then None
  else if stHas s id then
    match mget (d_st (fst s)) id with
    | Some b' => if block_eq_dec b b' then Some s else None
    | None => None
    end
  else if lastBlock then linkST (stPut id b s) else Some (stPut id b s).
(** v4_blockchain.cpp:29-62: opening a replica links what state transfer left behind. *)
Definition start (d : disk) : option state :=
  match open d with None => None | Some m => linkST (d, m) end.

(** * Reads *)
(** detail/blockchain.cpp:264-270, v4_blockchain.cpp:332-338 hasBlock *)
Definition hasBlock (s : state) (id : nat) : bool :=
  let (d, m) := s in
  if m_last m <? id then stHas s id
  else if id <? m_gen m then false else match mget (d_blocks d) id with Some _ => true | None => false end.
(** v4_blockchain.cpp:355-381 parentDigest, calculateBlockDigest for ids up to the last reachable block (None: nullopt or failed assertion) *)
Definition parentDigest (s : state) (id : nat) : option bytes :=
  let (d, m) := s in
  if m_last m <? id then option_map b_parent (mget (d_st d) id)
  else if id <? m_gen m then None else option_map b_parent (mget (d_blocks d) id).
Definition blockDigest (s : state) (id : nat) : option bytes :=
  let (d, m) := s in
  if m_last m <? id then option_map (H id) (mget (d_st d) id)
  else if id <? m_gen m then None else calcDigest d id.
(** v4_blockchain.cpp:547-568 get(category, key, block) *)
Definition getAt (d : disk) (c k : bytes) (id : nat) : option (nat * bytes) :=
  match mget (d_blocks d) id with
  | None => None
  | Some b => match cfGet (b_upd b) c with
              | None => None
              | Some ci => match cfGet (c_puts ci) k with Some (v, _) => Some (id, v) | None => None end
              end
  end.
(** v4_blockchain.cpp:571-583 getLatest, :640-645 getLatestVersion; [ct] is the declared type of the category. *)
Definition latestVersion (d : disk) (ct : kind) (c k : bytes) : option nat :=
  option_map snd (match ct with Immutable => d_imm d c k | _ => d_lat d c k end).
Definition getLatest (d : disk) (ct : kind) (c k : bytes) : option (nat * bytes) :=
  match ct with
  | Immutable => match latestVersion d ct c k with None => None | Some ver => getAt d c k ver end
  | _ => match d_lat d c k with Some (v, _, ver) => Some (ver, v) | None => None end
  end.
(** std::unique: adjacent duplicates only (detail/blockchain.cpp:214-231) *)
Fixpoint adjDedup (l : list nat) : list nat :=
  match l with
  | [] => []
  | x :: t => match t with [] => [x] | y :: _ => if x =? y then adjDedup t else x :: adjDedup t end
  end.
Fixpoint nodupb (l : list nat) : bool := match l with [] => true | x :: t => negb (existsb (Nat.eqb x) t) && nodupb t end.
(** v4_blockchain.cpp:584-618 multiGet over detail/blockchain.cpp:214-231; None: logic_error thrown for a repeated block id, or the size assertion. *)
Definition multiGet (d : disk) (c : bytes) (ks : list bytes) (vs : list nat) : option (list (option (nat * bytes))) :=
  if length ks =? length vs then
    if nodupb (adjDedup vs) then Some (map (fun p => getAt d c (fst p) (snd p)) (combine ks vs)) else None
  else None.
(** v4_blockchain.cpp:620-640 multiGetLatest *)
Definition multiGetLatest (d : disk) (ct : kind) (c : bytes) (ks : list bytes) : option (list (option (nat * bytes))) :=
  match ct with
  | Immutable => multiGet d c ks (map (fun k => match latestVersion d ct c k with Some v => v | None => 0 end) ks)
  | _ => Some (map (getLatest d ct c) ks)
  end.
(** latest_keys.cpp:482-500 LKCompactionFilter: RocksDB may drop, at any time, an entry with the flag whose version is below the genesis. *)
Definition mayDrop (g : nat) (v : lkval) : bool := match v with (_, st, ver) => st && (ver <? g) end.
Definition compact (imm : bool) (c k : bytes) (s : state) : state :=
  let (d, m) := s in
  match (if imm then d_imm d else d_lat d) c k with
  | Some v => if mayDrop (m_gen m) v then (applyB d [if imm then WImm c k None else WLat c k None], m) else s
  | None => s
  end.

(** * Executions, with a crash possible between any two writes.
    One [step] is at most one atomic write to the main storage; API calls above are sequences of steps. [RAdd]/[RLink] do not ask for the
    snapshot that precedes them ([RSnap]), so they over-approximate. *)
Inductive step : state -> state -> Prop :=
| RSnap u s : step s (fst (onNewSN u s))
| RAdd u s s' : writeBlock [] (addGenesisKey (m_gen (snd s)) u) s = Some s' -> step s s'
| RNote n s : step s (fst s, noteSN n (snd s))
| RLink b s s' : mget (d_st (fst s)) (S (m_last (snd s))) = Some b -> writeBlock [WStDel (S (m_last (snd s)))] (b_upd b) s = Some s' -> step s s'
| RReset s : m_stlast (snd s) <= m_last (snd s) -> step s (fst s, setStLast (snd s) 0)
| RStPut id b s : m_last (snd s) < id -> step s (stPut id b s)
| RGenesis s s' : deleteGenesis s = Some s' -> step s s'
| RUntil n s s' l : deleteUntil n s = Some (s', l) -> step s s'
| RUntilFiles keep n s s' l : deleteUntilFiles keep n s = Some (s', l) -> step s s'
| RCompact i c k s : step s (compact i c k s)
| RRecover s d m : d = storeRevert (fst s) -> open d = Some m -> step s (d, m)      (* crash; the recovery process; restart *)
| RDropRec s : step s (dropRecovery s).
(** [deleteLast] is kept apart: it is a step only of the executions that ask for it. *)
Inductive run (P : state -> Prop) : state -> Prop :=
| run0 : run P (emptyDisk, {| m_last := 0; m_gen := 0; m_future := None; m_stlast := 0; m_sn := None |})
| runS s s' : run P s -> step s s' -> run P s'
| runD s s' : run P s -> P s -> deleteLast s = Some s' -> run P s'.
End Chain.
