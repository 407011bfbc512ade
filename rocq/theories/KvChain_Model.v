(** C15 (categorized storage). The chain of categorized blocks: kvbc/src/categorization/kv_blockchain.cpp, blockchain.cpp, blocks.cpp with
    kvbc/include/categorization/{blockchain,blocks,updates}.h, and putBlock/postProcessUntilBlockId of
    kvbc/src/kvbc_adapter/categorization/app_state_adapter.cpp. The versioned and immutable categories are those of Versioned_Model and
    Immutable_Model; block-merkle categories, metrics, threads and the creation of categories after the first start are not modelled. *)
From Coq Require Import List Arith NArith Lia Bool.
From Verif Require Import Lib_Bytes Keys_Model Lib_CF Versioned_Model Immutable_Model.
Import ListNotations.
Local Open Scope N_scope.

(** * Finite maps over block ids *)
(** A column family whose keys are block ids. Block::generateKey (blocks.h:71-74) is the big endian encoding, whose byte order is the order
    of the ids (C17), so the map is kept by id here. *)
Section NMap.
Context {V : Type}.
Fixpoint nget (d : list (N * V)) (k : N) : option V := match d with [] => None | (k', v) :: d => if k =? k' then Some v else nget d k end.
Definition ndel (d : list (N * V)) (k : N) : list (N * V) := filter (fun e => negb (k =? fst e)) d.
Definition nput (d : list (N * V)) (k : N) (v : V) : list (N * V) := (k, v) :: ndel d k.
(** blockchain.cpp:42-51 loadLastReachableBlockId and blockchain.h:117-128 loadLastBlockId: seekAtMost(MAX_BLOCK_ID); 0 if there is none. *)
Definition maxId (d : list (N * V)) : N := fold_right (fun e m => N.max (fst e) m) 0 d.
(** blockchain.cpp:54-63 loadGenesisBlockId: seekAtLeast(1); 0 if there is none. (No block has id 0.) *)
Definition minId (d : list (N * V)) : N := fold_right (fun e m => if m =? 0 then fst e else N.min (fst e) m) 0 d.
End NMap.
(** operator[] of a std::map followed by an assignment. *)
Fixpoint assign {X} (m : list (bytes * X)) (k : bytes) (x : X) : list (bytes * X) :=
  match m with
  | [] => [(k, x)]
  | (k', x') :: m' => if blt k k' then (k, x) :: m else if beqb k k' then (k, x) :: m' else (k', x') :: assign m' k x
  end.

(** * Data (kvbc/cmf/categorized_kvbc_msgs.cmf) *)
(** One category of a CategoryInput / of BlockData.categories_updates_info; the stored state of one category. *)
Inductive cinput := CV (i : vinput) | CI (i : iinput).
Inductive coutput := OV (o : voutput) | OI (o : ioutput).
Inductive cstate := SV (x : cat) | SI (x : icat).
Inductive ctype := TV | TI.
(** CategoryInput: a std::map from category ids. *)
Definition updates := list (bytes * cinput).
(** RawBlockData, without the root hashes of block-merkle categories. *)
Record raw := { r_parent : bytes; r_upd : updates; r_vroot : list (bytes * bytes); r_iroot : list (bytes * list (bytes * bytes)) }.
(** BlockData (the id is the key). *)
Record block := { b_parent : bytes; b_info : list (bytes * coutput) }.
(** The database: the categories, BLOCKS_CF, ST_CHAIN_CF. *)
Record disk := { d_cats : list (bytes * cstate); d_blocks : list (N * block); d_st : list (N * raw) }.
(** The cached ids of blockchain.h:183-184 and :170, and last_raw_block_ of kv_blockchain.h. *)
Record mem := { m_gen : N; m_last : N; m_stlast : N; m_cache : option (N * raw) }.
Definition state : Type := disk * mem.

(** kConcordInternalCategoryId and keyTypes::genesis_block_key (kvbc/include/categorization/db_categories.h:30, kvbc/include/kvbc_key_types.hpp:34). *)
Definition cInternal : bytes := [99; 111; 110; 99; 111; 114; 100; 95; 105; 110; 116; 101; 114; 110; 97; 108]. (* "concord_internal" *)
Definition genesisKey : bytes := [50].
Definition zeroD : bytes := repeat 0 32.
Definition emptyV : vinput := {| kv := []; dels := []; wantHash := false |}.

Section Chain.
(** The hash of the categories and the digest of a block: computeBlockDigest(id, serialize(raw)). Any functions. *)
Variable H : bytes -> bytes.
Variable HD : N -> raw -> bytes.

(** kv_blockchain.cpp:163-173 addGenesisBlockKey: None when the internal category carries immutable input (std::get throws). *)
Definition addGenesisKey (g : N) (u : updates) : option updates :=
  let u := emplace u cInternal (CV emptyV) in
  match cfGet u cInternal with
  | Some (CV i) => Some (assign u cInternal (CV {| kv := assign (kv i) genesisKey (be 8 g, true); dels := dels i; wantHash := wantHash i |}))
  | _ => None
  end.

(** The output of a category for an input; kv_blockchain.cpp:742-780 handleCategoryUpdates. None: the category does not exist or has another type (throws). *)
Definition outOf (x : cinput) : coutput := match x with CV i => OV (addOut H i) | CI i => OI (iaddOut H i) end.
Definition addTo (id : N) (cats : option (list (bytes * cstate))) (e : bytes * cinput) : option (list (bytes * cstate)) :=
  match cats with
  | None => None
  | Some cats =>
    match snd e, cfGet cats (fst e) with
    | CV i, Some (SV x) => Some (cfPut cats (fst e) (SV (applyAll x (addOps id i))))
    | CI i, Some (SI x) => Some (cfPut cats (fst e) (SI (iapply x (iaddOps id i))))
    | _, _ => None
    end
  end.
(** The raw block put together while a block is added (:197-215), with the root hashes added by blocks.h:117-132. *)
Definition vroots (u : updates) : list (bytes * bytes) :=
  flat_map (fun e => match snd e with CV i => match rootHash (addOut H i) with Some h => [(fst e, h)] | None => [] end | CI _ => [] end) u.
Definition iroots (u : updates) : list (bytes * list (bytes * bytes)) :=
  flat_map (fun e => match snd e with CI i => match tagRoots (iaddOut H i) with Some h => [(fst e, h)] | None => [] end | CV _ => [] end) u.
Definition mkRaw (p : bytes) (u : updates) : raw := {| r_parent := p; r_upd := u; r_vroot := vroots u; r_iroot := iroots u |}.

(** blocks.cpp:42-123 RawBlock::getUpdates: None is a failed assertion (category or value missing). The keys of an output are in order, so
    data.kv is filled in order. *)
Fixpoint vrebuild (x : cat) (b : N) (ks : list (bytes * (bool * bool))) : option (list (bytes * (bytes * bool)) * list bytes) :=
  match ks with
  | [] => Some ([], [])
  | (k, (deleted, stale)) :: ks =>
    match vrebuild x b ks with
    | None => None
    | Some (kvs, ds) => if deleted then Some (kvs, k :: ds) else match vget x k b with Some (_, v) => Some ((k, (v, stale)) :: kvs, ds) | None => None end
    end
  end.
Fixpoint irebuild (x : icat) (b : N) (ks : list (bytes * list bytes)) : option (list (bytes * (bytes * list bytes))) :=
  match ks with
  | [] => Some []
  | (k, tags) :: ks => match irebuild x b ks, iget x k b with Some kvs, Some (_, v) => Some ((k, (v, tags)) :: kvs) | _, _ => None end
  end.
Definition rebuild1 (cats : list (bytes * cstate)) (b : N) (c : bytes) (o : coutput) : option cinput :=
  match o, cfGet cats c with
  | OV o, Some (SV x) => match vrebuild x b (okeys o) with Some (kvs, ds) => Some (CV {| kv := kvs; dels := ds; wantHash := match rootHash o with Some _ => true | None => false end |}) | None => None end
  | OI o, Some (SI x) => match irebuild x b (tagged o) with Some kvs => Some (CI {| ikv := kvs; iwant := match tagRoots o with Some _ => true | None => false end |}) | None => None end
  | _, _ => None
  end.
Fixpoint rebuild (cats : list (bytes * cstate)) (b : N) (info : list (bytes * coutput)) : option updates :=
  match info with
  | [] => Some []
  | (c, o) :: info => match rebuild1 cats b c o, rebuild cats b info with Some i, Some u => Some ((c, i) :: u) | _, _ => None end
  end.
Definition vrootsOut (info : list (bytes * coutput)) : list (bytes * bytes) :=
  flat_map (fun e => match snd e with OV o => match rootHash o with Some h => [(fst e, h)] | None => [] end | OI _ => [] end) info.
Definition irootsOut (info : list (bytes * coutput)) : list (bytes * list (bytes * bytes)) :=
  flat_map (fun e => match snd e with OI o => match tagRoots o with Some h => [(fst e, h)] | None => [] end | OV _ => [] end) info.
(** blocks.cpp:24-37, blockchain.h:67-73: the raw block rebuilt from storage. *)
Definition rebuildRaw (d : disk) (id : N) (b : block) : option raw :=
  match rebuild (d_cats d) id (b_info b) with
  | Some u => Some {| r_parent := b_parent b; r_upd := u; r_vroot := vrootsOut (b_info b); r_iroot := irootsOut (b_info b) |}
  | None => None
  end.
(** kv_blockchain.cpp:810-821 getRawBlock. Outer None: an assertion failed; inner: the returned optional. *)
Definition getRaw (s : state) (id : N) : option (option raw) :=
  if m_last (snd s) <? id then Some (nget (d_st (fst s)) id)
  else match nget (d_blocks (fst s)) id with None => Some None | Some b => match rebuildRaw (fst s) id b with Some r => Some (Some r) | None => None end end.
(** :823-829 parentDigest, :831-839 calculateBlockDigest, :841-847 hasBlock *)
Definition parentDigest (s : state) (id : N) : option bytes :=
  if m_last (snd s) <? id then option_map r_parent (nget (d_st (fst s)) id) else option_map b_parent (nget (d_blocks (fst s)) id).
Definition blockDigest (s : state) (id : N) : option (option bytes) :=
  match getRaw s id with Some (Some r) => Some (Some (HD id r)) | Some None => Some None | None => None end.
Definition hasBlock (s : state) (id : N) : bool :=
  match (if m_last (snd s) <? id then option_map (fun _ => tt) (nget (d_st (fst s)) id) else option_map (fun _ => tt) (nget (d_blocks (fst s)) id)) with Some _ => true | None => false end.

(** :222-256 computeParentBlockDigest: the cached raw block if it is the parent, else the parent from storage, else zero. None: assertion. *)
Definition parentOf (s : state) (id : N) : option bytes :=
  let stored := if 1 <? id then match getRaw s (id - 1) with Some (Some r) => Some (HD (id - 1) r) | _ => None end else Some zeroD in
  match m_cache (snd s) with Some (cid, r) => if cid =? id - 1 then Some (HD (id - 1) r) else stored | None => stored end.
(** :188-220 addBlock(CategoryInput, batch), the write of the batch, and blockchain.h:40-49 setAddedBlockId. [st'] is what the batch makes of the
    state transfer chain. None: an exception or a failed assertion, nothing is written. *)
Definition addCore (u : updates) (st' : list (N * raw)) (s : state) : option state :=
  let id := m_last (snd s) + 1 in
  match parentOf s id with
  | None => None
  | Some p =>
    match fold_left (addTo id) u (Some (d_cats (fst s))) with
    | None => None
    | Some cats =>
      Some ({| d_cats := cats; d_blocks := nput (d_blocks (fst s)) id {| b_parent := p; b_info := map (fun e => (fst e, outOf (snd e))) u |}; d_st := st' |},
            {| m_gen := if m_gen (snd s) =? 0 then 1 else m_gen (snd s); m_last := id; m_stlast := m_stlast (snd s); m_cache := Some (id, mkRaw p u) |})
    end
  end.
(** :176-186 addBlock(Updates) *)
Definition addBlock (u : updates) (s : state) : option state :=
  match addGenesisKey (m_gen (snd s)) u with Some u => addCore u (d_st (fst s)) s | None => None end.

(** :489-560 deleteGenesisBlock, :658-692 per category. None: exception or failed assertion. *)
Definition genTo (id : N) (cats : option (list (bytes * cstate))) (e : bytes * coutput) : option (list (bytes * cstate)) :=
  match cats with
  | None => None
  | Some cats =>
    match snd e, cfGet cats (fst e) with
    | OV o, Some (SV x) => match genesisOps x id o with Some ops => Some (cfPut cats (fst e) (SV (applyAll x ops))) | None => None end
    | OI o, Some (SI x) => Some (cfPut cats (fst e) (SI (iapply x (idelOps o))))
    | _, _ => None
    end
  end.
Definition setGen (m : mem) (g : N) : mem := {| m_gen := g; m_last := m_last m; m_stlast := m_stlast m; m_cache := m_cache m |}.
Definition setLast (m : mem) (l : N) : mem := {| m_gen := m_gen m; m_last := l; m_stlast := m_stlast m; m_cache := m_cache m |}.
Definition setSt (m : mem) (l : N) : mem := {| m_gen := m_gen m; m_last := m_last m; m_stlast := l; m_cache := m_cache m |}.
Definition setCache (m : mem) (c : option (N * raw)) : mem := {| m_gen := m_gen m; m_last := m_last m; m_stlast := m_stlast m; m_cache := c |}.
Definition deleteGenesis (s : state) : option state :=
  let g := m_gen (snd s) in
  if (g =? 0) || (g =? m_last (snd s)) then None
  else match nget (d_blocks (fst s)) g with
       | None => None
       | Some b => match fold_left (genTo g) (b_info b) (Some (d_cats (fst s))) with
                   | None => None
                   | Some cats => Some ({| d_cats := cats; d_blocks := ndel (d_blocks (fst s)) g; d_st := d_st (fst s) |}, setGen (snd s) (g + 1))
                   end
       end.
(** :566-612 deleteLastReachableBlock, :694-720 per category. *)
Definition lastTo (id : N) (cats : option (list (bytes * cstate))) (e : bytes * coutput) : option (list (bytes * cstate)) :=
  match cats with
  | None => None
  | Some cats =>
    match snd e, cfGet cats (fst e) with
    | OV o, Some (SV x) => match lastOps x id o with Some ops => Some (cfPut cats (fst e) (SV (applyAll x ops))) | None => None end
    | OI o, Some (SI x) => Some (cfPut cats (fst e) (SI (iapply x (idelOps o))))
    | _, _ => None
    end
  end.
Definition deleteLast (s : state) : option state :=
  let l := m_last (snd s) in
  if (l =? 0) || (l =? m_gen (snd s)) then None
  else match nget (d_blocks (fst s)) l with
       | None => None
       | Some b => match fold_left (lastTo l) (b_info b) (Some (d_cats (fst s))) with
                   | None => None
                   | Some cats => Some ({| d_cats := cats; d_blocks := ndel (d_blocks (fst s)) l; d_st := d_st (fst s) |}, setLast (snd s) (l - 1))
                   end
       end.
(** :478-483 deleteStateTransferBlock, blockchain.h:108-115 *)
Definition deleteSt (id : N) (s : state) : state :=
  let st' := ndel (d_st (fst s)) id in
  ({| d_cats := d_cats (fst s); d_blocks := d_blocks (fst s); d_st := st' |},
   if (m_stlast (snd s) =? 0) || negb (m_stlast (snd s) =? id) then snd s else setSt (snd s) (maxId st')).
(** blockchain.h:175-180 getLatestBlockId *)
Definition latestId (m : mem) : N := if 0 <? m_stlast m then m_stlast m else m_last m.
(** :419-476 deleteBlock *)
Definition deleteBlock (id : N) (s : state) : option (bool * state) :=
  let m := snd s in
  if (id =? 0) || (id <? m_gen m) then Some (false, s)
  else if (latestId m =? 0) || (latestId m <? id) then Some (false, s)
  else if m_last m <? id then Some (true, deleteSt id s)
  else if (id =? m_last m) && (id =? m_gen m) then None
  else if id =? m_last m then option_map (pair true) (deleteLast s)
  else if id =? m_gen m then option_map (pair true) (deleteGenesis s)
  else None.

(** :917-931 pruneOnSTLink: deletes up to the genesis id recorded in the block; None: exception or ConcordAssert(deleteBlock(i)) fails. *)
Definition recordedGenesis (u : updates) : option (option N) :=
  match cfGet u cInternal with
  | None => Some None
  | Some (CI _) => None
  | Some (CV i) => match cfGet (kv i) genesisKey with None => Some None | Some (x, _) => Some (Some (unbe (firstn 8 x))) end
  end.
Fixpoint pruneLoop (n : nat) (i : N) (s : state) : option state :=
  match n with O => Some s | S n => match deleteBlock i s with Some (true, s) => pruneLoop n (i + 1) s | _ => None end end.
Definition pruneOnLink (r : raw) (s : state) : option state :=
  match recordedGenesis (r_upd r) with
  | None => None
  | Some None => Some s
  | Some (Some g) => if (1 <=? m_gen (snd s)) && (m_gen (snd s) <? m_last (snd s)) then pruneLoop (N.to_nat (g - m_gen (snd s))) (m_gen (snd s)) s else Some s
  end.
(** :933-940 writeSTLinkTransaction: one batch deletes the block from the state transfer chain and adds its updates as the next block. *)
Definition writeLink (id : N) (r : raw) (s : state) : option state := addCore (r_upd r) (ndel (d_st (fst s)) id) s.
(** The loops of :848-888 linkUntilBlockId and :891-909 linkSTChainFrom: [n] blocks from [i]; the flag tells whether the loop ran to its end. *)
Fixpoint linkLoop (n : nat) (i : N) (s : state) : option (bool * state) :=
  match n with
  | O => Some (true, s)
  | S n => match nget (d_st (fst s)) i with
           | None => Some (false, s)
           | Some r => match pruneOnLink r s with
                       | None => None
                       | Some s => match writeLink i r s with None => None | Some s => linkLoop n (i + 1) s end
                       end
           end
  end.
Definition linkFrom (from : N) (s : state) : option state :=
  if m_stlast (snd s) =? 0 then Some s
  else match linkLoop (N.to_nat (m_stlast (snd s) + 1 - from)) from s with
       | None => None
       | Some (true, s) => Some (fst s, setSt (snd s) 0)
       | Some (false, s) => Some s
       end.
Definition linkUntil (from until : N) (s : state) : option state :=
  if m_stlast (snd s) =? 0 then Some s else option_map snd (linkLoop (N.to_nat (until + 1 - from)) from s).
(** :783-808 addRawBlock (an exception while linking terminates the process: None). *)
Definition stPut (id : N) (r : raw) (s : state) : state :=
  ({| d_cats := d_cats (fst s); d_blocks := d_blocks (fst s); d_st := nput (d_st (fst s)) id r |}, setSt (snd s) (N.max (m_stlast (snd s)) id)).
Definition addRaw (id : N) (r : raw) (lastBlock : bool) (s : state) : option state :=
  if id <=? m_last (snd s) then None
  else if lastBlock then linkFrom (m_last (snd s) + 1) (stPut id r s) else Some (stPut id r s).

(** The constructor: blockchain.cpp:20-36, blockchain.h:92-102, then linking (kv_blockchain.cpp:69-79). *)
Definition open (d : disk) : mem := {| m_gen := minId (d_blocks d); m_last := maxId (d_blocks d); m_stlast := maxId (d_st d); m_cache := None |}.
Definition start (d : disk) : option state := linkFrom (m_last (open d) + 1) (d, open d).

(** kv_blockchain.cpp:291-313 get, getLatest: nothing when the category does not exist. *)
Definition kGet (s : state) (c k : bytes) (b : N) : option (N * bytes) :=
  match cfGet (d_cats (fst s)) c with Some (SV x) => vget x k b | Some (SI x) => iget x k b | None => None end.
Definition kGetLatest (s : state) (c k : bytes) : option (N * bytes) :=
  match cfGet (d_cats (fst s)) c with Some (SV x) => getLatest x k | Some (SI x) => igetLatest x k | None => None end.
(** app_state_adapter.cpp:67-90 putBlock. None: exception or failed assertion (a different existing block is deleted before the exception). *)
Definition rawEqDec : forall a b : raw, {a = b} + {a <> b}.
Proof. repeat decide equality. Defined.
Definition putBlock (id : N) (r : raw) (lastBlock : bool) (s : state) : option state :=
  if hasBlock s id then match getRaw s id with Some (Some r') => if rawEqDec r r' then Some s else None | _ => None end
  else addRaw id r lastBlock s.

(** * Specification *)
(** The history an observer keeps: the updates of every block added and not reverted (block 1 first), each with the genesis id when it was
    added, and the current genesis id (1 while there is no block). *)
Record khist := { kb : list (updates * N); kg : N }.
Definition klen (h : khist) : N := N.of_nat (length (kb h)).
Definition upds (h : khist) : list updates := map fst (kb h).
(** What the history means for one category: the input of each block, empty for blocks that do not mention the category. *)
Definition vin (c : bytes) (u : updates) : vinput := match cfGet u c with Some (CV i) => i | _ => emptyV end.
Definition iin (c : bytes) (u : updates) : iinput := match cfGet u c with Some (CI i) => i | _ => {| ikv := []; iwant := false |} end.
Definition projV (c : bytes) (h : khist) : hist := {| blocks := map (fun p => (vin c (fst p), snd p)) (kb h); hgen := kg h |}.
Fixpoint number (i : N) (c : bytes) (l : list (updates * N)) : list (N * iinput) := match l with [] => [] | p :: l => (i, iin c (fst p)) :: number (i + 1) c l end.
Definition projI (c : bytes) (h : khist) : istate := (klen h, skipn (N.to_nat (kg h) - 1) (number 1 c (kb h))).
(** The raw block number [i] of a chain with updates [us]: the updates, their root hashes, and the digest of the raw block before. *)
Fixpoint specParent (us : list updates) (i : nat) : bytes :=
  match i with
  | O => zeroD
  | S j => HD (N.of_nat i) (mkRaw (specParent us j) (nth j us []))
  end.
Definition specRaw (us : list updates) (i : N) : raw := mkRaw (specParent us (N.to_nat i - 1)) (nth (N.to_nat i - 1) us []).

(** The genesis id recorded in a block, 0 if none. *)
Definition recGen (u : updates) : N := match recordedGenesis u with Some (Some g) => g | _ => 0 end.
(** Sorted and without repetition (std::set, sortAndRemoveDuplicates). *)
Definition sortedKeys (l : list bytes) : Prop := sorted (map (fun k => (k, tt)) l).
(** Updates the property speaks about: maps and sets are sorted; every category exists with its type; no key both updated and deleted, keys
    below 2^32 bytes; the internal category is versioned; no immutable key is written again while a block from the genesis on (as recorded in the
    block) holds it. [us]: the blocks before. *)
Definition okUpd (ct : list (bytes * ctype)) (us : list updates) (u : updates) : Prop :=
  sorted u /\
  (forall c x, cfGet u c = Some x -> match x with CV _ => cfGet ct c = Some TV | CI _ => cfGet ct c = Some TI end) /\
  (forall c i, cfGet u c = Some (CV i) -> goodInput i /\ sorted (kv i) /\ sortedKeys (dels i)) /\
  (forall c i, cfGet u c = Some (CI i) -> sorted (ikv i) /\
     forall k d tags, In (k, (d, tags)) (ikv i) -> NoDup tags /\
       forall j, (N.to_nat (recGen u) - 1 <= j)%nat -> cfGet (ikv (iin c (nth j us []))) k = None) /\
  recGen u <= N.max 1 (N.of_nat (length us)) /\ N.of_nat (length us) + 1 < tagBit.

(** * Executions: every step is one atomic write (or one in-memory event); a crash between any two of them is [KRestart]. *)
Definition init (ct : list (bytes * ctype)) : state :=
  ({| d_cats := map (fun e => (fst e, match snd e with TV => SV emptyCat | TI => SI [] end)) ct; d_blocks := []; d_st := [] |},
   {| m_gen := 0; m_last := 0; m_stlast := 0; m_cache := None |}).
Definition hinit : khist := {| kb := []; kg := 1 |}.
Definition kadd (h : khist) (u : updates) : khist := {| kb := kb h ++ [(u, kg h)]; kg := kg h |}.
Inductive krun (ct : list (bytes * ctype)) : khist -> state -> Prop :=
| K0 : krun ct hinit (init ct)
| KAdd h s u u' s' : krun ct h s -> addGenesisKey (m_gen (snd s)) u = Some u' -> okUpd ct (upds h) u' -> addBlock u s = Some s' -> krun ct (kadd h u') s'
(** an add that fails in the middle leaves any raw block for the next id in the cache *)
| KFail h s r : krun ct h s -> krun ct h (fst s, setCache (snd s) (Some (m_last (snd s) + 1, r)))
| KGenesis h s s' : krun ct h s -> deleteGenesis s = Some s' -> krun ct {| kb := kb h; kg := kg h + 1 |} s'
| KLast h s s' : krun ct h s -> (forall c, cfGet ct c = Some TV -> safeRevert (projV c h)) -> deleteLast s = Some s' -> krun ct {| kb := removelast (kb h); kg := kg h |} s'
| KStPut h s id r : krun ct h s -> m_last (snd s) < id -> krun ct h (stPut id r s)
| KStDel h s id : krun ct h s -> m_last (snd s) < id -> krun ct h (deleteSt id s)
| KLink h s r s' : krun ct h s -> nget (d_st (fst s)) (m_last (snd s) + 1) = Some r -> okUpd ct (upds h) (r_upd r) -> recGen (r_upd r) <= kg h ->
    writeLink (m_last (snd s) + 1) r s = Some s' -> krun ct (kadd h (r_upd r)) s'
| KReset h s : krun ct h s -> m_stlast (snd s) <= m_last (snd s) -> krun ct h (fst s, setSt (snd s) 0)
| KRestart h s : krun ct h s -> krun ct h (fst s, open (fst s)).
End Chain.
