(** C36: exchange of the replicas' consensus (threshold signature) keys.
    Model of bftengine/src/bftengine/KeyExchangeManager.cpp, KeyStore.h/.cpp, include/bftengine/KeyExchangeManager.hpp
    (PrivateKeys) and include/bftengine/CryptoManager.hpp (the cryptosystems per checkpoint). *)
From Coq Require Import List Arith Lia ZArith Bool NArith.
Import ListNotations.
Open Scope Z_scope.

(** A key is a string (KeyExchangeMsg.hpp:21 pubkey). *)
Definition key := list N.
Fixpoint key_eqb (a b : key) : bool :=
  match a, b with [], [] => true | x :: a', y :: b' => (x =? y)%N && key_eqb a' b' | _, _ => false end.

(** SysConsts.hpp:46-48, CryptoManager.hpp:26 *)
Definition WW : Z := 300.
Definition CW : Z := 150.

(** KeyExchangeMsg.hpp:20-26: the fields; [k_query] is op == HAS_KEYS.  generated_sn is a uint64_t. *)
Record msg := mkMsg { k_query : bool; k_rep : nat; k_pub : key; k_gen : Z; k_epoch : Z }.
(** A uint64_t passed where SeqNum (int64_t, CryptoManager.hpp:25) is expected. *)
Definition toSeq (g : Z) : Z := if g <? 2 ^ 63 then g else g - 2 ^ 64.

(** Cryptosystem (libs/crypto ThresholdSignaturesTypes.hpp): the own private key and the verification key of every replica.
    The signer and the verifiers of CryptoSystemWrapper::init (CryptoManager.hpp:116-125) are made from these. *)
Record sys := mkSys { sy_priv : key; sy_vk : nat -> key }.
Definition setVk (r : nat) (k : key) (s : sys) : sys := mkSys (sy_priv s) (fun r' => if (r' =? r)%nat then k else sy_vk s r').
(** ThresholdSignaturesTypes.cpp:170-179 updateVerificationKey, updateKeys (own id [me]). *)
Definition setOwn (me : nat) (sk vk : key) (s : sys) : sys := setVk me vk (mkSys sk (sy_vk s)).

(** CryptoManager::cryptoSystems_ : std::map<checkpoint, system>, ascending. *)
Definition systems := list (Z * sys).
Definition hasCkpt (c : Z) (l : systems) : bool := existsb (fun p => fst p =? c) l.
Fixpoint putCkpt (c : Z) (s : sys) (l : systems) : systems :=
  match l with [] => [(c, s)] | (d, t) :: l' => if c <? d then (c, s) :: l else (d, t) :: putCkpt c s l' end.
Definition updCkpt (c : Z) (f : sys -> sys) (l : systems) : systems := map (fun p => if fst p =? c then (fst p, f (snd p)) else p) l.
(** CryptoManager.hpp:150-161 create: the checkpoint from which keys generated at [sn] are used (an unsigned 64-bit number);
    a missing system is copied from the last one (rbegin).  Followed by the update [f] of the system.  The default of
    [last] is never used: the map has the initial system from the start (163-167) and nothing is erased (105: clearOldKeys is
    commented out). *)
Definition ckptOf (sn : Z) : Z := (Z.quot sn CW + 2) mod 2 ^ 64.
Definition createUpd (sn : Z) (f : sys -> sys) (l : systems) : systems :=
  let c := ckptOf sn in
  if hasCkpt c l then updCkpt c f l else putCkpt c (f (snd (last l (0, mkSys [] (fun _ => []))))) l.
(** CryptoManager.hpp:88-97 onPublicKeyExchange, 78-87 onPrivateKeyExchange. *)
Definition onPublic (r : nat) (k : key) (sn : Z) (l : systems) : systems := createUpd sn (setVk r k) l.
Definition onPrivate (me : nat) (sk vk : key) (sn : Z) (l : systems) : systems := createUpd sn (setOwn me sk vk) l.
(** CryptoManager.hpp:128-148 get: the last system whose checkpoint is not above that of sn (sn >= 1). *)
Definition getSys (sn : Z) (l : systems) : option sys := option_map snd (find (fun p => fst p <=? Z.quot (sn - 1) CW) (rev l)).
Definition vkAt (l : systems) (sn : Z) (r : nat) : option key := option_map (fun s => sy_vk s r) (getSys sn l).
Definition privAt (l : systems) (sn : Z) : option key := option_map sy_priv (getSys sn l).

(** std::map<SeqNum, string>: KeyStore.h:41 PublicKeys::keys, KeyExchangeManager.hpp KeyData::keys; insert keeps an old entry. *)
Definition kmap := list (Z * key).
Fixpoint kfind (sn : Z) (l : kmap) : option key :=
  match l with [] => None | (n, k) :: l' => if n =? sn then Some k else kfind sn l' end.
Fixpoint kput (sn : Z) (k : key) (l : kmap) : kmap :=
  match l with
  | [] => [(sn, k)]
  | (n, x) :: l' => if sn <? n then (sn, k) :: l else if n =? sn then l else (n, x) :: kput sn k l'
  end.

(** One replica.  [s_store] is ClusterKeyStore::clusterKeys_ (KeyStore.h:104) and, as it is written at every push, also the
    content of the reserved pages; [s_priv] is PrivateKeys::data_.keys, written to a file at every insertion.  [s_cand] is
    candidate_private_keys_.generated (empty when its cid is) and [s_map] seq_candidate_map_: pairs (private, public); both
    are only in memory. *)
Record st := mkSt {
  s_sys : systems;
  s_store : nat -> kmap;
  s_priv : kmap;
  s_cand : option (key * key);
  s_map : Z -> option (key * key) }.
Inductive reply := ROk | RQuery | RBadEpoch | ROutside.

Section Replica.
(** number of replicas; size of a reserved page and of the fixed part of its content (class name, version and number of
    keys); own id; epoch (EpochManager::getSelfEpochNumber, the same on all replicas); the system made from the key file. *)
Variables (n : nat) (PS HDR : nat) (me : nat) (epoch : Z) (init : sys).

(** Serializable (KeyStore.h:39): for each key 8 bytes for the number and 8 for the length before the string. *)
Definition pageBytes (l : kmap) : nat := (HDR + fold_right (fun p a => 16 + length (snd p) + a) 0 l)%nat.
(** KeyStore.h:49-54 push, KeyStore.cpp:55-69, BCStateTran.cpp:723-737.  None: an assertion fails or memory outside the
    vectors is accessed (verificationKeys_ has n entries; a page number from n on belongs to someone else). *)
Definition push (r : nat) (k : key) (sn : Z) (store : nat -> kmap) : option (nat -> kmap) :=
  if (r <? n)%nat && (pageBytes (kput sn k (store r)) <=? PS)%nat
  then Some (fun r' => if (r' =? r)%nat then kput sn k (store r) else store r')
  else None.

(** KeyExchangeManager.cpp:75-128 onKeyExchange.  The metrics and the publishing of the main key after the initial exchange
    are left out.  PrivateKeys::onKeyExchange (KeyExchangeManager.hpp) asserts that the number is new. *)
Definition onKeyExchange (m : msg) (req : Z) (s : st) : option (reply * st) :=
  if k_query m then Some (RQuery, s)
  else if negb (k_epoch m =? epoch) then Some (RBadEpoch, s)
  else if k_gen m <? req / WW * WW then Some (ROutside, s)
  else
    let sn := toSeq (k_gen m) in
    match kfind sn (s_store s (k_rep m)) with
    | Some _ => Some (ROk, s)
    | None =>
      match push (k_rep m) (k_pub m) sn (s_store s) with
      | None => None
      | Some store' =>
        match (if (k_rep m =? me)%nat then s_map s sn else None) with
        | Some (sk, pub) =>
          if key_eqb pub (k_pub m) then
            match kfind sn (s_priv s) with
            | Some _ => None
            | None =>
              Some (ROk, mkSt (onPrivate me sk (k_pub m) sn (s_sys s)) store' (kput sn sk (s_priv s)) None
                              (fun z => if z =? sn then None else s_map s z))
            end
          else None
        | None => Some (ROk, mkSt (onPublic (k_rep m) (k_pub m) sn (s_sys s)) store' (s_priv s) (s_cand s) (s_map s))
        end
      end
    end.

(** KeyExchangeManager.cpp:245-281 generateConsensusKeyAndSendInternalClientMsg; [fresh] is the pair (private, public) the
    generator returns.  PrivateKeys::lastGeneratedSeqnum is the largest number in the map (data_.generated is empty between
    calls).  The result has the message that is sent, if any.  A candidate already in the map for [sn] without a current
    candidate (candidate cleared) sends an empty key, as in the code. *)
Definition lastGenerated (l : kmap) : Z := fst (last l (0, [])).
Definition generate (sn : Z) (fresh : key * key) (s : st) : option msg * st :=
  if negb (lastGenerated (s_priv s) =? 0) && (Z.quot (sn - lastGenerated (s_priv s)) CW <? 2) then (None, s)
  else
    let c := match s_cand s with
             | Some c => Some c
             | None => match s_map s sn with None => Some fresh | Some _ => None end
             end in
    let p := match c with Some p => p | None => ([], []) end in
    (Some (mkMsg false me (snd p) sn epoch),
     mkSt (s_sys s) (s_store s) (s_priv s) c (fun z => if z =? sn then Some p else s_map s z)).

(** KeyExchangeManager.cpp:130-147 notifyRegistry: a multimap over all replicas in ascending order of id (an equal number goes
    after those already there), then the own private keys.  getKey (KeyStore.h:56-63) asserts that the key is there. *)
Fixpoint mmput (sn : Z) (p : nat * key) (l : list (Z * (nat * key))) : list (Z * (nat * key)) :=
  match l with [] => [(sn, p)] | q :: l' => if sn <? fst q then (sn, p) :: l else q :: mmput sn p l' end.
Definition orderedKeys (store : nat -> kmap) : list (Z * (nat * key)) :=
  fold_left (fun acc i => fold_left (fun acc p => mmput (fst p) (i, snd p) acc) (store i) acc) (seq 0 n) [].
Definition replayPublic (l : list (Z * (nat * key))) (T : systems) : systems :=
  fold_left (fun T q => onPublic (fst (snd q)) (snd (snd q)) (fst q) T) l T.
Fixpoint replayPrivate (l : kmap) (own : kmap) (T : systems) : option systems :=
  match l with
  | [] => Some T
  | (sn, sk) :: l' => match kfind sn own with None => None | Some vk => replayPrivate l' own (onPrivate me sk vk sn T) end
  end.
Definition notifyRegistry (store : nat -> kmap) (priv : kmap) (T : systems) : option systems :=
  replayPrivate priv (store me) (replayPublic (orderedKeys store) T).

(** KeyExchangeManager.cpp:35-50 constructor after a restart: public keys from the reserved pages of replicas below n
    (KeyStore.cpp:20-31), private keys from the file, no candidates. *)
Definition restart (store : nat -> kmap) (priv : kmap) : option st :=
  let store' := fun r => if (r <? n)%nat then store r else [] in
  match notifyRegistry store' priv [(0, init)] with
  | None => None
  | Some T => Some (mkSt T store' priv None (fun _ => None))
  end.
(** KeyExchangeManager.cpp:149-159 loadPublicKeys, after state transfer has replaced the pages by [pages]: the cryptosystems
    are not rebuilt, everything is replayed into the ones there are. *)
Definition loadPublicKeys (pages : nat -> kmap) (s : st) : option st :=
  let store' := fun r => if (r <? n)%nat then pages r else [] in
  match notifyRegistry store' (s_priv s) (s_sys s) with
  | None => None
  | Some T => Some (mkSt T store' (s_priv s) (s_cand s) (s_map s))
  end.
(** First start. *)
Definition start : st := mkSt [(0, init)] (fun _ => []) [] None (fun _ => None).

(** What a replica does: it executes an ordered key exchange request at sequence number [req], or generates a pair. *)
Inductive op := OExec (m : msg) (req : Z) | OGen (sn : Z) (fresh : key * key).
Definition step (o : op) (s : st) : option st :=
  match o with
  | OExec m req => option_map snd (onKeyExchange m req s)
  | OGen sn fresh => Some (snd (generate sn fresh s))
  end.
Fixpoint run (ops : list op) (s : st) : option st :=
  match ops with [] => Some s | o :: ops' => match step o s with None => None | Some s' => run ops' s' end end.

(** What is in the pages and in the key file if the process stops while [m] is executed: before anything is written, after the
    page, or after the key file too. *)
Definition crashPoints (m : msg) (req : Z) (s : st) : list ((nat -> kmap) * kmap) :=
  match onKeyExchange m req s with
  | Some (_, s') => [(s_store s, s_priv s); (s_store s', s_priv s); (s_store s', s_priv s')]
  | None => [(s_store s, s_priv s)]
  end.
End Replica.

(** ---------- Specification ---------- *)
(** A message that was accepted: whose key, the key and the number it was generated at. *)
Record ent := mkE { e_rep : nat; e_pub : key; e_gen : Z }.
Definition executed (ops : list op) : list (msg * Z) := flat_map (fun o => match o with OExec m r => [(m, r)] | _ => [] end) ops.
(** The accepted ones, in the order of execution: a message counts if it is an exchange, of the current epoch, generated in the
    window of the request's number or later, and the first one of that replica with that number. *)
Definition sameSlot (e : ent) (m : msg) : bool := (e_rep e =? k_rep m)%nat && (e_gen e =? toSeq (k_gen m)).
Fixpoint accepted (epoch : Z) (l : list (msg * Z)) (acc : list ent) : list ent :=
  match l with
  | [] => acc
  | (m, req) :: l' =>
    if negb (k_query m) && (k_epoch m =? epoch) && (req / WW * WW <=? k_gen m) && negb (existsb (fun e => sameSlot e m) acc)
    then accepted epoch l' (acc ++ [mkE (k_rep m) (k_pub m) (toSeq (k_gen m))])
    else accepted epoch l' acc
  end.
(** The first checkpoint at which a key generated at [g] is used, and the checkpoint whose keys cover [sn]. *)
Definition usableFrom (g : Z) : Z := g / CW + 2.
Definition ckptCovering (sn : Z) : Z := (sn - 1) / CW.
(** The key of [r] in force at [sn] after the exchanges [L]: that of the exchange with the largest number among those in use,
    or the initial one. *)
Definition InForce (L : list ent) (vk0 : nat -> key) (r : nat) (sn : Z) (k : key) : Prop :=
  (exists e, In e L /\ e_rep e = r /\ e_pub e = k /\ usableFrom (e_gen e) <= ckptCovering sn /\
     forall e', In e' L -> e_rep e' = r -> usableFrom (e_gen e') <= ckptCovering sn -> e_gen e' <= e_gen e)
  \/ ((forall e, In e L -> e_rep e = r -> ~ usableFrom (e_gen e) <= ckptCovering sn) /\ k = vk0 r).
(** Exchanges executed in order: checkpoints do not go back, and the numbers of one replica go up; numbers are in range. *)
Definition InRange (L : list ent) : Prop := Forall (fun e => 0 <= e_gen e < 2 ^ 63) L.
Definition Ordered (L : list ent) : Prop :=
  forall i j a b, (i < j)%nat -> nth_error L i = Some a -> nth_error L j = Some b ->
    usableFrom (e_gen a) <= usableFrom (e_gen b) /\ (e_rep a = e_rep b -> e_gen a < e_gen b).

(** A replica [me] that restarts with the private keys [priv] has the one of each of its own exchanges, or those of its own
    exchanges that become usable together carry the same key. *)
Definition OwnKnown (me : nat) (L : list ent) (priv : kmap) : Prop :=
  (forall a, In a L -> e_rep a = me -> kfind (e_gen a) priv <> None) \/
  (forall a b, In a L -> In b L -> e_rep a = me -> e_rep b = me -> usableFrom (e_gen a) = usableFrom (e_gen b) -> e_pub a = e_pub b).

(** The histories of a replica, with the messages its state reflects, in order: it executes messages and generates pairs, stops
    and restarts between messages or inside one (after the page is written; what was not finished is executed again), and gets
    the pages of a replica that executed more. *)
Inductive Hist (n PS HDR me : nat) (epoch : Z) (init : sys) : list (msg * Z) -> st -> Prop :=
| HStart : Hist n PS HDR me epoch init [] (start init)
| HOp : forall l s o s', Hist n PS HDR me epoch init l s -> step n PS HDR me epoch o s = Some s' ->
    Hist n PS HDR me epoch init (l ++ executed [o]) s'
| HRestart : forall l s s', Hist n PS HDR me epoch init l s -> OwnKnown me (accepted epoch l []) (s_priv s) ->
    restart n me init (s_store s) (s_priv s) = Some s' ->
    Hist n PS HDR me epoch init l s'
| HCrash : forall l s m req store priv s', Hist n PS HDR me epoch init l s ->
    In (store, priv) (tl (crashPoints n PS HDR me epoch m req s)) -> OwnKnown me (accepted epoch (l ++ [(m, req)]) []) priv ->
    restart n me init store priv = Some s' ->
    Hist n PS HDR me epoch init (l ++ [(m, req)]) s'
| HTransfer : forall l s l' me' init' s2 more s', Hist n PS HDR me epoch init l s ->
    run n PS HDR me' epoch (map (fun p => OExec (fst p) (snd p)) l') (start init') = Some s2 ->
    accepted epoch l' [] = accepted epoch l [] ++ more -> OwnKnown me (accepted epoch l' []) (s_priv s) ->
    loadPublicKeys n me (s_store s2) s = Some s' ->
    Hist n PS HDR me epoch init l' s'.

(** Every executed exchange that names the replica is one it generated and waits for, or was executed before. *)
Definition ownStep (me : nat) (o : op) (s : st) : Prop :=
  forall m req, o = OExec m req -> k_rep m = me ->
    k_pub m <> [] /\ (s_map s (toSeq (k_gen m)) <> None \/ kfind (toSeq (k_gen m)) (s_store s me) <> None).
Fixpoint ownOnly (n PS HDR me : nat) (epoch : Z) (ops : list op) (s : st) : Prop :=
  match ops with
  | [] => True
  | o :: ops' => ownStep me o s /\ forall s', step n PS HDR me epoch o s = Some s' -> ownOnly n PS HDR me epoch ops' s'
  end.
