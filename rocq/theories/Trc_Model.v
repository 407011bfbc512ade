(** The thin-replica client: it reads updates from one server and hashes of them from others, and hands an update to the
    application when f + 1 servers agree on it.
    client/thin-replica-client/src/thin_replica_client.cpp, trc_hash.cpp, grpc_connection.cpp.

    SHA-256 is a parameter [H] (any function).  Servers are numbered 0 .. nserv-1; [honest i] says which ones follow the
    protocol.  The environment is a table of choices: [ch i n] decides, if the n-th call goes to server i, whether the call
    succeeds, times out or fails and, for a faulty server, what it answers.  A successful call to an honest
    server is answered from the history [U], the sequence of updates of the chain.  Not modelled: tracing spans, metrics,
    logging, the stop flag (a stopped thread pushes nothing more), the update queue, the overflow assertion on event-group
    ids (ids are unbounded). *)
From Coq Require Import List Arith NArith Lia Bool Permutation.
From Verif Require Import Lib_Bytes.
Import ListNotations.

Inductive kind := KEvents | KGroup.
(** proto Data.events: block_id, correlation_id, data (key-value pairs); Data.event_group: id, record_time, events. *)
Inductive update :=
  | Events (block_id : N) (cid : bytes) (kvs : list (bytes * bytes))
  | Group (id : N) (record_time : bytes) (evs : list bytes).
Definition kindOf (u : update) : kind := match u with Events _ _ _ => KEvents | Group _ _ _ => KGroup end.
Definition idOf (u : update) : N := match u with Events b _ _ => b | Group g _ _ => g end.
(** A protobuf oneof may be unset. *)
Inductive dataMsg := DNone | DUpd (u : update).
Inductive hashMsg := HNone | HRec (k : kind) (id : N) (h : bytes).

(** Exceptions end the subscription and are handed to the application (receiveUpdatesWrapper, 1063-1071); [Abort] is a
    failed ConcordAssert: the process dies. *)
Inductive err := EInternal | EOutOfRange | ENotFound | EInvalidArgument.
Inductive out (A : Type) := Ok (a : A) | Throw (e : err) | Abort.
Arguments Ok {A}. Arguments Throw {A}. Arguments Abort {A}.
Definition bindO {A B} (x : out A) (k : A -> out B) : out B :=
  match x with Ok a => k a | Throw e => Throw e | Abort => Abort end.

(** std::string comparison (unsigned bytes). *)
Fixpoint lex (a b : bytes) : comparison :=
  match a, b with
  | [], [] => Eq
  | [], _ :: _ => Lt
  | _ :: _, [] => Gt
  | x :: a', y :: b' => match N.compare x y with Eq => lex a' b' | c => c end
  end.
(** Insertion into std::map / std::set; [None] when the key is there already. *)
Fixpoint insertM {A} (k : bytes) (v : A) (m : list (bytes * A)) : option (list (bytes * A)) :=
  match m with
  | [] => Some [(k, v)]
  | (k', v') :: m' =>
    match lex k k' with
    | Lt => Some ((k, v) :: (k', v') :: m')
    | Eq => None
    | Gt => match insertM k v m' with None => None | Some m'' => Some ((k', v') :: m'') end
    end
  end.
Fixpoint insertAll {A} (l : list (bytes * A)) (m : list (bytes * A)) : option (list (bytes * A)) :=
  match l with
  | [] => Some m
  | (k, v) :: l' => match insertM k v m with None => None | Some m' => insertAll l' m' end
  end.

Section Client.
Variable H : bytes -> bytes.

(** trc_hash.cpp:49-76 hashUpdateFromEntryHashes (little endian): the string that is hashed. *)
Definition preimage (id : N) (parts : list bytes) : bytes := le 8 id ++ concat parts.
(** trc_hash.cpp:103-131, 133-157 hashUpdate *)
Definition hashUpdate (u : update) : out bytes :=
  match u with
  | Events b _ kvs =>
    match insertAll (map (fun p => (H (fst p), H (snd p))) kvs) [] with
    | None => Throw EInvalidArgument
    | Some m => Ok (H (preimage b (flat_map (fun p => [fst p; snd p]) m)))
    end
  | Group g _ evs =>
    match insertAll (map (fun e => (H e, tt)) evs) [] with
    | None => Abort
    | Some m => Ok (H (preimage g (map fst m)))
    end
  end.

(** grpc_connection.hpp Result *)
Inductive result := RSuccess | RTimeout | RFailure | ROutOfRange | RNotFound.
Record choice := mkC { c_res : result; c_data : dataMsg; c_hash : hashMsg }.
(** SubscriptionRequest: a block id or an event group id. *)
Inductive request := ReqEvents (b : N) | ReqGroup (g : N).

Variable nserv : nat.          (* config_->trs_conns.size() *)
Variable f : nat.              (* config_->max_faulty *)
Variable honest : nat -> bool.
Variable U : nat -> update.    (* the updates of the chain, in order *)
Variable posOf : request -> nat. (* where an honest server starts to send for a request *)
Variable ch : nat -> nat -> choice. (* by server and call *)
Variable ord : list nat -> list nat. (* iteration order of the unordered_set of servers *)

(** thin_replica_client.hpp: the members.  The connections: for each server, whether a data / hash stream is open and (for
    honest servers) the position in U of the next update it sends. *)
Record st := mkS {
  s_data : nat -> option nat;
  s_hash : nat -> option nat;
  s_dci : nat;      (* data_conn_index_ *)
  s_lb : N;         (* latest_verified_block_id_ *)
  s_lg : N;         (* latest_verified_event_group_id_ *)
  s_eg : bool;      (* is_event_group_request_ *)
  s_ok : bool;      (* is_subscription_successful_ *)
  s_tick : nat }.
Definition setData (s : st) i p := mkS (fun j => if j =? i then p else s_data s j) (s_hash s) (s_dci s) (s_lb s) (s_lg s) (s_eg s) (s_ok s) (s_tick s).
Definition setHash (s : st) i p := mkS (s_data s) (fun j => if j =? i then p else s_hash s j) (s_dci s) (s_lb s) (s_lg s) (s_eg s) (s_ok s) (s_tick s).
Definition setDci (s : st) i := mkS (s_data s) (s_hash s) i (s_lb s) (s_lg s) (s_eg s) (s_ok s) (s_tick s).
Definition tickS (s : st) := mkS (s_data s) (s_hash s) (s_dci s) (s_lb s) (s_lg s) (s_eg s) (s_ok s) (S (s_tick s)).

(** thin_replica_client.cpp:284-289, 375-381 *)
Definition requestOf (s : st) : request := if s_eg s then ReqGroup (s_lg s + 1) else ReqEvents (s_lb s + 1).

(** What an honest server sends for an update (thin_replica_impl.hpp sendData / sendHash; the hash is computed by
    kvbc_app_filter.cpp:177-258, the same function as [hashUpdate]). *)
Definition hashMsgOf (u : update) : hashMsg := match hashUpdate u with Ok h => HRec (kindOf u) (idOf u) h | _ => HNone end.

(** grpc_connection.cpp:117-150, 287-320 openDataStream, openHashStream: success, timeout or failure. *)
Definition openRes (r : result) : result := match r with RSuccess => RSuccess | RTimeout => RTimeout | _ => RFailure end.
Definition openData (s : st) (i : nat) : result * st :=
  let r := openRes (c_res (ch i (s_tick s))) in
  (r, tickS (setData s i (match r with RSuccess => Some (posOf (requestOf s)) | _ => None end))).
Definition openHash (s : st) (i : nat) : result * st :=
  let r := openRes (c_res (ch i (s_tick s))) in
  (r, tickS (setHash s i (match r with RSuccess => Some (posOf (requestOf s)) | _ => None end))).
(** grpc_connection.cpp:166-189, 338-361 readData, readHash; both assert that the stream is open; a timeout closes it. *)
Definition readData (s : st) (i : nat) : out (result * dataMsg * st) :=
  match s_data s i with
  | None => Abort
  | Some p =>
    let c := ch i (s_tick s) in
    match c_res c with
    | RSuccess => Ok (RSuccess, if honest i then DUpd (U p) else c_data c, tickS (setData s i (Some (S p))))
    | RTimeout => Ok (RTimeout, DNone, tickS (setData s i None))
    | r => Ok (r, DNone, tickS s)
    end
  end.
Definition readHash (s : st) (i : nat) : out (result * hashMsg * st) :=
  match s_hash s i with
  | None => Abort
  | Some p =>
    let c := ch i (s_tick s) in
    match c_res c with
    | RSuccess => Ok (RSuccess, if honest i then hashMsgOf (U p) else c_hash c, tickS (setHash s i (Some (S p))))
    | RTimeout => Ok (RTimeout, HNone, tickS (setHash s i None))
    | r => Ok (r, HNone, tickS s)
    end
  end.

(** thin_replica_client.hpp:226-251 HashRecord, HashRecordMap *)
Record hrec := mkH { h_kind : kind; h_id : N; h_hash : bytes }.
Definition kind_eqb (a b : kind) : bool := match a, b with KEvents, KEvents => true | KGroup, KGroup => true | _, _ => false end.
Fixpoint bytes_eqb (a b : bytes) : bool :=
  match a, b with [], [] => true | x :: a', y :: b' => (x =? y)%N && bytes_eqb a' b' | _, _ => false end.
Definition hrec_eqb (a b : hrec) : bool := kind_eqb (h_kind a) (h_kind b) && (h_id a =? h_id b)%N && bytes_eqb (h_hash a) (h_hash b).
(** The data of one iteration: the map, the size of the largest agreeing set and its record, and the two error counters. *)
Record racc := mkR {
  r_map : list (hrec * list nat);
  r_most : nat;
  r_best : option hrec;
  r_oor : nat;
  r_pruned : nat }.
Definition emptyR : racc := mkR [] 0 None 0 0.
Fixpoint membersOf (m : list (hrec * list nat)) (r : hrec) : list nat :=
  match m with [] => [] | (r', l) :: m' => if hrec_eqb r r' then l else membersOf m' r end.
Fixpoint addMember (m : list (hrec * list nat)) (r : hrec) (i : nat) : list (hrec * list nat) :=
  match m with
  | [] => [(r, [i])]
  | (r', l) :: m' =>
    if hrec_eqb r r' then (r', if existsb (Nat.eqb i) l then l else l ++ [i]) :: m' else (r', l) :: addMember m' r i
  end.
(** thin_replica_client.cpp:77-104 recordCollectedHash *)
Definition record (i : nat) (r : hrec) (a : racc) : racc :=
  let m := addMember (r_map a) r i in
  let n := length (membersOf m r) in
  if r_most a <? n then mkR m n (Some r) (r_oor a) (r_pruned a) else mkR m (r_most a) (r_best a) (r_oor a) (r_pruned a).

(** kThinReplicaHashLength *)
Definition HASHLEN : nat := 32.
Definition pad (h : bytes) : bytes := h ++ repeat 0%N (HASHLEN - length h).
Definition latestOf (s : st) (k : kind) : N := match k with KEvents => s_lb s | KGroup => s_lg s end.

(** thin_replica_client.cpp:106-188 readUpdateHashFromStream *)
Definition countErr (s : st) (r : result) (a : racc) : racc :=
  match r with
  | ROutOfRange => if s_ok s then a else mkR (r_map a) (r_most a) (r_best a) (S (r_oor a)) (r_pruned a)
  | RNotFound => mkR (r_map a) (r_most a) (r_best a) (r_oor a) (S (r_pruned a))
  | _ => a
  end.
Definition readUpdateHash (s : st) (i : nat) (a : racc) : out (racc * st) :=
  bindO (readHash s i) (fun '(r, m, s') =>
  match r with
  | RSuccess =>
    match m with
    | HNone => Abort
    | HRec k id h =>
      if (id <? latestOf s k)%N then Ok (a, s')
      else if HASHLEN <? length h then Ok (a, s')
      else Ok (record i (mkH k id (pad h)) a, s')
    end
  | _ => Ok (countErr s r a, s')
  end).

(** thin_replica_client.cpp:190-260 readBlock.  The result of the read and the update (if any). *)
Definition readBlock (s : st) (a : racc) : out (result * dataMsg * racc * st) :=
  match s_data s (s_dci s) with
  | None => Ok (RFailure, DNone, a, s)
  | Some _ =>
    bindO (readData s (s_dci s)) (fun '(r, m, s') =>
    match r with
    | RSuccess =>
      match m with
      | DNone => Abort
      | DUpd u =>
        if (idOf u <? latestOf s (kindOf u))%N then Ok (RSuccess, m, a, s')
        else bindO (hashUpdate u) (fun h => Ok (RSuccess, m, record (s_dci s) (mkH (kindOf u) (idOf u) h) a, s'))
      end
    | _ => Ok (r, m, a, s')
    end)
  end.

(** thin_replica_client.cpp:311-363 findBlockHashAgreement: the loop over the servers that were not tried. *)
Fixpoint agree_loop (servers : list nat) (s : st) (a : racc) : out (racc * st) :=
  match servers with
  | [] => Ok (a, s)
  | i :: rest =>
    if i =? s_dci s then agree_loop rest s a      (* servers_tried[data_conn_index_] *)
    else
      let read s :=
        bindO (readUpdateHash s i a) (fun '(a', s') => if f + 1 <=? r_most a' then Ok (a', s') else agree_loop rest s' a') in
      match s_hash s i with
      | Some _ => read s
      | None =>
        let (r, s') := openHash s i in
        match r with RSuccess => read s' | _ => agree_loop rest s' (countErr s' r a) end
      end
  end.
(** 300-309 stable_sort: the servers with an open hash stream first. *)
Definition sortedServers (s : st) : list nat :=
  let has i := match s_hash s i with Some _ => true | None => false end in
  filter has (seq 0 nserv) ++ filter (fun i => negb (has i)) (seq 0 nserv).
Definition findAgreement (s : st) (a : racc) : out (racc * st) := agree_loop (sortedServers s) s a.

(** thin_replica_client.cpp:366-386 resetDataStreamTo *)
Definition resetDataStreamTo (s : st) (i : nat) : result * st :=
  let s1 := setHash (setData s i None) i None in
  let s2 := setHash (setData s1 (s_dci s) None) (s_dci s) None in
  let (r, s3) := openData s2 i in
  (r, setDci s3 i).
(** 388-394 closeAllHashStreams *)
Definition closeAllHashStreams (s : st) : st :=
  mkS (s_data s) (fun j => if (j <? nserv) && negb (j =? s_dci s) then None else s_hash s j)
      (s_dci s) (s_lb s) (s_lg s) (s_eg s) (s_ok s) (s_tick s).

(** thin_replica_client.cpp:396-480 rotateDataStreamAndVerify *)
Fixpoint rotate (servers : list nat) (r : hrec) (s : st) : out (option update * st) :=
  match servers with
  | [] => Ok (None, s)
  | i :: rest =>
    let (ro, s1) := resetDataStreamTo s i in
    match ro with
    | RSuccess =>
      bindO (readData s1 i) (fun '(rr, m, s2) =>
      match rr with
      | RSuccess =>
        match m with
        | DNone => Abort
        | DUpd u =>
          if negb (idOf u =? h_id r)%N then rotate rest r s2
          else bindO (hashUpdate u) (fun h => if bytes_eqb h (h_hash r) then Ok (Some u, s2) else rotate rest r s2)
        end
      | _ => rotate rest r s2
      end)
    | _ => rotate rest r s1
    end
  end.

(** 508-612 the part of the loop without agreement.  hash_has_agreement (533) is never set there, as it asks for more than
    f + 1 servers when the largest set has at most f. *)
Definition serversWithHash (a : racc) : nat := fold_right (fun e n => length (snd e) + n) 0 (r_map a).
Definition hasAgreement (a : racc) : bool := existsb (fun e => f + 1 <? length (snd e)) (r_map a).
Definition retry (s : st) : st := snd (resetDataStreamTo (closeAllHashStreams s) ((s_dci s + 1) mod nserv)).
Definition noAgreement (s : st) (a : racc) : out (option update * st) :=
  if (2 * f + 1 <=? serversWithHash a) && negb (hasAgreement a) then Throw EInternal
  else if negb (s_ok s) && (f + 1 <=? r_oor a) then Throw EOutOfRange
  else if f + 1 <=? r_pruned a then Throw ENotFound
  else Ok (None, retry s).

(** 645-703 a verified update is pushed to the queue; the hash streams of the servers that did not agree are closed. *)
Definition deliver (s : st) (u : update) (members : list nat) : option update * st :=
  (Some u,
   mkS (s_data s) (fun j => if (j <? nserv) && negb (existsb (Nat.eqb j) members) then None else s_hash s j) (s_dci s)
       (match u with Events b _ _ => b | Group _ _ _ => s_lb s end)
       (match u with Events _ _ _ => s_lg s | Group g _ _ => g end)
       (match u with Events _ _ _ => s_eg s | Group _ _ _ => true end)
       true (s_tick s)).

(** thin_replica_client.cpp:516-704 one iteration of the main loop: the update that is pushed, if any. *)
Definition round (s : st) : out (option update * st) :=
  bindO (readBlock s emptyR) (fun '(r, m, a0, s1) =>
  let a0 := countErr s r a0 in
  bindO (findAgreement s1 a0) (fun '(a, s2) =>
  if r_most a <? f + 1 then noAgreement s2 a
  else match r_best a with
       | None => Abort
       | Some best =>
         let members := membersOf (r_map a) best in
         match (if existsb (Nat.eqb (s_dci s2)) members then m else DNone) with
         | DUpd u => Ok (deliver s2 u members)
         | DNone =>
           bindO (rotate (ord members) best s2) (fun '(ou, s3) =>
           match ou with
           | Some u => Ok (deliver s3 u members)
           | None => Ok (None, retry s3)
           end)
         end
       end)).

(** k iterations from a state: the updates pushed so far and how it stands. *)
Fixpoint rounds (k : nat) (s : st) : list update * out st :=
  match k with
  | 0 => ([], Ok s)
  | S k' =>
    match round s with
    | Ok (ou, s') => let (us, o) := rounds k' s' in ((match ou with Some u => [u] | None => [] end) ++ us, o)
    | Throw e => ([], Throw e)
    | Abort => ([], Abort)
    end
  end.

(** 964-989, 991-1014 Subscribe(block_id), Subscribe(SubscribeRequest) and 486-506 the start of receiveUpdates. *)
Definition start (req : request) (lb0 : N) : st :=
  let s0 := mkS (fun _ => None) (fun _ => None) 0
                (match req with ReqEvents b => if (0 <? b)%N then b - 1 else b | ReqGroup _ => lb0 end)%N
                (match req with ReqEvents _ => 0 | ReqGroup g => if (0 <? g)%N then g - 1 else g end)%N
                (match req with ReqEvents _ => false | ReqGroup _ => true end) false 0 in
  snd (resetDataStreamTo s0 0).
Definition runClient (req : request) (lb0 : N) (k : nat) : list update * out st := rounds k (start req lb0).
End Client.

(** ---------- Specification ---------- *)
(** The history: blocks 1 .. B are sent as events, then event groups numbered from e0 follow (thin_replica_impl.hpp:315-325,
    481-496).  A chain without event groups is one with B large enough. *)
Definition history (B : nat) (e0 : N) (blk : nat -> bytes * list (bytes * bytes)) (grp : nat -> bytes * list bytes) (n : nat) : update :=
  if n <? B then Events (N.of_nat n + 1) (fst (blk n)) (snd (blk n))
  else Group (e0 + N.of_nat (n - B)) (fst (grp (n - B))) (snd (grp (n - B))).
Definition historyPos (B : nat) (e0 : N) (r : request) : nat :=
  match r with
  | ReqEvents b => Nat.min (N.to_nat b - 1) B
  | ReqGroup g => B + (N.to_nat g - N.to_nat e0)
  end.
(** Two updates carry the same data for the application: the kind, the number and the events (in any order). *)
Definition SameUpdate (u v : update) : Prop :=
  match u, v with
  | Events b _ kvs, Events b' _ kvs' => b = b' /\ Permutation kvs kvs'
  | Group g _ evs, Group g' _ evs' => g = g' /\ Permutation evs evs'
  | _, _ => False
  end.
