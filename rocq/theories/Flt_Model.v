(** Model of the thin-replica server's filter: kvbc/src/kvbc_app_filter/kvbc_app_filter.cpp and
    kvbc/include/kvbc_app_filter/kvbc_app_filter.h (class KvbAppFilter), and of the event-group part of the subscription,
    thin-replica-server/include/thin-replica-server/thin_replica_impl.hpp.
    uint64_t values are integers; sums and differences are taken modulo 2^64 where the code computes them. *)
From Coq Require Import ZArith NArith List Bool.
From Verif Require Import Lib_Bytes.
Import ListNotations.
Local Open Scope Z_scope.

Definition two64 : Z := 2 ^ 64.
Definition max64 : Z := two64 - 1.              (* std::numeric_limits<uint64_t>::max() *)
Definition add64 (a b : Z) : Z := (a + b) mod two64.
Definition sub64 (a b : Z) : Z := (a - b) mod two64.

(** Result of a call: a value, a C++ exception, or a failed ConcordAssert (the process is aborted). *)
Inductive res (A : Type) := Ok (a : A) | Throw | Abort.
Arguments Ok {A} a. Arguments Throw {A}. Arguments Abort {A}.
Definition bind {A B} (r : res A) (f : A -> res B) : res B := match r with Ok a => f a | Throw => Throw | Abort => Abort end.

(** categorization::Event / EventGroup (kvbc_messages of categorization: data, tags; events, record_time). *)
Record event := mkEv { edata : bytes; etags : list bytes }.
Record group := mkG { gevents : list event; gtime : bytes }.
(** ImmutableValueUpdate entries of a block: prefixed key, data, tags. *)
Record kv := mkKv { kkey : bytes; kdata : bytes; ktags : list bytes }.
(** What parsing a value as the protobuf message ValueWithTrids gives: no parse, a message without value, a value. *)
Inductive parsed := PBad | PNone | PVal (v : bytes).

(** kPublicEgId "_public_eg_id" and kTagTableKeySeparator "#", kvbc_app_filter.h:199-203. *)
Definition pubTag : bytes := [95; 112; 117; 98; 108; 105; 99; 95; 101; 103; 95; 105; 100]%N.
Definition sfxOldest : bytes := [95; 111; 108; 100; 101; 115; 116]%N.
Definition sfxNewest : bytes := [95; 110; 101; 119; 101; 115; 116]%N.
(** Keys of the latest table (kvbc_app_filter.cpp:350-369; the public keys are kPublicEgId followed by the same suffixes). *)
Definition oldestKey (t : bytes) : bytes := t ++ sfxOldest.
Definition newestKey (t : bytes) : bytes := t ++ sfxNewest.
(** Key of a tag-table entry, kvbc_app_filter.cpp:317: tag # big-endian 64-bit number. *)
Definition tagKey (t : bytes) (n : Z) : bytes := t ++ [35%N] ++ be 8 (Z.to_N n).

(** The storage the filter reads: the two values of the latest table of each tag, the tag table (number of the event group within
    the tag to its global id and external id), the event groups by global id. [None] = no such key. The stored 64-bit values are
    given decoded; that the keys of distinct entries differ is theorem C37_keys_distinct. *)
Record store := mkSt { latOldest : bytes -> option Z; latNewest : bytes -> option Z; tagtab : bytes -> Z -> option (Z * Z); egdata : Z -> option group }.

(** getValueFromLatestTable, kvbc_app_filter.cpp:297-314. *)
Definition val (o : option Z) : Z := match o with Some v => v | None => 0 end.

(** getValueFromTagTable, kvbc_app_filter.cpp:316-343. *)
Definition getTag (T : store) (t : bytes) (n : Z) : res (Z * Z) :=
  match tagtab T t n with
  | None => Throw
  | Some (g, x) => if g =? 0 then Abort else Ok (g, x)
  end.

(** getEventGroup, kvbc_app_filter.cpp:706-736 (a missing group throws; an empty one is returned empty). *)
Definition getEventGroup (T : store) (g : Z) : res group := match egdata T g with None => Throw | Some x => Ok x end.

Section Filter.
Context (parse : bytes -> parsed).    (* ValueWithTrids::ParseFromArray / has_value / release_value *)
Context (hash : bytes -> bytes).      (* computeSHA256Hash *)
Context (client : bytes).             (* client_id_ *)

Definition beq (a b : bytes) : bool := if list_eq_dec N.eq_dec a b then true else false.
(** The loop over the tags, kvbc_app_filter.cpp:86-97 and 121-132. *)
Definition tagsAllow (tags : list bytes) : bool := match tags with [] => true | _ => existsb (fun t => beq t client) tags end.

(** filterKeyValuePairs, kvbc_app_filter.cpp:76-111. *)
Fixpoint filterKvs (l : list kv) : res (list (bytes * bytes)) :=
  match l with
  | [] => Ok []
  | x :: l =>
      if (length (kkey x) <? 8)%nat then Abort
      else if negb (tagsAllow (ktags x)) then filterKvs l
      else match parse (kdata x) with
           | PBad => filterKvs l
           | PNone => Throw
           | PVal v => bind (filterKvs l) (fun r => Ok ((skipn 8 (kkey x), v) :: r))
           end
  end.

(** filterEventsInEventGroup, kvbc_app_filter.cpp:113-155. *)
Fixpoint filterEvents (l : list event) : res (list event) :=
  match l with
  | [] => Ok []
  | x :: l =>
      if negb (tagsAllow (etags x)) then filterEvents l
      else match parse (edata x) with
           | PBad => filterEvents l
           | PNone => Throw
           | PVal v => bind (filterEvents l) (fun r => Ok (mkEv v (etags x) :: r))
           end
  end.
Definition filterGroup (g : group) : res group := bind (filterEvents (gevents g)) (fun l => Ok (mkG l (gtime g))).

(** filterEventGroupUpdate, kvbc_app_filter.cpp:162-170: None for a group with no event for the client. *)
Definition filterEgUpdate (id : Z) (g : group) : res (option (Z * group)) :=
  bind (filterGroup g) (fun f => Ok (match gevents f with [] => None | _ => Some (id, f) end)).

(** oldestExternalEventGroupId, kvbc_app_filter.cpp:349-363. *)
Definition oldestExternal (T : store) : Z :=
  let po := val (latOldest T pubTag) in
  let vo := val (latOldest T client) in
  if (po =? 0) && (vo =? 0) then 0
  else if po =? 0 then add64 vo (val (latNewest T pubTag))
  else if vo =? 0 then add64 po (val (latNewest T client))
  else sub64 (add64 po vo) 1.
(** newestExternalEventGroupId, kvbc_app_filter.cpp:367-371. *)
Definition newestExternal (T : store) : Z := add64 (val (latNewest T pubTag)) (val (latNewest T client)).

(** FindGlobalEgIdResult, kvbc_app_filter.h:55-60. *)
Record found := mkF { fglobal : Z; fpublic : bool; fpriv : Z; fpub : Z }.

(** The binary search, kvbc_app_filter.cpp:400-420. [cur] is (current_pvt_eg_id, current_global_eg_id, current_ext_eg_id). *)
Fixpoint search (fuel : nat) (T : store) (e ws we : Z) (cur : Z * Z * Z) : res (Z * Z * Z) :=
  match fuel with
  | O => Ok cur
  | S fuel =>
      if (ws =? 0) || (we <? ws) then Ok cur
      else
        let size := add64 (sub64 we ws) 1 in
        let p := add64 ws (size / 2) in
        bind (getTag T client p) (fun gx =>
          let '(g, x) := gx in
          if (x =? e) || (size =? 1) then Ok (p, g, x)
          else if x <? e then search fuel T e (add64 p 1) we (p, g, x)
          else search fuel T e ws (sub64 p 1) (p, g, x))
  end.

(** findGlobalEventGroupId, kvbc_app_filter.cpp:373-445. The number of rounds of the search is bounded by its first window. *)
Definition findGlobal (T : store) (e : Z) : res found :=
  let oldest := oldestExternal T in
  let newest := newestExternal T in
  if (oldest =? 0) || (e <? oldest) || (newest <? e) then Abort
  else
    let pubS := val (latOldest T pubTag) in
    let pubE := val (latNewest T pubTag) in
    let prvS := val (latOldest T client) in
    let prvE := val (latNewest T client) in
    if (prvS =? 0) && (prvE =? 0) then bind (getTag T pubTag e) (fun gx => Ok (mkF (fst gx) true prvE e))
    else if (pubS =? 0) && (pubE =? 0) then bind (getTag T client e) (fun gx => Ok (mkF (fst gx) false e pubE))
    else bind (search (Z.to_nat prvE + 2) T e prvS prvE (0, 0, 0)) (fun c =>
      let '(p, g, x) := c in
      if x =? e then Ok (mkF g false p (sub64 e p))
      else
        let '(p, x) := if prvS =? 0 then (prvE, sub64 (add64 prvE pubS) 1) else (p, x) in
        if (prvS =? 0) && (prvE =? 0) then Abort
        else if e <? x then
          let q := sub64 (sub64 x p) (sub64 (sub64 x e) 1) in
          bind (getTag T pubTag q) (fun gx => Ok (mkF (fst gx) true (sub64 p 1) q))
        else if e <=? x then Abort
        else
          let q := add64 (sub64 x p) (sub64 e x) in
          bind (getTag T pubTag q) (fun gx => Ok (mkF (fst gx) true p q))).

(** How a call that delivers updates ended: returned having recorded (last external id, last global id) as read
    (setLastEgIdsRead, 738-740), threw, or an assertion failed. *)
Inductive ending := Finished (last : Z * Z) | Thrown | Asserted | OutOfFuel.

(** The try blocks, kvbc_app_filter.cpp:474-486: only exceptions are caught. *)
Definition getOrMax (T : store) (t : bytes) (n : Z) : res (Z * Z) :=
  match getTag T t n with Throw => Ok (max64, 0) | r => r end.
(** "Update next public or private ids", 504-516. *)
Definition nextOf (T : store) (t : bytes) (n newest : Z) : res (Z * Z) :=
  if newest <? n then Ok (max64, 0) else getTag T t n.

(** The loop of readEventGroups, kvbc_app_filter.cpp:488-530. [go] is the answer of process_update: it is given the updates so far.
    (pvt_external_id keeps its old value when the next private id is set to the maximum; it is then not used.) *)
Fixpoint readLoop (fuel : nat) (go : list (Z * group) -> bool) (T : store) (newPub newPrv newExt : Z)
                  (out : list (Z * group)) (ext glob : Z) (prevPub : bool) (nPrv nPub : Z) (prvG prvX pubG : Z) : list (Z * group) * ending :=
  match fuel with
  | O => (out, OutOfFuel)
  | S fuel =>
      if newExt <? ext then (out, Finished (ext, glob))
      else match getEventGroup T glob with
      | Throw => (out, Thrown)
      | Abort => (out, Asserted)
      | Ok g =>
          match gevents g with
          | [] => (out, Thrown)
          | _ =>
              match filterGroup g with
              | Throw => (out, Thrown)
              | Abort => (out, Asserted)
              | Ok f =>
                  let out := out ++ [(ext, f)] in
                  if negb (go out) then (out, Finished (ext, glob))
                  else if ext =? newExt then (out, Finished (ext, glob))
                  else
                    let upd := if prevPub then bind (nextOf T pubTag nPub newPub) (fun gx => Ok (prvG, prvX, fst gx))
                               else bind (nextOf T client nPrv newPrv) (fun gx => Ok (fst gx, snd gx, pubG)) in
                    match upd with
                    | Throw => (out, Thrown)
                    | Abort => (out, Asserted)
                    | Ok (prvG, prvX, pubG) =>
                        if (prvG =? max64) && (pubG =? max64) then (out, Finished (ext, glob))
                        else if prvG <? pubG then
                          if add64 ext 1 =? prvX then readLoop fuel go T newPub newPrv newExt out (add64 ext 1) prvG false (add64 nPrv 1) nPub prvG prvX pubG
                          else (out, Asserted)
                        else readLoop fuel go T newPub newPrv newExt out (add64 ext 1) pubG true nPrv (add64 nPub 1) prvG prvX pubG
                    end
              end
          end
      end
  end.

(** readEventGroups, kvbc_app_filter.cpp:447-531. The newest public id is the first thing read, from the storage as it is then ([T0]);
    everything else is read from [T], the storage a moment later: the replica goes on adding blocks while the call runs. *)
Definition readEventGroups (go : list (Z * group) -> bool) (T0 T : store) (start : Z) : list (Z * group) * ending :=
  if start <=? 0 then ([], Asserted)
  else
    let newPub := val (latNewest T0 pubTag) in
    let newPrv := val (latNewest T client) in
    let oldExt := oldestExternal T in
    let newExt := newestExternal T in
    if oldExt =? 0 then ([], Thrown)
    else if (start <? oldExt) || (newExt <? start) then ([], Thrown)
    else match findGlobal T start with
    | Throw => ([], Thrown)
    | Abort => ([], Asserted)
    | Ok f =>
        let nPrv := add64 (fpriv f) 1 in
        let nPub := add64 (fpub f) 1 in
        match getOrMax T client nPrv with
        | Ok (prvG, prvX) =>
            match getOrMax T pubTag nPub with
            | Ok (pubG, _) => readLoop (Z.to_nat (newExt - start) + 2) go T newPub newPrv newExt [] start (fglobal f) (fpublic f) nPrv nPub prvG prvX pubG
            | Throw => ([], Thrown)
            | Abort => ([], Asserted)
            end
        | Throw => ([], Thrown)
        | Abort => ([], Asserted)
        end
    end.

(** std::set<string> of hashes: sorted, without duplicates; inserting a second equal hash fails the assertion before it
    (kvbc_app_filter.cpp:231-235). Strings are compared as unsigned bytes. *)
Fixpoint blt (a b : bytes) : bool :=
  match a, b with
  | _, [] => false
  | [], _ => true
  | x :: a, y :: b => (x <? y)%N || ((x =? y)%N && blt a b)
  end.
Fixpoint insSorted (x : bytes) (l : list bytes) : list bytes :=
  match l with [] => [x] | y :: r => if blt x y then x :: l else y :: insSorted x r end.
(** hashEventGroupUpdate, kvbc_app_filter.cpp:219-264 (little-endian host). *)
Fixpoint entryHashes (l : list event) (s : list bytes) : res (list bytes) :=
  match l with
  | [] => Ok s
  | x :: l => let h := hash (edata x) in if existsb (beq h) s then Abort else entryHashes l (insSorted h s)
  end.
Definition hashEgUpdate (id : Z) (g : group) : res bytes :=
  bind (entryHashes (gevents g) []) (fun s => Ok (hash (le 8 (Z.to_N id) ++ concat s))).

(** hashUpdate, kvbc_app_filter.cpp:177-217: the map from the hash of a key to the hash of its value, ordered by the former. *)
Fixpoint insKv (k v : bytes) (l : list (bytes * bytes)) : list (bytes * bytes) :=
  match l with [] => [(k, v)] | (y, w) :: r => if blt k y then (k, v) :: l else (y, w) :: insKv k v r end.
Fixpoint kvHashes (l : list (bytes * bytes)) (s : list (bytes * bytes)) : res (list (bytes * bytes)) :=
  match l with
  | [] => Ok s
  | (k, v) :: l => let h := hash k in if existsb (fun p => beq h (fst p)) s then Abort else kvHashes l (insKv h (hash v) s)
  end.
Definition hashUpdate (id : Z) (l : list (bytes * bytes)) : res bytes :=
  bind (kvHashes l []) (fun s => Ok (hash (le 8 (Z.to_N id) ++ concat (map (fun p => fst p ++ snd p) s)))).

(** readEventGroupHash, kvbc_app_filter.cpp:564-593; second component: what setLastEgIdsRead records. *)
Definition readEventGroupHash (T : store) (e : Z) : res (bytes * (Z * Z)) :=
  let oldest := oldestExternal T in
  let newest := newestExternal T in
  if oldest =? 0 then Throw
  else if e =? 0 then Throw
  else if (e <? oldest) || (newest <? e) then Throw
  else bind (findGlobal T e) (fun f =>
       bind (getEventGroup T (fglobal f)) (fun g =>
       match gevents g with
       | [] => Throw
       | _ => bind (filterGroup g) (fun fg => bind (hashEgUpdate e fg) (fun h => Ok (h, (e, fglobal f))))
       end)).

(** readEventGroupRangeHash, kvbc_app_filter.cpp:621-632. The updates delivered so far are hashed one by one; a failed assertion
    inside hashEventGroupUpdate aborts. *)
Fixpoint hashAll (l : list (Z * group)) : res bytes :=
  match l with [] => Ok [] | (e, g) :: l => bind (hashEgUpdate e g) (fun h => bind (hashAll l) (fun r => Ok (h ++ r))) end.
Definition readEventGroupRangeHash (T : store) (start : Z) : res bytes :=
  let '(out, en) := readEventGroups (fun _ => true) T T start in
  match hashAll out, en with
  | Ok hs, Finished _ => Ok (hash hs)
  | Abort, _ => Abort
  | _, Asserted => Abort
  | _, _ => Throw
  end.

(** Legacy events. [blockKvs b]: the key-values of category execution_events of block b ([None]: the block cannot be read),
    [last]: getLastBlockId, [egBlock]: getOldestEventGroupBlockId. getBlockEvents, kvbc_app_filter.cpp:673-704. *)
Definition getBlockEvents (blockKvs : Z -> option (list kv)) (egBlock : option Z) (b : Z) : res (list kv) :=
  match egBlock with
  | Some x => if x <=? b then Throw else match blockKvs b with None => Throw | Some l => Ok l end
  | None => match blockKvs b with None => Throw | Some l => Ok l end
  end.
Fixpoint blockLoop (n : nat) (go : list (Z * list (bytes * bytes)) -> bool) (blockKvs : Z -> option (list kv)) (egBlock : option Z)
                   (b : Z) (out : list (Z * list (bytes * bytes))) : list (Z * list (bytes * bytes)) * ending :=
  match n with
  | O => (out, Finished (0, 0))
  | S n =>
      match bind (getBlockEvents blockKvs egBlock b) filterKvs with
      | Throw => (out, Thrown)
      | Abort => (out, Asserted)
      | Ok l => let out := out ++ [(b, l)] in if go out then blockLoop n go blockKvs egBlock (b + 1) out else (out, Finished (0, 0))
      end
  end.
(** readBlockRange, kvbc_app_filter.cpp:266-301 ([go] = the reader was not stopped). *)
Definition readBlockRange (go : list (Z * list (bytes * bytes)) -> bool) (blockKvs : Z -> option (list kv)) (egBlock : option Z) (last s e : Z) :=
  if (e <? s) || (last <? e) then ([], Thrown) else blockLoop (Z.to_nat (e - s + 1)) go blockKvs egBlock s [].
(** readBlockHash, kvbc_app_filter.cpp:545-562. *)
Definition readBlockHash (blockKvs : Z -> option (list kv)) (egBlock : option Z) (last b : Z) : res bytes :=
  if last <? b then Throw else bind (getBlockEvents blockKvs egBlock b) (fun l => bind (filterKvs l) (hashUpdate b)).
End Filter.

(** * Specification *)

(** The history of event groups: the i-th group (from 1) has global id i. A group is public, or private to the clients whose tags it
    carries (the test's storage, kvbc/test/kvbc_app_filter/kvbc_filter_test.cpp:219-262, numbers them this way; the code that writes
    the tables is not in the repository). *)
Inductive cls := Pub | Priv (tags : list bytes).
Definition hist := list (cls * group).
Definition isTagged (t : bytes) (c : cls) : bool :=
  match c with Pub => beq t pubTag | Priv l => negb (beq t pubTag) && existsb (beq t) l end.
(** Number of groups of the history with tag t. *)
Fixpoint cnt (t : bytes) (W : hist) : nat := match W with [] => 0%nat | (c, _) :: W => ((if isTagged t c then 1 else 0) + cnt t W)%nat end.

(** The tables are those of history [W] of which the first [k] groups were pruned, as far as tag [t] is concerned:
    "newest" is the number of groups with the tag; "oldest" is the number of the first one left, 0 if none is left; the entry of the
    n-th group with the tag names its global id and (for a private tag) its number in the client's own order, the groups that are
    public or carry the tag; nothing is stored for pruned and for future groups. *)
Definition tablesFor (T : store) (W : hist) (k : nat) (t : bytes) : Prop :=
  val (latNewest T t) = Z.of_nat (cnt t W) /\
  val (latOldest T t) = (if (cnt t (firstn k W) =? cnt t W)%nat then 0 else Z.of_nat (cnt t (firstn k W)) + 1) /\
  (forall i c g, nth_error W i = Some (c, g) -> isTagged t c = true -> (k <= i)%nat ->
     exists x, tagtab T t (Z.of_nat (cnt t (firstn i W)) + 1) = Some (Z.of_nat i + 1, x) /\
               (t <> pubTag -> x = Z.of_nat (cnt t (firstn i W)) + 1 + Z.of_nat (cnt pubTag (firstn i W)))) /\
  (forall n, n <= Z.of_nat (cnt t (firstn k W)) \/ Z.of_nat (cnt t W) < n -> tagtab T t n = None).
Definition represents (T : store) (W : hist) (k : nat) (client : bytes) : Prop :=
  (k <= length W)%nat /\ Z.of_nat (length W) < max64 /\ client <> pubTag /\
  tablesFor T W k pubTag /\ tablesFor T W k client /\
  (forall i c g, nth_error W i = Some (c, g) -> (k <= i)%nat -> egdata T (Z.of_nat i + 1) = Some g).

(** The groups a client may see, with their global ids, in order: the e-th of them has external id e. *)
Definition visible (client : bytes) (c : cls) : bool := match c with Pub => true | Priv l => existsb (beq client) l end.
Fixpoint seen (client : bytes) (g0 : Z) (W : hist) : list (Z * group) :=
  match W with [] => [] | (c, g) :: W => (if visible client c then [(g0, g)] else []) ++ seen client (g0 + 1) W end.
Definition groupsOf (client : bytes) (W : hist) : list (Z * group) := seen client 1 W.

Section Spec.
Context (parse : bytes -> parsed) (client : bytes).
(** May the client read something with these tags: no tags at all, or its own among them. *)
Definition mayRead (tags : list bytes) : Prop := tags = [] \/ In client tags.
(** The events of a group the client is to get: those it may read and whose data is a value, with the value as data. *)
Fixpoint visibleEvents (l : list event) : list event :=
  match l with
  | [] => []
  | x :: l => (if tagsAllow client (etags x) then match parse (edata x) with PVal v => [mkEv v (etags x)] | _ => [] end else []) ++ visibleEvents l
  end.
Definition viewOf (g : group) : group := mkG (visibleEvents (gevents g)) (gtime g).
(** A group that can be sent: it has events, and no event the client may read lacks its value. *)
Definition sendable (g : group) : Prop := gevents g <> [] /\ forall x, In x (gevents g) -> mayRead (etags x) -> parse (edata x) <> PNone.
(** What the client is to get for groups that follow each other in its order, the first having external id e. *)
Fixpoint numbered (e : Z) (l : list (Z * group)) : list (Z * group) :=
  match l with [] => [] | (_, g) :: l => (e, viewOf g) :: numbered (e + 1) l end.
End Spec.

(** * The event-group subscription (thin_replica_impl.hpp) *)
Section Stream.
Context (parse : bytes -> parsed) (hash : bytes -> bytes) (client : bytes).
(** How the stream ends for a given sequence of live updates: waiting for the next one with (last external, last global) id read;
    an exception (the subscription is closed with an error status); a failed assertion. *)
Inductive sending := Waiting (last : Z * Z) | Closed | Aborted.

(** The live loop, thin_replica_impl.hpp:519-566. *)
Fixpoint live (last : Z * Z) (q : list (Z * group)) (out : list (Z * group)) : list (Z * group) * sending :=
  match q with
  | [] => (out, Waiting last)
  | (g, x) :: q =>
      if g <=? snd last then (out, Aborted)
      else match filterEgUpdate parse client g x with
      | Throw => (out, Closed)
      | Abort => (out, Aborted)
      | Ok None => live last q out
      | Ok (Some (_, f)) => let e := add64 (fst last) 1 in live (e, g) q (out ++ [(e, f)])
      end
  end.

(** Filling the gap from storage, thin_replica_impl.hpp:1077-1111: global ids next, next + 1, ... below [upto] (n of them).
    [ext] is ext_eg_id. Returns the updates, the recorded ids, or how it failed. *)
Fixpoint gap (n : nat) (D : Z -> option group) (next ext : Z) (last : Z * Z) (out : list (Z * group)) : list (Z * group) * res (Z * Z) :=
  match n with
  | O => (out, Ok last)
  | S n =>
      match D next with
      | None => (out, Throw)
      | Some x =>
          match gevents x with
          | [] => (out, Throw)
          | _ =>
              match filterEgUpdate parse client next x with
              | Throw => (out, Throw)
              | Abort => (out, Abort)
              | Ok None => gap n D (add64 next 1) ext last out
              | Ok (Some (_, f)) => gap n D (add64 next 1) (add64 ext 1) (ext, next) (out ++ [(ext, f)])
              end
          end
      end
  end.

(** The loop of syncAndSendEventGroups after the history was sent, thin_replica_impl.hpp:1037-1113, and then the live loop. [endExt]:
    end_ext_storage_eg_id; [q]: the live updates in the order in which they reach this subscription; [D]: the stored groups. *)
Fixpoint sync (D : Z -> option group) (endExt next : Z) (last : Z * Z) (q : list (Z * group)) (out : list (Z * group)) : list (Z * group) * sending :=
  match q with
  | [] => (out, Waiting last)
  | (g, x) :: q' =>
      if g <? next then sync D endExt next last q' out
      else if g =? next then
        match filterEgUpdate parse client g x with
        | Throw => (out, Closed)
        | Abort => (out, Aborted)
        | Ok None => sync D endExt (add64 next 1) last q' out
        | Ok (Some _) => live last q out
        end
      else match gap (Z.to_nat (g - next)) D next (add64 endExt 1) last out with
           | (out, Ok last) => live last q out
           | (out, Throw) => (out, Closed)
           | (out, Abort) => (out, Aborted)
           end
  end.

(** syncAndSendEventGroups for a data stream (1008-1035, 815-856 with readEventGroupRange, 533-543) followed by the live loop. [T1]: the
    storage when the oldest and newest external ids are read (1014-1015); [T0], [T]: the storage during readEventGroups; [D]: the stored
    groups afterwards. The queue of ten updates between reader and sender is a FIFO and not modelled; the stream is not cancelled. *)
Definition dataStream (T1 T0 T : store) (D : Z -> option group) (start : Z) (q : list (Z * group)) : list (Z * group) * sending :=
  let old := oldestExternal client T1 in
  let new := newestExternal client T1 in
  if (start <? old) || (negb (new =? 0) && (old =? 0)) then ([], Closed)
  else if (new <? old) || (new <? start) then ([], Aborted)
  else match readEventGroups parse client (fun _ => true) T0 T start with
       | (out, Finished last) => sync D new (add64 (snd last) 1) last q out
       | (out, Asserted) => (out, Aborted)
       | (out, _) => (out, Closed)
       end.

(** readEventGroupsFromKvbAndSendHashes, thin_replica_impl.hpp:876-890: ids start, start + 1, ..., end, n of them. *)
Fixpoint sendHashes (n : nat) (T : store) (e : Z) (last : Z * Z) (out : list (Z * bytes)) : list (Z * bytes) * res (Z * Z) :=
  match n with
  | O => (out, Ok last)
  | S n =>
      match readEventGroupHash parse hash client T e with
      | Throw => (out, Throw)
      | Abort => (out, Abort)
      | Ok (h, last) => sendHashes n T (e + 1) last (out ++ [(e, h)])
      end
  end.
(** The updates of a hash stream are those of a data stream, hashed (thin_replica_impl.hpp:553-557, 1106-1110); the updates before the
    one whose hash aborts are sent. *)
Fixpoint hashUpdates (l : list (Z * group)) : res (list (Z * bytes)) :=
  match l with [] => Ok [] | (e, g) :: l => bind (hashEgUpdate hash e g) (fun h => bind (hashUpdates l) (fun r => Ok ((e, h) :: r))) end.
(** The same for a hash stream; the hashes are read one by one from [T]. *)
Definition hashStream (T1 T : store) (D : Z -> option group) (start : Z) (q : list (Z * group)) : list (Z * bytes) * sending :=
  let old := oldestExternal client T1 in
  let new := newestExternal client T1 in
  if (start <? old) || (negb (new =? 0) && (old =? 0)) then ([], Closed)
  else if (new <? old) || (new <? start) then ([], Aborted)
  else match sendHashes (Z.to_nat (new - start + 1)) T start (0, 0) [] with
       | (out, Ok last) =>
           let '(upd, en) := sync D new (add64 (snd last) 1) last q [] in
           match hashUpdates upd with Ok r => (out ++ r, en) | _ => (out, Aborted) end
       | (out, Throw) => (out, Closed)
       | (out, Abort) => (out, Aborted)
       end.

(** isRequestOutOfRange (592-615) and isUpdatePruned (617-651) for event groups: the request is refused. *)
Definition outOfRange (T : store) (e : Z) : bool := add64 (newestExternal client T) 1 <? e.
Definition prunedReq (T : store) (e : Z) : bool :=
  let old := oldestExternal client T in (e <? old) || ((old =? 0) && (e <=? newestExternal client T)).

(** Specification: the groups of the history from global id g on, as they are announced. *)
Fixpoint announced (g : Z) (W : hist) : list (Z * group) := match W with [] => [] | (_, x) :: W => (g, x) :: announced (g + 1) W end.
(** The tags of a group's events agree with its class: some event is for the client if and only if the group is one of the client's. *)
Definition consistent (W : hist) : Prop := forall c g, In (c, g) W -> (visible client c = true <-> visibleEvents parse client (gevents g) <> []).
End Stream.

(** Specification for legacy events: the pairs of a block the client is to get, without the 8-byte prefix of the keys. *)
Fixpoint visiblePairs (parse : bytes -> parsed) (client : bytes) (l : list kv) : list (bytes * bytes) :=
  match l with
  | [] => []
  | x :: l => (if tagsAllow client (ktags x) then match parse (kdata x) with PVal v => [(skipn 8 (kkey x), v)] | _ => [] end else []) ++ visiblePairs parse client l
  end.
Definition sendablePairs (parse : bytes -> parsed) (client : bytes) (l : list kv) : Prop :=
  forall x, In x l -> (8 <= length (kkey x))%nat /\ (mayRead client (ktags x) -> parse (kdata x) <> PNone).

(** Tables for a history of which the first k groups were pruned (used to show that the theorems are about something). *)
Definition idxOf (t : bytes) (n : Z) (W : hist) : option nat :=
  find (fun i => match nth_error W i with Some (c, _) => isTagged t c && (Z.of_nat (cnt t (firstn i W)) + 1 =? n) | None => false end) (seq 0 (length W)).
Definition tablesOf (W : hist) (k : nat) : store :=
  mkSt (fun t => Some (if (cnt t (firstn k W) =? cnt t W)%nat then 0 else Z.of_nat (cnt t (firstn k W)) + 1))
       (fun t => Some (Z.of_nat (cnt t W)))
       (fun t n => match idxOf t n W with
                   | Some i => if (i <? k)%nat then None else Some (Z.of_nat i + 1, Z.of_nat (cnt t (firstn i W)) + 1 + Z.of_nat (cnt pubTag (firstn i W)))
                   | None => None
                   end)
       (fun g => if g <? 1 then None else match nth_error W (Z.to_nat (g - 1)) with Some (_, x) => Some x | None => None end).
