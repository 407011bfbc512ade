(** The choice of the replica to fetch state from: bftengine/src/bcstatetransfer/SourceSelector.cpp, .hpp and its uses in BCStateTran.cpp (processData, reject, item data, summaries, PrePrepare messages seen).
    Times are natural numbers of a clock that does not go back; no overflow; metrics left out. A std::set is a list here: the order does not matter, as the choice is random. *)
From Coq Require Import List Arith Bool.
Import ListNotations.

(** Configuration: all other replicas, fetchRetransmissionTimeoutMs, sourceReplicaReplacementTimeoutMs, maxFetchRetransmissions, minPrePrepareMsgsForPrimaryAwareness. *)
Record cfg := mkCfg { k_all : list nat; k_rto : nat; k_srt : nat; k_maxr : nat; k_minp : nat }.
(** Not fetching; asking for summaries; fetching blocks or pages. *)
Inductive mode := Idle | Asking | Fetching.
Record st := mkSt {
  md : mode;
  pref : list nat; cur : option nat; prim : option nat;   (* preferredReplicas_, currentReplica_, currentPrimary_ *)
  nom : option nat; nomc : nat;                            (* nominatedPrimary_, nominatedPrimaryCounter_ *)
  selAt : nat; stamp : nat; ongoing : bool; cnt : nat;     (* sourceSelectionTimeMilli_, fetchingTimeStamp_, fetchRetransmissionOngoing_, fetchRetransmissionCounter_ *)
  got : bool; actual : list nat;                           (* receivedValidBlockFromSrc_, actualSources_ *)
  failed : bool;                                           (* an assertion failed *)
  picked : list nat }.                                     (* the sources chosen so far *)

Section Src.
Context (k : cfg).
Definition mem (x : nat) (l : list nat) : bool := existsb (Nat.eqb x) l.
Definition erase (x : nat) (l : list nat) : list nat := filter (fun y => negb (y =? x)) l.
Definition insert (x : nat) (l : list nat) : list nat := if mem x l then l else x :: l.
Definition eraseO (o : option nat) (l : list nat) : list nat := match o with Some x => erase x l | None => l end.
Definition withPref (p : list nat) (s : st) : st := mkSt (md s) p (cur s) (prim s) (nom s) (nomc s) (selAt s) (stamp s) (ongoing s) (cnt s) (got s) (actual s) (failed s) (picked s).
Definition withStamp (t : nat) (o : bool) (c : nat) (s : st) : st := mkSt (md s) (pref s) (cur s) (prim s) (nom s) (nomc s) (selAt s) t o c (got s) (actual s) (failed s) (picked s).
Definition withPrim (p n : option nat) (c : nat) (s : st) : st := mkSt (md s) (pref s) (cur s) p n c (selAt s) (stamp s) (ongoing s) (cnt s) (got s) (actual s) (failed s) (picked s).
Definition fail (s : st) : st := mkSt (md s) (pref s) (cur s) (prim s) (nom s) (nomc s) (selAt s) (stamp s) (ongoing s) (cnt s) (got s) (actual s) true (picked s).
(** reset, SourceSelector.cpp:62-78; isReset, 80-84. *)
Definition reset (m : mode) (s : st) : st := mkSt m [] None None None 0 0 0 false 0 false [] (failed s) (picked s).
Definition isReset (s : st) : bool :=
  (length (pref s) =? 0) && match cur s with None => true | _ => false end && (selAt s =? 0) && (stamp s =? 0) && (cnt s =? 0) && negb (ongoing s) && (length (actual s) =? 0) && negb (got s).
(** checkAndRefillPreferredReplicas, 113-121. *)
Definition refill (s : st) : st := if length (pref s) =? 0 then withPref (eraseO (prim s) (k_all k)) s else s.
(** removeCurrentReplica, 35-43. *)
Definition removeCurrent (s : st) : st :=
  let s := refill (mkSt (md s) (eraseO (cur s) (pref s)) None (prim s) (nom s) (nomc s) (selAt s) (stamp s) (ongoing s) (cnt s) (got s) (actual s) (failed s) (picked s)) in
  mkSt (md s) (pref s) (cur s) (prim s) (nom s) (nomc s) 0 (stamp s) (ongoing s) (cnt s) false (actual s) (failed s) (picked s).
(** removePreferredReplica, 45-52. *)
Definition removePreferred (x : nat) (s : st) : st := if mem x (pref s) then refill (withPref (erase x (pref s)) s) else s.
(** onReceivedValidBlockFromSource, 54-61. *)
Definition onValid (s : st) : st :=
  match cur s with
  | None => fail s
  | Some x => if got s then s else mkSt (md s) (pref s) (cur s) (prim s) (nom s) (nomc s) (selAt s) (stamp s) (ongoing s) (cnt s) true (actual s ++ [x]) (failed s) (picked s)
  end.
(** retransmissionTimeoutExpired, 86-106; timeSinceSourceSelectedMilli, 108-112. *)
Definition expired (t : nat) (s : st) : bool := match cur s with None => false | _ => negb (stamp s =? 0) && (k_rto k <? t - stamp s) end.
Definition since (t : nat) (s : st) : nat := match cur s with None => 0 | _ => t - selAt s end.
Inductive replace := Immediate | Graceful | DoNot.
(** shouldReplaceSource, 146-199. *)
Definition same (a b : option nat) : bool := match a, b with Some x, Some y => x =? y | None, None => true | _, _ => false end.
Definition should (t : nat) (bad last : bool) (s : st) : replace * st :=
  match cur s with
  | None => (Immediate, s)
  | Some _ =>
      if bad then (Immediate, s) else
      let s := if expired t s && ongoing s then withStamp (stamp s) false (S (cnt s)) s else s in
      if k_maxr k <=? cnt s then (Immediate, s)
      else if last && (0 <? k_srt k) && (k_srt k <? since t s) then (Graceful, s)
      else if last && same (cur s) (prim s) then (Graceful, s) else (DoNot, s)
  end.
(** selectSource, 201-226: [c] the random number; updateSource, 123-130. *)
Definition select (t c : nat) (s : st) : st :=
  match nth_error (pref s) (c mod length (pref s)) with
  | None => fail s
  | Some x => mkSt (md s) (pref s) (Some x) (prim s) (nom s) (nomc s) t 0 false 0 false (actual s) (failed s) (picked s ++ [x])
  end.
Definition update (t c : nat) (s : st) : st := select t c (refill (withPref (eraseO (cur s) (pref s)) s)).
(** updateCurrentPrimary, 228-272. *)
Definition updatePrimary (q : nat) (s : st) : st :=
  if same (prim s) (Some q) then s else
  if negb (mem q (k_all k)) then withPrim (prim s) None 0 s else
  match nom s with
  | None => withPrim (prim s) (Some q) (S (nomc s)) s
  | Some m =>
      if negb (q =? m) && (S (nomc s) <? k_minp k) then withPrim (prim s) None 0 s
      else if S (nomc s) <? k_minp k then withPrim (prim s) (Some m) (S (nomc s)) s
      else let s := removePreferred q (match prim s with Some p => withPref (insert p (pref s)) s | None => s end) in withPrim (Some q) None 0 s
  end.

(** What one iteration of processData finds: a valid block, data that is not valid (the next iteration has [bad]), or nothing complete; then whether a request is postponed although nothing asks for it to be
    sent now, [more], and whether it cannot be sent, [full] (trySendFetchBlocksMsg, BCStateTran.cpp:1580-1618). *)
Inductive found := Valid | Invalid | Nothing (more full : bool).
(** processData, BCStateTran.cpp:3343-3380 and 3460-3670: the parts about the source. The branch at 3364-3368 is never taken, as there are preferred replicas. *)
Definition process (t c : nat) (bad last : bool) (f : found) (s : st) : st :=
  if length (pref s) =? 0 then fail s else
  let '(m, s1) := should t bad last s in
  let new := match m with DoNot => false | _ => true end in
  let s2 := if new then update t c s1 else s1 in
  if match cur s2 with None => true | _ => selAt s2 =? 0 end then fail s2 else
  match f with
  | Valid => onValid s2
  | Invalid => s2
  | Nothing more full => if (new || expired t s2 || more || last) && negb full then withStamp t true (cnt s2) s2 else s2
  end.

Inductive event :=
| Start                                        (* startCollectingStateImpl, 943-964 *)
| Summaries (rs : list nat)                    (* a certificate of summaries from rs, 1797-1828 *)
| Restart                                      (* the process starts again while fetching, 393-401 *)
| Process (t c : nat) (bad last : bool) (f : found)
| Data (t : nat)                               (* item data from the source, 2528-2640 *)
| Reject                                       (* the source rejects, 2507-2511; processData follows *)
| NewCycle                                     (* the source has no reserved pages, 2500-2506 *)
| Done                                         (* the transfer is complete *)
| PP (q : nat).                                (* a PrePrepare message of q, 4038-4056 *)
Definition incl (a b : list nat) : bool := forallb (fun x => mem x b) a.
Definition isM (a b : mode) : bool := match a, b with Idle, Idle | Asking, Asking | Fetching, Fetching => true | _, _ => false end.
Definition start : st := mkSt Idle [] None None None 0 0 0 false 0 false [] false [].
Definition step (s : st) (e : event) : st :=
  match e with
  | Start => if isM (md s) Idle then reset Asking s else s
  | Summaries rs => if isM (md s) Asking && incl rs (k_all k) && negb (length rs =? 0) then
                      if isReset s then let s := withPref (fold_left (fun p r => insert r p) rs (pref s)) s in
                        mkSt Fetching (pref s) (cur s) (prim s) (nom s) (nomc s) (selAt s) (stamp s) (ongoing s) (cnt s) (got s) (actual s) (failed s) (picked s)
                      else fail s
                    else s
  | Restart => if isM (md s) Fetching then refill (reset Fetching s) else s
  | Process t c bad last f => if isM (md s) Fetching && (0 <? t) then process t c bad last f s else s
  | Data t => if isM (md s) Fetching && match cur s with None => false | _ => true end then withStamp t false 0 s else s
  | Reject => if isM (md s) Fetching && match cur s with None => false | _ => true end then removeCurrent s else s
  | NewCycle => if isM (md s) Fetching then let s := reset Fetching s in if length (pref s) =? 0 then reset Asking s else fail s else s
  | Done => if isM (md s) Fetching then reset Idle s else s
  | PP q => if isM (md s) Asking then s else updatePrimary q s
  end.
Definition runFrom (s : st) (l : list event) : st := fold_left step l s.
Definition run (l : list event) : st := runFrom start l.
End Src.

(** * Specification. *)
(** There are other replicas to fetch from even if one of them is the primary. *)
Definition proper (k : cfg) : Prop := NoDup (k_all k) /\ 2 <= length (k_all k).
(** The events of a transfer in which the known primary p stays the same. *)
Definition same_primary (p : option nat) (e : event) : Prop := match e with Process _ _ _ _ _ | Data _ | Reject => True | PP q => p = Some q | _ => False end.
(** The source is looked at without anything from it having arrived, at the times ts, each later than the one before by more than the timeout. *)
Fixpoint late (rto t0 : nat) (ts : list nat) : Prop := match ts with [] => True | t :: r => rto < t - t0 /\ late rto t r end.
Definition silent (t : nat) : event := Process t 0 false false (Nothing false false).
(** Messages of the source that do not complete anything, with the times at which they come and are looked at. *)
Definition dribble (l : list (nat * nat)) : list event := flat_map (fun x => [Data (fst x); Process (snd x) 0 false false (Nothing false false)]) l.
