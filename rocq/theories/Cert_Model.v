(** Model of bftengine/src/bftengine/messages/MsgsCertificate.hpp and of its copy bftengine/src/bcstatetransfer/MsgsCertificate.hpp.
    Messages are of any type M, [eqv] is ExternalFunc::equivalent. [self]: SelfTrust and SelfIsRequired, which are equal in every
    instance the code uses (CheckpointInfo<true>: both true; CheckpointInfo<false>, SimpleClientImp, BCStateTran: both false).
    [keep]: KeepAllMsgs together with the `full` logic of the first file; the second file is [keep = false] here, because its addMsg
    stops counting at `complete` (bcst hpp 155) and it has no `full`.
    Simplified: messages are values, never freed; uint16_t numbers are naturals (sizes are bounded by the number of replicas plus one). *)
From Coq Require Import List Arith Bool.
Import ListNotations.

Section C.
Variable M : Type.
Variable eqv : M -> M -> bool.
Variables (self keep : bool) (nReps maxFails required selfId : nat).

(** hpp 86-108: msgsFromReplicas (in order of arrival), msgClasses[0..numOfClasses) as (size, representativeReplica), complete, full,
    bestClass (None: NULL_CLASS), sizeOfBestClass, hasTrustedSelfClass. *)
Record cert := mkCert { msgs : list (nat * M); cls : list (nat * nat); complete : bool; full : bool; best : option nat; bestSize : nat; trusted : bool }.
Definition cert0 : cert := mkCert [] [] false false None 0 false.

Definition msgOf (l : list (nat * M)) (r : nat) : option M := match find (fun x => fst x =? r) l with Some x => Some (snd x) | None => None end.
Definition hasMsg (l : list (nat * M)) (r : nat) : bool := existsb (fun x => fst x =? r) l.

(** The loop over the classes, hpp 203-217: index of the first class whose representative's message is equivalent. None: a representative
    without a message would be dereferenced. *)
Fixpoint findCls (l : list (nat * M)) (c : list (nat * nat)) (m : M) (i : nat) : option (option nat) :=
  match c with
  | [] => Some None
  | (_, r) :: c => match msgOf l r with
                   | None => None
                   | Some m' => if eqv m' m then Some (Some i) else findCls l c m (S i)
                   end
  end.
Fixpoint incCls (c : list (nat * nat)) (i : nat) : list (nat * nat) :=
  match c, i with [], _ => [] | (z, r) :: c, 0 => (S z, r) :: c | x :: c, S i => x :: incCls c i end.
Definition sizeAt (c : list (nat * nat)) (i : nat) : nat := match nth_error c i with Some (z, _) => z | None => 0 end.

(** tryToMarkComplete and tryToMarkFull, hpp 341-354. *)
Definition markC (s : cert) : cert := if negb self || hasMsg (msgs s) selfId then mkCert (msgs s) (cls s) true (full s) (best s) (bestSize s) (trusted s) else s.
Definition markF (s : cert) : cert := if negb self || hasMsg (msgs s) selfId then mkCert (msgs s) (cls s) (complete s) true (best s) (bestSize s) (trusted s) else s.

(** addPeerMsg, hpp 188-262; bcst hpp 171-236 (no markF). [s] already contains the message. *)
Definition bump (s : cert) (i : nat) : cert :=
  let c := incCls (cls s) i in
  let z := sizeAt c i in
  let s1 := if bestSize s <? z then mkCert (msgs s) c (complete s) (full s) (Some i) z (trusted s)
            else mkCert (msgs s) c (complete s) (full s) (best s) (bestSize s) (trusted s) in
  let isBest := match best s1 with Some b => b =? i | None => false end in
  let s2 := if isBest && (required <=? bestSize s1) then markC s1 else s1 in
  if keep && isBest && (nReps <=? bestSize s2) then markF s2 else s2.
Definition newCls (s : cert) (r : nat) : cert :=
  if nReps <=? length (cls s) then s
  else
    let i := length (cls s) in
    match best s with
    | None => mkCert (msgs s) (cls s ++ [(1, r)]) (complete s) (full s) (Some i) 1 (trusted s)
    | Some b => mkCert (msgs s) (cls s ++ [(1, r)]) (complete s) (full s) (Some b) (bestSize s) (trusted s)
    end.
Definition addPeer (s : cert) (m : M) (r : nat) : option cert :=
  if trusted s then
    match cls s with
    | [] => None
    | (_, r0) :: _ => match msgOf (msgs s) r0 with
                      | None => None
                      | Some m0 => if eqv m0 m then Some (bump s 0) else Some s
                      end
    end
  else
    match findCls (msgs s) (cls s) m 0 with
    | None => None
    | Some (Some i) => Some (bump s i)
    | Some None => Some (newCls s r)
    end.
(** addSelfMsg, hpp 264-309; bcst hpp 238-279. The size of the class found is incremented in the loop and once more afterwards. *)
Definition addSelf (s : cert) (m : M) : option cert :=
  match findCls (msgs s) (cls s) m 0 with
  | None => None
  | Some o =>
      let z := match o with None => 1 | Some i => sizeAt (incCls (cls s) i) i + 1 end in
      let s1 := mkCert (msgs s) [(z, selfId)] (complete s) (full s) (Some 0) z true in
      let s2 := if required <=? z then markC s1 else s1 in
      Some (if keep && (nReps <=? z) then markF s2 else s2)
  end.
(** addMsg, hpp 160-183; bcst hpp 147-168. The boolean is the returned value. *)
Definition addMsg (s : cert) (r : nat) (m : M) : option (cert * bool) :=
  if hasMsg (msgs s) r then Some (s, false)
  else
    let s1 := mkCert (msgs s ++ [(r, m)]) (cls s) (complete s) (full s) (best s) (bestSize s) (trusted s) in
    if (keep && negb (full s)) || negb (complete s) then
      match (if self && (r =? selfId) then addSelf s1 m else addPeer s1 m r) with Some s2 => Some (s2, true) | None => None end
    else Some (s1, true).
(** resetAndFree, hpp 139-158. When there are no messages, bestClass etc. are left alone; they are at their initial values then. *)
Definition resetC (s : cert) : cert :=
  match msgs s with [] => mkCert [] (cls s) false false (best s) (bestSize s) (trusted s) | _ => cert0 end.
(** isInconsistent: bftengine hpp 321-323, and bcst hpp 287-289. *)
Definition isInconsistent (s : cert) : bool := maxFails + 1 <? length (cls s).
Definition isInconsistentSt (s : cert) : bool := maxFails + 1 <=? length (cls s).
(** bestCorrectMsg, hpp 325-339. None inside: the null pointer; None outside: a dangling class or representative is dereferenced. *)
Definition bestMsg (s : cert) : option (option M) :=
  if trusted s || (maxFails + 1 <=? bestSize s) then
    match best s with
    | None => None
    | Some b => match nth_error (cls s) b with None => None | Some (_, r) => match msgOf (msgs s) r with None => None | Some m => Some (Some m) end end
    end
  else Some None.

Inductive cop := Add (r : nat) (m : M) | Reset.
Fixpoint crun (s : cert) (l : list cop) : option cert :=
  match l with
  | [] => Some s
  | Add r m :: l => match addMsg s r m with Some (s', _) => crun s' l | None => None end
  | Reset :: l => crun (resetC s) l
  end.
End C.

(** * Specification vocabulary *)
(** The messages that count since the last reset: the first one of each replica. *)
Fixpoint received {M} (acc : list (nat * M)) (l : list (cop M)) : list (nat * M) :=
  match l with
  | [] => acc
  | Add _ r m :: l => received (if existsb (fun x => fst x =? r) acc then acc else acc ++ [(r, m)]) l
  | Reset _ :: l => received [] l
  end.
(** Number of replicas that sent a message equivalent to m. *)
Definition support {M} (eqv : M -> M -> bool) (l : list (nat * M)) (m : M) : nat := length (filter (fun x => eqv m (snd x)) l).
Definition equivalence {M} (eqv : M -> M -> bool) : Prop :=
  (forall a, eqv a a = true) /\ (forall a b, eqv a b = true -> eqv b a = true) /\ (forall a b c, eqv a b = true -> eqv b c = true -> eqv a c = true).
(** All senders are replicas 0..n-1. *)
Definition senders {M} (n : nat) (l : list (cop M)) : Prop := forall r m, In (Add M r m) l -> r < n.
