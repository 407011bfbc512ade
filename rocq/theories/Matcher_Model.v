(** Model of the client's reply matching: client/bftclient/src/matcher.{h,cpp}, msg_receiver.h (ReplyMetadata), quorums.cpp and the use of
    the matcher in bft_client.cpp. Not modelled: communication, retries and timeouts, signing, metrics, locking. *)
From Coq Require Import List Arith NArith Bool.
Import ListNotations.

(** UnmatchedReply (msg_receiver.h 28-49): claimed primary, sequence number, result code, data, sender and its specific information. *)
Record ureply := mkU { u_primary : option nat; u_seq : nat; u_result : nat; u_data : list N; u_from : nat; u_rsi : list N }.
(** MatchConfig and MofN (matcher.h 27-33, quorums.h 38-41). *)
Record mcfg := mkMc { wait_for : nat; dests : list nat; m_seq : nat; incl_primary : bool }.
(** MatchKey (matcher.h 36-38): metadata and data. *)
Record mkey := mkKey { k_primary : option nat; k_seq : nat; k_result : nat; k_data : list N }.

(** std::optional's operator<: an empty one is smaller. *)
Definition optLt (a b : option nat) : bool :=
  match a, b with _, None => false | None, Some _ => true | Some x, Some y => x <? y end.
Definition optEq (a b : option nat) : bool := match a, b with None, None => true | Some x, Some y => x =? y | _, _ => false end.
(** std::vector<uint8_t>'s lexicographic operator<. *)
Fixpoint vecLt (a b : list N) : bool :=
  match a, b with _, [] => false | [], _ :: _ => true | x :: a, y :: b => if (x <? y)%N then true else if (y <? x)%N then false else vecLt a b end.
(** ReplyMetadata::operator== and operator< (msg_receiver.h 32-41): the order does not look at the result. *)
Definition metaEq (a b : mkey) : bool := optEq (k_primary a) (k_primary b) && (k_seq a =? k_seq b) && (k_result a =? k_result b).
Definition metaLt (a b : mkey) : bool := optLt (k_primary a) (k_primary b) || (optEq (k_primary a) (k_primary b) && (k_seq a <? k_seq b)).
(** MatchKey::operator< (matcher.h 42-50). *)
Definition keyLt (a b : mkey) : bool := metaLt a b || (metaEq a b && vecLt (k_data a) (k_data b)).
(** Equivalence of keys in std::map. *)
Definition keyEquiv (a b : mkey) : bool := negb (keyLt a b) && negb (keyLt b a).

(** matches_ (matcher.h 107): map from key to the replies' specific information by replica. A lookup returns the first entry equivalent to
    the key. (Where several are equivalent, which happens only when results differ, std::map's choice depends on the tree.) *)
Definition mmap := list (mkey * list (nat * list N)).
Definition setRsi (l : list (nat * list N)) (r : nat) (d : list N) : list (nat * list N) := (r, d) :: filter (fun x => negb (fst x =? r)) l.
Fixpoint minsert (m : mmap) (k : mkey) (r : nat) (d : list N) : mmap :=
  match m with
  | [] => [(k, [(r, d)])]
  | (k', l) :: m => if keyEquiv k k' then (k', setRsi l r d) :: m else (k', l) :: minsert m k r d
  end.
(** Matcher::match, matcher.cpp 32-40. *)
Record mmatch := mkMatch { mt_key : mkey; mt_rsi : list (nat * list N) }.
Definition mfind (c : mcfg) (m : mmap) : option mmatch :=
  match find (fun e => length (snd e) =? wait_for c) m with Some (k, l) => Some (mkMatch k l) | None => None end.
(** valid, validSource: matcher.cpp 42-63. *)
Definition mvalid (c : mcfg) (u : ureply) : bool := (m_seq c =? u_seq u) && existsb (Nat.eqb (u_from u)) (dests c).
(** onReply, matcher.cpp 16-30. *)
Definition ukey (c : mcfg) (u : ureply) : mkey := mkKey (if incl_primary c then u_primary u else None) (u_seq u) (u_result u) (u_data u).
Definition onReply (c : mcfg) (m : mmap) (u : ureply) : mmap * option mmatch :=
  if mvalid c u then let m' := minsert m (ukey c u) (u_from u) (u_rsi u) in (m', mfind c m') else (m, None).

(** The client feeds replies until a match; between retries it may clear the replies (bft_client.cpp 283-301, 304-343). *)
Inductive mop := MReply (u : ureply) | MClear.
Fixpoint mrun (c : mcfg) (m : mmap) (l : list mop) : mmap * option mmatch :=
  match l with
  | [] => (m, None)
  | MClear :: l => mrun c [] l
  | MReply u :: l => match onReply c m u with (m', Some x) => (m', Some x) | (m', None) => mrun c m' l end
  end.
(** Primary-only requests, bft_client.cpp 318-328: the first reply whose sender names itself as the primary. *)
Definition primaryOnly (l : list ureply) : option ureply :=
  find (fun u => match u_primary u with Some p => p =? u_from u | None => false end) l.

(** * QuorumConverter, quorums.cpp 19-94. *)
Inductive quorum := Linearizable (d : list nat) | ByzSafe (d : list nat) | QAll (d : list nat) | QMofN (n : nat) (d : list nat).
Record qcfg := mkQ { q_all : list nat; q_ro : list nat; q_f : nat; q_c : nat }.
Definition validDests (q : qcfg) (d : list nat) : bool :=
  negb (length d =? 0) && forallb (fun r => existsb (Nat.eqb r) (q_all q) || existsb (Nat.eqb r) (q_ro q)) d.
(** None: an exception is thrown. *)
Definition atLeast (q : qcfg) (n : nat) (d : list nat) : option (nat * list nat) :=
  if length d =? 0 then Some (n, q_all q) else if length d <? n then None else if validDests q d then Some (n, d) else None.
Definition toMofN (q : qcfg) (x : quorum) : option (nat * list nat) :=
  match x with
  | Linearizable d => atLeast q (2 * q_f q + q_c q + 1) d
  | ByzSafe d => atLeast q (q_f q + 1) d
  | QAll d => if length d =? 0 then Some (length (q_all q), q_all q) else if validDests q d then Some (length d, d) else None
  | QMofN n d => if length d <? n then None else if validDests q d then Some (n, d) else None
  end.

(** * Specification vocabulary *)
(** The replies in a history. *)
Definition repliesOf (l : list mop) : list ureply := concat (map (fun o => match o with MReply u => [u] | MClear => [] end) l).
(** The reply u is one that says k: same sequence number, result and data, and same primary when the primary is part of the match. *)
Definition says (c : mcfg) (u : ureply) (k : mkey) : Prop :=
  u_seq u = k_seq k /\ u_result u = k_result k /\ u_data u = k_data k /\ (incl_primary c = true -> u_primary u = k_primary k).
(** All relevant replies naming the same primary have the same result code. *)
Definition sameResults (c : mcfg) (us : list ureply) : Prop := forall u v, In u us -> In v us -> mvalid c u = true -> mvalid c v = true ->
  (incl_primary c = true -> u_primary u = u_primary v) -> u_result u = u_result v.
