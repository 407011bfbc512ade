(** View-change computations: ViewChangeSafetyLogic.cpp and ViewsManager::computeCorrectRelevantViewNumbers (C04-C06).
    Sequence numbers, views, digests and ids are [nat] (SeqNum is int64_t, ViewNum uint64_t; no overflow is modelled: values
    stay far below 2^63).  A failed ConcordAssert is the outcome [None]. *)
From Coq Require Import List Arith Lia Bool.
From Verif Require Import Lib_Sets.
Import ListNotations.

(** bftengine/src/bftengine/SysConsts.hpp:45-47. *)
Definition kWorkWindowSize : nat := 300.
Definition checkpointWindowSize : nat := 150.
(** Digest of the null operation (ViewChangeSafetyLogic::nullDigest); digests are compared with memcmp, here [nat] order. *)
Definition nullDigest : nat := 0.

(** ViewChangeMsg.hpp:29-40 struct Element followed by PreparedCertificate. [e_cert = Some (v, ok)]: the element has a
    prepared certificate for view [v]; [ok] is the verdict of thresholdVerifierForSlowPathCommit(...)->verify on the
    attached signature bytes for the combination of (digest, v, seq). *)
Record elem := mkElem { e_seq : nat; e_dig : nat; e_origin : nat; e_cert : option (nat * bool) }.
(** ViewChangeMsg.hpp:128-141 struct Header (the fields used here). *)
Record vcmsg := mkVC { vc_from : nat; vc_view : nat; vc_ls : nat; vc_elems : list elem }.

(** An array ViewChangeMsg*[N]: position = replica id, nullptr = None. *)
Definition vcarray := list (option vcmsg).
Fixpoint present (a : vcarray) : list vcmsg :=
  match a with [] => [] | None :: r => present r | Some m :: r => m :: present r end.

(** qsort with compareSeqNumbers (ViewChangeSafetyLogic.cpp:27-38) / compareViews: descending order. *)
Fixpoint insertDesc (x : nat) (l : list nat) : list nat :=
  match l with [] => [x] | y :: r => if y <=? x then x :: l else y :: insertDesc x r end.
Fixpoint sortDesc (l : list nat) : list nat :=
  match l with [] => [] | x :: r => insertDesc x (sortDesc r) end.

(** ViewChangeSafetyLogic.cpp:134-170 calcLBStableForView. *)
Definition calcLB (F C : nat) (a : vcarray) : option nat :=
  let ms := present a in
  match ms with
  | [] => None
  | m0 :: _ =>
    if forallb (fun m => vc_view m =? vc_view m0) ms && (length ms =? 2 * F + 2 * C + 1)
    then nth_error (sortDesc (map vc_ls ms)) F
    else None
  end.

(** ElementsIterator::goToAtLeast (ViewChangeMsg.cpp:351-361); an iterator is the list of the elements not yet visited. *)
Fixpoint goToAtLeast (lb : nat) (it : list elem) : list elem :=
  match it with [] => [] | e :: r => if e_seq e <? lb then goToAtLeast lb r else it end.

(** SlowElemCompare (ViewChangeSafetyLogic.cpp:84-102) on (certificate view, digest). *)
Definition slowLess (a b : nat * nat) : bool :=
  (fst b <? fst a) || ((fst a =? fst b) && (snd a <? snd b)).

(** std::set<SlowElem,SlowElemCompare>::insert: an element equivalent to a stored one is not inserted.
    Stored: ((certView, digest), signature verdict). *)
Fixpoint setInsert (x : (nat * nat) * bool) (l : list ((nat * nat) * bool)) : list ((nat * nat) * bool) :=
  match l with
  | [] => [x]
  | y :: r => if slowLess (fst x) (fst y) then x :: l
              else if slowLess (fst y) (fst x) then y :: setInsert x r
              else l
  end.

(** The current element of each live iterator; None = ConcordAssert(validElem && elem->seqNum >= s) fails
    (ViewChangeSafetyLogic.cpp:268-272, 316-320). *)
Fixpoint currents (s : nat) (its : list (list elem)) : option (list elem) :=
  match its with
  | [] => Some []
  | [] :: _ => None
  | (e :: _) :: r => if s <=? e_seq e then match currents s r with Some l => Some (e :: l) | None => None end else None
  end.

(** ViewChangeSafetyLogic.cpp:264-277: collect slow certificates. *)
Fixpoint collectSlow (s : nat) (cur : list elem) (acc : list ((nat * nat) * bool)) : list ((nat * nat) * bool) :=
  match cur with
  | [] => acc
  | e :: r =>
    let acc' := if e_seq e =? s then match e_cert e with Some (v, ok) => setInsert ((v, e_dig e), ok) acc | None => acc end
                else acc in
    collectSlow s r acc'
  end.

(** ViewChangeSafetyLogic.cpp:282-299: the first valid certificate in set order. *)
Definition selectSlow (l : list ((nat * nat) * bool)) : option (nat * nat) :=
  option_map fst (find snd l).

(** ViewChangeSafetyLogic.cpp:306-336: fastPathCounters as an association list; the comparison with F+C+1 happens only after
    an increment, not after the first insertion. *)
Fixpoint bump (d : nat) (m : list (nat * nat)) : option (nat * list (nat * nat)) :=
  match m with
  | [] => None
  | (d', k) :: r => if d =? d' then Some (S k, (d', S k) :: r)
                    else match bump d r with Some (k', r') => Some (k', (d', k) :: r') | None => None end
  end.
Fixpoint fastLoop (q s minv : nat) (cur : list elem) (m : list (nat * nat)) : option nat :=
  match cur with
  | [] => None
  | e :: r =>
    if (e_seq e =? s) && (minv <=? e_origin e) then
      match bump (e_dig e) m with
      | None => fastLoop q s minv r ((e_dig e, 1) :: m)
      | Some (k, m') => if k =? q then Some (e_dig e) else fastLoop q s minv r m'
      end
    else fastLoop q s minv r m
  end.

(** ViewChangeSafetyLogic.cpp:339-371: advance the iterators, removing the finished ones by swapping with the last.
    [pre]: already processed (in order), [rest]: still to process; fuel = length of rest. *)
Fixpoint advance (fuel s ub : nat) (pre rest : list (list elem)) : option (list (list elem)) :=
  match rest with
  | [] => Some pre
  | it :: rest' =>
    match fuel with
    | 0 => None
    | S fuel' =>
      match it with
      | [] => None                                                     (* ConcordAssert(!end) *)
      | e :: it' =>
        if s <? e_seq e then advance fuel' s ub (pre ++ [it]) rest'
        else if e_seq e =? s then
          let remove := match it' with [] => true | e' :: _ => ub <? e_seq e' end in
          if remove
          then match rest' with
               | [] => Some pre
               | _ => advance fuel' s ub pre (last rest' [] :: removelast rest')
               end
          else advance fuel' s ub (pre ++ [it']) rest'
        else None                                                      (* ConcordAssert(elem->seqNum == s) *)
      end
    end
  end.

(** ViewChangeSafetyLogic.cpp:250-382 computeRestrictionsForSeqNum: restricted digest (None = returns false) and the
    remaining iterators. *)
Definition restrictSeq (F C s ub : nat) (its : list (list elem)) : option (option nat * list (list elem)) :=
  match currents s its with
  | None => None
  | Some cur =>
    let slow := selectSlow (collectSlow s cur []) in
    let minv := match slow with Some (v, _) => v + 1 | None => 0 end in
    let fast := fastLoop (F + C + 1) s minv cur [] in
    match advance (length its) s ub [] its with
    | None => None
    | Some its' =>
      Some (match fast with Some d => Some d | None => option_map snd slow end, its')
    end
  end.

(** ViewChangeSafetyLogic.cpp:204-216: the loop over the sequence numbers; [k] = numbers left up to upperBound. A restriction
    to the null digest and no restriction are both stored as isNull (None). Returns restrictions and lastRestcitionNum. *)
Fixpoint restrictLoop (F C k s ub : nat) (its : list (list elem)) (lastR : nat) : option (list (option nat) * nat) :=
  match k with
  | 0 => Some ([], lastR)
  | S k' =>
    match its with
    | [] => Some (repeat None k, lastR)                                (* lines 218-222 *)
    | _ =>
      match restrictSeq F C s ub its with
      | None => None
      | Some (r, its') =>
        let r' := match r with Some d => if d =? nullDigest then None else Some d | None => None end in
        let lastR' := match r' with Some _ => s | None => lastR end in
        match restrictLoop F C k' (S s) ub its' lastR' with
        | None => None
        | Some (l, lr) => Some (r' :: l, lr)
        end
      end
    end
  end.

(** ViewChangeSafetyLogic.cpp:172-248 computeRestrictions: (outMin, outMax, restrictions of lb+1 .. lb+kWorkWindowSize). *)
Definition computeRestrictions (F C : nat) (a : vcarray) (lbStable : nat) : option (nat * nat * list (option nat)) :=
  let lower := lbStable + 1 in
  let upper := lbStable + kWorkWindowSize in
  let its := filter (fun it => match it with [] => false | _ => true end)
                    (map (fun m => goToAtLeast lower (vc_elems m)) (present a)) in
  match restrictLoop F C kWorkWindowSize lower upper its 0 with
  | None => None
  | Some (rs, lastR) =>
    match its with
    | [] => Some (0, 0, rs)
    | _ => if (0 <? lastR) && (lastR <=? upper - checkpointWindowSize)
           then Some (lower, upper - checkpointWindowSize, rs)
           else Some (lower, upper, rs)
    end
  end.

(** ViewsManager.cpp:339-374 computeCorrectRelevantViewNumbers; the array already holds the replica's own latest message at its
    own position (line 352). Result: (outMaxKnownCorrectView, outMaxKnownAgreedView). *)
Definition relevantViews (F C myLatestPendingView : nat) (a : vcarray) : nat * nat :=
  let vs := filter (fun v => myLatestPendingView <? v) (map vc_view (present a)) in
  let sorted := sortDesc vs in
  let correct := F + 1 in
  let smajor := 2 * F + 2 * C + 1 in
  if length vs <? correct then (myLatestPendingView, myLatestPendingView)
  else if length vs <? smajor then (nth (correct - 1) sorted 0, myLatestPendingView)
  else (nth (correct - 1) sorted 0, nth (smajor - 1) sorted 0).

(** ** Specification *)

(** The element of message m at sequence number s satisfies P. *)
Definition hasAt (s : nat) (P : elem -> bool) (m : vcmsg) : bool :=
  existsb (fun e => (e_seq e =? s) && P e) (vc_elems m).
(** A message of the quorum carries a valid prepared certificate of view v for digest d at s. *)
Definition ValidCert (M : list vcmsg) (s v d : nat) : Prop :=
  exists m e, In m M /\ In e (vc_elems m) /\ e_seq e = s /\ e_dig e = d /\ e_cert e = Some (v, true).
(** The highest valid certificate (ties, which need more than f faulty replicas, are broken towards the smaller digest). *)
Definition TopCert (M : list vcmsg) (s v d : nat) : Prop :=
  ValidCert M s v d /\ forall v' d', ValidCert M s v' d' -> v' < v \/ (v' = v /\ d <= d').
(** Number of messages of the quorum whose element at s is for digest d and originates in view w or later. *)
Definition votes (M : list vcmsg) (s w d : nat) : nat :=
  length (filter (hasAt s (fun e => (e_dig e =? d) && (w <=? e_origin e))) M).
(** First view whose votes count: one above the top certificate, or 0. *)
Definition MinView (M : list vcmsg) (s w : nat) : Prop :=
  (exists v d, TopCert M s v d /\ w = v + 1) \/ ((forall v d, ~ ValidCert M s v d) /\ w = 0).
(** The protocol rule. *)
Definition Rule (F C : nat) (M : list vcmsg) (s : nat) (r : option nat) : Prop :=
  exists w, MinView M s w /\
  ((exists d, r = Some d /\ F + C + 1 <= votes M s w d) \/
   ((forall d, votes M s w d < F + C + 1) /\
    ((exists v d, TopCert M s v d /\ r = Some d) \/ ((forall v d, ~ ValidCert M s v d) /\ r = None)))).

(** What ViewChangeMsg::checkElements guarantees of each message: strictly increasing sequence numbers. *)
Fixpoint increasing (lo : nat) (l : list elem) : Prop :=
  match l with [] => True | e :: r => lo < e_seq e /\ increasing (e_seq e) r end.
Definition wellFormed (m : vcmsg) : Prop := increasing (vc_ls m) (vc_elems m).
(** All certificates for the same (sequence number, view, digest) get the same signature verdict. *)
Definition consistentSigs (M : list vcmsg) : Prop :=
  forall m1 m2 e1 e2 v ok1 ok2, In m1 M -> In m2 M -> In e1 (vc_elems m1) -> In e2 (vc_elems m2) ->
    e_seq e1 = e_seq e2 -> e_dig e1 = e_dig e2 -> e_cert e1 = Some (v, ok1) -> e_cert e2 = Some (v, ok2) -> ok1 = ok2.

(** Null restrictions are not distinguished from missing ones in the output. *)
Definition norm (r : option nat) : option nat :=
  match r with Some d => if d =? nullDigest then None else Some d | None => None end.

(** Number of messages reporting a last stable sequence number >= x, > x; number asking for view v or higher. *)
Definition geReports (x : nat) (ms : list vcmsg) := length (filter (fun m => x <=? vc_ls m) ms).
Definition gtReports (x : nat) (ms : list vcmsg) := length (filter (fun m => x <? vc_ls m) ms).

Definition asks (v : nat) (ms : list vcmsg) := length (filter (fun m => v <=? vc_view m) ms).

(** Range of restricted sequence numbers. *)
Definition RangeSpec (M : list vcmsg) (lb mn mx : nat) (rs : list (option nat)) : Prop :=
  ((forall m e, In m M -> In e (vc_elems m) -> e_seq e <= lb) /\ mn = 0 /\ mx = 0) \/
  ((exists m e, In m M /\ In e (vc_elems m) /\ lb < e_seq e) /\ mn = lb + 1 /\
   let nonNull s := exists d, nth_error rs (s - lb - 1) = Some (Some d) in
   (((exists s, lb < s <= lb + kWorkWindowSize /\ nonNull s) /\
     (forall s, lb < s <= lb + kWorkWindowSize -> nonNull s -> s <= lb + kWorkWindowSize - checkpointWindowSize) /\
     mx = lb + kWorkWindowSize - checkpointWindowSize) \/
    (((forall s, lb < s <= lb + kWorkWindowSize -> ~ nonNull s) \/
      (exists s, lb + kWorkWindowSize - checkpointWindowSize < s <= lb + kWorkWindowSize /\ nonNull s)) /\
     mx = lb + kWorkWindowSize))).

