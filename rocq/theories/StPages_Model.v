(** Model of reserved pages: bftengine/src/bcstatetransfer/BCStateTran.cpp (load/save/checkpoint, virtual blocks) over
    InMemoryDataStore.cpp. Pages, digests and virtual blocks are byte strings; [H] is the digest function (32 bytes).
    Simplified: the persistent copy (DBDataStore) is not modelled; sizes are below 2^32 so the 32-bit size arithmetic is exact; the
    std::map is its list of entries in key order; locks, metrics and the fetching flag (saves are ignored while fetching) are left out. *)
From Coq Require Import List Arith NArith Bool.
From Verif Require Import Lib_Bytes.
Import ListNotations.
Local Open Scope N_scope.

(** InMemoryDataStore.hpp 187-204: one element of the map pages. *)
Record ent := mkEnt { pid : N; ckp : N; dg : bytes; content : bytes }.
(** ResPageKey::operator<: page ascending, checkpoint descending. *)
Definition klt (p c p' c' : N) : bool := if p =? p' then c' <? c else p <? p'.

Section S.
Variable H : bytes -> bytes.
(** numberOfReservedPages_, sizeOfReservedPage. *)
Variables (np psz : nat).

(** computeDigestOfPage, BCStateTran.cpp 3966-3975: the bytes that are hashed. *)
Definition pagePre (p c : N) (x : bytes) : bytes := le 4 p ++ le 8 c ++ (if 0 <? c then x else []).
(** ResPagesDescriptor, DataStore.hpp 140-155: an array of np elements (pageId, relevantCheckpoint, digest), laid out with the padding of
    an unpacked struct (zero since the memory is cleared first), hashed as raw memory (3977-3981). *)
Definition dent := (N * N * bytes)%type.
Definition zeroD : dent := (0, 0, repeat 0 32).
Definition encD (d : dent) : bytes := let '(p, c, g) := d in le 4 p ++ repeat 0 4 ++ le 8 c ++ g.
Definition encDesc (l : list dent) : bytes := le 4 (N.of_nat np) ++ repeat 0 4 ++ concat (map encD l).

Fixpoint setNth {A} (l : list A) (i : nat) (v : A) : list A :=
  match l, i with [], _ => [] | _ :: l, O => v :: l | x :: l, S i => x :: setNth l i v end.

(** InMemoryDataStore::setResPage, 229-255: None when the assertion fails. An existing key keeps its digest. *)
Fixpoint insertE (l : list ent) (e : ent) : list ent :=
  match l with
  | [] => [e]
  | x :: t => if (pid x =? pid e) && (ckp x =? ckp e) then mkEnt (pid x) (ckp x) (dg x) (content e) :: t
              else if klt (pid e) (ckp e) (pid x) (ckp x) then e :: x :: t else x :: insertE t e
  end.
Definition hasKey (l : list ent) (p c : N) : bool := existsb (fun x => (pid x =? p) && (ckp x =? c)) l.
Definition setResPage (l : list ent) (e : ent) (chk : bool) : option (list ent) :=
  if chk && hasKey l (pid e) (ckp e) then None else Some (insertE l e).

(** getResPage, 257-286: lower_bound of (p, c), then the test of the page. *)
Fixpoint lowerBound (l : list ent) (p c : N) : option ent :=
  match l with [] => None | x :: t => if klt (pid x) (ckp x) p c then lowerBound t p c else Some x end.
Definition getRes (l : list ent) (p c : N) : option ent :=
  match lowerBound l p c with Some x => if p <? pid x then None else Some x | None => None end.

(** getResPagesDescriptor, 315-345. None: assertion failure or an index outside the array. *)
Fixpoint descLoop (l : list ent) (c : N) (d : list dent) : option (list dent) :=
  match l with
  | [] => Some d
  | x :: t =>
      if ckp x <=? c then
        match nth_error d (N.to_nat (pid x)) with
        | None => None
        | Some (_, c0, _) =>
            if 0 <? c0 then (if ckp x <? c0 then descLoop t c d else None)
            else descLoop t c (setNth d (N.to_nat (pid x)) (pid x, ckp x, dg x))
        end
      else descLoop t c d
  end.
Definition descriptor (l : list ent) (c : N) : option (list dent) := descLoop l c (repeat zeroD np).

(** deleteCoveredResPageInSmallerCheckpoints, 288-313 (its last assertion, on the number of pages left, is not modelled). *)
Fixpoint coverLoop (m : N) (prev : N) (flag : bool) (l : list ent) : list ent :=
  match l with
  | [] => []
  | x :: t => if (pid x =? prev) && flag then coverLoop m prev flag t else x :: coverLoop m (pid x) (ckp x <=? m) t
  end.
Definition deleteCovered (m : N) (l : list ent) : list ent :=
  if m <=? 1 then l else match l with [] => [] | x :: t => x :: coverLoop m (pid x) (ckp x <=? m) t end.

(** * Local use: BCStateTran.cpp 537-622, 688-759 *)
Record st := mkSt { pages : list ent; pending : list (N * bytes); last : N }.
Fixpoint pget (l : list (N * bytes)) (p : N) : option bytes := match l with [] => None | (q, x) :: t => if q =? p then Some x else pget t p end.
Fixpoint pset (l : list (N * bytes)) (p : N) (x : bytes) : list (N * bytes) :=
  match l with [] => [(p, x)] | (q, y) :: t => if q =? p then (p, x) :: t else (q, y) :: pset t p x end.
(** saveReservedPage 725-744 with setPendingResPage 153-171: padded with zeros. *)
Definition padded (x : bytes) : bytes := x ++ repeat 0 (psz - length x).
Definition save (s : st) (p : N) (x : bytes) : option st :=
  if (p <? N.of_nat np) && (length x <=? psz)%nat then Some (mkSt (pages s) (pset (pending s) p (padded x)) (last s)) else None.
(** zeroReservedPage 747-760. *)
Definition zero (s : st) (p : N) : option st := save s p (repeat 0 psz).
(** loadReservedPage 688-722. *)
Definition load (s : st) (p : N) (k : nat) : option bytes :=
  match pget (pending s) p with
  | Some x => Some (firstn k x)
  | None => if last s =? 0 then None else match getRes (pages s) p (last s) with Some e => Some (firstn k (content e)) | None => None end
  end.
(** checkpointReservedPages 537-551 and associatePendingResPageWithCheckpoint 206-227; then deleteOldCheckpoints 563-585 with
    the lowest checkpoint [m] it keeps (any m <= c here), which sets the last stored checkpoint. *)
Fixpoint associate (l : list (N * bytes)) (c : N) (ps : list ent) : option (list ent) :=
  match l with
  | [] => Some ps
  | (p, x) :: t => if hasKey ps p c then None else associate t c (insertE ps (mkEnt p c (H (pagePre p c x)) x))
  end.
Definition checkpoint (s : st) (c m : N) : option st :=
  if c <=? last s then None   (* 613-622: equal numbers return early, smaller ones fail the assertion *)
  else match associate (pending s) c (pages s) with
       | None => None
       | Some ps => Some (mkSt (deleteCovered m ps) [] c)
       end.

(** * Virtual blocks *)
(** createVBlock 2694-2760; header and elements are packed, BCStateTran.hpp 746-758. None: an assertion fails. *)
Definition encEl (e : ent) : bytes := le 4 (pid e) ++ le 8 (ckp e) ++ dg e ++ content e.
Definition updated (l : list ent) (target lastKnown : N) : list ent :=
  flat_map (fun i => match getRes l (N.of_nat i) target with Some e => if lastKnown <? ckp e then [e] else [] | None => [] end) (seq 0 np).
Definition isZero (g : bytes) : bool := forallb (fun b => b =? 0) g.
Definition createVBlock (l : list ent) (target lastKnown : N) : option bytes :=
  let u := updated l target lastKnown in
  if existsb (fun e => isZero (dg e)) u then None
  else Some (le 4 (N.of_nat (length u)) ++ le 8 lastKnown ++ concat (map encEl u)).

(** getVirtualElement 1250-1259. *)
Definition elementSize : nat := (44 + psz)%nat.
Definition elementAt (vb : bytes) (i : nat) : ent :=
  let o := (12 + i * elementSize)%nat in mkEnt (unle (slice vb o 4)) (unle (slice vb (o + 4) 8)) (slice vb (o + 12) 32) (slice vb (o + 44) psz).
Definition hdrCount (vb : bytes) : N := unle (slice vb 0 4).
Definition hdrKnown (vb : bytes) : N := unle (slice vb 4 8).
Definition elements (vb : bytes) : list ent := map (elementAt vb) (seq 0 (N.to_nat (hdrCount vb))).
(** checkStructureOfVirtualBlock 1261-1305. *)
Fixpoint structLoop (known : N) (prev : option N) (l : list ent) : bool :=
  match l with
  | [] => true
  | e :: t => negb (ckp e <? known) && negb (isZero (dg e)) && (match prev with Some q => negb (pid e <=? q) | None => true end) && structLoop known (Some (pid e)) t
  end.
Definition checkStructure (vb : bytes) : bool :=
  if (length vb <? 12)%nat then false
  else if negb (((length vb - 12) mod elementSize =? 0)%nat) then false
  else if negb (N.of_nat ((length vb - 12) / elementSize) =? hdrCount vb) then false
  else structLoop (hdrKnown vb) None (elements vb).

(** checkVirtualBlockOfResPages 2943-2997. Outside: pagesDesc->d[] is accessed outside the array. *)
Inductive verdict := Accept | Reject | Abort | Outside.
Fixpoint overlay (known : N) (l : list ent) (d : list dent) : (list dent + verdict)%type :=
  match l with
  | [] => inl d
  | e :: t =>
      if negb (if list_eq_dec N.eq_dec (H (pagePre (pid e) (ckp e) (content e))) (dg e) then true else false) then inr Reject
      else match nth_error d (N.to_nat (pid e)) with
           | None => inr Outside
           | Some (_, c0, _) => if known <? c0 then inr Abort else overlay known t (setNth d (N.to_nat (pid e)) (pid e, ckp e, dg e))
           end
  end.
Definition checkVB (l : list ent) (lastStored : N) (expected vb : bytes) : verdict :=
  if negb (checkStructure vb) then Reject
  else if negb (lastStored =? hdrKnown vb) then Reject
  else match descriptor l (hdrKnown vb) with
       | None => Abort
       | Some d => match overlay (hdrKnown vb) (elements vb) d with
                   | inr v => v
                   | inl d' => if list_eq_dec N.eq_dec (H (encDesc d')) expected then Accept else Reject
                   end
       end.
(** processData 3594-3612: the pages are set; an existing (page, checkpoint) is allowed only when re-fetching the last stored
    checkpoint. *)
Fixpoint applyEls (l : list ent) (els : list ent) (chk : bool) : option (list ent) :=
  match els with [] => Some l | e :: t => match setResPage l e chk with Some l' => applyEls l' t chk | None => None end end.
Definition applyVB (l : list ent) (lastStored target : N) (vb : bytes) : option (list ent) := applyEls l (elements vb) (negb (target =? lastStored)).
End S.

(** * Specification vocabulary *)
(** The page a reader sees at checkpoint c: of the newest checkpoint up to c that has one. *)
Definition pageAt (l : list ent) (p c : N) : option bytes := match getRes l p c with Some e => Some (content e) | None => None end.
(** What a store contains in every reachable state: keys in order without repetition, at most [c], digests of the contents. *)
Definition keyLt (a b : ent) : Prop := pid a < pid b \/ (pid a = pid b /\ ckp b < ckp a).
Inductive sortedE : list ent -> Prop := s_nil : sortedE [] | s_cons x l : (forall y, In y l -> keyLt x y) -> sortedE l -> sortedE (x :: l).
Definition storeOk (H : bytes -> bytes) (np psz : nat) (l : list ent) (c : N) : Prop :=
  sortedE l /\ forall e, In e l -> pid e < N.of_nat np /\ 0 < ckp e /\ ckp e <= c /\ dg e = H (pagePre (pid e) (ckp e) (content e)) /\ length (content e) = psz.
(** H has no collision among the given strings. *)
Definition noCollision (H : bytes -> bytes) (l : list bytes) : Prop := forall a b, In a l -> In b l -> H a = H b -> a = b.
(** The last value saved to a page. *)
Inductive pop := Save (p : N) (x : bytes) | Zero (p : N) | Checkpoint (c m : N).
Fixpoint prun H np psz (s : st) (l : list pop) : option st :=
  match l with
  | [] => Some s
  | Save p x :: l => match save np psz s p x with Some s => prun H np psz s l | None => None end
  | Zero p :: l => match zero np psz s p with Some s => prun H np psz s l | None => None end
  | Checkpoint c m :: l => match checkpoint H s c m with Some s => prun H np psz s l | None => None end
  end.
Fixpoint lastSaved (psz : nat) (p : N) (acc : option bytes) (l : list pop) : option bytes :=
  match l with
  | [] => acc
  | Save q x :: l => lastSaved psz p (if q =? p then Some (x ++ repeat 0 (psz - length x)) else acc) l
  | Zero q :: l => lastSaved psz p (if q =? p then Some (repeat 0 psz) else acc) l
  | Checkpoint _ _ :: l => lastSaved psz p acc l
  end.
(** Calls respect the API: pages below np, lengths up to psz, checkpoint numbers increasing. *)
Fixpoint okOps (np psz : nat) (c0 : N) (l : list pop) : Prop :=
  match l with
  | [] => True
  | Save p x :: l => p < N.of_nat np /\ (length x <= psz)%nat /\ okOps np psz c0 l
  | Zero p :: l => p < N.of_nat np /\ okOps np psz c0 l
  | Checkpoint c m :: l => c0 < c /\ m <= c /\ okOps np psz c l
  end.
