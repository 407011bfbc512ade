(** Model of bftengine/src/bftengine/SequenceWithActiveWindow.hpp (all of it) and its specification.
    Numbers (NumbersType, int64) are unbounded naturals, and so are the uint16 indices (all are below totalItems, at most 600 in the
    instances of the code, so that truncation has no effect). A failed ConcordAssert
    and an out-of-bounds array access are both None. ItemFuncs::reset is taken to produce one fixed item [blank]. *)
From Coq Require Import List Arith Lia Bool.
Import ListNotations.

(** Template parameters, lines 26-38: WindowSize, Resolution, WindowHistory. *)
Record wparams := mkP { pW : nat; pR : nat; pH : nat }.
(** Lines 41-43. *)
Definition numActive (p : wparams) : nat := pW p / pR p.
Definition maxInactive (p : wparams) : nat := pH p * numActive p.
Definition totalItems (p : wparams) : nat := maxInactive p + numActive p.
(** The static_asserts of lines 34-38. *)
Definition validParams (p : wparams) : Prop :=
  8 <= pW p /\ 1 <= pR p /\ pR p < pW p /\ pW p mod pR p = 0.

(** Array write (None = out of bounds). *)
Fixpoint upd {A} (l : list A) (i : nat) (x : A) : option (list A) :=
  match l, i with
  | [], _ => None
  | _ :: t, 0 => Some (x :: t)
  | a :: t, S i => match upd t i x with Some t' => Some (a :: t') | None => None end
  end.

Section Item.
Context {A : Type} (blank : A) (p : wparams).

(** Lines 45-48. *)
Record win := mkW { beg : nat; fst_ : nat; inact : nat; items : list A }.

(** Constructor, lines 51-63. *)
Definition wcreate (first : nat) : option win :=
  if first mod pR p =? 0 then Some (mkW first 0 0 (repeat blank (totalItems p))) else None.
(** Lines 69-71. *)
Definition inside (w : win) (n : nat) : bool := (beg w <=? n) && (n <? beg w + pW p).
(** Lines 81-84 (only called with inact > 0). *)
Definition begInactive (w : win) : nat := beg w - inact w * pR p.
(** Lines 73-79. *)
Definition inHistory (w : win) (n : nat) : bool := (0 <? inact w) && (begInactive w <=? n) && (n <? beg w).
(** Index computed by get, lines 86-93, with its asserts. *)
Definition idxActive (w : win) (n : nat) : option nat :=
  if (n mod pR p =? 0) && inside w n then Some ((fst_ w + (n - beg w) / pR p) mod totalItems p) else None.
(** Index computed by getFromHistory, lines 95-112 (the unsigned subtraction never wraps: inact <= totalItems). *)
Definition idxHistory (w : win) (n : nat) : option nat :=
  if inHistory w n && (n mod pR p =? 0) && (0 <? inact w) && (inact w <=? maxInactive p)
  then Some ((fst_ w + totalItems p - inact w + (n - begInactive w) / pR p) mod totalItems p) else None.
(** getFromActiveWindowOrHistory, lines 114-121. *)
Definition idxAny (w : win) (n : nat) : option nat :=
  if inside w n then idxActive w n else if inHistory w n then idxHistory w n else None.
(** Lines 123-128. *)
Definition currentActiveWindow (w : win) : nat * nat := (beg w, beg w + pW p - 1).
(** resetAll, lines 130-137 (the position of the first item is kept). *)
Definition resetAll (w : win) (first : nat) : option win :=
  if first mod pR p =? 0 then Some (mkW first (fst_ w) 0 (repeat blank (length (items w)))) else None.
(** The reset loop of lines 164-168: [k] items from index [i] on. *)
Fixpoint resetFrom (l : list A) (i k : nat) : option (list A) :=
  match k with
  | 0 => Some l
  | S k => match upd l i blank with Some l' => resetFrom l' ((i + 1) mod totalItems p) k | None => None end
  end.
(** advanceActiveWindow, lines 139-177. *)
Definition advance (w : win) (nf : nat) : option win :=
  if (nf mod pR p =? 0) && (beg w <=? nf) then
    if nf =? beg w then Some w
    else if pW p <? nf - beg w then resetAll w nf
    else
      let k := (nf - beg w) / pR p in
      let oldEnd := (fst_ w + numActive p) mod totalItems p in
      let newBeg := (fst_ w + k) mod totalItems p in
      if (0 <? k) && (k <=? numActive p) then
        match resetFrom (items w) oldEnd k with
        | Some l => let i := inact w + k in
                    Some (mkW nf newBeg (if maxInactive p <? i then maxInactive p else i) l)
        | None => None
        end
      else None
  else None.

(** Client operations. get* return a reference: Update* model reading it and then writing through it. *)
Inductive wop :=
| Get (n : nat) | GetHistory (n : nat) | GetAny (n : nat)
| Put (n : nat) (f : A -> A) | PutAny (n : nat) (f : A -> A)
| Inside (n : nat) | InHistory (n : nat) | Range
| Advance (n : nat) | ResetAll (n : nat).
Inductive wout := OItem (a : A) | OBool (b : bool) | ORange (r : nat * nat) | OUnit.

Definition readAt (w : win) (i : option nat) : option A := match i with Some i => nth_error (items w) i | None => None end.
Definition writeAt (w : win) (i : option nat) (f : A -> A) : option win :=
  match i with
  | Some i => match nth_error (items w) i with
              | Some a => match upd (items w) i (f a) with Some l => Some (mkW (beg w) (fst_ w) (inact w) l) | None => None end
              | None => None end
  | None => None end.
Definition wstep (w : win) (o : wop) : option (win * wout) :=
  match o with
  | Get n => option_map (fun a => (w, OItem a)) (readAt w (idxActive w n))
  | GetHistory n => option_map (fun a => (w, OItem a)) (readAt w (idxHistory w n))
  | GetAny n => option_map (fun a => (w, OItem a)) (readAt w (idxAny w n))
  | Put n f => option_map (fun w' => (w', OUnit)) (writeAt w (idxActive w n) f)
  | PutAny n f => option_map (fun w' => (w', OUnit)) (writeAt w (idxAny w n) f)
  | Inside n => Some (w, OBool (inside w n))
  | InHistory n => Some (w, OBool (inHistory w n))
  | Range => Some (w, ORange (currentActiveWindow w))
  | Advance n => option_map (fun w' => (w', OUnit)) (advance w n)
  | ResetAll n => option_map (fun w' => (w', OUnit)) (resetAll w n)
  end.
(** A whole execution from construction; None when the process aborts. *)
Fixpoint wrun (w : win) (l : list wop) : option (list wout) :=
  match l with
  | [] => Some []
  | o :: l => match wstep w o with Some (w', x) => option_map (cons x) (wrun w' l) | None => None end
  end.
Definition wexec (first : nat) (l : list wop) : option (list wout) := match wcreate first with Some w => wrun w l | None => None end.

(** * Specification: a map from numbers to items, the first number [sb] of the active window and the first number [sl] of the history. *)
Record wspec := mkS { sb : nat; sl : nat; sm : nat -> A }.
Definition multiple (n : nat) : bool := n mod pR p =? 0.
Definition sActive (s : wspec) (n : nat) : bool := (sb s <=? n) && (n <? sb s + pW p).
Definition sHistory (s : wspec) (n : nat) : bool := (sl s <=? n) && (n <? sb s).
Definition setm (m : nat -> A) (n : nat) (a : A) : nat -> A := fun x => if x =? n then a else m x.
(** Advancing to b': numbers that enter get blank items, the others keep theirs; the history extends back to at most pH windows.
    A jump of more than a window forgets everything. *)
Definition sAdvance (s : wspec) (b' : nat) : wspec :=
  if pW p <? b' - sb s then mkS b' b' (fun _ => blank)
  else mkS b' (Nat.max (sl s) (b' - pH p * pW p)) (fun n => if n <? sb s + pW p then sm s n else blank).
Definition sstep (s : wspec) (o : wop) : option (wspec * wout) :=
  match o with
  | Get n => if multiple n && sActive s n then Some (s, OItem (sm s n)) else None
  | GetHistory n => if multiple n && sHistory s n then Some (s, OItem (sm s n)) else None
  | GetAny n => if multiple n && (sActive s n || sHistory s n) then Some (s, OItem (sm s n)) else None
  | Put n f => if multiple n && sActive s n then Some (mkS (sb s) (sl s) (setm (sm s) n (f (sm s n))), OUnit) else None
  | PutAny n f => if multiple n && (sActive s n || sHistory s n) then Some (mkS (sb s) (sl s) (setm (sm s) n (f (sm s n))), OUnit) else None
  | Inside n => Some (s, OBool (sActive s n))
  | InHistory n => Some (s, OBool (sHistory s n))
  | Range => Some (s, ORange (sb s, sb s + pW p - 1))
  | Advance n => if multiple n && (sb s <=? n) then Some (sAdvance s n, OUnit) else None
  | ResetAll n => if multiple n then Some (mkS n n (fun _ => blank), OUnit) else None
  end.
Fixpoint srun (s : wspec) (l : list wop) : option (list wout) :=
  match l with
  | [] => Some []
  | o :: l => match sstep s o with Some (s', x) => option_map (cons x) (srun s' l) | None => None end
  end.
Definition sexec (first : nat) (l : list wop) : option (list wout) :=
  if multiple first then srun (mkS first first (fun _ => blank)) l else None.
End Item.
Arguments win : clear implicits.
Arguments wspec : clear implicits.
Arguments wop : clear implicits.
Arguments wout : clear implicits.
