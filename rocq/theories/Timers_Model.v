(** The timers of a replica: libs/util/Timers.hpp. Times are natural numbers (milliseconds); a callback is the list of timer operations it does, as its other effects do not concern the timers. The lock is recursive, so that an
    operation of another thread never comes in the middle of an evaluation, but one of a callback does. What C++ leaves undefined (a vector that moves its elements, or loses one, while it is iterated) sets [bad], and nothing is said about what follows. *)
From Coq Require Import List Arith Bool Sorted.
Import ListNotations.

(** Timer, Timers.hpp:50-96: the id, duration_, expires_at_, type_. *)
Record timer := mkT { t_id : nat; t_dur : nat; t_exp : nat; t_rec : bool }.
Record st := mkSt { tms : list timer; ctr : nat; cap : nat; bad : bool; fired : list (nat * nat) }.   (* timers_, id_counter_, the capacity of the vector; the callbacks that ran: of which timer, when *)
Inductive op := Add (d : nat) (r : bool) (t : nat) | Reset (i d t : nat) | Cancel (i : nat).
Definition withBad (s : st) : st := mkSt (tms s) (ctr s) (cap s) true (fired s).
(** add, 110-121; reset, 123-131; cancel, 133-139 (ids are unique, so that all timers of an id is the first one found, 170-173). [cb]: during a callback, where a vector that grows beyond its capacity moves. *)
Definition apply (cb : bool) (s : st) (o : op) : st :=
  if bad s then s else
  match o with
  | Add d r t => if cb && (length (tms s) =? cap s) then withBad s
                 else mkSt (tms s ++ [mkT (S (ctr s)) d (t + d) r]) (S (ctr s)) (if length (tms s) =? cap s then Nat.max 1 (2 * cap s) else cap s) (bad s) (fired s)
  | Reset i d t => mkSt (map (fun x => if t_id x =? i then mkT (t_id x) d (t + d) (t_rec x) else x) (tms s)) (ctr s) (cap s) (bad s) (fired s)
  | Cancel i => mkSt (filter (fun x => negb (t_id x =? i)) (tms s)) (ctr s) (cap s) (bad s) (fired s)
  end.
(** The timer at position i starts again. *)
Fixpoint setAt (l : list timer) (i e : nat) : list timer :=
  match l, i with [], _ => [] | x :: r, 0 => mkT (t_id x) (t_dur x) e (t_rec x) :: r | x :: r, S j => x :: setAt r j e end.
Definition again (i now : nat) (x : timer) (s : st) : st := mkSt (setAt (tms s) i (now + t_dur x)) (ctr s) (cap s) (bad s) (fired s).
Definition fire (i now : nat) (s : st) : st := mkSt (tms s) (ctr s) (cap s) (bad s) (fired s ++ [(i, now)]).
Definition cancels (acc : list nat) (s : st) : st := fold_left (fun s h => apply false s (Cancel h)) acc s.
(** evaluate, 145-167: n timers from position i; acc is to_cancel. The reference to a timer is used again after its callback. *)
Fixpoint loop (now : nat) (cb : nat -> list op) (n i : nat) (acc : list nat) (s : st) : st :=
  match n with
  | 0 => cancels acc s
  | S n => if bad s then s else
      match nth_error (tms s) i with
      | None => withBad s
      | Some x =>
          if t_exp x <=? now then
            let s := fold_left (apply true) (cb (t_id x)) (fire (t_id x) now s) in
            match nth_error (tms s) i with
            | None => withBad s
            | Some y => if t_rec y then loop now cb n (S i) acc (again i now y s) else loop now cb n (S i) (acc ++ [t_id y]) s
            end
          else loop now cb n (S i) acc s
      end
  end.
Inductive event := Op (o : op) | Eval (now : nat) (cb : nat -> list op).
Definition step (s : st) (e : event) : st := match e with Op o => apply false s o | Eval now cb => loop now cb (length (tms s)) 0 [] s end.
Definition start : st := mkSt [] 0 0 false [].
Definition runFrom (s : st) (l : list event) : st := fold_left step l s.
Definition run (l : list event) : st := runFrom start l.

(** * Specification. *)
(** When a timer armed for the time due, with period d, goes off if the timers are looked at at the times given. *)
Fixpoint expected (r : bool) (d due : nat) (nows : list nat) : list nat :=
  match nows with [] => [] | n :: l => if due <=? n then n :: (if r then expected r d (n + d) l else []) else expected r d due l end.
Definition evals (l : list event) : list nat := flat_map (fun e => match e with Eval n _ => [n] | _ => [] end) l.
Definition firedOf (i : nat) (s : st) : list nat := map snd (filter (fun p => fst p =? i) (fired s)).
Definition target (o : op) : option nat := match o with Add _ _ _ => None | Reset i _ _ => Some i | Cancel i => Some i end.
Definition isCancel (o : op) : bool := match o with Cancel _ => true | _ => false end.
Definition isReset (o : op) : bool := match o with Reset _ _ _ => true | _ => false end.
(** Callbacks do not cancel; nothing resets or cancels timer i. *)
Definition noCancel (cb : nat -> list op) : Prop := forall j o, In o (cb j) -> isCancel o = false.
Definition untouched (i : nat) (e : event) : Prop := match e with Op o => target o <> Some i | Eval _ cb => noCancel cb /\ forall j o, In o (cb j) -> target o <> Some i end.
Definition onlyResets (e : event) : Prop := match e with Op _ => True | Eval _ cb => forall j o, In o (cb j) -> isReset o = true end.
