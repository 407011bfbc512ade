(** Model of ccron/src/cron_table.cpp:62-72 (CronTable::evaluate) and ccron/src/periodic_action.cpp (periodicAction, persistPeriodicSchedule, the static
    schedule, its reserved page). Simplified: entries with rules of their own are left out; the tables do not change (addEntry and removeEntry
    happen before the first tick); the schedule is a function; serialising the schedule and reading it back is the identity; times do not overflow. *)
From Coq Require Import List ZArith Bool Arith.
Import ListNotations.
Open Scope Z_scope.
(** An entry: a periodic action with its period, or the entry that persists the schedule. *)
Inductive entry := Periodic (period : Z) | Persist.
(** A table: its entries in ascending order of the position (std::map), cron_table.hpp:57. *)
Definition table := list (nat * entry).
(** schedule.components[component][position], periodic_action.cpp:31. *)
Definition sched := nat -> nat -> option Z.
Definition noSched : sched := fun _ _ => None.
Definition setNext (s : sched) (c p : nat) (t : Z) : sched := fun c' p' => if ((c' =? c) && (p' =? p))%nat then Some t else s c' p'.
(** schedule, persist_schedule_pending, the reserved page, and the log of actions run (component, position, time), the latest first. *)
Record cst := mkC { sch : sched; pending : bool; page : option sched; log : list (nat * nat * Z) }.
Definition cron0 : cst := mkC noSched false None [].
(** The rule of a periodic action, lines 55-75. *)
Definition due (s : sched) (c p : nat) (t : option Z) : bool :=
  match t with None => false | Some t => match s c p with None => true | Some n => n <=? t end end.
(** One entry of CronTable::evaluate, cron_table.cpp:63-71, with schedule_next (lines 77-81) before the action, or the persist entry (lines 96-101). *)
Definition evalEntry (c : nat) (t : option Z) (s : cst) (e : nat * entry) : cst :=
  match e, t with
  | (p, Periodic d), Some t' => if due (sch s) c p t then mkC (setNext (sch s) c p (t' + d)) true (page s) ((c, p, t') :: log s) else s
  | (_, Periodic _), None => s
  | (_, Persist), _ => if pending s then mkC (sch s) false (Some (sch s)) (log s) else s
  end.
Definition evaluate (tab : table) (c : nat) (t : option Z) (s : cst) : cst := fold_left (evalEntry c t) tab s.
(** What happens to a replica: a tick of a component, with or without agreed time; a restart between requests (loadSchedule, lines 43-49, is called once per
    process); the end of a state transfer, which replaces the reserved page. *)
Inductive cev := Tick (c : nat) (t : option Z) | Restart | Fetched (p : option sched).
Definition cstep (tabs : nat -> table) (s : cst) (e : cev) : cst :=
  match e with
  | Tick c t => evaluate (tabs c) c t s
  | Restart => mkC (match page s with Some x => x | None => noSched end) false (page s) (log s)
  | Fetched p => mkC (sch s) (pending s) p (log s)
  end.
Definition crun (tabs : nat -> table) (l : list cev) : cst := fold_left (cstep tabs) l cron0.

(** * Specification, over the log of runs (latest first). *)
Fixpoint lastRun (c p : nat) (l : list (nat * nat * Z)) : option Z :=
  match l with [] => None | (c', p', t) :: l => if ((c' =? c) && (p' =? p))%nat then Some t else lastRun c p l end.
(** The actions to be run by a tick of [c] at [t]: those never run before, or last run at least a period ago; in ascending order of positions. *)
Definition toRun (tab : table) (c : nat) (t : Z) (l : list (nat * nat * Z)) : list (nat * nat * Z) :=
  flat_map (fun e => match e with
                     | (p, Periodic d) => match lastRun c p l with None => [(c, p, t)] | Some t' => if t' + d <=? t then [(c, p, t)] else [] end
                     | _ => [] end) tab.
Definition ticks (l : list cev) : list cev := filter (fun e => match e with Tick _ _ => true | _ => false end) l.
(** No two entries of a table have the same position (std::map). *)
Definition wfTabs (tabs : nat -> table) : Prop := forall c, NoDup (map fst (tabs c)).
(** The persist entry is the last one of each table. *)
Definition persistLast (tabs : nat -> table) : Prop := forall c, exists l p, tabs c = l ++ [(p, Persist)].
Definition noFetch (l : list cev) : Prop := forall p, ~ In (Fetched p) l.
