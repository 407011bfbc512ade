(** Database snapshots: bftengine/src/bftengine/DbCheckpointManager.cpp:40-143, 231-346 and storage/src/rocksdb_client.cpp:579-635. A snapshot is known by its block number (its id in the code); creation times, metrics,
    the callbacks after a creation and the variant of start-up without metadata are left out. Every call that another thread or a crash can cut in two is two steps; [lock_] is held while [pc] is not [PFree]. *)
From Coq Require Import List Arith Bool.
Import ListNotations.

Inductive dst := Absent | Part | Raw | Ready.   (* the snapshot's directory: none, being written or removed, written by the database, prepared for use *)
Inductive pc :=
| PFree
| PMake (id q : nat)                        (* IDBClient::createCheckpoint is writing the directory *)
| PPrep (id q : nat)                        (* prepareCheckpointCb_ *)
| PSave (id : nat)                          (* in dbCheckPoints_, updateDbCheckpointMetadata to come *)
| PTrim (id : nat)                          (* the while loop, 77-79 *)
| PRm (o : nat) (own : option nat)          (* removeOldestDbCheckpoint: the directory of o goes; own is the creation that does it, none for the monitor *)
| PEr (o : nat) (own : option nat).         (* o is erased, updateDbCheckpointMetadata to come *)
Record st := mkSt { dir : nat -> dst; meta : list nat;      (* on disk: the directories, the stored metadata *)
  mm : list nat;                                            (* dbCheckPoints_: an ordered map *)
  fut : list nat; run : list (nat * nat);                   (* dbCreateCheckPtFuture_; its tasks that wait for the lock *)
  p : pc; lastSeq : nat; lcd : option nat;                  (* lastCheckpointSeqNum_, lastCreatedCheckpointMetadata_ *)
  dead : bool;                                              (* a thread waits for itself, or for one that waits for the lock it holds *)
  crashes : nat }.                                          (* ghost: how often the replica was restarted *)
Definition s0 := mkSt (fun _ => Absent) [] [] [] [] PFree 0 None false 0.
Definition upd (f : nat -> dst) k v : nat -> dst := fun x => if x =? k then v else f x.
Definition mem (x : nat) (l : list nat) : bool := existsb (Nat.eqb x) l.
Definition del (x : nat) (l : list nat) : list nat := filter (fun y => negb (y =? x)) l.
Fixpoint ins (x : nat) (l : list nat) : list nat := match l with [] => [x] | y :: r => if x <=? y then x :: l else y :: ins x r end.
Definition lasto (l : list nat) : option nat := match rev l with x :: _ => Some x | [] => None end.
Definition opt (o : option nat) : list nat := match o with Some x => [x] | None => [] end.
(** The creations that have not ended: those that wait, and the one that holds the lock. *)
Definition owner (c : pc) : list nat := match c with PFree => [] | PMake i _ | PPrep i _ | PSave i | PTrim i => [i] | PRm _ w | PEr _ w => opt w end.
Definition unfinished (s : st) : list nat := map fst (run s) ++ owner (p s).
Definition removing (c : pc) : list nat := match c with PRm o _ | PEr o _ => [o] | _ => [] end.
(** getCheckpointState, 231-247. *)
Inductive cstate := Created | Pending | NonExistent.
Definition state (id : nat) (s : st) : cstate := if mem id (mm s) then Created else if mem id (fut s) then Pending else NonExistent.

(** max: the configured number. early: a removal stores the metadata before it deletes the directory (the code: false). clean: no crash during a removal. ord: requests come with growing block numbers and get the lock in turn.
    nofail: the database never fails to write a snapshot. *)
Section Snap.
Context (max : nat) (early clean ord nofail : bool).
(** removeOldestDbCheckpoint, 321-334, first part. *)
Definition rm_start (o : nat) (r : list nat) (own : option nat) (s : st) : st :=
  if early then mkSt (dir s) r r (fut s) (run s) (PRm o own) (lastSeq s) (lcd s) (dead s) (crashes s)
  else mkSt (upd (dir s) o Part) (meta s) (mm s) (fut s) (run s) (PRm o own) (lastSeq s) (lcd s) (dead s) (crashes s).
Definition gone (o : nat) (own : option nat) (s : st) : st :=
  mkSt (upd (dir s) o Absent) (meta s) (if early then mm s else tl (mm s)) (fut s) (run s) (PEr o own) (lastSeq s) (lcd s) (dead s) (crashes s).
(** The metadata, and removeDbCheckpointFuture, 327-338: the destructor of a future of std::async waits for its task. *)
Definition erased (o : nat) (own : option nat) (s : st) : st :=
  mkSt (dir s) (mm s) (mm s) (del o (fut s)) (run s) (match own with Some i => PTrim i | None => PFree end) (lastSeq s) (match mm s with [] => None | _ => lcd s end) (dead s || mem o (unfinished s)) (crashes s).
(** init, 114-143, after a restart: the stored list; directories outside it are removed. *)
Definition restart (v : nat) (s : st) : st :=
  mkSt (fun x => if mem x (meta s) then dir s x else Absent) (meta s) (meta s) [] [] PFree v (lasto (meta s)) false (S (crashes s)).

Inductive step : st -> st -> Prop :=
(* createDbCheckpointAsync, 249-288, when it accepts *)
| s_req s id q : lastSeq s < q -> 0 < id -> 0 < max -> mem id (fut s) = false ->
    (ord = true -> Forall (fun x => x < id) (mm s ++ unfinished s ++ removing (p s))) ->
    step s (mkSt (dir s) (meta s) (mm s) (id :: fut s) (run s ++ [(id, q)]) (p s) (lastSeq s) (lcd s) (dead s) (crashes s))
(* createDbCheckpoint, 40-88 *)
| s_lock s id q l1 l2 : p s = PFree -> dead s = false -> run s = l1 ++ (id, q) :: l2 -> (ord = true -> l1 = []) ->
    step s (if mem id (mm s) then mkSt (dir s) (meta s) (mm s) (fut s) (l1 ++ l2) (PTrim id) (lastSeq s) (lcd s) (dead s) (crashes s)
            else mkSt (upd (dir s) id Part) (meta s) (mm s) (fut s) (l1 ++ l2) (PMake id q) (lastSeq s) (lcd s) (dead s) (crashes s))
| s_made s id q : p s = PMake id q -> step s (mkSt (upd (dir s) id Raw) (meta s) (mm s) (fut s) (run s) (PPrep id q) (lastSeq s) (lcd s) (dead s) (crashes s))
| s_fail s id q : p s = PMake id q -> nofail = false -> step s (mkSt (upd (dir s) id Absent) (meta s) (mm s) (fut s) (run s) PFree (lastSeq s) (lcd s) (dead s) (crashes s))
| s_prep s id q : p s = PPrep id q -> step s (mkSt (upd (dir s) id Ready) (meta s) (ins id (mm s)) (fut s) (run s) (PSave id) q (Some id) (dead s) (crashes s))
| s_save s id : p s = PSave id -> step s (mkSt (dir s) (mm s) (mm s) (fut s) (run s) (PTrim id) (lastSeq s) (lcd s) (dead s) (crashes s))
| s_trim s id o r : p s = PTrim id -> dead s = false -> mm s = o :: r -> max < length (mm s) -> step s (rm_start o r (Some id) s)
| s_done s id : p s = PTrim id -> dead s = false -> length (mm s) <= max -> step s (mkSt (dir s) (meta s) (mm s) (fut s) (run s) PFree (lastSeq s) (lcd s) (dead s) (crashes s))
(* checkAndRemove, 290-319: low disk space *)
| s_mon s o r : p s = PFree -> dead s = false -> mm s = o :: r -> step s (rm_start o r None s)
| s_gone s o own : p s = PRm o own -> step s (gone o own s)
| s_meta s o own : p s = PEr o own -> step s (erased o own s)
| s_crash s v : (clean = true -> removing (p s) = []) -> step s (restart v s).
Inductive reach : st -> Prop := r0 : reach s0 | rS s t : reach s -> step s t -> reach t.
(** A continuation without a restart. *)
Inductive on (s : st) : st -> Prop := o0 : on s s | oS t u : on s t -> step t u -> crashes u = crashes t -> on s u.
End Snap.

(** The size of the stored list, DbCheckpointMetadata.hpp:26-77 and libs/util/serializable.hpp:148-240, 130-146: a name and a version with their lengths before each object, 8 bytes per number; the limit of the storage
    (PersistentStorageImp.cpp:113, DbMetadataStorage.cpp:35): an object in memory has a pointer to its virtual functions and four numbers, and a map's element a key. *)
From Coq Require Import String.
Definition name_list : string := "bftEngine::impl::DbCheckpointMetadata".
Definition name_item : string := "bftEngine::impl::DbCheckpointMetadata::DbCheckPointDescriptor".
Definition head_size (s : string) : nat := (8 + String.length s) + (8 + String.length "1").
Definition stored_size (n : nat) : nat := head_size name_list + 8 + n * (8 + (head_size name_item + 4 * 8)).
Definition allowed_size : nat := 100 * (8 + (8 + 4 * 8)).
(** setNextStableSeqNumToCreateSnapshot, DbCheckpointManager.cpp:347-356; [w] is checkpointWindowSize. *)
Definition next_stable (w seqNum : nat) : nat := (seqNum + w) - (seqNum + w) mod w.
