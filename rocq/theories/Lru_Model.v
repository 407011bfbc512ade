(** Model of libs/util/lru_cache.hpp (LruCache) and libs/util/SimpleMemoryPool.hpp (SimpleMemoryPool).
    Simplified: the hash map is an association list without duplicate keys; its iterators into keys_ are replaced by the key itself (keys_ has no
    duplicates, which is proved); the statistics counters and callbacks are dropped. *)
From Coq Require Import List Arith Bool.
Import ListNotations.
Set Implicit Arguments.
Section L.
Variables K V : Type.
Variable eqK : forall a b : K, {a = b} + {a <> b}.
(** keys_ (most recently used first) and map_, lines 64-66. *)
Record lru := mkLru { keys : list K; cmap : list (K * V) }.
Definition lru0 : lru := mkLru [] [].
Fixpoint find (k : K) (m : list (K * V)) : option V := match m with [] => None | (a, v) :: m => if eqK a k then Some v else find k m end.
Fixpoint erase (k : K) (m : list (K * V)) : list (K * V) := match m with [] => [] | (a, v) :: m => if eqK a k then m else (a, v) :: erase k m end.
Fixpoint assign (k : K) (v : V) (m : list (K * V)) : list (K * V) := match m with [] => [] | (a, w) :: m => if eqK a k then (a, v) :: m else (a, w) :: assign k v m end.
(** moveToFront, line 69: splice of the one element. *)
Definition moveToFront (k : K) (l : list K) : list K := k :: remove eqK k l.
(** keys_.back(); None is undefined behaviour (empty list). *)
Fixpoint back (l : list K) : option K := match l with [] => None | [x] => Some x | _ :: l => back l end.
(** putImp, lines 71-87. None: undefined behaviour. *)
Definition put (cap : nat) (c : lru) (k : K) (v : V) : option lru :=
  match find k (cmap c) with
  | Some _ => Some (mkLru (moveToFront k (keys c)) (assign k v (cmap c)))
  | None => if length (keys c) =? cap then
              match back (keys c) with
              | None => None
              | Some b => Some (mkLru (k :: removelast (keys c)) ((k, v) :: erase b (cmap c)))
              end
            else Some (mkLru (k :: keys c) ((k, v) :: cmap c))
  end.
(** get, lines 32-42: the new cache and the result. *)
Definition get (c : lru) (k : K) : lru * option V :=
  match find k (cmap c) with None => (c, None) | Some v => (mkLru (moveToFront k (keys c)) (cmap c), Some v) end.
(** size, lines 44-47: None is the failed assertion. *)
Definition size (c : lru) : option nat := if length (cmap c) =? length (keys c) then Some (length (keys c)) else None.
Inductive op := Put (k : K) (v : V) | Get (k : K) | Clear.
Definition step (cap : nat) (c : lru) (o : op) : option lru :=
  match o with Put k v => put cap c k v | Get k => Some (fst (get c k)) | Clear => Some lru0 end.
(** The cache after the operations [h], the most recent one first. *)
Fixpoint run (cap : nat) (h : list op) : option lru :=
  match h with [] => Some lru0 | o :: h => match run cap h with None => None | Some c => step cap c o end end.

(** * Specification *)
Definition opKey (o : op) : option K := match o with Put k _ => Some k | Get k => Some k | Clear => None end.
Definition lookup (c : lru) (k : K) : option V := snd (get c k).
Definition present (c : lru) (k : K) : Prop := lookup c k <> None.
(** The value of the last put of [k], if nothing was cleared since. *)
Fixpoint lastPut (k : K) (h : list op) : option V :=
  match h with [] => None | Put a v :: h => if eqK a k then Some v else lastPut k h | Get _ :: h => lastPut k h | Clear :: _ => None end.
(** How many operations ago [k] was last used. *)
Fixpoint ago (k : K) (h : list op) : nat :=
  match h with [] => 0 | o :: h => match opKey o with Some a => if eqK a k then 0 else S (ago k h) | None => S (ago k h) end end.
End L.

(** * SimpleMemoryPool. An element is identified by its address, here a number. *)
Record pool := mkPool { freeQ : list nat; allocQ : list nat }.    (* lines 93-94 *)
(** The constructor, lines 38-50: maxNumElements fresh elements (throws for 0: None). *)
Definition pool0 (max : nat) : option pool := if max =? 0 then None else Some (mkPool (seq 0 max) []).
(** alloc, lines 71-82: None is the exception. *)
Definition alloc (p : pool) : option (pool * nat) :=
  match freeQ p with [] => None | x :: q => Some (mkPool q (allocQ p ++ [x]), x) end.
(** erase of the first occurrence, lines 89-98. *)
Fixpoint eraseQ (x : nat) (q : list nat) : list nat := match q with [] => [] | y :: q => if y =? x then q else y :: eraseQ x q end.
(** free, lines 85-100: None is one of the exceptions; the pool is then unchanged. *)
Definition free (max : nat) (p : pool) (x : nat) : option pool :=
  if length (freeQ p) =? max then None else if existsb (Nat.eqb x) (allocQ p) then Some (mkPool (freeQ p ++ [x]) (eraseQ x (allocQ p))) else None.
Inductive pop := Alloc | Free (x : nat).
(** A caught exception leaves the pool as it was. *)
Definition pstep (max : nat) (p : pool) (o : pop) : pool :=
  match o with Alloc => match alloc p with Some (p', _) => p' | None => p end | Free x => match free max p x with Some p' => p' | None => p end end.
Definition prun (max : nat) (p : pool) (l : list pop) : pool := fold_left (pstep max) l p.
(** * Specification: what the callers hold, in the order it was handed out. *)
Fixpoint held (max : nat) (p : pool) (l : list pop) (h : list nat) : list nat :=
  match l with
  | [] => h
  | Alloc :: l => match alloc p with Some (p', x) => held max p' l (h ++ [x]) | None => held max p l h end
  | Free x :: l => match free max p x with Some p' => held max p' l (eraseQ x h) | None => held max p l h end
  end.
