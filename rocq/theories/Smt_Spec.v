(** Specification of the sparse Merkle tree (property C12), independent of the batched nodes, the walker and the cache:
    what the root hash of a set of key/value hashes is, what one batch does to the set, and which stored nodes a reader of
    the latest root can reach. *)
From Coq Require Import List NArith Bool Arith.
From Verif Require Import Smt_Model.
Import ListNotations.

Definition prefixOf (Q k : bits) : Prop := exists r, k = Q ++ r.

Section Spec.
Variable H : Type.
Variable hparent : H -> H -> H.
Variable ph : H.

(** A content: key hash to value hash. *)
Definition content := bits -> option H.

(** The hash of the part of the content under the bit prefix [Q], below the root: nothing hashes to the placeholder, a single key
    hashes to its value hash, and two or more keys hash to the parent of the two halves. *)
Inductive SubHash (f : content) : bits -> H -> Prop :=
| SubEmpty Q : (forall k, prefixOf Q k -> f k = None) -> SubHash f Q ph
| SubOne Q k h : prefixOf Q k -> f k = Some h -> (forall k', prefixOf Q k' -> f k' <> None -> k' = k) -> SubHash f Q h
| SubTwo Q k1 k2 a b : prefixOf Q k1 -> prefixOf Q k2 -> k1 <> k2 -> f k1 <> None -> f k2 <> None ->
    SubHash f (Q ++ [false]) a -> SubHash f (Q ++ [true]) b -> SubHash f Q (hparent a b).

(** The root: the placeholder if there is no key, else the parent of the two halves, even for a single key. *)
Definition RootHash (f : content) (h : H) : Prop :=
  ((forall k, f k = None) /\ h = ph) \/
  (exists k a b, f k <> None /\ SubHash f [false] a /\ SubHash f [true] b /\ h = hparent a b).

(** One batch: deletes, then puts; the last put of a key wins. *)
Definition put1 (f : content) (p : bits * H) : content := fun k => if bits_eqb (fst p) k then Some (snd p) else f k.
Definition del1 (f : content) (d : bits) : content := fun k => if bits_eqb d k then None else f k.
Definition batch (f : content) (puts : list (bits * H)) (dels : list bits) : content :=
  fold_left put1 puts (fold_left del1 dels f).

(** Executions: updates, each followed by the write of its batch, and the removal of any part of the nodes that earlier updates
    reported as stale. *)
Inductive op :=
| Upd (puts : list (bits * H)) (dels : list bits)
| Prune (sel : N -> bits -> bool).

Definition inGarbage (g : list (N * bits)) (v : N) (p : bits) : bool := existsb (fun e => (fst e =? v)%N && bits_eqb (snd e) p) g.
Definition pruneDb (sel : N -> bits -> bool) (g : list (N * bits)) (d : db H) : db H :=
  fun v p => if inGarbage g v p && sel v p then None else d v p.

Definition exec1 (s : store H * list (N * bits)) (o : op) : option (store H * list (N * bits)) :=
  let '(st, g) := s in
  match o with
  | Upd puts dels => match treeUpdate H hparent ph st puts dels with
                     | Some (st', u) => Some (st', uc_stale_int u ++ g)
                     | None => None
                     end
  | Prune sel => Some (mkStore (pruneDb sel g (st_db st)) (st_root st), g)
  end.
Definition exec (os : list op) : option (store H * list (N * bits)) := foldOpt exec1 (store0, []) os.

Definition contentOf (os : list op) : content :=
  fold_left (fun f o => match o with Upd puts dels => batch f puts dels | Prune _ => f end) os (fun _ => None).

(** Key hashes have 256 bits. *)
Definition okOp (o : op) : Prop :=
  match o with
  | Upd puts dels => Forall (fun p => length (fst p) = 256) puts /\ Forall (fun k => length k = 256) dels
  | Prune _ => True
  end.

(** Nodes that a reader of the latest root reaches by following child versions. *)
Definition nodeAt (st : store H) (v : N) (p : bits) : option (node H) :=
  match p with [] => Some (st_root st) | _ => st_db st v p end.
Inductive Reach (st : store H) : N -> bits -> Prop :=
| ReachRoot v : rootVersion st = Some v -> v <> 0%N -> Reach st v []
| ReachChild v p c nb h v' : Reach st v p -> nodeAt st v p = Some c -> length nb = 4 ->
    c (nibbleToIndex nb) = Some (Int h v') -> Reach st v' (p ++ nb).
Definition LeafIn (st : store H) (l : leaf H) : Prop :=
  exists v p c i, Reach st v p /\ nodeAt st v p = Some c /\ i < 31 /\ c i = Some (Leaf l).
End Spec.
Arguments Upd {H}. Arguments Prune {H}.
