(** What the range validation tree is supposed to be, stated on histories, and the check of received digests (RVBManager.cpp 417-532) on top of it. *)
From Coq Require Import List Arith NArith ZArith Bool.
From Verif Require Import Lib_Bytes Rvt_Model.
Import ListNotations.
Local Open Scope N_scope.

(** * Specification: the blocks in range, their first index and their digests *)
Definition live : Type := option (N * list bytes).
Inductive lstep : live -> op -> live -> Prop :=
| LFirst i d : i <> 0 -> lstep None (Add i d) (Some (i, [d]))
| LNext k l d : lstep (Some (k, l)) (Add (k + N.of_nat (length l)) d) (Some (k, l ++ [d]))
| LDrop k x l : l <> [] -> lstep (Some (k, x :: l)) (Rem k x) (Some (k + 1, l))
| LDropLast k x : lstep (Some (k, [x])) (Rem k x) None.
Inductive lrun : live -> list op -> live -> Prop :=
| RNil s : lrun s [] s
| RCons s o s1 os s2 : lstep s o s1 -> lrun s1 os s2 -> lrun s (o :: os) s2.

(** The numbers lo, lo+1, ..., hi. *)
Definition upto (lo hi : N) : list N := map (fun t => lo + N.of_nat t) (seq 0 (N.to_nat (hi + 1 - lo))).
Definition zsum (l : list Z) : Z := fold_right Z.add 0%Z l.
(** The digest of block index i in the range that starts at k. *)
Definition digestOf (k : N) (l : list bytes) (i : N) : bytes := nth (N.to_nat (i - k)) l [].

Section Spec.
Variable H : bytes -> bytes.
Variables (K : N) (M : Z).
(** Sum of the contributions of the blocks x..y. *)
Definition blockSum (k : N) (l : list bytes) (x y : N) : Z := zsum (map (fun i => hval H M (0%nat, i) (digestOf k l i)) (upto x y)).
(** Sum of the contributions of the tree's own nodes at one level; a node at level j covers K^j blocks. *)
Definition levelSum (x y : N) (j : nat) : Z := zsum (map (fun q => iv H M (j, q * K ^ N.of_nat j + 1)) (upto ((x - 1) / K ^ N.of_nat j) ((y - 1) / K ^ N.of_nat j))).
(** The height: the lowest level at least 1 at which one node covers the range. *)
Definition isHeight (x y : N) (L : nat) : Prop :=
  (1 <= L)%nat /\ (x - 1) / K ^ N.of_nat L = (y - 1) / K ^ N.of_nat L /\ forall j, (1 <= j < L)%nat -> (x - 1) / K ^ N.of_nat j <> (y - 1) / K ^ N.of_nat j.
Definition rootSpec (k : N) (l : list bytes) (L : nat) : Z :=
  let last := k + N.of_nat (length l) - 1 in
  ((blockSum k l k last + zsum (map (levelSum k last) (seq 1 L))) mod M)%Z.
(** First index of the group of K blocks that i belongs to. *)
Definition groupStart (i : N) : N := (i - 1) / K * K + 1.
Definition groupFirst (k g : N) : N := N.max k g.
Definition groupLast (k : N) (l : list bytes) (g : N) : N := N.min (k + N.of_nat (length l) - 1) (g + K - 1).
(** Two trees that nobody can tell apart. *)
Definition sameTree (t u : tree) : Prop :=
  (forall x, nodes t x = nodes u x) /\ (forall j, lft t j = lft u j) /\ (forall j, rgt t j = rgt u j) /\ root t = root u /\ mn t = mn u /\ mx t = mx u /\ er t = er u.

(** * Model of setSerializedDigestsOfRvbGroup, RVBManager.cpp 417-532 (up to the decision; storing the accepted digests and forgetting older groups is not modelled).
    Simplified: the data is already split into (block id, digest) pairs (a size that is not a multiple of the pair's size is rejected, 437-440); the group required next (434) is an argument;
    no 64-bit wraparound of block id + fetchRangeSize. F: fetchRangeSize. Abort: an assertion fails. *)
Variable F : N.
(** Specification: the sum of the contributions of received (block id, digest) pairs. *)
Definition givenSum (ds : list (N * bytes)) : Z := zsum (map (fun p => hval H M (0%nat, fst p / F) (snd p)) ds).
Inductive verdict := Reject | Abort | Accept (ds : list (N * bytes)).
(** getRvbGroupIds(b, b, true), RangeValidationTree.cpp 1173-1204: the group of one block, None if it is not exactly one group (or block 0, on which it asserts). *)
Definition groupOf (t : tree) (b : N) : option id :=
  if b =? 0 then None else let g := (1%nat, parentIdx K (b / F) 0) in match nodes t g with Some _ => Some g | None => None end.
(** getRvbIds, 1206-1225. *)
Definition rvbIds (t : tree) (g : id) : list N :=
  match nodes t g with
  | Some n => match kids n, rev (kids n) with x :: _, y :: _ => map (fun i => i * F) (upto (snd x) (snd y)) | _, _ => [] end
  | None => [] end.
(** First stage, 455-496; acc is in reverse. *)
Fixpoint scan (t : tree) (req : option id) (maxCycle : N) (data : list (N * bytes)) (exp : N) (acc : list (N * bytes)) : verdict :=
  match data with
  | [] => Accept (rev acc)
  | (b, d) :: data =>
      if negb (b mod F =? 0) then Reject else
      if (maxCycle <? b) || (mx t * F <? b) then Accept (rev acc) else
      if negb (exp =? 0) && negb (b =? exp) then Reject else
      match groupOf t b with
      | None => Abort
      | Some g => if oidEq req (Some g) then scan t req maxCycle data (b + F) ((b, d) :: acc) else Reject
      end
  end.
Definition listEq (a b : list N) : bool := (Nat.eqb (length a) (length b) && forallb (fun p => fst p =? snd p) (combine a b))%bool.
Definition oZeq (a b : option Z) : bool := match a, b with Some a, Some b => (a =? b)%Z | None, None => true | _, _ => false end.
Definition checkGroup (t : tree) (req : option id) (maxCycle : N) (data : list (N * bytes)) : verdict :=
  if Nat.eqb (length data) 0 || (K <? N.of_nat (length data)) then Reject else
  match scan t req maxCycle data 0 [] with
  | Accept [] => Reject
  | Accept ((b0, d0) :: ds) =>
      let all := (b0, d0) :: ds in
      match req with
      | None => Reject
      | Some g =>
          if negb (listEq (map fst all) (rvbIds t g)) then Reject else
          match exec H K M empty (map (fun p => Add (fst p / F) (snd p)) all) with
          | None => Abort
          | Some u => if oZeq (rootVal u) (parentVal K t (b0 / F)) then Accept all else Reject
          end
      end
  | v => v
  end.

(** * setRvbData's span check, RVBManager.cpp 322-343, with nextRvbBlockId 742-748 and prevRvbBlockId (hpp: rounding down). lo, hi: the tree's first and last block; hasData: a tree was received. *)
Definition nextRvb (b : N) : N := let x := F * (b / F) in if x <? b then x + F else x.
Definition prevRvb (b : N) : N := F * (b / F).
Definition spanOk (hasData : bool) (lo hi minB maxB : N) : bool :=
  negb (((nextRvb minB <=? prevRvb maxB) && negb hasData) || ((nextRvb minB <? lo) || (prevRvb maxB <? hi))).
End Spec.
