(** Model of the range validation tree, bftengine/src/bcstatetransfer/RangeValidationTree.{hpp,cpp}.
    A node is identified by its level and its RVB index (NodeInfo, hpp 208-262: 8 and 56 bits of one integer; the pair (0,0) is the null id). Simplified:
    indices stay below 2^56 and powers of RVT_K below 2^64, levels below 255, so nothing wraps; pointers to nodes are ids looked up in the map,
    metrics and logs are left out. None: an assertion fails (or a null pointer is used). *)
From Coq Require Import List Arith NArith ZArith Bool.
From Verif Require Import Lib_Bytes.
Import ListNotations.
Local Open Scope N_scope.

Definition id : Type := nat * N.
Definition nullId : id := (0%nat, 0).
Definition idEq (a b : id) : bool := Nat.eqb (fst a) (fst b) && (snd a =? snd b).
Definition idLt (a b : id) : bool := Nat.ltb (fst a) (fst b) || (Nat.eqb (fst a) (fst b) && (snd a <? snd b)).
Definition oidEq (a b : option id) : bool := match a, b with Some a, Some b => idEq a b | None, None => true | _, _ => false end.

(** RVTNode, hpp 320-344: parent_id_, child_ids_, insertion_counter_ (None: kInsertionCounterNotInitialized_), initial_value_, current_value_. *)
Record node := mkN { par : id; kids : list id; cnt : option N; ini : Z; cur : Z }.
Definition setPar n p := mkN p (kids n) (cnt n) (ini n) (cur n).
Definition setKids n k := mkN (par n) k (cnt n) (ini n) (cur n).
Definition setCur n c := mkN (par n) (kids n) (cnt n) (ini n) c.

(** The data members, hpp 385-394; er: node_ids_to_erase_. *)
Record tree := mkT { nodes : id -> option node; lft : nat -> option id; rgt : nat -> option id; root : option id; mn : N; mx : N; er : list id }.
Definition empty : tree := mkT (fun _ => None) (fun _ => None) (fun _ => None) None 0 0 [].
Definition setNodes t f := mkT f (lft t) (rgt t) (root t) (mn t) (mx t) (er t).
Definition setRoot t r := mkT (nodes t) (lft t) (rgt t) r (mn t) (mx t) (er t).
Definition setL t f := mkT (nodes t) f (rgt t) (root t) (mn t) (mx t) (er t).
Definition setR t f := mkT (nodes t) (lft t) f (root t) (mn t) (mx t) (er t).
Definition setEr t e := mkT (nodes t) (lft t) (rgt t) (root t) (mn t) (mx t) e.
Definition setRange t a b := mkT (nodes t) (lft t) (rgt t) (root t) a b (er t).
Definition put (t : tree) (k : id) (n : node) : tree := setNodes t (fun x => if idEq x k then Some n else nodes t x).
Definition upd {A} (f : nat -> A) (l : nat) (x : A) : nat -> A := fun m => if Nat.eqb m l then x else f m.

Section S.
Variable H : bytes -> bytes.
(** RVT_K, and the modulus 2^(8*value_size), hpp 189. *)
Variables (K : N) (M : Z).

(** pow_uint, 309-322. *)
Definition pow (l : nat) : N := K ^ N.of_nat l.
(** parentRvbIndexFromChild, 74-78 (and minPossibleSiblingRvbIndex 80-82). *)
Definition parentIdx (i : N) (l : nat) : N := ((i - 1) / pow (S l)) * pow (S l) + 1.
(** maxPossibleSiblingRvbIndex, 84-87. *)
Definition maxSib (i : N) (l : nat) : N := parentIdx i l + (K - 1) * pow l.
(** nextRvbIndex, 89-94. *)
Definition nextIdx (i : N) (l : nat) : option N := if (i - 1) mod pow l =? 0 then Some (i + pow l) else None.

(** computeNodeInitialValue, 106-117, and NodeVal(ptr, size), hpp 145-146 (BN_bin2bn reads the digest big endian). The id is hashed as 8 bytes, rvb_index in the low 56 bits. *)
Definition idBytes (k : id) : bytes := le 8 (N.of_nat (fst k) * 2 ^ 56 + snd k).
Definition hval (k : id) (data : bytes) : Z := Z.rem (Z.of_N (unbe (H (idBytes k ++ data)))) M.
Definition iv (k : id) : Z := hval k (repeat 0 32).
(** addValue / NodeVal +=, 196-205, hpp 160-163; subtractValue / NodeVal -= and toPositive, 207-216, hpp 165-169, 193-197. % is BN_mod: truncated. *)
Definition addVal (n : node) (v : Z) : node := setCur n (Z.rem (cur n + v) M).
Definition subVal (n : node) (v : Z) : node := let x := Z.rem (M + cur n - v) M in setCur n (if (x <? 0)%Z then x + M else x)%Z.

(** RVTNode(level, rvb_index), 177-185 with 154-162. *)
Definition newNode (l : nat) (i : N) : id * node := let k := (S l, parentIdx i l) in (k, mkN nullId [] None (iv k) (iv k)).
(** pushChildId, 250-263. *)
Definition push (n : node) (k : id) : option node :=
  if match rev (kids n) with [] => true | x :: _ => idLt x k end then
    let c := match cnt n with Some c => c | None => (snd k - parentIdx (snd k) (fst k)) / pow (fst k) end in
    if c <? K then Some (mkN (par n) (kids n ++ [k]) (Some (c + 1)) (ini n) (cur n)) else None
  else None.
(** popChildId, 265-270. *)
Definition pop (n : node) (k : id) : option node := match kids n with x :: r => if idEq x k then Some (setKids n r) else None | [] => None end.

Definition bind {A B} (x : option A) (f : A -> option B) : option B := match x with Some a => f a | None => None end.
Local Notation "'let*' x ':=' a 'in' b" := (bind a (fun x => b)) (at level 200, x pattern, right associativity).
Definition assert {A} (b : bool) (x : option A) : option A := if b then x else None.

(** Applying a node operation to the node with id k. *)
Definition onNode (t : tree) (k : id) (f : node -> option node) : option tree := let* n := nodes t k in let* n' := f n in Some (put t k n').
Definition addAt (t : tree) (k : id) (v : Z) : option tree := onNode t k (fun n => Some (addVal n v)).

(** openForInsertion, 900-908. *)
Definition openIns (t : tree) (l : nat) : option id :=
  match rgt t l with
  | Some k => match nodes t k with Some n => match cnt n with Some c => if c <? K then Some k else None | None => Some k end | None => None end
  | None => None end.
(** getRVTNodeByType(PARENT), in 581-666: Some None for the root. *)
Definition parentOf (t : tree) (k : id) : option (option id) :=
  if oidEq (root t) (Some k) then Some None else
  let* n := nodes t k in let* _ := nodes t (par n) in Some (Some (par n)).

(** updateOpenRvtNodeArrays, 917-953. *)
Definition arrAdd (t : tree) (k : id) : option tree :=
  let l := fst k in
  if negb (oidEq (lft t l) (rgt t l)) && negb (match lft t l, rgt t l with Some _, Some _ => true | _, _ => false end) then None else
  let t := setR t (upd (rgt t) l (Some k)) in
  Some (match lft t l with None => setL t (upd (lft t) l (Some k)) | _ => t end).
Definition arrRemove (t : tree) (k : id) : option tree :=
  let l := fst k in
  let a := oidEq (lft t l) (Some k) in let b := oidEq (rgt t l) (Some k) in
  if negb (oidEq (lft t l) (rgt t l)) && negb (match lft t l, rgt t l with Some _, Some _ => true | _, _ => false end) then None else
  if b && negb a then None else
  let* t := (if a then let* i := nextIdx (snd k) l in Some (setL t (upd (lft t) l (match nodes t (l, i) with Some _ => Some (l, i) | None => None end)))
             else Some t) in
  Some (if b then setR t (upd (rgt t) l None) else t).

(** clear, 955-969. setNewRoot, 873-898. *)
Definition setNewRoot (t : tree) (r : option id) : option tree :=
  match r with
  | None => match root t with Some k => if Nat.eqb (fst k) 1 then Some empty else None | None => None end
  | Some k =>
      let* t := (match root t with
                 | None => Some t
                 | Some o => if Nat.eqb (fst k) 0 then None
                             else if Nat.eqb (fst k) (S (fst o)) then onNode t o (fun n => Some (setPar n k))
                             else if Nat.eqb (fst o) (S (fst k)) then arrRemove t o else None
                 end) in
      let t := setRoot t (Some k) in
      let* t := onNode t k (fun n => Some (setPar n nullId)) in
      arrAdd t k
  end.
(** id_to_node_.insert, asserting that the id is new. *)
Definition insertNew (t : tree) (k : id) (n : node) : option tree := match nodes t k with Some _ => None | None => Some (put t k n) end.

(** addValueToInternalNodes, 707-732. *)
Fixpoint addUp (fuel : nat) (t : tree) (k : id) (v : Z) : option (tree * id) :=
  match fuel with
  | O => None
  | S fuel =>
      let* t := addAt t k v in
      let* n := nodes t k in
      if idEq (par n) nullId then if oidEq (root t) (Some k) then Some (t, k) else None
      else if oidEq (root t) (Some k) then None else
      let* p := parentOf t k in
      match p with None => None | Some p => if oidEq (root t) (Some p) then Some (t, p) else addUp fuel t p v end
  end.
Definition addChain (t : tree) (bottom : id) (v : Z) : option tree :=
  let* r := root t in
  let* (t, k) := addUp (S (fst r)) t bottom v in
  if idEq k bottom then Some t else addAt t k v.

(** addInternalNode, 734-829, first loop: goes up from k to the level of the root; returns the node reached. *)
Fixpoint climb (fuel : nat) (t : tree) (k : id) (v : Z) : option (tree * id) :=
  let* r := root t in
  if Nat.eqb (fst k) (fst r) then Some (t, k) else
  match fuel with
  | O => None
  | S fuel =>
      let* n := nodes t k in
      if idEq (par n) nullId then
        match openIns t (S (fst k)) with
        | Some p =>
            let* t := onNode t k (fun n => Some (setPar n p)) in
            let* t := onNode t p (fun n => push n k) in
            let* t := addAt t p v in
            climb fuel t p v
        | None =>
            let (p, pn) := newNode (fst k) (snd k) in
            let* pn := push pn k in
            let pn := addVal pn v in
            let* t := insertNew t p pn in
            let* t := arrAdd t p in
            let* t := onNode t k (fun n => Some (setPar n p)) in
            climb fuel t p (Z.rem (v + ini pn) M)
        end
      else
        let* p := parentOf t k in
        match p with None => None | Some p => let* t := addAt t p v in climb fuel t p v end
  end.
(** Second loop: new roots until the root and its new sibling k share it. *)
Fixpoint grow (fuel : nat) (t : tree) (k : id) : option tree :=
  match fuel with
  | O => None
  | S fuel =>
      let* r := root t in let* rn := nodes t r in
      let a := parentIdx (snd r) (fst r) in
      let b := parentIdx (snd k) (fst k) in
      let (q, qn) := newNode (fst r) (snd r) in
      let* qn := push qn r in
      let qn := addVal qn (cur rn) in
      let* t := insertNew t q qn in
      let* t := setNewRoot t (Some q) in
      let* kn := nodes t k in
      if negb (a =? b) then
        let (w, wn) := newNode (fst k) (snd k) in
        let* t := insertNew t w wn in
        let* t := onNode t k (fun n => Some (setPar n w)) in
        let* t := onNode t w (fun n => push n k) in
        let* t := addAt t w (cur kn) in
        let* t := arrAdd t w in
        grow fuel t w
      else
        let* t := onNode t k (fun n => Some (setPar n q)) in
        let* t := onNode t q (fun n => push n k) in
        addAt t q (cur kn)
  end.
Definition addInternal (t : tree) (k : id) : option tree :=
  let* n := nodes t k in let* r := root t in
  if idEq (par n) nullId then
    let* (t, k) := climb (fst r) t k (ini n) in
    if idEq k r then Some t else grow (S (N.size_nat (snd k))) t k
  else None.

(** addRVBNode, 667-686. *)
Definition addRVB (t : tree) (i : N) (v : Z) : option tree :=
  match openIns t 1 with
  | None =>
      let (p, pn) := newNode 0 i in
      let* pn := push pn (0%nat, i) in
      let* t := arrAdd t p in
      let* t := insertNew t p pn in
      let* t := match root t with None => setNewRoot t (Some p) | Some _ => Some t end in
      let* t := addInternal t p in
      addChain t p v
  | Some p =>
      let* t := onNode t p (fun n => push n (0%nat, i)) in
      addChain t p v
  end.
(** addRightNode, 971-993, on RVB indices (rvbIdToIndex 910-915 divides the block id by fetch_range_size_). *)
Definition addRight (t : tree) (i : N) (data : bytes) : option tree :=
  if (0 <? mx t) && negb (mx t + 1 =? i) then None else
  let* t' := addRVB t i (hval (0%nat, i) data) in
  Some (setRange t' (if mn t =? 0 then i else mn t) i).

(** removeAndUpdateInternalNodes, 830-872, loop 1. *)
Fixpoint trim (fuel : nat) (t : tree) (bottom k : id) (v : Z) : option tree :=
  match fuel with
  | O => None
  | S fuel =>
      if oidEq (root t) (Some k) then Some t else
      let* p := parentOf t k in
      match p with
      | None => None
      | Some p =>
          let* n := nodes t k in
          let* t := (match kids n with
                     | [] => let* t := onNode t p (fun m => pop m k) in
                             if idEq k bottom then Some t else
                             let t := setEr t (k :: er t) in
                             let* t := arrRemove t k in
                             addChain t p (- ini n)
                     | _ => Some t
                     end) in
          let* t := onNode t k (fun n => Some (subVal n v)) in
          trim fuel t bottom p v
      end
  end.
(** Loop 2. *)
Fixpoint shrink (fuel : nat) (t : tree) : option tree :=
  match fuel with
  | O => None
  | S fuel =>
      let* r := root t in let* n := nodes t r in
      match kids n with
      | [_] => if Nat.ltb 1 (fst r) then
                 let t := setEr t (r :: er t) in
                 if negb (oidEq (rgt t (pred (fst r))) (lft t (pred (fst r)))) then None else
                 let* t := arrRemove t r in
                 match rgt t (pred (fst r)) with None => None | Some k => let* t := setNewRoot t (Some k) in shrink fuel t end
               else Some t
      | _ => Some t
      end
  end.
Definition removeUp (t : tree) (k : id) (v : Z) : option tree :=
  let* r := root t in
  let* t := trim (S (fst r)) t k k v in
  let* t := onNode t r (fun n => Some (subVal n v)) in
  let* n := nodes t r in
  match kids n with
  | [] => setNewRoot t None
  | _ => shrink (S (fst r)) t
  end.
(** removeRVBNode, 688-705. *)
Definition removeRVB (t : tree) (i : N) (v : Z) : option tree :=
  let* k := lft t 1%nat in
  let* n := nodes t k in
  let* t := (match kids n with
             | [_] => let* t := arrRemove t k in
                      let t := setEr t (k :: er t) in
                      let* p := parentOf t k in
                      match p with None => Some t | Some p => addChain t p (- ini n) end
             | _ => Some t
             end) in
  let* t := onNode t k (fun n => pop n (0%nat, i)) in
  removeUp t k v.
(** removeLeftNode, 995-1024. *)
Definition removeLeft (t : tree) (i : N) (data : bytes) : option tree :=
  match root t with
  | None => None
  | Some _ =>
      if negb (mn t =? i) then None else
      let* t' := removeRVB t i (hval (0%nat, i) data) in
      let t' := mkT (fun x => if existsb (idEq x) (er t') then None else nodes t' x) (lft t') (rgt t') (root t') (mn t') (mx t') [] in
      Some (match root t' with None => setRange t' 0 0 | Some _ => setRange t' (mn t' + 1) (mx t') end)
  end.

(** getRootCurrentValueStr, hpp 119; getDirectParentValueStr, 1232-1258 (as a number; None: the empty string). *)
Definition rootVal (t : tree) : option Z := let* r := root t in let* n := nodes t r in Some (cur n).
Definition directParent (i : N) : id := (1%nat, if i <=? K then 1 else if i mod K =? 0 then i - K + 1 else i - i mod K + 1).
Definition parentVal (t : tree) (i : N) : option Z := let* n := nodes t (directParent i) in Some (cur n).

(** A history: blocks are added on the right and removed on the left. *)
Inductive op := Add (i : N) (d : bytes) | Rem (i : N) (d : bytes).
Definition apply (t : tree) (o : op) : option tree := match o with Add i d => addRight t i d | Rem i d => removeLeft t i d end.
Fixpoint exec (t : tree) (l : list op) : option tree := match l with [] => Some t | o :: l => let* t := apply t o in exec t l end.
End S.
