(** C28. The LRU cache is bounded, returns the last value put, and drops the least recently used key; the memory pool never hands out an element twice. *)
From Coq Require Import List Arith Bool Lia Permutation.
From Verif Require Import Lru_Model Lru_Proofs.
Import ListNotations.
Section P.
Context {K V : Type}.
Variable eqK : forall a b : K, {a = b} + {a <> b}.

(** Histories list the most recent operation first. After every history the cache is well defined and holds at most [cap] entries
    (size's assertion never fails). *)
Theorem C28_bounded cap h : 0 < cap -> exists (c : lru K V) n, run eqK cap h = Some c /\ size c = Some n /\ n <= cap.
Proof.
  intros C. destruct (run_inv eqK cap h C) as (c & E & N & P & L & _). exists c, (length (keys c)). split; auto. split; auto.
  unfold size. rewrite (Permutation_length P), map_length, Nat.eqb_refl. auto.
Qed.
(** A lookup returns nothing or the value of the last put of this key since the last clear. *)
Theorem C28_value cap h (c : lru K V) k v : 0 < cap -> run eqK cap h = Some c -> lookup eqK c k = Some v -> lastPut eqK k h = Some v.
Proof.
  intros C R L. destruct (run_inv eqK cap h C) as (c' & E & I). rewrite R in E. inversion E; subst c'. destruct I as (_ & _ & _ & F & _).
  apply F. unfold lookup, get in L. destruct (find eqK k (cmap c)); simpl in L; congruence.
Qed.
(** A value put stays available as long as fewer than [cap] other keys were used since. *)
Theorem C28_survives cap h1 h2 (k : K) (v : V) D : length D < cap ->
  (forall a w, In (Put a w) h2 -> a <> k /\ In a D) -> (forall a, In (Get V a) h2 -> a = k \/ In a D) -> ~ In (Clear K V) h2 ->
  exists c, run eqK cap (h2 ++ Put k v :: h1) = Some c /\ lookup eqK c k = Some v.
Proof.
  intros LD HP HG HC. assert (C : 0 < cap) by lia.
  assert (X : exists c, run eqK cap (h2 ++ Put k v :: h1) = Some c /\ Front eqK D k v c).
  { induction h2 as [|o h2 IH].
    - simpl. destruct (run_inv eqK cap h1 C) as (c & E & I). rewrite E. destruct (step_inv eqK cap h1 c (Put k v) C I) as (c' & E' & _). exists c'. split; auto.
      eapply put_front; [exact I|exact E'].
    - destruct IH as (c & E & Fr); [intros; apply HP with w; right; auto|intros; apply HG; right; auto|intros H; apply HC; right; auto|].
      simpl. rewrite E. destruct (run_inv eqK cap (h2 ++ Put k v :: h1) C) as (c1 & E1 & I). rewrite E in E1. inversion E1; subst c1.
      destruct (step_inv eqK cap _ c o C I) as (c' & E' & _). exists c'. split; auto. eapply step_front; [exact I|exact LD|exact Fr|exact E'|].
      destruct o as [a w|a|]; [right; apply HP with w; left; auto|apply HG; left; auto|apply HC; left; auto]. }
  destruct X as (c & E & _ & Fk). exists c. split; auto. unfold lookup, get. rewrite Fk. auto.
Qed.
(** In particular a put is seen by the next lookup. *)
Corollary C28_put_get cap h (k : K) (v : V) : 0 < cap -> exists c, run eqK cap (Put k v :: h) = Some c /\ lookup eqK c k = Some v.
Proof. intros C. apply (C28_survives cap h [] k v []); simpl; auto; intros; tauto. Qed.
(** A put makes another key unavailable only if the cache was full and the new key was not in it; and then only one key: the one whose last use is the oldest. *)
Theorem C28_evicts_least_recently_used cap h (c c' : lru K V) k v k0 : 0 < cap -> run eqK cap h = Some c -> run eqK cap (Put k v :: h) = Some c' ->
  present eqK c k0 -> ~ present eqK c' k0 ->
  size c = Some cap /\ ~ present eqK c k /\ forall a, present eqK c a -> a <> k0 -> ago eqK a h < ago eqK k0 h /\ present eqK c' a.
Proof.
  intros C R R' P0 P1. destruct (run_inv eqK cap h C) as (x & E & I). rewrite R in E. inversion E; subst x. clear E. pose proof I as (N & P & L & _).
  simpl in R'. rewrite R in R'. destruct (step_inv eqK cap h c (Put k v) C I) as (x & E & N' & P' & _). simpl in E. rewrite R' in E. inversion E; subst x.
  assert (PI : forall a, present eqK c a <-> In a (keys c)). { intros a. rewrite (In_keys eqK c a P). unfold present, lookup, get. destruct (find eqK a (cmap c)); simpl; tauto. }
  assert (PI' : forall a, present eqK c' a <-> In a (keys c')). { intros a. rewrite (In_keys eqK c' a P'). unfold present, lookup, get. destruct (find eqK a (cmap c')); simpl; tauto. }
  rewrite PI in P0. rewrite PI' in P1. destruct (put_evicts eqK cap h c k v c' I R' k0 P0 P1) as (A & B & D). split; [|split].
  - unfold size. rewrite <- (map_length fst), <- (Permutation_length P), Nat.eqb_refl, A. auto.
  - rewrite PI. auto.
  - intros a Ha Na. rewrite PI in Ha. rewrite PI'. auto.
Qed.
(** Looking up never changes what is available. *)
Theorem C28_get_drops_nothing cap h (c : lru K V) k k0 : 0 < cap -> run eqK cap h = Some c -> lookup eqK (fst (get eqK c k)) k0 = lookup eqK c k0.
Proof. intros C R. unfold get. destruct (find eqK k (cmap c)) eqn:E; auto. unfold lookup, get. simpl. destruct (find eqK k0 (cmap c)); auto. Qed.
(** With capacity 0 the first put reads the back of an empty list. *)
Theorem C28_capacity_zero_refuted (k : K) (v : V) : run eqK 0 [Put k v] = None.
Proof. reflexivity. Qed.
End P.

(** The pool: after any sequence of requests (refused ones change nothing), the callers hold exactly the allocated elements, nobody holds an element twice, and
    free and held elements together are the initial ones. *)
Theorem C28_pool_conserved max p l : pool0 max = Some p -> let q := prun max p l in
  held max p l [] = allocQ q /\ NoDup (freeQ q ++ held max p l []) /\ Permutation (freeQ q ++ held max p l []) (seq 0 max).
Proof.
  intros E q. unfold pool0 in E. destruct (max =? 0); [discriminate|]. inversion E; subst p. pose proof (held_alloc max l (mkPool (seq 0 max) [])) as H. simpl allocQ in H at 1. fold q in H.
  assert (I : PInv max q) by (apply prun_inv; unfold PInv; simpl; rewrite app_nil_r; auto). split; auto. rewrite H. split; auto. eapply Permutation_NoDup; [symmetry; exact I|apply seq_NoDup].
Qed.
(** A new element is never one that somebody still holds; alloc is refused only when all [max] are held. *)
Theorem C28_pool_alloc max p l : pool0 max = Some p ->
  match alloc (prun max p l) with Some (_, x) => ~ In x (held max p l []) | None => length (held max p l []) = max end.
Proof.
  intros E. pose proof (C28_pool_conserved max p l E) as (H & N & P). set (q := prun max p l) in *. rewrite H in *. destruct (alloc q) as [[q' x]|] eqn:A.
  - eapply (alloc_inv max q); eauto.
  - unfold alloc in A. destruct (freeQ q) eqn:Fq; [|discriminate]. cbn [app] in P. apply Permutation_length in P. rewrite seq_length in P. auto.
Qed.
(** An element can be returned exactly if it is held. *)
Theorem C28_pool_free max p l x : pool0 max = Some p -> (free max (prun max p l) x <> None <-> In x (held max p l [])).
Proof.
  intros E. pose proof (C28_pool_conserved max p l E) as (H & N & P). set (q := prun max p l) in *. rewrite H in *. unfold free.
  apply Permutation_length in P. rewrite app_length, seq_length in P. destruct (Nat.eqb_spec (length (freeQ q)) max) as [L|L].
  - split; [congruence|]. intros X. destruct (allocQ q); simpl in *; [tauto|lia].
  - destruct (existsb (Nat.eqb x) (allocQ q)) eqn:X.
    + apply existsb_exists in X. destruct X as (y & Hy & Q). apply Nat.eqb_eq in Q. subst y. split; auto. intros _. discriminate.
    + split; [congruence|]. intros HI. exfalso. assert (Y : existsb (Nat.eqb x) (allocQ q) = true); [apply existsb_exists; exists x; split; auto; apply Nat.eqb_refl|congruence].
Qed.

Print Assumptions C28_bounded.
Print Assumptions C28_value.
Print Assumptions C28_survives.
Print Assumptions C28_put_get.
Print Assumptions C28_evicts_least_recently_used.
Print Assumptions C28_get_drops_nothing.
Print Assumptions C28_capacity_zero_refuted.
Print Assumptions C28_pool_conserved.
Print Assumptions C28_pool_alloc.
Print Assumptions C28_pool_free.

(** Non-vacuity: capacity 2; key 1 is used again before key 3 comes, so key 2 is dropped. *)
Example C28_example : exists c c', run Nat.eq_dec 2 [Get nat 1; Put 2 20; Put 1 11; Put 1 10] = Some c /\ run Nat.eq_dec 2 [Put 3 30; Get nat 1; Put 2 20; Put 1 11; Put 1 10] = Some c' /\
  present Nat.eq_dec c 2 /\ ~ present Nat.eq_dec c' 2 /\ lookup Nat.eq_dec c' 1 = Some 11 /\ lookup Nat.eq_dec c' 3 = Some 30 /\ size c = Some 2 /\ size c' = Some 2.
Proof. do 2 eexists. split; [reflexivity|]. split; [reflexivity|]. repeat split; try discriminate. intros H. apply H. reflexivity. Qed.
Example C28_pool_example : exists p, pool0 3 = Some p /\ held 3 p [Alloc; Alloc; Free 0; Free 0; Alloc; Alloc; Alloc; Free 7] [] = [1; 2; 0] /\
  alloc (prun 3 p [Alloc; Alloc; Free 0; Free 0; Alloc; Alloc; Alloc; Free 7]) = None /\ alloc (prun 3 p [Alloc; Alloc; Free 0]) = Some (mkPool [0] [1; 2], 2).
Proof. eexists. split; [reflexivity|]. repeat split. Qed.
