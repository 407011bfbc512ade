(** Proofs for the categorized chain (C15). *)
From Coq Require Import List Arith NArith Lia Bool.
From Verif Require Import Lib_Bytes Keys_Model Keys_Proofs Lib_CF Versioned_Model Versioned_Proofs Immutable_Model Immutable_Proofs KvChain_Model.
Import ListNotations.
Local Open Scope N_scope.

(** * Maps over ids *)
Section NMapLemmas.
Context {V : Type}.
Implicit Types d : list (N * V).
Lemma nget_del d k k' : nget (ndel d k) k' = if k' =? k then None else nget d k'.
Proof.
  induction d as [|[k2 v] d IH]; cbn [ndel filter nget fst]; [destruct (k' =? k); auto|].
  destruct (N.eqb_spec k k2) as [->|E]; cbn [negb].
  - fold (ndel d k2). rewrite IH. destruct (N.eqb_spec k' k2); auto.
  - cbn [nget]. fold (ndel d k). rewrite IH. destruct (N.eqb_spec k' k2), (N.eqb_spec k' k); subst; auto; lia.
Qed.
Lemma nget_put d k v k' : nget (nput d k v) k' = if k' =? k then Some v else nget d k'.
Proof. unfold nput. cbn [nget]. destruct (N.eqb_spec k' k); auto. rewrite nget_del. destruct (N.eqb_spec k' k); auto; lia. Qed.
Lemma nget_In d k : nget d k <> None <-> exists v, In (k, v) d.
Proof.
  induction d as [|[k2 v] d IH]; cbn [nget]; [split; [congruence|intros [? []]]|]. destruct (N.eqb_spec k k2) as [->|E].
  - split; [intros _; exists v; left; auto|discriminate].
  - rewrite IH. split; intros [w I]; exists w; [right; auto|destruct I as [I|I]; [congruence|auto]].
Qed.
Lemma maxId_spec d : (forall k, nget d k <> None -> k <= maxId d) /\ (maxId d = 0 \/ nget d (maxId d) <> None).
Proof.
  induction d as [|[k v] d [A B]]; [split; [cbn; congruence|left; auto]|]. cbn [maxId fold_right fst]. fold (maxId d). split.
  - intros k' E. cbn [nget] in E. destruct (N.eqb_spec k' k); [lia|]. apply A in E. lia.
  - cbn [nget]. destruct (N.eqb_spec (N.max k (maxId d)) k); [right; discriminate|]. right. replace (N.max k (maxId d)) with (maxId d) by lia. destruct B as [B|B]; [lia|auto].
Qed.
Lemma minId_spec d : nget d 0 = None -> (forall k, nget d k <> None -> minId d <= k) /\ (d = [] /\ minId d = 0 \/ minId d <> 0 /\ nget d (minId d) <> None).
Proof.
  induction d as [|[k v] d IH]; [intros _; split; [cbn; congruence|left; auto]|]. cbn [nget]. destruct (N.eqb_spec 0 k); [discriminate|]. intros E. destruct (IH E) as [A B].
  cbn [minId fold_right fst]. fold (minId d). split.
  - intros k' E'. cbn [nget] in E'. destruct (N.eqb_spec k' k); destruct (N.eqb_spec (minId d) 0) as [Z|Z]; try lia.
    + destruct B as [[-> _]|[B _]]; [cbn in E'; congruence|lia].
    + apply A in E'. lia.
  - right. cbn [nget]. destruct (N.eqb_spec (minId d) 0) as [Z|Z]; [rewrite N.eqb_refl; split; [lia|discriminate]|]. destruct B as [[_ B]|[_ B]]; [lia|].
    destruct (N.eqb_spec (N.min k (minId d)) k); [split; [lia|discriminate]|]. replace (N.min k (minId d)) with (minId d) by lia. auto.
Qed.
End NMapLemmas.

(** * Sorted maps *)
Section Sorted.
Context {X : Type}.
Implicit Types m : list (bytes * X).
Lemma cfGet_head m k x : sorted ((k, x) :: m) -> cfGet m k = None.
Proof. intros S0. apply cfGet_None. apply sorted_NoDup in S0. inversion S0; auto. Qed.
Lemma sorted_ext m : forall m', sorted m -> sorted m' -> (forall k, cfGet m k = cfGet m' k) -> m = m'.
Proof.
  induction m as [|[k x] m IH]; intros [|[k' x'] m'] S1 S2 E; auto.
  - specialize (E k'). cbn [cfGet] in E. rewrite beqb_refl in E. discriminate.
  - specialize (E k). cbn [cfGet] in E. rewrite beqb_refl in E. discriminate.
  - assert (k = k') as <-.
    { destruct (beqb k k') eqn:B; [apply beqb_eq in B; auto|]. exfalso. apply beqb_neq in B.
      pose proof (E k) as E1. pose proof (E k') as E2. cbn [cfGet] in E1, E2. rewrite beqb_refl in E1, E2. rewrite (proj2 (beqb_neq k k')) in E1 by auto. rewrite (proj2 (beqb_neq k' k)) in E2 by auto.
      symmetry in E1. apply cfGet_In in E1, E2. destruct S1 as [L1 _], S2 as [L2 _]. apply L1 in E2. apply L2 in E1. cbn [fst] in *. apply blt_asym in E1. congruence. }
    pose proof (E k) as Ek. cbn [cfGet] in Ek. rewrite beqb_refl in Ek. injection Ek as <-. f_equal. apply IH; [apply S1|apply S2|].
    intros k2. specialize (E k2). cbn [cfGet] in E. destruct (beqb k2 k) eqn:B; auto. apply beqb_eq in B. subst. rewrite (cfGet_head _ _ _ S1), (cfGet_head _ _ _ S2). auto.
Qed.
Lemma sorted_filter p m : sorted m -> sorted (filter p m).
Proof. induction m as [|e m IH]; intros S0; auto. destruct S0 as [L S1]. cbn [filter]. destruct (p e); auto. split; auto. intros e' I. apply filter_In in I. apply L. tauto. Qed.
Lemma cfGet_filter p m k : sorted m -> cfGet (filter p m) k = match cfGet m k with Some v => if p (k, v) then Some v else None | None => None end.
Proof.
  induction m as [|[k' x] m IH]; intros S0; auto. cbn [filter cfGet]. pose proof (cfGet_head _ _ _ S0) as Hd. destruct (beqb k k') eqn:B.
  - apply beqb_eq in B. subst. destruct (p (k', x)); cbn [cfGet]; [rewrite beqb_refl; auto|]. rewrite IH, Hd by apply S0. auto.
  - destruct (p (k', x)); cbn [cfGet]; rewrite ?B; apply IH, S0.
Qed.
Lemma cfGet_mapf {Y} (f : bytes * X -> Y) m k : cfGet (map (fun e => (fst e, f e)) m) k = option_map (fun x => f (k, x)) (cfGet m k).
Proof. induction m as [|[k' x] m IH]; auto. cbn [map cfGet fst]. destruct (beqb k k') eqn:B; auto. apply beqb_eq in B. subst. auto. Qed.
Lemma sorted_mapf {Y} (f : bytes * X -> Y) m : sorted (map (fun e => (fst e, f e)) m) <-> sorted m.
Proof.
  induction m as [|e m IH]; [cbn; tauto|]. cbn [map sorted fst]. rewrite IH. split; intros [A B]; split; auto; intros e' I.
  - specialize (A (fst e', f e')). cbn [fst] in A. apply A. apply in_map_iff. eauto.
  - apply in_map_iff in I. destruct I as (e2 & <- & I). cbn [fst]. auto.
Qed.
Lemma assign_In m k x e : In e (assign m k x) -> e = (k, x) \/ In e m.
Proof.
  induction m as [|[k' x'] m IH]; cbn [assign]; [intros [<-|[]]; auto|]. destruct (blt k k'); [intros [<-|A]; auto|]. destruct (beqb k k'); [intros [<-|A]; [auto|right; right; auto]|].
  intros [<-|A]; [right; left; auto|]. apply IH in A. destruct A as [->|A]; [auto|right; right; auto].
Qed.
Lemma assign_sorted m k x : sorted m -> sorted (assign m k x).
Proof.
  induction m as [|[k' x'] m IH]; intros HS; cbn [assign]; [cbn; split; auto; intros e []|]. destruct HS as [L S']. destruct (blt k k') eqn:B.
  - split; [|split; auto]. intros e [<-|I]; auto. cbn [fst]. apply (blt_trans _ k'); auto.
  - destruct (beqb k k') eqn:E; [apply beqb_eq in E; subst; split; auto|]. split; auto. intros e I. apply assign_In in I. destruct I as [->|I]; [|apply L; auto]. cbn [fst].
    destruct (blt k' k) eqn:C; auto. apply beqb_neq in E. destruct E. apply blt_total; auto.
Qed.
Lemma cfGet_assign m k x k' : sorted m -> cfGet (assign m k x) k' = if beqb k' k then Some x else cfGet m k'.
Proof.
  induction m as [|[k2 x2] m IH]; intros HS; cbn [assign]; [cbn [cfGet]; destruct (beqb k' k); auto|]. destruct (blt k k2) eqn:B; [cbn [cfGet]; destruct (beqb k' k); auto|].
  destruct (beqb k k2) eqn:E.
  - apply beqb_eq in E. subst. cbn [cfGet]. destruct (beqb k' k2); auto.
  - cbn [cfGet]. rewrite IH by apply HS. destruct (beqb k' k2) eqn:F; auto. apply beqb_eq in F. subst. rewrite beqb_sym, E. auto.
Qed.
End Sorted.
Lemma sortedKeys_NoDup l : sortedKeys l -> NoDup l.
Proof. intros S0. apply sorted_NoDup in S0. rewrite map_map in S0. cbn [fst] in S0. rewrite map_id in S0. auto. Qed.
Lemma existsb_In k l : existsb (beqb k) l = true <-> In k l.
Proof. rewrite existsb_exists. split; [intros (y & I & E); apply beqb_eq in E; subst; auto|intros I; exists k; split; auto; apply beqb_refl]. Qed.

(** * A batch over the categories of a block *)
Section Batch.
Context {A : Type} (f : A -> cstate -> option cstate).
Definition stepTo (cats : option (list (bytes * cstate))) (e : bytes * A) : option (list (bytes * cstate)) :=
  match cats with
  | None => None
  | Some cats => match cfGet cats (fst e) with Some x => match f (snd e) x with Some y => Some (cfPut cats (fst e) y) | None => None end | None => None end
  end.
Lemma stepTo_None l : fold_left stepTo l None = None.
Proof. induction l; auto. Qed.
Lemma stepTo_ok l : forall cats, NoDup (map fst l) -> (forall c a, cfGet l c = Some a -> exists x y, cfGet cats c = Some x /\ f a x = Some y) ->
  exists cats', fold_left stepTo l (Some cats) = Some cats'.
Proof.
  induction l as [|[c a] l IH]; intros cats ND E; [exists cats; auto|]. inversion ND; subst. cbn [fold_left stepTo fst snd].
  destruct (E c a) as (x & y & Ex & Ey); [cbn [cfGet]; rewrite beqb_refl; auto|]. rewrite Ex, Ey. apply IH; auto.
  intros c' a' E'. assert (N : c' <> c). { intros ->. apply cfGet_In, (in_map fst) in E'. auto. }
  destruct (E c' a') as (x' & y' & Ex' & Ey'); [cbn [cfGet]; rewrite (proj2 (beqb_neq c' c)) by auto; auto|]. exists x', y'. split; auto. rewrite cfGet_put, (proj2 (beqb_neq c' c)) by auto. auto.
Qed.
Lemma stepTo_get l : forall cats cats', NoDup (map fst l) -> fold_left stepTo l (Some cats) = Some cats' ->
  forall c, cfGet cats' c = match cfGet l c with None => cfGet cats c | Some a => match cfGet cats c with Some x => f a x | None => None end end.
Proof.
  induction l as [|[c a] l IH]; intros cats cats' ND E c'; [injection E as <-; auto|]. inversion ND; subst. cbn [fold_left stepTo fst snd] in E.
  destruct (cfGet cats c) as [x|] eqn:Ex; [|rewrite stepTo_None in E; discriminate]. destruct (f a x) as [y|] eqn:Ey; [|rewrite stepTo_None in E; discriminate].
  rewrite (IH _ _ H2 E c'). cbn [cfGet]. destruct (beqb c' c) eqn:B.
  - apply beqb_eq in B. subst. rewrite Ex, cfGet_put, beqb_refl. destruct (cfGet l c) eqn:El; [|auto]. apply cfGet_In, (in_map fst) in El. cbn in El. tauto.
  - rewrite cfGet_put, B. auto.
Qed.
End Batch.
Definition addF (id : N) (a : cinput) (x : cstate) : option cstate :=
  match a, x with CV i, SV x => Some (SV (applyAll x (addOps id i))) | CI i, SI x => Some (SI (iapply x (iaddOps id i))) | _, _ => None end.
Definition genF (id : N) (a : coutput) (x : cstate) : option cstate :=
  match a, x with OV o, SV x => match genesisOps x id o with Some ops => Some (SV (applyAll x ops)) | None => None end | OI o, SI x => Some (SI (iapply x (idelOps o))) | _, _ => None end.
Definition lastF (id : N) (a : coutput) (x : cstate) : option cstate :=
  match a, x with OV o, SV x => match lastOps x id o with Some ops => Some (SV (applyAll x ops)) | None => None end | OI o, SI x => Some (SI (iapply x (idelOps o))) | _, _ => None end.
Lemma fold_ext {A B} (f g : A -> B -> A) l : (forall a b, f a b = g a b) -> forall a, fold_left f l a = fold_left g l a.
Proof. intros E. induction l; intros; auto. cbn. rewrite E. auto. Qed.
Lemma addTo_step id cats e : addTo id cats e = stepTo (addF id) cats e.
Proof. unfold addTo, stepTo, addF. destruct cats as [cats|]; auto. destruct (snd e), (cfGet cats (fst e)) as [[]|]; auto. Qed.
Lemma genTo_step id cats e : genTo id cats e = stepTo (genF id) cats e.
Proof. unfold genTo, stepTo, genF. destruct cats as [cats|]; auto. destruct (snd e), (cfGet cats (fst e)) as [[]|]; auto. destruct (genesisOps _ _ _); auto. Qed.
Lemma lastTo_step id cats e : lastTo id cats e = stepTo (lastF id) cats e.
Proof. unfold lastTo, stepTo, lastF. destruct cats as [cats|]; auto. destruct (snd e), (cfGet cats (fst e)) as [[]|]; auto. destruct (lastOps _ _ _); auto. Qed.
