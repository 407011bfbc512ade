(** The latest-keys store: reads and rollback. *)
From Coq Require Import List Arith NArith Lia Bool.
From Verif Require Import Lib_Bytes Keys_Model Keys_Proofs Lib_CF V4_Model V4_Proofs V4_Link.
Import ListNotations.
Local Open Scope nat_scope.

(** * Specification *)
(** The std::maps of an update have distinct keys; an immutable input has no deletes; inputs have the declared type of their category. *)
Definition wfU (ct : bytes -> kind) (u : updates) : Prop :=
  NoDup (map fst u) /\ forall c ci, In (c, ci) u -> NoDup (map fst (c_puts ci)) /\ c_kind ci = ct c /\ (c_kind ci = Immutable -> c_dels ci = []).
(** What the newest write of a key was, in a chain given newest block first; the head has number [length hs]. A key put and deleted by the
    same block is deleted. *)
Fixpoint newest (hs : list updates) (c k : bytes) : option (bytes * bool * nat) :=
  match hs with
  | [] => None
  | u :: older =>
    match cfGet u c with
    | None => newest older c k
    | Some ci => if existsb (beqb k) (c_dels ci) then None
                 else match cfGet (c_puts ci) k with Some (v, f) => Some (v, f, length hs) | None => newest older c k end
    end
  end.

(** * The key part of a batch *)
Definition lat1 (m : lkmap) (o : wop) : lkmap := match o with WLat c k v => lkset m c k v | _ => m end.
Definition imm1 (m : lkmap) (o : wop) : lkmap := match o with WImm c k v => lkset m c k v | _ => m end.
Definition latB m os := fold_left lat1 os m.
Definition immB m os := fold_left imm1 os m.
Lemma applyB_lat os : forall d, d_lat (applyB d os) = latB (d_lat d) os.
Proof. induction os as [|o os IH]; intros d; auto. unfold applyB, latB in *. cbn [fold_left]. rewrite IH. destruct o; auto. Qed.
Lemma applyB_imm os : forall d, d_imm (applyB d os) = immB (d_imm d) os.
Proof. induction os as [|o os IH]; intros d; auto. unfold applyB, immB in *. cbn [fold_left]. rewrite IH. destruct o; auto. Qed.
Lemma latB_app m a b : latB m (a ++ b) = latB (latB m a) b.
Proof. apply fold_left_app. Qed.
Lemma immB_app m a b : immB m (a ++ b) = immB (immB m a) b.
Proof. apply fold_left_app. Qed.
Lemma lkset_eq m c k v c' k' : lkset m c k v c' k' = if beqb c' c && beqb k' k then v else m c' k'.
Proof. auto. Qed.
(** Operations on another category change nothing. *)
Definition onCat (c : bytes) (o : wop) : Prop := match o with WLat c' _ _ | WImm c' _ _ => c' = c | _ => True end.
Lemma latB_other c c' k os : c' <> c -> Forall (onCat c') os -> forall m, latB m os c k = m c k.
Proof.
  intros N. induction 1 as [|o os O F IH]; intros m; auto. change (latB m (o :: os)) with (latB (lat1 m o) os). rewrite IH. destruct o; auto. cbn in O. subst. cbn [lat1]. rewrite lkset_eq.
  rewrite (proj2 (beqb_neq c c')) by auto. auto.
Qed.
Lemma immB_other c c' k os : c' <> c -> Forall (onCat c') os -> forall m, immB m os c k = m c k.
Proof.
  intros N. induction 1 as [|o os O F IH]; intros m; auto. change (immB m (o :: os)) with (immB (imm1 m o) os). rewrite IH. destruct o; auto. cbn in O. subst. cbn [imm1]. rewrite lkset_eq.
  rewrite (proj2 (beqb_neq c c')) by auto. auto.
Qed.
(** Setting each key of a list, by a function of the key. *)
Lemma latB_sets {X} c (f : bytes -> option lkval) (g : X -> bytes) k l : forall m, latB m (map (fun p => WLat c (g p) (f (g p))) l) c k = if existsb (beqb k) (map g l) then f k else m c k.
Proof.
  induction l as [|x l IH]; intros m; auto. cbn [map existsb]. change (latB m (WLat c (g x) (f (g x)) :: ?r)) with (latB (lkset m c (g x) (f (g x))) r).
  change (latB ?m (?o :: ?r)) with (latB (lat1 m o) r). rewrite IH. cbn [lat1]. rewrite lkset_eq, beqb_refl. cbn [andb]. destruct (existsb (beqb k) (map g l)); [rewrite orb_true_r; auto|].
  rewrite orb_false_r. destruct (beqb k (g x)) eqn:E; auto. apply beqb_eq in E; subst; auto.
Qed.
Lemma immB_sets {X} c (f : bytes -> option lkval) (g : X -> bytes) k l : forall m, immB m (map (fun p => WImm c (g p) (f (g p))) l) c k = if existsb (beqb k) (map g l) then f k else m c k.
Proof.
  induction l as [|x l IH]; intros m; auto. cbn [map existsb].
  change (immB ?m (?o :: ?r)) with (immB (imm1 m o) r). rewrite IH. cbn [imm1]. rewrite lkset_eq, beqb_refl. cbn [andb]. destruct (existsb (beqb k) (map g l)); [rewrite orb_true_r; auto|].
  rewrite orb_false_r. destruct (beqb k (g x)) eqn:E; auto. apply beqb_eq in E; subst; auto.
Qed.
Lemma existsb_In k l : existsb (beqb k) l = true <-> In k l.
Proof. rewrite existsb_exists. split; [intros (x & I & E); apply beqb_eq in E; subst; auto|intros I; exists k; split; auto; apply beqb_refl]. Qed.
Lemma existsb_cfGet {V} (d : list (bytes * V)) k : existsb (beqb k) (map fst d) = match cfGet d k with Some _ => true | None => false end.
Proof.
  destruct (cfGet d k) as [v|] eqn:E.
  - apply existsb_In. apply cfGet_In in E. apply (in_map fst) in E. auto.
  - apply cfGet_None in E. destruct (existsb (beqb k) (map fst d)) eqn:F; auto. apply existsb_In in F. contradiction.
Qed.

(** A batch made category by category: only the operations of category [c] matter for [c]. *)
Section PerCat.
Variable ops : bytes -> cin -> list wop.
Hypothesis ops_cat : forall c ci, Forall (onCat c) (ops c ci).
Lemma latB_cats c k u : NoDup (map fst u) -> forall m,
  latB m (flat_map (fun e => ops (fst e) (snd e)) u) c k = match cfGet u c with None => m c k | Some ci => latB m (ops c ci) c k end.
Proof.
  induction u as [|[c' ci] u IH]; intros ND m; auto. cbn [map fst] in ND. apply NoDup_cons_iff in ND as (NI & ND). cbn [flat_map fst snd cfGet]. rewrite latB_app, IH by auto.
  destruct (beqb c c') eqn:E.
  - apply beqb_eq in E; subst c'. assert (X: cfGet u c = None) by (apply cfGet_None; auto). rewrite X. auto.
  - apply beqb_neq in E. assert (O: latB m (ops c' ci) c k = m c k) by (apply latB_other with c'; auto). destruct (cfGet u c) as [ci'|]; auto.
    assert (Lc: forall os m1 m2, Forall (onCat c) os -> (forall k, m1 c k = m2 c k) -> forall k, latB m1 os c k = latB m2 os c k).
    { clear. induction os as [|o os IH]; intros m1 m2 F A k; [apply A|]. inversion F; subst. change (latB ?m (?o :: ?r)) with (latB (lat1 m o) r). apply IH; auto. intros k'. destruct o; cbn [lat1]; auto. rewrite !lkset_eq, A. auto. }
    apply Lc; auto. intros k'. apply latB_other with c'; auto.
Qed.
Lemma immB_cats c k u : NoDup (map fst u) -> forall m,
  immB m (flat_map (fun e => ops (fst e) (snd e)) u) c k = match cfGet u c with None => m c k | Some ci => immB m (ops c ci) c k end.
Proof.
  induction u as [|[c' ci] u IH]; intros ND m; auto. cbn [map fst] in ND. apply NoDup_cons_iff in ND as (NI & ND). cbn [flat_map fst snd cfGet]. rewrite immB_app, IH by auto.
  destruct (beqb c c') eqn:E.
  - apply beqb_eq in E; subst c'. assert (X: cfGet u c = None) by (apply cfGet_None; auto). rewrite X. auto.
  - apply beqb_neq in E. assert (O: immB m (ops c' ci) c k = m c k) by (apply immB_other with c'; auto). destruct (cfGet u c) as [ci'|]; auto.
    assert (Lc: forall os m1 m2, Forall (onCat c) os -> (forall k, m1 c k = m2 c k) -> forall k, immB m1 os c k = immB m2 os c k).
    { clear. induction os as [|o os IH]; intros m1 m2 F A k; [apply A|]. inversion F; subst. change (immB ?m (?o :: ?r)) with (immB (imm1 m o) r). apply IH; auto. intros k'. destruct o; cbn [imm1]; auto. rewrite !lkset_eq, A. auto. }
    apply Lc; auto. intros k'. apply immB_other with c'; auto.
Qed.
End PerCat.
Lemma catOps_cat id c ci : Forall (onCat c) (catOps id c ci).
Proof. unfold catOps. destruct (c_kind ci); try apply Forall_app; try split; apply Forall_forall; intros o I; apply in_map_iff in I as (x & <- & _); cbn; auto. Qed.
Lemma revertDels_cat (sl : lkmap) c ks : Forall (onCat c) (flat_map (fun k => match sl c k with Some v => [WLat c k (Some v)] | None => [] end) ks).
Proof. induction ks as [|k ks IH]; cbn; auto. apply Forall_app; split; auto. destruct (sl c k); auto. constructor; auto. cbn. auto. Qed.
Lemma revertCat_cat sl si c ci : Forall (onCat c) (revertCat sl si c ci).
Proof. unfold revertCat. destruct (c_kind ci); try apply Forall_app; try split; try apply revertDels_cat; apply Forall_forall; intros o I; apply in_map_iff in I as (x & <- & _); cbn; auto. Qed.
(** Operations of the other family. *)
Definition isImm o := match o with WImm _ _ _ => true | _ => false end.
Definition isLat o := match o with WLat _ _ _ => true | _ => false end.
Lemma latB_imm os : forallb isImm os = true -> forall m, latB m os = m.
Proof. induction os as [|o os IH]; cbn [forallb]; auto. intros F m. apply andb_true_iff in F as (A & B). destruct o; try discriminate. cbn. apply IH; auto. Qed.
Lemma immB_lat os : forallb isLat os = true -> forall m, immB m os = m.
Proof. induction os as [|o os IH]; cbn [forallb]; auto. intros F m. apply andb_true_iff in F as (A & B). destruct o; try discriminate. cbn. apply IH; auto. Qed.
Lemma map_all {A} (p : wop -> bool) (f : A -> wop) l : (forall x, p (f x) = true) -> forallb p (map f l) = true.
Proof. intros F. induction l; cbn; auto. rewrite F, IHl. auto. Qed.
Lemma revertDels_lat (sl : lkmap) c ks : forallb isLat (flat_map (fun k => match sl c k with Some v => [WLat c k (Some v)] | None => [] end) ks) = true.
Proof. induction ks as [|k ks IH]; cbn; auto. rewrite forallb_app, IH. destruct (sl c k); auto. Qed.

(** * What adding a block does to the two families *)
Lemma putsB c id k (l : list (bytes * (bytes * bool))) : NoDup (map fst l) -> forall m,
  latB m (map (fun p => WLat c (fst p) (Some (fst (snd p), snd (snd p), id))) l) c k = match cfGet l k with Some (v, f) => Some (v, f, id) | None => m c k end.
Proof.
  induction l as [|[k' [v f]] l IH]; intros ND m; auto. cbn [map fst] in ND. apply NoDup_cons_iff in ND as (NI & ND). cbn [map fst snd cfGet].
  change (latB ?m (?o :: ?r)) with (latB (lat1 m o) r). rewrite IH by auto. cbn [lat1]. rewrite lkset_eq, beqb_refl. cbn [andb]. destruct (beqb k k') eqn:E.
  - apply beqb_eq in E; subst. assert (X: cfGet l k' = None) by (apply cfGet_None; auto). rewrite X. auto.
  - auto.
Qed.
Lemma lat_add ct id u m c k : wfU ct u -> latB m (keyOps id u) c k =
  match cfGet u c with None => m c k | Some ci =>
    match c_kind ci with Immutable => m c k | _ => if existsb (beqb k) (c_dels ci) then None else match cfGet (c_puts ci) k with Some (v, f) => Some (v, f, id) | None => m c k end end end.
Proof.
  intros (ND & W). unfold keyOps. rewrite (latB_cats (catOps id)); auto using catOps_cat. destruct (cfGet u c) as [ci|] eqn:E; auto. apply cfGet_In in E. destruct (W _ _ E) as (NP & _ & _).
  unfold catOps. destruct (c_kind ci); try (rewrite latB_imm; [auto|apply map_all; auto]).
  all: rewrite latB_app; rewrite (latB_sets c (fun _ => None) (fun x : bytes => x)), map_id; rewrite putsB by auto; auto.
Qed.
Lemma imm_add ct id u m c k : wfU ct u -> immB m (keyOps id u) c k =
  match cfGet u c with None => m c k | Some ci =>
    match c_kind ci with Immutable => match cfGet (c_puts ci) k with Some _ => Some ([], true, id) | None => m c k end | _ => m c k end end.
Proof.
  intros (ND & W). unfold keyOps. rewrite (immB_cats (catOps id)); auto using catOps_cat. destruct (cfGet u c) as [ci|] eqn:E; auto.
  unfold catOps. destruct (c_kind ci).
  3:{ rewrite (immB_sets c (fun _ => Some ([], true, id)) fst), existsb_cfGet. destruct (cfGet (c_puts ci) k); auto. }
  all: rewrite immB_lat; auto; rewrite forallb_app, !map_all; auto.
Qed.
(** ... and what reverting it does. *)
Lemma delsR (sl : lkmap) c k ks : forall m, latB m (flat_map (fun k => match sl c k with Some v => [WLat c k (Some v)] | None => [] end) ks) c k =
  if existsb (beqb k) ks then match sl c k with Some v => Some v | None => m c k end else m c k.
Proof.
  induction ks as [|x ks IH]; intros m; auto. cbn [flat_map existsb]. rewrite latB_app, IH. destruct (sl c x) as [v|] eqn:E.
  - change (latB m [WLat c x (Some v)] c k) with (lkset m c x (Some v) c k). rewrite lkset_eq, beqb_refl. cbn [andb]. destruct (beqb k x) eqn:F; cbn [orb].
    + apply beqb_eq in F; subst. rewrite E. destruct (existsb (beqb x) ks); auto.
    + auto.
  - change (latB m [] c k) with (m c k). destruct (beqb k x) eqn:F; cbn [orb]; auto. apply beqb_eq in F; subst. rewrite E. destruct (existsb (beqb x) ks); auto.
Qed.
Lemma lat_revert ct sl si u m c k : wfU ct u -> latB m (revertOps sl si u) c k =
  match cfGet u c with None => m c k | Some ci =>
    match c_kind ci with Immutable => m c k | _ =>
      match cfGet (c_puts ci) k with Some _ => sl c k | None => if existsb (beqb k) (c_dels ci) then match sl c k with Some v => Some v | None => m c k end else m c k end end end.
Proof.
  intros (ND & W). unfold revertOps. rewrite (latB_cats (revertCat sl si)); auto using revertCat_cat. destruct (cfGet u c) as [ci|] eqn:E; auto.
  unfold revertCat. destruct (c_kind ci); try (rewrite latB_imm; [auto|apply map_all; auto]).
  all: rewrite latB_app, delsR, (latB_sets c (sl c) fst), existsb_cfGet; destruct (cfGet (c_puts ci) k); auto; destruct (existsb (beqb k) (c_dels ci)); auto; destruct (sl c k); auto.
Qed.
Lemma imm_revert ct sl si u m c k : wfU ct u -> immB m (revertOps sl si u) c k =
  match cfGet u c with None => m c k | Some ci =>
    match c_kind ci with Immutable => match cfGet (c_puts ci) k with Some _ => si c k | None => m c k end | _ => m c k end end.
Proof.
  intros (ND & W). unfold revertOps. rewrite (immB_cats (revertCat sl si)); auto using revertCat_cat. destruct (cfGet u c) as [ci|] eqn:E; auto.
  unfold revertCat. destruct (c_kind ci).
  3:{ rewrite (immB_sets c (si c) fst), existsb_cfGet. destruct (cfGet (c_puts ci) k); auto. }
  all: rewrite immB_lat; auto; rewrite forallb_app, revertDels_lat, !map_all; auto.
Qed.
