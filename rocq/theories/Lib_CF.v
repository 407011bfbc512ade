(** Column families and ordered maps of byte strings. *)
From Coq Require Import List Arith NArith Lia Bool.
From Verif Require Import Lib_Bytes Keys_Model Keys_Proofs.
Import ListNotations.
Local Open Scope N_scope.

(** * A column family: a finite map from byte strings. (Specification of the storage engine: point reads, puts, deletes.) *)
Section CF.
Context {V : Type}.
Fixpoint cfGet (d : list (bytes * V)) (k : bytes) : option V :=
  match d with [] => None | (k', v) :: d => if beqb k k' then Some v else cfGet d k end.
Definition cfDel (d : list (bytes * V)) (k : bytes) : list (bytes * V) := filter (fun e => negb (beqb k (fst e))) d.
Definition cfPut (d : list (bytes * V)) (k : bytes) (v : V) : list (bytes * V) := (k, v) :: cfDel d k.
(** Iterator::prev: the entry with the greatest key below [k]. *)
Definition seekBefore (d : list (bytes * V)) (k : bytes) : option (bytes * V) := seekAtMost (cfDel d k) k.
End CF.


(** std::map<std::string, X> as a sorted list; emplace keeps the entry that exists. (C++ standard library.) *)
Fixpoint emplace {X} (m : list (bytes * X)) (k : bytes) (x : X) : list (bytes * X) :=
  match m with
  | [] => [(k, x)]
  | (k', x') :: m' => if blt k k' then (k, x) :: m else if beqb k k' then m else (k', x') :: emplace m' k x
  end.
Fixpoint sorted {X} (m : list (bytes * X)) : Prop :=
  match m with [] => True | e :: m => (forall e', In e' m -> blt (fst e) (fst e') = true) /\ sorted m end.

Lemma beqb_sym a b : beqb a b = beqb b a.
Proof. destruct (beqb a b) eqn:E; destruct (beqb b a) eqn:F; auto; [apply beqb_eq in E|apply beqb_eq in F]; subst; rewrite beqb_refl in *; discriminate. Qed.
Lemma beqb_neq a b : beqb a b = false <-> a <> b.
Proof. split; intros A; [intros ->; rewrite beqb_refl in A; discriminate|]. destruct (beqb a b) eqn:E; auto. apply beqb_eq in E; contradiction. Qed.
Lemma bytes_dec (a b : bytes) : a = b \/ a <> b.
Proof. destruct (beqb a b) eqn:E; [left; apply beqb_eq; auto|right; apply beqb_neq; auto]. Qed.

Section CFLemmas.
Context {V : Type}.
Implicit Types d : list (bytes * V).
Lemma cfGet_del_eq d k : cfGet (cfDel d k) k = None.
Proof. induction d as [|[k' v] d IH]; auto. unfold cfDel. cbn [filter fst]. destruct (beqb k k') eqn:E; cbn [negb]; auto. cbn [cfGet]. rewrite E. auto. Qed.
Lemma cfGet_del_ne d k k' : k <> k' -> cfGet (cfDel d k) k' = cfGet d k'.
Proof.
  intros N. induction d as [|[k2 v] d IH]; auto. unfold cfDel. cbn [filter fst]. destruct (beqb k k2) eqn:E; cbn [negb cfGet].
  - apply beqb_eq in E; subst. rewrite (proj2 (beqb_neq k' k2)) by auto. auto.
  - destruct (beqb k' k2); auto.
Qed.
Lemma cfGet_del d k k' : cfGet (cfDel d k) k' = if beqb k' k then None else cfGet d k'.
Proof. destruct (beqb k' k) eqn:E; [apply beqb_eq in E; subst; apply cfGet_del_eq|]. apply cfGet_del_ne. apply beqb_neq in E. auto. Qed.
Lemma cfGet_put d k v k' : cfGet (cfPut d k v) k' = if beqb k' k then Some v else cfGet d k'.
Proof. unfold cfPut. cbn [cfGet]. destruct (beqb k' k) eqn:E; auto. rewrite cfGet_del, E. auto. Qed.
Lemma cfGet_In d k v : cfGet d k = Some v -> In (k, v) d.
Proof. induction d as [|[k' v'] d IH]; cbn [cfGet]; [discriminate|]. destruct (beqb k k') eqn:E; [apply beqb_eq in E; intros A; injection A as ->; subst; left; auto|right; auto]. Qed.
Lemma cfGet_In_fst d k v : In (k, v) d -> cfGet d k <> None.
Proof. induction d as [|[k' v'] d IH]; cbn [cfGet]; [intros []|]. intros [A|A]; [injection A as -> ->; rewrite beqb_refl; discriminate|]. destruct (beqb k k'); [discriminate|auto]. Qed.
Lemma In_cfGet d k v : NoDup (map fst d) -> In (k, v) d -> cfGet d k = Some v.
Proof.
  induction d as [|[k' v'] d IH]; intros ND I; [destruct I|]. inversion ND; subst. cbn [cfGet]. destruct I as [E|I].
  - injection E as -> ->. rewrite beqb_refl. auto.
  - rewrite (proj2 (beqb_neq k k')); auto. intros ->. apply H1. apply (in_map fst) in I. auto.
Qed.
Lemma cfGet_None d k : cfGet d k = None <-> ~ In k (map fst d).
Proof.
  split.
  - intros A I. apply in_map_iff in I. destruct I as ([k' v] & E & I). simpl in E; subst. apply cfGet_In_fst in I. contradiction.
  - intros A. destruct (cfGet d k) eqn:E; auto. apply cfGet_In in E. destruct A. apply (in_map fst) in E. auto.
Qed.
Lemma cfDel_In d k e : In e (cfDel d k) <-> In e d /\ fst e <> k.
Proof. unfold cfDel. rewrite filter_In. rewrite negb_true_iff, beqb_neq. intuition. Qed.
Lemma cfDel_NoDup d k : NoDup (map fst d) -> NoDup (map fst (cfDel d k)).
Proof.
  induction d as [|[k' v] d IH]; intros ND; [constructor|]. inversion ND; subst. unfold cfDel. cbn [filter fst]. destruct (beqb k k') eqn:E; cbn [negb]; auto.
  cbn [map fst]. constructor; auto. intros I. apply H1. apply in_map_iff in I. destruct I as (e & <- & I). apply (cfDel_In d k) in I. apply in_map. tauto.
Qed.
Lemma cfPut_NoDup d k v : NoDup (map fst d) -> NoDup (map fst (cfPut d k v)).
Proof.
  intros ND. unfold cfPut. cbn [map fst]. constructor; [|apply cfDel_NoDup; auto]. intros I. apply in_map_iff in I. destruct I as (e & E & I). apply cfDel_In in I. tauto.
Qed.
(** The entry before [k]. *)
Lemma seekBefore_spec d k :
  match seekBefore d k with
  | Some e => In e d /\ blt (fst e) k = true /\ forall e', In e' d -> blt (fst e') k = true -> blt (fst e) (fst e') = false
  | None => forall e, In e d -> blt (fst e) k = false
  end.
Proof.
  unfold seekBefore. pose proof (seekAtMost_spec (cfDel d k) k) as P. destruct (seekAtMost (cfDel d k) k) as [e|].
  - destruct P as (I & L & M). apply cfDel_In in I. destruct I as [I N]. split; auto. split.
    + destruct (blt (fst e) k) eqn:E; auto. destruct N. apply blt_total; auto.
    + intros e' I' L'. apply M; [|apply blt_asym; auto]. apply cfDel_In. split; auto. intros E. rewrite E, blt_irrefl in L'. discriminate.
  - intros e I. destruct (blt (fst e) k) eqn:E; auto. assert (A : In e (cfDel d k)). { apply cfDel_In. split; auto. intros E'. rewrite E', blt_irrefl in E. discriminate. }
    apply P in A. apply blt_asym in A. congruence.
Qed.
End CFLemmas.

Section MapLemmas.
Context {X : Type}.
Implicit Types m : list (bytes * X).
Lemma sorted_NoDup m : sorted m -> NoDup (map fst m).
Proof.
  induction m as [|e m IH]; intros HS; [constructor|]. destruct HS as [L S']. cbn [map]. constructor; auto. intros I. apply in_map_iff in I. destruct I as (e' & E & I).
  apply L in I. rewrite E, blt_irrefl in I. discriminate.
Qed.
Lemma emplace_In m k x e : In e (emplace m k x) -> e = (k, x) \/ In e m.
Proof.
  induction m as [|[k' x'] m IH]; cbn [emplace]; [intros [<-|[]]; auto|]. destruct (blt k k'); [intros [<-|A]; auto|]. destruct (beqb k k'); [auto|].
  intros [<-|A]; [right; left; auto|]. apply IH in A. destruct A as [->|A]; [auto|right; right; auto].
Qed.
Lemma emplace_sorted m k x : sorted m -> sorted (emplace m k x).
Proof.
  induction m as [|[k' x'] m IH]; intros HS; cbn [emplace]; [cbn; split; auto; intros e []|]. destruct HS as [L S']. destruct (blt k k') eqn:B.
  - split; [|split; auto]. intros e [<-|I]; auto. cbn [fst]. apply (blt_trans _ k'); auto.
  - destruct (beqb k k') eqn:E; [split; auto|]. split; auto. intros e I. apply emplace_In in I. destruct I as [->|I]; [|apply L; auto]. cbn [fst].
    destruct (blt k' k) eqn:C; auto. apply beqb_neq in E. destruct E. apply blt_total; auto.
Qed.
Lemma cfGet_emplace m k x k' : sorted m -> cfGet (emplace m k x) k' = match cfGet m k' with Some y => Some y | None => if beqb k' k then Some x else None end.
Proof.
  induction m as [|[k2 x2] m IH]; intros HS; cbn [emplace]; [cbn [cfGet]; destruct (beqb k' k); auto|]. destruct HS as [L S']. destruct (blt k k2) eqn:B.
  - cbn [cfGet]. destruct (beqb k' k) eqn:E.
    + apply beqb_eq in E; subst. rewrite (proj2 (beqb_neq k k2)) by (intros ->; rewrite blt_irrefl in B; discriminate).
      destruct (cfGet m k) eqn:G; auto. apply cfGet_In in G. apply L in G. cbn [fst] in G. apply blt_asym in G. congruence.
    + destruct (beqb k' k2); auto; destruct (cfGet m k'); auto.
  - destruct (beqb k k2) eqn:E.
    + apply beqb_eq in E; subst. cbn [cfGet]. destruct (beqb k' k2) eqn:E; auto; destruct (cfGet m k'); auto.
    + cbn [cfGet]. destruct (beqb k' k2) eqn:E2; auto.
Qed.
End MapLemmas.
