(** Proofs for C17. *)
From Coq Require Import List Arith NArith ZArith Lia Bool.
From Verif Require Import Lib_Sets Lib_Bytes Keys_Model.
Import ListNotations.
Local Open Scope N_scope.

Lemma beqb_eq a : forall b, beqb a b = true <-> a = b.
Proof.
  induction a as [|x a IH]; intros [|y b]; simpl; split; intros; try discriminate; auto.
  - apply andb_true_iff in H. destruct H as [E H]. apply N.eqb_eq in E. apply IH in H. congruence.
  - inversion H; subst. rewrite N.eqb_refl. simpl. apply IH; auto.
Qed.
Lemma beqb_refl a : beqb a a = true.
Proof. apply beqb_eq; auto. Qed.
Lemma blt_irrefl a : blt a a = false.
Proof. induction a; simpl; auto. rewrite N.ltb_irrefl. auto. Qed.
Lemma blt_trans a : forall b c, blt a b = true -> blt b c = true -> blt a c = true.
Proof.
  induction a as [|x a IH]; intros [|y b] [|z c]; simpl; auto; try discriminate.
  destruct (N.ltb_spec x y), (N.ltb_spec y x), (N.ltb_spec y z), (N.ltb_spec z y), (N.ltb_spec x z), (N.ltb_spec z x); intros; try lia; try discriminate; auto; try (eapply IH; eauto).
Qed.
Lemma blt_total a : forall b, blt a b = false -> blt b a = false -> a = b.
Proof. induction a as [|x a IH]; intros [|y b]; simpl; auto; try discriminate. destruct (N.ltb_spec x y), (N.ltb_spec y x); intros; try discriminate. f_equal; [lia|auto]. Qed.
Lemma blt_asym a b : blt a b = true -> blt b a = false.
Proof. intros H. destruct (blt b a) eqn:E; auto. pose proof (blt_trans _ _ _ H E). rewrite blt_irrefl in H0. discriminate. Qed.
(** not below is transitive *)
Lemma nlt_trans a b c : blt b a = false -> blt c b = false -> blt c a = false.
Proof. intros H1 H2. destruct (blt c a) eqn:E; auto. destruct (blt a b) eqn:F; [rewrite (blt_trans _ _ _ E F) in H2; discriminate|]. rewrite (blt_total a b) in E; auto. congruence. Qed.
Lemma nlt_lt_trans a b c : blt b a = false -> blt b c = true -> blt a c = true.
Proof. intros H1 H2. destruct (blt a b) eqn:G; [apply (blt_trans _ _ _ G H2)|]. rewrite (blt_total a b G H1). auto. Qed.
Lemma lt_nlt_trans a b c : blt a b = true -> blt c b = false -> blt a c = true.
Proof. intros H1 H2. destruct (blt b c) eqn:G; [apply (blt_trans _ _ _ H1 G)|]. rewrite <- (blt_total b c G H2). auto. Qed.

Lemma blt_app_same p a b : blt (p ++ a) (p ++ b) = blt a b.
Proof. induction p; simpl; auto. rewrite N.ltb_irrefl. auto. Qed.
Lemma blt_app a : forall b c d, length a = length b -> blt (a ++ c) (b ++ d) = blt a b || (beqb a b && blt c d).
Proof.
  induction a as [|x a IH]; intros [|y b] c d L; simpl in *; try discriminate; auto. rewrite IH by lia.
  destruct (N.ltb_spec x y); auto. destruct (N.ltb_spec y x); simpl. - replace (x =? y) with false; auto. symmetry; apply N.eqb_neq; lia. - replace (x =? y) with true; auto. symmetry; apply N.eqb_eq; lia.
Qed.
Lemma be_S k x : be (S k) x = be k (x / 256) ++ [x mod 256].
Proof. reflexivity. Qed.
Lemma blt_be k : forall x y, x < 256 ^ N.of_nat k -> y < 256 ^ N.of_nat k -> (blt (be k x) (be k y) = true <-> x < y).
Proof.
  induction k; intros x y Hx Hy. - simpl in *. unfold be; simpl. split; [discriminate|lia].
  - rewrite Nat2N.inj_succ, N.pow_succ_r' in *. assert (D : forall z, z < 256 * 256 ^ N.of_nat k -> z / 256 < 256 ^ N.of_nat k) by (intros; apply N.div_lt_upper_bound; lia).
    rewrite !be_S, blt_app by (rewrite !be_length; auto). pose proof (IHk (x / 256) (y / 256) (D _ Hx) (D _ Hy)) as I.
    pose proof (N.div_mod x 256 ltac:(lia)). pose proof (N.div_mod y 256 ltac:(lia)). pose proof (N.mod_upper_bound x 256 ltac:(lia)). pose proof (N.mod_upper_bound y 256 ltac:(lia)).
    rewrite orb_true_iff, andb_true_iff, I, beqb_eq. cbn [blt]. assert (B : be k (x / 256) = be k (y / 256) <-> x / 256 = y / 256) by (split; [apply be_inj; auto|congruence]). rewrite B.
    assert (C : (if x mod 256 <? y mod 256 then true else if y mod 256 <? x mod 256 then false else false) = true <-> x mod 256 < y mod 256)
      by (destruct (N.ltb_spec (x mod 256) (y mod 256)), (N.ltb_spec (y mod 256) (x mod 256)); split; intros; auto; try discriminate; lia).
    rewrite C. clear - H H0 H1 H2. revert H H0 H1 H2. generalize (x / 256) (y / 256) (x mod 256) (y mod 256). intros qx qy rx ry -> -> ? ?. lia.
Qed.
Lemma blt_be_app k x y c d : x < 256 ^ N.of_nat k -> y < 256 ^ N.of_nat k -> (blt (be k x ++ c) (be k y ++ d) = true <-> x < y \/ (x = y /\ blt c d = true)).
Proof.
  intros Hx Hy. rewrite blt_app by (rewrite !be_length; auto). rewrite orb_true_iff, andb_true_iff, beqb_eq, blt_be by auto. split; intros [H|[H1 H2]]; auto.
  - right. split; auto. eapply be_inj; eauto. - right. subst. auto.
Qed.
(** A key between two keys with a common prefix has this prefix. *)
Lemma sandwich p : forall k a b, blt k (p ++ a) = false -> blt (p ++ b) k = false -> exists c, k = p ++ c.
Proof.
  induction p as [|x p IH]; intros k a b H1 H2; [exists k; auto|]. destruct k as [|y k]; [simpl in H1; discriminate|]. simpl in *.
  destruct (N.ltb_spec y x), (N.ltb_spec x y); try discriminate. destruct (IH k a b H1 H2) as [c ->]. assert (y = x) by lia. subst. exists c; auto.
Qed.
Lemma app_inv_len {A} (a b c d : list A) : length a = length b -> a ++ c = b ++ d -> a = b /\ c = d.
Proof. revert b. induction a as [|x a IH]; intros [|y b] L E; simpl in *; try discriminate; auto. inversion E; subst. destruct (IH b) as [-> ->]; auto. Qed.
Lemma app_inv_len_r {A} (a b c d : list A) : length c = length d -> a ++ c = b ++ d -> a = b /\ c = d.
Proof. intros L E. apply app_inv_len; auto. apply (f_equal (@length A)) in E. rewrite !app_length in E. lia. Qed.

(** * Paths *)
Lemma pair_ind {A} (P : list A -> Prop) : P [] -> (forall a, P [a]) -> (forall a b l, P l -> P (a :: b :: l)) -> forall l, P l.
Proof. intros H0 H1 H2. fix F 1. intros [|a [|b l]]; [exact H0|apply H1|apply H2, F]. Qed.
Lemma pathBytes_length p : length (pathBytes p) = ((length p + 1) / 2)%nat.
Proof. induction p as [| |a b p IH] using pair_ind; auto. cbn [pathBytes length]. rewrite IH. replace (S (S (length p)) + 1)%nat with (length p + 1 + 1 * 2)%nat by lia. rewrite Nat.div_add by lia. lia. Qed.
Lemma path_order p : forall q, length p = length q -> Forall (fun a => a < 16) p -> Forall (fun a => a < 16) q -> blt (pathBytes p) (pathBytes q) = blt p q.
Proof.
  induction p as [| x|x y p IH] using pair_ind; intros q L Fp Fq; destruct q as [|x' [|y' q]]; simpl in L; try discriminate; auto.
  - inversion Fp; inversion Fq; subst. cbn [pathBytes blt]. destruct (N.ltb_spec x x'), (N.ltb_spec (16 * x) (16 * x')); try lia; auto.
    destruct (N.ltb_spec x' x), (N.ltb_spec (16 * x') (16 * x)); try lia; auto.
  - inversion Fp; inversion Fq; subst. inversion H2; inversion H6; subst. cbn [pathBytes blt]. rewrite IH by (auto; lia).
    destruct (N.ltb_spec x x'), (N.ltb_spec (16 * x + y) (16 * x' + y')); try lia; auto.
    + destruct (N.ltb_spec x' x), (N.ltb_spec y y'); try lia; auto.
    + destruct (N.ltb_spec x' x), (N.ltb_spec (16 * x' + y') (16 * x + y)), (N.ltb_spec y y'), (N.ltb_spec y' y); try lia; auto.
Qed.
Lemma path_inj p q : length p = length q -> Forall (fun a => a < 16) p -> Forall (fun a => a < 16) q -> pathBytes p = pathBytes q -> p = q.
Proof. intros L Fp Fq E. apply blt_total; rewrite <- path_order; auto; rewrite E; apply blt_irrefl. Qed.
Lemma encInternal_order v p v' p' : u64 v -> u64 v' -> path64 p -> path64 p' -> (blt (encInternal v p) (encInternal v' p') = true <-> beforeInternal v p v' p').
Proof.
  intros Hv Hv' [Lp Fp] [Lp' Fp']. unfold encInternal, beforeInternal. rewrite blt_be_app by auto. unfold encPath. cbn [blt]. rewrite !N.mod_small by lia.
  destruct (N.ltb_spec (N.of_nat (length p)) (N.of_nat (length p'))).
  { split; intros [?|[? ?]]; auto; right; split; auto; left; lia. }
  destruct (N.ltb_spec (N.of_nat (length p')) (N.of_nat (length p))).
  { split; intros [?|[? ?]]; auto; try discriminate; exfalso; lia. }
  assert (E : length p = length p') by lia. rewrite (path_order p p' E Fp Fp'). split; intros [?|[? ?]]; auto; right; split; auto. destruct H2 as [?|[? ?]]; auto; lia.
Qed.
Lemma encLeaf_order h v h' v' : hash32 h -> hash32 h' -> u64 v -> u64 v' -> (blt (encLeaf h v) (encLeaf h' v') = true <-> beforeLeaf h v h' v').
Proof.
  intros [L _] [L' _] Hv Hv'. unfold encLeaf, beforeLeaf. rewrite blt_app by lia. rewrite orb_true_iff, andb_true_iff, beqb_eq, blt_be by auto. tauto.
Qed.

Lemma blt_cons x l m : blt (x :: l) (x :: m) = blt l m.
Proof. simpl. rewrite N.ltb_irrefl. auto. Qed.
Lemma enc_order a b : wf a -> wf b -> sameLength a b -> (blt (enc a) (enc b) = true <-> before a b).
Proof.
  intros Wa Wb SL. unfold before.
  destruct a, b; cbn [enc rank staleSince staleRank wf] in *;
    try (cbn [blt N.ltb N.compare Pos.compare Pos.compare_cont]; split; [discriminate|intros [?|(? & ? & ?)]; lia]);
    try (cbn [blt N.ltb N.compare Pos.compare Pos.compare_cont]; split; [discriminate|intros [?|?]; [lia|contradiction]]);
    try (cbn [blt N.ltb N.compare Pos.compare Pos.compare_cont]; split; [intros _; left; lia|auto]).
  all: repeat rewrite blt_cons.
  1-4,6-7: rewrite blt_be by exact Wa || exact Wb; split; [auto|intros [?|?]; [lia|auto]].
  - rewrite blt_be_app, blt_be by tauto. split; [auto|intros [?|?]; [lia|auto]].
  - rewrite encInternal_order by tauto. split; [auto|intros [?|?]; [lia|auto]].
  - rewrite blt_be_app by tauto. repeat rewrite blt_cons. rewrite encInternal_order by tauto. split; [intros [?|[? ?]]; right; repeat split; auto; try (right; split; [auto|left; lia])|intros [?|(_ & _ & [?|[? [?|?]]])]; auto; lia].
  - rewrite blt_be_app by tauto. cbn [blt N.ltb N.compare Pos.compare Pos.compare_cont]. split; [intros [?|[? ?]]; right; repeat split; auto; try (right; split; [auto|left; lia])|intros [?|(_ & _ & [?|[? [?|?]]])]; auto; lia].
  - rewrite <- (app_nil_r (be 8 since0)), blt_be_app by tauto. cbn [blt N.ltb N.compare Pos.compare Pos.compare_cont]. split; [intros [?|[? ?]]; [right; repeat split; auto|discriminate]|intros [?|(_ & _ & [?|[? [?|?]]])]; auto; lia].
  - rewrite blt_be_app by tauto. cbn [blt N.ltb N.compare Pos.compare Pos.compare_cont]. split; [intros [?|[? ?]]; [right; repeat split; auto|discriminate]|intros [?|(_ & _ & [?|[? [?|?]]])]; auto; try lia; contradiction].
  - rewrite blt_be_app by tauto. repeat rewrite blt_cons. rewrite encLeaf_order by tauto. split; [intros [?|[? ?]]; right; repeat split; auto; try (right; split; [auto|left; lia])|intros [?|(_ & _ & [?|[? [?|?]]])]; auto; lia].
  - rewrite <- (app_nil_r (be 8 since0)), blt_be_app by tauto. cbn [blt N.ltb N.compare Pos.compare Pos.compare_cont]. split; [intros [?|[? ?]]; [right; repeat split; auto|discriminate]|intros [?|(_ & _ & [?|[? [?|?]]])]; auto; lia].
  - rewrite <- (app_nil_r (be 8 since)), blt_be_app by tauto. cbn [blt N.ltb N.compare Pos.compare Pos.compare_cont]. split; [intros [?|[? ?]]; right; repeat split; auto; try (right; split; [auto|left; lia])|intros [?|(_ & _ & [?|[? [?|?]]])]; auto; lia].
  - rewrite <- (app_nil_r (be 8 since)), blt_be_app by tauto. cbn [blt N.ltb N.compare Pos.compare Pos.compare_cont]. split; [intros [?|[? ?]]; right; repeat split; auto; try (right; split; [auto|left; lia])|intros [?|(_ & _ & [?|[? [?|?]]])]; auto; lia].
  - rewrite blt_be by tauto. split; [intros ?; right; repeat split; auto; try (right; split; [auto|left; lia])|intros [?|(_ & _ & [?|[? [?|?]]])]; auto; try lia; contradiction].
  - rewrite encLeaf_order by tauto. split; [auto|intros [?|?]; [lia|auto]].
  - rewrite blt_be_app by tauto. split; [auto|intros [?|?]; [lia|auto]].
  - simpl in SL. rewrite blt_app by auto. rewrite orb_true_iff, andb_true_iff, beqb_eq, blt_be by tauto. split; [auto|intros [?|?]; [lia|auto]].
Qed.
Lemma be_app_inj k x y c d : x < 256 ^ N.of_nat k -> y < 256 ^ N.of_nat k -> be k x ++ c = be k y ++ d -> x = y /\ c = d.
Proof. intros Hx Hy E. apply app_inv_len in E; [|rewrite !be_length; auto]. destruct E as [E ->]. split; auto. eapply be_inj; eauto. Qed.
Lemma encInternal_inj v p v' p' : u64 v -> u64 v' -> path64 p -> path64 p' -> encInternal v p = encInternal v' p' -> v = v' /\ p = p'.
Proof.
  intros Hv Hv' [Lp Fp] [Lp' Fp'] E. apply be_app_inj in E; auto. destruct E as [-> E]. split; auto. unfold encPath in E. rewrite !N.mod_small in E by lia. injection E as E1 E2. apply path_inj; auto. lia.
Qed.
Lemma encLeaf_inj h v h' v' : hash32 h -> hash32 h' -> u64 v -> u64 v' -> encLeaf h v = encLeaf h' v' -> h = h' /\ v = v'.
Proof. intros [L _] [L' _] Hv Hv' E. apply app_inv_len in E; [|lia]. destruct E as [-> E]. split; auto. eapply (be_inj 8); eassumption. Qed.
Lemma cons_inj (x : N) l m : x :: l = x :: m -> l = m.
Proof. intros H. injection H. auto. Qed.
Lemma cons2_inj (x y : N) l m : x :: y :: l = x :: y :: m -> l = m.
Proof. intros H. injection H. auto. Qed.
Lemma enc_inj a b : wf a -> wf b -> enc a = enc b -> a = b.
Proof.
  intros Wa Wb E. destruct a, b; cbn [enc wf] in *; try discriminate; lazymatch type of E with _ :: be _ _ = _ => apply cons_inj in E | _ => apply cons2_inj in E end; repeat match goal with H : _ /\ _ |- _ => destruct H end.
  all: try (f_equal; (eapply (be_inj 8); eassumption) || (eapply (be_inj 4); eassumption)).
  all: lazymatch type of E with be _ _ ++ _ = be _ _ ++ _ => apply be_app_inj in E; [|assumption|assumption]; destruct E as [-> E] | _ => idtac end.
  all: try (rewrite <- (app_nil_r (be 8 since0)) in E; apply be_app_inj in E; [|assumption|assumption]; destruct E as [_ E]; discriminate E).
  all: try (rewrite <- (app_nil_r (be 8 since)) in E; apply be_app_inj in E; [|assumption|assumption]; destruct E as [_ E]; discriminate E).
  all: try discriminate E.
  - f_equal. (eapply (be_inj 8); eassumption) || (eapply (be_inj 4); eassumption).
  - apply encInternal_inj in E; auto. destruct E; subst; auto.
  - apply cons2_inj in E. apply encInternal_inj in E; auto. destruct E; subst; auto.
  - apply cons2_inj in E. apply encLeaf_inj in E; auto. destruct E; subst; auto.
  - apply encLeaf_inj in E; auto. destruct E; subst; auto.
  - subst; auto.
  - apply app_inv_len_r in E; [|rewrite !be_length; auto]. destruct E as [-> E]. f_equal. (eapply (be_inj 8); eassumption) || (eapply (be_inj 4); eassumption).
Qed.

(** * Searches *)
Section Db.
Context {V : Type}.
Lemma seekAtMost_spec (d : db V) k :
  match seekAtMost d k with
  | Some e => In e d /\ blt k (fst e) = false /\ forall e', In e' d -> blt k (fst e') = false -> blt (fst e) (fst e') = false
  | None => forall e, In e d -> blt k (fst e) = true
  end.
Proof.
  induction d as [|e d IH]; cbn [seekAtMost]; [intros e []|]. destruct (blt k (fst e)) eqn:B.
  - destruct (seekAtMost d k) as [e'|].
    + destruct IH as (I & L & M). split; [right; auto|]. split; auto. intros x [<-|Hx] Lx; [congruence|auto].
    + intros x [<-|Hx]; auto.
  - destruct (seekAtMost d k) as [e'|].
    + destruct IH as (I & L & M). destruct (blt (fst e) (fst e')) eqn:C.
      * split; [right; auto|]. split; auto. intros x [<-|Hx] Lx; [apply blt_asym; auto|auto].
      * split; [left; auto|]. split; auto. intros x [<-|Hx] Lx; [apply blt_irrefl|]. apply (nlt_trans _ (fst e')); auto.
    + split; [left; auto|]. split; auto. intros x [<-|Hx] Lx; [apply blt_irrefl|]. rewrite IH in Lx; auto. discriminate.
Qed.
Lemma seekAtLeast_spec (d : db V) k :
  match seekAtLeast d k with
  | Some e => In e d /\ blt (fst e) k = false /\ forall e', In e' d -> blt (fst e') k = false -> blt (fst e') (fst e) = false
  | None => forall e, In e d -> blt (fst e) k = true
  end.
Proof.
  induction d as [|e d IH]; cbn [seekAtLeast]; [intros e []|]. destruct (blt (fst e) k) eqn:B.
  - destruct (seekAtLeast d k) as [e'|].
    + destruct IH as (I & L & M). split; [right; auto|]. split; auto. intros x [<-|Hx] Lx; [congruence|auto].
    + intros x [<-|Hx]; auto.
  - destruct (seekAtLeast d k) as [e'|].
    + destruct IH as (I & L & M). destruct (blt (fst e') (fst e)) eqn:C.
      * split; [right; auto|]. split; auto. intros x [<-|Hx] Lx; [apply blt_asym; auto|auto].
      * split; [left; auto|]. split; auto. intros x [<-|Hx] Lx; [apply blt_irrefl|]. apply (nlt_trans _ (fst e')); auto.
    + split; [left; auto|]. split; auto. intros x [<-|Hx] Lx; [apply blt_irrefl|]. rewrite IH in Lx; auto. discriminate.
Qed.
Lemma seekAfter_spec (d : db V) k :
  match seekAfter d k with
  | Some e => In e d /\ blt k (fst e) = true /\ forall e', In e' d -> blt k (fst e') = true -> blt (fst e') (fst e) = false
  | None => forall e, In e d -> blt k (fst e) = false
  end.
Proof.
  induction d as [|e d IH]; cbn [seekAfter]; [intros e []|]. destruct (blt k (fst e)) eqn:B.
  - destruct (seekAfter d k) as [e'|].
    + destruct IH as (I & L & M). destruct (blt (fst e') (fst e)) eqn:C.
      * split; [right; auto|]. split; auto. intros x [<-|Hx] Lx; [apply blt_asym; auto|auto].
      * split; [left; auto|]. split; auto. intros x [<-|Hx] Lx; [apply blt_irrefl|]. apply (nlt_trans _ (fst e')); auto.
    + split; [left; auto|]. split; auto. intros x [<-|Hx] Lx; [apply blt_irrefl|]. rewrite IH in Lx; auto. discriminate.
  - destruct (seekAfter d k) as [e'|].
    + destruct IH as (I & L & M). split; [right; auto|]. split; auto. intros x [<-|Hx] Lx; [congruence|auto].
    + intros x [<-|Hx]; auto.
Qed.
(** Searching backwards from a key with prefix p, when the database has a smaller key with this prefix, ends at a key with this prefix. *)
Lemma seekAtMost_prefix (d : db V) p a b : (exists x, In (p ++ a, x) d) -> blt (p ++ b) (p ++ a) = false ->
  exists c x, seekAtMost d (p ++ b) = Some (p ++ c, x) /\ In (p ++ c, x) d /\ blt b c = false /\ forall c' x', In (p ++ c', x') d -> blt b c' = false -> blt c c' = false.
Proof.
  intros [x Hx] L. pose proof (seekAtMost_spec d (p ++ b)) as S. destruct (seekAtMost d (p ++ b)) as [[k y]|].
  - destruct S as (I & U & M). simpl in *. destruct (sandwich p k a b) as [c ->]; auto.
    { specialize (M _ Hx). simpl in M. apply M; auto. }
    exists c, y. split; auto. split; auto. rewrite blt_app_same in U. split; auto. intros c' x' Hc Lc. specialize (M _ Hc). simpl in M. rewrite !blt_app_same in M. auto.
  - specialize (S _ Hx). simpl in S. congruence.
Qed.
Lemma wfDb_key (d : db V) k x : wfDb d -> In (k, x) d -> exists j, wf j /\ k = enc j.
Proof. intros [F _] I. rewrite Forall_forall in F. apply (F _ I). Qed.
Lemma typeOf_leaf j : typeOf (enc j) = 2 /\ subtypeOf (enc j) = 2 -> exists h v, j = KLeaf h v.
Proof. destruct j; simpl; intros [A B]; try discriminate; eauto. Qed.
Lemma typeOf_np j : typeOf (enc j) = 2 /\ subtypeOf (enc j) = 4 -> exists h v, j = KNonProvable h v.
Proof. destruct j; simpl; intros [A B]; try discriminate; eauto. Qed.
Lemma typeOf_block j : typeOf (enc j) = 0 -> exists v, j = KBlock v.
Proof. destruct j; simpl; intros A; try discriminate; eauto. Qed.
Lemma typeOf_temp j : typeOf (enc j) = 1 /\ subtypeOf (enc j) = 5 -> exists v, j = KTemp v.
Proof. destruct j; simpl; intros [A B]; try discriminate; eauto. Qed.
Lemma leafHash_enc h v : hash32 h -> leafHash (enc (KLeaf h v)) = h.
Proof. intros [L _]. unfold leafHash. change (enc (KLeaf h v)) with ([2; 2] ++ (h ++ be 8 v)). rewrite slice_app_skip by (simpl; lia). apply slice_app_here; auto. Qed.
Lemma last8_app p id : u64 id -> last8 (p ++ be 8 id) = id.
Proof.
  intros H. unfold last8. rewrite app_length, be_length, Nat.add_sub. rewrite slice_app_skip by lia. rewrite Nat.sub_diag.
  unfold slice. simpl skipn. rewrite <- (be_length 8 id) at 1. rewrite firstn_all. apply unbe_be; auto.
Qed.
Lemma npKey_enc id k : npKey (enc (KNonProvable id k)) = k.
Proof.
  unfold npKey. change (enc (KNonProvable id k)) with ([2; 4] ++ (k ++ be 8 id)). rewrite slice_app_skip by (simpl; lia). rewrite !app_length, be_length. cbn [length].
  replace (2 + (length k + 8) - 2 - 8)%nat with (length k) by lia. apply slice_app_here; auto.
Qed.

Lemma getLeafAtMost_spec (d : db V) h v : wfDb d -> hash32 h -> u64 v ->
  match getLeafAtMost d h v with
  | Some (k, x) => exists w, u64 w /\ w <= v /\ k = enc (KLeaf h w) /\ In (k, x) d /\ forall w' x', u64 w' -> w' <= v -> In (enc (KLeaf h w'), x') d -> w' <= w
  | None => forall w x, u64 w -> w <= v -> ~ In (enc (KLeaf h w), x) d
  end.
Proof.
  intros W Hh Hv. unfold getLeafAtMost. pose proof (seekAtMost_spec d (enc (KLeaf h v))) as Sp.
  assert (O : forall w, u64 w -> (blt (enc (KLeaf h v)) (enc (KLeaf h w)) = false <-> w <= v)).
  { intros w Hw. pose proof (enc_order (KLeaf h v) (KLeaf h w)) as O. simpl wf in O. specialize (O (conj Hh Hv) (conj Hh Hw) I). unfold before, beforeLeaf in O. simpl rank in O.
    rewrite blt_irrefl in O. split; intros H. - destruct (N.le_gt_cases w v); auto. assert (X : blt (enc (KLeaf h v)) (enc (KLeaf h w)) = true) by (apply O; auto). congruence.
    - apply not_true_is_false. intros E. apply O in E. destruct E as [?|[?|[? ?]]]; try lia; discriminate. }
  destruct (seekAtMost d (enc (KLeaf h v))) as [[k x]|] eqn:E.
  - destruct Sp as (I & U & M). cbn [fst] in U, M. destruct (wfDb_key d k x W I) as (j & Wj & ->).
    destruct ((typeOf (enc j) =? 2) && (subtypeOf (enc j) =? 2) && beqb (leafHash (enc j)) h) eqn:C.
    + apply andb_true_iff in C. destruct C as [C1 C2]. apply andb_true_iff in C1. destruct C1 as [C0 C1]. apply N.eqb_eq in C0, C1. apply beqb_eq in C2.
      destruct (typeOf_leaf j (conj C0 C1)) as (h' & w & ->). destruct Wj as [Hh' Hw]. rewrite leafHash_enc in C2 by auto. subst h'. exists w. split; auto. split; [apply O; auto|]. split; auto. split; auto.
      intros w' x' Hw' Lw' I'. specialize (M _ I'). cbn [fst] in M. specialize (M (proj2 (O w' Hw') Lw')).
      destruct (N.le_gt_cases w' w); auto. exfalso. assert (X : blt (enc (KLeaf h w)) (enc (KLeaf h w')) = true).
      { apply enc_order; simpl; auto. right. right. auto. } congruence.
    + intros w y Hw Lw Iw. destruct (seekAtMost_prefix d (2 :: 2 :: h) (be 8 w) (be 8 v)) as (c & z & E' & _).
      { exists y. exact Iw. } { apply (O w Hw). auto. }
      change ((2 :: 2 :: h) ++ be 8 v) with (enc (KLeaf h v)) in E'. rewrite E in E'. injection E' as Ec Ez. rewrite Ec in C.
      assert (X : leafHash ((2 :: 2 :: h) ++ c) = h). { unfold leafHash. change ((2 :: 2 :: h) ++ c) with ([2; 2] ++ (h ++ c)). rewrite slice_app_skip by (simpl; lia). apply slice_app_here, Hh. }
      change ((2 :: 2 :: h) ++ c) with (2 :: 2 :: h ++ c) in X. rewrite X, beqb_refl in C. discriminate C.
  - intros w x Hw Lw I. specialize (Sp _ I). cbn [fst] in Sp. rewrite (proj2 (O w Hw) Lw) in Sp. discriminate.
Qed.
Lemma np_order key id id' : u64 id -> u64 id' -> (blt (enc (KNonProvable id key)) (enc (KNonProvable id' key)) = false <-> id' <= id).
Proof.
  intros H H'. cbn [enc]. rewrite !blt_cons, blt_app_same. pose proof (blt_be 8 id id' H H') as B. split; intros X.
  - destruct (N.le_gt_cases id' id) as [|G]; auto. apply B in G. congruence.
  - apply not_true_is_false. intros Y. apply B in Y. lia.
Qed.
Lemma getNonProvable_spec (d : db V) n key id : wfDb d -> u64 id -> Forall isByte key -> length key = n ->
  (forall id' k' x, wf (KNonProvable id' k') -> In (enc (KNonProvable id' k'), x) d -> length k' = n) ->
  match getNonProvable d key id with
  | Some (x, w) => u64 w /\ w <= id /\ In (enc (KNonProvable w key), x) d /\ forall w' x', u64 w' -> w' <= id -> In (enc (KNonProvable w' key), x') d -> w' <= w
  | None => forall w x, u64 w -> w <= id -> ~ In (enc (KNonProvable w key), x) d
  end.
Proof.
  intros W Hid Hk Ln Same. unfold getNonProvable. pose proof (seekAtMost_spec d (enc (KNonProvable id key))) as Sp.
  destruct (seekAtMost d (enc (KNonProvable id key))) as [[k x]|] eqn:E.
  - destruct Sp as (I & U & M). cbn [fst] in U, M. destruct (wfDb_key d k x W I) as (j & Wj & ->).
    destruct ((typeOf (enc j) =? 2) && (subtypeOf (enc j) =? 4) && beqb (npKey (enc j)) key) eqn:C.
    + apply andb_true_iff in C. destruct C as [C1 C2]. apply andb_true_iff in C1. destruct C1 as [C0 C1]. apply N.eqb_eq in C0, C1. apply beqb_eq in C2.
      destruct (typeOf_np j (conj C0 C1)) as (w & k' & ->). destruct Wj as [Hw Hk']. rewrite npKey_enc in C2. subst k'.
      assert (L8 : last8 (enc (KNonProvable w key)) = w) by (change (enc (KNonProvable w key)) with ((2 :: 4 :: key) ++ be 8 w); apply last8_app; auto). rewrite L8.
      split; auto. split; [apply np_order in U; auto|]. split; auto. intros w' x' Hw' Lw' I'. specialize (M _ I'). cbn [fst] in M. apply np_order in M; auto. apply np_order; auto.
    + intros w y Hw Lw Iw. destruct (seekAtMost_prefix d (2 :: 4 :: key) (be 8 w) (be 8 id)) as (c & z & E' & Ic & _).
      { exists y. exact Iw. } { apply (np_order key id w Hid Hw). auto. }
      change ((2 :: 4 :: key) ++ be 8 id) with (enc (KNonProvable id key)) in E'. rewrite E in E'. injection E' as Ec Ez.
      destruct j; try discriminate Ec. destruct Wj as [Hi Hk']. pose proof (Same _ _ _ (conj Hi Hk') I) as Lk. cbn [enc] in Ec. apply cons2_inj in Ec. apply app_inv_len in Ec; [|lia]. destruct Ec as [-> _].
      rewrite npKey_enc, beqb_refl in C. discriminate C.
  - intros w x Hw Lw I. specialize (Sp _ I). cbn [fst] in Sp. rewrite (proj2 (np_order key id w Hid Hw) Lw) in Sp. discriminate.
Qed.
Lemma max_u64 : u64 MAX_ID. Proof. reflexivity. Qed.
Lemma le_max x : u64 x -> x <= MAX_ID. Proof. unfold u64, MAX_ID. generalize (256 ^ 8). intros. lia. Qed.
Lemma block_order a b : u64 a -> u64 b -> (blt (enc (KBlock a)) (enc (KBlock b)) = true <-> a < b).
Proof. intros. cbn [enc]. rewrite blt_cons. apply blt_be; auto. Qed.
Lemma temp_order a b : u64 a -> u64 b -> (blt (enc (KTemp a)) (enc (KTemp b)) = true <-> a < b).
Proof. intros. cbn [enc]. rewrite !blt_cons. apply blt_be; auto. Qed.
Lemma loadLastReachable_spec (d : db V) : wfDb d ->
  let l := loadLastReachable d in
  (l = 0 /\ (forall id x, u64 id -> In (enc (KBlock id), x) d -> id = 0)) \/ (u64 l /\ (exists x, In (enc (KBlock l), x) d) /\ forall id x, u64 id -> In (enc (KBlock id), x) d -> id <= l).
Proof.
  intros W. unfold loadLastReachable. pose proof (seekAtMost_spec d (enc (KBlock MAX_ID))) as Sp. cbv zeta.
  assert (O : forall id, u64 id -> blt (enc (KBlock MAX_ID)) (enc (KBlock id)) = false).
  { intros id Hid. apply not_true_is_false. rewrite block_order by (auto; apply max_u64). pose proof (le_max id Hid). lia. }
  destruct (seekAtMost d (enc (KBlock MAX_ID))) as [[k x]|] eqn:E.
  - destruct Sp as (I & U & M). cbn [fst] in U, M. destruct (wfDb_key d k x W I) as (j & Wj & ->). destruct (N.eqb_spec (typeOf (enc j)) 0) as [C|C].
    + destruct (typeOf_block j C) as [v ->]. assert (L8 : last8 (enc (KBlock v)) = v) by (apply (last8_app [0]); apply Wj). rewrite L8. right. split; [apply Wj|]. split; [exists x; auto|].
      intros id y Hid Iy. specialize (M _ Iy (O id Hid)). cbn [fst] in M. apply N.nlt_ge. rewrite <- block_order by auto. congruence.
    + left. split; auto. intros id y Hid Iy. exfalso. destruct (seekAtMost_prefix d [0] (be 8 id) (be 8 MAX_ID)) as (c & z & E' & _); [exists y; exact Iy|apply (O id Hid)|].
      change ([0] ++ be 8 MAX_ID) with (enc (KBlock MAX_ID)) in E'. rewrite E in E'. injection E' as Ec _. rewrite Ec in C. apply C. reflexivity.
  - left. split; auto. intros id y Hid Iy. specialize (Sp _ Iy). cbn [fst] in Sp. rewrite O in Sp; auto. discriminate.
Qed.
Lemma loadGenesis_spec (d : db V) : wfDb d -> (forall x, ~ In (enc (KBlock 0), x) d) ->
  let g := loadGenesis d in
  (g = 0 /\ (forall id x, u64 id -> ~ In (enc (KBlock id), x) d)) \/ (u64 g /\ (exists x, In (enc (KBlock g), x) d) /\ forall id x, u64 id -> In (enc (KBlock id), x) d -> g <= id).
Proof.
  intros W Z. unfold loadGenesis. pose proof (seekAtLeast_spec d (enc (KBlock 1))) as Sp. cbv zeta.
  assert (U1 : u64 1) by reflexivity.
  assert (O : forall id x, u64 id -> In (enc (KBlock id), x) d -> blt (enc (KBlock id)) (enc (KBlock 1)) = false).
  { intros id x Hid Hin. apply not_true_is_false. rewrite block_order by auto. intros L. assert (id = 0) by lia. subst. apply (Z x Hin). }
  destruct (seekAtLeast d (enc (KBlock 1))) as [[k x]|] eqn:E.
  - destruct Sp as (I & U & M). cbn [fst] in U, M. destruct (wfDb_key d k x W I) as (j & Wj & ->). destruct (N.eqb_spec (typeOf (enc j)) 0) as [C|C].
    + destruct (typeOf_block j C) as [v ->]. assert (L8 : last8 (enc (KBlock v)) = v) by (apply (last8_app [0]); apply Wj). rewrite L8. right. split; [apply Wj|]. split; [exists x; auto|].
      intros id y Hid Iy. specialize (M _ Iy (O id y Hid Iy)). cbn [fst] in M. apply N.nlt_ge. rewrite <- block_order by auto. congruence.
    + left. split; auto. intros id y Hid Iy. specialize (M _ Iy (O id y Hid Iy)). cbn [fst] in M.
      assert (X : blt (enc (KBlock id)) (enc j) = true). { apply enc_order; auto; [destruct j; exact Logic.I|]. left. destruct j; simpl; try lia. exfalso. apply C. reflexivity. } congruence.
  - left. split; auto. intros id y Hid Iy. specialize (Sp _ Iy). cbn [fst] in Sp. rewrite (O id y Hid Iy) in Sp. discriminate.
Qed.
Lemma loadLatestTemp_spec (d : db V) : wfDb d ->
  match loadLatestTemp d with
  | Some l => u64 l /\ (exists x, In (enc (KTemp l), x) d) /\ forall id x, u64 id -> In (enc (KTemp id), x) d -> id <= l
  | None => forall id x, u64 id -> ~ In (enc (KTemp id), x) d
  end.
Proof.
  intros W. unfold loadLatestTemp. pose proof (seekAtMost_spec d (enc (KTemp MAX_ID))) as Sp.
  assert (O : forall id, u64 id -> blt (enc (KTemp MAX_ID)) (enc (KTemp id)) = false).
  { intros id Hid. apply not_true_is_false. rewrite temp_order by (auto; apply max_u64). pose proof (le_max id Hid). lia. }
  destruct (seekAtMost d (enc (KTemp MAX_ID))) as [[k x]|] eqn:E.
  - destruct Sp as (I & U & M). cbn [fst] in U, M. destruct (wfDb_key d k x W I) as (j & Wj & ->). destruct ((typeOf (enc j) =? 1) && (subtypeOf (enc j) =? 5)) eqn:C.
    + apply andb_true_iff in C. destruct C as [C1 C2]. apply N.eqb_eq in C1, C2. destruct (typeOf_temp j (conj C1 C2)) as [v ->].
      assert (L8 : last8 (enc (KTemp v)) = v) by (apply (last8_app [1; 5]); apply Wj). rewrite L8. split; [apply Wj|]. split; [exists x; auto|].
      intros id y Hid Iy. specialize (M _ Iy (O id Hid)). cbn [fst] in M. apply N.nlt_ge. rewrite <- temp_order by auto. congruence.
    + intros id y Hid Iy. destruct (seekAtMost_prefix d [1; 5] (be 8 id) (be 8 MAX_ID)) as (c & z & E' & _); [exists y; exact Iy|apply (O id Hid)|].
      change ([1; 5] ++ be 8 MAX_ID) with (enc (KTemp MAX_ID)) in E'. rewrite E in E'. injection E' as Ec _. rewrite Ec in C. discriminate C.
  - intros id y Hid Iy. specialize (Sp _ Iy). cbn [fst] in Sp. rewrite O in Sp; auto. discriminate.
Qed.

(** * keysForVersion *)
Section Kfv.
Variables (d : db V) (sub ver : N).
Hypothesis Hver : u64 ver.
Let p := 2 :: sub :: be 8 ver.
Let T k := (typeOf k =? 2) && (subtypeOf k =? sub) && (staleVersion k =? ver).
Lemma T_prefix c : T (p ++ c) = true.
Proof.
  unfold T, p. cbn [app typeOf subtypeOf nth]. rewrite !N.eqb_refl. unfold staleVersion. change (2 :: sub :: be 8 ver ++ c) with ([2; sub] ++ (be 8 ver ++ c)).
  rewrite slice_app_skip by (simpl; lia). rewrite slice_app_here by apply be_length. rewrite unbe_be by exact Hver. apply N.eqb_refl.
Qed.
Definition pre k := exists c, k = p ++ c.
Hypothesis HT : forall k x, In (k, x) d -> T k = true -> pre k.
Let cnt k := length (filter (fun e : bytes * V => negb (blt (fst e) k)) d).
Lemma cnt_next k x k' x' : In (k, x) d -> seekAfter d k = Some (k', x') -> (cnt k' < cnt k)%nat.
Proof.
  intros I E. pose proof (seekAfter_spec d k) as Sp. rewrite E in Sp. destruct Sp as (_ & L & _). cbn [fst] in L. unfold cnt. clear E x' cnt HT.
  assert (G : forall l : db V, (length (filter (fun e : bytes * V => negb (blt (fst e) k')) l) <= length (filter (fun e : bytes * V => negb (blt (fst e) k)) l))%nat).
  { induction l as [|e l IH]; simpl; auto. destruct (blt (fst e) k') eqn:A, (blt (fst e) k) eqn:B; simpl; try lia. rewrite (blt_trans _ _ _ B L) in A. discriminate. }
  revert I. induction d as [|e l IH]; simpl; [tauto|]. intros [->|I].
  - cbn [fst]. rewrite L, blt_irrefl. simpl. specialize (G l). lia.
  - specialize (IH I). destruct (blt (fst e) k') eqn:A, (blt (fst e) k) eqn:B; simpl; try lia. rewrite (blt_trans _ _ _ B L) in A. discriminate.
Qed.
Lemma collect_from fuel : forall k x, In (k, x) d -> pre k -> (cnt k <= fuel)%nat ->
  NoDup (collect d sub ver fuel (Some (k, x))) /\ forall k', In k' (collect d sub ver fuel (Some (k, x))) <-> (exists x', In (k', x') d) /\ pre k' /\ blt k' k = false.
Proof.
  induction fuel; intros k x I [c Ec] F.
  - exfalso. assert (C : (0 < cnt k)%nat). { unfold cnt. assert (In (k, x) (filter (fun e : bytes * V => negb (blt (fst e) k)) d)) by (apply filter_In; simpl; rewrite blt_irrefl; auto). destruct (filter _ d); [destruct H|simpl; lia]. } lia.
  - cbn [collect]. change ((typeOf k =? 2) && (subtypeOf k =? sub) && (staleVersion k =? ver)) with (T k). rewrite Ec, T_prefix, <- Ec.
    pose proof (seekAfter_spec d k) as Sp. destruct (seekAfter d k) as [[k1 x1]|] eqn:E.
    + destruct Sp as (I1 & L1 & M1). cbn [fst] in *. pose proof (cnt_next k x k1 x1 I E) as Cn.
      assert (Next : forall k', (exists x', In (k', x') d) -> pre k' -> blt k k' = true -> pre k1 /\ blt k' k1 = false).
      { intros k' [x' I'] [c' ->] L'. specialize (M1 _ I' L'). cbn [fst] in M1. split; auto. eapply (sandwich p k1 c c'); auto. rewrite <- Ec. apply blt_asym; auto. }
      assert (Split : forall k', blt k' k = false -> k' = k \/ blt k k' = true). { intros k' H. destruct (blt k k') eqn:G; auto. left. apply blt_total; auto. }
      destruct (T k1) eqn:Tk.
      * destruct (IHfuel k1 x1 I1 (HT _ _ I1 Tk) ltac:(lia)) as [ND Iff]. split.
        -- constructor; auto. rewrite Iff. intros (_ & _ & H). rewrite L1 in H. discriminate.
        -- intros k'. cbn [In]. rewrite Iff. split.
           ++ intros [<-|(A & B & C)]; [split; [exists x; auto|split; [exists c; auto|apply blt_irrefl]]|]. split; auto. split; auto. apply blt_asym. eapply lt_nlt_trans; eauto.
           ++ intros (A & B & C). destruct (Split k' C) as [->|G]; auto. right. destruct (Next k' A B G). auto.
      * assert (N : collect d sub ver fuel (Some (k1, x1)) = []). { destruct fuel; auto. cbn [collect]. change ((typeOf k1 =? 2) && (subtypeOf k1 =? sub) && (staleVersion k1 =? ver)) with (T k1). rewrite Tk. auto. }
        rewrite N. split; [constructor; auto; constructor|]. intros k'. cbn [In]. split.
        -- intros [<-|[]]. split; [exists x; auto|split; [exists c; auto|apply blt_irrefl]].
        -- intros (A & B & C). destruct (Split k' C) as [->|G]; auto. destruct (Next k' A B G) as [[c1 E1] _]. rewrite E1, T_prefix in Tk. discriminate.
    + assert (N : collect d sub ver fuel None = []) by (destruct fuel; auto). rewrite N. split; [constructor; auto; constructor|]. intros k'. cbn [In]. split.
      -- intros [<-|[]]. split; [exists x; auto|split; [exists c; auto|apply blt_irrefl]].
      -- intros ([x' A] & B & C). left. symmetry. apply blt_total; auto. apply (Sp _ A).
Qed.
Lemma keysForVersion_spec a : (forall k x, In (k, x) d -> pre k -> blt k (p ++ a) = false) -> 
  NoDup (keysForVersion d (p ++ a) sub ver) /\ forall k, In k (keysForVersion d (p ++ a) sub ver) <-> (exists x, In (k, x) d) /\ pre k.
Proof.
  intros First. unfold keysForVersion. pose proof (seekAtLeast_spec d (p ++ a)) as Sp. destruct (seekAtLeast d (p ++ a)) as [[k x]|].
  - destruct Sp as (I & L & M). cbn [fst] in *. destruct (T k) eqn:Tk.
    + destruct (collect_from (S (length d)) k x I (HT _ _ I Tk)) as [ND Iff]. { unfold cnt. pose proof (filter_length_le (fun e : bytes * V => negb (blt (fst e) k)) d). lia. }
      split; auto. intros k'. rewrite Iff. split; [tauto|]. intros [[x' A] B]. split; [eauto|]. split; auto. apply (M _ A). apply (First _ _ A B).
    + cbn [collect]. change ((typeOf k =? 2) && (subtypeOf k =? sub) && (staleVersion k =? ver)) with (T k). rewrite Tk. split; [constructor|]. intros k'. split; [intros []|]. intros [[x' A] [c B]]. exfalso.
      specialize (M _ A (First _ _ A (ex_intro _ c B))). cbn [fst] in M. subst k'. destruct (sandwich p k a c L M) as [c1 ->]. rewrite T_prefix in Tk. discriminate.
  - cbn [collect]. split; [constructor|]. intros k'. split; [intros []|]. intros [[x' A] B]. specialize (Sp _ A). cbn [fst] in Sp. rewrite (First _ _ A B) in Sp. discriminate.
Qed.
End Kfv.
Lemma pre_sub (d : db V) sub ver : wfDb d -> In sub [0; 1; 3] -> forall k x, In (k, x) d -> (typeOf k =? 2) && (subtypeOf k =? sub) && (staleVersion k =? ver) = true -> pre sub ver k.
Proof.
  intros W Hs k x I H. apply andb_true_iff in H. destruct H as [H H3]. apply andb_true_iff in H. destruct H as [H1 H2]. apply N.eqb_eq in H1, H2, H3. destruct (wfDb_key d k x W I) as (j & Wj & ->).
  assert (X : forall c s, u64 s -> enc j = 2 :: sub :: be 8 s ++ c -> pre sub ver (enc j)).
  { intros c s Hs' E. assert (s = ver). { rewrite E in H3. unfold staleVersion in H3. change (2 :: sub :: be 8 s ++ c) with ([2; sub] ++ (be 8 s ++ c)) in H3.
      rewrite slice_app_skip in H3 by (simpl; lia). rewrite slice_app_here in H3 by apply be_length. rewrite unbe_be in H3 by exact Hs'. auto. } subst s. exists c. rewrite E. auto. }
  destruct j; try discriminate H1; simpl in H2; subst sub; simpl in Hs; try (exfalso; intuition discriminate); cbn [wf] in Wj.
  - apply (X (encPath path) ver0); [tauto|reflexivity].
  - apply (X (2 :: 0 :: encInternal ver0 path) since); [tauto|reflexivity].
  - apply (X (2 :: 2 :: encLeaf hash ver0) since); [tauto|reflexivity].
  - apply (X [] since); [tauto|]. rewrite app_nil_r. reflexivity.
  - apply (X key since); [tauto|reflexivity].
Qed.
Lemma blt_app_nil p c : blt (p ++ c) p = false.
Proof. induction p; simpl; [destruct c; auto|]. rewrite N.ltb_irrefl. auto. Qed.
Lemma staleNonProvable_spec (d : db V) id : wfDb d -> u64 id ->
  NoDup (staleNonProvable d id) /\ forall k, In k (staleNonProvable d id) <-> (exists x, In (k, x) d) /\ exists key, wf (KNonProvableStale id key) /\ k = enc (KNonProvableStale id key).
Proof.
  intros W H. unfold staleNonProvable. change (enc (KNonProvableStale id [])) with ((2 :: 3 :: be 8 id) ++ []).
  destruct (keysForVersion_spec d 3 id H (pre_sub d 3 id W ltac:(simpl; auto)) []) as [ND Iff].
  { intros k x I [c ->]. rewrite app_nil_r. apply blt_app_nil. }
  split; auto. intros k. rewrite Iff. split; intros [[x I] P]; split; eauto.
  - destruct P as [c E]. destruct (wfDb_key d k x W I) as (j & Wj & Ej). rewrite E in Ej. destruct j; try discriminate Ej. cbn [enc] in Ej. change ((2 :: 3 :: be 8 id) ++ c) with (2 :: 3 :: be 8 id ++ c) in Ej. apply cons2_inj in Ej.
    cbn [wf] in Wj. apply be_app_inj in Ej; [|apply H|apply Wj]. destruct Ej as [-> ->]. exists key. split; auto.
  - destruct P as (key & Wk & ->). exists key. reflexivity.
Qed.
Lemma staleProvable_spec (d : db V) ver : wfDb d -> u64 ver ->
  NoDup (staleProvable d ver) /\ forall k, In k (staleProvable d ver) <-> (exists x, In (k, x) d) /\ exists j, wf j /\ rank j = 8%nat /\ staleSince j = ver /\ k = enc j.
Proof.
  intros W H. unfold staleProvable. replace (enc (KStaleVersion ver)) with ((2 :: 1 :: be 8 ver) ++ []) by apply app_nil_r.
  destruct (keysForVersion_spec d 1 ver H (pre_sub d 1 ver W ltac:(simpl; auto)) []) as [ND Iff].
  { intros k x I [c ->]. rewrite app_nil_r. apply blt_app_nil. }
  split; auto. intros k. rewrite Iff. split; intros [[x I] P]; split; eauto.
  - destruct P as [c E]. destruct (wfDb_key d k x W I) as (j & Wj & Ej). exists j. rewrite E in Ej. split; auto. change ((2 :: 1 :: be 8 ver) ++ c) with (2 :: 1 :: be 8 ver ++ c) in Ej.
    destruct j; try discriminate Ej; cbn [enc wf] in *; apply cons2_inj in Ej.
    + apply be_app_inj in Ej; [|apply H|apply Wj]. destruct Ej as [-> ->]. rewrite E. auto.
    + apply be_app_inj in Ej; [|apply H|apply Wj]. destruct Ej as [-> ->]. rewrite E. auto.
    + rewrite <- (app_nil_r (be 8 since)) in Ej. apply be_app_inj in Ej; [|apply H|apply Wj]. destruct Ej as [-> ->]. rewrite E. split; auto.
  - destruct P as (j & Wj & R & S & ->). destruct j; try discriminate R; simpl in S; subst.
    + exists (2 :: 0 :: encInternal ver0 path). reflexivity. + exists (2 :: 2 :: encLeaf hash ver0). reflexivity. + exists []. symmetry. apply app_nil_r.
Qed.
Lemma internalKeys_spec (d : db V) ver : wfDb d -> u64 ver ->
  NoDup (internalKeys d ver) /\ forall k, In k (internalKeys d ver) <-> (exists x, In (k, x) d) /\ exists path, wf (KInternal ver path) /\ k = enc (KInternal ver path).
Proof.
  intros W H. unfold internalKeys. change (enc (KInternal ver [])) with ((2 :: 0 :: be 8 ver) ++ [0]).
  assert (X : forall k x, In (k, x) d -> pre 0 ver k -> exists path, wf (KInternal ver path) /\ k = enc (KInternal ver path)).
  { intros k x I [c E]. destruct (wfDb_key d k x W I) as (j & Wj & Ej). rewrite E in Ej. destruct j; try discriminate Ej. cbn [enc] in Ej. change ((2 :: 0 :: be 8 ver) ++ c) with (2 :: 0 :: be 8 ver ++ c) in Ej. apply cons2_inj in Ej.
    cbn [wf] in Wj. unfold encInternal in Ej. apply be_app_inj in Ej; [|apply H|apply Wj]. destruct Ej as [-> ->]. exists path. split; auto. }
  destruct (keysForVersion_spec d 0 ver H (pre_sub d 0 ver W ltac:(simpl; auto)) [0]) as [ND Iff].
  { intros k x I P. destruct (X k x I P) as (path & [_ [L _]] & ->). change (enc (KInternal ver path)) with ((2 :: 0 :: be 8 ver) ++ encPath path). rewrite blt_app_same. unfold encPath. cbn [blt]. rewrite N.mod_small by lia.
    destruct (N.ltb_spec (N.of_nat (length path)) 0); [lia|]. destruct (N.ltb_spec 0 (N.of_nat (length path))); auto. destruct path; simpl in *; auto; lia. }
  split; auto. intros k. rewrite Iff. split; intros [[x I] P]; split; eauto. destruct P as (path & Wp & ->). exists (encPath path). reflexivity.
Qed.
End Db.

(** * v1 *)
Lemma lastLe_app n p x : x < 256 ^ N.of_nat n -> lastLe n (p ++ le n x) = x.
Proof.
  intros H. unfold lastLe. rewrite app_length, le_length, Nat.add_sub. rewrite slice_app_skip by lia. rewrite Nat.sub_diag. rewrite <- (app_nil_r (le n x)). rewrite slice_app_here by apply le_length. apply unle_le; auto.
Qed.
Lemma lastLe_cons t n x : x < 256 ^ N.of_nat n -> lastLe n (t :: le n x) = x.
Proof. apply (lastLe_app n [t] x). Qed.
Lemma lastLe_key t k n x : x < 256 ^ N.of_nat n -> lastLe n (t :: k ++ le n x) = x.
Proof. apply (lastLe_app n (t :: k) x). Qed.
Lemma sgn_spec a b : ((sgn a b < 0)%Z <-> a < b) /\ (sgn a b = 0%Z <-> a = b) /\ ((0 < sgn a b)%Z <-> b < a).
Proof. unfold sgn. destruct (N.ltb_spec b a), (N.ltb_spec a b); lia. Qed.
Lemma memcmp_spec a : forall b, let r := memcmp a b (Nat.min (length a) (length b)) in
  let r' := if Nat.eqb (length a) (length b) then r else if Z.eqb r 0 then if Nat.ltb (length a) (length b) then (-1)%Z else 1%Z else r in
  r' = if blt a b then (-1)%Z else if blt b a then 1%Z else 0%Z.
Proof.
  induction a as [|x a IH]; intros [|y b]; cbv zeta in *; try reflexivity. specialize (IH b). cbn [length Nat.min memcmp blt]. change (Nat.eqb (S (length a)) (S (length b))) with (Nat.eqb (length a) (length b)).
  change (Nat.ltb (S (length a)) (S (length b))) with (Nat.ltb (length a) (length b)).
  destruct (N.ltb_spec x y). { destruct (Nat.eqb _ _); reflexivity. } destruct (N.ltb_spec y x). { destruct (Nat.eqb _ _); reflexivity. } exact IH.
Qed.
Lemma compareKeyPart_spec k k' id id' : compareKeyPart (66 :: k ++ le 8 id) (66 :: k' ++ le 8 id') = if blt k k' then (-1)%Z else if blt k' k then 1%Z else 0%Z.
Proof.
  unfold compareKeyPart. cbn [length]. rewrite !app_length, !le_length. replace (S (length k + 8) - 9)%nat with (length k) by lia. replace (S (length k' + 8) - 9)%nat with (length k') by lia.
  assert (X : forall q i, slice (66 :: q ++ le 8 i) 1 (length q) = q) by (intros; change (66 :: q ++ le 8 i) with ([66] ++ (q ++ le 8 i)); rewrite slice_app_skip by (simpl; lia); apply slice_app_here; auto).
  rewrite !X. apply memcmp_spec.
Qed.
Lemma slice1 t n x c : x < 256 ^ N.of_nat n -> unle (slice (t :: le n x ++ c) 1 n) = x.
Proof. intros H. change (t :: le n x ++ c) with ([t] ++ (le n x ++ c)). rewrite slice_app_skip by (simpl; lia). rewrite slice_app_here by apply le_length. apply unle_le; auto. Qed.
Lemma slice5 t x y : y < 256 ^ 8 -> unle (slice (t :: le 4 x ++ le 8 y) 5 8) = y.
Proof.
  intros H. change (t :: le 4 x ++ le 8 y) with ([t] ++ (le 4 x ++ le 8 y)). rewrite slice_app_skip by (simpl; lia). rewrite slice_app_skip by (rewrite le_length; simpl; lia). rewrite le_length.
  rewrite <- (app_nil_r (le 8 y)). rewrite slice_app_here by apply le_length. apply (unle_le 8). auto.
Qed.
Lemma cmp1_spec a b : wf1 a -> wf1 b -> exists z, cmp1 (enc1 a) (enc1 b) = Some z /\ ((z < 0)%Z <-> before1 a b) /\ (z = 0%Z <-> a = b) /\ ((0 < z)%Z <-> before1 b a).
Proof.
  intros Wa Wb. unfold before1. destruct a, b; cbn [wf1 enc1 type1] in *; unfold cmp1; cbn [nth].
  all: try (eexists; split; [reflexivity|]; split; [split; intros; try lia; left; lia|]; split; [split; [intros; lia|intros; discriminate]|]; split; intros; try lia; left; lia).
  all: try (eexists; split; [reflexivity|]; split; [split; intros Q; [exfalso; vm_compute in Q; discriminate Q|destruct Q; [lia|contradiction]]|]; split; [split; [intros Q; discriminate Q|intros Q; discriminate Q]|]; split; intros Q; [left; lia|reflexivity]).
  all: try (eexists; split; [reflexivity|]; split; [split; intros Q; [left; lia|reflexivity]|]; split; [split; [intros Q; discriminate Q|intros Q; discriminate Q]|]; split; intros Q; [exfalso; vm_compute in Q; discriminate Q|destruct Q; [lia|contradiction]]).
  all: cbn [N.leb N.ltb N.eqb N.compare Pos.compare Pos.compare_cont Pos.eqb negb andb orb].
  - rewrite (lastLe_cons 65 8 id), (lastLe_cons 65 8 id0) by assumption. eexists; split; [reflexivity|]. destruct (sgn_spec id id0) as (A & B & C). rewrite A, B, C. split; [split; [auto|intros [?|?]; [lia|auto]]|]. split; [split; congruence|]. split; [auto|intros [?|?]; [lia|auto]].
  - rewrite compareKeyPart_spec. destruct Wa as [_ Wa], Wb as [_ Wb]. rewrite (lastLe_key 66 key 8 id), (lastLe_key 66 key0 8 id0) by assumption. eexists; split; [reflexivity|].
    destruct (blt key key0) eqn:L1; [|destruct (blt key0 key) eqn:L2]; cbn [Z.eqb].
    + split; [split; [auto|lia]|]. split; [split; [intros; lia|intros E; injection E as -> ->; rewrite blt_irrefl in L1; discriminate]|].
      split; [lia|]. intros [?|[H|[-> _]]]; [lia| |]. * rewrite (blt_asym _ _ L1) in H. discriminate. * rewrite blt_irrefl in L1. discriminate.
    + split; [split; [lia|intros [?|[H|[-> _]]]; [lia|discriminate|rewrite blt_irrefl in L2; discriminate]]|]. split; [split; [intros; lia|intros E; injection E as -> ->; rewrite blt_irrefl in L2; discriminate]|].
      split; [auto|lia].
    + pose proof (blt_total _ _ L1 L2). subst key0. destruct (sgn_spec id0 id) as (A & B & C). rewrite A, B, C. split; [split; [auto|intros [?|[?|[? ?]]]; auto; [lia|discriminate]]|].
      split; [split; congruence|]. split; [auto|intros [?|[?|[? ?]]]; auto; [lia|discriminate]].
  - rewrite (lastLe_cons 67 4 o), (lastLe_cons 67 4 o0) by assumption. eexists; split; [reflexivity|]. destruct (sgn_spec o o0) as (A & B & C). rewrite A, B, C. split; [split; [auto|intros [?|?]; [lia|auto]]|]. split; [split; congruence|]. split; [auto|intros [?|?]; [lia|auto]].
  - rewrite (lastLe_cons 68 4 o), (lastLe_cons 68 4 o0) by assumption. eexists; split; [reflexivity|]. destruct (sgn_spec o o0) as (A & B & C). rewrite A, B, C. split; [split; [auto|intros [?|?]; [lia|auto]]|]. split; [split; congruence|]. split; [auto|intros [?|?]; [lia|auto]].
  - rewrite (lastLe_cons 69 4 p), (lastLe_cons 69 4 p0) by assumption. eexists; split; [reflexivity|]. destruct (sgn_spec p p0) as (A & B & C). rewrite A, B, C. split; [split; [auto|intros [?|?]; [lia|auto]]|]. split; [split; congruence|]. split; [auto|intros [?|?]; [lia|auto]].
  - destruct Wa as [Wp Wc], Wb as [Wp0 Wc0]. rewrite !slice5 by assumption. rewrite (slice1 70 4 p), (slice1 70 4 p0) by assumption. eexists; split; [reflexivity|]. destruct (N.eqb_spec p p0) as [->|Np].
    + destruct (sgn_spec c c0) as (A & B & C). rewrite A, B, C. split; [split; [auto|intros [?|[?|[? ?]]]; auto; lia]|]. split; [split; congruence|]. split; [auto|intros [?|[?|[? ?]]]; auto; lia].
    + destruct (sgn_spec p p0) as (A & B & C). rewrite A, B, C. split; [split; [auto|intros [?|[?|[? ?]]]; auto; lia]|]. split; [split; congruence|]. split; [auto|intros [?|[?|[? ?]]]; auto; lia].
  - rewrite <- (app_nil_r (le 8 c)), <- (app_nil_r (le 8 c0)). rewrite (slice1 71 8 c), (slice1 71 8 c0) by assumption. eexists; split; [reflexivity|]. destruct (sgn_spec c c0) as (A & B & C). rewrite A, B, C. split; [split; [auto|intros [?|?]; [lia|auto]]|]. split; [split; congruence|]. split; [auto|intros [?|?]; [lia|auto]].
Qed.
