From Coq Require Import List Arith NArith ZArith Bool Lia.
From Verif Require Import Lib_Bytes Rvt_Model Rvt_Spec Rvt_Proofs Rvt_Proofs2 Rvt_Proofs3 Rvt_Proofs4 Rvt_Proofs5 Rvt_Proofs6 Rvt_Proofs7 Rvt_Proofs8 Rvt_Proofs9.
Import ListNotations.
Local Open Scope N_scope.

Section S.
Variable H : bytes -> bytes.
Variables (K : N) (M : Z).
Hypothesis K2 : 2 <= K.
Hypothesis M0 : (0 < M)%Z.
Notation iv := (iv H M).
Notation Q := (Q K).
Notation ix := (ix K).
Notation kid := (kid K).
Notation val := (val H K M).
Notation cn := (cn H K M).
Notation nd := (nd H K M).
Notation at_ := (at_ K).
Notation Rep := (Rep K).
Notation lfc := (lfc K).
Notation Canon := (Canon H K M).
Notation eqm := (eqm M).

(** * The invariant *)
Definition lastOf (k : N) (l : list bytes) : N := k + N.of_nat (length l) - 1.
Definition fits (v : N -> Z) (k : N) (l : list bytes) : Prop := forall p, k - 1 <= p -> p <= lastOf k l - 1 -> v p = hval H M (0%nat, p + 1) (digestOf k l (p + 1)).
Definition Inv (t : tree) (s : live) : Prop :=
  match s with
  | None => t = empty
  | Some (k, l) => k <> 0 /\ l <> [] /\ exists v L, Canon t (k - 1) (lastOf k l - 1) v L /\ fits v k l
  end.

Lemma step_ok t s o s' : Inv t s -> lstep s o s' -> exists t', apply H K M t o = Some t' /\ Inv t' s'.
Proof.
  intros IV ST. destruct ST as [i d NZ|k l d|k x l NE|k x]; cbn [Inv apply] in *.
  - subst t. destruct (add_first H K M K2 M0 (i - 1) d) as (t' & E & C). replace (i - 1 + 1) with i in E by lia. exists t'. split; auto. split; auto. split; [discriminate|].
    exists (vset (fun _ => 0%Z) (i - 1) (hval H M (at_ 0 (i - 1)) d)), 1%nat. unfold lastOf. cbn [length]. replace (i + N.of_nat 1 - 1 - 1) with (i - 1) by lia. split; auto.
    intros p P1 P2. unfold lastOf in P2. cbn [length] in P2. assert (p = i - 1) by lia. subst p. rewrite vset_at, <- at0. unfold digestOf. replace (i - 1 + 1 - i) with 0 by lia. reflexivity.
  - destruct IV as (KZ & LN & v & L & C & FV). assert (LP : (0 < length l)%nat) by (destruct l; [congruence|simpl; lia]).
    destruct (add_spec H K M K2 M0 t _ _ v L d C) as (t' & L' & E & C'). unfold lastOf in *. replace (k + N.of_nat (length l) - 1 - 1 + 2) with (k + N.of_nat (length l)) in E by lia.
    exists t'. split; auto. split; auto. split; [destruct l; discriminate|]. eexists _, L'. rewrite app_length. cbn [length].
    replace (k + N.of_nat (length l + 1) - 1 - 1) with (k + N.of_nat (length l) - 1 - 1 + 1) by lia. split; [exact C'|].
    intros p P1 P2. unfold lastOf in P2. rewrite app_length in P2. cbn [length] in P2. unfold digestOf. destruct (N.eq_dec p (k + N.of_nat (length l) - 1 - 1 + 1)) as [->|NP].
    + rewrite vset_at, <- at0. f_equal. rewrite app_nth2 by lia. replace (_ - length l)%nat with 0%nat by lia. reflexivity.
    + unfold vset. apply N.eqb_neq in NP. rewrite NP. apply N.eqb_neq in NP. rewrite FV by (unfold lastOf; lia). unfold digestOf. rewrite app_nth1 by lia. reflexivity.
  - destruct IV as (KZ & _ & v & L & C & FV). assert (LP : (0 < length l)%nat) by (destruct l; [congruence|simpl; lia]).
    assert (VA : v (k - 1) = hval H M (at_ 0 (k - 1)) x). { rewrite FV by (unfold lastOf; cbn [length]; lia). rewrite <- at0. unfold digestOf. replace (k - 1 + 1 - k) with 0 by lia. reflexivity. }
    destruct (remove_spec H K M K2 M0 t (k - 1) (lastOf k (x :: l) - 1) v L x) as (t' & L' & E & C'); auto. { unfold lastOf. cbn [length]. lia. }
    replace (k - 1 + 1) with k in * by lia. exists t'. split; auto. split; [lia|]. split; auto. exists v, L'. unfold lastOf in *. cbn [length] in *.
    replace (k + 1 - 1) with k by lia. replace (k + 1 + N.of_nat (length l) - 1 - 1) with (k + N.of_nat (S (length l)) - 1 - 1) by lia. split; auto.
    intros p P1 P2. unfold lastOf in P2. rewrite FV by (unfold lastOf; cbn [length]; lia). unfold digestOf. replace (N.to_nat (p + 1 - k)) with (S (N.to_nat (p + 1 - (k + 1)))) by lia. reflexivity.
  - destruct IV as (KZ & _ & v & L & C & FV). exists empty. split; auto.
    assert (VA : v (k - 1) = hval H M (at_ 0 (k - 1)) x). { rewrite FV by (unfold lastOf; cbn [length]; lia). rewrite <- at0. unfold digestOf. replace (k - 1 + 1 - k) with 0 by lia. reflexivity. }
    unfold lastOf in C. cbn [length] in C. replace (k + N.of_nat 1 - 1 - 1) with (k - 1) in C by lia. pose proof (remove_last H K M K2 t _ v L x VA C) as E. replace (k - 1 + 1) with k in E by lia. exact E.
Qed.
Lemma run_ok os : forall t s s', Inv t s -> lrun s os s' -> exists t', exec H K M t os = Some t' /\ Inv t' s'.
Proof.
  induction os as [|o os IH]; intros t s s' IV R; inversion R; subst; [exists t; split; auto; reflexivity|].
  destruct (step_ok _ _ _ _ IV H3) as (t1 & E1 & I1). destruct (IH _ _ _ I1 H5) as (t2 & E2 & I2). exists t2. split; auto. cbn [exec]. rewrite E1. exact E2.
Qed.

(** * Uniqueness *)
Lemma height_low a b L j : (L = 1%nat \/ Q (pred L) a <> Q (pred L) b) -> (1 <= j < L)%nat -> Q j a <> Q j b.
Proof.
  intros MI JL E. destruct MI as [MI|MI]; [lia|]. apply MI. assert (G : forall n, Q (j + n) a = Q (j + n) b). { induction n as [|n IH]; [rewrite Nat.add_0_r; auto|]. rewrite Nat.add_succ_r. apply Q_up; auto. }
  specialize (G (pred L - j)%nat). replace (j + (pred L - j))%nat with (pred L) in G by lia. exact G.
Qed.
Lemma val_ext a b v w l : (forall p, a <= p -> p <= b -> v p = w p) -> forall q, (l = 0%nat -> a <= q <= b) -> val a b v l q = val a b w l q.
Proof.
  intros E. induction l as [|l IH]; intros q B; cbn [Rvt_Proofs.val]; [apply E; apply B; auto|].
  f_equal. f_equal. f_equal. apply map_ext_in. intros j J. apply IH. intros ->. apply kid_in in J; auto. rewrite !Q_0 in J. lia.
Qed.
Lemma cn_ext a b v w L l q : (forall p, a <= p -> p <= b -> v p = w p) -> cn a b L v l q = cn a b L w l q.
Proof. intros E. destruct l as [|l]; [reflexivity|]. rewrite !cn_nd. destruct (_ && _ && _)%bool; auto. f_equal. unfold Rvt_Proofs2.nd. f_equal. apply val_ext; auto. discriminate. Qed.
Lemma nodes_dec t f x : nodesRep K t f -> (exists q, snd x = ix (fst x) q) \/ nodes t x = None.
Proof.
  intros (A & B). destruct x as [l i]. cbn [fst snd]. destruct (N.eq_dec i 0) as [->|NZ]; [right; apply B; unfold Rvt_Proofs.ix; intros q; lia|].
  destruct (N.eq_dec ((i - 1) mod pow K l) 0) as [E|NE].
  - left. exists ((i - 1) / pow K l). unfold Rvt_Proofs.ix. pose proof (N.div_mod (i - 1) (pow K l) (pow_pos K K2 l)). lia.
  - right. apply B. intros q X. apply NE. rewrite X. unfold Rvt_Proofs.ix. rewrite N.add_sub. apply N.mod_mul. apply pow_pos; auto.
Qed.
Lemma inv_same t u s : Inv t s -> Inv u s -> sameTree t u.
Proof.
  destruct s as [(k, l)|]; cbn [Inv]; [|intros -> ->; repeat split; reflexivity].
  intros (KZ & LN & v & L & (AB & L1 & QL & MI & R) & FV) (_ & _ & w & L' & (_ & L1' & QL' & MI' & R') & FW).
  assert (L = L'). { destruct (Nat.lt_trichotomy L L') as [X|[X|X]]; auto; exfalso; [eapply (height_low _ _ L' L MI'); eauto; lia|eapply (height_low _ _ L L' MI); eauto; lia]. } subst L'.
  destruct R as (A & B & C & D & E & F & G), R' as (A' & B' & C' & D' & E' & F' & G').
  repeat split; try congruence; try (intros j; rewrite ?B, ?B', ?C, ?C'; reflexivity).
  intros x. destruct (nodes_dec t _ x A) as [(q & X)|X]; destruct (nodes_dec u _ x A') as [(q' & X')|X'].
  - destruct x as [j i]. cbn [fst snd] in *. subst i. apply ix_inj in X'; auto. subst q'. destruct A as (A & _), A' as (A' & _). rewrite A, A'. apply cn_ext. intros p P1 P2. rewrite FV, FW; auto.
  - destruct x as [j i]. cbn [fst snd] in *. subst i. destruct A as (A & _), A' as (A' & _). rewrite A, A'. apply cn_ext. intros p P1 P2. rewrite FV, FW; auto.
  - destruct x as [j i]. cbn [fst snd] in *. subst i. destruct A as (A & _), A' as (A' & _). rewrite A, A'. apply cn_ext. intros p P1 P2. rewrite FV, FW; auto.
  - congruence.
Qed.

(** * Values *)
Lemma rng_app x y z : x <= y -> y <= z -> rng x y ++ rng y z = rng x z.
Proof.
  clear. intros XY YZ. replace z with (y + N.of_nat (N.to_nat (z - y))) by lia. generalize (N.to_nat (z - y)) as n. clear YZ z. induction n as [|n IH].
  - rewrite N.add_0_r, (rng_nil y y) by lia. apply app_nil_r.
  - replace (y + N.of_nat (S n)) with (y + N.of_nat n + 1) by lia. rewrite !rng_snoc by lia. rewrite app_assoc, IH. reflexivity.
Qed.
Lemma kid_cover a b l n : a <= b -> n <= Q (S l) b - Q (S l) a ->
  concat (map (kid a b l) (rng (Q (S l) a) (Q (S l) a + n + 1))) = rng (Q l a) (N.min ((Q (S l) a + n + 1) * K) (Q l b + 1)).
Proof.
  intros AB. pose proof (Q_in K K2 l a) as (I1 & I2). pose proof (Q_in K K2 l b) as (I3 & I4). pose proof (Q_mono K K2 l _ _ AB) as QM. pose proof (Q_mono K K2 (S l) _ _ AB) as QM1.
  replace n with (N.of_nat (N.to_nat n)) by lia. generalize (N.to_nat n) as m. clear n. induction m as [|m IH]; intros B.
  - rewrite N.add_0_r. rewrite rng_cons, rng_nil by lia. cbn [map concat]. rewrite app_nil_r. unfold Rvt_Proofs.kid. f_equal; lia.
  - rewrite rng_snoc by lia. rewrite map_app, concat_app. cbn [map concat]. rewrite app_nil_r.
    replace (Q (S l) a + N.of_nat (S m)) with (Q (S l) a + N.of_nat m + 1) by lia. rewrite IH by lia. unfold Rvt_Proofs.kid.
    set (q := Q (S l) a + N.of_nat m + 1). assert (q <= Q (S l) b) by lia. assert (q * K <= Q (S l) b * K) by nia. assert ((Q (S l) a + 1) * K <= q * K) by nia.
    rewrite (N.min_l (q * K)) by lia. rewrite (N.max_l (q * K)) by lia. replace ((q + 1) * K) with (q * K + K) by lia. apply rng_app; lia.
Qed.
Lemma kid_cover_all a b l : a <= b -> concat (map (kid a b l) (rng (Q (S l) a) (Q (S l) b + 1))) = rng (Q l a) (Q l b + 1).
Proof.
  intros AB. pose proof (Q_mono K K2 (S l) _ _ AB) as QM1. pose proof (Q_in K K2 l b) as (I3 & I4). pose proof (kid_cover a b l (Q (S l) b - Q (S l) a) AB ltac:(lia)) as E.
  replace (Q (S l) a + (Q (S l) b - Q (S l) a)) with (Q (S l) b) in E by lia. rewrite E. f_equal. apply N.min_r. lia.
Qed.
Lemma sum_concat {A} (f : A -> Z) ll : sum (map f (concat ll)) = sum (map (fun l => sum (map f l)) ll).
Proof. clear. induction ll as [|l ll IH]; [reflexivity|]. cbn [concat map]. rewrite map_app, sum_app, IH. reflexivity. Qed.
Lemma eqm_sum {A} (f g : A -> Z) l : (forall x, In x l -> eqm (f x) (g x)) -> eqm (sum (map f l)) (sum (map g l)).
Proof. intros E. induction l as [|x l IH]; [apply eqm_refl|]. cbn [map sum fold_right]. apply eqm_add; [apply E; left; auto|apply IH; intros y Y; apply E; right; auto]. Qed.
Lemma sum_add {A} (f g : A -> Z) l : sum (map (fun x => f x + g x)%Z l) = (sum (map f l) + sum (map g l))%Z.
Proof. clear. induction l as [|x l IH]; [reflexivity|]. cbn [map sum fold_right] in *. unfold sum in IH. lia. Qed.
Definition ivSum (a b : N) (j : nat) : Z := sum (map (fun q => iv (at_ j q)) (rng (Q j a) (Q j b + 1))).
Lemma level_sum a b v l : a <= b -> eqm (sum (map (val a b v l) (rng (Q l a) (Q l b + 1)))) (sum (map v (rng a (b + 1))) + sum (map (ivSum a b) (seq 1 l))).
Proof.
  intros AB. induction l as [|l IH].
  - cbn [seq map]. rewrite !Q_0. cbn [sum fold_right]. rewrite Z.add_0_r. apply eqm_refl.
  - rewrite seq_S, map_app, sum_app. cbn [map sum fold_right]. rewrite Z.add_0_r.
    eapply eqm_trans. { eapply eqm_sum with (g := fun q => (iv (at_ (S l) q) + sum (map (val a b v l) (kid a b l q)))%Z). intros q _. cbn [Rvt_Proofs.val]. apply eqm_mod; auto. }
    rewrite sum_add. change (1 + l)%nat with (S l). change (sum (map (fun x => iv (at_ (S l) x)) (rng (Q (S l) a) (Q (S l) b + 1)))) with (ivSum a b (S l)).
    rewrite <- (map_map (kid a b l) (fun x => sum (map (val a b v l) x))). rewrite <- sum_concat, kid_cover_all by auto.
    eapply eqm_trans; [apply eqm_add; [apply eqm_refl|exact IH]|]. exists 0%Z. unfold sum. ring.
Qed.
Lemma root_val t a b v L : Canon t a b v L -> rootVal t = Some ((sum (map v (rng a (b + 1))) + sum (map (ivSum a b) (seq 1 L))) mod M)%Z.
Proof.
  intros (AB & L1 & QL & MI & R). unfold rootVal. pose proof R as (_ & _ & _ & RO & _). rewrite RO. cbn [bind]. rewrite (rep_get _ _ _ _ _ _ _ _ _ _ _ _ R). destruct L as [|L]; [lia|]. rewrite cn_in by lia. cbn [bind]. unfold Rvt_Proofs2.nd. cbn [cur]. f_equal.
  apply (eqm_uniq M M0).
  - eapply eqm_trans; [|apply eqm_sym; apply eqm_mod; auto]. pose proof (level_sum a b v (S L) AB) as E. rewrite <- QL in E. rewrite rng_cons, rng_nil in E by lia. cbn [map] in E. eapply eqm_trans; [|exact E]. exists 0%Z. cbn [sum fold_right]. ring.
  - apply val_range; auto.
  - apply Z.mod_pos_bound; auto.
Qed.
Lemma parent_val t a b v L p : Canon t a b v L -> a <= p -> p <= b ->
  parentVal K t (p + 1) = Some ((iv (at_ 1 (Q 1 p)) + sum (map v (kid a b 0 (Q 1 p)))) mod M)%Z.
Proof.
  intros (AB & L1 & QL & MI & R) P1 P2. unfold parentVal.
  assert (DP : directParent K (p + 1) = at_ 1 (Q 1 p)).
  { unfold directParent, Rvt_Proofs2.at_. f_equal. unfold Rvt_Proofs.ix. rewrite Q_S, Q_0 by auto. rewrite (pow_S K), pow_0, N.mul_1_r.
    destruct (divmod K K2 p) as (d & m & E & MB & -> & _). subst p.
    destruct (N.leb_spec (d * K + m + 1) K) as [C|C]; [assert (d = 0) by nia; subst; lia|].
    assert (d <> 0) by (intros ->; lia). destruct (N.eq_dec (m + 1) K) as [E|NE].
    - replace (d * K + m + 1) with ((d + 1) * K) by lia. rewrite N.mod_mul by lia. cbn [N.eqb]. lia.
    - replace (d * K + m + 1) with ((m + 1) + d * K) by lia. rewrite N.mod_add, N.mod_small by lia. replace (m + 1 =? 0) with false by (symmetry; apply N.eqb_neq; lia). lia. }
  rewrite DP, (rep_get _ _ _ _ _ _ _ _ _ _ _ _ R). pose proof (Q_mono K K2 1 _ _ P1). pose proof (Q_mono K K2 1 _ _ P2). rewrite cn_in by lia. reflexivity.
Qed.
End S.
