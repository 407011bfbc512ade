From Coq Require Import List Arith NArith ZArith Bool Lia.
From Verif Require Import Lib_Bytes Rvt_Model Rvt_Proofs.
Import ListNotations.
Local Open Scope N_scope.

Section S.
Variable H : bytes -> bytes.
Variables (K : N) (M : Z).
Hypothesis K2 : 2 <= K.
Hypothesis M0 : (0 < M)%Z.
Notation iv := (iv H M).
Notation addVal := (addVal M).
Notation subVal := (subVal M).
Notation push := (push K).
Notation Q := (Q K).
Notation ix := (ix K).
Notation kid := (kid K).
Notation val := (val H K M).
Notation cn := (cn H K M).

(** * States described by positions *)
Definition nodesRep (t : tree) (f : nat -> N -> option node) : Prop :=
  (forall l q, nodes t (l, ix l q) = f l q) /\ (forall l i, (forall q, i <> ix l q) -> nodes t (l, i) = None).
Definition fset (f : nat -> N -> option node) (l : nat) (q : N) (n : node) : nat -> N -> option node :=
  fun l' q' => if Nat.eqb l' l && (q' =? q) then Some n else f l' q'.
Definition at_ (l : nat) (q : N) : id := (l, ix l q).
Definition Rep (t : tree) (f : nat -> N -> option node) (lf rf : nat -> option N) (L : nat) (r : N) (e : list id) (m1 m2 : N) : Prop :=
  nodesRep t f /\ (forall l, lft t l = option_map (at_ l) (lf l)) /\ (forall l, rgt t l = option_map (at_ l) (rf l)) /\
  root t = Some (at_ L r) /\ er t = e /\ mn t = m1 /\ mx t = m2.

Lemma at_inj l q m r : at_ l q = at_ m r -> l = m /\ q = r.
Proof. unfold at_. intros E. inversion E; subst. split; auto. eapply ix_inj; eauto. Qed.
Lemma at_eq l q r : idEq (at_ l q) (at_ l r) = (q =? r).
Proof. destruct (idEq_spec (at_ l q) (at_ l r)) as [E|E], (N.eqb_spec q r); try reflexivity; [apply at_inj in E; lia|congruence]. Qed.
Lemma at_neq l q m r : l <> m -> idEq (at_ l q) (at_ m r) = false.
Proof. intros NE. destruct (idEq_spec (at_ l q) (at_ m r)) as [E|E]; auto. apply at_inj in E. lia. Qed.
Lemma at_null l q : idEq (at_ l q) nullId = false.
Proof. destruct (idEq_spec (at_ l q) nullId) as [E|E]; auto. unfold at_, nullId in E. inversion E. unfold Rvt_Proofs.ix in *. lia. Qed.

Lemma nr_put t f l q n : nodesRep t f -> nodesRep (put t (at_ l q) n) (fset f l q n).
Proof.
  intros (A & B). split.
  - intros l' q'. unfold put, setNodes, fset; cbn [nodes]. change (l', ix l' q') with (at_ l' q'). destruct (Nat.eqb_spec l' l).
    + subst. rewrite at_eq. cbn [andb]. destruct (q' =? q); auto. apply A.
    + rewrite at_neq by auto. apply A.
  - intros l' i N0. unfold put, setNodes; cbn [nodes]. destruct (idEq_spec (l', i) (at_ l q)) as [E|E]; [|apply B; auto]. unfold at_ in E. inversion E; subst. elim (N0 q). reflexivity.
Qed.
Lemma nr_ext t f g : (forall l q, f l q = g l q) -> nodesRep t f -> nodesRep t g.
Proof. intros E (A & B). split; auto. intros. rewrite A. auto. Qed.
Lemma rep_ext t f g lf lg rf rg L r e m1 m2 : (forall l q, f l q = g l q) -> (forall l, lf l = lg l) -> (forall l, rf l = rg l) -> Rep t f lf rf L r e m1 m2 -> Rep t g lg rg L r e m1 m2.
Proof. intros E1 E2 E3 (A & B & C & D). split; [eapply nr_ext; eauto|]. split; [intros; rewrite <- E2; auto|]. split; [intros; rewrite <- E3; auto|exact D]. Qed.
Lemma rep_put t f lf rf L r e m1 m2 l q n : Rep t f lf rf L r e m1 m2 -> Rep (put t (at_ l q) n) (fset f l q n) lf rf L r e m1 m2.
Proof. intros (A & B & C & D). split; [apply nr_put; auto|]. split; auto. Qed.
Lemma rep_get t f lf rf L r e m1 m2 l q : Rep t f lf rf L r e m1 m2 -> nodes t (at_ l q) = f l q.
Proof. intros ((A & _) & _). apply A. Qed.
Lemma rep_on t f lf rf L r e m1 m2 l q n g n' : Rep t f lf rf L r e m1 m2 -> f l q = Some n -> g n = Some n' ->
  exists t', onNode t (at_ l q) g = Some t' /\ Rep t' (fset f l q n') lf rf L r e m1 m2.
Proof. intros R E G. exists (put t (at_ l q) n'). split; [|apply rep_put; auto]. unfold onNode. rewrite (rep_get _ _ _ _ _ _ _ _ _ l q R), E. cbn [bind]. rewrite G. reflexivity. Qed.
Lemma fset_same f l q n : fset f l q n l q = Some n.
Proof. unfold fset. rewrite Nat.eqb_refl, N.eqb_refl. reflexivity. Qed.
Lemma fset_other f l q n l' q' : (l' <> l \/ q' <> q) -> fset f l q n l' q' = f l' q'.
Proof. clear. intros E. unfold fset. destruct (Nat.eqb_spec l' l), (N.eqb_spec q' q); cbn [andb]; auto. lia. Qed.
Lemma rep_arrAdd t f lf rf L r e m1 m2 l q : Rep t f lf rf L r e m1 m2 -> (lf l = None <-> rf l = None) ->
  exists t', arrAdd t (at_ l q) = Some t' /\ Rep t' f (fun k => if Nat.eqb k l then match lf l with None => Some q | x => x end else lf k) (fun k => if Nat.eqb k l then Some q else rf k) L r e m1 m2.
Proof.
  intros (A & B & C & D & E & F) LR. unfold arrAdd. cbn [fst at_]. rewrite (B l), (C l).
  assert (X : negb (oidEq (option_map (at_ l) (lf l)) (option_map (at_ l) (rf l))) && negb (match option_map (at_ l) (lf l) with Some _ => match option_map (at_ l) (rf l) with Some _ => true | None => false end | None => false end) = false).
  { destruct (lf l), (rf l); cbn [option_map]; rewrite ?andb_false_r; try reflexivity; exfalso; destruct LR as [L1 L2]; [specialize (L2 eq_refl)|specialize (L1 eq_refl)]; discriminate. }
  rewrite X. cbn [lft setR]. rewrite (B l). eexists. split; [reflexivity|]. split; [destruct (lf l); exact A|]. split; [|split].
  - intros k. destruct (lf l) eqn:EL; cbn [option_map].
    + destruct (Nat.eqb_spec k l); [subst; rewrite <- EL; apply B|apply B].
    + unfold setL, upd; cbn [lft]. destruct (Nat.eqb_spec k l); [subst; reflexivity|apply B].
  - intros k. destruct (lf l); cbn [option_map]; unfold setL, setR, upd; cbn [rgt]; (destruct (Nat.eqb_spec k l); [subst; reflexivity|apply C]).
  - destruct (lf l); cbn [option_map]; auto.
Qed.

(** The node of the canonical tree. *)
Definition nd (a b : N) (L : nat) (v : N -> Z) (l : nat) (q : N) : node :=
  mkN (if Nat.eqb (S l) L then nullId else at_ (S (S l)) (q / K)) (map (at_ l) (kid a b l q)) (Some (N.min (q * K + K) (Q l b + 1) - q * K)) (iv (at_ (S l) q)) (val a b v (S l) q).
Lemma cn_nd a b L v l q : cn a b L v (S l) q = if (Nat.leb (S l) L && (Q (S l) a <=? q) && (q <=? Q (S l) b))%bool then Some (nd a b L v l q) else None.
Proof. reflexivity. Qed.
Lemma cn_in a b L v l q : (S l <= L)%nat -> Q (S l) a <= q -> q <= Q (S l) b -> cn a b L v (S l) q = Some (nd a b L v l q).
Proof. intros A B C. rewrite cn_nd. replace (Nat.leb (S l) L) with true by (symmetry; apply Nat.leb_le; auto). apply N.leb_le in B, C. rewrite B, C. reflexivity. Qed.
Lemma cn_out a b L v l q : (L < l)%nat \/ q < Q l a \/ Q l b < q -> cn a b L v l q = None.
Proof. clear.
  intros A. destruct l; [reflexivity|]. rewrite cn_nd. destruct (Nat.leb_spec (S l) L), (N.leb_spec (Q (S l) a) q), (N.leb_spec q (Q (S l) b)); cbn [andb]; auto; lia.
Qed.
Definition lfc (a : N) (L : nat) (l : nat) : option N := if (Nat.leb 1 l && Nat.leb l L)%bool then Some (Q l a) else None.
Lemma lfc_in a L l : (1 <= l <= L)%nat -> lfc a L l = Some (Q l a).
Proof. intros [A B]. unfold lfc. apply Nat.leb_le in A, B. rewrite A, B. reflexivity. Qed.
Lemma lfc_out a L l : (l < 1 \/ L < l)%nat -> lfc a L l = None.
Proof. clear. intros A. unfold lfc. destruct (Nat.leb_spec 1 l), (Nat.leb_spec l L); cbn [andb]; auto; lia. Qed.

Lemma rem_mod x y : (0 <= x)%Z -> (0 <= y)%Z -> Z.rem (x + y) M = Z.modulo (x + y) M.
Proof. clear - M0. intros. apply Z.rem_mod_nonneg; lia. Qed.

Lemma rev_snoc {A} (l : list A) x : rev (l ++ [x]) = x :: rev l. Proof. rewrite rev_app_distr. reflexivity. Qed.
Lemma idLt_at l q r : q < r -> idLt (at_ l q) (at_ l r) = true.
Proof. intros E. unfold idLt, at_; cbn [fst snd]. rewrite Nat.ltb_irrefl, Nat.eqb_refl. cbn [orb andb]. apply N.ltb_lt. apply ix_lt; auto. Qed.
Lemma push_new p i c l q : push (mkN p [] None i c) (at_ l q) = Some (mkN p [at_ l q] (Some (q mod K + 1)) i c).
Proof.
  unfold Rvt_Model.push. cbn [kids rev cnt]. cbn [fst snd at_]. rewrite cnt_ix by auto. replace (q mod K <? K) with true by (symmetry; apply N.ltb_lt; apply N.mod_lt; lia). reflexivity.
Qed.
Lemma push_next p ks l j q n i c : rev ks = at_ l j :: tl (rev ks) -> j < q -> n < K -> push (mkN p ks (Some n) i c) (at_ l q) = Some (mkN p (ks ++ [at_ l q]) (Some (n + 1)) i c).
Proof.
  intros R LT NK. unfold Rvt_Model.push. cbn [kids cnt par ini cur]. rewrite R. rewrite idLt_at by auto. apply N.ltb_lt in NK. rewrite NK. reflexivity.
Qed.

(** * Adding *)
Section Add.
Variables (a b : N).
Hypothesis AB : a <= b.
Variable v : N -> Z.
Variables (m1 m2 : N) (e0 : list id).
Notation n := (b + 1).
Notation old := (old K b).
Notation v' := (vset v n 0%Z).
Notation delta := (delta H K M b 0%Z).
Lemma delta_range l : (0 <= delta l < M)%Z.
Proof. induction l as [|l IH]; cbn [Rvt_Proofs.delta]; [lia|]. destruct (old (S l)); auto. apply Z.mod_pos_bound; auto. Qed.
Lemma Qan l : Q l a <= Q l n. Proof. apply Q_mono; auto. lia. Qed.
Lemma Qbn l : Q l b <= Q l n. Proof. apply Q_mono; auto. lia. Qed.
Lemma Qab l : Q l a <= Q l b. Proof. apply Q_mono; auto. Qed.

Lemma cn_same L l q : q <> Q l n -> cn a n L v' l q = cn a b L v l q.
Proof.
  intros NE. destruct (N.le_gt_cases q (Q l n)) as [LE|GT]; [|rewrite !cn_out; auto; right; right; pose proof (Qbn l); lia].
  destruct l as [|l]; [reflexivity|]. rewrite !cn_nd. pose proof (Q_succ K K2 (S l) b).
  replace (q <=? Q (S l) n) with true by (symmetry; apply N.leb_le; auto). replace (q <=? Q (S l) b) with true by (symmetry; apply N.leb_le; lia).
  destruct (Nat.leb (S l) L && (Q (S l) a <=? q)); cbn [andb]; auto. f_equal. unfold nd. rewrite kid_same by auto. rewrite val_same by auto. f_equal. f_equal.
  pose proof (Q_in K K2 l n) as (I & _). destruct (Q_succ K K2 l b) as [E|E]; [congruence|].
  assert (q * K + K <= Q (S l) n * K) by (assert (q + 1 <= Q (S l) n) by lia; replace (q * K + K) with ((q + 1) * K) by lia; apply N.mul_le_mono_r; auto). rewrite !N.min_l by lia. reflexivity.
Qed.
(** The changed node at level l+1, if it existed. *)
Lemma nd_old_old L l : old (S l) = true -> old l = true -> nd a n L v' l (Q (S l) n) = addVal (nd a b L v l (Q (S l) n)) (delta l).
Proof.
  intros O1 O. unfold nd, Rvt_Model.addVal, setCur. cbn [par kids cnt ini cur]. rewrite kid_here, O by auto. rewrite (val_here H K M K2 M0 a b AB v 0%Z (S l)), O1. cbn [Rvt_Proofs.delta]. rewrite O1.
  rewrite rem_mod by (try apply val_range; try apply delta_range; auto). f_equal. unfold Rvt_Proofs.old in O. apply N.eqb_eq in O. rewrite O. reflexivity.
Qed.
Lemma nd_old_new L l : old (S l) = true -> old l = false -> exists m, push (nd a b L v l (Q (S l) n)) (at_ l (Q l n)) = Some m /\ nd a n L v' l (Q (S l) n) = addVal m (delta l).
Proof.
  intros O1 O. pose proof (not_old K K2 b l O) as ON. pose proof (Q_in K K2 l n) as (I1 & I2). pose proof (Qab l) as AL.
  assert (E1 : Q (S l) n = Q (S l) b) by (apply N.eqb_eq; exact O1). pose proof (Q_in K K2 l b) as (I3 & I4). rewrite <- E1 in I3, I4.
  eexists. split.
  - unfold nd. apply push_next with (j := Q l b); [|lia|rewrite N.min_r by lia; lia].
    unfold Rvt_Proofs.kid. rewrite (N.min_r _ (Q l b + 1)) by lia. rewrite rng_snoc by lia. rewrite map_app. cbn [map]. rewrite rev_snoc. reflexivity.
  - unfold nd, Rvt_Model.addVal, setCur. cbn [par kids cnt ini cur]. rewrite kid_here, O by auto. rewrite map_app. cbn [map]. rewrite (val_here H K M K2 M0 a b AB v 0%Z (S l)), O1. cbn [Rvt_Proofs.delta]. rewrite O1.
    rewrite rem_mod by (try apply val_range; try apply delta_range; auto). f_equal. f_equal. rewrite !N.min_r by lia. lia.
Qed.
(** The new node at level l+1. *)
Lemma nd_new L l : old (S l) = false -> nd a n L v' l (Q (S l) n) =
  addVal (mkN (if Nat.eqb (S l) L then nullId else at_ (S (S l)) (Q (S l) n / K)) [at_ l (Q l n)] (Some (Q l n mod K + 1)) (iv (at_ (S l) (Q (S l) n))) (iv (at_ (S l) (Q (S l) n)))) (delta l)
  /\ delta (S l) = Z.modulo (delta l + iv (at_ (S l) (Q (S l) n))) M.
Proof.
  intros O1. assert (O : old l = false) by (destruct (old l) eqn:O; auto; apply old_S in O; auto; congruence).
  assert (NE : Q (S l) n <> Q (S l) b) by (apply N.eqb_neq; exact O1). destruct (Q_first K K2 l b NE) as (F1 & F2).
  split; [|cbn [Rvt_Proofs.delta]; rewrite O1; reflexivity].
  unfold nd, Rvt_Model.addVal, setCur. cbn [par kids cnt ini cur]. rewrite kid_here, O, kid_new by auto. cbn [app map].
  rewrite (val_here H K M K2 M0 a b AB v 0%Z (S l)), O1. cbn [Rvt_Proofs.delta]. rewrite O1. rewrite Z.mod_mod by lia.
  rewrite rem_mod by (try apply iv_range; try apply delta_range; auto). rewrite (Z.add_comm (delta l)).
  f_equal. f_equal. rewrite mod_div by auto. rewrite (div_eq K K2 (Q l n) (Q (S l) n)) by lia. lia.
Qed.

Definition mix (L l : nat) (k : nat) (q : N) : option node :=
  if Nat.ltb k l then cn a n L v' k q
  else if Nat.eqb k l then if (q =? Q l n) && negb (old l) then option_map (fun m => setPar m nullId) (cn a n L v' l q) else cn a n L v' l q
  else cn a b L v k q.
Definition rmix (L l : nat) (k : nat) : option N := if Nat.leb k l then lfc n L k else lfc b L k.
Lemma mix_lt L l k q : (k < l)%nat -> mix L l k q = cn a n L v' k q.
Proof. intros E. unfold mix. apply Nat.ltb_lt in E. rewrite E. reflexivity. Qed.
Lemma mix_gt L l k q : (l < k)%nat -> mix L l k q = cn a b L v k q.
Proof. intros E. unfold mix. destruct (Nat.ltb_spec k l), (Nat.eqb_spec k l); auto; lia. Qed.
Lemma mix_here L l q : q <> Q l n -> mix L l l q = cn a n L v' l q.
Proof. intros E. unfold mix. rewrite Nat.ltb_irrefl, Nat.eqb_refl. apply N.eqb_neq in E. rewrite E. reflexivity. Qed.
Lemma mix_at L l : mix L l l (Q l n) = if old l then cn a n L v' l (Q l n) else option_map (fun m => setPar m nullId) (cn a n L v' l (Q l n)).
Proof. unfold mix. rewrite Nat.ltb_irrefl, Nat.eqb_refl, N.eqb_refl. destruct (old l); reflexivity. Qed.
Lemma rmix_le L l k : (k <= l)%nat -> rmix L l k = lfc n L k. Proof. intros E. unfold rmix. apply Nat.leb_le in E. rewrite E. reflexivity. Qed.
Lemma rmix_gt L l k : (l < k)%nat -> rmix L l k = lfc b L k. Proof. intros E. unfold rmix. apply Nat.leb_gt in E. rewrite E. reflexivity. Qed.

Lemma setPar_addVal m p x : setPar (addVal m x) p = addVal (setPar m p) x. Proof. reflexivity. Qed.
Ltac dk k l q s := destruct (Nat.eq_dec k l) as [->|?NE]; [destruct (N.eq_dec q s) as [->|?NE]|].
Lemma fset_at f l q n0 n1 : fset (fset f l q n0) l q n1 l q = Some n1. Proof. apply fset_same. Qed.

Lemma climb_spec fuel : forall L l t, (L - l <= fuel)%nat -> (1 <= l <= L)%nat -> Q L a = Q L b ->
  Rep t (mix L l) (lfc a L) (rmix L l) L (Q L a) e0 m1 m2 ->
  exists t', climb H K M fuel t (at_ l (Q l n)) (delta l) = Some (t', at_ L (Q L n)) /\ Rep t' (cn a n L v') (lfc a L) (lfc n L) L (Q L a) e0 m1 m2.
Proof.
  induction fuel as [|fuel IH]; intros L l t FU LL RT R; pose proof R as (_ & _ & RG & RO & _).
  - assert (l = L) by lia. subst l. cbn [climb]. rewrite RO. cbn [bind fst at_]. rewrite Nat.eqb_refl. exists t. split; [reflexivity|]. eapply rep_ext; [| | |exact R]; auto.
    + intros k q. destruct (lt_eq_lt_dec k L) as [[E| ->]|E]; [apply mix_lt; auto| |rewrite mix_gt, !cn_out; auto].
      destruct (N.eq_dec q (Q L n)) as [->|NE]; [|apply mix_here; auto]. rewrite mix_at. destruct (old L) eqn:O; auto. destruct L as [|L]; [lia|]. rewrite cn_in by (auto using Qan; lia). cbn [option_map]. unfold nd, setPar. rewrite Nat.eqb_refl. reflexivity.
    + intros k. destruct (Nat.leb_spec k L); [apply rmix_le; auto|rewrite rmix_gt, !lfc_out; auto].
  - cbn [climb]. rewrite RO. cbn [bind fst at_]. destruct (Nat.eqb_spec l L) as [->|NL].
    { clear IH. exists t. split; [reflexivity|]. eapply rep_ext; [| | |exact R]; auto.
      + intros k q. destruct (lt_eq_lt_dec k L) as [[E| ->]|E]; [apply mix_lt; auto| |rewrite mix_gt, !cn_out; auto].
        destruct (N.eq_dec q (Q L n)) as [->|NE]; [|apply mix_here; auto]. rewrite mix_at. destruct (old L) eqn:O; auto. destruct L as [|L]; [lia|]. rewrite cn_in by (auto using Qan; lia). cbn [option_map]. unfold nd, setPar. rewrite Nat.eqb_refl. reflexivity.
      + intros k. destruct (Nat.leb_spec k L); [apply rmix_le; auto|rewrite rmix_gt, !lfc_out; auto]. }
    destruct l as [|l]; [lia|].
    assert (GK : cn a n L v' (S l) (Q (S l) n) = Some (nd a n L v' l (Q (S l) n))) by (apply cn_in; auto using Qan; lia).
    change (S l, ix (S l) (Q (S l) n)) with (at_ (S l) (Q (S l) n)). rewrite (rep_get _ _ _ _ _ _ _ _ _ _ _ R), mix_at, GK. 
    assert (EP : Q (S l) n / K = Q (S (S l)) n) by (symmetry; apply Q_S; auto).
    assert (PB : cn a b L v (S (S l)) (Q (S (S l)) b) = Some (nd a b L v (S l) (Q (S (S l)) b))) by (apply cn_in; auto using Qab; lia).
    destruct (old (S l)) eqn:O.
    + (* the node existed: only its ancestors' values change *)
      pose proof (old_S K K2 b _ O) as O2. assert (E2 : Q (S (S l)) n = Q (S (S l)) b) by (apply N.eqb_eq; exact O2).
      cbn [bind]. unfold nd at 1. cbn [par]. destruct (Nat.eqb_spec (S l) L) as [X0|_]; [lia|]. rewrite at_null.
      unfold parentOf. rewrite RO. destruct (oidEq_spec (Some (at_ L (Q L a))) (Some (at_ (S l) (Q (S l) n)))) as [X|_]; [inversion X; lia|].
      rewrite (rep_get _ _ _ _ _ _ _ _ _ _ _ R), mix_at, O, GK. cbn [bind]. unfold nd at 1 2. cbn [par]. destruct (Nat.eqb_spec (S l) L) as [X0|_]; [lia|]. rewrite EP. rewrite (rep_get _ _ _ _ _ _ _ _ _ _ _ R), mix_gt by lia. rewrite E2, PB. cbn [bind].
      assert (FP : mix L (S l) (S (S l)) (Q (S (S l)) b) = Some (nd a b L v (S l) (Q (S (S l)) b))) by (rewrite mix_gt by lia; exact PB).
      destruct (rep_on _ _ _ _ _ _ _ _ _ _ _ _ (fun m => Some (addVal m (delta (S l)))) _ R FP eq_refl) as (t1 & ET & R1).
      unfold addAt. rewrite ET. cbn [bind]. replace (delta (S l)) with (delta (S (S l))) by (cbn [Rvt_Proofs.delta]; rewrite O2; reflexivity). rewrite <- E2. apply IH; auto; try lia.
      eapply rep_ext; [| | |exact R1]; auto.
      * intros k q. dk k (S (S l)) q (Q (S (S l)) b).
        -- rewrite fset_same. rewrite <- E2, mix_at, O2, cn_in by (auto using Qan; lia). f_equal. symmetry. apply nd_old_old; auto.
        -- rewrite fset_other by auto. rewrite mix_gt by lia. rewrite mix_here by congruence. symmetry. apply cn_same. congruence.
        -- rewrite fset_other by auto. destruct (lt_eq_lt_dec k (S l)) as [[E| ->]|E].
           ++ rewrite !mix_lt by lia. reflexivity.
           ++ rewrite (mix_lt L (S (S l))) by lia. destruct (N.eq_dec q (Q (S l) n)) as [->|?NE]; [rewrite mix_at, O; reflexivity|apply mix_here; auto].
           ++ rewrite !mix_gt by lia. reflexivity.
      * intros k. destruct (Nat.leb_spec k (S l)); [rewrite !rmix_le by lia; reflexivity|]. rewrite rmix_gt by auto. destruct (Nat.eq_dec k (S (S l))) as [->|?NE]; [|rewrite rmix_gt by lia; reflexivity]. rewrite rmix_le, !lfc_in by lia. congruence.
    + (* a new node *)
      cbn [option_map bind]. unfold setPar at 1. cbn [par]. rewrite idEq_refl.
      unfold openIns. rewrite (RG (S (S l))), rmix_gt, lfc_in by lia. cbn [option_map]. rewrite (rep_get _ _ _ _ _ _ _ _ _ _ _ R), mix_gt, PB by lia. unfold nd at 1. cbn [cnt].
      pose proof (not_old K K2 b _ O) as ON. pose proof (Q_in K K2 (S l) b) as (I1 & I2). rewrite N.min_r by lia.
      assert (FK : mix L (S l) (S l) (Q (S l) n) = Some (setPar (nd a n L v' l (Q (S l) n)) nullId)) by (rewrite mix_at, O, GK; reflexivity).
      destruct (N.ltb_spec (Q (S l) b + 1 - Q (S (S l)) b * K) K) as [OP|CL].
      * (* the parent has room *)
        assert (E2 : Q (S (S l)) n = Q (S (S l)) b). { rewrite <- EP. apply div_eq; auto; lia. }
        assert (O2 : old (S (S l)) = true) by (apply N.eqb_eq; exact E2).
        destruct (rep_on _ _ _ _ _ _ _ _ _ _ _ _ (fun m => Some (setPar m (at_ (S (S l)) (Q (S (S l)) b)))) _ R FK eq_refl) as (t1 & ET1 & R1). rewrite ET1. cbn [bind].
        destruct (nd_old_new L (S l) O2 O) as (m & PU & NM). rewrite E2 in PU, NM.
        assert (FP : fset (mix L (S l)) (S l) (Q (S l) n) (setPar (setPar (nd a n L v' l (Q (S l) n)) nullId) (at_ (S (S l)) (Q (S (S l)) b))) (S (S l)) (Q (S (S l)) b) = Some (nd a b L v (S l) (Q (S (S l)) b))) by (rewrite fset_other by lia; rewrite mix_gt by lia; exact PB).
        destruct (rep_on _ _ _ _ _ _ _ _ _ _ _ _ (fun m0 => push m0 (at_ (S l) (Q (S l) n))) _ R1 FP PU) as (t2 & ET2 & R2). rewrite ET2. cbn [bind].
        destruct (rep_on _ _ _ _ _ _ _ _ _ _ _ _ (fun m0 => Some (addVal m0 (delta (S l)))) _ R2 (fset_same _ _ _ _) eq_refl) as (t3 & ET3 & R3). unfold addAt. rewrite ET3. cbn [bind].
        replace (delta (S l)) with (delta (S (S l))) by (cbn [Rvt_Proofs.delta]; rewrite O2; reflexivity). rewrite <- E2. apply IH; auto; try lia.
        eapply rep_ext; [| | |exact R3]; auto.
        -- intros k q. dk k (S (S l)) q (Q (S (S l)) b).
           ++ rewrite fset_same. rewrite <- E2, mix_at, O2, cn_in by (auto using Qan; lia). f_equal. rewrite E2. symmetry. exact NM.
           ++ rewrite !fset_other by lia. rewrite mix_gt by lia. rewrite mix_here by congruence. symmetry. apply cn_same. congruence.
           ++ rewrite fset_other by auto. rewrite fset_other by auto. dk k (S l) q (Q (S l) n).
              ** rewrite fset_same. rewrite mix_lt, GK by lia. f_equal. unfold setPar, nd. cbn [kids cnt ini cur]. destruct (Nat.eqb_spec (S l) L) as [X0|_]; [lia|]. rewrite EP, E2. reflexivity.
              ** rewrite fset_other by auto. rewrite mix_here, mix_lt by auto. reflexivity.
              ** rewrite fset_other by auto. destruct (Nat.lt_ge_cases k (S l)); [rewrite !mix_lt by lia; reflexivity|rewrite !mix_gt by lia; reflexivity].
        -- intros k. destruct (Nat.leb_spec k (S l)); [rewrite !rmix_le by lia; reflexivity|]. rewrite rmix_gt by auto. destruct (Nat.eq_dec k (S (S l))) as [->|?NE]; [|rewrite rmix_gt by lia; reflexivity]. rewrite rmix_le, !lfc_in by lia. congruence.
      * (* a new parent *)
        assert (E2 : Q (S (S l)) n <> Q (S (S l)) b). { rewrite <- EP. intros X. pose proof (div_in K K2 (Q (S l) n)) as (_ & Y). rewrite X in Y. lia. }
        assert (O2 : old (S (S l)) = false) by (apply N.eqb_neq; exact E2).
        destruct (nd_new L (S l) O2) as (NN & ND). 
        unfold newNode. cbn [fst snd at_]. rewrite parentIdx_ix, EP by auto. change (S (S l), ix (S (S l)) (Q (S (S l)) n)) with (at_ (S (S l)) (Q (S (S l)) n)). change (S l, ix (S l) (Q (S l) n)) with (at_ (S l) (Q (S l) n)).
        rewrite push_new. cbn [bind].
        set (pn := addVal _ (delta (S l))). unfold insertNew. rewrite (rep_get _ _ _ _ _ _ _ _ _ _ _ R), mix_gt, cn_out by (auto; right; right; pose proof (Qbn (S (S l))); lia). cbn [bind].
        pose proof (rep_put _ _ _ _ _ _ _ _ _ (S (S l)) (Q (S (S l)) n) pn R) as R1.
        destruct (rep_arrAdd _ _ _ _ _ _ _ _ _ (S (S l)) (Q (S (S l)) n) R1) as (t2 & ET2 & R2). { rewrite rmix_gt, !lfc_in by lia. split; discriminate. }
        rewrite ET2. cbn [bind].
        assert (FK2 : fset (mix L (S l)) (S (S l)) (Q (S (S l)) n) pn (S l) (Q (S l) n) = Some (setPar (nd a n L v' l (Q (S l) n)) nullId)) by (rewrite fset_other by lia; exact FK).
        destruct (rep_on _ _ _ _ _ _ _ _ _ _ _ _ (fun m => Some (setPar m (at_ (S (S l)) (Q (S (S l)) n)))) _ R2 FK2 eq_refl) as (t3 & ET3 & R3). rewrite ET3. cbn [bind].
        replace (Z.rem (delta (S l) + ini pn) M) with (delta (S (S l))). 2: { unfold pn, Rvt_Model.addVal, setCur. cbn [ini]. rewrite rem_mod by (try apply delta_range; apply iv_range; auto). exact ND. }
        apply IH; auto; try lia. eapply rep_ext; [| | |exact R3].
        -- intros k q. dk k (S l) q (Q (S l) n).
           ++ rewrite fset_same, mix_lt, GK by lia. f_equal. unfold setPar, nd. cbn [kids cnt ini cur]. destruct (Nat.eqb_spec (S l) L) as [X0|_]; [lia|]. rewrite EP. reflexivity.
           ++ rewrite !fset_other by lia. rewrite mix_here, mix_lt by auto. reflexivity.
           ++ rewrite fset_other by auto. dk k (S (S l)) q (Q (S (S l)) n).
              ** rewrite fset_same, mix_at, O2, cn_in by (auto using Qan; lia). cbn [option_map]. f_equal. rewrite NN, setPar_addVal. reflexivity.
              ** rewrite fset_other by auto. rewrite mix_gt, mix_here by auto. symmetry. apply cn_same. auto.
              ** rewrite fset_other by auto. destruct (Nat.lt_ge_cases k (S l)); [rewrite !mix_lt by lia; reflexivity|rewrite !mix_gt by lia; reflexivity].
        -- intros k; cbv beta. destruct (Nat.eqb_spec k (S (S l))) as [->|?NE]; rewrite ?Nat.eqb_refl; [rewrite lfc_in by lia; reflexivity|reflexivity].
        -- intros k; cbv beta. destruct (Nat.eqb_spec k (S (S l))) as [->|?NE]; rewrite ?Nat.eqb_refl; [rewrite rmix_le, lfc_in by lia; reflexivity|]. destruct (Nat.leb_spec k (S l)); [rewrite !rmix_le by lia; reflexivity|rewrite !rmix_gt by lia; reflexivity].
Qed.
End Add.
End S.
