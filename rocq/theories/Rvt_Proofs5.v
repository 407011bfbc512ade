From Coq Require Import List Arith NArith ZArith Bool Lia.
From Verif Require Import Lib_Bytes Rvt_Model Rvt_Proofs Rvt_Proofs2 Rvt_Proofs3 Rvt_Proofs4.
Import ListNotations.
Local Open Scope N_scope.

Section S.
Variable H : bytes -> bytes.
Variables (K : N) (M : Z).
Hypothesis K2 : 2 <= K.
Hypothesis M0 : (0 < M)%Z.
Notation iv := (iv H M).
Notation addVal := (addVal M).
Notation push := (push K).
Notation Q := (Q K).
Notation ix := (ix K).
Notation kid := (kid K).
Notation val := (val H K M).
Notation cn := (cn H K M).
Notation nd := (nd H K M).
Notation at_ := (at_ K).
Notation Rep := (Rep K).
Notation lfc := (lfc K).

(** The tree holds exactly positions a..b with the digests v, and has no level too many. *)
Definition Canon (t : tree) (a b : N) (v : N -> Z) (L : nat) : Prop :=
  a <= b /\ (1 <= L)%nat /\ Q L a = Q L b /\ (L = 1%nat \/ Q (pred L) a <> Q (pred L) b) /\ Rep t (cn a b L v) (lfc a L) (lfc b L) L (Q L a) [] (a + 1) (b + 1).

Lemma vset_vset v n x q : q <> n -> vset v n x q = vset v n 0 q.
Proof. intros E. unfold vset. apply N.eqb_neq in E. rewrite E. reflexivity. Qed.
Lemma vset_at v n x : vset v n x n = x.
Proof. unfold vset. rewrite N.eqb_refl. reflexivity. Qed.

(** Adding the digest itself, once the shape is right. *)
Lemma chain_add t a n v x L e m1 m2 : a <= n -> (1 <= L)%nat -> Q L a = Q L n -> (0 <= x)%Z ->
  Rep t (cn a n L (vset v n 0)) (lfc a L) (lfc n L) L (Q L a) e m1 m2 ->
  exists t', addChain M t (at_ 1 (Q 1 n)) x = Some t' /\ Rep t' (cn a n L (vset v n x)) (lfc a L) (lfc n L) L (Q L a) e m1 m2.
Proof.
  intros AN L1 QL X0 R. rewrite QL in R |- *.
  destruct (chain_spec K M K2 (fun l => Q l n) x _ _ _ _ _ _ _ _ 1%nat L1 R) as (t' & ET & R').
  { intros l B. destruct l as [|l]; [lia|]. rewrite cn_in; [|lia|apply Q_mono; auto|lia]. eexists. split; [reflexivity|]. unfold Rvt_Proofs2.nd. cbn [par]. rewrite <- Q_S by auto. reflexivity. }
  exists t'. split; [exact ET|]. eapply rep_ext; [| | |exact R']; auto.
  intros l q. symmetry. apply cn_up; auto; [lia|intros; apply vset_vset; auto|rewrite !vset_at; lia].
Qed.

Lemma hval_range k d : (0 <= hval H M k d < M)%Z.
Proof using M0. clear - M0. unfold hval. rewrite Z.rem_mod_nonneg by lia. apply Z.mod_pos_bound; auto. Qed.
Lemma pos_ix p : ix 0 p = p + 1. Proof. clear. unfold Rvt_Proofs.ix. rewrite pow_0. lia. Qed.
Lemma addVal_0 n : (0 <= cur n < M)%Z -> addVal n 0 = n.
Proof. intros E. unfold Rvt_Model.addVal, setCur. rewrite Z.add_0_r, Z.rem_small by lia. destruct n; reflexivity. Qed.

Lemma push_cur n k m : push n k = Some m -> cur m = cur n.
Proof. unfold Rvt_Model.push. intros E. destruct (match rev (kids n) with [] => true | x :: _ => idLt x k end); [|discriminate]. destruct (_ <? K); [|discriminate]. injection E as <-. reflexivity. Qed.

Section Add.
Variables (a b : N).
Hypothesis AB : a <= b.
Variable v : N -> Z.
Notation n := (b + 1).
Notation old := (old K b).
Notation v' := (vset v n 0%Z).
Notation delta := (delta H K M b 0%Z).

Lemma old_le j l : (j <= l)%nat -> old j = true -> old l = true.
Proof. intros LE O. induction LE; auto. apply old_S; auto. Qed.
Lemma delta_0 : old 1 = true -> forall l, delta l = 0%Z.
Proof. intros O l. induction l as [|l IH]; [reflexivity|]. cbn [Rvt_Proofs.delta]. rewrite (old_le 1 (S l)) by (auto; lia). exact IH. Qed.

Lemma add_old t L x : (1 <= L)%nat -> Q L a = Q L b -> old 1 = true -> (0 <= x)%Z -> forall e m1 m2,
  Rep t (cn a b L v) (lfc a L) (lfc b L) L (Q L a) e m1 m2 ->
  exists t', addRVB H K M t (n + 1) x = Some t' /\ Q L a = Q L n /\ Rep t' (cn a n L (vset v n x)) (lfc a L) (lfc n L) L (Q L a) e m1 m2.
Proof.
  intros L1 QL O X0 e m1 m2 R. unfold addRVB, openIns. pose proof R as (_ & _ & RG & _). rewrite (RG 1%nat), lfc_in by lia. cbn [option_map]. rewrite (rep_get _ _ _ _ _ _ _ _ _ _ _ _ R), cn_in by (try lia; apply Q_mono; auto).
  assert (OE : forall l, (1 <= l)%nat -> Q l n = Q l b). { intros l LE. apply N.eqb_eq. apply (old_le 1); auto. }
  unfold Rvt_Proofs2.nd at 1. cbn [cnt]. pose proof (Q_in K K2 0 b) as (I1 & I2). pose proof (Q_in K K2 0 n) as (I3 & I4). rewrite (OE 1%nat) in I3, I4 by lia. rewrite !Q_0 in I1, I2, I3, I4 |- *. rewrite N.min_r by lia.
  destruct (N.ltb_spec (b + 1 - Q 1 b * K) K) as [_|X]; [|lia].
  assert (O0 : old 0 = false). { unfold Rvt_Proofs.old. rewrite !Q_0. apply N.eqb_neq. lia. }
  destruct (nd_old_new H K M K2 M0 a b AB v L 0 O O0) as (m & PU & NM). rewrite !Q_0 in *. rewrite (OE 1%nat) in PU, NM by lia.
  replace (0%nat, n + 1) with (at_ 0 n) by (unfold Rvt_Proofs2.at_; rewrite pos_ix; reflexivity).
  assert (FP : cn a b L v 1 (Q 1 b) = Some (nd a b L v 0 (Q 1 b))) by (apply cn_in; try lia; apply Q_mono; auto).
  destruct (rep_on K K2 _ _ _ _ _ _ _ _ _ _ _ _ (fun m => push m (at_ 0 n)) _ R FP PU) as (t1 & ET1 & R1). rewrite ET1. cbn [bind].
  assert (R2 : Rep t1 (cn a n L v') (lfc a L) (lfc n L) L (Q L a) e m1 m2).
  { eapply rep_ext; [| | |exact R1]; auto.
    - intros l q. destruct (Nat.eq_dec l 1) as [->|NL]; [destruct (N.eq_dec q (Q 1 b)) as [->|NQ]|].
      + rewrite fset_same. rewrite cn_in by (try (rewrite OE); try lia; apply Q_mono; auto). f_equal. rewrite NM. cbn [Rvt_Proofs.delta]. symmetry. apply addVal_0. rewrite (push_cur _ _ _ PU). cbn [cur Rvt_Proofs2.nd]. apply val_range; auto.
      + rewrite fset_other by auto. symmetry. apply cn_same; auto. rewrite OE by lia. auto.
      + rewrite fset_other by auto. destruct (N.eq_dec q (Q l n)) as [->|NQ]; [|symmetry; apply cn_same; auto]. destruct l as [|[|l]]; [reflexivity|lia|]. rewrite !cn_nd. rewrite (nd_old_old H K M K2 M0 a b AB v L (S l)) by (apply (old_le 1); auto; lia). rewrite delta_0 by auto. rewrite addVal_0 by (cbn [cur Rvt_Proofs2.nd]; apply val_range; auto). rewrite OE by lia. reflexivity.
    - intros l. unfold Rvt_Proofs2.lfc. destruct (Nat.leb_spec 1 l); cbn [andb]; auto. rewrite OE by lia. reflexivity. }
  destruct (chain_add t1 a n v x L e m1 m2) as (t2 & ET2 & R3); auto; try lia. { rewrite OE by lia. exact QL. }
  rewrite OE in ET2 by lia. exists t2. split; [exact ET2|]. split; [rewrite OE by lia; exact QL|exact R3].
Qed.

Lemma add_new t L x : (1 <= L)%nat -> Q L a = Q L b -> old 1 = false -> (0 <= x)%Z -> forall e m1 m2,
  Rep t (cn a b L v) (lfc a L) (lfc b L) L (Q L a) e m1 m2 ->
  exists t' L', addRVB H K M t (n + 1) x = Some t' /\ Q L' a = Q L' n /\ (L' = L \/ (L < L')%nat /\ Q (pred L') a <> Q (pred L') n) /\ Rep t' (cn a n L' (vset v n x)) (lfc a L') (lfc n L') L' (Q L' a) e m1 m2.
Proof.
  intros L1 QL O X0 e m1 m2 R. unfold addRVB, openIns. pose proof R as (_ & _ & RG & RO & _). rewrite (RG 1%nat), lfc_in by lia. cbn [option_map]. rewrite (rep_get _ _ _ _ _ _ _ _ _ _ _ _ R), cn_in by (try lia; apply Q_mono; auto).
  assert (NE : Q 1 n <> Q 1 b) by (apply N.eqb_neq; exact O). destruct (Q_first K K2 0 b NE) as (F1 & F2). rewrite !Q_0 in *.
  unfold Rvt_Proofs2.nd at 1. cbn [cnt]. pose proof (Q_in K K2 0 b) as (I1 & I2). pose proof (not_old K K2 b 1 O) as ON. rewrite !Q_0 in *. rewrite ON in F2. assert (EK : (Q 1 b + 1) * K = Q 1 b * K + K) by ring. rewrite N.min_r by lia.
  destruct (N.ltb_spec (b + 1 - Q 1 b * K) K) as [X|_]; [lia|].
  assert (AN : a <= n) by lia.
  destruct (nd_new H K M K2 M0 a b AB v L 0 O) as (NN & ND). change (delta 0) with 0%Z in NN, ND. rewrite !Q_0 in NN.
  unfold newNode. replace (0%nat, n + 1) with (at_ 0 n) by (unfold Rvt_Proofs2.at_; rewrite pos_ix; reflexivity). rewrite <- pos_ix. rewrite parentIdx_ix by auto. replace (n / K) with (Q 1 n) by (rewrite Q_S, Q_0 by auto; reflexivity). change (1%nat, ix 1 (Q 1 n)) with (at_ 1 (Q 1 n)).
  rewrite push_new by auto. cbn [bind]. set (pn := mkN _ _ _ _ _).
  destruct (rep_arrAdd K _ _ _ _ _ _ _ _ _ 1%nat (Q 1 n) R) as (t1 & ET1 & R1). { rewrite !lfc_in by lia. split; discriminate. }
  rewrite ET1. cbn [bind]. unfold insertNew. rewrite (rep_get _ _ _ _ _ _ _ _ _ _ _ _ R1), cn_out by lia. cbn [bind].
  pose proof (rep_put K K2 _ _ _ _ _ _ _ _ _ 1%nat (Q 1 n) pn R1) as R2. pose proof R2 as (_ & _ & _ & RO2 & _). rewrite RO2. cbn [bind].
  unfold addInternal. rewrite (rep_get _ _ _ _ _ _ _ _ _ _ _ _ R2), fset_same, RO2. cbn [bind]. unfold pn at 1. cbn [par]. rewrite idEq_refl. cbn [Rvt_Proofs2.at_ fst snd]. change (L, ix L (Q L a)) with (at_ L (Q L a)). change (1%nat, ix 1 (Q 1 n)) with (at_ 1 (Q 1 n)).
  replace (ini pn) with (delta 1). 2: { rewrite ND. unfold pn. cbn [ini]. rewrite Z.add_0_l. apply Z.mod_small. apply iv_range; auto. }
  destruct (climb_spec H K M K2 M0 a b AB v m1 m2 e L L 1%nat (put t1 (at_ 1 (Q 1 n)) pn)) as (t3 & ET3 & R3); auto; try lia.
  { eapply rep_ext; [| | |exact R2].
    - intros l q. destruct (lt_eq_lt_dec l 1) as [[E| ->]|E].
      + assert (l = 0%nat) by lia. subst l. rewrite fset_other by lia. rewrite mix_lt by lia. reflexivity.
      + destruct (N.eq_dec q (Q 1 n)) as [->|NQ].
        * rewrite fset_same, mix_at, O, cn_in by (try lia; apply Q_mono; auto). cbn [option_map]. f_equal. rewrite NN. rewrite addVal_0 by (cbn [cur]; apply iv_range; auto). reflexivity.
        * rewrite fset_other by auto. rewrite mix_here by auto. symmetry. apply cn_same; auto.
      + rewrite fset_other by lia. rewrite mix_gt by auto. reflexivity.
    - intros l; cbv beta. destruct (Nat.eqb_spec l 1) as [->|]; [rewrite lfc_in by lia; reflexivity|reflexivity].
    - intros l; cbv beta. destruct (Nat.eqb_spec l 1) as [->|NL]; [rewrite rmix_le, lfc_in by lia; reflexivity|]. unfold rmix. destruct (Nat.leb_spec l 1); [|reflexivity]. assert (l = 0%nat) by lia. subst l. reflexivity. }
  rewrite ET3. cbn [bind]. rewrite id_at, Nat.eqb_refl by auto. cbn [andb].
  destruct (N.eqb_spec (Q L n) (Q L a)) as [EL|EL].
  - destruct (chain_add t3 a n v x L e m1 m2) as (t4 & ET4 & R4); auto; try lia. cbn [bind]. exists t4, L. split; [exact ET4|]. split; [auto|]. split; [auto|exact R4].
  - assert (EL2 : Q L n = Q L a + 1) by (rewrite QL in *; destruct (Q_succ K K2 L b); congruence).
    cbn [snd Rvt_Proofs2.at_]. change (L, ix L (Q L n)) with (at_ L (Q L n)).
    destruct (grow_spec H K M K2 M0 a n AN v' m1 m2 e (S (N.size_nat (ix L (Q L n)))) L t3 L1 EL2) as (t4 & L' & ET4 & A1 & A2 & A3 & A4); auto.
    { rewrite Nat2N.inj_succ, N.pow_succ_r'. pose proof (size_bound (ix L (Q L n))). assert (Q L n <= ix L (Q L n)). { unfold Rvt_Proofs.ix. pose proof (pow_pos K K2 L). assert (Q L n * 1 <= Q L n * pow K L) by (apply N.mul_le_mono_l; lia). lia. } lia. }
    rewrite ET4. cbn [bind]. destruct (chain_add t4 a n v x L' e m1 m2) as (t5 & ET5 & R5); auto; try lia. exists t5, L'. split; [exact ET5|]. split; [auto|]. split; [auto|exact R5].
Qed.
End Add.

Lemma rep_range t f lf rf L r e m1 m2 x y : Rep t f lf rf L r e m1 m2 -> Rep (setRange t x y) f lf rf L r e x y.
Proof. intros (A & B & C & D & E & _). repeat split; auto; try apply A. Qed.

Lemma add_spec t a b v L data : Canon t a b v L ->
  exists t' L', addRight H K M t (b + 2) data = Some t' /\ Canon t' a (b + 1) (vset v (b + 1) (hval H M (at_ 0 (b + 1)) data)) L'.
Proof.
  intros (AB & L1 & QL & MI & R). unfold addRight. pose proof R as (_ & _ & _ & _ & _ & RM1 & RM2). rewrite RM1, RM2.
  replace (b + 1 + 1 =? b + 2) with true by (symmetry; apply N.eqb_eq; lia). rewrite andb_false_r.
  replace (0%nat, b + 2) with (at_ 0 (b + 1)) by (unfold Rvt_Proofs2.at_; rewrite pos_ix; f_equal; lia).
  pose proof (hval_range (at_ 0 (b + 1)) data) as HR. set (x := hval H M (at_ 0 (b + 1)) data) in *.
  replace (b + 2) with (b + 1 + 1) by lia. replace (a + 1 =? 0) with false by (symmetry; apply N.eqb_neq; lia).
  destruct (old K b 1) eqn:O.
  - destruct (add_old a b AB v t L x L1 QL O ltac:(lia) _ _ _ R) as (t1 & ET & Q1 & R1). rewrite ET. cbn [bind]. eexists _, L. split; [reflexivity|]. split; [lia|]. split; [auto|]. split; [auto|]. split.
    + destruct MI as [MI|MI]; auto. right. intros X. apply MI. pose proof (Q_mono K K2 (pred L) _ _ AB). pose proof (Q_mono K K2 (pred L) b (b + 1) ltac:(lia)). lia.
    + eapply rep_range; eauto.
  - destruct (add_new a b AB v t L x L1 QL O ltac:(lia) _ _ _ R) as (t1 & L' & ET & Q1 & MI2 & R1). rewrite ET. cbn [bind]. eexists _, L'. split; [reflexivity|]. split; [lia|]. split; [lia|]. split; [auto|]. split.
    + destruct MI2 as [->|(_ & MI2)]; auto. destruct MI as [MI|MI]; auto. right. intros X. apply MI. pose proof (Q_mono K K2 (pred L) _ _ AB). pose proof (Q_mono K K2 (pred L) b (b + 1) ltac:(lia)). lia.
    + eapply rep_range; eauto.
Qed.

(** The first block. *)
Lemma add_first p data : exists t', addRight H K M empty (p + 1) data = Some t' /\ Canon t' p p (vset (fun _ => 0%Z) p (hval H M (at_ 0 p) data)) 1.
Proof.
  unfold addRight. cbn [mx mn empty andb N.ltb N.compare].
  replace (0%nat, p + 1) with (at_ 0 p) by (unfold Rvt_Proofs2.at_; rewrite pos_ix; f_equal; lia).
  pose proof (hval_range (at_ 0 p) data) as HR. set (x := hval H M (at_ 0 p) data) in *.
  unfold addRVB, openIns. cbn [rgt empty]. unfold newNode. replace (0%nat, p + 1) with (at_ 0 p) by (unfold Rvt_Proofs2.at_; rewrite pos_ix; reflexivity). rewrite <- pos_ix. rewrite parentIdx_ix by auto. replace (p / K) with (Q 1 p) by (rewrite Q_S, Q_0 by auto; reflexivity). change (1%nat, ix 1 (Q 1 p)) with (at_ 1 (Q 1 p)).
  rewrite push_new by auto. cbn [bind]. set (pn := mkN _ _ _ _ _). unfold arrAdd at 1. cbn [lft rgt empty fst Rvt_Proofs2.at_ oidEq negb andb setR]. change (1%nat, ix 1 (Q 1 p)) with (at_ 1 (Q 1 p)). cbn [bind]. unfold insertNew. cbn [nodes setL setR empty bind].
  set (t1 := put _ (at_ 1 (Q 1 p)) pn). cbn [root t1 put setNodes setL setR empty].
  unfold setNewRoot. change (root t1) with (@None id). cbn [bind]. unfold onNode.
  change (nodes (setRoot t1 (Some (at_ 1 (Q 1 p)))) (at_ 1 (Q 1 p))) with (if idEq (at_ 1 (Q 1 p)) (at_ 1 (Q 1 p)) then Some pn else None). rewrite idEq_refl. cbn [bind].
  set (t2 := put _ _ _).
  assert (KD : kid p p 0 (Q 1 p) = [p]). { unfold Rvt_Proofs.kid. pose proof (Q_in K K2 0 p) as (I1 & I2). rewrite !Q_0 in *. rewrite N.max_r, N.min_r by lia. rewrite rng_cons, rng_nil by lia. reflexivity. }
  assert (R2 : Rep t2 (cn p p 1 (vset (fun _ => 0%Z) p 0)) (lfc p 1) (lfc p 1) 1 (Q 1 p) [] 0 0).
  { split; [|split; [|split; [|repeat split; reflexivity]]].
    - eapply nr_ext with (f := fset (fset (fun _ _ => None) 1 (Q 1 p) pn) 1 (Q 1 p) (setPar pn nullId)).
      + intros l q. destruct (Nat.eq_dec l 1) as [->|NL]; [destruct (N.eq_dec q (Q 1 p)) as [->|NQ]|].
        * rewrite fset_same, cn_in by lia. f_equal. unfold pn, setPar, Rvt_Proofs2.nd. cbn [par kids cnt ini cur]. rewrite KD. cbn [Nat.eqb map]. f_equal.
          -- f_equal. pose proof (Q_in K K2 0 p) as (I1 & I2). rewrite mod_div, !Q_0 in * by auto. rewrite N.min_r by lia. rewrite <- (Q_0 K p) at 2. rewrite <- Q_S by auto. lia.
          -- cbn [Rvt_Proofs.val]. rewrite KD. cbn [map sum fold_right]. rewrite vset_at. rewrite !Z.add_0_r. symmetry. apply Z.mod_small. apply iv_range; auto.
        * rewrite !fset_other, cn_out by lia. reflexivity.
        * rewrite !fset_other by lia. destruct l as [|l]; [reflexivity|]. rewrite cn_out by lia. reflexivity.
      + apply nr_put; auto. split; [|intros l i NI; change (nodes (setRoot t1 (Some (at_ 1 (Q 1 p)))) (l, i)) with (if idEq (l, i) (at_ 1 (Q 1 p)) then Some pn else None); destruct (idEq_spec (l, i) (at_ 1 (Q 1 p))) as [X|_]; [unfold Rvt_Proofs2.at_ in X; inversion X; subst; elim (NI (Q 1 p)); reflexivity|reflexivity]].
        intros l q. change (nodes (setRoot t1 (Some (at_ 1 (Q 1 p)))) (l, ix l q)) with (if idEq (at_ l q) (at_ 1 (Q 1 p)) then Some pn else None). rewrite id_at by auto. unfold fset. reflexivity.
    - intros l. unfold t2, t1. cbn [lft put setNodes setRoot setL setR upd empty]. unfold upd. destruct (Nat.eqb_spec l 1) as [->|NL]; [rewrite lfc_in by lia; reflexivity|rewrite lfc_out by lia; reflexivity].
    - intros l. unfold t2, t1. cbn [rgt put setNodes setRoot setL setR upd empty]. unfold upd. destruct (Nat.eqb_spec l 1) as [->|NL]; [rewrite lfc_in by lia; reflexivity|rewrite lfc_out by lia; reflexivity]. }
  destruct (rep_arrAdd K _ _ _ _ _ _ _ _ _ 1%nat (Q 1 p) R2) as (t3 & ET3 & R3). { rewrite !lfc_in by lia. split; discriminate. }
  rewrite ET3. cbn [bind].
  assert (R4 : Rep t3 (cn p p 1 (vset (fun _ => 0%Z) p 0)) (lfc p 1) (lfc p 1) 1 (Q 1 p) [] 0 0).
  { eapply rep_ext; [| | |exact R3]; auto; intros l; cbv beta; (destruct (Nat.eqb_spec l 1) as [->|NL]; [rewrite lfc_in by lia; reflexivity|reflexivity]). }
  pose proof R4 as (_ & _ & _ & RO4 & _). unfold addInternal. rewrite (rep_get _ _ _ _ _ _ _ _ _ _ _ _ R4), cn_in, RO4 by lia. cbn [bind]. unfold Rvt_Proofs2.nd at 1. cbn [par Nat.eqb]. rewrite idEq_refl. cbn [fst Rvt_Proofs2.at_ climb]. rewrite RO4. cbn [bind fst Rvt_Proofs2.at_ Nat.eqb]. rewrite idEq_refl. cbn [bind].
  change (1%nat, ix 1 (Q 1 p)) with (at_ 1 (Q 1 p)).
  destruct (chain_add t3 p p (fun _ => 0%Z) x 1 [] 0 0) as (t4 & ET4 & R5); auto; try lia.
  rewrite ET4. cbn [bind]. rewrite pos_ix. rewrite N.eqb_refl. eexists. split; [reflexivity|]. split; [lia|]. split; [lia|]. split; [reflexivity|]. split; [auto|]. eapply rep_range; eauto.
Qed.
End S.
