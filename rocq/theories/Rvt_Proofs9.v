From Coq Require Import List Arith NArith ZArith Bool Lia.
From Verif Require Import Lib_Bytes Rvt_Model Rvt_Proofs Rvt_Proofs2 Rvt_Proofs3 Rvt_Proofs4 Rvt_Proofs5 Rvt_Proofs6 Rvt_Proofs7 Rvt_Proofs8.
Import ListNotations.
Local Open Scope N_scope.

Section S.
Variable H : bytes -> bytes.
Variables (K : N) (M : Z).
Hypothesis K2 : 2 <= K.
Hypothesis M0 : (0 < M)%Z.
Notation iv := (iv H M).
Notation Q := (Q K).
Notation ix := (ix K).
Notation kid := (kid K).
Notation val := (val H K M).
Notation cn := (cn H K M).
Notation nd := (nd H K M).
Notation at_ := (at_ K).
Notation Rep := (Rep K).
Notation lfc := (lfc K).
Notation Canon := (Canon H K M).

Lemma at0 a : (0%nat, a + 1) = at_ 0 a.
Proof. clear. unfold Rvt_Proofs2.at_. rewrite pos_ix. reflexivity. Qed.

Lemma existsb_in x e : existsb (idEq x) e = true <-> In x e.
Proof. clear. rewrite existsb_exists. split; [intros (y & I1 & E); destruct (idEq_spec x y); congruence|intros I1; exists x; split; auto; apply idEq_refl]. Qed.

(** Removing the first of at least two blocks. *)
Lemma remove_spec t a b v L d : a < b -> v a = hval H M (at_ 0 a) d -> Canon t a b v L ->
  exists t' L', removeLeft H K M t (a + 1) d = Some t' /\ Canon t' (a + 1) b v L'.
Proof.
  intros AB VA (_ & L1 & QL & MI & R). pose proof R as (_ & _ & _ & RO & _ & RM & _). unfold removeLeft. rewrite RO, RM, N.eqb_refl. cbn [negb].
  rewrite at0, <- VA. assert (VR : (0 <= v a < M)%Z) by (rewrite VA; apply hval_range; auto).
  destruct (rem_rvb H K M K2 M0 a b AB v VR (a + 1) (b + 1) t L L1 QL R) as (t1 & l & f & e & ET & LL & QE & MI1 & (S1 & S2) & R1).
  rewrite ET. cbn [bind]. pose proof R1 as ((N1 & N2) & RL1 & RR1 & RO1 & RE1 & RMN & RMX). cbn [root]. rewrite RO1. eexists _, l. split; [reflexivity|].
  split; [lia|]. split; [auto|]. split; [auto|]. split; [auto|]. cbn [setRange nodes lft rgt root mn mx er]. split; [|split; [|split; [|split; [|split; [|split]]]]]; auto; try (cbn [setRange mn mx]; lia).
  split.
  - intros j q. cbn [setRange nodes]. rewrite RE1, N1. change (j, ix j q) with (at_ j q). destruct (existsb (idEq (at_ j q)) e) eqn:EX.
    + apply existsb_in in EX. destruct (S2 _ EX) as (j' & q' & E & C). apply at_inj in E; auto. destruct E as (<- & <-). symmetry. apply cn_out. lia.
    + destruct (S1 j q) as [E|I1]; auto. apply existsb_in in I1. congruence.
  - intros j i NI. cbn [setRange nodes]. destruct (existsb (idEq (j, i)) (er t1)); auto.
Qed.

(** Removing the only block. *)
Lemma remove_last t a v L d : v a = hval H M (at_ 0 a) d -> Canon t a a v L -> removeLeft H K M t (a + 1) d = Some empty.
Proof.
  intros VA (_ & L1 & QL & MI & R). destruct MI as [->|MI]; [|congruence]. pose proof R as (_ & RL & _ & RO & _ & RM & _).
  unfold removeLeft. rewrite RO, RM, N.eqb_refl. cbn [negb]. unfold removeRVB. rewrite (RL 1%nat), lfc_in by lia. cbn [option_map bind]. rewrite (rep_get _ _ _ _ _ _ _ _ _ _ _ _ R), cn_in by lia. cbn [bind].
  unfold Rvt_Proofs2.nd at 1. cbn [kids].
  assert (KD : kid a a 0 (Q 1 a) = [a]). { unfold Rvt_Proofs.kid. pose proof (Q_in K K2 0 a) as (I1 & I2). rewrite !Q_0 in *. rewrite N.max_r, N.min_r by lia. rewrite rng_cons, rng_nil by lia. reflexivity. }
  rewrite KD. cbn [map].
  destruct (arrRemove_last K K2 _ _ _ _ _ _ _ _ _ 1 (Q 1 a) R) as (t1 & ET & R1); try (apply lfc_in; lia). { apply cn_out. lia. }
  rewrite ET. cbn [bind]. pose proof R1 as (_ & _ & _ & RO1 & _). unfold parentOf. cbn [root setEr]. rewrite RO1. rewrite oid_at, Nat.eqb_refl, N.eqb_refl by auto. cbn [andb bind].
  unfold onNode at 1. cbn [nodes setEr]. rewrite (rep_get _ _ _ _ _ _ _ _ _ _ _ _ R1), cn_in by lia. cbn [bind]. unfold Rvt_Proofs2.nd at 1. unfold pop. cbn [kids]. rewrite KD. cbn [map]. rewrite at0. change (0%nat, ix 0 a) with (at_ 0 a). rewrite idEq_refl. cbn [bind setKids].
  set (m := setKids _ _). set (t2 := put _ _ _). assert (RO2 : root t2 = Some (at_ 1 (Q 1 a))) by exact RO1. unfold removeUp. rewrite RO2. cbn [bind trim fst Rvt_Proofs2.at_]. rewrite RO2.
  change (1%nat, ix 1 (Q 1 a)) with (at_ 1 (Q 1 a)). rewrite oid_at, Nat.eqb_refl, N.eqb_refl by auto. cbn [andb bind].
  assert (N2 : nodes t2 (at_ 1 (Q 1 a)) = Some m) by (unfold t2; cbn [nodes put setNodes]; rewrite idEq_refl; reflexivity).
  unfold onNode. rewrite N2. cbn [bind]. set (t3 := put _ _ _).
  assert (N3 : exists m', nodes t3 (at_ 1 (Q 1 a)) = Some m' /\ kids m' = []). { eexists. split; [unfold t3; cbn [nodes put setNodes]; rewrite idEq_refl; reflexivity|reflexivity]. }
  destruct N3 as (m' & N3 & K3). rewrite N3. cbn [bind]. rewrite K3. unfold setNewRoot. change (root t3) with (root t2). rewrite RO2. cbn [fst Rvt_Proofs2.at_ Nat.eqb bind root empty]. reflexivity.
Qed.
End S.
