(** Proofs for the categorized chain (C15), part 4: deletions, restart, all executions. *)
From Coq Require Import List Arith NArith Lia Bool.
From Verif Require Import Lib_Bytes Keys_Model Keys_Proofs Lib_CF Versioned_Model Versioned_Proofs Immutable_Model Immutable_Proofs KvChain_Model KvChain_Proofs KvChain_Proofs2 KvChain_Proofs3.
Import ListNotations.
Local Open Scope N_scope.
Local Opaque tagBit.

Section Chain.
Variable H : bytes -> bytes.
Variable HD : N -> raw -> bytes.
Notation KI := (KI H HD).

Lemma cfGet_info u c : cfGet (map (fun e : bytes * cinput => (fst e, outOf H (snd e))) u) c = option_map (outOf H) (cfGet u c).
Proof. rewrite (cfGet_mapf (fun e : bytes * cinput => outOf H (snd e))). auto. Qed.
Lemma map_fst_info u : map fst (map (fun e : bytes * cinput => (fst e, outOf H (snd e))) u) = map fst u.
Proof. rewrite map_map. auto. Qed.
Lemma genesisOps_empty x b : genesisOps x b (addOut H emptyV) = Some []. Proof. reflexivity. Qed.
Lemma lastOps_empty x b : lastOps x b (addOut H emptyV) = Some []. Proof. reflexivity. Qed.
Lemma blk_in ct h s i : KI ct h s -> kg h <= i <= klen h -> nget (d_blocks (fst s)) i = Some (specBlock H HD (upds h) i).
Proof. intros I R. rewrite (iBlk _ _ _ _ _ I). destruct (N.leb_spec (kg h) i); [|lia]. destruct (N.leb_spec i (klen h)); [|lia]. auto. Qed.
Lemma ok_at ct h s i : KI ct h s -> kg h <= i <= klen h -> exists us, okUpd ct us (nth (N.to_nat i - 1) (upds h) []).
Proof. intros I R. pose proof (iKg _ _ _ _ _ I). eexists. apply (iOk _ _ _ _ _ I). rewrite upds_length. unfold klen in R. lia. Qed.

(** * Deleting the genesis block *)
Lemma KI_gen ct h s : KI ct h s -> (kg h < klen h -> exists s', deleteGenesis s = Some s') /\
  (forall s', deleteGenesis s = Some s' -> kg h < klen h /\ KI ct {| kb := kb h; kg := kg h + 1 |} s' /\ d_st (fst s') = d_st (fst s) /\ snd s' = setGen (snd s) (kg h + 1)).
Proof.
  intros I. pose proof (iKg _ _ _ _ _ I) as Kg. unfold deleteGenesis. rewrite (iGen _ _ _ _ _ I), (iLast _ _ _ _ _ I).
  destruct (N.eqb_spec (klen h) 0) as [Z|Z]; [cbn [N.eqb orb]; split; [lia|discriminate]|]. destruct (N.eqb_spec (kg h) 0); [lia|]. destruct (N.eqb_spec (kg h) (klen h)) as [E|Ne]; cbn [orb]; [split; [lia|discriminate]|].
  assert (R : kg h <= kg h <= klen h) by lia. rewrite (blk_in _ _ _ _ I R). unfold specBlock at 1 2. cbn [b_info].
  destruct (ok_at _ _ _ _ I R) as (us0 & Su & Ty & Gv & Gi & _). set (u := nth (N.to_nat (kg h) - 1) (upds h) []) in *.
  rewrite (fold_ext _ _ _ (genTo_step (kg h))). assert (ND : NoDup (map fst (map (fun e : bytes * cinput => (fst e, outOf H (snd e))) u))) by (rewrite map_fst_info; apply sorted_NoDup; auto).
  assert (Un : nth (N.to_nat (kg h - 1)) (upds h) [] = u) by (unfold u; f_equal; lia).
  assert (V : forall c, cfGet ct c = Some TV -> exists x ops, cfGet (d_cats (fst s)) c = Some (SV x) /\ genesisOps x (kg h) (addOut H (vin c u)) = Some ops /\
             Inv H (projV c {| kb := kb h; kg := kg h + 1 |}) {| st := applyAll x ops; genesis := kg h + 1; lastId := klen h; outs := outsV H c (upds h) |}).
  { intros c Ec. destruct (iV _ _ _ _ _ I c Ec) as (x & Ex & In). destruct (inv_gen H _ _ In) as (c' & Es & In'); [cbn [allowed]; rewrite projV_len; change (hgen (projV c h)) with (kg h); lia|].
    cbn [step st genesis lastId outs] in Es. destruct (N.ltb_spec (kg h) (klen h)); [|lia]. unfold outsV at 1 in Es. rewrite Un in Es. destruct (genesisOps x (kg h) (addOut H (vin c u))) as [ops|] eqn:Eo; [|discriminate].
    injection Es as <-. exists x, ops. split; auto. split; auto. rewrite projV_gen. eapply Inv_ext; [|exact In']. intros b B. change (hgen (hstep (projV c h) DelGenesis)) with (kg h + 1) in B.
    unfold upd. destruct (N.eqb_spec b (kg h)); [lia|auto]. }
  assert (Jc : forall c, cfGet ct c = Some TI -> exists x, cfGet (d_cats (fst s)) c = Some (SI x) /\
             J H (projI c {| kb := kb h; kg := kg h + 1 |}) {| ist := iapply x (idelOps (iaddOut H (iin c u))); igenesis := kg h + 1; ilast := klen h; iouts := outsI H c (upds h) |}).
  { intros c Ec. destruct (iI _ _ _ _ _ I c Ec) as (x & Ex & In). destruct (j_step H _ _ IDelGenesis In) as (c' & Es & In').
    { cbn [iallowed]. pose proof (projI_len c h). lia. }
    cbn [istep ist igenesis ilast iouts] in Es. destruct (N.ltb_spec (kg h) (klen h)); [|lia]. unfold outsI at 1 in Es. rewrite Un in Es. injection Es as <-. exists x. split; auto. rewrite projI_gen by lia. eapply J_ext; [|exact In'].
    intros b i Ib. rewrite <- projI_gen in Ib by lia. apply projI_In in Ib. cbn [kg] in Ib. unfold iupd. destruct (N.eqb_spec b (kg h)); [lia|auto]. }
  split.
  - intros _. destruct (stepTo_ok (genF (kg h)) _ (d_cats (fst s)) ND) as (cats & ->); [|eexists; reflexivity].
    intros c a Ea. rewrite cfGet_info in Ea. destruct (cfGet u c) as [x|] eqn:Eu; [|discriminate]. injection Ea as <-. pose proof (Ty _ _ Eu) as Tc. destruct x as [vi|ii].
    + destruct (V c Tc) as (x & ops & Ex & Eo & _). exists (SV x). eexists. split; auto. cbn [outOf genF]. unfold vin in Eo. rewrite Eu in Eo. rewrite Eo. reflexivity.
    + destruct (Jc c Tc) as (x & Ex & _). exists (SI x). eexists. split; auto. reflexivity.
  - intros s' E. destruct (fold_left _ _ _) as [cats|] eqn:Ef; [|discriminate]. injection E as <-. pose proof (stepTo_get _ _ _ _ ND Ef) as Gt. split; [lia|]. cbn [fst snd d_st]. split; [|split; reflexivity].
    constructor; cbn [fst snd m_gen m_last m_cache d_blocks d_cats setGen kg]; change (klen {| kb := kb h; kg := kg h + 1 |}) with (klen h); change (upds {| kb := kb h; kg := kg h + 1 |}) with (upds h); try lia.
    + destruct (N.eqb_spec (klen h) 0); [lia|auto].
    + apply (iLast _ _ _ _ _ I).
    + intros i. rewrite nget_del, (iBlk _ _ _ _ _ I). destruct (N.eqb_spec i (kg h)) as [->|Ni]; [destruct (N.leb_spec (kg h + 1) (kg h)); [lia|auto]|].
      destruct (N.leb_spec (kg h) i), (N.leb_spec (kg h + 1) i); auto; lia.
    + apply (iCache _ _ _ _ _ I).
    + intros c Ec. destruct (V c Ec) as (x & ops & Ex & Eo & In). exists (applyAll x ops). split; auto. rewrite Gt, cfGet_info, Ex. unfold vin in Eo. destruct (cfGet u c) as [[vi|ii]|] eqn:Eu; cbn [option_map outOf genF].
      * rewrite Eo. auto.
      * apply Ty in Eu. congruence.
      * rewrite genesisOps_empty in Eo. injection Eo as <-. auto.
    + intros c Ec. destruct (Jc c Ec) as (x & Ex & In). eexists. split; [|exact In]. rewrite Gt, cfGet_info, Ex. unfold iin. destruct (cfGet u c) as [[vi|ii]|] eqn:Eu; cbn [option_map outOf genF]; auto. apply Ty in Eu. congruence.
    + apply (iOk _ _ _ _ _ I).
Qed.

(** * Deleting the last block *)
Lemma upds_last h : upds {| kb := removelast (kb h); kg := kg h |} = removelast (upds h). Proof. unfold upds. cbn [kb]. rewrite removelast_map. auto. Qed.
Lemma klen_last h : klen {| kb := removelast (kb h); kg := kg h |} = klen h - 1. Proof. unfold klen. cbn [kb]. rewrite removelast_len. lia. Qed.
Lemma removelast_app_eq {A} (l : list A) d : l <> [] -> l = removelast l ++ [last l d]. Proof. apply app_removelast_last. Qed.
Lemma KI_last ct h s : KI ct h s -> (forall c, cfGet ct c = Some TV -> safeRevert (projV c h)) -> (kg h < klen h -> exists s', deleteLast s = Some s') /\
  (forall s', deleteLast s = Some s' -> kg h < klen h /\ KI ct {| kb := removelast (kb h); kg := kg h |} s' /\ d_st (fst s') = d_st (fst s) /\ snd s' = setLast (snd s) (klen h - 1)).
Proof.
  intros I Sr. pose proof (iKg _ _ _ _ _ I) as Kg. unfold deleteLast. rewrite (iGen _ _ _ _ _ I), (iLast _ _ _ _ _ I).
  destruct (N.eqb_spec (klen h) 0) as [Z|Z]; [cbn [N.eqb orb]; split; [lia|discriminate]|]. destruct (N.eqb_spec (klen h) (kg h)) as [E|Ne]; cbn [orb]; [split; [lia|discriminate]|].
  assert (R : kg h <= klen h <= klen h) by lia. rewrite (blk_in _ _ _ _ I R). unfold specBlock at 1 2. cbn [b_info].
  destruct (ok_at _ _ _ _ I R) as (us0 & Su & Ty & Gv & Gi & _). set (u := nth (N.to_nat (klen h) - 1) (upds h) []) in *.
  rewrite (fold_ext _ _ _ (lastTo_step (klen h))). assert (ND : NoDup (map fst (map (fun e : bytes * cinput => (fst e, outOf H (snd e))) u))) by (rewrite map_fst_info; apply sorted_NoDup; auto).
  assert (Un : nth (N.to_nat (klen h - 1)) (upds h) [] = u) by (unfold u; f_equal; lia).
  assert (Ln : (length (upds h) = S (length (removelast (upds h))))%nat). { rewrite removelast_len, upds_length. unfold klen in *. lia. }
  assert (Eu' : upds h = removelast (upds h) ++ [last (upds h) []]). { apply app_removelast_last. intros E0. rewrite E0 in Ln. discriminate. }
  assert (Nth : forall j, (j < length (removelast (upds h)))%nat -> nth j (removelast (upds h)) [] = nth j (upds h) []). { intros j L. rewrite Eu' at 2. rewrite app_nth1; auto. }
  assert (Kl : N.of_nat (length (removelast (upds h))) = klen h - 1) by (rewrite removelast_len, upds_length; unfold klen in *; lia).
  assert (V : forall c, cfGet ct c = Some TV -> exists x ops, cfGet (d_cats (fst s)) c = Some (SV x) /\ lastOps x (klen h) (addOut H (vin c u)) = Some ops /\
             Inv H (projV c {| kb := removelast (kb h); kg := kg h |}) {| st := applyAll x ops; genesis := kg h; lastId := klen h - 1; outs := outsV H c (removelast (upds h)) |}).
  { intros c Ec. destruct (iV _ _ _ _ _ I c Ec) as (x & Ex & In). destruct (inv_last H _ _ In) as (c' & Es & In'); [cbn [allowed]; rewrite projV_len; change (hgen (projV c h)) with (kg h); split; [lia|auto]|].
    cbn [step st genesis lastId outs] in Es. destruct (N.ltb_spec (kg h) (klen h)); [|lia]. unfold outsV at 1 in Es. rewrite Un in Es. destruct (lastOps x (klen h) (addOut H (vin c u))) as [ops|] eqn:Eo; [|discriminate].
    injection Es as <-. exists x, ops. split; auto. split; auto. rewrite projV_last. eapply Inv_ext; [|exact In']. intros b B. rewrite <- projV_last, projV_len, klen_last in B. change (hgen (projV c {| kb := removelast (kb h); kg := kg h |})) with (kg h) in B.
    unfold upd, outsV. destruct (N.eqb_spec b (klen h)); [lia|]. rewrite Nth by lia. auto. }
  assert (Jc : forall c, cfGet ct c = Some TI -> exists x, cfGet (d_cats (fst s)) c = Some (SI x) /\
             J H (projI c {| kb := removelast (kb h); kg := kg h |}) {| ist := iapply x (idelOps (iaddOut H (iin c u))); igenesis := kg h; ilast := klen h - 1; iouts := outsI H c (removelast (upds h)) |}).
  { intros c Ec. destruct (iI _ _ _ _ _ I c Ec) as (x & Ex & In). destruct (j_step H _ _ IDelLast In) as (c' & Es & In').
    { cbn [iallowed]. pose proof (projI_len c h). lia. }
    cbn [istep ist igenesis ilast iouts] in Es. destruct (N.ltb_spec (kg h) (klen h)); [|lia]. unfold outsI at 1 in Es. rewrite Un in Es. injection Es as <-. exists x. split; auto. rewrite projI_last by lia. eapply J_ext; [|exact In'].
    intros b i Ib. rewrite <- projI_last in Ib by lia. apply projI_In in Ib. rewrite klen_last in Ib. cbn [kg] in Ib. unfold iupd, outsI. destruct (N.eqb_spec b (klen h)); [lia|]. rewrite Nth by lia. auto. }
  split.
  - intros _. destruct (stepTo_ok (lastF (klen h)) _ (d_cats (fst s)) ND) as (cats & ->); [|eexists; reflexivity].
    intros c a Ea. rewrite cfGet_info in Ea. destruct (cfGet u c) as [x|] eqn:Eu; [|discriminate]. injection Ea as <-. pose proof (Ty _ _ Eu) as Tc. destruct x as [vi|ii].
    + destruct (V c Tc) as (x & ops & Ex & Eo & _). exists (SV x). eexists. split; auto. cbn [outOf lastF]. unfold vin in Eo. rewrite Eu in Eo. rewrite Eo. reflexivity.
    + destruct (Jc c Tc) as (x & Ex & _). exists (SI x). eexists. split; auto. reflexivity.
  - intros s' E. destruct (fold_left _ _ _) as [cats|] eqn:Ef; [|discriminate]. injection E as <-. pose proof (stepTo_get _ _ _ _ ND Ef) as Gt. split; [lia|]. cbn [fst snd d_st]. split; [|split; reflexivity].
    constructor; cbn [fst snd m_gen m_last m_cache d_blocks d_cats setLast kg]; rewrite ?klen_last, ?upds_last; try lia.
    + rewrite (iGen _ _ _ _ _ I). destruct (N.eqb_spec (klen h) 0), (N.eqb_spec (klen h - 1) 0); try lia.
    + intros i. rewrite nget_del, (iBlk _ _ _ _ _ I). destruct (N.eqb_spec i (klen h)) as [->|Ni].
      * destruct (N.leb_spec (klen h) (klen h - 1)); [lia|]. rewrite andb_false_r. auto.
      * destruct (N.leb_spec (kg h) i); auto. destruct (N.leb_spec i (klen h)), (N.leb_spec i (klen h - 1)); auto; try lia. cbn [andb]. rewrite Eu' at 1. rewrite specBlock_app; auto. lia.
    + intros cid r C. destruct (iCache _ _ _ _ _ I _ _ C) as (C1 & C2 & _). rewrite (iLast _ _ _ _ _ I) in C2. split; auto. split; lia.
    + intros c Ec. destruct (V c Ec) as (x & ops & Ex & Eo & In). exists (applyAll x ops). split; auto. rewrite Gt, cfGet_info, Ex. unfold vin in Eo. destruct (cfGet u c) as [[vi|ii]|] eqn:Eu; cbn [option_map outOf lastF].
      * rewrite Eo. auto.
      * apply Ty in Eu. congruence.
      * rewrite lastOps_empty in Eo. injection Eo as <-. auto.
    + intros c Ec. destruct (Jc c Ec) as (x & Ex & In). eexists. split; [|exact In]. rewrite Gt, cfGet_info, Ex. unfold iin. destruct (cfGet u c) as [[vi|ii]|] eqn:Eu; cbn [option_map outOf lastF]; auto. apply Ty in Eu. congruence.
    + intros j L. rewrite Nth by auto. pose proof (iOk _ _ _ _ _ I j) as Q. rewrite Eu' in Q at 2. rewrite firstn_app in Q. replace (j - length (removelast (upds h)))%nat with 0%nat in Q by lia. cbn [firstn] in Q. rewrite app_nil_r in Q. apply Q. lia.
Qed.
End Chain.
