(** Proofs for the categorized chain (C15), part 3: the invariant. *)
From Coq Require Import List Arith NArith Lia Bool.
From Verif Require Import Lib_Bytes Keys_Model Keys_Proofs Lib_CF Versioned_Model Versioned_Proofs Immutable_Model Immutable_Proofs KvChain_Model KvChain_Proofs KvChain_Proofs2.
Import ListNotations.
Local Open Scope N_scope.
Local Opaque tagBit.

Lemma Inv_ext H h x g l o o' : (forall b, hgen h <= b <= hlen h -> o b = o' b) -> Inv H h {| st := x; genesis := g; lastId := l; outs := o |} -> Inv H h {| st := x; genesis := g; lastId := l; outs := o' |}.
Proof. intros E [? ? ? ? ? ? ? ? Vo]. constructor; cbn [st genesis lastId outs] in *; auto. intros b B. destruct (Vo b B) as (i & g0 & A1 & A2). exists i, g0. split; auto. rewrite <- E; auto. Qed.
Lemma J_ext H s x g l o o' : (forall b i, In (b, i) (snd s) -> o b = o' b) -> J H s {| ist := x; igenesis := g; ilast := l; iouts := o |} -> J H s {| ist := x; igenesis := g; ilast := l; iouts := o' |}.
Proof. intros E [? ? ? ? Jo]. constructor; cbn [ist igenesis ilast iouts] in *; auto. intros b i I. rewrite <- (E b i I); auto. Qed.

Section Chain.
Variable H : bytes -> bytes.
Variable HD : N -> raw -> bytes.

Record KI (ct : list (bytes * ctype)) (h : khist) (s : state) : Prop := {
  iGen : m_gen (snd s) = if klen h =? 0 then 0 else kg h; iKg : 1 <= kg h <= N.max 1 (klen h); iLast : m_last (snd s) = klen h;
  iBlk : forall i, nget (d_blocks (fst s)) i = if (kg h <=? i) && (i <=? klen h) then Some (specBlock H HD (upds h) i) else None;
  iCache : forall cid r, m_cache (snd s) = Some (cid, r) -> 1 <= cid /\ m_last (snd s) <= cid /\ (cid = m_last (snd s) -> r = specRaw H HD (upds h) cid);
  iV : forall c, cfGet ct c = Some TV -> exists x, cfGet (d_cats (fst s)) c = Some (SV x) /\ Inv H (projV c h) {| st := x; genesis := kg h; lastId := klen h; outs := outsV H c (upds h) |};
  iI : forall c, cfGet ct c = Some TI -> exists x, cfGet (d_cats (fst s)) c = Some (SI x) /\ J H (projI c h) {| ist := x; igenesis := kg h; ilast := klen h; iouts := outsI H c (upds h) |};
  iOk : forall j, (j < length (upds h))%nat -> okUpd ct (firstn j (upds h)) (nth j (upds h) []) }.

Lemma cats_init ct c : cfGet (map (fun e : bytes * ctype => (fst e, match snd e with TV => SV emptyCat | TI => SI [] end)) ct) c = match cfGet ct c with Some TV => Some (SV emptyCat) | Some TI => Some (SI []) | None => None end.
Proof. induction ct as [|[c' t] ct IH]; auto. cbn [map cfGet fst snd]. destruct (beqb c c'); [destruct t|]; auto. Qed.
Lemma KI_init ct : KI ct hinit (init ct).
Proof.
  constructor; cbn [hinit init klen kb kg upds map length fst snd m_gen m_last m_cache d_blocks d_cats]; try reflexivity; try (cbn; lia).
  - intros i. cbn [nget]. destruct (N.leb_spec 1 i), (N.leb_spec i (klen hinit)); auto. unfold klen in *. cbn in *. lia.
  - discriminate.
  - intros c E. exists emptyCat. rewrite cats_init, E. split; auto. eapply Inv_ext; [|apply inv_init]. intros b B. unfold hlen in B. cbn in B. lia.
  - intros c E. exists []. rewrite cats_init, E. split; auto. eapply J_ext; [|apply j_init]. intros b i [].
Qed.

(** * Raw blocks *)
Lemma in_range ct h s i : KI ct h s -> kg h <= i <= klen h -> 1 <= i. Proof. intros I R. pose proof (iKg _ _ _ I). lia. Qed.
Lemma rebuild1_ok ct h s i c x : KI ct h s -> kg h <= i <= klen h -> cfGet (nth (N.to_nat i - 1) (upds h) []) c = Some x -> rebuild1 (d_cats (fst s)) i c (outOf H x) = Some x.
Proof.
  intros I R E. pose proof (in_range _ _ _ _ I R) as R1. set (u := nth (N.to_nat i - 1) (upds h) []) in *.
  assert (Lu : (N.to_nat i - 1 < length (upds h))%nat) by (rewrite upds_length; unfold klen in R; lia).
  destruct (iOk _ _ _ I _ Lu) as (Su & Ty & Gv & Gi & _). fold u in Su, Ty, Gv, Gi. specialize (Ty _ _ E).
  destruct x as [vi|ii]; cbn [outOf rebuild1].
  - destruct (iV _ _ _ I c Ty) as (x & -> & In). destruct (Gv c vi E) as (G1 & G2 & G3). rewrite (vrebuild_ok H x i vi); auto.
    + destruct vi as [k d w]. cbn. destruct w; auto.
    + intros k. change x with (st {| st := x; genesis := kg h; lastId := klen h; outs := outsV H c (upds h) |}). rewrite (read_at H _ _ k i In) by (rewrite projV_len; auto).
      rewrite projV_at by lia. replace (N.to_nat (i - 1)) with (N.to_nat i - 1)%nat by lia. fold u. unfold vin. rewrite E. auto.
  - destruct (iI _ _ _ I c Ty) as (x & -> & In). destruct (Gi c ii E) as (G1 & G2). rewrite tagged_spec by auto. rewrite irebuild_ok.
    + destruct ii as [k w]. cbn. destruct w; auto.
    + intros k d tags Ik. unfold iget, igetLatest. assert (W : cfGet x k = Some (i, d)).
      { apply (jVal _ _ _ In). exists tags. exists ii. split; auto. apply projI_In. split; auto. split; auto. replace (N.to_nat (i - 1)) with (N.to_nat i - 1)%nat by lia. fold u. unfold iin. rewrite E. auto. }
      rewrite W, N.eqb_refl. auto.
Qed.
Lemma rebuild_ok cats i u : (forall c x, In (c, x) u -> rebuild1 cats i c (outOf H x) = Some x) -> rebuild cats i (map (fun e => (fst e, outOf H (snd e))) u) = Some u.
Proof. induction u as [|[c x] u IH]; intros E; auto. cbn [map rebuild fst snd]. rewrite (E c x) by (left; auto). rewrite IH by (intros; apply E; right; auto). auto. Qed.
Lemma roots_out u : vrootsOut (map (fun e => (fst e, outOf H (snd e))) u) = vroots H u /\ irootsOut (map (fun e => (fst e, outOf H (snd e))) u) = iroots H u.
Proof.
  unfold vrootsOut, vroots, irootsOut, iroots. induction u as [|[c x] u [A B]]; [split; auto|]. cbn [map flat_map fst snd]. rewrite A, B. destruct x; split; auto.
Qed.
Lemma getRaw_ok ct h s i : KI ct h s -> kg h <= i <= klen h -> getRaw s i = Some (Some (specRaw H HD (upds h) i)).
Proof.
  intros I R. pose proof (in_range _ _ _ _ I R) as R1. unfold getRaw. rewrite (iLast _ _ _ I). destruct (N.ltb_spec (klen h) i); [lia|]. rewrite (iBlk _ _ _ I).
  destruct (N.leb_spec (kg h) i); [|lia]. destruct (N.leb_spec i (klen h)); [|lia]. cbn [andb]. unfold rebuildRaw, specBlock. cbn [b_info b_parent].
  assert (Lu : (N.to_nat i - 1 < length (upds h))%nat) by (rewrite upds_length; unfold klen in R; lia).
  rewrite rebuild_ok.
  - destruct (roots_out (nth (N.to_nat i - 1) (upds h) [])) as [-> ->]. auto.
  - intros c x Ix. eapply rebuild1_ok; eauto. apply In_cfGet; auto. apply sorted_NoDup. apply (iOk _ _ _ I _ Lu).
Qed.
Lemma parentOf_ok ct h s : KI ct h s -> parentOf HD s (klen h + 1) = Some (specParent H HD (upds h) (length (upds h))).
Proof.
  intros I. unfold parentOf. replace (klen h + 1 - 1) with (klen h) by lia.
  assert (St : (if 1 <? klen h + 1 then match getRaw s (klen h) with Some (Some r) => Some (HD (klen h) r) | _ => None end else Some zeroD) = Some (specParent H HD (upds h) (length (upds h)))).
  { destruct (N.ltb_spec 1 (klen h + 1)).
    - pose proof (iKg _ _ _ I). rewrite (getRaw_ok _ _ _ _ I) by lia. rewrite <- specParent_S by lia. do 2 f_equal. rewrite upds_length. unfold klen. lia.
    - rewrite upds_length. unfold klen in *. destruct (kb h); [auto|cbn in *; lia]. }
  destruct (m_cache (snd s)) as [[cid r]|] eqn:C; auto. destruct (N.eqb_spec cid (klen h)) as [->|]; auto. destruct (iCache _ _ _ I _ _ C) as (C1 & _ & C2). rewrite C2 by (symmetry; apply (iLast _ _ _ I)).
  rewrite <- specParent_S by auto. do 2 f_equal. rewrite upds_length. unfold klen. lia.
Qed.

(** * Adding *)
Lemma upds_add h u : upds (kadd h u) = upds h ++ [u]. Proof. unfold upds, kadd. cbn [kb]. rewrite map_app. auto. Qed.
Lemma klen_add h u : klen (kadd h u) = klen h + 1. Proof. unfold klen, kadd. cbn [kb]. rewrite app_length. cbn [length]. lia. Qed.
Lemma fresh_wrote c h u k : recGen u <= kg h -> 1 <= kg h -> (forall j, (N.to_nat (recGen u) - 1 <= j)%nat -> cfGet (ikv (iin c (nth j (upds h) []))) k = None) ->
  forall b d t, ~ wrote (projI c h) b k d t.
Proof.
  intros L L1 F b d t (i & I & K). apply projI_In in I. destruct I as (R & R1 & ->). specialize (F (N.to_nat (b - 1))). rewrite cfGet_None in F. apply F; [lia|]. apply (in_map fst) in K. auto.
Qed.
Lemma nth_app_last {A} (l : list A) a d : nth (length l) (l ++ [a]) d = a.
Proof. rewrite app_nth2, Nat.sub_diag by lia. auto. Qed.
Lemma KI_add ct h s u st' : KI ct h s -> okUpd ct (upds h) u -> recGen u <= kg h ->
  exists s', addCore H HD u st' s = Some s' /\ KI ct (kadd h u) s' /\ d_st (fst s') = st' /\ m_stlast (snd s') = m_stlast (snd s).
Proof.
  intros I Ok Rg. pose proof Ok as (Su & Ty & Gv & Gi & Rl & Tb). rewrite upds_length in Tb, Rl. pose proof (iKg _ _ _ I) as Kg.
  unfold addCore. rewrite (iLast _ _ _ I), (parentOf_ok _ _ _ I).
  rewrite (fold_ext _ _ u (addTo_step (klen h + 1))).
  pose proof (sorted_NoDup _ Su) as ND.
  destruct (stepTo_ok (addF (klen h + 1)) u (d_cats (fst s)) ND) as (cats & Ec).
  { intros c a Ea. specialize (Ty _ _ Ea). destruct a as [vi|ii].
    - destruct (iV _ _ _ I c Ty) as (x & E & _). exists (SV x). eexists. split; auto. reflexivity.
    - destruct (iI _ _ _ I c Ty) as (x & E & _). exists (SI x). eexists. split; auto. reflexivity. }
  rewrite Ec. pose proof (stepTo_get _ _ _ _ ND Ec) as Gt. eexists. split; [reflexivity|]. cbn [fst snd d_st m_stlast]. split; [|auto].
  constructor; cbn [fst snd m_gen m_last m_cache d_blocks d_cats]; rewrite ?klen_add, ?upds_add; change (kg (kadd h u)) with (kg h); try lia.
  - rewrite (iGen _ _ _ I). destruct (N.eqb_spec (klen h + 1) 0); [lia|]. destruct (N.eqb_spec (klen h) 0) as [Z|Z]; cbn; [lia|]. destruct (N.eqb_spec (kg h) 0); [lia|auto].
  - intros i. rewrite nget_put, (iBlk _ _ _ I). destruct (N.eqb_spec i (klen h + 1)) as [->|Ne].
    + destruct (N.leb_spec (kg h) (klen h + 1)); [|lia]. rewrite N.leb_refl. cbn [andb]. unfold specBlock. replace (N.to_nat (klen h + 1) - 1)%nat with (length (upds h)) by (rewrite upds_length; unfold klen; lia).
      rewrite nth_app_last, specParent_app by lia. auto.
    + destruct (N.leb_spec (kg h) i); auto. destruct (N.leb_spec i (klen h)), (N.leb_spec i (klen h + 1)); auto; try lia. cbn [andb]. rewrite specBlock_app; auto. rewrite upds_length. unfold klen in *. lia.
  - intros cid r E. injection E as <- <-. split; [lia|]. split; [lia|]. intros _. unfold specRaw. replace (N.to_nat (klen h + 1) - 1)%nat with (length (upds h)) by (rewrite upds_length; unfold klen; lia).
    rewrite nth_app_last, specParent_app by lia. auto.
  - intros c Ec'. destruct (iV _ _ _ I c Ec') as (x & Ex & In). rewrite Gt, Ex.
    destruct (inv_add H (projV c h) {| st := x; genesis := kg h; lastId := klen h; outs := outsV H c (upds h) |} (vin c u) In) as (c' & Es & In').
    { split; [|rewrite projV_len; unfold klen; lia]. unfold vin. destruct (cfGet u c) as [[vi|ii]|] eqn:Eu; [apply (Gv c vi Eu)| |]; (split; [constructor|split; [constructor|split; [intros k []|intros k [[]|[]]]]]). }
    cbn [step st genesis lastId outs] in Es. injection Es as <-. exists (applyAll x (addOps (klen h + 1) (vin c u))). split.
    { unfold vin. destruct (cfGet u c) as [[vi|ii]|] eqn:Eu; auto. apply Ty in Eu. congruence. }
    rewrite projV_add. eapply Inv_ext; [|exact In'].
    intros b B. change (hgen (hstep (projV c h) (Add (vin c u)))) with (kg h) in B. rewrite hlen_add, projV_len in B. unfold upd, outsV. destruct (N.eqb_spec b (klen h + 1)) as [->|Ne].
    + replace (N.to_nat (klen h + 1 - 1)) with (length (upds h)) by (rewrite upds_length; unfold klen; lia). rewrite nth_app_last. auto.
    + rewrite app_nth1; auto. rewrite upds_length. unfold klen in *. lia.
  - intros c Ec'. destruct (iI _ _ _ I c Ec') as (x & Ex & In). rewrite Gt, Ex.
    destruct (j_step H (projI c h) {| ist := x; igenesis := kg h; ilast := klen h; iouts := outsI H c (upds h) |} (IAdd (iin c u)) In) as (c' & Es & In').
    { cbn [iallowed]. unfold iin. destruct (cfGet u c) as [[vi|ii]|] eqn:Eu; [split; [constructor|intros k d t []]| |split; [constructor|intros k d t []]].
      destruct (Gi c ii Eu) as [G1 G2]. split; auto. intros k d t Ik. destruct (G2 k d t Ik) as [G3 G4]. split; auto. intros b. apply (fresh_wrote c h u k); auto. lia. }
    cbn [istep ist igenesis ilast iouts] in Es. injection Es as <-. exists (iapply x (iaddOps (klen h + 1) (iin c u))). split.
    { unfold iin. destruct (cfGet u c) as [[vi|ii]|] eqn:Eu; auto. apply Ty in Eu. congruence. }
    rewrite projI_add by lia. eapply J_ext; [|exact In'].
    intros b i Ib. unfold iupd, outsI. rewrite <- projI_add in Ib by lia. apply projI_In in Ib. rewrite klen_add in Ib. destruct Ib as (B & B1 & _). change (kg (kadd h u)) with (kg h) in B. destruct (N.eqb_spec b (klen h + 1)) as [->|Ne].
    + replace (N.to_nat (klen h + 1 - 1)) with (length (upds h)) by (rewrite upds_length; unfold klen; lia). rewrite nth_app_last. auto.
    + rewrite app_nth1; auto. rewrite upds_length. unfold klen in *. lia.
  - intros j L. rewrite app_length in L. cbn [length] in L. destruct (Nat.eq_dec j (length (upds h))) as [->|Ne].
    + rewrite nth_app_last, firstn_app, Nat.sub_diag, firstn_all. cbn [firstn]. rewrite app_nil_r. auto.
    + rewrite app_nth1 by lia. rewrite firstn_app. replace (j - length (upds h))%nat with 0%nat by lia. cbn [firstn]. rewrite app_nil_r. apply (iOk _ _ _ I). lia.
Qed.
End Chain.
