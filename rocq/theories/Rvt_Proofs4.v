From Coq Require Import List Arith NArith ZArith Bool Lia.
From Verif Require Import Lib_Bytes Rvt_Model Rvt_Proofs Rvt_Proofs2 Rvt_Proofs3.
Import ListNotations.
Local Open Scope N_scope.

Section S.
Variable H : bytes -> bytes.
Variables (K : N) (M : Z).
Hypothesis K2 : 2 <= K.
Hypothesis M0 : (0 < M)%Z.
Notation iv := (iv H M).
Notation addVal := (addVal M).
Notation push := (push K).
Notation Q := (Q K).
Notation ix := (ix K).
Notation kid := (kid K).
Notation val := (val H K M).
Notation cn := (cn H K M).
Notation nd := (nd H K M).
Notation at_ := (at_ K).
Notation Rep := (Rep K).
Notation lfc := (lfc K).

(** Replacing the root by a parent of it. *)
Lemma rep_newRoot t f lf rf L r e m1 m2 rn qn q : Rep t f lf rf L r e m1 m2 -> f L r = Some rn -> f (S L) q = Some qn -> (lf (S L) = None <-> rf (S L) = None) ->
  exists t', setNewRoot K t (Some (at_ (S L) q)) = Some t' /\
    Rep t' (fset (fset f L r (setPar rn (at_ (S L) q))) (S L) q (setPar qn nullId))
      (fun k => if Nat.eqb k (S L) then match lf (S L) with None => Some q | x => x end else lf k) (fun k => if Nat.eqb k (S L) then Some q else rf k) (S L) q e m1 m2.
Proof.
  intros R FR FQ LR. unfold setNewRoot. pose proof R as (_ & _ & _ & RO & _). rewrite RO. cbn [Rvt_Proofs2.at_ fst]. rewrite Nat.eqb_refl. cbn [Nat.eqb].
  change (L, ix L r) with (at_ L r). change (S L, ix (S L) q) with (at_ (S L) q).
  destruct (rep_on K K2 _ _ _ _ _ _ _ _ _ _ _ _ (fun n => Some (setPar n (at_ (S L) q))) _ R FR eq_refl) as (t1 & ET & R1). rewrite ET. cbn [bind].
  assert (R2 : Rep (setRoot t1 (Some (at_ (S L) q))) (fset f L r (setPar rn (at_ (S L) q))) lf rf (S L) q e m1 m2).
  { destruct R1 as (A & B & C & D & E). repeat split; auto; try apply A; try apply E. }
  assert (FQ1 : fset f L r (setPar rn (at_ (S L) q)) (S L) q = Some qn) by (rewrite fset_other by lia; exact FQ).
  destruct (rep_on K K2 _ _ _ _ _ _ _ _ _ _ _ _ (fun n => Some (setPar n nullId)) _ R2 FQ1 eq_refl) as (t2 & ET2 & R3). rewrite ET2. cbn [bind].
  destruct (rep_arrAdd K _ _ _ _ _ _ _ _ _ (S L) q R3 LR) as (t3 & ET3 & R4). rewrite ET3. eauto.
Qed.

Section Grow.
Variables (a n : N).
Hypothesis AN : a <= n.
Variable w : N -> Z.
Variables (m1 m2 : N) (e : list id).

Lemma val_one l q j : kid a n l q = [j] -> (1 <= l)%nat -> val a n w (S l) q = Z.rem (iv (at_ (S l) q) + val a n w l j) M.
Proof.
  intros E L1. cbn [Rvt_Proofs.val]. rewrite E. cbn [map sum fold_right]. rewrite Z.add_0_r. rewrite Z.rem_mod_nonneg; auto. destruct l as [|l]; [lia|]. pose proof (val_range H K M M0 a n w l j). pose proof (iv_range H M M0 (at_ (S (S l)) q)). lia.
Qed.
Lemma val_two l q i j : kid a n l q = [i; j] -> (1 <= l)%nat -> val a n w (S l) q = Z.rem (Z.rem (iv (at_ (S l) q) + val a n w l i) M + val a n w l j) M.
Proof.
  intros E L1. cbn [Rvt_Proofs.val]. rewrite E. cbn [map sum fold_right]. rewrite Z.add_0_r. destruct l as [|l]; [lia|]. pose proof (val_range H K M M0 a n w l i). pose proof (val_range H K M M0 a n w l j). pose proof (iv_range H M M0 (at_ (S (S l)) q)).
  rewrite (Z.rem_mod_nonneg (iv _ + _)) by lia. pose proof (Z.mod_pos_bound (iv (at_ (S (S l)) q) + val a n w (S l) i) M M0). rewrite Z.rem_mod_nonneg by lia. rewrite Z.add_mod_idemp_l by lia. unfold Rvt_Proofs2.at_. f_equal; ring.
Qed.
Lemma cn_below L k q : (k < L)%nat -> cn a n L w k q = cn a n (S L) w k q.
Proof.
  intros E. destruct k as [|k]; [reflexivity|]. rewrite !cn_nd. replace (Nat.leb (S k) L) with true by (symmetry; apply Nat.leb_le; lia). replace (Nat.leb (S k) (S L)) with true by (symmetry; apply Nat.leb_le; lia). cbn [andb].
  unfold Rvt_Proofs2.nd. destruct (Nat.eqb_spec (S k) L), (Nat.eqb_spec (S k) (S L)); try lia. reflexivity.
Qed.
Lemma cn_level L q : (1 <= L)%nat -> cn a n (S L) w L q = option_map (fun m => setPar m (at_ (S L) (q / K))) (cn a n L w L q).
Proof.
  intros E. destruct L as [|L]; [lia|]. rewrite !cn_nd. rewrite Nat.leb_refl. replace (Nat.leb (S L) (S (S L))) with true by (symmetry; apply Nat.leb_le; lia).
  destruct (true && (Q (S L) a <=? q) && (q <=? Q (S L) n)); cbn [option_map]; auto. unfold Rvt_Proofs2.nd, setPar. cbn [par kids cnt ini cur]. destruct (Nat.eqb_spec (S L) (S (S L))); [lia|]. reflexivity.
Qed.

Lemma grow_spec fuel : forall L t, (1 <= L)%nat -> Q L n = Q L a + 1 -> Q L n < 2 ^ N.of_nat fuel -> Rep t (cn a n L w) (lfc a L) (lfc n L) L (Q L a) e m1 m2 ->
  exists t' L', grow H K M fuel t (at_ L (Q L n)) = Some t' /\ (L < L')%nat /\ Q (pred L') a <> Q (pred L') n /\ Q L' a = Q L' n /\ Rep t' (cn a n L' w) (lfc a L') (lfc n L') L' (Q L' a) e m1 m2.
Proof.
  induction fuel as [|fuel IH]; intros L t L1 QN FU R.
  { cbn [N.of_nat N.pow] in FU. lia. }
  cbn [grow]. pose proof R as (_ & _ & _ & RO & _). rewrite RO. cbn [bind]. rewrite (rep_get _ _ _ _ _ _ _ _ _ _ _ _ R).
  assert (FR : exists rn, cn a n L w L (Q L a) = Some rn /\ par rn = nullId /\ cur rn = val a n w L (Q L a)).
  { destruct L as [|L]; [lia|]. rewrite cn_in by lia. eexists. split; [reflexivity|]. unfold Rvt_Proofs2.nd. rewrite Nat.eqb_refl. auto. }
  assert (FK : exists kn, cn a n L w L (Q L n) = Some kn /\ par kn = nullId /\ cur kn = val a n w L (Q L n)).
  { destruct L as [|L]; [lia|]. rewrite cn_in by lia. eexists. split; [reflexivity|]. unfold Rvt_Proofs2.nd. rewrite Nat.eqb_refl. auto. }
  destruct FR as (rn & FR & PR & CR). destruct FK as (kn & FK & PK & CK). rewrite FR. cbn [bind].
  unfold newNode. cbn [fst snd Rvt_Proofs2.at_]. rewrite !parentIdx_ix by auto. rewrite <- !Q_S by auto.
  change (S L, ix (S L) (Q (S L) a)) with (at_ (S L) (Q (S L) a)). change (S L, ix (S L) (Q (S L) n)) with (at_ (S L) (Q (S L) n)). change (L, ix L (Q L a)) with (at_ L (Q L a)). change (L, ix L (Q L n)) with (at_ L (Q L n)).
  rewrite push_new by auto. cbn [bind]. set (qn := addVal _ (cur rn)).
  unfold insertNew at 1. rewrite (rep_get _ _ _ _ _ _ _ _ _ _ _ _ R), cn_out by lia. cbn [bind].
  pose proof (rep_put K K2 _ _ _ _ _ _ _ _ _ (S L) (Q (S L) a) qn R) as R1.
  assert (FR1 : fset (cn a n L w) (S L) (Q (S L) a) qn L (Q L a) = Some rn) by (rewrite fset_other by lia; exact FR).
  destruct (rep_newRoot _ _ _ _ _ _ _ _ _ _ _ (Q (S L) a) R1 FR1 (fset_same _ _ _ _)) as (t2 & ET2 & R2). { rewrite !lfc_out by lia. split; auto. }
  rewrite ET2. cbn [bind]. rewrite (rep_get _ _ _ _ _ _ _ _ _ _ _ _ R2).
  assert (QL : Q L a <> Q L n) by lia.
  assert (FK2 : fset (fset (fset (cn a n L w) (S L) (Q (S L) a) qn) L (Q L a) (setPar rn (at_ (S L) (Q (S L) a)))) (S L) (Q (S L) a) (setPar qn nullId) L (Q L n) = Some kn) by (rewrite !fset_other by lia; exact FK).
  rewrite FK2. cbn [bind].
  pose proof (Q_in K K2 L a) as (I1 & I2). pose proof (Q_in K K2 L n) as (I3 & I4).
  assert (ILT : Q (S L) n * K < 2 ^ N.of_nat fuel * K).
  { rewrite Nat2N.inj_succ, N.pow_succ_r' in FU. apply N.le_lt_trans with (Q L n); auto. apply N.lt_le_trans with (2 * 2 ^ N.of_nat fuel); auto. rewrite N.mul_comm. apply N.mul_le_mono_l; auto. }
  assert (FU2 : Q (S L) n < 2 ^ N.of_nat fuel). { eapply N.mul_lt_mono_pos_r; [|exact ILT]. lia. }
  destruct (N.eqb_spec (ix (S L) (Q (S L) a)) (ix (S L) (Q (S L) n))) as [E|E]; cbn [negb].
  - apply ix_inj in E; auto. rewrite <- E in I3, I4.
    assert (KD : kid a n L (Q (S L) a) = [Q L a; Q L n]).
    { unfold Rvt_Proofs.kid. rewrite N.max_r, N.min_r by lia. rewrite rng_cons by lia. rewrite QN at 1. rewrite rng_cons by lia. rewrite rng_nil by lia. rewrite QN. reflexivity. }
    destruct (rep_on K K2 _ _ _ _ _ _ _ _ _ _ _ _ (fun m => Some (setPar m (at_ (S L) (Q (S L) a)))) _ R2 FK2 eq_refl) as (t3 & ET3 & R3). rewrite ET3. cbn [bind].
    match type of R3 with Rvt_Proofs2.Rep _ _ ?f _ _ _ _ _ _ _ => assert (FQ3 : f (S L) (Q (S L) a) = Some (setPar qn nullId)) by (rewrite (fset_other _ L) by lia; apply fset_same) end.
    assert (PU : push (setPar qn nullId) (at_ L (Q L n)) = Some (mkN nullId [at_ L (Q L a); at_ L (Q L n)] (Some (Q L a mod K + 1 + 1)) (iv (at_ (S L) (Q (S L) a))) (cur qn))).
    { unfold qn, Rvt_Model.addVal, setCur, setPar. cbn [par kids cnt ini cur]. apply push_next with (j := Q L a); auto; [lia|]. rewrite mod_div by auto. rewrite (div_eq K K2 _ (Q (S L) a)) by lia. lia. }
    destruct (rep_on K K2 _ _ _ _ _ _ _ _ _ _ _ _ (fun m => push m (at_ L (Q L n))) _ R3 FQ3 PU) as (t4 & ET4 & R4). rewrite ET4. cbn [bind].
    destruct (rep_on K K2 _ _ _ _ _ _ _ _ _ _ _ _ (fun m => Some (addVal m (cur kn))) _ R4 (fset_same _ _ _ _) eq_refl) as (t5 & ET5 & R5).
    exists t5, (S L). split; [exact ET5|]. split; [lia|]. split; [exact QL|]. split; [exact E|].
    eapply rep_ext; [| | |exact R5].
    + intros k q. destruct (Nat.eq_dec k (S L)) as [->|NK].
      * destruct (N.eq_dec q (Q (S L) a)) as [->|NQ].
        -- rewrite fset_same. rewrite cn_in by lia. f_equal. unfold Rvt_Proofs2.nd. rewrite Nat.eqb_refl, KD. cbn [map]. unfold Rvt_Model.addVal, setCur. cbn [par kids cnt ini cur]. unfold qn, Rvt_Model.addVal, setCur. cbn [par kids cnt ini cur]. rewrite CR, CK. rewrite (val_two L (Q (S L) a) _ _ KD) by lia. rewrite N.min_r by lia. f_equal. f_equal. rewrite mod_div by auto. rewrite (div_eq K K2 _ (Q (S L) a)) by lia. lia.
        -- rewrite !fset_other by lia. rewrite !cn_out by lia. reflexivity.
      * rewrite (fset_other _ (S L)) by lia. rewrite (fset_other _ (S L)) by lia. destruct (Nat.eq_dec k L) as [->|NK2].
        -- rewrite cn_level by auto. destruct (N.eq_dec q (Q L n)) as [->|NQ].
           ++ rewrite fset_same, FK. cbn [option_map]. rewrite <- Q_S, E by auto. reflexivity.
           ++ rewrite (fset_other _ L) by lia. rewrite (fset_other _ (S L)) by lia. destruct (N.eq_dec q (Q L a)) as [->|NQ2].
              ** rewrite fset_same, FR. cbn [option_map]. rewrite <- Q_S by auto. reflexivity.
              ** rewrite !fset_other by lia. rewrite cn_out by lia. reflexivity.
        -- rewrite !fset_other by lia. destruct (Nat.lt_ge_cases k L); [apply cn_below; auto|rewrite !cn_out by lia; reflexivity].
    + intros k; cbv beta. destruct (Nat.eqb_spec k (S L)) as [->|NK]; [rewrite lfc_out, lfc_in by lia; reflexivity|]. unfold Rvt_Proofs2.lfc. destruct (Nat.leb_spec k L), (Nat.leb_spec k (S L)); try lia; reflexivity.
    + intros k; cbv beta. destruct (Nat.eqb_spec k (S L)) as [->|NK]; [rewrite lfc_in by lia; congruence|]. unfold Rvt_Proofs2.lfc. destruct (Nat.leb_spec k L), (Nat.leb_spec k (S L)); try lia; reflexivity.
  - assert (NE : Q (S L) n <> Q (S L) a) by congruence.
    assert (SD : Q L n = (Q (S L) a + 1) * K /\ Q (S L) n = Q (S L) a + 1).
    { rewrite !Q_S, QN in * by auto. destruct (div_succ K K2 (Q L a)) as [(X & _)|(X & Y)]; [congruence|]. split; [exact Y|exact X]. }
    destruct SD as (SD1 & SD2). assert (SK : (Q (S L) a + 1) * K = Q (S L) a * K + K) by ring.
    assert (KD1 : kid a n L (Q (S L) a) = [Q L a]). { unfold Rvt_Proofs.kid. rewrite N.max_r, N.min_l by lia. rewrite rng_cons by lia. rewrite rng_nil by lia. reflexivity. }
    assert (KD2 : kid a n L (Q (S L) n) = [Q L n]). { unfold Rvt_Proofs.kid. rewrite SD2, N.max_l, N.min_r by lia. rewrite rng_cons by lia. rewrite rng_nil by lia. f_equal. lia. }
    unfold insertNew at 1. rewrite (rep_get _ _ _ _ _ _ _ _ _ _ _ _ R2). rewrite !fset_other, cn_out by lia. cbn [bind].
    match goal with |- context[put t2 _ ?x] => set (wn := x) end.
    pose proof (rep_put K K2 _ _ _ _ _ _ _ _ _ (S L) (Q (S L) n) wn R2) as R3.
    match type of R3 with Rvt_Proofs2.Rep _ _ ?f _ _ _ _ _ _ _ => assert (FK3 : f L (Q L n) = Some kn) by (rewrite (fset_other _ (S L)) by lia; exact FK2) end.
    destruct (rep_on K K2 _ _ _ _ _ _ _ _ _ _ _ _ (fun m => Some (setPar m (at_ (S L) (Q (S L) n)))) _ R3 FK3 eq_refl) as (t4 & ET4 & R4). rewrite ET4. cbn [bind].
    match type of R4 with Rvt_Proofs2.Rep _ _ ?f _ _ _ _ _ _ _ => assert (FW4 : f (S L) (Q (S L) n) = Some wn) by (rewrite (fset_other _ L) by lia; apply fset_same) end.
    assert (PU : push wn (at_ L (Q L n)) = Some (mkN nullId [at_ L (Q L n)] (Some (Q L n mod K + 1)) (iv (at_ (S L) (Q (S L) n))) (iv (at_ (S L) (Q (S L) n))))) by (apply push_new; auto).
    destruct (rep_on K K2 _ _ _ _ _ _ _ _ _ _ _ _ (fun m => push m (at_ L (Q L n))) _ R4 FW4 PU) as (t5 & ET5 & R5). rewrite ET5. cbn [bind].
    destruct (rep_on K K2 _ _ _ _ _ _ _ _ _ _ _ _ (fun m => Some (addVal m (cur kn))) _ R5 (fset_same _ _ _ _) eq_refl) as (t6 & ET6 & R6). unfold addAt. rewrite ET6. cbn [bind].
    destruct (rep_arrAdd K _ _ _ _ _ _ _ _ _ (S L) (Q (S L) n) R6) as (t7 & ET7 & R7). { rewrite Nat.eqb_refl, lfc_out by lia. split; discriminate. }
    rewrite ET7. cbn [bind].
    destruct (IH (S L) t7) as (t8 & L8 & ET8 & A1 & A2 & A3 & A4); try lia; [|exists t8, L8; split; [exact ET8|]; split; [lia|]; auto].
    eapply rep_ext; [| | |exact R7].
    + intros k q. destruct (Nat.eq_dec k (S L)) as [->|NK].
      * destruct (N.eq_dec q (Q (S L) n)) as [->|NQ].
        -- rewrite fset_same. rewrite cn_in by lia. f_equal. unfold Rvt_Proofs2.nd. rewrite Nat.eqb_refl, KD2. cbn [map]. unfold Rvt_Model.addVal, setCur. cbn [par kids cnt ini cur]. rewrite CK. rewrite (val_one L (Q (S L) n) _ KD2) by lia. rewrite N.min_r by lia. f_equal. f_equal. rewrite mod_div by auto. rewrite (div_eq K K2 _ (Q (S L) n)) by lia. lia.
        -- rewrite (fset_other _ (S L)) by lia. rewrite (fset_other _ (S L)) by lia. rewrite (fset_other _ L) by lia. rewrite (fset_other _ (S L)) by lia. destruct (N.eq_dec q (Q (S L) a)) as [->|NQ2].
           ++ rewrite fset_same. rewrite cn_in by lia. f_equal. unfold Rvt_Proofs2.nd. rewrite Nat.eqb_refl, KD1. cbn [map]. unfold qn, Rvt_Model.addVal, setCur, setPar. cbn [par kids cnt ini cur]. rewrite CR. rewrite (val_one L (Q (S L) a) _ KD1) by lia. rewrite N.min_l by lia. f_equal. f_equal. rewrite mod_div by auto. rewrite (div_eq K K2 _ (Q (S L) a)) by lia. lia.
           ++ rewrite !fset_other by lia. rewrite !cn_out by lia. reflexivity.
      * rewrite (fset_other _ (S L)) by lia. rewrite (fset_other _ (S L)) by lia. destruct (Nat.eq_dec k L) as [->|NK2].
        -- rewrite cn_level by auto. destruct (N.eq_dec q (Q L n)) as [->|NQ].
           ++ rewrite fset_same, FK. cbn [option_map]. rewrite <- Q_S by auto. reflexivity.
           ++ rewrite (fset_other _ L) by lia. rewrite (fset_other _ (S L)) by lia. rewrite (fset_other _ (S L)) by lia. destruct (N.eq_dec q (Q L a)) as [->|NQ2].
              ** rewrite fset_same, FR. cbn [option_map]. rewrite <- Q_S by auto. reflexivity.
              ** rewrite !fset_other by lia. rewrite cn_out by lia. reflexivity.
        -- rewrite !fset_other by lia. destruct (Nat.lt_ge_cases k L); [apply cn_below; auto|rewrite !cn_out by lia; reflexivity].
    + intros k; cbv beta. rewrite Nat.eqb_refl. destruct (Nat.eqb_spec k (S L)) as [->|NK]; [rewrite lfc_out, lfc_in by lia; reflexivity|]. unfold Rvt_Proofs2.lfc. destruct (Nat.leb_spec k L), (Nat.leb_spec k (S L)); try lia; reflexivity.
    + intros k; cbv beta. destruct (Nat.eqb_spec k (S L)) as [->|NK]; [rewrite lfc_in by lia; congruence|]. unfold Rvt_Proofs2.lfc. destruct (Nat.leb_spec k L), (Nat.leb_spec k (S L)); try lia; reflexivity.
Qed.
End Grow.
End S.
