(** A virtual block made by a correct source is read back, accepted and applied. *)
From Coq Require Import List Arith NArith Bool Lia.
From Verif Require Import Lib_Bytes StPages_Model StPages_Proofs StPages_Proofs2.
Import ListNotations.
Local Open Scope N_scope.

Lemma slice_in l r o k : (o + k <= length l)%nat -> slice (l ++ r) o k = slice l o k.
Proof. intros Q. unfold slice. rewrite skipn_app. replace (o - length l)%nat with 0%nat by lia. simpl. rewrite firstn_app. rewrite skipn_length. replace (k - (length l - o))%nat with 0%nat by lia. simpl. apply app_nil_r. Qed.
Definition okE (psz : nat) (e : ent) : Prop := pid e < 256 ^ 4 /\ ckp e < 256 ^ 8 /\ length (dg e) = 32%nat /\ length (content e) = psz.
Lemma encEl_len psz e : okE psz e -> length (encEl e) = elementSize psz.
Proof. intros (A & B & C & D). unfold encEl. rewrite !app_length, !le_length, C, D. unfold elementSize. lia. Qed.
Lemma concat_len psz u : Forall (okE psz) u -> length (concat (map encEl u)) = (length u * elementSize psz)%nat.
Proof. induction 1; cbn [map concat length]; auto. rewrite app_length, (encEl_len psz) by auto. lia. Qed.
Lemma concat_slice psz u : Forall (okE psz) u -> forall i o k e0, (i < length u)%nat -> (o + k <= elementSize psz)%nat ->
  slice (concat (map encEl u)) (i * elementSize psz + o) k = slice (encEl (nth i u e0)) o k.
Proof.
  induction 1 as [|e u OK OKS IH]; intros i o k e0 Li Lo; simpl in Li; [lia|]. destruct i as [|i]; cbn [map concat nth].
  - rewrite Nat.mul_0_l, Nat.add_0_l. apply slice_in. rewrite (encEl_len psz) by auto. auto.
  - rewrite slice_app_skip by (rewrite (encEl_len psz) by auto; nia). rewrite (encEl_len psz) by auto. replace (Datatypes.S i * elementSize psz + o - elementSize psz)%nat with (i * elementSize psz + o)%nat by nia. apply IH; auto. lia.
Qed.
Lemma slice_all l k : length l = k -> slice l 0 k = l.
Proof. intros <-. unfold slice. simpl. apply firstn_all. Qed.
Lemma encEl_fields psz e : okE psz e -> unle (slice (encEl e) 0 4) = pid e /\ unle (slice (encEl e) 4 8) = ckp e /\ slice (encEl e) 12 32 = dg e /\ slice (encEl e) 44 psz = content e.
Proof.
  intros (A & B & C & D). unfold encEl. repeat split.
  - rewrite slice_app_here by (rewrite le_length; auto). apply unle_le; auto.
  - rewrite slice_app_skip by (rewrite le_length; lia). rewrite le_length. change (4 - 4)%nat with 0%nat. rewrite slice_app_here by (rewrite le_length; auto). apply unle_le; auto.
  - rewrite slice_app_skip by (rewrite le_length; lia). rewrite le_length. rewrite slice_app_skip by (rewrite le_length; lia). rewrite le_length. change (12 - 4 - 8)%nat with 0%nat. apply slice_app_here; auto.
  - rewrite slice_app_skip by (rewrite le_length; lia). rewrite le_length. rewrite slice_app_skip by (rewrite le_length; lia). rewrite le_length. rewrite slice_app_skip by lia. rewrite C. change (44 - 4 - 8 - 32)%nat with 0%nat. apply slice_all; auto.
Qed.

Section R.
Variables (psz : nat) (u : list ent) (known : N).
Hypothesis OK : Forall (okE psz) u.
Hypothesis LU : N.of_nat (length u) < 256 ^ 4.
Hypothesis KB : known < 256 ^ 8.
Definition mkVB : bytes := le 4 (N.of_nat (length u)) ++ le 8 known ++ concat (map encEl u).
Lemma vb_count : hdrCount mkVB = N.of_nat (length u).
Proof. unfold hdrCount, mkVB. rewrite slice_app_here by (rewrite le_length; auto). apply unle_le. auto. Qed.
Lemma vb_known : hdrKnown mkVB = known.
Proof. unfold hdrKnown, mkVB. rewrite slice_app_skip by (rewrite le_length; lia). rewrite le_length. change (4 - 4)%nat with 0%nat. rewrite slice_app_here by (rewrite le_length; auto). apply unle_le; auto. Qed.
Lemma vb_len : length mkVB = (12 + length u * elementSize psz)%nat.
Proof. unfold mkVB. rewrite !app_length, !le_length, (concat_len psz) by auto. lia. Qed.
Lemma vb_elements : elements psz mkVB = u.
Proof.
  unfold elements. rewrite vb_count, Nat2N.id. apply nth_ext with (d := elementAt psz mkVB 0) (d' := mkEnt 0 0 [] []); [rewrite map_length, seq_length; auto|]. intros i Hi. rewrite map_length, seq_length in Hi.
  rewrite map_nth, seq_nth by auto. rewrite Nat.add_0_l. unfold elementAt.
  assert (SL : forall o k, (o + k <= elementSize psz)%nat -> slice mkVB (12 + i * elementSize psz + o) k = slice (encEl (nth i u (mkEnt 0 0 [] []))) o k).
  { intros o k Q. unfold mkVB. rewrite app_assoc. rewrite slice_app_skip by (rewrite app_length, !le_length; lia). rewrite app_length, !le_length. replace (12 + i * elementSize psz + o - (4 + 8))%nat with (i * elementSize psz + o)%nat by lia. apply concat_slice; auto. }
  pose proof (SL 0%nat 4%nat) as S0. rewrite Nat.add_0_r in S0.
  assert (OKi : okE psz (nth i u (mkEnt 0 0 [] []))) by (eapply Forall_forall; [exact OK|apply nth_In; auto]). destruct (encEl_fields psz _ OKi) as (E1 & E2 & E3 & E4). unfold elementSize in *.
  rewrite S0 by lia. rewrite !SL by lia. rewrite E1, E2, E3, E4. destruct (nth i u _); auto.
Qed.
Lemma vb_bytes : (forall e, In e u -> Forall isByte (dg e) /\ Forall isByte (content e)) -> Forall isByte mkVB.
Proof.
  intros A. unfold mkVB. apply Forall_app; split; [apply le_bytes|]. apply Forall_app; split; [apply le_bytes|]. apply Forall_concat. apply Forall_forall. intros x I. apply in_map_iff in I. destruct I as (e & <- & I). destruct (A e I).
  unfold encEl. repeat (apply Forall_app; split; auto using le_bytes).
Qed.
Lemma vb_struct : structLoop known None u = true -> checkStructure psz mkVB = true.
Proof.
  intros SL. unfold checkStructure. rewrite vb_elements, vb_known, vb_count, vb_len. replace (12 + length u * elementSize psz - 12)%nat with (length u * elementSize psz)%nat by lia.
  assert (elementSize psz <> 0)%nat by (unfold elementSize; lia). rewrite Nat.mod_mul, Nat.div_mul by auto. rewrite N.eqb_refl. destruct (Nat.ltb_spec (12 + length u * elementSize psz) 12); [lia|]. simpl. auto.
Qed.
End R.

Lemma struct_flat known g n : (forall i e, g i = Some e -> pid e = N.of_nat i /\ known < ckp e /\ isZero (dg e) = false) -> forall a prev, (forall q, prev = Some q -> q < N.of_nat a) ->
  structLoop known prev (flat_map (fun i => match g i with Some e => [e] | None => [] end) (seq a n)) = true.
Proof.
  intros A. induction n as [|n IH]; intros a prev P; simpl; auto. destruct (g a) as [e|] eqn:G; simpl.
  - destruct (A a e G) as (A1 & A2 & A3). rewrite A3. destruct (N.ltb_spec (ckp e) known); [lia|]. simpl. apply andb_true_iff. split.
    + destruct prev as [q|]; auto. specialize (P q eq_refl). apply negb_true_iff, N.leb_gt. lia.
    + apply IH. intros q E. inversion E; subst. lia.
  - apply IH. intros q E. specialize (P q E). lia.
Qed.

Section T.
Variable H : bytes -> bytes.
Variables (np psz : nat).
Hypothesis NP : N.of_nat np < 256 ^ 4.
Hypothesis H32 : forall x, length (H x) = 32%nat.
Hypothesis HZ : forall x, isZero (H x) = false.
Variables (S D : list ent) (cS L target : N).
Hypothesis OS : storeOk H np psz S cS.
Hypothesis OD : storeOk H np psz D L.
Hypothesis LT : L <= target.
Hypothesis TB : target < 256 ^ 8.
(** The destination agrees with the source on the pages the source has not changed since L. *)
Hypothesis AG : forall p, match F S p target with
  | Some x => ckp x <= L -> exists y, F D p L = Some y /\ ckp y = ckp x /\ dg y = dg x
  | None => F D p L = None end.

Definition gUp (i : nat) : option ent := match F S (N.of_nat i) target with Some e => if L <? ckp e then Some e else None | None => None end.
Lemma updated_flat : updated np S target L = flat_map (fun i => match gUp i with Some e => [e] | None => [] end) (seq 0 np).
Proof.
  unfold updated, gUp. rewrite !flat_map_concat_map. f_equal. apply map_ext. intros i. rewrite getRes_F by (apply OS). destruct (F S (N.of_nat i) target) as [e|]; auto. destruct (L <? ckp e); auto.
Qed.
Lemma gUp_spec i e : gUp i = Some e -> In e S /\ pid e = N.of_nat i /\ L < ckp e /\ ckp e <= target /\ F S (N.of_nat i) target = Some e.
Proof. unfold gUp. destruct (F S (N.of_nat i) target) as [x|] eqn:E; [|discriminate]. destruct (N.ltb_spec L (ckp x)); [|discriminate]. intros Q; inversion Q; subst. apply F_some in E as E'. tauto. Qed.
Lemma updated_in e : In e (updated np S target L) <-> exists i, (i < np)%nat /\ gUp i = Some e.
Proof.
  rewrite updated_flat, in_flat_map. split.
  - intros (i & Ii & I). apply in_seq in Ii. destruct (gUp i) eqn:G; [|destruct I]. destruct I as [<-|[]]. exists i. split; auto. lia.
  - intros (i & Li & G). exists i. split; [apply in_seq; lia|]. rewrite G. left; auto.
Qed.
Lemma updated_len : (length (updated np S target L) <= np)%nat.
Proof.
  rewrite updated_flat. rewrite <- (seq_length np 0) at 2. generalize (seq 0 np). induction l as [|i l IH]; simpl; auto. rewrite app_length. destruct (gUp i); simpl; lia.
Qed.
Lemma updated_ok : Forall (okE psz) (updated np S target L).
Proof.
  apply Forall_forall. intros e I. apply updated_in in I. destruct I as (i & Li & G). apply gUp_spec in G. destruct G as (G1 & G2 & G3 & G4 & _). destruct OS as [_ AS]. destruct (AS e G1) as (A1 & A2 & A3 & A4 & A5). repeat split; auto; try lia. rewrite A4. auto.
Qed.

Lemma source_accepted : exists vb, createVBlock np S target L = Some vb /\
  checkVB H np psz D L (H (encDesc np (descF np S target))) vb = Accept /\ (exists D', applyVB psz D L target vb = Some D') /\
  ((forall e, In e S -> Forall isByte (dg e) /\ Forall isByte (content e)) -> Forall isByte vb).
Proof.
  set (u := updated np S target L). exists (mkVB u L).
  assert (EZ : existsb (fun e => isZero (dg e)) u = false).
  { destruct (existsb _ u) eqn:X; auto. apply existsb_exists in X. destruct X as (e & I & Z). apply updated_in in I. destruct I as (i & Li & G). apply gUp_spec in G. destruct OS as [_ AS]. destruct (AS e (proj1 G)) as (_ & _ & _ & A4 & _). rewrite A4, HZ in Z. discriminate. }
  pose proof updated_len as UL. pose proof updated_ok as UO. fold u in UL, UO.
  assert (CN : N.of_nat (length u) < 256 ^ 4) by lia. assert (LB : L < 256 ^ 8) by lia.
  assert (SL : structLoop L None u = true).
  { unfold u. rewrite updated_flat. apply struct_flat; [|intros; discriminate]. intros i e G. apply gUp_spec in G. destruct G as (G1 & G2 & G3 & G4 & _). repeat split; auto. destruct OS as [_ AS]. destruct (AS e G1) as (_ & _ & _ & A4 & _). rewrite A4. auto. }
  pose proof (struct_loop L u None SL) as [SE ND].
  assert (EQu : forall e, In e u -> dg e = H (pagePre (pid e) (ckp e) (content e)) /\ pid e < N.of_nat np /\ L < ckp e /\ ckp e <= target /\ F S (pid e) target = Some e).
  { intros e I. apply updated_in in I. destruct I as (i & Li & G). apply gUp_spec in G. destruct G as (G1 & G2 & G3 & G4 & G5). destruct OS as [_ AS]. destruct (AS e G1) as (A1 & A2 & A3 & A4 & A5). rewrite <- G2 in G5. repeat split; auto. }
  split; [unfold createVBlock; fold u; rewrite EZ; reflexivity|]. split; [|split].
  - unfold checkVB. rewrite vb_struct by auto. rewrite vb_known by auto. rewrite N.eqb_refl. cbn [negb]. pose proof OD as [SD AD]. rewrite (descriptor_F np D L SD (storeOk_pid H np psz D L OD)). rewrite vb_elements by auto.
    destruct (overlay_ok H np (N.lt_le_incl _ _ NP) L u (descF np D L)) as (d' & OV); auto.
    { intros e I. destruct (EQu e I) as (Q1 & Q2 & _). split; auto. rewrite descF_len. lia. }
    { intros e I. destruct (EQu e I) as (Q1 & Q2 & _). rewrite descF_nth by lia. rewrite N2Nat.id. destruct (F D (pid e) L) as [y|] eqn:Y; simpl; [|lia]. apply F_some in Y. lia. }
    rewrite OV. destruct (overlay_spec H L _ _ _ ND OV) as (O1 & O2 & O3). rewrite descF_len in O2.
    assert (d' = descF np S target) as ->.
    { apply nth_ext with (d := zeroD) (d' := zeroD); [rewrite descF_len; auto|]. intros i Hi. rewrite O2 in Hi. rewrite O3. rewrite !descF_nth by auto.
      destruct (byPid u (N.of_nat i)) as [e|] eqn:BP.
      - apply find_some in BP. destruct BP as [I E]. apply N.eqb_eq in E. destruct (EQu e I) as (_ & _ & _ & _ & Q). rewrite <- E, Q. reflexivity.
      - specialize (AG (N.of_nat i)). destruct (F S (N.of_nat i) target) as [x|] eqn:FS.
        + destruct (N.leb_spec (ckp x) L) as [LX|GX].
          * destruct (AG LX) as (y & Y1 & Y2 & Y3). rewrite Y1. simpl. apply F_some in Y1. apply F_some in FS. destruct Y1 as (_ & Y1 & _). destruct FS as (_ & FS & _). congruence.
          * exfalso. assert (I : In x u). { apply updated_in. exists i. split; auto. unfold gUp. rewrite FS. destruct (N.ltb_spec L (ckp x)); auto. lia. }
            pose proof (find_none _ _ BP x I) as Q. simpl in Q. apply N.eqb_neq in Q. apply F_some in FS. tauto.
        + rewrite AG. reflexivity. }
    destruct (list_eq_dec N.eq_dec _ _); congruence.
  - unfold applyVB. rewrite vb_elements by auto. destruct (N.eqb_spec target L) as [->|NE]; cbn [negb].
    + clear - psz. generalize D as l. induction u as [|e v IH]; intros l; simpl; eauto.
    + apply apply_total; auto. intros e x Ie Ix _. destruct (EQu e Ie) as (_ & _ & Q & _). destruct OD as [_ AD]. destruct (AD x Ix) as (_ & _ & W & _). lia.
  - intros AB. apply vb_bytes. intros e I. apply AB. apply updated_in in I. destruct I as (i & Li & G). apply gUp_spec in G. tauto.
Qed.
End T.
