(** Proofs about the transfer of reserved pages. *)
From Coq Require Import List Arith NArith Bool Lia.
From Verif Require Import Lib_Bytes StPages_Model StPages_Proofs.
Import ListNotations.
Local Open Scope N_scope.

Lemma slice_len l o k : (o + k <= length l)%nat -> length (slice l o k) = k.
Proof. intros. unfold slice. rewrite firstn_length, skipn_length. lia. Qed.
Lemma slice_bytes l o k : Forall isByte l -> Forall isByte (slice l o k).
Proof. intros. unfold slice. apply Forall_forall. intros x I. rewrite Forall_forall in H. apply H. rewrite <- (firstn_skipn o l). apply in_or_app. right. rewrite <- (firstn_skipn k (skipn o l)). apply in_or_app; auto. Qed.
Lemma app_len_inj {A} (a b c d : list A) : length a = length c -> a ++ b = c ++ d -> a = c /\ b = d.
Proof. revert c. induction a as [|x a IH]; intros [|y c] L E; simpl in *; try lia; auto. inversion E; subst. destruct (IH c) as [-> ->]; auto. Qed.

Definition okD (d : dent) : Prop := let '(p, c, g) := d in p < 256 ^ 4 /\ c < 256 ^ 8 /\ length g = 32%nat.
Lemma encD_len d : okD d -> length (encD d) = 48%nat.
Proof. destruct d as [[p c] g]. intros (A & B & C). unfold encD. rewrite !app_length, !le_length, C. reflexivity. Qed.
Lemma encD_inj a b : okD a -> okD b -> encD a = encD b -> a = b.
Proof.
  destruct a as [[p c] g], b as [[p' c'] g']. intros (A & B & C) (A' & B' & C') E. unfold encD in E.
  apply app_len_inj in E; [|rewrite !le_length; auto]. destruct E as [E1 E]. apply app_len_inj in E; auto. destruct E as [_ E]. apply app_len_inj in E; [|rewrite !le_length; auto]. destruct E as [E2 E3].
  apply le_inj in E1; auto. apply le_inj in E2; auto. congruence.
Qed.
Lemma concat_inj a : forall b, Forall okD a -> Forall okD b -> length a = length b -> concat (map encD a) = concat (map encD b) -> a = b.
Proof.
  induction a as [|x a IH]; intros [|y b] A B L E; simpl in *; try lia; auto. inversion A; inversion B; subst. apply app_len_inj in E; [|rewrite !encD_len; auto]. destruct E as [E1 E2]. f_equal; [apply encD_inj; auto|]. apply IH; auto.
Qed.
Lemma encDesc_inj np a b : Forall okD a -> Forall okD b -> length a = length b -> encDesc np a = encDesc np b -> a = b.
Proof. intros A B L E. unfold encDesc in E. apply app_len_inj in E; auto. destruct E as [_ E]. apply app_len_inj in E; auto. destruct E as [_ E]. apply concat_inj; auto. Qed.
Lemma pagePre_inj p c x p' c' x' : p < 256 ^ 4 -> p' < 256 ^ 4 -> c < 256 ^ 8 -> c' < 256 ^ 8 -> 0 < c -> pagePre p c x = pagePre p' c' x' -> p = p' /\ c = c' /\ x = x'.
Proof.
  intros A A' B B' P E. unfold pagePre in E. apply app_len_inj in E; [|rewrite !le_length; auto]. destruct E as [E1 E]. apply app_len_inj in E; [|rewrite !le_length; auto]. destruct E as [E2 E]. apply le_inj in E1; auto. apply le_inj in E2; auto. subst.
  destruct (N.ltb_spec 0 c'); [auto|lia].
Qed.

(** Structure. *)
Lemma struct_loop known l : forall prev, structLoop known prev l = true ->
  (forall e, In e l -> known <= ckp e /\ isZero (dg e) = false /\ (forall q, prev = Some q -> q < pid e)) /\ NoDup (map pid l).
Proof.
  induction l as [|e l IH]; intros prev E; simpl in *; [split; [intros e []|constructor]|]. rewrite !andb_true_iff, !negb_true_iff in E. destruct E as [[[E1 E2] E3] E4]. apply N.ltb_ge in E1.
  destruct (IH _ E4) as [A B]. split.
  - intros x [<-|I]; [repeat split; auto|destruct (A x I) as (A1 & A2 & A3); repeat split; auto].
    + intros q ->. apply negb_true_iff in E3. apply N.leb_gt in E3. auto.
    + intros q ->. apply negb_true_iff in E3. apply N.leb_gt in E3. specialize (A3 _ eq_refl). lia.
  - constructor; auto. intros W. apply in_map_iff in W. destruct W as (x & Ex & Ix). destruct (A x Ix) as (_ & _ & A3). specialize (A3 _ eq_refl). lia.
Qed.
Lemma struct_len psz vb : checkStructure psz vb = true -> length vb = (12 + N.to_nat (hdrCount vb) * elementSize psz)%nat.
Proof.
  unfold checkStructure. destruct (Nat.ltb_spec (length vb) 12); [discriminate|]. destruct (Nat.eqb_spec ((length vb - 12) mod elementSize psz) 0) as [M|]; cbn [negb]; [|discriminate].
  destruct (N.eqb_spec (N.of_nat ((length vb - 12) / elementSize psz)) (hdrCount vb)) as [D|]; cbn [negb]; [|discriminate]. intros _. rewrite <- D, Nat2N.id.
  assert (elementSize psz <> 0)%nat by (unfold elementSize; lia). pose proof (Nat.div_mod (length vb - 12) (elementSize psz) H0). lia.
Qed.
Lemma struct_elements psz vb : Forall isByte vb -> checkStructure psz vb = true ->
  NoDup (map pid (elements psz vb)) /\ forall e, In e (elements psz vb) -> hdrKnown vb <= ckp e /\ isZero (dg e) = false /\ pid e < 256 ^ 4 /\ ckp e < 256 ^ 8 /\ length (dg e) = 32%nat /\ length (content e) = psz.
Proof.
  intros B C. pose proof (struct_len psz vb C) as L. unfold checkStructure in C. destruct (length vb <? 12)%nat; [discriminate|]. destruct (negb _); [discriminate|]. destruct (negb _); [discriminate|].
  apply struct_loop in C. destruct C as [C1 C2]. split; auto. intros e I. destruct (C1 e I) as (Q1 & Q2 & _). split; auto. split; auto. unfold elements in I. apply in_map_iff in I. destruct I as (i & <- & Ii). apply in_seq in Ii.
  assert (12 + i * elementSize psz + elementSize psz <= length vb)%nat. { rewrite L. nia. } unfold elementSize in *. unfold elementAt, elementSize. simpl pid. simpl ckp. simpl dg. simpl content.
  repeat split.
  - eapply N.lt_le_trans; [apply unle_bound, slice_bytes; auto|]. rewrite slice_len by lia. reflexivity.
  - eapply N.lt_le_trans; [apply unle_bound, slice_bytes; auto|]. rewrite slice_len by lia. reflexivity.
  - apply slice_len. lia.
  - apply slice_len. lia.
Qed.

Section T.
Variable H : bytes -> bytes.
Variables (np psz : nat).
Hypothesis NP : N.of_nat np <= 256 ^ 4.
Hypothesis H32 : forall x, length (H x) = 32%nat.

Definition byPid (l : list ent) (p : N) : option ent := find (fun e => pid e =? p) l.
Lemma overlay_spec known l : forall d d', NoDup (map pid l) -> overlay H known l d = inl d' ->
  (forall e, In e l -> dg e = H (pagePre (pid e) (ckp e) (content e)) /\ (N.to_nat (pid e) < length d)%nat) /\ length d' = length d /\
  forall i, nth i d' zeroD = match byPid l (N.of_nat i) with Some e => (pid e, ckp e, dg e) | None => nth i d zeroD end.
Proof.
  induction l as [|e l IH]; intros d d' ND; simpl.
  - intros E; inversion E; subst. split; [intros e []|]. split; auto.
  - destruct (list_eq_dec N.eq_dec (H (pagePre (pid e) (ckp e) (content e))) (dg e)) as [HE|]; simpl; [|discriminate].
    destruct (nth_error d (N.to_nat (pid e))) as [[[p0 c0] g0]|] eqn:NE; [|discriminate]. destruct (known <? c0); [discriminate|]. intros E. inversion ND; subst.
    assert (PX : (N.to_nat (pid e) < length d)%nat) by (apply nth_error_Some; congruence).
    destruct (IH _ _ H3 E) as (A & B & C). rewrite setNth_len in *. split; [|split; auto].
    + intros x [<-|I]; auto.
    + intros i. rewrite C. unfold byPid. simpl. destruct (N.eqb_spec (pid e) (N.of_nat i)) as [EI|NI].
      * destruct (find (fun e0 => pid e0 =? N.of_nat i) l) eqn:Fi.
        -- exfalso. apply find_some in Fi. destruct Fi as [F1 F2]. apply N.eqb_eq in F2. apply H2. rewrite EI, <- F2. apply in_map; auto.
        -- rewrite setNth_nth by auto. destruct (Nat.eqb_spec i (N.to_nat (pid e))); auto. exfalso. apply n. rewrite EI, Nat2N.id. auto.
      * destruct (find _ l); auto. rewrite setNth_nth by auto. destruct (Nat.eqb_spec i (N.to_nat (pid e))) as [EI|]; auto. exfalso. apply NI. rewrite EI, N2Nat.id. auto.
Qed.
Lemma overlay_ok known l : forall d, (forall e, In e l -> dg e = H (pagePre (pid e) (ckp e) (content e)) /\ (N.to_nat (pid e) < length d)%nat) -> NoDup (map pid l) ->
  (forall e, In e l -> let '(_, c0, _) := nth (N.to_nat (pid e)) d zeroD in c0 <= known) -> exists d', overlay H known l d = inl d'.
Proof.
  induction l as [|e l IH]; intros d A ND B; simpl; [eauto|]. destruct (A e (or_introl eq_refl)) as [A1 A2]. destruct (list_eq_dec _ _ _) as [|NE]; [|congruence]. simpl. inversion ND; subst.
  assert (X : nth_error d (N.to_nat (pid e)) = Some (nth (N.to_nat (pid e)) d zeroD)) by (apply nth_error_nth'; auto). rewrite X. pose proof (B e (or_introl eq_refl)) as Be. destruct (nth (N.to_nat (pid e)) d zeroD) as [[p0 c0] g0].
  destruct (N.ltb_spec known c0); [lia|]. apply IH; auto.
  - intros x I. rewrite setNth_len. apply A; right; auto.
  - intros x I. rewrite setNth_nth by auto. destruct (Nat.eqb_spec (N.to_nat (pid x)) (N.to_nat (pid e))) as [EQ|]; [|apply B; right; auto]. exfalso. apply H2. apply N2Nat.inj in EQ. rewrite <- EQ. apply in_map; auto.
Qed.

Lemma storeOk_pid l c : storeOk H np psz l c -> forall y, In y l -> pid y < N.of_nat np /\ 0 < ckp y.
Proof. intros (_ & A) y I. specialize (A y I). tauto. Qed.
Lemma descF_len l c : length (descF np l c) = np. Proof. unfold descF. rewrite map_length, seq_length. auto. Qed.
Lemma descF_nth l c i : (i < np)%nat -> nth i (descF np l c) zeroD = dOf (F l (N.of_nat i) c) zeroD.
Proof. intros. unfold descF. rewrite (nth_map_seq (fun i => dOf (F l (N.of_nat i) c) zeroD) np i zeroD) by auto. reflexivity. Qed.
Lemma descF_ok l c c' : storeOk H np psz l c' -> c < 256 ^ 8 -> Forall okD (descF np l c).
Proof.
  intros (_ & A) C. apply Forall_forall. intros d I. unfold descF in I. apply in_map_iff in I. destruct I as (i & <- & Ii). destruct (F l (N.of_nat i) c) eqn:E; simpl; [|split; [lia|split; [lia|reflexivity]]].
  apply F_some in E. destruct E as (E1 & E2 & E3). destruct (A e E1) as (A1 & A2 & A3 & A4 & A5). split; [lia|]. split; [lia|]. rewrite A4. auto.
Qed.
Lemma F_above l c c' p : (forall e, In e l -> ckp e <= c) -> c <= c' -> F l p c' = F l p c.
Proof.
  intros A L. unfold F. induction l as [|x l IH]; simpl; auto. rewrite IH by (intros; apply A; right; auto). assert (mt p c' x = mt p c x) as ->; auto. unfold mt. destruct (pid x =? p); auto. simpl. pose proof (A x (or_introl eq_refl)).
  destruct (N.leb_spec (ckp x) c'); destruct (N.leb_spec (ckp x) c); auto; lia.
Qed.

(** All strings that are hashed in one transfer. *)
Definition hashedIn (S D : list ent) (L target : N) (vb : bytes) (dS dD : list dent) : list bytes :=
  [encDesc np dS; encDesc np dD] ++ map (fun e => pagePre (pid e) (ckp e) (content e)) (S ++ D ++ elements psz vb).

Section M.
Variables (S D : list ent) (cS L target : N) (vb : bytes).
Hypothesis OS : storeOk H np psz S cS.
Hypothesis OD : storeOk H np psz D L.
Hypothesis LT : L <= target.
Hypothesis TB : target < 256 ^ 8.
Hypothesis VB : Forall isByte vb.
Let dS := descF np S target.
Hypothesis NC : forall dD, overlay H (hdrKnown vb) (elements psz vb) (descF np D (hdrKnown vb)) = inl dD -> noCollision H (hashedIn S D L target vb dS dD).
Hypothesis AC : checkVB H np psz D L (H (encDesc np dS)) vb = Accept.

Lemma overlay_not_accept known l : forall d, overlay H known l d <> inr Accept.
Proof. clear. induction l as [|e l IH]; intros d; simpl; [discriminate|]. destruct (negb _); [discriminate|]. destruct (nth_error _ _) as [[[p0 c0] g0]|]; [|discriminate]. destruct (known <? c0); [discriminate|]. apply IH. Qed.
Lemma accept_facts : checkStructure psz vb = true /\ hdrKnown vb = L /\ overlay H L (elements psz vb) (descF np D L) = inl dS.
Proof.
  unfold checkVB in AC. destruct (checkStructure psz vb) eqn:CS; [|discriminate]. simpl in AC. destruct (N.eqb_spec L (hdrKnown vb)) as [EL|]; simpl in AC; [|discriminate]. rewrite <- EL in *.
  destruct (struct_elements psz vb VB CS) as [ND EP].
  pose proof (proj1 OD) as SD. rewrite (descriptor_F np D L SD (storeOk_pid D L OD)) in AC. destruct (overlay H L (elements psz vb) (descF np D L)) as [d'|v] eqn:OV; [|subst v; exfalso; eapply overlay_not_accept; eauto].
  destruct (list_eq_dec N.eq_dec (H (encDesc np d')) (H (encDesc np dS))) as [HE|]; [|discriminate]. split; auto. split; auto. f_equal.
  destruct (overlay_spec L _ _ _ ND OV) as (O1 & O2 & O3). rewrite descF_len in *.
  apply (encDesc_inj np).
  - apply Forall_forall. intros d Id. apply (In_nth _ _ zeroD) in Id. destruct Id as (i & Hi & <-). rewrite O3. destruct (byPid (elements psz vb) (N.of_nat i)) as [e|] eqn:BP.
    + apply find_some in BP. destruct BP as [BP _]. destruct (EP e BP) as (_ & _ & Q1 & Q2 & Q3 & _). simpl. auto.
    + eapply Forall_forall; [apply (descF_ok D L L OD); lia|]. apply nth_In. rewrite descF_len. lia.
  - apply (descF_ok S target cS OS TB).
  - unfold dS. rewrite O2, descF_len. auto.
  - apply (NC d' eq_refl); auto; simpl; auto.
Qed.

Lemma hashed_el (dD : list dent) e : In e (S ++ D ++ elements psz vb) -> In (pagePre (pid e) (ckp e) (content e)) (hashedIn S D L target vb dS dD).
Proof. clear. intros I. unfold hashedIn. apply in_or_app. right. apply in_map_iff. exists e. auto. Qed.
Lemma nc' : noCollision H (hashedIn S D L target vb dS dS).
Proof. destruct accept_facts as (A & B & C). apply NC. rewrite B. auto. Qed.

(** What the accepted elements are. *)
Lemma page_cases p : p < N.of_nat np ->
  (exists e x, In e (elements psz vb) /\ pid e = p /\ F S p target = Some x /\ ckp e = ckp x /\ dg e = dg x /\ content e = content x /\ L <= ckp e /\ 0 < ckp e /\ ckp e <= target) \/
  ((forall e, In e (elements psz vb) -> pid e <> p) /\
   match F S p target, F D p L with Some x, Some y => ckp x = ckp y /\ dg x = dg y /\ content x = content y | None, None => True | _, _ => False end).
Proof.
  intros P. destruct accept_facts as (CS & EL & OV). destruct (struct_elements psz vb VB CS) as [ND EP]. destruct (overlay_spec L _ _ _ ND OV) as (O1 & O2 & O3).
  specialize (O3 (N.to_nat p)). rewrite N2Nat.id in O3. assert (PN : (N.to_nat p < np)%nat) by lia. unfold dS in O3. rewrite !descF_nth in O3 by auto. rewrite N2Nat.id in O3.
  destruct OS as [_ AS]. destruct OD as [_ AD].
  destruct (byPid (elements psz vb) p) as [e|] eqn:BP.
  - left. apply find_some in BP. destruct BP as [I E]. apply N.eqb_eq in E. destruct (EP e I) as (Q0 & Q1 & Q2 & Q3 & Q4 & Q5). destruct (F S p target) as [x|] eqn:FS.
    + simpl in O3. inversion O3 as [[X1 X2 X3]]. apply F_some in FS. destruct FS as (F1 & F2 & F3). destruct (AS x F1) as (A1 & A2 & A3 & A4 & A5). exists e, x. rewrite EL in Q0.
      assert (HH : H (pagePre (pid e) (ckp e) (content e)) = H (pagePre (pid x) (ckp x) (content x))) by (rewrite <- A4; rewrite <- (proj1 (O1 e I)); auto).
      apply nc' in HH; [|apply hashed_el; apply in_or_app; right; apply in_or_app; auto|apply hashed_el; apply in_or_app; auto].
      apply pagePre_inj in HH; try lia. repeat split; auto; try tauto; lia.
    + exfalso. simpl in O3. unfold zeroD in O3. inversion O3 as [[X1 X2 X3]]. rewrite <- X3 in Q1. vm_compute in Q1. discriminate.
  - right. split; [intros e I E; pose proof (find_none _ _ BP e I) as Q; simpl in Q; apply N.eqb_neq in Q; auto|].
    destruct (F S p target) as [x|] eqn:FS; destruct (F D p L) as [y|] eqn:FD; simpl in O3; auto.
    + apply F_some in FS. destruct FS as (F1 & F2 & F3). destruct (AS x F1) as (A1 & A2 & A3 & A4 & A5). apply F_some in FD. destruct FD as (G1 & G2 & G3). destruct (AD y G1) as (B1 & B2 & B3 & B4 & B5). inversion O3 as [[X1 X2 X3]].
      assert (HH : H (pagePre (pid x) (ckp x) (content x)) = H (pagePre (pid y) (ckp y) (content y))) by (rewrite <- A4, <- B4; auto).
      apply nc' in HH; [|apply hashed_el; apply in_or_app; auto|apply hashed_el; apply in_or_app; right; apply in_or_app; auto]. apply pagePre_inj in HH; try lia. tauto.
    + apply F_some in FS. destruct FS as (F1 & F2 & F3). destruct (AS x F1) as (A1 & A2 & _). unfold zeroD in O3. inversion O3. lia.
    + apply F_some in FD. destruct FD as (G1 & G2 & G3). destruct (AD y G1) as (B1 & B2 & _). unfold zeroD in O3. inversion O3. lia.
Qed.

Variable D' : list ent.
Hypothesis AP : applyVB psz D L target vb = Some D'.
Lemma applied_pages p : p < N.of_nat np -> option_map content (F D' p target) = option_map content (F S p target) /\ option_map ckp (F D' p target) = option_map ckp (F S p target).
Proof.
  intros P. destruct accept_facts as (CS & EL & OV). destruct (struct_elements psz vb VB CS) as [ND EP]. unfold applyVB in AP. destruct (page_cases p P) as [(e & x & I & E & FS & C1 & C2 & C3 & C4 & C5 & C6)|[NI M]].
  - assert (AM : forall y, In y D -> pid y = pid e -> ckp y <= ckp e). { intros y Iy _. destruct OD as [_ AD]. specialize (AD y Iy). lia. }
    destruct (apply_same _ _ target e ND I C6 D D' AM AP) as (e' & Q1 & Q2 & Q3 & Q4 & Q5). rewrite E in Q1. rewrite Q1, FS. simpl. split; congruence.
  - rewrite (apply_other _ _ p target NI D D' AP). rewrite (F_above D L target) by (try (intros e Ie; destruct OD as [_ AD]; specialize (AD e Ie); tauto); auto).
    destruct (F S p target), (F D p L); simpl; try tauto. destruct M as (M1 & M2 & M3). split; congruence.
Qed.
Lemma applied_store : L < target -> storeOk H np psz D' target /\ descriptor np D' target = Some dS.
Proof.
  intros LL. destruct accept_facts as (CS & EL & OV). destruct (struct_elements psz vb VB CS) as [ND EP]. unfold applyVB in AP. destruct (N.eqb_spec target L) as [|NE]; [lia|]. simpl in AP.
  destruct (overlay_spec L _ _ _ ND OV) as (O1 & O2 & O3). pose proof OD as [SD AD].
  assert (SO : sortedE D') by (eapply apply_sorted; eauto).
  assert (OK : storeOk H np psz D' target).
  { split; auto. intros y Iy. destruct (apply_in _ _ _ _ AP Iy) as [Q|Q].
    - destruct (AD y Q) as (A1 & A2 & A3 & A4). repeat split; try tauto. lia.
    - destruct (O1 y Q) as [O1a O1b]. rewrite descF_len in O1b. assert (P : pid y < N.of_nat np) by lia. destruct (page_cases (pid y) P) as [(e & x & I & E & FS & C1 & C2 & C3 & C4 & C5 & C6)|[NI _]]; [|exfalso; eapply NI; eauto].
      assert (e = y). { destruct (In_nth _ _ y I) as (i & Hi & Ei). destruct (In_nth _ _ y Q) as (j & Hj & Ej). assert (i = j); [|congruence]. apply (NoDup_nth (map pid (elements psz vb)) 0); auto; try (rewrite map_length; auto).
        rewrite (nth_indep _ 0 (pid y)) by (rewrite map_length; auto). rewrite (nth_indep _ 0 (pid y) (n := j)) by (rewrite map_length; auto). rewrite !map_nth, Ei, Ej. auto. }
      subst e. destruct (EP y Q) as (_ & _ & _ & _ & _ & Q5). repeat split; auto. }
  split; auto. rewrite (descriptor_F np D' target SO (storeOk_pid D' target OK)). f_equal. unfold dS, descF. apply map_ext_in. intros i Ii. apply in_seq in Ii. assert (P : N.of_nat i < N.of_nat np) by lia.
  destruct (page_cases _ P) as [(e & x & I & E & FS & C1 & C2 & C3 & C4 & C5 & C6)|[NI M]].
  - assert (AM : forall y, In y D -> pid y = pid e -> ckp y <= ckp e). { intros y Iy _. specialize (AD y Iy). lia. }
    destruct (apply_same _ _ target e ND I C6 D D' AM AP) as (e' & Q1 & Q2 & Q3 & Q4 & Q5). rewrite E in Q1. rewrite Q1, FS. simpl. rewrite (Q5 eq_refl). apply F_some in FS. f_equal; [f_equal|]; try tauto; try congruence. destruct FS as (_ & ? & _). congruence.
  - rewrite (apply_other _ _ _ target NI D D' AP). rewrite (F_above D L target) by (try (intros e Ie; specialize (AD e Ie); tauto); auto).
    destruct (F S (N.of_nat i) target) as [x|] eqn:FS; destruct (F D (N.of_nat i) L) as [y|] eqn:FD; simpl; try tauto. apply F_some in FS, FD. destruct FS as (_ & ? & _). destruct FD as (_ & ? & _). destruct M as (M1 & M2 & M3). congruence.
Qed.
End M.
End T.
