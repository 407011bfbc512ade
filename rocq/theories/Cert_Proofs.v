(** Proofs about message certificates. *)
From Coq Require Import List Arith Bool Lia.
From Verif Require Import Cert_Model.
Import ListNotations.

Section C.
Context {M : Type}.
Variable eqv : M -> M -> bool.
Variables (self keep : bool) (nReps maxFails required selfId : nat).
Hypothesis EQ : equivalence eqv.
Notation cert := (cert M).
Notation addMsg := (addMsg M eqv self keep nReps required selfId).
Notation addPeer := (addPeer M eqv self keep nReps required selfId).
Notation addSelf := (addSelf M eqv self keep nReps required selfId).
Notation crun := (crun M eqv self keep nReps required selfId).
Notation sup := (support eqv).
Notation msgOf := (msgOf M).
Notation hasMsg := (hasMsg M).
Notation cls := (cls M). Notation msgs := (msgs M). Notation complete := (complete M). Notation full := (full M).
Notation best := (best M). Notation bestSize := (bestSize M). Notation trusted := (trusted M).

Lemma eqv_refl a : eqv a a = true. Proof. destruct EQ as (A & B & C). eauto. Qed.
Lemma eqv_sym a b : eqv a b = true -> eqv b a = true. Proof. destruct EQ as (A & B & C). eauto. Qed.
Lemma eqv_trans a b c : eqv a b = true -> eqv b c = true -> eqv a c = true. Proof. destruct EQ as (A & B & C). eauto. Qed.

Lemma hasMsg_in l r : hasMsg l r = true <-> In r (map fst l).
Proof.
  unfold Cert_Model.hasMsg. rewrite existsb_exists. split.
  - intros (x & Hx & E). apply Nat.eqb_eq in E. subst. apply in_map; auto.
  - intros H. apply in_map_iff in H. destruct H as (x & <- & Hx). exists x. split; auto. apply Nat.eqb_refl.
Qed.
Lemma msgOf_in l r m : NoDup (map fst l) -> In (r, m) l -> msgOf l r = Some m.
Proof.
  unfold Cert_Model.msgOf. induction l as [|[a b] l IH]; simpl; intros ND H; [contradiction|]. inversion ND; subst.
  destruct H as [H|H].
  - inversion H; subst. rewrite Nat.eqb_refl. auto.
  - destruct (Nat.eqb_spec a r); [|apply IH; auto]. subst. exfalso. apply H2. apply (in_map fst) in H. auto.
Qed.
Lemma sup_app l l' m : sup (l ++ l') m = sup l m + sup l' m.
Proof. unfold support. rewrite filter_app, app_length. auto. Qed.
Lemma sup_one r x m : sup [(r, x)] m = if eqv m x then 1 else 0.
Proof. unfold support. simpl. destruct (eqv m x); auto. Qed.
Lemma sup_eqv l m m' : eqv m m' = true -> sup l m = sup l m'.
Proof.
  intros E. unfold support. f_equal. apply filter_ext. intros x. destruct (eqv m' (snd x)) eqn:A.
  - eapply eqv_trans; eauto.
  - destruct (eqv m (snd x)) eqn:B; auto. rewrite <- A. symmetry. eapply eqv_trans; [apply eqv_sym; eauto|auto].
Qed.
Lemma sup_pos l r m : In (r, m) l -> 1 <= sup l m.
Proof.
  intros H. unfold support. assert (W : In (r, m) (filter (fun x => eqv m (snd x)) l)) by (apply filter_In; split; auto; apply eqv_refl).
  destruct (filter _ l); [contradiction|simpl; lia].
Qed.
Lemma nodup_app_l {A} (a b : list A) : NoDup (a ++ b) -> NoDup a.
Proof. induction a; simpl; intros H; [constructor|]. inversion H; subst. constructor; auto. intros Q. apply H2. apply in_or_app; auto. Qed.

(** Classes partition the processed messages [l]. *)
Definition clsOk (l : list (nat * M)) (c : list (nat * nat)) : Prop :=
  (forall i z r, nth_error c i = Some (z, r) -> exists m, In (r, m) l /\ z = sup l m) /\
  (forall i j zi ri zj rj mi mj, nth_error c i = Some (zi, ri) -> nth_error c j = Some (zj, rj) -> In (ri, mi) l -> In (rj, mj) l -> eqv mi mj = true -> i = j) /\
  (forall x, In x l -> exists i z r m, nth_error c i = Some (z, r) /\ In (r, m) l /\ eqv m (snd x) = true) /\
  length c <= length l.
Definition bestOk (s : cert) : Prop :=
  match best s with
  | None => cls s = [] /\ bestSize s = 0
  | Some b => (exists r, nth_error (cls s) b = Some (bestSize s, r)) /\ forall i z r, nth_error (cls s) i = Some (z, r) -> z <= bestSize s
  end.
Definition PeerInv (l : list (nat * M)) (s : cert) : Prop :=
  trusted s = false /\ clsOk l (cls s) /\ bestOk s /\
  (if self then complete s = false /\ full s = false /\ ~ In selfId (map fst l)
   else complete s = (required <=? bestSize s) /\ full s = keep && (nReps <=? bestSize s)).
Definition TrustInv (l : list (nat * M)) (s : cert) : Prop :=
  trusted s = true /\ self = true /\ exists a m0 b z, l = a ++ (selfId, m0) :: b /\ z = sup l m0 + (if sup a m0 =? 0 then 0 else 1) /\
  cls s = [(z, selfId)] /\ best s = Some 0 /\ bestSize s = z /\ complete s = (required <=? z) /\ full s = keep && (nReps <=? z).
Definition Inv (s : cert) : Prop :=
  NoDup (map fst (msgs s)) /\ (forall r, In r (map fst (msgs s)) -> r < nReps) /\
  exists l rest, msgs s = l ++ rest /\ (rest = [] \/ (complete s = true /\ keep && negb (full s) = false)) /\ (PeerInv l s \/ TrustInv l s).

Lemma findCls_spec l (ml : list (nat * M)) c m : NoDup (map fst ml) -> incl l ml -> (forall i z r, nth_error c i = Some (z, r) -> exists m, In (r, m) l) -> forall k,
  exists o, findCls M eqv ml c m k = Some o /\
  match o with
  | Some j => exists i z r m', j = k + i /\ nth_error c i = Some (z, r) /\ In (r, m') l /\ eqv m' m = true
  | None => forall i z r m', nth_error c i = Some (z, r) -> In (r, m') l -> eqv m' m = false
  end.
Proof.
  intros ND IN. induction c as [|[z r] c IH]; intros H k.
  - exists None. split; auto. intros i z r m' E. destruct i; discriminate.
  - simpl. destruct (H 0 z r eq_refl) as (m0 & H0). rewrite (msgOf_in ml r m0 ND (IN _ H0)). destruct (eqv m0 m) eqn:E.
    + exists (Some k). split; auto. exists 0, z, r, m0. repeat split; auto.
    + destruct (IH (fun i => H (S i)) (S k)) as (o & Eo & Q). exists o. split; auto. destruct o as [j|].
      * destruct Q as (i & z' & r' & m' & Ej & Q). exists (S i), z', r', m'. split; [lia|auto].
      * intros i z' r' m' Ei Hm. destruct i; [|eapply Q; eauto]. simpl in Ei. inversion Ei; subst.
        assert (m' = m0); [|congruence]. pose proof (msgOf_in ml r' m' ND (IN _ Hm)). pose proof (msgOf_in ml r' m0 ND (IN _ H0)). congruence.
Qed.
Lemma incCls_nth c : forall i j, nth_error (incCls c i) j = if j =? i then match nth_error c j with Some (z, r) => Some (S z, r) | None => None end else nth_error c j.
Proof. induction c as [|[z r] c IH]; intros [|i] [|j]; simpl; auto; destruct (j =? i) eqn:E; auto; rewrite IH, E; auto. Qed.
Lemma incCls_len c : forall i, length (incCls c i) = length c.
Proof. induction c as [|[z r] c IH]; intros [|i]; simpl; auto. Qed.

Lemma clsOk_bump l c i z r m' m q : NoDup (map fst (l ++ [(q, m)])) -> clsOk l c -> nth_error c i = Some (z, r) -> In (r, m') l -> eqv m' m = true -> clsOk (l ++ [(q, m)]) (incCls c i).
Proof.
  intros ND (A & B & C & D) Ei Hm E.
  assert (FR : forall j zj rj, nth_error c j = Some (zj, rj) -> forall mj, In (rj, mj) (l ++ [(q, m)]) -> In (rj, mj) l).
  { intros j zj rj Ej mj Hj. destruct (A _ _ _ Ej) as (mm & Hmm & _). assert (mj = mm); [|congruence].
    pose proof (msgOf_in _ rj mj ND Hj). pose proof (msgOf_in _ rj mm ND (in_or_app _ _ _ (or_introl Hmm))). congruence. }
  split; [|split; [|split]].
  - intros j zj rj Ej. rewrite incCls_nth in Ej. destruct (Nat.eqb_spec j i) as [->|N].
    + rewrite Ei in Ej. inversion Ej; subst. destruct (A _ _ _ Ei) as (mm & Hmm & ->). exists mm. split; [apply in_or_app; auto|].
      assert (mm = m'); [|subst; rewrite sup_app, sup_one, E; lia].
      pose proof (msgOf_in _ rj mm ND (in_or_app _ _ _ (or_introl Hmm))). pose proof (msgOf_in _ rj m' ND (in_or_app _ _ _ (or_introl Hm))). congruence.
    + destruct (A _ _ _ Ej) as (mm & Hmm & ->). exists mm. split; [apply in_or_app; auto|]. rewrite sup_app, sup_one. destruct (eqv mm m) eqn:E2; [|lia].
      exfalso. apply N. eapply (B j i); eauto. eapply eqv_trans; [exact E2|apply eqv_sym; auto].
  - intros a b za ra zb rb ma mb Ea Eb Ha Hb Em. rewrite incCls_nth in Ea, Eb.
    assert (Fa : exists za', nth_error c a = Some (za', ra)) by (destruct (a =? i); destruct (nth_error c a) as [[]|]; inversion Ea; subst; eauto).
    assert (Fb : exists zb', nth_error c b = Some (zb', rb)) by (destruct (b =? i); destruct (nth_error c b) as [[]|]; inversion Eb; subst; eauto).
    destruct Fa as (za' & Fa), Fb as (zb' & Fb). eapply (B a b); eauto.
  - intros x Hx. apply in_app_iff in Hx.
    assert (K : exists j z r m, nth_error c j = Some (z, r) /\ In (r, m) l /\ eqv m (snd x) = true).
    { destruct Hx as [Hx|[<-|[]]]; [apply C; auto|]. simpl. eauto 8. }
    destruct K as (j & zj & rj & mj & Ej & Hj & Em). exists j. rewrite incCls_nth. rewrite Ej. destruct (j =? i); do 3 eexists; (split; [reflexivity|split; [apply in_or_app; left; eauto|auto]]).
  - rewrite incCls_len, app_length. simpl. lia.
Qed.
Lemma clsOk_new l c m q : NoDup (map fst (l ++ [(q, m)])) -> clsOk l c -> (forall i z r m', nth_error c i = Some (z, r) -> In (r, m') l -> eqv m' m = false) ->
  clsOk (l ++ [(q, m)]) (c ++ [(1, q)]).
Proof.
  intros ND (A & B & C & D) N.
  assert (U : forall r a b, In (r, a) (l ++ [(q, m)]) -> In (r, b) (l ++ [(q, m)]) -> a = b).
  { intros r a b Ha Hb. pose proof (msgOf_in _ r a ND Ha). pose proof (msgOf_in _ r b ND Hb). congruence. }
  assert (NTH : forall j zj rj, nth_error (c ++ [(1, q)]) j = Some (zj, rj) -> nth_error c j = Some (zj, rj) \/ (j = length c /\ zj = 1 /\ rj = q)).
  { intros j zj rj Ej. destruct (Nat.lt_ge_cases j (length c)); [rewrite nth_error_app1 in Ej by auto; auto|]. rewrite nth_error_app2 in Ej by auto.
    destruct (j - length c) as [|t] eqn:Et; simpl in Ej; [inversion Ej; subst; right; split; [lia|auto]|destruct t; discriminate]. }
  assert (S0 : sup l m = 0).
  { unfold support. destruct (filter (fun x => eqv m (snd x)) l) as [|x t] eqn:F; auto. exfalso.
    assert (Hx : In x (filter (fun x => eqv m (snd x)) l)) by (rewrite F; left; auto). apply filter_In in Hx. destruct Hx as [Hx Ex].
    destruct (C x Hx) as (i & z & r & mm & Ei & Hmm & Em). 
    assert (eqv mm m = true) by (eapply eqv_trans; [exact Em|apply eqv_sym; auto]). rewrite (N _ _ _ _ Ei Hmm) in H. discriminate. }
  split; [|split; [|split]].
  - intros j zj rj Ej. apply NTH in Ej. destruct Ej as [Ej|(-> & -> & ->)].
    + destruct (A _ _ _ Ej) as (mm & Hmm & ->). exists mm. split; [apply in_or_app; auto|]. rewrite sup_app, sup_one, (N _ _ _ _ Ej Hmm). lia.
    + exists m. split; [apply in_or_app; right; left; auto|]. rewrite sup_app, sup_one, eqv_refl. lia.
  - intros a b za ra zb rb ma mb Ea Eb Ha Hb Em. apply NTH in Ea, Eb.
    destruct Ea as [Ea|(-> & -> & ->)], Eb as [Eb|(-> & -> & ->)]; auto.
    + destruct (A _ _ _ Ea) as (m1 & H1 & _), (A _ _ _ Eb) as (m2 & H2 & _).
      assert (m1 = ma) by (eapply U; [apply in_or_app; left|]; eauto). assert (m2 = mb) by (eapply U; [apply in_or_app; left|]; eauto). subst. eapply (B a b); eauto.
    + destruct (A _ _ _ Ea) as (m1 & H1 & _). assert (m1 = ma) by (eapply U; [apply in_or_app; left|]; eauto). assert (m = mb) by (eapply U; [apply in_or_app; right; left; reflexivity|eauto]).
      subst. rewrite (N _ _ _ _ Ea H1) in Em. discriminate.
    + destruct (A _ _ _ Eb) as (m1 & H1 & _). assert (m1 = mb) by (eapply U; [apply in_or_app; left|]; eauto). assert (m = ma) by (eapply U; [apply in_or_app; right; left; reflexivity|eauto]).
      subst. apply eqv_sym in Em. rewrite (N _ _ _ _ Eb H1) in Em. discriminate.
  - intros x Hx. apply in_app_iff in Hx. destruct Hx as [Hx|[<-|[]]].
    + destruct (C x Hx) as (j & zj & rj & mj & Ej & Hj & Em). exists j, zj, rj, mj. split; [|split; [apply in_or_app; auto|auto]].
      rewrite nth_error_app1; auto. apply nth_error_Some. congruence.
    + exists (length c), 1, q, m. rewrite nth_error_app2, Nat.sub_diag by lia. split; auto. split; [apply in_or_app; right; left; auto|apply eqv_refl].
  - rewrite !app_length. simpl. lia.
Qed.

Hypothesis REQ : 2 <= required.
Hypothesis NR : 2 <= nReps.
Lemma init_inv : Inv (cert0 M).
Proof.
  split; [constructor|]. split; [intros ? []|]. exists [], []. split; auto. split; auto. left. split; auto. split.
  - split; [intros [|i] z r H; discriminate|]. split; [intros [|i] j zi ri zj rj mi mj H; discriminate|]. split; [intros ? []|simpl; lia].
  - split; [split; auto|]. destruct self eqn:E; simpl; [auto|]. destruct (Nat.leb_spec required 0); [lia|]. destruct (Nat.leb_spec nReps 0); [lia|]. rewrite andb_false_r. auto.
Qed.
Lemma hasMsg_app l r m : hasMsg (l ++ [(r, m)]) r = true.
Proof. apply hasMsg_in. rewrite map_app. apply in_or_app. right. left. auto. Qed.
Lemma bump_ok (s : cert) i z r : bestOk s -> nth_error (cls s) i = Some (z, r) -> trusted s = false -> 1 <= z ->
  (if self then complete s = false /\ full s = false /\ hasMsg (msgs s) selfId = false
   else complete s = (required <=? bestSize s) /\ full s = keep && (nReps <=? bestSize s)) ->
  let s' := bump M self keep nReps required selfId s i in
  cls s' = incCls (cls s) i /\ msgs s' = msgs s /\ trusted s' = false /\ bestOk s' /\
  (if self then complete s' = false /\ full s' = false
   else complete s' = (required <=? bestSize s') /\ full s' = keep && (nReps <=? bestSize s')).
Proof.
  intros BO Ei TR Z F. unfold bump.
  assert (SZ : sizeAt (incCls (cls s) i) i = S z) by (unfold sizeAt; rewrite incCls_nth, Nat.eqb_refl, Ei; auto). rewrite SZ.
  assert (BB : exists b, best s = Some b) by (unfold bestOk in BO; destruct (best s); eauto; destruct BO as [E _]; rewrite E in Ei; destruct i; discriminate). destruct BB as (b & Eb).
  unfold bestOk in BO. rewrite Eb in BO. destruct BO as [(rb & Hb) MX].
  assert (Zb : z <= bestSize s) by (eapply MX; eauto).
  set (s1 := if bestSize s <? S z then mkCert M (msgs s) (incCls (cls s) i) (complete s) (full s) (Some i) (S z) (trusted s)
             else mkCert M (msgs s) (incCls (cls s) i) (complete s) (full s) (best s) (bestSize s) (trusted s)).
  assert (Q : cls s1 = incCls (cls s) i /\ msgs s1 = msgs s /\ trusted s1 = false /\ complete s1 = complete s /\ full s1 = full s /\ bestOk s1 /\
              exists b1, best s1 = Some b1 /\ bestSize s <= bestSize s1 /\ (b1 <> i -> bestSize s1 = bestSize s)).
  { unfold s1. destruct (Nat.ltb_spec (bestSize s) (S z)) as [L|L]; simpl; (split; [auto|]; split; [auto|]; split; [auto|]; split; [auto|]; split; [auto|]); split.
    - unfold bestOk. simpl. rewrite incCls_nth, Nat.eqb_refl, Ei. split; [eauto|]. intros j zj rj Ej. rewrite incCls_nth in Ej. destruct (j =? i).
      + destruct (nth_error (cls s) j) as [[x y]|] eqn:Ex; inversion Ej; subst. apply MX in Ex. lia.
      + apply MX in Ej. lia.
    - exists i. split; auto. split; [lia|congruence].
    - unfold bestOk. simpl. rewrite Eb. rewrite incCls_nth. destruct (Nat.eqb_spec b i).
      + subst. rewrite Hb in Ei. inversion Ei; subst. lia.
      + split; [eauto|]. intros j zj rj Ej. rewrite incCls_nth in Ej. destruct (Nat.eqb_spec j i).
        * subst. rewrite Ei in Ej. inversion Ej; subst. lia.
        * apply MX in Ej. lia.
    - exists b. split; auto. }
  clearbody s1. destruct Q as (Q1 & Q2 & Q3 & Q4 & Q5 & Q6 & b1 & Q7 & Q8 & Q9). rewrite Q7.
  set (s2 := if (b1 =? i) && (required <=? bestSize s1) then markC M self selfId s1 else s1).
  assert (P : cls s2 = cls s1 /\ msgs s2 = msgs s1 /\ trusted s2 = trusted s1 /\ bestSize s2 = bestSize s1 /\ best s2 = best s1 /\ full s2 = full s1 /\
              complete s2 = if self then complete s else (required <=? bestSize s1)).
  { unfold s2, markC. destruct self; cbn [negb orb].
    - destruct F as (F1 & F2 & F3). rewrite Q2, F3. destruct (_ && _); simpl; auto 10.
    - destruct F as (F1 & F2). destruct (Nat.eqb_spec b1 i); simpl.
      + destruct (Nat.leb_spec required (bestSize s1)); simpl; auto 10. repeat (split; auto). rewrite Q4, F1. destruct (Nat.leb_spec required (bestSize s)); auto; lia.
      + repeat (split; auto). rewrite Q9; auto. congruence. }
  clearbody s2. destruct P as (P1 & P2 & P3 & P4 & P5 & P6 & P7).
  assert (BO2 : bestOk s2) by (unfold bestOk in *; rewrite P5, P1, P4; auto).
  unfold markF. destruct self; cbn [negb orb].
  - destruct F as (F1 & F2 & F3). rewrite P2, Q2, F3. assert (G : forall c : bool, (if c then s2 else s2) = s2) by (intros []; auto). rewrite G.
    rewrite P1, P2, P3, P6, P7. split; [congruence|]. split; [congruence|]. split; [congruence|]. split; [exact BO2|]. split; congruence.
  - destruct F as (F1 & F2). destruct keep; simpl in *.
    + destruct (Nat.eqb_spec b1 i); simpl.
      * rewrite P4. destruct (Nat.leb_spec nReps (bestSize s1)); simpl; rewrite ?P1, ?P2, ?P3, ?P6, ?P7; (split; [congruence|]; split; [congruence|]; split; [congruence|]); (split; [unfold bestOk in *; simpl; rewrite ?P5, ?P1, ?P4 in *; exact BO2|]); rewrite ?P4; (split; [auto|]).
        -- destruct (Nat.leb_spec nReps (bestSize s1)); auto; lia.
        -- rewrite Q5, F2. destruct (Nat.leb_spec nReps (bestSize s)), (Nat.leb_spec nReps (bestSize s1)); auto; lia.
      * rewrite P1, P2, P3, P6, P7. (split; [congruence|]; split; [congruence|]; split; [congruence|]); split; auto. rewrite P4. split; auto. rewrite Q5, F2, Q9; auto.
    + rewrite P1, P2, P3, P6, P7. (split; [congruence|]; split; [congruence|]; split; [congruence|]); split; auto. rewrite P4. split; auto. congruence.
Qed.

Lemma len_bound l : NoDup (map fst l) -> (forall r, In r (map (@fst nat M) l) -> r < nReps) -> length l <= nReps.
Proof. intros ND H. rewrite <- (map_length fst l), <- (seq_length nReps 0). apply NoDup_incl_length; auto. intros x Hx. apply in_seq. apply H in Hx. lia. Qed.
Lemma addPeer_new l (s : cert) r m : NoDup (map fst (l ++ [(r, m)])) -> (forall x, In x (map fst (l ++ [(r, m)])) -> x < nReps) -> (self = true -> r <> selfId) -> PeerInv l s ->
  exists s', addPeer (mkCert M (l ++ [(r, m)]) (cls s) (complete s) (full s) (best s) (bestSize s) (trusted s)) m r = Some s' /\ msgs s' = l ++ [(r, m)] /\ PeerInv (l ++ [(r, m)]) s'.
Proof.
  intros ND RG SF (T & CO & BO & F). set (s1 := mkCert M (l ++ [(r, m)]) (cls s) (complete s) (full s) (best s) (bestSize s) (trusted s)).
  pose proof CO as (A & B & C & D). unfold Cert_Model.addPeer. simpl. rewrite T.
  destruct (findCls_spec l (l ++ [(r, m)]) (cls s) m ND (incl_appl _ (incl_refl _)) (fun i z r0 E => match A i z r0 E with ex_intro _ mm (conj H _) => ex_intro _ mm H end) 0) as (o & Eo & Q).
  rewrite Eo. destruct o as [j|].
  - destruct Q as (i & z & r0 & m' & -> & Ei & Hm & Em). simpl.
    assert (Zp : 1 <= z) by (destruct (A _ _ _ Ei) as (mm & Hmm & ->); eapply sup_pos; eauto).
    destruct (bump_ok s1 i z r0) as (B1 & B2 & B3 & B4 & B5); simpl; auto.
    + destruct self; auto. destruct F as (F1 & F2 & F3). split; auto. split; auto. destruct (hasMsg (l ++ [(r, m)]) selfId) eqn:HM; auto. apply hasMsg_in in HM. rewrite map_app in HM.
      apply in_app_iff in HM. simpl in HM. destruct HM as [HM|[HM|[]]]; [contradiction|]. exfalso. apply SF; auto.
    + eexists. split; [reflexivity|]. split; [exact B2|]. split; [exact B3|]. split; [rewrite B1; eapply clsOk_bump; eauto|]. split; [exact B4|].
      destruct self; [|exact B5]. destruct B5. split; auto. split; auto. rewrite map_app. intros H1. apply in_app_iff in H1. simpl in H1. destruct F as (F1 & F2 & F3). destruct H1 as [H1|[H1|[]]]; [contradiction|]. apply SF; auto.
  - pose proof (clsOk_new l (cls s) m r ND CO Q) as CN. eexists. split; [reflexivity|]. unfold newCls. simpl.
    assert (L : length (l ++ [(r, m)]) <= nReps) by (apply len_bound; auto). rewrite app_length in L. simpl in L.
    destruct (Nat.leb_spec nReps (length (cls s))); [lia|]. unfold bestOk in BO. destruct (best s) as [b|] eqn:Eb.
    + split; auto. split; [auto|]. split; [exact CN|]. destruct BO as [(rb & Hb) MX]. split.
      * unfold bestOk. simpl. split; [exists rb; rewrite nth_error_app1; auto; apply nth_error_Some; congruence|]. intros j zj rj Ej.
        destruct (Nat.lt_ge_cases j (length (cls s))); [rewrite nth_error_app1 in Ej by auto; eauto|]. rewrite nth_error_app2 in Ej by auto.
        destruct (j - length (cls s)) as [|t]; simpl in Ej; [inversion Ej; subst|destruct t; discriminate].
        destruct (A _ _ _ Hb) as (mm & Hmm & ->). eapply sup_pos; eauto.
      * destruct self; auto. destruct F as (F1 & F2 & F3). simpl. split; auto. split; auto. rewrite map_app. intros H1. apply in_app_iff in H1. simpl in H1. destruct H1 as [H1|[H1|[]]]; [contradiction|]. apply SF; auto.
    + split; auto. split; [auto|]. destruct BO as [E0 E1]. split; [exact CN|]. split.
      * unfold bestOk. simpl. rewrite E0. simpl. split; [eauto|]. intros [|[|j]] zj rj Ej; simpl in Ej; inversion Ej; auto.
      * destruct self.
        -- destruct F as (F1 & F2 & F3). simpl. split; auto. split; auto. rewrite map_app. intros H1. apply in_app_iff in H1. simpl in H1. destruct H1 as [H1|[H1|[]]]; [contradiction|]. apply SF; auto.
        -- simpl. destruct F as (F1 & F2). rewrite F1, F2, E1. destruct (Nat.leb_spec required 0), (Nat.leb_spec required 1), (Nat.leb_spec nReps 0), (Nat.leb_spec nReps 1); try lia; auto.
Qed.
Lemma addSelf_new l (s : cert) m : NoDup (map fst (l ++ [(selfId, m)])) -> self = true -> PeerInv l s ->
  exists s', addSelf (mkCert M (l ++ [(selfId, m)]) (cls s) (complete s) (full s) (best s) (bestSize s) (trusted s)) m = Some s' /\ msgs s' = l ++ [(selfId, m)] /\ TrustInv (l ++ [(selfId, m)]) s'.
Proof.
  intros ND SF (T & CO & BO & F). pose proof CO as (A & B & C & D). unfold Cert_Model.addSelf. simpl.
  destruct (findCls_spec l (l ++ [(selfId, m)]) (cls s) m ND (incl_appl _ (incl_refl _)) (fun i z r0 E => match A i z r0 E with ex_intro _ mm (conj H _) => ex_intro _ mm H end) 0) as (o & Eo & Q).
  rewrite Eo. eexists. split; [reflexivity|].
  set (z := match o with Some i => sizeAt (incCls (cls s) i) i + 1 | None => 1 end).
  assert (Z : z = sup (l ++ [(selfId, m)]) m + (if sup l m =? 0 then 0 else 1)).
  { rewrite sup_app, sup_one, eqv_refl. unfold z. destruct o as [j|].
    - destruct Q as (i & z' & r0 & m' & -> & Ei & Hm & Em). simpl. unfold sizeAt. rewrite incCls_nth, Nat.eqb_refl, Ei. destruct (A _ _ _ Ei) as (mm & Hmm & ->).
      assert (mm = m'). { pose proof (msgOf_in _ r0 mm ND (in_or_app _ _ _ (or_introl Hmm))). pose proof (msgOf_in _ r0 m' ND (in_or_app _ _ _ (or_introl Hm))). congruence. } subst mm.
      rewrite (sup_eqv l m' m Em). pose proof (sup_pos l r0 m' Hm) as P. rewrite (sup_eqv l m' m Em) in P. destruct (Nat.eqb_spec (sup l m) 0); lia.
    - assert (S0 : sup l m = 0); [|rewrite S0; auto]. unfold support. destruct (filter (fun x => eqv m (snd x)) l) as [|x t] eqn:Fx; auto. exfalso.
      assert (Hx : In x (filter (fun x => eqv m (snd x)) l)) by (rewrite Fx; left; auto). apply filter_In in Hx. destruct Hx as [Hx Ex].
      destruct (C x Hx) as (i & z' & r & mm & Ei & Hmm & Em). pose proof (Q _ _ _ _ Ei Hmm) as NE. 
      assert (W : eqv mm m = true) by (eapply eqv_trans; [exact Em|apply eqv_sym; auto]). congruence. }
  clearbody z. rewrite SF in F. destruct F as (F1 & F2 & F3).
  assert (HM : hasMsg (l ++ [(selfId, m)]) selfId = true) by apply hasMsg_app.
  assert (MC : forall c f : bool, markC M self selfId (mkCert M (l ++ [(selfId, m)]) [(z, selfId)] c f (Some 0) z true) = mkCert M (l ++ [(selfId, m)]) [(z, selfId)] true f (Some 0) z true).
  { intros. unfold markC. simpl. rewrite HM, orb_true_r. auto. }
  assert (MF : forall c f : bool, markF M self selfId (mkCert M (l ++ [(selfId, m)]) [(z, selfId)] c f (Some 0) z true) = mkCert M (l ++ [(selfId, m)]) [(z, selfId)] c true (Some 0) z true).
  { intros. unfold markF. simpl. rewrite HM, orb_true_r. auto. }
  rewrite F1, F2. rewrite MC.
  assert (G : (if required <=? z then mkCert M (l ++ [(selfId, m)]) [(z, selfId)] true false (Some 0) z true else mkCert M (l ++ [(selfId, m)]) [(z, selfId)] false false (Some 0) z true) = mkCert M (l ++ [(selfId, m)]) [(z, selfId)] (required <=? z) false (Some 0) z true) by (destruct (required <=? z); auto).
  rewrite G, MF. destruct (keep && (nReps <=? z)) eqn:K; simpl; (split; [auto|]; split; [auto|]; split; [auto|]; exists l, m, [], z; split; [auto|]; split; [auto|]; simpl; auto 10).
Qed.
Lemma addPeer_trust l (s : cert) r m : NoDup (map fst (l ++ [(r, m)])) -> TrustInv l s ->
  exists s', addPeer (mkCert M (l ++ [(r, m)]) (cls s) (complete s) (full s) (best s) (bestSize s) (trusted s)) m r = Some s' /\ msgs s' = l ++ [(r, m)] /\ TrustInv (l ++ [(r, m)]) s'.
Proof.
  intros ND (T & SF & a & m0 & b & z & El & Ez & E1 & E2 & E3 & E4 & E5). unfold Cert_Model.addPeer. simpl. rewrite T, E1.
  assert (Hs : In (selfId, m0) (l ++ [(r, m)])) by (apply in_or_app; left; rewrite El; apply in_or_app; right; left; auto).
  rewrite (msgOf_in _ _ _ ND Hs).
  assert (El' : l ++ [(r, m)] = a ++ (selfId, m0) :: (b ++ [(r, m)])) by (rewrite El, <- app_assoc; auto).
  destruct (eqv m0 m) eqn:E.
  - assert (HM : hasMsg (l ++ [(r, m)]) selfId = true) by (apply hasMsg_in; apply (in_map fst) in Hs; exact Hs).
    eexists. split; [reflexivity|]. unfold bump, markC, markF. simpl. rewrite ?E1, ?E2, ?E3. unfold sizeAt. simpl.
    assert (LT : z <? S z = true) by (apply Nat.ltb_lt; lia). rewrite LT. simpl.
    assert (Ez' : S z = sup (l ++ [(r, m)]) m0 + (if sup a m0 =? 0 then 0 else 1)) by (rewrite sup_app, sup_one, E; lia).
    assert (R : exists s2, s2 = mkCert M (l ++ [(r, m)]) [(S z, selfId)] (required <=? S z) (keep && (nReps <=? S z)) (Some 0) (S z) true) by eauto.
    match goal with |- msgs ?x = _ /\ _ => assert (X : x = mkCert M (l ++ [(r, m)]) [(S z, selfId)] (required <=? S z) (keep && (nReps <=? S z)) (Some 0) (S z) true) end.
    { rewrite ?T, ?E4, ?E5, ?HM, ?orb_true_r. destruct (Nat.leb_spec required (S z)), (Nat.leb_spec required z); try lia; simpl; rewrite ?HM, ?orb_true_r; simpl;
        (destruct keep; [|simpl; auto]); destruct (Nat.leb_spec nReps (S z)), (Nat.leb_spec nReps z); try lia; simpl; rewrite ?HM, ?orb_true_r; simpl; auto. }
    rewrite X. split; auto. split; auto. split; auto. exists a, m0, (b ++ [(r, m)]), (S z). simpl. split; [exact El'|]. split; [exact Ez'|]. auto 10.
  - eexists. split; [reflexivity|]. simpl. split; auto. split; auto. split; auto. exists a, m0, (b ++ [(r, m)]), z. simpl. split; [exact El'|]. split; [rewrite sup_app, sup_one, E; lia|]. auto 10.
Qed.

Lemma addMsg_inv (s : cert) r m : Inv s -> r < nReps -> exists s' b, addMsg s r m = Some (s', b) /\ Inv s' /\ msgs s' = (if hasMsg (msgs s) r then msgs s else msgs s ++ [(r, m)]).
Proof.
  intros I R. pose proof I as (ND & RG & l & rest & EL & RE & INV). unfold Cert_Model.addMsg. destruct (hasMsg (msgs s) r) eqn:HM; [exists s, false; auto|].
  assert (NI : ~ In r (map fst (msgs s))) by (intros H; apply hasMsg_in in H; congruence).
  assert (ND' : NoDup (map fst (msgs s ++ [(r, m)]))).
  { rewrite map_app. simpl. apply NoDup_Add with (a := r) (l := map fst (msgs s)); [|auto]. rewrite <- (app_nil_r (map fst (msgs s))) at 1. apply Add_app. }
  assert (RG' : forall x, In x (map fst (msgs s ++ [(r, m)])) -> x < nReps).
  { intros x Hx. rewrite map_app in Hx. apply in_app_iff in Hx. destruct Hx as [Hx|[<-|[]]]; auto. }
  destruct (keep && negb (full s) || negb (complete s)) eqn:K.
  - assert (RN : rest = []). { destruct RE as [RE|(C1 & C2)]; auto. rewrite C1, C2 in K. discriminate. } subst rest. rewrite app_nil_r in EL. rewrite EL in *.
    destruct INV as [PI|TI].
    + destruct (self && (r =? selfId)) eqn:SS.
      * apply andb_true_iff in SS. destruct SS as [S1 S2]. apply Nat.eqb_eq in S2. subst r. destruct (addSelf_new l s m ND' S1 PI) as (s' & E & Em & Q). rewrite E. exists s', true. split; auto.
        split; [|auto]. split; [rewrite Em; auto|]. split; [rewrite Em; auto|]. exists (l ++ [(selfId, m)]), []. rewrite app_nil_r. auto.
      * destruct (addPeer_new l s r m ND' RG') as (s' & E & Em & Q); auto.
        { intros S1 ->. rewrite S1, Nat.eqb_refl in SS. discriminate. }
        rewrite E. exists s', true. split; auto. split; [|auto]. split; [rewrite Em; auto|]. split; [rewrite Em; auto|]. exists (l ++ [(r, m)]), []. rewrite app_nil_r. auto.
    + assert (SS : self && (r =? selfId) = false).
      { destruct TI as (_ & S1 & a & m0 & b & z & El & _). rewrite S1. simpl. apply Nat.eqb_neq. intros ->. apply NI. rewrite El, map_app. apply in_or_app. right. left. auto. }
      rewrite SS. destruct (addPeer_trust l s r m ND' TI) as (s' & E & Em & Q). rewrite E. exists s', true. split; auto.
      split; [|auto]. split; [rewrite Em; auto|]. split; [rewrite Em; auto|]. exists (l ++ [(r, m)]), []. rewrite app_nil_r. auto.
  - eexists. exists true. split; [reflexivity|]. simpl. split; [|auto]. split; auto. split; auto. exists l, (rest ++ [(r, m)]). simpl. split; [rewrite EL, app_assoc; auto|]. split.
    + right. apply orb_false_iff in K. destruct K as [K1 K2]. apply negb_false_iff in K2. auto.
    + destruct INV as [PI|TI]; [left; exact PI|right; exact TI].
Qed.
Lemma reset_inv (s : cert) : Inv s -> resetC M s = cert0 M.
Proof.
  intros (_ & _ & l & rest & EL & _ & INV). unfold resetC. destruct (msgs s) eqn:E; auto. symmetry in EL. apply app_eq_nil in EL. destruct EL as [-> ->].
  destruct INV as [(T & (A & B & C & D) & BO & F)|(_ & _ & a & m0 & b & z & El & _)]; [|destruct a; discriminate].
  destruct (cls s) as [|[z r] c] eqn:Ec; [|destruct (A 0 z r eq_refl) as (? & [] & _)]. unfold bestOk in BO. destruct (best s).
  - destruct BO as [(r & H) _]. rewrite Ec in H. destruct n; discriminate.
  - destruct BO as [_ ->]. rewrite T. auto.
Qed.
Lemma run_inv l : forall s, Inv s -> (forall r m, In (Add M r m) l -> r < nReps) -> exists s', crun s l = Some s' /\ Inv s' /\ msgs s' = received (msgs s) l.
Proof.
  induction l as [|[r m|] l IH]; intros s I H; simpl; [eauto| |].
  - destruct (addMsg_inv s r m I) as (s1 & b & E & I1 & E1); [eapply H; left; eauto|]. rewrite E. destruct (IH s1 I1) as (s2 & E2 & I2 & E3); [intros; eapply H; right; eauto|].
    exists s2. split; auto. split; auto. rewrite E3, E1. auto.
  - rewrite (reset_inv s I). destruct (IH (cert0 M) init_inv) as (s2 & E2 & I2 & E3); [intros; eapply H; right; eauto|]. exists s2. auto.
Qed.

(** Consequences. *)
Lemma sup_mono l rest m : sup l m <= sup (l ++ rest) m.
Proof. rewrite sup_app. lia. Qed.
Lemma peer_complete (s : cert) : self = false -> Inv s -> (complete s = true <-> exists m, required <= sup (msgs s) m).
Proof.
  intros SF (ND & RG & l & rest & EL & RE & INV). destruct INV as [(T & (A & B & C & D) & BO & F)|(_ & S1 & _)]; [|congruence]. rewrite SF in F. destruct F as [F1 F2]. split.
  - intros H. rewrite F1 in H. apply Nat.leb_le in H. unfold bestOk in BO. destruct (best s); [|lia]. destruct BO as [(r & Hr) _]. destruct (A _ _ _ Hr) as (m & Hm & E). exists m. rewrite EL. pose proof (sup_mono l rest m). lia.
  - intros (m & H). destruct RE as [->|(C1 & _)]; auto. rewrite app_nil_r in EL. rewrite EL in H. rewrite F1. apply Nat.leb_le.
    assert (P : exists x, In x l /\ eqv m (snd x) = true).
    { unfold support in H. destruct (filter (fun x => eqv m (snd x)) l) as [|x t] eqn:Fx; [simpl in H; lia|]. exists x. apply (proj1 (filter_In (fun x => eqv m (snd x)) x l)). rewrite Fx. left; auto. }
    destruct P as (x & Hx & Ex). destruct (C x Hx) as (i & z & r & m' & Ei & Hm & Em). destruct (A _ _ _ Ei) as (mm & Hmm & Ez).
    assert (mm = m'). { rewrite EL in ND. pose proof (msgOf_in _ r mm ND Hmm). pose proof (msgOf_in _ r m' ND Hm). congruence. } subst mm.
    assert (EQm : eqv m' m = true) by (eapply eqv_trans; [exact Em|apply eqv_sym; auto]). rewrite (sup_eqv l m' m EQm) in Ez.
    unfold bestOk in BO. destruct (best s); [destruct BO as [_ MX]; apply MX in Ei; lia|]. destruct BO as [E0 _]. rewrite E0 in Ei. destruct i; discriminate.
Qed.
Lemma peer_best (s : cert) : self = false -> Inv s -> exists o, bestMsg M maxFails s = Some o /\
  match o with Some m => maxFails + 1 <= sup (msgs s) m /\ (complete s = true -> required <= sup (msgs s) m) | None => complete s = true -> required <= maxFails end.
Proof.
  intros SF (ND & RG & l & rest & EL & RE & INV). destruct INV as [(T & (A & B & C & D) & BO & F)|(_ & S1 & _)]; [|congruence]. rewrite SF in F. destruct F as [F1 F2].
  unfold bestMsg. rewrite T. simpl. destruct (Nat.leb_spec (maxFails + 1) (bestSize s)) as [L|L].
  - unfold bestOk in BO. destruct (best s); [|lia]. destruct BO as [(r & Hr) _]. rewrite Hr. destruct (A _ _ _ Hr) as (m & Hm & E).
    rewrite (msgOf_in (msgs s) r m ND) by (rewrite EL; apply in_or_app; auto). exists (Some m). split; auto. rewrite EL. pose proof (sup_mono l rest m). split; [lia|].
    rewrite F1. intros Q. apply Nat.leb_le in Q. lia.
  - exists None. split; auto. rewrite F1. intros Q. apply Nat.leb_le in Q. lia.
Qed.
Lemma peer_classes (s : cert) : self = false -> Inv s -> forall bad, NoDup bad -> length bad <= maxFails ->
  (forall x y, In x (msgs s) -> In y (msgs s) -> ~ In (fst x) bad -> ~ In (fst y) bad -> eqv (snd x) (snd y) = true) -> length (cls s) <= maxFails + 1.
Proof.
  intros SF (ND & RG & l & rest & EL & RE & INV) bad NB LB H. destruct INV as [(T & (A & B & C & D) & BO & F)|(_ & S1 & _)]; [|congruence].
  assert (NR' : NoDup (map snd (cls s))).
  { apply NoDup_nth_error. intros i j Hi E. rewrite map_length in Hi. destruct (nth_error (cls s) i) as [[zi ri]|] eqn:Ei; [|apply nth_error_Some in Hi; congruence].
    rewrite !nth_error_map, Ei in E. simpl in E. destruct (nth_error (cls s) j) as [[zj rj]|] eqn:Ej; [|discriminate]. simpl in E. inversion E; subst.
    destruct (A _ _ _ Ei) as (mi & Hi' & _). eapply (B i j); eauto. apply eqv_refl. }
  (* all representatives outside [bad] coincide *)
  set (g := filter (fun r => negb (existsb (Nat.eqb r) bad)) (map snd (cls s))).
  assert (LG : length g <= 1).
  { destruct g as [|r1 [|r2 t]] eqn:Eg; simpl; try lia. exfalso.
    assert (H1 : In r1 g) by (rewrite Eg; simpl; auto). assert (H2 : In r2 g) by (rewrite Eg; simpl; auto).
    assert (NG : NoDup g) by (apply NoDup_filter; auto). rewrite Eg in NG. inversion NG as [|? ? H3 _]; subst.
    unfold g in H1, H2. apply filter_In in H1. apply filter_In in H2. destruct H1 as [H1 B1], H2 as [H2 B2].
    assert (NB1 : forall r, negb (existsb (Nat.eqb r) bad) = true -> ~ In r bad) by (intros r Q; apply negb_true_iff in Q; intros W; assert (existsb (Nat.eqb r) bad = true) by (apply existsb_exists; exists r; split; auto; apply Nat.eqb_refl); congruence).
    apply in_map_iff in H1. destruct H1 as ([z1 r1'] & <- & H1). apply in_map_iff in H2. destruct H2 as ([z2 r2'] & <- & H2). simpl in *.
    apply In_nth_error in H1. destruct H1 as (i & Hi). apply In_nth_error in H2. destruct H2 as (j & Hj).
    destruct (A _ _ _ Hi) as (m1 & Q1 & _), (A _ _ _ Hj) as (m2 & Q2 & _).
    assert (i = j). { eapply (B i j); eauto. apply (H (r1', m1) (r2', m2)); simpl; auto; rewrite EL; apply in_or_app; auto. }
    subst. rewrite Hi in Hj. inversion Hj; subst. apply H3. left; auto. }
  assert (LB2 : length (filter (fun r => existsb (Nat.eqb r) bad) (map snd (cls s))) <= length bad).
  { apply NoDup_incl_length; [apply NoDup_filter; auto|]. intros r Hr. apply filter_In in Hr. destruct Hr as [_ Hr]. apply existsb_exists in Hr. destruct Hr as (y & Hy & E). apply Nat.eqb_eq in E. subst; auto. }
  assert (P : length (map snd (cls s)) = length g + length (filter (fun r => existsb (Nat.eqb r) bad) (map snd (cls s)))).
  { unfold g. clear. induction (map snd (cls s)) as [|x t IH]; simpl; auto. destruct (existsb (Nat.eqb x) bad); simpl; lia. }
  rewrite map_length in P. lia.
Qed.
Lemma self_complete (s : cert) : self = true -> Inv s ->
  (complete s = true -> exists a m b, msgs s = a ++ (selfId, m) :: b /\ required <= sup (msgs s) m + (if sup a m =? 0 then 0 else 1)) /\
  (forall m, In (selfId, m) (msgs s) -> required <= sup (msgs s) m -> complete s = true) /\
  (full s = true -> exists a m b, msgs s = a ++ (selfId, m) :: b /\ nReps <= sup (msgs s) m + (if sup a m =? 0 then 0 else 1)).
Proof.
  intros SF (ND & RG & l & rest & EL & RE & INV). destruct INV as [(T & CO & BO & F)|(T & S1 & a & m0 & b & z & El & Ez & E1 & E2 & E3 & E4 & E5)].
  - rewrite SF in F. destruct F as (F1 & F2 & F3). split; [congruence|]. split; [|congruence]. intros m Hm _. destruct RE as [->|(C1 & _)]; auto. exfalso. apply F3. rewrite EL, app_nil_r in Hm. apply (in_map fst) in Hm. auto.
  - split; [|split].
    + intros H. rewrite E4 in H. apply Nat.leb_le in H. exists a, m0, (b ++ rest). split; [rewrite EL, El, <- app_assoc; auto|]. rewrite EL. pose proof (sup_mono l rest m0). lia.
    + intros m Hm L. destruct RE as [->|(C1 & _)]; auto. rewrite app_nil_r in EL. rewrite EL in *.
      assert (m = m0). { pose proof (msgOf_in l selfId m ND Hm). assert (Hs : In (selfId, m0) l) by (rewrite El; apply in_or_app; right; left; auto). pose proof (msgOf_in l selfId m0 ND Hs). congruence. } subst.
      rewrite E4. apply Nat.leb_le. lia.
    + intros H. rewrite E5 in H. apply andb_true_iff in H. destruct H as [_ H]. apply Nat.leb_le in H. exists a, m0, (b ++ rest). split; [rewrite EL, El, <- app_assoc; auto|]. rewrite EL. pose proof (sup_mono l rest m0). lia.
Qed.
Lemma split_unique (x : nat) (a a' b b' : list (nat * M)) m m' : NoDup (map fst (a ++ (x, m) :: b)) -> a ++ (x, m) :: b = a' ++ (x, m') :: b' -> a = a' /\ m = m'.
Proof.
  revert a'. induction a as [|y a IH]; intros [|y' a'] ND E; simpl in *.
  - inversion E; auto.
  - inversion E; subst. inversion ND; subst. exfalso. apply H1. simpl. rewrite map_app. apply in_or_app. right. left. auto.
  - inversion E; subst. inversion ND; subst. exfalso. apply H1. simpl. rewrite map_app. apply in_or_app. right. left. auto.
  - inversion E; subst. inversion ND; subst. destruct (IH a' H3 H1) as [-> ->]. auto.
Qed.
Lemma self_sufficient (s : cert) : self = true -> Inv s -> forall a m b, msgs s = a ++ (selfId, m) :: b ->
  (required <= sup (msgs s) m + (if sup a m =? 0 then 0 else 1) -> complete s = true) /\
  (keep = true -> nReps <= sup (msgs s) m + (if sup a m =? 0 then 0 else 1) -> full s = true).
Proof.
  intros SF (ND & RG & l & rest & EL & RE & INV) a m b E. destruct INV as [(T & CO & BO & F)|(T & S1 & a' & m0 & b' & z & El & Ez & E1 & E2 & E3 & E4 & E5)].
  - rewrite SF in F. destruct F as (F1 & F2 & F3). destruct RE as [->|(C1 & _)]; [|congruence]. exfalso. apply F3. rewrite app_nil_r in EL. rewrite <- EL, E, map_app. apply in_or_app. right. left. auto.
  - assert (U : a = a' /\ m = m0). { eapply (split_unique selfId a a' b (b' ++ rest)); [rewrite <- E; exact ND|]. rewrite <- E, EL, El, <- app_assoc. auto. } destruct U as [-> ->].
    destruct RE as [->|(C1 & C2)].
    + rewrite app_nil_r in EL. rewrite EL. split; [intros H; rewrite E4; apply Nat.leb_le; lia|]. intros K H. rewrite E5, K. apply Nat.leb_le. lia.
    + split; auto. intros K _. rewrite K in C2. simpl in C2. apply negb_false_iff in C2. auto.
Qed.
End C.
