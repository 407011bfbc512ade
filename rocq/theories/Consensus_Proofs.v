(** Agreement within a view and across views. *)
From Coq Require Import List Arith Lia Bool.
From Verif Require Import Lib_Sets Quorum_Model Quorum_Proofs ViewChange_Model ViewChange_Proofs Consensus_Model Consensus_Inv Consensus_Pres.
Import ListNotations.
Local Opaque kWorkWindowSize checkpointWindowSize.
Arguments kWorkWindowSize : simpl never.
Arguments checkpointWindowSize : simpl never.

Lemma voters_set k g x : replicaSet (cn k) (voters k g x).
Proof. split; [apply NoDup_filter, seq_NoDup|]. apply Forall_forall. intros i Hi. apply filter_In in Hi. destruct Hi as [Hi _]. apply in_seq in Hi. lia. Qed.
Lemma committers_set k g x : replicaSet (cn k) (committers k g x).
Proof. split; [apply NoDup_filter, seq_NoDup|]. apply Forall_forall. intros i Hi. apply filter_In in Hi. destruct Hi as [Hi _]. apply in_seq in Hi. lia. Qed.
Lemma voters_In k g x i : In i (voters k g x) -> i < cn k /\ In x (r_votes (get g i)).
Proof. intros H. apply filter_In in H. destruct H as [A B]. apply in_seq in A. apply mem3_In in B. split; [lia|auto]. Qed.
Lemma committers_In k g x i : In i (committers k g x) -> i < cn k /\ In x (r_commits (get g i)).
Proof. intros H. apply filter_In in H. destruct H as [A B]. apply in_seq in A. apply mem3_In in B. split; [lia|auto]. Qed.

Section Safety.
Context (k : config) (g : gstate) (V : validConfig k) (I : INV k g).
Lemma RIof i (H : correct k i) : RI k g i (get g i).
Proof. exact (proj1 (proj2 I) i H). Qed.

Lemma cert_honest v s d : CertOK k g v s d -> exists i, correct k i /\ In (v, s, d) (r_pph (get g i)).
Proof.
  intros H. destruct V as (N & F & L). destruct (honest_in k (voters k g (v, s, d)) V) as (i & Hi & Hn).
  - apply voters_set.
  - unfold CertOK, slowQuorum in H. lia.
  - apply voters_In in Hi. destruct Hi as [Hi Hv]. assert (Hc : correct k i) by (split; auto). exists i; split; auto.
    apply (ri_votes _ _ _ _ (RIof i Hc)); auto.
Qed.
Lemma cert_agree v s d d' : CertOK k g v s d -> CertOK k g v s d' -> d = d'.
Proof.
  intros H H'. destruct V as (N & F & L).
  destruct (slow_slow_lemma (cf k) (cc k) _ _ (cbyz k) (voters_set k g (v, s, d)) (voters_set k g (v, s, d')) L H H') as (i & A & B & C).
  apply voters_In in A, B. assert (Hc : correct k i) by (split; [tauto|auto]). pose proof (RIof i Hc) as R.
  eapply (ri_fun _ _ _ _ R v s); apply (ri_votes _ _ _ _ R); tauto.
Qed.
Lemma slow_cert v s d : SlowQ k g v s d -> CertOK k g v s d.
Proof.
  intros H. destruct (honest_in k (committers k g (v, s, d)) V) as (i & Hi & Hn).
  - apply committers_set.
  - unfold SlowQ, slowQuorum in H. lia.
  - apply committers_In in Hi. assert (Hc : correct k i) by (split; [tauto|auto]). eapply (ri_commits _ _ _ _ (RIof i Hc)). tauto.
Qed.
Lemma fast_cert v s d : FastQ k g v s d -> CertOK k g v s d.
Proof. unfold FastQ, CertOK, fastQuorum, slowQuorum. lia. Qed.
Lemma dec_cert i v s d : committed k g i v s d -> CertOK k g v s d.
Proof.
  intros [Hc H]. destruct (ri_dec _ _ _ _ (RIof i Hc) _ _ _ H) as [_ [A|[A _]]]; [apply slow_cert|apply fast_cert]; auto.
Qed.

(** Every sent view-change message is well formed and its valid certificates are genuine. *)
Lemma sent_vc j m : j < cn k -> In m (r_vcs (get g j)) -> wellFormed m /\ forall e, In e (vc_elems m) -> e_origin e < vc_view m /\
  forall cv, e_cert e = Some (cv, true) -> cv <= e_origin e /\ CertOK k g cv (e_seq e) (e_dig e).
Proof.
  intros Hj Hm. destruct (in_cbyz_dec k j) as [Hb|Hb].
  - destruct (proj2 (proj2 I) j Hb m Hm) as (_ & A & B). auto.
  - assert (Hc : correct k j) by (split; auto). destruct (ri_vcs _ _ _ _ (RIof j Hc) m Hm) as (_ & _ & _ & _ & u & W).
    split; [apply (vi_wf _ _ _ _ _ W)|]. intros e He. destruct (vi_elem _ _ _ _ _ W e He) as (A & B & C & D). pose proof (vi_lt _ _ _ _ _ W).
    split; [lia|]. intros cv Hcv. destruct (D _ _ Hcv) as (_ & D1 & D2). split; [lia|auto].
Qed.

Context (HT : ctime k = false) (HS : consistentEntries k g) (Hfc : 1 <= cf k + cc k).

(** The value [d] was committed at [s] in view [v0]; [fast]: through the fast path. *)
Context (v0 s d : nat) (fast : bool) (Hdec : if fast then FastQ k g v0 s d /\ d <> nullDigest else SlowQ k g v0 s d).
Definition thr : nat := if fast then cf k - length (cbyz k) + 1 else cf k + cc k + 1 - length (cbyz k).
Context (HLB : stableReported k g thr) (HN : d <> nullDigest \/ coversAt k g s).

Definition A0 := if fast then voters k g (v0, s, d) else committers k g (v0, s, d).
Lemma A0_set : replicaSet (cn k) A0.
Proof. unfold A0. destruct fast; [apply voters_set|apply committers_set]. Qed.
Lemma A0_cert : CertOK k g v0 s d.
Proof. destruct fast; [apply fast_cert; tauto|apply slow_cert; auto]. Qed.
Lemma A0_pph i : correct k i -> In i A0 -> In (v0, s, d) (r_pph (get g i)).
Proof.
  intros Hc Hi. unfold A0 in Hi. destruct fast.
  - apply voters_In in Hi. apply (ri_votes _ _ _ _ (RIof i Hc)). tauto.
  - apply committers_In in Hi. eapply (ri_commits _ _ _ _ (RIof i Hc)). tauto.
Qed.

(** What a view-change message of a member of A0 carries about s. *)
Lemma fastc : fast = true \/ fast = false. Proof. destruct fast; auto. Qed.
Definition CE (m : vcmsg) : Prop := s <= vc_ls m \/ exists e, In e (vc_elems m) /\ e_seq e = s /\ e_dig e = d /\
  s <= vc_ls m + kWorkWindowSize /\ if fast then v0 <= e_origin e else exists cv, v0 <= cv /\ e_cert e = Some (cv, true).
Definition Kv v := forall i m, correct k i -> In i A0 -> In m (r_vcs (get g i)) -> vc_view m = v -> CE m.
Definition Av v := forall i d', correct k i -> In (v, s, d') (r_pph (get g i)) -> d' = d.
Definition Rv v := forall i en, correct k i -> In en (r_ents (get g i)) -> n_view en = v -> n_ls en < s -> In (v, s, d) (r_pph (get g i)).

Lemma cert_d v d' : v0 <= v -> (v0 < v -> Av v) -> CertOK k g v s d' -> d' = d.
Proof.
  intros Hv HA HC. destruct (Nat.eq_dec v v0) as [->|Hn].
  - eapply cert_agree; eauto. apply A0_cert.
  - destruct (cert_honest _ _ _ HC) as (i & Hi & Hp). eapply HA; eauto. lia.
Qed.

Lemma Kv_step v : v0 < v -> (forall u, v0 < u < v -> Kv u /\ Rv u) -> Kv v.
Proof.
  intros Hv IH i m Hi HA Hm Em. pose proof (RIof i Hi) as R. destruct (ri_vcs _ _ _ _ R m Hm) as (_ & _ & _ & _ & u & W).
  pose proof (A0_pph i Hi HA) as Hp. assert (Hu : v0 <= u) by (eapply (vi_max _ _ _ _ _ W); eauto; lia).
  pose proof (vi_lt _ _ _ _ _ W) as Hlt. rewrite Em in Hlt.
  assert (Hel : forall e, In e (vc_elems m) -> e_origin e = u /\ e_seq e <= vc_ls m + kWorkWindowSize).
  { intros e He. destruct (vi_elem _ _ _ _ _ W e He) as (_ & A & B & _). auto. }
  assert (Hpu : s <= vc_ls m \/ In (u, s, d) (r_pph (get g i))).
  { destruct (Nat.eq_dec u v0) as [->|Hn]; [auto|].
    destruct (vi_ent _ _ _ _ _ W) as [E|(en & E1 & E2 & E3)]; [lia|].
    destruct (le_lt_dec s (n_ls en)); [left; lia|]. right. destruct (IH u) as [_ HR]; [lia|]. eapply HR; eauto. }
  destruct Hpu as [Hpu|Hpu]; [left; auto|]. unfold CE. destruct fastc as [Ef|Ef]; rewrite Ef.
  - destruct (vi_incl _ _ _ _ _ W HT s d Hpu) as [A|(e & A & B & C)]; [pose proof Hdec as HD; rewrite Ef in HD; tauto|auto|]. right. exists e. destruct (Hel e A). repeat split; auto; lia.
  - destruct (Nat.eq_dec u v0) as [E|Hn].
    + subst u. assert (HA' : In (v0, s, d) (r_commits (get g i))) by (unfold A0 in HA; rewrite Ef in HA; apply committers_In in HA; tauto).
      destruct (vi_com _ _ _ _ _ W HT s d HA') as [A|(e & A & B & C & D)]; auto.
      right. exists e. destruct (Hel e A). repeat split; auto; try lia. exists v0. split; auto.
    + destruct (vi_has _ _ _ _ _ W) as [E|(m' & E1 & E2 & E3)]; [lia|].
      destruct (IH u) as [HK _]; [lia|]. destruct (HK i m' Hi HA E1 E2) as [F|(e' & F1 & F2 & F3 & F4 & F5)]; [left; lia|].
      rewrite Ef in F5. destruct F5 as (cv & F5 & F6).
      destruct (vi_carry _ _ _ _ _ W HT m' e' cv E1 E2 F1 F6) as [G|(e & cv' & G1 & G2 & G3 & G4 & G5)]; [rewrite F2, F3; auto|left; lia|].
      right. exists e. destruct (Hel e G1). repeat split; auto; try lia. exists cv'. split; [lia|auto].
Qed.

Lemma filter_and_length {T} (p q : T -> bool) l : length (filter (fun x => p x && q x) l) = length (filter q (filter p l)).
Proof. induction l as [|x l IH]; simpl; auto. destruct (p x); simpl; auto. destruct (q x); simpl; auto. Qed.
Lemma senders_filter Q H : NoDup (map vc_from Q) -> NoDup H -> incl H (map vc_from Q) ->
  length H <= length (filter (fun m => mem (vc_from m) H) Q).
Proof.
  intros N1 N2 HI. rewrite <- (filter_map_length vc_from (fun j => mem j H)).
  apply NoDup_incl_length; auto. intros x Hx. apply filter_In. split; auto. apply mem_In; auto.
Qed.

Lemma Rv_step v : v0 < v -> Kv v -> (forall u, v0 < u < v -> Av u) -> Rv v.
Proof.
  intros Hv HK HA i en Hi Hen Ev Hls. pose proof (RIof i Hi) as R. pose proof (ri_ents _ _ _ _ R en Hen) as [_ EQ (x & Ex & Hx) (mn & mx & rs & ER & EInst)].
  set (Q := n_Q en) in *. set (lb := n_lb en) in *. destruct EQ as (QL & QN & QM). rewrite Ev in QM.
  assert (Qset : replicaSet (cn k) (map vc_from Q)).
  { split; auto. apply Forall_forall. intros y Hy. apply in_map_iff in Hy. destruct Hy as (m & <- & Hm). apply QM; auto. }
  pose proof (honest_overlap _ _ _ (cbyz k) A0_set Qset) as HO. rewrite map_length, QL in HO.
  destruct V as (VN & VF & VL).
  set (H := minus (inter A0 (map vc_from Q)) (cbyz k)) in *.
  set (MH := filter (fun m => mem (vc_from m) H) Q).
  assert (HMH : (if fast then 2 * cf k + cc k + 1 - length (cbyz k) else cf k + cc k + 1 - length (cbyz k)) <= length MH).
  { assert (length H <= length MH).
    { apply senders_filter; auto. - apply minus_NoDup, inter_NoDup, A0_set. - intros y Hy. apply minus_In in Hy. destruct Hy as [Hy _]. apply inter_In in Hy. tauto. }
    assert (LA : (if fast then fastQuorum (cf k) (cc k) else slowQuorum (cf k) (cc k)) <= length A0).
    { unfold A0. pose proof Hdec as HD. destruct fastc as [Ef|Ef]; rewrite Ef in *; [exact (proj1 HD)|exact HD]. }
    unfold cn, nReplicas, vcQuorum, fastQuorum, slowQuorum in *. destruct fastc as [Ef|Ef]; rewrite Ef in *; lia. }
  assert (HMHin : forall m, In m MH -> In m Q /\ ~ In (vc_from m) (cbyz k) /\ CE m).
  { intros m Hm. apply filter_In in Hm. destruct Hm as [Hm1 Hm2]. apply mem_In in Hm2. apply minus_In in Hm2. destruct Hm2 as [Hm2 Hm3].
    apply inter_In in Hm2. destruct (QM m Hm1) as (Q1 & Q2 & Q3). split; auto. split; auto. apply (HK (vc_from m)); auto; try tauto. split; auto. }
  assert (Hcnt : forall y, length (filter (fun m => y <=? vc_ls m) MH) <= honestReports k Q y).
  { intros y. unfold honestReports, MH. rewrite <- filter_and_length. apply filter_length_mono. intros m Hm E. apply andb_true_iff in E. destruct E as [E1 E2].
    rewrite E2, andb_true_r. apply negb_true_iff, mem_nIn. apply (HMHin m). apply filter_In; auto. }
  assert (Hlow : forall y, thr <= length (filter (fun m => y <=? vc_ls m) MH) -> y <= lb).
  { intros y Hy. destruct (HLB i en y Hi Hen) as (lb' & E1 & E2); [pose proof (Hcnt y); fold Q; lia|]. fold Q in E1. rewrite Ex in E1. inversion E1; subst. lia. }
  assert (Hthr : thr <= length MH) by (unfold thr; destruct fastc as [Ef|Ef]; rewrite Ef in *; lia).
  (* s inside the window of the entry *)
  assert (Hsw : s <= lb + kWorkWindowSize).
  { assert (s - kWorkWindowSize <= lb); [|lia]. apply Hlow. replace (filter _ MH) with MH; auto.
    symmetry. assert (HE : forall m, In m MH -> (s - kWorkWindowSize <=? vc_ls m) = true).
    { intros m Hm. apply Nat.leb_le. destruct (HMHin m Hm) as (_ & _ & [C|(e & _ & _ & _ & C & _)]); lia. }
    clear - HE. induction MH as [|m l IH]; simpl; auto. rewrite (HE m) by (left; auto). f_equal. apply IH. intros m' Hm'; apply HE; right; auto. }
  assert (Hfew : length (filter (fun m => s <=? vc_ls m) MH) < thr).
  { destruct (le_lt_dec thr (length (filter (fun m => s <=? vc_ls m) MH))); auto. apply Hlow in l. lia. }
  set (ML := filter (fun m => negb (s <=? vc_ls m)) MH).
  assert (HML : length MH < thr + length ML).
  { pose proof (filter_split_length (fun m => s <=? vc_ls m) MH). unfold ML. lia. }
  assert (HMLin : forall m, In m ML -> In m Q /\ vc_ls m < s /\ exists e, In e (vc_elems m) /\ e_seq e = s /\ e_dig e = d /\
            if fast then v0 <= e_origin e else exists cv, v0 <= cv /\ e_cert e = Some (cv, true)).
  { intros m Hm. apply filter_In in Hm. destruct Hm as [Hm1 Hm2]. apply negb_true_iff, Nat.leb_gt in Hm2. destruct (HMHin m Hm1) as (B1 & _ & [B2|(e & B2 & B3 & B4 & B5 & B6)]); [lia|].
    split; auto. split; auto. exists e; auto. }
  assert (HWF : Forall wellFormed Q). { apply Forall_forall. intros m Hm. destruct (QM m Hm) as (Q1 & _ & Q3). eapply sent_vc; eauto. }
  assert (HCS : consistentSigs Q) by (eapply HS; eauto).
  destruct (computeRestrictions_ok (cf k) (cc k) (arr Q) lb Hfc) as (mn' & mx' & rs' & E' & Lrs & HRule & HRange); try (rewrite present_arr; auto).
  rewrite ER in E'. inversion E'; subst mn' mx' rs'; clear E'. rewrite present_arr in *.
  (* certificates and votes in Q *)
  assert (Hcd : forall cv cd, ValidCert Q s cv cd -> v0 <= cv -> cd = d).
  { intros cv cd (m & e & C1 & C2 & C3 & C4 & C5) Hcv. destruct (QM m C1) as (Q1 & Q2 & Q3). destruct (sent_vc _ _ Q1 Q3) as [_ Hs].
    destruct (Hs e C2) as [D1 D2]. destruct (D2 _ C5) as [D3 D4]. rewrite C3, C4 in D4. eapply cert_d; eauto. intros Hlt. apply HA. lia. }
  assert (Hvd : forall w d', v0 < w -> cf k + cc k + 1 <= votes Q s w d' -> d' = d).
  { intros w d' Hw Hvotes. unfold votes in Hvotes.
    destruct (pigeon_outside vc_from (filter (hasAt s (fun e => (e_dig e =? d') && (w <=? e_origin e))) Q) (cbyz k)) as (m & Hm & Hz);
      [apply NoDup_map_filter, QN|lia|].
    apply filter_In in Hm. destruct Hm as [Hm1 Hm2]. apply existsb_exists in Hm2. destruct Hm2 as (e & He & Hb). bools.
    destruct (QM m Hm1) as (Q1 & Q2 & Q3). assert (Hc : correct k (vc_from m)) by (split; auto).
    destruct (ri_vcs _ _ _ _ (RIof _ Hc) m Q3) as (_ & _ & _ & _ & u & W). destruct (vi_elem _ _ _ _ _ W e He) as (P1 & P2 & _). pose proof (vi_lt _ _ _ _ _ W).
    assert (E1 : e_seq e = s) by auto. assert (E2 : e_dig e = d') by auto. rewrite E1, E2 in P1.
    apply (HA u) with (i := vc_from m); auto. lia. }
  assert (Hfv : fast = true -> forall w, w <= v0 -> cf k + cc k + 1 <= votes Q s w d).
  { intros Ef w Hw. assert (length ML >= cf k + cc k + 1) by (unfold thr in *; rewrite Ef in *; lia).
    apply Nat.le_trans with (length ML); auto. unfold ML, MH, votes. rewrite <- filter_and_length. apply filter_length_mono. intros m Hm E.
    assert (HmL : In m ML). { unfold ML, MH. apply andb_true_iff in E. destruct E. apply filter_In; split; auto. apply filter_In; auto. }
    destruct (HMLin m HmL) as (_ & _ & e & B1 & B2 & B3 & B4). rewrite Ef in B4. apply existsb_exists. exists e. split; auto.
    rewrite B2, B3, !Nat.eqb_refl. simpl. apply Nat.leb_le. lia. }
  assert (HMLpos : exists m, In m ML). { apply length_pos_In. unfold thr in *. destruct fastc as [Ef|Ef]; rewrite Ef in *; lia. }
  assert (Hsc : fast = false -> exists cv, v0 <= cv /\ ValidCert Q s cv d).
  { intros Ef. destruct HMLpos as (m & Hm). destruct (HMLin m Hm) as (B0 & _ & e & B1 & B2 & B3 & B4). rewrite Ef in B4. destruct B4 as (cv & B4 & B5).
    exists cv. split; auto. exists m, e. auto. }
  assert (Hlbs : lb < s) by lia.
  destruct (HRule s) as (r & (w & HMin & Hr) & Hnth); [lia|].
  assert (Htop : fast = false -> exists tv, TopCert Q s tv d /\ w = tv + 1 /\ v0 <= tv).
  { intros Ef. destruct (Hsc Ef) as (cv & C1 & C2). destruct HMin as [(tv & td & T & ->)|[No _]]; [|exfalso; eapply No; eauto].
    assert (v0 <= tv). { destruct T as [T1 T2]. destruct (T2 _ _ C2); lia. }
    assert (td = d) by (eapply Hcd; [apply T|auto]). subst. eauto. }
  assert (Er : r = Some d).
  { destruct Hr as [(d' & -> & Hvotes)|[Hno Hr]].
    - f_equal. destruct (le_lt_dec w v0) as [Hw|Hw]; [|eapply Hvd; eauto]. destruct fastc as [Ef|Ef].
      + destruct (Nat.eq_dec d' d) as [|Hne]; auto. pose proof (votes_two Q s w d' d Hne HWF). pose proof (Hfv Ef w Hw). unfold vcQuorum in QL. lia.
      + destruct (Htop Ef) as (tv & _ & -> & ?). lia.
    - destruct Hr as [(tv & td & T & ->)|[Hnc ->]].
      + f_equal. destruct (le_lt_dec v0 tv); [eapply Hcd; [apply T|auto]|]. exfalso. destruct fastc as [Ef|Ef].
        * assert (w = tv + 1). { destruct HMin as [(tv' & td' & T' & ->)|[No _]]; [|exfalso; eapply No; apply T]. destruct (TopCert_unique _ _ _ _ _ _ T T'); lia. }
          pose proof (Hfv Ef w). pose proof (Hno d). lia.
        * destruct (Htop Ef) as (tv' & T' & _ & ?). destruct (TopCert_unique _ _ _ _ _ _ T T'); lia.
      + exfalso. destruct fastc as [Ef|Ef].
        * assert (w = 0). { destruct HMin as [(tv' & td' & T' & ->)|[_ ->]]; auto. exfalso; eapply Hnc; apply T'. }
          pose proof (Hfv Ef w). pose proof (Hno d). lia.
        * destruct (Htop Ef) as (tv' & T' & _). eapply Hnc; apply T'. }
  subst r.
  assert (Hinst : instDig rs lb s = d).
  { unfold instDig. rewrite (nth_error_nth _ _ _ Hnth). unfold norm. destruct (Nat.eqb_spec d nullDigest); auto. }
  rewrite <- Hinst, <- Ev. destruct HMLpos as (m & Hm). destruct (HMLin m Hm) as (B0 & _ & e & B1 & B2 & B3 & B4).
  assert (Hmn : mn = lb + 1 /\ s <= mx).
  { destruct HRange as [(Hno & _)|(_ & Hmn & Hmx)]; [specialize (Hno m e B0 B1); lia|]. split; auto.
    destruct HN as [HN'|HN'].
    - destruct Hmx as [(_ & Hle & ->)|(_ & ->)]; [|lia]. apply Hle; [lia|]. exists d. rewrite Hnth. unfold norm. destruct (Nat.eqb_spec d nullDigest); [contradiction|auto].
    - apply (HN' i en mn mx rs Hi Hen ER); [lia|fold lb; lia]. }
  apply EInst; lia.
Qed.

Lemma all_steps v : v0 < v -> Kv v /\ Rv v /\ Av v.
Proof.
  induction v as [v IH] using lt_wf_ind. intros Hv.
  assert (HK : Kv v). { apply Kv_step; auto. intros u Hu. destruct (IH u) as (A & B & C); [lia|lia|auto]. }
  assert (HR : Rv v). { apply Rv_step; auto. intros u Hu. destruct (IH u) as (A & B & C); [lia|lia|auto]. }
  split; auto. split; auto. intros i d' Hi Hp. pose proof (RIof i Hi) as R.
  destruct (ri_pphent _ _ _ _ R _ _ _ Hp) as [E|(en & E1 & E2 & E3)]; [lia|].
  eapply (ri_fun _ _ _ _ R v s); eauto.
Qed.

Lemma survive i v1 d1 : v0 <= v1 -> committed k g i v1 s d1 -> d1 = d.
Proof.
  intros Hv Hd. pose proof (dec_cert _ _ _ _ Hd) as HC. eapply cert_d; eauto. intros Hlt. apply all_steps; auto.
Qed.
Lemma survive_pp i v1 d1 : v0 < v1 -> correct k i -> In (v1, s, d1) (r_pph (get g i)) -> d1 = d.
Proof. intros Hv Hi Hp. eapply all_steps; eauto. Qed.
End Safety.
