(** Preservation of the invariants of the consensus model by every event. *)
From Coq Require Import List Arith Lia Bool.
From Verif Require Import Lib_Sets Quorum_Model ViewChange_Model ViewChange_Proofs Consensus_Model Consensus_Inv.
Import ListNotations.
Local Opaque kWorkWindowSize checkpointWindowSize.
Arguments kWorkWindowSize : simpl never.
Arguments checkpointWindowSize : simpl never.

Lemma VI_pres k g r r' m u : VI k g r m u ->
  incl (r_pph r) (r_pph r') ->
  (forall x s d, In (x, s, d) (r_pph r') -> In (x, s, d) (r_pph r) \/ vc_view m <= x) ->
  (forall x s d, In (x, s, d) (r_commits r') -> In (x, s, d) (r_commits r) \/ vc_view m <= x) ->
  (forall m', In m' (r_vcs r') -> In m' (r_vcs r) \/ u < vc_view m') ->
  incl (r_vcs r) (r_vcs r') -> incl (r_ents r) (r_ents r') -> VI k g r' m u.
Proof.
  intros [A B C D E F G J I] H1 H2 H3 H4 H6 H5. constructor; auto.
  - intros x s d Hx Hl. destruct (H2 _ _ _ Hx); [eauto|lia].
  - intros e He. destruct (C e He) as (C1 & C2 & C3 & C4). auto.
  - intros Hc s d Hx. destruct (H2 _ _ _ Hx); [auto|lia].
  - intros Hc s d Hx. destruct (H3 _ _ _ Hx); [auto|lia].
  - intros Hc m' e' cv Hm Hv He Hce Hp. destruct (H4 _ Hm); [|lia]. destruct (H2 _ _ _ Hp); [|lia]. eapply F; eauto.
  - destruct J as [J|(m' & J1 & J2 & J3)]; [auto|right; exists m'; auto].
  - destruct I as [I|(en & I1 & I2 & I3)]; [auto|right; exists en; auto].
Qed.
Lemma EI_pres k g r r' en : EI k g r en -> r_view r <= r_view r' -> incl (r_pph r) (r_pph r') -> EI k g r' en.
Proof.
  intros [A B C (mn & mx & rs & D1 & D2)] H1 H2. constructor; auto; [lia|]. exists mn, mx, rs; split; auto.
Qed.

(** Events that touch none of view, pph, commits, vcs, prev, ents (and only grow the rest). *)
Lemma vcs_same k g i r r' : RI k g i r ->
  r_view r' = r_view r -> incl (r_pph r) (r_pph r') ->
  (forall x s d, In (x, s, d) (r_pph r') -> In (x, s, d) (r_pph r) \/ r_view r <= x) ->
  (forall x s d, In (x, s, d) (r_commits r') -> In (x, s, d) (r_commits r) \/ r_view r <= x) ->
  r_vcs r' = r_vcs r -> r_prev r' = r_prev r -> r_ls r <= r_ls r' -> incl (r_ents r) (r_ents r') ->
  forall m, In m (r_vcs r') -> vc_from m = i /\ vc_view m <= r_view r' /\ vc_ls m <= r_ls r' /\
          (vc_view m = r_view r' -> r_prev r' = Some m) /\ exists u, VI k g r' m u.
Proof.
  intros R E1 H1 H2 H3 E2 E3 Hl H4 m Hm. rewrite E2 in Hm. destruct (ri_vcs _ _ _ _ R m Hm) as (A & B & C & D & u & E).
  rewrite E1, E3. split; [auto|]. split; [auto|]. split; [lia|]. split; [auto|]. exists u. eapply VI_pres; eauto.
  - intros x s d Hx. destruct (H2 _ _ _ Hx); [auto|right; lia].
  - intros x s d Hx. destruct (H3 _ _ _ Hx); [auto|right; lia].
  - intros m' Hm'. rewrite E2 in Hm'. auto.
  - rewrite E2. apply incl_refl.
Qed.
Lemma ents_same k g i r r' : RI k g i r -> r_view r <= r_view r' -> incl (r_pph r) (r_pph r') -> r_ents r' = r_ents r ->
  forall en, In en (r_ents r') -> EI k g r' en.
Proof. intros R H1 H2 E en He. rewrite E in He. eapply EI_pres; [eapply (ri_ents _ _ _ _ R); eauto|auto|auto]. Qed.

Ltac start R R0 HV HE :=
  pose proof R as R0;
  match goal with |- RI _ _ _ ?r' => pose proof (vcs_same _ _ _ _ r' R0) as HV; pose proof (ents_same _ _ _ _ r' R0) as HE;
    unfold addPP, setStable in HV, HE; simpl in HV, HE end.
Ltac vsame HV := apply HV; auto; try (intros; auto; fail); try apply incl_refl.
Ltac esame HE := apply HE; auto; try apply incl_refl.

Lemma pres_addPP k g i r s d slow tok : RI k g i r -> r_active r = true -> inWindow r s = true -> d <> nullDigest ->
  (ctime k = false -> tok = true) -> lookup s (r_pp r) = None -> RI k g i (addPP s d slow tok r).
Proof.
  intros R Ha Hw Hd Ht Hl. start R R0 HV HE.
  unfold inWindow in Hw. apply andb_true_iff in Hw. destruct Hw as [Hw1 Hw2]. apply Nat.ltb_lt in Hw1. apply Nat.leb_le in Hw2.
  assert (Hnew : forall d', ~ In (r_view r, s, d') (r_pph r)).
  { intros d' H. destruct (ri_ppinv _ _ _ _ R Ha s d' H) as [H'|(p & Hp & _)]; [lia|congruence]. }
  destruct R. constructor; simpl; auto.
  - intros v s' d1 d2 [H1|H1] [H2|H2].
    + congruence.
    + inversion H1; subst. exfalso; eapply Hnew; eauto.
    + inversion H2; subst. exfalso; eapply Hnew; eauto.
    + eauto.
  - intros v s' d1 [H1|H1]; [inversion H1; subst; lia|eauto].
  - rewrite Ha; discriminate.
  - intros s' p. destruct (Nat.eqb_spec s' s) as [->|Hn].
    + intros H; inversion H; subst; simpl. split; [lia|]. auto.
    + intros H. destruct (ri_pp _ _ H) as (A & B & C & D). auto.
  - intros _ s' d' [H|H].
    + inversion H; subst. right. rewrite Nat.eqb_refl. eexists; split; eauto.
    + destruct (ri_ppinv Ha _ _ H) as [A|(p & A & B)]; [auto|]. right. destruct (Nat.eqb_spec s' s); [congruence|eauto].
  - rewrite Ha; discriminate.
  - intros s' H. destruct (ri_prep _ H) as (p & A & B). destruct (Nat.eqb_spec s' s); [congruence|eauto].
  - intros s' H. destruct (ri_fast _ H) as (p & A & B). destruct (Nat.eqb_spec s' s); [congruence|eauto].
  - intros s' H. destruct (ri_com _ H) as (p & A & B). destruct (Nat.eqb_spec s' s); [congruence|eauto].
  - intros x H. right. auto.
  - intros v s' d' H. destruct (ri_commits _ _ _ H) as (A & B & C). auto.
  - intros v s' d' H. destruct (ri_dec _ _ _ H) as (A & B). auto.
  - vsame HV. + intros x H; right; auto. + intros x s' d' [H|H]; [inversion H; subst; auto|auto].
  - esame HE. intros x H; right; auto.
  - intros v s' d' [H|H]; [inversion H; subst|eauto].
    destruct (ri_actent Ha) as [A|(en & A & B & C)]; [auto|right; exists en; repeat split; auto; lia].
Qed.

Lemma pres_vote k g i r s p : RI k g i r -> r_active r = true -> lookup s (r_pp r) = Some p ->
  RI k g i (set_votes ((r_view r, s, p_dig p) :: r_votes r) r).
Proof.
  intros R Ha Hl. start R R0 HV HE. destruct R. constructor; simpl; auto.
  - intros x [<-|H]; auto. eapply ri_pp; eauto.
  - vsame HV.
  - esame HE.
Qed.
Lemma pres_fast k g i r s p : RI k g i r -> lookup s (r_pp r) = Some p -> p_slow p = false -> r_active r = true ->
  RI k g i (set_fast (s :: r_fast r) r).
Proof.
  intros R Hl Hs Ha. start R R0 HV HE. destruct R. constructor; simpl; auto.
  - rewrite Ha; discriminate.
  - intros s' [<-|H]; auto. exists p; split; auto. eapply ri_pp; eauto.
  - vsame HV.
  - esame HE.
Qed.
Lemma pres_prep k g i r s p : RI k g i r -> lookup s (r_pp r) = Some p -> CertOK k g (r_view r) s (p_dig p) -> r_active r = true ->
  RI k g i (set_prep (s :: r_prep r) r).
Proof.
  intros R Hl Hs Ha. start R R0 HV HE. destruct R. constructor; simpl; auto.
  - rewrite Ha; discriminate.
  - intros s' [<-|H]; eauto.
  - intros v s' d H. destruct (ri_commits _ _ _ H) as (A & B & C). split; [auto|split; [auto|]]. intros. destruct C; auto.
  - vsame HV.
  - esame HE.
Qed.
Lemma pres_commit k g i r s p : RI k g i r -> lookup s (r_pp r) = Some p -> In s (r_prep r) -> r_active r = true ->
  RI k g i (set_commits ((r_view r, s, p_dig p) :: r_commits r) r).
Proof.
  intros R Hl Hs Ha. start R R0 HV HE. destruct R. constructor; simpl; auto.
  - intros v s' d [H|H]; [inversion H; subst|auto].
    destruct (ri_prep _ Hs) as (p' & A & B). assert (p' = p) by congruence; subst. split; [eapply ri_pp; eauto|]. auto.
  - vsame HV. intros x s' d [H|H]; [inversion H; subst; auto|auto].
  - esame HE.
Qed.
Lemma pres_dec k g i r s p : RI k g i r -> lookup s (r_pp r) = Some p -> r_active r = true ->
  SlowQ k g (r_view r) s (p_dig p) \/ (FastQ k g (r_view r) s (p_dig p) /\ p_dig p <> nullDigest) ->
  forall r', r' = set_com (s :: r_com r) (set_dec ((r_view r, s, p_dig p) :: r_dec r) r) \/
             r' = set_fcom (s :: r_fcom r) (set_dec ((r_view r, s, p_dig p) :: r_dec r) r) -> RI k g i r'.
Proof.
  intros R Hl Ha Hq r' Hr.
  destruct Hr as [-> | ->]; start R R0 HV HE; destruct R; constructor; simpl; auto; try (rewrite Ha; discriminate);
  match goal with
  | |- forall s0, _ -> exists p0, _ /\ (_ = _ \/ _) =>
      intros s' H; assert (H' : s = s' \/ In s' (r_com r) \/ In s' (r_fcom r)) by tauto;
      destruct H' as [<-|H']; [exists p; auto|destruct (ri_com s' H') as (p' & A & B); eauto]
  | |- forall v s0 d, _ -> In _ (r_pph r) /\ (SlowQ _ _ _ _ _ \/ _) =>
      intros v s' d [H|H]; [inversion H; subst; split; [eapply ri_pp; eauto|auto]|eauto]
  | |- forall m, In m _ -> _ => vsame HV
  | |- forall en, In en _ -> EI _ _ _ _ => esame HE
  end.
Qed.

Lemma HistOK_cons k g h d j v : HistOK k g h -> correct k j -> In (v, S (length h), d) (r_dec (get g j)) -> HistOK k g (d :: h).
Proof.
  intros H Hj Hd i d'. simpl. intros E. destruct (lt_dec i (length (rev h))) as [Hi|Hi].
  - rewrite nth_error_app1 in E by auto. eauto.
  - rewrite nth_error_app2 in E by lia. rewrite rev_length in *. destruct (i - length h) eqn:Ei; simpl in E.
    + inversion E; subst. replace i with (length h) by lia. eauto.
    + destruct n; discriminate.
Qed.
Lemma pres_exec k g i r p : RI k g i r -> correct k i -> incl (r_dec r) (r_dec (get g i)) -> lookup (S (r_exec r)) (r_pp r) = Some p ->
  In (S (r_exec r)) (r_com r) \/ In (S (r_exec r)) (r_fcom r) ->
  RI k g i (set_exec (S (r_exec r)) (set_hist (p_dig p :: r_hist r) r)).
Proof.
  intros R Hi Hg Hl Hs. start R R0 HV HE. destruct R. constructor; simpl; auto.
  - destruct ri_hist as [A B]. split; [lia|]. destruct (ri_com _ Hs) as (p' & C & D). assert (p' = p) by congruence; subst.
    eapply HistOK_cons; eauto. rewrite A. eauto.
  - vsame HV.
  - esame HE.
Qed.
Lemma pres_ck k g i r s h : RI k g i r -> length h = s -> HistOK k g h -> RI k g i (set_cks ((s, h) :: r_cks r) r).
Proof.
  intros R Hl Hs. start R R0 HV HE. destruct R. constructor; simpl; auto.
  - intros s' h' [H|H]; [inversion H; subst; auto|eauto].
  - vsame HV.
  - esame HE.
Qed.
Lemma pres_setst k g i r s h : RI k g i r -> length h = s -> HistOK k g h -> RI k g i (set_exec s (set_hist h r)).
Proof.
  intros R Hl Hs. start R R0 HV HE. destruct R. constructor; simpl; auto.
  - vsame HV.
  - esame HE.
Qed.
Lemma in_keep (s x : nat) l : In x (filter (fun y => s <? y) l) <-> In x l /\ s < x.
Proof. rewrite filter_In, Nat.ltb_lt. tauto. Qed.
Lemma pres_stable k g i r s : RI k g i r -> r_ls r <= s -> RI k g i (setStable s r).
Proof.
  intros R Hl. start R R0 HV HE. destruct R. constructor; simpl; auto.
  - intros s' p. rewrite lookup_filter. destruct (Nat.ltb_spec s s'); [|discriminate]. intros H'. destruct (ri_pp _ _ H') as (A & B & C). split; [lia|auto].
  - intros Ha s' d H. destruct (ri_ppinv Ha _ _ H) as [A|(p & A & B)]; [left; lia|].
    rewrite lookup_filter. destruct (Nat.ltb_spec s s'); [eauto|left; lia].
  - intros Ha. destruct (ri_inact Ha) as (-> & -> & -> & -> & ->). simpl; auto.
  - intros s'. rewrite in_keep. intros [A B]. rewrite lookup_filter. destruct (Nat.ltb_spec s s'); [eauto|lia].
  - intros s'. rewrite in_keep. intros [A B]. rewrite lookup_filter. destruct (Nat.ltb_spec s s'); [eauto|lia].
  - intros s'. rewrite !in_keep. intros A. assert (s < s') by tauto. rewrite lookup_filter. destruct (Nat.ltb_spec s s'); [|lia]. apply ri_com; tauto.
  - intros v s' d H. destruct (ri_commits _ _ _ H) as (A & B & C). split; [auto|split; [auto|]]. intros Ha Hv.
    destruct (C Ha Hv); [left; lia|]. rewrite in_keep. destruct (le_lt_dec s' s); auto.
  - vsame HV.
  - esame HE.
  - intros Ha. destruct (ri_actent Ha) as [A|(en & A & B & C)]; [auto|right; exists en; repeat split; auto; lia].
Qed.

(** View change: building the message. *)
Lemma vcElem_In r s e : In e (vcElem r s) -> e_seq e = s /\ e_origin e = r_view r /\ exists p, lookup s (r_pp r) = Some p /\
  e_dig e = p_dig p /\ ((In s (r_prep r) /\ e_cert e = Some (r_view r, true)) \/
                        (exists ce, carried (r_prev r) s (p_dig p) = Some ce /\ e_cert e = Some ce) \/ e_cert e = None).
Proof.
  unfold vcElem. destruct (lookup s (r_pp r)) as [p|] eqn:El; [|intros []]. destruct (p_tok p); [|intros []].
  destruct (mem s (r_prep r)) eqn:Em.
  - intros [<-|[]]; simpl. repeat split; auto. exists p; repeat split; auto. left; split; auto. apply mem_In; auto.
  - destruct (carried (r_prev r) s (p_dig p)) as [ce|] eqn:Ec.
    + intros [<-|[]]; simpl. repeat split; auto. exists p; repeat split; auto. right; left; eauto.
    + destruct (p_dig p =? nullDigest); [intros []|]. intros [<-|[]]; simpl. repeat split; auto. exists p; repeat split; auto.
Qed.
Lemma vcElem_len r s : length (vcElem r s) <= 1.
Proof.
  unfold vcElem. destruct (lookup s (r_pp r)) as [p|]; simpl; auto. destruct (p_tok p); simpl; auto.
  destruct (mem s (r_prep r)); simpl; auto. destruct (carried _ _ _); simpl; auto. destruct (_ =? _); simpl; auto.
Qed.
Lemma increasing_app lo l1 l2 : increasing lo l1 -> (forall e, In e l1 -> e_seq e <= lo + 1) -> increasing (lo + 1) l2 -> length l1 <= 1 -> increasing lo (l1 ++ l2).
Proof.
  destruct l1 as [|e l1]; simpl.
  - intros _ _ H _. eapply increasing_weaken; [|eauto]; lia.
  - destruct l1; simpl; [|lia]. intros [H _] H1 H2 _. split; auto. assert (e_seq e = lo + 1) by (specialize (H1 e (or_introl eq_refl)); lia). rewrite H0; auto.
Qed.
Lemma flat_map_increasing r n : forall lo, increasing lo (flat_map (vcElem r) (seq (lo + 1) n)).
Proof.
  induction n as [|n IH]; simpl; auto. intros lo. apply increasing_app.
  - pose proof (vcElem_len r (lo + 1)). destruct (vcElem r (lo + 1)) as [|e l] eqn:E; simpl; auto. destruct l; [|simpl in *; lia].
    split; simpl; auto. destruct (vcElem_In r (lo + 1) e) as [A _]; [rewrite E; left; auto|lia].
  - intros e He. apply vcElem_In in He. lia.
  - replace (S (lo + 1)) with ((lo + 1) + 1) by lia. apply IH.
  - apply vcElem_len.
Qed.
Lemma carried_In prev s d ce : carried prev s d = Some ce -> exists m e, prev = Some m /\ In e (vc_elems m) /\ e_seq e = s /\ e_dig e = d /\ e_cert e = Some ce.
Proof.
  unfold carried. destruct prev as [m|]; [|discriminate]. destruct (find _ _) as [e|] eqn:E; [|discriminate]. apply find_some in E.
  destruct E as [A B]. apply andb_true_iff in B. rewrite !Nat.eqb_eq in B. destruct B. intros Hce. exists m, e. auto.
Qed.
Lemma increasing_nodup_seq lo l e e' : increasing lo l -> In e l -> In e' l -> e_seq e = e_seq e' -> e = e'.
Proof.
  revert lo; induction l as [|x l IH]; intros lo; simpl; [tauto|]. intros [A B] [<-|H1] [<-|H2] E; auto.
  - pose proof (increasing_all _ _ B _ H2). lia.
  - pose proof (increasing_all _ _ B _ H1). lia.
  - eauto.
Qed.
Lemma carried_of m e : wellFormed m -> In e (vc_elems m) -> carried (Some m) (e_seq e) (e_dig e) = e_cert e.
Proof.
  intros W He. simpl. destruct (find _ _) as [e'|] eqn:E.
  - apply find_some in E. destruct E as [A B]. apply andb_true_iff in B. rewrite !Nat.eqb_eq in B. destruct B.
    f_equal. eapply increasing_nodup_seq; eauto.
  - exfalso. eapply find_none in E; eauto. rewrite !Nat.eqb_refl in E. discriminate.
Qed.

Lemma buildVC_VI k g i r u : RI k g i r -> r_active r = true -> r_view r < u -> VI k g r (buildVC i u r) (r_view r).
Proof.
  intros R Ha Hu. pose proof R as R0. destruct R.
  assert (HE : forall s, r_ls r < s <= r_ls r + kWorkWindowSize -> incl (vcElem r s) (vc_elems (buildVC i u r))).
  { intros s Hs e He. simpl. apply in_flat_map. exists s. split; auto. apply in_seq. lia. }
  constructor; simpl; auto.
  - intros x s d Hx _. eauto.
  - intros e He. apply in_flat_map in He. destruct He as (s & Hs & He). apply in_seq in Hs.
    destruct (vcElem_In _ _ _ He) as (E1 & E2 & p & Hl & E3 & Hc). rewrite E1, E3. destruct (ri_pp _ _ Hl) as (A & B & C & D).
    split; auto. split; auto. split; [lia|]. intros cv ok Hcert.
    destruct Hc as [[Hp Hc]|[(ce & Hca & Hc)|Hc]]; rewrite Hc in Hcert; [| |discriminate].
    + inversion Hcert; subst. split; auto. split; auto. destruct (ri_prep _ Hp) as (p' & A' & B'). assert (p' = p) by congruence; subst; auto.
    + inversion Hcert; subst. apply carried_In in Hca. destruct Hca as (m & e' & Hm & He' & F1 & F2 & F3).
      destruct (ri_prev _ Hm) as (Hin & Hv). destruct (ri_vcs _ Hin) as (_ & _ & _ & _ & w & V).
      destruct (vi_elem _ _ _ _ _ V _ He') as (_ & _ & _ & V4). destruct (V4 _ _ F3) as (V5 & V6 & V7). rewrite F1, F2 in V7.
      pose proof (vi_lt _ _ _ _ _ V). repeat split; auto. lia.
  - intros Hc s d Hp Hn. destruct (ri_ppinv Ha _ _ Hp) as [A|(p & A & B)]; auto. right.
    destruct (ri_pp _ _ A) as (C & D & E & F). specialize (HE s C).
    unfold vcElem in HE. rewrite A, (E Hc) in HE. destruct (mem s (r_prep r)).
    + eexists; split; [apply HE; left; reflexivity|]. simpl; auto.
    + destruct (carried _ _ _).
      * eexists; split; [apply HE; left; reflexivity|]. simpl; auto.
      * destruct (Nat.eqb_spec (p_dig p) nullDigest); [congruence|]. eexists; split; [apply HE; left; reflexivity|]. simpl; auto.
  - intros Hc s d Hcm. destruct (ri_commits _ _ _ Hcm) as (A & B & C). destruct (C Ha eq_refl) as [D|D]; auto. right.
    destruct (ri_prep _ D) as (p & E & F). destruct (ri_pp _ _ E) as (G & G2 & I & _). specialize (HE s G).
    unfold vcElem in HE. rewrite E, (I Hc) in HE. apply mem_In in D. rewrite D in HE.
    eexists; split; [apply HE; left; reflexivity|]. simpl. repeat split; auto. exact (ri_fun _ _ _ _ G2 A).
  - intros Hc m' e' cv Hm Hv He Hce Hp. destruct (ri_ppinv Ha _ _ Hp) as [A|(p & A & B)]; auto. right.
    destruct (ri_pp _ _ A) as (C & D & E & F). specialize (HE _ C). unfold vcElem in HE. rewrite A, (E Hc) in HE.
    destruct (ri_vcs _ Hm) as (_ & _ & _ & Hprev & w & V). specialize (Hprev Hv).
    assert (Hcv : cv <= r_view r). { destruct (vi_elem _ _ _ _ _ V _ He) as (_ & _ & _ & V4). destruct (V4 _ _ Hce) as (_ & V6 & _). pose proof (vi_lt _ _ _ _ _ V). lia. }
    destruct (mem (e_seq e') (r_prep r)).
    + eexists _, _. split; [apply HE; left; reflexivity|]. simpl. repeat split; auto.
    + rewrite B, Hprev, (carried_of _ _ (vi_wf _ _ _ _ _ V) He), Hce in HE.
      eexists _, _. split; [apply HE; left; reflexivity|]. simpl. repeat split; auto.
  - red; simpl. apply flat_map_increasing.
  - destruct (r_prev r) as [m'|] eqn:Ep; [right|left; apply ri_prevI; auto]. destruct (ri_prev _ eq_refl) as [A B]. exists m'.
    repeat split; auto. eapply ri_vcs; eauto.
Qed.

Lemma pres_leave k g i r u : RI k g i r -> r_active r = true -> r_view r < u ->
  RI k g i (set_view u (set_active false (set_pp [] (set_prep [] (set_fast [] (set_com [] (set_fcom []
             (set_prev (Some (buildVC i u r)) (set_pend None (set_vcs (buildVC i u r :: r_vcs r) r)))))))))).
Proof.
  intros R Ha Hu. start R R0 HV HE. clear HV. pose proof (buildVC_VI k g i r u R Ha Hu) as V. destruct R. constructor; simpl; try (intros; discriminate); auto.
  - intros v s d H. specialize (ri_bound _ _ _ H). lia.
  - intros _ v s d H. specialize (ri_bound _ _ _ H). lia.
  - intros s []. 
  - intros s [].
  - intros s [[]|[]].
  - intros v s d H. destruct (ri_commits _ _ _ H) as (A & B & C). split; auto. split; auto. discriminate.
  - intros m [<-|Hm].
    + simpl. repeat split; auto. exists (r_view r). eapply VI_pres; eauto; simpl; auto; try apply incl_refl; try (intros ? ?; right; assumption).
      intros m' [<-|H]; simpl; auto.
    + destruct (ri_vcs _ Hm) as (A & B & C & D & w & E). repeat split; auto; try lia.
      exists w. pose proof (vi_lt _ _ _ _ _ E). eapply VI_pres; eauto; simpl; auto; try apply incl_refl; try (intros ? ?; right; assumption).
      intros m' [<-|H']; simpl; auto. right; lia.
  - intros m H; inversion H; subst. simpl; auto.
  - apply HE; auto; try lia; apply incl_refl.
Qed.

Lemma VI_resend k g r m0 u w : VI k g r m0 w -> vc_view m0 < u -> (forall v s d, In (v, s, d) (r_pph r) -> v < vc_view m0) ->
  VI k g r (mkVC (vc_from m0) u (vc_ls m0) (vc_elems m0)) w.
Proof.
  intros [A B C D E F G J I] Hu Hp. constructor; simpl; auto; try lia. intros x s d Hx _. eapply B; eauto.
Qed.

Lemma pres_resend k g i r u m0 : RI k g i r -> r_active r = false -> r_view r < u -> r_prev r = Some m0 ->
  forall m, m = mkVC (vc_from m0) u (vc_ls m0) (vc_elems m0) ->
  RI k g i (set_view u (set_prev (Some m) (set_pend None (set_vcs (m :: r_vcs r) r)))).
Proof.
  intros R Ha Hu Hp m Hm. start R R0 HV HE. destruct R. destruct (ri_prev _ Hp) as [Hin Hv].
  destruct (ri_vcs _ Hin) as (F1 & F2 & F3 & F4 & w & V).
  constructor; simpl; try (intros; discriminate); auto.
  - intros v s d H. specialize (ri_bound _ _ _ H). lia.
  - intros _ v s d H. specialize (ri_bound _ _ _ H). lia.
  - destruct (ri_inact Ha) as (-> & _). simpl; intros; discriminate.
  - rewrite Ha; discriminate.
  - destruct (ri_inact Ha) as (_ & -> & _). intros s [].
  - destruct (ri_inact Ha) as (_ & _ & _ & -> & ->). intros s [[]|[]].
  - intros v s d H. destruct (ri_commits _ _ _ H) as (A & B & C). split; auto. split; auto. rewrite Ha; discriminate.
  - intros m' [<-|H].
    + rewrite Hm. simpl. repeat split; auto. exists w. pose proof (vi_lt _ _ _ _ _ V).
      assert (V' : VI k g r (mkVC (vc_from m0) u (vc_ls m0) (vc_elems m0)) w).
      { apply VI_resend; auto; [lia|]. rewrite Hv. exact (ri_boundI Ha). }
      eapply VI_pres; eauto; simpl; auto; try apply incl_refl; try (intros ? ?; right; assumption).
      intros m' [<-|H']; simpl; auto. right; lia.
    + destruct (ri_vcs _ H) as (A & B & C & D & w' & E). repeat split; auto; try lia.
      exists w'. pose proof (vi_lt _ _ _ _ _ E). eapply VI_pres; eauto; simpl; auto; try apply incl_refl; try (intros ? ?; right; assumption).
      intros m2 [<-|H']; simpl; auto. right. rewrite Hm; simpl. lia.
  - intros m' H; inversion H; subst. simpl; auto.
  - apply HE; auto; try lia; apply incl_refl.
  - rewrite Ha; discriminate.
Qed.

Lemma incSenders_NoDup Q : forall lo, incSenders lo Q = true -> NoDup (map vc_from Q) /\ forall x, In x (map vc_from Q) -> lo <= x.
Proof.
  induction Q as [|m Q IH]; simpl; intros lo; [split; [constructor|tauto]|]. rewrite andb_true_iff, Nat.leb_le. intros [A B].
  apply IH in B. destruct B as [B1 B2]. split.
  - constructor; auto. intros H. apply B2 in H. lia.
  - intros x [<-|H]; auto. apply B2 in H; lia.
Qed.
Lemma quorumOK_QOK k g v Q : quorumOK k g v Q = true -> QOK k g v Q.
Proof.
  unfold quorumOK. rewrite !andb_true_iff, Nat.eqb_eq, forallb_forall. intros [[A B] C]. split; auto. split; [eapply incSenders_NoDup; eauto|].
  intros m Hm. specialize (C m Hm). rewrite !andb_true_iff, Nat.ltb_lt, Nat.eqb_eq in C. destruct C as [[C1 C2] C3]. repeat split; auto.
  apply existsb_exists in C3. destruct C3 as (m' & D & E). apply eqvc_true in E; subst; auto.
Qed.
Lemma pres_pend k g i r Q x : RI k g i r -> r_active r = false -> QOK k g (r_view r) Q -> calcLB (cf k) (cc k) (arr Q) = Some x ->
  RI k g i (set_pend (Some Q) (set_lb (max x (max (r_ls r) (r_lb r))) r)).
Proof.
  intros R Ha HQ Hx. start R R0 HV HE. destruct R. constructor; simpl; auto.
  - vsame HV.
  - esame HE.
  - intros Q' H. inversion H; subst. split; auto. split; auto. exists x; split; auto. lia.
Qed.
Lemma pres_nvs k g i r x : RI k g i r -> RI k g i (set_nvs x r).
Proof. intros R. start R R0 HV HE. destruct R. constructor; simpl; auto. - vsame HV. - esame HE. Qed.
Lemma pres_pps k g i r x : RI k g i r -> RI k g i (set_pps x r).
Proof. intros R. start R R0 HV HE. destruct R. constructor; simpl; auto. - vsame HV. - esame HE. Qed.

Lemma installed_In mn mx ls lb rs s p : In (s, p) (installed mn mx ls lb rs) <->
  mn <> 0 /\ mn <= s <= mx /\ ls < s /\ p = mkPP (instDig rs lb s) true true.
Proof.
  unfold installed. destruct (Nat.eqb_spec mn 0); [simpl; lia|]. rewrite in_flat_map. split.
  - intros (x & A & B). apply in_seq in A. destruct (Nat.ltb_spec ls x); [|destruct B]. destruct B as [B|[]]. inversion B; subst.
    repeat split; auto; lia.
  - intros (A & B & C & ->). exists s. split; [apply in_seq; lia|]. destruct (Nat.ltb_spec ls s); [left; auto|lia].
Qed.
Lemma lookup_Some_ex {T} s (l : list (nat * T)) x : In (s, x) l -> exists y, lookup s l = Some y.
Proof. induction l as [|[s' y] l IH]; simpl; [tauto|]. intros [H|H]; [inversion H; subst; rewrite Nat.eqb_refl; eauto|]. destruct (s =? s'); eauto. Qed.
Lemma installed_lookup mn mx ls lb rs s p : lookup s (installed mn mx ls lb rs) = Some p <->
  mn <> 0 /\ mn <= s <= mx /\ ls < s /\ p = mkPP (instDig rs lb s) true true.
Proof.
  rewrite <- installed_In. split; [apply lookup_In|]. intros H. destruct (lookup_Some_ex _ _ _ H) as (y & Hy).
  rewrite Hy. apply lookup_In in Hy. apply installed_In in Hy. apply installed_In in H. f_equal. destruct H as (_ & _ & _ & ->), Hy as (_ & _ & _ & ->). auto.
Qed.
Lemma computeRestrictions_bounds F C a lb mn mx rs : computeRestrictions F C a lb = Some (mn, mx, rs) ->
  mn = 0 \/ (mn = lb + 1 /\ mx <= lb + kWorkWindowSize).
Proof.
  unfold computeRestrictions. destruct (restrictLoop _ _ _ _ _ _ _) as [[rs' l]|]; [|discriminate].
  destruct (filter _ _); [intros H; inversion H; auto|].
  destruct ((0 <? l) && (l <=? lb + kWorkWindowSize - checkpointWindowSize)); intros H; inversion H; subst; right; split; auto. lia.
Qed.

Lemma pres_enter k g i r Q mn mx rs : RI k g i r -> r_active r = false -> r_pend r = Some Q -> r_lb r <= r_ls r ->
  computeRestrictions (cf k) (cc k) (arr Q) (r_lb r) = Some (mn, mx, rs) ->
  RI k g i (set_active true (set_pp (installed mn mx (r_ls r) (r_lb r) rs) (set_pend None
               (set_pph (map (fun x => (r_view r, fst x, p_dig (snd x))) (installed mn mx (r_ls r) (r_lb r) rs) ++ r_pph r)
               (set_ents (mkEntry (r_view r) Q (r_lb r) (r_ls r) :: r_ents r) r))))).
Proof.
  intros R Ha HQ Hlb HC. start R R0 HV HE. destruct R.
  set (L := installed mn mx (r_ls r) (r_lb r) rs) in *.
  assert (Hnew : forall v s d, In (v, s, d) (map (fun x => (r_view r, fst x, p_dig (snd x))) L) ->
                 v = r_view r /\ mn <> 0 /\ mn <= s <= mx /\ r_ls r < s /\ d = instDig rs (r_lb r) s).
  { intros v s d H. apply in_map_iff in H. destruct H as ((s', p) & E & H). simpl in E. inversion E; subst. apply installed_In in H.
    destruct H as (A & B & C & D). repeat split; auto; try lia. rewrite D; auto. }
  assert (Hin : forall s, mn <> 0 -> mn <= s <= mx -> r_ls r < s -> In (r_view r, s, instDig rs (r_lb r) s) (map (fun x => (r_view r, fst x, p_dig (snd x))) L)).
  { intros s A B C. apply in_map_iff. exists (s, mkPP (instDig rs (r_lb r) s) true true). split; auto. apply installed_In. auto. }
  pose proof (computeRestrictions_bounds _ _ _ _ _ _ _ HC) as Hb.
  destruct (ri_inact Ha) as (E1 & E2 & E3 & E4 & E5).
  constructor; simpl; try (intros; discriminate); auto.
  - intros v s d d' H1 H2. apply in_app_iff in H1, H2. destruct H1 as [H1|H1], H2 as [H2|H2].
    + apply Hnew in H1, H2. destruct H1 as (_ & _ & _ & _ & ->), H2 as (_ & _ & _ & _ & ->). auto.
    + apply Hnew in H1. apply (ri_boundI Ha) in H2. lia.
    + apply Hnew in H2. apply (ri_boundI Ha) in H1. lia.
    + eauto.
  - intros v s d H. apply in_app_iff in H. destruct H as [H|H]; [apply Hnew in H; lia|eauto].
  - intros s p H. pose proof H as H0. apply installed_lookup in H. destruct H as (A & B & C & ->). simpl. split; [lia|]. split; [apply in_app_iff; left; auto|]. split; auto. discriminate.
  - intros _ s d H. apply in_app_iff in H. destruct H as [H|H].
    + apply Hnew in H. destruct H as (_ & A & B & C & ->). right. exists (mkPP (instDig rs (r_lb r) s) true true). split; auto. apply installed_lookup. auto.
    + apply (ri_boundI Ha) in H. lia.
  - rewrite E2. intros s [].
  - rewrite E3. intros s [].
  - rewrite E4, E5. intros s [[]|[]].
  - intros x H. apply in_app_iff. auto.
  - intros v s d H. destruct (ri_commits _ _ _ H) as (A & B & C). split; [apply in_app_iff; auto|]. split; auto. intros _ Hv.
    apply (ri_boundI Ha) in A. lia.
  - intros v s d H. destruct (ri_dec _ _ _ H) as (A & B). split; auto. apply in_app_iff; auto.
  - vsame HV.
    + intros x H. apply in_app_iff; auto.
    + intros x s d H. apply in_app_iff in H. destruct H as [H|H]; [apply Hnew in H; right; lia|auto].
    + intros x H; right; auto.
  - intros H. destruct (ri_prevI H). auto.
  - intros en [<-|H].
    + destruct (ri_pend _ HQ) as (A & B & x & C & D). constructor; simpl; auto.
      * exists x; split; auto.
      * exists mn, mx, rs. split; auto. intros s H1 H2 H3. apply in_app_iff; left; auto.
    + eapply EI_pres; eauto. simpl. intros x Hx. apply in_app_iff; auto.
  - intros v s d H. apply in_app_iff in H. destruct H as [H|H].
    + apply Hnew in H. right. eexists; split; [left; reflexivity|]. simpl. lia.
    + destruct (ri_pphent _ _ _ H) as [A|(en & A & B & C)]; [auto|right; exists en; auto].
  - intros _. right. eexists; split; [left; reflexivity|]. simpl. lia.
Qed.

Lemma get_init k i : get (init k) i = rep0.
Proof. unfold get, init. rewrite nth_repeat. auto. Qed.
Lemma RI_init k g i : RI k g i rep0.
Proof.
  constructor; simpl; try (intros; contradiction); try (intros; discriminate); auto; try tauto.
  - intros x [].
  - split; auto. intros j d H. destruct j; discriminate.
Qed.
Lemma INV_init k : INV k (init k).
Proof.
  split; [unfold init; apply repeat_length|]. split.
  - intros i _. rewrite get_init. apply RI_init.
  - intros i _. rewrite get_init. intros m [].
Qed.

Lemma elemsOK_spec k g v ls : forall l lo, elemsOK k g v ls lo l = true -> increasing lo l /\
  forall e, In e l -> e_origin e < v /\ forall cv, e_cert e = Some (cv, true) -> cv <= e_origin e /\ CertOK k g cv (e_seq e) (e_dig e).
Proof.
  induction l as [|e l IH]; simpl; intros lo; [split; [auto|tauto]|]. rewrite !andb_true_iff, !Nat.ltb_lt. intros [[[[A B] C] D] E].
  apply IH in E. destruct E as [E1 E2]. split; auto. intros e' [<-|H]; auto. split; auto. intros cv Hc. rewrite Hc in D.
  rewrite andb_true_iff, Nat.leb_le in D. destruct D as [D1 D2]. split; auto. simpl in D2. apply Nat.leb_le in D2. exact D2.
Qed.

Lemma in_cbyz_dec k i : {In i (cbyz k)} + {~ In i (cbyz k)}.
Proof. apply in_dec, Nat.eq_dec. Qed.

Lemma honest_in k (A : list nat) : validConfig k -> NoDup A -> cf k + 1 <= length A -> exists i, In i A /\ ~ In i (cbyz k).
Proof.
  intros (N & _ & L) HA HL. pose proof (minus_length A (cbyz k) HA).
  destruct (length_pos_In (minus A (cbyz k))) as (x & Hx); [lia|]. apply minus_In in Hx. eauto.
Qed.
Lemma ckSigners_NoDup k g s h : NoDup (ckSigners k g s h).
Proof. apply NoDup_filter, seq_NoDup. Qed.
Lemma ck_honest k g s h : validConfig k -> INV k g -> cf k + 1 <= length (ckSigners k g s h) -> length h = s /\ HistOK k g h.
Proof.
  intros V (_ & I & _) H. destruct (honest_in k _ V (ckSigners_NoDup k g s h) H) as (j & Hj & Hn).
  unfold ckSigners in Hj. apply filter_In in Hj. destruct Hj as [Hj1 Hj2]. apply in_seq in Hj1. apply existsb_exists in Hj2.
  destruct Hj2 as ((s', h') & A & B). simpl in B. apply andb_true_iff in B. destruct B as [B1 B2]. apply Nat.eqb_eq in B1. apply eqlist_true in B2. subst.
  assert (Hc : correct k j) by (split; [lia|auto]). eapply (ri_cks _ _ _ _ (I j Hc)); eauto.
Qed.

Ltac bools := repeat match goal with
  | H : _ && _ = true |- _ => apply andb_true_iff in H; destruct H
  | H : (_ <? _) = true |- _ => apply Nat.ltb_lt in H
  | H : (_ <=? _) = true |- _ => apply Nat.leb_le in H
  | H : negb _ = true |- _ => apply negb_true_iff in H
  | H : (_ =? _) = true |- _ => apply Nat.eqb_eq in H
  | H : (_ =? _) = false |- _ => apply Nat.eqb_neq in H
  | H : mem _ _ = true |- _ => apply mem_In in H
  end.

Lemma step_RI k g i e r' : validConfig k -> INV k g -> correct k i -> isByzEvent e = false -> actor e = i ->
  local k g i (get g i) e = Some r' -> Grows g (put i r' g) -> get (put i r' g) i = r' -> RI k (put i r' g) i r'.
Proof.
  intros V I Hi Hb Hact H G Hget. set (g' := put i r' g) in *. set (r := get g i) in *.
  assert (R : RI k g' i r) by (eapply RI_mono; [exact G|apply I; auto]).
  destruct e; try discriminate; simpl in H;
  repeat match type of H with match ?x with _ => _ end = Some _ => destruct x eqn:?; try discriminate end;
  try (apply guard_some in H; destruct H as [Hg ->]; bools).
  - (* EPropose *) destruct (lookup s (r_pp r)) eqn:El; [discriminate|]. apply pres_pps, pres_addPP; auto.
  - destruct (lookup s (r_pp r)) eqn:El; [discriminate|]. apply pres_addPP; auto.
    intros Hc. rewrite Hc, orb_false_r in *. auto.
  - apply pres_vote; auto.
  - apply pres_vote with (s := s) (p := p) in R; auto. eapply (pres_fast _ _ _ _ s p) in R; auto.
  - eapply pres_prep; eauto. eapply CertOK_mono; eauto. apply Nat.leb_le; auto.
  - eapply pres_commit; eauto.
  - eapply pres_dec; eauto. left. eapply SlowQ_mono; eauto.
  - eapply pres_dec; eauto. right. split; [eapply FastQ_mono; eauto|]. destruct (ri_fast _ _ _ _ R s) as (p' & A & B); auto. congruence.
  - apply pres_exec; auto.
    + rewrite Hget. simpl. apply incl_refl.
    + match goal with H : _ || _ = true |- _ => apply orb_true_iff in H; destruct H; bools; auto end.
  - destruct (ri_hist _ _ _ _ R). apply pres_ck; auto.
  - eapply pres_stable; eauto; lia.
  - eapply pres_stable; eauto; lia.
  - destruct (ck_honest k g s h V I) as [A B]; auto. apply HistOK_mono with (g' := g') in B; auto.
    assert (R1 : RI k g' i (set_exec s (set_hist h (set_cks ((s, h) :: r_cks r) r)))).
    { apply pres_setst; auto. apply pres_ck; auto. }
    destruct (r_ls r + kWorkWindowSize <? s) eqn:El; auto. apply pres_stable; auto. simpl. bools. lia.
  - inversion H as [H']. bools. apply pres_leave; auto.
  - inversion H as [H']. bools. eapply pres_resend; eauto.
  - apply QOK_mono with (g' := g') in H2 || idtac.
    assert (HQ : QOK k g' (r_view r) Q) by (eapply QOK_mono; [exact G|apply quorumOK_QOK; auto]).
    destruct (primaryOfView (cn k) (r_view r) =? i).
    + apply (pres_pend _ _ _ (set_nvs ((r_view r, Q) :: r_nvs r) r)); auto. apply pres_nvs; auto.
    + apply pres_pend; auto.
  - eapply pres_enter; eauto.
Qed.

Lemma step_BI k g i e r' : In i (cbyz k) -> INV k g -> isByzEvent e = true ->
  local k g i (get g i) e = Some r' -> Grows g (put i r' g) -> BI k (put i r' g) i r'.
Proof.
  intros Hi (_ & _ & I) Hb H G.
  assert (B : BI k (put i r' g) i (get g i)) by (eapply BI_mono; eauto).
  destruct e; try discriminate; simpl in H; try (inversion H; subst; simpl; exact B).
  apply guard_some in H. destruct H as [Hg ->]. bools. intros m' Hm'. simpl in Hm'. destruct Hm' as [<-|Hm']; [|apply B; auto].
  match goal with H : elemsOK _ _ _ _ _ _ = true |- _ => apply elemsOK_spec in H; destruct H as [E1 E2] end.
  split; auto. split; auto. intros e He. destruct (E2 e He) as [E3 E4]. split; auto. intros cv Hc. destruct (E4 cv Hc). split; auto.
  eapply CertOK_mono; eauto.
Qed.

Lemma step_INV k g e g' : validConfig k -> INV k g -> step k g e = Some g' -> INV k g' /\ Grows g g'.
Proof.
  intros V I. unfold step. set (i := actor e). destruct ((i <? cn k) && _) eqn:Hc; [|discriminate].
  apply andb_true_iff in Hc. destruct Hc as [Hi Hb]. apply Nat.ltb_lt in Hi. apply eqb_prop in Hb.
  destruct (local k g i (get g i) e) as [r'|] eqn:HL; [|discriminate]. intros H; inversion H; subst g'; clear H.
  pose proof I as (L & I1 & I2). assert (Hil : i < length g) by lia.
  pose proof (put_grows i r' g Hil (local_grows _ _ _ _ _ _ HL)) as G. split; auto.
  split; [rewrite put_length; auto|]. split.
  - intros j Hj. destruct (Nat.eq_dec i j) as [<-|Hn].
    + rewrite get_put_same by auto. eapply step_RI; eauto.
      * destruct (isByzEvent e); auto. symmetry in Hb. apply mem_In in Hb. destruct Hj; contradiction.
      * reflexivity.
      * apply get_put_same; auto.
    + rewrite get_put_other by auto. eapply RI_mono; eauto.
  - intros j Hj. destruct (Nat.eq_dec i j) as [<-|Hn].
    + rewrite get_put_same by auto. eapply step_BI; eauto.
      rewrite Hb. apply mem_In; auto.
    + rewrite get_put_other by auto. eapply BI_mono; eauto.
Qed.
Lemma run_INV k : validConfig k -> forall l g g', INV k g -> run k g l = Some g' -> INV k g' /\ Grows g g'.
Proof.
  intros V. induction l as [|e l IH]; simpl; intros g g' I H.
  - inversion H; subst. split; auto. apply Grows_refl.
  - destruct (step k g e) as [g1|] eqn:E; [|discriminate]. destruct (step_INV _ _ _ _ V I E) as [I1 G1].
    destruct (IH _ _ I1 H) as [I2 G2]. split; auto. intros j. destruct (G1 j) as (?&?&?&?), (G2 j) as (?&?&?&?).
    repeat split; eapply incl_tran; eauto.
Qed.
Lemma reachable_INV k g : validConfig k -> reachable k g -> INV k g.
Proof. intros V (l & H). eapply run_INV; eauto. apply INV_init. Qed.
