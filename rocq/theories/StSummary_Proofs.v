(** Proofs about the choice of a state-transfer target. *)
From Coq Require Import List Arith Bool Lia.
From Verif Require Import Cert_Model Cert_Proofs StSummary_Model.
Import ListNotations.

Lemma listEqb_spec a b : listEqb a b = true <-> a = b.
Proof. unfold listEqb. destruct (list_eq_dec Nat.eq_dec a b); split; congruence. Qed.
Lemma equivalent_spec a b : equivalent a b = true <-> sameReport a b.
Proof. unfold equivalent, sameReport. rewrite !andb_true_iff, !Nat.eqb_eq, listEqb_spec. tauto. Qed.
Lemma equiv_equivalence : equivalence equivalent.
Proof.
  repeat split; intros *; rewrite ?equivalent_spec; unfold sameReport; intuition congruence.
Qed.

Lemma lookup_update {A} (d : A) l k v k' : lookup d (update l k v) k' = if k =? k' then v else lookup d l k'.
Proof.
  induction l as [|[a b] l IH]; simpl; [reflexivity|]. destruct (Nat.eqb_spec a k); simpl.
  - subst. destruct (Nat.eqb_spec k k'); auto.
  - destruct (Nat.eqb_spec a k'); auto. subst. destruct (Nat.eqb_spec k k'); congruence.
Qed.

Lemma bump_msgs {M} n q me (s : cert M) i : msgs M (bump M false false n q me s i) = msgs M s.
Proof.
  unfold bump, markC, markF. simpl. destruct (bestSize M s <? _); simpl; [destruct (_ && _); reflexivity|]. destruct (best M s) as [b|]; simpl; [|reflexivity]. destruct (_ && _); reflexivity.
Qed.
Lemma newCls_msgs {M} n (s : cert M) r : msgs M (newCls M n s r) = msgs M s.
Proof. unfold newCls. destruct (n <=? _); auto. destruct (best M s); auto. Qed.
Lemma addPeer_msgs {M} eqv n q me (s s' : cert M) m r : addPeer M eqv false false n q me s m r = Some s' -> msgs M s' = msgs M s.
Proof.
  unfold addPeer. destruct (trusted M s).
  - destruct (cls M s) as [|[z r0] c]; [discriminate|]. destruct (msgOf M (msgs M s) r0); [|discriminate]. destruct (eqv _ _); intros E; inversion E; subst; auto using bump_msgs.
  - destruct (findCls _ _ _ _ _ _) as [[i|]|]; intros E; inversion E; subst; auto using bump_msgs, newCls_msgs.
Qed.
(** The messages of a certificate after addMsg, without any assumption. *)
Lemma addMsg_msgs {M} eqv n q me (s s' : cert M) r m b : addMsg M eqv false false n q me s r m = Some (s', b) ->
  msgs M s' = (if hasMsg M (msgs M s) r then msgs M s else msgs M s ++ [(r, m)]) /\ b = negb (hasMsg M (msgs M s) r).
Proof.
  unfold addMsg. destruct (hasMsg M (msgs M s) r); [intros E; inversion E; subst; auto|]. simpl.
  destruct (complete M s) eqn:C; simpl; [intros E; inversion E; subst; auto|].
  destruct (addPeer _ _ _ _ _ _ _ _ _ _) as [s2|] eqn:A; [|discriminate]. intros E; inversion E; subst. apply addPeer_msgs in A. simpl in A. auto.
Qed.

Section S.
Variables (n f me ro maxStored lastStored : nat) (rvbOk : summary -> bool).
Notation onSummary := (onSummary n f me maxStored lastStored rvbOk).
Notation step := (step n f me ro maxStored lastStored rvbOk).
Notation run := (run n f me ro maxStored lastStored rvbOk).

(** Soundness invariant: what is stored was sent, by another replica, in answer to a request of this cycle. *)
Definition sent (l : list event) (r : nat) (m : summary) : Prop :=
  r <> me /\ r < n + ro /\ lastStored <= ck m /\ ck m <> 0 /\ digPages m <> 0 /\ exists a b, l = a ++ Msg r m :: b /\ asked a (req m) /\ sizeOk m = true.
Definition collOk (l : list event) (c : coll) : Prop :=
  (forall k r m, In (r, m) (msgs summary (lookup (cert0 summary) (certs c) k)) -> sent l r m) /\ (lastReq c = 0 \/ asked l (lastReq c)).
Definition phOk (l : list event) (p : phase) : Prop :=
  match p with
  | Collecting c => collOk l c
  | Fetching t p => NoDup p /\ f + 1 <= length p /\ forall r, In r p -> r < n /\ exists m, sent l r m /\ sameReport m t
  | _ => True
  end.

Lemma sent_app l l' r m : sent l r m -> sent (l ++ l') r m.
Proof. intros (A & B & C & D & E & a & b & F & G). repeat split; auto. exists a, (b ++ l'). subst l. rewrite <- app_assoc. auto. Qed.
Lemma asked_app l l' q : asked l q -> asked (l ++ l') q.
Proof. intros [A|(b & A)]; [left|right; exists b]; apply in_or_app; auto. Qed.
Lemma collOk_app l l' c : collOk l c -> collOk (l ++ l') c.
Proof. intros (A & B). split; [intros; apply sent_app; eauto|]. destruct B; auto. right; apply asked_app; auto. Qed.
Lemma msgOf_In' l r (m : summary) : msgOf summary l r = Some m -> In (r, m) l.
Proof.
  unfold msgOf. destruct (find (fun x => fst x =? r) l) as [[r' m']|] eqn:F; [|discriminate]. intros E; inversion E; subst.
  apply find_some in F. simpl in F. destruct F as [F1 F2]. apply Nat.eqb_eq in F2. subst; auto.
Qed.

Lemma onSummary_ok l c r m : r <> me -> r < n + ro -> collOk l c -> phOk (l ++ [Msg r m]) (onSummary c r m).
Proof.
  intros R1 R2 (A & B). unfold onSummary.
  assert (K : collOk (l ++ [Msg r m]) c) by (apply collOk_app; split; auto).
  destruct (negb (validMsg m) || negb (relevant lastStored c m)) eqn:V; [exact K|].
  apply orb_false_iff in V. destruct V as [V1 V2]. apply negb_false_iff in V1, V2. unfold validMsg in V1. unfold relevant in V2. rewrite !andb_true_iff, ?negb_true_iff, ?Nat.eqb_neq in V1. rewrite andb_true_iff, Nat.eqb_eq, Nat.leb_le in V2.
  destruct (maxStored + 1 <=? lookup 0 (counts c) r); [exact K|].
  destruct (addMsg _ _ _ _ _ _ _ _ _ _) as [[s used]|] eqn:AM; [|simpl; auto]. apply addMsg_msgs in AM. destruct AM as [EM _].
  assert (SN : sent (l ++ [Msg r m]) r m).
  { repeat split; try tauto. exists l, []. split; auto. split; [|tauto]. rewrite (proj1 V2). destruct B as [B|B]; auto. exfalso. destruct V2 as [V2 _]. rewrite B in V2. tauto. }
  assert (SS : forall r' m', In (r', m') (msgs summary s) -> sent (l ++ [Msg r m]) r' m').
  { intros r' m' Q. rewrite EM in Q. destruct (hasMsg _ _ _); [apply sent_app; eauto|]. apply in_app_or in Q. destruct Q as [Q|[Q|[]]]; [apply sent_app; eauto|]. inversion Q; subst; auto. }
  destruct (complete summary s) eqn:C; simpl negb; cbv iota.
  - destruct (bestMsg summary f s) as [[t|]|]; simpl; auto. destruct (rvbOk t); simpl.
    + destruct (f + 1 <=? length (preferredOf n s t)) eqn:L; simpl; auto. split; [apply NoDup_filter, seq_NoDup|]. split; [apply Nat.leb_le in L; auto|].
      intros x Q. unfold preferredOf in Q. apply filter_In in Q. destruct Q as [Q1 Q2]. apply in_seq in Q1. split; [lia|].
      destruct (msgOf summary (msgs summary s) x) as [mx|] eqn:X; [|discriminate]. apply msgOf_In' in X. exists mx. split; auto. apply equivalent_spec; auto.
    + split; [intros k ? ? Q; destruct Q|auto].
  - simpl. split; simpl.
    + intros k r' m'. rewrite lookup_update. destruct (ck m =? k); [apply SS|]. intros Q. apply sent_app. eauto.
    + destruct B; auto. right. apply asked_app; auto.
Qed.

Lemma run_app p a b : run p (a ++ b) = run (run p a) b.
Proof. apply fold_left_app. Qed.
Lemma run_snoc p a e : run p (a ++ [e]) = step (run p a) e.
Proof. rewrite run_app. reflexivity. Qed.
Lemma currentCycle_snoc l : forall acc e, currentCycle acc (l ++ [e]) = match e with Cycle q => [Cycle q] | _ => currentCycle acc l ++ [e] end.
Proof.
  induction l as [|x l IH]; intros acc e; simpl; [destruct e; auto|]. destruct x; rewrite IH; reflexivity.
Qed.
Lemma phOk_app l l' p : phOk l p -> phOk (l ++ l') p.
Proof.
  destruct p; simpl; auto; [apply collOk_app|]. intros (A & B & C). repeat split; auto; destruct (C r H) as (C1 & m & C2 & C3); auto. exists m. split; auto. apply sent_app; auto.
Qed.
Lemma run_ok l : phOk (currentCycle [] l) (run Idle l).
Proof.
  induction l as [|e l IH] using rev_ind; [simpl; auto|]. rewrite run_snoc, currentCycle_snoc.
  destruct (run Idle l) as [|c|t p|] eqn:E; destruct e as [r m|q|b q]; simpl step; simpl; auto.
  - split; [intros k ? ? Q; destruct Q|]. right. left. left; auto.
  - destruct ((n + ro <=? r) || (r =? me)) eqn:G.
    + apply collOk_app; auto.
    + apply orb_false_iff in G. destruct G as [G1 G2]. apply Nat.leb_gt in G1. apply Nat.eqb_neq in G2. apply onSummary_ok; auto.
  - split; [intros k ? ? Q; destruct Q|]. right. left. left; auto.
  - simpl in IH. destruct b; split.
    + intros k ? ? Q; destruct Q.
    + right. right. exists true. apply in_or_app. right. left; auto.
    + apply (collOk_app _ [Retry false q] c IH).
    + right. right. exists false. apply in_or_app. right. left; auto.
  - apply (phOk_app _ [Msg r m] (Fetching t p) IH).
  - split; [intros k ? ? Q; destruct Q|]. right. left. left; auto.
  - apply (phOk_app _ [Retry b q] (Fetching t p) IH).
Qed.

(** * No abort, and progress, when only replicas 0..n-1 send *)
Section F.
Hypothesis F1 : 1 <= f.
Hypothesis N1 : 2 <= n.
Lemma FR : 2 <= f + 1. Proof. lia. Qed.
Notation CInv := (Cert_Proofs.Inv equivalent false false n (f + 1) me).

Lemma cinv0 : CInv (cert0 summary). Proof. apply init_inv; auto using FR. Qed.
Definition certsInv (c : coll) : Prop := forall k, CInv (lookup (cert0 summary) (certs c) k).

Lemma sup_preferred s t : CInv s -> support equivalent (msgs summary s) t <= length (preferredOf n s t).
Proof.
  intros (ND & RG & _). unfold support. rewrite <- (map_length fst). apply NoDup_incl_length.
  - clear RG. revert ND. generalize (msgs summary s) as l. induction l as [|x l IH]; simpl; intros ND; [constructor|]. inversion ND; subst.
    destruct (equivalent t (snd x)); simpl; auto. constructor; auto. intros W. apply H1. apply in_map_iff in W. destruct W as (y & <- & Hy). apply filter_In in Hy. apply in_map. tauto.
  - intros r Hr. apply in_map_iff in Hr. destruct Hr as ([r' m] & <- & Hx). apply filter_In in Hx. simpl in *. destruct Hx as [Hx Ex]. apply filter_In. split.
    + apply in_seq. specialize (RG r'). rewrite in_map_iff in RG. split; [lia|]. apply RG. exists (r', m); auto.
    + rewrite (msgOf_in _ _ _ ND Hx). apply (proj1 (proj2 equiv_equivalence)); auto.
Qed.

Lemma onSummary_inv c r m : certsInv c -> r < n -> match onSummary c r m with Collecting c' => certsInv c' | Fetching _ _ => True | _ => False end.
Proof.
  intros IC R. unfold onSummary. destruct (negb (validMsg m) || negb (relevant lastStored c m)); auto. destruct (maxStored + 1 <=? lookup 0 (counts c) r); auto.
  destruct (addMsg_inv equivalent false false n (f + 1) me equiv_equivalence FR N1 (lookup (cert0 summary) (certs c) (ck m)) r m (IC (ck m)) R) as (s & b & E & IS & _).
  rewrite E. destruct (complete summary s) eqn:C; simpl.
  - destruct (peer_best equivalent false false n f (f + 1) me FR N1 s eq_refl IS) as (o & Eo & Q). rewrite Eo. destruct o as [t|]; [|specialize (Q C); lia].
    destruct Q as [Q _]. destruct (rvbOk t); simpl; [|intros k; apply cinv0]. pose proof (sup_preferred s t IS). destruct (Nat.leb_spec (f + 1) (length (preferredOf n s t))); auto. lia.
  - intros k. simpl. rewrite lookup_update. destruct (ck m =? k); auto.
Qed.

Definition good (p : phase) : Prop := match p with Collecting c => certsInv c | Crashed => False | _ => True end.
Lemma step_good p e : good p -> (forall r m, e = Msg r m -> r < n) -> good (step p e).
Proof.
  intros G R. destruct p as [|c|t p|]; destruct e as [r m|q|b q]; simpl in *; auto; try (intros k; apply cinv0); try contradiction.
  - destruct ((n + ro <=? r) || (r =? me)); auto. specialize (R r m eq_refl). pose proof (onSummary_inv c r m G R) as Q. destruct (onSummary c r m); auto; simpl; auto.
  - destruct b; simpl; auto. intros k; apply cinv0.
Qed.
Lemma run_good l : (forall r m, In (Msg r m) l -> r < n) -> good (run Idle l).
Proof.
  induction l as [|e l IH] using rev_ind; intros R; [simpl; auto|]. rewrite run_snoc. apply step_good; [apply IH; intros; eapply R; apply in_or_app; eauto|].
  intros r m ->. eapply R. apply in_or_app. right. left. reflexivity.
Qed.

(** Progress. *)
Definition fromR (r : nat) (e : event) : bool := match e with Msg r' _ => r' =? r | _ => false end.
Definition cnt (l : list event) (r : nat) : nat := length (filter (fromR r) l).
Fixpoint lastAsked (q : nat) (l : list event) : nat :=
  match l with [] => q | Retry _ q' :: l => lastAsked q' l | Cycle q' :: l => lastAsked q' l | _ :: l => lastAsked q l end.
Lemma lastAsked_snoc l : forall q e, lastAsked q (l ++ [e]) = match e with Retry _ q' => q' | Cycle q' => q' | _ => lastAsked q l end.
Proof. induction l as [|x l IH]; intros q e; simpl; [destruct e; auto|]. destruct x; rewrite IH; auto. Qed.
Lemma cnt_snoc l e r : cnt (l ++ [e]) r = cnt l r + (if fromR r e then 1 else 0).
Proof. unfold cnt. rewrite filter_app, app_length. simpl. destruct (fromR r e); simpl; lia. Qed.

Variables (q0 : nat) (t : summary).
Definition timely (l : list event) (r : nat) : Prop :=
  exists a b m, l = a ++ Msg r m :: b /\ ck m = ck t /\ validMsg m = true /\ lastStored <= ck m /\ req m = lastAsked q0 a.
Hypothesis RV : forall x, rvbOk x = true.

Definition live (l : list event) (c : coll) : Prop :=
  certsInv c /\ lastReq c = lastAsked q0 l /\ (forall r, lookup 0 (counts c) r <= cnt l r) /\
  (forall k, complete summary (lookup (cert0 summary) (certs c) k) = false) /\
  (forall k r m, In (r, m) (msgs summary (lookup (cert0 summary) (certs c) k)) -> In (Msg r m) l /\ ck m = k) /\
  (forall r, timely l r -> r <> me -> cnt l r <= maxStored + 1 -> exists m, In (r, m) (msgs summary (lookup (cert0 summary) (certs c) (ck t)))).

Lemma timely_snoc l e r : timely (l ++ [e]) r -> timely l r \/ exists m, e = Msg r m /\ ck m = ck t /\ validMsg m = true /\ lastStored <= ck m /\ req m = lastAsked q0 l.
Proof.
  intros (a & b & m & E & Q). destruct b as [|y b] using rev_ind.
  - apply app_inj_tail in E. destruct E as [-> ->]. right. exists m. auto.
  - clear IHb. rewrite app_comm_cons, app_assoc in E. apply app_inj_tail in E. destruct E as [-> _]. left. exists a, b, m. auto.
Qed.

Lemma onSummary_live l c r m c' : r < n -> r <> me -> live l c -> onSummary c r m = Collecting c' -> live (l ++ [Msg r m]) c'.
Proof.
  intros R R1 (A & B & C & D & E & G). pose proof (onSummary_inv c r m A R) as IV.
  assert (KEEP : (forall x, timely (l ++ [Msg r m]) x -> x <> me -> cnt (l ++ [Msg r m]) x <= maxStored + 1 -> timely l x) -> live (l ++ [Msg r m]) c).
  { intros H. split; [exact A|]. split; [rewrite lastAsked_snoc; auto|]. split; [intros x; rewrite cnt_snoc; specialize (C x); lia|]. split; [exact D|].
    split; [intros k x y Q; apply E in Q; destruct Q; split; auto; apply in_or_app; auto|].
    intros x Q1 Q2 Q3. apply G; auto. rewrite cnt_snoc in Q3. lia. }
  unfold onSummary. unfold onSummary in IV.
  destruct (negb (validMsg m) || negb (relevant lastStored c m)) eqn:V.
  { intros Z; inversion Z; subst c'. apply KEEP. intros x Q1 Q2 Q3. apply timely_snoc in Q1. destruct Q1 as [Q1|(m' & X1 & X2 & X3 & X4 & X5)]; auto.
    inversion X1; subst m' x. exfalso. rewrite X3 in V. simpl in V. apply negb_true_iff in V. unfold relevant in V. rewrite B, X5, Nat.eqb_refl in V. simpl in V. apply Nat.leb_gt in V. lia. }
  destruct (maxStored + 1 <=? lookup 0 (counts c) r) eqn:LIM.
  { intros Z; inversion Z; subst c'. apply KEEP. intros x Q1 Q2 Q3. apply timely_snoc in Q1. destruct Q1 as [Q1|(m' & X1 & X2 & X3 & X4 & X5)]; auto.
    inversion X1; subst m' x. exfalso. apply Nat.leb_le in LIM. specialize (C r). rewrite cnt_snoc in Q3. simpl in Q3. rewrite Nat.eqb_refl in Q3. lia. }
  destruct (addMsg _ _ _ _ _ _ _ _ _ _) as [[s used]|] eqn:AM; [|discriminate]. apply addMsg_msgs in AM. destruct AM as [EM _].
  destruct (complete summary s) eqn:CS; simpl.
  { destruct (bestMsg summary f s) as [[t'|]|]; try discriminate. rewrite RV. simpl. destruct (f + 1 <=? _); discriminate. }
  simpl in IV. intros Z; inversion Z; subst c'; clear Z. split; [exact IV|]. simpl.
  split; [rewrite lastAsked_snoc; auto|]. split; [|split; [|split]].
  - intros x. rewrite cnt_snoc. simpl. specialize (C x). destruct used; [|lia]. rewrite lookup_update. destruct (Nat.eqb_spec r x); [|lia]. subst. lia.
  - intros k. rewrite lookup_update. destruct (ck m =? k); auto.
  - intros k r' m'. rewrite lookup_update. destruct (Nat.eqb_spec (ck m) k).
    + subst k. rewrite EM. destruct (hasMsg _ _ _).
      * intros Q. apply E in Q. destruct Q. split; auto. apply in_or_app; auto.
      * intros Q. apply in_app_or in Q. destruct Q as [Q|[Q|[]]]; [apply E in Q; destruct Q; split; auto; apply in_or_app; auto|]. inversion Q; subst. split; auto. apply in_or_app. right. left; auto.
    + intros Q. apply E in Q. destruct Q. split; auto. apply in_or_app; auto.
  - intros x Q1 Q2 Q3. rewrite lookup_update. apply timely_snoc in Q1.
    assert (W : In x (map fst (msgs summary (lookup (cert0 summary) (certs c) (ck t)))) \/ (x = r /\ ck m = ck t)).
    { destruct Q1 as [Q1|(m' & X1 & X2 & _)]; [|inversion X1; subst; auto]. left. rewrite cnt_snoc in Q3. destruct (G x Q1 Q2) as (mx & Hm); [lia|]. apply in_map_iff. exists (x, mx); auto. }
    destruct (Nat.eqb_spec (ck m) (ck t)) as [K|K].
    + rewrite K in EM. rewrite EM. set (L := msgs summary (lookup (cert0 summary) (certs c) (ck t))) in *.
      assert (IN : In x (map fst (if hasMsg summary L r then L else L ++ [(r, m)]))).
      { destruct (hasMsg summary L r) eqn:HM.
        - destruct W as [W|[-> _]]; auto. apply hasMsg_in; auto.
        - rewrite map_app. apply in_or_app. destruct W as [W|[-> _]]; auto. right. left; auto. }
      apply in_map_iff in IN. destruct IN as ([x' mx] & X1 & X2). simpl in X1. subst x'. exists mx; auto.
    + destruct W as [W|[_ W]]; [|congruence]. apply in_map_iff in W. destruct W as ([x' mx] & X1 & X2). simpl in X1. subst x'. exists mx; auto.
Qed.

Lemma run_live l c : (forall r m, In (Msg r m) l -> r < n) -> (forall q, ~ In (Cycle q) l) -> (forall q, ~ In (Retry true q) l) ->
  run (Collecting (mkColl [] [] q0)) l = Collecting c -> live l c.
Proof.
  revert c. induction l as [|e l IH] using rev_ind; intros c R NC NR.
  - simpl. intros Z; inversion Z; subst. split; [intros k; apply cinv0|]. simpl. split; auto. split; [intros; lia|]. split; auto. split; [intros ? ? ? []|]. intros r0 (a & b & m & E & _). destruct a; discriminate.
  - rewrite run_snoc. intros Z.
    assert (exists c0, run (Collecting (mkColl [] [] q0)) l = Collecting c0) as (c0 & E0).
    { destruct (run (Collecting (mkColl [] [] q0)) l) as [|c0|t0 p0|] eqn:E0; eauto; exfalso; destruct e as [r m|q|b q]; simpl in Z; try discriminate; eapply NC; apply in_or_app; right; left; reflexivity. }
    assert (L0 : live l c0).
    { apply IH; auto; intros; [eapply R|intros Q; eapply NC|intros Q; eapply NR]; apply in_or_app; eauto. }
    rewrite E0 in Z. destruct e as [r m|q|b q].
    + assert (RN : r < n) by (apply (R r m); apply in_or_app; right; left; reflexivity). simpl in Z. destruct ((n + ro <=? r) || (r =? me)) eqn:G.
      * apply orb_true_iff in G. destruct G as [G|G]; [apply Nat.leb_le in G; lia|]. apply Nat.eqb_eq in G. subst r. inversion Z; subst c. destruct L0 as (A & B & C & D & E & F). split; auto. split; [rewrite lastAsked_snoc; auto|].
        split; [intros x; rewrite cnt_snoc; specialize (C x); lia|]. split; auto. split; [intros k r' m' Q; apply E in Q; destruct Q; split; auto; apply in_or_app; auto|].
        intros x Q1 Q2 Q3. apply timely_snoc in Q1. rewrite cnt_snoc in Q3. destruct Q1 as [Q1|(m' & X1 & _)]; [apply F; auto; lia|]. inversion X1; congruence.
      * apply orb_false_iff in G. destruct G as [_ G]. apply Nat.eqb_neq in G. eapply onSummary_live; eauto.
    + exfalso. eapply NC. apply in_or_app. right. left. reflexivity.
    + destruct b; [exfalso; eapply NR; apply in_or_app; right; left; reflexivity|]. simpl in Z. inversion Z; subst c. destruct L0 as (A & B & C & D & E & F). split; auto. split; [rewrite lastAsked_snoc; auto|].
      split; [intros x; rewrite cnt_snoc; specialize (C x); simpl; lia|]. split; auto. split; [intros k r' m' Q; apply E in Q; destruct Q; split; auto; apply in_or_app; auto|].
      intros x Q1 Q2 Q3. apply timely_snoc in Q1. rewrite cnt_snoc in Q3. destruct Q1 as [Q1|(m' & X1 & _)]; [apply F; auto; lia|]. discriminate.
Qed.

Lemma progress l rs : (forall r m, In (Msg r m) l -> r < n) -> (forall q, ~ In (Cycle q) l) -> (forall q, ~ In (Retry true q) l) ->
  NoDup rs -> f + 1 <= length rs ->
  (forall r, In r rs -> r <> me /\ timely l r /\ cnt l r <= maxStored + 1 /\ forall m, In (Msg r m) l -> ck m = ck t -> sameReport m t) ->
  exists t' p, run (Collecting (mkColl [] [] q0)) l = Fetching t' p.
Proof.
  intros R NC NR ND LR H. 
  assert (G : good (run (Collecting (mkColl [] [] q0)) l)).
  { assert (good (run Idle (Cycle q0 :: l))) as Q; [|exact Q]. apply run_good. intros r m [Q|Q]; [discriminate|]. eauto. }
  destruct (run (Collecting (mkColl [] [] q0)) l) as [|c|t' p|] eqn:E; eauto.
  - exfalso. clear - E NC. assert (forall p, p <> Idle -> run p l <> Idle) as Q; [|eapply Q; [|exact E]; discriminate]. clear E. induction l as [|e l IH] using rev_ind; intros p Hp; auto. rewrite run_snoc.
    assert (X : run p l <> Idle) by (apply IH; auto; intros q Q; eapply NC; apply in_or_app; eauto). destruct (run p l) as [|c|t' p'|]; destruct e as [r m|q|b q]; simpl; try congruence.
    + destruct (_ || _); [discriminate|]. unfold onSummary. repeat match goal with |- context [match ?x with _ => _ end] => destruct x end; discriminate.
    + destruct b; discriminate.
  - exfalso. destruct (run_live l c R NC NR E) as (A & B & C & D & EE & F).
    set (s := lookup (cert0 summary) (certs c) (ck t)) in *. pose proof (D (ck t)) as DD. fold s in DD.
    assert (complete summary s = true); [|congruence]. apply (peer_complete equivalent false false n (f + 1) me equiv_equivalence FR N1 s eq_refl (A (ck t))). exists t.
    unfold support. rewrite <- (map_length fst). eapply Nat.le_trans; [exact LR|]. apply NoDup_incl_length; auto. intros r Hr. destruct (H r Hr) as (H1 & H2 & H3 & H4).
    destruct (F r H2 H1 H3) as (m & Hm). apply in_map_iff. exists (r, m). split; auto. apply filter_In. split; auto. simpl. apply equivalent_spec. destruct (EE _ _ _ Hm) as [W1 W2]. specialize (H4 m W1 W2). unfold sameReport in *. intuition congruence.
  - destruct G.
Qed.
End F.
End S.
