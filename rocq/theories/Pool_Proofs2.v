(** Proofs for Pool_Model: sizes of batches, the timer. *)
From Coq Require Import List Arith Bool Lia Permutation.
From Verif Require Import Pool_Model Pool_Proofs.
Import ListNotations.

Section Proofs.
Context (B : nat) (T : bool) (clients : list nat) (ND : NoDup clients).
Notation step := (step B T).
Notation P := (P clients).
Notation addBatch := (addBatch B T).

Lemma addBatch_spec r c q s : let s' := addBatch r c q s in
  pend s' = upd (pend s) c (pend s c ++ [r]) /\ serving s' = serving s /\ fired s' = fired s /\ expired s' = expired s /\ crashed s' = crashed s /\ post s' = post s /\
  ((B <= S (length (pend s c)) /\ queue s' = q /\ jobs s' = jobs s ++ [(c, JBatch false)] /\ armed s' = false) \/
   (S (length (pend s c)) < B /\ queue s' = queue s /\ jobs s' = jobs s /\
    ((pend s c = [] /\ T = true /\ tclient s' = Some c /\ armed s' = true) \/ ((pend s c <> [] \/ T = false) /\ tclient s' = tclient s /\ armed s' = armed s)))).
Proof.
  cbv zeta. unfold Pool_Proofs.addBatch. cbv zeta. set (s1 := match pend s c with [] => timerStart T c s | _ => s end).
  assert (Q : pend s1 = pend s /\ serving s1 = serving s /\ fired s1 = fired s /\ expired s1 = expired s /\ crashed s1 = crashed s /\ post s1 = post s /\ queue s1 = queue s /\ jobs s1 = jobs s /\
    ((pend s c = [] /\ T = true /\ tclient s1 = Some c /\ armed s1 = true) \/ ((pend s c <> [] \/ T = false) /\ tclient s1 = tclient s /\ armed s1 = armed s))).
  { unfold s1, timerStart. destruct (pend s c) eqn:Pc; [destruct T|]; cbn; repeat split; auto. right. repeat split; auto. left. discriminate. }
  destruct Q as (Q1 & Q2 & Q3 & Q4 & Q5 & Q6 & Q7 & Q8 & Q9). rewrite !Q1.
  assert (Hl : length (pend (withPend (upd (pend s) c (pend s c ++ [r])) s1) c) = S (length (pend s c))).
  { cbn [pend withPend]. unfold upd. rewrite Nat.eqb_refl, app_length, Nat.add_comm. reflexivity. }
  rewrite Hl. clear Hl. destruct (Nat.leb_spec B (S (length (pend s c)))); cbn; rewrite ?Q8; (split; [reflexivity|]); (split; [exact Q2|]); (split; [exact Q3|]); (split; [exact Q4|]); (split; [exact Q5|]); (split; [exact Q6|]).
  - left. repeat split; auto.
  - right. repeat split; auto.
Qed.

(** * Sizes. *)
Definition L (s : st) : Prop :=
  (forall c, In c (queue s) -> length (pend s c) < B) /\ (forall c r b, In (c, JSingle r b) (jobs s) -> pend s c = []) /\ (forall c, length (pend s c) <= B).
Lemma nd_held_jq s c j : P s -> In c (queue s) -> In (c, j) (jobs s) -> False.
Proof.
  intros H Hq Hj. apply P_nd in H; auto. unfold held in H. apply (in_map fst) in Hj. cbn in Hj. apply in_split in Hq as (a & b & E). rewrite E in H.
  rewrite <- app_assoc in H. cbn in H. apply NoDup_remove_2 in H. apply H. rewrite !in_app_iff. tauto.
Qed.
Lemma nd_queue s c q : P s -> queue s = c :: q -> ~ In c q.
Proof. intros H E. apply P_nd in H; auto. unfold held in H. rewrite E in H. cbn in H. inversion H; subst. rewrite in_app_iff in *. tauto. Qed.
Lemma nd_job s c j j' : P s -> In (c, j) (jobs s) -> In (c, j') (jobs s) -> j = j'.
Proof.
  intros H H1 H2. apply P_jobs in H; auto. destruct (split_job _ _ _ H H1) as (a & b & E & _). rewrite E in *. rewrite map_app in H. cbn in H. apply NoDup_remove_2 in H. rewrite in_app_iff in H.
  apply in_app_or in H2 as [H2|[H2|H2]]; [|congruence|]; apply (in_map fst) in H2; cbn in H2; tauto.
Qed.
Lemma drop_in d j c s : In (d, j) (dropJob c (jobs s)) -> In (d, j) (jobs s) /\ d <> c.
Proof. intros H2. unfold dropJob in H2. apply filter_In in H2 as [H2 H3]. cbn in H3. split; auto. destruct (Nat.eqb_spec d c); [discriminate|auto]. Qed.
Lemma drop_keep d j c s : In (d, j) (jobs s) -> d <> c -> In (d, j) (dropJob c (jobs s)).
Proof. intros H N. unfold dropJob. apply filter_In. split; auto. cbn. destruct (Nat.eqb_spec d c); [congruence|auto]. Qed.
Lemma set_in d j c j' l : In (d, j) (setJob c j' l) -> (d <> c /\ In (d, j) l) \/ (d = c /\ j = j' /\ exists j0, In (c, j0) l).
Proof.
  unfold setJob. intros H. apply in_map_iff in H as ([k x] & E & H). cbn in E. destruct (Nat.eqb_spec k c) as [->|N]; injection E as <- <-; [right|left]; eauto.
Qed.
Lemma set_keep d j c j' l : In (d, j) l -> d <> c -> In (d, j) (setJob c j' l).
Proof. intros H N. unfold setJob. apply in_map_iff. exists (d, j). cbn. destruct (Nat.eqb_spec d c); [congruence|auto]. Qed.
Lemma set_here c j j' l : In (c, j) l -> In (c, j') (setJob c j' l).
Proof. intros H. unfold setJob. apply in_map_iff. exists (c, j). cbn. rewrite Nat.eqb_refl. auto. Qed.

Lemma rot_P s c q : P s -> queue s = c :: q -> P (withQueue (q ++ [c]) s).
Proof. intros H E. unfold Pool_Proofs.P, held in *. cbn. rewrite E in H. rewrite H. cbn. rewrite <- app_assoc. cbn. apply Permutation_middle. Qed.
Lemma flush_P s c q : P s -> queue s = c :: q -> P (flush c q s).
Proof. intros H E. eapply P_move; [exact E| | |exact H]; reflexivity. Qed.

Lemma step_L s e : 0 < B -> P s -> L s -> L (step s e).
Proof.
  intros HB Hp Hl. unfold Pool_Model.step. destruct (crashed s); [exact Hl|]. destruct e.
  - apply (send_inv B T (fun s => P s /\ L s) L); auto.
    + intros s0 c q [P0 (L1 & L2 & L3)] E _. split; [apply rot_P; auto|]. repeat split; cbn; auto. intros d Hd. apply L1. rewrite E. apply in_app_or in Hd as [Hd|[<-|[]]]; [right|left]; auto.
    + intros s0 c q [P0 (L1 & L2 & L3)] E _ _ _. split; [apply flush_P; auto|]. repeat split; cbn; auto.
      * intros d Hd. apply L1. rewrite E. right; auto.
      * intros d r0 b Hd. apply in_app_or in Hd as [Hd|[Hd|[]]]; [eauto|discriminate].
    + intros s0 a [_ L0]. exact L0.
    + intros s0 c q [P0 (L1 & L2 & L3)] E _ _. destruct (addBatch_spec r c q s0) as (A1 & A2 & _ & _ & _ & _ & A3). unfold L. rewrite A1.
      assert (Hc : length (pend s0 c) < B) by (apply L1; rewrite E; left; auto).
      assert (Hu : forall d, length (upd (pend s0) c (pend s0 c ++ [r]) d) <= B).
      { intros d. unfold upd. destruct (d =? c); [rewrite app_length; cbn; lia|apply L3]. }
      assert (Hj : forall d r0 b, In (d, JSingle r0 b) (jobs s0) -> upd (pend s0) c (pend s0 c ++ [r]) d = []).
      { intros d r0 b Hd. unfold upd. destruct (Nat.eqb_spec d c) as [->|]; [|eauto]. exfalso. eapply nd_held_jq; [exact P0| |exact Hd]. rewrite E. left; auto. }
      destruct A3 as [(B1 & -> & -> & _)|(B1 & -> & -> & _)].
      * repeat split; auto.
        -- intros d Hd. unfold upd. destruct (Nat.eqb_spec d c) as [->|]; [exfalso; eapply nd_queue; eauto|]. apply L1. rewrite E. right; auto.
        -- intros d r0 b Hd. apply in_app_or in Hd as [Hd|[Hd|[]]]; [eauto|discriminate].
      * repeat split; auto. intros d Hd. unfold upd. destruct (Nat.eqb_spec d c) as [->|]; [rewrite app_length; cbn; lia|]. apply L1; auto.
    + intros s0 c q [P0 (L1 & L2 & L3)] E _ _ Pc. repeat split; cbn; auto.
      * intros d Hd. apply L1. rewrite E. right; auto.
      * intros d r0 b Hd. apply in_app_or in Hd as [Hd|[Hd|[]]]; [eauto|]. injection Hd as <- _ _. exact Pc.
  - destruct (armed s); exact Hl.
  - destruct (expired s), (fired s); try exact Hl. destruct (tclient s); exact Hl.
  - destruct (fired s) as [c|]; [|exact Hl]. cbv zeta. cbn [queue]. destruct Hl as (L1 & L2 & L3). destruct (queue s) as [|d q] eqn:E; [|destruct (Nat.eqb_spec d c) as [->|]]; (repeat split; cbn; auto).
    + intros d Hd. apply L1. right; auto.
    + intros d r0 b Hd. apply in_app_or in Hd as [Hd|[Hd|[]]]; [eauto|discriminate].
  - destruct Hl as (L1 & L2 & L3). destruct (findJob c s) as [[[]|r []]|] eqn:F; try (repeat split; assumption); apply findJob_in in F.
    + destruct (pend s c) eqn:Pc; repeat split; cbn; auto. intros d r0 b Hd. apply set_in in Hd as [[_ Hd]|(_ & Hd & _)]; [eauto|discriminate].
    + repeat split; cbn; auto. intros d r0 b Hd. apply set_in in Hd as [[_ Hd]|(-> & Hd & _)]; [eauto|]. eauto.
  - destruct Hl as (L1 & L2 & L3). destruct (findJob c s) as [[[]|r []]|] eqn:F; try (repeat split; assumption); apply findJob_in in F.
    + repeat split; cbn.
      * intros d Hd. unfold upd. destruct (Nat.eqb_spec d c) as [->|N]; [cbn; lia|]. apply in_app_or in Hd as [Hd|[Hd|[]]]; [auto|congruence].
      * intros d r0 b Hd. unfold upd. destruct (d =? c); auto. apply drop_in in Hd. destruct Hd as [Hd _]. eauto.
      * intros d. unfold upd. destruct (d =? c); cbn; [lia|auto].
    + repeat split; cbn; auto.
      * intros d Hd. apply in_app_or in Hd as [Hd|[<-|[]]]; [auto|]. rewrite (L2 _ _ _ F). cbn. lia.
      * intros d r0 b Hd. apply drop_in in Hd. destruct Hd as [Hd _]. eauto.
  - destruct (find _ (post s)); exact Hl.
  - exact Hl.
Qed.
Lemma run_L l : 0 < B -> L (run B T clients l).
Proof.
  intros HB. unfold run. assert (H : P (init clients) /\ L (init clients)).
  { split. { unfold Pool_Proofs.P, held. cbn. rewrite app_nil_r. reflexivity. } repeat split; cbn; intros; try lia; auto. }
  revert H. generalize (init clients). induction l; cbn; [tauto|]. intros s [H1 H2]. apply IHl. split; [apply step_P|apply step_L]; auto.
Qed.

(** * The timer, when all clients stay connected. *)
Definition watched (s : st) (c : nat) : Prop :=
  (exists b, In (c, JBatch b) (jobs s)) \/
  (exists q, queue s = c :: q /\ ((tclient s = Some c /\ (armed s = true \/ 0 < expired s)) \/ fired s = Some c)).
Definition Tm (s : st) : Prop := (forall c, serving s c = true) /\ forall c, pend s c <> [] -> watched s c.
Lemma in_clients_pend s c j : P s -> Tm s -> In (c, j) (jobs s) -> pend s c <> [] -> exists b, j = JBatch b.
Proof.
  intros Hp [_ H] Hj Hn. destruct (H c Hn) as [[b Hb]|(q & E & _)].
  - exists b. eapply nd_job; eauto.
  - exfalso. eapply nd_held_jq; [exact Hp| |exact Hj]. rewrite E. left; auto.
Qed.
Lemma step_Tm s e : T = true -> P s -> Tm s -> crashed s = false -> crashed (step s e) = false -> (forall c b, e <> Serve c b) -> Tm (step s e).
Proof.
  intros HT Hp Ht Cr Cr'. revert Cr'. unfold Pool_Model.step. rewrite Cr. intros Cr' Hs. destruct e.
  - clear Cr'. apply (send_inv B T (fun s => P s /\ Tm s) Tm); auto.
    + intros s0 c q [_ [T1 _]] _ Sv. rewrite T1 in Sv. discriminate.
    + intros s0 c q [P0 [T1 T2]] E _ _ Pc. split; [apply flush_P; auto|]. split; [exact T1|]. cbn. intros d Hd. destruct (T2 d Hd) as [[b Hb]|(q' & E' & _)]; left; cbn.
      * exists b. apply in_or_app; auto.
      * exists false. apply in_or_app. right. left. congruence.
    + intros s0 a [_ T0]. exact T0.
    + intros s0 c q [P0 [T1 T2]] E Sv Bt. destruct (addBatch_spec r c q s0) as (A1 & A2 & A3 & A4 & _ & _ & A5). split; [rewrite A2; exact T1|]. rewrite A1. intros d Hd. unfold watched. rewrite A3, A4.
      destruct (Nat.eq_dec d c) as [Ed|N]; [subst d|unfold upd in Hd; rewrite (proj2 (Nat.eqb_neq d c) N) in Hd].
      * clear Hd. destruct A5 as [(_ & -> & -> & _)|(_ & -> & -> & A5)]. { left. exists false. apply in_or_app. right. left. auto. }
        destruct A5 as [(_ & _ & -> & ->)|([A5|A5] & -> & ->)]; [|exact (T2 c A5)|congruence]. right. exists q. split; auto.
      * destruct (T2 d Hd) as [[b Hb]|(q' & E' & _)]; [|congruence]. left. exists b. destruct A5 as [(_ & _ & -> & _)|(_ & _ & -> & _)]; [apply in_or_app|]; auto.
    + intros s0 c q [P0 [T1 T2]] E Sv _ Pc. split; [exact T1|]. cbn. intros d Hd. destruct (T2 d Hd) as [[b Hb]|(q' & E' & _)]; [|congruence]. left. exists b. cbn. apply in_or_app; auto.
  - destruct Ht as [T1 T2]. destruct (armed s) eqn:Ar; [|split; auto]. split; [exact T1|]. intros c Hc. destruct (T2 c Hc) as [H|(q & E & [[E1 _]|E1])]; [left; exact H| |]; right; exists q; (split; [exact E|]); cbn; [left; split; [exact E1|right; lia]|right; exact E1].
  - destruct Ht as [T1 T2]. destruct (expired s) as [|k] eqn:Ex, (fired s) eqn:Fi; try (split; assumption). destruct (tclient s) as [x|] eqn:Tc; [|discriminate].
    split; [exact T1|]. intros c Hc. destruct (T2 c Hc) as [H|(q & E & [[E1 _]|E1])]; [left; exact H| |congruence]. right. exists q. split; auto. cbn. right. congruence.
  - destruct Ht as [T1 T2]. destruct (fired s) as [x|] eqn:Fi; [|split; assumption]. revert Cr'. cbv zeta. cbn [queue]. destruct (queue s) as [|d q] eqn:Eq; [discriminate|]. intros _. destruct (Nat.eqb_spec d x) as [->|N].
    + split; [exact T1|]. intros c Hc. left. destruct (T2 c Hc) as [[b Hb]|(q' & E & _)]; cbn; [exists b; apply in_or_app; auto|exists false; apply in_or_app; right; left; congruence].
    + split; [exact T1|]. intros c Hc. destruct (T2 c Hc) as [H|(q' & E & [E1|E1])]; [left; exact H| |congruence]. right. exists q'. split; [cbn; congruence|]. left. exact E1.
  - destruct Ht as [T1 T2]. destruct (findJob c s) as [[[]|r []]|] eqn:F; try (split; assumption); apply findJob_in in F.
    + destruct (pend s c) eqn:Pc; [discriminate|]. split; [exact T1|]. intros d Hd. destruct (T2 d Hd) as [[b Hb]|H]; [|right; exact H]. left. cbn. destruct (Nat.eq_dec d c) as [->|N]; [exists true; eapply set_here; eauto|exists b; apply set_keep; auto].
    + split; [exact T1|]. intros d Hd. destruct (T2 d Hd) as [[b Hb]|H]; [|right; exact H]. left. cbn. exists b. apply set_keep; auto. intros ->. assert (X := nd_job _ _ _ _ Hp F Hb). discriminate.
  - assert (Hd' : forall d j, In (c, j) (jobs s) -> d <> c -> pend s d <> [] -> forall s', queue s' = queue s ++ [c] -> jobs s' = dropJob c (jobs s) -> tclient s' = tclient s -> armed s' = armed s -> expired s' = expired s -> fired s' = fired s -> watched s' d).
    { intros d j Hj N Hd s' E1 E2 E3 E4 E5 E6. unfold watched. rewrite E1, E2, E3, E4, E5, E6. destruct (proj2 Ht d Hd) as [[b Hb]|(q & E & H)]; [left; exists b; apply drop_keep; auto|].
      right. exists (q ++ [c]). rewrite E. split; auto. }
    destruct (findJob c s) as [[[]|r []]|] eqn:F; try exact Ht; apply findJob_in in F; (split; [exact (proj1 Ht)|]); cbn [pend]; intros d Hd.
    + destruct (Nat.eq_dec d c) as [Ed|N]; [subst d; unfold upd in Hd; rewrite Nat.eqb_refl in Hd; congruence|unfold upd in Hd; rewrite (proj2 (Nat.eqb_neq d c) N) in Hd]. eapply Hd'; eauto; reflexivity.
    + destruct (Nat.eq_dec d c) as [->|N]; [|eapply Hd'; eauto; reflexivity]. destruct (in_clients_pend s c _ Hp Ht F Hd). discriminate.
  - destruct (find _ (post s)); exact Ht.
  - exfalso. eapply Hs. reflexivity.
Qed.
Lemma crash_mono s e : crashed s = true -> step s e = s.
Proof. intros H. unfold Pool_Model.step. rewrite H. reflexivity. Qed.
Lemma connected_Tm s : T = true -> connected B T clients s -> crashed s = false -> P s /\ Tm s.
Proof.
  intros HT. induction 1; intros Cr.
  - split. { unfold Pool_Proofs.P, held. cbn. rewrite app_nil_r. reflexivity. } split; cbn; auto. congruence.
  - destruct (crashed s) eqn:C0. { rewrite crash_mono in Cr by auto. congruence. } destruct IHconnected as [IP IT]; auto. split; [apply step_P|apply step_Tm]; auto.
Qed.

(** * No crash when the timer's thread is prompt. *)
Definition K (s : st) : Prop :=
  crashed s = false /\ expired s = 0 /\ fired s = None /\ (armed s = true -> exists c, tclient s = Some c /\ In c (queue s) /\ pend s c <> []) /\
  (forall c b, In (c, JBatch b) (jobs s) -> pend s c <> []).
Lemma step_K s e : P s -> K s -> e <> Expire -> e <> Handler -> e <> OnTimeout -> K (step s e).
Proof.
  intros Hp Hk E1 E2 E3. unfold Pool_Model.step. destruct (Hk) as (Cr & K2 & K3 & K4 & K5). rewrite Cr. destruct e; try congruence.
  - clear - ND Hp Hk. apply (send_inv B T (fun s => P s /\ K s) K); auto.
    + intros s0 c q [P0 (Cr & K2 & K3 & K4 & K5)] E Sv. split; [apply rot_P; auto|]. repeat split; auto. cbn. intros Ha. destruct (K4 Ha) as (x & X1 & X2 & X3). exists x. repeat split; auto. rewrite E in X2. apply in_or_app. destruct X2; [right; left|left]; auto.
    + intros s0 c q [P0 (Cr & K2 & K3 & K4 & K5)] E Sv _ Pc. split; [apply flush_P; auto|]. repeat split; auto; cbn; [discriminate|]. intros d b Hd. apply in_app_or in Hd as [Hd|[Hd|[]]]; [eauto|]. congruence.
    + intros s0 a [_ K0]. exact K0.
    + intros s0 c q [P0 (Cr & K2 & K3 & K4 & K5)] E Sv Bt. destruct (addBatch_spec r c q s0) as (A1 & _ & A3 & A4 & A5 & _ & A6). unfold K. rewrite A1, A3, A4, A5.
      assert (Hu : forall d, pend s0 d <> [] \/ d = c -> upd (pend s0) c (pend s0 c ++ [r]) d <> []).
      { intros d Hd. unfold upd. destruct (Nat.eqb_spec d c); [destruct (pend s0 c); discriminate|]. destruct Hd; [auto|congruence]. }
      repeat split; auto.
      * destruct A6 as [(_ & _ & _ & ->)|(_ & -> & _ & A6)]; [discriminate|]. destruct A6 as [(_ & _ & -> & ->)|(_ & -> & ->)]; intros Ha.
        -- exists c. rewrite E. split; auto. split; [left; auto|]. auto.
        -- destruct (K4 Ha) as (x & X1 & X2 & X3). exists x. auto.
      * intros d b Hd. apply Hu. destruct A6 as [(_ & _ & Hj & _)|(_ & _ & Hj & _)]; rewrite Hj in Hd; [|eauto]. apply in_app_or in Hd as [Hd|[Hd|[]]]; [eauto|]. right. congruence.
    + intros s0 c q [P0 (Cr & K2 & K3 & K4 & K5)] E Sv _ Pc. repeat split; auto; cbn.
      * intros Ha. destruct (K4 Ha) as (x & X1 & X2 & X3). exists x. repeat split; auto. rewrite E in X2. destruct X2; [congruence|auto].
      * intros d b Hd. apply in_app_or in Hd as [Hd|[Hd|[]]]; [eauto|]. discriminate.
  - destruct (findJob c s) as [[[]|r []]|] eqn:F; try exact Hk; apply findJob_in in F.
    + destruct (pend s c) eqn:Pc. { exfalso. eapply K5; eauto. } repeat split; auto; cbn. intros d b Hd. apply set_in in Hd as [[_ Hd]|(-> & _ & _)]; [eauto|congruence].
    + repeat split; auto; cbn. intros d b Hd. apply set_in in Hd as [[_ Hd]|(-> & Hd & _)]; [eauto|discriminate].
  - destruct (findJob c s) as [[[]|r []]|] eqn:F; try exact Hk; apply findJob_in in F; repeat split; auto; cbn.
    + intros Ha. destruct (K4 Ha) as (x & X1 & X2 & X3). exists x. repeat split; auto; [apply in_or_app; auto|]. unfold upd. destruct (Nat.eqb_spec x c) as [->|]; auto. exfalso. eapply nd_held_jq; eauto.
    + intros d b Hd. apply drop_in in Hd. destruct Hd as [Hd N]. unfold upd. destruct (Nat.eqb_spec d c); [congruence|]. eauto.
    + intros Ha. destruct (K4 Ha) as (x & X1 & X2 & X3). exists x. repeat split; auto. apply in_or_app; auto.
    + intros d b Hd. apply drop_in in Hd. destruct Hd as [Hd N]. eauto.
  - destruct (find _ (post s)); repeat split; auto.
  - repeat split; auto.
Qed.
Lemma timer_K s : P s -> K s -> K (step (step (step s Expire) Handler) OnTimeout).
Proof.
  intros Hp Hk. destruct (Hk) as (Cr & K2 & K3 & K4 & K5). unfold Pool_Model.step at 3. rewrite Cr. destruct (armed s) eqn:Ar.
  - destruct (K4 eq_refl) as (c & X1 & X2 & X3). unfold Pool_Model.step at 2. cbn [crashed expired fired tclient]. rewrite K3, X1.
    unfold Pool_Model.step. cbn [crashed fired]. cbv zeta. cbn [queue]. destruct (queue s) as [|d q] eqn:E; [destruct X2|]. destruct (Nat.eqb_spec d c) as [->|N].
    + repeat split; auto; cbn; [discriminate|]. intros d b Hd. apply in_app_or in Hd as [Hd|[Hd|[]]]; [eauto|congruence].
    + repeat split; auto; cbn. discriminate.
  - assert (E1 : step s Handler = s). { unfold Pool_Model.step. rewrite Cr, K2. reflexivity. } rewrite E1. unfold Pool_Model.step. rewrite Cr, K3. exact Hk.
Qed.
Lemma prompt_K s : prompt B T clients s -> P s /\ K s.
Proof.
  induction 1 as [|s e H [IP IK]|s H [IP IK]].
  - split. { unfold Pool_Proofs.P, held. cbn. rewrite app_nil_r. reflexivity. } repeat split; cbn; try discriminate. intros c b [].
  - split; [apply step_P|apply step_K]; auto.
  - split; [apply step_P, step_P, step_P; auto|apply timer_K; auto].
Qed.
End Proofs.
