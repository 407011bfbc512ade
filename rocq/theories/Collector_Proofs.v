(** Proofs about the threshold signature collector. *)
From Coq Require Import List Arith Lia Bool Permutation.
From Verif Require Import Collector_Model.
Import ListNotations.

Lemma nodup_map_filter {A B} (g : A -> B) p l : NoDup (map g l) -> NoDup (map g (filter p l)).
Proof.
  induction l as [|x l IH]; simpl; intros H; [constructor|]. inversion H; subst. destruct (p x); simpl; auto. constructor; auto.
  intros Q. apply H2. apply in_map_iff in Q. destruct Q as (y & E & Q). apply filter_In in Q. apply in_map_iff. exists y. tauto.
Qed.
Lemma nodup_app {A} (l r : list A) : NoDup l -> NoDup r -> (forall x, In x l -> In x r -> False) -> NoDup (l ++ r).
Proof.
  induction l as [|a l IH]; simpl; intros H1 H2 H3; auto. inversion H1; subst. constructor.
  - rewrite in_app_iff. intros [H|H]; [auto|eapply H3; eauto].
  - apply IH; auto. intros x X1 X2. eapply H3; eauto.
Qed.
Lemma nodup_firstn {A} n (l : list A) : NoDup l -> NoDup (firstn n l).
Proof. intros H. rewrite <- (firstn_skipn n l) in H. revert H. generalize (skipn n l). generalize (firstn n l). clear.
  induction l as [|a l IH]; simpl; intros r H; [constructor|]. inversion H; subst. constructor; [|eapply IH; eauto]. intros Q. apply H2. apply in_or_app; auto. Qed.
Lemma in_firstn {A} n (l : list A) x : In x (firstn n l) -> In x l.
Proof. intros H. rewrite <- (firstn_skipn n l). apply in_or_app; auto. Qed.

Section V.
Variable k : vkey.

Lemma verify_distinct d c : NoDup (map fst (cs c)) -> verify k d c = Some true -> distinctSigners k d c (vk_thr k).
Proof.
  intros ND V. unfold verify in V. destruct (cs_whole c); [|discriminate]. simpl in V. destruct (length (cs c) <? vk_thr k); [discriminate|].
  assert (L : vk_thr k <= length (filter (counts k d) (cs c))) by (apply Nat.leb_le; congruence).
  exists (firstn (vk_thr k) (map fst (filter (counts k d) (cs c)))). split; [|split].
  - apply nodup_firstn. apply nodup_map_filter. auto.
  - rewrite firstn_length, map_length. apply Nat.min_l. exact L.
  - intros i Hi. apply in_firstn in Hi. apply in_map_iff in Hi. destruct Hi as ([i' b] & E & Hi). simpl in E. subst i'. apply filter_In in Hi.
    destruct Hi as [Hi C]. unfold counts in C. simpl in C. repeat rewrite andb_true_iff in C. destruct C as [[C1 C2] C3].
    apply negb_true_iff in C1. apply Nat.eqb_neq in C1. apply Nat.ltb_lt in C2. split; [lia|]. exists b. auto.
Qed.

(** * The accumulator *)
Lemma accAdd_nodup d ver sg inv p sg' inv' : NoDup (map fst sg) -> accAdd k d ver (Some (sg, inv)) p = Some (sg', inv') -> NoDup (map fst sg').
Proof.
  intros ND H. destruct p as [s|]; simpl in H; [|discriminate]. destruct ((fst s =? 0) || (vk_n k + 1 <? fst s)); [inversion H; subst; auto|].
  assert (Q : NoDup (map fst (if existsb (fun x => fst x =? fst s) sg then sg else sg ++ [s]))).
  { destruct (existsb (fun x => fst x =? fst s) sg) eqn:E; auto. rewrite map_app. apply nodup_app; auto; [repeat constructor; auto|].
    intros x H1 [H2|[]]. subst x. apply in_map_iff in H1. destruct H1 as (y & E1 & H1).
    assert (T : existsb (fun x => fst x =? fst s) sg = true); [|congruence]. apply existsb_exists. exists y. split; auto. rewrite E1. apply Nat.eqb_refl. }
  destruct ver; [destruct (verifySingle k d s) as [[|]|]; inversion H; subst; auto|inversion H; subst; auto].
Qed.
Lemma acc_none d ver ps : fold_left (accAdd k d ver) ps None = None.
Proof. induction ps; simpl; auto. Qed.
Lemma accumulate_nodup_gen d ver ps : forall sg inv sg' inv', NoDup (map fst sg) -> fold_left (accAdd k d ver) ps (Some (sg, inv)) = Some (sg', inv') -> NoDup (map fst sg').
Proof.
  induction ps as [|p ps IH]; intros sg inv sg' inv' ND H; [simpl in H; inversion H; subst; auto|]. cbn [fold_left] in H.
  destruct (accAdd k d ver (Some (sg, inv)) p) as [[sg1 inv1]|] eqn:E; [|rewrite acc_none in H; discriminate].
  eapply IH; [|exact H]. eapply accAdd_nodup; eauto.
Qed.
Lemma runCombine_distinct d ps c : runCombine k d ps = Some (JOk c) -> distinctSigners k d c (vk_thr k) /\ verify k d c = Some true.
Proof.
  unfold runCombine. destruct (accumulate k d false ps) as [[sg inv]|] eqn:E1; [|discriminate]. destruct (vk_n k <? length sg); [discriminate|].
  destruct (verify k d (mkCs sg true)) as [[|]|] eqn:V1; [|destruct (accumulate k d true ps) as [[sg2 inv2]|] eqn:E2; [|discriminate]|discriminate].
  - intros H. inversion H; subst. split; auto. apply verify_distinct; auto. simpl. eapply accumulate_nodup_gen; [|exact E1]. constructor.
  - destruct (vk_n k <? length sg2); [discriminate|]. destruct (verify k d (mkCs sg2 true)) as [[|]|] eqn:V2; try discriminate.
    intros H. inversion H; subst. split; auto. apply verify_distinct; auto. simpl. eapply accumulate_nodup_gen; [|exact E2]. constructor.
Qed.

(** Well-formed shares: right length, signer id at most n. *)
Definition okShare (p : pmsg) : Prop := exists s, p = Some s /\ fst s <= vk_n k.
Definition accOk (d : nat) (ver : bool) (ps : list pmsg) (sg : list share) (inv : list nat) : Prop :=
  NoDup (map fst sg) /\ (forall s, In s sg -> In (Some s) ps /\ 1 <= fst s <= vk_n k) /\
  (forall s, In (Some s) ps -> 1 <= fst s -> In (fst s) (map fst sg)) /\
  NoDup inv /\ (forall i, In i inv -> exists b, In (Some (i, b)) ps /\ 1 <= i <= vk_n k /\ vk_ok k i d b = false) /\
  (ver = true -> forall i b, In (Some (i, b)) ps -> 1 <= i -> vk_ok k i d b = false -> In i inv) /\ length inv <= length ps.
Lemma accumulate_ok d ver ps : Forall okShare ps -> exists sg inv, accumulate k d ver ps = Some (sg, inv) /\ accOk d ver ps sg inv.
Proof.
  unfold accumulate. induction ps as [|p ps IH] using rev_ind; intros F.
  - exists [], []. split; auto. split; [constructor|]. split; [intros ? []|]. split; [intros ? []|]. split; [constructor|]. split; [intros ? []|]. split; [intros _ ? ? []|simpl; auto].
  - apply Forall_app in F. destruct F as [F1 F2]. destruct (IH F1) as (sg & inv & E & (A1 & A2 & A3 & A4 & A5 & A6 & A7)).
    inversion F2 as [|? ? (s & Ep & Hs) _]; subst. rewrite fold_left_app, E. cbn [fold_left accAdd].
    destruct (Nat.eqb_spec (fst s) 0) as [Z|Z].
    + simpl orb. cbv iota. exists sg, inv. split; auto. split; auto. split; [intros x Hx; destruct (A2 x Hx); split; auto; apply in_or_app; auto|].
      split; [intros x Hx L; apply in_app_iff in Hx; destruct Hx as [Hx|[Hx|[]]]; [auto|inversion Hx; subst; lia]|]. split; auto.
      split; [intros i Hi; destruct (A5 i Hi) as (b & B1 & B2); exists b; split; auto; apply in_or_app; auto|]. split.
      * intros V i b Hx L Q. apply in_app_iff in Hx. destruct Hx as [Hx|[Hx|[]]]; [eauto|inversion Hx; subst; simpl in *; lia].
      * rewrite app_length. simpl. lia.
    + destruct (Nat.ltb_spec (vk_n k + 1) (fst s)) as [Z2|Z2]; [lia|]. simpl orb. cbv iota.
      set (sg' := if existsb (fun x => fst x =? fst s) sg then sg else sg ++ [s]).
      assert (S1 : NoDup (map fst sg') /\ (forall x, In x sg' -> In (Some x) (ps ++ [Some s]) /\ 1 <= fst x <= vk_n k) /\
                   (forall x, In (Some x) (ps ++ [Some s]) -> 1 <= fst x -> In (fst x) (map fst sg'))).
      { unfold sg'. destruct (existsb (fun x => fst x =? fst s) sg) eqn:Ex.
        - apply existsb_exists in Ex. destruct Ex as (y & Hy & Ey). apply Nat.eqb_eq in Ey. split; auto. split.
          + intros x Hx. destruct (A2 x Hx). split; auto. apply in_or_app; auto.
          + intros x Hx L. apply in_app_iff in Hx. destruct Hx as [Hx|[Hx|[]]]; auto. inversion Hx; subst. rewrite <- Ey. apply in_map. auto.
        - split; [|split].
          + rewrite map_app. apply nodup_app; auto; [repeat constructor; auto|]. intros x H1 [H2|[]]. subst x. apply in_map_iff in H1. destruct H1 as (y & E1 & H1).
            assert (T : existsb (fun x => fst x =? fst s) sg = true); [|congruence]. apply existsb_exists. exists y. split; auto. rewrite E1. apply Nat.eqb_refl.
          + intros x Hx. apply in_app_iff in Hx. destruct Hx as [Hx|[Hx|[]]]; [destruct (A2 x Hx); split; auto; apply in_or_app; auto|]. subst x.
            split; [apply in_or_app; simpl; auto|lia].
          + intros x Hx L. rewrite map_app. apply in_or_app. apply in_app_iff in Hx. destruct Hx as [Hx|[Hx|[]]]; auto. inversion Hx; subst. simpl; auto. }
      destruct S1 as (S1 & S2 & S3).
      assert (D5 : forall i, In i inv -> exists b, In (Some (i, b)) (ps ++ [Some s]) /\ 1 <= i <= vk_n k /\ vk_ok k i d b = false).
      { intros i Hi. destruct (A5 i Hi) as (b & B1 & B2). exists b. split; auto. apply in_or_app; auto. }
      destruct ver.
      * unfold verifySingle. destruct (Nat.eqb_spec (fst s) 0); [lia|]. destruct (Nat.leb_spec (fst s) (vk_n k)); [|lia].
        destruct (vk_ok k (fst s) d (snd s)) eqn:OK.
        -- exists sg', inv. split; auto. split; auto. split; auto. split; auto. split; auto. split; auto. split.
           ++ intros V i b Hx L Q. apply in_app_iff in Hx. destruct Hx as [Hx|[Hx|[]]]; [eauto|]. inversion Hx; subst. simpl in OK. congruence.
           ++ rewrite app_length. simpl. lia.
        -- destruct (existsb (Nat.eqb (fst s)) inv) eqn:Ei.
           ++ apply existsb_exists in Ei. destruct Ei as (y & Hy & Ey). apply Nat.eqb_eq in Ey. subst y.
              exists sg', inv. split; auto. split; auto. split; auto. split; auto. split; auto. split; auto. split.
              ** intros V i b Hx L Q. apply in_app_iff in Hx. destruct Hx as [Hx|[Hx|[]]]; [eauto|]. inversion Hx; subst. auto.
              ** rewrite app_length. simpl. lia.
           ++ exists sg', (inv ++ [fst s]). split; auto. split; auto. split; auto. split; auto. split; [|split; [|split]].
              ** apply nodup_app; auto; [repeat constructor; auto|]. intros x H1 [H2|[]]. subst x.
                 assert (T : existsb (Nat.eqb (fst s)) inv = true); [|congruence]. apply existsb_exists. exists (fst s). split; auto. apply Nat.eqb_refl.
              ** intros i Hi. apply in_app_iff in Hi. destruct Hi as [Hi|[Hi|[]]]; [auto|]. subst i. exists (snd s). split; [apply in_or_app; right; destruct s; simpl; auto|]. split; [lia|auto].
              ** intros V i b Hx L Q. apply in_or_app. apply in_app_iff in Hx. destruct Hx as [Hx|[Hx|[]]]; [left; eauto|]. inversion Hx; subst. simpl; auto.
              ** rewrite !app_length. simpl. lia.
      * exists sg', inv. split; auto. split; auto. split; auto. split; auto. split; auto. split; auto. split; [discriminate|]. rewrite app_length. simpl. lia.
Qed.
Lemma nodup_range_len (l : list nat) n : NoDup l -> (forall x, In x l -> 1 <= x <= n) -> length l <= n.
Proof. intros H1 H2. rewrite <- (seq_length n 1). apply NoDup_incl_length; auto. intros x Hx. apply in_seq. apply H2 in Hx. lia. Qed.
Lemma sg_len (sg : list share) : NoDup (map fst sg) -> (forall s, In s sg -> 1 <= fst s <= vk_n k) -> length sg <= vk_n k.
Proof.
  intros H1 H2. assert (Q : length (map fst sg) <= vk_n k) by (apply nodup_range_len; auto; intros x Hx; apply in_map_iff in Hx; destruct Hx as (s & <- & Hs); auto).
  rewrite map_length in Q. exact Q.
Qed.
(** On well-formed shares the job does not abort; it reports distinct ids, each with an invalid share. *)
Lemma runCombine_ok d ps : Forall okShare ps -> exists r, runCombine k d ps = Some r /\
  match r with
  | JOk c => True
  | JBad ids => NoDup ids /\ length ids <= length ps /\ (forall j, In j ids -> exists b, In (Some (j + 1, b)) ps /\ vk_ok k (j + 1) d b = false) /\
                (forall j b, In (Some (j + 1, b)) ps -> vk_ok k (j + 1) d b = false -> In j ids) /\
                exists sg, NoDup (map fst sg) /\ (forall s, In s sg -> In (Some s) ps /\ 1 <= fst s <= vk_n k) /\
                          (forall s, In (Some s) ps -> 1 <= fst s -> In (fst s) (map fst sg)) /\ verify k d (mkCs sg true) = Some false
  end.
Proof.
  intros F. destruct (accumulate_ok d false ps F) as (sg & inv & E1 & (A1 & A2 & A3 & _)). unfold runCombine. rewrite E1.
  assert (L1 : length sg <= vk_n k) by (apply sg_len; auto; apply A2). destruct (Nat.ltb_spec (vk_n k) (length sg)); [lia|].
  destruct (verify k d (mkCs sg true)) as [[|]|] eqn:V1.
  - eexists. split; [reflexivity|exact I].
  - destruct (accumulate_ok d true ps F) as (sg2 & inv2 & E2 & (B1 & B2 & B3 & B4 & B5 & B6 & B7)). rewrite E2.
    assert (L2 : length sg2 <= vk_n k) by (apply sg_len; auto; apply B2). destruct (Nat.ltb_spec (vk_n k) (length sg2)); [lia|].
    destruct (verify k d (mkCs sg2 true)) as [[|]|] eqn:V2.
    + eexists. split; [reflexivity|exact I].
    + eexists. split; [reflexivity|]. split; [|split; [|split; [|split]]].
      * assert (P : forall i, In i inv2 -> 1 <= i) by (intros i Hi; destruct (B5 i Hi) as (b & _ & ? & _); lia). revert B4 P. clear.
        induction inv2 as [|i l IH]; simpl; intros H P; [constructor|]. inversion H; subst. constructor; auto.
        intros Q. apply in_map_iff in Q. destruct Q as (j & Ej & Hj). assert (j = i) by (pose proof (P i (or_introl eq_refl)); pose proof (P j (or_intror Hj)); lia). subst. auto.
      * rewrite map_length. auto.
      * intros j Hj. apply in_map_iff in Hj. destruct Hj as (i & Ej & Hi). destruct (B5 i Hi) as (b & C1 & C2 & C3). exists b. replace (j + 1) with i by lia. auto.
      * intros j b Hj Q. apply in_map_iff. exists (j + 1). split; [lia|]. eapply B6; eauto. lia.
      * exists sg2. auto.
    + unfold verify in V2. simpl in V2. destruct (length sg2 <? vk_thr k); discriminate.
  - unfold verify in V1. simpl in V1. destruct (length sg <? vk_thr k); discriminate.
Qed.

(** * The collector *)
Variable ord : list rinfo -> list rinfo.
Hypothesis ordP : forall l, Permutation (ord l) l.
Definition goods (l : list rinfo) : list rinfo := filter (fun x => negb (ri_bad x)) l.

Lemma pickJob_gen l : forall n ps, pickJob l n = Some ps -> exists q, length q = n /\ incl q l /\ (NoDup (map ri_rep l) -> NoDup (map ri_rep q)) /\
  (forall x, In x q -> ri_bad x = false) /\ map Some ps = map ri_msg q.
Proof.
  induction l as [|x l IH]; intros n ps H.
  - destruct n; simpl in H; [inversion H; subst|discriminate]. exists []. repeat split; auto. intros ? [].  intros ? [].
  - destruct n as [|n]; [simpl in H; inversion H; subst; exists []; repeat split; auto; [intros ? []|intros _; constructor|intros ? []]|].
    cbn [pickJob] in H. destruct (ri_bad x) eqn:B.
    + destruct (IH _ _ H) as (q & Q1 & Q2 & Q3 & Q4 & Q5). exists q. split; auto. split; [apply incl_tl; auto|]. split; auto. intros ND. inversion ND; auto.
    + destruct (ri_msg x) as [p|] eqn:M; [|discriminate]. destruct (pickJob l n) as [t|] eqn:E; [|discriminate]. inversion H; subst.
      destruct (IH _ _ E) as (q & Q1 & Q2 & Q3 & Q4 & Q5). exists (x :: q). split; [simpl; auto|]. split; [intros y [<-|Hy]; simpl; auto|]. split; [|split].
      * intros ND. simpl in *. inversion ND; subst. constructor; auto. intros Q. apply H2. apply in_map_iff in Q. destruct Q as (y & E1 & Hy). rewrite <- E1. apply in_map. auto.
      * intros y [<-|Hy]; auto.
      * simpl. rewrite M, Q5. auto.
Qed.
Lemma pickJob_ok l : forall n, n <= length (goods l) -> (forall x, In x l -> ri_bad x = false -> ri_msg x <> None) -> exists ps, pickJob l n = Some ps.
Proof.
  induction l as [|x l IH]; intros n H M.
  - simpl in H. assert (n = 0) by lia. subst. eexists; reflexivity.
  - destruct n as [|n]; [eexists; reflexivity|]. cbn [pickJob]. unfold goods in *. simpl in H. destruct (ri_bad x) eqn:B; simpl in H.
    + apply IH; auto. intros y Hy. apply M. simpl; auto.
    + destruct (ri_msg x) as [p|] eqn:E; [|exfalso; eapply M; [left; reflexivity|auto|auto]].
      destruct (IH n) as (t & Et); [lia|intros y Hy; apply M; simpl; auto|]. rewrite Et. eauto.
Qed.
Lemma goods_perm l l' : Permutation l l' -> length (goods l) = length (goods l').
Proof. unfold goods. induction 1; simpl; auto; try congruence; repeat (destruct (ri_bad _); simpl; auto); try lia. Qed.

(** ** Safety: what is complete was verified. *)
Definition SafeInv (s : cst) : Prop :=
  (forall c, valid s = Some c -> exists q v d, exp s = Some (q, v, d) /\ verify k d c = Some true) /\
  (forall d c, busy s = Some (JVerify d c) -> cand s = Some c) /\
  (forall j, busy s = Some j -> exists q v, exp s = Some (q, v, match j with JCombine d _ => d | JVerify d _ => d end)).
Lemma trySend_safe s s' : SafeInv s -> trySend k ord s = Some s' -> SafeInv s' /\ valid s' = None.
Proof.
  intros (A & B & C) H. unfold trySend in H. destruct (valid s) eqn:Vs; [discriminate|]. destruct (busy s) eqn:Bs.
  { inversion H; subst. split; auto. split; [rewrite Vs; discriminate|]. rewrite Bs. auto. }
  destruct (exp s) as [[[q v] d]|] eqn:Es.
  2: { inversion H; subst. split; auto. split; [rewrite Vs; discriminate|]. rewrite Bs. split; discriminate. }
  destruct (cand s) as [c|] eqn:Cs.
  { inversion H; subst. split; auto. split; [discriminate|]. simpl. split; [intros ? ? Q; inversion Q; auto|]. intros j Q. inversion Q; eauto. }
  destruct (vk_thr k <=? unknown s).
  2: { inversion H; subst. split; auto. split; [rewrite Vs; discriminate|]. rewrite Bs. split; discriminate. }
  destruct (pickJob (ord (reps s)) (vk_thr k)) as [ps|]; [|discriminate]. inversion H; subst. split; auto. split; [discriminate|]. simpl.
  split; [discriminate|]. intros j Q. inversion Q; eauto.
Qed.
Lemma cstep_safe s o s' : SafeInv s -> cstep k ord s o = Some s' -> SafeInv s'.
Proof.
  intros (A & B & C) H. destruct o; simpl in H.
  - destruct (valid s) eqn:Vs; [inversion H; subst; rewrite <- Vs in *; split; auto|]. destruct (hasRep s r); [inversion H; subst; split; auto; rewrite Vs; discriminate|].
    eapply trySend_safe; [|exact H]. split; [discriminate|]. simpl. auto.
  - destruct (valid s) eqn:Vs; [inversion H; subst; rewrite <- Vs in *; split; auto|].
    destruct (cand s) eqn:Cs; [inversion H; subst; split; [rewrite Vs; discriminate|rewrite Cs; auto]|].
    eapply trySend_safe; [|exact H]. split; [discriminate|]. simpl. split; auto. intros d c0 Q. apply B in Q. congruence.
  - destruct (exp s) eqn:Es; [discriminate|]. destruct (busy s) eqn:Bs; [discriminate|]. destruct (s0 =? 0); [discriminate|].
    eapply trySend_safe; [|exact H]. simpl. split; [|split; discriminate]. simpl. intros c Hc. destruct (A c Hc) as (q & v0 & d0 & Q & _). congruence.
  - inversion H; subst. split; [discriminate|split; discriminate].
  - destruct (busy s) as [[d ps|d c]|] eqn:Bs; [| |inversion H; subst; split; auto; rewrite Bs; split; discriminate].
    + destruct (valid s) eqn:Vs; [discriminate|]. destruct (runCombine k d ps) as [[c|ids]|] eqn:R; [| |discriminate].
      * inversion H; subst. split; [|split; discriminate]. simpl. intros c0 Q. inversion Q; subst. destruct (C _ eq_refl) as (q & v & E). exists q, v, d. split; auto.
        apply runCombine_distinct in R. tauto.
      * eapply trySend_safe; [|exact H]. split; [discriminate|split; discriminate].
    + destruct (valid s) eqn:Vs; [discriminate|]. pose proof (B _ _ eq_refl) as Cs. rewrite Cs in H. destruct (verify k d c) as [[|]|] eqn:V; [| |discriminate].
      * inversion H; subst. split; [|split; discriminate]. simpl. intros c0 Q. inversion Q; subst. destruct (C _ eq_refl) as (q & v & E). exists q, v, d. auto.
      * eapply trySend_safe; [|exact H]. split; [discriminate|split; discriminate].
  - destruct (exp s) eqn:Es; [discriminate|]. destruct (busy s) eqn:Bs; [discriminate|]. destruct (s0 =? 0); [discriminate|].
    inversion H; subst. split; [|split; discriminate]. simpl. intros c Hc. destruct (A c Hc) as (q & v0 & d0 & Q & _). congruence.
  - destruct (busy s) eqn:Bs; [discriminate|]. destruct (exp s) as [e|] eqn:Es; [|discriminate]. destruct (valid s) eqn:Vs; [discriminate|]. destruct (cand s) eqn:Cs; [discriminate|].
    destruct (_ || _ || _); [discriminate|]. inversion H; subst. split; [discriminate|split; discriminate].
  - destruct (busy s) eqn:Bs; [discriminate|]. destruct (exp s) as [[[q v] d]|] eqn:Es; [|discriminate]. destruct (valid s) eqn:Vs; [discriminate|]. destruct (cand s) eqn:Cs; [discriminate|].
    destruct (verify k d c) as [[|]|] eqn:V; try discriminate. inversion H; subst. split; [|split; discriminate]. simpl. intros c0 Q. inversion Q; subst. eauto 6.
Qed.
Lemma init_safe : SafeInv cinit.
Proof. split; [discriminate|split; discriminate]. Qed.
Lemma crun_safe l : forall s s', SafeInv s -> crun k ord s l = Some s' -> SafeInv s'.
Proof.
  induction l as [|o l IH]; intros s s' I H; simpl in H; [inversion H; subst; auto|]. destruct (cstep k ord s o) as [s1|] eqn:E; [|discriminate].
  eapply IH; [|exact H]. eapply cstep_safe; eauto.
Qed.

(** Where the complete signature comes from. *)
Definition candFrom (P : csig -> Prop) (s : cst) : Prop :=
  (forall c, valid s = Some c -> P c) /\ (forall c, cand s = Some c -> P c).
Lemma trySend_keeps s s' : trySend k ord s = Some s' -> valid s' = valid s /\ cand s' = cand s /\ reps s' = reps s /\ unknown s' = unknown s /\ exp s' = exp s.
Proof.
  unfold trySend. intros H. destruct (valid s) eqn:Vs; [discriminate|]. destruct (busy s) eqn:Bs; [inversion H; subst; auto|].
  destruct (exp s) as [[[q v] d]|] eqn:Es; [|inversion H; subst; auto]. destruct (cand s) eqn:Cs; [inversion H; subst; simpl; auto|].
  destruct (vk_thr k <=? unknown s); [|inversion H; subst; auto]. destruct (pickJob _ _); [|discriminate]. inversion H; subst; simpl; auto.
Qed.
Lemma cstep_from P s o s' : candFrom P s -> (forall c, o = AddFull c \/ o = InitFull c -> P c) -> (forall d ps c, runCombine k d ps = Some (JOk c) -> P c) ->
  cstep k ord s o = Some s' -> candFrom P s'.
Proof.
  intros (A & B) O R H. destruct o; simpl in H.
  - destruct (valid s) eqn:Vs; [inversion H; subst; split; auto; rewrite Vs; auto|]. destruct (hasRep s r); [inversion H; subst; split; auto; rewrite Vs; auto|].
    apply trySend_keeps in H. simpl in H. destruct H as (H1 & H2 & _). split; [rewrite H1; discriminate|rewrite H2; auto].
  - destruct (valid s) eqn:Vs; [inversion H; subst; split; auto; rewrite Vs; auto|]. destruct (cand s) eqn:Cs; [inversion H; subst; split; [rewrite Vs; discriminate|rewrite Cs; auto]|].
    apply trySend_keeps in H. simpl in H. destruct H as (H1 & H2 & _). split; [rewrite H1; discriminate|rewrite H2; intros c0 Q; inversion Q; subst; auto].
  - destruct (exp s) eqn:Es; [discriminate|]. destruct (busy s) eqn:Bs; [discriminate|]. destruct (s0 =? 0); [discriminate|].
    apply trySend_keeps in H. simpl in H. destruct H as (H1 & H2 & _). split; [rewrite H1; auto|rewrite H2; auto].
  - inversion H; subst. split; discriminate.
  - destruct (busy s) as [[d ps|d c]|] eqn:Bs; [| |inversion H; subst; split; auto].
    + destruct (valid s) eqn:Vs; [discriminate|]. destruct (runCombine k d ps) as [[c|ids]|] eqn:Q; [| |discriminate].
      * inversion H; subst. split; [|discriminate]. simpl. intros c0 E. inversion E; subst. eauto.
      * apply trySend_keeps in H. simpl in H. destruct H as (H1 & H2 & _). split; [rewrite H1; discriminate|rewrite H2; auto].
    + destruct (valid s) eqn:Vs; [discriminate|]. destruct (cand s) as [c1|] eqn:Cs; [|discriminate]. destruct (verify k d c) as [[|]|] eqn:V; [| |discriminate].
      * inversion H; subst. split; [|discriminate]. simpl. intros c0 E. inversion E; subst. auto.
      * apply trySend_keeps in H. simpl in H. destruct H as (H1 & H2 & _). split; [rewrite H1; discriminate|rewrite H2; discriminate].
  - destruct (exp s) eqn:Es; [discriminate|]. destruct (busy s) eqn:Bs; [discriminate|]. destruct (s0 =? 0); [discriminate|]. inversion H; subst. split; auto.
  - destruct (busy s) eqn:Bs; [discriminate|]. destruct (exp s) as [e|] eqn:Es; [|discriminate]. destruct (valid s) eqn:Vs; [discriminate|]. destruct (cand s) eqn:Cs; [discriminate|].
    destruct (_ || _ || _); [discriminate|]. inversion H; subst. split; discriminate.
  - destruct (busy s) eqn:Bs; [discriminate|]. destruct (exp s) as [[[q v] d]|] eqn:Es; [|discriminate]. destruct (valid s) eqn:Vs; [discriminate|]. destruct (cand s) eqn:Cs; [discriminate|].
    destruct (verify k d c) as [[|]|] eqn:V; try discriminate. inversion H; subst. split; [|discriminate]. simpl. intros c0 Q. inversion Q; subst. auto.
Qed.
Lemma crun_from P l : forall s s', candFrom P s -> (forall c, In (AddFull c) l \/ In (InitFull c) l -> P c) -> (forall d ps c, runCombine k d ps = Some (JOk c) -> P c) ->
  crun k ord s l = Some s' -> candFrom P s'.
Proof.
  induction l as [|o l IH]; intros s s' I O R H; simpl in H; [inversion H; subst; auto|]. destruct (cstep k ord s o) as [s1|] eqn:E; [|discriminate].
  eapply IH; [| |exact R|exact H].
  - eapply cstep_from; eauto. intros c [->| ->]; apply O; simpl; auto.
  - intros c [Q|Q]; apply O; simpl; auto.
Qed.

(** ** No abort, and progress. *)
Definition okEntry (x : rinfo) : Prop := (ri_bad x = false -> ri_msg x <> None) /\ forall p, ri_msg x = Some p -> okShare p.
Definition Inv (s : cst) : Prop :=
  NoDup (map ri_rep (reps s)) /\ Forall okEntry (reps s) /\ unknown s <= length (goods (reps s)) /\
  (forall c, cand s = Some c -> cs_whole c = true) /\
  (forall d ps, busy s = Some (JCombine d ps) -> length ps = vk_thr k /\ vk_thr k <= unknown s /\
     exists q, incl q (reps s) /\ NoDup (map ri_rep q) /\ (forall x, In x q -> ri_bad x = false) /\ map Some ps = map ri_msg q) /\
  (forall j, busy s = Some j -> valid s = None) /\ (valid s <> None -> exp s <> None) /\
  SafeInv s.
Definition okOp (s : cst) (o : cop) : Prop :=
  match o with
  | AddPart r p => okShare p
  | AddFull c => cs_whole c = true
  | SetExp q v d | InitExp q v d => q <> 0 /\ exp s = None
  | InitPart r p => okShare p /\ busy s = None /\ exp s <> None /\ valid s = None /\ cand s = None /\ hasRep s r = false /\ unknown s = 0 /\ 1 < vk_thr k
  | InitFull c => busy s = None /\ valid s = None /\ cand s = None /\ exists q v d, exp s = Some (q, v, d) /\ verify k d c = Some true
  | _ => True
  end.
Lemma goods_app l x : goods (l ++ [x]) = goods l ++ (if ri_bad x then [] else [x]).
Proof. unfold goods. rewrite filter_app. simpl. destruct (ri_bad x); auto. Qed.

Lemma trySend_inv s : Inv s -> valid s = None -> exists s', trySend k ord s = Some s' /\ Inv s'.
Proof.
  intros I Vs. pose proof I as (I1 & I2 & I3 & I4 & I5 & I6 & I7 & I8). unfold trySend. rewrite Vs. destruct (busy s) eqn:Bs; [eauto|].
  destruct (exp s) as [[[q v] d]|] eqn:Es; [|eauto]. destruct (cand s) as [c|] eqn:Cs.
  - eexists. split; [reflexivity|]. assert (SI : SafeInv (mkC (reps s) (unknown s) None (Some c) (Some (q, v, d)) (Some (JVerify d c)))).
    { split; [discriminate|]. simpl. split; [intros ? ? Q; inversion Q; auto|]. intros j Q; inversion Q; eauto. }
    split; [|split; [|split; [|split; [|split; [|split; [|split]]]]]]; simpl; auto; discriminate.
  - destruct (Nat.leb_spec (vk_thr k) (unknown s)) as [L|L]; [|eauto].
    assert (GP : length (goods (ord (reps s))) = length (goods (reps s))) by (apply goods_perm; auto).
    destruct (pickJob_ok (ord (reps s)) (vk_thr k)) as (ps & Ep).
    + rewrite GP. lia.
    + intros x Hx B. rewrite Forall_forall in I2. apply (I2 x); auto. eapply Permutation_in; [apply ordP|auto].
    + rewrite Ep. eexists. split; [reflexivity|].
      destruct (pickJob_gen _ _ _ Ep) as (w & Q1 & Q2 & Q3 & Q4 & Q5).
      assert (SI : SafeInv (mkC (reps s) (unknown s) None None (Some (q, v, d)) (Some (JCombine d ps)))).
      { split; [discriminate|]. simpl. split; [discriminate|]. intros j Q; inversion Q; eauto. }
      split; [|split; [|split; [|split; [|split; [|split; [|split]]]]]]; simpl; auto; try discriminate.
      intros d0 ps0 Q. inversion Q; subst. split; [|split; auto].
      * apply (f_equal (@length _)) in Q5. rewrite !map_length in Q5. lia.
      * exists w. split; [intros x Hx; eapply Permutation_in; [apply ordP|]; auto|]. split; auto. apply Q3.
        eapply Permutation_NoDup; [apply Permutation_map; apply Permutation_sym; apply ordP|auto].
Qed.

Lemma markBad_spec l r : NoDup (map ri_rep l) ->
  NoDup (map ri_rep (markBad l r)) /\ length (goods l) <= S (length (goods (markBad l r))) /\ (Forall okEntry l -> Forall okEntry (markBad l r)) /\
  (forall x, In x (markBad l r) -> ri_bad x = false -> In x l) /\ (forall x, In x l -> ri_rep x <> r -> In x (markBad l r)) /\
  (forall x, In x (markBad l r) -> ri_rep x = r -> ri_bad x = true) /\
  (forall x, In x (markBad l r) -> ri_bad x = true -> In x l \/ ri_rep x = r) /\
  (forall x, In x l -> In x (markBad l r) \/ (ri_rep x = r /\ In (mkR r (ri_msg x) true) (markBad l r))).
Proof.
  intros ND. unfold markBad. destruct (existsb (fun x => ri_rep x =? r) l) eqn:E.
  - assert (M : forall l, map ri_rep (map (fun x => if ri_rep x =? r then mkR r (ri_msg x) true else x) l) = map ri_rep l).
    { clear. induction l as [|x l IH]; simpl; auto. rewrite IH. destruct (Nat.eqb_spec (ri_rep x) r); simpl; congruence. }
    split; [rewrite M; auto|]. split; [|split; [|split; [|split; [|split; [|split]]]]].
    + clear E M. induction l as [|x l IH]; simpl; [auto|]. simpl in ND. inversion ND; subst. destruct (Nat.eqb_spec (ri_rep x) r) as [Ex|Ex].
      * simpl. unfold goods in *. simpl. assert (Q : filter (fun x => negb (ri_bad x)) (map (fun x => if ri_rep x =? r then mkR r (ri_msg x) true else x) l) = filter (fun x => negb (ri_bad x)) l).
        { f_equal. assert (Z : forall y, In y l -> ri_rep y <> r) by (intros y Hy Ey; apply H1; rewrite Ex, <- Ey; apply in_map; auto). revert Z. clear.
          induction l as [|y l IH]; simpl; auto. intros Z. rewrite IH by auto. destruct (Nat.eqb_spec (ri_rep y) r); [exfalso; eapply Z; eauto|auto]. }
        rewrite Q. destruct (ri_bad x); simpl; lia.
      * simpl. unfold goods in *. simpl. specialize (IH H2). destruct (ri_bad x); simpl; lia.
    + intros F. rewrite Forall_forall in *. intros x Hx. apply in_map_iff in Hx. destruct Hx as (y & Ey & Hy). specialize (F y Hy). destruct (ri_rep y =? r); subst; auto.
      destruct F as [F1 F2]. split; [discriminate|]. simpl. auto.
    + intros x Hx B. apply in_map_iff in Hx. destruct Hx as (y & Ey & Hy). destruct (ri_rep y =? r); subst; [discriminate|auto].
    + intros x Hx N. apply in_map_iff. exists x. split; auto. destruct (Nat.eqb_spec (ri_rep x) r); [contradiction|auto].
    + intros x Hx R. apply in_map_iff in Hx. destruct Hx as (y & Ey & Hy). destruct (Nat.eqb_spec (ri_rep y) r); subst; [auto|contradiction].
    + intros x Hx B. apply in_map_iff in Hx. destruct Hx as (y & Ey & Hy). destruct (Nat.eqb_spec (ri_rep y) r); subst; [right; auto|auto].
    + intros x Hx. destruct (Nat.eqb_spec (ri_rep x) r) as [Ex|Ex].
      * right. split; auto. apply in_map_iff. exists x. split; auto. rewrite (proj2 (Nat.eqb_eq _ _) Ex). auto.
      * left. apply in_map_iff. exists x. split; auto. rewrite (proj2 (Nat.eqb_neq _ _) Ex). auto.
  - assert (Z : forall y, In y l -> ri_rep y <> r).
    { intros y Hy Ey. assert (T : existsb (fun x => ri_rep x =? r) l = true); [|congruence]. apply existsb_exists. exists y. split; auto. apply Nat.eqb_eq. auto. }
    split; [rewrite map_app; apply nodup_app; auto; [repeat constructor; auto|]|].
    { intros x H1 [H2|[]]. simpl in H2. subst. apply in_map_iff in H1. destruct H1 as (y & Ey & Hy). eapply Z; eauto. }
    split; [rewrite goods_app; simpl; rewrite app_nil_r; lia|]. split; [|split; [|split; [|split; [|split]]]].
    + intros F. apply Forall_app. split; auto. repeat constructor; simpl; try discriminate.
    + intros x Hx B. apply in_app_iff in Hx. destruct Hx as [Hx|[Hx|[]]]; [auto|subst; discriminate].
    + intros x Hx _. apply in_or_app; auto.
    + intros x Hx R. apply in_app_iff in Hx. destruct Hx as [Hx|[Hx|[]]]; [exfalso; eapply Z; eauto|subst; auto].
    + intros x Hx B. apply in_app_iff in Hx. destruct Hx as [Hx|[Hx|[]]]; [auto|subst; auto].
    + intros x Hx. left. apply in_or_app; auto.
Qed.
Lemma markAll_spec rs : forall l, NoDup (map ri_rep l) ->
  NoDup (map ri_rep (markAll l rs)) /\ length (goods l) <= length rs + length (goods (markAll l rs)) /\ (Forall okEntry l -> Forall okEntry (markAll l rs)) /\
  (forall x, In x (markAll l rs) -> ri_bad x = false -> In x l) /\ (forall x, In x l -> ~ In (ri_rep x) rs -> In x (markAll l rs)) /\
  (forall x, In x (markAll l rs) -> In (ri_rep x) rs -> ri_bad x = true).
Proof.
  induction rs as [|r rs IH]; intros l ND; simpl; [repeat split; auto; intros ? ? []|].
  destruct (markBad_spec l r ND) as (B1 & B2 & B3 & B4 & B5 & B6 & B7 & B8). destruct (IH (markBad l r) B1) as (A1 & A2 & A3 & A4 & A5 & A6).
  unfold markAll in *. simpl. split; auto. split; [lia|]. split; auto. split; [auto|]. split.
  - intros x Hx N. apply A5; [apply B5; auto|]; intros Q; apply N; auto.
  - intros x Hx [Q|Q]; [|auto]. destruct (ri_bad x) eqn:Bx; auto. pose proof (A4 x Hx Bx) as Hy. rewrite (B6 x Hy) in Bx; auto.
Qed.

Lemma cstep_inv s o : 1 <= vk_thr k -> Inv s -> okOp s o -> exists s', cstep k ord s o = Some s' /\ Inv s'.
Proof.
  intros T I O. pose proof I as (I1 & I2 & I3 & I4 & I5 & I6 & I7 & I8).
  destruct o; simpl in O |- *.
  - destruct (valid s) eqn:Vs; [eauto|]. destruct (hasRep s r) eqn:Hr; [eauto|]. apply trySend_inv; [|auto].
    assert (NR : forall x, In x (reps s) -> ri_rep x <> r).
    { intros x Hx E. assert (Q : hasRep s r = true); [|congruence]. apply existsb_exists. exists x. split; auto. apply Nat.eqb_eq; auto. }
    split; [|split; [|split; [|split; [|split; [|split; [|split]]]]]]; simpl; auto.
    + rewrite map_app. apply nodup_app; auto; [repeat constructor; auto|]. intros x H1 [H2|[]]. simpl in H2. subst. apply in_map_iff in H1. destruct H1 as (y & Ey & Hy). eapply NR; eauto.
    + apply Forall_app. split; auto. repeat constructor; simpl; [discriminate|]. intros p0 Q. inversion Q; subst. auto.
    + rewrite goods_app. simpl. rewrite app_length. simpl. lia.
    + intros d ps Q. destruct (I5 d ps Q) as (A & B & q & C1 & C2). split; auto. split; [lia|]. exists q. split; auto. apply incl_appl; auto.
    + destruct I8 as (A & B & C). split; [discriminate|]. simpl. auto.
  - destruct (valid s) eqn:Vs; [eauto|]. destruct (cand s) eqn:Cs; [eauto|]. apply trySend_inv; [|auto].
    split; [|split; [|split; [|split; [|split; [|split; [|split]]]]]]; simpl; auto.
    + intros c0 Q. inversion Q; subst; auto.
    + destruct I8 as (A & B & C). split; [discriminate|]. simpl. split; auto. intros d c0 Q. apply B in Q. congruence.
  - destruct O as [O1 O2]. rewrite O2. destruct (busy s) as [j|] eqn:Bs.
    { destruct I8 as (_ & _ & C). destruct (C j Bs) as (q & v0 & E). congruence. }
    destruct (Nat.eqb_spec s0 0); [contradiction|]. assert (Vs : valid s = None) by (destruct (valid s) eqn:Vs; auto; exfalso; apply I7; [discriminate|auto]).
    apply trySend_inv; auto. split; [|split; [|split; [|split; [|split; [|split; [|split]]]]]]; simpl; auto; try discriminate.
    split; [simpl; rewrite Vs; discriminate|split; discriminate].
  - eexists. split; [reflexivity|]. split; [constructor|]. split; [constructor|]. split; [simpl; auto|]. split; [discriminate|]. split; [discriminate|]. split; [discriminate|]. split; [simpl; congruence|apply init_safe].
  - destruct (busy s) as [j|] eqn:Bs; [|eauto]. assert (Vs : valid s = None) by (eapply I6; reflexivity). rewrite Vs. destruct j as [d ps|d c].
    + destruct (I5 d ps eq_refl) as (L & U & q & Q1 & Q2 & Q3 & Q4).
      assert (F : Forall okShare ps).
      { apply Forall_forall. intros p Hp. apply (in_map Some) in Hp. rewrite Q4 in Hp. apply in_map_iff in Hp. destruct Hp as (x & E & Hx).
        rewrite Forall_forall in I2. destruct (I2 x (Q1 x Hx)) as [_ W]. auto. }
      destruct (runCombine_ok d ps F) as (r & R1 & R2). rewrite R1. destruct r as [c|ids].
      * eexists. split; [reflexivity|]. assert (SI : SafeInv (mkC (reps s) (unknown s) (Some c) None (exp s) None)).
        { eapply cstep_safe with (s := s) (o := JobDone); [exact I8|]. simpl. rewrite Bs, Vs, R1. auto. }
        split; [auto|]. split; [auto|]. split; [auto|]. split; [discriminate|]. split; [discriminate|]. split; [discriminate|]. split; [|auto].
        intros _. simpl. destruct I8 as (_ & _ & C). destruct (C _ Bs) as (q0 & v & E). congruence.
      * destruct R2 as (N1 & N2 & N3 & _). destruct (markAll_spec ids (reps s) I1) as (M1 & M2 & M3 & M4 & M5 & M6).
        apply trySend_inv; [|auto]. split; [|split; [|split; [|split; [|split; [|split; [|split]]]]]]; simpl; auto; try discriminate; try congruence.
        -- lia.
        -- split; [discriminate|split; discriminate].
    + destruct I8 as (A & B & C). pose proof (B _ _ Bs) as Cs. rewrite Cs. pose proof (I4 _ Cs) as W.
      assert (V : exists b, verify k d c = Some b) by (unfold verify; rewrite W; simpl; destruct (length (cs c) <? vk_thr k); eauto). destruct V as (b & V). rewrite V. destruct b.
      * eexists. split; [reflexivity|]. assert (SI : SafeInv (mkC (reps s) (unknown s) (Some c) None (exp s) None)).
        { eapply cstep_safe with (s := s) (o := JobDone); [split; auto|]. simpl. rewrite Bs, Vs, Cs, V. auto. }
        split; [auto|]. split; [auto|]. split; [auto|]. split; [discriminate|]. split; [discriminate|]. split; [discriminate|]. split; [|auto].
        intros _. simpl. destruct (C _ Bs) as (q0 & v & E). congruence.
      * apply trySend_inv; [|auto]. split; [|split; [|split; [|split; [|split; [|split; [|split]]]]]]; simpl; auto; try discriminate; try congruence.
        split; [discriminate|split; discriminate].
  - destruct O as [O1 O2]. rewrite O2. destruct (busy s) as [j|] eqn:Bs.
    { destruct I8 as (_ & _ & C). destruct (C j Bs) as (q & v0 & E). congruence. }
    destruct (Nat.eqb_spec s0 0); [contradiction|]. assert (Vs : valid s = None) by (destruct (valid s) eqn:Vs; auto; exfalso; apply I7; [discriminate|auto]).
    eexists. split; [reflexivity|]. split; [|split; [|split; [|split; [|split; [|split; [|split]]]]]]; simpl; auto; try discriminate.
    split; [simpl; rewrite Vs; discriminate|split; discriminate].
  - destruct O as (O1 & O2 & O3 & O4 & O5 & O6 & O7 & O8). rewrite O2, O4, O5, O6, O7. destruct (exp s) as [e|] eqn:Es; [|congruence].
    destruct (Nat.ltb_spec 1 (vk_thr k)); [|lia]. simpl. eexists. split; [reflexivity|].
    assert (NR : forall x, In x (reps s) -> ri_rep x <> r).
    { intros x Hx E. assert (Q : hasRep s r = true); [|congruence]. apply existsb_exists. exists x. split; auto. apply Nat.eqb_eq; auto. }
    split; [|split; [|split; [|split; [|split; [|split; [|split]]]]]]; simpl; auto; try discriminate.
    + rewrite map_app. apply nodup_app; auto; [repeat constructor; auto|]. intros x H1 [H2|[]]. simpl in H2. subst. apply in_map_iff in H1. destruct H1 as (y & Ey & Hy). eapply NR; eauto.
    + apply Forall_app. split; auto. repeat constructor; simpl; [discriminate|]. intros p0 Q. inversion Q; subst. auto.
    + rewrite goods_app. simpl. rewrite app_length. simpl. lia.
    + split; [discriminate|split; discriminate].
  - destruct O as (O1 & O2 & O3 & q & v & d & O4 & O5). rewrite O1, O2, O3, O4, O5. eexists. split; [reflexivity|].
    split; [|split; [|split; [|split; [|split; [|split; [|split]]]]]]; simpl; auto; try discriminate; try congruence.
    split; [|split; discriminate]. simpl. intros c0 Q. inversion Q; subst. eauto 6.
Qed.
Lemma inv_init : Inv cinit.
Proof. split; [constructor|]. split; [constructor|]. split; [simpl; auto|]. split; [discriminate|]. split; [discriminate|]. split; [discriminate|]. split; [simpl; congruence|apply init_safe]. Qed.
Fixpoint okRun (s : cst) (l : list cop) : Prop :=
  match l with [] => True | o :: l => okOp s o /\ match cstep k ord s o with Some s' => okRun s' l | None => True end end.
Lemma run_inv l : forall s, 1 <= vk_thr k -> Inv s -> okRun s l -> exists s', crun k ord s l = Some s' /\ Inv s'.
Proof.
  induction l as [|o l IH]; intros s T I O; simpl in *; [eauto|]. destruct O as [O1 O2]. destruct (cstep_inv s o T I O1) as (s1 & E & I1). rewrite E in *. apply IH; auto.
Qed.

(** ** Progress when every share carries the id of its sender. *)
Definition ownOp (o : cop) : Prop :=
  match o with AddPart r p => ownId r p /\ r < vk_n k | AddFull c => cs_whole c = true | SetExp q v d => q <> 0 | Reset | JobDone => True | _ => False end.
Definition PInv (s : cst) : Prop :=
  (forall x, In x (reps s) -> exists b, ri_msg x = Some (Some (ri_rep x + 1, b)) /\
     (ri_bad x = true -> exists q v d, exp s = Some (q, v, d) /\ vk_ok k (ri_rep x + 1) d b = false)) /\
  unknown s = length (goods (reps s)) /\
  (busy s = None -> valid s = None -> exp s <> None -> unknown s < vk_thr k /\ cand s = None).

Lemma markBad_exact l x r : NoDup (map ri_rep l) -> In x l -> ri_rep x = r -> ri_bad x = false -> S (length (goods (markBad l r))) = length (goods l).
Proof.
  intros ND Hx Er B. unfold markBad.
  assert (E : existsb (fun x => ri_rep x =? r) l = true) by (apply existsb_exists; exists x; split; auto; apply Nat.eqb_eq; auto). rewrite E. clear E.
  induction l as [|y l IH]; [destruct Hx|]. simpl in ND. inversion ND; subst. unfold goods in *. simpl.
  destruct (Nat.eqb_spec (ri_rep y) (ri_rep x)) as [Ey|Ey].
  - assert (y = x). { destruct Hx as [Hx|Hx]; auto. exfalso. apply H1. rewrite Ey. apply in_map. auto. } subst y. simpl. rewrite B. simpl. f_equal.
    assert (Z : forall z, In z l -> ri_rep z <> ri_rep x) by (intros z Hz Ez; apply H1; rewrite <- Ez; apply in_map; auto). revert Z. clear.
    induction l as [|z l IH]; simpl; auto. intros Z. destruct (Nat.eqb_spec (ri_rep z) (ri_rep x)); [exfalso; eapply Z; eauto|]. destruct (ri_bad z); simpl; auto.
  - destruct Hx as [Hx|Hx]; [congruence|]. specialize (IH H2 Hx). destruct (ri_bad y); simpl; lia.
Qed.
Lemma markAll_exact ids : forall l, NoDup (map ri_rep l) -> NoDup ids -> (forall r, In r ids -> exists x, In x l /\ ri_rep x = r /\ ri_bad x = false) ->
  length ids + length (goods (markAll l ids)) = length (goods l) /\ map ri_rep (markAll l ids) = map ri_rep l /\
  (forall y, In y (markAll l ids) -> exists x, In x l /\ ri_rep y = ri_rep x /\ ri_msg y = ri_msg x /\ (ri_bad y = ri_bad x \/ (In (ri_rep x) ids /\ ri_bad y = true))).
Proof.
  induction ids as [|r ids IH]; intros l ND NI H.
  - simpl. split; auto. split; auto. intros y Hy. exists y. auto.
  - inversion NI; subst. destruct (H r (or_introl eq_refl)) as (x & Hx & Ex & Bx). pose proof (markBad_exact l x r ND Hx Ex Bx) as L.
    destruct (markBad_spec l r ND) as (B1 & B2 & B3 & B4 & B5 & B6 & B7 & B8).
    destruct (IH (markBad l r) B1 H3) as (A1 & A2 & A3).
    { intros r' Hr'. destruct (H r' (or_intror Hr')) as (z & Hz & Ez & Bz). exists z. split; auto. apply B5; auto. intros E. apply H2. congruence. }
    cbn [length]. unfold markAll in *. cbn [fold_left].
    assert (E : existsb (fun x => ri_rep x =? r) l = true) by (apply existsb_exists; exists x; split; auto; apply Nat.eqb_eq; auto).
    assert (M : map ri_rep (markBad l r) = map ri_rep l).
    { unfold markBad. rewrite E. clear. induction l as [|z l IH]; simpl; auto. rewrite IH. destruct (Nat.eqb_spec (ri_rep z) r); simpl; congruence. }
    split; [lia|]. split; [congruence|]. intros y Hy. destruct (A3 y Hy) as (z & Hz & Z1 & Z2 & Z3). unfold markBad in Hz. rewrite E in Hz.
    apply in_map_iff in Hz. destruct Hz as (w & Ew & Hw). exists w. split; auto. destruct (Nat.eqb_spec (ri_rep w) r) as [Er|Er].
    + subst z. simpl in *. split; [congruence|]. split; auto. right. split; [simpl; auto|]. destruct Z3 as [Z3|(_ & Z3)]; auto.
    + subst z. split; auto. split; auto. destruct Z3 as [Z3|(Z3 & Z4)]; [left; auto|right; simpl; auto].
Qed.
Lemma trySend_p s s' : PInv (mkC (reps s) (unknown s) (valid s) (cand s) (exp s) (Some (JCombine 0 []))) -> trySend k ord s = Some s' -> PInv s'.
Proof.
  intros (A & B & _) H. pose proof (trySend_keeps _ _ H) as (K1 & K2 & K3 & K4 & K5). simpl in A, B. split; [rewrite K3, K5; auto|]. split; [rewrite K3, K4; auto|].
  intros Q1 Q2 Q3. unfold trySend in H. destruct (valid s) eqn:Vs; [discriminate|]. destruct (busy s) eqn:Bs; [inversion H; subst; congruence|].
  destruct (exp s) as [[[q v] d]|] eqn:Es; [|inversion H; subst; congruence]. destruct (cand s) eqn:Cs; [inversion H; subst; discriminate|].
  destruct (Nat.leb_spec (vk_thr k) (unknown s)); [destruct (pickJob _ _); [inversion H; subst; discriminate|discriminate]|]. rewrite K4, K2. auto.
Qed.
Lemma own_ok r p : ownId r p -> r < vk_n k -> okShare p.
Proof. intros (b & ->) H. exists (r + 1, b). split; auto. simpl. lia. Qed.

Definition exact (s : cst) : Prop := forall c, valid s = Some c -> busy s = None.
(** What a job result does. *)
Lemma bad_facts s d ps ids : Inv s -> PInv s -> busy s = Some (JCombine d ps) -> runCombine k d ps = Some (JBad ids) ->
  NoDup ids /\ ids <> [] /\ (forall r, In r ids -> exists x, In x (reps s) /\ ri_rep x = r /\ ri_bad x = false) /\
  (forall x b, In x (reps s) -> In (ri_rep x) ids -> ri_msg x = Some (Some (ri_rep x + 1, b)) -> vk_ok k (ri_rep x + 1) d b = false).
Proof.
  intros I (P1 & P2 & P3) Bs R. pose proof I as (I1 & I2 & I3 & I4 & I5 & I6 & I7 & I8). destruct (I5 d ps Bs) as (L & U & q & Q1 & Q2 & Q3 & Q4).
  assert (F : Forall okShare ps).
  { apply Forall_forall. intros p Hp. apply (in_map Some) in Hp. rewrite Q4 in Hp. apply in_map_iff in Hp. destruct Hp as (x & E & Hx).
    rewrite Forall_forall in I2. destruct (I2 x (Q1 x Hx)) as [_ W]. auto. }
  destruct (runCombine_ok d ps F) as (r & R1 & R2). rewrite R in R1. inversion R1; subst r. destruct R2 as (N1 & N2 & N3 & N4 & sg & S1 & S2 & S3 & S4).
  assert (MEM : forall p, In p ps -> exists x b, In x q /\ p = Some (ri_rep x + 1, b)).
  { intros p Hp. apply (in_map Some) in Hp. rewrite Q4 in Hp. apply in_map_iff in Hp. destruct Hp as (x & E & Hx).
    destruct (P1 x (Q1 x Hx)) as (b & E2 & _). exists x, b. split; auto. congruence. }
  assert (UNI : forall x y, In x (reps s) -> In y (reps s) -> ri_rep x = ri_rep y -> x = y).
  { clear - I1. revert I1. generalize (reps s) as l. induction l as [|z l IH]; simpl; intros ND x y Hx Hy E; [contradiction|]. inversion ND; subst.
    destruct Hx as [<-|Hx], Hy as [<-|Hy]; auto; exfalso; apply H1; [rewrite E|rewrite <- E]; apply in_map; auto. }
  split; auto. split; [|split].
  - intros ->. assert (V : verify k d (mkCs sg true) = Some true); [|congruence]. unfold verify. simpl.
    assert (LS : vk_thr k <= length sg).
    { assert (W : length (map (fun x => ri_rep x + 1) q) <= length (map fst sg)); [|rewrite !map_length in W].
      - apply NoDup_incl_length.
        + clear - Q2. induction q as [|x q IH]; simpl; [constructor|]. simpl in Q2. inversion Q2; subst. constructor; auto. intros Q. apply in_map_iff in Q. destruct Q as (y & E & Hy).
          apply H1. apply in_map_iff. exists y. split; auto. lia.
        + intros i Hi. apply in_map_iff in Hi. destruct Hi as (x & <- & Hx). destruct (P1 x (Q1 x Hx)) as (b & E2 & _).
          assert (Hp : In (Some (ri_rep x + 1, b)) ps).
          { assert (Z : In (ri_msg x) (map Some ps)) by (rewrite Q4; apply in_map; auto). apply in_map_iff in Z. destruct Z as (p & E & Hp). rewrite E2 in E. inversion E; subst. auto. }
          apply (S3 _ Hp). simpl. lia.
      - apply (f_equal (@length _)) in Q4. rewrite !map_length in Q4. unfold pmsg, share in *. lia. }
    assert (FA : filter (counts k d) sg = sg).
    { assert (forall y, In y sg -> counts k d y = true).
      { intros [i b] Hy. destruct (S2 _ Hy) as [Hp Hr]. destruct (MEM _ Hp) as (x & b' & Hx & E). inversion E; subst. unfold counts. simpl in *.
        destruct (Nat.eqb_spec (ri_rep x + 1) 0); [lia|]. destruct (Nat.ltb_spec (ri_rep x + 1) (S (vk_n k))); [|lia]. simpl.
        destruct (vk_ok k (ri_rep x + 1) d b') eqn:OK; auto. exfalso. destruct (N4 _ _ Hp OK). }
      revert H. clear. induction sg as [|y sg IH]; simpl; intros H; auto. rewrite (H y) by auto. f_equal. auto. }
    rewrite FA. apply Nat.leb_le in LS. unfold share in *. rewrite LS. apply Nat.leb_le in LS. apply Nat.ltb_ge in LS. rewrite LS. auto.
  - intros r Hr. destruct (N3 r Hr) as (b & Hp & _). destruct (MEM _ Hp) as (x & b' & Hx & E). inversion E. exists x. split; [auto|]. split; [lia|auto].
  - intros x b Hx Hi Hm. destruct (N3 _ Hi) as (b' & Hp & OK). destruct (MEM _ Hp) as (y & b2 & Hy & E). inversion E; subst.
    assert (x = y) by (apply UNI; auto; lia). subst y.
    assert (Z : In (Some (ri_rep x + 1, b2)) ps) by auto.
    destruct (P1 x Hx) as (b3 & E3 & _). assert (ZZ : exists p, In p ps /\ Some p = ri_msg x).
    { assert (W : In (ri_msg x) (map Some ps)) by (rewrite Q4; apply in_map; auto). apply in_map_iff in W. destruct W as (p & E4 & Hp4). eauto. }
    (* the share of x in the job is x's message *)
    assert (B2 : b2 = b3).
    { assert (Z' : In (Some (Some (ri_rep x + 1, b2))) (map ri_msg q)) by (rewrite <- Q4; apply (in_map Some) in Z; exact Z). clear Z. rename Z' into Z. apply in_map_iff in Z. destruct Z as (w & Ew & Hw). destruct (P1 w (Q1 w Hw)) as (bw & Ebw & _). rewrite Ebw in Ew. inversion Ew.
      assert (w = x) by (apply UNI; auto; lia). subst w. congruence. }
    congruence.
Qed.
Lemma own_step s o s' : 1 <= vk_thr k -> Inv s -> PInv s -> ownOp o -> (forall q v d, o = SetExp q v d -> exp s = None) -> cstep k ord s o = Some s' -> Inv s' /\ PInv s'.
Proof.
  intros T I P O SE H. pose proof I as (I1 & I2 & I3 & I4 & I5 & I6 & I7 & I8). pose proof P as (P1 & P2 & P3). split.
  { assert (OK : okOp s o) by (destruct o; simpl in *; try tauto; [destruct O; eapply own_ok; eauto|split; auto; eapply SE; eauto]).
    destruct (cstep_inv s o T I OK) as (s1 & E1 & Q). rewrite H in E1. inversion E1; subst. auto. }
  destruct o; simpl in H, O; try contradiction.
  - destruct (valid s) eqn:Vs; [inversion H; subst; auto|]. destruct (hasRep s r) eqn:Hr; [inversion H; subst; auto|]. eapply trySend_p; [|exact H]. simpl. split; [|split; [|discriminate]]; simpl.
    + intros x Hx. apply in_app_iff in Hx. destruct Hx as [Hx|[Hx|[]]]; [auto|]. subst x. simpl. destruct O as [(b & ->) _]. exists b. split; auto. discriminate.
    + rewrite goods_app. simpl. rewrite app_length. simpl. lia.
  - destruct (valid s) eqn:Vs; [inversion H; subst; auto|]. destruct (cand s) eqn:Cs; [inversion H; subst; auto|]. eapply trySend_p; [|exact H]. simpl. split; [auto|split; [auto|discriminate]].
  - destruct (exp s) eqn:Es; [discriminate|]. destruct (busy s); [discriminate|]. destruct (s0 =? 0); [discriminate|]. eapply trySend_p; [|exact H]. simpl. split; [|split; [auto|discriminate]].
    simpl. intros x Hx. destruct (P1 x Hx) as (b & E & Q). exists b. split; auto. intros B. destruct (Q B) as (q & v0 & d0 & E0 & _). discriminate.
  - inversion H; subst. split; [intros ? []|]. split; auto; simpl; congruence.
  - destruct (busy s) as [[d ps|d c]|] eqn:Bs; [| |inversion H; subst; auto].
    + destruct (valid s) eqn:Vs; [discriminate|]. destruct (runCombine k d ps) as [[c|ids]|] eqn:R; [| |discriminate].
      * inversion H; subst. split; [auto|]. split; [auto|]. simpl. discriminate.
      * destruct (bad_facts s d ps ids I P Bs R) as (N1 & N2 & N3 & N4). destruct (markAll_exact ids (reps s) I1 N1 N3) as (M1 & M2 & M3).
        eapply trySend_p; [|exact H]. simpl. split; [|split; [simpl; lia|discriminate]]. simpl. intros y Hy. destruct (M3 y Hy) as (x & Hx & Y1 & Y2 & Y3).
        destruct (P1 x Hx) as (b & E & Q). exists b. rewrite Y1, Y2. split; auto. intros B. destruct Y3 as [Y3|(Y3 & _)]; [rewrite Y3 in B; auto|]. 
        destruct I8 as (_ & _ & C). destruct (C _ Bs) as (q & v & Ee). simpl in Ee. exists q, v, d. split; [exact Ee|eapply N4; eauto].
    + destruct (valid s) eqn:Vs; [discriminate|]. destruct (cand s) eqn:Cs; [|discriminate]. destruct (verify k d c) as [[|]|]; [| |discriminate].
      * inversion H; subst. split; [auto|]. split; [auto|]. simpl. discriminate.
      * eapply trySend_p; [|exact H]. simpl. split; [auto|split; [auto|discriminate]].
Qed.
Definition measure (s : cst) : nat := length (goods (reps s)) + match cand s with Some _ => 1 | None => 0 end.
Lemma job_progress s s' : Inv s -> PInv s -> cstep k ord s JobDone = Some s' -> busy s' = None \/ measure s' < measure s.
Proof.
  intros I P H. pose proof I as (I1 & I2 & I3 & I4 & I5 & I6 & I7 & I8). simpl in H. destruct (busy s) as [[d ps|d c]|] eqn:Bs; [| |inversion H; subst; auto].
  - destruct (valid s) eqn:Vs; [discriminate|]. destruct (runCombine k d ps) as [[c|ids]|] eqn:R; [inversion H; subst; auto| |discriminate].
    destruct (bad_facts s d ps ids I P Bs R) as (N1 & N2 & N3 & N4). destruct (markAll_exact ids (reps s) I1 N1 N3) as (M1 & M2 & M3).
    right. apply trySend_keeps in H. simpl in H. destruct H as (_ & K2 & K3 & _). unfold measure. rewrite K2, K3. destruct ids; [congruence|]. cbn [length] in M1. lia.
  - destruct (valid s) eqn:Vs; [discriminate|]. destruct (cand s) eqn:Cs; [|discriminate]. destruct (verify k d c) as [[|]|]; [inversion H; subst; auto| |discriminate].
    right. apply trySend_keeps in H. simpl in H. destruct H as (_ & K2 & K3 & _). unfold measure. rewrite K2, K3, Cs. lia.
Qed.
Lemma jobs_end n : forall s, 1 <= vk_thr k -> Inv s -> PInv s -> measure s < n -> exists s', crun k ord s (repeat JobDone n) = Some s' /\ busy s' = None.
Proof.
  induction n as [|n IH]; intros s T I P M; [lia|]. cbn [repeat crun]. destruct (cstep_inv s JobDone T I Logic.I) as (s1 & E1 & I1'). rewrite E1.
  destruct (own_step s JobDone s1 T I P Logic.I ltac:(discriminate) E1) as [I1 P1]. destruct (job_progress s s1 I P E1) as [B|M1].
  - exists s1. split; auto. clear - B. induction n; simpl; auto. rewrite B. auto.
  - apply IH; auto. lia.
Qed.
(** Runs in which setExpected is only called when nothing is expected. *)
Fixpoint ownRun (s : cst) (l : list cop) : Prop :=
  match l with
  | [] => True
  | o :: l => ownOp o /\ (match o with SetExp _ _ _ => exp s = None | _ => True end) /\ match cstep k ord s o with Some s' => ownRun s' l | None => True end
  end.
Lemma own_run l : forall s, 1 <= vk_thr k -> Inv s -> PInv s -> ownRun s l -> exists s', crun k ord s l = Some s' /\ Inv s' /\ PInv s'.
Proof.
  induction l as [|o l IH]; intros s T I P O; simpl in *; [eauto|]. destruct O as (O1 & O2 & O3).
  assert (OK : okOp s o) by (destruct o; simpl in *; try tauto; destruct O1; eapply own_ok; eauto).
  destruct (cstep_inv s o T I OK) as (s1 & E & _). rewrite E in *.
  destruct (own_step s o s1 T I P O1) as [A B]; auto. intros q v d ->. auto.
Qed.
Lemma pinv_init : PInv cinit.
Proof. split; [intros ? []|]. split; auto. simpl. congruence. Qed.
End V.
