(** The persisted consensus metadata: the writes of a setter implement its effect. *)
From Coq Require Import List Arith NArith Bool Lia ZifyBool ZifyN.
From Verif Require Import Lib_Bytes Meta_Model Meta_Spec Meta_Proofs Meta_Proofs2.
Import ListNotations.
Local Open Scope N_scope.

Ltac mods := repeat match goal with
  | |- context [?n mod 300] => lazymatch goal with Hx : n mod 300 < 300 |- _ => fail | _ => assert (n mod 300 < 300) by (apply N.mod_upper_bound; discriminate) end
  | |- context [(?n / 150) mod 3] => lazymatch goal with Hx : (n / 150) mod 3 < 3 |- _ => fail | _ => assert ((n / 150) mod 3 < 3) by (apply N.mod_upper_bound; discriminate) end
  | Hy : context [?n mod 300] |- _ => lazymatch goal with Hx : n mod 300 < 300 |- _ => fail | _ => assert (n mod 300 < 300) by (apply N.mod_upper_bound; discriminate) end
  | Hy : context [(?n / 150) mod 3] |- _ => lazymatch goal with Hx : (n / 150) mod 3 < 3 |- _ => fail | _ => assert ((n / 150) mod 3 < 3) by (apply N.mod_upper_bound; discriminate) end
  end.
Ltac fields := cbn [m_lastExec m_primUsed m_lower m_lastView m_lastStable m_seq m_check m_exit m_new m_exec m_stable m_user m_rsi m_erase m_epoch m_dbck] in *.
Lemma wr_keep (P : N -> Prop) s w k : (forall k v, In (k, v) w -> P k) -> ~ P k -> wr s w k = s k.
Proof. intros Hk Hn. apply wr_out. intros v X. exact (Hn (Hk _ _ X)). Qed.
Lemma one_key (k0 : N) (v0 : bytes) : forall (k : N) (v : bytes), In (k, v) [(k0, v0)] -> k = k0.
Proof. intros k v [E|[]]. injection E as -> _. reflexivity. Qed.
Lemma wr_one s k v : wr s [(k, v)] k = Some v.
Proof. rewrite wr1, N.eqb_refl. reflexivity. Qed.

Lemma nth_len {A} (l : list A) i a : nth_error l i = Some a -> (i < length l)%nat.
Proof. intros E. apply nth_error_Some. congruence. Qed.
Ltac dq E := match goal with |- context [?a =? ?b] => destruct (a =? b) eqn:E end.
Ltac lens := try match goal with
  | H : nth_error (ex_elements ?x) ?i = Some _, F : fitsExit _ ?x /\ _ |- _ => pose proof (nth_len _ _ _ H); pose proof (proj1 (proj2 (proj2 F)))
  | H : nth_error (ex_complaints ?x) ?i = Some _, F : fitsExit _ ?x /\ _ |- _ => pose proof (nth_len _ _ _ H); pose proof (proj2 (proj2 (proj2 F)))
  end.
Ltac drop := repeat match goal with Hx : forall _, _ |- _ => clear Hx | Hx : _ = Some _ |- _ => clear Hx | Hx : _ = Some _ /\ _ |- _ => clear Hx
  | Hx : _ = _ /\ (forall _, _) |- _ => clear Hx | Hx : fitsExit _ _ /\ _ |- _ => clear Hx | Hx : fitsNew _ _ /\ _ |- _ => clear Hx
  | Hx : _ = Some _ \/ _ |- _ => clear Hx | Hx : _ = (if _ then _ else _) |- _ => clear Hx end.
Ltac try_field Hk := intros; lens; first [ assumption | (repeat (rewrite (wr_keep _ _ _ _ Hk) by (drop; mods; ids; intro; lia)); solve [auto]) | solve [split; [apply wr_one|auto]] | idtac ].
Lemma fe_zero j : fieldEnc seq0 j = [0].
Proof. unfold fieldEnc. repeat destruct (_ =? _); reflexivity. Qed.
Local Opaque wr encMsg le.
Section Upd.
Variable c : cfg.
Hypothesis Hg : goodCfg c.

Lemma R_num s M x k0 n : (x = SLastExec n /\ k0 = idLastExec) \/ (x = SPrimUsed n /\ k0 = idPrimUsed) \/ (x = SLower n /\ k0 = idLower)
  \/ (x = SLastView n /\ k0 = idLastView) -> u64 n -> R c s M -> R c (wr s [(k0, le 8 n)]) (upd M x).
Proof.
  intros Hx Hn HR. destruct M. pose proof (one_key k0 (le 8 n)) as Hk. destruct HR.
  assert (Hk2 : 3 <= k0 <= 6) by (destruct Hx as [(_ & ->)|[(_ & ->)|[(_ & ->)|(_ & ->)]]]; ids; lia).
  destruct Hx as [(-> & E)|[(-> & E)|[(-> & E)|(-> & E)]]]; subst k0; cbn [upd]; constructor; fields; try_field Hk;
    (split; [apply wr_one|assumption]).
Qed.
Lemma R_exec s M x : fitsExec x -> xc_nbits x <= 4096 -> R c s M -> R c (wr s [(idExecDesc, encExec x)]) (upd M (SExec x)).
Proof.
  intros Hf Hn HR. destruct M. pose proof (one_key idExecDesc (encExec x)) as Hk. destruct HR.
  cbn [upd]; constructor; fields; try_field Hk.
Qed.
Lemma R_stable s M ms : lenN ms < 65536 -> Forall (fitsMsg c) ms -> lenN (encStable ms) <= stableMax c ->
  R c s M -> R c (wr s [(idStable, encStable ms)]) (upd M (SStable ms)).
Proof.
  intros H1 H2 H3 HR. destruct M. pose proof (one_key idStable (encStable ms)) as Hk. destruct HR.
  cbn [upd]; constructor; fields; try_field Hk. split; [apply wr_one|]. repeat split; auto. lia.
Qed.
Lemma R_user s M b : 1 <= lenN b <= 256 -> R c s M -> R c (wr s [(idUser, b)]) (upd M (SUser b)).
Proof.
  intros H1 HR. destruct M. pose proof (one_key idUser b) as Hk. destruct HR.
  cbn [upd]; constructor; fields; try_field Hk. split; [apply wr_one|]. intros b0 E. injection E as <-. exact H1.
Qed.
Lemma R_rsi s M i b : 1 <= lenN b <= rsiMax -> R c s M -> R c (wr s [(idRsi + vcNum c + i, b)]) (upd M (SRsi i b)).
Proof.
  intros H1 HR. destruct M. pose proof (one_key (idRsi + vcNum c + i) b) as Hk. destruct HR. pose proof Hg as (_ & Hv & _).
  cbn [upd]; constructor; fields; try_field Hk.
  unfold at_. rewrite wr1. destruct (i0 =? i) eqn:E.
  - apply N.eqb_eq in E. subst. rewrite N.eqb_refl. split; [reflexivity|]. intros b0 E. injection E as <-. exact H1.
  - dq E2; [lia|]. apply r_rsi.
Qed.
Lemma field_fit n f M : fitsSeq c (m_seq M n) -> fitsField c f -> fitsSeq c (setField (m_seq M n) f).
Proof. intros (H1 & H2 & H3 & H4) Hf. destruct f; repeat split; cbn; try apply Hf; try apply H1; try apply H2; try apply H3; try apply H4. Qed.
Lemma fieldEnc_set e f j : 1 <= j <= 6 -> fieldEnc (setField e f) j = if j =? fieldId f then fieldBytes f else fieldEnc e j.
Proof.
  intros Hj. assert (Hc : j = 1 \/ j = 2 \/ j = 3 \/ j = 4 \/ j = 5 \/ j = 6) by lia.
  destruct Hc as [->|[->|[->|[->|[->| ->]]]]]; destruct f; reflexivity.
Qed.
Lemma R_seqf s M n f : m_lastStable M < n <= m_lastStable M + 300 -> fitsField c f -> R c s M ->
  R c (wr s [(idSeqWin + fieldId f + (n mod 300) * 6, fieldBytes f)]) (upd M (SSeq n f)).
Proof.
  intros Hn Hf HR. pose proof (field_fit n f M (r_seqfit _ _ _ HR n) Hf) as Hfit.
  destruct M. pose proof (one_key (idSeqWin + fieldId f + (n mod 300) * 6) (fieldBytes f)) as Hk. destruct HR.
  assert (Hid : 1 <= fieldId f <= 6) by (destruct f; cbn; lia).
  cbn [upd]; constructor; fields; try_field Hk.
  - unfold at_. destruct (n0 =? n) eqn:E.
    + apply N.eqb_eq in E. subst n0. rewrite fieldEnc_set by assumption. rewrite wr1. destruct (j =? fieldId f) eqn:E.
      * apply N.eqb_eq in E. rewrite E, N.eqb_refl. reflexivity.
      * dq E2; [lia|]. apply r_seq; assumption.
    + rewrite wr1. dq E2; [|apply r_seq; assumption]. exfalso. mods.
      assert (Em : n mod 300 = n0 mod 300) by lia.
      destruct (N.lt_ge_cases n n0) as [X|X]; [pose proof (modeq 300 n n0 ltac:(lia) Em X); lia|].
      assert (X2 : n0 < n) by lia. pose proof (modeq 300 n0 n ltac:(lia) (eq_sym Em) X2). lia.
  - unfold at_. destruct (n0 =? n) eqn:E; [lia|auto].
  - unfold at_. destruct (n0 =? n) eqn:E; [exact Hfit|auto].
Qed.
Lemma slot_inj a n n0 : n mod 150 = 0 -> n0 mod 150 = 0 -> a <= n < a + 450 -> a <= n0 < a + 450 -> (n / 150) mod 3 = (n0 / 150) mod 3 -> n = n0.
Proof.
  intros Hn Hn0 Hb Hb0 E. pose proof (N.div_mod n 150 ltac:(lia)) as D. pose proof (N.div_mod n0 150 ltac:(lia)) as D0. rewrite Hn in D. rewrite Hn0 in D0.
  destruct (N.lt_trichotomy (n / 150) (n0 / 150)) as [X|[X|X]]; [|lia|].
  - pose proof (modeq 3 _ _ ltac:(lia) E X). lia.
  - pose proof (modeq 3 _ _ ltac:(lia) (eq_sym E) X). lia.
Qed.
Lemma R_mark s M n : n mod 150 = 0 -> m_lastStable M <= n < m_lastStable M + 450 -> R c s M ->
  R c (wr s [(idCheckWin + 2 + ((n / 150) mod 3) * 2, encBool true)]) (upd M (SMark n)).
Proof.
  intros Hm Hn HR. destruct M. pose proof (one_key (idCheckWin + 2 + ((n / 150) mod 3) * 2) (encBool true)) as Hk. destruct HR.
  cbn [upd]; constructor; fields; try_field Hk.
  - unfold at_. destruct (n0 =? n) eqn:E.
    + apply N.eqb_eq in E. subst n0. rewrite wr_one. rewrite (wr_keep _ _ _ _ Hk) by (mods; ids; intro; lia). split; [apply r_check; assumption|reflexivity].
    + rewrite !wr1. dq E1; [ids; lia|]. destruct (idCheckWin + 2 + _ =? _) eqn:E2; [|apply r_check; assumption].
      exfalso. mods. assert (n = n0); [|lia]. eapply slot_inj; try eassumption. ids. lia.
  - unfold at_. destruct (n0 =? n) eqn:E; [|auto]. apply N.eqb_eq in E. subst. tauto.
  - unfold at_. destruct (n0 =? n) eqn:E; [apply r_checkfit|apply r_checkfit].
Qed.
Lemma R_ckpt s M n m : n mod 150 = 0 -> m_lastStable M <= n < m_lastStable M + 450 -> fitsMsg c m -> R c s M ->
  R c (wr s [(idCheckWin + 1 + ((n / 150) mod 3) * 2, encMsg m)]) (upd M (SCkpt n m)).
Proof.
  intros Hm Hn Hf HR. destruct M. pose proof (one_key (idCheckWin + 1 + ((n / 150) mod 3) * 2) (encMsg m)) as Hk. destruct HR.
  cbn [upd]; constructor; fields; try_field Hk.
  - unfold at_. destruct (n0 =? n) eqn:E.
    + apply N.eqb_eq in E. subst n0. rewrite wr_one. rewrite (wr_keep _ _ _ _ Hk) by (mods; ids; intro; lia). split; [reflexivity|apply r_check; assumption].
    + rewrite !wr1. destruct (idCheckWin + 2 + _ =? _) eqn:E1; [ids; lia|]. dq E2; [|apply r_check; assumption].
      exfalso. mods. assert (n = n0); [|lia]. eapply slot_inj; try eassumption. ids. lia.
  - unfold at_. destruct (n0 =? n) eqn:E; [|auto]. apply N.eqb_eq in E. subst. tauto.
  - unfold at_. destruct (n0 =? n) eqn:E; [exact Hf|apply r_checkfit].
Qed.

(** exit and new-view descriptors *)
Lemma exit_in x k v : In (k, v) (exitWrites c x) <->
  (k = idExit /\ v = encExitSimple c x)
  \/ (exists i e, nth_error (ex_elements x) i = Some e /\ k = idExit + 1 + N.of_nat i /\ v = encExitElem e)
  \/ (exists i m, nth_error (ex_complaints x) i = Some m /\ k = idCompl + N.of_nat i /\ v = encMsg m).
Proof.
  unfold exitWrites. cbn [In]. rewrite in_app_iff, !in_map_iff. split.
  - intros [E|[((i & e) & E & X)|((i & m) & E & X)]].
    + left. apply pair_equal_spec in E. destruct E as (<- & <-). auto.
    + right. left. apply enum_in in X. destruct X as (j & -> & X). exists j, e. cbn [fst snd] in E.
      apply pair_equal_spec in E. destruct E as (<- & <-). auto.
    + right. right. apply enum_in in X. destruct X as (j & -> & X). exists j, m. cbn [fst snd] in E.
      apply pair_equal_spec in E. destruct E as (<- & <-). auto.
  - intros [(-> & ->)|[(i & e & X & -> & ->)|(i & m & X & -> & ->)]].
    + left. reflexivity.
    + right. left. exists (N.of_nat i, e). split; [reflexivity|]. apply enum_in. eauto.
    + right. right. exists (N.of_nat i, m). split; [reflexivity|]. apply enum_in. eauto.
Qed.
Lemma R_exit s M x : fitsExit c x -> exitOverflow c x = true -> (length (ex_elements x) <= 300)%nat -> (length (ex_complaints x) <= 300)%nat ->
  R c s M -> R c (wr s (exitWrites c x)) (upd M (SExit x)).
Proof.
  intros Hf Ho H1 H2 HR. destruct M.
  assert (Hk : forall k v, In (k, v) (exitWrites c x) -> idExit <= k < idCompl + 300).
  { intros k v X. apply exit_in in X. destruct X as [(-> & _)|[(i & e & X & -> & _)|(i & m & X & -> & _)]]; [|apply nth_len in X..]; ids; lia. }
  destruct HR. cbn [upd]; constructor; fields; try_field Hk.
  - apply wr_in; [apply exit_in; left; auto|]. intros v X. apply exit_in in X.
    destruct X as [(_ & ->)|[(i & e & X & E & _)|(i & m & X & E & _)]]; [reflexivity|apply nth_len in X..]; ids; lia.
  - apply wr_in; [apply exit_in; right; left; eauto|]. intros v X. apply exit_in in X. pose proof (nth_len _ _ _ H) as Hi.
    destruct X as [(E & _)|[(i1 & e1 & X & E & ->)|(i1 & m & X & E & _)]]; [ids; lia|assert (i1 = i) by lia; congruence|apply nth_len in X; ids; lia].
  - apply wr_in; [apply exit_in; right; right; eauto|]. intros v X. apply exit_in in X. pose proof (nth_len _ _ _ H) as Hi.
    destruct X as [(E & _)|[(i1 & e1 & X & E & ->)|(i1 & m1 & X & E & ->)]]; [ids; lia|apply nth_len in X; ids; lia|assert (i1 = i) by lia; congruence].
Qed.
Lemma new_in x k v : In (k, v) (newWrites c x) <->
  (k = idNew /\ v = encNewSimple x) \/ (exists i, (i < N.to_nat (vcNum c))%nat /\ k = idNew + 1 + N.of_nat i /\ v = encMsg (nth i (nw_vcs x) None)).
Proof.
  unfold newWrites. cbn [In]. rewrite in_map_iff. split.
  - intros [E|(i & E & X)]; apply pair_equal_spec in E; destruct E as (<- & <-); [left; auto|].
    right. apply in_seq in X. exists i. split; [lia|auto].
  - intros [(-> & ->)|(i & X & -> & ->)]; [left; reflexivity|]. right. exists i. split; [reflexivity|]. apply in_seq. lia.
Qed.
Lemma R_new s M x : fitsNew c x -> newOverflow c x = true -> length (nw_vcs x) = N.to_nat (vcNum c) ->
  R c s M -> R c (wr s (newWrites c x)) (upd M (SNew x)).
Proof.
  intros Hf Ho H1 HR. destruct M.
  assert (Hk : forall k v, In (k, v) (newWrites c x) -> idNew <= k < idRsi + vcNum c).
  { intros k v X. apply new_in in X. destruct X as [(-> & _)|(i & X & -> & _)]; ids; lia. }
  destruct HR. cbn [upd]; constructor; fields; try_field Hk.
  - apply wr_in; [apply new_in; left; auto|]. intros v X. apply new_in in X. destruct X as [(_ & ->)|(i & X & E & _)]; [reflexivity|ids; lia].
  - apply wr_in; [apply new_in; right; eauto|]. intros v X. apply new_in in X. destruct X as [(E & _)|(i1 & X & E & ->)]; [ids; lia|].
    assert (i1 = i) by lia. subst. reflexivity.
Qed.

(** cleaning the windows *)
Lemma clearSeq_in b k v : In (k, v) (clearSeqWrites b) <->
  (k = idSeqWin /\ v = le 8 b) \/ (exists i j, i < 300 /\ 1 <= j <= 6 /\ k = idSeqWin + j + i * 6 /\ v = [0]).
Proof.
  unfold clearSeqWrites. cbn [In]. rewrite in_concat_map. split.
  - intros [E|(a & Ha & X)]; [apply pair_equal_spec in E; destruct E as (<- & <-); left; auto|]. right.
    apply in_seq in Ha. apply clean0_seq in X. destruct X as (-> & j & Hj & ->). exists (N.of_nat a), j. repeat split; lia.
  - intros [(-> & ->)|(i & j & Hi & Hj & -> & ->)]; [left; reflexivity|]. right. exists (N.to_nat i). split; [apply in_seq; lia|].
    rewrite N2Nat.id. apply clean0_seq_in. exact Hj.
Qed.
Lemma seqfit0 : fitsSeq c seq0.
Proof. repeat split. Qed.
Lemma R_clear s M : R c s M -> R c (wr s (clearSeqWrites (m_lastStable M + 1))) (upd M SClearSeq).
Proof.
  intros HR. destruct M.
  assert (Hk : forall b k v, In (k, v) (clearSeqWrites b) -> idSeqWin <= k < idCheckWin).
  { intros b k v X. apply clearSeq_in in X. destruct X as [(-> & _)|(i & j & Hi & Hj & -> & _)]; ids; lia. }
  destruct HR. fields. specialize (Hk (m_lastStable + 1)). cbn [upd]; constructor; fields; try_field Hk.
  - rewrite fe_zero. mods. apply wr_in; [apply clearSeq_in; right; exists (n mod 300), j; auto|].
    intros v X. apply clearSeq_in in X. destruct X as [(E & _)|(i1 & j1 & Hi & Hj & E & ->)]; [ids; lia|reflexivity].
  - apply seqfit0.
Qed.
Lemma stable_in L n k v : L mod 150 = 0 -> n mod 150 = 0 -> L <= n -> In (k, v) (ws c L (SLastStable n)) <->
  (k = idLastStable /\ v = le 8 n) \/ (k = idCheckWin /\ v = le 8 n) \/ (k = idSeqWin /\ v = le 8 (n + 1))
  \/ (exists a, L / 150 <= a < n / 150 /\ v = [0] /\ (k = idCheckWin + 1 + (a mod 3) * 2 \/ k = idCheckWin + 2 + (a mod 3) * 2))
  \/ (exists a j, L < a <= n /\ 1 <= j <= 6 /\ v = [0] /\ k = idSeqWin + j + (a mod 300) * 6).
Proof.
  intros HL Hn Hle. cbn [ws]. unfold cleanC, cleanS.
  destruct (advance_ok 3 150 L n Hn Hle) as (lc & A1). destruct (advance_ok 300 1 (L + 1) (n + 1) (N.mod_1_r _) ltac:(lia)) as (ls & A2).
  change (3 * 150) with 450 in A1. change (300 * 1) with 300 in A2. rewrite A1, A2.
  change 450 with (3 * 150) in A1. change 300 with (300 * 1) in A2.
  apply advance_spec in A1; [|lia..|exact HL]. apply advance_spec in A2; [|lia..|apply N.mod_1_r].
  destruct A1 as (_ & _ & _ & C1). destruct A2 as (_ & _ & _ & C2). rewrite !N.div_1_r in C2.
  cbn [In]. rewrite in_app_iff, !in_concat_map. split.
  - intros [E|[E|[E|[(i & Hi & X)|(i & Hi & X)]]]];
      [apply pair_equal_spec in E; destruct E as (<- & <-); auto..| |].
    + do 3 right. left. apply C1 in Hi. destruct Hi as (a & Ha & ->). exists a. apply clean0_check in X. destruct X as (-> & X). auto.
    + do 4 right. apply C2 in Hi. destruct Hi as (a & Ha & ->). apply clean0_seq in X. destruct X as (-> & j & Hj & ->).
      exists a, j. repeat split; lia.
  - intros [(-> & ->)|[(-> & ->)|[(-> & ->)|[(a & Ha & -> & X)|(a & j & Ha & Hj & -> & ->)]]]]; [auto..| |].
    + do 3 right. left. exists (a mod 3). split; [apply C1; eauto|].
      unfold checkElemWrites. cbv zeta. cbn [In]. change (encMsg (ck_msg check0)) with [0]. change (firstn 1 [0]) with [0].
      destruct X as [->| ->]; [left|right; left]; f_equal; ids; lia.
    + do 4 right. exists (a mod 300). split; [apply C2; exists a; split; [lia|reflexivity]|]. apply clean0_seq_in. exact Hj.
Qed.
Lemma R_lastStable s M n : n mod 150 = 0 -> m_lastStable M <= n -> u64 (n + 1) -> R c s M ->
  R c (wr s (ws c (m_lastStable M) (SLastStable n))) (upd M (SLastStable n)).
Proof.
  intros Hm Hle Hu HR. pose proof (proj2 (proj2 (r_lastStable _ _ _ HR))) as HL.
  pose proof (fun k v => stable_in (m_lastStable M) n k v HL Hm Hle) as Hin.
  destruct M. fields. set (w := ws c m_lastStable (SLastStable n)) in *. clearbody w.
  assert (Hk : forall k v, In (k, v) w -> k = idLastStable \/ idSeqWin <= k < idWinEnd).
  { intros k v X. apply Hin in X. destruct X as [(-> & _)|[(-> & _)|[(-> & _)|[(a & Ha & _ & X)|(a & j & Ha & Hj & _ & X)]]]]; [ids; lia..| |].
    - assert (a mod 3 < 3) by (apply N.mod_upper_bound; lia). ids; lia.
    - mods. ids; lia. }
  destruct HR. fields. cbn [upd]; constructor; fields; try_field Hk.
  - (* the number *)
    split; [|auto]. apply wr_in; [apply Hin; left; auto|]. intros v X. apply Hin in X.
    destruct X as [(_ & ->)|[(E & _)|[(E & _)|[(a & Ha & _ & X)|(a & j & Ha & Hj & _ & X)]]]]; [reflexivity|ids; lia..].
  - apply wr_in; [apply Hin; right; right; left; auto|]. intros v X. apply Hin in X.
    destruct X as [(E & _)|[(E & _)|[(_ & ->)|[(a & Ha & _ & X)|(a & j & Ha & Hj & _ & X)]]]]; [ids; lia|ids; lia|reflexivity|ids; lia..].
  - apply wr_in; [apply Hin; right; left; auto|]. intros v X. apply Hin in X.
    destruct X as [(E & _)|[(_ & ->)|[(E & _)|[(a & Ha & _ & X)|(a & j & Ha & Hj & _ & X)]]]]; [ids; lia|reflexivity|ids; lia..| |].
    + assert (a mod 3 < 3) by (apply N.mod_upper_bound; lia). ids; lia.
    + mods. ids; lia.
  - (* the elements of the sequence number window *)
    destruct (n0 <=? n) eqn:E0; [lia|].
    destruct (N.lt_ge_cases (m_lastStable + 300) n0) as [Hnew|Hold].
    + assert (Hb : exists a, m_lastStable < a <= n /\ a mod 300 = n0 mod 300).
      { exists (n0 - 300). split; [lia|]. replace n0 with (n0 - 300 + 1 * 300) at 2 by lia. rewrite N.mod_add by lia. reflexivity. }
      destruct Hb as (a & Ha & Ea). rewrite r_seqout by lia. rewrite fe_zero.
      apply wr_in; [apply Hin; do 4 right; exists a, j; rewrite Ea; auto|].
      intros v X. apply Hin in X. mods.
      destruct X as [(E & _)|[(E & _)|[(E & _)|[(a1 & Ha1 & -> & X)|(a1 & j1 & Ha1 & Hj1 & -> & X)]]]]; [ids; lia..| |]; reflexivity.
    + rewrite <- r_seq by (lia || assumption). apply wr_out. intros v X. apply Hin in X. mods.
      destruct X as [(E & _)|[(E & _)|[(E & _)|[(a1 & Ha1 & -> & X)|(a1 & j1 & Ha1 & Hj1 & -> & X)]]]]; [ids; lia..| |].
      * ids; lia.
      * mods. assert (Em : a1 mod 300 = n0 mod 300) by lia. pose proof (modeq 300 a1 n0 ltac:(lia) Em ltac:(lia)). lia.
  - destruct (n0 <=? n) eqn:E0; [reflexivity|]. apply r_seqout. lia.
  - destruct (n0 <=? n) eqn:E0; [apply seqfit0|]. apply r_seqfit.
  - (* the checkpoint window *)
    destruct (n0 <? n) eqn:E0; [lia|].
    assert (G : forall o, 1 <= o <= 2 -> forall v0, (m_lastStable + 450 <= n0 -> v0 = [0]) ->
                (n0 < m_lastStable + 450 -> s (idCheckWin + o + n0 / 150 mod 3 * 2) = Some v0) -> wr s w (idCheckWin + o + n0 / 150 mod 3 * 2) = Some v0).
    { intros o Ho v0 V1 V2.
      pose proof (N.div_mod n0 150 ltac:(lia)) as D0. rewrite H in D0. pose proof (N.div_mod n 150 ltac:(lia)) as Dn. rewrite Hm in Dn.
      pose proof (N.div_mod m_lastStable 150 ltac:(lia)) as DL. rewrite HL in DL.
      destruct (N.lt_ge_cases n0 (m_lastStable + 450)) as [Hold|Hnew].
      - rewrite <- V2 by exact Hold. apply wr_out. intros v X. apply Hin in X. mods.
        destruct X as [(E & _)|[(E & _)|[(E & _)|[(a1 & Ha1 & -> & X)|(a1 & j1 & Ha1 & Hj1 & -> & X)]]]]; [ids; lia..| |].
        + assert (a1 mod 3 < 3) by (apply N.mod_upper_bound; lia). assert (Em : a1 mod 3 = (n0 / 150) mod 3) by (ids; lia).
          pose proof (modeq 3 a1 (n0 / 150) ltac:(lia) Em ltac:(lia)). lia.
        + mods. ids; lia.
      - rewrite V1 by exact Hnew. apply wr_in.
        + apply Hin. do 3 right. left. exists (n0 / 150 - 3). split; [lia|]. split; [reflexivity|].
          assert (Em : (n0 / 150 - 3) mod 3 = (n0 / 150) mod 3).
          { replace (n0 / 150) with (n0 / 150 - 3 + 1 * 3) at 2 by lia. rewrite N.mod_add by lia. reflexivity. }
          rewrite Em. assert (Hc : o = 1 \/ o = 2) by lia. destruct Hc as [->| ->]; auto.
        + intros v X. apply Hin in X. mods.
          destruct X as [(E & _)|[(E & _)|[(E & _)|[(a1 & Ha1 & -> & X)|(a1 & j1 & Ha1 & Hj1 & -> & X)]]]]; [ids; lia..| |]; reflexivity. }
    split; apply G; try lia.
    + intros Hnew. rewrite r_checkout by lia. reflexivity.
    + intros Hold. apply r_check; [assumption|lia].
    + intros Hnew. rewrite r_checkout by lia. reflexivity.
    + intros Hold. apply r_check; [assumption|lia].
  - destruct (n0 <? n) eqn:E0; [reflexivity|]. apply r_checkout. lia.
  - destruct (n0 <? n) eqn:E0; [exact Logic.I|]. apply r_checkfit.
Qed.

Lemma canWrite_len id v : canWrite c id v = true -> id <> idNum -> 1 <= lenN v <= descSize c id.
Proof. intros E Hid. apply canWrite_elim in E. destruct E as (m & E & Hv). apply sizeOf_le in E; [|exact Hid]. subst. exact Hv. Qed.
Lemma R_upd s M x : legal c (m_lastStable M) x -> fits c x -> writable c (ws c (m_lastStable M) x) -> R c s M ->
  R c (wr s (ws c (m_lastStable M) x)) (upd M x).
Proof.
  intros Hl Hf Hw HR. destruct x; cbn [legal fits] in *; try (cbn [ws] in *).
  - apply R_num; auto.
  - apply R_num; auto 6.
  - apply R_num; auto 6.
  - apply R_num; auto 6.
  - destruct Hl as (Hl1 & Hl2). apply R_exit; try assumption; [unfold lenN in *; lia|].
    destruct (le_lt_dec (length (ex_complaints x)) 300) as [D|D]; [exact D|exfalso].
    destruct (nth_error (ex_complaints x) 300) as [m|] eqn:E; [|apply nth_error_None in E; lia].
    pose proof (proj1 (Forall_forall _ _) Hw (idCompl + N.of_nat 300, encMsg m)) as W. cbn [fst snd] in W.
    specialize (W (proj2 (exit_in _ _ _) (or_intror (or_intror (ex_intro _ 300%nat (ex_intro _ m (conj E (conj eq_refl eq_refl)))))))).
    apply canWrite_len in W; [|ids; lia]. assert (Hd : descSize c (idCompl + N.of_nat 300) = 0).
    { change (idCompl + N.of_nat 300) with 5921. unfold descSize, rsiFirst. ids.
      destruct ((5925 + vcNum c <=? 5921) && (5921 <? rsiEnd c)) eqn:E1; [lia|]. cbn [N.eqb N.leb N.ltb N.compare Pos.compare Pos.compare_cont andb N.add Pos.add Pos.succ Pos.eqb].
      reflexivity. }
    lia.
  - destruct Hl as (Hl1 & Hl2). apply R_new; try assumption. unfold lenN in Hl1. lia.
  - apply R_exec; auto.
  - destruct Hf as (Hf1 & Hf2). apply R_stable; auto.
  - apply R_clear. exact HR.
  - destruct Hl as (Hl1 & Hl2). apply R_lastStable; assumption.
  - apply R_seqf; assumption.
  - destruct Hl as (Hl1 & Hl2). apply R_mark; assumption.
  - destruct Hl as (Hl1 & Hl2). apply R_ckpt; assumption.
  - inversion Hw as [|? ? W _]; subst. cbn [fst snd] in W. apply canWrite_len in W; [|ids; lia]. apply R_user; [|exact HR].
    assert (Hd : descSize c idUser = 256) by (clear; dsgo). lia.
  - inversion Hw as [|? ? W _]; subst. cbn [fst snd] in W. assert (Hid : idRsi + vcNum c + i <> idNum) by (clear; ids; lia).
    assert (W2 : 1 <= lenN b <= descSize c (idRsi + vcNum c + i)) by (apply canWrite_len; [exact W|exact Hid]). apply R_rsi; [|exact HR]. clear - W2.
    destruct (ds_rsi c (idRsi + vcNum c + i) ltac:(clear; lia)) as [E|E]; (rewrite E in W2; (exact W2 || lia)).
Qed.
Lemma R_updD s M o d1 d : db d = s -> doDirect c d o = Ok d1 -> R c s M ->
  exists e, d1 = append d [put_ e] false /\ canWrite c (fst e) (snd e) = true /\ R c (wr s [e]) (updD M o).
Proof.
  intros Hd Ho HR. destruct o; cbn [doDirect] in Ho.
  - destruct (256 <? lenN b); [discriminate|]. unfold atomicWrite in Ho. destruct (canWrite c idUser b) eqn:W; [|discriminate]. injection Ho as <-.
    exists (idUser, b). split; [reflexivity|]. split; [exact W|]. apply canWrite_len in W; [|ids; lia].
    assert (Hd' : descSize c idUser = 256) by (clear; dsgo).
    replace (updD M (DUser b)) with (upd M (SUser b)) by (destruct M; reflexivity). apply R_user; [lia|exact HR].
  - unfold atomicWrite in Ho. destruct (canWrite c idErase _) eqn:W; [|discriminate]. injection Ho as <-.
    exists (idErase, encBool true). split; [reflexivity|]. split; [exact W|]. destruct M. pose proof (one_key idErase (encBool true)) as Hk. destruct HR.
    cbn [updD]; constructor; fields; try_field Hk.
  - unfold atomicWrite in Ho. destruct (canWrite c idEpoch _) eqn:W; [|discriminate]. injection Ho as <-.
    exists (idEpoch, encBool b). split; [reflexivity|]. split; [exact W|]. destruct M. pose proof (one_key idEpoch (encBool b)) as Hk. destruct HR.
    cbn [updD]; constructor; fields; try_field Hk.
  - unfold atomicWrite in Ho. destruct (canWrite c idDbCkpt _) eqn:W; [|discriminate]. injection Ho as <-.
    exists (idDbCkpt, b). split; [reflexivity|]. split; [exact W|]. apply canWrite_len in W; [|ids; lia].
    assert (Hd' : descSize c idDbCkpt = ckMax c) by (clear; dsgo). rewrite Hd' in W.
    destruct M. pose proof (one_key idDbCkpt b) as Hk. destruct HR.
    cbn [updD]; constructor; fields; try_field Hk. split; [apply wr_one|]. intros b0 E. injection E as <-. exact W.
Qed.
End Upd.
