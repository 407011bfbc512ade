(** The persisted consensus metadata: start, crash, and the invariant of all executions. *)
From Coq Require Import List Arith NArith Bool Lia ZifyBool ZifyN.
From Verif Require Import Lib_Bytes Meta_Model Meta_Spec Meta_Proofs Meta_Proofs2 Meta_Proofs3.
Import ListNotations.
Local Open Scope N_scope.

Definition e0 (c : cfg) : entry := [put_ (idNum, le 4 (numOfObjects c))].
Definition s0 (c : cfg) : store := replay [e0 c].

Lemma def_in c k v : In (k, v) (defaultWrites c) <->
  (k = idVersion /\ v = encVersion) \/ (3 <= k <= 7 /\ v = le 8 0)
  \/ (k = idSeqWin /\ v = le 8 1) \/ (exists i j, i < 300 /\ 1 <= j <= 6 /\ k = idSeqWin + j + i * 6 /\ v = [0])
  \/ (k = idCheckWin /\ v = le 8 0) \/ (exists i, i < 3 /\ (k = idCheckWin + 1 + i * 2 \/ k = idCheckWin + 2 + i * 2) /\ v = [0])
  \/ (k = idExit /\ v = encExitSimple c exit0)
  \/ (k = idNew /\ v = encNewSimple (new0 c)) \/ (exists i, (i < N.to_nat (vcNum c))%nat /\ k = idNew + 1 + N.of_nat i /\ v = [0])
  \/ (k = idExecDesc /\ v = encExec exec0) \/ (k = idStable /\ v = encStable []).
Proof.
  unfold defaultWrites. cbn [In]. rewrite !in_app_iff, clearSeq_in, exit_in, new_in. cbn [In].
  assert (Hnth : forall i, encMsg (nth i (nw_vcs (new0 c)) None) = [0]).
  { intros i. change (nw_vcs (new0 c)) with (repeat (@None (N * bytes)) (N.to_nat (vcNum c))). rewrite nth_repeat. reflexivity. }
  assert (Hc : In (k, v) (clearCheckWrites 0) <-> (k = idCheckWin /\ v = le 8 0) \/ (exists i, i < 3 /\ (k = idCheckWin + 1 + i * 2 \/ k = idCheckWin + 2 + i * 2) /\ v = [0])).
  { unfold clearCheckWrites. cbn [In]. rewrite in_concat_map. split.
    - intros [E|(a & Ha & X)]; [apply pair_equal_spec in E; destruct E as (<- & <-); left; auto|]. right.
      apply in_seq in Ha. apply clean0_check in X. destruct X as (-> & X). exists (N.of_nat a). split; [lia|auto].
    - intros [(-> & ->)|(i & Hi & X & ->)]; [left; reflexivity|]. right. exists (N.to_nat i). split; [apply in_seq; lia|]. rewrite N2Nat.id.
      unfold checkElemWrites. cbv zeta. cbn [In]. change (encMsg (ck_msg check0)) with [0]. change (firstn 1 [0]) with [0].
      destruct X as [->| ->]; [left|right; left]; f_equal; ids; lia. }
  rewrite Hc. split.
  - intros [E|[E|[E|[E|[E|[E|[X|[X|[X|[X|[E|[E|[]]]]]]]]]]]]];
      try (apply pair_equal_spec in E; destruct E as (<- & <-); ids); try (do 0 right; left; split; reflexivity);
      try (right; left; split; [lia|reflexivity]).
    + tauto.
    + tauto.
    + repeat (destruct X as [X|X]).
      * destruct X as (-> & ->). tauto.
      * destruct X as (i & m & X & _). destruct i; discriminate X.
      * destruct X as (i & m & X & _). destruct i; discriminate X.
    + destruct X as [X|X]; [tauto|]. destruct X as (i & X & E & Ev). rewrite Hnth in Ev. do 8 right. left. eauto.
    + do 9 right. left. split; reflexivity.
    + do 10 right. split; reflexivity.
  - intros X. repeat (destruct X as [X|X]).
    + destruct X as (-> & ->). auto.
    + destruct X as (X & ->). assert (Hk : k = 3 \/ k = 4 \/ k = 5 \/ k = 6 \/ k = 7) by lia. ids.
      destruct Hk as [->|[->|[->|[->| ->]]]]; tauto.
    + tauto.
    + tauto.
    + tauto.
    + tauto.
    + tauto.
    + tauto.
    + destruct X as (i & X & E & Ev). assert (Y : exists i, (i < N.to_nat (vcNum c))%nat /\ k = idNew + 1 + N.of_nat i /\ v = encMsg (nth i (nw_vcs (new0 c)) None)).
      { exists i. rewrite Hnth. auto. } tauto.
    + destruct X as (-> & ->). do 6 right. right. right. right. right. left. reflexivity.
    + destruct X as (-> & ->). do 6 right. right. right. right. right. right. left. reflexivity.
Qed.
Lemma exit0_len c : lenN (encExitSimple c exit0) = exitSimple c.
Proof.
  unfold encExitSimple. rewrite lenN_app, lenN_repeat. change (ex_vc exit0) with (@None (N * bytes)). change (encMsg None) with [0].
  change (ex_default exit0) with true. change (ex_elements exit0) with (@nil (msg * msg * bool)). change (ex_complaints exit0) with (@nil msg).
  rewrite !lenN_app, !lenN_le, !app_length, !le_length. unfold encBool. cbn [length]. unfold lenN at 1 2. cbn [length]. unfold exitSimple. lia.
Qed.
Lemma new0_len c : lenN (encNewSimple (new0 c)) = 27.
Proof. reflexivity. Qed.
Lemma def_writable c : goodCfg c -> writable c (defaultWrites c).
Proof.
  intros Hg. apply Forall_forall. intros (k & v) X. apply def_in in X. cbn [fst snd].
  assert (Hv : vcNum c <= 4000) by apply Hg.
  destruct X as [(-> & ->)|[(X & ->)|[(-> & ->)|[(i & j & Hi & Hj & -> & ->)|[(-> & ->)|[(i & Hi & X & ->)|[(-> & ->)|[(-> & ->)|[(i & Hi & -> & ->)|[(-> & ->)|(-> & ->)]]]]]]]]]].
  - eapply canWrite_intro; [apply sizeOf_some; [exact Hg|ids; lia|ids; lia]|ids; lia|].
    assert (E : descSize c idVersion = 80) by (clear; dsgo). rewrite E. change (lenN encVersion) with 7. lia.
  - eapply canWrite_intro; [apply sizeOf_some; [exact Hg|lia|lia]|lia|]. rewrite ds_num by (ids; lia). rewrite lenN_le. lia.
  - eapply canWrite_intro; [apply sizeOf_some; [exact Hg|ids; lia|ids; lia]|ids; lia|].
    assert (E : descSize c idSeqWin = 8) by (clear; dsgo). rewrite E, lenN_le. lia.
  - eapply canWrite_intro; [apply sizeOf_some; [exact Hg|ids; lia|ids; lia]|ids; lia|]. rewrite ds_seq by (ids; lia). change (lenN [0]) with 1. unfold seqElemMax. lia.
  - eapply canWrite_intro; [apply sizeOf_some; [exact Hg|ids; lia|ids; lia]|ids; lia|].
    assert (E : descSize c idCheckWin = 8) by (clear; dsgo). rewrite E, lenN_le. lia.
  - eapply canWrite_intro; [apply sizeOf_some; [exact Hg|ids; lia|ids; lia]|ids; lia|]. rewrite ds_check by (ids; lia). change (lenN [0]) with 1. unfold checkElemMax. lia.
  - eapply canWrite_intro; [apply sizeOf_some; [exact Hg|ids; lia|ids; lia]|ids; lia|].
    assert (E : descSize c idExit = exitSimple c) by (clear; dsgo). rewrite E, exit0_len. unfold exitSimple. lia.
  - eapply canWrite_intro; [apply sizeOf_some; [exact Hg|ids; lia|ids; lia]|ids; lia|].
    assert (E : descSize c idNew = newSimple c) by (clear; dsgo). rewrite E, new0_len. unfold newSimple. lia.
  - eapply canWrite_intro; [apply sizeOf_some; [exact Hg|ids; lia|ids; lia]|ids; lia|]. rewrite ds_newelem by (ids; lia). change (lenN [0]) with 1. unfold newElem. lia.
  - eapply canWrite_intro; [apply sizeOf_some; [exact Hg|ids; lia|ids; lia]|ids; lia|].
    assert (E : descSize c idExecDesc = execMax) by (clear; dsgo). rewrite E. change (lenN (encExec exec0)) with 20. unfold execMax. lia.
  - eapply canWrite_intro; [apply sizeOf_some; [exact Hg|ids; lia|ids; lia]|ids; lia|].
    assert (E : descSize c idStable = stableMax c) by (clear; dsgo). rewrite E. change (lenN (encStable [])) with 2. unfold stableMax. lia.
Qed.
Lemma s0_at c k : s0 c k = if k =? idNum then Some (le 4 (numOfObjects c)) else None.
Proof. reflexivity. Qed.
Ltac dX X := destruct X as [(X & ?)|[(X & ?)|[(X & ?)|[(? & ? & ? & ? & X & ?)|[(X & ?)|[(? & ? & X & ?)|[(X & ?)|[(X & ?)|[(? & ? & X & ?)|[(X & ?)|(X & ?)]]]]]]]]]].
Ltac dval := apply wr_in; [apply def_in|intros v0 X; apply def_in in X; mods; dX X; subst; try reflexivity; exfalso; ids; lia].
Ltac dnone c := rewrite wr_out by (intros v0 X; apply def_in in X; dX X; ids; lia); rewrite s0_at; ids; match goal with |- context [?a =? 1] => destruct (a =? 1) eqn:? end; try (exfalso; lia).
Local Opaque wr encMsg le defaultWrites.
Lemma R_default c : goodCfg c -> R c (wr (s0 c) (defaultWrites c)) (meta0 c).
Proof.
  intros Hg. assert (Hv : vcNum c <= 4000) by apply Hg. unfold meta0. constructor; fields.
  - dnone c. reflexivity.
  - dval. auto.
  - split; [dval; right; left; split; [ids; lia|reflexivity]|reflexivity].
  - split; [dval; right; left; split; [ids; lia|reflexivity]|reflexivity].
  - split; [dval; right; left; split; [ids; lia|reflexivity]|reflexivity].
  - split; [dval; right; left; split; [ids; lia|reflexivity]|reflexivity].
  - split; [dval; right; left; split; [ids; lia|reflexivity]|split; reflexivity].
  - dval. do 2 right. left. auto.
  - dval. do 4 right. left. auto.
  - intros n Hn j Hj. rewrite fe_zero. dval. mods. do 3 right. left. exists (n mod 300), j. auto.
  - intros. reflexivity.
  - intros. apply seqfit0.
  - intros n Hn Hb. change (encMsg (ck_msg check0)) with [0]. change (encBool (ck_mark check0)) with [0]. split; dval; mods; do 5 right; left; exists ((n / 150) mod 3); auto.
  - intros. reflexivity.
  - intros. exact Logic.I.
  - dval. do 6 right. left. auto.
  - intros i e E. destruct i; discriminate E.
  - intros i e E. destruct i; discriminate E.
  - split; [|split; [|cbn; lia]].
    + unfold fitsExit, exit0, u64. cbn. repeat split; try lia; constructor.
    + unfold exitOverflow, exit0. cbn [ex_elements ex_complaints ex_vc forallb andb]. change (lenN (encMsg None)) with 1. unfold exitSimple. lia.
  - dval. do 7 right. left. auto.
  - intros i Hi. change (nw_vcs (new0 c)) with (repeat (@None (N * bytes)) (N.to_nat (vcNum c))). rewrite nth_repeat. change (encMsg None) with [0].
    dval. do 8 right. left. eauto.
  - assert (Hr : Forall (fitsMsg c) (repeat None (N.to_nat (vcNum c)))) by (apply Forall_forall; intros m X; apply repeat_spec in X; subst; exact Logic.I).
    split; [|split].
    + unfold fitsNew, new0, u64. cbn [nw_view nw_max nw_lower nw_msg nw_vc nw_vcs]. repeat split; try lia. exact Hr.
    + unfold newOverflow. rewrite new0_len. apply andb_true_intro. split; [|unfold newSimple; lia].
      apply forallb_forall. intros m X. apply repeat_spec in X. subst m. change (lenN (encMsg None)) with 1. unfold newElem. lia.
    + apply repeat_length.
  - split; [dval; do 9 right; left; auto|]. split; [repeat split|cbn; lia].
  - split; [dval; do 10 right; auto|]. split; [cbn; lia|]. split; [constructor|]. change (lenN (encStable [])) with 2. lia.
  - split; [dnone c; reflexivity|discriminate].
  - intros i. split; [|discriminate].
    rewrite wr_out by (intros v0 X; apply def_in in X; dX X; ids; lia). rewrite s0_at. destruct (_ =? _) eqn:E; [ids; lia|reflexivity].
  - dnone c. reflexivity.
  - right. split; [dnone c; reflexivity|reflexivity].
  - split; [dnone c; reflexivity|discriminate].
Qed.
