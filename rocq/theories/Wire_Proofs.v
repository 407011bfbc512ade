(** Proofs for Wire_Model. *)
From Coq Require Import List Arith NArith ZArith Bool Lia.
From Verif Require Import Lib_Bytes Wire_Model.
Import ListNotations.
Local Open Scope N_scope.
Local Open Scope wire_scope.

(** What holds of the result when nothing outside is accessed; [c]: what a stop by an assertion implies. *)
Definition wp {A} (c : Prop) (x : out A) (Q : A -> Prop) : Prop := match x with Ok a => Q a | Refuse => True | Outside => False | Crash => c end.
Lemma wp_bind {A B} c (x : out A) (f : A -> out B) Q : wp c x (fun a => wp c (f a) Q) -> wp c (bind x f) Q.
Proof. destruct x; simpl; auto. Qed.
Lemma wp_need c b (Q : unit -> Prop) : (b = true -> Q tt) -> wp c (need b) Q.
Proof. destruct b; simpl; auto. Qed.
Lemma wp_assert (c : Prop) b (Q : unit -> Prop) : (b = false -> c) -> (b = true -> Q tt) -> wp c (assert b) Q.
Proof. destruct b; simpl; auto. Qed.
Lemma part_ok m o k : o + k <= size m -> exists b, part m o k = Ok b /\ size b = k.
Proof.
  intros H. unfold part. rewrite (proj2 (N.leb_le _ _) H). eexists. split; [reflexivity|]. unfold size, slice in *.
  rewrite firstn_length, skipn_length. lia.
Qed.
Lemma num_ok m o k : o + k <= size m -> exists x, num m o k = Ok x.
Proof. intros H. destruct (part_ok m o k H) as (b & E & _). unfold num. rewrite E. simpl. eauto. Qed.
Lemma wp_num c m o k (Q : N -> Prop) : o + k <= size m -> (forall x, num m o k = Ok x -> Q x) -> wp c (num m o k) Q.
Proof. intros H HQ. destruct (num_ok m o k H) as [x E]. rewrite E. simpl. auto. Qed.
Lemma wp_part c m o k (Q : bytes -> Prop) : o + k <= size m -> (forall x, part m o k = Ok x -> size x = k -> Q x) -> wp c (part m o k) Q.
Proof. intros H HQ. destruct (part_ok m o k H) as (x & E & L). rewrite E. simpl. auto. Qed.
Lemma wp_ok {A} c (a : A) (Q : A -> Prop) : Q a -> wp c (Ok a) Q.
Proof. auto. Qed.
Lemma wp_weak {A} c (x : out A) (P Q : A -> Prop) : wp c x P -> (forall a, P a -> Q a) -> wp c x Q.
Proof. destruct x; simpl; auto. Qed.
Lemma wp_safe {A} (x : out A) Q : wp False x Q -> x <> Outside /\ x <> Crash.
Proof. destruct x; simpl; intros; split; try discriminate; contradiction. Qed.
Lemma wp_in {A} c (x : out A) Q : wp c x Q -> x <> Outside.
Proof. destruct x; simpl; intros; try discriminate; contradiction. Qed.
Lemma isbyte_num m o k x : Forall isByte m -> num m o k = Ok x -> x < 256 ^ k.
Proof.
  intros F. unfold num, part. destruct (_ <=? _) eqn:E; simpl; [|discriminate]. intros X. injection X as <-.
  assert (L : N.of_nat (length (slice m (N.to_nat o) (N.to_nat k))) = k).
  { apply N.leb_le in E. unfold size, slice in *. rewrite firstn_length, skipn_length. lia. }
  rewrite <- L at 2. apply unle_bound. unfold slice. apply Forall_forall. intros y Hy. rewrite Forall_forall in F. apply F.
  assert (In y (skipn (N.to_nat o) m)) by (rewrite <- (firstn_skipn (N.to_nat k)); apply in_or_app; auto).
  rewrite <- (firstn_skipn (N.to_nat o)); apply in_or_app; auto.
Qed.

Ltac bools := repeat match goal with
  | H : _ && _ = true |- _ => apply andb_true_iff in H; destruct H
  | H : (_ <=? _) = true |- _ => apply N.leb_le in H
  | H : (_ <? _) = true |- _ => apply N.ltb_lt in H
  | H : (_ =? _) = true |- _ => apply N.eqb_eq in H
  | H : negb _ = false |- _ => apply negb_false_iff in H
  | H : negb _ = true |- _ => apply negb_true_iff in H
  | H : (_ =? _) = false |- _ => apply N.eqb_neq in H
  end.
Ltac same := repeat match goal with
  | H : num ?m ?o ?k = Ok ?x, H' : num ?m ?o ?k = Ok ?y |- _ => rewrite H in H'; injection H' as <-
  end.
Ltac step := match goal with
  | |- wp _ (bind _ _) _ => apply wp_bind
  | |- wp _ (need _) _ => apply wp_need; let H := fresh "N" in intros H
  | |- wp _ (assert _) _ => apply wp_assert; intros
  | |- wp _ (num _ _ _) _ => apply wp_num; [|intros; same]
  | |- wp _ (part _ _ _) _ => apply wp_part; [|intros]
  | |- wp _ (span _) _ => unfold span
  | |- wp _ (Ok _) _ => apply wp_ok
  end.
Ltac run := repeat (step; bools; try lia); try exact I.

Section Safe.
Context (e : env) (sender : N).
Local Notation vX v := (v e sender).
Lemma safe_ack m : wp False (vAck e sender m ;; ack m) (fun _ => True).
Proof. unfold vAck, ack. run. Qed.
Lemma safe_slow m : received m -> wp False (vSlow e sender m ;; slow m) (fun _ => True).
Proof. unfold vSlow, slow, received, headerSize. intros. run. Qed.
Lemma safe_missing m : received m -> wp False (vMissing e sender m ;; missing m) (fun _ => True).
Proof. unfold vMissing, missing, received, headerSize. intros. run. Qed.
Lemma safe_proof m : wp False (vProof e sender m ;; share m) (fun _ => True).
Proof. unfold vProof, share. intros. run. Qed.
Lemma safe_full m : received m -> wp False (vFull e sender m ;; share m) (fun _ => True).
Proof. unfold vFull, share, received, headerSize. intros. run. Qed.
Lemma safe_partial m : received m -> wp False (vPartial e sender m ;; share m) (fun _ => True).
Proof. unfold vPartial, vFull, share, received, headerSize. intros. run. Qed.
Lemma safe_partProof m : received m -> wp False (vPartProof e sender m ;; partProof m) (fun _ => True).
Proof. unfold vPartProof, partProof, received, headerSize. intros. run. Qed.
Lemma safe_leave m : received m -> wp False (vLeave e m ;; leave m) (fun _ => True).
Proof. unfold vLeave, leave, received, headerSize. intros. run. Qed.
Lemma safe_checkpoint m : received m -> sender <> me e -> wp False (vCheckpoint e sender m ;; ckpt m) (fun _ => True).
Proof. unfold vCheckpoint, ckpt, received, headerSize, other. intros. run. Qed.
Lemma safe_ask m : received m -> sender <> me e -> wp False (vAsk e sender m) (fun _ => True).
Proof. unfold vAsk, received, headerSize, other. intros. run. Qed.
Lemma safe_st m : received m -> wp False (vSt m) (fun _ => True).
Proof. unfold vSt. intros. run. Qed.
(** A request: after acceptance its fields are inside unless it takes the way of special requests from replicas. *)
Lemma safe_request m : received m -> sender <> me e -> wp False (vRequest e sender m) (fun _ => specialRequest e m \/ wp False (requestOf m) (fun _ => True)).
Proof.
  unfold vRequest, received, headerSize, other. intros R Hs. unfold span.
  apply wp_bind, wp_num; [lia|]. intros sp Esp. step. step. bools.
  apply wp_bind, wp_num; [lia|]. intros id Eid. apply wp_bind, wp_num; [lia|]. intros fl Efl.
  set (S := N.testbit fl RECONFIG || N.testbit fl INTERNAL).
  step. apply wp_assert. { intros X. apply orb_false_iff in X as [_ X]. bools. lia. } intros _.
  apply wp_bind, wp_num; [lia|]. intros cl Ecl. apply wp_bind, wp_num; [lia|]. intros sl Esl. step. step. bools.
  destruct (S && (isReplica e id || isRo e id)) eqn:Sp.
  { apply andb_true_iff in Sp as [? ?]. step. left. exists id, fl. auto. }
  step. step. step. step. 
  apply wp_bind, wp_num; [lia|]. intros rl Erl. apply wp_bind, wp_num; [lia|]. intros xl Exl. cbv zeta.
  set (signs := isExternal e id && negb (N.testbit fl RECONFIG) && signing e && negb (rl =? 0)).
  set (ex := if isExternal e id && N.testbit fl RECONFIG then sl else if signs then sigLen e id else 0).
  step. step. step. step. bools. step. step. bools.
  assert (D : wp False (requestOf m) (fun _ => True)).
  { unfold requestOf, requestAt, span. rewrite !N.add_0_l. repeat (step; bools; try lia).
    rewrite (proj2 (N.leb_le xl (size m))) by lia. run. }
  destruct (signs && negb (N.testbit fl PREPROCESSED)); [|step; auto].
  step. apply wp_part; [lia|]. intros t Et Lt. step.
  destruct (sl =? 0) eqn:Z; [step|apply wp_part; [lia|]; intros]; step; right; exact D.
Qed.

(** Status of a replica; its answers for every replica and every number the assertions allow. *)
Lemma div8 i n : i < 8 * n -> i / 8 < n.
Proof. intros. apply N.div_lt_upper_bound; lia. Qed.
Lemma rmask r : r < maxReplicas e -> r / 8 < rMask e.
Proof. intros. unfold rMask. apply N.lt_le_trans with ((r / 8) + 1); [lia|]. replace (r / 8 + 1) with ((r + 1 * 8) / 8) by (rewrite N.div_add; lia). apply N.div_le_mono; lia. Qed.
Lemma safe_status m : received m -> wp False (vStatus e sender m) (fun _ => forall r d,
  (r < maxReplicas e -> wp False (complaint e m r) (fun _ => True)) /\ wp True (inWindow e m d) (fun _ => True) /\ wp True (missingPp e m d) (fun _ => True) /\
  (r < maxReplicas e -> wp True (missingVc e m r) (fun _ => True))).
Proof.
  unfold vStatus, received, headerSize. intros R. unfold span.
  apply wp_bind, wp_num; [lia|]. intros sp Esp. step. step. bools. step. step. 
  apply wp_bind, wp_num; [lia|]. intros st Est. step. step.
  apply wp_bind, wp_num; [lia|]. intros ex Eex. step. step.
  apply wp_bind, wp_num; [lia|]. intros f Ef. cbv zeta. do 11 step.
  match goal with H : (size m =? _) = true |- _ => apply N.eqb_eq in H; rename H into Hs end.
  intros r d. unfold complaint, inWindow, missingPp, missingVc, bitAt, span. rewrite Esp, Ef. cbn [bind].
  assert (Hm : r < maxReplicas e -> r / 8 < rMask e) by apply rmask.
  assert (Hw : forall b, (1 <=? d) && (d <=? 300) = b -> b = true -> (d - 1) / 8 < 38).
  { intros b <- X. apply andb_true_iff in X as [X1 X2]. apply N.leb_le in X1, X2. apply div8. lia. }
  assert (X : 39 + rMask e <= statusSize e f /\ (N.testbit f 2 = true -> 39 + 38 + rMask e <= statusSize e f) /\ (N.testbit f 3 = true -> 39 + rMask e + rMask e <= statusSize e f) /\
    (N.testbit f 4 = true -> 39 + 38 + rMask e <= statusSize e f)).
  { clear -N3 N4 N5 N6 N7. unfold statusSize.
    generalize (rMask e). destruct (N.testbit f 2), (N.testbit f 0), (N.testbit f 3), (N.testbit f 4); cbn [andb orb negb] in *; try discriminate; repeat split; intros; try discriminate; lia. }
  destruct X as (X1 & X2 & X3 & X4).
  split; [|split; [|split]].
  - intros Hr. step. apply wp_assert; [intros X; apply N.ltb_ge in X; lia|]. intros _. specialize (Hm Hr).
    do 2 step; [lia|]. run.
  - step. apply wp_assert; [auto|]. intros F. specialize (X2 F). step. apply wp_assert; [auto|]. intros W. specialize (Hw _ eq_refl W). do 2 step; [lia|]. run.
  - step. apply wp_assert; [auto|]. intros F. specialize (X4 F). step. apply wp_assert; [auto|]. intros W. specialize (Hw _ eq_refl W). do 2 step; [lia|]. run.
  - intros Hr. specialize (Hm Hr). step. apply wp_assert; [auto|]. intros F. specialize (X3 F). step. apply wp_assert; [auto|]. intros _. do 2 step; [lia|]. run.
Qed.

(** Ready: a message with its whole header. *)
Lemma safe_ready m : 29 <= size m -> wp False (vReady e m ;; ready m) (fun _ => True).
Proof.
  unfold vReady, ready, span. intros R. repeat (step; bools; try lia). destruct (_ =? 0); run.
Qed.

(** New view: when the sum of the sizes fits 16 bits. *)
Lemma nvLoop_wp (c : Prop) m k : forall p prev (Q : unit -> Prop), p + 34 * N.of_nat k <= size m -> Q tt -> wp c (nvLoop m k p prev) Q.
Proof.
  induction k as [|k IH]; intros p prev Q H HQ; cbn [nvLoop].
  - apply wp_ok; auto.
  - rewrite Nat2N.inj_succ in H. do 2 (step; try lia). step. step. step; try lia. step; [lia|]. step. step. apply IH; auto. lia.
Qed.
Lemma nvFind_wp (c : Prop) m k : forall p r (Q : option bytes -> Prop), p + 34 * N.of_nat k <= size m -> (forall x, Q x) -> wp c (nvFind m k p r) Q.
Proof.
  induction k as [|k IH]; intros p r Q H HQ; cbn [nvFind].
  - apply wp_ok; auto.
  - rewrite Nat2N.inj_succ in H. step. step; [lia|]. destruct (_ =? r). { step. step; [lia|]. apply wp_ok; auto. }
    destruct (_ <? _). { apply wp_ok; auto. } apply IH; auto. lia.
Qed.
Lemma safe_newview m r : received m -> 24 + 34 * nvExpected e + unle (slice m 2 4) < 2 ^ 16 -> wp False (vNewView e sender m ;; newViewOf m r) (fun _ => True).
Proof.
  unfold vNewView, newViewOf, received, headerSize, span. intros R B.
  assert (Es : num m 2 4 = Ok (unle (slice m 2 4))). { unfold num, part. rewrite (proj2 (N.leb_le _ _)) by lia. reflexivity. }
  rewrite Es. cbn [bind]. set (sp := unle (slice m 2 4)) in *.
  apply wp_bind. step. step. bools. rewrite N.mod_small in * by lia. step. step. step. step. 
  step. step; [lia|]. step. step. step. step; [lia|]. step. step. step. step; [lia|]. step. step. bools.
  apply nvLoop_wp; [rewrite N2Nat.id; lia|].
  step. step; [lia|]. step. step; [lia|]. subst. step. apply nvFind_wp; [rewrite N2Nat.id; lia|]. intros. run.
Qed.

(** State transfer. *)
Lemma safe_stAsk m : wp False (stAsk m) (fun _ => True). Proof. unfold stAsk. run. Qed.
Lemma safe_stFetch m : wp False (stFetch m) (fun _ => True). Proof. unfold stFetch. run. Qed.
Lemma safe_stPages m : wp False (stPages m) (fun _ => True). Proof. unfold stPages. run. Qed.
Lemma safe_stReject m : wp False (stReject m) (fun _ => True). Proof. unfold stReject. run. Qed.
Lemma safe_stEnter m : 3 <= size m -> wp False (stEnter e sender m) (fun _ => True). Proof. unfold stEnter. intros. run. Qed.
Lemma safe_stSummary m : 95 <= size m -> wp False (stSummary m) (fun _ => True). Proof. unfold stSummary. intros. run. Qed.
Lemma safe_stItem m c : 32 <= size m -> size m < 2 ^ 32 -> Forall isByte m -> (forall ds, num m 28 4 = Ok ds -> 32 + ds < 2 ^ 32) -> wp False (stItem c m) (fun _ => True).
Proof.
  unfold stItem. intros L L2 F H. step. step; [lia|]. step. step; [lia|]. step. step; [lia|]. 
  match goal with E : num m 28 4 = Ok ?x |- _ => specialize (H x E) end. rewrite N.mod_small by auto. run.
Qed.
Lemma safe_reply m : 28 <= size m -> (forall rl, num m 20 4 = Ok rl -> 28 + rl < 2 ^ 32) -> wp False (vReply m ;; reply m) (fun _ => True).
Proof.
  unfold vReply, reply. intros L H. step. step. step; [lia|]. 
  match goal with E : num m 20 4 = Ok ?x |- _ => specialize (H x E) end. rewrite N.mod_small by auto. run.
Qed.
(** Preprocessor. *)
Lemma safe_preReply m : wp False (vPreReply e m) (fun _ => True).
Proof. unfold vPreReply. repeat (step; bools; try lia). destruct (_ =? 0); run. Qed.
Lemma safe_preReplySig m : wp False (vPreReply e m) (fun _ => forall st, num m 20 4 = Ok st -> st = 0 -> wp False (preReplySig e m) (fun _ => True)).
Proof.
  unfold vPreReply, preReplySig. repeat (step; bools; try lia). destruct (_ =? 0) eqn:Z.
  - run. intros st E ->. run.
  - run. intros st E ->. same. bools. lia.
Qed.
Lemma safe_replyBatch m : wp False (vReplyBatch e sender m) (fun _ => True).
Proof. unfold vReplyBatch. run. Qed.
Lemma safe_preReq m : received m -> signing e = true -> (forall a b, num m 2 4 = Ok a -> num m 32 4 = Ok b -> a = b) -> wp False (vPreReq e sender m ;; preReq m) (fun _ => True).
Proof.
  unfold vPreReq, preReq, received, headerSize, span. intros R Sg Hs. step. step. step. bools. step. step; [lia|]. step. step; [lia|]. step. step; [lia|]. step. step; [lia|]. step. step. bools.
  destruct (num_ok m 2 4) as [bs Eb]; [lia|]. specialize (Hs bs). rewrite Eb in *. 
  match goal with E : num m 32 4 = Ok ?b |- _ => specialize (Hs b eq_refl E); subst b end. cbn [bind].
  step. step. destruct (_ =? 0) eqn:Z. 
  - run.
  - rewrite Sg. cbn [assert bind]. run.
Qed.
End Safe.
