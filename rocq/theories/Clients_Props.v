(** C08: replies are remembered, returned again and requests are executed at most once. *)
From Coq Require Import List Arith NArith Lia Bool.
From Verif Require Import Lib_Bytes Clients_Model Clients_Proofs.
Import ListNotations.

(** A configuration used in the examples: clients 5 and 9, pages of 64 bytes, replies of at most 100 bytes, batches of 2. *)
Definition exCfg : cmcfg := mkCm [5; 9] 64 100 2.
Lemma exCfg_valid : validCm exCfg.
Proof. repeat split; simpl; try lia. repeat constructor; simpl; intuition lia. Qed.

(** C08 (a). A correct replica never aborts in the clients manager, whatever the sequence of operations, restarts included. *)
Theorem C08_never_aborts : forall k ops, validCm k -> okRun k initSt ops -> crun k initSt ops <> None.
Proof. intros k ops V O. destruct (run_inv k V ops initSt (inv_init k V) O) as (s & E & _). congruence. Qed.
Print Assumptions C08_never_aborts.

(** C08 (b). Once the reply to a request was recorded, and until a reply is recorded for the same client and batch position, the request is
    known as answered, cannot become pending again, and retransmissions get the same reply bytes (with the current primary filled in);
    this is so after any further operations, in-process reloads and restarts included. *)
Theorem C08_reply_kept : forall k before c r body idx result after primary,
  validCm k -> okRun k initSt (before ++ Reply c r body idx result :: after) -> In c (cids k) -> slotKept c idx after ->
  exists s, crun k initSt (before ++ Reply c r body idx result :: after) = Some s /\
            hasReply k s c r = true /\ canBecomePending k s c r = false /\ savedReply k s c r primary = Ret (replyMsg primary r result body).
Proof.
  intros k before c r body idx result after primary V O Vc K. apply isValid_In in Vc.
  destruct (run_inv k V _ initSt (inv_init k V) O) as (s & E & I). exists s. split; auto.
  rewrite crun_app in E. destruct (crun k initSt before) as [s1|] eqn:E1; [|discriminate].
  destruct (okRun_app k before _ _ _ O E1) as [O1 O2]. destruct (run_inv k V _ initSt (inv_init k V) O1) as (s1' & E1' & I1).
  rewrite E1 in E1'. inversion E1'; subst s1'. destruct O2 as [O2 O3]. destruct (cstep_inv k V s1 _ I1 O2) as (s2 & E2 & I2).
  cbn [crun] in E. rewrite E2 in *.
  assert (H : holds k (pages s2) c idx r result body).
  { destruct (inv_reply k V s1 _ _ _ _ _ I1 O2 Vc) as (s2' & E2' & _ & Pg & _). cbn [cstep] in E2. rewrite E2' in E2. inversion E2; subst.
    rewrite Pg. destruct O2 as (_ & A & B & C & D & F). apply holds_new; auto. }
  destruct O2 as (_ & _ & _ & Hi & _).
  pose proof (run_keeps k V after s2 s c idx r result body I2 O3 E Vc Hi K H) as H'.
  destruct (holds_found k V s c idx r result body I Vc Hi H') as (A & B & C). auto.
Qed.
Print Assumptions C08_reply_kept.

(** C08 (c). The reply tables hold at most the configured number of requests per client. *)
Theorem C08_bounded : forall k ops s c, validCm k -> okRun k initSt ops -> crun k initSt ops = Some s ->
  length (reqs (info s c)) <= maxReqs k /\ (In c (cids k) -> length (reps (info s c)) <= maxReqs k).
Proof.
  intros k ops s c V O E. destruct (run_inv k V _ initSt (inv_init k V) O) as (s' & E' & I). rewrite E in E'. inversion E'; subst s'.
  destruct I as (P & R & T). split; auto. intros Vc. apply isValid_In in Vc. destruct (T c Vc) as [T1 _]. eapply tbl_bound; eauto.
Qed.
Print Assumptions C08_bounded.

(** C08 (d). A restart loses no recorded reply and invents none. *)
Theorem C08_restart_same : forall k ops s s' c r, validCm k -> okRun k initSt ops -> crun k initSt ops = Some s ->
  cstep k s Restart = Some s' -> hasReply k s' c r = hasReply k s c r.
Proof.
  intros k ops s s' c r V O E E2. destruct (run_inv k V _ initSt (inv_init k V) O) as (s1 & E' & I). rewrite E in E'. inversion E'; subst s1.
  eapply restart_same; eauto.
Qed.
Print Assumptions C08_restart_same.

(** C08 (e). At most one execution: if no batch holds a request twice, and no request is proposed again after a different request of the
    same client and batch position was proposed, then no request is executed twice, and the replica does not abort. *)
Theorem C08_executed_once_partial : forall k batches, validCm k -> (forall b q, In b batches -> In q b -> okReq k q) ->
  noDupInBatch batches -> noStaleReplay (concat batches) ->
  exists s log, execAll k initSt batches = Some (s, log) /\ NoDup (map (fun q => (rq_client q, rq_seq q)) log).
Proof.
  intros k bs V O ND NS. destruct (exec_all k V bs initSt [] [] (inv_init k V) O ND NS) as (s & l & E & N); auto.
  - intros q [].
  - constructor.
  - exists s, l. split; auto.
Qed.
Print Assumptions C08_executed_once_partial.

(** The two side conditions are needed. [C08 refuted, part 1]: the same request twice in one batch is executed twice; nothing in the
    checks of a PRE-PREPARE (PrePrepareMsg.cpp 259-284) excludes it, so a Byzantine primary can arrange it. *)
Definition q1 : creq := mkReq 5 11 0 [1; 2; 3]%N.
Definition q2 : creq := mkReq 5 12 0 [4]%N.
Theorem C08_duplicate_in_batch_refuted : exists k batches s log, validCm k /\ (forall b q, In b batches -> In q b -> okReq k q) /\
  noStaleReplay (concat batches) /\ execAll k initSt batches = Some (s, log) /\ ~ NoDup (map (fun q => (rq_client q, rq_seq q)) log).
Proof.
  exists exCfg, [[q1; q1]].
  destruct (execAll exCfg initSt [[q1; q1]]) as [[s log]|] eqn:E; [|vm_compute in E; discriminate].
  exists s, log. split; [apply exCfg_valid|]. split; [|split; [|split; auto]].
  - intros b q [<-|[]] [<-|[<-|[]]]; (repeat split; simpl; try discriminate; try lia).
  - intros a x b y c x' d H _ _ _. assert (L : length (concat [[q1; q1]]) = length (a ++ x :: b ++ y :: c ++ x' :: d)) by (rewrite H; auto).
    simpl in L. repeat (rewrite app_length in L; simpl in L). lia.
  - assert (L : log = [q1; q1]) by (vm_compute in E; inversion E; auto). subst. simpl. intros N. inversion N; subst. simpl in *. tauto.
Qed.
Print Assumptions C08_duplicate_in_batch_refuted.
(** [C08 refuted, part 2]: a request proposed again after another request of the client took its batch position is executed again: only the
    table of recorded replies is consulted, not the largest answered request number. *)
Theorem C08_replay_refuted : exists k batches s log, validCm k /\ (forall b q, In b batches -> In q b -> okReq k q) /\
  noDupInBatch batches /\ execAll k initSt batches = Some (s, log) /\ ~ NoDup (map (fun q => (rq_client q, rq_seq q)) log).
Proof.
  exists exCfg, [[q1]; [q2]; [q1]].
  destruct (execAll exCfg initSt [[q1]; [q2]; [q1]]) as [[s log]|] eqn:E; [|vm_compute in E; discriminate].
  exists s, log. split; [apply exCfg_valid|]. split; [|split; [|split; auto]].
  - intros b q [<-|[<-|[<-|[]]]] [<-|[]]; (repeat split; simpl; try discriminate; try lia).
  - intros b [<-|[<-|[<-|[]]]]; (constructor; [simpl; tauto|constructor]).
  - assert (L : log = [q1; q2; q1]) by (vm_compute in E; inversion E; auto). subst. simpl. intros N. inversion N; subst. simpl in *. tauto.
Qed.
Print Assumptions C08_replay_refuted.

(** The conditions on recorded replies are needed as well. A reply with request number 0 blocks its batch position: the reply recorded
    there next is not found (deleteReplyIfNeededSafe takes the number 0 to mean "no entry"). *)
Definition chkO {A} (o : option A) (p : A -> bool) : bool := match o with Some x => p x | None => false end.
Theorem C08_number_zero_refuted : exists k c body s', validCm k /\ In c (cids k) /\
  crun k initSt [Reply c 0 body 0 0; Reply c 7 body 0 0] = Some s' /\ hasReply k s' c 7 = false.
Proof.
  exists exCfg, 5, [1%N]. assert (C : chkO (crun exCfg initSt [Reply 5 0 [1%N] 0 0; Reply 5 7 [1%N] 0 0]) (fun s => negb (hasReply exCfg s 5 7)) = true)
    by (vm_compute; reflexivity).
  destruct (crun exCfg initSt [Reply 5 0 [1%N] 0 0; Reply 5 7 [1%N] 0 0]) as [s|]; [|discriminate]. exists s.
  split; [apply exCfg_valid|]. split; [simpl; auto|]. split; auto. apply negb_true_iff. exact C.
Qed.
Print Assumptions C08_number_zero_refuted.
(** The batch position is chosen by the client (ClientRequestMsg's indexInBatch, not validated): a position beyond the configured maximum
    makes every replica that executes the request abort (ConcordAssert at cpp 341). *)
Theorem C08_position_unchecked_refuted : forall k s c r body result idx, maxReqs k <= idx -> cstep k s (Reply c r body idx result) = None.
Proof. intros. simpl. unfold newReply. destruct (Nat.ltb_spec idx (maxReqs k)); [lia|]. reflexivity. Qed.
Print Assumptions C08_position_unchecked_refuted.

(** The hypotheses of the theorems are met by a run with replies of several pages, a batch, restart and reload. *)
Definition body90 : bytes := repeat 7%N 70.
Definition exOps : list cop := [AddPending 5 11; AddPending 5 12; SetKey 5 [1; 2]%N; Reply 5 11 body90 0 0; Reply 5 12 [9%N] 1 3; Remove 5 11; Restart; Reply 5 13 [8%N] 1 0; AddPending 9 3; Reload].
Example C08_example_kept : chkO (crun exCfg initSt exOps) (fun s => hasReply exCfg s 5 11 && negb (hasReply exCfg s 5 12) && hasReply exCfg s 5 13 &&
  match savedReply exCfg s 5 11 3 with Ret m => if list_eq_dec N.eq_dec m (replyMsg 3 11 0 body90) then true else false | _ => false end) = true.
Proof. vm_compute. reflexivity. Qed.
Lemma okRun_b k : forall l s, (fix go s l := match l with [] => true | o :: l =>
   (match o with Reply c r body idx result => negb (hasReply k s c r) && negb (N.eqb r 0) && (r <? 256 ^ 8)%N && (idx <? maxReqs k) && negb (length body =? 0) && (28 + length body <=? maxReply k)
                | SetKey c d => length d <=? psz k | _ => true end) && match cstep k s o with Some s' => go s' l | None => true end end) s l = true -> okRun k s l.
Proof.
  induction l as [|o l IH]; intros s H; [exact I|]. apply andb_true_iff in H. destruct H as [H1 H2]. split.
  - destruct o; simpl; auto.
    + repeat rewrite andb_true_iff in H1. destruct H1 as [[[[[A B] C] D] E] F]. apply negb_true_iff in A, B, E. apply N.eqb_neq in B. apply N.ltb_lt in C.
      apply Nat.ltb_lt in D. apply Nat.eqb_neq in E. apply Nat.leb_le in F. repeat split; auto. intros ->. apply E; auto.
    + apply Nat.leb_le; auto.
  - destruct (cstep k s o); auto.
Qed.
Example C08_example_ok : okRun exCfg initSt exOps.
Proof. apply okRun_b. vm_compute. reflexivity. Qed.
Example C08_example_slot : exists before after, exOps = before ++ Reply 5 11 body90 0 0 :: after /\ slotKept 5 0 after.
Proof.
  exists (firstn 3 exOps), (skipn 4 exOps). split; [reflexivity|]. intros o H. simpl in H. repeat (destruct H as [<-|H]; [simpl; auto; lia|]). destruct H.
Qed.
Example C08_example_batches : noDupInBatch [[q1; mkReq 5 12 1 [4]%N]; [q1]; [mkReq 9 11 0 [5]%N]] /\
  chkO (execAll exCfg initSt [[q1; mkReq 5 12 1 [4]%N]; [q1]; [mkReq 9 11 0 [5]%N]]) (fun x => length (snd x) =? 3) = true.
Proof.
  split; [|vm_compute; reflexivity]. intros b [<-|[<-|[<-|[]]]]; repeat constructor; simpl; try tauto. intros [H|[]]. discriminate.
Qed.
