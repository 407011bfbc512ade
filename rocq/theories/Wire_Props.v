(** C39: no bytes from the network make a node read outside of them, and what correct nodes send is accepted and read back as sent. *)
From Coq Require Import List Arith NArith ZArith Bool Lia.
From Verif Require Import Lib_Bytes Wire_Model Wire_Proofs Wire_Proofs2 Wire_Proofs3.
Import ListNotations.
Local Open Scope N_scope.
Local Open Scope wire_scope.

(** A small system: replicas 0..3, clients 4..9; signatures of one byte, the length of the text. *)
Definition E0 : env := mkEnv 0 (fun i => i <? 4) (fun _ => false) (fun i => (4 <=? i) && (i <? 10)) (fun i => i <? 10) 1 (fun v => v mod 4) 4 1 0 20 (fun _ _ => true)
  (fun _ => 1) (fun _ t s => match s with [x] => x =? size t mod 251 | _ => false end) true.
Definition sg0 (t : bytes) : bytes := [size t mod 251].

Lemma oth x : x + 1 <> x. Proof. lia. Qed.
(** * Nothing outside is read: validation, then every field. *)
Theorem C39_order_messages_inside : forall e sender m, received m ->
  safely (vAck e sender m ;; ack m) /\ safely (vSlow e sender m ;; slow m) /\ safely (vMissing e sender m ;; missing m) /\ safely (vProof e sender m ;; share m) /\
  safely (vFull e sender m ;; share m) /\ safely (vPartial e sender m ;; share m) /\ safely (vPartProof e sender m ;; partProof m) /\ safely (vLeave e m ;; leave m).
Proof.
  intros e s m R. repeat split; try (eapply wp_safe; first [apply safe_ack|apply safe_slow|apply safe_missing|apply safe_proof|apply safe_full|apply safe_partial|apply safe_partProof|apply safe_leave]; auto; fail).
Qed.
Print Assumptions C39_order_messages_inside.
(** A checkpoint and a question for one, from another node. *)
Theorem C39_checkpoint_inside : forall e sender m, received m -> sender <> me e -> safely (vCheckpoint e sender m ;; ckpt m) /\ safely (vAsk e sender m).
Proof. intros. split; eapply wp_safe; [apply safe_checkpoint|apply safe_ask]; auto. Qed.
Print Assumptions C39_checkpoint_inside.
(** A status: whatever is asked of an accepted one is inside; complaints can be asked of every replica without a stop. *)
Theorem C39_status_inside : forall e sender m, received m ->
  safely (vStatus e sender m) /\
  (vStatus e sender m = Ok tt -> forall r d, inWindow e m d <> Outside /\ missingPp e m d <> Outside /\ (r < maxReplicas e -> missingVc e m r <> Outside /\ safely (complaint e m r))).
Proof.
  intros e s m R. assert (W := safe_status e s m R). split; [eapply wp_safe; exact W|]. intros E r d. rewrite E in W. destruct (W r d) as (W1 & W2 & W3 & W4).
  split; [eapply wp_in; eauto|]. split; [eapply wp_in; eauto|]. intros H. split; [eapply wp_in; eauto|eapply wp_safe; eauto].
Qed.
Print Assumptions C39_status_inside.
(** A request: inside, except the fields of one that names a replica and says it is a reconfiguration or internal request. *)
Theorem C39_request_inside_partial : forall e sender m, received m -> sender <> me e ->
  safely (vRequest e sender m) /\ (vRequest e sender m = Ok tt -> ~ specialRequest e m -> safely (requestOf m)).
Proof.
  intros e s m R Hs. assert (W := safe_request e s m R Hs). split; [eapply wp_safe; exact W|]. intros E Ns. rewrite E in W. destruct W as [W|W]; [contradiction|]. eapply wp_safe; eauto.
Qed.
Print Assumptions C39_request_inside_partial.
(** New view, when the sizes do not exceed 16 bits. *)
Theorem C39_newview_inside_partial : forall e sender m r, received m -> 24 + 34 * nvExpected e + unle (slice m 2 4) < 2 ^ 16 -> safely (vNewView e sender m ;; newViewOf m r).
Proof. intros. eapply wp_safe. apply safe_newview; auto. Qed.
Print Assumptions C39_newview_inside_partial.
(** The others, when the message is as long as its header (and sums of lengths have 32 bits; and both copies of the span length agree). *)
Theorem C39_others_inside_partial : forall e sender m, received m ->
  (29 <= size m -> safely (vReady e m ;; ready m)) /\ safely (vSt m) /\ safely (stAsk m) /\ safely (stFetch m) /\ safely (stPages m) /\ safely (stReject m) /\
  safely (stEnter e sender m) /\ (95 <= size m -> safely (stSummary m)) /\
  (forall c, 32 <= size m -> size m < 2 ^ 32 -> Forall isByte m -> (forall ds, num m 28 4 = Ok ds -> 32 + ds < 2 ^ 32) -> safely (stItem c m)) /\
  (28 <= size m -> (forall rl, num m 20 4 = Ok rl -> 28 + rl < 2 ^ 32) -> safely (vReply m ;; reply m)) /\
  safely (vPreReply e m) /\ (vPreReply e m = Ok tt -> num m 20 4 = Ok 0 -> safely (preReplySig e m)) /\ safely (vReplyBatch e sender m) /\
  (signing e = true -> (forall a b, num m 2 4 = Ok a -> num m 32 4 = Ok b -> a = b) -> safely (vPreReq e sender m ;; preReq m)).
Proof.
  intros e s m R. assert (R' := R). unfold received, headerSize in R'.
  repeat match goal with |- _ /\ _ => split | |- _ -> _ => intros end;
   try (eapply wp_safe; first [apply safe_ready|apply safe_st|apply safe_stAsk|apply safe_stFetch|apply safe_stPages|apply safe_stReject|apply safe_stSummary|apply safe_stItem|apply safe_reply|apply safe_preReply|apply safe_replyBatch|apply safe_preReq]; auto; fail).
  - eapply wp_safe. apply safe_stEnter. lia.
  - assert (W := safe_preReplySig e m). rewrite H in W. eapply wp_safe. apply (W 0); auto.
Qed.
Print Assumptions C39_others_inside_partial.

(** * Messages of correct nodes are accepted and read back. *)
Theorem C39_acks_delivered : forall e sender s v d, sender <> me e -> isReplica e sender = true -> fits 8 s -> fits 8 v -> fits 8 d -> fits 8 (epoch e) ->
  vAck e sender (mkAck (epoch e) s v d) = Ok tt /\ ack (mkAck (epoch e) s v d) = Ok (s, v, d).
Proof. intros. apply trip_ack; auto. Qed.
Print Assumptions C39_acks_delivered.
Theorem C39_slow_and_missing_delivered : forall e sender s v f sp, sender <> me e -> isReplica e sender = true -> fits 8 s -> fits 8 v -> fits 2 f -> fits 4 (size sp) -> fits 8 (epoch e) ->
  (primaryOf e v = sender -> vSlow e sender (mkSlow (epoch e) v s sp) = Ok tt /\ slow (mkSlow (epoch e) v s sp) = Ok (v, s, sp)) /\
  vMissing e sender (mkMissing (epoch e) v s f sp) = Ok tt /\ missing (mkMissing (epoch e) v s f sp) = Ok (v, s, f, sp).
Proof. intros. split; [intros; apply trip_slow; auto|apply trip_missing; auto]. Qed.
Print Assumptions C39_slow_and_missing_delivered.
Theorem C39_shares_delivered : forall e sender ty v s sp sg, sender <> me e -> isReplica e sender = true -> fits 8 s -> fits 8 v -> fits 4 (size sp) -> fits 2 (size sg) -> fits 8 (epoch e) ->
  let m := mkShare ty (epoch e) v s sp sg in
  vProof e sender m = Ok tt /\ vFull e sender m = Ok tt /\ (primaryOf e v = me e -> vPartial e sender m = Ok tt) /\ share m = Ok (v, s, sp, sg).
Proof. intros. apply trip_share; auto. Qed.
Print Assumptions C39_shares_delivered.
Theorem C39_partial_proofs_delivered : forall e sender v s p sp sg, sender <> me e -> isReplica e sender = true -> fits 8 s -> fits 8 v -> p = 0 \/ (p = 1 /\ 0 < cVal e) ->
  fits 4 (size sp) -> fits 2 (size sg) -> fits 8 (epoch e) -> collects e v s = true ->
  let m := mkPartProof (epoch e) v s p sp sg in vPartProof e sender m = Ok tt /\ partProof m = Ok (v, s, p, sp, sg).
Proof. intros. apply trip_partProof; auto. Qed.
Print Assumptions C39_partial_proofs_delivered.
Theorem C39_newviews_delivered : forall e sender v sp l r, sender <> me e -> isReplica e sender = true -> fits 8 v -> fits 4 (size sp) -> fits 8 (epoch e) -> primaryOf e v = sender ->
  sortedFrom None l -> N.of_nat (length l) = 2 * fVal e + 2 * cVal e + 1 -> 24 + 34 * (2 * fVal e + 2 * cVal e + 1) + size sp < 2 ^ 16 ->
  let m := mkNewView (epoch e) v sp l in vNewView e sender m = Ok tt /\ newViewOf m r = Ok (v, named l r).
Proof.
  intros. assert (E : nvExpected e = 2 * fVal e + 2 * cVal e + 1) by (unfold nvExpected; apply N.mod_small; lia). apply trip_newview; rewrite ?E; auto.
Qed.
Print Assumptions C39_newviews_delivered.
Theorem C39_checkpoints_delivered : forall e sender g sign ep s st d1 d2 d3 stb sp, sender <> me e -> isReplica e sender = true ->
  (forall t, size (sign t) = sigLen e g) -> (forall t, verify e g t (sign t) = true) -> isReplica e g = true -> fits 2 g -> fits 8 ep -> fits 8 s -> Z.rem (signed s) 150 = 0%Z -> fits 8 st ->
  size d1 = 32 -> size d2 = 32 -> size d3 = 32 -> isZero d1 && isZero d2 && isZero d3 = false -> fits 4 (size sp) ->
  let m := mkCheckpoint sign ep s st d1 d2 d3 g stb sp in vCheckpoint e sender m = Ok tt /\ ckpt m = Ok (mkCk s ep st d1 d2 d3 g stb).
Proof. intros. apply trip_checkpoint; auto. Qed.
Print Assumptions C39_checkpoints_delivered.
Theorem C39_leave_and_ready_delivered : forall e g sign v r s x sp, (forall t, size (sign t) = sigLen e g) -> (forall t, verify e g t (sign t) = true) -> isReplica e g = true ->
  fits 2 g -> fits 8 v -> fits 8 s -> fits 4 (size sp) -> fits 8 (epoch e) -> fits 2 (sigLen e g) ->
  (fits 1 r -> vLeave e (mkLeave sign (epoch e) g v r (sigLen e g) sp) = Ok tt /\ leave (mkLeave sign (epoch e) g v r (sigLen e g) sp) = Ok (g, v, r)) /\
  (r <= 1 -> fits 2 (size x) -> vReady e (mkReady sign (epoch e) g s r (sigLen e g) x sp) = Ok tt /\
                                ready (mkReady sign (epoch e) g s r (sigLen e g) x sp) = Ok (g, s, r, if r =? 0 then [] else x)).
Proof. intros. split; intros; [apply (trip_leave e _ (oth (me e)))|apply (trip_ready e _ (oth (me e)))]; auto. Qed.
Print Assumptions C39_leave_and_ready_delivered.
(** A proof made of ready messages without span context, of replicas with signatures of one length. *)
Theorem C39_ready_proofs_delivered_partial : forall e g seq r sp l, isReplica e g = true -> fits 2 g -> fits 8 seq -> r <= 1 -> fits 4 (size sp) -> fits 8 (epoch e) -> fits 2 (N.of_nat (length l)) ->
  fits 4 (31 + size sp + size (concat (map (readyBytes e) l))) -> Forall (readyIn e seq) l -> (forall x, In x l -> sigLen e (r_gen x) = sigLen e g) -> l <> [] -> nReplicas e - fVal e <= N.of_nat (length l) ->
  vReadyProof e (mkReadyProof (epoch e) g seq r sp (map (readyBytes e) l)) = Ok tt.
Proof. intros. apply (trip_readyProof e _ (oth (me e))); auto. Qed.
Print Assumptions C39_ready_proofs_delivered_partial.
Theorem C39_replies_delivered : forall pr q r il b, fits 2 pr -> fits 8 q -> fits 4 r -> fits 4 il -> 28 + size b < 2 ^ 32 ->
  vReply (mkReply pr q r il b) = Ok tt /\ reply (mkReply pr q r il b) = Ok (q, r, b).
Proof. intros. apply (trip_reply E0 1); auto. discriminate. Qed.
Print Assumptions C39_replies_delivered.
(** Client requests: signed as configured. *)
Theorem C39_requests_delivered : forall e sender ty r, sender <> me e -> reqFits r ->
  requestOf (mkRequest ty r) = Ok r /\
  (N.testbit (q_flags r) RECONFIG = false -> N.testbit (q_flags r) INTERNAL = false -> isPrincipal e (q_client r) = true -> isPrincipal e sender = true ->
   (if isExternal e (q_client r) && signing e && negb (size (q_data r) =? 0)
    then size (q_sig r) <> 0 /\ size (q_sig r) = sigLen e (q_client r) /\ (N.testbit (q_flags r) PREPROCESSED = false -> verify e (q_client r) (q_data r) (q_sig r) = true)
    else size (q_sig r) = 0) ->
   vRequest e sender (mkRequest ty r) = Ok tt).
Proof. intros. split; [apply (trip_requestOf e sender); auto|intros; apply trip_request; auto]. Qed.
Print Assumptions C39_requests_delivered.
(** Batches of requests come out as they went in. *)
Theorem C39_client_batches_delivered : forall e sender id cid l, sender <> me e -> fits 2 id -> fits 4 (size cid) -> fits 4 (size (concat (map (mkRequest 700) l))) -> (1 <= length l <= 1024)%nat -> Forall (inBatch e) l ->
  vClientBatch e sender (mkClientBatch id cid l) = Ok tt /\ clientBatch (mkClientBatch id cid l) = Ok (id, cid, map copied l).
Proof. intros. apply trip_clientBatch; auto. Qed.
Print Assumptions C39_client_batches_delivered.
Theorem C39_preprocess_requests_delivered : forall e sender from res r, sender <> me e -> preFits r -> fits 2 from -> fits 4 res ->
  (if size (b_sig r) =? 0 then True else signing e = true /\ verify e (b_client r) (b_data r) (b_sig r) = true) ->
  vPreReq e sender (mkPreReq from res r) = Ok tt /\ preReq (mkPreReq from res r) = Ok (b_client r, b_seq r, b_span r, b_data r, b_cid r).
Proof. intros. apply trip_preReq; auto. Qed.
Print Assumptions C39_preprocess_requests_delivered.
Theorem C39_preprocess_batches_delivered : forall e sender ty id from vw res cid l, sender <> me e -> fits 4 ty -> fits 2 id -> fits 2 from -> fits 8 vw -> fits 4 res -> fits 4 (size cid) ->
  fits 4 (size (concat (map (mkPreReq from res) l))) -> (1 <= length l <= 1024)%nat -> Forall (preIn e) l ->
  vPreBatch e sender (mkPreBatch ty id from vw res cid l) = Ok tt /\ preBatch (mkPreBatch ty id from vw res cid l) = Ok (id, vw, cid, l).
Proof. intros. apply trip_preBatch; auto. Qed.
Print Assumptions C39_preprocess_batches_delivered.
Theorem C39_preprocess_replies_delivered : forall e from c r, prFits r -> fits 2 from -> fits 2 c -> from <> me e ->
  (p_status r = 0 -> size (p_sig r) = sigLen e from /\ verify e from (p_hash r) (p_sig r) = true) ->
  vPreReply e (mkPreReply from c r) = Ok tt /\ preReplyCid (mkPreReply from c r) = Ok (p_cid r) /\ (p_status r = 0 -> preReplySig e (mkPreReply from c r) = Ok (from, p_hash r, p_sig r)).
Proof. intros. apply (trip_preReply e _ (oth (me e))); auto. Qed.
Print Assumptions C39_preprocess_replies_delivered.
(** Batches of replies, when each fits a message of 1024 bytes. *)
Theorem C39_reply_batches_delivered_partial : forall e sender id from vw cid l, sender <> me e -> fits 2 id -> fits 2 from -> fits 8 vw -> fits 4 (size cid) -> fits 4 (size (concat (map (mkPreReply from id) l))) ->
  (1 <= length l <= 1024)%nat -> Forall (replyIn e from) l ->
  vReplyBatch e sender (mkReplyBatch id from vw cid l) = Ok tt /\ replyBatch e (mkReplyBatch id from vw cid l) = Ok (id, from, cid, l).
Proof. intros. apply trip_replyBatch; auto. Qed.
Print Assumptions C39_reply_batches_delivered_partial.

(** * What an accepted signature covers. *)
Lemma num_prefix m n t o k : part m 0 n = Ok t -> o + k <= n -> num t o k = num m o k /\ part t o k = part m o k.
Proof.
  unfold num, part. rewrite N.add_0_l. destruct (n <=? size m) eqn:Q; [|discriminate]. apply N.leb_le in Q. intros X L. injection X as <-. change (N.to_nat 0) with 0%nat.
  assert (Sz : size (slice m 0 (N.to_nat n)) = n). { unfold size, slice in *. rewrite firstn_length. cbn [skipn]. lia. }
  rewrite Sz, (proj2 (N.leb_le _ _)) by lia. rewrite (proj2 (N.leb_le (o + k) (size m))) by lia. cbn [bind].
  assert (S : slice (slice m 0 (N.to_nat n)) (N.to_nat o) (N.to_nat k) = slice m (N.to_nat o) (N.to_nat k)).
  { unfold slice. cbn [skipn]. rewrite skipn_firstn_comm. rewrite firstn_firstn. f_equal. lia. }
  rewrite S. auto.
Qed.
Lemma part_size m o k x : part m o k = Ok x -> size x = k.
Proof. unfold part. destruct (o + k <=? size m) eqn:Q; [|discriminate]. apply N.leb_le in Q. intros Y. injection Y as <-. unfold size, slice in *. rewrite firstn_length, skipn_length. lia. Qed.
Lemma bind_inv {A B} (x : out A) (f : A -> out B) b : bind x f = Ok b -> exists a, x = Ok a /\ f a = Ok b.
Proof. destruct x; cbn; intros H; try discriminate. eauto. Qed.
Lemma need_inv b u : need b = Ok u -> b = true. Proof. destruct b; cbn; auto. discriminate. Qed.
Ltac un H := match type of H with
  | bind _ _ = Ok _ => let a := fresh "a" in let X := fresh "X" in apply bind_inv in H; destruct H as (a & X & H); cbv beta in H; un X; un H
  | need _ = Ok _ => apply need_inv in H
  | _ => idtac end.
(** The signed bytes alone determine every field. *)
Theorem C39_checkpoint_signed : forall e sender m c, vCheckpoint e sender m = Ok tt -> ckpt m = Ok c ->
  sender <> me e /\ isReplica e (ck_gen c) = true /\ exists text sig, verify e (ck_gen c) text sig = true /\ size sig = sigLen e (ck_gen c) /\ ckpt text = Ok c.
Proof.
  intros e s m c H C. unfold vCheckpoint in H. un H. 
  match goal with X : part m 0 129 = Ok ?t, V : verify e ?g ?t ?sg = true, G : num m 126 2 = Ok ?g, S : part m _ _ = Ok ?sg |- _ =>
    assert (Ck : ckpt t = Ok c) by (rewrite <- C; unfold ckpt; repeat match goal with |- context [num t ?o ?k] => rewrite (proj1 (num_prefix m 129 t o k X ltac:(lia))) | |- context [part t ?o ?k] => rewrite (proj2 (num_prefix m 129 t o k X ltac:(lia))) end; reflexivity);
    assert (Cg : ck_gen c = g) by (unfold ckpt in C; un C; injection C as <-; cbn [ck_gen]; congruence); rewrite Cg; split; [|split; [|exists t, sg; split; [|split]]]; auto end.
  - unfold assert, other in *. destruct (N.eqb_spec s (me e)); cbn in *; [discriminate|auto].
  - eauto using part_size.
Qed.
Print Assumptions C39_checkpoint_signed.
Theorem C39_leave_signed : forall e m g v r, vLeave e m = Ok tt -> leave m = Ok (g, v, r) ->
  isReplica e g = true /\ num m 16 8 = Ok (epoch e) /\ exists text sig, verify e g text sig = true /\ leave text = Ok (g, v, r) /\ num text 16 8 = Ok (epoch e).
Proof.
  intros e m g v r H C. unfold vLeave in H. un H. 
  match goal with X : part m 0 27 = Ok ?t, V : verify e ?g' ?t ?sg = true, G : num m 6 2 = Ok ?g' |- _ =>
    assert (Ck : leave t = Ok (g, v, r)) by (rewrite <- C; unfold leave; repeat match goal with |- context [num t ?o ?k] => rewrite (proj1 (num_prefix m 27 t o k X ltac:(lia))) end; reflexivity);
    assert (Ce : num t 16 8 = num m 16 8) by (apply (proj1 (num_prefix m 27 t 16 8 X ltac:(lia))));
    assert (Cg : g = g') by (unfold leave in C; un C; injection C; intros; congruence); subst g'; split; [auto|]; 
    match goal with E : (?ep =? epoch e) = true |- _ => apply N.eqb_eq in E; subst ep end; split; [auto|]; exists t, sg; split; [auto|split; [auto|congruence]] end.
Qed.
Print Assumptions C39_leave_signed.
Theorem C39_ready_signed : forall e m c, vReady e m = Ok tt -> ready m = Ok c ->
  let g := fst (fst (fst c)) in isReplica e g = true /\ exists text sig, verify e g text sig = true /\ ready text = Ok c /\ num text 16 8 = Ok (epoch e).
Proof.
  intros e m c H C. unfold vReady, span in H. un H. 
  match goal with X : part m 0 ?n = Ok ?t, V : verify e ?g' ?t ?sg = true, G : num m 6 2 = Ok ?g', P : num m 2 4 = Ok ?sp, L : num m 27 2 = Ok ?xl |- _ =>
    assert (Ck : ready t = Ok c) by (rewrite <- C; unfold ready, span; repeat match goal with |- context [num t ?o ?k] => rewrite (proj1 (num_prefix m n t o k X ltac:(lia))) end;
      rewrite P, L; cbn [bind]; rewrite (proj2 (num_prefix m n t (29 + sp) xl X ltac:(lia))); reflexivity);
    assert (Ce : num t 16 8 = num m 16 8) by (apply (proj1 (num_prefix m n t 16 8 X ltac:(lia))));
    assert (Cg : fst (fst (fst c)) = g') by (unfold ready in C; un C; injection C as <-; cbn [fst]; congruence); cbv zeta; rewrite Cg; split; [auto|];
    match goal with E : (?ep =? epoch e) = true |- _ => apply N.eqb_eq in E; subst ep end; exists t, sg; split; [auto|split; [auto|congruence]] end.
Qed.
Print Assumptions C39_ready_signed.
(** A request of an external client, with data, not preprocessed and not a special one: the data are signed by the client it names. *)
Theorem C39_request_signed : forall e sender m r, vRequest e sender m = Ok tt -> requestOf m = Ok r -> isExternal e (q_client r) = true -> isReplica e (q_client r) || isRo e (q_client r) = false -> signing e = true ->
  N.testbit (q_flags r) RECONFIG = false -> N.testbit (q_flags r) PREPROCESSED = false -> size (q_data r) <> 0 -> verify e (q_client r) (q_data r) (q_sig r) = true.
Proof.
  intros e s m r H C Ex Nr Sg R P D. unfold requestOf, requestAt in C. rewrite !N.add_0_l in C. unfold span in *. un C. injection C as <-. cbn [q_client q_flags q_data q_sig] in *.
  unfold vRequest, span in H.
  repeat match type of H with bind (num m ?o ?k) _ = _ => first [match goal with N : num m o k = Ok _ |- _ => rewrite N in H end; cbn [bind] in H | fail 1]
    | bind (need ?b) _ = _ => destruct b; cbn [need bind] in H; [|discriminate H]
    | bind (assert ?b) _ = _ => destruct b; cbn [assert bind] in H; [|discriminate H]
    | (if ?c && (_ || _) then _ else _) = _ => rewrite Nr, andb_false_r in H end.
  cbv zeta in H. rewrite Ex, R, Sg in H. cbn [andb negb] in H.
  match goal with N : num m 28 4 = Ok ?rl, Q : part m _ ?rl = Ok ?d |- _ => rewrite (part_size _ _ _ _ Q) in D; apply N.eqb_neq in D; rewrite D in H end. cbn [andb negb] in H.
  repeat match type of H with bind (need ?b) _ = _ => destruct b; cbn [need bind] in H; [|discriminate H] end.
  match goal with Q : N.testbit _ PREPROCESSED = false |- _ => rewrite Q in H end. cbn [negb] in H.
  match goal with Q : part m _ ?rl = Ok ?d, G : part m _ ?sl = Ok ?g |- verify _ _ ?d ?g = _ => rewrite Q in H; cbn [bind] in H; rewrite G in H; destruct (sl =? 0) eqn:Z;
    [apply N.eqb_eq in Z; apply part_size in G; rewrite Z in G; assert (Y : g = []) by (destruct g; [reflexivity|unfold size in G; cbn [length] in G; lia]); rewrite Y in *|] end;
  cbn [bind] in H; apply need_inv in H; exact H.
Qed.
Print Assumptions C39_request_signed.
(** The sequence number is not covered: a request can be given another number. *)
Theorem C39_request_number_signed_refuted : exists e sender r r' m m', vRequest e sender m = Ok tt /\ requestOf m = Ok r /\ vRequest e sender m' = Ok tt /\ requestOf m' = Ok r' /\
  q_client r = q_client r' /\ q_data r = q_data r' /\ q_sig r = q_sig r' /\ q_seq r <> q_seq r' /\ isExternal e (q_client r) = true /\ signing e = true.
Proof.
  exists E0, 1. exists (mkReq 5 0 0 7 0 0 [] [1; 2] [] (sg0 [1; 2]) []), (mkReq 5 0 0 8 0 0 [] [1; 2] [] (sg0 [1; 2]) []).
  exists (mkRequest 700 (mkReq 5 0 0 7 0 0 [] [1; 2] [] (sg0 [1; 2]) [])), (mkRequest 700 (mkReq 5 0 0 8 0 0 [] [1; 2] [] (sg0 [1; 2]) [])).
  repeat split; vm_compute; try reflexivity. discriminate.
Qed.
Print Assumptions C39_request_number_signed_refuted.
(** A reply to a preprocess request with good status: its hash is signed by the replica it names. *)
Theorem C39_preprocess_reply_signed : forall e m from h sg, vPreReply e m = Ok tt -> num m 20 4 = Ok 0 -> preReplySig e m = Ok (from, h, sg) -> verify e from h sg = true /\ from <> me e.
Proof.
  intros e m from h sg H Z C. unfold vPreReply in H. unfold preReplySig in C. un C. un H. injection C as <- <- <-.
  rewrite Z in X7. injection X7 as <-. rewrite X in X5. injection X5 as <-. cbn [N.eqb] in H. rewrite X0, X1 in H. destruct (84 + sigLen e a <=? size m); cbn [need bind] in H; [|discriminate H].
  apply need_inv in H. split; auto. apply negb_true_iff, N.eqb_neq in X6. auto.
Qed.
Print Assumptions C39_preprocess_reply_signed.

(** * What is read outside. *)
Fixpoint put (n : nat) : bytes := match n with O => [] | S n => 0 :: put n end.
Definition bad (m : bytes) : Prop := Forall isByte m /\ received m.
Ltac isbad := split; [repeat constructor|vm_compute; discriminate].
Definition readyBad : bytes := le 2 607 ++ le 4 0.
Definition proofBad : bytes := le 2 608 ++ le 4 0 ++ le 2 1 ++ le 8 9 ++ le 8 1 ++ le 1 0 ++ le 2 3 ++ le 4 0 ++ le 2 607 ++ le 4 0 ++ le 2 1 ++ le 8 9 ++ le 8 1 ++ le 2 1 ++ le 1 0 ++ le 2 60000 ++ put 1.
Definition newViewBad : bytes := le 2 604 ++ le 4 (2 ^ 16 - 24 - 3 * 34) ++ le 8 1 ++ le 8 1 ++ le 2 3.
Definition replyBad : bytes := le 2 800 ++ le 4 0.
Definition clientBatchBad : bytes := le 2 750 ++ le 4 0 ++ le 2 5 ++ le 4 1 ++ le 4 0.
Definition preBatchBad : bytes := le 2 610 ++ le 4 0 ++ le 4 0 ++ le 2 5 ++ le 2 1 ++ le 4 0 ++ le 4 1 ++ le 4 0 ++ le 8 0.
Definition summaryBad : bytes := put 10.
(** Checking a message reads outside of it: a ready message of six bytes, a proof with a wrong length in its last element, a new view with a
    large span length, a reply of six bytes, batches without requests, short state transfer messages. *)
Theorem C39_validation_inside_refuted : exists e sender, sender <> me e /\
  (bad readyBad /\ vReady e readyBad = Outside) /\ (bad proofBad /\ vReadyProof e proofBad = Outside) /\ (bad newViewBad /\ vNewView e sender newViewBad = Outside) /\
  (bad replyBad /\ vReply replyBad = Outside) /\ (bad clientBatchBad /\ vClientBatch e sender clientBatchBad = Outside) /\ (bad preBatchBad /\ vPreBatch e sender preBatchBad = Outside) /\
  (bad summaryBad /\ stEnter e sender [] = Outside /\ stSummary summaryBad = Outside /\ stItem 10 summaryBad = Outside).
Proof. exists E0, 1. split; [discriminate|]. repeat match goal with |- _ /\ _ => split | |- bad _ => isbad end; vm_compute; reflexivity. Qed.
Print Assumptions C39_validation_inside_refuted.

(** Accepted messages whose fields are outside: lengths that wrap, requests that call themselves reconfiguration, batches whose last
    request is cut, span lengths in two places, correlation ids longer than the message, unverified replies. *)
Definition replyWrap : bytes := le 2 800 ++ le 4 0 ++ le 2 1 ++ le 8 7 ++ le 4 0 ++ le 4 (2 ^ 32 - 20) ++ le 4 0.
Definition requestSpecial : bytes := le 2 700 ++ le 4 0 ++ le 2 1 ++ le 8 (2 ^ RECONFIG) ++ le 4 0 ++ le 8 7 ++ le 4 1000 ++ le 8 0 ++ le 4 0 ++ le 2 0 ++ le 4 0 ++ le 2 0.
Definition clientBatchCut : bytes := le 2 750 ++ le 4 0 ++ le 2 5 ++ le 4 1 ++ le 4 52 ++ le 2 700 ++ le 4 0 ++ le 2 5 ++ le 8 0 ++ le 4 0 ++ le 8 7 ++ le 4 60 ++ le 8 0 ++ le 4 0 ++ le 2 1 ++ le 4 0 ++ le 2 0.
Definition preBatchCut : bytes := le 2 610 ++ le 4 0 ++ le 4 0 ++ le 2 5 ++ le 2 1 ++ le 4 0 ++ le 4 1 ++ le 4 66 ++ le 8 0 ++
  le 2 609 ++ le 4 0 ++ le 4 0 ++ le 8 7 ++ le 2 5 ++ le 2 0 ++ le 2 1 ++ le 4 60 ++ le 4 0 ++ le 4 0 ++ le 8 0 ++ le 2 1 ++ le 8 0 ++ le 4 0 ++ le 8 0.
Definition replyBatchCut : bytes := le 2 612 ++ le 4 0 ++ le 2 5 ++ le 2 1 ++ le 4 0 ++ le 4 1 ++ le 4 0 ++ le 8 0.
Definition preReqTwice : bytes := le 2 609 ++ le 4 1000 ++ le 4 0 ++ le 8 7 ++ le 2 5 ++ le 2 0 ++ le 2 1 ++ le 4 0 ++ le 4 0 ++ le 4 0 ++ le 8 0 ++ le 2 0 ++ le 8 0 ++ le 4 0 ++ le 8 0.
Definition preReplyCidBad : bytes := le 2 611 ++ le 4 0 ++ le 8 7 ++ le 2 1 ++ le 2 5 ++ le 2 0 ++ le 4 1 ++ le 4 0 ++ put 32 ++ le 4 0 ++ le 4 1000 ++ le 8 0 ++ le 8 0.
Theorem C39_accepted_inside_refuted : exists e sender, sender <> me e /\
  (bad replyWrap /\ vReply replyWrap = Ok tt /\ reply replyWrap = Outside) /\ (bad requestSpecial /\ vRequest e sender requestSpecial = Ok tt /\ requestOf requestSpecial = Outside) /\
  (bad clientBatchCut /\ vClientBatch e sender clientBatchCut = Ok tt /\ clientBatch clientBatchCut = Outside) /\
  (bad preBatchCut /\ vPreBatch e sender preBatchCut = Ok tt /\ preBatch preBatchCut = Outside) /\
  (bad replyBatchCut /\ vReplyBatch e sender replyBatchCut = Ok tt /\ replyBatch e replyBatchCut = Outside) /\
  (bad preReqTwice /\ vPreReq e sender preReqTwice = Ok tt /\ preReq preReqTwice = Outside) /\
  (bad preReplyCidBad /\ vPreReply e preReplyCidBad = Ok tt /\ preReplyCid preReplyCidBad = Outside /\ preReplySig e preReplyCidBad = Outside).
Proof. exists E0, 1. split; [discriminate|]. repeat match goal with |- _ /\ _ => split | |- bad _ => isbad end; vm_compute; reflexivity. Qed.
Print Assumptions C39_accepted_inside_refuted.

(** A batch of replies that a correct replica makes: its reply with a long correlation id does not fit the message it is copied to. *)
Theorem C39_reply_batches_delivered_refuted : exists e sender id from vw cid l, sender <> me e /\ prFits (hd (mkPr 0 0 0 [] [] [] 0 0 0) l) /\ length l = 1%nat /\ size (p_sig (hd (mkPr 0 0 0 [] [] [] 0 0 0) l)) = sigLen e from /\
  vReplyBatch e sender (mkReplyBatch id from vw cid l) = Ok tt /\ replyBatch e (mkReplyBatch id from vw cid l) = Outside.
Proof.
  exists E0, 1, 5, 1, 0, [], [mkPr 7 0 0 (put 32) [0] (put 1000) 1 0 0]. split; [discriminate|]. split; [vm_compute; repeat split; reflexivity|].
  repeat split; vm_compute; reflexivity.
Qed.
Print Assumptions C39_reply_batches_delivered_refuted.

(** A signed preprocess request stops a replica whose clients do not sign. *)
Definition E1 : env := mkEnv 0 (fun i => i <? 4) (fun _ => false) (fun i => (4 <=? i) && (i <? 10)) (fun i => i <? 10) 1 (fun v => v mod 4) 4 1 0 20 (fun _ _ => true) (fun _ => 1) (fun _ _ _ => true) false.
Theorem C39_preprocess_request_stops_refuted : exists e sender m, bad m /\ sender <> me e /\ vPreReq e sender m = Crash.
Proof. exists E1, 1, (mkPreReq 1 0 (mkPre 0 5 0 7 0 0 0 [] [1; 2] [] [2])). split; [isbad|]. split; [discriminate|vm_compute; reflexivity]. Qed.
Print Assumptions C39_preprocess_request_stops_refuted.

(** A question for a checkpoint shorter than its span is accepted; one longer than its span says is refused. *)
Theorem C39_ask_whole_refuted : exists e sender m, bad m /\ sender <> me e /\ vAsk e sender m = Ok tt /\ (exists sp, span m = Ok sp /\ part m 6 sp = Outside).
Proof. exists E0, 1, (le 2 613 ++ le 4 1000). split; [isbad|]. split; [discriminate|]. split; [vm_compute; reflexivity|]. exists 1000. split; vm_compute; reflexivity. Qed.
Print Assumptions C39_ask_whole_refuted.

(** Proofs that replicas are ready: ready messages of an earlier epoch make one that is accepted; ready messages of correct replicas with a
    span context make one that is refused. *)
Definition rd0 (ep g : N) (sp : bytes) : bytes := mkReady sg0 ep g 9 0 1 [] sp.
Theorem C39_ready_proof_epoch_refuted : exists e m g ep l, m = mkReadyProof (epoch e) g 9 0 [] (map (fun i => mkReady sg0 ep i 9 0 1 [] []) l) /\ ep <> epoch e /\ vReadyProof e m = Ok tt.
Proof. exists E0. eexists. exists 1, 0, [1; 2; 3]. split; [reflexivity|]. split; [discriminate|]. vm_compute. reflexivity. Qed.
Print Assumptions C39_ready_proof_epoch_refuted.
Theorem C39_ready_proofs_delivered_refuted : exists e l g sp, (forall i, In i l -> vReady e (mkReady sg0 (epoch e) i 9 0 1 [] sp) = Ok tt) /\ NoDup l /\ nReplicas e - fVal e <= N.of_nat (length l) /\
  vReadyProof e (mkReadyProof (epoch e) g 9 0 [] (map (fun i => mkReady sg0 (epoch e) i 9 0 1 [] sp) l)) = Refuse.
Proof.
  exists E0, [1; 2; 3], 1, [7; 7; 7]. split; [|split; [|split]].
  - intros i [<-|[<-|[<-|[]]]]; vm_compute; reflexivity.
  - repeat constructor; cbn; intuition discriminate.
  - vm_compute. discriminate.
  - vm_compute. reflexivity.
Qed.
Print Assumptions C39_ready_proofs_delivered_refuted.
(** One replica's message three times is a proof. *)
Theorem C39_ready_proof_signers_refuted : exists e g, vReadyProof e (mkReadyProof (epoch e) g 9 0 [] (map (fun i => mkReady sg0 (epoch e) i 9 0 1 [] []) [2; 2; 2])) = Ok tt.
Proof. exists E0, 1. vm_compute. reflexivity. Qed.
Print Assumptions C39_ready_proof_signers_refuted.

(** The client: a reply whose lengths do not match its size. *)
Definition clientBad : bytes := le 2 800 ++ le 4 0 ++ le 2 1 ++ le 8 7 ++ le 4 0 ++ le 4 1000 ++ le 4 0.
Theorem C39_client_inside_refuted : exists limit m, bad m /\ clientReceive limit m = Outside.
Proof. exists 2000, clientBad. split; [isbad|vm_compute; reflexivity]. Qed.
Print Assumptions C39_client_inside_refuted.
(** A replica's reply comes out as it was put in, with the replica specific part at its end. *)
Theorem C39_replies_received : forall limit pr q r d i, fits 2 pr -> fits 8 q -> fits 4 r -> size d + size i < 2 ^ 32 -> 28 + size d + size i <= limit ->
  clientReceive limit (mkReply pr q r (size i) (d ++ i)) = Ok (pr, q, r, d, i).
Proof.
  intros limit pr q r d i F1 F2 F3 L Lm. assert (fits 4 (size (d ++ i))). { rewrite size_app. exact L. } assert (fits 4 (size i)). { unfold fits. change (256 ^ 4) with (2 ^ 32). lia. }
  assert (Sz : size (mkReply pr q r (size i) (d ++ i)) = 28 + size d + size i). { unfold mkReply, base. szr. lia. }
  unfold clientReceive. rewrite Sz. revert Sz. unfold mkReply, base. open. intros Sz.
  assert (T : fits 2 800) by reflexivity. assert (Z0 : fits 4 0) by reflexivity.
  eapply bind_ok; [apply need_ok, negb_true_iff, N.eqb_neq; lia|]. cbv beta. eapply bind_ok; [apply need_ok, N.leb_le; lia|]. cbv beta. eapply bind_ok; [apply need_ok, N.leb_le; lia|]. cbv beta.
  eapply bind_ok; [rd|]. cbv beta. eapply bind_ok; [reflexivity|]. cbv beta.
  do 4 (eapply bind_ok; [rd|]; cbv beta). eapply bind_ok. { unfold size at 1. cbn [length]. rd. } cbv beta. eapply bind_ok; [rd|]. cbv beta zeta.
  rewrite size_app. replace ((size d + size i + 2 ^ 32 - size i) mod 2 ^ 32) with (size d).
  2:{ replace (size d + size i + 2 ^ 32 - size i) with (size d + 1 * 2 ^ 32) by lia. rewrite N.mod_add by lia. rewrite N.mod_small; lia. }
  eapply bind_ok; [rd|]. cbv beta. eapply bind_ok; [rd|]. reflexivity.
Qed.
Print Assumptions C39_replies_received.

(** * The hypotheses are met. *)
Example ex_share : vPartial E0 1 (mkShare 614 1 4 7 [] [1; 2; 3]) = Ok tt /\ share (mkShare 614 1 4 7 [] [1; 2; 3]) = Ok (4, 7, [], [1; 2; 3]). Proof. split; vm_compute; reflexivity. Qed.
Example ex_nv : sortedFrom None [(0, 1 :: put 31); (2, 2 :: put 31); (3, 3 :: put 31)] /\ vNewView E0 1 (mkNewView 1 5 [] [(0, 1 :: put 31); (2, 2 :: put 31); (3, 3 :: put 31)]) = Ok tt.
Proof. split; [vm_compute; repeat split; reflexivity|vm_compute; reflexivity]. Qed.
Example ex_ck : vCheckpoint E0 1 (mkCheckpoint sg0 1 150 7 (1 :: put 31) (put 32) (put 32) 2 true [9]) = Ok tt. Proof. vm_compute. reflexivity. Qed.
Example ex_rd : vReady E0 (mkReady sg0 1 2 300 1 1 [5; 6] [9]) = Ok tt. Proof. vm_compute. reflexivity. Qed.
Example ex_cb : let r := mkReq 5 0 0 7 0 0 [3] [1; 2] [4] (sg0 [1; 2]) [] in inBatch E0 r /\ vClientBatch E0 1 (mkClientBatch 5 [8] [r; r]) = Ok tt.
Proof. cbv zeta. split; [repeat split|]; vm_compute; reflexivity. Qed.
Example ex_st : exists m, vStatus E0 1 m = Ok tt. Proof. exists (le 2 615 ++ le 4 0 ++ le 8 1 ++ le 8 150 ++ le 8 200 ++ le 8 1 ++ le 1 3 ++ put 3). vm_compute. reflexivity. Qed.

(** What is accepted is of the receiver's epoch, and from a replica of the right role: another replica; for a slow path start and a new view the primary of its view; for shares the receiver is the
    primary of their view; a partial proof has reached its collector. *)
Theorem C39_accepted_roles : forall e sender m,
  (vAck e sender m = Ok tt -> num m 22 8 = Ok (epoch e) /\ isReplica e sender = true /\ sender <> me e) /\
  (vSlow e sender m = Ok tt -> num m 22 8 = Ok (epoch e) /\ exists v, num m 6 8 = Ok v /\ primaryOf e v = sender) /\
  (vMissing e sender m = Ok tt -> num m 22 8 = Ok (epoch e) /\ isReplica e sender = true /\ sender <> me e) /\
  (vProof e sender m = Ok tt -> num m 22 8 = Ok (epoch e) /\ isReplica e sender = true /\ sender <> me e) /\
  (vFull e sender m = Ok tt -> num m 22 8 = Ok (epoch e) /\ isReplica e sender = true /\ sender <> me e) /\
  (vPartial e sender m = Ok tt -> num m 22 8 = Ok (epoch e) /\ isReplica e sender = true /\ sender <> me e /\ exists v, num m 6 8 = Ok v /\ primaryOf e v = me e) /\
  (vPartProof e sender m = Ok tt -> num m 22 8 = Ok (epoch e) /\ isReplica e sender = true /\ sender <> me e /\ exists v s, num m 6 8 = Ok v /\ num m 14 8 = Ok s /\ collects e v s = true) /\
  (vNewView e sender m = Ok tt -> num m 14 8 = Ok (epoch e) /\ isReplica e sender = true /\ sender <> me e /\ (exists v, num m 6 8 = Ok v /\ primaryOf e v = sender) /\
     num m 22 2 = Ok ((2 * fVal e + 2 * cVal e + 1) mod 2 ^ 16)).
Proof.
  assert (P : forall e s, peer e s = true -> isReplica e s = true /\ s <> me e).
  { intros e s H. unfold peer, other in H. apply andb_true_iff in H as [H1 H2]. split; auto. intros ->. rewrite N.eqb_refl in H1. discriminate. }
  assert (O : forall e s, other e s = true -> s <> me e). { intros e s H ->. unfold other in H. rewrite N.eqb_refl in H. discriminate. }
  intros e sender m. repeat match goal with |- _ /\ _ => split end; intros H; unfold vAck, vSlow, vMissing, vProof, vPartial, vFull, vPartProof, vNewView, span in H; un H;
    repeat match goal with E : (_ =? _) = true |- _ => apply N.eqb_eq in E end; repeat match goal with |- _ /\ _ => split end; try congruence; try (apply (P e); assumption); try (apply (O e); assumption); eauto 6; try (unfold nvExpected in *; congruence).
Qed.
Print Assumptions C39_accepted_roles.
