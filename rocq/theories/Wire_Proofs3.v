(** Signed messages, client messages and batches: accepted and read back. *)
From Coq Require Import List Arith NArith ZArith Bool Lia.
From Verif Require Import Lib_Bytes Wire_Model Wire_Proofs Wire_Proofs2.
Import ListNotations.
Local Open Scope N_scope.
Local Open Scope wire_scope.

Lemma num_in pre a rest o k x : num a o k = Ok x -> num (pre ++ a ++ rest) (size pre + o) k = Ok x.
Proof.
  intros N. rewrite num_skip by lia. replace (size pre + o - size pre) with o by lia.
  revert N. unfold num, part. destruct (o + k <=? size a) eqn:Q; [|discriminate]. apply N.leb_le in Q. rewrite (proj2 (N.leb_le _ _)) by (rewrite size_app; lia).
  cbn [bind]. intros <-. do 2 f_equal. unfold slice. rewrite skipn_app, firstn_app, skipn_length.
  replace (N.to_nat k - (length a - N.to_nat o))%nat with 0%nat by (unfold size in *; lia). cbn [firstn]. apply app_nil_r.
Qed.
Ltac signs := match goal with Sl : forall t, size (?sign t) = _, Sv : forall t, verify _ _ t (?sign t) = true |- context [?sign ?h] =>
  assert (Sl' := Sl h); assert (Sv' := Sv h); generalize dependent (sign h); intros sg Sl' Sv' end.
Section Signed.
Context (e : env) (sender : N) (Hs : sender <> me e).
Section Sign.
Context (g : N) (sign : bytes -> bytes) (Sl : forall t, size (sign t) = sigLen e g) (Sv : forall t, verify e g t (sign t) = true) (Hg : isReplica e g = true) (Fg : fits 2 g).
Let Ho := other_ok e sender Hs.

Lemma trip_checkpoint ep s st d1 d2 d3 stb sp : isReplica e sender = true -> fits 8 ep -> fits 8 s -> Z.rem (signed s) 150 = 0%Z -> fits 8 st ->
  size d1 = 32 -> size d2 = 32 -> size d3 = 32 -> isZero d1 && isZero d2 && isZero d3 = false -> fits 4 (size sp) ->
  let m := mkCheckpoint sign ep s st d1 d2 d3 g stb sp in vCheckpoint e sender m = Ok tt /\ ckpt m = Ok (mkCk s ep st d1 d2 d3 g stb).
Proof.
  intros Hr F1 F2 R F3 L1 L2 L3 Z F4. cbv zeta.
  assert (F5 : fits 1 (if stb then 1 else 0)). { destruct stb; reflexivity. }
  assert (R' : (Z.rem (signed s) 150 =? 0)%Z = true) by (apply Z.eqb_eq; auto).
  unfold mkCheckpoint. cbv zeta. signs.
  assert (P : part (ckHeader (size sp) ep s st d1 d2 d3 g stb ++ sp ++ sg) 0 129 = Ok (ckHeader (size sp) ep s st d1 d2 d3 g stb)).
  { apply part_here; auto. unfold ckHeader. sz. }
  revert P Sv'. unfold ckHeader. open. intros P Sv'. split.
  - unfold vCheckpoint. ev. rewrite Z. reflexivity.
  - unfold ckpt. ev. do 2 f_equal. destruct stb; reflexivity.
Qed.
Lemma trip_leave v r sp : fits 8 v -> fits 1 r -> fits 4 (size sp) -> fits 8 (epoch e) -> fits 2 (sigLen e g) ->
  let m := mkLeave sign (epoch e) g v r (sigLen e g) sp in vLeave e m = Ok tt /\ leave m = Ok (g, v, r).
Proof.
  intros F1 F2 F3 F4 F5. unfold mkLeave. cbv zeta. signs.
  match type of Sv' with verify _ _ ?h _ = _ => assert (P : part (h ++ sp ++ sg) 0 27 = Ok h) by (apply part_here; auto; unfold base; sz) end.
  revert P Sv'. unfold base. open. intros P Sv'. split.
  - unfold vLeave. ev.
  - unfold leave. ev.
Qed.
Lemma trip_ready s r x sp : fits 8 s -> r <= 1 -> fits 2 (size x) -> fits 4 (size sp) -> fits 8 (epoch e) -> fits 2 (sigLen e g) ->
  let m := mkReady sign (epoch e) g s r (sigLen e g) x sp in vReady e m = Ok tt /\ ready m = Ok (g, s, r, if r =? 0 then [] else x).
Proof.
  intros F1 F2 F3 F4 F5 F6. unfold mkReady. cbv zeta. signs.
  assert (F7 : fits 1 r) by (unfold fits; lia).
  match type of Sv' with verify _ _ ?h _ = _ => assert (P : part (h ++ sg) 0 (29 + size sp + size x) = Ok h) by (apply part_here; auto; unfold base; sz) end.
  revert P Sv'. unfold base. open. intros P Sv'. split.
  - unfold vReady. cbv zeta. ev. assert (r = 0 \/ r = 1) as [X|X] by lia; rewrite X; reflexivity.
  - unfold ready. ev. destruct (r =? 0); ev.
Qed.
End Sign.
(** The reply of a replica. *)
Lemma trip_reply pr q r il b : fits 2 pr -> fits 8 q -> fits 4 r -> fits 4 il -> 28 + size b < 2 ^ 32 ->
  vReply (mkReply pr q r il b) = Ok tt /\ reply (mkReply pr q r il b) = Ok (q, r, b).
Proof.
  intros F1 F2 F3 F4 L. assert (F5 : fits 4 (size b)). { unfold fits. change (256 ^ 4) with (2 ^ 32). lia. }
  unfold mkReply, base. open. split.
  - unfold vReply. ev. rewrite N.mod_small by lia. apply N.leb_le. sz.
  - unfold reply. ev.
Qed.
Lemma trip_ask sp : fits 4 (size sp) -> vAsk e sender (base 613 sp ++ sp) = Ok tt.
Proof. intros. unfold base, vAsk. open. ev. apply other_ok; auto. Qed.

(** Requests of clients. *)
Lemma request_at ty r pre rest (tail : N -> N -> out bytes) : reqFits r ->
  tail (size pre + 52 + size (q_span r) + size (q_data r) + size (q_cid r) + size (q_sig r)) (size (q_extra r)) = Ok (q_extra r) ->
  requestAt (pre ++ mkRequest ty r ++ rest) (size pre) tail = Ok r.
Proof.
  intros (F1 & F2 & F3 & F4 & F5 & F6 & F7 & F8 & F9 & F10 & F11) T. unfold requestAt, mkRequest, base. open. ev. exact T. destruct r; reflexivity.
Qed.
Lemma size_request ty r : size (mkRequest ty r) = 52 + size (q_span r) + size (q_data r) + size (q_cid r) + size (q_sig r) + size (q_extra r).
Proof. unfold mkRequest, base. sz. Qed.
Lemma trip_requestOf ty r : reqFits r -> requestOf (mkRequest ty r) = Ok r.
Proof.
  intros F. unfold requestOf. rewrite <- (app_nil_r (mkRequest ty r)). apply (request_at ty r [] []); auto.
  rewrite app_nil_r, size_request. cbn [app]. rewrite (proj2 (N.leb_le _ _)) by lia. unfold mkRequest, base. open. rd.
Qed.
Lemma trip_request ty r : reqFits r -> N.testbit (q_flags r) RECONFIG = false -> N.testbit (q_flags r) INTERNAL = false -> isPrincipal e (q_client r) = true -> isPrincipal e sender = true ->
  (if isExternal e (q_client r) && signing e && negb (size (q_data r) =? 0)
   then size (q_sig r) <> 0 /\ size (q_sig r) = sigLen e (q_client r) /\ (N.testbit (q_flags r) PREPROCESSED = false -> verify e (q_client r) (q_data r) (q_sig r) = true)
   else size (q_sig r) = 0) ->
  vRequest e sender (mkRequest ty r) = Ok tt.
Proof.
  intros (F1 & F2 & F3 & F4 & F5 & F6 & F7 & F8 & F9 & F10 & F11) R I P1 P2 G.
  assert (Ho := other_ok e sender Hs). unfold vRequest, mkRequest, base. open.
  eapply bind_ok; [ev|]. cbv beta. eapply bind_ok; [apply need_ok; apply N.leb_le; sz|]. cbv beta.
  eapply bind_ok; [rd|]. cbv beta. eapply bind_ok; [rd|]. cbv beta zeta. rewrite R, I. cbn [orb andb negb].
  eapply bind_ok; [apply assert_ok; auto|]. cbv beta. eapply bind_ok; [rd|]. cbv beta. eapply bind_ok; [rd|]. cbv beta.
  eapply bind_ok; [apply need_ok; apply N.leb_le; sz|]. cbv beta. eapply bind_ok; [apply need_ok; auto|]. cbv beta. eapply bind_ok; [apply need_ok; auto|]. cbv beta.
  eapply bind_ok; [rd|]. cbv beta. eapply bind_ok; [rd|]. cbv beta zeta. rewrite !andb_true_r, !andb_false_r.
  destruct (isExternal e (q_client r) && signing e && negb (size (q_data r) =? 0)); cbn [andb negb orb].
  - destruct G as (G1 & G2 & G3). assert (G1' := G1). rewrite G2 in G1'. apply N.eqb_neq in G1, G1'. rewrite G1, G1'. cbn [negb].
    eapply bind_ok; [reflexivity|]. cbv beta. eapply bind_ok; [apply need_ok; apply N.eqb_eq; auto|]. cbv beta.
    eapply bind_ok; [apply need_ok; apply N.eqb_eq; sz|]. cbv beta. destruct (N.testbit (q_flags r) PREPROCESSED); cbn [negb]; [reflexivity|].
    eapply bind_ok; [rd|]. cbv beta. eapply bind_ok; [rd|]. cbv beta. apply need_ok; auto.
  - rewrite G. eapply bind_ok; [reflexivity|]. cbv beta. eapply bind_ok; [reflexivity|]. cbv beta.
    eapply bind_ok; [apply need_ok; apply N.eqb_eq; szr; lia|]. reflexivity.
Qed.

(** Batches of client requests. *)
Notation body l := (concat (map (mkRequest 700) l)).
Lemma trip_cbLoop l : forall pre m, m = pre ++ body l -> Forall (inBatch e) l -> cbLoop e m (length l) (size pre) = Ok tt.
Proof.
  induction l as [|r l IH]; intros pre m E H; cbn [map concat length cbLoop]; auto. inversion H as [|x y ((F1 & F2 & F3 & F4 & F5 & F6 & F7 & F8 & F9 & F10 & F11) & X & G) H']; subst x y.
  specialize (IH (pre ++ mkRequest 700 r) m). rewrite <- app_assoc in IH. specialize (IH E H'). rewrite size_app, size_request, X, size_nil in IH.
  replace (size pre + (52 + size (q_span r) + size (q_data r) + size (q_cid r) + size (q_sig r) + 0)) with (size pre + 52 + size (q_span r) + size (q_data r) + size (q_cid r) + size (q_sig r)) in IH by lia.
  assert (L : 52 + size (q_span r) + size (q_data r) + size (q_cid r) + size (q_sig r) <= size m). { rewrite E. cbn [map concat]. rewrite !size_app, size_request. lia. }
  assert (Rd : forall o k x, num (mkRequest 700 r) o k = Ok x -> num m (size pre + o) k = Ok x).
  { intros o k x N. rewrite E. apply num_in. exact N. }
  unfold mkRequest, base in Rd. repeat rewrite <- app_assoc in Rd.
  eapply bind_ok; [apply Rd; rd|]. cbv beta. eapply bind_ok; [apply Rd; rd|]. cbv beta. eapply bind_ok; [apply need_ok; apply N.eqb_eq; auto|]. cbv beta.
  eapply bind_ok; [apply Rd; rd|]. cbv beta. eapply bind_ok; [apply need_ok; apply N.leb_le; lia|]. cbv beta.
  eapply bind_ok; [apply Rd; rd|]. cbv beta. eapply bind_ok; [apply need_ok; apply N.leb_le; lia|]. cbv beta.
  eapply bind_ok; [apply Rd; rd|]. cbv beta. exact IH.
Qed.
Lemma trip_cbParse l : forall pre, Forall (inBatch e) l -> cbParse (pre ++ body l) (length l) (size pre) = Ok (map copied l).
Proof.
  induction l as [|r l IH]; intros pre H; cbn [map concat length cbParse]; auto. inversion H as [|x y (F & X & G) H']; subst x y.
  specialize (IH (pre ++ mkRequest 700 r) H'). rewrite <- app_assoc in IH. rewrite size_app, size_request, X, size_nil in IH.
  replace (size pre + (52 + size (q_span r) + size (q_data r) + size (q_cid r) + size (q_sig r) + 0)) with (size pre + 52 + size (q_span r) + size (q_data r) + size (q_cid r) + size (q_sig r)) in IH by lia.
  eapply bind_ok; [apply request_at; auto; rewrite X; reflexivity|]. cbv beta. eapply bind_ok; [exact IH|]. reflexivity.
Qed.
Lemma trip_clientBatch id cid l : fits 2 id -> fits 4 (size cid) -> fits 4 (size (body l)) -> (1 <= length l <= 1024)%nat -> Forall (inBatch e) l ->
  let m := mkClientBatch id cid l in vClientBatch e sender m = Ok tt /\ clientBatch m = Ok (id, cid, map copied l).
Proof.
  intros F1 F2 F3 L H. cbv zeta. assert (F4 : fits 4 (N.of_nat (length l))). { unfold fits. lia. }
  assert (Ho := other_ok e sender Hs).
  set (pre := le 2 750 ++ len4 cid ++ le 2 id ++ le 4 (N.of_nat (length l)) ++ len4 (body l) ++ cid).
  assert (E : mkClientBatch id cid l = pre ++ body l). { unfold mkClientBatch, pre. open. reflexivity. }
  assert (Lp : size pre = 16 + size cid). { unfold pre. sz. }
  assert (X1 := trip_cbLoop l pre _ eq_refl H). assert (X2 := trip_cbParse l pre H). rewrite Lp, <- E in *. 
  unfold vClientBatch, clientBatch. split.
  - revert X1. unfold mkClientBatch. cbv zeta. open. intros X1. ev.
    + apply andb_true_iff. split; [apply negb_true_iff, N.eqb_neq|apply N.leb_le]; lia.
    + rewrite Nat2N.id. exact X1.
  - revert X2. unfold mkClientBatch. cbv zeta. open. intros X2. ev. { rewrite Nat2N.id. exact X2. }
Qed.

(** Preprocess requests, single and in batches. *)
Lemma size_pre from res r : size (mkPreReq from res r) = 66 + size (b_span r) + size (b_data r) + size (b_cid r) + size (b_sig r).
Proof. unfold mkPreReq, base. sz. Qed.
Lemma pre_at from res r pre rest : preFits r -> fits 2 from -> fits 4 res -> preAt (pre ++ mkPreReq from res r ++ rest) (size pre) = Ok r.
Proof. intros (F1 & F2 & F3 & F4 & F5 & F6 & F7 & F8 & F9 & F10 & F11) F12 F13. unfold preAt, mkPreReq, base. open. ev. destruct r; reflexivity. Qed.
Lemma trip_preReq from res r : preFits r -> fits 2 from -> fits 4 res ->
  (if size (b_sig r) =? 0 then True else signing e = true /\ verify e (b_client r) (b_data r) (b_sig r) = true) ->
  let m := mkPreReq from res r in vPreReq e sender m = Ok tt /\ preReq m = Ok (b_client r, b_seq r, b_span r, b_data r, b_cid r).
Proof.
  intros (F1 & F2 & F3 & F4 & F5 & F6 & F7 & F8 & F9 & F10 & F11) F12 F13 G. assert (Ho := other_ok e sender Hs). cbv zeta. unfold mkPreReq, base. open. split.
  - unfold vPreReq. ev. destruct (size (b_sig r) =? 0) eqn:Z; [reflexivity|]. destruct G as [G1 G2]. ev.
  - unfold preReq. ev.
Qed.
Notation pbody f s l := (concat (map (mkPreReq f s) l)).
Lemma trip_pbLoop from res l : fits 2 from -> fits 4 res -> forall pre m, m = pre ++ pbody from res l -> Forall (preIn e) l -> pbLoop e m (length l) (size pre) = Ok tt.
Proof.
  intros Fa Fb. induction l as [|r l IH]; intros pre m E H; cbn [map concat length pbLoop]; auto. inversion H as [|x y ((F1 & F2 & F3 & F4 & F5 & F6 & F7 & F8 & F9 & F10 & F11) & G) H']; subst x y.
  specialize (IH (pre ++ mkPreReq from res r) m). rewrite <- app_assoc in IH. specialize (IH E H'). rewrite size_app, size_pre in IH.
  replace (size pre + (66 + size (b_span r) + size (b_data r) + size (b_cid r) + size (b_sig r))) with (size pre + 66 + size (b_span r) + size (b_data r) + size (b_cid r) + size (b_sig r)) in IH by lia.
  assert (L : 66 + size (b_span r) + size (b_data r) + size (b_cid r) + size (b_sig r) <= size m). { rewrite E. cbn [map concat]. rewrite !size_app, size_pre. lia. }
  assert (Rd : forall o k x, num (mkPreReq from res r) o k = Ok x -> num m (size pre + o) k = Ok x).
  { intros o k x N. rewrite E. apply num_in. exact N. }
  unfold mkPreReq, base in Rd. repeat rewrite <- app_assoc in Rd.
  eapply bind_ok; [apply Rd; rd|]. cbv beta. eapply bind_ok; [apply Rd; rd|]. cbv beta. eapply bind_ok; [apply need_ok; apply N.eqb_eq; auto|]. cbv beta.
  eapply bind_ok; [apply Rd; rd|]. cbv beta. eapply bind_ok; [apply need_ok; apply N.leb_le; lia|]. cbv beta.
  eapply bind_ok; [apply Rd; rd|]. cbv beta. eapply bind_ok; [apply need_ok; apply N.leb_le; lia|]. cbv beta.
  eapply bind_ok; [apply Rd; rd|]. cbv beta. exact IH.
Qed.
Lemma trip_pbParse from res l : fits 2 from -> fits 4 res -> forall pre, Forall (preIn e) l -> pbParse (pre ++ pbody from res l) (length l) (size pre) = Ok l.
Proof.
  intros Fa Fb. induction l as [|r l IH]; intros pre H; cbn [map concat length pbParse]; auto. inversion H as [|x y (F & G) H']; subst x y.
  specialize (IH (pre ++ mkPreReq from res r) H'). rewrite <- app_assoc in IH. rewrite size_app, size_pre in IH.
  replace (size pre + (66 + size (b_span r) + size (b_data r) + size (b_cid r) + size (b_sig r))) with (size pre + 66 + size (b_span r) + size (b_data r) + size (b_cid r) + size (b_sig r)) in IH by lia.
  eapply bind_ok; [apply pre_at; auto|]. cbv beta. eapply bind_ok; [exact IH|]. reflexivity.
Qed.
Lemma trip_preBatch ty id from vw res cid l : fits 4 ty -> fits 2 id -> fits 2 from -> fits 8 vw -> fits 4 res -> fits 4 (size cid) -> fits 4 (size (pbody from res l)) ->
  (1 <= length l <= 1024)%nat -> Forall (preIn e) l ->
  let m := mkPreBatch ty id from vw res cid l in vPreBatch e sender m = Ok tt /\ preBatch m = Ok (id, vw, cid, l).
Proof.
  intros F1 F2 F3 F4 F5 F6 F7 L H. cbv zeta. assert (F8 : fits 4 (N.of_nat (length l))). { unfold fits. lia. }
  assert (Ho := other_ok e sender Hs).
  set (pre := base 610 [] ++ le 4 ty ++ le 2 id ++ le 2 from ++ len4 cid ++ le 4 (N.of_nat (length l)) ++ len4 (pbody from res l) ++ le 8 vw ++ cid).
  assert (E : mkPreBatch ty id from vw res cid l = pre ++ pbody from res l). { unfold mkPreBatch, pre. open. reflexivity. }
  assert (Lp : size pre = 34 + size cid). { unfold pre, base. sz. }
  assert (X1 := trip_pbLoop from res l F3 F5 pre _ eq_refl H). assert (X2 := trip_pbParse from res l F3 F5 pre H). rewrite Lp, <- E in *. 
  unfold vPreBatch, preBatch. split.
  - revert X1. unfold mkPreBatch, base. cbv zeta. open. intros X1. ev.
    + apply andb_true_iff. split; [apply negb_true_iff, N.eqb_neq|apply N.leb_le]; lia.
    + rewrite Nat2N.id. exact X1.
  - revert X2. unfold mkPreBatch, base. cbv zeta. open. intros X2. ev. rewrite Nat2N.id. exact X2.
Qed.

(** Replies of replicas to preprocess requests. *)
Lemma size_preReply from c r : size (p_hash r) = 32 -> size (mkPreReply from c r) = 84 + size (p_sig r) + size (p_cid r).
Proof. intros L. unfold mkPreReply, base. szr. lia. Qed.
Lemma trip_preReply from c r : prFits r -> fits 2 from -> fits 2 c -> from <> me e -> (p_status r = 0 -> size (p_sig r) = sigLen e from /\ verify e from (p_hash r) (p_sig r) = true) ->
  let m := mkPreReply from c r in vPreReply e m = Ok tt /\ preReplyCid m = Ok (p_cid r) /\ (p_status r = 0 -> preReplySig e m = Ok (from, p_hash r, p_sig r)).
Proof.
  intros (F1 & F2 & F3 & F4 & F5 & F6 & F7 & F8 & F9) F10 F11 N G. apply N.eqb_neq in N. cbv zeta. 
  assert (Lm := size_preReply from c r F7). revert Lm. unfold mkPreReply, base. open. intros Lm. split; [|split].
  - unfold vPreReply. rewrite Lm. eapply bind_ok; [apply need_ok, N.leb_le; lia|]. cbv beta. eapply bind_ok; [rd|]. cbv beta.
    eapply bind_ok; [apply need_ok, N.leb_le; lia|]. cbv beta. eapply bind_ok; [rd|]. cbv beta. eapply bind_ok; [apply need_ok; rewrite N; reflexivity|]. cbv beta. eapply bind_ok; [rd|]. cbv beta.
    destruct (N.eqb_spec (p_status r) 0) as [Z|Z]; [|reflexivity]. destruct (G Z) as [G1 G2].
    eapply bind_ok; [apply need_ok, N.leb_le; lia|]. cbv beta. eapply bind_ok; [rd|]. cbv beta. eapply bind_ok; [rd|]. cbv beta. apply need_ok. auto.
  - unfold preReplyCid. rewrite Lm. eapply bind_ok; [rd|]. cbv beta. rewrite (proj2 (N.leb_le _ _)) by lia. rd.
  - intros Z. destruct (G Z) as [G1 G2]. unfold preReplySig. ev.
Qed.
Notation rbody f c l := (concat (map (mkPreReply f c) l)).
Lemma trip_rbParse from c l : fits 2 from -> fits 2 c -> forall pre, Forall (replyIn e from) l -> rbParse e (pre ++ rbody from c l) (sigLen e from) (length l) (size pre) = Ok l.
Proof.
  intros Fa Fb. induction l as [|r l IH]; intros pre H; cbn [map concat length rbParse]; auto. inversion H as [|x y (F & G & B) H']; subst x y.
  destruct F as (F1 & F2 & F3 & F4 & F5 & F6 & F7 & F8 & F9).
  specialize (IH (pre ++ mkPreReply from c r) H'). rewrite <- app_assoc in IH. rewrite size_app, size_preReply, G in IH by auto.
  replace (size pre + (84 + sigLen e from + size (p_cid r))) with (size pre + 84 + sigLen e from + size (p_cid r)) in IH by lia.
  apply bind_ok with r; [|cbv beta; rewrite IH; reflexivity].
  unfold replyAt, mkPreReply, base. open. ev. rewrite (proj2 (N.leb_le _ _)) by lia. destruct r; reflexivity.
Qed.
Lemma trip_replyBatch id from vw cid l : fits 2 id -> fits 2 from -> fits 8 vw -> fits 4 (size cid) -> fits 4 (size (rbody from id l)) -> (1 <= length l <= 1024)%nat -> Forall (replyIn e from) l ->
  let m := mkReplyBatch id from vw cid l in vReplyBatch e sender m = Ok tt /\ replyBatch e m = Ok (id, from, cid, l).
Proof.
  intros F1 F2 F3 F4 F5 L H. cbv zeta. assert (F8 : fits 4 (N.of_nat (length l))). { unfold fits. lia. }
  assert (Ho := other_ok e sender Hs).
  set (pre := base 612 [] ++ le 2 id ++ le 2 from ++ len4 cid ++ le 4 (N.of_nat (length l)) ++ len4 (rbody from id l) ++ le 8 vw ++ cid).
  assert (E : mkReplyBatch id from vw cid l = pre ++ rbody from id l). { unfold mkReplyBatch, pre. open. reflexivity. }
  assert (Lp : size pre = 30 + size cid). { unfold pre, base. sz. }
  assert (X2 := trip_rbParse from id l F2 F1 pre H). rewrite Lp, <- E in *. 
  unfold vReplyBatch, replyBatch. split.
  - unfold mkReplyBatch, base. cbv zeta. open. ev.
    apply andb_true_iff. split; [apply negb_true_iff, N.eqb_neq|apply N.leb_le]; lia.
  - revert X2. unfold mkReplyBatch, base. cbv zeta. open. intros X2. ev. rewrite Nat2N.id. exact X2.
Qed.

(** A proof of ready messages. *)
Notation rdy l := (concat (map (readyBytes e) l)).
Lemma size_ready x : (forall t, size (r_sign x t) = sigLen e (r_gen x)) -> size (readyBytes e x) = 29 + size (r_extra x) + sigLen e (r_gen x).
Proof. intros L. unfold readyBytes, mkReady, base. szr. rewrite L. lia. Qed.
Lemma part_in pre a rest o k x : part a o k = Ok x -> part (pre ++ a ++ rest) (size pre + o) k = Ok x.
Proof.
  intros N. rewrite part_skip by lia. replace (size pre + o - size pre) with o by lia.
  revert N. unfold part. destruct (o + k <=? size a) eqn:Q; [|discriminate]. apply N.leb_le in Q. rewrite (proj2 (N.leb_le _ _)) by (rewrite size_app; lia).
  intros <-. f_equal. unfold slice. rewrite skipn_app, firstn_app, skipn_length.
  replace (N.to_nat k - (length a - N.to_nat o))%nat with 0%nat by (unfold size in *; lia). cbn [firstn]. apply app_nil_r.
Qed.
Lemma trip_rpLoop seq cnt sl l : fits 8 (epoch e) -> (forall x, In x l -> sigLen e (r_gen x) = sl) -> forall pre m n fuel, m = pre ++ rdy l -> Forall (readyIn e seq) l -> (length l <= fuel)%nat -> n + N.of_nat (length l) = cnt ->
  rpLoop e m seq cnt sl fuel n (size pre) (size (rdy l)) = Ok (cnt, 0).
Proof.
  intros Fe. induction l as [|x l IH]; intros Hl pre m n fuel E H Lf Lc.
  - cbn [map concat length] in *. assert (X : (29 + sl <=? size []) = false) by (apply N.leb_gt; rewrite size_nil; lia).
    destruct fuel; cbn [rpLoop]; rewrite X; cbn [andb]; f_equal; f_equal; lia.
  - destruct fuel as [|fuel]; [cbn [length] in Lf; lia|]. cbn [length] in Lf, Lc. inversion H as [|x' y' K H']; subst x' y'.
    destruct K as (K1 & K2 & K3 & K4 & K5 & K6 & K7 & K8). assert (Sz := size_ready x K7). assert (Sx := Hl x (or_introl eq_refl)).
    specialize (IH (fun y Hy => Hl y (or_intror Hy)) (pre ++ readyBytes e x) m (n + 1) fuel). rewrite <- app_assoc in IH. specialize (IH E H'). rewrite size_app, Sz in IH.
    specialize (IH ltac:(lia) ltac:(lia)).
    assert (F7 : fits 1 (r_reason x)) by (unfold fits; lia).
    assert (Rd : forall o k v, num (readyBytes e x) o k = Ok v -> num m (size pre + o) k = Ok v). { intros o k v N. rewrite E. apply num_in. exact N. }
    assert (Rp : forall o k v, part (readyBytes e x) o k = Ok v -> part m (size pre + o) k = Ok v). { intros o k v N. rewrite E. apply part_in. exact N. }
    assert (P1 : exists h, part (readyBytes e x) 0 (29 + size (r_extra x)) = Ok h /\ part (readyBytes e x) (29 + size (r_extra x)) (sigLen e (r_gen x)) = Ok (r_sign x h)).
    { unfold readyBytes, mkReady. cbv zeta. eexists. split.
      - apply part_here; auto. unfold base. sz.
      - rewrite part_skip by (unfold base; sz). apply part_end; [unfold base; sz|]. rewrite K7. reflexivity. }
    destruct P1 as (h & P1 & P2). apply Rp in P1, P2. rewrite N.add_0_r in P1.
    assert (Rd' := Rd). unfold readyBytes, mkReady, base in Rd. cbv zeta in Rd. repeat rewrite <- app_assoc in Rd. 
    set (rm := size (rdy (x :: l))). assert (Erm : rm = 29 + size (r_extra x) + sigLen e (r_gen x) + size (rdy l)). { unfold rm. cbn [map concat]. rewrite size_app, Sz. reflexivity. }
    cbn [rpLoop]. replace ((29 + sl <=? rm) && (n <? cnt)) with true by (symmetry; apply andb_true_iff; rewrite N.leb_le, N.ltb_lt; lia).
    eapply bind_ok; [apply Rd; rd|]. cbv beta. eapply bind_ok; [apply need_ok; apply N.eqb_eq; auto|]. cbv beta.
    eapply bind_ok; [apply Rd; rd|]. cbv beta. eapply bind_ok. { apply need_ok. assert (r_reason x = 0 \/ r_reason x = 1) as [X|X] by lia; rewrite X; reflexivity. } cbv beta.
    eapply bind_ok; [apply Rd; rd|]. cbv beta. eapply bind_ok; [apply Rd; rd|]. cbv beta. eapply bind_ok; [apply Rd; rd|]. cbv beta.
    eapply bind_ok. { destruct (me e =? r_gen x); [reflexivity|]. eapply bind_ok; [exact P1|]. cbv beta. eapply bind_ok; [exact P2|]. cbv beta. apply need_ok. apply K8. } cbv beta.
    eapply bind_ok; [apply need_ok, N.leb_le; lia|]. cbv beta. replace (rm - (29 + size (r_extra x) + sigLen e (r_gen x))) with (size (rdy l)) by lia.
    exact IH.
Qed.
Lemma trip_readyProof g seq r sp l : isReplica e g = true -> fits 2 g -> fits 8 seq -> r <= 1 -> fits 4 (size sp) -> fits 8 (epoch e) -> fits 2 (N.of_nat (length l)) -> fits 4 (31 + size sp + size (rdy l)) ->
  Forall (readyIn e seq) l -> (forall x, In x l -> sigLen e (r_gen x) = sigLen e g) -> l <> [] -> nReplicas e - fVal e <= N.of_nat (length l) ->
  vReadyProof e (mkReadyProof (epoch e) g seq r sp (map (readyBytes e) l)) = Ok tt.
Proof.
  intros G F1 F2 F3 F4 F5 F6 F7 H Hl Ne Q. assert (F8 : fits 1 r) by (unfold fits; lia).
  set (m := mkReadyProof (epoch e) g seq r sp (map (readyBytes e) l)).
  set (pre := base 608 sp ++ le 2 g ++ le 8 seq ++ le 8 (epoch e) ++ le 1 r ++ le 2 (N.of_nat (length l)) ++ le 4 (31 + size sp + size (rdy l)) ++ sp).
  assert (E : m = pre ++ rdy l). { unfold m, mkReadyProof, pre. rewrite map_length. open. destruct l; [congruence|]. reflexivity. }
  assert (Lp : size pre = 31 + size sp). { unfold pre, base. sz. }
  assert (Lm : size m = 31 + size sp + size (rdy l)). { rewrite E, size_app. lia. }
  assert (X := trip_rpLoop seq (N.of_nat (length l)) (sigLen e g) l F5 Hl pre m 0 (length l) E H (le_n _) eq_refl).
  assert (Rd : forall o k v, num pre o k = Ok v -> num m o k = Ok v). { intros o k v N. rewrite E. apply (num_in [] pre (rdy l)). exact N. }
  unfold pre, base in Rd. repeat rewrite <- app_assoc in Rd. unfold vReadyProof, span.
  eapply bind_ok; [apply Rd; rd|]. cbv beta. eapply bind_ok; [apply need_ok, N.leb_le; lia|]. cbv beta.
  eapply bind_ok; [apply Rd; rd|]. cbv beta. eapply bind_ok; [apply need_ok; auto|]. cbv beta. eapply bind_ok; [apply Rd; rd|]. cbv beta. eapply bind_ok; [apply need_ok, N.eqb_eq; auto|]. cbv beta.
  eapply bind_ok; [apply Rd; rd|]. cbv beta. eapply bind_ok. { apply need_ok. assert (r = 0 \/ r = 1) as [Z|Z] by lia; rewrite Z; reflexivity. } cbv beta.
  eapply bind_ok; [apply Rd; rd|]. cbv beta. eapply bind_ok. { apply need_ok, N.leb_le. replace (31 + size sp + size (rdy l) =? 0) with false by (symmetry; apply N.eqb_neq; lia). lia. } cbv beta.
  eapply bind_ok; [apply Rd; rd|]. cbv beta. eapply bind_ok; [apply need_ok, N.leb_le; lia|]. cbv beta.
  eapply bind_ok; [apply Rd; rd|]. cbv beta. rewrite Nat2N.id. rewrite Lp in X. replace (size m - 31 - size sp) with (size (rdy l)) by lia.
  eapply bind_ok; [exact X|]. cbn [fst snd]. eapply bind_ok; [apply need_ok, N.eqb_refl|]. cbv beta. apply need_ok, N.eqb_eq.
  replace (0 <? N.of_nat (length l)) with true; [lia|]. symmetry. apply N.ltb_lt. destruct l; [congruence|]. cbn [length]. lia.
Qed.
End Signed.
