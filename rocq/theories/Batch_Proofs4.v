(** Proofs for Batch_Model: what one attempt to send puts into the message. *)
From Coq Require Import List Arith Bool Lia Permutation Sorted.
From Verif Require Import Batch_Model Batch_Proofs Batch_Proofs2 Batch_Proofs3.
Import ListNotations.

Section Attempt.
Context (k : cfg).
Lemma can_iff s r : canBecome k r (pend s) (done s) = true <-> admissible k s r.
Proof.
  unfold canBecome, admissible. rewrite !andb_true_iff, !negb_true_iff, Nat.eqb_neq. assert (M : forall l, mem (key r) l = false <-> ~ In (key r) l).
  { intros l. destruct (mem (key r) l) eqn:E; split; auto; try discriminate; [apply mem_in in E; contradiction|]. intros _ X. apply mem_in in X. congruence. }
  rewrite !M. tauto.
Qed.
Lemma ready_iff s : ready k s = true <-> maySend k s.
Proof.
  unfold ready, maySend, prim, stops, next. rewrite !andb_true_iff, !negb_true_iff, !orb_false_iff, !Nat.leb_le, !Nat.eqb_eq, Nat.eqb_neq.
  assert (Q : length (queue s) <> 0 <-> queue s <> []) by (destruct (queue s); cbn; split; congruence || discriminate).
  assert (S : match stopAt s with Some m => m <? last s + length (transit s) + 1 | None => false end = false <-> forall m, stopAt s = Some m -> last s + length (transit s) < m).
  { destruct (stopAt s) as [m|]; [rewrite Nat.ltb_ge; split; [intros H m' E; injection E as <-; lia|intros H; specialize (H m eq_refl); lia]|split; [intros _ m E; discriminate|auto]]. }
  rewrite Q, S. split; [intros [[[[[[H1 H2] H3] [[H4 H5] H6]] H7] H8] H9]|intros (H1 & H2 & H3 & H4 & H5 & H6 & H7 & H8 & H9)]; repeat split; auto; lia.
Qed.
Lemma fill_all cap d : forall q c n used p, exists b c' p', fill k all cap d q c n used p = (b, ([], c', p')).
Proof.
  induction q as [|r q IH]; intros c n used p; cbn [fill]; [eauto|]. unfold all at 1. destruct (_ && _).
  - destruct (IH (c - r_sz r) (S n) (used + r_sz r) (key r :: p)) as (b & c' & p' & ->). eauto.
  - destruct (IH (c - r_sz r) n used p) as (b & c' & p' & ->). eauto.
Qed.
Lemma queue_propose m s : queue (propose k m s) = queue s.
Proof. unfold propose. destruct (negb _); reflexivity. Qed.
Lemma build_all_empties s : queue (build k all s) = [].
Proof.
  unfold build. destruct (queue s) as [|r q] eqn:Q; [exact Q|]. destruct (fill_all (room k (combined s) (k_over k r)) (done s) (r :: q) (combined s) 0 0 (pend s)) as (b & c' & p' & ->). cbv zeta.
  destruct (_ =? 0); [reflexivity|]. destruct (k_async k); [reflexivity|]. rewrite queue_propose. reflexivity.
Qed.
Lemma flush_empties s : ready k s = true -> queue (try k false s) = [].
Proof. intros H. unfold try. rewrite H. cbn [negb]. apply build_all_empties. Qed.
Lemma self_empties s : ready k s = true -> k_policy k = SelfAdjusted -> last s = exec s -> queue (try k true s) = [].
Proof.
  intros R P E. unfold try. rewrite R. cbn [negb]. cbv zeta. unfold batch. destruct (length (queue (unDup k s)) =? 0) eqn:Z; [apply Nat.eqb_eq in Z; destruct (queue (unDup k s)); [reflexivity|discriminate]|].
  rewrite P. unfold selfAdjusted. cbv zeta. cbn [last exec queue withFactor]. assert (EL : last (unDup k s) = last s /\ exec (unDup k s) = exec s) by (unfold unDup; destruct (strip _ _ _ _ _); auto). destruct EL as [-> ->]. rewrite E. replace (exec s + 1 - exec s) with 1 by lia.
  cbn [Nat.leb]. apply Nat.eqb_neq in Z. destruct (Nat.ltb_spec (length (queue (unDup k s))) 1); [lia|]. apply build_all_empties.
Qed.
Lemma fill_num m cap d : forall q c n used p, n <= m -> n + length (fst (fill k (fun i _ => i <? m) cap d q c n used p)) <= m.
Proof.
  induction q as [|r q IH]; intros c n used p H; cbn [fill]; [cbn [fst length]; lia|]. destruct (Nat.ltb_spec n m) as [L|L]; [|cbn [fst length]; lia]. destruct (_ && _).
  - specialize (IH (c - r_sz r) (S n) (used + r_sz r) (key r :: p) ltac:(lia)). destruct (fill k _ cap d q _ _ _ _) as [b x]. cbn [fst length] in *. lia.
  - apply IH; lia.
Qed.
Lemma fill_size m cap d : forall q c n used p b0 x, fst (fill k (fun _ u => u <? m) cap d q c n used p) = b0 ++ [x] -> used + total b0 < m.
Proof.
  induction q as [|r q IH]; intros c n used p b0 x; cbn [fill]; [destruct b0; discriminate|]. destruct (Nat.ltb_spec used m) as [L|L]; [|destruct b0; discriminate]. destruct (_ && _); [|apply IH].
  specialize (IH (c - r_sz r) (S n) (used + r_sz r) (key r :: p)). destruct (fill k _ cap d q _ _ _ _) as [b y]. cbn [fst] in *. destruct b0 as [|z b0]; intros E; [change (total []) with 0; lia|]. injection E as -> E. specialize (IH b0 x E). rewrite total_cons. lia.
Qed.
(** The message that an attempt starts, if any. *)
Definition started (s s' : st) (b : list req) : Prop :=
  if k_async k then transit s' = transit s ++ [(view s, b)] else exists p, sent s' = sent s ++ [p] /\ p_reqs p = b.
Lemma build_started cont s b : started s (build k cont s) b -> exists r0 q, queue s = r0 :: q /\ b = fst (fill k cont (room k (combined s) (k_over k r0)) (done s) (queue s) (combined s) 0 0 (pend s)).
Proof.
  unfold started, build. assert (L : forall A (l : list A) x, l <> l ++ [x]) by (intros A l x E; apply (f_equal (@length A)) in E; rewrite app_length in E; cbn in E; lia).
  destruct (queue s) as [|r0 q] eqn:Q; [destruct (k_async k); [intros E; destruct (L _ _ _ E)|intros (p & E & _); destruct (L _ _ _ E)]|]. rewrite <- Q. intros H. exists r0, q. split; auto.
  destruct (fill k cont _ (done s) (queue s) (combined s) 0 0 (pend s)) as [b' [[q' c'] p']]. cbn [fst]. cbv zeta in H.
  destruct (_ =? 0); [fs; destruct (k_async k); [destruct (L _ _ _ H)|destruct H as (p & E & _); destruct (L _ _ _ E)]|]. destruct (k_async k); [fs; apply app_inj_tail in H as [_ H]; congruence|].
  destruct H as (p & E & Ep). unfold propose in E. destruct (negb _); fs; [destruct (L _ _ _ E)|]. apply app_inj_tail in E as [_ <-]. symmetry. exact Ep.
Qed.
Lemma started_unDup s s' b : started (unDup k s) s' b <-> started s s' b.
Proof. unfold started, unDup. destruct (strip _ _ _ _ _). reflexivity. Qed.
Lemma started_same s b : ~ started s s b.
Proof.
  unfold started. assert (L : forall A (l : list A) x, l <> l ++ [x]) by (intros A l x E; apply (f_equal (@length A)) in E; rewrite app_length in E; cbn in E; lia). destruct (k_async k); [apply L|intros (p & E & _); destruct (L _ _ _ E)].
Qed.
Lemma byNum_started m s b : started s (byNum k m s) b -> length b <= m.
Proof.
  unfold byNum. destruct (_ || _); [intros H; destruct (started_same _ _ H)|]. intros H. apply started_unDup in H. apply build_started in H as (r0 & q & _ & ->). exact (fill_num m _ _ _ _ 0 _ _ ltac:(lia)).
Qed.
Lemma bySize_started m s b x : started s (bySize k m s) (b ++ [x]) -> total b < m.
Proof.
  unfold bySize. destruct (_ || _); [intros H; destruct (started_same _ _ H)|]. intros H. apply started_unDup in H. apply build_started in H as (r0 & q & _ & E). symmetry in E. apply fill_size in E. exact E.
Qed.
Lemma try_byNum m s b : started s (try k true s) b -> k_policy k = ByNum m \/ (k_policy k = Adaptive /\ maxNum s = m) -> length b <= m.
Proof.
  unfold try. destruct (negb _); [intros H; destruct (started_same _ _ H)|]. cbv zeta. intros H HP. apply started_unDup in H. unfold batch in H. destruct (_ =? 0); [destruct (started_same _ _ H)|].
  destruct HP as [P|[P E]]; rewrite P in H; [|replace (maxNum (unDup k s)) with m in H by (unfold unDup; destruct (strip _ _ _ _ _); auto)]; eapply byNum_started; eauto.
Qed.
Lemma try_bySize m s b x : started s (try k true s) (b ++ [x]) -> k_policy k = BySize m -> total b < m.
Proof.
  unfold try. destruct (negb _); [intros H; destruct (started_same _ _ H)|]. cbv zeta. intros H P. apply started_unDup in H. unfold batch in H. destruct (_ =? 0); [destruct (started_same _ _ H)|]. rewrite P in H. eapply bySize_started; eauto.
Qed.
(** The first request that can be processed and fits an empty message is in the next message. *)
Lemma flush_head s r q : counted s -> ready k s = true -> queue s = r :: q -> canBecome k r (pend s) (done s) = true -> k_over k r + r_sz r <= k_maxMsg k -> exists b, started s (try k false s) (r :: b).
Proof.
  intros C R Q Cr Hs. unfold try. rewrite R. cbn [negb]. cbv zeta. unfold unDup. rewrite Q. cbn [strip]. rewrite Cr. assert (P := ready_prim k s R).
  unfold build. cbn [queue withQueue combined]. cbn [fill]. unfold all at 1.
  assert (L : r_sz r <=? room k (combined s) (k_over k r) - 0 = true).
  { apply Nat.leb_le. unfold room. rewrite C, Q, total_cons. destruct (_ <? _); lia. }
  rewrite L. fs. rewrite Cr. cbn [andb]. destruct (fill k all _ (done s) q _ 1 _ _) as [b [[q' c'] p']]. exists b. cbn [length Nat.eqb]. cbv zeta. unfold started.
  destruct (k_async k); [fs; reflexivity|]. unfold propose. unfold prim in *. fs. rewrite P. cbn [negb sent]. eexists. split; [reflexivity|reflexivity].
Qed.
End Attempt.
