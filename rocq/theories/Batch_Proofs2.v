(** Proofs for Batch_Model: invariants of runs. *)
From Coq Require Import List Arith Bool Lia Permutation Sorted.
From Verif Require Import Batch_Model Batch_Proofs.
Import ListNotations.

Ltac fs := cbn [view active queue combined last stable exec execs pend done transit collecting pruning wedged stopAt factor recent maxNum sent taken withQueue withPend withTransit withFactor setNums setView setFlags] in *.
Section Runs.
Context (k : cfg).
Lemma try_cases logic s : counted s -> try k logic s = s \/ ready k s = true /\ Sends k s (try k logic s).
Proof.
  intros C. destruct (ready k s) eqn:R; [right; split; auto; apply try_sends; exact C|left; apply try_not_ready; exact R].
Qed.
Definition enq (r : req) (s : st) : st :=
  mkSt (view s) (active s) (queue s ++ [r]) (combined s + r_sz r) (last s) (stable s) (exec s) (execs s) (pend s) (done s) (transit s) (collecting s) (pruning s) (wedged s) (stopAt s) (factor s) (recent s) (maxNum s)
                        (sent s) (taken s ++ [(view s, r)]).
Lemma onRequest_cases r s : onRequest k r s = s \/ (prim k s = false /\ onRequest k r s = withPend (key r :: pend s) (done s) s) \/ (prim k s = true /\ active s = true /\ onRequest k r s = try k true (enq r s)).
Proof.
  unfold onRequest. destruct (k_valid k (r_cl r)); cbn [negb]; [|auto]. destruct (prim k s) eqn:P; cbn [andb orb].
  - destruct (_ || _ || _) eqn:G; [auto|]. apply orb_false_iff in G as [_ A]. apply negb_false_iff in A. destruct (mem _ _); [auto|]. destruct (canBecome _ _ _ _); cbn [negb]; [|auto].
    destruct (_ <=? _); [auto|]. right. right. split; [auto|split; [auto|]]. unfold enq. fs. reflexivity.
  - destruct (_ || _) eqn:G; [auto|]. destruct (mem _ _); [auto|]. destruct (canBecome _ _ _ _); cbn [negb]; [|auto]. right. left. auto.
Qed.
Lemma clear_total q : forall c, c = total q -> clear q c = 0.
Proof.
  unfold clear. induction q as [|r q IH]; cbn [fold_left]; intros c H; [subst; reflexivity|]. apply IH. subst. rewrite total_cons. lia.
Qed.
Lemma ready_facts s : ready k s = true -> prim k s = true /\ active s = true /\ last s + length (transit s) + 1 <= stable s + k_win k /\ last s + length (transit s) + 1 <= exec s + k_conc k + execs s /\ queue s <> [].
Proof.
  unfold ready, next. rewrite !andb_true_iff, !negb_true_iff, !Nat.leb_le, Nat.eqb_neq. intros [[[[[[H1 _] H2] _] H3] H4] H5]. split; [exact H1|]. split; [exact H2|]. split; [lia|]. split; [lia|]. intros E. rewrite E in H5. apply H5. reflexivity.
Qed.
(** * What is counted, and the numbers. *)
Definition Base (s : st) : Prop := counted s /\ stable s <= exec s /\ exec s + execs s <= last s.
Lemma Base_sends s s' : Base s -> Sends k s s' -> Base s'.
Proof.
  intros (B1 & B2 & B3) (pop & b & H1 & _ & H3 & _ & _ & _ & H7 & _). apply env_fields in H1. destruct H1 as (E1 & E2 & E3 & E4 & E5 & _). unfold Base, counted. rewrite E3, E4, E5.
  split; auto. split; auto. unfold effect in H7. destruct b; [|destruct (k_async k)]; destruct H7 as (_ & -> & _); lia.
Qed.
Lemma Base_try logic s : Base s -> Base (try k logic s).
Proof. intros B. destruct (try_cases logic s (proj1 B)) as [->|[_ H]]; auto. eapply Base_sends; eauto. Qed.
Lemma Base_enq r s : Base s -> Base (enq r s).
Proof. intros (B1 & B2). split; auto. unfold counted, enq in *. fs. rewrite total_app, B1, total_cons. change (total []) with 0. lia. Qed.
Lemma Base_step s e : Base s -> Base (step k s e).
Proof.
  intros B. assert (B0 := B). destruct B0 as (B1 & B2 & B3). destruct e; cbn [step]; try (apply Base_try; exact B); try (split; [exact B1|split; [exact B2|exact B3]]; fail).
  - destruct (onRequest_cases r s) as [->|[[_ ->]|[_ [_ ->]]]]; auto. apply Base_try, Base_enq, B.
  - destruct (nth_error (transit s) i) as [m|]; auto. cbv zeta. destruct (_ || _); [split; auto|]. unfold propose. destruct (negb _); split; auto; fs; split; lia.
  - destruct (_ && _) eqn:G; auto. rewrite !andb_true_iff, !Nat.leb_le in G. split; auto. fs. lia.
  - destruct (_ && _) eqn:G; auto. split; [exact B1|]. fs. lia.
  - destruct (_ <? _); [split; auto|auto].
  - destruct (_ || _) eqn:G; auto. rewrite !orb_false_iff, !negb_false_iff, Nat.eqb_eq, !Nat.leb_le in G. split; [unfold counted; fs; apply clear_total, B1|fs; lia].
  - destruct (_ =? 0); [split; auto|auto].
Qed.
Lemma run_app l e : run k (l ++ [e]) = step k (run k l) e.
Proof. unfold run. rewrite fold_left_app. reflexivity. Qed.
Lemma Base_run l : Base (run k l).
Proof. induction l as [|e l IH] using rev_ind; [split; [reflexivity|cbn; lia]|]. rewrite run_app. apply Base_step, IH. Qed.

(** * What is sent. *)
Definition Lim (s : st) : Prop := transit s = [] \/
  (active s = true /\ prim k s = true /\ last s + length (transit s) <= stable s + k_win k /\ last s + length (transit s) <= exec s + execs s + k_conc k /\ Forall (fun m => fst m = view s /\ snd m <> []) (transit s)).
Definition Good (s : st) : Prop :=
  Lim s /\ (k_async k = false -> transit s = []) /\ (k_async k = true -> active s = true) /\
  Forall (good k) (sent s) /\ StronglySorted before (sent s) /\
  (forall p, In p (sent s) -> if active s then p_view p < view s \/ p_view p = view s /\ p_seq p <= last s else p_view p < view s).
Lemma sorted_snoc l p : StronglySorted before l -> (forall x, In x l -> before x p) -> StronglySorted before (l ++ [p]).
Proof.
  induction l as [|a l IH]; cbn; intros H K; [repeat constructor|]. inversion H; subst. constructor; [apply IH; auto|]. apply Forall_app. split; auto.
Qed.
Lemma Good_same s s' : view s' = view s -> active s' = active s -> stable s' = stable s -> exec s' = exec s -> execs s' = execs s -> sent s' = sent s -> last s' = last s -> transit s' = transit s -> Good s -> Good s'.
Proof.
  intros E1 E2 E3 E4 E5 H2 H3 H4. unfold Good, Lim, prim. rewrite E1, E2, E3, E4, E5, H2, H3, H4. tauto.
Qed.
(** A message sent now. *)
Lemma Good_new s s' b : Base s -> Good s -> active s = true -> prim k s = true -> b <> [] -> last s + 1 <= stable s + k_win k -> last s + 1 <= exec s + execs s + k_conc k ->
  view s' = view s -> active s' = active s -> stable s' = stable s -> exec s' = exec s -> execs s' = execs s ->
  sent s' = sent s ++ [mkPr (view s) (view s) (active s) (S (last s)) b (stable s) (exec s + execs s)] -> last s' = S (last s) -> Lim s' -> (k_async k = false -> transit s' = []) -> Good s'.
Proof.
  intros B (G1 & G2 & G3 & G4 & G5 & G6) A P Hb L1 L2 E1 E2 E3 E4 E5 E6 E7 HL HT. destruct B as (B1 & B2 & B3). split; [exact HL|]. split; [exact HT|]. split; [rewrite E2; auto|]. rewrite E6. split; [|split].
  - apply Forall_app. split; auto. constructor; [|constructor]. unfold good. cbn [p_msg p_view p_active p_seq p_reqs p_stable p_exec]. apply Nat.eqb_eq in P. split; auto. split; auto. split; auto. split; auto. split; lia.
  - apply sorted_snoc; auto. intros x Hx. specialize (G6 x Hx). rewrite A in G6. unfold before. cbn [p_view p_seq]. lia.
  - intros p Hp. rewrite E1, E2, A, E7. apply in_app_or in Hp as [Hp|[<-|[]]]; [specialize (G6 p Hp); rewrite A in G6; lia|right; cbn; lia].
Qed.
Lemma Good_sends s s' : Base s -> Good s -> ready k s = true -> Sends k s s' -> Good s'.
Proof.
  intros B G R (pop & b & H1 & _ & _ & _ & _ & _ & H7 & _). assert (H1' := H1). apply env_fields in H1. destruct H1 as (E1 & E2 & E3 & E4 & E5 & _). destruct (ready_facts s R) as (P & A & L1 & L2 & _).
  unfold effect in H7. destruct b as [|x b]; [destruct H7 as (S1 & S2 & S3); apply (Good_same s); auto|]. destruct (k_async k) eqn:As; destruct H7 as (S1 & S2 & S3).
  - destruct G as (G1 & G2 & G3 & G4 & G5 & G6). split; [|split; [intros X; congruence|split; [rewrite E2; auto|rewrite S1, E1, E2, S2; auto]]].
    right. unfold prim in *. rewrite E1, E2, E3, E4, E5, S2, S3, app_length. cbn [length]. split; auto. split; auto. split; [lia|]. split; [lia|]. apply Forall_app. split; [|constructor; [split; [reflexivity|discriminate]|constructor]].
    destruct G1 as [->|G1]; [constructor|apply G1].
  - destruct G as (G1 & G2 & G3). assert (T := G2 As). rewrite T in *. cbn [length] in *. apply (Good_new s s' (x :: b)); auto; try discriminate; try lia; [split; auto|left; congruence].
Qed.
Lemma Good_try logic s : Base s -> Good s -> Good (try k logic s).
Proof. intros B G. destruct (try_cases logic s (proj1 B)) as [->|[R H]]; auto. eapply Good_sends; eauto. Qed.
Lemma split_nth {A} (l : list A) i m : nth_error l i = Some m -> l = firstn i l ++ m :: skipn (S i) l.
Proof. intros H. apply nth_error_split in H as (a & b & -> & <-). rewrite firstn_app, Nat.sub_diag, firstn_all, skipn_app. cbn [firstn]. rewrite app_nil_r. f_equal. rewrite skipn_all2 by lia. replace (S (length a) - length a) with 1 by lia. reflexivity. Qed.
Lemma Good_step s e : Base s -> Good s -> (k_async k = true -> forall v, e <> Leave v) -> Good (step k s e).
Proof.
  intros B G He. assert (B0 := B). destruct B0 as (B1 & B2 & B3). assert (G0 := G). destruct G0 as (G1 & G2 & G3 & G4 & G5 & G6).
  destruct e; cbn [step]; try (apply Good_try; auto; fail); try (apply (Good_same s); try reflexivity; exact G).
  - destruct (onRequest_cases r s) as [->|[[_ ->]|[_ [_ ->]]]]; auto. apply Good_try; [apply Base_enq, B|exact G].
  - destruct (nth_error (transit s) i) as [m|] eqn:N; auto. cbv zeta. assert (Sp := split_nth _ _ _ N). remember (firstn i (transit s)) as a eqn:Ea. remember (skipn (S i) (transit s)) as c eqn:Ec. clear Ea Ec N.
    destruct G1 as [G1|(A & P & L1 & L2 & Fo)]; [rewrite G1 in Sp; destruct a; discriminate|]. rewrite Sp, app_length in L1, L2. cbn [length] in *. rewrite Sp in Fo. apply Forall_app in Fo as [Fa Fo]. inversion Fo as [|? ? [Fm Fm'] Fc]; subst.
    destruct (_ || _).
    + split; [|split; [intros X; specialize (G2 X); rewrite G2 in Sp; destruct a; discriminate|split; auto]]. right. fs. rewrite app_length. split; auto. split; auto. split; [lia|]. split; [lia|]. apply Forall_app. auto.
    + unfold propose. change (prim k (withTransit (a ++ c) s)) with (prim k s). rewrite P. cbn [negb]. apply (Good_new s _ (snd m)); auto; try lia; try (fs; rewrite ?Fm; reflexivity); try (fs; lia).
      * right. fs. rewrite app_length. split; auto. split; auto. split; [lia|]. split; [lia|]. apply Forall_app. auto.
      * intros X. specialize (G2 X). rewrite G2 in Sp. destruct a; discriminate.
  - destruct (_ && _) eqn:X; auto. rewrite !andb_true_iff, !Nat.leb_le in X. split; [|auto]. destruct G1 as [G1|(A & P & L1 & L2 & Fo)]; [left; auto|right]. fs. split; auto. split; auto. split; [lia|]. split; [lia|auto].
  - destruct (_ && _) eqn:X; auto. rewrite !andb_true_iff, Nat.ltb_lt, Nat.eqb_eq in X. split; [|split; auto; split; auto; split; auto; split; auto].
    + destruct G1 as [G1|(A & P & L1 & L2 & Fo)]; [left; auto|right]. fs. split; auto. split; auto. split; [lia|]. split; [lia|auto].
    + intros p Hp. specialize (G6 p Hp). fs. destruct (active s); lia.
  - destruct (view s <? v) eqn:X; auto. apply Nat.ltb_lt in X. destruct (k_async k) eqn:As; [exfalso; apply (He eq_refl v); reflexivity|]. split; [left; apply G2; auto|]. split; [auto|]. split; [intros Y; congruence|]. split; auto. split; auto.
    intros p Hp. specialize (G6 p Hp). fs. destruct (active s); lia.
  - destruct (_ || _) eqn:X; auto. rewrite !orb_false_iff, !negb_false_iff, Nat.eqb_eq, !Nat.leb_le in X. destruct X as [[[X1 X2] X3] X4]. rewrite X1 in *. destruct (k_async k) eqn:As; [discriminate (G3 eq_refl)|].
    split; [left; apply G2; auto|]. split; [auto|]. split; [intros Y; congruence|]. split; auto. split; auto. intros p Hp. specialize (G6 p Hp). fs. left. exact G6.
  - destruct (_ =? 0); [auto|apply (Good_same s); try reflexivity; exact G].
Qed.
Lemma steady_app l e : steady k (l ++ [e]) -> steady k l /\ (k_async k = true -> forall v, e <> Leave v).
Proof. intros H. split; intros A v X; apply (H A v), in_or_app; [auto|right; left; auto]. Qed.
Lemma Good_run l : steady k l -> Good (run k l).
Proof.
  induction l as [|e l IH] using rev_ind; intros H.
  - split; [left; reflexivity|]. split; [reflexivity|]. split; [reflexivity|]. split; [constructor|]. split; [constructor|intros p []].
  - apply steady_app in H as [H1 H2]. rewrite run_app. apply Good_step; auto. apply Base_run.
Qed.
End Runs.
