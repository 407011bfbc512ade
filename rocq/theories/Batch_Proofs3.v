(** Proofs for Batch_Model: order and uniqueness of the proposed requests. *)
From Coq Require Import List Arith Bool Lia Permutation Sorted.
From Verif Require Import Batch_Model Batch_Proofs Batch_Proofs2.
Import ListNotations.

Section Order.
Context (k : cfg).
Lemma proposed_eq v s s' : sent s' = sent s -> proposed v s' = proposed v s.
Proof. unfold proposed. intros ->. reflexivity. Qed.
Lemma proposed_snoc v s s' p : sent s' = sent s ++ [p] -> proposed v s' = proposed v s ++ (if p_view p =? v then p_reqs p else []).
Proof. unfold proposed. intros ->. rewrite filter_app, flat_map_app. cbn [filter]. destruct (_ =? v); cbn [flat_map]; rewrite ?app_nil_r; reflexivity. Qed.
Lemma takenIn_eq v s s' : taken s' = taken s -> takenIn v s' = takenIn v s.
Proof. unfold takenIn. intros ->. reflexivity. Qed.
Lemma takenIn_snoc v s s' x : taken s' = taken s ++ [x] -> takenIn v s' = takenIn v s ++ (if fst x =? v then [snd x] else []).
Proof. unfold takenIn. intros ->. rewrite filter_app, map_app. cbn [filter]. destruct (_ =? v); reflexivity. Qed.
Lemma proposed_none v s : Good k s -> (view s < v \/ active s = false /\ v = view s) -> proposed v s = [].
Proof.
  intros (_ & _ & _ & _ & _ & G) H. unfold proposed. assert (X : filter (fun p => p_view p =? v) (sent s) = []); [|rewrite X; reflexivity].
  induction (sent s) as [|p t IH]; auto. cbn [filter]. assert (Gp := G p (or_introl eq_refl)). destruct (Nat.eqb_spec (p_view p) v) as [E|E].
  - exfalso. destruct H as [H|[H1 H2]]; [destruct (active s); lia|rewrite H1 in Gp; lia].
  - apply IH. intros q Hq. apply G. right. exact Hq.
Qed.

Definition Fifo (s : st) : Prop :=
  (forall v, view s < v \/ active s = false /\ v = view s -> takenIn v s = []) /\
  (active s = true -> exists c, takenIn (view s) s = c ++ queue s /\ sub (proposed (view s) s) c) /\
  (forall v, sub (proposed v s) (takenIn v s)) /\
  (active s = true -> prim k s = true -> forall x, In x (pend s) -> In x (map key (proposed (view s) s))).
Lemma Fifo_sends s s' : k_async k = false -> Good k s -> Fifo s -> ready k s = true -> Sends k s s' -> Fifo s'.
Proof.
  intros As G (F1 & F2 & F3 & F4) R (pop & b & H1 & H2 & _ & H4 & H5 & _ & H7 & _). apply env_fields in H1. destruct H1 as (E1 & E2 & _ & _ & _ & _ & E7 & _). destruct (ready_facts k s R) as (P & A & _).
  destruct (F2 A) as (c & C1 & C2). specialize (F4 A P).
  assert (T : forall v, takenIn v s' = takenIn v s) by (intros v; apply takenIn_eq; exact E7).
  assert (Q : proposed (view s) s' = proposed (view s) s ++ b /\ forall v, v <> view s -> proposed v s' = proposed v s).
  { unfold effect in H7. rewrite As in H7. destruct b as [|x b]; destruct H7 as (S1 & _).
    - rewrite app_nil_r. split; [|intros v _]; apply proposed_eq; exact S1.
    - split; [|intros v Hv]; rewrite (proposed_snoc _ _ _ _ S1); cbn [p_view p_reqs]; [rewrite Nat.eqb_refl; reflexivity|destruct (Nat.eqb_spec (view s) v); [congruence|apply app_nil_r]]. }
  destruct Q as [Q1 Q2]. assert (C3 : takenIn (view s) s' = (c ++ pop) ++ queue s') by (rewrite T, C1, H2, app_assoc; reflexivity).
  assert (C4 : sub (proposed (view s) s') (c ++ pop)) by (rewrite Q1; apply sub_app; auto).
  split; [|split; [|split]].
  - rewrite E1, E2. intros v Hv. rewrite T. apply F1, Hv.
  - intros _. rewrite E1. exists (c ++ pop). auto.
  - intros v. destruct (Nat.eq_dec v (view s)) as [->|N]; [|rewrite Q2, T; auto]. rewrite C3. rewrite <- (app_nil_r (proposed (view s) s')). apply sub_app; [exact C4|apply sub_nil_l].
  - intros _ _ x Hx. rewrite E1, Q1, map_app. rewrite H5 in Hx. apply in_or_app. apply in_app_or in Hx as [Hx|Hx]; [right; apply in_rev; exact Hx|left; auto].
Qed.
Lemma Fifo_try logic s : k_async k = false -> Base s -> Good k s -> Fifo s -> Fifo (try k logic s).
Proof. intros As B G F. destruct (try_cases k logic s (proj1 B)) as [->|[R H]]; auto. eapply Fifo_sends; eauto. Qed.
Lemma Fifo_enq r s : active s = true -> Fifo s -> Fifo (enq r s).
Proof.
  intros A (F1 & F2 & F3 & F4). assert (T : forall v, takenIn v (enq r s) = takenIn v s ++ (if view s =? v then [r] else [])) by (intros v; apply (takenIn_snoc v s (enq r s) (view s, r)); reflexivity).
  split; [|split; [|split]].
  - intros v Hv. rewrite T. change (view (enq r s)) with (view s) in Hv. change (active (enq r s)) with (active s) in Hv. rewrite F1 by exact Hv. destruct (Nat.eqb_spec (view s) v); [|reflexivity]. exfalso. destruct Hv as [Hv|[Hv _]]; [lia|congruence].
  - intros _. change (view (enq r s)) with (view s). destruct (F2 A) as (c & C1 & C2). exists c. rewrite T, Nat.eqb_refl, C1, <- app_assoc. split; [reflexivity|exact C2].
  - intros v. rewrite T. rewrite <- (app_nil_r (proposed v (enq r s))). apply sub_app; [apply F3|apply sub_nil_l].
  - exact F4.
Qed.
Lemma Fifo_same s s' : view s' = view s -> active s' = active s -> queue s' = queue s -> sent s' = sent s -> taken s' = taken s -> (active s = true -> prim k s = true -> forall x, In x (pend s') -> In x (pend s)) -> Fifo s -> Fifo s'.
Proof.
  intros E1 E2 E3 E4 E5 E6 (F1 & F2 & F3 & F4). assert (T : forall v, takenIn v s' = takenIn v s) by (intros v; apply takenIn_eq; exact E5). assert (Q : forall v, proposed v s' = proposed v s) by (intros v; apply proposed_eq; exact E4).
  unfold Fifo, prim. rewrite E1, E2, E3. split; [|split; [|split]].
  - intros v Hv. rewrite T. auto.
  - intros A. rewrite T, Q. auto.
  - intros v. rewrite T, Q. auto.
  - intros A P x Hx. rewrite Q. apply F4; auto.
Qed.
Lemma Fifo_step s e : k_async k = false -> Base s -> Good k s -> Fifo s -> Fifo (step k s e).
Proof.
  intros As B G F. assert (F0 := F). destruct F0 as (F1 & F2 & F3 & F4). destruct e; cbn [step]; try (apply Fifo_try; auto; fail); try (apply (Fifo_same s); try reflexivity; auto; fail).
  - destruct (onRequest_cases k r s) as [->|[[P ->]|[_ [A ->]]]]; auto; [apply (Fifo_same s); try reflexivity; [congruence|exact F]|]. apply Fifo_try; [exact As|apply Base_enq, B|exact G|apply Fifo_enq; auto].
  - destruct G as (_ & G2 & _). rewrite (G2 As). destruct i; exact F.
  - destruct (_ && _); [apply (Fifo_same s); try reflexivity; auto|auto].
  - destruct (_ && _); [apply (Fifo_same s); try reflexivity; auto|auto].
  - apply (Fifo_same s); try reflexivity; auto. intros _ _ y Hy. apply filter_In in Hy. apply Hy.
  - destruct (view s <? v) eqn:X; [|auto]. apply Nat.ltb_lt in X. split; [|split; [|split]]; fs; try discriminate.
    + intros w Hw. rewrite (takenIn_eq w s) by reflexivity. apply F1. left. lia.
    + intros w. apply F3.
  - destruct (_ || _) eqn:X; [auto|]. rewrite !orb_false_iff, !negb_false_iff, Nat.eqb_eq, !Nat.leb_le in X. destruct X as [[[A _] _] _].
    set (s' := withPend _ _ _). assert (T : forall v, takenIn v s' = takenIn v s) by (intros v; apply takenIn_eq; reflexivity). assert (Q : forall v, proposed v s' = proposed v s) by (intros v; apply proposed_eq; reflexivity).
    split; [|split; [|split]].
    + intros v Hv. rewrite T. apply F1. change (view s') with (view s) in Hv. destruct Hv as [Hv|[Hv _]]; [left; auto|discriminate].
    + intros _. exists []. change (view s') with (view s). change (queue s') with (@nil req). rewrite T, Q, F1, (proposed_none _ _ G) by auto. split; constructor.
    + intros v. rewrite T, Q. auto.
    + intros _ _ x [].
  - destruct (_ =? 0); [auto|apply (Fifo_same s); try reflexivity; auto].
Qed.
Lemma sync_steady l : k_async k = false -> steady k l.
Proof. intros H X. congruence. Qed.
Lemma Fifo_run l : k_async k = false -> Fifo (run k l).
Proof.
  intros As. induction l as [|e l IH] using rev_ind.
  - split; [reflexivity|]. split; [intros _; exists []; split; constructor|]. split; [intros v; constructor|intros _ _ x []].
  - rewrite run_app. apply Fifo_step; auto; [apply Base_run|apply Good_run, sync_steady, As].
Qed.

(** * No request twice. *)
Definition open (s : st) : list req := proposed (view s) s ++ flat_map snd (transit s).
Definition Once (s : st) : Prop :=
  (forall v, NoDup (map key (proposed v s))) /\
  (active s = true -> NoDup (map key (open s)) /\ forall r, In r (open s) -> In (key r) (pend s) \/ In (key r) (done s)).
Lemma nodup_app {A} (a b : list A) : NoDup a -> NoDup b -> (forall x, In x a -> ~ In x b) -> NoDup (a ++ b).
Proof. induction a as [|x a IH]; cbn; intros H K D; auto. inversion H; subst. constructor; [|apply IH; auto]. intros X. apply in_app_or in X as [X|X]; auto. apply (D x); auto. Qed.
Lemma nodup_app_l {A} (a b : list A) : NoDup (a ++ b) -> NoDup a.
Proof. induction a as [|x a IH]; cbn; intros H; [constructor|]. inversion H; subst. constructor; auto. intros X. apply H2, in_or_app. auto. Qed.
Lemma Once_sends s s' : Good k s -> Once s -> ready k s = true -> Sends k s s' -> Once s'.
Proof.
  intros G (O1 & O2) R (pop & b & H1 & H2 & _ & H4 & H5 & [H6 H6'] & H7 & _). apply env_fields in H1. destruct H1 as (E1 & E2 & _ & _ & _ & E6 & _ & _). destruct (ready_facts k s R) as (P & A & _). destruct (O2 A) as (N & I).
  assert (Perm : Permutation (open s') (open s ++ b) /\ forall v, v <> view s -> proposed v s' = proposed v s).
  { unfold effect in H7. unfold open. rewrite E1. destruct b as [|x b]; [|destruct (k_async k) eqn:As]; destruct H7 as (S1 & _ & S3); rewrite S3.
    - rewrite (proposed_eq _ s s' S1), app_nil_r. split; auto. intros v _. apply proposed_eq, S1.
    - rewrite (proposed_eq _ s s' S1), flat_map_app. cbn [flat_map snd]. rewrite app_nil_r, app_assoc. split; auto. intros v _. apply proposed_eq, S1.
    - split; [|intros v Hv]; rewrite (proposed_snoc _ _ _ _ S1); cbn [p_view p_reqs]; [rewrite Nat.eqb_refl|destruct (Nat.eqb_spec (view s) v); [congruence|apply app_nil_r]].
      rewrite <- !app_assoc. apply Permutation_app_head, Permutation_app_comm. }
  destruct Perm as [Pm Pv].
  assert (N' : NoDup (map key (open s'))).
  { apply (Permutation_NoDup (l := map key (open s ++ b))); [apply Permutation_map, Permutation_sym, Pm|]. rewrite map_app. apply nodup_app; auto. intros x X1 X2. apply in_map_iff in X1 as (r & <- & X1). apply in_map_iff in X2 as (r' & X2 & X3).
    destruct (H6' r' X3) as [Y1 Y2]. rewrite X2 in *. destruct (I r X1); contradiction. }
  split.
  - intros v. destruct (Nat.eq_dec v (view s)) as [->|Nv]; [|rewrite Pv; auto]. rewrite <- E1. unfold open in N'. rewrite map_app in N'. apply nodup_app_l in N'. exact N'.
  - intros _. split; [exact N'|]. intros r Hr. apply (Permutation_in _ Pm) in Hr. rewrite H5, E6. apply in_app_or in Hr as [Hr|Hr].
    + destruct (I r Hr); [left; apply in_or_app; auto|auto].
    + left. apply in_or_app. left. apply -> in_rev. apply in_map. exact Hr.
Qed.
Lemma Once_try logic s : Base s -> Good k s -> Once s -> Once (try k logic s).
Proof. intros B G F. destruct (try_cases k logic s (proj1 B)) as [->|[R H]]; auto. eapply Once_sends; eauto. Qed.
Lemma Once_same s s' : view s' = view s -> active s' = active s -> sent s' = sent s -> transit s' = transit s -> (active s = true -> forall x, In x (pend s) \/ In x (done s) -> In x (pend s') \/ In x (done s')) -> Once s -> Once s'.
Proof.
  intros E1 E2 E3 E4 E5 (O1 & O2). assert (Q : forall v, proposed v s' = proposed v s) by (intros v; apply proposed_eq; exact E3). assert (O : open s' = open s) by (unfold open; rewrite E1, E4, Q; reflexivity).
  split; [intros v; rewrite Q; auto|]. rewrite E2, O. intros A. destruct (O2 A) as [N I]. split; [exact N|]. intros r Hr. apply E5; auto.
Qed.
Lemma Once_step s e : Base s -> Good k s -> Once s -> (k_async k = true -> forall v, e <> Leave v) -> match e with Forget _ => False | Finish _ b => b = true | _ => True end -> Once (step k s e).
Proof.
  intros B G O He Hf. assert (O' := O). destruct O' as (O1 & O2). destruct e; cbn [step]; try (apply Once_try; auto; fail); try (apply (Once_same s); try reflexivity; auto; fail); try contradiction.
  - destruct (onRequest_cases k r s) as [->|[[P ->]|[_ [A ->]]]]; auto; [apply (Once_same s); try reflexivity; [fs; intros _ x [X|X]; [left; right; exact X|right; exact X]|exact O]|]. apply Once_try; [apply Base_enq, B|exact G|].
    apply (Once_same s); try reflexivity; auto.
  - destruct (nth_error (transit s) i) as [m|] eqn:N; auto. cbv zeta. assert (Sp := split_nth _ _ _ N). remember (firstn i (transit s)) as a eqn:Ea. remember (skipn (S i) (transit s)) as c eqn:Ec. clear Ea Ec N.
    destruct G as (G1 & _). destruct G1 as [G1|(A & P & _ & _ & Fo)]; [rewrite G1 in Sp; destruct a; discriminate|]. destruct (O2 A) as [N I].
    assert (Pm : Permutation (open s) ((proposed (view s) s ++ flat_map snd (a ++ c)) ++ snd m)).
    { unfold open. rewrite Sp, !flat_map_app. cbn [flat_map]. rewrite <- !app_assoc. apply Permutation_app_head, Permutation_app_head. apply Permutation_app_comm. }
    assert (N1 : NoDup (map key ((proposed (view s) s ++ flat_map snd (a ++ c)) ++ snd m))) by (apply (Permutation_NoDup (Permutation_map key Pm)), N).
    destruct (_ || _).
    + split; [exact O1|]. intros _. unfold open. fs. rewrite map_app in N1. apply nodup_app_l in N1. split; [exact N1|]. intros r Hr. apply I. apply (Permutation_in _ (Permutation_sym Pm)). apply in_or_app. left. exact Hr.
    + unfold propose. change (prim k (withTransit (a ++ c) s)) with (prim k s). rewrite P. cbn [negb]. set (s' := mkSt _ _ _ _ _ _ _ _ _ _ _ _ _ _ _ _ _ _ _ _).
      assert (Q : forall v, proposed v s' = proposed v s ++ (if view s =? v then snd m else [])) by (intros v; apply (proposed_snoc v s s' (mkPr (fst m) (view s) (active s) (S (last s)) (snd m) (stable s) (exec s + execs s))); reflexivity).
      assert (Pm' : Permutation (open s') (open s)).
      { eapply Permutation_trans; [|apply Permutation_sym, Pm]. unfold open. change (transit s') with (a ++ c). change (view s') with (view s). rewrite Q, Nat.eqb_refl, <- !app_assoc. apply Permutation_app_head, Permutation_app_comm. }
      assert (N2 : NoDup (map key (open s'))) by (apply (Permutation_NoDup (Permutation_map key (Permutation_sym Pm'))), N).
      split; [|intros _; split; [exact N2|intros r Hr; apply I, (Permutation_in _ Pm'), Hr]]. intros v. destruct (Nat.eq_dec v (view s)) as [->|Nv].
      * unfold open in N2. change (view s') with (view s) in N2. rewrite map_app in N2. apply nodup_app_l in N2. exact N2.
      * rewrite Q. destruct (Nat.eqb_spec (view s) v); [congruence|]. rewrite app_nil_r. apply O1.
  - destruct (_ && _); [apply (Once_same s); try reflexivity; auto|auto].
  - destruct (_ && _); [apply (Once_same s); try reflexivity; auto|auto].
  - subst reply. apply (Once_same s); try reflexivity; [|exact O]. fs. intros _ [y z] [Y|Y]; [|right; right; exact Y]. destruct x as [u w]. cbn [fst snd].
    destruct ((y =? u) && (z =? w)) eqn:X; [right; left; apply andb_true_iff in X as [X1 X2]; apply Nat.eqb_eq in X1, X2; congruence|left; apply filter_In; split; auto; cbn [fst snd]; rewrite X; reflexivity].
  - destruct (view s <? v) eqn:X; [|auto]. split; [exact O1|discriminate].
  - destruct (_ || _) eqn:X; [auto|]. rewrite !orb_false_iff, !negb_false_iff, Nat.eqb_eq, !Nat.leb_le in X. destruct X as [[[A _] _] _]. split; [exact O1|]. intros _.
    assert (As : k_async k = false) by (destruct (k_async k) eqn:Y; auto; destruct G as (_ & _ & G3 & _); rewrite (G3 Y) in A; discriminate).
    set (s' := withPend _ _ _). assert (E : open s' = []).
    { unfold open. change (transit s') with (transit s). destruct G as (G1 & G2 & G3). rewrite (G2 As). rewrite (proposed_eq _ s s') by reflexivity. change (view s') with (view s). rewrite (proposed_none (view s) s); [reflexivity|split; auto|auto]. }
    rewrite E. split; [constructor|intros r []].
  - destruct (_ =? 0); [auto|apply (Once_same s); try reflexivity; auto].
Qed.
Lemma Once_run l : steady k l -> recorded l -> Once (run k l).
Proof.
  induction l as [|e l IH] using rev_ind; intros H K.
  - split; [intros v; constructor|intros _; split; [constructor|intros r []]].
  - apply steady_app in H as [H1 H2]. rewrite run_app. apply Once_step; auto; [apply Base_run|apply Good_run, H1|apply IH; auto; intros x Hx; apply K, in_or_app; auto|]. apply (K e), in_or_app. right. left. reflexivity.
Qed.
End Order.
