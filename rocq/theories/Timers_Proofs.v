From Coq Require Import List Arith Bool Sorted Lia.
From Verif Require Import Timers_Model.
Import ListNotations.

Definition ids (s : st) : list nat := map t_id (tms s).
Definition Inv (s : st) : Prop := StronglySorted lt (ids s) /\ Forall (fun x => x <= ctr s) (ids s).
Lemma ss_nodup l : StronglySorted lt l -> NoDup l.
Proof. induction 1 as [|a l S IH F]; constructor; auto. intros H. rewrite Forall_forall in F. apply F in H. lia. Qed.
Lemma ss_app l x : StronglySorted lt l -> Forall (fun y => y < x) l -> StronglySorted lt (l ++ [x]).
Proof. induction 1 as [|a l S IH F]; intros H; cbn; [repeat constructor|]. inversion H; subst. constructor; auto. apply Forall_app. auto. Qed.
Lemma ss_nth l : StronglySorted lt l -> forall p q x y, p < q -> nth_error l p = Some x -> nth_error l q = Some y -> x < y.
Proof. induction 1 as [|a l S IH F]; intros [|p] [|q] x y L H1 H2; cbn in *; try discriminate; try lia. - injection H1 as <-. rewrite Forall_forall in F. apply nth_error_In in H2. auto. - eapply (IH p q); eauto; lia. Qed.
Lemma ids_setAt l i e : map t_id (setAt l i e) = map t_id l.
Proof. revert i. induction l as [|x l IH]; intros [|i]; cbn; congruence. Qed.
Lemma nth_setAt l : forall i p e, nth_error (setAt l i e) p = match nth_error l p with Some x => Some (if p =? i then mkT (t_id x) (t_dur x) e (t_rec x) else x) | None => None end.
Proof. induction l as [|x l IH]; intros [|i] [|p] e; cbn; auto; try (destruct (nth_error l p); reflexivity). Qed.
Lemma len_setAt l i e : length (setAt l i e) = length l.
Proof. revert i. induction l as [|x l IH]; intros [|i]; cbn; congruence. Qed.
Lemma ss_filter f l : StronglySorted lt l -> StronglySorted lt (filter f l).
Proof. induction 1 as [|a l S IH F]; cbn; [constructor|]. destruct (f a); auto. constructor; auto. rewrite Forall_forall in *. intros x H. apply filter_In in H. apply F, H. Qed.
Lemma map_filter i l : map t_id (filter (fun x => negb (t_id x =? i)) l) = filter (fun x => negb (x =? i)) (map t_id l).
Proof. induction l as [|x l IH]; cbn; auto. destruct (negb _); cbn; congruence. Qed.
Lemma ids_reset i d t l : map t_id (map (fun x => if t_id x =? i then mkT (t_id x) d (t + d) (t_rec x) else x) l) = map t_id l.
Proof. rewrite map_map. apply map_ext. intros x. destruct (_ =? _); reflexivity. Qed.

Lemma inv_apply b s o : Inv s -> Inv (apply b s o).
Proof.
  intros [A B]. unfold apply. destruct (bad s); [split; auto|]. destruct o as [d r t|i d t|i].
  - destruct (b && _); [split; auto|]. unfold Inv, ids in *. cbn. rewrite map_app. cbn. split.
    + apply ss_app; auto. eapply Forall_impl; [|exact B]. cbn. lia.
    + apply Forall_app. split; [eapply Forall_impl; [|exact B]; cbn; lia|]. constructor; auto.
  - unfold Inv, ids in *. cbn. rewrite ids_reset. auto.
  - unfold Inv, ids in *. cbn. rewrite map_filter. split; [apply ss_filter, A|]. rewrite Forall_forall in *. intros x H. apply filter_In in H. apply B, H.
Qed.
Lemma inv_ops b l : forall s, Inv s -> Inv (fold_left (apply b) l s).
Proof. induction l as [|o l IH]; intros s H; auto. apply IH, inv_apply, H. Qed.
Lemma inv_fire i n s : Inv s -> Inv (fire i n s). Proof. auto. Qed.
Lemma inv_again i n x s : Inv s -> Inv (again i n x s). Proof. unfold Inv, ids, again. cbn. rewrite ids_setAt. auto. Qed.
Lemma inv_cancels acc s : Inv s -> Inv (cancels acc s).
Proof. revert s. induction acc as [|a acc IH]; intros s H; auto. cbn. apply IH, (inv_apply false s (Cancel a)), H. Qed.
Lemma inv_loop now cb n : forall i acc s, Inv s -> Inv (loop now cb n i acc s).
Proof.
  induction n as [|n IH]; intros i acc s H; [apply inv_cancels, H|]. cbn [loop]. destruct (bad s); auto. destruct (nth_error (tms s) i) as [x|]; [|exact H]. destruct (_ <=? _); auto.
  set (s1 := fold_left _ _ _). assert (H1 : Inv s1) by (apply inv_ops, inv_fire, H). destruct (nth_error (tms s1) i) as [y|]; [|exact H1]. destruct (t_rec y); apply IH; auto. apply inv_again, H1.
Qed.
Lemma inv_run l : forall s, Inv s -> Inv (runFrom s l).
Proof. induction l as [|e l IH]; intros s H; auto. apply IH. destruct e; [apply inv_apply, H|apply inv_loop, H]. Qed.
Lemma inv_start : Inv start. Proof. split; constructor. Qed.

(** What is bad stays bad. *)
Lemma bad_apply b s o : bad s = true -> apply b s o = s. Proof. intros H. unfold apply. rewrite H. reflexivity. Qed.
Lemma bad_ops b l s : bad s = true -> fold_left (apply b) l s = s.
Proof. intros H. induction l as [|o l IH]; auto. cbn. rewrite bad_apply; auto. Qed.
Lemma bad_cancels acc s : bad s = true -> cancels acc s = s.
Proof. intros H. induction acc as [|o l IH]; auto. unfold cancels in *. cbn [fold_left]. rewrite bad_apply; auto. Qed.
Lemma bad_loop now cb n : forall i acc s, bad s = true -> loop now cb n i acc s = s.
Proof. destruct n; intros i acc s H; cbn; [apply bad_cancels, H|rewrite H; reflexivity]. Qed.
Lemma bad_run l : forall s, bad s = true -> runFrom s l = s.
Proof. induction l as [|e l IH]; intros s H; auto. cbn. assert (E : step s e = s) by (destruct e; [apply bad_apply, H|apply bad_loop, H]). rewrite E. apply IH, H. Qed.

(** Cancelled timers. *)
Definition gone (i : nat) (s : st) : Prop := ~ In i (ids s) /\ i <= ctr s.
Lemma gone_apply i b s o : gone i s -> gone i (apply b s o) /\ fired (apply b s o) = fired s.
Proof.
  intros [A B]. unfold apply. destruct (bad s); [split; [split|]; auto|]. destruct o as [d r t|j d t|j]; unfold gone, ids in *.
  - destruct (b && _); cbn; auto. rewrite map_app. cbn. split; auto. split; [|lia]. rewrite in_app_iff. cbn. intros [H|[H|[]]]; [auto|lia].
  - cbn. rewrite ids_reset. auto.
  - cbn. rewrite map_filter. split; auto. split; auto. intros H. apply filter_In in H. tauto.
Qed.
Lemma gone_ops i b l : forall s, gone i s -> gone i (fold_left (apply b) l s) /\ fired (fold_left (apply b) l s) = fired s.
Proof. induction l as [|o l IH]; intros s H; auto. cbn. destruct (gone_apply i b s o H) as [A B]. destruct (IH _ A) as [C D]. split; auto. congruence. Qed.
Lemma firedOf_eq i s s' : fired s' = fired s -> firedOf i s' = firedOf i s. Proof. unfold firedOf. intros ->. reflexivity. Qed.
Lemma firedOf_fire i j n s : firedOf i (fire j n s) = firedOf i s ++ (if j =? i then [n] else []).
Proof. unfold firedOf, fire. cbn. rewrite filter_app, map_app. cbn. destruct (j =? i); reflexivity. Qed.
Lemma cancels_ops acc s : cancels acc s = fold_left (apply false) (map Cancel acc) s.
Proof. revert s. induction acc as [|a acc IH]; intros s; auto. cbn. apply IH. Qed.
Lemma gone_loop now cb i n : forall p acc s, gone i s -> gone i (loop now cb n p acc s) /\ firedOf i (loop now cb n p acc s) = firedOf i s.
Proof.
  induction n as [|n IH]; intros p acc s H; cbn [loop].
  - rewrite cancels_ops. destruct (gone_ops i false (map Cancel acc) s H) as [A B]. split; auto. apply firedOf_eq, B.
  - destruct (bad s); auto. destruct (nth_error (tms s) p) as [x|] eqn:E; [|split; [exact H|reflexivity]]. destruct (_ <=? _); auto.
    assert (Ne : (t_id x =? i) = false) by (apply Nat.eqb_neq; intros <-; apply (proj1 H); unfold ids; apply in_map; eapply nth_error_In; eauto).
    assert (Hf : gone i (fire (t_id x) now s)) by exact H. destruct (gone_ops i true (cb (t_id x)) _ Hf) as [A B]. set (s1 := fold_left _ _ _) in *.
    assert (F1 : firedOf i s1 = firedOf i s) by (rewrite (firedOf_eq i _ _ B), firedOf_fire, Ne, app_nil_r; reflexivity).
    destruct (nth_error (tms s1) p) as [y|]; [|split; [exact A|exact F1]]. destruct (t_rec y).
    + destruct (IH (S p) acc (again p now y s1)) as [C D]; [unfold gone, ids, again in *; cbn; rewrite ids_setAt; exact A|]. split; auto. rewrite D. exact F1.
    + destruct (IH (S p) (acc ++ [t_id y]) s1 A) as [C D]. split; auto. congruence.
Qed.
Lemma gone_run i l : forall s, gone i s -> firedOf i (runFrom s l) = firedOf i s /\ gone i (runFrom s l).
Proof.
  induction l as [|e l IH]; intros s H; [auto|]. change (runFrom s (e :: l)) with (runFrom (step s e) l). assert (X : gone i (step s e) /\ firedOf i (step s e) = firedOf i s); [|destruct X as [A B]; destruct (IH _ A) as [C D]; split; [congruence|exact D]].
  destruct e as [o|now cb]; [destruct (gone_apply i false s o H) as [A B]; split; [exact A|apply firedOf_eq, B]|apply gone_loop, H].
Qed.

(** An operation that does not concern a timer. *)
Lemma keep_op b s o p x : nth_error (tms s) p = Some x -> isCancel o = false -> target o <> Some (t_id x) -> nth_error (tms (apply b s o)) p = Some x /\ fired (apply b s o) = fired s /\ length (tms s) <= length (tms (apply b s o)).
Proof.
  intros H C T. unfold apply. destruct (bad s); auto. destruct o as [d r t|j d t|j]; [|cbn in *|discriminate].
  - destruct (b && _); cbn; auto. rewrite app_length. split; [|split; [auto|lia]]. rewrite nth_error_app1; auto. apply nth_error_Some. congruence.
  - rewrite map_length. split; auto. rewrite nth_error_map, H. cbn. destruct (t_id x =? j) eqn:E; auto. apply Nat.eqb_eq in E. congruence.
Qed.
Lemma keep_ops b l : forall s p x, nth_error (tms s) p = Some x -> (forall o, In o l -> isCancel o = false) -> (forall o, In o l -> target o <> Some (t_id x)) ->
  nth_error (tms (fold_left (apply b) l s)) p = Some x /\ fired (fold_left (apply b) l s) = fired s /\ length (tms s) <= length (tms (fold_left (apply b) l s)).
Proof.
  induction l as [|o l IH]; intros s p x H C T; [cbn; auto|]. cbn [fold_left]. destruct (keep_op b s o p x H) as (A & B & D); [apply C; left; auto|apply T; left; auto|].
  destruct (IH (apply b s o) p x A) as (A' & B' & D'); [intros; apply C; right; auto|intros; apply T; right; auto|]. split; auto. split; [congruence|lia].
Qed.
(** Operations that do not cancel keep the ids where they are. *)
Lemma ids_op b s o p i : nth_error (ids s) p = Some i -> isCancel o = false -> nth_error (ids (apply b s o)) p = Some i /\ fired (apply b s o) = fired s.
Proof.
  intros H C. unfold apply, ids in *. destruct (bad s); auto. destruct o as [d r t|j d t|j]; [| |discriminate].
  - destruct (b && _); cbn; auto. rewrite map_app, nth_error_app1; auto. apply nth_error_Some. congruence.
  - cbn. rewrite ids_reset. auto.
Qed.
Lemma ids_ops b l : forall s, (forall o, In o l -> isCancel o = false) -> (forall p i, nth_error (ids s) p = Some i -> nth_error (ids (fold_left (apply b) l s)) p = Some i).
Proof. induction l as [|o l IH]; intros s C p i H; [exact H|]. cbn [fold_left]. apply IH; [intros; apply C; right; auto|]. apply ids_op; auto. apply C. left. auto. Qed.
Lemma fired_ops b l : forall s, fired (fold_left (apply b) l s) = fired s.
Proof. induction l as [|o l IH]; intros s; auto. cbn [fold_left]. rewrite IH. unfold apply. destruct (bad s); auto. destruct o; cbn; auto. destruct (b && _); auto. Qed.
Lemma nth_ids s p x : nth_error (tms s) p = Some x -> nth_error (ids s) p = Some (t_id x).
Proof. intros H. unfold ids. rewrite nth_error_map, H. reflexivity. Qed.

Lemma cancels_in acc : forall s x, bad s = false -> (In x (tms (cancels acc s)) <-> In x (tms s) /\ ~ In (t_id x) acc).
Proof.
  induction acc as [|a acc IH]; intros s x B; [cbn; tauto|]. change (cancels (a :: acc) s) with (cancels acc (apply false s (Cancel a))). assert (E : apply false s (Cancel a) = mkSt (filter (fun x => negb (t_id x =? a)) (tms s)) (ctr s) (cap s) (bad s) (fired s)) by (unfold apply; rewrite B; reflexivity).
  rewrite E, IH; [|exact B]. cbn [tms]. rewrite filter_In. destruct (t_id x =? a) eqn:F; [apply Nat.eqb_eq in F|apply Nat.eqb_neq in F]; cbn; intuition congruence.
Qed.
Lemma bad_cancels_eq acc : forall s, bad (cancels acc s) = bad s /\ fired (cancels acc s) = fired s.
Proof. intros s. rewrite cancels_ops. split; [|apply fired_ops]. revert s. induction acc as [|a acc IH]; intros s; auto. cbn [map fold_left]. rewrite IH. unfold apply. destruct (bad s) eqn:E; auto. Qed.

Section Track.
Context (now : nat) (cb : nat -> list op) (NC : noCancel cb) (p : nat) (x : timer) (U : forall j o, In o (cb j) -> target o <> Some (t_id x)).
(** The rest of an evaluation, after the timer has had its turn. *)
Lemma after n : forall i acc s y, t_id y = t_id x -> Inv s -> nth_error (tms s) p = Some y -> p < i -> bad (loop now cb n i acc s) = false ->
  let s' := loop now cb n i acc s in firedOf (t_id x) s' = firedOf (t_id x) s /\ (In (t_id x) acc -> ~ In (t_id x) (ids s')) /\ (~ In (t_id x) acc -> In y (tms s')).
Proof using U NC.
  induction n as [|n IH]; intros i acc s y Ey I H L B; cbn [loop] in *.
  - destruct (bad_cancels_eq acc s) as [B1 F1]. rewrite B1 in B. split; [apply firedOf_eq, F1|]. split.
    + intros A X. unfold ids in X. apply in_map_iff in X as (z & E & Z). apply (cancels_in acc s z B) in Z as [_ Z]. apply Z. congruence.
    + intros A. apply (cancels_in acc s y B). split; [eapply nth_error_In; eauto|congruence].
  - destruct (bad s) eqn:Bs; [congruence|]. destruct (nth_error (tms s) i) as [z|] eqn:Z; [|cbn in B; discriminate].
    assert (Ne : t_id z <> t_id x). { intros E. pose proof (ss_nth _ (proj1 I) p i _ _ L (nth_ids _ _ _ H) (nth_ids _ _ _ Z)). lia. }
    destruct (_ <=? _); [|apply (IH (S i) acc s y); auto].
    assert (If : Inv (fold_left (apply true) (cb (t_id z)) (fire (t_id z) now s))) by (apply inv_ops, inv_fire, I).
    destruct (keep_ops true (cb (t_id z)) (fire (t_id z) now s) p y H) as (K1 & K2 & K3); [intros; eapply NC; eauto|rewrite Ey; intros; eapply U; eauto|].
    pose proof (ids_ops true (cb (t_id z)) (fire (t_id z) now s) (fun o Ho => NC _ o Ho) i (t_id z) (nth_ids s i z Z)) as Ki. set (s1 := fold_left _ _ _) in *.
    assert (F1 : firedOf (t_id x) s1 = firedOf (t_id x) s) by (rewrite (firedOf_eq _ _ _ K2), firedOf_fire; apply Nat.eqb_neq in Ne; rewrite Ne, app_nil_r; reflexivity).
    destruct (nth_error (tms s1) i) as [w|] eqn:W; [|cbn in B; discriminate]. assert (Ew : t_id w = t_id z) by (apply nth_ids in W; congruence). destruct (t_rec w).
    + destruct (IH (S i) acc (again i now w s1) y) as (A1 & A2 & A3); auto; [apply inv_again, If|unfold again; cbn; rewrite nth_setAt, K1; destruct (p =? i) eqn:Q; [apply Nat.eqb_eq in Q; lia|reflexivity]|]. split; [rewrite A1; exact F1|auto].
    + destruct (IH (S i) (acc ++ [t_id w]) s1 y) as (A1 & A2 & A3); auto. split; [congruence|]. split; [intros A; apply A2, in_or_app; auto|]. intros A. apply A3. rewrite in_app_iff. cbn. intros [|[|[]]]; [auto|congruence].
Qed.
(** An evaluation: the timer goes off if it is due. *)
Lemma before n : forall i acc s, Inv s -> nth_error (tms s) p = Some x -> i <= p < i + n -> ~ In (t_id x) acc -> bad (loop now cb n i acc s) = false ->
  let s' := loop now cb n i acc s in
  if t_exp x <=? now then firedOf (t_id x) s' = firedOf (t_id x) s ++ [now] /\ (if t_rec x then In (mkT (t_id x) (t_dur x) (now + t_dur x) true) (tms s') else ~ In (t_id x) (ids s'))
  else firedOf (t_id x) s' = firedOf (t_id x) s /\ In x (tms s').
Proof using U NC.
  induction n as [|n IH]; intros i acc s I H L A B; [lia|]. cbn [loop] in *. destruct (bad s) eqn:Bs; [congruence|]. destruct (nth_error (tms s) i) as [z|] eqn:Z; [|cbn in B; discriminate].
  destruct (Nat.eq_dec i p) as [->|Np].
  - rewrite H in Z. injection Z as <-. destruct (t_exp x <=? now) eqn:D; [|apply (after n (S p) acc s x) in B as (A1 & A2 & A3); auto].
    assert (If : Inv (fold_left (apply true) (cb (t_id x)) (fire (t_id x) now s))) by (apply inv_ops, inv_fire, I).
    destruct (keep_ops true (cb (t_id x)) (fire (t_id x) now s) p x H) as (K1 & K2 & K3); [intros; eapply NC; eauto|intros; eapply U; eauto|]. set (s1 := fold_left _ _ _) in *.
    assert (F1 : firedOf (t_id x) s1 = firedOf (t_id x) s ++ [now]) by (rewrite (firedOf_eq _ _ _ K2), firedOf_fire, Nat.eqb_refl; reflexivity). rewrite K1 in *. destruct (t_rec x) eqn:R.
    + destruct (after n (S p) acc (again p now x s1) (mkT (t_id x) (t_dur x) (now + t_dur x) true)) as (A1 & A2 & A3); auto; [apply inv_again, If|unfold again; cbn; rewrite nth_setAt, K1, Nat.eqb_refl, R; reflexivity|]. split; [rewrite A1; exact F1|auto].
    + destruct (after n (S p) (acc ++ [t_id x]) s1 x) as (A1 & A2 & A3); auto. split; [congruence|]. apply A2, in_or_app. right. left. reflexivity.
  - assert (Ne : t_id z <> t_id x). { intros E. pose proof (ss_nth _ (proj1 I) i p _ _ ltac:(lia) (nth_ids _ _ _ Z) (nth_ids _ _ _ H)). lia. }
    destruct (t_exp z <=? now) eqn:D; [|apply (IH (S i) acc s); auto; lia].
    assert (If : Inv (fold_left (apply true) (cb (t_id z)) (fire (t_id z) now s))) by (apply inv_ops, inv_fire, I).
    destruct (keep_ops true (cb (t_id z)) (fire (t_id z) now s) p x H) as (K1 & K2 & K3); [intros; eapply NC; eauto|intros; eapply U; eauto|].
    pose proof (ids_ops true (cb (t_id z)) (fire (t_id z) now s) (fun o Ho => NC _ o Ho) i (t_id z) (nth_ids s i z Z)) as Ki. set (s1 := fold_left _ _ _) in *.
    assert (F1 : firedOf (t_id x) s1 = firedOf (t_id x) s) by (rewrite (firedOf_eq _ _ _ K2), firedOf_fire; apply Nat.eqb_neq in Ne; rewrite Ne, app_nil_r; reflexivity).
    destruct (nth_error (tms s1) i) as [w|] eqn:W; [|cbn in B; discriminate]. assert (Ew : t_id w = t_id z) by (apply nth_ids in W; congruence). rewrite <- F1. destruct (t_rec w).
    + apply (IH (S i) acc (again i now w s1)); auto; [apply inv_again, If|unfold again; cbn; rewrite nth_setAt, K1; destruct (p =? i) eqn:Q; [apply Nat.eqb_eq in Q; lia|reflexivity]|lia].
    + apply (IH (S i) (acc ++ [t_id w]) s1); auto; [lia|]. rewrite in_app_iff. cbn. intros [|[|[]]]; [auto|congruence].
Qed.
End Track.
Lemma in_unique s x y : Inv s -> In x (tms s) -> In y (tms s) -> t_id x = t_id y -> x = y.
Proof.
  intros [S _] X Y E. apply In_nth_error in X as (p & P), Y as (q & Q). destruct (Nat.lt_trichotomy p q) as [L|[<-|L]]; [|congruence|]; [pose proof (ss_nth _ S p q _ _ L (nth_ids _ _ _ P) (nth_ids _ _ _ Q))|pose proof (ss_nth _ S q p _ _ L (nth_ids _ _ _ Q) (nth_ids _ _ _ P))]; lia.
Qed.
Lemma schedule l : forall s x, Inv s -> In x (tms s) -> Forall (untouched (t_id x)) l -> bad (runFrom s l) = false -> firedOf (t_id x) (runFrom s l) = firedOf (t_id x) s ++ expected (t_rec x) (t_dur x) (t_exp x) (evals l).
Proof.
  induction l as [|e l IH]; intros s x I X F B; [cbn; rewrite app_nil_r; reflexivity|]. inversion F as [|? ? U F']; subst. change (runFrom s (e :: l)) with (runFrom (step s e) l) in *.
  assert (I' : Inv (step s e)) by (apply (inv_run [e] s I)). assert (Bs : bad (step s e) = false) by (destruct (bad (step s e)) eqn:Q; [rewrite (bad_run l _ Q) in B; congruence|reflexivity]).
  destruct e as [o|now cb].
  - cbn [evals flat_map app]. assert (X' : In x (tms (step s (Op o))) /\ fired (step s (Op o)) = fired s).
    { cbn [step untouched] in *. unfold apply in *. destruct (bad s) eqn:Q; auto. destruct o as [d r t|j d t|j]; cbn [andb] in *; cbn [tms fired].
      - split; auto. apply in_or_app. auto.
      - split; auto. apply in_map_iff. exists x. split; auto. cbn in U. destruct (t_id x =? j) eqn:E; auto. apply Nat.eqb_eq in E. congruence.
      - split; auto. apply filter_In. split; auto. cbn in U. destruct (t_id x =? j) eqn:E; auto. apply Nat.eqb_eq in E. congruence. }
    destruct X' as [X' E]. rewrite (IH _ x I' X' F' B). f_equal. apply firedOf_eq, E.
  - destruct U as [NC U]. cbn [step] in *. apply In_nth_error in X as (p & P). assert (Lp : p < length (tms s)) by (apply nth_error_Some; congruence).
    pose proof (before now cb NC p x U (length (tms s)) 0 [] s I P ltac:(lia) ltac:(auto) Bs) as T. cbv zeta in T. set (s' := loop now cb (length (tms s)) 0 [] s) in *. cbn [evals flat_map app expected]. fold (evals l). destruct (t_exp x <=? now); destruct T as [T1 T2].
    + destruct (t_rec x) eqn:R.
      * pose proof (IH s' _ I' T2 F' B) as W. cbn [t_id t_rec t_dur t_exp] in W. rewrite W, T1, <- app_assoc. reflexivity.
      * destruct (gone_run (t_id x) l s') as [G _]; [split; [exact T2|]|rewrite G, T1; reflexivity].
        assert (Cm : forall n i acc s0, ctr s0 <= ctr (loop now cb n i acc s0)).
        { assert (Ca : forall b o s0, ctr s0 <= ctr (apply b s0 o)) by (intros b o s0; unfold apply; destruct (bad s0); auto; destruct o; cbn; auto; destruct (b && _); cbn; auto).
          assert (Co : forall b l s0, ctr s0 <= ctr (fold_left (apply b) l s0)) by (intros b; induction l0 as [|o l0 IHl]; intros s0; auto; cbn; etransitivity; [apply (Ca b o)|apply IHl]).
          induction n as [|n IHn]; intros i acc s0; cbn [loop]; [rewrite cancels_ops; apply Co|]. destruct (bad s0); auto. destruct (nth_error (tms s0) i) as [z|]; [|apply Nat.le_refl]. destruct (_ <=? _); [|apply IHn].
          specialize (Co true (cb (t_id z)) (fire (t_id z) now s0)). set (s1 := fold_left _ _ _) in *. cbn [ctr fire] in Co. destruct (nth_error (tms s1) i) as [w|]; [|exact Co]. destruct (t_rec w); [pose proof (IHn (S i) acc (again i now w s1)) as Y; cbn [ctr again] in Y; lia|pose proof (IHn (S i) (acc ++ [t_id w]) s1); lia]. }
        etransitivity; [|apply Cm]. destruct I as [_ I]. rewrite Forall_forall in I. apply I. unfold ids. apply in_map. eapply nth_error_In; eauto.
    + rewrite (IH s' x I' T2 F' B), T1. reflexivity.
Qed.

(** Callbacks that only reset do no harm. *)
Lemma reset_ops l : forall s, (forall o, In o l -> isReset o = true) -> bad s = false -> bad (fold_left (apply true) l s) = false /\ length (tms (fold_left (apply true) l s)) = length (tms s).
Proof.
  induction l as [|o l IH]; intros s H B; [cbn; auto|]. cbn [fold_left]. assert (Ho : isReset o = true) by (apply H; left; auto). destruct o as [|j d t|]; try discriminate. assert (E : bad (apply true s (Reset j d t)) = false /\ length (tms (apply true s (Reset j d t))) = length (tms s)) by (unfold apply; rewrite B; cbn; rewrite map_length; auto).
  destruct E as [E1 E2]. destruct (IH _ ltac:(intros; apply H; right; auto) E1) as [A C]. split; [exact A|congruence].
Qed.
Lemma safe_loop now cb n : forall i acc s, (forall j o, In o (cb j) -> isReset o = true) -> bad s = false -> i + n <= length (tms s) -> bad (loop now cb n i acc s) = false.
Proof.
  induction n as [|n IH]; intros i acc s H B L; cbn [loop]; [rewrite (proj1 (bad_cancels_eq acc s)); exact B|]. rewrite B. destruct (nth_error (tms s) i) as [x|] eqn:E; [|apply nth_error_None in E; lia]. destruct (_ <=? _); [|apply IH; auto; lia].
  destruct (reset_ops (cb (t_id x)) (fire (t_id x) now s)) as [B1 L1]; [intros; eapply H; eauto|exact B|]. set (s1 := fold_left _ _ _) in *. cbn [fire tms] in L1. destruct (nth_error (tms s1) i) as [y|] eqn:E1; [|apply nth_error_None in E1; lia].
  destruct (t_rec y); apply IH; auto; [cbn; rewrite len_setAt; lia|lia].
Qed.
Lemma safe_run l : forall s, bad s = false -> Forall onlyResets l -> bad (runFrom s l) = false.
Proof.
  induction l as [|e l IH]; intros s B F; [exact B|]. inversion F as [|? ? U F']; subst. apply (IH (step s e)); auto. destruct e as [o|now cb]; cbn [step]; [|apply safe_loop; auto].
  unfold apply. rewrite B. destruct o; cbn; auto.
Qed.

(** The order within an evaluation. *)
Lemma order_loop now cb n : noCancel cb -> forall i acc s, Inv s -> i + n <= length (tms s) -> exists f, fired (loop now cb n i acc s) = fired s ++ f /\ StronglySorted lt (map fst f) /\ (forall e, In e f -> snd e = now /\ exists q, i <= q < i + n /\ nth_error (ids s) q = Some (fst e)).
Proof.
  intros NC. assert (Nil : forall i n s, exists f, fired s = fired s ++ f /\ StronglySorted lt (map fst f) /\ (forall e, In e f -> snd e = now /\ exists q, i <= q < i + n /\ nth_error (ids s) q = Some (fst e))) by (intros i n0 s; exists []; rewrite app_nil_r; split; [auto|split; [constructor|intros e []]]).
  induction n as [|n IH]; intros i acc s I L; cbn [loop]; [destruct (bad_cancels_eq acc s) as [_ F]; rewrite F; apply Nil|]. destruct (bad s); [apply Nil|]. destruct (nth_error (tms s) i) as [x|] eqn:E; [|cbn [withBad fired]; apply Nil].
  destruct (_ <=? _); [|destruct (IH (S i) acc s I ltac:(lia)) as (f & A & B & C); exists f; split; auto; split; auto; intros e He; destruct (C e He) as (C1 & q & Q & C2); split; auto; exists q; split; auto; lia].
  assert (I1 : Inv (fold_left (apply true) (cb (t_id x)) (fire (t_id x) now s))) by (apply inv_ops, inv_fire, I). pose proof (fired_ops true (cb (t_id x)) (fire (t_id x) now s)) as F1. cbn [fire fired] in F1.
  pose proof (ids_ops true (cb (t_id x)) (fire (t_id x) now s) (fun o Ho => NC _ o Ho)) as K. cbn [ids fire tms] in K.
  assert (Le : length (tms s) <= length (tms (fold_left (apply true) (cb (t_id x)) (fire (t_id x) now s)))).
  { assert (Lo : forall l s0, (forall o, In o l -> isCancel o = false) -> length (tms s0) <= length (tms (fold_left (apply true) l s0))).
    { induction l as [|o l IHl]; intros s0 Ho; [auto|]. cbn [fold_left]. etransitivity; [|apply IHl; intros; apply Ho; right; auto]. assert (isCancel o = false) by (apply Ho; left; auto). unfold apply. destruct (bad s0); auto. destruct o; [|cbn; rewrite map_length; auto|discriminate]. destruct (true && _); cbn; rewrite ?app_length; cbn; lia. }
    apply (Lo (cb (t_id x)) (fire (t_id x) now s)). intros; eapply NC; eauto. }
  set (s1 := fold_left _ _ _) in *.
  assert (One : forall s2 r, ids s2 = ids s1 -> fired s2 = fired s1 -> (exists f, fired r = fired s2 ++ f /\ StronglySorted lt (map fst f) /\ (forall e, In e f -> snd e = now /\ exists q, S i <= q < S i + n /\ nth_error (ids s2) q = Some (fst e))) ->
    exists f, fired r = fired s ++ f /\ StronglySorted lt (map fst f) /\ (forall e, In e f -> snd e = now /\ exists q, i <= q < i + S n /\ nth_error (ids s) q = Some (fst e))).
  { intros s2 r Ei Ef (f & A & B & C). exists ((t_id x, now) :: f). rewrite A, Ef, F1, <- app_assoc. split; [reflexivity|].
    assert (C' : forall e, In e f -> snd e = now /\ exists q, i < q < i + S n /\ nth_error (ids s) q = Some (fst e)).
    { intros e He. destruct (C e He) as (C1 & q & Q1 & Q2). split; auto. exists q. split; [lia|]. destruct (nth_error (ids s) q) as [v|] eqn:V; [|apply nth_error_None in V; unfold ids in V; rewrite map_length in V; lia]. pose proof (K _ _ V) as V2. rewrite Ei in Q2. congruence. }
    split.
    - cbn [map fst]. constructor; auto. apply Forall_forall. intros v Hv. apply in_map_iff in Hv as (e & <- & He). destruct (C' e He) as (_ & q & Q1 & Q2). eapply (ss_nth _ (proj1 I) i q); [lia| |exact Q2]. apply nth_ids, E.
    - intros e [<-|He]; [split; auto; exists i; split; [lia|apply nth_ids, E]|]. destruct (C' e He) as (C1 & q & Q1 & Q2). split; auto. exists q. split; [lia|auto]. }
  destruct (nth_error (tms s1) i) as [y|] eqn:E1; [|apply nth_error_None in E1; lia]. destruct (t_rec y).
  - apply (One (again i now y s1)); [unfold ids, again; cbn; apply ids_setAt|reflexivity|]. apply IH; [apply inv_again, I1|cbn; rewrite len_setAt; lia].
  - apply (One s1); auto. apply IH; auto. lia.
Qed.
(** Only timers with known ids have gone off. *)
Lemma fired_le l : forall s n, ctr (runFrom s l) < n -> Inv s -> (forall i t, In (i, t) (fired s) -> i <= ctr s) -> firedOf n (runFrom s l) = [].
Proof.
  assert (Ca : forall b o s, (forall i t, In (i, t) (fired s) -> i <= ctr s) -> forall i t, In (i, t) (fired (apply b s o)) -> i <= ctr (apply b s o)).
  { intros b o s H i t. unfold apply. destruct (bad s); [apply H|]. destruct o as [d r u|j d u|j]; [destruct (b && _)| |]; cbn; intros X; apply H in X; lia. }
  assert (Co : forall b l s, (forall i t, In (i, t) (fired s) -> i <= ctr s) -> forall i t, In (i, t) (fired (fold_left (apply b) l s)) -> i <= ctr (fold_left (apply b) l s)) by (intros b; induction l0 as [|o l0 IH]; intros s H; auto; cbn [fold_left]; apply IH, Ca, H).
  assert (Cl : forall now cb n i acc s, Inv s -> (forall i t, In (i, t) (fired s) -> i <= ctr s) -> forall j t, In (j, t) (fired (loop now cb n i acc s)) -> j <= ctr (loop now cb n i acc s)).
  { intros now cb. induction n as [|n IH]; intros i acc s I H; cbn [loop]; [rewrite cancels_ops; apply Co, H|]. destruct (bad s); [exact H|]. destruct (nth_error (tms s) i) as [x|] eqn:E; [|exact H]. destruct (_ <=? _); [|apply IH; auto].
    assert (Hf : forall i t, In (i, t) (fired (fire (t_id x) now s)) -> i <= ctr (fire (t_id x) now s)). { intros j t Hj. cbn in Hj. apply in_app_or in Hj as [Hj|[Hj|[]]]; [apply (H j t Hj)|]. injection Hj as <- <-. cbn. destruct I as [_ I]. rewrite Forall_forall in I. apply I. unfold ids. apply in_map. eapply nth_error_In; eauto. }
    assert (I1 : Inv (fold_left (apply true) (cb (t_id x)) (fire (t_id x) now s))) by (apply inv_ops, inv_fire, I). pose proof (Co true (cb (t_id x)) _ Hf) as H1. set (s1 := fold_left _ _ _) in *. destruct (nth_error (tms s1) i) as [y|]; [|exact H1]. destruct (t_rec y); apply IH; auto. apply inv_again, I1. }
  assert (All : forall s, Inv s -> (forall i t, In (i, t) (fired s) -> i <= ctr s) -> forall i t, In (i, t) (fired (runFrom s l)) -> i <= ctr (runFrom s l)).
  { induction l as [|e l' IH]; intros s I H; [exact H|]. change (runFrom s (e :: l')) with (runFrom (step s e) l'). apply IH; [apply (inv_run [e] s I)|]. destruct e; [apply Ca, H|apply Cl; auto]. }
  intros s n L I H. unfold firedOf. specialize (All s I H). destruct (filter (fun p => fst p =? n) (fired (runFrom s l))) as [|[i t] r] eqn:E; [reflexivity|]. exfalso. assert (X : In (i, t) (filter (fun p => fst p =? n) (fired (runFrom s l)))) by (rewrite E; left; reflexivity). apply filter_In in X as [X Y]. cbn in Y. apply Nat.eqb_eq in Y. apply All in X. lia.
Qed.
