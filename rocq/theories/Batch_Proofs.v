(** Proofs for Batch_Model: what one attempt to send does. *)
From Coq Require Import List Arith Bool Lia Permutation Sorted.
From Verif Require Import Batch_Model.
Import ListNotations.

Lemma sub_refl {A} (l : list A) : sub l l. Proof. induction l; constructor; auto. Qed.
Lemma sub_nil_l {A} (l : list A) : sub [] l. Proof. induction l; constructor; auto. Qed.
Lemma sub_app {A} (a b c d : list A) : sub a b -> sub c d -> sub (a ++ c) (b ++ d).
Proof. intros H K. induction H; cbn; try constructor; auto. Qed.
Lemma sub_trans {A} (a b c : list A) : sub a b -> sub b c -> sub a c.
Proof.
  intros H K. revert a H. induction K; intros a' H; [inversion H; constructor| |].
  - inversion H; subst; constructor; auto.
  - constructor. auto.
Qed.
Lemma sub_in {A} (a b : list A) x : sub a b -> In x a -> In x b.
Proof. intros H. induction H; cbn; intros; auto. destruct H0; auto. Qed.
Lemma total_cons x l : total (x :: l) = r_sz x + total l. Proof. reflexivity. Qed.
Lemma total_app a b : total (a ++ b) = total a + total b.
Proof. unfold total. rewrite map_app, list_sum_app. reflexivity. Qed.
Lemma sub_total a b : sub a b -> total a <= total b.
Proof. assert (T : forall x l, total (x :: l) = r_sz x + total l) by reflexivity. intros H. induction H; rewrite ?T; lia. Qed.
Lemma mem_in x l : mem x l = true <-> In x l.
Proof.
  unfold mem. rewrite existsb_exists. split.
  - intros ([a b] & H1 & H2). apply andb_true_iff in H2 as [H2 H3]. apply Nat.eqb_eq in H2, H3. destruct x. cbn in *. subst. exact H1.
  - intros H. exists x. rewrite !Nat.eqb_refl. auto.
Qed.

Section Send.
Context (k : cfg).
Lemma can_fresh r p d : canBecome k r p d = true -> ~ In (key r) p /\ ~ In (key r) d.
Proof.
  unfold canBecome. rewrite !andb_true_iff, !negb_true_iff. intros [[_ H1] H2]. split; intros X; apply mem_in in X; congruence.
Qed.
Lemma can_mono x r p d : canBecome k x p d = true -> canBecome k r p d = false -> canBecome k r (key x :: p) d = false.
Proof.
  unfold canBecome. intros Hx Hr. rewrite !andb_true_iff, !negb_true_iff in Hx. destruct Hx as [[[_ Hx] _] _]. apply Nat.eqb_neq in Hx.
  destruct (k_valid k (r_cl r)); [|reflexivity]. cbn [andb] in *. destruct (mem (key r) d); [rewrite !andb_false_r; reflexivity|]. rewrite !andb_true_r in *. cbn [negb andb] in *. rewrite ?andb_true_r in *.
  unfold mem. cbn [existsb filter]. fold (mem (key r) p). destruct (mem (key r) p); [rewrite orb_true_r; cbn; rewrite andb_false_r; reflexivity|]. cbn [negb] in Hr. rewrite andb_true_r in Hr.
  change (fst (key x)) with (r_cl x). destruct (Nat.eqb_spec (r_cl x) (r_cl r)) as [E|E].
  - exfalso. apply negb_false_iff, Nat.eqb_eq in Hr. rewrite E in Hx. contradiction.
  - change (fst (key r)) with (r_cl r). destruct (Nat.eqb_spec (r_cl x) (r_cl r)); [contradiction|]. rewrite Hr. reflexivity.
Qed.

Definition fresh (b : list req) (p d : list (nat * nat)) : Prop := NoDup (map key b) /\ forall r, In r b -> ~ In (key r) p /\ ~ In (key r) d.
Lemma strip_spec p d : forall q c, c = total q -> let '(q', c') := strip k p d q c in c' = total q' /\ exists pop, q = pop ++ q' /\ forall r, In r pop -> canBecome k r p d = false.
Proof.
  induction q as [|r q IH]; intros c Hc; cbn [strip]. { split; auto. exists []. split; auto. intros r []. }
  destruct (canBecome k r p d) eqn:E. { split; auto. exists []. split; auto. intros x []. }
  assert (Hc' : c - r_sz r = total q) by (subst c; rewrite total_cons; lia). specialize (IH _ Hc'). destruct (strip k p d q (c - r_sz r)) as [q' c']. destruct IH as (H1 & pop & H2 & H3).
  split; auto. exists (r :: pop). split; [cbn; congruence|]. intros x [<-|Hx]; auto.
Qed.
Lemma fill_spec cont cap d : forall q c n used p, c = total q -> used <= cap ->
  let '(b, (q', c', p')) := fill k cont cap d q c n used p in
  c' = total q' /\ p' = rev (map key b) ++ p /\ used + total b <= cap /\ fresh b p d /\ (forall r, canBecome k r p d = false -> canBecome k r p' d = false) /\
  exists pop, q = pop ++ q' /\ sub b pop /\ forall r, In r pop -> In r b \/ canBecome k r p' d = false \/ (cap < used + total q /\ cap < used + total b + r_sz r).
Proof.
  induction q as [|r q IH]; intros c n used p Hc Hu; cbn [fill].
  { split; [exact Hc|]. split; [reflexivity|]. split; [change (total []) with 0; lia|]. split; [split; [constructor|intros r []]|]. split; [auto|]. exists []. split; [reflexivity|]. split; [constructor|]. intros r []. }
  assert (Hc' : c - r_sz r = total q) by (subst c; rewrite total_cons; lia). assert (Ht : total (r :: q) = r_sz r + total q) by reflexivity.
  destruct (cont n used).
  2:{ split; [exact Hc|]. split; [reflexivity|]. split; [change (total []) with 0; lia|]. split; [split; [constructor|intros x []]|]. split; [auto|]. exists []. split; [reflexivity|]. split; [constructor|]. intros x []. }
  destruct (_ && _) eqn:G.
  - apply andb_true_iff in G as [G1 G2]. apply Nat.leb_le in G1. specialize (IH (c - r_sz r) (S n) (used + r_sz r) (key r :: p) Hc' ltac:(lia)).
    destruct (fill k cont cap d q (c - r_sz r) (S n) (used + r_sz r) (key r :: p)) as [b [[q' c'] p']]. destruct IH as (I1 & I2 & I3 & (I4 & I4') & I5 & pop & I6 & I7 & I8).
    assert (Tb : total (r :: b) = r_sz r + total b) by reflexivity. split; [exact I1|]. split; [rewrite I2; cbn; rewrite <- app_assoc; reflexivity|]. split; [lia|]. split; [|split].
    + split.
      * cbn. constructor; auto. intros X. apply in_map_iff in X as (x & X1 & X2). destruct (I4' x X2) as [X3 _]. apply X3. left. auto.
      * intros x [<-|Hx]; [apply can_fresh; exact G2|]. destruct (I4' x Hx) as [X1 X2]. split; auto. intros Y. apply X1. right. exact Y.
    + intros x Hx. apply I5. apply can_mono; auto.
    + exists (r :: pop). split; [cbn; congruence|]. split; [constructor; exact I7|]. intros x [<-|Hx]; [left; left; reflexivity|]. destruct (I8 x Hx) as [Y|[Y|[Y1 Y2]]]; [left; right; auto|right; left; auto|right; right; lia].
  - specialize (IH (c - r_sz r) n used p Hc' Hu). destruct (fill k cont cap d q (c - r_sz r) n used p) as [b [[q' c'] p']]. destruct IH as (I1 & I2 & I3 & I4 & I5 & pop & I6 & I7 & I8).
    split; [exact I1|]. split; [exact I2|]. split; [exact I3|]. split; [exact I4|]. split; [exact I5|]. exists (r :: pop). split; [cbn; congruence|]. split; [constructor; exact I7|].
    intros x [<-|Hx].
    + apply andb_false_iff in G as [G|G]; [right; right; apply Nat.leb_gt in G; lia|right; left; auto].
    + destruct (I8 x Hx) as [Y|[Y|[Y1 Y2]]]; [left; auto|right; left; auto|right; right; lia].
Qed.

Definition env (s : st) := (view s, active s, (stable s, exec s, execs s), done s, (collecting s, pruning s, wedged s, stopAt s), taken s).
Definition effect (s s' : st) (b : list req) : Prop :=
  match b with
  | [] => sent s' = sent s /\ last s' = last s /\ transit s' = transit s
  | _ => if k_async k then sent s' = sent s /\ last s' = last s /\ transit s' = transit s ++ [(view s, b)]
         else sent s' = sent s ++ [mkPr (view s) (view s) (active s) (S (last s)) b (stable s) (exec s + execs s)] /\ last s' = S (last s) /\ transit s' = transit s
  end.
(** From s to s', the requests [pop] have left the queue, of them [b] for a message. *)
Definition Sends (s s' : st) : Prop := exists pop b,
  env s' = env s /\ queue s = pop ++ queue s' /\ combined s' = total (queue s') /\ sub b pop /\ pend s' = rev (map key b) ++ pend s /\ fresh b (pend s) (done s) /\ effect s s' b /\
  (forall r, canBecome k r (pend s) (done s) = false -> canBecome k r (pend s') (done s) = false) /\
  forall r, In r pop -> In r b \/ canBecome k r (pend s') (done s) = false \/ exists r0, In r0 (queue s) /\ k_maxMsg k <= k_over k r0 + total (queue s) /\ k_maxMsg k < k_over k r0 + total b + r_sz r.
Definition counted (s : st) : Prop := combined s = total (queue s).
Lemma Sends_refl s : counted s -> Sends s s.
Proof.
  intros H. exists [], []. split; [reflexivity|]. split; [reflexivity|]. split; [exact H|]. split; [constructor|]. split; [reflexivity|]. split; [split; [constructor|intros r []]|]. split; [repeat split|]. split; [auto|]. intros r [].
Qed.
Lemma fresh_nil p d : fresh [] p d.
Proof. split; [constructor|intros r []]. Qed.
Lemma unDup_spec s : counted s -> exists pop, queue s = pop ++ queue (unDup k s) /\ counted (unDup k s) /\ (forall r, In r pop -> canBecome k r (pend s) (done s) = false) /\
  env (unDup k s) = env s /\ pend (unDup k s) = pend s /\ sent (unDup k s) = sent s /\ last (unDup k s) = last s /\ transit (unDup k s) = transit s.
Proof.
  intros H. unfold unDup. assert (X := strip_spec (pend s) (done s) (queue s) (combined s) H). destruct (strip k (pend s) (done s) (queue s) (combined s)) as [q c]. destruct X as (X1 & pop & X2 & X3).
  exists pop. repeat split; auto.
Qed.
Lemma env_fields s s' : env s' = env s -> view s' = view s /\ active s' = active s /\ stable s' = stable s /\ exec s' = exec s /\ execs s' = execs s /\ done s' = done s /\ taken s' = taken s /\
  collecting s' = collecting s /\ pruning s' = pruning s /\ wedged s' = wedged s /\ stopAt s' = stopAt s.
Proof. unfold env. intros E. injection E. intros. repeat split; auto. Qed.
Lemma Sends_unDup s s' : counted s -> Sends (unDup k s) s' -> Sends s s'.
Proof.
  intros Hc (pop & b & H1 & H2 & H3 & H4 & H5 & H6 & H7 & H8 & H9). destruct (unDup_spec s Hc) as (pop0 & Q & C & D & E & P & T1 & T2 & T3). assert (F := env_fields _ _ E). destruct F as (F1 & F2 & F3 & F4 & F5 & F6 & _).
  rewrite P, F6 in *. exists (pop0 ++ pop), b. split; [congruence|]. split; [rewrite Q, H2, app_assoc; reflexivity|]. split; [exact H3|]. split; [apply (sub_app [] pop0); [apply sub_nil_l|exact H4]|].
  split; [exact H5|]. split; [exact H6|]. split; [unfold effect in *; rewrite F1, F2, F3, F4, F5, T1, T2, T3 in H7; exact H7|]. split; [exact H8|].
  intros r Hr. apply in_app_or in Hr as [Hr|Hr]; [right; left; apply H8; auto|]. destruct (H9 r Hr) as [X|[X|(r0 & X1 & X2 & X3)]]; auto. right. right. exists r0. rewrite Q, total_app. split; [apply in_or_app; auto|]. split; lia.
Qed.
Lemma build_sends cont s : counted s -> prim k s = true -> Sends s (build k cont s).
Proof.
  intros Hc Hp. unfold build. destruct (queue s) as [|r0 q0] eqn:Q; [apply Sends_refl; exact Hc|]. rewrite <- Q.
  assert (X := fill_spec cont (room k (combined s) (k_over k r0)) (done s) (queue s) (combined s) 0 0 (pend s) Hc ltac:(lia)).
  destruct (fill k cont (room k (combined s) (k_over k r0)) (done s) (queue s) (combined s) 0 0 (pend s)) as [b [[q c] p]]. destruct X as (X1 & X2 & X3 & X4 & X5 & pop & X6 & X7 & X8).
  assert (D : forall r, In r pop -> In r b \/ canBecome k r p (done s) = false \/ exists r0, In r0 (queue s) /\ k_maxMsg k <= k_over k r0 + total (queue s) /\ k_maxMsg k < k_over k r0 + total b + r_sz r).
  { intros r Hr. destruct (X8 r Hr) as [Y|[Y|[Y1 Y2]]]; auto. right. right. exists r0. split; [rewrite Q; left; reflexivity|]. unfold room in *. destruct (Nat.ltb_spec (combined s + k_over k r0) (k_maxMsg k)); rewrite Hc in *; lia. }
  destruct b as [|x b]; [|cbn [length Nat.eqb]; unfold propose; destruct (k_async k) eqn:As; [|unfold prim in *; cbn [view withPend withQueue]; rewrite Hp]].
  all: cbn [length Nat.eqb negb]; exists pop; eexists; (split; [reflexivity|split; [exact X6|split; [exact X1|split; [exact X7|split; [exact X2|split; [exact X4|split; [|split; [exact X5|exact D]]]]]]]]).
  all: unfold effect; try rewrite As; repeat split; auto.
Qed.
Lemma ready_prim s : ready k s = true -> prim k s = true.
Proof. unfold ready. rewrite !andb_true_iff. tauto. Qed.
Lemma Sends_withFactor s s' f r : Sends (withFactor f r s) s' -> Sends s s'.
Proof. intros H. exact H. Qed.
Lemma prim_unDup s : counted s -> prim k (unDup k s) = prim k s.
Proof. intros H. destruct (unDup_spec s H) as (_ & _ & _ & _ & E & _). apply env_fields in E. unfold prim. destruct E as [-> _]. reflexivity. Qed.
Lemma counted_unDup s : counted s -> counted (unDup k s).
Proof. intros H. destruct (unDup_spec s H) as (_ & _ & C & _). exact C. Qed.
Lemma batch_sends s : counted s -> prim k s = true -> Sends s (batch k s).
Proof.
  intros Hc Hp. unfold batch. destruct (_ =? 0); [apply Sends_refl; exact Hc|].
  assert (N : forall n, Sends s (byNum k n s)).
  { intros n. unfold byNum. destruct (_ || _); [apply Sends_refl; exact Hc|]. apply Sends_unDup; auto. apply build_sends; [apply counted_unDup; exact Hc|rewrite prim_unDup; auto]. }
  destruct (k_policy k); auto.
  - unfold selfAdjusted. cbv zeta. destruct (_ <? _); [apply (Sends_withFactor s _ (factor s) (Nat.max (recent s) (length (queue s)))), Sends_refl; exact Hc|].
    destruct (_ =? 0); [apply (Sends_withFactor s _ (factor s) (Nat.max (recent s) (length (queue s)))), (Sends_withFactor _ _ (Nat.max 1 (recent (withFactor (factor s) (Nat.max (recent s) (length (queue s))) s) / k_coef k)) 0)|apply (Sends_withFactor s _ (factor s) (Nat.max (recent s) (length (queue s))))]; apply build_sends; auto.
  - unfold bySize. destruct (_ || _); [apply Sends_refl; exact Hc|]. apply Sends_unDup; auto. apply build_sends; [apply counted_unDup; exact Hc|rewrite prim_unDup; auto].
Qed.
Lemma try_sends logic s : counted s -> Sends s (try k logic s).
Proof.
  intros Hc. unfold try. destruct (ready k s) eqn:R; [|apply Sends_refl; exact Hc]. cbn [negb]. apply ready_prim in R. cbv zeta. apply Sends_unDup; auto.
  assert (C' := counted_unDup s Hc). destruct logic; [apply batch_sends|apply build_sends]; auto; rewrite prim_unDup; auto.
Qed.
Lemma try_not_ready logic s : ready k s = false -> try k logic s = s.
Proof. intros H. unfold try. rewrite H. reflexivity. Qed.
End Send.
