(** C30. Periodic actions run exactly when due by agreed time, at most once per period, at the same ticks on all replicas. *)
From Coq Require Import List ZArith Bool Arith Lia.
From Verif Require Import Cron_Model.
Import ListNotations.
Open Scope Z_scope.

(** The in-memory schedule is what the log says. *)
Definition Agree (tabs : nat -> table) (s : sched) (l : list (nat * nat * Z)) : Prop :=
  forall c p d, In (p, Periodic d) (tabs c) -> s c p = option_map (fun t => t + d) (lastRun c p l).
Lemma nd_fst (l : table) p a b : NoDup (map fst l) -> In (p, a) l -> In (p, b) l -> a = b.
Proof.
  induction l as [|[q x] l IH]; simpl; intros N A B; [tauto|]. inversion N as [|? ? N1 N2]; subst.
  assert (X : forall y, In (p, y) l -> In p (map fst l)) by (intros y H; apply in_map_iff; exists (p, y); auto).
  destruct A as [A|A], B as [B|B]; try congruence; [inversion A; subst; exfalso; eauto|inversion B; subst; exfalso; eauto|auto].
Qed.
Lemma lastRun_cons c p t c' q l : lastRun c' q ((c, p, t) :: l) = if ((c =? c') && (p =? q))%nat then Some t else lastRun c' q l.
Proof. reflexivity. Qed.
Lemma toRun_cons tab c p t l : ~ In p (map fst tab) -> toRun tab c t ((c, p, t) :: l) = toRun tab c t l.
Proof.
  intros N. unfold toRun. rewrite !flat_map_concat_map. f_equal. apply map_ext_in. intros [q [d|]] H; auto. rewrite lastRun_cons. destruct (Nat.eqb_spec p q) as [->|]; [|rewrite andb_false_r; auto].
  exfalso. apply N, in_map_iff. exists (q, Periodic d). auto.
Qed.
Lemma agree_run tabs c p d t s l : wfTabs tabs -> In (p, Periodic d) (tabs c) -> Agree tabs s l -> Agree tabs (setNext s c p (t + d)) ((c, p, t) :: l).
Proof.
  intros W H A c' q d' Hq. rewrite lastRun_cons. unfold setNext. rewrite (Nat.eqb_sym c c'), (Nat.eqb_sym p q). destruct (Nat.eqb_spec c' c) as [->|]; cbn [andb]; [|apply A; auto].
  destruct (Nat.eqb_spec q p) as [->|]; [|apply A; auto]. assert (X : Periodic d' = Periodic d) by (eapply nd_fst; eauto). inversion X; reflexivity.
Qed.
Lemma eval_log tabs c t : wfTabs tabs -> forall tab, NoDup (map fst tab) -> incl tab (tabs c) -> forall s, Agree tabs (sch s) (log s) ->
  log (evaluate tab c (Some t) s) = rev (toRun tab c t (log s)) ++ log s /\ Agree tabs (sch (evaluate tab c (Some t) s)) (log (evaluate tab c (Some t) s)).
Proof.
  intros W. induction tab as [|[p e] tab IH]; intros N Sub s A; [simpl; auto|]. inversion N as [|? ? N1 N2]; subst. apply incl_cons_inv in Sub. destruct Sub as [Hp Sub].
  change (evaluate ((p, e) :: tab) c (Some t) s) with (evaluate tab c (Some t) (evalEntry c (Some t) s (p, e))). destruct e as [d|].
  - assert (Hd := A c p d Hp). unfold evalEntry, due. rewrite Hd.
    change (toRun ((p, Periodic d) :: tab) c t (log s)) with (match lastRun c p (log s) with None => [(c, p, t)] | Some t' => if t' + d <=? t then [(c, p, t)] else [] end ++ toRun tab c t (log s)).
    assert (R : let s1 := mkC (setNext (sch s) c p (t + d)) true (page s) ((c, p, t) :: log s) in
       log (evaluate tab c (Some t) s1) = rev ([(c, p, t)] ++ toRun tab c t (log s)) ++ log s /\ Agree tabs (sch (evaluate tab c (Some t) s1)) (log (evaluate tab c (Some t) s1))).
    { intros s1. destruct (IH N2 Sub s1) as [I1 I2]; [apply agree_run; auto|]. split; auto. rewrite I1. unfold s1. cbn [log]. rewrite toRun_cons by auto. cbn [app rev]. rewrite <- app_assoc. auto. }
    destruct (lastRun c p (log s)) as [t'|]; cbn [option_map]; [destruct (t' + d <=? t); [exact R|apply IH; auto]|exact R].
  - unfold evalEntry. change (toRun ((p, Persist) :: tab) c t (log s)) with (toRun tab c t (log s)). destruct (pending s); [exact (IH N2 Sub (mkC (sch s) false (Some (sch s)) (log s)) A)|apply IH; auto].
Qed.
Lemma eval_none c : forall tab s, log (evaluate tab c None s) = log s /\ sch (evaluate tab c None s) = sch s.
Proof. induction tab as [|[p [d|]] tab IH]; intros s; auto; unfold evaluate in *; simpl; auto. destruct (pending s); [exact (IH (mkC (sch s) false (Some (sch s)) (log s)))|apply IH]. Qed.
Definition loaded (s : cst) : sched := match page s with Some x => x | None => noSched end.
Definition PInv (s : cst) : Prop := pending s = false -> sch s = loaded s.
Lemma evalEntry_p c t s e : PInv s -> PInv (evalEntry c t s e).
Proof.
  intros H. destruct e as [p [d|]]; unfold evalEntry.
  - destruct t as [t|]; auto. destruct (due _ _ _ _); auto. intros X. discriminate.
  - destruct (pending s); auto. intros _. reflexivity.
Qed.
Lemma eval_p c t tab : forall s, PInv s -> PInv (evaluate tab c t s).
Proof. induction tab; intros s H; auto. apply IHtab. apply evalEntry_p. auto. Qed.
Definition CInv (tabs : nat -> table) (s : cst) : Prop := Agree tabs (sch s) (log s) /\ PInv s.
Lemma tick_inv tabs c t s : wfTabs tabs -> CInv tabs s -> CInv tabs (cstep tabs s (Tick c t)) /\
  log (cstep tabs s (Tick c t)) = match t with Some t => rev (toRun (tabs c) c t (log s)) | None => [] end ++ log s.
Proof.
  intros W (A & P). simpl. destruct t as [t|].
  - destruct (eval_log tabs c t W (tabs c) (W c) (incl_refl _) s A) as [L A']. split; auto. split; auto. apply eval_p; auto.
  - destruct (eval_none c (tabs c) s) as [L S]. split; auto. split; [|apply eval_p; auto]. rewrite L, S. auto.
Qed.
Lemma init_inv tabs : CInv tabs cron0.
Proof. split; [intros c p d H; reflexivity|intros _; reflexivity]. Qed.
Lemma persist_flushes tabs c t s : persistLast tabs -> pending (cstep tabs s (Tick c t)) = false.
Proof.
  intros H. destruct (H c) as (l & p & E). simpl. rewrite E. unfold evaluate. rewrite fold_left_app. cbn [fold_left]. set (x := fold_left (evalEntry c t) l s). unfold evalEntry. destruct (pending x) eqn:Q; auto.
Qed.
Lemma run_inv tabs l : wfTabs tabs -> (persistLast tabs \/ ~ In Restart l) -> noFetch l -> forall s s2, CInv tabs s -> CInv tabs s2 -> (persistLast tabs -> pending s = false) -> log s = log s2 ->
  CInv tabs (fold_left (cstep tabs) l s) /\ log (fold_left (cstep tabs) l s) = log (fold_left (cstep tabs) (ticks l) s2).
Proof.
  intros W. induction l as [|e l IH]; intros HP HF s s2 I I2 Pn E; [simpl; auto|].
  assert (HP' : persistLast tabs \/ ~ In Restart l) by (destruct HP as [|HP]; auto; right; intros X; apply HP; right; auto).
  assert (HF' : noFetch l) by (intros x X; apply (HF x); right; auto).
  destruct e as [c t| |x]; cbn [ticks filter fold_left].
  - destruct (tick_inv tabs c t s W I) as [J L]. destruct (tick_inv tabs c t s2 W I2) as [J2 L2]. apply IH; auto; [intros; apply persist_flushes; auto|rewrite L, L2, E; reflexivity].
  - destruct HP as [HP|HP]; [|exfalso; apply HP; left; auto]. apply IH; auto. destruct I as [A P]. split; [|intros _; reflexivity]. cbn. fold (loaded s). rewrite <- (P (Pn HP)). auto.
  - exfalso. apply (HF x). left. auto.
Qed.
Lemma crun_inv tabs l : wfTabs tabs -> (persistLast tabs \/ ~ In Restart l) -> noFetch l -> CInv tabs (crun tabs l) /\ log (crun tabs l) = log (crun tabs (ticks l)).
Proof. intros W P F. apply run_inv; auto using init_inv. Qed.

(** A tick runs exactly the actions of its component that never ran or whose last run is at least a period ago, for all tables and all histories; with restarts anywhere
    if the persist entry has the highest position of the table. *)
Theorem C30_runs_exactly_when_due tabs l c t : wfTabs tabs -> (persistLast tabs \/ ~ In Restart l) -> noFetch l ->
  log (crun tabs (l ++ [Tick c (Some t)])) = rev (toRun (tabs c) c t (log (crun tabs l))) ++ log (crun tabs l).
Proof.
  intros W P F. destruct (crun_inv tabs l W P F) as [I _]. unfold crun. rewrite fold_left_app. exact (proj2 (tick_inv tabs c (Some t) _ W I)).
Qed.
(** A tick without agreed time runs nothing. *)
Theorem C30_no_time_no_run tabs l c : wfTabs tabs -> log (crun tabs (l ++ [Tick c None])) = log (crun tabs l).
Proof. intros W. unfold crun. rewrite fold_left_app. apply eval_none. Qed.
(** Two replicas that executed the same ticks ran the same actions at the same ticks, whatever restarts each of them had. *)
Theorem C30_replicas_agree tabs l1 l2 : wfTabs tabs -> persistLast tabs -> noFetch l1 -> noFetch l2 -> ticks l1 = ticks l2 -> log (crun tabs l1) = log (crun tabs l2).
Proof.
  intros W P F1 F2 E. destruct (crun_inv tabs l1 W (or_introl P) F1) as [_ A]. destruct (crun_inv tabs l2 W (or_introl P) F2) as [_ B]. congruence.
Qed.
(** Two successive runs of an action are at least a period apart: [log] is A ++ (c,p,t') :: B ++ (c,p,t) :: D, the latest first, with no run of it in B. *)
Theorem C30_period_respected tabs l c p d t t' A B D : wfTabs tabs -> (persistLast tabs \/ ~ In Restart l) -> noFetch l -> In (p, Periodic d) (tabs c) ->
  log (crun tabs l) = A ++ (c, p, t') :: B ++ (c, p, t) :: D -> (forall x, ~ In (c, p, x) B) -> t + d <= t'.
Proof.
  intros W P F H. revert A. induction l as [|e l IH] using rev_ind; intros A E NB; [destruct A; discriminate|].
  assert (P' : persistLast tabs \/ ~ In Restart l) by (destruct P as [|P]; auto; right; intros X; apply P, in_or_app; auto).
  assert (F' : noFetch l) by (intros x X; apply (F x), in_or_app; auto).
  destruct e as [c0 [t0|]| |x].
  - rewrite (C30_runs_exactly_when_due tabs l c0 t0 W P' F') in E. set (L := log (crun tabs l)) in *. set (X := toRun (tabs c0) c0 t0 L) in *.
    destruct (Nat.le_gt_cases (length (rev X)) (length A)) as [La|La].
    + assert (exists A', L = A' ++ (c, p, t') :: B ++ (c, p, t) :: D) as (A' & EL).
      { clear - E La. revert A E La. induction (rev X) as [|x r IH]; intros A E La; [exists A; exact E|]. destruct A as [|a A]; [simpl in La; lia|]. simpl in E. inversion E. eapply IH; [eassumption|simpl in La; lia]. }
      eapply IH; eauto.
    + (* the later run is of this tick, and then the earlier one is the last run before it *)
      assert (ND : NoDup (map fst (rev X))).
      { rewrite map_rev. apply NoDup_rev. unfold X, toRun. clear - W. specialize (W c0). induction (tabs c0) as [|[q [dd|]] tab IH]; simpl in *; [constructor| |inversion W; auto]. inversion W as [|? ? W1 W2]; subst.
        assert (G : ~ In (c0, q) (map fst (toRun tab c0 t0 L))).
        { intros Hx. apply in_map_iff in Hx. destruct Hx as ([[a b] z] & Hz & Hx). simpl in Hz. inversion Hz; subst. unfold toRun in Hx. apply in_flat_map in Hx. destruct Hx as ([q' [d'|]] & Hi & Hx); [|destruct Hx].
          assert (q' = q) by (destruct (lastRun c0 q' L) as [u|]; [destruct (u + d' <=? t0); [destruct Hx as [Hx|[]]; congruence|destruct Hx]|destruct Hx as [Hx|[]]; congruence]). subst q'. apply W1, in_map_iff. exists (q, Periodic d'). auto. }
        destruct (lastRun c0 q L) as [u|]; [destruct (u + dd <=? t0)|]; simpl; try constructor; auto; apply IH; auto. }
      assert (exists A2 R, rev X = A2 ++ (c, p, t') :: R /\ R ++ L = B ++ (c, p, t) :: D) as (A2 & R & ER & EL).
      { clear - E La. revert A E La. induction (rev X) as [|x r IH]; intros A E La; [simpl in La; lia|]. destruct A as [|a A]; simpl in E.
        - inversion E. exists [], r. auto.
        - inversion E. destruct (IH A) as (A2 & R & Q1 & Q2); [assumption|simpl in La; lia|]. exists (a :: A2), R. split; [simpl; f_equal; auto|auto]. }
      assert (NR : ~ In (c, p) (map fst R)). { rewrite ER, map_app in ND. apply NoDup_remove_2 in ND. intros Z. apply ND, in_or_app. auto. }
      assert (LR : lastRun c p L = Some t).
      { assert (G : lastRun c p (R ++ L) = lastRun c p L). { clear - NR. induction R as [|[[a b] z] R IH]; auto. simpl. destruct ((a =? c)%nat && (b =? p)%nat) eqn:Q; [|apply IH; intros Z; apply NR; right; auto].
            apply andb_true_iff in Q. destruct Q as [Q1 Q2]. apply Nat.eqb_eq in Q1, Q2. subst. exfalso. apply NR. left. auto. }
        rewrite <- G, EL. clear - NB. induction B as [|[[a b] z] B IH]; simpl; [rewrite !Nat.eqb_refl; auto|]. destruct ((a =? c)%nat && (b =? p)%nat) eqn:Q; [|apply IH; intros x Z; apply (NB x); right; auto].
        apply andb_true_iff in Q. destruct Q as [Q1 Q2]. apply Nat.eqb_eq in Q1, Q2. subst. exfalso. apply (NB z). left. auto. }
      assert (HX : In (c, p, t') X) by (apply in_rev; rewrite ER; apply in_or_app; right; left; auto).
      unfold X, toRun in HX. apply in_flat_map in HX. destruct HX as ([q [d'|]] & Hi & Hx); [|destruct Hx].
      assert (Y : (c0, q, t0) = (c, p, t')) by (destruct (lastRun c0 q L) as [u|]; [destruct (u + d' <=? t0); [destruct Hx as [Hx|[]]; auto|destruct Hx]|destruct Hx as [Hx|[]]; auto]). inversion Y; subst c0 q t0.
      assert (DD : Periodic d' = Periodic d) by (eapply nd_fst; eauto). inversion DD; subst d'. rewrite LR in Hx. destruct (Z.leb_spec (t + d) t'); [auto|destruct Hx].
  - rewrite C30_no_time_no_run in E by auto. eapply IH; eauto.
  - unfold crun in E. rewrite fold_left_app in E. simpl in E. eapply IH; eauto.
  - exfalso. apply (F x), in_or_app. right. left. auto.
Qed.

(** What does not hold. If the persist entry has a lower position than an action, a restart forgets the action's last run: it runs again within its period. *)
Definition tabLow (c : nat) : table := if (c =? 1)%nat then [(0%nat, Persist); (1%nat, Periodic 100)] else [].
Theorem C30_persist_first_refuted : wfTabs tabLow /\ log (crun tabLow [Tick 1 (Some 10); Restart; Tick 1 (Some 11)]) = [(1%nat, 1%nat, 11); (1%nat, 1%nat, 10)].
Proof. split; [|reflexivity]. intros c. unfold tabLow. destruct (c =? 1)%nat; simpl; repeat constructor; simpl; intuition discriminate. Qed.
(** The schedule is read from its page once per process, and a state transfer replaces the page only: a replica that fetched the state while running goes on with
    its own old schedule. It runs an action at a tick where the others do not, and then persists a page different from theirs. *)
Definition tabHigh (c : nat) : table := if (c =? 1)%nat then [(0%nat, Periodic 100); (1%nat, Persist)] else [(1%nat, Persist)].
Theorem C30_state_transfer_refuted : wfTabs tabHigh /\ persistLast tabHigh /\ exists honest lagging,
  honest = crun tabHigh [Tick 1 (Some 10)] /\ lagging = crun tabHigh [Fetched (page honest)] /\ page lagging = page honest /\
  log (cstep tabHigh honest (Tick 1 (Some 11))) = log honest /\ log (cstep tabHigh lagging (Tick 1 (Some 11))) = [(1%nat, 0%nat, 11)] /\
  page (cstep tabHigh lagging (Tick 1 (Some 11))) <> page (cstep tabHigh honest (Tick 1 (Some 11))).
Proof.
  split; [intros c; unfold tabHigh; destruct (c =? 1)%nat; simpl; repeat constructor; simpl; intuition discriminate|].
  split; [intros c; unfold tabHigh; destruct (c =? 1)%nat; [exists [(0%nat, Periodic 100)], 1%nat|exists [], 1%nat]; auto|].
  eexists _, _. split; [reflexivity|]. split; [reflexivity|]. split; [reflexivity|]. split; [reflexivity|]. split; [reflexivity|].
  intros H. cbn in H. inversion H as [H1]. pose proof (f_equal (fun f : sched => f 1%nat 0%nat) H1) as H2. cbn in H2. discriminate.
Qed.

Print Assumptions C30_runs_exactly_when_due.
Print Assumptions C30_no_time_no_run.
Print Assumptions C30_replicas_agree.
Print Assumptions C30_period_respected.
Print Assumptions C30_persist_first_refuted.
Print Assumptions C30_state_transfer_refuted.

(** Non-vacuity: two actions with periods 100 and 30, ticks and restarts in between. *)
Definition tab2 (c : nat) : table := if (c =? 1)%nat then [(0%nat, Periodic 100); (2%nat, Periodic 30); (7%nat, Persist)] else [(1%nat, Persist)].
Example C30_example : wfTabs tab2 /\ persistLast tab2 /\
  log (crun tab2 [Tick 1 (Some 10); Restart; Tick 1 (Some 39); Tick 1 (Some 40); Restart; Tick 2 (Some 50); Tick 1 None; Tick 1 (Some 115)]) =
    [(1%nat, 2%nat, 115); (1%nat, 0%nat, 115); (1%nat, 2%nat, 40); (1%nat, 2%nat, 10); (1%nat, 0%nat, 10)].
Proof.
  split; [intros c; unfold tab2; destruct (c =? 1)%nat; simpl; repeat constructor; simpl; intuition discriminate|].
  split; [|vm_compute; reflexivity]. intros c; unfold tab2; destruct (c =? 1)%nat; [exists [(0%nat, Periodic 100); (2%nat, Periodic 30)], 7%nat|exists [], 1%nat]; auto.
Qed.
