(** Proofs for Pool_Model. *)
From Coq Require Import List Arith Bool Lia Permutation.
From Verif Require Import Pool_Model.
Import ListNotations.

Section Proofs.
Context (B : nat) (T : bool) (clients : list nat) (ND : NoDup clients).
Notation step := (step B T).

(** The loop of SendRequest: what every round keeps and what its ends give. *)
Definition flush (c : nat) (q : list nat) (s : st) : st := assign c (JBatch false) (timerCancel (withQueue q s)).
Definition addBatch (r : req) (c : nat) (q : list nat) (s : st) : st :=
  let s := match pend s c with [] => timerStart T c s | _ => s end in
  let s := withPend (upd (pend s) c (pend s c ++ [r])) s in
  let s := if B <=? length (pend s c) then assign c (JBatch false) (timerCancel (withQueue q s)) else s in
  ack r s.
Lemma loop_inv (I Q : st -> Prop) r :
  (forall s c q, I s -> queue s = c :: q -> serving s c = false -> I (withQueue (q ++ [c]) s)) ->
  (forall s c q, I s -> queue s = c :: q -> serving s c = true -> batchable r = false -> pend s c <> [] -> I (flush c q s)) ->
  (forall s a, I s -> Q (reject r a s)) ->
  (forall s c q, I s -> queue s = c :: q -> serving s c = true -> batchable r = true -> Q (addBatch r c q s)) ->
  (forall s c q, I s -> queue s = c :: q -> serving s c = true -> batchable r = false -> pend s c = [] -> Q (ack r (assign c (JSingle r false) (withQueue q s)))) ->
  forall fuel cand s, I s -> length (queue s) + cand <= fuel -> Q (loop B T fuel cand r s).
Proof.
  intros H1 H2 H3 H4 H5. induction fuel as [|fuel IH]; intros cand s Hi L.
  - cbn [loop]. destruct (queue s) eqn:Q0; [auto|]. destruct cand; [auto|]. cbn [length] in L. lia.
  - cbn [loop]. destruct (queue s) as [|c q] eqn:Q0; [auto|]. destruct cand as [|cand]; [auto|]. cbn [length] in L.
    destruct (serving s c) eqn:Sv; cbn [negb].
    + destruct (batchable r) eqn:Bt. { apply (H4 s c q); auto. }
      destruct (pend s c) as [|p l] eqn:Pc. { apply (H5 s c q); auto. }
      apply IH; [apply (H2 s c q); auto; congruence|]. cbn. lia.
    + apply IH; [apply (H1 s c q); auto|]. cbn. rewrite app_length. cbn. lia.
Qed.
Lemma send_inv (I Q : st -> Prop) r s :
  (forall s c q, I s -> queue s = c :: q -> serving s c = false -> I (withQueue (q ++ [c]) s)) ->
  (forall s c q, I s -> queue s = c :: q -> serving s c = true -> batchable r = false -> pend s c <> [] -> I (flush c q s)) ->
  (forall s a, I s -> Q (reject r a s)) ->
  (forall s c q, I s -> queue s = c :: q -> serving s c = true -> batchable r = true -> Q (addBatch r c q s)) ->
  (forall s c q, I s -> queue s = c :: q -> serving s c = true -> batchable r = false -> pend s c = [] -> Q (ack r (assign c (JSingle r false) (withQueue q s)))) ->
  I s -> Q (send B T r s).
Proof. intros H1 H2 H3 H4 H5 Hi. unfold send. destruct (zero r); [auto|]. apply (loop_inv I Q); auto. Qed.

(** * Every client is in one place. *)
Definition held (s : st) : list nat := queue s ++ map fst (jobs s).
Definition P (s : st) : Prop := Permutation clients (held s).
Lemma P_nd s : P s -> NoDup (held s).
Proof. intros H. eapply Permutation_NoDup; eauto. Qed.
Lemma P_same s s' : queue s' = queue s -> map fst (jobs s') = map fst (jobs s) -> P s -> P s'.
Proof. unfold P, held. intros -> ->. auto. Qed.
Lemma P_move s s' c q j : queue s = c :: q -> queue s' = q -> jobs s' = jobs s ++ [(c, j)] -> P s -> P s'.
Proof.
  unfold P, held. intros E -> ->. rewrite E, map_app. cbn. intros H. rewrite H. rewrite app_assoc. apply Permutation_cons_append.
Qed.
Lemma setJob_fst c j l : map fst (setJob c j l) = map fst l.
Proof. unfold setJob. rewrite map_map. apply map_ext_in. intros [k x] _. cbn. destruct (Nat.eqb_spec k c); cbn; congruence. Qed.
Lemma findJob_in c s j : findJob c s = Some j -> In (c, j) (jobs s).
Proof.
  unfold findJob. destruct (find _ (jobs s)) as [[k x]|] eqn:F; [|discriminate]. intros E. injection E as <-. apply find_some in F as [F1 F2].
  cbn in F2. apply Nat.eqb_eq in F2. subst. exact F1.
Qed.
Lemma dropJob_perm c l : NoDup (map fst l) -> In c (map fst l) -> Permutation (map fst l) (c :: map fst (dropJob c l)).
Proof.
  induction l as [|[k x] l IH]; intros N H; [destruct H|]. cbn in N. inversion N; subst. cbn [dropJob filter fst]. cbn [map fst] in *. destruct (Nat.eqb_spec k c) as [->|Ne]; cbn [negb].
  - unfold dropJob in *. assert (E : filter (fun x => negb (fst x =? c)) l = l).
    { clear -H2. induction l as [|[k y] l IH]; cbn in *; auto. destruct (Nat.eqb_spec k c); [subst; exfalso; apply H2; auto|]. cbn. f_equal. apply IH. tauto. }
    rewrite E. reflexivity.
  - destruct H as [H|H]; [congruence|]. cbn [map fst]. rewrite (IH H3 H) at 1. apply perm_swap.
Qed.
Lemma nd_app_r {A} (a b : list A) : NoDup (a ++ b) -> NoDup b.
Proof. induction a; cbn; auto. intros H. inversion H; auto. Qed.
Lemma P_done s s' c : P s -> (exists j, In (c, j) (jobs s)) -> queue s' = queue s ++ [c] -> jobs s' = dropJob c (jobs s) -> P s'.
Proof.
  unfold P, held. intros H [j Hj] -> ->. rewrite H. rewrite <- app_assoc. apply Permutation_app_head. cbn.
  apply dropJob_perm. { eapply nd_app_r. eapply Permutation_NoDup; eauto. } apply (in_map fst) in Hj. exact Hj.
Qed.
Lemma addBatch_P r c q s : P s -> queue s = c :: q -> P (addBatch r c q s).
Proof.
  intros H E. unfold addBatch. cbv zeta. set (s1 := match pend s c with [] => timerStart T c s | _ => s end).
  assert (Q1 : queue s1 = queue s /\ jobs s1 = jobs s). { unfold s1, timerStart. destruct (pend s c); [destruct T|]; auto. }
  destruct Q1 as [Q1 J1]. set (s2 := withPend _ s1). destruct (B <=? length (pend s2 c)).
  - eapply P_move; [exact E| | |exact H]; cbn; [reflexivity|]. rewrite J1. reflexivity.
  - eapply P_same; [| |exact H]; cbn; [exact Q1|rewrite J1; reflexivity].
Qed.
Lemma step_P s e : P s -> P (step s e).
Proof.
  intros H. unfold Pool_Model.step. destruct (crashed s); [exact H|]. destruct e.
  - apply (send_inv P P); auto.
    + intros s0 c q H0 E _. unfold P, held in *. cbn. rewrite E in H0. rewrite H0. cbn. rewrite <- app_assoc. cbn. apply Permutation_middle.
    + intros s0 c q H0 E _ _ _. eapply P_move; eauto; reflexivity.
    + intros. apply addBatch_P; auto.
    + intros s0 c q H0 E _ _ _. eapply P_move; [exact E| | |exact H0]; reflexivity.
  - destruct (armed s); exact H.
  - destruct (expired s), (fired s); try exact H. destruct (tclient s); exact H.
  - destruct (fired s) as [c|]; [|exact H]. cbv zeta. cbn [queue]. destruct (queue s) as [|d q] eqn:E; [eapply P_same; [| |exact H]; cbn; auto|]. destruct (Nat.eqb_spec d c) as [->|]; [|eapply P_same; [| |exact H]; cbn; auto].
    eapply P_move; [exact E| | |exact H]; reflexivity.
  - destruct (findJob c s) as [[[]|r []]|]; try exact H.
    + destruct (pend s c); [exact H|]. eapply P_same; [| |exact H]; cbn; [reflexivity|apply setJob_fst].
    + eapply P_same; [| |exact H]; cbn; [reflexivity|apply setJob_fst].
  - destruct (findJob c s) as [[[]|r []]|] eqn:F; try exact H; apply findJob_in in F; (eapply P_done; [exact H|eauto| |]; reflexivity).
  - destruct (find _ (post s)); exact H.
  - exact H.
Qed.
Lemma run_P l : P (run B T clients l).
Proof.
  unfold run. assert (H : P (init clients)). { unfold P, held. cbn. rewrite app_nil_r. reflexivity. }
  revert H. generalize (init clients). induction l; cbn; auto. intros s H. apply IHl. apply step_P. exact H.
Qed.

(** * Rejection. *)
Lemma addBatch_acked r c q s : acked (addBatch r c q s) = acked s ++ [r] /\ rejected (addBatch r c q s) = rejected s.
Proof.
  unfold addBatch. cbv zeta. set (s1 := match pend s c with [] => timerStart T c s | _ => s end).
  assert (Q1 : acked s1 = acked s /\ rejected s1 = rejected s). { unfold s1, timerStart. destruct (pend s c); [destruct T|]; auto. }
  destruct Q1 as [<- <-]. match goal with |- context [if ?b then _ else _] => destruct b end; auto.
Qed.
Lemma loop_rejects r : forall fuel cand s rest rot, queue s = rest ++ rot -> length rest <= cand -> (forall c, In c rot -> serving s c = false) -> length (queue s) + cand <= fuel ->
  let s' := loop B T fuel cand r s in
  (acked s' = acked s ++ [r] /\ rejected s' = rejected s) \/
  (acked s' = acked s /\ rejected s' = rejected s ++ [(rid r, match queue s' with [] => Overloaded | _ => NotReady end)] /\ answers s' = answers s /\ pend s' = pend s /\
   (forall c, In c (queue s') -> serving s c = false) /\ (forall c, In c (queue s) -> In c (queue s') \/ (serving s c = true /\ batchable r = false /\ pend s c <> []))).
Proof.
  induction fuel as [|fuel IH]; intros cand s rest rot E Ec Hr L.
  - destruct (queue s) eqn:Q0; [|cbn in L; lia]. cbn [loop]. rewrite Q0. right. cbn. rewrite Q0. repeat split; auto; intros c [].
  - cbn [loop]. destruct (queue s) as [|c q] eqn:Q0.
    { right. cbn. rewrite Q0. repeat split; auto; intros c []. }
    destruct cand as [|cand].
    { destruct rest; [|cbn in Ec; lia]. cbn in E. right. cbn. rewrite Q0. repeat split; auto. intros d Hd. apply Hr. rewrite <- E. exact Hd. }
    cbn [length] in L. destruct (serving s c) eqn:Sv; cbn [negb].
    + destruct (batchable r) eqn:Bt. { left. apply addBatch_acked. }
      destruct (pend s c) as [|p l] eqn:Pc; [left; cbn; auto|].
      destruct rest as [|c' rest]. { cbn in E. rewrite (Hr c) in Sv; [discriminate|]. rewrite <- E. left; auto. }
      cbn in E. injection E as <- ->. cbn [length] in Ec.
      specialize (IH (S cand) (flush c (rest ++ rot) s) rest rot eq_refl). cbn [queue serving acked rejected answers pend flush assign timerCancel withQueue] in IH.
      specialize (IH ltac:(lia) Hr ltac:(lia)). cbv zeta in *. fold (flush c (rest ++ rot) s).
      destruct IH as [X|(X1 & X2 & X3 & X3' & X4 & X5)]; [left; exact X|right]. repeat split; auto.
      intros d [->|Hd]; [right|apply X5; exact Hd]. repeat split; auto. rewrite Pc. discriminate.
    + destruct rest as [|c' rest].
      * cbn in E. specialize (IH cand (withQueue (q ++ [c]) s) [] (q ++ [c]) eq_refl). cbn [queue serving acked rejected answers pend withQueue length] in IH.
        assert (Hr' : forall d, In d (q ++ [c]) -> serving s d = false). { intros d Hd. apply Hr. rewrite <- E. apply in_app_or in Hd as [Hd|[<-|[]]]; [right|left]; auto. }
        specialize (IH ltac:(lia) Hr'). rewrite app_length in IH. cbn in IH. specialize (IH ltac:(lia)). cbv zeta in *.
        destruct IH as [X|(X1 & X2 & X3 & X3' & X4 & X5)]; [left; exact X|right]. repeat split; auto.
        intros d [->|Hd]; apply X5; apply in_or_app; [right; left|left]; auto.
      * cbn in E. injection E as <- ->. cbn [length] in Ec. specialize (IH cand (withQueue ((rest ++ rot) ++ [c]) s) rest (rot ++ [c])). cbn [queue serving acked rejected answers pend withQueue] in IH.
        specialize (IH (eq_sym (app_assoc _ _ _)) ltac:(lia)).
        assert (Hr' : forall d, In d (rot ++ [c]) -> serving s d = false). { intros d Hd. apply in_app_or in Hd as [Hd|[<-|[]]]; auto. }
        specialize (IH Hr'). assert (L' : length ((rest ++ rot) ++ [c]) + cand <= fuel). { rewrite !app_length in *. cbn in *. lia. } specialize (IH L').
        cbv zeta in *. destruct IH as [X|(X1 & X2 & X3 & X3' & X4 & X5)]; [left; exact X|right]. repeat split; auto.
        intros d [->|Hd]; apply X5; apply in_or_app; [right; left|left]; auto.
Qed.
Lemma send_rejects r s : zero r = false ->
  let s' := send B T r s in
  (acked s' = acked s ++ [r] /\ rejected s' = rejected s) \/
  (acked s' = acked s /\ rejected s' = rejected s ++ [(rid r, match queue s' with [] => Overloaded | _ => NotReady end)] /\ answers s' = answers s /\ pend s' = pend s /\
   (forall c, In c (queue s') -> serving s c = false) /\ (forall c, In c (queue s) -> In c (queue s') \/ (serving s c = true /\ batchable r = false /\ pend s c <> []))).
Proof.
  intros Z. unfold send. rewrite Z. apply (loop_rejects r _ _ s (queue s) []); auto. { rewrite app_nil_r. auto. } intros c [].
Qed.

(** * What is acknowledged grows. *)
Lemma send_acked r s : exists l, acked (send B T r s) = acked s ++ l.
Proof.
  destruct (zero r) eqn:Z. { exists []. unfold send. rewrite Z, app_nil_r. reflexivity. }
  destruct (send_rejects r s Z) as [[X _]|[X _]]; [exists [r]|exists []; rewrite app_nil_r]; exact X.
Qed.
Lemma step_acked s e : exists l, acked (step s e) = acked s ++ l.
Proof.
  assert (D : forall s', acked s' = acked s -> exists l, acked s' = acked s ++ l). { intros s' ->. exists []. rewrite app_nil_r. reflexivity. }
  unfold Pool_Model.step. destruct (crashed s); [apply D; auto|]. destruct e; [apply send_acked|apply D..].
  - destruct (armed s); reflexivity.
  - destruct (expired s), (fired s); try reflexivity. destruct (tclient s); reflexivity.
  - destruct (fired s); [|reflexivity]. cbv zeta. cbn [queue]. destruct (queue s); [reflexivity|]. destruct (_ =? _); reflexivity.
  - destruct (findJob c s) as [[[]|r []]|]; try reflexivity. destruct (pend s c); reflexivity.
  - destruct (findJob c s) as [[[]|r []]|]; reflexivity.
  - destruct (find _ (post s)); reflexivity.
  - reflexivity.
Qed.

(** * Accounting. *)
Lemma split_job l c j : NoDup (map fst l) -> In (c, j) l ->
  exists a b, l = a ++ (c, j) :: b /\ dropJob c l = a ++ b /\ forall j', setJob c j' l = a ++ (c, j') :: b.
Proof.
  intros N H. apply in_split in H as (a & b & ->). exists a, b. split; [reflexivity|].
  rewrite map_app in N. cbn in N. assert (Na : ~ In c (map fst a) /\ ~ In c (map fst b)).
  { apply NoDup_remove_2 in N. rewrite in_app_iff in N. tauto. }
  assert (F : forall l, ~ In c (map fst l) -> dropJob c l = l /\ forall j', setJob c j' l = l).
  { induction l as [|[k x] l IH]; cbn; [auto|]. intros Hn. destruct (Nat.eqb_spec k c); [tauto|]. cbn. destruct IH as [I1 I2]; [tauto|].
    unfold dropJob in I1. rewrite I1. split; auto. intros j'. unfold setJob in I2. rewrite I2. reflexivity. }
  destruct Na as [N1 N2]. apply F in N1 as [A1 A2]. apply F in N2 as [B1 B2]. split.
  - unfold dropJob in *. rewrite filter_app. cbn. rewrite Nat.eqb_refl. cbn. rewrite A1, B1. reflexivity.
  - intros j'. unfold setJob in *. rewrite map_app. cbn. rewrite Nat.eqb_refl, A2, B2. reflexivity.
Qed.
Lemma flat_upd {A} (f : nat -> list A) c x : forall l, NoDup l -> In c l -> Permutation (f c ++ flat_map (upd f c x) l) (x ++ flat_map f l).
Proof.
  intros l N H. apply in_split in H as (a & b & ->). apply NoDup_remove_2 in N. rewrite in_app_iff in N.
  assert (F : forall l, ~ In c l -> flat_map (upd f c x) l = flat_map f l).
  { induction l as [|k l IH]; cbn; [auto|]. intros Hn. rewrite IH by tauto. unfold upd at 1. destruct (Nat.eqb_spec k c); [tauto|reflexivity]. }
  rewrite !flat_map_app. cbn. rewrite (F a), (F b) by tauto. unfold upd at 1. rewrite Nat.eqb_refl.
  rewrite (app_assoc (flat_map f a)), (app_assoc (f c)). rewrite (Permutation_app_comm (flat_map f a) x), (app_assoc (f c)).
  rewrite (Permutation_app_comm (f c) x). rewrite <- !app_assoc. apply Permutation_app_head.
  rewrite !app_assoc. apply Permutation_app_tail. apply Permutation_app_comm.
Qed.
Definition W (s : st) : Prop :=
  post s = [] /\
  exists done, Permutation (acked s) (working clients s ++ done) /\ Permutation (map fst (answers s)) (map rid done) /\
    forall i n, In (i, Reply n) (answers s) -> exists r, In r done /\ rid r = i /\ seq r = n.
Lemma W_same s s' : post s' = post s -> Permutation (working clients s') (working clients s) -> acked s' = acked s -> answers s' = answers s -> W s -> W s'.
Proof. unfold W. intros -> Hw -> -> [H (d & H1 & H2)]. split; auto. exists d. rewrite Hw. auto. Qed.
Lemma W_add r s s' : post s' = post s -> Permutation (working clients s') (r :: working clients s) -> acked s' = acked s ++ [r] -> answers s' = answers s -> W s -> W s'.
Proof.
  unfold W. intros -> Hw -> -> [H (d & H1 & H2)]. split; auto. exists d. rewrite Hw. cbn. rewrite <- Permutation_cons_append. split; auto.
Qed.
Lemma P_in s c : P s -> In c (held s) -> In c clients.
Proof. intros H. apply Permutation_in. symmetry. exact H. Qed.
Lemma P_jobs s : P s -> NoDup (map fst (jobs s)).
Proof. intros H. eapply nd_app_r. apply P_nd. exact H. Qed.
Lemma addBatch_W r c q s : P s -> queue s = c :: q -> W s -> W (addBatch r c q s).
Proof.
  intros Hp Hq Hw. assert (Hc : In c clients). { apply (P_in s); auto. unfold held. rewrite Hq. left; auto. }
  assert (E : post (addBatch r c q s) = post s /\ acked (addBatch r c q s) = acked s ++ [r] /\ answers (addBatch r c q s) = answers s /\
              pend (addBatch r c q s) = upd (pend s) c (pend s c ++ [r]) /\ singles (addBatch r c q s) = singles s).
  { unfold addBatch. cbv zeta. set (s1 := match pend s c with [] => timerStart T c s | _ => s end).
    assert (Q1 : post s1 = post s /\ acked s1 = acked s /\ answers s1 = answers s /\ pend s1 = pend s /\ jobs s1 = jobs s).
    { unfold s1, timerStart. destruct (pend s c); [destruct T|]; repeat split; auto. }
    destruct Q1 as (<- & <- & <- & <- & Q5). match goal with |- context [if ?b then _ else _] => destruct b end; cbn; repeat split; unfold singles; cbn; rewrite Q5; auto.
    rewrite flat_map_app. cbn. rewrite app_nil_r. reflexivity. }
  destruct E as (E1 & E2 & E3 & E4 & E5). eapply W_add; eauto. unfold working. rewrite E4, E5. rewrite app_comm_cons. apply Permutation_app_tail.
  assert (F := flat_upd (pend s) c (pend s c ++ [r]) clients ND Hc). rewrite <- app_assoc in F. apply Permutation_app_inv_l in F. exact F.
Qed.
Lemma begin_singles l c j j' : NoDup (map fst l) -> In (c, j) l -> (match j with JSingle r _ => [r] | _ => [] end = match j' with JSingle r _ => [r] | _ => [] end) ->
  flat_map (fun x : nat * job => match snd x with JSingle r _ => [r] | _ => [] end) (setJob c j' l) = flat_map (fun x : nat * job => match snd x with JSingle r _ => [r] | _ => [] end) l.
Proof.
  intros N H E. destruct (split_job l c j N H) as (a & b & -> & _ & S0). rewrite S0, !flat_map_app. cbn. rewrite E. reflexivity.
Qed.
Lemma step_W s e : P s -> W s -> (forall c ok, e <> Done c ok) -> (forall c, e <> Check c) -> W (step s e).
Proof.
  intros Hp Hw E1 E2. unfold Pool_Model.step. destruct (crashed s); [exact Hw|]. destruct e.
  - apply (send_inv (fun s => P s /\ W s) W); auto.
    + intros s0 c q [P0 W0] Eq _. split; [|exact W0]. unfold P, held in *. cbn. rewrite Eq in P0. rewrite P0. cbn. rewrite <- app_assoc. cbn. apply Permutation_middle.
    + intros s0 c q [P0 W0] Eq _ _ _. split. { eapply P_move; [exact Eq| | |exact P0]; reflexivity. }
      eapply W_same; [| | | |exact W0]; try reflexivity. unfold working, singles. cbn. rewrite flat_map_app. cbn. rewrite app_nil_r. reflexivity.
    + intros s0 a [_ W0]. exact W0.
    + intros s0 c q [P0 W0] Eq _ _. apply addBatch_W; auto.
    + intros s0 c q [P0 W0] Eq _ _ _. eapply W_add; [| | | |exact W0]; try reflexivity. unfold working, singles. cbn. rewrite flat_map_app. cbn.
      rewrite app_assoc. symmetry. apply Permutation_cons_append.
  - destruct (armed s); exact Hw.
  - destruct (expired s), (fired s); try exact Hw. destruct (tclient s); exact Hw.
  - destruct (fired s) as [c|]; [|exact Hw]. cbv zeta. cbn [queue]. destruct (queue s) as [|d q] eqn:E; [exact Hw|].
    destruct (d =? c); [|exact Hw]. eapply W_same; [| | | |exact Hw]; try reflexivity. unfold working, singles. cbn. rewrite flat_map_app. cbn. rewrite app_nil_r. reflexivity.
  - destruct (findJob c s) as [[[]|r []]|] eqn:F; try exact Hw; apply findJob_in in F.
    + destruct (pend s c); [exact Hw|]. eapply W_same; [| | | |exact Hw]; try reflexivity. unfold working, singles. cbn.
      rewrite (begin_singles _ _ _ (JBatch true) (P_jobs s Hp) F); reflexivity.
    + eapply W_same; [| | | |exact Hw]; try reflexivity. unfold working, singles. cbn.
      rewrite (begin_singles _ _ _ (JSingle r true) (P_jobs s Hp) F); reflexivity.
  - exfalso. eapply E1. reflexivity.
  - exfalso. eapply E2. reflexivity.
  - exact Hw.
Qed.
Lemma batch_distinct l : NoDup (map cid l) -> batchReplies l = map (fun q => (rid q, Reply (seq q))) l.
Proof.
  intros N. unfold batchReplies. assert (F : forall q, In q l -> filter (fun p => cid p =? cid q) l = [q]).
  { intros q H. apply in_split in H as (a & b & ->). rewrite map_app in N. cbn in N. apply NoDup_remove_2 in N. rewrite in_app_iff in N.
    assert (G : forall l, ~ In (cid q) (map cid l) -> filter (fun p => cid p =? cid q) l = []).
    { induction l as [|p l IH]; cbn; auto. intros Hn. destruct (Nat.eqb_spec (cid p) (cid q)); [tauto|]. apply IH. tauto. }
    rewrite filter_app. cbn. rewrite Nat.eqb_refl, (G a), (G b) by tauto. reflexivity. }
  assert (G : forall l', incl l' l -> flat_map (fun q => map (fun p => (rid p, Reply (seq q))) (filter (fun p => cid p =? cid q) l)) l' = map (fun q => (rid q, Reply (seq q))) l').
  { induction l' as [|q l' IH]; intros Hi; [reflexivity|]. cbn [flat_map map]. rewrite F by (apply Hi; left; auto). cbn. f_equal. apply IH. intros x Hx. apply Hi. right; auto. }
  apply G. apply incl_refl.
Qed.
Lemma nd_cid_sub (a b : list req) : NoDup (map cid (a ++ b)) -> NoDup (map cid a).
Proof. rewrite map_app. intros H. induction (map cid a); [constructor|]. cbn in H. inversion H; subst. constructor; auto. rewrite in_app_iff in *. tauto. Qed.
Lemma done_W s c ok : P s -> W s -> NoDup (map cid (acked s)) -> W (step (step s (Done c ok)) (Check c)).
Proof.
  intros Hp [Ho (d & H1 & H2 & H3)] Nc.
  assert (Same : W s) by (split; eauto).
  unfold Pool_Model.step at 2. destruct (crashed s) eqn:Cr. { unfold Pool_Model.step. rewrite Cr. exact Same. }
  assert (Triv : W (step s (Check c))). { unfold Pool_Model.step. rewrite Cr, Ho. exact Same. }
  destruct (findJob c s) as [[[]|r []]|] eqn:F; try exact Triv; clear Triv; apply findJob_in in F;
    destruct (split_job _ _ _ (P_jobs s Hp) F) as (a & b & Ej & Ed & _).
  - assert (Hc : In c clients). { apply (P_in s); auto. unfold held. apply in_or_app. right. apply (in_map fst) in F. exact F. }
    set (good' := ok && noDup (map seq (pend s c))). unfold Pool_Model.step. cbn [crashed post]. rewrite Ho. cbn [app find fst]. rewrite Nat.eqb_refl.
    cbn [queue serving pend jobs post good tclient armed expired fired acked answers rejected snd]. unfold upd at 3. rewrite Nat.eqb_refl.
    assert (Pw : Permutation (working clients s) (flat_map (upd (pend s) c []) clients ++ singles s ++ pend s c)).
    { unfold working. rewrite (app_assoc _ (singles s)). rewrite (Permutation_app_comm _ (pend s c)). rewrite app_assoc. apply Permutation_app_tail.
      symmetry. exact (flat_upd (pend s) c [] clients ND Hc). }
    assert (N2 : NoDup (map cid (pend s c))).
    { apply (nd_cid_sub (pend s c) ((flat_map (upd (pend s) c []) clients ++ singles s) ++ d)). eapply Permutation_NoDup; [|exact Nc]. apply Permutation_map.
      rewrite H1, Pw, (app_assoc _ (singles s) (pend s c)), (Permutation_app_comm _ (pend s c)), <- app_assoc. reflexivity. }
    assert (Es : flat_map (fun x : nat * job => match snd x with JSingle r _ => [r] | _ => [] end) (dropJob c (jobs s)) = singles s).
    { unfold singles. rewrite Ed, Ej, !flat_map_app. reflexivity. }
    split; [reflexivity|]. exists (pend s c ++ d). unfold working, singles. cbn. rewrite Es. split; [|split].
    + rewrite H1, Pw, <- !app_assoc. reflexivity.
    + assert (Ea : map fst (if good' then batchReplies (pend s c) else []) ++ map fst (if good' then [] else map (fun r => (rid r, Timeout)) (pend s c)) = map rid (pend s c)).
      { destruct good'; cbn.
        - rewrite batch_distinct. { rewrite map_map, app_nil_r. reflexivity. }
          exact N2.
        - rewrite map_map. reflexivity. }
      rewrite !map_app, H2, <- app_assoc, Ea. apply Permutation_app_comm.
    + intros i n Hin. rewrite !in_app_iff in Hin. destruct Hin as [[Hin|Hin]|Hin].
      * destruct (H3 i n Hin) as (r & R1 & R2). exists r. split; auto. apply in_or_app; auto.
      * destruct good'; [|destruct Hin]. rewrite batch_distinct in Hin.
        { apply in_map_iff in Hin as (r & R1 & R2). injection R1 as R1 R3. exists r. split; auto. apply in_or_app; auto. }
        exact N2.
      * destruct good'; [destruct Hin|]. apply in_map_iff in Hin as (r & R1 & _). discriminate.
  - unfold Pool_Model.step. cbn [crashed post]. rewrite Ho. cbn [app find fst]. rewrite Nat.eqb_refl.
    cbn [queue serving pend jobs post good tclient armed expired fired acked answers rejected snd map].
    assert (En : (if upd (good s) c ok c then @nil (nat * answer) else []) = []) by (destruct (upd _ _ _ _); reflexivity). rewrite En, app_nil_r.
    split; [reflexivity|]. exists (r :: d). unfold working, singles. cbn. rewrite Ed. split; [|split].
    + rewrite H1. unfold working, singles. rewrite Ej, !flat_map_app. cbn. rewrite <- !app_assoc. cbn.
      apply Permutation_app_head. apply Permutation_app_head. apply Permutation_middle.
    + rewrite map_app, H2. cbn. symmetry. apply Permutation_cons_append.
    + intros i n Hin. apply in_app_or in Hin as [Hin|[Hin|[]]].
      * destruct (H3 i n Hin) as (x & R1 & R2). exists x. split; [right|]; auto.
      * injection Hin as R1 R2. destruct ok; [|discriminate]. injection R2 as R2. exists r. split; [left|]; auto.
Qed.
Lemma calm_P s : calm B T clients s -> P s.
Proof.
  induction 1; [unfold P, held; cbn; rewrite app_nil_r; reflexivity|apply step_P; auto|apply step_P, step_P; auto].
Qed.
Lemma calm_W s : calm B T clients s -> NoDup (map cid (acked s)) -> W s.
Proof.
  induction 1; intros N.
  - split; [reflexivity|]. exists []. cbn. unfold working, singles. cbn. rewrite !app_nil_r. split; [|split; [reflexivity|intros i n []]].
    clear. induction clients; cbn; auto.
  - apply step_W; auto. { apply calm_P; auto. } apply IHcalm. destruct (step_acked s e) as [l E]. rewrite E in N. apply nd_cid_sub in N. exact N.
  - assert (N' : NoDup (map cid (acked s))).
    { destruct (step_acked s (Done c ok)) as [l E]. destruct (step_acked (step s (Done c ok)) (Check c)) as [l2 E2]. rewrite E2, E in N. rewrite <- app_assoc in N. apply nd_cid_sub in N. exact N. }
    apply done_W; auto. apply calm_P; auto.
Qed.
End Proofs.
