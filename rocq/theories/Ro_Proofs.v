(** Proofs for Ro_Model. *)
From Coq Require Import List Arith Bool Lia.
From Verif Require Import Cert_Model Cert_Proofs Cert_Props Ro_Model.
Import ListNotations.

Lemma equiv_eq : equivalence equiv.
Proof.
  unfold equivalence, equiv. repeat split; intros.
  - now rewrite !Nat.eqb_refl.
  - rewrite !andb_true_iff, !Nat.eqb_eq in *. intuition.
  - rewrite !andb_true_iff, !Nat.eqb_eq in *. intuition congruence.
Qed.
Lemma crun_app M eqv sf kp n rq sid a : forall s b, crun M eqv sf kp n rq sid s (a ++ b) = match crun M eqv sf kp n rq sid s a with Some t => crun M eqv sf kp n rq sid t b | None => None end.
Proof. induction a as [|[r m|] a IH]; intros s b; simpl; auto. destruct (addMsg _ _ _ _ _ _ _ s r m) as [[t x]|]; auto. Qed.
Lemma received_In {M} l : forall acc (x : nat * M), In x (received acc l) -> In x acc \/ In (Add M (fst x) (snd x)) l.
Proof.
  induction l as [|[r m|] l IH]; intros acc x H; simpl in *; auto.
  - apply IH in H as [H|H]; [|auto]. destruct (existsb _ acc); [auto|]. apply in_app_iff in H as [H|[<-|[]]]; auto.
  - apply IH in H as [[]|H]; auto.
Qed.
Lemma received_nodup {M} l : forall acc : list (nat * M), NoDup (map fst acc) -> NoDup (map fst (received acc l)).
Proof.
  induction l as [|[r m|] l IH]; intros acc N; simpl in *; auto; [|apply IH; constructor].
  apply IH. destruct (existsb _ acc) eqn:E; auto. rewrite map_app. simpl. apply NoDup_Add with (a := r) (l := map fst acc); [|split; auto].
  - rewrite <- (app_nil_r (map fst acc)) at 1. apply Add_app.
  - intros I. apply in_map_iff in I as (x & <- & I). rewrite <- not_true_iff_false, existsb_exists in E. apply E. exists x. split; [easy|apply Nat.eqb_refl].
Qed.
Section S.
Context (f c w : nat) (POS : 0 < f).
Notation ops q l := (map (fun x => Add ckpt (fst x) (snd x)) (filter (fun x => sq (snd x) =? q) l)).
Definition I (s : st) : Prop :=
  (forall x, In x (hist s) -> fst x < nReps f c) /\ bad s = false /\
  (forall q, crun ckpt equiv false true (nReps f c) (required f c) (nReps f c) (cert0 ckpt) (ops q (hist s)) = Some (certs s q)).
Lemma add_spec q l r m k0 : (forall x, In x l -> fst x < nReps f c) -> r < nReps f c -> sq m = q ->
  crun ckpt equiv false true (nReps f c) (required f c) (nReps f c) (cert0 ckpt) (ops q l) = Some k0 ->
  exists k b, addMsg ckpt equiv false true (nReps f c) (required f c) (nReps f c) k0 r m = Some (k, b) /\
    crun ckpt equiv false true (nReps f c) (required f c) (nReps f c) (cert0 ckpt) (ops q (l ++ [(r, m)])) = Some k /\
    msgs ckpt k = votes q (l ++ [(r, m)]) /\ (complete ckpt k = true <-> exists m', required f c <= support equiv (votes q (l ++ [(r, m)])) m').
Proof.
  intros L R Q C. assert (N2 : 2 <= nReps f c) by (unfold nReps; lia). assert (R2 : 2 <= required f c) by (unfold required; lia).
  assert (S : senders (nReps f c) (ops q (l ++ [(r, m)]))).
  { intros r' m' J. apply in_map_iff in J as ([a b] & E & J). inversion E; subst. apply filter_In in J as [J _]. apply in_app_iff in J as [J|[J|[]]]; [apply (L _ J)|inversion J; subst; auto]. }
  destruct (C11_complete_iff equiv equiv_eq true (nReps f c) (required f c) (nReps f c) N2 R2 _ S) as (k & E & K).
  destruct (run_inv equiv false true (nReps f c) (required f c) (nReps f c) equiv_eq R2 N2 _ (cert0 ckpt) (init_inv equiv false true (nReps f c) (required f c) (nReps f c) R2 N2) S) as (k' & E' & _ & M). rewrite E in E'. injection E' as <-.
  pose proof E as E2. rewrite filter_app, map_app, crun_app, C in E2. simpl in E2. rewrite Q, Nat.eqb_refl in E2. simpl in E2.
  destruct (addMsg _ _ _ _ _ _ _ k0 r m) as [[k1 b]|]; [|easy]. injection E2 as ->. eauto 8.
Qed.
Lemma I_step s e : (forall r m, e = Ckpt r m -> r < nReps f c) -> I s -> I (step f c w s e).
Proof.
  intros V (A & B & C). destruct e as [r m|n|e]; [|repeat split; auto|repeat split; auto]. simpl. unfold onCkpt. destruct (collecting s || negb (relevant m s)); [repeat split; auto|].
  destruct (add_spec (sq m) (hist s) r m (certs s (sq m)) A (V r m eq_refl) eq_refl (C _)) as (k & b & -> & E & _).
  destruct (complete ckpt k); [repeat split; auto; now intros x []|]. unfold I. simpl. repeat split; auto.
  - intros x [J|[<-|[]]]%in_app_iff; [auto|]. simpl. eauto.
  - intros q. destruct (Nat.eqb_spec q (sq m)) as [->|D]; [exact E|]. rewrite filter_app. simpl. destruct (Nat.eqb_spec (sq m) q); [congruence|]. now rewrite app_nil_r.
Qed.
Lemma I_run l : valid (nReps f c) l -> I (run f c w l).
Proof.
  unfold run. induction l as [|e l IH] using rev_ind; intros V; [repeat split; now intros x []|]. rewrite fold_left_app. apply I_step.
  - intros r m ->. apply (V r m). apply in_app_iff. simpl. auto.
  - apply IH. intros r m J. apply (V r m). apply in_app_iff. auto.
Qed.
End S.

Lemma votes_In q l x : In x (votes q l) -> In x l /\ sq (snd x) = q.
Proof. unfold votes. intros H. apply received_In in H as [[]|H]. apply in_map_iff in H as (y & E & H). apply filter_In in H as [H Q%Nat.eqb_eq]. inversion E. destruct x, y; simpl in *; subst; auto. Qed.
Lemma received_has {M} l : forall (acc : list (nat * M)) r, (exists m, In (r, m) acc) \/ ((exists m, In (Add M r m) l) /\ ~ In (Reset M) l) -> ~ In (Reset M) l -> exists m, In (r, m) (received acc l).
Proof.
  induction l as [|[r' m'|] l IH]; intros acc r H NR; simpl in *.
  - destruct H as [H|[[m []] _]]. easy.
  - apply IH; [|tauto]. destruct H as [[m H]|[[m [H|H]] _]].
    + left. exists m. destruct (existsb _ acc); [easy|apply in_app_iff; auto].
    + inversion H; subst. left. destruct (existsb _ acc) eqn:E; [|exists m; apply in_app_iff; simpl; auto]. apply existsb_exists in E as ([a b] & J & E%Nat.eqb_eq). simpl in E. subst. eauto.
    + right. split; [eauto|tauto].
  - tauto.
Qed.
Lemma votes_has q l r m : In (r, m) l -> sq m = q -> exists m', In (r, m') (votes q l).
Proof.
  intros H Q. apply received_has.
  - right. split; [|intros J; apply in_map_iff in J as (? & ? & _); easy]. exists m. apply in_map_iff. exists (r, m). split; [easy|]. apply filter_In. split; [easy|]. now apply Nat.eqb_eq.
  - intros J. apply in_map_iff in J as (? & ? & _). easy.
Qed.
Lemma votes_nodup q l : NoDup (map fst (votes q l)).
Proof. apply received_nodup. constructor. Qed.
Lemma nodup_filter {A} (g : nat * A -> bool) l : NoDup (map fst l) -> NoDup (map fst (filter g l)).
Proof.
  induction l as [|x l IH]; simpl; intros N; [constructor|]. inversion N; subst. destruct (g x); simpl; auto. constructor; auto. intros J. apply H1. apply in_map_iff in J as (y & <- & J). apply filter_In in J. apply in_map. tauto.
Qed.
Section S2.
Context (f c w : nat) (POS : 0 < f).
(** No certificate in the map is complete; what counted was delivered; what was stored is justified. *)
Definition J (l : list event) (s : st) : Prop :=
  (forall q, complete ckpt (certs s q) = false) /\ (forall r m, In (r, m) (hist s) -> In (Ckpt r m) l /\ stable m = true) /\
  (forall q ms, In (q, ms) (stored s) -> exists m D, NoDup D /\ required f c <= length D /\ sq m = q /\ forall r, In r D -> exists m', In (Ckpt r m') l /\ stable m' = true /\ equiv m m' = true).
Lemma J_mono l e s : J l s -> J (l ++ [e]) s.
Proof.
  intros (A & B & C). split; [easy|]. split.
  - intros r m H. destruct (B _ _ H). rewrite in_app_iff. auto.
  - intros q ms H. destruct (C _ _ H) as (m & D & ? & ? & ? & G). exists m, D. repeat split; auto. intros r K. destruct (G r K) as (m' & ? & ? & ?). exists m'. rewrite in_app_iff. auto.
Qed.
Lemma J_run l : valid (nReps f c) l -> J l (run f c w l).
Proof.
  unfold run. induction l as [|e l IH] using rev_ind; intros V; [repeat split; simpl; easy|].
  assert (V2 : valid (nReps f c) l) by (intros r m K; apply (V r m), in_app_iff; auto).
  rewrite fold_left_app. simpl. pose proof (J_mono l e _ (IH V2)) as K. pose proof (I_run f c w POS l V2) as (A & _ & C). unfold run in *. set (s := fold_left _ l s0) in *. clearbody s. clear IH.
  destruct e as [r m|n|e]; [|exact K|exact K]. simpl. unfold onCkpt. destruct (collecting s || negb (relevant m s)) eqn:R; [easy|]. apply orb_false_iff in R as [_ R]. apply negb_false_iff in R. unfold relevant in R. rewrite !andb_true_iff in R.
  assert (RN : r < nReps f c) by (apply (V r m), in_app_iff; simpl; auto).
  destruct (add_spec f c POS (sq m) (hist s) r m (certs s (sq m)) A RN eq_refl (C _)) as (k & b & -> & E & M & CI). destruct K as (K1 & K2 & K3).
  assert (H2 : forall r0 m0, In (r0, m0) (hist s ++ [(r, m)]) -> In (Ckpt r0 m0) (l ++ [Ckpt r m]) /\ stable m0 = true).
  { intros r0 m0 [H|[H|[]]]%in_app_iff; [auto|]. inversion H; subst. rewrite in_app_iff. simpl. tauto. }
  destruct (complete ckpt k) eqn:CK; unfold J; simpl; (split; [|split]); auto; try easy.
  - intros q ms [H|[H|[]]]%in_app_iff; [eauto|]. inversion H; subst. destruct (proj1 CI eq_refl) as (m' & SP).
    unfold support in SP. exists m', (map fst (filter (fun x => equiv m' (snd x)) (votes (sq m) (hist s ++ [(r, m)])))). repeat split.
    + apply nodup_filter, votes_nodup.
    + now rewrite map_length.
    + destruct (filter _ _) as [|x y] eqn:F in SP; [unfold required in SP; simpl in SP; lia|]. assert (X : In x (x :: y)) by (simpl; auto). rewrite <- F in X. apply filter_In in X as [X Y]. apply votes_In in X as [_ X]. unfold equiv in Y. rewrite !andb_true_iff, !Nat.eqb_eq in Y. intuition congruence.
    + intros r0 G. apply in_map_iff in G as ([a m0] & <- & G). apply filter_In in G as [G Y]. apply votes_In in G as [G _]. destruct (H2 _ _ G). simpl. eauto.
  - intros q. destruct (q =? sq m); auto.
Qed.
Lemma feed_step s m r : collecting s = false -> relevant m s = true -> let t := onCkpt f c r m s in
  (collecting t = true \/ (collecting t = false /\ relevant m t = true /\ (bad t = true \/ hist t = hist s ++ [(r, m)]))).
Proof.
  intros C R. unfold onCkpt. rewrite C, R. simpl. destruct (addMsg _ _ _ _ _ _ _ _ _ _) as [[k b]|]; simpl; auto.
  destruct (complete ckpt k); simpl; auto.
Qed.
Lemma feed_all D : forall l m, valid (nReps f c) (l ++ map (fun r => Ckpt r m) D) -> collecting (run f c w l) = false -> relevant m (run f c w l) = true ->
  let t := run f c w (l ++ map (fun r => Ckpt r m) D) in collecting t = true \/ (collecting t = false /\ incl (map (fun r => (r, m)) D) (hist t)).
Proof.
  induction D as [|r D IH] using rev_ind; intros l m V C R; simpl.
  - rewrite app_nil_r. right. split; [easy|now intros x []].
  - rewrite map_app in *. simpl in *. rewrite app_assoc in *. unfold run. rewrite fold_left_app. simpl. fold (run f c w (l ++ map (fun r => Ckpt r m) D)).
    assert (V2 : valid (nReps f c) (l ++ map (fun r => Ckpt r m) D)) by (intros a b K; apply (V a b), in_app_iff; auto).
    assert (RR : collecting (run f c w (l ++ map (fun r => Ckpt r m) D)) = true \/ relevant m (run f c w (l ++ map (fun r => Ckpt r m) D)) = true).
    { clear - C R POS. induction D as [|r D IH] using rev_ind; simpl; [rewrite app_nil_r; auto|]. rewrite map_app, app_assoc. simpl. unfold run in *. rewrite fold_left_app. simpl. destruct IH as [IH|IH].
      - left. unfold onCkpt. now rewrite IH.
      - destruct (collecting (fold_left (step f c w) (l ++ map (fun r0 => Ckpt r0 m) D) s0)) eqn:E; [left; unfold onCkpt; now rewrite E|].
        destruct (feed_step _ m r E IH) as [H|(_ & H & _)]; auto. }
    destruct (IH l m V2 C R) as [H|[H1 H2]].
    + left. unfold onCkpt. now rewrite H.
    + destruct RR as [RR|RR]; [congruence|]. destruct (feed_step _ m r H1 RR) as [H|(G1 & G2 & G3)]; [auto|right; split; [easy|]].
      assert (B : bad (onCkpt f c r m (run f c w (l ++ map (fun r0 => Ckpt r0 m) D))) = false).
      { pose proof (I_run f c w POS _ V) as (_ & B & _). unfold run in B. rewrite fold_left_app in B. exact B. }
      destruct G3 as [G3|G3]; [congruence|]. rewrite G3, map_app. intros x [X|X]%in_app_iff; apply in_app_iff; auto.
Qed.
End S2.
