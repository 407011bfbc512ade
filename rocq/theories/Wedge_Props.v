(** Stopping the cluster at an agreed sequence number (property C38). Model and specification: Wedge_Model.v. *)
From Coq Require Import ZArith List Bool Lia.
From Verif Require Import Wedge_Model Wedge_Proofs.
Import ListNotations.
Local Open Scope Z_scope.

(** The stop point computed for an order at s is the second checkpoint after s, and the only such number. *)
Theorem C38_point (s : Z) : 1 <= s -> secondCheckpointAfter s (stopFor s) /\ forall m, secondCheckpointAfter s m -> m = stopFor s.
Proof. intros H. split; [apply stopFor_spec, H|]. intros m X. eapply secondCheckpoint_unique; [exact X|apply stopFor_spec, H]. Qed.
Print Assumptions C38_point.

Section Cluster.
Context (log : Z -> list cmd) (NI : noInstall log).

Lemma reach_inv evs R : run log R0 evs = Some R -> mildRun log R0 evs -> forall i, Inv log (R i).
Proof. intros H M. eapply inv_run; eauto. intros i. apply inv_init. Qed.

Definition below (m : nat) (r : rep) : Prop := r_le r <= Z.of_nat m /\ (r_le r = Z.of_nat m -> r_wp r <> 0).
Lemma below_step m e R R' : stp log m = true -> (forall i, Inv log (R i)) -> mild R e -> (forall i k, e <> Unwedge i (Z.of_nat m) /\ e <> UnwedgeRestart i (Z.of_nat m) k) ->
  (forall i, below m (R i)) -> step log R e = Some R' -> forall i, below m (R' i).
Proof.
  intros Hs I M Nr B H.
  assert (K : forall i o, lift R i o = Some R' -> (forall r, o = Some r -> below m r) -> forall k, below m (R' k)).
  { intros i o Hl Ho k. unfold lift in Hl. destruct o as [r|]; [|discriminate]. inversion Hl; subst. unfold put. destruct (Nat.eqb k i); [apply Ho; reflexivity|apply B]. }
  destruct e as [i n|i|i n|i m'|i|i m' k|i j n|i]; cbn [step mild] in *.
  - eapply K; [exact H|]. intros r Hr. unfold accept in Hr. destruct ((r_lst (R i) <? n) && (n <=? r_lst (R i) + WW) && negb (refused (R i) n)); [|discriminate]. inversion Hr; subst. apply B.
  - eapply K; [exact H|]. intros r Hr. destruct (exec_go log NI (R i) r (I i) Hr) as (A1 & A2 & A3). destruct (B i) as [B1 B2].
    assert (Lt : r_le (R i) <> Z.of_nat m).
    { intros E. unfold exec in Hr. destruct ((r_le (R i) <? r_lst (R i) + WW) && negb (r_wd (R i)) && existsb (Z.eqb (r_le (R i) + 1)) (r_acc (R i))) eqn:Eg; [|discriminate].
      apply andb_true_iff in Eg. destruct Eg as [_ Ea]. apply existsb_exists in Ea. destruct Ea as (x & Hx & Ex). apply Z.eqb_eq in Ex. subst x.
      destruct (i_acc log (R i) (I i) _ m Hx ltac:(lia) Hs) as [X|[X Y]]; [lia|]. apply (B2 E Y). }
    split; [lia|]. intros E. assert (W : r_wd r = true). { apply A3. rewrite E, Nat2Z.id. exact Hs. } apply (i_wd log r A2 W).
  - eapply K; [exact H|]. intros r Hr. unfold stable in Hr. destruct ((r_lst (R i) <? n) && (n <=? r_le (R i)) && (n mod CW =? 0)); [|discriminate]. inversion Hr; subst. apply B.
  - destruct (Z.eqb_spec (r_le (R i)) m') as [E|]; [|discriminate]. eapply K; [exact H|]. intros r Hr. unfold unwedge in Hr. destruct (r_wd (R i)); [|discriminate]. inversion Hr; subst r.
    split; cbn [r_le]; [apply B|]. intros E'. exfalso. apply (proj1 (Nr i 0%nat)). congruence.
  - inversion H; subst. intros k. unfold put. destruct (Nat.eqb k i); [|apply B]. rewrite (start_form log NI) by apply I. apply B.
  - subst k. destruct (Z.eqb_spec (r_le (R i)) m') as [E|]; [|discriminate]. eapply K; [exact H|]. intros r Hr. unfold unwedgeRestart in Hr. destruct (r_wd (R i)); [|discriminate]. inversion Hr; subst r.
    cbn [startNew]. unfold start. destruct (wedgeEvent _ (r_le (R i))) as [wp wd].
    split; cbn [r_le]; [apply B|]. intros E'. exfalso. apply (proj2 (Nr i 0%nat)). congruence.
  - destruct (snapAt (R j) n) as [c|] eqn:Es; [|discriminate]. eapply K; [exact H|]. intros r Hr.
    destruct (i_snap log (R j) (I j) n c (find_snap _ _ _ Es)) as (A & B' & C & D).
    destruct (inv_transfer log NI (R i) n c r (I i) (proj1 A) B' C D) as (_ & E1 & E2); [|exact Hr|].
    + intros s e Hk He. apply (M c s e eq_refl Hk He).
    + split; [rewrite E1; destruct (B j); lia|]. intros E. rewrite E2. assert (n = Z.of_nat m) as -> by lia. rewrite Nat2Z.id.
      unfold stp in Hs. apply andb_true_iff in Hs. destruct Hs as [Hs _]. apply negb_true_iff, Z.eqb_neq in Hs. exact Hs.
  - eapply K; [exact H|]. intros r Hr. unfold pruneKw in Hr. destruct (c_kw (r_ch (R i))); [|discriminate]. inversion Hr; subst. apply B.
Qed.
Lemma below_run m evs : stp log m = true -> ~ released evs (Z.of_nat m) -> forall R R', (forall i, Inv log (R i)) -> mildRun log R evs -> (forall i, below m (R i)) ->
  run log R evs = Some R' -> forall i, below m (R' i).
Proof.
  intros Hs. induction evs as [|e evs IH]; intros Nr R R' I M B H; cbn [run mildRun] in *; [inversion H; subst; auto|].
  destruct M as [M1 M2]. destruct (step log R e) as [R1|] eqn:E; [|discriminate].
  apply (IH ltac:(intros (i & k & X); apply Nr; exists i, k; destruct X as [X|X]; [left|right]; right; exact X) R1 R'); auto.
  - eapply inv_step; eauto.
  - eapply below_step; eauto. intros i k. split; intros ->; apply Nr; exists i, k; [left|right]; left; reflexivity.
Qed.

(** No replica executes, or even accepts a proposal for, a number after a stop point of the log unless some replica was let go on
    there: whatever the interleaving, restarts and state transfers. *)
Theorem C38_none_beyond evs R m : run log R0 evs = Some R -> mildRun log R0 evs -> stopPoint log m -> ~ released evs m ->
  forall i, r_le (R i) <= m /\ forall n, In n (r_acc (R i)) -> n <= m.
Proof.
  intros H M S Nr i. assert (0 <= m) by (destruct S as (s & [X _] & Y & _); lia).
  rewrite <- (ofto m) in S, Nr by lia. apply (stp_iff log NI) in S.
  assert (B : below (Z.to_nat m) (R i)).
  { eapply below_run; eauto; intros k; [apply inv_init|]. split; [cbn; lia|]. cbn. intros E. rewrite <- E in Nr. assert (Z.to_nat m = 0%nat) as X by lia. rewrite X in S. discriminate. }
  destruct B as [B1 B2]. rewrite ofto in * by lia. split; [exact B1|]. intros n Hn. destruct (Z.le_gt_cases n m) as [|G]; auto. exfalso.
  destruct (i_acc log (R i) (reach_inv evs R H M i) n (Z.to_nat m) Hn ltac:(lia) S) as [X|[X Y]]; [lia|]. apply B2; [lia|exact Y].
Qed.

(** A stopped replica has executed exactly up to a stop point of the log. *)
Theorem C38_stopped_at_stop_point evs R i : run log R0 evs = Some R -> mildRun log R0 evs -> r_wd (R i) = true -> stopPoint log (r_le (R i)).
Proof.
  intros H M W. pose proof (reach_inv evs R H M i) as I. destruct (inv_wd_stp log NI (R i) I W) as (A & _). apply (stp_iff log NI) in A.
  rewrite ofto in A by (destruct (i_le log (R i) I); lia). exact A.
Qed.

(** A replica that executes a number stops right after it if and only if it is a stop point. *)
Theorem C38_stops evs R i R' : run log R0 evs = Some R -> mildRun log R0 evs -> step log R (Exec i) = Some R' ->
  (r_wd (R' i) = true <-> stopPoint log (r_le (R' i))).
Proof.
  intros H M S. pose proof (reach_inv evs R H M i) as I. cbn [step] in S. unfold lift in S. destruct (exec log (R i)) as [r|] eqn:E; [|discriminate].
  inversion S; subst R'. unfold put. rewrite Nat.eqb_refl. destruct (exec_go log NI (R i) r I E) as (A & B & C). rewrite C, (stp_iff log NI), ofto; [tauto|].
  destruct (i_le log r B); lia.
Qed.

(** Replicas stopped in the same epoch are stopped at the same number. *)
Theorem C38_same_point evs R i j : run log R0 evs = Some R -> mildRun log R0 evs -> r_wd (R i) = true -> r_wd (R j) = true ->
  c_ep (r_ch (R i)) = c_ep (r_ch (R j)) -> r_le (R i) = r_le (R j).
Proof.
  intros H M Wi Wj E. pose proof (reach_inv evs R H M) as I.
  destruct (inv_wd_stp log NI (R i) (I i) Wi) as (A1 & A2 & _). destruct (inv_wd_stp log NI (R j) (I j) Wj) as (B1 & B2 & _).
  pose proof (i_le log _ (I i)). pose proof (i_le log _ (I j)).
  destruct (Nat.lt_trichotomy (Z.to_nat (r_le (R i))) (Z.to_nat (r_le (R j)))) as [X|[X|X]]; [|lia|].
  - pose proof (ep_stop log NI _ _ X A1). lia.
  - pose proof (ep_stop log NI _ _ X B1). lia.
Qed.

(** Before its stop point a replica goes on: a proposal inside its window is refused only if an executed order names a checkpoint,
    not yet passed, before it. *)
Theorem C38_goes_on_before evs R i n : run log R0 evs = Some R -> mildRun log R0 evs ->
  r_le (R i) < n <= r_lst (R i) + WW -> accept (R i) n = None ->
  exists s m, ordersStop log s /\ s <= r_le (R i) /\ secondCheckpointAfter s m /\ r_le (R i) <= m < n.
Proof.
  intros H M Hn Ha. pose proof (reach_inv evs R H M i) as I. pose proof (i_le log _ I) as L. unfold accept in Ha.
  destruct (Z.ltb_spec (r_lst (R i)) n); [|lia]. destruct (Z.leb_spec n (r_lst (R i) + WW)); [|lia]. cbn [andb] in Ha.
  destruct (refused (R i) n) eqn:Er; [|discriminate]. unfold refused in Er.
  assert (W : r_wp (R i) <> 0 /\ r_wp (R i) < n).
  { apply orb_true_iff in Er. destruct Er as [Er|Er]; [destruct (i_wd log _ I Er) as [X Y]; split; [exact Y|lia]|].
    apply andb_true_iff in Er. destruct Er as [X Y]. apply negb_true_iff, Z.eqb_neq in X. apply Z.ltb_lt in Y. auto. }
  destruct W as [W1 W2]. destruct (wp_pt log NI _ I W1) as (P1 & P2 & P3). destruct (sp_inv log NI (Z.to_nat (r_le (R i)))) as [_ S].
  destruct (kw log (Z.to_nat (r_le (R i)))) as [[s e]|]; [|destruct S; congruence]. destruct S as (S1 & S2 & S3 & S4 & S5 & S6).
  destruct (Z.eq_dec e (ep log (Z.to_nat (r_le (R i))))) as [X|X]; [|rewrite S6 in P1 by lia; congruence].
  destruct (S5 X) as [Y1 Y2]. exists s, (r_wp (R i)). split; [apply (ord_iff log NI); [lia|exact S2]|]. split; [lia|]. split; [|lia].
  rewrite P1, Y1. apply stopFor_spec. lia.
Qed.

(** A restart changes nothing: same stop point, epoch and chain, and a stopped replica is still stopped. *)
Theorem C38_restart evs R i : run log R0 evs = Some R -> mildRun log R0 evs ->
  let r := start (R i) false in
  r_wp r = r_wp (R i) /\ r_self r = r_self (R i) /\ r_ch r = r_ch (R i) /\ r_le r = r_le (R i) /\ (r_wd (R i) = true -> r_wd r = true).
Proof.
  intros H M. pose proof (reach_inv evs R H M i) as I. cbv zeta. rewrite (start_form log NI) by exact I. cbn [r_wp r_self r_ch r_le r_wd].
  repeat split. intros W. destruct (inv_wd_stp log NI _ I W) as (A & _). destruct (i_wd log _ I W) as [_ X]. rewrite A. apply Z.eqb_neq in X. rewrite X. reflexivity.
Qed.

(** Two replicas that have executed the same numbers, and were let go on the same number of times, have the same stop point. *)
Theorem C38_same_stop_point evs R i j : run log R0 evs = Some R -> mildRun log R0 evs -> r_le (R i) = r_le (R j) -> c_ep (r_ch (R i)) = c_ep (r_ch (R j)) ->
  r_wp (R i) = r_wp (R j) /\ r_self (R i) = r_self (R j).
Proof.
  intros H M E1 E2. pose proof (reach_inv evs R H M) as I. rewrite (i_self log _ (I i)), (i_self log _ (I j)). split; [|exact E2].
  destruct (i_st log _ (I i)) as [[A1 A2]|(A1 & A2 & A3)]; destruct (i_st log _ (I j)) as [[B1 B2]|(B1 & B2 & B3)]; rewrite E1 in *; try congruence; lia.
Qed.
End Cluster.
Print Assumptions C38_none_beyond.
Print Assumptions C38_stopped_at_stop_point.
Print Assumptions C38_stops.
Print Assumptions C38_same_point.
Print Assumptions C38_goes_on_before.
Print Assumptions C38_restart.
Print Assumptions C38_same_stop_point.

(** * Concrete runs *)
Definition upto (i : nat) (a : Z) (k : nat) : list ev := map (fun j => Accept i (a + Z.of_nat j)) (seq 0 k) ++ repeat (Exec i) k.
Definition mildb (R : cluster) (e : ev) : bool :=
  match e with
  | Transfer i j n => match snapAt (R j) n with Some c => match c_kw c with Some (_, ep) => negb (ep =? c_ep c) || (r_self (R i) =? c_ep c) | None => true end | None => true end
  | Prune i => match c_kw (r_ch (R i)) with Some (_, ep) => ep <? c_ep (r_ch (R i)) | None => true end
  | UnwedgeRestart _ _ k => Nat.eqb k 0
  | _ => true
  end.
Fixpoint mildRunb (log : Z -> list cmd) (R : cluster) (evs : list ev) : bool :=
  match evs with [] => true | e :: evs => mildb R e && match step log R e with Some R' => mildRunb log R' evs | None => true end end.
Lemma mildRunb_ok log evs : forall R, mildRunb log R evs = true -> mildRun log R evs.
Proof.
  induction evs as [|e evs IH]; intros R H; cbn [mildRunb mildRun] in *; auto. apply andb_true_iff in H. destruct H as [H1 H2]. split.
  - destruct e; cbn [mildb mild] in *; auto.
    + apply Nat.eqb_eq, H1.
    + intros c s ep Es Ek Ee. rewrite Es, Ek in H1. subst ep. rewrite Z.eqb_refl in H1. cbn in H1. apply Z.eqb_eq, H1.
    + intros s ep Ek. rewrite Ek in H1. apply Z.ltb_lt, H1.
  - destruct (step log R e); auto.
Qed.
Definition endsWith (log : Z -> list cmd) (evs : list ev) (P : cluster -> bool) : bool := match run log R0 evs with Some R => P R | None => false end.
Lemma endsWith_ok log evs P : endsWith log evs P = true -> exists R, run log R0 evs = Some R /\ P R = true.
Proof. unfold endsWith. destruct (run log R0 evs) as [R|]; [|discriminate]. intros H. exists R. auto. Qed.
Definition releasedb (evs : list ev) (m : Z) : bool := existsb (fun e => match e with Unwedge _ x | UnwedgeRestart _ x _ => x =? m | _ => false end) evs.
Lemma releasedb_ok evs m : releasedb evs m = false -> ~ released evs m.
Proof.
  intros H (i & k & X). assert (Y : releasedb evs m = true); [|congruence]. apply existsb_exists.
  destruct X as [X|X]; eexists; (split; [exact X|]); cbn; apply Z.eqb_refl.
Qed.
Definition at1 (c : cmd) (n : Z) : list cmd := if n =? 1 then [c] else [].
Lemma stop300 c : c <> CNoop -> c <> COther -> stopPoint (at1 c) 300.
Proof.
  intros H1 H2. exists 1. split; [|split; [lia|split; [unfold secondCheckpointAfter; cbn; lia|]]].
  - split; [lia|]. exists c. split; [left; reflexivity|]. destruct c; tauto.
  - intros s' Hs (_ & x & Hx & _). unfold at1 in Hx. destruct (Z.eqb_spec s' 1); [lia|]. destruct Hx.
Qed.
Lemma noInstall_at1 c : c <> CInstall -> noInstall (at1 c).
Proof. intros H n X. unfold at1 in X. destruct (n =? 1); [|destruct X]. destruct X as [X|[]]. congruence. Qed.

(** Replica 0 executes up to the stop point and stops; replica 1 gets there by state transfer and stops once the checkpoint is
    stable; replica 2 accepts proposals 1..300 and no more, restarts in between, and stops. *)
Definition exRun : list ev :=
  upto 0 1 300 ++ [Transfer 1 0 300; Stable 1 300] ++ upto 2 1 200 ++ [Restart 2] ++ upto 2 201 100.
Example C38_ex : exists R, run (at1 CWedge) R0 exRun = Some R /\ mildRun (at1 CWedge) R0 exRun /\ noInstall (at1 CWedge) /\
  (r_wd (R 0%nat) = true /\ r_wd (R 1%nat) = true /\ r_wd (R 2%nat) = true) /\ r_le (R 2%nat) = 300 /\ stopPoint (at1 CWedge) 300 /\ ~ released exRun 300.
Proof.
  destruct (endsWith_ok (at1 CWedge) exRun (fun R => r_wd (R 0%nat) && r_wd (R 1%nat) && r_wd (R 2%nat) && (r_le (R 2%nat) =? 300))) as (R & H & P); [vm_compute; reflexivity|].
  exists R. split; [exact H|]. split; [apply mildRunb_ok; vm_compute; reflexivity|]. split; [apply noInstall_at1; discriminate|].
  apply andb_true_iff in P. destruct P as [P P4]. apply andb_true_iff in P. destruct P as [P P3]. apply andb_true_iff in P. destruct P as [P1 P2]. apply Z.eqb_eq in P4.
  split; [auto|]. split; [exact P4|]. split; [apply stop300; discriminate|]. apply releasedb_ok. vm_compute. reflexivity.
Qed.
(** Let go on at 300, the cluster passes it, and a later order stops it again: replica 1 knows the new epoch by state transfer. *)
Definition log2 (n : Z) : list cmd := if n =? 1 then [CWedge] else if n =? 460 then [CWedge] else [].
Example C38_ex_again : endsWith log2 (upto 0 1 300 ++ [Stable 0 150; Stable 0 300; Unwedge 0 300] ++ upto 0 301 150 ++ [Transfer 1 0 450; Stable 1 450; Stable 0 450] ++ upto 0 451 150 ++ [Stable 0 600] ++ upto 0 601 150 ++ upto 1 451 150 ++ [Transfer 1 0 750; Stable 1 750])
  (fun R => r_wd (R 0%nat) && r_wd (R 1%nat) && (r_le (R 0%nat) =? 750) && (r_le (R 1%nat) =? 750) && (c_ep (r_ch (R 1%nat)) =? 1)) = true.
Proof. vm_compute. reflexivity. Qed.

(** * What does not hold *)
(** An install command orders a stop, but is not kept like the others: a replica that restarts before the stop point forgets it and
    goes on. *)
Theorem C38_install_forgotten_refuted : exists log evs R m, run log R0 evs = Some R /\ mildRun log R0 evs /\ stopPoint log m /\ ~ released evs m /\ m < r_le (R 0%nat).
Proof.
  destruct (endsWith_ok (at1 CInstall) (upto 0 1 1 ++ [Restart 0%nat] ++ upto 0 2 200 ++ [Stable 0 150] ++ upto 0 202 200) (fun R => 300 <? r_le (R 0%nat))) as (R & H & P); [vm_compute; reflexivity|].
  eexists _, _, R, 300. split; [exact H|]. split; [apply mildRunb_ok; vm_compute; reflexivity|]. split; [apply stop300; discriminate|].
  split; [apply releasedb_ok; vm_compute; reflexivity|]. apply Z.ltb_lt, P.
Qed.
Print Assumptions C38_install_forgotten_refuted.

(** After a state transfer the stop point of the last install command comes back, however old it is: the replica refuses every
    proposal, although no stop is ordered. *)
Theorem C38_old_install_refuted : exists log evs R, run log R0 evs = Some R /\ mildRun log R0 evs /\
  (forall m, r_le (R 1%nat) <= m -> ~ stopPoint log m) /\ forall n, r_le (R 1%nat) < n -> accept (R 1%nat) n = None.
Proof.
  destruct (endsWith_ok (at1 CInstall) (upto 0 1 300 ++ [Stable 0 150; Stable 0 300; Unwedge 0 300] ++ upto 0 301 150 ++ [Transfer 1 0 450; Stable 1 450])
     (fun R => (r_le (R 1%nat) =? 450) && (r_wp (R 1%nat) =? 300))) as (R & H & P); [vm_compute; reflexivity|].
  apply andb_true_iff in P. destruct P as [P1 P2]. apply Z.eqb_eq in P1, P2.
  eexists _, _, R. split; [exact H|]. split; [apply mildRunb_ok; vm_compute; reflexivity|]. rewrite P1. split.
  - intros m Hm (s & (S1 & x & Hx & _) & S2 & [_ S3] & _). unfold at1 in Hx. destruct (Z.eqb_spec s 1) as [->|]; [|destruct Hx]. unfold CW in S3. lia.
  - intros n Hn. unfold accept, refused. rewrite P2. destruct (Z.ltb_spec 300 n); [|lia]. cbn [Z.eqb negb andb]. rewrite orb_true_r. cbn [negb]. rewrite andb_false_r. reflexivity.
Qed.
Print Assumptions C38_old_install_refuted.

(** A replica that learns of a new epoch and of a stop ordered in it by the same state transfer ignores the order: it goes on after
    the stop point. *)
Definition log3 (n : Z) : list cmd := if n =? 1 then [CWedge] else if n =? 301 then [CWedge] else [].
Theorem C38_transfer_forgets_refuted : exists log evs R m, noInstall log /\ run log R0 evs = Some R /\ stopPoint log m /\ ~ released evs m /\ m < r_le (R 1%nat).
Proof.
  destruct (endsWith_ok log3 (upto 0 1 300 ++ [Stable 0 150; Stable 0 300; Unwedge 0 300] ++ upto 0 301 150 ++ [Transfer 1 0 450; Stable 1 450] ++ upto 1 451 200)
     (fun R => 600 <? r_le (R 1%nat))) as (R & H & P); [vm_compute; reflexivity|].
  eexists _, _, R, 600. split; [|split; [exact H|split; [|split; [apply releasedb_ok; vm_compute; reflexivity|apply Z.ltb_lt, P]]]].
  - intros n X. unfold log3 in X. destruct (n =? 1); [|destruct (n =? 301); [|destruct X]]; destruct X as [X|[]]; discriminate.
  - exists 301. split; [split; [lia|]; exists CWedge; split; [left; reflexivity|auto]|]. split; [lia|]. split; [unfold secondCheckpointAfter; cbn; lia|].
    intros s' Hs (_ & x & Hx & _). unfold log3 in Hx. destruct (Z.eqb_spec s' 1); [lia|]. destruct (Z.eqb_spec s' 301); [lia|]. destruct Hx.
Qed.
Print Assumptions C38_transfer_forgets_refuted.

(** If the block of the order is pruned before the stop point is reached, a restart forgets it. *)
Theorem C38_pruned_order_refuted : exists log evs R m, noInstall log /\ run log R0 evs = Some R /\ stopPoint log m /\ ~ released evs m /\ m < r_le (R 0%nat).
Proof.
  destruct (endsWith_ok (at1 CWedge) (upto 0 1 1 ++ [Prune 0%nat; Restart 0%nat] ++ upto 0 2 200 ++ [Stable 0 150] ++ upto 0 202 200) (fun R => 300 <? r_le (R 0%nat))) as (R & H & P); [vm_compute; reflexivity|].
  exists (at1 CWedge). eexists _, R, 300. split; [apply noInstall_at1; discriminate|]. split; [exact H|]. split; [apply stop300; discriminate|].
  split; [apply releasedb_ok; vm_compute; reflexivity|]. apply Z.ltb_lt, P.
Qed.
Print Assumptions C38_pruned_order_refuted.

(** A crash between writing the epoch block and clearing the flag makes the replica write it again: two replicas at the same number
    have different epochs (and chains). *)
Theorem C38_crash_new_epoch_refuted : exists log evs R, noInstall log /\ run log R0 evs = Some R /\
  r_le (R 0%nat) = r_le (R 1%nat) /\ 300 < r_le (R 0%nat) /\ c_ep (r_ch (R 0%nat)) <> c_ep (r_ch (R 1%nat)).
Proof.
  destruct (endsWith_ok (at1 CWedge) (upto 0 1 300 ++ upto 1 1 300 ++ [Stable 0 300; Stable 1 300; UnwedgeRestart 0 300 0; UnwedgeRestart 1 300 1] ++ upto 0 301 1 ++ upto 1 301 1)
    (fun R => (r_le (R 0%nat) =? 301) && (r_le (R 1%nat) =? 301) && (c_ep (r_ch (R 0%nat)) =? 1) && (c_ep (r_ch (R 1%nat)) =? 2))) as (R & H & P); [vm_compute; reflexivity|].
  apply andb_true_iff in P. destruct P as [P P4]. apply andb_true_iff in P. destruct P as [P P3]. apply andb_true_iff in P. destruct P as [P1 P2].
  apply Z.eqb_eq in P1, P2, P3, P4. exists (at1 CWedge). eexists _, R. split; [apply noInstall_at1; discriminate|]. split; [exact H|]. lia.
Qed.
Print Assumptions C38_crash_new_epoch_refuted.

(** Every new order moves the stop point: ordered again and again, the cluster never stops. *)
Theorem C38_postponed_refuted : exists log, (forall s, 1 <= s -> ordersStop log s) /\ forall m, ~ stopPoint log m.
Proof.
  exists (fun _ => [CWedge]). assert (A : forall s, 1 <= s -> ordersStop (fun _ => [CWedge]) s) by (intros s H; split; [exact H|]; exists CWedge; split; [left; reflexivity|auto]).
  split; [exact A|]. intros m (s & [S1 _] & _ & [_ S3] & L). apply (L (s + 1)); [unfold CW in S3; lia|]. apply A. lia.
Qed.
Print Assumptions C38_postponed_refuted.

(** * Restart proof *)
Section Proofs.
Context (sigOk : nat -> ready -> bool) (nrep f : nat).

(** What a replica accepts as a proof: every element names the proof's number, and those of other replicas are signed by them. *)
Theorem C38_proof_signed me epoch p x : proofOk sigOk nrep f me epoch p = true -> In x (pf_elems p) ->
  rd_seq x = pf_seq p /\ (rd_id x <> me -> sigOk (rd_id x) x = true) /\ (nrep - f <= length (pf_elems p))%nat.
Proof.
  intros H Hx. unfold proofOk in H. apply andb_true_iff in H. destruct H as [H1 H2]. apply andb_true_iff in H1. destruct H1 as [_ H1]. apply Nat.leb_le in H1.
  rewrite forallb_forall in H2. specialize (H2 x Hx). unfold elemOk in H2. apply andb_true_iff in H2. destruct H2 as [H2 H3]. apply andb_true_iff in H2. destruct H2 as [H2 _].
  apply Z.eqb_eq in H2. split; [exact H2|]. split; [|exact H1]. intros N0. apply orb_true_iff in H3. destruct H3 as [H3|H3]; [apply Nat.eqb_eq in H3; congruence|exact H3].
Qed.

(** The messages collected by a correct replica: of different replicas, each signed; a proof is sent only with the target number of
    them; and it is accepted by every correct replica of the epoch if they all name the stop point. *)
Fixpoint collect (bft : bool) (wp : Z) (me : nat) (epoch : Z) (reason : nat) (l : list ready) (ms : list ready) : list ready * list proof :=
  match ms with
  | [] => (l, [])
  | x :: ms => let '(l, p) := onReady sigOk nrep f bft wp me epoch reason l x in
               let '(l, ps) := collect bft wp me epoch reason l ms in (l, match p with Some p => p :: ps | None => ps end)
  end.
Definition collected (epoch : Z) (l : list ready) : Prop := NoDup (map rd_id l) /\ forall x, In x l -> readyOk sigOk nrep epoch x = true.
Theorem C38_collected bft wp me epoch reason ms p : (me < nrep)%nat -> goodReason reason = true ->
  In p (snd (collect bft wp me epoch reason [] ms)) ->
  NoDup (map rd_id (pf_elems p)) /\ length (pf_elems p) = target nrep f bft /\ pf_seq p = wp /\
  (forall x, In x (pf_elems p) -> In x ms /\ rd_epoch x = epoch /\ sigOk (rd_id x) x = true) /\
  ((forall x, In x ms -> rd_seq x = wp) -> forall other, proofOk sigOk nrep f other epoch p = true).
Proof.
  intros Hme Hr.
  assert (K : forall ms l ms0, collected epoch l -> incl l ms0 -> incl ms ms0 -> In p (snd (collect bft wp me epoch reason l ms)) ->
    exists l', collected epoch l' /\ incl l' ms0 /\ length l' = target nrep f bft /\ p = mkPf me wp epoch reason l').
  { clear ms. induction ms as [|x ms IH]; intros l ms0 C Il Im H; cbn [collect] in H; [destruct H|].
    destruct (onReady sigOk nrep f bft wp me epoch reason l x) as [l1 p1] eqn:E. destruct (collect bft wp me epoch reason l1 ms) as [l2 ps] eqn:E2. cbn [snd] in H.
    assert (C1 : collected epoch l1 /\ incl l1 ms0 /\ (forall q, p1 = Some q -> length l1 = target nrep f bft /\ q = mkPf me wp epoch reason l1)).
    { unfold onReady in E. destruct (readyOk sigOk nrep epoch x) eqn:Ex; cbn [negb] in E; [|inversion E; subst; split; [exact C|split; [exact Il|discriminate]]].
      destruct (existsb (fun y => Nat.eqb (rd_id y) (rd_id x)) l) eqn:Ed; [inversion E; subst; split; [exact C|split; [exact Il|discriminate]]|].
      assert (El : l1 = l ++ [x]) by congruence. assert (Ep : p1 = if Nat.eqb (length (l ++ [x])) (target nrep f bft) && negb (wp =? 0) then Some (mkPf me wp epoch reason (l ++ [x])) else None) by congruence.
      destruct C as [Ca Cb]. split; [split|split].
      - rewrite El, map_app. cbn [map]. apply NoDup_Add with (a := rd_id x) (l := map rd_id l); [rewrite <- (app_nil_r (map rd_id l)) at 1; apply Add_app|].
        split; [exact Ca|]. intros X. apply in_map_iff in X. destruct X as (y & Y1 & Y2). assert (existsb (fun y => Nat.eqb (rd_id y) (rd_id x)) l = true) as Q; [|congruence].
        apply existsb_exists. exists y. split; [exact Y2|]. apply Nat.eqb_eq, Y1.
      - intros y Hy. rewrite El in Hy. apply in_app_or in Hy. destruct Hy as [Hy|[<-|[]]]; auto.
      - rewrite El. apply incl_app; [exact Il|]. intros y [<-|[]]. apply Im. left. reflexivity.
      - intros q Hq. rewrite Hq in Ep. destruct (Nat.eqb (length (l ++ [x])) (target nrep f bft)) eqn:Eq; cbn [andb] in Ep; [|discriminate].
        destruct (negb (wp =? 0)); [|discriminate]. inversion Ep. rewrite El. split; [apply Nat.eqb_eq, Eq|reflexivity]. }
    destruct C1 as (C1 & I1 & Q). assert (Im' : incl ms ms0) by (intros y Hy; apply Im; right; exact Hy).
    assert (D : p1 = Some p \/ In p ps). { destruct p1 as [q|]; [|right; exact H]. destruct H as [H|H]; [left; congruence|right; exact H]. }
    destruct D as [D|D].
    - destruct (Q p D) as [Q1 Q2]. exists l1. auto.
    - apply (IH l1 ms0 C1 I1 Im'). rewrite E2. exact D. }
  intros H. destruct (K ms [] ms) as (l' & [Ca Cb] & I' & L' & ->); auto.
  { split; [constructor|intros x []]. } { intros x []. } { apply incl_refl. }
  cbn [pf_elems pf_seq]. split; [exact Ca|]. split; [exact L'|]. split; [reflexivity|].
  assert (Sx : forall x, In x l' -> goodReason (rd_reason x) = true /\ rd_epoch x = epoch /\ sigOk (rd_id x) x = true).
  { intros x Hx. specialize (Cb x Hx). unfold readyOk in Cb. apply andb_true_iff in Cb. destruct Cb as [Cb C4]. apply andb_true_iff in Cb. destruct Cb as [Cb C3]. apply andb_true_iff in Cb. destruct Cb as [_ C2]. apply Z.eqb_eq in C2. auto. }
  split. { intros x Hx. destruct (Sx x Hx) as (_ & A & B). split; [apply I', Hx|auto]. }
  intros Hall other. unfold proofOk. cbn [pf_id pf_epoch pf_reason pf_elems pf_seq]. rewrite Z.eqb_refl, Hr.
  apply Nat.ltb_lt in Hme. rewrite Hme. cbn [andb]. apply andb_true_iff. split.
  - apply Nat.leb_le. rewrite L'. unfold target. destruct bft; lia.
  - apply forallb_forall. intros x Hx. unfold elemOk. rewrite (Hall x (I' x Hx)), Z.eqb_refl. destruct (Sx x Hx) as (-> & _ & ->). rewrite orb_true_r. reflexivity.
Qed.

(** Nobody has to sign: the element of the receiver itself is not verified and may be repeated, so that any replica makes a stopped
    replica restart, whatever the others do. *)
Theorem C38_forged_proof_refuted me sender epoch seq bft st sst wp : (sender < nrep)%nat -> restarts bft st sst wp seq = true ->
  exists p, pf_id p = sender /\ (forall x, In x (pf_elems p) -> rd_id x = me /\ rd_sig x = []) /\ onProof sigOk nrep f me epoch bft st sst wp p = true.
Proof.
  intros Hs Hr. set (x := mkRd me seq 0 0 [] []). exists (mkPf sender seq epoch 0 (repeat x (nrep - f))). split; [reflexivity|]. cbn [pf_elems].
  split. { intros y Hy. apply repeat_spec in Hy. subst y. split; reflexivity. }
  unfold onProof, proofOk. cbn [pf_id pf_epoch pf_reason pf_elems pf_seq]. rewrite Z.eqb_refl. apply Nat.ltb_lt in Hs. rewrite Hs, repeat_length, Nat.leb_refl. cbn [andb goodReason Nat.eqb orb].
  rewrite Hr, andb_true_r. apply forallb_forall. intros y Hy. apply repeat_spec in Hy. subst y. unfold elemOk, x. cbn [rd_seq rd_reason rd_id goodReason Nat.eqb orb]. rewrite Z.eqb_refl, Nat.eqb_refl. reflexivity.
Qed.
(** Nor are the signers different: one signed message is enough, repeated. *)
Theorem C38_repeated_signer_refuted me sender epoch x bft st sst wp : (sender < nrep)%nat -> readyOk sigOk nrep epoch x = true -> restarts bft st sst wp (rd_seq x) = true ->
  exists p, (forall y, In y (pf_elems p) -> y = x) /\ onProof sigOk nrep f me epoch bft st sst wp p = true.
Proof.
  intros Hs Hx Hr. unfold readyOk in Hx. apply andb_true_iff in Hx. destruct Hx as [Hx H4]. apply andb_true_iff in Hx. destruct Hx as [Hx H3].
  exists (mkPf sender (rd_seq x) epoch 0 (repeat x (nrep - f))). split; [intros y Hy; apply repeat_spec in Hy; exact Hy|].
  unfold onProof, proofOk. cbn [pf_id pf_epoch pf_reason pf_elems pf_seq]. rewrite Z.eqb_refl. apply Nat.ltb_lt in Hs. rewrite Hs, repeat_length, Nat.leb_refl. cbn [andb goodReason Nat.eqb orb].
  rewrite Hr, andb_true_r. apply forallb_forall. intros y Hy. apply repeat_spec in Hy. subst y. unfold elemOk. rewrite Z.eqb_refl, H3, H4, orb_true_r. reflexivity.
Qed.
(** A replica restarts on a proof only when it is stopped as the command asked (on a stable checkpoint, or on one of all replicas), but
    the number of the proof is not compared with its stop point. *)
Theorem C38_restart_condition me epoch bft st sst wp p : onProof sigOk nrep f me epoch bft st sst wp p = true ->
  ((bft = true /\ st = true) \/ sst = true) /\ wp <> 0 /\ proofOk sigOk nrep f me epoch p = true.
Proof.
  unfold onProof, restarts. intros H. apply andb_true_iff in H. destruct H as [H1 H]. apply andb_true_iff in H. destruct H as [H _]. apply andb_true_iff in H. destruct H as [H2 H3].
  apply negb_true_iff, Z.eqb_neq in H3. split; [|auto]. destruct bft, st, sst; cbn in H2; auto; discriminate.
Qed.
End Proofs.
Print Assumptions C38_proof_signed.
Print Assumptions C38_collected.
Print Assumptions C38_forged_proof_refuted.
Print Assumptions C38_repeated_signer_refuted.
Print Assumptions C38_restart_condition.

Theorem C38_other_number_refuted : exists p, pf_seq p = 300 /\ onProof (fun _ _ => true) 4 1 0 0 true true false 600 p = true.
Proof.
  exists (mkPf 1 300 0 0 [mkRd 1 300 0 0 [] []; mkRd 2 300 0 0 [] []; mkRd 3 300 0 0 [] []]). split; reflexivity.
Qed.
Print Assumptions C38_other_number_refuted.
Example C38_ex_collect : exists l p, collect (fun _ _ => true) 4 1 true 300 0 7 0 [] [mkRd 1 300 7 0 [] []; mkRd 1 300 7 0 [] []; mkRd 2 300 7 0 [] []; mkRd 3 300 7 0 [] []] = (l, [p]) /\ length (pf_elems p) = 3%nat.
Proof. eexists _, _. split; reflexivity. Qed.
