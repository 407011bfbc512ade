(** C02, C03: agreement within a view and across view changes. *)
From Coq Require Import List Arith Lia Bool.
From Verif Require Import Lib_Sets Quorum_Model ViewChange_Model Consensus_Model Consensus_Inv Consensus_Pres Consensus_Proofs Consensus_Runs.
Import ListNotations.

Ltac hd_ok := match goal with
  | H : hasDec ?i ?v ?s ?d ?g = true |- committed _ ?g ?i ?v ?s ?d => apply (fun A B => hasDec_ok _ g i v s d A B H)
  | H : hasDec ?i ?v ?s 0 ?g = true |- committed _ ?g ?i ?v ?s nullDigest => apply (fun A B => hasDec_ok _ g i v s 0 A B H) end;
  match goal with g : gstate |- _ => clear dependent g end; clear; [vm_compute; lia|simpl; lia].

(** C02. In every reachable state, whatever the at most f Byzantine replicas did, two correct replicas that committed at the same
    sequence number in the same view, each through the slow or the fast path, committed the same batch. *)
Theorem C02_agreement_in_view : forall k g i j v s d d', validConfig k -> reachable k g ->
  committed k g i v s d -> committed k g j v s d' -> d = d'.
Proof.
  intros k g i j v s d d' V R H H'. pose proof (reachable_INV k g V R) as I.
  eapply cert_agree; eauto using dec_cert.
Qed.
Print Assumptions C02_agreement_in_view.

(** C02. Even one threshold signature excludes another: no two prepare certificates for different batches at (view, seq). *)
Theorem C02_certificates_agree : forall k g v s d d', validConfig k -> reachable k g ->
  slowQuorum (cf k) (cc k) <= length (voters k g (v, s, d)) -> slowQuorum (cf k) (cc k) <= length (voters k g (v, s, d')) -> d = d'.
Proof. intros k g v s d d' V R. apply cert_agree; auto. apply reachable_INV; auto. Qed.
Print Assumptions C02_certificates_agree.

(** C02. Commitments are permanent: a later state still contains them. *)
Theorem C02_commit_stays : forall k g l g' i v s d, validConfig k -> reachable k g -> run k g l = Some g' ->
  committed k g i v s d -> committed k g' i v s d.
Proof.
  intros k g l g' i v s d V R H [Hc Hd]. split; auto. destruct (run_INV k V l g g' (reachable_INV k g V R) H) as [_ G].
  destruct (G i) as (_ & _ & _ & G4). apply G4; auto.
Qed.
Print Assumptions C02_commit_stays.

(** C03 (full statement: for every configuration and reachable state, any two commits at one sequence number agree; it is false
    of the code, see the _refuted theorems below; each hypothesis here excludes one of them).
    A real batch committed in view v is the only thing correct replicas can commit at this number in any later view. *)
Theorem C03_batch_survives_partial : forall k g i j v v' s d d', validConfig k -> reachable k g ->
  ctime k = false -> 1 <= cf k + cc k -> consistentEntries k g -> stableReported k g (cf k - length (cbyz k) + 1) ->
  committed k g i v s d -> d <> nullDigest -> committed k g j v' s d' -> v <= v' -> d' = d.
Proof. intros k g i j v v' s d d' V R; intros. eapply survives_lemma; eauto. apply reachable_INV; auto. Qed.
Print Assumptions C03_batch_survives_partial.

(** C03: the same for commits of the null batch, when the view changes decide about s. *)
Theorem C03_any_commits_agree_partial : forall k g i j v v' s d d', validConfig k -> reachable k g ->
  ctime k = false -> 1 <= cf k + cc k -> consistentEntries k g -> stableReported k g (cf k - length (cbyz k) + 1) -> coversAt k g s ->
  committed k g i v s d -> committed k g j v' s d' -> d' = d.
Proof. intros k g i j v v' s d d' V R; intros. eapply agree_lemma; eauto. apply reachable_INV; auto. Qed.
Print Assumptions C03_any_commits_agree_partial.

(** C03: crash faults only (no Byzantine replica): no assumption on messages is left; any number of crashes, view changes,
    checkpoints and state transfers. *)
Theorem C03_crash_faults_batch_survives : forall k g i j v v' s d d', reachable k g -> cbyz k = [] ->
  ctime k = false -> 1 <= cf k + cc k ->
  committed k g i v s d -> d <> nullDigest -> committed k g j v' s d' -> v <= v' -> d' = d.
Proof.
  intros k g i j v v' s d d' R HB HT HF Hd Hn Hd' Hv.
  assert (V : validConfig k) by (unfold validConfig; rewrite HB; repeat split; [constructor|constructor|simpl; lia]).
  pose proof (reachable_INV k g V R) as I.
  eapply (survives_lemma k g i j v v' s d d' V I); eauto using consistent_crash.
  apply stable_enough; auto. rewrite HB; simpl; lia.
Qed.
Print Assumptions C03_crash_faults_batch_survives.

(** C03: as long as no correct replica has a stable checkpoint (the first 150 sequence numbers), with up to f Byzantine replicas. *)
Theorem C03_first_window_batch_survives_partial : forall k g i j v v' s d d', validConfig k -> reachable k g ->
  ctime k = false -> 1 <= cf k + cc k -> consistentEntries k g -> (forall x, correct k x -> r_ls (get g x) = 0) ->
  committed k g i v s d -> d <> nullDigest -> committed k g j v' s d' -> v <= v' -> d' = d.
Proof.
  intros k g i j v v' s d d' V R HT HF HC HZ; intros. pose proof (reachable_INV k g V R) as I.
  eapply (survives_lemma k g i j v v' s d d' V I); eauto. apply stable_zero; auto. lia.
Qed.
Print Assumptions C03_first_window_batch_survives_partial.

(** C03: slow-path commits with at most min(f,c) Byzantine replicas, at any time. *)
Theorem C03_slow_commit_survives_partial : forall k g j v v' s d d', validConfig k -> reachable k g ->
  ctime k = false -> 1 <= cf k + cc k -> consistentEntries k g -> length (cbyz k) <= cc k ->
  slowQuorum (cf k) (cc k) <= length (committers k g (v, s, d)) -> d <> nullDigest -> committed k g j v' s d' -> v <= v' -> d' = d.
Proof. intros k g j v v' s d d' V R; intros. eapply survives_slow_lemma; eauto. apply reachable_INV; auto. Qed.
Print Assumptions C03_slow_commit_survives_partial.

(** C03: executed histories. Everything a correct replica executed (directly or by state transfer) was committed by a correct
    replica at that position, without any further hypothesis. *)
Theorem C03_executed_was_committed : forall k g i s d, validConfig k -> reachable k g -> correct k i ->
  executed g i s = Some d -> exists j v, committed k g j v s d.
Proof. intros k g i s d V R. apply executed_committed. apply reachable_INV; auto. Qed.
Print Assumptions C03_executed_was_committed.

(** C03: two correct replicas never execute different batches at one sequence number. *)
Theorem C03_executed_agree_partial : forall k g i j s d d', validConfig k -> reachable k g ->
  ctime k = false -> 1 <= cf k + cc k -> consistentEntries k g -> stableReported k g (cf k - length (cbyz k) + 1) -> coversAt k g s ->
  correct k i -> correct k j -> executed g i s = Some d -> executed g j s = Some d' -> d = d'.
Proof.
  intros k g i j s d d' V R HT HF HC HS HN Hi Hj E E'. pose proof (reachable_INV k g V R) as I.
  destruct (executed_committed k g i s d I Hi E) as (a & v & Ha). destruct (executed_committed k g j s d' I Hj E') as (b & v' & Hb).
  symmetry. eapply (agree_lemma k g a b); eauto.
Qed.
Print Assumptions C03_executed_agree_partial.

(** C03: coversAt holds whenever s is in the first half of the window of each view entered below it. *)
Theorem C03_first_half_is_covered : forall k g s,
  (forall i en, correct k i -> In en (r_ents (get g i)) -> n_lb en < s -> s <= n_lb en + checkpointWindowSize) -> coversAt k g s.
Proof. exact covers_half. Qed.
Print Assumptions C03_first_half_is_covered.

(** C03 refuted, 1: all hypotheses of C03_any_commits_agree_partial but coversAt hold; one Byzantine replica among 4. A null batch
    committed at 160 in view 1 is replaced by batch 9 in view 2 (restrictions cut to the first half of the window). *)
Theorem C03_null_commit_refuted : exists k g, validConfig k /\ reachable k g /\ ctime k = false /\ consistentEntries k g /\
  stableReported k g (cf k - length (cbyz k) + 1) /\
  committed k g 0 1 160 nullDigest /\ committed k g 1 2 160 9.
Proof.
  destruct (chk_reach _ _ _ ex1) as (g & R & H). exists k1, g. pose proof valid1 as V. change (mkCfg 1 0 [3] false) with k1 in V.
  cbv beta in H. repeat rewrite andb_true_iff in H. destruct H as [[[H1 H2] H3] H4].
  split; auto. split; auto. split; auto. split; [apply consEntB_ok; auto|]. split; [|split].
  - apply stable_zero; [exact V|apply reachable_INV; auto|rewrite Nat.add_1_r; apply Nat.lt_0_succ|apply lsZeroB_ok; auto].
  - hd_ok.
  - hd_ok.
Qed.
Print Assumptions C03_null_commit_refuted.

(** C03 refuted, 2: all hypotheses but stableReported. A Byzantine replica that under-reports its last stable number in the
    view change lets batch 9 be executed at 1 by replica 1 although replica 0 executed batch 5 there. *)
Theorem C03_stable_report_refuted : exists k g, validConfig k /\ reachable k g /\ ctime k = false /\ consistentEntries k g /\ coversAt k g 1 /\
  committed k g 0 0 1 5 /\ committed k g 1 1 1 9 /\ executed g 0 1 = Some 5 /\ executed g 1 1 = Some 9.
Proof.
  destruct (chk_reach _ _ _ ex2) as (g & R & H). exists k2, g. pose proof valid1 as V. change (mkCfg 1 0 [3] false) with k2 in V.
  cbv beta in H. repeat rewrite andb_true_iff in H. destruct H as [[[[[H1 H2] H3] H4] H5] H6].
  split; auto. split; auto. split; auto. split; [apply consEntB_ok; auto|]. split; [apply coverB_ok; auto|].
  split; [|split; [|split; apply ex_ok; auto]]; hd_ok.
Qed.
Print Assumptions C03_stable_report_refuted.

(** C03 refuted, 3: all hypotheses but ctime = false. A replica that finds the primary's time out of bounds sends a commit share
    but leaves its prepared certificate out of the view change. *)
Theorem C03_time_service_refuted : exists k g, validConfig k /\ reachable k g /\ consistentEntries k g /\ coversAt k g 1 /\
  stableReported k g (cf k - length (cbyz k) + 1) /\
  committed k g 0 0 1 5 /\ committed k g 1 1 1 nullDigest /\ executed g 0 1 = Some 5 /\ executed g 1 1 = Some nullDigest.
Proof.
  destruct (chk_reach _ _ _ ex3) as (g & R & H). exists k3, g. pose proof valid1t as V. change (mkCfg 1 0 [3] true) with k3 in V.
  cbv beta in H. repeat rewrite andb_true_iff in H. destruct H as [[[[[[H1 H2] H3] H4] H5] H6] H7].
  split; auto. split; auto. split; [apply consEntB_ok; auto|]. split; [apply coverB_ok; auto|].
  split; [apply stable_zero; [exact V|apply reachable_INV; auto|rewrite Nat.add_1_r; apply Nat.lt_0_succ|apply lsZeroB_ok; auto]|].
  split; [|split; [|split; apply ex_ok; auto]]; hd_ok.
Qed.
Print Assumptions C03_time_service_refuted.

(** C03 refuted, 4: all hypotheses but consistentEntries (f = 2). A Byzantine replica re-sends a correct replica's certificate with a bad
    signature; the valid one is ignored. *)
Theorem C03_bad_signature_refuted : exists k g, validConfig k /\ reachable k g /\ ctime k = false /\ coversAt k g 1 /\
  stableReported k g (cf k - length (cbyz k) + 1) /\
  committed k g 2 0 1 5 /\ committed k g 5 1 1 nullDigest /\ executed g 2 1 = Some 5 /\ executed g 5 1 = Some nullDigest.
Proof.
  destruct (chk_reach _ _ _ ex6) as (g & R & H). exists k6, g. pose proof valid6 as V.
  cbv beta in H. repeat rewrite andb_true_iff in H. destruct H as [[[[[H1 H2] H3] H4] H5] H6].
  split; auto. split; auto. split; auto. split; [apply coverB_ok; auto|].
  split; [apply stable_zero; [exact V|apply reachable_INV; auto|rewrite Nat.add_1_r; apply Nat.lt_0_succ|apply lsZeroB_ok; auto]|].
  split; [|split; [|split; apply ex_ok; auto]]; hd_ok.
Qed.
Print Assumptions C03_bad_signature_refuted.

(** The hypotheses of C02 and of the C03 theorems are met by a run with a Byzantine replica, a commit, a view change and a second
    commit of the same batch. *)
Example C03_hypotheses_met : exists g, validConfig kD /\ reachable kD g /\ ctime kD = false /\ consistentEntries kD g /\ coversAt kD g 1 /\
  stableReported kD g (cf kD - length (cbyz kD) + 1) /\ (forall x, correct kD x -> r_ls (get g x) = 0) /\
  committed kD g 0 0 1 5 /\ committed kD g 1 1 1 5.
Proof.
  destruct (chk_reach _ _ _ exD) as (g & R & H). exists g. pose proof valid1 as V. change (mkCfg 1 0 [3] false) with kD in V.
  cbv beta in H. repeat rewrite andb_true_iff in H. destruct H as [[[[H1 H2] H3] H4] H5].
  split; auto. split; auto. split; auto. split; [apply consEntB_ok; auto|]. split; [apply coverB_ok; auto|].
  split; [apply stable_zero; [exact V|apply reachable_INV; auto|rewrite Nat.add_1_r; apply Nat.lt_0_succ|apply lsZeroB_ok; auto]|]. split; [apply lsZeroB_ok; auto|].
  split; hd_ok.
Qed.
