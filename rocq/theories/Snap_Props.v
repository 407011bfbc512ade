(** C47: database snapshots. *)
From Coq Require Import List Arith Bool Lia Sorted.
From Verif Require Import Snap_Model Snap_Proofs.
Import ListNotations.

(** The stored list is the one in memory whenever no operation is under way, so a snapshot that was reported as created is one after a restart; each is listed once. *)
Theorem C47_list_survives_restart : forall max early clean ord nf s v id,
  reach max early clean ord nf s -> p s = PFree -> (state id s = Created <-> state id (restart v s) = Created) /\ NoDup (mm s).
Proof.
  intros max early clean ord nf s v id R F. pose proof (W_reach _ _ _ _ _ s R) as (A & B & C). unfold shape in C. rewrite F in C. split; [|now apply srt_nodup].
  unfold state, restart. simpl. rewrite C. destruct (mem id (mm s)); [easy|]. destruct (mem id (fut s)); easy.
Qed.
Print Assumptions C47_list_survives_restart.

(** A listed snapshot is complete and prepared, while no operation is under way; here without a crash in the middle of a removal. *)
Theorem C47_listed_is_usable_partial : forall max ord nf s id, reach max false true ord nf s -> p s = PFree -> state id s = Created -> dir s id = Ready.
Proof.
  intros max ord nf s id R F E. unfold state in E. destruct (mem id (mm s)) eqn:M; [|destruct (mem id (fut s)); easy]. apply mem_In in M.
  destruct (R_reach _ _ _ _ _ s (or_intror eq_refl) R id (or_introl M)) as [?|(_ & _ & I)]; [easy|]. now rewrite F in I.
Qed.
Print Assumptions C47_listed_is_usable_partial.
(** With any crashes, if a removal stored the list before it deletes the directory. *)
Theorem C47_listed_is_usable_if_stored_first : forall max clean ord nf s id, reach max true clean ord nf s -> state id s = Created -> dir s id = Ready.
Proof.
  intros max clean ord nf s id R E. unfold state in E. destruct (mem id (mm s)) eqn:M; [|destruct (mem id (fut s)); easy]. apply mem_In in M.
  destruct (R_reach _ _ _ _ _ s (or_introl eq_refl) R id (or_introl M)) as [?|(_ & ? & _)]; easy.
Qed.
Print Assumptions C47_listed_is_usable_if_stored_first.

Tactic Notation "fwd" ident(R) tactic(t) := match type of R with reach ?a ?b ?c ?d ?e ?s => let H := fresh in eassert (H : step a b c d e s _); [t | apply (rS a b c d e _ _ R) in H; clear R; rename H into R; cbn in R] end.
Tactic Notation "fwd0" ident(R) tactic(t) := match type of R with reach ?a ?b ?c ?d ?e ?s => let H := fresh in eassert (H : step a b c d e s _); [t | apply (rS a b c d e _ _ R) in H; clear R; rename H into R; cbn -[mem ins seq] in R] end.
Ltac req i k := eapply (s_req _ _ _ _ _ _ i k); [cbn; lia|lia|lia|reflexivity|intros; try discriminate; cbn; repeat constructor].
Ltac lock i k l := eapply (s_lock _ _ _ _ _ _ i k l); [reflexivity|reflexivity|reflexivity|intros; first [discriminate|reflexivity]].
Ltac made := eapply s_made; reflexivity.
Ltac prep := eapply s_prep; reflexivity.
Ltac save := eapply s_save; reflexivity.
Ltac done_ := eapply s_done; [reflexivity|reflexivity|cbn; lia].
Ltac trim := eapply s_trim; [reflexivity|reflexivity|reflexivity|cbn; lia].
Ltac gon := eapply s_gone; reflexivity.
Ltac met := eapply s_meta; reflexivity.
Ltac mon := eapply s_mon; [reflexivity|reflexivity|reflexivity].
Ltac crash v := eapply (s_crash _ _ _ _ _ _ v); intros; first [discriminate|reflexivity].

(** As the code is, a crash in the middle of a removal leaves a listed snapshot without a directory. *)
Theorem C47_listed_is_usable_refuted : exists s, reach 2 false false true true s /\ p s = PFree /\ state 1 s = Created /\ dir s 1 = Absent.
Proof.
  pose proof (r0 2 false false true true) as R.
  fwd R (req 1 1). fwd R (lock 1 1 (@nil (nat * nat))). fwd R made. fwd R prep. fwd R save. fwd R done_. fwd R mon. fwd R gon. fwd R (crash 1).
  eexists. split; [exact R|]. repeat split.
Qed.
Print Assumptions C47_listed_is_usable_refuted.

(** No directory is left that is not listed, whatever crashes happened. *)
Theorem C47_no_forgotten_directory : forall max early clean ord nf s id, reach max early clean ord nf s -> p s = PFree -> dir s id <> Absent -> state id s = Created.
Proof.
  intros max early clean ord nf s id R F H. destruct (O_reach _ _ _ _ _ s R id H) as [I|I]; [|now rewrite F in I]. unfold state. now rewrite (proj2 (mem_In _ _) I).
Qed.
Print Assumptions C47_no_forgotten_directory.

(** The number of snapshots: each restart can add one to the configured number. On disk there are at most two more at any time. *)
Theorem C47_number_partial : forall max early clean ord nf s, reach max early clean ord nf s ->
  (p s = PFree -> length (mm s) <= max + crashes s) /\ (forall l, NoDup l -> (forall x, In x l -> dir s x <> Absent) -> length l <= max + crashes s + 2).
Proof.
  intros max early clean ord nf s R. split.
  - intros F. pose proof (N_reach _ _ _ _ _ s R) as Q. unfold N in Q. now rewrite F in Q.
  - intros l A B. pose proof (dirs_len _ _ _ _ _ s l R A B). lia.
Qed.
Print Assumptions C47_number_partial.
(** When a creation ends, the number is respected. *)
Theorem C47_number_after_creation : forall max early clean ord nf s t id, step max early clean ord nf s t -> p s = PTrim id -> p t = PFree -> crashes t = crashes s -> length (mm t) <= max.
Proof. intros max early clean ord nf s t id X E F CR. destruct X; simpl in *; try congruence; try lia. unfold rm_start in F. destruct early; discriminate. Qed.
Print Assumptions C47_number_after_creation.
(** Crashes between the storing of the list and the removal of the oldest make the list as long as one likes. *)
Theorem C47_number_refuted : forall max k, 0 < max -> exists s, reach max false false true true s /\ p s = PFree /\ length (mm s) = k.
Proof.
  intros max k H. enough (exists s, reach max false false true true s /\ p s = PFree /\ mm s = seq 1 k /\ meta s = seq 1 k /\ run s = [] /\ fut s = [] /\ lastSeq s = 0 /\ dead s = false) as (s & A & B & C & _).
  { exists s. now rewrite C, seq_length. }
  induction k as [|k (s & A & B & C & M & D & E & F & G)].
  - exists s0. repeat split; constructor.
  - destruct s as [d m l f r c q lc de cr]. cbn in *. subst. assert (NI : mem (S k) (seq 1 k) = false) by (apply mem_nIn; rewrite in_seq; lia).
    assert (BL : Forall (fun y => y < S k) (seq 1 k)) by (apply Forall_forall; intros y I%in_seq; lia).
    fwd0 A (eapply (s_req _ _ _ _ _ _ (S k) 1); [cbn; lia|lia|lia|reflexivity|intros _; cbn; rewrite !app_nil_r; exact BL]).
    fwd0 A (lock (S k) 1 (@nil (nat * nat))). rewrite NI in A. fwd0 A made. fwd0 A prep. fwd0 A save. fwd0 A (crash 0).
    assert (Q : ins (S k) (seq 1 k) = seq 1 (S k)) by (rewrite (ins_last _ _ BL), seq_S; reflexivity). rewrite Q in A.
    eexists. split; [exact A|]. repeat split.
Qed.
Print Assumptions C47_number_refuted.

(** Only a restart or the removal of the lowest takes a snapshot off the list. *)
Theorem C47_oldest_is_removed : forall max early clean ord nf s t x, reach max early clean ord nf s -> step max early clean ord nf s t -> crashes t = crashes s ->
  state x s = Created -> state x t <> Created -> forall y, state y t = Created -> x < y.
Proof.
  assert (E : forall x s, state x s = Created <-> In x (mm s)).
  { intros x s. unfold state. rewrite <- mem_In. destruct (mem x (mm s)), (mem x (fut s)); split; easy. }
  intros max early clean ord nf s t x R X CR. rewrite !E. intros I J y. rewrite E. eapply leaves; eauto using W_reach.
Qed.
Print Assumptions C47_oldest_is_removed.

(** No thread waits for itself, and the last created snapshot is the highest listed one, if requests come with growing block numbers and are served in turn. *)
Theorem C47_never_waits_for_itself_partial : forall max early clean nf s, 0 < max -> reach max early clean true nf s -> dead s = false.
Proof. intros max early clean nf s M R. apply (D_reach max early clean true nf eq_refl M s R). Qed.
Print Assumptions C47_never_waits_for_itself_partial.
Theorem C47_last_created_partial : forall max early clean nf s, 0 < max -> reach max early clean true nf s -> p s = PFree ->
  match lcd s with None => forall x, state x s <> Created | Some y => state y s = Created /\ forall x, state x s = Created -> x <= y end.
Proof.
  assert (E : forall x s, state x s = Created <-> In x (mm s)).
  { intros x s. unfold state. rewrite <- mem_In. destruct (mem x (mm s)), (mem x (fut s)); split; easy. }
  intros max early clean nf s M R F. pose proof (D_reach max early clean true nf eq_refl M s R) as (_ & _ & _ & L). rewrite F in L. pose proof (W_reach _ _ _ _ _ s R) as (A & _).
  rewrite L. destruct (lasto (mm s)) as [y|] eqn:Q.
  - rewrite E. split; [now apply lasto_In|]. intros x. rewrite E. revert Q A. generalize (mm s). intros l. destruct l as [|a l] using rev_ind; [easy|]. rewrite lasto_app. intros [= ->] S I.
    clear - S I. induction l as [|b l IH]; simpl in *; [lia|]. apply StronglySorted_inv in S as [S G]. rewrite Forall_forall in G. destruct I as [->|I]; [|auto]. specialize (G y). rewrite in_app_iff in G. simpl in G. specialize (G (or_intror (or_introl eq_refl))). lia.
  - intros x. rewrite E. destruct (mm s) as [|a l] using rev_ind; [easy|]. now rewrite lasto_app in Q.
Qed.
Print Assumptions C47_last_created_partial.
(** Two requests that get the lock in the other order: the second removes its own snapshot, and its future, which waits for it. *)
Theorem C47_never_waits_for_itself_refuted : exists s, reach 1 false true false true s /\ dead s = true /\ crashes s = 0.
Proof.
  pose proof (r0 1 false true false true) as R.
  fwd R (req 1 1). fwd R (req 2 2). fwd R (lock 2 2 [(1, 1)]). fwd R made. fwd R prep. fwd R save. fwd R done_. fwd R (lock 1 1 (@nil (nat * nat))). fwd R made. fwd R prep. fwd R save. fwd R trim. fwd R gon. fwd R met.
  eexists. split; [exact R|]. repeat split.
Qed.
Print Assumptions C47_never_waits_for_itself_refuted.
(** Then, too, the last created snapshot is one that is gone, and the last sequence number goes back. *)
Theorem C47_last_created_refuted : exists s y, reach 2 false true false true s /\ p s = PFree /\ lcd s = Some y /\ state y s = NonExistent /\ state 2 s = Created.
Proof.
  pose proof (r0 2 false true false true) as R.
  fwd R (req 1 1). fwd R (req 2 2). fwd R (lock 2 2 [(1, 1)]). fwd R made. fwd R prep. fwd R save. fwd R done_. fwd R (lock 1 1 (@nil (nat * nat))). fwd R made. fwd R prep. fwd R save. fwd R done_. fwd R mon. fwd R gon. fwd R met.
  eexists. exists 1. split; [exact R|]. repeat split.
Qed.
Print Assumptions C47_last_created_refuted.
Theorem C47_sequence_number_grows_refuted : exists s t, reach 2 false true false true s /\ step 2 false true false true s t /\ crashes t = crashes s /\ lastSeq t < lastSeq s.
Proof.
  pose proof (r0 2 false true false true) as R.
  fwd R (req 1 1). fwd R (req 2 2). fwd R (lock 2 2 [(1, 1)]). fwd R made. fwd R prep. fwd R save. fwd R done_. fwd R (lock 1 1 (@nil (nat * nat))). fwd R made.
  eexists. eexists. split; [exact R|]. split; [prep|]. cbn. lia.
Qed.
Print Assumptions C47_sequence_number_grows_refuted.

(** A pending snapshot is one that a creation waits for or works at, or that is being removed, if the database never fails to write one. *)
Theorem C47_pending_is_worked_at_partial : forall max early clean ord s id, reach max early clean ord true s -> state id s = Pending ->
  In id (map fst (run s)) \/ (exists q, p s = PMake id q \/ p s = PPrep id q) \/ (exists w, p s = PEr id w) \/ (early = true /\ exists w, p s = PRm id w).
Proof.
  intros max early clean ord s id R E. unfold state in E. destruct (mem id (mm s)) eqn:M; [easy|]. destruct (mem id (fut s)) eqn:F; [|easy]. apply mem_In in F. apply mem_nIn in M.
  pose proof (W_reach _ _ _ _ _ s R) as (_ & _ & C). unfold shape in C. destruct (P_reach _ _ _ _ s R id F) as [?|[?|[I|I]]]; [easy|auto|right; left|right; right]; destruct (p s); simpl in I; try easy; destruct I as [->|[]]; eauto.
  destruct early; [right; eauto|]. destruct C as [C [r Q]]. rewrite Q in M. simpl in M. tauto.
Qed.
Print Assumptions C47_pending_is_worked_at_partial.
(** After a failure it stays pending, though nobody works at it, until the next restart; until then requests for that block are refused. *)
Theorem C47_pending_is_worked_at_refuted : exists s, reach 2 false true true false s /\ state 1 s = Pending /\ run s = [] /\ p s = PFree /\
  forall t, on 2 false true true false s t -> state 1 t = Pending /\ ~ In 1 (map fst (run t)).
Proof.
  pose proof (r0 2 false true true false) as R. fwd R (req 1 1). fwd R (lock 1 1 (@nil (nat * nat))). fwd R (eapply s_fail; reflexivity).
  eexists. split; [exact R|]. do 3 (split; [reflexivity|]). intros t X. apply (stuck_on _ _ _ _ _ 1 _ _ R) in X; [|unfold stuck; cbn; intuition].
  destruct X as (A & B & C & _). apply mem_In in A. apply mem_nIn in B. unfold state, unfinished in *. rewrite A, B. split; [easy|]. rewrite in_app_iff in C. tauto.
Qed.
Print Assumptions C47_pending_is_worked_at_refuted.

(** The stored list fits its object up to 40 snapshots; up to 100 are allowed to be configured. *)
Theorem C47_metadata_fits_partial : forall n, stored_size n <= allowed_size <-> n <= 40.
Proof. intros n. unfold stored_size, allowed_size, head_size. change (String.length name_list) with 37. change (String.length name_item) with 61. cbn [String.length]. lia. Qed.
Print Assumptions C47_metadata_fits_partial.
Theorem C47_metadata_fits_refuted : ~ forall n, n <= 100 -> stored_size n <= allowed_size.
Proof. intros H. specialize (H 41 ltac:(lia)). apply C47_metadata_fits_partial in H. lia. Qed.
Print Assumptions C47_metadata_fits_refuted.

(** A snapshot asked for at a sequence number is due at the next end of a checkpoint window. *)
Theorem C47_next_window_end : forall w q, 0 < w -> Nat.divide w (next_stable w q) /\ q < next_stable w q /\ forall k, Nat.divide w k -> q < k -> next_stable w q <= k.
Proof.
  intros w q H. unfold next_stable. assert (W : w <> 0) by lia. pose proof (Nat.div_mod (q + w) w W) as E. pose proof (Nat.mod_upper_bound (q + w) w W) as L.
  assert (Q : q + w - (q + w) mod w = w * ((q + w) / w)) by lia. rewrite Q. repeat split.
  - exists ((q + w) / w). lia.
  - lia.
  - intros k [z ->] K. enough ((q + w) / w <= z) by nia. apply Nat.lt_succ_r, Nat.div_lt_upper_bound; nia.
Qed.
Print Assumptions C47_next_window_end.
Example next_ex : next_stable 150 150 = 300 /\ next_stable 150 299 = 300 /\ next_stable 150 0 = 150.
Proof. vm_compute. auto. Qed.

(** Three snapshots in turn, the first of which goes, and a restart: a run that meets all the hypotheses. *)
Example C47_run : exists s, reach 2 false true true true s /\ p s = PFree /\ mm s = [2; 3] /\ dir s 1 = Absent /\ dir s 2 = Ready /\ dir s 3 = Ready /\ lcd s = Some 3 /\ crashes s = 1.
Proof.
  pose proof (r0 2 false true true true) as R.
  fwd R (req 1 1). fwd R (lock 1 1 (@nil (nat * nat))). fwd R made. fwd R prep. fwd R save. fwd R done_.
  fwd R (req 2 2). fwd R (lock 2 2 (@nil (nat * nat))). fwd R made. fwd R (req 3 3). fwd R prep. fwd R save. fwd R done_.
  fwd R (lock 3 3 (@nil (nat * nat))). fwd R made. fwd R prep. fwd R save. fwd R trim. fwd R gon. fwd R met. fwd R done_. fwd R (crash 3).
  eexists. split; [exact R|]. repeat split.
Qed.
