(** C48: the read-only replica starts a state transfer exactly when it should. *)
From Coq Require Import List Arith Bool Lia.
From Verif Require Import Cert_Model Cert_Props Ro_Model Ro_Proofs.
Import ListNotations.

(** Whenever a transfer was started and a descriptor stored, a quorum of different replicas had sent stable and equal checkpoints for its number; with at most f faulty ones, f+c+1 of them are correct. No null class or message is dereferenced. *)
Theorem C48_transfer_is_justified : forall f c window l faulty, 0 < f -> valid (3 * f + 2 * c + 1) l -> length faulty <= f ->
  bad (run f c window l) = false /\
  forall q ms, In (q, ms) (stored (run f c window l)) -> exists m C, sq m = q /\ NoDup C /\ f + c + 1 <= length C /\
    forall r, In r C -> ~ In r faulty /\ exists m', In (Ckpt r m') l /\ stable m' = true /\ sq m' = q /\ dg m' = dg m /\ state m' = state m.
Proof.
  intros f c w l B POS V LB. split; [apply (I_run f c w POS l V)|]. intros q ms H. destruct (J_run f c w POS l V) as (_ & _ & K). destruct (K q ms H) as (m & D & ND & L & Q & G).
  exists m, (filter (fun r => negb (existsb (Nat.eqb r) B)) D). split; [easy|]. split; [now apply NoDup_filter|]. split.
  - assert (X : length (filter (fun r => existsb (Nat.eqb r) B) D) <= length B).
    { apply NoDup_incl_length; [now apply NoDup_filter|]. intros r [_ R]%filter_In. apply existsb_exists in R as (y & Y & E%Nat.eqb_eq). now subst. }
    assert (Y : length D = length (filter (fun r => existsb (Nat.eqb r) B) D) + length (filter (fun r => negb (existsb (Nat.eqb r) B)) D)).
    { clear. induction D as [|a D IH]; simpl; [easy|]. destruct (existsb (Nat.eqb a) B); simpl; lia. }
    unfold required in L. lia.
  - intros r [R N]%filter_In. split.
    + intros I. apply negb_true_iff in N. rewrite <- not_true_iff_false, existsb_exists in N. apply N. exists r. split; [easy|apply Nat.eqb_refl].
    + destruct (G r R) as (m' & A & S & E). unfold equiv in E. rewrite !andb_true_iff, !Nat.eqb_eq in E. exists m'. intuition congruence.
Qed.
Print Assumptions C48_transfer_is_justified.

(** And it starts as soon as a quorum of replicas, that send nothing else for that number, have sent equal stable checkpoints above the replica's own state, whatever others sent before. *)
Theorem C48_transfer_starts : forall f c window l m D, 0 < f -> valid (3 * f + 2 * c + 1) l -> (forall r, In r D -> r < 3 * f + 2 * c + 1) -> NoDup D -> 2 * f + c + 1 <= length D ->
  (forall r m', In r D -> In (Ckpt r m') l -> sq m' = sq m -> dg m' = dg m /\ state m' = state m) ->
  let s := run f c window l in stable m = true -> lastExec s < sq m -> known s <= epoch m ->
  collecting (run f c window (l ++ map (fun r => Ckpt r m) D)) = true.
Proof.
  intros f c w l m D POS V RD ND L H s S1 S2 S3. assert (V2 : valid (nReps f c) (l ++ map (fun r => Ckpt r m) D)).
  { intros r m' [K|K]%in_app_iff; [now apply (V r m')|]. apply in_map_iff in K as (x & E & K). inversion E; subst. now apply RD. }
  destruct (collecting s) eqn:CS.
  { clear - CS. induction D as [|r D IH] using rev_ind; simpl; [now rewrite app_nil_r|]. rewrite map_app, app_assoc. simpl. unfold run in *. rewrite fold_left_app. simpl. unfold onCkpt. now rewrite IH. }
  assert (R : relevant m s = true) by (unfold relevant; rewrite S1; simpl; apply andb_true_iff; split; [now apply Nat.ltb_lt|now apply Nat.leb_le]).
  destruct (feed_all f c w POS D l m V2 CS R) as [X|[X1 X2]]; [easy|]. exfalso. set (t := run f c w (l ++ _)) in *.
  pose proof (I_run f c w POS _ V2) as (A & _ & C). pose proof (J_run f c w POS _ V2) as (K1 & K2 & _). fold t in A, C, K1, K2. specialize (C (sq m)). specialize (K1 (sq m)).
  assert (SN : senders (nReps f c) (map (fun x => Add ckpt (fst x) (snd x)) (filter (fun x => sq (snd x) =? sq m) (hist t)))).
  { intros r m' J. apply in_map_iff in J as ([a b] & E & J). inversion E; subst. apply filter_In in J as [J _]. apply (A _ J). }
  assert (N2 : 2 <= nReps f c) by (unfold nReps; lia). assert (R2 : 2 <= required f c) by (unfold required; lia).
  destruct (C11_complete_iff equiv equiv_eq true (nReps f c) (required f c) (nReps f c) N2 R2 _ SN) as (k & E & Q). rewrite C in E. injection E as <-.
  enough (complete ckpt (certs t (sq m)) = true) by congruence. apply Q. exists m. fold (votes (sq m) (hist t)). unfold support, required.
  enough (length D <= length (map fst (filter (fun x => equiv m (snd x)) (votes (sq m) (hist t))))) as G by (rewrite map_length in G; lia).
  apply NoDup_incl_length; [easy|]. intros r I. destruct (votes_has (sq m) (hist t) r m) as (m' & M'); [apply X2, in_map_iff; eauto|easy|].
  apply in_map_iff. exists (r, m'). split; [easy|]. apply filter_In. split; [easy|]. apply votes_In in M' as [M' Q']. simpl in *. destruct (K2 _ _ M') as [Z _].
  apply in_app_iff in Z as [Z|Z].
  - destruct (H r m' I Z Q') as [E1 E2]. unfold equiv. rewrite Q', E1, E2, !Nat.eqb_refl. easy.
  - apply in_map_iff in Z as (x & E & _). inversion E; subst. unfold equiv. now rewrite !Nat.eqb_refl.
Qed.
Print Assumptions C48_transfer_starts.

(** After a transfer has brought the state of checkpoint n, no message for that one or an earlier one changes anything. *)
Theorem C48_old_ignored : forall f c window l n l', (forall e, In e l' -> exists r m, e = Ckpt r m /\ (sq m <= n * window \/ stable m = false)) ->
  run f c window (l ++ Complete n :: l') = run f c window (l ++ [Complete n]).
Proof.
  intros f c w l n l' H. unfold run. rewrite !fold_left_app. cbn [fold_left]. set (s := step f c w (fold_left _ l s0) (Complete n)). assert (E : lastExec s = n * w) by reflexivity. clearbody s.
  induction l' as [|e l' IH]; [easy|]. cbn [fold_left]. destruct (H e (or_introl eq_refl)) as (r & m & -> & L). cbn [step]. unfold onCkpt.
  replace (relevant m s) with false; [rewrite orb_true_r; apply IH; intros e J; apply H; now right|].
  symmetry. unfold relevant. rewrite E. destruct L as [L | ->]; [|easy]. rewrite (proj2 (Nat.ltb_ge _ _) L). now rewrite andb_false_r.
Qed.
Print Assumptions C48_old_ignored.

(** The messages that are kept are not bounded: one faulty replica fills the map with as many numbers as it likes. *)
Lemma flood_step i s : collecting s = false -> lastExec s = 0 -> known s = 0 -> 0 < i -> certs s i = cert0 ckpt -> ~ In i (keys s) ->
  let t := step 1 0 150 s (Ckpt 0 (mkC i 0 true 7 7)) in keys t = i :: keys s /\ collecting t = false /\ lastExec t = 0 /\ known t = 0 /\ forall q, q <> i -> certs t q = certs s q.
Proof.
  intros B C D P E F. destruct i as [|i]; [lia|]. cbn [step]. unfold onCkpt, relevant. rewrite B, C, D. cbn [sq epoch stable Nat.ltb Nat.leb andb negb orb].
  rewrite E. change (nReps 1 0) with 4. change (required 1 0) with 3.
  assert (X : existsb (Nat.eqb (S i)) (keys s) = false).
  { destruct (existsb (Nat.eqb (S i)) (keys s)) eqn:X; [|easy]. apply existsb_exists in X as (y & Y & Z%Nat.eqb_eq). now subst. }
  assert (K : exists k, addMsg ckpt equiv false true 4 3 4 (cert0 ckpt) 0 (mkC (S i) 0 true 7 7) = Some (k, true) /\ complete ckpt k = false) by (eexists; split; reflexivity).
  destruct K as (k & -> & ->). cbn [keys collecting lastExec known certs]. rewrite X. repeat split; auto.
  intros q Q. destruct (Nat.eqb_spec q (S i)); [easy|reflexivity].
Qed.
Theorem C48_memory_bounded_refuted : forall k, exists l, (forall e, In e l -> exists m, e = Ckpt 0 m /\ stable m = true /\ Nat.divide 150 (sq m)) /\ length (keys (run 1 0 150 l)) = k /\ valid 4 l.
Proof.
  intros k. exists (map (fun i => Ckpt 0 (mkC (150 * i) 0 true 7 7)) (seq 1 k)). split; [|split].
  - intros e H. apply in_map_iff in H as (i & <- & _). eexists. split; [reflexivity|]. split; [reflexivity|]. exists i. cbn [sq]. lia.
  - assert (G : let s := run 1 0 150 (map (fun i => Ckpt 0 (mkC (150 * i) 0 true 7 7)) (seq 1 k)) in length (keys s) = k /\ collecting s = false /\ lastExec s = 0 /\ known s = 0 /\ (forall q, 150 * k < q -> certs s q = cert0 ckpt) /\ (forall q, In q (keys s) -> q <= 150 * k)); [|exact (proj1 G)].
    induction k as [|k IH]; [repeat split; try easy; now intros q []|]. rewrite seq_S, map_app. cbv zeta. unfold run in *. rewrite fold_left_app. destruct IH as (A & B & C & D & E & F).
    set (s := fold_left _ (map _ (seq 1 k)) s0) in *. clearbody s. cbn [map fold_left].
    assert (L1 : 150 * k < 150 * (1 + k)) by lia. assert (L2 : 150 * (1 + k) = 150 * S k) by lia. rewrite <- L2. revert L1. generalize (150 * (1 + k)) as q0. intros q0 L1.
    destruct (flood_step q0 s B C D ltac:(lia) (E q0 L1)) as (G1 & G2 & G3 & G4 & G5); [intros K; specialize (F q0 K); lia|]. rewrite G1. repeat split; auto.
    + cbn [length]. now rewrite A.
    + intros q Q. rewrite G5 by lia. apply E. lia.
    + intros q [<-|Q]; [lia|]. specialize (F q Q). lia.
  - intros r m H. apply in_map_iff in H as (i & E & _). inversion E. lia.
Qed.
Print Assumptions C48_memory_bounded_refuted.

(** The stored descriptor holds all messages for the number, also those of faulty replicas that differ; one of them may name it. *)
Theorem C48_descriptor_is_certified_refuted : exists l q ms m m', valid 4 l /\ In (q, ms) (stored (run 1 0 150 l)) /\ In (0, m') ms /\ In (1, m) ms /\ In (2, m) ms /\ In (3, m) ms /\ state m' <> state m.
Proof.
  exists [Ckpt 0 (mkC 150 0 true 99 1); Ckpt 1 (mkC 150 0 true 10 1); Ckpt 2 (mkC 150 0 true 10 1); Ckpt 3 (mkC 150 0 true 10 1)], 150.
  eexists. exists (mkC 150 0 true 10 1), (mkC 150 0 true 99 1). split; [intros r m H; repeat (destruct H as [H|H]; [inversion H; lia|]); destruct H|].
  split; [vm_compute; left; reflexivity|]. simpl. repeat split; auto. discriminate.
Qed.
Print Assumptions C48_descriptor_is_certified_refuted.

(** A run with a faulty replica, a transfer, its completion and a checkpoint that is too old. *)
Example old_ex : lastExec (run 1 0 150 [Complete 2]) = 300 /\ run 1 0 150 [Complete 2; Ckpt 1 (mkC 300 0 true 20 2)] = run 1 0 150 [Complete 2] /\ keys (run 1 0 150 [Complete 2; Ckpt 1 (mkC 450 0 true 20 2)]) = [450].
Proof. repeat split. Qed.
Definition ex : list event := [Ckpt 0 (mkC 150 0 true 99 1); Ckpt 1 (mkC 150 0 true 10 1); Ckpt 2 (mkC 150 0 false 10 1); Ckpt 2 (mkC 150 0 true 10 1)].
Example C48_run : valid 4 ex /\ collecting (run 1 0 150 ex) = false /\ lastExec (run 1 0 150 ex) < 150 /\
  collecting (run 1 0 150 (ex ++ map (fun r => Ckpt r (mkC 150 0 true 10 1)) [1; 2; 3])) = true /\
  (let s := run 1 0 150 (ex ++ [Ckpt 3 (mkC 150 0 true 10 1); Complete 2; Ckpt 1 (mkC 300 0 true 20 2); Ckpt 2 (mkC 300 0 true 20 2); Ckpt 3 (mkC 300 0 true 20 2)]) in collecting s = false /\ lastExec s = 300 /\ length (stored s) = 1).
Proof. split; [intros r m H; repeat (destruct H as [H|H]; [inversion H; lia|]); destruct H|]. vm_compute. repeat split; auto; lia. Qed.
