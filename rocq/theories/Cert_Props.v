(** C11: message certificates. Every statement is for an arbitrary message type and equivalence, number of replicas, quorum size and
    sequence of additions and resets. *)
From Coq Require Import List Arith Bool Lia.
From Verif Require Import Cert_Model Cert_Proofs.
Import ListNotations.

Section P.
Context {M : Type}.
Variable eqv : M -> M -> bool.
Hypothesis EQ : equivalence eqv.

(** Without a trusted local message (client replies, state transfer summaries, read-only replicas' checkpoints): the certificate is
    complete exactly when at least [required] different replicas sent equivalent messages since the last reset. *)
Theorem C11_complete_iff keep n required selfId : 2 <= n -> 2 <= required -> forall ops, senders n ops ->
  exists s, crun M eqv false keep n required selfId (cert0 M) ops = Some s /\
  (complete M s = true <-> exists m, required <= support eqv (received [] ops) m).
Proof.
  intros N R ops S. destruct (run_inv eqv false keep n required selfId EQ R N ops (cert0 M) (init_inv eqv false keep n required selfId R N) S) as (s & E & I & Em).
  exists s. split; auto. rewrite (peer_complete eqv false keep n required selfId EQ R N s eq_refl I), Em. reflexivity.
Qed.

(** The message it hands out was sent by at least maxFails+1 different replicas; once complete, by at least [required] (the state
    transfer asserts that), and no dangling representative is dereferenced. *)
Theorem C11_best_message keep n maxFails required selfId : 2 <= n -> 2 <= required -> forall ops, senders n ops ->
  exists s o, crun M eqv false keep n required selfId (cert0 M) ops = Some s /\ bestMsg M maxFails s = Some o /\
  (forall m, o = Some m -> maxFails + 1 <= support eqv (received [] ops) m) /\
  (complete M s = true -> maxFails < required -> exists m, o = Some m /\ required <= support eqv (received [] ops) m).
Proof.
  intros N R ops S. destruct (run_inv eqv false keep n required selfId EQ R N ops (cert0 M) (init_inv eqv false keep n required selfId R N) S) as (s & E & I & Em).
  destruct (peer_best eqv false keep n maxFails required selfId R N s eq_refl I) as (o & Eo & Q). exists s, o. split; auto. split; auto. rewrite Em in Q. destruct o as [m|].
  - split; [intros m' H; inversion H; subst; tauto|]. intros C _. exists m. destruct Q; auto.
  - split; [discriminate|]. intros C L. specialize (Q C). lia.
Qed.
(** Hence it is a message of a correct replica, up to equivalence. *)
Theorem C11_best_is_correct keep n maxFails required selfId : 2 <= n -> 2 <= required -> forall ops, senders n ops -> forall bad, length bad <= maxFails ->
  forall s m, crun M eqv false keep n required selfId (cert0 M) ops = Some s -> bestMsg M maxFails s = Some (Some m) ->
  exists r m', ~ In r bad /\ In (r, m') (received [] ops) /\ eqv m m' = true.
Proof.
  intros N R ops S bad LB s m E Eb. destruct (run_inv eqv false keep n required selfId EQ R N ops (cert0 M) (init_inv eqv false keep n required selfId R N) S) as (s' & E' & I & Em).
  rewrite E in E'. inversion E'; subst s'. destruct (peer_best eqv false keep n maxFails required selfId R N s eq_refl I) as (o & Eo & Q). rewrite Eb in Eo. inversion Eo; subst o. destruct Q as [Q _]. change (received (msgs M (cert0 M)) ops) with (received (M:=M) [] ops) in Em. rewrite Em in Q.
  destruct I as (ND & _). rewrite Em in ND. unfold support in Q.
  destruct (existsb (fun x => negb (existsb (Nat.eqb (fst x)) bad)) (filter (fun x => eqv m (snd x)) (received [] ops))) eqn:X.
  - apply existsb_exists in X. destruct X as ([r m'] & Hx & Nx). apply filter_In in Hx. destruct Hx as [Hx Ex]. exists r, m'. split; auto.
    apply negb_true_iff in Nx. intros W. assert (existsb (Nat.eqb (fst (r, m'))) bad = true) by (apply existsb_exists; exists r; split; auto; apply Nat.eqb_refl). congruence.
  - exfalso. assert (L : length (map fst (filter (fun x => eqv m (snd x)) (received [] ops))) <= length bad).
    { apply NoDup_incl_length.
      - clear - ND. revert ND. generalize (received (M:=M) [] ops) as l. induction l as [|x l IH]; simpl; intros ND; [constructor|]. inversion ND; subst. destruct (eqv m (snd x)); simpl; auto. constructor; auto.
        intros W. apply H1. apply in_map_iff in W. destruct W as (y & <- & Hy). apply filter_In in Hy. apply in_map. tauto.
      - intros r Hr. apply in_map_iff in Hr. destruct Hr as (x & <- & Hx). rewrite <- not_true_iff_false, existsb_exists in X.
        destruct (existsb (Nat.eqb (fst x)) bad) eqn:Y; [apply existsb_exists in Y; destruct Y as (y & Hy & E0); apply Nat.eqb_eq in E0; subst; auto|].
        exfalso. apply X. exists x. split; auto. rewrite Y. auto. }
    rewrite map_length in L. lia.
Qed.

(** A certificate is not reported inconsistent as long as at most maxFails replicas deviate. *)
Theorem C11_not_inconsistent keep n maxFails required selfId : 2 <= n -> 2 <= required -> forall ops, senders n ops -> forall bad, NoDup bad -> length bad <= maxFails ->
  (forall r m r' m', In (r, m) (received [] ops) -> In (r', m') (received [] ops) -> ~ In r bad -> ~ In r' bad -> eqv m m' = true) ->
  exists s, crun M eqv false keep n required selfId (cert0 M) ops = Some s /\ isInconsistent M maxFails s = false.
Proof.
  intros N R ops S bad NB LB H. destruct (run_inv eqv false keep n required selfId EQ R N ops (cert0 M) (init_inv eqv false keep n required selfId R N) S) as (s & E & I & Em).
  exists s. split; auto. unfold isInconsistent. apply Nat.ltb_ge. eapply (peer_classes eqv false keep n maxFails required selfId EQ R N s eq_refl I bad); auto.
  intros [r m] [r' m'] Hx Hy. simpl. rewrite Em in Hx, Hy. eapply H; eauto.
Qed.

(** With a trusted and required local message (checkpoints of a committing replica). Full claim: complete only if [required] different
    replicas including the local one agree. What the code gives: the local message is there, and at least required-1 different replicas,
    the local one among them, agree with it; required of them if no equivalent message came before the local one. *)
Theorem C11_self_complete_partial keep n required selfId : 2 <= n -> 2 <= required -> forall ops, senders n ops ->
  exists s, crun M eqv true keep n required selfId (cert0 M) ops = Some s /\
  (complete M s = true -> exists a m b, received [] ops = a ++ (selfId, m) :: b /\ required - 1 <= support eqv (received [] ops) m /\
                                     (support eqv a m = 0 -> required <= support eqv (received [] ops) m)).
Proof.
  intros N R ops S. destruct (run_inv eqv true keep n required selfId EQ R N ops (cert0 M) (init_inv eqv true keep n required selfId R N) S) as (s & E & I & Em).
  exists s. split; auto. intros C. destruct (self_complete eqv true keep n required selfId R N s eq_refl I) as (A & _). destruct (A C) as (a & m & b & E1 & L). rewrite Em in *.
  change (received (msgs M (cert0 M)) ops) with (received (M:=M) [] ops) in *. exists a, m, b. split; auto. destruct (Nat.eqb_spec (support eqv a m) 0); split; intros; lia.
Qed.
(** Enough agreement always completes the certificate. *)
Theorem C11_self_complete_if_enough keep n required selfId : 2 <= n -> 2 <= required -> forall ops, senders n ops ->
  exists s, crun M eqv true keep n required selfId (cert0 M) ops = Some s /\
  (forall m, In (selfId, m) (received [] ops) -> required <= support eqv (received [] ops) m -> complete M s = true).
Proof.
  intros N R ops S. destruct (run_inv eqv true keep n required selfId EQ R N ops (cert0 M) (init_inv eqv true keep n required selfId R N) S) as (s & E & I & Em).
  exists s. split; auto. destruct (self_complete eqv true keep n required selfId R N s eq_refl I) as (_ & A & _). rewrite Em in A. exact A.
Qed.
(** Refuted in general: whenever one equivalent message came before the local one, required-1 agreeing replicas complete the certificate
    and n-1 make it "full", because addSelfMsg counts the local message twice. *)
Theorem C11_self_counted_twice_refuted n required selfId : 2 <= n -> 2 <= required -> forall ops, senders n ops -> forall a m b,
  received [] ops = a ++ (selfId, m) :: b -> 1 <= support eqv a m ->
  exists s, crun M eqv true true n required selfId (cert0 M) ops = Some s /\
  (required - 1 <= support eqv (received [] ops) m -> complete M s = true) /\ (n - 1 <= support eqv (received [] ops) m -> full M s = true).
Proof.
  intros N R ops S a m b Er P. destruct (run_inv eqv true true n required selfId EQ R N ops (cert0 M) (init_inv eqv true true n required selfId R N) S) as (s & E & I & Em).
  exists s. split; auto. destruct (self_sufficient eqv true true n required selfId R N s eq_refl I a m b) as (A & B); [rewrite Em; auto|]. rewrite Em in A, B.
  change (received (msgs M (cert0 M)) ops) with (received (M:=M) [] ops) in *. destruct (Nat.eqb_spec (support eqv a m) 0); [lia|]. split; [intros; apply A; lia|intros; apply B; auto; lia].
Qed.
End P.
Print Assumptions C11_complete_iff.
Print Assumptions C11_best_message.
Print Assumptions C11_best_is_correct.
Print Assumptions C11_not_inconsistent.
Print Assumptions C11_self_complete_partial.
Print Assumptions C11_self_complete_if_enough.
Print Assumptions C11_self_counted_twice_refuted.

(** Non-vacuity, and the refutation made concrete: n = 4, f = 1, quorum 3 (2f+c+1), local replica 0. One checkpoint message of replica 1,
    possibly Byzantine, and then the own one: the checkpoint is stable. Replicas 1, 2 and then the own one: it is stable on all n. *)
Definition neq : nat -> nat -> bool := Nat.eqb.
Lemma neq_equiv : equivalence neq.
Proof. unfold neq. split; [apply Nat.eqb_refl|]. split; [intros; rewrite Nat.eqb_sym; auto|]. intros a b c H1 H2. apply Nat.eqb_eq in H1, H2. subst. apply Nat.eqb_refl. Qed.
Theorem C11_checkpoint_stable_with_two_refuted :
  (exists s, crun nat neq true true 4 3 0 (cert0 nat) [Add nat 1 7; Add nat 0 7] = Some s /\ complete nat s = true) /\
  (exists s, crun nat neq true true 4 3 0 (cert0 nat) [Add nat 1 7; Add nat 2 7; Add nat 0 7] = Some s /\ full nat s = true).
Proof. split; eexists; (split; [vm_compute; reflexivity|reflexivity]). Qed.
Print Assumptions C11_checkpoint_stable_with_two_refuted.
(** The copy used by the state transfer reports an inconsistency although only one replica deviates (f = 1). *)
Theorem C11_st_inconsistent_refuted : exists s, crun nat neq false false 4 2 9 (cert0 nat) [Add nat 1 7; Add nat 2 8] = Some s /\ isInconsistentSt nat 1 s = true.
Proof. eexists. split; [vm_compute; reflexivity|reflexivity]. Qed.
Print Assumptions C11_st_inconsistent_refuted.
Example C11_example : exists s, crun nat neq false true 4 3 9 (cert0 nat) [Add nat 1 7; Add nat 1 7; Add nat 2 8; Reset nat; Add nat 3 8; Add nat 1 7; Add nat 2 7; Add nat 1 8; Add nat 0 7] = Some s /\
  complete nat s = true /\ bestMsg nat 1 s = Some (Some 7) /\ full nat s = false /\ equivalence neq /\
  senders 4 [Add nat 1 7; Add nat 1 7; Add nat 2 8; Reset nat; Add nat 3 8; Add nat 1 7; Add nat 2 7; Add nat 1 8; Add nat 0 7].
Proof.
  eexists. split; [vm_compute; reflexivity|]. split; auto. split; auto. split; auto. split; [exact neq_equiv|].
  intros r m H. simpl in H. repeat (destruct H as [H|H]; [inversion H; lia|]). destruct H.
Qed.
(** A single share is never enough without a trusted message when the quorum is 1: the class just created is not examined. *)
Example C11_quorum_of_one : exists s, crun nat neq false true 4 1 9 (cert0 nat) [Add nat 1 7] = Some s /\ complete nat s = false.
Proof. eexists. split; [vm_compute; reflexivity|reflexivity]. Qed.
