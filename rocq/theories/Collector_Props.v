(** C10: the signature collector. [ord] is the iteration order of an unordered map, an arbitrary permutation. *)
From Coq Require Import List Arith Bool Lia Permutation.
From Verif Require Import Collector_Model Collector_Proofs.
Import ListNotations.

(** Whatever arrives, in any order: a collector reports completion only with a signature that the verifier accepted for the digest
    it was told to expect. *)
Theorem C10_complete_is_verified k ord : (forall l, Permutation (ord l) l) -> forall ops s c,
  crun k ord cinit ops = Some s -> valid s = Some c ->
  exists q v d, exp s = Some (q, v, d) /\ verify k d c = Some true.
Proof. intros _ ops s c H V. destruct (crun_safe k ord ops cinit s (init_safe k) H) as (A & _). apply (A c V). Qed.
Print Assumptions C10_complete_is_verified.

(** A combined signature that the collector builds itself carries valid signatures of at least threshold different signers. *)
Theorem C10_own_combination k d shares c : runCombine k d shares = Some (JOk c) -> distinctSigners k d c (vk_thr k) /\ verify k d c = Some true.
Proof. apply runCombine_distinct. Qed.
Print Assumptions C10_own_combination.

(** If in addition no received combined signature repeats a signer id, completion means threshold different signers signed the digest.
    The hypothesis is not enforced by the code: see C10_one_signer_suffices_refuted. *)
Theorem C10_complete_distinct_partial k ord : (forall l, Permutation (ord l) l) -> forall ops s c,
  (forall x, In (AddFull x) ops \/ In (InitFull x) ops -> NoDup (map fst (cs x))) ->
  crun k ord cinit ops = Some s -> valid s = Some c ->
  exists q v d, exp s = Some (q, v, d) /\ distinctSigners k d c (vk_thr k).
Proof.
  intros _ ops s c N H V. destruct (crun_safe k ord ops cinit s (init_safe k) H) as (A & _). destruct (A c V) as (q & v & d & E & Vf).
  exists q, v, d. split; auto.
  destruct (crun_from k ord (fun x => NoDup (map fst (cs x)) \/ exists d, distinctSigners k d x (vk_thr k) /\ NoDup (map fst (cs x))) ops cinit s) as (Q & _); auto.
  - split; discriminate.
  - intros d0 ps c0 R. left. unfold runCombine in R. destruct (accumulate k d0 false ps) as [[sg inv]|] eqn:A1; [|discriminate]. pose proof A1 as A1'. apply accumulate_nodup_gen in A1'; [|constructor].
    destruct (vk_n k <? length sg); [discriminate|]. destruct (verify k d0 _) as [[|]|]; [inversion R; subst; auto| |discriminate].
    destruct (accumulate k d0 true ps) as [[sg2 inv2]|] eqn:A2; [|discriminate]. pose proof A2 as A2'. apply accumulate_nodup_gen in A2'; [|constructor].
    destruct (vk_n k <? length sg2); [discriminate|]. destruct (verify k d0 (mkCs sg2 true)) as [[|]|]; try discriminate. inversion R; subst; auto.
  - apply verify_distinct; auto. destruct (Q c V) as [Q1|(d1 & _ & Q1)]; auto.
Qed.
Print Assumptions C10_complete_distinct_partial.

(** The number of shares a collector counts never exceeds the number of different replicas that sent one, each replica is counted once,
    and no assertion of the collector fails, as long as the signatures are well formed and the init calls respect their contract. *)
Theorem C10_no_abort k ord : (forall l, Permutation (ord l) l) -> 1 <= vk_thr k -> forall ops, okRun k ord cinit ops ->
  exists s, crun k ord cinit ops = Some s /\ NoDup (map ri_rep (reps s)) /\ unknown s <= length (reps s).
Proof.
  intros P T ops O. destruct (run_inv k ord P ops cinit T (inv_init k) O) as (s & E & I). exists s. split; auto. destruct I as (I1 & _ & I3 & _). split; auto.
  etransitivity; [exact I3|]. unfold goods. clear. induction (reps s) as [|x l IH]; simpl; auto. destruct (negb (ri_bad x)); simpl; lia.
Qed.
Print Assumptions C10_no_abort.

(** Progress. If every share carries the signer id of the replica that sent it, then whenever the collector is idle and incomplete
    although it knows the digest, fewer than threshold of the stored shares are valid for that digest. *)
Definition validOwn (k : vkey) (d : nat) (x : rinfo) : bool := match ri_msg x with Some (Some (i, b)) => (i =? ri_rep x + 1) && vk_ok k i d b | _ => false end.
Theorem C10_progress_partial k ord : (forall l, Permutation (ord l) l) -> 1 <= vk_thr k -> forall ops, ownRun k ord cinit ops ->
  exists s, crun k ord cinit ops = Some s /\
  forall q v d, busy s = None -> valid s = None -> exp s = Some (q, v, d) -> length (filter (validOwn k d) (reps s)) < vk_thr k.
Proof.
  intros P T ops O. destruct (own_run k ord P ops cinit T (inv_init k) (pinv_init k) O) as (s & E & I & A & B & C). exists s. split; auto.
  intros q v d Bs Vs Es. destruct (C Bs Vs) as [C1 _]; [congruence|].
  assert (L : length (filter (validOwn k d) (reps s)) <= length (goods (reps s))); [|lia].
  unfold goods. assert (W : forall x, In x (reps s) -> validOwn k d x = true -> negb (ri_bad x) = true).
  { intros x Hx Vx. destruct (A x Hx) as (b & Em & Q). destruct (ri_bad x); auto. destruct (Q eq_refl) as (q' & v' & d' & E' & Ok). rewrite Es in E'. inversion E'; subst.
    unfold validOwn in Vx. rewrite Em in Vx. rewrite Ok, andb_false_r in Vx. discriminate. }
  revert W. clear. induction (reps s) as [|x l IH]; simpl; intros W; auto. assert (IH' := IH (fun y Hy => W y (or_intror Hy))).
  destruct (validOwn k d x) eqn:Vx; [rewrite (W x (or_introl eq_refl) Vx)|destruct (negb (ri_bad x))]; simpl; lia.
Qed.
Print Assumptions C10_progress_partial.

(** ... and the collector becomes idle after finitely many background jobs when nothing new arrives. *)
Theorem C10_jobs_end k ord : (forall l, Permutation (ord l) l) -> 1 <= vk_thr k -> forall ops, ownRun k ord cinit ops ->
  exists s n s', crun k ord cinit ops = Some s /\ crun k ord s (repeat JobDone n) = Some s' /\ busy s' = None.
Proof.
  intros P T ops O. destruct (own_run k ord P ops cinit T (inv_init k) (pinv_init k) O) as (s & E & I & PI).
  destruct (jobs_end k ord P (S (measure s)) s T I PI) as (s' & E' & B); [lia|]. eauto 7.
Qed.
Print Assumptions C10_jobs_end.

(** Refuted: a combined signature that repeats one signer's valid share threshold times is accepted, whatever the key and the threshold.
    EdDSAMultisigVerifier::verify counts entries and does not check that the ids differ. *)
Theorem C10_one_signer_suffices_refuted k d i b : 1 <= i <= vk_n k -> vk_ok k i d b = true ->
  verify k d (mkCs (repeat (i, b) (vk_thr k)) true) = Some true /\
  (forall m, 2 <= m -> ~ distinctSigners k d (mkCs (repeat (i, b) (vk_thr k)) true) m).
Proof.
  intros R O. split.
  - unfold verify. simpl. rewrite repeat_length, Nat.ltb_irrefl.
    assert (F : filter (counts k d) (repeat (i, b) (vk_thr k)) = repeat (i, b) (vk_thr k)).
    { assert (C : counts k d (i, b) = true). { unfold counts. simpl. rewrite O. destruct (Nat.eqb_spec i 0); [lia|]. destruct (Nat.ltb_spec i (S (vk_n k))); [auto|lia]. }
      induction (vk_thr k); cbn [repeat filter]; auto. rewrite C. f_equal. auto. }
    rewrite F, repeat_length, Nat.leb_refl. auto.
  - intros m M (S & ND & L & H). destruct S as [|x [|y S]]; simpl in L; [lia|lia|].
    assert (Q : forall z, In z (x :: y :: S) -> z = i) by (intros z Hz; destruct (H z Hz) as (_ & b' & Hb & _); apply repeat_spec in Hb; congruence).
    inversion ND; subst. apply H2. rewrite (Q x), (Q y); simpl; auto.
Qed.
Print Assumptions C10_one_signer_suffices_refuted.
(** ... and the collector reports completion with it, having received nothing from anybody else. *)
Theorem C10_complete_with_one_signer_refuted k ord d i b : 1 <= i <= vk_n k -> 1 <= vk_thr k -> vk_ok k i d b = true ->
  exists s, crun k ord cinit [SetExp 1 0 d; AddFull (mkCs (repeat (i, b) (vk_thr k)) true); JobDone] = Some s /\
  valid s = Some (mkCs (repeat (i, b) (vk_thr k)) true) /\ reps s = [].
Proof.
  intros R T O. cbn [crun cstep cinit exp busy valid cand reps unknown Nat.eqb]. unfold trySend. cbn [exp busy valid cand reps unknown].
  destruct (Nat.leb_spec (vk_thr k) 0); [lia|]. cbn [exp busy valid cand reps unknown]. destruct (C10_one_signer_suffices_refuted k d i b R O) as [V _]. rewrite V. eauto.
Qed.
Print Assumptions C10_complete_with_one_signer_refuted.

(** Concrete key: 4 signers, threshold 3; signature bytes of signer i are valid for digest d iff they equal 100 i + d. *)
Definition k4 : vkey := mkVk 4 3 (fun i d b => b =? 10 * i + d).
Definition sh (i d : nat) : pmsg := Some (i, 10 * i + d).
Definition idord (l : list rinfo) : list rinfo := l.
(** Non-vacuity: three good shares and one bad one complete; the hypotheses of the theorems above hold. *)
Example C10_example : exists s c, crun k4 idord cinit [AddPart 0 (Some (1, 0)); AddPart 1 (sh 2 7); AddPart 2 (sh 3 7); SetExp 1 0 7; JobDone; AddPart 3 (sh 4 7); JobDone] = Some s /\
  valid s = Some c /\ cs c = [(2, 27); (3, 37); (4, 47)] /\ map ri_bad (reps s) = [true; false; false; false] /\
  ownRun k4 idord cinit [AddPart 0 (Some (1, 0)); AddPart 1 (sh 2 7); AddPart 2 (sh 3 7); SetExp 1 0 7; JobDone; AddPart 3 (sh 4 7); JobDone] /\
  okRun k4 idord cinit [AddPart 0 (Some (1, 0)); AddPart 1 (sh 2 7); AddPart 2 (sh 3 7); SetExp 1 0 7; JobDone; AddPart 3 (sh 4 7); JobDone].
Proof.
  eexists. eexists. split; [vm_compute; reflexivity|]. split; [reflexivity|]. split; [reflexivity|]. split; [reflexivity|]. split.
  - cbn -[Nat.mul Nat.add]. repeat (split; try lia; try (eexists; reflexivity); auto).
  - vm_compute. repeat (split; auto; try lia; try (eexists; split; [reflexivity|simpl; lia])).
Qed.

(** Refuted: a share may carry another replica's signer id. Replica 3 sends a bad share with the id of replica 0; replica 0 is blamed for it,
    its good share is discarded, and the collector is idle and incomplete although it has received good shares of replicas 0, 1 and 2
    (threshold 3). *)
Theorem C10_wrong_replica_blamed_refuted : exists s, crun k4 idord cinit
    [SetExp 1 0 7; AddPart 3 (Some (1, 0)); AddPart 0 (sh 1 7); AddPart 1 (sh 2 7); JobDone; AddPart 2 (sh 3 7); JobDone; JobDone] = Some s /\
  valid s = None /\ busy s = None /\ length (filter (validOwn k4 7) (reps s)) = 3 /\ In (mkR 0 (Some (sh 1 7)) true) (reps s).
Proof. eexists. split; [vm_compute; reflexivity|]. split; [reflexivity|]. split; [reflexivity|]. split; [reflexivity|]. vm_compute. auto. Qed.
Print Assumptions C10_wrong_replica_blamed_refuted.
(** Refuted: a share with signer id 0 is never blamed; the background job runs again and again on the same shares, for ever, although
    enough good shares are stored. *)
Theorem C10_livelock_refuted : exists s, crun k4 idord cinit
    [AddPart 3 (Some (0, 0)); AddPart 0 (sh 1 7); AddPart 1 (sh 2 7); AddPart 2 (sh 3 7); SetExp 1 0 7] = Some s /\
  length (filter (validOwn k4 7) (reps s)) = 3 /\ forall n, crun k4 idord s (repeat JobDone n) = Some s.
Proof.
  eexists. split; [vm_compute; reflexivity|]. split; [reflexivity|]. induction n; [reflexivity|].
  cbn [repeat crun]. match goal with |- context [cstep ?a ?b ?c ?d] => replace (cstep a b c d) with (Some c) by (vm_compute; reflexivity) end. exact IHn.
Qed.
Print Assumptions C10_livelock_refuted.
(** Refuted: a share with signer id n+1 makes the background job read past the end of the verifiers (None: undefined behaviour). *)
Theorem C10_out_of_range_share_refuted :
  crun k4 idord cinit [SetExp 1 0 7; AddPart 3 (Some (5, 0)); AddPart 0 (sh 1 7); AddPart 1 (sh 2 7); JobDone] = None /\
  verifySingle k4 7 (5, 0) = None.
Proof. split; vm_compute; reflexivity. Qed.
Print Assumptions C10_out_of_range_share_refuted.
(** Refuted: a partial signature or a combined signature of a wrong length makes the job abort the process. *)
Theorem C10_bad_length_aborts_refuted :
  crun k4 idord cinit [SetExp 1 0 7; AddPart 3 None; AddPart 0 (sh 1 7); AddPart 1 (sh 2 7); JobDone] = None /\
  crun k4 idord cinit [SetExp 1 0 7; AddFull (mkCs [] false); JobDone] = None.
Proof. split; vm_compute; reflexivity. Qed.
Print Assumptions C10_bad_length_aborts_refuted.

(** C02 refuted for the multi-signature scheme of the code: the consensus model (Consensus_Model.v) lets a certificate exist only when
    enough different replicas signed, which is what C10_complete_distinct_partial gives when no received combined signature repeats a
    signer. With the verifier of the code one Byzantine primary, whose key signs two batches d and d' of the same view and sequence
    number, makes the prepare collectors and the commit collectors (digests [pd], [cd] of the two phases) of two replicas complete for
    the two different batches, without a share of anybody else: both replicas commit. *)
Theorem C02_forged_certificates_refuted k ord i (pd cd sig : nat -> nat) b b' q v : 1 <= i <= vk_n k -> 1 <= vk_thr k -> q <> 0 -> b <> b' ->
  (forall d, vk_ok k i d (sig d) = true) ->
  forall batch, batch = b \/ batch = b' -> forall phase, phase = pd \/ phase = cd ->
  exists s c, crun k ord cinit [SetExp q v (phase batch); AddFull c; JobDone] = Some s /\ valid s = Some c /\ reps s = [] /\
              forall x, In x (cs c) -> fst x = i.
Proof.
  intros R T Q _ O batch _ phase _. eexists. exists (mkCs (repeat (i, sig (phase batch)) (vk_thr k)) true).
  destruct (C10_one_signer_suffices_refuted k (phase batch) i (sig (phase batch)) R (O _)) as [V _].
  split; [|split; [|split]].
  - cbn [crun cstep cinit exp busy valid cand reps unknown]. destruct (Nat.eqb_spec q 0); [contradiction|]. unfold trySend. cbn [exp busy valid cand reps unknown].
    destruct (Nat.leb_spec (vk_thr k) 0); [lia|]. cbn [exp busy valid cand reps unknown]. rewrite V. reflexivity.
  - reflexivity.
  - reflexivity.
  - intros x Hx. apply repeat_spec in Hx. subst; auto.
Qed.
Print Assumptions C02_forged_certificates_refuted.
