(** Leaving a view (C41): theorems. [Leave_Model.run]: a cluster of N replicas; [bad] says which are faulty; they may send any message the signatures allow, to anybody, in any order,
    any number of times; correct replicas complain, rotate the primary, enter views and restart at any time. *)
From Coq Require Import List Arith Bool Lia.
From Verif Require Import Lib_Sets ViewChange_Model Leave_Model Leave_Proofs Leave_Proofs2 Leave_Proofs3.
Import ListNotations.

Definition faulty (N : nat) (bad : nat -> bool) : nat := length (filter bad (seq 0 N)).
(** A message with at least F + 1 valid complaints, of different replicas, of the view before the one it asks for. *)
Definition proven (F : nat) (m : vc) : Prop :=
  NoDup (map c_gen (v_comps m)) /\ F + 1 <= length (v_comps m) /\ forall c, In c (v_comps m) -> c_ok c = true /\ S (c_view c) = v_new m.

(** As long as no correct replica wants to leave a view from V on, and the primary of V is correct, no correct replica goes beyond V. *)
Theorem C41_nobody_forced_out N F C bad l V : 0 < N -> faulty N bad <= F -> bad (V mod N) = false ->
  (forall v, V <= v -> ~ wanted (run N F C bad l) v) -> forall i, i < N -> bad i = false -> view (reps (run N F C bad l) i) <= V.
Proof.
  intros HN HF HV HW i Hi Hb. assert (X := run_I N F C bad HN HF V l). apply (proj2 X i Hi Hb). split; [exact HV|]. intros j v Hv Hin. apply (HW v Hv). exists j. exact Hin.
Qed.
Print Assumptions C41_nobody_forced_out.

(** No assertion of a correct replica fails, whatever the faulty ones send. *)
Theorem C41_no_assertion_fails N F C bad l : 0 < N -> faulty N bad <= F -> failed (run N F C bad l) = false.
Proof. intros HN HF. apply (run_I N F C bad HN HF 0 l). Qed.
Print Assumptions C41_no_assertion_fails.

(** No view goes down, except by a restart; a restart keeps the last view the replica was active in, or the one after it. *)
Theorem C41_views_go_up N F C bad s e : (forall i, e <> Restart i) -> forall j, view (reps s j) <= view (reps (step N F C bad s e) j).
Proof. intros He. apply step_view. destruct e; auto. exact (He _ eq_refl). Qed.
Print Assumptions C41_views_go_up.
Theorem C41_restart N F C bad l i : 0 < N -> faulty N bad <= F -> i < N -> bad i = false ->
  let r := reps (run N F C bad l) i in let r' := fst (restart r) in
  last r <= view r' /\ view r' <= S (last r) /\ view r' <= view r /\ (active r = true -> active r' = true /\ view r' = view r).
Proof.
  intros HN HF Hi Hb. cbv zeta. assert (X := run_K N F C bad HN HF l i Hi Hb). destruct X as ((P1 & P2 & P3 & P4 & _) & _). unfold restart.
  destruct (active (reps (run N F C bad l) i)) eqn:Ac; cbn; [specialize (P4 eq_refl)|specialize (P3 eq_refl)]; repeat split; auto; try lia; try discriminate.
Qed.
Print Assumptions C41_restart.

(** F + 1 complaints about the view a replica is in, of different replicas, make it leave, whatever their order and whatever it had before. *)
Theorem C41_complaints_suffice F r l : NoDup (map c_gen l) -> F + 1 <= length l -> (forall c, In c l -> c_view c = view r) ->
  exists r' m, fold_left (fun x c => andThen x (onComplaint F c)) l (stay r) = Some (r', [m]) /\ view r' = S (view r) /\ v_new m = S (view r).
Proof.
  intros H1 H2 H3. assert (E : forall l x, fold_left (fun x c => andThen x (onComplaint F c)) l x = andThen x (deliver F l)).
  { clear. induction l as [|c l IH]; intros x; cbn [fold_left deliver]. { destruct x as [[r l]|]; cbn; [rewrite app_nil_r|]; reflexivity. }
    rewrite IH. destruct x as [[r k]|]; cbn; [|reflexivity]. destruct (onComplaint F c r) as [[r1 k1]|]; cbn; [|reflexivity]. destruct (deliver F l r1) as [[r2 k2]|]; cbn; [|reflexivity]. rewrite app_assoc. reflexivity. }
  rewrite E. destruct (deliver_moves F l r [] H1 (incl_nil_l _)) as (r' & m & E1 & E2 & E3); auto. { intros ->. cbn in H2. lia. }
  exists r', m. rewrite <- E2. unfold andThen, stay, bind. rewrite E1. cbn. rewrite E2. auto.
Qed.
Print Assumptions C41_complaints_suffice.

(** A correct replica that leaves because of complaints sends a message that proves them. *)
Theorem C41_leaving_sends_proof N F C bad l i c r' k : 0 < N -> faulty N bad <= F -> i < N -> bad i = false ->
  let s := run N F C bad l in
  genuine N bad s c = true -> onComplaint F c (reps s i) = Some (r', k) -> view r' <> view (reps s i) ->
  exists m, k = [m] /\ proven F m /\ v_new m = view r' /\ view r' = S (view (reps s i)).
Proof.
  intros HN HF Hi Hb. cbv zeta. intros G E Hv. assert (Kr := run_K N F C bad HN HF l i Hi Hb). set (s := run N F C bad l) in *. apply genuine_gen in G.
  unfold onComplaint in E. destruct (Nat.eqb_spec (c_view c) (view (reps s i))) as [Ec|]; [|injection E as <- _; contradiction].
  assert (Kr' : K N bad 0 (asked s ++ rotated s) (sent s) i (withComps (store c (comps (reps s i))) (reps s i))).
  { destruct Kr as (H0 & H1 & H2). split; [exact H0|]. split; [|exact H2]. cbn. apply store_ok; auto. eapply gen_mono; [|exact G]. apply incl_appl, incl_refl. }
  apply (try_carries N F bad _ _ _ _ 0 r' k Kr' E). destruct (quorum F (comps _)) eqn:Q; auto. exfalso. unfold try in E. rewrite Q in E. injection E as <- _. apply Hv. reflexivity.
Qed.
Print Assumptions C41_leaving_sends_proof.
Theorem C41_leaving_later_sends_proof N F C bad l i r' k : 0 < N -> faulty N bad <= F -> i < N -> bad i = false ->
  let s := run N F C bad l in
  try F (reps s i) = Some (r', k) -> view r' <> view (reps s i) -> exists m, k = [m] /\ proven F m /\ v_new m = view r' /\ view r' = S (view (reps s i)).
Proof.
  intros HN HF Hi Hb. cbv zeta. intros E Hv. assert (Kr := run_K N F C bad HN HF l i Hi Hb). set (s := run N F C bad l) in *.
  apply (try_carries N F bad _ _ _ _ 0 r' k Kr E). destruct (quorum F (comps _)) eqn:Q; auto. exfalso. unfold try in E. rewrite Q in E. injection E as <- _. apply Hv. reflexivity.
Qed.
Print Assumptions C41_leaving_later_sends_proof.

(** Such a message takes along every correct replica which is behind and does not ignore it, and has not got the complaints to leave its own view; that replica sends on a message that proves the same. *)
Theorem C41_proof_moves_others N F C bad l i g m : 0 < N -> faulty N bad <= F -> i < N -> bad i = false ->
  let s := run N F C bad l in let r := reps s i in
  mayGet N bad s (GetVc i g m) = true -> proven F m -> ignored N g m r = false -> view r < v_new m -> length (comps r) <= F ->
  exists r' k, onVc N F C i g m r = Some (r', k) /\ v_new m <= view r' /\ exists m', In m' k /\ proven F m' /\ v_new m' = v_new m.
Proof.
  intros HN HF Hi Hb. cbv zeta. intros HM HP Hg Hv Hq. assert (Kr := run_K N F C bad HN HF l i Hi Hb). set (s := run N F C bad l) in *.
  apply (onVc_carries N F C bad 0 _ _ i g _ m Kr); auto; [|unfold quorum; apply Nat.leb_gt; lia].
  intros c Hc Ok. cbn in HM. apply andb_true_iff in HM as [_ HM]. rewrite forallb_forall in HM. specialize (HM c Hc). rewrite Ok in HM. cbn in HM. apply genuine_gen in HM. eapply gen_mono; [|exact HM]. apply incl_appl, incl_refl.
Qed.
Print Assumptions C41_proof_moves_others.

(** F + 1 replicas that ask for w or more are followed, complaints or not. *)
Theorem C41_follows_quorum N F C bad l i g m r' k w L : 0 < N -> faulty N bad <= F -> i < N -> bad i = false ->
  let r := reps (run N F C bad l) i in
  ignored N g m r = false -> onVc N F C i g m r = Some (r', k) ->
  NoDup L -> F + 1 <= length L -> (forall x, In x L -> x < N /\ x <> i /\ exists p, vcs r' x = Some p /\ w <= v_new p) -> w <= view r'.
Proof.
  intros HN HF Hi Hb. cbv zeta. intros Hg E H1 H2 H3. assert (Kr := run_K N F C bad HN HF l i Hi Hb). destruct Kr as ((_ & P2 & _) & _). eapply onVc_follows; eauto.
Qed.
Print Assumptions C41_follows_quorum.

(** A correct replica is active in a view after the first only if 2F + 2C + 1 replicas are faulty or signed a message for it or a higher one. *)
Theorem C41_active_views_are_backed N F C bad l i : 0 < N -> faulty N bad <= F -> i < N -> bad i = false ->
  let s := run N F C bad l in active (reps s i) = true -> 0 < view (reps s i) ->
  exists L, NoDup L /\ 2 * F + 2 * C + 1 <= length L /\ forall g, In g L -> g < N /\ (bad g = true \/ exists v, view (reps s i) <= v /\ In (g, v) (sent s)).
Proof.
  intros HN HF Hi Hb. cbv zeta. intros Ha Hv. assert (Kr := run_K N F C bad HN HF l i Hi Hb). assert (Jr := run_J N F C bad HN HF l i Hi Hb). destruct Kr as ((P1 & P2 & _ & P4 & _) & _).
  specialize (P4 Ha). assert (E : pending (reps (run N F C bad l) i) = view (reps (run N F C bad l) i)) by lia. destruct Jr as [J|J]; [lia|]. rewrite E in J. exact J.
Qed.
Print Assumptions C41_active_views_are_backed.

(** * What does not hold. *)
Definition badId (k i : nat) : bool := i =? k.
Definition co (g v : nat) : complaint := mkCo g v true.
(** A NewView message of a faulty primary for a later view makes a replica ignore proofs for an earlier view of this primary. *)
Theorem C41_proof_never_ignored_refuted : exists l i g m, let s := run 4 1 0 (badId 1) l in let r := reps s i in
  faulty 4 (badId 1) <= 1 /\ i < 4 /\ badId 1 i = false /\ badId 1 g = false /\ mayGet 4 (badId 1) s (GetVc i g m) = true /\ proven 1 m /\ view r < v_new m /\ onVc 4 1 0 i g m r = Some (r, []).
Proof.
  exists [Complain 0; Complain 3; GetComplaint 0 (co 3 0); GetNewView 2 1 5 []], 2, 0, (mkVc 1 [co 0 0; co 3 0]). cbv zeta.
  repeat split; try (vm_compute; try lia; reflexivity); cbn; try lia.
  - repeat constructor; cbn; intuition discriminate.
  - destruct H as [<-|[<-|[]]]; reflexivity.
  - destruct H as [<-|[<-|[]]]; reflexivity.
Qed.
Print Assumptions C41_proof_never_ignored_refuted.

(** An old message sent again replaces a newer one of the same correct replica: a replica that had enough messages for its view has not any more. *)
Theorem C41_newer_message_stays_refuted : exists l i g m r', let s := run 4 1 0 (badId 3) l in let r := reps s i in
  faulty 4 (badId 3) <= 1 /\ mayGet 4 (badId 3) s (GetVc i g m) = true /\ badId 3 g = false /\ vcs r g = Some (mkVc 2 []) /\ snd (relevant 4 1 0 i r) = view r /\
  onVc 4 1 0 i g m r = Some (r', []) /\ vcs r' g = Some (mkVc 1 []) /\ snd (relevant 4 1 0 i r') <> view r'.
Proof.
  exists [Rotate 0; Rotate 0; Rotate 1; Rotate 1; Rotate 2; Rotate 2; GetVc 0 1 (mkVc 2 []); GetVc 0 2 (mkVc 2 [])], 0, 1, (mkVc 1 []).
  eexists. cbv zeta. split; [vm_compute; lia|]. split; [vm_compute; reflexivity|]. split; [vm_compute; reflexivity|]. split; [vm_compute; reflexivity|]. split; [vm_compute; reflexivity|].
  split; [vm_compute; reflexivity|]. split; [vm_compute; reflexivity|]. vm_compute. discriminate.
Qed.
Print Assumptions C41_newer_message_stays_refuted.

(** A restarted replica may be in a view before one it has announced, and ask for it with complaints that prove nothing. *)
Theorem C41_restart_keeps_announcements_refuted : exists l i m, let s := run 4 1 0 (badId 3) l in let r := reps s i in
  faulty 4 (badId 3) <= 1 /\ badId 3 i = false /\ i < 4 /\ In (i, 3) (sent s) /\ view r = 3 /\ view (fst (restart r)) = 1 /\ snd (restart r) = [m] /\ v_new m = 1 /\ v_comps m = [co 0 2; co 1 2] /\ ~ proven 1 m.
Proof.
  exists [Rotate 0; Rotate 0; Rotate 1; Rotate 1; Complain 0; Complain 1; GetComplaint 0 (co 1 2); GetVc 2 0 (mkVc 3 [co 0 2; co 1 2])], 2.
  eexists. cbv zeta. repeat (split; [first [vm_compute; reflexivity|vm_compute; lia|vm_compute; tauto]|]). intros (_ & _ & H). vm_compute in H. destruct (H (co 0 2)) as [_ X]; [left; reflexivity|]. vm_compute in X. discriminate.
Qed.
Print Assumptions C41_restart_keeps_announcements_refuted.

(** * The hypotheses are met: 4 replicas, the last is faulty; 0 leaves view 0 with a complaint of the faulty one, 1 and 2 follow its message, and they enter view 1 (primary 1); then nobody leaves. *)
Definition exRun : list event :=
  [Complain 0; GetComplaint 0 (co 3 0); GetVc 1 0 (mkVc 1 [co 0 0; co 3 0]); GetVc 2 0 (mkVc 1 [co 0 0; co 3 0]); GetVc 1 2 (mkVc 1 [co 0 0; co 3 0]); GetVc 0 1 (mkVc 1 [co 0 0; co 3 0]); GetVc 0 2 (mkVc 1 []);
   Enter 1 true; Enter 0 true; GetVc 1 3 (mkVc 7 []); GetComplaint 0 (co 3 1); GetVc 0 3 (mkVc 1000 [co 3 999])].
Example C41_nonvacuous :
  let s := run 4 1 0 (badId 3) exRun in
  faulty 4 (badId 3) = 1 /\ badId 3 (1 mod 4) = false /\ asked s = [(0, 0)] /\ rotated s = [] /\ sent s = [(0, 1); (1, 1); (2, 1)] /\
  map (fun i => (view (reps s i), active (reps s i))) [0; 1; 2] = [(1, true); (1, true); (1, false)].
Proof. vm_compute. repeat split. Qed.
Example C41_nobody_forced_out_nonvacuous : forall v, 1 <= v -> ~ wanted (run 4 1 0 (badId 3) exRun) v.
Proof. intros v Hv (i & Hi). vm_compute in Hi. destruct Hi as [E|[]]. injection E as _ <-. lia. Qed.
Example C41_leaving_sends_proof_nonvacuous :
  let s := run 4 1 0 (badId 3) [Complain 0] in genuine 4 (badId 3) s (co 3 0) = true /\
  exists r', onComplaint 1 (co 3 0) (reps s 0) = Some (r', [mkVc 1 [co 0 0; co 3 0]]) /\ view r' <> view (reps s 0).
Proof. cbv zeta. split; [reflexivity|]. eexists. split; [reflexivity|]. discriminate. Qed.
Example C41_leaving_later_nonvacuous : exists r' m, try 1 (reps (run 4 1 0 (badId 3) [GetComplaint 0 (co 3 0); Complain 0]) 0) = Some (r', [m]) /\ view r' = 1.
Proof. do 2 eexists. split; reflexivity. Qed.
Example C41_proof_moves_others_nonvacuous :
  let s := run 4 1 0 (badId 3) [Rotate 0; Rotate 1; Complain 0; GetComplaint 0 (co 3 1)] in let m := mkVc 2 [co 0 1; co 3 1] in
  mayGet 4 (badId 3) s (GetVc 2 0 m) = true /\ proven 1 m /\ ignored 4 0 m (reps s 2) = false /\ view (reps s 2) = 0 /\ comps (reps s 2) = [].
Proof. cbv zeta. repeat split; try reflexivity; cbn; try lia. - repeat constructor; cbn; intuition discriminate. - destruct H as [<-|[<-|[]]]; reflexivity. - destruct H as [<-|[<-|[]]]; reflexivity. Qed.
Example C41_follows_quorum_nonvacuous :
  let r := reps (run 4 1 0 (badId 3) [Rotate 1; GetVc 2 1 (mkVc 1 [])]) 2 in
  exists r' k, ignored 4 3 (mkVc 1 []) r = false /\ onVc 4 1 0 2 3 (mkVc 1 []) r = Some (r', k) /\ (forall x, In x [1; 3] -> x < 4 /\ x <> 2 /\ exists p, vcs r' x = Some p /\ 1 <= v_new p) /\ view r = 0 /\ view r' = 1.
Proof. cbv zeta. do 2 eexists. split; [reflexivity|]. split; [vm_compute; reflexivity|]. split; [|split; reflexivity]. intros x [<-|[<-|[]]]; (split; [lia|split; [lia|]]); vm_compute; eexists; (split; [reflexivity|cbn; lia]). Qed.
Example C41_backed_nonvacuous : let s := run 4 1 0 (badId 3) exRun in active (reps s 1) = true /\ view (reps s 1) = 1. Proof. split; reflexivity. Qed.
