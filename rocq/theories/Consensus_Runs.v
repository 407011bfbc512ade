(** Sufficient conditions for the hypotheses of the survival theorems, and concrete executions. *)
From Coq Require Import List Arith Lia Bool.
From Verif Require Import Lib_Sets Quorum_Model Quorum_Proofs ViewChange_Model ViewChange_Proofs Consensus_Model Consensus_Inv Consensus_Pres Consensus_Proofs.
Import ListNotations.

Lemma calcLB_ge F C Q x lb : calcLB F C (arr Q) = Some lb -> F + 1 <= geReports x Q -> x <= lb.
Proof.
  intros H G. apply calcLB_spec in H. rewrite present_arr in H. destruct H as (_ & _ & H & _).
  destruct (le_lt_dec x lb); auto. unfold geReports, gtReports in *.
  assert (length (filter (fun m => x <=? vc_ls m) Q) <= length (filter (fun m => lb <? vc_ls m) Q)); [|lia].
  apply filter_length_mono. intros m _ E. apply Nat.leb_le in E. apply Nat.ltb_lt. lia.
Qed.
Lemma stable_enough k g t : validConfig k -> INV k g -> cf k + 1 <= t -> stableReported k g t.
Proof.
  intros V I Ht i en x Hi Hen H. destruct (ri_ents _ _ _ _ (proj1 (proj2 I) i Hi) en Hen) as [_ _ (lb & E & _) _].
  exists lb; split; auto. eapply calcLB_ge; eauto. unfold honestReports in H. unfold geReports.
  eapply Nat.le_trans; [|apply filter_length_mono with (p := fun m => negb (mem (vc_from m) (cbyz k)) && (x <=? vc_ls m))]; [lia|].
  intros m _ E'. apply andb_true_iff in E'. tauto.
Qed.
Lemma stable_zero k g t : validConfig k -> INV k g -> 0 < t -> (forall i, correct k i -> r_ls (get g i) = 0) -> stableReported k g t.
Proof.
  intros V I Ht HZ i en x Hi Hen H. destruct (ri_ents _ _ _ _ (proj1 (proj2 I) i Hi) en Hen) as [_ (_ & _ & QM) (lb & E & _) _].
  exists lb; split; auto. unfold honestReports in H. destruct (length_pos_In _ (Nat.lt_le_trans _ _ _ Ht H)) as (m & Hm).
  apply filter_In in Hm. destruct Hm as [Hm Hb]. apply andb_true_iff in Hb. destruct Hb as [Hb Hx]. apply negb_true_iff, mem_nIn in Hb. apply Nat.leb_le in Hx.
  destruct (QM m Hm) as (Q1 & _ & Q3). assert (Hc : correct k (vc_from m)) by (split; auto).
  destruct (ri_vcs _ _ _ _ (proj1 (proj2 I) _ Hc) m Q3) as (_ & _ & L & _). rewrite (HZ _ Hc) in L. lia.
Qed.
Lemma consistent_crash k g : INV k g -> cbyz k = [] -> consistentEntries k g.
Proof.
  intros I HB i en Hi Hen m1 m2 e1 e2 v ok1 ok2 M1 M2 E1 E2 _ _ C1 C2.
  destruct (ri_ents _ _ _ _ (proj1 (proj2 I) i Hi) en Hen) as [_ (_ & _ & QM) _ _].
  assert (HH : forall m e ok, In m (n_Q en) -> In e (vc_elems m) -> e_cert e = Some (v, ok) -> ok = true).
  { intros m e ok Hm He Hc. destruct (QM m Hm) as (Q1 & _ & Q3). assert (Hco : correct k (vc_from m)) by (split; [auto|rewrite HB; auto]).
    destruct (ri_vcs _ _ _ _ (proj1 (proj2 I) _ Hco) m Q3) as (_ & _ & _ & _ & u & W). destruct (vi_elem _ _ _ _ _ W e He) as (_ & _ & _ & P). eapply P; eauto. }
  rewrite (HH _ _ _ M1 E1 C1), (HH _ _ _ M2 E2 C2). auto.
Qed.

(** Agreement of any two commits; [t] as in stableReported. *)
Lemma commit_cases k g i v s d : INV k g -> committed k g i v s d ->
  exists fast : bool, if fast then FastQ k g v s d /\ d <> nullDigest else SlowQ k g v s d.
Proof. intros I [Hc H]. destruct (ri_dec _ _ _ _ (proj1 (proj2 I) i Hc) _ _ _ H) as [_ [A|A]]; [exists false; auto|exists true; auto]. Qed.
Lemma stable_weaken k g t t' : t <= t' -> stableReported k g t -> stableReported k g t'.
Proof. intros H S i en x Hi Hen Hh. eapply S; eauto. lia. Qed.

Lemma survives_lemma k g i j v v' s d d' : validConfig k -> INV k g -> ctime k = false -> 1 <= cf k + cc k ->
  consistentEntries k g -> stableReported k g (cf k - length (cbyz k) + 1) -> d <> nullDigest \/ coversAt k g s ->
  committed k g i v s d -> committed k g j v' s d' -> v <= v' -> d' = d.
Proof.
  intros V I HT HF HC HS HN Hd Hd' Hv. destruct (commit_cases _ _ _ _ _ _ I Hd) as (fast & Hq).
  eapply (survive k g V I HT HC HF v s d fast Hq); eauto. unfold thr. destruct fast; auto. eapply stable_weaken; [|exact HS]. destruct V as (_ & _ & L). lia.
Qed.
Lemma survives_slow_lemma k g j v v' s d d' : validConfig k -> INV k g -> ctime k = false -> 1 <= cf k + cc k ->
  consistentEntries k g -> length (cbyz k) <= cc k -> d <> nullDigest \/ coversAt k g s ->
  slowQuorum (cf k) (cc k) <= length (committers k g (v, s, d)) -> committed k g j v' s d' -> v <= v' -> d' = d.
Proof.
  intros V I HT HF HC HB HN Hq Hd' Hv. eapply (survive k g V I HT HC HF v s d false Hq); eauto. unfold thr.
  apply stable_enough; auto. lia.
Qed.
Lemma agree_lemma k g i j v v' s d d' : validConfig k -> INV k g -> ctime k = false -> 1 <= cf k + cc k ->
  consistentEntries k g -> stableReported k g (cf k - length (cbyz k) + 1) -> coversAt k g s ->
  committed k g i v s d -> committed k g j v' s d' -> d' = d.
Proof.
  intros V I HT HF HC HS HN Hd Hd'. destruct (le_lt_dec v v').
  - eapply survives_lemma; eauto.
  - symmetry. eapply survives_lemma; eauto. lia.
Qed.
Lemma executed_committed k g i s d : INV k g -> correct k i -> executed g i s = Some d -> exists j v, committed k g j v s d.
Proof.
  intros I Hi. unfold executed. destruct (Nat.eqb_spec s 0); [discriminate|]. intros H.
  destruct (ri_hist _ _ _ _ (proj1 (proj2 I) i Hi)) as [_ HH]. destruct (HH _ _ H) as (j & v & Hj & Hd). exists j, v. split; auto.
  replace s with (S (s - 1)) by lia. auto.
Qed.
Lemma hist_length k g i : INV k g -> correct k i -> length (r_hist (get g i)) = r_exec (get g i).
Proof. intros I Hi. apply (ri_hist _ _ _ _ (proj1 (proj2 I) i Hi)). Qed.

(** ** Concrete runs *)
Definition lastVC (og : option gstate) (i : nat) : vcmsg :=
  match og with Some g => hd (mkVC 0 0 0 []) (r_vcs (get g i)) | None => mkVC 0 0 0 [] end.
Definition chk (og : option gstate) (p : gstate -> bool) : bool := match og with Some g => p g | None => false end.
Lemma chk_some og p : chk og p = true -> exists g, og = Some g /\ p g = true.
Proof. destruct og; simpl; [eauto|discriminate]. Qed.
Lemma chk_reach k l p : chk (run k (init k) l) p = true -> exists g, reachable k g /\ p g = true.
Proof. intros H. apply chk_some in H. destruct H as (g & E & H). exists g. split; auto. exists l. exact E. Qed.
Definition hasDec (i v s d : nat) (g : gstate) : bool := mem3 (v, s, d) (r_dec (get g i)).
Lemma hasDec_ok k g i v s d : i < cn k -> ~ In i (cbyz k) -> hasDec i v s d g = true -> committed k g i v s d.
Proof. intros A B H. split; [split; auto|]. apply mem3_In; auto. Qed.

(** Boolean check of consistentSigs. *)
Definition consB (Q : list vcmsg) : bool :=
  forallb (fun m1 => forallb (fun m2 => forallb (fun e1 => forallb (fun e2 =>
    match e_cert e1, e_cert e2 with
    | Some (v1, ok1), Some (v2, ok2) => negb ((e_seq e1 =? e_seq e2) && (e_dig e1 =? e_dig e2) && (v1 =? v2)) || eqb ok1 ok2
    | _, _ => true end) (vc_elems m2)) (vc_elems m1)) Q) Q.
Lemma consB_ok Q : consB Q = true -> consistentSigs Q.
Proof.
  unfold consB. rewrite forallb_forall. intros H m1 m2 e1 e2 v ok1 ok2 M1 M2 E1 E2 Es Ed C1 C2.
  specialize (H m1 M1). rewrite forallb_forall in H. specialize (H m2 M2). rewrite forallb_forall in H. specialize (H e1 E1).
  rewrite forallb_forall in H. specialize (H e2 E2). rewrite C1, C2, Es, Ed, !Nat.eqb_refl in H. simpl in H. apply eqb_prop in H. auto.
Qed.
Definition consEntB (k : config) (g : gstate) : bool :=
  forallb (fun i => mem i (cbyz k) || forallb (fun en => consB (n_Q en)) (r_ents (get g i))) (seq 0 (cn k)).
Lemma consEntB_ok k g : consEntB k g = true -> consistentEntries k g.
Proof.
  unfold consEntB. rewrite forallb_forall. intros H i en [Hi Hn] He. specialize (H i). rewrite in_seq in H.
  assert (H' : mem i (cbyz k) || forallb (fun en => consB (n_Q en)) (r_ents (get g i)) = true) by (apply H; lia).
  apply orb_true_iff in H'. destruct H' as [H'|H']; [apply mem_In in H'; contradiction|]. rewrite forallb_forall in H'. apply consB_ok; auto.
Qed.
Definition lsZeroB (k : config) (g : gstate) : bool := forallb (fun i => mem i (cbyz k) || (r_ls (get g i) =? 0)) (seq 0 (cn k)).
Lemma lsZeroB_ok k g : lsZeroB k g = true -> forall i, correct k i -> r_ls (get g i) = 0.
Proof.
  unfold lsZeroB. rewrite forallb_forall. intros H i [Hi Hn]. specialize (H i). rewrite in_seq in H.
  assert (H' : mem i (cbyz k) || (r_ls (get g i) =? 0) = true) by (apply H; lia).
  apply orb_true_iff in H'. destruct H' as [H'|H']; [apply mem_In in H'; contradiction|]. apply Nat.eqb_eq; auto.
Qed.
Definition coverB (k : config) (g : gstate) (s : nat) : bool :=
  forallb (fun i => mem i (cbyz k) || forallb (fun en =>
    match computeRestrictions (cf k) (cc k) (arr (n_Q en)) (n_lb en) with
    | Some (mn, mx, _) => (mn =? 0) || (s <=? mx) | None => true end) (r_ents (get g i))) (seq 0 (cn k)).
Lemma coverB_ok k g s : coverB k g s = true -> coversAt k g s.
Proof.
  unfold coverB. rewrite forallb_forall. intros H i en mn mx rs [Hi Hn] He HC Hm _. specialize (H i). rewrite in_seq in H.
  match type of H with _ -> ?X = true => assert (H' : X = true) by (apply H; lia) end.
  apply orb_true_iff in H'. destruct H' as [H'|H']; [apply mem_In in H'; contradiction|]. rewrite forallb_forall in H'. specialize (H' en He).
  rewrite HC in H'. apply orb_true_iff in H'. destruct H' as [H'|H']; [apply Nat.eqb_eq in H'; contradiction|apply Nat.leb_le; auto].
Qed.
Lemma computeRestrictions_half F C a lb mn mx rs : computeRestrictions F C a lb = Some (mn, mx, rs) -> mn <> 0 ->
  lb + kWorkWindowSize - checkpointWindowSize <= mx.
Proof.
  unfold computeRestrictions. destruct (restrictLoop _ _ _ _ _ _ _) as [[rs' l]|]; [|discriminate].
  destruct (filter _ _); [intros H; inversion H; lia|].
  destruct ((0 <? l) && (l <=? lb + kWorkWindowSize - checkpointWindowSize)); intros H; inversion H; subst; lia.
Qed.
Lemma covers_half k g s : (forall i en, correct k i -> In en (r_ents (get g i)) -> n_lb en < s -> s <= n_lb en + checkpointWindowSize) -> coversAt k g s.
Proof.
  intros H i en mn mx rs Hi Hen HC Hm [Hs _]. specialize (H i en Hi Hen Hs). apply computeRestrictions_half in HC; auto.
  unfold kWorkWindowSize, checkpointWindowSize in *. lia.
Qed.

(** Honest replicas hs vote, prepare and commit s, Byzantine zs help with digest d in view v; dec decides. *)
Definition ordering (hs zs dec : list nat) (v s d : nat) : list event :=
  map (fun i => EVote i s) hs ++ map (fun z => BVote z v s d) zs ++ map (fun i => EPrepared i s) hs ++ map (fun i => ECommit i s) hs ++
  map (fun z => BCommit z v s d) zs ++ map (fun i => EDecideSlow i s) dec.

(** A run with one Byzantine replica (3): a batch is committed in view 0, again in view 1 after a view change, and executed. *)
Definition kD : config := mkCfg 1 0 [3] false.
Definition runD1 : list event :=
  [EPropose 0 1 5 true; EAccept 1 1 5 true true; EAccept 2 1 5 true true] ++ ordering [0; 1; 2] [] [0] 0 1 5 ++ [EExec 0] ++
  [ELeave 0 1; ELeave 1 1; ELeave 2 1; BVC 3 (mkVC 3 1 0 [])].
Definition QD := let g := run kD (init kD) runD1 in [lastVC g 1; lastVC g 2; lastVC g 3].
Definition runD2 : list event :=
  [EPend 1 QD; EPend 0 QD; EPend 2 QD; EEnter 0; EEnter 1; EEnter 2] ++ ordering [0; 1; 2] [] [1; 2] 1 1 5 ++ [EExec 2].
Definition schedD : list event := (runD1 ++ runD2).

(** F1: null committed at 160 in view 1 by {0,1,3}; batch 9 committed at 160 in view 2 by {1,2,3}. *)
Definition k1 : config := mkCfg 1 0 [3] false.
Definition run1a : list event :=
  [EPropose 0 250 7 true; EPropose 0 10 5 true; EAccept 1 250 7 true true; EAccept 1 10 5 true true; EAccept 2 10 5 true true;
   ELeave 0 1; ELeave 1 1; BVC 3 (mkVC 3 1 0 [])].
Definition Q1a := let g := run k1 (init k1) run1a in [lastVC g 0; lastVC g 1; lastVC g 3].
Definition run1b : list event :=
  run1a ++ [EPend 1 Q1a; EPend 0 Q1a; EEnter 1; EEnter 0] ++ ordering [0; 1] [3] [0; 1] 1 160 0 ++ [ELeave 1 2; ELeave 2 2; BVC 3 (mkVC 3 2 0 [])].
Definition Q1b := let g := run k1 (init k1) run1b in [lastVC g 1; lastVC g 2; lastVC g 3].
Definition sched1 : list event := (run1b ++ [EPend 2 Q1b; EPend 1 Q1b; EEnter 2; EEnter 1; EPropose 2 160 9 true; EAccept 1 160 9 true true] ++
  ordering [1; 2] [3] [1; 2] 2 160 9).

(** F2: replicas 0 and 2 execute 1..150, replica 0 makes 150 stable; replica 1 (primary of view 1) lags behind; 3 is Byzantine. *)
Definition k2 : config := mkCfg 1 0 [3] false.
Definition run2a : list event :=
  flat_map (fun s => [EPropose 0 s 5 true; EAccept 2 s 5 true true] ++ ordering [0; 2] [3] [0; 2] 0 s 5 ++ [EExec 0; EExec 2]) (seq 1 150).
Definition run2b : list event := run2a ++ [ECkpt 0; ECkpt 2; BCk 3 150 (repeat 5 150); EStable 0 150; ELeave 0 1; ELeave 1 1; ELeave 2 1; BVC 3 (mkVC 3 1 0 [])].
Definition Q2 := let g := run k2 (init k2) run2b in [lastVC g 0; lastVC g 1; lastVC g 3].
Definition sched2 : list event := (run2b ++ [EPend 1 Q2; EPend 2 Q2; EEnter 1; EEnter 2; EPropose 1 1 9 true; EAccept 2 1 9 true true] ++
  ordering [1; 2] [3] [1] 1 1 9 ++ [EExec 1]).

(** F3: time service; replica 2 judges the primary's time out of bounds, still sends its commit share. *)
Definition k3 : config := mkCfg 1 0 [3] true.
Definition run3a : list event :=
  [EPropose 0 1 5 true; EAccept 1 1 5 true true; EAccept 2 1 5 true false; EVote 0 1; EVote 1 1; BVote 3 0 1 5; EPrepared 0 1; EPrepared 2 1;
   ECommit 0 1; ECommit 2 1; BCommit 3 0 1 5; EDecideSlow 0 1; EExec 0; ELeave 1 1; ELeave 2 1; BVC 3 (mkVC 3 1 0 [])].
Definition Q3 := let g := run k3 (init k3) run3a in [lastVC g 1; lastVC g 2; lastVC g 3].
Definition sched3 : list event := (run3a ++ [EPend 1 Q3; EPend 2 Q3; EEnter 1; EEnter 2] ++ ordering [1; 2] [3] [1; 2] 1 1 0 ++ [EExec 1]).

(** F6: f = 2; Byzantine 0 attaches a bad signature to the certificate that correct replica 4 reports. *)
Definition k6 : config := mkCfg 2 0 [0; 1] false.
Definition run6a : list event :=
  [BPP 0 0 1 5; EAccept 2 1 5 true true; EAccept 3 1 5 true true; EAccept 4 1 5 true true] ++ ordering [2; 3; 4] [0; 1] [2] 0 1 5 ++ [EExec 2] ++
  [ELeave 4 1; ELeave 5 1; ELeave 6 1; BVC 0 (mkVC 0 1 0 [mkElem 1 5 0 (Some (0, false))]); BVC 1 (mkVC 1 1 0 [])].
Definition Q6 := let g := run k6 (init k6) run6a in [lastVC g 0; lastVC g 1; lastVC g 4; lastVC g 5; lastVC g 6].
Definition sched6 : list event := (run6a ++ [BNV 1 1 Q6; EPend 4 Q6; EPend 5 Q6; EPend 6 Q6; EEnter 4; EEnter 5; EEnter 6] ++
  ordering [4; 5; 6] [0; 1] [5] 1 1 0 ++ [EExec 5]).


Lemma exD : chk (run kD (init kD) schedD) (fun g => hasDec 0 0 1 5 g && hasDec 1 1 1 5 g && consEntB kD g && lsZeroB kD g && coverB kD g 1) = true.
Proof. vm_compute. reflexivity. Qed.
Definition ex (i s d : nat) (g : gstate) : bool := match executed g i s with Some x => x =? d | None => false end.
Lemma ex_ok i s d g : ex i s d g = true -> executed g i s = Some d.
Proof. unfold ex. destruct (executed g i s); [|discriminate]. intros H; apply Nat.eqb_eq in H; subst; auto. Qed.
Lemma ex1 : chk (run k1 (init k1) sched1) (fun g => hasDec 0 1 160 0 g && hasDec 1 2 160 9 g && consEntB k1 g && lsZeroB k1 g) = true.
Proof. vm_compute. reflexivity. Qed.
Lemma ex2 : chk (run k2 (init k2) sched2) (fun g => hasDec 0 0 1 5 g && hasDec 1 1 1 9 g && ex 0 1 5 g && ex 1 1 9 g && consEntB k2 g && coverB k2 g 1) = true.
Proof. vm_compute. reflexivity. Qed.
Lemma ex3 : chk (run k3 (init k3) sched3) (fun g => hasDec 0 0 1 5 g && hasDec 1 1 1 0 g && ex 0 1 5 g && ex 1 1 0 g && consEntB k3 g && coverB k3 g 1 && lsZeroB k3 g) = true.
Proof. vm_compute. reflexivity. Qed.
Lemma ex6 : chk (run k6 (init k6) sched6) (fun g => hasDec 2 0 1 5 g && hasDec 5 1 1 0 g && ex 2 1 5 g && ex 5 1 0 g && coverB k6 g 1 && lsZeroB k6 g) = true.
Proof. vm_compute. reflexivity. Qed.
Lemma valid1 : validConfig (mkCfg 1 0 [3] false).
Proof. split; [|split]; simpl; [repeat constructor; simpl; tauto|constructor; [unfold cn, nReplicas; simpl; lia|constructor]|lia]. Qed.
Lemma valid1t : validConfig (mkCfg 1 0 [3] true).
Proof. split; [|split]; simpl; [repeat constructor; simpl; tauto|constructor; [unfold cn, nReplicas; simpl; lia|constructor]|lia]. Qed.
Lemma valid6 : validConfig k6.
Proof.
  split; [|split]; simpl; [repeat constructor; simpl; intuition discriminate| |lia].
  constructor; [unfold cn, nReplicas; simpl; lia|]. constructor; [unfold cn, nReplicas; simpl; lia|constructor].
Qed.
