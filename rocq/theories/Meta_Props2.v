(** C21, continued: the hypotheses of the theorems of Meta_Props.v are met, and what happens without them. *)
From Coq Require Import List Arith NArith Bool Lia ZifyBool ZifyN.
From Verif Require Import Lib_Bytes Meta_Model Meta_Spec Meta_Props.
Import ListNotations.
Local Open Scope N_scope.

(** * The hypotheses are met, and what happens without them *)
Lemma depth_length c es : forall S, (depth (fold_left (sstep c) es S) <= depth S + length es)%nat.
Proof.
  induction es as [|e es IH]; intros S; cbn [fold_left length]; [lia|]. specialize (IH (sstep c S e)).
  assert (depth (sstep c S e) <= Datatypes.S (depth S))%nat; [|lia].
  destruct e; cbn [sstep depth]; try lia. destruct (depth S) as [|[|n]]; cbn [depth]; lia.
Qed.
Lemma shallow_short c es : (length es <= 255)%nat -> shallow c es.
Proof.
  intros Hl pre suf Eq. pose proof (depth_length c pre (sys0 c)) as H. unfold after. cbn [depth sys0] in H. rewrite Eq, app_length in Hl. lia.
Qed.
Definition cfg1 := {| maxExt := 100; nRep := 4; fVal := 1; cVal := 0; nPrinc := 10; batchSz := 2; ckMax := 100 |}.
Example good1 : goodCfg cfg1.
Proof. unfold goodCfg. split; [reflexivity|]. split; [discriminate|reflexivity]. Qed.
Definition m1 : msg := Some (2, [7; 8; 9]).
Definition x1 := mkExit false 0 0 5 0 m1 [(m1, None, true); (m1, m1, false)] [m1; None].
Definition n1 := mkNew false 1 300 0 m1 m1 [m1; None; m1].
Definition es1 : list event :=
  [EBegin; ESet (SLower 3); ESet (SSeq 5 (PP m1)); ESet (SExit x1); EBegin; ESet (SCkpt 150 m1); ESet (SMark 300); EEnd false; ESet (SNew n1);
   ESet (SLastExec 5); ESet (SExec (mkExec 6 9 [255; 1] 4)); ESet (SStable [m1; m1]); ESet (SRsi 3 [1; 2]); EEnd true;
   EDirect (DUser [9; 9]); EBegin; ESet (SLastStable 150); ESet (SSeq 160 (FCP m1)); EEnd false; EBegin; ESet (SLastView 4)].
Example hyp1 : Forall (fitsE cfg1) es1 /\ shallow cfg1 es1 /\ length (hist (after cfg1 es1)) = 5%nat /\ durable (after cfg1 es1) = 3%nat.
Proof.
  split; [|split; [apply shallow_short; cbn; lia|split; vm_compute; reflexivity]].
  repeat (constructor; [cbn; unfold fitsExit, fitsNew, fitsExec, u64, fitsMsg, shortMsg, lenN; cbn; repeat split; try lia; repeat constructor; cbn; lia|]). constructor.
Qed.
(** All writes survive; the transaction that ended without the sync flag is lost; a fresh replica. *)
Example ex1 :
  (do s <- boot cfg1; do (d, p) <- run cfg1 s (es1 ++ [ECrash 5]);
   Ok (getPP cfg1 d p 160, getFCP cfg1 d p 160, getCkpt cfg1 d p 150, getMark cfg1 d p 300, getExit cfg1 d p, getNew cfg1 d p, getNum cfg1 d p idLastView,
       getStable cfg1 d p, getRsi cfg1 d 3, getUser cfg1 d, getNum cfg1 d p idLastStable))
  = Ok (Ok None, Ok m1, Ok m1, Ok true, Ok x1, Ok n1, Ok 0, Ok [m1; m1], Ok (Some [1; 2]), Ok (Some [9; 9]), Ok 150).
Proof. vm_compute. reflexivity. Qed.
(** Without the last write: the first transaction and the single write. *)
Definition es2 : list event := [EBegin; ESet (SSeq 5 (PP m1)); ESet (SRsi 3 [1; 2]); EEnd true; EDirect (DUser [9; 9]); EBegin; ESet (SLastStable 150); EEnd false].
Lemma ran2 es : Forall (fitsE cfg1) (es2 ++ es) -> (length es <= 200)%nat -> match (do s <- boot cfg1; run cfg1 s (es2 ++ es)) with Ok _ => True | _ => False end ->
  forall k, (durable (after cfg1 (es2 ++ es)) <= k <= length (hist (after cfg1 (es2 ++ es))))%nat ->
  exists d p d' p', (do s <- boot cfg1; run cfg1 s (es2 ++ es)) = Ok (d, p) /\ stepE cfg1 (d, p) (ECrash k) = Ok (d', p')
    /\ reads cfg1 d' p' (metaOf cfg1 (restart cfg1 (firstn k (hist (after cfg1 (es2 ++ es)))))).
Proof.
  intros F L R k K. destruct (do s <- boot cfg1; run cfg1 s (es2 ++ es)) as [(d & p)|] eqn:E; [|elim R].
  destruct (C21_crash_prefix cfg1 (es2 ++ es) d p k good1 E F) as (d' & p' & A & B); [|exact K|exists d, p, d', p'; auto].
  apply shallow_short. rewrite app_length. unfold es2. cbn [length]. lia.
Qed.
Ltac fits2 := repeat (constructor; [cbn; unfold u64, fitsMsg, shortMsg, lenN; cbn; repeat split; try lia; repeat constructor; cbn; lia|]); constructor.
Example ex1b : exists d p d' p' M, (do s <- boot cfg1; run cfg1 s es2) = Ok (d, p) /\ stepE cfg1 (d, p) (ECrash 4) = Ok (d', p')
  /\ reads cfg1 d' p' M /\ m_lastStable M = 0 /\ m_user M = Some [9; 9].
Proof.
  destruct (ran2 [] ltac:(fits2) ltac:(cbn; lia) ltac:(vm_compute; exact Logic.I) 4%nat ltac:(vm_compute; split; lia)) as (d & p & d' & p' & A & B & C).
  exists d, p, d', p'. eexists. split; [exact A|]. split; [exact B|]. split; [exact C|]. split; vm_compute; reflexivity.
Qed.
(** A marked database is erased by the next start. *)
Example ex1c : exists d p d' p', (do s <- boot cfg1; run cfg1 s (es2 ++ [EDirect DErase])) = Ok (d, p) /\ stepE cfg1 (d, p) (ECrash 6) = Ok (d', p')
  /\ reads cfg1 d' p' (meta0 cfg1).
Proof.
  destruct (ran2 [EDirect DErase] ltac:(fits2) ltac:(cbn; lia) ltac:(vm_compute; exact Logic.I) 6%nat ltac:(vm_compute; split; lia)) as (d & p & d' & p' & A & B & C).
  exists d, p, d', p'. split; [exact A|]. split; [exact B|]. exact C.
Qed.

(** The nesting counter has 8 bits: with 257 transactions open the end of the innermost one writes the database. *)
Theorem C21_deep_nesting_commits_early_refuted : exists c es d p, goodCfg c /\ Forall (fitsE c) es /\ (do s <- boot c; run c s es) = Ok (d, p)
  /\ depth (after c es) = 256%nat /\ getNum c d p idLower = Ok 5.
Proof.
  pose (es := repeat EBegin 257 ++ [ESet (SLower 5); EEnd false]).
  destruct (do s <- boot cfg1; run cfg1 s es) as [(d & p)|w] eqn:E.
  - exists cfg1, es, d, p. split; [apply good1|]. split.
    { apply Forall_app. split; [apply Forall_forall; intros e X; apply repeat_spec in X; subst; exact Logic.I|repeat constructor]. }
    split; [exact E|]. split; [vm_compute; reflexivity|].
    assert (G : match (do s <- boot cfg1; run cfg1 s es) with Ok (d, p) => getNum cfg1 d p idLower = Ok 5 | _ => False end) by (vm_compute; reflexivity).
    rewrite E in G. exact G.
  - exfalso. assert (G : match (do s <- boot cfg1; run cfg1 s es) with Ok _ => True | _ => False end) by (vm_compute; exact Logic.I). rewrite E in G. exact G.
Qed.
Print Assumptions C21_deep_nesting_commits_early_refuted.

(** A full commit proof of more than 1056 bytes (15 signatures of the EdDSA multisignature) is written, but every attempt to read it
    back ends in an exception: the read buffer has no room for the signature.  The same for a full prepare or commit of more than 2080. *)
Definition cfgL := {| maxExt := 4000; nRep := 4; fVal := 1; cVal := 0; nPrinc := 10; batchSz := 2; ckMax := 100 |}.
Example goodL : goodCfg cfgL.
Proof. unfold goodCfg. split; [reflexivity|]. split; [discriminate|reflexivity]. Qed.
Definition longMsg (n : nat) : msg := Some (1, repeat 1 n).
Theorem C21_long_commit_proof_unreadable_refuted : exists c m f es d p, goodCfg c /\ fitsMsg c m
  /\ es = [EBegin; ESet (SSeq 1 (FCP m)); ESet (SSeq 1 (PF f)); EEnd true] /\ (do s <- boot c; run c s es) = Ok (d, p)
  /\ getFCP c d p 1 = Ends Exception /\ getPF c d p 1 = Ends Exception.
Proof.
  exists cfgL, (longMsg 1057), (longMsg 2081). eexists.
  destruct (do s <- boot cfgL; run cfgL s [EBegin; ESet (SSeq 1 (FCP (longMsg 1057))); ESet (SSeq 1 (PF (longMsg 2081))); EEnd true]) as [(d & p)|w] eqn:E.
  - exists d, p. split; [apply goodL|]. split; [vm_compute; repeat split; (reflexivity || discriminate)|]. split; [reflexivity|]. split; [exact E|].
    assert (G : match (do s <- boot cfgL; run cfgL s [EBegin; ESet (SSeq 1 (FCP (longMsg 1057))); ESet (SSeq 1 (PF (longMsg 2081))); EEnd true]) with
                | Ok (d, p) => getFCP cfgL d p 1 = Ends Exception /\ getPF cfgL d p 1 = Ends Exception | _ => False end) by (vm_compute; split; reflexivity).
    rewrite E in G. exact G.
  - exfalso. assert (G : match (do s <- boot cfgL; run cfgL s [EBegin; ESet (SSeq 1 (FCP (longMsg 1057))); ESet (SSeq 1 (PF (longMsg 2081))); EEnd true]) with Ok _ => True | _ => False end) by (vm_compute; exact Logic.I).
    rewrite E in G. exact G.
Qed.
Print Assumptions C21_long_commit_proof_unreadable_refuted.

(** Setters check cached values that only the getters refresh: after a restart, recording the last sequence number used as primary is an
    assertion failure until the last executed sequence number was read, although the same call succeeds without the restart. *)
Theorem C21_setter_needs_getter_after_restart_refuted : exists c es d p d' p', goodCfg c /\ Forall (fitsE c) es
  /\ (do s <- boot c; run c s es) = Ok (d, p) /\ (exists q, run c (d, p) [EBegin; ESet (SPrimUsed 9)] = Ok q)
  /\ stepE c (d, p) (ECrash (length (log d))) = Ok (d', p')
  /\ run c (d', p') [EBegin; ESet (SPrimUsed 9)] = Ends Assertion
  /\ (exists q, run c (d', p') [EGetLastExec; EBegin; ESet (SPrimUsed 9)] = Ok q).
Proof.
  pose (es := [EBegin; ESet (SLastExec 5); ESet (SExec (mkExec 6 9 [255; 1] 4)); EEnd true]).
  assert (G : match (do s <- boot cfg1; run cfg1 s es) with
    | Ok (d, p) => match run cfg1 (d, p) [EBegin; ESet (SPrimUsed 9)], stepE cfg1 (d, p) (ECrash (length (log d))) with
        | Ok _, Ok (d', p') => run cfg1 (d', p') [EBegin; ESet (SPrimUsed 9)] = Ends Assertion
             /\ match run cfg1 (d', p') [EGetLastExec; EBegin; ESet (SPrimUsed 9)] with Ok _ => True | _ => False end
        | _, _ => False end
    | _ => False end) by (vm_compute; split; [reflexivity|exact Logic.I]).
  destruct (do s <- boot cfg1; run cfg1 s es) as [(d & p)|w] eqn:E; [|elim G].
  destruct (run cfg1 (d, p) [EBegin; ESet (SPrimUsed 9)]) as [q|] eqn:E1; [|elim G].
  destruct (stepE cfg1 (d, p) (ECrash (length (log d)))) as [(d' & p')|] eqn:E2; [|elim G].
  destruct G as (G1 & G2). destruct (run cfg1 (d', p') [EGetLastExec; EBegin; ESet (SPrimUsed 9)]) as [q2|] eqn:E3; [|elim G2].
  exists cfg1, es, d, p, d', p'. split; [apply good1|]. split; [repeat constructor|]. split; [exact E|]. split; [eauto|]. split; [exact E2|]. split; [exact G1|eauto].
Qed.
Print Assumptions C21_setter_needs_getter_after_restart_refuted.

(** The last four ids are never registered: when the replica-specific information fills the id range, its last objects cannot be
    written or read, although the storage was sized for them. *)
Definition cfg2 := {| maxExt := 4000; nRep := 4; fVal := 1; cVal := 0; nPrinc := 50; batchSz := 100; ckMax := 100 |}.
Theorem C21_last_specific_info_rejected_refuted : exists c i, goodCfg c /\ i < nPrinc c * batchSz c
  /\ (forall d, getRsi c d i = Ends Exception) /\ (forall d p l, batch p = Some l -> doSet c d p (SRsi i [1]) = Ends Exception).
Proof.
  exists cfg2, 4999. split; [|split; [reflexivity|split]].
  - unfold goodCfg. split; [reflexivity|]. split; [discriminate|reflexivity].
  - intros d. unfold getRsi, getBytes, dbRead. reflexivity.
  - intros d p l Hb. cbn [doSet]. unfold writes. rewrite Hb. reflexivity.
Qed.
Print Assumptions C21_last_specific_info_rejected_refuted.
