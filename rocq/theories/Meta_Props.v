(** C21: the persisted consensus metadata survive crashes atomically. *)
From Coq Require Import List Arith NArith Bool Lia ZifyBool ZifyN.
From Verif Require Import Lib_Bytes Meta_Model Meta_Spec Meta_Proofs Meta_Proofs2 Meta_Proofs3 Meta_Proofs4 Meta_Proofs5.
Import ListNotations.
Local Open Scope N_scope.
Local Opaque wr encMsg le defaultWrites sizeOf.

(** After every sequence of calls and crashes, whenever no transaction is open every getter returns the value that the completed
    writes amount to ([metaOf], [upd] in Meta_Spec.v) — for all sequence numbers in the windows, all descriptors and all messages. *)
Theorem C21_read_back : forall c es d p, goodCfg c -> (do s <- boot c; run c s es) = Ok (d, p) -> Forall (fitsE c) es -> shallow c es ->
  depth (after c es) = 0%nat -> reads c d p (metaOf c (hist (after c es))).
Proof.
  intros c es d p Hg E Hf Hs Hd. pose proof (boot_run_Inv c es d p Hg E Hf Hs) as HI.
  destruct (i_batch _ _ _ _ HI) as [(_ & _ & Hp)|(D & _)]; [|lia].
  destruct (i_beg _ _ _ _ HI) as (B1 & B2). rewrite Hp in B1, B2. cbn [nextAll fold_left] in B1, B2.
  apply reads_ok; [exact Hg|apply (Inv_now _ _ _ _ HI)|rewrite (i_nested _ _ _ _ HI), Hd; reflexivity|exact B1|exact B2].
Qed.
Print Assumptions C21_read_back.

(** After every sequence of calls and crashes, whatever prefix of the database writes survives — at least those that were flushed —
    the replica starts again, and then every getter returns the value of that prefix (of its restart: an incomplete initialization is
    completed, and metadata that were marked to be erased are erased). *)
Theorem C21_crash_prefix : forall c es d p k, goodCfg c -> (do s <- boot c; run c s es) = Ok (d, p) -> Forall (fitsE c) es -> shallow c es ->
  (durable (after c es) <= k <= length (hist (after c es)))%nat ->
  exists d' p', stepE c (d, p) (ECrash k) = Ok (d', p') /\ reads c d' p' (metaOf c (restart c (firstn k (hist (after c es))))).
Proof.
  intros c es d p k Hg E Hf Hs Hk. pose proof (boot_run_Inv c es d p Hg E Hf Hs) as HI.
  pose proof (i_dur _ _ _ _ HI) as Hd. pose proof (proj1 (i_hist _ _ _ _ HI)) as Hl.
  destruct (crash_ok c d p (after c es) k Hg HI ltac:(lia)) as (d' & p' & E' & HI').
  exists d', p'. cbn [stepE]. replace ((synced d <=? k)%nat && (k <=? length (log d))%nat) with true by lia. cbn [guard bind]. split; [exact E'|].
  destruct (i_beg _ _ _ _ HI') as (B1 & B2). cbn [sstep pend nextAll fold_left hist] in B1, B2.
  apply reads_ok; [exact Hg|apply (Inv_now _ _ _ _ HI')|rewrite (i_nested _ _ _ _ HI'); reflexivity|exact B1|exact B2].
Qed.
Print Assumptions C21_crash_prefix.

(** The erasure flag apart, the restart adds nothing: the values are those of a prefix of the completed transactions. *)
Theorem C21_prefix_is_history : forall c es d p k M, goodCfg c -> (do s <- boot c; run c s es) = Ok (d, p) -> Forall (fitsE c) es -> shallow c es ->
  contentsOf c (firstn k (hist (after c es))) = Live M -> m_erase M = false -> restart c (firstn k (hist (after c es))) = firstn k (hist (after c es)).
Proof. intros c es d p k M _ _ _ _ E Hm. unfold restart. rewrite E, Hm. reflexivity. Qed.
Print Assumptions C21_prefix_is_history.

(** A transaction that was ended with the sync flag survives all later crashes, in its place. *)
Lemma durable_keeps c H es : forall d p S d' p', goodCfg c -> Inv c d p S -> run c (d, p) es = Ok (d', p') -> Forall (fitsE c) es ->
  (forall pre suf, es = pre ++ suf -> (depth (fold_left (sstep c) pre S) <= 255)%nat) ->
  (exists r, hist S = H ++ r) -> (length H <= durable S)%nat -> exists r, hist (fold_left (sstep c) es S) = H ++ r.
Proof.
  induction es as [|e es IH]; intros d p S d' p' Hg HI E Hf Hs Hr Hd; cbn [run fold_left] in *; [exact Hr|].
  apply bind_ok in E. destruct E as ((d1 & p1) & E1 & E2). inversion Hf; subst.
  assert (HI1 : Inv c d1 p1 (sstep c S e)) by (eapply Inv_step; try eassumption; apply (Hs [e] es); reflexivity).
  eapply IH; [exact Hg|exact HI1|exact E2|assumption|intros pre suf Heq; apply (Hs (e :: pre) suf); rewrite Heq; reflexivity| |].
  - destruct Hr as (r & Hr). destruct e; cbn [sstep]; try (exists r; exact Hr).
    + destruct (depth S) as [|[|n]]; cbn [hist]; rewrite Hr; [exists r; reflexivity| |exists r; reflexivity].
      exists (r ++ [TSet (pend S)]). rewrite app_assoc. reflexivity.
    + cbn [hist]. exists (r ++ [TDirect o]). rewrite Hr, app_assoc. reflexivity.
    + cbn [hist]. cbn [stepE] in E1. apply bind_ok in E1. destruct E1 as (u & Eg & _). apply guard_ok in Eg.
      pose proof (i_dur _ _ _ _ HI) as Hdu.
      assert (Hk : exists r', firstn k (hist S) = H ++ r').
      { rewrite Hr. exists (firstn (k - length H) r). rewrite firstn_app. f_equal. apply firstn_all2. lia. }
      destruct Hk as (r' & Hk). unfold restart. rewrite Hk.
      destruct (contentsOf c (H ++ r')) as [| |M]; [rewrite <- app_assoc; eauto..|]. destruct (m_erase M); [rewrite <- app_assoc; eauto|eauto].
  - destruct e; cbn [sstep durable]; try exact Hd. destruct Hr as (r & Hr). destruct (depth S) as [|[|n]]; cbn [durable]; try exact Hd.
    destruct sync; [|exact Hd]. rewrite Hr, app_length. lia.
Qed.
Lemma run_parts c es1 e es2 d p : (do s <- boot c; run c s (es1 ++ e :: es2)) = Ok (d, p) ->
  exists d1 p1 d2 p2, (do s <- boot c; run c s es1) = Ok (d1, p1) /\ stepE c (d1, p1) e = Ok (d2, p2) /\ run c (d2, p2) es2 = Ok (d, p).
Proof.
  intros E. apply bind_ok in E. destruct E as (s0' & B & E). rewrite run_app in E. apply bind_ok in E. destruct E as ((d1 & p1) & E1 & E).
  cbn [run] in E. apply bind_ok in E. destruct E as ((d2 & p2) & E2 & E3). exists d1, p1, d2, p2. rewrite B. cbn [bind]. auto.
Qed.
Theorem C21_synced_transactions_survive : forall c es1 es2 d p, goodCfg c ->
  (do s <- boot c; run c s (es1 ++ EEnd true :: es2)) = Ok (d, p) -> Forall (fitsE c) (es1 ++ EEnd true :: es2) -> shallow c (es1 ++ EEnd true :: es2) ->
  depth (after c es1) = 1%nat ->
  exists rest, hist (after c (es1 ++ EEnd true :: es2)) = hist (after c es1) ++ TSet (pend (after c es1)) :: rest.
Proof.
  intros c es1 es2 d p Hg E Hf Hs Hd. destruct (run_parts _ _ _ _ _ _ E) as (d1 & p1 & d2 & p2 & E1 & E2 & E3).
  apply Forall_app in Hf. destruct Hf as (F1 & F2). inversion F2 as [|? ? F3 F4]; subst.
  assert (Hs1 : shallow c es1) by (intros pre suf Eq; apply (Hs pre (suf ++ EEnd true :: es2)); rewrite Eq, app_assoc; reflexivity).
  pose proof (boot_run_Inv c es1 d1 p1 Hg E1 F1 Hs1) as HI1.
  assert (Hs2 : (depth (sstep c (after c es1) (EEnd true)) <= 255)%nat).
  { specialize (Hs (es1 ++ [EEnd true]) es2). unfold after in *. rewrite fold_left_app in Hs. apply Hs. rewrite <- app_assoc. reflexivity. }
  pose proof (Inv_step _ _ _ _ _ _ _ Hg HI1 E2 F3 Hs2) as HI2.
  destruct (durable_keeps c (hist (after c es1) ++ [TSet (pend (after c es1))]) es2 d2 p2 _ d p Hg HI2 E3 F4) as (r & Hr).
  - intros pre suf Eq. specialize (Hs (es1 ++ EEnd true :: pre) suf). unfold after in *. rewrite fold_left_app in Hs. apply Hs. rewrite Eq, <- app_assoc. reflexivity.
  - exists []. cbn [sstep]. rewrite Hd, app_nil_r. reflexivity.
  - cbn [sstep]. rewrite Hd. cbn [durable]. rewrite app_length. cbn [length]. lia.
  - exists r. unfold after in *. rewrite fold_left_app. cbn [fold_left]. rewrite Hr, <- app_assoc. reflexivity.
Qed.
Print Assumptions C21_synced_transactions_survive.

(** Nested transactions reach the database only with the end of the outermost one, and then as one atomic write: until then the
    database is the one before the outermost begin. *)
Definition inner (e : event) : Prop := match e with EDirect _ | ECrash _ => False | _ => True end.
Lemma inner_same c es : forall d p S d' p', goodCfg c -> Inv c d p S -> run c (d, p) es = Ok (d', p') -> Forall (fitsE c) es -> Forall inner es ->
  (forall pre suf, es = pre ++ suf -> (0 < depth (fold_left (sstep c) pre S) <= 255)%nat) -> d' = d.
Proof.
  induction es as [|e es IH]; intros d p S d' p' Hg HI E Hf Hin Hs; cbn [run] in E; [injection E as <- _; reflexivity|].
  apply bind_ok in E. destruct E as ((d1 & p1) & E1 & E2). inversion Hf; subst. inversion Hin as [|? ? Hi Hin']; subst.
  assert (HI1 : Inv c d1 p1 (sstep c S e)) by (eapply Inv_step; try eassumption; apply (Hs [e] es); reflexivity).
  pose proof (Hs [] (e :: es) eq_refl) as H0. pose proof (Hs [e] es eq_refl) as H1'. cbn [fold_left] in H0, H1'.
  assert (Ed : d1 = d).
  { destruct e; cbn [stepE inner] in *; try contradiction.
    - injection E1 as <- _. reflexivity.
    - unfold endTran in E1. apply bind_ok in E1. destruct E1 as (u & _ & E1). pose proof (i_nested _ _ _ _ HI) as Hn.
      cbn [sstep] in H1'. destruct (depth S) as [|[|n]] eqn:Dp; [lia|cbn [depth] in H1'; lia|].
      destruct (nested p =? 1) eqn:En; [lia|]. injection E1 as <- _. reflexivity.
    - apply bind_ok in E1. destruct E1 as (q & _ & E1). injection E1 as <- _. reflexivity.
    - apply bind_ok in E1. destruct E1 as ((b & q) & _ & E1). injection E1 as <- _. reflexivity.
    - apply bind_ok in E1. destruct E1 as ((b & q) & _ & E1). injection E1 as <- _. reflexivity.
    - apply bind_ok in E1. destruct E1 as ((b & q) & _ & E1). injection E1 as <- _. reflexivity.
    - apply bind_ok in E1. destruct E1 as ((b & q) & _ & E1). injection E1 as <- _. reflexivity. }
  rewrite <- Ed. eapply IH; [exact Hg|exact HI1|exact E2|assumption|exact Hin'|]. intros pre suf Eq. apply (Hs (e :: pre) suf). rewrite Eq. reflexivity.
Qed.
Theorem C21_nested_commit_with_outermost : forall c es body d0 p0 d p, goodCfg c ->
  (do s <- boot c; run c s es) = Ok (d0, p0) -> depth (after c es) = 0%nat -> run c (d0, p0) (EBegin :: body) = Ok (d, p) ->
  Forall (fitsE c) (es ++ EBegin :: body) -> shallow c (es ++ EBegin :: body) -> Forall inner body ->
  (forall pre suf, body = pre ++ suf -> (0 < depth (after c (es ++ EBegin :: pre)))%nat) ->
  d = d0
  /\ (forall sync d1 p1, depth (after c (es ++ EBegin :: body)) = 1%nat -> endTran d p sync = Ok (d1, p1) -> exists e, log d1 = log d0 ++ [e]).
Proof.
  intros c es body d0 p0 d p Hg E0 Hd E Hf Hs Hin Hpos.
  apply Forall_app in Hf. destruct Hf as (F1 & F2). inversion F2 as [|? ? F3 F4]; subst.
  assert (Hs1 : shallow c es) by (intros pre suf Eq; apply (Hs pre (suf ++ EBegin :: body)); rewrite Eq, app_assoc; reflexivity).
  pose proof (boot_run_Inv c es d0 p0 Hg E0 F1 Hs1) as HI1. cbn [run] in E. apply bind_ok in E. destruct E as ((d2 & p2) & E2 & E3).
  assert (Hs2 : forall pre suf, body = pre ++ suf -> (0 < depth (fold_left (sstep c) pre (sstep c (after c es) EBegin)) <= 255)%nat).
  { intros pre suf Eq. specialize (Hs (es ++ EBegin :: pre) suf). specialize (Hpos pre suf Eq). unfold after in *. rewrite fold_left_app in Hs, Hpos. cbn [fold_left] in Hs, Hpos.
    split; [exact Hpos|]. apply Hs. rewrite Eq, <- app_assoc. reflexivity. }
  assert (HI2 : Inv c d2 p2 (sstep c (after c es) EBegin)) by (eapply Inv_step; try eassumption; apply (Hs2 [] body eq_refl)).
  assert (Ed : d = d0).
  { cbn [stepE] in E2. injection E2 as <- <-. eapply inner_same; try eassumption. }
  split; [exact Ed|]. intros sync d1 p1 H1 Ee. unfold endTran in Ee. apply bind_ok in Ee. destruct Ee as (u & _ & Ee).
  destruct (nested p =? 1) eqn:En; [destruct (batch p); [|discriminate]; injection Ee as <- _; subst d; cbn [append log]; eauto|].
  pose proof (run_Inv c body d2 p2 _ d p Hg HI2 E3 F4) as HI3.
  assert (HI4 : Inv c d p (fold_left (sstep c) body (sstep c (after c es) EBegin))) by (apply HI3; intros pre suf Eq; apply (Hs2 pre suf Eq)).
  pose proof (i_nested _ _ _ _ HI4) as Hn. unfold after in H1. rewrite fold_left_app in H1. cbn [fold_left] in H1. unfold after in Hn. rewrite H1 in Hn.
  rewrite Hn in En. discriminate.
Qed.
Print Assumptions C21_nested_commit_with_outermost.
