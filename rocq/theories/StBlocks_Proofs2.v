From Coq Require Import List Arith NArith Bool Lia.
From Verif Require Import Lib_Bytes StBlocks_Model StBlocks_Proofs.
Import ListNotations.
Local Open Scope N_scope.

(** * The end of a batch *)
Lemma batchMax_spec RV ub frs mcb (r : RV) last m : frs <> 0 -> frs <= mcb -> m <> 0 -> m <= last ->
  (forall a b, a <= b -> a <= ub r a b /\ (ub r a b mod frs = 0 \/ b <= ub r a b)) ->
  let x := batchMax RV ub frs mcb r last m in m <= x /\ x <= last /\ x < m + mcb /\ (x mod frs = 0 \/ x = last).
Proof.
  intros F0 FM M0 ML UB. unfold batchMax, isRvb.
  set (y := m + mcb - 1). set (z := if y mod frs =? 0 then y else _).
  assert (Z : m <= z /\ z <= y /\ z mod frs = 0).
  { unfold z. destruct (N.eqb_spec (y mod frs) 0) as [E|E]; [assert (m <= y) by (unfold y; lia); repeat split; auto; lia|].
    pose proof (N.mod_lt y frs F0). pose proof (N.div_mod y frs F0) as DM. assert (y mod frs <= y) by (apply N.mod_le; auto).
    replace (y mod frs <=? y) with true by (symmetry; apply N.leb_le; auto). assert (MY : m <= y - y mod frs) by (revert H; generalize (y mod frs); unfold y; intros d H; lia). replace (m <=? y - y mod frs) with true by (symmetry; apply N.leb_le; exact MY). simpl.
    split; [exact MY|]. split; [apply N.le_sub_l|]. replace (y - y mod frs) with ((y / frs) * frs) by (rewrite N.mul_comm; revert DM; generalize (frs * (y / frs)) (y mod frs); intros; lia). apply N.mod_mul; auto. }
  destruct Z as (Z1 & Z2 & Z3). clearbody z. cbv zeta. destruct (UB m (N.min z last) ltac:(lia)) as (U1 & U2).
  assert (Y : y < m + mcb) by (unfold y; lia). clearbody y.
  destruct (N.le_ge_cases z last).
  - rewrite (N.min_l z last) in * by lia. destruct (N.le_ge_cases z (ub r m z)); [rewrite N.min_l by lia; repeat split; try lia; auto|rewrite N.min_r by lia].
    repeat split; try lia. destruct U2 as [U2|U2]; [auto|left]. replace (ub r m z) with z by lia. auto.
  - rewrite (N.min_r z last) in * by lia. destruct (N.le_ge_cases last (ub r m last)); [rewrite N.min_l by lia; repeat split; try lia; auto|rewrite N.min_r by lia].
    repeat split; try lia; destruct U2; auto; right; lia.
Qed.

(** * The loop always ends *)
Lemma clearBlk_len b l l' : clearBlk b l = Some l' -> (length l' <= length l)%nat.
Proof.
  revert l'. induction l as [l H] using (well_founded_induction (well_founded_ltof _ (@length msg))); intros l' E.
  destruct l as [|m t]; [inversion E; simpl; lia|]. unfold ltof in H. cbn [clearBlk] in E. destruct (mblk m =? b).
  - destruct t as [|n t]; [discriminate|]. destruct (clearBlk b t) eqn:EC; [|discriminate]. inversion E; subst. apply H in EC; [simpl; lia|simpl; lia].
  - destruct (clearBlk b t) eqn:EC; [|discriminate]. inversion E; subst. apply H in EC; simpl in *; lia.
Qed.
Lemma build_len ms bs req tot l : forall cur acc buf rest, build ms bs req tot cur acc l = FBlock buf rest -> (length rest < length l)%nat.
Proof.
  induction l as [|m t IH]; intros cur acc buf rest E; [discriminate|]. cbn [build] in E. destruct (_ || _); [discriminate|]. destruct (ms <? _); [discriminate|]. destruct (bs <? _); [discriminate|].
  destruct (mchk m =? tot); [inversion E; simpl; lia|]. apply IH in E. simpl; lia.
Qed.
Lemma nextFull_len ms bs req l buf rest : nextFull ms bs req l = FBlock buf rest -> (length rest < length l)%nat.
Proof. unfold nextFull. destruct (scan _ _ _ _ _ _); try discriminate. apply build_len. Qed.
Lemma build_notBad ms bs req tot l : forall cur acc, build ms bs req tot cur acc l <> FBad.
Proof. induction l as [|m t IH]; intros cur acc E; [discriminate|]. cbn [build] in E. destruct (_ || _); [discriminate|]. destruct (ms <? _); [discriminate|]. destruct (bs <? _); [discriminate|]. destruct (mchk m =? tot); [discriminate|]. eapply IH; eauto. Qed.
Lemma nextFull_bad ms bs req l : nextFull ms bs req l = FBad -> l <> [].
Proof. intros E ->. discriminate. Qed.

Lemma arith_min a mc L r : (a < L)%nat -> N.of_nat (Nat.min (mc + a) L) = N.of_nat (Nat.min a L) + (N.of_nat r + N.of_nat (Nat.min mc (L - a)) - N.of_nat r).
Proof. intros. lia. Qed.
Lemma nextFull_nil a b c : nextFull a b c [] = FNone. Proof. reflexivity. Qed.

Section S.
Variable H : bytes -> bytes.
Variable prevDig : bytes -> bytes.
Variable RV : Type.
Variable stored : RV -> N -> option bytes.
Variable setRvb : RV -> bytes -> N -> N -> option RV.
Variable ub : RV -> N -> N -> N.
Variable rv0 : RV.
Variables (frs mcb maxBlock bufSize maxChunks maxPend : N) (tdig : bytes).
Notation st := (st RV).
Notation finalize := (finalize RV).
Notation finalizeAll := (finalizeAll RV).
Notation nextBatch := (nextBatch RV ub frs mcb).
Notation loop := (loop H prevDig RV stored setRvb ub frs mcb maxBlock bufSize tdig).
Notation checkBlock := (checkBlock H RV stored frs tdig).
Notation D := (D H).
Notation step := (step H prevDig RV stored setRvb ub rv0 frs mcb maxBlock bufSize maxChunks maxPend tdig).
Notation run := (run H prevDig RV stored setRvb ub rv0 frs mcb maxBlock bufSize maxChunks maxPend tdig).
Notation start := (start RV ub rv0 frs mcb).
Notation Cov := (Cov RV).

Lemma finalize_pend k : forall s s', finalize k s = Some s' -> pend _ s' = pend _ s.
Proof.
  induction k as [|k IH]; intros s s' E; simpl in E; destruct (io _ s) as [|[id b] r]; try (inversion E; subst; reflexivity).
  destruct (negb _); [discriminate|]. destruct (cnext _ s =? fmin _ s). - destruct (_ && _); [|discriminate]. inversion E; reflexivity. - apply IH in E. exact E.
Qed.
Lemma nextBatch_pend s m s' : nextBatch s m = Some s' -> pend _ s' = pend _ s.
Proof. unfold StBlocks_Model.nextBatch. destruct (_ && _); [|discriminate]. intros E; inversion E; reflexivity. Qed.

Lemma loop_bad fuel its li rsz s : loop (Datatypes.S fuel) its true li rsz s <> Stuck _.
Proof.
  intros E. cbn [StBlocks_Model.loop orb] in E. match type of E with (if ?c then _ else _) = _ => destruct c; [discriminate|] end. cbn [pend setPend] in E. rewrite nextFull_nil in E.
  destruct (finalize _ _); discriminate.
Qed.
Lemma loop_ends fuel : forall its li rsz s, (length (pend _ s) < fuel)%nat -> loop fuel its false li rsz s <> Stuck _.
Proof.
  induction fuel as [|fuel IH]; intros its li rsz s L E; [lia|]. cbn [StBlocks_Model.loop] in E.
  set (mo := if false || match src _ s with Some _ => false | None => true end then Immediate (ralt (hd rnd0 its)) else rmode (hd rnd0 its)) in *.
  set (sx := match mo with Keep => s | Graceful r => setSrc _ s (Some r) | Immediate r => setPend _ (setSrc _ s (Some r)) [] end) in *.
  assert (LX : (length (pend _ sx) < Datatypes.S fuel)%nat) by (unfold sx; destruct mo; simpl; lia). clearbody sx. clearbody mo. clear L s. rename sx into s, LX into L.
  match type of E with (if ?c then _ else _) = _ => destruct c; [discriminate|] end.
  destruct (nextFull maxBlock bufSize (fnext _ s) (pend _ s)) as [| |buf rest| |] eqn:NF; try discriminate.
  - match type of E with (if ?c then _ else _) = _ => destruct c; [|discriminate] end. destruct (finalize _ _); discriminate.
  - apply nextFull_bad in NF. destruct fuel as [|fuel]; [destruct (pend _ s); [congruence|simpl in L; lia]|]. eapply loop_bad; eauto.
  - apply nextFull_len in NF. destruct fuel as [|fuel]; [lia|]. destruct (N.of_nat (length buf) <? rsz); [discriminate|].
    match type of E with match ?c with Some _ => _ | None => _ end = _ => destruct c as [r|]; [|eapply loop_bad; eauto] end.
    destruct (checkBlock _ _ _); [|eapply loop_bad; eauto|discriminate]. destruct (finalize _ _) as [s1|] eqn:EF; [|discriminate]. apply finalize_pend in EF. cbn [pend setPend setRv] in EF.
    destruct (_ && _). { destruct (finalizeAll s1); [|discriminate]. destruct (_ && _); discriminate. }
    destruct (maxBlock <? _); [discriminate|]. destruct (clearBlk _ _) as [p|] eqn:EC; [|discriminate]. apply clearBlk_len in EC. rewrite EF in EC.
    match type of E with match ?x with _ => _ end = _ => destruct x as [s4|] eqn:EN; [|discriminate] end.
    assert (P4 : pend _ s4 = p). { destruct (fnext _ s1 =? fmin _ s1); [|inversion EN; reflexivity]. destruct (_ <=? _); [|discriminate]. destruct (finalizeAll _) as [s3|] eqn:EA; [|discriminate]. apply finalize_pend in EA. apply nextBatch_pend in EN. rewrite EN, EA. reflexivity. }
    destruct (_ || _); [discriminate|]. eapply IH; [|exact E]. rewrite P4. lia.
Qed.
Lemma step_ends s e : step s e <> Stuck _.
Proof.
  unfold StBlocks_Model.step. destruct (fin _ s); [discriminate|]. destruct e; [destruct (_ && _); [|discriminate]; destruct (emplace _ _); [|discriminate]| | |]; try (apply loop_ends; lia).
  destruct (nextBatch _ _); discriminate.
Qed.

(** * Finalizing succeeds *)
Lemma finalize_total k : forall s nx, flight _ s nx -> fmin _ s <= nx + 1 -> fmin _ s <= cnext _ s -> fmin _ s <> 0 -> (nx + 1 = fmin _ s -> fmax _ s + 1 <= lastR _ s) -> exists s', finalize k s = Some s'.
Proof.
  induction k as [|k IH]; intros s nx (FM & FL & FC) L0 L1 NZ LR; cbn [StBlocks_Model.finalize].
  - destruct (io _ s) as [|[]]; eauto.
  - destruct (io _ s) as [|[id b] r] eqn:IO; [eauto|]. cbn [map fst length down] in FM. inversion FM as [[E1 E2]]. rewrite N.eqb_refl. cbn [negb]. cbn [length] in FL. destruct (N.eqb_spec (cnext _ s) (fmin _ s)) as [CM|CM].
    + destruct r as [|x r]; [|cbn [length] in FL; lia]. cbn [length] in FL. replace (fmax _ s + 1 <=? lastR _ s) with true by (symmetry; apply N.leb_le; apply LR; lia). simpl. eauto.
    + apply (IH _ nx); simpl; auto; try lia. split; [simpl; auto|]. split; [simpl; lia|]. intros i A B. simpl in *. destruct (N.eq_dec i (cnext _ s)); [left; auto|right; apply FC; lia].
Qed.

(** * A correct source *)
Variables first last : N.
Variable chain : N -> bytes.
Hypothesis LINK : forall i, first <= i -> i < last -> prevDig (chain (i + 1)) = D i (chain i).
Hypothesis TD : tdig = D last (chain last).
Variables (mc : nat) (self q : N).
Hypothesis MC : (0 < mc)%nat.
Hypothesis Q0 : q <> 0.
Notation nChunks := (nChunks mc).
Notation chunk := (chunk mc).
Notation sendChunks := (sendChunks mcb mc self q).
Notation sendBlocks := (sendBlocks mcb mc self q).

Lemma nChunks_spec b : b <> [] -> (0 < nChunks b /\ (nChunks b - 1) * mc < length b <= nChunks b * mc)%nat.
Proof.
  intros NE. unfold StBlocks_Model.nChunks. assert (0 < length b)%nat by (destruct b; [congruence|simpl; lia]). pose proof (Nat.div_mod (length b) mc ltac:(lia)) as DM. pose proof (Nat.mod_upper_bound (length b) mc ltac:(lia)) as MU.
  destruct (Nat.eqb_spec (Nat.modulo (length b) mc) 0).
  - assert (0 < length b / mc)%nat by (destruct (length b / mc)%nat; lia). nia.
  - nia.
Qed.
Lemma chunk_len b i : (length (chunk b i) = Nat.min mc (length b - i * mc))%nat.
Proof. unfold StBlocks_Model.chunk. rewrite firstn_length, skipn_length. reflexivity. Qed.
Lemma chunks_concat b n : (concat (map (chunk b) (seq 0 n)) = firstn (n * mc) b)%nat.
Proof.
  induction n as [|n IH]; [reflexivity|]. rewrite seq_S, map_app, concat_app, IH. cbn [map concat]. rewrite app_nil_r. unfold StBlocks_Model.chunk. rewrite Nat.add_0_l.
  replace (Datatypes.S n * mc)%nat with (n * mc + mc)%nat by lia. rewrite <- (firstn_skipn (n * mc) b) at 3.
  destruct (Nat.le_gt_cases (n * mc) (length b)).
  - rewrite firstn_app, firstn_length_le by lia. rewrite (firstn_all2 (firstn _ _)) by (rewrite firstn_length; lia). f_equal. f_equal. lia.
  - rewrite (skipn_all2 b) by lia. rewrite firstn_nil, ?app_nil_r. rewrite (firstn_all2 b) by lia. rewrite firstn_all2 by lia. reflexivity.
Qed.

(** The i-th message of a block. *)
Definition cm (id : N) (b : bytes) (mn : N) (rvbs : bytes) (sent : N) (i : nat) : msg :=
  let r := if (i =? 0)%nat then rvbs else [] in
  mkMsg self true q id (N.of_nat (nChunks b)) (N.of_nat i + 1) ((mcb <=? sent + N.of_nat i + 1) || (id - 1 <? mn)) (N.of_nat (length r)) (r ++ chunk b i).
Lemma sendChunks_tl id b mn rvbs k : forall sent i, i <> 0%nat -> 
  sendChunks id b mn [] (sent + N.of_nat i) i k = map (cm id b mn rvbs sent) (seq i k).
Proof.
  induction k as [|k IH]; intros sent i R; [reflexivity|]. cbn [StBlocks_Model.sendChunks seq map]. f_equal.
  - unfold cm. destruct i; [congruence|]. reflexivity.
  - replace (sent + N.of_nat i + 1) with (sent + N.of_nat (Datatypes.S i)) by lia. apply IH. lia.
Qed.
Lemma sendChunks_cm id b mn rvbs k sent : sendChunks id b mn rvbs sent 0 k = map (cm id b mn rvbs sent) (seq 0 k).
Proof.
  destruct k as [|k]; [reflexivity|]. cbn [StBlocks_Model.sendChunks seq map]. f_equal.
  - unfold cm. simpl Nat.eqb. cbv iota. replace (sent + N.of_nat 0 + 1) with (sent + 1) by lia. reflexivity.
  - rewrite <- (sendChunks_tl id b mn rvbs k sent 1) by lia. reflexivity.
Qed.

Lemma cm_dlen id b mn rvbs sent i : dlen (cm id b mn rvbs sent i) = N.of_nat (length (if (i =? 0)%nat then rvbs else [])) + N.of_nat (length (chunk b i)).
Proof. unfold dlen, cm; cbn [mdata]. rewrite app_length, Nat2N.inj_add. reflexivity. Qed.

(** Scanning the chunks i..n-1, given that 0..i-1 were seen. *)
Lemma scan_chunks id b mn rvbs sent n : b <> [] -> N.of_nat (length b) <= maxBlock -> (n <= nChunks b)%nat -> forall k i, (i + k = n)%nat ->
  scan maxBlock id (if (i =? 0)%nat then 0 else N.of_nat (nChunks b)) (N.of_nat i) (N.of_nat (Nat.min (i * mc) (length b))) (map (cm id b mn rvbs sent) (seq i k)) =
  (if (k =? 0)%nat then ScPart (N.of_nat i) else if (n =? nChunks b)%nat then ScFull (N.of_nat n) else ScPart (N.of_nat n)).
Proof.
  intros NE LB NB k. destruct (nChunks_spec b NE) as (P1 & P2 & P3). induction k as [|k IH]; intros i IN; [reflexivity|]. cbn [seq map scan Nat.eqb].
  change (mblk (cm id b mn rvbs sent i)) with id. change (mtot (cm id b mn rvbs sent i)) with (N.of_nat (nChunks b)). change (mchk (cm id b mn rvbs sent i)) with (N.of_nat i + 1). rewrite N.eqb_refl. cbn [negb].
  destruct (N.eqb_spec (N.of_nat (nChunks b)) 0); [lia|]. destruct (N.eqb_spec (N.of_nat i + 1) 0); [lia|]. cbn [orb].
  replace (if (if (i =? 0)%nat then 0 else N.of_nat (nChunks b)) =? 0 then N.of_nat (nChunks b) else if (i =? 0)%nat then 0 else N.of_nat (nChunks b)) with (N.of_nat (nChunks b))
    by (destruct (i =? 0)%nat; [reflexivity|]; destruct (N.eqb_spec (N.of_nat (nChunks b)) 0); [lia|reflexivity]).
  cbv zeta. rewrite N.eqb_refl. cbn [negb orb]. destruct (N.ltb_spec (N.of_nat (nChunks b)) (N.of_nat i + 1)); [lia|]. cbn [orb].
  replace (N.of_nat (Nat.min (i * mc) (length b)) + (dlen (cm id b mn rvbs sent i) - mrvb (cm id b mn rvbs sent i))) with (N.of_nat (Nat.min (Datatypes.S i * mc) (length b))).
  2: { rewrite cm_dlen. unfold cm; cbn [mrvb]. rewrite chunk_len. assert (i * mc <= (nChunks b - 1) * mc)%nat by (apply Nat.mul_le_mono_r; lia). replace (Datatypes.S i * mc)%nat with (mc + i * mc)%nat by lia. apply arith_min. eapply Nat.le_lt_trans; [exact H1|exact P2]. }
  destruct (N.ltb_spec maxBlock (N.of_nat (Nat.min (Datatypes.S i * mc) (length b)))); [lia|]. destruct (N.ltb_spec (N.of_nat i + 1) (N.of_nat i + 1)); [lia|]. rewrite N.eqb_refl. cbn [negb].
  destruct (N.eqb_spec (N.of_nat i + 1) (N.of_nat (nChunks b))).
  - assert (k = 0%nat) by lia. subst k. destruct (Nat.eqb_spec n (nChunks b)); [f_equal; congruence|lia].
  - specialize (IH (Datatypes.S i) ltac:(lia)). cbn [Nat.eqb] in IH. replace (N.of_nat i + 1) with (N.of_nat (Datatypes.S i)) by lia. rewrite IH. destruct (Nat.eqb_spec k 0); [|reflexivity].
    destruct (Nat.eqb_spec n (nChunks b)); [lia|]. f_equal. lia.
Qed.
Lemma build_chunks id b mn rvbs sent : b <> [] -> N.of_nat (length rvbs + length b) <= bufSize -> N.of_nat (length b) <= maxBlock -> (rvbs = [] \/ nChunks b = 1%nat) -> forall k i, (i + k = nChunks b)%nat -> (0 < k)%nat ->
  build maxBlock bufSize id (N.of_nat (nChunks b)) (N.of_nat i) (concat (map (fun j => (if (j =? 0)%nat then rvbs else []) ++ chunk b j) (seq 0 i))) (map (cm id b mn rvbs sent) (seq i k)) =
  FBlock (concat (map (fun j => (if (j =? 0)%nat then rvbs else []) ++ chunk b j) (seq 0 (nChunks b)))) [].
Proof.
  intros NE LB LM R k. destruct (nChunks_spec b NE) as (P1 & P2 & P3). induction k as [|k IH]; intros i IN K0; [lia|]. cbn [seq map build].
  change (mblk (cm id b mn rvbs sent i)) with id. change (mtot (cm id b mn rvbs sent i)) with (N.of_nat (nChunks b)). change (mchk (cm id b mn rvbs sent i)) with (N.of_nat i + 1). rewrite !N.eqb_refl. cbn [negb orb].
  destruct (N.eqb_spec (N.of_nat i + 1) 0); [lia|]. cbn [orb].
  set (acc := concat (map _ (seq 0 i))).
  assert (AC : length acc = ((if (i =? 0)%nat then 0 else length rvbs) + Nat.min (i * mc) (length b))%nat).
  { unfold acc. clear - MC. induction i as [|i IHi]; [reflexivity|]. rewrite seq_S, map_app, concat_app, app_length, IHi. cbn [map concat Nat.eqb]. rewrite app_nil_r, app_length, Nat.add_0_l, chunk_len. destruct i; cbn [Nat.eqb length]; lia. }
  assert (DL := cm_dlen id b mn rvbs sent i). rewrite chunk_len in DL. assert (i * mc <= (nChunks b - 1) * mc)%nat by (apply Nat.mul_le_mono_r; lia).
  replace (maxBlock <? N.of_nat (length acc) + dlen (cm id b mn rvbs sent i) - mrvb (cm id b mn rvbs sent i)) with false.
  2: { symmetry. apply N.ltb_ge. unfold cm at 2; cbn [mrvb]. rewrite AC, DL. destruct R as [->|R]; [destruct (i =? 0)%nat; cbn [length]; lia|]. assert (i = 0)%nat by lia. subst i. cbn [Nat.eqb length]. lia. }
  replace (bufSize <? N.of_nat (length acc) + dlen (cm id b mn rvbs sent i)) with false. 2: { symmetry. apply N.ltb_ge. rewrite AC, DL. destruct (i =? 0)%nat; cbn [length]; lia. }
  change (mdata (cm id b mn rvbs sent i)) with ((if (i =? 0)%nat then rvbs else []) ++ chunk b i).
  assert (AE : acc ++ (if (i =? 0)%nat then rvbs else []) ++ chunk b i = concat (map (fun j => (if (j =? 0)%nat then rvbs else []) ++ chunk b j) (seq 0 (Datatypes.S i)))).
  { rewrite seq_S, map_app, concat_app. cbn [map concat]. rewrite app_nil_r. reflexivity. }
  rewrite AE. destruct (N.eqb_spec (N.of_nat i + 1) (N.of_nat (nChunks b))).
  - replace (nChunks b) with (Datatypes.S i) by lia. assert (k = 0)%nat by lia. subst k. reflexivity.
  - replace (N.of_nat i + 1) with (N.of_nat (Datatypes.S i)) by lia. apply IH; lia.
Qed.
Lemma chunks_full b rvbs : b <> [] -> concat (map (fun j => (if (j =? 0)%nat then rvbs else []) ++ chunk b j) (seq 0 (nChunks b))) = rvbs ++ b.
Proof.
  intros NE. destruct (nChunks_spec b NE) as (P1 & P2 & P3). destruct (nChunks b) as [|n] eqn:E; [lia|]. pose proof (chunks_concat b (Datatypes.S n)) as CC. rewrite firstn_all2 in CC by lia. cbn [seq map concat Nat.eqb] in *. rewrite <- app_assoc. f_equal. rewrite <- CC at 2. f_equal. f_equal.
  apply map_ext_in. intros j J. apply in_seq in J. destruct j; [lia|]. reflexivity.
Qed.
Lemma nextFull_part id b mn rvbs sent n : b <> [] -> N.of_nat (length b) <= maxBlock -> (n < nChunks b)%nat -> nextFull maxBlock bufSize id (map (cm id b mn rvbs sent) (seq 0 n)) = FNone.
Proof.
  intros NE LB L. unfold nextFull. pose proof (scan_chunks id b mn rvbs sent n NE LB ltac:(lia) n 0 ltac:(lia)) as E. cbn [Nat.eqb] in E. replace (N.of_nat (Nat.min (0 * mc) (length b))) with 0 in E by lia. change (N.of_nat 0) with 0 in E. rewrite E. destruct (Nat.eqb_spec n (nChunks b)); [lia|]. destruct (n =? 0)%nat; reflexivity.
Qed.
Lemma nextFull_full id b mn rvbs sent : b <> [] -> N.of_nat (length rvbs + length b) <= bufSize -> N.of_nat (length b) <= maxBlock -> (rvbs = [] \/ nChunks b = 1%nat) ->
  nextFull maxBlock bufSize id (map (cm id b mn rvbs sent) (seq 0 (nChunks b))) = FBlock (rvbs ++ b) [].
Proof.
  intros NE LB LM R. unfold nextFull. destruct (nChunks_spec b NE) as (P1 & P2 & P3). pose proof (scan_chunks id b mn rvbs sent (nChunks b) NE LM ltac:(lia) (nChunks b) 0 ltac:(lia)) as E. cbn [Nat.eqb] in E. replace (N.of_nat (Nat.min (0 * mc) (length b))) with 0 in E by lia. change (N.of_nat 0) with 0 in E. rewrite E.
  destruct (Nat.eqb_spec (nChunks b) 0); [lia|]. rewrite Nat.eqb_refl. pose proof (build_chunks id b mn rvbs sent NE LB LM R (nChunks b) 0 ltac:(lia) ltac:(lia)) as B. cbn [seq map concat] in B. change (N.of_nat 0) with 0 in B. rewrite B. f_equal. apply chunks_full; auto.
Qed.
Lemma emplace_end id b mn rvbs sent n : emplace (cm id b mn rvbs sent n) (map (cm id b mn rvbs sent) (seq 0 n)) = Some (map (cm id b mn rvbs sent) (seq 0 (Datatypes.S n))).
Proof.
  assert (G : forall k i, (i + k = n)%nat -> emplace (cm id b mn rvbs sent n) (map (cm id b mn rvbs sent) (seq i k)) = Some (map (cm id b mn rvbs sent) (seq i (Datatypes.S k)))).
  { induction k as [|k IH]; intros i E; [cbn [seq map emplace]; do 3 f_equal; lia|]. cbn [seq map emplace]. 
    assert (B1 : before (cm id b mn rvbs sent n) (cm id b mn rvbs sent i) = false) by (unfold before, cm; cbn [mblk mchk]; rewrite N.eqb_refl; apply N.ltb_ge; lia).
    assert (B2 : before (cm id b mn rvbs sent i) (cm id b mn rvbs sent n) = true) by (unfold before, cm; cbn [mblk mchk]; rewrite N.eqb_refl; apply N.ltb_lt; lia).
    rewrite B1, B2, IH by lia. reflexivity. }
  apply (G n 0%nat). lia.
Qed.
Lemma pendSize_chunks id b mn rvbs sent n : pendSize (map (cm id b mn rvbs sent) (seq 0 n)) <= N.of_nat (length rvbs + Nat.min (n * mc) (length b)).
Proof.
  assert (G : forall l, pendSize (map (cm id b mn rvbs sent) l) = fold_right (fun i a => dlen (cm id b mn rvbs sent i) + a) 0 l) by (induction l; simpl; congruence).
  assert (A : forall l x, pendSize (l ++ [x]) = pendSize l + dlen x) by (induction l; intros; simpl; [lia|rewrite IHl; lia]).
  clear G. enough (pendSize (map (cm id b mn rvbs sent) (seq 0 n)) = N.of_nat ((if (n =? 0)%nat then 0 else length rvbs) + Nat.min (n * mc) (length b))) by (destruct (n =? 0)%nat; lia).
  induction n as [|n IH]; [reflexivity|]. rewrite seq_S, map_app. cbn [map]. rewrite A, IH, Nat.add_0_l, cm_dlen, chunk_len. destruct n; cbn [Nat.eqb length]; lia.
Qed.

Hypothesis F0 : frs <> 0.
Hypothesis FM : frs <= mcb.
Hypothesis UB : forall r a b, a <= b -> a <= ub r a b /\ (ub r a b mod frs = 0 \/ b <= ub r a b).

Definition ready (s : st) : Prop :=
  Cov first last s /\ fin _ s = false /\ src _ s = Some self /\ (fnext _ s = fmax _ s \/ isZero (dnext _ s) = false).
Lemma ready_chk s : ready s -> negb ((negb (fmin _ s =? 0)) && (fmin _ s <=? fmax _ s) && (fmin _ s <=? fnext _ s) && (fnext _ s <=? fmax _ s) && (fnext _ s <=? cnext _ s) && ((fnext _ s =? fmax _ s) || negb (isZero (dnext _ s)))) = false.
Proof.
  intros ((_ & _ & C) & F & _ & Z). rewrite F in C. destruct C as (NZ & A & B & C & D0 & E0 & F1 & G & (_ & FL & _) & K).
  apply negb_false_iff. rewrite !andb_true_iff, !N.leb_le, negb_true_iff, N.eqb_neq. split; [repeat split; auto; lia|]. destruct Z as [Z|Z]; [rewrite Z, N.eqb_refl; reflexivity|rewrite Z; apply orb_true_r].
Qed.
Lemma ready_pend s p : ready s -> ready (setPend _ s p). Proof. auto. Qed.

Section B.
Variables (b : bytes) (mn : N) (rvbs : bytes) (sent : N).
Hypothesis NE : b <> [].
Hypothesis LM : N.of_nat (length b) <= maxBlock.
Hypothesis LB : N.of_nat (length rvbs + length b) <= bufSize.
Hypothesis LP : N.of_nat (length rvbs + length b) <= maxPend.
Hypothesis NC : N.of_nat (nChunks b) <= maxChunks.
Hypothesis R1 : rvbs = [] \/ nChunks b = 1%nat.
Notation c id := (cm id b mn rvbs sent).

Lemma recv_cm s i : ready s -> (i < nChunks b)%nat -> pend _ s = map (c (fnext _ s)) (seq 0 i) ->
  step s (Recv (c (fnext _ s) i) []) = processData H prevDig RV stored setRvb ub frs mcb maxBlock bufSize tdig [] (mlast (c (fnext _ s) i)) (mrvb (c (fnext _ s) i)) (setPend _ s (map (c (fnext _ s)) (seq 0 (Datatypes.S i)))).
Proof.
  intros R I P. pose proof R as ((_ & _ & C) & F & SR & Z). rewrite F in C. destruct C as (NZ & A & B & C & D0 & E0 & F1 & G & FL & K).
  destruct (nChunks_spec b NE) as (P1 & P2 & P3). assert (IM : (i * mc <= (nChunks b - 1) * mc)%nat) by (apply Nat.mul_le_mono_r; lia).
  assert (CL : (0 < length (chunk b i))%nat) by (rewrite chunk_len; lia).
  unfold StBlocks_Model.step. rewrite F. replace (valid maxChunks (c (fnext _ s) i)) with true.
  2: { symmetry. unfold valid. rewrite !andb_true_iff, !negb_true_iff, !N.eqb_neq, N.leb_le, N.ltb_lt. rewrite cm_dlen. unfold cm; cbn [mok mreq mblk mtot mchk mrvb]. clear IM P2 P3. destruct (i =? 0)%nat; cbn [length]; repeat split; auto; lia. }
  replace (relevant RV maxPend s (c (fnext _ s) i)) with true.
  2: { symmetry. unfold relevant. rewrite SR, P. pose proof (pendSize_chunks (fnext _ s) b mn rvbs sent (Datatypes.S i)) as PS. rewrite seq_S, map_app in PS.
       assert (AP : forall l x, pendSize (l ++ [x]) = pendSize l + dlen x) by (induction l; intros; simpl; [lia|rewrite IHl; lia]). cbn [map] in PS. rewrite AP, Nat.add_0_l in PS.
       unfold cm at 1 2 3; cbn [mfrom mblk]. rewrite N.eqb_refl, N.leb_refl. replace (fmin _ s <=? fnext _ s) with true by (symmetry; apply N.leb_le; auto). cbn [andb]. apply N.leb_le. lia. }
  cbn [andb]. rewrite P, emplace_end. reflexivity.
Qed.

Lemma recv_part s i : ready s -> (Datatypes.S i < nChunks b)%nat -> pend _ s = map (c (fnext _ s)) (seq 0 i) ->
  step s (Recv (c (fnext _ s) i) []) = Ok _ (setPend _ s (map (c (fnext _ s)) (seq 0 (Datatypes.S i)))).
Proof.
  intros R I P. rewrite recv_cm by (auto; lia). unfold processData. set (p := map _ (seq 0 (Datatypes.S i))) in *. replace (length (pend _ (setPend _ s p)) + 2)%nat with (Datatypes.S (length (pend _ (setPend _ s p)) + 1)) by lia.
  cbn [StBlocks_Model.loop hd orb]. pose proof R as (_ & _ & SR & _). replace (src _ (setPend _ s p)) with (Some self) by (symmetry; exact SR). cbv iota. cbn [rmode rnd0].
  rewrite (ready_chk (setPend _ s p) (ready_pend s p R)). cbn [fnext pend setPend]. unfold p. rewrite nextFull_part by auto.
  destruct (false || rsend rnd0 || mlast (c (fnext _ s) i)); [|reflexivity]. cbn [rready rnd0]. unfold StBlocks_Model.finalize. destruct (io _ _) as [|[]]; reflexivity.
Qed.

Lemma idle_round fuel its li rsz s : ready s -> pend _ s = [] -> its = [] -> loop (Datatypes.S fuel) its false li rsz s = Ok _ s.
Proof.
  intros R P ->. cbn [StBlocks_Model.loop hd orb]. pose proof R as (_ & _ & SR & _). rewrite SR. cbv iota. cbn [rmode rnd0]. rewrite (ready_chk s R), P, nextFull_nil. destruct (false || rsend rnd0 || li); [|reflexivity]. cbn [rready rnd0]. unfold StBlocks_Model.finalize. destruct (io _ s) as [|[]]; reflexivity.
Qed.
Variable r' : RV.
Lemma recv_last s i : ready s -> Datatypes.S i = nChunks b -> pend _ s = map (c (fnext _ s)) (seq 0 i) ->
  (if (length rvbs =? 0)%nat then r' = rv _ s else setRvb (rv _ s) rvbs (fmin _ s) (fmax _ s) = Some r') ->
  checkBlock (setRv _ s r') (fnext _ s) b = COk -> (fnext _ s <> fmin _ s -> isZero (prevDig b) = false) ->
  exists s', step s (Recv (c (fnext _ s) i) []) = Ok _ s' /\ issued _ s' = (fnext _ s, b) :: issued _ s /\
  if (fnext _ s =? fmin _ s) && (lastR _ s =? fmax _ s) then fin _ s' = true
  else Cov first last s' /\ fin _ s' = false /\ pend _ s' = [] /\ src _ s' = Some self /\ rv _ s' = r' /\
    if fnext _ s =? fmin _ s then fmin _ s' = fmax _ s + 1 /\ fnext _ s' = fmax _ s'
    else fmin _ s' = fmin _ s /\ fmax _ s' = fmax _ s /\ fnext _ s' = fnext _ s - 1 /\ dnext _ s' = prevDig b.
Proof.
  intros R I P HR CK PZ. rewrite recv_cm by (auto; lia). unfold processData. set (p := map _ (seq 0 (Datatypes.S i))) in *.
  assert (RS : mrvb (c (fnext _ s) i) = N.of_nat (length rvbs)). { unfold cm; cbn [mrvb]. destruct R1 as [->|R2]; [destruct (i =? 0)%nat; reflexivity|]. rewrite R2 in I. replace i with 0%nat by lia. reflexivity. }
  rewrite RS. clear RS. generalize (mlast (c (fnext _ s) i)). intros li.
  assert (LPn : (2 <= length p + 1)%nat) by (unfold p; rewrite map_length, seq_length; lia).
  replace (length (pend _ (setPend _ s p)) + 2)%nat with (Datatypes.S (length p + 1)) by (cbn [pend setPend]; lia). generalize dependent (length p + 1)%nat. intros fuel FU.
  cbn [StBlocks_Model.loop hd orb]. pose proof R as (CV & F & SR & _). replace (src _ (setPend _ s p)) with (Some self) by (symmetry; exact SR). cbv iota. cbn [rmode rnd0].
  rewrite (ready_chk (setPend _ s p) (ready_pend s p R)). cbn [fnext pend setPend]. unfold p. rewrite I. rewrite nextFull_full by auto.
  replace (N.of_nat (length (rvbs ++ b)) <? N.of_nat (length rvbs)) with false by (symmetry; apply N.ltb_ge; rewrite app_length; lia).
  rewrite Nat2N.id, firstn_app_exact, skipn_app_exact by reflexivity.
  match goal with |- context [match ?x with Some r => match checkBlock _ _ _ with COk => _ | CBad => _ | CAbort => _ end | None => _ end] => replace x with (Some r') end.
  2: { cbn [rv setPend fmin fmax]. destruct (Nat.eqb_spec (length rvbs) 0) as [E|E]; [rewrite E; simpl; congruence|]. replace (0 <? N.of_nat (length rvbs)) with true by (symmetry; apply N.ltb_lt; lia). symmetry; exact HR. }
  set (sr := setRv _ (setPend _ (setPend _ s (map (c (fnext _ s)) (seq 0 (nChunks b)))) []) r').
  change (checkBlock sr (fnext _ sr) b) with (checkBlock (setRv _ s r') (fnext _ s) b). rewrite CK. cbn [rready rnd0].
  replace (finalize 0 sr) with (Some sr) by (unfold StBlocks_Model.finalize; destruct (io _ sr) as [|[]]; reflexivity).
  assert (CR : Cov first last sr) by exact CV. assert (FR : fin _ sr = false) by exact F.
  assert (PZ' : fnext _ sr <> fmin _ sr -> isZero (prevDig b) = false) by exact PZ. clear PZ. change (fnext _ s) with (fnext _ sr). change (fmin _ s) with (fmin _ sr). change (lastR _ s) with (lastR _ sr). change (fmax _ s) with (fmax _ sr). change (issued _ s) with (issued _ sr).
  assert (PR : pend _ sr = []) by reflexivity. assert (SR' : src _ sr = Some self) by exact SR. assert (RR : rv _ sr = r') by reflexivity. clearbody sr. clear CV F SR CK HR P R s p I.
  pose proof CR as (_ & _ & C). rewrite FR in C. destruct C as (NZ & A & B & C & D0 & E0 & F1 & G & FL & K).
  assert (LC : fmin _ sr <= cnext _ sr) by (destruct FL as (_ & Y & _); lia).
  destruct ((fnext _ sr =? fmin _ sr) && (lastR _ sr =? fmax _ sr)) eqn:EL.
  - destruct (finalize_total (length (io _ sr)) sr _ FL ltac:(lia) LC NZ ltac:(lia)) as (s2 & E2). unfold StBlocks_Model.finalizeAll. rewrite E2.
    destruct (finalize_spec _ _ sr s2 _ FL ltac:(lia) LC F1 E2) as (SA & I1 & I2 & I3 & Z). destruct SA as (S1 & S2 & S3 & S4 & S5 & S6 & S7 & S8 & S9 & S10).
    assert (Q : io _ s2 = [] /\ cnext _ s2 = fnext _ s2).
    { destruct Z as [(_ & _ & _ & Z & _)|(Z1 & Z2 & Z3 & Z4 & Z5)]; [lia|]. assert (IO : io _ s2 = []). { destruct (io _ sr) as [|x l] eqn:IOE; [|destruct Z5 as [Z5 _]; [discriminate|lia|auto]]. destruct (io _ s2) as [|y l'] eqn:IOE2; auto. exfalso. apply (I3 y). left; auto. }
      split; auto. destruct Z2 as (_ & Z2 & _). rewrite IO in Z2. simpl in Z2. rewrite S3. lia. }
    destruct Q as [Q1 Q2]. rewrite Q1, Q2, N.eqb_refl. cbn [andb]. eexists. split; [reflexivity|]. cbn [issued fin]. rewrite S3, S10. auto.
  - replace (maxBlock <? N.of_nat (length b)) with false by (symmetry; apply N.ltb_ge; auto). rewrite PR. cbn [clearBlk].
    assert (EX : exists s4, (if fnext _ sr =? fmin _ sr then if fmax _ sr + 1 <=? lastR _ sr then match finalizeAll (issue prevDig RV sr b []) with None => None | Some s2 => nextBatch s2 (fmax _ sr + 1) end else None
       else Some (setFnext _ (issue prevDig RV sr b []) (fnext _ sr - 1))) = Some s4).
    { destruct (N.eqb_spec (fnext _ sr) (fmin _ sr)) as [EM|EM]; [|eauto]. cbn [andb] in EL. apply N.eqb_neq in EL. assert (LL : fmax _ sr + 1 <= lastR _ sr) by lia. replace (fmax _ sr + 1 <=? lastR _ sr) with true by (symmetry; apply N.leb_le; auto).
      assert (FL2 : flight _ (issue prevDig RV sr b []) (fnext _ sr - 1)). { destruct FL as (X & Y & W). unfold flight; simpl. rewrite map_app, X, app_length. simpl length. split; [|split; [lia|auto]]. rewrite down_app. simpl map. f_equal. f_equal. lia. }
      destruct (finalize_total (length (io _ (issue prevDig RV sr b []))) _ _ FL2 ltac:(simpl; lia) LC NZ ltac:(intros; exact LL)) as (s2 & E2). unfold StBlocks_Model.finalizeAll. rewrite E2.
      destruct (finalize_spec _ _ _ s2 _ FL2 ltac:(simpl; lia) LC F1 E2) as ((S1 & S2 & S3 & S4 & S5 & S6 & S7 & S8 & S9 & S10) & _). simpl in S3, S6. unfold StBlocks_Model.nextBatch.
      destruct (batchMax_spec RV ub frs mcb (rv _ s2) (lastR _ s2) (fmax _ sr + 1) F0 FM ltac:(lia) ltac:(lia) (UB (rv _ s2))) as (M1 & M2 & _).
      destruct (N.eqb_spec (fmax _ sr + 1) 0); [lia|]. replace (fmax _ sr + 1 <=? batchMax RV ub frs mcb (rv _ s2) (lastR _ s2) (fmax _ sr + 1)) with true by (symmetry; apply N.leb_le; auto). replace (fnext _ s2 <? mcb + (fmax _ sr + 1)) with true by (symmetry; apply N.ltb_lt; lia). simpl. eauto. }
    destruct EX as (s4 & E4). destruct (cov_issue prevDig RV ub frs mcb first last sr b [] s4 FR CR E4) as (CV4 & FV & IV & RV4 & PV & SV & _ & ST).
    exists s4. match goal with |- match ?x with Some _ => _ | None => _ end = _ /\ _ => replace x with (Some s4) by (symmetry; exact E4) end. split.
    + destruct (li || rsend rnd0 || false); [reflexivity|]. destruct fuel as [|fuel]; [lia|].
      assert (R4 : ready s4). { split; [exact CV4|]. split; [exact FV|]. split; [congruence|]. destruct (N.eqb_spec (fnext _ sr) (fmin _ sr)); [left; apply ST|right]. destruct ST as (_ & _ & _ & ->). auto. }
      apply idle_round; auto.
    + split; [auto|]. split; [auto|]. split; [auto|]. split; [auto|]. split; [congruence|]. split; [congruence|]. destruct (fnext _ sr =? fmin _ sr); [split; apply ST|]. exact ST.
Qed.

Definition recvs (l : list msg) : list ev := map (fun m => Recv m []) l.
Lemma run_app s l1 l2 s1 : run s l1 = Ok _ s1 -> run s (l1 ++ l2) = run s1 l2.
Proof. revert s. induction l1 as [|e l IH]; intros s E; simpl in *; [inversion E; reflexivity|]. destruct (step s e); try discriminate. auto. Qed.
Lemma recv_block s : ready s -> pend _ s = [] ->
  (if (length rvbs =? 0)%nat then r' = rv _ s else setRvb (rv _ s) rvbs (fmin _ s) (fmax _ s) = Some r') ->
  checkBlock (setRv _ s r') (fnext _ s) b = COk -> (fnext _ s <> fmin _ s -> isZero (prevDig b) = false) ->
  exists s', run s (recvs (sendChunks (fnext _ s) b mn rvbs sent 0 (nChunks b))) = Ok _ s' /\ issued _ s' = (fnext _ s, b) :: issued _ s /\
  if (fnext _ s =? fmin _ s) && (lastR _ s =? fmax _ s) then fin _ s' = true
  else Cov first last s' /\ fin _ s' = false /\ pend _ s' = [] /\ src _ s' = Some self /\ rv _ s' = r' /\
    if fnext _ s =? fmin _ s then fmin _ s' = fmax _ s + 1 /\ fnext _ s' = fmax _ s'
    else fmin _ s' = fmin _ s /\ fmax _ s' = fmax _ s /\ fnext _ s' = fnext _ s - 1 /\ dnext _ s' = prevDig b.
Proof.
  intros R P HR CK PZ. rewrite sendChunks_cm. destruct (nChunks_spec b NE) as (P1 & _). 
  assert (PRE : forall i, (i < nChunks b)%nat -> run s (recvs (map (c (fnext _ s)) (seq 0 i))) = Ok _ (setPend _ s (map (c (fnext _ s)) (seq 0 i)))).
  { induction i as [|i IH]; intros I. - simpl. rewrite <- P. destruct s; reflexivity.
    - rewrite seq_S, map_app. unfold recvs. rewrite map_app. erewrite run_app by (apply IH; lia). cbn [map StBlocks_Model.run]. rewrite Nat.add_0_l.
      pose proof (recv_part (setPend _ s (map (c (fnext _ s)) (seq 0 i))) i (ready_pend _ _ R) I eq_refl) as E. cbn [fnext setPend] in E. rewrite E. rewrite seq_S, map_app. reflexivity. }
  assert (EX : exists i, nChunks b = Datatypes.S i) by (exists (Nat.pred (nChunks b)); lia). destruct EX as (i & EN). rewrite EN. rewrite seq_S, map_app. unfold recvs. rewrite map_app. erewrite run_app by (apply PRE; lia). cbn [map]. rewrite Nat.add_0_l.
  destruct (recv_last (setPend _ s (map (c (fnext _ s)) (seq 0 i))) i (ready_pend _ _ R) (eq_sym EN) eq_refl HR CK PZ) as (s' & E & X). cbn [fnext setPend fmin fmax lastR issued] in E, X. exists s'. cbn [StBlocks_Model.run]. rewrite E. auto.
Qed.
End B.

(** A whole batch. *)
Hypothesis SZ : forall id, first <= id -> id <= last -> chain id <> [] /\ N.of_nat (length (chain id)) <= maxBlock /\ N.of_nat (nChunks (chain id)) <= maxChunks.
Hypothesis BB : maxBlock <= bufSize.
Hypothesis BP : maxBlock <= maxPend.
Hypothesis DZ : forall id, first <= id -> id <= last -> isZero (D id (chain id)) = false.
Definition expected (s : st) (r' : RV) : Prop := forall id, fmin _ s <= id -> id <= fmax _ s -> isRvb frs id = true -> stored r' id = Some (D id (chain id)).

Lemma check_good s : Cov first last s -> fin _ s = false -> expected s (rv _ s) ->
  ((fnext _ s = fmax _ s /\ (isRvb frs (fmax _ s) = true \/ fmax _ s = last)) \/ dnext _ s = D (fnext _ s) (chain (fnext _ s))) -> checkBlock s (fnext _ s) (chain (fnext _ s)) = COk.
Proof.
  intros (_ & _ & C) F EX DN. rewrite F in C. destruct C as (NZ & A & B & C & D0 & E0 & F1 & G & FL & K). destruct (SZ (fnext _ s) ltac:(lia) ltac:(lia)) as (N1 & _). pose proof (DZ (fnext _ s) ltac:(lia) ltac:(lia)) as DZ'.
  unfold StBlocks_Model.checkBlock. destruct (chain (fnext _ s)) as [|x l] eqn:EC; [congruence|]. rewrite <- EC in *. clear EC. assert (BR : forall z, beq z z = true) by (intros; apply beq_eq; reflexivity).
  destruct (isRvb frs (fnext _ s)) eqn:ER. { rewrite EX by auto. rewrite BR. reflexivity. }
  destruct ((fnext _ s =? fmax _ s) && (lastR _ s =? fmax _ s)) eqn:EM. { apply andb_true_iff in EM. destruct EM as [E1 E2]. apply N.eqb_eq in E1, E2. rewrite TD. replace last with (fnext _ s) by lia. rewrite BR. reflexivity. }
  destruct DN as [(D1 & [D2|D2])|DN]; [congruence| |].
  - rewrite D1, N.eqb_refl in EM. apply N.eqb_neq in EM. lia.
  - rewrite DN, DZ', BR. reflexivity.
Qed.

Fixpoint upTo (hi : N) (n : nat) : list (N * bytes) := match n with O => [] | Datatypes.S n => upTo (hi - 1) n ++ [(hi, chain hi)] end.
Lemma recv_blocks n : forall s mn rvbs sent r', ready s -> pend _ s = [] -> fnext _ s = fmin _ s + N.of_nat n - 1 -> (0 < n)%nat ->
  (rvbs = [] \/ nChunks (chain (fnext _ s)) = 1%nat) -> N.of_nat (length rvbs + length (chain (fnext _ s))) <= bufSize -> N.of_nat (length rvbs + length (chain (fnext _ s))) <= maxPend ->
  (if (length rvbs =? 0)%nat then r' = rv _ s else setRvb (rv _ s) rvbs (fmin _ s) (fmax _ s) = Some r') -> expected s r' ->
  ((fnext _ s = fmax _ s /\ (isRvb frs (fmax _ s) = true \/ fmax _ s = last)) \/ dnext _ s = D (fnext _ s) (chain (fnext _ s))) ->
  exists s', run s (recvs (sendBlocks chain (fnext _ s) n mn rvbs sent)) = Ok _ s' /\ issued _ s' = upTo (fnext _ s) n ++ issued _ s /\
  if fmax _ s =? last then fin _ s' = true else Cov first last s' /\ fin _ s' = false /\ pend _ s' = [] /\ src _ s' = Some self /\ fmin _ s' = fmax _ s + 1 /\ fnext _ s' = fmax _ s'.
Proof.
  induction n as [|n IH]; intros s mn rvbs sent r' R P FN N0 R1 LB LP HR EX DN; [lia|].
  pose proof R as (CV & F & SR & _). pose proof CV as (_ & _ & C). rewrite F in C. destruct C as (NZ & A & B & C & D0 & E0 & F1 & G & FL & K).
  destruct (SZ (fnext _ s) ltac:(lia) ltac:(lia)) as (N1 & N2 & N3).
  assert (LK : fnext _ s <> fmin _ s -> prevDig (chain (fnext _ s)) = D (fnext _ s - 1) (chain (fnext _ s - 1))). { intros NEQ. replace (fnext _ s) with (fnext _ s - 1 + 1) at 1 by lia. apply LINK; lia. }
  destruct (recv_block (chain (fnext _ s)) mn rvbs sent N1 N2 LB LP N3 R1 r' s R P HR) as (s1 & E1 & I1 & X).
  { apply (check_good (setRv _ s r')); auto. }
  { intros NEQ. rewrite LK by auto. apply DZ; lia. }
  cbn [StBlocks_Model.sendBlocks]. cbv zeta. unfold recvs. rewrite map_app. erewrite run_app by exact E1. rewrite A in X.
  destruct n as [|n].
  - assert (EM : fnext _ s = fmin _ s) by lia. rewrite EM, N.eqb_refl in X. cbn [andb] in X. cbn [StBlocks_Model.sendBlocks map StBlocks_Model.run upTo app]. exists s1. split; [reflexivity|]. split; [exact I1|].
    rewrite (N.eqb_sym (fmax _ s) last). destruct (last =? fmax _ s); [exact X|]. destruct X as (X1 & X2 & X3 & X4 & _ & X5 & X6). auto 10.
  - assert (EM : fnext _ s <> fmin _ s) by lia. apply N.eqb_neq in EM. rewrite EM in X. cbn [andb] in X. apply N.eqb_neq in EM. destruct X as (X1 & X2 & X3 & X4 & X5 & X6 & X7 & X8 & X9).
    assert (Q1 : ready s1) by (split; auto; split; auto; split; auto; right; rewrite X9, LK by auto; apply DZ; lia).
    assert (Q2 : fnext _ s1 = fmin _ s1 + N.of_nat (Datatypes.S n) - 1) by (rewrite X8, X6; lia).
    assert (Q3 : N.of_nat (length (@nil N) + length (chain (fnext _ s1))) <= maxBlock) by (rewrite X8; destruct (SZ (fnext _ s - 1) ltac:(lia) ltac:(lia)) as (_ & Q & _); cbn [length]; lia).
    destruct (IH s1 mn [] (sent + N.of_nat (nChunks (chain (fnext _ s)))) r' Q1 X3 Q2 (Nat.lt_0_succ n) (or_introl eq_refl) (N.le_trans _ _ _ Q3 BB) (N.le_trans _ _ _ Q3 BP) (eq_sym X5)) as (s2 & E2 & I2 & Y).
    + intros id. rewrite X6, X7. apply EX.
    + right. rewrite X9, X8. apply LK. auto.
    + rewrite X8 in E2. exists s2. split; [exact E2|]. rewrite X7 in Y. split; [|exact Y]. rewrite I2, I1, X8. cbn [upTo]. rewrite <- ?app_assoc. cbn [app]. rewrite <- ?app_assoc. reflexivity.
Qed.
End S.
