(** C33: fetching blocks by state transfer. H is the digest function, prevDig reads the parent digest in an application block; the RVB manager is
    abstract (C23). The blocks asked for are first..last; tdig is the digest of block [last] reported by f+1 replicas (C22). *)
From Coq Require Import List Arith NArith Bool Lia.
From Verif Require Import Lib_Bytes StBlocks_Model StBlocks_Proofs StBlocks_Proofs2 StBlocks_Proofs3.
Import ListNotations.
Local Open Scope N_scope.

Section T.
Variable H : bytes -> bytes.
Variable prevDig : bytes -> bytes.
Variable RV : Type.
Variable stored : RV -> N -> option bytes.
Variable setRvb : RV -> bytes -> N -> N -> option RV.
Variable ub : RV -> N -> N -> N.
Variable rv0 : RV.
Variables (frs mcb maxBlock bufSize maxChunks maxPend : N) (tdig : bytes).
Notation run := (run H prevDig RV stored setRvb ub rv0 frs mcb maxBlock bufSize maxChunks maxPend tdig).
Notation step := (step H prevDig RV stored setRvb ub rv0 frs mcb maxBlock bufSize maxChunks maxPend tdig).
Notation start := (start RV ub rv0 frs mcb).
Notation D := (D H).
Variables first last : N.

(** chain: the blocks of a correct replica. Each carries the digest of its predecessor; tdig is the digest of the last one; the RVB manager only
    holds digests of that chain (C23). *)
Section Correct.
Variable chain : N -> bytes.
Hypothesis LINK : forall i, first <= i -> i < last -> prevDig (chain (i + 1)) = D i (chain i).
Hypothesis TD : tdig = D last (chain last).
Definition honestRv (r : RV) : Prop := forall id d, stored r id = Some d -> d = D id (chain id).
Hypothesis T0 : honestRv rv0.
Hypothesis TS : forall r b mn mx r', honestRv r -> setRvb r b mn mx = Some r' -> honestRv r'.

(** Whatever messages arrive from whatever sources, with crashes at any point: every block ever written is the chain's block of that number, unless
    one of the blocks written is a collision of the digest function. *)
Theorem C33_put_blocks_are_the_chain s0 s es : start first last = Some s0 -> run s0 es = Ok _ s ->
  (forall id b, In (id, b) (issued _ s) -> b = chain id) \/ (exists id b, In (id, b) (issued _ s) /\ b <> chain id /\ D id b = D id (chain id)).
Proof.
  intros E R. destruct (cor_run H prevDig RV stored setRvb ub rv0 frs mcb maxBlock bufSize maxChunks maxPend tdig first last chain LINK TD T0 TS es s0 s) as [C|C]; auto.
  - eapply cov_start; eauto.
  - left. eapply cor_start; eauto.
  - left. apply C.
Qed.
End Correct.

(** When the phase ends, every block first..last is in storage. *)
Theorem C33_all_blocks_stored s0 s es : start first last = Some s0 -> run s0 es = Ok _ s -> fin _ s = true ->
  forall id, first <= id -> id <= last -> exists b, In (id, b) (disk _ s).
Proof.
  intros E R F id A B. assert (C : Cov RV first last s) by (eapply cov_run; [eapply cov_start; eauto|eauto]). destruct C as (_ & _ & C). rewrite F in C. specialize (C id A B). apply in_map_iff in C. destruct C as ([i b] & <- & I). eauto.
Qed.
(** Before that, at every moment and so at every crash: the persistent first required block is in range and everything below it is in storage;
    what is in storage was put. *)
Theorem C33_first_required_persistent s0 s es : start first last = Some s0 -> run s0 es = Ok _ s ->
  incl (disk _ s) (issued _ s) /\ (fin _ s = false -> first <= firstR _ s <= last /\ lastR _ s = last /\ forall id, first <= id -> id < firstR _ s -> exists b, In (id, b) (disk _ s)).
Proof.
  intros E R. assert (C : Cov RV first last s) by (eapply cov_run; [eapply cov_start; eauto|eauto]). destruct C as (I & _ & C). split; [exact I|]. intros F. rewrite F in C. destruct C as (NZ & A & B & C & D0 & E0 & F1 & G & FL & K).
  split; [lia|]. split; [auto|]. intros id P Q. rewrite G in Q. specialize (K id P Q). apply in_map_iff in K. destruct K as ([i b] & <- & J). eauto.
Qed.
(** No event makes the processing loop run for ever. *)
Theorem C33_loop_ends s e : step s e <> Stuck _.
Proof. apply step_ends. Qed.

Hypothesis F0 : frs <> 0.
Hypothesis FM : frs <= mcb.
Hypothesis UB : forall r a b, a <= b -> a <= ub r a b /\ (ub r a b mod frs = 0 \/ b <= ub r a b).
(** Each batch asked for has at most maxNumberOfChunksInBatch blocks and ends with a block whose digest can be validated on its own: one with an RVB digest, or the last. *)
Theorem C33_batch_end s0 s es : start first last = Some s0 -> run s0 es = Ok _ s -> fin _ s = false ->
  fmin _ s <= fmax _ s < fmin _ s + mcb /\ (fmax _ s mod frs = 0 \/ fmax _ s = last).
Proof.
  intros E R F. assert (C : Cov RV first last s) by (eapply cov_run; [eapply cov_start; eauto|eauto]).
  assert (B : BE RV frs mcb last s) by (eapply be_run; [exact F0|exact FM|exact UB|eapply cov_start; eauto|eapply be_start; eauto|eauto]).
  destruct (B F) as (B1 & B2). destruct C as (_ & _ & C). rewrite F in C. destruct C as (NZ & A & B0 & C & D0 & _). split; [lia|]. destruct B1 as [B1|B1]; [left; apply N.eqb_eq; exact B1|auto].
Qed.

(** Progress with a correct source, messages in order and nothing lost: from the start of a batch in any reachable state, the whole batch is written and
    the replica moves on to the next one (or finishes). The digests of the RVB group may come with the first message if that block fits in it. *)
Section Honest.
Variable chain : N -> bytes.
Variables (mc : nat) (self q : N).
Hypothesis MC : (0 < mc)%nat.
Hypothesis Q0 : q <> 0.
Hypothesis LINK : forall i, first <= i -> i < last -> prevDig (chain (i + 1)) = D i (chain i).
Hypothesis TD : tdig = D last (chain last).
Hypothesis SZ : forall id, first <= id -> id <= last -> chain id <> [] /\ N.of_nat (length (chain id)) <= maxBlock /\ N.of_nat (nChunks mc (chain id)) <= maxChunks.
Hypothesis BB : maxBlock <= bufSize.
Hypothesis BP : maxBlock <= maxPend.
Hypothesis DZ : forall id, first <= id -> id <= last -> isZero (D id (chain id)) = false.
Theorem C33_honest_batch_partial s0 s es rvbs r' : start first last = Some s0 -> run s0 es = Ok _ s -> fin _ s = false ->
  fnext _ s = fmax _ s -> pend _ s = [] -> src _ s = Some self ->
  (length (sendBlocks mcb mc self q chain (fmax _ s) (N.to_nat (fmax _ s - fmin _ s + 1)) (fmin _ s) rvbs 0) <= N.to_nat mcb)%nat ->
  (rvbs = [] \/ nChunks mc (chain (fmax _ s)) = 1%nat) ->
  N.of_nat (length rvbs + length (chain (fmax _ s))) <= bufSize -> N.of_nat (length rvbs + length (chain (fmax _ s))) <= maxPend ->
  (if (length rvbs =? 0)%nat then r' = rv _ s else setRvb (rv _ s) rvbs (fmin _ s) (fmax _ s) = Some r') ->
  (forall id, fmin _ s <= id -> id <= fmax _ s -> id mod frs = 0 -> stored r' id = Some (D id (chain id))) ->
  exists s', run s (map (fun m => Recv m []) (sendBatch mcb mc self q chain (fmin _ s) (fmax _ s) rvbs)) = Ok _ s' /\
    (forall id b, In (id, b) (issued _ s') <-> (fmin _ s <= id <= fmax _ s /\ b = chain id) \/ In (id, b) (issued _ s)) /\
    (if fmax _ s =? last then fin _ s' = true else fin _ s' = false /\ firstR _ s' = fmax _ s + 1 /\ fmin _ s' = fmax _ s + 1 /\ fnext _ s' = fmax _ s' /\ pend _ s' = [] /\ src _ s' = Some self).
Proof.
  intros E R F FN P SR LEN R1 LB LP HR EX.
  assert (C : Cov RV first last s) by (eapply cov_run; [eapply cov_start; eauto|eauto]).
  assert (B : BE RV frs mcb last s) by (eapply be_run; [exact F0|exact FM|exact UB|eapply cov_start; eauto|eapply be_start; eauto|eauto]).
  destruct (B F) as (B1 & B2). pose proof C as (_ & _ & CC). rewrite F in CC. destruct CC as (NZ & A & B0 & CC & D0 & E0 & F1 & G & FL & K).
  unfold sendBatch. rewrite firstn_all2 by exact LEN. rewrite <- FN in R1, LB, LP |- *.
  destruct (recv_blocks H prevDig RV stored setRvb ub rv0 frs mcb maxBlock bufSize maxChunks maxPend tdig first last chain LINK TD mc self q MC Q0 F0 FM UB SZ BB BP DZ (N.to_nat (fnext _ s - fmin _ s + 1)) s (fmin _ s) rvbs 0 r') as (s' & RE & IS & X); auto; try lia.
  - split; auto.
  - intros id I1 I2 I3. apply EX; auto. apply N.eqb_eq. exact I3.
  - exists s'. split; [exact RE|]. split.
    + assert (UPT : forall n hi id b, N.of_nat n <= hi + 1 -> In (id, b) (upTo chain hi n) <-> (hi < id + N.of_nat n /\ id <= hi /\ b = chain id)).
      { induction n as [|n IHn]; intros hi id b Hn; [simpl; split; [tauto|lia]|]. cbn [upTo]. rewrite in_app_iff. destruct n as [|n].
        - cbn [upTo In]. split; [intros [[]|[X1|[]]]; inversion X1; subst; repeat split; lia|]. intros (X1 & X2 & X3). right. left. subst. f_equal; [lia|f_equal; lia].
        - rewrite IHn by lia. cbn [In]. split; [intros [X1|[X1|[]]]; [destruct X1 as (Y1 & Y2 & ->); repeat split; lia|inversion X1; subst; repeat split; lia]|]. intros (X1 & X2 & X3). destruct (N.eq_dec id hi) as [->|]; [right; left; congruence|left; repeat split; auto; lia]. }
      intros id b. rewrite IS, in_app_iff, UPT by lia. split; (intros [X1|X1]; [left|right; auto]); intuition lia.
    + rewrite <- FN in X. destruct (fnext _ s =? last); [exact X|]. destruct X as (X1 & X2 & X3 & X4 & X5 & X6). pose proof X1 as (_ & _ & X7). rewrite X2 in X7. destruct X7 as (_ & _ & _ & _ & _ & _ & _ & X7 & _). rewrite X7, X5. auto 10.
Qed.
End Honest.
End T.
Print Assumptions C33_put_blocks_are_the_chain.
Print Assumptions C33_all_blocks_stored.
Print Assumptions C33_first_required_persistent.
Print Assumptions C33_loop_ends.
Print Assumptions C33_batch_end.
Print Assumptions C33_honest_batch_partial.

(** * A concrete instance: four blocks, the digest of every second one validated through the RVB manager, which holds nothing at first and accepts exactly
    the digests of the chain. Blocks of at most 12 bytes, chunks of 6 bytes, batches of two messages or more. *)
Definition Hw (x : bytes) : bytes := le 4 (1 + fold_right N.add 0 x).
Definition pd (b : bytes) : bytes := firstn 4 b.
Fixpoint ch (body : bytes) (n : nat) : bytes := match n with O => [0;0;0;0;9] | Datatypes.S n => D Hw (N.of_nat n) (ch body n) ++ body end.
Definition chain (body : bytes) (id : N) : bytes := ch body (N.to_nat id).
Definition rvbsOf (body : bytes) (mn mx : N) : bytes :=
  flat_map (fun id => if (mn <=? id) && (id <=? mx) && isRvb 2 id then D Hw id (chain body id) else []) [1;2;3;4].
Definition storedW (body : bytes) (r : bool) (id : N) : option bytes := if r && isRvb 2 id && (id <=? 4) then Some (D Hw id (chain body id)) else None.
Definition setW (body : bytes) (r : bool) (b : bytes) (mn mx : N) : option bool := if beq b (rvbsOf body mn mx) then Some true else None.
Definition ubW (r : bool) (a b : N) := b.
Section I.
Variable body : bytes.
Variables (mcb maxBlock bufSize : N).
Definition runW := run Hw pd bool (storedW body) (setW body) ubW false 2 mcb maxBlock bufSize 4 100 (D Hw 4 (chain body 4)).
Definition startW := start bool ubW false 2 mcb 1 4.
(** The replica selects source 7 on its first timer tick, then the messages arrive. *)
Definition after (ms : list msg) : res bool := match startW with Some s => runW s (Tick [mkR Keep 7 false 0] :: map (fun m => Recv m (repeat (mkR Keep 8 false 0) 9)) ms) | None => Stuck _ end.
Definition batch (mn mx : N) : list msg := sendBatch mcb 6 7 5 (chain body) mn mx (rvbsOf body mn mx).
End I.

(** The hypotheses of the theorems above hold for it, and the transfer completes with all four blocks, the digests arriving with the first message. *)
Example C33_instance : let body := [1;2] in
  (forall i, 1 <= i -> i < 4 -> pd (chain body (i + 1)) = D Hw i (chain body i)) /\
  (forall id d, storedW body false id = Some d -> d = D Hw id (chain body id)) /\
  (forall r b mn mx r', (forall id d, storedW body r id = Some d -> d = D Hw id (chain body id)) -> setW body r b mn mx = Some r' -> forall id d, storedW body r' id = Some d -> d = D Hw id (chain body id)) /\
  match after body 4 12 20 (batch body 4 1 4) with Ok _ s => fin _ s = true /\ disk _ s = map (fun id => (id, chain body id)) [1;2;3;4] | _ => False end.
Proof.
  cbv zeta. split; [intros i A B; assert (i = 1 \/ i = 2 \/ i = 3) as [-> | [-> | ->]] by lia; reflexivity|]. split; [discriminate|].
  split; [intros r b mn mx r' _ _ id d; unfold storedW; destruct (r' && _ && _); [congruence|discriminate]|]. vm_compute. split; reflexivity.
Qed.
(** A crash after two blocks were put, of which one reached storage: the first required block is still 1, and a second run completes. *)
Example C33_instance_crash : let body := [1;2] in
  match startW 4 with
  | Some s => match runW body 4 12 20 s (Tick [mkR Keep 7 false 0] :: map (fun m => Recv m []) (firstn 2 (batch body 4 1 4)) ++ [Crash [false; true]]) with
              | Ok _ s => disk _ s = [(3, chain body 3)] /\ firstR _ s = 1 /\ issued _ s = [(3, chain body 3); (4, chain body 4)] /\
                  match runW body 4 12 20 s (Tick [mkR Keep 7 false 0] :: map (fun m => Recv m []) (batch body 4 1 4)) with Ok _ s => fin _ s = true | _ => False end
              | _ => False end
  | None => False end.
Proof. vm_compute. repeat split; reflexivity. Qed.

(** * What does not hold *)
(** A correct source whose first block needs two chunks and that has to send RVB digests is always blamed: the digests are stripped only if the message
    completing the block carries them (BCStateTran.cpp 3416, 2649), so the block is checked with the digests in front. *)
Theorem C33_two_chunk_first_block_refuted : exists body, (forall id, 1 <= id -> id <= 4 -> N.of_nat (length (chain body id)) <= 12) /\
  match after body 8 20 20 (batch body 8 1 4) with Ok _ s => src _ s = Some 8 /\ issued _ s = [] /\ fin _ s = false | _ => False end /\
  (* blocks that fit in one chunk are written *)
  match after [1;2] 8 20 20 (batch [1;2] 8 1 4) with Ok _ s => fin _ s = true | _ => False end.
Proof.
  exists [1;2;3;4]. split; [|vm_compute; repeat split; reflexivity]. intros id A B. assert (X : id = 1 \/ id = 2 \/ id = 3 \/ id = 4) by lia. destruct X as [X | [X | [X | X]]]; subst id; vm_compute; discriminate.
Qed.
Print Assumptions C33_two_chunk_first_block_refuted.
(** If the digests and the block together are longer than a block may be, such a correct source makes the destination abort (2889-2890). *)
Theorem C33_honest_abort_refuted : exists body, (forall id, 1 <= id -> id <= 4 -> N.of_nat (length (chain body id)) <= 12) /\ after body 8 12 20 (batch body 8 1 4) = Abort _.
Proof.
  exists [1;2;3;4]. split; [|vm_compute; reflexivity]. intros id A B. assert (X : id = 1 \/ id = 2 \/ id = 3 \/ id = 4) by lia. destruct X as [X | [X | [X | X]]]; subst id; vm_compute; discriminate.
Qed.
Print Assumptions C33_honest_abort_refuted.
(** A correct source sending a block of the maximal size with RVB digests in front makes the destination write behind its buffer, which has the size of
    the largest block (371-380): the check before the copy does not count the digests (2893-2896). *)
Theorem C33_honest_overrun_refuted : exists body, (forall id, 1 <= id -> id <= 4 -> N.of_nat (length (chain body id)) <= 6) /\ after body 4 6 6 (batch body 4 1 4) = Overrun _.
Proof.
  exists [1;2]. split; [|vm_compute; reflexivity]. intros id A B. assert (X : id = 1 \/ id = 2 \/ id = 3 \/ id = 4) by lia. destruct X as [X | [X | [X | X]]]; subst id; vm_compute; discriminate.
Qed.
Print Assumptions C33_honest_overrun_refuted.
(** A malicious source can abort the destination: the two loops of getNextFullBlock count the RVB digests differently. *)
Theorem C33_malicious_abort_refuted : exists ms, Forall (fun m => valid 4 m = true) ms /\ after [1;2] 4 10 20 ms = Abort _.
Proof.
  exists [mkMsg 7 true 5 4 2 1 false 5 (repeat 1 12); mkMsg 7 true 5 4 2 2 false 0 (repeat 1 3)]. split; [repeat constructor|vm_compute; reflexivity].
Qed.
Print Assumptions C33_malicious_abort_refuted.
(** It can also make it write behind the buffer, with a message whose announced RVB size is almost its own length. *)
Theorem C33_malicious_overrun_refuted : exists ms, Forall (fun m => valid 4 m = true) ms /\ after [1;2] 4 10 20 ms = Overrun _.
Proof. exists [mkMsg 7 true 5 4 1 1 false 20 (repeat 1 25)]. split; [repeat constructor|vm_compute; reflexivity]. Qed.
Print Assumptions C33_malicious_overrun_refuted.
(** A left-over chunk of a block that was just completed makes clearPendingItemsData advance the end iterator (2794-2813). *)
Theorem C33_leftover_chunk_refuted : exists m, valid 4 m = true /\ after [1;2] 4 12 20 (m :: batch [1;2] 4 1 4) = Overrun _.
Proof. exists (mkMsg 7 true 5 4 2 2 false 0 [1]). split; [reflexivity|vm_compute; reflexivity]. Qed.
Print Assumptions C33_leftover_chunk_refuted.
(** Messages of a correct source that arrive out of order: when the one with the digests comes last, the blocks completed after it in the same loop lose
    as many bytes: if they have as many the source is blamed, otherwise their size underflows. In order the same messages complete the transfer. *)
Definition body2 := [1;2;3;4;5;6].
Definition batchBig : list msg := sendBatch 4 10 7 5 (chain body2) 1 4 (rvbsOf body2 1 4).
Theorem C33_out_of_order_refuted :
  (exists p, (forall m, In m p <-> In m batchBig) /\ length p = length batchBig /\
   match after body2 4 12 20 p with Ok _ s => fin _ s = false /\ src _ s = Some 8 /\ issued _ s = [(4, chain body2 4)] | _ => False end) /\
  match after body2 4 12 20 batchBig with Ok _ s => fin _ s = true | _ => False end /\
  (exists p, (forall m, In m p <-> In m (batch [1;2] 4 1 4)) /\ length p = length (batch [1;2] 4 1 4) /\ after [1;2] 4 12 20 p = Overrun _).
Proof.
  split; [exists (rev batchBig); split; [intros m; rewrite <- in_rev; tauto|]; split; [apply rev_length|]; vm_compute; repeat split; reflexivity|].
  split; [vm_compute; reflexivity|]. exists (rev (batch [1;2] 4 1 4)). split; [intros m; rewrite <- in_rev; tauto|]. split; [apply rev_length|]. vm_compute. reflexivity.
Qed.
Print Assumptions C33_out_of_order_refuted.

(** * Assembling a block without range-validation digests *)
(** The pending messages are ordered by block and chunk number (operator of ItemDataMsg ordering, BCStateTran.hpp: compareItemDataMsg). *)
Fixpoint chunksRise (l : list msg) : Prop := match l with [] => True | m :: t => (forall m', In m' t -> mblk m' = mblk m -> mchk m < mchk m') /\ chunksRise t end.
Lemma scan_full_tot maxSize req : forall l tot maxc bsz T, tot <> 0 -> scan maxSize req tot maxc bsz l = ScFull T -> T = tot.
Proof.
  induction l as [|m t IH]; intros tot maxc bsz T Z; cbn [scan]; [discriminate|]. destruct (negb (mblk m =? req)); [discriminate|]. destruct (_ || _); [discriminate|].
  destruct (N.eqb_spec tot 0); [lia|]. destruct (_ || _ || _); [discriminate|]. destruct (_ <? _); [discriminate|]. destruct (negb _); [discriminate|].
  destruct (mchk m =? tot); [intros E; injection E as <-; auto|apply IH; auto].
Qed.
Lemma scan_no_abort maxSize req : forall l tot maxc bsz, (forall m, In m l -> mtot m <> 0 /\ mchk m <> 0) -> chunksRise l -> (forall m, In m l -> mblk m = req -> maxc < mchk m) ->
  scan maxSize req tot maxc bsz l <> ScAbort.
Proof.
  induction l as [|m t IH]; intros tot maxc bsz NZ CR Up; cbn [scan]; [discriminate|]. destruct (N.eqb_spec (mblk m) req) as [Er|]; cbn [negb]; [|discriminate].
  destruct (NZ m (or_introl eq_refl)) as [N1 N2]. destruct (N.eqb_spec (mtot m) 0); [lia|]. destruct (N.eqb_spec (mchk m) 0); [lia|]. cbn [orb].
  destruct (_ || _ || _); [discriminate|]. specialize (Up m (or_introl eq_refl) Er) as U0. destruct (N.ltb_spec (maxc + 1) (mchk m)); [discriminate|].
  destruct (N.eqb_spec (maxc + 1) (mchk m)) as [Ec|]; cbn [negb]; [|lia]. destruct (mchk m =? _); [discriminate|]. destruct CR as [C1 C2]. apply IH; auto.
  - intros m' I'. apply NZ. right. auto.
  - intros m' I' E'. apply C1; auto. congruence.
Qed.
Lemma scan_build maxSize bufSize req : maxSize <= bufSize -> forall l tot maxc bsz acc T, (forall m, In m l -> mrvb m = 0) -> scan maxSize req tot maxc bsz l = ScFull T -> bsz = N.of_nat (length acc) ->
  exists buf rest, build maxSize bufSize req T maxc acc l = FBlock buf rest /\ N.of_nat (length buf) <= maxSize.
Proof.
  intros Bs. induction l as [|m t IH]; intros tot maxc bsz acc T Rv; cbn [scan build]; [discriminate|]. intros E Eb.
  destruct (N.eqb_spec (mblk m) req) as [Er|]; cbn [negb] in E; [|discriminate]. destruct (N.eqb_spec (mtot m) 0) as [|Nt]; [discriminate|]. destruct (N.eqb_spec (mchk m) 0) as [|Nc]; [discriminate|]. cbn [orb] in E.
  pose proof (Rv m (or_introl eq_refl)) as R0. rewrite R0, !N.sub_0_r in *.
  set (tot' := if tot =? 0 then mtot m else tot) in *. destruct (N.eqb_spec tot' (mtot m)) as [Et|]; cbn [negb orb] in E; [|discriminate]. destruct (N.ltb_spec tot' (mchk m)); [discriminate|]. cbn [orb] in E.
  destruct (N.ltb_spec maxSize (bsz + dlen m)); [discriminate|]. destruct (maxc + 1 <? mchk m); [discriminate|]. destruct (N.eqb_spec (maxc + 1) (mchk m)) as [Ec|]; cbn [negb] in E; [|discriminate].
  assert (ET : T = tot') by (destruct (mchk m =? tot'); [injection E as <-; auto|eapply scan_full_tot; [|eauto]; lia]).
  cbn [negb orb]. rewrite <- Et, ET, N.eqb_refl. cbn [negb orb].
  rewrite <- Eb. destruct (N.ltb_spec maxSize (bsz + dlen m)); [lia|]. destruct (N.ltb_spec bufSize (bsz + dlen m)); [lia|]. destruct (mchk m =? tot') eqn:Em.
  - do 2 eexists. split; [reflexivity|]. rewrite app_length. unfold dlen in *. lia.
  - rewrite <- ET. eapply IH; eauto; [intros; apply Rv; right; auto|]. rewrite app_length. unfold dlen. lia.
Qed.
(** Messages that carry no range-validation digests never end the process, whatever their contents, order of arrival and sender: an assembled block
    has at most the configured size, and an oversized one is refused. With digests this fails: [C33_malicious_abort_refuted]. *)
Theorem C33_assembly_without_digests (maxSize bufSize req : N) (l : list msg) : maxSize <= bufSize -> chunksRise l ->
  (forall m, In m l -> mtot m <> 0 /\ mchk m <> 0 /\ mrvb m = 0) ->
  match nextFull maxSize bufSize req l with FAbort | FOverrun => False | FBlock buf _ => N.of_nat (length buf) <= maxSize | FNone | FBad => True end.
Proof.
  intros Bs CR Ok. unfold nextFull. pose proof (scan_no_abort maxSize req l 0 0 0) as A. destruct (scan maxSize req 0 0 0 l) eqn:E; auto.
  - destruct (scan_build maxSize bufSize req Bs l 0 0 0 [] tot) as (buf & rest & -> & L); auto. intros m I. apply Ok. auto.
  - apply A; auto; [intros m I; split; apply Ok; auto|]. intros m I _. assert (mchk m <> 0) by (apply Ok; auto). lia.
Qed.
Print Assumptions C33_assembly_without_digests.
Example assembled : match nextFull 5 5 4 [mkMsg 7 true 5 4 2 1 false 0 [1;2]; mkMsg 7 true 5 4 2 2 false 0 [3]; mkMsg 7 true 5 3 1 1 false 0 [9]] with FBlock buf rest => buf = [1;2;3] /\ length rest = 1%nat | _ => False end
  /\ nextFull 2 5 4 [mkMsg 7 true 5 4 2 1 false 0 [1;2]; mkMsg 7 true 5 4 2 2 false 0 [3]] = FBad.
Proof. vm_compute. auto. Qed.
