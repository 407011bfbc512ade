(** C13: property theorems. *)
From Coq Require Import List Arith NArith Lia Bool.
From Verif Require Import Lib_Bytes Keys_Model Lib_CF Versioned_Model Versioned_Proofs.
Import ListNotations.
Local Open Scope N_scope.

(** For every hash function and every history of added, pruned and reverted blocks (inputs do not update and delete one key in one block;
    a last block is reverted only if no block pruned since it was added held the previous value of one of its keys): no operation fails and
    - the latest value of a key is the one written by the last block that wrote it, nothing if that block deleted it or its value was marked
      stale-on-update and the block is pruned;
    - a read at a block of the chain returns what this block wrote;
    - a read at a pruned block returns nothing or what that block wrote. *)
Theorem C13_reads_partial : forall (H : bytes -> bytes) os, allAllowed hinit os ->
  exists c, run H init os = Some c /\ let h := hrun hinit os in
    (forall k, latestSpec h k (getLatest (st c) k)) /\
    (forall k b, hgen h <= b <= hlen h -> vget (st c) k b = match at_ h k b with Some (Wrote d _) => Some (b, d) | _ => None end) /\
    (forall k b x, b < hgen h -> vget (st c) k b = Some x -> exists d, x = (b, d) /\ at_ h k b = Some (Wrote d false)).
Proof.
  intros H os A. destruct (inv_run H os hinit init (inv_init H) A) as (c & R & I). exists c. split; auto. cbv zeta. split; [|split].
  - intros k. eapply read_latest; eauto.
  - intros k b B. eapply read_at; eauto.
  - intros k b x B E. eapply read_old; eauto.
Qed.
Print Assumptions C13_reads_partial.
(** The specification determines the result of a latest read. *)
Theorem C13_latest_unique : forall h k r r', latestSpec h k r -> latestSpec h k r' -> r = r'.
Proof.
  intros h k [[p d]|] [[p' d']|]; cbn [latestSpec]; auto.
  - intros (L & s & W & _) (L' & s' & W' & _). assert (p = p') as <- by (eapply lastWriter_fun; eauto). congruence.
  - intros (L & s & W & G) [N|(p' & L' & [W'|(d' & W' & G')])]; [destruct (N _ L)| |]; assert (p = p') as <- by (eapply lastWriter_fun; eauto); [congruence|].
    rewrite W in W'. injection W' as -> ->. specialize (G eq_refl). lia.
  - intros [N|(p & L & [W|(d & W & G)])] (L' & s' & W' & G'); [destruct (N _ L')| |]; assert (p = p') as <- by (eapply lastWriter_fun; eauto); [congruence|].
    rewrite W in W'. injection W' as -> <-. specialize (G' eq_refl). lia.
Qed.
Print Assumptions C13_latest_unique.
(** Reads of many keys return, at every position, what the read of that key returns. *)
Theorem C13_multi_reads : forall s ks,
  multiGetLatest s ks = Some (map (getLatest s) ks) /\
  forall vs, length ks = length vs -> multiGet s ks vs = Some (map (fun p => vget s (fst p) (snd p)) (combine ks vs)).
Proof. intros s ks. split; [apply multiGetLatest_spec|]. intros vs E. apply multiGet_spec; auto. Qed.
Print Assumptions C13_multi_reads.

(** A history that meets the conditions: two keys, a deletion, a stale-on-update value, a pruning, a revert. *)
Definition kA : bytes := [1]. Definition kB : bytes := [2; 3]. Definition kC : bytes := [4].
Definition in1 := {| kv := [(kA, ([10], false)); (kB, ([20], false)); (kC, ([30], true))]; dels := []; wantHash := true |}.
Definition in2 := {| kv := [(kA, ([11], false))]; dels := [kB]; wantHash := true |}.
Definition in3 := {| kv := [(kA, ([12], false)); (kB, ([22], false))]; dels := []; wantHash := true |}.
Definition empty := {| kv := []; dels := []; wantHash := false |}.
Lemma bounded_small (k : bytes) : (length k < 10)%nat -> N.of_nat (length k) < 256 ^ 4.
Proof. intros. assert (N.of_nat (length k) < 10) by lia. apply N.lt_trans with 10; auto. reflexivity. Qed.
Lemma good1 : goodInput in1. Proof. repeat split; cbn; repeat constructor; cbn; intuition (try discriminate; subst; try (apply bounded_small; cbn; lia)). Qed.
Lemma good2 : goodInput in2. Proof. repeat split; cbn; repeat constructor; cbn; intuition (try discriminate; subst; try discriminate; try (apply bounded_small; cbn; lia)). Qed.
Lemma good3 : goodInput in3. Proof. repeat split; cbn; repeat constructor; cbn; intuition (try discriminate; subst; try (apply bounded_small; cbn; lia)). Qed.
Lemma small n : n < 100 -> n < tagBit. Proof. intros. apply N.lt_trans with 100; auto. Transparent tagBit. reflexivity. Qed. Opaque tagBit.
Definition demo := [Add in1; Add in2; DelGenesis; Add in3; DelLast; Add in3].
Example C13_hypotheses_met : allAllowed hinit demo /\ exists c, run (fun x => x) init demo = Some c /\
  getLatest (st c) kA = Some (3, [12]) /\ getLatest (st c) kC = None /\ vget (st c) kA 2 = Some (2, [11]) /\ vget (st c) kB 2 = None.
Proof.
  split.
  - cbn [allAllowed demo]. split; [split; [apply good1|apply small; reflexivity]|]. split; [split; [apply good2|apply small; reflexivity]|]. split; [reflexivity|].
    split; [split; [apply good3|apply small; reflexivity]|]. split; [split; [reflexivity|]|split; [split; [apply good3|apply small; reflexivity]|auto]].
    intros k p d _ _ _ P. exact P.
  - eexists. split; [vm_compute; reflexivity|]. repeat split; vm_compute; reflexivity.
Qed.


(** The stale keys of a block of the chain, as reported to the pruning code: exactly the keys the block deleted, wrote with the
    stale-on-update flag, or wrote and a later block of the chain wrote again. *)
Theorem C13_stale_keys_partial : forall (H : bytes -> bytes) os c b, allAllowed hinit os -> run H init os = Some c -> let h := hrun hinit os in
  hgen h <= b <= hlen h ->
  exists o l, outs c b = Some o /\ getBlockStaleKeys (st c) b o = Some l /\
    forall k, In k l <-> at_ h k b = Some Deleted \/ (exists d, at_ h k b = Some (Wrote d true)) \/
                         (at_ h k b <> None /\ exists b', b < b' <= hlen h /\ at_ h k b' <> None).
Proof.
  intros H os c b A R h B. destruct (inv_run H os hinit init (inv_init H) A) as (c' & R' & I). rewrite R in R'. injection R' as <-. fold h in I.
  destruct (vOuts _ _ _ I b B) as (i & g & Ei & Eo). exists (addOut H i).
  assert (G1 := vG1 _ _ _ I).
  assert (Gi : goodInput i) by (eapply good_in; eauto).
  assert (At : forall k, at_ h k b = writeOf i k) by (intros; eapply at_blocks; eauto; lia).
  assert (HO : forall k, cfGet (okeys (addOut H i)) k = flagsOf (at_ h k b)) by (intros; rewrite At; apply out_get; auto).
  assert (ND : NoDup (map fst (okeys (addOut H i)))) by apply sorted_NoDup, out_sorted.
  assert (SK : forall k w, at_ h k b = Some w -> exists p, lastWriter h k (hlen h) p /\ b <= p /\
     staleKey (st c) b (k, (isDel w, isStale w)) = Some (if isStale w || isDel w || (b <? p) then [k] else [])).
  { intros k w W. destruct (lat_of H h c k b I) as (p & w' & L & W' & P & _ & LV); [congruence|lia|].
    exists p. split; auto. split; auto. unfold staleKey. cbn [fst snd]. rewrite LV. destruct (N.ltb_spec p b); [lia|]. reflexivity. }
  assert (SQ : sequence (map (staleKey (st c) b) (okeys (addOut H i))) <> None).
  { apply sequence_some. intros [k fl] Ie. apply In_cfGet in Ie; auto. rewrite HO in Ie.
    destruct (at_ h k b) as [w|] eqn:W; [|cbn in Ie; discriminate]. destruct (SK k w W) as (p & _ & _ & E).
    assert (fl = (isDel w, isStale w)) as -> by (destruct w; cbn in Ie |- *; congruence). rewrite E. discriminate. }
  unfold getBlockStaleKeys. destruct (sequence _) as [l|] eqn:Sq; [|tauto]. exists l. split; auto. split; auto.
  destruct (sequence_flat _ _ _ Sq) as (f & -> & F).
  assert (Spec : forall k w, at_ h k b = Some w -> (isStale w || isDel w = true \/ exists b', b < b' <= hlen h /\ at_ h k b' <> None) <->
     In k (f (k, (isDel w, isStale w)))).
  { intros k w W. destruct (SK k w W) as (p & L & P & E).
    assert (Ie : In (k, (isDel w, isStale w)) (okeys (addOut H i))).
    { apply cfGet_In. rewrite HO, W. destruct w; reflexivity. }
    rewrite (F _ Ie) in E. injection E as E. rewrite E. destruct L as (L1 & L2 & L3). split.
    - intros [-> | (b' & B' & A')]; [now left|]. destruct (N.ltb_spec b p); [rewrite orb_true_r; now left|].
      destruct A'. apply L3. lia.
    - intros X. destruct (isStale w || isDel w) eqn:SD; [auto|]. right. cbn [orb] in X. destruct (N.ltb_spec b p); [|destruct X]. eauto. }
  intros k. rewrite in_flat_map. split.
  - intros ([k' fl] & Ie & X). assert (Ie' := Ie). apply In_cfGet in Ie'; auto. rewrite HO in Ie'.
    destruct (at_ h k' b) as [w|] eqn:W; [|cbn in Ie'; discriminate].
    assert (fl = (isDel w, isStale w)) as -> by (destruct w; cbn in Ie' |- *; congruence).
    assert (k = k') as <-.
    { destruct (SK k' w W) as (p & _ & _ & E). rewrite (F _ Ie) in E. injection E as E. rewrite E in X.
      destruct (isStale w || isDel w || (b <? p)); cbn [In] in X; intuition congruence. }
    apply (Spec k w W) in X. rewrite W. destruct X as [X|X].
    + destruct w as [d s|]; [|auto]. cbn in X. destruct s; [eauto|discriminate].
    + right; right. split; auto. discriminate.
  - intros X. destruct (at_ h k b) as [w|] eqn:W; [|destruct X as [X|[[d X]|[X _]]]; congruence].
    exists (k, (isDel w, isStale w)). split.
    + apply cfGet_In. rewrite HO, W. destruct w; reflexivity.
    + apply (Spec k w W). destruct X as [X|[[d X]|[_ X]]]; auto; left; injection X as ->; reflexivity.
Qed.
Print Assumptions C13_stale_keys_partial.
Example C13_stale_keys_met :
  (match run (fun x => x) init demo with
   | Some c => match outs c 2 with Some o => getBlockStaleKeys (st c) 2 o | None => None end
   | None => None
   end) = Some [kA; kB].
Proof. vm_compute. reflexivity. Qed.

(** Without the first condition the claim is false: a key updated and deleted in one block is readable, and lost when the block is pruned. *)
Definition both := {| kv := [(kA, ([10], false))]; dels := [kA]; wantHash := false |}.
Theorem C13_update_and_delete_refuted : forall H, exists c1 c2,
  run H init [Add both; Add empty] = Some c1 /\ getLatest (st c1) kA = Some (1, [10]) /\
  step H c1 DelGenesis = Some c2 /\ getLatest (st c2) kA = None.
Proof.
  intros H. eexists. eexists. split; [vm_compute; reflexivity|]. split; [vm_compute; reflexivity|]. split; [vm_compute; reflexivity|]. vm_compute. reflexivity.
Qed.
Print Assumptions C13_update_and_delete_refuted.
(** Without the second: kA is written by blocks 1 and 3; block 1 is pruned, block 3 is reverted; kA is lost although block 2 read it as [10]. *)
Theorem C13_revert_after_pruning_refuted : forall H, exists c1 c2 c3,
  run H init [Add in1; Add empty] = Some c1 /\ getLatest (st c1) kA = Some (1, [10]) /\
  run H c1 [Add in3; DelGenesis] = Some c2 /\ step H c2 DelLast = Some c3 /\ lastId c3 = lastId c1 /\ getLatest (st c3) kA = None.
Proof.
  intros H. eexists. eexists. eexists. split; [vm_compute; reflexivity|]. split; [vm_compute; reflexivity|]. split; [vm_compute; reflexivity|].
  split; [vm_compute; reflexivity|]. split; vm_compute; reflexivity.
Qed.
Print Assumptions C13_revert_after_pruning_refuted.

(** Proofs of values: for a block of the chain without deletions whose root hash was requested, every key-value of the block has a proof that
    evaluates to the root hash of the block. *)
Theorem C13_value_proofs_complete_partial : forall (H : bytes -> bytes) os c b i g key d s0, allAllowed hinit os -> run H init os = Some c -> let h := hrun hinit os in
  hgen h <= b <= hlen h -> nth_error (blocks h) (N.to_nat (b - 1)) = Some (i, g) -> sorted (kv i) -> dels i = [] -> wantHash i = true -> In (key, (d, s0)) (kv i) ->
  exists p out, outs c b = Some out /\ getProof H (st c) b key out = Some (Some p) /\ pfBlock p = b /\ pfKey p = key /\ pfValue p = d /\
    rootHash out = Some (calculateRootHash H p) /\ rootHash out = Some (H (flat_map (fun u => H (fst u) ++ H (fst (snd u))) (kv i))).
Proof.
  intros H os c b i g key d s0 A R h B Ei Sk D WH Ik. destruct (inv_run H os hinit init (inv_init H) A) as (c' & R' & I). assert (c' = c) as -> by congruence. fold h in I.
  destruct (vOuts _ _ _ I b B) as (i' & g' & E' & Ob). assert (i' = i) as -> by congruence.
  destruct (proof_complete H h c b i g key d s0 I B Ei Sk D WH Ik) as (p & P1 & P2 & P3 & P4 & P5). exists p, (addOut H i). repeat split; auto. unfold addOut. cbn [rootHash]. rewrite WH. auto.
Qed.
Print Assumptions C13_value_proofs_complete_partial.
Example C13_value_proofs_met : exists c p, run (fun x => x) init demo = Some c /\ outs c 3 = Some (addOut (fun x => x) in3) /\
  getProof (fun x => x) (st c) 3 kB (addOut (fun x => x) in3) = Some (Some p) /\ pfIndex p = 2%nat /\ sorted (kv in3).
Proof. eexists. eexists. split; [vm_compute; reflexivity|]. split; [reflexivity|]. split; [vm_compute; reflexivity|]. split; [reflexivity|]. cbn. intuition. subst. reflexivity. Qed.
(** A block with a deletion: asking for the proof of another key of the block ends in a failed assertion. *)
Theorem C13_proof_with_delete_refuted : forall H, exists c out, run H init [Add in1; Add in2] = Some c /\ outs c 2 = Some out /\
  vget (st c) kA 2 = Some (2, [11]) /\ getProof H (st c) 2 kA out = None.
Proof. intros H. eexists. eexists. split; [vm_compute; reflexivity|]. split; [vm_compute; reflexivity|]. split; vm_compute; reflexivity. Qed.
Print Assumptions C13_proof_with_delete_refuted.

(** What a proof that evaluates to the root hash shows: if its index is even and in range, the key-value is one of the hashed ones (or a collision
    of the hash function is at hand). *)
Theorem C13_value_proofs_sound_partial : forall (H : bytes -> bytes) p (kvs : list (bytes * (bytes * bool))), (forall x, length (H x) = 32%nat) -> Forall (fun x => length x = 32%nat) (pfHashes p) ->
  Nat.Even (pfIndex p) -> (pfIndex p <= length (pfHashes p))%nat -> calculateRootHash H p = H (flat_map (fun u => H (fst u) ++ H (fst (snd u))) kvs) ->
  (exists s, In (pfKey p, (pfValue p, s)) kvs) \/ exists x y, x <> y /\ H x = H y.
Proof. exact proof_sound. Qed.
Print Assumptions C13_value_proofs_sound_partial.
Example C13_value_proofs_sound_met : let H := fun x : bytes => firstn 32 (x ++ repeat 0 32) in
  (forall x, length (H x) = 32%nat) /\
  let p := {| pfBlock := 1; pfKey := kB; pfValue := [20]; pfIndex := 2; pfHashes := [H kA; H [10]] |} in
  calculateRootHash H p = H (flat_map (fun u : bytes * (bytes * bool) => H (fst u) ++ H (fst (snd u))) [(kA, ([10], false)); (kB, ([20], false))]) /\ Nat.Even (pfIndex p).
Proof. cbv zeta. split; [|split; [reflexivity|exists 1%nat; reflexivity]]. intros x. rewrite firstn_length, app_length, repeat_length. lia. Qed.
(** With an index out of range the evaluated hash does not depend on the key and value: any key-value has a proof. *)
Theorem C13_proof_index_out_of_range_refuted : forall (H : bytes -> bytes) k v b kvs, kvs <> [] ->
  calculateRootHash H {| pfBlock := b; pfKey := k; pfValue := v; pfIndex := 2 * length kvs + 1; pfHashes := flat_map (fun u : bytes * (bytes * bool) => [H (fst u); H (fst (snd u))]) kvs |}
  = H (flat_map (fun u : bytes * (bytes * bool) => H (fst u) ++ H (fst (snd u))) kvs).
Proof.
  intros H k v b kvs N. unfold calculateRootHash. cbn [pfHashes pfIndex pfKey pfValue].
  assert (L : length (flat_map (fun u : bytes * (bytes * bool) => [H (fst u); H (fst (snd u))]) kvs) = (2 * length kvs)%nat) by (clear; induction kvs; cbn [flat_map length app] in *; lia).
  destruct (flat_map (fun u : bytes * (bytes * bool) => [H (fst u); H (fst (snd u))]) kvs) as [|x l] eqn:E; [destruct kvs; [tauto|discriminate]|].
  rewrite <- E in *. rewrite rootLoop_end by lia. destruct (Nat.eqb_spec (2 * length kvs + 1) (length (flat_map (fun u : bytes * (bytes * bool) => [H (fst u); H (fst (snd u))]) kvs))); [lia|].
  rewrite app_nil_r. f_equal. clear. induction kvs; auto. cbn [flat_map concat app]. rewrite ?app_assoc. f_equal. auto.
Qed.
Print Assumptions C13_proof_index_out_of_range_refuted.
(** With an odd index the value of one key and the next key make a key-value. *)
Theorem C13_proof_odd_index_refuted : forall (H : bytes -> bytes) k1 v1 k2 v2,
  calculateRootHash H {| pfBlock := 1; pfKey := v1; pfValue := k2; pfIndex := 1; pfHashes := [H k1; H v2] |}
  = H (flat_map (fun u : bytes * (bytes * bool) => H (fst u) ++ H (fst (snd u))) [(k1, (v1, false)); (k2, (v2, false))]).
Proof. intros. unfold calculateRootHash. cbn. rewrite !app_nil_r, <- !app_assoc. auto. Qed.
Print Assumptions C13_proof_odd_index_refuted.
