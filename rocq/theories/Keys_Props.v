(** C17. Database keys are collision free and order preserving, and the searches built on them find exactly what they are meant to find. *)
From Coq Require Import List Arith NArith ZArith Lia Bool.
From Verif Require Import Lib_Bytes Keys_Model Keys_Proofs.
Import ListNotations.
Local Open Scope N_scope.

(** Two different things are never stored under one key: blocks, tree nodes, stale index entries, non-provable values, metadata, pages, descriptors. *)
Theorem C17_collision_free a b : wf a -> wf b -> enc a = enc b -> a = b.
Proof. apply enc_inj. Qed.
Print Assumptions C17_collision_free.
(** The byte order of two keys is the intended order: by kind, then numerically by the fields (the specification [before]); for two non-provable keys if they have one length. *)
Theorem C17_order_preserving a b : wf a -> wf b -> sameLength a b -> (blt (enc a) (enc b) = true <-> before a b).
Proof. apply enc_order. Qed.
Print Assumptions C17_order_preserving.
Section Db.
Context {V : Type}.
Variable d : db V.
Hypothesis W : wfDb d.
(** A versioned read of a leaf finds the greatest stored version not above the requested one, whatever else the database contains. *)
Theorem C17_leaf_latest h v : hash32 h -> u64 v ->
  match getLeafAtMost d h v with
  | Some (k, x) => exists w, u64 w /\ w <= v /\ k = enc (KLeaf h w) /\ In (k, x) d /\ forall w' x', u64 w' -> w' <= v -> In (enc (KLeaf h w'), x') d -> w' <= w
  | None => forall w x, u64 w -> w <= v -> ~ In (enc (KLeaf h w), x) d
  end.
Proof. apply getLeafAtMost_spec; auto. Qed.
(** The same for values outside the tree, if all keys of such values have the same length. *)
Theorem C17_nonprovable_latest n key id : u64 id -> Forall isByte key -> length key = n ->
  (forall id' k' x, wf (KNonProvable id' k') -> In (enc (KNonProvable id' k'), x) d -> length k' = n) ->
  match getNonProvable d key id with
  | Some (x, w) => u64 w /\ w <= id /\ In (enc (KNonProvable w key), x) d /\ forall w' x', u64 w' -> w' <= id -> In (enc (KNonProvable w' key), x') d -> w' <= w
  | None => forall w x, u64 w -> w <= id -> ~ In (enc (KNonProvable w key), x) d
  end.
Proof. intros. eapply getNonProvable_spec; eauto. Qed.
(** At startup the last block is found: 0 exactly if there are no blocks (or only a block 0), otherwise the greatest block id stored. *)
Theorem C17_last_block : let l := loadLastReachable d in
  (l = 0 /\ (forall id x, u64 id -> In (enc (KBlock id), x) d -> id = 0)) \/ (u64 l /\ (exists x, In (enc (KBlock l), x) d) /\ forall id x, u64 id -> In (enc (KBlock id), x) d -> id <= l).
Proof. apply loadLastReachable_spec; auto. Qed.
(** And the first one, given that block ids start at 1. *)
Theorem C17_first_block : (forall x, ~ In (enc (KBlock 0), x) d) -> let g := loadGenesis d in
  (g = 0 /\ (forall id x, u64 id -> ~ In (enc (KBlock id), x) d)) \/ (u64 g /\ (exists x, In (enc (KBlock g), x) d) /\ forall id x, u64 id -> In (enc (KBlock id), x) d -> g <= id).
Proof. apply loadGenesis_spec; auto. Qed.
(** And the latest block received by state transfer. *)
Theorem C17_latest_state_transfer_block :
  match loadLatestTemp d with
  | Some l => u64 l /\ (exists x, In (enc (KTemp l), x) d) /\ forall id x, u64 id -> In (enc (KTemp id), x) d -> id <= l
  | None => forall id x, u64 id -> ~ In (enc (KTemp id), x) d
  end.
Proof. apply loadLatestTemp_spec; auto. Qed.
(** The scans used when a block is deleted return exactly the index entries of this version or block, each once. *)
Theorem C17_stale_scan ver : u64 ver ->
  NoDup (staleProvable d ver) /\ forall k, In k (staleProvable d ver) <-> (exists x, In (k, x) d) /\ exists j, wf j /\ rank j = 8%nat /\ staleSince j = ver /\ k = enc j.
Proof. apply staleProvable_spec; auto. Qed.
Theorem C17_stale_nonprovable_scan id : u64 id ->
  NoDup (staleNonProvable d id) /\ forall k, In k (staleNonProvable d id) <-> (exists x, In (k, x) d) /\ exists key, wf (KNonProvableStale id key) /\ k = enc (KNonProvableStale id key).
Proof. apply staleNonProvable_spec; auto. Qed.
Theorem C17_internal_scan ver : u64 ver ->
  NoDup (internalKeys d ver) /\ forall k, In k (internalKeys d ver) <-> (exists x, In (k, x) d) /\ exists path, wf (KInternal ver path) /\ k = enc (KInternal ver path).
Proof. apply internalKeys_spec; auto. Qed.
End Db.
Print Assumptions C17_leaf_latest. Print Assumptions C17_nonprovable_latest. Print Assumptions C17_last_block. Print Assumptions C17_first_block.
Print Assumptions C17_latest_state_transfer_block. Print Assumptions C17_stale_scan. Print Assumptions C17_stale_nonprovable_scan. Print Assumptions C17_internal_scan.
(** Without the length check of the constructor the search would fail: key "a" was written in block 1 and key "a" followed by eight zero bytes in block 7;
    reading "a" at block 5 finds nothing, because the other key lies between. *)
Definition mixedDb : db nat := [(enc (KNonProvable 1 [97]), 10%nat); (enc (KNonProvable 7 ([97] ++ be 8 4)), 20%nat)].
Theorem C17_nonprovable_mixed_lengths_refuted : wfDb mixedDb /\ In (enc (KNonProvable 1 [97]), 10%nat) mixedDb /\ getNonProvable mixedDb [97] 5 = None.
Proof.
  split; [|split; [left; reflexivity|vm_compute; reflexivity]]. split.
  - repeat constructor; eexists; (split; [|reflexivity]); (split; [reflexivity|]); repeat constructor.
  - vm_compute. repeat constructor; intros H; repeat (destruct H as [H|H]; try discriminate H); auto.
Qed.
Print Assumptions C17_nonprovable_mixed_lengths_refuted.
(** v1 databases use their own comparator: it is total on well-formed keys, agrees with the intended order, and 0 means equal keys. *)
Theorem C17_v1_comparator a b : wf1 a -> wf1 b -> exists z, cmp1 (enc1 a) (enc1 b) = Some z /\ ((z < 0)%Z <-> before1 a b) /\ (z = 0%Z <-> a = b) /\ ((0 < z)%Z <-> before1 b a).
Proof. apply cmp1_spec. Qed.
Print Assumptions C17_v1_comparator.
(** It is a strict weak order, as the storage engine requires. *)
Theorem C17_v1_transitive a b c x y : wf1 a -> wf1 b -> wf1 c -> cmp1 (enc1 a) (enc1 b) = Some x -> cmp1 (enc1 b) (enc1 c) = Some y -> (x < 0)%Z -> (y < 0)%Z ->
  exists z, cmp1 (enc1 a) (enc1 c) = Some z /\ (z < 0)%Z.
Proof.
  intros Wa Wb Wc E1 E2 L1 L2. destruct (cmp1_spec a b Wa Wb) as (x' & X & B1 & _). destruct (cmp1_spec b c Wb Wc) as (y' & Y & B2 & _). destruct (cmp1_spec a c Wa Wc) as (z & Z & B3 & _).
  rewrite E1 in X. rewrite E2 in Y. injection X as <-. injection Y as <-. exists z. split; auto. apply B3. apply B1 in L1. apply B2 in L2. clear - L1 L2. unfold before1 in *.
  destruct a, b, c; cbn [type1] in *; try (left; lia); destruct L1 as [L1|L1], L2 as [L2|L2]; try lia; try contradiction; right; try lia.
  destruct L1 as [L1|[-> L1]], L2 as [L2|[-> L2]]; auto. - left. eapply blt_trans; eauto. - right. split; auto. lia.
Qed.
Print Assumptions C17_v1_transitive.

(** Non-vacuity: a database with blocks, leaves of one hash at three versions, a neighbouring hash, stale and internal entries, and its searches. *)
Definition hA : bytes := repeat 7 32.
Definition hB : bytes := repeat 7 31 ++ [8].
Definition exDb : db nat :=
  [(enc (KBlock 1), 1%nat); (enc (KBlock 300), 2%nat); (enc (KLeaf hA 2), 3%nat); (enc (KLeaf hA 255), 4%nat); (enc (KLeaf hA 256), 5%nat); (enc (KLeaf hB 1), 6%nat);
   (enc (KTemp 301), 7%nat); (enc (KInternal 2 []), 8%nat); (enc (KInternal 2 [15; 3; 1]), 9%nat); (enc (KInternal 3 []), 10%nat);
   (enc (KStaleLeaf 4 hA 2), 11%nat); (enc (KStaleInternal 4 2 []), 12%nat); (enc (KNonProvable 9 [1; 2]), 13%nat); (enc (KNonProvable 300 [1; 2]), 14%nat); (enc (KMeta 3), 15%nat)].
Example exDb_wf : wfDb exDb.
Proof.
  split.
  - repeat constructor; eexists; (split; [|reflexivity]); cbn [wf]; repeat split; try reflexivity; try (simpl; lia); repeat constructor.
  - vm_compute. repeat constructor; intros H; repeat (destruct H as [H|H]; try discriminate H); auto.
Qed.
Example exDb_searches : getLeafAtMost exDb hA 255 = Some (enc (KLeaf hA 255), 4%nat) /\ getLeafAtMost exDb hA 1 = None /\ getLeafAtMost exDb hB 256 = Some (enc (KLeaf hB 1), 6%nat)
  /\ getNonProvable exDb [1; 2] 299 = Some (13%nat, 9) /\ loadLastReachable exDb = 300 /\ loadGenesis exDb = 1 /\ loadLatestTemp exDb = Some 301
  /\ internalKeys exDb 2 = [enc (KInternal 2 []); enc (KInternal 2 [15; 3; 1])] /\ staleProvable exDb 4 = [enc (KStaleInternal 4 2 []); enc (KStaleLeaf 4 hA 2)].
Proof. vm_compute. repeat split. Qed.
