(** C23: the range validation tree (RangeValidationTree.cpp) and the check of digests received from a source (RVBManager.cpp). *)
From Coq Require Import List Arith NArith ZArith Bool Lia.
From Verif Require Import Lib_Bytes Rvt_Model Rvt_Spec Rvt_Proofs10 Rvt_Proofs11.
Import ListNotations.
Local Open Scope N_scope.

Lemma N1 : 1 <> 0. Proof. discriminate. Qed.
(** Any history of additions on the right and removals on the left runs without an assertion failing, for any K >= 2 and any hash. *)
Theorem C23_never_asserts H K M os s : 2 <= K -> (0 < M)%Z -> lrun None os s -> exists t, exec H K M empty os = Some t.
Proof. intros K2 M0 R. destruct (run_ok H K M K2 M0 os empty None s eq_refl R) as (t & E & _). eauto. Qed.
Print Assumptions C23_never_asserts.

(** The whole tree (every node, and everything computed from it) depends only on the blocks in range, not on how the tree got there. *)
Theorem C23_history_independent H K M os os' s t t' : 2 <= K -> (0 < M)%Z -> lrun None os s -> lrun None os' s ->
  exec H K M empty os = Some t -> exec H K M empty os' = Some t' -> sameTree t t'.
Proof.
  intros K2 M0 R R' E E'. destruct (run_ok H K M K2 M0 _ empty None s eq_refl R) as (u & EU & IU). destruct (run_ok H K M K2 M0 _ empty None s eq_refl R') as (w & EW & IW).
  assert (u = t) by congruence. assert (w = t') by congruence. subst. eapply inv_same; eauto.
Qed.
Print Assumptions C23_history_independent.

(** In particular removing everything that was there gives back the empty tree. *)
Theorem C23_removing_all_empties H K M os t : 2 <= K -> (0 < M)%Z -> lrun None os None -> exec H K M empty os = Some t -> t = empty.
Proof. intros K2 M0 R E. destruct (run_ok H K M K2 M0 _ empty None None eq_refl R) as (u & EU & IU). cbn [Inv] in IU. congruence. Qed.
Print Assumptions C23_removing_all_empties.

(** The root value: the contributions of the blocks in range, plus those of the tree's nodes, modulo M. *)
Theorem C23_root_value H K M os k l t : 2 <= K -> (0 < M)%Z -> lrun None os (Some (k, l)) -> exec H K M empty os = Some t ->
  exists L, isHeight K k (k + N.of_nat (length l) - 1) L /\ rootVal t = Some (rootSpec H K M k l L).
Proof. intros K2 M0 R E. destruct (run_ok H K M K2 M0 _ empty None _ eq_refl R) as (u & EU & IU). assert (u = t) by congruence. subst. apply (root_spec H K M K2 M0 1 N1 t k l IU). Qed.
Print Assumptions C23_root_value.

(** The height exists and is unique, so the formula determines the root value. *)
Theorem C23_height_unique K x y L L' : isHeight K x y L -> isHeight K x y L' -> L = L'.
Proof. intros (A & B & C) (A' & B' & C'). destruct (Nat.lt_trichotomy L L') as [X|[X|X]]; auto; exfalso; [apply (C' L); auto|apply (C L'); auto]; lia. Qed.
Print Assumptions C23_height_unique.

(** The value of a group of K blocks covers exactly the group's blocks that are in range. *)
Theorem C23_group_value H K M os k l t i : 2 <= K -> (0 < M)%Z -> lrun None os (Some (k, l)) -> exec H K M empty os = Some t -> k <= i -> i < k + N.of_nat (length l) ->
  let g := groupStart K i in
  parentVal K t i = Some ((iv H M (1%nat, g) + blockSum H M k l (groupFirst k g) (groupLast K k l g)) mod M)%Z.
Proof.
  intros K2 M0 R E I1 I2. destruct (run_ok H K M K2 M0 _ empty None _ eq_refl R) as (u & EU & IU). assert (u = t) by congruence. subst. apply (group_val H K M K2 1 N1 t k l i IU I1). unfold lastOf. lia.
Qed.
Print Assumptions C23_group_value.

(** Additions that do not continue the range, and removals that do not start at its first block, are refused. *)
Theorem C23_gaps_refused H K M os k l t d : 2 <= K -> (0 < M)%Z -> lrun None os (Some (k, l)) -> exec H K M empty os = Some t ->
  (forall i, i <> k + N.of_nat (length l) -> addRight H K M t i d = None) /\ (forall i, i <> k -> removeLeft H K M t i d = None).
Proof.
  intros K2 M0 R E. destruct (run_ok H K M K2 M0 _ empty None _ eq_refl R) as (u & EU & IU). assert (u = t) by congruence. subst. pose proof (inv_mx H K M K2 1 N1 t k l IU) as MX. destruct IU as (KZ & LN & v & L & (_ & _ & _ & _ & RR) & _).
  assert (LP : (0 < length l)%nat) by (destruct l; [congruence|simpl; lia]). destruct RR as (_ & _ & _ & RO & _ & MN & _). split; intros i NE.
  - unfold addRight. rewrite MX. unfold lastOf. destruct (N.ltb_spec 0 (k + N.of_nat (length l) - 1)); [|lia]. destruct (N.eqb_spec (k + N.of_nat (length l) - 1 + 1) i); [lia|]. reflexivity.
  - unfold removeLeft. rewrite RO, MN. destruct (N.eqb_spec (k - 1 + 1) i); [lia|]. reflexivity.
Qed.
Print Assumptions C23_gaps_refused.

(** Digests received from a source: what is accepted is for exactly the blocks of the requested group that are in range, and its contribution to the tree is the true one. *)
Theorem C23_group_check_sound_partial H K M F os k l t req mc data ds : 2 <= K -> (0 < M)%Z -> F <> 0 -> lrun None os (Some (k, l)) -> exec H K M empty os = Some t ->
  checkGroup H K M F t req mc data = Accept ds ->
  exists i, k <= i /\ i < k + N.of_nat (length l) /\ let g := groupStart K i in
    req = Some (1%nat, g) /\ map fst ds = map (fun i => i * F) (upto (groupFirst k g) (groupLast K k l g)) /\ (exists rest, data = ds ++ rest) /\
    (givenSum H M F ds mod M = blockSum H M k l (groupFirst k g) (groupLast K k l g) mod M)%Z.
Proof.
  intros K2 M0 F0 R E C. destruct (run_ok H K M K2 M0 _ empty None _ eq_refl R) as (u & EU & IU). assert (u = t) by congruence. subst.
  destruct (check_sound H K M K2 M0 F F0 t k l req mc data ds IU C) as (i & I1 & I2 & X). exists i. split; [auto|]. split; [|exact X]. unfold lastOf in I2. destruct IU as (KZ & _). lia.
Qed.
Print Assumptions C23_group_check_sound_partial.

(** The exact condition, when the ids are right: only the sum of the contributions is compared, never the digests one by one. *)
Theorem C23_group_check_exact H K M F os k l t i mc ds : 2 <= K -> (0 < M)%Z -> F <> 0 -> lrun None os (Some (k, l)) -> exec H K M empty os = Some t ->
  k <= i -> i < k + N.of_nat (length l) -> let g := groupStart K i in
  map fst ds = map (fun i => i * F) (upto (groupFirst k g) (groupLast K k l g)) -> groupLast K k l g * F <= mc ->
  (checkGroup H K M F t (Some (1%nat, g)) mc ds = Accept ds <->
   (givenSum H M F ds mod M = blockSum H M k l (groupFirst k g) (groupLast K k l g) mod M)%Z) /\
  (checkGroup H K M F t (Some (1%nat, g)) mc ds = Accept ds \/ checkGroup H K M F t (Some (1%nat, g)) mc ds = Reject).
Proof.
  intros K2 M0 F0 R E I1 I2 g ED MC. destruct (run_ok H K M K2 M0 _ empty None _ eq_refl R) as (u & EU & IU). assert (u = t) by congruence. subst.
  apply (check_exact H K M K2 M0 F F0 t k l i mc ds IU I1); auto. unfold lastOf. lia.
Qed.
Print Assumptions C23_group_check_exact.

(** The true digests of a group are accepted. *)
Theorem C23_true_digests_accepted H K M F os k l t i mc : 2 <= K -> (0 < M)%Z -> F <> 0 -> lrun None os (Some (k, l)) -> exec H K M empty os = Some t ->
  k <= i -> i < k + N.of_nat (length l) -> let g := groupStart K i in groupLast K k l g * F <= mc ->
  let ds := map (fun i => (i * F, digestOf k l i)) (upto (groupFirst k g) (groupLast K k l g)) in
  checkGroup H K M F t (Some (1%nat, g)) mc ds = Accept ds.
Proof.
  intros K2 M0 F0 R E I1 I2 g MC ds. assert (ED : map fst ds = map (fun i => i * F) (upto (groupFirst k g) (groupLast K k l g))) by (unfold ds; rewrite map_map; reflexivity).
  destruct (C23_group_check_exact H K M F os k l t i mc ds K2 M0 F0 R E I1 I2 ED MC) as ((_ & A) & _). apply A. f_equal. unfold givenSum, blockSum, ds. rewrite map_map. f_equal. apply map_ext. intros j. cbn [fst snd]. rewrite N.div_mul by auto. reflexivity.
Qed.
Print Assumptions C23_true_digests_accepted.

(** With one wrong digest, acceptance needs a collision of the hash (modulo M). *)
Theorem C23_one_wrong_digest_needs_collision H K M F os k l t i mc pre b x post : 2 <= K -> (0 < M)%Z -> F <> 0 -> lrun None os (Some (k, l)) -> exec H K M empty os = Some t ->
  k <= i -> i < k + N.of_nat (length l) -> let g := groupStart K i in groupLast K k l g * F <= mc ->
  let true_ := map (fun i => (i * F, digestOf k l i)) (upto (groupFirst k g) (groupLast K k l g)) in
  true_ = pre ++ (b, digestOf k l (b / F)) :: post ->
  checkGroup H K M F t (Some (1%nat, g)) mc (pre ++ (b, x) :: post) = Accept (pre ++ (b, x) :: post) ->
  hval H M (0%nat, b / F) x = hval H M (0%nat, b / F) (digestOf k l (b / F)).
Proof.
  intros K2 M0 F0 R E I1 I2 g MC true_ ET AC.
  assert (ED : map fst true_ = map (fun i => i * F) (upto (groupFirst k g) (groupLast K k l g))) by (unfold true_; rewrite map_map; reflexivity).
  assert (ED2 : map fst (pre ++ (b, x) :: post) = map (fun i => i * F) (upto (groupFirst k g) (groupLast K k l g))) by (rewrite <- ED, ET, !map_app; reflexivity).
  destruct (C23_group_check_exact H K M F os k l t i mc _ K2 M0 F0 R E I1 I2 ED2 MC) as ((A & _) & _). destruct (C23_group_check_exact H K M F os k l t i mc _ K2 M0 F0 R E I1 I2 ED MC) as ((B & _) & _).
  specialize (A AC). specialize (B (C23_true_digests_accepted H K M F os k l t i mc K2 M0 F0 R E I1 I2 MC)). rewrite <- B in A. rewrite ET in A. unfold givenSum in A. rewrite !map_app in A. cbn [map fst snd] in A.
  assert (ZA : forall u w, zsum (u ++ w) = (zsum u + zsum w)%Z) by (clear; unfold zsum; intros u w; induction u; cbn [app fold_right] in *; lia).
  rewrite !ZA in A. cbn [zsum fold_right] in A. fold (zsum (map (fun p : N * bytes => hval H M (0%nat, fst p / F) (snd p)) post)) in A.
  set (P := zsum (map _ pre)) in A. set (S := zsum (map _ post)) in A.
  pose proof (Rvt_Proofs5.hval_range H M M0 (0%nat, b / F) x) as R1. pose proof (Rvt_Proofs5.hval_range H M M0 (0%nat, b / F) (digestOf k l (b / F))) as R2.
  set (u := hval H M (0%nat, b / F) x) in *. set (w := hval H M (0%nat, b / F) (digestOf k l (b / F))) in *.
  assert (A2 : (((P + S) + u) mod M = ((P + S) + w) mod M)%Z) by (replace (P + S + u)%Z with (P + (u + S))%Z by ring; replace (P + S + w)%Z with (P + (w + S))%Z by ring; exact A).
  apply (mod_add_inj M) in A2; auto. rewrite !Z.mod_small in A2; auto.
Qed.
Print Assumptions C23_one_wrong_digest_needs_collision.

(** Block ids at or above the first block in range never make the check fail an assertion; a received block id 0 always does. *)
Theorem C23_group_check_no_abort H K M F os k l t req mc data : 2 <= K -> (0 < M)%Z -> F <> 0 -> lrun None os (Some (k, l)) -> exec H K M empty os = Some t ->
  (forall b d, In (b, d) data -> k * F <= b) -> checkGroup H K M F t req mc data <> Abort.
Proof. intros K2 M0 F0 R E A. destruct (run_ok H K M K2 M0 _ empty None _ eq_refl R) as (u & EU & IU). assert (u = t) by congruence. subst. apply (check_no_abort H K M K2 M0 F F0 t k l req mc data IU A). Qed.
Print Assumptions C23_group_check_no_abort.
Theorem C23_group_check_survives_any_data_refuted H K M F t req mc d : 1 <= K -> F <> 0 -> checkGroup H K M F t req mc [(0, d)] = Abort.
Proof. intros K1 F0. apply check_zero; auto. Qed.
Print Assumptions C23_group_check_survives_any_data_refuted.

(** setRvbData's span check: what an accepted tree satisfies, and what it does not: the tree may end before the blocks to be collected. *)
Theorem C23_span_check F lo hi minB maxB : spanOk F true lo hi minB maxB = true <-> lo <= nextRvb F minB /\ hi <= prevRvb F maxB.
Proof. unfold spanOk. rewrite andb_false_r. cbn [orb]. rewrite negb_true_iff, orb_false_iff, !N.ltb_ge. tauto. Qed.
Print Assumptions C23_span_check.
Theorem C23_accepted_tree_spans_collection_refuted : exists F lo hi minB maxB b, spanOk F true lo hi minB maxB = true /\ minB <= b <= maxB /\ b mod F = 0 /\ ~ (lo <= b <= hi).
Proof. exists 4, 4, 8, 3, 20, 16. split; [reflexivity|]. split; [lia|]. split; [reflexivity|lia]. Qed.
Print Assumptions C23_accepted_tree_spans_collection_refuted.

(** * A concrete case: the identity as hash, K = 2, blocks 2..4, and 5 added after 2 is gone. *)
Definition h0 (x : bytes) : bytes := x.
Example C23_ex_history : lrun None [Add 2 [7]; Add 3 [8]; Add 4 [9]; Rem 2 [7]; Add 5 [1]] (Some (3, [[8]; [9]; [1]])).
Proof. econstructor; [apply LFirst; discriminate|]. econstructor; [apply (LNext 2 [[7]])|]. econstructor; [apply (LNext 2 [[7]; [8]])|]. econstructor; [apply LDrop; discriminate|]. econstructor; [apply (LNext 3 [[8]; [9]])|]. constructor. Qed.
Example C23_ex_other_history : lrun None [Add 3 [8]; Add 4 [9]; Add 5 [1]] (Some (3, [[8]; [9]; [1]])).
Proof. econstructor; [apply LFirst; discriminate|]. econstructor; [apply (LNext 3 [[8]])|]. econstructor; [apply (LNext 3 [[8]; [9]])|]. constructor. Qed.
Example C23_ex_runs : (match exec h0 2 (2 ^ 400)%Z empty [Add 2 [7]; Add 3 [8]; Add 4 [9]; Rem 2 [7]; Add 5 [1]], exec h0 2 (2 ^ 400)%Z empty [Add 3 [8]; Add 4 [9]; Add 5 [1]] with
   | Some t, Some u => oZeq (rootVal t) (rootVal u) && negb (oZeq (rootVal t) None) && oZeq (parentVal 2 t 4) (parentVal 2 u 4) && Nat.eqb (match root t with Some r => fst r | None => 0%nat end) 3
   | _, _ => false end) = true.
Proof. vm_compute. reflexivity. Qed.
(** Two digests of one group can be exchanged for others with the same sum: here with the identity as hash. *)
Example C23_ex_sum_only : exists t, exec h0 2 (2 ^ 400)%Z empty [Add 3 [8]; Add 4 [9]; Add 5 [1]] = Some t /\
  checkGroup h0 2 (2 ^ 400)%Z 10 t (Some (1%nat, 3)) 100 [(30, [8]); (40, [9])] = Accept [(30, [8]); (40, [9])] /\
  checkGroup h0 2 (2 ^ 400)%Z 10 t (Some (1%nat, 3)) 100 [(30, [9]); (40, [8])] = Accept [(30, [9]); (40, [8])] /\
  checkGroup h0 2 (2 ^ 400)%Z 10 t (Some (1%nat, 3)) 100 [(30, [9]); (40, [9])] = Reject /\
  checkGroup h0 2 (2 ^ 400)%Z 10 t (Some (1%nat, 3)) 100 [(10, [9])] = Abort.
Proof. eexists. split; [vm_compute; reflexivity|]. repeat split; vm_compute; reflexivity. Qed.
