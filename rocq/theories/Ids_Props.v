(** C50: principals and collectors. *)
From Coq Require Import List Arith Bool Lia.
From Verif Require Import Ids_Model.
Import ListNotations.

Ltac ids := unfold classes, replicas, roReplicas, proxies, externals, services, internals, range, b2n in *; cbv zeta in *; cbn [In reps ros prox ext svc oper] in *; rewrite ?in_app_iff, ?in_seq in *; cbn [In] in *.
(** With an operator: every valid number is in exactly one class, and no other number is in any; the operator is an external client. *)
Theorem C50_one_class_each : forall c, oper c = true -> 1 <= ext c -> 1 <= reps c ->
  (forall id, id <= maxId c <-> exists l, In l (classes c) /\ In id l) /\
  (forall i j li lj id, nth_error (classes c) i = Some li -> nth_error (classes c) j = Some lj -> In id li -> In id lj -> i = j) /\
  In (operatorId c) (externals c) /\ NoDup (concat (classes c)).
Proof.
  intros [R O P E U op] OP EX RP. cbn in *. subst.
  assert (D : forall i j li lj id, nth_error (classes (mkC R O P E U true)) i = Some li -> nth_error (classes (mkC R O P E U true)) j = Some lj -> In id li -> In id lj -> i = j).
  { assert (M : forall i l id, nth_error (classes (mkC R O P E U true)) i = Some l -> In id l ->
      (i = 0 /\ id < R) \/ (i = 1 /\ R <= id < R + O) \/ (i = 2 /\ R + O <= id < R + O + P) \/
      (i = 3 /\ (R + O + P <= id < R + O + P + E - 1 \/ id = R + O + P + E + U - 1)) \/
      (i = 4 /\ R + O + P + E - 1 <= id < R + O + P + E + U - 1) \/ (i = 5 /\ R + O + P + E + U <= id)).
    { intros i l id A I. destruct i as [|[|[|[|[|[|i]]]]]]; [..|destruct i; discriminate A]; injection A as <-; ids; lia. }
    intros i j li lj id A B I J. apply (M _ _ _ A) in I. apply (M _ _ _ B) in J. lia. }
  split; [|split; [exact D|split]].
  - intros id. unfold maxId. cbn. split.
    + intros L. destruct (Nat.lt_ge_cases id R); [exists (replicas (mkC R O P E U true)); ids; intuition lia|].
      destruct (Nat.lt_ge_cases id (R + O)); [exists (roReplicas (mkC R O P E U true)); ids; intuition lia|].
      destruct (Nat.lt_ge_cases id (R + O + P)); [exists (proxies (mkC R O P E U true)); ids; intuition lia|].
      destruct (Nat.lt_ge_cases id (R + O + P + E - 1)); [exists (externals (mkC R O P E U true)); ids; split; [tauto|left; lia]|].
      destruct (Nat.lt_ge_cases id (R + O + P + E + U - 1)); [exists (services (mkC R O P E U true)); ids; intuition lia|].
      destruct (Nat.eq_dec id (R + O + P + E + U - 1)); [exists (externals (mkC R O P E U true)); ids; split; [tauto|right; left; lia]|].
      exists (internals (mkC R O P E U true)); ids; intuition lia.
    + intros (l & L & I). cbn [classes In] in L. destruct L as [<-|[<-|[<-|[<-|[<-|[<-|[]]]]]]]; ids; lia.
  - unfold operatorId. ids. right. left. lia.
  - assert (N : forall l : list (list nat), (forall x, In x l -> NoDup x) -> (forall i j li lj id, nth_error l i = Some li -> nth_error l j = Some lj -> In id li -> In id lj -> i = j) -> NoDup (concat l)).
    { induction l as [|x l IH]; intros A B; simpl; [constructor|].
      assert (Y : NoDup (concat l)) by (apply IH; [intros; apply A; now right|intros i j li lj id H1 H2 H3 H4; specialize (B (S i) (S j) li lj id H1 H2 H3 H4); lia]).
      assert (X : NoDup x) by (apply A; now left).
      assert (Z : forall id, In id x -> ~ In id (concat l)).
      { intros id I J. apply in_concat in J as (y & J & K). apply In_nth_error in J as (j & J). specialize (B 0 (S j) x y id eq_refl J I K). lia. }
      clear - X Y Z. induction X as [|a x H X IH]; simpl; auto. constructor; [rewrite in_app_iff; intros [?|?]; [tauto|apply (Z a); simpl; auto]|apply IH; intros id I; apply Z; now right]. }
    apply (N (classes (mkC R O P E U true))); [|exact D]. intros x [<-|[<-|[<-|[<-|[<-|[<-|[]]]]]]]; try apply seq_NoDup.
    unfold externals, range, b2n. cbn. apply NoDup_Add with (a := R + O + P + E + U - 1) (l := seq (R + O + P) (R + O + P + E - 1 - (R + O + P))); [|split; [apply seq_NoDup|rewrite in_seq; lia]].
    rewrite <- (app_nil_r (seq _ _)) at 1. apply Add_app.
Qed.
Print Assumptions C50_one_class_each.
(** Without an operator the last client service is an external client as well; with neither, the last proxy, or the last replica, becomes one. *)
Theorem C50_one_class_each_refuted : forall c, oper c = false -> (1 <= svc c -> exists id, In id (services c) /\ In id (externals c)) /\
  (svc c = 0 -> ext c = 0 -> prox c = 0 -> ros c = 0 -> 1 <= reps c -> exists id, In id (replicas c) /\ In id (externals c)).
Proof.
  intros [R O P E U op] OP. cbn in *. subst. split.
  - intros H. exists (R + O + P + E + U - 1). ids. split; [lia|]. right. left. lia.
  - intros -> -> -> -> H. exists (R - 1). ids. split; [lia|]. right. left. lia.
Qed.
Print Assumptions C50_one_class_each_refuted.
(** The number of the operator is then that of replica 0. *)
Theorem C50_operator_is_no_replica_refuted : forall c, oper c = false -> 1 <= reps c -> In (operatorId c) (replicas c).
Proof. intros [R O P E U op] OP H. cbn in *. subst. unfold operatorId. ids. lia. Qed.
Print Assumptions C50_operator_is_no_replica_refuted.

Lemma mod_small' a n : a < n -> a mod n = a. Proof. apply Nat.mod_small. Qed.
Lemma skip_cases n prim k : 3 <= n -> prim < n -> k < n ->
  skip n prim k = if prim <=? k then (if k + 1 =? n then (if prim =? 0 then 1 else 0) else k + 1) else k.
Proof.
  intros N P K. unfold skip. destruct (Nat.leb_spec prim k); [|easy]. destruct (Nat.eqb_spec (k + 1) n) as [E|E].
  - rewrite E, Nat.mod_same by lia. destruct (Nat.eqb_spec prim 0) as [->|Z]; cbn [Nat.eqb].
    + now rewrite mod_small' by lia.
    + destruct prim; [easy|reflexivity].
  - rewrite mod_small' by lia. destruct (Nat.eqb_spec (k + 1) prim); [lia|easy].
Qed.
(** The collectors of a number in a view are replicas, none of them the primary; they are different, and there are two if c > 0. *)
Theorem C50_collectors : forall f c v q, 1 <= f -> let n := 3 * f + 2 * c + 1 in let l := collectors n c v q in
  length l = (if c =? 0 then 1 else 2) /\ NoDup l /\ forall r, In r l -> r < n /\ r <> primary n v.
Proof.
  intros f c v q F n l. subst l. unfold collectors. assert (N : 4 <= n) by (unfold n; lia). assert (P : primary n v < n) by (apply Nat.mod_upper_bound; lia). set (prim := primary n v) in *. clearbody prim.
  assert (V : forall k, k < n -> skip n prim k < n /\ skip n prim k <> prim).
  { intros k K. rewrite skip_cases by lia. destruct (Nat.leb_spec prim k), (Nat.eqb_spec (k + 1) n), (Nat.eqb_spec prim 0); lia. }
  destruct (Nat.eqb_spec c 0) as [C|C].
  - split; [easy|]. split; [repeat constructor; easy|]. intros r [<-|[]]. apply V, Nat.mod_upper_bound. lia.
  - assert (N6 : 6 <= n) by (unfold n; lia). pose proof (Nat.div_mod n 2) as DM. pose proof (Nat.mod_upper_bound n 2) as MB. set (half := n / 2) in *. clearbody half.
    assert (Q : q mod half < half) by (apply Nat.mod_upper_bound; lia). set (k := q mod half) in *. clearbody k.
    split; [easy|]. split; [|intros r [<-|[<-|[]]]; apply V; lia]. repeat constructor; try easy. intros [E|[]]. rewrite !skip_cases in E by lia.
    destruct (Nat.leb_spec prim k), (Nat.leb_spec prim (k + half)), (Nat.eqb_spec (k + 1) n), (Nat.eqb_spec (k + half + 1) n), (Nat.eqb_spec prim 0); lia.
Qed.
Print Assumptions C50_collectors.
(** With c = 0 every other replica collects for some of any n consecutive numbers. *)
Theorem C50_all_collect : forall f v r q0, 1 <= f -> let n := 3 * f + 1 in r < n -> r <> primary n v -> exists q, q0 <= q < q0 + n /\ collectors n 0 v q = [r].
Proof.
  intros f v r q0 F n R NP. assert (P : primary n v < n) by (apply Nat.mod_upper_bound; lia). unfold collectors. cbn [Nat.eqb]. set (prim := primary n v) in *. clearbody prim.
  assert (H : exists k, k < n /\ skip n prim k = r).
  { destruct (Nat.lt_ge_cases r prim).
    - exists r. split; [easy|]. rewrite skip_cases by lia. destruct (Nat.leb_spec prim r); lia.
    - exists (r - 1). split; [lia|]. rewrite skip_cases by lia. destruct (Nat.leb_spec prim (r - 1)), (Nat.eqb_spec (r - 1 + 1) n), (Nat.eqb_spec prim 0); lia. }
  destruct H as (k & K & E). pose proof (Nat.div_mod q0 n) as DM. pose proof (Nat.mod_upper_bound q0 n) as MB.
  destruct (Nat.le_gt_cases (q0 mod n) k).
  - exists (q0 + (k - q0 mod n)). split; [lia|]. replace (q0 + (k - q0 mod n)) with (k + (q0 / n) * n) by lia. rewrite Nat.mod_add, mod_small' by lia. now rewrite E.
  - exists (q0 + (n - q0 mod n) + k). split; [lia|]. replace (q0 + (n - q0 mod n) + k) with (k + (q0 / n + 1) * n) by lia. rewrite Nat.mod_add, mod_small' by lia. now rewrite E.
Qed.
Print Assumptions C50_all_collect.

(** The example in the code's comment, and collectors for both kinds of configuration. *)
Definition ex : config := mkC 7 1 7 100 2 true.
Example one_class_ex : oper ex = true /\ externals ex = seq 15 99 ++ [116] /\ services ex = [114; 115] /\ operatorId ex = 116 /\ internals ex = seq 117 7 /\ maxId ex = 123.
Proof. vm_compute. repeat split. Qed.
Example collectors_ex : collectors 4 0 1 5 = [2] /\ collectors 4 0 0 7 = [1] /\ collectors 6 1 0 2 = [3; 1] /\ collectors 6 1 5 2 = [2; 0].
Proof. vm_compute. repeat split. Qed.
