From Coq Require Import List Arith Lia Bool.
From Verif Require Import Lib_Sets Quorum_Model.
Import ListNotations.

Lemma replicaSet_incl n A : replicaSet n A -> incl A (seq 0 n).
Proof. intros [_ H] x Hx. rewrite Forall_forall in H. apply in_seq. specialize (H x Hx). lia. Qed.

Lemma common_honest n A B Z :
  replicaSet n A -> replicaSet n B -> length A + length B > n + length Z ->
  exists i, In i A /\ In i B /\ ~ In i Z.
Proof.
  intros HA HB HL.
  pose proof (inter_length (seq 0 n) A B (proj1 HA) (proj1 HB) (replicaSet_incl _ _ HA) (replicaSet_incl _ _ HB)) as HI.
  rewrite seq_length in HI.
  pose proof (minus_length (inter A B) Z (inter_NoDup _ _ (proj1 HA))) as HM.
  destruct (length_pos_In (minus (inter A B) Z)) as [x Hx]; [lia|].
  apply minus_In in Hx. destruct Hx as [Hx Hz]. apply inter_In in Hx. exists x. tauto.
Qed.

Lemma honest_overlap n A B Z :
  replicaSet n A -> replicaSet n B ->
  length A + length B <= n + length Z + length (minus (inter A B) Z).
Proof.
  intros HA HB.
  pose proof (inter_length (seq 0 n) A B (proj1 HA) (proj1 HB) (replicaSet_incl _ _ HA) (replicaSet_incl _ _ HB)) as HI.
  rewrite seq_length in HI.
  pose proof (minus_length (inter A B) Z (inter_NoDup _ _ (proj1 HA))) as HM. lia.
Qed.

Lemma slow_slow_lemma f c A B Z :
  replicaSet (nReplicas f c) A -> replicaSet (nReplicas f c) B -> length Z <= f ->
  slowQuorum f c <= length A -> slowQuorum f c <= length B ->
  exists i, In i A /\ In i B /\ ~ In i Z.
Proof. intros HA HB HZ LA LB. eapply common_honest; eauto. unfold nReplicas, slowQuorum in *. lia. Qed.

Lemma slow_fast_lemma f c A B Z :
  replicaSet (nReplicas f c) A -> replicaSet (nReplicas f c) B -> length Z <= f ->
  slowQuorum f c <= length A -> fastQuorum f c <= length B ->
  exists i, In i A /\ In i B /\ ~ In i Z.
Proof. intros HA HB HZ LA LB. eapply common_honest; eauto. unfold nReplicas, slowQuorum, fastQuorum in *. lia. Qed.

Lemma slow_vc_lemma f c A B Z :
  replicaSet (nReplicas f c) A -> replicaSet (nReplicas f c) B -> length Z <= f ->
  slowQuorum f c <= length A -> vcQuorum f c <= length B ->
  exists H, NoDup H /\ c + 1 <= length H /\ forall i, In i H -> In i A /\ In i B /\ ~ In i Z.
Proof.
  intros HA HB HZ LA LB. exists (minus (inter A B) Z). split; [|split].
  - apply minus_NoDup, inter_NoDup, HA.
  - pose proof (honest_overlap _ _ _ Z HA HB). unfold nReplicas, slowQuorum, vcQuorum in *. lia.
  - intros i Hi. apply minus_In in Hi. destruct Hi as [Hi Hz]. apply inter_In in Hi. tauto.
Qed.

Lemma fast_vc_lemma f c A B Z :
  replicaSet (nReplicas f c) A -> replicaSet (nReplicas f c) B -> length Z <= f ->
  fastQuorum f c <= length A -> vcQuorum f c <= length B ->
  exists H, NoDup H /\ f + c + 1 <= length H /\ forall i, In i H -> In i A /\ In i B /\ ~ In i Z.
Proof.
  intros HA HB HZ LA LB. exists (minus (inter A B) Z). split; [|split].
  - apply minus_NoDup, inter_NoDup, HA.
  - pose proof (honest_overlap _ _ _ Z HA HB). unfold nReplicas, fastQuorum, vcQuorum in *. lia.
  - intros i Hi. apply minus_In in Hi. destruct Hi as [Hi Hz]. apply inter_In in Hi. tauto.
Qed.

Lemma vc_vc_lemma f c A B Z :
  replicaSet (nReplicas f c) A -> replicaSet (nReplicas f c) B -> length Z <= f ->
  vcQuorum f c <= length A -> vcQuorum f c <= length B ->
  exists H, NoDup H /\ 2 * c + 1 <= length H /\ forall i, In i H -> In i A /\ In i B /\ ~ In i Z.
Proof.
  intros HA HB HZ LA LB. exists (minus (inter A B) Z). split; [|split].
  - apply minus_NoDup, inter_NoDup, HA.
  - pose proof (honest_overlap _ _ _ Z HA HB). unfold nReplicas, fastQuorum, vcQuorum in *. lia.
  - intros i Hi. apply minus_In in Hi. destruct Hi as [Hi Hz]. apply inter_In in Hi. tauto.
Qed.

Lemma complaint_honest_lemma f (A Z : list nat) : NoDup A -> length Z <= f -> complaintQuorum f <= length A ->
  exists i, In i A /\ ~ In i Z.
Proof.
  intros HA HZ HL. pose proof (minus_length A Z HA). unfold complaintQuorum in *.
  destruct (length_pos_In (minus A Z)) as [x Hx]; [lia|]. apply minus_In in Hx. exists x. tauto.
Qed.

Lemma available_lemma f c D :
  replicaSet (nReplicas f c) D ->
  exists H, replicaSet (nReplicas f c) H /\ (forall i, In i H -> ~ In i D) /\
    (length D <= f -> slowQuorum f c <= length H) /\
    (length D <= f -> vcQuorum f c <= length H) /\
    (length D <= f + c -> slowQuorum f c <= length H) /\
    (length D <= c -> fastQuorum f c <= length H) /\
    (length D = 0 -> optimisticQuorum f c <= length H).
Proof.
  intros HD. exists (minus (seq 0 (nReplicas f c)) D).
  assert (E : length (minus (seq 0 (nReplicas f c)) D) + length D = nReplicas f c).
  { rewrite minus_length_eq; [apply seq_length | apply seq_NoDup | apply HD | apply replicaSet_incl, HD]. }
  split; [split|split].
  - apply minus_NoDup, seq_NoDup.
  - apply Forall_forall. intros x Hx. apply minus_In in Hx. destruct Hx as [Hx _]. apply in_seq in Hx. lia.
  - intros i Hi. apply minus_In in Hi. tauto.
  - unfold slowQuorum, vcQuorum, fastQuorum, optimisticQuorum, nReplicas in *. repeat split; lia.
Qed.

Lemma mod_small_or a n : 0 < n -> a <= n -> (a mod n = a /\ a < n) \/ (a mod n = 0 /\ a = n).
Proof.
  intros Hn Ha. destruct (Nat.eq_dec a n) as [->|Hne].
  - right. split; [apply Nat.mod_same; lia | reflexivity].
  - left. split; [apply Nat.mod_small; lia | lia].
Qed.

Lemma skip_spec n p x : 2 <= n -> p < n -> x < n ->
  skipPrimary n p x < n /\ skipPrimary n p x <> p /\
  (x < p -> skipPrimary n p x = x) /\ (p <= x -> x + 1 < n -> skipPrimary n p x = x + 1) /\
  (x + 1 = n -> p <= x -> skipPrimary n p x = if p =? 0 then 1 else 0).
Proof.
  intros Hn Hp Hx. unfold skipPrimary.
  destruct (Nat.leb_spec p x) as [H|H]; [|repeat split; try lia].
  cbv zeta. destruct (mod_small_or (x+1) n) as [[E L]|[E L]]; [lia|lia| |]; rewrite E.
  - destruct (Nat.eqb_spec (x+1) p) as [H1|H1]; [lia|]. repeat split; lia.
  - destruct (Nat.eqb_spec 0 p) as [H1|H1].
    + destruct (mod_small_or (0+1) n) as [[E' L']|[E' L']]; [lia|lia| |]; [|lia]. rewrite E'. subst p. cbn. repeat split; lia.
    + destruct (Nat.eqb_spec p 0); repeat split; lia.
Qed.

Lemma collectors_lemma f c v s : 1 <= f + c ->
  let n := nReplicas f c in
  NoDup (collectors true f c v s) /\
  (forall i, In i (collectors true f c v s) -> i < n /\ i <> primaryOfView n v) /\
  length (collectors true f c v s) = (if c =? 0 then 1 else 2).
Proof.
  intros Hfc n. assert (Hn : 3 <= n) by (unfold n, nReplicas; lia).
  assert (Hp : primaryOfView n v < n) by (apply Nat.mod_upper_bound; lia).
  unfold collectors. cbn [negb]. fold n. destruct (Nat.eqb_spec c 0) as [Hc|Hc].
  - assert (Hx : s mod n < n) by (apply Nat.mod_upper_bound; lia).
    destruct (skip_spec n (primaryOfView n v) (s mod n) ltac:(lia) Hp Hx) as (A & B & _).
    split; [constructor; [simpl; tauto | constructor]|]. split; [|reflexivity].
    intros i [<-|[]]. split; assumption.
  - assert (Hh : 1 <= n / 2) by (apply Nat.div_le_lower_bound; lia).
    assert (Hh2 : 2 * (n / 2) <= n) by (apply Nat.mul_div_le; lia).
    assert (Hx : s mod (n / 2) < n / 2) by (apply Nat.mod_upper_bound; lia).
    set (h := n / 2) in *. set (x := s mod h) in *. set (p := primaryOfView n v) in *.
    destruct (skip_spec n p x ltac:(lia) Hp ltac:(lia)) as (A1 & B1 & C1 & D1 & E1).
    destruct (skip_spec n p (x + h) ltac:(lia) Hp ltac:(lia)) as (A2 & B2 & C2 & D2 & E2).
    assert (Hd : skipPrimary n p x <> skipPrimary n p (x + h)).
    { assert (Hcase : x < p \/ p <= x) by lia.
      assert (Hcase2 : x + h < p \/ p <= x + h) by lia.
      assert (Hcase3 : x + h + 1 < n \/ x + h + 1 = n) by lia.
      destruct Hcase as [Q1|Q1], Hcase2 as [Q2|Q2], Hcase3 as [Q3|Q3]; try lia.
      all: try (rewrite (C1 Q1)); try (rewrite (C2 Q2)); try (rewrite (D1 Q1) by lia); try (rewrite (D2 Q2 Q3)); try lia.
      all: rewrite (E2 Q3 Q2).
      - destruct (Nat.eqb_spec p 0); [lia|]. intro Ex. rewrite Ex in *.
        (* x = 0, h = n-1 *) assert (h = n - 1) by lia. lia.
      - destruct (Nat.eqb_spec p 0); lia. }
    split; [constructor; [simpl; intros [H|[]]; congruence | constructor; [simpl; tauto | constructor]]|].
    split; [|reflexivity]. intros i [<-|[<-|[]]]; split; assumption.
Qed.
