(** C29. Request numbers of one client are strictly increasing, whatever the clock does. *)
From Coq Require Import List ZArith Lia Bool.
From Verif Require Import SeqGen_Model.
Import ListNotations.
Open Scope Z_scope.

Lemma lor_add m c : 0 <= c < 2 ^ 22 -> Z.lor (m * 2 ^ 22) c = m * 2 ^ 22 + c.
Proof.
  intros H. assert (E : Z.land (m * 2 ^ 22) c = 0).
  { apply Z.bits_inj'. intros n Hn. rewrite Z.land_spec, Z.bits_0. destruct (Z.lt_ge_cases n 22).
    - rewrite Z.mul_pow2_bits_low; auto.
    - assert (T : Z.testbit c n = false); [|rewrite T; apply andb_false_r].
      destruct (Z.eq_dec c 0) as [->|]; [apply Z.bits_0|]. apply Z.bits_above_log2; [lia|]. assert (Z.log2 c < 22) by (apply Z.log2_lt_pow2; lia). lia. }
  rewrite Z.add_nocarry_lxor by exact E. rewrite Z.lxor_lor by exact E. reflexivity.
Qed.
(** The state as one number: what the last call returned. *)
Definition pos (g : gen) : Z := lastMilli g * 2 ^ 22 + lastCount g.
Definition ok (g : gen) : Prop := 0 <= lastMilli g /\ 0 <= lastCount g <= countLimit.
Lemma unique_spec g now : ok g -> 0 <= now < 2 ^ 42 -> lastMilli g + 1 < 2 ^ 42 ->
  exists g', unique g now = Some (g', pos g') /\ ok g' /\ pos g < pos g' /\ now <= lastMilli g' /\ lastMilli g' <= Z.max now (lastMilli g + 1).
Proof.
  intros (A & B) N M. unfold unique. assert (U : u64 now = now) by (unfold u64; apply Z.mod_small; lia). rewrite U.
  assert (U2 : u64 (lastMilli g + 1) = lastMilli g + 1) by (unfold u64; apply Z.mod_small; lia). rewrite U2.
  assert (K : forall g', ok g' -> lastMilli g' < 2 ^ 42 -> (if lastCount g' <=? countLimit then Some (g', Z.lor (u64 (Z.shiftl (lastMilli g') (64 - 42))) (lastCount g')) else None) = Some (g', pos g')).
  { intros g' (C1 & C2) C3. destruct (Z.leb_spec (lastCount g') countLimit); [|lia]. f_equal. f_equal. rewrite Z.shiftl_mul_pow2 by lia. unfold u64. rewrite Z.mod_small by (change (64 - 42) with 22; lia).
    apply lor_add. unfold countLimit in *. lia. }
  unfold countLimit in *.
  destruct (Z.ltb_spec (lastMilli g) now) as [L|L]; [|destruct (Z.eqb_spec (lastCount g) 4194303) as [E|E]].
  - eexists; rewrite K; [split; [reflexivity|]| |]; unfold ok, pos, countLimit in *; cbn [lastMilli lastCount]; lia.
  - eexists; rewrite K; [split; [reflexivity|]| |]; unfold ok, pos, countLimit in *; cbn [lastMilli lastCount]; lia.
  - eexists; rewrite K; [split; [reflexivity|]| |]; unfold ok, pos, countLimit in *; cbn [lastMilli lastCount]; lia.
Qed.
(** [incr l]: strictly increasing. *)
Definition incr (l : list Z) : Prop := forall i j a b, (i < j)%nat -> nth_error l i = Some a -> nth_error l j = Some b -> a < b.
(** The clock readings are of a sane clock: after 1970 and, allowing for one millisecond per call, before the year 2109 (2^42 ms). *)
Definition saneClock (nows : list Z) : Prop := forall now, In now nows -> 0 <= now /\ now + Z.of_nat (length nows) < 2 ^ 42.
Lemma numbers_spec : forall nows g B, ok g -> lastMilli g <= B -> B + Z.of_nat (length nows) < 2 ^ 42 -> (forall now, In now nows -> 0 <= now <= B) ->
  exists g' l, numbers g nows = Some (g', l) /\ ok g' /\ length l = length nows /\ lastMilli g' <= B + Z.of_nat (length nows) /\
    (forall x, In x l -> pos g < x <= pos g') /\ pos g <= pos g' /\ incr l /\ (forall i x now, nth_error l i = Some x -> nth_error nows i = Some now -> now * 2 ^ 22 <= x).
Proof.
  induction nows as [|now nows IH]; intros g B O L F N; cbn [numbers length] in *.
  - exists g, []. split; auto. split; auto. split; auto. split; [lia|]. split; [intros ? []|]. split; [lia|]. split; [intros ? [|j] ? ? Hij Hi Hj; discriminate|]. intros [|i]; discriminate.
  - assert (N0 := N now (or_introl eq_refl)). destruct (unique_spec g now O ltac:(lia) ltac:(lia)) as (g1 & E & O1 & P1 & P2 & P3). rewrite E.
    destruct (IH g1 (B + 1) O1 ltac:(lia) ltac:(lia)) as (g2 & l & E2 & O2 & LL & P4 & P5 & P6 & P7 & P8). { intros x Hx. specialize (N x (or_intror Hx)). lia. }
    rewrite E2. exists g2, (pos g1 :: l). split; auto. split; auto. split; [cbn [length]; lia|]. split; [lia|]. split; [|split; [lia|split]].
    + intros x [<-|Hx]; [lia|]. apply P5 in Hx. lia.
    + intros [|i] [|j] a b Hij Ha Hb; cbn [nth_error] in *; [lia| |lia|].
      * inversion Ha; subst. apply nth_error_In in Hb. apply P5 in Hb. lia.
      * eapply (P7 i j); eauto. lia.
    + intros [|i] x n Hx Hn; cbn [nth_error] in *; [|eauto]. inversion Hx; inversion Hn; subst. unfold pos. destruct O1. lia.
Qed.

(** Every call returns a larger number than all earlier ones, for every behaviour of the clock, also standing still and going back. *)
Theorem C29_strictly_increasing nows : saneClock nows -> exists g l, numbers gen0 nows = Some (g, l) /\ length l = length nows /\ incr l.
Proof.
  intros S. assert (HB : exists B, 0 <= B /\ B + Z.of_nat (length nows) < 2 ^ 42 \/ nows = [] /\ B = 0) by (exists 0; destruct nows; [right; auto|left; specialize (S _ (or_introl eq_refl)); lia]).
  destruct nows as [|n0 nows']; [exists gen0, []; repeat split; intros ? [|j] ? ? H; [lia|discriminate]|]. set (nows := n0 :: nows') in *. clear HB.
  assert (HB : exists B, In B nows /\ forall x, In x nows -> x <= B).
  { unfold nows. clear. revert n0. induction nows' as [|x q IH]; intros p.
    - exists p. split; [left; auto|intros t [<-|[]]; lia].
    - destruct (IH (Z.max p x)) as (B & H1 & H2). exists B. split.
      + destruct H1 as [<-|H1]; [|right; right; auto]. destruct (Z.max_spec p x) as [[_ ->]|[_ ->]]; cbn [In]; auto.
      + intros t [<-|[<-|Ht]]; [specialize (H2 _ (or_introl eq_refl)); lia|specialize (H2 _ (or_introl eq_refl)); lia|apply H2; right; auto]. }
  destruct HB as (B & HI & HB). destruct (S _ HI) as [B1 B2].
  destruct (numbers_spec nows gen0 B) as (g & l & E & _ & LL & _ & _ & _ & I & _); auto.
  - unfold ok. cbn. unfold countLimit. lia.
  - intros now Hn. split; [apply S; auto|apply HB; auto].
  - exists g, l. auto.
Qed.
(** So no two calls return the same number. *)
Corollary C29_unique nows g l i j a : saneClock nows -> numbers gen0 nows = Some (g, l) -> nth_error l i = Some a -> nth_error l j = Some a -> i = j.
Proof.
  intros S R Hi Hj. destruct (C29_strictly_increasing nows S) as (g' & l' & E & _ & I). rewrite R in E. inversion E; subst l'.
  destruct (Nat.lt_trichotomy i j) as [L|[L|L]]; auto; exfalso; [specialize (I i j a a L Hi Hj)|specialize (I j i a a L Hj Hi)]; lia.
Qed.
(** A restarted client (the generator keeps nothing) continues with larger numbers if its clock is later, by more than one millisecond per request, than
    every reading before the restart. *)
Theorem C29_restart nows1 nows2 B g1 l1 : 0 <= B -> (forall x, In x nows1 -> 0 <= x <= B) -> (forall x, In x nows2 -> B + Z.of_nat (length nows1) < x) -> saneClock nows2 -> B + Z.of_nat (length nows1) < 2 ^ 42 ->
  numbers gen0 nows1 = Some (g1, l1) -> exists g2 l2, numbers gen0 nows2 = Some (g2, l2) /\ forall a b, In a l1 -> In b l2 -> a < b.
Proof.
  intros B0 H1 H2 S F R. destruct (C29_strictly_increasing nows2 S) as (g2 & l2 & E & LL & _). exists g2, l2. split; auto. intros a b Ha Hb.
  assert (O0 : ok gen0) by (unfold ok, countLimit; cbn; lia).
  destruct (numbers_spec nows1 gen0 B O0 ltac:(cbn; lia) ltac:(lia) H1) as (g' & l' & E' & O' & _ & M & P & _). rewrite R in E'. inversion E'; subst g' l'. apply P in Ha.
  destruct (In_nth_error _ _ Hb) as (i & Hi). destruct (nth_error nows2 i) as [now|] eqn:N; [|apply nth_error_None in N; assert (i < length l2)%nat by (apply nth_error_Some; congruence); lia].
  assert (HB2 : exists B2, 0 <= B2 /\ B2 + Z.of_nat (length nows2) < 2 ^ 42 /\ forall x, In x nows2 -> 0 <= x <= B2).
  { destruct nows2 as [|n0 q]; [destruct i; discriminate|]. exists (2 ^ 42 - Z.of_nat (length (n0 :: q)) - 1). split; [specialize (S _ (or_introl eq_refl)); lia|]. split; [lia|]. intros x Hx. specialize (S x Hx). lia. }
  destruct HB2 as (B2 & Q1 & Q2 & Q3). destruct (numbers_spec nows2 gen0 B2 O0 ltac:(cbn; lia) Q2 Q3) as (g3 & l3 & E3 & _ & _ & _ & _ & _ & _ & P8). rewrite E in E3. inversion E3; subst g3 l3.
  specialize (P8 i b now Hi N). apply nth_error_In in N. apply H2 in N. destruct O' as [_ O']. unfold pos, countLimit in *. lia.
Qed.

(** What does not hold. From the year 2109 (2^42 ms) on, the shifted clock no longer fits: the numbers fall back and repeat old ones. *)
Theorem C29_late_clock_refuted : exists nows g a b, numbers gen0 nows = Some (g, [a; b]) /\ b < a /\ (forall now, In now nows -> 0 < now < 2 ^ 43).
Proof. exists [2 ^ 42 - 1; 2 ^ 42]. do 3 eexists. split; [vm_compute; reflexivity|]. split; [lia|]. intros now [<-|[<-|[]]]; lia. Qed.
(** A restart with a clock that went back repeats a number. *)
Theorem C29_restart_clock_back_refuted : exists nows1 nows2 g1 g2 l1 l2 a, saneClock nows1 /\ saneClock nows2 /\ numbers gen0 nows1 = Some (g1, l1) /\ numbers gen0 nows2 = Some (g2, l2) /\ In a l1 /\ In a l2.
Proof.
  exists [1000; 1000; 2000], [1000]. do 4 eexists. exists (1000 * 2 ^ 22). split; [intros now [<-|[<-|[<-|[]]]]; cbn; lia|]. split; [intros now [<-|[]]; cbn; lia|].
  split; [vm_compute; reflexivity|]. split; [vm_compute; reflexivity|]. split; left; reflexivity.
Qed.

Print Assumptions C29_strictly_increasing.
Print Assumptions C29_unique.
Print Assumptions C29_restart.
Print Assumptions C29_late_clock_refuted.
Print Assumptions C29_restart_clock_back_refuted.

Example C29_example : saneClock [1700000000000; 1700000000000; 5; 1700000000001] /\ exists g,
  numbers gen0 [1700000000000; 1700000000000; 5; 1700000000001] = Some (g, [1700000000000 * 4194304; 1700000000000 * 4194304 + 1; 1700000000000 * 4194304 + 2; 1700000000001 * 4194304]).
Proof. split; [intros now [<-|[<-|[<-|[<-|[]]]]]; cbn; lia|]. eexists. vm_compute. reflexivity. Qed.
(** The counter limit is passed correctly: a full counter moves to the next millisecond. *)
Example C29_counter_full : unique (mkGen 7 countLimit) 7 = Some (mkGen 8 0, 8 * 4194304).
Proof. vm_compute. reflexivity. Qed.
