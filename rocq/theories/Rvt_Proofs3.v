From Coq Require Import List Arith NArith ZArith Bool Lia FinFun.
From Verif Require Import Lib_Bytes Rvt_Model Rvt_Proofs Rvt_Proofs2.
Import ListNotations.
Local Open Scope N_scope.

Lemma size_bound x : x < 2 ^ N.of_nat (N.size_nat x).
Proof.
  destruct x as [|p]; [reflexivity|]. cbn [N.size_nat]. induction p; cbn [Pos.size_nat]; rewrite ?Nat2N.inj_succ, ?N.pow_succ_r'; try (change (N.pos p~1) with (2 * N.pos p + 1)); try (change (N.pos p~0) with (2 * N.pos p)); [| |reflexivity]; revert IHp; generalize (2 ^ N.of_nat (Pos.size_nat p)); intros; lia.
Qed.

Section S.
Variable H : bytes -> bytes.
Variables (K : N) (M : Z).
Hypothesis K2 : 2 <= K.
Hypothesis M0 : (0 < M)%Z.
Notation iv := (iv H M).
Notation addVal := (addVal M).
Notation subVal := (subVal M).
Notation push := (push K).
Notation Q := (Q K).
Notation ix := (ix K).
Notation kid := (kid K).
Notation val := (val H K M).
Notation cn := (cn H K M).
Notation nd := (nd H K M).
Notation at_ := (at_ K).
Notation Rep := (Rep K).
Notation lfc := (lfc K).

Lemma at_null' l q : at_ l q <> nullId.
Proof. intros E. unfold Rvt_Proofs2.at_, nullId in E. inversion E. unfold Rvt_Proofs.ix in *. lia. Qed.
Lemma at_inj' l q m r : at_ l q = at_ m r -> l = m /\ q = r.
Proof. apply at_inj; auto. Qed.
Lemma oid_at l q m r : oidEq (Some (at_ l q)) (Some (at_ m r)) = Nat.eqb l m && (q =? r).
Proof.
  destruct (oidEq_spec (Some (at_ l q)) (Some (at_ m r))) as [E|E].
  - injection E as E1 E2. subst m. apply ix_inj in E2; auto. subst. rewrite Nat.eqb_refl, N.eqb_refl. reflexivity.
  - destruct (Nat.eqb_spec l m), (N.eqb_spec q r); auto. subst. congruence.
Qed.
Lemma id_at l q m r : idEq (at_ l q) (at_ m r) = Nat.eqb l m && (q =? r).
Proof. exact (oid_at l q m r). Qed.

(** * Adding a value along a path to the root *)
Section Path.
Variable p : nat -> N.
Variable d : Z.
Definition bump (f : nat -> N -> option node) (lo hi : nat) : nat -> N -> option node :=
  fun l q => if Nat.leb lo l && Nat.ltb l hi && (q =? p l) then option_map (fun m => addVal m d) (f l q) else f l q.
Lemma bump_in f lo hi l : (lo <= l < hi)%nat -> bump f lo hi l (p l) = option_map (fun m => addVal m d) (f l (p l)).
Proof. intros [A B]. unfold bump. apply Nat.leb_le in A. apply Nat.ltb_lt in B. rewrite A, B, N.eqb_refl. reflexivity. Qed.
Lemma bump_out f lo hi l q : (l < lo \/ hi <= l)%nat \/ q <> p l -> bump f lo hi l q = f l q.
Proof. clear - M. intros A. unfold bump. destruct (Nat.leb_spec lo l), (Nat.ltb_spec l hi), (N.eqb_spec q (p l)); cbn [andb]; auto. lia. Qed.

Definition pathOk (f : nat -> N -> option node) (lo L : nat) : Prop :=
  forall l, (lo <= l <= L)%nat -> exists m, f l (p l) = Some m /\ par m = if Nat.eqb l L then nullId else at_ (S l) (p (S l)).

Lemma addUp_spec fuel : forall t f lf rf L e m1 m2 l, (L - l <= fuel)%nat -> (l < L)%nat -> Rep t f lf rf L (p L) e m1 m2 -> pathOk f l L ->
  exists t', addUp M fuel t (at_ l (p l)) d = Some (t', at_ L (p L)) /\ Rep t' (bump f l L) lf rf L (p L) e m1 m2.
Proof.
  induction fuel as [|fuel IH]; intros t f lf rf L e m1 m2 l FU LL R OK; [lia|].
  cbn [addUp]. destruct (OK l ltac:(lia)) as (m & FM & PM). destruct (Nat.eqb_spec l L) as [X|_]; [lia|].
  destruct (rep_on K K2 _ _ _ _ _ _ _ _ _ _ _ _ (fun n => Some (addVal n d)) _ R FM eq_refl) as (t1 & ET & R1).
  unfold addAt. rewrite ET. cbn [bind]. rewrite (rep_get _ _ _ _ _ _ _ _ _ _ _ _ R1), fset_same. cbn [bind]. unfold Rvt_Model.addVal at 1, setCur. cbn [par]. rewrite PM.
  destruct (idEq_spec (at_ (S l) (p (S l))) nullId) as [X|_]; [elim (at_null' _ _ X)|].
  pose proof R1 as (_ & _ & _ & RO & _). rewrite RO, oid_at. destruct (Nat.eqb_spec L l) as [X|_]; [lia|]. cbn [andb].
  unfold parentOf. rewrite RO, oid_at. destruct (Nat.eqb_spec L l) as [X|_]; [lia|]. cbn [andb]. rewrite (rep_get _ _ _ _ _ _ _ _ _ _ _ _ R1), fset_same. cbn [bind]. unfold Rvt_Model.addVal at 1 2, setCur. cbn [par]. rewrite PM.
  destruct (OK (S l) ltac:(lia)) as (m' & FM' & PM'). rewrite (rep_get _ _ _ _ _ _ _ _ _ _ _ _ R1), fset_other, FM' by lia. cbn [bind]. rewrite oid_at.
  assert (EX : forall k q, fset f l (p l) (addVal m d) k q = bump f l (S l) k q).
  { intros k q. destruct (Nat.eq_dec k l) as [->|NE]; [|rewrite fset_other, bump_out by lia; reflexivity]. destruct (N.eq_dec q (p l)) as [->|NE]; [|rewrite fset_other, bump_out by auto; reflexivity]. rewrite fset_same, bump_in, FM by lia. reflexivity. }
  destruct (Nat.eqb_spec L (S l)) as [->|NL].
  - rewrite N.eqb_refl. cbn [andb]. eexists. split; [reflexivity|]. eapply rep_ext; [| | |exact R1]; auto.
  - cbn [andb]. destruct (IH t1 _ _ _ L e m1 m2 (S l) ltac:(lia) ltac:(lia) R1) as (t2 & ET2 & R2).
    { intros k B. destruct (OK k ltac:(lia)) as (mk & FK & PK). exists mk. rewrite fset_other by lia. auto. }
    rewrite ET2. eexists. split; [reflexivity|]. eapply rep_ext; [| | |exact R2]; auto.
    intros k q. unfold bump at 1. rewrite EX. destruct (Nat.leb_spec (S l) k), (Nat.ltb_spec k L), (N.eqb_spec q (p k)); cbn [andb]; try (subst q).
    + rewrite (bump_out f l (S l)) by lia. rewrite bump_in by lia. reflexivity.
    + rewrite !bump_out by auto. reflexivity.
    + rewrite !bump_out by lia. reflexivity.
    + rewrite !bump_out by auto. reflexivity.
    + destruct (Nat.eq_dec k l) as [->|NE]; [rewrite !bump_in by lia; reflexivity|rewrite !bump_out by lia; reflexivity].
    + rewrite !bump_out by auto. reflexivity.
    + rewrite !bump_out by lia. reflexivity.
    + rewrite !bump_out by auto. reflexivity.
Qed.
Lemma chain_spec t f lf rf L e m1 m2 l : (l <= L)%nat -> Rep t f lf rf L (p L) e m1 m2 -> pathOk f l L ->
  exists t', addChain M t (at_ l (p l)) d = Some t' /\ Rep t' (bump f l (S L)) lf rf L (p L) e m1 m2.
Proof.
  intros LL R OK. unfold addChain. pose proof R as (_ & _ & _ & RO & _). rewrite RO. cbn [bind Rvt_Proofs2.at_ fst].
  destruct (Nat.eq_dec l L) as [->|NE].
  - cbn [addUp]. destruct (OK L ltac:(lia)) as (m & FM & PM). rewrite Nat.eqb_refl in PM. change (L, ix L (p L)) with (at_ L (p L)).
    destruct (rep_on K K2 _ _ _ _ _ _ _ _ _ _ _ _ (fun n => Some (addVal n d)) _ R FM eq_refl) as (t1 & ET & R1).
    unfold addAt at 1. rewrite ET. cbn [bind]. rewrite (rep_get _ _ _ _ _ _ _ _ _ _ _ _ R1), fset_same. cbn [bind]. unfold Rvt_Model.addVal at 1, setCur. cbn [par]. rewrite PM, idEq_refl.
    pose proof R1 as (_ & _ & _ & RO1 & _). rewrite RO1, oid_at, Nat.eqb_refl, N.eqb_refl. cbn [andb bind]. rewrite idEq_refl. eexists. split; [reflexivity|].
    eapply rep_ext; [| | |exact R1]; auto. intros k q. destruct (Nat.eq_dec k L) as [->|NE]; [|rewrite fset_other, bump_out by lia; reflexivity]. destruct (N.eq_dec q (p L)) as [->|NE]; [|rewrite fset_other, bump_out by auto; reflexivity]. rewrite fset_same, bump_in, FM by lia. reflexivity.
  - change (l, ix l (p l)) with (at_ l (p l)). destruct (addUp_spec (S L) t f lf rf L e m1 m2 l ltac:(lia) ltac:(lia) R OK) as (t1 & ET & R1). rewrite ET. cbn [bind]. rewrite id_at. destruct (Nat.eqb_spec L l) as [X|_]; [lia|]. cbn [andb].
    destruct (OK L ltac:(lia)) as (m & FM & PM).
    assert (FM1 : bump f l L L (p L) = Some m) by (rewrite bump_out by lia; exact FM).
    destruct (rep_on K K2 _ _ _ _ _ _ _ _ _ _ _ _ (fun n => Some (addVal n d)) _ R1 FM1 eq_refl) as (t2 & ET2 & R2).
    unfold addAt. rewrite ET2. eexists. split; [reflexivity|]. eapply rep_ext; [| | |exact R2]; auto.
    intros k q. destruct (Nat.eq_dec k L) as [->|NE2]; [destruct (N.eq_dec q (p L)) as [->|NE3]|].
    + rewrite fset_same, bump_in, FM by lia. reflexivity.
    + rewrite fset_other, !bump_out by auto. reflexivity.
    + rewrite fset_other by auto. destruct (N.eq_dec q (p k)) as [->|NE3]; [|rewrite !bump_out by auto; reflexivity]. destruct (Nat.leb_spec l k); [|rewrite !bump_out by lia; reflexivity]. destruct (Nat.ltb_spec k L); [rewrite !bump_in by lia; reflexivity|rewrite !bump_out by lia; reflexivity].
Qed.
End Path.

(** * Changing one digest *)
Lemma kid_in a b l q j : In j (kid a b l q) <-> j / K = q /\ Q l a <= j /\ j <= Q l b.
Proof.
  unfold Rvt_Proofs.kid. rewrite rng_in. split.
  - intros [A B]. split; [apply div_eq; auto; lia|lia].
  - intros (A & B & C). pose proof (div_in K K2 j) as (D1 & D2). rewrite A in *. lia.
Qed.
Lemma rng_NoDup lo hi : NoDup (rng lo hi).
Proof. clear. unfold rng. apply FinFun.Injective_map_NoDup; [|apply seq_NoDup]. intros x y E. lia. Qed.
Lemma kid_split a b l q j : In j (kid a b l q) -> exists x y, kid a b l q = x ++ j :: y /\ forall i, In i (x ++ y) -> i <> j.
Proof.
  intros I. assert (ND : NoDup (kid a b l q)) by apply rng_NoDup. apply in_split in I. destruct I as (x & y & E). exists x, y. split; auto. rewrite E in ND. apply NoDup_remove_2 in ND. intros i I ->. auto.
Qed.
Lemma val_up a b n v w d : a <= n -> n <= b -> (forall q, q <> n -> w q = v q) -> w n = (v n + d)%Z ->
  forall l, (forall q, q <> Q l n -> val a b w l q = val a b v l q) /\ (match l with O => True | _ => val a b w l (Q l n) = Z.modulo (val a b v l (Q l n) + d) M end).
Proof.
  intros AN NB EQ NE. induction l as [|l [IH1 IH2]].
  - split; auto. intros q NQ. rewrite Q_0 in NQ. apply EQ; auto.
  - assert (IN : In (Q l n) (kid a b l (Q (S l) n))). { apply kid_in. rewrite Q_S by auto. split; auto. split; apply Q_mono; auto. }
    split.
    + intros q NQ. cbn [Rvt_Proofs.val]. f_equal. f_equal. f_equal. apply map_ext_in. intros j I. apply IH1. intros ->. apply kid_in in I. destruct I as (I & _). rewrite <- Q_S in I by auto. congruence.
    + cbn [Rvt_Proofs.val]. destruct (kid_split _ _ _ _ _ IN) as (x & y & -> & OT). rewrite !map_app, !sum_app. cbn [map sum fold_right].
      rewrite (map_ext_in (val a b w l) (val a b v l) x) by (intros j I; apply IH1; apply OT; apply in_app_iff; auto).
      rewrite (map_ext_in (val a b w l) (val a b v l) y) by (intros j I; apply IH1; apply OT; apply in_app_iff; auto).
      change (fold_right Z.add 0%Z) with sum. destruct l as [|l].
      * cbn [Rvt_Proofs.val]. rewrite Q_0, NE. rewrite Z.add_mod_idemp_l by lia. f_equal; ring.
      * rewrite IH2. rewrite Z.add_mod_idemp_l by lia.
        replace (iv (S (S l), ix (S (S l)) (Q (S (S l)) n)) + (sum (map (val a b v (S l)) x) + (Z.modulo (val a b v (S l) (Q (S l) n) + d) M + sum (map (val a b v (S l)) y))))%Z
          with (iv (S (S l), ix (S (S l)) (Q (S (S l)) n)) + sum (map (val a b v (S l)) x) + sum (map (val a b v (S l)) y) + Z.modulo (val a b v (S l) (Q (S l) n) + d) M)%Z by ring.
        rewrite Z.add_mod_idemp_r by lia. f_equal; ring.
Qed.
Lemma cn_up a b n v w d L : a <= n -> n <= b -> (forall q, q <> n -> w q = v q) -> w n = (v n + d)%Z -> (0 <= d)%Z ->
  forall l q, cn a b L w l q = bump (fun l => Q l n) d (cn a b L v) 1 (S L) l q.
Proof.
  intros AN NB EQ NE D0 l q. destruct l as [|l]; [reflexivity|]. destruct (val_up a b n v w d AN NB EQ NE (S l)) as (E1 & E2).
  destruct (N.eq_dec q (Q (S l) n)) as [->|NQ].
  - destruct (Nat.leb_spec (S l) L).
    + pose proof (Q_mono K K2 (S l) _ _ AN). pose proof (Q_mono K K2 (S l) _ _ NB).
      rewrite (bump_in (fun l => Q l n)) by lia. rewrite !cn_in by (auto; lia). cbn [option_map]. f_equal. unfold Rvt_Proofs2.nd, Rvt_Model.addVal, setCur. cbn [par kids cnt ini cur]. rewrite E2. f_equal. symmetry. apply Z.rem_mod_nonneg; [|lia]. pose proof (val_range H K M M0 a b v l (Q (S l) n)). lia.
    + rewrite bump_out by lia. rewrite !cn_out by auto. reflexivity.
  - rewrite bump_out by auto. rewrite !cn_nd. unfold Rvt_Proofs2.nd. rewrite E1 by auto. reflexivity.
Qed.
End S.
