From Coq Require Import List Arith NArith ZArith Bool Lia.
From Verif Require Import Lib_Bytes Rvt_Model Rvt_Proofs Rvt_Proofs2 Rvt_Proofs3 Rvt_Proofs4 Rvt_Proofs5 Rvt_Proofs6.
Import ListNotations.
Local Open Scope N_scope.

Section S.
Variable H : bytes -> bytes.
Variables (K : N) (M : Z).
Hypothesis K2 : 2 <= K.
Hypothesis M0 : (0 < M)%Z.
Notation iv := (iv H M).
Notation addVal := (addVal M).
Notation subVal := (subVal M).
Notation Q := (Q K).
Notation ix := (ix K).
Notation kid := (kid K).
Notation val := (val H K M).
Notation cn := (cn H K M).
Notation nd := (nd H K M).
Notation at_ := (at_ K).
Notation Rep := (Rep K).
Notation lfc := (lfc K).
Notation eqm := (eqm M).

Section Rem.
Variables (a b : N).
Hypothesis AB : a < b.
Variable v : N -> Z.
Hypothesis VA : (0 <= v a < M)%Z.
Variable L : nat.
Hypothesis QL : Q L a = Q L b.
Variables (m1 m2 : N).
Notation n := (a + 1).
Notation old := (old K a).
Notation D := (D H K M a v).

Lemma old_L : old L = true.
Proof. apply N.eqb_eq. pose proof (Qnb K K2 a b AB L). pose proof (Qan' K K2 a L). lia. Qed.

(** A node on the path of position a. *)
Definition pth (l : nat) (ks : list N) (c : Z) : node :=
  mkN (if Nat.eqb (S l) L then nullId else at_ (S (S l)) (Q (S (S l)) a)) (map (at_ l) ks) (Some (N.min (Q (S l) a * K + K) (Q l b + 1) - Q (S l) a * K)) (iv (at_ (S l) (Q (S l) a))) c.
Lemma nd_a l : nd a b L v l (Q (S l) a) = pth l (kid a b l (Q (S l) a)) (val a b v (S l) (Q (S l) a)).
Proof. unfold Rvt_Proofs2.nd, pth. rewrite <- Q_S by auto. reflexivity. Qed.
Lemma nd_n l : nd n b L v l (Q (S l) a) = pth l (kid n b l (Q (S l) a)) (val n b v (S l) (Q (S l) a)).
Proof. unfold Rvt_Proofs2.nd, pth. rewrite <- Q_S by auto. reflexivity. Qed.

Record TI (l : nat) (f : nat -> N -> option node) (lf : nat -> option N) (e : list id) : Prop := {
  t_off : forall j q, q <> Q j a -> f j q = cn a b L v j q;
  t_out : forall j, (j = 0 \/ L < j)%nat -> f j (Q j a) = None;
  t_done : forall j, (S j < l)%nat -> old (S j) = true -> f (S j) (Q (S j) a) = Some (nd n b L v j (Q (S j) a));
  t_gone : forall j, (S j < l)%nat -> old (S j) = false -> In (at_ (S j) (Q (S j) a)) e;
  t_er : forall i, In i e -> exists j, (S j < l)%nat /\ i = at_ (S j) (Q (S j) a) /\ old (S j) = false;
  t_here : exists c, f l (Q l a) = Some (pth (pred l) (kid n b (pred l) (Q l a)) c) /\ (- M < c < M)%Z /\ eqm c (val a b v l (Q l a) - (D (pred l) - v a));
  t_up : forall j, (l < S j <= L)%nat -> exists c, f (S j) (Q (S j) a) = Some (pth j (kid a b j (Q (S j) a)) c) /\ (- M < c < M)%Z /\ eqm c (val a b v (S j) (Q (S j) a) - (D (pred l) - v a));
  t_lf : forall j, lf j = if (Nat.leb 1 j && Nat.ltb j l)%bool then Some (Q j n) else lfc a L j }.

Lemma rem_range x : (- M < Z.rem x M < M)%Z.
Proof. clear - M0. pose proof (Z.rem_bound_abs x M). lia. Qed.
Lemma sub_spec c y x : (- M < c < M)%Z -> eqm c y -> (0 <= x < M)%Z -> (0 <= (if Z.rem (M + c - x) M <? 0 then Z.rem (M + c - x) M + M else Z.rem (M + c - x) M) < M)%Z /\
  eqm (if Z.rem (M + c - x) M <? 0 then Z.rem (M + c - x) M + M else Z.rem (M + c - x) M)%Z (y - x).
Proof.
  clear - M0. intros A B C. pose proof (rem_range (M + c - x)). assert (E : eqm (Z.rem (M + c - x) M) (y - x)).
  { eapply eqm_trans; [apply eqm_rem|]. destruct B as (k & ->). exists (k + 1)%Z. ring. }
  destruct (Z.ltb_spec (Z.rem (M + c - x) M) 0); (split; [lia|]); auto. destruct E as (k & ->). exists (k + 1)%Z. ring.
Qed.
(** subtractValue on a path node that stays makes it canonical. *)
Lemma sub_stay l c : old (S l) = true -> (- M < c < M)%Z -> eqm c (val a b v (S l) (Q (S l) a) - (D l - v a)) ->
  subVal (pth l (kid n b l (Q (S l) a)) c) (v a) = nd n b L v l (Q (S l) a).
Proof.
  intros O R E. rewrite nd_n. unfold Rvt_Model.subVal, setCur, pth. cbn [par kids cnt ini cur]. f_equal.
  destruct (sub_spec c _ (v a) R E VA) as (S1 & S2). eapply eqm_uniq; eauto; [|apply val_range; auto].
  eapply eqm_trans; [exact S2|]. pose proof (val_path H K M K2 M0 a b AB v (S l)) as VP. rewrite O in VP. cbn [Rvt_Proofs6.D] in VP. rewrite O in VP. destruct VP as (k & VP). exists k. rewrite VP. ring.
Qed.

Lemma path_par l ks c : par (pth l ks c) = if Nat.eqb (S l) L then nullId else at_ (S (S l)) (Q (S (S l)) a).
Proof. reflexivity. Qed.
Lemma ti_path l f lf e j : TI l f lf e -> (1 <= l)%nat -> (l <= j <= L)%nat -> exists ks c, f j (Q j a) = Some (pth (pred j) ks c).
Proof.
  intros T L1 B. destruct (Nat.eq_dec j l) as [->|NE].
  - destruct (t_here _ _ _ _ T) as (c & E & _). eauto.
  - destruct j as [|j]; [lia|]. destruct (t_up _ _ _ _ T j ltac:(lia)) as (c & E & _). cbn [pred]. eauto.
Qed.
Lemma ti_parent l t f lf e : TI (S l) f lf e -> (S l < L)%nat -> Rep t f lf (lfc b L) L (Q L a) e m1 m2 -> parentOf t (at_ (S l) (Q (S l) a)) = Some (Some (at_ (S (S l)) (Q (S (S l)) a))).
Proof.
  intros T LT R. unfold parentOf. pose proof R as (_ & _ & _ & RO & _). rewrite RO, oid_at by auto. destruct (Nat.eqb_spec L (S l)) as [X|_]; [lia|]. cbn [andb].
  rewrite (rep_get _ _ _ _ _ _ _ _ _ _ _ _ R). destruct (ti_path _ _ _ _ (S l) T) as (ks & c & E); try lia. cbn [pred] in E. rewrite E. cbn [bind]. rewrite !path_par. destruct (Nat.eqb_spec (S l) L) as [X|_]; [lia|].
  rewrite (rep_get _ _ _ _ _ _ _ _ _ _ _ _ R). destruct (ti_path _ _ _ _ (S (S l)) T) as (ks' & c' & E'); try lia. rewrite E'. reflexivity.
Qed.
Lemma pop_here l j ks c : pop (pth l (j :: ks) c) (at_ l j) = Some (pth l ks c).
Proof. unfold pop, pth. cbn [kids map]. rewrite idEq_refl. reflexivity. Qed.
Lemma addVal_pth l ks c d : addVal (pth l ks c) d = pth l ks (Z.rem (c + d) M). Proof. reflexivity. Qed.
Lemma subVal_pth l ks c d : exists c', subVal (pth l ks c) d = pth l ks c'. Proof. eexists. reflexivity. Qed.
Lemma kid_map_nil l ks c : kids (pth l ks c) = [] <-> ks = [].
Proof. unfold pth. cbn [kids]. destruct ks; cbn [map]; split; congruence. Qed.

(** One level of the loop. *)
Lemma trim_step l t f lf e : (2 <= S l < L)%nat -> TI (S l) f lf e -> Rep t f lf (lfc b L) L (Q L a) e m1 m2 -> forall bottom fuel, fst bottom = 1%nat ->
  exists t' f' lf' e', trim K M (S fuel) t bottom (at_ (S l) (Q (S l) a)) (v a) = trim K M fuel t' bottom (at_ (S (S l)) (Q (S (S l)) a)) (v a) /\
    TI (S (S l)) f' lf' e' /\ Rep t' f' lf' (lfc b L) L (Q L a) e' m1 m2.
Proof.
  intros LL T R bottom fuel FB. cbn [trim]. pose proof R as (_ & _ & _ & RO & _). rewrite RO, oid_at by auto. destruct (Nat.eqb_spec L (S l)) as [X|_]; [lia|]. cbn [andb].
  rewrite (ti_parent _ _ _ _ _ T) by (auto; lia). cbn [bind]. rewrite (rep_get _ _ _ _ _ _ _ _ _ _ _ _ R).
  destruct (t_here _ _ _ _ T) as (c & FH & CR & CE). cbn [pred] in FH, CE. rewrite FH. cbn [bind].
  destruct (t_up _ _ _ _ T (S l) ltac:(lia)) as (cu & FU & UR & UE). cbn [pred] in UE.
  destruct (old (S l)) eqn:O.
  - (* the node stays *)
    destruct (kid_stay K K2 a b AB l O) as (r & KE). destruct (kids (pth l (kid n b l (Q (S l) a)) c)) as [|k0 k1] eqn:KK; [apply kid_map_nil in KK; congruence|]. cbn [bind].
    destruct (rep_on K K2 _ _ _ _ _ _ _ _ _ _ _ _ (fun m => Some (subVal m (v a))) _ R FH eq_refl) as (t1 & ET1 & R1). rewrite ET1. cbn [bind]. rewrite sub_stay in R1 by auto.
    eexists t1, _, lf, e. split; [reflexivity|]. split; [|exact R1]. constructor.
    + intros j q NE. rewrite fset_other; [apply (t_off _ _ _ _ T); auto|]. destruct (Nat.eq_dec j (S l)) as [->|]; auto.
    + intros j B. rewrite fset_other by lia. apply (t_out _ _ _ _ T); auto.
    + intros j B OJ. destruct (Nat.eq_dec j l) as [->|NJ]; [apply fset_same|]. rewrite fset_other by lia. apply (t_done _ _ _ _ T); auto. lia.
    + intros j B OJ. destruct (Nat.eq_dec j l) as [->|NJ]; [congruence|]. apply (t_gone _ _ _ _ T); auto. lia.
    + intros i I. destruct (t_er _ _ _ _ T i I) as (j & B & E). exists j. split; [lia|exact E].
    + exists cu. cbn [pred]. rewrite fset_other by lia. split; [|split; auto].
      * rewrite FU, kid_path, O by auto. reflexivity.
      * cbn [Rvt_Proofs6.D]. rewrite O, Z.add_0_r. exact UE.
    + intros j B. destruct (t_up _ _ _ _ T j ltac:(lia)) as (c' & E1 & E2 & E3). exists c'. rewrite fset_other by lia. split; [auto|split; auto]. cbn [pred] in E3 |- *. cbn [Rvt_Proofs6.D]. rewrite O, Z.add_0_r. exact E3.
    + intros j. rewrite (t_lf _ _ _ _ T). destruct (Nat.leb_spec 1 j), (Nat.ltb_spec j (S l)), (Nat.ltb_spec j (S (S l))); cbn [andb]; auto; try lia. assert (j = S l) by lia. subst j. rewrite lfc_in, old_eq by (auto; lia). reflexivity.
  - (* the node goes *)
    pose proof (kid_gone K K2 a b AB l O) as KE. destruct (kids (pth l (kid n b l (Q (S l) a)) c)) as [|k0 k1] eqn:KK; [|rewrite KE in KK; discriminate].
    rewrite KE in FH. assert (FU2 : f (S (S l)) (Q (S (S l)) a) = Some (pth (S l) (Q (S l) a :: kid n b (S l) (Q (S (S l)) a)) cu)) by (rewrite FU, kid_path, O by auto; reflexivity).
    destruct (rep_on K K2 _ _ _ _ _ _ _ _ _ _ _ _ (fun m => pop m (at_ (S l) (Q (S l) a))) _ R FU2 (pop_here _ _ _ _)) as (t1 & ET1 & R1). rewrite ET1. cbn [bind].
    destruct (idEq_spec (at_ (S l) (Q (S l) a)) bottom) as [X|_]; [exfalso; rewrite <- X in FB; cbn [Rvt_Proofs2.at_ fst] in FB; lia|].
    assert (ER : er t1 = e) by (destruct R1 as (_ & _ & _ & _ & E & _); exact E). rewrite ER.
    pose proof (rep_er K _ _ _ _ _ _ _ _ _ (at_ (S l) (Q (S l) a) :: e) R1) as R2.
    pose proof (not_old K K2 a _ O) as ON. pose proof (Qnb K K2 a b AB (S l)) as NB.
    assert (FN : exists m, fset f (S (S l)) (Q (S (S l)) a) (pth (S l) (kid n b (S l) (Q (S (S l)) a)) cu) (S l) (Q (S l) a + 1) = Some m).
    { rewrite fset_other by lia. rewrite (t_off _ _ _ _ T) by lia. rewrite cn_in by lia. eauto. }
    destruct FN as (mn0 & FN).
    destruct (arrRemove_next K K2 _ _ _ _ _ _ _ _ _ (S l) (Q (S l) a) (Q (S l) b) mn0 R2) as (t3 & ET3 & R3); auto; try lia.
    { rewrite (t_lf _ _ _ _ T). destruct (Nat.ltb_spec (S l) (S l)) as [X|_]; [lia|]. rewrite andb_false_r. apply lfc_in. lia. } { apply lfc_in. lia. }
    rewrite ET3. cbn [bind].
    assert (PO : pathOk K (fun j => Q j a) (fset f (S (S l)) (Q (S (S l)) a) (pth (S l) (kid n b (S l) (Q (S (S l)) a)) cu)) (S (S l)) L).
    { intros j B. destruct (Nat.eq_dec j (S (S l))) as [->|NJ]; [rewrite fset_same; eexists; split; [reflexivity|reflexivity]|]. rewrite fset_other by lia. destruct j as [|j]; [lia|]. destruct (t_up _ _ _ _ T j ltac:(lia)) as (c' & E1 & _). eexists. split; [exact E1|reflexivity]. }
    assert (LE2 : (S (S l) <= L)%nat) by lia.
    destruct (chain_spec K M K2 (fun j => Q j a) (- ini (pth l (kid n b l (Q (S l) a)) c)) _ _ _ _ _ _ _ _ (S (S l)) LE2 R3 PO) as (t4 & ET4 & R4). rewrite ET4. cbn [bind].
    match type of R4 with Rvt_Proofs2.Rep _ _ ?f _ _ _ _ _ _ _ => set (f4 := f) in * end.
    assert (FH4 : f4 (S l) (Q (S l) a) = Some (pth l [] c)) by (unfold f4; rewrite bump_out, fset_other by lia; exact FH).
    destruct (rep_on K K2 _ _ _ _ _ _ _ _ _ _ _ _ (fun m => Some (subVal m (v a))) _ R4 FH4 eq_refl) as (t5 & ET5 & R5). rewrite ET5. cbn [bind].
    assert (AC : forall j c', (- M < c' < M)%Z -> eqm c' (val a b v (S j) (Q (S j) a) - (D l - v a)) -> (- M < Z.rem (c' + - iv (at_ (S l) (Q (S l) a))) M < M)%Z /\ eqm (Z.rem (c' + - iv (at_ (S l) (Q (S l) a))) M) (val a b v (S j) (Q (S j) a) - (D (S l) - v a))).
    { intros j c' _ E. split; [apply rem_range|]. eapply eqm_trans; [apply eqm_rem|]. cbn [Rvt_Proofs6.D]. rewrite O. destruct E as (k & ->). exists k. ring. }
    eexists t5, _, _, _. split; [reflexivity|]. split; [|exact R5]. constructor.
    + intros j q NE. rewrite fset_other by (destruct (Nat.eq_dec j (S l)) as [->|]; auto). unfold f4. rewrite bump_out by auto. rewrite fset_other; [apply (t_off _ _ _ _ T); auto|]. destruct (Nat.eq_dec j (S (S l))) as [->|]; auto.
    + intros j B. rewrite fset_other by lia. unfold f4. rewrite bump_out by lia. rewrite fset_other by lia. apply (t_out _ _ _ _ T); auto.
    + intros j B OJ. destruct (Nat.eq_dec j l) as [->|NJ]; [congruence|]. rewrite fset_other by lia. unfold f4. rewrite bump_out, fset_other by lia. apply (t_done _ _ _ _ T); auto. lia.
    + intros j B OJ. destruct (Nat.eq_dec j l) as [->|NJ]; [left; reflexivity|]. right. apply (t_gone _ _ _ _ T); auto. lia.
    + intros i [<-|I]; [exists l; auto|]. destruct (t_er _ _ _ _ T i I) as (j & B & E). exists j. split; [lia|exact E].
    + cbn [pred]. destruct (AC (S l) cu UR UE) as (A1 & A2). eexists. split; [|split; [exact A1|exact A2]]. rewrite fset_other by lia. unfold f4. rewrite (bump_in _ (fun j => Q j a)) by lia. rewrite fset_same. reflexivity.
    + intros j B. destruct (t_up _ _ _ _ T j ltac:(lia)) as (c' & E1 & E2 & E3). cbn [pred] in E3 |- *. destruct (AC j c' E2 E3) as (A1 & A2). eexists. split; [|split; [exact A1|exact A2]]. rewrite fset_other by lia. unfold f4. rewrite (bump_in _ (fun j => Q j a)), fset_other, E1 by lia. reflexivity.
    + intros j. rewrite (t_lf _ _ _ _ T). destruct (Nat.eqb_spec j (S l)) as [->|NJ].
      * destruct (Nat.ltb_spec (S l) (S (S l))) as [_|X]; [|lia]. cbn [Nat.leb andb]. rewrite ON. reflexivity.
      * destruct (Nat.leb_spec 1 j), (Nat.ltb_spec j (S l)), (Nat.ltb_spec j (S (S l))); cbn [andb]; auto; lia.
Qed.
Lemma trim_spec fuel : forall l t f lf e bottom, fst bottom = 1%nat -> (S l <= L)%nat -> (L - S l < fuel)%nat -> (S l = L \/ (2 <= S l)%nat) ->
  TI (S l) f lf e -> Rep t f lf (lfc b L) L (Q L a) e m1 m2 ->
  exists t' f' lf' e', trim K M fuel t bottom (at_ (S l) (Q (S l) a)) (v a) = Some t' /\ TI L f' lf' e' /\ Rep t' f' lf' (lfc b L) L (Q L a) e' m1 m2.
Proof.
  induction fuel as [|fuel IH]; intros l t f lf e bottom FB LL FU L2 T R; [lia|].
  destruct (Nat.eq_dec (S l) L) as [EL|NL].
  - cbn [trim]. pose proof R as (_ & _ & _ & RO & _). rewrite RO, oid_at by auto. rewrite EL, Nat.eqb_refl, N.eqb_refl. cbn [andb]. rewrite EL in T. exists t, f, lf, e. auto.
  - destruct L2 as [L2|L2]; [congruence|]. destruct (trim_step l t f lf e ltac:(lia) T R bottom fuel FB) as (t' & f' & lf' & e' & E & T' & R'). rewrite E. apply (IH (S l) t' f' lf' e' bottom); auto; lia.
Qed.

(** After the loop and the root's own subtraction. *)
Definition SI (l : nat) (f : nat -> N -> option node) (e : list id) : Prop :=
  (forall j q, f j q = cn n b l v j q \/ In (at_ j q) e) /\ (forall i, In i e -> exists j q, i = at_ j q /\ ((l < j)%nat \/ q < Q j n)).
Lemma ti_end t f lf e : (1 <= L)%nat -> TI L f lf e -> Rep t f lf (lfc b L) L (Q L a) e m1 m2 ->
  exists t' f', onNode t (at_ L (Q L a)) (fun m => Some (subVal m (v a))) = Some t' /\ SI L f' e /\ Rep t' f' (lfc n L) (lfc b L) L (Q L n) e m1 m2.
Proof.
  intros L1 T R. pose proof old_L as OL. destruct (t_here _ _ _ _ T) as (c & FH & CR & CE).
  destruct (rep_on K K2 _ _ _ _ _ _ _ _ _ _ _ _ (fun m => Some (subVal m (v a))) _ R FH eq_refl) as (t1 & ET1 & R1).
  assert (exists l, L = S l) as (l & LE) by (destruct L; [lia|eauto]). rewrite LE in FH, CE, OL. cbn [pred] in FH, CE.
  assert (SS : subVal (pth l (kid n b l (Q (S l) a)) c) (v a) = nd n b L v l (Q (S l) a)) by (apply sub_stay; auto).
  exists t1, (fset f L (Q L a) (nd n b L v l (Q (S l) a))). split; [exact ET1|]. replace (subVal (pth (pred L) (kid n b (pred L) (Q L a)) c) (v a)) with (nd n b L v l (Q (S l) a)) in R1 by (rewrite LE; cbn [pred]; rewrite SS, LE; reflexivity).
  replace (Q L n) with (Q L a) by (rewrite LE; symmetry; apply (old_eq K a (S l) OL)). split.
  - split.
    + intros j q. destruct (N.eq_dec q (Q j a)) as [->|NQ].
      * destruct j as [|j]; [left; rewrite fset_other by lia; rewrite (t_out _ _ _ _ T); auto|].
        destruct (lt_eq_lt_dec (S j) L) as [[LT|EQ]|GT].
        -- destruct (old (S j)) eqn:O.
           ++ left. rewrite fset_other by lia. rewrite (t_done _ _ _ _ T) by auto. rewrite cn_in; [reflexivity|lia|rewrite (old_eq _ _ _ O); lia|apply Qab'; auto].
           ++ right. apply (t_gone _ _ _ _ T); auto.
        -- assert (j = l) by lia. subst j. left. replace (fset f L (Q L a) (nd n b L v l (Q (S l) a)) (S l) (Q (S l) a)) with (Some (nd n b L v l (Q (S l) a))) by (unfold fset; rewrite EQ, Nat.eqb_refl, N.eqb_refl; reflexivity). rewrite cn_in; [reflexivity|lia|rewrite (old_eq _ _ _ OL); lia|apply Qab'; auto].
        -- left. rewrite fset_other by lia. rewrite (t_out _ _ _ _ T) by lia. rewrite cn_out by lia. reflexivity.
      * left. rewrite fset_other by (destruct (Nat.eq_dec j L) as [->|]; auto). rewrite (t_off _ _ _ _ T) by auto. apply cn_off; auto.
    + intros i I. destruct (t_er _ _ _ _ T i I) as (j & B & -> & O). exists (S j), (Q (S j) a). split; auto. right. rewrite (not_old K K2 a _ O). lia.
  - eapply rep_ext; [| | |exact R1]; auto. intros j. rewrite (t_lf _ _ _ _ T). unfold Rvt_Proofs2.lfc. destruct (Nat.leb_spec 1 j), (Nat.ltb_spec j L), (Nat.leb_spec j L); cbn [andb]; try lia; auto. assert (j = S l) by lia. subst j. rewrite (old_eq _ _ _ OL). reflexivity.
Qed.
End Rem.
End S.
