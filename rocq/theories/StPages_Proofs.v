(** Proofs about reserved pages. *)
From Coq Require Import List Arith NArith Bool Lia.
From Verif Require Import Lib_Bytes StPages_Model.
Import ListNotations.
Local Open Scope N_scope.

Definition mt (p c : N) (x : ent) : bool := (pid x =? p) && (ckp x <=? c).
Definition F (l : list ent) (p c : N) : option ent := find (mt p c) l.

Lemma F_some l p c x : F l p c = Some x -> In x l /\ pid x = p /\ ckp x <= c.
Proof. intros E. apply find_some in E. destruct E as [A B]. unfold mt in B. apply andb_true_iff in B. rewrite N.eqb_eq, N.leb_le in B. tauto. Qed.
Lemma F_none l p c : F l p c = None <-> forall x, In x l -> pid x = p -> c < ckp x.
Proof.
  unfold F. split.
  - intros E x I P. pose proof (find_none _ _ E x I) as Q. unfold mt in Q. subst p. rewrite N.eqb_refl in Q. simpl in Q. apply N.leb_gt; auto.
  - intros A. destruct (find (mt p c) l) eqn:E; auto. exfalso. apply find_some in E. destruct E as [E1 E2]. unfold mt in E2. apply andb_true_iff in E2. rewrite N.eqb_eq, N.leb_le in E2. specialize (A e E1). lia.
Qed.
Lemma getRes_F l p c : sortedE l -> getRes l p c = F l p c.
Proof.
  unfold getRes. induction l as [|x l IH]; intros SO; simpl; auto. inversion SO; subst. unfold klt, F. simpl. unfold mt at 1.
  destruct (N.eqb_spec (pid x) p) as [E|E]; simpl.
  - destruct (N.ltb_spec c (ckp x)); destruct (N.leb_spec (ckp x) c); try lia; [apply IH; auto|]. destruct (N.ltb_spec p (pid x)); auto. lia.
  - destruct (N.ltb_spec (pid x) p); [apply IH; auto|]. destruct (N.ltb_spec p (pid x)); [|lia]. symmetry. apply F_none. intros y Iy Ey. specialize (H1 y Iy). unfold keyLt in H1. lia.
Qed.

(** insertE *)
Lemma insertE_in l e y : In y (insertE l e) -> In y l \/ (pid y = pid e /\ ckp y = ckp e /\ content y = content e /\ (y = e \/ hasKey l (pid e) (ckp e) = true)).
Proof.
  induction l as [|x l IH]; simpl; [intros [<-|[]]; auto 10|]. destruct ((pid x =? pid e) && (ckp x =? ckp e)) eqn:K; simpl.
  - apply andb_true_iff in K. rewrite !N.eqb_eq in K. intros [<-|I]; auto. right. simpl. tauto.
  - destruct (klt _ _ _ _); simpl.
    + intros [<-|[<-|I]]; auto 10.
    + intros [<-|I]; auto. destruct (IH I) as [Q|(Q1 & Q2 & Q3 & Q4)]; [auto|right; tauto].
Qed.
Lemma insertE_sorted l e : sortedE l -> sortedE (insertE l e).
Proof.
  induction l as [|x l IH]; intros SO; simpl; [constructor; [intros y []|constructor]|]. inversion SO; subst.
  destruct ((pid x =? pid e) && (ckp x =? ckp e)) eqn:K; [constructor; auto|]. destruct (klt (pid e) (ckp e) (pid x) (ckp x)) eqn:L.
  - constructor; auto. assert (X : keyLt e x). { unfold klt in L. destruct (N.eqb_spec (pid e) (pid x)); [apply N.ltb_lt in L; right; auto|]. apply N.ltb_lt in L. left; auto. }
    intros y [<-|I]; auto. specialize (H1 y I). unfold keyLt in *. lia.
  - constructor; auto. intros y I. apply insertE_in in I. destruct I as [I|(I1 & I2 & _)]; auto. unfold klt in L. unfold keyLt. rewrite I1, I2. rewrite andb_false_iff, !N.eqb_neq in K.
    destruct (N.eqb_spec (pid e) (pid x)); [apply N.ltb_ge in L|apply N.ltb_ge in L]; lia.
Qed.
Lemma F_insert_other l e p c : pid e <> p -> F (insertE l e) p c = F l p c.
Proof.
  intros NE. unfold F. induction l as [|x l IH]; simpl.
  - unfold mt. destruct (N.eqb_spec (pid e) p); [congruence|]. auto.
  - destruct ((pid x =? pid e) && (ckp x =? ckp e)) eqn:K; simpl.
    + apply andb_true_iff in K. rewrite !N.eqb_eq in K. destruct K as [K _]. unfold mt at 1 3. simpl. destruct (N.eqb_spec (pid x) p); [congruence|]. auto.
    + destruct (klt _ _ _ _); simpl; [|rewrite IH; auto]. unfold mt at 1. destruct (N.eqb_spec (pid e) p); [congruence|]. auto.
Qed.
Lemma F_insert_same l e c : ckp e <= c -> (forall x, In x l -> pid x = pid e -> ckp x <= ckp e) ->
  exists e', F (insertE l e) (pid e) c = Some e' /\ pid e' = pid e /\ ckp e' = ckp e /\ content e' = content e /\ (hasKey l (pid e) (ckp e) = false -> e' = e).
Proof.
  intros C. unfold F. induction l as [|x l IH]; simpl; intros A.
  - exists e. unfold mt. rewrite N.eqb_refl. simpl. destruct (N.leb_spec (ckp e) c); [auto|lia].
  - destruct ((pid x =? pid e) && (ckp x =? ckp e)) eqn:K; simpl.
    + apply andb_true_iff in K. rewrite !N.eqb_eq in K. destruct K as [K1 K2]. unfold mt at 1. simpl. rewrite K1, K2, N.eqb_refl. simpl. destruct (N.leb_spec (ckp e) c); [|lia].
      eexists. split; [reflexivity|]. simpl. repeat split; auto. discriminate.
    + destruct (klt (pid e) (ckp e) (pid x) (ckp x)) eqn:L; simpl.
      * exists e. unfold mt at 1. rewrite N.eqb_refl. simpl. destruct (N.leb_spec (ckp e) c); [auto|lia].
      * assert (pid x <> pid e). { intros E. rewrite E in L. unfold klt in L. rewrite N.eqb_refl in L. apply N.ltb_ge in L. specialize (A x (or_introl eq_refl) E). rewrite E, N.eqb_refl in K. simpl in K. apply N.eqb_neq in K. lia. }
        unfold mt at 1. destruct (N.eqb_spec (pid x) (pid e)); [congruence|]. simpl. apply IH. intros; apply A; auto.
Qed.

(** Descriptors. *)
Lemma setNth_len {A} (l : list A) : forall i v, length (setNth l i v) = length l.
Proof. induction l; intros [|i] v; simpl; auto. Qed.
Lemma setNth_nth {A} (l : list A) : forall i v j d, (i < length l)%nat -> nth j (setNth l i v) d = if Nat.eqb j i then v else nth j l d.
Proof. induction l; intros [|i] v [|j] d Q; simpl in *; try lia; auto. rewrite IHl by lia. auto. Qed.
Definition dOf (o : option ent) (z : dent) : dent := match o with Some x => (pid x, ckp x, dg x) | None => z end.
Lemma desc_loop l c : forall d, sortedE l -> (forall y, In y l -> pid y < N.of_nat (length d) /\ 0 < ckp y) ->
  (forall y, In y l -> let '(_, c0, _) := nth (N.to_nat (pid y)) d zeroD in c0 = 0 \/ ckp y < c0) ->
  exists d', descLoop l c d = Some d' /\ length d' = length d /\
  forall i, (i < length d)%nat -> nth i d' zeroD = (let '(_, c0, _) := nth i d zeroD in if 0 <? c0 then nth i d zeroD else dOf (F l (N.of_nat i) c) (nth i d zeroD)).
Proof.
  induction l as [|x l IH]; intros d SO A B; simpl.
  - exists d. repeat split; auto. intros i Hi. destruct (nth i d zeroD) as [[p0 c0] g0]. destruct (0 <? c0); auto.
  - inversion SO; subst. unfold F at 1. simpl. unfold mt at 1.
    destruct (N.leb_spec (ckp x) c) as [LE|GT].
    + assert (PX : (N.to_nat (pid x) < length d)%nat) by (destruct (A x (or_introl eq_refl)); lia).
      assert (NE : nth_error d (N.to_nat (pid x)) = Some (nth (N.to_nat (pid x)) d zeroD)) by (apply nth_error_nth'; auto).
      rewrite NE. pose proof (B x (or_introl eq_refl)) as Bx. destruct (nth (N.to_nat (pid x)) d zeroD) as [[p0 c0] g0] eqn:ND.
      destruct (N.ltb_spec 0 c0) as [P|Z].
      * destruct Bx as [Bx|Bx]; [lia|]. destruct (N.ltb_spec (ckp x) c0); [|lia].
        destruct (IH d H2) as (d' & E1 & E2 & E3); [intros; apply A; right; auto|intros; apply B; right; auto|]. exists d'. repeat split; auto. intros i Hi. rewrite (E3 i Hi).
        destruct (nth i d zeroD) as [[p1 c1] g1] eqn:NI. destruct (N.ltb_spec 0 c1); auto. destruct (N.eqb_spec (pid x) (N.of_nat i)) as [EI|]; simpl; auto.
        exfalso. rewrite EI, Nat2N.id, NI in ND. inversion ND; subst. lia.
      * destruct (IH (setNth d (N.to_nat (pid x)) (pid x, ckp x, dg x)) H2) as (d' & E1 & E2 & E3).
        -- intros y Iy. rewrite setNth_len. apply A; right; auto.
        -- intros y Iy. rewrite setNth_nth by auto. destruct (Nat.eqb_spec (N.to_nat (pid y)) (N.to_nat (pid x))) as [EQ|]; [|apply B; right; auto].
           specialize (H1 y Iy). unfold keyLt in H1. apply N2Nat.inj in EQ. right. lia.
        -- rewrite setNth_len in *. exists d'. repeat split; auto. intros i Hi. rewrite (E3 i Hi). rewrite setNth_nth by auto.
           destruct (Nat.eqb_spec i (N.to_nat (pid x))) as [EI|NI].
           ++ subst i. rewrite ND. destruct (A x (or_introl eq_refl)) as [_ A2]. destruct (N.ltb_spec 0 (ckp x)); [|lia]. destruct (N.ltb_spec 0 c0); [lia|]. rewrite N2Nat.id, N.eqb_refl. simpl. reflexivity.
           ++ destruct (nth i d zeroD) as [[p1 c1] g1]. destruct (0 <? c1); auto. destruct (N.eqb_spec (pid x) (N.of_nat i)) as [EI|]; simpl; auto. exfalso. apply NI. rewrite EI, Nat2N.id. auto.
    + destruct (IH d H2) as (d' & E1 & E2 & E3); [intros; apply A; right; auto|intros; apply B; right; auto|]. exists d'. repeat split; auto. intros i Hi. rewrite (E3 i Hi). rewrite andb_false_r. reflexivity.
Qed.
Definition descF (np : nat) (l : list ent) (c : N) : list dent := map (fun i => dOf (F l (N.of_nat i) c) zeroD) (seq 0 np).
Lemma nth_repeat_z (n i : nat) : nth i (repeat zeroD n) zeroD = zeroD.
Proof. revert i; induction n; intros [|i]; simpl; auto. Qed.
Lemma nth_map_seq {A} (g : nat -> A) n i d : (i < n)%nat -> nth i (map g (seq 0 n)) d = g i.
Proof. intros L. rewrite nth_indep with (d' := g O) by (rewrite map_length, seq_length; auto). rewrite map_nth, seq_nth; auto. Qed.
Lemma descriptor_F np l c : sortedE l -> (forall y, In y l -> pid y < N.of_nat np /\ 0 < ckp y) -> descriptor np l c = Some (descF np l c).
Proof.
  intros SO A. unfold descriptor. destruct (desc_loop l c (repeat zeroD np) SO) as (d & E1 & E2 & E3).
  - intros y Iy. rewrite repeat_length. auto.
  - intros y Iy. rewrite nth_repeat_z. simpl. auto.
  - rewrite repeat_length in *. rewrite E1. f_equal. apply nth_ext with (d := zeroD) (d' := zeroD); [unfold descF; rewrite map_length, seq_length; auto|]. intros i Hi. rewrite E2 in Hi.
    rewrite E3 by auto. rewrite nth_repeat_z. unfold zeroD at 1. simpl. unfold descF. rewrite nth_map_seq by auto. reflexivity.
Qed.

(** Covered pages. *)
Lemma cover_F m p c l : m <= c -> forall prev flag, (flag = false \/ prev <> p) -> F (coverLoop m prev flag l) p c = F l p c.
Proof.
  intros M. unfold F. induction l as [|x l IH]; intros prev flag Q; simpl; auto. destruct ((pid x =? prev) && flag) eqn:K; simpl.
  - apply andb_true_iff in K. destruct K as [K ->]. apply N.eqb_eq in K. destruct Q as [|Q]; [discriminate|]. rewrite IH by auto. unfold mt at 2. destruct (N.eqb_spec (pid x) p); [congruence|]. auto.
  - destruct (mt p c x) eqn:X; auto. apply IH. unfold mt in X. destruct (N.eqb_spec (pid x) p); auto. left. simpl in X. apply N.leb_gt in X. apply N.leb_gt. lia.
Qed.
Lemma covered_F m p c l : m <= c -> F (deleteCovered m l) p c = F l p c.
Proof.
  intros M. unfold deleteCovered. destruct (m <=? 1); auto. destruct l as [|x l]; auto. unfold F. simpl. destruct (mt p c x) eqn:X; auto. apply (cover_F m p c l M).
  unfold mt in X. destruct (N.eqb_spec (pid x) p); auto. left. simpl in X. apply N.leb_gt in X. apply N.leb_gt. lia.
Qed.
Lemma cover_in m l : forall prev flag x, In x (coverLoop m prev flag l) -> In x l.
Proof. induction l as [|y l IH]; intros prev flag x; simpl; auto. destruct (_ && _); simpl; intros; [right; eauto|]. destruct H as [->|H]; auto. right; eauto. Qed.
Lemma cover_sorted m l : forall prev flag, sortedE l -> sortedE (coverLoop m prev flag l).
Proof. induction l as [|y l IH]; intros prev flag SO; simpl; auto. inversion SO; subst. destruct (_ && _); auto. constructor; auto. intros z Iz. apply cover_in in Iz. auto. Qed.
Lemma covered_in m l x : In x (deleteCovered m l) -> In x l.
Proof. unfold deleteCovered. destruct (m <=? 1); auto. destruct l as [|y l]; auto. simpl. intros [->|I]; auto. apply cover_in in I. auto. Qed.
Lemma covered_sorted m l : sortedE l -> sortedE (deleteCovered m l).
Proof. unfold deleteCovered. destruct (m <=? 1); auto. destruct l as [|y l]; auto. intros SO. inversion SO; subst. constructor; [|apply cover_sorted; auto]. intros z Iz. apply cover_in in Iz. auto. Qed.

(** Applying elements. *)
Lemma hasKey_true l p c : hasKey l p c = true <-> exists x, In x l /\ pid x = p /\ ckp x = c.
Proof. unfold hasKey. rewrite existsb_exists. split; intros (x & I & E); exists x; split; auto; [apply andb_true_iff in E; rewrite !N.eqb_eq in E; auto|]. destruct E as [-> ->]. rewrite !N.eqb_refl. auto. Qed.
Lemma apply_sorted els chk : forall l l', sortedE l -> applyEls l els chk = Some l' -> sortedE l'.
Proof. induction els as [|e els IH]; intros l l' SO; simpl; [intros E; inversion E; subst; auto|]. unfold setResPage. destruct (chk && _); [discriminate|]. intros E. eapply IH; [|exact E]. apply insertE_sorted; auto. Qed.
Lemma apply_in els : forall l l' y, applyEls l els true = Some l' -> In y l' -> In y l \/ In y els.
Proof.
  induction els as [|e els IH]; intros l l' y; simpl; [intros E; inversion E; subst; auto|]. unfold setResPage. simpl. destruct (hasKey l (pid e) (ckp e)) eqn:K; [discriminate|]. intros E I.
  destruct (IH _ _ _ E I) as [Q|Q]; auto. apply insertE_in in Q. destruct Q as [Q|(_ & _ & _ & [->|Q])]; auto. congruence.
Qed.
Lemma apply_other els chk p c : (forall e, In e els -> pid e <> p) -> forall l l', applyEls l els chk = Some l' -> F l' p c = F l p c.
Proof.
  induction els as [|e els IH]; intros A l l'; simpl; [intros E; inversion E; subst; auto|]. unfold setResPage. destruct (chk && _); [discriminate|]. intros E.
  rewrite (IH (fun e0 I => A e0 (or_intror I)) _ _ E). apply F_insert_other. apply A; left; auto.
Qed.
Lemma apply_same els chk c e : NoDup (map pid els) -> In e els -> ckp e <= c -> forall l l', (forall x, In x l -> pid x = pid e -> ckp x <= ckp e) -> applyEls l els chk = Some l' ->
  exists e', F l' (pid e) c = Some e' /\ pid e' = pid e /\ ckp e' = ckp e /\ content e' = content e /\ (chk = true -> e' = e).
Proof.
  induction els as [|y els IH]; intros ND I C l l' A; simpl; [destruct I|]. inversion ND; subst. unfold setResPage. destruct (chk && hasKey l (pid y) (ckp y)) eqn:K; [discriminate|]. intros E.
  destruct I as [->|I].
  - destruct (F_insert_same l e c C A) as (e' & Q1 & Q2 & Q3 & Q4 & Q5). exists e'. rewrite (apply_other els chk (pid e) c) with (l := insertE l e); auto.
    + repeat split; auto. intros ->. simpl in K. auto.
    + intros y Iy Ey. apply H1. rewrite <- Ey. apply in_map; auto.
  - apply (IH H2 I C (insertE l y) l'); auto. intros x Ix Ex. apply insertE_in in Ix. destruct Ix as [Ix|(Ix & _)]; auto. exfalso. apply H1. rewrite <- Ix, Ex. apply in_map; auto.
Qed.
Lemma apply_total els : forall l, NoDup (map pid els) -> (forall e x, In e els -> In x l -> pid x = pid e -> ckp x <> ckp e) -> exists l', applyEls l els true = Some l'.
Proof.
  induction els as [|e els IH]; intros l ND A; simpl; [eauto|]. inversion ND; subst. unfold setResPage. simpl. destruct (hasKey l (pid e) (ckp e)) eqn:K.
  - apply hasKey_true in K. destruct K as (x & I & P & C). exfalso. apply (A e x); auto. left; auto.
  - apply IH; auto. intros e0 x Ie Ix Ex. apply insertE_in in Ix. destruct Ix as [Ix|(Ix & _)]; [apply A; auto; right; auto|]. exfalso. apply H1. rewrite <- Ix, Ex. apply in_map; auto.
Qed.

(** Local use. *)
Section L.
Variable H : bytes -> bytes.
Variables (np psz : nat).
Definition mkEl (c : N) (q : N * bytes) : ent := mkEnt (fst q) c (H (pagePre (fst q) c (snd q))) (snd q).
Lemma associate_apply c l : forall ps, associate H l c ps = applyEls ps (map (mkEl c) l) true.
Proof. induction l as [|[p x] l IH]; intros ps; simpl; auto. unfold setResPage. simpl. destruct (hasKey ps p c); auto. Qed.
Lemma pget_in l p x : NoDup (map fst l) -> (pget l p = Some x <-> In (p, x) l).
Proof.
  induction l as [|[q y] l IH]; simpl; intros ND; [split; [discriminate|tauto]|]. inversion ND; subst. destruct (N.eqb_spec q p) as [->|NE].
  - split; [intros E; inversion E; subst; auto|]. intros [E|I]; [inversion E; auto|]. exfalso. apply H2. apply (in_map fst) in I. auto.
  - rewrite IH by auto. split; [auto|]. intros [E|I]; auto. inversion E; congruence.
Qed.
Lemma pget_none l p : pget l p = None <-> ~ In p (map fst l).
Proof. induction l as [|[q y] l IH]; simpl; [tauto|]. destruct (N.eqb_spec q p) as [->|NE]; [split; [discriminate|intuition]|]. rewrite IH. tauto. Qed.
Lemma pset_get l p x q : pget (pset l p x) q = if q =? p then Some x else pget l q.
Proof. induction l as [|[r y] l IH]; simpl; [rewrite (N.eqb_sym p q); auto|]. destruct (N.eqb_spec r p) as [->|NE]; simpl; [rewrite (N.eqb_sym p q); destruct (q =? p); auto|]. rewrite IH. destruct (N.eqb_spec r q) as [->|]; auto. destruct (N.eqb_spec q p); congruence. Qed.
Lemma pset_keys l p x q : In q (map fst (pset l p x)) <-> In q (map fst l) \/ q = p.
Proof. induction l as [|[r y] l IH]; simpl; [intuition|]. destruct (N.eqb_spec r p) as [->|NE]; simpl; [intuition|]. rewrite IH. intuition. Qed.
Lemma pset_nodup l p x : NoDup (map fst l) -> NoDup (map fst (pset l p x)).
Proof. induction l as [|[r y] l IH]; simpl; intros ND; [constructor; auto; constructor|]. inversion ND; subst. destruct (N.eqb_spec r p) as [->|NE]; simpl; constructor; auto. rewrite pset_keys. intros [Q|Q]; auto. Qed.
Lemma pset_in l p x q y : In (q, y) (pset l p x) -> In (q, y) l \/ (q = p /\ y = x).
Proof. induction l as [|[r z] l IH]; simpl; [intros [E|[]]; inversion E; auto|]. destruct (N.eqb_spec r p) as [->|NE]; simpl; intros [E|I]; auto; [inversion E; auto|]. destruct (IH I); auto. Qed.

Definition view (s : st) (p : N) : option bytes := match pget (pending s) p with Some x => Some x | None => match F (pages s) p (last s) with Some e => Some (content e) | None => None end end.
Definition Inv (s : st) : Prop :=
  storeOk H np psz (pages s) (last s) /\ NoDup (map fst (pending s)) /\ (forall p x, In (p, x) (pending s) -> p < N.of_nat np /\ length x = psz).
Lemma load_view s p k : Inv s -> load s p k = option_map (firstn k) (view s p).
Proof.
  intros ((SO & A) & _). unfold load, view. destruct (pget (pending s) p); auto. rewrite getRes_F by auto. destruct (N.eqb_spec (last s) 0) as [Z|NZ].
  - destruct (F (pages s) p (last s)) eqn:E; auto. apply F_some in E. destruct E as (I & _). specialize (A _ I). lia.
  - destruct (F (pages s) p (last s)); auto.
Qed.
Lemma save_inv s p x : Inv s -> p < N.of_nat np -> (length x <= psz)%nat ->
  exists s', save np psz s p x = Some s' /\ Inv s' /\ last s' = last s /\ forall q, view s' q = if q =? p then Some (x ++ repeat 0 (psz - length x)) else view s q.
Proof.
  intros (A & B & C) P L. unfold save. destruct (N.ltb_spec p (N.of_nat np)); [|lia]. destruct (Nat.leb_spec (length x) psz); [|lia]. simpl. eexists. split; [reflexivity|]. split; [|split; [reflexivity|]].
  - split; auto. simpl. split; [apply pset_nodup; auto|]. intros q y I. apply pset_in in I. destruct I as [I|[-> ->]]; auto. split; auto. unfold padded. rewrite app_length, repeat_length. lia.
  - intros q. unfold view. simpl. rewrite pset_get. destruct (q =? p); auto.
Qed.
Lemma checkpoint_inv s c m : Inv s -> last s < c -> m <= c ->
  exists s', checkpoint H s c m = Some s' /\ Inv s' /\ last s' = c /\ forall q, view s' q = view s q.
Proof.
  intros ((SO & A) & B & C) L M. unfold checkpoint. destruct (N.leb_spec c (last s)); [lia|]. rewrite associate_apply.
  assert (ND : NoDup (map pid (map (mkEl c) (pending s)))). { rewrite map_map. simpl. auto. }
  destruct (apply_total (map (mkEl c) (pending s)) (pages s) ND) as (l' & E).
  { intros e x Ie Ix _. apply in_map_iff in Ie. destruct Ie as ([p y] & <- & Ip). simpl. destruct (A x Ix) as (_ & _ & Q & _). lia. }
  rewrite E. eexists. split; [reflexivity|]. split; [|split; [reflexivity|]].
  - split; [split|split; [constructor|intros ? ? []]].
    + simpl. apply covered_sorted. eapply apply_sorted; eauto.
    + simpl. intros e I. apply covered_in in I. destruct (apply_in _ _ _ _ E I) as [Q|Q].
      * destruct (A e Q) as (A1 & A2 & A3 & A4). repeat split; try tauto. lia.
      * apply in_map_iff in Q. destruct Q as ([p y] & <- & Ip). simpl. destruct (C p y Ip). repeat split; auto; lia.
  - intros q. unfold view. simpl. rewrite covered_F by lia. destruct (pget (pending s) q) as [x|] eqn:P.
    + pose proof P as P'. apply (pget_in _ _ _ B) in P'. destruct (apply_same (map (mkEl c) (pending s)) true c (mkEl c (q, x)) ND) with (l := pages s) (l' := l') as (e' & Q1 & Q2 & Q3 & Q4 & Q5); auto.
      * apply in_map. auto.
      * simpl. lia.
      * intros y Iy _. simpl. destruct (A y Iy) as (_ & _ & Q & _). lia.
      * simpl in Q1. rewrite Q1, Q4. auto.
    + rewrite (apply_other (map (mkEl c) (pending s)) true q c) with (l := pages s); auto.
      * assert (F (pages s) q c = F (pages s) q (last s)) as ->; auto. destruct (F (pages s) q (last s)) eqn:X.
        -- clear - X A L. revert X. unfold F. induction (pages s) as [|y l IH]; simpl; [discriminate|]. destruct (mt q (last s) y) eqn:Y.
           ++ intros X. inversion X; subst. unfold mt in *. apply andb_true_iff in Y. destruct Y as [Y1 Y2]. rewrite Y1. simpl. apply N.leb_le in Y2. destruct (N.leb_spec (ckp e) c); auto. lia.
           ++ intros X. assert (Z : mt q c y = false). { unfold mt in *. destruct (pid y =? q); auto. simpl in *. apply N.leb_gt in Y. destruct (A y (or_introl eq_refl)) as (_ & _ & Q & _). lia. } rewrite Z. apply IH; auto. intros; apply A; right; auto.
        -- apply F_none. intros x Ix Ex. exfalso. rewrite F_none in X. specialize (X x Ix Ex). destruct (A x Ix) as (_ & _ & Q & _). lia.
      * intros e Ie. apply in_map_iff in Ie. destruct Ie as ([p y] & <- & Ip). simpl. intros ->. apply pget_none in P. apply P. apply (in_map fst) in Ip. auto.
Qed.
Lemma prun_inv l : forall s, Inv s -> okOps np psz (last s) l -> exists s', prun H np psz s l = Some s' /\ Inv s' /\ forall q, view s' q = lastSaved psz q (view s q) l.
Proof.
  induction l as [|[p x|p|c m] l IH]; intros s I O; simpl in *.
  - exists s. auto.
  - destruct O as (O1 & O2 & O3). destruct (save_inv s p x I O1 O2) as (s' & E & I' & L & V). rewrite E. destruct (IH s' I') as (s2 & E2 & I2 & V2); [rewrite L; auto|]. exists s2. split; auto. split; auto. intros q. rewrite V2, V, (N.eqb_sym q p). auto.
  - destruct O as (O1 & O3). unfold zero. destruct (save_inv s p (repeat 0 psz) I O1) as (s' & E & I' & L & V); [rewrite repeat_length; auto|]. rewrite E. destruct (IH s' I') as (s2 & E2 & I2 & V2); [rewrite L; auto|]. exists s2. split; auto. split; auto. intros q. rewrite V2, V, (N.eqb_sym q p).
    rewrite repeat_length, Nat.sub_diag. simpl. rewrite app_nil_r. auto.
  - destruct O as (O1 & O2 & O3). destruct (checkpoint_inv s c m I O1 O2) as (s' & E & I' & L & V). rewrite E. destruct (IH s' I') as (s2 & E2 & I2 & V2); [rewrite L; auto|]. exists s2. split; auto. split; auto. intros q. rewrite V2, V. auto.
Qed.
Lemma inv0 : Inv (mkSt [] [] 0).
Proof. split; [split; [constructor|intros e []]|]. split; [constructor|intros p x []]. Qed.
End L.
