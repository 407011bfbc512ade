From Coq Require Import List Arith Bool Lia Permutation Sorted.
From Verif Require Import Lru_Model.
Import ListNotations.
Section L.
Context {K V : Type}.
Variable eqK : forall a b : K, {a = b} + {a <> b}.
Notation find := (@find K V eqK). Notation erase := (@erase K V eqK). Notation assign := (@assign K V eqK).
Notation put := (@put K V eqK). Notation get := (@get K V eqK). Notation run := (@run K V eqK). Notation step := (@step K V eqK).
Notation lastPut := (@lastPut K V eqK). Notation ago := (@ago K V eqK).
Lemma find_In k m : find k m <> None <-> In k (map fst m).
Proof. induction m as [|[a v] m IH]; simpl; [tauto|]. destruct (eqK a k); [split; auto; intros _; discriminate|]. rewrite IH. tauto. Qed.
Lemma find_None k m : find k m = None <-> ~ In k (map fst m).
Proof. rewrite <- find_In. destruct (find k m); split; intros; try discriminate; try tauto; try congruence. exfalso. apply H. discriminate. Qed.
Lemma assign_fst k v m : map fst (assign k v m) = map fst m.
Proof. induction m as [|[a w] m IH]; simpl; auto. destruct (eqK a k); simpl; f_equal; auto. Qed.
Lemma find_assign k v k' m : In k (map fst m) -> find k' (assign k v m) = if eqK k k' then Some v else find k' m.
Proof.
  induction m as [|[a w] m IH]; simpl; [tauto|]. intros H. destruct (eqK a k) as [->|N]; simpl.
  - destruct (eqK k k'); auto.
  - destruct H as [H|H]; [congruence|]. rewrite IH by auto. destruct (eqK a k') as [->|]; auto. destruct (eqK k k'); congruence.
Qed.
Lemma erase_perm b m : In b (map fst m) -> Permutation (map fst m) (b :: map fst (erase b m)).
Proof.
  induction m as [|[a w] m IH]; simpl; [tauto|]. intros H. destruct (eqK a b) as [->|N]; auto. destruct H as [H|H]; [congruence|]. simpl. rewrite (IH H) at 1. apply perm_swap.
Qed.
Lemma find_erase b k m : k <> b -> find k (erase b m) = find k m.
Proof. intros N. induction m as [|[a w] m IH]; simpl; auto. destruct (eqK a b) as [->|]; simpl; [destruct (eqK b k); congruence|]. rewrite IH. auto. Qed.
Lemma remove_perm k (l : list K) : NoDup l -> In k l -> Permutation l (k :: remove eqK k l).
Proof.
  induction l as [|a l IH]; simpl; [tauto|]. intros N H. inversion N as [|? ? N1 N2]; subst. destruct (eqK k a) as [->|D].
  - rewrite notin_remove; auto.
  - destruct H as [H|H]; [congruence|]. rewrite (IH N2 H) at 1. apply perm_swap.
Qed.
Lemma back_last (l : list K) b : back l = Some b -> l = removelast l ++ [b].
Proof.
  induction l as [|a l IH]; [discriminate|]. destruct l as [|a' l]; [simpl; intros H; inversion H; auto|]. intros H. change (back (a' :: l) = Some b) in H.
  change (removelast (a :: a' :: l)) with (a :: removelast (a' :: l)). rewrite <- app_comm_cons. f_equal. apply IH. auto.
Qed.
Lemma back_nonempty (l : list K) : l <> [] -> exists b, back l = Some b.
Proof. induction l as [|a [|a' l] IH]; [congruence|eexists; reflexivity|]. intros _. apply IH. discriminate. Qed.
Lemma nodup_l (A B : list K) : NoDup (A ++ B) -> NoDup A.
Proof. induction A as [|a A IH]; intros H; constructor; inversion H; subst; auto. intros X. apply H2, in_or_app. auto. Qed.
Definition Inv (cap : nat) (h : list (op K V)) (c : lru K V) : Prop :=
  NoDup (keys c) /\ Permutation (keys c) (map fst (cmap c)) /\ length (keys c) <= cap /\
  (forall k v, find k (cmap c) = Some v -> lastPut k h = Some v) /\ StronglySorted (fun a b => ago a h < ago b h) (keys c).
Lemma In_keys c k : Permutation (keys c) (map fst (cmap c)) -> (In k (keys c) <-> find k (cmap c) <> None).
Proof. intros P. rewrite find_In. split; apply Permutation_in; [|symmetry]; auto. Qed.
Lemma ss_app_l (R : K -> K -> Prop) l b : StronglySorted R (l ++ b) -> StronglySorted R l.
Proof. induction l as [|a l IH]; simpl; intros H; constructor; inversion H as [|? ? H1 H2]; subst; auto. apply Forall_app in H2. tauto. Qed.
Lemma ss_remove (R : K -> K -> Prop) k l : StronglySorted R l -> StronglySorted R (remove eqK k l).
Proof.
  induction l; simpl; intros H; [constructor|]. inversion H as [|? ? S F]; subst. destruct (eqK k a); auto. constructor; auto.
  rewrite Forall_forall in *. intros x Hx. apply in_remove in Hx. apply F. tauto.
Qed.
Lemma ss_impl (R R' : K -> K -> Prop) l : (forall a b, In a l -> In b l -> R a b -> R' a b) -> StronglySorted R l -> StronglySorted R' l.
Proof.
  induction l as [|a l IH]; intros H S; [constructor|]. inversion S as [|? ? S1 F]; subst. constructor.
  - apply IH; auto. intros; apply H; simpl; auto.
  - rewrite Forall_forall in *. intros x Hx. apply H; simpl; auto.
Qed.
(** Moving or adding a key to the front keeps the order of last uses. *)
Lemma ago_front h o k l : opKey o = Some k -> ~ In k l -> StronglySorted (fun a b => ago a h < ago b h) l -> StronglySorted (fun a b => ago a (o :: h) < ago b (o :: h)) (k :: l).
Proof.
  intros E N S. assert (X : forall a, a <> k -> ago a (o :: h) = Datatypes.S (ago a h)) by (intros a Ha; simpl; rewrite E; destruct (eqK k a); congruence).
  assert (X0 : ago k (o :: h) = 0) by (simpl; rewrite E; destruct (eqK k k); congruence).
  constructor.
  - eapply ss_impl; [|exact S]. intros a b Ha Hb R. cbv beta in *. rewrite !X; [lia| |]; intros ->; auto.
  - apply Forall_forall. intros b Hb. cbv beta. rewrite X0, X; [lia|]. intros ->. auto.
Qed.
Lemma ago_miss h o k l : opKey o = Some k -> ~ In k l -> StronglySorted (fun a b => ago a h < ago b h) l -> StronglySorted (fun a b => ago a (o :: h) < ago b (o :: h)) l.
Proof. intros E N S. pose proof (ago_front h o k l E N S) as H. inversion H; auto. Qed.
Lemma nodup_front k l : NoDup l -> In k l -> NoDup (k :: remove eqK k l).
Proof. intros N H. eapply Permutation_NoDup; [apply remove_perm; eauto|auto]. Qed.
Lemma step_inv cap h c o : 0 < cap -> Inv cap h c -> exists c', step cap c o = Some c' /\ Inv cap (o :: h) c'.
Proof.
  intros C0 (N & P & L & F & S). pose proof (fun k => In_keys c k P) as IK. destruct o as [k v|k|]; simpl step.
  - unfold Lru_Model.put. destruct (find k (cmap c)) as [w|] eqn:E.
    + assert (Ik : In k (keys c)) by (apply IK; congruence). eexists. split; [reflexivity|]. unfold moveToFront. split; [|split; [|split; [|split]]]; simpl.
      * apply (nodup_front k _ N Ik).
      * rewrite assign_fst, <- P. symmetry. apply remove_perm; auto.
      * pose proof (Permutation_length (remove_perm k _ N Ik)). simpl in *. lia.
      * intros k' v'. rewrite find_assign by (apply find_In; congruence). destruct (eqK k k'); auto.
      * apply (ago_front h (Put k v)); auto; [apply remove_In|apply ss_remove; auto].
    + assert (Ik : ~ In k (keys c)) by (rewrite IK; congruence).
      destruct (Nat.eqb_spec (length (keys c)) cap) as [Q|Q].
      * destruct (back_nonempty (keys c)) as (b & B); [destruct (keys c); simpl in *; [lia|congruence]|]. rewrite B. eexists. split; [reflexivity|].
        apply back_last in B. set (r := removelast (keys c)) in *. assert (Ib : In b (map fst (cmap c))) by (rewrite <- P, B; apply in_or_app; simpl; auto).
        assert (Nk : k <> b) by (intros ->; apply Ik; rewrite B; apply in_or_app; simpl; auto). assert (Nr : ~ In k r) by (intros H; apply Ik; rewrite B; apply in_or_app; auto).
        assert (Nb : NoDup (b :: r)) by (eapply Permutation_NoDup; [|exact N]; rewrite B at 1; symmetry; apply Permutation_cons_append).
        split; [|split; [|split; [|split]]]; simpl.
        -- constructor; auto. inversion Nb; auto.
        -- constructor. apply (Permutation_cons_inv (a := b)). rewrite <- erase_perm by auto. rewrite <- P, B. apply Permutation_cons_append.
        -- rewrite B, app_length in Q. simpl in Q. lia.
        -- intros k' v'. destruct (eqK k k') as [->|]; auto. intros H. destruct (eqK k' b) as [->|Nb']; [|rewrite find_erase in H by auto; auto].
           exfalso. assert (H0 : find b (erase b (cmap c)) <> None) by congruence. apply find_In in H0.
           assert (Pm : NoDup (map fst (cmap c))) by (eapply Permutation_NoDup; eauto). pose proof (erase_perm b (cmap c) Ib) as Pe. eapply Permutation_NoDup in Pe; auto. inversion Pe; auto.
        -- apply (ago_front h (Put k v)); auto. rewrite B in S. eapply ss_app_l; eauto.
      * eexists. split; [reflexivity|]. split; [|split; [|split; [|split]]]; simpl.
        -- constructor; auto.
        -- constructor; auto.
        -- lia.
        -- intros k' v'. destruct (eqK k k'); auto.
        -- apply (ago_front h (Put k v)); auto.
  - unfold Lru_Model.get. destruct (find k (cmap c)) as [w|] eqn:E; simpl.
    + assert (Ik : In k (keys c)) by (apply IK; congruence). eexists. split; [reflexivity|]. unfold moveToFront. split; [|split; [|split; [|split]]]; simpl.
      * apply (nodup_front k _ N Ik).
      * rewrite <- P. symmetry. apply remove_perm; auto.
      * pose proof (Permutation_length (remove_perm k _ N Ik)). simpl in *. lia.
      * auto.
      * apply (ago_front h (Get V k)); auto; [apply remove_In|apply ss_remove; auto].
    + assert (Ik : ~ In k (keys c)) by (rewrite IK; congruence). eexists. split; [reflexivity|]. split; [|split; [|split; [|split]]]; auto. apply (ago_miss h (Get V k) k); auto.
  - eexists. split; [reflexivity|]. split; [|split; [|split; [|split]]]; simpl; try constructor; [lia|discriminate].
Qed.
Lemma run_inv cap h : 0 < cap -> exists c, run cap h = Some c /\ Inv cap h c.
Proof.
  intros C. induction h as [|o h (c & E & I)]; simpl.
  - eexists. split; [reflexivity|]. split; [|split; [|split; [|split]]]; simpl; try constructor; [lia|discriminate].
  - rewrite E. apply step_inv; auto.
Qed.
Lemma ss_nth (R : K -> K -> Prop) l b : StronglySorted R (l ++ [b]) -> forall a, In a l -> R a b.
Proof. induction l as [|x l IH]; simpl; intros S a H; [tauto|]. inversion S as [|? ? S1 F]; subst. destruct H as [<-|H]; auto. rewrite Forall_forall in F. apply F. apply in_or_app. simpl. auto. Qed.
(** Which key a put drops. *)
Lemma put_evicts cap h c k v c' : Inv cap h c -> put cap c k v = Some c' -> forall k0, In k0 (keys c) -> ~ In k0 (keys c') ->
  length (keys c) = cap /\ ~ In k (keys c) /\ (forall a, In a (keys c) -> a <> k0 -> ago a h < ago k0 h /\ In a (keys c')).
Proof.
  intros (N & P & L & F & S) E k0 H0 H1. pose proof (fun k => In_keys c k P) as IK. unfold Lru_Model.put in E. destruct (find k (cmap c)) as [w|] eqn:Fk.
  - inversion E; subst c'. simpl in H1. unfold moveToFront in H1. exfalso. apply H1. assert (Ik : In k (keys c)) by (apply IK; congruence). change (In k0 (k :: remove eqK k (keys c))). eapply Permutation_in; [apply (remove_perm k _ N Ik)|auto].
  - destruct (Nat.eqb_spec (length (keys c)) cap) as [Q|Q].
    + destruct (back (keys c)) as [b|] eqn:B; [|discriminate]. inversion E; subst c'. simpl in *. apply back_last in B. set (r := removelast (keys c)) in *.
      assert (X : k0 = b). { rewrite B in H0. apply in_app_or in H0. destruct H0 as [H0|[H0|[]]]; auto. exfalso. auto. } subst b.
      split; auto. split; [rewrite IK; congruence|]. intros a Ha D. assert (Hr : In a r). { rewrite B in Ha. apply in_app_or in Ha. destruct Ha as [Ha|[Ha|[]]]; auto. congruence. }
      split; auto. rewrite B in S. apply (ss_nth _ r k0 S a Hr).
    + inversion E; subst c'. simpl in H1. exfalso. auto.
Qed.
(** A key used since then only by few other keys is still there. *)
Definition Front (D : list K) (k : K) (v : V) (c : lru K V) : Prop :=
  (exists A B, keys c = A ++ k :: B /\ incl A D) /\ find k (cmap c) = Some v.
Lemma remove_app (a : K) l1 l2 : remove eqK a (l1 ++ l2) = remove eqK a l1 ++ remove eqK a l2.
Proof. induction l1; simpl; auto. destruct (eqK a a0); simpl; congruence. Qed.
Lemma step_front cap h c c' o D k v : Inv cap h c -> length D < cap -> Front D k v c -> step cap c o = Some c' ->
  match o with Clear _ _ => False | Put a w => a = k /\ w = v \/ a <> k /\ In a D | Get _ a => a = k \/ In a D end -> Front D k v c'.
Proof.
  intros (N & P & L & F & S) LD ((A & B & E & I) & Fk) St O. pose proof (fun k => In_keys c k P) as IK.
  assert (NA : ~ In k A /\ ~ In k B). { rewrite E in N. apply NoDup_remove_2 in N. split; intros H; apply N; apply in_or_app; auto. }
  assert (MF : forall a, In a (keys c) -> a = k \/ In a D -> exists A' B', moveToFront eqK a (keys c) = A' ++ k :: B' /\ incl A' D).
  { intros a Ha [->|Da]; unfold moveToFront.
    - exists [], (remove eqK k (keys c)). split; auto. intros x [].
    - destruct (eqK a k) as [->|Nak]; [exists [], (remove eqK k (keys c)); split; auto; intros x []|].
      rewrite E, remove_app. simpl. destruct (eqK a k); [congruence|]. exists (a :: remove eqK a A), (remove eqK a B). split; auto. intros x [<-|Hx]; auto. apply in_remove in Hx. apply I. tauto. }
  destruct o as [a w|a|]; simpl in St; [| |tauto].
  - unfold Lru_Model.put in St. destruct (find a (cmap c)) as [x|] eqn:Fa.
    + inversion St; subst c'. split; simpl.
      * apply MF; [apply IK; congruence|]. destruct O as [[-> _]|[_ O]]; auto.
      * rewrite find_assign by (apply find_In; congruence). destruct (eqK a k) as [->|]; [|auto]. destruct O as [[_ ->]|[O _]]; congruence.
    + destruct O as [[-> ->]|[Nak Da]]; [congruence|]. assert (Ia : ~ In a (keys c)) by (rewrite IK; congruence).
      destruct (Nat.eqb_spec (length (keys c)) cap) as [Q|Q].
      * destruct (back (keys c)) as [b|] eqn:Bk; [|discriminate]. inversion St; subst c'. clear St. apply back_last in Bk. simpl.
        assert (LA : 1 + length A <= length D).
        { change (length (a :: A) <= length D). apply NoDup_incl_length.
          - constructor; [intros H; apply Ia; rewrite E; apply in_or_app; auto|]. rewrite E in N. apply NoDup_remove_1 in N. eapply nodup_l; eauto.
          - intros x [<-|Hx]; auto. }
        assert (Bne : B <> []). { intros ->. rewrite E, app_length in Q. simpl in Q. lia. }
        destruct (exists_last Bne) as (B' & b' & ->). rewrite E in Bk at 2. rewrite E in Bk at 1. rewrite E.
        replace (A ++ k :: B' ++ [b']) with ((A ++ k :: B') ++ [b']) in * by (rewrite <- app_assoc; auto). rewrite removelast_last in *. apply app_inv_head in Bk. inversion Bk; subst b.
        split; simpl.
        -- exists (a :: A), B'. split; auto. intros x [<-|Hx]; auto.
        -- destruct (eqK a k); [congruence|]. rewrite find_erase; auto. intros ->. apply (proj2 NA). apply in_or_app. simpl. auto.
      * inversion St; subst c'. split; simpl.
        -- exists (a :: A), B. rewrite E. split; auto. intros x [<-|Hx]; auto.
        -- destruct (eqK a k); [congruence|]. auto.
  - inversion St; subst c'. unfold Lru_Model.get. destruct (find a (cmap c)) as [x|] eqn:Fa; simpl.
    + split; auto. apply MF; auto. apply IK. congruence.
    + split; auto. exists A, B. auto.
Qed.
Lemma put_front cap h c c' k v D : Inv cap h c -> put cap c k v = Some c' -> Front D k v c'.
Proof.
  intros (N & P & L & F & S) E. unfold Lru_Model.put in E. destruct (find k (cmap c)) eqn:Fk.
  - inversion E; subst. split; simpl; [exists [], (remove eqK k (keys c)); split; auto; intros x []|]. rewrite find_assign by (apply find_In; congruence). destruct (eqK k k); congruence.
  - destruct (_ =? _); [destruct (back (keys c)); [|discriminate]|]; inversion E; subst; (split; simpl; [eexists [], _; split; [reflexivity|intros x []]|destruct (eqK k k); congruence]).
Qed.
End L.

(** * Pool *)
Lemma eraseQ_perm x q : In x q -> Permutation q (x :: eraseQ x q).
Proof. induction q as [|y q IH]; simpl; [tauto|]. intros H. destruct (Nat.eqb_spec y x) as [->|N]; auto. destruct H as [H|H]; [congruence|]. rewrite (IH H) at 1. apply perm_swap. Qed.
Definition PInv (max : nat) (p : pool) : Prop := Permutation (freeQ p ++ allocQ p) (seq 0 max).
Lemma alloc_inv max p p' x : PInv max p -> alloc p = Some (p', x) -> PInv max p' /\ ~ In x (allocQ p) /\ allocQ p' = allocQ p ++ [x] /\ freeQ p = x :: freeQ p'.
Proof.
  unfold alloc, PInv. intros I E. destruct (freeQ p) as [|y q] eqn:F; [discriminate|]. inversion E; subst. simpl. split.
  - rewrite <- I. simpl. rewrite app_assoc. symmetry. apply Permutation_cons_append.
  - split; auto. intros H. assert (N : NoDup (x :: q ++ allocQ p)) by (eapply Permutation_NoDup; [symmetry; exact I|apply seq_NoDup]). inversion N as [|? ? N1 _]; subst. apply N1, in_or_app. auto.
Qed.
Lemma free_inv max p p' x : PInv max p -> free max p x = Some p' -> PInv max p' /\ In x (allocQ p) /\ allocQ p' = eraseQ x (allocQ p) /\ freeQ p' = freeQ p ++ [x].
Proof.
  unfold free, PInv. intros I E. destruct (_ =? _); [discriminate|]. destruct (existsb _ _) eqn:X; [|discriminate]. apply existsb_exists in X. destruct X as (y & Hy & Q). apply Nat.eqb_eq in Q. subst y.
  inversion E; subst. simpl. split; auto. rewrite <- I, <- app_assoc. apply Permutation_app_head. simpl. symmetry. apply eraseQ_perm. auto.
Qed.
Lemma prun_inv max l : forall p, PInv max p -> PInv max (prun max p l).
Proof.
  induction l as [|o l IH]; intros p I; auto. simpl. apply IH. destruct o; simpl.
  - destruct (alloc p) as [[p' x]|] eqn:E; auto. eapply alloc_inv; eauto.
  - destruct (free max p x) as [p'|] eqn:E; auto. eapply free_inv; eauto.
Qed.
Lemma held_alloc max l : forall p, held max p l (allocQ p) = allocQ (prun max p l).
Proof.
  induction l as [|o l IH]; intros p; auto. simpl. destruct o; simpl.
  - unfold alloc. destruct (freeQ p); auto. rewrite <- IH. reflexivity.
  - unfold free. destruct (_ =? _); auto. destruct (existsb _ _); auto. rewrite <- IH. reflexivity.
Qed.
