(** The hash of an update binds its kind-relative content. *)
From Coq Require Import List Arith NArith Lia Bool Permutation.
From Verif Require Import Lib_Bytes Trc_Model.
Import ListNotations.

Lemma lex_refl a : lex a a = Eq.
Proof. induction a; cbn; auto. rewrite N.compare_refl. auto. Qed.
Lemma lex_eq a b : lex a b = Eq -> a = b.
Proof.
  revert b. induction a as [|x a IH]; destruct b as [|y b]; cbn; try discriminate; auto.
  destruct (N.compare x y) eqn:E; try discriminate. apply N.compare_eq in E. intros L. f_equal; auto.
Qed.
Lemma lex_antisym a b : lex b a = CompOpp (lex a b).
Proof.
  revert b. induction a as [|x a IH]; destruct b as [|y b]; cbn; auto.
  rewrite N.compare_antisym. destruct (N.compare x y); cbn; auto.
Qed.
Lemma lex_trans a b c : lex a b = Lt -> lex b c = Lt -> lex a c = Lt.
Proof.
  revert b c. induction a as [|x a IH]; destruct b as [|y b]; destruct c as [|z c]; cbn; try discriminate; auto.
  destruct (N.compare_spec x y); try discriminate; destruct (N.compare_spec y z); try discriminate; intros L1 L2;
    destruct (N.compare_spec x z); try reflexivity; try (subst; lia).
  eapply IH; eauto.
Qed.

Lemma insertM_perm {A} k (v : A) m m' : insertM k v m = Some m' -> Permutation m' ((k, v) :: m).
Proof.
  revert m'. induction m as [|[k' v'] m IH]; intros m' E; cbn in E; [injection E as <-; auto|].
  destruct (lex k k'); [discriminate|injection E as <-; auto|].
  destruct (insertM k v m) as [m''|]; [|discriminate]. injection E as <-.
  rewrite (IH m'' eq_refl). apply perm_swap.
Qed.
Lemma insertAll_perm {A} (l : list (bytes * A)) : forall m m', insertAll l m = Some m' -> Permutation m' (l ++ m).
Proof.
  induction l as [|[k v] l IH]; intros m m' E; cbn in E; [injection E as <-; auto|].
  destruct (insertM k v m) as [m1|] eqn:E1; [|discriminate]. apply IH in E. rewrite E. apply insertM_perm in E1. rewrite E1.
  cbn. rewrite <- Permutation_middle. auto.
Qed.

(** insertions commute *)
Lemma insertM_comm {A} k1 (v1 : A) k2 v2 : lex k1 k2 <> Eq -> forall m,
  match insertM k1 v1 m with None => None | Some m' => insertM k2 v2 m' end =
  match insertM k2 v2 m with None => None | Some m' => insertM k1 v1 m' end.
Proof.
  intros D. assert (D2 : lex k2 k1 <> Eq) by (rewrite lex_antisym; destruct (lex k1 k2); cbn; congruence).
  assert (S12 : lex k2 k1 = CompOpp (lex k1 k2)) by apply lex_antisym.
  induction m as [|[k v] m IH]; cbn [insertM].
  - rewrite S12. destruct (lex k1 k2) eqn:E; cbn [CompOpp]; congruence.
  - destruct (lex k1 k) eqn:E1; destruct (lex k2 k) eqn:E2; cbn [insertM]; rewrite ?E1, ?E2; auto.
    + apply lex_eq in E1. subst k1. rewrite S12 in E2. destruct (lex k k2) eqn:E; cbn [CompOpp] in E2; try discriminate.
      reflexivity.
    + destruct (insertM k2 v2 m); auto. cbn [insertM]. rewrite E1. reflexivity.
    + apply lex_eq in E2. subst k2. rewrite S12, E1. cbn [CompOpp]. rewrite ?lex_refl. reflexivity.
    + rewrite S12. destruct (lex k1 k2) eqn:E; cbn [CompOpp]; try congruence; rewrite ?E1, ?E2; auto.
    + assert (L : lex k2 k1 = Gt).
      { rewrite lex_antisym. rewrite (lex_trans k1 k k2); auto. rewrite lex_antisym, E2. reflexivity. }
      rewrite L. destruct (insertM k2 v2 m); auto. cbn [insertM]. rewrite E1. reflexivity.
    + destruct (insertM k1 v1 m); auto. cbn [insertM]. rewrite E2. reflexivity.
    + assert (L : lex k1 k2 = Gt).
      { rewrite lex_antisym. rewrite (lex_trans k2 k k1); auto. rewrite lex_antisym, E1. reflexivity. }
      rewrite L. destruct (insertM k1 v1 m); auto. cbn [insertM]. rewrite E2. reflexivity.
    + destruct (insertM k1 v1 m) as [m1|] eqn:I1; destruct (insertM k2 v2 m) as [m2|] eqn:I2; cbn [insertM]; rewrite ?E1, ?E2; auto.
      * rewrite IH. reflexivity.
      * rewrite IH. reflexivity.
      * rewrite <- IH. reflexivity.
Qed.
Lemma insertM_dup {A} k (v1 v2 : A) m : match insertM k v1 m with None => None | Some m' => insertM k v2 m' end = None.
Proof.
  induction m as [|[k' v'] m IH]; cbn [insertM]; [rewrite lex_refl; reflexivity|].
  destruct (lex k k') eqn:E; auto; cbn [insertM].
  - rewrite lex_refl. reflexivity.
  - destruct (insertM k v1 m) as [m1|] eqn:I1; auto. cbn [insertM]. rewrite E, IH. reflexivity.
Qed.
Lemma insertAll_perm_eq {A} (l l' : list (bytes * A)) : Permutation l l' -> forall m, insertAll l m = insertAll l' m.
Proof.
  induction 1 as [|[k v] l l' P IH|[k v] [k' v'] l|l l' l'' P1 IH1 P2 IH2]; intros m; auto; cbn [insertAll].
  - destruct (insertM k v m); auto.
  - destruct (lex k' k) eqn:E.
    + apply lex_eq in E. subst k'. pose proof (insertM_dup k v v' m) as D1. pose proof (insertM_dup k v' v m) as D2.
      destruct (insertM k v m) as [m1|], (insertM k v' m) as [m2|]; rewrite ?D1, ?D2; auto.
    + pose proof (insertM_comm k' v' k v ltac:(congruence) m) as C.
      destruct (insertM k v m) as [m1|], (insertM k' v' m) as [m2|]; rewrite ?C; auto.
      * rewrite <- C. reflexivity.
    + pose proof (insertM_comm k' v' k v ltac:(congruence) m) as C.
      destruct (insertM k v m) as [m1|], (insertM k' v' m) as [m2|]; rewrite ?C; auto.
      * rewrite <- C. reflexivity.
  - rewrite IH1. apply IH2.
Qed.

Section S.
Variable H : bytes -> bytes.
Hypothesis Hlen : forall x, length (H x) = HASHLEN.

(** The byte strings an update's hash is computed from. *)
Definition atoms (u : update) : list bytes :=
  match u with Events _ _ kvs => map fst kvs ++ map snd kvs | Group _ _ evs => evs end.
Definition parts (u : update) : list bytes :=
  match u with
  | Events _ _ kvs => match insertAll (map (fun p => (H (fst p), H (snd p))) kvs) [] with Some m => flat_map (fun p => [fst p; snd p]) m | None => [] end
  | Group _ _ evs => match insertAll (map (fun e => (H e, tt)) evs) [] with Some m => map fst m | None => [] end
  end.
Definition hashed (u : update) : list bytes := preimage (idOf u) (parts u) :: atoms u.
Lemma hashUpdate_eq u h : hashUpdate H u = Ok h -> h = H (preimage (idOf u) (parts u)).
Proof.
  destruct u as [b c kvs|g t evs]; cbn [hashUpdate parts idOf].
  - destruct (insertAll _ _); [|discriminate]. congruence.
  - destruct (insertAll _ _); [|discriminate]. congruence.
Qed.
Lemma concat_inj (l l' : list bytes) : (forall x, In x l -> length x = HASHLEN) -> (forall x, In x l' -> length x = HASHLEN) ->
  concat l = concat l' -> l = l'.
Proof.
  revert l'. induction l as [|x l IH]; intros [|y l'] A B E; auto.
  - exfalso. cbn in E. assert (L := B y (or_introl eq_refl)). apply (f_equal (@length N)) in E. rewrite app_length in E.
    unfold HASHLEN in *. cbn in E. lia.
  - exfalso. cbn in E. assert (L := A x (or_introl eq_refl)). apply (f_equal (@length N)) in E. rewrite app_length in E.
    unfold HASHLEN in *. cbn in E. lia.
  - cbn in E. assert (Ex : x = y).
    { rewrite <- (firstn_app_exact x (concat l) HASHLEN), E, firstn_app_exact; auto.
      - apply B. cbn. auto.
      - apply A. cbn. auto. }
    subst y. apply app_inv_head in E. f_equal. apply IH; auto; intros; [apply A|apply B]; cbn; auto.
Qed.
Lemma flat_inj (m m' : list (bytes * bytes)) : flat_map (fun p => [fst p; snd p]) m = flat_map (fun p => [fst p; snd p]) m' -> m = m'.
Proof.
  revert m'. induction m as [|[k v] m IH]; intros [|[k' v'] m'] E; cbn in E; auto; try discriminate.
  injection E as -> -> E. f_equal. auto.
Qed.
Lemma fst_unit_inj (m m' : list (bytes * unit)) : map fst m = map fst m' -> m = m'.
Proof.
  revert m'. induction m as [|[k []] m IH]; intros [|[k' []] m'] E; cbn in E; auto; try discriminate.
  injection E as -> E. f_equal. auto.
Qed.
Lemma events_parts_in kvs m : insertAll (map (fun p => (H (fst p), H (snd p))) kvs) [] = Some m ->
  forall x, In x (flat_map (fun p : bytes * bytes => [fst p; snd p]) m) -> length x = HASHLEN.
Proof.
  intros E x Hx. apply insertAll_perm in E. rewrite app_nil_r in E. apply in_flat_map in Hx as (p & Hp & Hx).
  apply (Permutation_in _ E) in Hp. apply in_map_iff in Hp as (q & <- & _). destruct Hx as [<-|[<-|[]]]; apply Hlen.
Qed.
Lemma group_parts_in evs m : insertAll (map (fun e => (H e, tt)) evs) [] = Some m ->
  forall x, In x (map fst m) -> length x = HASHLEN.
Proof.
  intros E x Hx. apply insertAll_perm in E. rewrite app_nil_r in E. apply in_map_iff in Hx as (p & <- & Hp).
  apply (Permutation_in _ E) in Hp. apply in_map_iff in Hp as (q & <- & _). apply Hlen.
Qed.
Lemma parts_len u x : In x (parts u) -> length x = HASHLEN.
Proof.
  destruct u as [b c kvs|g t evs]; cbn [parts].
  - destruct (insertAll _ _) eqn:E; [|intros []]. apply (events_parts_in _ _ E).
  - destruct (insertAll _ _) eqn:E; [|intros []]. apply (group_parts_in _ _ E).
Qed.

Lemma map_eq_or {A B} (h : A -> B) (P : Prop) (l l' : list A) :
  (forall a b, In a l -> In b l' -> h a = h b -> a = b \/ P) -> map h l = map h l' -> l = l' \/ P.
Proof.
  revert l'. induction l as [|a l IH]; intros [|b l'] D E; cbn in E; auto; try discriminate. injection E as E1 E2.
  destruct (D a b) as [->|C]; cbn; auto.
  destruct (IH l') as [->|C]; auto. intros; apply D; cbn; auto.
Qed.

(** Equal hashes of updates of one kind: the same update, or two different strings with the same hash, one hashed for each. *)
Lemma binding u v h : hashUpdate H u = Ok h -> hashUpdate H v = Ok h -> kindOf u = kindOf v ->
  idOf u = idOf v \/ ((idOf u < 2 ^ 64)%N /\ (idOf v < 2 ^ 64)%N) ->
  SameUpdate u v \/ exists x y, In x (hashed u) /\ In y (hashed v) /\ x <> y /\ H x = H y.
Proof.
  intros Eu Ev K Bnd. set (P := exists x y, In x (hashed u) /\ In y (hashed v) /\ x <> y /\ H x = H y).
  assert (Ep : H (preimage (idOf u) (parts u)) = H (preimage (idOf v) (parts v))).
  { apply hashUpdate_eq in Eu. apply hashUpdate_eq in Ev. congruence. }
  destruct (list_eq_dec N.eq_dec (preimage (idOf u) (parts u)) (preimage (idOf v) (parts v))) as [E|D].
  2:{ right. do 2 eexists. split; [left; reflexivity|]. split; [left; reflexivity|]. auto. }
  unfold preimage in E.
  assert (Ei : le 8 (idOf u) = le 8 (idOf v)).
  { rewrite <- (firstn_app_exact (le 8 (idOf u)) (concat (parts u)) 8), E, firstn_app_exact; auto using le_length. }
  rewrite Ei in E. apply app_inv_head in E.
  assert (Ei' : idOf u = idOf v) by (destruct Bnd as [Q|[Q1 Q2]]; [exact Q|apply le_inj in Ei; auto]). clear Ei. rename Ei' into Ei.
  apply concat_inj in E; [|intros x; apply parts_len..].
  assert (C : forall a b, In a (atoms u) -> In b (atoms v) -> H a = H b -> a = b \/ P).
  { intros a b Ha Hb Eh. destruct (list_eq_dec N.eq_dec a b) as [->|D]; auto. right. exists a, b. split; [right; exact Ha|].
    split; [right; exact Hb|]. auto. }
  destruct u as [b c kvs|g t evs], v as [b' c' kvs'|g' t' evs']; try discriminate; cbn [parts hashUpdate atoms idOf SameUpdate] in *.
  - destruct (insertAll (map _ kvs) []) as [m|] eqn:Em; [|discriminate].
    destruct (insertAll (map _ kvs') []) as [m'|] eqn:Em'; [|discriminate].
    apply flat_inj in E. subst m'. apply insertAll_perm in Em. apply insertAll_perm in Em'. rewrite app_nil_r in *.
    assert (Pm : Permutation (map (fun p : bytes * bytes => (H (fst p), H (snd p))) kvs) (map (fun p => (H (fst p), H (snd p))) kvs'))
      by (rewrite <- Em; exact Em').
    apply Permutation_map_inv in Pm as (l3 & E3 & P3).
    set (h2 := fun p : bytes * bytes => (H (fst p), H (snd p))) in *.
    assert (Q : kvs = l3 \/ P).
    { assert (In3 : forall p, In p l3 -> In p kvs') by (intros p; apply Permutation_in, Permutation_sym, P3).
      apply (map_eq_or h2 P kvs l3); [|exact E3].
      intros [k x] [k' x'] Hp Hq Eh. unfold h2 in Eh. cbn [fst snd] in Eh. injection Eh as E1 E2.
      apply In3 in Hq. destruct (C k k') as [->|?]; auto.
      - apply in_app_iff. left. apply (in_map fst _ _ Hp).
      - apply in_app_iff. left. apply (in_map fst _ _ Hq).
      - destruct (C x x') as [->|?]; auto.
        + apply in_app_iff. right. apply (in_map snd _ _ Hp).
        + apply in_app_iff. right. apply (in_map snd _ _ Hq). }
    destruct Q as [->|Q]; [left; split; [exact Ei|apply Permutation_sym; exact P3]|right; exact Q].
  - destruct (insertAll (map _ evs) []) as [m|] eqn:Em; [|discriminate].
    destruct (insertAll (map _ evs') []) as [m'|] eqn:Em'; [|discriminate].
    apply fst_unit_inj in E. subst m'. apply insertAll_perm in Em. apply insertAll_perm in Em'. rewrite app_nil_r in *.
    assert (Pm : Permutation (map (fun e => (H e, tt)) evs) (map (fun e => (H e, tt)) evs')) by (rewrite <- Em; exact Em').
    apply (Permutation_map fst) in Pm. rewrite !map_map in Pm. cbn [fst] in Pm.
    apply Permutation_map_inv in Pm as (l3 & E3 & P3).
    destruct (map_eq_or H P evs l3) as [->|Q]; auto.
    + intros a b Ha Hb. apply C; auto. apply (Permutation_in _ (Permutation_sym P3)). exact Hb.
    + left. split; [exact Ei|apply Permutation_sym; exact P3].
Qed.

(** The hash does not depend on the order of the entries, the correlation id or the record time. *)
Lemma same_hash u v : SameUpdate u v -> hashUpdate H u = hashUpdate H v.
Proof.
  destruct u as [b c kvs|g t evs], v as [b' c' kvs'|g' t' evs']; cbn [SameUpdate]; try contradiction; intros [-> P]; cbn [hashUpdate].
  - rewrite (insertAll_perm_eq _ _ (Permutation_map (fun p => (H (fst p), H (snd p))) P)). reflexivity.
  - rewrite (insertAll_perm_eq _ _ (Permutation_map (fun e => (H e, tt)) P)). reflexivity.
Qed.
End S.
