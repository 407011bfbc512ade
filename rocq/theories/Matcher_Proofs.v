(** Proofs about the client's reply matching. *)
From Coq Require Import List Arith NArith Lia Bool.
From Verif Require Import Matcher_Model.
Import ListNotations.

Lemma optEq_spec a b : optEq a b = true <-> a = b.
Proof. destruct a, b; simpl; split; intros H; try discriminate; auto; [apply Nat.eqb_eq in H; congruence|inversion H; apply Nat.eqb_refl]. Qed.
Lemma vecLt_irrefl a : vecLt a a = false.
Proof. induction a; simpl; auto. rewrite N.ltb_irrefl. auto. Qed.
Lemma vecLt_total : forall a b, vecLt a b = false -> vecLt b a = false -> a = b.
Proof.
  induction a as [|x a IH]; intros [|y b] H1 H2; simpl in *; auto; try discriminate.
  destruct (N.ltb_spec x y); [discriminate|]. destruct (N.ltb_spec y x); [discriminate|].
  assert (x = y) by lia. subst. f_equal. auto.
Qed.
Lemma optLt_total a b : optLt a b = false -> optLt b a = false -> a = b.
Proof.
  destruct a, b; simpl; intros H1 H2; auto; try discriminate. apply Nat.ltb_ge in H1, H2. f_equal. lia.
Qed.
Lemma keyEquiv_refl k : keyEquiv k k = true.
Proof.
  unfold keyEquiv, keyLt, metaLt. rewrite vecLt_irrefl, Nat.ltb_irrefl, !andb_false_r. destruct (k_primary k); simpl; auto. rewrite Nat.ltb_irrefl. auto.
Qed.
(** Keys with the same result (given the same primary and sequence number) are equivalent only if equal. *)
Lemma keyEquiv_eq a b : (k_primary a = k_primary b -> k_result a = k_result b) -> keyEquiv a b = true -> a = b.
Proof.
  intros R H. unfold keyEquiv in H. apply andb_true_iff in H. destruct H as [H1 H2]. apply negb_true_iff in H1, H2.
  unfold keyLt in *. apply orb_false_iff in H1, H2. destruct H1 as [M1 D1], H2 as [M2 D2]. unfold metaLt in *.
  apply orb_false_iff in M1, M2. destruct M1 as [P1 S1], M2 as [P2 S2].
  pose proof (optLt_total _ _ P1 P2) as EP. specialize (R EP).
  assert (E1 : optEq (k_primary a) (k_primary b) = true) by (apply optEq_spec; auto).
  assert (E2 : optEq (k_primary b) (k_primary a) = true) by (apply optEq_spec; auto).
  rewrite E1 in S1. rewrite E2 in S2. simpl in S1, S2. apply Nat.ltb_ge in S1, S2. assert (ES : k_seq a = k_seq b) by lia.
  unfold metaEq in *. rewrite E1, ES, R, !Nat.eqb_refl in D1. rewrite E2, ES, R, !Nat.eqb_refl in D2. simpl in D1, D2.
  pose proof (vecLt_total _ _ D1 D2). destruct a, b; simpl in *; subst; auto.
Qed.

Lemma setRsi_In l r d x : In x (map fst (setRsi l r d)) <-> x = r \/ In x (map fst l).
Proof.
  unfold setRsi. simpl. split.
  - intros [H|H]; auto. apply in_map_iff in H. destruct H as (e & E & H). apply filter_In in H. right. apply in_map_iff. exists e. tauto.
  - intros H. destruct (Nat.eq_dec x r) as [->|N]; auto. destruct H as [H|H]; [contradiction|]. right. apply in_map_iff in H. destruct H as (e & E & H).
    apply in_map_iff. exists e. split; auto. apply filter_In. split; auto. apply negb_true_iff. apply Nat.eqb_neq. congruence.
Qed.
Lemma nodup_map_filter {A B} (g : A -> B) p l : NoDup (map g l) -> NoDup (map g (filter p l)).
Proof.
  induction l as [|x l IH]; simpl; intros H; [constructor|]. inversion H; subst. destruct (p x); simpl; auto. constructor; auto.
  intros Q. apply H2. apply in_map_iff in Q. destruct Q as (y & E & Q). apply filter_In in Q. apply in_map_iff. exists y. tauto.
Qed.
Lemma setRsi_nodup l r d : NoDup (map fst l) -> NoDup (map fst (setRsi l r d)).
Proof.
  intros H. unfold setRsi. simpl. constructor; [|apply nodup_map_filter; auto].
  intros Q. apply in_map_iff in Q. destruct Q as (e & E & Q). apply filter_In in Q. destruct Q as [_ Q]. rewrite E, Nat.eqb_refl in Q. discriminate.
Qed.
Lemma setRsi_len l r d : length (setRsi l r d) <= S (length l).
Proof. unfold setRsi. simpl. apply le_n_S. induction l as [|x l IH]; simpl; auto. destruct (negb _); simpl; lia. Qed.

Section M.
Variable c : mcfg.
Definition okM (us : list ureply) (m : mmap) : Prop :=
  (forall k l, In (k, l) m -> NoDup (map fst l) /\ forall r, In r (map fst l) -> exists u, In u us /\ mvalid c u = true /\ u_from u = r /\ ukey c u = k) /\
  NoDup (map fst m) /\
  (forall u, In u us -> mvalid c u = true -> exists l, In (ukey c u, l) m /\ In (u_from u) (map fst l)).
Definition smallM (m : mmap) : Prop := forall k l, In (k, l) m -> length l < wait_for c.

Lemma ukey_same us u v : sameResults c us -> In u us -> In v us -> mvalid c u = true -> mvalid c v = true ->
  keyEquiv (ukey c u) (ukey c v) = true -> ukey c u = ukey c v.
Proof.
  intros S Hu Hv Vu Vv. apply keyEquiv_eq. unfold ukey. simpl. intros E. apply S; auto. intros I. rewrite I in E. auto.
Qed.

(** Effect of minsert when equivalence on the keys involved is equality. *)
Lemma minsert_spec k r d : forall m, NoDup (map fst m) -> (forall k' l, In (k', l) m -> keyEquiv k k' = true -> k = k') ->
  (forall k' l', In (k', l') (minsert m k r d) -> (k' <> k /\ In (k', l') m) \/ (k' = k /\ exists l, (In (k, l) m \/ (l = [] /\ ~ In k (map fst m))) /\ l' = setRsi l r d)) /\
  (forall k' l, In (k', l) m -> k' <> k -> In (k', l) (minsert m k r d)) /\
  (exists l, (In (k, l) m \/ (l = [] /\ ~ In k (map fst m))) /\ In (k, setRsi l r d) (minsert m k r d)) /\
  NoDup (map fst (minsert m k r d)) /\ (forall x, In x (map fst (minsert m k r d)) <-> x = k \/ In x (map fst m)).
Proof.
  induction m as [|[k1 l1] m IH]; intros ND EQ.
  - simpl. split; [|split; [|split; [|split]]].
    + intros k' l' [H|[]]. inversion H; subst. right. split; auto. exists []. split; auto.
    + intros k' l [].
    + exists []. split; auto.
    + repeat constructor; auto.
    + intros x. split; [intros [H|[]]; auto|intros [H|[]]; auto].
  - cbn [minsert]. inversion ND as [|? ? N1 N2]; subst. destruct (keyEquiv k k1) eqn:E.
    + assert (k = k1) by (eapply EQ; [left; reflexivity|auto]). subst k1. split; [|split; [|split; [|split]]].
      * intros k' l' [H|H]; [inversion H; subst; right; split; auto; exists l1; split; simpl; auto|].
        left. split; [intros ->; apply N1; apply (in_map fst) in H; auto|simpl; auto].
      * intros k' l [H|H] Hk; [inversion H; congruence|simpl; auto].
      * exists l1. split; simpl; auto.
      * simpl. constructor; auto.
      * intros x. simpl. split; intros [H|H]; subst; auto.
    + assert (NE : k <> k1) by (intros ->; rewrite keyEquiv_refl in E; discriminate).
      destruct (IH N2) as (A & B & C & D & F); [intros; eapply EQ; [right; eauto|auto]|]. split; [|split; [|split; [|split]]].
      * intros k' l' [H|H]; [inversion H; subst; left; split; auto; simpl; auto|].
        destruct (A _ _ H) as [(A1 & A2)|(A1 & l & A2 & A3)]; [left; simpl; auto|]. right. split; auto. exists l. split; auto.
        destruct A2 as [A2|(A2 & A4)]; [left; simpl; auto|right]. split; auto. simpl. intros [Q|Q]; auto.
      * intros k' l [H|H] Hk; [inversion H; subst; simpl; auto|right; auto].
      * destruct C as (l & C1 & C2). exists l. split; [|right; auto]. destruct C1 as [C1|(C1 & C3)]; [left; simpl; auto|right]. split; auto. simpl. intros [Q|Q]; auto.
      * simpl. constructor; auto. rewrite F. intros [Q|Q]; auto.
      * intros x. simpl. rewrite F. tauto.
Qed.


Definition nonemptyM (m : mmap) : Prop := forall k l, In (k, l) m -> l <> [].
Lemma insert_ok us m u : sameResults c (us ++ [u]) -> okM us m -> nonemptyM m -> mvalid c u = true ->
  let m' := minsert m (ukey c u) (u_from u) (u_rsi u) in
  okM (us ++ [u]) m' /\ nonemptyM m' /\ (forall k l, In (k, l) m' -> In (k, l) m \/ exists l0, (In (k, l0) m \/ l0 = []) /\ length l <= S (length l0)).
Proof.
  intros S (A & B & C) NE Vu m'.
  assert (EQ : forall k' l, In (k', l) m -> keyEquiv (ukey c u) k' = true -> ukey c u = k').
  { intros k' l H E. destruct (A _ _ H) as [_ A2]. pose proof (NE _ _ H). destruct l as [|[r0 d0] l]; [congruence|].
    destruct (A2 r0) as (v & Hv & Vv & _ & Kv); [simpl; auto|]. subst k'. eapply ukey_same; eauto; apply in_or_app; simpl; auto. }
  destruct (minsert_spec (ukey c u) (u_from u) (u_rsi u) m B EQ) as (I1 & I2 & I3 & I4 & I5). fold m' in I1, I2, I3, I4, I5.
  split; [split; [|split; [auto|]]|split].
  - intros k l H. destruct (I1 _ _ H) as [(H1 & H2)|(-> & l0 & H2 & ->)].
    + destruct (A _ _ H2) as [A1 A2]. split; auto. intros r Hr. destruct (A2 r Hr) as (v & Hv & Q). exists v. split; [apply in_or_app; auto|auto].
    + split.
      * apply setRsi_nodup. destruct H2 as [H2|(-> & _)]; [apply (A _ _ H2)|constructor].
      * intros r Hr. apply setRsi_In in Hr. destruct Hr as [->|Hr].
        -- exists u. split; [apply in_or_app; simpl; auto|auto].
        -- destruct H2 as [H2|(-> & _)]; [|destruct Hr]. destruct (A _ _ H2) as [_ A2]. destruct (A2 r Hr) as (v & Hv & Q). exists v. split; [apply in_or_app; auto|auto].
  - intros v Hv Vv. apply in_app_iff in Hv.
    assert (Q : (exists l, In (ukey c v, l) m /\ In (u_from v) (map fst l)) \/ v = u) by (destruct Hv as [Hv|[Hv|[]]]; auto).
    destruct Q as [(l & Q1 & Q2)|Q].
    + destruct (keyEquiv (ukey c u) (ukey c v)) eqn:E.
      * pose proof (EQ _ _ Q1 E) as EK. destruct I3 as (l0 & I31 & I32). destruct I31 as [I31|(_ & I31)].
        -- exists (setRsi l0 (u_from u) (u_rsi u)). rewrite <- EK. split; auto. apply setRsi_In. right.
           rewrite EK in I31. clear - B Q1 Q2 I31. revert B Q1 I31. induction m as [|[k1 l1] m IH]; simpl; intros ND H1 H2; [contradiction|].
           inversion ND as [|? ? N1 N2]; subst. destruct H1 as [H1|H1], H2 as [H2|H2].
           ++ congruence.
           ++ inversion H1; subst. exfalso. apply N1. apply (in_map fst) in H2. auto.
           ++ inversion H2; subst. exfalso. apply N1. apply (in_map fst) in H1. auto.
           ++ auto.
        -- exfalso. apply I31. rewrite EK. apply (in_map fst) in Q1. auto.
      * exists l. split; auto. apply I2; auto. intros EK. rewrite EK, keyEquiv_refl in E. discriminate.
    + subst v. destruct I3 as (l0 & _ & I32). eexists. split; [exact I32|]. apply setRsi_In. auto.
  - intros k l H. destruct (I1 _ _ H) as [(H1 & H2)|(-> & l0 & H2 & ->)]; [eapply NE; eauto|discriminate].
  - intros k l H. destruct (I1 _ _ H) as [(H1 & H2)|(-> & l0 & H2 & ->)]; auto. right. exists l0. split; [tauto|apply setRsi_len].
Qed.

Lemma sameResults_incl us vs : incl us vs -> sameResults c vs -> sameResults c us.
Proof. intros I S u v Hu Hv. apply S; auto. Qed.

Lemma mrun_gen l : forall us m, sameResults c (us ++ repliesOf l) -> okM us m -> nonemptyM m -> (0 < wait_for c -> smallM m) ->
  match mrun c m l with
  | (m', Some x) => In (mt_key x, mt_rsi x) m' /\ length (mt_rsi x) = wait_for c /\ exists vs, incl vs (us ++ repliesOf l) /\ okM vs m'
  | (m', None) => (~ In MClear l -> okM (us ++ repliesOf l) m') /\ (0 < wait_for c -> smallM m')
  end.
Proof.
  induction l as [|o l IH]; intros us m S O NE SM.
  - simpl. unfold repliesOf. simpl. rewrite app_nil_r. auto.
  - destruct o as [u|].
    + cbn [mrun]. unfold onReply. unfold repliesOf in *. cbn [map concat] in *. rewrite app_assoc in S.
      destruct (mvalid c u) eqn:Vu.
      * assert (S' : sameResults c (us ++ [u])) by (eapply sameResults_incl; [|exact S]; apply incl_appl; apply incl_refl).
        destruct (insert_ok us m u S' O NE Vu) as (O' & NE' & L'). unfold mfind.
        set (m1 := minsert m (ukey c u) (u_from u) (u_rsi u)) in *.
        destruct (find (fun e => length (snd e) =? wait_for c) m1) as [[k0 l0]|] eqn:F.
        -- apply find_some in F. destruct F as [F1 F2]. simpl in F2. apply Nat.eqb_eq in F2. simpl. split; auto. split; auto.
           exists (us ++ [u]). split; auto. intros v Hv. rewrite in_app_iff in *. simpl in *. tauto.
        -- assert (SM' : 0 < wait_for c -> smallM m1).
           { intros W k0 l0 H. pose proof (find_none _ _ F _ H) as Q. simpl in Q. apply Nat.eqb_neq in Q. destruct (L' _ _ H) as [H'|(l1 & H1 & H2)].
             - apply (SM W) in H'. lia.
             - assert (length l1 < wait_for c) by (destruct H1 as [H1|H1]; [apply (SM W) in H1; auto|subst; simpl; auto]). lia. }
           specialize (IH (us ++ [u]) m1 S O' NE' SM'). destruct (mrun c m1 l) as [m2 [x|]].
           ++ rewrite <- app_assoc in IH. exact IH.
           ++ rewrite <- app_assoc in IH. destruct IH as [IH1 IH2]. split; auto. intros N. apply IH1. intros Q. apply N. simpl; auto.
      * assert (O' : okM (us ++ [u]) m).
        { destruct O as (A & B & C). split; [|split; auto].
          - intros k l0 H. destruct (A _ _ H) as [A1 A2]. split; auto. intros r Hr. destruct (A2 r Hr) as (v & Hv & Q). exists v. split; auto. apply in_or_app; auto.
          - intros v Hv Vv. apply in_app_iff in Hv. destruct Hv as [Hv|[Hv|[]]]; [auto|congruence]. }
        specialize (IH (us ++ [u]) m S O' NE SM). destruct (mrun c m l) as [m2 [x|]].
        -- rewrite <- app_assoc in IH. exact IH.
        -- rewrite <- app_assoc in IH. destruct IH as [IH1 IH2]. split; auto. intros N. apply IH1. intros Q. apply N. simpl; auto.
    + cbn [mrun]. unfold repliesOf in *. cbn [map concat] in *.
      assert (S' : sameResults c ([] ++ concat (map (fun o => match o with MReply u => [u] | MClear => [] end) l))).
      { eapply sameResults_incl; [|exact S]. simpl. apply incl_appr. apply incl_refl. }
      specialize (IH [] [] S'). destruct (mrun c [] l) as [m2 [x|]].
      * destruct IH as (I1 & I2 & vs & I3 & I4).
        -- split; [intros ? ? []|split; [constructor|intros ? []]].
        -- intros ? ? [].
        -- intros _ ? ? [].
        -- split; auto. split; auto. exists vs. split; auto. intros v Hv. apply I3 in Hv. simpl in Hv. apply in_or_app. auto.
      * destruct IH as (I1 & I2).
        -- split; [intros ? ? []|split; [constructor|intros ? []]].
        -- intros ? ? [].
        -- intros _ ? ? [].
        -- split; auto. intros N. exfalso. apply N. simpl; auto.
Qed.
End M.
