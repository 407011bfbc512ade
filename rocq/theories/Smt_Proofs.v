(** Proofs for the sparse Merkle tree, part 1: positions, the canonical tree of a set of leaves, the node array. *)
From Coq Require Import List NArith Bool Arith Lia.
From Verif Require Import Smt_Model.
Import ListNotations.
Set Default Proof Using "Type".

(** * Bit prefixes *)
Fixpoint isPre (a b : bits) : bool :=
  match a, b with
  | [], _ => true
  | x :: a', y :: b' => eqb x y && isPre a' b'
  | _ :: _, [] => false
  end.

Lemma isPre_spec a b : isPre a b = true <-> exists r, b = a ++ r.
Proof.
  revert b; induction a as [|x a IH]; intros b; cbn [isPre].
  - split; [intros _; now exists b|reflexivity].
  - destruct b as [|y b]; [split; [discriminate|intros [r E]; discriminate]|].
    rewrite andb_true_iff, eqb_true_iff, IH. split.
    + intros [-> [r ->]]. now exists r.
    + intros [r E]. injection E as -> ->. eauto.
Qed.
Lemma isPre_app a r : isPre a (a ++ r) = true.
Proof. apply isPre_spec; eauto. Qed.
Lemma isPre_refl a : isPre a a = true.
Proof. apply isPre_spec; exists []; now rewrite app_nil_r. Qed.
Lemma isPre_len a b : isPre a b = true -> length a <= length b.
Proof. rewrite isPre_spec. intros [r ->]. rewrite app_length; lia. Qed.
Lemma isPre_trans a b c : isPre a b = true -> isPre b c = true -> isPre a c = true.
Proof. rewrite !isPre_spec. intros [r ->] [s ->]. exists (r ++ s). now rewrite app_assoc. Qed.
Lemma isPre_firstn a b : isPre a b = true <-> a = firstn (length a) b.
Proof.
  rewrite isPre_spec. split.
  - intros [r ->]. rewrite firstn_app, Nat.sub_diag, firstn_all, firstn_O. now rewrite app_nil_r.
  - intros E. exists (skipn (length a) b). rewrite E at 1. now rewrite firstn_skipn.
Qed.
Lemma isPre_eq a b : isPre a b = true -> length b <= length a -> a = b.
Proof. rewrite isPre_spec. intros [r ->]. rewrite app_length. destruct r; [now rewrite app_nil_r|cbn; lia]. Qed.
(** two prefixes of the same list are comparable *)
Lemma isPre_two a b k : isPre a k = true -> isPre b k = true -> length a <= length b -> isPre a b = true.
Proof.
  rewrite !isPre_firstn. intros Ea Eb L. rewrite Eb, firstn_firstn, Nat.min_l by lia. exact Ea.
Qed.
Lemma isPre_app_iff a x b : isPre (a ++ x) (a ++ b) = isPre x b.
Proof. induction a; cbn; auto. now rewrite eqb_reflx. Qed.
Lemma isPre_snoc_or a k : isPre a k = true -> a = k \/ exists b, isPre (a ++ [b]) k = true.
Proof.
  rewrite isPre_spec. intros [r ->]. destruct r as [|b r]; [left; now rewrite app_nil_r|].
  right; exists b. apply isPre_spec. exists r. now rewrite <- app_assoc.
Qed.
Lemma isPre_snoc_inv a b k : isPre (a ++ [b]) k = true -> isPre a k = true.
Proof. apply isPre_trans, isPre_app. Qed.
Lemma isPre_snoc_uniq a b b' k : isPre (a ++ [b]) k = true -> isPre (a ++ [b']) k = true -> b = b'.
Proof.
  rewrite !isPre_spec. intros [r ->] [s E]. rewrite <- !app_assoc in E.
  apply app_inv_head in E. cbn in E. now injection E.
Qed.

Lemma bits_eqb_spec a b : bits_eqb a b = true <-> a = b.
Proof.
  revert b; induction a as [|x a IH]; destruct b as [|y b]; cbn [bits_eqb]; try (split; congruence).
  rewrite andb_true_iff, eqb_true_iff, IH. split; [intros [-> ->]|intros E; injection E]; auto.
Qed.
Lemma bits_eqb_refl a : bits_eqb a a = true.
Proof. now apply bits_eqb_spec. Qed.
Lemma bits_eqb_neq a b : bits_eqb a b = false <-> a <> b.
Proof. rewrite <- (not_true_iff_false (bits_eqb a b)), bits_eqb_spec; tauto. Qed.
Lemma bits_dec (a b : bits) : {a = b} + {a <> b}.
Proof. apply list_eq_dec, bool_dec. Qed.

(** removelast of a non-empty path *)
Lemma removelast_snoc {A} (a : list A) x : removelast (a ++ [x]) = a.
Proof. rewrite removelast_app by discriminate. cbn. now rewrite app_nil_r. Qed.
Lemma snoc_cases {A} (q : list A) : q = [] \/ exists a x, q = a ++ [x].
Proof. destruct q using rev_ind; eauto. Qed.

(** * Indices: the array slot of an in-node path *)
Fixpoint enc_from (i : nat) (q : bits) : nat :=
  match q with [] => i | b :: q' => enc_from (childIndex b i) q' end.
Definition enc (q : bits) : nat := enc_from 0 q.
Lemma enc_from_app i q r : enc_from i (q ++ r) = enc_from (enc_from i q) r.
Proof. revert i; induction q; intros; cbn; auto. Qed.
Lemma enc_snoc q b : enc (q ++ [b]) = childIndex b (enc q).
Proof. unfold enc. now rewrite enc_from_app. Qed.
Lemma enc_nil : enc [] = 0.
Proof. reflexivity. Qed.

Lemma childIndex_inj b i b' i' : childIndex b i = childIndex b' i' -> b = b' /\ i = i'.
Proof. destruct b, b'; unfold childIndex, leftChildIndex, rightChildIndex; intros E; split; try reflexivity; lia. Qed.
Lemma childIndex_pos b i : childIndex b i <> 0.
Proof. destruct b; unfold childIndex, leftChildIndex, rightChildIndex; lia. Qed.
Lemma enc_inj q q' : enc q = enc q' -> q = q'.
Proof.
  revert q'; induction q as [|x q IH] using rev_ind; intros q'; destruct (snoc_cases q') as [->|(a & y & ->)];
    rewrite ?enc_snoc, ?enc_nil; intros E; auto.
  - symmetry in E; now apply childIndex_pos in E.
  - now apply childIndex_pos in E.
  - apply childIndex_inj in E as [-> E]. now rewrite (IH _ E).
Qed.
Lemma enc_zero q : enc q = 0 <-> q = [].
Proof. split; [intros E; apply enc_inj; now rewrite E|intros ->; reflexivity]. Qed.
Lemma parent_child b i : parentIndex (childIndex b i) = Some i.
Proof.
  unfold parentIndex. destruct (Nat.eqb_spec (childIndex b i) 0) as [E|_]; [now apply childIndex_pos in E|].
  f_equal. destruct b; unfold childIndex, leftChildIndex, rightChildIndex.
  - replace (2 * i + 2 - 1) with (1 + i * 2) by lia. rewrite Nat.div_add by lia. reflexivity.
  - replace (2 * i + 1 - 1) with (i * 2) by lia. apply Nat.div_mul. lia.
Qed.
Lemma isLeft_child b i : isLeftChild (childIndex b i) = negb b.
Proof.
  unfold isLeftChild, childIndex, leftChildIndex, rightChildIndex. destruct b.
  - replace (2 * i + 2) with (0 + (i + 1) * 2) by lia. rewrite Nat.mod_add by lia. reflexivity.
  - replace (2 * i + 1) with (1 + i * 2) by lia. rewrite Nat.mod_add by lia. reflexivity.
Qed.
Lemma childIndex_succ i : childIndex true i = childIndex false i + 1.
Proof. unfold childIndex, leftChildIndex, rightChildIndex; lia. Qed.

Lemma enc_lt q : length q <= 4 -> enc q < 31.
Proof.
  intros L. destruct q as [|a [|b [|c [|d [|e q]]]]]; cbn in L; try lia;
  repeat match goal with x : bool |- _ => destruct x end; vm_compute; lia.
Qed.
Definition allPaths : list bits :=
  let ext := fun ps => flat_map (fun p => [p ++ [false]; p ++ [true]]) ps in
  [[]] ++ ext [[]] ++ ext (ext [[]]) ++ ext (ext (ext [[]])) ++ ext (ext (ext (ext [[]]))).
Lemma enc_surj i : i < 31 -> exists q, length q <= 4 /\ enc q = i.
Proof.
  intros L.
  assert (E : forallb (fun i => existsb (fun q => (enc q =? i) && (length q <=? 4)) allPaths) (seq 0 31) = true)
    by (vm_compute; reflexivity).
  rewrite forallb_forall in E. specialize (E i). rewrite in_seq in E. specialize (E ltac:(lia)).
  apply existsb_exists in E as (q & _ & E). apply andb_true_iff in E as [E1 E2].
  apply Nat.eqb_eq in E1. apply Nat.leb_le in E2. eauto.
Qed.
Lemma height_enc q : length q <= 4 -> height (enc q) = 4 - length q.
Proof.
  intros L. destruct q as [|a [|b [|c [|d [|e q]]]]]; cbn in L; try lia;
  repeat match goal with x : bool |- _ => destruct x end; vm_compute; reflexivity.
Qed.
Lemma nibbleToIndex_enc nb : length nb = 4 -> nibbleToIndex nb = enc nb.
Proof.
  intros L. destruct nb as [|a [|b [|c [|d [|e q]]]]]; cbn in L; try lia;
  repeat match goal with x : bool |- _ => destruct x end; vm_compute; reflexivity.
Qed.
Lemma enc_len4_ge q : length q <= 4 -> (15 <= enc q <-> length q = 4).
Proof.
  intros L. destruct q as [|a [|b [|c [|d [|e q]]]]]; cbn in L; try lia;
  repeat match goal with x : bool |- _ => destruct x end; vm_compute; split; intros; lia.
Qed.
Lemma getBit_firstn nb i : length nb = 4 -> i < 4 -> firstn (4 - S i) nb ++ [getBit nb i] = firstn (4 - i) nb.
Proof.
  intros L Li. destruct nb as [|a [|b [|c [|d [|e q]]]]]; cbn in L; try lia.
  destruct i as [|[|[|[|i]]]]; try lia; reflexivity.
Qed.

(** * Leaves under a position *)
Section S1.
Variable H : Type.
Notation leaf := (leaf H).
Notation node := (node H).
Notation child := (child H).

Definition under (m : list leaf) (Q : bits) : list leaf := filter (fun l => isPre Q (lkey l)) m.
Definition wf (m : list leaf) : Prop := NoDup (map lkey m) /\ Forall (fun l => length (lkey l) = KL) m.
Definition rm (k : bits) (m : list leaf) : list leaf := filter (fun l => negb (bits_eqb (lkey l) k)) m.

Lemma in_under m Q l : In l (under m Q) <-> In l m /\ isPre Q (lkey l) = true.
Proof. unfold under. now rewrite filter_In. Qed.
Lemma under_nil m : under m [] = m.
Proof. unfold under. induction m as [|l m IH]; [reflexivity|]. cbn [filter isPre]. f_equal. exact IH. Qed.
Lemma in_rm k m l : In l (rm k m) <-> In l m /\ lkey l <> k.
Proof. unfold rm. rewrite filter_In, negb_true_iff, bits_eqb_neq. reflexivity. Qed.
Lemma under_rm k m Q : under (rm k m) Q = rm k (under m Q).
Proof.
  unfold under, rm. induction m as [|l m IH]; cbn; auto.
  destruct (bits_eqb (lkey l) k) eqn:E; cbn; destruct (isPre Q (lkey l)) eqn:F; cbn; rewrite ?E; cbn; now rewrite ?IH.
Qed.
Lemma rm_notin k m : ~ In k (map lkey m) -> rm k m = m.
Proof.
  unfold rm. induction m as [|l m IH]; cbn; auto. intros Hn.
  destruct (bits_eqb (lkey l) k) eqn:E; [apply bits_eqb_spec in E; tauto|]. cbn. rewrite IH; tauto.
Qed.
Lemma map_filter_NoDup {A B} (f : A -> B) g l : NoDup (map f l) -> NoDup (map f (filter g l)).
Proof.
  induction l as [|a l IH]; cbn; auto. intros Hn. apply NoDup_cons_iff in Hn as [Hn1 Hn2].
  destruct (g a); cbn; auto. constructor; auto.
  intros Hin. apply Hn1. apply in_map_iff in Hin as (x & <- & Hx). apply filter_In in Hx. apply in_map; tauto.
Qed.
Lemma wf_filter g m : wf m -> wf (filter g m).
Proof.
  intros [N F]. split; [now apply map_filter_NoDup|].
  rewrite Forall_forall in *. intros x Hx. apply filter_In in Hx. apply F; tauto.
Qed.
Lemma wf_rm k m : wf m -> wf (rm k m).
Proof. apply wf_filter. Qed.
Lemma wf_under m Q : wf m -> wf (under m Q).
Proof. apply wf_filter. Qed.
Lemma wf_ins l m : wf m -> length (lkey l) = KL -> wf (l :: rm (lkey l) m).
Proof.
  intros W L. destruct (wf_rm (lkey l) m W) as [N F]. split; cbn.
  - constructor; auto. rewrite in_map_iff. intros (x & E & Hx). apply in_rm in Hx. tauto.
  - constructor; auto.
Qed.
Lemma wf_len m l : wf m -> In l m -> length (lkey l) = KL.
Proof. intros [_ F]. rewrite Forall_forall in F. apply F. Qed.
Lemma wf_inj m l l' : wf m -> In l m -> In l' m -> lkey l = lkey l' -> l = l'.
Proof.
  intros [N _]. induction m as [|x m IH]; cbn; [tauto|]. cbn in N. apply NoDup_cons_iff in N as [N1 N2].
  intros [-> | I1] [-> | I2] E; auto.
  - exfalso; apply N1. rewrite E. now apply in_map.
  - exfalso; apply N1. rewrite <- E. now apply in_map.
Qed.

(** every leaf strictly below a position is on one of its two sides *)
Lemma under_split_len m Q : wf m -> length Q < KL ->
  length (under m Q) = length (under m (Q ++ [false])) + length (under m (Q ++ [true])).
Proof.
  intros [_ F] L. clear - F L. unfold under. induction m as [|l m IH]; cbn; auto.
  inversion F as [|? ? Fl Fm]; subst. specialize (IH Fm).
  destruct (isPre Q (lkey l)) eqn:E.
  - destruct (isPre_snoc_or _ _ E) as [->|[b E2]]; [lia|].
    assert (E3 : isPre (Q ++ [negb b]) (lkey l) = false).
    { apply not_true_iff_false; intros E3. pose proof (isPre_snoc_uniq _ _ _ _ E2 E3). destruct b; discriminate. }
    destruct b; cbn in E3; rewrite E2, E3; cbn; lia.
  - assert (forall b, isPre (Q ++ [b]) (lkey l) = false) as A.
    { intros b. apply not_true_iff_false; intros X. apply isPre_snoc_inv in X. congruence. }
    rewrite !A. apply IH.
Qed.
Lemma under_snoc_len m Q b : wf m -> length Q < KL ->
  length (under m Q) = length (under m (Q ++ [b])) + length (under m (Q ++ [negb b])).
Proof. intros W L. rewrite (under_split_len m Q W L). destruct b; cbn; lia. Qed.
Lemma under_app m Q Q' : isPre Q Q' = true -> under (under m Q) Q' = under m Q'.
Proof.
  intros P. unfold under. induction m as [|l m IH]; cbn; auto.
  destruct (isPre Q (lkey l)) eqn:E; cbn; rewrite IH; auto.
  destruct (isPre Q' (lkey l)) eqn:E2; auto. rewrite (isPre_trans _ _ _ P E2) in E. discriminate.
Qed.
Lemma under_mono_nil m Q Q' : isPre Q Q' = true -> under m Q = [] -> under m Q' = [].
Proof. intros P E. rewrite <- (under_app m Q Q' P), E. reflexivity. Qed.
Lemma under_full m Q : wf m -> KL <= length Q -> length (under m Q) <= 1.
Proof.
  intros W L. assert (WU := wf_under m Q W).
  destruct (under m Q) as [|a [|b u]] eqn:E; cbn; try lia. exfalso.
  assert (Ia : In a (under m Q)) by (rewrite E; cbn; auto).
  assert (Ib : In b (under m Q)) by (rewrite E; cbn; auto).
  pose proof Ia as Ia'. pose proof Ib as Ib'. apply in_under in Ia as [Ia Pa]. apply in_under in Ib as [Ib Pb].
  assert (a = b).
  { apply (wf_inj m); auto. transitivity Q; [symmetry|]; apply isPre_eq; auto;
    rewrite (wf_len m) by auto; auto. }
  subst b. destruct WU as [N _]. cbn in N. apply NoDup_cons_iff in N as [N _]. apply N; cbn; auto.
Qed.

(** * The canonical tree.  [R] is the position whose node always exists as an internal node (the root). *)
Definition inner (R : bits) (m : list leaf) (Q : bits) : bool :=
  match under m Q with
  | [] => false
  | [_] => bits_eqb Q R
  | _ => true
  end.
Definition lslot (R : bits) (m : list leaf) (Q : bits) : option child :=
  match under m Q with
  | [l] => if inner R m (removelast Q) then Some (Leaf l) else None
  | _ => None
  end.
Lemma inner_two R m Q a b u : under m Q = a :: b :: u -> inner R m Q = true.
Proof. unfold inner. now intros ->. Qed.
Lemma inner_len2 R m Q : 2 <= length (under m Q) -> inner R m Q = true.
Proof. unfold inner. destruct (under m Q) as [|a [|b u]]; cbn; auto; lia. Qed.
Lemma inner_false R m Q : inner R m Q = false -> under m Q = [] \/ exists l, under m Q = [l] /\ Q <> R.
Proof.
  unfold inner. destruct (under m Q) as [|a [|b u]]; auto; try discriminate.
  intros E. apply bits_eqb_neq in E. eauto.
Qed.
Lemma inner_true R m Q : inner R m Q = true -> 2 <= length (under m Q) \/ (exists l, under m Q = [l] /\ Q = R).
Proof.
  unfold inner. destruct (under m Q) as [|a [|b u]]; try discriminate.
  - intros E. apply bits_eqb_spec in E. eauto.
  - cbn; lia.
Qed.
Lemma inner_pos R m Q : inner R m Q = true -> under m Q <> [].
Proof. unfold inner. destruct (under m Q); congruence. Qed.
Lemma inner_lt R m Q : wf m -> length R < KL -> inner R m Q = true -> length Q < KL.
Proof.
  intros W LR I. apply inner_true in I as [I|(l & _ & ->)]; auto.
  destruct (lt_dec (length Q) KL); auto. pose proof (under_full m Q W). lia.
Qed.
Definition agree (m m' : list leaf) (Q : bits) : Prop := forall Q', isPre Q Q' = true -> under m' Q' = under m Q'.
Lemma agree_sub m m' Q Q' : agree m m' Q -> isPre Q Q' = true -> agree m m' Q'.
Proof. intros A P Q2 P2. apply A. eapply isPre_trans; eauto. Qed.
Lemma inner_under R m m' Q : under m' Q = under m Q -> inner R m' Q = inner R m Q.
Proof. unfold inner. now intros ->. Qed.
Lemma upd_same (c : node) i x : upd c i x i = x.
Proof. unfold upd. now rewrite Nat.eqb_refl. Qed.
Lemma upd_other (c : node) i j x : j <> i -> upd c i x j = c j.
Proof. unfold upd. destruct (Nat.eqb_spec j i); tauto. Qed.
Lemma upd_enc_other (c : node) q q' x : q' <> q -> upd c (enc q) x (enc q') = c (enc q').
Proof. intros NE. apply upd_other. intros E. apply NE, enc_inj, E. Qed.
End S1.

(** proper prefix *)
Definition ppre (a b : bits) : bool := isPre a b && negb (bits_eqb a b).
Lemma ppre_spec a b : ppre a b = true <-> isPre a b = true /\ a <> b.
Proof. unfold ppre. now rewrite andb_true_iff, negb_true_iff, bits_eqb_neq. Qed.
Lemma ppre_snoc a q b : ppre a (q ++ [b]) = true <-> isPre a q = true.
Proof.
  rewrite ppre_spec. split.
  - intros [P NE]. apply (isPre_two _ _ (q ++ [b])); auto; [apply isPre_app|].
    pose proof (isPre_len _ _ P) as L. rewrite app_length in L. cbn in L.
    destruct (Nat.eq_dec (length a) (length q + 1)); [|lia].
    exfalso. apply NE. apply isPre_eq; auto. rewrite app_length; cbn; lia.
  - intros P. split; [eapply isPre_trans; [exact P|apply isPre_app]|].
    intros ->. apply isPre_len in P. rewrite app_length in P. cbn in P. lia.
Qed.
Lemma ppre_nil a : ppre a [] = false.
Proof. destruct a; reflexivity. Qed.

Section S.
Variable H : Type.
Variable hparent : H -> H -> H.
Variable ph : H.
Notation leaf := (leaf H).
Notation node := (node H).
Notation child := (child H).
Notation under := (under H).
Notation wf := (wf H).
Notation rm := (rm H).
Notation inner := (inner H).
Notation lslot := (lslot H).
Notation agree := (agree H).
Definition hleaf (m : list leaf) (Q : bits) : H := match under m Q with [l] => lhash l | _ => ph end.
Fixpoint chash (n : nat) (R : bits) (m : list leaf) (Q : bits) : H :=
  match n with
  | 0 => hleaf m Q
  | S n' => if inner R m Q then hparent (chash n' R m (Q ++ [false])) (chash n' R m (Q ++ [true])) else hleaf m Q
  end.
Definition thash (R : bits) (m : list leaf) (Q : bits) : H := chash (KL - length Q) R m Q.

Lemma thash_inner R m Q : length Q < KL -> inner R m Q = true ->
  thash R m Q = hparent (thash R m (Q ++ [false])) (thash R m (Q ++ [true])).
Proof.
  intros L I. unfold thash. rewrite !app_length. cbn [length].
  replace (KL - length Q) with (S (KL - (length Q + 1))) by lia. cbn [chash]. now rewrite I.
Qed.
Lemma thash_leaf R m Q : inner R m Q = false -> thash R m Q = hleaf m Q.
Proof. intros I. unfold thash. destruct (KL - length Q); cbn [chash]; now rewrite ?I. Qed.

Lemma thash_agree R R' m m' Q : agree m m' Q ->
  (forall Q', isPre Q Q' = true -> inner R' m' Q' = inner R m Q') -> thash R' m' Q = thash R m Q.
Proof.
  unfold thash. generalize (KL - length Q) as n. intros n. revert Q.
  induction n as [|n IH]; intros Q A HI; cbn [chash]; unfold hleaf; rewrite (A Q (isPre_refl Q)); auto.
  rewrite HI by apply isPre_refl. destruct (inner R m Q); auto.
  f_equal; apply IH; try (eapply agree_sub; [exact A|apply isPre_app]);
    intros Q' P; apply HI; eapply isPre_snoc_inv; eauto.
Qed.
Lemma thash_agree1 R m m' Q : agree m m' Q -> thash R m' Q = thash R m Q.
Proof. intros A. apply thash_agree; auto. intros Q' P. apply inner_under, A, P. Qed.

(** * Well-formed nodes *)
(** [ver P] is the version of the node stored for position [P]. *)
Definition slotOk (R : bits) (m : list leaf) (ver : bits -> N) (P q : bits) (x : option child) : Prop :=
  if inner R m (P ++ q)
  then exists v, x = Some (Int (thash R m (P ++ q)) v) /\ (q = [] -> v = ver P) /\ (length q = 4 -> v = ver (P ++ q))
  else if bits_eqb (P ++ q) R then (x = None /\ ver P = 0%N) \/ x = Some (Int ph (ver P))
  else x = lslot R m (P ++ q).
Definition nodeOk (R : bits) (m : list leaf) (ver : bits -> N) (P : bits) (c : node) : Prop :=
  forall q, length q <= 4 -> slotOk R m ver P q (c (enc q)).

Lemma slot_hash R m ver P q b x : wf m -> length R < KL -> inner R m (P ++ q) = true -> R = P \/ length R <= length P ->
  slotOk R m ver P (q ++ [b]) x -> hashOf H ph x = thash R m (P ++ q ++ [b]).
Proof.
  intros W LR I HR S. unfold slotOk in S.
  destruct (inner R m (P ++ q ++ [b])) eqn:I2.
  - destruct S as (v & -> & _). reflexivity.
  - destruct (bits_eqb (P ++ q ++ [b]) R) eqn:E.
    { exfalso. apply bits_eqb_spec in E. apply (f_equal (@length bool)) in E. rewrite !app_length in E. cbn in E.
      destruct HR as [->|HR]; lia. }
    rewrite S, thash_leaf by auto. unfold lslot, hleaf.
    rewrite app_assoc, removelast_snoc, I.
    rewrite <- app_assoc. destruct (under m (P ++ q ++ [b])) as [|l [|? ?]]; reflexivity.
Qed.

(** updateHashes repairs every proper ancestor of [q]. *)
Lemma updateHashes_ok R m ver P q c v fuel :
  wf m -> length R < KL -> R = P \/ length R <= length P ->
  q <> [] -> length q <= 4 -> length q <= fuel -> ver P = v ->
  (forall q', ppre q' q = true -> inner R m (P ++ q') = true) ->
  (forall q', ppre q' q = true -> forall l, c (enc q') <> Some (Leaf l)) ->
  (forall q', length q' <= 4 -> ppre q' q = false -> slotOk R m ver P q' (c (enc q'))) ->
  exists c', updateHashes_loop H hparent ph fuel c (enc q) v = Some c' /\ nodeOk R m ver P c'.
Proof.
  intros W LR HR. revert q c. induction fuel as [|fuel IH]; intros q c NE L LF V I NL OK.
  { destruct q; cbn in LF; [congruence|lia]. }
  destruct (snoc_cases q) as [->|(a & b & ->)]; [congruence|]. clear NE.
  cbn [updateHashes_loop]. rewrite enc_snoc, isLeft_child, parent_child.
  rewrite app_length in L, LF; cbn [length] in L, LF.
  assert (Ia : inner R m (P ++ a) = true) by (apply I, ppre_snoc, isPre_refl).
  assert (Hb : forall b', getHash H ph c (childIndex b' (enc a)) = thash R m (P ++ a ++ [b'])).
  { intros b'. unfold getHash. rewrite <- enc_snoc. apply (slot_hash R m ver); auto. apply OK.
    - rewrite app_length; cbn; lia.
    - apply not_true_iff_false. rewrite ppre_snoc. intros X. apply isPre_len in X. rewrite app_length in X. cbn in X. lia. }
  assert (Eh : (if negb b then hparent (getHash H ph c (childIndex b (enc a))) (getHash H ph c (childIndex b (enc a) + 1))
                else hparent (getHash H ph c (childIndex b (enc a) - 1)) (getHash H ph c (childIndex b (enc a))))
               = thash R m (P ++ a)).
  { rewrite thash_inner; auto; [|eapply inner_lt; eauto].
    rewrite <- !app_assoc, <- !Hb. rewrite (childIndex_succ (enc a)). destruct b; cbn [negb].
    - rewrite (childIndex_succ (enc a)). now rewrite Nat.add_sub.
    - reflexivity. }
  set (h := if negb b then _ else _) in *. rewrite Eh. clear h Eh.
  assert (La : forall l, c (enc a) <> Some (Leaf l)) by (apply NL, ppre_snoc, isPre_refl).
  set (c1 := upd c (enc a) (Some (Int (thash R m (P ++ a)) v))).
  assert (OK1 : forall q', length q' <= 4 -> ppre q' a = false -> slotOk R m ver P q' (c1 (enc q'))).
  { intros q' L' P'. unfold c1. destruct (bits_dec q' a) as [->|NE].
    - rewrite upd_same. unfold slotOk. rewrite Ia. exists v. repeat split; auto. intros; lia.
    - rewrite upd_enc_other by auto. apply OK; auto. apply not_true_iff_false. rewrite ppre_snoc. intros X.
      assert (ppre q' a = true) by (apply ppre_spec; auto). congruence. }
  destruct (c (enc a)) as [[l|h' v']|] eqn:Ec; [now destruct (La l)| |];
  (destruct (Nat.eqb_spec (enc a) 0) as [E0|E0];
   [apply (proj1 (enc_zero a)) in E0; subst a; exists c1; split; [reflexivity|]; intros q' L'; apply OK1; auto; apply ppre_nil|]).
  all: apply IH; auto; try lia.
  all: try (intros ->; apply E0; reflexivity).
  all: try (intros q' P'; apply I, ppre_snoc; apply ppre_spec in P'; tauto).
  all: intros q' P' l; unfold c1; apply ppre_spec in P' as [P' NE]; rewrite upd_enc_other by auto;
    apply NL, ppre_snoc; auto.
Qed.
Lemma updateHashes_ok' R m ver P q c v :
  wf m -> length R < KL -> R = P \/ length R <= length P ->
  q <> [] -> length q <= 4 -> ver P = v ->
  (forall q', ppre q' q = true -> inner R m (P ++ q') = true) ->
  (forall q', ppre q' q = true -> forall l, c (enc q') <> Some (Leaf l)) ->
  (forall q', length q' <= 4 -> ppre q' q = false -> slotOk R m ver P q' (c (enc q'))) ->
  exists c', updateHashes H hparent ph c (enc q) v = Some c' /\ nodeOk R m ver P c'.
Proof.
  intros W LR HR NE L V I NL OK. unfold updateHashes.
  destruct (Nat.eqb_spec (enc q) 0) as [E|_]; [now apply (proj1 (enc_zero q)) in E|].
  apply (updateHashes_ok R m ver P q c v 31); auto. lia.
Qed.

End S.
