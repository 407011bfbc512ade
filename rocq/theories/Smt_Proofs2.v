(** Proofs for the sparse Merkle tree, part 2: inserting into a node. *)
From Coq Require Import List NArith Bool Arith Lia.
From Verif Require Import Smt_Model Smt_Proofs.
Import ListNotations.
Set Default Proof Using "Type".

Lemma prefix_bits_pre a b n : n <= prefix_bits a b -> firstn n a = firstn n b.
Proof.
  revert b n; induction a as [|x a IH]; intros b n L; cbn [prefix_bits] in L.
  - now assert (n = 0) as -> by lia.
  - destruct b as [|y b]; [now assert (n = 0) as -> by lia|].
    destruct (eqb x y) eqn:E; [|now assert (n = 0) as -> by lia].
    apply eqb_prop in E as ->. destruct n; auto. cbn. f_equal. apply IH. lia.
Qed.
Lemma prefix_bits_len a b : length a = length b -> a <> b -> prefix_bits a b < length a.
Proof.
  revert b; induction a as [|x a IH]; intros [|y b] L NE; cbn in *; try congruence; try lia.
  destruct (eqb x y) eqn:E; [|lia]. apply eqb_prop in E as ->.
  assert (prefix_bits a b < length a); [apply IH; congruence|lia].
Qed.
Lemma prefix_bits_diff a b : length a = length b -> a <> b ->
  firstn (S (prefix_bits a b)) a <> firstn (S (prefix_bits a b)) b.
Proof.
  revert b; induction a as [|x a IH]; intros [|y b] L NE; cbn [prefix_bits length] in *; try congruence; try lia.
  destruct (eqb x y) eqn:E.
  - apply eqb_prop in E as ->. cbn [firstn]. intros F. apply (f_equal (@tl bool)) in F. cbn [tl] in F. refine (IH b _ _ F); [lia|congruence].
  - cbn [firstn]. intros F. apply (f_equal (hd true)) in F. cbn [hd] in F. subst. now rewrite eqb_reflx in E.
Qed.
Lemma prefix_bits_sym a b : prefix_bits a b = prefix_bits b a.
Proof.
  revert b; induction a as [|x a IH]; intros [|y b]; cbn; auto.
  assert (eqb x y = eqb y x) as -> by (destruct x, y; auto). rewrite IH. reflexivity.
Qed.
Lemma prefix_bits_common Q a b : isPre Q a = true -> isPre Q b = true -> length Q <= prefix_bits a b.
Proof.
  rewrite !isPre_spec. intros [r ->] [s ->]. induction Q as [|x Q IH]; cbn; [lia|]. rewrite eqb_reflx. lia.
Qed.
Lemma common_pre a b Q : isPre Q a = true -> length Q <= prefix_bits a b -> isPre Q b = true.
Proof.
  intros P L. apply isPre_firstn. apply isPre_firstn in P. rewrite P at 1. apply prefix_bits_pre. auto.
Qed.
Lemma common_pre_iff a b Q : isPre Q a = true -> isPre Q b = true <-> length Q <= prefix_bits a b.
Proof. intros P. split; [apply prefix_bits_common; auto|apply common_pre; auto]. Qed.
Lemma isPre_firstn_l n (k : bits) : isPre (firstn n k) k = true.
Proof. apply isPre_spec. exists (skipn n k). now rewrite firstn_skipn. Qed.

Section S1.
Variable H : Type.
Notation leaf := (leaf H).
Notation node := (node H).
Notation under := (under H).
Notation inner := (inner H).
Notation wf := (wf H).
Notation rm := (rm H).

Definition ins (l : leaf) (m : list leaf) : list leaf := l :: rm (lkey l) m.
Definition offk (k : bits) (m m' : list leaf) : Prop := forall Q, isPre Q k = false -> under m' Q = under m Q.
Definition veroff (k : bits) (ver ver' : bits -> N) : Prop := forall Q, isPre Q k = false -> ver' Q = ver Q.

Lemma in_ins l m x : In x (ins l m) <-> x = l \/ (In x m /\ lkey x <> lkey l).
Proof. unfold ins. cbn [In]. rewrite in_rm. intuition congruence. Qed.
Lemma under_ins l m Q : under (ins l m) Q = if isPre Q (lkey l) then l :: rm (lkey l) (under m Q) else under m Q.
Proof.
  unfold ins. unfold Smt_Proofs.under at 1. cbn [filter]. fold (under (rm (lkey l) m) Q). rewrite under_rm.
  destruct (isPre Q (lkey l)) eqn:E; auto.
  apply rm_notin. intros HI. apply in_map_iff in HI as (x & Ex & Hx). apply in_under in Hx as [_ Hx]. congruence.
Qed.
Lemma offk_ins l m : offk (lkey l) m (ins l m).
Proof. intros Q E. rewrite under_ins, E. reflexivity. Qed.
Lemma offk_rm k m : offk k m (rm k m).
Proof.
  intros Q E. rewrite under_rm. apply rm_notin. intros HI. apply in_map_iff in HI as (x & Ex & Hx).
  apply in_under in Hx as [_ Hx]. congruence.
Qed.
Lemma offk_agree k m m' Q : offk k m m' -> isPre Q k = false -> agree H m m' Q.
Proof.
  intros O E Q' P. apply O. apply not_true_iff_false. intros X. rewrite (isPre_trans _ _ _ P X) in E. discriminate.
Qed.
(** counting *)
Lemma len_rm_in k m s : wf m -> In s m -> lkey s = k -> length (rm k m) + 1 = length m.
Proof.
  intros [N _]. induction m as [|x m IH]; cbn; [tauto|]. cbn in N. apply NoDup_cons_iff in N as [N1 N2].
  intros [-> | Hs] Ek.
  - subst k. rewrite bits_eqb_refl. cbn. fold (rm (lkey s) m). rewrite rm_notin; auto. lia.
  - destruct (bits_eqb (lkey x) k) eqn:E; cbn.
    + apply bits_eqb_spec in E. exfalso. apply N1. rewrite E, <- Ek. now apply in_map.
    + fold (rm k m). rewrite <- (IH N2 Hs Ek). lia.
Qed.
Lemma len_rm_le k m : wf m -> length (rm k m) <= length m <= length (rm k m) + 1.
Proof.
  intros W. destruct (in_dec bits_dec k (map lkey m)) as [Hi|Hn].
  - apply in_map_iff in Hi as (s & Es & Hs). pose proof (len_rm_in k m s W Hs Es). lia.
  - rewrite rm_notin by auto. lia.
Qed.
Lemma len_under_ins l m Q : wf m -> length (under m Q) <= length (under (ins l m) Q).
Proof.
  intros W. rewrite under_ins. destruct (isPre Q (lkey l)); auto. cbn [length].
  pose proof (len_rm_le (lkey l) (under m Q) (wf_under H m Q W)). lia.
Qed.
Lemma inner_ins R l m Q : wf m -> inner R m Q = true -> inner R (ins l m) Q = true.
Proof.
  intros W I. pose proof (len_under_ins l m Q W) as L. apply inner_true in I as [I|(s & Es & ->)].
  - apply inner_len2. lia.
  - unfold Smt_Proofs.inner. rewrite Es in L. destruct (under (ins l m) R) as [|a [|b u]]; cbn in L; [lia| |auto].
    apply bits_eqb_refl.
Qed.
Lemma inner_ins_R R l m : isPre R (lkey l) = true -> inner R (ins l m) R = true.
Proof.
  intros E. unfold Smt_Proofs.inner. rewrite under_ins, E. destruct (rm (lkey l) (under m R)); auto. apply bits_eqb_refl.
Qed.
Lemma wf_ins' l m : wf m -> length (lkey l) = KL -> wf (ins l m).
Proof. apply wf_ins. Qed.

End S1.

Section S.
Variable H : Type.
Variable hparent : H -> H -> H.
Variable ph : H.
Notation leaf := (leaf H).
Notation node := (node H).
Notation child := (child H).
Notation under := (under H).
Notation inner := (inner H).
Notation lslot := (lslot H).
Notation thash := (thash H hparent ph).
Notation wf := (wf H).
Notation rm := (rm H).
Notation slotOk := (slotOk H hparent ph).
Notation nodeOk := (nodeOk H hparent ph).
Notation updateHashes := (updateHashes H hparent ph).

Notation ins := (ins H).
Notation offk := (offk H).

(** moving a slot that is not on the path of [k] from [m] to [m'] *)
Lemma slot_move R k m m' ver ver' P q x : offk k m m' -> veroff k ver ver' -> isPre (P ++ q) k = false -> isPre P k = true ->
  length R <= length P ->
  (forall s0, under m (P ++ q) = [s0] -> inner R m' (removelast (P ++ q)) = inner R m (removelast (P ++ q))) ->
  slotOk R m ver P q x -> slotOk R m' ver' P q x.
Proof.
  intros O V E EP LR HI. unfold Smt_Proofs.slotOk.
  assert (Eu : under m' (P ++ q) = under m (P ++ q)) by (apply O; auto).
  rewrite (inner_under H R m m' (P ++ q) Eu).
  assert (NQ : q <> []) by (intros ->; rewrite app_nil_r in E; congruence).
  destruct (inner R m (P ++ q)).
  - intros (u & -> & _ & Hv). exists u. rewrite (thash_agree1 H hparent ph R m m'); [|eapply offk_agree; eauto].
    split; auto. split; [tauto|]. intros L4. rewrite V; auto.
  - destruct (bits_eqb (P ++ q) R) eqn:ER.
    + exfalso. apply bits_eqb_spec in ER. apply (f_equal (@length bool)) in ER. rewrite app_length in ER.
      destruct q; cbn in ER; [congruence|lia].
    + intros ->. unfold Smt_Proofs.lslot. rewrite Eu. destruct (under m (P ++ q)) as [|s0 [|? ?]]; auto.
      now rewrite (HI s0 eq_refl).
Qed.

(** A node on the path of [k] whose on-path slots still have to be repaired. *)
Definition pend (R : bits) (m : list leaf) (ver : bits -> N) (P nb : bits) (c : node) : Prop :=
  forall q, length q <= 4 ->
    if isPre q nb then (q <> nb -> forall l, c (enc q) <> Some (Leaf l)) else slotOk R m ver P q (c (enc q)).

Lemma link_ok R m ver P nb c v : wf m -> length R < KL -> length R <= length P -> length nb = 4 ->
  inner R m (P ++ nb) = true -> (forall q, isPre q nb = true -> inner R m (P ++ q) = true) ->
  ver P = v -> ver (P ++ nb) = v -> pend R m ver P nb c ->
  exists c', linkChild H hparent ph c nb (thash R m (P ++ nb)) v = Some c' /\ nodeOk R m ver P c'.
Proof.
  intros W LR LP L4 I IA V V' PD. unfold linkChild. rewrite nibbleToIndex_enc by auto.
  apply (updateHashes_ok' H hparent ph R m ver P nb); auto.
  - intros ->; discriminate.
  - lia.
  - intros q P'. apply IA. apply ppre_spec in P'. tauto.
  - intros q P' l. apply ppre_spec in P' as [P' NE]. rewrite upd_enc_other by auto.
    assert (Lq : length q <= 4) by (apply isPre_len in P'; lia). specialize (PD q Lq). rewrite P' in PD. apply PD; auto.
  - intros q Lq P'. destruct (bits_dec q nb) as [->|NE].
    + rewrite upd_same. unfold Smt_Proofs.slotOk. rewrite I. exists v. repeat split; auto.
    + rewrite upd_enc_other by auto. specialize (PD q Lq).
      destruct (isPre q nb) eqn:Ep; auto. exfalso. rewrite (proj2 (ppre_spec q nb)) in P'; auto; discriminate.
Qed.

(** what the insertion loop does from an in-node path [qc] all of whose ancestors are internal *)
Definition anc (R : bits) (m : list leaf) (P qc : bits) : Prop :=
  (forall q, isPre q qc = true -> inner R m (P ++ q) = true) \/ (qc = [] /\ P = R /\ under m P = []).

Lemma anc_sub R m P qc q : anc R m P qc -> isPre q qc = true -> inner R m (P ++ q) = true \/ (q = [] /\ P = R /\ under m P = []).
Proof. intros [A|(-> & A)] E; [left; auto|right]. destruct q; [auto|discriminate]. Qed.

Lemma slot_under R m ver P qc b x : anc R m P qc -> length R <= length P -> slotOk R m ver P (qc ++ [b]) x ->
  match x with
  | None => under m (P ++ qc ++ [b]) = []
  | Some (Leaf s) => under m (P ++ qc ++ [b]) = [s] /\ inner R m (P ++ qc) = true
  | Some (Int h u) => inner R m (P ++ qc ++ [b]) = true /\ h = thash R m (P ++ qc ++ [b]) /\ (length (qc ++ [b]) = 4 -> u = ver (P ++ qc ++ [b]))
  end.
Proof.
  intros A LR S. unfold Smt_Proofs.slotOk in S.
  assert (NR : bits_eqb (P ++ qc ++ [b]) R = false).
  { apply bits_eqb_neq. intros E. apply (f_equal (@length bool)) in E. rewrite !app_length in E. cbn in E. lia. }
  rewrite NR in S. destruct (inner R m (P ++ qc ++ [b])) eqn:I.
  - destruct S as (u & -> & _ & Hv). auto.
  - destruct A as [A|(-> & -> & E0)].
    + specialize (A qc (isPre_refl qc)). unfold Smt_Proofs.lslot in S. rewrite app_assoc, removelast_snoc, A, <- app_assoc in S.
      destruct (inner_false H R m _ I) as [E|(s & E & _)]; rewrite E in S; subst x; auto.
    + assert (E : under m (R ++ [] ++ [b]) = []) by (eapply under_mono_nil; [apply isPre_app|exact E0]).
      unfold Smt_Proofs.lslot in S. rewrite E in S. subst x. auto.
Qed.
Lemma slot_noleaf R m ver P qc q x : anc R m P qc -> isPre q qc = true -> slotOk R m ver P q x -> forall l, x <> Some (Leaf l).
Proof.
  intros A E S l ->. unfold Smt_Proofs.slotOk in S. destruct (anc_sub _ _ _ _ _ A E) as [I|(-> & -> & E0)].
  - rewrite I in S. destruct S as (u & S & _). discriminate.
  - rewrite app_nil_r in S. unfold Smt_Proofs.inner in S. rewrite E0, bits_eqb_refl in S. destruct S as [[S _]|S]; discriminate.
Qed.

End S.
