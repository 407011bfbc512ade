(** Invariants of the consensus model. *)
From Coq Require Import List Arith Lia Bool.
From Verif Require Import Lib_Sets Quorum_Model ViewChange_Model ViewChange_Proofs Consensus_Model.
Import ListNotations.

Definition CertOK k g v s d := slowQuorum (cf k) (cc k) <= length (voters k g (v, s, d)).
Definition SlowQ k g v s d := slowQuorum (cf k) (cc k) <= length (committers k g (v, s, d)).
Definition FastQ k g v s d := fastQuorum (cf k) (cc k) <= length (voters k g (v, s, d)).

Definition Grows (g g' : gstate) : Prop := forall j,
  incl (r_votes (get g j)) (r_votes (get g' j)) /\ incl (r_commits (get g j)) (r_commits (get g' j)) /\
  incl (r_vcs (get g j)) (r_vcs (get g' j)) /\ incl (r_dec (get g j)) (r_dec (get g' j)).

Definition QOK k g v (Q : list vcmsg) : Prop :=
  length Q = vcQuorum (cf k) (cc k) /\ NoDup (map vc_from Q) /\
  forall m, In m Q -> vc_from m < cn k /\ vc_view m = v /\ In m (r_vcs (get g (vc_from m))).

Definition HistOK k g (h : list nat) : Prop := forall i d, nth_error (rev h) i = Some d ->
  exists j v, correct k j /\ In (v, S i, d) (r_dec (get g j)).

Definition instDig (rs : list (option nat)) (lb s : nat) :=
  match nth (s - lb - 1) rs None with Some d => d | None => nullDigest end.

Record VI k g r (m : vcmsg) (u : nat) : Prop := mkVI {
  vi_lt : u < vc_view m;
  vi_max : forall x s d, In (x, s, d) (r_pph r) -> x < vc_view m -> x <= u;
  vi_elem : forall e, In e (vc_elems m) -> In (u, e_seq e, e_dig e) (r_pph r) /\ e_origin e = u /\
            e_seq e <= vc_ls m + kWorkWindowSize /\
            (forall cv ok, e_cert e = Some (cv, ok) -> ok = true /\ cv <= u /\ CertOK k g cv (e_seq e) (e_dig e));
  vi_incl : ctime k = false -> forall s d, In (u, s, d) (r_pph r) -> d <> nullDigest -> s <= vc_ls m \/
            exists e, In e (vc_elems m) /\ e_seq e = s /\ e_dig e = d;
  vi_com : ctime k = false -> forall s d, In (u, s, d) (r_commits r) -> s <= vc_ls m \/
            exists e, In e (vc_elems m) /\ e_seq e = s /\ e_dig e = d /\ e_cert e = Some (u, true);
  vi_carry : ctime k = false -> forall m' e' cv, In m' (r_vcs r) -> vc_view m' = u -> In e' (vc_elems m') ->
            e_cert e' = Some (cv, true) ->
            In (u, e_seq e', e_dig e') (r_pph r) -> e_seq e' <= vc_ls m \/
            exists e cv', In e (vc_elems m) /\ e_seq e = e_seq e' /\ e_dig e = e_dig e' /\ e_cert e = Some (cv', true) /\ cv <= cv';
  vi_wf : wellFormed m;
  vi_has : u = 0 \/ exists m', In m' (r_vcs r) /\ vc_view m' = u /\ vc_ls m' <= vc_ls m;
  vi_ent : u = 0 \/ exists en, In en (r_ents r) /\ n_view en = u /\ n_ls en <= vc_ls m
}.

Record EI k g r (en : entry) : Prop := mkEI {
  ei_view : n_view en <= r_view r;
  ei_q : QOK k g (n_view en) (n_Q en);
  ei_lb : exists x, calcLB (cf k) (cc k) (arr (n_Q en)) = Some x /\ x <= n_lb en <= n_ls en;
  ei_inst : exists mn mx rs, computeRestrictions (cf k) (cc k) (arr (n_Q en)) (n_lb en) = Some (mn, mx, rs) /\
            forall s, mn <> 0 -> n_ls en < s -> mn <= s <= mx -> In (n_view en, s, instDig rs (n_lb en) s) (r_pph r)
}.

Record RI k g (i : nat) (r : rep) : Prop := mkRI {
  ri_fun : forall v s d d', In (v, s, d) (r_pph r) -> In (v, s, d') (r_pph r) -> d = d';
  ri_bound : forall v s d, In (v, s, d) (r_pph r) -> v <= r_view r;
  ri_boundI : r_active r = false -> forall v s d, In (v, s, d) (r_pph r) -> v < r_view r;
  ri_pp : forall s p, lookup s (r_pp r) = Some p -> r_ls r < s <= r_ls r + kWorkWindowSize /\
          In (r_view r, s, p_dig p) (r_pph r) /\ (ctime k = false -> p_tok p = true) /\ (p_slow p = false -> p_dig p <> nullDigest);
  ri_ppinv : r_active r = true -> forall s d, In (r_view r, s, d) (r_pph r) -> s <= r_ls r \/
          exists p, lookup s (r_pp r) = Some p /\ p_dig p = d;
  ri_inact : r_active r = false -> r_pp r = [] /\ r_prep r = [] /\ r_fast r = [] /\ r_com r = [] /\ r_fcom r = [];
  ri_prep : forall s, In s (r_prep r) -> exists p, lookup s (r_pp r) = Some p /\ CertOK k g (r_view r) s (p_dig p);
  ri_fast : forall s, In s (r_fast r) -> exists p, lookup s (r_pp r) = Some p /\ p_dig p <> nullDigest;
  ri_com : forall s, In s (r_com r) \/ In s (r_fcom r) -> exists p, lookup s (r_pp r) = Some p /\ In (r_view r, s, p_dig p) (r_dec r);
  ri_votes : incl (r_votes r) (r_pph r);
  ri_commits : forall v s d, In (v, s, d) (r_commits r) -> In (v, s, d) (r_pph r) /\ CertOK k g v s d /\
          (r_active r = true -> v = r_view r -> s <= r_ls r \/ In s (r_prep r));
  ri_dec : forall v s d, In (v, s, d) (r_dec r) -> In (v, s, d) (r_pph r) /\ (SlowQ k g v s d \/ (FastQ k g v s d /\ d <> nullDigest));
  ri_hist : length (r_hist r) = r_exec r /\ HistOK k g (r_hist r);
  ri_cks : forall s h, In (s, h) (r_cks r) -> length h = s /\ HistOK k g h;
  ri_vcs : forall m, In m (r_vcs r) -> vc_from m = i /\ vc_view m <= r_view r /\ vc_ls m <= r_ls r /\
          (vc_view m = r_view r -> r_prev r = Some m) /\ exists u, VI k g r m u;
  ri_prev : forall m, r_prev r = Some m -> In m (r_vcs r) /\ vc_view m = r_view r;
  ri_prevI : r_prev r = None -> r_active r = true /\ r_view r = 0;
  ri_ents : forall en, In en (r_ents r) -> EI k g r en;
  ri_pphent : forall v s d, In (v, s, d) (r_pph r) -> v = 0 \/ exists en, In en (r_ents r) /\ n_view en = v /\ n_ls en < s;
  ri_actent : r_active r = true -> r_view r = 0 \/ exists en, In en (r_ents r) /\ n_view en = r_view r /\ n_ls en <= r_ls r;
  ri_pend : forall Q, r_pend r = Some Q -> r_active r = false /\ QOK k g (r_view r) Q /\
          exists x, calcLB (cf k) (cc k) (arr Q) = Some x /\ x <= r_lb r
}.

Definition BI k g (i : nat) (r : rep) : Prop := forall m, In m (r_vcs r) -> vc_from m = i /\ wellFormed m /\
  forall e, In e (vc_elems m) -> e_origin e < vc_view m /\
    forall cv, e_cert e = Some (cv, true) -> cv <= e_origin e /\ CertOK k g cv (e_seq e) (e_dig e).

Definition INV k g : Prop := length g = cn k /\
  (forall i, correct k i -> RI k g i (get g i)) /\ (forall i, In i (cbyz k) -> BI k g i (get g i)).

(** *** Basic facts *)
Lemma eq3_true a b : eq3 a b = true <-> a = b.
Proof. destruct a as [[a1 a2] a3], b as [[b1 b2] b3]; simpl. rewrite !andb_true_iff, !Nat.eqb_eq. split; [intros [[-> ->] ->]; auto|intros H; inversion H; auto]. Qed.
Lemma mem3_In x l : mem3 x l = true <-> In x l.
Proof.
  unfold mem3. rewrite existsb_exists. split.
  - intros (y & H & E). apply eq3_true in E; subst; auto.
  - intros H; exists x; split; auto. apply eq3_true; auto.
Qed.
Lemma eqlist_true a : forall b, eqlist a b = true <-> a = b.
Proof.
  induction a as [|x a IH]; destruct b as [|y b]; simpl; try (split; [discriminate|discriminate]); try tauto.
  rewrite andb_true_iff, Nat.eqb_eq, IH. split; [intros [-> ->]; auto|intros H; inversion H; auto].
Qed.
Lemma eqcert_true a b : eqcert a b = true -> a = b.
Proof. destruct a as [[x p]|], b as [[y q]|]; simpl; try discriminate; auto. rewrite andb_true_iff, Nat.eqb_eq, eqb_true_iff. intros [-> ->]; auto. Qed.
Lemma eqelem_true a b : eqelem a b = true -> a = b.
Proof.
  unfold eqelem. rewrite !andb_true_iff, !Nat.eqb_eq. intros [[[H1 H2] H3] H4]. apply eqcert_true in H4. destruct a, b; simpl in *; subst; auto.
Qed.
Lemma eqelems_true a : forall b, eqelems a b = true -> a = b.
Proof.
  induction a as [|x a IH]; destruct b as [|y b]; simpl; try discriminate; auto.
  rewrite andb_true_iff. intros [H1 H2]. apply eqelem_true in H1. apply IH in H2. subst; auto.
Qed.
Lemma eqvc_true a b : eqvc a b = true -> a = b.
Proof.
  unfold eqvc. rewrite !andb_true_iff, !Nat.eqb_eq. intros [[[H1 H2] H3] H4]. apply eqelems_true in H4. destruct a, b; simpl in *; subst; auto.
Qed.
Lemma present_arr Q : present (arr Q) = Q.
Proof. induction Q; simpl; auto. f_equal; auto. Qed.

Lemma get_put_same i r g : i < length g -> get (put i r g) i = r.
Proof. unfold get. revert i; induction g as [|x g IH]; simpl; intros i H; [lia|]. destruct i; simpl; auto. apply IH; lia. Qed.
Lemma get_put_other i j r g : i <> j -> get (put i r g) j = get g j.
Proof. unfold get. revert i j; induction g as [|x g IH]; intros i j H; destruct i, j; simpl; auto; try lia. Qed.
Lemma put_length i r g : length (put i r g) = length g.
Proof. revert i; induction g; intros [|i]; simpl; auto. Qed.

Lemma lookup_In {T} s (l : list (nat * T)) x : lookup s l = Some x -> In (s, x) l.
Proof. induction l as [|[s' y] l IH]; simpl; [discriminate|]. destruct (Nat.eqb_spec s s'); [intros H; inversion H; subst; auto|auto]. Qed.
Lemma lookup_filter {T} s t (l : list (nat * T)) : lookup s (filter (fun x => t <? fst x) l) = if t <? s then lookup s l else None.
Proof.
  induction l as [|[s' y] l IH]; simpl; [destruct (t <? s); auto|].
  destruct (Nat.ltb_spec t s'); simpl; rewrite IH; destruct (Nat.eqb_spec s s'); subst; auto; destruct (Nat.ltb_spec t s'); auto; lia.
Qed.

Lemma Grows_refl g : Grows g g. Proof. intros j; repeat split; intros x H; auto. Qed.
Lemma voters_mono k g g' x : Grows g g' -> length (voters k g x) <= length (voters k g' x).
Proof.
  intros H. unfold voters. apply filter_length_mono. intros j _ E. apply mem3_In in E. apply mem3_In. destruct (H j) as (A & _). auto.
Qed.
Lemma committers_mono k g g' x : Grows g g' -> length (committers k g x) <= length (committers k g' x).
Proof.
  intros H. unfold committers. apply filter_length_mono. intros j _ E. apply mem3_In in E. apply mem3_In. destruct (H j) as (_ & A & _). auto.
Qed.
Lemma CertOK_mono k g g' v s d : Grows g g' -> CertOK k g v s d -> CertOK k g' v s d.
Proof. unfold CertOK; intros H. pose proof (voters_mono k g g' (v, s, d) H). lia. Qed.
Lemma SlowQ_mono k g g' v s d : Grows g g' -> SlowQ k g v s d -> SlowQ k g' v s d.
Proof. unfold SlowQ; intros H. pose proof (committers_mono k g g' (v, s, d) H). lia. Qed.
Lemma FastQ_mono k g g' v s d : Grows g g' -> FastQ k g v s d -> FastQ k g' v s d.
Proof. unfold FastQ; intros H. pose proof (voters_mono k g g' (v, s, d) H). lia. Qed.
Lemma QOK_mono k g g' v Q : Grows g g' -> QOK k g v Q -> QOK k g' v Q.
Proof. intros H (A & B & C). split; [auto|split; auto]. intros m Hm. destruct (C m Hm) as (D & E & F). repeat split; auto. destruct (H (vc_from m)) as (_ & _ & G & _). auto. Qed.
Lemma HistOK_mono k g g' h : Grows g g' -> HistOK k g h -> HistOK k g' h.
Proof. intros H A i d E. destruct (A i d E) as (j & v & Hj & Hd). exists j, v; split; auto. destruct (H j) as (_ & _ & _ & G). auto. Qed.
#[export] Hint Resolve CertOK_mono SlowQ_mono FastQ_mono QOK_mono HistOK_mono : mono.

Lemma VI_mono k g g' r m u : Grows g g' -> VI k g r m u -> VI k g' r m u.
Proof.
  intros H [A B C D E F G J I]. constructor; auto. intros e He. destruct (C e He) as (C1 & C2 & C3 & C4). repeat split; auto; destruct (C4 _ _ H0) as (? & ? & ?); eauto with mono.
Qed.
Lemma EI_mono k g g' r en : Grows g g' -> EI k g r en -> EI k g' r en.
Proof. intros H [A B C D]. constructor; eauto with mono. Qed.

Lemma RI_mono k g g' i r : Grows g g' -> RI k g i r -> RI k g' i r.
Proof.
  intros H R. destruct R. constructor; auto.
  - intros s Hs. destruct (ri_prep0 s Hs) as (p & ? & ?); eauto with mono.
  - intros v s d Hd. destruct (ri_commits0 v s d Hd) as (? & ? & ?); eauto with mono.
  - intros v s d Hd. destruct (ri_dec0 v s d Hd) as (? & [?|[? ?]]); eauto 6 with mono.
  - destruct ri_hist0; eauto with mono.
  - intros s h Hh. destruct (ri_cks0 s h Hh); eauto with mono.
  - intros m Hm. destruct (ri_vcs0 m Hm) as (? & ? & ? & ? & u & ?). repeat split; auto. exists u. eapply VI_mono; eauto.
  - intros en He. eapply EI_mono; eauto.
  - intros Q HQ. destruct (ri_pend0 Q HQ) as (? & ? & ?). eauto with mono.
Qed.
Lemma BI_mono k g g' i r : Grows g g' -> BI k g i r -> BI k g' i r.
Proof.
  intros H B m Hm. destruct (B m Hm) as (A1 & A2 & A3). repeat split; auto; destruct (A3 _ H0) as (A4 & A5); auto; destruct (A5 _ H1); eauto with mono.
Qed.

(** The sent lists of the acting replica only grow. *)
Definition repGrows (r r' : rep) : Prop :=
  incl (r_votes r) (r_votes r') /\ incl (r_commits r) (r_commits r') /\ incl (r_vcs r) (r_vcs r') /\ incl (r_dec r) (r_dec r').
Lemma guard_some b r r' : guard b r = Some r' -> b = true /\ r' = r.
Proof. unfold guard; destruct b; [intros H; inversion H; auto|discriminate]. Qed.
Ltac inv_some H := inversion H; subst; clear H.
Lemma local_grows k g i r e r' : local k g i r e = Some r' -> repGrows r r'.
Proof.
  unfold repGrows, local. intros H.
  destruct e;
  repeat match goal with
  | H : guard _ _ = Some _ |- _ => apply guard_some in H; destruct H as [_ ?]; subst
  | H : match ?x with _ => _ end = Some _ |- _ => destruct x eqn:?; try discriminate
  | H : Some _ = Some _ |- _ => inversion H; subst; clear H
  end; unfold addPP, setStable; simpl;
  repeat match goal with |- context [if ?b then _ else _] => destruct b; simpl end;
  repeat split; intros y Hy; simpl; auto.
Qed.
Lemma put_grows i r' g : i < length g -> repGrows (get g i) r' -> Grows g (put i r' g).
Proof.
  intros Hi H j. destruct (Nat.eq_dec i j) as [<-|Hn].
  - rewrite get_put_same by auto. exact H.
  - rewrite get_put_other by auto. repeat split; intros x Hx; auto.
Qed.
