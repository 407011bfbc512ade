(** More proofs for Leave_Model: complaints travel with view change messages, support for a view, and monotonicity. *)
From Coq Require Import List Arith Bool Lia Permutation.
From Verif Require Import Lib_Sets ViewChange_Model ViewChange_Proofs Leave_Model Leave_Proofs.
Import ListNotations.

(** A message with at least F + 1 valid complaints, of different replicas, all of the view before the one it asks for. *)
Definition carries (F : nat) (m : vc) : Prop :=
  NoDup (map c_gen (v_comps m)) /\ F + 1 <= length (v_comps m) /\ forall c, In c (v_comps m) -> c_ok c = true /\ S (c_view c) = v_new m.

Section Travel.
Context (N F C : nat).
Lemma store_in c l : In (c_gen c) (map c_gen (store c l)).
Proof. unfold store. destruct (has (c_gen c) l) eqn:E; [apply has_in; exact E|]. rewrite map_app. apply in_or_app. right. left. reflexivity. Qed.
Lemma store_incl c l : incl (map c_gen l) (map c_gen (store c l)).
Proof. unfold store. destruct (has (c_gen c) l); [apply incl_refl|]. rewrite map_app. apply incl_appl, incl_refl. Qed.
Lemma quorum_of P l : NoDup P -> incl P (map c_gen l) -> F + 1 <= length P -> quorum F l = true.
Proof. intros H1 H2 H3. apply Nat.leb_le. assert (X := NoDup_incl_length H1 H2). rewrite map_length in X. lia. Qed.
Lemma nodup_app_l {A} (a b : list A) : NoDup (a ++ b) -> NoDup a.
Proof. induction a; cbn; intros H; [constructor|]. inversion H; subst. constructor; auto. intros X. apply H2, in_or_app. auto. Qed.
Lemma process_next cur : forall l k cs P, NoDup (P ++ map c_gen l) -> incl P (map c_gen cs) -> length P = k -> (forall c, In c l -> c_ok c = true /\ c_view c = cur) -> F + 1 <= k + length l ->
  quorum F (fst (process F cur (S cur) k l cs [])) = true.
Proof.
  induction l as [|c l IH]; intros k cs P ND Ip Lk Ok Hn; cbn [process].
  - cbn in *. apply (quorum_of P); auto; [apply (nodup_app_l P []); exact ND|lia].
  - destruct (_ && _ && _) eqn:G.
    + rewrite Nat.eqb_refl. destruct (Ok c (or_introl eq_refl)) as [O1 O2]. rewrite O1, O2, Nat.eqb_refl.
      assert (ND' : NoDup ((P ++ [c_gen c]) ++ map c_gen l)) by (rewrite <- app_assoc; exact ND).
      assert (Lk' : length (P ++ [c_gen c]) = S k) by (rewrite app_length; cbn; lia).
      destruct (has (c_gen c) cs) eqn:Hh; cbn [negb andb].
      * apply (IH (S k) cs (P ++ [c_gen c])); auto; [|intros; apply Ok; right; auto|cbn in Hn; lia].
        intros x Hx. apply in_app_or in Hx as [Hx|[<-|[]]]; auto. apply has_in. exact Hh.
      * apply (IH (S k) (store c cs) (P ++ [c_gen c])); auto; [|intros; apply Ok; right; auto|cbn in Hn; lia].
        intros x Hx. apply in_app_or in Hx as [Hx|[<-|[]]]; [apply store_incl; auto|apply store_in].
    + cbn [fst]. assert (E : (cur <? S cur) = true) by (apply Nat.ltb_lt; lia). rewrite E in G. cbn [andb] in G. apply andb_false_iff in G as [G|G].
      * apply negb_false_iff, orb_true_iff in G as [G|G]; auto. unfold quorum in G. apply Nat.leb_le in G. cbn in G. lia.
      * apply Nat.leb_gt in G. apply (quorum_of P); auto; [apply (nodup_app_l P _ ND)|lia].
Qed.
Lemma process_far cur target : S cur < target -> forall l k cs hs P, quorum F cs = false -> NoDup (P ++ map c_gen l) -> incl P (map c_gen hs) -> length P = k ->
  (forall c, In c l -> c_ok c = true /\ S (c_view c) = target) -> F + 1 <= k + length l ->
  fst (process F cur target k l cs hs) = cs /\ quorum F (snd (process F cur target k l cs hs)) = true.
Proof.
  intros Ht. induction l as [|c l IH]; intros k cs hs P Qc ND Ip Lk Ok Hn; cbn [process].
  - cbn in *. split; auto. apply (quorum_of P); auto; [apply (nodup_app_l P []); exact ND|lia].
  - destruct (_ && _ && _) eqn:G.
    + destruct (Nat.eqb_spec target (S cur)) as [E|_]; [lia|]. destruct (Ok c (or_introl eq_refl)) as [O1 O2]. rewrite O1, O2, Nat.eqb_refl. cbn [andb].
      apply (IH (S k) cs (store c hs) (P ++ [c_gen c])); auto.
      * rewrite <- app_assoc. exact ND.
      * intros x Hx. apply in_app_or in Hx as [Hx|[<-|[]]]; [apply store_incl; auto|apply store_in].
      * rewrite app_length. cbn. lia.
      * intros. apply Ok. right. auto.
      * cbn in Hn. lia.
    + cbn [fst snd]. split; auto. assert (E : (cur <? target) = true) by (apply Nat.ltb_lt; lia). rewrite E, Qc in G. cbn [andb orb] in G. apply andb_false_iff in G as [G|G].
      * apply negb_false_iff in G. exact G.
      * apply Nat.leb_gt in G. apply (quorum_of P); auto; [apply (nodup_app_l P _ ND)|lia].
Qed.

Lemma known_mono me r : exists r' l, known N F C me r = Some (r', l) /\ view r <= view r' /\ vcs r' = vcs r /\ pending r' = pending r /\ fst (relevant N F C me r) <= view r'.
Proof.
  unfold known. destruct (Nat.ltb_spec (view r) (fst (relevant N F C me r))) as [H|H]; [|exists r, []; repeat split; auto].
  unfold move. destruct (Nat.leb_spec (fst (relevant N F C me r)) (view r)); [lia|]. do 2 eexists. split; [reflexivity|]. cbn. repeat split; lia.
Qed.
Lemma ofPrimary_mono g m r : exists r' l, ofPrimary N g m r = Some (r', l) /\ view r <= view r' /\ vcs r' = vcs r /\ pending r' = pending r.
Proof.
  unfold ofPrimary. destruct (_ && _); [|exists r, []; repeat split; auto]. unfold move. destruct (Nat.leb_spec (S (view r)) (view r)); [lia|]. do 2 eexists. split; [reflexivity|]. cbn. repeat split; lia.
Qed.
Lemma okList_carries bad A v l : okList N bad A v l -> quorum F l = true -> carries F (mkVc (S v) (sorted l)).
Proof.
  intros O Q. assert (P := sorted_perm l). apply (okList_perm N bad A v l (sorted l)) in O as [H1 H2]; [|symmetry; exact P].
  split; [exact H1|]. cbn. split; [rewrite (Permutation_length P); apply Nat.leb_le; exact Q|]. intros c Hc. destruct (H2 c Hc) as [(G & _) <-]. auto.
Qed.

Lemma try_carries bad A S i r V r' l : K N bad V A S i r -> try F r = Some (r', l) -> quorum F (comps r) = true -> exists m, l = [m] /\ carries F m /\ v_new m = view r' /\ view r' = Datatypes.S (view r).
Proof.
  intros (_ & O & _) E Q. unfold try in E. rewrite Q in E. unfold move in E. destruct (_ <=? _); [discriminate|]. injection E as <- <-. eexists. split; [reflexivity|].
  split; [|cbn; auto]. eapply okList_carries; eauto.
Qed.
Lemma onVc_carries bad V A Sn i g r m : K N bad V A Sn i r -> (forall c, In c (v_comps m) -> c_ok c = true -> gen N bad A c) -> carries F m -> ignored N g m r = false -> view r < v_new m -> quorum F (comps r) = false ->
  exists r' l, onVc N F C i g m r = Some (r', l) /\ v_new m <= view r' /\ exists m', In m' l /\ carries F m' /\ v_new m' = v_new m.
Proof.
  intros Kr Hg (C1 & C2 & C3) Hi Hv Hq. unfold onVc. rewrite Hi. cbv zeta.
  assert (Pk := process_ok N F bad A (view r) (v_new m) (v_comps m) 0 (comps r) [] Hg).
  change (view (addVc g m r)) with (view r). change (comps (addVc g m r)) with (comps r).
  assert (J : let '(cs, hs) := process F (view r) (v_new m) 0 (v_comps m) (comps r) [] in exists r1 m1, jump F m hs (withComps cs (addVc g m r)) = Some (r1, [m1]) /\ carries F m1 /\ v_new m1 = v_new m /\ view r1 = v_new m).
  { destruct (Nat.eq_dec (v_new m) (S (view r))) as [E|E].
    - assert (Q := process_next (view r) (v_comps m) 0 (comps r) [] C1 (incl_nil_l _) eq_refl). rewrite E in *.
      destruct (process F (view r) (S (view r)) 0 (v_comps m) (comps r) []) as [cs hs]. cbn [fst] in Q. unfold jump. cbn [comps withComps view addVc].
      rewrite Q; [|intros c Hc; destruct (C3 c Hc); split; auto; lia|lia]. unfold move. cbn [view withComps addVc]. destruct (Nat.leb_spec (S (view r)) (view r)); [lia|]. do 2 eexists. split; [reflexivity|]. cbn [comps withComps].
      split; [|cbn; auto]. destruct Pk as (O & _); [apply Kr|split; [constructor|intros c []]|auto|]. eapply okList_carries; eauto. apply Q; [intros c Hc; destruct (C3 c Hc); split; auto; lia|lia].
    - assert (Q := process_far (view r) (v_new m) ltac:(lia) (v_comps m) 0 (comps r) [] [] Hq C1 (incl_nil_l _) eq_refl C3 ltac:(lia)).
      destruct (process F (view r) (v_new m) 0 (v_comps m) (comps r) []) as [cs hs]. cbn [fst snd] in Q. destruct Q as [-> Q]. unfold jump. cbn [comps withComps view addVc]. rewrite Hq, Q.
      destruct (Nat.leb_spec (v_new m) (S (view r))); [lia|]. unfold move. cbn [view withComps addVc]. destruct (Nat.leb_spec (v_new m) (view r)); [lia|]. do 2 eexists. split; [reflexivity|]. cbn [comps withComps].
      split; [|cbn; auto]. destruct Pk as (_ & O & _); [apply Kr|split; [constructor|intros c []]|auto|].
      assert (X := okList_carries bad A (pred (v_new m)) hs O Q). replace (S (pred (v_new m))) with (v_new m) in X by lia. exact X. }
  destruct (process F (view r) (v_new m) 0 (v_comps m) (comps r) []) as [cs hs]. destruct J as (r1 & m1 & J1 & J2 & J3 & J4). rewrite J1.
  destruct (ofPrimary_mono g m r1) as (r2 & l2 & P1 & P2 & _). unfold andThen, bind. rewrite P1. destruct (known_mono i r2) as (r3 & l3 & Q1 & Q2 & _). rewrite Q1.
  do 2 eexists. split; [reflexivity|]. split; [lia|]. exists m1. split; [left; reflexivity|auto].
Qed.

(** * Complaints for the current view. *)
Fixpoint deliver (l : list complaint) (r : rep) : option (rep * list vc) := match l with [] => stay r | c :: t => andThen (onComplaint F c r) (deliver t) end.
Lemma deliver_old : forall l r, (forall c, In c l -> c_view c < view r) -> deliver l r = Some (r, []).
Proof.
  induction l as [|c l IH]; intros r H; cbn; [reflexivity|]. assert (Hc := H c (or_introl eq_refl)). unfold onComplaint. destruct (Nat.eqb_spec (c_view c) (view r)); [lia|].
  unfold andThen, bind, stay. rewrite IH; [reflexivity|]. intros; apply H; right; auto.
Qed.
Lemma deliver_moves : forall l r P, NoDup (P ++ map c_gen l) -> incl P (map c_gen (comps r)) -> l <> [] -> F + 1 <= length P + length l -> (forall c, In c l -> c_view c = view r) ->
  exists r' m, deliver l r = Some (r', [m]) /\ view r' = S (view r) /\ v_new m = S (view r).
Proof.
  induction l as [|c l IH]; intros r P ND Ip Ne Hn Hv; [contradiction|]. cbn [deliver]. unfold onComplaint. rewrite (Hv c (or_introl eq_refl)), Nat.eqb_refl. unfold try. cbn [comps withComps view].
  destruct (quorum F (store c (comps r))) eqn:Q.
  - unfold move. cbn [view withComps]. destruct (Nat.leb_spec (S (view r)) (view r)); [lia|]. unfold andThen, bind. rewrite deliver_old; [do 2 eexists; split; [reflexivity|]; cbn; auto|].
    cbn. intros d Hd. rewrite (Hv d (or_intror Hd)). lia.
  - assert (Ip' : incl (P ++ [c_gen c]) (map c_gen (store c (comps r)))). { intros x Hx. apply in_app_or in Hx as [Hx|[<-|[]]]; [apply store_incl; auto|apply store_in]. }
    assert (ND' : NoDup ((P ++ [c_gen c]) ++ map c_gen l)) by (rewrite <- app_assoc; exact ND).
    destruct l as [|d l].
    + exfalso. rewrite (quorum_of (P ++ [c_gen c])) in Q; [discriminate| |exact Ip'|rewrite app_length; cbn in *; lia]. apply (nodup_app_l _ _ ND').
    + unfold andThen, bind, stay. destruct (IH (withComps (store c (comps r)) r) (P ++ [c_gen c])) as (r' & m & E1 & E2 & E3); auto; [discriminate|rewrite app_length; cbn in *; lia|intros; apply Hv; right; auto|].
      rewrite E1. exists r', m. cbn. auto.
Qed.

(** * F + 1 view change messages for a view. *)
Lemma jump_mono m hs r : exists x, jump F m hs r = x /\ match x with None => True | Some (r', _) => view r <= view r' /\ vcs r' = vcs r /\ pending r' = pending r end.
Proof.
  eexists. split; [reflexivity|]. unfold jump. destruct (quorum F (comps r)).
  - unfold move. destruct (Nat.leb_spec (S (view r)) (view r)); auto. cbn. repeat split; lia.
  - destruct (quorum F hs); [|cbn; auto]. destruct (_ <=? _); auto. unfold move. cbn [view withComps]. destruct (Nat.leb_spec (v_new m) (view r)); auto. cbn. repeat split; lia.
Qed.
Lemma asks_held me r w L : NoDup L -> (forall g, In g L -> g < N /\ g <> me /\ exists m, vcs r g = Some m /\ w <= v_new m) -> length L <= asks w (present (held N me r)).
Proof.
  intros ND HL. unfold asks. set (q := filter _ _). rewrite <- (map_length vc_from q). apply NoDup_incl_length; auto. intros g Hg. destruct (HL g Hg) as (H1 & H2 & m & H3 & H4).
  apply in_map_iff. exists (mkVC g (v_new m) 0 []). split; [reflexivity|]. apply filter_In. split; [|cbn; apply Nat.leb_le; exact H4].
  unfold held. apply present_map. exists g. split; [apply in_seq; lia|]. destruct (Nat.eqb_spec g me); [contradiction|]. rewrite H3. reflexivity.
Qed.
Lemma onVc_follows me g m r r' l w L : pending r <= view r -> ignored N g m r = false -> onVc N F C me g m r = Some (r', l) -> NoDup L -> F + 1 <= length L ->
  (forall x, In x L -> x < N /\ x <> me /\ exists p, vcs r' x = Some p /\ w <= v_new p) -> w <= view r'.
Proof.
  intros Hp Hi E ND Hn HL. unfold onVc in E. rewrite Hi in E. cbv zeta in E. destruct (process _ _ _ _ _ _ _) as [cs hs]. unfold andThen, bind in E.
  destruct (jump_mono m hs (withComps cs (addVc g m r))) as (x & Ex & Hx). rewrite Ex in E. destruct x as [[r1 l1]|]; [|discriminate]. destruct Hx as (X1 & X2 & X3). cbn in X1, X3.
  destruct (ofPrimary_mono g m r1) as (r2 & l2 & P1 & P2 & P3 & P4). rewrite P1 in E. destruct (known_mono me r2) as (r3 & l3 & Q1 & Q2 & Q3 & Q4 & Q5). rewrite Q1 in E. injection E as <- _.
  rewrite Q3 in HL. assert (A := asks_held me r2 w L ND HL). assert (X := relevantViews_spec F C (pending r2) (held N me r2)). fold (relevant N F C me r2) in X.
  destruct (relevant N F C me r2) as [vcn va]. cbn [fst] in *. destruct X as (_ & _ & X & _). destruct (Nat.le_gt_cases w (view r3)) as [|Hw]; auto. specialize (X w ltac:(lia)). lia.
Qed.
End Travel.
