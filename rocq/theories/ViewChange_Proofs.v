From Coq Require Import List Arith Lia Bool Permutation.
From Verif Require Import Lib_Sets Quorum_Model ViewChange_Model.
Import ListNotations.

(** ** Sorting *)
Definition geCount (x : nat) (l : list nat) := length (filter (fun y => x <=? y) l).
Definition gtCount (x : nat) (l : list nat) := length (filter (fun y => x <? y) l).

Inductive desc : list nat -> Prop :=
| desc_nil : desc []
| desc_cons x l : (forall y, In y l -> y <= x) -> desc l -> desc (x :: l).

Lemma insertDesc_perm x l : Permutation (x :: l) (insertDesc x l).
Proof.
  induction l as [|y l IH]; simpl; [constructor; constructor|].
  destruct (y <=? x); [apply Permutation_refl|].
  eapply perm_trans; [apply perm_swap|]. apply perm_skip. exact IH.
Qed.
Lemma insertDesc_In x y l : In y (insertDesc x l) <-> y = x \/ In y l.
Proof.
  split; intros H.
  - apply (Permutation_in y (Permutation_sym (insertDesc_perm x l))) in H. simpl in H. destruct H; auto.
  - apply (Permutation_in y (insertDesc_perm x l)). simpl. destruct H; auto.
Qed.
Lemma insertDesc_desc x l : desc l -> desc (insertDesc x l).
Proof.
  induction 1 as [|y l Hy Hl IH]; simpl; [constructor; [simpl; tauto | constructor]|].
  destruct (Nat.leb_spec y x) as [H|H].
  - constructor; [|constructor; assumption]. intros z [->|Hz]; [exact H|]. specialize (Hy z Hz). lia.
  - constructor; [|exact IH]. intros z Hz. apply insertDesc_In in Hz. destruct Hz as [->|Hz]; [lia | auto].
Qed.
Lemma sortDesc_perm l : Permutation l (sortDesc l).
Proof.
  induction l as [|x l IH]; simpl; [constructor|].
  eapply perm_trans; [apply perm_skip, IH | apply insertDesc_perm].
Qed.
Lemma sortDesc_desc l : desc (sortDesc l).
Proof. induction l; simpl; [constructor | apply insertDesc_desc; assumption]. Qed.

Lemma Permutation_filter {T} (p : T -> bool) l l' : Permutation l l' -> Permutation (filter p l) (filter p l').
Proof.
  induction 1 as [|x l l' H IH|x y l|l l' l'' H1 IH1 H2 IH2]; simpl.
  - constructor.
  - destruct (p x); [apply perm_skip|]; exact IH.
  - destruct (p x), (p y); try apply Permutation_refl. apply perm_swap.
  - eapply perm_trans; eassumption.
Qed.

Lemma geCount_perm x l l' : Permutation l l' -> geCount x l = geCount x l'.
Proof. intros H. apply Permutation_length, Permutation_filter, H. Qed.
Lemma gtCount_perm x l l' : Permutation l l' -> gtCount x l = gtCount x l'.
Proof. intros H. apply Permutation_length, Permutation_filter, H. Qed.

Lemma desc_nth l k x : desc l -> nth_error l k = Some x -> k + 1 <= geCount x l /\ gtCount x l <= k.
Proof.
  intros H. revert k. induction H as [|y l Hy Hl IH]; intros k Hk; [destruct k; discriminate|].
  unfold geCount, gtCount in *. destruct k as [|k]; simpl in Hk.
  - injection Hk as ->. simpl. rewrite (proj2 (Nat.leb_le x x)) by lia.
    rewrite (proj2 (Nat.ltb_ge x x)) by lia. simpl.
    assert (E : filter (fun y => x <? y) l = []).
    { clear IH Hl. induction l as [|z l IHl]; simpl; [reflexivity|].
      assert (z <= x) by (apply Hy; left; reflexivity). rewrite (proj2 (Nat.ltb_ge x z)) by lia.
      apply IHl. intros w Hw. apply Hy. right. exact Hw. }
    rewrite E. simpl. lia.
  - destruct (IH k Hk) as [A B]. assert (x <= y) by (apply Hy; eapply nth_error_In; exact Hk).
    simpl. rewrite (proj2 (Nat.leb_le x y)) by lia. simpl. destruct (x <? y); simpl; lia.
Qed.

Lemma sortDesc_nth l k x : nth_error (sortDesc l) k = Some x -> k + 1 <= geCount x l /\ gtCount x l <= k /\ In x l.
Proof.
  intros H. pose proof (desc_nth _ _ _ (sortDesc_desc l) H) as [A B].
  rewrite <- (geCount_perm _ _ _ (sortDesc_perm l)) in A. rewrite <- (gtCount_perm _ _ _ (sortDesc_perm l)) in B.
  split; [exact A|split; [exact B|]]. eapply Permutation_in; [apply Permutation_sym, sortDesc_perm | eapply nth_error_In; exact H].
Qed.
Lemma sortDesc_length l : length (sortDesc l) = length l.
Proof. symmetry. apply Permutation_length, sortDesc_perm. Qed.

Lemma filter_map_length {A B} (g : A -> B) (p : B -> bool) l : length (filter p (map g l)) = length (filter (fun x => p (g x)) l).
Proof. induction l as [|x l IH]; simpl; [reflexivity|]. destruct (p (g x)); simpl; congruence. Qed.

(** ** calcLB *)
Lemma calcLB_spec F C a x : calcLB F C a = Some x ->
  length (present a) = 2 * F + 2 * C + 1 /\
  F + 1 <= geReports x (present a) /\ gtReports x (present a) <= F /\ In x (map vc_ls (present a)) /\
  exists v, forall m, In m (present a) -> vc_view m = v.
Proof.
  unfold calcLB. destruct (present a) as [|m0 ms] eqn:E; [discriminate|].
  destruct (forallb _ _ && _) eqn:G; [|discriminate]. apply andb_true_iff in G. destruct G as [G1 G2].
  intros H. apply sortDesc_nth in H. destruct H as (A & B & I). unfold geCount, gtCount in *.
  rewrite filter_map_length in A, B. apply Nat.eqb_eq in G2.
  split; [exact G2|]. split; [exact A|]. split; [exact B|]. split; [exact I|].
  exists (vc_view m0). intros m Hm. rewrite forallb_forall in G1. apply Nat.eqb_eq, G1, Hm.
Qed.

Lemma calcLB_total F C a : length (present a) = 2 * F + 2 * C + 1 ->
  (exists v, forall m, In m (present a) -> vc_view m = v) -> exists x, calcLB F C a = Some x.
Proof.
  intros L [v Hv]. unfold calcLB. destruct (present a) as [|m0 ms] eqn:E; [simpl in L; lia|].
  assert (G : forallb (fun m => vc_view m =? vc_view m0) (m0 :: ms) = true).
  { apply forallb_forall. intros m Hm. apply Nat.eqb_eq. rewrite (Hv m Hm), (Hv m0); [reflexivity | left; reflexivity]. }
  rewrite G, (proj2 (Nat.eqb_eq _ _) L). cbn [andb].
  destruct (nth_error (sortDesc (map vc_ls (m0 :: ms))) F) as [x|] eqn:N; [exists x; reflexivity|].
  apply nth_error_None in N. rewrite sortDesc_length, map_length in N. lia.
Qed.

Lemma pigeon_outside {T} (g : T -> nat) (ms : list T) (Z : list nat) :
  NoDup (map g ms) -> length Z < length ms -> exists m, In m ms /\ ~ In (g m) Z.
Proof.
  intros ND L. pose proof (minus_length (map g ms) Z ND) as H. rewrite map_length in H.
  destruct (length_pos_In (minus (map g ms) Z)) as [i Hi]; [lia|]. apply minus_In in Hi. destruct Hi as [Hi Hz].
  apply in_map_iff in Hi. destruct Hi as (m & <- & Hm). exists m. tauto.
Qed.

Lemma NoDup_map_filter {T} (g : T -> nat) (p : T -> bool) ms : NoDup (map g ms) -> NoDup (map g (filter p ms)).
Proof.
  induction ms as [|m ms IH]; simpl; [constructor|]. intros H. inversion H as [|y l Hn Hl]; subst.
  destruct (p m); simpl; [|auto]. constructor; [|auto].
  intros Hc. apply Hn. apply in_map_iff in Hc. destruct Hc as (m' & E & Hm). apply filter_In in Hm. rewrite <- E. apply in_map. tauto.
Qed.

Lemma calcLB_honest F C a x Z : calcLB F C a = Some x -> NoDup (map vc_from (present a)) -> length Z <= F ->
  exists m, In m (present a) /\ ~ In (vc_from m) Z /\ x <= vc_ls m.
Proof.
  intros H ND LZ. apply calcLB_spec in H. destruct H as (_ & G & _). unfold geReports in G.
  destruct (pigeon_outside vc_from (filter (fun m => x <=? vc_ls m) (present a)) Z) as (m & Hm & Hz);
    [apply NoDup_map_filter, ND | lia|].
  apply filter_In in Hm. destruct Hm as [Hm Hx]. apply Nat.leb_le in Hx. exists m. tauto.
Qed.

(** ** relevantViews *)
Lemma geCount_filter v p l : p < v -> geCount v (filter (fun y => p <? y) l) = geCount v l.
Proof.
  intros H. unfold geCount. induction l as [|y l IH]; simpl; [reflexivity|].
  destruct (Nat.ltb_spec p y); simpl; destruct (Nat.leb_spec v y); simpl; lia.
Qed.
Lemma gtCount_filter v p l : p <= v -> gtCount v (filter (fun y => p <? y) l) = gtCount v l.
Proof.
  intros H. unfold gtCount. induction l as [|y l IH]; simpl; [reflexivity|].
  destruct (Nat.ltb_spec p y); simpl; destruct (Nat.ltb_spec v y); simpl; lia.
Qed.

Lemma relevantViews_spec F C p a :
  let '(vc, va) := relevantViews F C p a in
  (vc = p \/ (p < vc /\ F + 1 <= asks vc (present a))) /\
  (va = p \/ (p < va /\ 2 * F + 2 * C + 1 <= asks va (present a))) /\
  (forall v, vc < v -> asks v (present a) <= F) /\
  (forall v, va < v -> asks v (present a) <= 2 * F + 2 * C) /\ va <= vc.
Proof.
  unfold relevantViews.
  set (vs := map vc_view (present a)). set (fs := filter (fun v => p <? v) vs).
  assert (EA : forall v, asks v (present a) = geCount v vs).
  { intros v. unfold asks, geCount, vs. rewrite filter_map_length. reflexivity. }
  assert (MONO : forall v w, v <= w -> geCount w vs <= geCount v vs).
  { intros v w H. apply filter_length_mono. intros y _ Hy. apply Nat.leb_le in Hy. apply Nat.leb_le. lia. }
  assert (GTGE : forall v w, v < w -> geCount w vs <= gtCount v vs).
  { intros v w H. apply filter_length_mono. intros y _ Hy. apply Nat.leb_le in Hy. apply Nat.ltb_lt. lia. }
  assert (LEN : length fs = gtCount p vs) by reflexivity.
  assert (NTH : forall k, k < length fs -> exists x, nth_error (sortDesc fs) k = Some x /\ nth k (sortDesc fs) 0 = x
                /\ k + 1 <= geCount x vs /\ gtCount x vs <= k /\ p < x).
  { intros k Hk. destruct (nth_error (sortDesc fs) k) as [x|] eqn:E.
    - exists x. split; [reflexivity|]. split; [apply nth_error_nth; exact E|].
      apply sortDesc_nth in E. destruct E as (A & B & I). unfold fs in I. apply filter_In in I. destruct I as [_ I].
      apply Nat.ltb_lt in I. unfold fs in A, B. rewrite geCount_filter in A by lia. rewrite gtCount_filter in B by lia. auto.
    - apply nth_error_None in E. rewrite sortDesc_length in E. lia. }
  destruct (Nat.ltb_spec (length fs) (F + 1)) as [H1|H1].
  - split; [left; reflexivity | split; [left; reflexivity | split; [|split; [|lia]]]]; intros v Hv; rewrite EA; pose proof (GTGE p v Hv); lia.
  - destruct (NTH F ltac:(lia)) as (x & _ & Ex & A & B & Px).
    replace (F + 1 - 1) with F by lia. rewrite Ex.
    destruct (Nat.ltb_spec (length fs) (2 * F + 2 * C + 1)) as [H2|H2].
    + split; [|split; [|split; [|split]]].
      * right. rewrite EA. lia.
      * left. reflexivity.
      * intros v Hv. rewrite EA. pose proof (GTGE x v Hv). lia.
      * intros v Hv. rewrite EA. pose proof (GTGE p v Hv). lia.
      * lia.
    + destruct (NTH (2 * F + 2 * C) ltac:(lia)) as (y & _ & Ey & A2 & B2 & Py).
      replace (2 * F + 2 * C + 1 - 1) with (2 * F + 2 * C) by lia. rewrite Ey.
      split; [|split; [|split; [|split]]].
      * right. rewrite EA. lia.
      * right. rewrite EA. lia.
      * intros v Hv. rewrite EA. pose proof (GTGE x v Hv). lia.
      * intros v Hv. rewrite EA. pose proof (GTGE y v Hv). lia.
      * destruct (Nat.le_gt_cases y x) as [H|H]; [exact H|]. pose proof (GTGE x y H). lia.
Qed.

Lemma relevantViews_honest F C p a Z : NoDup (map vc_from (present a)) -> length Z <= F ->
  let '(vc, va) := relevantViews F C p a in
  (p < vc -> exists m, In m (present a) /\ ~ In (vc_from m) Z /\ vc <= vc_view m) /\
  (p < va -> exists m, In m (present a) /\ ~ In (vc_from m) Z /\ va <= vc_view m).
Proof.
  intros ND LZ. pose proof (relevantViews_spec F C p a) as H. destruct (relevantViews F C p a) as [vc va].
  destruct H as (H1 & H2 & _).
  assert (K : forall v, F + 1 <= asks v (present a) -> exists m, In m (present a) /\ ~ In (vc_from m) Z /\ v <= vc_view m).
  { intros v Hv. destruct (pigeon_outside vc_from (filter (fun m => v <=? vc_view m) (present a)) Z) as (m & Hm & Hz);
      [apply NoDup_map_filter, ND | unfold asks in Hv; lia|].
    apply filter_In in Hm. destruct Hm as [Hm Hx]. apply Nat.leb_le in Hx. exists m. tauto. }
  split; intros Hp; apply K; lia.
Qed.

(** ** computeRestrictions *)
Definition A (t : nat) (l : list elem) := filter (fun e => e_seq e =? t) l.

Lemma A_app t l1 l2 : A t (l1 ++ l2) = A t l1 ++ A t l2.
Proof. apply filter_app. Qed.

Lemma increasing_weaken lo lo' l : lo' <= lo -> increasing lo l -> increasing lo' l.
Proof. destruct l; simpl; [tauto|]. intros ? [? ?]; split; [lia|assumption]. Qed.

Lemma increasing_all lo l : increasing lo l -> forall e, In e l -> lo < e_seq e.
Proof.
  revert lo. induction l as [|x l IH]; simpl; [tauto|]. intros lo [H1 H2] e [<-|He]; [exact H1|].
  specialize (IH _ H2 e He). lia.
Qed.

Definition incr (it : list elem) := match it with [] => True | e :: r => increasing (e_seq e) r end.
Definition Good (s : nat) (it : list elem) := it <> [] /\ incr it /\ forall e, In e it -> s <= e_seq e.

Lemma A_none t l : (forall e, In e l -> e_seq e <> t) -> A t l = [].
Proof.
  induction l as [|e l IH]; simpl; [reflexivity|]. intros H.
  rewrite (proj2 (Nat.eqb_neq _ _) (H e (or_introl eq_refl))). apply IH. intros e' He. apply H. right. exact He.
Qed.

Lemma goToAtLeast_ok lo lb it : increasing lo it ->
  incr (goToAtLeast lb it) /\ (forall e, In e (goToAtLeast lb it) -> lb <= e_seq e) /\
  forall t, lb <= t -> A t (goToAtLeast lb it) = A t it.
Proof.
  revert lo. induction it as [|e it IH]; simpl; intros lo H.
  - repeat split; tauto.
  - destruct H as [H1 H2]. destruct (Nat.ltb_spec (e_seq e) lb) as [Hlt|Hge].
    + destruct (IH _ H2) as (I1 & I2 & I3). split; [exact I1|]. split; [exact I2|]. intros t Ht.
      rewrite (I3 t Ht). rewrite (proj2 (Nat.eqb_neq _ _)) by lia. reflexivity.
    + split; [exact H2|]. split; [|reflexivity]. intros e' [<-|He]; [exact Hge|].
      pose proof (increasing_all _ _ H2 e' He). lia.
Qed.

Definition heads (its : list (list elem)) : list elem := flat_map (fun it => match it with [] => [] | e :: _ => [e] end) its.

Lemma currents_ok s its : Forall (Good s) its -> currents s its = Some (heads its).
Proof.
  induction 1 as [|it its H Hs IH]; simpl; [reflexivity|]. destruct it as [|e it]; [destruct H; congruence|].
  rewrite (proj2 (Nat.leb_le s (e_seq e))) by (apply H; left; reflexivity). rewrite IH. reflexivity.
Qed.

Lemma A_concat_heads s its : Forall (Good s) its -> A s (concat its) = A s (heads its).
Proof.
  induction 1 as [|it its H Hs IH]; simpl; [reflexivity|]. rewrite A_app, IH.
  destruct it as [|e it]; [destruct H; congruence|]. simpl. destruct H as (_ & Hi & Hge). simpl in Hi.
  rewrite (A_none s it); [destruct (e_seq e =? s); reflexivity|].
  intros e' He. pose proof (increasing_all _ _ Hi e' He). specialize (Hge e (or_introl eq_refl)). lia.
Qed.

(** Fast counters. *)
Definition cntV (w d : nat) (l : list elem) := length (filter (fun e => (e_dig e =? d) && (w <=? e_origin e)) l).

Fixpoint look (m : list (nat * nat)) (d : nat) : nat :=
  match m with [] => 0 | (d', k) :: r => if d =? d' then k else look r d end.

Lemma bump_spec d m :
  match bump d m with
  | None => look m d = 0
  | Some (k, m') => k = S (look m d) /\ forall d', look m' d' = if d' =? d then k else look m d'
  end.
Proof.
  induction m as [|[d0 k0] m IH]; simpl; [reflexivity|].
  destruct (Nat.eqb_spec d d0) as [->|Hne].
  - split; [reflexivity|]. intros d'. simpl. destruct (Nat.eqb_spec d' d0); reflexivity.
  - destruct (bump d m) as [[k m']|].
    + destruct IH as [IH1 IH2]. split; [exact IH1|]. intros d'. simpl. rewrite IH2.
      destruct (Nat.eqb_spec d' d0), (Nat.eqb_spec d' d); subst; congruence.
    + exact IH.
Qed.

Lemma fastLoop_filter q s w cur m : fastLoop q s w cur m = fastLoop q s w (A s cur) m.
Proof.
  revert m. induction cur as [|e cur IH]; simpl; intros m; [reflexivity|].
  destruct (Nat.eqb_spec (e_seq e) s) as [E|E]; cbn [andb].
  - simpl. rewrite (proj2 (Nat.eqb_eq _ _) E). cbn [andb]. destruct (w <=? e_origin e); [|apply IH].
    destruct (bump (e_dig e) m) as [[k m']|]; [|apply IH]. destruct (k =? q); [reflexivity | apply IH].
  - apply IH.
Qed.

Lemma fastLoop_spec q s w l : 2 <= q -> (forall e, In e l -> e_seq e = s) -> forall m, (forall d, look m d < q) ->
  match fastLoop q s w l m with
  | Some d => q <= look m d + cntV w d l
  | None => forall d, look m d + cntV w d l < q
  end.
Proof.
  intros Hq. induction l as [|e l IH]; intros Hs m Hm; simpl.
  - intros d. unfold cntV. simpl. specialize (Hm d). lia.
  - rewrite (proj2 (Nat.eqb_eq _ _) (Hs e (or_introl eq_refl))). cbn [andb].
    assert (Hs' : forall e, In e l -> e_seq e = s) by (intros e' He; apply Hs; right; exact He).
    unfold cntV in *. simpl.
    destruct (w <=? e_origin e) eqn:Ew.
    + pose proof (bump_spec (e_dig e) m) as B. destruct (bump (e_dig e) m) as [[k m']|].
      * destruct B as [B1 B2]. destruct (Nat.eqb_spec k q) as [Hk|Hk].
        { rewrite Nat.eqb_refl. cbn [andb]. simpl. lia. }
        { assert (Hm' : forall d, look m' d < q).
          { intros d. rewrite B2. specialize (Hm d). destruct (Nat.eqb_spec d (e_dig e)) as [Ed|]; [|lia].
            rewrite Ed in Hm. lia. }
          specialize (IH Hs' m' Hm'). destruct (fastLoop q s w l m') as [d|].
          - rewrite B2 in IH. destruct (Nat.eqb_spec d (e_dig e)) as [->|Hne].
            + rewrite Nat.eqb_refl. cbn [andb]. simpl. lia.
            + rewrite (proj2 (Nat.eqb_neq (e_dig e) d)) by congruence. cbn [andb]. exact IH.
          - intros d. specialize (IH d). rewrite B2 in IH. destruct (Nat.eqb_spec d (e_dig e)) as [->|Hne].
            + rewrite Nat.eqb_refl. cbn [andb]. simpl. lia.
            + rewrite (proj2 (Nat.eqb_neq (e_dig e) d)) by congruence. cbn [andb]. exact IH. }
      * assert (Hm' : forall d, look ((e_dig e, 1) :: m) d < q).
        { intros d. simpl. destruct (d =? e_dig e); [lia | apply Hm]. }
        specialize (IH Hs' _ Hm'). destruct (fastLoop q s w l ((e_dig e, 1) :: m)) as [d|].
        { simpl in IH. destruct (Nat.eqb_spec d (e_dig e)) as [Ed|Hne].
          - rewrite <- Ed, Nat.eqb_refl. cbn [andb]. simpl. rewrite <- Ed in B. lia.
          - rewrite (proj2 (Nat.eqb_neq (e_dig e) d)) by congruence. cbn [andb]. exact IH. }
        { intros d. specialize (IH d). simpl in IH. destruct (Nat.eqb_spec d (e_dig e)) as [Ed|Hne].
          - rewrite <- Ed, Nat.eqb_refl. cbn [andb]. simpl. rewrite <- Ed in B. lia.
          - rewrite (proj2 (Nat.eqb_neq (e_dig e) d)) by congruence. cbn [andb]. exact IH. }
    + assert (E : forall d, (e_dig e =? d) && false = false) by (intros; apply andb_false_r).
      specialize (IH Hs' m Hm). destruct (fastLoop q s w l m) as [d|].
      * rewrite E. exact IH.
      * intros d. rewrite E. apply IH.
Qed.

(** Slow certificates. *)
Notation slow := ((nat * nat) * bool)%type.
Inductive sset : list slow -> Prop :=
| sset_nil : sset []
| sset_cons x l : (forall y, In y l -> slowLess (fst x) (fst y) = true) -> sset l -> sset (x :: l).

Lemma slowLess_spec a b : slowLess a b = true <-> fst b < fst a \/ (fst a = fst b /\ snd a < snd b).
Proof. unfold slowLess. rewrite orb_true_iff, andb_true_iff, Nat.eqb_eq, !Nat.ltb_lt. tauto. Qed.
Lemma slowLess_spec_f a b : slowLess a b = false <-> ~ (fst b < fst a \/ (fst a = fst b /\ snd a < snd b)).
Proof. rewrite <- slowLess_spec. destruct (slowLess a b); split; congruence. Qed.

Lemma setInsert_In x l y : In y (setInsert x l) -> y = x \/ In y l.
Proof.
  induction l as [|z l IH]; simpl; [intros [<-|[]]; auto|].
  destruct (slowLess (fst x) (fst z)); [simpl; intros [<-|H]; auto|].
  destruct (slowLess (fst z) (fst x)); [|simpl; auto].
  simpl. intros [<-|H]; [auto|]. destruct (IH H); auto.
Qed.
Lemma setInsert_keep x l y : In y l -> In y (setInsert x l).
Proof.
  induction l as [|z l IH]; simpl; [tauto|].
  destruct (slowLess (fst x) (fst z)); [simpl; tauto|].
  destruct (slowLess (fst z) (fst x)); [|simpl; auto]. simpl. intros [<-|H]; [auto|]. right. apply IH. exact H.
Qed.
Lemma slowLess_eq a b : slowLess a b = false -> slowLess b a = false -> a = b.
Proof.
  rewrite !slowLess_spec_f. destruct a as [a1 a2], b as [b1 b2]; simpl. intros H1 H2.
  assert (a1 = b1) by lia. assert (a2 = b2) by lia. congruence.
Qed.
Lemma setInsert_has x l : exists ok, In (fst x, ok) (setInsert x l).
Proof.
  induction l as [|z l IH]; simpl; [exists (snd x); left; destruct x; reflexivity|].
  destruct (slowLess (fst x) (fst z)) eqn:E1; [exists (snd x); left; destruct x; reflexivity|].
  destruct (slowLess (fst z) (fst x)) eqn:E2.
  - destruct IH as [ok H]. exists ok. right. exact H.
  - exists (snd z). left. rewrite (slowLess_eq _ _ E1 E2). destruct z; reflexivity.
Qed.
Lemma setInsert_sset x l : sset l -> sset (setInsert x l).
Proof.
  induction 1 as [|z l Hz Hl IH]; simpl; [constructor; [simpl; tauto | constructor]|].
  destruct (slowLess (fst x) (fst z)) eqn:E1.
  - constructor; [|constructor; assumption]. intros y [<-|Hy]; [exact E1|].
    specialize (Hz y Hy). rewrite slowLess_spec in *. lia.
  - destruct (slowLess (fst z) (fst x)) eqn:E2; [|constructor; assumption].
    constructor; [|exact IH]. intros y Hy. apply setInsert_In in Hy. destruct Hy as [->|Hy]; auto.
Qed.

Lemma collectSlow_spec s cur : forall acc, sset acc ->
  sset (collectSlow s cur acc) /\
  (forall y, In y acc -> In y (collectSlow s cur acc)) /\
  (forall v d ok, In ((v, d), ok) (collectSlow s cur acc) ->
     In ((v, d), ok) acc \/ exists e, In e (A s cur) /\ e_dig e = d /\ e_cert e = Some (v, ok)) /\
  (forall e v ok, In e (A s cur) -> e_cert e = Some (v, ok) -> exists ok', In ((v, e_dig e), ok') (collectSlow s cur acc)).
Proof.
  induction cur as [|e cur IH]; simpl; intros acc Hacc.
  - repeat split; auto. intros e v ok [].
  - destruct (e_seq e =? s) eqn:Es.
    + destruct (e_cert e) as [[v ok]|] eqn:Ec.
      * destruct (IH (setInsert ((v, e_dig e), ok) acc) (setInsert_sset _ _ Hacc)) as (I1 & I2 & I3 & I4).
        split; [exact I1|]. split; [|split].
        { intros y Hy. apply I2, setInsert_keep, Hy. }
        { intros v' d' ok' H. apply I3 in H. destruct H as [H|(e' & He & H)].
          - apply setInsert_In in H. destruct H as [H|H]; [|auto]. injection H as -> -> ->. right. exists e. simpl. auto.
          - right. exists e'. simpl. auto. }
        { intros e' v' ok' [<-|He] Hc.
          - rewrite Ec in Hc. injection Hc as <- <-. destruct (setInsert_has ((v, e_dig e), ok) acc) as [ok' H]. exists ok'. apply I2, H.
          - eapply I4; eassumption. }
      * destruct (IH acc Hacc) as (I1 & I2 & I3 & I4). split; [exact I1|]. split; [exact I2|]. split.
        { intros v' d' ok' H. apply I3 in H. destruct H as [H|(e' & He & H)]; [auto|]. right. exists e'. simpl. auto. }
        { intros e' v' ok' [<-|He] Hc; [congruence|]. eapply I4; eassumption. }
    + destruct (IH acc Hacc) as (I1 & I2 & I3 & I4). split; [exact I1|]. split; [exact I2|]. split; [|exact I4].
      intros v' d' ok' H. apply I3 in H. destruct H as [H|(e' & He & H)]; [auto|]. right. exists e'. auto.
Qed.

Lemma select_spec l : sset l ->
  match selectSlow l with
  | Some (v, d) => In ((v, d), true) l /\ forall v' d', In ((v', d'), true) l -> v' < v \/ (v' = v /\ d <= d')
  | None => forall v d, ~ In ((v, d), true) l
  end.
Proof.
  unfold selectSlow. induction 1 as [|x l Hx Hl IH]; simpl; [intros v d []|].
  destruct x as [[v d] ok]. destruct ok; simpl.
  - split; [left; reflexivity|]. intros v' d' [H|H]; [injection H as -> ->; lia|].
    specialize (Hx _ H). rewrite slowLess_spec in Hx. simpl in Hx. lia.
  - destruct (find snd l) as [[[v' d'] ok']|]; simpl in *.
    + destruct IH as [I1 I2]. split; [right; exact I1|]. intros v'' d'' [H|H]; [discriminate | auto].
    + intros v' d' [H|H]; [discriminate | exact (IH _ _ H)].
Qed.

(** Rule at element level. *)
Definition VCE (L : list elem) (v d : nat) := exists e, In e L /\ e_dig e = d /\ e_cert e = Some (v, true).
Definition TopE (L : list elem) v d := VCE L v d /\ forall v' d', VCE L v' d' -> v' < v \/ (v' = v /\ d <= d').
Definition MinE (L : list elem) w := (exists v d, TopE L v d /\ w = v + 1) \/ ((forall v d, ~ VCE L v d) /\ w = 0).
Definition RuleE (q : nat) (L : list elem) (r : option nat) : Prop :=
  exists w, MinE L w /\
  ((exists d, r = Some d /\ q <= cntV w d L) \/
   ((forall d, cntV w d L < q) /\
    ((exists v d, TopE L v d /\ r = Some d) \/ ((forall v d, ~ VCE L v d) /\ r = None)))).
Definition consE (L : list elem) := forall e1 e2 v ok1 ok2, In e1 L -> In e2 L -> e_dig e1 = e_dig e2 ->
  e_cert e1 = Some (v, ok1) -> e_cert e2 = Some (v, ok2) -> ok1 = ok2.

Lemma VCE_perm L L' v d : Permutation L L' -> VCE L v d -> VCE L' v d.
Proof. intros P (e & H & R). exists e. split; [eapply Permutation_in; eassumption | exact R]. Qed.
Lemma TopE_perm L L' v d : Permutation L L' -> TopE L v d -> TopE L' v d.
Proof.
  intros P [H1 H2]. split; [eapply VCE_perm; eassumption|]. intros v' d' H. apply H2. eapply VCE_perm; [apply Permutation_sym|]; eassumption.
Qed.
Lemma cntV_perm w d L L' : Permutation L L' -> cntV w d L = cntV w d L'.
Proof. intros P. apply Permutation_length, Permutation_filter, P. Qed.
Lemma RuleE_perm q L L' r : Permutation L L' -> RuleE q L r -> RuleE q L' r.
Proof.
  intros P (w & M & R). exists w. split.
  - destruct M as [(v & d & T & E)|[N E]]; [left; exists v, d; split; [eapply TopE_perm; eassumption | exact E]|].
    right. split; [|exact E]. intros v d H. apply (N v d). eapply VCE_perm; [apply Permutation_sym|]; eassumption.
  - destruct R as [(d & E & H)|[H R]].
    + left. exists d. split; [exact E|]. rewrite <- (cntV_perm w d _ _ P). exact H.
    + right. split; [intros d; rewrite <- (cntV_perm w d _ _ P); apply H|].
      destruct R as [(v & d & T & E)|[N E]]; [left; exists v, d; split; [eapply TopE_perm; eassumption | exact E]|].
      right. split; [|exact E]. intros v d H'. apply (N v d). eapply VCE_perm; [apply Permutation_sym|]; eassumption.
Qed.

Lemma advance_ok s ub fuel : forall pre rest, length rest <= fuel -> Forall (Good s) rest -> Forall (Good (S s)) pre ->
  exists its', advance fuel s ub pre rest = Some its' /\ Forall (Good (S s)) its' /\
    forall t, s < t <= ub -> Permutation (A t (concat its')) (A t (concat (pre ++ rest))).
Proof.
  induction fuel as [|fuel IH]; intros pre rest Hl Hr Hp.
  - destruct rest as [|it rest]; [|simpl in Hl; lia]. simpl. exists pre. split; [reflexivity|]. split; [exact Hp|].
    intros. rewrite app_nil_r. apply Permutation_refl.
  - destruct rest as [|it rest'].
    { simpl. exists pre. split; [reflexivity|]. split; [exact Hp|]. intros. rewrite app_nil_r. apply Permutation_refl. }
    inversion Hr as [|it0 r0 Hg Hr']; subst. simpl in Hl. cbn [advance].
    destruct it as [|e it']; [destruct Hg; congruence|]. destruct Hg as (Hne & Hinc & Hge).
    pose proof (Hge e (or_introl eq_refl)) as Hse.
    destruct (Nat.ltb_spec s (e_seq e)) as [Hlt|Hle].
    + destruct (IH (pre ++ [e :: it']) rest') as (its' & E & G & P); [lia | exact Hr' | |].
      { apply Forall_app. split; [exact Hp|]. constructor; [|constructor]. split; [congruence|]. split; [exact Hinc|].
        intros e' [<-|He]; [exact Hlt|]. pose proof (increasing_all _ _ Hinc e' He). lia. }
      exists its'. split; [exact E|]. split; [exact G|]. intros t Ht. specialize (P t Ht). rewrite <- app_assoc in P. exact P.
    + assert (Es : e_seq e = s) by lia. rewrite (proj2 (Nat.eqb_eq _ _) Es). simpl in Hinc.
      destruct (match it' with [] => true | e' :: _ => ub <? e_seq e' end) eqn:Erm.
      * (* removed *)
        assert (Hdrop : forall t, s < t <= ub -> A t (e :: it') = []).
        { intros t Ht. apply A_none. intros e'' [<-|He]; [lia|]. destruct it' as [|e' it'']; [destruct He|].
          apply Nat.ltb_lt in Erm. simpl in Hinc. destruct Hinc as [_ Hinc]. destruct He as [<-|He]; [lia|].
          pose proof (increasing_all _ _ Hinc e'' He). lia. }
        destruct rest' as [|r1 rest''].
        { exists pre. split; [reflexivity|]. split; [exact Hp|]. intros t Ht. rewrite concat_app, A_app. simpl concat.
          rewrite app_nil_r, Hdrop by exact Ht. rewrite app_nil_r. apply Permutation_refl. }
        { assert (Hne' : r1 :: rest'' <> []) by congruence.
          pose proof (app_removelast_last [] Hne') as Elast. set (R := r1 :: rest'') in *.
          assert (PR : Permutation (last R [] :: removelast R) R).
          { rewrite Elast at 3. apply Permutation_cons_append. }
          destruct (IH pre (last R [] :: removelast R)) as (its' & E & G & P).
          - rewrite (Permutation_length PR). lia.
          - apply Forall_forall. intros x Hx. rewrite Forall_forall in Hr'. apply Hr'. eapply Permutation_in; eassumption.
          - exact Hp.
          - exists its'. split; [exact E|]. split; [exact G|]. intros t Ht. eapply perm_trans; [apply (P t Ht)|].
            rewrite !concat_app, !A_app. apply Permutation_app_head. cbn [concat]. rewrite !A_app.
            rewrite (Hdrop t Ht). simpl app at 2. rewrite <- A_app.
            change (last R [] ++ concat (removelast R)) with (concat (last R [] :: removelast R)).
            apply Permutation_filter.
            assert (PC : forall (x y : list (list elem)), Permutation x y -> Permutation (concat x) (concat y)).
            { clear. induction 1 as [|x l l' H IH|x y l|l l' l'' H1 IH1 H2 IH2]; simpl.
              - constructor.
              - apply Permutation_app_head, IH.
              - rewrite !app_assoc. apply Permutation_app_tail, Permutation_app_comm.
              - eapply perm_trans; eassumption. }
            exact (PC _ _ PR). }
      * destruct (IH (pre ++ [it']) rest') as (its' & E & G & P); [lia | exact Hr' | |].
        { apply Forall_app. split; [exact Hp|]. constructor; [|constructor]. destruct it' as [|e' it'']; [discriminate|].
          split; [congruence|]. simpl in Hinc. destruct Hinc as [H1 H2]. split; [exact H2|].
          intros e'' [<-|He]; [lia|]. pose proof (increasing_all _ _ H2 e'' He). lia. }
        exists its'. split; [exact E|]. split; [exact G|]. intros t Ht. eapply perm_trans; [apply (P t Ht)|].
        rewrite <- app_assoc, !concat_app, !A_app. apply Permutation_app_head. cbn [concat]. rewrite !A_app.
        simpl (A t []). rewrite app_nil_r. apply Permutation_app_tail.
        unfold A at 2. simpl. rewrite (proj2 (Nat.eqb_neq _ _)) by lia. apply Permutation_refl.
Qed.

Lemma restrictSeq_ok F C s ub its : 1 <= F + C -> Forall (Good s) its -> consE (A s (concat its)) ->
  exists r its', restrictSeq F C s ub its = Some (r, its') /\ RuleE (F + C + 1) (A s (concat its)) r /\
    Forall (Good (S s)) its' /\ forall t, s < t <= ub -> Permutation (A t (concat its')) (A t (concat its)).
Proof.
  intros Hq HG HC. unfold restrictSeq. rewrite (currents_ok _ _ HG).
  destruct (advance_ok s ub (length its) [] its (le_n _) HG (Forall_nil _)) as (its' & E & G & P). rewrite E.
  set (cur := heads its) in *. rewrite (A_concat_heads _ _ HG) in HC |- *. fold cur in HC |- *.
  set (L := A s cur) in *. set (sl := selectSlow (collectSlow s cur [])).
  set (w := match sl with Some (v, _) => v + 1 | None => 0 end).
  eexists. exists its'. split; [reflexivity|]. split; [|split; [exact G | exact P]].
  destruct (collectSlow_spec s cur [] sset_nil) as (S1 & _ & S3 & S4).
  assert (HV : forall v d, VCE L v d <-> In ((v, d), true) (collectSlow s cur [])).
  { intros v d. split.
    - intros (e & He & Hd & Hcert). subst d. destruct (S4 e v true He Hcert) as [ok' Hin].
      destruct (S3 _ _ _ Hin) as [[]|(e' & He' & Hd' & Hc')].
      rewrite (HC e' e v ok' true He' He Hd' Hc' Hcert) in Hin. exact Hin.
    - intros Hin. destruct (S3 _ _ _ Hin) as [[]|(e' & He' & Hd' & Hc')]. exists e'. auto. }
  pose proof (select_spec _ S1) as SS. fold sl in SS.
  assert (HMin : MinE L w).
  { unfold w. destruct sl as [[v d]|].
    - left. exists v, d. split; [|reflexivity]. destruct SS as [SS1 SS2]. split; [apply HV, SS1|]. intros v' d' H. apply SS2, HV, H.
    - right. split; [|reflexivity]. intros v d H. apply (SS v d), HV, H. }
  exists w. split; [exact HMin|].
  assert (HLs : forall e, In e L -> e_seq e = s).
  { intros e He. unfold L, A in He. apply filter_In in He. apply Nat.eqb_eq. tauto. }
  assert (Hz : forall d, look [] d < F + C + 1) by (intros d; simpl; lia).
  pose proof (fastLoop_spec (F + C + 1) s w L ltac:(lia) HLs [] Hz) as FL.
  rewrite fastLoop_filter. fold L. destruct (fastLoop (F + C + 1) s w L []) as [d|].
  - left. exists d. split; [reflexivity | exact FL].
  - right. split; [exact FL|]. destruct sl as [[v d]|]; simpl.
    + left. exists v, d. split; [|reflexivity]. destruct SS as [SS1 SS2]. split; [apply HV, SS1|]. intros v' d' H. apply SS2, HV, H.
    + right. split; [|reflexivity]. intros v d H. apply (SS v d), HV, H.
Qed.

Definition lastOf (dflt : nat) (s : nat) (l : list (option nat)) (lr : nat) : Prop :=
  (lr = dflt /\ forall i, nth_error l i <> None -> nth_error l i = Some None) \/
  (exists i d, lr = s + i /\ nth_error l i = Some (Some d) /\ forall j x, nth_error l j = Some (Some x) -> j <= i).

Lemma RuleE_nil q : 1 <= q -> RuleE q [] None.
Proof.
  intros Hq. assert (N : forall v d, ~ VCE [] v d) by (intros v d (e & [] & _)).
  exists 0. split; [right; split; [exact N | reflexivity]|]. right. split; [intros d; unfold cntV; simpl; lia|].
  right. split; [exact N | reflexivity].
Qed.

Lemma restrictLoop_ok F C ub All : 1 <= F + C -> (forall t, consE (A t All)) ->
  forall k s its lastR, s + k = S ub -> Forall (Good s) its ->
  (forall t, s <= t <= ub -> Permutation (A t (concat its)) (A t All)) ->
  exists l lr, restrictLoop F C k s ub its lastR = Some (l, lr) /\ length l = k /\
    (forall i, i < k -> exists r, RuleE (F + C + 1) (A (s + i) All) r /\ nth_error l i = Some (norm r)) /\
    lastOf lastR s l lr.
Proof.
  intros Hq HC. induction k as [|k IH]; intros s its lastR Hk HG HP.
  - simpl. exists [], lastR. split; [reflexivity|]. split; [reflexivity|]. split; [intros i Hi; lia|].
    left. split; [reflexivity|]. intros i Hi. destruct i; simpl in Hi; congruence.
  - destruct its as [|it its].
    + exists (repeat None (S k)), lastR. split; [reflexivity|]. split; [apply repeat_length|]. split.
      * intros i Hi. exists None. split.
        { eapply RuleE_perm; [apply (HP (s + i)); lia|]. simpl. apply RuleE_nil. lia. }
        { destruct (nth_error (repeat None (S k)) i) as [x|] eqn:E.
          - apply nth_error_In, repeat_spec in E. subst. reflexivity.
          - apply nth_error_None in E. rewrite repeat_length in E. lia. }
      * left. split; [reflexivity|]. intros i Hi. destruct (nth_error (repeat None (S k)) i) as [x|] eqn:E; [|congruence].
        apply nth_error_In, repeat_spec in E. subst. reflexivity.
    + cbn [restrictLoop].
      assert (HCs : consE (A s (concat (it :: its)))).
      { intros e1 e2 v ok1 ok2 H1 H2. pose proof (HP s ltac:(lia)) as Ps.
        apply (HC s); eapply Permutation_in; eassumption. }
      destruct (restrictSeq_ok F C s ub (it :: its) Hq HG HCs) as (r & its' & E & R & G' & P'). rewrite E.
      fold (norm r). set (r' := norm r).
      destruct (IH (S s) its' (match r' with Some _ => s | None => lastR end)) as (l & lr & E2 & Hlen & Hr & Hl); [lia | exact G' | |].
      { intros t Ht. eapply perm_trans; [apply P'; lia | apply HP; lia]. }
      rewrite E2. exists (r' :: l), lr. split; [reflexivity|]. split; [simpl; lia|]. split.
      * intros i Hi. destruct i as [|i].
        { exists r. rewrite Nat.add_0_r. split; [|reflexivity]. eapply RuleE_perm; [apply (HP s); lia | exact R]. }
        { destruct (Hr i ltac:(lia)) as (r2 & R2 & N2). exists r2. replace (s + S i) with (S s + i) by lia. split; [exact R2 | exact N2]. }
      * destruct Hl as [[Hl1 Hl2]|(i & d & Hl1 & Hl2 & Hl3)].
        { destruct r' as [d|].
          - right. exists 0, d. split; [lia|]. split; [reflexivity|]. intros [|j] x Hx; [lia|]. simpl in Hx.
            assert (Hne : nth_error l j <> None) by congruence. rewrite (Hl2 j Hne) in Hx. discriminate.
          - left. split; [exact Hl1|]. intros [|i] Hi; [reflexivity|]. simpl in *. apply Hl2, Hi. }
        { right. exists (S i), d. split; [lia|]. split; [exact Hl2|]. intros [|j] x Hx; [lia|]. simpl in Hx. specialize (Hl3 j x Hx). lia. }
Qed.

(** Bridge to the message-level specification. *)
Definition allElems (M : list vcmsg) := concat (map vc_elems M).

Lemma in_allElems e M : In e (allElems M) <-> exists m, In m M /\ In e (vc_elems m).
Proof.
  unfold allElems. rewrite in_concat. split.
  - intros (l & Hl & He). apply in_map_iff in Hl. destruct Hl as (m & <- & Hm). exists m. auto.
  - intros (m & Hm & He). exists (vc_elems m). split; [apply in_map, Hm | exact He].
Qed.
Lemma VCE_Valid M s v d : VCE (A s (allElems M)) v d <-> ValidCert M s v d.
Proof.
  unfold VCE, ValidCert, A. split.
  - intros (e & He & Hd & Hc). apply filter_In in He. destruct He as [He Hs]. apply Nat.eqb_eq in Hs.
    apply in_allElems in He. destruct He as (m & Hm & He). exists m, e. auto.
  - intros (m & e & Hm & He & Hs & Hd & Hc). exists e. split; [|auto]. apply filter_In. split; [apply in_allElems; eauto | apply Nat.eqb_eq, Hs].
Qed.
Lemma TopE_Top M s v d : TopE (A s (allElems M)) v d <-> TopCert M s v d.
Proof.
  unfold TopE, TopCert. rewrite VCE_Valid. split; intros [H1 H2]; (split; [exact H1|]; intros v' d' H; apply H2, VCE_Valid, H).
Qed.

Lemma increasing_unique lo l s p : increasing lo l ->
  length (filter (fun e => (e_seq e =? s) && p e) l) = if existsb (fun e => (e_seq e =? s) && p e) l then 1 else 0.
Proof.
  revert lo. induction l as [|e l IH]; simpl; intros lo H; [reflexivity|]. destruct H as [H1 H2]. specialize (IH _ H2).
  destruct (Nat.eqb_spec (e_seq e) s) as [Es|Es]; cbn [andb orb]; [|exact IH].
  destruct (p e); simpl; [|exact IH]. rewrite IH.
  destruct (existsb _ l) eqn:Ex; [|reflexivity]. apply existsb_exists in Ex. destruct Ex as (e' & He' & Hx).
  apply andb_true_iff in Hx. destruct Hx as [Hx _]. apply Nat.eqb_eq in Hx. pose proof (increasing_all _ _ H2 e' He'). lia.
Qed.

Lemma cntV_votes M s w d : Forall wellFormed M -> cntV w d (A s (allElems M)) = votes M s w d.
Proof.
  intros H. unfold cntV, votes, allElems, A. induction H as [|m M Hm HM IH]; simpl; [reflexivity|].
  rewrite filter_app, filter_app, app_length, IH.
  assert (E : length (filter (fun e => (e_dig e =? d) && (w <=? e_origin e)) (filter (fun e => e_seq e =? s) (vc_elems m)))
      = length (filter (fun e => (e_seq e =? s) && ((e_dig e =? d) && (w <=? e_origin e))) (vc_elems m))).
  { induction (vc_elems m) as [|e l IHl]; simpl; [reflexivity|]. destruct (e_seq e =? s); simpl; [|exact IHl].
    destruct (_ && _); simpl; lia. }
  rewrite E, (increasing_unique (vc_ls m)) by exact Hm. unfold hasAt at 2.
  destruct (existsb _ (vc_elems m)); simpl; lia.
Qed.

Lemma RuleE_Rule F C M s r : Forall wellFormed M -> RuleE (F + C + 1) (A s (allElems M)) r <-> Rule F C M s r.
Proof.
  intros HW. unfold RuleE, Rule, MinE, MinView.
  assert (EV : forall v d, VCE (A s (allElems M)) v d <-> ValidCert M s v d) by (intros; apply VCE_Valid).
  assert (ET : forall v d, TopE (A s (allElems M)) v d <-> TopCert M s v d) by (intros; apply TopE_Top).
  assert (EN : (forall v d, ~ VCE (A s (allElems M)) v d) <-> (forall v d, ~ ValidCert M s v d)).
  { split; intros H v d Hc; apply (H v d), EV, Hc. }
  split; intros (w & HM & HR); exists w; (split;
  [ destruct HM as [(v & d & T & E)|[N E]]; [left; exists v, d; split; [apply ET, T | exact E] | right; split; [apply EN, N | exact E]] |]);
  (destruct HR as [(d & E & H)|[H R]];
    [ left; exists d; split; [exact E|]; rewrite (cntV_votes M s w d HW) in *; exact H
    | right; split; [intros d; specialize (H d); rewrite (cntV_votes M s w d HW) in *; exact H|];
      destruct R as [(v & d & T & E)|[N E]]; [left; exists v, d; split; [apply ET, T | exact E] | right; split; [apply EN, N | exact E]]]).
Qed.

(** Rule is functional. *)
Lemma votes_two M s w d d' : d <> d' -> Forall wellFormed M -> votes M s w d + votes M s w d' <= length M.
Proof.
  intros Hd HW. unfold votes. induction HW as [|m M Hm HM IH]; simpl; [lia|].
  destruct (hasAt s (fun e => (e_dig e =? d) && (w <=? e_origin e)) m) eqn:E1;
  destruct (hasAt s (fun e => (e_dig e =? d') && (w <=? e_origin e)) m) eqn:E2; simpl; try lia.
  exfalso. unfold hasAt in *. apply existsb_exists in E1, E2. destruct E1 as (e1 & I1 & E1), E2 as (e2 & I2 & E2).
  rewrite !andb_true_iff, !Nat.eqb_eq in E1, E2. destruct E1 as (S1 & D1 & _), E2 as (S2 & D2 & _).
  assert (e1 = e2); [|congruence].
  unfold wellFormed in Hm. revert Hm I1 I2. generalize (vc_ls m). induction (vc_elems m) as [|e l IHl]; simpl; [tauto|].
  intros lo [H1 H2] [<-|I1] [<-|I2]; [reflexivity| | |].
  - pose proof (increasing_all _ _ H2 e2 I2). lia.
  - pose proof (increasing_all _ _ H2 e1 I1). lia.
  - eapply IHl; eassumption.
Qed.

Lemma TopCert_unique M s v d v' d' : TopCert M s v d -> TopCert M s v' d' -> v = v' /\ d = d'.
Proof. intros [A1 A2] [B1 B2]. specialize (A2 _ _ B1). specialize (B2 _ _ A1). lia. Qed.

Lemma MinView_unique M s w w' : MinView M s w -> MinView M s w' -> w = w'.
Proof.
  intros [(v & d & T & E)|[N E]] [(v' & d' & T' & E')|[N' E']].
  - destruct (TopCert_unique _ _ _ _ _ _ T T'). lia.
  - exfalso. apply (N' v d), T.
  - exfalso. apply (N v' d'), T'.
  - lia.
Qed.

Lemma Rule_unique F C M s r r' : Forall wellFormed M -> length M <= 2 * F + 2 * C + 1 -> Rule F C M s r -> Rule F C M s r' -> r = r'.
Proof.
  intros HW HL (w & HM & HR) (w' & HM' & HR'). pose proof (MinView_unique _ _ _ _ HM HM'). subst w'.
  destruct HR as [(d & -> & H)|[H R]], HR' as [(d' & -> & H')|[H' R']].
  - destruct (Nat.eq_dec d d') as [->|Hne]; [reflexivity|]. pose proof (votes_two M s w d d' Hne HW). lia.
  - specialize (H' d). lia.
  - specialize (H d'). lia.
  - destruct R as [(v & d & T & ->)|[N ->]], R' as [(v' & d' & T' & ->)|[N' ->]].
    + destruct (TopCert_unique _ _ _ _ _ _ T T'). subst. reflexivity.
    + exfalso. apply (N' v d), T.
    + exfalso. apply (N v' d'), T'.
    + reflexivity.
Qed.

Lemma concat_filter_nonempty (l : list (list elem)) :
  concat (filter (fun it => match it with [] => false | _ => true end) l) = concat l.
Proof. induction l as [|[|e it] l IH]; simpl; [reflexivity | exact IH | rewrite IH; reflexivity]. Qed.

Opaque kWorkWindowSize checkpointWindowSize.
Lemma cw_le : checkpointWindowSize <= kWorkWindowSize /\ 0 < kWorkWindowSize.
Proof. Transparent kWorkWindowSize checkpointWindowSize. unfold checkpointWindowSize, kWorkWindowSize. lia. Opaque kWorkWindowSize checkpointWindowSize. Qed.

Lemma computeRestrictions_ok F C a lb : 1 <= F + C -> Forall wellFormed (present a) -> consistentSigs (present a) ->
  exists mn mx rs, computeRestrictions F C a lb = Some (mn, mx, rs) /\ length rs = kWorkWindowSize /\
    (forall s, lb < s <= lb + kWorkWindowSize -> exists r, Rule F C (present a) s r /\ nth_error rs (s - lb - 1) = Some (norm r)) /\
    RangeSpec (present a) lb mn mx rs.
Proof.
  intros Hq HW HCS. pose proof cw_le as [CW W0]. unfold computeRestrictions. set (M := present a) in *.
  set (its := filter _ (map (fun m => goToAtLeast (lb + 1) (vc_elems m)) M)).
  assert (HG : Forall (Good (lb + 1)) its).
  { apply Forall_forall. intros it Hit. unfold its in Hit. apply filter_In in Hit. destruct Hit as [Hit Hne].
    apply in_map_iff in Hit. destruct Hit as (m & <- & Hm). rewrite Forall_forall in HW.
    destruct (goToAtLeast_ok _ (lb + 1) _ (HW m Hm)) as (G1 & G2 & _).
    split; [intros Hnil; rewrite Hnil in Hne; discriminate | split; assumption]. }
  assert (HA : forall t, lb + 1 <= t -> A t (concat its) = A t (allElems M)).
  { intros t Ht. unfold its. rewrite concat_filter_nonempty. unfold allElems. clear its HG HCS.
    induction HW as [|m M' Hm HM IH]; simpl; [reflexivity|]. rewrite !A_app, IH.
    destruct (goToAtLeast_ok _ (lb + 1) _ Hm) as (_ & _ & G3). rewrite (G3 t Ht). reflexivity. }
  assert (HC : forall t, consE (A t (allElems M))).
  { intros t e1 e2 v ok1 ok2 H1 H2 Hd C1 C2. unfold A in H1, H2. apply filter_In in H1, H2. destruct H1 as [H1 S1], H2 as [H2 S2].
    apply Nat.eqb_eq in S1, S2. apply in_allElems in H1, H2. destruct H1 as (m1 & M1 & E1), H2 as (m2 & M2 & E2).
    eapply (HCS m1 m2 e1 e2 v); eauto; congruence. }
  destruct (restrictLoop_ok F C (lb + kWorkWindowSize) (allElems M) Hq HC kWorkWindowSize (lb + 1) its 0) as (rs & lr & E & Hlen & Hr & Hlast).
  { lia. } { exact HG. } { intros t Ht. rewrite HA by lia. apply Permutation_refl. }
  rewrite E.
  assert (HR : forall s, lb < s <= lb + kWorkWindowSize -> exists r, Rule F C M s r /\ nth_error rs (s - lb - 1) = Some (norm r)).
  { intros s Hs. destruct (Hr (s - lb - 1)) as (r & R & N); [lia|]. exists r. split; [|exact N].
    apply RuleE_Rule; [exact HW|]. replace s with (lb + 1 + (s - lb - 1)) by lia. exact R. }
  assert (HE : its = [] <-> forall m e, In m M -> In e (vc_elems m) -> e_seq e <= lb).
  { split.
    - intros Hnil m e Hm He. destruct (Nat.le_gt_cases (e_seq e) lb) as [H|H]; [exact H|]. exfalso.
      assert (Hin : In e (A (e_seq e) (allElems M))).
      { unfold A. apply filter_In. split; [apply in_allElems; eauto | apply Nat.eqb_refl]. }
      rewrite <- (HA (e_seq e)) in Hin by lia. rewrite Hnil in Hin. destruct Hin.
    - intros H. destruct its as [|it its'] eqn:Eits; [reflexivity|]. exfalso. rewrite <- Eits in *. clear E.
      assert (Hit : In it its) by (rewrite Eits; left; reflexivity).
      rewrite Forall_forall in HG. destruct (HG it Hit) as (Hne & _ & Hge). destruct it as [|e it]; [congruence|].
      pose proof (Hge e (or_introl eq_refl)) as Hs.
      assert (Hin : In e (A (e_seq e) (concat its))).
      { unfold A. apply filter_In. split; [|apply Nat.eqb_refl]. apply in_concat. exists (e :: it). split; [exact Hit | left; reflexivity]. }
      rewrite HA in Hin by exact Hs. unfold A in Hin. apply filter_In in Hin. destruct Hin as [Hin _].
      apply in_allElems in Hin. destruct Hin as (m & Hm & He). specialize (H m e Hm He). lia. }
  destruct its as [|it its'] eqn:Eits.
  - exists 0, 0, rs. split; [reflexivity|]. split; [exact Hlen|]. split; [exact HR|]. left. split; [apply HE; reflexivity | auto].
  - assert (HEx : exists m e, In m M /\ In e (vc_elems m) /\ lb < e_seq e).
    { rewrite Forall_forall in HG. pose proof (HG it (or_introl eq_refl)) as (Hne & _ & Hge). destruct it as [|e it]; [congruence|].
      pose proof (Hge e (or_introl eq_refl)) as Hs.
      assert (Hin : In e (A (e_seq e) (concat ((e :: it) :: its')))).
      { unfold A. apply filter_In. split; [|apply Nat.eqb_refl]. simpl. left. reflexivity. }
      rewrite HA in Hin by exact Hs. unfold A in Hin. apply filter_In in Hin. destruct Hin as [Hin _].
      apply in_allElems in Hin. destruct Hin as (m & Hm & He). exists m, e. split; [exact Hm|]. split; [exact He|]. lia. }
    assert (HNN : forall s d, lb < s <= lb + kWorkWindowSize -> nth_error rs (s - lb - 1) = Some (Some d) -> 
       exists i d', lr = lb + 1 + i /\ nth_error rs i = Some (Some d') /\ s - lb - 1 <= i).
    { intros s d Hs Hn. destruct Hlast as [[H1 H2]|(i & d' & H1 & H2 & H3)].
      - rewrite H2 in Hn by congruence. discriminate.
      - exists i, d'. split; [exact H1|]. split; [exact H2|]. exact (H3 _ _ Hn). }
    destruct ((0 <? lr) && (lr <=? lb + kWorkWindowSize - checkpointWindowSize)) eqn:EL.
    + apply andb_true_iff in EL. destruct EL as [L1 L2]. apply Nat.ltb_lt in L1. apply Nat.leb_le in L2.
      eexists _, _, rs. split; [reflexivity|]. split; [exact Hlen|]. split; [exact HR|]. right. split; [exact HEx|]. split; [reflexivity|].
      left. destruct Hlast as [[H1 H2]|(i & d & H1 & H2 & H3)]; [lia|].
      assert (Hi : i < kWorkWindowSize) by (rewrite <- Hlen; apply nth_error_Some; congruence).
      split; [|split; [|lia]].
      * exists (lb + 1 + i). split; [lia|]. exists d. replace (lb + 1 + i - lb - 1) with i by lia. exact H2.
      * intros s Hs [x Hx]. specialize (H3 _ _ Hx). lia.
    + eexists _, _, rs. split; [reflexivity|]. split; [exact Hlen|]. split; [exact HR|]. right. split; [exact HEx|]. split; [reflexivity|].
      right. split; [|lia]. destruct Hlast as [[H1 H2]|(i & d & H1 & H2 & H3)].
      * left. intros s Hs [x Hx]. rewrite H2 in Hx by congruence. discriminate.
      * right. assert (Hi : i < kWorkWindowSize) by (rewrite <- Hlen; apply nth_error_Some; congruence).
        apply andb_false_iff in EL. rewrite Nat.ltb_ge, Nat.leb_gt in EL.
        exists (lb + 1 + i). split; [lia|]. exists d. replace (lb + 1 + i - lb - 1) with i by lia. exact H2.
Qed.

(** Order independence. *)
Lemma ValidCert_perm M M' s v d : Permutation M M' -> ValidCert M s v d -> ValidCert M' s v d.
Proof. intros P (m & e & H & R). exists m, e. split; [eapply Permutation_in; eassumption | exact R]. Qed.
Lemma TopCert_perm M M' s v d : Permutation M M' -> TopCert M s v d -> TopCert M' s v d.
Proof.
  intros P [H1 H2]. split; [eapply ValidCert_perm; eassumption|]. intros v' d' H. apply H2. eapply ValidCert_perm; [apply Permutation_sym|]; eassumption.
Qed.
Lemma Rule_perm F C M M' s r : Permutation M M' -> Rule F C M s r -> Rule F C M' s r.
Proof.
  intros P (w & HM & HR). 
  assert (EN : (forall v d, ~ ValidCert M s v d) -> (forall v d, ~ ValidCert M' s v d)).
  { intros H v d Hc. apply (H v d). eapply ValidCert_perm; [apply Permutation_sym|]; eassumption. }
  assert (EVo : forall d, votes M s w d = votes M' s w d) by (intros d; apply Permutation_length, Permutation_filter, P).
  exists w. split.
  - destruct HM as [(v & d & T & E)|[N E]]; [left; exists v, d; split; [eapply TopCert_perm; eassumption | exact E] | right; split; [apply EN, N | exact E]].
  - destruct HR as [(d & E & H)|[H R]]; [left; exists d; rewrite <- EVo; auto|].
    right. split; [intros d; rewrite <- EVo; apply H|].
    destruct R as [(v & d & T & E)|[N E]]; [left; exists v, d; split; [eapply TopCert_perm; eassumption | exact E] | right; split; [apply EN, N | exact E]].
Qed.

Lemma nth_error_ext {T} (l l' : list T) : length l = length l' -> (forall i, i < length l -> nth_error l i = nth_error l' i) -> l = l'.
Proof.
  revert l'. induction l as [|x l IH]; intros [|x' l'] HL H; simpl in HL; try lia; [reflexivity|].
  pose proof (H 0 ltac:(simpl; lia)) as H0. simpl in H0. injection H0 as ->. f_equal. apply IH; [lia|].
  intros i Hi. apply (H (S i)). simpl. lia.
Qed.

Lemma RangeSpec_unique M M' lb mn mx mn' mx' rs : Permutation M M' -> RangeSpec M lb mn mx rs -> RangeSpec M' lb mn' mx' rs ->
  mn = mn' /\ mx = mx'.
Proof.
  intros P. unfold RangeSpec. pose proof cw_le as [CW W0].
  assert (PI : forall m, In m M <-> In m M') by (intros m; split; apply Permutation_in; [exact P | apply Permutation_sym, P]).
  intros [(N & -> & ->)|((m & e & Hm & He & Hs) & -> & R)] [(N' & -> & ->)|((m' & e' & Hm' & He' & Hs') & -> & R')].
  - auto.
  - specialize (N m' e' (proj2 (PI m') Hm') He'). lia.
  - specialize (N' m e (proj1 (PI m) Hm) He). lia.
  - split; [reflexivity|]. cbv zeta in R, R'.
    destruct R as [((s & Hr1 & Hn1) & Hmax & ->)|(K & ->)], R' as [((s' & Hr1' & Hn1') & Hmax' & ->)|(K' & ->)]; try reflexivity; exfalso.
    + destruct K' as [K'|(s2 & Hs2 & Hn2)]; [exact (K' s Hr1 Hn1)|]. specialize (Hmax s2 ltac:(lia) Hn2). lia.
    + destruct K as [K|(s2 & Hs2 & Hn2)]; [exact (K s' Hr1' Hn1')|]. specialize (Hmax' s2 ltac:(lia) Hn2). lia.
Qed.

Lemma computeRestrictions_perm F C a a' lb : 1 <= F + C -> Permutation (present a) (present a') ->
  Forall wellFormed (present a) -> consistentSigs (present a) -> length (present a) <= 2 * F + 2 * C + 1 ->
  computeRestrictions F C a lb = computeRestrictions F C a' lb.
Proof.
  intros Hq P HW HC HL.
  assert (PI : forall m, In m (present a') <-> In m (present a)) by (intros m; split; apply Permutation_in; [apply Permutation_sym, P | exact P]).
  assert (HW' : Forall wellFormed (present a')).
  { rewrite Forall_forall in *. intros m Hm. apply HW, PI, Hm. }
  assert (HC' : consistentSigs (present a')).
  { intros m1 m2 e1 e2 v ok1 ok2 H1 H2. apply HC; apply PI; assumption. }
  destruct (computeRestrictions_ok F C a lb Hq HW HC) as (mn & mx & rs & E & Hlen & HR & HRg).
  destruct (computeRestrictions_ok F C a' lb Hq HW' HC') as (mn' & mx' & rs' & E' & Hlen' & HR' & HRg').
  assert (rs = rs').
  { apply nth_error_ext; [congruence|]. intros i Hi. rewrite Hlen in Hi.
    destruct (HR (lb + 1 + i) ltac:(lia)) as (r & R & N). destruct (HR' (lb + 1 + i) ltac:(lia)) as (r' & R' & N').
    replace (lb + 1 + i - lb - 1) with i in N, N' by lia. rewrite N, N'. f_equal. f_equal.
    eapply (Rule_unique F C (present a)); [exact HW | exact HL | exact R |]. eapply Rule_perm; [apply Permutation_sym, P | exact R']. }
  subst rs'. destruct (RangeSpec_unique _ _ _ _ _ _ _ _ P HRg HRg') as [-> ->]. congruence.
Qed.
