From Coq Require Import ZArith NArith List Bool Lia.
From Verif Require Import Lib_Bytes Flt_Model Flt_Proofs.
Import ListNotations.
Local Open Scope Z_scope.

Section F.
Context (parse : bytes -> parsed) (client : bytes).
Lemma tagsAllow_spec tags : tagsAllow client tags = true <-> mayRead client tags.
Proof.
  unfold tagsAllow, mayRead. destruct tags as [|t tags]; [tauto|]. rewrite existsb_exists. split.
  - intros (x & A & B). right. destruct (beq_spec x client); [subst; auto|discriminate].
  - intros [H|H]; [discriminate|]. exists client. split; auto. apply beq_refl.
Qed.
Lemma filterEvents_ok l : (forall x, In x l -> mayRead client (etags x) -> parse (edata x) <> PNone) -> filterEvents parse client l = Ok (visibleEvents parse client l).
Proof.
  induction l as [|x l IH]; intros H; [reflexivity|]. cbn [filterEvents visibleEvents]. rewrite IH by (intros; apply H; [right|]; auto).
  destruct (tagsAllow client (etags x)) eqn:E; cbn [negb]; [|reflexivity].
  specialize (H x (or_introl eq_refl) (proj1 (tagsAllow_spec _) E)). destruct (parse (edata x)); try tauto; reflexivity.
Qed.
Lemma filterGroup_ok g : sendable parse client g -> filterGroup parse client g = Ok (viewOf parse client g).
Proof. intros [_ H]. unfold filterGroup. rewrite (filterEvents_ok _ H). reflexivity. Qed.

Lemma visibleEvents_in l y : In y (visibleEvents parse client l) <->
  exists x, In x l /\ mayRead client (etags x) /\ parse (edata x) = PVal (edata y) /\ etags y = etags x.
Proof.
  induction l as [|x l IH]; cbn [visibleEvents]; [split; [intros []|intros (x & [] & _)]|]. rewrite in_app_iff, IH. split.
  - intros [H|(z & A & B & C & D)].
    + destruct (tagsAllow client (etags x)) eqn:E; [|destruct H]. destruct (parse (edata x)) eqn:P; [destruct H|destruct H|]. destruct H as [<-|[]]. exists x. cbn. repeat split; auto. apply tagsAllow_spec. auto.
    + exists z. repeat split; auto. right. auto.
  - intros (z & [->|A] & B & C & D).
    + left. apply tagsAllow_spec in B. rewrite B, C. left. destruct y. cbn in *. congruence.
    + right. exists z. auto.
Qed.

Lemma numbered_nth e l n : nth_error (numbered parse client e l) n = option_map (fun r => (e + Z.of_nat n, viewOf parse client (snd r))) (nth_error l n).
Proof.
  revert e n. induction l as [|[a g] l IH]; intros e [|n]; cbn; try reflexivity. { do 2 f_equal. lia. }
  rewrite IH. destruct (nth_error l n); cbn; auto. do 2 f_equal. lia.
Qed.
Lemma numbered_len e l : length (numbered parse client e l) = length l.
Proof. revert e. induction l as [|[a g] l IH]; intros; cbn; auto. Qed.

Section Read.
Context (T : store) (W : hist) (k : nat) (R : represents T W k client).
Context (Sd : forall c g, In (c, g) W -> visible client c = true -> sendable parse client g).
Notation cp i := (cnt pubTag (firstn i W)).
Notation cc i := (cnt client (firstn i W)).
Notation L := (groupsOf client W).

(** (G, X): what the code holds for the first group with tag t at or after index i. *)
Definition nextRel (t : bytes) (i : nat) (G X : Z) : Prop :=
  (cnt t W = cnt t (firstn i W) /\ G = max64) \/
  exists j c g, (i <= j)%nat /\ nth_error W j = Some (c, g) /\ isTagged t c = true /\ cnt t (firstn j W) = cnt t (firstn i W) /\
    (forall m c' g', (i <= m < j)%nat -> nth_error W m = Some (c', g') -> isTagged t c' = false) /\
    G = Z.of_nat j + 1 /\ (t <> pubTag -> X = Z.of_nat (cnt t (firstn j W)) + 1 + Z.of_nat (cp j)).

Lemma next_get t i : tablesFor T W k t -> (k <= i <= length W)%nat -> 
  (cnt t W = cnt t (firstn i W) /\ getTag T t (Z.of_nat (cnt t (firstn i W)) + 1) = Throw) \/
  (cnt t (firstn i W) < cnt t W)%nat /\ exists G X, getTag T t (Z.of_nat (cnt t (firstn i W)) + 1) = Ok (G, X) /\ nextRel t i G X.
Proof.
  intros Tb H. destruct (next_tagged t W _ i eq_refl ltac:(lia)) as [Q|(j & c & g & A & B & C & D & F)].
  - left. split; auto. destruct Tb as (_ & _ & _ & N). unfold getTag. rewrite N; auto. right. lia.
  - right. destruct (getTag_of T W k t Tb j c g B C ltac:(lia)) as (x & G & X). rewrite D in G, X.
    split. { pose proof (cnt_S t W j c g B) as Q. rewrite C in Q. pose proof (cnt_le t W (S j)). lia. }
    do 2 eexists. split; [exact G|]. right. exists j, c, g. rewrite D. repeat split; auto.
Qed.
Lemma getOrMax_ok t i : tablesFor T W k t -> (k <= i <= length W)%nat -> exists G X, getOrMax T t (Z.of_nat (cnt t (firstn i W)) + 1) = Ok (G, X) /\ nextRel t i G X.
Proof.
  intros Tb H. unfold getOrMax. destruct (next_get t i Tb H) as [[Q ->]|(_ & G & X & -> & N)]; eauto.
  do 2 eexists. split; [reflexivity|]. left. auto.
Qed.
Lemma nextOf_ok t i : tablesFor T W k t -> (k <= i <= length W)%nat -> exists G X, nextOf T t (Z.of_nat (cnt t (firstn i W)) + 1) (Z.of_nat (cnt t W)) = Ok (G, X) /\ nextRel t i G X.
Proof.
  intros Tb H. unfold nextOf. destruct (next_get t i Tb H) as [[Q E]|(Lt & G & X & E & N)].
  - destruct (Z.ltb_spec (Z.of_nat (cnt t W)) (Z.of_nat (cnt t (firstn i W)) + 1)); [|lia]. do 2 eexists. split; [reflexivity|]. left. auto.
  - destruct (Z.ltb_spec (Z.of_nat (cnt t W)) (Z.of_nat (cnt t (firstn i W)) + 1)); [lia|]. eauto.
Qed.

Lemma L_len : length L = (cnt pubTag W + cnt client W)%nat.
Proof. apply seen_len. apply R. Qed.
Lemma L_at i c g : nth_error W i = Some (c, g) -> visible client c = true -> nth_error L (cp i + cc i) = Some (Z.of_nat i + 1, g).
Proof. intros. unfold groupsOf. rewrite (seen_nth client (R_np _ _ _ _ R) W 1 i c g) by auto. do 2 f_equal. lia. Qed.

(** The loop, entered for the visible group at index i. *)
Lemma loop_ok (go : list (Z * group) -> bool) fuel : forall i c g out prvG prvX pubG,
  nth_error W i = Some (c, g) -> visible client c = true -> (k <= i)%nat ->
  (length L - (cp i + cc i) < fuel)%nat ->
  (if isTagged pubTag c then nextRel client (S i) prvG prvX else exists X, nextRel pubTag (S i) pubG X) ->
  let e := Z.of_nat (cp i + cc i) + 1 in
  let full := numbered parse client e (skipn (cp i + cc i) L) in
  exists m gid, (1 <= m <= length full)%nat /\
    readLoop parse client fuel go T (Z.of_nat (cnt pubTag W)) (Z.of_nat (cnt client W)) (Z.of_nat (cnt pubTag W + cnt client W)) out e (Z.of_nat i + 1)
             (isTagged pubTag c) (Z.of_nat (cc (S i)) + 1) (Z.of_nat (cp (S i)) + 1) prvG prvX pubG =
    (out ++ firstn m full, Finished (e + Z.of_nat m - 1, gid)) /\
    option_map fst (nth_error L (cp i + cc i + m - 1)) = Some gid /\
    (forall m', (1 <= m' < m)%nat -> go (out ++ firstn m' full) = true) /\
    (m = length full \/ go (out ++ firstn m full) = false).
Proof.
  induction fuel as [|fuel IH]; intros i c g out prvG prvX pubG N V Ki Fu Nx e full; [lia|].
  pose proof (L_at i c g N V) as La. pose proof L_len as Ll. pose proof (R_len _ _ _ _ R) as RL. pose proof (all_le _ _ _ _ R) as AL. unfold max64 in RL.
  assert (Li : (i < length W)%nat) by (apply nth_error_Some; congruence).
  assert (Le : (cp i + cc i < length L)%nat) by (apply nth_error_Some; congruence).
  assert (Fl : full = (e, viewOf parse client g) :: numbered parse client (e + 1) (skipn (S (cp i + cc i)) L)).
  { unfold full. clear - La. revert La. generalize (cp i + cc i)%nat. generalize L. intros l n. revert l. induction n as [|n IHn]; intros [|[a h] l] H; try discriminate; cbn in *. { inversion H. auto. } apply IHn. auto. }
  assert (Fn : length full = (length L - (cp i + cc i))%nat). { unfold full. rewrite numbered_len, skipn_length. auto. }
  cbn [readLoop]. destruct (Z.ltb_spec (Z.of_nat (cnt pubTag W + cnt client W)) e); [lia|].
  unfold getEventGroup. destruct R as (_ & _ & NPt & TP & TC & Dt). rewrite (Dt i c g N Ki).
  assert (Sg : sendable parse client g) by (apply (Sd c); auto; apply nth_error_In with (1 := N)).
  destruct (gevents g) as [|ev evs] eqn:Ge; [destruct Sg; congruence|]. rewrite (filterGroup_ok g Sg). fold e.
  set (out1 := out ++ [(e, viewOf parse client g)]).
  assert (Stop : forall b : bool, b = true -> (1 = length full)%nat \/ go out1 = false ->
     exists m gid, (1 <= m <= length full)%nat /\ (out1, Finished (e, Z.of_nat i + 1)) = (out ++ firstn m full, Finished (e + Z.of_nat m - 1, gid)) /\
       option_map fst (nth_error L (cp i + cc i + m - 1)) = Some gid /\ (forall m', (1 <= m' < m)%nat -> go (out ++ firstn m' full) = true) /\
       (m = length full \/ go (out ++ firstn m full) = false)).
  { intros _ _ H0. exists 1%nat, (Z.of_nat i + 1). split; [lia|]. rewrite Fl. cbn [firstn]. fold out1. split; [f_equal; f_equal; f_equal; lia|].
    split. { replace (cp i + cc i + 1 - 1)%nat with (cp i + cc i)%nat by lia. rewrite La. auto. } split; [intros; lia|]. rewrite <- Fl. auto. }
  destruct (go out1) eqn:Go; cbn [negb]; [|apply (Stop true); auto].
  destruct (Z.eqb_spec e (Z.of_nat (cnt pubTag W + cnt client W))); [apply (Stop true); auto; left; lia|].
  pose proof (cnt_S client W i c g N) as Sc. pose proof (cnt_S pubTag W i c g N) as Sp.
  (* the two candidates *)
  assert (Cand : exists G X P Y, nextRel client (S i) G X /\ nextRel pubTag (S i) P Y /\
     (if isTagged pubTag c then bind (nextOf T pubTag (Z.of_nat (cp (S i)) + 1) (Z.of_nat (cnt pubTag W))) (fun gx => Ok (prvG, prvX, fst gx))
      else bind (nextOf T client (Z.of_nat (cc (S i)) + 1) (Z.of_nat (cnt client W))) (fun gx => Ok (fst gx, snd gx, pubG))) = Ok (G, X, P)).
  { destruct (isTagged pubTag c).
    - destruct (nextOf_ok pubTag (S i) TP ltac:(lia)) as (P & Y & E & Rl). rewrite E. exists prvG, prvX, P, Y. auto.
    - destruct (nextOf_ok client (S i) TC ltac:(lia)) as (G & X & E & Rl). rewrite E. destruct Nx as (Y & Nx). exists G, X, pubG, Y. auto. }
  destruct Cand as (G & X & P & Y & RG & RP & ->).
  assert (SplitV : (cp (S i) + cc (S i) = cp i + cc i + 1)%nat).
  { rewrite (vis_tag client NPt) in V. destruct (isTagged pubTag c) eqn:A; [rewrite (tag_excl client NPt c A) in Sc; lia|]. cbn in V. rewrite V in Sc. lia. }
  (* moving on to the next visible index j *)
  assert (Move : forall j c' g' G2 X2 P2, (S i <= j)%nat -> nth_error W j = Some (c', g') -> visible client c' = true -> cp j = cp (S i) -> cc j = cc (S i) ->
     (if isTagged pubTag c' then nextRel client (S j) G2 X2 else exists X, nextRel pubTag (S j) P2 X) ->
     exists m gid, (1 <= m <= length full)%nat /\
       readLoop parse client fuel go T (Z.of_nat (cnt pubTag W)) (Z.of_nat (cnt client W)) (Z.of_nat (cnt pubTag W + cnt client W)) out1 (add64 e 1) (Z.of_nat j + 1)
             (isTagged pubTag c') (Z.of_nat (cc (S j)) + 1) (Z.of_nat (cp (S j)) + 1) G2 X2 P2 = (out ++ firstn m full, Finished (e + Z.of_nat m - 1, gid)) /\
       option_map fst (nth_error L (cp i + cc i + m - 1)) = Some gid /\ (forall m', (1 <= m' < m)%nat -> go (out ++ firstn m' full) = true) /\
       (m = length full \/ go (out ++ firstn m full) = false)).
  { intros j c' g' G2 X2 P2 Lj Nj Vj Ej Fj Nj2.
    destruct (IH j c' g' out1 G2 X2 P2 Nj Vj ltac:(lia) ltac:(lia) Nj2) as (m & gid & M1 & M2 & M3 & M4 & M5).
    rewrite (add64_ok e 1) by lia. replace (e + 1) with (Z.of_nat (cp j + cc j) + 1) by lia. rewrite M2.
    set (full' := numbered parse client (Z.of_nat (cp j + cc j) + 1) (skipn (cp j + cc j) L)) in *.
    assert (Ff : full = (e, viewOf parse client g) :: full'). { rewrite Fl. unfold full'. f_equal. f_equal; [lia|]. f_equal. lia. }
    assert (Fa : forall m, out ++ firstn (S m) full = out1 ++ firstn m full'). { intros m0. rewrite Ff. unfold out1. rewrite <- app_assoc. reflexivity. }
    exists (S m), gid. rewrite Fa. repeat split.
    - lia.
    - rewrite Ff. cbn [length]. lia.
    - do 2 f_equal. f_equal. lia.
    - replace (cp i + cc i + S m - 1)%nat with (cp j + cc j + m - 1)%nat by lia. auto.
    - intros [|[|m']] Hm; [lia| |]. { rewrite Ff. cbn [firstn]. exact Go. } rewrite Fa. apply M4. lia.
    - destruct M5 as [M5|M5]; [left; rewrite Ff; cbn [length]; lia|right; auto]. }
  assert (Skip : forall t u j c' g' G0 X0, nextRel t (S i) G0 X0 -> nth_error W j = Some (c', g') -> (S i <= j)%nat -> isTagged u c' = true -> isTagged t c' = false -> 
            (forall m c1 g1, (S i <= m < j)%nat -> nth_error W m = Some (c1, g1) -> isTagged t c1 = false) -> nextRel t (S j) G0 X0 /\ cnt t (firstn j W) = cnt t (firstn (S i) W)).
  { intros t u j c' g' G0 X0 Rl Nj Lj Tu Tt Nm.
    assert (Cj : cnt t (firstn j W) = cnt t (firstn (S i) W)).
    { clear - Nm Lj Nj. assert (Hj : (j < length W)%nat) by (apply nth_error_Some; congruence). clear Nj. induction j as [|j IHj]; [lia|]. destruct (Nat.eq_dec (S i) (S j)) as [<-|]; auto.
      destruct (nth_error W j) as [[c1 g1]|] eqn:E; [|apply nth_error_None in E; lia]. rewrite (cnt_S t W j c1 g1 E), (Nm j c1 g1) by (auto; lia). rewrite Nat.add_0_r. apply IHj; try lia. intros m c2 g2 Hm. apply Nm. lia. }
    assert (CSj : cnt t (firstn (S j) W) = cnt t (firstn (S i) W)) by (rewrite (cnt_S t W j c' g' Nj), Tt; lia).
    split; auto. destruct Rl as [[Q ->]|(n0 & cn & gn & N1 & N2 & N3 & N4 & N5 & N6 & N7)].
    - left. rewrite CSj. auto.
    - right. exists n0, cn, gn. assert ((S j <= n0)%nat). { destruct (Nat.lt_trichotomy n0 j) as [Q|[Q|Q]]; [|subst; congruence|lia]. rewrite (Nm n0 cn gn) in N3; [discriminate|lia|auto]. }
      repeat split; auto; try lia. intros m c1 g1 Hm. apply N5. lia. }
  (* some group is left *)
  assert (More : ~ (cnt pubTag W = cp (S i) /\ cnt client W = cc (S i))) by lia.
  destruct (Z.eqb_spec G max64) as [GM|GM], (Z.eqb_spec P max64) as [PM|PM]; cbn [andb].
  - exfalso. apply More. split.
    + destruct RP as [[? _]|(j & c' & g' & A & B & _ & _ & _ & E & _)]; auto. assert (j < length W)%nat by (apply nth_error_Some; congruence). unfold max64 in PM. lia.
    + destruct RG as [[? _]|(j & c' & g' & A & B & _ & _ & _ & E & _)]; auto. assert (j < length W)%nat by (apply nth_error_Some; congruence). unfold max64 in GM. lia.
  - (* only a public group is left *)
    destruct RP as [[_ ?]|(j & c' & g' & A & B & C & D & F & E & _)]; [congruence|]. assert (j < length W)%nat by (apply nth_error_Some; congruence).
    destruct (Z.ltb_spec G P); [unfold max64 in GM; lia|]. rewrite E.
    assert (NG : cnt client W = cc (S i)) by (destruct RG as [[? _]|(j' & c2 & g2 & A' & B' & _ & _ & _ & E' & _)]; auto; assert (j' < length W)%nat by (apply nth_error_Some; congruence); unfold max64 in GM; lia).
    assert (Nn : forall m c1 g1, (S i <= m)%nat -> nth_error W m = Some (c1, g1) -> isTagged client c1 = false).
    { intros m c1 g1 Hm Nm. destruct (isTagged client c1) eqn:Q; auto. pose proof (cnt_S client W m c1 g1 Nm) as Q2. rewrite Q in Q2. pose proof (cnt_le client W (S m)). pose proof (cnt_mono client W (S i) m Hm). lia. }
    destruct (Skip client pubTag j c' g' G X RG B A C (Nn j c' g' A B)) as [S1 S2]. { intros m c1 g1 Hm. apply Nn. lia. }
    pose proof (cnt_S client W j c' g' B) as Sc'. rewrite (Nn j c' g' A B) in Sc'. pose proof (cnt_S pubTag W j c' g' B) as Sp'. rewrite C in Sp'.
    specialize (Move j c' g' G X (Z.of_nat j + 1) A B). rewrite C in Move.
    rewrite (add64_ok (Z.of_nat (cp (S i)) + 1) 1) by lia.
    replace (Z.of_nat (cc (S i)) + 1) with (Z.of_nat (cc (S j)) + 1) by lia. replace (Z.of_nat (cp (S i)) + 1 + 1) with (Z.of_nat (cp (S j)) + 1) by lia.
    apply Move; auto. rewrite (vis_tag client NPt), C. auto.
  - (* only a private group is left *)
    destruct RG as [[_ ?]|(j & c' & g' & A & B & C & D & F & E & E2)]; [congruence|]. assert (j < length W)%nat by (apply nth_error_Some; congruence).
    destruct (Z.ltb_spec G P); [|unfold max64 in PM; lia]. rewrite E.
    assert (Cn : isTagged pubTag c' = false) by (destruct (isTagged pubTag c') eqn:Q; auto; rewrite (tag_excl client NPt c' Q) in C; discriminate).
    assert (NG : cnt pubTag W = cp (S i)) by (destruct RP as [[? _]|(j' & c2 & g2 & A' & B' & _ & _ & _ & E' & _)]; auto; assert (j' < length W)%nat by (apply nth_error_Some; congruence); unfold max64 in PM; lia).
    assert (Nn : forall m c1 g1, (S i <= m)%nat -> nth_error W m = Some (c1, g1) -> isTagged pubTag c1 = false).
    { intros m c1 g1 Hm Nm. destruct (isTagged pubTag c1) eqn:Q; auto. pose proof (cnt_S pubTag W m c1 g1 Nm) as Q2. rewrite Q in Q2. pose proof (cnt_le pubTag W (S m)). pose proof (cnt_mono pubTag W (S i) m Hm). lia. }
    destruct (Skip pubTag client j c' g' P Y RP B A C Cn) as [S1 S2]. { intros m c1 g1 Hm. apply Nn. lia. }
    pose proof (cnt_S client W j c' g' B) as Sc'. rewrite C in Sc'. pose proof (cnt_S pubTag W j c' g' B) as Sp'. rewrite Cn in Sp'.
    rewrite (E2 NPt). destruct (Z.eqb_spec (add64 e 1) (Z.of_nat (cc j) + 1 + Z.of_nat (cp j))) as [_|Ne]; [|rewrite add64_ok in Ne; lia].
    specialize (Move j c' g' (Z.of_nat j + 1) (Z.of_nat (cc j) + 1 + Z.of_nat (cp j)) P A B). rewrite Cn in Move.
    rewrite (add64_ok (Z.of_nat (cc (S i)) + 1) 1) by lia.
    replace (Z.of_nat (cc (S i)) + 1 + 1) with (Z.of_nat (cc (S j)) + 1) by lia. replace (Z.of_nat (cp (S i)) + 1) with (Z.of_nat (cp (S j)) + 1) by lia.
    apply Move; auto. { rewrite (vis_tag client NPt), C, orb_true_r. auto. } exists Y. auto.
  - (* both are left: the earlier one is next *)
    pose proof RG as RG0. pose proof RP as RP0.
    destruct RG as [[_ ?]|(j & c' & g' & A & B & C & D & F & E & E2)]; [congruence|]. destruct RP as [[_ ?]|(q & cq & gq & A' & B' & C' & D' & F' & E' & _)]; [congruence|].
    assert (j < length W)%nat by (apply nth_error_Some; congruence). assert (q < length W)%nat by (apply nth_error_Some; congruence).
    assert (Cn : isTagged pubTag c' = false) by (destruct (isTagged pubTag c') eqn:Q; auto; rewrite (tag_excl client NPt c' Q) in C; discriminate).
    pose proof (tag_excl client NPt cq C') as Cq.
    assert (j <> q) by (intros ->; rewrite B in B'; inversion B'; subst; congruence).
    destruct (Z.ltb_spec G P).
    + destruct (Skip pubTag client j c' g' P Y RP0 B A C Cn) as [S1 S2]. { intros m c1 g1 Hm. apply F'. lia. }
      pose proof (cnt_S client W j c' g' B) as Sc'. rewrite C in Sc'. pose proof (cnt_S pubTag W j c' g' B) as Sp'. rewrite Cn in Sp'.
      rewrite E, (E2 NPt). destruct (Z.eqb_spec (add64 e 1) (Z.of_nat (cc j) + 1 + Z.of_nat (cp j))) as [_|Ne]; [|rewrite add64_ok in Ne; lia].
      specialize (Move j c' g' (Z.of_nat j + 1) (Z.of_nat (cc j) + 1 + Z.of_nat (cp j)) P A B). rewrite Cn in Move.
      rewrite (add64_ok (Z.of_nat (cc (S i)) + 1) 1) by lia.
      replace (Z.of_nat (cc (S i)) + 1 + 1) with (Z.of_nat (cc (S j)) + 1) by lia. replace (Z.of_nat (cp (S i)) + 1) with (Z.of_nat (cp (S j)) + 1) by lia.
      apply Move; auto. { rewrite (vis_tag client NPt), C, orb_true_r. auto. } exists Y. auto.
    + destruct (Skip client pubTag q cq gq G X RG0 B' A' C' Cq) as [S1 S2]. { intros m c1 g1 Hm. apply F. lia. }
      pose proof (cnt_S client W q cq gq B') as Sc'. rewrite Cq in Sc'. pose proof (cnt_S pubTag W q cq gq B') as Sp'. rewrite C' in Sp'.
      rewrite E'. specialize (Move q cq gq G X (Z.of_nat q + 1) A' B'). rewrite C' in Move.
      rewrite (add64_ok (Z.of_nat (cp (S i)) + 1) 1) by lia.
      replace (Z.of_nat (cc (S i)) + 1) with (Z.of_nat (cc (S q)) + 1) by lia. replace (Z.of_nat (cp (S i)) + 1 + 1) with (Z.of_nat (cp (S q)) + 1) by lia.
      apply Move; auto. rewrite (vis_tag client NPt), C'. auto.
Qed.

(** The group with external id e. *)
Lemma at_ext e : Z.of_nat (cp k + cc k) < e <= Z.of_nat (length L) ->
  exists i c g, nth_error W i = Some (c, g) /\ visible client c = true /\ (k <= i)%nat /\ e = Z.of_nat (cp i + cc i) + 1 /\ nth_error L (Z.to_nat (e - 1)) = Some (Z.of_nat i + 1, g).
Proof.
  intros H. destruct (nth_error L (Z.to_nat (e - 1))) as [[gid g]|] eqn:E; [|apply nth_error_None in E; lia].
  destruct (seen_idx client (R_np _ _ _ _ R) W 1 _ _ E) as (i & c & A & B & C & D). cbn [fst snd] in *. exists i, c, g.
  assert (Ki : (k <= i)%nat).
  { destruct (Nat.le_gt_cases k i); auto. pose proof (cnt_mono pubTag W (S i) k ltac:(lia)) as Q1. pose proof (cnt_mono client W (S i) k ltac:(lia)) as Q2.
    pose proof (cnt_S client W i c g A) as Sc. pose proof (cnt_S pubTag W i c g A) as Sp. rewrite (vis_tag client (R_np _ _ _ _ R)) in B.
    destruct (isTagged pubTag c), (isTagged client c); try discriminate; lia. }
  repeat split; auto; [lia|]. f_equal. f_equal. lia.
Qed.

Lemma read_ok (go : list (Z * group) -> bool) start : Z.of_nat (cp k + cc k) < start <= Z.of_nat (length L) ->
  let full := numbered parse client start (skipn (Z.to_nat (start - 1)) L) in
  exists m gid, (1 <= m <= length full)%nat /\
    readEventGroups parse client go T T start = (firstn m full, Finished (start + Z.of_nat m - 1, gid)) /\
    option_map fst (nth_error L (Z.to_nat (start - 1) + m - 1)) = Some gid /\
    (forall m', (1 <= m' < m)%nat -> go (firstn m' full) = true) /\
    (m = length full \/ go (firstn m full) = false).
Proof.
  intros H full. destruct (at_ext start H) as (i & c & g & N & V & Ki & Es & Ln). pose proof L_len as Ll.
  assert (Li : (i < length W)%nat) by (apply nth_error_Some; congruence).
  pose proof (R_len _ _ _ _ R) as RL. unfold max64 in RL. pose proof (cnt_len client W). pose proof (cnt_len pubTag W).
  pose proof (cnt_le client W (S i)). pose proof (cnt_le pubTag W (S i)).
  unfold readEventGroups. destruct (Z.leb_spec start 0); [lia|]. rewrite (newest_eq _ _ _ _ R), (oldest_eq _ _ _ _ R).
  destruct (Nat.eqb_spec (cp k + cc k) (cnt pubTag W + cnt client W)); [lia|].
  destruct (Z.eqb_spec (Z.of_nat (cp k + cc k) + 1) 0); [lia|].
  destruct (Z.ltb_spec start (Z.of_nat (cp k + cc k) + 1)); [lia|]. destruct (Z.ltb_spec (Z.of_nat (cnt pubTag W + cnt client W)) start); [lia|]. cbn [orb].
  pose proof (f_equal (findGlobal client T) Es) as Ef0. rewrite Ef0, (find_ok _ _ _ _ R i c g N V Ki). cbn [fpriv fpub fglobal fpublic]. rewrite !add64_ok by lia.
  destruct (getOrMax_ok client (S i) (Tc _ _ _ _ R) ltac:(lia)) as (G & X & -> & RG).
  destruct (getOrMax_ok pubTag (S i) (Tp _ _ _ _ R) ltac:(lia)) as (P & Y & -> & RP).
  destruct (Tp _ _ _ _ R) as (-> & _). destruct (Tc _ _ _ _ R) as (-> & _).
  assert (Hf : (length L - (cp i + cc i) < Z.to_nat (Z.of_nat (cnt pubTag W + cnt client W) - start) + 2)%nat) by lia.
  assert (Hn : if isTagged pubTag c then nextRel client (S i) G X else exists X, nextRel pubTag (S i) P X) by (destruct (isTagged pubTag c); eauto).
  destruct (loop_ok go _ i c g [] G X P N V Ki Hf Hn) as (m & gid & M1 & M2 & M3 & M4 & M5).
  assert (Ef : full = numbered parse client (Z.of_nat (cp i + cc i) + 1) (skipn (cp i + cc i) L)).
  { unfold full. rewrite Es. f_equal. f_equal. lia. }
  rewrite <- Ef in *. exists m, gid. rewrite <- Es in M2. split; auto. split; [exact M2|]. split; [|split; auto].
  rewrite <- M3. do 2 f_equal. lia.
Qed.
End Read.
End F.
