From Coq Require Import ZArith NArith List Bool Lia.
From Verif Require Import Lib_Bytes Flt_Model Flt_Proofs Flt_Proofs2.
Import ListNotations.
Local Open Scope Z_scope.

Section S.
Context (parse : bytes -> parsed) (client : bytes).
Notation numb := (numbered parse client).
Notation view := (viewOf parse client).

Lemma seen_app g0 A B : seen client g0 (A ++ B) = seen client g0 A ++ seen client (g0 + Z.of_nat (length A)) B.
Proof.
  revert g0. induction A as [|[c g] A IH]; intros g0; cbn [app seen length]. { f_equal. lia. }
  rewrite IH, app_assoc. do 2 f_equal. lia.
Qed.
Lemma numb_app e a b : numb e (a ++ b) = numb e a ++ numb (e + Z.of_nat (length a)) b.
Proof. revert e. induction a as [|[x g] a IH]; intros e; cbn [app numbered length]. { f_equal. lia. } rewrite IH. cbn [app]. do 3 f_equal. lia. Qed.

(** filterEventGroupUpdate on a group whose class and tags agree. *)
Lemma filterEg_ok c x g : sendable parse client x -> (visible client c = true <-> visibleEvents parse client (gevents x) <> []) ->
  filterEgUpdate parse client g x = Ok (if visible client c then Some (g, view x) else None).
Proof.
  intros Sd Cn. unfold filterEgUpdate. rewrite (filterGroup_ok parse client x Sd). cbn [bind]. unfold viewOf. cbn [gevents].
  destruct (visible client c), (visibleEvents parse client (gevents x)) as [|y l] eqn:E; auto; exfalso.
  - destruct Cn as [Cn _]. apply Cn; auto.
  - destruct Cn as [_ Cn]. discriminate Cn. discriminate.
Qed.

Definition okHist (W : hist) : Prop := (forall c g, In (c, g) W -> sendable parse client g) /\ consistent parse client W.
Lemma okHist_app A B : okHist (A ++ B) -> okHist A /\ okHist B.
Proof. intros [H1 H2]. split; (split; [intros c g H; apply (H1 c g), in_or_app; auto|intros c g H; apply H2, in_or_app; auto]). Qed.
Lemma okHist_cons c g W : okHist ((c, g) :: W) -> sendable parse client g /\ (visible client c = true <-> visibleEvents parse client (gevents g) <> []) /\ okHist W.
Proof. intros H. destruct (okHist_app [(c, g)] W H) as [[A B] C]. split; [apply (A c); left; auto|]. split; [apply (B c); left; auto|auto]. Qed.

(** The ids recorded after delivering the groups of V, numbered from g0, to a client that had got n groups, the last with id l. *)
Fixpoint after (e l g0 : Z) (V : hist) : Z * Z :=
  match V with [] => (e, l) | (c, _) :: V => if visible client c then after (e + 1) g0 (g0 + 1) V else after e l (g0 + 1) V end.

Lemma live_ok V : forall g0 e l out, okHist V -> l < g0 -> 0 <= e -> e + Z.of_nat (length V) < two64 ->
  live parse client (e, l) (announced g0 V) out = (out ++ numb (e + 1) (seen client g0 V), Waiting (after e l g0 V)).
Proof.
  induction V as [|[c x] V IH]; intros g0 e l out O L E B; cbn [announced live seen after]. { cbn. rewrite app_nil_r. auto. }
  destruct (okHist_cons _ _ _ O) as (Sd & Cn & O'). cbn [length] in B. cbn [snd fst].
  destruct (Z.leb_spec g0 l); [lia|]. rewrite (filterEg_ok c x g0 Sd Cn). destruct (visible client c).
  - rewrite (add64_ok e 1) by lia. rewrite IH by (auto; lia). cbn [app numbered]. rewrite <- app_assoc. reflexivity.
  - rewrite IH by (auto; lia). reflexivity.
Qed.

(** A gap in which no group is for the client. *)
Lemma gap_skip D V : forall g0 ext last out, okHist V -> (forall i c x, nth_error V i = Some (c, x) -> D (g0 + Z.of_nat i) = Some x) ->
  seen client g0 V = [] -> 0 <= g0 -> g0 + Z.of_nat (length V) < two64 ->
  gap parse client (length V) D g0 ext last out = (out, Ok last).
Proof.
  induction V as [|[c x] V IH]; intros g0 ext last out O Dt Se P B; cbn [length gap]; auto.
  destruct (okHist_cons _ _ _ O) as (Sd & Cn & O'). cbn [length] in B.
  pose proof (Dt 0%nat c x eq_refl) as D0. cbn in D0. rewrite Z.add_0_r in D0. rewrite D0.
  destruct (gevents x) as [|ev evs] eqn:Ge; [destruct Sd; congruence|]. rewrite <- Ge in *. rewrite (filterEg_ok c x g0 Sd Cn). cbn [seen] in Se.
  destruct (visible client c); [discriminate|]. rewrite add64_ok by lia. apply IH; auto; try lia.
  intros i c' x' Ni. specialize (Dt (S i) c' x' Ni). replace (g0 + 1 + Z.of_nat i) with (g0 + Z.of_nat (S i)) by lia. auto.
Qed.
(** Any gap, numbered from ext. *)
Lemma gap_ok D V : forall g0 ext e l out, okHist V -> (forall i c x, nth_error V i = Some (c, x) -> D (g0 + Z.of_nat i) = Some x) ->
  0 <= g0 -> g0 + Z.of_nat (length V) < two64 -> 0 <= e -> e + Z.of_nat (length V) + 1 < two64 -> ext = e + 1 ->
  gap parse client (length V) D g0 ext (e, l) out = (out ++ numb (e + 1) (seen client g0 V), Ok (after e l g0 V)).
Proof.
  induction V as [|[c x] V IH]; intros g0 ext e l out O Dt P B Pe Be ->; cbn [length gap seen after]. { cbn. rewrite app_nil_r. auto. }
  destruct (okHist_cons _ _ _ O) as (Sd & Cn & O'). cbn [length] in B, Be.
  pose proof (Dt 0%nat c x eq_refl) as D0. cbn in D0. rewrite Z.add_0_r in D0. rewrite D0.
  assert (Dt' : forall i c x, nth_error V i = Some (c, x) -> D (g0 + 1 + Z.of_nat i) = Some x).
  { intros i c' x' Ni. specialize (Dt (S i) c' x' Ni). replace (g0 + 1 + Z.of_nat i) with (g0 + Z.of_nat (S i)) by lia. auto. }
  destruct (gevents x) as [|ev evs] eqn:Ge; [destruct Sd; congruence|]. rewrite <- Ge in *. rewrite (filterEg_ok c x g0 Sd Cn).
  destruct (visible client c).
  - rewrite !add64_ok by lia. rewrite (IH (g0 + 1) (e + 1 + 1) (e + 1) g0) by (auto; lia). cbn [app numbered]. rewrite <- app_assoc. reflexivity.
  - rewrite add64_ok by lia. rewrite IH by (auto; lia). reflexivity.
Qed.

Lemma announced_app g A B : announced g (A ++ B) = announced g A ++ announced (g + Z.of_nat (length A)) B.
Proof. revert g. induction A as [|[c x] A IH]; intros g; cbn [app announced length]. { f_equal. lia. } rewrite IH. cbn [app]. do 3 f_equal. lia. Qed.
Lemma after_app e l g A B : after e l g (A ++ B) = let '(e', l') := after e l g A in after e' l' (g + Z.of_nat (length A)) B.
Proof. revert e l g. induction A as [|[c x] A IH]; intros e l g; cbn [app after length]. { cbn. rewrite Z.add_0_r. auto. } replace (g + Z.of_nat (S (length A))) with (g + 1 + Z.of_nat (length A)) by lia. destruct (visible client c); apply IH. Qed.
Lemma after_skip e l g A : seen client g A = [] -> after e l g A = (e, l).
Proof. revert g. induction A as [|[c x] A IH]; intros g H; cbn [seen after] in *; auto. destruct (visible client c); [discriminate|]. apply (IH (g + 1)). auto. Qed.

(** The announced groups below next are dropped. *)
Lemma sync_drop D endExt V : forall g0 next last q out, g0 + Z.of_nat (length V) <= next ->
  sync parse client D endExt next last (announced g0 V ++ q) out = sync parse client D endExt next last q out.
Proof.
  induction V as [|[c x] V IH]; intros g0 next last q out H; cbn [announced app]; auto. cbn [length] in H.
  cbn [sync]. destruct (Z.ltb_spec g0 next); [|lia]. apply IH. lia.
Qed.
(** The announced groups from next on. *)
Lemma sync_eq D endExt V : forall next e l out, okHist V -> l < next -> 0 <= next -> next + Z.of_nat (length V) < two64 -> 0 <= e -> e + Z.of_nat (length V) < two64 ->
  sync parse client D endExt next (e, l) (announced next V) out = (out ++ numb (e + 1) (seen client next V), Waiting (after e l next V)).
Proof.
  induction V as [|[c x] V IH]; intros next e l out O L P B Pe Be; cbn [announced sync seen after]. { cbn. rewrite app_nil_r. auto. }
  destruct (okHist_cons _ _ _ O) as (Sd & Cn & O'). cbn [length] in B, Be.
  rewrite Z.ltb_irrefl, Z.eqb_refl. rewrite (filterEg_ok c x next Sd Cn). destruct (visible client c) eqn:V1.
  - change ((next, x) :: announced (next + 1) V) with (announced next ((c, x) :: V)). rewrite (live_ok ((c, x) :: V) next e l out O) by (cbn [length]; lia).
    cbn [seen after]. rewrite V1. reflexivity.
  - rewrite add64_ok by lia. rewrite IH by (auto; lia). reflexivity.
Qed.

(** The whole phase after the history: the client got e groups, the last one having global id l; W = all groups; the announced ones are
    those from index a on; a gap is either without groups of the client or numbered from the right id. *)
Lemma sync_ok D W a l e endExt out : okHist W -> Z.of_nat (length W) + 1 < two64 -> 0 <= l <= Z.of_nat (length W) -> 0 <= e <= l ->
  (a <= length W)%nat -> skipn a W <> [] ->
  (forall i c x, nth_error W i = Some (c, x) -> l <= Z.of_nat i -> D (Z.of_nat i + 1) = Some x) ->
  (forall V, skipn (Z.to_nat l) (firstn a W) = V -> seen client (l + 1) V = [] \/ endExt = e) ->
  sync parse client D endExt (l + 1) (e, l) (announced (Z.of_nat a + 1) (skipn a W)) out =
  (out ++ numb (e + 1) (seen client (l + 1) (skipn (Z.to_nat l) W)), Waiting (after e l (l + 1) (skipn (Z.to_nat l) W))).
Proof.
  intros O B Ll Le La Ne Dt Gp. destruct (Z.le_gt_cases (Z.of_nat a) l) as [C|C].
  - (* announced from before: drop *)
    assert (Sp : skipn a W = firstn (Z.to_nat l - a) (skipn a W) ++ skipn (Z.to_nat l) W).
    { rewrite <- (firstn_skipn (Z.to_nat l - a) (skipn a W)) at 1. f_equal. rewrite skipn_add. f_equal. lia. }
    set (V := firstn (Z.to_nat l - a) (skipn a W)) in *. assert (LV : Z.of_nat (length V) = l - Z.of_nat a). { unfold V. rewrite firstn_length, skipn_length. lia. }
    rewrite Sp, announced_app. rewrite sync_drop by lia. replace (Z.of_nat a + 1 + Z.of_nat (length V)) with (l + 1) by lia.
    apply sync_eq; try lia; rewrite ?skipn_length; try lia.
    rewrite <- (firstn_skipn (Z.to_nat l) W) in O. apply (okHist_app _ _ O).
  - (* a gap *)
    assert (Sp : skipn (Z.to_nat l) W = skipn (Z.to_nat l) (firstn a W) ++ skipn a W).
    { rewrite <- (firstn_skipn a W) at 1. rewrite skipn_app. f_equal. rewrite firstn_length. replace (Z.to_nat l - Nat.min a (length W))%nat with 0%nat by lia. auto. }
    set (V := skipn (Z.to_nat l) (firstn a W)) in *. assert (LV : Z.of_nat (length V) = Z.of_nat a - l). { unfold V. rewrite skipn_length, firstn_length. lia. }
    assert (OV : okHist V /\ okHist (skipn a W)). { rewrite <- (firstn_skipn (Z.to_nat l) W), Sp in O. apply okHist_app in O. destruct O as [_ O]. apply okHist_app. auto. }
    assert (DV : forall i c x, nth_error V i = Some (c, x) -> D (l + 1 + Z.of_nat i) = Some x).
    { intros i c x Ni. replace (l + 1 + Z.of_nat i) with (Z.of_nat (Z.to_nat l + i) + 1) by lia. apply (Dt _ c); [|lia].
      unfold V in Ni. assert (Hi : (Z.to_nat l + i < a)%nat). { assert (i < length V)%nat by (apply nth_error_Some; unfold V; congruence). lia. }
      clear - Ni Hi. rewrite <- (firstn_skipn a W). rewrite nth_error_app1 by (rewrite firstn_length; assert (Z.to_nat l + i < length W)%nat; [|lia];
        assert (i < length (skipn (Z.to_nat l) (firstn a W)))%nat by (apply nth_error_Some; congruence); rewrite skipn_length, firstn_length in *; lia).
      revert Ni. generalize (firstn a W). generalize (Z.to_nat l). clear. intros n. induction n as [|n IH]; intros [|y W]; cbn; auto. destruct i; discriminate. }
    destruct (skipn a W) as [|[c x] V'] eqn:Ea; [congruence|]. cbn [announced sync].
    destruct (Z.ltb_spec (Z.of_nat a + 1) (l + 1)); [lia|]. destruct (Z.eqb_spec (Z.of_nat a + 1) (l + 1)); [lia|].
    replace (Z.to_nat (Z.of_nat a + 1 - (l + 1))) with (length V) by lia.
    change ((Z.of_nat a + 1, x) :: announced (Z.of_nat a + 1 + 1) V') with (announced (Z.of_nat a + 1) ((c, x) :: V')).
    assert (LW : (length W = a + length ((c, x) :: V'))%nat). { rewrite <- Ea, skipn_length. lia. }
    rewrite Sp, seen_app, after_app, numb_app.
    destruct (Gp V eq_refl) as [S0|Ee].
    + rewrite (gap_skip D V) by (try tauto; auto; lia). rewrite (after_skip e l (l + 1) V S0), S0. cbn [numbered length app].
      replace (l + 1 + Z.of_nat (length V)) with (Z.of_nat a + 1) by lia. rewrite (live_ok ((c, x) :: V')) by (try tauto; lia). cbn [Z.of_nat]. rewrite Z.add_0_r. reflexivity.
    + rewrite (gap_ok D V (l + 1) (add64 endExt 1) e l out) by (try tauto; auto; try lia; rewrite add64_ok; lia).
      assert (Af : exists e' l', after e l (l + 1) V = (e', l') /\ l' < Z.of_nat a + 1 /\ e' = e + Z.of_nat (length (seen client (l + 1) V)) /\ e' <= e + Z.of_nat (length V)).
      { assert (Hg : forall V g e l, l < g -> exists e' l', after e l g V = (e', l') /\ l' < g + Z.of_nat (length V) /\ e' = e + Z.of_nat (length (seen client g V)) /\ e' <= e + Z.of_nat (length V)).
        { clear. induction V as [|[c x] V IH]; intros g e l H; cbn [after seen length]. { exists e, l. cbn. repeat split; lia. }
          destruct (visible client c).
          - destruct (IH (g + 1) (e + 1) g ltac:(lia)) as (e' & l' & A1 & A2 & A3 & A4). exists e', l'. cbn [app length]. repeat split; auto; lia.
          - destruct (IH (g + 1) e l ltac:(lia)) as (e' & l' & A1 & A2 & A3 & A4). exists e', l'. cbn [app length]. repeat split; auto; lia. }
        destruct (Hg V (l + 1) e l ltac:(lia)) as (e' & l' & A1 & A2 & A3 & A4). exists e', l'. repeat split; auto; lia. }
      destruct Af as (e' & l' & -> & A2 & A3 & A4). rewrite (live_ok ((c, x) :: V')) by (try tauto; cbn [length] in *; lia).
      replace (l + 1 + Z.of_nat (length V)) with (Z.of_nat a + 1) by lia. rewrite <- app_assoc. do 4 f_equal. lia.
Qed.
End S.
