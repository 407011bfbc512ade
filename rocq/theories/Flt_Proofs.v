From Coq Require Import ZArith NArith List Bool Lia.
From Verif Require Import Lib_Bytes Flt_Model.
Import ListNotations.
Local Open Scope Z_scope.

Lemma beq_spec a b : reflect (a = b) (beq a b).
Proof. unfold beq. destruct (list_eq_dec N.eq_dec a b); constructor; auto. Qed.
Lemma beq_refl a : beq a a = true. Proof. destruct (beq_spec a a); auto. Qed.

(** * Counting *)
Lemma cnt_app t a b : cnt t (a ++ b) = (cnt t a + cnt t b)%nat.
Proof. induction a as [|[c g] a IH]; cbn; auto. rewrite IH. lia. Qed.
Lemma firstn_snoc {A} (l : list A) : forall i x, nth_error l i = Some x -> firstn (S i) l = firstn i l ++ [x].
Proof. induction l as [|y l IH]; intros [|i] x H; cbn in *; try discriminate. { inversion H. auto. } f_equal. apply (IH i x). auto. Qed.
Lemma cnt_S t W i c g : nth_error W i = Some (c, g) -> cnt t (firstn (S i) W) = (cnt t (firstn i W) + (if isTagged t c then 1 else 0))%nat.
Proof. intros H. rewrite (firstn_snoc _ _ _ H), cnt_app. cbn. lia. Qed.
Lemma cnt_split t W i : cnt t W = (cnt t (firstn i W) + cnt t (skipn i W))%nat.
Proof. rewrite <- cnt_app, firstn_skipn. auto. Qed.
Lemma cnt_mono t W i j : (i <= j)%nat -> (cnt t (firstn i W) <= cnt t (firstn j W))%nat.
Proof.
  intros H. rewrite (cnt_split t (firstn j W) i). rewrite firstn_firstn, Nat.min_l; lia.
Qed.
Lemma cnt_le t W i : (cnt t (firstn i W) <= cnt t W)%nat.
Proof. rewrite (cnt_split t W i). lia. Qed.
Lemma cnt_len t W : (cnt t W <= length W)%nat.
Proof. induction W as [|[c g] W IH]; cbn; auto. destruct (isTagged t c); lia. Qed.
Lemma cnt_lt_len t W i : (i < length W)%nat -> (cnt t (firstn i W) <= i)%nat.
Proof. intros H. etransitivity; [apply cnt_len|]. rewrite firstn_length. lia. Qed.

(** The next group with the tag at or after index i. *)
Lemma next_tagged t W : forall n i, (length W - i = n)%nat -> (i <= length W)%nat ->
  cnt t W = cnt t (firstn i W) \/
  exists j c g, (i <= j)%nat /\ nth_error W j = Some (c, g) /\ isTagged t c = true /\ cnt t (firstn j W) = cnt t (firstn i W) /\
                (forall m c' g', (i <= m < j)%nat -> nth_error W m = Some (c', g') -> isTagged t c' = false).
Proof.
  induction n as [|n IH]; intros i E L.
  - left. rewrite (firstn_all2 (n := i)) by lia. auto.
  - destruct (nth_error W i) as [[c g]|] eqn:N; [|apply nth_error_None in N; lia].
    destruct (isTagged t c) eqn:Tc.
    + right. exists i, c, g. repeat split; auto. intros; lia.
    + destruct (IH (S i)) as [Q|(j & c1 & g1 & A & B & C & D & F)]; try lia.
      * left. rewrite Q, (cnt_S t W i c g N), Tc. lia.
      * right. exists j, c1, g1. repeat split; auto; try lia. { rewrite D, (cnt_S t W i c g N), Tc. lia. }
        intros m c' g' M X. destruct (Nat.eq_dec m i) as [->|]; [congruence|]. apply (F m c' g'); auto. lia.
Qed.
Lemma nth_tagged t W k p : (cnt t (firstn k W) < p <= cnt t W)%nat -> (k <= length W)%nat ->
  exists j c g, (k <= j)%nat /\ nth_error W j = Some (c, g) /\ isTagged t c = true /\ (cnt t (firstn j W) + 1 = p)%nat.
Proof.
  intros H. remember (p - cnt t (firstn k W))%nat as d. revert k H Heqd. induction d as [|d IH]; intros k H E L; [lia|].
  destruct (next_tagged t W _ k eq_refl L) as [Q|(j & c & g & A & B & C & D & F)]; [lia|].
  destruct (Nat.eq_dec p (cnt t (firstn k W) + 1)) as [->|Ne]. { exists j, c, g. repeat split; auto; lia. }
  pose proof (cnt_S t W j c g B) as Sj. rewrite C in Sj. assert (j < length W)%nat by (apply nth_error_Some; congruence).
  destruct (IH (S j)) as (j' & c' & g' & A' & B' & C' & D'); try lia. exists j', c', g'. repeat split; auto. lia.
Qed.

(** * The client's order *)
Section Client.
Context (client : bytes) (NP : client <> pubTag).
Notation cp W := (cnt pubTag W).
Notation cc W := (cnt client W).
Lemma vis_tag c : visible client c = isTagged pubTag c || isTagged client c.
Proof.
  destruct c as [|l]; cbn [visible isTagged]; [rewrite beq_refl; auto|]. rewrite beq_refl. destruct (beq_spec client pubTag); [tauto|]. auto.
Qed.
Lemma tag_excl c : isTagged pubTag c = true -> isTagged client c = false.
Proof. destruct c as [|l]; cbn [isTagged]. { destruct (beq_spec client pubTag); tauto. } rewrite beq_refl. discriminate. Qed.
Lemma seen_len W : forall g0, length (seen client g0 W) = (cp W + cc W)%nat.
Proof.
  induction W as [|[c g] W IH]; intros g0; [reflexivity|]. cbn [seen cnt]. rewrite app_length, IH, vis_tag.
  destruct (isTagged pubTag c) eqn:A, (isTagged client c) eqn:B; cbn; try lia. rewrite (tag_excl c A) in B. discriminate.
Qed.
Lemma seen_nth W : forall g0 i c g, nth_error W i = Some (c, g) -> visible client c = true ->
  nth_error (seen client g0 W) (cp (firstn i W) + cc (firstn i W)) = Some (g0 + Z.of_nat i, g).
Proof.
  induction W as [|[c0 g1] W IH]; intros g0 [|i] c g H V; try discriminate; cbn [nth_error] in H.
  - inversion H; subst. cbn. rewrite V. cbn. f_equal. f_equal. lia.
  - cbn [firstn seen cnt]. specialize (IH (g0 + 1) i c g H V).
    replace (g0 + Z.of_nat (S i)) with (g0 + 1 + Z.of_nat i) by lia.
    rewrite vis_tag. destruct (isTagged pubTag c0) eqn:A, (isTagged client c0) eqn:B; cbn.
    + rewrite (tag_excl c0 A) in B. discriminate.
    + exact IH.
    + replace (cp (firstn i W) + S (cc (firstn i W)))%nat with (S (cp (firstn i W) + cc (firstn i W))) by lia. exact IH.
    + exact IH.
Qed.
Lemma seen_idx W : forall g0 n r, nth_error (seen client g0 W) n = Some r ->
  exists i c, nth_error W i = Some (c, snd r) /\ visible client c = true /\ fst r = g0 + Z.of_nat i /\ n = (cp (firstn i W) + cc (firstn i W))%nat.
Proof.
  induction W as [|[c0 g1] W IH]; intros g0 n r H; [destruct n; discriminate|]. cbn [seen] in H.
  destruct (visible client c0) eqn:V; cbn [app] in H.
  - destruct n as [|n]; cbn in H.
    + inversion H; subst. exists 0%nat, c0. cbn. repeat split; auto. lia.
    + destruct (IH _ _ _ H) as (i & c & A & B & C & D). exists (S i), c. cbn [nth_error firstn cnt]. repeat split; auto; [lia|].
      rewrite vis_tag in V. destruct (isTagged pubTag c0) eqn:P, (isTagged client c0) eqn:Q; cbn; try lia; try discriminate. rewrite (tag_excl c0 P) in Q. discriminate.
  - destruct (IH _ _ _ H) as (i & c & A & B & C & D). exists (S i), c. cbn [nth_error firstn cnt]. repeat split; auto; [lia|].
    rewrite vis_tag in V. destruct (isTagged pubTag c0) eqn:P, (isTagged client c0) eqn:Q; cbn; try lia; try discriminate.
Qed.
End Client.

Lemma two64_big : 2 < two64. Proof. reflexivity. Qed.
Lemma add64_ok a b : 0 <= a + b < two64 -> add64 a b = a + b.
Proof. intros. unfold add64. apply Z.mod_small. auto. Qed.
Lemma sub64_ok a b : 0 <= a - b < two64 -> sub64 a b = a - b.
Proof. intros. unfold sub64. apply Z.mod_small. auto. Qed.

(** * The tables *)
Section Tables.
Context (client : bytes) (T : store) (W : hist) (k : nat) (R : represents T W k client).
Notation cp i := (cnt pubTag (firstn i W)).
Notation cc i := (cnt client (firstn i W)).
Lemma R_np : client <> pubTag. Proof. apply R. Qed.
Lemma R_k : (k <= length W)%nat. Proof. apply R. Qed.
Lemma R_len : Z.of_nat (length W) < max64. Proof. apply R. Qed.
Lemma both_le i : (i <= length W)%nat -> (cp i + cc i <= i)%nat.
Proof.
  intros L. rewrite <- (seen_len client R_np _ 1). etransitivity; [|apply (firstn_le_length i W)].
  rewrite firstn_length, Nat.min_l by lia.
  assert (X : forall (V : hist) g0, (length (seen client g0 V) <= length V)%nat).
  { induction V as [|[c g] V IH]; intros g0; cbn; auto. rewrite app_length. destruct (visible client c); cbn; specialize (IH (g0 + 1)); lia. }
  etransitivity; [apply X|]. rewrite firstn_length. lia.
Qed.
Lemma all_le : (cnt pubTag W + cnt client W <= length W)%nat.
Proof. pose proof (both_le (length W) (le_n _)) as H. rewrite firstn_all in H. auto. Qed.

Lemma getTag_of t : tablesFor T W k t -> forall i c g, nth_error W i = Some (c, g) -> isTagged t c = true -> (k <= i)%nat ->
  exists x, getTag T t (Z.of_nat (cnt t (firstn i W)) + 1) = Ok (Z.of_nat i + 1, x) /\
            (t <> pubTag -> x = Z.of_nat (cnt t (firstn i W)) + 1 + Z.of_nat (cp i)).
Proof.
  intros (_ & _ & E & _) i c g N Tc L. destruct (E i c g N Tc L) as (x & A & B). exists x. split; auto. unfold getTag. rewrite A.
  destruct (Z.eqb_spec (Z.of_nat i + 1) 0); [lia|auto].
Qed.
Lemma Tp : tablesFor T W k pubTag. Proof. apply R. Qed.
Lemma Tc : tablesFor T W k client. Proof. apply R. Qed.
Lemma newest_eq : newestExternal client T = Z.of_nat (cnt pubTag W + cnt client W).
Proof.
  unfold newestExternal. destruct Tp as (-> & _). destruct Tc as (-> & _). pose proof all_le. pose proof R_len. unfold max64 in *.
  rewrite add64_ok; lia.
Qed.
Lemma oldest_eq : oldestExternal client T =
  if (cp k + cc k =? cnt pubTag W + cnt client W)%nat then 0 else Z.of_nat (cp k + cc k) + 1.
Proof.
  unfold oldestExternal. destruct Tp as (En & Ep & _). destruct Tc as (Fn & Fp & _). rewrite En, Ep, Fn, Fp. pose proof all_le. pose proof R_len. unfold max64 in *.
  pose proof (cnt_le pubTag W k). pose proof (cnt_le client W k).
  destruct (Nat.eqb_spec (cp k) (cnt pubTag W)), (Nat.eqb_spec (cc k) (cnt client W)), (Nat.eqb_spec (cp k + cc k) (cnt pubTag W + cnt client W)); try lia;
    cbn [Z.eqb andb].
  - auto.
  - destruct (Z.eqb_spec (Z.of_nat (cc k) + 1) 0); [lia|]. rewrite add64_ok; lia.
  - destruct (Z.eqb_spec (Z.of_nat (cp k) + 1) 0); [lia|]. cbn. rewrite add64_ok; lia.
  - destruct (Z.eqb_spec (Z.of_nat (cp k) + 1) 0), (Z.eqb_spec (Z.of_nat (cc k) + 1) 0); try lia. cbn.
    rewrite add64_ok by lia. rewrite sub64_ok; lia.
Qed.

(** The private entries: their external ids grow. *)
Definition isPrv (j : nat) (p : Z) : Prop := exists c g, (k <= j)%nat /\ nth_error W j = Some (c, g) /\ isTagged client c = true /\ p = Z.of_nat (cc j) + 1.
Lemma prv_ex p : Z.of_nat (cc k) < p <= Z.of_nat (cnt client W) -> exists j, isPrv j p.
Proof.
  intros H. destruct (nth_tagged client W k (Z.to_nat p)) as (j & c & g & A & B & C & D); [lia|apply R_k|].
  exists j, c, g. repeat split; auto. lia.
Qed.
Lemma prv_get j p : isPrv j p -> getTag T client p = Ok (Z.of_nat j + 1, p + Z.of_nat (cp j)).
Proof.
  intros (c & g & A & B & C & ->). destruct (getTag_of client Tc j c g B C A) as (x & E & X). rewrite E. f_equal. f_equal. apply X. apply R_np.
Qed.
Lemma prv_range j p : isPrv j p -> Z.of_nat (cc k) < p <= Z.of_nat (cnt client W) /\ (j < length W)%nat /\ p + Z.of_nat (cp j) <= Z.of_nat (length W).
Proof.
  intros (c & g & A & B & C & ->). assert (J : (j < length W)%nat) by (apply nth_error_Some; congruence).
  pose proof (cnt_mono client W k j A). pose proof (cnt_S client W j c g B) as Q. rewrite C in Q. pose proof (cnt_le client W (S j)).
  pose proof (both_le j ltac:(lia)). lia.
Qed.
(** Index order, number order and external order agree. *)
Lemma prv_lt j p i : isPrv j p -> (j < i)%nat -> (i <= length W)%nat -> p <= Z.of_nat (cc i) /\ p + Z.of_nat (cp j) <= Z.of_nat (cp i + cc i).
Proof.
  intros (c & g & A & B & C & ->) L _. pose proof (cnt_S client W j c g B) as Q. rewrite C in Q.
  pose proof (cnt_mono client W (S j) i L). pose proof (cnt_mono pubTag W j i ltac:(lia)). lia.
Qed.
Lemma prv_ge j p i : isPrv j p -> (i <= j)%nat -> Z.of_nat (cc i) < p /\ Z.of_nat (cp i + cc i) < p + Z.of_nat (cp j).
Proof.
  intros (c & g & A & B & C & ->) L. pose proof (cnt_mono client W i j L). pose proof (cnt_mono pubTag W i j L). lia.
Qed.

(** The binary search, for the external id of the group at index i (e = number of the client's groups before it, plus one): the entry
    it ends at is that group if it is private, else one of its two neighbours among the private groups. *)
Lemma search_ok i (Hk : (k <= i)%nat) (Hi : (i < length W)%nat) : let e := Z.of_nat (cp i + cc i) + 1 in
  forall fuel ws we cur,
  Z.of_nat (cc k) < ws -> ws <= Z.of_nat (cnt client W) + 1 -> we <= Z.of_nat (cnt client W) -> Z.of_nat (cc k) <= we -> ws <= we + 1 ->
  (Z.to_nat (we - ws + 1) < fuel)%nat ->
  (forall j p, isPrv j p -> p < ws -> p + Z.of_nat (cp j) < e) ->
  (forall j p, isPrv j p -> we < p -> e < p + Z.of_nat (cp j)) ->
  (we < ws -> exists j p, isPrv j p /\ p + 1 = ws /\ cur = (p, Z.of_nat j + 1, p + Z.of_nat (cp j))) ->
  exists j p, isPrv j p /\ search client fuel T e ws we cur = Ok (p, Z.of_nat j + 1, p + Z.of_nat (cp j)) /\
    (p + Z.of_nat (cp j) = e \/
     (p + Z.of_nat (cp j) < e /\ forall j' p', isPrv j' p' -> p < p' -> e < p' + Z.of_nat (cp j')) \/
     (e < p + Z.of_nat (cp j) /\ forall j' p', isPrv j' p' -> p' < p -> p' + Z.of_nat (cp j') < e)).
Proof.
  intros e. induction fuel as [|fuel IH]; intros ws we cur A1 A2 A3 A4 A5 F Lo Hi2 Emp; [lia|]. cbn [search].
  pose proof R_len as RL. unfold max64 in RL. pose proof (cnt_len client W).
  destruct (Z.eqb_spec ws 0); [lia|]. cbn [orb]. destruct (Z.ltb_spec we ws).
  - destruct (Emp ltac:(lia)) as (j & p & P & Q & ->). exists j, p. split; auto. split; auto. right. left. split. { apply Lo; auto. lia. }
    intros j' p' P' L'. apply Hi2; auto. lia.
  - rewrite (sub64_ok we ws) by lia. rewrite (add64_ok (we - ws) 1) by lia. set (sz := we - ws + 1) in *.
    assert (S1 : 1 <= sz) by lia. pose proof (Z.mul_div_le sz 2 ltac:(lia)) as D1. pose proof (Z.mul_succ_div_gt sz 2 ltac:(lia)) as D2.
    assert (P1 : ws <= ws + sz / 2 <= we). { split; [|lia]. pose proof (Z.div_pos sz 2 ltac:(lia) ltac:(lia)). lia. }
    rewrite (add64_ok ws) by lia. set (p := ws + sz / 2) in *.
    destruct (prv_ex p ltac:(lia)) as (j & P). rewrite (prv_get j p P). cbn [bind].
    destruct (Z.eqb_spec (p + Z.of_nat (cp j)) e) as [Ee|Ne]. { cbn. exists j, p. split; auto. }
    cbn [orb].
    (* the order of the private entries *)
    assert (Mono : forall j' p', isPrv j' p' -> p' < p -> p' + Z.of_nat (cp j') < p + Z.of_nat (cp j)).
    { intros j' p' P' L'. destruct (Nat.lt_ge_cases j' j) as [Q|Q].
      - destruct P as (c & g & B0 & B1 & B2 & B3). destruct (prv_lt j' p' j P' Q) as [X Y]. { assert (j < length W)%nat by (apply nth_error_Some; congruence). lia. }
        rewrite B3. lia.
      - destruct (prv_ge j' p' j P' Q) as [X Y]. destruct P as (c & g & B0 & B1 & B2 & B3). lia. }
    assert (Mono2 : forall j' p', isPrv j' p' -> p < p' -> p + Z.of_nat (cp j) < p' + Z.of_nat (cp j')).
    { intros j' p' P' L'. destruct (Nat.lt_ge_cases j j') as [Q|Q].
      - pose proof (prv_range j' p' P') as (R1 & R2 & R3). destruct (prv_lt j p j' P Q) as [X Y]; [lia|].
        destruct P' as (c & g & B0 & B1 & B2 & B3). rewrite B3. lia.
      - destruct (prv_ge j p j' P Q) as [X Y]. destruct P' as (c & g & B0 & B1 & B2 & B3). lia. }
    destruct (Z.eqb_spec sz 1) as [E1|N1].
    + exists j, p. split; auto. split; auto. right.
      assert (p = ws) by (unfold p; rewrite E1; cbn; lia). assert (p = we) by lia.
      destruct (Z.lt_ge_cases (p + Z.of_nat (cp j)) e); [left|right]; (split; [lia|]); intros j' p' P' L'; [apply Hi2|apply Lo]; auto; lia.
    + destruct (Z.ltb_spec (p + Z.of_nat (cp j)) e) as [Lt|Ge].
      * rewrite (add64_ok p 1) by lia. apply IH; try lia.
        -- intros j' p' P' L'. destruct (Z.eq_dec p' p) as [->|]. { pose proof (prv_get j' p P') as G. rewrite (prv_get j p P) in G. injection G. intros. lia. }
           pose proof (Mono j' p' P' ltac:(lia)). lia.
        -- intros j' p' P' L'. apply Hi2; auto.
        -- intros _. exists j, p. split; auto.
      * assert (1 <= sz / 2) by (apply Z.div_le_lower_bound; lia).
        rewrite (sub64_ok p 1) by lia. apply IH; try lia.
        -- intros j' p' P' L'. apply Lo; auto.
        -- intros j' p' P' L'. destruct (Z.eq_dec p' p) as [->|]. { pose proof (prv_get j' p P') as G. rewrite (prv_get j p P) in G. injection G. intros. lia. }
           pose proof (Mono2 j' p' P' ltac:(lia)). lia.
Qed.

(** findGlobalEventGroupId of the external id of the group at index i. *)
Lemma find_ok i c g : nth_error W i = Some (c, g) -> visible client c = true -> (k <= i)%nat ->
  findGlobal client T (Z.of_nat (cp i + cc i) + 1) =
  Ok (mkF (Z.of_nat i + 1) (isTagged pubTag c) (Z.of_nat (cnt client (firstn (S i) W))) (Z.of_nat (cnt pubTag (firstn (S i) W)))).
Proof.
  intros N V Ki. assert (Li : (i < length W)%nat) by (apply nth_error_Some; congruence).
  pose proof (cnt_S client W i c g N) as Sc. pose proof (cnt_S pubTag W i c g N) as Sp.
  pose proof (cnt_le client W (S i)) as Lc. pose proof (cnt_le pubTag W (S i)) as Lp.
  pose proof (cnt_mono client W k i Ki) as Mc. pose proof (cnt_mono pubTag W k i Ki) as Mp.
  pose proof all_le as AL. pose proof R_len as RL. unfold max64 in RL. pose proof (both_le i ltac:(lia)) as BL.
  rewrite (vis_tag client R_np) in V.
  assert (X : (isTagged pubTag c = true /\ isTagged client c = false) \/ (isTagged pubTag c = false /\ isTagged client c = true)).
  { destruct (isTagged pubTag c) eqn:A; [left; split; auto; apply (tag_excl client R_np); auto|right; auto]. }
  unfold findGlobal. rewrite newest_eq, oldest_eq.
  destruct (Nat.eqb_spec (cp k + cc k) (cnt pubTag W + cnt client W)) as [Q|Q]. { destruct X as [[A B]|[A B]]; rewrite ?A, ?B in *; lia. }
  destruct (Z.eqb_spec (Z.of_nat (cp k + cc k) + 1) 0); [lia|]. destruct (Z.ltb_spec (Z.of_nat (cp i + cc i) + 1) (Z.of_nat (cp k + cc k) + 1)); [lia|].
  destruct (Z.ltb_spec (Z.of_nat (cnt pubTag W + cnt client W)) (Z.of_nat (cp i + cc i) + 1)). { destruct X as [[A B]|[A B]]; rewrite ?A, ?B in *; lia. }
  cbn [orb]. pose proof Tp as (En & Ep & _). pose proof Tc as (Fn & Fp & _). rewrite En, Ep, Fn, Fp.
  (* no private group at all *)
  destruct (Nat.eqb_spec (cc k) (cnt client W)) as [Qc|Qc]; cbn [andb Z.eqb].
  - destruct (Z.eqb_spec (Z.of_nat (cnt client W)) 0) as [Z0|Z0].
    { destruct X as [[A B]|[A B]]; rewrite ?A, ?B in *; [|lia].
      destruct (getTag_of pubTag Tp i c g N A Ki) as (x & G & _).
      replace (Z.of_nat (cp i + cc i) + 1) with (Z.of_nat (cp i) + 1) by lia. rewrite G. cbn [bind fst]. f_equal. f_equal; lia. }
    (* private groups existed, all pruned *)
    destruct X as [[A B]|[A B]]; rewrite ?A, ?B in *; [|lia].
    destruct (Nat.eqb_spec (cp k) (cnt pubTag W)) as [Qp|Qp]; [lia|]. destruct (Z.eqb_spec (Z.of_nat (cp k) + 1) 0); [lia|]. cbn [andb].
    replace (Z.to_nat (Z.of_nat (cnt client W)) + 2)%nat with (S (cnt client W + 1))%nat by lia. cbn [search]. rewrite (Z.eqb_refl 0). cbn [orb bind].
    destruct (Z.eqb_spec 0 (Z.of_nat (cp i + cc i) + 1)); [lia|]. cbv iota. rewrite (add64_ok (Z.of_nat (cnt client W))) by lia. cbv iota. rewrite (sub64_ok (Z.of_nat (cnt client W) + (Z.of_nat (cp k) + 1)) 1) by lia.
    cbn [andb]. destruct (Z.eqb_spec (Z.of_nat (cnt client W)) 0); [lia|].
    destruct (Z.ltb_spec (Z.of_nat (cp i + cc i) + 1) (Z.of_nat (cnt client W) + (Z.of_nat (cp k) + 1) - 1)); [lia|].
    destruct (Z.leb_spec (Z.of_nat (cp i + cc i) + 1) (Z.of_nat (cnt client W) + (Z.of_nat (cp k) + 1) - 1)); [lia|].
    rewrite !sub64_ok by lia. rewrite add64_ok by lia.
    destruct (getTag_of pubTag Tp i c g N A Ki) as (x & G & _).
    match goal with |- context [getTag T pubTag ?q] => replace q with (Z.of_nat (cp i) + 1) by lia end. rewrite G. cbn [bind fst]. f_equal. f_equal; lia.
  - destruct (Z.eqb_spec (Z.of_nat (cc k) + 1) 0); [lia|]. cbn [andb].
    destruct (Nat.eqb_spec (cp k) (cnt pubTag W)) as [Qp|Qp].
    + destruct (Z.eqb_spec (Z.of_nat (cnt pubTag W)) 0) as [Z0|Z0]; cbn [Z.eqb andb].
      { destruct X as [[A B]|[A B]]; rewrite ?A, ?B in *; [lia|].
        destruct (getTag_of client Tc i c g N B Ki) as (x & G & _).
        replace (Z.of_nat (cp i + cc i) + 1) with (Z.of_nat (cc i) + 1) by lia. rewrite G. cbn [bind fst]. f_equal. f_equal; lia. }
      all: idtac.
      (* public groups all pruned *)
      destruct X as [[A B]|[A B]]; rewrite ?A, ?B in *; [lia|].
      destruct (search_ok i Ki Li (Z.to_nat (Z.of_nat (cnt client W)) + 2) (Z.of_nat (cc k) + 1) (Z.of_nat (cnt client W)) (0, 0, 0)) as (j & p & P & E & Cs); try lia.
      { intros j p P L. pose proof (prv_range j p P). lia. } { intros j p P L. pose proof (prv_range j p P). lia. }
      rewrite E. cbn [bind].
      assert (Pi : isPrv i (Z.of_nat (cc i) + 1)) by (exists c, g; auto).
      destruct Cs as [Cs|[[C1 C2]|[C1 C2]]].
      * destruct (Z.eqb_spec (p + Z.of_nat (cp j)) (Z.of_nat (cp i + cc i) + 1)); [|lia].
        assert (j = i). { destruct (Nat.lt_trichotomy i j) as [L|[L|L]]; auto.
          - pose proof (prv_lt i _ j Pi L). pose proof (prv_range j p P). destruct P as (c' & g' & P1 & P2 & P3 & P4). lia.
          - pose proof (prv_lt j p i P L). lia. }
        subst j. destruct P as (c' & g' & P1 & P2 & P3 & P4). rewrite sub64_ok by lia. f_equal. f_equal; lia.
      * destruct (Z.lt_ge_cases p (Z.of_nat (cc i) + 1)) as [L|L]. { specialize (C2 i _ Pi L). lia. }
        destruct (Nat.lt_ge_cases j i) as [Q2|Q2]. { pose proof (prv_lt j p i P Q2). lia. } pose proof (prv_ge j p i P Q2). lia.
      * destruct (Z.lt_ge_cases (Z.of_nat (cc i) + 1) p) as [L|L]. { specialize (C2 i _ Pi L). lia. }
        destruct (Nat.lt_ge_cases j i) as [Q2|Q2]. { pose proof (prv_lt j p i P Q2). lia. } pose proof (prv_ge j p i P Q2).
        assert (Z.of_nat (cc j) + 1 = p) by (destruct P as (c' & g' & P1 & P2 & P3 & P4); auto).
        destruct (Nat.eq_dec i j) as [<-|Nij]; [lia|]. pose proof (prv_lt i _ j Pi ltac:(lia)). pose proof (prv_range j p P). lia.
    + destruct (Z.eqb_spec (Z.of_nat (cp k) + 1) 0); [lia|]. cbn [andb].
      destruct (search_ok i Ki Li (Z.to_nat (Z.of_nat (cnt client W)) + 2) (Z.of_nat (cc k) + 1) (Z.of_nat (cnt client W)) (0, 0, 0)) as (j & p & P & E & Cs); try lia.
      { intros j p P L. pose proof (prv_range j p P). lia. } { intros j p P L. pose proof (prv_range j p P). lia. }
      rewrite E. cbn [bind]. pose proof (prv_range j p P) as (Rg & Rj & Rx).
      assert (Pe : Z.of_nat (cc j) + 1 = p) by (destruct P as (c' & g' & P1 & P2 & P3 & P4); auto).
      destruct X as [[A B]|[A B]]; rewrite ?A, ?B in *.
      * (* a public group: the entry found is a neighbour *)
        destruct (getTag_of pubTag Tp i c g N A Ki) as (x & G & _).
        assert (Nij : j <> i). { destruct P as (c' & g' & P1 & P2 & P3 & P4). intros ->. rewrite N in P2. inversion P2; subst. congruence. }
        destruct (Nat.lt_ge_cases j i) as [Q2|Q2].
        -- pose proof (prv_lt j p i P Q2). assert (C2 : forall j' p', isPrv j' p' -> p < p' -> (Z.of_nat (cp i + cc i) + 1) < p' + Z.of_nat (cp j')) by (destruct Cs as [Cs|[[C1 C2]|[C1 C2]]]; auto; lia).
           destruct (Z.eqb_spec (p + Z.of_nat (cp j)) (Z.of_nat (cp i + cc i) + 1)); [lia|].
           destruct (Z.ltb_spec (Z.of_nat (cp i + cc i) + 1) (p + Z.of_nat (cp j))); [lia|].
           destruct (Z.leb_spec (Z.of_nat (cp i + cc i) + 1) (p + Z.of_nat (cp j))); [lia|].
           assert (p = Z.of_nat (cc i)). { destruct (Z.lt_ge_cases p (Z.of_nat (cc i))) as [L|L]; [|lia].
             destruct (prv_ex (p + 1) ltac:(lia)) as (j' & P'). specialize (C2 j' _ P' ltac:(lia)).
             destruct (Nat.lt_ge_cases j' i) as [Q3|Q3]. { pose proof (prv_lt j' _ i P' Q3). lia. } pose proof (prv_ge j' _ i P' Q3). lia. }
           rewrite !sub64_ok by lia. rewrite add64_ok by lia.
           match goal with |- context [getTag T pubTag ?q] => replace q with (Z.of_nat (cp i) + 1) by lia end. rewrite G. cbn [bind fst]. f_equal. f_equal; lia.
        -- pose proof (prv_ge j p i P Q2). pose proof (cnt_mono pubTag W (S i) j ltac:(lia)).
           assert (C2 : forall j' p', isPrv j' p' -> p' < p -> p' + Z.of_nat (cp j') < (Z.of_nat (cp i + cc i) + 1)) by (destruct Cs as [Cs|[[C1 C2]|[C1 C2]]]; auto; lia).
           destruct (Z.eqb_spec (p + Z.of_nat (cp j)) (Z.of_nat (cp i + cc i) + 1)); [lia|].
           destruct (Z.ltb_spec (Z.of_nat (cp i + cc i) + 1) (p + Z.of_nat (cp j))); [|lia].
           assert (p = Z.of_nat (cc i) + 1). { destruct (Z.lt_ge_cases (Z.of_nat (cc i) + 1) p) as [L|L]; [|lia].
             destruct (prv_ex (p - 1) ltac:(lia)) as (j' & P'). specialize (C2 j' _ P' ltac:(lia)).
             destruct (Nat.lt_ge_cases j' i) as [Q3|Q3]. { pose proof (prv_lt j' _ i P' Q3). lia. } pose proof (prv_ge j' _ i P' Q3). lia. }
           rewrite (sub64_ok p 1), (sub64_ok (p + Z.of_nat (cp j)) p), (sub64_ok (p + Z.of_nat (cp j)) (Z.of_nat (cp i + cc i) + 1)) by lia. rewrite (sub64_ok _ 1) by lia. rewrite sub64_ok by lia.
           match goal with |- context [getTag T pubTag ?q] => replace q with (Z.of_nat (cp i) + 1) by lia end. rewrite G. cbn [bind fst]. f_equal. f_equal; lia.
      * assert (Pi : isPrv i (Z.of_nat (cc i) + 1)) by (exists c, g; auto).
        destruct (Nat.lt_trichotomy i j) as [L|[L|L]].
        -- pose proof (prv_lt i _ j Pi L). assert (C2 : forall j' p', isPrv j' p' -> p' < p -> p' + Z.of_nat (cp j') < (Z.of_nat (cp i + cc i) + 1)) by (destruct Cs as [Cs|[[C1 C2]|[C1 C2]]]; auto; lia).
           specialize (C2 i _ Pi). lia.
        -- subst j. destruct (Z.eqb_spec (p + Z.of_nat (cp i)) (Z.of_nat (cp i + cc i) + 1)); [|lia]. rewrite sub64_ok by lia. f_equal. f_equal; lia.
        -- pose proof (prv_lt j p i P L). assert (C2 : forall j' p', isPrv j' p' -> p < p' -> (Z.of_nat (cp i + cc i) + 1) < p' + Z.of_nat (cp j')) by (destruct Cs as [Cs|[[C1 C2]|[C1 C2]]]; auto; lia).
           specialize (C2 i _ Pi). lia.
Qed.
End Tables.
