From Coq Require Import List Arith NArith ZArith Bool Lia.
From Verif Require Import Lib_Bytes Rvt_Model Rvt_Spec Rvt_Proofs Rvt_Proofs2 Rvt_Proofs3 Rvt_Proofs4 Rvt_Proofs5 Rvt_Proofs6 Rvt_Proofs7 Rvt_Proofs8 Rvt_Proofs9 Rvt_Proofs10.
Import ListNotations.
Local Open Scope N_scope.

Lemma upto_rng lo hi : upto lo hi = rng lo (hi + 1). Proof. reflexivity. Qed.
Lemma map_rng_shift {A} (f : N -> A) lo hi : map f (rng (lo + 1) (hi + 1)) = map (fun p => f (p + 1)) (rng lo hi).
Proof. unfold rng. rewrite !map_map. replace (hi + 1 - (lo + 1)) with (hi - lo) by lia. apply map_ext. intros t. f_equal. lia. Qed.
Lemma zsum_sum l : zsum l = sum l. Proof. reflexivity. Qed.
Lemma listEq_spec a b : listEq a b = true <-> a = b.
Proof.
  unfold listEq. rewrite andb_true_iff, Nat.eqb_eq. split.
  - revert b. induction a as [|x a IH]; intros [|y b] (E & F); try discriminate; auto. cbn [combine forallb fst snd] in F. apply andb_true_iff in F. destruct F as (F1 & F2). apply N.eqb_eq in F1. f_equal; auto.
  - intros <-. split; auto. induction a as [|x a IH]; [reflexivity|]. cbn [combine forallb fst snd]. rewrite N.eqb_refl. auto.
Qed.

Section S.
Variable H : bytes -> bytes.
Variables (K : N) (M : Z).
Hypothesis K2 : 2 <= K.
Hypothesis M0 : (0 < M)%Z.
Variable F : N.
Hypothesis F0 : F <> 0.
Notation iv := (iv H M).
Notation Q := (Q K).
Notation ix := (ix K).
Notation kid := (kid K).
Notation cn := (cn H K M).
Notation at_ := (at_ K).
Notation Canon := (Canon H K M).
Notation eqm := (eqm M).
Notation Inv := (Inv H K M).
Notation fits := (fits H M).

Lemma block_sum v k l x y : fits v k l -> k <> 0 -> k <= x -> y <= lastOf k l -> x <= y -> sum (map v (rng (x - 1) y)) = blockSum H M k l x y.
Proof.
  clear K2. intros FV KZ KX YL XY. unfold blockSum. change zsum with sum. f_equal. rewrite upto_rng. assert (EX : rng x (y + 1) = rng (x - 1 + 1) (y + 1)) by (f_equal; lia). rewrite EX, map_rng_shift. apply map_ext_in. intros p P. apply rng_in in P. apply FV; unfold lastOf in *; lia.
Qed.
Lemma iv_sum x y j : ivSum H K M (x - 1) (y - 1) j = levelSum H K M x y j.
Proof. reflexivity. Qed.
Lemma root_spec t k l : Inv t (Some (k, l)) -> exists L, isHeight K k (lastOf k l) L /\ rootVal t = Some (rootSpec H K M k l L).
Proof.
  intros (KZ & LN & v & L & C & FV). assert (LP : (0 < length l)%nat) by (destruct l; [congruence|simpl; lia]). exists L. pose proof C as (AB & L1 & QL & MI & _). split.
  - split; [auto|]. split; [exact QL|]. intros j J. apply (height_low K K2 _ _ L j MI J).
  - rewrite (root_val H K M K2 M0 _ _ _ _ _ C). unfold rootSpec. f_equal. f_equal. f_equal.
    replace (lastOf k l - 1 + 1) with (lastOf k l) by (unfold lastOf; lia). apply block_sum; auto; unfold lastOf; lia.
Qed.
(** A group in terms of positions. *)
Lemma kid_group k l q : k <> 0 -> l <> [] -> (exists p, k <= p /\ p <= lastOf k l /\ (p - 1) / K = q) ->
  let g := q * K + 1 in groupFirst k g <= groupLast K k l g /\ kid (k - 1) (lastOf k l - 1) 0 q = rng (groupFirst k g - 1) (groupLast K k l g) /\ k <= groupFirst k g /\ groupLast K k l g <= lastOf k l /\
    Q 1 (groupFirst k g - 1) = q /\ Q 1 (groupLast K k l g - 1) = q.
Proof.
  intros KZ LN (p & P1 & P2 & E) g. assert (LP : (0 < length l)%nat) by (destruct l; [congruence|simpl; lia]). pose proof (div_in K K2 (p - 1)) as (D1 & D2). rewrite E in D1, D2.
  unfold groupFirst, groupLast, lastOf in *. subst g. split; [lia|]. split; [|split; [lia|split; [lia|]]].
  - unfold Rvt_Proofs.kid. rewrite !Q_0. f_equal; lia.
  - rewrite !(Q_S K K2), !Q_0. split; apply div_eq; auto; lia.
Qed.
Lemma group_val t k l i : Inv t (Some (k, l)) -> k <= i -> i <= lastOf k l -> let g := groupStart K i in
  parentVal K t i = Some ((iv (1%nat, g) + blockSum H M k l (groupFirst k g) (groupLast K k l g)) mod M)%Z.
Proof.
  intros (KZ & LN & v & L & C & FV) I1 I2 g. replace i with (i - 1 + 1) at 1 by lia. rewrite (parent_val H K M K2 _ _ _ _ _ (i - 1) C) by lia.
  assert (G : (i - 1) / K = Q 1 (i - 1)) by (rewrite (Q_S K K2), Q_0; reflexivity).
  destruct (kid_group k l (Q 1 (i - 1)) KZ LN) as (G1 & G2 & G3 & G4 & G5 & G6). { exists i. auto. }
  assert (GE : g = Q 1 (i - 1) * K + 1) by (unfold g, groupStart; rewrite G; reflexivity). rewrite <- GE in *. rewrite G2, (block_sum v k l) by (auto; lia). f_equal. f_equal. f_equal. unfold Rvt_Proofs2.at_, Rvt_Proofs.ix. rewrite (pow_S K), pow_0, N.mul_1_r, GE. reflexivity.
Qed.
Lemma group_node t k l i : Inv t (Some (k, l)) -> i <> 0 ->
  match nodes t (1%nat, parentIdx K i 0) with
  | Some _ => exists p, k <= p /\ p <= lastOf k l /\ groupStart K p = groupStart K i
  | None => forall p, k <= p -> p <= lastOf k l -> groupStart K p <> groupStart K i
  end.
Proof.
  intros (KZ & LN & v & L & C & FV) NZ. assert (LP : (0 < length l)%nat) by (destruct l; [congruence|simpl; lia]). pose proof C as (AB & L1 & QL & MI & R). assert (PI : parentIdx K i 0 = ix 1 ((i - 1) / K)) by (rewrite <- (parentIdx_ix K K2), pos_ix; f_equal; lia). rewrite PI. change (1%nat, ix 1 ((i - 1) / K)) with (at_ 1 ((i - 1) / K)).
  rewrite (rep_get _ _ _ _ _ _ _ _ _ _ _ _ R), cn_nd. destruct (Nat.leb_spec 1 L) as [_|X]; [|lia]. cbn [andb].
  assert (QK : forall p, Q 1 p = p / K) by (intros p; rewrite (Q_S K K2), Q_0; reflexivity). rewrite !QK.
  destruct (N.leb_spec ((k - 1) / K) ((i - 1) / K)) as [X|X], (N.leb_spec ((i - 1) / K) ((lastOf k l - 1) / K)) as [Y|Y]; cbn [andb].
  - pose proof (div_in K K2 (k - 1)) as (D1 & D2). pose proof (div_in K K2 (lastOf k l - 1)) as (D3 & D4). set (q := (i - 1) / K) in *. exists (N.max k (q * K + 1)). unfold lastOf in *. split; [lia|]. split; [nia|]. unfold groupStart. f_equal. f_equal. apply div_eq; auto; nia.
  - intros p P1 P2 E. unfold groupStart in E. apply N.add_cancel_r, N.mul_cancel_r in E; [|lia]. assert ((p - 1) / K <= (lastOf k l - 1) / K) by (apply N.div_le_mono; lia). lia.
  - intros p P1 P2 E. unfold groupStart in E. apply N.add_cancel_r, N.mul_cancel_r in E; [|lia]. assert ((k - 1) / K <= (p - 1) / K) by (apply N.div_le_mono; lia). lia.
  - intros p P1 P2 E. unfold groupStart in E. apply N.add_cancel_r, N.mul_cancel_r in E; [|lia]. assert ((k - 1) / K <= (p - 1) / K) by (apply N.div_le_mono; lia). lia.
Qed.
Lemma rng_ends x y : x < y -> exists m, rng x y = x :: m /\ exists m', rev (rng x y) = (y - 1) :: m'.
Proof. clear. intros XY. exists (rng (x + 1) y). rewrite rng_cons by auto. split; auto. exists (rev (rng x (y - 1))). rewrite <- rng_cons by auto. replace y with (y - 1 + 1) at 1 by lia. rewrite rng_snoc by lia. apply rev_app_distr. Qed.
Lemma rvb_ids t k l i : Inv t (Some (k, l)) -> k <= i -> i <= lastOf k l -> let g := groupStart K i in
  rvbIds F t (1%nat, g) = map (fun i => i * F) (upto (groupFirst k g) (groupLast K k l g)).
Proof.
  intros (KZ & LN & v & L & C & FV) I1 I2 g. pose proof C as (AB & L1 & QL & MI & R).
  assert (G : (i - 1) / K = Q 1 (i - 1)) by (rewrite (Q_S K K2), Q_0; reflexivity).
  destruct (kid_group k l (Q 1 (i - 1)) KZ LN) as (G1 & G2 & G3 & G4 & G5 & G6). { exists i. auto. }
  assert (GE : g = Q 1 (i - 1) * K + 1) by (unfold g, groupStart; rewrite G; reflexivity). rewrite <- GE in *.
  assert (GA : (1%nat, g) = at_ 1 (Q 1 (i - 1))) by (unfold Rvt_Proofs2.at_, Rvt_Proofs.ix; rewrite (pow_S K), pow_0, N.mul_1_r, GE; reflexivity).
  unfold rvbIds. rewrite GA, (rep_get _ _ _ _ _ _ _ _ _ _ _ _ R). rewrite cn_in; [|lia|apply Q_mono; auto; lia|apply Q_mono; auto; lia]. unfold nd. cbn [kids]. rewrite G2.
  destruct (rng_ends (groupFirst k g - 1) (groupLast K k l g)) as (m & E1 & m' & E2); [lia|]. rewrite <- map_rev, E2, E1. cbn [map snd].
  unfold Rvt_Proofs2.at_. cbn [snd]. rewrite !pos_ix. f_equal. f_equal; lia.
Qed.

Lemma lrun_snoc s os s1 o s2 : lrun s os s1 -> lstep s1 o s2 -> lrun s (os ++ [o]) s2.
Proof. clear. intros R ST. induction R; cbn [app]; [econstructor; eauto; constructor|econstructor; eauto]. Qed.
(** Adding a whole group in order to an empty tree. *)
Lemma lrun_group ds : ds <> [] -> forall i0 y, i0 <> 0 -> map fst ds = map (fun i => i * F) (upto i0 y) -> lrun None (map (fun p => Add (fst p / F) (snd p)) ds) (Some (i0, map snd ds)) /\ i0 <= y /\ N.of_nat (length ds) = y + 1 - i0.
Proof.
  induction ds as [|(b, d) ds IH] using rev_ind; intros NE i0 y NZ E; [congruence|]. clear NE.
  assert (LE : i0 <= y). { destruct (N.le_gt_cases i0 y) as [|X]; auto. rewrite upto_rng, rng_nil in E by lia. destruct ds; discriminate. }
  rewrite upto_rng, rng_snoc, !map_app in E by auto. cbn [map fst] in E. apply app_inj_tail in E. destruct E as (E & EB). rewrite !map_app. cbn [map fst snd]. subst b. rewrite N.div_mul by auto. rewrite app_length. cbn [length].
  destruct ds as [|p ds].
  - cbn [map app length] in *. assert (i0 = y). { destruct (N.eq_dec i0 y); auto. rewrite rng_cons in E by lia. discriminate. } subst y. split; [|lia]. econstructor; [|constructor]. constructor; auto.
  - assert (i0 < y). { destruct (N.eq_dec i0 y) as [->|]; [|lia]. rewrite rng_nil in E by lia. discriminate. }
    destruct (IH ltac:(discriminate) i0 (y - 1) NZ) as (R & _ & LN). { rewrite upto_rng. replace (y - 1 + 1) with y by lia. exact E. }
    split; [|lia]. eapply lrun_snoc; [exact R|]. replace y with (i0 + N.of_nat (length (map snd (p :: ds)))) by (rewrite map_length; lia). constructor.
Qed.
Notation givenSum := (givenSum H M F).
Lemma given_sum ds i0 y : map fst ds = map (fun i => i * F) (upto i0 y) -> N.of_nat (length ds) = y + 1 - i0 -> givenSum ds = blockSum H M i0 (map snd ds) i0 y.
Proof.
  clear K2. intros E LN. unfold Rvt_Spec.givenSum, blockSum. f_equal.
  assert (LU : length (upto i0 y) = length ds) by (rewrite upto_rng, rng_len; lia).
  apply nth_ext with (d := hval H M (0%nat, 0 / F) []) (d' := hval H M (0%nat, 0) (digestOf i0 (map snd ds) 0)); [rewrite !map_length; auto|].
  intros n B. rewrite map_length in B. rewrite (map_nth (fun p => hval H M (0%nat, fst p / F) (snd p)) ds (0, [])). rewrite (map_nth (fun i => hval H M (0%nat, i) (digestOf i0 (map snd ds) i))).
  assert (EN : nth n (upto i0 y) 0 = i0 + N.of_nat n). { unfold upto. rewrite nth_indep with (d' := i0 + N.of_nat 0) by (rewrite map_length, seq_length; lia). rewrite (map_nth (fun t => i0 + N.of_nat t)). rewrite seq_nth by lia. reflexivity. }
  rewrite EN. unfold digestOf. replace (N.to_nat (i0 + N.of_nat n - i0)) with n by lia.
  assert (E1 : nth n (map fst ds) 0 = (i0 + N.of_nat n) * F). { rewrite E. rewrite nth_indep with (d' := 0 * F) by (rewrite map_length; lia). rewrite (map_nth (fun i => i * F)), EN. reflexivity. }
  change 0 with (fst (@pair N bytes 0 [])) in E1 at 1. rewrite map_nth in E1.
  match goal with |- hval _ _ (_, ?a / F) _ = _ => replace a with ((i0 + N.of_nat n) * F) by (symmetry; exact E1) end. rewrite N.div_mul by auto. f_equal. change (@nil N) with (snd (@pair N bytes 0 [])) at 2. rewrite map_nth. reflexivity.
Qed.
(** Verdict on a list with exactly the group's block ids. *)
Lemma temp_root ds i0 y q : ds <> [] -> i0 <> 0 -> map fst ds = map (fun i => i * F) (upto i0 y) -> Q 1 (i0 - 1) = q -> Q 1 (y - 1) = q ->
  exists u, exec H K M empty (map (fun p => Add (fst p / F) (snd p)) ds) = Some u /\ rootVal u = Some ((iv (1%nat, (q * K + 1)%N) + givenSum ds) mod M)%Z.
Proof.
  intros NE NZ E Q1 Q2. destruct (lrun_group ds NE i0 y NZ E) as (R & LE & LN). destruct (run_ok H K M K2 M0 _ empty None _ eq_refl R) as (u & EX & IV). exists u. split; auto.
  destruct (root_spec _ _ _ IV) as (L & HT & RV). rewrite RV.
  assert (LO : lastOf i0 (map snd ds) = y) by (unfold lastOf; rewrite map_length; lia). rewrite LO in HT.
  assert (L = 1%nat). { destruct HT as (H1 & _ & H3). destruct (Nat.eq_dec L 1) as [|NL]; auto. exfalso. apply (H3 1%nat ltac:(lia)). change (Q 1 (i0 - 1) = Q 1 (y - 1)). congruence. } subst L.
  unfold rootSpec. change (i0 + N.of_nat (length (map snd ds)) - 1) with (lastOf i0 (map snd ds)). rewrite LO. cbn [seq map zsum fold_right]. rewrite <- (given_sum ds) by auto. f_equal. f_equal.
  assert (LS : levelSum H K M i0 y 1 = iv (1%nat, q * K + 1)). { unfold levelSum. change ((i0 - 1) / K ^ N.of_nat 1) with (Q 1 (i0 - 1)). change ((y - 1) / K ^ N.of_nat 1) with (Q 1 (y - 1)). rewrite Q1, Q2, upto_rng, rng_cons, rng_nil by lia. cbn [map zsum fold_right]. rewrite Z.add_0_r. f_equal. f_equal. change (K ^ N.of_nat 1) with (pow K 1). rewrite (pow_S K), pow_0. lia. }
  rewrite LS. lia.
Qed.
Lemma mod_add_inj x y z : ((x + y) mod M = (x + z) mod M -> y mod M = z mod M)%Z.
Proof. clear K2. intros E. rewrite <- (Z.add_simpl_l x y), <- (Z.add_simpl_l x z). rewrite (Zminus_mod (x + y)), (Zminus_mod (x + z)), E. reflexivity. Qed.
Lemma final_check t k l i ds : Inv t (Some (k, l)) -> k <= i -> i <= lastOf k l -> let g := groupStart K i in
  map fst ds = map (fun i => i * F) (upto (groupFirst k g) (groupLast K k l g)) ->
  ds <> [] /\ exists u, exec H K M empty (map (fun p => Add (fst p / F) (snd p)) ds) = Some u /\
    (oZeq (rootVal u) (parentVal K t (match ds with p :: _ => fst p / F | [] => 0 end)) = true <-> (givenSum ds mod M = blockSum H M k l (groupFirst k g) (groupLast K k l g) mod M)%Z).
Proof.
  intros IV I1 I2 g E. pose proof IV as (KZ & LN & v & L & C & FV). assert (LP : (0 < length l)%nat) by (destruct l; [congruence|simpl; lia]).
  assert (G : (i - 1) / K = Q 1 (i - 1)) by (rewrite (Q_S K K2), Q_0; reflexivity).
  destruct (kid_group k l (Q 1 (i - 1)) KZ LN) as (G1 & G2 & G3 & G4 & G5 & G6). { exists i. auto. }
  assert (GE : g = Q 1 (i - 1) * K + 1) by (unfold g, groupStart; rewrite G; reflexivity). rewrite <- GE in *.
  assert (NE : ds <> []). { intros ->. rewrite upto_rng, rng_cons in E by lia. discriminate. } split; auto.
  assert (GZ : groupFirst k g <> 0) by lia. destruct (temp_root ds _ _ (Q 1 (i - 1)) NE GZ E G5 G6) as (u & EX & RV). exists u. split; auto. rewrite RV.
  destruct ds as [|(b0, d0) ds]; [congruence|]. cbn [fst]. rewrite upto_rng, rng_cons in E by lia. cbn [map fst] in E. assert (B0 : b0 = groupFirst k g * F) by congruence. rewrite B0, N.div_mul by auto.
  assert (GG : groupStart K (groupFirst k g) = g). { rewrite GE at 2. unfold groupStart. rewrite <- (Q_0 K (groupFirst k g - 1)), <- (Q_S K K2). rewrite G5. reflexivity. }
  rewrite (group_val t k l (groupFirst k g) IV) by lia. rewrite GG. cbn [oZeq]. rewrite Z.eqb_eq. rewrite <- GE. split.
  - apply mod_add_inj.
  - intros X. rewrite (Zplus_mod (iv _) (givenSum _)), X, <- Zplus_mod. reflexivity.
Qed.

(** * The scan *)
Lemma rev_cons_app {A} (x : A) acc data : rev acc ++ x :: data = rev (x :: acc) ++ data.
Proof. clear. cbn [rev]. rewrite <- app_assoc. reflexivity. Qed.
Lemma scan_prefix t req mc data : forall exp acc ds, scan K F t req mc data exp acc = Accept ds -> exists rest, rev acc ++ data = ds ++ rest /\ exists more, ds = rev acc ++ more /\ forall b d, In (b, d) more -> exists g, req = Some g /\ groupOf K F t b = Some g.
Proof.
  induction data as [|(b, d) data IH]; intros exp acc ds E; cbn [scan] in E.
  - injection E as <-. exists []. split; [reflexivity|]. exists []. split; [rewrite app_nil_r; reflexivity|]. intros ? ? [].
  - destruct (negb (b mod F =? 0)); [discriminate|]. destruct ((mc <? b) || (mx t * F <? b)); [injection E as <-; exists ((b, d) :: data); split; [reflexivity|]; exists []; split; [rewrite app_nil_r; reflexivity|]; intros ? ? []|].
    destruct (negb (exp =? 0) && negb (b =? exp))%bool; [discriminate|]. destruct (groupOf K F t b) as [g|] eqn:EG; [|discriminate]. destruct (oidEq_spec req (Some g)) as [->|]; [|discriminate].
    destruct (IH _ _ _ E) as (rest & E1 & more & E2 & E3). exists rest. rewrite rev_cons_app. split; auto. exists ((b, d) :: more). split; [rewrite rev_cons_app; exact E2|].
    intros b' d' [X|X]; [injection X as <- <-; eauto|eauto].
Qed.
Lemma scan_abort t req mc data : (forall b d, In (b, d) data -> b mod F = 0 -> b <= mx t * F -> groupOf K F t b <> None) -> forall exp acc, scan K F t req mc data exp acc <> Abort.
Proof.
  induction data as [|(b, d) data IH]; intros A exp acc; cbn [scan]; [discriminate|].
  destruct (N.eqb_spec (b mod F) 0) as [B|]; cbn [negb]; [|discriminate]. destruct (N.ltb_spec mc b); cbn [orb]; [discriminate|]. destruct (N.ltb_spec (mx t * F) b); [discriminate|].
  destruct (negb (exp =? 0) && negb (b =? exp))%bool; [discriminate|]. pose proof (A b d (or_introl eq_refl) B ltac:(lia)). destruct (groupOf K F t b) as [g|]; [|congruence].
  destruct (oidEq req (Some g)); [|discriminate]. apply IH. intros. eapply A; eauto. right; eauto.
Qed.
Lemma upto_cons lo hi : lo <= hi -> upto lo hi = lo :: upto (lo + 1) hi.
Proof. clear. intros. rewrite !upto_rng. apply rng_cons. lia. Qed.
Lemma scan_all t g mc n : forall data x y exp acc, length data = n -> map fst data = map (fun i => i * F) (upto x y) -> (exp = 0 \/ exp = x * F) -> y <= mx t -> y * F <= mc -> (forall i, x <= i -> i <= y -> groupOf K F t (i * F) = Some g) ->
  scan K F t (Some g) mc data exp acc = Accept (rev acc ++ data).
Proof.
  induction n as [|n IH]; intros [|(b, d) data] x y exp acc LN E EX YM YC G; try discriminate; cbn [scan]; [rewrite app_nil_r; reflexivity|].
  assert (XY : x <= y). { destruct (N.le_gt_cases x y) as [|X]; auto. rewrite upto_rng, rng_nil in E by lia. discriminate. }
  rewrite upto_cons in E by auto. cbn [map fst] in E. injection E as E1 E2. subst b. rewrite N.mod_mul by auto. cbn [N.eqb negb].
  assert (x * F <= y * F) by nia. assert (y * F <= mx t * F) by nia. destruct (N.ltb_spec mc (x * F)); [lia|]. destruct (N.ltb_spec (mx t * F) (x * F)); [lia|]. cbn [orb].
  replace (negb (exp =? 0) && negb (x * F =? exp))%bool with false by (destruct EX as [-> | ->]; [reflexivity|rewrite N.eqb_refl, andb_false_r; reflexivity]).
  rewrite (G x) by lia. destruct (oidEq_spec (Some g) (Some g)) as [_|X]; [|congruence]. rewrite (IH data (x + 1) y); auto.
  - rewrite rev_cons_app. reflexivity.
  - right. lia.
  - intros i I1 I2. apply G; lia.
Qed.
Lemma group_of_live t k l i : Inv t (Some (k, l)) -> k <= i -> i <= lastOf k l -> groupOf K F t (i * F) = Some (1%nat, groupStart K i).
Proof.
  intros IV I1 I2. pose proof IV as (KZ & _). unfold groupOf. replace (i * F =? 0) with false by (symmetry; apply N.eqb_neq; nia). rewrite N.div_mul by auto.
  pose proof (group_node t k l i IV ltac:(lia)) as G. destruct (nodes t (1%nat, parentIdx K i 0)); [|exfalso; apply (G i); auto]. f_equal. f_equal. unfold parentIdx, groupStart. rewrite (pow_S K), pow_0, N.mul_1_r. reflexivity.
Qed.
Lemma group_of_inv t k l b g : Inv t (Some (k, l)) -> groupOf K F t b = Some g -> exists i, k <= i /\ i <= lastOf k l /\ g = (1%nat, groupStart K i).
Proof.
  intros IV E. unfold groupOf in E. destruct (N.eqb_spec b 0); [discriminate|]. destruct (N.eq_dec (b / F) 0) as [Z|NZ].
  - rewrite Z in E. replace (parentIdx K 0 0) with (parentIdx K 1 0) in E by reflexivity. pose proof (group_node t k l 1 IV ltac:(lia)) as G. destruct (nodes t (1%nat, parentIdx K 1 0)); [|discriminate].
    destruct G as (p & P1 & P2 & P3). exists p. split; [auto|]. split; [auto|]. injection E as <-. f_equal. rewrite P3. unfold parentIdx, groupStart. rewrite (pow_S K), pow_0, N.mul_1_r. reflexivity.
  - pose proof (group_node t k l (b / F) IV NZ) as G. destruct (nodes t (1%nat, parentIdx K (b / F) 0)); [|discriminate]. destruct G as (p & P1 & P2 & P3). exists p. split; [auto|]. split; [auto|]. injection E as <-. f_equal. rewrite P3. unfold parentIdx, groupStart. rewrite (pow_S K), pow_0, N.mul_1_r. reflexivity.
Qed.
Lemma check_sound t k l req mc data ds : Inv t (Some (k, l)) -> checkGroup H K M F t req mc data = Accept ds ->
  exists i, k <= i /\ i <= lastOf k l /\ let g := groupStart K i in
    req = Some (1%nat, g) /\ map fst ds = map (fun i => i * F) (upto (groupFirst k g) (groupLast K k l g)) /\ (exists rest, data = ds ++ rest) /\
    (givenSum ds mod M = blockSum H M k l (groupFirst k g) (groupLast K k l g) mod M)%Z.
Proof.
  intros IV E. unfold checkGroup in E. destruct (Nat.eqb (length data) 0 || (K <? N.of_nat (length data)))%bool; [discriminate|].
  destruct (scan K F t req mc data 0 []) as [| |all] eqn:SC; try discriminate. destruct all as [|(b0, d0) all]; [discriminate|]. destruct (scan_prefix _ _ _ _ _ _ _ SC) as (rest & E1 & more & E2 & E3). cbn [rev app] in E1, E2.
  destruct (E3 b0 d0) as (g & -> & EG); [rewrite <- E2; left; reflexivity|]. destruct (listEq (map fst ((b0, d0) :: all)) (rvbIds F t g)) eqn:LE; cbn [negb] in E; [|discriminate]. apply listEq_spec in LE.
  destruct (group_of_inv _ _ _ _ _ IV EG) as (i & I1 & I2 & GI). exists i. split; [auto|]. split; [auto|]. cbv zeta. subst g. rewrite (rvb_ids t k l i IV I1 I2) in LE.
  destruct (final_check t k l i _ IV I1 I2 LE) as (_ & u & EX & FC). rewrite EX in E. cbn [fst] in FC. destruct (oZeq (rootVal u) (parentVal K t (b0 / F))); [|discriminate]. injection E as <-.
  split; [reflexivity|]. split; [exact LE|]. split; [exists rest; exact E1|]. apply FC. reflexivity.
Qed.
Lemma inv_mx t k l : Inv t (Some (k, l)) -> mx t = lastOf k l.
Proof. intros (KZ & LN & v & L & (_ & _ & _ & _ & R) & FV). destruct R as (_ & _ & _ & _ & _ & _ & R). rewrite R. assert (LP : (0 < length l)%nat) by (destruct l; [congruence|simpl; lia]). unfold lastOf. lia. Qed.
Lemma check_exact t k l i mc ds : Inv t (Some (k, l)) -> k <= i -> i <= lastOf k l -> let g := groupStart K i in
  map fst ds = map (fun i => i * F) (upto (groupFirst k g) (groupLast K k l g)) -> groupLast K k l g * F <= mc ->
  (checkGroup H K M F t (Some (1%nat, g)) mc ds = Accept ds <-> (givenSum ds mod M = blockSum H M k l (groupFirst k g) (groupLast K k l g) mod M)%Z) /\
  (checkGroup H K M F t (Some (1%nat, g)) mc ds = Accept ds \/ checkGroup H K M F t (Some (1%nat, g)) mc ds = Reject).
Proof.
  intros IV I1 I2 g E MC. pose proof IV as (KZ & LN & _). assert (LP : (0 < length l)%nat) by (destruct l; [congruence|simpl; lia]).
  assert (G : (i - 1) / K = Q 1 (i - 1)) by (rewrite (Q_S K K2), Q_0; reflexivity).
  destruct (kid_group k l (Q 1 (i - 1)) KZ LN) as (G1 & G2 & G3 & G4 & G5 & G6). { exists i. auto. }
  assert (GE : g = Q 1 (i - 1) * K + 1) by (unfold g, groupStart; rewrite G; reflexivity). rewrite <- GE in *.
  destruct (final_check t k l i ds IV I1 I2 E) as (NE & u & EX & FC). fold g in FC.
  assert (LD : N.of_nat (length ds) = groupLast K k l g + 1 - groupFirst k g). { rewrite <- (map_length fst), E, map_length, upto_rng, rng_len. lia. }
  unfold checkGroup. destruct (Nat.eqb_spec (length ds) 0) as [X|_]; [destruct ds; [congruence|discriminate]|]. cbn [orb]. destruct (N.ltb_spec K (N.of_nat (length ds))) as [X|_]; [unfold groupFirst, groupLast in *; lia|].
  change (@Some (prod nat N) (1%nat, g)) with (@Some id (1%nat, g)). rewrite (scan_all t (1%nat, g) mc (length ds) ds (groupFirst k g) (groupLast K k l g) 0 []); auto.
  2: { rewrite (inv_mx t k l IV). exact G4. }
  2: { intros j J1 J2. rewrite (group_of_live t k l j IV) by lia. f_equal. f_equal. rewrite GE. unfold groupStart. f_equal. f_equal. rewrite <- (Q_0 K (j - 1)), <- (Q_S K K2).
       assert (Q 1 (groupFirst k g - 1) <= Q 1 (j - 1)) by (apply Q_mono; auto; lia). assert (Q 1 (j - 1) <= Q 1 (groupLast K k l g - 1)) by (apply Q_mono; auto; lia). replace (Q 1 (j - 1)) with (Q 1 (i - 1)) by lia. reflexivity. }
  cbn [rev app]. destruct ds as [|(b0, d0) ds]; [congruence|]. pose proof (rvb_ids t k l i IV I1 I2) as RI. cbv zeta in RI. fold g in RI. rewrite RI. clear RI. replace (listEq _ _) with true by (symmetry; apply listEq_spec; exact E). cbn [negb]. rewrite EX. cbn [fst] in FC.
  destruct (oZeq (rootVal u) (parentVal K t (b0 / F))) eqn:EZ; (split; [|auto]); split; auto; try (intros _; apply FC; reflexivity). intros X. discriminate. intros X. apply FC in X. discriminate.
Qed.
Lemma check_no_abort t k l req mc data : Inv t (Some (k, l)) -> (forall b d, In (b, d) data -> k * F <= b) -> checkGroup H K M F t req mc data <> Abort.
Proof.
  intros IV A E. pose proof IV as (KZ & LN & _). unfold checkGroup in E. destruct (Nat.eqb (length data) 0 || (K <? N.of_nat (length data)))%bool; [discriminate|].
  destruct (scan K F t req mc data 0 []) as [| |all] eqn:SC; try discriminate.
  - revert SC. apply scan_abort. intros b d I1 B BM. rewrite (inv_mx t k l IV) in BM. pose proof (A b d I1). assert (BD : b = b / F * F) by (pose proof (N.div_mod b F F0); lia). rewrite BD in BM, H0. rewrite BD. rewrite (group_of_live t k l (b / F) IV); [discriminate|nia|nia].
  - destruct all as [|(b0, d0) all]; [discriminate|]. destruct (scan_prefix _ _ _ _ _ _ _ SC) as (rest & E1 & more & E2 & E3). cbn [rev app] in E1, E2.
    destruct (E3 b0 d0) as (g & -> & EG); [rewrite <- E2; left; reflexivity|]. destruct (listEq (map fst ((b0, d0) :: all)) (rvbIds F t g)) eqn:LE; cbn [negb] in E; [|discriminate]. apply listEq_spec in LE.
    destruct (group_of_inv _ _ _ _ _ IV EG) as (i & I1 & I2 & ->). rewrite (rvb_ids t k l i IV I1 I2) in LE. destruct (final_check t k l i _ IV I1 I2 LE) as (_ & u & EX & FC). rewrite EX in E. destruct (oZeq (rootVal u) (parentVal K t (b0 / F))); discriminate.
Qed.
Lemma check_zero t req mc d : 1 <= K -> checkGroup H K M F t req mc [(0, d)] = Abort.
Proof. clear K2. intros K1. unfold checkGroup. cbn [length Nat.eqb orb]. destruct (N.ltb_spec K (N.of_nat 1)); [lia|]. cbn [scan]. rewrite N.mod_0_l by auto. cbn [N.eqb negb]. destruct (N.ltb_spec mc 0); [lia|]. destruct (N.ltb_spec (mx t * F) 0); [lia|]. cbn [orb andb]. reflexivity. Qed.
End S.
