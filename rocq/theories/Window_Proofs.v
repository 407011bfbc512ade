(** Proofs for Window_Model.v: refinement of the map specification. *)
From Coq Require Import List Arith Lia Bool.
From Verif Require Import Window_Model.
Import ListNotations.

Lemma upd_ok {A} (l : list A) i x : i < length l -> exists l', upd l i x = Some l' /\ length l' = length l /\
  forall j, nth_error l' j = if j =? i then Some x else nth_error l j.
Proof.
  revert i. induction l as [|a l IH]; intros i H; simpl in *; [lia|].
  destruct i as [|i].
  - eexists; split; [reflexivity|]. split; [reflexivity|]. intros [|j]; reflexivity.
  - destruct (IH i) as (l' & E & L & N); [lia|]. rewrite E. eexists; split; [reflexivity|]. split; [simpl; lia|].
    intros [|j]; simpl; auto.
Qed.
Lemma mod_inj t x y : 0 < t -> x < y + t -> y < x + t -> x mod t = y mod t -> x = y.
Proof.
  intros T A B E. pose proof (Nat.div_mod x t ltac:(lia)) as Hx. pose proof (Nat.div_mod y t ltac:(lia)) as Hy.
  rewrite E in Hx. assert (x / t = y / t); [|congruence].
  destruct (Nat.lt_trichotomy (x / t) (y / t)) as [L|[L|L]]; auto; nia.
Qed.
Lemma mod_mult_div n r : 0 < r -> n mod r = 0 -> n / r * r = n.
Proof. intros Hr H. pose proof (Nat.div_mod n r ltac:(lia)). lia. Qed.
Lemma div_mult n r : 0 < r -> n * r / r = n.
Proof. intros. apply Nat.div_mul. lia. Qed.

Section P.
Context {A : Type} (blank : A) (p : wparams) (V : validParams p).
Local Notation R := (pR p). Local Notation W := (pW p).
Local Notation w_ := (numActive p). Local Notation T := (totalItems p).

Lemma Rpos : 0 < R. Proof. destruct V as (_ & ? & _). lia. Qed.
Lemma Wdef : w_ * R = W.
Proof. destruct V as (_ & H & _ & H2). unfold numActive. apply mod_mult_div; auto. Qed.
Lemma wpos : 0 < w_. Proof. pose proof Wdef. destruct V as (? & _). destruct w_; lia. Qed.
Lemma Tpos : 0 < T. Proof. unfold totalItems. pose proof wpos. lia. Qed.

(** B = beg / R; c fixes the position of item number j (number j*R) at (j + c) mod T. *)
Record sim (w : win A) (s : wspec A) (B c : nat) : Prop := mkSim {
  s_beg : beg w = B * R; s_sb : sb s = beg w; s_sl : sl s + inact w * R = beg w; s_first : fst_ w = (B + c) mod T;
  s_len : length (items w) = T; s_in : inact w <= maxInactive p;
  s_it : forall j, B <= j + inact w -> j < B + w_ -> nth_error (items w) ((j + c) mod T) = Some (sm s (j * R)) }.

Lemma sim_inB w s B c : sim w s B c -> inact w <= B.
Proof. intros [H1 H2 H3 _ _ _ _]. pose proof Rpos. rewrite H1 in H3. nia. Qed.

Lemma sim_act w s B c n : sim w s B c -> multiple p n = true -> sActive p s n = true ->
  idxActive p w n = Some ((n / R + c) mod T) /\ B <= n / R /\ n / R < B + w_ /\ n / R * R = n.
Proof.
  intros S M H. unfold multiple in M. unfold idxActive. rewrite M. apply Nat.eqb_eq in M. destruct S as [H1 H2 H3 H4 H5 H6 H7].
  unfold sActive in H. rewrite H2 in H. unfold inside. rewrite H. apply andb_true_iff in H. destruct H as [Ha Hb].
  apply Nat.leb_le in Ha. apply Nat.ltb_lt in Hb. pose proof Rpos as Rp. pose proof (mod_mult_div n R Rp M) as E.
  pose proof Wdef as Wd. rewrite H1 in *. split; [|repeat split; auto; nia].
  simpl andb. cbv iota. f_equal. rewrite H4. set (q := n / R) in *.
  replace (n - B * R) with ((q - B) * R) by nia. rewrite div_mult by auto.
  rewrite Nat.add_mod_idemp_l by (pose proof Tpos; lia). f_equal. nia.
Qed.
Lemma sim_actF w s B c n : sim w s B c -> multiple p n && sActive p s n = false -> idxActive p w n = None.
Proof.
  intros [H1 H2 H3 H4 H5 H6 H7] H. unfold idxActive, inside. unfold multiple, sActive in H. rewrite H2 in H. rewrite H. auto.
Qed.
Lemma sim_hist w s B c n : sim w s B c -> inHistory p w n = sHistory s n.
Proof.
  intros [H1 H2 H3 H4 H5 H6 H7]. unfold inHistory, sHistory, begInactive. rewrite H2.
  replace (beg w - inact w * R) with (sl s) by lia.
  destruct (Nat.ltb_spec 0 (inact w)); simpl; auto.
  assert (inact w = 0) by lia. rewrite H0 in H3. destruct (Nat.leb_spec (sl s) n), (Nat.ltb_spec n (beg w)); simpl; auto; lia.
Qed.
Lemma sim_hidx w s B c n : sim w s B c -> multiple p n = true -> sHistory s n = true ->
  idxHistory p w n = Some ((n / R + c) mod T) /\ B <= n / R + inact w /\ n / R < B + w_ /\ n / R * R = n.
Proof.
  intros S M H. unfold idxHistory. rewrite (sim_hist _ _ _ _ n S), H. pose proof (sim_inB _ _ _ _ S) as IB.
  destruct S as [H1 H2 H3 H4 H5 H6 H7].
  unfold multiple in M. rewrite M. apply Nat.eqb_eq in M. unfold sHistory in H. apply andb_true_iff in H. destruct H as [Ha Hb].
  apply Nat.leb_le in Ha. apply Nat.ltb_lt in Hb. pose proof Rpos as Rp. pose proof (mod_mult_div n R Rp M) as E.
  pose proof wpos as Wp. pose proof Tpos as Tp.
  assert (0 < inact w) by nia. destruct (Nat.ltb_spec 0 (inact w)); [|lia]. destruct (Nat.leb_spec (inact w) (maxInactive p)); [|lia].
  simpl andb; cbv iota. unfold begInactive. set (q := n / R) in *. rewrite H1 in *. split; [|repeat split; auto; nia].
  f_equal. replace (n - (B * R - inact w * R)) with ((q + inact w - B) * R) by nia. rewrite div_mult by auto. rewrite H4.
  assert (inact w <= T) by (unfold totalItems; lia).
  replace ((B + c) mod T + T - inact w + (q + inact w - B)) with ((B + c) mod T + (T - inact w + (q + inact w - B))) by nia.
  rewrite Nat.add_mod_idemp_l by lia. replace (B + c + (T - inact w + (q + inact w - B))) with (q + c + 1 * T) by nia.
  rewrite Nat.mod_add by lia. auto.
Qed.
Lemma sim_hidxF w s B c n : sim w s B c -> multiple p n && sHistory s n = false -> idxHistory p w n = None.
Proof.
  intros S H. unfold idxHistory. rewrite (sim_hist _ _ _ _ n S). unfold multiple in H. rewrite andb_comm in H.
  destruct (sHistory s n); simpl in *; auto. rewrite H; auto.
Qed.
Lemma act_inside w s B c n : sim w s B c -> inside p w n = sActive p s n.
Proof. intros [H1 H2 H3 H4 H5 H6 H7]. unfold inside, sActive. rewrite H2; auto. Qed.
Lemma sim_any w s B c n : sim w s B c -> multiple p n && (sActive p s n || sHistory s n) = true ->
  idxAny p w n = Some ((n / R + c) mod T) /\ B <= n / R + inact w /\ n / R < B + w_ /\ n / R * R = n.
Proof.
  intros S H. apply andb_true_iff in H. destruct H as [M H]. unfold idxAny. rewrite (act_inside _ _ _ _ n S).
  destruct (sActive p s n) eqn:E.
  - destruct (sim_act _ _ _ _ n S M E) as (a & b & d & e). repeat split; auto; lia.
  - simpl in H. rewrite (sim_hist _ _ _ _ n S), H. apply (sim_hidx _ s); auto.
Qed.
Lemma sim_anyF w s B c n : sim w s B c -> multiple p n && (sActive p s n || sHistory s n) = false -> idxAny p w n = None.
Proof.
  intros S H. unfold idxAny. rewrite (act_inside _ _ _ _ n S). destruct (sActive p s n) eqn:E.
  - eapply sim_actF; eauto. rewrite E. simpl in H. auto.
  - rewrite (sim_hist _ _ _ _ n S). destruct (sHistory s n) eqn:F; auto. eapply sim_hidxF; eauto. rewrite F. auto.
Qed.

Lemma inWin_inj w s B c i j : sim w s B c -> B <= i + inact w -> i < B + w_ -> B <= j + inact w -> j < B + w_ ->
  (i + c) mod T = (j + c) mod T -> i = j.
Proof.
  intros [H1 H2 H3 H4 H5 H6 H7] a b d e E. apply (mod_inj T) in E; try lia; [apply Tpos|..]; unfold totalItems; lia.
Qed.
Lemma sim_write w s B c n f : sim w s B c -> B <= n / R + inact w -> n / R < B + w_ -> n / R * R = n ->
  exists w', writeAt w (Some ((n / R + c) mod T)) f = Some w' /\ sim w' (mkS (sb s) (sl s) (setm (sm s) n (f (sm s n)))) B c.
Proof.
  intros S a b E. pose proof S as S'. destruct S as [H1 H2 H3 H4 H5 H6 H7]. unfold writeAt. rewrite (H7 (n / R)) by auto. rewrite E.
  destruct (upd_ok (items w) ((n / R + c) mod T) (f (sm s n))) as (l & U & L & N).
  { rewrite H5. apply Nat.mod_upper_bound. pose proof Tpos; lia. }
  rewrite U. eexists; split; [reflexivity|]. constructor; simpl; auto; [congruence|].
  intros j J1 J2. rewrite N. unfold setm. destruct (Nat.eqb_spec ((j + c) mod T) ((n / R + c) mod T)) as [Q|Q].
  - assert (j = n / R) by (eapply inWin_inj; eauto). subst j. rewrite E. rewrite Nat.eqb_refl. auto.
  - destruct (Nat.eqb_spec (j * R) n) as [Z|Z]; [|apply H7; auto]. exfalso; apply Q. rewrite <- Z. rewrite div_mult; auto. apply Rpos.
Qed.

Lemma nth_repeat_some (x : A) n i : i < n -> nth_error (repeat x n) i = Some x.
Proof. revert i; induction n; intros [|i] H; simpl; try lia; auto. apply IHn. lia. Qed.

(** Reset loop: resets positions (e + k0) mod T for k0 < k. *)
Lemma resetFrom_ok k : forall l e, length l = T -> k <= T -> exists l', resetFrom blank p l (e mod T) k = Some l' /\ length l' = T /\
  (forall j, j < k -> nth_error l' ((e + j) mod T) = Some blank) /\
  (forall i, (forall j, j < k -> i <> (e + j) mod T) -> nth_error l' i = nth_error l i).
Proof.
  pose proof Tpos as Tp.
  induction k as [|k IH]; intros l e L K; simpl.
  - eexists; split; [reflexivity|]. repeat split; auto. intros; lia.
  - destruct (upd_ok l (e mod T) blank) as (l1 & U & L1 & N1). { rewrite L. apply Nat.mod_upper_bound. lia. }
    rewrite U. rewrite Nat.add_mod_idemp_l by lia.
    destruct (IH l1 (e + 1)) as (l2 & U2 & L2 & N2 & N3); [congruence|lia|]. exists l2. split; [auto|]. split; [auto|]. split.
    + intros [|j] J.
      * rewrite Nat.add_0_r. rewrite N3; [rewrite N1, Nat.eqb_refl; auto|]. intros j Hj E.
        apply (mod_inj T) in E; lia.
      * replace (e + S j) with (e + 1 + j) by lia. apply N2. lia.
    + intros i Hi. rewrite N3.
      * rewrite N1. destruct (Nat.eqb_spec i (e mod T)); auto. exfalso. apply (Hi 0); [lia|]. rewrite Nat.add_0_r; auto.
      * intros j Hj E. apply (Hi (S j)); [lia|]. rewrite E. f_equal. lia.
Qed.

Lemma sim_reset w s B c n : sim w s B c -> multiple p n = true ->
  exists w' B' c', resetAll blank p w n = Some w' /\ sim w' (mkS n n (fun _ => blank)) B' c'.
Proof.
  intros [H1 H2 H3 H4 H5 H6 H7] M. unfold resetAll. unfold multiple in M. rewrite M. apply Nat.eqb_eq in M.
  pose proof Tpos as Tp. pose proof Rpos as Rp.
  exists (mkW n (fst_ w) 0 (repeat blank (length (items w)))), (n / R), (fst_ w + (n / R) * T - n / R). split; auto.
  constructor; simpl; auto.
  - symmetry; apply mod_mult_div; auto.
  - replace (n / R + (fst_ w + n / R * T - n / R)) with (fst_ w + n / R * T) by nia. rewrite Nat.mod_add by lia.
    rewrite Nat.mod_small; auto. rewrite H4. apply Nat.mod_upper_bound. lia.
  - rewrite repeat_length. auto.
  - lia.
  - intros j J1 J2. apply nth_repeat_some. rewrite H5. apply Nat.mod_upper_bound. lia.
Qed.

Lemma maxIn_R : maxInactive p * R = pH p * W.
Proof. unfold maxInactive. rewrite <- Wdef. nia. Qed.

Lemma sim_advance w s B c n : sim w s B c -> multiple p n && (sb s <=? n) = true ->
  exists w' B' c', advance blank p w n = Some w' /\ sim w' (sAdvance blank p s n) B' c'.
Proof.
  intros S H. pose proof S as S0. pose proof (sim_inB _ _ _ _ S) as IB. destruct S as [H1 H2 H3 H4 H5 H6 H7].
  apply andb_true_iff in H. destruct H as [M L]. unfold advance. pose proof M as M'. unfold multiple in M. rewrite M.
  rewrite H2 in L. rewrite L. cbv iota beta. simpl andb. cbv iota. apply Nat.eqb_eq in M. apply Nat.leb_le in L.
  pose proof Tpos as Tp. pose proof Rpos as Rp. pose proof wpos as Wp. pose proof Wdef as WD. pose proof maxIn_R as MR.
  pose proof (mod_mult_div n R Rp M) as E. set (q := n / R) in *.
  unfold sAdvance. rewrite H2.
  destruct (Nat.eqb_spec n (beg w)) as [Z|Z].
  { exists w, B, c. split; auto. rewrite Z, Nat.sub_diag. destruct (Nat.ltb_spec W 0); [lia|].
    constructor; simpl; auto.
    - rewrite Nat.max_l; auto. nia.
    - intros j J1 J2. rewrite H7 by auto. destruct (Nat.ltb_spec (j * R) (beg w + W)); auto. rewrite H1 in *. nia. }
  destruct (Nat.ltb_spec W (n - beg w)) as [G|G].
  { apply (sim_reset w s B c n S0 M'). }
  assert (Hk : (n - beg w) / R = q - B). { replace (n - beg w) with ((q - B) * R) by (rewrite H1 in *; nia). apply div_mult; auto. }
  assert (Kb : 0 < q - B /\ q - B <= w_) by (rewrite H1 in *; nia).
  assert (WT : w_ <= T) by (unfold totalItems; lia).
  rewrite Hk.
  destruct (Nat.ltb_spec 0 (q - B)); [|lia]. destruct (Nat.leb_spec (q - B) w_); [|lia]. simpl andb. cbv iota.
  destruct (resetFrom_ok (q - B) (items w) (B + c + w_)) as (l & U & L1 & N1 & N2); [auto|lia|].
  rewrite H4, Nat.add_mod_idemp_l by lia. rewrite U. rewrite Nat.add_mod_idemp_l by lia.
  eexists _, q, c. split; [reflexivity|].
  assert (Hin : (if maxInactive p <? inact w + (q - B) then maxInactive p else inact w + (q - B)) = Nat.min (inact w + (q - B)) (maxInactive p)).
  { destruct (Nat.ltb_spec (maxInactive p) (inact w + (q - B))); lia. }
  rewrite Hin. constructor; simpl.
  - auto.
  - auto.
  - destruct (Nat.le_ge_cases (inact w + (q - B)) (maxInactive p)).
    + rewrite Nat.min_l by auto. rewrite Nat.max_l; rewrite H1 in *; nia.
    + rewrite Nat.min_r by auto. rewrite Nat.max_r; rewrite H1 in *; nia.
  - f_equal. lia.
  - auto.
  - lia.
  - intros j J1 J2. destruct (Nat.ltb_spec (j * R) (beg w + W)).
    + assert (j < B + w_) by (rewrite H1, <- WD in *; nia). assert (B <= j + inact w) by lia.
      rewrite N2; [apply H7; auto|]. intros i Hi Q.
      assert (j + c = B + c + w_ + i); [|lia]. apply (mod_inj T); auto; unfold totalItems in *; lia.
    + assert (B + w_ <= j) by (rewrite H1, <- WD in *; nia).
      replace (j + c) with (B + c + w_ + (j - (B + w_))) by lia. apply N1. lia.
Qed.
Lemma sim_advanceF w s B c n : sim w s B c -> multiple p n && (sb s <=? n) = false -> advance blank p w n = None.
Proof. intros [H1 H2 H3 H4 H5 H6 H7] H. unfold advance. unfold multiple in H. rewrite H2 in H. rewrite H. auto. Qed.

Lemma sim_step w s B c o : sim w s B c ->
  match sstep blank p s o with
  | Some (s', x) => exists w' B' c', wstep blank p w o = Some (w', x) /\ sim w' s' B' c'
  | None => wstep blank p w o = None
  end.
Proof.
  intros S. destruct o; simpl.
  - destruct (multiple p n && sActive p s n) eqn:E.
    + pose proof E as E'. apply andb_true_iff in E'. destruct E' as [E1 E2]. destruct (sim_act _ _ _ _ n S E1 E2) as (I & a & b & d).
      rewrite I. simpl. rewrite (s_it _ _ _ _ S) by lia. rewrite d. simpl. eauto 6.
    + rewrite (sim_actF _ _ _ _ n S E). auto.
  - destruct (multiple p n && sHistory s n) eqn:E.
    + pose proof E as E'. apply andb_true_iff in E'. destruct E' as [E1 E2]. destruct (sim_hidx _ _ _ _ n S E1 E2) as (I & a & b & d).
      rewrite I. simpl. rewrite (s_it _ _ _ _ S) by lia. rewrite d. simpl. eauto 6.
    + rewrite (sim_hidxF _ _ _ _ n S E). auto.
  - destruct (multiple p n && (sActive p s n || sHistory s n)) eqn:E.
    + destruct (sim_any _ _ _ _ n S E) as (I & a & b & d).
      rewrite I. simpl. rewrite (s_it _ _ _ _ S) by lia. rewrite d. simpl. eauto 6.
    + rewrite (sim_anyF _ _ _ _ n S E). auto.
  - destruct (multiple p n && sActive p s n) eqn:E.
    + pose proof E as E'. apply andb_true_iff in E'. destruct E' as [E1 E2]. destruct (sim_act _ _ _ _ n S E1 E2) as (I & a & b & d).
      rewrite I. destruct (sim_write _ _ _ _ n f S) as (w' & H1 & H2); auto; [lia|]. rewrite H1. simpl. eauto 6.
    + rewrite (sim_actF _ _ _ _ n S E). auto.
  - destruct (multiple p n && (sActive p s n || sHistory s n)) eqn:E.
    + destruct (sim_any _ _ _ _ n S E) as (I & a & b & d).
      rewrite I. destruct (sim_write _ _ _ _ n f S) as (w' & H1 & H2); auto. rewrite H1. simpl. eauto 6.
    + rewrite (sim_anyF _ _ _ _ n S E). auto.
  - exists w, B, c. rewrite (act_inside _ _ _ _ n S). auto.
  - exists w, B, c. rewrite (sim_hist _ _ _ _ n S). auto.
  - exists w, B, c. unfold currentActiveWindow. rewrite (s_sb _ _ _ _ S). auto.
  - destruct (multiple p n && (sb s <=? n)) eqn:E.
    + destruct (sim_advance _ _ _ _ n S E) as (w' & B' & c' & H1 & H2). rewrite H1. simpl. eauto 6.
    + rewrite (sim_advanceF _ _ _ _ n S E). auto.
  - destruct (multiple p n) eqn:E.
    + destruct (sim_reset _ _ _ _ n S E) as (w' & B' & c' & H1 & H2). rewrite H1. simpl. eauto 6.
    + unfold resetAll. unfold multiple in E. rewrite E. auto.
Qed.

Lemma sim_run l : forall w s B c, sim w s B c -> wrun blank p w l = srun blank p s l.
Proof.
  induction l as [|o l IH]; intros w s B c S; simpl; auto. pose proof (sim_step w s B c o S) as H.
  destruct (sstep blank p s o) as [[s' x]|]; [|rewrite H; auto].
  destruct H as (w' & B' & c' & E & S'). rewrite E. rewrite (IH _ _ _ _ S'). auto.
Qed.
Lemma exec_eq first l : wexec blank p first l = sexec blank p first l.
Proof.
  unfold wexec, sexec, wcreate, multiple. destruct (Nat.eqb_spec (first mod R) 0) as [M|M]; auto.
  pose proof Tpos as Tp. pose proof Rpos as Rp.
  apply (sim_run l _ _ (first / R) ((first / R) * T - first / R)). constructor; simpl; auto.
  - symmetry; apply mod_mult_div; auto.
  - replace (first / R + (first / R * T - first / R)) with (0 + first / R * T) by nia. rewrite Nat.mod_add by lia.
    rewrite Nat.mod_small; auto.
  - apply repeat_length.
  - lia.
  - intros j J1 J2. apply nth_repeat_some. apply Nat.mod_upper_bound. lia.
Qed.
End P.
