(** Proofs for C13. *)
From Coq Require Import List Arith NArith Lia Bool.
From Verif Require Import Lib_Bytes Keys_Model Keys_Proofs Lib_CF Versioned_Model.
Import ListNotations.
Local Open Scope N_scope.

(** * Keys and tags *)
Lemma vkey_inj k b k' b' : b < 256 ^ 8 -> b' < 256 ^ 8 -> vkey k b = vkey k' b' -> k = k' /\ b = b'.
Proof.
  intros Hb Hb' E. assert (L : length k = length k').
  { apply (f_equal (@length N)) in E. unfold vkey in E. rewrite !app_length, !be_length in E. lia. }
  unfold vkey in E. apply app_inv_len in E; [|rewrite !be_length; auto]. destruct E as [_ E]. apply app_inv_len in E; auto. destruct E as [-> E].
  split; auto. apply (be_inj 8); auto.
Qed.
Lemma vkey_dec k b : N.of_nat (length k) < 256 ^ 4 -> b < 256 ^ 8 -> unVkey (vkey k b) = (k, b).
Proof.
  intros L B. unfold unVkey, vkey. rewrite (slice_app_here (be 4 _) _ 4) by apply be_length. rewrite unbe_be by exact L. rewrite Nat2N.id.
  rewrite slice_app_skip by (rewrite be_length; lia). rewrite be_length. rewrite Nat.sub_diag.
  rewrite (slice_app_here k _ (length k)) by auto. f_equal. rewrite slice_app_skip by (rewrite be_length; lia). rewrite be_length.
  rewrite slice_app_skip by lia. replace (4 + length k - 4 - length k)%nat with 0%nat by lia.
  rewrite <- (app_nil_r (be 8 b)). rewrite (slice_app_here (be 8 b) [] 8) by apply be_length. apply unbe_be. exact B.
Qed.
Definition vpre (k : bytes) : bytes := be 4 (N.of_nat (length k)) ++ k.
Lemma vkey_pre k b : vkey k b = vpre k ++ be 8 b.
Proof. unfold vkey, vpre. rewrite app_assoc. auto. Qed.
Lemma vkey_lt k a b : a < 256 ^ 8 -> b < 256 ^ 8 -> (blt (vkey k a) (vkey k b) = true <-> a < b).
Proof. intros A B. rewrite !vkey_pre, blt_app_same. apply (blt_be 8); auto. Qed.
Lemma vkey_between k a b k' c : N.of_nat (length k) < 256 ^ 4 -> N.of_nat (length k') < 256 ^ 4 ->
  blt (vkey k' c) (vkey k a) = false -> blt (vkey k b) (vkey k' c) = false -> k' = k.
Proof.
  intros L L' A B. rewrite (vkey_pre k a) in A. rewrite (vkey_pre k b) in B. destruct (sandwich _ _ _ _ A B) as [x E].
  unfold vkey, vpre in E. rewrite <- app_assoc in E. apply be_app_inj in E; auto. destruct E as [E1 E2].
  apply app_inv_len in E2; [tauto|]. apply Nat2N.inj. auto.
Qed.
Lemma tagBit_land v : v < tagBit -> N.land tagBit v = 0.
Proof.
  intros L. unfold tagBit in *. apply N.bits_inj. intros n. rewrite N.land_spec, N.bits_0, N.pow2_bits_eqb. destruct (N.eqb_spec 63 n) as [<-|]; auto.
  simpl. destruct (N.eq_dec v 0) as [->|Z]; [apply N.bits_0|]. apply N.bits_above_log2. apply N.log2_lt_pow2; lia.
Qed.
Lemma tagBit_mask v : v < tagBit -> N.land (tagBit - 1) v = v.
Proof.
  intros L. rewrite N.land_comm. replace (tagBit - 1) with (N.ones 63) by reflexivity. rewrite N.land_ones. apply N.mod_small. exact L.
Qed.
Lemma tag_round d v : v < tagBit -> tagDec (tagEnc d v) = (d, v).
Proof.
  intros L. unfold tagDec, tagEnc. destruct d.
  - f_equal.
    + rewrite N.land_lor_distr_r, tagBit_land by auto. rewrite N.lor_0_l, N.land_diag. reflexivity.
    + rewrite N.land_lor_distr_r, tagBit_mask by auto. replace (N.land (tagBit - 1) tagBit) with 0 by reflexivity. apply N.lor_0_r.
  - rewrite tagBit_land, tagBit_mask by auto. reflexivity.
Qed.
Global Opaque tagBit tagEnc tagDec vkey unVkey.
Lemma tagBit_u64 v : v < tagBit -> v < 256 ^ 8.
Proof. Transparent tagBit. unfold tagBit. intros. apply N.lt_trans with (2 ^ 63); auto. reflexivity. Qed.
Global Opaque tagBit.

(** * Batches *)
Definition effV (x : bytes) (v : option (bool * bytes)) (o : wop) := match o with PutV k y => if beqb x k then Some y else v | DelV k => if beqb x k then None else v | _ => v end.
Definition effL (x : bytes) (v : option N) (o : wop) := match o with PutL k y => if beqb x k then Some y else v | DelL k => if beqb x k then None else v | _ => v end.
Definition effA (x : bytes) (v : option N) (o : wop) := match o with PutA k y => if beqb x k then Some y else v | DelA k => if beqb x k then None else v | _ => v end.
Lemma apply_vals os : forall s x, cfGet (vals (applyAll s os)) x = fold_left (effV x) os (cfGet (vals s) x).
Proof.
  induction os as [|o os IH]; intros; auto. unfold applyAll in *. cbn [fold_left]. rewrite IH. f_equal.
  destruct o; cbn [apply1 vals effV]; auto; [apply cfGet_put|apply cfGet_del].
Qed.
Lemma apply_lat os : forall s x, cfGet (lat (applyAll s os)) x = fold_left (effL x) os (cfGet (lat s) x).
Proof.
  induction os as [|o os IH]; intros; auto. unfold applyAll in *. cbn [fold_left]. rewrite IH. f_equal.
  destruct o; cbn [apply1 lat effL]; auto; [apply cfGet_put|apply cfGet_del].
Qed.
Lemma apply_act os : forall s x, cfGet (act (applyAll s os)) x = fold_left (effA x) os (cfGet (act s) x).
Proof.
  induction os as [|o os IH]; intros; auto. unfold applyAll in *. cbn [fold_left]. rewrite IH. f_equal.
  destruct o; cbn [apply1 act effA]; auto; [apply cfGet_put|apply cfGet_del].
Qed.
Lemma apply_NoDup os : forall s, NoDup (map fst (vals s)) -> NoDup (map fst (vals (applyAll s os))).
Proof.
  induction os as [|o os IH]; intros s ND; auto. unfold applyAll in *. cbn [fold_left]. apply IH.
  destruct o; cbn [apply1 vals]; auto; [apply cfPut_NoDup; auto|apply cfDel_NoDup; auto].
Qed.
(** Operations of one key. *)
Definition own (k : bytes) (o : wop) : Prop :=
  match o with PutL k' _ | DelL k' | PutA k' _ | DelA k' => k' = k | PutV x _ | DelV x => exists b, b < 256 ^ 8 /\ x = vkey k b end.
Section Local.
Variable E : Type.
Variable key : E -> bytes.
Variable f : E -> list wop.
Hypothesis Hown : forall e, Forall (own (key e)) (f e).
Variable T : Type.
Variable eff : T -> wop -> T.
Variable k : bytes.
Hypothesis Heff : forall k' o t, own k' o -> k' <> k -> eff t o = t.
Lemma eff_skip e t : key e <> k -> fold_left eff (f e) t = t.
Proof.
  intros N. generalize (Hown e). induction (f e) as [|o l IH]; intros F; auto. inversion F; subst. cbn [fold_left]. rewrite (Heff (key e)); auto.
Qed.
Lemma eff_none l : forall t, ~ In k (map key l) -> fold_left eff (flat_map f l) t = t.
Proof.
  induction l as [|e l IH]; intros t N; auto. cbn [flat_map map In] in *. rewrite fold_left_app, IH by tauto. apply eff_skip. tauto.
Qed.
Lemma eff_one l e : forall t, NoDup (map key l) -> In e l -> key e = k -> fold_left eff (flat_map f l) t = fold_left eff (f e) t.
Proof.
  induction l as [|e' l IH]; intros t ND I K; [destruct I|]. cbn [flat_map map] in *. apply NoDup_cons_iff in ND. destruct ND as [H1 H2]. rewrite fold_left_app. destruct I as [->|I].
  - apply eff_none. rewrite <- K. auto.
  - rewrite IH by auto. f_equal. apply eff_skip. intros Ek. apply H1. rewrite Ek, <- K. apply in_map. auto.
Qed.
End Local.
Lemma effV_own k b : b < 256 ^ 8 -> forall k' o t, own k' o -> k' <> k -> effV (vkey k b) t o = t.
Proof.
  intros B k' o t O N. destruct o; cbn [effV own] in *; auto; destruct O as (b' & B' & ->);
    (rewrite (proj2 (beqb_neq _ _)); [auto|intros E; apply vkey_inj in E; auto; destruct E; congruence]).
Qed.
Lemma effL_own k : forall k' o t, own k' o -> k' <> k -> effL k t o = t.
Proof. intros k' o t O N. destruct o; cbn [effL own] in *; auto; subst; rewrite (proj2 (beqb_neq _ _)); auto. Qed.
Lemma effA_own k : forall k' o t, own k' o -> k' <> k -> effA k t o = t.
Proof. intros k' o t O N. destruct o; cbn [effA own] in *; auto; subst; rewrite (proj2 (beqb_neq _ _)); auto. Qed.

(** * The output of a block *)
Definition flagsOf (w : option write) : option (bool * bool) := match w with Some (Wrote _ s) => Some (false, s) | Some Deleted => Some (true, false) | None => None end.
Section Out.
Variable H : bytes -> bytes.
Lemma out_sorted i : sorted (okeys (addOut H i)).
Proof.
  unfold addOut. cbn [okeys]. 
  assert (A : forall l m, sorted m -> sorted (fold_left (fun m k => emplace m k (true, false)) l m)).
  { induction l; intros; auto. cbn [fold_left]. apply IHl. apply emplace_sorted; auto. }
  assert (B : forall l (m : list (bytes * (bool * bool))), sorted m -> sorted (fold_left (fun m (u : bytes * (bytes * bool)) => emplace m (fst u) (false, snd (snd u))) l m)).
  { induction l; intros; auto. cbn [fold_left]. apply IHl. apply emplace_sorted; auto. }
  apply B. apply A. simpl. auto.
Qed.
Lemma out_get i k : goodInput i -> cfGet (okeys (addOut H i)) k = flagsOf (writeOf i k).
Proof.
  intros (ND & _ & DJ & _). unfold addOut. cbn [okeys]. 
  assert (A : forall l m, sorted m -> sorted (fold_left (fun m k => emplace m k (true, false)) l m) /\
    cfGet (fold_left (fun m k => emplace m k (true, false)) l m) k = match cfGet m k with Some y => Some y | None => if existsb (beqb k) l then Some (true, false) else None end).
  { induction l as [|a l IH]; intros m Sm; [split; auto; cbn; destruct (cfGet m k); auto|]. cbn [fold_left existsb]. 
    destruct (IH (emplace m a (true, false))) as [P Q]; [apply emplace_sorted; auto|]. split; auto. rewrite Q, cfGet_emplace by auto.
    destruct (cfGet m k); auto. destruct (beqb k a); auto. }
  assert (B : forall l (m : list (bytes * (bool * bool))), sorted m -> NoDup (map fst l) -> 
    cfGet (fold_left (fun m (u : bytes * (bytes * bool)) => emplace m (fst u) (false, snd (snd u))) l m) k =
    match cfGet m k with Some y => Some y | None => match cfGet l k with Some (_, s) => Some (false, s) | None => None end end).
  { induction l as [|[a [d s]] l IH]; intros m Sm NDl; [cbn; destruct (cfGet m k); auto|]. cbn [fold_left fst snd map] in *. inversion NDl; subst.
    rewrite IH by (auto; apply emplace_sorted; auto). rewrite cfGet_emplace by auto. cbn [cfGet]. destruct (cfGet m k); auto. destruct (beqb k a) eqn:E; auto. }
  destruct (A (dels i) []) as [P Q]; [simpl; auto|]. rewrite B by auto. rewrite Q. cbn [cfGet]. unfold writeOf.
  destruct (existsb (beqb k) (dels i)) eqn:X.
  - apply existsb_exists in X. destruct X as (y & I & E). apply beqb_eq in E; subst y. rewrite (proj2 (cfGet_None (kv i) k)) by auto. auto.
  - destruct (cfGet (kv i) k) as [[d s]|]; auto.
Qed.
End Out.

(** * What the three kinds of batches do to one key *)
Definition storedOf (w : write) : bool * bytes := match w with Wrote d _ => (false, d) | Deleted => (true, []) end.
Definition isDel (w : write) : bool := match w with Deleted => true | _ => false end.
Definition isStale (w : write) : bool := match w with Wrote _ s => s | _ => false end.
Lemma delOps_own b k : b < 256 ^ 8 -> Forall (own k) (delOps b k).
Proof. intros B. unfold delOps. repeat constructor. exists b. auto. Qed.
Lemma updOps_own b u : b < 256 ^ 8 -> Forall (own (fst u)) (updOps b u).
Proof. intros B. unfold updOps. repeat constructor. exists b. auto. Qed.

Section Effects.
Variable H : bytes -> bytes.
Lemma writeOf_cases i k : goodInput i ->
  match writeOf i k with
  | Some (Wrote d s) => In (k, (d, s)) (kv i) /\ ~ In k (dels i)
  | Some Deleted => In k (dels i) /\ ~ In k (map fst (kv i))
  | None => ~ In k (dels i) /\ ~ In k (map fst (kv i))
  end.
Proof.
  intros (ND & ND' & DJ & _). unfold writeOf. destruct (cfGet (kv i) k) as [[d s]|] eqn:G.
  - apply cfGet_In in G. split; auto. intros I. apply (DJ k I). apply (in_map fst) in G. auto.
  - apply cfGet_None in G. destruct (existsb (beqb k) (dels i)) eqn:X.
    + apply existsb_exists in X. destruct X as (y & I & E). apply beqb_eq in E; subst y. auto.
    + split; auto. intros I. rewrite <- not_true_iff_false in X. apply X. apply existsb_exists. exists k. split; auto. apply beqb_refl.
Qed.
Lemma add_vals s i b k b' : goodInput i -> b < tagBit -> b' < tagBit ->
  cfGet (vals (applyAll s (addOps b i))) (vkey k b') =
  match writeOf i k with Some w => if b' =? b then Some (storedOf w) else cfGet (vals s) (vkey k b') | None => cfGet (vals s) (vkey k b') end.
Proof.
  intros G B B'. apply tagBit_u64 in B. apply tagBit_u64 in B'. pose proof (writeOf_cases i k G) as W. destruct G as (ND & ND' & DJ & _). rewrite apply_vals. unfold addOps. rewrite fold_left_app.
  pose proof (effV_own k b' B') as EO.
  pose proof (fun e => delOps_own b e B) as O1. pose proof (fun e => updOps_own b e B) as O2.
  assert (NE : b' <> b -> beqb (vkey k b') (vkey k b) = false). { intros N. apply beqb_neq. intros E. apply vkey_inj in E; auto. tauto. }
  destruct (writeOf i k) as [[d s0|]|].
  - destruct W as [W1 W2]. rewrite (eff_none bytes (fun x => x) (delOps b) O1 _ _ k EO); [|rewrite map_id; auto].
    rewrite (eff_one _ fst (updOps b) O2 _ _ k EO _ _ _ ND W1) by auto. cbn [updOps fold_left effV fst snd storedOf].
    destruct (N.eqb_spec b' b) as [->|N]; [rewrite beqb_refl|rewrite NE]; auto.
  - destruct W as [W1 W2]. rewrite (eff_none _ fst (updOps b) O2 _ _ k EO) by auto. rewrite <- (map_id (dels i)) in ND'.
    rewrite (eff_one bytes (fun x => x) (delOps b) O1 _ _ k EO _ k _ ND' W1) by auto. cbn [delOps fold_left effV storedOf].
    destruct (N.eqb_spec b' b) as [->|N]; [rewrite beqb_refl|rewrite NE]; auto.
  - destruct W as [W1 W2]. rewrite (eff_none _ fst (updOps b) O2 _ _ k EO) by auto.
    rewrite (eff_none bytes (fun x => x) (delOps b) O1 _ _ k EO); [|rewrite map_id; auto]. auto.
Qed.
Lemma add_lat s i b k : goodInput i -> b < tagBit ->
  cfGet (lat (applyAll s (addOps b i))) k = match writeOf i k with Some w => Some (tagEnc (isDel w) b) | None => cfGet (lat s) k end.
Proof.
  intros G B. apply tagBit_u64 in B. pose proof (writeOf_cases i k G) as W. destruct G as (ND & ND' & DJ & _). rewrite apply_lat. unfold addOps. rewrite fold_left_app.
  pose proof (effL_own k) as EO.
  pose proof (fun e => delOps_own b e B) as O1. pose proof (fun e => updOps_own b e B) as O2.
  destruct (writeOf i k) as [[d s0|]|].
  - destruct W as [W1 W2]. rewrite (eff_none bytes (fun x => x) (delOps b) O1 _ _ k EO); [|rewrite map_id; auto].
    rewrite (eff_one _ fst (updOps b) O2 _ _ k EO _ _ _ ND W1) by auto. cbn [updOps fold_left effL fst snd isDel]. rewrite beqb_refl. auto.
  - destruct W as [W1 W2]. rewrite (eff_none _ fst (updOps b) O2 _ _ k EO) by auto. rewrite <- (map_id (dels i)) in ND'.
    rewrite (eff_one bytes (fun x => x) (delOps b) O1 _ _ k EO _ k _ ND' W1) by auto. cbn [delOps fold_left effL isDel]. rewrite beqb_refl. auto.
  - destruct W as [W1 W2]. rewrite (eff_none _ fst (updOps b) O2 _ _ k EO) by auto.
    rewrite (eff_none bytes (fun x => x) (delOps b) O1 _ _ k EO); [|rewrite map_id; auto]. auto.
Qed.
Lemma add_act s i b : act (applyAll s (addOps b i)) = act s.
Proof.
  unfold addOps, applyAll. rewrite fold_left_app. 
  assert (A : forall l s, act (fold_left apply1 (flat_map (updOps b) l) s) = act s). { induction l; intros; auto. cbn [flat_map updOps]. rewrite fold_left_app, IHl. auto. }
  assert (B : forall l s, act (fold_left apply1 (flat_map (delOps b) l) s) = act s). { induction l; intros; auto. cbn [flat_map delOps]. rewrite fold_left_app, IHl. auto. }
  rewrite A, B. auto.
Qed.

(** Sequences of per-key batches. *)
Lemma sequence_flat {E X} (g : E -> option (list X)) l : forall r, sequence (map g l) = Some r ->
  exists f, r = flat_map f l /\ forall e, In e l -> g e = Some (f e).
Proof.
  intros r Hr. exists (fun e => match g e with Some x => x | None => [] end). revert r Hr. induction l as [|e l IH]; intros r Hr; cbn [map sequence] in Hr.
  - injection Hr as <-. split; auto. intros e [].
  - destruct (g e) eqn:G; [|discriminate]. destruct (sequence (map g l)) eqn:S; [|discriminate]. injection Hr as <-. destruct (IH _ eq_refl) as [E1 E2]. split.
    + cbn [flat_map]. rewrite G. f_equal. auto.
    + intros e' [<-|I]; [rewrite G; auto|auto].
Qed.
Lemma sequence_some {E X} (g : E -> option (list X)) l : (forall e, In e l -> g e <> None) -> sequence (map g l) <> None.
Proof.
  induction l as [|e l IH]; cbn [map sequence]; intros A; [discriminate|]. destruct (g e) eqn:G; [|exfalso; apply (A e); [left; auto|auto]].
  destruct (sequence (map g l)) eqn:S; [discriminate|]. exfalso. apply IH; auto. intros e' I. apply A. right; auto.
Qed.
End Effects.

Section GenLast.
Variable s : cat.
Variable b : N.
Variable o : voutput.
Hypothesis HS : sorted (okeys o).
Hypothesis Hb : b < tagBit.
Hypothesis Hact : forall k a, cfGet (act s) k = Some a -> a < tagBit.

Definition actF (e : bytes * (bool * bool)) : list wop := match cfGet (act s) (fst e) with Some a => [DelV (vkey (fst e) a); DelA (fst e)] | None => [] end.
Lemma actF_own e : Forall (own (fst e)) (actF e).
Proof. unfold actF. destruct (cfGet (act s) (fst e)) eqn:A; repeat constructor. eexists. split; [|reflexivity]. apply tagBit_u64. eauto. Qed.
Lemma genKey_own e l : genesisKeyOps s b e = Some l -> Forall (own (fst e)) l.
Proof.
  unfold genesisKeyOps. destruct (latestVersion s (fst e)) as [[? lv]|]; [|discriminate]. intros E. injection E as <-. pose proof (tagBit_u64 _ Hb).
  destruct (snd (snd e)); [|destruct (fst (snd e) && (lv =? b)); [|destruct (b <? lv)]].
  - destruct (lv =? b); repeat constructor; exists b; auto.
  - repeat constructor; exists b; auto.
  - repeat constructor; exists b; auto.
  - repeat constructor.
Qed.
Lemma lastKey_own e l : lastKeyOps s b e = Some l -> Forall (own (fst e)) l.
Proof.
  unfold lastKeyOps. destruct (seekAtMost (vals s) (vkey (fst e) b)) as [[cur ?]|]; [|discriminate]. intros E. injection E as <-. pose proof (tagBit_u64 _ Hb).
  apply Forall_app. split; [|repeat constructor; exists b; auto]. destruct (seekBefore (vals s) cur) as [[pk px]|]; [destruct (beqb (fst (unVkey pk)) (fst e))|]; repeat constructor.
Qed.
(** Total versions of the per-key batches. *)
Definition tot {X} (x : option (list X)) : list X := match x with Some l => l | None => [] end.
Lemma sequence_tot {E X} (g : E -> option (list X)) l : forall r, sequence (map g l) = Some r -> r = flat_map (fun e => tot (g e)) l.
Proof.
  induction l as [|e l IH]; intros r Hr; cbn [map sequence] in Hr; [injection Hr as <-; auto|].
  destruct (g e) eqn:G; [|discriminate]. destruct (sequence (map g l)) eqn:S; [|discriminate]. injection Hr as <-. cbn [flat_map]. rewrite G. cbn [tot]. f_equal. auto.
Qed.
Lemma genTot_own e : Forall (own (fst e)) (tot (genesisKeyOps s b e)).
Proof. destruct (genesisKeyOps s b e) eqn:G; cbn; [apply genKey_own; auto|constructor]. Qed.
Lemma lastTot_own e : Forall (own (fst e)) (tot (lastKeyOps s b e)).
Proof. destruct (lastKeyOps s b e) eqn:G; cbn; [apply lastKey_own; auto|constructor]. Qed.

Lemma gen_skip ops : genesisOps s b o = Some ops -> forall k, cfGet (okeys o) k = None ->
  (forall b', b' < tagBit -> cfGet (vals (applyAll s ops)) (vkey k b') = cfGet (vals s) (vkey k b')) /\
  cfGet (lat (applyAll s ops)) k = cfGet (lat s) k /\ cfGet (act (applyAll s ops)) k = cfGet (act s) k.
Proof.
  intros E k N. unfold genesisOps in E. destruct (sequence (map (genesisKeyOps s b) (okeys o))) as [l|] eqn:Sq; [|discriminate]. injection E as <-.
  apply sequence_tot in Sq. subst l. apply cfGet_None in N. fold actF. unfold activeOps. fold actF.
  split; [|split].
  - intros b' B'. rewrite apply_vals, fold_left_app. pose proof (effV_own k b' (tagBit_u64 _ B')) as EO.
    rewrite (eff_none _ fst actF actF_own _ _ k EO) by auto. apply (eff_none _ fst _ genTot_own _ _ k EO). auto.
  - rewrite apply_lat, fold_left_app. pose proof (effL_own k) as EO.
    rewrite (eff_none _ fst actF actF_own _ _ k EO) by auto. apply (eff_none _ fst _ genTot_own _ _ k EO). auto.
  - rewrite apply_act, fold_left_app. pose proof (effA_own k) as EO.
    rewrite (eff_none _ fst actF actF_own _ _ k EO) by auto. apply (eff_none _ fst _ genTot_own _ _ k EO). auto.
Qed.
Lemma gen_key ops : genesisOps s b o = Some ops -> forall k dl stl d0 lv, cfGet (okeys o) k = Some (dl, stl) -> latestVersion s k = Some (d0, lv) ->
  let removed := stl || (dl && (lv =? b)) || (b <? lv) in
  (forall b', b' < tagBit -> cfGet (vals (applyAll s ops)) (vkey k b') =
     if match cfGet (act s) k with Some a => a =? b' | None => false end then None else if removed && (b' =? b) then None else cfGet (vals s) (vkey k b')) /\
  cfGet (lat (applyAll s ops)) k = (if (stl || dl) && (lv =? b) then None else cfGet (lat s) k) /\
  cfGet (act (applyAll s ops)) k = (if removed then None else Some b).
Proof.
  intros E k dl stl d0 lv G LV removed. unfold genesisOps in E. destruct (sequence (map (genesisKeyOps s b) (okeys o))) as [l|] eqn:Sq; [|discriminate]. injection E as <-.
  apply sequence_tot in Sq. subst l. apply cfGet_In in G. pose proof (sorted_NoDup _ HS) as ND. unfold activeOps. fold actF.
  assert (T : tot (genesisKeyOps s b (k, (dl, stl))) =
     if stl then DelV (vkey k b) :: (if lv =? b then [DelL k] else []) else if dl && (lv =? b) then [DelL k; DelV (vkey k b)] else if b <? lv then [DelV (vkey k b)] else [PutA k b]).
  { unfold genesisKeyOps. cbn [fst snd]. rewrite LV. auto. }
  split; [|split].
  - intros b' B'. rewrite apply_vals, fold_left_app. pose proof (effV_own k b' (tagBit_u64 _ B')) as EO.
    rewrite (eff_one _ fst actF actF_own _ _ k EO _ _ _ ND G) by auto. rewrite (eff_one _ fst _ genTot_own _ _ k EO _ _ _ ND G) by auto. rewrite T. unfold actF. cbn [fst].
    assert (BE : forall b2, b2 < tagBit -> beqb (vkey k b') (vkey k b2) = (b' =? b2)).
    { intros b2 B2. destruct (N.eqb_spec b' b2) as [->|N]; [apply beqb_refl|]. apply beqb_neq. intros E. apply vkey_inj in E; [tauto|apply tagBit_u64; auto|apply tagBit_u64; auto]. }
    destruct (cfGet (act s) k) as [a|] eqn:Ak; cbn [fold_left effV].
    + rewrite (BE a) by eauto. rewrite (N.eqb_sym a b'). destruct (N.eqb_spec b' a) as [->|Na].
      * destruct stl; [|destruct (dl && (lv =? b)); [|destruct (b <? lv)]]; cbn [fold_left effV]; rewrite ?BE by auto; try (destruct (lv =? b); cbn [fold_left effV]); destruct (a =? b); auto.
      * unfold removed. destruct stl; [|destruct (dl && (lv =? b)); [|destruct (b <? lv)]]; cbn [fold_left effV orb andb]; rewrite ?BE by auto; auto. destruct (lv =? b); cbn [fold_left effV]; auto.
    + unfold removed. destruct stl; [|destruct (dl && (lv =? b)); [|destruct (b <? lv)]]; cbn [fold_left effV orb andb]; rewrite ?BE by auto; auto. destruct (lv =? b); cbn [fold_left effV]; auto.
  - rewrite apply_lat, fold_left_app. pose proof (effL_own k) as EO.
    rewrite (eff_one _ fst actF actF_own _ _ k EO _ _ _ ND G) by auto. rewrite (eff_one _ fst _ genTot_own _ _ k EO _ _ _ ND G) by auto. rewrite T. unfold actF. cbn [fst].
    assert (Z : fold_left (effL k) (match cfGet (act s) k with Some a => [DelV (vkey k a); DelA k] | None => [] end) (cfGet (lat s) k) = cfGet (lat s) k) by (destruct (cfGet (act s) k); auto).
    rewrite Z. destruct stl, dl; cbn [orb andb]; destruct (lv =? b); cbn [fold_left effL]; rewrite ?beqb_refl; auto; destruct (b <? lv); auto.
  - rewrite apply_act, fold_left_app. pose proof (effA_own k) as EO.
    rewrite (eff_one _ fst actF actF_own _ _ k EO _ _ _ ND G) by auto. rewrite (eff_one _ fst _ genTot_own _ _ k EO _ _ _ ND G) by auto. rewrite T. unfold actF. cbn [fst].
    assert (Z : fold_left (effA k) (match cfGet (act s) k with Some a => [DelV (vkey k a); DelA k] | None => [] end) (cfGet (act s) k) = None).
    { destruct (cfGet (act s) k) eqn:Ak; cbn [fold_left effA]; rewrite ?beqb_refl; auto. }
    rewrite Z. unfold removed. destruct stl; [|destruct (dl && (lv =? b)); [|destruct (b <? lv)]]; cbn [orb fold_left effA]; rewrite ?beqb_refl; auto. destruct (lv =? b); auto.
Qed.
Lemma last_skip ops : lastOps s b o = Some ops -> forall k, cfGet (okeys o) k = None ->
  (forall b', b' < tagBit -> cfGet (vals (applyAll s ops)) (vkey k b') = cfGet (vals s) (vkey k b')) /\
  cfGet (lat (applyAll s ops)) k = cfGet (lat s) k.
Proof.
  intros E k N. unfold lastOps in E. apply sequence_tot in E. subst ops. apply cfGet_None in N. split.
  - intros b' B'. rewrite apply_vals. pose proof (effV_own k b' (tagBit_u64 _ B')) as EO. apply (eff_none _ fst _ lastTot_own _ _ k EO). auto.
  - rewrite apply_lat. pose proof (effL_own k) as EO. apply (eff_none _ fst _ lastTot_own _ _ k EO). auto.
Qed.
Lemma last_act ops k : lastOps s b o = Some ops -> cfGet (act (applyAll s ops)) k = cfGet (act s) k.
Proof.
  intros E. unfold lastOps in E. apply sequence_tot in E. subst ops. rewrite apply_act. clear HS. generalize (cfGet (act s) k). induction (okeys o) as [|e l IH]; intros t; auto.
  cbn [flat_map]. rewrite fold_left_app, IH. unfold lastKeyOps. destruct (seekAtMost (vals s) (vkey (fst e) b)) as [[cur ?]|]; cbn [tot]; auto. rewrite fold_left_app.
  destruct (seekBefore (vals s) cur) as [[pk px]|]; [destruct (beqb (fst (unVkey pk)) (fst e))|]; auto.
Qed.
Lemma last_key ops : lastOps s b o = Some ops -> forall k fl, cfGet (okeys o) k = Some fl -> cfGet (vals s) (vkey k b) <> None ->
  (forall b', b' < tagBit -> cfGet (vals (applyAll s ops)) (vkey k b') = if b' =? b then None else cfGet (vals s) (vkey k b')) /\
  cfGet (lat (applyAll s ops)) k = match seekBefore (vals s) (vkey k b) with
    | Some (pk, px) => if beqb (fst (unVkey pk)) k then Some (tagEnc (fst px) (snd (unVkey pk))) else None | None => None end.
Proof.
  intros E k fl G P. unfold lastOps in E. apply sequence_tot in E. subst ops. apply cfGet_In in G. pose proof (sorted_NoDup _ HS) as ND.
  assert (T : tot (lastKeyOps s b (k, fl)) = (match seekBefore (vals s) (vkey k b) with
     | Some (pk, px) => if beqb (fst (unVkey pk)) k then [PutL k (tagEnc (fst px) (snd (unVkey pk)))] else [DelL k] | None => [DelL k] end) ++ [DelV (vkey k b)]).
  { unfold lastKeyOps. cbn [fst]. pose proof (seekAtMost_spec (vals s) (vkey k b)) as Q. destruct (cfGet (vals s) (vkey k b)) as [x|] eqn:C; [|tauto]. apply cfGet_In in C.
    destruct (seekAtMost (vals s) (vkey k b)) as [[cur x']|].
    - destruct Q as (I & L & M). cbn [fst] in *. specialize (M _ C). cbn [fst] in M. rewrite blt_irrefl in M. rewrite (blt_total cur (vkey k b)); auto.
    - apply Q in C. cbn [fst] in C. rewrite blt_irrefl in C. discriminate. }
  split.
  - intros b' B'. rewrite apply_vals. pose proof (effV_own k b' (tagBit_u64 _ B')) as EO.
    rewrite (eff_one _ fst _ lastTot_own _ _ k EO _ _ _ ND G) by auto. rewrite T, fold_left_app.
    assert (BE : beqb (vkey k b') (vkey k b) = (b' =? b)).
    { destruct (N.eqb_spec b' b) as [->|N]; [apply beqb_refl|]. apply beqb_neq. intros E. apply vkey_inj in E; [tauto|apply tagBit_u64; auto|apply tagBit_u64; auto]. }
    destruct (seekBefore (vals s) (vkey k b)) as [[pk px]|]; [destruct (beqb (fst (unVkey pk)) k)|]; cbn [fold_left effV]; rewrite BE; auto.
  - rewrite apply_lat. pose proof (effL_own k) as EO.
    rewrite (eff_one _ fst _ lastTot_own _ _ k EO _ _ _ ND G) by auto. rewrite T, fold_left_app.
    destruct (seekBefore (vals s) (vkey k b)) as [[pk px]|]; [destruct (beqb (fst (unVkey pk)) k)|]; cbn [fold_left effL]; rewrite beqb_refl; auto.
Qed.
End GenLast.

(** * Histories *)
Definition lw (h : hist) k n p := lastWriter h k n p.
Lemma hlen_add h i : hlen (hstep h (Add i)) = hlen h + 1.
Proof. unfold hlen. cbn. rewrite app_length. simpl. lia. Qed.
Lemma at_add h i k b : at_ (hstep h (Add i)) k b = if b =? hlen h + 1 then writeOf i k else at_ h k b.
Proof.
  unfold at_, hlen. cbn [hstep blocks]. destruct (N.eqb_spec b 0) as [->|Z].
  - destruct (N.eqb_spec 0 (N.of_nat (length (blocks h)) + 1)); auto; lia.
  - destruct (N.eqb_spec b (N.of_nat (length (blocks h)) + 1)) as [->|Ne].
    + replace (N.to_nat _) with (length (blocks h)) by lia. rewrite nth_error_app2 by lia. rewrite Nat.sub_diag. auto.
    + destruct (Nat.lt_ge_cases (N.to_nat (b - 1)) (length (blocks h))).
      * rewrite nth_error_app1 by auto. auto.
      * rewrite (proj2 (nth_error_None _ _)); [|rewrite app_length; simpl; lia]. rewrite (proj2 (nth_error_None (blocks h) _)); auto.
Qed.
Lemma added_add h i b : 1 <= b -> addedAt (hstep h (Add i)) b = if b =? hlen h + 1 then hgen h else addedAt h b.
Proof.
  intros B1. unfold addedAt, hlen. cbn [hstep blocks]. 
  destruct (N.eqb_spec b (N.of_nat (length (blocks h)) + 1)) as [->|Ne].
  - replace (N.to_nat _) with (length (blocks h)) by lia. rewrite nth_error_app2 by lia. rewrite Nat.sub_diag. auto.
  - destruct (Nat.lt_ge_cases (N.to_nat (b - 1)) (length (blocks h))).
    + rewrite nth_error_app1 by auto. auto.
    + rewrite (proj2 (nth_error_None _ _)); [|rewrite app_length; simpl; lia]. rewrite (proj2 (nth_error_None (blocks h) _)); auto.
Qed.
Lemma at_range h k b : at_ h k b <> None -> 1 <= b <= hlen h.
Proof.
  unfold at_, hlen. destruct (N.eqb_spec b 0); [tauto|]. destruct (nth_error (blocks h) (N.to_nat (b - 1))) eqn:E; [|tauto]. intros _.
  assert (N.to_nat (b - 1) < length (blocks h))%nat by (apply nth_error_Some; congruence). lia.
Qed.
Lemma removelast_nth {A} (l : list A) n : nth_error (removelast l) n = if Nat.ltb n (length l - 1) then nth_error l n else None.
Proof.
  destruct l as [|a l] using rev_ind; [destruct n; auto|]. rewrite removelast_last, app_length. simpl. replace (length l + 1 - 1)%nat with (length l) by lia.
  destruct (Nat.ltb_spec n (length l)); [rewrite nth_error_app1; auto|apply nth_error_None; auto].
Qed.
Lemma hlen_last h : hlen (hstep h DelLast) = hlen h - 1.
Proof.
  unfold hlen. cbn. destruct (blocks h) as [|a l] using rev_ind; [auto|]. rewrite removelast_last, app_length. simpl. lia.
Qed.
Lemma at_last h k b : b < hlen h -> at_ (hstep h DelLast) k b = at_ h k b.
Proof.
  unfold at_, hlen. cbn [hstep blocks]. intros B. destruct (N.eqb_spec b 0); auto. rewrite removelast_nth. 
  destruct (Nat.ltb_spec (N.to_nat (b - 1)) (length (blocks h) - 1)); auto. lia.
Qed.
Lemma at_last_out h k b : hlen h <= b -> at_ (hstep h DelLast) k b = None.
Proof.
  unfold at_, hlen. cbn [hstep blocks]. intros B. destruct (N.eqb_spec b 0); auto. rewrite removelast_nth. 
  destruct (Nat.ltb_spec (N.to_nat (b - 1)) (length (blocks h) - 1)); auto. lia.
Qed.
Lemma added_last h b : 1 <= b < hlen h -> addedAt (hstep h DelLast) b = addedAt h b.
Proof.
  unfold addedAt, hlen. cbn [hstep blocks]. intros B. rewrite removelast_nth. 
  destruct (Nat.ltb_spec (N.to_nat (b - 1)) (length (blocks h) - 1)); auto. lia.
Qed.
Lemma lastWriter_fun h k n p q : lastWriter h k n p -> lastWriter h k n q -> p = q.
Proof.
  intros (A & B & C) (A' & B' & C'). destruct (N.lt_trichotomy p q) as [L|[L|L]]; auto; [destruct B'; apply C; lia|destruct B; apply C'; lia].
Qed.
Lemma lastWriter_dec h k n : (exists p, lastWriter h k n p) \/ (forall b, b <= n -> at_ h k b = None).
Proof.
  induction n as [|n IH] using N.peano_ind.
  - right. intros b B. unfold at_. replace b with 0 by lia. auto.
  - destruct (at_ h k (N.succ n)) eqn:E.
    + left. exists (N.succ n). split; [lia|]. split; [congruence|]. intros; lia.
    + destruct IH as [(p & A & B & C)|IH].
      * left. exists p. split; [lia|]. split; auto. intros q Q. destruct (N.eq_dec q (N.succ n)) as [->|]; auto. apply C. lia.
      * right. intros b B. destruct (N.eq_dec b (N.succ n)) as [->|]; auto. apply IH. lia.
Qed.
Lemma lastWriter_add_none h i k n p : writeOf i k = None -> (lastWriter (hstep h (Add i)) k n p <-> lastWriter h k n p).
Proof.
  intros W. assert (A : forall b, at_ (hstep h (Add i)) k b = at_ h k b).
  { intros b. rewrite at_add. destruct (N.eqb_spec b (hlen h + 1)) as [->|]; auto. rewrite W. symmetry. destruct (at_ h k (hlen h + 1)) eqn:E; auto.
    assert (X : at_ h k (hlen h + 1) <> None) by congruence. apply at_range in X. lia. }
  unfold lastWriter. rewrite A. split; intros (X & Y & Z); (split; [auto|split; [auto|]]); intros q Q; specialize (Z q Q); rewrite A in *; auto.
Qed.
Lemma lastWriter_ext h h' k n p : (forall b, b <= n -> at_ h' k b = at_ h k b) -> lastWriter h k n p -> lastWriter h' k n p.
Proof. intros E (X & Y & Z). split; auto. split; [rewrite E; auto|]. intros q Q. rewrite E by lia. auto. Qed.
Lemma lastWriter_beyond h k n p : hlen h <= n -> (lastWriter h k n p <-> lastWriter h k (hlen h) p).
Proof.
  intros L. split; intros (X & Y & Z).
  - pose proof (at_range _ _ _ Y). split; [lia|]. split; auto. intros; apply Z; lia.
  - split; [lia|]. split; auto. intros q Q. destruct (N.le_gt_cases q (hlen h)); [apply Z; lia|]. destruct (at_ h k q) eqn:E; auto. assert (W : at_ h k q <> None) by congruence. apply at_range in W. lia.
Qed.

(** * The invariant *)
Definition bounded (k : bytes) := N.of_nat (length k) < 256 ^ 4.
Definition gone (h : hist) (p : N) (w : write) : bool := (p <? hgen h) && (isDel w || isStale w).
Section Inv.
Variable H : bytes -> bytes.
Record Inv (h : hist) (c : chain) : Prop := {
  vGen : genesis c = hgen h; vLast : lastId c = hlen h; vG1 : 1 <= hgen h; vGn : hgen h <= hlen h + 1; vGn' : hlen h <> 0 -> hgen h <= hlen h; vTag : hlen h < tagBit;
  vGood : forall i g, In (i, g) (blocks h) -> goodInput i;
  vAdded : forall a b, 1 <= a <= b -> b <= hlen h -> addedAt h a <= addedAt h b /\ addedAt h b <= hgen h;
  vOuts : forall b, hgen h <= b <= hlen h -> exists i g, nth_error (blocks h) (N.to_nat (b - 1)) = Some (i, g) /\ outs c b = Some (addOut H i);
  vND : NoDup (map fst (vals (st c)));
  vKeys : forall x, cfGet (vals (st c)) x <> None -> exists k b, x = vkey k b /\ bounded k /\ b <= hlen h;
  vLat1 : forall k p w, lastWriter h k (hlen h) p -> at_ h k p = Some w -> cfGet (lat (st c)) k = if gone h p w then None else Some (tagEnc (isDel w) p);
  vLat0 : forall k, (forall b, at_ h k b = None) -> cfGet (lat (st c)) k = None;
  vVal : forall k b, hgen h <= b < tagBit -> cfGet (vals (st c)) (vkey k b) = match at_ h k b with Some w => Some (storedOf w) | None => None end;
  vOld : forall k b x, b < hgen h -> cfGet (vals (st c)) (vkey k b) = Some x ->
           exists d, at_ h k b = Some (Wrote d false) /\ x = (false, d) /\ lastWriter h k (hgen h - 1) b /\ cfGet (act (st c)) k = Some b;
  vAct : forall k a, cfGet (act (st c)) k = Some a -> a < hgen h /\ cfGet (vals (st c)) (vkey k a) <> None;
  vLive : forall k p d, lastWriter h k (hgen h - 1) p -> at_ h k p = Some (Wrote d false) -> (forall q, hgen h <= q <= hlen h -> at_ h k q <> None -> p < addedAt h q) ->
           cfGet (vals (st c)) (vkey k p) = Some (false, d) }.

Lemma inv_init : Inv hinit init.
Proof.
  constructor; cbn; auto; try lia; try (intros; discriminate).
  - Transparent tagBit. reflexivity. Opaque tagBit.
  - constructor.
  - intros x N; congruence.
  - intros k p w (A & B & _). apply at_range in B. unfold hlen in B. cbn in B. lia.
  - intros k b B. unfold at_. cbn. destruct (b =? 0); auto. destruct (N.to_nat (b - 1)); auto.
  - intros k p d (A & B & _). apply at_range in B. unfold hlen in B. cbn in B. lia.
Qed.

Lemma effV_source x os : forall v, fold_left (effV x) os v <> None -> v <> None \/ exists y, In (PutV x y) os.
Proof.
  induction os as [|o os IH]; intros v N; auto. cbn [fold_left] in N. apply IH in N. destruct N as [N|[y I]]; [|right; exists y; right; auto].
  destruct o; cbn [effV] in N; auto.
  - destruct (beqb x k) eqn:E; auto. apply beqb_eq in E; subst. right. exists x0. left; auto.
  - destruct (beqb x k); auto.
Qed.
Lemma writeOf_good i k : goodInput i -> writeOf i k <> None -> bounded k.
Proof.
  intros G W. pose proof (writeOf_cases i k G) as C. destruct G as (_ & _ & _ & B). apply B. destruct (writeOf i k) as [[d s|]|]; [right|left|tauto]; [|tauto].
  destruct C as [C _]. apply (in_map fst) in C. auto.
Qed.
Lemma good_in h c i g b : Inv h c -> nth_error (blocks h) b = Some (i, g) -> goodInput i.
Proof. intros I E. apply (vGood _ _ I i g). eapply nth_error_In; eauto. Qed.

Lemma inv_add h c i : Inv h c -> allowed h (Add i) -> exists c', step H c (Add i) = Some c' /\ Inv (hstep h (Add i)) c'.
Proof.
  intros I [G T]. eexists. split; [reflexivity|]. rewrite (vLast _ _ I). pose proof (vG1 _ _ I) as G1.
  assert (Bt : forall b, b <= hlen h + 1 -> b < tagBit) by (intros; lia).
  constructor; cbn [genesis lastId st outs]; rewrite ?hlen_add; change (hgen (hstep h (Add i))) with (hgen h); try lia.
  - apply (vGen _ _ I).
  - pose proof (vGn _ _ I). lia.
  - intros N. pose proof (vGn _ _ I). lia.
  - intros i0 g0 I0. cbn [blocks hstep] in I0. apply in_app_iff in I0. destruct I0 as [I0|[I0|[]]]; [eapply (vGood _ _ I); eauto|congruence].
  - intros a b A B. rewrite !added_add by lia. destruct (N.eqb_spec b (hlen h + 1)), (N.eqb_spec a (hlen h + 1)); try lia.
    + split; [|lia]. apply (vAdded _ _ I a a); lia.
    + apply (vAdded _ _ I); lia.
  - intros b B. unfold upd. destruct (N.eqb_spec b (hlen h + 1)) as [->|N].
    + exists i, (hgen h). split; auto. unfold hlen. cbn [blocks hstep]. replace (N.to_nat _) with (length (blocks h)) by lia. rewrite nth_error_app2, Nat.sub_diag by lia. auto.
    + destruct (vOuts _ _ I b) as (i0 & g0 & E & O); [lia|]. exists i0, g0. split; auto. cbn [blocks hstep]. rewrite nth_error_app1; auto. apply nth_error_Some. congruence.
  - apply apply_NoDup. apply (vND _ _ I).
  - intros x Nx. rewrite apply_vals in Nx. apply effV_source in Nx. destruct Nx as [Nx|[y In']].
    + destruct (vKeys _ _ I x Nx) as (k & b & E & K & L). exists k, b. split; auto. split; auto. lia.
    + destruct G as (_ & _ & _ & BK). unfold addOps in In'. apply in_app_iff in In'. destruct In' as [In'|In'].
      * apply in_flat_map in In'. destruct In' as (k & Ik & [E|[E|[]]]); [discriminate|]. injection E as <- _. exists k, (hlen h + 1). split; auto. split; [|lia]. apply BK. auto.
      * apply in_flat_map in In'. destruct In' as (u & Iu & [E|[E|[]]]); [discriminate|]. injection E as <- _. exists (fst u), (hlen h + 1). split; auto. split; [|lia]. apply BK. right. apply in_map. auto.
  - intros k p w L W. rewrite add_lat by (auto; lia). rewrite at_add in W. destruct (writeOf i k) as [w'|] eqn:Wk.
    + assert (p = hlen h + 1) as ->.
      { apply (lastWriter_fun (hstep h (Add i)) k (hlen h + 1)); auto. split; [lia|]. split; [rewrite at_add, N.eqb_refl; congruence|]. intros; lia. }
      rewrite N.eqb_refl in W. injection W as ->. unfold gone. cbn [hgen hstep]. pose proof (vGn _ _ I). destruct (N.ltb_spec (hlen h + 1) (hgen h)); [lia|]. auto.
    + apply lastWriter_add_none in L; auto. apply lastWriter_beyond in L; [|lia]. assert (p <= hlen h) by apply L. destruct (N.eqb_spec p (hlen h + 1)); [lia|].
      rewrite (vLat1 _ _ I k p w L W). reflexivity.
  - intros k A. rewrite add_lat by (auto; lia). pose proof (A (hlen h + 1)) as A1. rewrite at_add, N.eqb_refl in A1. rewrite A1. apply (vLat0 _ _ I). intros b.
    specialize (A b). rewrite at_add in A. destruct (N.eqb_spec b (hlen h + 1)) as [Eb|]; auto. rewrite Eb. destruct (at_ h k (hlen h + 1)) eqn:E; auto.
    assert (X : at_ h k (hlen h + 1) <> None) by congruence. apply at_range in X. lia.
  - intros k b B. rewrite add_vals by (auto; lia). rewrite at_add. destruct (N.eqb_spec b (hlen h + 1)) as [->|Nb].
    + destruct (writeOf i k) eqn:W; auto. rewrite (vVal _ _ I) by lia. destruct (at_ h k (hlen h + 1)) eqn:E; auto.
      assert (X : at_ h k (hlen h + 1) <> None) by congruence. apply at_range in X. lia.
    + rewrite (vVal _ _ I) by lia. destruct (writeOf i k); auto.
  - intros k b x B E. pose proof (vGn _ _ I). rewrite add_vals in E by (auto; lia). assert (E' : cfGet (vals (st c)) (vkey k b) = Some x).
    { destruct (writeOf i k); auto. destruct (N.eqb_spec b (hlen h + 1)); [lia|auto]. }
    destruct (vOld _ _ I k b x B E') as (d & A1 & A2 & A3 & A4). exists d. rewrite at_add. destruct (N.eqb_spec b (hlen h + 1)); [lia|]. split; auto. split; auto.
    split; [|rewrite add_act; auto]. apply (lastWriter_ext h); auto. intros q Q. rewrite at_add. destruct (N.eqb_spec q (hlen h + 1)); [lia|auto].
  - intros k a E. rewrite add_act in E. destruct (vAct _ _ I k a E) as [A1 A2]. split; auto. pose proof (vGn _ _ I). rewrite add_vals by (auto; lia). destruct (writeOf i k); auto.
    destruct (N.eqb_spec a (hlen h + 1)); [discriminate|auto].
  - intros k p d L W A. pose proof (vGn _ _ I). assert (P : p <= hgen h - 1) by apply L. rewrite add_vals by (auto; lia).
    assert (E : cfGet (vals (st c)) (vkey k p) = Some (false, d)).
    { apply (vLive _ _ I k p d).
      - apply (lastWriter_ext (hstep h (Add i))); auto. intros q Q. rewrite at_add. destruct (N.eqb_spec q (hlen h + 1)); [lia|auto].
      - rewrite at_add in W. destruct (N.eqb_spec p (hlen h + 1)); [lia|auto].
      - intros q Q Nq. specialize (A q). rewrite at_add, added_add in A by lia. destruct (N.eqb_spec q (hlen h + 1)); [lia|]. apply A; auto. lia. }
    destruct (writeOf i k); auto. destruct (N.eqb_spec p (hlen h + 1)); [lia|auto].
Qed.

Lemma at_blocks h k b i g : 1 <= b -> nth_error (blocks h) (N.to_nat (b - 1)) = Some (i, g) -> at_ h k b = writeOf i k.
Proof. intros B E. unfold at_. destruct (N.eqb_spec b 0); [lia|]. rewrite E. auto. Qed.
Lemma at_gen h k b : at_ (hstep h DelGenesis) k b = at_ h k b. Proof. reflexivity. Qed.
Lemma lw_gen h k n p : lastWriter (hstep h DelGenesis) k n p <-> lastWriter h k n p. Proof. reflexivity. Qed.
Lemma lastWriter_exists h k b n : at_ h k b <> None -> b <= n -> exists p w, lastWriter h k n p /\ at_ h k p = Some w /\ b <= p.
Proof.
  intros A B. destruct (lastWriter_dec h k n) as [[p L]|N]; [|destruct A; auto]. destruct (at_ h k p) as [w|] eqn:W; [|destruct L as (_ & X & _); congruence].
  exists p, w. split; auto. split; auto. destruct (N.le_gt_cases b p); auto. destruct L as (_ & _ & Z). destruct A. apply Z. lia.
Qed.
Lemma lat_of h c k b : Inv h c -> at_ h k b <> None -> hgen h <= b -> exists p w, lastWriter h k (hlen h) p /\ at_ h k p = Some w /\ b <= p /\
  cfGet (lat (st c)) k = Some (tagEnc (isDel w) p) /\ latestVersion (st c) k = Some (isDel w, p).
Proof.
  intros I A B. destruct (lastWriter_exists h k b (hlen h) A) as (p & w & L & W & P); [apply at_range in A; lia|]. exists p, w. split; auto. split; auto. split; auto.
  pose proof (vLat1 _ _ I k p w L W) as E. unfold gone in E. destruct (N.ltb_spec p (hgen h)); [lia|]. cbn [andb] in E. split; auto. unfold latestVersion. rewrite E, tag_round; auto.
  pose proof (vTag _ _ I). assert (p <= hlen h) by apply L. lia.
Qed.

Lemma effV_shrink x os v : (forall k y, ~ In (PutV k y) os) -> fold_left (effV x) os v <> None -> v <> None.
Proof. intros N A. apply effV_source in A. destruct A as [A|[y A]]; auto. destruct (N _ _ A). Qed.
Lemma seq_in {E X} (g : E -> option (list X)) l r x : sequence (map g l) = Some r -> In x r -> exists e y, In e l /\ g e = Some y /\ In x y.
Proof.
  intros Sq I. destruct (sequence_flat g l r Sq) as (f & -> & F). apply in_flat_map in I. destruct I as (e & Ie & I). exists e, (f e). auto.
Qed.

Lemma inv_gen h c : Inv h c -> allowed h DelGenesis -> exists c', step H c DelGenesis = Some c' /\ Inv (hstep h DelGenesis) c'.
Proof.
  intros I L. cbn [allowed] in L. cbn [step]. rewrite (vGen _ _ I), (vLast _ _ I). rewrite (proj2 (N.ltb_lt _ _)) by auto.
  pose proof (vG1 _ _ I) as G1. pose proof (vTag _ _ I) as Tg.
  destruct (vOuts _ _ I (hgen h)) as (i & g & Ei & ->); [lia|].
  assert (Gi : goodInput i) by (eapply good_in; eauto). 
  assert (At : forall k, at_ h k (hgen h) = writeOf i k) by (intros; eapply at_blocks; eauto; lia).
  assert (HO : forall k, cfGet (okeys (addOut H i)) k = flagsOf (at_ h k (hgen h))) by (intros; rewrite At; apply out_get; auto).
  assert (HA : forall k a, cfGet (act (st c)) k = Some a -> a < tagBit). { intros k a Ea. apply (vAct _ _ I) in Ea. lia. }
  assert (Hg : hgen h < tagBit) by lia.
  assert (NE : genesisOps (st c) (hgen h) (addOut H i) <> None).
  { unfold genesisOps. assert (Sq : sequence (map (genesisKeyOps (st c) (hgen h)) (okeys (addOut H i))) <> None).
    { apply sequence_some. intros [k fl] Ie. unfold genesisKeyOps. cbn [fst]. apply In_cfGet in Ie; [|apply sorted_NoDup, out_sorted]. rewrite HO in Ie.
      destruct (lat_of h c k (hgen h) I) as (p & w & _ & _ & _ & _ & ->); [destruct (at_ h k (hgen h)); [discriminate|cbn in Ie; discriminate]|lia|]. discriminate. }
    destruct (sequence _); [discriminate|tauto]. }
  destruct (genesisOps (st c) (hgen h) (addOut H i)) as [ops|] eqn:Eo; [|tauto]. clear NE.
  eexists. split; [reflexivity|].
  pose proof (gen_skip (st c) (hgen h) (addOut H i) Hg HA ops Eo) as SK.
  pose proof (gen_key (st c) (hgen h) (addOut H i) (out_sorted H i) Hg HA ops Eo) as KY.
  assert (NP : forall k y, ~ In (PutV k y) ops).
  { intros k y In'. unfold genesisOps in Eo. destruct (sequence (map (genesisKeyOps (st c) (hgen h)) (okeys (addOut H i)))) as [l|] eqn:Sq; [|discriminate]. injection Eo as <-.
    apply in_app_iff in In'. destruct In' as [In'|In'].
    - apply in_flat_map in In'. destruct In' as (e & _ & In'). destruct (cfGet (act (st c)) (fst e)); [|destruct In']. destruct In' as [X|[X|[]]]; discriminate.
    - destruct (seq_in _ _ _ _ Sq In') as (e & l0 & _ & Ge & X). unfold genesisKeyOps in Ge. destruct (latestVersion (st c) (fst e)) as [[? lv]|]; [|discriminate]. injection Ge as <-.
      destruct (snd (snd e)); [|destruct (fst (snd e) && (lv =? hgen h)); [|destruct (hgen h <? lv)]]; cbn in X; try destruct (lv =? hgen h); cbn in X; intuition discriminate. }
  clear Eo.
  (* one description per key *)
  assert (SK' : forall k, at_ h k (hgen h) = None -> (forall b', b' < tagBit -> cfGet (vals (applyAll (st c) ops)) (vkey k b') = cfGet (vals (st c)) (vkey k b')) /\
    cfGet (lat (applyAll (st c) ops)) k = cfGet (lat (st c)) k /\ cfGet (act (applyAll (st c) ops)) k = cfGet (act (st c)) k).
  { intros k A. apply SK. rewrite HO, A. auto. }
  assert (KY' : forall k w, at_ h k (hgen h) = Some w -> exists p wl, lastWriter h k (hlen h) p /\ at_ h k p = Some wl /\ hgen h <= p /\ cfGet (lat (st c)) k = Some (tagEnc (isDel wl) p) /\
    let removed := isStale w || isDel w || (hgen h <? p) in
    (forall b', b' < tagBit -> cfGet (vals (applyAll (st c) ops)) (vkey k b') =
       if match cfGet (act (st c)) k with Some a => a =? b' | None => false end then None else if removed && (b' =? hgen h) then None else cfGet (vals (st c)) (vkey k b')) /\
    cfGet (lat (applyAll (st c) ops)) k = (if (isStale w || isDel w) && (p =? hgen h) then None else cfGet (lat (st c)) k) /\
    cfGet (act (applyAll (st c) ops)) k = (if removed then None else Some (hgen h))).
  { intros k w A. destruct (lat_of h c k (hgen h) I) as (p & wl & Lp & Wp & Pg & La & LV); [congruence|lia|]. exists p, wl. split; auto. split; auto. split; auto. split; auto.
    assert (F : cfGet (okeys (addOut H i)) k = Some (isDel w, isStale w)) by (rewrite HO, A; destruct w; auto).
    specialize (KY k _ _ _ _ F LV). cbv zeta in KY. destruct KY as (K1 & K2 & K3).
    assert (RE : isStale w || isDel w && (p =? hgen h) || (hgen h <? p) = isStale w || isDel w || (hgen h <? p)).
    { destruct (isStale w), (isDel w); cbn; auto. destruct (N.eqb_spec p (hgen h)); auto. cbn. destruct (N.ltb_spec (hgen h) p); auto. lia. }
    rewrite RE in K1, K3. auto. }
  clear SK KY HO.
  constructor; cbn [genesis lastId st outs]; change (hlen (hstep h DelGenesis)) with (hlen h); change (hgen (hstep h DelGenesis)) with (hgen h + 1); try lia.
  - apply (vGood _ _ I).
  - intros a b A B. destruct (vAdded _ _ I a b A B). change (addedAt (hstep h DelGenesis)) with (addedAt h). lia.
  - intros b B. unfold upd. destruct (N.eqb_spec b (hgen h)); [lia|]. apply (vOuts _ _ I). lia.
  - apply apply_NoDup. apply (vND _ _ I).
  - intros x Nx. apply (vKeys _ _ I). rewrite apply_vals in Nx. eapply effV_shrink; eauto.
  - intros k p w Lp Wp. change (at_ h k p = Some w) in Wp. change (lastWriter h k (hlen h) p) in Lp. pose proof (vLat1 _ _ I k p w Lp Wp) as E. 
    destruct (at_ h k (hgen h)) as [w0|] eqn:A.
    + destruct (KY' k w0 A) as (p' & wl & Lp' & Wp' & Pg & La & _ & K2 & _). assert (p' = p) as -> by (eapply lastWriter_fun; eauto). assert (wl = w) as -> by congruence. rewrite K2, La.
      unfold gone. cbn [hgen hstep]. destruct (N.eqb_spec p (hgen h)) as [->|Np].
      * assert (w0 = w) as -> by congruence. rewrite (proj2 (N.ltb_lt _ _)) by lia. cbn [andb]. rewrite andb_true_r. rewrite orb_comm. destruct (isDel w || isStale w); auto.
      * rewrite andb_false_r. destruct (N.ltb_spec p (hgen h + 1)); [lia|]. auto.
    + destruct (SK' k A) as (_ & K2 & _). rewrite K2, E. unfold gone. cbn [hgen hstep]. assert (p <> hgen h) by congruence.
      destruct (N.ltb_spec p (hgen h)), (N.ltb_spec p (hgen h + 1)); auto; lia.
  - intros k A. change (forall b, at_ h k b = None) in A. destruct (SK' k (A _)) as (_ & -> & _). apply (vLat0 _ _ I). auto.
  - intros k b B. change (at_ (hstep h DelGenesis) k b) with (at_ h k b). rewrite <- (vVal _ _ I) by lia. destruct (at_ h k (hgen h)) as [w0|] eqn:A.
    + destruct (KY' k w0 A) as (p' & wl & _ & _ & _ & _ & K1 & _). rewrite K1 by lia. destruct (N.eqb_spec b (hgen h)); [lia|]. rewrite andb_false_r.
      destruct (cfGet (act (st c)) k) as [a|] eqn:Ak; auto. apply (vAct _ _ I) in Ak. destruct (N.eqb_spec a b); [lia|auto].
    + destruct (SK' k A) as (K1 & _). apply K1. lia.
  - intros k b x B E. change (at_ (hstep h DelGenesis) k b) with (at_ h k b). replace (hgen h + 1 - 1) with (hgen h) by lia. change (lastWriter (hstep h DelGenesis) k (hgen h) b) with (lastWriter h k (hgen h) b).
    destruct (at_ h k (hgen h)) as [w0|] eqn:A.
    + destruct (KY' k w0 A) as (p' & wl & Lp & Wl & Pg & La & K1 & K2 & K3). rewrite K1 in E by lia. rewrite K3.
      destruct (N.eqb_spec b (hgen h)) as [->|Nb].
      * rewrite andb_true_r in E. destruct (isStale w0 || isDel w0 || (hgen h <? p')) eqn:R; [destruct (match cfGet (act (st c)) k with Some a => a =? hgen h | None => false end); discriminate|].
        destruct (match cfGet (act (st c)) k with Some a => a =? hgen h | None => false end); [discriminate|]. rewrite (vVal _ _ I), A in E by lia. injection E as <-.
        apply orb_false_iff in R. destruct R as [R _]. apply orb_false_iff in R. destruct R as [R1 R2]. destruct w0 as [d s0|]; cbn in R1, R2; [|discriminate]. subst s0.
        exists d. split; auto. split; auto. split; [|auto]. split; [lia|]. split; [congruence|]. intros; lia.
      * exfalso. rewrite andb_false_r in E. assert (Bg : b < hgen h) by lia. destruct (cfGet (act (st c)) k) as [a|] eqn:Ak.
        -- destruct (N.eqb_spec a b) as [->|Na]; [discriminate|]. destruct (vOld _ _ I k b x Bg E) as (d & _ & _ & _ & X). congruence.
        -- destruct (vOld _ _ I k b x Bg E) as (d & _ & _ & _ & X). congruence.
    + destruct (SK' k A) as (K1 & K2 & K3). rewrite K1 in E by lia. rewrite K3. assert (b <> hgen h). { intros ->. rewrite (vVal _ _ I), A in E by lia. discriminate. }
      destruct (vOld _ _ I k b x ltac:(lia) E) as (d & X1 & X2 & X3 & X4). exists d. split; auto. split; auto. split; auto.
      destruct X3 as (Y1 & Y2 & Y3). split; [lia|]. split; auto. intros q Q. destruct (N.eq_dec q (hgen h)) as [->|]; auto. apply Y3. lia.
  - intros k a E. destruct (at_ h k (hgen h)) as [w0|] eqn:A.
    + destruct (KY' k w0 A) as (p' & wl & Lp & Wl & Pg & La & K1 & K2 & K3). rewrite K3 in E. destruct (isStale w0 || isDel w0 || (hgen h <? p')) eqn:R; [discriminate|]. injection E as <-.
      split; [lia|]. rewrite K1 by lia. cbn [andb]. rewrite (vVal _ _ I), A by lia. destruct (cfGet (act (st c)) k) as [a|] eqn:Ak; [|discriminate].
      destruct (N.eqb_spec a (hgen h)) as [->|]; [|discriminate]. apply (vAct _ _ I) in Ak. lia.
    + destruct (SK' k A) as (K1 & K2 & K3). rewrite K3 in E. destruct (vAct _ _ I k a E). split; [lia|]. rewrite K1 by lia. auto.
  - intros k p d Lp Wp Q. replace (hgen h + 1 - 1) with (hgen h) in Lp by lia. change (lastWriter h k (hgen h) p) in Lp. change (at_ h k p = Some (Wrote d false)) in Wp.
    change (forall q, hgen h + 1 <= q <= hlen h -> at_ h k q <> None -> p < addedAt h q) in Q.
    destruct (at_ h k (hgen h)) as [w0|] eqn:A.
    + assert (p = hgen h) as ->. { eapply lastWriter_fun; eauto. split; [lia|]. split; [congruence|]. intros; lia. }
      assert (w0 = Wrote d false) as -> by congruence.
      destruct (KY' k _ A) as (p' & wl & Lp' & Wl & Pg & La & K1 & K2 & K3). rewrite K1 by lia. cbn [isStale isDel orb].
      assert (p' = hgen h) as ->. { destruct (N.eq_dec p' (hgen h)); auto. assert (P' : p' <= hlen h) by apply Lp'. assert (X : hgen h < addedAt h p') by (apply Q; [lia|congruence]).
        destruct (vAdded _ _ I p' p'); lia. }
      rewrite N.ltb_irrefl. cbn [andb]. rewrite (vVal _ _ I), A by lia. destruct (cfGet (act (st c)) k) as [a|] eqn:Ak; auto. apply (vAct _ _ I) in Ak. destruct (N.eqb_spec a (hgen h)); [lia|auto].
    + destruct (SK' k A) as (K1 & K2 & K3). assert (p <> hgen h) by congruence. destruct Lp as (Y1 & Y2 & Y3). rewrite K1 by lia. apply (vLive _ _ I k p d); auto.
      * split; [lia|]. split; auto. intros q R. apply Y3. lia.
      * intros q R Nq. apply Q; auto. destruct (N.eq_dec q (hgen h)) as [->|]; [congruence|lia].
Qed.

Lemma prev_some h c k n p x : Inv h c -> bounded k -> n < tagBit -> p < n -> cfGet (vals (st c)) (vkey k p) = Some x -> (forall q, p < q < n -> cfGet (vals (st c)) (vkey k q) = None) ->
  seekBefore (vals (st c)) (vkey k n) = Some (vkey k p, x).
Proof.
  intros I Bk Bn L E No. pose proof (seekBefore_spec (vals (st c)) (vkey k n)) as SB. pose proof (cfGet_In _ _ _ E) as Ip. pose proof (tagBit_u64 _ Bn) as Un.
  assert (Up : p < 256 ^ 8) by lia. assert (Lp : blt (vkey k p) (vkey k n) = true) by (apply vkey_lt; auto).
  destruct (seekBefore (vals (st c)) (vkey k n)) as [[x' y]|]; [|apply SB in Ip; cbn [fst] in Ip; congruence].
  destruct SB as (I' & L' & M). cbn [fst] in *. specialize (M _ Ip Lp). cbn [fst] in M.
  assert (G : cfGet (vals (st c)) x' = Some y) by (apply In_cfGet; auto; apply (vND _ _ I)).
  destruct (vKeys _ _ I x') as (k' & b' & -> & Bk' & Bb'); [congruence|].
  assert (k' = k) as ->. { apply (vkey_between k p n k' b'); auto. apply blt_asym; auto. }
  pose proof (vTag _ _ I) as T. assert (Ub : b' < 256 ^ 8) by (apply tagBit_u64; lia).
  assert (b' < n) by (apply (vkey_lt k); auto). assert (~ b' < p). { intros Hlt. apply (vkey_lt k) in Hlt; auto. congruence. }
  destruct (N.eq_dec b' p) as [->|Nb]; [congruence|]. rewrite No in G by lia. discriminate.
Qed.
Lemma prev_none h c k n : Inv h c -> bounded k -> n < tagBit -> (forall q, q < n -> cfGet (vals (st c)) (vkey k q) = None) ->
  match seekBefore (vals (st c)) (vkey k n) with Some (pk, _) => beqb (fst (unVkey pk)) k = false | None => True end.
Proof.
  intros I Bk Bn No. pose proof (seekBefore_spec (vals (st c)) (vkey k n)) as SB. pose proof (tagBit_u64 _ Bn) as Un.
  destruct (seekBefore (vals (st c)) (vkey k n)) as [[x' y]|]; auto.
  destruct SB as (I' & L' & _). cbn [fst] in *. assert (G : cfGet (vals (st c)) x' = Some y) by (apply In_cfGet; auto; apply (vND _ _ I)).
  destruct (vKeys _ _ I x') as (k' & b' & -> & Bk' & Bb'); [congruence|]. pose proof (vTag _ _ I) as T. assert (Ub : b' < 256 ^ 8) by (apply tagBit_u64; lia).
  rewrite vkey_dec by auto. cbn [fst]. apply beqb_neq. intros ->. apply vkey_lt in L'; auto. rewrite No in G by lia. discriminate.
Qed.

Lemma inv_last h c : Inv h c -> allowed h DelLast -> exists c', step H c DelLast = Some c' /\ Inv (hstep h DelLast) c'.
Proof.
  intros I [L SR]. cbn [step]. rewrite (vGen _ _ I), (vLast _ _ I). rewrite (proj2 (N.ltb_lt _ _)) by auto.
  pose proof (vG1 _ _ I) as G1. pose proof (vTag _ _ I) as Tg. set (n := hlen h) in *.
  destruct (vOuts _ _ I n) as (i & g & Ei & ->); [unfold n in *; lia|].
  assert (Gi : goodInput i) by (eapply good_in; eauto). 
  assert (At : forall k, at_ h k n = writeOf i k) by (intros; eapply at_blocks; eauto; lia).
  assert (HO : forall k, cfGet (okeys (addOut H i)) k = flagsOf (at_ h k n)) by (intros; rewrite At; apply out_get; auto).
  assert (Sto : forall k w, at_ h k n = Some w -> cfGet (vals (st c)) (vkey k n) = Some (storedOf w)). { intros k w A. rewrite (vVal _ _ I), A by lia. auto. }
  assert (NE : lastOps (st c) n (addOut H i) <> None).
  { unfold lastOps. apply sequence_some. intros [k fl] Ie. unfold lastKeyOps. cbn [fst]. apply In_cfGet in Ie; [|apply sorted_NoDup, out_sorted]. rewrite HO in Ie.
    destruct (at_ h k n) as [w|] eqn:A; [|discriminate]. apply Sto in A. apply cfGet_In in A. pose proof (seekAtMost_spec (vals (st c)) (vkey k n)) as Q.
    destruct (seekAtMost (vals (st c)) (vkey k n)) as [[? ?]|]; [discriminate|]. apply Q in A. cbn [fst] in A. rewrite blt_irrefl in A. discriminate. }
  destruct (lastOps (st c) n (addOut H i)) as [ops|] eqn:Eo; [|tauto]. clear NE.
  eexists. split; [reflexivity|].
  pose proof (last_skip (st c) n (addOut H i) Tg ops Eo) as SK.
  pose proof (last_key (st c) n (addOut H i) (out_sorted H i) Tg ops Eo) as KY.
  pose proof (fun k => last_act (st c) n (addOut H i) ops k Eo) as AC.
  assert (NP : forall k y, ~ In (PutV k y) ops).
  { intros k y In'. unfold lastOps in Eo. destruct (seq_in _ _ _ _ Eo In') as (e & l0 & _ & Ge & X). unfold lastKeyOps in Ge.
    destruct (seekAtMost (vals (st c)) (vkey (fst e) n)) as [[cur ?]|]; [|discriminate]. injection Ge as <-. apply in_app_iff in X. destruct X as [X|[X|[]]]; [|discriminate].
    destruct (seekBefore (vals (st c)) cur) as [[pk px]|]; [destruct (beqb (fst (unVkey pk)) (fst e))|]; destruct X as [X|[]]; discriminate. }
  clear Eo.
  assert (VA : forall k b', b' < tagBit -> cfGet (vals (applyAll (st c) ops)) (vkey k b') = if b' =? n then None else cfGet (vals (st c)) (vkey k b')).
  { intros k b' B'. destruct (at_ h k n) as [w|] eqn:A.
    - destruct (KY k (isDel w, isStale w)) as [K1 _]; [rewrite HO, A; destruct w; auto|rewrite (Sto k w A); discriminate|]. apply K1. auto.
    - destruct (SK k) as [K1 _]; [rewrite HO, A; auto|]. rewrite K1 by auto. destruct (N.eqb_spec b' n) as [->|]; auto. rewrite (vVal _ _ I), A by lia. auto. }
  assert (AL : forall k b, b < n -> at_ (hstep h DelLast) k b = at_ h k b) by (intros; apply at_last; auto).
  assert (AO : forall k b, n <= b -> at_ (hstep h DelLast) k b = None) by (intros; apply at_last_out; auto).
  assert (LW : forall k m p, m < n -> (lastWriter (hstep h DelLast) k m p <-> lastWriter h k m p)).
  { intros k m p M. split; apply lastWriter_ext; intros; rewrite AL by lia; auto. }
  assert (LA : forall k, cfGet (lat (applyAll (st c) ops)) k =
     match at_ h k n with
     | None => cfGet (lat (st c)) k
     | Some _ => match seekBefore (vals (st c)) (vkey k n) with Some (pk, px) => if beqb (fst (unVkey pk)) k then Some (tagEnc (fst px) (snd (unVkey pk))) else None | None => None end
     end).
  { intros k. destruct (at_ h k n) as [w|] eqn:A.
    - destruct (KY k (isDel w, isStale w)) as [_ K1]; [rewrite HO, A; destruct w; auto|rewrite (Sto k w A); discriminate|]. auto.
    - destruct (SK k) as [_ K1]; [rewrite HO, A; auto|]. auto. }
  clear SK KY HO.
  constructor; cbn [genesis lastId st outs]; rewrite ?hlen_last; change (hgen (hstep h DelLast)) with (hgen h); fold n; try lia.
  - intros i0 g0 I0. apply (vGood _ _ I i0 g0). cbn [hstep blocks] in I0. destruct (blocks h) as [|a l] using rev_ind; [destruct I0|]. rewrite removelast_last in I0. apply in_app_iff. auto.
  - intros a b A B. rewrite !added_last by (fold n; lia). apply (vAdded _ _ I); fold n; lia.
  - intros b B. unfold upd. destruct (N.eqb_spec b n); [lia|]. destruct (vOuts _ _ I b) as (i0 & g0 & E & O); [fold n; lia|]. exists i0, g0. split; auto.
    cbn [hstep blocks]. rewrite removelast_nth. destruct (Nat.ltb_spec (N.to_nat (b - 1)) (length (blocks h) - 1)); auto. unfold n, hlen in *. lia.
  - apply apply_NoDup. apply (vND _ _ I).
  - intros x Nx. pose proof Nx as Nx'. rewrite apply_vals in Nx'. apply effV_shrink in Nx'; auto. destruct (vKeys _ _ I x Nx') as (k & b & -> & Bk & Bb). exists k, b. split; auto. split; auto.
    fold n in Bb. destruct (N.eq_dec b n) as [->|]; [|lia]. rewrite VA, N.eqb_refl in Nx by auto. congruence.
  - intros k p w Lp Wp. apply LW in Lp; [|lia]. assert (Pn : p <= n - 1) by apply Lp. rewrite AL in Wp by lia. rewrite LA. unfold gone. cbn [hstep hgen].
    destruct (at_ h k n) as [wn|] eqn:A.
    + assert (Bk : bounded k) by (apply (writeOf_good i); auto; rewrite <- At; congruence).
      destruct (N.ltb_spec p (hgen h)) as [Pg|Pg].
      * assert (Lg : lastWriter h k (hgen h - 1) p). { destruct Lp as (Y1 & Y2 & Y3). split; [lia|]. split; auto. intros; apply Y3; lia. }
        assert (Mid : forall q, p < q < n -> at_ h k q = None) by (intros q Q; apply (proj2 (proj2 Lp)); lia).
        destruct w as [d [|]|]; cbn [isDel isStale orb andb].
        -- pose proof (prev_none h c k n I Bk Tg) as PN. destruct (seekBefore (vals (st c)) (vkey k n)) as [[pk px]|]; auto. rewrite PN; auto. intros q Q.
           destruct (N.le_gt_cases (hgen h) q); [rewrite (vVal _ _ I), Mid by lia; auto|]. destruct (cfGet (vals (st c)) (vkey k q)) as [y|] eqn:Y; auto. exfalso.
           destruct (vOld _ _ I k q y ltac:(lia) Y) as (d' & X1 & _ & X3 & _). assert (q = p) by (eapply lastWriter_fun; eauto). congruence.
        -- rewrite (prev_some h c k n p (false, d)); auto; try lia.
           ++ rewrite vkey_dec by (auto; apply tagBit_u64; lia). cbn [fst snd]. rewrite beqb_refl. auto.
           ++ apply (vLive _ _ I k p d); auto. intros q Q Nq. fold n in Q. destruct (N.eq_dec q n) as [->|]; [|rewrite Mid in Nq by lia; congruence]. apply (SR k p d); fold n; auto; try lia; congruence.
           ++ intros q Q. destruct (N.le_gt_cases (hgen h) q); [rewrite (vVal _ _ I), Mid by lia; auto|]. destruct (cfGet (vals (st c)) (vkey k q)) as [y|] eqn:Y; auto. exfalso.
              destruct (vOld _ _ I k q y ltac:(lia) Y) as (d' & X1 & _). rewrite Mid in X1 by lia. discriminate.
        -- pose proof (prev_none h c k n I Bk Tg) as PN. destruct (seekBefore (vals (st c)) (vkey k n)) as [[pk px]|]; auto. rewrite PN; auto. intros q Q.
           destruct (N.le_gt_cases (hgen h) q); [rewrite (vVal _ _ I), Mid by lia; auto|]. destruct (cfGet (vals (st c)) (vkey k q)) as [y|] eqn:Y; auto. exfalso.
           destruct (vOld _ _ I k q y ltac:(lia) Y) as (d' & X1 & _ & X3 & _). assert (q = p) by (eapply lastWriter_fun; eauto). congruence.
      * cbn [andb]. rewrite (prev_some h c k n p (storedOf w)); auto; try lia.
        -- rewrite vkey_dec by (auto; apply tagBit_u64; lia). cbn [fst snd]. rewrite beqb_refl. destruct w; auto.
        -- rewrite (vVal _ _ I), Wp by lia. auto.
        -- intros q Q. rewrite (vVal _ _ I) by lia. rewrite (proj2 (proj2 Lp)) by lia. auto.
    + apply (vLat1 _ _ I k p w); auto. destruct Lp as (Y1 & Y2 & Y3). split; [fold n; lia|]. split; auto. intros q Q. fold n in Q. destruct (N.eq_dec q n) as [->|]; auto. apply Y3. lia.
  - intros k A. rewrite LA. destruct (at_ h k n) as [wn|] eqn:An.
    + assert (Bk : bounded k) by (apply (writeOf_good i); auto; rewrite <- At; congruence).
      assert (A' : forall q, q < n -> at_ h k q = None) by (intros q Q; rewrite <- AL by auto; auto).
      pose proof (prev_none h c k n I Bk Tg) as PN. destruct (seekBefore (vals (st c)) (vkey k n)) as [[pk px]|]; auto. rewrite PN; auto. intros q Q.
      destruct (N.le_gt_cases (hgen h) q); [rewrite (vVal _ _ I), A' by lia; auto|]. destruct (cfGet (vals (st c)) (vkey k q)) as [y|] eqn:Y; auto. exfalso.
      destruct (vOld _ _ I k q y ltac:(lia) Y) as (d' & X1 & _). rewrite A' in X1 by lia. discriminate.
    + apply (vLat0 _ _ I). intros b. destruct (N.lt_trichotomy b n) as [Lb|[->|Lb]]; auto; [rewrite <- AL; auto|]. destruct (at_ h k b) eqn:E; auto.
      assert (X : at_ h k b <> None) by congruence. apply at_range in X. fold n in X. lia.
  - intros k b B. rewrite VA by lia. destruct (N.eqb_spec b n) as [->|Nb]; [rewrite AO by lia; auto|]. rewrite (vVal _ _ I) by lia. destruct (N.le_gt_cases n b).
    + rewrite AO by lia. destruct (at_ h k b) eqn:E; auto. assert (X : at_ h k b <> None) by congruence. apply at_range in X. fold n in X. lia.
    + rewrite AL by lia. auto.
  - intros k b x B E. rewrite VA in E by lia. destruct (N.eqb_spec b n); [discriminate|]. rewrite AL by lia. destruct (vOld _ _ I k b x B E) as (d & X1 & X2 & X3 & X4).
    exists d. split; auto. split; auto. split; [apply LW; auto; lia|]. rewrite AC. auto.
  - intros k a E. rewrite AC in E. destruct (vAct _ _ I k a E) as [X1 X2]. split; auto. rewrite VA by lia. destruct (N.eqb_spec a n); [lia|auto].
  - intros k p d Lp Wp Q. assert (Pn : p <= hgen h - 1) by apply Lp. apply LW in Lp; [|lia]. rewrite AL in Wp by lia. rewrite VA by lia. destruct (N.eqb_spec p n); [lia|].
    apply (vLive _ _ I k p d); auto. intros q R Nq. fold n in R. destruct (N.eq_dec q n) as [->|Nqn].
    + destruct (lastWriter_dec h k (n - 1)) as [[p' Lp']|No]; [|exfalso; destruct Lp as (_ & Y & _); apply Y; apply No; lia].
      destruct (N.lt_ge_cases p' (hgen h)) as [Pg|Pg].
      * assert (p' = p) as ->. { eapply lastWriter_fun; [|exact Lp]. destruct Lp' as (Y1 & Y2 & Y3). split; [lia|]. split; auto. intros; apply Y3; lia. }
        apply (SR k p d); auto; fold n; lia.
      * assert (P' : p' <= n - 1) by apply Lp'. assert (X : p < addedAt h p'). { rewrite <- added_last by (fold n; lia). apply Q; [lia|]. rewrite AL by lia. apply Lp'. }
        destruct (vAdded _ _ I p' n); lia.
    + rewrite <- added_last by (fold n; lia). apply Q; [lia|]. rewrite AL by lia. auto.
Qed.

Lemma inv_run os : forall h c, Inv h c -> allAllowed h os -> exists c', run H c os = Some c' /\ Inv (hrun h os) c'.
Proof.
  induction os as [|o os IH]; intros h c I A; [exists c; split; auto|]. cbn [allAllowed run] in *. destruct A as [A1 A2].
  assert (exists c', step H c o = Some c' /\ Inv (hstep h o) c') as (c' & -> & I').
  { destruct o; [apply inv_add|apply inv_gen|apply inv_last]; auto. }
  apply IH; auto.
Qed.

(** * Reads *)
Lemma read_latest h c k : Inv h c -> latestSpec h k (getLatest (st c) k).
Proof.
  intros I. pose proof (vTag _ _ I) as Tg. unfold getLatest, latestVersion. destruct (lastWriter_dec h k (hlen h)) as [[p L]|No].
  - destruct (at_ h k p) as [w|] eqn:W; [|destruct L as (_ & X & _); congruence]. rewrite (vLat1 _ _ I k p w L W). assert (P : p <= hlen h) by apply L.
    destruct (gone h p w) eqn:G.
    + unfold gone in G. apply andb_true_iff in G. destruct G as [G1 G2]. apply N.ltb_lt in G1. cbn [latestSpec]. right. exists p. split; auto.
      destruct w as [d s|]; [right|left; auto]. cbn in G2. subst s. exists d. auto.
    + rewrite tag_round by lia. unfold gone in G. destruct w as [d s|]; cbn [isDel].
      * assert (E : cfGet (vals (st c)) (vkey k p) = Some (false, d)).
        { destruct (N.ltb_spec p (hgen h)) as [Pg|Pg].
          - cbn in G. subst s. apply (vLive _ _ I k p d); auto.
            + destruct L as (Y1 & Y2 & Y3). split; [lia|]. split; auto. intros; apply Y3. pose proof (vGn _ _ I). lia.
            + intros q Q Nq. exfalso. apply Nq. apply L. lia.
          - rewrite (vVal _ _ I), W by lia. auto. }
        unfold vget. rewrite E. cbn [latestSpec]. split; auto. exists s. split; auto. intros ->. destruct (N.ltb_spec p (hgen h)); [cbn in G; discriminate|auto].
      * cbn [latestSpec]. right. exists p. split; auto.
  - rewrite (vLat0 _ _ I).
    + cbn [latestSpec]. left. intros p (A & B & _). destruct B. auto.
    + intros b. destruct (at_ h k b) eqn:E; auto. assert (X : at_ h k b <> None) by congruence. apply at_range in X. rewrite No in E by lia. discriminate.
Qed.
Lemma read_at h c k b : Inv h c -> hgen h <= b <= hlen h -> vget (st c) k b = match at_ h k b with Some (Wrote d _) => Some (b, d) | _ => None end.
Proof. intros I B. pose proof (vTag _ _ I). unfold vget. rewrite (vVal _ _ I) by lia. destruct (at_ h k b) as [[d s|]|]; auto. Qed.
Lemma read_old h c k b x : Inv h c -> b < hgen h -> vget (st c) k b = Some x -> exists d, x = (b, d) /\ at_ h k b = Some (Wrote d false).
Proof.
  intros I B E. unfold vget in E. destruct (cfGet (vals (st c)) (vkey k b)) as [[dl y]|] eqn:G; [|discriminate]. destruct (vOld _ _ I k b _ B G) as (d & X1 & X2 & _). injection X2 as -> ->.
  injection E as <-. eauto.
Qed.
Lemma multiGet_spec s ks vs : length ks = length vs -> multiGet s ks vs = Some (map (fun p => vget s (fst p) (snd p)) (combine ks vs)).
Proof. intros E. unfold multiGet. rewrite E, Nat.eqb_refl. auto. Qed.
Lemma getLatest_found s k : getLatest s k = match latestVersion s k with Some (false, v) => vget s k v | _ => None end. Proof. reflexivity. Qed.
Lemma filter_len {A} (f : A -> bool) l : (length (filter f l) <= length l)%nat.
Proof. induction l; simpl; auto. destruct (f a); simpl; lia. Qed.
Lemma multiGetLatest_spec s ks : multiGetLatest s ks = Some (map (getLatest s) ks).
Proof.
  unfold multiGetLatest. set (P := filter (fun p => foundP (snd p)) (combine ks (map (latestVersion s) ks))).
  rewrite multiGet_spec by (rewrite !map_length; auto).
  assert (Z : forall l, combine (map fst l) (map (fun p : bytes * option (bool * N) => match snd p with Some (_, v) => v | None => 0 end) l) =
     map (fun p : bytes * option (bool * N) => (fst p, match snd p with Some (_, v) => v | None => 0 end)) l) by (induction l; simpl; f_equal; auto).
  rewrite Z, map_map. cbn [fst snd].
  assert (M : mergeFound (map (latestVersion s) ks) (map (fun x => vget s (fst x) match snd x with Some (_, v) => v | None => 0 end) P) = map (getLatest s) ks).
  { unfold P. clear. induction ks as [|k ks IH]; auto. cbn [map combine filter snd mergeFound]. destruct (foundP (latestVersion s k)) eqn:F.
    - cbn [map fst snd]. f_equal; auto. unfold getLatest, foundP in *. destruct (latestVersion s k) as [[[|] v]|]; auto; discriminate.
    - f_equal; auto. unfold getLatest, foundP in *. destruct (latestVersion s k) as [[[|] v]|]; auto; discriminate. }
  destruct (Nat.eqb_spec (length (map fst P)) (length ks)) as [E|E]; [|rewrite M; auto]. f_equal. rewrite <- M.
  rewrite map_length in E. unfold P in *. clear -E. revert E. induction ks as [|k ks IH]; intros E; auto. cbn [map combine filter snd mergeFound length] in *.
  destruct (foundP (latestVersion s k)).
  - cbn [map]. f_equal. apply IH. simpl in E. lia.
  - exfalso. pose proof (filter_len (fun p : bytes * option (bool * N) => foundP (snd p)) (combine ks (map (latestVersion s) ks))) as Fl. rewrite combine_length, map_length in Fl. lia.
Qed.

(** * Proofs of key-values *)
Lemma emplace_end {X} (m : list (bytes * X)) k x : (forall e, In e m -> blt (fst e) k = true) -> emplace m k x = m ++ [(k, x)].
Proof.
  induction m as [|[k' x'] m IH]; intros A; auto. cbn [emplace app]. pose proof (A (k', x') (or_introl eq_refl)) as L. cbn [fst] in L. rewrite (blt_asym _ _ L).
  rewrite (proj2 (beqb_neq _ _)) by (intros ->; rewrite blt_irrefl in L; discriminate). f_equal. apply IH. intros; apply A; right; auto.
Qed.
Lemma out_nodel i : sorted (kv i) -> dels i = [] -> okeys (addOut H i) = map (fun u => (fst u, (false, snd (snd u)))) (kv i).
Proof.
  intros Sk D. unfold addOut. cbn [okeys]. rewrite D. cbn [fold_left].
  assert (A : forall l m, (forall e u, In e m -> In u l -> blt (fst e) (fst u) = true) -> sorted l ->
    fold_left (fun m (u : bytes * (bytes * bool)) => emplace m (fst u) (false, snd (snd u))) l m = m ++ map (fun u => (fst u, (false, snd (snd u)))) l).
  { induction l as [|u l IH]; intros m M Sl; [rewrite app_nil_r; auto|]. cbn [fold_left map]. destruct Sl as [L Sl]. rewrite emplace_end by (intros; apply M; auto; left; auto).
    rewrite IH; auto.
    - rewrite <- app_assoc. auto.
    - intros e v Ie Iv. apply in_app_iff in Ie. destruct Ie as [Ie|[<-|[]]]; [apply M; auto; right; auto|]. cbn [fst]. apply L. auto. }
  rewrite A; auto.
Qed.
Definition kvh (u : bytes * (bytes * bool)) : list bytes := [H (fst u); H (fst (snd u))].
Lemma proofLoop_spec s b key l : forall i idx hs, (forall u, In u l -> vget s (fst u) b = Some (b, fst (snd u))) -> NoDup (map fst l) ->
  proofLoop H s b key (map (fun u => (fst u, (false, snd (snd u)))) l) i idx hs =
  Some (match find (fun p => beqb (fst (snd p)) key) (combine (seq 0 (length l)) l) with Some (j, _) => (i + 2 * j)%nat | None => idx end,
        hs ++ flat_map kvh (filter (fun u => negb (beqb (fst u) key)) l)).
Proof.
  induction l as [|u l IH]; intros i idx hs G ND; [cbn; rewrite app_nil_r; auto|]. cbn [map proofLoop fst]. inversion ND; subst.
  assert (Z : forall m n, (forall j, In j (map fst (combine (seq n (length m)) m)) -> True) -> 
     match find (fun p => beqb (fst (snd p)) key) (combine (seq (S n) (length m)) m) with Some (j, _) => Some (pred j) | None => None end =
     match find (fun p : nat * (bytes * (bytes * bool)) => beqb (fst (snd p)) key) (combine (seq n (length m)) m) with Some (j, _) => Some j | None => None end).
  { induction m as [|v m IHm]; intros n T; auto. cbn [length seq combine find snd]. destruct (beqb (fst v) key); auto. }
  assert (Zp : forall m n j v, find (fun p : nat * (bytes * (bytes * bool)) => beqb (fst (snd p)) key) (combine (seq n (length m)) m) = Some (j, v) -> (n <= j)%nat).
  { induction m as [|v m IHm]; intros n j w F; [discriminate|]. cbn [length seq combine find snd] in F. destruct (beqb (fst v) key); [injection F as -> _; auto|]. apply IHm in F. lia. }
  cbn [length seq combine find snd filter]. destruct (beqb (fst u) key) eqn:E; cbn [negb].
  - rewrite IH by (auto; intros; apply G; right; auto). apply beqb_eq in E. 
    assert (F : find (fun p => beqb (fst (snd p)) key) (combine (seq 0 (length l)) l) = None).
    { destruct (find _ _) as [[j v]|] eqn:F; auto. exfalso. apply find_some in F. destruct F as [F1 F2]. cbn [snd] in F2. apply beqb_eq in F2. apply in_combine_r in F1. apply H2. rewrite E, <- F2. apply in_map. auto. }
    rewrite F. f_equal. f_equal. lia.
  - rewrite (G u) by (left; auto). rewrite IH by (auto; intros; apply G; right; auto). f_equal. f_equal.
    + specialize (Z l 0%nat (fun _ _ => Logic.I)). pose proof (Zp l 1%nat) as Zp1. destruct (find _ (combine (seq 1 (length l)) l)) as [[j v]|], (find _ (combine (seq 0 (length l)) l)) as [[j' v']|]; try discriminate; auto.
      injection Z as Z. specialize (Zp1 j v eq_refl). lia.
    + cbn [flat_map kvh]. rewrite <- app_assoc. auto.
Qed.
Lemma rootLoop_mid kh l1 : forall l2 i, l2 <> [] -> rootLoop kh (i + length l1) i (l1 ++ l2) = concat l1 ++ kh ++ concat l2.
Proof.
  assert (A : forall l i idx, (idx < i)%nat -> rootLoop kh idx i l = concat l).
  { induction l as [|h l IH]; intros i idx L; auto. cbn [rootLoop concat]. destruct (Nat.eqb_spec i idx); [lia|]. cbn [app]. f_equal. apply IH. lia. }
  induction l1 as [|h l1 IH]; intros l2 i N.
  - destruct l2 as [|h2 l2]; [tauto|]. cbn [app length rootLoop]. rewrite Nat.add_0_r, Nat.eqb_refl. rewrite A by lia. auto.
  - cbn [app length rootLoop concat]. destruct (Nat.eqb_spec i (i + S (length l1))); [lia|]. cbn [app]. rewrite <- app_assoc. f_equal. replace (i + S (length l1))%nat with (S i + length l1)%nat by lia. apply IH. auto.
Qed.
Lemma rootLoop_end kh l : forall i idx, (i + length l <= idx)%nat -> rootLoop kh idx i l = concat l.
Proof. induction l as [|h l IH]; intros i idx L; auto. cbn [rootLoop concat length] in *. destruct (Nat.eqb_spec i idx); [lia|]. cbn [app]. f_equal. apply IH. lia. Qed.
Lemma calc_spec p l1 l2 : pfHashes p = l1 ++ l2 -> pfIndex p = length l1 -> calculateRootHash H p = H (concat l1 ++ (H (pfKey p) ++ H (pfValue p)) ++ concat l2).
Proof.
  intros E Ix. unfold calculateRootHash. destruct (pfHashes p) as [|h hs] eqn:Eh.
  - destruct l1, l2; try discriminate. cbn [concat app]. rewrite app_nil_r. auto.
  - rewrite E, Ix. rewrite app_length. destruct l2 as [|h2 l2].
    + rewrite app_nil_r. cbn [length]. rewrite Nat.add_0_r, Nat.eqb_refl. rewrite rootLoop_end by lia. cbn [concat]. rewrite app_nil_r. auto.
    + cbn [length]. destruct (Nat.eqb_spec (length l1) (length l1 + S (length l2))); [lia|]. rewrite app_nil_r. pose proof (rootLoop_mid (H (pfKey p) ++ H (pfValue p)) l1 (h2 :: l2) 0%nat) as R. cbn [Nat.add] in R. rewrite R by discriminate. auto.
Qed.
Lemma find_split key (l : list (bytes * (bytes * bool))) v : NoDup (map fst l) -> In (key, v) l -> exists l1 l2, l = l1 ++ (key, v) :: l2 /\ 
  filter (fun u => negb (beqb (fst u) key)) l = l1 ++ l2 /\ find (fun p => beqb (fst (snd p)) key) (combine (seq 0 (length l)) l) = Some (length l1, (key, v)).
Proof.
  intros ND I. apply in_split in I. destruct I as (l1 & l2 & ->). exists l1, l2. split; auto. rewrite map_app in ND. cbn [map fst] in ND. apply NoDup_remove_2 in ND.
  assert (F1 : forall l, ~ In key (map fst l) -> filter (fun u : bytes * (bytes * bool) => negb (beqb (fst u) key)) l = l).
  { induction l as [|u l IH]; intros N; auto. cbn [filter]. rewrite (proj2 (beqb_neq (fst u) key)) by (intros E; apply N; left; auto). cbn [negb]. f_equal. apply IH. intros X. apply N. right; auto. }
  split.
  - rewrite filter_app. cbn [filter fst]. rewrite beqb_refl. cbn [negb]. rewrite !F1; auto; intros X; apply ND; apply in_app_iff; auto.
  - assert (G : forall l1 n, ~ In key (map fst l1) -> find (fun p : nat * (bytes * (bytes * bool)) => beqb (fst (snd p)) key) (combine (seq n (length (l1 ++ (key, v) :: l2))) (l1 ++ (key, v) :: l2)) = Some ((n + length l1)%nat, (key, v))).
    { clear. induction l1 as [|u l1 IH]; intros n N; cbn [app length seq combine find snd fst].
      - rewrite beqb_refl. f_equal. f_equal. lia.
      - rewrite (proj2 (beqb_neq (fst u) key)) by (intros E; apply N; left; auto). rewrite IH by (intros X; apply N; right; auto). f_equal. f_equal. lia. }
    apply G. intros X. apply ND. apply in_app_iff. auto.
Qed.
Lemma proof_complete h c b i g key d s0 : Inv h c -> hgen h <= b <= hlen h -> nth_error (blocks h) (N.to_nat (b - 1)) = Some (i, g) -> sorted (kv i) -> dels i = [] -> wantHash i = true -> In (key, (d, s0)) (kv i) ->
  exists p, getProof H (st c) b key (addOut H i) = Some (Some p) /\ pfBlock p = b /\ pfKey p = key /\ pfValue p = d /\ Some (calculateRootHash H p) = rootHash (addOut H i).
Proof.
  intros I B Ei Sk D WH Ik. assert (Gi : goodInput i) by (eapply good_in; eauto). pose proof (vG1 _ _ I) as G1.
  assert (V : forall u, In u (kv i) -> vget (st c) (fst u) b = Some (b, fst (snd u))).
  { intros [k' [d' s']] Iu. cbn [fst snd]. rewrite (read_at h c) by auto. rewrite (at_blocks h k' b i g) by (auto; lia). unfold writeOf.
    rewrite (In_cfGet (kv i) k' (d', s')); auto. apply Gi. }
  pose proof (sorted_NoDup _ Sk) as ND. destruct (find_split key (kv i) (d, s0) ND Ik) as (l1 & l2 & E1 & E2 & E3).
  unfold getProof. rewrite out_nodel by auto. rewrite (proj2 (existsb_exists _ _)).
  2: { exists (key, (false, s0)). split; [|apply beqb_refl]. apply in_map_iff. exists (key, (d, s0)). auto. }
  pose proof (V _ Ik) as Vk. cbn [fst snd] in Vk. rewrite Vk.
  rewrite proofLoop_spec by auto. rewrite E3, E2. eexists. split; [reflexivity|]. cbn [pfBlock pfKey pfValue]. split; auto. split; auto. split; auto.
  rewrite (calc_spec _ (flat_map kvh l1) (flat_map kvh l2)).
  - unfold addOut. cbn [rootHash]. rewrite WH. f_equal. f_equal. cbn [pfKey pfValue]. rewrite E1, flat_map_app. cbn [flat_map fst snd].
    assert (F : forall l, concat (flat_map kvh l) = flat_map (fun u => H (fst u) ++ H (fst (snd u))) l). { induction l as [|a l IHl]; auto. cbn [flat_map kvh concat app]. rewrite ?app_assoc. f_equal. auto. }
    rewrite !F. auto.
  - cbn [pfHashes app]. apply flat_map_app.
  - cbn [pfIndex]. clear. induction l1; auto. cbn [length flat_map kvh app] in *. lia.
Qed.
(** Soundness: an even index in range. *)
Lemma concat_32 (a b : list bytes) : Forall (fun x => length x = 32%nat) a -> Forall (fun x => length x = 32%nat) b -> concat a = concat b -> a = b.
Proof.
  revert b. induction a as [|x a IH]; intros b Fa Fb E.
  - destruct b as [|y b]; auto. cbn [concat] in E. inversion Fb; subst. apply (f_equal (@length N)) in E. rewrite app_length in E. simpl in E. lia.
  - destruct b as [|y b]; [cbn [concat] in E; inversion Fa; subst; apply (f_equal (@length N)) in E; rewrite app_length in E; simpl in E; lia|].
    cbn [concat] in E. inversion Fa; inversion Fb; subst. apply app_inv_len in E; [|lia]. destruct E as [-> E]. f_equal. auto.
Qed.
Lemma proof_sound p (kvs : list (bytes * (bytes * bool))) : (forall x, length (H x) = 32%nat) -> Forall (fun x => length x = 32%nat) (pfHashes p) ->
  Nat.Even (pfIndex p) -> (pfIndex p <= length (pfHashes p))%nat -> calculateRootHash H p = H (flat_map (fun u => H (fst u) ++ H (fst (snd u))) kvs) ->
  (exists s, In (pfKey p, (pfValue p, s)) kvs) \/ exists x y, x <> y /\ H x = H y.
Proof.
  intros HL F32 [j Ev] Le E. rewrite (calc_spec p (firstn (pfIndex p) (pfHashes p)) (skipn (pfIndex p) (pfHashes p))) in E; [|rewrite firstn_skipn; auto|rewrite firstn_length; lia].
  match type of E with H ?x = H ?y => destruct (bytes_dec x y) as [Exy|Nxy]; [|right; exists x, y; auto] end. clear E.
  set (l1 := firstn (pfIndex p) (pfHashes p)) in *. set (l2 := skipn (pfIndex p) (pfHashes p)) in *.
  assert (F1 : Forall (fun x => length x = 32%nat) l1) by (apply Forall_forall; intros x Ix; rewrite Forall_forall in F32; apply F32; rewrite <- (firstn_skipn (pfIndex p)); apply in_app_iff; auto).
  assert (F2 : Forall (fun x => length x = 32%nat) l2) by (apply Forall_forall; intros x Ix; rewrite Forall_forall in F32; apply F32; rewrite <- (firstn_skipn (pfIndex p)); apply in_app_iff; auto).
  assert (F : forall l, flat_map (fun u => H (fst u) ++ H (fst (snd u))) l = concat (flat_map kvh l)). { induction l as [|a l IHl]; auto. cbn [flat_map kvh concat app]. rewrite ?app_assoc. f_equal. auto. }
  rewrite F in Exy. replace (concat l1 ++ (H (pfKey p) ++ H (pfValue p)) ++ concat l2) with (concat (l1 ++ [H (pfKey p); H (pfValue p)] ++ l2)) in Exy
    by (rewrite !concat_app; cbn [concat]; rewrite app_nil_r; auto).
  apply concat_32 in Exy.
  - assert (L1 : length l1 = (2 * j)%nat) by (unfold l1; rewrite firstn_length; lia). clearbody l1 l2. clear -Exy L1 HL.
    revert l1 kvs Exy L1. induction j as [|j IH]; intros l1 kvs E L1.
    + destruct l1; [|discriminate]. destruct kvs as [|[k [v s]] kvs]; [discriminate|]. cbn in E. injection E as Ek Ev _.
      destruct (bytes_dec (pfKey p) k) as [->|N]; [|right; exists (pfKey p), k; auto]. destruct (bytes_dec (pfValue p) v) as [->|N]; [|right; exists (pfValue p), v; auto].
      left. exists s. left. auto.
    + destruct l1 as [|a [|b l1]]; try (simpl in L1; lia). destruct kvs as [|u kvs]; [discriminate|]. cbn in E. injection E as _ _ E. destruct (IH l1 kvs) as [[s X]|X]; auto.
      * simpl in L1. lia.
      * left. exists s. right. auto.
  - apply Forall_app. split; auto. apply Forall_app. split; auto.
  - clear -HL. induction kvs; cbn; auto.
Qed.
End Inv.
