(** Crash recovery of the latest keys: rollback to the snapshot. *)
From Coq Require Import List Arith NArith Lia Bool.
From Verif Require Import Lib_Bytes Keys_Model Keys_Proofs Lib_CF V4_Model V4_Proofs V4_Link V4_Latest.
Import ListNotations.
Local Open Scope nat_scope.

(** Everything a batch of blocks adds, numbered from [id], and everything the recovery process takes back. *)
Fixpoint opsFrom (id : nat) (vs : list updates) : list wop := match vs with [] => [] | v :: t => keyOps id v ++ opsFrom (S id) t end.
Definition revs (sl si : lkmap) (vs : list updates) : list wop := flat_map (revertOps sl si) (rev vs).
Definition touches (c k : bytes) (u : updates) : bool :=
  match cfGet u c with None => false | Some ci => match c_kind ci with Immutable => false | _ => existsb (beqb k) (c_dels ci) || existsb (beqb k) (map fst (c_puts ci)) end end.
Definition touchesI (c k : bytes) (u : updates) : bool :=
  match cfGet u c with None => false | Some ci => match c_kind ci with Immutable => existsb (beqb k) (map fst (c_puts ci)) | _ => false end end.
Lemma revs_cons sl si v vs : revs sl si (v :: vs) = revs sl si vs ++ revertOps sl si v.
Proof. unfold revs. cbn [rev]. rewrite flat_map_app. cbn [flat_map]. rewrite app_nil_r. auto. Qed.

Lemma lat_back ct sl si vs c k : Forall (wfU ct) vs -> forall id m,
  latB (latB m (opsFrom id vs)) (revs sl si vs) c k = if existsb (touches c k) vs then sl c k else m c k.
Proof.
  induction 1 as [|v vs W F IH]; intros id m; auto. cbn [opsFrom existsb]. rewrite revs_cons, !latB_app. rewrite (lat_revert ct) by auto. rewrite IH.
  rewrite (lat_add ct) by auto. remember (touches c k v) as t eqn:T. unfold touches in T. destruct (cfGet v c) as [ci|] eqn:E; [|subst t; cbn [orb]; auto]. rewrite existsb_cfGet in T.
  destruct (c_kind ci); subst t; cbn [orb]; auto.
  all: destruct (cfGet (c_puts ci) k) as [[x f]|]; [rewrite orb_true_r; auto|]; rewrite orb_false_r; destruct (existsb (beqb k) (c_dels ci)); cbn [orb]; auto; destruct (sl c k); auto; destruct (existsb (touches c k) vs); auto.
Qed.
Lemma imm_back ct sl si vs c k : Forall (wfU ct) vs -> forall id m,
  immB (immB m (opsFrom id vs)) (revs sl si vs) c k = if existsb (touchesI c k) vs then si c k else m c k.
Proof.
  induction 1 as [|v vs W F IH]; intros id m; auto. cbn [opsFrom existsb]. rewrite revs_cons, !immB_app. rewrite (imm_revert ct) by auto. rewrite IH.
  rewrite (imm_add ct) by auto. remember (touchesI c k v) as t eqn:T. unfold touchesI in T. destruct (cfGet v c) as [ci|] eqn:E; [|subst t; cbn [orb]; auto]. rewrite existsb_cfGet in T.
  destruct (c_kind ci); subst t; cbn [orb]; auto.
  destruct (cfGet (c_puts ci) k); auto.
Qed.

Lemma firstn_snoc {A} (l : list A) : forall j v, nth_error l j = Some v -> firstn (S j) l = firstn j l ++ [v].
Proof. induction l as [|x l IH]; intros [|j] v N; try discriminate; cbn in *; [injection N as ->; auto|]. f_equal. apply IH; auto. Qed.

Section Rec.
Variable H : nat -> block -> bytes.
Variable seqOf : bytes -> nat.
Variable ct : bytes -> kind.
Notation seqNum := (seqNum seqOf).

Fixpoint addAll (us : list updates) (s : state) : option state :=
  match us with [] => Some s | u :: us => match add H seqOf u s with None => None | Some s' => addAll us s' end end.
(** What happens to the storage of a crashed replica until it is in sync: each restart runs the recovery process and opens the storage;
    blocks are removed from the end; it may crash again at any point. *)
Inductive recov : state -> state -> Prop :=
| rc0 s : recov s s
| rcD s s1 s2 : recov s s1 -> deleteLast s1 = Some s2 -> recov s s2
| rcC s s1 d m : recov s s1 -> d = storeRevert seqOf (fst s1) -> open d = Some m -> recov s (d, m).

Lemma seqNum_genKey g u : seqNum (addGenesisKey g u) = seqNum u.
Proof.
  unfold V4_Model.seqNum, addGenesisKey. rewrite cfGet_put, beqb_refl. cbn [c_puts]. rewrite cfGet_put.
  replace (beqb kMeta kGenesis) with false by reflexivity. destruct (cfGet u cInternal); auto.
Qed.
Lemma cfPut_NoDup {V} (d : list (bytes * V)) k v : NoDup (map fst d) -> NoDup (map fst (cfPut d k v)).
Proof.
  intros ND. unfold cfPut. cbn [map fst]. constructor.
  - intros I. apply in_map_iff in I as ((k' & v') & E & I). cbn in E. subst k'. unfold cfDel in I. apply filter_In in I as (_ & I). cbn [fst] in I. rewrite beqb_refl in I. discriminate.
  - unfold cfDel. induction d as [|e d IH]; cbn [filter map]; auto. cbn [map] in ND. apply NoDup_cons_iff in ND as (NI & ND). destruct (negb (beqb k (fst e))); auto. cbn [map]. constructor; auto.
    intros I. apply NI. apply in_map_iff in I as (x & E & I). apply filter_In in I as (I & _). rewrite <- E. apply in_map; auto.
Qed.
Lemma wfU_genKey g u : wfU ct u -> ct cInternal = Versioned -> wfU ct (addGenesisKey g u).
Proof.
  intros (ND & W) T. unfold addGenesisKey. split; [apply cfPut_NoDup; auto|]. intros c ci I. unfold cfPut in I. destruct I as [E|I].
  - injection E as <- <-. cbn [c_puts c_kind c_dels]. destruct (cfGet u cInternal) as [ci|] eqn:G.
    + apply cfGet_In in G. destruct (W _ _ G) as (A & B & C). split; [apply cfPut_NoDup; auto|]. split; auto.
    + cbn. split; [constructor; [intros []|constructor]|]. split; auto.
  - unfold cfDel in I. apply filter_In in I as (I & _). auto.
Qed.

(** Facts about the state while blocks are being added on top of [s0]. *)
Variable s0 : state.
Variable q : nat.
Let g := m_gen (snd s0).
Let l0 := m_last (snd s0).
Let sl := d_lat (fst s0).
Let si := d_imm (fst s0).
Let stable := match m_sn (snd s0) with Some p => p | None => 0 end.
Hypothesis CI0 : CInv s0.
Hypothesis gpos : 0 < g.
Hypothesis fresh : match m_sn (snd s0) with Some p => p < q | None => d_snap (fst s0) = None /\ 0 < q end.
Hypothesis rec0 : d_rec (fst s0) = [].
Hypothesis ctI : ct cInternal = Versioned.

Record AI (vs : list updates) (s : state) : Prop := {
  a_c : CInv s; a_last : m_last (snd s) = l0 + length vs; a_gen : m_gen (snd s) = g;
  a_old : forall i, i <= l0 -> mget (d_blocks (fst s)) i = mget (d_blocks (fst s0)) i;
  a_new : forall j v, nth_error vs j = Some v -> exists b, mget (d_blocks (fst s)) (l0 + S j) = Some b /\ b_upd b = v;
  a_lat : d_lat (fst s) = latB sl (opsFrom (S l0) vs); a_imm : d_imm (fst s) = immB si (opsFrom (S l0) vs);
  a_rec : d_rec (fst s) = [];
  a_snap : vs <> [] -> d_snap (fst s) = Some (sl, si, stable) /\ m_sn (snd s) = Some q;
  a_snap0 : vs = [] -> d_snap (fst s) = d_snap (fst s0) /\ m_sn (snd s) = m_sn (snd s0) }.
Lemma opsFrom_app id a b : opsFrom id (a ++ b) = opsFrom id a ++ opsFrom (id + length a) b.
Proof. revert id. induction a as [|x a IH]; intros id; cbn [opsFrom app length]; [rewrite Nat.add_0_r; auto|]. rewrite IH, app_assoc. do 2 f_equal. lia. Qed.
Lemma AI0 : AI [] s0.
Proof. constructor; cbn; auto; try (intros [|]; discriminate); congruence. Qed.

Lemma AI_add vs u s s' : AI vs s -> seqNum u = q -> add H seqOf u s = Some s' -> AI (vs ++ [addGenesisKey g u]) s'.
Proof.
  intros [Ac Al Ag Ao An At Ai Ar As As0] Q A. unfold add in A. destruct (onNewSN seqOf u s) as [s1 sn] eqn:E.
  assert (C1: CInv s1). { replace s1 with (fst (onNewSN seqOf u s)) by (rewrite E; auto). eapply step_CInv; [exact Ac|apply (RSnap H seqOf u s)]. }
  destruct s as [d m]. cbn [fst snd] in *. destruct (onNewSN_frame seqOf u d m) as (F1 & F2 & F3 & F4 & F5 & F6 & F7). rewrite E in F1, F2, F3, F4, F5, F6, F7. cbn [fst snd] in *.
  assert (Sn: d_snap (fst s1) = Some (sl, si, stable) /\ sn = q).
  { assert (q0: 0 < q) by (destruct (m_sn (snd s0)); [lia|tauto]). unfold onNewSN in E. rewrite Q in E. destruct (Nat.eqb_spec q 0); [lia|]. destruct vs as [|v0 vs0].
    - destruct (As0 eq_refl) as (B1 & B2). clear As As0. rewrite B1, B2 in E. unfold stable in *. destruct (m_sn (snd s0)) as [p|].
      + destruct (Nat.eqb_spec p q); [lia|]. destruct (Nat.ltb_spec q p); [lia|]. injection E as <- <-. cbn. rewrite At, Ai. auto.
      + destruct fresh as (fr & _). rewrite fr in E. injection E as <- <-. cbn. rewrite At, Ai. auto.
    - destruct As as (B1 & B2); [discriminate|]. rewrite B2, Nat.eqb_refl in E. injection E as <- <-. auto. }
  destruct Sn as (Sn & ->). destruct s1 as [d1 m1]. cbn [fst snd] in *. subst m1.
  destruct (writeBlock H [] (addGenesisKey (m_gen m) u) (d1, m)) as [[d2 m2]|] eqn:W; [|discriminate]. injection A as <-.
  assert (C2: CInv (d2, m2)) by (eapply CInv_write; eauto using noop_extra). pose proof W as W0. apply writeBlock_eff in W0; [|apply noop_extra].
  destruct W0 as (p & _ & Eb & Es & Eg & Er & Esn & El & Em & Et & Emsn & _). rewrite Ag in *.
  assert (L2: d_lat d2 = latB (d_lat d1) (keyOps (S (m_last m)) (addGenesisKey g u)) /\ d_imm d2 = immB (d_imm d1) (keyOps (S (m_last m)) (addGenesisKey g u))).
  { unfold writeBlock in W. destruct (match m_future m with Some x => Some x | None => calcDigest H d1 (m_last m) end); [|discriminate]. injection W as <- _. rewrite applyB_lat, applyB_imm. auto. }
  destruct L2 as (L2 & L3). destruct (noteSN_f q m2) as (N1 & N2 & N3 & N4).
  constructor; cbn [fst snd].
  - eapply CInv_same; [..|exact C2]; auto.
  - rewrite N1, El, app_length. cbn. lia.
  - rewrite N2, Em. destruct (Nat.eqb_spec g 0); lia.
  - intros i I. rewrite Eb, mget_put. destruct (Nat.eqb_spec i (S (m_last m))); [lia|]. rewrite F2. auto.
  - intros j v J. rewrite Eb, mget_put. destruct (Nat.eqb_spec (l0 + S j) (S (m_last m))) as [X|X].
    + assert (j = length vs) by lia. subst j. rewrite nth_error_app2, Nat.sub_diag in J by lia. cbn in J. injection J as <-. eexists; split; eauto.
    + rewrite F2. apply An. assert (j < length (vs ++ [addGenesisKey g u])) by (apply nth_error_Some; congruence). rewrite app_length in *. cbn in *. rewrite nth_error_app1 in J by lia. auto.
  - rewrite L2, F6, At, opsFrom_app, latB_app. cbn [opsFrom]. rewrite app_nil_r. do 2 f_equal. lia.
  - rewrite L3, F7, Ai, opsFrom_app, immB_app. cbn [opsFrom]. rewrite app_nil_r. do 2 f_equal. lia.
  - rewrite Er, F5. auto.
  - intros _. rewrite Esn. split; auto. unfold noteSN. destruct (Nat.ltb_spec 0 q); auto. destruct (m_sn (snd s0)); [lia|destruct fresh; lia].
  - intros X. destruct vs; discriminate.
Qed.
Lemma AI_addAll us : forall vs s s', AI vs s -> Forall (fun u => seqNum u = q) us -> addAll us s = Some s' -> AI (vs ++ map (addGenesisKey g) us) s'.
Proof.
  induction us as [|u us IH]; intros vs s s' A F; cbn [addAll map].
  - intros E; injection E as <-. rewrite app_nil_r. auto.
  - inversion F; subst. destruct (add H seqOf u s) as [s1|] eqn:E; [|discriminate]. intros R. change (addGenesisKey g u :: map (addGenesisKey g) us) with ([addGenesisKey g u] ++ map (addGenesisKey g) us). rewrite app_assoc. eapply IH; eauto. eapply AI_add; eauto.
Qed.

(** The blocks being rolled back. *)
Variable vs : list updates.
Hypothesis vs_wf : Forall (wfU ct) vs.
Hypothesis vs_sn : Forall (fun v => seqNum v = q) vs.
Record RI (s : state) : Prop := {
  r_c : CInv s; r_lo : l0 <= m_last (snd s); r_hi : m_last (snd s) <= l0 + length vs; r_gen : m_gen (snd s) = g;
  r_old : forall i, i <= l0 -> mget (d_blocks (fst s)) i = mget (d_blocks (fst s0)) i;
  r_new : forall j v, nth_error vs j = Some v -> l0 + S j <= m_last (snd s) -> exists b, mget (d_blocks (fst s)) (l0 + S j) = Some b /\ b_upd b = v;
  r_lat : forall c k, latB (d_lat (fst s)) (revs sl si (firstn (m_last (snd s) - l0) vs)) c k = sl c k;
  r_imm : forall c k, immB (d_imm (fst s)) (revs sl si (firstn (m_last (snd s) - l0) vs)) c k = si c k;
  r_snap : d_snap (fst s) = Some (sl, si, stable);
  r_rec : forall j v b, nth_error vs j = Some v -> mget (d_rec (fst s)) (l0 + S j) = Some b -> b = revertOps sl si v ++ [WBlockDel (l0 + S j)] }.
Lemma touches_none vs' c k m id : Forall (wfU ct) vs' -> existsb (touches c k) vs' = false -> latB m (opsFrom id vs') c k = m c k.
Proof.
  intros F. revert id m. induction F as [|v vs' W F IH]; intros id m; auto. cbn [existsb opsFrom]. intros E. apply orb_false_iff in E as (E1 & E2). rewrite latB_app, IH by auto.
  rewrite (lat_add ct) by auto. unfold touches in E1. destruct (cfGet v c) as [ci|]; auto. destruct (c_kind ci); auto; apply orb_false_iff in E1 as (A & B); rewrite A; rewrite existsb_cfGet in B; destruct (cfGet (c_puts ci) k); auto; discriminate.
Qed.
Lemma AI_RI s : vs <> [] -> AI vs s -> RI s.
Proof.
  intros Ne [Ac Al Ag Ao An At Ai Ar As As0]. destruct (As Ne) as (Sn & _). constructor; auto; try lia.
  - intros c k. rewrite Al. replace (l0 + length vs - l0) with (length vs) by lia. rewrite firstn_all, At. rewrite (lat_back ct) by auto. destruct (existsb (touches c k) vs); auto.
  - intros c k. rewrite Al. replace (l0 + length vs - l0) with (length vs) by lia. rewrite firstn_all, Ai. rewrite (imm_back ct) by auto. destruct (existsb (touchesI c k) vs); auto.
  - intros j v b _. rewrite Ar. discriminate.
Qed.
Lemma g_le : g <= l0.
Proof. apply (c_ge _ CI0). Qed.

Lemma RI_del s s' : RI s -> l0 < m_last (snd s) -> deleteLast s = Some s' -> RI s' /\ m_last (snd s') = m_last (snd s) - 1.
Proof.
  intros [Rc Lo Hi Rg Ro Rn Rt Rm Rs Rr] Lt D. pose proof (deleteLast_CInv _ _ Rc D) as C'. destruct (deleteLast_eq _ _ Rc D) as (d & m & ks & -> & A & K & R & ->). cbn [fst snd] in *.
  destruct (keys_frame ks K d) as (B1 & B2 & B3 & B4 & B5). pose proof g_le as GL.
  set (j := m_last m - l0 - 1). assert (J: j < length vs) by (subst j; lia). destruct (nth_error vs j) as [v|] eqn:N; [|apply nth_error_None in N; lia].
  assert (Lj: l0 + S j = m_last m) by (subst j; lia). assert (Q: ks = revertOps sl si v). { pose proof (Rr j v (ks ++ [WBlockDel (m_last m)]) N) as X. rewrite Lj in X. specialize (X R). apply app_inj_tail in X as (E & _). auto. }
  assert (Fn: firstn (m_last m - l0) vs = firstn (m_last m - 1 - l0) vs ++ [v]).
  { replace (m_last m - l0) with (S j) by lia. replace (m_last m - 1 - l0) with j by lia. apply firstn_snoc; auto. }
  assert (Rv: revs sl si (firstn (m_last m - l0) vs) = revertOps sl si v ++ revs sl si (firstn (m_last m - 1 - l0) vs)).
  { rewrite Fn. unfold revs. rewrite rev_app_distr. auto. }
  split; [|cbn; auto]. constructor; cbn [fst snd d_blocks d_snap d_rec d_lat d_imm setBlocks m_last m_gen setBlockId]; auto; try lia.
  - destruct (Nat.eqb_spec (m_gen m) 0); lia.
  - intros i I. rewrite mget_del. destruct (Nat.eqb_spec i (m_last m)); [lia|]. auto.
  - intros i v' I L. rewrite mget_del. destruct (Nat.eqb_spec (l0 + S i) (m_last m)); [lia|]. apply Rn; auto. lia.
  - intros c k. rewrite applyB_lat, Q. rewrite <- (Rt c k), Rv, latB_app. auto.
  - intros c k. rewrite applyB_imm, Q. rewrite <- (Rm c k), Rv, immB_app. auto.
  - rewrite B4. auto.
  - intros i v' b I. rewrite B5. apply Rr; auto.
Qed.

(** The recovery process stores the right batches and all of them. *)
Lemma revertLoop_entries n : forall last d i b, mget (d_rec (revertLoop seqOf n last g stable sl si d)) i = Some b ->
  mget (d_rec d) i = Some b \/ exists bl, mget (d_blocks d) i = Some bl /\ b = revertOps sl si (b_upd bl) ++ [WBlockDel i].
Proof.
  induction n as [|n IH]; intros last d i b; cbn [revertLoop]; auto.
  destruct (mget (d_blocks d) last) as [bl|] eqn:E; auto. destruct (seqNum (b_upd bl) <=? stable); auto.
  cbn zeta. set (d1 := match mget (d_rec d) last with Some _ => d | None => setRec d (mput (d_rec d) last (revertOps sl si (b_upd bl) ++ [WBlockDel last])) end).
  assert (D1: d_blocks d1 = d_blocks d /\ (mget (d_rec d1) i = Some b -> mget (d_rec d) i = Some b \/ exists bl, mget (d_blocks d) i = Some bl /\ b = revertOps sl si (b_upd bl) ++ [WBlockDel i])).
  { subst d1. destruct (mget (d_rec d) last); auto. split; auto. cbn [d_rec setRec]. rewrite mget_put. destruct (Nat.eqb_spec i last) as [->|]; auto. intros X; injection X as <-. right. eauto. }
  destruct D1 as (D1 & D2). destruct (last - 1 =? g); auto. intros X. apply IH in X as [X|X]; auto. rewrite D1 in X. auto.
Qed.
Lemma revertLoop_keeps n : forall last d i, mget (d_rec d) i <> None -> mget (d_rec (revertLoop seqOf n last g stable sl si d)) i <> None.
Proof.
  induction n as [|n IH]; intros last d i K; cbn [revertLoop]; auto. destruct (mget (d_blocks d) last) as [bl|]; auto. destruct (seqNum (b_upd bl) <=? stable); auto.
  cbn zeta. destruct (mget (d_rec d) last) eqn:E; destruct (last - 1 =? g); auto; try apply IH; cbn [d_rec setRec]; rewrite mget_put; destruct (i =? last); auto; discriminate.
Qed.
Lemma revertLoop_all n : forall last d, (forall i, l0 < i <= last -> exists bl, mget (d_blocks d) i = Some bl /\ stable < seqNum (b_upd bl)) -> last <= n + l0 ->
  forall i, l0 < i <= last -> mget (d_rec (revertLoop seqOf n last g stable sl si d)) i <> None.
Proof.
  pose proof g_le as GL. induction n as [|n IH]; intros last d B L i I; [lia|]. cbn [revertLoop].
  destruct (B last) as (bl & E & Sq); [lia|]. rewrite E. destruct (Nat.leb_spec (seqNum (b_upd bl)) stable); [lia|]. cbn zeta.
  set (d1 := match mget (d_rec d) last with Some _ => d | None => setRec d (mput (d_rec d) last (revertOps sl si (b_upd bl) ++ [WBlockDel last])) end).
  assert (D1: d_blocks d1 = d_blocks d /\ mget (d_rec d1) last <> None). { subst d1. destruct (mget (d_rec d) last) eqn:X; [split; auto; congruence|]. split; auto. cbn [d_rec setRec]. rewrite mget_put, Nat.eqb_refl. discriminate. }
  destruct D1 as (D1 & D2). destruct (Nat.eqb_spec (last - 1) g) as [G|G].
  - assert (i = last) by lia. subst. auto.
  - destruct (Nat.eq_dec i last) as [->|Ne]; [apply revertLoop_keeps; auto|]. apply IH; try lia. intros x X. rewrite D1. apply B. lia.
Qed.
Lemma stable_q : stable < q.
Proof. unfold stable. destruct (m_sn (snd s0)); [auto|tauto]. Qed.
Lemma RI_recover s d m : RI s -> d = storeRevert seqOf (fst s) -> open d = Some m -> RI (d, m) /\ m_last m = m_last (snd s) /\
  (forall i, l0 < i <= m_last m -> mget (d_rec d) i <> None).
Proof.
  intros [Rc Lo Hi Rg Ro Rn Rt Rm Rs Rr] E O. pose proof (storeRevert_frame seqOf (fst s)) as F. cbn zeta in F. rewrite <- E in F. destruct F as (F1 & F2 & F3 & F4 & F5 & F6).
  assert (C': CInv (d, snd s)) by (rewrite E; apply storeRevert_CInv; destruct s; auto). pose proof (open_ok _ C') as Op. cbn [fst snd] in Op. rewrite Op in O. injection O as <-.
  pose proof (open_ok _ Rc) as Op0. unfold storeRevert in E. rewrite Op0 in E. cbn [m_gen m_last] in E. rewrite Rg, Rs in E. cbn [m_last m_gen fst snd].
  assert (Bl: forall i, l0 < i <= m_last (snd s) -> exists v b, nth_error vs (i - l0 - 1) = Some v /\ mget (d_blocks (fst s)) i = Some b /\ b_upd b = v).
  { intros i I. destruct (nth_error vs (i - l0 - 1)) as [v|] eqn:N; [|apply nth_error_None in N; lia]. destruct (Rn _ _ N) as (b & B1 & B2); [lia|]. replace (l0 + S (i - l0 - 1)) with i in B1 by lia. eauto. }
  split; [|split; auto].
  - constructor; cbn [fst snd m_last m_gen]; rewrite ?F1, ?F4, ?F5, ?F6; auto.
    + eapply CInv_same; [..|exact C']; auto.
    + intros j v b J. rewrite E. destruct (g =? m_last (snd s)); [apply Rr; auto|]. intros X. apply revertLoop_entries in X as [X|(bl & X & ->)]; [apply Rr; auto|].
      destruct (le_lt_dec (l0 + S j) (m_last (snd s))) as [L|L].
      * destruct (Rn _ _ J L) as (b' & B1 & B2). rewrite X in B1; injection B1 as <-. rewrite B2. auto.
      * rewrite (c_out _ Rc) in X by lia. discriminate.
  - intros i I. rewrite E. destruct (Nat.eqb_spec g (m_last (snd s))); [pose proof g_le; lia|]. apply revertLoop_all; auto; try lia.
    intros x X. destruct (Bl x X) as (v & b & N & B1 & B2). exists b. split; auto. rewrite B2. rewrite Forall_forall in vs_sn. rewrite (vs_sn v) by (eapply nth_error_In; eauto). apply stable_q.
Qed.
Lemma recov_RI s s' : recov s s' -> RI s -> RI s' \/ (CInv s' /\ m_last (snd s') < l0).
Proof.
  induction 1 as [s|s s1 s2 R IH D|s s1 d m R IH E O]; intros I; auto.
  - destruct (IH I) as [J|(J & K)].
    + destruct (le_lt_dec (m_last (snd s1)) l0) as [L|L].
      * right. pose proof (r_c _ J) as C1. split; [eapply deleteLast_CInv; eauto|]. destruct (deleteLast_eq _ _ C1 D) as (d & m & ks & -> & A & _ & _ & ->). cbn in *. lia.
      * left. eapply RI_del; eauto.
    + right. split; [eapply deleteLast_CInv; eauto|]. destruct (deleteLast_eq _ _ J D) as (d & m & ks & -> & A & _ & _ & ->). cbn in *. lia.
  - destruct (IH I) as [J|(J & K)]; [left; eapply RI_recover; eauto|right].
    assert (C': CInv (d, snd s1)) by (rewrite E; apply storeRevert_CInv; destruct s1; auto). pose proof (open_ok _ C') as Op. cbn [fst snd] in Op. rewrite Op in O. injection O as <-.
    split; [eapply CInv_same; [..|exact C']; auto|cbn; auto].
Qed.
End Rec.
