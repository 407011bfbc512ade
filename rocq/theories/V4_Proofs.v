From Coq Require Import List Arith NArith Lia Bool.
From Verif Require Import Lib_Bytes Keys_Model Keys_Proofs Lib_CF V4_Model.
Import ListNotations.
Local Open Scope nat_scope.

(** * Maps from ids *)
Section NMapL.
Context {V : Type}.
Implicit Types m : list (nat * V).
Lemma mget_delIf m f k : mget (mdelIf f m) k = if f k then None else mget m k.
Proof.
  induction m as [|[k' v] m IH]; cbn [mdelIf filter mget]; [destruct (f k); auto|]. unfold mdelIf in *. cbn [fst].
  destruct (f k') eqn:F; cbn [negb].
  - rewrite IH. destruct (k =? k') eqn:E; auto. apply Nat.eqb_eq in E; subst. rewrite F. auto.
  - cbn [mget]. rewrite IH. destruct (k =? k') eqn:E; auto. apply Nat.eqb_eq in E; subst. rewrite F. auto.
Qed.
Lemma mget_del m k k' : mget (mdel m k) k' = if k' =? k then None else mget m k'.
Proof. unfold mdel. rewrite mget_delIf. auto. Qed.
Lemma mget_put m k v k' : mget (mput m k v) k' = if k' =? k then Some v else mget m k'.
Proof. unfold mput. cbn [mget]. destruct (k' =? k) eqn:E; auto. rewrite mget_del, E. auto. Qed.
Lemma mmax_ge m k v : mget m k = Some v -> k <= mmax m.
Proof. induction m as [|[k' v'] m IH]; cbn [mget mmax fold_right fst]; [discriminate|]. fold (mmax m). destruct (k =? k') eqn:E; [apply Nat.eqb_eq in E; lia|]. intros A. apply IH in A. lia. Qed.
Lemma mmax_in m : m <> [] -> exists v, mget m (mmax m) = Some v.
Proof.
  induction m as [|[k v] m IH]; [congruence|intros _]. cbn [mget mmax fold_right fst]. fold (mmax m).
  destruct (Nat.max k (mmax m) =? k) eqn:E; [eauto|]. apply Nat.eqb_neq in E. assert (M: Nat.max k (mmax m) = mmax m) by lia. rewrite M. apply IH.
  intros ->. cbn in E. lia.
Qed.
Lemma mmin_le m k v : mget m k = Some v -> exists a, mmin m = Some a /\ a <= k.
Proof.
  induction m as [|[k' v'] m IH]; cbn [mget mmin fst]; [discriminate|]. destruct (k =? k') eqn:E.
  - apply Nat.eqb_eq in E; subst. intros _. destruct (mmin m); eexists; split; eauto. lia.
  - intros A. destruct (IH A) as (a & B & C). rewrite B. eexists; split; eauto. lia.
Qed.
Lemma mmin_in m a : mmin m = Some a -> exists v, mget m a = Some v.
Proof.
  revert a. induction m as [|[k v] m IH]; intros a; cbn [mmin mget fst]; [discriminate|]. destruct (mmin m) as [x|] eqn:E.
  - intros A; injection A as <-. destruct (Nat.min k x =? k) eqn:F; [eauto|]. apply Nat.eqb_neq in F. assert (M: Nat.min k x = x) by lia. rewrite M. auto.
  - intros A; injection A as ->. rewrite Nat.eqb_refl. eauto.
Qed.
Lemma mmin_none m : mmin m = None -> m = [].
Proof. destruct m as [|[k v] m]; auto. cbn [mmin]. destruct (mmin m); discriminate. Qed.
(** The seeks, characterised by the lookups. *)
Lemma mmax_char m l : (forall i, l < i -> mget m i = None) -> (l = 0 \/ mget m l <> None) -> mget m 0 = None -> mmax m = l.
Proof.
  intros A B C. destruct m as [|e m'] eqn:Q.
  - cbn in *. destruct B; [auto|congruence].
  - rewrite <- Q in *. assert (Ne: m <> []) by (rewrite Q; discriminate). clear Q. destruct (mmax_in m Ne) as (v & M).
    destruct (le_lt_dec (mmax m) l) as [Le|Gt]; [|rewrite (A _ Gt) in M; discriminate].
    destruct B as [->|B]; [lia|]. destruct (mget m l) as [w|] eqn:G; [|congruence]. apply mmax_ge in G. lia.
Qed.
Lemma mmin_char m g : (forall i, i < g -> mget m i = None) -> mget m g <> None -> mmin m = Some g.
Proof.
  intros A B. destruct (mget m g) as [v|] eqn:G; [|congruence]. destruct (mmin_le _ _ _ G) as (a & M & L). rewrite M. f_equal.
  destruct (mmin_in _ _ M) as (w & W). destruct (le_lt_dec g a); [lia|]. rewrite A in W by auto. discriminate.
Qed.
End NMapL.

(** * What a batch does to each part *)
Definition isKey (o : wop) : bool := match o with WLat _ _ _ | WImm _ _ _ => true | _ => false end.
Lemma applyB_app d a b : applyB d (a ++ b) = applyB (applyB d a) b.
Proof. apply fold_left_app. Qed.
Lemma keys_frame os : forallb isKey os = true -> forall d,
  d_blocks (applyB d os) = d_blocks d /\ d_st (applyB d os) = d_st d /\ d_gen (applyB d os) = d_gen d /\ d_snap (applyB d os) = d_snap d /\ d_rec (applyB d os) = d_rec d.
Proof.
  induction os as [|o os IH]; cbn [forallb]; intros F d; [auto|]. apply andb_true_iff in F as (F & G). unfold applyB in *. cbn [fold_left].
  destruct (IH G (apply1 d o)) as (A & B & C & E & K). rewrite A, B, C, E, K. destruct o; try discriminate; cbn; auto.
Qed.
Lemma catOps_keys id c ci : forallb isKey (catOps id c ci) = true.
Proof.
  unfold catOps. destruct (c_kind ci); try rewrite forallb_app; repeat (apply andb_true_iff; split);
  apply forallb_forall; intros o I; apply in_map_iff in I as (x & <- & _); auto.
Qed.
Lemma keyOps_keys id u : forallb isKey (keyOps id u) = true.
Proof. apply forallb_forall. intros o I. apply in_flat_map in I as (e & _ & I). pose proof (catOps_keys id (fst e) (snd e)) as F. rewrite forallb_forall in F. auto. Qed.
Lemma revertDels_keys (sl : lkmap) c ks : forallb isKey (flat_map (fun k => match sl c k with Some v => [WLat c k (Some v)] | None => [] end) ks) = true.
Proof. induction ks as [|k ks IH]; cbn; auto. rewrite forallb_app, IH. destruct (sl c k); auto. Qed.
Lemma map_keys {A} (f : A -> wop) l : (forall x, isKey (f x) = true) -> forallb isKey (map f l) = true.
Proof. intros F. induction l; cbn; auto. rewrite F, IHl. auto. Qed.
Lemma revertCat_keys sl si c ci : forallb isKey (revertCat sl si c ci) = true.
Proof. unfold revertCat. destruct (c_kind ci); rewrite ?forallb_app, ?revertDels_keys, map_keys; auto. Qed.
Lemma revertOps_keys sl si u : forallb isKey (revertOps sl si u) = true.
Proof. apply forallb_forall. intros o I. apply in_flat_map in I as (e & _ & I). pose proof (revertCat_keys sl si (fst e) (snd e)) as F. rewrite forallb_forall in F. auto. Qed.

Section Inv.
Variable H : nat -> block -> bytes.
Variable seqOf : bytes -> nat.

(** The chain part of a state. *)
Record CInv (s : state) : Prop := {
  c_ge : m_gen (snd s) <= m_last (snd s);
  c_zero : m_gen (snd s) = 0 -> m_last (snd s) = 0;
  c_in : forall i, 0 < m_gen (snd s) -> m_gen (snd s) <= i -> i <= m_last (snd s) -> mget (d_blocks (fst s)) i <> None;
  c_out : forall i, m_last (snd s) < i -> mget (d_blocks (fst s)) i = None;
  c_no0 : mget (d_blocks (fst s)) 0 = None;
  c_gen : match d_gen (fst s) with Some g => g = m_gen (snd s) /\ 0 < g | None => forall i, i < m_gen (snd s) -> mget (d_blocks (fst s)) i = None end;
  c_st0 : mget (d_st (fst s)) 0 = None;
  c_rec : forall i b, mget (d_rec (fst s)) i = Some b -> exists ks, forallb isKey ks = true /\ b = ks ++ [WBlockDel i] }.
Record LInv (s : state) : Prop := {
  l_future : forall x, m_future (snd s) = Some x -> calcDigest H (fst s) (m_last (snd s)) = Some x;
  l_first : forall b, m_gen (snd s) <= 1 -> mget (d_blocks (fst s)) 1 = Some b -> b_parent b = zeroD;
  l_link : forall i b, m_gen (snd s) < i -> i <= m_last (snd s) -> mget (d_blocks (fst s)) i = Some b -> calcDigest H (fst s) (i - 1) = Some (b_parent b) }.

Lemma open_ok s : CInv s -> open (fst s) = Some {| m_last := m_last (snd s); m_gen := m_gen (snd s); m_future := None; m_stlast := mmax (d_st (fst s)); m_sn := None |}.
Proof.
  intros [Ge Z In Out N0 G _ _]. destruct s as [d m]. cbn [fst snd] in *. unfold open.
  assert (Lst: mmax (d_blocks d) = m_last m). { apply mmax_char; auto. destruct (Nat.eq_dec (m_gen m) 0); [left; auto|right; apply In; lia]. }
  rewrite Lst. unfold loadGenesis. destruct (d_gen d) as [g|].
  - destruct G as (-> & G). rewrite (proj2 (Nat.ltb_lt _ _) G), (proj2 (Nat.leb_le _ _) Ge). auto.
  - destruct (Nat.eq_dec (m_gen m) 0) as [E|E].
    + assert (M: mmin (d_blocks d) = None). { destruct (mmin (d_blocks d)) as [a|] eqn:M; auto. destruct (mmin_in _ _ M) as (v & W). destruct a; [rewrite N0 in W; discriminate|]. rewrite Out in W by lia. discriminate. }
      rewrite M, E. auto.
    + rewrite (mmin_char (d_blocks d) (m_gen m)); [|auto|apply In; lia]. rewrite (proj2 (Nat.ltb_lt _ _)) by lia. rewrite (proj2 (Nat.leb_le _ _) Ge). auto.
Qed.

(** writeBlock with an extra batch that only deletes from the state-transfer chain. *)
Lemma writeBlock_eff extra u d m d' m' (st : forall x, d_blocks (applyB x extra) = d_blocks x /\ d_gen (applyB x extra) = d_gen x /\ d_rec (applyB x extra) = d_rec x /\ d_snap (applyB x extra) = d_snap x) :
  writeBlock H extra u (d, m) = Some (d', m') ->
  exists p, (match m_future m with Some x => Some x | None => calcDigest H d (m_last m) end) = Some p /\
    d_blocks d' = mput (d_blocks d) (S (m_last m)) {| b_parent := p; b_upd := u |} /\
    d_st d' = d_st (applyB d extra) /\ d_gen d' = d_gen d /\ d_rec d' = d_rec d /\ d_snap d' = d_snap d /\
    m_last m' = S (m_last m) /\ m_gen m' = (if m_gen m =? 0 then S (m_last m) else m_gen m) /\ m_stlast m' = m_stlast m /\ m_sn m' = m_sn m /\
    m_future m' = Some (H (S (m_last m)) {| b_parent := p; b_upd := u |}).
Proof.
  unfold writeBlock. destruct (match m_future m with Some x => Some x | None => calcDigest H d (m_last m) end) as [p|]; [|discriminate].
  intros E; injection E as <- <-. exists p. split; auto. rewrite applyB_app.
  set (b := {| b_parent := p; b_upd := u |}). change (WBlock (S (m_last m)) b :: keyOps (S (m_last m)) u) with ([WBlock (S (m_last m)) b] ++ keyOps (S (m_last m)) u).
  rewrite applyB_app. destruct (keys_frame _ (keyOps_keys (S (m_last m)) u) (applyB (applyB d extra) [WBlock (S (m_last m)) b])) as (A & B & C & S1 & S2).
  rewrite A, B, C, S1, S2. destruct (st d) as (E1 & E2 & E3 & E4). cbn. rewrite E1, E2, E3, E4. auto 12.
Qed.

Lemma CInv_write extra u s s' : (forall x, d_blocks (applyB x extra) = d_blocks x /\ d_gen (applyB x extra) = d_gen x /\ d_rec (applyB x extra) = d_rec x /\ d_snap (applyB x extra) = d_snap x) ->
  (forall x, mget (d_st x) 0 = None -> mget (d_st (applyB x extra)) 0 = None) ->
  CInv s -> writeBlock H extra u s = Some s' -> CInv s'.
Proof.
  intros X X0 [Ge Z In Out N0 G S0 Rc] W. destruct s as [d m], s' as [d' m']. apply writeBlock_eff in W; auto.
  destruct W as (p & Hp & Eb & Es & Eg & Er & _ & El & Em & _ & _ & _). cbn [fst snd] in *.
  constructor; cbn [fst snd]; rewrite ?Eb, ?Es, ?Eg, ?Er, ?El, ?Em; auto.
  - destruct (Nat.eqb_spec (m_gen m) 0); lia.
  - destruct (Nat.eqb_spec (m_gen m) 0); lia.
  - intros i A B C. rewrite mget_put. destruct (Nat.eqb_spec i (S (m_last m))); [discriminate|]. destruct (Nat.eqb_spec (m_gen m) 0); [lia|]. apply In; lia.
  - intros i A. rewrite mget_put. destruct (Nat.eqb_spec i (S (m_last m))); [lia|]. apply Out; lia.
  - rewrite mget_put. cbn. auto.
  - destruct (d_gen d) as [g|].
    + destruct G as (-> & G). split; auto. destruct (Nat.eqb_spec (m_gen m) 0); lia.
    + intros i A. rewrite mget_put. destruct (Nat.eqb_spec (m_gen m) 0) as [E|E].
      * rewrite (Z E) in A. assert (i = 0) as -> by lia. cbn. auto.
      * destruct (Nat.eqb_spec i (S (m_last m))); [lia|]. apply G; auto.
Qed.

Lemma LInv_write extra u s s' : (forall x, d_blocks (applyB x extra) = d_blocks x /\ d_gen (applyB x extra) = d_gen x /\ d_rec (applyB x extra) = d_rec x /\ d_snap (applyB x extra) = d_snap x) ->
  CInv s -> LInv s -> writeBlock H extra u s = Some s' -> LInv s'.
Proof.
  intros X [Ge Z In Out N0 G S0 Rc] [Fu Fi Li] W. destruct s as [d m], s' as [d' m']. apply writeBlock_eff in W; auto.
  destruct W as (p & Hp & Eb & Es & Eg & Er & _ & El & Em & _ & _ & Ef). cbn [fst snd] in *.
  assert (P: calcDigest H d (m_last m) = Some p). { destruct (m_future m) as [x|]; [injection Hp as <-|]; auto. }
  assert (Old: forall i, i <= m_last m -> calcDigest H d' i = calcDigest H d i).
  { intros i A. unfold calcDigest. rewrite Eb, mget_put. destruct (Nat.eqb_spec i (S (m_last m))); [lia|]. auto. }
  constructor; cbn [fst snd]; rewrite ?El, ?Em, ?Ef.
  - intros x E; injection E as <-. unfold calcDigest. rewrite Eb, mget_put, Nat.eqb_refl. auto.
  - intros b A. rewrite Eb, mget_put. destruct (Nat.eqb_spec 1 (S (m_last m))) as [E|E].
    + intros F; injection F as <-. cbn. assert (m_last m = 0) as L0 by lia. rewrite L0 in P. cbn in P. injection P as <-. auto.
    + apply Fi. destruct (Nat.eqb_spec (m_gen m) 0); lia.
  - intros i b A B. rewrite Eb, mget_put. destruct (Nat.eqb_spec i (S (m_last m))) as [->|E].
    + intros F; injection F as <-. cbn [b_parent]. replace (S (m_last m) - 1) with (m_last m) by lia. rewrite Old; auto.
    + intros F. rewrite Old by lia. apply Li; auto; [|lia]. destruct (Nat.eqb_spec (m_gen m) 0); lia.
Qed.

Lemma CInv_same d m d' m' : d_blocks d' = d_blocks d -> d_gen d' = d_gen d -> d_st d' = d_st d -> d_rec d' = d_rec d -> m_last m' = m_last m -> m_gen m' = m_gen m ->
  CInv (d, m) -> CInv (d', m').
Proof. intros A B C E F G [? ? ? ? ? ? ? ?]. cbn [fst snd] in *. constructor; cbn [fst snd]; rewrite ?A, ?B, ?C, ?E, ?F, ?G; auto. Qed.
Lemma LInv_same d m d' m' : d_blocks d' = d_blocks d -> m_last m' = m_last m -> m_gen m' = m_gen m -> m_future m' = m_future m -> LInv (d, m) -> LInv (d', m').
Proof. intros A B C E [? ? ?]. cbn [fst snd] in *. constructor; cbn [fst snd]; unfold calcDigest; rewrite ?A, ?B, ?C, ?E; auto. Qed.

Lemma noop_extra x : d_blocks (applyB x []) = d_blocks x /\ d_gen (applyB x []) = d_gen x /\ d_rec (applyB x []) = d_rec x /\ d_snap (applyB x []) = d_snap x.
Proof. auto. Qed.
Lemma stdel_extra i x : d_blocks (applyB x [WStDel i]) = d_blocks x /\ d_gen (applyB x [WStDel i]) = d_gen x /\ d_rec (applyB x [WStDel i]) = d_rec x /\ d_snap (applyB x [WStDel i]) = d_snap x.
Proof. auto. Qed.
Lemma stdel_st0 i x : mget (d_st x) 0 = None -> mget (d_st (applyB x [WStDel i])) 0 = None.
Proof. intros A. cbn. rewrite mget_del. destruct (0 =? i); auto. Qed.

(** Deletion of the oldest blocks. [del]: what is removed. *)
Lemma CInv_prune d m g (f : nat -> bool) : CInv (d, m) -> 0 < m_gen m -> m_gen m <= g -> g <= m_last m -> (forall i, g <= i -> f i = false) ->
  CInv (setGen (setBlocks d (mdelIf f (d_blocks d))) (Some g), setMGen m g).
Proof.
  intros [Ge Z In Out N0 G S0 Rc] P A B F. cbn [fst snd] in *. constructor; cbn; auto; try lia.
  - intros i X Y W. rewrite mget_delIf, F by auto. apply In; lia.
  - intros i X. rewrite mget_delIf. destruct (f i); auto.
  - rewrite mget_delIf. destruct (f 0); auto.
Qed.
Lemma LInv_prune d m g (f : nat -> bool) x : LInv (d, m) -> CInv (d, m) -> 0 < m_gen m -> m_gen m <= g -> g <= m_last m -> (forall i, g <= i -> f i = false) ->
  LInv (setGen (setBlocks d (mdelIf f (d_blocks d))) x, setMGen m g).
Proof.
  intros [Fu Fi Li] CI P A B F. cbn [fst snd] in *.
  assert (Old: forall i, g <= i -> calcDigest H (setGen (setBlocks d (mdelIf f (d_blocks d))) x) i = calcDigest H d i).
  { intros i X. unfold calcDigest. cbn. rewrite mget_delIf, F; auto. }
  constructor; cbn [fst snd m_last m_gen m_future setMGen].
  - intros y E. rewrite Old; auto.
  - intros b E. cbn. rewrite mget_delIf. destruct (f 1); [discriminate|]. apply Fi. lia.
  - intros i b X Y. cbn [d_blocks setGen setBlocks]. rewrite mget_delIf. destruct (f i); [discriminate|]. intros W. rewrite Old by lia. apply Li; auto; lia.
Qed.
Lemma range_f l i : S l <= i -> (1 <=? i) && (i <? S l) = false.
Proof. intros A. rewrite (proj2 (Nat.ltb_ge _ _) A). apply andb_false_r. Qed.

Lemma deleteGenesis_eq s s' : deleteGenesis s = Some s' -> exists d m, s = (d, m) /\ 0 < m_gen m < m_last m /\
  s' = (setGen (setBlocks d (mdelIf (fun i => i =? m_gen m) (d_blocks d))) (Some (S (m_gen m))), setMGen m (S (m_gen m))).
Proof.
  destruct s as [d m]. unfold deleteGenesis. destruct ((0 <? m_gen m) && (m_gen m <? m_last m)) eqn:E; [|discriminate].
  apply andb_true_iff in E as (A & B). apply Nat.ltb_lt in A, B. intros F; injection F as <-. exists d, m. repeat split; auto.
Qed.
Lemma deleteUntil_eq n s s' l : deleteUntil n s = Some (s', l) -> exists d m, s = (d, m) /\ 0 < m_gen m < n /\
  ((m_last m = m_gen m /\ s' = s /\ l = m_gen m - 1) \/
   (m_last m <> m_gen m /\ l = Nat.min (m_last m - 1) (n - 1) /\ s' = (setGen (setBlocks d (mdelIf (fun i => (1 <=? i) && (i <? S l)) (d_blocks d))) (Some (S l)), setMGen m (S l)))).
Proof.
  destruct s as [d m]. unfold deleteUntil. destruct ((0 <? m_gen m) && (m_gen m <? n)) eqn:E; [|discriminate].
  apply andb_true_iff in E as (A & B). apply Nat.ltb_lt in A, B. destruct (Nat.eqb_spec (m_last m) (m_gen m)); intros F; injection F as <- <-; exists d, m; repeat split; auto; right; auto.
Qed.
Lemma deleteUntilFiles_eq keep n s s' l : deleteUntilFiles keep n s = Some (s', l) -> exists d m, s = (d, m) /\ 0 < m_gen m < n /\
  ((m_last m = m_gen m /\ s' = s /\ l = m_gen m - 1) \/
   (m_last m <> m_gen m /\ l = Nat.min (m_last m - 1) (n - 1) /\ s' = (setGen (setBlocks d (mdelIf (fun i => (1 <=? i) && (i <? S l) && negb (keep i)) (d_blocks d))) (Some (S l)), setMGen m (S l)))).
Proof.
  destruct s as [d m]. unfold deleteUntilFiles. destruct ((0 <? m_gen m) && (m_gen m <? n)) eqn:E; [|discriminate].
  apply andb_true_iff in E as (A & B). apply Nat.ltb_lt in A, B. destruct (Nat.eqb_spec (m_last m) (m_gen m)); intros F; injection F as <- <-; exists d, m; repeat split; auto; right; auto.
Qed.

(** The recovery process changes the recovery DB only. *)
Lemma revertLoop_frame n : forall last gen st sl si d, let d' := revertLoop seqOf n last gen st sl si d in
  d_blocks d' = d_blocks d /\ d_st d' = d_st d /\ d_gen d' = d_gen d /\ d_lat d' = d_lat d /\ d_imm d' = d_imm d /\ d_snap d' = d_snap d.
Proof.
  induction n as [|n IH]; intros last gen st sl si d; cbn [revertLoop]; [cbn; auto 10|].
  destruct (mget (d_blocks d) last) as [b|]; [|cbn; auto 10]. destruct (seqNum seqOf (b_upd b) <=? st); [cbn; auto 10|].
  cbn zeta. set (d1 := match mget (d_rec d) last with Some _ => d | None => setRec d (mput (d_rec d) last (revertOps sl si (b_upd b) ++ [WBlockDel last])) end).
  assert (F: d_blocks d1 = d_blocks d /\ d_st d1 = d_st d /\ d_gen d1 = d_gen d /\ d_lat d1 = d_lat d /\ d_imm d1 = d_imm d /\ d_snap d1 = d_snap d) by (subst d1; destruct (mget (d_rec d) last); cbn; auto 10).
  destruct (last - 1 =? gen); auto. destruct (IH (last - 1) gen st sl si d1) as (A & B & C & E & G & K). destruct F as (-> & -> & -> & -> & -> & ->) in A, B, C, E, G, K. auto 10.
Qed.
Lemma revertLoop_rec n : forall last gen st sl si d, (forall i b, mget (d_rec d) i = Some b -> exists ks, forallb isKey ks = true /\ b = ks ++ [WBlockDel i]) ->
  forall i b, mget (d_rec (revertLoop seqOf n last gen st sl si d)) i = Some b -> exists ks, forallb isKey ks = true /\ b = ks ++ [WBlockDel i].
Proof.
  induction n as [|n IH]; intros last gen st sl si d R; cbn [revertLoop]; auto.
  destruct (mget (d_blocks d) last) as [b|]; auto. destruct (seqNum seqOf (b_upd b) <=? st); auto.
  assert (R': forall i w, mget (d_rec (setRec d (mput (d_rec d) last (revertOps sl si (b_upd b) ++ [WBlockDel last])))) i = Some w -> exists ks, forallb isKey ks = true /\ w = ks ++ [WBlockDel i]).
  { intros i w. cbn [d_rec setRec]. rewrite mget_put. destruct (Nat.eqb_spec i last) as [->|E]; [|auto]. intros X; injection X as <-. eexists; split; [apply revertOps_keys|auto]. }
  destruct (mget (d_rec d) last) as [w|]; destruct (last - 1 =? gen); eauto.
Qed.
Lemma storeRevert_frame d : let d' := storeRevert seqOf d in
  d_blocks d' = d_blocks d /\ d_st d' = d_st d /\ d_gen d' = d_gen d /\ d_lat d' = d_lat d /\ d_imm d' = d_imm d /\ d_snap d' = d_snap d.
Proof.
  unfold storeRevert. destruct (open d) as [m|]; [|cbn; auto 10]. destruct (m_gen m =? m_last m); [cbn; auto 10|]. destruct (d_snap d) as [[[sl si] st]|] eqn:E; [|cbn; auto 10].
  cbn zeta. pose proof (revertLoop_frame (m_last m) (m_last m) (m_gen m) st sl si d) as F. cbn zeta in F. rewrite E in F. exact F.
Qed.
Lemma storeRevert_CInv d m : CInv (d, m) -> CInv (storeRevert seqOf d, m).
Proof.
  intros CI. destruct (storeRevert_frame d) as (A & B & C & _). destruct CI as [Ge Z In Out N0 G S0 Rc]. cbn [fst snd] in *.
  constructor; cbn [fst snd]; rewrite ?A, ?B, ?C; auto. unfold storeRevert. destruct (open d) as [m'|]; auto. destruct (m_gen m' =? m_last m'); auto.
  destruct (d_snap d) as [[[sl si] st]|]; auto. apply revertLoop_rec; auto.
Qed.

Lemma onNewSN_frame u d m : let s' := fst (onNewSN seqOf u (d, m)) in snd s' = m /\ d_blocks (fst s') = d_blocks d /\ d_st (fst s') = d_st d /\ d_gen (fst s') = d_gen d /\ d_rec (fst s') = d_rec d /\ d_lat (fst s') = d_lat d /\ d_imm (fst s') = d_imm d.
Proof.
  unfold onNewSN. destruct (seqNum seqOf u =? 0); [cbn; auto 15|]. destruct (m_sn m) as [p|].
  - destruct (p =? seqNum seqOf u); [cbn; auto 15|]. destruct (seqNum seqOf u <? p); cbn; auto 15.
  - destruct (d_snap d); cbn; auto 15.
Qed.

Lemma step_CInv s s' : CInv s -> step H seqOf s s' -> CInv s'.
Proof.
  intros CI St. destruct St as [u s|u s s' W|n s|b s s' G W|s _|id b s L|s s' E|n s s' l E|keep n s s' l E|i c k s|s d m E O|s]; destruct s as [d0 m0].
  - destruct (onNewSN_frame u d0 m0) as (A & B & C & D & E & _). destruct (fst (onNewSN seqOf u (d0, m0))) as [d m]. cbn [fst snd] in *. subst m. eapply CInv_same; eauto.
  - eapply CInv_write; eauto using noop_extra.
  - eapply CInv_same; [..|exact CI]; auto; cbn; unfold noteSN; destruct (0 <? n); auto.
  - eapply CInv_write; eauto using stdel_extra, stdel_st0.
  - eapply CInv_same; [..|exact CI]; auto.
  - destruct CI as [Ge Z In Out N0 G S0 Rc]. cbn [fst snd] in *. unfold stPut. cbn [fst snd].
    assert (X: m_last (if id <=? m_stlast m0 then m0 else setStLast m0 id) = m_last m0 /\ m_gen (if id <=? m_stlast m0 then m0 else setStLast m0 id) = m_gen m0) by (destruct (id <=? m_stlast m0); auto).
    destruct X as (X1 & X2). constructor; cbn [fst snd]; rewrite ?X1, ?X2; auto. cbn. rewrite mget_del. destruct id; [lia|]. auto.
  - apply deleteGenesis_eq in E as (d & m & Q & A & ->). injection Q as <- <-. apply CInv_prune; auto; try lia. intros i B. apply Nat.eqb_neq. lia.
  - apply deleteUntil_eq in E as (d & m & Q & A & [(_ & -> & _)|(B & C & ->)]); auto. injection Q as <- <-. pose proof (c_ge _ CI) as Ge. cbn [fst snd] in Ge.
    apply CInv_prune; auto; try lia. intros i X. apply range_f; auto.
  - apply deleteUntilFiles_eq in E as (d & m & Q & A & [(_ & -> & _)|(B & C & ->)]); auto. injection Q as <- <-. pose proof (c_ge _ CI) as Ge. cbn [fst snd] in Ge.
    apply CInv_prune; auto; try lia. intros i X. rewrite range_f; auto.
  - unfold compact. destruct ((if i then d_imm d0 else d_lat d0) c k) as [v|]; auto. destruct (mayDrop (m_gen m0) v); auto.
    destruct (keys_frame [if i then WImm c k None else WLat c k None]) with (d := d0) as (A & B & C & _ & E); [destruct i; auto|]. eapply CInv_same; eauto.
  - cbn [fst] in *. apply storeRevert_CInv in CI. rewrite <- E in CI. pose proof (open_ok _ CI) as Op. cbn [fst snd] in Op. rewrite Op in O. injection O as <-.
    eapply CInv_same; [..|exact CI]; auto.
  - destruct CI as [Ge Z In Out N0 G S0 Rc]. constructor; auto. cbn. intros; discriminate.
Qed.
Lemma step_LInv s s' : CInv s -> LInv s -> step H seqOf s s' -> LInv s'.
Proof.
  intros CI LI St. destruct St as [u s|u s s' W|n s|b s s' G W|s _|id b s L|s s' E|n s s' l E|keep n s s' l E|i c k s|s d m E O|s]; destruct s as [d0 m0].
  - destruct (onNewSN_frame u d0 m0) as (A & B & C & D & E & _). destruct (fst (onNewSN seqOf u (d0, m0))) as [d m]. cbn [fst snd] in *. subst m. eapply LInv_same; eauto.
  - eapply LInv_write; eauto using noop_extra.
  - eapply LInv_same; [..|exact LI]; auto; cbn; unfold noteSN; destruct (0 <? n); auto.
  - eapply LInv_write; eauto using stdel_extra.
  - eapply LInv_same; [..|exact LI]; auto.
  - unfold stPut. cbn [fst snd]. eapply LInv_same; [..|exact LI]; auto; destruct (id <=? m_stlast m0); auto.
  - apply deleteGenesis_eq in E as (d & m & Q & A & ->). injection Q as <- <-. apply LInv_prune; auto; try lia. intros i B. apply Nat.eqb_neq. lia.
  - apply deleteUntil_eq in E as (d & m & Q & A & [(_ & -> & _)|(B & C & ->)]); auto. injection Q as <- <-. pose proof (c_ge _ CI) as Ge. cbn [fst snd] in Ge.
    apply LInv_prune; auto; try lia. intros i X. apply range_f; auto.
  - apply deleteUntilFiles_eq in E as (d & m & Q & A & [(_ & -> & _)|(B & C & ->)]); auto. injection Q as <- <-. pose proof (c_ge _ CI) as Ge. cbn [fst snd] in Ge.
    apply LInv_prune; auto; try lia. intros i X. rewrite range_f; auto.
  - unfold compact. destruct ((if i then d_imm d0 else d_lat d0) c k) as [v|]; auto. destruct (mayDrop (m_gen m0) v); auto.
    destruct (keys_frame [if i then WImm c k None else WLat c k None]) with (d := d0) as (A & B & C & _ & E); [destruct i; auto|]. eapply LInv_same; eauto.
  - cbn [fst] in *. apply storeRevert_CInv in CI. destruct (storeRevert_frame d0) as (A & _). rewrite <- E in CI, A. pose proof (open_ok _ CI) as Op. cbn [fst snd] in Op. rewrite Op in O. injection O as <-.
    destruct LI as [Fu Fi Li]. cbn [fst snd] in *. constructor; cbn [fst snd m_future m_last m_gen]; unfold calcDigest; rewrite ?A; auto. discriminate.
  - destruct LI as [Fu Fi Li]. constructor; auto.
Qed.

Lemma deleteLast_eq s s' : CInv s -> deleteLast s = Some s' -> exists d m ks, s = (d, m) /\ 0 < m_gen m < m_last m /\ forallb isKey ks = true /\
  mget (d_rec d) (m_last m) = Some (ks ++ [WBlockDel (m_last m)]) /\
  s' = (setBlocks (applyB d ks) (mdel (d_blocks d) (m_last m)), setBlockId m (m_last m - 1)) .
Proof.
  intros [Ge Z In Out N0 G S0 Rc]. destruct s as [d m]. unfold deleteLast. cbn [fst snd] in *. destruct (Nat.eqb_spec (m_last m) 0); [discriminate|]. destruct (Nat.eqb_spec (m_last m) (m_gen m)); [discriminate|].
  cbn [orb]. destruct (mget (d_rec d) (m_last m)) as [b|] eqn:R; [|discriminate]. intros E; injection E as <-. destruct (Rc _ _ R) as (ks & K & ->).
  exists d, m, ks. repeat split; auto; try lia. rewrite applyB_app. cbn. destruct (keys_frame ks K d) as (A & _). rewrite A. auto.
Qed.
Lemma deleteLast_CInv s s' : CInv s -> deleteLast s = Some s' -> CInv s'.
Proof.
  intros CI E. pose proof CI as [Ge Z In Out N0 G S0 Rc]. destruct (deleteLast_eq _ _ CI E) as (d & m & ks & -> & A & K & R & ->). destruct (keys_frame ks K d) as (B1 & B2 & B3 & B4 & B5). cbn [fst snd] in *.
  constructor; cbn [fst snd d_blocks d_st d_gen d_rec setBlocks m_last m_gen setBlockId]; rewrite ?B1, ?B2, ?B3, ?B5; auto; destruct (Nat.eqb_spec (m_gen m) 0); try lia.
  - intros i X Y W. rewrite mget_del. destruct (Nat.eqb_spec i (m_last m)); [lia|]. apply In; lia.
  - intros i X. rewrite mget_del. destruct (Nat.eqb_spec i (m_last m)); auto. apply Out; lia.
  - rewrite mget_del. destruct (0 =? m_last m); auto.
  - destruct (d_gen d); auto. intros i X. rewrite mget_del. destruct (i =? m_last m); auto.
Qed.
Lemma deleteLast_LInv s s' : CInv s -> LInv s -> m_future (snd s) = None -> deleteLast s = Some s' -> LInv s'.
Proof.
  intros CI LI FN E. destruct (deleteLast_eq _ _ CI E) as (d & m & ks & -> & A & K & R & ->). destruct LI as [Fu Fi Li]. cbn [fst snd] in *.
  constructor; cbn [fst snd d_blocks setBlocks m_last m_gen m_future setBlockId]; destruct (Nat.eqb_spec (m_gen m) 0); try lia.
  - rewrite FN. discriminate.
  - intros b X. rewrite mget_del. destruct (1 =? m_last m); [discriminate|]. apply Fi; auto.
  - intros i b X Y. rewrite mget_del. destruct (Nat.eqb_spec i (m_last m)); [lia|]. intros W. apply Li in W; auto; [|lia].
    rewrite <- W. unfold calcDigest. cbn [d_blocks setBlocks]. rewrite mget_del. destruct (Nat.eqb_spec (i - 1) (m_last m)); [lia|]. auto.
Qed.

Lemma init_CInv : CInv (emptyDisk, {| m_last := 0; m_gen := 0; m_future := None; m_stlast := 0; m_sn := None |}).
Proof. constructor; cbn; auto; intros; try discriminate; try lia; auto. Qed.
Theorem run_CInv P s : run H seqOf P s -> CInv s.
Proof. induction 1; [apply init_CInv|eapply step_CInv; eauto|eapply deleteLast_CInv; eauto]. Qed.
Theorem run_LInv s : run H seqOf (fun s => m_future (snd s) = None) s -> LInv s.
Proof.
  induction 1 as [|s s' R IH St|s s' R IH Pn E].
  - constructor; cbn; intros; try discriminate; lia.
  - eapply step_LInv; eauto. eapply run_CInv; eauto.
  - eapply deleteLast_LInv; eauto. eapply run_CInv; eauto.
Qed.
End Inv.
