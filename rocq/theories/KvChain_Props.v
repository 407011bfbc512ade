(** C15 (categorized storage): property theorems. *)
From Coq Require Import List Arith NArith Lia Bool.
From Verif Require Import Lib_Bytes Keys_Model Keys_Proofs Lib_CF Versioned_Model Versioned_Proofs Versioned_Props Immutable_Model Immutable_Proofs
  KvChain_Model KvChain_Proofs KvChain_Proofs2 KvChain_Proofs3 KvChain_Proofs4 KvChain_Proofs5.
Import ListNotations.
Local Open Scope N_scope.

Section Defs.
(** The categories are known and the internal one is versioned (kv_blockchain.cpp:50-54). *)
Definition okCats (ct : list (bytes * ctype)) : Prop := cfGet ct cInternal = Some TV.
End Defs.

(** For every execution (blocks added, adds that fail, pruning, reverted last blocks, blocks received, deleted and linked, restarts at any
    point): the blocks of the chain are exactly those between the genesis id and the last id, and the raw block read back is the function
    [specRaw] of the updates of the blocks up to it: it does not depend on pruning, restarts, caches or how the blocks arrived. *)
Theorem C15_cat_chain : forall H HD ct h s, krun H HD ct h s ->
  m_last (snd s) = klen h /\ m_gen (snd s) = (if klen h =? 0 then 0 else kg h) /\ 1 <= kg h <= N.max 1 (klen h) /\
  (forall i, i <= klen h -> (hasBlock s i = true <-> kg h <= i)) /\
  (forall i, kg h <= i <= klen h -> getRaw s i = Some (Some (specRaw H HD (upds h) i))).
Proof.
  intros H HD ct h s R. pose proof (krun_KI _ _ _ _ _ R) as I. split; [apply I|]. split; [apply I|]. split; [apply I|]. split.
  - intros i Li. unfold hasBlock. rewrite (iLast _ _ _ _ _ I). destruct (N.ltb_spec (klen h) i); [lia|]. rewrite (iBlk _ _ _ _ _ I).
    destruct (N.leb_spec (kg h) i), (N.leb_spec i (klen h)); cbn [andb option_map]; split; try discriminate; auto; lia.
  - intros i Ri. eapply getRaw_ok; eauto.
Qed.
Print Assumptions C15_cat_chain.

(** Every block names the digest of the block before it; block 1 names the zero digest. *)
Theorem C15_cat_hash_link : forall H HD ct h s, krun H HD ct h s ->
  (forall i, kg h < i <= klen h -> exists d, blockDigest HD s (i - 1) = Some (Some d) /\ parentDigest s i = Some d) /\
  (kg h = 1 -> 1 <= klen h -> parentDigest s 1 = Some zeroD).
Proof.
  intros H HD ct h s R. pose proof (krun_KI _ _ _ _ _ R) as I. pose proof (iKg _ _ _ _ _ I) as Kg. split.
  - intros i Ri. exists (HD (i - 1) (specRaw H HD (upds h) (i - 1))). split.
    + unfold blockDigest. rewrite (getRaw_ok _ _ _ _ _ (i - 1) I) by lia. auto.
    + unfold parentDigest. rewrite (iLast _ _ _ _ _ I). destruct (N.ltb_spec (klen h) i); [lia|]. rewrite (blk_in _ _ _ _ _ i I) by lia. cbn [option_map specBlock b_parent].
      rewrite <- specParent_S by lia. repeat f_equal. lia.
  - intros K1 L. unfold parentDigest. rewrite (iLast _ _ _ _ _ I). destruct (N.ltb_spec (klen h) 1); [lia|]. rewrite (blk_in _ _ _ _ _ 1 I) by lia. reflexivity.
Qed.
Print Assumptions C15_cat_hash_link.

(** Two replicas whose chains hold the same updates up to block [i] hold the same raw block [i] with the same digest, whatever else happened to each. *)
Theorem C15_cat_replicas_agree : forall H HD ct h1 s1 h2 s2 i, krun H HD ct h1 s1 -> krun H HD ct h2 s2 ->
  kg h1 <= i <= klen h1 -> kg h2 <= i <= klen h2 -> firstn (N.to_nat i) (upds h1) = firstn (N.to_nat i) (upds h2) ->
  getRaw s1 i = getRaw s2 i /\ blockDigest HD s1 i = blockDigest HD s2 i.
Proof.
  intros H HD ct h1 s1 h2 s2 i R1 R2 L1 L2 E. pose proof (krun_KI _ _ _ _ _ R1) as I1. pose proof (krun_KI _ _ _ _ _ R2) as I2. pose proof (iKg _ _ _ _ _ I1).
  assert (X : getRaw s1 i = getRaw s2 i).
  { rewrite (getRaw_ok _ _ _ _ _ i I1), (getRaw_ok _ _ _ _ _ i I2) by auto. do 2 f_equal.
    rewrite <- (firstn_skipn (N.to_nat i) (upds h1)), <- (firstn_skipn (N.to_nat i) (upds h2)), E. unfold klen in *.
    rewrite !specRaw_app by (rewrite firstn_length, upds_length; lia). auto. }
  split; auto. unfold blockDigest. rewrite X. auto.
Qed.
Print Assumptions C15_cat_replicas_agree.

(** Adding a block: succeeds for well-formed updates, appends exactly one block, and leaves the blocks before it as they are. *)
Theorem C15_cat_add : forall H HD ct h s u u', krun H HD ct h s -> addGenesisKey (m_gen (snd s)) u = Some u' -> okUpd ct (upds h) u' ->
  exists s', addBlock H HD u s = Some s' /\ m_last (snd s') = m_last (snd s) + 1 /\ d_st (fst s') = d_st (fst s) /\
    getRaw s' (m_last (snd s')) = Some (Some (specRaw H HD (upds h ++ [u']) (m_last (snd s')))) /\
    (forall i, i <= m_last (snd s) -> hasBlock s' i = hasBlock s i /\ (hasBlock s i = true -> getRaw s' i = getRaw s i)).
Proof.
  intros H HD ct h s u u' R G Ok. pose proof (krun_KI _ _ _ _ _ R) as I. pose proof (C15_cat_chain _ _ _ _ _ R) as (A1 & A2 & A3 & A4 & A5).
  destruct (KI_add H HD ct h s u' (d_st (fst s)) I Ok) as (s' & E & I' & Ds & _).
  { assert (Kl : klen h < tagBit) by (destruct Ok as (_ & _ & _ & _ & _ & T); rewrite upds_length in T; unfold klen; lia).
    pose proof tagBit_le. rewrite (recGen_add (m_gen (snd s)) u u'); auto; rewrite A2; destruct (N.eqb_spec (klen h) 0); lia. }
  assert (Ea : addBlock H HD u s = Some s') by (unfold addBlock; rewrite G; auto).
  pose proof (C15_cat_chain _ _ _ _ _ (KAdd H HD ct h s u u' s' R G Ok Ea)) as (B1 & B2 & B3 & B4 & B5). rewrite klen_add, upds_add in *.
  change (kg (kadd h u')) with (kg h) in *. exists s'. split; auto. split; [rewrite B1, A1; auto|]. split; auto. split; [rewrite B1; apply B5; lia|].
  intros i Li. rewrite A1 in Li. specialize (A4 i ltac:(lia)). specialize (B4 i ltac:(lia)). split.
  - destruct (hasBlock s' i), (hasBlock s i); auto; intuition congruence.
  - intros Hb. apply A4 in Hb. rewrite A5, B5 by lia. rewrite specRaw_app; auto. rewrite upds_length. unfold klen in *. lia.
Qed.
Print Assumptions C15_cat_add.

(** A restart (after a crash between any two writes) finds the same chain. *)
Theorem C15_cat_restart : forall H HD ct h s, krun H HD ct h s -> let s' := (fst s, open (fst s)) in
  m_gen (snd s') = m_gen (snd s) /\ m_last (snd s') = m_last (snd s) /\ forall i, i <= m_last (snd s) -> hasBlock s' i = hasBlock s i /\ getRaw s' i = getRaw s i.
Proof.
  intros H HD ct h s R s'. pose proof (krun_KI _ _ _ _ _ R) as I. destruct (open_ok _ _ _ _ _ I) as [A B]. split; auto. split; auto.
  intros i Li. unfold hasBlock, getRaw, s'. cbn [fst snd]. rewrite B. destruct (N.ltb_spec (m_last (snd s)) i); [lia|]. auto.
Qed.
Print Assumptions C15_cat_restart.

(** deleteBlock, all cases: ids outside of the chain are refused without effect; a received block is removed from the received ones; the only
    block cannot be deleted; the last block is reverted; the genesis block is pruned; a block in the middle cannot be deleted. *)
Theorem C15_cat_delete : forall H HD ct h s id, krun H HD ct h s ->
  (id = 0 \/ id < m_gen (snd s) \/ latestId (snd s) < id -> deleteBlock id s = Some (false, s)) /\
  (id <> 0 -> m_gen (snd s) <= id <= latestId (snd s) ->
    (m_last (snd s) < id -> exists s', deleteBlock id s = Some (true, s') /\ krun H HD ct h s' /\ snd (deleteSt id s) = snd s' /\
        forall i, nget (d_st (fst s')) i = if i =? id then None else nget (d_st (fst s)) i) /\
    (id = m_last (snd s) -> id = m_gen (snd s) -> deleteBlock id s = None) /\
    (id = m_last (snd s) -> m_gen (snd s) < id -> (forall c, cfGet ct c = Some TV -> safeRevert (projV c h)) ->
        exists s', deleteBlock id s = Some (true, s') /\ krun H HD ct {| kb := removelast (kb h); kg := kg h |} s') /\
    (id = m_gen (snd s) -> id < m_last (snd s) -> exists s', deleteBlock id s = Some (true, s') /\ krun H HD ct {| kb := kb h; kg := kg h + 1 |} s') /\
    (m_gen (snd s) < id < m_last (snd s) -> deleteBlock id s = None)).
Proof.
  intros H HD ct h s id R. pose proof (krun_KI _ _ _ _ _ R) as I. pose proof (C15_cat_chain _ _ _ _ _ R) as (A1 & A2 & A3 & _). split.
  - intros C. unfold deleteBlock. destruct (N.eqb_spec id 0); auto. destruct (N.ltb_spec id (m_gen (snd s))); auto. cbn [orb].
    destruct (N.ltb_spec (latestId (snd s)) id); [rewrite orb_true_r; auto|lia].
  - intros Z0 Rg. assert (P : deleteBlock id s =
        if m_last (snd s) <? id then Some (true, deleteSt id s)
        else if (id =? m_last (snd s)) && (id =? m_gen (snd s)) then None
        else if id =? m_last (snd s) then option_map (pair true) (deleteLast s)
        else if id =? m_gen (snd s) then option_map (pair true) (deleteGenesis s) else None).
    { unfold deleteBlock. destruct (N.eqb_spec id 0); [lia|]. destruct (N.ltb_spec id (m_gen (snd s))); [lia|]. cbn [orb].
      destruct (N.eqb_spec (latestId (snd s)) 0); [lia|]. destruct (N.ltb_spec (latestId (snd s)) id); [lia|]. auto. }
    rewrite P. clear P. split; [|split; [|split; [|split]]].
    + intros L. destruct (N.ltb_spec (m_last (snd s)) id); [|lia]. exists (deleteSt id s). split; auto. split; [apply KStDel; auto|]. split; auto.
      intros i. unfold deleteSt. cbn [fst d_st]. apply nget_del.
    + intros E1 E2. destruct (N.ltb_spec (m_last (snd s)) id); [lia|]. rewrite <- E1, <- E2, N.eqb_refl. auto.
    + intros E1 E2 Sr. destruct (N.ltb_spec (m_last (snd s)) id); [lia|]. destruct (N.eqb_spec id (m_last (snd s))); [|lia]. destruct (N.eqb_spec id (m_gen (snd s))); [lia|]. cbn [andb].
      destruct (KI_last H HD ct h s I Sr) as [G1 _]. destruct G1 as (s' & E). { rewrite <- A1, <- E1. destruct (N.eqb_spec (klen h) 0); lia. }
      exists s'. rewrite E. split; auto. eapply KLast; eauto.
    + intros E1 E2. destruct (N.ltb_spec (m_last (snd s)) id); [lia|]. destruct (N.eqb_spec id (m_last (snd s))); [lia|]. destruct (N.eqb_spec id (m_gen (snd s))); [|lia]. cbn [andb].
      destruct (KI_gen H HD ct h s I) as [G1 _]. destruct G1 as (s' & E). { destruct (N.eqb_spec (klen h) 0); lia. }
      exists s'. rewrite E. split; auto. eapply KGenesis; eauto.
    + intros E. destruct (N.ltb_spec (m_last (snd s)) id); [lia|]. destruct (N.eqb_spec id (m_last (snd s))); [lia|]. destruct (N.eqb_spec id (m_gen (snd s))); [lia|]. auto.
Qed.
Print Assumptions C15_cat_delete.

(** Reads of a category on the chain are the reads of C13 and C14 on the inputs the blocks carried for that category. *)
Theorem C15_cat_reads : forall H HD ct h s c, krun H HD ct h s ->
  (cfGet ct c = Some TV -> (forall k, latestSpec (projV c h) k (kGetLatest s c k)) /\
     (forall k b, kg h <= b <= klen h -> kGet s c k b = match writeOf (vin c (nth (N.to_nat b - 1) (upds h) [])) k with Some (Wrote d _) => Some (b, d) | _ => None end)) /\
  (cfGet ct c = Some TI -> forall k b d,
     (kGetLatest s c k = Some (b, d) <-> kg h <= b <= klen h /\ exists tags, In (k, (d, tags)) (ikv (iin c (nth (N.to_nat b - 1) (upds h) []))))).
Proof.
  intros H HD ct h s c R. pose proof (krun_KI _ _ _ _ _ R) as I. pose proof (iKg _ _ _ _ _ I) as Kg. split.
  - intros T. destruct (iV _ _ _ _ _ I c T) as (x & Ex & Ix). unfold kGetLatest, kGet. rewrite Ex. split.
    + intros k. apply (read_latest H _ _ k Ix).
    + intros k b Rb. pose proof (read_at H _ _ k b Ix) as X. cbn [st] in X. rewrite X by (rewrite projV_len; cbn [projV hgen]; lia).
      rewrite projV_at by lia. replace (N.to_nat (b - 1)) with (N.to_nat b - 1)%nat by lia. auto.
  - intros T k b d. destruct (iI _ _ _ _ _ I c T) as (x & Ex & Ix). unfold kGetLatest. rewrite Ex. pose proof (jVal _ _ _ Ix k b d) as X. cbn [ist] in X.
    unfold igetLatest. rewrite X. unfold wrote. split.
    + intros (tags & i & A & B). apply projI_In in A. destruct A as (A1 & A2 & ->). split; auto. exists tags. replace (N.to_nat b - 1)%nat with (N.to_nat (b - 1)) by lia. auto.
    + intros (A & tags & B). exists tags. eexists. split; [apply projI_In; split; [exact A|split; [lia|reflexivity]]|]. replace (N.to_nat (b - 1)) with (N.to_nat b - 1)%nat by lia. auto.
Qed.
Print Assumptions C15_cat_reads.

(** * State transfer *)
(** The replica holds a prefix of the source's chain, and the blocks it received are raw blocks served by the source. *)
Definition receivedFrom (hs : khist) (src : state) (h : khist) (s : state) : Prop :=
  upds h = firstn (length (upds h)) (upds hs) /\ forall i r, m_last (snd s) < i -> getRaw s i = Some (Some r) -> kg hs <= i <= klen hs /\ getRaw src i = Some (Some r).
(** The last received block links all received blocks up to the first missing one, and what is linked is the source's chain. *)
Lemma source_ok H HD ct hs src h s : krun H HD ct hs src -> krun H HD ct h s -> receivedFrom hs src h s -> okChain ct (upds hs) /\ fromSource (upds hs) h s.
Proof.
  intros Rs R [F1 F2]. pose proof (krun_KI _ _ _ _ _ Rs) as Is. pose proof (krun_KI _ _ _ _ _ R) as I. pose proof (iKg _ _ _ _ _ Is). split; [exact (iOk _ _ _ _ _ Is)|]. split; auto.
  intros i r Li E. destruct (F2 i r) as [A B]; [rewrite (iLast _ _ _ _ _ I); auto|unfold getRaw; rewrite (iLast _ _ _ _ _ I); destruct (N.ltb_spec (klen h) i); [rewrite E; auto|lia]|].
  rewrite (getRaw_ok _ _ _ _ _ i Is A) in B. injection B as <-. split; [rewrite upds_length; unfold klen in *; lia|reflexivity].
Qed.
Lemma linked_is_source H HD ct hs src h' s' i : krun H HD ct hs src -> krun H HD ct h' s' -> upds h' = firstn (length (upds h')) (upds hs) ->
  kg hs <= i -> kg h' <= i <= klen h' -> getRaw s' i = getRaw src i.
Proof.
  intros Rs R F L1 L2. assert (Ll : (length (upds h') <= length (upds hs))%nat) by (rewrite F, firstn_length; lia).
  assert (Ks : klen h' <= klen hs) by (rewrite !upds_length in Ll; unfold klen; lia).
  apply (C15_cat_replicas_agree H HD ct h' s' hs src i); auto; [lia|]. rewrite F, firstn_firstn. f_equal. rewrite upds_length. unfold klen in *. lia.
Qed.
Theorem C15_cat_link : forall H HD ct hs src h s id r, okCats ct -> krun H HD ct hs src -> krun H HD ct h s -> receivedFrom hs src h s ->
  m_last (snd s) < id -> kg hs <= id <= klen hs -> getRaw src id = Some (Some r) -> (forall i, id < i -> hasBlock s i = false) ->
  exists s' h', addRaw H HD id r true s = Some s' /\ krun H HD ct h' s' /\ upds h' = firstn (length (upds h')) (upds hs) /\
    klen h <= klen h' /\ kg h <= kg h' /\
    (forall i, klen h < i <= klen h' -> i = id \/ hasBlock s i = true) /\ klen h' + 1 <> id /\ hasBlock s (klen h' + 1) = false /\
    (forall i, kg hs <= i -> kg h' <= i <= klen h' -> getRaw s' i = getRaw src i).
Proof.
  intros H HD ct hs src h s id r Tc Rs R Fs Li Ri Er Top. pose proof (krun_KI _ _ _ _ _ R) as I. pose proof (iLast _ _ _ _ _ I) as La.
  assert (Hb : forall i, klen h < i -> (hasBlock s i = true <-> nget (d_st (fst s)) i <> None)).
  { intros i L. unfold hasBlock. rewrite La. destruct (N.ltb_spec (klen h) i); [|lia]. destruct (nget (d_st (fst s)) i); cbn [option_map]; split; congruence. }
  set (s0 := stPut id r s). assert (R0 : krun H HD ct h s0) by (apply KStPut; auto).
  assert (F0 : receivedFrom hs src h s0).
  { destruct Fs as [F1 F2]. split; auto. intros i r0 L E. unfold s0 in *. change (m_last (snd s) < i) in L. unfold getRaw, stPut in E. cbn [snd fst setSt m_last d_st] in *. destruct (N.ltb_spec (m_last (snd s)) i); [|lia].
    rewrite nget_put in E. destruct (N.eqb_spec i id) as [->|Ni].
    - injection E as <-. auto.
    - apply F2; auto. unfold getRaw. destruct (N.ltb_spec (m_last (snd s)) i); [auto|lia]. }
  destruct (source_ok _ _ _ _ _ _ _ Rs R0 F0) as [Oc Fs0].
  assert (Ti : cfGet ct cInternal <> Some TI) by (unfold okCats in Tc; congruence).
  destruct (linkFrom_ok H HD ct (upds hs) h s0 Ti Oc R0 Fs0) as (s' & h' & E & R' & F' & L1 & L2 & L3 & L4 & _).
  { intros i L N. unfold s0, stPut in *. cbn [fst snd d_st setSt m_stlast] in *. rewrite nget_put in N. destruct (N.eqb_spec i id); [lia|].
    destruct (N.ltb_spec id i) as [G|G]; [|lia]. apply Hb in N; [|lia]. rewrite Top in N by lia. discriminate. }
  exists s', h'. assert (D0 : forall i, nget (d_st (fst s0)) i = if i =? id then Some r else nget (d_st (fst s)) i) by (intros i; unfold s0, stPut; cbn [fst d_st]; apply nget_put).
  split. { unfold addRaw. destruct (N.leb_spec id (m_last (snd s))); [lia|]. rewrite La. exact E. }
  split; auto. split; [apply F'|]. split; auto. split; auto. split.
  - intros i L. specialize (L3 i L). rewrite D0 in L3. destruct (N.eqb_spec i id); auto. right. apply Hb; auto. lia.
  - rewrite D0 in L4. destruct (N.eqb_spec (klen h' + 1) id); [discriminate|]. split; auto. split.
    + unfold hasBlock. rewrite La. destruct (N.ltb_spec (klen h) (klen h' + 1)); [|lia]. rewrite L4. auto.
    + intros i A B. eapply linked_is_source; eauto. apply F'.
Qed.
Print Assumptions C15_cat_link.

(** A start after a crash (also in the middle of linking) links the received blocks up to the first missing one. *)
Theorem C15_cat_start_links : forall H HD ct hs src h s, okCats ct -> krun H HD ct hs src -> krun H HD ct h s -> receivedFrom hs src h s ->
  exists s' h', start H HD (fst s) = Some s' /\ krun H HD ct h' s' /\ upds h' = firstn (length (upds h')) (upds hs) /\ klen h <= klen h' /\ kg h <= kg h' /\
    (forall i, klen h < i <= klen h' -> hasBlock s i = true) /\ hasBlock s (klen h' + 1) = false /\
    (forall i, kg hs <= i -> kg h' <= i <= klen h' -> getRaw s' i = getRaw src i).
Proof.
  intros H HD ct hs src h s Tc Rs R Fs. pose proof (krun_KI _ _ _ _ _ R) as I. pose proof (iLast _ _ _ _ _ I) as La. destruct (open_ok _ _ _ _ _ I) as [_ Lo].
  set (s0 := (fst s, open (fst s))). assert (R0 : krun H HD ct h s0) by (apply KRestart; auto).
  assert (F0 : receivedFrom hs src h s0).
  { destruct Fs as [F1 F2]. split; auto. intros i r L E. unfold s0 in *. cbn [snd fst] in *. rewrite Lo in L. apply F2; auto. revert E. unfold getRaw. cbn [fst snd]. rewrite Lo.
    destruct (N.ltb_spec (m_last (snd s)) i); [auto|lia]. }
  destruct (source_ok _ _ _ _ _ _ _ Rs R0 F0) as [Oc Fs0].
  assert (Ti : cfGet ct cInternal <> Some TI) by (unfold okCats in Tc; congruence).
  destruct (linkFrom_ok H HD ct (upds hs) h s0 Ti Oc R0 Fs0) as (s' & h' & E & R' & F' & L1 & L2 & L3 & L4 & _).
  { intros i L N. unfold s0. cbn [snd open m_stlast]. apply maxId_spec. exact N. }
  exists s', h'. split. { unfold start. rewrite Lo, La. exact E. } split; auto. split; [apply F'|]. split; auto. split; auto. split; [|split].
  - intros i L. specialize (L3 i L). unfold hasBlock. rewrite La. destruct (N.ltb_spec (klen h) i); [|lia]. unfold s0 in L3. cbn [fst] in L3. destruct (nget _ i); [auto|congruence].
  - unfold hasBlock. rewrite La. destruct (N.ltb_spec (klen h) (klen h' + 1)); [|lia]. unfold s0 in L4. cbn [fst] in L4. rewrite L4. auto.
  - intros i A B. eapply linked_is_source; eauto. apply F'.
Qed.
Print Assumptions C15_cat_start_links.

(** * The hypotheses are met *)
Definition cI : bytes := [105]. Definition cV : bytes := [118].
Definition ct1 : list (bytes * ctype) := [(cInternal, TV); (cI, TI); (cV, TV)].
Definition u1 : updates := [(cI, CI {| ikv := [([1], ([10], [[7]; [8]]))]; iwant := true |}); (cV, CV {| kv := [([1], ([11], false)); ([2], ([12], true))]; dels := []; wantHash := true |})].
Definition u2 : updates := [(cI, CI {| ikv := [([2], ([20], [[7]]))]; iwant := false |}); (cV, CV {| kv := [([2], ([22], false))]; dels := [[1]]; wantHash := true |})].
Definition u3 : updates := [(cI, CI {| ikv := [([1], ([30], []))]; iwant := false |})].
Definition gen (g : N) (u : updates) : updates := match addGenesisKey g u with Some u => u | None => [] end.
(** A decision procedure for [okUpd]. *)
Fixpoint sortedB {X} (m : list (bytes * X)) : bool := match m with [] => true | e :: m => forallb (fun e' => blt (fst e) (fst e')) m && sortedB m end.
Fixpoint nodupB (l : list bytes) : bool := match l with [] => true | k :: l => negb (existsb (beqb k) l) && nodupB l end.
Definition goodB (i : vinput) : bool :=
  nodupB (map fst (kv i)) && nodupB (dels i) && forallb (fun k => negb (existsb (beqb k) (map fst (kv i)))) (dels i)
  && forallb (fun k => N.of_nat (length k) <? 256 ^ 4) (dels i ++ map fst (kv i)) && sortedB (kv i) && sortedB (map (fun k => (k, tt)) (dels i)).
Definition isT (ct : list (bytes * ctype)) c t : bool := match cfGet ct c, t with Some TV, TV | Some TI, TI => true | _, _ => false end.
Definition okB (ct : list (bytes * ctype)) (us : list updates) (u : updates) : bool :=
  sortedB u && forallb (fun e => match snd e with
    | CV i => isT ct (fst e) TV && goodB i
    | CI i => isT ct (fst e) TI && sortedB (ikv i) && forallb (fun x => nodupB (snd (snd x))
        && forallb (fun u' => match cfGet (ikv (iin (fst e) u')) (fst x) with None => true | _ => false end) (skipn (N.to_nat (recGen u) - 1) us)) (ikv i)
    end) u && (recGen u <=? N.max 1 (N.of_nat (length us))) && (N.of_nat (length us) + 1 <? tagBit).
Lemma sortedB_ok {X} (m : list (bytes * X)) : sortedB m = true -> sorted m.
Proof. induction m as [|e m IH]; cbn [sortedB sorted]; auto. intros E. apply andb_true_iff in E. destruct E as [A B]. rewrite forallb_forall in A. auto. Qed.
Lemma nodupB_ok l : nodupB l = true -> NoDup l.
Proof.
  induction l as [|k l IH]; cbn [nodupB]; [constructor|]. intros E. apply andb_true_iff in E. destruct E as [A B]. constructor; auto. intros C. apply existsb_In in C. rewrite C in A. discriminate.
Qed.
Lemma okB_ok ct us u : okB ct us u = true -> okUpd ct us u.
Proof.
  unfold okB. intros E. repeat (apply andb_true_iff in E; destruct E as [E ?]). rewrite forallb_forall in H1. apply N.leb_le in H0. apply N.ltb_lt in H. rename H1 into F.
  split; [apply sortedB_ok; auto|]. split; [|split; [|split; [|split; auto]]].
  - intros c x Ec. apply cfGet_In in Ec. apply F in Ec. cbn [snd fst] in Ec. destruct x; repeat (apply andb_true_iff in Ec; destruct Ec as [Ec ?]); unfold isT in Ec; destruct (cfGet ct c) as [[]|]; auto; discriminate.
  - intros c i Ec. apply cfGet_In in Ec. apply F in Ec. cbn [snd fst] in Ec. apply andb_true_iff in Ec. destruct Ec as [_ G]. unfold goodB in G. repeat (apply andb_true_iff in G; destruct G as [G ?]).
    rewrite forallb_forall in H3, H4. split; [|split; apply sortedB_ok; auto]. split; [apply nodupB_ok; auto|]. split; [apply nodupB_ok; auto|]. split.
    + intros k Ik Jk. specialize (H4 k Ik). apply existsb_In in Jk. rewrite Jk in H4. discriminate.
    + intros k Ik. apply N.ltb_lt. apply H3. apply in_app_iff. auto.
  - intros c i Ec. apply cfGet_In in Ec. apply F in Ec. cbn [snd fst] in Ec. repeat (apply andb_true_iff in Ec; destruct Ec as [Ec ?]). split; [apply sortedB_ok; auto|].
    intros k d tags Ik. rewrite forallb_forall in H1. specialize (H1 _ Ik). cbn [fst snd] in H1. apply andb_true_iff in H1. destruct H1 as [A B]. split; [apply nodupB_ok; auto|].
    intros j Lj. rewrite forallb_forall in B. destruct (le_lt_dec (length us) j) as [G|G]; [rewrite nth_overflow; auto|].
    specialize (B (nth j us [])). destruct (cfGet (ikv (iin c (nth j us []))) k); auto. assert (true = false); [|discriminate]. symmetry. apply B.
    apply skipn_In. exists j. split; auto. apply nth_error_nth'. auto.
Qed.
Example ok1 : okUpd ct1 [] (gen 0 u1). Proof. apply okB_ok. vm_compute. reflexivity. Qed.
Example ok2 : okUpd ct1 [gen 0 u1] (gen 1 u2). Proof. apply okB_ok. vm_compute. reflexivity. Qed.
(** u3 writes the immutable key of u1 again: allowed after block 1 is pruned, not before. *)
Example ok3 : okUpd ct1 [gen 0 u1; gen 1 u2] (gen 2 u3). Proof. apply okB_ok. vm_compute. reflexivity. Qed.
Example notok3 : okB ct1 [gen 0 u1; gen 1 u2] (gen 1 u3) = false. Proof. vm_compute. reflexivity. Qed.
Lemma ex_add H HD h s u g u' : krun H HD ct1 h s -> (if klen h =? 0 then 0 else kg h) = g -> addGenesisKey g u = Some u' -> okUpd ct1 (upds h) u' -> exists s', krun H HD ct1 (kadd h u') s' /\ d_st (fst s') = d_st (fst s).
Proof.
  intros R G A Ok. destruct (C15_cat_chain _ _ _ _ _ R) as (_ & Gn & _). rewrite <- G, <- Gn in A. destruct (C15_cat_add H HD ct1 h s u u' R A Ok) as (s' & E & _ & D & _). exists s'. split; auto. eapply KAdd; eauto.
Qed.
(** Two blocks, block 1 pruned, a restart, block 3 writes an immutable key of the pruned block. *)
Example ex_source : forall H HD, exists h s, krun H HD ct1 h s /\ kg h = 2 /\ upds h = [gen 0 u1; gen 1 u2; gen 2 u3] /\
  kGetLatest s cI [1] = Some (3, [30]) /\ kGetLatest s cV [1] = None /\ kGetLatest s cV [2] = Some (2, [22]).
Proof.
  intros H HD. destruct (ex_add H HD hinit (init ct1) u1 0 (gen 0 u1) (K0 _ _ _) eq_refl eq_refl ok1) as (s1 & R1 & _).
  destruct (ex_add H HD _ s1 u2 1 (gen 1 u2) R1 eq_refl eq_refl ok2) as (s2 & R2 & _).
  destruct (KI_gen H HD _ _ _ (krun_KI _ _ _ _ _ R2)) as [G _]. destruct G as (s3 & E3); [reflexivity|]. pose proof (KGenesis _ _ _ _ _ _ R2 E3) as R3. apply KRestart in R3.
  destruct (ex_add H HD _ _ u3 2 (gen 2 u3) R3 eq_refl eq_refl ok3) as (s4 & R4 & _). eexists. exists s4. split; [exact R4|]. split; [reflexivity|]. split; [reflexivity|].
  destruct (C15_cat_reads H HD ct1 _ s4 cI R4) as [_ X]. destruct (C15_cat_reads H HD ct1 _ s4 cV R4) as [Y _]. destruct (Y eq_refl) as [Y1 _]. split; [|split].
  - apply (X eq_refl). split; [split; vm_compute; discriminate|]. exists []. left. reflexivity.
  - apply (C13_latest_unique _ _ _ _ (Y1 [1])). right. exists 2. split; [|left; reflexivity].
    split; [vm_compute; discriminate|]. split; [vm_compute; discriminate|]. intros q Q. change (2 < q <= 3) in Q. replace q with 3 by lia. reflexivity.
  - apply (C13_latest_unique _ _ _ _ (Y1 [2])). split; [|exists false; split; [reflexivity|discriminate]].
    split; [vm_compute; discriminate|]. split; [vm_compute; discriminate|]. intros q Q. change (2 < q <= 3) in Q. replace q with 3 by lia. reflexivity.
Qed.
(** A replica that has block 1 of the source and received block 2, and gets block 3 (which says that the genesis is 2). *)
Example ex_link : forall H HD, exists hs src h s r, krun H HD ct1 hs src /\ krun H HD ct1 h s /\ receivedFrom hs src h s /\ m_last (snd s) = 1 /\
  hasBlock s 2 = true /\ hasBlock s 3 = false /\ getRaw src 3 = Some (Some r) /\ klen hs = 3 /\ kg hs = 2 /\ (forall i, 3 < i -> hasBlock s i = false).
Proof.
  intros H HD. destruct (ex_source H HD) as (hs & src & Rs & Gs & Us & _).
  assert (Ls : klen hs = 3) by (unfold klen; rewrite <- upds_length, Us; reflexivity).
  destruct (ex_add H HD hinit (init ct1) u1 0 (gen 0 u1) (K0 _ _ _) eq_refl eq_refl ok1) as (s1 & R1 & D1). destruct (C15_cat_chain _ _ _ _ _ R1) as (L1 & _).
  change (m_last (snd s1) = 1) in L1. change (d_st (fst s1) = []) in D1. destruct (C15_cat_chain _ _ _ _ _ Rs) as (_ & _ & _ & _ & A5).
  set (r2 := specRaw H HD (upds hs) 2). set (r3 := specRaw H HD (upds hs) 3).
  assert (R2 : krun H HD ct1 (kadd hinit (gen 0 u1)) (stPut 2 r2 s1)) by (apply KStPut; auto; rewrite L1; reflexivity).
  assert (Hl : m_last (snd (stPut 2 r2 s1)) = 1) by exact L1.
  assert (Hg : forall i, nget (d_st (fst (stPut 2 r2 s1))) i = if i =? 2 then Some r2 else None) by (intros i; unfold stPut; cbn [fst d_st]; rewrite nget_put, D1; reflexivity).
  assert (Hh : forall i, 1 < i -> hasBlock (stPut 2 r2 s1) i = (i =? 2)) by (intros i L; unfold hasBlock; rewrite Hl, Hg; destruct (N.ltb_spec 1 i); [|lia]; destruct (i =? 2); reflexivity).
  exists hs, src, (kadd hinit (gen 0 u1)), (stPut 2 r2 s1), r3. split; [exact Rs|]. split; [exact R2|]. split; [|split; [exact Hl|]].
  - split; [rewrite Us; reflexivity|]. rewrite Hl, Ls, Gs. intros i r L E. unfold getRaw in E. rewrite Hl, Hg in E. destruct (N.ltb_spec 1 i); [|lia]. destruct (N.eqb_spec i 2) as [->|]; [|discriminate].
    injection E as <-. split; [lia|]. apply A5. lia.
  - split; [apply Hh; lia|]. split; [apply Hh; lia|]. split; [apply A5; lia|]. split; [exact Ls|]. split; [exact Gs|].
    intros i L. rewrite Hh by lia. destruct (N.eqb_spec i 2); [lia|auto].
Qed.

(** * What happens without the hypotheses *)
(** A key updated and deleted in one block: the digest the next block names depends on whether the replica restarted in between, because the
    raw block rebuilt from storage is not the one that was added. Two replicas that executed the same blocks then disagree. *)
Definition uBad : updates := [(cV, CV {| kv := [([1], ([11], false))]; dels := [[1]]; wantHash := false |})].
Theorem C15_cat_update_and_delete_refuted : forall H HD, exists s1 s2 s2' r r',
  addBlock H HD uBad (init ct1) = Some s1 /\ addBlock H HD u1 s1 = Some s2 /\ addBlock H HD u1 (fst s1, open (fst s1)) = Some s2' /\
  parentDigest s2 2 = Some (HD 1 r) /\ parentDigest s2' 2 = Some (HD 1 r') /\ r <> r' /\ getRaw s2 1 = Some (Some r').
Proof.
  intros H HD. eexists. eexists. eexists. eexists. eexists. split; [vm_compute; reflexivity|]. split; [vm_compute; reflexivity|]. split; [vm_compute; reflexivity|].
  split; [vm_compute; reflexivity|]. split; [vm_compute; reflexivity|]. split; [discriminate|vm_compute; reflexivity].
Qed.
Print Assumptions C15_cat_update_and_delete_refuted.
(** The last block of a state transfer is not linked when a block with the same content is already among the received ones (for instance put
    before a crash as a block that was not the last): putBlock returns true and the chain does not grow. *)
Theorem C15_cat_put_again_does_not_link_refuted : forall H HD r, exists s1,
  putBlock H HD 1 r false (init ct1) = Some s1 /\ putBlock H HD 1 r true s1 = Some s1 /\ m_last (snd s1) = 0.
Proof.
  intros H HD r. exists (stPut 1 r (init ct1)). split; [reflexivity|]. split; [|reflexivity]. unfold putBlock.
  change (hasBlock (stPut 1 r (init ct1)) 1) with true. change (getRaw (stPut 1 r (init ct1)) 1) with (Some (Some r)). cbv iota. destruct (rawEqDec r r); [auto|congruence].
Qed.
Print Assumptions C15_cat_put_again_does_not_link_refuted.
