(** Proofs for the categorized chain (C15), part 5: all executions, linking. *)
From Coq Require Import List Arith NArith Lia Bool.
From Verif Require Import Lib_Bytes Keys_Model Keys_Proofs Lib_CF Versioned_Model Versioned_Proofs Immutable_Model Immutable_Proofs KvChain_Model KvChain_Proofs KvChain_Proofs2 KvChain_Proofs3 KvChain_Proofs4.
Import ListNotations.
Local Open Scope N_scope.
Local Opaque tagBit.

Section Chain.
Variable H : bytes -> bytes.
Variable HD : N -> raw -> bytes.
Notation KI := (KI H HD).
Notation krun := (krun H HD).

(** * Restart *)
Lemma open_ok ct h s : KI ct h s -> m_gen (open (fst s)) = m_gen (snd s) /\ m_last (open (fst s)) = m_last (snd s).
Proof.
  intros I. pose proof (iKg _ _ _ _ _ I) as Kg. pose proof (iBlk _ _ _ _ _ I) as B. rewrite (iGen _ _ _ _ _ I), (iLast _ _ _ _ _ I). cbn [open m_gen m_last].
  assert (B' : forall i, nget (d_blocks (fst s)) i <> None <-> kg h <= i <= klen h).
  { intros i. rewrite B. destruct (N.leb_spec (kg h) i), (N.leb_spec i (klen h)); cbn [andb]; split; try congruence; try lia. }
  assert (Z : nget (d_blocks (fst s)) 0 = None). { destruct (nget (d_blocks (fst s)) 0) eqn:E; auto. assert (X : nget (d_blocks (fst s)) 0 <> None) by congruence. apply B' in X. lia. }
  destruct (maxId_spec (d_blocks (fst s))) as [M1 M2]. destruct (minId_spec (d_blocks (fst s)) Z) as [N1 N2]. destruct (N.eqb_spec (klen h) 0) as [K0|K0].
  - split.
    + destruct N2 as [[_ N2]|[N2 N3]]; auto. apply B' in N3. lia.
    + destruct M2 as [M2|M2]; [lia|]. apply B' in M2. lia.
  - assert (X : nget (d_blocks (fst s)) (klen h) <> None) by (apply B'; lia). assert (Y : nget (d_blocks (fst s)) (kg h) <> None) by (apply B'; lia). split.
    + pose proof (N1 _ Y). destruct N2 as [[N2 _]|[N2 N3]]; [rewrite N2 in Y; cbn in Y; congruence|]. apply B' in N3. lia.
    + pose proof (M1 _ X). destruct M2 as [M2|M2]; [lia|]. apply B' in M2. lia.
Qed.
Lemma KI_mem ct h s d m : KI ct h s -> d_cats d = d_cats (fst s) -> d_blocks d = d_blocks (fst s) -> m_gen m = m_gen (snd s) -> m_last m = m_last (snd s) ->
  (m_cache m = m_cache (snd s) \/ m_cache m = None \/ exists r, m_cache m = Some (m_last m + 1, r)) -> KI ct h (d, m).
Proof.
  intros [] E1 E2 E3 E4 E5. constructor; cbn [fst snd]; rewrite ?E1, ?E2, ?E3, ?E4; auto. destruct E5 as [-> | [-> | (r & ->)]]; auto; [discriminate|].
  intros cid r0 E. injection E as <- <-. split; [lia|]. split; lia.
Qed.

(** * The genesis id recorded by addBlock *)
Lemma assign_eq {X} m k (x : X) : cfGet (assign m k x) k = Some x.
Proof. induction m as [|[k' x'] m IH]; cbn [assign cfGet]; [rewrite beqb_refl; auto|]. destruct (blt k k'); [cbn [cfGet]; rewrite beqb_refl; auto|]. destruct (beqb k k') eqn:E; cbn [cfGet]; [rewrite beqb_refl|rewrite E]; auto. Qed.
Lemma recGen_add g u u' : g < 256 ^ 8 -> addGenesisKey g u = Some u' -> recGen u' = g.
Proof.
  intros L E. unfold addGenesisKey in E. destruct (cfGet (emplace u cInternal (CV emptyV)) cInternal) as [[i|]|]; [|discriminate|discriminate]. injection E as <-.
  unfold recGen, recordedGenesis. rewrite assign_eq. cbn [kv]. rewrite assign_eq. rewrite firstn_all2 by (rewrite be_length; auto). apply unbe_be. auto.
Qed.
Lemma tagBit_le : tagBit < 256 ^ 8. Proof. Local Transparent tagBit. unfold tagBit. Local Opaque tagBit. vm_compute. auto. Qed.

Lemma krun_KI ct h s : krun ct h s -> KI ct h s.
Proof.
  induction 1 as [|h s u u' s' R IH G Ok E|h s r R IH|h s s' R IH E|h s s' R IH Sr E|h s id r R IH L|h s id R IH L|h s r s' R IH G Ok Rg E|h s R IH L|h s R IH].
  - apply KI_init.
  - unfold addBlock in E. rewrite G in E. destruct (KI_add H HD ct h s u' (d_st (fst s)) IH Ok) as (s2 & E2 & I2 & _); [|congruence].
    assert (Kl : klen h < tagBit) by (destruct Ok as (_ & _ & _ & _ & _ & T); rewrite upds_length in T; unfold klen; lia).
    pose proof (iKg _ _ _ _ _ IH). pose proof (iGen _ _ _ _ _ IH) as Gn. pose proof tagBit_le.
    rewrite (recGen_add (m_gen (snd s)) u u'); auto; rewrite Gn; destruct (N.eqb_spec (klen h) 0); lia.
  - eapply KI_mem; eauto. right. right. eexists. reflexivity.
  - apply (KI_gen H HD _ _ _ IH). auto.
  - eapply (KI_last H HD _ _ _ IH); eauto.
  - eapply KI_mem; eauto; cbn; auto.
  - unfold deleteSt. eapply KI_mem; eauto; cbn [snd]; destruct (_ || _); cbn; auto.
  - unfold writeLink in E. destruct (KI_add H HD ct h s (r_upd r) (ndel (d_st (fst s)) (m_last (snd s) + 1)) IH Ok Rg) as (s2 & E2 & I2 & _). congruence.
  - eapply KI_mem; eauto; cbn; auto.
  - destruct (open_ok _ _ _ IH) as [A B]. eapply KI_mem; eauto.
Qed.

(** * Pruning while linking *)
Lemma pruneLoop_ok ct n : forall h s, krun ct h s -> kg h + N.of_nat n <= klen h -> klen h < m_stlast (snd s) ->
  exists s', pruneLoop n (kg h) s = Some s' /\ krun ct {| kb := kb h; kg := kg h + N.of_nat n |} s' /\ d_st (fst s') = d_st (fst s) /\ m_stlast (snd s') = m_stlast (snd s).
Proof.
  induction n as [|n IH]; intros h s R L Ls.
  - exists s. cbn [pruneLoop]. split; auto. split; auto. replace (kg h + N.of_nat 0) with (kg h) by lia. destruct h; auto.
  - pose proof (krun_KI _ _ _ R) as I. pose proof (iKg _ _ _ _ _ I) as Kg. pose proof (iGen _ _ _ _ _ I) as Gn. pose proof (iLast _ _ _ _ _ I) as La.
    destruct (N.eqb_spec (klen h) 0); [lia|]. destruct (KI_gen H HD _ _ _ I) as [G1 G2]. destruct G1 as (s1 & E1); [lia|]. destruct (G2 s1 E1) as (_ & _ & D1 & M1).
    cbn [pruneLoop]. assert (Ed : deleteBlock (kg h) s = Some (true, s1)).
    { unfold deleteBlock, latestId. rewrite Gn, La. destruct (N.eqb_spec (kg h) 0); [lia|]. rewrite N.ltb_irrefl. cbn [orb]. destruct (N.ltb_spec 0 (m_stlast (snd s))); [|lia].
      destruct (N.eqb_spec (m_stlast (snd s)) 0); [lia|]. destruct (N.ltb_spec (m_stlast (snd s)) (kg h)); [lia|]. cbn [orb]. destruct (N.ltb_spec (klen h) (kg h)); [lia|].
      destruct (N.eqb_spec (kg h) (klen h)); [lia|]. cbn [andb]. rewrite N.eqb_refl, E1. auto. }
    rewrite Ed. assert (R1 : krun ct {| kb := kb h; kg := kg h + 1 |} s1) by (eapply KGenesis; eauto).
    destruct (IH _ _ R1) as (s' & E' & R' & D' & M'); cbn [kg kb] in *.
    + change (klen {| kb := kb h; kg := kg h + 1 |}) with (klen h). lia.
    + change (klen {| kb := kb h; kg := kg h + 1 |}) with (klen h). rewrite M1. auto.
    + exists s'. split; auto. split; [replace (kg h + N.of_nat (S n)) with (kg h + 1 + N.of_nat n) by lia; auto|]. split; [congruence|]. rewrite M', M1. auto.
Qed.
Lemma prune_ok ct h s r : cfGet ct cInternal <> Some TI -> krun ct h s -> klen h < m_stlast (snd s) -> okUpd ct (upds h) (r_upd r) ->
  exists s', pruneOnLink r s = Some s' /\ krun ct {| kb := kb h; kg := N.max (kg h) (recGen (r_upd r)) |} s' /\ d_st (fst s') = d_st (fst s) /\ m_stlast (snd s') = m_stlast (snd s).
Proof.
  intros Ti R Ls Ok. pose proof (krun_KI _ _ _ R) as I. pose proof (iKg _ _ _ _ _ I) as Kg. pose proof (iGen _ _ _ _ _ I) as Gn. pose proof (iLast _ _ _ _ _ I) as La.
  destruct Ok as (_ & Ty & _ & _ & Rl & _). rewrite upds_length in Rl. fold (klen h) in Rl. unfold pruneOnLink, recGen in *.
  assert (Hh : forall x, x <= kg h -> {| kb := kb h; kg := N.max (kg h) x |} = h) by (intros x L; rewrite N.max_l by auto; destruct h; auto).
  destruct (recordedGenesis (r_upd r)) as [[g|]|] eqn:E.
  - rewrite Gn, La. destruct (N.eqb_spec (klen h) 0) as [Z|Z].
    + cbn [N.leb]. exists s. rewrite Hh by lia. auto.
    + destruct (N.leb_spec 1 (kg h)); [|lia]. cbn [andb]. destruct (N.ltb_spec (kg h) (klen h)) as [Lt|Ge].
      * destruct (N.leb_spec g (kg h)).
        -- replace (N.to_nat (g - kg h)) with 0%nat by lia. cbn [pruneLoop]. exists s. rewrite Hh by lia. auto.
        -- destruct (pruneLoop_ok ct (N.to_nat (g - kg h)) h s R) as (s' & A & B & C); [lia|lia|]. exists s'. split; auto. replace (kg h + N.of_nat (N.to_nat (g - kg h))) with (N.max (kg h) g) in B by lia. auto.
      * exists s. rewrite Hh by lia. auto.
  - exists s. rewrite Hh by lia. auto.
  - exfalso. unfold recordedGenesis in E. destruct (cfGet (r_upd r) cInternal) as [[i|i]|] eqn:Ei; [destruct (cfGet (kv i) genesisKey) as [[]|]; discriminate| |discriminate]. apply Ty in Ei. congruence.
Qed.

(** * Linking *)
Definition okChain (ct : list (bytes * ctype)) (us : list updates) : Prop := forall j, (j < length us)%nat -> okUpd ct (firstn j us) (nth j us []).
Definition fromSource (us : list updates) (h : khist) (s : state) : Prop :=
  upds h = firstn (length (upds h)) us /\ forall i r, klen h < i -> nget (d_st (fst s)) i = Some r -> (N.to_nat i <= length us)%nat /\ r_upd r = nth (N.to_nat i - 1) us [].
Lemma firstn_snoc {A} n (l : list A) d : (n < length l)%nat -> firstn (S n) l = firstn n l ++ [nth n l d].
Proof. revert l. induction n; intros [|a l] L; cbn in *; try lia; auto. f_equal. apply IHn. lia. Qed.
Lemma linkLoop_ok ct us : cfGet ct cInternal <> Some TI -> okChain ct us -> forall n h s, krun ct h s -> fromSource us h s -> (n <> 0%nat -> klen h + N.of_nat n <= m_stlast (snd s)) ->
  exists fl s' h', linkLoop H HD n (klen h + 1) s = Some (fl, s') /\ krun ct h' s' /\ fromSource us h' s' /\ klen h <= klen h' <= klen h + N.of_nat n /\ kg h <= kg h' /\
    (forall i, klen h < i <= klen h' -> nget (d_st (fst s)) i <> None) /\ (if fl then klen h' = klen h + N.of_nat n else nget (d_st (fst s)) (klen h' + 1) = None /\ klen h' < klen h + N.of_nat n) /\
    (forall i, nget (d_st (fst s')) i = if (klen h <? i) && (i <=? klen h') then None else nget (d_st (fst s)) i) /\ m_stlast (snd s') = m_stlast (snd s).
Proof.
  intros Ti Oc. induction n as [|n IH]; intros h s R Fs Ls.
  - exists true, s, h. cbn [linkLoop]. split; auto. split; auto. split; auto. split; [lia|]. split; [lia|]. split; [intros; lia|]. split; [lia|]. split; auto.
    intros i. destruct (N.ltb_spec (klen h) i), (N.leb_spec i (klen h)); auto; lia.
  - cbn [linkLoop]. destruct (nget (d_st (fst s)) (klen h + 1)) as [r|] eqn:Er.
    + destruct Fs as [Fp Ff]. destruct (Ff (klen h + 1) r ltac:(lia) Er) as [Lu Eu]. replace (N.to_nat (klen h + 1) - 1)%nat with (length (upds h)) in Eu by (rewrite upds_length; unfold klen; lia).
      assert (Lu' : (length (upds h) < length us)%nat) by (rewrite upds_length; unfold klen in Lu; lia).
      assert (Ok : okUpd ct (upds h) (r_upd r)). { rewrite Eu, Fp at 1. apply Oc. auto. }
      destruct (prune_ok ct h s r Ti R) as (s1 & E1 & R1 & D1 & M1); auto; [lia|]. rewrite E1.
      set (h1 := {| kb := kb h; kg := N.max (kg h) (recGen (r_upd r)) |}) in *. change (klen h) with (klen h1) in Er. pose proof (krun_KI _ _ _ R1) as I1.
      destruct (KI_add H HD ct h1 s1 (r_upd r) (ndel (d_st (fst s1)) (klen h1 + 1)) I1) as (s2 & E2 & I2 & D2 & M2); auto; [cbn [h1 kg]; lia|].
      unfold writeLink. change (klen h) with (klen h1) at 1. rewrite E2.
      assert (R2 : krun ct (kadd h1 (r_upd r)) s2).
      { assert (X1 : nget (d_st (fst s1)) (m_last (snd s1) + 1) = Some r) by (rewrite (iLast _ _ _ _ _ I1), D1; exact Er).
        assert (X2 : recGen (r_upd r) <= kg h1) by (cbn [h1 kg]; lia).
        assert (X3 : writeLink H HD (m_last (snd s1) + 1) r s1 = Some s2) by (rewrite (iLast _ _ _ _ _ I1); unfold writeLink; exact E2).
        exact (KLink H HD ct h1 s1 r s2 R1 X1 Ok X2 X3). }
      assert (Kl : klen (kadd h1 (r_upd r)) = klen h + 1) by (rewrite klen_add; auto).
      destruct (IH (kadd h1 (r_upd r)) s2 R2) as (fl & s' & h' & A1 & A2 & A3 & A4 & A5 & A6 & A7 & A8 & A9).
      { split.
        - rewrite upds_add, app_length. cbn [length]. change (upds h1) with (upds h). rewrite Nat.add_1_r, (firstn_snoc _ us ([] : updates)) by auto. rewrite <- Fp, Eu. auto.
        - intros i r0 Li. rewrite D2, nget_del, D1, Kl in *. destruct (N.eqb_spec i (klen h1 + 1)); [discriminate|]. apply Ff. lia. }
      { intros _. rewrite Kl, M2, M1. specialize (Ls ltac:(discriminate)). lia. }
      exists fl, s', h'. rewrite Kl in *. split; auto. split; auto. split; auto. split; [lia|]. split; [cbn [kadd h1 kg] in A5; lia|].
      assert (Dd : forall i, nget (d_st (fst s2)) i = if i =? klen h + 1 then None else nget (d_st (fst s)) i) by (intros; rewrite D2, nget_del, D1; reflexivity).
      split; [|split; [|split]].
      * intros i Li. destruct (N.eq_dec i (klen h + 1)) as [->|Ni]; [change (klen h) with (klen h1); congruence|]. specialize (A6 i ltac:(lia)). rewrite Dd in A6. destruct (N.eqb_spec i (klen h + 1)); congruence.
      * destruct fl; [lia|]. destruct A7 as [A7 A7']. rewrite Dd in A7. destruct (N.eqb_spec (klen h' + 1) (klen h + 1)); [lia|]. split; auto. lia.
      * intros i. rewrite A8, Dd. destruct (N.eqb_spec i (klen h + 1)) as [->|Ni].
        -- destruct (N.ltb_spec (klen h) (klen h + 1)); [|lia]. destruct (N.leb_spec (klen h + 1) (klen h')); [|lia]. destruct (_ && _); auto.
        -- destruct (N.ltb_spec (klen h + 1) i), (N.ltb_spec (klen h) i); auto; lia.
      * congruence.
    + exists false, s, h. split; auto. split; auto. split; auto. split; [lia|]. split; [lia|]. split; [intros; lia|]. split; [split; [auto|lia]|]. split; auto.
      intros i. destruct (N.ltb_spec (klen h) i), (N.leb_spec i (klen h)); auto; lia.
Qed.
Lemma linkFrom_ok ct us h s : cfGet ct cInternal <> Some TI -> okChain ct us -> krun ct h s -> fromSource us h s -> (forall i, klen h < i -> nget (d_st (fst s)) i <> None -> i <= m_stlast (snd s)) ->
  exists s' h', linkFrom H HD (klen h + 1) s = Some s' /\ krun ct h' s' /\ fromSource us h' s' /\ klen h <= klen h' /\ kg h <= kg h' /\
    (forall i, klen h < i <= klen h' -> nget (d_st (fst s)) i <> None) /\ nget (d_st (fst s)) (klen h' + 1) = None /\
    (forall i, nget (d_st (fst s')) i = if (klen h <? i) && (i <=? klen h') then None else nget (d_st (fst s)) i).
Proof.
  intros Ti Oc R Fs Ls. unfold linkFrom. destruct (N.eqb_spec (m_stlast (snd s)) 0) as [Z|Z].
  - exists s, h. split; auto. split; auto. split; auto. split; [lia|]. split; [lia|]. split; [intros; lia|]. split.
    + destruct (nget (d_st (fst s)) (klen h + 1)) eqn:E; auto. specialize (Ls (klen h + 1) ltac:(lia)). rewrite E in Ls. specialize (Ls ltac:(discriminate)). lia.
    + intros i. destruct (N.ltb_spec (klen h) i), (N.leb_spec i (klen h)); auto; lia.
  - destruct (linkLoop_ok ct us Ti Oc (N.to_nat (m_stlast (snd s) + 1 - (klen h + 1))) h s R Fs) as (fl & s' & h' & -> & A2 & A3 & A4 & A5 & A6 & A7 & A8 & A9); [lia|].
    destruct fl.
    + exists (fst s', setSt (snd s') 0), h'. split; auto. split; [apply KReset; auto; rewrite A9, (iLast _ _ _ _ _ (krun_KI _ _ _ A2)); lia|]. split; [exact A3|]. split; [lia|]. split; auto. split; auto. split; auto.
      destruct (nget (d_st (fst s)) (klen h' + 1)) eqn:E; auto. specialize (Ls (klen h' + 1) ltac:(lia)). rewrite E in Ls. specialize (Ls ltac:(discriminate)). lia.
    + exists s', h'. destruct A7 as [A7 _]. split; auto. split; auto. split; auto. split; [lia|]. auto 6.
Qed.
End Chain.
