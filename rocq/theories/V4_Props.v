(** C15, C16: property theorems for the v4 block chain. [H] is the digest function, [seqOf] the parser of the block metadata; both arbitrary.
    [run H seqOf P s]: [s] is reached by API calls, each cut anywhere by a crash and restart; deleteLastReachableBlock only in states satisfying [P]. *)
From Coq Require Import List Arith NArith Lia Bool.
From Verif Require Import Lib_Bytes Keys_Model Keys_Proofs Lib_CF V4_Model V4_Proofs V4_Link V4_Latest V4_Recover V4_Hist.
Import ListNotations.
Local Open Scope nat_scope.

Definition lastB (s : state) := m_last (snd s).
Definition genB (s : state) := m_gen (snd s).
Definition blockAt (s : state) (i : nat) : option block := mget (d_blocks (fst s)) i.
Definition anyP (s : state) : Prop := True.
(** deleteLastReachableBlock is only called before this process added or linked a block. *)
Definition beforeAdd (s : state) : Prop := m_future (snd s) = None.
Definition s00 : state := (emptyDisk, {| m_last := 0; m_gen := 0; m_future := None; m_stlast := 0; m_sn := None |}).

(** * C15 *)
(** Exactly the ids from the genesis to the last reachable block exist; the chain is empty or has a genesis block. *)
Theorem C15_contiguous : forall H seqOf P s, run H seqOf P s ->
  (genB s = 0 /\ lastB s = 0 \/ 1 <= genB s <= lastB s) /\
  forall i, i <= lastB s -> hasBlock s i = true <-> 1 <= genB s <= i.
Proof.
  intros H seqOf P s R. pose proof (run_CInv _ _ _ _ R) as [Ge Z In Out N0 G S0 Rc]. unfold genB, lastB. split.
  { destruct (Nat.eq_dec (m_gen (snd s)) 0); [left; auto|right; lia]. }
  intros i L. destruct s as [d m]. cbn [fst snd] in *. unfold hasBlock. destruct (Nat.ltb_spec (m_last m) i); [lia|]. destruct (Nat.ltb_spec i (m_gen m)); [split; [discriminate|lia]|].
  destruct (Nat.eq_dec (m_gen m) 0) as [E|E].
  - assert (i = 0) by (rewrite Z in L; lia). subst. rewrite N0. split; [discriminate|lia].
  - specialize (In i). destruct (mget (d_blocks d) i); [split; auto; lia|]. exfalso. apply In; auto; lia.
Qed.
Print Assumptions C15_contiguous.

(** Every block stores the digest of its predecessor; block 1 stores zeros. *)
Theorem C15_hash_linked_partial : forall H seqOf s, run H seqOf beforeAdd s ->
  (forall i, genB s < i <= lastB s -> exists p, parentDigest s i = Some p /\ blockDigest H s (i - 1) = Some p) /\
  (genB s = 1 -> parentDigest s 1 = Some zeroD).
Proof.
  intros H seqOf s R. pose proof (run_CInv _ _ _ _ R) as [Ge Z In Out N0 G S0 Rc]. pose proof (run_LInv _ _ _ R) as [Fu Fi Li]. unfold genB, lastB. destruct s as [d m]. cbn [fst snd] in *. split.
  - intros i I. unfold parentDigest, blockDigest. destruct (Nat.ltb_spec (m_last m) i); [lia|]. destruct (Nat.ltb_spec i (m_gen m)); [lia|]. destruct (Nat.ltb_spec (m_last m) (i - 1)); [lia|]. destruct (Nat.ltb_spec (i - 1) (m_gen m)); [lia|].
    assert (g0: 0 < m_gen m) by (destruct (Nat.eq_dec (m_gen m) 0) as [E|]; [apply Z in E; lia|lia]).
    assert (X: mget (d_blocks d) i <> None) by (apply In; lia). destruct (mget (d_blocks d) i) as [b|] eqn:B; [|congruence]. exists (b_parent b). split; auto. apply Li; auto; lia.
  - intros E. unfold parentDigest. rewrite E. destruct (Nat.ltb_spec (m_last m) 1); [lia|]. cbn. assert (X: mget (d_blocks d) 1 <> None) by (apply In; lia). destruct (mget (d_blocks d) 1) as [b|] eqn:B; [|congruence].
    cbn. f_equal. apply (Fi b); auto; lia.
Qed.
Print Assumptions C15_hash_linked_partial.

(** With a collision-free digest, one digest determines the whole chain below it: two replicas that agree on the digest of block [n] agree on
    every block up to [n] that both hold. *)
Theorem C15_digest_fixes_chain_partial : forall H seqOf seqOf' s t n,
  (forall i b b', H i b = H i b' -> b = b') -> run H seqOf beforeAdd s -> run H seqOf' beforeAdd t ->
  1 <= n <= lastB s -> n <= lastB t -> blockDigest H s n <> None -> blockDigest H s n = blockDigest H t n ->
  forall i, genB s <= i -> genB t <= i -> 1 <= i <= n -> blockAt s i = blockAt t i /\ blockAt s i <> None.
Proof.
  intros H seqOf seqOf' s t n Inj Rs Rt Ls Lt Ne E.
  pose proof (run_CInv _ _ _ _ Rs) as [Ge Z In Out N0 _ _ _]. pose proof (run_LInv _ _ _ Rs) as [_ _ Li].
  pose proof (run_CInv _ _ _ _ Rt) as [Ge' Z' In' Out' N0' _ _ _]. pose proof (run_LInv _ _ _ Rt) as [_ _ Li'].
  unfold genB, lastB, blockAt in *. destruct s as [d m], t as [d' m']. cbn [fst snd] in *.
  assert (g0: 0 < m_gen m) by (destruct (Nat.eq_dec (m_gen m) 0) as [X|]; [apply Z in X; lia|lia]).
  assert (g0': 0 < m_gen m') by (destruct (Nat.eq_dec (m_gen m') 0) as [X|]; [apply Z' in X; lia|lia]).
  assert (K: forall j i, i + j = n -> m_gen m <= i -> m_gen m' <= i -> 1 <= i -> mget (d_blocks d) i = mget (d_blocks d') i /\ mget (d_blocks d) i <> None).
  { induction j as [|j IH]; intros i J A B C.
    - assert (i = n) by lia. subst i. unfold blockDigest in *. destruct (Nat.ltb_spec (m_last m) n); [lia|]. destruct (Nat.ltb_spec (m_last m') n); [lia|]. destruct (Nat.ltb_spec n (m_gen m)); [lia|]. destruct (Nat.ltb_spec n (m_gen m')); [lia|].
      unfold calcDigest in *. destruct (Nat.ltb_spec n 1); [lia|]. destruct (mget (d_blocks d) n) as [b|]; [|congruence]. destruct (mget (d_blocks d') n) as [b'|]; [|congruence]. injection E as E. apply Inj in E. subst. split; auto. discriminate.
    - destruct (IH (S i)) as (X & Y); try lia. destruct (mget (d_blocks d) (S i)) as [b|] eqn:B1; [|congruence]. symmetry in X.
      pose proof (Li (S i) b) as L1. pose proof (Li' (S i) b) as L2. cbn [Nat.sub] in L1, L2. rewrite Nat.sub_0_r in L1, L2. specialize (L1 ltac:(lia) ltac:(lia) B1). specialize (L2 ltac:(lia) ltac:(lia) X).
      unfold calcDigest in L1, L2. destruct (Nat.ltb_spec i 1); [lia|]. destruct (mget (d_blocks d) i) as [x|]; [|discriminate]. destruct (mget (d_blocks d') i) as [y|]; [|discriminate].
      assert (x = y) by (apply (Inj i); congruence). subst. split; auto. discriminate. }
  intros i A B C. apply (K (n - i)); auto; lia.
Qed.
Print Assumptions C15_digest_fixes_chain_partial.

(** Reopening the storage at any point gives the same chain. *)
Theorem C15_restart : forall H seqOf P s, run H seqOf P s -> exists m, open (fst s) = Some m /\ m_last m = lastB s /\ m_gen m = genB s /\
  (forall i, i <= lastB s -> hasBlock (fst s, m) i = hasBlock s i /\ parentDigest (fst s, m) i = parentDigest s i /\ blockDigest H (fst s, m) i = blockDigest H s i) /\
  run H seqOf P (storeRevert seqOf (fst s), m).
Proof.
  intros H seqOf P s R. pose proof (run_CInv _ _ _ _ R) as CI. eexists. split; [apply open_ok; auto|]. cbn [m_last m_gen]. unfold lastB, genB. split; auto. split; auto. destruct s as [d m]. cbn [fst snd]. split.
  - intros i L. unfold hasBlock, parentDigest, blockDigest. cbn [m_last m_gen]. destruct (Nat.ltb_spec (m_last m) i); [lia|]. auto.
  - eapply runS; [exact R|]. apply (RRecover H seqOf (d, m)); auto. cbn [fst]. pose proof (storeRevert_frame seqOf d) as (_ & F & _). pose proof (open_ok _ (storeRevert_CInv seqOf _ _ CI)) as O. cbn [fst snd] in O. rewrite F in O. auto.
Qed.
Print Assumptions C15_restart.

(** A block that is still in the chain never changes. *)
Lemma step_last : forall H seqOf s s', CInv s -> step H seqOf s s' -> lastB s' = lastB s \/ lastB s' = S (lastB s).
Proof.
  intros H seqOf s s' CI St. unfold lastB. destruct St as [u s|u s s' W|n s|b s s' G W|s _|id b s Lt|s s' E|n s s' l E|keep n s s' l E|i c k s|s d m E O|s].
  - destruct s as [d0 m0]. destruct (onNewSN_frame seqOf u d0 m0) as (A & _). rewrite A. auto.
  - right. eapply write_last; eauto.
  - left. cbn [fst snd]. destruct (noteSN_f n (snd s)) as (-> & _). auto.
  - right. eapply write_last; eauto.
  - auto.
  - left. unfold stPut. cbn [snd]. destruct (id <=? _); auto.
  - apply deleteGenesis_eq in E as (d & m & -> & A & ->). auto.
  - apply deleteUntil_eq in E as (d & m & -> & A & [(_ & -> & _)|(B & C & ->)]); auto.
  - apply deleteUntilFiles_eq in E as (d & m & -> & A & [(_ & -> & _)|(B & C & ->)]); auto.
  - left. destruct s as [d m]. unfold compact. destruct ((if i then d_imm d else d_lat d) c k) as [v|]; [destruct (mayDrop (m_gen m) v)|]; auto.
  - left. destruct s as [d0 m0]. apply (storeRevert_CInv seqOf) in CI. cbn [fst] in E. rewrite <- E in CI. pose proof (open_ok _ CI) as Op. cbn [fst snd] in Op. rewrite Op in O. injection O as <-. auto.
  - auto.
Qed.
Theorem C15_blocks_never_change : forall H seqOf P s s' i, run H seqOf P s -> (step H seqOf s s' \/ deleteLast s = Some s') ->
  genB s' <= i <= lastB s' -> 1 <= i <= lastB s -> blockAt s' i = blockAt s i /\ blockAt s i <> None.
Proof.
  intros H seqOf P s s' i R St I J. pose proof (run_CInv _ _ _ _ R) as CI. unfold lastB, genB, blockAt in *.
  assert (K: (forall b, mget (d_blocks (fst s')) i = Some b -> mget (d_blocks (fst s)) i = Some b) /\ mget (d_blocks (fst s')) i <> None).
  { destruct St as [St|St].
    - pose proof (step_CInv H seqOf _ _ CI St) as CI'. split.
      + intros b B. destruct (step_last _ _ _ _ CI St) as [L|L]; unfold lastB in L.
        * eapply step_same; eauto.
        * destruct (step_new H seqOf _ _ CI St L) as (u & p & E & _). rewrite E, mget_put in B. destruct (Nat.eqb_spec i (S (m_last (snd s)))); [lia|auto].
      + pose proof (c_zero _ CI'). apply (c_in _ CI'); lia.
    - pose proof (deleteLast_CInv _ _ CI St) as CI'. destruct (deleteLast_eq _ _ CI St) as (d & m & ks & -> & A & Kk & _ & ->). destruct (keys_frame ks Kk d) as (B1 & _). cbn [fst snd d_blocks setBlocks m_last m_gen setBlockId] in *. split.
      + intros b. rewrite mget_del. destruct (i =? m_last m); [discriminate|auto].
      + pose proof (c_zero _ CI'). apply (c_in _ CI'); cbn [snd m_gen m_last setBlockId]; try lia. destruct (Nat.eqb_spec (m_gen m) 0); lia. }
  destruct K as (K1 & K2). destruct (mget (d_blocks (fst s')) i) as [b|]; [|congruence]. rewrite (K1 b) by auto. split; auto; discriminate.
Qed.
Print Assumptions C15_blocks_never_change.

(** Adding always succeeds, with the next id, keeps the other blocks, and stores the updates given (and the genesis id). *)
Theorem C15_add : forall H seqOf P s u, run H seqOf P s -> exists s', add H seqOf u s = Some s' /\ run H seqOf P s' /\
  lastB s' = S (lastB s) /\ genB s' = (if genB s =? 0 then 1 else genB s) /\
  (exists b, blockAt s' (lastB s') = Some b /\ b_upd b = addGenesisKey (genB s) u) /\
  (forall i, i <> lastB s' -> blockAt s' i = blockAt s i).
Proof.
  intros H seqOf P s u R. pose proof (run_CInv _ _ _ _ R) as CI. destruct (add_some H seqOf u s CI) as (s' & A). exists s'. split; auto. split; [eapply add_run; eauto|].
  unfold add in A. destruct (onNewSN seqOf u s) as [s1 sn] eqn:E. destruct s as [d m]. destruct (onNewSN_frame seqOf u d m) as (F1 & F2 & _). rewrite E in F1, F2. destruct s1 as [d1 m1]. cbn [fst snd] in F1, F2. subst m1.
  destruct (writeBlock H [] (addGenesisKey (m_gen (snd (d, m))) u) (d1, m)) as [[d2 m2]|] eqn:W; [|discriminate]. injection A as <-. apply writeBlock_eff in W; [|apply noop_extra].
  destruct W as (p & _ & Eb & _ & _ & _ & _ & El & Eg & _). unfold lastB, genB, blockAt. cbn [fst snd] in *. destruct (noteSN_f sn m2) as (N1 & N2 & _). rewrite N1, N2, El, Eg, Eb. sp; auto.
  - destruct (Nat.eqb_spec (m_gen m) 0) as [X|]; auto. f_equal. apply (c_zero _ CI). auto.
  - rewrite mget_put, Nat.eqb_refl. eexists. split; eauto.
  - intros i N. rewrite mget_put. destruct (Nat.eqb_spec i (S (m_last m))); [congruence|]. rewrite F2. auto.
Qed.
Print Assumptions C15_add.

(** Deleting removes exactly blocks at the old end (never the last block), or the last block. *)
Theorem C15_delete_at_ends : forall H seqOf P s s', run H seqOf P s ->
  (forall n l, deleteUntil n s = Some (s', l) -> lastB s' = lastB s /\ genB s' = S l /\ l < n /\ l < lastB s /\ genB s <= genB s' /\
     forall i, l < i -> blockAt s' i = blockAt s i) /\
  (forall keep n l, deleteUntilFiles keep n s = Some (s', l) -> lastB s' = lastB s /\ genB s' = S l /\ l < n /\ l < lastB s /\ genB s <= genB s' /\
     forall i, l < i -> blockAt s' i = blockAt s i) /\
  (deleteGenesis s = Some s' -> lastB s' = lastB s /\ genB s' = S (genB s) /\ genB s' <= lastB s /\ forall i, genB s < i -> blockAt s' i = blockAt s i) /\
  (deleteLast s = Some s' -> S (lastB s') = lastB s /\ genB s' = genB s /\ genB s < lastB s /\ blockAt s' (lastB s) = None /\ forall i, i < lastB s -> blockAt s' i = blockAt s i).
Proof.
  intros H seqOf P s s' R. pose proof (run_CInv _ _ _ _ R) as CI. unfold lastB, genB, blockAt. split; [|split; [|split]].
  - intros n l E. apply deleteUntil_eq in E as (d & m & -> & A & [(B & -> & ->)|(B & C & ->)]); pose proof (c_ge _ CI) as Ge; cbn [fst snd] in *; cbn [fst snd d_blocks setGen setBlocks m_last m_gen setMGen]; sp; auto; try lia. intros i I. rewrite mget_delIf, range_f; auto.
  - intros keep n l E. apply deleteUntilFiles_eq in E as (d & m & -> & A & [(B & -> & ->)|(B & C & ->)]); pose proof (c_ge _ CI) as Ge; cbn [fst snd] in *; cbn [fst snd d_blocks setGen setBlocks m_last m_gen setMGen]; sp; auto; try lia. intros i I. rewrite mget_delIf, range_f; auto.
  - intros E. apply deleteGenesis_eq in E as (d & m & -> & A & ->). cbn [fst snd d_blocks setGen setBlocks m_last m_gen setMGen]; sp; auto; try lia. intros i I. rewrite mget_delIf. destruct (Nat.eqb_spec i (m_gen m)); [lia|auto].
  - intros E. destruct (deleteLast_eq _ _ CI E) as (d & m & ks & -> & A & K & _ & ->). cbn [fst snd d_blocks setBlocks m_last m_gen setBlockId]. sp; auto; try lia.
    + destruct (Nat.eqb_spec (m_gen m) 0); lia.
    + rewrite mget_del, Nat.eqb_refl. auto.
    + intros i I. rewrite mget_del. destruct (Nat.eqb_spec i (m_last m)); [lia|auto].
Qed.
Print Assumptions C15_delete_at_ends.

(** Received blocks (in any order, with any gaps) become reachable exactly up to the first gap, with the updates received; they are then no
    longer in the state-transfer storage, the others still are. This is also what opening a replica does with blocks left by a crash. *)
Theorem C15_link : forall H seqOf P s, run H seqOf P s -> (forall i, lastB s < i -> blockAt s i = None) /\
  ((forall i, lastB s < i -> mget (d_st (fst s)) i <> None -> i <= m_stlast (snd s)) ->
   exists s', linkST H seqOf s = Some s' /\ lastB s <= lastB s' /\
    (forall i, lastB s < i <= lastB s' -> mget (d_st (fst s)) i <> None) /\ mget (d_st (fst s)) (S (lastB s')) = None /\
    (forall i b, genB s' <= i -> lastB s < i <= lastB s' -> mget (d_st (fst s)) i = Some b -> exists b', blockAt s' i = Some b' /\ b_upd b' = b_upd b) /\
    (forall i, genB s' <= i <= lastB s -> blockAt s' i = blockAt s i) /\
    (forall i, mget (d_st (fst s')) i = if (lastB s <? i) && (i <=? lastB s') then None else mget (d_st (fst s)) i)).
Proof.
  intros H seqOf P s R. pose proof (run_CInv _ _ _ _ R) as CI. split; [apply (c_out _ CI)|]. intros B. unfold linkST, lastB, genB, blockAt in *.
  destruct (Nat.eqb_spec (m_stlast (snd s)) 0) as [Z|Z].
  { exists s. sp; auto; try (intros; lia).
    - destruct (mget (d_st (fst s)) (S (m_last (snd s)))) eqn:X; auto. assert (S (m_last (snd s)) <= m_stlast (snd s)) by (apply B; [lia|congruence]). lia.
    - intros i. destruct (Nat.ltb_spec (m_last (snd s)) i), (Nat.leb_spec i (m_last (snd s))); auto; lia. }
  destruct (linkLoop_eff H seqOf (m_stlast (snd s) - m_last (snd s)) s CI) as (s' & full & E & C' & L & Tr & Fa & Stl & G & Std & Stn & Old & New). rewrite E.
  assert (Cm: m_last (snd s) <= m_last (snd s') /\ (forall i, m_last (snd s) < i <= m_last (snd s') -> mget (d_st (fst s)) i <> None) /\ mget (d_st (fst s)) (S (m_last (snd s'))) = None /\
     (forall i, m_gen (snd s') <= i <= m_last (snd s) -> mget (d_blocks (fst s')) i = mget (d_blocks (fst s)) i)).
  { sp; auto; try lia. 2: intros i (X & Y); auto. destruct full; [|destruct Fa; auto]. rewrite Tr by auto. destruct (mget (d_st (fst s)) (S (m_last (snd s) + (m_stlast (snd s) - m_last (snd s))))) eqn:X; auto.
    assert (S (m_last (snd s) + (m_stlast (snd s) - m_last (snd s))) <= m_stlast (snd s)) by (apply B; [lia|congruence]). lia. }
  destruct Cm as (Cm1 & Cm2 & Cm3 & Cm4). destruct full; eexists; (split; [reflexivity|]); cbn [fst snd m_last m_gen setStLast]; sp; auto.
Qed.
Print Assumptions C15_link.
(** The hypothesis (the remembered highest received id is right) holds in every execution without deleteLastReachableBlock, crashes included. *)
Theorem C15_link_applies : forall H seqOf s, run H seqOf (fun _ => False) s -> forall i, lastB s < i -> mget (d_st (fst s)) i <> None -> i <= m_stlast (snd s).
Proof.
  intros H seqOf s R. remember (fun _ : state => False) as P. induction R as [|s s' R IH St|s s' R IH Pn E]; [cbn; congruence| |subst P; contradiction].
  pose proof (run_CInv _ _ _ _ R) as CI. unfold lastB in *.
  destruct St as [u s|u s s' W|n s|b s s' G W|s Lt|id b s Lt|s s' E|n s s' l E|keep n s s' l E|x c k s|s d m E O|s]; intros i.
  - destruct s as [d0 m0]. destruct (onNewSN_frame seqOf u d0 m0) as (A & _ & B & _). rewrite A, B. auto.
  - destruct s as [d m], s' as [d' m']. apply writeBlock_eff in W; [|apply noop_extra]. destruct W as (p & _ & _ & Es & _ & _ & _ & El & _ & Et & _). cbn [fst snd] in *. rewrite Es, El, Et. cbn. intros; apply IH; auto; lia.
  - cbn [fst snd]. destruct (noteSN_f n (snd s)) as (-> & _ & _ & ->). auto.
  - destruct s as [d m], s' as [d' m']. apply writeBlock_eff in W; [|apply stdel_extra]. destruct W as (p & _ & _ & Es & _ & _ & _ & El & _ & Et & _). cbn [fst snd] in *. rewrite Es, El, Et. cbn [applyB fold_left apply1 d_st setSt]. rewrite mget_del.
    destruct (i =? S (m_last m)); [congruence|]. intros; apply IH; auto; lia.
  - cbn [fst snd m_last m_stlast setStLast]. intros A B. specialize (IH i A B). lia.
  - unfold stPut. cbn [fst snd applyB fold_left apply1 d_st setSt]. rewrite mget_put. destruct (Nat.leb_spec id (m_stlast (snd s))); cbn [m_last m_stlast setStLast]; destruct (Nat.eqb_spec i id); subst; auto. intros A B. specialize (IH i A B). lia.
  - apply deleteGenesis_eq in E as (d & m & -> & A & ->). auto.
  - apply deleteUntil_eq in E as (d & m & -> & A & [(_ & -> & _)|(B & C & ->)]); auto.
  - apply deleteUntilFiles_eq in E as (d & m & -> & A & [(_ & -> & _)|(B & C & ->)]); auto.
  - destruct s as [d m]. unfold compact. destruct ((if x then d_imm d else d_lat d) c k) as [v|]; [destruct (mayDrop (m_gen m) v)|]; auto. destruct x; auto.
  - destruct s as [d0 m0]. apply (storeRevert_CInv seqOf) in CI. cbn [fst] in E. rewrite <- E in CI. pose proof (open_ok _ CI) as Op. cbn [fst snd] in Op. rewrite Op in O. injection O as <-. cbn [fst snd m_last m_stlast].
    intros _ A. destruct (mget (d_st d) i) as [v|] eqn:V; [|congruence]. eapply mmax_ge; eauto.
  - auto.
Qed.
Print Assumptions C15_link_applies.

(** Receiving a block by state transfer: a block that is already reachable is refused, a different block of a number already received
    too, the same block again changes nothing; any other block is kept (and with [lastBlock] everything up to the first gap is linked,
    see C15_link) and no reachable block changes. *)
Theorem C15_receive : forall H seqOf s id b lastBlock, run H seqOf (fun _ => False) s ->
  (id <= lastB s -> addST H seqOf id b lastBlock s = None) /\
  (forall b', lastB s < id -> mget (d_st (fst s)) id = Some b' -> addST H seqOf id b lastBlock s = if block_eq_dec b b' then Some s else None) /\
  (lastB s < id -> mget (d_st (fst s)) id = None -> exists s', run H seqOf (fun _ => False) s' /\
     addST H seqOf id b lastBlock s = (if lastBlock then linkST H seqOf s' else Some s') /\ lastB s' = lastB s /\ genB s' = genB s /\
     (forall i, blockAt s' i = blockAt s i) /\ (forall i, mget (d_st (fst s')) i = if i =? id then Some b else mget (d_st (fst s)) i) /\
     hasBlock s' id = true /\ parentDigest s' id = Some (b_parent b) /\ blockDigest H s' id = Some (H id b)).
Proof.
  intros H seqOf s id b lb R. pose proof (C15_link_applies H seqOf s R) as LA. unfold addST, stHas. unfold lastB, genB, blockAt in *. sp.
  - intros L. destruct (Nat.leb_spec id (m_last (snd s))); [reflexivity|lia].
  - intros b' L E. destruct (Nat.leb_spec id (m_last (snd s))); [lia|]. assert (id <= m_stlast (snd s)) by (apply LA; [lia|congruence]).
    destruct (Nat.ltb_spec (m_stlast (snd s)) id); [lia|]. rewrite E. reflexivity.
  - intros L E. destruct (Nat.leb_spec id (m_last (snd s))); [lia|]. exists (stPut id b s). split; [eapply runS; [exact R|apply RStPut; exact L]|].
    assert (G : mget (d_st (fst (stPut id b s))) id = Some b) by (unfold stPut; cbn [fst snd applyB fold_left apply1 d_st setSt]; rewrite mget_put, Nat.eqb_refl; reflexivity).
    assert (La : m_last (snd (stPut id b s)) = m_last (snd s)) by (unfold stPut; cbn [fst snd]; destruct (id <=? m_stlast (snd s)); reflexivity).
    assert (Sl : id <= m_stlast (snd (stPut id b s))) by (unfold stPut; cbn [fst snd]; destruct (Nat.leb_spec id (m_stlast (snd s))); cbn [m_stlast setStLast]; lia).
    split; [|split; [|split; [|split; [|split; [|split; [|split]]]]]].
    6: { unfold hasBlock, stHas. destruct (stPut id b s) as [d m]. cbn [fst snd] in *. destruct (Nat.ltb_spec (m_last m) id); [|lia].
         destruct (Nat.ltb_spec (m_stlast m) id); [lia|]. rewrite G. reflexivity. }
    6: { unfold parentDigest. destruct (stPut id b s) as [d m]. cbn [fst snd] in *. destruct (Nat.ltb_spec (m_last m) id); [|lia]. rewrite G. reflexivity. }
    6: { unfold blockDigest. destruct (stPut id b s) as [d m]. cbn [fst snd] in *. destruct (Nat.ltb_spec (m_last m) id); [|lia]. rewrite G. reflexivity. }
    + rewrite E. destruct (m_stlast (snd s) <? id); reflexivity.
    + unfold stPut. cbn [fst snd]. destruct (id <=? m_stlast (snd s)); reflexivity.
    + unfold stPut. cbn [fst snd]. destruct (id <=? m_stlast (snd s)); reflexivity.
    + intros i. reflexivity.
    + intros i. unfold stPut. cbn [fst snd applyB fold_left apply1 d_st setSt]. rewrite mget_put. reflexivity.
Qed.
Print Assumptions C15_receive.

(** If the received blocks belong to one hash-linked chain that continues this one, the linked blocks are byte for byte those blocks. *)
Theorem C15_link_same_chain_partial : forall H seqOf (src : nat -> block) s s', run H seqOf beforeAdd s -> linkST H seqOf s = Some s' ->
  (forall i b, lastB s < i -> mget (d_st (fst s)) i = Some b -> b = src i) ->
  (forall i, lastB s < i -> b_parent (src i) = if i <=? 1 then zeroD else H (i - 1) (src (i - 1))) ->
  (lastB s = 0 \/ blockDigest H s (lastB s) = Some (b_parent (src (S (lastB s))))) ->
  forall i, genB s' <= i -> lastB s < i <= lastB s' -> blockAt s' i = Some (src i).
Proof.
  intros H seqOf src s s' R E St Li Np. pose proof (run_CInv _ _ _ _ R) as CI. pose proof (run_LInv _ _ _ R) as LI. unfold lastB, genB, blockAt in *.
  assert (N: nextParent H s = Some (b_parent (src (S (m_last (snd s)))))).
  { unfold nextParent. assert (C: calcDigest H (fst s) (m_last (snd s)) = Some (b_parent (src (S (m_last (snd s)))))).
    { destruct Np as [Z|Np].
      - rewrite Z, Li by lia. reflexivity.
      - destruct s as [d m]. unfold blockDigest in Np. cbn [fst snd] in *. rewrite Nat.ltb_irrefl in Np. destruct (m_last m <? m_gen m); [discriminate|auto]. }
    destruct (m_future (snd s)) as [x|] eqn:F; auto. rewrite <- C. symmetry. apply (l_future _ _ LI); auto. }
  unfold linkST in E. destruct (m_stlast (snd s) =? 0); [injection E as <-; intros; lia|].
  destruct (linkLoop H seqOf (m_stlast (snd s) - m_last (snd s)) (S (m_last (snd s))) s) as [[s1 full]|] eqn:L; [|discriminate].
  pose proof (linkLoop_src H seqOf _ src s CI St Li N _ _ L) as K. destruct full; injection E as <-; auto.
Qed.
Print Assumptions C15_link_same_chain_partial.

(** ** Concrete chains, limits *)
(** An injective toy digest: the id and all stored data. *)
Definition Hx (id : nat) (b : block) : bytes := N.of_nat id :: b_parent b ++ flat_map (fun e => flat_map (fun p => fst (snd p)) (c_puts (snd e))) (b_upd b).
Definition seqX (v : bytes) : nat := N.to_nat (hd 0%N v).
(** One versioned category "a"; [upd q k v]: BFT sequence number [q], key [k] := [v]. *)
Definition upd (q : nat) (kv : list (bytes * bytes)) : updates :=
  [([97]%N, {| c_kind := Versioned; c_puts := map (fun p => (fst p, (snd p, false))) kv; c_dels := [] |});
   (cInternal, {| c_kind := Versioned; c_puts := [(kMeta, ([N.of_nat q], false))]; c_dels := [] |})].
Definition then_ {A B} (x : option A) (f : A -> option B) : option B := match x with Some a => f a | None => None end.
Fixpoint adds (us : list updates) (s : state) : option state := match us with [] => Some s | u :: t => then_ (add Hx seqX u s) (adds t) end.
Lemma adds_run P us : forall s s', run Hx seqX P s -> adds us s = Some s' -> run Hx seqX P s'.
Proof. induction us as [|u us IH]; intros s s' R; cbn [adds]; [intros E; injection E as <-; auto|]. destruct (add Hx seqX u s) as [s1|] eqn:E; [|discriminate]. apply IH. eapply add_run; eauto. Qed.
Definition us3 := [upd 1 [([1],[10])]%N; upd 1 [([1],[11])]%N; upd 2 [([1],[12])]%N].
(** Crash, recovery process, reopen. *)
Definition reboot (s : state) : option state := let d := storeRevert seqX (fst s) in option_map (fun m => (d, m)) (open d).
Lemma reboot_run P s s' : run Hx seqX P s -> reboot s = Some s' -> run Hx seqX P s'.
Proof. unfold reboot. intros R E. destruct (open (storeRevert seqX (fst s))) as [m|] eqn:O; [|discriminate]. injection E as <-. eapply runS; [exact R|]. eapply RRecover; eauto. Qed.

(** The hypotheses are met by a chain of three blocks, from which the last block is deleted after a crash, and the chain continued. *)
Example C15_chain_example : exists s, run Hx seqX beforeAdd s /\ genB s = 1 /\ lastB s = 4 /\ parentDigest s 4 = blockDigest Hx s 3 /\
  (exists b, blockAt s 3 = Some b /\ b_upd b <> addGenesisKey 1 (upd 2 [([1],[12])]%N)).
Proof.
  destruct (adds us3 s00) as [s1|] eqn:E1; [|vm_compute in E1; discriminate].
  assert (R1: run Hx seqX beforeAdd s1) by (eapply adds_run; eauto; constructor).
  destruct (reboot s1) as [s2|] eqn:E2; [|vm_compute in E1; injection E1 as <-; vm_compute in E2; discriminate].
  assert (R2: run Hx seqX beforeAdd s2) by (eapply reboot_run; eauto).
  destruct (deleteLast s2) as [s3|] eqn:E3; [|vm_compute in E1; injection E1 as <-; vm_compute in E2; injection E2 as <-; vm_compute in E3; discriminate].
  assert (R3: run Hx seqX beforeAdd s3). { eapply runD; eauto. unfold beforeAdd. vm_compute in E1; injection E1 as <-; vm_compute in E2; injection E2 as <-. reflexivity. }
  destruct (adds [upd 2 [([1],[20])]%N; upd 3 []] s3) as [s4|] eqn:E4.
  - exists s4. split; [eapply adds_run; eauto|]. vm_compute in E1; injection E1 as <-; vm_compute in E2; injection E2 as <-; vm_compute in E3; injection E3 as <-; vm_compute in E4; injection E4 as <-.
    vm_compute. sp; auto. eexists. split; [reflexivity|]. discriminate.
  - vm_compute in E1; injection E1 as <-; vm_compute in E2; injection E2 as <-; vm_compute in E3; injection E3 as <-; vm_compute in E4; discriminate.
Qed.

(** Without [beforeAdd] the hash link breaks: deleteLastReachableBlock does not forget the digest computed for the next block
    (blockchain.cpp future_digest_), so the block added after a deletion points to the deleted block. (Replicas delete only at start-up.) *)
Theorem C15_hash_link_refuted : exists s, run Hx seqX anyP s /\ genB s = 1 /\ lastB s = 3 /\ parentDigest s 3 <> blockDigest Hx s 2.
Proof.
  destruct (adds us3 s00) as [s1|] eqn:E1; [|vm_compute in E1; discriminate].
  assert (R1: run Hx seqX anyP s1) by (eapply adds_run; eauto; constructor).
  destruct (reboot s1) as [s2|] eqn:E2; [|vm_compute in E1; injection E1 as <-; vm_compute in E2; discriminate].
  assert (R2: run Hx seqX anyP s2) by (eapply reboot_run; eauto).
  destruct (then_ (deleteLast s2) (fun s => then_ (add Hx seqX (upd 2 [([1],[20])]%N) s) (fun s => then_ (deleteLast s) (add Hx seqX (upd 2 [([1],[30])]%N))))) as [s3|] eqn:E3.
  - exists s3. split.
    + unfold then_ in E3. destruct (deleteLast s2) as [x|] eqn:X; [|discriminate]. destruct (add Hx seqX (upd 2 [([1],[20])]%N) x) as [y|] eqn:Y; [|discriminate]. destruct (deleteLast y) as [z|] eqn:Z; [|discriminate].
      eapply add_run; [|exact E3]. eapply runD; [|exact Coq.Init.Logic.I|exact Z]. eapply add_run; [|exact Y]. eapply runD; [exact R2|exact Coq.Init.Logic.I|exact X].
    + vm_compute in E1; injection E1 as <-; vm_compute in E2; injection E2 as <-; vm_compute in E3; injection E3 as <-. vm_compute. sp; auto. discriminate.
  - vm_compute in E1; injection E1 as <-; vm_compute in E2; injection E2 as <-; vm_compute in E3; discriminate.
Qed.
Print Assumptions C15_hash_link_refuted.

(** delete_files_in_range removes files at once, before the genesis id is recorded: after a crash in between, the genesis block does not exist. *)
Theorem C15_delete_files_crash_refuted : exists s l keep m, run Hx seqX anyP s /\ deleteUntilFiles keep 3 s = Some ((applyB (deleteFiles keep l (fst s)) [WGen (S l)], setMGen (snd s) (S l)), l) /\
  open (deleteFiles keep l (fst s)) = Some m /\ m_gen m <= m_last m /\ hasBlock (deleteFiles keep l (fst s), m) (m_gen m) = false.
Proof.
  destruct (then_ (adds us3 s00) deleteGenesis) as [s1|] eqn:E1; [|vm_compute in E1; discriminate].
  exists s1, 2, (fun _ => false). eexists. split.
  - unfold then_ in E1. destruct (adds us3 s00) as [s0|] eqn:E0; [|discriminate]. eapply runS; [eapply adds_run; eauto; constructor|]. eapply RGenesis; eauto.
  - vm_compute in E1; injection E1 as <-. split; [vm_compute; reflexivity|]. split; [vm_compute; reflexivity|]. split; [cbn [m_gen m_last]; lia|vm_compute; reflexivity].
Qed.
Print Assumptions C15_delete_files_crash_refuted.

(** addBlockToSTChain with lastBlock = true does not link when the block is already stored: the blocks stay unreachable (until the next restart). *)
Theorem C15_repeated_last_block_refuted : exists s s' b, run Hx seqX anyP s /\ addST Hx seqX 1 b true s = Some s' /\ lastB s' = 0 /\
  exists s2, linkST Hx seqX s' = Some s2 /\ lastB s2 = 1.
Proof.
  pose (b := {| b_parent := zeroD; b_upd := upd 1 [] |}). exists (stPut 1 b s00), (stPut 1 b s00), b. split; [|split; [|split]].
  - eapply runS; [constructor|]. apply RStPut. cbn. lia.
  - vm_compute. reflexivity.
  - reflexivity.
  - eexists. split; [vm_compute; reflexivity|reflexivity].
Qed.
Print Assumptions C15_repeated_last_block_refuted.

(** Blocks 3, 1, 2 and 5 received in this order: 1 to 3 become reachable, 5 waits. *)
Example C15_link_example : exists s s', run Hx seqX (fun _ => False) s /\ linkST Hx seqX s = Some s' /\ lastB s = 0 /\ lastB s' = 3 /\ hasBlock s' 5 = true /\ hasBlock s' 4 = false.
Proof.
  pose (b := fun n => {| b_parent := zeroD; b_upd := upd n [] |}).
  exists (stPut 5 (b 5) (stPut 2 (b 2) (stPut 1 (b 1) (stPut 3 (b 3) s00)))). eexists. split.
  - do 4 (eapply runS; [|apply RStPut; cbn; lia]). constructor.
  - vm_compute. sp; reflexivity.
Qed.

(** * C16 *)
(** What the chain [hs] (newest first, with every block ever added, pruned ones included) says about key [k] of category [c]. *)
Definition answer (x : option (bytes * bool * nat)) : option (nat * bytes) := option_map (fun x => (snd x, fst (fst x))) x.
(** For every history of adds, state transfer, pruning, compaction, crashes and rollbacks of an unfinished sequence number: getLatest returns the
    value and block of the newest write. The only exception: an entry that is marked stale-on-update (or immutable) and whose block is pruned may be gone. *)
Theorem C16_latest : forall H seqOf ct hs s c k, ct cInternal = Versioned -> hrun H seqOf ct hs s ->
  getLatest (fst s) (ct c) c k = answer (newest hs c k) \/
  getLatest (fst s) (ct c) c k = None /\ exists v f ver, newest hs c k = Some (v, f, ver) /\ ver < genB s /\ (f = true \/ ct c = Immutable).
Proof.
  intros H seqOf ct hs s c k CI R. pose proof (hrun_HI _ _ _ CI _ _ R) as [Hc Hl Hw Hb Ht Hm]. unfold getLatest, genB.
  assert (NI: ct c <> Immutable -> match d_lat (fst s) c k with Some (v, _, ver) => Some (ver, v) | None => None end = answer (newest hs c k) \/
     match d_lat (fst s) c k with Some (v, _, ver) => Some (ver, v) | None => None end = None /\ exists v f ver, newest hs c k = Some (v, f, ver) /\ ver < m_gen (snd s) /\ (f = true \/ ct c = Immutable)).
  { intros N. destruct (Ht c k N) as [->|(-> & v & ver & -> & L)]; [left; destruct (newest hs c k) as [[[v f] ver]|]; auto|right; split; auto; exists v, true, ver; auto]. }
  destruct (ct c) eqn:K; try (apply NI; congruence). clear NI. unfold latestVersion. destruct (Hm c k K) as [->|(-> & v & ver & E & L)].
  - destruct (newest hs c k) as [[[v f] ver]|] eqn:N; [|left; auto]. cbn [option_map snd answer]. destruct (newest_block _ _ _ _ _ _ N) as (V & u & ci & N1 & N2 & N3). rewrite Hl in N1.
    unfold getAt. destruct (mget (d_blocks (fst s)) ver) as [b|] eqn:B.
    + specialize (Hb _ _ B). rewrite N1 in Hb. injection Hb as Hb. rewrite <- Hb, N2, N3. left; auto.
    + right. split; auto. exists v, f, ver. sp; auto. destruct (le_lt_dec (m_gen (snd s)) ver); auto. exfalso. apply (c_in _ Hc ver); try lia; auto. destruct (Nat.eq_dec (m_gen (snd s)) 0) as [Z|]; [|lia]. apply (c_zero _ Hc) in Z. lia.
  - right. split; auto. destruct (newest hs c k) as [[[v' f] ver']|]; [|discriminate]. cbn in E. injection E as _ <-. exists v', f, ver'. auto.
Qed.
Print Assumptions C16_latest.

(** Reading at a block returns what this block wrote; nothing for ids outside the chain (above the last block). *)
Theorem C16_get_at : forall H seqOf ct hs s c k i, ct cInternal = Versioned -> hrun H seqOf ct hs s ->
  (genB s <= i <= lastB s -> 1 <= i -> exists u, nth_error hs (lastB s - i) = Some u /\
     getAt (fst s) c k i = match cfGet u c with None => None | Some ci => option_map (fun p => (i, fst p)) (cfGet (c_puts ci) k) end) /\
  (lastB s < i -> getAt (fst s) c k i = None).
Proof.
  intros H seqOf ct hs s c k i CI R. pose proof (hrun_HI _ _ _ CI _ _ R) as [Hc Hl Hw Hb Ht Hm]. unfold genB, lastB, getAt. split.
  - intros I J. assert (X: mget (d_blocks (fst s)) i <> None). { apply (c_in _ Hc); try lia. destruct (Nat.eq_dec (m_gen (snd s)) 0) as [Z|]; [|lia]. apply (c_zero _ Hc) in Z. lia. }
    destruct (mget (d_blocks (fst s)) i) as [b|] eqn:B; [|congruence]. exists (b_upd b). split; [apply Hb; auto|]. destruct (cfGet (b_upd b) c) as [ci|]; auto. destruct (cfGet (c_puts ci) k) as [[v f]|]; auto.
  - intros L. rewrite (c_out _ Hc) by auto. auto.
Qed.
Print Assumptions C16_get_at.

(** Trimming history changes no latest value, except of immutable keys of the trimmed blocks. *)
Theorem C16_prune_keeps_latest : forall H seqOf ct hs s s' l c k, ct cInternal = Versioned -> hrun H seqOf ct hs s ->
  ((exists n, deleteUntil n s = Some (s', l)) \/ (exists keep n, deleteUntilFiles keep n s = Some (s', l)) \/ deleteGenesis s = Some s' /\ l = genB s) ->
  getLatest (fst s') (ct c) c k = getLatest (fst s) (ct c) c k \/
  ct c = Immutable /\ getLatest (fst s') (ct c) c k = None /\ exists ver v, getLatest (fst s) (ct c) c k = Some (ver, v) /\ ver <= l.
Proof.
  intros H seqOf ct hs s s' l c k CI R D.
  assert (F: d_lat (fst s') = d_lat (fst s) /\ d_imm (fst s') = d_imm (fst s) /\ exists f, (forall i, l < i -> f i = false) /\ d_blocks (fst s') = mdelIf f (d_blocks (fst s))).
  { destruct D as [(n & E)|[(keep & n & E)|(E & ->)]].
    - apply deleteUntil_eq in E as (d & m & -> & A & [(B & -> & ->)|(B & C & ->)]); sp; auto.
      + exists (fun _ => false). split; auto. unfold mdelIf. cbn. symmetry. clear. induction (d_blocks d); cbn; congruence.
      + exists (fun i => (1 <=? i) && (i <? S l)). split; auto. intros i I. apply range_f. lia.
    - apply deleteUntilFiles_eq in E as (d & m & -> & A & [(B & -> & ->)|(B & C & ->)]); sp; auto.
      + exists (fun _ => false). split; auto. unfold mdelIf. cbn. symmetry. clear. induction (d_blocks d); cbn; congruence.
      + exists (fun i => (1 <=? i) && (i <? S l) && negb (keep i)). split; auto. intros i I. rewrite range_f; auto.
    - apply deleteGenesis_eq in E as (d & m & -> & A & ->). sp; auto. exists (fun i => i =? m_gen m). split; auto. unfold genB. cbn. intros i I. apply Nat.eqb_neq. lia. }
  destruct F as (F1 & F2 & f & F3 & F4). unfold getLatest, latestVersion, getAt. rewrite F1, F2, F4. destruct (ct c); auto. destruct (d_imm (fst s) c k) as [[[x y] ver]|]; cbn [option_map snd]; auto.
  rewrite mget_delIf. destruct (f ver) eqn:Fv; auto. assert (ver <= l). { destruct (le_lt_dec ver l); auto. rewrite F3 in Fv by auto. discriminate. }
  destruct (mget (d_blocks (fst s)) ver) as [b|]; auto. destruct (cfGet (b_upd b) c) as [ci|]; auto. destruct (cfGet (c_puts ci) k) as [[v g]|]; auto. right. sp; auto. eauto.
Qed.
Print Assumptions C16_prune_keeps_latest.

(** Rollback. In a state [s] of any history, blocks [us] of one new sequence number [q] are added and the process crashes. However often the
    rollback is interrupted and the process restarted: once the last block id is that of [s] again, every key of every category reads as in
    [s], and the blocks are those of [s]. One restart followed by as many deletions as blocks were added gets there, without failing. *)
Fixpoint delN (n : nat) (s : state) : option state := match n with 0 => Some s | S n => match deleteLast s with None => None | Some s' => delN n s' end end.
Theorem C16_rollback_partial : forall H seqOf ct hs s us q s1, ct cInternal = Versioned -> hrun H seqOf ct hs s -> 1 <= genB s -> d_rec (fst s) = [] ->
  match m_sn (snd s) with Some p => p < q | None => d_snap (fst s) = None /\ 0 < q end ->
  us <> [] -> Forall (fun u => wfU ct u /\ seqNum seqOf u = q) us -> addAll H seqOf us s = Some s1 ->
  (forall s2, recov seqOf s1 s2 -> lastB s2 = lastB s -> (forall c k t, getLatest (fst s2) t c k = getLatest (fst s) t c k) /\ genB s2 = genB s /\
     forall i, blockAt s2 i = blockAt s i) /\
  (forall s2, recov seqOf s1 s2 -> lastB s <= lastB s2 ->
     exists m s3, open (storeRevert seqOf (fst s2)) = Some m /\ delN (lastB s2 - lastB s) (storeRevert seqOf (fst s2), m) = Some s3 /\ lastB s3 = lastB s /\ recov seqOf s1 s3).
Proof.
  intros H seqOf ct hs s us q s1 CI R Gp Rc Fr Ne Us A. pose proof (hrun_HI _ _ _ CI _ _ R) as [Hc Hl Hw Hb Ht Hm]. unfold genB, lastB, blockAt in *.
  assert (Uq: Forall (fun u => seqNum seqOf u = q) us) by (eapply Forall_impl; [|exact Us]; cbn; tauto).
  assert (Vw: Forall (wfU ct) (map (addGenesisKey (m_gen (snd s))) us)). { apply Forall_map. eapply Forall_impl; [|exact Us]. intros u (X & _). apply wfU_genKey; auto. }
  assert (Vq: Forall (fun v => seqNum seqOf v = q) (map (addGenesisKey (m_gen (snd s))) us)). { apply Forall_map. eapply Forall_impl; [|exact Us]. intros u (_ & X). rewrite seqNum_genKey. auto. }
  pose proof (AI_addAll H seqOf s q Gp Fr us [] s s1 (AI0 s q Hc Rc) Uq A) as Ai. cbn [app] in Ai.
  assert (Ne': map (addGenesisKey (m_gen (snd s))) us <> []) by (destruct us; [congruence|discriminate]).
  pose proof (AI_RI ct s q Gp _ Vw s1 Ne' Ai) as Ri. split.
  - intros s2 Rv L. destruct (recov_RI H seqOf s q Hc Gp Fr _ Vq _ _ Rv Ri) as [[r1 r2 r3 r4 r5 r6 r7 r8 r9 r10]|(_ & X)]; [|lia]. rewrite L, Nat.sub_diag in r7, r8. cbn in r7, r8.
    assert (B: forall i, mget (d_blocks (fst s2)) i = mget (d_blocks (fst s)) i). { intros i. destruct (le_lt_dec i (m_last (snd s))); auto. rewrite (c_out _ r1), (c_out _ Hc) by lia. auto. }
    split; [|split; auto]. intros c k t. unfold getLatest, latestVersion, getAt. rewrite r7, r8. destruct t; auto. destruct (d_imm (fst s) c k) as [[[x y] ver]|]; cbn [option_map snd]; auto. rewrite B. auto.
  - intros s2 Rv L. destruct (recov_RI H seqOf s q Hc Gp Fr _ Vq _ _ Rv Ri) as [Rj|(_ & X)]; [|lia].
    pose proof (r_c _ _ _ Rj) as C2. pose proof (storeRevert_frame seqOf (fst s2)) as (_ & F & _). assert (C2': CInv (storeRevert seqOf (fst s2), snd s2)) by (apply storeRevert_CInv; destruct s2; auto). pose proof (open_ok _ C2') as O. cbn [fst snd] in O.
    destruct (RI_recover H seqOf s q Hc Gp Fr _ Vq s2 _ _ Rj eq_refl O) as (R3 & L3 & All). eexists. rewrite O. revert R3 L3 All. match goal with |- context [Some ?m = Some _] => set (m3 := m) end. intros R3 L3 All.
    assert (Rv3: recov seqOf s1 (storeRevert seqOf (fst s2), m3)) by (eapply rcC; eauto).
    assert (K: forall n x, RI s (map (addGenesisKey (m_gen (snd s))) us) x -> recov seqOf s1 x -> m_last (snd x) = m_last (snd s) + n -> (forall i, m_last (snd s) < i <= m_last (snd x) -> mget (d_rec (fst x)) i <> None) ->
       exists s3, delN n x = Some s3 /\ m_last (snd s3) = m_last (snd s) /\ recov seqOf s1 s3).
    { induction n as [|n IH]; intros x Rx Rvx Lx Ax; cbn [delN]; [exists x; sp; auto; lia|].
      assert (D: exists y, deleteLast x = Some y). { destruct x as [d m]. unfold deleteLast. cbn [fst snd] in *. pose proof (r_gen _ _ _ Rx) as G. pose proof (c_ge _ Hc). cbn [fst snd] in G. destruct (Nat.eqb_spec (m_last m) 0); [lia|]. destruct (Nat.eqb_spec (m_last m) (m_gen m)); [lia|]. cbn [orb].
        specialize (Ax (m_last m)). destruct (mget (d_rec d) (m_last m)); [eauto|exfalso; apply Ax; auto; lia]. }
      destruct D as (y & D). rewrite D. destruct (RI_del s Hc Gp _ x y Rx ltac:(lia) D) as (Ry & Ly). apply IH; auto.
      - eapply rcD; eauto.
      - lia.
      - intros i I. pose proof (r_c _ _ _ Rx) as Cx. destruct (deleteLast_eq _ _ Cx D) as (d & m & ks & -> & _ & Kk & _ & ->). destruct (keys_frame ks Kk d) as (_ & _ & _ & _ & Er). cbn [fst snd d_rec setBlocks] in *. rewrite Er. apply Ax. lia. }
    destruct (K (m_last (snd s2) - m_last (snd s)) (storeRevert seqOf (fst s2), m3)) as (s3 & D & L4 & Rv4); auto. { cbn [snd]. lia. }
    exists s3. sp; auto.
Qed.
Print Assumptions C16_rollback_partial.

(** ** Concrete histories, limits *)
Definition ctX (c : bytes) : kind := Versioned.
Lemma hrun_adds us : forall hs s s', hrun Hx seqX ctX hs s -> Forall (fun u => wfU ctX u) us -> adds us s = Some s' -> exists hs', hrun Hx seqX ctX hs' s'.
Proof.
  induction us as [|u us IH]; intros hs s s' R W; cbn [adds]; [intros E; injection E as <-; eauto|]. unfold then_. destruct (add Hx seqX u s) as [s1|] eqn:A; [|discriminate]. inversion_clear W as [|? ? W1 W2].
  intros E. unfold add in A. destruct (onNewSN seqX u s) as [s0 sn] eqn:Q. destruct (writeBlock Hx [] (addGenesisKey (m_gen (snd s)) u) s0) as [[d m]|] eqn:B; [|discriminate]. injection A as <-.
  assert (S0: m_gen (snd s0) = m_gen (snd s) /\ m_last (snd s0) = m_last (snd s)). { destruct s as [d0 m0]. destruct (onNewSN_frame seqX u d0 m0) as (F & _). rewrite Q in F. cbn [fst] in F. rewrite F. auto. }
  assert (R0: hrun Hx seqX ctX hs s0). { eapply hSame; [exact R| |]; [|apply S0]. replace s0 with (fst (onNewSN seqX u s)) by (rewrite Q; auto). apply RSnap. }
  pose proof (write_last _ _ _ _ _ B) as L. assert (X: exists b, mget (d_blocks d) (m_last m) = Some b /\ b_upd b = addGenesisKey (m_gen (snd s)) u).
  { destruct s0 as [d0 m0]. apply writeBlock_eff in B; [|apply noop_extra]. destruct B as (p & _ & Eb & _ & _ & _ & _ & El & _). cbn [snd] in *. rewrite Eb, El, mget_put, Nat.eqb_refl. eexists. split; eauto. }
  destruct X as (b & B1 & B2). assert (R1: hrun Hx seqX ctX (b_upd b :: hs) (d, m)). { eapply hNew; [exact R0| |exact L|exact B1|]. - rewrite <- (proj1 S0) in B. eapply RAdd; eauto. - rewrite B2. apply wfU_genKey; auto. }
  eapply IH; [|exact W2|exact E]. eapply hSame; [exact R1|apply (RNote Hx seqX sn (d, m))|]. cbn [snd]. apply noteSN_f.
Qed.
Lemma wf_upd q kv : NoDup (map fst kv) -> wfU ctX (upd q kv).
Proof.
  intros N. split; [cbn; repeat constructor; cbn; intuition discriminate|]. intros c ci [E|[E|[]]]; injection E as <- <-; cbn; sp; auto; try discriminate.
  - rewrite map_map. cbn. auto.
  - repeat constructor; cbn; auto.
Qed.
Lemma wf_us us : forallb (fun u : nat * list (bytes * bytes) => length (snd u) <=? 1) us = true -> Forall (wfU ctX) (map (fun u => upd (fst u) (snd u)) us).
Proof. intros F. apply Forall_map. rewrite forallb_forall in F. apply Forall_forall. intros [q kv] I. apply wf_upd. specialize (F _ I). cbn in *. destruct kv as [|x [|y kv]]; cbn in *; repeat constructor; auto; discriminate. Qed.

(** The hypotheses of C16_rollback_partial are met, with two blocks rolled back. *)
Definition setupU := map (fun u : nat * list (bytes * bytes) => upd (fst u) (snd u)) [(1, [([1],[10])]%N); (2, [([1],[11])]%N)].
Lemma setup_wf : Forall (wfU ctX) setupU.
Proof. apply wf_us. reflexivity. Qed.
Definition lostU := map (fun u : nat * list (bytes * bytes) => upd (fst u) (snd u)) [(3, [([1],[12])]%N); (3, [([1],[13])]%N)].
Lemma lost_wf : Forall (wfU ctX) lostU.
Proof. apply wf_us. reflexivity. Qed.
Example C16_rollback_example : exists hs s s1, hrun Hx seqX ctX hs s /\ 1 <= genB s /\ d_rec (fst s) = [] /\ match m_sn (snd s) with Some p => p < 3 | None => d_snap (fst s) = None /\ 0 < 3 end /\
  Forall (fun u => wfU ctX u /\ seqNum seqX u = 3) lostU /\ addAll Hx seqX lostU s = Some s1 /\ getLatest (fst s) Versioned [97%N] [1%N] = Some (2, [11%N]) /\ getLatest (fst s1) Versioned [97%N] [1%N] = Some (4, [13%N]).
Proof.
  destruct (adds setupU s00) as [s|] eqn:E; [|vm_compute in E; discriminate]. destruct (hrun_adds setupU [] s00 s (h0 _ _ _) setup_wf E) as (hs & R). exists hs, s.
  destruct (addAll Hx seqX lostU s) as [s1|] eqn:A; [|vm_compute in E; injection E as <-; vm_compute in A; discriminate]. exists s1. split; auto.
  vm_compute in E; injection E as <-. vm_compute in A; injection A as <-. split; [cbn; lia|]. split; [reflexivity|]. split; [cbn; lia|]. split; [|sp; vm_compute; reflexivity].
  apply Forall_forall. intros u I. split; [exact (proj1 (Forall_forall _ _) lost_wf u I)|]. destruct I as [<-|[<-|[]]]; reflexivity.
Qed.
(** In the middle of a rollback the latest keys do not match the chain: reverting the newest block of a sequence number restores what was there
    before this sequence number, although an earlier block of it is still in the chain. (Reads are not served then.) *)
Theorem C16_revert_one_block_refuted : exists s s1 s2 s3, (exists hs, hrun Hx seqX ctX hs s) /\ addAll Hx seqX lostU s = Some s1 /\ reboot s1 = Some s2 /\ deleteLast s2 = Some s3 /\
  lastB s3 = 3 /\ getAt (fst s3) [97%N] [1%N] 3 = Some (3, [12%N]) /\ getLatest (fst s3) Versioned [97%N] [1%N] = Some (2, [11%N]).
Proof.
  destruct (adds setupU s00) as [s|] eqn:E; [|vm_compute in E; discriminate]. destruct (hrun_adds setupU [] s00 s (h0 _ _ _) setup_wf E) as (hs & R). exists s.
  vm_compute in E; injection E as <-. do 3 eexists. split; [eauto|]. sp; vm_compute; reflexivity.
Qed.
Print Assumptions C16_revert_one_block_refuted.

(** The condition on the snapshot in C16_rollback_partial is needed. After a clean restart the first sequence number takes no snapshot, because one
    is recorded (v4_blockchain.cpp:251-259) - but that one is older than the last sequence number before the restart. If the process then
    crashes within this first sequence number, the rollback takes keys back to values older than those of the blocks that remain. *)
Theorem C16_rollback_after_restart_refuted : exists s s1 s2 s3 s4, (exists hs, hrun Hx seqX ctX hs s) /\ reboot s = Some s1 /\
  addAll Hx seqX lostU (dropRecovery s1) = Some s2 /\ reboot s2 = Some s3 /\ delN 2 s3 = Some s4 /\ lastB s4 = lastB s /\
  getLatest (fst s) Versioned [97%N] [1%N] = Some (2, [11%N]) /\ getLatest (fst s4) Versioned [97%N] [1%N] = Some (1, [10%N]) /\ getAt (fst s4) [97%N] [1%N] 2 = Some (2, [11%N]).
Proof.
  destruct (adds setupU s00) as [s|] eqn:E; [|vm_compute in E; discriminate]. destruct (hrun_adds setupU [] s00 s (h0 _ _ _) setup_wf E) as (hs & R). exists s.
  vm_compute in E; injection E as <-. do 4 eexists. split; [eauto|]. sp; vm_compute; reflexivity.
Qed.
Print Assumptions C16_rollback_after_restart_refuted.

(** Reading many latest values agrees with reading them one by one: always for non-immutable categories; for immutable ones if equal versions
    are adjacent in the request. *)
Lemma adj_spec l : nodupb (adjDedup l) = true <-> forall a b c x, l = a ++ x :: b ++ x :: c -> Forall (eq x) b.
Proof.
  assert (Hd: forall l x, exists t, adjDedup (x :: l) = x :: t). { induction l0 as [|y l0 IH]; intros x; [exists []; auto|]. cbn [adjDedup]. destruct (Nat.eqb_spec x y) as [->|]; [apply IH|eauto]. }
  assert (In_: forall l x, In x (adjDedup l) <-> In x l). { induction l0 as [|y l0 IH]; intros x; [tauto|]. cbn [adjDedup]. destruct l0 as [|z l0]; [tauto|]. destruct (Nat.eqb_spec y z) as [->|]; rewrite ?IH; cbn [In]; [intuition|]. rewrite IH. cbn. tauto. }
  induction l as [|y l IH]; [split; auto; intros _ [|? ?] b c x X; discriminate|]. cbn [adjDedup]. destruct l as [|z l]; [split; auto; intros _ [|? a] b c x X; [destruct b; discriminate|destruct a; discriminate]|].
  destruct (Nat.eqb_spec y z) as [->|N].
  - rewrite IH. split; intros K a b c x X.
    + destruct a as [|a0 a]; cbn [app] in X; [|injection X as <- X; eapply (K a); eauto]. injection X as <- X. destruct b as [|b0 b]; auto. cbn [app] in X. injection X as <- X. constructor; auto. apply (K [] b c); cbn; congruence.
    + apply (K (z :: a) b c x). cbn. congruence.
  - cbn [nodupb]. rewrite andb_true_iff, negb_true_iff, IH. split.
    + intros (A & K) a b c x X. destruct a as [|a0 a]; cbn [app] in X; [|injection X as <- X; eapply (K a); eauto]. injection X as <- X. exfalso.
      rewrite <- not_true_iff_false, existsb_exists in A. apply A. exists y. split; [|apply Nat.eqb_refl]. apply In_. rewrite X, in_app_iff. cbn. auto.
    + intros K. split.
      * rewrite <- not_true_iff_false, existsb_exists. intros (x & I & E). apply Nat.eqb_eq in E. subst x. apply -> In_ in I. apply in_split in I as (b & c & X). destruct b as [|b0 b]; cbn in X; [injection X as X _; symmetry in X; contradiction|]. injection X as <- X.
        specialize (K [] (z :: b) c y). cbn in K. rewrite X in K. specialize (K eq_refl). inversion K; congruence.
      * intros a b c x X. apply (K (y :: a) b c x). cbn. congruence.
Qed.
Theorem C16_multi_get_latest_partial : forall d ct c ks,
  (ct <> Immutable -> multiGetLatest d ct c ks = Some (map (getLatest d ct c) ks)) /\
  (ct = Immutable -> mget (d_blocks d) 0 = None ->
     (forall a b e k k', ks = a ++ k :: b ++ k' :: e -> latestVersion d ct c k = latestVersion d ct c k' -> Forall (fun x => latestVersion d ct c x = latestVersion d ct c k) b) ->
     (forall k, In k ks -> latestVersion d ct c k <> Some 0) ->
     multiGetLatest d ct c ks = Some (map (getLatest d ct c) ks)).
Proof.
  intros d ct c ks. split; [destruct ct; auto; congruence|]. intros -> B0 Adj V0. unfold multiGetLatest, multiGet. rewrite map_length, Nat.eqb_refl. set (ver := fun k => match latestVersion d Immutable c k with Some v => v | None => 0 end).
  assert (VI: forall k k', In k ks -> In k' ks -> ver k = ver k' -> latestVersion d Immutable c k = latestVersion d Immutable c k').
  { intros k k' I I' E. unfold ver in E. pose proof (V0 k I). pose proof (V0 k' I'). destruct (latestVersion d Immutable c k), (latestVersion d Immutable c k'); congruence. }
  assert (N: nodupb (adjDedup (map ver ks)) = true).
  { apply adj_spec. intros a b e x X. apply map_eq_app in X as (a' & t & -> & <- & X). destruct t as [|k t]; [discriminate|]. cbn [map] in X. injection X as X1 X. apply map_eq_app in X as (b' & t' & -> & <- & X). destruct t' as [|k' t']; [discriminate|]. cbn [map] in X. injection X as X2 _.
    apply Forall_map. assert (L: latestVersion d Immutable c k = latestVersion d Immutable c k'). { apply VI; rewrite ?in_app_iff; cbn; rewrite ?in_app_iff; cbn; auto. congruence. }
    eapply Forall_impl; [|apply (Adj a' b' t' k k' eq_refl L)]. cbn. intros y Y. rewrite <- X1. unfold ver. rewrite Y. auto. }
  rewrite N. f_equal. fold ver. clear - B0. induction ks as [|k ks IH]; auto. cbn [map combine fst snd]. f_equal; auto. unfold getLatest, ver. destruct (latestVersion d Immutable c k) as [v|]; auto. unfold getAt. rewrite B0. auto.
Qed.
Print Assumptions C16_multi_get_latest_partial.
(** Otherwise the call throws: equal block ids are removed only when adjacent (std::unique without sorting, blockchain.cpp:226-227). *)
Definition immU : updates := [([98]%N, {| c_kind := Immutable; c_puts := [([1], ([10], true)); ([2], ([20], true)); ([3], ([30], true))]%N; c_dels := [] |})].
Definition immU2 : updates := [([98]%N, {| c_kind := Immutable; c_puts := [([4], ([40], true))]%N; c_dels := [] |})].
Theorem C16_multi_get_latest_refuted : exists s, run Hx seqX anyP s /\ getLatest (fst s) Immutable [98%N] [1%N] = Some (1, [10%N]) /\ getLatest (fst s) Immutable [98%N] [2%N] = Some (1, [20%N]) /\ getLatest (fst s) Immutable [98%N] [4%N] = Some (2, [40%N]) /\ multiGetLatest (fst s) Immutable [98%N] [[1%N]; [4%N]; [2%N]] = None /\ multiGetLatest (fst s) Immutable [98%N] [[1%N]; [2%N]; [4%N]] <> None.
Proof.
  destruct (adds [immU; immU2] s00) as [s|] eqn:E; [|vm_compute in E; discriminate]. exists s. split; [eapply adds_run; eauto; constructor|]. vm_compute in E; injection E as <-. sp; try (vm_compute; reflexivity). vm_compute. discriminate.
Qed.
Print Assumptions C16_multi_get_latest_refuted.
