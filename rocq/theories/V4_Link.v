(** Linking of the state-transfer chain. *)
From Coq Require Import List Arith NArith Lia Bool.
From Verif Require Import Lib_Bytes Keys_Model Keys_Proofs Lib_CF V4_Model V4_Proofs.
Import ListNotations.
Local Open Scope nat_scope.

Ltac sp := repeat match goal with |- _ /\ _ => split end.
Section Link.
Variable H : nat -> block -> bytes.
Variable seqOf : bytes -> nat.
Notation run := (run H seqOf).

(** API calls are sequences of steps. *)
Lemma add_run P u s s' : run P s -> add H seqOf u s = Some s' -> run P s'.
Proof.
  intros R. unfold add. destruct (onNewSN seqOf u s) as [s1 sn] eqn:E. destruct (writeBlock H [] (addGenesisKey (m_gen (snd s)) u) s1) as [[d m]|] eqn:W; [|discriminate].
  intros Q; injection Q as <-. assert (R1: run P s1) by (eapply runS; [eauto|replace s1 with (fst (onNewSN seqOf u s)) by (rewrite E; auto); constructor]).
  assert (G: m_gen (snd s1) = m_gen (snd s)). { destruct s as [d0 m0]. destruct (onNewSN_frame seqOf u d0 m0) as (A & _). rewrite E in A. cbn in A. cbn. rewrite A. auto. }
  rewrite <- G in W. eapply runS; [|apply (RNote _ _ sn (d, m))]. eapply runS; [eauto|]. apply RAdd with u. auto.
Qed.
Lemma pruneLoop_run P n : forall g s s', run P s -> pruneLoop n g s = Some s' -> run P s'.
Proof.
  induction n as [|n IH]; intros g s s' R; cbn [pruneLoop]; [intros E; injection E as <-; auto|].
  destruct (_ && _); [|intros E; injection E as <-; auto]. destruct (deleteGenesis s) as [s1|] eqn:D; [|discriminate]. apply IH. eapply runS; [eauto|]. apply RGenesis. auto.
Qed.
Lemma linkOne_run P s s' b : run P s -> mget (d_st (fst s)) (S (m_last (snd s))) = Some b -> linkOne H seqOf (S (m_last (snd s))) (b_upd b) s = Some s' -> run P s'.
Proof.
  intros R G. unfold linkOne. destruct (onNewSN seqOf (b_upd b) s) as [s1 sn] eqn:E. destruct (writeBlock H _ (b_upd b) s1) as [s2|] eqn:W; [|discriminate].
  assert (R1: run P s1) by (eapply runS; [eauto|replace s1 with (fst (onNewSN seqOf (b_upd b) s)) by (rewrite E; auto); constructor]).
  assert (A: m_last (snd s1) = m_last (snd s) /\ d_st (fst s1) = d_st (fst s)). { destruct s as [d0 m0]. destruct (onNewSN_frame seqOf (b_upd b) d0 m0) as (A & _ & B & _). rewrite E in A, B. cbn [fst snd] in *. rewrite A. auto. }
  destruct A as (A1 & A2). rewrite <- A1, <- A2 in G. rewrite <- A1 in W.
  assert (R2: run P s2) by (eapply runS; [eauto|eapply RLink; eauto]).
  unfold pruneOnLink. destruct (recordedGenesis (b_upd b)) as [g|].
  - destruct (pruneLoop (m_last (snd s2)) g s2) as [[d m]|] eqn:Pr; [|discriminate]. intros Q; injection Q as <-. apply pruneLoop_run with (P := P) in Pr; auto. eapply runS; [eauto|apply (RNote _ _ sn (d, m))].
  - destruct s2 as [d m]. intros Q; injection Q as <-. eapply runS; [eauto|apply (RNote _ _ sn (d, m))].
Qed.

(** Effect of the pruning loop. *)
Lemma pruneLoop_eff n : forall g s, CInv s -> exists s', pruneLoop n g s = Some s' /\
  m_last (snd s') = m_last (snd s) /\ m_gen (snd s) <= m_gen (snd s') /\ m_future (snd s') = m_future (snd s) /\ m_stlast (snd s') = m_stlast (snd s) /\
  d_st (fst s') = d_st (fst s) /\ (forall i, m_gen (snd s') <= i -> mget (d_blocks (fst s')) i = mget (d_blocks (fst s)) i).
Proof.
  induction n as [|n IH]; intros g s CI; cbn [pruneLoop]; [eexists; split; eauto; auto 10|].
  destruct ((1 <=? m_gen (snd s)) && (m_gen (snd s) <? m_last (snd s)) && (m_gen (snd s) <? g)) eqn:E; [|eexists; split; eauto; auto 10].
  destruct s as [d m]. cbn [snd] in E. apply andb_true_iff in E as (E & E3). apply andb_true_iff in E as (E1 & E2). unfold deleteGenesis. apply Nat.leb_le in E1. rewrite (proj2 (Nat.ltb_lt 0 _)), E2 by lia. cbn [andb].
  set (s1 := (applyB d [WBlockDel (m_gen m); WGen (S (m_gen m))], setMGen m (S (m_gen m)))).
  assert (C1: CInv s1). { apply Nat.ltb_lt in E2. apply (CInv_prune d m (S (m_gen m)) (fun i => i =? m_gen m)); auto. intros i X. apply Nat.eqb_neq. lia. }
  destruct (IH g s1 C1) as (s' & A & B & C & D & E & F & G). exists s'. split; auto. cbn in B, C, D, E, F. cbn [fst snd]. repeat split; auto; try lia.
  intros i X. rewrite G by auto. change (d_blocks (fst s1)) with (mdel (d_blocks d) (m_gen m)). rewrite mget_del. destruct (Nat.eqb_spec i (m_gen m)); auto. lia.
Qed.
Lemma pruneLoop_CInv n : forall g s s', CInv s -> pruneLoop n g s = Some s' -> CInv s'.
Proof.
  induction n as [|n IH]; intros g s s' CI; cbn [pruneLoop]; [intros X; injection X as <-; auto|]. destruct (_ && _); [|intros X; injection X as <-; auto].
  destruct (deleteGenesis s) as [s1|] eqn:D; [|discriminate]. apply IH. eapply (step_CInv H seqOf); [eauto|]. apply RGenesis. auto.
Qed.
Lemma noteSN_f n m : m_last (noteSN n m) = m_last m /\ m_gen (noteSN n m) = m_gen m /\ m_future (noteSN n m) = m_future m /\ m_stlast (noteSN n m) = m_stlast m.
Proof. unfold noteSN. destruct (0 <? n); auto. Qed.

(** What the next block's parent digest will be. *)
Definition nextParent (s : state) : option bytes := match m_future (snd s) with Some x => Some x | None => calcDigest H (fst s) (m_last (snd s)) end.
Lemma nextParent_some s : CInv s -> exists p, nextParent s = Some p.
Proof.
  intros [Ge Z In Out N0 G S0 Rc]. unfold nextParent, calcDigest. destruct (m_future (snd s)); eauto. destruct (Nat.ltb_spec (m_last (snd s)) 1); eauto.
  destruct (mget (d_blocks (fst s)) (m_last (snd s))) as [b|] eqn:E; eauto. exfalso. apply (In (m_last (snd s))); auto. lia.
Qed.
Lemma add_some u s : CInv s -> exists s', add H seqOf u s = Some s'.
Proof.
  intros CI. unfold add. destruct (onNewSN seqOf u s) as [s1 sn] eqn:E.
  assert (C1: CInv s1). { replace s1 with (fst (onNewSN seqOf u s)) by (rewrite E; auto). eapply step_CInv; [exact CI|apply (RSnap H seqOf u s)]. }
  destruct (nextParent_some s1 C1) as (p & N). unfold nextParent in N. destruct s1 as [d m]. unfold writeBlock. cbn [fst snd] in N. rewrite N. eauto.
Qed.
Lemma linkOne_eff u s : CInv s -> exists s' p, linkOne H seqOf (S (m_last (snd s))) u s = Some s' /\ nextParent s = Some p /\
  m_last (snd s') = S (m_last (snd s)) /\ m_stlast (snd s') = m_stlast (snd s) /\ d_st (fst s') = mdel (d_st (fst s)) (S (m_last (snd s))) /\
  m_future (snd s') = Some (H (S (m_last (snd s))) {| b_parent := p; b_upd := u |}) /\ m_gen (snd s) <= m_gen (snd s') /\ CInv s' /\
  (forall i, m_gen (snd s') <= i -> mget (d_blocks (fst s')) i = if i =? S (m_last (snd s)) then Some {| b_parent := p; b_upd := u |} else mget (d_blocks (fst s)) i).
Proof.
  intros CI. destruct (nextParent_some s CI) as (p & N). unfold linkOne. destruct (onNewSN seqOf u s) as [s1 sn] eqn:E.
  assert (A: snd s1 = snd s /\ d_blocks (fst s1) = d_blocks (fst s) /\ d_st (fst s1) = d_st (fst s)). { destruct s as [d0 m0]. destruct (onNewSN_frame seqOf u d0 m0) as (A & B & C & _). rewrite E in A, B, C. auto. }
  assert (C1: CInv s1). { replace s1 with (fst (onNewSN seqOf u s)) by (rewrite E; auto). eapply step_CInv; [exact CI|apply (RSnap H seqOf u s)]. }
  destruct A as (A1 & A2 & A3). destruct s as [d m], s1 as [d1 m1]. cbn [fst snd] in *. subst m1.
  destruct (writeBlock H [WStDel (S (m_last m))] u (d1, m)) as [[d2 m2]|] eqn:W.
  2:{ exfalso. unfold writeBlock, nextParent in *. cbn [fst snd] in N. unfold calcDigest in *. rewrite A2 in W. rewrite N in W. discriminate. }
  assert (C2: CInv (d2, m2)) by (eapply CInv_write; eauto using stdel_extra, stdel_st0).
  pose proof W as W0. apply writeBlock_eff in W0; [|apply stdel_extra]. destruct W0 as (q & Q & Eb & Es & Eg & Er & _ & El & Em & Et & _ & Ef).
  assert (q = p). { unfold nextParent, calcDigest in *. cbn [fst snd] in N. rewrite A2 in Q. rewrite Q in N. injection N as ->. auto. } subst q.
  assert (Pr: exists s3, pruneOnLink u (d2, m2) = Some s3 /\ m_last (snd s3) = m_last m2 /\ m_gen m2 <= m_gen (snd s3) /\ m_future (snd s3) = m_future m2 /\ m_stlast (snd s3) = m_stlast m2 /\
    d_st (fst s3) = d_st d2 /\ CInv s3 /\ forall i, m_gen (snd s3) <= i -> mget (d_blocks (fst s3)) i = mget (d_blocks d2) i).
  { unfold pruneOnLink. destruct (recordedGenesis u) as [g|]; [|eexists; split; eauto; cbn; auto 10].
    destruct (pruneLoop_eff (m_last m2) g (d2, m2) C2) as (s3 & B1 & B2 & B3 & B4 & B5 & B6 & B7). exists s3. cbn [fst snd] in *. sp; auto.
    eapply pruneLoop_CInv; eauto. }
  destruct Pr as ((d3 & m3) & P1 & P2 & P3 & P4 & P5 & P6 & P7 & P8). cbn [snd] in *. rewrite P1. cbn [fst snd] in *.
  destruct (noteSN_f sn m3) as (F1 & F2 & F3 & F4). exists (d3, noteSN sn m3), p. cbn [fst snd]. rewrite F1, F2, F3, F4. sp; auto.
  - congruence. 
  - congruence.
  - rewrite P6, Es. cbn. rewrite A3. auto.
  - rewrite P4, Ef. auto.
  - rewrite Em in P3. destruct (Nat.eqb_spec (m_gen m) 0); lia.
  - eapply CInv_same; [..|exact P7]; auto.
  - intros i X. rewrite P8, Eb, mget_put, A2; auto.
Qed.

(** The loop of linkSTChain, from the block after the last reachable one. *)
Lemma linkLoop_eff n : forall s, CInv s -> exists s' full, linkLoop H seqOf n (S (m_last (snd s))) s = Some (s', full) /\ CInv s' /\
  m_last (snd s) <= m_last (snd s') <= m_last (snd s) + n /\
  (full = true -> m_last (snd s') = m_last (snd s) + n) /\ (full = false -> mget (d_st (fst s)) (S (m_last (snd s'))) = None /\ m_last (snd s') < m_last (snd s) + n) /\
  m_stlast (snd s') = m_stlast (snd s) /\ m_gen (snd s) <= m_gen (snd s') /\
  (forall i, mget (d_st (fst s')) i = if (m_last (snd s) <? i) && (i <=? m_last (snd s')) then None else mget (d_st (fst s)) i) /\
  (forall i, m_last (snd s) < i <= m_last (snd s') -> mget (d_st (fst s)) i <> None) /\
  (forall i, m_gen (snd s') <= i -> i <= m_last (snd s) -> mget (d_blocks (fst s')) i = mget (d_blocks (fst s)) i) /\
  (forall i b, m_gen (snd s') <= i -> m_last (snd s) < i <= m_last (snd s') -> mget (d_st (fst s)) i = Some b -> exists b', mget (d_blocks (fst s')) i = Some b' /\ b_upd b' = b_upd b).
Proof.
  induction n as [|n IH]; intros s CI; cbn [linkLoop].
  { exists s, true. sp; auto; try lia; try discriminate. intros i. destruct ((m_last (snd s) <? i) && (i <=? m_last (snd s))) eqn:E; auto. apply andb_true_iff in E as (A & B). apply Nat.ltb_lt in A. apply Nat.leb_le in B. lia. }
  destruct (mget (d_st (fst s)) (S (m_last (snd s)))) as [b|] eqn:E.
  2:{ exists s, false. sp; auto; try lia; try discriminate; [intros _; split; auto; lia|]. intros i. destruct ((m_last (snd s) <? i) && (i <=? m_last (snd s))) eqn:F; auto. apply andb_true_iff in F as (A & B). apply Nat.ltb_lt in A. apply Nat.leb_le in B. lia. }
  destruct (linkOne_eff (b_upd b) s CI) as (s1 & p & L & N & E1 & E2 & E3 & E4 & E5 & C1 & E6). rewrite L, <- E1.
  destruct (IH s1 C1) as (s' & full & A1 & A2 & A3 & A4 & A5 & A6 & A7 & A8 & A9 & A10 & A11). exists s', full. rewrite E1 in *. sp; auto; try lia.
  - intros F. apply A4 in F. lia.
  - intros F. apply A5 in F as (X & Y). split; [|lia]. rewrite E3, mget_del in X. destruct (Nat.eqb_spec (S (m_last (snd s'))) (S (m_last (snd s)))); [lia|auto].
  - intros i. rewrite A8, E3, mget_del. destruct (Nat.ltb_spec (m_last (snd s)) i); destruct (Nat.ltb_spec (S (m_last (snd s))) i); destruct (Nat.leb_spec i (m_last (snd s'))); destruct (Nat.eqb_spec i (S (m_last (snd s)))); cbn; auto; lia.
  - intros i X. destruct (Nat.eq_dec i (S (m_last (snd s)))) as [->|Ne]; [rewrite E; discriminate|]. specialize (A9 i). rewrite E3, mget_del in A9. destruct (Nat.eqb_spec i (S (m_last (snd s)))); [lia|]. apply A9. lia.
  - intros i X Y. rewrite A10, E6; try lia. destruct (Nat.eqb_spec i (S (m_last (snd s)))); [lia|auto].
  - intros i c X Y Z. destruct (Nat.eq_dec i (S (m_last (snd s)))) as [->|Ne].
    + rewrite E in Z; injection Z as <-. rewrite A10, E6, Nat.eqb_refl by lia. eexists; split; eauto.
    + apply A11; auto; [lia|]. rewrite E3, mget_del. destruct (Nat.eqb_spec i (S (m_last (snd s)))); [lia|auto].
Qed.
(** Agreement with the chain the blocks came from. *)
Lemma linkLoop_src n (src : nat -> block) : forall s, CInv s ->
  (forall i b, m_last (snd s) < i -> mget (d_st (fst s)) i = Some b -> b = src i) ->
  (forall i, m_last (snd s) < i -> b_parent (src i) = if i <=? 1 then zeroD else H (i - 1) (src (i - 1))) ->
  nextParent s = Some (b_parent (src (S (m_last (snd s))))) ->
  forall s' full, linkLoop H seqOf n (S (m_last (snd s))) s = Some (s', full) ->
  forall i, m_gen (snd s') <= i -> m_last (snd s) < i <= m_last (snd s') -> mget (d_blocks (fst s')) i = Some (src i).
Proof.
  induction n as [|n IH]; intros s CI St Li Np s' full; cbn [linkLoop].
  { intros E; injection E as <- <-. intros; lia. }
  destruct (mget (d_st (fst s)) (S (m_last (snd s)))) as [b|] eqn:E; [|intros X; injection X as <- <-; intros; lia].
  destruct (linkOne_eff (b_upd b) s CI) as (s1 & p & L & N & E1 & E2 & E3 & E4 & E5 & C1 & E6). rewrite L, <- E1. intros Lk.
  assert (B: {| b_parent := p; b_upd := b_upd b |} = src (S (m_last (snd s)))). { rewrite N in Np; injection Np as ->. apply St in E; [|lia]. rewrite <- E. destruct b; auto. }
  intros i X Y. destruct (Nat.eq_dec i (S (m_last (snd s)))) as [->|Ne].
  - destruct (linkLoop_eff n s1 C1) as (s2 & f2 & A1 & A2 & A3 & A4 & A5 & A6 & A7 & A8 & A9 & A10 & A11). rewrite Lk in A1; injection A1 as <- <-. rewrite A10 by lia. rewrite E6 by lia. rewrite Nat.eqb_refl, B. auto.
  - eapply (IH s1); eauto; try (rewrite E1; lia).
    + intros j c. rewrite E1, E3, mget_del. intros J. destruct (Nat.eqb_spec j (S (m_last (snd s)))); [discriminate|]. apply St. lia.
    + intros j J. apply Li. lia.
    + unfold nextParent. rewrite E4, E1, B, Li by lia. cbn. auto.
Qed.
End Link.
