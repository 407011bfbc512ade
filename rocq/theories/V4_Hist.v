(** Reads of the v4 chain against its history. *)
From Coq Require Import List Arith NArith Lia Bool.
From Verif Require Import Lib_Bytes Keys_Model Keys_Proofs Lib_CF V4_Model V4_Proofs V4_Link V4_Latest V4_Recover.
Import ListNotations.
Local Open Scope nat_scope.

Section Hist.
Variable H : nat -> block -> bytes.
Variable seqOf : bytes -> nat.
Variable ct : bytes -> kind.

(** An execution together with the updates of every block of its chain (also the pruned ones), newest first. Every step of [step] is
    allowed, crashes included; blocks are rolled back only as replicas do it: after a crash in the middle of one BFT sequence number
    [q], all the blocks of that number are removed by restarting (possibly several times). The snapshot must be the one taken when [q]
    began, i.e. the process had seen an earlier sequence number, or none was ever recorded. *)
Inductive hrun : list updates -> state -> Prop :=
| h0 : hrun [] (emptyDisk, {| m_last := 0; m_gen := 0; m_future := None; m_stlast := 0; m_sn := None |})
| hSame hs s s' : hrun hs s -> step H seqOf s s' -> m_last (snd s') = m_last (snd s) -> hrun hs s'
| hNew hs s s' b : hrun hs s -> step H seqOf s s' -> m_last (snd s') = S (m_last (snd s)) ->
    mget (d_blocks (fst s')) (m_last (snd s')) = Some b -> wfU ct (b_upd b) -> hrun (b_upd b :: hs) s'
| hRoll hs s us q s1 s2 : hrun hs s -> 0 < m_gen (snd s) -> d_rec (fst s) = [] ->
    match m_sn (snd s) with Some p => p < q | None => d_snap (fst s) = None /\ 0 < q end ->
    us <> [] -> Forall (fun u => wfU ct u /\ seqNum seqOf u = q) us -> addAll H seqOf us s = Some s1 ->
    recov seqOf s1 s2 -> m_last (snd s2) = m_last (snd s) -> hrun hs s2.

Definition okL (g : nat) (spec got : option lkval) : Prop := got = spec \/ (got = None /\ exists v ver, spec = Some (v, true, ver) /\ ver < g).
Record HI (hs : list updates) (s : state) : Prop := {
  h_c : CInv s; h_len : length hs = m_last (snd s); h_wf : Forall (wfU ct) hs;
  h_blk : forall i b, mget (d_blocks (fst s)) i = Some b -> nth_error hs (m_last (snd s) - i) = Some (b_upd b);
  h_lat : forall c k, ct c <> Immutable -> okL (m_gen (snd s)) (newest hs c k) (d_lat (fst s) c k);
  h_imm : forall c k, ct c = Immutable -> okL (m_gen (snd s)) (option_map (fun x => ([], true, snd x)) (newest hs c k)) (d_imm (fst s) c k) }.

Lemma okL_mono g g' a b : g <= g' -> okL g a b -> okL g' a b.
Proof. intros L [->|(-> & v & ver & -> & X)]; [left; auto|right; split; auto; exists v, ver; split; auto; lia]. Qed.

(** Steps that keep the last block: blocks only disappear, the genesis only grows, latest keys only lose droppable entries. *)
Definition lkShrink (g : nat) (m m' : lkmap) : Prop := forall c k, m' c k = m c k \/ (m' c k = None /\ exists v, m c k = Some v /\ mayDrop g v = true).
Lemma shrink_refl g m : lkShrink g m m.
Proof. intros c k; auto. Qed.
Lemma write_last ex u s s' : writeBlock H ex u s = Some s' -> m_last (snd s') = S (m_last (snd s)).
Proof. destruct s as [d m]. unfold writeBlock. destruct (match m_future m with Some x => Some x | None => calcDigest H d (m_last m) end); [|discriminate]. intros E; injection E as <-. auto. Qed.
Lemma step_same s s' : CInv s -> step H seqOf s s' -> m_last (snd s') = m_last (snd s) ->
  m_gen (snd s) <= m_gen (snd s') /\ (forall i b, mget (d_blocks (fst s')) i = Some b -> mget (d_blocks (fst s)) i = Some b) /\
  lkShrink (m_gen (snd s')) (d_lat (fst s)) (d_lat (fst s')) /\ lkShrink (m_gen (snd s')) (d_imm (fst s)) (d_imm (fst s')).
Proof.
  intros CI St L. destruct St as [u s|u s s' W|n s|b s s' G W|s _|id b s Lt|s s' E|n s s' l E|keep n s s' l E|i c k s|s d m E O|s]; destruct s as [d0 m0]; cbn [fst snd] in *.
  - destruct (onNewSN_frame seqOf u d0 m0) as (A & B & C & D & E & F & G). rewrite A, B, F, G. auto using shrink_refl.
  - apply write_last in W. cbn [snd] in W. lia.
  - destruct (noteSN_f n m0) as (_ & -> & _). auto using shrink_refl.
  - apply write_last in W. cbn [snd] in W. lia.
  - auto using shrink_refl.
  - unfold stPut. cbn [fst snd]. destruct (id <=? m_stlast m0); cbn; auto using shrink_refl.
  - apply deleteGenesis_eq in E as (d & m & Q & A & ->). injection Q as <- <-. cbn [fst snd m_gen setMGen d_blocks d_lat d_imm setGen setBlocks]. sp; auto using shrink_refl; try lia.
    intros j b. rewrite mget_delIf. destruct (j =? m_gen m0); [discriminate|auto].
  - apply deleteUntil_eq in E as (d & m & Q & A & [(_ & -> & _)|(B & C & ->)]); [cbn; auto using shrink_refl|]. injection Q as <- <-. pose proof (c_ge _ CI) as Ge. cbn [fst snd] in Ge.
    cbn [fst snd m_gen setMGen d_blocks d_lat d_imm setGen setBlocks]. sp; auto using shrink_refl; try lia. intros j b. rewrite mget_delIf. destruct (_ && _); [discriminate|auto].
  - apply deleteUntilFiles_eq in E as (d & m & Q & A & [(_ & -> & _)|(B & C & ->)]); [cbn; auto using shrink_refl|]. injection Q as <- <-. pose proof (c_ge _ CI) as Ge. cbn [fst snd] in Ge.
    cbn [fst snd m_gen setMGen d_blocks d_lat d_imm setGen setBlocks]. sp; auto using shrink_refl; try lia. intros j b. rewrite mget_delIf. destruct (_ && _); [discriminate|auto].
  - unfold compact in *. destruct ((if i then d_imm d0 else d_lat d0) c k) as [v|] eqn:V; [|cbn; auto using shrink_refl]. destruct (mayDrop (m_gen m0) v) eqn:D; [|cbn; auto using shrink_refl].
    cbn [fst snd]. destruct (keys_frame [if i then WImm c k None else WLat c k None]) with (d := d0) as (A & _); [destruct i; auto|]. rewrite A.
    rewrite applyB_lat, applyB_imm. sp; auto; destruct i; cbn [latB immB fold_left lat1 imm1]; try apply shrink_refl.
    all: intros c' k'; rewrite lkset_eq; destruct (beqb c' c && beqb k' k) eqn:X; auto; apply andb_true_iff in X as (X1 & X2); apply beqb_eq in X1, X2; subst; right; split; eauto.
  - pose proof (storeRevert_frame seqOf d0) as F. cbn zeta in F. rewrite <- E in F. destruct F as (F1 & F2 & F3 & F4 & F5 & F6).
    apply (storeRevert_CInv seqOf) in CI. rewrite <- E in CI. pose proof (open_ok _ CI) as Op. cbn [fst snd] in Op. rewrite Op in O. injection O as <-. cbn [m_gen]. rewrite F1, F4, F5. auto using shrink_refl.
  - auto using shrink_refl.
Qed.
Lemma okL_shrink g spec a b : okL g spec a -> (b = a \/ (b = None /\ exists v, a = Some v /\ mayDrop g v = true)) -> okL g spec b.
Proof.
  intros O [->|(-> & [[v st] ver] & -> & D)]; auto. cbn in D. apply andb_true_iff in D as (-> & D). apply Nat.ltb_lt in D. destruct O as [<-|(X & _)]; [|discriminate]. right. split; auto. eauto.
Qed.
(** Steps that append a block. *)
Lemma write_lat ex u d m d' m' : (forall x, d_lat (applyB x ex) = d_lat x /\ d_imm (applyB x ex) = d_imm x) -> writeBlock H ex u (d, m) = Some (d', m') ->
  d_lat d' = latB (d_lat d) (keyOps (S (m_last m)) u) /\ d_imm d' = immB (d_imm d) (keyOps (S (m_last m)) u).
Proof.
  intros X W. unfold writeBlock in W. destruct (match m_future m with Some x => Some x | None => calcDigest H d (m_last m) end) as [p|]; [|discriminate]. injection W as <- _.
  rewrite applyB_app. change (applyB ?d (?o :: ?r)) with (applyB (apply1 d o) r). rewrite applyB_lat, applyB_imm. cbn [apply1 d_lat d_imm setBlocks]. destruct (X d) as (-> & ->). auto.
Qed.
Lemma step_new s s' : CInv s -> step H seqOf s s' -> m_last (snd s') = S (m_last (snd s)) ->
  exists u p, d_blocks (fst s') = mput (d_blocks (fst s)) (S (m_last (snd s))) {| b_parent := p; b_upd := u |} /\ m_gen (snd s) <= m_gen (snd s') /\
    d_lat (fst s') = latB (d_lat (fst s)) (keyOps (S (m_last (snd s))) u) /\ d_imm (fst s') = immB (d_imm (fst s)) (keyOps (S (m_last (snd s))) u).
Proof.
  intros CI St L. assert (Sm: forall t, m_last t = m_last (snd s) -> m_last t = S (m_last (snd s)) -> False) by (intros; lia).
  assert (Wr: forall ex u d0 m0 s', CInv (d0, m0) -> (forall x, d_blocks (applyB x ex) = d_blocks x /\ d_gen (applyB x ex) = d_gen x /\ d_rec (applyB x ex) = d_rec x /\ d_snap (applyB x ex) = d_snap x) ->
    (forall x, d_lat (applyB x ex) = d_lat x /\ d_imm (applyB x ex) = d_imm x) -> writeBlock H ex u (d0, m0) = Some s' -> exists p, d_blocks (fst s') = mput (d_blocks d0) (S (m_last m0)) {| b_parent := p; b_upd := u |} /\ m_gen m0 <= m_gen (snd s') /\
    d_lat (fst s') = latB (d_lat d0) (keyOps (S (m_last m0)) u) /\ d_imm (fst s') = immB (d_imm d0) (keyOps (S (m_last m0)) u)).
  { intros ex u d0 m0 [d' m'] C X Y W. destruct (write_lat _ _ _ _ _ _ Y W) as (L1 & L2). apply writeBlock_eff in W; auto. destruct W as (p & _ & Eb & _ & _ & _ & _ & _ & Em & _). exists p. cbn [fst snd]. rewrite Em. sp; auto.
    destruct (Nat.eqb_spec (m_gen m0) 0); lia. }
  destruct St as [u s|u s s' W|n s|b s s' G W|s _|id b s Lt|s s' E|n s s' l E|keep n s s' l E|i c k s|s d m E O|s]; destruct s as [d0 m0]; cbn [fst snd] in *.
  - destruct (onNewSN_frame seqOf u d0 m0) as (A & _). rewrite A in L. lia.
  - exists (addGenesisKey (m_gen m0) u). apply (Wr []); auto using noop_extra.
  - destruct (noteSN_f n m0) as (A & _). lia.
  - exists (b_upd b). apply (Wr [WStDel (S (m_last m0))]); auto using stdel_extra.
  - cbn in L. lia.
  - unfold stPut in L. cbn [fst snd] in L. destruct (id <=? m_stlast m0); cbn in L; lia.
  - apply deleteGenesis_eq in E as (d & m & Q & A & ->). injection Q as <- <-. cbn in L. lia.
  - apply deleteUntil_eq in E as (d & m & Q & A & [(_ & -> & _)|(B & C & ->)]); cbn in L; [|injection Q as <- <-]; lia.
  - apply deleteUntilFiles_eq in E as (d & m & Q & A & [(_ & -> & _)|(B & C & ->)]); cbn in L; [|injection Q as <- <-]; lia.
  - unfold compact in L. destruct ((if i then d_imm d0 else d_lat d0) c k) as [v|]; [destruct (mayDrop (m_gen m0) v)|]; cbn in L; lia.
  - apply (storeRevert_CInv seqOf) in CI. rewrite <- E in CI. pose proof (open_ok _ CI) as Op. cbn [fst snd] in Op. rewrite Op in O. injection O as <-. cbn in L. lia.
  - cbn in L; lia.
Qed.

Lemma hrun_HI (ctI : ct cInternal = Versioned) hs s : hrun hs s -> HI hs s.
Proof.
  induction 1 as [|hs s s' R IH St L|hs s s' b R IH St L B W|hs s us q s1 s2 R IH Gp Rc Fr Ne Us A Rv L].
  - constructor; cbn; auto using init_CInv; try (intros; left; auto); discriminate.
  - destruct IH as [Hc Hl Hw Hb Ht Hm]. destruct (step_same _ _ Hc St L) as (A & B & C & D). constructor; rewrite ?L; auto.
    + eapply step_CInv; eauto.
    + intros c k N. eapply okL_shrink; [eapply okL_mono; [exact A|apply Ht; auto]|]. apply C.
    + intros c k N. eapply okL_shrink; [eapply okL_mono; [exact A|apply Hm; auto]|]. apply D.
  - destruct IH as [Hc Hl Hw Hb Ht Hm]. destruct (step_new _ _ Hc St L) as (u & p & Eb & Eg & Et & Ei). rewrite L, Eb, mget_put, Nat.eqb_refl in B. injection B as <-. cbn [b_upd] in *.
    constructor.
    + eapply step_CInv; eauto.
    + cbn. lia.
    + auto.
    + intros i x. rewrite L, Eb, mget_put. destruct (Nat.eqb_spec i (S (m_last (snd s)))) as [->|N].
      * intros X; injection X as <-. rewrite Nat.sub_diag. auto.
      * intros X. assert (i <= m_last (snd s)). { destruct (le_lt_dec i (m_last (snd s))); auto. rewrite (c_out _ Hc) in X by auto. discriminate. }
        replace (S (m_last (snd s)) - i) with (S (m_last (snd s) - i)) by lia. cbn. auto.
    + intros c k N. specialize (Ht c k N). rewrite Et, (lat_add ct) by auto. cbn [newest]. destruct (cfGet u c) as [ci|] eqn:E; [|eapply okL_mono; eauto].
      destruct W as (_ & W). apply cfGet_In in E. destruct (W _ _ E) as (_ & K & _). destruct (c_kind ci); try congruence.
      all: destruct (existsb (beqb k) (c_dels ci)); [left; auto|]; destruct (cfGet (c_puts ci) k) as [[v f]|]; [left; cbn; rewrite Hl; auto|eapply okL_mono; eauto].
    + intros c k N. specialize (Hm c k N). rewrite Ei, (imm_add ct) by auto. cbn [newest]. destruct (cfGet u c) as [ci|] eqn:E; [|eapply okL_mono; eauto].
      destruct W as (_ & W). apply cfGet_In in E. destruct (W _ _ E) as (_ & K & Dl). rewrite N in K. rewrite K. rewrite (Dl K). cbn [existsb].
      destruct (cfGet (c_puts ci) k) as [[v f]|]; [left; cbn; rewrite Hl; auto|eapply okL_mono; eauto].
  - destruct IH as [Hc Hl Hw Hb Ht Hm].
    assert (Uq: Forall (fun u => seqNum seqOf u = q) us) by (eapply Forall_impl; [|exact Us]; cbn; tauto).
    assert (Vw: Forall (wfU ct) (map (addGenesisKey (m_gen (snd s))) us)). { apply Forall_map. eapply Forall_impl; [|exact Us]. intros u (X & _). apply wfU_genKey; auto. }
    assert (Vq: Forall (fun v => seqNum seqOf v = q) (map (addGenesisKey (m_gen (snd s))) us)). { apply Forall_map. eapply Forall_impl; [|exact Us]. intros u (_ & X). rewrite seqNum_genKey. auto. }
    pose proof (AI_addAll H seqOf s q Gp Fr us [] s s1 (AI0 s q Hc Rc) Uq A) as Ai. cbn [app] in Ai.
    assert (Ne': map (addGenesisKey (m_gen (snd s))) us <> []) by (destruct us; [congruence|discriminate]).
    pose proof (AI_RI ct s q Gp _ Vw s1 Ne' Ai) as Ri. apply (recov_RI H seqOf s q Hc Gp Fr _ Vq _ _ Rv) in Ri. destruct Ri as [Ri|(_ & X)]; [|lia].
    destruct Ri as [r1 r2 r3 r4 r5 r6 r7 r8 r9 r10]. rewrite L, Nat.sub_diag in r7, r8. cbn in r7, r8. constructor; auto; try lia.
    + intros i b. intros X. assert (i <= m_last (snd s)). { destruct (le_lt_dec i (m_last (snd s))); auto. rewrite (c_out _ r1) in X by lia. discriminate. } rewrite L. apply Hb. rewrite <- r5; auto.
    + intros c k N. rewrite r7, r4. auto.
    + intros c k N. rewrite r8, r4. auto.
Qed.

(** What the specification says about the block that wrote a key last. *)
Lemma newest_block hs c k v f ver : newest hs c k = Some (v, f, ver) -> 1 <= ver <= length hs /\
  exists u ci, nth_error hs (length hs - ver) = Some u /\ cfGet u c = Some ci /\ cfGet (c_puts ci) k = Some (v, f).
Proof.
  induction hs as [|u hs IH]; cbn [newest]; [discriminate|].
  assert (Rc: newest hs c k = Some (v, f, ver) -> 1 <= ver <= length (u :: hs) /\ exists u0 ci, nth_error (u :: hs) (length (u :: hs) - ver) = Some u0 /\ cfGet u0 c = Some ci /\ cfGet (c_puts ci) k = Some (v, f)).
  { intros X. destruct (IH X) as (A & u0 & ci & B). split; [cbn; lia|]. exists u0, ci. cbn [length]. replace (S (length hs) - ver) with (S (length hs - ver)) by lia. auto. }
  destruct (cfGet u c) as [ci|] eqn:E; auto. destruct (existsb (beqb k) (c_dels ci)); [discriminate|]. destruct (cfGet (c_puts ci) k) as [[v' f']|] eqn:P; auto.
  intros X; injection X as <- <- <-. split; [cbn; lia|]. exists u, ci. rewrite Nat.sub_diag. auto.
Qed.
End Hist.
