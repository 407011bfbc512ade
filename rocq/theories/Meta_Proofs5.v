(** The persisted consensus metadata: the invariant of all executions. *)
From Coq Require Import List Arith NArith Bool Lia ZifyBool ZifyN.
From Verif Require Import Lib_Bytes Meta_Model Meta_Spec Meta_Proofs Meta_Proofs2 Meta_Proofs3 Meta_Proofs4.
Import ListNotations.
Local Open Scope N_scope.

Fixpoint wsAll (c : cfg) (L : N) (l : list setter) : list (N * bytes) :=
  match l with [] => [] | x :: t => ws c L x ++ wsAll c (next L x) t end.
Definition nextAll (L : N) (l : list setter) : N := fold_left next l L.
Fixpoint legalAll (c : cfg) (L : N) (l : list setter) : Prop :=
  match l with [] => True | x :: t => legal c L x /\ fits c x /\ writable c (ws c L x) /\ legalAll c (next L x) t end.
Lemma upd_stable M x : m_lastStable (upd M x) = next (m_lastStable M) x.
Proof. destruct M, x; reflexivity. Qed.
Lemma updD_stable M o : m_lastStable (updD M o) = m_lastStable M.
Proof. destruct M, o; reflexivity. Qed.
Lemma fold_stable l : forall M, m_lastStable (fold_left upd l M) = nextAll (m_lastStable M) l.
Proof. induction l as [|x l IH]; intros M; [reflexivity|]. cbn [fold_left nextAll]. rewrite IH, upd_stable. reflexivity. Qed.
Lemma R_fold c (Hg : goodCfg c) l : forall s M, legalAll c (m_lastStable M) l -> R c s M -> R c (wr s (wsAll c (m_lastStable M) l)) (fold_left upd l M).
Proof.
  induction l as [|x l IH]; intros s M Hl HR; [exact HR|]. cbn [legalAll wsAll fold_left] in *. destruct Hl as (H1 & H2 & H3 & H4).
  rewrite wr_app. rewrite <- upd_stable in H4. rewrite <- upd_stable. apply IH; [exact H4|]. apply R_upd; assumption.
Qed.
Lemma wsAll_snoc c l : forall L x, wsAll c L (l ++ [x]) = wsAll c L l ++ ws c (nextAll L l) x.
Proof.
  induction l as [|y l IH]; intros L x; cbn [app wsAll]; [rewrite app_nil_r; reflexivity|]. rewrite IH, app_assoc. reflexivity.
Qed.
Lemma nextAll_snoc l L x : nextAll L (l ++ [x]) = next (nextAll L l) x.
Proof. unfold nextAll. rewrite fold_left_app. reflexivity. Qed.
Lemma legalAll_snoc c l : forall L x, legalAll c L l -> legal c (nextAll L l) x -> fits c x -> writable c (ws c (nextAll L l) x) -> legalAll c L (l ++ [x]).
Proof.
  induction l as [|y l IH]; intros L x Hl H1 H2 H3; cbn [app legalAll] in *; [auto|]. destruct Hl as (A & B & C & D).
  repeat split; auto.
Qed.
(** * Start *)
Definition idle (p : ps) (L : N) : Prop := nested p = 0 /\ batch p = None /\ seqBeg p = L + 1 /\ checkBeg p = L.
Local Opaque wr encMsg le defaultWrites sizeOf.
(** nothing is stored under an unregistered id *)
Definition high (c : cfg) (s : store) : Prop := forall k, numOfObjects c <= k -> s k = None.
Definition A (c : cfg) (s : store) (a : contents) : Prop :=
  match a with
  | Blank => forall k, s k = None
  | Numbered => forall k, s k = s0 c k
  | Live M => R c s M /\ high c s
  end.
Lemma high_wr c s w : goodCfg c -> writable c w -> high c s -> high c (wr s w).
Proof.
  intros Hg Hw Hh k Hk. rewrite wr_out; [apply Hh; exact Hk|]. intros v X. pose proof (proj1 (Forall_forall _ _) Hw _ X) as W. cbn [fst snd] in W.
  apply canWrite_elim in W. destruct W as (m & W & _). destruct (numObj c Hg) as (_ & Hn). Local Transparent sizeOf. unfold sizeOf in W. ids.
  destruct (k =? 1) eqn:E1; [lia|]. destruct ((1 <? k) && (k <? numOfObjects c)) eqn:E2; [lia|discriminate].
Qed.
Local Opaque sizeOf.
Lemma A_ext c s t a : (forall k, s k = t k) -> A c s a -> A c t a.
Proof.
  intros Hst. destruct a; cbn [A].
  - intros H k. rewrite <- Hst. apply H.
  - intros H k. rewrite <- Hst. apply H.
  - intros (H1 & H2). split; [eapply R_ext; eassumption|]. intros k Hk. rewrite <- Hst. apply H2. exact Hk.
Qed.
Lemma A_num c s : A c s Blank -> A c (apply s (e0 c)) Numbered.
Proof. intros H k. rewrite s0_at. unfold e0, apply. cbn [fold_left]. unfold put1, put_. cbn [fst snd]. destruct (k =? idNum); [reflexivity|apply H]. Qed.
Lemma A_init c s l : goodCfg c -> A c s Numbered -> writeAll c (Some []) (defaultWrites c) = Ok (Some l) -> A c (apply s (map put_ l)) (Live (meta0 c)).
Proof.
  intros Hg H El. destruct (writeAll_sound _ _ _ _ El) as (l' & E & Hw & Hwr). injection E as <-.
  assert (Hx : forall k, wr (s0 c) (defaultWrites c) k = apply s (map put_ l) k).
  { intros k. change (apply s (map put_ l) k) with (wr s l k). rewrite Hw. cbn [app]. apply wr_ext. intros k'. symmetry. apply H. }
  apply (A_ext _ _ _ _ Hx). split; [apply R_default; exact Hg|]. apply high_wr; [exact Hg|exact Hwr|].
  intros k Hk. rewrite s0_at. destruct (numObj c Hg) as (_ & Hn). ids. destruct (k =? 1) eqn:E1; [lia|reflexivity].
Qed.
Lemma collected_len c : goodCfg c -> lenN (collected c (numOfObjects c)) = numOfObjects c.
Proof.
  intros Hg. destruct (numObj c Hg) as (_ & Hn). unfold collected.
  assert (G : forall l, Forall (fun x => x < numOfObjects c) l -> filter (fun id => id <? numOfObjects c) l = l).
  { induction l as [|x l IH]; intros Hf; [reflexivity|]. inversion Hf; subst. cbn [filter]. destruct (x <? numOfObjects c) eqn:E; [|lia]. rewrite IH by assumption. reflexivity. }
  rewrite G.
  - unfold lenN. cbn [length]. rewrite map_length, seq_length. lia.
  - constructor; [ids; lia|]. apply Forall_forall. intros x X. apply in_map_iff in X. destruct X as (y & <- & Y). apply in_seq in Y. lia.
Qed.
Lemma A_erase c s M : goodCfg c -> A c s (Live M) -> A c (apply s (eraseEntry c (numOfObjects c))) Blank.
Proof.
  intros Hg (_ & Hh) k. unfold eraseEntry. pose proof (collected_len c Hg) as Hl. unfold lenN in Hl.
  destruct (N.lt_ge_cases k (numOfObjects c)) as [Hk|Hk].
  - apply apply_in.
    + apply in_map_iff. exists (N.to_nat k). split; [rewrite N2Nat.id; reflexivity|]. apply in_seq. lia.
    + intros v X. apply in_map_iff in X. destruct X as (x & E & _). injection E as _ <-. reflexivity.
  - rewrite apply_out; [apply Hh; exact Hk|]. intros v X. apply in_map_iff in X. destruct X as (x & E & X). injection E as E _. apply in_seq in X. lia.
Qed.

(** the database as a history of writes *)
Definition Hist (c : cfg) (lg : list entry) (h : list tx) : Prop :=
  length lg = length h /\ forall j, (j <= length h)%nat -> A c (replay (firstn j lg)) (contentsOf c (firstn j h)).
Lemma contents_snoc c h t : contentsOf c (h ++ [t]) = updT c (contentsOf c h) t.
Proof. unfold contentsOf. rewrite fold_left_app. reflexivity. Qed.
Lemma Hist_now c lg h : Hist c lg h -> A c (replay lg) (contentsOf c h).
Proof. intros (Hl & Ha). specialize (Ha (length h) (Nat.le_refl _)). rewrite <- Hl in Ha at 1. rewrite !firstn_all in Ha. exact Ha. Qed.
Lemma Hist_nil c : Hist c [] [].
Proof. split; [reflexivity|]. intros j _. rewrite !firstn_nil. intros k. reflexivity. Qed.
Lemma Hist_snoc c lg h e t : Hist c lg h -> A c (apply (replay lg) e) (updT c (contentsOf c h) t) -> Hist c (lg ++ [e]) (h ++ [t]).
Proof.
  intros (Hl & Ha) HA. split; [rewrite !app_length, Hl; reflexivity|]. intros j Hj. rewrite app_length in Hj. cbn [length] in Hj.
  destruct (le_lt_dec j (length h)) as [D|D].
  - rewrite !firstn_app. replace (j - length lg)%nat with 0%nat by lia. replace (j - length h)%nat with 0%nat by lia. cbn [firstn]. rewrite !app_nil_r.
    apply Ha. exact D.
  - rewrite !firstn_all2 by (rewrite app_length; cbn [length]; lia). rewrite replay_snoc, contents_snoc. exact HA.
Qed.
Lemma Hist_firstn c lg h k : Hist c lg h -> Hist c (firstn k lg) (firstn k h).
Proof.
  intros (Hl & Ha). split; [rewrite !firstn_length, Hl; reflexivity|]. intros j Hj. rewrite firstn_length in Hj. rewrite !firstn_firstn.
  replace (Nat.min j k) with j by lia. apply Ha. lia.
Qed.

Lemma initObjects_blank c d : A c (db d) Blank -> initObjects c d = Ok (mkDisk (log d ++ [e0 c]) (synced d)).
Proof.
  intros H. unfold initObjects. rewrite (dbRead_none _ _ _ _ 4); [|reflexivity|apply H]. cbn [bind gotLen N.eqb]. unfold atomicWrite.
  rewrite (canWrite_intro c idNum _ 4); [reflexivity|reflexivity|ids; lia|rewrite lenN_le; lia].
Qed.
Lemma initObjects_num c d : db d idNum = Some (le 4 (numOfObjects c)) -> initObjects c d = Ok d.
Proof.
  intros H. unfold initObjects. rewrite (dbRead_some _ _ _ _ (le 4 (numOfObjects c)) 4); [|reflexivity|exact H|rewrite lenN_le; lia].
  cbn [bind]. unfold gotLen. rewrite lenN_le. reflexivity.
Qed.
Lemma initStorage_num c d l : goodCfg c -> A c (db d) Numbered -> writeAll c (Some []) (defaultWrites c) = Ok (Some l) ->
  exists p, initStorage c d = Ok (mkDisk (log d ++ [map put_ l]) (synced d), p) /\ idle p 0.
Proof.
  intros Hg H El. unfold initStorage. rewrite (dbRead_none _ _ _ _ (descSize c idVersion)); [|apply sizeOf_some; [exact Hg|ids; lia|ids; lia]|rewrite H; reflexivity].
  cbn [bind gotLen N.eqb]. unfold writes. cbn [beginTran ps0 nested batch setBegs setNested N.eqb]. rewrite El. cbn [bind].
  unfold endTran, setBatch, inTran. cbn [nested]. change ((0 + 1) mod 256) with 1. cbn [N.eqb negb guard bind batch append log synced].
  eexists. split; [reflexivity|]. repeat split.
Qed.
Lemma initStorage_R c d M : goodCfg c -> R c (db d) M -> exists p, initStorage c d = Ok (d, p) /\ idle p (m_lastStable M).
Proof.
  intros Hg HR. unfold initStorage.
  rewrite (dbRead_some _ _ _ _ encVersion (descSize c idVersion)); [|apply sizeOf_some; [exact Hg|ids; lia|ids; lia]|apply (r_ver _ _ _ HR)|].
  2:{ change (lenN encVersion) with 7. lia. }
  cbn [bind]. unfold gotLen. change (lenN encVersion =? 0) with false. cbv iota. unfold got, encVersion.
  rewrite (rdN_le 4) by (cbn; lia). cbv beta iota.
  change (guard (if list_eq_dec N.eq_dec (firstn (N.to_nat 3) [49; 46; 49]) [49; 46; 49] then true else false)) with (@Ok unit tt). cbn [bind].
  destruct (r_lastStable _ _ _ HR) as (_ & Hu & _).
  assert (Hb : forall id n, (id = idSeqWin \/ id = idCheckWin) -> db d id = Some (le 8 n) -> u64 n -> readBeg c d id = Ok n).
  { intros id n Hid E Hn. unfold readBeg.
    rewrite (dbRead_some _ _ _ _ (le 8 n) (descSize c id)); [|apply sizeOf_some; [exact Hg|destruct Hid as [->| ->]; ids; lia..]|exact E|rewrite lenN_le; lia].
    cbn [bind]. unfold gotLen, got. rewrite lenN_le. change (N.of_nat 8 =? 8) with true. cbn [guard bind]. f_equal. apply unle_le. exact Hn. }
  rewrite (Hb idSeqWin (m_lastStable M + 1)); [|auto|apply (r_seqBeg _ _ _ HR)|exact Hu]. cbn [bind].
  rewrite (Hb idCheckWin (m_lastStable M)); [|auto|apply (r_checkBeg _ _ _ HR)|unfold u64 in *; lia]. cbn [bind].
  destruct (getExec_gen c d M Hg HR (setBegs ps0 (m_lastStable M + 1) (m_lastStable M))) as (q & E & H1 & H2 & H3 & H4).
  rewrite E. cbn [bind]. exists q. split; [reflexivity|]. split; [exact H1|]. split; [exact H2|]. split; [exact H3|exact H4].
Qed.
Lemma default_batch c : goodCfg c -> exists l, writeAll c (Some []) (defaultWrites c) = Ok (Some l).
Proof. intros Hg. apply writeAll_ok. apply def_writable. exact Hg. Qed.
Lemma flag_none c d : goodCfg c -> db d idErase = None -> getFlag c d idErase = Ok false.
Proof. intros Hg E. unfold getFlag. rewrite (dbRead_none _ _ _ _ (descSize c idErase)); [reflexivity|apply sizeOf_some; [exact Hg|ids; lia|ids; lia]|exact E]. Qed.
Lemma start_spec c d h : goodCfg c -> Hist c (log d) h ->
  exists d' p M, start c d = Ok (d', p) /\ Hist c (log d') (restart c h) /\ contentsOf c (restart c h) = Live M /\ idle p (m_lastStable M)
    /\ synced d' = synced d /\ (length (log d) <= length (log d'))%nat.
Proof.
  intros Hg HH. pose proof (Hist_now _ _ _ HH) as HA. change (replay (log d)) with (db d) in HA. destruct (default_batch c Hg) as (l & El).
  unfold start, restart.
  assert (Fresh : forall d1 h1, Hist c (log d1) h1 -> contentsOf c h1 = Blank ->
    exists d' p, (do d2 <- initObjects c d1; initStorage c d2) = Ok (d', p) /\ Hist c (log d') (h1 ++ [TNum; TInit])
       /\ contentsOf c (h1 ++ [TNum; TInit]) = Live (meta0 c) /\ idle p 0 /\ synced d' = synced d1 /\ (length (log d1) <= length (log d'))%nat
       /\ initObjects c d1 = Ok (mkDisk (log d1 ++ [e0 c]) (synced d1)) /\ (initStorage c (mkDisk (log d1 ++ [e0 c]) (synced d1))) = Ok (d', p)
       /\ db (mkDisk (log d1 ++ [e0 c]) (synced d1)) idErase = None).
  { intros d1 h1 H1 Hc1. pose proof (Hist_now _ _ _ H1) as HA1. rewrite Hc1 in HA1. change (replay (log d1)) with (db d1) in HA1.
    rewrite (initObjects_blank c d1 HA1). cbn [bind].
    assert (HN : A c (db (mkDisk (log d1 ++ [e0 c]) (synced d1))) Numbered).
    { unfold db. cbn [log]. rewrite replay_snoc. apply A_num. exact HA1. }
    destruct (initStorage_num c _ l Hg HN El) as (p & Ep & Hi). rewrite Ep. cbn [log synced].
    assert (Hc2 : contentsOf c (h1 ++ [TNum; TInit]) = Live (meta0 c)).
    { change [TNum; TInit] with ([TNum] ++ [TInit]). rewrite app_assoc, !contents_snoc, Hc1. reflexivity. }
    eexists _, p. split; [reflexivity|]. cbn [log synced]. split; [|split; [exact Hc2|split; [exact Hi|split; [reflexivity|split; [rewrite !app_length; lia|split; [reflexivity|split; [reflexivity|]]]]]]].
    - change [TNum; TInit] with ([TNum] ++ [TInit]). rewrite app_assoc. apply Hist_snoc.
      + apply Hist_snoc; [exact H1|]. rewrite Hc1. cbn [updT]. apply A_num. exact HA1.
      + rewrite contents_snoc, Hc1. cbn [updT]. apply A_init; [exact Hg|exact HN|exact El].
    - rewrite HN. reflexivity. }
  destruct (contentsOf c h) as [| |M] eqn:Ec; cbn [A] in HA.
  - destruct (Fresh d h HH Ec) as (d' & p & E & F1 & F2 & F3 & F4 & F5 & F6 & F7 & F8). rewrite F6. cbn [bind].
    rewrite (flag_none c _ Hg F8). cbn [bind]. rewrite F7. exists d', p, (meta0 c). auto 7.
  - rewrite (initObjects_num c d) by (rewrite HA; reflexivity). cbn [bind]. rewrite (flag_none c d Hg) by (rewrite HA; reflexivity). cbn [bind].
    destruct (initStorage_num c d l Hg HA El) as (p & Ep & Hi). rewrite Ep.
    eexists _, p, (meta0 c). split; [reflexivity|]. cbn [log synced]. rewrite contents_snoc, Ec. cbn [updT].
    split; [|split; [reflexivity|split; [exact Hi|split; [reflexivity|rewrite app_length; lia]]]].
    apply Hist_snoc; [exact HH|]. rewrite Ec. cbn [updT]. apply A_init; [exact Hg|exact HA|exact El].
  - destruct HA as (HR & Hh). rewrite (initObjects_num c d) by apply (r_num _ _ _ HR). cbn [bind].
    pose proof (r_erase _ _ _ HR) as He. destruct (m_erase M) eqn:Em.
    + assert (Ef : getFlag c d idErase = Ok true).
      { unfold getFlag. rewrite (dbRead_some _ _ _ _ [1] (descSize c idErase)); [reflexivity|apply sizeOf_some; [exact Hg|ids; lia|ids; lia]|exact He|cbn; lia]. }
      rewrite Ef. cbn [bind]. unfold eraseData.
      rewrite (dbRead_some _ _ _ _ (le 4 (numOfObjects c)) 4); [|reflexivity|apply (r_num _ _ _ HR)|rewrite lenN_le; lia].
      cbn [bind]. unfold got. rewrite unle_le by (destruct Hg as (_ & _ & Hm); unfold numOfObjects; pose proof (N.mod_upper_bound (mapEnd c - 2 - 2) 65536 ltac:(lia)); cbn; lia).
      rewrite (collected_len c Hg), N.leb_refl. cbn [guard bind].
      assert (H1 : Hist c (log (append d (eraseEntry c (numOfObjects c)) false)) (h ++ [TErase])).
      { cbn [append log]. apply Hist_snoc; [exact HH|]. rewrite Ec. cbn [updT]. apply (A_erase c _ M); [exact Hg|]. split; assumption. }
      destruct (Fresh _ _ H1) as (d' & p & E & F1 & F2 & F3 & F4 & F5 & _); [rewrite contents_snoc, Ec; reflexivity|].
      rewrite E. exists d', p, (meta0 c). rewrite <- app_assoc in F1, F2. cbn [app] in F1, F2. cbn [append log synced] in F4, F5. rewrite app_length in F5. cbn [length] in F5.
      split; [reflexivity|]. split; [exact F1|]. split; [exact F2|]. split; [exact F3|]. split; [exact F4|lia].
    + rewrite (flag_none c d Hg He). cbn [bind]. destruct (initStorage_R c d M Hg HR) as (p & Ep & Hi). rewrite Ep.
      exists d, p, M. auto 7.
Qed.

(** * The invariant *)
Record Inv (c : cfg) (d : disk) (p : ps) (S : sys) : Prop := mkInv {
  i_hist : Hist c (log d) (hist S);
  i_live : contentsOf c (hist S) = Live (metaOf c (hist S));
  i_dur : durable S = synced d;
  i_len : (synced d <= length (log d))%nat;
  i_nested : nested p = N.of_nat (depth S);
  i_depth : (depth S <= 255)%nat;
  i_batch : (depth S = 0%nat /\ batch p = None /\ pend S = [])
     \/ ((0 < depth S)%nat /\ exists l, batch p = Some l /\ forall st k, wr st l k = wr st (wsAll c (m_lastStable (metaOf c (hist S))) (pend S)) k);
  i_legal : legalAll c (m_lastStable (metaOf c (hist S))) (pend S);
  i_beg : seqBeg p = nextAll (m_lastStable (metaOf c (hist S))) (pend S) + 1
          /\ checkBeg p = nextAll (m_lastStable (metaOf c (hist S))) (pend S) }.
Lemma Inv_now c d p S : Inv c d p S -> R c (db d) (metaOf c (hist S)) /\ high c (db d).
Proof. intros HI. pose proof (Hist_now _ _ _ (i_hist _ _ _ _ HI)) as HA. rewrite (i_live _ _ _ _ HI) in HA. exact HA. Qed.
Lemma Live_meta c h M : contentsOf c h = Live M -> metaOf c h = M.
Proof. intros E. unfold metaOf. rewrite E. reflexivity. Qed.
Lemma meta_snoc c d p S t M : Inv c d p S -> updT c (Live (metaOf c (hist S))) t = Live M -> contentsOf c (hist S ++ [t]) = Live M /\ metaOf c (hist S ++ [t]) = M.
Proof.
  intros HI E. assert (E2 : contentsOf c (hist S ++ [t]) = Live M) by (rewrite contents_snoc, (i_live _ _ _ _ HI); exact E).
  split; [exact E2|]. apply Live_meta. exact E2.
Qed.
(** one more write of the database *)
Lemma Inv_append c d p S e (sync : bool) t p' S' M : Inv c d p S -> updT c (Live (metaOf c (hist S))) t = Live M ->
  R c (apply (db d) e) M -> high c (apply (db d) e) ->
  hist S' = hist S ++ [t] -> durable S' = (if sync then Datatypes.S (length (hist S)) else durable S) ->
  nested p' = N.of_nat (depth S') -> (depth S' <= 255)%nat ->
  ((depth S' = 0%nat /\ batch p' = None /\ pend S' = [])
     \/ ((0 < depth S')%nat /\ exists l, batch p' = Some l /\ forall st k, wr st l k = wr st (wsAll c (m_lastStable M) (pend S')) k)) ->
  legalAll c (m_lastStable M) (pend S') ->
  seqBeg p' = nextAll (m_lastStable M) (pend S') + 1 /\ checkBeg p' = nextAll (m_lastStable M) (pend S') ->
  Inv c (append d e sync) p' S'.
Proof.
  intros HI HM HR Hhi Hh Hd Hn Hdep Hb Hl Hbeg. destruct (meta_snoc _ _ _ _ _ _ HI HM) as (HL & HM2).
  pose proof (proj1 (i_hist _ _ _ _ HI)) as Hlen.
  constructor; try assumption; rewrite ?Hh, ?HM2; try assumption.
  - cbn [append log]. apply Hist_snoc; [apply (i_hist _ _ _ _ HI)|]. rewrite (i_live _ _ _ _ HI), HM. split; assumption.
  - rewrite Hd. cbn [append synced]. destruct sync; [lia|apply (i_dur _ _ _ _ HI)].
  - cbn [append synced log]. rewrite app_length. cbn [length]. pose proof (i_len _ _ _ _ HI). destruct sync; lia.
Qed.
Lemma Inv_same c d p q S : Inv c d p S -> same p q -> Inv c d q S.
Proof.
  intros HI (E1 & E2 & E3 & E4). destruct HI. constructor; try assumption; try (rewrite E1; assumption); rewrite ?E2, ?E3, ?E4; assumption.
Qed.
Lemma start_Inv c d h n : goodCfg c -> Hist c (log d) h -> n = synced d -> (synced d <= length (log d))%nat ->
  exists d' p', start c d = Ok (d', p') /\ Inv c d' p' (mkSys (restart c h) [] 0 n).
Proof.
  intros Hg HH -> Hs. destruct (start_spec c d h Hg HH) as (d' & p' & M & E & H1 & H2 & (I1 & I2 & I3 & I4) & H3 & H4).
  exists d', p'. split; [exact E|]. pose proof (Live_meta _ _ _ H2) as HM. constructor; cbn [hist pend depth durable]; rewrite ?HM; try assumption.
  - symmetry. exact H3.
  - rewrite H3. lia.
  - lia.
  - left. auto.
  - exact Logic.I.
  - cbn [nextAll fold_left]. auto.
Qed.
Lemma crash_ok c d p S k : goodCfg c -> Inv c d p S -> (synced d <= k <= length (log d))%nat ->
  exists d' p', start c (mkDisk (firstn k (log d)) (synced d)) = Ok (d', p') /\ Inv c d' p' (sstep c S (ECrash k)).
Proof.
  intros Hg HI Hk. cbn [sstep]. apply start_Inv; [exact Hg|cbn [log]; apply Hist_firstn; apply (i_hist _ _ _ _ HI)|apply (i_dur _ _ _ _ HI)|].
  cbn [synced log]. rewrite firstn_length. lia.
Qed.
Lemma wsAll_writable c l : forall L, legalAll c L l -> writable c (wsAll c L l).
Proof.
  induction l as [|x l IH]; intros L Hl; [constructor|]. cbn [legalAll wsAll] in *. destruct Hl as (_ & _ & H3 & H4).
  apply Forall_app. split; [exact H3|apply IH; exact H4].
Qed.
Lemma Inv_step c d p S e d' p' : goodCfg c -> Inv c d p S -> stepE c (d, p) e = Ok (d', p') -> fitsE c e -> (depth (sstep c S e) <= 255)%nat ->
  Inv c d' p' (sstep c S e).
Proof.
  intros Hg HI E Hf Hdep. destruct e; cbn [stepE fitsE] in *.
  - (* begin *)
    injection E as <- <-. cbn [sstep] in *. cbn [depth] in Hdep. destruct HI. constructor; cbn [hist pend depth durable]; try assumption.
    + cbn [beginTran setNested nested]. rewrite i_nested0. rewrite N.mod_small by lia. lia.
    + right. split; [lia|]. cbn [beginTran setNested batch]. destruct i_batch0 as [(D & B & P)|(D & l & B & W)].
      * rewrite i_nested0, D, B, P. change (N.of_nat 0 =? 0) with true. cbv iota. exists []. split; [reflexivity|]. reflexivity.
      * rewrite i_nested0. destruct (N.of_nat (depth S) =? 0) eqn:E0; [lia|]. exists l. auto.
  - (* end *)
    unfold endTran in E. apply bind_ok in E. destruct E as (u & Eg & E). apply guard_ok in Eg. unfold inTran in Eg.
    pose proof (i_nested _ _ _ _ HI) as Hn.
    destruct (i_batch _ _ _ _ HI) as [(D & B & P)|(D & l & B & W)]; [rewrite Hn, D in Eg; discriminate|].
    destruct (nested p =? 1) eqn:E1.
    + rewrite B in E. injection E as <- <-. assert (D1 : depth S = 1%nat) by lia. cbn [sstep]. rewrite D1.
      destruct (Inv_now _ _ _ _ HI) as (HR0 & Hh0).
      assert (HR : R c (wr (db d) l) (fold_left upd (pend S) (metaOf c (hist S)))).
      { eapply R_ext; [intros k; symmetry; apply W|]. apply R_fold; [exact Hg|apply (i_legal _ _ _ _ HI)|exact HR0]. }
      assert (Hh : high c (wr (db d) l)).
      { intros k Hk. rewrite W. exact (high_wr _ _ _ Hg (wsAll_writable _ _ _ (i_legal _ _ _ _ HI)) Hh0 k Hk). }
      eapply (Inv_append _ _ _ _ _ _ (TSet (pend S))); [exact HI|reflexivity|exact HR|exact Hh|cbn [hist pend depth durable]..]; try reflexivity.
      * lia.
      * left. auto.
      * cbn [nextAll fold_left]. rewrite fold_stable. apply (i_beg _ _ _ _ HI).
    + injection E as <- <-. cbn [sstep]. destruct (depth S) as [|[|n]] eqn:Ed; [lia|lia|]. destruct HI. rewrite Ed in *.
      constructor; cbn [hist pend depth durable pred]; try assumption; try lia.
      * cbn [setNested nested]. lia.
      * right. split; [lia|]. exists l. auto.
  - (* set *)
    apply bind_ok in E. destruct E as (q & E & E2). injection E2 as <- <-. cbn [sstep].
    destruct (i_batch _ _ _ _ HI) as [(D & B & P)|(D & l & B & W)]; [elim (doSet_none _ _ _ _ _ B E)|].
    destruct (i_beg _ _ _ _ HI) as (B1 & B2).
    destruct (doSet_did _ _ _ _ _ _ _ B1 B2 B E) as ((l' & F1 & F2 & F3 & F4) & Hl & N1 & N2).
    pose proof (i_legal _ _ _ _ HI) as Hlg. destruct HI. constructor; cbn [hist pend depth durable]; try assumption.
    + rewrite F4. assumption.
    + right. split; [exact D|]. exists l'. split; [exact F1|]. intros st k. rewrite F2, wsAll_snoc, !wr_app. apply wr_ext. intros k'. apply W.
    + apply legalAll_snoc; assumption.
    + rewrite nextAll_snoc. auto.
  - (* direct *)
    apply bind_ok in E. destruct E as (d1 & E & E2). injection E2 as <- <-. cbn [sstep].
    destruct (Inv_now _ _ _ _ HI) as (HR0 & Hh0).
    destruct (R_updD c _ _ _ _ _ eq_refl E HR0) as (kv & -> & W & HR).
    assert (Hh : high c (wr (db d) [kv])) by (apply high_wr; [exact Hg|constructor; [exact W|constructor]|exact Hh0]).
    eapply (Inv_append _ _ _ _ _ _ (TDirect o)); [exact HI|reflexivity|exact HR|exact Hh|cbn [hist pend depth durable]..]; try reflexivity.
    + apply (i_nested _ _ _ _ HI).
    + apply (i_depth _ _ _ _ HI).
    + rewrite updD_stable. apply (i_batch _ _ _ _ HI).
    + rewrite updD_stable. apply (i_legal _ _ _ _ HI).
    + rewrite updD_stable. apply (i_beg _ _ _ _ HI).
  - apply bind_ok in E. destruct E as ((b & q) & E & E2). injection E2 as <- <-. eapply Inv_same; [exact HI|]. eapply hasExitF_same. exact E.
  - apply bind_ok in E. destruct E as ((b & q) & E & E2). injection E2 as <- <-. eapply Inv_same; [exact HI|]. eapply hasNewF_same. exact E.
  - apply bind_ok in E. destruct E as ((b & q) & E & E2). injection E2 as <- <-. eapply Inv_same; [exact HI|].
    unfold getLastExec in E. apply bind_ok in E. destruct E as (n & _ & E). injection E as <- <-. repeat split.
  - apply bind_ok in E. destruct E as ((b & q) & E & E2). injection E2 as <- <-. eapply Inv_same; [exact HI|].
    unfold getLastView in E. apply bind_ok in E. destruct E as (n & _ & E). injection E as <- <-. repeat split.
  - apply bind_ok in E. destruct E as (u & Eg & E). apply guard_ok in Eg. apply andb_prop in Eg. destruct Eg as (G1 & G2).
    apply Nat.leb_le in G1. apply Nat.leb_le in G2. destruct (crash_ok c d p S k Hg HI (conj G1 G2)) as (d2 & p2 & E2 & HI2).
    rewrite E2 in E. injection E as <- <-. exact HI2.
Qed.
Lemma boot_ok c : goodCfg c -> exists d p, boot c = Ok (d, p) /\ Inv c d p (sys0 c).
Proof. intros Hg. apply (start_Inv c (mkDisk [] 0) [] 0 Hg); [apply Hist_nil|reflexivity|cbn; lia]. Qed.
Lemma run_Inv c es : forall d p S d' p', goodCfg c -> Inv c d p S -> run c (d, p) es = Ok (d', p') -> Forall (fitsE c) es ->
  (forall pre suf, es = pre ++ suf -> (depth (fold_left (sstep c) pre S) <= 255)%nat) -> Inv c d' p' (fold_left (sstep c) es S).
Proof.
  induction es as [|e es IH]; intros d p S d' p' Hg HI E Hf Hs; cbn [run fold_left] in *; [injection E as <- <-; exact HI|].
  apply bind_ok in E. destruct E as ((d1 & p1) & E1 & E2). inversion Hf; subst.
  eapply IH; [exact Hg| |exact E2|assumption|].
  - eapply Inv_step; try eassumption. apply (Hs [e] es). reflexivity.
  - intros pre suf Heq. apply (Hs (e :: pre) suf). rewrite Heq. reflexivity.
Qed.
Lemma boot_run_Inv c es d p : goodCfg c -> (do s <- boot c; run c s es) = Ok (d, p) -> Forall (fitsE c) es -> shallow c es -> Inv c d p (after c es).
Proof.
  intros Hg E Hf Hs. destruct (boot_ok c Hg) as (d0 & p0 & B & HI). rewrite B in E. cbn [bind] in E. eapply run_Inv; eassumption.
Qed.
Lemma run_app c a : forall s b, run c s (a ++ b) = do s1 <- run c s a; run c s1 b.
Proof.
  induction a as [|e a IH]; intros s b; [destruct s; reflexivity|]. cbn [app run]. destruct (stepE c s e); [|reflexivity]. cbn [bind]. apply IH.
Qed.
