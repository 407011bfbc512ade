(** Proofs for C14. *)
From Coq Require Import List Arith NArith Lia Bool.
From Verif Require Import Lib_Bytes Keys_Model Keys_Proofs Lib_CF Versioned_Model Versioned_Proofs Immutable_Model.
Import ListNotations.
Local Open Scope N_scope.

Section P.
Variable H : bytes -> bytes.
Lemma feed_In m t x e : In e (feed m t x) -> fst e = t \/ exists e', In e' m /\ fst e' = fst e.
Proof.
  induction m as [|[t' y] m IH]; cbn [feed]; [intros [<-|[]]; auto|]. destruct (blt t t'); [intros [<-|A]; [auto|right; exists e; auto]|].
  destruct (beqb t t'); [intros [<-|A]; right; [exists (t', y); split; [left|]; auto|exists e; split; [right|]; auto]|].
  intros [<-|A]; [right; exists (t', y); split; [left|]; auto|]. apply IH in A. destruct A as [A|(e' & A & B)]; auto. right. exists e'. split; [right|]; auto.
Qed.
Lemma feed_sorted m t x : sorted m -> sorted (feed m t x).
Proof.
  induction m as [|[t' y] m IH]; intros HS; cbn [feed]; [split; auto; intros e []|]. destruct HS as [L S']. destruct (blt t t') eqn:B.
  - split; [|split; auto]. intros e [<-|I]; auto. cbn [fst]. apply (blt_trans _ t'); auto. 
  - destruct (beqb t t') eqn:E; [split; auto|]. split; auto. intros e I. cbn [fst]. apply feed_In in I. destruct I as [I|(e' & I & F)].
    + rewrite I. destruct (blt t' t) eqn:C; auto. apply beqb_neq in E. destruct E. apply blt_total; auto.
    + rewrite <- F. apply (L e'). auto.
Qed.
Lemma feed_get m t x t' : sorted m -> cfGet (feed m t x) t' = if beqb t' t then Some (match cfGet m t with Some y => y ++ x | None => x end) else cfGet m t'.
Proof.
  induction m as [|[t2 y] m IH]; intros HS; cbn [feed]; [cbn [cfGet]; auto|]. destruct HS as [L S']. destruct (blt t t2) eqn:B.
  - cbn [cfGet]. destruct (beqb t' t) eqn:E; auto. rewrite (proj2 (beqb_neq t t2)) by (intros ->; rewrite blt_irrefl in B; discriminate).
    destruct (cfGet m t) eqn:G; auto. apply cfGet_In in G. apply L in G. cbn [fst] in G. apply blt_asym in G. congruence.
  - destruct (beqb t t2) eqn:E.
    + apply beqb_eq in E; subst. cbn [cfGet]. rewrite beqb_refl. destruct (beqb t' t2) eqn:E; auto.
    + cbn [cfGet]. rewrite E. destruct (beqb t' t2) eqn:E2; [|apply IH; auto]. apply beqb_eq in E2; subst. rewrite (beqb_sym t2 t), E. auto.
Qed.
Definition feedAll (m : list (bytes * bytes)) (x : bytes) (tags : list bytes) := fold_left (fun m tag => feed m tag x) tags m.
Lemma feedAll_spec tags : forall m x, sorted m -> NoDup tags -> sorted (feedAll m x tags) /\
  forall t, cfGet (feedAll m x tags) t = if hasTag t tags then Some (match cfGet m t with Some y => y ++ x | None => x end) else cfGet m t.
Proof.
  induction tags as [|a tags IH]; intros m x HS ND; [split; auto|]. inversion ND; subst. unfold feedAll in *. cbn [fold_left]. destruct (IH (feed m a x) x) as [A B]; auto.
  { apply feed_sorted; auto. }
  split; auto. intros t. rewrite B. unfold hasTag in *. cbn [existsb]. rewrite !feed_get by auto. destruct (beqb t a) eqn:E; cbn [orb]; auto.
  apply beqb_eq in E; subst. assert (Z : existsb (beqb a) tags = false).
  { destruct (existsb (beqb a) tags) eqn:Z; auto. apply existsb_exists in Z. destruct Z as (y & I & E). apply beqb_eq in E; subst. contradiction. }
  rewrite Z. auto.
Qed.
Lemma hashers_spec l : (forall u, In u l -> NoDup (snd (snd u))) -> sorted (hashers H l) /\
  forall t, cfGet (hashers H l) t = if existsb (fun u => hasTag t (snd (snd u))) l then Some (tagBytes H t l) else None.
Proof.
  intros ND.
  assert (G : forall l m, (forall u, In u l -> NoDup (snd (snd u))) -> sorted m ->
    sorted (fold_left (fun m (u : bytes * (bytes * list bytes)) => feedAll m (H (fst u) ++ H (fst (snd u))) (snd (snd u))) l m) /\
    forall t, cfGet (fold_left (fun m (u : bytes * (bytes * list bytes)) => feedAll m (H (fst u) ++ H (fst (snd u))) (snd (snd u))) l m) t =
      if existsb (fun u => hasTag t (snd (snd u))) l then Some (match cfGet m t with Some y => y ++ tagBytes H t l | None => tagBytes H t l end) else cfGet m t).
  { clear l ND. induction l as [|u l IH]; intros m ND HS; [split; auto|]. cbn [fold_left existsb].
    destruct (feedAll_spec (snd (snd u)) m (H (fst u) ++ H (fst (snd u)))) as [A B]; auto; [apply ND; left; auto|].
    destruct (IH (feedAll m (H (fst u) ++ H (fst (snd u))) (snd (snd u)))) as [C D]; auto; [intros; apply ND; right; auto|]. split; auto. intros t. rewrite D, B.
    unfold tagBytes. cbn [filter]. destruct (hasTag t (snd (snd u))) eqn:E; cbn [orb flat_map].
    - destruct (existsb (fun u0 => hasTag t (snd (snd u0))) l) eqn:X.
      + destruct (cfGet m t); rewrite ?app_assoc; auto.
      + assert (F : filter (fun u0 : bytes * (bytes * list bytes) => hasTag t (snd (snd u0))) l = []).
        { clear -X. induction l as [|v l IH]; auto. cbn [existsb] in X. apply orb_false_iff in X. destruct X as [X1 X2]. cbn [filter]. rewrite X1. auto. }
        rewrite F. cbn [flat_map]. rewrite app_nil_r. auto.
    - auto. }
  destruct (G l [] ND Logic.I) as [A B]. unfold hashers. split; [exact A|]. intros t. unfold feedAll in B. rewrite B. cbn [cfGet]. auto.
Qed.
Lemma map_snd_get {X Y} (f : X -> Y) (m : list (bytes * X)) k : cfGet (map (fun e => (fst e, f (snd e))) m) k = match cfGet m k with Some x => Some (f x) | None => None end.
Proof. induction m as [|[k' x] m IH]; auto. cbn [map cfGet fst snd]. destruct (beqb k k'); auto. Qed.
Lemma tagged_spec i : sorted (ikv i) -> tagged (iaddOut H i) = map (fun u => (fst u, snd (snd u))) (ikv i).
Proof.
  intros Sk. unfold iaddOut. cbn [tagged].
  assert (A : forall l m, (forall e u, In e m -> In u l -> blt (fst e) (fst u) = true) -> sorted l ->
    fold_left (fun m (u : bytes * (bytes * list bytes)) => emplace m (fst u) (snd (snd u))) l m = m ++ map (fun u => (fst u, snd (snd u))) l).
  { induction l as [|u l IH]; intros m M Sl; [rewrite app_nil_r; auto|]. cbn [fold_left map]. destruct Sl as [L Sl]. rewrite emplace_end by (intros; apply M; auto; left; auto).
    rewrite IH; auto.
    - rewrite <- app_assoc. auto.
    - intros e v Ie Iv. apply in_app_iff in Ie. destruct Ie as [Ie|[<-|[]]]; [apply M; auto; right; auto|]. cbn [fst]. apply L. auto. }
  rewrite A; auto.
Qed.

(** Effects on the column family. *)
Lemma iadd_get b l : forall s k, NoDup (map fst l) -> cfGet (iapply s (map (fun u : bytes * (bytes * list bytes) => IPut (fst u) (b, fst (snd u))) l)) k =
  match cfGet l k with Some (d, _) => Some (b, d) | None => cfGet s k end.
Proof.
  induction l as [|[k' [d t]] l IH]; intros s k ND; auto. inversion ND; subst. unfold iapply in *. cbn [map fold_left iapply1 fst snd]. rewrite IH by auto. cbn [cfGet]. rewrite cfGet_put.
  destruct (beqb k k') eqn:E; auto. apply beqb_eq in E; subst. rewrite (proj2 (cfGet_None l k')); auto.
Qed.
Lemma idel_get l : forall s k, cfGet (iapply s (map (fun e : bytes * list bytes => IDel (fst e)) l)) k = match cfGet l k with Some _ => None | None => cfGet s k end.
Proof.
  induction l as [|[k' t] l IH]; intros s k; auto. unfold iapply in *. cbn [map fold_left iapply1 fst]. rewrite IH. cbn [cfGet]. rewrite cfGet_del. destruct (beqb k k'); auto. destruct (cfGet l k); auto.
Qed.

Record J (s : istate) (c : ichain) : Prop := {
  jIds : map fst (snd s) = map (fun j => igenesis c + N.of_nat j) (seq 0 (length (snd s))); jLast : ilast c = fst s; jLen : igenesis c + N.of_nat (length (snd s)) = fst s + 1;
  jSort : forall b i, In (b, i) (snd s) -> sorted (ikv i) /\ forall u, In u (ikv i) -> NoDup (snd (snd u));
  jOut : forall b i, In (b, i) (snd s) -> iouts c b = Some (iaddOut H i);
  jVal : forall k b d, cfGet (ist c) k = Some (b, d) <-> exists tags, wrote s b k d tags }.
Lemma j_init : J isinit iinit.
Proof.
  constructor; cbn; auto; try (intros; contradiction).
  intros k b d. split; [discriminate|]. intros (t & i & [] & _).
Qed.
Lemma j_id s c b i : J s c -> In (b, i) (snd s) -> igenesis c <= b <= ilast c.
Proof.
  intros I Hin. apply (in_map fst) in Hin. rewrite (jIds _ _ I) in Hin. apply in_map_iff in Hin. destruct Hin as (j & E & Hj). apply in_seq in Hj. cbn [fst] in E. subst b. pose proof (jLen _ _ I). rewrite (jLast _ _ I). lia.
Qed.
Lemma j_head s c b i l : J s c -> snd s = (b, i) :: l -> b = igenesis c.
Proof. intros I E. pose proof (jIds _ _ I) as Ids. rewrite E in Ids. cbn [map length seq fst] in Ids. injection Ids as -> _. lia. Qed.
Lemma j_lastb s c b i l : J s c -> snd s = l ++ [(b, i)] -> b = ilast c.
Proof.
  intros I E. pose proof (jIds _ _ I) as Ids. rewrite E in Ids. rewrite app_length in Ids. cbn [length] in Ids. rewrite seq_app, !map_app in Ids. apply app_inj_tail in Ids. destruct Ids as [_ Ids]. cbn [fst] in Ids.
  pose proof (jLen _ _ I) as Ln. rewrite E, app_length in Ln. cbn [length] in Ln. rewrite (jLast _ _ I). lia.
Qed.
Lemma wrote_uniq s c b b' k d d' t t' : J s c -> wrote s b k d t -> wrote s b' k d' t' -> b = b' /\ d = d'.
Proof.
  intros I W W'. assert (A : cfGet (ist c) k = Some (b, d)) by (apply (jVal _ _ I); eauto). assert (B : cfGet (ist c) k = Some (b', d')) by (apply (jVal _ _ I); eauto). rewrite A in B. injection B as <- <-. auto.
Qed.
Lemma tagged_get i k : sorted (ikv i) -> cfGet (tagged (iaddOut H i)) k = match cfGet (ikv i) k with Some (_, t) => Some t | None => None end.
Proof.
  intros Sk. rewrite tagged_spec by auto. clear Sk. induction (ikv i) as [|[k' [d t]] l IH]; auto. cbn [map cfGet fst snd]. destruct (beqb k k'); auto.
Qed.
(** Removing a block removes exactly its entries. *)
Lemma del_block s c b i : J s c -> In (b, i) (snd s) -> forall k b' d,
  (cfGet (iapply (ist c) (idelOps (iaddOut H i))) k = Some (b', d) <-> exists tags, b' <> b /\ wrote s b' k d tags).
Proof.
  intros I Ib k b' d. unfold idelOps. rewrite idel_get, tagged_get by (eapply (jSort _ _ I); eauto).
  destruct (cfGet (ikv i) k) as [[d0 t0]|] eqn:E.
  - split; [discriminate|]. intros (t & N & W). exfalso. apply N. apply cfGet_In in E. apply (wrote_uniq s c b' b k d d0 t t0 I); auto. exists i. auto.
  - rewrite (jVal _ _ I). split.
    + intros (t & W). exists t. split; auto. intros ->. destruct W as (i' & I' & K').
      assert (X : iouts c b = Some (iaddOut H i')) by (apply (jOut _ _ I); auto). rewrite (jOut _ _ I b i Ib) in X. injection X as X.
      assert (Y : tagged (iaddOut H i) = tagged (iaddOut H i')) by (unfold iaddOut; cbn [tagged]; auto).
      assert (Z : cfGet (tagged (iaddOut H i')) k <> None). { rewrite tagged_get by (eapply (jSort _ _ I); eauto). rewrite (In_cfGet _ _ _ (sorted_NoDup _ (proj1 (jSort _ _ I _ _ I'))) K'). discriminate. }
      rewrite <- Y, tagged_get, E in Z by (eapply (jSort _ _ I); eauto). tauto.
    + intros (t & _ & W). eauto.
Qed.
Lemma j_step s c o : J s c -> iallowed s o -> exists c', istep H c o = Some c' /\ J (isstep s o) c'.
Proof.
  intros I A. destruct o as [i| |]; cbn [iallowed istep] in *.
  - destruct A as [Sk Fresh]. eexists. split; [reflexivity|]. pose proof (jLen _ _ I) as Ln. rewrite (jLast _ _ I). constructor; cbn [ist igenesis ilast iouts isstep fst snd].
    + rewrite app_length. cbn [length]. rewrite seq_app, !map_app, <- (jIds _ _ I). cbn [map seq fst]. do 2 f_equal. lia.
    + auto.
    + rewrite app_length. cbn [length]. lia.
    + intros b i0 I0. apply in_app_iff in I0. destruct I0 as [I0|[E|[]]]; [eapply (jSort _ _ I); eauto|]. injection E as <- <-. split; auto. intros [k [d t]] Iu. apply (Fresh k d t Iu).
    + intros b i0 I0. unfold iupd. apply in_app_iff in I0. destruct I0 as [I0|[E|[]]].
      * pose proof (j_id s c b i0 I I0) as Rg. rewrite (jLast _ _ I) in Rg. destruct (N.eqb_spec b (fst s + 1)); [lia|]. apply (jOut _ _ I); auto.
      * injection E as <- <-. rewrite N.eqb_refl. auto.
    + intros k b d. unfold iaddOps. rewrite iadd_get by (apply sorted_NoDup; auto). destruct (cfGet (ikv i) k) as [[d0 t0]|] eqn:E.
      * apply cfGet_In in E. split.
        -- intros X. injection X as <- <-. exists t0, i. split; auto. apply in_app_iff. right. left. auto.
        -- intros (t & i' & I' & K'). cbn [snd] in I'. apply in_app_iff in I'. destruct I' as [I'|[X|[]]].
           ++ exfalso. destruct (Fresh k d0 t0 E) as [_ F]. apply (F b d t). exists i'. auto.
           ++ injection X as <- <-. pose proof (In_cfGet _ _ _ (sorted_NoDup _ Sk) E) as E1. pose proof (In_cfGet _ _ _ (sorted_NoDup _ Sk) K') as E2. congruence.
      * rewrite (jVal _ _ I). split.
        -- intros (t & i' & I' & K'). exists t, i'. split; auto. apply in_app_iff. auto.
        -- intros (t & i' & I' & K'). cbn [snd] in I'. apply in_app_iff in I'. destruct I' as [I'|[X|[]]]; [exists t, i'; auto|]. injection X as <- <-.
           apply (In_cfGet _ _ _ (sorted_NoDup _ Sk)) in K'. congruence.
  - destruct (snd s) as [|[b i] l] eqn:Es; [simpl in A; lia|]. pose proof (j_head s c b i l I Es) as Eb. pose proof (jLen _ _ I) as Ln. rewrite Es in Ln. cbn [length] in A, Ln.
    assert (Ib : In (b, i) (snd s)) by (rewrite Es; left; auto).
    rewrite (jLast _ _ I). rewrite (proj2 (N.ltb_lt _ _)) by lia. rewrite <- Eb, (jOut _ _ I b i Ib). eexists. split; [reflexivity|].
    constructor; cbn [ist igenesis ilast iouts isstep fst snd]; rewrite ?Es; cbn [tl].
    + pose proof (jIds _ _ I) as Ids. rewrite Es in Ids. cbn [map length seq fst] in Ids. injection Ids as _ Ids. rewrite Ids, <- seq_shift, map_map. apply map_ext. intros j. lia.
    + auto.
    + lia.
    + intros b' i' I'. apply (jSort _ _ I b' i'). rewrite Es. right; auto.
    + intros b' i' I'. assert (In' : In (b', i') (snd s)) by (rewrite Es; right; auto). unfold iupd. destruct (N.eqb_spec b' b) as [->|]; [|apply (jOut _ _ I); auto]. exfalso.
      pose proof (jIds _ _ I) as Ids. rewrite Es in Ids. cbn [map length seq fst] in Ids. injection Ids as _ Ids. apply (in_map fst) in I'. rewrite Ids in I'. apply in_map_iff in I'. destruct I' as (j & E & Hj). apply in_seq in Hj. cbn [fst] in E. lia.
    + intros k b' d. rewrite (del_block s c b i I Ib). unfold wrote. cbn [snd]. rewrite Es. split.
      * intros (t & N & i' & [X|I'] & K'); [congruence|]. exists t, i'. auto.
      * intros (t & i' & I' & K'). exists t. split; [|exists i'; split; [right|]; auto]. intros ->.
        pose proof (jIds _ _ I) as Ids. rewrite Es in Ids. cbn [map length seq fst] in Ids. injection Ids as _ Ids. apply (in_map fst) in I'. rewrite Ids in I'. apply in_map_iff in I'. destruct I' as (j & E & Hj). apply in_seq in Hj. cbn [fst] in E. lia.
  - destruct (snd s) as [|[b i] l] eqn:Es using rev_ind; [simpl in A; lia|]. clear IHl. rewrite app_length in A. cbn [length] in A.
    pose proof (j_lastb s c b i l I Es) as Eb. pose proof (jLen _ _ I) as Ln. rewrite Es, app_length in Ln. cbn [length] in Ln.
    assert (Ib : In (b, i) (snd s)) by (rewrite Es; apply in_app_iff; right; left; auto). pose proof (jLast _ _ I) as La.
    rewrite (proj2 (N.ltb_lt _ _)) by lia. rewrite <- Eb, (jOut _ _ I b i Ib). eexists. split; [reflexivity|].
    assert (Lt : forall b' i', In (b', i') l -> b' <> b).
    { intros b' i' I' ->. pose proof (jIds _ _ I) as Ids. rewrite Es, app_length in Ids. cbn [length] in Ids. rewrite seq_app, !map_app in Ids. apply app_inj_tail in Ids. destruct Ids as [Ids _].
      apply (in_map fst) in I'. rewrite Ids in I'. apply in_map_iff in I'. destruct I' as (j & E & Hj). apply in_seq in Hj. cbn [fst] in E. lia. }
    constructor; cbn [ist igenesis ilast iouts isstep fst snd]; rewrite ?Es, ?removelast_last.
    + pose proof (jIds _ _ I) as Ids. rewrite Es, app_length in Ids. cbn [length] in Ids. rewrite seq_app, !map_app in Ids. apply app_inj_tail in Ids. tauto.
    + lia.
    + lia.
    + intros b' i' I'. apply (jSort _ _ I b' i'). rewrite Es. apply in_app_iff; auto.
    + intros b' i' I'. assert (In' : In (b', i') (snd s)) by (rewrite Es; apply in_app_iff; auto). unfold iupd. destruct (N.eqb_spec b' b) as [X|]; [destruct (Lt _ _ I' X)|]. apply (jOut _ _ I); auto.
    + intros k b' d. rewrite (del_block s c b i I Ib). unfold wrote. cbn [snd]. rewrite Es. split.
      * intros (t & N & i' & I' & K'). apply in_app_iff in I'. destruct I' as [I'|[X|[]]]; [|congruence]. exists t, i'. auto.
      * intros (t & i' & I' & K'). exists t. split; [eapply Lt; eauto|]. exists i'. split; auto. apply in_app_iff. auto.
Qed.
Lemma j_run os : forall s c, J s c -> iallAllowed s os -> exists c', irun H c os = Some c' /\ J (isrun s os) c'.
Proof.
  induction os as [|o os IH]; intros s c I A; [exists c; split; auto|]. cbn [iallAllowed irun] in *. destruct A as [A1 A2]. destruct (j_step s c o I A1) as (c' & -> & I'). apply IH; auto.
Qed.

(** Tag proofs. *)
Lemma iproofLoop_spec s tag key l : forall i idx hs, (forall u, In u l -> exists b, cfGet s (fst u) = Some (b, fst (snd u))) -> NoDup (map fst l) -> 
  (forall u, In u l -> fst u = key -> hasTag tag (snd (snd u)) = true) ->
  iproofLoop H s tag key (map (fun u => (fst u, snd (snd u))) l) i idx hs =
  proofLoop H {| vals := map (fun u => (vkey (fst u) 0, (false, fst (snd u)))) l; lat := []; act := [] |} 0 key (map (fun u => (fst u, (false, false))) (filter (fun u => hasTag tag (snd (snd u))) l)) i idx hs.
Proof.
  assert (G : forall l L i idx hs, (forall u, In u l -> exists b, cfGet s (fst u) = Some (b, fst (snd u))) -> 
    (forall u, In u l -> cfGet L (vkey (fst u) 0) = Some (false, fst (snd u))) -> (forall u, In u l -> fst u = key -> hasTag tag (snd (snd u)) = true) ->
    iproofLoop H s tag key (map (fun u => (fst u, snd (snd u))) l) i idx hs =
    proofLoop H {| vals := L; lat := []; act := [] |} 0 key (map (fun u => (fst u, (false, false))) (filter (fun u => hasTag tag (snd (snd u))) l)) i idx hs).
  { clear l. induction l as [|u l IH]; intros L i idx hs G GL T; auto. cbn [map iproofLoop fst snd filter].
    assert (IH' : forall i idx hs, iproofLoop H s tag key (map (fun u => (fst u, snd (snd u))) l) i idx hs =
      proofLoop H {| vals := L; lat := []; act := [] |} 0 key (map (fun u => (fst u, (false, false))) (filter (fun u => hasTag tag (snd (snd u))) l)) i idx hs).
    { intros. apply IH; [intros; apply G; right; auto|intros; apply GL; right; auto|intros; apply T; auto; right; auto]. }
    destruct (beqb (fst u) key) eqn:E.
    - rewrite (T u (or_introl eq_refl)) by (apply beqb_eq; auto). cbn [map proofLoop fst]. rewrite E. apply IH'.
    - destruct (hasTag tag (snd (snd u))) eqn:Ht; [|apply IH']. cbn [map proofLoop fst]. rewrite E. destruct (G u (or_introl eq_refl)) as [b Gb]. unfold igetLatest. rewrite Gb.
      unfold vget. cbn [vals]. rewrite (GL u) by (left; auto). apply IH'. }
  intros i idx hs A ND T. apply G; auto. intros u Iu. apply In_cfGet.
  - rewrite map_map. cbn [fst]. clear -ND. induction l as [|v l IH]; [constructor|]. cbn [map] in *. apply NoDup_cons_iff in ND. destruct ND as [H2 ND]. constructor; auto. intros X. apply in_map_iff in X. destruct X as (w & E & Iw).
    apply vkey_inj in E; try reflexivity. destruct E as [E _]. apply H2. rewrite <- E. apply in_map. auto.
  - apply in_map_iff. exists u. auto.
Qed.
Lemma iproof_complete s c b i tag key d tags : J s c -> In (b, i) (snd s) -> In (key, (d, tags)) (ikv i) -> In tag tags -> iwant i = true ->
  exists p roots, iouts c b = Some (iaddOut H i) /\ igetProof H (ist c) tag key (iaddOut H i) = Some (Some p) /\ pfBlock p = b /\ pfKey p = key /\ pfValue p = d /\
    tagRoots (iaddOut H i) = Some roots /\ cfGet roots tag = Some (calculateRootHash H p) /\ calculateRootHash H p = H (tagBytes H tag (ikv i)).
Proof.
  intros I Ib Ik It W. destruct (jSort _ _ I b i Ib) as [Sk NT]. pose proof (sorted_NoDup _ Sk) as ND. pose proof (In_cfGet _ _ _ ND Ik) as Gk.
  assert (HT : hasTag tag tags = true) by (apply existsb_exists; exists tag; split; auto; apply beqb_refl).
  assert (V : forall u, In u (ikv i) -> cfGet (ist c) (fst u) = Some (b, fst (snd u))).
  { intros [k' [d' t']] Iu. apply (jVal _ _ I). exists t', i. auto. }
  unfold igetProof. rewrite tagged_get, Gk by auto. rewrite HT. unfold igetLatest. pose proof (V _ Ik) as Vk. cbn [fst snd] in Vk. rewrite Vk. rewrite tagged_spec by auto.
  rewrite iproofLoop_spec; [|intros u Iu; exists b; auto|auto|].
  2: { intros [k' [d' t']] Iu E. cbn [fst] in E. subst k'. apply (In_cfGet _ _ _ ND) in Iu. rewrite Iu in Gk. injection Gk as -> ->. auto. }
  set (F := filter (fun u => hasTag tag (snd (snd u))) (ikv i)).
  set (F' := map (fun u : bytes * (bytes * list bytes) => (fst u, (fst (snd u), false))) F).
  assert (MF : map (fun u : bytes * (bytes * list bytes) => (fst u, (false, false))) F = map (fun u => (fst u, (false, snd (snd u)))) F') by (unfold F'; rewrite map_map; auto).
  rewrite MF. assert (NF : NoDup (map fst F')).
  { unfold F'. rewrite map_map. cbn [fst]. unfold F. clear -ND. induction (ikv i) as [|u l IH]; [constructor|]. cbn [map filter] in *. apply NoDup_cons_iff in ND. destruct ND as [H2 ND]. destruct (hasTag tag (snd (snd u))); auto.
    cbn [map]. constructor; auto. intros X. apply H2. apply in_map_iff in X. destruct X as (v & E & Iv). apply filter_In in Iv. rewrite <- E. apply in_map. tauto. }
  rewrite proofLoop_spec; auto.
  2: { intros u Iu. unfold F' in Iu. apply in_map_iff in Iu. destruct Iu as (v & <- & Iv). unfold F in Iv. apply filter_In in Iv. destruct Iv as [Iv _]. cbn [fst snd]. unfold vget. cbn [vals].
       rewrite (In_cfGet _ (vkey (fst v) 0) (false, fst (snd v))); auto.
       - rewrite map_map. cbn [fst]. clear -ND. induction (ikv i) as [|w l IH]; [constructor|]. cbn [map] in *. apply NoDup_cons_iff in ND. destruct ND as [H2 ND]. constructor; auto. intros X. apply in_map_iff in X. destruct X as (z & E & Iz).
         apply vkey_inj in E; try reflexivity. destruct E as [E _]. apply H2. rewrite <- E. apply in_map. auto.
       - apply in_map_iff. exists v. auto. }
  assert (IF : In (key, (d, false)) F') by (unfold F'; apply in_map_iff; exists (key, (d, tags)); split; auto; unfold F; apply filter_In; auto).
  destruct (find_split key F' (d, false) NF IF) as (l1 & l2 & E1 & E2 & E3). rewrite E3, E2.
  eexists. eexists. split; [apply (jOut _ _ I); auto|]. split; [reflexivity|]. cbn [pfBlock pfKey pfValue]. do 3 (split; [reflexivity|]).
  unfold iaddOut. cbn [tagRoots]. rewrite W. split; [reflexivity|].
  assert (C : calculateRootHash H {| pfBlock := b; pfKey := key; pfValue := d; pfIndex := (0 + 2 * length l1)%nat; pfHashes := [] ++ flat_map (kvh H) (l1 ++ l2) |} = H (tagBytes H tag (ikv i))).
  { rewrite (calc_spec H _ (flat_map (kvh H) l1) (flat_map (kvh H) l2)).
    - cbn [pfKey pfValue]. f_equal. unfold tagBytes. fold F.
      assert (Z : flat_map (fun u => H (fst u) ++ H (fst (snd u))) F = flat_map (fun u : bytes * (bytes * bool) => H (fst u) ++ H (fst (snd u))) F').
      { unfold F'. clear. induction F; auto. cbn [map flat_map fst snd]. f_equal. auto. }
      rewrite Z, E1, flat_map_app. cbn [flat_map fst snd].
      assert (Q : forall l, concat (flat_map (kvh H) l) = flat_map (fun u => H (fst u) ++ H (fst (snd u))) l). { induction l as [|a l IHl]; auto. cbn [flat_map kvh concat app]. rewrite ?app_assoc. f_equal. auto. }
      rewrite !Q. auto.
    - cbn [pfHashes app]. apply flat_map_app.
    - cbn [pfIndex]. clear. induction l1; auto. cbn [length flat_map kvh app] in *. lia. }
  rewrite C. split; auto. rewrite map_snd_get. destruct (hashers_spec (ikv i) NT) as [_ HG]. rewrite HG. rewrite (proj2 (existsb_exists _ _)); auto. exists (key, (d, tags)). auto.
Qed.
End P.
