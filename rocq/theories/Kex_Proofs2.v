(** C36: what a step does, agreement without restarts, and the systems after ordered exchanges, restarts and transfers. *)
From Coq Require Import List Arith Lia ZArith Bool NArith Sorted.
From Verif Require Import Kex_Model Kex_Proofs.
Import ListNotations.
Open Scope Z_scope.

Definition applyE (T : systems) (e : ent) : systems := onPublic (e_rep e) (e_pub e) (e_gen e) T.
Definition PSub (me : nat) (store : nat -> kmap) (priv : kmap) : Prop :=
  KSrt priv /\ forall z k, kfind z priv = Some k -> kfind z (store me) <> None.

Lemma sv_applyE a b e : SameVk a b -> SameVk (applyE a e) (applyE b e).
Proof. apply sv_public. Qed.
Lemma sv_fold L : forall a b, SameVk a b -> SameVk (fold_left applyE L a) (fold_left applyE L b).
Proof. induction L as [|e L IH]; intros a b A; [exact A|]. cbn [fold_left]. apply IH, sv_applyE, A. Qed.
Lemma push_mono n PS HDR r k z store store' : push n PS HDR r k z store = Some store' -> kfind z (store r) = None -> (forall r, KSrt (store r)) ->
  (forall r' z', kfind z' (store r') <> None -> kfind z' (store' r') <> None) /\ kfind z (store' r) = Some k.
Proof.
  intros P Hn So. unfold push in P. destruct ((r <? n)%nat && _); [|discriminate]. injection P as <-. split.
  - intros r' z' F. destruct (r' =? r)%nat eqn:E; [|exact F]. apply Nat.eqb_eq in E as ->. rewrite kfind_put by auto.
    destruct (z' =? z); [discriminate|exact F].
  - rewrite Nat.eqb_refl, kfind_put by auto. rewrite Z.eqb_refl. reflexivity.
Qed.

Lemma exec_spec n PS HDR me epoch m req s rp s' L :
  SRel n (s_store s) L -> onKeyExchange n PS HDR me epoch m req s = Some (rp, s') ->
  (counts epoch m req L = false /\ s' = s) \/
  (counts epoch m req L = true /\ SRel n (s_store s') (L ++ [entOf m]) /\ SameVk (s_sys s') (applyE (s_sys s) (entOf m)) /\
   (PSub me (s_store s) (s_priv s) -> PSub me (s_store s') (s_priv s') /\ PSub me (s_store s') (s_priv s)) /\
   pageBytes HDR (s_store s' (k_rep m)) <= PS)%nat.
Proof.
  intros Sr E. unfold onKeyExchange in E. unfold counts.
  destruct (k_query m); [injection E as <- <-; left; auto|]. destruct (k_epoch m =? epoch); cbn [negb] in E; [|injection E as <- <-; left; auto].
  destruct (k_gen m <? req / WW * WW) eqn:G; [apply Z.ltb_lt in G|apply Z.ltb_ge in G].
  { injection E as <- <-. left. split; [|auto]. replace (req / WW * WW <=? k_gen m) with false; [reflexivity|]. symmetry. apply Z.leb_gt. exact G. }
  replace (req / WW * WW <=? k_gen m) with true by (symmetry; apply Z.leb_le; exact G).
  pose proof (srel_none n _ L m Sr) as Nn. cbv zeta in E.
  destruct (kfind (toSeq (k_gen m)) (s_store s (k_rep m))) as [k0|] eqn:K.
  { injection E as <- <-. left. split; [|auto]. destruct (existsb _ L) eqn:X; [reflexivity|]. destruct Nn as [_ Nn]. discriminate (Nn eq_refl). }
  destruct Nn as [Nn _]. rewrite (Nn eq_refl). clear Nn. right. split; [reflexivity|].
  destruct (push _ _ _ _ _ _ _) as [store'|] eqn:P; [|discriminate].
  pose proof (push_mono _ _ _ _ _ _ _ _ P K (proj1 Sr)) as [Pm Pf].
  pose proof (srel_push _ _ _ _ _ _ _ Sr K P) as Sr'.
  assert (Pg : (pageBytes HDR (store' (k_rep m)) <= PS)%nat).
  { unfold push in P. destruct ((k_rep m <? n)%nat && _) eqn:X; [|discriminate]. injection P as <-. rewrite Nat.eqb_refl.
    apply andb_true_iff in X as [_ X]. apply Nat.leb_le in X. exact X. }
  destruct (if (k_rep m =? me)%nat then _ else _) as [[sk pub]|] eqn:C.
  - destruct (k_rep m =? me)%nat eqn:Me; [|discriminate]. apply Nat.eqb_eq in Me.
    destruct (key_eqb pub (k_pub m)); [|discriminate]. destruct (kfind _ (s_priv s)) eqn:Kp; [discriminate|].
    injection E as <- <-. cbn [s_store s_sys s_priv]. split; [exact Sr'|]. split; [|split; [|exact Pg]].
    + unfold applyE, entOf. cbn [e_rep e_pub e_gen]. rewrite Me. apply sv_private, sv_refl.
    + intros [P1 P2]. split; split; auto.
      * apply kput_srt. exact P1.
      * intros z k. rewrite kfind_put by auto. destruct (z =? toSeq (k_gen m)) eqn:Ez.
        -- apply Z.eqb_eq in Ez as ->. intros _. rewrite <- Me, Pf. discriminate.
        -- intros Q. apply Pm. eapply P2. exact Q.
      * intros z k Q. apply Pm. eapply P2. exact Q.
  - injection E as <- <-. cbn [s_store s_sys s_priv]. split; [exact Sr'|]. split; [apply sv_refl|]. split; [|exact Pg].
    intros [P1 P2]. assert (PSub me store' (s_priv s)) by (split; auto; intros z k Q; apply Pm; eapply P2; exact Q). auto.
Qed.
Lemma counts_step epoch m req L : accepted epoch [(m, req)] L = if counts epoch m req L then L ++ [entOf m] else L.
Proof. rewrite accepted_cons. reflexivity. Qed.

(** Without restarts and transfers. *)
Lemma run_sv n PS HDR me epoch ops : forall s L T s', SRel n (s_store s) L -> SameVk (s_sys s) T -> 
  run n PS HDR me epoch ops s = Some s' ->
  exists more, accepted epoch (executed ops) L = L ++ more /\ SRel n (s_store s') (L ++ more) /\ SameVk (s_sys s') (fold_left applyE more T).
Proof.
  induction ops as [|o ops IH]; intros s L T s' Sr Sv R; cbn [run] in R.
  - injection R as <-. exists []. rewrite app_nil_r. cbn. auto.
  - destruct (step _ _ _ _ _ o s) as [s1|] eqn:St; [|discriminate]. destruct o as [m req|sn fresh]; cbn [step] in St.
    + destruct (onKeyExchange _ _ _ _ _ m req s) as [[rp s1']|] eqn:E; [|discriminate]. injection St as ->. change (executed (OExec m req :: ops)) with ((m, req) :: executed ops).
      rewrite accepted_cons. destruct (exec_spec _ _ _ _ _ _ _ _ _ _ _ Sr E) as [[C ->]|(C & Sr1 & Sv1 & _)]; rewrite C.
      * apply (IH s L T s' Sr Sv R).
      * destruct (IH s1 (L ++ [entOf m]) (applyE T (entOf m)) s' Sr1) as (more & A & B & D); auto.
        { eapply sv_trans; [exact Sv1|]. apply sv_applyE, Sv. }
        exists (entOf m :: more). rewrite A. cbn [fold_left]. rewrite <- app_assoc in *. cbn [app] in *. auto.
    + injection St as <-. change (executed (OGen sn fresh :: ops)) with (executed ops). apply (IH (snd (generate me epoch sn fresh s)) L T s'); auto.
      * unfold generate. destruct (_ && _); exact Sr.
      * unfold generate. destruct (_ && _); exact Sv.
Qed.
Lemma sv_init (a b : sys) : (forall r, sy_vk a r = sy_vk b r) -> SameVk [(0, a)] [(0, b)].
Proof. intros E. constructor; [cbn; auto|constructor]. Qed.
Lemma run_agree n PS HDR me1 me2 epoch i1 i2 ops1 ops2 s1 s2 : (forall r, sy_vk i1 r = sy_vk i2 r) ->
  run n PS HDR me1 epoch ops1 (start i1) = Some s1 -> run n PS HDR me2 epoch ops2 (start i2) = Some s2 ->
  accepted epoch (executed ops1) [] = accepted epoch (executed ops2) [] ->
  SameVk (s_sys s1) (s_sys s2) /\ (forall r z, kfind z (s_store s1 r) = kfind z (s_store s2 r)).
Proof.
  intros Ei R1 R2 Ea.
  destruct (run_sv _ _ _ _ _ _ (start i1) [] [(0, i1)] _ (srel_nil n) (sv_refl _) R1) as (m1 & A1 & (_ & B1 & _) & D1).
  destruct (run_sv _ _ _ _ _ _ (start i2) [] [(0, i2)] _ (srel_nil n) (sv_refl _) R2) as (m2 & A2 & (_ & B2 & _) & D2).
  cbn [app] in *. assert (Em : m2 = m1) by congruence. rewrite Em in *. clear m2 Em. split.
  - eapply sv_trans; [exact D1|]. eapply sv_trans; [|apply sv_sym; exact D2]. apply sv_fold, sv_init, Ei.
  - intros r z. destruct (kfind z (s_store s1 r)) as [k|] eqn:E.
    + apply B1, B2 in E. congruence.
    + destruct (kfind z (s_store s2 r)) as [k|] eqn:F; [|reflexivity]. apply B2, B1 in F. congruence.
Qed.

(** ---------- in order ---------- *)
Notation uf e := (usableFrom (e_gen e)).
Definition UpTo (L : list ent) (vk0 : nat -> key) (r : nat) (c : Z) (k : key) : Prop :=
  (exists e, In e L /\ e_rep e = r /\ e_pub e = k /\ uf e <= c /\ forall e', In e' L -> e_rep e' = r -> uf e' <= c -> e_gen e' <= e_gen e)
  \/ ((forall e, In e L -> e_rep e = r -> ~ uf e <= c) /\ k = vk0 r).
Definition Inv (vk0 : nat -> key) (T : systems) (L : list ent) : Prop :=
  Srt T /\ look 0 T <> None /\
  (forall c s, look c T = Some s -> c = 0 \/ exists e, In e L /\ uf e = c) /\
  (forall e, In e L -> look (uf e) T <> None) /\
  (forall c s r, look c T = Some s -> UpTo L vk0 r c (sy_vk s r)).

Lemma upto_set L L' vk0 r c k : (forall e, In e L <-> In e L') -> UpTo L vk0 r c k -> UpTo L' vk0 r c k.
Proof.
  intros E [(e & A & B & C & D & F)|[A B]].
  - left. exists e. split; [apply E; exact A|]. split; [exact B|]. split; [exact C|]. split; [exact D|]. intros e' H'. apply F. apply E. exact H'.
  - right. split; [|exact B]. intros e H'. apply A. apply E. exact H'.
Qed.
Lemma upto_bound L vk0 r c d k : (forall e, In e L -> e_rep e = r -> (uf e <= c <-> uf e <= d)) -> UpTo L vk0 r c k -> UpTo L vk0 r d k.
Proof.
  intros E [(e & A & B & C & D & F)|[A B]].
  - left. exists e. split; [exact A|]. split; [exact B|]. split; [exact C|]. split; [apply E; auto|]. intros e' H' R' U'. apply F; auto. apply E; auto.
  - right. split; [|exact B]. intros e H' R' U'. apply (A e H' R'). apply E; auto.
Qed.
(** an element that does not count for (r, c) *)
Lemma upto_skip L e vk0 r c k : (e_rep e = r -> ~ uf e <= c) -> UpTo L vk0 r c k -> UpTo (L ++ [e]) vk0 r c k.
Proof.
  intros N [(e0 & A & B & C & D & F)|[A B]].
  - left. exists e0. split; [apply in_app_iff; auto|]. split; [exact B|]. split; [exact C|]. split; [exact D|]. intros e' H' R' U'.
    apply in_app_iff in H' as [H'|[<-|[]]]; [auto|]. destruct (N R' U').
  - right. split; [|exact B]. intros e' H' R' U'. apply in_app_iff in H' as [H'|[<-|[]]]; [apply (A e' H' R' U')|apply (N R' U')].
Qed.
Lemma upto_new L e vk0 c : uf e <= c -> (forall e', In e' L -> e_rep e' = e_rep e -> uf e' <= c -> e_gen e' <= e_gen e) ->
  UpTo (L ++ [e]) vk0 (e_rep e) c (e_pub e).
Proof.
  intros U F. left. exists e. split; [apply in_app_iff; right; left; reflexivity|]. split; [reflexivity|]. split; [reflexivity|]. split; [exact U|].
  intros e' H' R' U'. apply in_app_iff in H' as [H'|[<-|[]]]; [auto|lia].
Qed.
Lemma ordered_app L e : Ordered (L ++ [e]) -> Ordered L /\ forall a, In a L -> uf a <= uf e /\ (e_rep a = e_rep e -> e_gen a < e_gen e).
Proof.
  intros O. split.
  - intros i j a b Lt A B. apply (O i j); auto; (rewrite nth_error_app1; [assumption|]); apply nth_error_Some; congruence.
  - intros a Hi. apply In_nth_error in Hi as [i Ei]. assert (Lt : (i < length L)%nat) by (apply nth_error_Some; congruence).
    apply (O i (length L)); auto; [rewrite nth_error_app1; auto|]. rewrite nth_error_app2, Nat.sub_diag by lia. reflexivity.
Qed.
Lemma ordered_prefix L M : Ordered (L ++ M) -> Ordered L.
Proof.
  intros O i j a b Lt A B. apply (O i j); auto; (rewrite nth_error_app1; [assumption|]); apply nth_error_Some; congruence.
Qed.
Lemma ordered_split L M : Ordered (L ++ M) -> forall a b, In a L -> In b M -> uf a <= uf b.
Proof.
  intros O a b Ha Hb. apply In_nth_error in Ha as [i Ei]. apply In_nth_error in Hb as [j Ej].
  assert (Lt : (i < length L)%nat) by (apply nth_error_Some; congruence).
  apply (O i (length L + j)%nat); [lia|rewrite nth_error_app1; auto|]. rewrite nth_error_app2 by lia. replace (length L + j - length L)%nat with j by lia. exact Ej.
Qed.

Lemma inv_init (init : sys) : Inv (sy_vk init) [(0, init)] [].
Proof.
  split; [repeat constructor|]. split; [cbn; discriminate|]. split; [|split].
  - intros c s E. rewrite look_cons in E. destruct (0 =? c) eqn:F; [apply Z.eqb_eq in F; auto|discriminate].
  - intros e [].
  - intros c s r E. rewrite look_cons in E. destruct (0 =? c); [|discriminate]. injection E as <-. right. split; [intros e []|reflexivity].
Qed.
Lemma inv_sv vk0 T T' L : SameVk T T' -> Inv vk0 T L -> Inv vk0 T' L.
Proof.
  intros Sv (I1 & I2 & I3 & I4 & I5). split; [eapply sv_srt; eauto|].
  assert (Lk : forall c s', look c T' = Some s' -> exists s, look c T = Some s /\ forall r, sy_vk s r = sy_vk s' r).
  { intros c s' E. pose proof (sv_look T T' c Sv) as Q. rewrite E in Q. destruct (look c T); [eauto|contradiction]. }
  assert (Nk : forall c, look c T <> None -> look c T' <> None).
  { intros c Hn E. pose proof (sv_look T T' c Sv) as Q. rewrite E in Q. destruct (look c T); [contradiction|congruence]. }
  split; [auto|]. split; [|split].
  - intros c s' E. destruct (Lk _ _ E) as (s & E' & _). eapply I3; eauto.
  - intros e Hi. auto.
  - intros c s' r E. destruct (Lk _ _ E) as (s & E' & Q). rewrite <- Q. eapply I5; eauto.
Qed.
Lemma inv_not_nil vk0 T L : Inv vk0 T L -> T <> [].
Proof. intros (_ & I2 & _) ->. apply I2. reflexivity. Qed.
(** the last system of the map *)
Lemma inv_last vk0 T L : Inv vk0 T L -> exists c, look c T = Some (snd (last T dflt)) /\ forall d s, look d T = Some s -> d <= c.
Proof.
  intros I. pose proof (inv_not_nil _ _ _ I) as Ne. destruct I as (I1 & _). destruct (last_max T Ne I1) as [A B].
  exists (fst (last T dflt)). split.
  - apply in_look; auto. rewrite <- surjective_pairing. exact A.
  - intros d s E. apply look_in in E. apply (B _ E).
Qed.
Lemma inv_step vk0 T L e : Inv vk0 T L -> Ordered (L ++ [e]) -> 0 <= e_gen e < 2 ^ 63 -> Forall (fun a => 0 <= e_gen a < 2 ^ 63) L ->
  Inv vk0 (applyE T e) (L ++ [e]).
Proof.
  intros I O R Ra. pose proof (inv_not_nil _ _ _ I) as Ne. destruct (inv_last _ _ _ I) as (cm & Lm & Mx).
  destruct I as (I1 & I2 & I3 & I4 & I5). destruct (ordered_app L e O) as [_ Oe].
  unfold applyE, onPublic. pose proof (createUpd_look (e_gen e) (setVk (e_rep e) (e_pub e)) T) as Cl. rewrite (ckptOf_usable _ R) in Cl.
  set (T' := createUpd _ _ T) in *.
  assert (Le : forall c s, look c T = Some s -> c <= uf e).
  { intros c s E. destruct (I3 _ _ E) as [->|(a & Ha & <-)]; [pose proof (usable_ge2 (e_gen e)); lia|apply Oe; auto]. }
  split; [apply createUpd_srt; auto|]. split; [|split; [|split]].
  - rewrite Cl by auto. pose proof (usable_ge2 (e_gen e) ltac:(lia)). destruct (0 =? uf e) eqn:Q; [apply Z.eqb_eq in Q; lia|auto].
  - intros c s. rewrite Cl by auto. destruct (c =? uf e) eqn:Q.
    + apply Z.eqb_eq in Q. intros _. right. exists e. split; [apply in_app_iff; right; left; auto|auto].
    + intros E. destruct (I3 _ _ E) as [->|(a & Ha & <-)]; [auto|]. right. exists a. split; [apply in_app_iff; auto|auto].
  - intros a Ha. rewrite Cl by auto. destruct (uf a =? uf e) eqn:Q; [discriminate|]. apply in_app_iff in Ha as [Ha|[<-|[]]]; [auto|].
    apply Z.eqb_neq in Q. lia.
  - intros c s r. rewrite Cl by auto. destruct (c =? uf e) eqn:Q.
    + apply Z.eqb_eq in Q as ->. intros E. injection E as <-.
      assert (Old : forall r, UpTo L vk0 r (uf e) (sy_vk (match look (uf e) T with Some s => s | None => snd (last T dflt) end) r)).
      { intros r'. destruct (look (uf e) T) as [s|] eqn:Q; [apply (I5 _ _ r' Q)|].
        apply (upto_bound L vk0 r' cm); [|apply (I5 _ _ r' Lm)]. intros a Ha _. split; [intros _; apply Oe; auto|intros _].
        destruct (look (uf a) T) as [s|] eqn:Q'; [apply (Mx _ _ Q')|destruct (I4 a Ha Q')]. }
      unfold setVk at 1. cbn [sy_vk]. destruct (r =? e_rep e)%nat eqn:Qr.
      * apply Nat.eqb_eq in Qr as ->. apply upto_new; [lia|]. intros a Ha Er _. destruct (Oe a Ha) as [_ Q]. specialize (Q Er). lia.
      * apply Nat.eqb_neq in Qr. apply upto_skip; [congruence|]. apply Old.
    + apply Z.eqb_neq in Q. intros E. apply upto_skip; [|apply (I5 _ _ r E)]. intros _ U. pose proof (Le _ _ E). lia.
Qed.

Lemma inv_inforce vk0 T L sn r : Inv vk0 T L -> 1 <= sn -> exists k, vkAt T sn r = Some k /\ InForce L vk0 r sn k.
Proof.
  intros (I1 & I2 & I3 & I4 & I5) Ls. unfold vkAt. pose proof (getSys_spec sn T I1) as G. rewrite (covering sn Ls) in G.
  destruct (getSys sn T) as [s|].
  - destruct G as (c & Ec & Lc & Mx). exists (sy_vk s r). split; [reflexivity|]. change (UpTo L vk0 r (ckptCovering sn) (sy_vk s r)).
    apply (upto_bound L vk0 r c); [|apply (I5 _ _ r Ec)]. intros e He _. split; [lia|]. intros U.
    destruct (look (uf e) T) as [t|] eqn:Q; [apply (Mx _ _ Q U)|destruct (I4 e He Q)].
  - destruct (look 0 T) as [s|] eqn:Q; [|congruence]. exfalso. apply (G _ _ Q). unfold ckptCovering, CW. apply Z.div_pos; lia.
Qed.

(** ---------- replay of a store into existing systems ---------- *)
Definition GSrt (R : list ent) : Prop := StronglySorted (fun a b => e_gen a <= e_gen b) R.
Lemma gsrt_app P e R : GSrt (P ++ e :: R) -> (forall a, In a P -> e_gen a <= e_gen e) /\ (forall a, In a R -> e_gen e <= e_gen a).
Proof.
  induction P as [|p P IH]; intros So; cbn [app] in So; inversion So as [|? ? So' Fa]; subst; rewrite Forall_forall in Fa.
  - split; [intros a []|exact Fa].
  - destruct (IH So') as [A B]. split; [|exact B]. intros a [<-|Ha]; [|auto]. apply Fa. apply in_app_iff. right. left. reflexivity.
Qed.
Section Replay.
Variables (vk0 : nat -> key) (T0 : systems) (L1 L2 R : list ent).
Hypotheses (HI : Inv vk0 T0 L1) (HO : Ordered (L1 ++ L2)) (HR : Forall (fun a => 0 <= e_gen a < 2 ^ 63) (L1 ++ L2))
  (HS : GSrt R) (HE : forall e, In e R <-> In e (L1 ++ L2)).
Definition RInv (T : systems) (P : list ent) : Prop :=
  Srt T /\ look 0 T <> None /\
  (forall c s, look c T = Some s -> look c T0 <> None \/ exists e, In e P /\ uf e = c) /\
  (forall c, look c T0 <> None -> look c T <> None) /\
  (forall e, In e P -> look (uf e) T <> None) /\
  (forall c s r, look c T = Some s ->
     (exists e, In e P /\ e_rep e = r /\ uf e = c /\ e_pub e = sy_vk s r /\ forall e', In e' P -> e_rep e' = r -> uf e' = c -> e_gen e' <= e_gen e)
     \/ ((forall e, In e P -> e_rep e = r -> uf e <> c) /\ UpTo (L1 ++ P) vk0 r c (sy_vk s r))).

Lemma range e : In e (L1 ++ L2) -> 0 <= e_gen e < 2 ^ 63.
Proof. intros Hi. rewrite Forall_forall in HR. apply HR. exact Hi. Qed.
Lemma key0 c : look c T0 <> None -> c = 0 \/ exists e, In e L1 /\ uf e = c.
Proof. intros Hn. destruct (look c T0) as [s|] eqn:E; [|congruence]. destruct HI as (_ & _ & I3 & _). eapply I3; eauto. Qed.

Lemma rinv_init : RInv T0 [].
Proof.
  destruct HI as (I1 & I2 & I3 & I4 & I5). split; [exact I1|]. split; [exact I2|]. split; [|split; [auto|split; [intros e []|]]].
  - intros c s E. left. congruence.
  - intros c s r E. right. split; [intros e []|]. rewrite app_nil_r. apply (I5 _ _ r E).
Qed.
Lemma case1_upto T P c s r : RInv T P -> look c T = Some s -> (forall e, In e L1 -> uf e <= c -> In e P) -> UpTo (L1 ++ P) vk0 r c (sy_vk s r).
Proof.
  intros (_ & _ & _ & _ & _ & Q) E Sub. destruct (Q c s r E) as [(e & He & Re & Ue & Pe & Mx)|[_ U]]; [|exact U].
  left. exists e. split; [apply in_app_iff; auto|]. split; [exact Re|]. split; [exact Pe|]. split; [lia|].
  intros e' He' Re' Ue'. assert (Hp : In e' P) by (apply in_app_iff in He' as [He'|He']; auto).
  destruct (Z.eq_dec (uf e') c) as [Eq|Ne]; [apply (Mx e' Hp Re' Eq)|]. destruct (Z.le_gt_cases (e_gen e') (e_gen e)) as [Le|Gt]; [exact Le|].
  assert (uf e <= uf e') by (apply usable_mono; lia). lia.
Qed.
Lemma rinv_step T P e Q : R = P ++ e :: Q -> RInv T P -> RInv (applyE T e) (P ++ [e]).
Proof.
  intros Er I. pose proof I as (J1 & J2 & J3 & J4 & J5 & J6). rewrite Er in HS. destruct (gsrt_app P e Q HS) as [Sb Sa].
  assert (He : In e (L1 ++ L2)) by (apply HE; rewrite Er; apply in_app_iff; right; left; auto). pose proof (range e He) as Ge.
  assert (HP : forall a, In a P -> In a (L1 ++ L2)) by (intros a Ha; apply HE; rewrite Er; apply in_app_iff; auto).
  assert (Ne : T <> []) by (intros ->; apply J2; reflexivity).
  unfold applyE, onPublic. pose proof (createUpd_look (e_gen e) (setVk (e_rep e) (e_pub e)) T) as Cl. rewrite (ckptOf_usable _ Ge) in Cl.
  pose proof (createUpd_srt (e_gen e) (setVk (e_rep e) (e_pub e)) T Ne J1) as [Sr' _].
  set (T' := createUpd _ _ T) in *.
  assert (U0 : 2 <= uf e) by (apply usable_ge2; lia).
  assert (InE : In e (P ++ [e])) by (apply in_app_iff; right; left; auto).
  split; [exact Sr'|]. split; [|split; [|split; [|split]]].
  - rewrite Cl by auto. destruct (0 =? uf e) eqn:X; [discriminate|auto].
  - intros c s. rewrite Cl by auto. destruct (c =? uf e) eqn:X.
    + apply Z.eqb_eq in X. intros _. right. exists e. auto.
    + intros E. destruct (J3 _ _ E) as [A|(a & Ha & Ua)]; [auto|]. right. exists a. split; [apply in_app_iff; auto|auto].
  - intros c Hc. rewrite Cl by auto. destruct (c =? uf e); [discriminate|auto].
  - intros a Ha. rewrite Cl by auto. destruct (uf a =? uf e) eqn:X; [discriminate|]. apply in_app_iff in Ha as [Ha|[<-|[]]]; [auto|].
    apply Z.eqb_neq in X. lia.
  - intros c s r. rewrite Cl by auto. destruct (c =? uf e) eqn:X.
    + apply Z.eqb_eq in X as ->. intros E. injection E as <-. unfold setVk at 1 2. cbn [sy_vk]. destruct (r =? e_rep e)%nat eqn:Qr.
      * left. apply Nat.eqb_eq in Qr as ->. exists e. split; [auto|]. split; [auto|]. split; [auto|]. split; [auto|].
        intros a Ha _ _. apply in_app_iff in Ha as [Ha|[<-|[]]]; [auto|lia].
      * apply Nat.eqb_neq in Qr. destruct (look (uf e) T) as [s|] eqn:Lk.
        -- destruct (J6 _ _ r Lk) as [(a & Ha & Ra & Ua & Pa & Mx)|[A B]].
           ++ left. exists a. split; [apply in_app_iff; auto|]. split; [auto|]. split; [auto|]. split; [auto|].
              intros b Hb Rb Ub. apply in_app_iff in Hb as [Hb|[<-|[]]]; [auto|congruence].
           ++ right. split.
              ** intros a Ha Ra. apply in_app_iff in Ha as [Ha|[<-|[]]]; [auto|congruence].
              ** rewrite app_assoc. apply upto_skip; [congruence|exact B].
        -- (* a new system, copied from the last one *)
           assert (NL1 : ~ In e L1).
           { intros Hi. apply (J4 (uf e)); [|exact Lk]. destruct HI as (_ & _ & _ & I4 & _). apply I4. exact Hi. }
           assert (HL2 : In e L2) by (apply in_app_iff in He as [He|He]; [contradiction|exact He]).
           assert (Lt1 : forall a, In a L1 -> uf a < uf e).
           { intros a Ha. pose proof (ordered_split _ _ HO a e Ha HL2) as Le. destruct (Z.eq_dec (uf a) (uf e)) as [Eq|]; [|lia].
             exfalso. apply (J4 (uf a)); [destruct HI as (_ & _ & _ & I4 & _); apply I4; auto|]. rewrite Eq. exact Lk. }
           assert (Sub : forall a, In a L1 -> In a P).
           { intros a Ha. assert (HaR : In a R) by (apply HE, in_app_iff; auto). rewrite Er in HaR. pose proof (Lt1 a Ha) as Lt.
             apply in_app_iff in HaR as [HaR|[<-|HaR]]; [exact HaR|lia|]. specialize (Sa _ HaR). apply usable_mono in Sa. lia. }
           destruct (last_max T Ne J1) as [Lm Mx]. set (lst := last T dflt) in *.
           assert (Lml : look (fst lst) T = Some (snd lst)) by (apply in_look; auto; rewrite <- surjective_pairing; exact Lm).
           pose proof (case1_upto T P (fst lst) (snd lst) r I Lml (fun a Ha _ => Sub a Ha)) as U.
           right. split.
           ++ intros a Ha Ra Ua. apply in_app_iff in Ha as [Ha|[<-|[]]]; [|congruence]. apply (J5 a Ha). rewrite Ua. exact Lk.
           ++ rewrite app_assoc. apply upto_skip; [congruence|]. apply (upto_bound (L1 ++ P) vk0 r (fst lst)); [|exact U].
              intros a Ha _. assert (Hp : In a P) by (apply in_app_iff in Ha as [Ha|Ha]; auto). split; [intros _; apply usable_mono; auto|].
              intros _. destruct (look (uf a) T) as [t|] eqn:Y; [|destruct (J5 a Hp Y)]. apply look_in in Y. apply (Mx _ Y).
    + apply Z.eqb_neq in X. intros E. destruct (J6 _ _ r E) as [(a & Ha & Ra & Ua & Pa & Mx)|[A B]].
      * left. exists a. split; [apply in_app_iff; auto|]. split; [auto|]. split; [auto|]. split; [auto|].
        intros b Hb Rb Ub. apply in_app_iff in Hb as [Hb|[<-|[]]]; [auto|lia].
      * right. split; [intros a Ha Ra; apply in_app_iff in Ha as [Ha|[<-|[]]]; [auto|intros Y; lia]|].
        destruct (Z.le_gt_cases (uf e) c) as [Le|Gt].
        -- (* e is below an existing system: it is one of L1 *)
           assert (HL1 : In e L1).
           { apply in_app_iff in He as [He|He]; [exact He|]. exfalso. destruct (J3 _ _ E) as [K|(a & Ha & Ua)].
             - destruct (key0 c K) as [->|(a & Ha & Ua)]; [lia|]. pose proof (ordered_split _ _ HO a e Ha He). lia.
             - specialize (Sb a Ha). apply usable_mono in Sb. lia. }
           apply (upto_set (L1 ++ P)); [|exact B]. intros a. rewrite !in_app_iff. split; [tauto|]. intros [Y|[Y|[<-|[]]]]; auto.
        -- rewrite app_assoc. apply upto_skip; [lia|exact B].
Qed.
Lemma rinv_fold Q : forall P T, R = P ++ Q -> RInv T P -> RInv (fold_left applyE Q T) R.
Proof.
  induction Q as [|e Q IH]; intros P T Er I; cbn [fold_left].
  - rewrite app_nil_r in Er. rewrite Er. rewrite Er in *. exact I.
  - apply (IH (P ++ [e])); [rewrite <- app_assoc; exact Er|]. eapply rinv_step; eauto.
Qed.
Lemma replay_inv : Inv vk0 (fold_left applyE R T0) (L1 ++ L2).
Proof.
  pose proof (rinv_fold R [] T0 eq_refl rinv_init) as I. pose proof I as (J1 & J2 & J3 & J4 & J5 & J6).
  split; [exact J1|]. split; [exact J2|]. split; [|split].
  - intros c s E. destruct (J3 _ _ E) as [K|(a & Ha & Ua)].
    + destruct (key0 c K) as [->|(a & Ha & Ua)]; [auto|]. right. exists a. split; [apply in_app_iff; auto|auto].
    + right. exists a. split; [apply HE; auto|auto].
  - intros e He. apply J5, HE, He.
  - intros c s r E. apply (upto_set (L1 ++ R)).
    + intros e. rewrite in_app_iff, HE, in_app_iff. tauto.
    + apply (case1_upto _ R c s r I E). intros e He _. apply HE, in_app_iff. auto.
Qed.
End Replay.
