(** C36: restarts, crashes and state transfers. *)
From Coq Require Import List Arith Lia ZArith Bool NArith Sorted.
From Verif Require Import Kex_Model Kex_Proofs Kex_Proofs2.
Import ListNotations.
Open Scope Z_scope.

(** ---------- the ordered keys ---------- *)
Definition toEnt (q : Z * (nat * key)) : ent := mkE (fst (snd q)) (snd (snd q)) (fst q).
Lemma replayPublic_fold l : forall T, replayPublic l T = fold_left applyE (map toEnt l) T.
Proof. unfold replayPublic. induction l as [|q l IH]; intros T; [reflexivity|]. cbn [fold_left map]. rewrite IH. reflexivity. Qed.
Definition MSrt (l : list (Z * (nat * key))) : Prop := StronglySorted (fun a b => fst a <= fst b) l.
Lemma mmput_in sn p l x : In x (mmput sn p l) <-> x = (sn, p) \/ In x l.
Proof.
  induction l as [|q l IH]; cbn [mmput]; [cbn; intuition|]. destruct (sn <? fst q); cbn [In]; [intuition|]. rewrite IH. intuition.
Qed.
Lemma mmput_srt sn p l : MSrt l -> MSrt (mmput sn p l).
Proof.
  induction l as [|q l IH]; intros So; cbn [mmput]; [repeat constructor|]. inversion So as [|? ? So' Fa]; subst. destruct (sn <? fst q) eqn:E.
  - apply Z.ltb_lt in E. constructor; [exact So|]. constructor; [cbn; lia|]. rewrite Forall_forall in *. intros x Hx. specialize (Fa _ Hx). cbn in *. lia.
  - apply Z.ltb_ge in E. constructor; [exact (IH So')|]. rewrite Forall_forall in *. intros x Hx. apply mmput_in in Hx as [->|Hx]; [cbn; lia|auto].
Qed.
Lemma inner_spec i m : forall acc, MSrt acc ->
  MSrt (fold_left (fun acc (p : Z * key) => mmput (fst p) (i, snd p) acc) m acc) /\
  forall x, In x (fold_left (fun acc (p : Z * key) => mmput (fst p) (i, snd p) acc) m acc) <-> In x acc \/ exists p, In p m /\ x = (fst p, (i, snd p)).
Proof.
  induction m as [|p m IH]; intros acc So; cbn [fold_left].
  - split; [exact So|]. intros x. split; [auto|]. intros [H|(p & [] & _)]. exact H.
  - destruct (IH (mmput (fst p) (i, snd p) acc) (mmput_srt _ _ _ So)) as [A B]. split; [exact A|]. intros x. rewrite B, mmput_in. split.
    + intros [[->|H]|(q & Hq & ->)]; [right; exists p; cbn; auto|auto|right; exists q; cbn; auto].
    + intros [H|(q & [<-|Hq] & ->)]; [auto|auto|right; exists q; auto].
Qed.
Lemma ordered_keys_spec n store : MSrt (orderedKeys n store) /\
  forall x, In x (orderedKeys n store) <-> exists i p, (i < n)%nat /\ In p (store i) /\ x = (fst p, (i, snd p)).
Proof.
  unfold orderedKeys.
  assert (G : forall l acc, MSrt acc ->
    MSrt (fold_left (fun acc i => fold_left (fun acc (p : Z * key) => mmput (fst p) (i, snd p) acc) (store i) acc) l acc) /\
    forall x, In x (fold_left (fun acc i => fold_left (fun acc (p : Z * key) => mmput (fst p) (i, snd p) acc) (store i) acc) l acc) <->
      In x acc \/ exists i p, In i l /\ In p (store i) /\ x = (fst p, (i, snd p))).
  { induction l as [|i l IH]; intros acc So; cbn [fold_left].
    - split; [exact So|]. intros x. split; [auto|]. intros [H|(i & p & [] & _)]. exact H.
    - destruct (inner_spec i (store i) acc So) as [A B]. destruct (IH _ A) as [C D]. split; [exact C|]. intros x. rewrite D, B. split.
      + intros [[H|(p & Hp & ->)]|(j & p & Hj & Hp & ->)]; [auto|right; exists i, p; cbn; auto|right; exists j, p; cbn; auto].
      + intros [H|(j & p & [<-|Hj] & Hp & ->)]; [auto|left; right; exists p; auto|right; exists j, p; auto]. }
  destruct (G (seq 0 n) [] ltac:(constructor)) as [A B]. split; [exact A|]. intros x. rewrite B. split.
  - intros [[]|(i & p & Hi & Hp & ->)]. apply in_seq in Hi. exists i, p. split; [lia|auto].
  - intros (i & p & Hi & Hp & ->). right. exists i, p. split; [apply in_seq; lia|auto].
Qed.
Lemma ordered_ents n store L : SRel n store L ->
  GSrt (map toEnt (orderedKeys n store)) /\ forall e, In e (map toEnt (orderedKeys n store)) <-> In e L.
Proof.
  intros (S1 & S2 & S3). destruct (ordered_keys_spec n store) as [A B]. split.
  - clear B. unfold GSrt. induction A as [|q l A IH Fa]; [constructor|]. cbn [map]. constructor; [exact IH|].
    rewrite Forall_forall in *. intros x Hx. apply in_map_iff in Hx as (y & <- & Hy). apply (Fa _ Hy).
  - intros e. rewrite in_map_iff. split.
    + intros (q & <- & Hq). apply B in Hq as (i & p & Hi & Hp & ->). unfold toEnt. cbn [fst snd]. apply S2. apply in_kfind; [apply S1|].
      rewrite <- surjective_pairing. exact Hp.
    + intros He. exists (e_gen e, (e_rep e, e_pub e)). split; [destruct e; reflexivity|]. apply B. exists (e_rep e), (e_gen e, e_pub e).
      split; [apply S3; exact He|]. split; [|reflexivity]. apply kfind_in. apply S2. destruct e; exact He.
Qed.

(** ---------- the private keys ---------- *)
Definition LookVk (T T' : systems) : Prop := forall c,
  match look c T, look c T' with Some s, Some t => forall r, sy_vk s r = sy_vk t r | None, None => True | _, _ => False end.
Lemma inv_look vk0 T T' L : LookVk T T' -> Srt T' -> Inv vk0 T L -> Inv vk0 T' L.
Proof.
  intros Sv So (I1 & I2 & I3 & I4 & I5). split; [exact So|].
  assert (Lk : forall c s', look c T' = Some s' -> exists s, look c T = Some s /\ forall r, sy_vk s r = sy_vk s' r).
  { intros c s' E. pose proof (Sv c) as Q. rewrite E in Q. destruct (look c T); [eauto|contradiction]. }
  assert (Nk : forall c, look c T <> None -> look c T' <> None).
  { intros c Hn E. pose proof (Sv c) as Q. rewrite E in Q. destruct (look c T); [contradiction|congruence]. }
  split; [auto|]. split; [|split].
  - intros c s' E. destruct (Lk _ _ E) as (s & E' & _). eapply I3; eauto.
  - intros e Hi. auto.
  - intros c s' r E. destruct (Lk _ _ E) as (s & E' & Q). rewrite <- Q. eapply I5; eauto.
Qed.
(** The last of the private keys that becomes usable at checkpoint [c]. *)
Definition lastAt (c : Z) (l : kmap) : option (Z * key) := find (fun p => usableFrom (fst p) =? c) (rev l).
Lemma lastAt_snoc c l x : lastAt c (l ++ [x]) = if usableFrom (fst x) =? c then Some x else lastAt c l.
Proof. unfold lastAt. rewrite rev_app_distr. cbn [rev app find]. reflexivity. Qed.
Lemma lastAt_spec c l : KSrt l ->
  match lastAt c l with
  | Some (z, sk) => kfind z l = Some sk /\ usableFrom z = c /\ forall z', kfind z' l <> None -> usableFrom z' = c -> z' <= z
  | None => forall z, kfind z l <> None -> usableFrom z <> c
  end.
Proof.
  intros So.
  assert (G : forall l, KSrt l -> match lastAt c l with
    | Some (z, sk) => In (z, sk) l /\ usableFrom z = c /\ forall z' k', In (z', k') l -> usableFrom z' = c -> z' <= z
    | None => forall z k, In (z, k) l -> usableFrom z <> c end).
  { clear. induction l as [|[z sk] l IH] using rev_ind; intros So; [intros z k []|]. rewrite lastAt_snoc. cbn [fst].
    assert (So' : KSrt l /\ forall x, In x l -> fst x < z).
    { clear IH. induction l as [|y l IH]; [split; [constructor|intros x []]|]. cbn [app] in So. inversion So as [|? ? S1 Fa]; subst.
      destruct (IH S1) as [A B]. rewrite Forall_forall in Fa. split; [constructor; [exact A|]|].
      - apply Forall_forall. intros x Hx. apply Fa, in_app_iff. auto.
      - intros x [<-|Hx]; [|auto]. apply (Fa (z, sk)), in_app_iff. right. left. reflexivity. }
    destruct So' as [So' Lt]. specialize (IH So'). destruct (usableFrom z =? c) eqn:E.
    - apply Z.eqb_eq in E. split; [apply in_app_iff; right; left; reflexivity|]. split; [exact E|]. intros z' k' Hi _.
      apply in_app_iff in Hi as [Hi|[Hi|[]]]; [apply Lt in Hi; cbn in Hi; lia|injection Hi as <- <-; lia].
    - apply Z.eqb_neq in E. destruct (lastAt c l) as [[z0 sk0]|].
      + destruct IH as (A & B & D). split; [apply in_app_iff; auto|]. split; [exact B|]. intros z' k' Hi U.
        apply in_app_iff in Hi as [Hi|[Hi|[]]]; [eapply D; eauto|injection Hi as <- <-; congruence].
      + intros z' k' Hi. apply in_app_iff in Hi as [Hi|[Hi|[]]]; [eapply IH; eauto|injection Hi as <- <-; congruence]. }
  specialize (G l So). destruct (lastAt c l) as [[z sk]|].
  - destruct G as (A & B & D). split; [apply in_kfind; auto|]. split; [exact B|]. intros z' Hn U. destruct (kfind z' l) as [k'|] eqn:E; [|congruence].
    apply kfind_in in E. eapply D; eauto.
  - intros z Hn. destruct (kfind z l) as [k'|] eqn:E; [|congruence]. apply kfind_in in E. eapply G; eauto.
Qed.
Lemma replayPrivate_app me own l1 : forall l2 T,
  replayPrivate me (l1 ++ l2) own T = match replayPrivate me l1 own T with Some T' => replayPrivate me l2 own T' | None => None end.
Proof. induction l1 as [|[z sk] l1 IH]; intros l2 T; [reflexivity|]. cbn [replayPrivate app]. destruct (kfind z own); auto. Qed.
Lemma replayPrivate_look me own T : Srt T -> forall l,
  (forall z k, In (z, k) l -> kfind z own <> None /\ 0 <= z < 2 ^ 63 /\ look (usableFrom z) T <> None) ->
  exists T', replayPrivate me l own T = Some T' /\ Srt T' /\
  forall c, match look c T', look c T with
            | Some s', Some s =>
              match lastAt c l with
              | Some (z, sk) => sy_priv s' = sk /\ exists vk, kfind z own = Some vk /\ forall r, sy_vk s' r = if (r =? me)%nat then vk else sy_vk s r
              | None => s' = s
              end
            | None, None => True
            | _, _ => False
            end.
Proof.
  intros So. induction l as [|[z sk] l IH] using rev_ind; intros Sub.
  - exists T. split; [reflexivity|]. split; [exact So|]. intros c. cbn. destruct (look c T); auto.
  - destruct IH as (T1 & R1 & So1 & Lk1); [intros z' k' Hi; eapply Sub, in_app_iff; left; exact Hi|].
    destruct (Sub z sk) as (Hz & Rg & Hk); [apply in_app_iff; right; left; reflexivity|].
    rewrite replayPrivate_app, R1. cbn [replayPrivate]. destruct (kfind z own) as [vk|] eqn:Ez; [|congruence].
    assert (Hk1 : look (usableFrom z) T1 <> None).
    { specialize (Lk1 (usableFrom z)). destruct (look (usableFrom z) T1); [discriminate|]. destruct (look (usableFrom z) T); congruence. }
    assert (Ne : T1 <> []) by (intros ->; apply Hk1; reflexivity).
    eexists. split; [reflexivity|]. split; [apply createUpd_srt; auto|]. intros c. unfold onPrivate. rewrite createUpd_look by auto.
    rewrite (ckptOf_usable _ Rg), lastAt_snoc. cbn [fst]. specialize (Lk1 c). destruct (c =? usableFrom z) eqn:E.
    + apply Z.eqb_eq in E. subst c. rewrite Z.eqb_refl. destruct (look (usableFrom z) T1) as [s1|]; [|congruence].
      destruct (look (usableFrom z) T) as [s|]; [|contradiction]. cbn [setOwn setVk sy_priv sy_vk]. split; [reflexivity|]. exists vk. split; [exact Ez|].
      intros r. destruct (r =? me)%nat eqn:Er; [reflexivity|]. destruct (lastAt (usableFrom z) l) as [[z0 sk0]|].
      * destruct Lk1 as (_ & vk0 & _ & Q). rewrite Q, Er. reflexivity.
      * rewrite Lk1. reflexivity.
    + apply Z.eqb_neq in E. replace (usableFrom z =? c) with false by (symmetry; apply Z.eqb_neq; congruence). exact Lk1.
Qed.
Lemma ordered_unique L a b : Ordered L -> In a L -> In b L -> e_rep a = e_rep b -> e_gen a = e_gen b -> a = b.
Proof.
  intros O Ha Hb Er Eg. apply In_nth_error in Ha as [i Ei]. apply In_nth_error in Hb as [j Ej].
  destruct (Nat.lt_trichotomy i j) as [Lt|[->|Lt]]; [|congruence|].
  - destruct (O i j a b Lt Ei Ej) as [_ Q]. specialize (Q Er). lia.
  - destruct (O j i b a Lt Ej Ei) as [_ Q]. specialize (Q (eq_sym Er)). lia.
Qed.
Lemma replayPrivate_same vk0 me L own priv T : Ordered L -> InRange L -> OwnKnown me L priv -> KSrt priv ->
  (forall z k, kfind z own = Some k <-> In (mkE me k z) L) -> (forall z, kfind z priv <> None -> kfind z own <> None) -> Inv vk0 T L ->
  exists T', replayPrivate me priv own T = Some T' /\ Inv vk0 T' L /\
    forall c s', look c T' = Some s' -> exists s, look c T = Some s /\ sy_priv s' = match lastAt c priv with Some (_, sk) => sk | None => sy_priv s end.
Proof.
  intros O Rg Ok So Ow Sub I. pose proof I as (I1 & I2 & I3 & I4 & I5).
  assert (Oe : forall z, kfind z own <> None -> exists k, kfind z own = Some k /\ In (mkE me k z) L).
  { intros z Hn. destruct (kfind z own) as [k|] eqn:E; [|congruence]. exists k. split; [reflexivity|]. apply Ow. exact E. }
  destruct (replayPrivate_look me own T I1 priv) as (T' & R & So' & Lk).
  { intros z k Hi. apply in_kfind in Hi; auto. assert (Hn : kfind z own <> None) by (apply Sub; congruence). split; [exact Hn|].
    destruct (Oe z Hn) as (v & _ & Hv). split.
    - unfold InRange in Rg. rewrite Forall_forall in Rg. apply (Rg _ Hv).
    - apply (I4 _ Hv). }
  exists T'. split; [exact R|]. split.
  - apply (inv_look vk0 T T' L); auto. intros c. specialize (Lk c). destruct (look c T') as [s'|] eqn:E'; destruct (look c T) as [s|] eqn:E; auto.
    intros r. pose proof (lastAt_spec c priv So) as La. destruct (lastAt c priv) as [[z sk]|]; [|congruence].
    destruct Lk as (_ & vk & Ev & Q). rewrite Q. destruct (r =? me)%nat eqn:Er; [|reflexivity]. apply Nat.eqb_eq in Er. subst r.
    destruct La as (La1 & La2 & La3). apply Ow in Ev.
    destruct (I5 _ _ me E) as [(e0 & H0 & R0 & P0 & U0 & Mx)|[N _]]; [|destruct (N _ Ev eq_refl); cbn [e_gen]; lia].
    pose proof (Mx _ Ev eq_refl ltac:(cbn [e_gen]; lia)) as Lz. cbn [e_gen] in Lz.
    assert (U0' : uf e0 = c) by (pose proof (usable_mono _ _ Lz); lia).
    rewrite <- P0. destruct Ok as [Ok|Ok].
    + assert (Eg : e_gen e0 = z) by (pose proof (La3 _ (Ok e0 H0 R0) U0'); lia).
      assert (Q0 : e0 = mkE me vk z) by (apply (ordered_unique L); auto). rewrite Q0. reflexivity.
    + apply (Ok e0 (mkE me vk z)); auto. cbn [e_gen]. congruence.
  - intros c s' E'. specialize (Lk c). rewrite E' in Lk. destruct (look c T) as [s|]; [|contradiction]. exists s. split; [reflexivity|].
    destruct (lastAt c priv) as [[z sk]|]; [apply Lk|congruence].
Qed.

(** ---------- histories ---------- *)
Lemma srel_cut n store L : SRel n store L -> SRel n (fun r => if (r <? n)%nat then store r else []) L.
Proof.
  intros (S1 & S2 & S3). split; [|split; [|exact S3]].
  - intros r. destruct (r <? n)%nat; [apply S1|constructor].
  - intros r z k. destruct (r <? n)%nat eqn:E; [apply S2|]. apply Nat.ltb_ge in E. split; [discriminate|]. intros Hi. apply S3 in Hi. cbn in Hi. lia.
Qed.
Lemma cut_find n me (store : nat -> kmap) L : SRel n store L -> forall z, kfind z (if (me <? n)%nat then store me else []) = kfind z (store me).
Proof.
  intros (S1 & S2 & S3) z. destruct (me <? n)%nat eqn:E; [reflexivity|]. apply Nat.ltb_ge in E. cbn [kfind].
  destruct (kfind z (store me)) as [k|] eqn:F; [|reflexivity]. apply S2, S3 in F. cbn in F. lia.
Qed.
(** Loading a store that has the exchanges [L1 ++ L2] into systems that have [L1]. *)
Lemma notify_inv n me vk0 store priv T L1 L2 : SRel n store (L1 ++ L2) -> PSub me store priv -> Inv vk0 T L1 -> Ordered (L1 ++ L2) ->
  InRange (L1 ++ L2) -> OwnKnown me (L1 ++ L2) priv ->
  exists T', notifyRegistry n me (fun r => if (r <? n)%nat then store r else []) priv T = Some T' /\ Inv vk0 T' (L1 ++ L2) /\
    forall c s', look c T' = Some s' ->
      exists s, look c (replayPublic (orderedKeys n (fun r => if (r <? n)%nat then store r else [])) T) = Some s /\
        sy_priv s' = match lastAt c priv with Some (_, sk) => sk | None => sy_priv s end.
Proof.
  intros Sr [P1 P2] I O Rg Ok. pose proof (srel_cut _ _ _ Sr) as Sc. unfold notifyRegistry.
  destruct (ordered_ents _ _ _ Sc) as [G1 G2].
  assert (I' : Inv vk0 (replayPublic (orderedKeys n (fun r => if (r <? n)%nat then store r else [])) T) (L1 ++ L2)).
  { rewrite replayPublic_fold. apply (replay_inv vk0 T L1 L2 _ I O Rg G1 G2). }
  apply (replayPrivate_same vk0 me (L1 ++ L2)); auto.
  - intros z k. destruct Sc as (_ & Sc & _). apply (Sc me).
  - intros z Hn. rewrite (cut_find _ _ _ _ Sr). destruct (kfind z priv) as [k|] eqn:E; [|congruence]. eapply P2. exact E.
Qed.
Lemma psub_cut n me store priv L : SRel n store L -> PSub me store priv -> PSub me (fun r => if (r <? n)%nat then store r else []) priv.
Proof. intros Sr [P1 P2]. split; [exact P1|]. intros z k E. rewrite (cut_find _ _ _ _ Sr). eapply P2. exact E. Qed.

(** The part that needs no order. *)
Lemma hist_store n PS HDR me epoch init l s : Hist n PS HDR me epoch init l s ->
  SRel n (s_store s) (accepted epoch l []) /\ PSub me (s_store s) (s_priv s).
Proof.
  intros Hh. induction Hh as [|l s o s' Hh [Sr Ps] St|l s s' Hh [Sr Ps] Ok R|l s m req store priv s' Hh [Sr Ps] Cp Ok R|l s l' me' init' s2 more s' Hh [Sr Ps] Rn Ac Ok Ld].
  - split; [apply srel_nil|]. split; [constructor|]. intros z k E. discriminate.
  - rewrite accepted_app. destruct o as [m req|sn fresh]; cbn [step] in St.
    + destruct (onKeyExchange _ _ _ _ _ m req s) as [[rp s1]|] eqn:E; [|discriminate]. injection St as ->.
      change (executed [OExec m req]) with [(m, req)]. rewrite counts_step.
      destruct (exec_spec _ _ _ _ _ _ _ _ _ _ _ Sr E) as [[C ->]|(C & Sr1 & _ & Ps1 & _)]; rewrite C; [auto|]. split; [exact Sr1|]. apply Ps1, Ps.
    + injection St as <-. cbn [executed flat_map app accepted]. unfold generate. destruct (_ && _); cbn [snd s_store s_priv]; auto.
  - unfold restart in R. cbv zeta in R. destruct (notifyRegistry _ _ _ _ _); [|discriminate]. injection R as <-. cbn [s_store s_priv].
    split; [apply srel_cut; exact Sr|eapply psub_cut; eauto].
  - unfold restart in R. cbv zeta in R. destruct (notifyRegistry _ _ _ _ _); [|discriminate]. injection R as <-. cbn [s_store s_priv].
    rewrite accepted_app, counts_step. unfold crashPoints in Cp. destruct (onKeyExchange _ _ _ _ _ m req s) as [[rp s1]|] eqn:E; cbn [tl] in Cp; [|destruct Cp].
    destruct (exec_spec _ _ _ _ _ _ _ _ _ _ _ Sr E) as [[C ->]|(C & Sr1 & _ & Ps1 & _)]; rewrite C.
    + assert (Q : (store, priv) = (s_store s, s_priv s)) by (destruct Cp as [Cp|[Cp|[]]]; symmetry; exact Cp). injection Q as -> ->.
      split; [apply srel_cut; exact Sr|eapply psub_cut; eauto].
    + destruct (Ps1 Ps) as [A B]. destruct Cp as [Cp|[Cp|[]]]; injection Cp as <- <-; (split; [apply srel_cut; exact Sr1|eapply psub_cut; eauto]).
  - destruct (run_sv _ _ _ _ _ _ (start init') [] [(0, init')] _ (srel_nil n) (sv_refl _) Rn) as (more' & A & B & _). cbn [app] in *.
    assert (El : executed (map (fun p => OExec (fst p) (snd p)) l') = l').
    { clear. induction l' as [|[m r] l' IH]; [reflexivity|]. cbn [map executed flat_map app fst snd]. f_equal. exact IH. }
    rewrite El in A. rewrite A. unfold loadPublicKeys in Ld. cbv zeta in Ld. destruct (notifyRegistry _ _ _ _ _); [|discriminate]. injection Ld as <-.
    cbn [s_store s_priv]. split; [apply srel_cut; exact B|]. destruct Ps as [P1 P2]. split; [exact P1|]. intros z k E.
    rewrite (cut_find _ _ _ _ B). pose proof (P2 z k E) as Q. destruct (kfind z (s_store s me)) as [v|] eqn:F; [|congruence].
    destruct Sr as (_ & Sr & _). apply Sr in F. rewrite <- A, Ac in B. destruct B as (_ & B & _).
    assert (G : kfind z (s_store s2 me) = Some v) by (apply B, in_app_iff; auto). congruence.
Qed.

Lemma range_prefix L M : InRange (L ++ M) -> InRange L.
Proof. intros R. apply Forall_app in R. apply R. Qed.
Lemma replayPublic_priv p l : forall T, T <> [] -> Srt T -> (forall c s, look c T = Some s -> sy_priv s = p) ->
  forall c s, look c (replayPublic l T) = Some s -> sy_priv s = p.
Proof.
  unfold replayPublic. induction l as [|q l IH]; intros T Ne So Hp; [exact Hp|]. cbn [fold_left].
  destruct (createUpd_srt (fst q) (setVk (fst (snd q)) (snd (snd q))) T Ne So) as [So' Ne']. apply IH; auto.
  intros c s. unfold onPublic. rewrite createUpd_look by auto. destruct (c =? ckptOf (fst q)); [|apply Hp]. intros E. injection E as <-.
  cbn [setVk sy_priv]. destruct (look c T) as [s|] eqn:E; [apply (Hp _ _ E)|]. destruct (last_max T Ne So) as [A _].
  apply (Hp (fst (last T dflt))). apply in_look; auto. rewrite <- surjective_pairing. exact A.
Qed.
Lemma restart_inv n me init store priv L : SRel n store L -> PSub me store priv -> Ordered L -> InRange L -> OwnKnown me L priv ->
  exists s', restart n me init store priv = Some s' /\ Inv (sy_vk init) (s_sys s') L /\
    forall c t, look c (s_sys s') = Some t -> sy_priv t = match lastAt c priv with Some (_, sk) => sk | None => sy_priv init end.
Proof.
  intros Sr Ps O Rg Sp. destruct (notify_inv n me (sy_vk init) store priv [(0, init)] [] L Sr Ps (inv_init init) O Rg Sp) as (T' & E & I & Lp).
  unfold restart. cbv zeta. rewrite E. eexists. split; [reflexivity|]. split; [exact I|]. cbn [s_sys].
  intros c t Et. destruct (Lp c t Et) as (s & Es & Q). rewrite Q. destruct (lastAt c priv) as [[z sk]|]; [reflexivity|].
  eapply (replayPublic_priv (sy_priv init)); [| | |exact Es]; [discriminate|repeat constructor|].
  intros d u. rewrite look_cons. destruct (0 =? d); [|discriminate]. intros X. injection X as <-. reflexivity.
Qed.
Lemma hist_inv n PS HDR me epoch init l s : Hist n PS HDR me epoch init l s ->
  Ordered (accepted epoch l []) -> InRange (accepted epoch l []) ->
  Inv (sy_vk init) (s_sys s) (accepted epoch l []).
Proof.
  intros Hh. induction Hh as [|l s o s' Hh IH St|l s s' Hh IH Ok R|l s m req store priv s' Hh IH Cp Ok R|l s l' me' init' s2 more s' Hh IH Rn Ac Ok Ld]; intros O Rg.
  - apply inv_init.
  - pose proof (hist_store _ _ _ _ _ _ _ _ Hh) as [Sr Ps]. rewrite accepted_app in *. destruct o as [m req|sn fresh]; cbn [step] in St.
    + destruct (onKeyExchange _ _ _ _ _ m req s) as [[rp s1]|] eqn:E; [|discriminate]. injection St as ->.
      change (executed [OExec m req]) with [(m, req)] in *. rewrite counts_step in *.
      destruct (exec_spec _ _ _ _ _ _ _ _ _ _ _ Sr E) as [[C ->]|(C & Sr1 & Sv & _)]; rewrite C in *; [auto|].
      eapply inv_sv; [apply sv_sym; exact Sv|]. apply inv_step; auto.
      * apply IH; [eapply ordered_prefix|eapply range_prefix]; eauto.
      * unfold InRange in Rg. rewrite Forall_forall in Rg. apply Rg, in_app_iff. right. left. reflexivity.
      * eapply range_prefix; eauto.
    + injection St as <-. cbn [executed flat_map app accepted] in *. unfold generate. destruct (_ && _); cbn [snd s_sys]; auto.
  - pose proof (hist_store _ _ _ _ _ _ _ _ Hh) as [Sr Ps]. destruct (restart_inv n me init _ _ _ Sr Ps O Rg Ok) as (s1 & E & I & _). congruence.
  - pose proof (hist_store _ _ _ _ _ _ _ _ Hh) as [Sr Ps]. rewrite accepted_app, counts_step in *. unfold crashPoints in Cp.
    destruct (onKeyExchange _ _ _ _ _ m req s) as [[rp s1]|] eqn:E; cbn [tl] in Cp; [|destruct Cp].
    destruct (exec_spec _ _ _ _ _ _ _ _ _ _ _ Sr E) as [[C ->]|(C & Sr1 & _ & Ps1 & _)]; rewrite C in *.
    + assert (Q : (store, priv) = (s_store s, s_priv s)) by (destruct Cp as [Cp|[Cp|[]]]; symmetry; exact Cp). injection Q as -> ->.
      destruct (restart_inv n me init _ _ _ Sr Ps O Rg Ok) as (s1 & E1 & I & _). congruence.
    + destruct (Ps1 Ps) as [A B]. assert (Q : store = s_store s1 /\ PSub me (s_store s1) priv) by (destruct Cp as [Cp|[Cp|[]]]; injection Cp as <- <-; auto).
      destruct Q as [-> Q]. destruct (restart_inv n me init _ _ _ Sr1 Q O Rg Ok) as (s3 & E1 & I & _). congruence.
  - pose proof (hist_store _ _ _ _ _ _ _ _ Hh) as [Sr Ps]. rewrite Ac in *.
    destruct (run_sv _ _ _ _ _ _ (start init') [] [(0, init')] _ (srel_nil n) (sv_refl _) Rn) as (more' & A & B & _). cbn [app] in *.
    assert (El : executed (map (fun p => OExec (fst p) (snd p)) l') = l').
    { clear. induction l' as [|[m r] l' IH]; [reflexivity|]. cbn [map executed flat_map app fst snd]. f_equal. exact IH. }
    rewrite El in A. rewrite <- A, Ac in B.
    assert (Ps2 : PSub me (s_store s2) (s_priv s)).
    { destruct Ps as [P1 P2]. split; [exact P1|]. intros z k E. pose proof (P2 z k E) as Q. destruct (kfind z (s_store s me)) as [v|] eqn:F; [|congruence].
      destruct Sr as (_ & Sr & _). apply Sr in F. destruct B as (_ & B & _).
      assert (G : kfind z (s_store s2 me) = Some v) by (apply B, in_app_iff; auto). congruence. }
    assert (I0 : Inv (sy_vk init) (s_sys s) (accepted epoch l [])) by (apply IH; [eapply ordered_prefix|eapply range_prefix]; eauto).
    destruct (notify_inv n me (sy_vk init) (s_store s2) (s_priv s) (s_sys s) _ more B Ps2 I0 O Rg Ok) as (T' & E & I & _).
    unfold loadPublicKeys in Ld. cbv zeta in Ld. rewrite E in Ld. injection Ld as <-. exact I.
Qed.

(** ---------- well-formed systems, without any order ---------- *)
Lemma replayPublic_wf l : forall T, T <> [] -> Srt T -> Srt (replayPublic l T) /\ replayPublic l T <> [].
Proof.
  unfold replayPublic. induction l as [|q l IH]; intros T Ne So; [auto|]. cbn [fold_left].
  destruct (createUpd_srt (fst q) (setVk (fst (snd q)) (snd (snd q))) T Ne So) as [So' Ne']. apply IH; auto.
Qed.
Lemma replayPrivate_wf me own l : forall T T', T <> [] -> Srt T -> replayPrivate me l own T = Some T' -> Srt T' /\ T' <> [].
Proof.
  induction l as [|[z sk] l IH]; intros T T' Ne So R; cbn [replayPrivate] in R; [injection R as <-; auto|].
  destruct (kfind z own) as [vk|]; [|discriminate]. destruct (createUpd_srt z (setOwn me sk vk) T Ne So) as [So' Ne']. eapply IH; eauto.
Qed.
Lemma hist_wf n PS HDR me epoch init l s : Hist n PS HDR me epoch init l s -> Srt (s_sys s) /\ s_sys s <> [].
Proof.
  assert (N : forall store priv T T', T <> [] -> Srt T -> notifyRegistry n me store priv T = Some T' -> Srt T' /\ T' <> []).
  { intros store priv T T' Ne So E. unfold notifyRegistry in E. destruct (replayPublic_wf (orderedKeys n store) T Ne So) as [A B].
    eapply replayPrivate_wf; [exact B|exact A|exact E]. }
  assert (Re : forall store priv s', restart n me init store priv = Some s' -> Srt (s_sys s') /\ s_sys s' <> []).
  { intros store priv s' E. unfold restart in E. cbv zeta in E. destruct (notifyRegistry _ _ _ _ _) as [T|] eqn:Q; [|discriminate]. injection E as <-.
    eapply (N _ _ [(0, init)]); [discriminate|repeat constructor|exact Q]. }
  intros Hh. induction Hh as [|l s o s' Hh [So Ne] St|l s s' Hh IH Ok R|l s m req store priv s' Hh IH Cp Ok R|l s l' me' init' s2 more s' Hh [So Ne] Rn Ac Ok Ld].
  - split; [repeat constructor|discriminate].
  - destruct o as [m req|sn fresh]; cbn [step] in St.
    + destruct (onKeyExchange _ _ _ _ _ m req s) as [[rp s1]|] eqn:E; [|discriminate]. injection St as ->. unfold onKeyExchange in E. cbv zeta in E.
      destruct (k_query m); [injection E as _ <-; auto|]. destruct (negb _); [injection E as _ <-; auto|].
      destruct (_ <? _); [injection E as _ <-; auto|]. destruct (kfind _ (s_store s _)); [injection E as _ <-; auto|].
      destruct (push _ _ _ _ _ _ _); [|discriminate]. destruct (if (k_rep m =? me)%nat then _ else _) as [[sk pub]|].
      * destruct (key_eqb _ _); [|discriminate]. destruct (kfind _ (s_priv s)); [discriminate|]. injection E as _ <-. apply createUpd_srt; auto.
      * injection E as _ <-. apply createUpd_srt; auto.
    + injection St as <-. unfold generate. destruct (_ && _); auto.
  - eapply Re; eauto.
  - eapply Re; eauto.
  - unfold loadPublicKeys in Ld. cbv zeta in Ld. destruct (notifyRegistry _ _ _ _ _) as [T|] eqn:Q; [|discriminate]. injection Ld as <-.
    eapply N; [exact Ne|exact So|exact Q].
Qed.
Lemma getSys_ext sn T T' : Srt T -> Srt T' -> (forall c, c <= Z.quot (sn - 1) CW -> look c T = look c T') -> getSys sn T = getSys sn T'.
Proof.
  intros So So' E. pose proof (getSys_spec sn T So) as A. pose proof (getSys_spec sn T' So') as B.
  destruct (getSys sn T) as [s|]; destruct (getSys sn T') as [s'|]; auto.
  - destruct A as (c & A1 & A2 & A3), B as (d & B1 & B2 & B3). rewrite E in A1 by auto. pose proof (B3 _ _ A1 A2).
    rewrite <- E in B1 by auto. pose proof (A3 _ _ B1 B2). assert (c = d) by lia. subst d. rewrite E in B1 by auto. congruence.
  - destruct A as (c & A1 & A2 & A3). rewrite E in A1 by auto. destruct (B _ _ A1 A2).
  - destruct B as (c & B1 & B2 & B3). rewrite <- E in B1 by auto. destruct (A _ _ B1 B2).
Qed.
Lemma exec_later n PS HDR me epoch m req s rp s' sn : Srt (s_sys s) -> s_sys s <> [] -> onKeyExchange n PS HDR me epoch m req s = Some (rp, s') ->
  0 <= k_gen m < 2 ^ 63 -> 1 <= sn -> sn <= CW * usableFrom (k_gen m) \/ sn <= req -> getSys sn (s_sys s') = getSys sn (s_sys s).
Proof.
  intros So Ne E Rg Ls Lu.
  assert (Low : req / WW * WW <= k_gen m -> Z.quot (sn - 1) CW < usableFrom (k_gen m)).
  { intros Lg. rewrite Z.quot_div_nonneg by (unfold CW; lia). unfold usableFrom, CW, WW in *. apply Z.div_lt_upper_bound; [lia|].
    destruct Lu as [Lu|Lu]; [lia|].
    pose proof (Z.div_mod req 300 ltac:(lia)). pose proof (Z.mod_pos_bound req 300 ltac:(lia)).
    pose proof (Z.div_mod (k_gen m) 150 ltac:(lia)). pose proof (Z.mod_pos_bound (k_gen m) 150 ltac:(lia)).
    assert (req / 300 * 2 <= k_gen m / 150) by (apply Z.div_le_lower_bound; lia). lia. }
  assert (Ts : toSeq (k_gen m) = k_gen m) by (unfold toSeq; replace (k_gen m <? 2 ^ 63) with true by (symmetry; apply Z.ltb_lt; lia); reflexivity).
  assert (G : forall f, req / WW * WW <= k_gen m -> getSys sn (createUpd (k_gen m) f (s_sys s)) = getSys sn (s_sys s)).
  { intros f Lg. apply getSys_ext; [apply createUpd_srt; auto|exact So|]. intros c Lc. rewrite createUpd_look by auto. rewrite (ckptOf_usable _ Rg).
    specialize (Low Lg). destruct (c =? usableFrom (k_gen m)) eqn:X; [apply Z.eqb_eq in X; lia|reflexivity]. }
  unfold onKeyExchange in E. cbv zeta in E. rewrite Ts in E.
  destruct (k_query m); [injection E as _ <-; auto|]. destruct (negb _); [injection E as _ <-; auto|].
  destruct (k_gen m <? req / WW * WW) eqn:X; [injection E as _ <-; auto|]. apply Z.ltb_ge in X. destruct (kfind _ (s_store s _)); [injection E as _ <-; auto|].
  destruct (push _ _ _ _ _ _ _); [|discriminate]. destruct (if (k_rep m =? me)%nat then _ else _) as [[sk pub]|].
  - destruct (key_eqb _ _); [|discriminate]. destruct (kfind _ (s_priv s)); [discriminate|]. injection E as _ <-. apply G; auto.
  - injection E as _ <-. apply G; auto.
Qed.

(** ---------- signing ---------- *)
Section Sign.
Variables (n PS HDR me : nat) (epoch : Z) (pubOf : key -> key).
Definition good (p : key * key) : Prop := snd p = pubOf (fst p) \/ snd p = [].
Definition SInv (s : st) : Prop :=
  s_sys s <> [] /\ (forall c t, In (c, t) (s_sys s) -> sy_vk t me = pubOf (sy_priv t)) /\
  (forall p, s_cand s = Some p -> good p) /\ (forall z p, s_map s z = Some p -> good p).
Lemma create_all (P : sys -> Prop) sn f T : T <> [] -> (forall c t, In (c, t) T -> P t) -> (forall t, P t -> P (f t)) ->
  createUpd sn f T <> [] /\ forall c t, In (c, t) (createUpd sn f T) -> P t.
Proof.
  intros Ne A F. unfold createUpd. cbv zeta. destruct (hasCkpt _ T).
  - split; [destruct T; [congruence|discriminate]|]. intros c t Hi. unfold updCkpt in Hi. apply in_map_iff in Hi as ([d u] & E & Hi). cbn [fst snd] in E.
    destruct (d =? _); injection E as <- <-; [apply F|]; eapply A; eauto.
  - split; [apply put_not_nil|]. intros c t Hi. apply putCkpt_in in Hi as [Hi|Hi]; [|eapply A; eauto]. injection Hi as -> ->. apply F.
    destruct T as [|x T]; [congruence|]. fold dflt. destruct (last (x :: T) dflt) as [d u] eqn:E. apply (A d).
    cbn [snd]. rewrite <- E. clear. revert x. induction T as [|y T IH]; intros x; [left; reflexivity|].
    right. change (last (x :: y :: T) dflt) with (last (y :: T) dflt). apply IH.
Qed.
Lemma sign_run ops : (forall sn fresh, In (OGen sn fresh) ops -> snd fresh = pubOf (fst fresh)) -> forall s s',
  SInv s -> ownOnly n PS HDR me epoch ops s -> run n PS HDR me epoch ops s = Some s' -> SInv s'.
Proof.
  induction ops as [|o ops IH]; intros Fr s s' I Ow R; cbn [run] in R; [injection R as <-; exact I|].
  cbn [ownOnly] in Ow. destruct Ow as [Ow1 Ow2]. destruct (step _ _ _ _ _ o s) as [s1|] eqn:St; [|discriminate].
  apply (IH (fun sn fr Hi => Fr sn fr (or_intror Hi)) s1 s'); auto. clear IH R Ow2 s'.
  destruct I as (Ne & A & B & C). destruct o as [m req|sn fresh]; cbn [step] in St.
  - destruct (onKeyExchange _ _ _ _ _ m req s) as [[rp s1']|] eqn:E; [|discriminate]. injection St as ->. unfold onKeyExchange in E. cbv zeta in E.
    destruct (k_query m); [injection E as _ <-; repeat split; auto|]. destruct (negb _); [injection E as _ <-; repeat split; auto|].
    destruct (_ <? _); [injection E as _ <-; repeat split; auto|]. destruct (kfind _ (s_store s _)) eqn:K; [injection E as _ <-; repeat split; auto|].
    destruct (push _ _ _ _ _ _ _); [|discriminate]. destruct (k_rep m =? me)%nat eqn:Me.
    + apply Nat.eqb_eq in Me. destruct (Ow1 m req eq_refl Me) as [Nb Wt]. rewrite Me in K. destruct Wt as [Wt|Wt]; [|congruence].
      destruct (s_map s (toSeq (k_gen m))) as [[sk pub]|] eqn:Mp; [|congruence].
      destruct (key_eqb pub (k_pub m)) eqn:Ke; [|discriminate]. apply key_eqb_eq in Ke. destruct (kfind _ (s_priv s)); [discriminate|]. injection E as _ <-.
      assert (Gp : k_pub m = pubOf sk) by (destruct (C _ _ Mp) as [Q|Q]; cbn [fst snd] in Q; congruence).
      destruct (create_all (fun t => sy_vk t me = pubOf (sy_priv t)) (toSeq (k_gen m)) (setOwn me sk (k_pub m)) (s_sys s) Ne A) as [X Y].
      { intros t _. cbn [setOwn setVk sy_vk sy_priv]. rewrite Nat.eqb_refl. exact Gp. }
      split; [exact X|]. split; [exact Y|]. cbn [s_cand s_map]. split; [discriminate|]. intros z p. destruct (z =? _); [discriminate|apply C].
    + injection E as _ <-. apply Nat.eqb_neq in Me.
      destruct (create_all (fun t => sy_vk t me = pubOf (sy_priv t)) (toSeq (k_gen m)) (setVk (k_rep m) (k_pub m)) (s_sys s) Ne A) as [X Y].
      { intros t Q. cbn [setVk sy_vk sy_priv]. destruct (me =? k_rep m)%nat eqn:Z0; [apply Nat.eqb_eq in Z0; congruence|exact Q]. }
      split; [exact X|]. split; [exact Y|]. auto.
  - injection St as <-. unfold generate. destruct (_ && _); [repeat split; auto|]. cbn [snd].
    assert (Gf : good fresh) by (left; apply (Fr sn); left; reflexivity).
    assert (Gc : forall c, (match s_cand s with Some c => Some c | None => match s_map s sn with None => Some fresh | Some _ => None end end) = Some c -> good c).
    { intros c Q. destruct (s_cand s) as [c0|] eqn:Cd; [apply B; congruence|]. destruct (s_map s sn); [discriminate|]. congruence. }
    split; [exact Ne|]. split; [exact A|]. cbn [s_cand s_map]. split; [exact Gc|]. intros z p. destruct (z =? sn); [|apply C]. intros Q. injection Q as <-.
    destruct (match s_cand s with Some c => Some c | None => _ end) as [c|]; [apply Gc; reflexivity|right; reflexivity].
Qed.
End Sign.

Lemma create_keeps c sn f T : In c (map fst T) -> In c (map fst (createUpd sn f T)).
Proof.
  intros Hi. unfold createUpd. cbv zeta. destruct (hasCkpt _ T); [rewrite updCkpt_map_fst; exact Hi|].
  apply in_map_iff in Hi as (x & <- & Hx). apply in_map. apply putCkpt_in. auto.
Qed.
Lemma run_has0 n PS HDR me epoch ops : forall s s', In 0 (map fst (s_sys s)) -> run n PS HDR me epoch ops s = Some s' -> In 0 (map fst (s_sys s')).
Proof.
  induction ops as [|o ops IH]; intros s s' Hi R; cbn [run] in R; [injection R as <-; exact Hi|].
  destruct (step _ _ _ _ _ o s) as [s1|] eqn:St; [|discriminate]. apply (IH s1 s'); auto. clear IH R s'.
  destruct o as [m req|sn fresh]; cbn [step] in St.
  - destruct (onKeyExchange _ _ _ _ _ m req s) as [[rp s1']|] eqn:E; [|discriminate]. injection St as ->. unfold onKeyExchange in E. cbv zeta in E.
    destruct (k_query m); [injection E as _ <-; auto|]. destruct (negb _); [injection E as _ <-; auto|].
    destruct (_ <? _); [injection E as _ <-; auto|]. destruct (kfind _ (s_store s _)); [injection E as _ <-; auto|].
    destruct (push _ _ _ _ _ _ _); [|discriminate]. destruct (if (k_rep m =? me)%nat then _ else _) as [[sk pub]|].
    + destruct (key_eqb _ _); [|discriminate]. destruct (kfind _ (s_priv s)); [discriminate|]. injection E as _ <-. apply create_keeps, Hi.
    + injection E as _ <-. apply create_keeps, Hi.
  - injection St as <-. unfold generate. destruct (_ && _); exact Hi.
Qed.
Lemma getSys_some sn T : 1 <= sn -> In 0 (map fst T) -> getSys sn T <> None.
Proof.
  intros Ls Hi. apply in_map_iff in Hi as (x & E & Hx). unfold getSys. destruct (find _ (rev T)) as [y|] eqn:F; [discriminate|].
  apply in_rev in Hx. pose proof (find_none _ _ F x Hx) as Q. cbn beta in Q. apply Z.leb_gt in Q. rewrite (covering sn Ls) in Q.
  assert (0 <= ckptCovering sn) by (unfold ckptCovering, CW; apply Z.div_pos; lia). lia.
Qed.

(** ---------- the number of exchanges ---------- *)
Definition PBound (PS HDR : nat) (store : nat -> kmap) : Prop := forall r, (store r = [] \/ pageBytes HDR (store r) <= PS)%nat.
Lemma hist_bound n PS HDR me epoch init l s : Hist n PS HDR me epoch init l s -> PBound PS HDR (s_store s).
Proof.
  assert (X : forall me m req s rp s', PBound PS HDR (s_store s) -> onKeyExchange n PS HDR me epoch m req s = Some (rp, s') -> PBound PS HDR (s_store s')).
  { clear. intros me m req s rp s' B E. unfold onKeyExchange in E. cbv zeta in E.
    destruct (k_query m); [injection E as _ <-; auto|]. destruct (negb _); [injection E as _ <-; auto|].
    destruct (_ <? _); [injection E as _ <-; auto|]. destruct (kfind _ (s_store s _)); [injection E as _ <-; auto|].
    destruct (push _ _ _ _ _ _ _) as [store'|] eqn:P; [|discriminate].
    assert (B' : PBound PS HDR store').
    { unfold push in P. destruct ((k_rep m <? n)%nat && _) eqn:Q; [|discriminate]. injection P as <-. apply andb_true_iff in Q as [_ Q].
      apply Nat.leb_le in Q. intros r. destruct (r =? k_rep m)%nat; [auto|apply B]. }
    destruct (if (k_rep m =? me)%nat then _ else _) as [[sk pub]|].
    - destruct (key_eqb _ _); [|discriminate]. destruct (kfind _ (s_priv s)); [discriminate|]. injection E as _ <-. exact B'.
    - injection E as _ <-. exact B'. }
  assert (Cut : forall store : nat -> kmap, PBound PS HDR store -> PBound PS HDR (fun r => if (r <? n)%nat then store r else [])).
  { intros store B r. destruct (r <? n)%nat; [apply B|auto]. }
  assert (St : forall me o s s', PBound PS HDR (s_store s) -> step n PS HDR me epoch o s = Some s' -> PBound PS HDR (s_store s')).
  { intros me0 o s0 s' B E. destruct o as [m req|sn fresh]; cbn [step] in E.
    - destruct (onKeyExchange _ _ _ _ _ m req s0) as [[rp s1]|] eqn:Q; [|discriminate]. injection E as ->. eapply X; eauto.
    - injection E as <-. unfold generate. destruct (_ && _); exact B. }
  intros Hh. induction Hh as [|l s o s' Hh IH E|l s s' Hh IH Ok R|l s m req store priv s' Hh IH Cp Ok R|l s l' me' init' s2 more s' Hh IH Rn Ac Ok Ld].
  - intros r. left. reflexivity.
  - eapply St; eauto.
  - unfold restart in R. cbv zeta in R. destruct (notifyRegistry _ _ _ _ _); [|discriminate]. injection R as <-. apply Cut, IH.
  - unfold restart in R. cbv zeta in R. destruct (notifyRegistry _ _ _ _ _); [|discriminate]. injection R as <-. apply Cut. unfold crashPoints in Cp.
    destruct (onKeyExchange _ _ _ _ _ m req s) as [[rp s1]|] eqn:E; cbn [tl] in Cp; [|destruct Cp].
    pose proof (X _ _ _ _ _ _ IH E) as B. destruct Cp as [Cp|[Cp|[]]]; injection Cp as <- <-; exact B.
  - unfold loadPublicKeys in Ld. cbv zeta in Ld. destruct (notifyRegistry _ _ _ _ _); [|discriminate]. injection Ld as <-. apply Cut.
    assert (G : forall ops s0 s1, PBound PS HDR (s_store s0) -> run n PS HDR me' epoch ops s0 = Some s1 -> PBound PS HDR (s_store s1)).
    { clear - St. induction ops as [|o ops IH]; intros s0 s1 B R; cbn [run] in R; [injection R as <-; exact B|].
      destruct (step _ _ _ _ _ o s0) eqn:Q; [|discriminate]. eapply IH; [|exact R]. eapply St; eauto. }
    eapply G; [|exact Rn]. intros r. left. reflexivity.
Qed.
Lemma accepted_nodup epoch l : forall acc, NoDup (map (fun e => (e_rep e, e_gen e)) acc) -> NoDup (map (fun e => (e_rep e, e_gen e)) (accepted epoch l acc)).
Proof.
  induction l as [|[m req] l IH]; intros acc Nd; [exact Nd|]. rewrite accepted_cons. apply IH. destruct (counts epoch m req acc) eqn:C; [|exact Nd].
  rewrite map_app. cbn [map]. apply NoDup_Add with (a := (k_rep m, toSeq (k_gen m))) (l := map (fun e => (e_rep e, e_gen e)) acc).
  - rewrite <- (app_nil_r (map _ acc)) at 1. apply Add_app.
  - split; [exact Nd|]. intros Hi. apply in_map_iff in Hi as (e & E & He). injection E as E1 E2. unfold counts in C.
    apply andb_true_iff in C as [_ C]. apply negb_true_iff in C. eapply slot_none; eauto.
Qed.
Lemma pageBytes_len HDR l : (HDR + 16 * length l <= pageBytes HDR l)%nat.
Proof. unfold pageBytes. induction l as [|p l IH]; cbn [fold_right length]; lia. Qed.
