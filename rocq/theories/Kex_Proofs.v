(** C36: lemmas on the cryptosystems per checkpoint, the key maps and the executed messages. *)
From Coq Require Import List Arith Lia ZArith Bool NArith Sorted.
From Verif Require Import Kex_Model.
Import ListNotations.
Open Scope Z_scope.

Lemma key_eqb_eq a : forall b, key_eqb a b = true <-> a = b.
Proof.
  induction a as [|x a IH]; intros [|y b]; cbn [key_eqb]; split; intros E; try discriminate; auto.
  - apply andb_true_iff in E as [E1 E2]. apply N.eqb_eq in E1. apply IH in E2. congruence.
  - injection E as -> ->. apply andb_true_iff. split; [apply N.eqb_refl|]. apply IH. reflexivity.
Qed.

(** ---------- systems ---------- *)
Definition look (c : Z) (l : systems) : option sys := option_map snd (find (fun p => fst p =? c) l).
Definition Srt (l : systems) : Prop := StronglySorted (fun p q => fst p < fst q) l.

Lemma look_nil c : look c [] = None. Proof. reflexivity. Qed.
Lemma look_cons c d s l : look c ((d, s) :: l) = if d =? c then Some s else look c l.
Proof. unfold look. cbn [find fst]. destruct (d =? c); reflexivity. Qed.
Lemma look_in c s l : look c l = Some s -> In (c, s) l.
Proof.
  induction l as [|[d t] l IH]; [discriminate|]. rewrite look_cons. destruct (d =? c) eqn:E.
  - intros Q. injection Q as ->. apply Z.eqb_eq in E as ->. left. reflexivity.
  - intros Q. right. auto.
Qed.
Lemma in_look c s l : Srt l -> In (c, s) l -> look c l = Some s.
Proof.
  induction l as [|[d t] l IH]; intros So Hi; [destruct Hi|]. inversion So as [|? ? So' Fa]; subst. rewrite look_cons.
  destruct Hi as [Hi|Hi].
  - injection Hi as -> ->. rewrite Z.eqb_refl. reflexivity.
  - rewrite Forall_forall in Fa. specialize (Fa _ Hi). cbn in Fa. destruct (d =? c) eqn:E; [apply Z.eqb_eq in E; lia|auto].
Qed.
Lemma hasCkpt_look c l : hasCkpt c l = match look c l with Some _ => true | None => false end.
Proof.
  induction l as [|[d t] l IH]; [reflexivity|]. rewrite look_cons. cbn [hasCkpt existsb fst]. destruct (d =? c); [reflexivity|].
  exact IH.
Qed.
Lemma updCkpt_map_fst c f l : map fst (updCkpt c f l) = map fst l.
Proof. induction l as [|[d t] l IH]; [reflexivity|]. cbn [updCkpt map fst]. unfold updCkpt in IH. rewrite IH. destruct (d =? c); reflexivity. Qed.
Lemma srt_fst l l' : map fst l = map fst l' -> Srt l -> Srt l'.
Proof.
  revert l'. induction l as [|p l IH]; intros [|q l'] E So; try discriminate; [constructor|]. cbn in E. injection E as E1 E2.
  inversion So as [|? ? So' Fa]; subst. constructor; [exact (IH _ E2 So')|]. rewrite Forall_forall in *. intros x Hx.
  rewrite <- E1. apply (in_map fst) in Hx. rewrite <- E2 in Hx. apply in_map_iff in Hx as (y & Ey & Hy). rewrite <- Ey. auto.
Qed.
Lemma srt_upd c f l : Srt l -> Srt (updCkpt c f l).
Proof. apply srt_fst. symmetry. apply updCkpt_map_fst. Qed.
Lemma look_upd c f l d : look d (updCkpt c f l) = if d =? c then option_map f (look d l) else look d l.
Proof.
  induction l as [|[e t] l IH]; [cbn; destruct (d =? c); reflexivity|]. unfold updCkpt in *. cbn [map fst snd].
  destruct (e =? c) eqn:E; rewrite !look_cons, IH.
  - apply Z.eqb_eq in E as ->. destruct (c =? d) eqn:F.
    + apply Z.eqb_eq in F as ->. rewrite Z.eqb_refl. reflexivity.
    + reflexivity.
  - destruct (e =? d) eqn:F; [|reflexivity]. apply Z.eqb_eq in F as ->. rewrite E. reflexivity.
Qed.
Lemma putCkpt_in c s l x : In x (putCkpt c s l) <-> x = (c, s) \/ In x l.
Proof.
  induction l as [|[d t] l IH]; cbn [putCkpt]; [cbn; intuition|]. destruct (c <? d); cbn [In]; [intuition|]. rewrite IH. intuition.
Qed.
Lemma srt_put c s l : look c l = None -> Srt l -> Srt (putCkpt c s l).
Proof.
  induction l as [|[d t] l IH]; intros Hn So; cbn [putCkpt]; [repeat constructor|]. rewrite look_cons in Hn.
  destruct (d =? c) eqn:E; [discriminate|]. apply Z.eqb_neq in E. inversion So as [|? ? So' Fa]; subst.
  destruct (c <? d) eqn:F.
  - apply Z.ltb_lt in F. constructor; [exact So|]. constructor; [exact F|]. rewrite Forall_forall in *. intros x Hx.
    specialize (Fa _ Hx). cbn in *. lia.
  - apply Z.ltb_ge in F. constructor; [exact (IH Hn So')|]. rewrite Forall_forall in *. intros x Hx. apply putCkpt_in in Hx as [->|Hx]; [cbn; lia|auto].
Qed.
Lemma look_put c s l d : look c l = None -> Srt l -> look d (putCkpt c s l) = if d =? c then Some s else look d l.
Proof.
  intros Hn So. pose proof (srt_put c s l Hn So) as So'. destruct (d =? c) eqn:E.
  - apply Z.eqb_eq in E as ->. apply in_look; auto. apply putCkpt_in. auto.
  - apply Z.eqb_neq in E. destruct (look d l) as [t|] eqn:F.
    + apply in_look; auto. apply putCkpt_in. right. apply look_in. exact F.
    + destruct (look d (putCkpt c s l)) as [t|] eqn:G; [|reflexivity]. apply look_in, putCkpt_in in G as [G|G]; [congruence|].
      apply in_look in G; auto. congruence.
Qed.
Lemma put_not_nil c s l : putCkpt c s l <> [].
Proof. destruct l as [|[d t] l]; cbn; [discriminate|]. destruct (c <? d); discriminate. Qed.

(** the last system *)
Definition dflt : Z * sys := (0, mkSys [] (fun _ => [])).
Lemma last_max l : l <> [] -> Srt l -> In (last l dflt) l /\ forall x, In x l -> fst x <= fst (last l dflt).
Proof.
  induction l as [|a [|b l] IH]; intros Ne So; [congruence| |].
  - cbn. split; [auto|]. intros x [<-|[]]. lia.
  - inversion So as [|? ? So' Fa]; subst. destruct (IH ltac:(discriminate) So') as [I1 I2].
    change (last (a :: b :: l) dflt) with (last (b :: l) dflt). split; [right; exact I1|].
    intros x [<-|Hx]; [|auto]. rewrite Forall_forall in Fa. specialize (Fa _ I1). lia.
Qed.

Lemma createUpd_srt sn f l : l <> [] -> Srt l -> Srt (createUpd sn f l) /\ createUpd sn f l <> [].
Proof.
  intros Ne So. unfold createUpd. cbv zeta. rewrite hasCkpt_look. destruct (look (ckptOf sn) l) eqn:E.
  - split; [apply srt_upd; auto|]. destruct l; [congruence|]. discriminate.
  - split; [apply srt_put; auto|apply put_not_nil].
Qed.
Lemma createUpd_look sn f l d : Srt l ->
  look d (createUpd sn f l) =
  if d =? ckptOf sn then Some (f (match look d l with Some s => s | None => snd (last l dflt) end)) else look d l.
Proof.
  intros So. unfold createUpd. cbv zeta. rewrite hasCkpt_look. destruct (look (ckptOf sn) l) as [s|] eqn:E.
  - rewrite look_upd. destruct (d =? ckptOf sn) eqn:F; [|reflexivity]. apply Z.eqb_eq in F as ->. rewrite E. reflexivity.
  - rewrite look_put; auto. destruct (d =? ckptOf sn) eqn:F; [|reflexivity]. apply Z.eqb_eq in F as ->. rewrite E. reflexivity.
Qed.

(** get *)
Lemma find_app' {A} (f : A -> bool) l r : find f (l ++ r) = match find f l with Some x => Some x | None => find f r end.
Proof. induction l as [|a l IH]; [reflexivity|]. cbn [find app]. destruct (f a); auto. Qed.
Lemma find_rev_spec q l : Srt l ->
  match find (fun p => fst p <=? q) (rev l) with
  | Some x => In x l /\ fst x <= q /\ forall y, In y l -> fst y <= q -> fst y <= fst x
  | None => forall y, In y l -> ~ fst y <= q
  end.
Proof.
  induction l as [|a l IH]; intros So; [cbn; tauto|]. inversion So as [|? ? So' Fa]; subst. specialize (IH So').
  cbn [rev]. rewrite find_app'. rewrite Forall_forall in Fa. destruct (find (fun p => fst p <=? q) (rev l)) as [x|].
  - destruct IH as (I1 & I2 & I3). split; [right; auto|]. split; [auto|]. intros y [<-|Hy] Le; [|auto]. specialize (Fa _ I1). lia.
  - cbn [find]. destruct (fst a <=? q) eqn:E.
    + apply Z.leb_le in E. split; [left; auto|]. split; [auto|]. intros y [<-|Hy] Le; [lia|]. destruct (IH y Hy Le).
    + apply Z.leb_gt in E. intros y [<-|Hy] Le; [lia|]. apply (IH y Hy Le).
Qed.
Lemma getSys_spec sn l : Srt l ->
  match getSys sn l with
  | Some s => exists c, look c l = Some s /\ c <= Z.quot (sn - 1) CW /\ forall c' s', look c' l = Some s' -> c' <= Z.quot (sn - 1) CW -> c' <= c
  | None => forall c s, look c l = Some s -> ~ c <= Z.quot (sn - 1) CW
  end.
Proof.
  intros So. unfold getSys. pose proof (find_rev_spec (Z.quot (sn - 1) CW) l So) as F.
  destruct (find (fun p => fst p <=? Z.quot (sn - 1) CW) (rev l)) as [[c s]|]; cbn [option_map snd].
  - destruct F as (F1 & F2 & F3). exists c. split; [apply in_look; auto|]. split; [auto|]. intros c' s' E Le. apply look_in in E.
    apply (F3 _ E Le).
  - intros c s E Le. apply look_in in E. apply (F _ E Le).
Qed.
Lemma covering sn : 1 <= sn -> Z.quot (sn - 1) CW = ckptCovering sn.
Proof. intros L. unfold ckptCovering, CW. apply Z.quot_div_nonneg; lia. Qed.
Lemma ckptOf_usable g : 0 <= g < 2 ^ 63 -> ckptOf g = usableFrom g.
Proof.
  intros R. unfold ckptOf, usableFrom, CW. rewrite Z.quot_div_nonneg by lia. apply Z.mod_small.
  assert (g / 150 <= g) by (apply Z.div_le_upper_bound; lia). assert (0 <= g / 150) by (apply Z.div_pos; lia).
  change (2 ^ 63) with 9223372036854775808 in R. change (2 ^ 64) with 18446744073709551616. lia.
Qed.
Lemma usable_ge2 g : 0 <= g -> 2 <= usableFrom g.
Proof. intros R. unfold usableFrom, CW. assert (0 <= g / 150) by (apply Z.div_pos; lia). lia. Qed.
Lemma usable_mono a b : a <= b -> usableFrom a <= usableFrom b.
Proof. intros L. unfold usableFrom, CW. assert (a / 150 <= b / 150) by (apply Z.div_le_mono; lia). lia. Qed.

(** equal up to the private keys *)
Definition SameVk (a b : systems) : Prop := Forall2 (fun p q => fst p = fst q /\ forall r, sy_vk (snd p) r = sy_vk (snd q) r) a b.
Lemma sv_refl a : SameVk a a. Proof. unfold SameVk. induction a; constructor; auto. Qed.
Lemma sv_trans a : forall b c, SameVk a b -> SameVk b c -> SameVk a c.
Proof.
  unfold SameVk. induction a as [|x a IH]; intros b c A B; inversion A; subst; inversion B; subst; constructor.
  - destruct H1 as [H1 H1'], H2 as [H2 H2']. split; [congruence|]. intros r. rewrite H1'. apply H2'.
  - eapply IH; eauto.
Qed.
Lemma sv_sym a : forall b, SameVk a b -> SameVk b a.
Proof. unfold SameVk. induction a as [|x a IH]; intros b A; inversion A; subst; constructor; auto. destruct H1 as [E F]. split; auto. Qed.
Lemma sv_fst a : forall b, SameVk a b -> map fst a = map fst b.
Proof. unfold SameVk. induction a as [|x a IH]; intros b A; inversion A; subst; cbn; auto. destruct H1 as [E F]. f_equal; auto. Qed.
Lemma sv_look a : forall b c, SameVk a b ->
  match look c a, look c b with Some s, Some t => forall r, sy_vk s r = sy_vk t r | None, None => True | _, _ => False end.
Proof.
  unfold SameVk. induction a as [|[d s] a IH]; intros b c A; inversion A; subst; [cbn; auto|]. destruct y as [d' s'].
  destruct H1 as [E F]. cbn in E, F. subst d'. rewrite !look_cons. destruct (d =? c); [exact F|]. apply IH. assumption.
Qed.
Lemma sv_last a : forall b, SameVk a b -> forall r, sy_vk (snd (last a dflt)) r = sy_vk (snd (last b dflt)) r.
Proof.
  unfold SameVk. induction a as [|x a IH]; intros b A r; inversion A; subst; [reflexivity|].
  destruct a as [|x' a]; inversion H3; subst.
  - cbn. apply H1.
  - change (last (x :: x' :: a) dflt) with (last (x' :: a) dflt). change (last (y :: y0 :: l'0) dflt) with (last (y0 :: l'0) dflt).
    apply IH. assumption.
Qed.
Lemma sv_put c s t a : forall b, (forall r, sy_vk s r = sy_vk t r) -> SameVk a b -> SameVk (putCkpt c s a) (putCkpt c t b).
Proof.
  unfold SameVk. induction a as [|[d x] a IH]; intros b E A; inversion A; subst; cbn [putCkpt]; [repeat constructor; auto|].
  destruct y as [d' y]. destruct H1 as [E1 F]. cbn in E1, F. subst d'. destruct (c <? d).
  - constructor; [cbn; auto|]. constructor; auto.
  - constructor; [cbn; auto|]. apply IH; auto.
Qed.
Lemma sv_create sn f g a b : (forall s t, (forall r, sy_vk s r = sy_vk t r) -> forall r, sy_vk (f s) r = sy_vk (g t) r) ->
  SameVk a b -> SameVk (createUpd sn f a) (createUpd sn g b).
Proof.
  intros Fg A. unfold createUpd. cbv zeta. rewrite !hasCkpt_look. pose proof (sv_look a b (ckptOf sn) A) as Lk.
  destruct (look (ckptOf sn) a), (look (ckptOf sn) b); try contradiction.
  - unfold updCkpt. clear Lk. unfold SameVk in *. induction A as [|[d x] [d' y] a b [E1 F] A IH]; [constructor|].
    cbn [map fst snd] in *. subst d'. constructor; [|exact IH]. destruct (d =? ckptOf sn); cbn; auto.
  - apply sv_put; [|exact A]. apply Fg. apply (sv_last _ _ A).
Qed.
Lemma sv_public r k sn a b : SameVk a b -> SameVk (onPublic r k sn a) (onPublic r k sn b).
Proof. apply sv_create. intros s t E r'. cbn. destruct (r' =? r)%nat; auto. Qed.
Lemma sv_private me sk k sn a b : SameVk a b -> SameVk (onPrivate me sk k sn a) (onPublic me k sn b).
Proof. apply sv_create. intros s t E r'. cbn. destruct (r' =? me)%nat; auto. Qed.
Lemma sv_vkAt a : forall b sn r, SameVk a b -> vkAt a sn r = vkAt b sn r.
Proof.
  intros b sn r A. unfold vkAt, getSys.
  assert (R : SameVk (rev a) (rev b)).
  { clear sn r. unfold SameVk in *. induction A as [|x y a b E A IH]; [constructor|]. cbn. apply Forall2_app; auto. }
  unfold SameVk in R. induction R as [|[d x] [d' y] a' b' [E1 F] R IH]; [reflexivity|]. cbn [find fst snd] in *. subst d'.
  destruct (d <=? Z.quot (sn - 1) CW); [cbn; f_equal; apply F|exact IH].
Qed.
Lemma sv_srt a b : SameVk a b -> Srt a -> Srt b.
Proof. intros A. apply srt_fst. apply sv_fst. exact A. Qed.

(** ---------- key maps ---------- *)
Definition KSrt (l : kmap) : Prop := StronglySorted (fun p q => fst p < fst q) l.
Lemma kput_in sn k l x : In x (kput sn k l) -> x = (sn, k) \/ In x l.
Proof.
  induction l as [|[m y] l IH]; cbn [kput]; [cbn; intuition|]. destruct (sn <? m); [cbn; intuition|]. destruct (m =? sn); [auto|].
  intros [<-|Hx]; [right; left; auto|]. apply IH in Hx as [->|Hx]; cbn; auto.
Qed.
Lemma kput_srt sn k l : KSrt l -> KSrt (kput sn k l).
Proof.
  induction l as [|[m y] l IH]; intros So; cbn [kput]; [repeat constructor|]. inversion So as [|? ? So' Fa]; subst.
  destruct (sn <? m) eqn:E.
  - apply Z.ltb_lt in E. constructor; [exact So|]. constructor; [exact E|]. rewrite Forall_forall in *. intros x Hx. specialize (Fa _ Hx). cbn in *. lia.
  - apply Z.ltb_ge in E. destruct (m =? sn) eqn:F; [exact So|]. apply Z.eqb_neq in F. constructor; [exact (IH So')|].
    rewrite Forall_forall in *. intros x Hx. apply kput_in in Hx as [->|Hx]; [cbn; lia|auto].
Qed.
Lemma kfind_put sn k l z : kfind sn l = None -> KSrt l -> kfind z (kput sn k l) = if z =? sn then Some k else kfind z l.
Proof.
  induction l as [|[m y] l IH]; intros Hn So; cbn [kput kfind].
  - rewrite (Z.eqb_sym sn z). reflexivity.
  - cbn [kfind] in Hn. destruct (m =? sn) eqn:E; [discriminate|]. inversion So as [|? ? So' Fa]; subst. destruct (sn <? m) eqn:F.
    + cbn [kfind]. rewrite (Z.eqb_sym sn z). destruct (z =? sn) eqn:G; [reflexivity|]. destruct (m =? z); reflexivity.
    + cbn [kfind]. rewrite (IH Hn So'). destruct (m =? z) eqn:G; [|reflexivity]. apply Z.eqb_eq in G as ->. rewrite E. reflexivity.
Qed.
Lemma kfind_in z l k : kfind z l = Some k -> In (z, k) l.
Proof.
  induction l as [|[m y] l IH]; [discriminate|]. cbn [kfind]. destruct (m =? z) eqn:E.
  - intros Q. injection Q as ->. apply Z.eqb_eq in E as ->. left. reflexivity.
  - right. auto.
Qed.
Lemma in_kfind z l k : KSrt l -> In (z, k) l -> kfind z l = Some k.
Proof.
  induction l as [|[m y] l IH]; intros So Hi; [destruct Hi|]. inversion So as [|? ? So' Fa]; subst. cbn [kfind]. destruct Hi as [Hi|Hi].
  - injection Hi as -> ->. rewrite Z.eqb_refl. reflexivity.
  - rewrite Forall_forall in Fa. specialize (Fa _ Hi). cbn in Fa. destruct (m =? z) eqn:E; [apply Z.eqb_eq in E; lia|auto].
Qed.
Lemma kput_length sn k l : kfind sn l = None -> length (kput sn k l) = Datatypes.S (length l).
Proof.
  induction l as [|[m y] l IH]; intros Hn; cbn [kput]; [reflexivity|]. cbn [kfind] in Hn. destruct (m =? sn) eqn:E; [discriminate|].
  destruct (sn <? m); [reflexivity|]. cbn [length]. rewrite IH; auto.
Qed.

(** ---------- the accepted messages ---------- *)
Definition counts (epoch : Z) (m : msg) (req : Z) (acc : list ent) : bool :=
  negb (k_query m) && (k_epoch m =? epoch) && (req / WW * WW <=? k_gen m) && negb (existsb (fun e => sameSlot e m) acc).
Definition entOf (m : msg) : ent := mkE (k_rep m) (k_pub m) (toSeq (k_gen m)).
Lemma accepted_cons epoch m req l acc :
  accepted epoch ((m, req) :: l) acc = accepted epoch l (if counts epoch m req acc then acc ++ [entOf m] else acc).
Proof. cbn [accepted]. unfold counts, entOf. destruct (negb (k_query m) && _ && _ && _); reflexivity. Qed.
Lemma accepted_app epoch l1 : forall l2 acc, accepted epoch (l1 ++ l2) acc = accepted epoch l2 (accepted epoch l1 acc).
Proof. induction l1 as [|[m req] l1 IH]; intros l2 acc; [reflexivity|]. rewrite <- app_comm_cons, !accepted_cons. apply IH. Qed.
Lemma accepted_prefix epoch l : forall acc, exists more, accepted epoch l acc = acc ++ more.
Proof.
  induction l as [|[m req] l IH]; intros acc; [exists []; rewrite app_nil_r; reflexivity|]. rewrite accepted_cons.
  destruct (counts epoch m req acc); destruct (IH (acc ++ [entOf m])) as [a Ea]; destruct (IH acc) as [b Eb]; eauto.
  exists (entOf m :: a). rewrite Ea, <- app_assoc. reflexivity.
Qed.
Lemma slot_none acc m : existsb (fun e => sameSlot e m) acc = false <->
  forall e, In e acc -> e_rep e = k_rep m -> e_gen e = toSeq (k_gen m) -> False.
Proof.
  split.
  - intros E e Hi A B. assert (existsb (fun e => sameSlot e m) acc = true); [|congruence]. apply existsb_exists. exists e. split; auto.
    unfold sameSlot. rewrite A, B, Nat.eqb_refl, Z.eqb_refl. reflexivity.
  - intros F. destruct (existsb _ acc) eqn:E; [|reflexivity]. apply existsb_exists in E as (e & Hi & Hs). unfold sameSlot in Hs.
    apply andb_true_iff in Hs as [A B]. apply Nat.eqb_eq in A. apply Z.eqb_eq in B. destruct (F e Hi A B).
Qed.

(** The store of a replica is the set of accepted exchanges. *)
Definition SRel (n : nat) (store : nat -> kmap) (L : list ent) : Prop :=
  (forall r, KSrt (store r)) /\
  (forall r z k, kfind z (store r) = Some k <-> In (mkE r k z) L) /\
  (forall e, In e L -> (e_rep e < n)%nat).
Lemma srel_nil n : SRel n (fun _ => []) [].
Proof. split; [intros; constructor|]. split; [|intros e []]. intros r z k. cbn. split; [discriminate|tauto]. Qed.
Lemma srel_none n store L m : SRel n store L ->
  (kfind (toSeq (k_gen m)) (store (k_rep m)) = None <-> existsb (fun e => sameSlot e m) L = false).
Proof.
  intros (S1 & S2 & S3). rewrite slot_none. split.
  - intros E [r k z] Hi A B. cbn in A, B. subst. apply S2 in Hi. congruence.
  - intros F. destruct (kfind _ _) as [k|] eqn:E; [|reflexivity]. apply S2 in E. destruct (F _ E eq_refl eq_refl).
Qed.
Lemma srel_push n PS HDR store L m store' : SRel n store L -> kfind (toSeq (k_gen m)) (store (k_rep m)) = None ->
  push n PS HDR (k_rep m) (k_pub m) (toSeq (k_gen m)) store = Some store' -> SRel n store' (L ++ [entOf m]).
Proof.
  intros (S1 & S2 & S3) Hn P. unfold push in P. destruct ((k_rep m <? n)%nat && _) eqn:G; [|discriminate]. injection P as <-.
  apply andb_true_iff in G as [G _]. apply Nat.ltb_lt in G. split; [|split].
  - intros r. destruct (r =? k_rep m)%nat; [apply kput_srt|]; apply S1.
  - intros r z k. rewrite in_app_iff. destruct (r =? k_rep m)%nat eqn:E.
    + apply Nat.eqb_eq in E as ->. rewrite kfind_put by auto. destruct (z =? toSeq (k_gen m)) eqn:F.
      * apply Z.eqb_eq in F as ->. split.
        -- intros Q. injection Q as <-. right. left. reflexivity.
        -- intros [Q|[Q|[]]]; [apply S2 in Q; congruence|]. unfold entOf in Q. injection Q as ->. reflexivity.
      * apply Z.eqb_neq in F. rewrite S2. split; [auto|]. intros [Q|[Q|[]]]; [auto|]. unfold entOf in Q. injection Q as Q1 Q2. congruence.
    + apply Nat.eqb_neq in E. rewrite S2. split; [auto|]. intros [Q|[Q|[]]]; [auto|]. unfold entOf in Q. injection Q as Q1 Q2. congruence.
  - intros e Hi. apply in_app_iff in Hi as [Hi|[<-|[]]]; auto.
Qed.
