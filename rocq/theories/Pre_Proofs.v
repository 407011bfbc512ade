(** Lemmas about the pre-processing model. *)
From Coq Require Import List Arith NArith Bool Lia Permutation Sorting.Sorted.
From Verif Require Import Lib_Bytes Pre_Model.
Import ListNotations.
Local Open Scope N_scope.

Lemma bytesEqb_ok : forall a b, bytesEqb a b = true <-> a = b.
Proof.
  induction a as [|x a IH]; destruct b as [|y b]; cbn; split; intros H; try discriminate; auto.
  - apply andb_true_iff in H. destruct H as [H1 H2]. apply N.eqb_eq in H1. apply IH in H2. congruence.
  - injection H as <- <-. rewrite N.eqb_refl. cbn. apply IH. auto.
Qed.
Lemma hashEqb_ok a b : hashEqb a b = true <-> a = b.
Proof. destruct a, b; cbn; split; intros H; try discriminate; auto; [apply bytesEqb_ok in H; congruence|injection H as <-; apply bytesEqb_ok; auto]. Qed.
Lemma hashEqb_no a b : hashEqb a b = false <-> a <> b.
Proof. split; intros H; [intros E; apply hashEqb_ok in E; congruence|destruct (hashEqb a b) eqn:E; auto; apply hashEqb_ok in E; tauto]. Qed.

(** The digest determines the result code, and for SUCCESS the data. *)
Lemma app_tail_inj {A} (a b c d : list A) : length b = length d -> a ++ b = c ++ d -> a = c /\ b = d.
Proof.
  revert c. induction a as [|x a IH]; intros [|y c] L E; cbn in E; auto.
  - subst b. cbn in L. rewrite app_length in L. lia.
  - subst d. cbn in L. rewrite app_length in L. lia.
  - injection E as <- E. destruct (IH c L E) as [-> ->]. auto.
Qed.
Lemma createHash_inj d r d' r' c s : r < 2^32 -> r' < 2^32 -> createHash d r c s = createHash d' r' c s -> r = r' /\ (r = SUCCESS -> d = d').
Proof.
  unfold createHash. intros R R' H. injection H as H.
  assert (L : length (le 4 r ++ le 2 c ++ le 8 s) = length (le 4 r' ++ le 2 c ++ le 8 s)) by (rewrite !app_length, !le_length; auto).
  destruct (app_tail_inj _ _ _ _ L H) as [H1 H2]. destruct (app_tail_inj _ _ _ _ eq_refl H2) as [H3 _].
  apply le_inj in H3; [|exact R|exact R']. split; auto.
  intros Z. subst r r'. unfold SUCCESS in H1. cbn in H1. auto.
Qed.

(** * Sets and maps *)
Definition ssorted (l : list vote) : Prop := StronglySorted (fun a b => vsender a < vsender b) l.
Lemma ssorted_nodup l : ssorted l -> NoDup (map vsender l).
Proof.
  induction 1 as [|v l S IH F]; cbn; constructor; auto. intros X. apply in_map_iff in X. destruct X as (w & E & Hw). rewrite Forall_forall in F. specialize (F w Hw). lia.
Qed.
Lemma sinsert_in v : forall l l' b, sinsert v l = (l', b) -> forall w, In w l' <-> In w l \/ (b = true /\ w = v).
Proof.
  induction l as [|x l IH]; cbn; intros l' b H w.
  - injection H as <- <-. cbn. intuition.
  - destruct (vsender v <? vsender x); [injection H as <- <-; cbn; intuition|]. destruct (vsender v =? vsender x); [injection H as <- <-; cbn; intuition discriminate|].
    destruct (sinsert v l) as [r c] eqn:E. injection H as <- <-. cbn. rewrite (IH _ _ eq_refl w). tauto.
Qed.
Lemma sinsert_sorted v : forall l l' b, ssorted l -> sinsert v l = (l', b) -> ssorted l'.
Proof.
  induction l as [|x l IH]; cbn; intros l' b S H.
  - injection H as <- <-. repeat constructor.
  - inversion S as [|? ? S' F]; subst. destruct (N.ltb_spec (vsender v) (vsender x)) as [L|L].
    + injection H as <- <-. constructor; auto. constructor; auto. eapply Forall_impl; [|exact F]. cbn. intros; lia.
    + destruct (N.eqb_spec (vsender v) (vsender x)) as [E|E]; [injection H as <- <-; auto|].
      destruct (sinsert v l) as [r c] eqn:Q. injection H as <- <-. constructor; [eapply IH; eauto|].
      rewrite Forall_forall in *. intros w Hw. apply (sinsert_in _ _ _ _ Q) in Hw. destruct Hw as [Hw|[_ ->]]; auto. lia.
Qed.
Lemma sinsert_len v : forall l l' b, sinsert v l = (l', b) -> length l' = (length l + (if b then 1 else 0))%nat.
Proof.
  induction l as [|x l IH]; cbn; intros l' b H; [injection H as <- <-; auto|].
  destruct (vsender v <? vsender x); [injection H as <- <-; cbn; lia|]. destruct (vsender v =? vsender x); [injection H as <- <-; cbn; lia|].
  destruct (sinsert v l) as [r c] eqn:E. injection H as <- <-. cbn. rewrite (IH _ _ eq_refl). lia.
Qed.
Lemma sinsert_flag v : forall l l' b, ssorted l -> sinsert v l = (l', b) -> (b = false <-> exists w, In w l /\ vsender w = vsender v).
Proof.
  induction l as [|x l IH]; cbn; intros l' b S H.
  - injection H as <- <-. split; [discriminate|intros (w & [] & _)].
  - inversion S as [|? ? S' F]; subst. rewrite Forall_forall in F. destruct (N.ltb_spec (vsender v) (vsender x)) as [L|L].
    + injection H as <- <-. split; [discriminate|]. intros (w & [<-|Hw] & E); [lia|]. specialize (F w Hw). lia.
    + destruct (N.eqb_spec (vsender v) (vsender x)) as [E|E]; [injection H as <- <-; split; auto; intros _; exists x; auto|].
      destruct (sinsert v l) as [r c] eqn:Q. injection H as <- <-. rewrite (IH _ _ S' eq_refl). split; intros (w & Hw & Ew); exists w; auto. destruct Hw as [<-|Hw]; [lia|auto].
Qed.

Definition vIn (g : hash) (w : vote) (m : list (hash * list vote)) : Prop := exists ws, In (g, ws) m /\ In w ws.
Definition total (m : list (hash * list vote)) : nat := fold_right (fun p a => length (snd p) + a)%nat 0%nat m.
Definition mok (m : list (hash * list vote)) : Prop := NoDup (map fst m) /\ (forall h vs, In (h, vs) m -> ssorted vs).
Section M.
Context (before : hash -> hash -> bool).
Lemma minsert_in h vs : forall m p, In p (minsert before h vs m) <-> p = (h, vs) \/ In p m.
Proof. induction m as [|[g ws] m IH]; intros p; cbn; [intuition|]. destruct (before h g); cbn; [intuition|]. rewrite IH. intuition. Qed.
Lemma minsert_keys h vs : forall m, Permutation (map fst (minsert before h vs m)) (h :: map fst m).
Proof. induction m as [|[g ws] m IH]; cbn; auto. destruct (before h g); cbn; auto. eapply perm_trans; [apply perm_skip, IH|apply perm_swap]. Qed.
Lemma minsert_total h vs : forall m, total (minsert before h vs m) = (length vs + total m)%nat.
Proof. induction m as [|[g ws] m IH]; cbn; auto. destruct (before h g); cbn; auto. unfold total in *. rewrite IH. cbn. lia. Qed.
Lemma mupdate_none h v : forall m, mupdate h v m = None <-> ~ In h (map fst m).
Proof.
  induction m as [|[g ws] m IH]; cbn; [tauto|]. destruct (hashEqb h g) eqn:E.
  - destruct (sinsert v ws). apply hashEqb_ok in E. split; [discriminate|]. intros X. exfalso. auto.
  - apply hashEqb_no in E. destruct (mupdate h v m) as [[r b]|]; split; intros X; try discriminate; auto.
    + exfalso. apply X. right. destruct (in_dec (fun a b => match hashEqb a b as q return hashEqb a b = q -> {a = b} + {a <> b} with true => fun Z => left (proj1 (hashEqb_ok a b) Z) | false => fun Z => right (proj1 (hashEqb_no a b) Z) end eq_refl) h (map fst m)) as [Y|Y]; auto. apply IH in Y. discriminate.
    + intros [Y|Y]; [congruence|]. apply (proj1 IH); auto.
Qed.
Lemma mupdate_some h v : forall m m' b, mok m -> mupdate h v m = Some (m', b) ->
  exists a ws ws' c, m = a ++ (h, ws) :: c /\ m' = a ++ (h, ws') :: c /\ sinsert v ws = (ws', b).
Proof.
  induction m as [|[g ws] m IH]; cbn; intros m' b W H; [discriminate|]. destruct (hashEqb h g) eqn:E.
  - apply hashEqb_ok in E. subst g. destruct (sinsert v ws) as [ws' c] eqn:Q. injection H as <- <-. exists [], ws, ws', m. auto.
  - destruct (mupdate h v m) as [[r c]|] eqn:U; [|discriminate]. injection H as <- <-.
    destruct W as [W1 W2]. destruct (IH r c) as (a & ws1 & ws2 & cc & E1 & E2 & E3); auto; [split; [inversion W1; auto|intros; apply (W2 h0); right; auto]|].
    exists ((g, ws) :: a), ws1, ws2, cc. cbn. subst. auto.
Qed.
Lemma total_app a b : total (a ++ b) = (total a + total b)%nat.
Proof. unfold total. induction a as [|x a IH]; cbn; auto. rewrite IH. lia. Qed.
Lemma key_unique (a c : list (hash * list vote)) h ws : NoDup (map fst (a ++ (h, ws) :: c)) -> forall vs, In (h, vs) (a ++ (h, ws) :: c) -> vs = ws.
Proof.
  rewrite map_app. cbn. intros N vs Hv. apply NoDup_remove_2 in N. apply in_app_iff in Hv. cbn in Hv. destruct Hv as [Hv|[Hv|Hv]]; [|congruence|]; exfalso; apply N, in_app_iff;
    [left|right]; change h with (fst (h, vs)); apply in_map; auto.
Qed.
Lemma addVote_spec h v m m' b : mok m -> addVote before h v m = (m', b) ->
  mok m' /\ (forall g w, vIn g w m' <-> vIn g w m \/ (b = true /\ g = h /\ w = v)) /\ total m' = (total m + (if b then 1 else 0))%nat /\
  (b = false <-> exists w, vIn h w m /\ vsender w = vsender v).
Proof.
  intros W. unfold addVote. destruct (mupdate h v m) as [[r c]|] eqn:U.
  - intros H. injection H as -> ->. destruct (mupdate_some _ _ _ _ _ W U) as (a & ws & ws' & c & -> & -> & Q). destruct W as [W1 W2].
    assert (S0 : ssorted ws) by (apply (W2 h); apply in_app_iff; right; left; auto).
    assert (K : map fst (a ++ (h, ws') :: c) = map fst (a ++ (h, ws) :: c)) by (rewrite !map_app; auto).
    split; [split|split; [|split]].
    + rewrite K. auto.
    + intros g vs Hg. apply in_app_iff in Hg. cbn in Hg. destruct Hg as [Hg|[Hg|Hg]]; [apply (W2 g), in_app_iff; auto| |apply (W2 g), in_app_iff; cbn; auto].
      injection Hg as <- <-. eapply sinsert_sorted; eauto.
    + intros g w. unfold vIn. split.
      * intros (vs & Hv & Hw). apply in_app_iff in Hv. cbn in Hv. destruct Hv as [Hv|[Hv|Hv]]; [left; exists vs; rewrite in_app_iff; auto| |left; exists vs; rewrite in_app_iff; cbn; auto].
        injection Hv as <- <-. apply (sinsert_in _ _ _ _ Q) in Hw. destruct Hw as [Hw|[-> ->]]; auto. left. exists ws. rewrite in_app_iff. cbn. auto.
      * intros [(vs & Hv & Hw)|(-> & -> & ->)].
        -- apply in_app_iff in Hv. cbn in Hv. destruct Hv as [Hv|[Hv|Hv]]; [exists vs; rewrite in_app_iff; auto| |exists vs; rewrite in_app_iff; cbn; auto].
           injection Hv as <- <-. exists ws'. rewrite in_app_iff. cbn. split; auto. apply (sinsert_in _ _ _ _ Q). auto.
        -- exists ws'. rewrite in_app_iff. cbn. split; auto. apply (sinsert_in _ _ _ _ Q). auto.
    + rewrite !total_app. unfold total at 2 4. cbn. fold (total c). rewrite (sinsert_len _ _ _ _ Q). lia.
    + rewrite (sinsert_flag _ _ _ _ S0 Q). unfold vIn. split.
      * intros (w & Hw & E). exists w. split; auto. exists ws. rewrite in_app_iff. cbn. auto.
      * intros (w & (vs & Hv & Hw) & E). apply key_unique in Hv; auto. subst vs. exists w. auto.
  - intros H. injection H as <- <-. apply mupdate_none in U. destruct W as [W1 W2]. split; [split|split; [|split]].
    + eapply Permutation_NoDup; [symmetry; apply minsert_keys|]. constructor; auto.
    + intros g vs Hg. apply minsert_in in Hg. destruct Hg as [Hg|Hg]; [injection Hg as -> ->; repeat constructor|apply (W2 g); auto].
    + intros g w. unfold vIn. split.
      * intros (vs & Hv & Hw). apply minsert_in in Hv. destruct Hv as [Hv|Hv]; [injection Hv as -> ->; destruct Hw as [<-|[]]; auto|left; exists vs; auto].
      * intros [(vs & Hv & Hw)|(_ & -> & ->)]; [exists vs; rewrite minsert_in; auto|exists [v]; rewrite minsert_in; cbn; auto].
    + rewrite minsert_total. cbn. lia.
    + split; [discriminate|]. intros (w & (vs & Hv & Hw) & E). exfalso. apply U. change h with (fst (h, vs)). apply in_map. auto.
Qed.
End M.

(** * The largest set *)
Lemma pick_spec : forall m best, (match best with Some b => snd b <> [] | None => True end) ->
  (match pick m best with
   | Some p => (best = Some p \/ In p m) /\ snd p <> []
   | None => best = None /\ forall p, In p m -> snd p = [] end) /\
  (forall q, best = Some q \/ In q m -> (length (snd q) <= count (pick m best))%nat).
Proof.
  induction m as [|p m IH]; intros best B; cbn [pick].
  - split; [destruct best; auto; split; auto; intros ? []|]. intros q [->|[]]. cbn. lia.
  - set (b' := match best with Some b => if (length (snd b) <? length (snd p))%nat then Some p else best | None => if (0 <? length (snd p))%nat then Some p else None end).
    assert (B' : match b' with Some b => snd b <> [] | None => True end).
    { unfold b'. destruct best as [b|]; [destruct (Nat.ltb_spec (length (snd b)) (length (snd p))) as [L|L]|destruct (Nat.ltb_spec 0 (length (snd p))) as [L|L]]; auto;
      intros X; rewrite X in L; cbn in L; lia. }
    assert (Hb : forall q, best = Some q \/ q = p -> (length (snd q) <= count b')%nat).
    { intros q Hq. unfold b'. destruct best as [b|]; [destruct (Nat.ltb_spec (length (snd b)) (length (snd p)))|destruct (Nat.ltb_spec 0 (length (snd p)))]; cbn;
      destruct Hq as [Hq|Hq]; try discriminate; try (injection Hq as <-); subst; lia. }
    assert (Hm : (count b' <= count (pick m b'))%nat).
    { destruct b' as [b|] eqn:Eb; [|cbn; lia]. destruct (IH (Some b) B') as [_ I2]. apply I2. auto. }
    destruct (IH b' B') as [I1 I2]. split.
    + destruct (pick m b') as [r|]; [destruct I1 as [I1 I3]; split; auto|destruct I1 as [I1 I3]].
      * destruct I1 as [I1|I1]; [|right; right; auto]. unfold b' in I1. destruct best as [b|]; [destruct (length (snd b) <? length (snd p))%nat|destruct (0 <? length (snd p))%nat];
          try discriminate; try (injection I1 as <-); auto; right; left; auto.
      * unfold b' in I1. destruct best as [b|]; [destruct (length (snd b) <? length (snd p))%nat; discriminate|]. destruct (Nat.ltb_spec 0 (length (snd p))) as [L|L]; [discriminate|].
        split; auto. intros q [<-|Hq]; auto. destruct (snd p); auto. cbn in L. lia.
    + intros q [Hq|[Hq|Hq]].
      * specialize (Hb q (or_introl Hq)). lia.
      * specialize (Hb q (or_intror (eq_sym Hq))). lia.
      * apply I2. auto.
Qed.

(** * Runs *)
Section Run.
Context (before : hash -> hash -> bool) (sign : N -> hash -> bytes) (me client seq : N) (req : nat) (n : N).
Let define := define before sign me client seq req n.
Let step := step before sign me client seq req n.
Let run := run before sign me client seq req n.

Definition evVote (es : list event) (h : hash) (v : vote) : Prop :=
  (exists k r, In (EReply k r) es /\ rstatus r <> Reject /\ rhash r = h /\ v = mkV (filedUnder k r) (rsig r) (rres r)) \/
  (exists buf len res, In (EPrimary buf len res) es /\ h = createHash (firstn len buf) res client seq /\ v = mkV me (sign me h) res).
Definition prim (es : list event) (s : st) : Prop := busy s = true \/
  (exists buf len res, In (EPrimary buf len res) es /\ pres s = res /\ phash s = createHash (firstn len buf) res client seq /\
     pdata s = Some (if res =? SUCCESS then firstn len buf else setupData client seq buf res)).
Record Inv (es : list event) (s : st) : Prop := {
  i_ok : mok (votes s);
  i_recv : recv s = N.of_nat (total (votes s)) mod 65536;
  i_prov : forall h v, vIn h v (votes s) -> evVote es h v;
  i_prim : prim es s }.
Lemma evVote_mono es es' h v : incl es es' -> evVote es h v -> evVote es' h v.
Proof. intros I [(k & r & H & H')|(b & l & r & H & H')]; [left; exists k, r|right; exists b, l, r]; auto. Qed.
Lemma prim_mono es es' s : incl es es' -> prim es s -> prim es' s.
Proof. intros I [H|(b & l & r & H & H')]; [left; auto|right; exists b, l, r; auto]. Qed.
Lemma Inv_mono es es' s : incl es es' -> Inv es s -> Inv es' s.
Proof. intros I [A B C D]. constructor; auto; [intros; eapply evVote_mono; eauto|eapply prim_mono; eauto]. Qed.
Lemma inc_total (k : nat) (b : bool) : (if b then inc (N.of_nat k mod 65536) else N.of_nat k mod 65536) = N.of_nat (k + (if b then 1 else 0))%nat mod 65536.
Proof.
  destruct b; [|rewrite Nat.add_0_r; auto]. unfold inc. rewrite Nat2N.inj_add. cbn [N.of_nat Pos.of_succ_nat]. rewrite N.add_mod_idemp_l by lia. auto.
Qed.
Lemma handleReply_inv es k r s : Inv es s -> In (EReply k r) es -> Inv es (handleReply before k r s).
Proof.
  intros [A B C D] H. unfold handleReply. destruct (rstatus r) eqn:St; [| constructor; cbn; auto |];
  (destruct (addVote before (rhash r) (mkV (filedUnder k r) (rsig r) (rres r)) (votes s)) as [m b] eqn:E; apply addVote_spec in E; auto; destruct E as (E1 & E2 & E3 & _);
   constructor; cbn [recv votes busy pres phash pdata]; auto;
   [rewrite B, E3; apply inc_total
   |intros h v Hv; apply E2 in Hv; destruct Hv as [Hv|(-> & -> & ->)]; auto; left; exists k, r; rewrite St; repeat split; auto; discriminate]).
Qed.
Lemma primaryDone_inv es buf len res s s' : Inv es s -> In (EPrimary buf len res) es -> primaryDone before sign me client seq buf len res s = Some s' -> Inv es s' /\ busy s' = false.
Proof.
  intros [A B C D] H. unfold primaryDone. destruct (res =? UNKNOWN); [discriminate|].
  destruct (addVote before _ _ (votes s)) as [m b] eqn:E. apply addVote_spec in E; auto. destruct E as (E1 & E2 & E3 & _). intros X. injection X as <-. split; auto. constructor; cbn [recv votes busy pres phash pdata]; auto.
  - rewrite B, E3. apply inc_total.
  - intros h v Hv. apply E2 in Hv. destruct Hv as [Hv|(-> & -> & ->)]; auto. right. exists buf, len, res. auto.
  - right. exists buf, len, res. auto.
Qed.
Lemma define_continue s s' : define s = (s', Continue) -> votes s' = votes s /\ recv s' = recv s /\ busy s' = busy s /\ pres s' = pres s /\ phash s' = phash s /\ pdata s' = pdata s /\ rejected s' = rejected s.
Proof.
  unfold define, Pre_Model.define. destruct (recv s <? N.of_nat req); [intros H; injection H as <-; tauto|]. destruct (busy s) eqn:Bs; [intros H; injection H as <-; tauto|].
  destruct (pick (votes s) None) as [[h vs]|].
  - destruct (req <=? length vs)%nat.
    + cbn [phash pres pdata]. destruct (hashEqb h (phash s)); [discriminate|]. destruct (pres s =? SUCCESS); cbn [andb].
      * destruct (negb _); [discriminate|]. destruct (pdata s); [|discriminate]. destruct (_ <=? _)%nat; [discriminate|]. destruct (hashEqb _ _); discriminate.
      * cbn. destruct (recv s =? n); [discriminate|]. intros H. injection H as <-. cbn. tauto.
    + destruct (recv s =? n); [discriminate|]. intros H. injection H as <-. tauto.
  - destruct (recv s =? n); [discriminate|]. intros H. injection H as <-. tauto.
Qed.
Lemma Inv_same es s s' : Inv es s -> votes s' = votes s /\ recv s' = recv s /\ busy s' = busy s /\ pres s' = pres s /\ phash s' = phash s /\ pdata s' = pdata s /\ rejected s' = rejected s -> Inv es s'.
Proof. intros [A B C D] (E1 & E2 & E3 & E4 & E5 & E6 & _). constructor; unfold prim in *; rewrite ?E1, ?E2, ?E3, ?E4, ?E5, ?E6; auto. Qed.
(** Every verdict is the result of [define] on a state that satisfies the invariant. *)
Lemma run_inv : forall es dn s s' v, Inv dn s -> run es s = (s', v) ->
  (v = Continue /\ Inv (dn ++ es) s') \/ v = Abort \/ (exists s1, Inv (dn ++ es) s1 /\ define s1 = (s', v)).
Proof.
  induction es as [|e es IH]; intros dn s s' v I H.
  - cbn in H. injection H as <- <-. left. rewrite app_nil_r. auto.
  - unfold run in H. cbn [Pre_Model.run] in H. fold run in H.
    assert (M1 : incl dn (dn ++ e :: es)) by (apply incl_appl, incl_refl).
    assert (M2 : incl (dn ++ [e]) (dn ++ e :: es)) by (intros x Hx; apply in_app_iff in Hx; apply in_app_iff; cbn in *; tauto).
    assert (In e (dn ++ [e])) by (apply in_app_iff; cbn; auto).
    assert (I' : Inv (dn ++ [e]) s) by (eapply Inv_mono; [|exact I]; apply incl_appl, incl_refl).
    destruct (Pre_Model.step before sign me client seq req n e s) as [s2 w] eqn:St.
    assert (K : (w = Continue /\ Inv (dn ++ [e]) s2) \/ w = Abort \/ exists s1, Inv (dn ++ [e]) s1 /\ define s1 = (s2, w)).
    { destruct e as [|buf len res|k r]; cbn [Pre_Model.step] in St.
      - injection St as <- <-. left. split; auto. destruct I'. constructor; cbn; auto. left. auto.
      - destruct (primaryDone before sign me client seq buf len res s) as [s1|] eqn:P; [|injection St as <- <-; auto].
        destruct (primaryDone_inv _ _ _ _ _ _ I' H0 P) as [I1 _]. destruct w; [left|right; right; eauto|right; right; eauto|auto].
        split; auto. eapply Inv_same; [exact I1|]. apply define_continue. exact St.
      - pose proof (handleReply_inv _ k r s I' H0) as I1. destruct (rstatus r) eqn:R; [| injection St as <- <-; left; auto|];
          (destruct w; [left|right; right; eauto|right; right; eauto|auto]; split; auto; eapply Inv_same; [exact I1|]; apply define_continue; exact St). }
    destruct w.
    + destruct K as [[_ K]|[K|(s1 & K1 & K2)]]; [|discriminate|].
      * destruct (IH _ _ _ _ K H) as [[-> R]|[R|(s1 & R1 & R2)]]; rewrite <- ?app_assoc in *; cbn [app] in *; eauto.
      * assert (K : Inv (dn ++ [e]) s2) by (eapply Inv_same; [exact K1|]; apply define_continue; auto).
        destruct (IH _ _ _ _ K H) as [[-> R]|[R|(s3 & R1 & R2)]]; rewrite <- ?app_assoc in *; cbn [app] in *; eauto.
    + injection H as <- <-. destruct K as [[K _]|[K|(s1 & K1 & K2)]]; try discriminate. right. right. exists s1. split; auto. eapply Inv_mono; eauto.
    + injection H as <- <-. destruct K as [[K _]|[K|(s1 & K1 & K2)]]; try discriminate. right. right. exists s1. split; auto. eapply Inv_mono; eauto.
    + injection H as <- <-. auto.
Qed.
Lemma start_inv : Inv [EStart] (fst (step EStart st0)).
Proof. constructor; cbn; auto; [split; [constructor|intros ? ? []]|intros h v (ws & [] & _)|left; auto]. Qed.
Lemma run_start es s v : run (EStart :: es) st0 = (s, v) ->
  (v = Continue /\ Inv (EStart :: es) s) \/ v = Abort \/ (exists s1, Inv (EStart :: es) s1 /\ define s1 = (s, v)).
Proof. intros H. apply (run_inv es [EStart] _ _ _ start_inv). exact H. Qed.
Lemma pick_in m h vs : pick m None = Some (h, vs) -> In (h, vs) m /\ vs <> [] /\ forall q, In q m -> (length (snd q) <= length vs)%nat.
Proof.
  intros E. destruct (pick_spec m None Logic.I) as [P1 P2]. rewrite E in *. destruct P1 as [[P1|P1] P3]; [discriminate|]. repeat split; auto.
Qed.
Lemma pick_none m : pick m None = None -> total m = 0%nat.
Proof.
  intros E. destruct (pick_spec m None Logic.I) as [P1 _]. rewrite E in P1. destruct P1 as [_ P1]. clear E. induction m as [|p m IH]; cbn; auto. rewrite (P1 p) by (left; auto). cbn. apply IH. intros; apply P1; right; auto.
Qed.
End Run.

(** * Consequences *)
Section Cons.
Context (before : hash -> hash -> bool) (sign : N -> hash -> bytes) (me client seq : N) (req : nat) (n : N).
Let define := define before sign me client seq req n.
Let run := run before sign me client seq req n.
Let Inv := Inv sign me client seq.
Lemma evVote_reports es h v : evVote sign me client seq es h v -> reports me client seq es h (vsender v).
Proof. intros [(k & r & H1 & H2 & H3 & ->)|(b & l & r & H1 & H2 & ->)]; [left; exists k, r; auto|right; split; auto; exists b, l, r; auto]. Qed.
Lemma votes_list es s h vs : Inv es s -> In (h, vs) (votes s) -> NoDup (map vsender vs) /\ forall r, In r (map vsender vs) -> reports me client seq es h r.
Proof.
  intros I H. split; [apply ssorted_nodup, (proj2 (i_ok _ _ _ _ _ _ I) h); auto|]. intros r Hr. apply in_map_iff in Hr. destruct Hr as (v & <- & Hv). apply evVote_reports.
  apply (i_prov _ _ _ _ _ _ I). exists vs. auto.
Qed.
(** The three ways to complete. *)
Lemma define_complete s s' : define s = (s', Complete) -> exists h vs, pick (votes s) None = Some (h, vs) /\ (req <= length vs)%nat /\ busy s = false /\
  agreed s' = match vs with v :: _ => vres v | [] => UNKNOWN end /\ pres s' = pres s /\
  ((h = phash s /\ phash s' = h /\ pdata s' = pdata s /\ votes s' = votes s) \/
   (h <> phash s /\ pres s = SUCCESS /\ agreed s' <> SUCCESS /\ phash s' = phash s /\ pdata s' = None /\ votes s' = votes s) \/
   (exists d, h <> phash s /\ pres s = SUCCESS /\ agreed s' = SUCCESS /\ pdata s = Some d /\ (8 < length d)%nat /\ h = createHash (zeroed d) SUCCESS client seq /\ phash s' = h /\ pdata s' = Some (zeroed d) /\
      votes s' = fst (addVote before h (mkV me (sign me h) (pres s)) (votes s)))).
Proof.
  unfold define, Pre_Model.define. destruct (recv s <? N.of_nat req); [discriminate|]. destruct (busy s) eqn:Bs; [discriminate|].
  destruct (pick (votes s) None) as [[h vs]|]; [|destruct (recv s =? n); discriminate].
  destruct (Nat.leb_spec req (length vs)); [|destruct (recv s =? n); discriminate]. cbn [phash pres pdata votes].
  destruct (hashEqb h (phash s)) eqn:E.
  - apply hashEqb_ok in E. intros X. injection X as <-. exists h, vs. cbn. repeat split; auto.
  - apply hashEqb_no in E. destruct (N.eqb_spec (pres s) SUCCESS) as [P|P]; cbn [andb].
    + destruct (N.eqb_spec (match vs with [] => UNKNOWN | v :: _ => vres v end) SUCCESS) as [Q|Q]; cbn [negb].
      * destruct (pdata s) as [d|] eqn:D; [|discriminate]. destruct (Nat.leb_spec (length d) 8); [discriminate|]. destruct (hashEqb h _) eqn:Z; [|discriminate].
        apply hashEqb_ok in Z. intros X. injection X as <-. exists h, vs. cbn [agreed pres phash pdata votes]. repeat split; auto. right. right. exists d. rewrite <- Z. repeat split; auto.
      * intros X. injection X as <-. exists h, vs. cbn. repeat split; auto. right. left. repeat split; auto.
    + destruct (recv _ =? n); discriminate.
Qed.
Lemma nodup_all_senders m : mok m -> (forall h h' v v', vIn h v m -> vIn h' v' m -> vsender v = vsender v' -> h = h') ->
  exists l, NoDup l /\ length l = total m /\ forall r, In r l <-> exists h v, vIn h v m /\ vsender v = r.
Proof.
  induction m as [|[h vs] m IH]; intros [W1 W2] U.
  - exists []. split; [constructor|]. split; auto. intros r. split; [intros []|intros (h & v & (ws & [] & _) & _)].
  - cbn in W1. inversion W1 as [|? ? N1 N2]; subst. destruct IH as (l & L1 & L2 & L3).
    + split; auto. intros; apply (W2 h0); right; auto.
    + intros g g' v v' (ws & A & B) (ws' & A' & B'). apply U; [exists ws|exists ws']; cbn; auto.
    + exists (map vsender vs ++ l). split; [|split].
      * assert (S : NoDup (map vsender vs)) by (apply ssorted_nodup, (W2 h); left; auto). clear - S L1 L3 U N1.
        assert (D : forall x, In x (map vsender vs) -> ~ In x l).
        { intros x Hx Hl. apply L3 in Hl. destruct Hl as (g & v & (ws & A & B) & E). apply in_map_iff in Hx. destruct Hx as (w & E' & Hw).
          assert (h = g) by (apply (U h g w v); [exists vs; cbn; auto|exists ws; cbn; auto|congruence]). subst g. apply N1. change h with (fst (h, ws)). apply in_map; auto. }
        clear L3 U N1. induction (map vsender vs) as [|x xs IHx]; cbn; auto. inversion S; subst. constructor.
        -- intros X. apply in_app_iff in X. destruct X as [X|X]; auto. eapply D; [left; reflexivity|auto].
        -- apply IHx; auto. intros y Hy. apply D. right. auto.
      * rewrite app_length, map_length. cbn. unfold total in L2. lia.
      * intros r. rewrite in_app_iff, L3, in_map_iff. split.
        -- intros [(v & <- & Hv)|(g & v & (ws & A & B) & <-)]; [exists h, v; split; auto; exists vs; cbn; auto|exists g, v; split; auto; exists ws; cbn; auto].
        -- intros (g & v & (ws & A & B) & <-). destruct A as [A|A]; [injection A as <- <-; left; exists v; auto|right; exists g, v; split; auto; exists ws; auto].
Qed.
Lemma define_cancel s s' : (1 <= req)%nat -> define s = (s', Cancel) -> votes s' = votes s /\ phash s' = phash s /\
  ((exists h vs, In (h, vs) (votes s) /\ h <> phash s /\ (req <= length vs)%nat) \/ (recv s = n /\ forall h vs, In (h, vs) (votes s) -> (length vs < req)%nat)).
Proof.
  intros Rq. unfold define, Pre_Model.define. destruct (recv s <? N.of_nat req); [discriminate|]. destruct (busy s) eqn:Bs; [discriminate|].
  destruct (pick (votes s) None) as [[h vs]|] eqn:P.
  - apply pick_in in P. destruct P as (P1 & P2 & P3). destruct (Nat.leb_spec req (length vs)).
    + cbn [phash pres pdata votes recv]. destruct (hashEqb h (phash s)) eqn:E; [discriminate|]. apply hashEqb_no in E. intros X.
      assert (Z : votes s' = votes s /\ phash s' = phash s).
      { destruct ((pres s =? SUCCESS) && _); [discriminate|]. destruct (pres s =? SUCCESS); [destruct (pdata s); [|discriminate]; destruct (_ <=? _)%nat; [discriminate|]; destruct (hashEqb h _); [discriminate|]|destruct (recv s =? n); [|discriminate]];
          injection X as <-; auto. }
      destruct Z as [Z1 Z2]. split; auto. split; auto. left. exists h, vs. auto.
    + destruct (N.eqb_spec (recv s) n); [|discriminate]. intros X. injection X as <-. split; auto. split; auto. right. split; auto. intros g ws Hg. specialize (P3 _ Hg). cbn in P3. lia.
  - apply pick_none in P. destruct (N.eqb_spec (recv s) n); [|discriminate]. intros X. injection X as <-. split; auto. split; auto. right. split; auto.
    intros g ws Hg. assert (length ws <= total (votes s))%nat; [|lia]. clear - Hg. induction (votes s) as [|p m IH]; [destruct Hg|]. cbn. destruct Hg as [->|Hg]; cbn; [lia|]. specialize (IH Hg). unfold total in IH. lia.
Qed.
(** The verdict depends only on these fields. *)
Lemma define_ext s t : votes t = votes s -> recv t = recv s -> busy t = busy s -> pres t = pres s -> phash t = phash s -> pdata t = pdata s -> snd (define t) = snd (define s).
Proof.
  intros E1 E2 E3 E4 E5 E6. unfold define, Pre_Model.define. cbn [votes recv busy pres phash pdata rejected agreed]. rewrite E1, E2, E3, E4, E5, E6.
  destruct (recv s <? N.of_nat req); auto. destruct (busy s); auto. destruct (pick (votes s) None) as [[h vs]|]; auto. destruct (req <=? length vs)%nat; auto.
  destruct (hashEqb h (phash s)); auto. destruct ((pres s =? SUCCESS) && _); auto. destruct (pres s =? SUCCESS); auto. destruct (pdata s); auto. destruct (_ <=? _)%nat; auto. destruct (hashEqb h _); auto.
Qed.
Lemma run_waiting : forall es s s', busy s = true \/ snd (define s) = Continue -> run es s = (s', Continue) -> busy s' = true \/ snd (define s') = Continue.
Proof.
  induction es as [|e es IH]; intros s s' D H; [cbn in H; injection H as <-; auto|].
  unfold run in H. cbn [Pre_Model.run] in H. fold run in H. destruct (Pre_Model.step before sign me client seq req n e s) as [s2 w] eqn:St. destruct w; try discriminate.
  apply (IH s2 s'); auto. assert (Q : forall t, Pre_Model.define before sign me client seq req n t = (s2, Continue) -> snd (define s2) = Continue).
  { intros t Et. pose proof (define_continue _ _ _ _ _ _ _ _ _ Et) as (E1 & E2 & E3 & E4 & E5 & E6 & _). rewrite (define_ext t s2); auto. unfold define. rewrite Et. auto. }
  destruct e as [|buf len res|k r]; cbn [Pre_Model.step] in St.
  - injection St as <-. left. auto.
  - destruct (primaryDone _ _ _ _ _ _ _ _ s); [right; eapply Q; eauto|discriminate].
  - destruct (rstatus r) eqn:R; [right; eapply Q; eauto| |right; eapply Q; eauto]. injection St as <-. unfold handleReply. rewrite R. destruct D as [D|D]; [left; auto|right].
    rewrite <- D. apply define_ext; auto.
Qed.
(** All have reported and the primary is done: a verdict is reached. *)
Lemma define_decides s : (1 <= req)%nat -> (N.of_nat req <= n) -> busy s = false -> recv s = n -> snd (define s) <> Continue.
Proof.
  intros Rq Rn Bs Rc. unfold define, Pre_Model.define. rewrite Rc, Bs. destruct (N.ltb_spec n (N.of_nat req)); [lia|].
  destruct (pick (votes s) None) as [[h vs]|]; [|rewrite N.eqb_refl; discriminate]. cbn [recv votes phash pres pdata]. rewrite ?Rc. destruct (req <=? length vs)%nat; [|rewrite N.eqb_refl; discriminate].
  destruct (hashEqb h (phash s)); [discriminate|]. destruct ((pres s =? SUCCESS) && _); [discriminate|]. destruct (pres s =? SUCCESS); [|rewrite N.eqb_refl; discriminate].
  destruct (pdata s); [|discriminate]. destruct (_ <=? _)%nat; [discriminate|]. destruct (hashEqb h _); discriminate.
Qed.
End Cons.

(** * The signatures on the wire *)
Definition wireOk (v : vote) : Prop := vsender v < 2^16 /\ vres v < 2^32 /\ N.of_nat (length (vsig v)) < 2^32.
Lemma sinsert_end v : forall acc, ssorted (acc ++ [v]) -> fst (sinsert v acc) = acc ++ [v].
Proof.
  induction acc as [|x acc IH]; cbn; intros S; auto. inversion S as [|? ? S' F]; subst. rewrite Forall_forall in F. assert (vsender x < vsender v) by (apply F, in_app_iff; right; left; auto).
  destruct (N.ltb_spec (vsender v) (vsender x)); [lia|]. destruct (N.eqb_spec (vsender v) (vsender x)); [lia|]. specialize (IH S'). destruct (sinsert v acc). cbn in *. congruence.
Qed.
Lemma serOne_len v : length (serOne v) = (10 + length (vsig v))%nat.
Proof. unfold serOne. rewrite !app_length, !be_length. lia. Qed.
Lemma ssorted_app_inv a b : ssorted (a ++ b) -> ssorted a.
Proof. induction a as [|x a IH]; cbn; intros S; [constructor|]. inversion S as [|? ? S' F]; subst. constructor; [apply IH; auto|]. rewrite Forall_forall in *. intros y Hy. apply F, in_app_iff. auto. Qed.
Lemma deser_ser : forall vs fuel acc, vs <> [] -> (length vs <= fuel)%nat -> Forall wireOk vs -> ssorted (acc ++ vs) -> deser fuel (concat (map serOne vs)) acc = Some (acc ++ vs).
Proof.
  induction vs as [|v vs IH]; intros fuel acc Ne Fu W S; [tauto|]. destruct fuel as [|fuel]; [cbn in Fu; lia|]. inversion W as [|? ? Wv W']; subst. destruct Wv as (W1 & W2 & W3).
  cbn [map concat deser]. set (rest := concat (map serOne vs)).
  assert (E : serOne v ++ rest = be 2 (vsender v) ++ be 4 (vres v) ++ be 4 (N.of_nat (length (vsig v))) ++ vsig v ++ rest) by (unfold serOne; rewrite <- !app_assoc; auto).
  assert (E0 : slice (serOne v ++ rest) 0 2 = be 2 (vsender v)) by (rewrite E; apply slice_app_here, be_length).
  assert (E1 : slice (serOne v ++ rest) 2 4 = be 4 (vres v)).
  { rewrite E, slice_app_skip by (rewrite be_length; lia). rewrite be_length. apply slice_app_here, be_length. }
  assert (E2 : slice (serOne v ++ rest) 6 4 = be 4 (N.of_nat (length (vsig v)))).
  { rewrite E, slice_app_skip by (rewrite be_length; lia). rewrite be_length, slice_app_skip by (rewrite be_length; lia). rewrite be_length. apply slice_app_here, be_length. }
  assert (E3 : skipn 10 (serOne v ++ rest) = vsig v ++ rest).
  { replace (serOne v ++ rest) with ((be 2 (vsender v) ++ be 4 (vres v) ++ be 4 (N.of_nat (length (vsig v)))) ++ vsig v ++ rest) by (rewrite E, <- !app_assoc; auto). apply skipn_app_exact. rewrite !app_length, !be_length. auto. }
  rewrite E0, E1, E2, E3, !unbe_be by auto. rewrite Nat2N.id. rewrite (app_length (serOne v)), serOne_len. destruct (Nat.ltb_spec (10 + length (vsig v) + length rest) 10); [lia|].
  rewrite (app_length (vsig v)). destruct (Nat.ltb_spec (length (vsig v) + length rest) (length (vsig v))); [lia|]. rewrite firstn_app_exact, skipn_app_exact by auto.
  replace (acc ++ v :: vs) with ((acc ++ [v]) ++ vs) in * by (rewrite <- app_assoc; auto). replace (mkV (vsender v) (vsig v) (vres v)) with v by (destruct v; auto). rewrite sinsert_end by (eapply ssorted_app_inv; eauto).
  destruct vs as [|v' vs].
  - cbn in rest. subst rest. rewrite app_nil_r. auto.
  - assert (Rn : rest <> []). { intros X. apply (f_equal (@length N)) in X. unfold rest in X. cbn [map concat] in X. rewrite app_length, serOne_len in X. cbn in X. lia. }
    destruct rest as [|x rest'] eqn:Er; [tauto|]. rewrite <- Er. apply IH; auto; [discriminate|cbn in *; lia].
Qed.
Lemma ser_long : forall vs, (length vs <= length (concat (map serOne vs)))%nat.
Proof. induction vs as [|v vs IH]; cbn [length map concat]; auto. rewrite app_length, serOne_len. lia. Qed.
Lemma deserialize_ok vs : vs <> [] -> Forall wireOk vs -> ssorted vs -> deserialize (concat (map serOne vs)) = Some vs.
Proof. intros. unfold deserialize. rewrite deser_ser; auto. pose proof (ser_long vs). lia. Qed.
(** What is parsed is always a set of distinct senders. *)
Lemma deser_sorted : forall fuel b acc vs, ssorted acc -> deser fuel b acc = Some vs -> ssorted vs.
Proof.
  induction fuel as [|fuel IH]; intros b acc vs S; cbn [deser]; [discriminate|]. destruct (length b <? 10)%nat; [discriminate|]. destruct (length (skipn 10 b) <? _)%nat; [discriminate|].
  set (v := mkV _ _ _). destruct (sinsert v acc) as [acc' c] eqn:E. cbn [fst]. pose proof (sinsert_sorted _ _ _ _ S E). destruct (skipn _ (skipn 10 b)); [intros X; injection X as <-; auto|]. apply IH. auto.
Qed.
