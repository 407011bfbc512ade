(** Proofs about PrePrep_Model. *)
From Coq Require Import List Arith NArith ZArith Bool Lia.
From Verif Require Import Lib_Bytes PrePrep_Model.
Import ListNotations.
Local Open Scope N_scope.

Lemma rd_length mem o len : length (rd mem o len) = N.to_nat len.
Proof. unfold rd. rewrite map_length, seq_length. auto. Qed.
Lemma iterate_unfold mem fuel loc : iterate mem fuel loc =
  match getAndGoToNext mem loc with
  | Broken => None | Done => Some []
  | At here after => match fuel with O => None | S fuel => match iterate mem fuel after with Some l => Some (here :: l) | None => None end end
  end.
Proof. destruct fuel; reflexivity. Qed.
Lemma iterate_end mem fuel : iterate mem fuel (ppEnd mem) = Some [].
Proof. rewrite iterate_unfold. unfold getAndGoToNext. rewrite N.ltb_irrefl, N.eqb_refl. auto. Qed.
Lemma iterate_step mem fuel loc : loc < ppEnd mem -> (loc + reqSize mem loc) mod M32 <= ppEnd mem ->
  iterate mem (S fuel) loc = match iterate mem fuel ((loc + reqSize mem loc) mod M32) with Some l => Some (loc :: l) | None => None end.
Proof.
  intros A B. rewrite iterate_unfold. unfold getAndGoToNext. replace (ppEnd mem <? loc) with false by (symmetry; apply N.ltb_ge; lia).
  replace (loc =? ppEnd mem) with false by (symmetry; apply N.eqb_neq; lia). replace (ppEnd mem <? _) with false by (symmetry; apply N.ltb_ge; lia). auto.
Qed.
Lemma walk_iterate mem : forall n i, i < ppEnd mem -> walk mem (S n) i = true ->
  exists l, iterate mem (S n) i = Some (i :: l) /\ length l = n /\ Forall (fun j => j < ppEnd mem) (i :: l).
Proof.
  induction n as [|n IH]; intros i Hi W.
  - cbn [walk] in W. apply N.eqb_eq in W. exists []. rewrite iterate_step by lia. rewrite W, iterate_end. auto.
  - change (walk mem (S (S n)) i) with (let i' := (i + reqSize mem i) mod M32 in if ppEnd mem <=? i' then false else walk mem (S n) i') in W. cbv zeta in W.
    destruct (N.leb_spec (ppEnd mem) ((i + reqSize mem i) mod M32)) as [|L]; [discriminate|]. destruct (IH _ L W) as (l & E & Ln & F).
    exists ((i + reqSize mem i) mod M32 :: l). rewrite iterate_step by lia. rewrite E. repeat split; auto. cbn [length]. auto.
Qed.
Lemma check_requests mem : ppNum mem <> 0 -> checkRequests mem = true ->
  exists l, requests mem = Some (payloadShift mem :: l) /\ length (payloadShift mem :: l) = N.to_nat (ppNum mem) /\ Forall (fun j => j < ppEnd mem) (payloadShift mem :: l).
Proof.
  intros Nz C. unfold checkRequests in C. destruct (N.eqb_spec (ppNum mem) 0); [congruence|]. destruct (N.leb_spec (ppEnd mem) (payloadShift mem)); [discriminate|].
  unfold requests. destruct (N.to_nat (ppNum mem)) as [|k] eqn:E; [lia|]. destruct (walk_iterate _ _ _ H C) as (l & A & B & F). exists l. cbn [length]. auto.
Qed.
(** What iteration returns when nothing is too large for 32 bits. *)
Lemma iterate_tiles mem : forall fuel loc l, iterate mem fuel loc = Some l -> (forall i, In i l -> i + exactSize mem i < M32) -> tiles mem loc l (ppEnd mem).
Proof.
  induction fuel as [|fuel IH]; intros loc l E NW; rewrite iterate_unfold in E; unfold getAndGoToNext in E; destruct (N.ltb_spec (ppEnd mem) loc); try discriminate;
    (destruct (N.eqb_spec loc (ppEnd mem)); [injection E as <-; cbn; auto|]); destruct (N.ltb_spec (ppEnd mem) ((loc + reqSize mem loc) mod M32)); try discriminate.
  destruct (iterate mem fuel ((loc + reqSize mem loc) mod M32)) as [l'|] eqn:E'; [|discriminate]. injection E as <-.
  assert (B : loc + exactSize mem loc < M32) by (apply NW; left; auto).
  assert (R : (loc + reqSize mem loc) mod M32 = loc + exactSize mem loc) by (unfold reqSize; rewrite (N.mod_small (exactSize mem loc)) by lia; apply N.mod_small; auto).
  cbn [tiles]. split; auto. rewrite R in E'. apply (IH _ _ E'). intros; apply NW; right; auto.
Qed.
Lemma tiles_In mem : forall l from to, tiles mem from l to -> from <= to /\ forall i, In i l -> from <= i /\ i + exactSize mem i <= to.
Proof.
  induction l as [|a l IH]; intros from to T; cbn [tiles] in T; [subst; split; [lia|intros i []]|].
  destruct T as [-> T]. destruct (IH _ _ T) as [L F]. split; [lia|]. intros i [<-|Hi]; [lia|]. specialize (F i Hi). lia.
Qed.
Lemma iterate_all mem : forall l from to, tiles mem from l to -> to = ppEnd mem -> to < M32 -> iterate mem (length l) from = Some l.
Proof.
  induction l as [|i l IH]; intros from to T E L; cbn [tiles] in T.
  - subst. cbn [length]. apply iterate_end.
  - destruct T as [-> T]. cbn [length]. pose proof (tiles_In _ _ _ _ T) as [Le _]. assert (Z : 52 <= exactSize mem from) by (unfold exactSize; lia).
    assert (R : (from + reqSize mem from) mod M32 = from + exactSize mem from) by (unfold reqSize; rewrite (N.mod_small (exactSize mem from)) by lia; apply N.mod_small; lia).
    rewrite iterate_step by (rewrite ?R; lia). rewrite R, (IH _ _ T E L). auto.
Qed.
Lemma walk_all mem : forall l from to, tiles mem from l to -> to = ppEnd mem -> to < M32 -> l <> [] -> walk mem (length l) from = true.
Proof.
  induction l as [|i l IH]; intros from to T E L Ne; [congruence|]. cbn [tiles] in T. destruct T as [-> T]. pose proof (tiles_In _ _ _ _ T) as [Le _].
  assert (R : (from + reqSize mem from) mod M32 = from + exactSize mem from) by (unfold reqSize; rewrite (N.mod_small (exactSize mem from)) by lia; apply N.mod_small; lia).
  destruct l as [|j l].
  - cbn [tiles] in T. cbn [length walk]. rewrite R. apply N.eqb_eq. congruence.
  - cbn [length]. change (walk mem (S (S (length l))) from) with (let i' := (from + reqSize mem from) mod M32 in if ppEnd mem <=? i' then false else walk mem (S (length l)) i').
    cbv zeta. rewrite R. destruct (N.leb_spec (ppEnd mem) (from + exactSize mem from)) as [B|B].
    + cbn [tiles] in T. destruct T as [-> T]. pose proof (tiles_In _ _ _ _ T) as [Le' _]. unfold exactSize at 2 in Le'. lia.
    + apply (IH _ _ T); auto. discriminate.
Qed.
Lemma tiles_unique mem mem' : forall l l' from to, tiles mem from l to -> tiles mem' from l' to -> (forall i, In i l -> exactSize mem i = exactSize mem' i) -> l = l'.
Proof.
  induction l as [|i l IH]; intros l' from to T T' F; cbn [tiles] in T.
  - subst. destruct l' as [|j l']; auto. cbn [tiles] in T'. destruct T' as [-> T']. apply tiles_In in T'. unfold exactSize in T'. lia.
  - destruct T as [-> T]. destruct l' as [|j l']; cbn [tiles] in T'.
    + apply tiles_In in T. unfold exactSize in T. lia.
    + destruct T' as [-> T']. rewrite <- F in T' by (left; auto). f_equal. apply (IH _ _ _ T T'). intros; apply F; right; auto.
Qed.

Lemma bytesEqb_eq a : forall b, bytesEqb a b = true <-> a = b.
Proof. induction a; destruct b; cbn; try (split; congruence). rewrite andb_true_iff, N.eqb_eq, IHa. split; [intros [-> ->]; auto|intros E; injection E; auto]. Qed.

(** * Decimal text *)
Lemma dec_length : forall f n, (length (dec f n) <= f)%nat.
Proof. induction f as [|f IH]; intros n; cbn [dec]; auto. rewrite app_length. cbn [length]. destruct (n <? 10); cbn [length]; [lia|]. specialize (IH (n / 10)). lia. Qed.
Fixpoint value (acc : N) (l : bytes) : N := match l with [] => acc | d :: l => value (10 * acc + (d - 48)) l end.
Lemma value_app : forall l acc r, value acc (l ++ r) = value (value acc l) r.
Proof. induction l; cbn; auto. Qed.
Lemma dec_value : forall f n, n < 10 ^ N.of_nat f -> value 0 (dec f n) = n.
Proof.
  induction f as [|f IH]; intros n L; [cbn in *; lia|]. cbn [dec]. rewrite value_app. cbn [value]. rewrite Nat2N.inj_succ, N.pow_succ_r' in L.
  assert (D := N.div_mod n 10 ltac:(lia)). assert (M := N.mod_upper_bound n 10 ltac:(lia)). destruct (N.ltb_spec n 10).
  - cbn [value]. rewrite N.mod_small by auto. lia.
  - rewrite IH by (apply N.div_lt_upper_bound; [discriminate|exact L]). rewrite (N.add_comm 48), N.add_sub. symmetry. exact D.
Qed.
Lemma dec_digits : forall f n d, In d (dec f n) -> 48 <= d <= 57.
Proof.
  induction f as [|f IH]; intros n d D; cbn [dec In] in D; [tauto|]. apply in_app_or in D. destruct D as [D|[<-|[]]].
  - destruct (n <? 10); [destruct D|]. eauto.
  - assert (M := N.mod_upper_bound n 10 ltac:(lia)). revert M. generalize (n mod 10). intros; lia.
Qed.
Lemma dec_nonempty f n : (0 < f)%nat -> (0 < length (dec f n))%nat.
Proof. destruct f; [lia|]. cbn [dec]. rewrite app_length. cbn [length]. lia. Qed.
Lemma timeText_length t : (0 < length (timeText t) <= 20)%nat.
Proof.
  unfold timeText. destruct (t <? 2 ^ 63).
  - pose proof (dec_length 19 t). pose proof (dec_nonempty 19 t ltac:(lia)). lia.
  - cbn [length]. pose proof (dec_length 19 (2 ^ 64 - t)). lia.
Qed.
Lemma text_inj (g : N -> bytes) (p q : N) : p + p = q -> (forall n, n <= p -> value 0 (g n) = n) -> (forall n d, In d (g n) -> 48 <= d <= 57) ->
  forall t t', t < q -> t' < q -> (if t <? p then g t else 45 :: g (q - t)) = (if t' <? p then g t' else 45 :: g (q - t')) -> t = t'.
Proof.
  intros Q V D t t' L L' E. destruct (N.ltb_spec t p), (N.ltb_spec t' p).
  - rewrite <- (V t), <- (V t'), E by lia. auto.
  - exfalso. assert (A : In 45 (g t)) by (rewrite E; left; auto). apply D in A. lia.
  - exfalso. assert (A : In 45 (g t')) by (rewrite <- E; left; auto). apply D in A. lia.
  - injection E as E. assert (A : q - t = q - t'); [|lia]. rewrite <- (V (q - t)), <- (V (q - t')), E by lia. auto.
Qed.
Lemma timeText_inj t t' : t < 2 ^ 64 -> t' < 2 ^ 64 -> timeText t = timeText t' -> t = t'.
Proof.
  intros L L' E. apply (text_inj (dec 19) (2 ^ 63) (2 ^ 64)); auto.
  - intros n Hn. apply dec_value. apply N.le_lt_trans with (1 := Hn). reflexivity.
  - apply dec_digits.
Qed.
(** Pieces of one length, and a text shorter than a piece: the concatenation determines all of them. *)
Lemma concat_fixed_inj (w : nat) : forall (l l' : list bytes) (t t' : bytes), (0 < w)%nat -> Forall (fun x => length x = w) l -> Forall (fun x => length x = w) l' ->
  (length t < w)%nat -> (length t' < w)%nat -> concat l ++ t = concat l' ++ t' -> l = l' /\ t = t'.
Proof.
  induction l as [|x l IH]; intros l' t t' W F F' T T' E.
  - destruct l' as [|y l']; auto. inversion F'; subst. cbn [concat app] in E. apply (f_equal (@length _)) in E. rewrite !app_length in E. lia.
  - inversion F as [|? ? Fx Fl]. destruct l' as [|y l'].
    + cbn [concat app] in E. apply (f_equal (@length _)) in E. rewrite !app_length in E. lia.
    + inversion F' as [|? ? Fy Fl']. cbn [concat] in E. rewrite <- !app_assoc in E.
      assert (Exy : x = y) by (rewrite <- (firstn_app_exact x (concat l ++ t) w), E, firstn_app_exact; auto).
      rewrite Exy in E. apply app_inv_head in E. destruct (IH _ _ _ W Fl Fl' T T' E) as [El Et]. rewrite Exy, El, Et. auto.
Qed.

(** * Memory holding known bytes *)
Definition agree (L p : N) (mem mem' : memory) : Prop := forall i, i < L -> mem (p + i) = mem' i.
Lemma rd_shift L p mem mem' o len : agree L p mem mem' -> o + len <= L -> rd mem (p + o) len = rd mem' o len.
Proof.
  intros A B. unfold rd. apply map_ext_in. intros k Hk. apply in_seq in Hk. rewrite <- N.add_assoc. apply A. lia.
Qed.
Lemma u_shift L p mem mem' o k : agree L p mem mem' -> o + N.of_nat k <= L -> u k mem (p + o) = u k mem' o.
Proof. intros A B. unfold u. f_equal. apply map_ext_in. intros j Hj. apply in_seq in Hj. rewrite <- N.add_assoc. apply A. lia. Qed.
Lemma exactSize_shift L p mem mem' : agree L p mem mem' -> 52 <= L -> exactSize mem p = exactSize mem' 0.
Proof.
  intros A B. unfold exactSize, rqSpan, rqLen, rqCidLen, rqSigLen, rqExtra. rewrite !N.add_0_l.
  rewrite (u_shift L p mem mem' 2), (u_shift L p mem mem' 28), (u_shift L p mem mem' 40), (u_shift L p mem mem' 44), (u_shift L p mem mem' 46) by (auto; lia). auto.
Qed.
Lemma fields_shift L p mem mem' : agree L p mem mem' -> 52 <= L ->
  rqSpan mem p = rqSpan mem' 0 /\ rqClient mem p = rqClient mem' 0 /\ rqFlags mem p = rqFlags mem' 0 /\ rqLen mem p = rqLen mem' 0 /\ rqCidLen mem p = rqCidLen mem' 0 /\
  rqSigLen mem p = rqSigLen mem' 0 /\ rqExtra mem p = rqExtra mem' 0.
Proof.
  intros A B. unfold rqSpan, rqClient, rqFlags, rqLen, rqCidLen, rqSigLen, rqExtra. rewrite !N.add_0_l.
  repeat split; (apply (u_shift L p mem mem'); [auto|lia]).
Qed.
Lemma agree_app pre r post rest rest' : agree (N.of_nat (length r)) (N.of_nat (length pre)) (memOf (pre ++ r ++ post) rest) (memOf r rest').
Proof.
  intros i Hi. unfold memOf. rewrite app_nth2 by lia. replace (N.to_nat (N.of_nat (length pre) + i) - length pre)%nat with (N.to_nat i) by lia.
  rewrite app_nth1 by lia. apply nth_indep. lia.
Qed.
Lemma rd_all r rest : rd (memOf r rest) 0 (N.of_nat (length r)) = r.
Proof.
  unfold rd, memOf. rewrite Nat2N.id. transitivity (map (fun k => nth k r 0) (seq 0 (length r))).
  - apply map_ext_in. intros k Hk. apply in_seq in Hk. rewrite N.add_0_l, Nat2N.id. apply nth_indep. lia.
  - clear rest. assert (G : forall (l : bytes) s, map (fun k => nth (k - s) l 0) (seq s (length l)) = l).
    + induction l as [|x l IH]; intros s; auto. cbn [length seq map]. rewrite Nat.sub_diag. cbn [nth]. f_equal.
      transitivity (map (fun k => nth (k - S s) l 0) (seq (S s) (length l))); [|apply IH]. apply map_ext_in. intros k Hk. apply in_seq in Hk.
      replace (k - s)%nat with (S (k - S s)) by lia. auto.
    + transitivity (map (fun k => nth (k - 0) r 0) (seq 0 (length r))); [|apply G]. apply map_ext. intros; rewrite Nat.sub_0_r; auto.
Qed.
Lemma rd_app pre r post rest : rd (memOf (pre ++ r ++ post) rest) (N.of_nat (length pre)) (N.of_nat (length r)) = r.
Proof.
  rewrite <- (N.add_0_r (N.of_nat (length pre))). rewrite (rd_shift _ _ _ (memOf r rest) 0 _ (agree_app pre r post rest rest)) by lia. apply rd_all.
Qed.
Lemma u_rd k mem o : u k mem o = unle (rd mem o (N.of_nat k)).
Proof. unfold u, rd. rewrite Nat2N.id. auto. Qed.
Lemma u_field m pre k x post rest o : m = pre ++ le k x ++ post -> N.of_nat (length pre) = o -> x < 256 ^ N.of_nat k -> u k (memOf m rest) o = x.
Proof.
  intros -> <- L. rewrite u_rd. replace (N.of_nat k) with (N.of_nat (length (le k x))) by (rewrite le_length; auto). rewrite rd_app. apply unle_le; auto.
Qed.
Lemma u_bound k mem o : bytesIn mem -> u k mem o < 256 ^ N.of_nat k.
Proof.
  intros B. rewrite u_rd. replace k with (length (rd mem o (N.of_nat k))) at 2 by (rewrite rd_length; lia). apply unle_bound. apply Forall_forall. intros x X.
  unfold rd in X. apply in_map_iff in X. destruct X as (j & <- & _). apply B.
Qed.

(** * The message of a primary *)
Lemma wf_size r : wellFormed r -> 52 <= N.of_nat (length r).
Proof. intros [_ E]. rewrite E. unfold exactSize. lia. Qed.
Lemma concat_In (r : bytes) : forall l, In r l -> (length r <= length (concat l))%nat.
Proof. induction l as [|a l IH]; intros []; cbn [concat]; rewrite app_length; [subst; lia|specialize (IH H); lia]. Qed.
Lemma built_length c span cid view seqn path t rs : (forall x, length (H c x) = 32%nat) ->
  N.of_nat (length (build c span cid view seqn path t rs)) = 86 + N.of_nat (length cid) + N.of_nat (length span) + N.of_nat (length (concat rs)).
Proof. intros HL. unfold build, ppHeader. rewrite !app_length, !le_length, HL. lia. Qed.
Section Build.
Context (c : config) (span cid : bytes) (view seqn path t : N) (rs : list bytes) (rest : memory).
Hypothesis HL : forall x, length (H c x) = 32%nat.
Hypothesis Hspan : N.of_nat (length span) < M32.
Hypothesis Hview : view < 2 ^ 64.
Hypothesis Hseq : seqn < 2 ^ 64.
Hypothesis Hep : epoch c < 2 ^ 64.
Hypothesis Hpath : path <= 2.
Hypothesis Ht : t < 2 ^ 64.
Hypothesis Hrs : Forall wellFormed rs.
Hypothesis Hnum : N.of_nat (length rs) < 65536.
Let m := build c span cid view seqn path t rs.
Hypothesis Hsize : N.of_nat (length m) < M32.
Let mem := memOf m rest.
Let dig := H c (concat (map (fun r => sigOrDigest c (memOf r (fun _ => 0)) 0) rs) ++ timeText t).

Lemma build_length : N.of_nat (length m) = 86 + N.of_nat (length cid) + N.of_nat (length span) + N.of_nat (length (concat rs)).
Proof. apply built_length. exact HL. Qed.
Ltac field pre k x := 
  unfold mem; eapply (u_field m pre k x); [unfold m, build, ppHeader; rewrite <- ?app_assoc; reflexivity|rewrite ?app_length, ?le_length, ?HL; reflexivity|].
Let fin := 86 + N.of_nat (length cid) + N.of_nat (length span) + N.of_nat (length (concat rs)).
Let h0 := le 2 100.
Let h1 := h0 ++ le 4 (N.of_nat (length span)).
Let h2 := h1 ++ le 8 view.
Let h3 := h2 ++ le 8 seqn.
Let h4 := h3 ++ le 8 (epoch c).
Let h5 := h4 ++ le 2 (4 * path + 2 + 1).
Let h6 := h5 ++ le 8 (N.of_nat (length cid)).
Let h7 := h6 ++ le 8 t.
Let h8 := h7 ++ dig.
Let h9 := h8 ++ le 2 (N.of_nat (length rs)).
Ltac fld pre k x := unfold mem; eapply (u_field m pre k x); [subst h9 h8 h7 h6 h5 h4 h3 h2 h1 h0; unfold m, build, ppHeader; rewrite <- ?app_assoc; reflexivity|
  subst h9 h8 h7 h6 h5 h4 h3 h2 h1 h0 dig; rewrite ?app_length, ?le_length, ?HL; reflexivity|].
Lemma b_span : ppSpan mem = N.of_nat (length span). Proof. fld h0 4%nat (N.of_nat (length span)). exact Hspan. Qed.
Lemma b_view : ppView mem = view. Proof. fld h1 8%nat view. exact Hview. Qed.
Lemma b_seq : ppSeq mem = seqn. Proof. fld h2 8%nat seqn. exact Hseq. Qed.
Lemma b_epoch : ppEpoch mem = epoch c. Proof. fld h3 8%nat (epoch c). exact Hep. Qed.
Lemma b_flags : ppFlags mem = 4 * path + 2 + 1. Proof. fld h4 2%nat (4 * path + 2 + 1). change (256 ^ N.of_nat 2) with 65536. lia. Qed.
Lemma b_cid : ppCidLen mem = N.of_nat (length cid). Proof. fld h5 8%nat (N.of_nat (length cid)). change (256 ^ N.of_nat 8) with 18446744073709551616. pose proof build_length as B. unfold M32 in *. lia. Qed.
Lemma b_time : ppTime mem = t. Proof. fld h6 8%nat t. exact Ht. Qed.
Lemma b_digest : ppDigest mem = dig.
Proof.
  unfold ppDigest, mem. replace m with (h7 ++ dig ++ le 2 (N.of_nat (length rs)) ++ le 4 fin ++ span ++ cid ++ concat rs)
    by (subst h9 h8 h7 h6 h5 h4 h3 h2 h1 h0; unfold m, build, ppHeader; rewrite <- ?app_assoc; reflexivity).
  replace 48 with (N.of_nat (length h7)) by (subst h9 h8 h7 h6 h5 h4 h3 h2 h1 h0; rewrite ?app_length, ?le_length; reflexivity).
  replace 32 with (N.of_nat (length dig)) by (subst dig; rewrite HL; reflexivity). apply rd_app.
Qed.
Lemma b_num : ppNum mem = N.of_nat (length rs). Proof. fld h8 2%nat (N.of_nat (length rs)). exact Hnum. Qed.
Lemma b_end : ppEnd mem = fin. Proof. fld h9 4%nat fin. unfold fin. rewrite <- build_length. exact Hsize. Qed.
Lemma b_shift : payloadShift mem = 86 + N.of_nat (length cid) + N.of_nat (length span).
Proof. unfold payloadShift. rewrite b_cid, b_span. apply N.mod_small. pose proof build_length as B. lia. Qed.

(** Where the requests lie. *)
Fixpoint places (p : N) (l : list bytes) : list N := match l with [] => [] | r :: l => p :: places (p + N.of_nat (length r)) l end.
Lemma places_length : forall l p, length (places p l) = length l.
Proof. induction l; intros; cbn [places length]; auto. Qed.
Definition here (i : N) (r : bytes) : Prop := agree (N.of_nat (length r)) i mem (memOf r (fun _ => 0)).
Lemma places_here : forall l pre, m = pre ++ concat l -> Forall2 here (places (N.of_nat (length pre)) l) l.
Proof.
  induction l as [|r l IH]; intros pre E; cbn [places]; constructor.
  - red. unfold mem. rewrite E. cbn [concat]. apply agree_app.
  - replace (N.of_nat (length pre) + N.of_nat (length r)) with (N.of_nat (length (pre ++ r))) by (rewrite app_length; lia).
    apply IH. rewrite <- app_assoc. auto.
Qed.
Lemma here_size i r : here i r -> wellFormed r -> exactSize mem i = N.of_nat (length r).
Proof. intros A W. rewrite (exactSize_shift _ _ _ _ A (wf_size _ W)). symmetry. apply W. Qed.
Lemma places_tiles : forall l p, Forall2 here (places p l) l -> Forall wellFormed l -> tiles mem p (places p l) (p + N.of_nat (length (concat l))).
Proof.
  induction l as [|r l IH]; intros p F W; cbn [places tiles concat length]; [lia|]. inversion F; subst. inversion W; subst. split; auto.
  rewrite (here_size _ _ H2) by auto. rewrite app_length, Nat2N.inj_add, N.add_assoc. apply IH; auto.
Qed.
Definition start := 86 + N.of_nat (length cid) + N.of_nat (length span).
Lemma b_here : Forall2 here (places start rs) rs.
Proof.
  pose (pre := ppHeader (N.of_nat (length span)) view seqn (epoch c) path (N.of_nat (length cid)) t dig (N.of_nat (length rs)) fin ++ span ++ cid).
  replace start with (N.of_nat (length pre)); [apply places_here; subst pre; unfold m, build; rewrite <- !app_assoc; reflexivity|].
  subst pre. unfold start, ppHeader. rewrite !app_length, !le_length. unfold dig. rewrite HL. lia.
Qed.
Lemma b_tiles : tiles mem start (places start rs) (ppEnd mem).
Proof. rewrite b_end. unfold fin, start. apply places_tiles; [apply b_here|auto]. Qed.
Lemma b_requests : requests mem = Some (places start rs).
Proof.
  unfold requests. rewrite b_num, Nat2N.id, b_shift. rewrite <- (places_length rs start). apply iterate_all with (to := ppEnd mem); [apply b_tiles|auto|].
  rewrite b_end. unfold fin. rewrite <- build_length. auto.
Qed.
Lemma b_check : rs <> [] -> checkRequests mem = true.
Proof.
  intros Ne. unfold checkRequests. rewrite b_num, b_shift. destruct (N.eqb_spec (N.of_nat (length rs)) 0); [destruct rs; [congruence|cbn [length] in *; lia]|].
  assert (P : places start rs <> []) by (destruct rs; [congruence|cbn [places]; discriminate]). fold start.
  replace (ppEnd mem <=? start) with false.
  - rewrite Nat2N.id, <- (places_length rs start). apply walk_all with (to := ppEnd mem); auto; [apply b_tiles|rewrite b_end; unfold fin; rewrite <- build_length; auto].
  - symmetry. apply N.leb_gt. pose proof b_tiles as T. destruct (places start rs) as [|i l]; [congruence|]. cbn [tiles] in T. destruct T as [-> T]. apply tiles_In in T. unfold exactSize in T. lia.
Qed.
Lemma here_rd i r : here i r -> rd mem i (N.of_nat (length r)) = r.
Proof. intros A. rewrite <- (N.add_0_r i). rewrite (rd_shift _ _ _ _ 0 _ A) by lia. apply rd_all. Qed.
Lemma texts_here : forall l l', Forall2 here l l' -> Forall wellFormed l' -> texts mem l = l'.
Proof.
  unfold texts. induction 1 as [|i r l l' A F IH]; intros W; cbn [map]; auto. inversion W; subst.
  rewrite (here_size _ _ A) by auto. rewrite here_rd by auto. f_equal; auto.
Qed.
Lemma b_texts : texts mem (places start rs) = rs.
Proof. apply texts_here; [apply b_here|auto]. Qed.
Lemma here_sod i r : here i r -> wellFormed r -> N.of_nat (length r) < M32 -> sigOrDigest c mem i = sigOrDigest c (memOf r (fun _ => 0)) 0.
Proof.
  intros A W L. destruct (fields_shift _ _ _ _ A (wf_size _ W)) as (Fs & _ & _ & Fl & Fc & Fg & Fe). destruct W as [Wb We]. unfold sigOrDigest, rqSig, reqSize.
  rewrite (exactSize_shift _ _ _ _ A (wf_size _ (conj Wb We))). rewrite Fg, Fs, Fl, Fc. rewrite <- We. rewrite N.mod_small by auto.
  rewrite here_rd by auto. rewrite rd_all. destruct (N.eqb_spec (rqSigLen (memOf r (fun _ => 0)) 0) 0); auto.
  rewrite N.add_0_l, <- !N.add_assoc. apply rd_shift with (1 := A). rewrite We. unfold exactSize. lia.
Qed.
Lemma sod_here : forall l l', Forall2 here l l' -> Forall wellFormed l' -> Forall (fun r => N.of_nat (length r) < M32) l' ->
  map (sigOrDigest c mem) l = map (fun r => sigOrDigest c (memOf r (fun _ => 0)) 0) l'.
Proof.
  induction 1 as [|i r l l' A F IH]; intros W L; cbn [map]; auto. inversion W; subst. inversion L; subst. rewrite (here_sod i r) by auto. f_equal; auto.
Qed.
Lemma b_digestInput : digestInput c mem (places start rs) = concat (map (fun r => sigOrDigest c (memOf r (fun _ => 0)) 0) rs) ++ timeText t.
Proof.
  unfold digestInput. rewrite b_time. f_equal. f_equal. apply sod_here; [apply b_here|auto|].
  apply Forall_forall; intros r Hr; pose proof (concat_In r rs Hr); pose proof build_length as B; lia.
Qed.
(** The checks of one request look at its bytes only. *)
Lemma here_validate i r : here i r -> wellFormed r -> validateRequest c mem i = validateRequest c (memOf r (fun _ => 0)) 0.
Proof.
  intros A W. destruct (fields_shift _ _ _ _ A (wf_size _ W)) as (Fs & Fi & Ff & Fl & Fc & Fg & Fe). pose proof (exactSize_shift _ _ _ _ A (wf_size _ W)) as Ez. destruct W as [Wb We].
  assert (B : rqBody mem i = rqBody (memOf r (fun _ => 0)) 0).
  { unfold rqBody. rewrite Fs, Fl, N.add_0_l, <- N.add_assoc. apply rd_shift with (1 := A). rewrite We. unfold exactSize. lia. }
  assert (S' : rqSig mem i = rqSig (memOf r (fun _ => 0)) 0).
  { unfold rqSig. rewrite Fs, Fl, Fc, Fg, N.add_0_l, <- !N.add_assoc. apply rd_shift with (1 := A). rewrite We. unfold exactSize. lia. }
  unfold validateRequest, reqSize. rewrite Ez, Fs, Fi, Ff, Fl, Fc, Fg, Fe, B, S'. reflexivity.
Qed.
End Build.
