From Coq Require Import ZArith NArith List Bool Lia Sorting.Permutation Sorting.Sorted.
From Verif Require Import Lib_Bytes Flt_Model Flt_Proofs Flt_Proofs2 Flt_Proofs3.
Import ListNotations.
Local Open Scope Z_scope.

(** * The order on byte strings *)
Lemma blt_irr a : blt a a = false.
Proof. induction a as [|x a IH]; cbn; auto. rewrite IH, N.ltb_irrefl, andb_false_r. auto. Qed.
Lemma blt_trans a : forall b c, blt a b = true -> blt b c = true -> blt a c = true.
Proof.
  induction a as [|x a IH]; intros [|y b] [|z c] H1 H2; cbn in *; try discriminate; auto.
  apply orb_true_iff in H1, H2. apply orb_true_iff. rewrite !andb_true_iff in *. rewrite !N.ltb_lt, !N.eqb_eq in *.
  destruct H1 as [H1|[-> H1]], H2 as [H2|[-> H2]]; [left; lia|left; lia|left; lia|right; split; eauto].
Qed.
Lemma blt_total a : forall b, a = b \/ blt a b = true \/ blt b a = true.
Proof.
  induction a as [|x a IH]; intros [|y b]; cbn; auto. destruct (N.ltb_spec x y), (N.ltb_spec y x); cbn; auto; try lia.
  assert (x = y) as -> by lia. rewrite N.eqb_refl. cbn. destruct (IH b) as [->|[H1|H1]]; auto.
Qed.
Notation bl := (fun a b => blt a b = true).
Lemma ins_perm x l : Permutation (insSorted x l) (x :: l).
Proof. induction l as [|y l IH]; cbn; auto. destruct (blt x y); auto. rewrite IH. apply perm_swap. Qed.
Lemma ins_sorted x l : StronglySorted bl l -> ~ In x l -> StronglySorted bl (insSorted x l).
Proof.
  induction 1 as [|y l Hl IH Hy]; intros Nx; cbn. { repeat constructor. }
  destruct (blt x y) eqn:E.
  - constructor; [constructor; auto|]. constructor; auto. rewrite Forall_forall in *. intros z Hz. apply (blt_trans x y z); auto.
  - constructor; [apply IH; intros Q; apply Nx; right; auto|]. rewrite Forall_forall in *. intros z Hz. apply (Permutation_in z (ins_perm x l)) in Hz. destruct Hz as [<-|Hz]; [|auto].
    destruct (blt_total x y) as [->|[Q|Q]]; [exfalso; apply Nx; left; auto|congruence|auto].
Qed.
Lemma sorted_unique l : forall l', StronglySorted bl l -> StronglySorted bl l' -> Permutation l l' -> l = l'.
Proof.
  induction l as [|x l IH]; intros [|y l'] S1 S2 P; auto.
  - apply Permutation_nil in P. discriminate.
  - symmetry in P. apply Permutation_nil in P. discriminate.
  - inversion S1 as [|? ? A1 A2]; subst. inversion S2 as [|? ? B1 B2]; subst. rewrite Forall_forall in *.
    assert (x = y). { pose proof (Permutation_in x P (or_introl eq_refl)) as [Q|Q]; auto. pose proof (Permutation_in y (Permutation_sym P) (or_introl eq_refl)) as [Q'|Q']; auto.
      pose proof (blt_trans x y x (A2 _ Q') (B2 _ Q)) as Z. rewrite blt_irr in Z. discriminate. }
    subst y. f_equal. apply IH; auto. apply (Permutation_cons_inv P).
Qed.

Section H.
Context (hash : bytes -> bytes).
Definition dh (l : list event) : list bytes := map (fun x => hash (edata x)) l.
Lemma inb_spec h s : existsb (beq h) s = true <-> In h s.
Proof. rewrite existsb_exists. split; [intros (y & A & B); destruct (beq_spec h y); subst; auto; discriminate|intros A; exists h; split; auto; apply beq_refl]. Qed.
Lemma entry_ok l : forall s, StronglySorted bl s -> NoDup (dh l ++ s) -> exists r, entryHashes hash l s = Ok r /\ StronglySorted bl r /\ Permutation r (dh l ++ s).
Proof.
  induction l as [|x l IH]; intros s Ss N; cbn [entryHashes]. { exists s. auto. }
  cbn [dh map app] in N. inversion N as [|? ? N1 N2]; subst.
  assert (Nx : ~ In (hash (edata x)) s) by (intros Q; apply N1, in_or_app; auto).
  destruct (existsb (beq (hash (edata x))) s) eqn:E; [apply inb_spec in E; tauto|].
  destruct (IH (insSorted (hash (edata x)) s)) as (r & A & B & C).
  - apply ins_sorted; auto.
  - apply (Permutation_NoDup (l := hash (edata x) :: dh l ++ s)); [|constructor; auto]. rewrite (ins_perm (hash (edata x)) s). apply Permutation_middle.
  - exists r. split; auto. split; auto. rewrite C, (ins_perm (hash (edata x)) s). symmetry. apply Permutation_middle.
Qed.
Lemma entry_dup l : forall s, entryHashes hash l s <> Abort -> NoDup s -> NoDup (dh l ++ s).
Proof.
  induction l as [|x l IH]; intros s A N; auto. cbn [entryHashes] in A. destruct (existsb (beq (hash (edata x))) s) eqn:E; [congruence|].
  assert (Nx : ~ In (hash (edata x)) s) by (intros Q; apply inb_spec in Q; congruence).
  assert (NoDup (dh l ++ insSorted (hash (edata x)) s)) as Q. { apply IH; auto. apply (Permutation_NoDup (l := hash (edata x) :: s)); [symmetry; apply ins_perm|constructor; auto]. }
  cbn [dh map app]. apply (Permutation_NoDup (l := dh l ++ insSorted (hash (edata x)) s)); auto. rewrite (ins_perm (hash (edata x)) s). symmetry. apply Permutation_middle.
Qed.
Lemma entry_throw l : forall s, entryHashes hash l s <> Throw.
Proof. induction l as [|x l IH]; intros s; cbn [entryHashes]; [discriminate|]. destruct (existsb _ s); [discriminate|apply IH]. Qed.

Lemma hashEg_ok id g : NoDup (dh (gevents g)) -> exists r, hashEgUpdate hash id g = Ok (hash (le 8 (Z.to_N id) ++ concat r)) /\ StronglySorted bl r /\ Permutation r (dh (gevents g)).
Proof.
  intros N. destruct (entry_ok (gevents g) [] (SSorted_nil _)) as (r & A & B & C); [rewrite app_nil_r; auto|]. exists r. unfold hashEgUpdate. rewrite A. rewrite app_nil_r in C. auto.
Qed.
Lemma hashEg_inv id g h : hashEgUpdate hash id g = Ok h -> NoDup (dh (gevents g)).
Proof.
  unfold hashEgUpdate. intros E. pose proof (entry_dup (gevents g) []) as Q. rewrite app_nil_r in Q. apply Q; [|constructor]. intros A. rewrite A in E. discriminate.
Qed.
Lemma hashEg_dup id g : ~ NoDup (dh (gevents g)) -> hashEgUpdate hash id g = Abort.
Proof.
  intros N. unfold hashEgUpdate. destruct (entryHashes hash (gevents g) []) eqn:E; auto. { exfalso. apply N. pose proof (entry_dup (gevents g) []) as Q. rewrite app_nil_r in Q. apply Q; [congruence|constructor]. }
  exfalso. apply (entry_throw _ _ E).
Qed.
Lemma hashEg_perm id g g' : Permutation (map edata (gevents g)) (map edata (gevents g')) -> hashEgUpdate hash id g = hashEgUpdate hash id g'.
Proof.
  intros P. assert (Q : Permutation (dh (gevents g)) (dh (gevents g'))).
  { unfold dh. rewrite <- (map_map edata hash), <- (map_map edata hash). apply Permutation_map. auto. }
  destruct (hashEgUpdate hash id g) as [h| |] eqn:E.
  - pose proof (hashEg_inv _ _ _ E) as N. destruct (hashEg_ok id g N) as (r & A & B & C). rewrite E in A.
    destruct (hashEg_ok id g' (Permutation_NoDup Q N)) as (r' & A' & B' & C'). rewrite A', A. do 4 f_equal. apply sorted_unique; auto. rewrite C, C'. auto.
  - unfold hashEgUpdate in E. destruct (entryHashes hash (gevents g) []) eqn:E2; try discriminate. destruct (entry_throw _ _ E2).
  - symmetry. apply hashEg_dup. intros N. apply Permutation_sym in Q. apply (Permutation_NoDup Q) in N. destruct (hashEg_ok id g N) as (r & A & _). congruence.
Qed.

Definition collision : Prop := exists a b, a <> b /\ hash a = hash b.
Lemma concat_inj n (l : list bytes) : forall l', (0 < n)%nat -> Forall (fun x => length x = n) l -> Forall (fun x => length x = n) l' -> concat l = concat l' -> l = l'.
Proof.
  induction l as [|x l IH]; intros [|y l'] Hn A B E; auto; cbn in E.
  - inversion B; subst. destruct y; [cbn in *; lia|discriminate].
  - inversion A; subst. destruct x; [cbn in *; lia|discriminate].
  - inversion A; inversion B; subst. assert (x = y /\ concat l = concat l') as [-> E'].
    { assert (F : firstn (length y) (x ++ concat l) = firstn (length y) (y ++ concat l')) by (rewrite E; auto).
      rewrite (firstn_app_exact x (concat l)), (firstn_app_exact y (concat l')) in F by congruence. subst y. split; auto. apply app_inv_head in E. auto. }
    f_equal. apply (IH l'); auto.
Qed.
Lemma hashEg_covers e e' g g' h : (forall x, length (hash x) = 32%nat) -> 0 <= e < two64 -> 0 <= e' < two64 ->
  hashEgUpdate hash e g = Ok h -> hashEgUpdate hash e' g' = Ok h ->
  (e = e' /\ Permutation (map edata (gevents g)) (map edata (gevents g'))) \/ collision.
Proof.
  intros HL R1 R2 E1 E2. pose proof (hashEg_inv _ _ _ E1) as N1. pose proof (hashEg_inv _ _ _ E2) as N2.
  destruct (hashEg_ok e g N1) as (r & A & B & C). destruct (hashEg_ok e' g' N2) as (r' & A' & B' & C'). rewrite E1 in A. rewrite E2 in A'.
  set (u := le 8 (Z.to_N e) ++ concat r) in *. set (v := le 8 (Z.to_N e') ++ concat r') in *.
  destruct (list_eq_dec N.eq_dec u v) as [Q|Q]; [|right; exists u, v; split; auto; congruence].
  assert (Ee : le 8 (Z.to_N e) = le 8 (Z.to_N e') /\ concat r = concat r').
  { pose proof (f_equal (firstn 8) Q) as F. unfold u, v in *. rewrite !firstn_app_exact in F by (apply le_length). split; auto. rewrite F in Q. apply app_inv_head in Q. auto. }
  destruct Ee as [Ee Ec]. assert (e = e'). { apply le_inj in Ee; [lia| |]; unfold two64 in *; change (256 ^ N.of_nat 8)%N with (2 ^ 64)%N; lia. }
  assert (r = r'). { apply (concat_inj 32); auto; try lia; rewrite Forall_forall; intros x Hx.
    - apply (Permutation_in x C) in Hx. unfold dh in Hx. apply in_map_iff in Hx. destruct Hx as (z & <- & _). auto.
    - apply (Permutation_in x C') in Hx. unfold dh in Hx. apply in_map_iff in Hx. destruct Hx as (z & <- & _). auto. }
  subst e' r'. assert (P : Permutation (map hash (map edata (gevents g))) (map hash (map edata (gevents g')))). { rewrite !map_map. rewrite <- C. auto. }
  clear - P. revert P. generalize (map edata (gevents g)) as l, (map edata (gevents g')) as l'. intros l. 
  enough (H : forall l', Permutation (map hash l) (map hash l') -> Permutation l l' \/ collision). { intros l' P. destruct (H l' P); auto. }
  induction l as [|x l IH]; intros l' P.
  - apply Permutation_nil in P. destruct l'; [auto|discriminate].
  - pose proof (Permutation_in (hash x) P (or_introl eq_refl)) as Hx. apply in_map_iff in Hx. destruct Hx as (y & Hy & Iy).
    destruct (list_eq_dec N.eq_dec x y) as [<-|Ne]; [|right; exists x, y; split; auto].
    apply in_split in Iy. destruct Iy as (a & b & ->). rewrite map_app in P. cbn [map] in P. apply Permutation_cons_app_inv in P. rewrite <- map_app in P.
    destruct (IH _ P) as [Q|Q]; auto. left. apply Permutation_cons_app. auto.
Qed.

Section R.
Context (parse : bytes -> parsed) (client : bytes) (T : store) (W : hist) (k : nat) (R : represents T W k client).
Context (Sd : forall c g, In (c, g) W -> visible client c = true -> sendable parse client g).
Notation L := (groupsOf client W).
Notation base := (cnt pubTag (firstn k W) + cnt client (firstn k W))%nat.
Lemma hash_at e : Z.of_nat base < e <= Z.of_nat (length L) -> exists gid g, nth_error L (Z.to_nat (e - 1)) = Some (gid, g) /\
  readEventGroupHash parse hash client T e = bind (hashEgUpdate hash e (viewOf parse client g)) (fun h => Ok (h, (e, gid))).
Proof.
  intros H. destruct (at_ext client T W k R e H) as (i & c & g & N & V & Ki & Es & Ln). exists (Z.of_nat i + 1), g. split; auto.
  pose proof (L_len client T W k R) as Ll. unfold readEventGroupHash. rewrite (newest_eq _ _ _ _ R), (oldest_eq _ _ _ _ R).
  destruct (Nat.eqb_spec base (cnt pubTag W + cnt client W)); [lia|].
  destruct (Z.eqb_spec (Z.of_nat base + 1) 0); [lia|]. destruct (Z.eqb_spec e 0); [lia|].
  destruct (Z.ltb_spec e (Z.of_nat base + 1)); [lia|]. destruct (Z.ltb_spec (Z.of_nat (cnt pubTag W + cnt client W)) e); [lia|]. cbn [orb].
  pose proof (f_equal (findGlobal client T) Es) as Ef0. rewrite Ef0, (find_ok _ _ _ _ R i c g N V Ki). cbn [bind fglobal].
  unfold getEventGroup. destruct R as (_ & _ & _ & _ & _ & Dt). rewrite (Dt i c g N Ki). cbn [bind].
  assert (Sg : sendable parse client g) by (apply (Sd c); auto; apply nth_error_In with (1 := N)).
  destruct (gevents g) as [|ev evs] eqn:Ge; [destruct Sg; congruence|]. rewrite (filterGroup_ok parse client g Sg). reflexivity.
Qed.
Lemma hashUpdates_app a b : hashUpdates hash (a ++ b) = bind (hashUpdates hash a) (fun x => bind (hashUpdates hash b) (fun y => Ok (x ++ y))).
Proof.
  induction a as [|[e g] a IH]; cbn [app hashUpdates bind]. { destruct (hashUpdates hash b); auto. }
  destruct (hashEgUpdate hash e g); cbn [bind]; auto. rewrite IH. destruct (hashUpdates hash a); cbn [bind]; auto. destruct (hashUpdates hash b); auto.
Qed.
Lemma sendHashes_ok n : forall e last out hs, Z.of_nat base < e -> e + Z.of_nat n <= Z.of_nat (length L) + 1 ->
  hashUpdates hash (numbered parse client e (firstn n (skipn (Z.to_nat (e - 1)) L))) = Ok hs ->
  exists last', sendHashes parse hash client n T e last out = (out ++ hs, Ok last') /\
    (n <> O -> fst last' = e + Z.of_nat n - 1 /\ option_map fst (nth_error L (Z.to_nat (e + Z.of_nat n - 2))) = Some (snd last')).
Proof.
  induction n as [|n IH]; intros e last out hs H1 H2 Hh; cbn [sendHashes].
  - cbn in Hh. inversion Hh; subst. rewrite app_nil_r. exists last. split; auto. tauto.
  - destruct (hash_at e ltac:(lia)) as (gid & g & Ng & Eh).
    assert (Sk : skipn (Z.to_nat (e - 1)) L = (gid, g) :: skipn (Z.to_nat e) L).
    { replace (Z.to_nat e) with (S (Z.to_nat (e - 1))) by lia. revert Ng. generalize (Z.to_nat (e - 1)). generalize L. clear. intros l n. revert l. induction n as [|n IH]; intros [|y l] H; try discriminate; cbn in *; [inversion H; auto|auto]. }
    rewrite Sk in Hh. cbn [firstn numbered hashUpdates] in Hh. rewrite Eh. destruct (hashEgUpdate hash e (viewOf parse client g)) as [h| |]; try discriminate. cbn [bind] in *.
    destruct (hashUpdates hash (numbered parse client (e + 1) (firstn n (skipn (Z.to_nat e) L)))) as [r| |] eqn:Er; try discriminate. cbn in Hh. inversion Hh; subst hs.
    destruct (IH (e + 1) (e, gid) (out ++ [(e, h)]) r) as (last' & A & B); try lia. { replace (e + 1 - 1) with e by lia. auto. }
    exists last'. rewrite A, <- app_assoc. split; auto. intros _. destruct n as [|n].
    + cbn in A. inversion A; subst. cbn [fst snd]. split; [lia|]. replace (e + Z.of_nat 1 - 2) with (e - 1) by lia. rewrite Ng. auto.
    + destruct (B ltac:(lia)) as [B1 B2]. split; [lia|]. rewrite <- B2. do 3 f_equal. lia.
Qed.
End R.
End H.

(** * The streams *)
Section Str.
Context (parse : bytes -> parsed) (hash : bytes -> bytes) (client : bytes).
Notation base W k := (cnt pubTag (firstn k W) + cnt client (firstn k W))%nat.

Lemma after_fst V : forall e l g, fst (after client e l g V) = e + Z.of_nat (length (seen client g V)).
Proof.
  induction V as [|[c x] V IH]; intros e l g; cbn [after seen]; [cbn; lia|]. destruct (visible client c); rewrite IH; cbn [app length]; lia.
Qed.
(** Everything before and after the last group of the client in a history. *)
Lemma split_last W n gid : option_map fst (nth_error (groupsOf client W) n) = Some gid -> (n = length (groupsOf client W) - 1)%nat ->
  1 <= gid <= Z.of_nat (length W) /\ seen client 1 (firstn (Z.to_nat gid) W) = groupsOf client W /\ seen client (gid + 1) (skipn (Z.to_nat gid) W) = [] /\ Z.of_nat n < gid.
Proof.
  unfold groupsOf. intros H En. 
  enough (X : forall W g0 n gid, option_map fst (nth_error (seen client g0 W) n) = Some gid -> (n = length (seen client g0 W) - 1)%nat ->
     g0 <= gid < g0 + Z.of_nat (length W) /\ seen client g0 (firstn (Z.to_nat (gid - g0 + 1)) W) = seen client g0 W /\ seen client (gid + 1) (skipn (Z.to_nat (gid - g0 + 1)) W) = [] /\ g0 + Z.of_nat n <= gid).
  { destruct (X W 1 n gid H En) as (A & B & C & D). replace (gid - 1 + 1) with gid in * by lia. repeat split; auto; lia. }
  clear. induction W as [|[c x] W IH]; intros g0 n gid H En; cbn [seen] in H; [destruct n; discriminate|].
  destruct (seen client (g0 + 1) W) as [|y l] eqn:E.
  - cbn [seen] in En. rewrite E in En. destruct (visible client c) eqn:V; cbn [app length] in *; [|destruct n; discriminate]. subst n. cbn in H. inversion H; subst.
    replace (Z.to_nat (gid - gid + 1)) with 1%nat by lia. cbn [firstn skipn seen]. rewrite V, E. cbn [app length Z.of_nat]. repeat split; try lia; auto.
  - rewrite <- E in *. cbn [seen] in En. destruct (visible client c) eqn:V; cbn [app length] in *.
    + destruct n as [|n]; [rewrite E in En; cbn in En; lia|]. cbn [nth_error] in H.
      destruct (IH (g0 + 1) n gid H ltac:(lia)) as (A & B & C & D). replace (Z.to_nat (gid - g0 + 1)) with (S (Z.to_nat (gid - (g0 + 1) + 1))) by lia.
      cbn [firstn skipn seen]. rewrite V. repeat split; try lia; auto. cbn [app]. rewrite B. auto.
    + destruct (IH (g0 + 1) n gid H ltac:(lia)) as (A & B & C & D). replace (Z.to_nat (gid - g0 + 1)) with (S (Z.to_nat (gid - (g0 + 1) + 1))) by lia.
      cbn [firstn skipn seen]. rewrite V. repeat split; try lia; auto.
Qed.

(** After a history delivered up to its end, the announced groups. *)
Lemma tail_ok D W2 Y a n gid endExt out k2 : let W := W2 ++ Y in
  okHist parse client W -> Z.of_nat (length W) + 1 < two64 -> (k2 <= length W2)%nat ->
  option_map fst (nth_error (groupsOf client W2) n) = Some gid -> (n = length (groupsOf client W2) - 1)%nat -> (base W2 k2 < length (groupsOf client W2))%nat ->
  (a <= length W)%nat -> skipn a W <> [] ->
  (forall i c x, nth_error W i = Some (c, x) -> (k2 <= i)%nat -> D (Z.of_nat i + 1) = Some x) ->
  (a <= length W2)%nat \/ endExt = Z.of_nat (length (groupsOf client W2)) -> client <> pubTag ->
  exists last, sync parse client D endExt (gid + 1) (Z.of_nat (length (groupsOf client W2)), gid) (announced (Z.of_nat a + 1) (skipn a W)) out =
    (out ++ numbered parse client (Z.of_nat (length (groupsOf client W2)) + 1) (skipn (length (groupsOf client W2)) (groupsOf client W)), Waiting last) /\ fst last = Z.of_nat (length (groupsOf client W)).
Proof.
  intros W O B Lk Hg En Ba La Ne Dt Gp NP. destruct (split_last W2 n gid Hg En) as (G1 & G2 & G3 & G4).
  assert (LW : length W = (length W2 + length Y)%nat) by (apply app_length).
  assert (Wl : groupsOf client W = groupsOf client W2 ++ seen client (gid + 1) (skipn (Z.to_nat gid) W)).
  { unfold groupsOf at 1. rewrite <- (firstn_skipn (Z.to_nat gid) W) at 1. rewrite seen_app. f_equal.
    - rewrite <- G2. f_equal. unfold W. rewrite firstn_app. replace (Z.to_nat gid - length W2)%nat with 0%nat by lia. cbn. rewrite app_nil_r. auto.
    - f_equal. rewrite firstn_length. lia. }
  assert (Kg : Z.of_nat k2 < gid).
  { destruct (Z.lt_ge_cases (Z.of_nat k2) gid); auto. exfalso.
    assert (length (seen client 1 (firstn k2 W2)) = base W2 k2) as Q by (apply seen_len; auto).
    assert (length (seen client 1 (firstn k2 W2)) >= length (seen client 1 (firstn (Z.to_nat gid) W2)))%nat.
    { replace (firstn k2 W2) with (firstn (Z.to_nat gid) W2 ++ skipn (Z.to_nat gid) (firstn k2 W2)). { rewrite seen_app, app_length. lia. }
      rewrite <- (firstn_skipn (Z.to_nat gid) (firstn k2 W2)) at 2. rewrite firstn_firstn. f_equal. f_equal. lia. }
    rewrite G2 in *. lia. }
  eexists. split.
  - rewrite (sync_ok parse client D W a gid (Z.of_nat (length (groupsOf client W2))) endExt out); auto; try lia.
    + f_equal. f_equal. f_equal. rewrite Wl, skipn_app, skipn_all, Nat.sub_diag. reflexivity.
    + intros i c x Ni Hi. apply (Dt i c x Ni). lia.
    + intros V EV. destruct Gp as [Ga|Ga]; [left|right; auto]. subst V.
      assert (firstn a W = firstn a W2) as ->. { unfold W. rewrite firstn_app. replace (a - length W2)%nat with 0%nat by lia. cbn. rewrite app_nil_r. auto. }
      assert (Q : skipn (Z.to_nat gid) W2 = skipn (Z.to_nat gid) (firstn a W2) ++ skipn (Z.to_nat gid - a) (skipn a W2)).
      { rewrite <- (firstn_skipn a W2) at 1. rewrite skipn_app. do 2 f_equal. rewrite firstn_length. lia. }
      rewrite Q, seen_app in G3. apply app_eq_nil in G3. apply G3.
  - rewrite after_fst, Wl, app_length. lia.
Qed.

Lemma nth_firstn_some {A} (l : list A) n x : nth_error l n = Some x -> (n < length l)%nat.
Proof. intros H. apply nth_error_Some. congruence. Qed.

Lemma dataStream_ok T1 T W1 X Y k1 k2 D start a : let W2 := W1 ++ X in let W := W2 ++ Y in
  represents T1 W1 k1 client -> represents T W2 k2 client -> (k1 <= k2)%nat -> okHist parse client W -> Z.of_nat (length W) + 1 < two64 ->
  Z.of_nat (base W2 k2) < start <= Z.of_nat (length (groupsOf client W1)) ->
  (forall i c x, nth_error W i = Some (c, x) -> (k2 <= i)%nat -> D (Z.of_nat i + 1) = Some x) ->
  (a <= length W2)%nat \/ (a <= length W)%nat /\ length (groupsOf client W1) = length (groupsOf client W2) ->
  exists last, dataStream parse client T1 T T D start (announced (Z.of_nat a + 1) (skipn a W)) =
    (numbered parse client start (skipn (Z.to_nat (start - 1)) (groupsOf client (match skipn a W with [] => W2 | _ => W end))), Waiting last) /\
    fst last = Z.of_nat (length (groupsOf client (match skipn a W with [] => W2 | _ => W end))).
Proof.
  intros W2 W R1 R2 K O B S Dt Ga. pose proof (R_np _ _ _ _ R2) as NP. pose proof (L_len client T1 W1 k1 R1) as L1. pose proof (L_len client T W2 k2 R2) as L2.
  assert (LW : length W = (length W2 + length Y)%nat) by (apply app_length).
  assert (LX : groupsOf client W2 = groupsOf client W1 ++ seen client (1 + Z.of_nat (length W1)) X) by (apply seen_app).
  assert (Bk : (base W1 k1 <= base W2 k2)%nat).
  { assert (firstn k1 W1 = firstn k1 W2) as ->. { unfold W2. rewrite firstn_app. pose proof (R_k _ _ _ _ R1). replace (k1 - length W1)%nat with 0%nat by lia. cbn. rewrite app_nil_r. auto. }
    pose proof (cnt_mono pubTag W2 k1 k2 K). pose proof (cnt_mono client W2 k1 k2 K). lia. }
  assert (L12 : (length (groupsOf client W1) <= length (groupsOf client W2))%nat) by (rewrite LX, app_length; lia).
  unfold dataStream. rewrite (oldest_eq _ _ _ _ R1), (newest_eq _ _ _ _ R1).
  destruct (Nat.eqb_spec (base W1 k1) (cnt pubTag W1 + cnt client W1)); [lia|].
  destruct (Z.ltb_spec start (Z.of_nat (base W1 k1) + 1)); [lia|]. destruct (Z.eqb_spec (Z.of_nat (base W1 k1) + 1) 0); [lia|]. rewrite andb_false_r. cbn [orb].
  destruct (Z.ltb_spec (Z.of_nat (cnt pubTag W1 + cnt client W1)) (Z.of_nat (base W1 k1) + 1)); [lia|]. destruct (Z.ltb_spec (Z.of_nat (cnt pubTag W1 + cnt client W1)) start); [lia|]. cbn [orb].
  assert (O2 : okHist parse client W2) by (apply (okHist_app _ _ _ _ O)).
  destruct (read_ok parse client T W2 k2 R2 (fun c g Hin _ => proj1 O2 c g Hin) (fun _ => true) start) as (m & gid & M1 & -> & M3 & _ & M5); [lia|].
  destruct M5 as [M5|M5]; [|discriminate]. rewrite M5 in *. rewrite firstn_all. rewrite numbered_len, skipn_length in *.
  cbn [snd]. pose proof (split_last W2 (Z.to_nat (start - 1) + (length (groupsOf client W2) - Z.to_nat (start - 1)) - 1) gid M3 ltac:(lia)) as (Gr & _).
  rewrite add64_ok by lia.
  replace (start + Z.of_nat (length (groupsOf client W2) - Z.to_nat (start - 1)) - 1) with (Z.of_nat (length (groupsOf client W2))) by lia.
  destruct (skipn a W) as [|y0 q0] eqn:Eq. { cbn [announced sync]. eexists. split; [reflexivity|]. auto. }
  cbv iota. rewrite <- Eq. destruct (tail_ok D W2 Y a _ gid (Z.of_nat (cnt pubTag W1 + cnt client W1)) (numbered parse client start (skipn (Z.to_nat (start - 1)) (groupsOf client W2))) k2 O B (R_k _ _ _ _ R2) M3) as (last & Es & Fl); auto; try lia.
  { fold W. destruct Ga; lia. } { fold W. rewrite Eq. discriminate. }
  fold W in Es, Fl. rewrite Es.
  exists last. split; auto. f_equal.
  assert (Lx : groupsOf client W = groupsOf client W2 ++ seen client (1 + Z.of_nat (length W2)) Y) by (apply seen_app). fold W. rewrite Lx.
  rewrite skipn_app, skipn_all, Nat.sub_diag. rewrite skipn_app. cbn [skipn app]. replace (Z.to_nat (start - 1) - length (groupsOf client W2))%nat with 0%nat by lia. cbn [skipn].
  rewrite numb_app, skipn_length. do 2 f_equal. lia.
Qed.

Lemma hashStream_ok T1 T W1 X Y k1 k2 D start a hs : let W2 := W1 ++ X in let W := W2 ++ Y in
  represents T1 W1 k1 client -> represents T W2 k2 client -> (k1 <= k2)%nat -> okHist parse client W -> Z.of_nat (length W) + 1 < two64 ->
  Z.of_nat (base W2 k2) < start <= Z.of_nat (length (groupsOf client W1)) ->
  (forall i c x, nth_error W i = Some (c, x) -> (k2 <= i)%nat -> D (Z.of_nat i + 1) = Some x) ->
  (a <= length W)%nat ->
  hashUpdates hash (numbered parse client start (skipn (Z.to_nat (start - 1)) (groupsOf client (match skipn a W with [] => W1 | _ => W end)))) = Ok hs ->
  exists last, hashStream parse hash client T1 T D start (announced (Z.of_nat a + 1) (skipn a W)) = (hs, Waiting last) /\
    fst last = Z.of_nat (length (groupsOf client (match skipn a W with [] => W1 | _ => W end))).
Proof.
  intros W2 W R1 R2 K O B S Dt La Hh. pose proof (R_np _ _ _ _ R2) as NP. pose proof (L_len client T1 W1 k1 R1) as L1. pose proof (L_len client T W2 k2 R2) as L2.
  assert (LW : length W = (length W2 + length Y)%nat) by (apply app_length). assert (LW2 : length W2 = (length W1 + length X)%nat) by (apply app_length).
  assert (LX : groupsOf client W2 = groupsOf client W1 ++ seen client (1 + Z.of_nat (length W1)) X) by (apply seen_app).
  assert (Bk : (base W1 k1 <= base W2 k2)%nat).
  { assert (firstn k1 W1 = firstn k1 W2) as ->. { unfold W2. rewrite firstn_app. pose proof (R_k _ _ _ _ R1). replace (k1 - length W1)%nat with 0%nat by lia. cbn. rewrite app_nil_r. auto. }
    pose proof (cnt_mono pubTag W2 k1 k2 K). pose proof (cnt_mono client W2 k1 k2 K). lia. }
  assert (L12 : (length (groupsOf client W1) <= length (groupsOf client W2))%nat) by (rewrite LX, app_length; lia).
  unfold hashStream. rewrite (oldest_eq _ _ _ _ R1), (newest_eq _ _ _ _ R1).
  destruct (Nat.eqb_spec (base W1 k1) (cnt pubTag W1 + cnt client W1)); [lia|].
  destruct (Z.ltb_spec start (Z.of_nat (base W1 k1) + 1)); [lia|]. destruct (Z.eqb_spec (Z.of_nat (base W1 k1) + 1) 0); [lia|]. rewrite andb_false_r. cbn [orb].
  destruct (Z.ltb_spec (Z.of_nat (cnt pubTag W1 + cnt client W1)) (Z.of_nat (base W1 k1) + 1)); [lia|]. destruct (Z.ltb_spec (Z.of_nat (cnt pubTag W1 + cnt client W1)) start); [lia|]. cbn [orb].
  assert (O2 : okHist parse client W2) by (apply (okHist_app _ _ _ _ O)).
  set (n1 := Z.to_nat (Z.of_nat (cnt pubTag W1 + cnt client W1) - start + 1)).
  assert (F1 : firstn n1 (skipn (Z.to_nat (start - 1)) (groupsOf client W2)) = skipn (Z.to_nat (start - 1)) (groupsOf client W1)).
  { rewrite LX, skipn_app, firstn_app. rewrite firstn_all2 by (rewrite skipn_length; lia). rewrite skipn_length. replace (n1 - (length (groupsOf client W1) - Z.to_nat (start - 1)))%nat with 0%nat by lia. cbn [firstn]. apply app_nil_r. }
  assert (Lw : forall Z0 : hist, groupsOf client (W1 ++ Z0) = groupsOf client W1 ++ seen client (1 + Z.of_nat (length W1)) Z0) by (intros; apply seen_app).
  assert (Hs : exists h1, hashUpdates hash (numbered parse client start (skipn (Z.to_nat (start - 1)) (groupsOf client W1))) = Ok h1).
  { destruct (skipn a W); [eauto|]. unfold W, W2 in Hh. rewrite <- app_assoc, Lw, skipn_app, numb_app, hashUpdates_app in Hh.
    destruct (hashUpdates hash (numbered parse client start (skipn (Z.to_nat (start - 1)) (groupsOf client W1)))); try discriminate. eauto. }
  destruct Hs as (h1 & Hs).
  destruct (sendHashes_ok hash parse client T W2 k2 R2 (fun c g Hin _ => proj1 O2 c g Hin) n1 start (0, 0) [] h1) as (last & -> & Ln); try lia. { rewrite F1. auto. }
  destruct (Ln ltac:(lia)) as [Ln1 Ln2]. clear Ln.
  replace (Z.to_nat (start + Z.of_nat n1 - 2)) with (length (groupsOf client W1) - 1)%nat in Ln2 by lia.
  assert (Ln3 : option_map fst (nth_error (groupsOf client W1) (length (groupsOf client W1) - 1)) = Some (snd last)). { rewrite <- Ln2. rewrite LX, nth_error_app1 by lia. auto. }
  pose proof (split_last W1 _ (snd last) Ln3 eq_refl) as (Gr & _). destruct last as [le_ lg]. cbn [fst snd] in *. rewrite add64_ok by lia.
  assert (le_ = Z.of_nat (length (groupsOf client W1))) by lia. subst le_. replace (start + Z.of_nat n1 - 1) with (Z.of_nat (length (groupsOf client W1))) by lia. cbn [app].
  destruct (skipn a W) as [|y0 q0] eqn:Eq. { cbn [announced sync hashUpdates]. rewrite Hs in Hh. inversion Hh; subst. rewrite app_nil_r. eexists. split; [reflexivity|]. auto. }
  cbv iota. cbv iota in Hh. rewrite <- Eq.
  assert (EW : W = W1 ++ (X ++ Y)) by (unfold W, W2; rewrite app_assoc; auto).
  destruct (tail_ok D W1 (X ++ Y) a _ lg (Z.of_nat (cnt pubTag W1 + cnt client W1)) [] (Nat.min k2 (length W1)) ltac:(rewrite <- EW; auto) ltac:(rewrite <- EW; auto) ltac:(lia) Ln3 eq_refl) as (last & E & Fl); auto.
  { assert (Q : firstn (Nat.min k2 (length W1)) W1 = firstn k2 W1). { rewrite <- (firstn_firstn W1), firstn_all. auto. } rewrite Q.
    assert (cnt pubTag (firstn k2 W1) <= cnt pubTag (firstn k2 W2) /\ cnt client (firstn k2 W1) <= cnt client (firstn k2 W2))%nat. { unfold W2. rewrite firstn_app, !cnt_app. lia. } lia. }
  { rewrite <- EW. auto. } { rewrite <- EW, Eq. discriminate. }
  { rewrite <- EW. intros i c x Ni Hi. destruct (Nat.le_gt_cases k2 i); [apply (Dt i c x); auto|].
    exfalso. assert (k2 > length W1)%nat by lia. assert (base W2 k2 >= length (groupsOf client W1))%nat; [|lia].
    unfold W2. rewrite firstn_app, !cnt_app. rewrite (firstn_all2 (n := k2) W1) by lia. lia. }
  rewrite <- EW in E, Fl. rewrite E. cbn [app].
  assert (Hh2 : hashUpdates hash (numbered parse client start (skipn (Z.to_nat (start - 1)) (groupsOf client W1)) ++ numbered parse client (Z.of_nat (length (groupsOf client W1)) + 1) (skipn (length (groupsOf client W1)) (groupsOf client W))) = Ok hs).
  { rewrite <- Hh. f_equal. rewrite EW, Lw. rewrite skipn_app, skipn_all, Nat.sub_diag. rewrite skipn_app. cbn [skipn app]. replace (Z.to_nat (start - 1) - length (groupsOf client W1))%nat with 0%nat by lia. cbn [skipn].
    rewrite numb_app, skipn_length. do 2 f_equal. lia. }
  rewrite hashUpdates_app, Hs in Hh2. cbn [bind] in Hh2. destruct (hashUpdates hash (numbered parse client (Z.of_nat (length (groupsOf client W1)) + 1) _)) as [h2| |]; try discriminate. cbn in Hh2. inversion Hh2; subst.
  exists last. split; auto.
Qed.
End Str.
