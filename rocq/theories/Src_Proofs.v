(** Proofs for Src_Model. *)
From Coq Require Import List Arith Bool Lia.
From Verif Require Import Src_Model.
Import ListNotations.

Ltac fs := cbn [md pref cur prim nom nomc selAt stamp ongoing cnt got actual failed picked withPref withStamp withPrim fail reset] in *.
Section Src.
Context (k : cfg).
Lemma mem_in x l : mem x l = true <-> In x l.
Proof. unfold mem. rewrite existsb_exists. split; [intros (y & H & E); apply Nat.eqb_eq in E; subst; auto|intros H; exists x; rewrite Nat.eqb_refl; auto]. Qed.
Lemma erase_in x y l : In y (erase x l) <-> In y l /\ y <> x.
Proof. unfold erase. rewrite filter_In, negb_true_iff, Nat.eqb_neq. tauto. Qed.
Lemma erase_nodup x l : NoDup l -> NoDup (erase x l).
Proof. intros. apply NoDup_filter. auto. Qed.
Lemma erase_length_in x l : NoDup l -> In x l -> S (length (erase x l)) = length l.
Proof.
  unfold erase. induction l as [|y l IH]; intros N H; [destruct H|]. inversion N; subst. cbn [filter]. destruct (Nat.eqb_spec y x) as [E|E]; cbn [negb length].
  - subst. f_equal. f_equal. clear IH H N H3. induction l as [|z l IH]; auto. cbn [filter]. destruct (Nat.eqb_spec z x); cbn [negb]; [subst; destruct H2; left; auto|]. f_equal. apply IH. intros X. apply H2. right. auto.
  - destruct H as [H|H]; [contradiction|]. f_equal. apply IH; auto.
Qed.
Lemma erase_length x l : length (erase x l) <= length l.
Proof. unfold erase. induction l as [|y l IH]; auto. cbn [filter length]. destruct (negb _); cbn [length]; lia. Qed.
Lemma erase_length_ge x l : NoDup l -> length l <= S (length (erase x l)).
Proof.
  intros N. destruct (in_dec Nat.eq_dec x l) as [H|H]; [rewrite (erase_length_in x l N H); auto|]. assert (E : erase x l = l); [|rewrite E; auto].
  unfold erase. clear N. induction l as [|y l IH]; auto. cbn [filter]. destruct (Nat.eqb_spec y x); cbn [negb]; [subst; destruct H; left; auto|]. f_equal. apply IH. intros X. apply H. right. auto.
Qed.
Lemma insert_in x y l : In y (insert x l) <-> y = x \/ In y l.
Proof. unfold insert. destruct (mem x l) eqn:M; cbn [In]; [|intuition]. apply mem_in in M. split; auto. intros [->|H]; auto. Qed.
Lemma insert_nodup x l : NoDup l -> NoDup (insert x l).
Proof. unfold insert. destruct (mem x l) eqn:M; auto. constructor; auto. intros X. apply mem_in in X. congruence. Qed.

(** What a refill puts into the set. *)
Definition others (s : st) : list nat := eraseO (prim s) (k_all k).
Hypothesis P : proper k.
Lemma others_nodup s : NoDup (others s).
Proof using P. destruct P. unfold others. destruct (prim s); cbn [eraseO]; auto. apply erase_nodup; auto. Qed.
Lemma others_some s : 1 <= length (others s).
Proof using P. destruct P as [N L]. unfold others. destruct (prim s) as [p|]; cbn [eraseO]; [|lia]. assert (X := erase_length_ge p _ N). lia. Qed.
Lemma others_in s x : In x (others s) <-> In x (k_all k) /\ prim s <> Some x.
Proof using. clear P. unfold others. destruct (prim s) as [p|]; cbn [eraseO]; [rewrite erase_in; split; intros [H1 H2]; split; auto; congruence|]. split; [intros H; split; [exact H|discriminate]|intros [H _]; exact H]. Qed.
Lemma others_length s : length (others s) <= length (k_all k).
Proof using. clear P. unfold others. destruct (prim s); cbn [eraseO]; auto. apply erase_length. Qed.

Definition okset (l : list nat) : Prop := NoDup l /\ forall x, In x l -> In x (k_all k).
Lemma okset_erase o l : okset l -> okset (eraseO o l).
Proof using. clear P. intros [N H]. destruct o; cbn [eraseO]; [|split; auto]. split; [apply erase_nodup; auto|]. intros x X. apply erase_in in X. apply H, X. Qed.
Lemma okset_insert x l : okset l -> In x (k_all k) -> okset (insert x l).
Proof using. clear P. intros [N H] I. split; [apply insert_nodup; auto|]. intros y X. apply insert_in in X as [->|X]; auto. Qed.
Definition ok (s : st) : Prop :=
  failed s = false /\ okset (pref s) /\ (forall x, cur s = Some x -> In x (k_all k) /\ 0 < selAt s) /\ (forall x, prim s = Some x -> In x (k_all k)) /\ (forall x, In x (picked s) -> In x (k_all k)) /\
  (md s = Fetching -> pref s <> []) /\ (md s <> Fetching -> cur s = None) /\ (md s = Asking -> isReset s = true).
Lemma refill_pref s : pref (refill k s) = if length (pref s) =? 0 then others s else pref s.
Proof using. clear P. unfold refill. destruct (_ =? 0); reflexivity. Qed.
Lemma refill_some s : pref (refill k s) <> [].
Proof using P. rewrite refill_pref. assert (X := others_some s). destruct (pref s) eqn:E; cbn [length Nat.eqb]; [|discriminate]. intros Y. rewrite Y in X. cbn in X. lia. Qed.
Lemma refill_okset s : okset (pref s) -> okset (pref (refill k s)).
Proof using P. intros H. rewrite refill_pref. destruct (_ =? 0); auto. split; [apply others_nodup|]. intros x X. apply others_in in X. apply X. Qed.
(** One selection. *)
Lemma update_spec t c s : okset (pref s) -> exists x, let l := if length (eraseO (cur s) (pref s)) =? 0 then others s else eraseO (cur s) (pref s) in
  In x l /\ update k t c s = mkSt (md s) l (Some x) (prim s) (nom s) (nomc s) t 0 false 0 false (actual s) (failed s) (picked s ++ [x]).
Proof using P.
  intros O. unfold update, select. set (s0 := withPref (eraseO (cur s) (pref s)) s). assert (Hp := refill_pref s0). assert (Hs := refill_some s0).
  assert (E : pref (refill k s0) = (if length (eraseO (cur s) (pref s)) =? 0 then others s else eraseO (cur s) (pref s))) by (rewrite Hp; reflexivity). clear Hp.
  assert (L : c mod length (pref (refill k s0)) < length (pref (refill k s0))) by (apply Nat.mod_upper_bound; destruct (pref (refill k s0)); [congruence|discriminate]).
  destruct (nth_error (pref (refill k s0)) _) as [x|] eqn:N; [|apply nth_error_None in N; lia]. exists x. cbv zeta. rewrite <- E. split; [eapply nth_error_In; eauto|].
  unfold refill, s0. fs. destruct (_ =? 0); reflexivity.
Qed.
Lemma should_spec t bad last s : exists st' o c, snd (should k t bad last s) = withStamp st' o c s /\ (st' = stamp s) /\ (cur s = None -> fst (should k t bad last s) = Immediate).
Proof using.
  clear P. assert (E : s = withStamp (stamp s) (ongoing s) (cnt s) s) by (destruct s; reflexivity).
  unfold should. destruct (cur s) eqn:C; [|exists (stamp s), (ongoing s), (cnt s); auto]. destruct bad; [exists (stamp s), (ongoing s), (cnt s); repeat split; auto; discriminate|]. cbv zeta.
  destruct (_ && _); cbn [cnt withStamp]; (destruct (_ <=? _); [|destruct (_ && _); [|destruct (_ && _)]]); cbn [fst snd]; first [exists (stamp s), false, (S (cnt s)); repeat split; auto; discriminate|exists (stamp s), (ongoing s), (cnt s); repeat split; auto; discriminate].
Qed.
(** One iteration of processData: either nothing is chosen, and the source is there and stays; or one is. *)
Lemma process_spec t c bad last f s : ok s -> md s = Fetching -> 0 < t -> let s' := process k t c bad last f s in
  failed s' = false /\ md s' = Fetching /\ prim s' = prim s /\
  ((pref s' = pref s /\ cur s' = cur s /\ cur s <> None /\ selAt s' = selAt s /\ picked s' = picked s) \/
   (exists x, let l := if length (eraseO (cur s) (pref s)) =? 0 then others s else eraseO (cur s) (pref s) in In x l /\ pref s' = l /\ cur s' = Some x /\ selAt s' = t /\ picked s' = picked s ++ [x])).
Proof using P.
  intros (F & O & C & _ & _ & M & _) Hm Ht. unfold process. specialize (M Hm). destruct (length (pref s) =? 0) eqn:L0; [apply Nat.eqb_eq in L0; destruct (pref s); [congruence|discriminate]|].
  destruct (should_spec t bad last s) as (a & o & n & H1 & H2 & H3). destruct (should k t bad last s) as [m s1]. cbn [fst snd] in *. subst s1 a. cbv zeta.
  set (new := match m with DoNot => false | _ => true end). set (s2 := if new then update k t c _ else _).
  assert (S2 : failed s2 = false /\ md s2 = Fetching /\ prim s2 = prim s /\ (exists x, cur s2 = Some x) /\ 0 < selAt s2 /\
    ((pref s2 = pref s /\ cur s2 = cur s /\ cur s <> None /\ selAt s2 = selAt s /\ picked s2 = picked s) \/
     (exists x, let l := if length (eraseO (cur s) (pref s)) =? 0 then others s else eraseO (cur s) (pref s) in In x l /\ pref s2 = l /\ cur s2 = Some x /\ selAt s2 = t /\ picked s2 = picked s ++ [x]))).
  { unfold s2. destruct new eqn:En.
    - destruct (update_spec t c (withStamp (stamp s) o n s) O) as (x & X1 & X2). cbv zeta in X1, X2. rewrite X2. fs. split; auto. split; auto. split; auto. split; [eauto|]. split; auto. right. exists x. split; auto.
    - fs. assert (Cs : exists x, cur s = Some x) by (destruct (cur s); [eauto|]; specialize (H3 eq_refl); unfold new in En; rewrite H3 in En; discriminate En). destruct Cs as (x & Cs). split; auto. split; auto. split; auto. split; [eauto|]. split; [apply (C x Cs)|]. left. split; auto. split; auto. split; [congruence|auto]. }
  clearbody s2. destruct S2 as (A1 & A2 & A3 & (x & A4) & A5 & A6). rewrite A4 in *. destruct (Nat.eqb_spec (selAt s2) 0); [lia|].
  assert (R : forall s', failed s' = failed s2 -> md s' = md s2 -> prim s' = prim s2 -> pref s' = pref s2 -> cur s' = cur s2 -> selAt s' = selAt s2 -> picked s' = picked s2 -> failed s' = false /\ md s' = Fetching /\ prim s' = prim s /\
  ((pref s' = pref s /\ cur s' = cur s /\ cur s <> None /\ selAt s' = selAt s /\ picked s' = picked s) \/
   (exists x, let l := if length (eraseO (cur s) (pref s)) =? 0 then others s else eraseO (cur s) (pref s) in In x l /\ pref s' = l /\ cur s' = Some x /\ selAt s' = t /\ picked s' = picked s ++ [x]))).
  { intros s' E1 E2 E3 E4 E5 E6 E7. rewrite E1, E2, E3, E4, E5, E6, E7, A4. auto. }
  destruct f as [| |more full]; [unfold onValid; rewrite A4; destruct (got s2); apply R; auto|apply R; auto|]. destruct (_ && _); apply R; auto.
Qed.
Lemma removeCurrent_spec s : let l := eraseO (cur s) (pref s) in let s' := removeCurrent k s in
  failed s' = failed s /\ md s' = md s /\ prim s' = prim s /\ pref s' = (if length l =? 0 then others s else l) /\ cur s' = None /\ picked s' = picked s /\ selAt s' = 0.
Proof using.
  clear P. cbv zeta. unfold removeCurrent. cbv zeta. set (s0 := mkSt _ (eraseO (cur s) (pref s)) None _ _ _ _ _ _ _ _ _ _ _). fs. rewrite refill_pref. unfold refill. change (pref s0) with (eraseO (cur s) (pref s)). destruct (_ =? 0); fs; repeat split.
Qed.
Lemma updatePrimary_fields q s : let s' := updatePrimary k q s in failed s' = failed s /\ md s' = md s /\ cur s' = cur s /\ picked s' = picked s /\ selAt s' = selAt s /\ (prim s' = prim s \/ prim s' = Some q).
Proof using.
  clear P. cbv zeta. unfold updatePrimary. destruct (same _ _); [repeat split; auto|]. destruct (negb _); [repeat split; auto|]. destruct (nom s) as [m|]; [|repeat split; auto]. destruct (_ && _); [repeat split; auto|]. destruct (_ <? _); [repeat split; auto|].
  unfold removePreferred, refill. destruct (prim s); (destruct (mem _ _); [destruct (_ =? 0)|]); fs; repeat split; auto.
Qed.
Lemma updatePrimary_pref q s : (forall x, prim s = Some x -> In x (k_all k)) -> okset (pref s) -> okset (pref (updatePrimary k q s)) /\ (pref s <> [] -> pref (updatePrimary k q s) <> []) /\ (forall x, prim (updatePrimary k q s) = Some x -> In x (k_all k)).
Proof using P.
  intros Hp O. unfold updatePrimary. destruct (same _ _) eqn:Sm; [auto|]. destruct (negb _) eqn:V; [auto|]. apply negb_false_iff, mem_in in V. destruct (nom s) as [m|]; [|auto]. destruct (_ && _); [auto|]. destruct (_ <? _); [auto|]. cbv zeta.
  set (s0 := match prim s with Some p => _ | None => s end). assert (S0 : okset (pref s0) /\ (pref s <> [] -> pref s0 <> []) /\ prim s0 = prim s).
  { unfold s0. destruct (prim s) as [p|] eqn:E; fs; auto. split; [apply okset_insert; auto|]. split; auto. intros H X. destruct (pref s) as [|y r]; [congruence|]. assert (Y : In y (insert p (y :: r))) by (apply insert_in; right; left; auto). rewrite X in Y. destruct Y. }
  clearbody s0. destruct S0 as (A1 & A2 & A3). fs. split; [|split; [|intros x E; injection E as <-; exact V]].
  - unfold removePreferred. destruct (mem q (pref s0)); [apply refill_okset; fs; apply (okset_erase (Some q)); exact A1|exact A1].
  - intros H. unfold removePreferred. destruct (mem q (pref s0)); [apply refill_some|auto].
Qed.
Lemma isReset_reset m s : isReset (reset m s) = true. Proof. reflexivity. Qed.
Lemma ok_reset m s : m <> Fetching -> failed s = false -> (forall x, In x (picked s) -> In x (k_all k)) -> ok (reset m s).
Proof using.
  clear P. intros Hm A1 A5. split; [exact A1|]. fs. split; [split; [constructor|intros x []]|]. split; [discriminate|]. split; [discriminate|]. split; [exact A5|]. split; [intros X; contradiction|]. split; auto.
Qed.
Lemma fold_insert rs : forall p, okset p -> (forall x, In x rs -> In x (k_all k)) -> okset (fold_left (fun p r => insert r p) rs p) /\ (rs <> [] \/ p <> [] -> fold_left (fun p r => insert r p) rs p <> []).
Proof using.
  clear P. induction rs as [|r rs IH]; intros p O H; [split; auto; intros [X|X]; [congruence|exact X]|]. cbn [fold_left]. assert (X := IH (insert r p) (okset_insert r p O (H r (or_introl eq_refl))) (fun x Hx => H x (or_intror Hx))). destruct X as [X1 X2]. split; auto. intros _. apply X2. right.
  intros E. assert (Y : In r (insert r p)) by (apply insert_in; auto). rewrite E in Y. destruct Y.
Qed.
Lemma isM_eq a b : isM a b = true -> a = b. Proof. destruct a, b; auto; discriminate. Qed.
Lemma ok_step s e : ok s -> ok (step k s e).
Proof using P.
  intros K. assert (K0 := K). destruct K0 as (A1 & A2 & A3 & A4 & A5 & A6 & A7 & A8). destruct e; cbn [step].
  - destruct (isM (md s) Idle); auto. apply ok_reset; auto; discriminate.
  - destruct (_ && _ && _) eqn:G; auto. apply andb_true_iff in G as [G G3]. apply andb_true_iff in G as [G1 G2]. apply isM_eq in G1. apply negb_true_iff, Nat.eqb_neq in G3. rewrite (A8 G1). cbv zeta.
    assert (Hi : forall x, In x rs -> In x (k_all k)) by (intros x Hx; unfold incl in G2; rewrite forallb_forall in G2; apply mem_in, G2, Hx). destruct (fold_insert rs (pref s) A2 Hi) as [B1 B2].
    split; [exact A1|]. fs. split; [exact B1|]. split; [exact A3|]. split; [exact A4|]. split; [exact A5|]. split; [intros _; apply B2; left; intros X; subst; cbn in G3; congruence|]. split; [intros X; congruence|discriminate].
  - destruct (isM (md s) Fetching) eqn:G; auto. assert (X := refill_pref (reset Fetching s)). assert (Y := refill_some (reset Fetching s)). assert (Z : okset (pref (refill k (reset Fetching s)))) by (apply refill_okset; split; [constructor|intros x []]).
    unfold refill in *. fs. cbn [length Nat.eqb] in *. fs. split; [exact A1|]. fs. split; [exact Z|]. split; [discriminate|]. split; [discriminate|]. split; [exact A5|]. split; [intros _; exact Y|]. split; [congruence|discriminate].
  - destruct (_ && _) eqn:G; auto. apply andb_true_iff in G as [G1 G2]. apply isM_eq in G1. apply Nat.ltb_lt in G2. destruct (process_spec t c bad last f s K G1 G2) as (B1 & B2 & B3 & B4).
    assert (O' : okset (if length (eraseO (cur s) (pref s)) =? 0 then others s else eraseO (cur s) (pref s))) by (destruct (_ =? 0); [split; [apply others_nodup|intros x X; apply others_in in X; apply X]|apply okset_erase; exact A2]).
    split; [exact B1|]. destruct B4 as [(C1 & C2 & C3 & C4 & C5)|(x & C0 & C1 & C2 & C3 & C4)].
    + rewrite C1, C2, C4, C5, B2, B3. split; auto. split; auto. split; auto. split; auto. split; auto. split; [congruence|discriminate].
    + rewrite C1, C2, C3, C4, B2, B3. split; [exact O'|]. split; [intros y E; injection E as <-; split; [apply O', C0|exact G2]|]. split; auto. split; [intros y Y; apply in_app_or in Y as [Y|[<-|[]]]; [auto|apply O', C0]|].
      split; [intros _ E; rewrite E in C0; destruct C0|]. split; [congruence|discriminate].
  - destruct (_ && _) eqn:G; auto. apply andb_true_iff in G as [G1 _]. apply isM_eq in G1. split; [exact A1|]. fs. split; auto. split; auto. split; auto. split; auto. split; auto. split; auto. intros X. congruence.
  - destruct (_ && _) eqn:G; auto. apply andb_true_iff in G as [G1 _]. apply isM_eq in G1. destruct (removeCurrent_spec s) as (B1 & B2 & B3 & B4 & B5 & B6 & B7).
    assert (O' : okset (if length (eraseO (cur s) (pref s)) =? 0 then others s else eraseO (cur s) (pref s))) by (destruct (_ =? 0); [split; [apply others_nodup|intros x X; apply others_in in X; apply X]|apply okset_erase; exact A2]).
    unfold ok. rewrite B1, B2, B3, B4, B5, B6. split; auto. split; [exact O'|]. split; [discriminate|]. split; auto. split; auto. split; [|split; [auto|congruence]].
    intros _. assert (X := others_some s). destruct (length (eraseO (cur s) (pref s)) =? 0) eqn:E; [|apply Nat.eqb_neq in E]; intros Y; rewrite Y in *; cbn in *; lia.
  - destruct (isM (md s) Fetching); auto. cbv zeta. fs. cbn [length Nat.eqb]. apply (ok_reset Asking (reset Fetching s)); auto; discriminate.
  - destruct (isM (md s) Fetching); auto. apply ok_reset; auto; discriminate.
  - destruct (isM (md s) Asking) eqn:G; auto. assert (Na : md s <> Asking) by (intros X; rewrite X in G; discriminate). destruct (updatePrimary_fields q s) as (B1 & B2 & B3 & B4 & B5 & B6). destruct (updatePrimary_pref q s A4 A2) as (C1 & C2 & C3).
    unfold ok. rewrite B1, B2, B3, B4, B5. split; [exact A1|]. split; [exact C1|]. split; [exact A3|]. split; [exact C3|]. split; [exact A5|]. split; [auto|]. split; [exact A7|]. intros X. contradiction.
Qed.
Lemma ok_start : ok start.
Proof using. clear P. split; [reflexivity|]. cbn. split; [split; [constructor|intros x []]|]. split; [discriminate|]. split; [discriminate|]. split; [intros x []|]. split; [discriminate|]. split; [auto|discriminate]. Qed.
Lemma ok_runFrom l : forall s, ok s -> ok (runFrom k s l).
Proof using P. induction l as [|e l IH]; intros s H; auto. apply IH, ok_step, H. Qed.
Lemma ok_run l : ok (run k l).
Proof using P. apply ok_runFrom, ok_start. Qed.
End Src.
