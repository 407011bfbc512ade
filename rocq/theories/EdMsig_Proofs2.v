From Coq Require Import List Arith NArith Lia Bool Permutation.
From Verif Require Import Lib_Bytes EdMsig_Model EdMsig_Proofs.
Import ListNotations.

Lemma decode_sig_length b : length b = ENTRY -> length (e_sig (decodeEntry b)) = 64.
Proof. intros H. unfold decodeEntry, slice. cbn [e_sig]. rewrite firstn_length, skipn_length, H. reflexivity. Qed.

Lemma map_repeat {A B} (f : A -> B) x n : map f (repeat x n) = repeat (f x) n.
Proof. induction n; cbn; congruence. Qed.

Section S.
Context {K : Type}.
Variable vb : K -> bytes -> bytes -> bool.
Definition fits (v : verifier K) : Prop := (N.of_nat (requiredLength v) < 2 ^ 16)%N.
Lemma fits_ids (v : verifier K) : fits v -> (maxShareID v < 2 ^ 32)%N.
Proof. unfold fits, requiredLength, maxShareID, ENTRY. intros H. change (2 ^ 16)%N with 65536%N in H. change (2^32)%N with 4294967296%N. lia. Qed.
Lemma fits_buffer (v : verifier K) : fits v -> jobBuffer v = requiredLength v.
Proof. unfold fits, jobBuffer. intros H. rewrite N.mod_small by exact H. apply Nat2N.id. Qed.

Definition inRange (v : verifier K) (e : entry) : bool := negb ((e_id e =? 0) || (maxShareID v <? e_id e))%N.
Lemma inRange_ok v e : inRange v e = true <-> (1 <= e_id e <= maxShareID v)%N.
Proof.
  unfold inRange. rewrite negb_true_iff, orb_false_iff, N.eqb_neq, N.ltb_ge. lia.
Qed.

Lemma step_eq (v : verifier K) l s : step v l s = if inRange v (decodeEntry s) then insertNew (e_id (decodeEntry s) mod 2 ^ 32) (decodeEntry s) l else l.
Proof. unfold step, inRange. destruct (_ || _)%bool; reflexivity. Qed.

Definition Good (v : verifier K) (shares : list bytes) (l : list (N * entry)) : Prop :=
  NoDup (map fst l) /\
  (forall k e, In (k, e) l -> k = e_id e /\ (1 <= e_id e <= maxShareID v)%N /\ exists s, In s shares /\ decodeEntry s = e) /\
  (forall s, In s shares -> inRange v (decodeEntry s) = true -> exists e, In (e_id (decodeEntry s), e) l).

Lemma insertNew_in k e l x : In x (insertNew k e l) -> In x l \/ x = (k, e).
Proof. unfold insertNew. destruct (existsb _ _); auto. rewrite in_app_iff. cbn. intuition. Qed.
Lemma insertNew_keep k e l x : In x l -> In x (insertNew k e l).
Proof. unfold insertNew. destruct (existsb _ _); auto. rewrite in_app_iff. auto. Qed.
Lemma insertNew_has k e l : exists e', In (k, e') (insertNew k e l).
Proof.
  unfold insertNew. destruct (existsb (fun p => N.eqb k (fst p)) l) eqn:E.
  - apply existsb_exists in E as ([k' e'] & Hin & Hk). apply N.eqb_eq in Hk. cbn in Hk. subst k'. eauto.
  - exists e. apply in_app_iff. cbn. auto.
Qed.
Lemma insertNew_nodup k e l : NoDup (map fst l) -> NoDup (map fst (insertNew k e l)).
Proof.
  intros N. unfold insertNew. destruct (existsb (fun p => N.eqb k (fst p)) l) eqn:E; [exact N|].
  rewrite map_app. cbn [map fst]. apply (Permutation_NoDup (l := k :: map fst l)).
  - apply Permutation_cons_append.
  - constructor; [|exact N]. intros H. apply in_map_iff in H as ([k' e'] & <- & Hin).
    assert (existsb (fun p => N.eqb k' (fst p)) l = true); [|cbn in E; congruence].
    apply existsb_exists. exists (k', e'). split; auto. apply N.eqb_refl.
Qed.

Lemma good_step (v : verifier K) shares l s : fits v -> Good v shares l -> Good v (shares ++ [s]) (step v l s).
Proof.
  intros F (N & A & B). rewrite step_eq. pose proof (fits_ids v F) as Fi.
  destruct (inRange v (decodeEntry s)) eqn:R.
  - assert (R' := R). apply inRange_ok in R'. rewrite N.mod_small by lia.
    split; [apply insertNew_nodup; exact N|]. split.
    + intros k e Hin. apply insertNew_in in Hin as [Hin|E].
      * destruct (A k e Hin) as (E1 & E2 & s' & E3 & E4). split; auto. split; auto. exists s'. rewrite in_app_iff. auto.
      * injection E as -> ->. split; auto. split; auto. exists s. rewrite in_app_iff. cbn. auto.
    + intros s' Hin R2. apply in_app_iff in Hin as [Hin|[<-|[]]].
      * destruct (B s' Hin R2) as [e He]. exists e. apply insertNew_keep. exact He.
      * apply insertNew_has.
  - split; [exact N|]. split.
    + intros k e Hin. destruct (A k e Hin) as (E1 & E2 & s' & E3 & E4). split; auto. split; auto. exists s'. rewrite in_app_iff. auto.
    + intros s' Hin R2. apply in_app_iff in Hin as [Hin|[<-|[]]]; [auto|congruence].
Qed.
Lemma good_fold v shares : forall done l, fits v -> Good v done l -> Good v (done ++ shares) (fold_left (step v) shares l).
Proof.
  induction shares as [|s rest IH]; intros done l F G; [rewrite app_nil_r; exact G|].
  cbn [fold_left]. replace (done ++ s :: rest) with ((done ++ [s]) ++ rest) by (rewrite <- app_assoc; reflexivity).
  apply IH; auto. apply good_step; auto.
Qed.
Definition stored (v : verifier K) (shares : list bytes) : list (N * entry) := fold_left (step v) shares [].
Lemma good_stored v shares : fits v -> Good v shares (stored v shares).
Proof.
  intros F. apply (good_fold v shares [] []); auto. split; [constructor|]. split; [intros k e []|intros s []].
Qed.
Lemma stored_ids v shares : fits v -> map e_id (map snd (stored v shares)) = map fst (stored v shares).
Proof.
  intros F. destruct (good_stored v shares F) as (_ & A & _). rewrite map_map. apply map_ext_in.
  intros [k e] Hin. cbn. symmetry. apply (A k e Hin).
Qed.
Lemma stored_nodup v shares : fits v -> NoDup (map e_id (map snd (stored v shares))).
Proof. intros F. rewrite stored_ids by auto. apply (good_stored v shares F). Qed.
Lemma step_length (v : verifier K) l s : length (step v l s) <= S (length l).
Proof. rewrite step_eq. destruct (inRange _ _); [|lia]. unfold insertNew. destruct (existsb _ _); [lia|]. rewrite app_length. cbn. lia. Qed.

(** Shares with different numbers are all stored. *)
Lemma stored_all v shares : fits v -> (forall s, In s shares -> inRange v (decodeEntry s) = true) ->
  NoDup (map (fun s => e_id (decodeEntry s)) shares) -> map snd (stored v shares) = map decodeEntry shares.
Proof.
  intros F R N.
  enough (H : forall done l, Good v done l -> map snd l = map decodeEntry done ->
              NoDup (map (fun s => e_id (decodeEntry s)) (done ++ shares)) ->
              map snd (fold_left (step v) shares l) = map decodeEntry (done ++ shares)).
  { apply (H [] []); auto. split; [constructor|]. split; [intros k e []|intros s []]. }
  clear N. induction shares as [|s rest IH]; intros done l G E N; [rewrite app_nil_r; exact E|].
  cbn [fold_left]. replace (done ++ s :: rest) with ((done ++ [s]) ++ rest) in * by (rewrite <- app_assoc; reflexivity).
  apply IH; [intros; apply R; cbn; auto|apply good_step; auto| |exact N].
  rewrite step_eq, (R s) by (cbn; auto). assert (R' := R s (or_introl eq_refl)). apply inRange_ok in R'.
  rewrite N.mod_small by (pose proof (fits_ids v F); lia).
  unfold insertNew. destruct (existsb (fun p => N.eqb _ (fst p)) l) eqn:Ex.
  - exfalso. apply existsb_exists in Ex as ([k e] & Hin & Hk). apply N.eqb_eq in Hk. cbn [fst] in Hk.
    destruct G as (_ & A & _). destruct (A k e Hin) as (E1 & _ & s' & Hs' & E2).
    rewrite <- app_assoc, map_app in N. apply NoDup_remove_2 in N. apply N. rewrite in_app_iff. left.
    apply in_map_iff. exists s'. split; auto. rewrite E2. congruence.
  - rewrite !map_app, E. reflexivity.
Qed.

(** ---------- the job ---------- *)
Definition isOrder (ord : list entry -> list entry) : Prop := forall l, Permutation (ord l) l.

Lemma okShare_dec (v : verifier K) ver s : {okShare v ver s} + {~ okShare v ver s}.
Proof.
  unfold okShare. destruct (Nat.eq_dec (length s) ENTRY) as [L|L]; [|right; tauto].
  destruct ver; [|left; split; [auto|discriminate]].
  destruct (N.eq_dec (e_id (decodeEntry s)) (maxShareID v)) as [E|E]; [right|left]; tauto.
Qed.
Lemma all_okShare_dec (v : verifier K) ver shares :
  (forall s, In s shares -> okShare v ver s) \/ exists s, In s shares /\ ~ okShare v ver s.
Proof.
  induction shares as [|s rest IH]; [left; intros s []|]. destruct (okShare_dec v ver s) as [H|H].
  - destruct IH as [IH|(x & Hx & Nx)]; [left; intros x [<-|Hx]; auto|right; exists x; cbn; auto].
  - right. exists s. cbn. auto.
Qed.

Lemma combine_ok v ord m ver shares : wellFormed v -> fits v -> length (stored v shares) <= v_signers v ->
  (forall s, In s shares -> okShare v ver s) ->
  combine vb v ord m ver shares =
  Some (mkA (stored v shares) m ver (if ver then fold_left (stepInv vb v m) shares [] else []),
        concat (map encodeEntry (ord (map snd (stored v shares))))).
Proof.
  intros W F L H. unfold combine, newAccumulator, setExpectedDigest. cbn [a_sigs a_verification a_invalid].
  rewrite addAll_spec by (auto; cbn [a_verification]; auto). cbn [a_sigs a_digest a_verification a_invalid].
  unfold getFullSignedData. cbn [a_sigs]. fold (stored v shares). rewrite fits_buffer by auto.
  assert (E : (requiredLength v <? length (stored v shares) * ENTRY) = false).
  { apply Nat.ltb_ge. unfold requiredLength. apply Nat.mul_le_mono_r. exact L. }
  rewrite E. reflexivity.
Qed.
Lemma combine_some v ord m ver shares a sig : wellFormed v -> fits v ->
  combine vb v ord m ver shares = Some (a, sig) ->
  (forall s, In s shares -> okShare v ver s) /\
  a = mkA (stored v shares) m ver (if ver then fold_left (stepInv vb v m) shares [] else []) /\
  sig = concat (map encodeEntry (ord (map snd (stored v shares)))).
Proof.
  intros W F H. destruct (all_okShare_dec v ver shares) as [Ok|(s & Hs & Ns)].
  - split; auto. revert H. unfold combine, newAccumulator, setExpectedDigest. cbn [a_sigs a_verification a_invalid].
    rewrite addAll_spec by (auto; cbn [a_verification]; auto). cbn [a_sigs a_digest a_verification a_invalid].
    unfold getFullSignedData. cbn [a_sigs]. fold (stored v shares).
    destruct (_ <? _); [discriminate|]. intros H. injection H as <- <-. auto.
  - exfalso. unfold combine in H. rewrite (addAll_bad vb v shares _ s) in H; auto. discriminate.
Qed.
Lemma combine_bad v ord m ver shares s : wellFormed v -> In s shares -> ~ okShare v ver s -> combine vb v ord m ver shares = None.
Proof. intros W Hs Ns. unfold combine. rewrite (addAll_bad vb v shares _ s); auto. Qed.

Lemma stored_wf v ver shares e : fits v -> (forall s, In s shares -> okShare v ver s) -> In e (map snd (stored v shares)) ->
  length (e_sig e) = 64 /\ (e_id e < 2 ^ 64)%N.
Proof.
  intros F Ok Hin. apply in_map_iff in Hin as ([k e'] & <- & Hin). cbn.
  destruct (good_stored v shares F) as (_ & A & _). destruct (A k e' Hin) as (_ & R & s & Hs & <-). split.
  - apply decode_sig_length. apply (Ok s Hs).
  - pose proof (fits_ids v F). change (2 ^ 32)%N with 4294967296%N in *. change (2 ^ 64)%N with 18446744073709551616%N. lia.
Qed.

Lemma perm_in (ord : list entry -> list entry) l e : isOrder ord -> In e (ord l) <-> In e l.
Proof. intros O. split; apply Permutation_in; [apply O|apply Permutation_sym, O]. Qed.
Lemma filter_perm {A} (f : A -> bool) l l' : Permutation l l' -> Permutation (filter f l) (filter f l').
Proof.
  induction 1; cbn; auto.
  - destruct (f x); auto.
  - destruct (f x), (f y); auto. apply perm_swap.
  - eapply Permutation_trans; eauto.
Qed.

Lemma verify_stored v ord m ver shares : wellFormed v -> fits v -> isOrder ord -> (forall s, In s shares -> okShare v ver s) ->
  let sig := concat (map encodeEntry (ord (map snd (stored v shares)))) in
  length sig mod ENTRY = 0 /\ entries sig = ord (map snd (stored v shares)) /\
  verify vb v m sig = Some (v_threshold v <=? length (filter (validb vb v m) (map snd (stored v shares)))).
Proof.
  intros W F O Ok sig.
  assert (H : forall e, In e (ord (map snd (stored v shares))) -> length (e_sig e) = 64 /\ (e_id e < 2 ^ 64)%N).
  { intros e He. apply (stored_wf v ver shares e F Ok). apply (perm_in ord _ e O). exact He. }
  assert (L : length sig mod ENTRY = 0).
  { unfold sig. rewrite concat_length by (intros; apply H; auto). rewrite Nat.mul_comm. apply Nat.mod_mul. unfold ENTRY. lia. }
  assert (E : entries sig = ord (map snd (stored v shares))) by (apply entries_concat; exact H).
  split; [exact L|]. split; [exact E|]. rewrite verify_eq by exact L. rewrite E. f_equal. f_equal.
  apply Permutation_length, filter_perm, O.
Qed.

Lemma quorum_of_entries v m sig : wellFormed v -> length sig mod ENTRY = 0 ->
  NoDup (map e_id (filter (validb vb v m) (entries sig))) ->
  v_threshold v <= length (filter (validb vb v m) (entries sig)) -> QuorumSigned vb v m sig.
Proof.
  intros W L N T. exists (map e_id (filter (validb vb v m) (entries sig))). split; [split|].
  - exact N.
  - intros id Hin. apply in_map_iff in Hin as (e & <- & He). apply filter_In in He as [He Hv].
    exists (e_sig e). split; [|apply (validb_ok vb v m e W); exact Hv].
    apply In_nth_error in He as [i Hi]. apply (entry_at_lists sig i). apply entry_at; auto.
  - rewrite map_length. exact T.
Qed.

Lemma nodup_map_filter {A B} (g : A -> B) f l : NoDup (map g l) -> NoDup (map g (filter f l)).
Proof.
  induction l as [|x l IH]; cbn; intros H; [constructor|]. inversion H; subst. destruct (f x); cbn; auto.
  constructor; auto. intros Hin. apply H2. apply in_map_iff in Hin as (y & E & Hy). apply filter_In in Hy as [Hy _].
  apply in_map_iff. eauto.
Qed.

Lemma combined_quorum v ord m ver shares : wellFormed v -> fits v -> isOrder ord -> (forall s, In s shares -> okShare v ver s) ->
  verify vb v m (concat (map encodeEntry (ord (map snd (stored v shares))))) = Some true ->
  QuorumSigned vb v m (concat (map encodeEntry (ord (map snd (stored v shares))))).
Proof.
  intros W F O Ok H. destruct (verify_stored v ord m ver shares W F O Ok) as (L & E & V).
  assert (H' : (v_threshold v <=? length (filter (validb vb v m) (map snd (stored v shares)))) = true) by congruence.
  apply Nat.leb_le in H'.
  apply quorum_of_entries; auto; rewrite E.
  - apply nodup_map_filter. apply (Permutation_NoDup (l := map e_id (map snd (stored v shares)))).
    + apply Permutation_map, Permutation_sym, O.
    + apply stored_nodup; exact F.
  - rewrite (Permutation_length (filter_perm (validb vb v m) _ _ (O (map snd (stored v shares))))). exact H'.
Qed.

(** The set of blamed ids. *)
Lemma addSet_in x y l : In x (addSet y l) <-> x = y \/ In x l.
Proof.
  unfold addSet. destruct (existsb (N.eqb y) l) eqn:E; [|cbn; intuition].
  apply existsb_exists in E as (z & Hz & E). apply N.eqb_eq in E. subst z. split; [auto|intros [->|H]; auto].
Qed.
Lemma blamed v m shares : forall l x, In x (fold_left (stepInv vb v m) shares l) <->
  In x l \/ exists s, In s shares /\ e_id (decodeEntry s) = x /\ inRange v (decodeEntry s) = true /\ validb vb v m (decodeEntry s) = false.
Proof.
  induction shares as [|s rest IH]; intros l x; cbn [fold_left].
  - split; [auto|]. intros [H|(s & [] & _)]. exact H.
  - rewrite IH. unfold stepInv. fold (inRange v (decodeEntry s)).
    assert (E : ((e_id (decodeEntry s) =? 0) || (maxShareID v <? e_id (decodeEntry s)))%N = negb (inRange v (decodeEntry s)))
      by (unfold inRange; rewrite negb_involutive; reflexivity).
    rewrite E. destruct (inRange v (decodeEntry s)) eqn:R; cbn [negb].
    + destruct (validb vb v m (decodeEntry s)) eqn:V.
      * split; [intros [H|(y & Hy & A & B & C)]; [auto|right; exists y; cbn; auto]|].
        intros [H|(y & [<-|Hy] & A & B & C)]; [auto|congruence|right; exists y; auto].
      * rewrite addSet_in. split.
        -- intros [[->|H]|(y & Hy & A & B & C)]; [right; exists s; cbn; auto|auto|right; exists y; cbn; auto].
        -- intros [H|(y & [<-|Hy] & A & B & C)]; [auto|left; auto|right; exists y; auto].
    + split; [intros [H|(y & Hy & A & B & C)]; [auto|right; exists y; cbn; auto]|].
      intros [H|(y & [<-|Hy] & A & B & C)]; [auto|congruence|right; exists y; auto].
Qed.
End S.
