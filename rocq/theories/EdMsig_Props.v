(** C34: what a verifying combined signature proves.  The scheme [vb] (which signatures a key accepts) is arbitrary. *)
From Coq Require Import List Arith NArith Lia Bool Permutation.
From Verif Require Import Lib_Bytes EdMsig_Model EdMsig_Proofs EdMsig_Proofs2.
Import ListNotations.

(** verify, exactly: a buffer whose length is not a multiple of 72 aborts the process; any other is accepted iff at least
    [threshold] POSITIONS of it hold a valid share.  Positions, not signers. *)
Theorem C34_verify_exact : forall (K : Type) (vb : K -> bytes -> bytes -> bool) (v : verifier K) (m sig : bytes),
  wellFormed v ->
  (length sig mod 72 <> 0 -> verify vb v m sig = None) /\
  (length sig mod 72 = 0 ->
   exists b, verify vb v m sig = Some b /\
     (b = true <-> exists ps, NoDup ps /\ v_threshold v <= length ps /\
        forall p, In p ps -> exists id share, EntryAt sig p id share /\ ValidShare vb v m id share)).
Proof.
  intros K vb v m sig W. split; [apply verify_none|]. intros L. eexists. split; [apply verify_eq; exact L|].
  rewrite Nat.leb_le. split.
  - intros T. exists (positions (validb vb v m) (entries sig)). split; [apply positions_nodup|].
    split; [rewrite positions_length; exact T|]. intros p Hp. apply positions_in in Hp as (e & E & V).
    exists (e_id e), (e_sig e). split; [apply entry_at; auto|]. apply validb_ok; auto.
  - intros (ps & N & T & H). etransitivity; [exact T|]. apply filter_ge; [exact N|].
    intros p Hp. destruct (H p Hp) as (id & s & E & V). apply entry_at_inv in E as [_ E]. exists (mkE id s). split; auto.
    apply validb_ok; auto.
Qed.
Print Assumptions C34_verify_exact.

(** The property proper, for buffers that do not list a signer twice: what verify accepts was signed by at least
    [threshold] different signers.  Missing: verify does not check that the signers are different
    ([C34_one_signer_suffices_refuted]). *)
Theorem C34_different_signers_partial : forall (K : Type) (vb : K -> bytes -> bytes -> bool) (v : verifier K) (m sig : bytes),
  wellFormed v ->
  verify vb v m sig = Some true ->
  (forall i j id s s', EntryAt sig i id s -> EntryAt sig j id s' -> i = j) ->
  QuorumSigned vb v m sig.
Proof.
  intros K vb v m sig W V D.
  assert (L : length sig mod ENTRY = 0).
  { destruct (Nat.eq_dec (length sig mod ENTRY) 0); auto. rewrite (verify_none vb v m sig) in V by auto. discriminate. }
  rewrite verify_eq in V by exact L. assert (T : v_threshold v <= length (filter (validb vb v m) (entries sig))).
  { apply Nat.leb_le. congruence. }
  apply quorum_of_entries; auto. apply nodup_map_filter. apply NoDup_nth_error. intros i j Hi E.
  rewrite map_length in Hi. rewrite !nth_error_map in E.
  destruct (nth_error (entries sig) i) as [e|] eqn:Ei; [|apply nth_error_None in Ei; lia].
  destruct (nth_error (entries sig) j) as [e'|] eqn:Ej; [|discriminate]. cbn in E.
  apply entry_at in Ei; auto. apply entry_at in Ej; auto. assert (Ee : e_id e = e_id e') by congruence. rewrite <- Ee in Ej.
  exact (D i j _ _ _ Ei Ej).
Qed.
Print Assumptions C34_different_signers_partial.

(** One signer is enough to satisfy any threshold: it lists its own share [threshold] times. *)
Theorem C34_one_signer_suffices_refuted : forall (K : Type) (vb : K -> bytes -> bytes -> bool) (v : verifier K) m id share,
  wellFormed v -> fits v -> length share = 64 -> ValidShare vb v m id share ->
  let sig := concat (repeat (encodeEntry (mkE id share)) (v_threshold v)) in
  verify vb v m sig = Some true /\
  (forall ids, Certifies vb v m sig ids -> length ids <= 1) /\
  (2 <= v_threshold v -> ~ QuorumSigned vb v m sig).
Proof.
  intros K vb v m id share W F L V sig.
  assert (R : (id < 2 ^ 64)%N).
  { destruct V as [R _]. pose proof (fits_ids v F) as Q. unfold maxShareID in Q.
    change (2 ^ 32)%N with 4294967296%N in *. change (2 ^ 64)%N with 18446744073709551616%N. lia. }
  assert (Es : sig = concat (map encodeEntry (repeat (mkE id share) (v_threshold v)))).
  { unfold sig. rewrite map_repeat. reflexivity. }
  assert (H : forall e, In e (repeat (mkE id share) (v_threshold v)) -> length (e_sig e) = 64 /\ (e_id e < 2 ^ 64)%N).
  { intros e He. apply repeat_spec in He. rewrite He. auto. }
  assert (Ee : entries sig = repeat (mkE id share) (v_threshold v)) by (rewrite Es; apply entries_concat; exact H).
  assert (Lm : length sig mod ENTRY = 0).
  { rewrite Es, concat_length by (intros; apply H; auto). rewrite Nat.mul_comm. apply Nat.mod_mul. unfold ENTRY. lia. }
  assert (A : verify vb v m sig = Some true).
  { rewrite verify_eq by exact Lm. rewrite Ee. f_equal. apply Nat.leb_le.
    assert (G : validb vb v m (mkE id share) = true) by (apply validb_ok; auto).
    generalize (v_threshold v). intros t. induction t as [|t IH]; [apply Nat.le_refl|]. cbn [repeat filter]. rewrite G. cbn [length]. lia. }
  assert (B : forall ids, Certifies vb v m sig ids -> length ids <= 1).
  { intros ids [N C]. change 1 with (length [id]). apply NoDup_incl_length; auto. intros i Hi. left.
    destruct (C i Hi) as (s & (pre & b & post & E & Lp & R2) & _).
    assert (EA : EntryAt sig (length pre / ENTRY) i s).
    { exists pre, b, post. split; [exact E|]. split; [|exact R2].
      pose proof (Nat.div_mod (length pre) ENTRY ltac:(unfold ENTRY; lia)). lia. }
    apply entry_at_inv in EA as [_ EA]. rewrite Ee in EA. apply nth_error_In, repeat_spec in EA. congruence. }
  split; [exact A|]. split; [exact B|]. intros T (ids & C & Q). specialize (B ids C). lia.
Qed.
Print Assumptions C34_one_signer_suffices_refuted.

(** So one faulty signer holds verifying certificates for any two digests it signs: certificates do not intersect. *)
Theorem C34_two_certificates_refuted : forall (K : Type) (vb : K -> bytes -> bytes -> bool) (v : verifier K) m1 m2 id s1 s2,
  wellFormed v -> fits v -> length s1 = 64 -> length s2 = 64 -> ValidShare vb v m1 id s1 -> ValidShare vb v m2 id s2 ->
  exists sig1 sig2, verify vb v m1 sig1 = Some true /\ verify vb v m2 sig2 = Some true /\
    forall i s, (Lists sig1 i s \/ Lists sig2 i s) -> i = id.
Proof.
  intros K vb v m1 m2 id s1 s2 W F L1 L2 V1 V2.
  exists (concat (repeat (encodeEntry (mkE id s1)) (v_threshold v))), (concat (repeat (encodeEntry (mkE id s2)) (v_threshold v))).
  split; [apply C34_one_signer_suffices_refuted; auto|]. split; [apply C34_one_signer_suffices_refuted; auto|].
  assert (R : (id < 2 ^ 64)%N).
  { destruct V1 as [R _]. pose proof (fits_ids v F) as Q. unfold maxShareID in Q.
    change (2 ^ 32)%N with 4294967296%N in *. change (2 ^ 64)%N with 18446744073709551616%N. lia. }
  assert (G : forall s0, length s0 = 64 -> forall i s, Lists (concat (repeat (encodeEntry (mkE id s0)) (v_threshold v))) i s -> i = id).
  { intros s0 L0 i s (pre & b & post & E & Lp & R2).
    assert (EA : EntryAt (concat (repeat (encodeEntry (mkE id s0)) (v_threshold v))) (length pre / ENTRY) i s).
    { exists pre, b, post. split; [exact E|]. split; [|exact R2].
      pose proof (Nat.div_mod (length pre) ENTRY ltac:(unfold ENTRY; lia)). lia. }
    apply entry_at_inv in EA as [_ EA]. rewrite <- map_repeat in EA. rewrite entries_concat in EA.
    - apply nth_error_In, repeat_spec in EA. congruence.
    - intros e He. apply repeat_spec in He. rewrite He. auto. }
  intros i s [H|H]; [apply (G s1 L1 i s H)|apply (G s2 L2 i s H)].
Qed.
Print Assumptions C34_two_certificates_refuted.

(** A certificate that a collector combined from shares, whatever the shares and whatever the iteration order of the hash
    map, was signed by at least [threshold] different signers. *)
Theorem C34_combined_sound : forall (K : Type) (vb : K -> bytes -> bytes -> bool) (v : verifier K) ord1 ord2 m shares sig,
  wellFormed v -> fits v -> isOrder ord1 -> isOrder ord2 ->
  job vb v ord1 ord2 m shares = Some (JSuccess sig) -> QuorumSigned vb v m sig.
Proof.
  intros K vb v ord1 ord2 m shares sig W F O1 O2 H. unfold job in H.
  destruct (combine vb v ord1 m false shares) as [[a s1]|] eqn:C1; [|discriminate].
  apply combine_some in C1 as (Ok1 & _ & E1); auto.
  destruct (verify vb v m s1) as [[|]|] eqn:V1; [| |discriminate].
  - injection H as <-. rewrite E1 in *. apply (combined_quorum vb v ord1 m false); auto.
  - destruct (combine vb v ord2 m true shares) as [[a2 s2]|] eqn:C2; [|discriminate].
    apply combine_some in C2 as (Ok2 & _ & E2); auto.
    destruct (verify vb v m s2) as [[|]|] eqn:V2; [|discriminate|discriminate].
    injection H as <-. rewrite E2 in *. apply (combined_quorum vb v ord2 m true); auto.
Qed.
Print Assumptions C34_combined_sound.

(** One share per signer (as correct replicas send them), any of them possibly invalid: the job never aborts, it succeeds
    exactly when at least [threshold] of the shares are valid, and otherwise it blames exactly the replicas (numbered from
    0) whose share is invalid. *)
Theorem C34_job_exact : forall (K : Type) (vb : K -> bytes -> bytes -> bool) (v : verifier K) ord1 ord2 m (es : list entry),
  wellFormed v -> fits v -> isOrder ord1 -> isOrder ord2 ->
  (forall e, In e es -> (1 <= e_id e <= N.of_nat (v_signers v))%N /\ length (e_sig e) = 64) ->
  NoDup (map e_id es) ->
  let enough := exists ids, NoDup ids /\ v_threshold v <= length ids /\
                  forall id, In id ids -> exists s, In (mkE id s) es /\ ValidShare vb v m id s in
  (enough -> exists sig, job vb v ord1 ord2 m (map encodeEntry es) = Some (JSuccess sig)) /\
  (~ enough -> exists bad, job vb v ord1 ord2 m (map encodeEntry es) = Some (JFailed bad) /\
     forall r, In r bad <-> exists s, In (mkE (r + 1) s) es /\ ~ ValidShare vb v m (r + 1) s).
Proof.
  intros K vb v ord1 ord2 m es W F O1 O2 R N enough.
  pose proof (fits_ids v F) as Fi. assert (Fm := Fi). unfold maxShareID in Fm.
  change (2 ^ 32)%N with 4294967296%N in *.
  assert (D : map decodeEntry (map encodeEntry es) = es).
  { rewrite map_map. rewrite <- (map_id es) at 2. apply map_ext_in. intros e He. destruct (R e He).
    apply decode_encode; auto. change (2 ^ 64)%N with 18446744073709551616%N. lia. }
  assert (Dd : forall e, In e es -> decodeEntry (encodeEntry e) = e).
  { intros e He. destruct (R e He). apply decode_encode; auto. change (2 ^ 64)%N with 18446744073709551616%N. lia. }
  assert (Ok : forall ver s, In s (map encodeEntry es) -> okShare v ver s).
  { intros ver s Hs. apply in_map_iff in Hs as (e & <- & He). destruct (R e He). split; [apply encode_length; auto|].
    intros _. rewrite Dd by auto. unfold maxShareID. lia. }
  assert (Sn : map snd (stored v (map encodeEntry es)) = es).
  { rewrite stored_all; auto.
    - intros s Hs. apply in_map_iff in Hs as (e & <- & He). rewrite Dd by auto. apply inRange_ok. unfold maxShareID.
      destruct (R e He). lia.
    - rewrite map_map. rewrite (map_ext_in _ e_id); auto. intros e He. rewrite Dd; auto. }
  assert (Ls : length (stored v (map encodeEntry es)) <= v_signers v).
  { rewrite <- (map_length snd), Sn. rewrite <- (map_length e_id).
    rewrite <- (seq_length (v_signers v) 1). rewrite <- (map_length N.of_nat (seq 1 (v_signers v))).
    apply NoDup_incl_length; auto. intros x Hx. apply in_map_iff in Hx as (e & <- & He). destruct (R e He) as [R1 _].
    apply in_map_iff. exists (N.to_nat (e_id e)). split; [apply N2Nat.id|]. apply in_seq. lia. }
  assert (Q : enough <-> v_threshold v <= length (filter (validb vb v m) es)).
  { split.
    - intros (ids & Ni & T & H). etransitivity; [exact T|]. rewrite <- (map_length e_id (filter _ es)).
      apply NoDup_incl_length; auto. intros id Hid. destruct (H id Hid) as (s & Hs & V).
      apply in_map_iff. exists (mkE id s). split; auto. apply filter_In. split; auto. apply validb_ok; auto.
    - intros T. exists (map e_id (filter (validb vb v m) es)). split; [apply nodup_map_filter; auto|].
      split; [rewrite map_length; exact T|]. intros id Hid. apply in_map_iff in Hid as ([i s] & <- & He).
      apply filter_In in He as [He V]. exists s. split; auto. apply (validb_ok vb v m _ W) in V. exact V. }
  assert (J : job vb v ord1 ord2 m (map encodeEntry es) =
    if v_threshold v <=? length (filter (validb vb v m) es)
    then Some (JSuccess (concat (map encodeEntry (ord1 es))))
    else Some (JFailed (map (fun i => i - 1)%N (fold_left (stepInv vb v m) (map encodeEntry es) [])))).
  { unfold job. rewrite combine_ok by auto.
    destruct (verify_stored vb v ord1 m false _ W F O1 (Ok false)) as (_ & _ & V1). rewrite V1, Sn.
    destruct (v_threshold v <=? length (filter (validb vb v m) es)) eqn:T; [reflexivity|].
    rewrite combine_ok by auto.
    destruct (verify_stored vb v ord2 m true _ W F O2 (Ok true)) as (_ & _ & V2). rewrite V2, Sn, T. reflexivity. }
  split.
  - intros En. apply Q in En. apply Nat.leb_le in En. rewrite J, En. eauto.
  - intros En. assert (T : (v_threshold v <=? length (filter (validb vb v m) es)) = false).
    { apply Nat.leb_gt. apply Nat.nle_gt. intros T. apply En, Q, T. }
    rewrite J, T. eexists. split; [reflexivity|]. intros r. rewrite in_map_iff. split.
    + intros (x & <- & Hx). apply blamed in Hx as [[]|(s & Hs & E & Ri & V)].
      apply in_map_iff in Hs as (e & <- & He). rewrite Dd in * by auto. destruct (R e He) as [R1 _].
      exists (e_sig e). replace (x - 1 + 1)%N with (e_id e) by lia. split; [destruct e; exact He|].
      intros Vs. apply (validb_ok vb v m e W) in Vs. congruence.
    + intros (s & He & Ns). exists (r + 1)%N. split; [lia|]. apply blamed. right. exists (encodeEntry (mkE (r + 1) s)).
      split; [apply in_map; exact He|]. rewrite Dd by auto. split; [reflexivity|]. split.
      * apply inRange_ok. destruct (R _ He). unfold maxShareID. lia.
      * destruct (validb vb v m (mkE (r + 1) s)) eqn:V; [|reflexivity]. apply (validb_ok vb v m _ W) in V. contradiction.
Qed.
Print Assumptions C34_job_exact.

(** What a signer signs is a share that counts: [threshold] correct signers always get a verifying certificate. *)
Theorem C34_signed_shares_combine : forall (K : Type) (vb : K -> bytes -> bytes -> bool) (v : verifier K) ord1 ord2 m
    (sign : N -> bytes -> bytes) (ids : list N),
  wellFormed v -> fits v -> isOrder ord1 -> isOrder ord2 -> NoDup ids -> v_threshold v <= length ids ->
  (forall id, In id ids -> (1 <= id <= N.of_nat (v_signers v))%N) ->
  (forall id k, In id ids -> nth_error (v_keys v) (N.to_nat id) = Some k -> vb k m (sign id m) = true) ->
  (forall id, length (sign id m) = 64) ->
  exists sig, job vb v ord1 ord2 m (map (fun id => signData id (sign id) m) ids) = Some (JSuccess sig) /\ QuorumSigned vb v m sig.
Proof.
  intros K vb v ord1 ord2 m sign ids W F O1 O2 N T R V L.
  assert (E : map (fun id => signData id (sign id) m) ids = map encodeEntry (map (fun id => mkE id (sign id m)) ids)).
  { rewrite map_map. reflexivity. }
  rewrite E.
  destruct (C34_job_exact K vb v ord1 ord2 m (map (fun id => mkE id (sign id m)) ids) W F O1 O2) as [H _].
  - intros e He. apply in_map_iff in He as (id & <- & Hid). cbn. auto.
  - rewrite map_map. cbn [e_id]. rewrite map_id. exact N.
  - destruct H as [sig H].
    + exists ids. split; [exact N|]. split; [exact T|]. intros id Hid. exists (sign id m). split; [apply in_map_iff; eauto|].
      split; [auto|]. destruct (nth_error (v_keys v) (N.to_nat id)) as [k|] eqn:Ek.
      * exists k. split; [reflexivity|]. apply (V id k); auto.
      * exfalso. apply nth_error_None in Ek. unfold wellFormed in W. specialize (R id Hid). lia.
    + exists sig. split; [exact H|]. eapply (C34_combined_sound K vb v ord1 ord2 m); [exact W|exact F|exact O1|exact O2|exact H].
Qed.
Print Assumptions C34_signed_shares_combine.

(** The length of a share comes from the message ([SignedShareBase::_validate] only bounds it by the message size): one
    share of another length aborts the collector, whatever the other shares. *)
Theorem C34_wrong_length_aborts_refuted : forall (K : Type) (vb : K -> bytes -> bytes -> bool) (v : verifier K) ord1 ord2 m shares s,
  wellFormed v -> In s shares -> length s <> 72 -> job vb v ord1 ord2 m shares = None.
Proof.
  intros K vb v ord1 ord2 m shares s W Hs L. unfold job. rewrite (combine_bad vb v ord1 m false shares s); auto.
  intros [H _]. apply L. exact H.
Qed.
Print Assumptions C34_wrong_length_aborts_refuted.

(** A share numbered n + 1 passes the check of add and is then looked up outside the vector of keys, as soon as the first
    verification fails. *)
Theorem C34_share_out_of_bounds_refuted : forall (K : Type) (vb : K -> bytes -> bytes -> bool) (v : verifier K) ord1 ord2 m shares s,
  wellFormed v -> fits v -> isOrder ord1 ->
  In s shares -> unle (firstn 8 s) = (N.of_nat (v_signers v) + 1)%N ->
  (forall sig, job vb v ord1 ord2 m shares = Some (JSuccess sig) -> False) ->
  job vb v ord1 ord2 m shares = None.
Proof.
  intros K vb v ord1 ord2 m shares s W F O1 Hs E NS.
  destruct (job vb v ord1 ord2 m shares) as [[sig|bad]|] eqn:J; [exfalso; eapply NS; reflexivity| |reflexivity].
  exfalso. clear NS. unfold job in J. destruct (combine vb v ord1 m false shares) as [[a s1]|]; [|discriminate].
  destruct (verify vb v m s1) as [[|]|]; [discriminate| |discriminate].
  rewrite (combine_bad vb v ord2 m true shares s) in J; auto; [discriminate|].
  intros [_ H]. apply (H eq_refl). exact E.
Qed.
Print Assumptions C34_share_out_of_bounds_refuted.

Lemma not_valid_first {K} (vb : K -> bytes -> bytes -> bool) (v : verifier K) m f g rest :
  wellFormed v -> fits v -> (1 <= e_id f <= N.of_nat (v_signers v))%N -> length (e_sig f) = 64 -> length (e_sig g) = 64 ->
  e_id g = e_id f -> ~ ValidShare vb v m (e_id f) (e_sig f) ->
  length (filter (validb vb v m) (map snd (stored v (encodeEntry f :: encodeEntry g :: rest)))) <= length rest /\
  length (stored v (encodeEntry f :: encodeEntry g :: rest)) <= S (length rest).
Proof.
  intros W F R Lf Lg Eg Nv. pose proof (fits_ids v F) as Fi. unfold maxShareID in Fi. change (2 ^ 32)%N with 4294967296%N in Fi.
  assert (Df : decodeEntry (encodeEntry f) = f)
    by (apply decode_encode; auto; change (2 ^ 64)%N with 18446744073709551616%N; lia).
  assert (Dg : decodeEntry (encodeEntry g) = g)
    by (apply decode_encode; auto; change (2 ^ 64)%N with 18446744073709551616%N; lia).
  assert (Rf : inRange v f = true) by (apply inRange_ok; unfold maxShareID; lia).
  assert (Rg : inRange v g = true) by (apply inRange_ok; unfold maxShareID; lia).
  unfold stored. cbn [fold_left]. rewrite (step_eq v [] _), Df, Rf. rewrite step_eq, Dg, Rg.
  rewrite Eg. unfold insertNew at 2 4. cbn [existsb app]. unfold insertNew. cbn [existsb fst]. rewrite N.eqb_refl. cbn [orb].
  assert (Hv : validb vb v m f = false).
  { destruct (validb vb v m f) eqn:E; auto. apply (validb_ok vb v m f W) in E. contradiction. }
  assert (G : forall rest l, length (filter (validb vb v m) (map snd (fold_left (step v) rest l))) <=
                             length (filter (validb vb v m) (map snd l)) + length rest /\
                             length (fold_left (step v) rest l) <= length l + length rest).
  { clear. induction rest as [|s rest IH]; intros l; cbn [fold_left length]; [lia|].
    destruct (IH (step v l s)) as [A B]. pose proof (step_length v l s).
    assert (C : length (filter (validb vb v m) (map snd (step v l s))) <= S (length (filter (validb vb v m) (map snd l)))).
    { rewrite step_eq. destruct (inRange _ _); [|lia]. unfold insertNew. destruct (existsb _ _); [lia|].
      rewrite map_app, filter_app, app_length. cbn [map snd filter]. destruct (validb _ _ _ _); cbn; lia. }
    lia. }
  destruct (G rest [(e_id f mod 2 ^ 32, f)%N]) as [A B]. cbn [map snd filter length] in A, B. rewrite Hv in A. cbn [length] in A. lia.
Qed.

(** The number in a share is not tied to the replica that sent it.  A faulty replica sends a share with the number of a
    correct replica [j] and a wrong signature; if its message is processed first, the correct replica's valid share is
    dropped, the job fails whatever the remaining shares are, and the correct replica is among those blamed, while its own
    share is valid. *)
Theorem C34_blames_the_innocent_refuted : forall (K : Type) (vb : K -> bytes -> bytes -> bool) (v : verifier K) ord1 ord2 m j good forged rest,
  wellFormed v -> fits v -> isOrder ord1 -> isOrder ord2 -> v_threshold v <= v_signers v ->
  ValidShare vb v m j good -> length good = 64 -> length forged = 64 -> ~ ValidShare vb v m j forged ->
  S (S (length rest)) = v_threshold v ->
  (forall s, In s rest -> length s = 72 /\ unle (firstn 8 s) <> (N.of_nat (v_signers v) + 1)%N) ->
  exists bad, job vb v ord1 ord2 m (encodeEntry (mkE j forged) :: encodeEntry (mkE j good) :: rest) = Some (JFailed bad) /\
    In (j - 1)%N bad.
Proof.
  intros K vb v ord1 ord2 m j good forged rest W F O1 O2 T Vg Lg Lf Nf Lr Hr.
  assert (Rj : (1 <= j <= N.of_nat (v_signers v))%N) by apply Vg.
  pose proof (fits_ids v F) as Fi. assert (Fm := Fi). unfold maxShareID in Fm. change (2 ^ 32)%N with 4294967296%N in *.
  destruct (not_valid_first vb v m (mkE j forged) (mkE j good) rest W F) as [A B]; cbn [e_id e_sig]; auto.
  set (shares := encodeEntry (mkE j forged) :: encodeEntry (mkE j good) :: rest) in *.
  assert (Dj : forall x, length x = 64 -> decodeEntry (encodeEntry (mkE j x)) = mkE j x).
  { intros x Lx. apply decode_encode; cbn; auto. change (2 ^ 64)%N with 18446744073709551616%N. lia. }
  assert (Ok : forall ver s, In s shares -> okShare v ver s).
  { intros ver s [<-|[<-|Hs]].
    - split; [apply encode_length; auto|]. intros _. rewrite Dj by auto. cbn [e_id]. unfold maxShareID. lia.
    - split; [apply encode_length; auto|]. intros _. rewrite Dj by auto. cbn [e_id]. unfold maxShareID. lia.
    - destruct (Hr s Hs) as [L E]. split; [exact L|]. intros _. exact E. }
  assert (Tl : (v_threshold v <=? length (filter (validb vb v m) (map snd (stored v shares)))) = false).
  { apply Nat.leb_gt. apply (Nat.le_lt_trans _ _ _ A). rewrite <- Lr. apply Nat.lt_lt_succ_r, Nat.lt_succ_diag_r. }
  assert (Lb : length (stored v shares) <= v_signers v).
  { etransitivity; [exact B|]. etransitivity; [|exact T]. rewrite <- Lr. apply Nat.le_succ_diag_r. }
  unfold job. rewrite combine_ok by auto.
  destruct (verify_stored vb v ord1 m false shares W F O1 (Ok false)) as (_ & _ & V1). rewrite V1, Tl.
  rewrite combine_ok by auto.
  destruct (verify_stored vb v ord2 m true shares W F O2 (Ok true)) as (_ & _ & V2). rewrite V2, Tl.
  eexists. split; [reflexivity|]. apply in_map_iff. exists j. split; [reflexivity|]. cbn [getInvalidShareIds a_invalid].
  unfold getInvalidShareIds. cbn [a_invalid]. apply blamed. right. exists (encodeEntry (mkE j forged)). split; [left; reflexivity|].
  rewrite Dj by auto. split; [reflexivity|]. split; [apply inRange_ok; cbn [e_id]; unfold maxShareID; lia|].
  destruct (validb vb v m (mkE j forged)) eqn:E; [|reflexivity]. apply (validb_ok vb v m _ W) in E. contradiction.
Qed.
Print Assumptions C34_blames_the_innocent_refuted.

(** ---------- The hypotheses are met: 4 replicas, threshold 3 (f = 1), a toy scheme: the signature of key k on message m is
    64 bytes starting with k and m. *)
Definition toy (k : N) (m s : bytes) : bool :=
  (length s =? 64) && (match s, m with a :: b :: _, c :: _ => (a =? k)%N && (b =? c)%N | _, _ => false end).
Definition toySign (id : N) (m : bytes) : bytes := match m with c :: _ => id :: c :: repeat 0%N 62 | [] => [] end.
Definition toyV : verifier N := mkV [0; 1; 2; 3; 4]%N 4 3.
Definition msgA : bytes := repeat 7%N 32.
Definition msgB : bytes := repeat 9%N 32.
Example C34_toy_config : wellFormed toyV /\ fits toyV.
Proof. split; reflexivity. Qed.
Example C34_toy_combines :
  match job toy toyV (fun l => l) (@rev entry) msgA (map (fun id => signData id (toySign id) msgA) [2; 4; 1]%N) with
  | Some (JSuccess s) => verify toy toyV msgA s = Some true /\ verify toy toyV msgB s = Some false
  | _ => False
  end.
Proof. vm_compute. split; reflexivity. Qed.
(** one bad share among three: blamed *)
Example C34_toy_blame :
  job toy toyV (fun l => l) (@rev entry) msgA (map (fun id => signData id (toySign id) (if (id =? 4)%N then msgB else msgA)) [2; 4; 1]%N)
  = Some (JFailed [3%N]).
Proof. vm_compute. reflexivity. Qed.
(** replica 1 alone certifies two digests *)
Example C34_toy_forgery :
  let forge m := concat (repeat (encodeEntry (mkE 1 (toySign 1 m))) 3) in
  verify toy toyV msgA (forge msgA) = Some true /\ verify toy toyV msgB (forge msgB) = Some true.
Proof. vm_compute. split; reflexivity. Qed.
(** the innocent replica (share 2, replica 1) is blamed *)
Example C34_toy_innocent :
  job toy toyV (fun l => l) (@rev entry) msgA
    [encodeEntry (mkE 2 (toySign 2 msgB)); encodeEntry (mkE 2 (toySign 2 msgA)); encodeEntry (mkE 3 (toySign 3 msgA))]
  = Some (JFailed [1%N]).
Proof. vm_compute. reflexivity. Qed.
(** aborts *)
Example C34_toy_aborts :
  job toy toyV (fun l => l) (@rev entry) msgA [[1%N]; signData 1 (toySign 1) msgA; signData 2 (toySign 2) msgA] = None /\
  job toy toyV (fun l => l) (@rev entry) msgA
    [encodeEntry (mkE 5 (toySign 5 msgA)); signData 1 (toySign 1) msgA; signData 2 (toySign 2) msgA] = None /\
  verify toy toyV msgA [1%N] = None.
Proof. vm_compute. repeat split; reflexivity. Qed.
