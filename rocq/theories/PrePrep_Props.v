(** C20: what is known of a pre-prepare message that passes validation. Every byte string, followed by any memory. *)
From Coq Require Import List Arith NArith ZArith Bool Lia.
From Verif Require Import Lib_Bytes PrePrep_Model PrePrep_Proofs.
Import ListNotations.
Local Open Scope N_scope.

Lemma validate_inv c mem size sender : validate c mem size sender = Accept ->
  sender <> me c /\ isReplica c sender = true /\ 86 + ppSpan mem <= size /\ ppEpoch mem = epoch c /\ ppSeq mem <> 0 /\ ppEnd mem <= size /\ ppNum mem <> 0 /\ checkRequests mem = true /\
  exists l, requests mem = Some l /\ ppDigest mem = H c (digestInput c mem l) /\ (signing c = true -> fold_left (fun v i => seqv v (validateRequest c mem i)) l Accept = Accept).
Proof.
  unfold validate. intros E. destruct (N.eqb_spec sender (me c)); [discriminate|].
  destruct ((size <? 86 + ppSpan mem) || negb (isReplica c sender) || negb (ppEpoch mem =? epoch c)) eqn:E1; [discriminate|].
  match type of E with (if ?b then _ else _) = _ => destruct b eqn:E2; [discriminate|] end.
  rewrite !orb_false_iff in E1. rewrite !orb_false_iff in E2. destruct E1 as [[A1 A2] A3]. destruct E2 as [[[[[[[[[B1 B2] B3] B4] B5] B6] B7] B8] B9] B10].
  apply N.ltb_ge in A1, B7. apply negb_false_iff in A2, A3, B10. apply N.eqb_eq in A3. apply N.eqb_neq in B1, B8.
  destruct (requests mem) as [l|]; [|discriminate]. destruct (bytesEqb (H c (digestInput c mem l)) (ppDigest mem)) eqn:D; [|discriminate]. apply bytesEqb_eq in D. cbn [negb] in E.
  repeat split; auto. exists l. repeat split; auto. intros Sg. rewrite Sg in E. auto.
Qed.

(** ** The iterator visits exactly the announced number of requests, from the end of the correlation id on, each starting before the announced
    end, which lies inside the message; none of the iterator's assertions fails; the digest is that of the visited requests. *)
Theorem C20_iterates (c : config) (mem : memory) (size sender : N) : validate c mem size sender = Accept ->
  exists l, requests mem = Some (payloadShift mem :: l) /\ N.of_nat (S (length l)) = ppNum mem /\ Forall (fun i => i < ppEnd mem) (payloadShift mem :: l) /\
            ppEnd mem <= size /\ ppDigest mem = H c (digestInput c mem (payloadShift mem :: l)).
Proof.
  intros E. destruct (validate_inv _ _ _ _ E) as (_ & _ & _ & _ & _ & Z & Nz & C & l & R & D & _).
  destruct (check_requests mem Nz C) as (l' & R' & Ln & F). rewrite R in R'. injection R' as ->. exists l'. repeat split; auto.
  change (S (length l')) with (length (payloadShift mem :: l')). rewrite Ln. lia.
Qed.
Print Assumptions C20_iterates.

(** ** Validation itself never runs into one of the assertions, except when the message claims to come from this replica, or - with client
    signatures on - one of the requests names this replica as its client. *)
Theorem C20_validation_aborts_only (c : config) (mem : memory) (size sender : N) : validate c mem size sender = Abort ->
  sender = me c \/ signing c = true /\ exists l i, requests mem = Some l /\ In i l /\ rqClient mem i = me c /\ N.testbit (rqFlags mem i) RECONFIG = false /\ N.testbit (rqFlags mem i) INTERNAL = false.
Proof.
  unfold validate. intros E. destruct (N.eqb_spec sender (me c)); [auto|]. right.
  destruct ((size <? 86 + ppSpan mem) || negb (isReplica c sender) || negb (ppEpoch mem =? epoch c)); [discriminate|].
  match type of E with (if ?b then _ else _) = _ => destruct b eqn:E2; [discriminate|] end. rewrite !orb_false_iff in E2. destruct E2 as [[[_ B8] _] B10]. apply negb_false_iff in B10. apply N.eqb_neq in B8.
  destruct (check_requests mem B8 B10) as (l & R & _ & _). rewrite R in E. destruct (bytesEqb _ _); [|discriminate]. cbn [negb] in E. destruct (signing c) eqn:Sg; [|discriminate]. split; auto.
  exists (payloadShift mem :: l). revert R E. generalize (payloadShift mem :: l). clear l. intros l R E.
  assert (G : exists i, In i l /\ validateRequest c mem i = Abort).
  { clear R. revert E. induction l as [|i l IH] using rev_ind; [discriminate|]. rewrite fold_left_app. cbn [fold_left]. intros E.
    destruct (fold_left _ l Accept) eqn:E'; cbn [seqv] in E; [|discriminate|].
    - exists i. split; auto. apply in_or_app. right; left; auto.
    - destruct (IH eq_refl) as (j & Hj & V). exists j. split; auto. apply in_or_app; auto. }
  destruct G as (i & Hi & V). exists i. split; auto. split; auto. unfold validateRequest in V.
  destruct (reqSize mem i <? 52 + rqSpan mem i); [discriminate|].
  destruct (N.testbit (rqFlags mem i) RECONFIG) eqn:F1, (N.testbit (rqFlags mem i) INTERNAL) eqn:F2; cbn [orb negb andb] in V;
    repeat (match type of V with (if ?b then _ else _) = _ => destruct b eqn:?; try discriminate end). apply N.eqb_eq in Heqb. auto.
Qed.
Print Assumptions C20_validation_aborts_only.

(** ** When no announced size is too large for 32 bits, the requests tile the message: they are disjoint, inside it, and the one ends where the
    next begins. *)
Theorem C20_requests_inside (c : config) (mem : memory) (size sender : N) (l : list N) : validate c mem size sender = Accept -> noWrap mem -> requests mem = Some l ->
  tiles mem (86 + ppCidLen mem + ppSpan mem) l (ppEnd mem) /\ (forall i, In i l -> 86 + ppCidLen mem + ppSpan mem <= i /\ i + exactSize mem i <= size) /\
  (forall i, In i l -> i + 52 + rqSpan mem i + rqLen mem i + rqCidLen mem i + rqSigLen mem i <= size).
Proof.
  intros E [W0 W] R. destruct (validate_inv _ _ _ _ E) as (_ & _ & _ & _ & _ & Z & _).
  assert (T : tiles mem (86 + ppCidLen mem + ppSpan mem) l (ppEnd mem)).
  { pose proof (iterate_tiles mem _ _ _ R (W l R)) as T. unfold payloadShift in T. rewrite N.mod_small in T by auto. exact T. }
  destruct (tiles_In _ _ _ _ T) as [_ F]. split; auto. split; intros i Hi; specialize (F i Hi); [lia|]. unfold exactSize in F. lia.
Qed.
Print Assumptions C20_requests_inside.

(** ** What a correct primary builds is accepted by every replica whose checks of the single requests pass, and read back exactly: the same
    requests, the same number, view and time. *)
Theorem C20_built_accepted (c : config) (span cid : bytes) (view seqn path t : N) (rs : list bytes) (rest : memory) (sender : N) :
  (forall x, length (H c x) = 32%nat) -> view < 2 ^ 64 -> 0 < seqn < 2 ^ 64 -> epoch c < 2 ^ 64 -> path <= 2 -> (path = 1 -> cVal c <> 0) -> t < 2 ^ 64 ->
  rs <> [] -> N.of_nat (length rs) < 65536 -> Forall wellFormed rs -> N.of_nat (length (build c span cid view seqn path t rs)) < M32 ->
  sender <> me c -> isReplica c sender = true ->
  (signing c = true -> Forall (fun r => validateRequest c (memOf r (fun _ => 0)) 0 = Accept) rs) ->
  let m := build c span cid view seqn path t rs in let mem := memOf m rest in
  validate c mem (N.of_nat (length m)) sender = Accept /\ ppView mem = view /\ ppSeq mem = seqn /\ ppTime mem = t /\
  noWrap mem /\ exists l, requests mem = Some l /\ texts mem l = rs.
Proof.
  intros HL Hv [Hs0 Hs] He Hp Hpc Ht Hne Hn Hw Hz Hse Hre Hsig m mem. pose proof (built_length c span cid view seqn path t rs HL) as BL.
  assert (Hsp : N.of_nat (length span) < M32) by lia.
  assert (Q : requests mem = Some (places (start span cid) rs)) by (apply b_requests; auto).
  split; [|split; [|split; [|split; [|split]]]].
  - unfold validate. subst mem m. destruct (N.eqb_spec sender (me c)); [congruence|]. rewrite b_span, Hre, b_epoch by auto. rewrite N.eqb_refl. cbn [negb orb].
    replace (_ <? 86 + _) with false by (symmetry; apply N.ltb_ge; lia). cbn [orb]. rewrite b_seq, b_flags, b_end, b_num, b_check by auto.
    replace (seqn =? 0) with false by (symmetry; apply N.eqb_neq; lia).
    assert (P : path = 0 \/ path = 1 \/ path = 2) by lia.
    replace (N.testbit (4 * path + 2 + 1) 0) with true by (destruct P as [-> | [-> | ->]]; reflexivity). replace (N.testbit (4 * path + 2 + 1) 1) with true by (destruct P as [-> | [-> | ->]]; reflexivity).
    replace (N.land (N.shiftr (4 * path + 2 + 1) 2) 3) with path by (destruct P as [-> | [-> | ->]]; reflexivity). replace (N.shiftr (4 * path + 2 + 1) 4) with 0 by (destruct P as [-> | [-> | ->]]; reflexivity).
    replace (3 <=? path) with false by (symmetry; apply N.leb_gt; lia).
    replace ((path =? 1) && (cVal c =? 0)) with false by (symmetry; apply andb_false_iff; destruct (N.eqb_spec path 1); [right; apply N.eqb_neq; auto|left; auto]).
    assert (Ln : (length rs <= length (concat rs))%nat).
    { clear -Hw. induction Hw as [|r l W F IH]; auto. cbn [concat length]. rewrite app_length. apply wf_size in W. lia. }
    replace (N.of_nat (length (build c span cid view seqn path t rs)) <? 86 + N.of_nat (length cid) + N.of_nat (length span) + N.of_nat (length (concat rs))) with false by (symmetry; apply N.ltb_ge; lia).
    replace (N.of_nat (length rs) =? 0) with false by (symmetry; apply N.eqb_neq; destruct rs; [congruence|cbn [length]; lia]).
    replace (86 + N.of_nat (length cid) + N.of_nat (length span) + N.of_nat (length (concat rs)) <=? N.of_nat (length rs)) with false by (symmetry; apply N.leb_gt; lia).
    cbn [orb negb N.eqb]. rewrite Q. rewrite b_digestInput, b_digest by auto.
    replace (bytesEqb _ _) with true by (symmetry; apply bytesEqb_eq; reflexivity). cbn [negb].
    destruct (signing c) eqn:Sg; auto. specialize (Hsig eq_refl).
    assert (F : Forall2 (here c span cid view seqn path t rs rest) (places (start span cid) rs) rs) by (apply b_here; auto).
    assert (G : forall l l', Forall2 (here c span cid view seqn path t rs rest) l l' -> Forall (fun r => validateRequest c (memOf r (fun _ => 0)) 0 = Accept) l' -> Forall wellFormed l' ->
            fold_left (fun v i => seqv v (validateRequest c (memOf (build c span cid view seqn path t rs) rest) i)) l Accept = Accept).
    { induction 1 as [|i r l l' A F' IH]; intros V W; auto. inversion V as [|? ? Vr Vl]. inversion W as [|? ? Wr Wl]. cbn [fold_left].
      assert (X : validateRequest c (memOf (build c span cid view seqn path t rs) rest) i = Accept) by (rewrite <- Vr; eapply here_validate; eauto).
      rewrite X. cbn [seqv]. auto. }
    apply (G _ _ F); auto.
  - apply b_view; auto.
  - apply b_seq; auto.
  - apply b_time; auto.
  - split.
    + subst mem m. rewrite b_cid, b_span by auto. lia.
    + intros l R i Hi. rewrite Q in R. injection R as <-. assert (T : tiles mem (start span cid) (places (start span cid) rs) (ppEnd mem)) by (apply b_tiles; auto). destruct (tiles_In _ _ _ _ T) as [_ F]. specialize (F i Hi).
      subst mem m. rewrite b_end in F by auto. lia.
  - exists (places (start span cid) rs). split; auto. apply b_texts; auto.
Qed.
Print Assumptions C20_built_accepted.

(** ** What the digest determines. For requests without client signatures: everything, and the time - unless two of the texts hashed for these
    messages collide. *)
Definition hashed (c : config) (mem : memory) (l : list N) : list bytes := digestInput c mem l :: texts mem l.
Definition noCollision (c : config) (a b : list bytes) : Prop := forall x y, In x a -> In y b -> H c x = H c y -> x = y.
Theorem C20_digest_determines_unsigned (c : config) (mem mem' : memory) (size size' sender sender' : N) (l l' : list N) :
  (forall x, length (H c x) = 32%nat) -> bytesIn mem -> bytesIn mem' ->
  validate c mem size sender = Accept -> validate c mem' size' sender' = Accept -> noWrap mem -> noWrap mem' -> requests mem = Some l -> requests mem' = Some l' ->
  noCollision c (hashed c mem l) (hashed c mem' l') ->
  (forall i, In i l -> rqSigLen mem i = 0) -> (forall i, In i l' -> rqSigLen mem' i = 0) ->
  ppDigest mem = ppDigest mem' -> texts mem l = texts mem' l' /\ ppTime mem = ppTime mem'.
Proof.
  intros HL B B' V V' W W' R R' HI U U' E. destruct (validate_inv _ _ _ _ V) as (_ & _ & _ & _ & _ & _ & _ & _ & l0 & R0 & D & _). rewrite R in R0. injection R0 as <-.
  destruct (validate_inv _ _ _ _ V') as (_ & _ & _ & _ & _ & _ & _ & _ & l0 & R0 & D' & _). rewrite R' in R0. injection R0 as <-.
  rewrite D, D' in E. apply HI in E; [|left; auto|left; auto].
  assert (G : forall m k, noWrap m -> requests m = Some k -> (forall i, In i k -> rqSigLen m i = 0) -> digestInput c m k = concat (map (H c) (texts m k)) ++ timeText (ppTime m)).
  { intros m k [_ NW] Rk Uk. unfold digestInput, texts. rewrite map_map. f_equal. f_equal. apply map_ext_in. intros i Hi. unfold sigOrDigest. rewrite Uk by auto. cbn [N.eqb].
    unfold reqSize. rewrite N.mod_small; auto. specialize (NW k Rk i Hi). lia. }
  rewrite (G mem l), (G mem' l') in E by auto.
  assert (FX : forall k : list bytes, Forall (fun x => length x = 32%nat) (map (H c) k)) by (intros k; apply Forall_forall; intros x X; apply in_map_iff in X; destruct X as (y & <- & _); auto).
  pose proof (timeText_length (ppTime mem)) as TL. pose proof (timeText_length (ppTime mem')) as TL'.
  destruct (concat_fixed_inj 32 (map (H c) (texts mem l)) (map (H c) (texts mem' l')) (timeText (ppTime mem)) (timeText (ppTime mem'))) as [E1 E2]; auto; try lia. split.
  - revert E1. assert (HI' : forall x y, In x (texts mem l) -> In y (texts mem' l') -> H c x = H c y -> x = y) by (intros x y X Y; apply HI; right; auto).
    revert HI'. generalize (texts mem l) as a, (texts mem' l') as b. clear. induction a as [|x a IH]; intros [|y b] HI; cbn [map]; try discriminate; auto. intros E1. injection E1 as E1 E3. f_equal.
    + apply HI; auto; left; auto.
    + apply IH; auto. intros; apply HI; auto; right; auto.
  - apply timeText_inj; auto; apply u_bound with (k := 8%nat); auto.
Qed.
Print Assumptions C20_digest_determines_unsigned.

(** For requests whose client signature was verified: the client and the text it signed, in order - and nothing else of the request. All
    signatures have the same length [w]; a signature verifies for one client and one text only. *)
Definition verifiedRequest (c : config) (mem : memory) (i : N) : Prop :=
  isExternal c (rqClient mem i) = true /\ N.testbit (rqFlags mem i) RECONFIG = false /\ N.testbit (rqFlags mem i) INTERNAL = false /\ N.testbit (rqFlags mem i) HAS_PRE_PROCESSED = false /\ rqLen mem i <> 0.
Theorem C20_digest_determines_signed (c : config) (w : N) (mem mem' : memory) (size size' sender sender' : N) (l l' : list N) :
  signing c = true -> (forall cl, isExternal c cl = true -> keyLen c cl = w) -> 20 < w ->
  (forall cl cl' b b' s, verify c cl b s = true -> verify c cl' b' s = true -> cl = cl' /\ b = b') -> bytesIn mem -> bytesIn mem' ->
  validate c mem size sender = Accept -> validate c mem' size' sender' = Accept -> requests mem = Some l -> requests mem' = Some l' ->
  (forall i, In i l -> verifiedRequest c mem i) -> (forall i, In i l' -> verifiedRequest c mem' i) -> noCollision c [digestInput c mem l] [digestInput c mem' l'] ->
  ppDigest mem = ppDigest mem' ->
  map (fun i => (rqClient mem i, rqBody mem i)) l = map (fun i => (rqClient mem' i, rqBody mem' i)) l' /\ ppTime mem = ppTime mem'.
Proof.
  intros Sg KL W20 VU B B' V V' R R' U U' HI E. destruct (validate_inv _ _ _ _ V) as (_ & _ & _ & _ & _ & _ & _ & _ & l0 & R0 & D & S1). rewrite R in R0. injection R0 as <-.
  destruct (validate_inv _ _ _ _ V') as (_ & _ & _ & _ & _ & _ & _ & _ & l0 & R0 & D' & S2). rewrite R' in R0. injection R0 as <-. specialize (S1 Sg). specialize (S2 Sg).
  rewrite D, D' in E. apply HI in E; [|left; auto|left; auto].
  assert (A : forall m k, fold_left (fun v i => seqv v (validateRequest c m i)) k Accept = Accept -> forall i, In i k -> validateRequest c m i = Accept).
  { intros m k. induction k as [|j k IH] using rev_ind; intros F i Hi; [destruct Hi|]. rewrite fold_left_app in F. cbn [fold_left] in F. destruct (fold_left _ k Accept); cbn [seqv] in F; try discriminate.
    apply in_app_or in Hi. destruct Hi as [Hi|[<-|[]]]; auto. }
  assert (G : forall m i, verifiedRequest c m i -> validateRequest c m i = Accept -> rqSigLen m i = w /\ verify c (rqClient m i) (rqBody m i) (rqSig m i) = true).
  { intros m i (E1 & E2 & E3 & E4 & E5) F. unfold validateRequest in F. rewrite E1, E2, E3, E4, Sg in F. cbn [orb andb negb] in F. apply N.eqb_neq in E5. rewrite E5 in F. cbn [negb andb] in F.
    destruct (reqSize m i <? 52 + rqSpan m i); [discriminate|]. destruct (rqClient m i =? me c); [discriminate|].
    destruct (reqSize m i <? _); [discriminate|]. destruct (isPrincipal c (rqClient m i)); [|discriminate]. cbn [negb] in F.
    destruct (keyLen c (rqClient m i) =? 0); [discriminate|]. destruct (N.eqb_spec (keyLen c (rqClient m i)) (rqSigLen m i)) as [K|]; [|discriminate]. cbn [negb] in F.
    destruct (reqSize m i =? _); [|discriminate]. cbn [negb] in F. destruct (verify c (rqClient m i) (rqBody m i) (rqSig m i)); [|discriminate]. split; auto. rewrite <- K. auto. }
  assert (G1 : forall i, In i l -> rqSigLen mem i = w /\ verify c (rqClient mem i) (rqBody mem i) (rqSig mem i) = true) by (intros i Hi; apply G; [auto|apply (A _ _ S1); auto]).
  assert (G2 : forall i, In i l' -> rqSigLen mem' i = w /\ verify c (rqClient mem' i) (rqBody mem' i) (rqSig mem' i) = true) by (intros i Hi; apply G; [auto|apply (A _ _ S2); auto]).
  assert (K : forall m k, (forall i, In i k -> rqSigLen m i = w /\ verify c (rqClient m i) (rqBody m i) (rqSig m i) = true) ->
              digestInput c m k = concat (map (rqSig m) k) ++ timeText (ppTime m) /\ Forall (fun x => length x = N.to_nat w) (map (rqSig m) k)).
  { intros m k Gk. split.
    - unfold digestInput. f_equal. f_equal. apply map_ext_in. intros i Hi. unfold sigOrDigest. destruct (Gk i Hi) as [-> _]. replace (w =? 0) with false by (symmetry; apply N.eqb_neq; lia). auto.
    - apply Forall_forall. intros x X. apply in_map_iff in X. destruct X as (i & <- & Hi). unfold rqSig. rewrite rd_length. f_equal. apply Gk; auto. }
  destruct (K mem l G1) as [K1 F1]. destruct (K mem' l' G2) as [K2 F2]. rewrite K1, K2 in E.
  pose proof (timeText_length (ppTime mem)) as TL. pose proof (timeText_length (ppTime mem')) as TL'.
  destruct (concat_fixed_inj (N.to_nat w) (map (rqSig mem) l) (map (rqSig mem') l') (timeText (ppTime mem)) (timeText (ppTime mem'))) as [E1 E2]; auto; try lia. split.
  - revert E1 G1 G2. clear -VU. revert l'. induction l as [|i l IH]; destruct l' as [|j l']; cbn [map]; try discriminate; auto. intros E1 G1 G2. injection E1 as E1 E3.
    destruct (G1 i (or_introl eq_refl)) as [_ A1]. destruct (G2 j (or_introl eq_refl)) as [_ A2]. rewrite E1 in A1. destruct (VU _ _ _ _ _ A1 A2) as [-> ->]. f_equal.
    apply IH; auto; intros; [apply G1|apply G2]; right; auto.
  - apply timeText_inj; auto; apply u_bound with (k := 8%nat); auto.
Qed.
Print Assumptions C20_digest_determines_signed.

(** ** Concrete cases. *)
(** A request as bytes (ClientRequestMsg constructor, ClientRequestMsg.cpp:40-85). *)
Definition req (client flags seqn : N) (body cid sig : bytes) : bytes :=
  le 2 700 ++ le 4 0 ++ le 2 client ++ le 8 flags ++ le 4 1 ++ le 8 seqn ++ le 4 (N.of_nat (length body)) ++ le 8 0 ++ le 4 (N.of_nat (length cid)) ++
  le 2 (N.of_nat (length sig)) ++ le 4 0 ++ le 2 0 ++ body ++ cid ++ sig.
(** Four replicas 0-3, external clients from 4 to 99; replica 2 checks. *)
Definition cfg (sg : bool) (vf : N -> bytes -> bytes -> bool) (Hf : bytes -> bytes) : config :=
  mkCfg 2 (fun x => x <? 4) (fun _ => false) (fun x => (4 <=? x) && (x <? 100)) (fun x => x <? 100) 0 0 sg (fun _ => 64) vf Hf.
(** A function to 32 bytes stands for the digest. *)
Definition Hx (l : bytes) : bytes := le 32 (fold_left (fun a x => (a * 257 + x + 1) mod (2 ^ 256 - 189)) l 7).
Lemma Hx_length x : length (Hx x) = 32%nat. Proof. apply le_length. Qed.
Definition r1 := req 10 0 7 [1; 2; 3] [65] [].
Definition r2 := req 11 0 9 [4; 5] [] [].
Lemma wf_dec r : forallb (fun b => b <? 256) r && (N.of_nat (length r) =? exactSize (memOf r (fun _ => 0)) 0) = true -> wellFormed r.
Proof.
  intros E. apply andb_true_iff in E. destruct E as [A B]. apply N.eqb_eq in B. split; auto. apply Forall_forall. intros x Hx. rewrite forallb_forall in A. apply N.ltb_lt. apply A; auto.
Qed.
(** Two requests, signing off: the message is accepted and read back (whatever the digest function). *)
Example C20_example (Hf : bytes -> bytes) (rest : memory) : (forall x, length (Hf x) = 32%nat) -> let c := cfg false (fun _ _ _ => false) Hf in let m := build c [] [48; 49] 0 1 0 12345 [r1; r2] in
  validate c (memOf m rest) (N.of_nat (length m)) 1 = Accept /\ exists l, requests (memOf m rest) = Some l /\ texts (memOf m rest) l = [r1; r2].
Proof.
  intros HL c m. assert (P : N.of_nat (length m) < M32) by (subst m; rewrite built_length by apply HL; reflexivity).
  destruct (C20_built_accepted c [] [48; 49] 0 1 0 12345 [r1; r2] rest 1) as (A & _ & _ & _ & _ & B); auto; try discriminate; try reflexivity; try (cbn; lia).
  repeat constructor; apply wf_dec; vm_compute; reflexivity.
Qed.
(** The hypotheses of C20_digest_determines_unsigned, met by the messages of two views with the same requests. *)
Lemma built_bytes m : forallb (fun b => b <? 256) m = true -> bytesIn (memOf m (fun _ => 0)).
Proof. intros F i. unfold memOf. destruct (nth_in_or_default (N.to_nat i) m 0) as [X|X]; [|rewrite X; lia]. rewrite forallb_forall in F. apply N.ltb_lt. auto. Qed.
Section Mx.
Context (Hf : bytes -> bytes) (HL : forall x, length (Hf x) = 32%nat) (HB : forall x, forallb (fun b => b <? 256) (Hf x) = true).
Definition cx := cfg false (fun _ _ _ => false) Hf.
Definition mx (v : N) := build cx [] [48; 49] v 1 0 12345 [r1; r2].
Lemma mx_wf : Forall wellFormed [r1; r2]. Proof. repeat constructor; apply wf_dec; vm_compute; reflexivity. Qed.
Lemma mx_size v : N.of_nat (length (mx v)) < M32. Proof. unfold mx. rewrite built_length by apply HL. reflexivity. Qed.
Lemma mx_ok v : v < 2 ^ 64 -> bytesIn (memOf (mx v) (fun _ => 0)) /\ validate cx (memOf (mx v) (fun _ => 0)) (N.of_nat (length (mx v))) 1 = Accept /\ noWrap (memOf (mx v) (fun _ => 0)) /\
  exists l, requests (memOf (mx v) (fun _ => 0)) = Some l /\ texts (memOf (mx v) (fun _ => 0)) l = [r1; r2] /\ hashed cx (memOf (mx v) (fun _ => 0)) l = [concat (map Hf [r1; r2]) ++ timeText 12345; r1; r2].
Proof.
  intros Hv. pose proof mx_wf as Wf. pose proof (mx_size v) as P. split.
  - apply built_bytes. unfold mx, build, ppHeader. rewrite !forallb_app, !andb_true_iff.
    assert (L : forall k x, forallb (fun b => b <? 256) (le k x) = true) by (intros k x; apply forallb_forall; intros b Hb; pose proof (le_bytes k x) as F; rewrite Forall_forall in F; apply N.ltb_lt; apply F; auto).
    repeat (split; [first [apply L|apply HB|split; first [apply L|apply HB|idtac]]|]); try apply L; vm_compute; auto.
  - destruct (C20_built_accepted cx [] [48; 49] v 1 0 12345 [r1; r2] (fun _ => 0) 1 HL Hv (conj eq_refl eq_refl) eq_refl ltac:(discriminate) ltac:(discriminate) eq_refl ltac:(discriminate) eq_refl
      Wf P ltac:(discriminate) eq_refl ltac:(discriminate)) as (A & _ & _ & _ & B & _ & _ & _).
    split; auto. split; auto. exists (places (start [] [48; 49]) [r1; r2]). split; [|split].
    + exact (b_requests cx [] [48; 49] v 1 0 12345 [r1; r2] (fun _ => 0) HL eq_refl Hv eq_refl eq_refl ltac:(discriminate) eq_refl Wf eq_refl P).
    + exact (b_texts cx [] [48; 49] v 1 0 12345 [r1; r2] (fun _ => 0) HL eq_refl Hv eq_refl eq_refl ltac:(discriminate) eq_refl Wf eq_refl P).
    + unfold hashed. f_equal; [|exact (b_texts cx [] [48; 49] v 1 0 12345 [r1; r2] (fun _ => 0) HL eq_refl Hv eq_refl eq_refl ltac:(discriminate) eq_refl Wf eq_refl P)].
      etransitivity; [exact (b_digestInput cx [] [48; 49] v 1 0 12345 [r1; r2] (fun _ => 0) HL eq_refl Hv eq_refl eq_refl ltac:(discriminate) eq_refl Wf eq_refl P)|]. reflexivity.
Qed.
Lemma mx_digest v : v < 2 ^ 64 -> ppDigest (memOf (mx v) (fun _ => 0)) = Hf (concat (map (fun r => sigOrDigest cx (memOf r (fun _ => 0)) 0) [r1; r2]) ++ timeText 12345).
Proof. intros Hv. exact (b_digest cx [] [48; 49] v 1 0 12345 [r1; r2] (fun _ => 0) HL). Qed.
End Mx.
Lemma Hx_bytes x : forallb (fun b => b <? 256) (Hx x) = true.
Proof. apply forallb_forall. intros b Hb. unfold Hx in Hb. pose proof (le_bytes 32 (fold_left (fun a y => (a * 257 + y + 1) mod (2 ^ 256 - 189)) x 7)) as F. rewrite Forall_forall in F. apply N.ltb_lt. apply F; auto. Qed.
Lemma Hx_nocollision (tx : bytes) : tx = concat (map Hx [r1; r2]) ++ timeText 12345 -> Hx tx <> Hx r1 /\ Hx tx <> Hx r2 /\ Hx r1 <> Hx r2.
Proof. intros ->. repeat split; vm_compute; discriminate. Qed.
Example C20_hypotheses_met : exists c mem mem' size size' l l', (forall x, length (H c x) = 32%nat) /\ bytesIn mem /\ bytesIn mem' /\ validate c mem size 1 = Accept /\ validate c mem' size' 1 = Accept /\
  noWrap mem /\ noWrap mem' /\ requests mem = Some l /\ requests mem' = Some l' /\ noCollision c (hashed c mem l) (hashed c mem' l') /\ texts mem l = [r1; r2] /\ ppDigest mem = ppDigest mem' /\ ppView mem <> ppView mem'.
Proof.
  destruct (mx_ok Hx Hx_length Hx_bytes 0 eq_refl) as (A & B & C & l & D & T & Hh). destruct (mx_ok Hx Hx_length Hx_bytes 1 eq_refl) as (A' & B' & C' & l' & D' & T' & Hh').
  exists (cx Hx), (memOf (mx Hx 0) (fun _ => 0)), (memOf (mx Hx 1) (fun _ => 0)), (N.of_nat (length (mx Hx 0))), (N.of_nat (length (mx Hx 1))), l, l'. rewrite Hh, Hh'.
  split; [exact Hx_length|]. split; [exact A|]. split; [exact A'|]. split; [exact B|]. split; [exact B'|]. split; [exact C|]. split; [exact C'|]. split; [exact D|]. split; [exact D'|]. split; [|split; [exact T|split]].
  - remember (concat (map Hx [r1; r2]) ++ timeText 12345) as tx eqn:Etx. destruct (Hx_nocollision tx Etx) as (N1 & N2 & N3). clear - N1 N2 N3. intros x y X Y E. change (H (cx Hx)) with Hx in E. cbn [In] in X, Y.
    destruct X as [<-|[<-|[<-|[]]]]; destruct Y as [<-|[<-|[<-|[]]]]; congruence.
  - rewrite !(mx_digest Hx Hx_length) by reflexivity. reflexivity.
  - unfold mx. rewrite (b_view (cx Hx) [] [48; 49] 0 1 0 12345 [r1; r2]), (b_view (cx Hx) [] [48; 49] 1 1 0 12345 [r1; r2]) by reflexivity. discriminate.
Qed.

(** ** Limits of validation, each shown to occur. *)
(** One request in a message of replica 1, number 1, view 0. *)
Definition single (c : config) (r : bytes) : bytes := build c [] [48; 49] 0 1 0 12345 [r].
Lemma single_ok sg vf Hf rest r : (forall x, length (Hf x) = 32%nat) -> wellFormed r -> N.of_nat (length r) < 1000 ->
  let c := cfg sg vf Hf in (sg = true -> validateRequest c (memOf r (fun _ => 0)) 0 = Accept) -> let m := single c r in
  validate c (memOf m rest) (N.of_nat (length m)) 1 = Accept /\ ppView (memOf m rest) = 0 /\ ppSeq (memOf m rest) = 1 /\
  ppDigest (memOf m rest) = Hf (concat (map (fun x => sigOrDigest c (memOf x (fun _ => 0)) 0) [r]) ++ timeText 12345) /\ exists l, requests (memOf m rest) = Some l /\ texts (memOf m rest) l = [r].
Proof.
  intros HL W L c V m. assert (P : N.of_nat (length m) < M32).
  { unfold m, single. rewrite built_length by apply HL. cbn [concat]. rewrite app_nil_r. change (N.of_nat (length [48; 49])) with 2. change (N.of_nat (@length N [])) with 0. unfold M32. lia. }
  assert (V' : signing c = true -> Forall (fun r => validateRequest c (memOf r (fun _ => 0)) 0 = Accept) [r]) by (intros S; constructor; [exact (V S)|constructor]).
  destruct (C20_built_accepted c [] [48; 49] 0 1 0 12345 [r] rest 1 HL eq_refl (conj eq_refl eq_refl) eq_refl ltac:(discriminate) ltac:(discriminate) eq_refl ltac:(discriminate) eq_refl
      (Forall_cons r W (Forall_nil _)) P ltac:(discriminate) eq_refl V') as (A & A1 & A2 & _ & _ & B).
  split; [exact A|]. split; [exact A1|]. split; [exact A2|]. split; [|exact B]. exact (b_digest c [] [48; 49] 0 1 0 12345 [r] rest HL).
Qed.
Lemma req_wf client flags seqn body cid sig : let r := req client flags seqn body cid sig in forallb (fun b => b <? 256) r && (N.of_nat (length r) =? exactSize (memOf r (fun _ => 0)) 0) && (N.of_nat (length r) <? 1000) = true ->
  wellFormed r /\ N.of_nat (length r) < 1000.
Proof. intros r E. apply andb_true_iff in E. destruct E as [E1 E2]. apply N.ltb_lt in E2. split; auto. apply wf_dec; auto. Qed.

(** 1. Without client signatures (signing off) nothing checks the signature field, yet it is all that goes into the digest: a faulty primary sends
    two messages with the same number, view and digest and different requests; both are accepted. *)
Definition sameSlot (mem mem' : memory) : Prop := ppSeq mem = ppSeq mem' /\ ppView mem = ppView mem' /\ ppDigest mem = ppDigest mem'.
Definition carries (mem : memory) (rs : list bytes) : Prop := exists l, requests mem = Some l /\ texts mem l = rs.
Definition equivocates (c : config) (rest : memory) (r r' : bytes) : Prop := exists m m',
  validate c (memOf m rest) (N.of_nat (length m)) 1 = Accept /\ validate c (memOf m' rest) (N.of_nat (length m')) 1 = Accept /\ sameSlot (memOf m rest) (memOf m' rest) /\
  carries (memOf m rest) [r] /\ carries (memOf m' rest) [r'].
Lemma equivocation_singles sg vf Hf rest r r' : (forall x, length (Hf x) = 32%nat) -> wellFormed r /\ N.of_nat (length r) < 1000 -> wellFormed r' /\ N.of_nat (length r') < 1000 ->
  let c := cfg sg vf Hf in (sg = true -> validateRequest c (memOf r (fun _ => 0)) 0 = Accept) -> (sg = true -> validateRequest c (memOf r' (fun _ => 0)) 0 = Accept) ->
  sigOrDigest c (memOf r (fun _ => 0)) 0 = sigOrDigest c (memOf r' (fun _ => 0)) 0 -> equivocates c rest r r'.
Proof.
  intros HL [W L] [W' L'] c V V' E. destruct (single_ok sg vf Hf rest r HL W L V) as (A1 & A2 & A3 & A4 & A5). destruct (single_ok sg vf Hf rest r' HL W' L' V') as (B1 & B2 & B3 & B4 & B5).
  fold c in A1, A2, A3, A4, A5, B1, B2, B3, B4, B5. exists (single c r), (single c r'). split; [exact A1|]. split; [exact B1|]. split; [|split; [exact A5|exact B5]].
  split; [congruence|]. split; [congruence|]. rewrite A4, B4. cbn [map]. rewrite E. reflexivity.
Qed.
Theorem C20_equivocation_refuted (Hf : bytes -> bytes) (vf : N -> bytes -> bytes -> bool) (rest : memory) : (forall x, length (Hf x) = 32%nat) ->
  equivocates (cfg false vf Hf) rest (req 10 0 7 [1; 2; 3] [] [9]) (req 10 0 7 [6; 6; 6] [] [9]).
Proof. intros HL. apply equivocation_singles; auto; try discriminate; try (apply req_wf; vm_compute; reflexivity). Qed.
Print Assumptions C20_equivocation_refuted.

(** 2. With client signatures on, the same works for any request marked as pre-processed: its signature is not checked. *)
Definition sig64 : bytes := repeat 9 64.
Theorem C20_equivocation_signed_refuted (Hf : bytes -> bytes) (vf : N -> bytes -> bytes -> bool) (rest : memory) : (forall x, length (Hf x) = 32%nat) ->
  equivocates (cfg true vf Hf) rest (req 10 4 7 [1; 2; 3] [] sig64) (req 10 4 7 [6; 6; 6] [] sig64).
Proof. intros HL. apply equivocation_singles; auto; try (apply req_wf; vm_compute; reflexivity); vm_compute; reflexivity. Qed.
Print Assumptions C20_equivocation_signed_refuted.

(** 3. Even a verified client signature covers the text only: with the same digest the two messages carry the client's request under different
    request numbers (so that one replica may execute it and another take it for an old one). *)
Theorem C20_request_number_not_covered_refuted (Hf : bytes -> bytes) (vf : N -> bytes -> bytes -> bool) (rest : memory) : (forall x, length (Hf x) = 32%nat) -> vf 10 [1; 2; 3] sig64 = true ->
  equivocates (cfg true vf Hf) rest (req 10 0 7 [1; 2; 3] [] sig64) (req 10 0 1000 [1; 2; 3] [] sig64).
Proof.
  intros HL V. apply equivocation_singles; auto; try (apply req_wf; vm_compute; reflexivity); try (intros _; vm_compute; vm_compute in V; rewrite V; reflexivity).
Qed.
Print Assumptions C20_request_number_not_covered_refuted.

(** 4. A request that names the checking replica as its client makes that replica abort: a faulty primary stops any other replica with one
    message. *)
Definition craft (num fin cidLen : N) (tail : bytes) : bytes := ppHeader 0 0 1 0 0 cidLen 0 (repeat 0 32) num fin ++ tail.
Definition H0 (l : bytes) : bytes := repeat 0 32.
Theorem C20_request_of_self_aborts_refuted : exists m, validate (cfg true (fun _ _ _ => false) H0) (memOf m (fun _ => 0)) (N.of_nat (length m)) 1 = Abort.
Proof. exists (craft 1 138 0 (req 2 0 7 [] [] [])). vm_compute. reflexivity. Qed.
Print Assumptions C20_request_of_self_aborts_refuted.

(** 5. A request may begin so close to the end that its header lies outside the message: it is read from whatever is behind. *)
Theorem C20_header_outside_refuted : exists m l i, let mem := memOf m (fun _ => 0) in validate (cfg false (fun _ _ _ => false) H0) mem (N.of_nat (length m)) 1 = Accept /\
  requests mem = Some l /\ In i l /\ N.of_nat (length m) < i + 52.
Proof. exists (craft 1 126 0 (le 2 700 ++ le 4 (M32 - 12) ++ repeat 0 34)), [86], 86. vm_compute. repeat split; auto. Qed.
Print Assumptions C20_header_outside_refuted.

(** 6. Announced sizes may add up to more than 32 bits: the request is taken to be 52 bytes long and its body to start four gigabytes further. *)
Theorem C20_request_outside_refuted : exists m l i, let mem := memOf m (fun _ => 0) in validate (cfg false (fun _ _ _ => false) H0) mem (N.of_nat (length m)) 1 = Accept /\
  requests mem = Some l /\ In i l /\ i + 52 <= N.of_nat (length m) /\ N.of_nat (length m) + 4000000000 < i + 52 + rqSpan mem i.
Proof. exists (craft 1 138 0 (le 2 700 ++ le 4 (M32 - 10) ++ repeat 0 22 ++ le 4 10 ++ repeat 0 20)), [86], 86. vm_compute. repeat split; auto; discriminate. Qed.
Print Assumptions C20_request_outside_refuted.

(** 7. The length of the correlation id is cut to 32 bits where the requests begin, but not where the id is read. *)
Theorem C20_correlation_id_outside_refuted : exists m, let mem := memOf m (fun _ => 0) in validate (cfg false (fun _ _ _ => false) H0) mem (N.of_nat (length m)) 1 = Accept /\
  N.of_nat (length m) < ppCidLen mem.
Proof. exists (craft 1 138 M32 (req 10 0 7 [] [] [])). vm_compute. auto. Qed.
Print Assumptions C20_correlation_id_outside_refuted.
