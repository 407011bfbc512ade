(** C37: what a thin-replica subscriber gets. *)
From Coq Require Import ZArith NArith List Bool Lia Sorting.Permutation.
From Verif Require Import Lib_Bytes Flt_Model Flt_Proofs Flt_Proofs2 Flt_Proofs3 Flt_Proofs4.
Import ListNotations.
Local Open Scope Z_scope.

(** Distinct entries have distinct keys: of the tag table, and of the table of latest ids. *)
Theorem C37_keys_distinct :
  (forall t t' n n', 0 <= n < two64 -> 0 <= n' < two64 -> tagKey t n = tagKey t' n' -> t = t' /\ n = n') /\
  (forall t t', newestKey t = newestKey t' -> t = t') /\ (forall t t', oldestKey t = oldestKey t' -> t = t') /\
  (forall t t', newestKey t <> oldestKey t').
Proof.
  unfold tagKey, newestKey, oldestKey. split; [|split; [|split]].
  - intros t t' n n' H H' E. assert (t = t' /\ [35%N] ++ be 8 (Z.to_N n) = [35%N] ++ be 8 (Z.to_N n')) as [A B].
    { pose proof (f_equal (@length N) E) as Ll. rewrite !app_length, !be_length in Ll. cbn in Ll.
      assert (F : firstn (length t') (t ++ [35%N] ++ be 8 (Z.to_N n)) = firstn (length t') (t' ++ [35%N] ++ be 8 (Z.to_N n'))) by (rewrite E; auto).
      rewrite !firstn_app_exact in F by lia. subst t'. split; auto. apply app_inv_head in E. auto. }
    split; auto. apply app_inv_head in B. apply be_inj in B; [lia| |]; unfold two64 in *; change (256 ^ N.of_nat 8)%N with (2 ^ 64)%N; lia.
  - intros t t' E. apply app_inv_tail in E. auto.
  - intros t t' E. apply app_inv_tail in E. auto.
  - intros t t' E. apply (f_equal (@rev N)) in E. rewrite !rev_app_distr in E. cbn in E. inversion E.
Qed.
Print Assumptions C37_keys_distinct.

(** For every history, however much of its beginning was pruned, there are tables for it: the hypothesis [represents] can be met. *)
Lemma idxOf_in t W i c g : nth_error W i = Some (c, g) -> isTagged t c = true -> idxOf t (Z.of_nat (cnt t (firstn i W)) + 1) W = Some i.
Proof.
  intros N Tc. unfold idxOf. assert (Li : (i < length W)%nat) by (apply nth_error_Some; congruence).
  destruct (find _ (seq 0 (length W))) as [j|] eqn:E.
  - apply find_some in E. destruct E as [_ E]. destruct (nth_error W j) as [[c' g']|] eqn:Nj; [|discriminate]. apply andb_true_iff in E. destruct E as [T' E]. apply Z.eqb_eq in E.
    f_equal. destruct (Nat.lt_trichotomy i j) as [L|[L|L]]; auto; exfalso.
    + pose proof (cnt_S t W i c g N) as Q. rewrite Tc in Q. pose proof (cnt_mono t W (S i) j L). lia.
    + pose proof (cnt_S t W j c' g' Nj) as Q. rewrite T' in Q. pose proof (cnt_mono t W (S j) i L). lia.
  - exfalso. pose proof (find_none _ _ E i ltac:(apply in_seq; lia)) as Q. cbv beta in Q. rewrite N, Tc, Z.eqb_refl in Q. discriminate.
Qed.
Lemma idxOf_inv t W n i : idxOf t n W = Some i -> exists c g, nth_error W i = Some (c, g) /\ isTagged t c = true /\ n = Z.of_nat (cnt t (firstn i W)) + 1.
Proof.
  unfold idxOf. intros E. apply find_some in E. destruct E as [_ E]. destruct (nth_error W i) as [[c g]|]; [|discriminate]. apply andb_true_iff in E. destruct E as [A B]. apply Z.eqb_eq in B. eauto.
Qed.
Theorem C37_tables_exist (W : hist) (k : nat) (client : bytes) :
  (k <= length W)%nat -> Z.of_nat (length W) < max64 -> client <> pubTag -> represents (tablesOf W k) W k client.
Proof.
  intros Lk B NP. assert (Tt : forall t, tablesFor (tablesOf W k) W k t).
  { intros t. split; [reflexivity|]. split; [reflexivity|]. split.
    - intros i c g N Tc Ki. cbn [tagtab tablesOf]. rewrite (idxOf_in t W i c g N Tc). destruct (Nat.ltb_spec i k); [lia|]. eexists. split; [reflexivity|]. auto.
    - intros n H. cbn [tagtab tablesOf]. destruct (idxOf t n W) as [i|] eqn:E; auto. destruct (idxOf_inv t W n i E) as (c & g & A & C & ->).
      destruct (Nat.ltb_spec i k); auto. pose proof (cnt_S t W i c g A) as Q. rewrite C in Q. pose proof (cnt_le t W (S i)). pose proof (cnt_mono t W k i ltac:(lia)). lia. }
  split; auto. split; auto. split; auto. split; auto. split; auto. intros i c g N Ki. cbn [egdata tablesOf]. destruct (Z.ltb_spec (Z.of_nat i + 1) 1); [lia|].
  replace (Z.to_nat (Z.of_nat i + 1 - 1)) with i by lia. rewrite N. auto.
Qed.
Print Assumptions C37_tables_exist.

(** The newest external id is the number of the client's groups; the oldest is that of its first group that was not pruned, 0 if none is left. *)
Theorem C37_range (T : store) (W : hist) (k : nat) (client : bytes) : represents T W k client ->
  newestExternal client T = Z.of_nat (length (groupsOf client W)) /\
  oldestExternal client T = (if (length (groupsOf client (firstn k W)) =? length (groupsOf client W))%nat then 0 else Z.of_nat (length (groupsOf client (firstn k W))) + 1).
Proof.
  intros R. pose proof (R_np _ _ _ _ R) as NP. unfold groupsOf. rewrite !(seen_len client NP). split; [apply (newest_eq _ _ _ _ R)|apply (oldest_eq _ _ _ _ R)].
Qed.
Print Assumptions C37_range.

(** The search for external id e finds the e-th of the client's groups. *)
Theorem C37_find (T : store) (W : hist) (k : nat) (client : bytes) (e : Z) : represents T W k client ->
  Z.of_nat (length (groupsOf client (firstn k W))) < e <= Z.of_nat (length (groupsOf client W)) ->
  exists f g, findGlobal client T e = Ok f /\ nth_error (groupsOf client W) (Z.to_nat (e - 1)) = Some (fglobal f, g).
Proof.
  intros R H. pose proof (R_np _ _ _ _ R) as NP. unfold groupsOf in H at 1. rewrite (seen_len client NP) in H.
  destruct (at_ext client T W k R e H) as (i & c & g & N & V & Ki & Es & Ln). eexists. exists g.
  pose proof (f_equal (findGlobal client T) Es) as Ef. rewrite Ef, (find_ok _ _ _ _ R i c g N V Ki). split; [reflexivity|]. auto.
Qed.
Print Assumptions C37_find.

(** Reading from external id [start]: the updates handed over are the client's groups from that one on, in order, with consecutive ids
    and without gaps, each reduced to the events the client may read, up to the newest one or to where the reader is stopped; the ids
    recorded as read are those of the last group handed over. *)
Theorem C37_read_in_order (parse : bytes -> parsed) (T : store) (W : hist) (k : nat) (client : bytes) (go : list (Z * group) -> bool) (start : Z) :
  represents T W k client -> (forall c g, In (c, g) W -> visible client c = true -> sendable parse client g) ->
  Z.of_nat (length (groupsOf client (firstn k W))) < start <= Z.of_nat (length (groupsOf client W)) ->
  let due := numbered parse client start (skipn (Z.to_nat (start - 1)) (groupsOf client W)) in
  exists m gid, (1 <= m <= length due)%nat /\
    readEventGroups parse client go T T start = (firstn m due, Finished (start + Z.of_nat m - 1, gid)) /\
    option_map fst (nth_error (groupsOf client W) (Z.to_nat (start - 1) + m - 1)) = Some gid /\
    (forall m', (1 <= m' < m)%nat -> go (firstn m' due) = true) /\
    (m = length due \/ go (firstn m due) = false).
Proof.
  intros R Sd H. pose proof (R_np _ _ _ _ R) as NP. unfold groupsOf in H at 1. rewrite (seen_len client NP) in H. apply (read_ok parse client T W k R Sd go start H).
Qed.
Print Assumptions C37_read_in_order.

(** Ids that were pruned or do not exist yet are refused, nothing is handed over. *)
Theorem C37_read_refused (parse : bytes -> parsed) (hash : bytes -> bytes) (T : store) (W : hist) (k : nat) (client : bytes) (go : list (Z * group) -> bool) (start : Z) :
  represents T W k client -> 0 < start ->
  start <= Z.of_nat (length (groupsOf client (firstn k W))) \/ Z.of_nat (length (groupsOf client W)) < start ->
  readEventGroups parse client go T T start = ([], Thrown) /\ readEventGroupHash parse hash client T start = Throw.
Proof.
  intros R P H. destruct (C37_range T W k client R) as [En Eo]. unfold readEventGroups, readEventGroupHash. rewrite En, Eo.
  destruct (Z.leb_spec start 0); [lia|]. destruct (Nat.eqb_spec (length (groupsOf client (firstn k W))) (length (groupsOf client W))); [cbn [Z.eqb]; auto|].
  destruct (Z.eqb_spec (Z.of_nat (length (groupsOf client (firstn k W))) + 1) 0); [lia|]. destruct (Z.eqb_spec start 0); [lia|].
  assert ((start <? Z.of_nat (length (groupsOf client (firstn k W))) + 1) || (Z.of_nat (length (groupsOf client W)) <? start) = true) as ->.
  { apply orb_true_iff. rewrite !Z.ltb_lt. lia. } auto.
Qed.
Print Assumptions C37_read_refused.

(** What is in an update: an event is in the client's view of a group exactly if the group has an event with the same tags, which the
    client may read, whose data is that value; in particular nothing that is tagged for others only. *)
Theorem C37_only_readable (parse : bytes -> parsed) (client : bytes) (g : group) (f : group) :
  filterGroup parse client g = Ok f ->
  gtime f = gtime g /\
  forall y, In y (gevents f) <-> exists x, In x (gevents g) /\ (etags x = [] \/ In client (etags x)) /\ parse (edata x) = PVal (edata y) /\ etags y = etags x.
Proof.
  unfold filterGroup. intros E. destruct (filterEvents parse client (gevents g)) as [l| |] eqn:F; try discriminate. cbn in E. inversion E; subst f. clear E. split; auto. cbn [gevents].
  assert (l = visibleEvents parse client (gevents g)) as ->.
  { revert l F. generalize (gevents g). intros l0. induction l0 as [|x l0 IH]; intros l F; cbn [filterEvents visibleEvents] in *; [inversion F; auto|].
    destruct (tagsAllow client (etags x)); cbn [negb] in F; [|apply IH; auto]. destruct (parse (edata x)); try discriminate; [apply IH; auto|].
    destruct (filterEvents parse client l0); try discriminate. cbn in F. inversion F. rewrite (IH a eq_refl). auto. }
  intros y. apply (visibleEvents_in parse client).
Qed.
Print Assumptions C37_only_readable.

(** Data and hashes agree: the hash sent for an id is the hash of the update sent for it, and the hash of a range is that of its updates. *)
Theorem C37_hash_of_data (parse : bytes -> parsed) (hash : bytes -> bytes) (T : store) (W : hist) (k : nat) (client : bytes) (e : Z) :
  represents T W k client -> (forall c g, In (c, g) W -> visible client c = true -> sendable parse client g) ->
  Z.of_nat (length (groupsOf client (firstn k W))) < e <= Z.of_nat (length (groupsOf client W)) ->
  exists f upd rest, readEventGroups parse client (fun _ => true) T T e = ((e, f) :: rest, upd) /\
    (forall h, hashEgUpdate hash e f = Ok h -> exists ids, readEventGroupHash parse hash client T e = Ok (h, ids) /\ fst ids = e) /\
    (forall hs, hashAll hash ((e, f) :: rest) = Ok hs -> readEventGroupRangeHash parse hash client T e = Ok (hash hs)).
Proof.
  intros R Sd H. pose proof (R_np _ _ _ _ R) as NP. pose proof H as H0. unfold groupsOf in H at 1. rewrite (seen_len client NP) in H.
  destruct (hash_at hash parse client T W k R Sd e H) as (gid & g & Ng & Eh).
  destruct (read_ok parse client T W k R Sd (fun _ => true) e H) as (m & gid' & M1 & M2 & M3 & _ & M5).
  assert (Sk : skipn (Z.to_nat (e - 1)) (groupsOf client W) = (gid, g) :: skipn (S (Z.to_nat (e - 1))) (groupsOf client W)).
  { revert Ng. generalize (Z.to_nat (e - 1)). generalize (groupsOf client W). clear. intros l n. revert l. induction n as [|n IH]; intros [|y l] H; try discriminate; cbn in *; [inversion H; auto|apply IH; auto]. }
  rewrite Sk in M1, M2. cbn [numbered length] in M1, M2. destruct m as [|m]; [lia|]. cbn [firstn] in M2.
  do 3 eexists. split; [exact M2|]. split.
  - intros h Hh. rewrite Hh in Eh. cbn in Eh. exists (e, gid). auto.
  - intros hs Hh. unfold readEventGroupRangeHash. rewrite M2, Hh. auto.
Qed.
Print Assumptions C37_hash_of_data.

(** What a hash vouches for: the id and the data of the events, whatever their order; unless two strings with the same hash exist. *)
Theorem C37_hash_covers (hash : bytes -> bytes) (e e' : Z) (g g' : group) (h : bytes) :
  (forall x, length (hash x) = 32%nat) -> 0 <= e < two64 -> 0 <= e' < two64 ->
  hashEgUpdate hash e g = Ok h -> hashEgUpdate hash e' g' = Ok h ->
  (e = e' /\ Permutation (map edata (gevents g)) (map edata (gevents g'))) \/ exists a b, a <> b /\ hash a = hash b.
Proof. apply hashEg_covers. Qed.
Print Assumptions C37_hash_covers.
Theorem C37_hash_any_order (hash : bytes -> bytes) (e : Z) (g g' : group) :
  Permutation (map edata (gevents g)) (map edata (gevents g')) -> hashEgUpdate hash e g = hashEgUpdate hash e g'.
Proof. apply hashEg_perm. Qed.
Print Assumptions C37_hash_any_order.

(** A data subscription. [W1]: the groups when the subscription reads the range of ids; [W1 ++ X]: those when it reads the history;
    [W1 ++ X ++ Y]: all groups announced in the end, of which those from index [a] on reach the subscription as live updates. If no
    group is missing between what was stored when the history was read and what is announced, or the client got no group meanwhile,
    then the client gets its groups from [start] on, in order, consecutively numbered, each once. *)
Theorem C37_data_stream (parse : bytes -> parsed) (client : bytes) (T1 T : store) (W1 X Y : hist) (k1 k2 : nat) (D : Z -> option group) (start : Z) (a : nat) :
  let W2 := W1 ++ X in let W := W2 ++ Y in
  represents T1 W1 k1 client -> represents T W2 k2 client -> (k1 <= k2)%nat ->
  (forall c g, In (c, g) W -> sendable parse client g) -> consistent parse client W -> Z.of_nat (length W) + 1 < two64 ->
  Z.of_nat (length (groupsOf client (firstn k2 W2))) < start <= Z.of_nat (length (groupsOf client W1)) ->
  (forall i c x, nth_error W i = Some (c, x) -> (k2 <= i)%nat -> D (Z.of_nat i + 1) = Some x) ->
  (a <= length W2)%nat \/ (a <= length W)%nat /\ length (groupsOf client W1) = length (groupsOf client W2) ->
  let upto := match skipn a W with [] => W2 | _ => W end in
  exists last, dataStream parse client T1 T T D start (announced (Z.of_nat a + 1) (skipn a W)) =
    (numbered parse client start (skipn (Z.to_nat (start - 1)) (groupsOf client upto)), Waiting last) /\ fst last = Z.of_nat (length (groupsOf client upto)).
Proof.
  intros W2 W R1 R2 K S1 S2 B S Dt Ga upto. pose proof (R_np _ _ _ _ R2) as NP. unfold groupsOf in S at 1. rewrite (seen_len client NP) in S.
  apply (dataStream_ok parse client T1 T W1 X Y k1 k2 D start a R1 R2 K (conj S1 S2) B S Dt Ga).
Qed.
Print Assumptions C37_data_stream.

(** A hash subscription gets, under the same numbers, the hashes of the updates of a data subscription. *)
Theorem C37_hash_stream (parse : bytes -> parsed) (hash : bytes -> bytes) (client : bytes) (T1 T : store) (W1 X Y : hist) (k1 k2 : nat) (D : Z -> option group) (start : Z) (a : nat) (hs : list (Z * bytes)) :
  let W2 := W1 ++ X in let W := W2 ++ Y in
  represents T1 W1 k1 client -> represents T W2 k2 client -> (k1 <= k2)%nat ->
  (forall c g, In (c, g) W -> sendable parse client g) -> consistent parse client W -> Z.of_nat (length W) + 1 < two64 ->
  Z.of_nat (length (groupsOf client (firstn k2 W2))) < start <= Z.of_nat (length (groupsOf client W1)) ->
  (forall i c x, nth_error W i = Some (c, x) -> (k2 <= i)%nat -> D (Z.of_nat i + 1) = Some x) ->
  (a <= length W)%nat ->
  let upto := match skipn a W with [] => W1 | _ => W end in
  hashUpdates hash (numbered parse client start (skipn (Z.to_nat (start - 1)) (groupsOf client upto))) = Ok hs ->
  exists last, hashStream parse hash client T1 T D start (announced (Z.of_nat a + 1) (skipn a W)) = (hs, Waiting last) /\ fst last = Z.of_nat (length (groupsOf client upto)).
Proof.
  intros W2 W R1 R2 K S1 S2 B S Dt La upto Hh. pose proof (R_np _ _ _ _ R2) as NP. unfold groupsOf in S at 1. rewrite (seen_len client NP) in S.
  apply (hashStream_ok parse hash client T1 T W1 X Y k1 k2 D start a hs R1 R2 K (conj S1 S2) B S Dt La Hh).
Qed.
Print Assumptions C37_hash_stream.

(** A request is refused exactly if its id was pruned or lies more than one after the newest. *)
Theorem C37_request (T : store) (W : hist) (k : nat) (client : bytes) (e : Z) : represents T W k client -> 0 < e < max64 ->
  (outOfRange client T e = true <-> Z.of_nat (length (groupsOf client W)) + 1 < e) /\
  (prunedReq client T e = true <-> e <= Z.of_nat (length (groupsOf client (firstn k W)))).
Proof.
  intros R H. destruct (C37_range T W k client R) as [En Eo]. unfold outOfRange, prunedReq. rewrite En, Eo.
  pose proof (R_np _ _ _ _ R) as NP. pose proof (R_len _ _ _ _ R) as RL. pose proof (L_len client T W k R) as Ll. pose proof (all_le _ _ _ _ R) as AL.
  assert (Lf : (length (groupsOf client (firstn k W)) <= length (groupsOf client W))%nat).
  { unfold groupsOf. rewrite !(seen_len client NP). pose proof (cnt_le pubTag W k). pose proof (cnt_le client W k). lia. }
  unfold max64 in *. rewrite add64_ok by lia. split; [apply Z.ltb_lt|].
  destruct (Nat.eqb_spec (length (groupsOf client (firstn k W))) (length (groupsOf client W))).
  - cbn [Z.eqb]. rewrite orb_true_iff, andb_true_iff, Z.ltb_lt, Z.leb_le. split; [intros [?|[_ ?]]; lia|intros; right; split; auto; lia].
  - destruct (Z.eqb_spec (Z.of_nat (length (groupsOf client (firstn k W))) + 1) 0); [lia|]. rewrite orb_true_iff, Z.ltb_lt. cbn. split; [intros [?|?]; [lia|discriminate]|intros; left; lia].
Qed.
Print Assumptions C37_request.

(** Legacy events: a range of blocks before the first event group is handed over block by block, each with the pairs the client may
    read; from the first block of the event groups on the call fails after the earlier blocks. *)
Lemma filterKvs_ok parse client l : sendablePairs parse client l -> filterKvs parse client l = Ok (visiblePairs parse client l).
Proof.
  induction l as [|x l IH]; intros H; [reflexivity|]. cbn [filterKvs visiblePairs]. destruct (H x (or_introl eq_refl)) as [A B].
  destruct (Nat.ltb_spec (length (kkey x)) 8) as [Q|_]; [lia|]. rewrite (IH (fun y Hy => H y (or_intror Hy))).
  destruct (tagsAllow client (ktags x)) eqn:E; cbn [negb]; [|reflexivity]. apply (tagsAllow_spec parse client) in E. specialize (B E). destruct (parse (kdata x)); [reflexivity|congruence|reflexivity].
Qed.
Theorem C37_blocks (parse : bytes -> parsed) (client : bytes) (blockKvs : Z -> option (list kv)) (kvs : Z -> list kv) (egBlock : option Z) (last s e : Z) :
  0 < s <= e -> e <= last -> (forall b, s <= b <= e -> blockKvs b = Some (kvs b) /\ sendablePairs parse client (kvs b)) ->
  let upto := match egBlock with Some x => Z.max s (Z.min x (e + 1)) | None => e + 1 end in
  readBlockRange parse client (fun _ => true) blockKvs egBlock last s e =
  (map (fun i => (s + Z.of_nat i, visiblePairs parse client (kvs (s + Z.of_nat i)))) (seq 0 (Z.to_nat (upto - s))), if upto =? e + 1 then Finished (0, 0) else Thrown).
Proof.
  intros Hs He Hb upto. unfold readBlockRange. destruct (Z.ltb_spec e s); [lia|]. destruct (Z.ltb_spec last e); [lia|]. cbn [orb].
  assert (X : forall n b out, s <= b -> b + Z.of_nat n = e + 1 ->
    blockLoop parse client n (fun _ => true) blockKvs egBlock b out =
    (out ++ map (fun i => (b + Z.of_nat i, visiblePairs parse client (kvs (b + Z.of_nat i)))) (seq 0 (Z.to_nat (Z.max b upto - b))), if (upto <? e + 1) && (b <? e + 1) then Thrown else Finished (0, 0))).
  { induction n as [|n IH]; intros b out B1 B2; cbn [blockLoop].
    - assert (Z.to_nat (Z.max b upto - b) = 0%nat) as -> by (unfold upto in *; destruct egBlock; lia). cbn. rewrite app_nil_r. destruct (Z.ltb_spec b (e + 1)); [lia|]. rewrite andb_false_r. auto.
    - destruct (Hb b ltac:(lia)) as [H1 H2]. destruct (Z.ltb_spec b (e + 1)); [|lia]. rewrite andb_true_r.
      destruct (Z.lt_ge_cases b upto) as [L|L].
      + assert (getBlockEvents blockKvs egBlock b = Ok (kvs b)) as ->. { unfold getBlockEvents. rewrite H1. destruct egBlock as [x|]; auto. destruct (Z.leb_spec x b); auto. unfold upto in L. lia. }
        cbn [bind]. rewrite (filterKvs_ok parse client _ H2). rewrite (IH (b + 1)) by lia. rewrite <- app_assoc.
        replace (Z.to_nat (Z.max b upto - b)) with (S (Z.to_nat (Z.max (b + 1) upto - (b + 1)))) by lia. cbn [seq map app]. rewrite Z.add_0_r. f_equal.
        * f_equal. f_equal. rewrite <- seq_shift, map_map. apply map_ext. intros i. replace (b + 1 + Z.of_nat i) with (b + Z.of_nat (S i)) by lia. auto.
        * destruct (Z.ltb_spec upto (e + 1)); cbn [andb]; auto. destruct (Z.ltb_spec (b + 1) (e + 1)); [auto|lia].
      + assert (Q : upto < e + 1) by lia. assert (exists x, egBlock = Some x /\ x <= b) as (x & -> & Lx). { unfold upto in *. destruct egBlock as [x|]; [exists x; split; auto; lia|lia]. }
        unfold getBlockEvents. destruct (Z.leb_spec x b); [|lia]. cbn [bind]. assert (Z.to_nat (Z.max b upto - b) = 0%nat) as -> by lia. cbn. rewrite app_nil_r. f_equal.
        destruct (Z.ltb_spec upto (e + 1)); [auto|lia]. }
  rewrite X by lia. cbn [app]. f_equal.
  - assert (s <= upto) by (unfold upto; destruct egBlock; lia). replace (Z.max s upto) with upto by lia. auto.
  - destruct (Z.ltb_spec s (e + 1)); [|lia]. rewrite andb_true_r. assert (upto <= e + 1) by (unfold upto; destruct egBlock; lia). destruct (Z.eqb_spec upto (e + 1)), (Z.ltb_spec upto (e + 1)); auto; lia.
Qed.
Print Assumptions C37_blocks.

(** A range that is empty, or ends after the last block, is refused and nothing is sent. *)
Theorem C37_blocks_refused (parse : bytes -> parsed) (client : bytes) go (blockKvs : Z -> option (list kv)) (egBlock : option Z) (last s e : Z) :
  e < s \/ last < e -> readBlockRange parse client go blockKvs egBlock last s e = ([], Thrown).
Proof.
  intros H. unfold readBlockRange. destruct (Z.ltb_spec e s); [reflexivity|]. destruct (Z.ltb_spec last e); [reflexivity|lia].
Qed.
Print Assumptions C37_blocks_refused.


(** * Examples and refutations *)
Section Ex.
Let cl : bytes := [65%N].
Let oth : bytes := [66%N].
Let prs (d : bytes) : parsed := match d with [] => PBad | 0%N :: _ => PNone | _ => PVal d end.
Let pubG (n : N) : cls * group := (Pub, mkG [mkEv [n] []] [n]).
Let prvG (n : N) : cls * group := (Priv [cl], mkG [mkEv [n] [cl]; mkEv [200%N] [oth]] [n]).
Let othG (n : N) : cls * group := (Priv [oth], mkG [mkEv [n] [oth]] [n]).
Let H0 : hist := [pubG 1; prvG 2; othG 3; prvG 4; pubG 5; othG 6; prvG 7; pubG 8].

(** Eight groups, three pruned, among them one public and one private group: the ids from 3 on are read, with what the client may see. *)
Example C37_ex_read : readEventGroups prs cl (fun _ => true) (tablesOf H0 3) (tablesOf H0 3) 3 =
  ([(3, mkG [mkEv [4%N] [cl]] [4%N]); (4, mkG [mkEv [5%N] []] [5%N]); (5, mkG [mkEv [7%N] [cl]] [7%N]); (6, mkG [mkEv [8%N] []] [8%N])], Finished (6, 8)).
Proof. vm_compute. reflexivity. Qed.
Example C37_ex_represents : represents (tablesOf H0 3) H0 3 cl.
Proof. apply C37_tables_exist; [cbn; lia|reflexivity|discriminate]. Qed.
Example C37_ex_range : oldestExternal cl (tablesOf H0 3) = 3 /\ newestExternal cl (tablesOf H0 3) = 6 /\ findGlobal cl (tablesOf H0 3) 5 = Ok (mkF 7 false 3 2) /\
  findGlobal cl (tablesOf H0 3) 4 = Ok (mkF 5 true 2 2) /\ findGlobal cl (tablesOf H0 7) 6 = Ok (mkF 8 true 3 3).
Proof. vm_compute. repeat split. Qed.
Example C37_ex_stream : fst (dataStream prs cl (tablesOf (firstn 4 H0) 0) (tablesOf (firstn 5 H0) 0) (tablesOf (firstn 5 H0) 0) (egdata (tablesOf H0 0)) 2 (announced 6 (skipn 5 H0))) =
  [(2, mkG [mkEv [2%N] [cl]] [2%N]); (3, mkG [mkEv [4%N] [cl]] [4%N]); (4, mkG [mkEv [5%N] []] [5%N]); (5, mkG [mkEv [7%N] [cl]] [7%N]); (6, mkG [mkEv [8%N] []] [8%N])].
Proof. vm_compute. reflexivity. Qed.
Example C37_ex_hyps : (forall c g, In (c, g) H0 -> sendable prs cl g) /\ consistent prs cl H0.
Proof.
  split.
  - intros c g H. repeat (destruct H as [H|H]; [inversion H; subst; split; [discriminate|intros x Hx _; repeat (destruct Hx as [<-|Hx]; [discriminate|]); destruct Hx]|]). destruct H.
  - intros c g H. repeat (destruct H as [H|H]; [inversion H; subst; vm_compute; split; congruence|]). destruct H.
Qed.
Example C37_ex_blocks : readBlockRange prs cl (fun _ => true) (fun b => Some [mkKv (be 8 (Z.to_N b) ++ [9%N]) [1%N] [cl]; mkKv (be 8 (Z.to_N b) ++ [8%N]) [2%N] [oth]]) (Some 3) 5 1 4 =
  ([(1, [([9%N], [1%N])]); (2, [([9%N], [1%N])])], Thrown).
Proof. vm_compute. reflexivity. Qed.

(** An update that arrives while the history is being read can stop the process: the newest public id is read first, the private one
    later; if a public and then a private group are added in between, the next private group does not have the next id. *)
Theorem C37_added_while_reading_refuted : exists T0 T W X, represents T0 W 0 cl /\ represents T (W ++ X) 0 cl /\
  (forall c g, In (c, g) (W ++ X) -> sendable prs cl g) /\ snd (readEventGroups prs cl (fun _ => true) T0 T 1) = Asserted.
Proof.
  exists (tablesOf [pubG 1] 0), (tablesOf [pubG 1; pubG 2; prvG 3] 0), [pubG 1], [pubG 2; prvG 3].
  split; [apply C37_tables_exist; [cbn; lia|reflexivity|discriminate]|]. split; [apply C37_tables_exist; [cbn; lia|reflexivity|discriminate]|].
  split; [|vm_compute; reflexivity].
  intros c g H. repeat (destruct H as [H|H]; [inversion H; subst; split; [discriminate|intros x Hx _; repeat (destruct Hx as [<-|Hx]; [discriminate|]); destruct Hx]|]). destruct H.
Qed.
Print Assumptions C37_added_while_reading_refuted.

(** Groups that are stored but never announced (state transfer): the gap is numbered from the range read at the beginning, although more
    of the history was sent since, so that two different groups get the same id. *)
Theorem C37_same_id_twice_refuted : exists W1 X Y a, let W := (W1 ++ X) ++ Y in
  (forall c g, In (c, g) W -> sendable prs cl g) /\ consistent prs cl W /\ (a <= length W)%nat /\
  exists e f f', f <> f' /\ let out := fst (dataStream prs cl (tablesOf W1 0) (tablesOf (W1 ++ X) 0) (tablesOf (W1 ++ X) 0) (egdata (tablesOf W 0)) 1 (announced (Z.of_nat a + 1) (skipn a W))) in
    In (e, f) out /\ In (e, f') out.
Proof.
  exists [pubG 1], [pubG 2], [pubG 3; pubG 4], 3%nat. split; [|split; [|split; [cbn; lia|]]].
  - intros c g H. repeat (destruct H as [H|H]; [inversion H; subst; split; [discriminate|intros x Hx _; repeat (destruct Hx as [<-|Hx]; [discriminate|]); destruct Hx]|]). destruct H.
  - intros c g H. repeat (destruct H as [H|H]; [inversion H; subst; vm_compute; split; congruence|]). destruct H.
  - exists 2, (mkG [mkEv [2%N] []] [2%N]), (mkG [mkEv [3%N] []] [3%N]). split; [congruence|]. vm_compute. auto.
Qed.
Print Assumptions C37_same_id_twice_refuted.

(** A group all of whose events for the client cannot be decoded has an id when it is read from the history and none when it arrives
    live: the same groups are numbered differently. *)
Theorem C37_undecodable_shifts_ids_refuted : exists W X, 
  (forall c g, In (c, g) (W ++ X) -> sendable prs cl g) /\ represents (tablesOf W 0) W 0 cl /\
  let fromHistory := fst (readEventGroups prs cl (fun _ => true) (tablesOf (W ++ X) 0) (tablesOf (W ++ X) 0) 1) in
  let asItComes := fst (dataStream prs cl (tablesOf W 0) (tablesOf W 0) (tablesOf W 0) (egdata (tablesOf (W ++ X) 0)) 1 (announced (Z.of_nat (length W) + 1) X)) in
  exists f, In (3, f) fromHistory /\ In (2, f) asItComes /\ ~ In (3, f) asItComes.
Proof.
  exists [pubG 1], [(Pub, mkG [mkEv [] []] [2%N]); pubG 3]. split.
  - intros c g H. repeat (destruct H as [H|H]; [inversion H; subst; split; [discriminate|intros x Hx _; repeat (destruct Hx as [<-|Hx]; [discriminate|]); destruct Hx]|]). destruct H.
  - split; [apply C37_tables_exist; [cbn; lia|reflexivity|discriminate]|]. exists (mkG [mkEv [3%N] []] [3%N]).
    split; [vm_compute; auto|]. split; [vm_compute; auto|]. vm_compute. intros [H|[H|[]]]; discriminate.
Qed.
Print Assumptions C37_undecodable_shifts_ids_refuted.

(** A group with two events with the same data for the client can be sent but not hashed: hashing it stops the process. *)
Theorem C37_equal_events_refuted (hash : bytes -> bytes) : exists W g, W = [(Pub, g)] /\ sendable prs cl g /\
  snd (readEventGroups prs cl (fun _ => true) (tablesOf W 0) (tablesOf W 0) 1) = Finished (1, 1) /\
  readEventGroupHash prs hash cl (tablesOf W 0) 1 = Abort.
Proof.
  exists [(Pub, mkG [mkEv [1%N] []; mkEv [1%N] []] [])], (mkG [mkEv [1%N] []; mkEv [1%N] []] []). split; auto.
  assert (Sd : sendable prs cl (mkG [mkEv [1%N] []; mkEv [1%N] []] [])). { split; [discriminate|]. intros x Hx _. repeat (destruct Hx as [<-|Hx]; [discriminate|]). destruct Hx. }
  split; auto. split; [vm_compute; reflexivity|].
  destruct (hash_at hash prs cl (tablesOf [(Pub, mkG [mkEv [1%N] []; mkEv [1%N] []] [])] 0) [(Pub, mkG [mkEv [1%N] []; mkEv [1%N] []] [])] 0) with (e := 1) as (gid & g & Ng & ->).
  - apply C37_tables_exist; [cbn; lia|reflexivity|discriminate].
  - intros c g [H|[]] _. inversion H; subst. auto.
  - vm_compute. split; congruence.
  - vm_compute in Ng. inversion Ng; subst. rewrite (hashEg_dup hash 1); auto. intros Nd. cbn in Nd. inversion Nd as [|? ? Q _]. apply Q. left. auto.
Qed.
Print Assumptions C37_equal_events_refuted.

(** The hash says nothing about the time of a group. *)
Theorem C37_time_not_hashed_refuted (hash : bytes -> bytes) : exists g g', gtime g <> gtime g' /\ hashEgUpdate hash 1 g = hashEgUpdate hash 1 g'.
Proof. exists (mkG [mkEv [1%N] []] [1%N]), (mkG [mkEv [1%N] []] [2%N]). split; [discriminate|reflexivity]. Qed.
Print Assumptions C37_time_not_hashed_refuted.
End Ex.
