(** The persisted consensus metadata: the representation relation and the getters. *)
From Coq Require Import List Arith NArith Bool Lia ZifyBool ZifyN.
From Verif Require Import Lib_Bytes Meta_Model Meta_Spec.
Import ListNotations.
Local Open Scope N_scope.

(** * Stores *)
Lemma apply_app s a b : apply s (a ++ b) = apply (apply s a) b.
Proof. unfold apply. apply fold_left_app. Qed.
Lemma apply_out e : forall s k, (forall v, ~ In (k, v) e) -> apply s e k = s k.
Proof.
  induction e as [|[k0 v0] e IH]; intros s k Hno; [reflexivity|].
  change (apply s ((k0, v0) :: e)) with (apply (put1 s (k0, v0)) e). rewrite IH.
  - unfold put1. cbn [fst snd]. destruct (k =? k0) eqn:E; [|reflexivity]. apply N.eqb_eq in E. subst.
    elim (Hno v0). left. reflexivity.
  - intros v X. elim (Hno v). right. exact X.
Qed.
Lemma apply_in e : forall s k v, In (k, v) e -> (forall v', In (k, v') e -> v' = v) -> apply s e k = v.
Proof.
  induction e as [|[k0 v0] e IH]; intros s k v Hin Huniq; [elim Hin|].
  change (apply s ((k0, v0) :: e)) with (apply (put1 s (k0, v0)) e).
  destruct (in_dec N.eq_dec k (map fst e)) as [D|D].
  - apply in_map_iff in D. destruct D as ((k1 & v1) & E1 & D). cbn [fst] in E1. subst k1.
    assert (v1 = v) by (apply Huniq; right; exact D). subst v1.
    apply IH; [exact D|]. intros. apply Huniq. right. assumption.
  - rewrite apply_out.
    + destruct Hin as [Hin|Hin]; [|elim D; apply in_map_iff; exists (k, v); auto].
      injection Hin as E1 E2. subst. unfold put1. cbn [fst snd]. rewrite N.eqb_refl. reflexivity.
    + intros v' X. elim D. apply in_map_iff. exists (k, v'). auto.
Qed.
Lemma put1_ext s t kv : (forall k, s k = t k) -> forall k, put1 s kv k = put1 t kv k.
Proof. intros Hst k. unfold put1. destruct (k =? fst kv); auto. Qed.
Lemma apply_ext e : forall s t, (forall k, s k = t k) -> forall k, apply s e k = apply t e k.
Proof. induction e as [|kv e IH]; intros s t Hst k; [apply Hst|]. apply (IH (put1 s kv) (put1 t kv)). apply put1_ext. exact Hst. Qed.
Definition wr (s : store) (ws : list (N * bytes)) : store := apply s (map put_ ws).
Lemma wr_app s a b : wr s (a ++ b) = wr (wr s a) b.
Proof. unfold wr. rewrite map_app. apply apply_app. Qed.
Lemma wr_ext s t ws : (forall k, s k = t k) -> forall k, wr s ws k = wr t ws k.
Proof. apply apply_ext. Qed.
Lemma wr_out s ws k : (forall v, ~ In (k, v) ws) -> wr s ws k = s k.
Proof.
  intros Hno. apply apply_out. intros v X. apply in_map_iff in X. destruct X as ((k1 & v1) & E & X). injection E as E1 E2. subst.
  exact (Hno _ X).
Qed.
Lemma wr_in s ws k v : In (k, v) ws -> (forall v', In (k, v') ws -> v' = v) -> wr s ws k = Some v.
Proof.
  intros Hin Hu. apply apply_in.
  - apply in_map_iff. exists (k, v). auto.
  - intros v' X. apply in_map_iff in X. destruct X as ((k1 & v1) & E & X). injection E as E1 E2. subst. f_equal. apply Hu. exact X.
Qed.
Lemma wr_put s l kv k : wr s (put l kv) k = put1 (wr s l) (put_ kv) k.
Proof.
  unfold put. rewrite wr_app. change (wr (wr s (filter (fun x => negb (fst x =? fst kv)) l)) [kv] k)
    with (put1 (wr s (filter (fun x => negb (fst x =? fst kv)) l)) (put_ kv) k).
  unfold put1. cbn [put_ fst snd]. destruct (k =? fst kv) eqn:E; [reflexivity|].
  revert s. induction l as [|x l IH]; intros s; [reflexivity|]. cbn [filter].
  destruct (fst x =? fst kv) eqn:Ex; cbn [negb].
  - rewrite IH. change (wr s (x :: l)) with (wr (put1 s (put_ x)) l). apply N.eqb_eq in Ex.
    clear IH. revert s. intros s. 
    assert (G : forall l s t, s k = t k -> wr s l k = wr t l k).
    { clear. induction l as [|y l IH]; intros s t Hst; [exact Hst|]. apply (IH (put1 s (put_ y)) (put1 t (put_ y))).
      unfold put1. destruct (k =? _); auto. }
    apply G. unfold put1. cbn [put_ fst]. rewrite Ex, E. reflexivity.
  - apply (IH (put1 s (put_ x))).
Qed.
Lemma writeAll_sound c ws : forall b b', writeAll c (Some b) ws = Ok b' ->
  exists l, b' = Some l /\ (forall s k, wr s l k = wr s (b ++ ws) k) /\ Forall (fun kv => canWrite c (fst kv) (snd kv) = true) ws.
Proof.
  induction ws as [|kv ws IH]; intros b b' W; cbn [writeAll] in W.
  - injection W as <-. exists b. rewrite app_nil_r. auto.
  - destruct (canWrite c (fst kv) (snd kv)) eqn:Cw; cbn [negb] in W; [|discriminate].
    destruct (IH _ _ W) as (l & E & Hl & Hf). exists l. split; [exact E|]. split; [|constructor; auto].
    intros s k. rewrite Hl. rewrite !wr_app. change (kv :: ws) with ([kv] ++ ws). rewrite wr_app. apply wr_ext.
    intros k'. apply wr_put.
Qed.
Lemma writeAll_ok c ws : forall b, Forall (fun kv => canWrite c (fst kv) (snd kv) = true) ws -> exists l, writeAll c (Some b) ws = Ok (Some l).
Proof.
  induction ws as [|kv ws IH]; intros b Hf; cbn [writeAll]; [eauto|]. inversion Hf; subst. rewrite H1. cbn [negb]. apply IH. assumption.
Qed.
Lemma replay_app a b : replay (a ++ b) = fold_left apply b (replay a).
Proof. unfold replay. apply fold_left_app. Qed.
Lemma replay_snoc a e : replay (a ++ [e]) = apply (replay a) e.
Proof. rewrite replay_app. reflexivity. Qed.

(** * Formats *)
Lemma rdN_le k x r : x < 256 ^ N.of_nat k -> rdN k (le k x ++ r) = (x, r).
Proof. intros Hx. unfold rdN. rewrite firstn_app_exact, skipn_app_exact by apply le_length. rewrite unle_le by exact Hx. reflexivity. Qed.
Lemma rd8 x r : u64 x -> rdN 8 (le 8 x ++ r) = (x, r).
Proof. intros Hx. apply rdN_le. exact Hx. Qed.
Lemma rdBool b r : rdN 1 (encBool b ++ r) = (if b then 1 else 0, r).
Proof. destruct b; reflexivity. Qed.
Lemma lenN_app {A} (a b : list A) : lenN (a ++ b) = lenN a + lenN b.
Proof. unfold lenN. rewrite app_length. lia. Qed.
Lemma lenN_cons {A} (a : A) b : lenN (a :: b) = 1 + lenN b.
Proof. unfold lenN. cbn [length]. lia. Qed.
Lemma lenN_le k x : lenN (le k x) = N.of_nat k.
Proof. unfold lenN. rewrite le_length. reflexivity. Qed.
Lemma lenN_repeat {A} (a : A) n : lenN (repeat a n) = N.of_nat n.
Proof. unfold lenN. rewrite repeat_length. reflexivity. Qed.
Lemma lenN_bool b : lenN (encBool b) = 1.
Proof. reflexivity. Qed.
Lemma lenN_encMsg m : lenN (encMsg m) = match m with None => 1 | Some (_, b) => 11 + lenN b end.
Proof.
  destruct m as [(s & b)|]; [|reflexivity]. cbn [encMsg]. rewrite lenN_cons, !lenN_app, !lenN_le. lia.
Qed.
Lemma decMsg_enc c L m r : maxExt c < 4294967296 -> fitsMsg c m -> match m with None => True | Some (_, b) => lenN b + 10 <= L end ->
  decMsg c L (encMsg m ++ r) = Ok (m, lenN (encMsg m), r).
Proof.
  intros Hc Hm HL. destruct m as [(s & b)|]; [|reflexivity]. destruct Hm as (H1 & H2 & H3).
  rewrite lenN_encMsg. unfold decMsg. cbn [encMsg].
  rewrite <- app_comm_cons, <- !app_assoc.
  change (rdN 1 (1 :: le 4 magic ++ le 4 (lenN b) ++ le 2 s ++ b ++ r)) with (1, le 4 magic ++ le 4 (lenN b) ++ le 2 s ++ b ++ r).
  cbv beta iota. change (1 =? 0) with false. cbv iota.
  destruct (L <=? raw) eqn:E0; [unfold raw in *; lia|].
  rewrite (rdN_le 4 magic) by reflexivity. rewrite (rdN_le 4 (lenN b)) by (cbn; lia). rewrite (rdN_le 2 s) by (cbn; lia).
  rewrite N.eqb_refl. cbn [negb].
  destruct (lenN b =? 0) eqn:E1; [lia|]. destruct (maxExt c <? lenN b) eqn:E2; [lia|].
  destruct (L <? lenN b + raw) eqn:E3; [unfold raw in *; lia|].
  rewrite firstn_app_exact by (unfold lenN; lia). rewrite skipn_app_exact by (unfold lenN; lia).
  f_equal.
Qed.
Lemma decMsg_enc1 c L m : maxExt c < 4294967296 -> fitsMsg c m -> match m with None => True | Some (_, b) => lenN b + 10 <= L end ->
  decMsg c L (encMsg m) = Ok (m, lenN (encMsg m), []).
Proof. intros. rewrite <- (app_nil_r (encMsg m)) at 1. apply decMsg_enc; assumption. Qed.

(** * Sizes *)
Ltac ids := unfold raw, idNum, idVersion, idLastExec, idPrimUsed, idLower, idLastView, idLastStable, idErase, idUser, idEpoch, idDbCkpt,
  idSeqWin, idCheckWin, idWinEnd, idExit, idCompl, idExecDesc, idStable, idNew, idRsi in *.
Lemma numObj c : goodCfg c -> numOfObjects c = mapEnd c - 4 /\ 9996 <= numOfObjects c.
Proof.
  intros (_ & _ & Hm). unfold numOfObjects. assert (10000 <= mapEnd c) by (unfold mapEnd; lia).
  replace (mapEnd c - 2 - 2) with (mapEnd c - 4) by lia. rewrite N.mod_small by lia. lia.
Qed.
Lemma sizeOf_some c id : goodCfg c -> 1 < id -> id < 9996 -> sizeOf c id = Some (descSize c id).
Proof.
  intros Hg H1 H2. destruct (numObj c Hg) as (_ & Hn). unfold sizeOf. ids.
  destruct (id =? 1) eqn:E; [lia|]. destruct ((1 <? id) && (id <? numOfObjects c)) eqn:E2; [reflexivity|lia].
Qed.
Ltac dsgo := intros; ids; unfold descSize, rsiFirst; ids;
  repeat (match goal with |- context [if ?b then _ else _] => let E := fresh "E" in destruct b eqn:E; try (exfalso; lia); try reflexivity end).
Lemma ds_num c id : idLastExec <= id <= idLastStable -> descSize c id = 8.
Proof. dsgo. Qed.
Lemma ds_seq c id : idSeqWin < id < idCheckWin -> descSize c id = seqElemMax c.
Proof. dsgo. Qed.
Lemma ds_check c id : idCheckWin < id < idWinEnd -> descSize c id = checkElemMax c.
Proof. dsgo. Qed.
Lemma ds_elem c id : idExit < id < idCompl -> descSize c id = exitElem c.
Proof. dsgo. Qed.
Lemma ds_compl c id : idCompl <= id < idCompl + 300 -> descSize c id = complMax c.
Proof. dsgo. Qed.
Lemma ds_newelem c id : idNew < id < idRsi + vcNum c -> descSize c id = newElem c.
Proof. dsgo. Qed.
Lemma ds_rsi c id : idRsi + vcNum c <= id -> descSize c id = rsiMax \/ descSize c id = 0.
Proof.
  intros Hid. unfold descSize, rsiFirst. destruct (_ && _) eqn:E; [auto|]. right. clear E. ids.
  assert (Hv : 1 <= vcNum c) by (unfold vcNum; lia).
  repeat (match goal with |- context [if ?b then _ else _] => let E := fresh "E" in destruct b eqn:E; try (exfalso; lia); try reflexivity end).
Qed.
Lemma canWrite_intro c id v m : sizeOf c id = Some m -> id <> 0 -> 1 <= lenN v <= m -> canWrite c id v = true.
Proof. intros E Hid Hv. unfold canWrite. rewrite E. lia. Qed.
Lemma canWrite_elim c id v : canWrite c id v = true -> exists m, sizeOf c id = Some m /\ 1 <= lenN v <= m.
Proof. unfold canWrite. destruct (sizeOf c id) as [m|]; [|discriminate]. intros. exists m. split; [reflexivity|lia]. Qed.
Lemma sizeOf_le c id m : sizeOf c id = Some m -> id <> idNum -> m = descSize c id.
Proof.
  unfold sizeOf. intros E Hid. destruct (id =? idNum) eqn:E1; [lia|]. destruct (_ && _); [|discriminate]. injection E as ->. reflexivity.
Qed.
Lemma dbRead_some c d id buf v m : sizeOf c id = Some m -> db d id = Some v -> lenN v <= buf -> dbRead c d id buf = Ok (Some v).
Proof. intros E1 E2 Hv. unfold dbRead. rewrite E1, E2. destruct (buf <? lenN v) eqn:E; [lia|reflexivity]. Qed.
Lemma dbRead_none c d id buf m : sizeOf c id = Some m -> db d id = None -> dbRead c d id buf = Ok None.
Proof. intros E1 E2. unfold dbRead. rewrite E1, E2. reflexivity. Qed.

(** * The representation relation *)
Definition fieldEnc (e : seqData) (j : N) : bytes :=
  if j =? 1 then encMsg (sq_pp e) else if j =? 2 then encMsg (sq_fcp e) else if j =? 3 then encMsg (sq_pf e)
  else if j =? 4 then encMsg (sq_cf e) else if j =? 5 then encBool (sq_force e) else encBool (sq_slow e).
Definition fitsSeq (c : cfg) (e : seqData) : Prop :=
  fitsMsg c (sq_pp e) /\ (fitsMsg c (sq_fcp e) /\ shortMsg 1056 (sq_fcp e)) /\ (fitsMsg c (sq_pf e) /\ shortMsg 2080 (sq_pf e))
  /\ (fitsMsg c (sq_cf e) /\ shortMsg 2080 (sq_cf e)).
Definition fitsCheck (c : cfg) (m : msg) : Prop := fitsMsg c m /\ lenN (encMsg m) <= N.max 1 (maxExt c).
Record R (c : cfg) (s : store) (M : meta) : Prop := mkR {
  r_num : s idNum = Some (le 4 (numOfObjects c));
  r_ver : s idVersion = Some encVersion;
  r_lastExec : s idLastExec = Some (le 8 (m_lastExec M)) /\ u64 (m_lastExec M);
  r_primUsed : s idPrimUsed = Some (le 8 (m_primUsed M)) /\ u64 (m_primUsed M);
  r_lower : s idLower = Some (le 8 (m_lower M)) /\ u64 (m_lower M);
  r_lastView : s idLastView = Some (le 8 (m_lastView M)) /\ u64 (m_lastView M);
  r_lastStable : s idLastStable = Some (le 8 (m_lastStable M)) /\ u64 (m_lastStable M + 1) /\ m_lastStable M mod 150 = 0;
  r_seqBeg : s idSeqWin = Some (le 8 (m_lastStable M + 1));
  r_checkBeg : s idCheckWin = Some (le 8 (m_lastStable M));
  r_seq : forall n, m_lastStable M < n <= m_lastStable M + 300 -> forall j, 1 <= j <= 6 ->
      s (idSeqWin + j + (n mod 300) * 6) = Some (fieldEnc (m_seq M n) j);
  r_seqout : forall n, ~ (m_lastStable M < n <= m_lastStable M + 300) -> m_seq M n = seq0;
  r_seqfit : forall n, fitsSeq c (m_seq M n);
  r_check : forall n, n mod 150 = 0 -> m_lastStable M <= n < m_lastStable M + 450 ->
      s (idCheckWin + 1 + ((n / 150) mod 3) * 2) = Some (encMsg (ck_msg (m_check M n)))
      /\ s (idCheckWin + 2 + ((n / 150) mod 3) * 2) = Some (encBool (ck_mark (m_check M n)));
  r_checkout : forall n, ~ (n mod 150 = 0 /\ m_lastStable M <= n < m_lastStable M + 450) -> m_check M n = check0;
  r_checkfit : forall n, fitsMsg c (ck_msg (m_check M n));
  r_exit : s idExit = Some (encExitSimple c (m_exit M));
  r_elems : forall i e, nth_error (ex_elements (m_exit M)) i = Some e -> s (idExit + 1 + N.of_nat i) = Some (encExitElem e);
  r_compls : forall i m, nth_error (ex_complaints (m_exit M)) i = Some m -> s (idCompl + N.of_nat i) = Some (encMsg m);
  r_exitfit : fitsExit c (m_exit M) /\ exitOverflow c (m_exit M) = true /\ (length (ex_elements (m_exit M)) <= 300)%nat
              /\ (length (ex_complaints (m_exit M)) <= 300)%nat;
  r_new : s idNew = Some (encNewSimple (m_new M));
  r_vcs : forall i, (i < N.to_nat (vcNum c))%nat -> s (idNew + 1 + N.of_nat i) = Some (encMsg (nth i (nw_vcs (m_new M)) None));
  r_newfit : fitsNew c (m_new M) /\ newOverflow c (m_new M) = true /\ length (nw_vcs (m_new M)) = N.to_nat (vcNum c);
  r_exec : s idExecDesc = Some (encExec (m_exec M)) /\ fitsExec (m_exec M) /\ xc_nbits (m_exec M) <= 4096;
  r_stable : s idStable = Some (encStable (m_stable M)) /\ lenN (m_stable M) < 65536 /\ Forall (fitsMsg c) (m_stable M)
             /\ lenN (encStable (m_stable M)) <= N.max 2 (stableMax c);
  r_user : s idUser = m_user M /\ (forall b, m_user M = Some b -> 1 <= lenN b <= 256);
  r_rsi : forall i, s (idRsi + vcNum c + i) = m_rsi M i /\ (forall b, m_rsi M i = Some b -> 1 <= lenN b <= rsiMax);
  r_erase : s idErase = if m_erase M then Some [1] else None;
  r_epoch : s idEpoch = Some (encBool (m_epoch M)) \/ (s idEpoch = None /\ m_epoch M = false);
  r_dbck : s idDbCkpt = m_dbck M /\ (forall b, m_dbck M = Some b -> 1 <= lenN b <= ckMax c) }.
Lemma R_ext c s t M : (forall k, s k = t k) -> R c s M -> R c t M.
Proof.
  intros Hst [ ]. constructor; intros; try rewrite <- !Hst; auto.
Qed.

(** * The getters *)
Section Getters.
Variable c : cfg. Variable d : disk. Variable p : ps. Variable M : meta.
Hypothesis Hg : goodCfg c.
Hypothesis HR : R c (db d) M.
Hypothesis Hp : nested p = 0.
Hypothesis Hsb : seqBeg p = m_lastStable M + 1.
Hypothesis Hkb : checkBeg p = m_lastStable M.

Lemma notInTran : inTran p = false.
Proof. unfold inTran. rewrite Hp. reflexivity. Qed.
Lemma getNum_ok id n : idLastExec <= id <= idLastStable -> db d id = Some (le 8 n) -> u64 n -> getNum c d p id = Ok n.
Proof.
  intros Hid E Hn. unfold getNum. rewrite notInTran. cbn [negb guard bind].
  rewrite (dbRead_some _ _ _ _ (le 8 n) (descSize c id)).
  - cbn [bind]. unfold gotLen, got. rewrite lenN_le. change (N.of_nat 8 =? 8) with true. cbn [guard bind]. f_equal. apply unle_le. exact Hn.
  - apply sizeOf_some; ids; try lia. exact Hg.
  - exact E.
  - rewrite lenN_le. lia.
Qed.
Lemma convert_seq n : m_lastStable M < n <= m_lastStable M + 300 -> convert 300 1 n (seqBeg p) = Ok (n mod 300).
Proof.
  intros Hn. unfold convert. rewrite N.mod_1_r. cbn [N.eqb guard bind]. rewrite Hsb. unfold inside.
  destruct (_ && _) eqn:E; [|lia]. cbn [guard bind]. rewrite N.div_1_r. reflexivity.
Qed.
Lemma convert_check n : n mod 150 = 0 -> m_lastStable M <= n < m_lastStable M + 450 -> convert 450 150 n (checkBeg p) = Ok ((n / 150) mod 3).
Proof.
  intros Hm Hn. unfold convert. rewrite Hm. cbn [N.eqb guard bind]. rewrite Hkb. unfold inside.
  destruct (_ && _) eqn:E; [|lia]. reflexivity.
Qed.
Lemma readMsg_ok n j lim m : m_lastStable M < n <= m_lastStable M + 300 -> 1 <= j <= 6 ->
  fieldEnc (m_seq M n) j = encMsg m -> fitsMsg c m -> 1 <= lim -> (match m with None => True | Some (_, b) => lenN b + 11 <= lim end) ->
  readMsg c d p n j lim = Ok m.
Proof.
  intros Hn Hj Ef Hm H1 Hl. unfold readMsg. rewrite notInTran. cbn [negb guard bind]. rewrite convert_seq by exact Hn. cbn [bind].
  assert (Hmod : n mod 300 < 300) by (apply N.mod_upper_bound; lia).
  destruct (_ <? idCheckWin) eqn:E; [|ids; lia]. cbn [guard bind].
  rewrite (dbRead_some _ _ _ _ (encMsg m) (seqElemMax c)).
  - cbn [bind]. unfold got, gotLen. rewrite decMsg_enc1.
    + cbn [bind]. rewrite N.eqb_refl. reflexivity.
    + apply Hg.
    + exact Hm.
    + destruct m as [(s & b)|]; [lia|exact Logic.I].
  - rewrite sizeOf_some; [|exact Hg|ids; lia|ids; lia]. rewrite ds_seq by (ids; lia). reflexivity.
  - rewrite (r_seq _ _ _ HR) by assumption. rewrite Ef. reflexivity.
  - rewrite lenN_encMsg. destruct m as [(s & b)|]; lia.
Qed.
Lemma readByte_ok n j b : m_lastStable M < n <= m_lastStable M + 300 -> 1 <= j <= 6 -> fieldEnc (m_seq M n) j = encBool b ->
  readByte c d p n j = Ok b.
Proof.
  intros Hn Hj Ef. unfold readByte. rewrite notInTran. cbn [negb guard bind]. rewrite convert_seq by exact Hn. cbn [bind].
  assert (Hmod : n mod 300 < 300) by (apply N.mod_upper_bound; lia).
  rewrite (dbRead_some _ _ _ _ (encBool b) (seqElemMax c)).
  - destruct b; reflexivity.
  - rewrite sizeOf_some; [|exact Hg|ids; lia|ids; lia]. rewrite ds_seq by (ids; lia). reflexivity.
  - rewrite (r_seq _ _ _ HR) by assumption. rewrite Ef. reflexivity.
  - destruct b; cbn; lia.
Qed.
Lemma getMark_ok n : n mod 150 = 0 -> m_lastStable M <= n < m_lastStable M + 450 -> getMark c d p n = Ok (ck_mark (m_check M n)).
Proof.
  intros Hm Hn. unfold getMark. rewrite notInTran. cbn [negb guard bind]. rewrite convert_check by assumption. cbn [bind].
  assert (Hmod : (n / 150) mod 3 < 3) by (apply N.mod_upper_bound; lia).
  rewrite (dbRead_some _ _ _ _ (encBool (ck_mark (m_check M n))) (checkElemMax c)).
  - destruct (ck_mark (m_check M n)); reflexivity.
  - rewrite sizeOf_some; [|exact Hg|ids; lia|ids; lia]. rewrite ds_check by (ids; lia). reflexivity.
  - apply (r_check _ _ _ HR); assumption.
  - destruct (ck_mark _); cbn; lia.
Qed.
Lemma getCkpt_ok n : n mod 150 = 0 -> m_lastStable M <= n < m_lastStable M + 450 -> getCkpt c d p n = Ok (ck_msg (m_check M n)).
Proof.
  intros Hm Hn. unfold getCkpt. rewrite notInTran. cbn [negb guard bind]. rewrite convert_check by assumption. cbn [bind].
  assert (Hmod : (n / 150) mod 3 < 3) by (apply N.mod_upper_bound; lia).
  pose proof (r_checkfit _ _ _ HR n) as Hf.
  rewrite (dbRead_some _ _ _ _ (encMsg (ck_msg (m_check M n))) (checkElemMax c)).
  - cbn [bind]. unfold got, gotLen. rewrite decMsg_enc1.
    + cbn [bind]. rewrite N.eqb_refl. reflexivity.
    + apply Hg.
    + exact Hf.
    + unfold fitsMsg in Hf. destruct (ck_msg _) as [(s & b)|]; [|exact Logic.I]. unfold checkElemMax, raw. lia.
  - rewrite sizeOf_some; [|exact Hg|ids; lia|ids; lia]. rewrite ds_check by (ids; lia). reflexivity.
  - apply (r_check _ _ _ HR); assumption.
  - rewrite lenN_encMsg. unfold fitsMsg in Hf. destruct (ck_msg _) as [(s & b)|]; unfold checkElemMax, raw; lia.
Qed.
Lemma readN_ok {A} (f : N -> res A) l : forall i, (forall k a, nth_error l k = Some a -> f (i + N.of_nat k) = Ok a) -> readN f (length l) i = Ok l.
Proof.
  induction l as [|a l IH]; intros i Hf; [reflexivity|]. cbn [length readN].
  assert (E0 : f i = Ok a) by (replace i with (i + N.of_nat 0) by lia; apply Hf; reflexivity).
  rewrite E0. cbn [bind]. rewrite IH; [reflexivity|]. intros k x Hk. replace (i + 1 + N.of_nat k) with (i + N.of_nat (S k)) by lia.
  apply Hf. exact Hk.
Qed.
Lemma readElem_ok i e : nth_error (ex_elements (m_exit M)) i = Some e -> readElem c d (N.of_nat i) = Ok e.
Proof.
  intros Hi. destruct (r_exitfit _ _ _ HR) as (Hf & Ho & Hl & _).
  assert (Hlt : (i < 300)%nat) by (assert (i < length (ex_elements (m_exit M)))%nat by (apply nth_error_Some; congruence); lia).
  unfold readElem. destruct (idExit + 1 + N.of_nat i <? idCompl) eqn:E; [|ids; lia]. cbn [guard bind].
  assert (Hin : In e (ex_elements (m_exit M))) by (eapply nth_error_In; exact Hi).
  destruct Hf as (_ & _ & _ & _ & _ & Hf & _). pose proof (proj1 (Forall_forall _ _) Hf _ Hin) as (F1 & F2).
  unfold exitOverflow in Ho. apply andb_prop in Ho. destruct Ho as (Ho & _). apply andb_prop in Ho. destruct Ho as (Ho & _).
  pose proof (proj1 (forallb_forall _ _) Ho _ Hin) as Hlen. cbv beta in Hlen.
  rewrite (dbRead_some _ _ _ _ (encExitElem e) (exitElem c)).
  - cbn [bind]. unfold got, gotLen. destruct e as ((pp & pf) & h). cbn [encExitElem fst snd] in *.
    rewrite !lenN_app, lenN_bool, !lenN_encMsg in *.
    rewrite decMsg_enc; [|apply Hg|exact F1|destruct pp as [(? & ?)|]; [destruct pf as [(? & ?)|]; lia|exact Logic.I]]. cbn [bind].
    rewrite decMsg_enc; [|apply Hg|exact F2|destruct pf as [(? & ?)|]; [destruct pp as [(? & ?)|]; lia|exact Logic.I]]. cbn [bind].
    destruct h; reflexivity.
  - rewrite sizeOf_some; [|exact Hg|ids; lia|ids; lia]. rewrite ds_elem by (ids; lia). reflexivity.
  - apply (r_elems _ _ _ HR). exact Hi.
  - lia.
Qed.
Lemma readComplaint_ok i m : nth_error (ex_complaints (m_exit M)) i = Some m -> readComplaint c d (N.of_nat i) = Ok m.
Proof.
  intros Hi. destruct (r_exitfit _ _ _ HR) as (Hf & Ho & _ & Hl).
  assert (Hlt : (i < 300)%nat) by (assert (i < length (ex_complaints (m_exit M)))%nat by (apply nth_error_Some; congruence); lia).
  unfold readComplaint. destruct (idCompl + N.of_nat i <? idExecDesc) eqn:E; [|ids; lia]. cbn [guard bind].
  assert (Hin : In m (ex_complaints (m_exit M))) by (eapply nth_error_In; exact Hi).
  destruct Hf as (_ & _ & _ & _ & _ & _ & Hf). pose proof (proj1 (Forall_forall _ _) Hf _ Hin) as F1.
  unfold exitOverflow in Ho. apply andb_prop in Ho. destruct Ho as (Ho & _). apply andb_prop in Ho. destruct Ho as (_ & Ho).
  pose proof (proj1 (forallb_forall _ _) Ho _ Hin) as Hlen. cbv beta in Hlen.
  rewrite (dbRead_some _ _ _ _ (encMsg m) (complMax c)).
  - cbn [bind]. unfold got, gotLen. rewrite decMsg_enc1; [reflexivity|apply Hg|exact F1|].
    rewrite lenN_encMsg in *. destruct m as [(? & ?)|]; [lia|exact Logic.I].
  - rewrite sizeOf_some; [|exact Hg|ids; lia|ids; lia]. rewrite ds_compl by (ids; lia). reflexivity.
  - apply (r_compls _ _ _ HR). exact Hi.
  - lia.
Qed.
Lemma exitSimple_len : 41 + lenN (encMsg (ex_vc (m_exit M))) <= exitSimple c /\ lenN (encExitSimple c (m_exit M)) = exitSimple c.
Proof.
  destruct (r_exitfit _ _ _ HR) as (Hf & Ho & _ & _). unfold exitOverflow in Ho. apply andb_prop in Ho. destruct Ho as (_ & Ho).
  split; [lia|]. unfold encExitSimple. rewrite lenN_app, lenN_repeat, !lenN_app, !lenN_le, lenN_bool.
  assert (lenN (encMsg (ex_vc (m_exit M))) = N.of_nat (length (encMsg (ex_vc (m_exit M))))) by reflexivity.
  rewrite !app_length, !le_length. change (length (encBool (ex_default (m_exit M)))) with 1%nat. lia.
Qed.
Lemma getExit_ok : getExit c d p = Ok (m_exit M).
Proof.
  unfold getExit. rewrite notInTran. cbn [negb guard bind].
  destruct exitSimple_len as (Hl1 & Hl2).
  rewrite (dbRead_some _ _ _ _ (encExitSimple c (m_exit M)) (descSize c idExit));
    [|apply sizeOf_some; [exact Hg|ids; lia|ids; lia]|apply (r_exit _ _ _ HR)|lia].
  cbn [bind]. unfold gotLen, got. rewrite Hl2, N.eqb_refl. cbn [guard bind].
  destruct (r_exitfit _ _ _ HR) as (Hf & Ho & Hn1 & Hn2). pose proof Hf as (F1 & F2 & F3 & F4 & F5 & _ & _).
  unfold encExitSimple. rewrite <- !app_assoc. rewrite rdBool. cbv beta iota.
  rewrite !rd8 by assumption. cbv beta iota.
  rewrite decMsg_enc; [|apply Hg|exact F5|].
  2:{ rewrite lenN_encMsg in Hl1. destruct (ex_vc (m_exit M)) as [(? & ?)|]; [lia|exact Logic.I]. }
  cbn [bind].
  rewrite (rdN_le 4) by (unfold lenN; cbn; lia). cbv beta iota. rewrite (rdN_le 4) by (unfold lenN; cbn; lia). cbv beta iota.
  unfold lenN. rewrite !Nat2N.id.
  rewrite (readN_ok (readElem c d) (ex_elements (m_exit M))) by (intros; rewrite N.add_0_l; apply readElem_ok; assumption).
  cbn [bind].
  rewrite (readN_ok (readComplaint c d) (ex_complaints (m_exit M))) by (intros; rewrite N.add_0_l; apply readComplaint_ok; assumption).
  cbn [bind]. destruct (m_exit M) as [df ? ? ? ? ? ? ?]. destruct df; reflexivity.
Qed.
Lemma readVc_ok i m : nth_error (nw_vcs (m_new M)) i = Some m -> readVc c d (N.of_nat i) = Ok m.
Proof.
  intros Hi. destruct (r_newfit _ _ _ HR) as (Hf & Ho & Hl).
  assert (Hlt : (i < N.to_nat (vcNum c))%nat) by (rewrite <- Hl; apply nth_error_Some; congruence).
  assert (Hv : vcNum c <= 4000) by apply Hg.
  assert (Hin : In m (nw_vcs (m_new M))) by (eapply nth_error_In; exact Hi).
  destruct Hf as (_ & _ & _ & _ & _ & Hf). pose proof (proj1 (Forall_forall _ _) Hf _ Hin) as F1.
  unfold newOverflow in Ho. apply andb_prop in Ho. destruct Ho as (Ho & _).
  pose proof (proj1 (forallb_forall _ _) Ho _ Hin) as Hlen. cbv beta in Hlen.
  unfold readVc. rewrite (dbRead_some _ _ _ _ (encMsg m) (newElem c)).
  - cbn [bind]. unfold got, gotLen. rewrite decMsg_enc1; [reflexivity|apply Hg|exact F1|].
    rewrite lenN_encMsg in *. destruct m as [(? & ?)|]; [lia|exact Logic.I].
  - rewrite sizeOf_some; [|exact Hg|ids; lia|ids; lia]. rewrite ds_newelem by (ids; lia). reflexivity.
  - rewrite (r_vcs _ _ _ HR) by exact Hlt. f_equal. f_equal. apply (nth_error_nth (nw_vcs (m_new M)) i None Hi).
  - lia.
Qed.
Lemma getNew_ok : getNew c d p = Ok (m_new M).
Proof.
  unfold getNew. destruct (r_newfit _ _ _ HR) as (Hf & Ho & Hl). pose proof Hf as (F1 & F2 & F3 & F4 & F5 & _).
  unfold newOverflow in Ho. apply andb_prop in Ho. destruct Ho as (_ & Ho).
  rewrite (dbRead_some _ _ _ _ (encNewSimple (m_new M)) (descSize c idNew));
    [|apply sizeOf_some; [exact Hg|ids; lia|ids; lia]|apply (r_new _ _ _ HR)|lia].
  cbn [bind]. unfold got. unfold encNewSimple in *. rewrite rdBool. cbv beta iota. rewrite !rd8 by assumption. cbv beta iota.
  rewrite !lenN_app, !lenN_le, lenN_bool, !lenN_encMsg in Ho.
  rewrite decMsg_enc; [|apply Hg|exact F4|].
  2:{ destruct (nw_msg (m_new M)) as [(? & ?)|]; [lia|exact Logic.I]. }
  cbn [bind]. rewrite decMsg_enc1; [|apply Hg|exact F5|].
  2:{ destruct (nw_vc (m_new M)) as [(? & ?)|]; [lia|exact Logic.I]. }
  cbn [bind]. rewrite <- Hl.
  rewrite (readN_ok (readVc c d) (nw_vcs (m_new M))) by (intros; rewrite N.add_0_l; apply readVc_ok; assumption).
  cbn [bind]. destruct (m_new M) as [df ? ? ? ? ? ?]. destruct df; reflexivity.
Qed.
Lemma getExec_gen q : exists q', getExec c d q = Ok (m_exec M, q') /\ nested q' = nested q /\ batch q' = batch q /\ seqBeg q' = seqBeg q
  /\ checkBeg q' = checkBeg q.
Proof.
  clear Hp Hsb Hkb p.
  destruct (r_exec _ _ _ HR) as (E & (F1 & F2 & F3) & F4).
  assert (Hrs : realSize (xc_nbits (m_exec M)) <= 512).
  { unfold realSize. apply N.lt_succ_r. apply N.div_lt_upper_bound; lia. }
  assert (Hlen : lenN (encExec (m_exec M)) = 20 + realSize (xc_nbits (m_exec M))).
  { unfold encExec. rewrite !lenN_app, !lenN_le. lia. }
  unfold getExec. rewrite (dbRead_some _ _ _ _ (encExec (m_exec M)) (descSize c idExecDesc));
    [|apply sizeOf_some; [exact Hg|ids; lia|ids; lia]|exact E|unfold execMax; lia].
  cbn [bind]. unfold got, encExec. rewrite rd8 by assumption. cbv beta iota. rewrite (rdN_le 4) by (cbn; lia). cbv beta iota.
  destruct (execMax - 16 <? 4 + realSize (xc_nbits (m_exec M))) eqn:E1; [unfold execMax in *; lia|].
  rewrite firstn_app_exact by (unfold lenN in F3; lia). rewrite skipn_app_exact by (unfold lenN in F3; lia).
  cbv beta iota. rewrite <- (app_nil_r (le 8 (xc_ticks (m_exec M)))). rewrite rd8 by assumption. cbv beta iota. cbn [fst snd].
  assert (Ex : mkExec (xc_seq (m_exec M)) (xc_nbits (m_exec M)) (xc_bytes (m_exec M)) (xc_ticks (m_exec M)) = m_exec M)
    by (destruct (m_exec M); reflexivity).
  rewrite Ex. eexists. split; [reflexivity|]. destruct (_ && _); auto.
Qed.
Lemma decMsgs_ok L ms : forall r, Forall (fitsMsg c) ms -> lenN (concat (map encMsg ms)) <= L ->
  decMsgs c (length ms) L (concat (map encMsg ms) ++ r) = Ok ms.
Proof.
  induction ms as [|m ms IH]; intros r Hf HL; [reflexivity|]. inversion Hf as [|? ? Hm Hms]; subst. cbn [length decMsgs map concat] in *.
  rewrite lenN_app, lenN_encMsg in HL. rewrite <- app_assoc. rewrite decMsg_enc; [|apply Hg|exact Hm|].
  - cbn [bind]. rewrite IH; [reflexivity|exact Hms|]. destruct m as [(? & ?)|]; lia.
  - destruct m as [(? & ?)|]; [lia|exact Logic.I].
Qed.
Lemma getStable_ok : 1 <= nRep c -> getStable c d p = Ok (m_stable M).
Proof.
  intros Hr. destruct (r_stable _ _ _ HR) as (E & F1 & F2 & F3). unfold getStable. rewrite notInTran. cbn [negb guard bind].
  assert (H2 : 2 <= stableMax c) by (unfold stableMax; lia).
  rewrite (dbRead_some _ _ _ _ (encStable (m_stable M)) (descSize c idStable));
    [|apply sizeOf_some; [exact Hg|ids; lia|ids; lia]|exact E|lia].
  cbn [bind]. unfold got, encStable. rewrite (rdN_le 2) by (cbn; lia). cbv beta iota. unfold lenN at 1. rewrite Nat2N.id.
  rewrite <- (app_nil_r (concat _)). apply decMsgs_ok; [exact F2|]. unfold encStable in F3. rewrite lenN_app, lenN_le in F3. lia.
Qed.
Lemma getBytes_ok id lim v m : sizeOf c id = Some m -> db d id = v -> (forall b, v = Some b -> 1 <= lenN b <= lim) -> getBytes c d id lim = Ok v.
Proof.
  intros Hs E Hv. unfold getBytes. destruct v as [b|].
  - specialize (Hv b eq_refl). rewrite (dbRead_some _ _ _ _ b m) by (assumption || lia). cbn [bind]. unfold gotLen.
    destruct (lenN b =? 0) eqn:E0; [lia|reflexivity].
  - rewrite (dbRead_none _ _ _ _ m) by assumption. reflexivity.
Qed.
Lemma reads_ok : reads c d p M.
Proof.
  constructor.
  - exists (setCLastExec p (m_lastExec M)). unfold getLastExec. rewrite (getNum_ok _ (m_lastExec M));
      [reflexivity|ids; lia|apply (r_lastExec _ _ _ HR)..].
  - apply getNum_ok; [ids; lia|apply (r_primUsed _ _ _ HR)..].
  - apply getNum_ok; [ids; lia|apply (r_lower _ _ _ HR)..].
  - exists (setCLastView p (m_lastView M)). unfold getLastView. rewrite (getNum_ok _ (m_lastView M));
      [reflexivity|ids; lia|apply (r_lastView _ _ _ HR)..].
  - destruct (r_lastStable _ _ _ HR) as (E & Hu & _). apply getNum_ok; [ids; lia|exact E|]. unfold u64 in *. lia.
  - intros n Hn. destruct (r_seqfit _ _ _ HR n) as (F1 & (F2 & S2) & (F3 & S3) & (F4 & S4)).
    unfold getPP, getFCP, getPF, getCF, getForce, getSlow.
    repeat split.
    + apply readMsg_ok; try assumption; try lia; try reflexivity; unfold maxPP, raw; [lia|].
      unfold fitsMsg in F1. destruct (sq_pp _) as [(? & ?)|]; [lia|exact Logic.I].
    + apply readMsg_ok; try assumption; try lia; try reflexivity; unfold maxFCP, raw; [lia|].
      unfold shortMsg in S2. destruct (sq_fcp _) as [(? & ?)|]; [lia|exact Logic.I].
    + apply readMsg_ok; try assumption; try lia; try reflexivity; unfold maxFull, raw; [lia|].
      unfold shortMsg in S3. destruct (sq_pf _) as [(? & ?)|]; [lia|exact Logic.I].
    + apply readMsg_ok; try assumption; try lia; try reflexivity; unfold maxFull, raw; [lia|].
      unfold shortMsg in S4. destruct (sq_cf _) as [(? & ?)|]; [lia|exact Logic.I].
    + apply readByte_ok; [assumption|lia|reflexivity].
    + apply readByte_ok; [assumption|lia|reflexivity].
  - intros n Hm Hn. split; [apply getCkpt_ok|apply getMark_ok]; assumption.
  - apply getExit_ok.
  - apply getNew_ok.
  - destruct (getExec_gen p) as (q & Hq & _). exists q. exact Hq.
  - destruct (N.eq_dec (nRep c) 0) as [E|E]; [|apply getStable_ok; lia].
    (* no replica: the buffer holds the number of messages only *)
    destruct (r_stable _ _ _ HR) as (E0 & F1 & F2 & F3).
    unfold getStable. rewrite notInTran. cbn [negb guard bind].
    assert (H2 : stableMax c = 2) by (unfold stableMax; rewrite E; lia).
    rewrite (dbRead_some _ _ _ _ (encStable (m_stable M)) (descSize c idStable));
      [|apply sizeOf_some; [exact Hg|ids; lia|ids; lia]|exact E0|lia].
    cbn [bind]. unfold got, encStable. rewrite (rdN_le 2) by (cbn; lia). cbv beta iota. unfold lenN at 1. rewrite Nat2N.id.
    rewrite <- (app_nil_r (concat _)). apply decMsgs_ok; [exact F2|]. unfold encStable in F3. rewrite lenN_app, lenN_le in F3. lia.
  - destruct (r_user _ _ _ HR) as (E & Hb). unfold getUser. eapply getBytes_ok; [|exact E|exact Hb]. apply sizeOf_some; [exact Hg|ids; lia|ids; lia].
  - intros i Hi. destruct (r_rsi _ _ _ HR i) as (E & Hb). unfold getRsi. eapply getBytes_ok; [|exact E|exact Hb].
    unfold sizeOf. ids. destruct (_ =? 1) eqn:E1; [lia|]. destruct (_ && _) eqn:E2; [reflexivity|lia].
  - unfold getFlag. pose proof (r_erase _ _ _ HR) as E. destruct (m_erase M).
    + rewrite (dbRead_some _ _ _ _ [1] (descSize c idErase)); [reflexivity|apply sizeOf_some; [exact Hg|ids; lia|ids; lia]|exact E|cbn; lia].
    + rewrite (dbRead_none _ _ _ _ (descSize c idErase)); [reflexivity|apply sizeOf_some; [exact Hg|ids; lia|ids; lia]|exact E].
  - unfold getFlag. destruct (r_epoch _ _ _ HR) as [E|(E & E0)].
    + rewrite (dbRead_some _ _ _ _ (encBool (m_epoch M)) (descSize c idEpoch));
        [destruct (m_epoch M); reflexivity|apply sizeOf_some; [exact Hg|ids; lia|ids; lia]|exact E|destruct (m_epoch M); cbn; lia].
    + rewrite E0. rewrite (dbRead_none _ _ _ _ (descSize c idEpoch)); [reflexivity|apply sizeOf_some; [exact Hg|ids; lia|ids; lia]|exact E].
  - destruct (r_dbck _ _ _ HR) as (E & Hb). eapply getBytes_ok; [|exact E|exact Hb]. apply sizeOf_some; [exact Hg|ids; lia|ids; lia].
Qed.
End Getters.
