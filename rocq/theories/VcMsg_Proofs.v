(** Proofs about VcMsg_Model. *)
From Coq Require Import List Arith NArith ZArith Bool Lia.
From Verif Require Import Lib_Bytes PrePrep_Model PrePrep_Proofs VcMsg_Model.
Import ListNotations.
Local Open Scope N_scope.

Lemma s64_window x : x < 2 ^ 64 -> (s64 ((x + 300) mod 2 ^ 64) <= s64 x + 300)%Z.
Proof.
  intros L. unfold s64. change (2 ^ 64) with 18446744073709551616 in *. change (2 ^ 63) with 9223372036854775808. change (2 ^ 64)%Z with 18446744073709551616%Z.
  assert (M : (x + 300) mod 18446744073709551616 = if x + 300 <? 18446744073709551616 then x + 300 else x + 300 - 18446744073709551616).
  { destruct (N.ltb_spec (x + 300) 18446744073709551616); [apply N.mod_small; auto|]. symmetry. apply N.mod_unique with (q := 1); lia. }
  rewrite M. clear M. destruct (N.ltb_spec (x + 300) 18446744073709551616); destruct (N.ltb_spec x 9223372036854775808);
    match goal with |- context [if ?a <? ?b then _ else _] => destruct (N.ltb_spec a b) end; lia.
Qed.
Lemma s64_small x : x < 2 ^ 63 -> s64 x = Z.of_N x.
Proof. intros L. unfold s64. apply N.ltb_lt in L. rewrite L. auto. Qed.

Lemma eSize_bounds mem p : bytesIn mem -> 49 <= eSize mem p <= 59 + 65535.
Proof.
  intros B. unfold eSize. destruct (eHas mem p); [|lia]. pose proof (u_bound 2 mem (p + 57) B) as U. change (256 ^ N.of_nat 2) with 65536 in U. unfold cSigLen. lia.
Qed.
Lemma elems_spec mem : forall k p rem last rem', elems mem k p rem last = Some rem' ->
  exists l, length l = k /\ rem' <= rem /\ laid (eSize mem) p l (p + (rem - rem')) /\ rising mem last (s64 ((u 8 mem 16 + 300) mod 2 ^ 64)) l /\ Forall (goodElement mem) l.
Proof.
  induction k as [|k IH]; intros p rem last rem' E; cbn [elems] in E.
  - injection E as <-. exists []. repeat split; auto; [lia|]. cbn [laid]. lia.
  - destruct (N.ltb_spec rem 49); [discriminate|]. destruct (Z.leb_spec (eSeq mem p) last); [discriminate|].
    destruct (Z.ltb_spec (s64 ((u 8 mem 16 + 300) mod 2 ^ 64)) (eSeq mem p)); [discriminate|]. destruct (Z.leb_spec (vView mem) (eView mem p)); [discriminate|].
    destruct (eHas mem p) eqn:Has.
    + destruct (N.ltb_spec (rem - 49) 10); [discriminate|]. destruct (Z.ltb_spec (eView mem p) (cView mem p)); [discriminate|]. destruct (N.eqb_spec (cSigLen mem p) 0); [discriminate|].
      destruct (N.ltb_spec (rem - 49) (10 + cSigLen mem p)); [discriminate|]. destruct (IH _ _ _ _ E) as (l & L & Le & La & Ri & Go).
      exists (p :: l). assert (Z : eSize mem p = 59 + cSigLen mem p) by (unfold eSize; rewrite Has; auto). split; [cbn [length]; auto|]. split; [lia|]. split; [|split; [|constructor; auto]].
      * cbn [laid]. split; auto. rewrite Z. replace (p + (59 + cSigLen mem p)) with (p + 49 + (10 + cSigLen mem p)) by lia.
        replace (p + (rem - rem')) with (p + 49 + (10 + cSigLen mem p) + (rem - 49 - (10 + cSigLen mem p) - rem')) by lia. auto.
      * cbn [rising]. split; auto; lia.
      * red. split; [lia|]. intros _. split; auto; lia.
    + destruct (IH _ _ _ _ E) as (l & L & Le & La & Ri & Go). exists (p :: l). assert (Z : eSize mem p = 49) by (unfold eSize; rewrite Has; auto).
      split; [cbn [length]; auto|]. split; [lia|]. split; [|split; [|constructor; auto]].
      * cbn [laid]. split; auto. rewrite Z. replace (p + (rem - rem')) with (p + 49 + (rem - 49 - rem')) by lia. auto.
      * cbn [rising]. split; auto; lia.
      * red. split; [lia|]. congruence.
Qed.
Lemma rising_length mem : forall l low high, rising mem low high l -> l = [] \/ (Z.of_nat (length l) <= high - low)%Z.
Proof.
  induction l as [|p l IH]; intros low high R; auto. right. cbn [rising] in R. destruct R as [R1 R2]. destruct (IH _ _ R2) as [-> | L]; cbn [length]; [cbn; lia|]. rewrite Nat2Z.inj_succ. lia.
Qed.
Lemma rising_weaken mem : forall l low high high', (high <= high')%Z -> rising mem low high l -> rising mem low high' l.
Proof. induction l as [|p l IH]; intros low high high' Le R; auto. cbn [rising] in *. destruct R. split; [lia|]. eapply IH; eauto. Qed.
Lemma laid_bound size : forall l from to lo hi, laid size from l to -> (forall p, In p l -> lo <= size p <= hi) -> from + N.of_nat (length l) * lo <= to <= from + N.of_nat (length l) * hi.
Proof.
  induction l as [|p l IH]; intros from to lo hi La B; cbn [laid] in La; [subst; cbn; lia|]. destruct La as [-> La]. specialize (IH _ _ lo hi La (fun q Hq => B q (or_intror Hq))).
  specialize (B from (or_introl eq_refl)). cbn [length]. rewrite Nat2N.inj_succ. nia.
Qed.
Lemma laid_In size : forall l from to p, laid size from l to -> In p l -> from <= p /\ p + size p <= to.
Proof.
  induction l as [|q l IH]; intros from to p La Hp; [destruct Hp|]. cbn [laid] in La. destruct La as [-> La].
  assert (G : forall l' f t, laid size f l' t -> f <= t) by (induction l' as [|x l' IH']; intros f t L'; cbn [laid] in L'; [lia|]; destruct L' as [-> L']; apply IH' in L'; lia).
  destruct Hp as [<-|Hp]; [apply G in La; lia|]. specialize (IH _ _ _ La Hp). lia.
Qed.
Lemma iterE_all mem : forall l p n, laid (eSize mem) p l (vLoc mem) -> n + N.of_nat (length l) = vNumElem mem -> iterE mem (length l) p n = Some l.
Proof.
  induction l as [|q l IH]; intros p n La E; cbn [laid] in La.
  - cbn [length iterE]. subst. rewrite N.leb_refl. cbn [length] in E. replace (n =? vNumElem mem) with true by (symmetry; apply N.eqb_eq; lia). auto.
  - destruct La as [-> La]. cbn [length iterE]. pose proof (laid_In (eSize mem) (p :: l) p (vLoc mem) p (conj eq_refl La) (or_introl eq_refl)) as [_ B].
    assert (Z : 49 <= eSize mem p) by (unfold eSize; destruct (eHas mem p); lia).
    replace (vLoc mem <=? p) with false by (symmetry; apply N.leb_gt; lia). replace (vLoc mem - p <? 49) with false by (symmetry; apply N.ltb_ge; lia).
    replace (eHas mem p && ((vLoc mem - p <? 59) || (vLoc mem - p <? 59 + cSigLen mem p))) with false.
    + rewrite (IH _ (n + 1) La); auto. cbn [length] in E. lia.
    + symmetry. destruct (eHas mem p) eqn:Has; auto. cbn [andb]. unfold eSize in B. rewrite Has in B. apply orb_false_iff. split; apply N.ltb_ge; lia.
Qed.
Lemma compls_spec mem size : bytesIn mem -> size < M32 -> forall k p, p <= size -> compls mem k p (size - p) = Some 0 ->
  (forall q, In q (chain mem k p) -> q + 4 <= size -> q + 4 + u 4 mem q <= size) -> laid (cSize mem) p (chain mem k p) size /\ Forall (fun q => 27 < u 4 mem q) (chain mem k p).
Proof.
  intros By Sz. induction k as [|k IH]; intros p Le E NO; cbn [compls chain laid] in *.
  - injection E as E. split; auto. lia.
  - destruct (N.leb_spec (size - p) 27); [discriminate|]. destruct (N.leb_spec (u 4 mem p) 27); [discriminate|].
    assert (B : p + 4 + u 4 mem p <= size) by (apply NO; [left; auto|lia]).
    replace ((size - p - 4 + M32 - u 4 mem p) mod M32) with (size - (p + 4 + u 4 mem p)) in E.
    2:{ apply N.mod_unique with (q := 1); lia. }
    destruct (IH _ B E) as [La F]; [intros; apply NO; auto; right; auto|]. split; [split; auto|constructor; auto]. replace (p + cSize mem p) with (p + 4 + u 4 mem p) by (unfold cSize; lia). auto.
Qed.
Lemma chain_length mem : forall k p, length (chain mem k p) = k.
Proof. induction k; intros; cbn [chain length]; auto. Qed.
Lemma iterC_all mem size : size < M32 -> forall l p n, laid (cSize mem) p l size -> n + N.of_nat (length l) = vNumCompl mem -> iterC mem size (length l) p n = Some l.
Proof.
  intros Sz. induction l as [|q l IH]; intros p n La E; cbn [laid] in La.
  - cbn [length iterC]. subst. rewrite N.leb_refl. cbn [length] in E. replace (n =? vNumCompl mem) with true by (symmetry; apply N.eqb_eq; lia). auto.
  - destruct La as [-> La]. cbn [length iterC]. pose proof (laid_In (cSize mem) (p :: l) p size p (conj eq_refl La) (or_introl eq_refl)) as [_ B]. unfold cSize in B.
    replace (size <=? p) with false by (symmetry; apply N.leb_gt; lia).
    replace ((size + M32 - p - 4) mod M32) with (size - p - 4) by (apply N.mod_unique with (q := 1); lia).
    replace (size - p - 4 <? u 4 mem p) with false by (symmetry; apply N.ltb_ge; lia). replace (p + cSize mem p) with (p + 4 + u 4 mem p) in La by (unfold cSize; lia).
    rewrite N.mod_small by lia. rewrite (IH _ (n + 1) La); auto. cbn [length] in E. lia.
Qed.
(** One complaint or none cannot overrun. *)
Lemma compls_one mem size p : bytesIn mem -> size < M32 -> p <= size -> compls mem 1 p (size - p) = Some 0 -> p + 4 + u 4 mem p = size.
Proof.
  intros By Sz Le E. cbn [compls] in E. destruct (N.leb_spec (size - p) 27); [discriminate|]. destruct (N.leb_spec (u 4 mem p) 27); [discriminate|]. injection E as E.
  pose proof (u_bound 4 mem p By) as U. change (256 ^ N.of_nat 4) with M32 in U. apply N.mod_divide in E; [|discriminate]. destruct E as [q E].
  assert (Q : q = 1) by nia. subst q. lia.
Qed.

(** * What validation establishes *)
Lemma fields_bound mem : bytesIn mem -> vSpan mem < M32 /\ vLoc mem < M32 /\ vNumElem mem < 65536 /\ vNumCompl mem < 65536 /\ u 8 mem 16 < 2 ^ 64.
Proof.
  intros B. repeat split.
  - exact (u_bound 4 mem 2 B).
  - exact (u_bound 4 mem 40 B).
  - exact (u_bound 2 mem 38 B).
  - exact (u_bound 2 mem 32 B).
  - exact (u_bound 8 mem 16 B).
Qed.
Lemma N300 (k : nat) : (Z.of_nat k <= 300)%Z -> (k <= 300)%nat. Proof. lia. Qed.
Lemma validate_spec c mem size : bytesIn mem -> size < 2 ^ 31 -> sigLen c (vGen mem) < 65536 -> validate c mem size = true ->
  isReplica c (vGen mem) = true /\ vGen mem <> me c /\ vEpoch mem = epoch c /\ verify c (vGen mem) (rd mem 0 (bodySize mem)) (rd mem (bodySize mem) (sigLen c (vGen mem))) = true /\
  checkComplaints mem size (sigLen c (vGen mem)) = true /\ bodySize mem + sigLen c (vGen mem) <= size /\
  exists l, N.of_nat (length l) = vNumElem mem /\ (length l <= 300)%nat /\ laid (eSize mem) (44 + vSpan mem) l (bodySize mem) /\ rising mem (vStable mem) (vStable mem + Window) l /\
            Forall (goodElement mem) l /\ iterateElements mem = Some l.
Proof.
  intros B Sz Sg E. unfold validate in E. change (2 ^ 31) with 2147483648 in Sz. rewrite !andb_true_iff in E. destruct E as [[[[E0 E1] Ev] Ee] Ec].
  apply negb_true_iff in E0, E1. rewrite !orb_false_iff in E0. destruct E0 as [[[A1 A2] A3] A4]. apply N.ltb_ge in A1, E1. apply negb_false_iff in A2, A4. apply N.eqb_neq in A3. apply N.eqb_eq in A4.
  destruct (fields_bound mem B) as (Fs & Fl & Fe & Fc & F8). do 5 (split; [auto|]). unfold checkElements in Ee.
  destruct (elems mem (N.to_nat (vNumElem mem)) (44 + vSpan mem) _ (vStable mem)) as [rem|] eqn:El; [|discriminate]. apply elems_spec in El. destruct El as (l & L & Le & La & Ri & Go).
  assert (Ln : N.of_nat (length l) = vNumElem mem) by (rewrite L; apply N2Nat.id).
  assert (Ri' : rising mem (vStable mem) (vStable mem + Window) l) by (apply rising_weaken with (high := s64 ((u 8 mem 16 + 300) mod 2 ^ 64)); [apply s64_window; auto|auto]).
  assert (L300 : (length l <= 300)%nat).
  { apply N300. destruct (rising_length _ _ _ _ Ri') as [->|R]; [cbn; lia|]. unfold Window in R. lia. }
  set (sl := sigLen c (vGen mem)) in *. set (full := (size + 2 * M32 - sl - 44 - vSpan mem) mod M32) in *.
  pose proof (laid_bound _ _ _ _ 49 65594 La (fun p _ => eSize_bounds mem p B)) as LB. assert (L300' : N.of_nat (length l) <= 300) by lia. clear L.
  destruct (N.eqb_spec (vNumElem mem) 0) as [Z|Z].
  - apply N.eqb_eq in Ee. assert (Bs : bodySize mem = 44 + vSpan mem) by (unfold bodySize; rewrite Ee; cbn [N.eqb]; apply N.mod_small; unfold M32 in *; lia).
    rewrite Bs in *. rewrite N.mod_small in E1 by (unfold M32; lia). split; [auto|]. exists l. destruct l; [|cbn [length] in Ln; lia]. repeat split; auto.
    unfold iterateElements. rewrite Z. auto.
  - apply N.eqb_eq in Ee.
    (* The end of the last element is where the message says it is. *)
    assert (Full : (full + sl + 44 + vSpan mem) mod M32 = size).
    { unfold full. rewrite <- !N.add_assoc. rewrite N.add_mod_idemp_l by discriminate. replace (size + 2 * M32 - sl - 44 - vSpan mem + (sl + (44 + vSpan mem))) with (size + 2 * M32) by (unfold M32 in *; lia).
      rewrite N.mod_add by discriminate. apply N.mod_small. unfold M32; lia. }
    assert (FM : full < M32) by (apply N.mod_lt; discriminate).
    assert (Used : vLoc mem = 44 + vSpan mem + (full - rem)).
    { rewrite Ee. destruct (N.leb_spec (sl + 44 + vSpan mem) size).
      - assert (full = size - sl - 44 - vSpan mem).
        { unfold full. symmetry. apply N.mod_unique with (q := 2); unfold M32 in *; lia. }
        symmetry. apply N.mod_unique with (q := 2); unfold M32 in *; lia.
      - assert (full = size + M32 - sl - 44 - vSpan mem).
        { unfold full. symmetry. apply N.mod_unique with (q := 1); unfold M32 in *; lia. }
        symmetry. destruct (N.leb_spec (sl + rem) size); [apply N.mod_unique with (q := 2)|apply N.mod_unique with (q := 1)]; unfold M32 in *; lia. }
    assert (Bs : bodySize mem = vLoc mem) by (unfold bodySize; destruct (N.eqb_spec (vLoc mem) 0); [lia|auto]).
    rewrite <- Used in La, LB. rewrite Bs in *. rewrite N.mod_small in E1 by (unfold M32; nia). split; [auto|]. exists l. repeat split; auto.
    unfold iterateElements. rewrite N.mod_small by (unfold M32; lia). replace (vNumElem mem =? 0) with false by (symmetry; apply N.eqb_neq; auto).
    replace (vLoc mem <=? 44 + vSpan mem) with false by (symmetry; apply N.leb_gt; nia). rewrite <- Ln, Nat2N.id. apply iterE_all; auto.
Qed.
Lemma complaints_start mem size sig : size < M32 -> bodySize mem + sig <= size -> checkComplaints mem size sig = true ->
  compls mem (N.to_nat (vNumCompl mem)) (bodySize mem + sig) (size - (bodySize mem + sig)) = Some 0.
Proof.
  intros Sz Le E. unfold checkComplaints in E. replace ((size + 2 * M32 - sig - bodySize mem) mod M32) with (size - (bodySize mem + sig)) in E by (apply N.mod_unique with (q := 2); lia).
  destruct (compls mem _ _ _) as [r|]; [|discriminate]. apply N.eqb_eq in E. congruence.
Qed.
Lemma complaints_spec mem size sig : bytesIn mem -> size < M32 -> bodySize mem + sig <= size -> checkComplaints mem size sig = true -> noOverrun mem size sig ->
  exists l, N.of_nat (length l) = vNumCompl mem /\ laid (cSize mem) (bodySize mem + sig) l size /\ Forall (fun q => 27 < u 4 mem q) l /\ iterateComplaints mem size sig = Some l.
Proof.
  intros B Sz Le E NO. apply complaints_start in E; auto. destruct (compls_spec mem size B Sz _ _ Le E NO) as [La F]. set (l := chain mem (N.to_nat (vNumCompl mem)) (bodySize mem + sig)) in *.
  assert (Ln : N.of_nat (length l) = vNumCompl mem) by (unfold l; rewrite chain_length; apply N2Nat.id). exists l. repeat split; auto.
  unfold iterateComplaints. destruct (N.eqb_spec (vNumCompl mem) 0) as [Z|Z]; [destruct l; [auto|cbn [length] in Ln; lia]|]. rewrite N.mod_small by lia.
  destruct (N.leb_spec size (bodySize mem + sig)).
  - destruct l as [|q l]; [cbn [length] in Ln; lia|]. apply laid_In with (p := q) in La; [|left; auto]. unfold cSize in La. lia.
  - rewrite <- Ln, Nat2N.id. apply iterC_all; auto.
Qed.
Lemma few_complaints mem size sig : bytesIn mem -> size < M32 -> bodySize mem + sig <= size -> checkComplaints mem size sig = true -> vNumCompl mem <= 1 -> noOverrun mem size sig.
Proof.
  intros B Sz Le E One. apply complaints_start in E; auto. unfold noOverrun. assert (C : vNumCompl mem = 0 \/ vNumCompl mem = 1) by lia. destruct C as [C|C]; rewrite C in *.
  - intros p [].
  - change (N.to_nat 1) with 1%nat in *. intros p [<-|[]] _. apply compls_one in E; auto. lia.
Qed.

(** * A message built by a correct replica *)
Lemma cast_le (a : nat) (b : N) : N.of_nat a = b -> a = N.to_nat b. Proof. lia. Qed.
Lemma bound63 x : x < 2 ^ 63 -> x < 256 ^ N.of_nat 8.
Proof. change (256 ^ N.of_nat 8) with 18446744073709551616. change (2 ^ 63) with 9223372036854775808. lia. Qed.
Section Element.
Context (pre post : bytes) (e : element) (rest : memory) (view : N).
Hypothesis We : wfE view e.
Hypothesis Hv : view < 2 ^ 63.
Hypothesis Hs : seqNum e < 2 ^ 63.
Let m := pre ++ encE e ++ post.
Let mem := memOf m rest.
Let p := N.of_nat (length pre).
Lemma e_seq : eSeq mem p = Z.of_N (seqNum e).
Proof.
  unfold eSeq, mem, p. rewrite (u_field m pre 8 (seqNum e) (dig e ++ le 8 (origin e) ++ match cert e with None => [0] | Some (v, s) => 1 :: le 8 v ++ le 2 (N.of_nat (length s)) ++ s end ++ post) rest);
    [apply s64_small; auto|unfold m, encE; rewrite <- !app_assoc; reflexivity|reflexivity|apply bound63; auto].
Qed.
Lemma e_dig : eDigest mem p = dig e.
Proof.
  unfold eDigest, mem, p. destruct We as (L & _). replace m with ((pre ++ le 8 (seqNum e)) ++ dig e ++ (le 8 (origin e) ++ match cert e with None => [0] | Some (v, s) => 1 :: le 8 v ++ le 2 (N.of_nat (length s)) ++ s end ++ post))
    by (unfold m, encE; rewrite <- !app_assoc; reflexivity).
  replace (N.of_nat (length pre) + 8) with (N.of_nat (length (pre ++ le 8 (seqNum e)))) by (rewrite app_length, le_length; lia). replace 32 with (N.of_nat (length (dig e))) by lia. apply rd_app.
Qed.
Lemma e_view : eView mem p = Z.of_N (origin e).
Proof.
  unfold eView, mem, p. destruct We as (L & _ & O & _). rewrite (u_field m (pre ++ le 8 (seqNum e) ++ dig e) 8 (origin e) (match cert e with None => [0] | Some (v, s) => 1 :: le 8 v ++ le 2 (N.of_nat (length s)) ++ s end ++ post) rest);
    [apply s64_small; lia|unfold m, encE; rewrite <- !app_assoc; reflexivity|rewrite !app_length, le_length; lia|apply bound63; lia].
Qed.
Lemma e_has : eHas mem p = match cert e with None => false | Some _ => true end.
Proof.
  unfold eHas, mem, p. destruct We as (L & _ & O & _). destruct (cert e) as [[v s]|] eqn:C.
  - rewrite (u_field m (pre ++ le 8 (seqNum e) ++ dig e ++ le 8 (origin e)) 1 1 (le 8 v ++ le 2 (N.of_nat (length s)) ++ s ++ post) rest); [reflexivity|unfold m, encE; rewrite C, <- !app_assoc; reflexivity|rewrite !app_length, !le_length; lia|reflexivity].
  - rewrite (u_field m (pre ++ le 8 (seqNum e) ++ dig e ++ le 8 (origin e)) 1 0 post rest); [reflexivity|unfold m, encE; rewrite C, <- !app_assoc; reflexivity|rewrite !app_length, !le_length; lia|reflexivity].
Qed.
Lemma e_cert v s : cert e = Some (v, s) -> cView mem p = Z.of_N v /\ cSigLen mem p = N.of_nat (length s) /\ rd mem (p + 59) (N.of_nat (length s)) = s.
Proof.
  intros C. destruct We as (L & _ & O & W). rewrite C in W. destruct W as (Lv & Ls & _). unfold cView, cSigLen, mem, p.
  assert (M : m = (pre ++ le 8 (seqNum e) ++ dig e ++ le 8 (origin e) ++ [1]) ++ le 8 v ++ le 2 (N.of_nat (length s)) ++ s ++ post) by (unfold m, encE; rewrite C, <- !app_assoc; reflexivity).
  assert (Lp : N.of_nat (length (pre ++ le 8 (seqNum e) ++ dig e ++ le 8 (origin e) ++ [1])) = N.of_nat (length pre) + 49) by (rewrite !app_length, !le_length; cbn [length]; lia).
  set (q := pre ++ le 8 (seqNum e) ++ dig e ++ le 8 (origin e) ++ [1]) in *. repeat split.
  - rewrite (u_field m q 8 v (le 2 (N.of_nat (length s)) ++ s ++ post) rest); [apply s64_small; lia|exact M|exact Lp|apply bound63; lia].
  - apply (u_field m (q ++ le 8 v) 2 (N.of_nat (length s)) (s ++ post) rest); [rewrite <- app_assoc; exact M|rewrite app_length, le_length; lia|change (256 ^ N.of_nat 2) with 65536; lia].
  - replace m with ((q ++ le 8 v ++ le 2 (N.of_nat (length s))) ++ s ++ post) by (rewrite M, <- !app_assoc; reflexivity).
    replace (N.of_nat (length pre) + 59) with (N.of_nat (length (q ++ le 8 v ++ le 2 (N.of_nat (length s))))) by (rewrite !app_length, !le_length; lia). apply rd_app.
Qed.
Lemma e_size : eSize mem p = N.of_nat (length (encE e)).
Proof.
  unfold eSize. rewrite e_has. pose proof (e_cert) as EC. destruct We as (L & _ & O & W). unfold encE. rewrite !app_length, !le_length, L. destruct (cert e) as [[v s]|] eqn:C.
  - destruct (EC v s eq_refl) as (_ & -> & _). cbn [length]. rewrite !app_length, !le_length. lia.
  - cbn [length]. lia.
Qed.
End Element.
Fixpoint placesE (p : N) (es : list element) : list N := match es with [] => [] | e :: es => p :: placesE (p + N.of_nat (length (encE e))) es end.
Lemma elems_build post rest view high : view < 2 ^ 63 -> high < 2 ^ 63 -> forall es pre low rem,
  let mem := memOf (pre ++ concat (map encE es) ++ post) rest in
  Forall (wfE view) es -> risingE low high es -> vView mem = Z.of_N view -> s64 ((u 8 mem 16 + 300) mod 2 ^ 64) = Z.of_N high -> N.of_nat (length (concat (map encE es))) <= rem ->
  elems mem (length es) (N.of_nat (length pre)) rem (Z.of_N low) = Some (rem - N.of_nat (length (concat (map encE es)))) /\
  laid (eSize mem) (N.of_nat (length pre)) (placesE (N.of_nat (length pre)) es) (N.of_nat (length pre) + N.of_nat (length (concat (map encE es)))) /\
  Forall2 (readsE mem) (placesE (N.of_nat (length pre)) es) es.
Proof.
  intros Hv Hh. induction es as [|e es IH]; intros pre low rem mem W R Vv Vs Le.
  - cbn [map concat length elems placesE laid]. replace (rem - N.of_nat 0) with rem by lia. repeat split; auto. lia.
  - inversion W as [|? ? We Wes]; subst. cbn [risingE] in R. destruct R as [R1 R2].
    assert (M : pre ++ concat (map encE (e :: es)) ++ post = pre ++ encE e ++ (concat (map encE es) ++ post)) by (cbn [map concat]; rewrite <- !app_assoc; reflexivity).
    assert (M2 : pre ++ concat (map encE (e :: es)) ++ post = (pre ++ encE e) ++ concat (map encE es) ++ post) by (rewrite M, <- !app_assoc; reflexivity).
    assert (Hs : seqNum e < 2 ^ 63) by lia.
    pose proof (e_seq pre (concat (map encE es) ++ post) e rest Hs) as Q1. pose proof (e_dig pre (concat (map encE es) ++ post) e rest view We Hv Hs) as Q2.
    pose proof (e_view pre (concat (map encE es) ++ post) e rest view We Hv Hs) as Q3. pose proof (e_has pre (concat (map encE es) ++ post) e rest view We Hv Hs) as Q4.
    pose proof (e_cert pre (concat (map encE es) ++ post) e rest view We Hv Hs) as Q5. pose proof (e_size pre (concat (map encE es) ++ post) e rest view We Hv Hs) as Q6.
    rewrite <- M in Q1, Q2, Q3, Q4, Q5, Q6. fold mem in Q1, Q2, Q3, Q4, Q5, Q6.
    assert (Lc : N.of_nat (length (concat (map encE (e :: es)))) = N.of_nat (length (encE e)) + N.of_nat (length (concat (map encE es)))) by (cbn [map concat]; rewrite app_length; lia).
    assert (Lpe : N.of_nat (length (pre ++ encE e)) = N.of_nat (length pre) + N.of_nat (length (encE e))) by (rewrite app_length; lia).
    specialize (IH (pre ++ encE e) (seqNum e) (rem - N.of_nat (length (encE e)))). cbv zeta in IH. rewrite <- M2 in IH. fold mem in IH. specialize (IH Wes R2 Vv Vs). rewrite Lpe in IH.
    rewrite Lc in *. destruct IH as (I1 & I2 & I3); [lia|]. assert (We' := We). destruct We' as (_ & _ & Ov & Wc).
    set (p := N.of_nat (length pre)) in *. set (n := N.of_nat (length (encE e))) in *. set (n' := N.of_nat (length (concat (map encE es)))) in *. split; [|split].
    + cbn [length elems]. rewrite Q1, Q3, Q4, Vv, Vs. assert (Sz : 49 <= n) by (rewrite <- Q6; unfold eSize; destruct (eHas mem p); lia).
      replace (rem <? 49) with false by (symmetry; apply N.ltb_ge; lia). replace (Z.of_N (seqNum e) <=? Z.of_N low)%Z with false by (symmetry; apply Z.leb_gt; lia).
      replace (Z.of_N high <? Z.of_N (seqNum e))%Z with false by (symmetry; apply Z.ltb_ge; lia). replace (Z.of_N view <=? Z.of_N (origin e))%Z with false by (symmetry; apply Z.leb_gt; lia).
      unfold eSize in Q6. rewrite Q4 in Q6. destruct (cert e) as [[v s]|] eqn:C.
      * destruct (Q5 v s eq_refl) as (C1 & C2 & _). rewrite C1. replace (rem - 49 <? 10) with false by (symmetry; apply N.ltb_ge; lia).
        replace (Z.of_N (origin e) <? Z.of_N v)%Z with false by (symmetry; apply Z.ltb_ge; lia). replace (cSigLen mem p =? 0) with false by (symmetry; apply N.eqb_neq; lia).
        replace (rem - 49 <? 10 + cSigLen mem p) with false by (symmetry; apply N.ltb_ge; lia).
        replace (p + 49 + (10 + cSigLen mem p)) with (p + n) by lia. replace (rem - 49 - (10 + cSigLen mem p)) with (rem - n) by lia. rewrite I1. f_equal. lia.
      * replace (p + 49) with (p + n) by lia. replace (rem - 49) with (rem - n) by lia. rewrite I1. f_equal. lia.
    + cbn [placesE laid]. split; auto. rewrite Q6. rewrite <- !N.add_assoc in *. auto.
    + cbn [placesE]. constructor; auto. red. rewrite Q4. repeat split; auto. destruct (cert e) as [[v s]|]; auto.
Qed.
Fixpoint placesC (p : N) (cs : list bytes) : list N := match cs with [] => [] | r :: cs => p :: placesC (p + 4 + N.of_nat (length r)) cs end.
Lemma compls_build rest : forall cs pre, let mem := memOf (pre ++ concat (map encC cs)) rest in
  Forall wfC cs -> N.of_nat (length (concat (map encC cs))) < M32 ->
  compls mem (length cs) (N.of_nat (length pre)) (N.of_nat (length (concat (map encC cs)))) = Some 0 /\
  laid (cSize mem) (N.of_nat (length pre)) (placesC (N.of_nat (length pre)) cs) (N.of_nat (length pre) + N.of_nat (length (concat (map encC cs)))) /\
  Forall2 (readsC mem) (placesC (N.of_nat (length pre)) cs) cs.
Proof.
  induction cs as [|r cs IH]; intros pre mem W Le.
  - cbn [map concat length compls placesC laid]. repeat split; auto. lia.
  - inversion W as [|? ? Wr Wcs]; subst. destruct Wr as [Wl _].
    assert (M : pre ++ concat (map encC (r :: cs)) = pre ++ le 4 (N.of_nat (length r)) ++ r ++ concat (map encC cs)) by (cbn [map concat]; unfold encC at 1; rewrite <- !app_assoc; reflexivity).
    assert (M2 : pre ++ concat (map encC (r :: cs)) = (pre ++ encC r) ++ concat (map encC cs)) by (cbn [map concat]; rewrite <- !app_assoc; reflexivity).
    assert (Le' : N.of_nat (length (encC r)) = 4 + N.of_nat (length r)) by (unfold encC; rewrite app_length, le_length; lia).
    assert (Lc : N.of_nat (length (concat (map encC (r :: cs)))) = 4 + N.of_nat (length r) + N.of_nat (length (concat (map encC cs)))) by (cbn [map concat]; rewrite app_length; lia).
    assert (Lpe : N.of_nat (length (pre ++ encC r)) = N.of_nat (length pre) + 4 + N.of_nat (length r)) by (rewrite app_length; lia).
    assert (Q : u 4 mem (N.of_nat (length pre)) = N.of_nat (length r)) by (apply (u_field _ pre 4 _ (r ++ concat (map encC cs)) rest _ M eq_refl); change (256 ^ N.of_nat 4) with M32; lia).
    assert (Qr : rd mem (N.of_nat (length pre) + 4) (N.of_nat (length r)) = r).
    { unfold mem. rewrite M. replace (pre ++ le 4 (N.of_nat (length r)) ++ r ++ concat (map encC cs)) with ((pre ++ le 4 (N.of_nat (length r))) ++ r ++ concat (map encC cs)) by (rewrite <- app_assoc; reflexivity).
      replace (N.of_nat (length pre) + 4) with (N.of_nat (length (pre ++ le 4 (N.of_nat (length r))))) by (rewrite app_length, le_length; lia). apply rd_app. }
    specialize (IH (pre ++ encC r)). cbv zeta in IH. rewrite <- M2 in IH. fold mem in IH. rewrite Lpe, Lc in *. destruct IH as (I1 & I2 & I3); [auto|lia|].
    set (p := N.of_nat (length pre)) in *. set (n := N.of_nat (length r)) in *. set (n' := N.of_nat (length (concat (map encC cs)))) in *. assert (Hn : 27 < n) by (unfold n; lia). split; [|split].
    + cbn [length compls]. rewrite Q. replace (4 + n + n' <=? 27) with false by (symmetry; apply N.leb_gt; lia). replace (n <=? 27) with false by (symmetry; apply N.leb_gt; lia).
      replace ((4 + n + n' - 4 + M32 - n) mod M32) with n' by (apply N.mod_unique with (q := 1); lia). auto.
    + cbn [placesC laid]. split; auto. replace (cSize mem p) with (4 + n) by (unfold cSize; rewrite Q; reflexivity). rewrite <- !N.add_assoc in *. auto.
    + cbn [placesC]. constructor; auto. red. rewrite Q. auto.
Qed.
Lemma placesE_length : forall es p, length (placesE p es) = length es.
Proof. induction es; intros; cbn [placesE length]; auto. Qed.
Lemma placesC_length : forall cs p, length (placesC p cs) = length cs.
Proof. induction cs; intros; cbn [placesC length]; auto. Qed.
Lemma risingE_length : forall es low high, risingE low high es -> es = [] \/ N.of_nat (length es) <= high - low.
Proof.
  induction es as [|e es IH]; intros low high R; auto. right. cbn [risingE] in R. destruct R as [R1 R2]. destruct (IH _ _ R2) as [-> | L]; cbn [length]; [cbn; lia|]. rewrite Nat2N.inj_succ. lia.
Qed.
Lemma len_nz {A} (l : list A) : l <> [] -> (N.of_nat (length l) =? 0) = false.
Proof. intros N0. destruct l; [congruence|]. cbn [length]. apply N.eqb_neq. lia. Qed.
Lemma encE_pos es : es <> [] -> 0 < N.of_nat (length (concat (map encE es))).
Proof. intros N0. destruct es as [|e es]; [congruence|]. cbn [map concat]. unfold encE at 1. rewrite !app_length, !le_length. lia. Qed.
Lemma encC_pos cs : cs <> [] -> 0 < N.of_nat (length (concat (map encC cs))).
Proof. intros N0. destruct cs as [|e cs]; [congruence|]. cbn [map concat]. unfold encC at 1. rewrite !app_length, !le_length. lia. Qed.
Section Build.
Context (c : config) (sign : bytes -> bytes) (span : bytes) (gen view stable : N) (es : list element) (cs : list bytes) (rest : memory).
Hypothesis Hgen : gen < 65536.
Hypothesis Hview : view < 2 ^ 63.
Hypothesis Hstable : stable + 300 < 2 ^ 63.
Hypothesis Hep : epoch c < 2 ^ 64.
Hypothesis Hes : Forall (wfE view) es.
Hypothesis Hri : risingE stable (stable + 300) es.
Hypothesis Hcs : Forall wfC cs.
Hypothesis Hnc : N.of_nat (length cs) < 65536.
Let b := signedPart (epoch c) span gen view stable es cs.
Let m := build sign (epoch c) span gen view stable es cs.
Hypothesis Hsig : N.of_nat (length (sign b)) = sigLen c gen.
Hypothesis Hsize : N.of_nat (length m) < M32.
Let mem := memOf m rest.
Let sz := N.of_nat (length m).
Let ne := N.of_nat (length (concat (map encE es))).
Let nc := N.of_nat (length (concat (map encC cs))).
Let ns := N.of_nat (length span).
Let loc := match es with [] => 0 | _ => 44 + N.of_nat (length span) + N.of_nat (length (concat (map encE es))) end.
Let h0 := le 2 101.
Let h1 := h0 ++ le 4 ns.
Let h2 := h1 ++ le 2 gen.
Let h3 := h2 ++ le 8 view.
Let h4 := h3 ++ le 8 stable.
Let h5 := h4 ++ le 8 (epoch c).
Let h6 := h5 ++ le 2 (N.of_nat (length cs)).
Let h7 := h6 ++ le 4 nc.
Let h8 := h7 ++ le 2 (N.of_nat (length es)).
Let h9 := h8 ++ le 4 loc.
Lemma vb_length : sz = 44 + ns + ne + sigLen c gen + nc.
Proof.
  unfold sz, m, build. fold b. rewrite !app_length, !Nat2N.inj_add, Hsig. unfold b, signedPart, vcHeader. rewrite !app_length, !le_length. unfold ns, ne, nc. lia.
Qed.
Lemma vb_ne : N.of_nat (length es) <= 300.
Proof. destruct (risingE_length _ _ _ Hri) as [-> | L]; cbn [length]; lia. Qed.
Lemma vb_loc : loc < M32.
Proof. pose proof vb_length as L. unfold loc, ns, ne in *. fold sz in Hsize. destruct es; [reflexivity|lia]. Qed.
Ltac fld pre k x := unfold mem; eapply (u_field m pre k x); [unfold m, build, signedPart, vcHeader, h9, h8, h7, h6, h5, h4, h3, h2, h1, h0, ns, nc; rewrite <- ?app_assoc; reflexivity|
  unfold h9, h8, h7, h6, h5, h4, h3, h2, h1, h0; rewrite ?app_length, ?le_length; reflexivity|].
Lemma vb_span : vSpan mem = ns. Proof. fld h0 4%nat ns. change (256 ^ N.of_nat 4) with M32. pose proof vb_length. fold sz in Hsize. lia. Qed.
Lemma vb_gen : vGen mem = gen. Proof. fld h1 2%nat gen. exact Hgen. Qed.
Lemma vb_view : vView mem = Z.of_N view. Proof. unfold vView. replace (u 8 mem 8) with view; [apply s64_small; auto|]. symmetry. fld h2 8%nat view. apply bound63; auto. Qed.
Lemma vb_st : u 8 mem 16 = stable. Proof. fld h3 8%nat stable. apply bound63; lia. Qed.
Lemma vb_stable : vStable mem = Z.of_N stable. Proof. unfold vStable. rewrite vb_st. apply s64_small; lia. Qed.
Lemma vb_high : s64 ((u 8 mem 16 + 300) mod 2 ^ 64) = Z.of_N (stable + 300).
Proof. rewrite vb_st. rewrite N.mod_small; [apply s64_small; auto|]. change (2 ^ 63) with 9223372036854775808 in Hstable. change (2 ^ 64) with 18446744073709551616. lia. Qed.
Lemma vb_epoch : vEpoch mem = epoch c. Proof. fld h4 8%nat (epoch c). exact Hep. Qed.
Lemma vb_nc : vNumCompl mem = N.of_nat (length cs). Proof. fld h5 2%nat (N.of_nat (length cs)). exact Hnc. Qed.
Lemma vb_sc : vSizeCompl mem = nc. Proof. fld h6 4%nat nc. change (256 ^ N.of_nat 4) with M32. pose proof vb_length. fold sz in Hsize. lia. Qed.
Lemma vb_numE : vNumElem mem = N.of_nat (length es). Proof. fld h7 2%nat (N.of_nat (length es)). change (256 ^ N.of_nat 2) with 65536. pose proof vb_ne. lia. Qed.
Lemma vb_l : vLoc mem = loc. Proof. fld h8 4%nat loc. exact vb_loc. Qed.
Lemma vb_loc2 : es = [] /\ loc = 0 /\ ne = 0 \/ es <> [] /\ loc = 44 + ns + ne.
Proof. unfold loc, ns, ne. clear. destruct es; [left|right]; repeat split; auto. discriminate. Qed.
Lemma vb_body : bodySize mem = 44 + ns + ne.
Proof.
  unfold bodySize. rewrite vb_l, vb_span. pose proof vb_length as L. fold sz in Hsize. destruct vb_loc2 as [(_ & -> & Z)|(_ & ->)].
  - cbn [N.eqb]. rewrite N.mod_small by lia. lia.
  - destruct (N.eqb_spec (44 + ns + ne) 0); lia.
Qed.
Let pre := h9 ++ span.
Lemma vb_pre : N.of_nat (length pre) = 44 + ns.
Proof. unfold pre, h9, h8, h7, h6, h5, h4, h3, h2, h1, h0. rewrite !app_length, !le_length. unfold ns. lia. Qed.
Lemma vb_b : b = pre ++ concat (map encE es).
Proof. unfold b, signedPart, vcHeader, pre, h9, h8, h7, h6, h5, h4, h3, h2, h1, h0, ns, nc, loc. rewrite <- !app_assoc. reflexivity. Qed.
Lemma vb_m : m = pre ++ concat (map encE es) ++ (sign b ++ concat (map encC cs)).
Proof. unfold m, build. fold b. rewrite vb_b at 1. rewrite <- !app_assoc. reflexivity. Qed.
Lemma vb_m2 : m = (b ++ sign b) ++ concat (map encC cs).
Proof. unfold m, build. fold b. rewrite <- !app_assoc. reflexivity. Qed.
Lemma vb_blen : N.of_nat (length b) = 44 + ns + ne.
Proof. rewrite vb_b, app_length, Nat2N.inj_add, vb_pre. reflexivity. Qed.
Lemma vb_signed : rd mem 0 (bodySize mem) = b.
Proof. rewrite vb_body, <- vb_blen. unfold mem. replace m with ([] ++ b ++ (sign b ++ concat (map encC cs))) by reflexivity. exact (rd_app [] b _ rest). Qed.
Lemma vb_sig : rd mem (bodySize mem) (sigLen c gen) = sign b.
Proof. rewrite vb_body, <- vb_blen, <- Hsig. unfold mem. replace m with (b ++ sign b ++ concat (map encC cs)) by reflexivity. apply rd_app. Qed.
Lemma vb_elems : checkElements mem sz (sigLen c gen) = true /\ laid (eSize mem) (44 + ns) (placesE (44 + ns) es) (44 + ns + ne) /\ Forall2 (readsE mem) (placesE (44 + ns) es) es.
Proof.
  pose proof (elems_build (sign b ++ concat (map encC cs)) rest view (stable + 300) Hview Hstable es pre stable (ne + nc)) as G. cbv zeta in G. rewrite <- vb_m in G. fold mem in G. fold ne in G.
  specialize (G Hes Hri vb_view vb_high). rewrite vb_pre in G. destruct G as (G1 & G2 & G3); [lia|]. split; [|auto]. unfold checkElements. rewrite vb_numE, Nat2N.id, vb_span, vb_stable, vb_l.
  pose proof vb_length as L. fold sz in Hsize. replace ((sz + 2 * M32 - sigLen c gen - 44 - ns) mod M32) with (ne + nc) by (apply N.mod_unique with (q := 2); lia). rewrite G1.
  replace ((sz + 2 * M32 - sigLen c gen - (ne + nc - ne)) mod M32) with (44 + ns + ne) by (apply N.mod_unique with (q := 2); lia). destruct vb_loc2 as [(-> & -> & _)|(Ne & ->)]; [reflexivity|].
  rewrite (len_nz es Ne). apply N.eqb_refl.
Qed.
Lemma vb_compls : checkComplaints mem sz (sigLen c gen) = true /\ laid (cSize mem) (44 + ns + ne + sigLen c gen) (placesC (44 + ns + ne + sigLen c gen) cs) sz /\
  Forall2 (readsC mem) (placesC (44 + ns + ne + sigLen c gen) cs) cs.
Proof.
  pose proof (compls_build rest cs (b ++ sign b)) as G. cbv zeta in G. rewrite <- vb_m2 in G. fold mem in G. fold nc in G. pose proof vb_length as L. fold sz in Hsize. specialize (G Hcs). destruct G as (G1 & G2 & G3); [lia|].
  assert (Lb : N.of_nat (length (b ++ sign b)) = 44 + ns + ne + sigLen c gen) by (rewrite app_length, Nat2N.inj_add, vb_blen, Hsig; reflexivity). rewrite Lb in *. split; [|split; auto].
  - unfold checkComplaints. rewrite vb_nc, Nat2N.id, vb_body. replace ((sz + 2 * M32 - sigLen c gen - (44 + ns + ne)) mod M32) with nc by (apply N.mod_unique with (q := 2); lia). rewrite G1. reflexivity.
  - replace sz with (44 + ns + ne + sigLen c gen + nc) by lia. auto.
Qed.
Lemma vb_iterE : iterateElements mem = Some (placesE (44 + ns) es).
Proof.
  destruct vb_elems as (_ & La & _). unfold iterateElements. rewrite vb_numE, vb_l, vb_span. pose proof vb_length as L. fold sz in Hsize. rewrite N.mod_small by lia.
  destruct vb_loc2 as [(Ze & _)|(Ne & Lo)]; [rewrite Ze; reflexivity|]. rewrite (len_nz es Ne). pose proof (encE_pos es Ne) as P. fold ne in P.
  replace (loc <=? 44 + ns) with false by (symmetry; apply N.leb_gt; lia). rewrite Nat2N.id, <- (placesE_length es (44 + ns)). apply iterE_all; [rewrite vb_l, Lo; auto|]. rewrite placesE_length, vb_numE. lia.
Qed.
Lemma vb_iterC : iterateComplaints mem sz (sigLen c gen) = Some (placesC (44 + ns + ne + sigLen c gen) cs).
Proof.
  destruct vb_compls as (_ & La & _). unfold iterateComplaints. rewrite vb_nc, vb_body. pose proof vb_length as L. fold sz in Hsize. rewrite N.mod_small by lia.
  assert (C : cs = [] \/ cs <> []) by (clear; destruct cs; auto; right; discriminate). destruct C as [Ze|Ne]; [rewrite Ze; reflexivity|]. rewrite (len_nz cs Ne). pose proof (encC_pos cs Ne) as P. fold nc in P.
  replace (sz <=? 44 + ns + ne + sigLen c gen) with false by (symmetry; apply N.leb_gt; lia).
  rewrite Nat2N.id, <- (placesC_length cs (44 + ns + ne + sigLen c gen)). apply iterC_all; auto. rewrite placesC_length, vb_nc. lia.
Qed.
Lemma vb_validate : isReplica c gen = true -> gen <> me c -> verify c gen b (sign b) = true -> validate c mem sz = true.
Proof.
  intros Ir Nm V. unfold validate. rewrite vb_gen, vb_span, vb_epoch, Ir. rewrite vb_signed, vb_sig, V, (proj1 vb_elems), (proj1 vb_compls). rewrite N.eqb_refl, vb_body. pose proof vb_length as L. fold sz in Hsize.
  rewrite N.mod_small by lia. apply N.eqb_neq in Nm. rewrite Nm. replace (sz <? 44 + ns) with false by (symmetry; apply N.ltb_ge; lia).
  replace (sz <? 44 + ns + ne + sigLen c gen) with false by (symmetry; apply N.ltb_ge; lia). reflexivity.
Qed.
End Build.
