(** Proofs for Clients_Model.v. *)
From Coq Require Import List Arith NArith Lia Bool.
From Verif Require Import Lib_Bytes Clients_Model.
Import ListNotations.

Lemma ceil_le a b p : 0 < p -> a <= b -> a / p + (if a mod p =? 0 then 0 else 1) <= b / p + (if b mod p =? 0 then 0 else 1).
Proof.
  intros P H. pose proof (Nat.div_mod a p ltac:(lia)). pose proof (Nat.div_mod b p ltac:(lia)).
  pose proof (Nat.mod_upper_bound a p ltac:(lia)). pose proof (Nat.mod_upper_bound b p ltac:(lia)).
  pose proof (Nat.div_le_mono a b p ltac:(lia) H).
  destruct (Nat.eqb_spec (a mod p) 0), (Nat.eqb_spec (b mod p) 0); try nia.
Qed.

Section K.
Context (k : cmcfg) (V : validCm k).
Local Notation p := (psz k).

Lemma psz_pos : 28 <= p. Proof. destruct V as (_ & H & _). auto. Qed.
Lemma mr_pos : 1 <= maxReqs k. Proof. destruct V as (_ & _ & H & _). auto. Qed.
Lemma mrep : (N.of_nat (maxReply k) < 256 ^ 4)%N. Proof. destruct V as (_ & _ & _ & _ & H). auto. Qed.

Lemma numPages_pos sz : 1 <= sz -> 1 <= numPages k sz.
Proof.
  intros H. unfold numPages. pose proof psz_pos. pose proof (Nat.div_mod sz p ltac:(lia)). destruct (Nat.eqb_spec (sz mod p) 0); nia.
Qed.
Lemma numPages_cover sz : sz <= numPages k sz * p /\ (1 <= sz -> (numPages k sz - 1) * p < sz).
Proof.
  unfold numPages. pose proof psz_pos. pose proof (Nat.div_mod sz p ltac:(lia)). pose proof (Nat.mod_upper_bound sz p ltac:(lia)).
  destruct (Nat.eqb_spec (sz mod p) 0); split; intros; nia.
Qed.
Lemma pageSize_min sz j : j < numPages k sz -> pageSize k sz j = Nat.min p (sz - j * p).
Proof.
  unfold pageSize, sizeLast, numPages. intros H. pose proof psz_pos. pose proof (Nat.div_mod sz p ltac:(lia)) as D.
  pose proof (Nat.mod_upper_bound sz p ltac:(lia)). set (q := sz / p) in *. set (r := sz mod p) in *.
  destruct (Nat.eqb_spec r 0).
  - destruct (Nat.ltb_spec j (q + 0 - 1)); nia.
  - destruct (Nat.ltb_spec j (q + 1 - 1)).
    + assert ((j + 1) * p <= q * p) by nia. lia.
    + assert (j = q) by lia. subst j. nia.
Qed.
Lemma numPages_le sz : sz <= maxReply k -> numPages k sz <= pagesPerReq k.
Proof. intros H. apply ceil_le; auto. pose proof psz_pos; lia. Qed.

Definition chunk (m : bytes) (j : nat) : bytes := slice m (j * p) (pageSize k (length m) j).
Definition pad (d : bytes) : bytes := d ++ repeat 0%N (p - length d).

Lemma savePage_eq pg i d x : savePage k pg i d x = if x =? i then Some (pad d) else pg x.
Proof. reflexivity. Qed.
Lemma writePages_gen m first n : forall a pg x,
  fold_left (fun pg i => savePage k pg (first + i) (chunk m i)) (seq a n) pg x =
  if (first + a <=? x) && (x <? first + a + n) then Some (pad (chunk m (x - first))) else pg x.
Proof.
  induction n as [|n IH]; intros a pg x; simpl.
  - destruct (Nat.leb_spec (first + a) x), (Nat.ltb_spec x (first + a + 0)); simpl; auto; lia.
  - rewrite IH. rewrite savePage_eq.
    destruct (Nat.eqb_spec x (first + a)).
    + subst x. destruct (Nat.leb_spec (first + S a) (first + a)); [lia|]. simpl.
      destruct (Nat.leb_spec (first + a) (first + a)); [|lia]. destruct (Nat.ltb_spec (first + a) (first + a + S n)); [|lia]. simpl.
      replace (first + a - first) with a by lia. auto.
    + destruct (Nat.leb_spec (first + S a) x), (Nat.ltb_spec x (first + S a + n)), (Nat.leb_spec (first + a) x),
        (Nat.ltb_spec x (first + a + S n)); simpl; auto; lia.
Qed.
Lemma writePages_eq pg first m x :
  writePages k pg first m x = if (first <=? x) && (x <? first + numPages k (length m)) then Some (pad (chunk m (x - first))) else pg x.
Proof.
  unfold writePages. change (fun (pg0 : nat -> option bytes) (i : nat) => savePage k pg0 (first + i) (slice m (i * p) (pageSize k (length m) i)))
    with (fun (pg0 : nat -> option bytes) (i : nat) => savePage k pg0 (first + i) (chunk m i)).
  rewrite writePages_gen. rewrite Nat.add_0_r. auto.
Qed.

(** A message stored from page first on. *)
Definition storedAt (pg : nat -> option bytes) (first : nat) (m : bytes) : Prop :=
  forall j, j < numPages k (length m) -> pg (first + j) = Some (pad (chunk m j)).

Lemma chunk_firstn m j : j < numPages k (length m) -> chunk m j = firstn p (skipn (j * p) m).
Proof.
  intros H. unfold chunk, slice. rewrite pageSize_min by auto.
  rewrite <- (firstn_all (skipn (j * p) m)) at 2. rewrite skipn_length. rewrite firstn_firstn. f_equal.
Qed.
Lemma chunk_length m j : j < numPages k (length m) -> length (chunk m j) = pageSize k (length m) j.
Proof.
  intros H. rewrite chunk_firstn by auto. rewrite firstn_length, skipn_length. rewrite pageSize_min by auto. lia.
Qed.
Lemma firstn_skipn_add {A} (l : list A) a b : firstn a l ++ firstn b (skipn a l) = firstn (a + b) l.
Proof. revert l; induction a; simpl; intros; auto. destruct l; simpl; [destruct b; auto|]. rewrite IHa; auto. Qed.
Lemma chunks_concat (m : bytes) n : forall a, concat (map (fun j => firstn p (skipn (j * p) m)) (seq a n)) = firstn (n * p) (skipn (a * p) m).
Proof.
  induction n as [|n IH]; intros a; simpl; auto. rewrite IH.
  replace (S a * p) with (a * p + p) by lia. rewrite <- skipn_add. rewrite firstn_skipn_add. auto.
Qed.
Lemma map_ext_seq {A} (f g : nat -> A) n : (forall j, j < n -> f j = g j) -> map f (seq 0 n) = map g (seq 0 n).
Proof. intros H. apply map_ext_in. intros j Hj. apply in_seq in Hj. apply H. lia. Qed.
Lemma read_stored pg first m : storedAt pg first m -> readPages k pg first (length m) = m.
Proof.
  intros S. unfold readPages.
  rewrite (map_ext_seq _ (fun j => firstn p (skipn (j * p) m))).
  - rewrite chunks_concat. simpl. apply firstn_all2. apply numPages_cover.
  - intros j Hj. rewrite S by auto. unfold pad. rewrite firstn_app. rewrite chunk_length by auto. rewrite Nat.sub_diag. simpl.
    rewrite app_nil_r. rewrite <- chunk_firstn by auto. rewrite <- (chunk_length m j) by auto. apply firstn_all.
Qed.

(** * Header fields *)
Lemma header_length a b c d e : length (header a b c d e) = 28.
Proof. unfold header. rewrite !app_length, !le_length. reflexivity. Qed.
Lemma replyMsg_length a b c m : length (replyMsg a b c m) = 28 + length m.
Proof. unfold replyMsg. rewrite app_length, header_length. auto. Qed.
Ltac hdr := unfold header; rewrite <- ?app_assoc;
  repeat (rewrite slice_app_skip by (rewrite le_length; lia); rewrite le_length; simpl Nat.sub); rewrite slice_app_here by apply le_length.
Lemma hType_header a b c d e t : hType (header a b c d e ++ t) = MsgCodeClientReply.
Proof. unfold hType. hdr. reflexivity. Qed.
Lemma hPrimary_header a b c d e t : (a < 256 ^ 2)%N -> hPrimary (header a b c d e ++ t) = a.
Proof. intros. unfold hPrimary. hdr. apply unle_le. auto. Qed.
Lemma hSeq_header a b c d e t : (b < 256 ^ 8)%N -> hSeq (header a b c d e ++ t) = b.
Proof. intros. unfold hSeq. hdr. apply unle_le. auto. Qed.
Lemma hLen_header a b c d e t : (d < 256 ^ 4)%N -> hLen (header a b c d e ++ t) = d.
Proof. intros. unfold hLen. hdr. apply unle_le. auto. Qed.
Lemma setPrimary_header a b c d e t primary :
  slice (header a b c d e ++ t) 0 6 ++ le 2 primary ++ skipn 8 (header a b c d e ++ t) = header primary b c d e ++ t.
Proof.
  unfold header. rewrite <- !app_assoc. replace (slice _ 0 6) with (le 2 MsgCodeClientReply ++ le 4 0).
  - reflexivity.
  - rewrite (app_assoc (le 2 MsgCodeClientReply)). symmetry. apply slice_app_here. reflexivity.
Qed.

(** The first page of a stored reply starts with its header. *)
Lemma first_page a b c m : 28 + length m <= maxReply k ->
  exists t, pad (chunk (replyMsg a b c m) 0) = header a b c (N.of_nat (length m)) 0 ++ t.
Proof.
  intros H. pose proof psz_pos.
  assert (0 < numPages k (length (replyMsg a b c m))) by (pose proof (numPages_pos (length (replyMsg a b c m))); rewrite replyMsg_length in *; lia).
  unfold pad. rewrite chunk_firstn by auto. simpl skipn. unfold replyMsg.
  rewrite firstn_app. rewrite header_length. rewrite firstn_all2 by (rewrite header_length; lia). rewrite <- app_assoc. eauto.
Qed.

(** * Regions of pages *)
Lemma rank_inj l c d : In c l -> In d l -> rank l c = rank l d -> c = d.
Proof.
  induction l as [|x l IH]; simpl; [tauto|]. intros Hc Hd. destruct (Nat.eqb_spec x c), (Nat.eqb_spec x d); subst; auto; try discriminate.
  intros E. injection E as E. apply IH; auto; tauto.
Qed.
Lemma isValid_In c : isValid k c = true <-> In c (cids k).
Proof.
  unfold isValid. rewrite existsb_exists. split; [intros (x & Hx & E); apply Nat.eqb_eq in E; subst; auto|].
  intros H. exists c. split; auto. apply Nat.eqb_refl.
Qed.
Definition slot (c i : nat) : nat := replyFirst k c + i * pagesPerReq k.
Lemma slot_off c i j : i < maxReqs k -> j < pagesPerReq k -> exists o, slot c i + j = rank (cids k) c * pagesPerClient k + o /\
  o = 1 + i * pagesPerReq k + j /\ o < pagesPerClient k.
Proof.
  intros Hi Hj. unfold slot, replyFirst, keyPage. eexists. split; [|split; [reflexivity|]]; [lia|]. unfold pagesPerClient. nia.
Qed.
Lemma pos_unique n a b x y : x < n -> y < n -> a * n + x = b * n + y -> a = b /\ x = y.
Proof. intros. assert (a = b); [|subst; lia]. destruct (Nat.lt_trichotomy a b) as [L|[L|L]]; auto; nia. Qed.
Lemma slot_inj c d i j a b : isValid k c = true -> isValid k d = true -> i < maxReqs k -> j < maxReqs k -> a < pagesPerReq k -> b < pagesPerReq k ->
  slot c i + a = slot d j + b -> c = d /\ i = j /\ a = b.
Proof.
  intros Vc Vd Hi Hj Ha Hb E. apply isValid_In in Vc. apply isValid_In in Vd.
  destruct (slot_off c i a Hi Ha) as (o1 & E1 & F1 & G1). destruct (slot_off d j b Hj Hb) as (o2 & E2 & F2 & G2).
  rewrite E1, E2 in E. apply pos_unique in E; auto. destruct E as [E Eo]. apply rank_inj in E; auto. split; auto.
  assert (i * pagesPerReq k + a = j * pagesPerReq k + b) by lia. apply pos_unique in H; auto.
Qed.
Lemma slot_key c d i a : isValid k c = true -> isValid k d = true -> i < maxReqs k -> a < pagesPerReq k -> slot c i + a <> keyPage k d.
Proof.
  intros Vc Vd Hi Ha E. destruct (slot_off c i a Hi Ha) as (o1 & E1 & F1 & G1). rewrite E1 in E. unfold keyPage in E.
  rewrite <- (Nat.add_0_r (rank (cids k) d * pagesPerClient k)) in E. apply pos_unique in E; auto; unfold pagesPerClient in *; lia.
Qed.

(** * Invariant on pages: what slot (c,i) holds. *)
Definition holds (pg : nat -> option bytes) (c i : nat) (r : N) (result : N) (body : bytes) : Prop :=
  (r <> 0)%N /\ (r < 256 ^ 8)%N /\ body <> [] /\ 28 + length body <= maxReply k /\ storedAt pg (slot c i) (replyMsg 0 r result body).
Definition pagesOk (pg : nat -> option bytes) : Prop := forall c, isValid k c = true ->
  (forall i, i < maxReqs k -> pg (slot c i) = None \/ exists r result body, holds pg c i r result body) /\
  (forall i j r re re' b b', i < maxReqs k -> j < maxReqs k -> holds pg c i r re b -> holds pg c j r re' b' -> i = j).

Lemma holds_first pg c i r re b : holds pg c i r re b -> exists pp t, pg (slot c i) = Some pp /\ pp = header 0 r re (N.of_nat (length b)) 0 ++ t.
Proof.
  intros (A & B & C & D & S). destruct (first_page 0 r re b D) as (t & E). eexists _, t. split; [|exact E].
  specialize (S 0). rewrite Nat.add_0_r in S. apply S. rewrite replyMsg_length. pose proof (numPages_pos (28 + length b)). lia.
Qed.
Lemma holds_seq pg c i r re b r' re' b' : holds pg c i r re b -> holds pg c i r' re' b' -> r = r'.
Proof.
  intros H H'. destruct (holds_first _ _ _ _ _ _ H) as (pp & t & E & Q). destruct (holds_first _ _ _ _ _ _ H') as (pp' & t' & E' & Q').
  assert (Q2 : header 0 r re (N.of_nat (length b)) 0 ++ t = header 0 r' re' (N.of_nat (length b')) 0 ++ t') by congruence.
  destruct H as (_ & B & _). destruct H' as (_ & B' & _). rewrite <- (hSeq_header 0 r re (N.of_nat (length b)) 0 t B). rewrite Q2. apply hSeq_header; auto.
Qed.
Lemma len_small (b : bytes) : 28 + length b <= maxReply k -> (N.of_nat (length b) < 256 ^ 4)%N.
Proof. intros. pose proof mrep. lia. Qed.

Lemma holds_other pg c i d j m r re b : isValid k c = true -> isValid k d = true -> i < maxReqs k -> j < maxReqs k -> length m <= maxReply k ->
  ~ (c = d /\ i = j) -> holds pg d j r re b <-> holds (writePages k pg (slot c i) m) d j r re b.
Proof.
  intros Vc Vd Hi Hj L Hn.
  assert (G : 28 + length b <= maxReply k -> storedAt pg (slot d j) (replyMsg 0 r re b) <-> storedAt (writePages k pg (slot c i) m) (slot d j) (replyMsg 0 r re b)).
  { intros HL. unfold storedAt.
    assert (Q : forall x, x < numPages k (length (replyMsg 0 r re b)) -> writePages k pg (slot c i) m (slot d j + x) = pg (slot d j + x)).
    { intros x Hx. rewrite writePages_eq. destruct (Nat.leb_spec (slot c i) (slot d j + x)); simpl; auto.
      destruct (Nat.ltb_spec (slot d j + x) (slot c i + numPages k (length m))); auto. exfalso.
      assert (slot d j + x = slot c i + (slot d j + x - slot c i)) by lia. apply slot_inj in H1; auto.
      - destruct H1 as (-> & -> & _). apply Hn; auto.
      - eapply Nat.lt_le_trans; [exact Hx|]. apply numPages_le. rewrite replyMsg_length. auto.
      - pose proof (numPages_le (length m) L). lia. }
    split; intros S x Hx; specialize (S x Hx); rewrite Q in * by auto; auto. }
  unfold holds. split; intros (A & B & C & D & S); repeat split; auto; apply (G D); auto.
Qed.
Lemma holds_key pg d c j dd r re b : isValid k c = true -> isValid k d = true -> j < maxReqs k ->
  holds pg d j r re b <-> holds (savePage k pg (keyPage k c) dd) d j r re b.
Proof.
  intros Vc Vd Hj.
  assert (G : 28 + length b <= maxReply k -> storedAt pg (slot d j) (replyMsg 0 r re b) <-> storedAt (savePage k pg (keyPage k c) dd) (slot d j) (replyMsg 0 r re b)).
  { intros HL. unfold storedAt.
    assert (Q : forall x, x < numPages k (length (replyMsg 0 r re b)) -> savePage k pg (keyPage k c) dd (slot d j + x) = pg (slot d j + x)).
    { intros x Hx. rewrite savePage_eq. destruct (Nat.eqb_spec (slot d j + x) (keyPage k c)); auto. exfalso. eapply slot_key; [exact Vd|exact Vc|exact Hj| |exact e].
      eapply Nat.lt_le_trans; [exact Hx|]. apply numPages_le. rewrite replyMsg_length. auto. }
    split; intros S x Hx; specialize (S x Hx); rewrite Q in * by auto; auto. }
  unfold holds. split; intros (A & B & C & D & S); repeat split; auto; apply (G D); auto.
Qed.
Lemma slot_pages_pos c i d : 28 + d <= maxReply k -> i < maxReqs k -> isValid k c = true -> 0 < pagesPerReq k.
Proof. intros. pose proof (numPages_le (28 + d) H). pose proof (numPages_pos (28 + d)). lia. Qed.

Lemma holds_new pg c i r re b : (r <> 0)%N -> (r < 256 ^ 8)%N -> b <> [] -> 28 + length b <= maxReply k ->
  holds (writePages k pg (slot c i) (replyMsg 0 r re b)) c i r re b.
Proof.
  intros A B C D. repeat split; auto. intros j Hj. rewrite writePages_eq.
  destruct (Nat.leb_spec (slot c i) (slot c i + j)); [|lia]. destruct (Nat.ltb_spec (slot c i + j) (slot c i + numPages k (length (replyMsg 0 r re b)))); [|lia].
  simpl. replace (slot c i + j - slot c i) with j by lia. auto.
Qed.
Lemma write_other_first pg c i d j m : isValid k c = true -> isValid k d = true -> i < maxReqs k -> j < maxReqs k -> 1 <= length m -> length m <= maxReply k ->
  ~ (c = d /\ i = j) -> writePages k pg (slot c i) m (slot d j) = pg (slot d j).
Proof.
  intros Vc Vd Hi Hj L0 L Hn. rewrite writePages_eq. destruct (Nat.leb_spec (slot c i) (slot d j)); simpl; auto.
  destruct (Nat.ltb_spec (slot d j) (slot c i + numPages k (length m))); auto. exfalso.
  assert (E : slot d j + 0 = slot c i + (slot d j - slot c i)) by lia. pose proof (numPages_le (length m) L). pose proof (numPages_pos (length m) L0).
  apply slot_inj in E; auto; lia.
Qed.

Lemma pagesOk_write pg c i r re b : isValid k c = true -> i < maxReqs k -> (r <> 0)%N -> (r < 256 ^ 8)%N -> b <> [] -> 28 + length b <= maxReply k ->
  pagesOk pg -> (forall j re' b', j < maxReqs k -> ~ holds pg c j r re' b') -> pagesOk (writePages k pg (slot c i) (replyMsg 0 r re b)).
Proof.
  intros Vc Hi R0 R1 B0 B1 P F d Vd. destruct (P d Vd) as [P1 P2].
  assert (L : length (replyMsg 0 r re b) <= maxReply k) by (rewrite replyMsg_length; lia).
  assert (L0 : 1 <= length (replyMsg 0 r re b)) by (rewrite replyMsg_length; lia). split.
  - intros j Hj. destruct (Nat.eq_dec c d) as [Ec|Ec]; [destruct (Nat.eq_dec i j) as [Ej|Ej]|].
    + subst. right. exists r, re, b. apply holds_new; auto.
    + destruct (P1 j Hj) as [Hp|(r' & re' & b' & Hh)].
      * left. rewrite write_other_first; auto. tauto.
      * right. exists r', re', b'. apply -> holds_other; auto. tauto.
    + destruct (P1 j Hj) as [Hp|(r' & re' & b' & Hh)].
      * left. rewrite write_other_first; auto. tauto.
      * right. exists r', re', b'. apply -> holds_other; auto. tauto.
  - intros i1 j1 r1 re1 re1' b1 b1' Hi1 Hj1 H1 H2.
    assert (D : forall x re' b', x < maxReqs k -> holds (writePages k pg (slot c i) (replyMsg 0 r re b)) d x r1 re' b' ->
       (c = d /\ i = x /\ r1 = r) \/ (~ (c = d /\ i = x) /\ holds pg d x r1 re' b')).
    { intros x re' b' Hx Hh. destruct (Nat.eq_dec c d) as [Ec|Ec]; [destruct (Nat.eq_dec i x) as [Ex|Ex]|].
      - left. subst. repeat split; auto. pose proof (holds_seq _ _ _ _ _ _ _ _ _ Hh (holds_new pg d x r re b R0 R1 B0 B1)); auto.
      - right. split; [tauto|]. eapply holds_other; [exact Vc|exact Vd|exact Hi|exact Hx|exact L| |exact Hh]. tauto.
      - right. split; [tauto|]. eapply holds_other; [exact Vc|exact Vd|exact Hi|exact Hx|exact L| |exact Hh]. tauto. }
    destruct (D _ _ _ Hi1 H1) as [(A1 & A2 & A3)|(A1 & A2)], (D _ _ _ Hj1 H2) as [(C1 & C2 & C3)|(C1 & C2)]; subst; auto.
    + exfalso. exact (F _ _ _ Hj1 C2).
    + exfalso. exact (F _ _ _ Hi1 A2).
    + eapply P2; eauto.
Qed.
Lemma pagesOk_key pg c dd : isValid k c = true -> pagesOk pg -> 1 <= pagesPerReq k -> pagesOk (savePage k pg (keyPage k c) dd).
Proof.
  intros Vc P PP d Vd. destruct (P d Vd) as [P1 P2]. split.
  - intros i Hi. destruct (P1 i Hi) as [H|(r & re & b & H)].
    + left. rewrite savePage_eq. destruct (Nat.eqb_spec (slot d i) (keyPage k c)); auto.
      exfalso. eapply (slot_key d c i 0); eauto. rewrite Nat.add_0_r; auto.
    + right. exists r, re, b. apply -> holds_key; auto.
  - intros i j r re re' b b' Hi Hj H1 H2. apply <- holds_key in H1; auto. apply <- holds_key in H2; auto. eapply P2; eauto.
Qed.

(** * Table of replies *)
Definition tblOk (pg : nat -> option bytes) (c : nat) (l : list (N * nat)) : Prop :=
  NoDup (map fst l) /\ NoDup (map snd l) /\ forall r i, In (r, i) l -> i < maxReqs k /\ exists re b, holds pg c i r re b.
Definition tblFull (pg : nat -> option bytes) (c : nat) (l : list (N * nat)) : Prop :=
  forall i r re b, i < maxReqs k -> holds pg c i r re b -> In (r, i) l.

Lemma findRep_In l r : findRep l r = true <-> exists i, In (r, i) l.
Proof.
  unfold findRep. rewrite existsb_exists. split.
  - intros ([r' i] & H & E). apply N.eqb_eq in E. simpl in E. subst. eauto.
  - intros (i & H). exists (r, i). split; auto. apply N.eqb_refl.
Qed.
Lemma hasIdx_In l i : hasIdx l i = true <-> exists r, In (r, i) l.
Proof.
  unfold hasIdx. rewrite existsb_exists. split.
  - intros ([r' j] & H & E). apply Nat.eqb_eq in E. simpl in E. subst. eauto.
  - intros (r & H). exists (r, i). split; auto. apply Nat.eqb_refl.
Qed.
Lemma nodup_fst_inj {A B} (l : list (A * B)) a b b' : NoDup (map fst l) -> In (a, b) l -> In (a, b') l -> b = b'.
Proof.
  induction l as [|[x y] l IH]; simpl; [tauto|]. intros H. inversion H; subst. intros [E|E] [F|F].
  - congruence.
  - inversion E; subst. exfalso. apply H2. apply (in_map fst) in F. auto.
  - inversion F; subst. exfalso. apply H2. apply (in_map fst) in E. auto.
  - auto.
Qed.
Lemma nodup_snd_inj {A B} (l : list (A * B)) a a' b : NoDup (map snd l) -> In (a, b) l -> In (a', b) l -> a = a'.
Proof.
  induction l as [|[x y] l IH]; simpl; [tauto|]. intros H. inversion H; subst. intros [E|E] [F|F].
  - congruence.
  - inversion E; subst. exfalso. apply H2. apply (in_map snd) in F. auto.
  - inversion F; subst. exfalso. apply H2. apply (in_map snd) in E. auto.
  - auto.
Qed.
Lemma nodup_map_filter {A B} (f : A -> B) (g : A -> bool) l : NoDup (map f l) -> NoDup (map f (filter g l)).
Proof.
  induction l as [|x l IH]; simpl; intros H; auto. inversion H; subst. destruct (g x); simpl; auto. constructor; auto.
  intros Q. apply H2. apply in_map_iff in Q. destruct Q as (y & E & Hy). apply filter_In in Hy. rewrite <- E. apply in_map. tauto.
Qed.
(** In a table with non-zero numbers, deleteReply removes exactly the entry with the index. *)
Lemma delete_In l i r j : NoDup (map fst l) -> NoDup (map snd l) -> (forall r j, In (r, j) l -> r <> 0%N) ->
  In (r, j) (deleteReply l i) <-> In (r, j) l /\ j <> i.
Proof.
  intros N1 N2 NZ. unfold deleteReply, savedId. destruct (find (fun x => snd x =? i) l) as [[r0 i0]|] eqn:F.
  - apply find_some in F. destruct F as [F E]. simpl in E. apply Nat.eqb_eq in E. subst i0.
    destruct (N.eqb_spec r0 0) as [Z|Z]; [exfalso; eapply NZ; eauto|]. rewrite filter_In. simpl. split; intros [H1 H2]; split; auto.
    + intros ->. assert (r = r0) by (eapply nodup_snd_inj; eauto). subst. rewrite N.eqb_refl in H2. discriminate.
    + destruct (N.eqb_spec r r0); auto. subst. exfalso. apply H2. eapply nodup_fst_inj; eauto.
  - simpl. split; [intros H; split; auto|tauto]. intros ->. pose proof (find_none _ _ F _ H). simpl in H0. rewrite Nat.eqb_refl in H0. discriminate.
Qed.
Lemma delete_nodup l i : NoDup (map fst l) -> NoDup (map snd l) -> NoDup (map fst (deleteReply l i)) /\ NoDup (map snd (deleteReply l i)).
Proof. intros. unfold deleteReply. destruct (N.eqb (savedId l i) 0); auto. split; apply nodup_map_filter; auto. Qed.
Lemma tbl_nz pg c l : tblOk pg c l -> forall r j, In (r, j) l -> r <> 0%N.
Proof. intros (_ & _ & H) r j I. destruct (H _ _ I) as (_ & re & b & (Z & _)). auto. Qed.

(** delete at i then insert (r,i), when r is not at another index. *)
Lemma del_ins l i r : NoDup (map fst l) -> NoDup (map snd l) -> (forall r j, In (r, j) l -> r <> 0%N) ->
  (forall j, In (r, j) l -> j = i) ->
  let l' := insertReply (deleteReply l i) r i in
  NoDup (map fst l') /\ NoDup (map snd l') /\ forall r' j, In (r', j) l' <-> (r' = r /\ j = i) \/ (In (r', j) l /\ j <> i).
Proof.
  intros N1 N2 NZ H. destruct (delete_nodup l i N1 N2) as [D1 D2]. unfold insertReply.
  assert (F : findRep (deleteReply l i) r = false).
  { apply not_true_is_false. rewrite findRep_In. intros (j & Hj). apply delete_In in Hj; auto. destruct Hj as [Hj1 Hj2]. apply Hj2; auto. }
  assert (G : hasIdx (deleteReply l i) i = false).
  { apply not_true_is_false. rewrite hasIdx_In. intros (r' & Hj). apply delete_In in Hj; auto. tauto. }
  rewrite F, G. simpl. split; [|split].
  - constructor; auto. intros Q. apply in_map_iff in Q. destruct Q as ([a j] & E & Hj). simpl in E. subst a.
    assert (findRep (deleteReply l i) r = true) by (apply findRep_In; eauto). congruence.
  - constructor; auto. intros Q. apply in_map_iff in Q. destruct Q as ([a j] & E & Hj). simpl in E. subst j.
    assert (hasIdx (deleteReply l i) i = true) by (apply hasIdx_In; eauto). congruence.
  - intros r' j. rewrite delete_In by auto. split.
    + intros [E|E]; [inversion E; auto|auto].
    + intros [(-> & ->)|E]; auto.
Qed.

(** * Invariant *)
Definition Inv (s : cmst) : Prop := pagesOk (pages s) /\ (forall c, length (reqs (info s c)) <= maxReqs k) /\
  forall c, isValid k c = true -> tblOk (pages s) c (reps (info s c)) /\ tblFull (pages s) c (reps (info s c)).

Lemma inv_init : Inv initSt.
Proof.
  assert (E : forall c i r re b, ~ holds (pages initSt) c i r re b).
  { intros c i r re b H. destruct (holds_first _ _ _ _ _ _ H) as (pp & t & E & _). discriminate. }
  split; [|split].
  - intros c Vc. split; [left; reflexivity|]. intros. exfalso. eapply E; eauto.
  - intros c. simpl. lia.
  - intros c Vc. simpl. split.
    + split; [constructor|split; [constructor|intros ? ? []]].
    + intros i r re b Hi H. exfalso. eapply E; eauto.
Qed.

(** loadOne on a consistent table adds the slot. *)
Lemma loadOne_ok s c i : pagesOk (pages s) -> isValid k c = true -> i < maxReqs k -> tblOk (pages s) c (reps (info s c)) ->
  exists s', loadOne k c (Some s) i = Some s' /\ pages s' = pages s /\ (forall d, d <> c -> info s' d = info s d) /\
    tblOk (pages s) c (reps (info s' c)) /\ (forall r j, In (r, j) (reps (info s c)) -> In (r, j) (reps (info s' c))) /\
    (forall r re b, holds (pages s) c i r re b -> In (r, i) (reps (info s' c))) /\ length (reqs (info s' c)) <= length (reqs (info s c)).
Proof.
  intros P Vc Hi T. destruct (P c Vc) as [P1 P2]. unfold loadOne. fold (slot c i).
  destruct (P1 i Hi) as [E|(r & re & b & H)].
  - rewrite E. exists s. repeat (split; [solve [auto|apply T]|]). split; [|auto].
    intros r re b H. destruct (holds_first _ _ _ _ _ _ H) as (pp & t & E' & _). congruence.
  - destruct (holds_first _ _ _ _ _ _ H) as (pp & t & E & Q). rewrite E.
    assert (HR : (r < 256 ^ 8)%N) by (apply H). assert (HL : 28 + length b <= maxReply k) by (apply H).
    rewrite Q. rewrite hType_header, hPrimary_header, hSeq_header, hLen_header; auto using len_small; try lia.
    simpl N.eqb. simpl orb. replace (N.of_nat (length b) + 28 <=? N.of_nat (maxReply k))%N with true by (symmetry; apply N.leb_le; lia).
    simpl negb. cbv iota. eexists. split; [reflexivity|]. simpl. split; auto.
    destruct T as (T1 & T2 & T3).
    destruct (del_ins (reps (info s c)) i r T1 T2) as (D1 & D2 & D3).
    { intros r' j I. destruct (T3 _ _ I) as (_ & re' & b' & (Z & _)). auto. }
    { intros j I. destruct (T3 _ _ I) as (Hj & re' & b' & H'). eapply P2; eauto. }
    unfold upd. rewrite Nat.eqb_refl. simpl.
    split; [intros d Hd; destruct (Nat.eqb_spec d c); [contradiction|auto]|].
    split; [|split; [|split]].
    + split; [auto|]. split; [auto|]. intros r' j I. apply D3 in I. destruct I as [(-> & ->)|(I & _)]; auto. split; eauto.
    + intros r' j I. apply D3. destruct (Nat.eq_dec j i); auto. subst j. left. split; auto.
      destruct (T3 _ _ I) as (_ & re' & b' & H'). pose proof (holds_seq _ _ _ _ _ _ _ _ _ H H'); auto.
    + intros r' re' b' H'. apply D3. left. split; auto. pose proof (holds_seq _ _ _ _ _ _ _ _ _ H H'); auto.
    + unfold removeOld. clear. induction (reqs (info s c)); simpl; auto. destruct (negb _); simpl; lia.
Qed.
Lemma loadClient_gen c n : forall a s, a + n <= maxReqs k -> pagesOk (pages s) -> isValid k c = true -> tblOk (pages s) c (reps (info s c)) ->
  exists s', fold_left (loadOne k c) (seq a n) (Some s) = Some s' /\ pages s' = pages s /\ (forall d, d <> c -> info s' d = info s d) /\
    tblOk (pages s) c (reps (info s' c)) /\ (forall r j, In (r, j) (reps (info s c)) -> In (r, j) (reps (info s' c))) /\
    (forall i r re b, a <= i -> i < a + n -> holds (pages s) c i r re b -> In (r, i) (reps (info s' c))) /\
    length (reqs (info s' c)) <= length (reqs (info s c)).
Proof.
  induction n as [|n IH]; intros a s L P Vc T.
  - exists s. simpl. repeat (split; [solve [auto|apply T]|]). split; [intros; lia|auto].
  - cbn [seq fold_left]. destruct (loadOne_ok s c a P Vc ltac:(lia) T) as (s1 & E1 & Pg & I1 & T1 & M1 & N1 & R1).
    rewrite E1. destruct (IH (S a) s1) as (s2 & E2 & Pg2 & I2 & T2 & M2 & N2 & R2); try lia; auto; try (rewrite Pg; auto).
    rewrite Pg in *. exists s2. split; auto. split; [congruence|]. split; [intros d Hd; rewrite I2, I1; auto|]. split; auto.
    split; [auto|]. split; [|lia]. intros i r re b H1 H2 H. destruct (Nat.eq_dec i a); [subst; eauto|]. eapply N2; eauto; lia.
Qed.
Lemma loadInfo_gen l : forall s, NoDup l -> incl l (cids k) -> pagesOk (pages s) -> (forall c, isValid k c = true -> tblOk (pages s) c (reps (info s c))) ->
  exists s', fold_left (loadClient k) l (Some s) = Some s' /\ pages s' = pages s /\ (forall d, ~ In d l -> info s' d = info s d) /\
    (forall c, isValid k c = true -> tblOk (pages s) c (reps (info s' c))) /\ (forall c, In c l -> tblFull (pages s) c (reps (info s' c))) /\
    (forall c, length (reqs (info s' c)) <= length (reqs (info s c))).
Proof.
  induction l as [|c l IH]; intros s ND IC P T.
  - exists s. split; auto. split; auto. split; auto. split; auto. split; [intros c []|auto].
  - cbn [fold_left]. inversion ND; subst. assert (Vc : isValid k c = true) by (apply isValid_In; apply IC; simpl; auto).
    change (loadClient k (Some s) c) with (fold_left (loadOne k c) (seq 0 (maxReqs k)) (Some s)).
    destruct (loadClient_gen c (maxReqs k) 0 s) as (s1 & E1 & Pg & I1 & T1 & M1 & N1 & R1); auto.
    rewrite E1. destruct (IH s1) as (s2 & E2 & Pg2 & I2 & T2 & N2 & R2); auto.
    { intros x Hx. apply IC. simpl; auto. } { rewrite Pg; auto. }
    { intros d Vd. rewrite Pg. destruct (Nat.eq_dec d c); [subst; auto|]. rewrite I1; auto. }
    rewrite Pg in *. exists s2. split; [exact E2|]. split; [exact Pg2|].
    split; [intros d Hd; assert (~ In d l) by (intros ?; apply Hd; simpl; auto); assert (d <> c) by (intros ->; apply Hd; simpl; auto); rewrite I2, I1; auto|]. split; [exact T2|]. split.
    + intros d [Hd|Hd]; [subst d|auto]. rewrite I2 by auto. intros i r re b Hi H. eapply N1; eauto; lia.
    + intros d. specialize (R2 d). destruct (Nat.eq_dec d c); [subst; lia|]. rewrite I1 in R2; auto.
Qed.
Lemma inv_load s : pagesOk (pages s) -> (forall c, length (reqs (info s c)) <= maxReqs k) -> (forall c, isValid k c = true -> tblOk (pages s) c (reps (info s c))) ->
  exists s', loadInfo k s = Some s' /\ pages s' = pages s /\ Inv s'.
Proof.
  intros P R T. destruct (loadInfo_gen (cids k) s) as (s' & E & Pg & I & T' & F & R'); auto; [apply V|apply incl_refl|].
  exists s'. split; auto. split; auto. split; [rewrite Pg; auto|]. split; [intros c; specialize (R' c); specialize (R c); lia|].
  intros c Vc. rewrite Pg. split; auto. apply F. apply isValid_In; auto.
Qed.

Lemma reps_upd s c f d : reps (info (updInfo s c (onReqs f)) d) = reps (info s d).
Proof. unfold updInfo, upd, onReqs. simpl. destruct (Nat.eqb_spec d c); subst; auto. Qed.
Lemma inv_onReqs s c f : Inv s -> (forall l, length l <= maxReqs k -> length (f l) <= maxReqs k) -> Inv (updInfo s c (onReqs f)).
Proof.
  intros (P & R & T) H. split; [auto|]. split.
  - intros d. unfold updInfo, upd, onReqs. simpl. destruct (Nat.eqb_spec d c); subst; simpl; auto.
  - intros d Vd. rewrite reps_upd. apply T; auto.
Qed.
Lemma filter_len {A} (g : A -> bool) l : length (filter g l) <= length l.
Proof. induction l; simpl; auto. destruct (g a); simpl; lia. Qed.
Lemma inv_noreply s c r : Inv s -> isValid k c = true -> hasReply k s c r = false -> forall j re b, j < maxReqs k -> ~ holds (pages s) c j r re b.
Proof.
  intros (P & R & T) Vc H j re b Hj Hh. unfold hasReply in H. rewrite Vc in H. simpl in H. destruct (T c Vc) as [_ F].
  assert (findRep (reps (info s c)) r = true) by (apply findRep_In; exists j; eapply F; eauto). congruence.
Qed.
Lemma inv_reply s c r body idx result : Inv s -> okOp k s (Reply c r body idx result) -> isValid k c = true ->
  exists s', newReply k s c r 0 body idx result = Ret (s', replyMsg 0 r result body) /\ Inv s' /\
    pages s' = writePages k (pages s) (slot c idx) (replyMsg 0 r result body) /\ In (r, idx) (reps (info s' c)) /\
    (forall d r', findRep (reps (info s' d)) r' = true -> findRep (reps (info s d)) r' = true \/ (d = c /\ r' = r)).
Proof.
  intros I (Hn & R0 & R1 & Hi & B0 & B1) Vc. pose proof (inv_noreply s c r I Vc Hn) as NR. destruct I as (P & R & T).
  unfold newReply. destruct (Nat.ltb_spec idx (maxReqs k)); [|lia]. rewrite Vc. simpl negb. cbv iota.
  destruct (Nat.ltb_spec (pagesPerClient k) (length (replyMsg 0 r result body) / p)) as [Lt|Lt].
  { exfalso. rewrite replyMsg_length in Lt. pose proof (numPages_le (28 + length body) B1) as NL. unfold numPages in NL.
    unfold pagesPerClient in Lt. pose proof mr_pos. nia. }
  eexists. split; [reflexivity|]. simpl. fold (slot c idx).
  destruct (T c Vc) as [(T1 & T2 & T3) TF].
  destruct (del_ins (reps (info s c)) idx r T1 T2) as (D1 & D2 & D3).
  { intros r' j J. destruct (T3 _ _ J) as (_ & re' & b' & (Z & _)). auto. }
  { intros j J. destruct (T3 _ _ J) as (Hj & re' & b' & H'). exfalso. eapply NR; eauto. }
  assert (L : length (replyMsg 0 r result body) <= maxReply k) by (rewrite replyMsg_length; lia).
  unfold upd. rewrite Nat.eqb_refl. simpl.
  split; [|split; [auto|split; [apply D3; auto|]]].
  - split; [simpl; apply pagesOk_write; auto|]. split.
    + intros d. simpl. destruct (Nat.eqb_spec d c); subst; simpl; auto.
    + intros d Vd. simpl. destruct (Nat.eqb_spec d c) as [->|Nd].
      * simpl. split.
        -- split; [auto|]. split; [auto|]. intros r' j J. apply D3 in J. destruct J as [(-> & ->)|(J & Hj)].
           ++ split; auto. exists result, body. apply holds_new; auto.
           ++ destruct (T3 _ _ J) as (Hj' & re' & b' & H'). split; auto. exists re', b'. apply -> holds_other; auto. intros [_ E]. auto.
        -- intros i r' re' b' Hi' H'. apply D3. destruct (Nat.eq_dec i idx) as [->|Ni].
           ++ left. split; auto. pose proof (holds_seq _ _ _ _ _ _ _ _ _ H' (holds_new (pages s) c idx r result body R0 R1 B0 B1)); auto.
           ++ right. split; auto. eapply TF; eauto. eapply holds_other; [exact Vc|exact Vd|exact Hi|exact Hi'|exact L| |exact H']. intros [_ E]; auto.
      * destruct (T d Vd) as [(T1' & T2' & T3') TF']. split.
        -- split; [auto|]. split; [auto|]. intros r' j J. destruct (T3' _ _ J) as (Hj' & re' & b' & H'). split; auto. exists re', b'.
           apply -> holds_other; auto. intros [E _]; auto.
        -- intros i r' re' b' Hi' H'. eapply TF'; eauto. eapply holds_other; [exact Vc|exact Vd|exact Hi|exact Hi'|exact L| |exact H']. intros [E _]; auto.
  - intros d r' H'. destruct (Nat.eqb_spec d c) as [->|Nd]; auto. simpl in H'. apply findRep_In in H'. destruct H' as (j & J). apply D3 in J.
    destruct J as [(-> & ->)|(J & _)]; auto. left. apply findRep_In; eauto.
Qed.

Lemma cstep_inv s o : Inv s -> okOp k s o -> exists s', cstep k s o = Some s' /\ Inv s'.
Proof.
  intros I O. destruct o; simpl.
  - eexists. split; [reflexivity|]. destruct (canBecomePending k s c r) eqn:C; auto. unfold canBecomePending in C.
    repeat rewrite andb_true_iff in C. destruct C as [[[C1 C2] C3] C4]. apply negb_true_iff in C2, C3. apply Nat.eqb_neq in C2.
    destruct I as (P & R & T). split; [auto|]. split.
    + intros d. unfold updInfo, upd, onReqs. simpl. destruct (Nat.eqb_spec d c); subst; simpl; auto. unfold emplace. rewrite C3. simpl.
      specialize (R c). lia.
    + intros d Vd. rewrite reps_upd. apply T; auto.
  - eexists. split; [reflexivity|]. apply inv_onReqs; auto. intros l. unfold markCommitted. rewrite map_length. auto.
  - eexists. split; [reflexivity|]. apply inv_onReqs; auto. intros l H. unfold removeOutOfBounds. destruct (findReq l r); auto.
    destruct (_ && _); auto. etransitivity; [apply filter_len|auto].
  - eexists. split; [reflexivity|]. apply inv_onReqs; auto. intros l H. unfold removePending. etransitivity; [apply filter_len|auto].
  - eexists. split; [reflexivity|]. destruct I as (P & R & T). split; [auto|]. split; [intros; simpl; lia|]. intros c Vc. simpl. apply T; auto.
  - destruct (isValid k c) eqn:Vc.
    + destruct (inv_reply s c r body idx result I O Vc) as (s' & E & I' & _). rewrite E. eauto.
    + unfold newReply. destruct O as (_ & _ & _ & Hi & _). destruct (Nat.ltb_spec idx (maxReqs k)); [|lia]. rewrite Vc. simpl. eauto.
  - eexists. split; [reflexivity|]. destruct (isValid k c) eqn:Vc; auto. destruct I as (P & R & T).
    assert (PP : 1 <= pagesPerReq k).
    { destruct V as (_ & _ & _ & HM & _). pose proof (numPages_le 29 HM). pose proof (numPages_pos 29). lia. }
    split; [apply pagesOk_key; auto|]. split; [auto|]. intros e Ve. simpl. destruct (T e Ve) as [(T1 & T2 & T3) TF]. split.
    + split; [auto|]. split; [auto|]. intros r i J. destruct (T3 _ _ J) as (Hi & re & b & H). split; auto. exists re, b. apply -> holds_key; auto.
    + intros i r re b Hi H. eapply TF; eauto. eapply holds_key; [exact Vc|exact Ve|exact Hi|exact H].
  - destruct I as (P & R & T). destruct (inv_load s P R) as (s' & E & _ & I'); [intros; apply T; auto|]. eauto.
  - destruct I as (P & R & T). destruct (inv_load (mkSt (fun _ => emptyInfo) (pages s))) as (s' & E & _ & I'); simpl; auto.
    + intros; lia.
    + intros c Vc. split; [constructor|split; [constructor|intros ? ? []]].
    + eauto.
Qed.

Lemma crun_app l1 : forall s l2, crun k s (l1 ++ l2) = match crun k s l1 with Some s1 => crun k s1 l2 | None => None end.
Proof. induction l1 as [|o l1 IH]; intros s l2; simpl; auto. destruct (cstep k s o); auto. Qed.
Lemma okRun_app l1 : forall s l2 s1, okRun k s (l1 ++ l2) -> crun k s l1 = Some s1 -> okRun k s l1 /\ okRun k s1 l2.
Proof.
  induction l1 as [|o l1 IH]; intros s l2 s1 H E; simpl in *; [inversion E; subst; auto|]. destruct H as [H1 H2].
  destruct (cstep k s o) as [s'|]; [|discriminate]. destruct (IH _ _ _ H2 E). auto.
Qed.
Lemma run_inv l : forall s, Inv s -> okRun k s l -> exists s', crun k s l = Some s' /\ Inv s'.
Proof.
  induction l as [|o l IH]; intros s I O; simpl in *; [eauto|]. destruct O as [O1 O2]. destruct (cstep_inv s o I O1) as (s' & E & I').
  rewrite E in *. apply IH; auto.
Qed.
Lemma step_keeps s o s' c i r re b : Inv s -> okOp k s o -> cstep k s o = Some s' -> isValid k c = true -> i < maxReqs k ->
  slotKept c i [o] -> holds (pages s) c i r re b -> holds (pages s') c i r re b.
Proof.
  intros I O E Vc Hi K H. specialize (K o (or_introl eq_refl)). destruct o; simpl in E.
  - inversion E; subst. destruct (canBecomePending k s c0 r0); auto.
  - inversion E; subst; auto.
  - inversion E; subst; auto.
  - inversion E; subst; auto.
  - inversion E; subst; auto.
  - destruct (isValid k c0) eqn:Vd.
    + destruct (inv_reply s c0 r0 body idx result I O Vd) as (s1 & E1 & I1 & Pg & _). rewrite E1 in E. inversion E; subst s1. rewrite Pg.
      destruct O as (_ & R0 & R1 & Hj & B0 & B1). apply -> holds_other; auto.
    + destruct O as (_ & _ & _ & Hj & _). unfold newReply in E. destruct (Nat.ltb_spec idx (maxReqs k)); [|lia]. rewrite Vd in E. simpl in E. inversion E; subst; auto.
  - inversion E; subst. destruct (isValid k c0) eqn:Vd; auto. simpl. apply -> holds_key; auto.
  - destruct I as (P & R & T). destruct (inv_load s P R) as (s1 & E1 & Pg & _); [intros; apply T; auto|]. rewrite E in E1. inversion E1; subst. rewrite Pg; auto.
  - destruct I as (P & R & T). destruct (inv_load (mkSt (fun _ => emptyInfo) (pages s))) as (s1 & E1 & Pg & _); simpl; auto.
    + intros; lia.
    + intros d Vd. split; [constructor|split; [constructor|intros ? ? []]].
    + rewrite E in E1. inversion E1; subst. rewrite Pg; auto.
Qed.
Lemma run_keeps l : forall s s' c i r re b, Inv s -> okRun k s l -> crun k s l = Some s' -> isValid k c = true -> i < maxReqs k ->
  slotKept c i l -> holds (pages s) c i r re b -> holds (pages s') c i r re b.
Proof.
  induction l as [|o l IH]; intros s s' c i r re b I O E Vc Hi K H; simpl in *; [inversion E; subst; auto|].
  destruct O as [O1 O2]. destruct (cstep_inv s o I O1) as (s1 & E1 & I1). rewrite E1 in *.
  eapply (IH s1); eauto.
  - intros o' Ho'. apply K. simpl; auto.
  - apply (step_keeps s o s1 c i r re b); auto. intros o' [Ho'|[]]. apply K. simpl; auto.
Qed.

Lemma holds_found s c i r re b : Inv s -> isValid k c = true -> i < maxReqs k -> holds (pages s) c i r re b ->
  hasReply k s c r = true /\ canBecomePending k s c r = false /\ forall primary, savedReply k s c r primary = Ret (replyMsg primary r re b).
Proof.
  intros (P & R & T) Vc Hi H. destruct (T c Vc) as [(T1 & T2 & T3) TF]. pose proof (TF _ _ _ _ Hi H) as J.
  assert (F : findRep (reps (info s c)) r = true) by (apply findRep_In; eauto).
  split; [unfold hasReply; rewrite Vc, F; auto|]. split; [unfold canBecomePending; rewrite F; simpl; rewrite andb_false_r; auto|].
  intros primary. unfold savedReply. rewrite Vc. cbn [negb].
  assert (G : getIndex (reps (info s c)) r = i).
  { unfold getIndex. destruct (find (fun x => N.eqb (fst x) r) (reps (info s c))) as [[r' j]|] eqn:Q.
    - apply find_some in Q. destruct Q as [Q E]. apply N.eqb_eq in E. simpl in E. subst. eapply nodup_fst_inj; eauto.
    - pose proof (find_none _ _ Q _ J) as Z. simpl in Z. rewrite N.eqb_refl in Z. discriminate. }
  rewrite G. fold (slot c i). destruct (holds_first _ _ _ _ _ _ H) as (pp & t & E & Q). rewrite E, Q.
  destruct H as (R0 & R1 & B0 & B1 & S).
  rewrite hType_header, hPrimary_header, hLen_header; auto using len_small; try lia.
  destruct (N.eqb_spec (N.of_nat (length b)) 0) as [Z|Z]; [destruct b; [congruence|simpl in Z; lia]|].
  replace (N.of_nat (length b) + 28 <=? N.of_nat (maxReply k))%N with true by (symmetry; apply N.leb_le; lia).
  rewrite !N.eqb_refl. cbn [negb orb]. rewrite Nat2N.id.
  assert (RD : readPages k (pages s) (slot c i) (28 + length b) = replyMsg 0 r re b) by (rewrite <- (replyMsg_length 0 r re b); apply read_stored; auto).
  rewrite RD. clear RD.
  unfold replyMsg. rewrite hSeq_header by auto. rewrite N.eqb_refl. cbn [negb]. rewrite setPrimary_header. auto.
Qed.
Lemma tbl_bound pg c l : tblOk pg c l -> length l <= maxReqs k.
Proof.
  intros (_ & T2 & T3). rewrite <- (map_length snd). rewrite <- (seq_length (maxReqs k) 0). apply NoDup_incl_length; auto.
  intros i Hi. apply in_map_iff in Hi. destruct Hi as ([r j] & E & H). simpl in E. subst j. apply in_seq. destruct (T3 _ _ H). lia.
Qed.
Lemma inv_hasReply s c r : Inv s -> isValid k c = true -> hasReply k s c r = true <-> exists i re b, i < maxReqs k /\ holds (pages s) c i r re b.
Proof.
  intros (P & R & T) Vc. destruct (T c Vc) as [(T1 & T2 & T3) TF]. unfold hasReply. rewrite Vc. simpl. rewrite findRep_In. split.
  - intros (i & J). destruct (T3 _ _ J) as (Hi & re & b & H). eauto 6.
  - intros (i & re & b & Hi & H). exists i. eauto.
Qed.
Lemma restart_same s s' c r : Inv s -> cstep k s Restart = Some s' -> hasReply k s' c r = hasReply k s c r.
Proof.
  intros I E. destruct (isValid k c) eqn:Vc; [|unfold hasReply; rewrite Vc; auto].
  pose proof (cstep_inv s Restart I Logic.I) as (s1 & E1 & I1). rewrite E in E1. inversion E1; subst s1.
  assert (Pg : pages s' = pages s).
  { destruct I as (P & R & T). simpl in E. destruct (inv_load (mkSt (fun _ => emptyInfo) (pages s))) as (s2 & E2 & Pg & _); simpl; auto.
    + intros; lia.
    + intros d Vd. split; [constructor|split; [constructor|intros ? ? []]].
    + rewrite E in E2. inversion E2; subst. auto. }
  apply eq_true_iff_eq. rewrite !inv_hasReply by auto. rewrite Pg. reflexivity.
Qed.

(** * Execution of batches *)
Definition okReq (q : creq) : Prop := (rq_seq q <> 0)%N /\ (rq_seq q < 256 ^ 8)%N /\ rq_idx q < maxReqs k /\ rq_reply q <> [] /\ 28 + length (rq_reply q) <= maxReply k.
Definition key (q : creq) : nat * N := (rq_client q, rq_seq q).

(** Every executed request is remembered, or a later proposal took its slot. *)
Definition evicted (past : list creq) (q : creq) : Prop :=
  exists a b c y, past = a ++ q :: b ++ y :: c /\ rq_client y = rq_client q /\ rq_idx y = rq_idx q /\ rq_seq y <> rq_seq q.
Definition remembered (s : cmst) (past : list creq) (q : creq) : Prop :=
  In q past /\ isValid k (rq_client q) = true /\ rq_idx q < maxReqs k /\
  ((exists re bd, holds (pages s) (rq_client q) (rq_idx q) (rq_seq q) re bd) \/ evicted past q).
Lemma evicted_app past q l : evicted past q -> evicted (past ++ l) q.
Proof.
  intros (a & b & c & y & E & Y). exists a, b, (c ++ l), y. split; auto. rewrite E.
  rewrite <- app_assoc. simpl. rewrite <- app_assoc. auto.
Qed.
Lemma exec_batch (m : creq -> bool) l : forall s past log,
  Inv s -> (forall q, In q l -> okReq q) -> (forall q, In q l -> m q = true -> isValid k (rq_client q) = true /\ hasReply k s (rq_client q) (rq_seq q) = false) ->
  NoDup (map key l) -> (forall q, In q log -> remembered s past q) ->
  exists s', replyAll k (Some s) (filter m l) = Some s' /\ Inv s' /\ forall q, In q (log ++ filter m l) -> remembered s' (past ++ l) q.
Proof.
  induction l as [|q l IH]; intros s past log I O M ND RM.
  - exists s. simpl. rewrite !app_nil_r. auto.
  - inversion ND as [|? ? ND1 ND2]; subst. cbn [filter]. destruct (m q) eqn:Mq.
    + destruct (M q (or_introl eq_refl) Mq) as [Vq Hq]. pose proof (O q (or_introl eq_refl)) as (Q0 & Q1 & Q2 & Q3 & Q4).
      assert (Ok : okOp k s (Reply (rq_client q) (rq_seq q) (rq_reply q) (rq_idx q) 0)) by (repeat split; auto).
      destruct (inv_reply s _ _ _ _ _ I Ok Vq) as (s1 & E1 & I1 & Pg & J1 & F1).
      assert (H1 : holds (pages s1) (rq_client q) (rq_idx q) (rq_seq q) 0 (rq_reply q)) by (rewrite Pg; apply holds_new; auto).
      assert (L1 : length (replyMsg 0 (rq_seq q) 0 (rq_reply q)) <= maxReply k) by (rewrite replyMsg_length; lia).
      destruct (IH s1 (past ++ [q]) (log ++ [q])) as (s2 & E2 & I2 & R2); auto.
      * intros q' Hq'. apply O. simpl; auto.
      * intros q' Hq' Mq'. destruct (M q' (or_intror Hq') Mq') as [V' H']. split; auto. apply not_true_is_false. intros C.
        unfold hasReply in C, H'. rewrite V' in C, H'. simpl in C, H'. apply F1 in C. destruct C as [C|(C1 & C2)]; [congruence|].
        apply ND1. replace (key q) with (key q') by (unfold key; congruence). apply in_map; auto.
      * intros q' Hq'. apply in_app_iff in Hq'. destruct Hq' as [Hq'|[<-|[]]].
        -- destruct (RM q' Hq') as (Ip & V' & Hi' & R'). split; [apply in_app_iff; auto|]. split; auto. split; auto.
           destruct R' as [(re & bd & Hh)|R']; [|right; apply evicted_app; auto].
           assert (A : hasReply k s (rq_client q') (rq_seq q') = true) by (apply inv_hasReply; eauto 6).
           destruct (Nat.eq_dec (rq_client q) (rq_client q')) as [Ec|Ec]; [destruct (Nat.eq_dec (rq_idx q) (rq_idx q')) as [Ei|Ei]|].
           ++ right. apply in_split in Ip. destruct Ip as (a & b & Ep). exists a, b, [], q. rewrite Ep. rewrite <- app_assoc. simpl.
              repeat split; auto. intros Es. rewrite <- Ec, <- Es in A. congruence.
           ++ left. exists re, bd. rewrite Pg. apply -> holds_other; auto. intros [_ ?]; auto.
           ++ left. exists re, bd. rewrite Pg. apply -> holds_other; auto. intros [? _]; auto.
        -- split; [apply in_app_iff; simpl; auto|]. split; auto. split; auto. left. eauto.
      * exists s2. unfold replyAll in *. cbn [fold_left]. unfold cstep at 2. rewrite E1. split; [exact E2|]. split; auto.
        intros q' Hq'. rewrite <- !app_assoc in R2. simpl in R2. apply R2. exact Hq'.
    + destruct (IH s (past ++ [q]) log) as (s2 & E2 & I2 & R2); auto.
      * intros q' Hq'. apply O. simpl; auto.
      * intros q' Hq'. apply M. simpl; auto.
      * intros q' Hq'. destruct (RM q' Hq') as (Ip & V' & Hi' & R'). split; [apply in_app_iff; auto|]. split; auto. split; auto.
        destruct R' as [R'|R']; auto. right. apply evicted_app; auto.
      * exists s2. split; auto. split; auto. intros q' Hq'. rewrite <- app_assoc in R2. apply R2. auto.
Qed.
End K.

(** Conditions on the proposals: no request twice in one batch; a request is not proposed again after a different request of the same client
    and batch index was proposed following it. *)
Definition noDupInBatch (bs : list (list creq)) : Prop := forall b, In b bs -> NoDup (map key b).
Definition noStaleReplay (l : list creq) : Prop := forall a x b y c x' d,
  l = a ++ x :: b ++ y :: c ++ x' :: d -> key x = key x' -> rq_client y = rq_client x -> rq_idx y = rq_idx x -> rq_seq y = rq_seq x.

Lemma NoDup_app_iff_local {A} (l r : list A) : NoDup l -> NoDup r -> (forall x, In x l -> In x r -> False) -> NoDup (l ++ r).
Proof.
  induction l as [|a l IH]; simpl; intros H1 H2 H3; auto. inversion H1; subst. constructor.
  - rewrite in_app_iff. intros [H|H]; [auto|eapply H3; eauto].
  - apply IH; auto. intros x X1 X2. eapply H3; eauto.
Qed.
Lemma exec_all k (V : validCm k) bs : forall s past log, Inv k s -> (forall b q, In b bs -> In q b -> okReq k q) -> noDupInBatch bs ->
  noStaleReplay (past ++ concat bs) -> (forall q, In q log -> remembered k s past q) -> NoDup (map key log) ->
  exists s' l, execAll k s bs = Some (s', l) /\ NoDup (map key (log ++ l)).
Proof.
  induction bs as [|b bs IH]; intros s past log I O ND NS RM N.
  - exists s, []. simpl. rewrite app_nil_r. auto.
  - simpl execAll. unfold execBatch.
    destruct (exec_batch k V (marked k s) b s past log) as (s1 & E1 & I1 & R1); auto.
    + intros q Hq. apply (O b); simpl; auto.
    + intros q Hq Mq. unfold marked in Mq. apply andb_true_iff in Mq. destruct Mq as [M1 M2]. apply negb_true_iff in M2. auto.
    + apply ND. simpl; auto.
    + rewrite E1. destruct (IH s1 (past ++ b) (log ++ filter (marked k s) b)) as (s2 & l2 & E2 & N2); auto.
      * intros b' q Hb'. apply O. simpl; auto.
      * intros b' Hb'. apply ND. simpl; auto.
      * simpl in NS. rewrite <- app_assoc. auto.
      * rewrite map_app. apply NoDup_app_iff_local; auto.
        -- apply nodup_map_filter. apply ND; simpl; auto.
        -- intros x Hx1 Hx2. apply in_map_iff in Hx1. destruct Hx1 as (q & Eq & Hq). apply in_map_iff in Hx2. destruct Hx2 as (q' & Eq' & Hq').
           apply filter_In in Hq'. destruct Hq' as [Hq' Mq']. destruct (RM q Hq) as (Ip & Vq & Hi & R).
           unfold marked in Mq'. apply andb_true_iff in Mq'. destruct Mq' as [M1 M2]. apply negb_true_iff in M2.
           assert (EK : key q = key q') by congruence. unfold key in EK. inversion EK as [[EK1 EK2]].
           destruct R as [(re & bd & Hh)|(a & b1 & c & y & Ep & Y1 & Y2 & Y3)].
           ++ assert (A : hasReply k s (rq_client q) (rq_seq q) = true) by (apply inv_hasReply; eauto 6). rewrite EK1, EK2 in A. congruence.
           ++ apply in_split in Hq'. destruct Hq' as (u & w & Eb). apply Y3.
              eapply (NS a q b1 y (c ++ u) q' (w ++ concat bs)); eauto. simpl. rewrite Ep, Eb. rewrite <- !app_assoc. simpl. rewrite <- !app_assoc. simpl. auto.
      * rewrite E2. exists s2, (filter (marked k s) b ++ l2). split; auto. rewrite app_assoc. auto.
Qed.
