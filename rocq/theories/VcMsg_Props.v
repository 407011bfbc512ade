(** C19: what is known of a view-change message that passes validation. Every byte string, followed by any memory. *)
From Coq Require Import List Arith NArith ZArith Bool Lia.
From Verif Require Import Lib_Bytes PrePrep_Model PrePrep_Proofs VcMsg_Model VcMsg_Proofs.
Import ListNotations.
Local Open Scope N_scope.

(** ** The elements of an accepted message: the iterator visits exactly the announced number of them - at most 300 - without running into one of
    its assertions; they lie one behind the other between the span context and the signature, inside the message; their numbers increase and
    lie in the window above the stable point; each is from an earlier view, and each certificate is from a view no later than the element's and has
    a non-empty signature. The generator is another replica, of this epoch, and it signed everything up to the end of the elements. *)
Theorem C19_elements (c : config) (mem : memory) (size : N) : bytesIn mem -> size < 2 ^ 31 -> sigLen c (vGen mem) < 65536 -> validate c mem size = true ->
  isReplica c (vGen mem) = true /\ vGen mem <> me c /\ vEpoch mem = epoch c /\
  verify c (vGen mem) (rd mem 0 (bodySize mem)) (rd mem (bodySize mem) (sigLen c (vGen mem))) = true /\ bodySize mem + sigLen c (vGen mem) <= size /\
  exists l, iterateElements mem = Some l /\ N.of_nat (length l) = vNumElem mem /\ (length l <= 300)%nat /\ laid (eSize mem) (44 + vSpan mem) l (bodySize mem) /\
            rising mem (vStable mem) (vStable mem + 300) l /\ Forall (goodElement mem) l.
Proof.
  intros B Sz Sg E. destruct (validate_spec c mem size B Sz Sg E) as (A1 & A2 & A3 & A4 & _ & A5 & l & L1 & L2 & L3 & L4 & L5 & L6).
  split; [exact A1|]. split; [exact A2|]. split; [exact A3|]. split; [exact A4|]. split; [exact A5|]. exists l. repeat split; auto.
Qed.
Print Assumptions C19_elements.

(** ** Each element lies inside the signed part of the message, and no two have the same number. *)
Theorem C19_elements_inside (c : config) (mem : memory) (size : N) (l : list N) : bytesIn mem -> size < 2 ^ 31 -> sigLen c (vGen mem) < 65536 -> validate c mem size = true ->
  iterateElements mem = Some l -> (forall p, In p l -> 44 + vSpan mem <= p /\ p + eSize mem p <= bodySize mem) /\ NoDup (map (eSeq mem) l) /\ NoDup l.
Proof.
  intros B Sz Sg E I. destruct (validate_spec c mem size B Sz Sg E) as (_ & _ & _ & _ & _ & _ & l' & _ & _ & L3 & L4 & _ & L6). rewrite I in L6. injection L6 as <-.
  split; [intros p Hp; eapply laid_In; eauto|]. assert (G : forall l low high, rising mem low high l -> NoDup (map (eSeq mem) l) /\ forall q, In q l -> (low < eSeq mem q)%Z).
  { clear. induction l as [|p l IH]; intros low high R; [split; [constructor|intros ? []]|]. cbn [rising] in R. destruct R as [R1 R2]. destruct (IH _ _ R2) as [I1 I2]. split.
    - cbn [map]. constructor; auto. intros X. apply in_map_iff in X. destruct X as (q & Eq & Hq). specialize (I2 _ Hq). lia.
    - intros q [<-|Hq]; [lia|]. specialize (I2 _ Hq). lia. }
  destruct (G _ _ _ L4) as [G1 _]. split; auto. apply NoDup_map_inv with (1 := G1).
Qed.
Print Assumptions C19_elements_inside.

(** ** The complaints of an accepted message, when no complaint announces more bytes than follow it and the generator's signatures are as long as this
    replica's own: the iterator visits exactly the announced number without running into an assertion; they lie one behind the other from the end
    of the signature to the end of the message. *)
Theorem C19_complaints_partial (c : config) (mem : memory) (size : N) : bytesIn mem -> size < 2 ^ 31 -> sigLen c (vGen mem) < 65536 -> validate c mem size = true ->
  noOverrun mem size (sigLen c (vGen mem)) ->
  exists l, iterateComplaints mem size (sigLen c (vGen mem)) = Some l /\ N.of_nat (length l) = vNumCompl mem /\ laid (cSize mem) (bodySize mem + sigLen c (vGen mem)) l size /\
            (forall p, In p l -> 27 < u 4 mem p /\ p + 4 + u 4 mem p <= size).
Proof.
  intros B Sz Sg E NO. destruct (validate_spec c mem size B Sz Sg E) as (_ & _ & _ & _ & C & Le & _). assert (Sz' : size < M32) by (unfold M32; change (2 ^ 31) with 2147483648 in Sz; lia).
  destruct (complaints_spec mem size _ B Sz' Le C NO) as (l & L1 & L2 & L3 & L4). exists l. repeat split; auto.
  - eapply Forall_forall in L3; eauto.
  - apply laid_In with (p := p) in L2; auto. unfold cSize in L2. lia.
Qed.
Print Assumptions C19_complaints_partial.

(** ** With at most one complaint nothing needs to be assumed: it ends at the end of the message. *)
Theorem C19_one_complaint (c : config) (mem : memory) (size : N) : bytesIn mem -> size < 2 ^ 31 -> sigLen c (vGen mem) < 65536 -> validate c mem size = true -> vNumCompl mem <= 1 ->
  exists l, iterateComplaints mem size (sigLen c (vGen mem)) = Some l /\ N.of_nat (length l) = vNumCompl mem /\ laid (cSize mem) (bodySize mem + sigLen c (vGen mem)) l size.
Proof.
  intros B Sz Sg E One. destruct (validate_spec c mem size B Sz Sg E) as (_ & _ & _ & _ & C & Le & _). assert (Sz' : size < M32) by (unfold M32; change (2 ^ 31) with 2147483648 in Sz; lia).
  destruct (C19_complaints_partial c mem size B Sz Sg E (few_complaints mem size _ B Sz' Le C One)) as (l & L1 & L2 & L3 & _). eauto.
Qed.
Print Assumptions C19_one_complaint.

(** ** What a correct replica builds is accepted by every other replica that knows its key, and read back: the iterators deliver exactly the
    elements and the complaints that were put in, whatever memory lies behind the message. *)
Theorem C19_roundtrip (c : config) (sign : bytes -> bytes) (span : bytes) (gen view stable : N) (es : list element) (cs : list bytes) (rest : memory) :
  let b := signedPart (epoch c) span gen view stable es cs in let m := build sign (epoch c) span gen view stable es cs in let mem := memOf m rest in let size := N.of_nat (length m) in
  gen < 65536 -> view < 2 ^ 63 -> stable + 300 < 2 ^ 63 -> epoch c < 2 ^ 64 -> Forall (wfE view) es -> risingE stable (stable + 300) es -> Forall wfC cs -> N.of_nat (length cs) < 65536 ->
  N.of_nat (length (sign b)) = sigLen c gen -> size < M32 -> isReplica c gen = true -> gen <> me c -> verify c gen b (sign b) = true ->
  validate c mem size = true /\
  (exists l, iterateElements mem = Some l /\ Forall2 (readsE mem) l es) /\ (exists l, iterateComplaints mem size (sigLen c gen) = Some l /\ Forall2 (readsC mem) l cs) /\
  vView mem = Z.of_N view /\ vStable mem = Z.of_N stable /\ vGen mem = gen.
Proof.
  intros b m mem size Hg Hv Hst Hep Hes Hri Hcs Hnc Hsig Hsz Ir Nm V. split; [|split; [|split; [|split; [|split]]]].
  - apply vb_validate; auto.
  - eexists. split; [apply vb_iterE; auto|]. apply vb_elems; auto.
  - eexists. split; [apply vb_iterC; auto|]. apply vb_compls; auto.
  - apply vb_view; auto.
  - apply vb_stable; auto.
  - apply vb_gen; auto.
Qed.
Print Assumptions C19_roundtrip.

(** ** A message announcing an end of its elements that does not wrap around is not read beyond its end by the signature check. *)
Theorem C19_signature_check_inside_partial (c : config) (mem : memory) (size n : N) : handedToVerify c mem size = Some n -> bodySize mem + sigLen c (vGen mem) < M32 -> n <= size.
Proof.
  unfold handedToVerify. intros E W. destruct (_ || _) eqn:E1; [discriminate|]. injection E as <-. rewrite !orb_false_iff in E1. destruct E1 as [_ E1]. apply N.ltb_ge in E1. rewrite N.mod_small in E1 by auto. auto.
Qed.
Print Assumptions C19_signature_check_inside_partial.

(** * What does not hold *)
(** A configuration: 4-byte signatures that are the sum of the text. *)
Definition sumSign (t : bytes) : bytes := le 4 (fold_left N.add t 0).
Definition cfg : config := mkCfg 0 (fun r => r <? 4) 0 (fun _ => 4) (fun _ t s => bytesEqb s (sumSign t)).
Definition complaintText (k : nat) : bytes := repeat 7 k.
(** A message with hand-made header fields, signed by replica 1. *)
Definition crafted (ncomp scomp nelem loc : N) (es tail : bytes) : bytes := let b := vcHeader 0 1 5 0 0 ncomp scomp nelem loc ++ es in b ++ sumSign b ++ tail.
Definition behind (at_ : N) (k : bytes) : memory := fun i => if i <? at_ then 0 else nth (N.to_nat (i - at_)) k 0.

(** ** A complaint that announces more bytes than the message has is accepted when the memory behind the message plays along, and the iterator then
    runs into an assertion: the replica terminates. With other memory behind it the same message is rejected. *)
Definition overrun : bytes := crafted 2 40 0 0 [] (le 4 100 ++ repeat 7 36).
Theorem C19_complaint_overrun_refuted :
  ~ (forall c mem size, bytesIn mem -> size < 2 ^ 31 -> sigLen c (vGen mem) < 65536 -> validate c mem size = true -> iterateComplaints mem size (sigLen c (vGen mem)) <> None) /\
  ~ (forall c m rest rest', validate c (memOf m rest) (N.of_nat (length m)) = true -> validate c (memOf m rest') (N.of_nat (length m)) = true).
Proof.
  split.
  - intros C. specialize (C cfg (memOf overrun (behind 152 (le 4 4294967228))) (N.of_nat (length overrun))). refine (C _ _ _ _ _).
    + intros i. unfold memOf. destruct (Nat.lt_ge_cases (N.to_nat i) (length overrun)) as [L|L].
      * assert (F : forallb (fun b => b <? 256) overrun = true) by (vm_compute; reflexivity). rewrite forallb_forall in F. apply N.ltb_lt, F, nth_In, L.
      * rewrite nth_overflow by auto. unfold behind. destruct (i <? 152); [reflexivity|].
        destruct (Nat.lt_ge_cases (N.to_nat (i - 152)) (length (le 4 4294967228))) as [L'|L'].
        -- assert (F : forallb (fun b => b <? 256) (le 4 4294967228) = true) by (vm_compute; reflexivity). rewrite forallb_forall in F. apply N.ltb_lt, F, nth_In, L'.
        -- rewrite nth_overflow by auto. reflexivity.
    + vm_compute. reflexivity.
    + vm_compute. reflexivity.
    + vm_compute. reflexivity.
    + vm_compute. reflexivity.
  - intros C. specialize (C cfg overrun (behind 152 (le 4 4294967228)) (fun _ => 0)). assert (X : validate cfg (memOf overrun (fun _ => 0)) (N.of_nat (length overrun)) = false) by (vm_compute; reflexivity).
    rewrite C in X; [discriminate|vm_compute; reflexivity].
Qed.
Print Assumptions C19_complaint_overrun_refuted.

(** ** The digest of an accepted message is taken over a number of bytes that nobody has checked: it can reach far behind the message. *)
Definition hugeDigest : bytes := crafted 0 4000000000 0 0 [] [].
Theorem C19_digest_reads_outside_refuted : ~ (forall c mem size, bytesIn mem -> validate c mem size = true -> digestLen mem <= size).
Proof.
  intros C. specialize (C cfg (memOf hugeDigest (fun _ => 0)) (N.of_nat (length hugeDigest))).
  assert (B : bytesIn (memOf hugeDigest (fun _ => 0))).
  { intros i. unfold memOf. destruct (Nat.lt_ge_cases (N.to_nat i) (length hugeDigest)) as [L|L]; [|rewrite nth_overflow by auto; reflexivity].
    assert (F : forallb (fun b => b <? 256) hugeDigest = true) by (vm_compute; reflexivity). rewrite forallb_forall in F. apply N.ltb_lt, F, nth_In, L. }
  specialize (C B). assert (V : validate cfg (memOf hugeDigest (fun _ => 0)) (N.of_nat (length hugeDigest)) = true) by (vm_compute; reflexivity). specialize (C V).
  apply N.leb_le in C. assert (X : (digestLen (memOf hugeDigest (fun _ => 0)) <=? N.of_nat (length hugeDigest)) = false) by (vm_compute; reflexivity). rewrite X in C. discriminate C.
Qed.
Print Assumptions C19_digest_reads_outside_refuted.

(** ** The digest of a correct replica's message covers everything but the last bytes of the complaints, as many as the signature has. *)
Theorem C19_digest_covers (c : config) (sign : bytes -> bytes) (span : bytes) (gen view stable : N) (es : list element) (cs : list bytes) (rest : memory) :
  let b := signedPart (epoch c) span gen view stable es cs in let m := build sign (epoch c) span gen view stable es cs in let mem := memOf m rest in let size := N.of_nat (length m) in
  gen < 65536 -> view < 2 ^ 63 -> stable + 300 < 2 ^ 63 -> epoch c < 2 ^ 64 -> Forall (wfE view) es -> risingE stable (stable + 300) es -> Forall wfC cs -> N.of_nat (length cs) < 65536 ->
  N.of_nat (length (sign b)) = sigLen c gen -> size < M32 -> digestLen mem + sigLen c gen = size.
Proof.
  intros b m mem size Hg Hv Hst Hep Hes Hri Hcs Hnc Hsig Hsz. assert (L : size = 44 + N.of_nat (length span) + N.of_nat (length (concat (map encE es))) + sigLen c gen + N.of_nat (length (concat (map encC cs)))) by (apply (vb_length c); auto).
  assert (E1 : bodySize mem = 44 + N.of_nat (length span) + N.of_nat (length (concat (map encE es)))) by (apply (vb_body c); auto).
  assert (E2 : vSizeCompl mem = N.of_nat (length (concat (map encC cs)))) by (apply (vb_sc c); auto).
  unfold digestLen. rewrite E1, E2, N.mod_small by lia. lia.
Qed.
Print Assumptions C19_digest_covers.
(** Two messages of one replica that differ in a complaint and have the same digest. *)
Theorem C19_digest_binds_complaints_refuted : ~ (forall c m m' rest, validate c (memOf m rest) (N.of_nat (length m)) = true -> validate c (memOf m' rest) (N.of_nat (length m')) = true ->
  rd (memOf m rest) 0 (digestLen (memOf m rest)) = rd (memOf m' rest) 0 (digestLen (memOf m' rest)) -> m = m').
Proof.
  intros C. specialize (C cfg (build sumSign 0 [] 1 5 0 [] [repeat 7 28 ++ [1]]) (build sumSign 0 [] 1 5 0 [] [repeat 7 28 ++ [2]]) (fun _ => 0)).
  assert (X : build sumSign 0 [] 1 5 0 [] [repeat 7 28 ++ [1]] <> build sumSign 0 [] 1 5 0 [] [repeat 7 28 ++ [2]]) by (vm_compute; discriminate).
  apply X, C; vm_compute; reflexivity.
Qed.
Print Assumptions C19_digest_binds_complaints_refuted.

(** ** The signature check is handed up to 4 GB behind a message of 48 bytes: the announced end of the elements, plus the length of the signature, is
    computed in 32 bits. Nothing has been verified about the sender at that point. *)
Theorem C19_signature_check_inside_refuted : ~ (forall c mem size n, bytesIn mem -> handedToVerify c mem size = Some n -> n <= size).
Proof.
  intros C. specialize (C cfg (memOf (crafted 0 0 0 4294967294 [] []) (fun _ => 0)) 48 4294967298).
  assert (B : bytesIn (memOf (crafted 0 0 0 4294967294 [] []) (fun _ => 0))).
  { intros i. unfold memOf. destruct (Nat.lt_ge_cases (N.to_nat i) (length (crafted 0 0 0 4294967294 [] []))) as [L|L]; [|rewrite nth_overflow by auto; reflexivity].
    assert (F : forallb (fun b => b <? 256) (crafted 0 0 0 4294967294 [] []) = true) by (vm_compute; reflexivity). rewrite forallb_forall in F. apply N.ltb_lt, F, nth_In, L. }
  specialize (C B). assert (V : handedToVerify cfg (memOf (crafted 0 0 0 4294967294 [] []) (fun _ => 0)) 48 = Some 4294967298) by (vm_compute; reflexivity). specialize (C V).
  lia.
Qed.
Print Assumptions C19_signature_check_inside_refuted.

(** ** The complaints iterator goes by the length of this replica's own signatures: when the generator's are of another length, an accepted message of
    a correct replica makes it run into an assertion. *)
Theorem C19_other_signature_length_refuted : ~ (forall c mem size, validate c mem size = true -> noOverrun mem size (sigLen c (vGen mem)) -> iterateComplaints mem size (sigLen c (me c)) <> None).
Proof.
  intros C. pose (d := mkCfg 0 (fun r => r <? 4) 0 (fun r => if r =? 0 then 2 else 4) (fun _ t s => bytesEqb s (sumSign t))).
  specialize (C d (memOf (build sumSign 0 [] 1 5 0 [] [repeat 255 28]) (fun _ => 0)) (N.of_nat (length (build sumSign 0 [] 1 5 0 [] [repeat 255 28])))). apply C.
  - vm_compute. reflexivity.
  - intros p Hp _. vm_compute in Hp. destruct Hp as [<-|[]]. vm_compute. discriminate.
  - vm_compute. reflexivity.
Qed.
Print Assumptions C19_other_signature_length_refuted.

(** * The hypotheses are met by a message with two elements - one with a certificate - and two complaints. *)
Definition sampleE : list element := [mkE 7 (repeat 9 32) 3 None; mkE 12 (repeat 8 32) 4 (Some (2, [1; 2; 3]))].
Definition sampleC : list bytes := [repeat 5 28; repeat 6 30].
Definition sample : bytes := build sumSign 0 [1; 2] 1 5 0 sampleE sampleC.
Example C19_sample_built : Forall (wfE 5) sampleE /\ risingE 0 300 sampleE /\ Forall wfC sampleC.
Proof.
  split; [|split].
  - repeat constructor; cbn; lia.
  - cbn. lia.
  - repeat constructor; cbn; lia.
Qed.
Example C19_sample : validate cfg (memOf sample (fun _ => 0)) (N.of_nat (length sample)) = true /\ iterateElements (memOf sample (fun _ => 0)) = Some [46; 95] /\
  iterateComplaints (memOf sample (fun _ => 0)) (N.of_nat (length sample)) 4 = Some [161; 193] /\ map (eSeq (memOf sample (fun _ => 0))) [46; 95] = [7%Z; 12%Z] /\
  noOverrun (memOf sample (fun _ => 0)) (N.of_nat (length sample)) 4.
Proof.
  split; [vm_compute; reflexivity|]. split; [vm_compute; reflexivity|]. split; [vm_compute; reflexivity|]. split; [vm_compute; reflexivity|].
  intros p Hp _. vm_compute in Hp. destruct Hp as [<-|[<-|[]]]; vm_compute; discriminate.
Qed.
