(** C32: reserved pages and their transfer. H is the digest function, np the number of pages, psz their size: arbitrary. *)
From Coq Require Import List Arith NArith Bool Lia.
From Verif Require Import Lib_Bytes StPages_Model StPages_Proofs StPages_Proofs2 StPages_Proofs3.
Import ListNotations.
Local Open Scope N_scope.

(** Whatever is saved, zeroed, checkpointed and cleaned up, in any order: no assertion fails, and loading a page returns the prefix asked for of
    what was saved to it last (padded with zeros), or nothing if nothing was. *)
Theorem C32_load_returns_last_saved H np psz ops : okOps np psz 0 ops ->
  exists s, prun H np psz (mkSt [] [] 0) ops = Some s /\ storeOk H np psz (pages s) (last s) /\
  forall p k, load s p k = option_map (firstn k) (lastSaved psz p None ops).
Proof.
  intros O. destruct (prun_inv H np psz ops (mkSt [] [] 0) (inv0 H np psz) O) as (s & E & I & V). exists s. split; auto. split; [apply I|]. intros p k. rewrite (load_view H np psz s p k I), V. reflexivity.
Qed.
Print Assumptions C32_load_returns_last_saved.

(** Cleaning up below checkpoint m does not change any page as of a checkpoint from m on. *)
Theorem C32_cleanup_keeps H np psz l c m p c' : storeOk H np psz l c -> m <= c' -> pageAt (deleteCovered m l) p c' = pageAt l p c'.
Proof. intros (SO & _) M. unfold pageAt. rewrite !getRes_F by auto using covered_sorted. rewrite covered_F by auto. reflexivity. Qed.
Print Assumptions C32_cleanup_keeps.

Section T.
Variable H : bytes -> bytes.
Variables (np psz : nat).
Hypothesis NP : N.of_nat np < 256 ^ 4.
Hypothesis H32 : forall x, length (H x) = 32%nat.
(** S: the store of a correct replica, with a descriptor dS at checkpoint [target], whose digest is the one f+1 replicas reported (C22).
    D: the store of the fetching replica, whose last checkpoint is L. vb: any bytes sent by any source. No collisions among the strings
    hashed in this transfer: both descriptors and all page contents. *)
Variables (S D : list ent) (cS L target : N) (vb : bytes) (dS : list dent).
Hypothesis OS : storeOk H np psz S cS.
Hypothesis OD : storeOk H np psz D L.
Hypothesis LT : L <= target.
Hypothesis TB : target < 256 ^ 8.
Hypothesis VB : Forall isByte vb.
Hypothesis DS : descriptor np S target = Some dS.
Hypothesis NC : forall dL dD, descriptor np D L = Some dL -> overlay H L (elements psz vb) dL = inl dD ->
  noCollision H ([encDesc np dS; encDesc np dD] ++ map (fun e => pagePre (pid e) (ckp e) (content e)) (S ++ D ++ elements psz vb)).

Lemma dS_F : dS = descF np S target.
Proof. rewrite (descriptor_F np S target (proj1 OS) (storeOk_pid H np psz S cS OS)) in DS. congruence. Qed.
Lemma NC' : hdrKnown vb = L -> forall dD, overlay H (hdrKnown vb) (elements psz vb) (descF np D (hdrKnown vb)) = inl dD -> noCollision H (hashedIn np psz S D L target vb (descF np S target) dD).
Proof. intros EL dD OV. rewrite EL in OV. unfold hashedIn. rewrite <- dS_F. apply (NC (descF np D L) dD); auto. apply (descriptor_F np D L (proj1 OD) (storeOk_pid H np psz D L OD)). Qed.
Lemma known_L : checkVB H np psz D L (H (encDesc np dS)) vb = Accept -> hdrKnown vb = L.
Proof. unfold checkVB. destruct (checkStructure psz vb); [|discriminate]. simpl. destruct (N.eqb_spec L (hdrKnown vb)); [auto|discriminate]. Qed.

(** If the bytes are accepted and applied, then every page read at the target checkpoint is the correct replica's. *)
Theorem C32_accepted_pages_correct D' : checkVB H np psz D L (H (encDesc np dS)) vb = Accept -> applyVB psz D L target vb = Some D' ->
  forall p, p < N.of_nat np -> pageAt D' p target = pageAt S p target.
Proof.
  intros AC AP p P. pose proof (NC' (known_L AC)) as N1. rewrite dS_F in AC.
  assert (SO : sortedE D') by (eapply apply_sorted; [apply OD|exact AP]).
  destruct (applied_pages H np psz (N.lt_le_incl _ _ NP) H32 S D cS L target vb OS OD LT TB VB N1 AC D' AP p P) as [Q _]. unfold pageAt. rewrite !getRes_F by (auto; apply OS). destruct (F D' p target), (F S p target); simpl in Q; congruence.
Qed.
(** If the target is newer than the last checkpoint, the store is consistent again and has the attested descriptor, so the checkpoint digest
    the replica reports from then on is the agreed one. *)
Theorem C32_accepted_descriptor D' : L < target -> checkVB H np psz D L (H (encDesc np dS)) vb = Accept -> applyVB psz D L target vb = Some D' ->
  storeOk H np psz D' target /\ descriptor np D' target = Some dS.
Proof.
  intros LL AC AP. pose proof (NC' (known_L AC)) as N1. rewrite dS_F in *. 
  apply (applied_store H np psz (N.lt_le_incl _ _ NP) H32 S D cS L target vb OS OD LT TB VB N1 AC D' AP LL).
Qed.
End T.
Print Assumptions C32_accepted_pages_correct.
Print Assumptions C32_accepted_descriptor.

(** The block a correct source makes is accepted and can be applied, by a replica that agrees with the source on the pages not changed since
    its last checkpoint. *)
Theorem C32_correct_source_accepted H np psz S D cS L target dS : N.of_nat np < 256 ^ 4 -> (forall x, length (H x) = 32%nat) -> (forall x, isZero (H x) = false) ->
  storeOk H np psz S cS -> storeOk H np psz D L -> L <= target -> target < 256 ^ 8 -> descriptor np S target = Some dS ->
  (forall p, match getRes S p target with
     | Some x => ckp x <= L -> exists y, getRes D p L = Some y /\ ckp y = ckp x /\ dg y = dg x
     | None => getRes D p L = None end) ->
  exists vb D', createVBlock np S target L = Some vb /\ checkVB H np psz D L (H (encDesc np dS)) vb = Accept /\ applyVB psz D L target vb = Some D'.
Proof.
  intros NP H32 HZ OS OD LT TB DS AG. rewrite (descriptor_F np S target (proj1 OS) (storeOk_pid H np psz S cS OS)) in DS. inversion DS; subst dS.
  assert (AG' : forall p, match F S p target with Some x => ckp x <= L -> exists y, F D p L = Some y /\ ckp y = ckp x /\ dg y = dg x | None => F D p L = None end).
  { intros p. specialize (AG p). rewrite !getRes_F in AG by (apply OS || apply OD). auto. }
  destruct (source_accepted H np psz NP H32 HZ S D cS L target OS OD LT TB AG') as (vb & A & B & (D' & C) & _). exists vb, D'. auto.
Qed.
Print Assumptions C32_correct_source_accepted.

(** * Witnesses *)
Definition hx (x : bytes) : bytes := 1 :: le 31 (fold_left (fun a b => a * 257 + b + 1) x 7).
Lemma hx32 x : length (hx x) = 32%nat. Proof. unfold hx. simpl length. reflexivity. Qed.
Lemma hxz x : isZero (hx x) = false. Proof. reflexivity. Qed.
Definition mk (p c : N) (x : bytes) : ent := mkEnt p c (hx (pagePre p c x)) x.
Definition exOps := [Save 0 [5; 6]; Save 1 [7]; Checkpoint 1 0; Save 1 [8; 9]; Zero 2; Checkpoint 4 4; Save 0 [4]].
Example C32_witness_local : okOps 3 2 0 exOps /\ exists s, prun hx 3 2 (mkSt [] [] 0) exOps = Some s /\ load s 0 2 = Some [4; 0] /\ load s 1 2 = Some [8; 9] /\ load s 2 1 = Some [0] /\ pageAt (pages s) 0 4 = Some [5; 6] /\ length (pages s) = 3%nat.
Proof. split; [vm_compute; repeat split; auto; discriminate|]. eexists. split; [vm_compute; reflexivity|]. vm_compute. repeat split. Qed.
Definition exS := [mk 0 1 [5; 6]; mk 1 4 [8; 9]; mk 1 1 [7; 0]; mk 2 4 [0; 0]].
Definition exD := [mk 0 1 [5; 6]; mk 1 1 [7; 0]].
Ltac store := split; [repeat (constructor; [intros y Iy; simpl in Iy; unfold keyLt; repeat (destruct Iy as [<-|Iy]; [vm_compute; intuition discriminate|]); destruct Iy|]); constructor
  |intros e Ie; simpl in Ie; repeat (destruct Ie as [<-|Ie]; [vm_compute; repeat split; congruence|]); destruct Ie].
Lemma exS_ok : storeOk hx 3 2 exS 4. Proof. store. Qed.
Lemma exD_ok : storeOk hx 3 2 exD 1. Proof. store. Qed.
Example C32_witness_transfer : exists dS vb D', descriptor 3 exS 4 = Some dS /\ createVBlock 3 exS 4 1 = Some vb /\ checkVB hx 3 2 exD 1 (hx (encDesc 3 dS)) vb = Accept /\
  applyVB 2 exD 1 4 vb = Some D' /\ D' = exS /\ Forall isByte vb /\
  (forall dL dD, descriptor 3 exD 1 = Some dL -> overlay hx 1 (elements 2 vb) dL = inl dD ->
     noCollision hx ([encDesc 3 dS; encDesc 3 dD] ++ map (fun e => pagePre (pid e) (ckp e) (content e)) (exS ++ exD ++ elements 2 vb))).
Proof.
  eexists. eexists. eexists. split; [vm_compute; reflexivity|]. split; [vm_compute; reflexivity|]. split; [vm_compute; reflexivity|]. split; [vm_compute; reflexivity|]. split; [vm_compute; reflexivity|]. split.
  - apply Forall_forall. intros x I. apply N.ltb_lt. revert x I. apply forallb_forall. vm_compute. reflexivity.
  - intros dL dD A B. vm_compute in A. inversion A; subst dL. clear A. vm_compute in B. inversion B; subst dD; clear B.
    assert (G : forall l, forallb (fun a => forallb (fun b => (if list_eq_dec N.eq_dec a b then true else false) || negb (if list_eq_dec N.eq_dec (hx a) (hx b) then true else false)) l) l = true -> noCollision hx l).
    { clear. intros l Q a b Ia Ib E. rewrite forallb_forall in Q. specialize (Q a Ia). rewrite forallb_forall in Q. specialize (Q b Ib). destruct (list_eq_dec N.eq_dec a b); auto. destruct (list_eq_dec N.eq_dec (hx a) (hx b)); [discriminate|contradiction]. }
    apply G. vm_compute. reflexivity.
Qed.

(** * Refuted *)
(** Page ids are not compared with the number of pages: the check itself writes outside the descriptor, whatever digest is expected. *)
Theorem C32_page_id_unchecked_refuted : exists vb, Forall isByte vb /\ forall expected, checkVB hx 3 2 exD 1 expected vb = Outside.
Proof.
  exists (mkVB [mk 1000 1 [1; 1]] 1). split; [|intros; vm_compute; reflexivity]. apply Forall_forall. intros x I. apply N.ltb_lt. revert x I. apply forallb_forall. vm_compute. reflexivity.
Qed.
Print Assumptions C32_page_id_unchecked_refuted.
(** The structure check allows elements of the checkpoint the destination already has; such an unchanged page passes the check and then fails
    the assertion that it is new. *)
Theorem C32_redundant_page_abort_refuted : exists vb dS, descriptor 3 exS 4 = Some dS /\ checkVB hx 3 2 exD 1 (hx (encDesc 3 dS)) vb = Accept /\ applyVB 2 exD 1 4 vb = None.
Proof. exists (mkVB [mk 0 1 [5; 6]; mk 1 4 [8; 9]; mk 2 4 [0; 0]] 1). eexists. split; [vm_compute; reflexivity|]. split; vm_compute; reflexivity. Qed.
Print Assumptions C32_redundant_page_abort_refuted.
(** Re-fetching the last stored checkpoint over a diverged page replaces its content and keeps the old digest: the descriptor stays wrong. *)
Theorem C32_refetch_keeps_digest_refuted : exists D vb dS D', storeOk hx 3 2 D 1 /\ descriptor 3 exD 1 = Some dS /\ checkVB hx 3 2 D 1 (hx (encDesc 3 dS)) vb = Accept /\
  applyVB 2 D 1 1 vb = Some D' /\ pageAt D' 0 1 = pageAt exD 0 1 /\ descriptor 3 D' 1 <> Some dS.
Proof.
  exists [mk 0 1 [66; 66]; mk 1 1 [7; 0]], (mkVB [mk 0 1 [5; 6]] 1). eexists. eexists. split; [store|]. split; [vm_compute; reflexivity|]. split; [vm_compute; reflexivity|]. split; [vm_compute; reflexivity|]. split; [vm_compute; reflexivity|]. vm_compute. discriminate.
Qed.
Print Assumptions C32_refetch_keeps_digest_refuted.
