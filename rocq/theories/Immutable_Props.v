(** C14: property theorems. *)
From Coq Require Import List Arith NArith Lia Bool.
From Verif Require Import Lib_Bytes Keys_Model Keys_Proofs Lib_CF Versioned_Model Versioned_Proofs Immutable_Model Immutable_Proofs.
Import ListNotations.
Local Open Scope N_scope.

(** For every hash function and every history of added, pruned and reverted blocks in which no key is written while a block of the chain holds it:
    no operation fails; a key reads as the value (and block) of the block of the chain that wrote it, and as nothing if there is none; reading at
    a block returns what this block wrote; reads of many keys agree. *)
Theorem C14_reads_partial : forall (H : bytes -> bytes) os, iallAllowed isinit os ->
  exists c, irun H iinit os = Some c /\ let s := isrun isinit os in
    (forall k b d, igetLatest (ist c) k = Some (b, d) <-> exists tags, wrote s b k d tags) /\
    (forall k b b' d, iget (ist c) k b = Some (b', d) <-> b' = b /\ exists tags, wrote s b k d tags) /\
    (forall ks, imultiGetLatest (ist c) ks = map (igetLatest (ist c)) ks) /\
    (forall ks vs, length ks = length vs -> imultiGet (ist c) ks vs = Some (map (fun p => iget (ist c) (fst p) (snd p)) (combine ks vs))).
Proof.
  intros H os A. destruct (j_run H os isinit iinit (j_init H) A) as (c & R & I). exists c. split; auto. cbv zeta. split; [|split; [|split]].
  - intros k b d. apply (jVal _ _ _ I).
  - intros k b b' d. unfold iget, igetLatest. split.
    + destruct (cfGet (ist c) k) as [[b0 d0]|] eqn:E; [|discriminate]. destruct (N.eqb_spec b0 b); [|discriminate]. intros X. injection X as <- <-. subst. split; auto. apply (jVal _ _ _ I). auto.
    + intros [-> W]. apply (jVal _ _ _ I) in W. rewrite W, N.eqb_refl. auto.
  - auto.
  - intros ks vs E. unfold imultiGet. rewrite E, Nat.eqb_refl. reflexivity.
Qed.
Print Assumptions C14_reads_partial.
(** The root hash of a tag is the hash of the hashes of exactly the tagged key-values of the block, in key order; a tag that no key has, has none. *)
Theorem C14_tag_hashes : forall (H : bytes -> bytes) i, (forall u, In u (ikv i) -> NoDup (snd (snd u))) -> iwant i = true ->
  exists roots, tagRoots (iaddOut H i) = Some roots /\ forall t, cfGet roots t = if existsb (fun u => hasTag t (snd (snd u))) (ikv i) then Some (H (tagBytes H t (ikv i))) else None.
Proof.
  intros H i ND W. unfold iaddOut. cbn [tagRoots]. rewrite W. eexists. split; [reflexivity|]. intros t. rewrite map_snd_get. destruct (hashers_spec H (ikv i) ND) as [_ G]. rewrite G.
  destruct (existsb _ _); auto.
Qed.
Print Assumptions C14_tag_hashes.
(** Every tagged key-value of a block of the chain has a proof that evaluates to the root hash of the tag. *)
Theorem C14_tag_proofs_partial : forall (H : bytes -> bytes) os c b i tag key d tags, iallAllowed isinit os -> irun H iinit os = Some c ->
  In (b, i) (snd (isrun isinit os)) -> In (key, (d, tags)) (ikv i) -> In tag tags -> iwant i = true ->
  exists p out roots, iouts c b = Some out /\ igetProof H (ist c) tag key out = Some (Some p) /\ pfBlock p = b /\ pfKey p = key /\ pfValue p = d /\
    tagRoots out = Some roots /\ cfGet roots tag = Some (calculateRootHash H p) /\ calculateRootHash H p = H (tagBytes H tag (ikv i)).
Proof.
  intros H os c b i tag key d tags A R Ib Ik It W. destruct (j_run H os isinit iinit (j_init H) A) as (c' & R' & I). assert (c' = c) as -> by congruence.
  destruct (iproof_complete H _ c b i tag key d tags I Ib Ik It W) as (p & roots & P). exists p, (iaddOut H i), roots. auto.
Qed.
Print Assumptions C14_tag_proofs_partial.

Definition ik1 : bytes := [1]. Definition ik2 : bytes := [2]. Definition ik3 : bytes := [2; 7]. Definition tA : bytes := [65]. Definition tB : bytes := [66].
Definition ii1 := {| ikv := [(ik1, ([10], [tA; tB])); (ik2, ([20], [tA])); (ik3, ([30], [tB]))]; iwant := true |}.
Definition ii2 := {| ikv := [([9], ([90], [tA]))]; iwant := true |}.
Definition ii3 := {| ikv := [(ik1, ([11], [tA]))]; iwant := true |}.
Definition idemo := [IAdd ii1; IAdd ii2; IDelGenesis; IAdd ii3; IDelLast; IAdd ii3].
Example C14_hypotheses_met : iallAllowed isinit idemo /\ exists c, irun (fun x => x) iinit idemo = Some c /\ igetLatest (ist c) ik1 = Some (3, [11]) /\ igetLatest (ist c) ik2 = None.
Proof.
  split; [|eexists; split; [vm_compute; reflexivity|split; vm_compute; reflexivity]].
  cbn [iallAllowed idemo iallowed]. 
  assert (S1 : sorted (ikv ii1)) by (cbn; intuition; subst; reflexivity). assert (S2 : sorted (ikv ii2)) by (cbn; intuition). assert (S3 : sorted (ikv ii3)) by (cbn; intuition).
  split; [split; auto|split; [split; auto|split; [cbn; lia|split; [split; auto|split; [cbn; lia|split; [split; auto|auto]]]]]].
  - intros k d t I. split; [cbn in I; destruct I as [I|[I|[I|[]]]]; injection I as <- <- <-; repeat constructor; cbn; intuition discriminate|]. intros b d' t' (i & [] & _).
  - intros k d t I. split; [cbn in I; destruct I as [I|[]]; injection I as <- <- <-; repeat constructor; cbn; intuition discriminate|]. intros b d' t' (i & J & K). cbn in I, J. destruct I as [I|[]]. injection I as <- <- <-.
    destruct J as [J|[]]. injection J as <- <-. cbn in K. destruct K as [K|[K|[K|[]]]]; discriminate.
  - intros k d t I. split; [cbn in I; destruct I as [I|[]]; injection I as <- <- <-; repeat constructor; cbn; intuition discriminate|]. intros b d' t' (i & J & K). cbn in I, J. destruct I as [I|[]]. injection I as <- <- <-.
    destruct J as [J|[]]. injection J as <- <-. cbn in K. destruct K as [K|[]]; discriminate.
  - intros k d t I. split; [cbn in I; destruct I as [I|[]]; injection I as <- <- <-; repeat constructor; cbn; intuition discriminate|]. intros b d' t' (i & J & K). cbn in I, J. destruct I as [I|[]]. injection I as <- <- <-.
    destruct J as [J|[]]. injection J as <- <-. cbn in K. destruct K as [K|[]]; discriminate.
Qed.
Example C14_tag_proof_met : exists c p, irun (fun x => x) iinit [IAdd ii1] = Some c /\ iouts c 1 = Some (iaddOut (fun x => x) ii1) /\
  igetProof (fun x => x) (ist c) tA ik2 (iaddOut (fun x => x) ii1) = Some (Some p) /\ pfIndex p = 2%nat /\ pfHashes p = [ik1; [10]].
Proof. eexists. eexists. split; [vm_compute; reflexivity|]. split; [reflexivity|]. split; [vm_compute; reflexivity|]. split; reflexivity. Qed.

(** The code does not enforce that keys are written once. If a key is written again while an older block of the chain holds it, pruning the older
    block deletes the newer value, a revert of the newer block does not bring the older value back, and the older block cannot be read. *)
Theorem C14_rewrite_refuted : forall H, exists c1 c2 c3,
  irun H iinit [IAdd ii1; IAdd ii3; IAdd ii2] = Some c1 /\ igetLatest (ist c1) ik1 = Some (2, [11]) /\ iget (ist c1) ik1 1 = None /\
  istep H c1 IDelGenesis = Some c2 /\ igetLatest (ist c2) ik1 = None /\ igenesis c2 = 2 /\
  irun H iinit [IAdd ii1; IAdd ii3; IDelLast] = Some c3 /\ ilast c3 = 1 /\ igetLatest (ist c3) ik1 = None.
Proof. intros H. eexists. eexists. eexists. repeat split; vm_compute; reflexivity. Qed.
Print Assumptions C14_rewrite_refuted.
