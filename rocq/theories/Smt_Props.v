(** Property C12: the sparse Merkle tree. *)
From Coq Require Import List NArith Bool Arith Lia.
From Verif Require Import Smt_Model Smt_Proofs Smt_Proofs2 Smt_Proofs4 Smt_Proofs5 Smt_Proofs6 Smt_Proofs8 Smt_Proofs9 Smt_Spec.
Import ListNotations.

Section P.
Variable H : Type.
Variable hparent : H -> H -> H.
Variable ph : H.
Notation exec := (exec H hparent ph).
Notation treeUpdate := (treeUpdate H hparent ph).
Notation RootHash := (RootHash H hparent ph).
Notation contentOf := (contentOf H).
Notation Reach := (Reach H).
Notation LeafIn := (LeafIn H).

Lemma exec_inv os : Forall (okOp H) os -> exists st g m ver, exec os = Some (st, g) /\ stInv H hparent ph st m ver g /\ forall k, mval H m k = contentOf os k.
Proof.
  intros F. destruct (exec_ok H hparent ph os store0 [] [] (fun _ => 0%N) (fun _ => None) (stInv0 H hparent ph)) as (st & g & m & ver & E & I & M); auto.
  exists st, g, m, ver. auto.
Qed.

(** Whatever updates ran and whatever stale nodes were pruned meanwhile, no assertion fails, no node is missing, and the root hash
    is the canonical hash of the current content. *)
Theorem C12_root_hash_is_canonical : forall os, Forall (okOp H) os ->
  exists st g, exec os = Some (st, g) /\ RootHash (contentOf os) (rootHash H ph st).
Proof.
  intros os F. destruct (exec_inv os F) as (st & g & m & ver & E & I & M). exists st, g. split; auto.
  unfold rootHash. rewrite (nodeOk_hash H hparent ph m ver [] _ (sR _ _ _ _ _ _ _ I)) by auto.
  apply (root_ext H hparent ph (mval H m)); auto. apply root_thash. apply I.
Qed.

(** The root hash depends only on the content, not on the order, grouping, overwriting or deletion history. *)
Theorem C12_history_independent : forall os1 os2 st1 g1 st2 g2, Forall (okOp H) os1 -> Forall (okOp H) os2 ->
  exec os1 = Some (st1, g1) -> exec os2 = Some (st2, g2) -> (forall k, contentOf os1 k = contentOf os2 k) ->
  rootHash H ph st1 = rootHash H ph st2.
Proof.
  intros os1 os2 st1 g1 st2 g2 F1 F2 E1 E2 C.
  destruct (C12_root_hash_is_canonical os1 F1) as (s1 & h1 & X1 & R1). destruct (C12_root_hash_is_canonical os2 F2) as (s2 & h2 & X2 & R2).
  rewrite E1 in X1. injection X1 as <- <-. rewrite E2 in X2. injection X2 as <- <-.
  eapply root_det; [exact R2|]. eapply root_ext; eauto.
Qed.

(** The leaves a reader of the latest root reaches are exactly the content, one leaf per key. *)
Theorem C12_leaves_are_the_content : forall os st g, Forall (okOp H) os -> exec os = Some (st, g) ->
  (forall k h, contentOf os k = Some h <-> exists l, LeafIn st l /\ lkey l = k /\ lhash l = h) /\
  (forall l1 l2, LeafIn st l1 -> LeafIn st l2 -> lkey l1 = lkey l2 -> l1 = l2).
Proof.
  intros os st g F E. destruct (exec_inv os F) as (s & g' & m & ver & E' & I & M). rewrite E in E'. injection E' as <- <-.
  pose proof (sW _ _ _ _ _ _ _ I) as W. split.
  - intros k h. rewrite <- M, mval_in by auto. split; intros (l & A & B & C); exists l; split; auto; eapply leaf_iff; eauto.
  - intros l1 l2 A B C. apply (wf_inj H m); auto; eapply leaf_iff; eauto.
Qed.

(** The latest tree is complete in the database and contains no node that was reported stale. *)
Theorem C12_latest_tree_is_stored : forall os st g, Forall (okOp H) os -> exec os = Some (st, g) ->
  forall v p, Reach st v p -> nodeAt H st v p <> None /\ st_db st v p = nodeAt H st v p /\ ~ In (v, p) g.
Proof.
  intros os st g F E v p R. destruct (exec_inv os F) as (s & g' & m & ver & E' & I & M). rewrite E in E'. injection E' as <- <-.
  rewrite (reach_iff _ _ _ _ _ _ _ I) in R. destruct R as (PQ & EV & NZ). rewrite EV in *. clear EV v.
  destruct (nodeAt_ok _ _ _ _ _ _ _ I p PQ) as (c & EN & OK). split; [congruence|]. split.
  - destruct p as [|b p']; [|reflexivity]. cbn. apply (sD _ _ _ _ _ _ _ I). auto.
  - intros X. apply (sG _ _ _ _ _ _ _ I) in X as [_ X]. specialize (X PQ). lia.
Qed.

(** An update reports exactly the nodes and leaves that leave the tree: every stale node was reachable before, what is reachable
    afterwards is what was reachable before, without the stale nodes, plus the nodes written by this update, and what is written
    is new. *)
Theorem C12_stale_nodes_are_exact : forall os st g puts dels, Forall (okOp H) os -> okOp H (Upd puts dels) -> exec os = Some (st, g) ->
  exists st' u, treeUpdate st puts dels = Some (st', u) /\
    (forall v p, In (v, p) (uc_stale_int u) -> Reach st v p) /\
    (forall v p, Reach st' v p <-> (Reach st v p /\ ~ In (v, p) (uc_stale_int u)) \/ (v = uc_version u /\ plookup p (uc_nodes u) <> None)) /\
    (forall v p, Reach st v p -> (v < uc_version u)%N).
Proof.
  intros os st g puts dels F [F1 F2] E. destruct (exec_inv os F) as (s & g' & m & ver & E' & I & M). rewrite E in E'. injection E' as <- <-.
  destruct (upd_ok H hparent ph st m ver g puts dels I F1 F2) as (st' & u & ver' & ET & UV & I' & U & _ & _).
  exists st', u. split; auto. destruct U as [W' _ _ NV C S0].
  split; [|split].
  - intros v p X. apply S0 in X as (X1 & X2 & X3 & _). apply (reach_iff _ _ _ _ _ _ _ I). auto.
  - intros v p. rewrite (reach_iff _ _ _ _ _ _ _ I'), (reach_iff _ _ _ _ _ _ _ I), C, S0, UV. split.
    + intros (PQ & -> & NZ). destruct (N.eq_dec (ver' p) (ver [] + 1)) as [X|X]; [right; auto|left].
      destruct (NV p PQ) as [Y|[Y1 Y2]]; [congruence|]. rewrite Y2 in *. split; auto. intros (_ & _ & _ & [Z|Z]); [auto|].
      pose proof (sM _ _ _ _ _ _ _ I p Y1). lia.
    + intros [[(PQ & -> & NZ) NS]|(-> & PQ & EV)].
      * destruct (pos_dec H (putAll H (ver [] + 1) puts (delAll H dels m)) p) as [PQ'|NP].
        -- destruct (NV p PQ') as [Y|[Y1 Y2]]; [exfalso; apply NS; auto|]. auto.
        -- exfalso. apply NS. auto.
      * repeat split; auto; [apply PQ|apply PQ|lia].
  - intros v p X. rewrite (reach_iff _ _ _ _ _ _ _ I) in X. destruct X as (PQ & EV & _). rewrite EV. rewrite UV. pose proof (sM _ _ _ _ _ _ _ I p PQ). lia.
Qed.

Theorem C12_stale_leaves_are_exact_partial : forall os st g puts dels, Forall (okOp H) os -> okOp H (Upd puts dels) -> NoDup (map fst puts) ->
  exec os = Some (st, g) ->
  exists st' u, treeUpdate st puts dels = Some (st', u) /\
    forall k v, In (k, v) (uc_stale_leaf u) <-> exists l, LeafIn st l /\ lkey l = k /\ lver l = v /\ ~ LeafIn st' l.
Proof.
  intros os st g puts dels F [F1 F2] ND E. destruct (exec_inv os F) as (s & g' & m & ver & E' & I & M). rewrite E in E'. injection E' as <- <-.
  destruct (upd_ok H hparent ph st m ver g puts dels I F1 F2) as (st' & u & ver' & ET & UV & I' & U & LI & _).
  exists st', u. split; auto. intros k v. rewrite (LI ND k v).
  split; intros (l & A & B & C & D); exists l; (split; [eapply leaf_iff; eauto|]; split; auto; split; auto; intros X; apply D; eapply leaf_iff; eauto).
Qed.

(** The version grows by one when the batch changes something, and not otherwise. *)
Theorem C12_version : forall os st g puts dels st' u, Forall (okOp H) os -> okOp H (Upd puts dels) -> exec os = Some (st, g) ->
  treeUpdate st puts dels = Some (st', u) ->
  exists v, rootVersion st = Some v /\ uc_version u = (v + 1)%N /\
    ((puts <> [] \/ exists k, In k dels /\ contentOf os k <> None) -> rootVersion st' = Some (v + 1)%N) /\
    (puts = [] -> (forall k, In k dels -> contentOf os k = None) -> rootVersion st' = Some v /\ rootHash H ph st' = rootHash H ph st).
Proof.
  intros os st g puts dels st' u F [F1 F2] E ET. destruct (exec_inv os F) as (s & g' & m & ver & E' & I & M). rewrite E in E'. injection E' as <- <-.
  destruct (upd_ok H hparent ph st m ver g puts dels I F1 F2) as (st2 & u2 & ver' & ET2 & UV & I' & U & _ & T).
  rewrite ET in ET2. injection ET2 as <- <-. exists (ver []).
  assert (R : rootVersion st = Some (ver [])) by (apply (nodeOk_version H hparent ph m ver); [apply I|auto]).
  assert (R' : rootVersion st' = Some (ver' [])) by (eapply (nodeOk_version H hparent ph _ ver'); [apply I'|auto]).
  split; auto. split; auto. rewrite R'.
  assert (EX : Exists (fun k => In k (map lkey m)) dels <-> exists k, In k dels /\ contentOf os k <> None).
  { rewrite Exists_exists. split; intros (k & A & B); exists k; split; auto.
    - rewrite <- M. intros X. apply mval_none in X. tauto.
    - rewrite <- M in B. destruct (in_dec bits_dec k (map lkey m)) as [X|X]; auto. exfalso. apply B. now apply mval_none. }
  split.
  - intros X. destruct T as [[T _]|(_ & T1 & T2 & _)]; [congruence|]. exfalso. rewrite EX in T2. destruct X as [X|X]; auto.
  - intros X1 X2. assert (NE : ~ Exists (fun k => In k (map lkey m)) dels).
    { intros X. apply EX in X as (k & A & B). apply B. auto. }
    destruct T as [[_ [T|T]]|(T1 & T2 & T3 & T4)]; [elim (T X1)|elim (NE T)|]. rewrite T1. split; auto.
    unfold rootHash. rewrite (nodeOk_hash H hparent ph _ ver' [] _ (sR _ _ _ _ _ _ _ I')) by auto.
    rewrite (nodeOk_hash H hparent ph m ver [] _ (sR _ _ _ _ _ _ _ I)) by auto. now rewrite T4.
Qed.

(** Every node of every earlier version stays readable and unchanged until it is pruned as stale. *)
Theorem C12_old_versions_stay_readable : forall os1 os2 st1 g1 st2 g2 v p c, Forall (okOp H) (os1 ++ os2) ->
  exec os1 = Some (st1, g1) -> exec (os1 ++ os2) = Some (st2, g2) -> Reach st1 v p -> nodeAt H st1 v p = Some c ->
  st_db st2 v p = Some c \/ In (v, p) g2.
Proof.
  intros os1 os2 st1 g1 st2 g2 v p c F E1 E2 R EN.
  apply Forall_app in F as [F1 F2]. pose proof (C12_latest_tree_is_stored os1 st1 g1 F1 E1 v p R) as (_ & ED & _). rewrite EN in ED.
  destruct (exec_inv os1 F1) as (s & g' & m & ver & E' & I & M). rewrite E1 in E'. injection E' as <- <-.
  rewrite (reach_iff _ _ _ _ _ _ _ I) in R. destruct R as (PQ & EV & NZ). rewrite EV in *. clear EV v. pose proof (sM _ _ _ _ _ _ _ I p PQ) as LE.
  assert (A : foldOpt (exec1 H hparent ph) (st1, g1) os2 = Some (st2, g2)).
  { unfold Smt_Spec.exec in *. clear - E1 E2. revert E1 E2. generalize (@store0 H, @nil (N * bits)) as a. induction os1 as [|o os IH]; intros a E1 E2; cbn in *.
    - congruence.
    - destruct (exec1 H hparent ph a o); [|discriminate]. eauto. }
  assert (X : st_db st1 (ver p) p = Some c \/ In (ver p, p) g1) by auto.
  clear E1 E2 EN ED. revert X A I LE F2. generalize (ver p) as x. clear PQ NZ M. intros x. revert st1 g1 m ver.
  induction os2 as [|o os2 IH]; intros st1 g1 m ver X A I LE F2; cbn in A.
  - injection A as <- <-. auto.
  - inversion F2 as [|? ? Fo F2']; subst. destruct o as [puts dels|sel]; cbn in A.
    + destruct Fo as [P1 P2]. destruct (upd_ok H hparent ph st1 m ver g1 puts dels I P1 P2) as (st' & u & ver' & ET & UV & I' & U & _ & _).
      rewrite ET in A. eapply (IH st'); [|exact A|exact I'| |auto].
      * destruct X as [X|X]; [left|right; apply in_app_iff; auto].
        assert (EW : st' = writeBatch st1 u).
        { unfold Smt_Model.treeUpdate in ET. destruct (newCache st1); [|discriminate]. destruct (updateImpl _ _ _ _ _ _ _); congruence. }
        rewrite EW. unfold writeBatch. cbn [st_db]. rewrite UV. destruct (N.eqb_spec x (ver [] + 1)); [lia|auto].
      * destruct U as [_ _ _ NV _ _]. destruct (NV [] (pos_nil H _)) as [Y|[_ Y]]; rewrite Y; lia.
    + eapply (IH _ g1 m ver); [|exact A|apply prune_ok; auto|auto|auto].
      destruct X as [X|X]; auto. cbn [st_db]. unfold pruneDb. destruct (inGarbage g1 x p) eqn:G; [right; now apply inGarbage_spec|left; auto].
Qed.

(** If the hash function has no collisions on pairs, the root hash fixes the value of every key, once the set of keys is known. *)
Theorem C12_root_hash_binds_values_partial : forall os1 os2 st1 g1 st2 g2, Forall (okOp H) os1 -> Forall (okOp H) os2 ->
  (forall a b a' b', hparent a b = hparent a' b' -> a = a' /\ b = b') ->
  exec os1 = Some (st1, g1) -> exec os2 = Some (st2, g2) ->
  (forall k, contentOf os1 k <> None <-> contentOf os2 k <> None) ->
  rootHash H ph st1 = rootHash H ph st2 -> forall k, contentOf os1 k = contentOf os2 k.
Proof.
  intros os1 os2 st1 g1 st2 g2 F1 F2 INJ E1 E2 DOM EH k.
  destruct (C12_root_hash_is_canonical os1 F1) as (s1 & h1 & X1 & R1). destruct (C12_root_hash_is_canonical os2 F2) as (s2 & h2 & X2 & R2).
  rewrite E1 in X1. injection X1 as <- <-. rewrite E2 in X2. injection X2 as <- <-. rewrite <- EH in R2.
  destruct (exec_inv os1 F1) as (s & g' & m & ver & E' & I & M).
  assert (LEN : forall k, contentOf os1 k <> None -> length k = KL).
  { intros k' X. rewrite <- M in X. destruct (mval H m k') as [h|] eqn:V; [|congruence].
    apply mval_in in V as (l & V1 & <- & _); [|apply I]. apply (wf_len H m); [apply I|auto]. }
  destruct R1 as [[A B]|(k1 & a & b & A & B & C & D)].
  { rewrite A. destruct (contentOf os2 k) eqn:X; auto. exfalso. apply (proj2 (DOM k)); [congruence|]. apply A. }
  destruct R2 as [[A' B']|(k1' & a' & b' & A' & B' & C' & D')].
  { exfalso. apply (proj1 (DOM k1)); auto. }
  rewrite D in D'. apply INJ in D' as [<- <-].
  destruct (contentOf os1 k) as [h|] eqn:X.
  - rewrite <- X. assert (Lk : length k = KL) by (apply LEN; congruence). destruct k as [|bb k']; [discriminate|].
    destruct bb; [eapply (sub_bind H hparent ph (contentOf os1) (contentOf os2) INJ DOM LEN [true] b)|
                  eapply (sub_bind H hparent ph (contentOf os1) (contentOf os2) INJ DOM LEN [false] a)]; auto; exists k'; reflexivity.
  - destruct (contentOf os2 k) eqn:Y; auto. exfalso. apply (proj2 (DOM k)); congruence.
Qed.

(** But it does not fix the keys: a leaf hashes to its value hash alone, and chains with one key are cut short, so different
    contents have the same root hash for every hash function. *)
Definition kA : bits := false :: false :: repeat false 254.
Definition kB : bits := false :: true :: repeat false 254.
Theorem C12_keys_not_bound_refuted : forall h, exists os1 os2 st1 g1 st2 g2, Forall (okOp H) os1 /\ Forall (okOp H) os2 /\
  exec os1 = Some (st1, g1) /\ exec os2 = Some (st2, g2) /\ rootHash H ph st1 = rootHash H ph st2 /\
  contentOf os1 kA = Some h /\ contentOf os2 kA = None.
Proof.
  intros h. exists [Upd [(kA, h)] []], [Upd [(kB, h)] []].
  assert (F1 : Forall (okOp H) [Upd [(kA, h)] []]) by (repeat constructor).
  assert (F2 : Forall (okOp H) [Upd [(kB, h)] []]) by (repeat constructor).
  destruct (C12_root_hash_is_canonical _ F1) as (s1 & g1 & X1 & R1). destruct (C12_root_hash_is_canonical _ F2) as (s2 & g2 & X2 & R2).
  exists s1, g1, s2, g2. repeat (split; [assumption|]). split; [|split; reflexivity].
  assert (G : forall k, length k = 256 -> prefixOf [false] k -> RootHash (contentOf [Upd [(k, h)] []]) (hparent h ph)).
  { intros k Lk P. right. exists k, h, ph. cbn. unfold batch, put1. cbn. rewrite bits_eqb_refl. split; [discriminate|].
    split; [|split; auto].
    - apply (SubOne H hparent ph _ [false] k); auto. + now rewrite bits_eqb_refl.
      + intros k' P' X. destruct (bits_eqb k k') eqn:E; [|congruence]. symmetry. now apply bits_eqb_spec.
    - apply SubEmpty. intros k' [r ->]. cbn [app]. destruct (bits_eqb k (true :: r)) eqn:E; auto. apply bits_eqb_spec in E. destruct P as [r' P]. subst k. cbn [app] in E. discriminate. }
  assert (A : hparent h ph = rootHash H ph s1) by (eapply root_det; [exact R1|]; apply G; [reflexivity|eexists; reflexivity]).
  assert (B : hparent h ph = rootHash H ph s2) by (eapply root_det; [exact R2|]; apply G; [reflexivity|eexists; reflexivity]).
  congruence.
Qed.
End P.
Print Assumptions C12_root_hash_is_canonical.
Print Assumptions C12_history_independent.
Print Assumptions C12_leaves_are_the_content.
Print Assumptions C12_latest_tree_is_stored.
Print Assumptions C12_stale_nodes_are_exact.
Print Assumptions C12_stale_leaves_are_exact_partial.
Print Assumptions C12_version.
Print Assumptions C12_old_versions_stay_readable.
Print Assumptions C12_root_hash_binds_values_partial.
Print Assumptions C12_keys_not_bound_refuted.

(** * A concrete execution that meets the hypotheses: with a toy hash that shows its arguments *)
Inductive th := Ph | Vh (n : nat) | Par (a b : th).
Definition k0 : bits := repeat false 256.
Definition k1 : bits := repeat false 200 ++ repeat true 56.    (* shares 200 bits with k0: a chain of batched nodes *)
Definition k2 : bits := true :: repeat false 255.
Definition demo : list (op th) :=
  [Upd [(k0, Vh 0); (k1, Vh 1); (k2, Vh 2)] []; Upd [(k2, Vh 3)] [k1; k1]; Prune (fun _ _ => true); Upd [(k1, Vh 4)] [k0]; Upd [] [k1; k2]].
Example demo_ok : Forall (okOp th) demo.
Proof. repeat (constructor; [repeat constructor|]). constructor. Qed.
Definition look (n : nat) := match exec th Par Ph (firstn n demo) with Some (st, g) => Some (rootHash th Ph st, rootVersion st, length g) | None => None end.
Example demo_1 : match look 1 with Some (Par _ (Vh 2), Some 1%N, 0) => True | _ => False end.
Proof. vm_compute. exact I. Qed.
(* k1 is deleted: 50 nodes below the root disappear and the root is replaced *)
Example demo_2 : look 2 = Some (Par (Vh 0) (Vh 3), Some 2%N, 51).
Proof. vm_compute. reflexivity. Qed.
Example demo_4 : look 4 = Some (Par (Vh 4) (Vh 3), Some 3%N, 52).
Proof. vm_compute. reflexivity. Qed.
Example demo_5 : look 5 = Some (Ph, Some 4%N, 53).
Proof. vm_compute. reflexivity. Qed.
(** the stale leaves of the second update *)
Example demo_stale : (match exec th Par Ph (firstn 1 demo) with
   | Some (st, _) => match treeUpdate th Par Ph st [(k2, Vh 3)] [k1; k1] with Some (_, u) => uc_stale_leaf u | None => [] end
   | None => [] end) = [(k2, 1%N); (k1, 1%N)].
Proof. vm_compute. reflexivity. Qed.

(** With a key put twice in one batch the leaf that was just written is reported as stale. *)
Theorem C12_duplicate_put_refuted : exists st u l, treeUpdate th Par Ph store0 [(k0, Vh 0); (k0, Vh 1)] [] = Some (st, u) /\
  LeafIn th st l /\ In (lkey l, lver l) (uc_stale_leaf u).
Proof.
  assert (F : Forall (okOp th) [Upd [(k0, Vh 0); (k0, Vh 1)] []]) by (repeat constructor).
  destruct (exec_inv th Par Ph _ F) as (st & g & m & ver & E & I & M).
  destruct (C12_leaves_are_the_content th Par Ph _ st g F E) as [L _].
  assert (C : contentOf th [Upd [(k0, Vh 0); (k0, Vh 1)] []] k0 = Some (Vh 1)) by (vm_compute; reflexivity).
  apply L in C as (l & Li & Lk & Lh).
  cbn [exec Smt_Spec.exec foldOpt] in E. unfold Smt_Spec.exec, exec1 in E. cbn [foldOpt] in E.
  destruct (Smt_Model.treeUpdate th Par Ph store0 [(k0, Vh 0); (k0, Vh 1)] []) as [[st' u]|] eqn:T; [|discriminate].
  injection E as -> _. exists st, u, l. split; auto. split; auto.
  assert (V : lver l = 1%N).
  { apply (leaf_iff _ _ _ _ _ _ _ I) in Li. destruct (sL _ _ _ _ _ _ _ I l Li) as [V1 V2].
    assert (R : rootVersion st = Some (ver [])) by (apply (nodeOk_version th Par Ph m ver); [apply I|auto]).
    assert (R1 : option_map (fun x => rootVersion (fst x)) (Smt_Model.treeUpdate th Par Ph store0 [(k0, Vh 0); (k0, Vh 1)] []) = Some (Some 1%N)) by (vm_compute; reflexivity).
    rewrite T in R1. cbn in R1. rewrite R in R1. injection R1 as R1. lia. }
  rewrite Lk, V.
  assert (S1 : option_map (fun x => uc_stale_leaf (snd x)) (Smt_Model.treeUpdate th Par Ph store0 [(k0, Vh 0); (k0, Vh 1)] []) = Some [(k0, 1%N)]) by (vm_compute; reflexivity).
  rewrite T in S1. cbn in S1. injection S1 as ->. left. reflexivity.
Qed.
Print Assumptions C12_duplicate_put_refuted.

(** Tree::empty() answers false after the last key was removed (the root is then an internal child with the placeholder hash). *)
Theorem C12_empty_tree_refuted : exists os st g, Forall (okOp th) os /\ exec th Par Ph os = Some (st, g) /\
  (forall k, contentOf th os k = None) /\ rootHash th Ph st = Ph /\ treeEmpty st = false.
Proof.
  set (os := [Upd [(k0, Vh 0)] []; Upd [] [k0]]).
  assert (F : Forall (okOp th) os) by (unfold os; repeat (constructor; [repeat constructor|]); constructor).
  destruct (C12_root_hash_is_canonical th Par Ph os F) as (st & g & E & R). exists os, st, g. split; auto. split; auto.
  assert (X : option_map (fun x => (rootHash th Ph (fst x), treeEmpty (fst x))) (exec th Par Ph os) = Some (Ph, false)) by (vm_compute; reflexivity).
  rewrite E in X. cbn [option_map fst] in X. injection X as X1 X2. split; [|split; [exact X1|exact X2]].
  intros k. unfold os, contentOf, batch. cbn [fold_left]. unfold del1, put1. cbn [fst]. destruct (bits_eqb k0 k); reflexivity.
Qed.
Print Assumptions C12_empty_tree_refuted.
