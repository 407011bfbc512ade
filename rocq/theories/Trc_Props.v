(** C35: the thin-replica client hands over the updates of the chain, in order, with up to f faulty servers. *)
From Coq Require Import List Arith NArith Lia Bool Permutation.
From Verif Require Import Lib_Bytes Trc_Model Trc_Proofs Trc_Proofs2 Trc_Proofs3 Trc_Proofs4.
Import ListNotations.

(** Any hash function with 32-byte results; at most f of the servers are faulty; the updates of the chain can be hashed (no
    key twice in a block, no event twice in a group); the set of agreeing servers is iterated in any order. *)
Definition Assumptions (H : bytes -> bytes) (nserv f : nat) (honest : nat -> bool) (B : nat) (e0 : N)
    (blk : nat -> bytes * list (bytes * bytes)) (grp : nat -> bytes * list bytes) (ord : list nat -> list nat) : Prop :=
  (forall x, length (H x) = 32) /\ 0 < nserv /\
  length (filter (fun i => negb (honest i)) (seq 0 nserv)) <= f /\
  (1 <= e0)%N /\
  (forall n, NoDup (map H (map fst (snd (blk n))))) /\ (forall n, NoDup (map H (snd (grp n)))) /\
  (forall l, Permutation (ord l) l).
(** What a faulty server sends as data does not collide with what is hashed for the updates of the chain ... *)
Definition NoCollision (H : bytes -> bytes) (nserv : nat) (honest : nat -> bool) (U : nat -> update) (ch : nat -> nat -> choice) : Prop :=
  forall i t u n x y, i < nserv -> honest i = false -> c_data (ch i t) = DUpd u -> In x (hashed H u) -> In y (hashed H (U n)) ->
    H x = H y -> x = y.
(** ... and it does not send an event group that hashes like a block, or the other way round. *)
Definition KindKept (H : bytes -> bytes) (nserv : nat) (honest : nat -> bool) (U : nat -> update) (ch : nat -> nat -> choice) : Prop :=
  forall i t u n, i < nserv -> honest i = false -> c_data (ch i t) = DUpd u -> idOf u = idOf (U n) ->
    hashUpdate H u = hashUpdate H (U n) -> kindOf u = kindOf (U n).
(** A subscription to a block of the chain or the one after its last, or to an event group that is not before the first. *)
Definition Valid (B : nat) (e0 : N) (r : request) : Prop :=
  match r with ReqEvents b => (b <= N.of_nat B + 1)%N | ReqGroup g => (e0 <= g)%N end.

Lemma insertM_some {A} k (v : A) m : ~ In k (map fst m) -> exists m', insertM k v m = Some m'.
Proof.
  induction m as [|[k' v'] m IH]; cbn [insertM]; intros Ni; [eauto|]. cbn in Ni. destruct (lex k k') eqn:L; eauto.
  - apply lex_eq in L. exfalso. apply Ni. left. congruence.
  - destruct IH as [m' E]; [tauto|]. rewrite E. eauto.
Qed.
Lemma insertAll_some {A} (l : list (bytes * A)) : forall m, NoDup (map fst (l ++ m)) -> exists m', insertAll l m = Some m'.
Proof.
  induction l as [|[k v] l IH]; cbn [insertAll]; intros m ND; [eauto|]. cbn [app map fst] in ND. inversion ND as [|? ? N1 N2]. subst.
  destruct (insertM_some k v m) as [m' E]; [intros Hi; apply N1; rewrite map_app; apply in_app_iff; auto|]. rewrite E. apply IH.
  apply insertM_perm in E. apply (Permutation_NoDup (l := k :: map fst (l ++ m))); [|constructor; auto].
  change (k :: map fst (l ++ m)) with (map fst ((k, v) :: l ++ m)). apply Permutation_map.
  rewrite E, <- Permutation_middle. auto.
Qed.
Lemma assumptions_hash H nserv f honest B e0 blk grp ord : Assumptions H nserv f honest B e0 blk grp ord ->
  forall n, exists h, hashUpdate H (history B e0 blk grp n) = Ok h.
Proof.
  intros (_ & _ & _ & _ & Hb & Hg & _) n. unfold history. destruct (n <? B); cbn [hashUpdate].
  - destruct (insertAll_some (map (fun p => (H (fst p), H (snd p))) (snd (blk n))) []) as [m E]; [|rewrite E; eauto].
    rewrite app_nil_r, map_map. cbn [fst]. rewrite <- map_map. apply Hb.
  - destruct (insertAll_some (map (fun e => (H e, tt)) (snd (grp (n - B)))) []) as [m E]; [|rewrite E; eauto].
    rewrite app_nil_r, map_map. cbn [fst]. apply Hg.
Qed.
Lemma faithful H nserv f honest B e0 blk grp ord ch : Assumptions H nserv f honest B e0 blk grp ord ->
  NoCollision H nserv honest (history B e0 blk grp) ch -> KindKept H nserv honest (history B e0 blk grp) ch ->
  Faithful H nserv honest B e0 blk grp ch.
Proof.
  intros As Nc Kk i t u n Li Hh Ed Ei Eh. destruct (assumptions_hash _ _ _ _ _ _ _ _ _ As n) as [h E].
  destruct (binding H (proj1 As) u (history B e0 blk grp n) h) as [S0|(x & y & Hx & Hy & D & Exy)]; auto; try congruence.
  - eapply Kk; eauto.
  - exfalso. apply D. eapply Nc; eauto.
Qed.

(** Whatever the faulty servers answer and whichever calls fail: the updates handed over are those of the chain, from
    the one that was asked for, in order, without gaps. *)
Theorem C35_updates_in_order : forall H nserv f honest B e0 blk grp ord ch req lb0 k us o,
  Assumptions H nserv f honest B e0 blk grp ord ->
  NoCollision H nserv honest (history B e0 blk grp) ch -> KindKept H nserv honest (history B e0 blk grp) ch ->
  Valid B e0 req ->
  runClient H nserv f honest (history B e0 blk grp) (historyPos B e0) ch ord req lb0 k = (us, o) ->
  Forall2 SameUpdate us (map (history B e0 blk grp) (seq (historyPos B e0 req) (length us))).
Proof.
  intros H nserv f honest B e0 blk grp ord ch req lb0 k us o As Nc Kk V E. pose proof As as (Hl & Hn & Hf & He & _ & _ & Ho).
  eapply rounds_ok; [exact Hl|exact He|eapply assumptions_hash; exact As|exact Ho|exact Hf|eapply faithful; eauto| |exact E].
  eapply start_inv; eauto.
Qed.
Print Assumptions C35_updates_in_order.

Lemma run_ending H nserv f honest B e0 blk grp ord ch req lb0 k us o :
  Assumptions H nserv f honest B e0 blk grp ord ->
  NoCollision H nserv honest (history B e0 blk grp) ch -> KindKept H nserv honest (history B e0 blk grp) ch ->
  Valid B e0 req ->
  runClient H nserv f honest (history B e0 blk grp) (historyPos B e0) ch ord req lb0 k = (us, o) ->
  Ending H nserv honest ch o.
Proof.
  intros As Nc Kk V E. pose proof As as (Hl & Hn & Hf & He & _ & _ & Ho).
  eapply rounds_ending; [exact Hl|exact He|eapply assumptions_hash; exact As|exact Ho|exact Hf|eapply faithful; eauto| |exact E].
  eapply start_inv; eauto.
Qed.

(** The subscription never ends with "2f+1 replicas generated mismatching hashes"; it ends with "out of range" or "not
    found" only if honest servers say so, and with another error or an abort only if a faulty server sent a data message
    with a key or an event twice, or a message without content. *)
Theorem C35_how_it_ends : forall H nserv f honest B e0 blk grp ord ch req lb0 k us o,
  Assumptions H nserv f honest B e0 blk grp ord ->
  NoCollision H nserv honest (history B e0 blk grp) ch -> KindKept H nserv honest (history B e0 blk grp) ch ->
  Valid B e0 req ->
  runClient H nserv f honest (history B e0 blk grp) (historyPos B e0) ch ord req lb0 k = (us, o) ->
  o <> Throw EInternal /\
  (o = Throw EOutOfRange -> ~ (forall i t, i < nserv -> honest i = true -> c_res (ch i t) <> ROutOfRange)) /\
  (o = Throw ENotFound -> ~ (forall i t, i < nserv -> honest i = true -> c_res (ch i t) <> RNotFound)) /\
  (o = Throw EInvalidArgument ->
     exists i t b c kvs, i < nserv /\ honest i = false /\ c_data (ch i t) = DUpd (Events b c kvs) /\ ~ NoDup (map H (map fst kvs))) /\
  (o = Abort ->
     exists i t, i < nserv /\ honest i = false /\
       (c_hash (ch i t) = HNone \/ c_data (ch i t) = DNone \/
        exists g rt evs, c_data (ch i t) = DUpd (Group g rt evs) /\ ~ NoDup (map H evs))).
Proof.
  intros H nserv f honest B e0 blk grp ord ch req lb0 k us o As Nc Kk V E.
  pose proof (run_ending _ _ _ _ _ _ _ _ _ _ _ _ _ _ _ As Nc Kk V E) as En.
  assert (NNe : forall R, ~ ~ HonestSaid nserv honest ch R -> ~ (forall i t, i < nserv -> honest i = true -> c_res (ch i t) <> R)).
  { intros R Nn Q. apply Nn. intros (i & t & Li & Hh & Ec). exact (Q i t Li Hh Ec). }
  repeat split.
  - intros ->. exact En.
  - intros ->. apply NNe. exact En.
  - intros ->. apply NNe. exact En.
  - intros ->. destruct En as (i & t & u & Li & Hh & Ed & Eh). exists i, t. destruct u as [b c kvs|g rt evs].
    + exists b, c, kvs. repeat split; auto. intros ND. cbn [hashUpdate] in Eh.
      destruct (insertAll_some (map (fun p => (H (fst p), H (snd p))) kvs) []) as [m Em]; [|rewrite Em in Eh; discriminate].
      rewrite app_nil_r, map_map. cbn [fst]. rewrite <- map_map. exact ND.
    + cbn [hashUpdate] in Eh. destruct (insertAll _ _); discriminate.
  - intros ->. destruct En as (i & t & Li & Hh & C). exists i, t. repeat split; auto. destruct C as [C|[C|(u & Ed & Eh)]]; auto.
    right. right. destruct u as [b c kvs|g rt evs].
    + cbn [hashUpdate] in Eh. destruct (insertAll _ _); discriminate.
    + exists g, rt, evs. split; auto. intros ND. cbn [hashUpdate] in Eh.
      destruct (insertAll_some (map (fun e => (H e, tt)) evs) []) as [m Em]; [|rewrite Em in Eh; discriminate].
      rewrite app_nil_r, map_map. cbn [fst]. exact ND.
Qed.
Print Assumptions C35_how_it_ends.

(** If the honest servers, more than f of them, answer every call and the faulty ones send no message of the kinds above,
    every iteration hands over an update. *)
Theorem C35_progress : forall H nserv f honest B e0 blk grp ord ch req lb0 k,
  Assumptions H nserv f honest B e0 blk grp ord ->
  NoCollision H nserv honest (history B e0 blk grp) ch -> KindKept H nserv honest (history B e0 blk grp) ch ->
  Valid B e0 req ->
  f + 1 <= length (filter honest (seq 0 nserv)) ->
  (forall i t, i < nserv -> honest i = true -> c_res (ch i t) = RSuccess) ->
  (forall i t, i < nserv -> honest i = false -> c_hash (ch i t) <> HNone /\
     exists u h, c_data (ch i t) = DUpd u /\ hashUpdate H u = Ok h) ->
  exists us s, runClient H nserv f honest (history B e0 blk grp) (historyPos B e0) ch ord req lb0 k = (us, Ok s) /\ length us = k.
Proof.
  intros H nserv f honest B e0 blk grp ord ch req lb0 k As Nc Kk V En Ok1 Wf. pose proof As as (Hl & Hn & Hf & He & _ & _ & Ho).
  assert (I0 : Inv nserv honest B e0 (start (historyPos B e0) ch req lb0) (historyPos B e0 req)) by (eapply start_inv; eauto).
  eapply rounds_progress; [exact Hl|exact He|eapply assumptions_hash; exact As|exact Ho|exact Hf|exact Ok1|exact En| | |eapply faithful; eauto|exact I0|].
  - intros (i & t & Li & Hh & C). destruct (Wf i t Li Hh) as (W1 & u & h & W2 & W3). destruct C as [C|[C|(u' & C & C')]]; try congruence.
  - intros (i & t & u & Li & Hh & C & C'). destruct (Wf i t Li Hh) as (W1 & u' & h & W2 & W3). congruence.
  - unfold start. match goal with |- context [resetDataStreamTo _ _ ?x 0] => set (s0 := x) end.
    unfold resetDataStreamTo, openData. cbn [snd s_dci setDci s_data tickS setData setHash]. rewrite Nat.eqb_refl.
    intros Hh. rewrite (Ok1 0 _ Hn Hh). cbn. discriminate.
Qed.
Print Assumptions C35_progress.

(** What the hash of an update stands for: its kind is not covered, otherwise equal hashes mean the same data or a
    collision between strings hashed for the two. *)
Theorem C35_hash_binding : forall H u v h, (forall x, length (H x) = 32) ->
  hashUpdate H u = Ok h -> hashUpdate H v = Ok h -> kindOf u = kindOf v -> (idOf u < 2 ^ 64)%N -> (idOf v < 2 ^ 64)%N ->
  SameUpdate u v \/ exists x y, In x (hashed H u) /\ In y (hashed H v) /\ x <> y /\ H x = H y.
Proof. intros H u v h Hl Eu Ev K B1 B2. eapply binding; eauto. Qed.
Print Assumptions C35_hash_binding.
(** The hash does not depend on the order in which a server lists the entries. *)
Theorem C35_hash_order_independent : forall H u v, SameUpdate u v -> hashUpdate H u = hashUpdate H v.
Proof. exact same_hash. Qed.
Print Assumptions C35_hash_order_independent.

(** ---------- a concrete setting ---------- *)
(** A hash without collisions (its results are not bytes; the theorems do not ask for that). *)
Fixpoint codeP (p k : positive) : positive :=
  match p with xH => k~0 | xO p' => (codeP p' k)~0~1 | xI p' => (codeP p' k)~1~1 end%positive.
Fixpoint codeL (l : bytes) : positive := match l with [] => xH~0 | x :: l' => (codeP (N.succ_pos x) (codeL l'))~1 end%positive.
Definition toy (x : bytes) : bytes := Npos (codeL x) :: repeat 0%N 31.
Lemma codeP_inj p : forall q k k', codeP p k = codeP q k' -> p = q /\ k = k'.
Proof.
  induction p as [p IH|p IH|]; intros [q|q|] k k' E; cbn in E; try discriminate.
  - injection E as E. apply IH in E as [-> ->]. auto.
  - injection E as E. apply IH in E as [-> ->]. auto.
  - injection E as ->. auto.
Qed.
Lemma codeL_inj l : forall l', codeL l = codeL l' -> l = l'.
Proof.
  induction l as [|x l IH]; intros [|y l'] E; cbn in E; try discriminate; auto. injection E as E.
  apply codeP_inj in E as [E1 E2]. apply IH in E2. subst l'. f_equal.
  apply (f_equal Pos.pred_N) in E1. rewrite !N.pos_pred_succ in E1. exact E1.
Qed.
Lemma toy_inj x y : toy x = toy y -> x = y.
Proof. unfold toy. intros E. injection E as E. apply codeL_inj. exact E. Qed.
Lemma toy_nodup l : NoDup l -> NoDup (map toy l).
Proof. apply FinFun.Injective_map_NoDup. intros x y. apply toy_inj. Qed.

Definition blk1 (n : nat) : bytes * list (bytes * bytes) := ([7]%N, match n with 0 => [] | _ => [([1], [10]); ([2], [N.of_nat n])]%N end).
Definition grp1 (n : nat) : bytes * list bytes := ([9]%N, [[3]; [4; N.of_nat n]]%N).
Definition honest1 (i : nat) : bool := negb (i =? 1).
Notation U1 := (history 3 1 blk1 grp1).
Notation pos1 := (historyPos 3 1).
Lemma setting1 : Assumptions toy 4 1 honest1 3 1 blk1 grp1 (fun l => l).
Proof.
  split; [intros x; reflexivity|]. split; [lia|]. split; [vm_compute; lia|]. split; [lia|]. split; [|split; [|intros; apply Permutation_refl]].
  - intros n. apply toy_nodup. destruct n; cbn; repeat constructor; cbn; intuition discriminate.
  - intros n. apply toy_nodup. cbn. repeat constructor; cbn; intuition discriminate.
Qed.
Lemma nocollision1 ch : NoCollision toy 4 honest1 U1 ch.
Proof. intros i t u n x y _ _ _ _ _. apply toy_inj. Qed.

(** Server 1 is faulty: it lies about every update; the first call, to server 0, times out. *)
Definition lie : choice := mkC RSuccess (DUpd (Events 1 [] [([5], [6])]%N)) (HRec KEvents 1 [1; 2; 3]%N).
Definition fine : choice := mkC RSuccess DNone HNone.
Definition ch1 (i t : nat) : choice := if i =? 1 then lie else if t =? 0 then mkC RTimeout DNone HNone else fine.
Example C35_hypotheses_met : Assumptions toy 4 1 honest1 3 1 blk1 grp1 (fun l => l) /\ NoCollision toy 4 honest1 U1 ch1 /\ KindKept toy 4 honest1 U1 ch1 /\ Valid 3 1 (ReqEvents 2).
Proof.
  split; [apply setting1|]. split; [apply nocollision1|]. split; [|cbn; lia].
  intros i t u n Li Hh Ed Ei Eh. unfold ch1 in Ed. unfold honest1 in Hh. apply negb_false_iff in Hh. rewrite Hh in Ed. injection Ed as <-.
  unfold history in *. destruct (n <? 3) eqn:Q; auto. exfalso. cbn [idOf] in Ei. apply Nat.ltb_ge in Q.
  assert (n = 3) by lia. subst n. vm_compute in Eh. discriminate.
Qed.
(** The request was for block 2: blocks 2 and 3 and the first two event groups are handed over. *)
Example C35_example_run : fst (runClient toy 4 1 honest1 U1 pos1 ch1 (fun l => l) (ReqEvents 2) 0 5) = map U1 [1; 2; 3; 4; 5].
Proof. vm_compute. reflexivity. Qed.
Definition ch2 (i t : nat) : choice := if i =? 1 then lie else fine.
Example C35_progress_hypotheses_met :
  (2 <= length (filter honest1 (seq 0 4))) /\ (forall i t, i < 4 -> honest1 i = true -> c_res (ch2 i t) = RSuccess) /\
  (forall i t, i < 4 -> honest1 i = false -> c_hash (ch2 i t) <> HNone /\ exists u h, c_data (ch2 i t) = DUpd u /\ hashUpdate toy u = Ok h) /\
  fst (runClient toy 4 1 honest1 U1 pos1 ch2 (fun l => l) (ReqGroup 1) 0 4) = map U1 [3; 4; 5; 6].
Proof.
  split; [vm_compute; lia|]. split; [|split].
  - intros i t Li Hh. unfold ch2. unfold honest1 in Hh. apply negb_true_iff in Hh. rewrite Hh. reflexivity.
  - intros i t Li Hh. unfold honest1 in Hh. apply negb_false_iff in Hh. unfold ch2. rewrite Hh. split; [discriminate|].
    do 2 eexists. split; [reflexivity|]. vm_compute. reflexivity.
  - vm_compute. reflexivity.
Qed.

(** The kind of an update is not checked when the data stream is moved to a server of the agreeing set: one faulty server that
    joined the agreement on the hash of an empty block answers with an empty event group of the same number.  It is handed
    over, and from there on the client asks for event groups: blocks 2 and 3 and event group 1 are never handed over. *)
Definition ch_kind (i t : nat) : choice :=
  if i =? 1 then mkC RSuccess (DUpd (Group 1 [] [])) (match hashUpdate toy (U1 0) with Ok h => HRec KEvents 1 h | _ => HNone end)
  else if t =? 0 then mkC RTimeout DNone HNone else fine.
Theorem C35_kind_confusion_refuted :
  Assumptions toy 4 1 honest1 3 1 blk1 grp1 (fun l => l) /\ NoCollision toy 4 honest1 U1 ch_kind /\ Valid 3 1 (ReqEvents 1) /\
  fst (runClient toy 4 1 honest1 U1 pos1 ch_kind (fun l => l) (ReqEvents 1) 0 3) = [Group 1 [] []; U1 4; U1 5] /\
  ~ Forall2 SameUpdate [Group 1 [] []; U1 4; U1 5] (map U1 [0; 1; 2]).
Proof.
  split; [apply setting1|]. split; [apply nocollision1|]. split; [cbn; lia|]. split; [vm_compute; reflexivity|].
  intros F. inversion F as [|? ? ? ? S1 _]. exact S1.
Qed.
Print Assumptions C35_kind_confusion_refuted.

(** The record time and the correlation id are not covered by the hash, nor is the order of the events: a single
    faulty server that provides the data chooses them. *)
Definition honest0 (i : nat) : bool := negb (i =? 0).
Definition ch_time (i t : nat) : choice :=
  if i =? 0 then mkC RSuccess (DUpd (Group 1 [66] [[4; 0]; [3]])%N) HNone else fine.
Theorem C35_unhashed_fields_refuted :
  Assumptions toy 4 1 honest0 3 1 blk1 grp1 (fun l => l) /\ Valid 3 1 (ReqGroup 1) /\
  U1 3 = Group 1 [9]%N [[3]; [4; 0]]%N /\
  fst (runClient toy 4 1 honest0 U1 pos1 ch_time (fun l => l) (ReqGroup 1) 0 1) = [Group 1 [66] [[4; 0]; [3]]]%N.
Proof.
  split; [destruct setting1 as (A1 & A2 & A3 & A4 & A5 & A6 & A7); split; [|split; [|split; [vm_compute; lia|]]]; auto|].
  split; [cbn; lia|]. split; [reflexivity|vm_compute; reflexivity].
Qed.
Print Assumptions C35_unhashed_fields_refuted.

(** One faulty server that provides the data ends the subscription, or the process: with a key twice in a block, with an event
    twice in a group, with a message without content, data or hash. *)
Definition ch_bad (m : dataMsg) (h : hashMsg) (i t : nat) : choice := if i =? 0 then mkC RSuccess m h else fine.
Definition ch_bad1 (i t : nat) : choice := if i =? 1 then mkC RSuccess DNone HNone else if t =? 0 then mkC RTimeout DNone HNone else fine.
Theorem C35_one_faulty_server_ends_it_refuted :
  let run honest ch := snd (runClient toy 4 1 honest U1 pos1 ch (fun l => l) (ReqEvents 1) 0 1) in
  Assumptions toy 4 1 honest0 3 1 blk1 grp1 (fun l => l) /\ Assumptions toy 4 1 honest1 3 1 blk1 grp1 (fun l => l) /\
  run honest0 (ch_bad (DUpd (Events 1 [] [([1], [2]); ([1], [3])]%N)) HNone) = Throw EInvalidArgument /\
  run honest0 (ch_bad (DUpd (Group 1 [] [[1]; [1]]%N)) HNone) = Abort /\
  run honest0 (ch_bad DNone HNone) = Abort /\
  run honest1 ch_bad1 = Abort.
Proof.
  intros run. split; [destruct setting1 as (A1 & A2 & A3 & A4 & A5 & A6 & A7); split; [|split; [|split; [vm_compute; lia|]]]; auto|].
  split; [apply setting1|]. repeat split; vm_compute; reflexivity.
Qed.
Print Assumptions C35_one_faulty_server_ends_it_refuted.
