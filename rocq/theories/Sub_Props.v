(** C26. Subscribers receive updates in order, without gaps, or the subscription ends. *)
From Coq Require Import List Arith Bool Lia.
From Verif Require Import Sub_Model Sub_Proofs.
Import ListNotations.

(** One buffer, any interleaving of pushes and reads: the updates read are a prefix of the updates pushed, in order. *)
Theorem C26_buffer_order {A} (idOf : A -> nat) (cap : nat) (l : list (bop A)) :
  ~ In RemoveAll l -> exists rest, pushes l = got (snd (brun idOf cap buf0 l)) ++ rest.
Proof.
  intros N. destruct (brun_pref idOf cap l N buf0) as (rest & H & _). cbn [queue buf0 app] in H. rewrite H. eexists. reflexivity.
Qed.
Print Assumptions C26_buffer_order.

(** No update is skipped silently: as long as no push was refused, what is not yet read is still in the buffer;
    a push is refused exactly when [cap] updates are waiting, and from then on every read fails, whatever else is done. *)
Theorem C26_lost_update_ends_reads {A} (idOf : A -> nat) (cap : nat) (l1 l2 : list (bop A)) (u : A) :
  ~ In RemoveAll l1 ->
  let b := fst (brun idOf cap buf0 l1) in
  length (pushes l1) = length (got (snd (brun idOf cap buf0 l1))) + cap ->
  forall r, In r (snd (brun idOf cap b (Push u :: l2))) -> r = Throw.
Proof.
  intros N b H r Hr. cbn [brun bstep] in Hr.
  destruct (brun idOf cap (push idOf cap u b) l2) as [b2 r2] eqn:E. cbn [snd app] in Hr.
  destruct (brun_pref idOf cap l1 N buf0) as (rest & Hp & R). fold b in Hp, R. cbn [queue buf0 app] in Hp.
  assert (T : tooSlow (push idOf cap u b) = true).
  { unfold push. destruct (tooSlow b) eqn:T; auto. rewrite (R eq_refl), app_nil_r in Hp. rewrite Hp, app_length in H. destruct (Nat.ltb_spec (length (queue b)) cap); auto. lia. }
  pose proof (slow_forever idOf cap l2 _ T) as [_ Z]. rewrite E in Z. auto.
Qed.
Print Assumptions C26_lost_update_ends_reads.

(** And reads succeed with the right update as long as at most [cap] updates wait at any time. *)
Fixpoint keepsUp {A} (cap waiting : nat) (l : list (bop A)) : bool :=
  match l with [] => true | Push _ :: l => (waiting <? cap) && keepsUp cap (S waiting) l | _ :: l => keepsUp cap (pred waiting) l end.
Theorem C26_buffer_complete {A} (idOf : A -> nat) (cap : nat) (l : list (bop A)) :
  ~ In RemoveAll l -> keepsUp cap 0 l = true ->
  (forall r, In r (snd (brun idOf cap buf0 l)) -> r <> Throw) /\
  pushes l = got (snd (brun idOf cap buf0 l)) ++ queue (fst (brun idOf cap buf0 l)).
Proof.
  intros N K.
  assert (X : forall l (b : buf A), ~ In RemoveAll l -> tooSlow b = false -> keepsUp cap (length (queue b)) l = true ->
     tooSlow (fst (brun idOf cap b l)) = false /\ (forall r, In r (snd (brun idOf cap b l)) -> r <> Throw)).
  { clear. induction l as [|o l IH]; intros b N T K; cbn [brun]; [cbn; tauto|]. assert (N' : ~ In RemoveAll l) by (intros X; apply N; right; auto).
    destruct o as [u| |]; cbn [bstep keepsUp] in *.
    - apply andb_true_iff in K. destruct K as [K1 K2]. specialize (IH (push idOf cap u b) N'). unfold push in *. rewrite T, K1 in *. cbn [tooSlow queue] in IH. rewrite app_length, Nat.add_1_r in IH. specialize (IH eq_refl K2).
      destruct (brun idOf cap _ l). cbn in *. auto.
    - unfold pop. rewrite T. destruct (queue b) as [|u q] eqn:Q.
      + cbn in K. specialize (IH b N' T). rewrite Q in IH. specialize (IH K). destruct (brun idOf cap b l). cbn in *. destruct IH as [I1 I2]. split; auto. intros r [<-|H]; [congruence|auto].
      + cbn in K. specialize (IH (mkBuf q false (newest b)) N' eq_refl K). destruct (brun idOf cap _ l). cbn in *. destruct IH as [I1 I2]. split; auto. intros r [<-|H]; [congruence|auto].
    - exfalso. apply N. left. auto. }
  destruct (X l buf0 N eq_refl K) as [X1 X2]. split; auto.
  destruct (brun_pref idOf cap l N buf0) as (rest & Hp & R). rewrite (R X1), app_nil_r in Hp. exact Hp.
Qed.
Print Assumptions C26_buffer_complete.
Example buffer_run : brun (fun x : nat => x) 2 buf0 [Push 1; Push 2; Pop; Push 3; Pop; Pop; Pop] = (mkBuf [] false 3, [Got 1; Got 2; Got 3; Blocked]).
Proof. reflexivity. Qed.
Example buffer_lost : brun (fun x : nat => x) 2 buf0 [Push 1; Push 2; Push 3; Pop; RemoveAll; Push 4; Pop] = (mkBuf [] true 4, [Throw; Throw]).
Proof. reflexivity. Qed.

(** The whole subscription: in every execution (any interleaving of the replica storing, announcing and pruning blocks with the steps
    of the subscription), what was sent is blocks start, start+1, ... of the chain, filtered for this client, each once and in order;
    and no assertion of the server fails (for a block id other than 0). Blocks that are never announced (state transfer) are covered as
    long as this happens before the first announcement after subscribing. *)
Theorem C26_stream_in_order {P V} (flt : P -> V) (cap start : nat) (bl : list P) (g p : nat) (s : st P V) :
  1 <= cap -> initOk bl g p -> reach flt cap start bl g p s ->
  (forall k o, nth_error (out s) k = Some o -> fst o = start + k /\ option_map flt (blockAt s (start + k)) = Some (snd o)) /\
  (1 <= start -> at_ s <> PAbort).
Proof.
  intros Hc Hi R. destruct (reach_inv flt cap start bl g p s Hc Hi R) as (a & B & Pc & Pu & O & Sf). split; [exact O|].
  intros H E. unfold PInv in Pc. rewrite E in Pc. lia.
Qed.
Print Assumptions C26_stream_in_order.

(** In the live phase the next update to be delivered is the block after the last one sent, unless an update was lost, and then the
    only thing that can happen is the end of the subscription. *)
Theorem C26_live_next {P V} (flt : P -> V) (cap start : nat) (bl : list P) (g p : nat) (s s' : st P V) :
  1 <= cap -> initOk bl g p -> reach flt cap start bl g p s -> at_ s = PLive -> sub flt start s s' ->
  at_ s' = PDone \/ (exists pl, blockAt s (start + length (out s)) = Some pl /\ out s' = out s ++ [(start + length (out s), flt pl)]).
Proof.
  intros Hc Hi R Ha E. destruct (reach_inv flt cap start bl g p s Hc Hi R) as (a & B & Pc & Pu & O & Sf). unfold PInv in Pc. rewrite Ha in Pc. destruct Pc as (P1 & P2 & P3).
  destruct E; try congruence; try (left; reflexivity).
  match goal with H : pop (sb s) = (Got _, _) |- _ => destruct (pop_inv _ _ _ _ _ B H) as (_ & U & Bk & T & _) end.
  right. specialize (P2 T). unfold nxt in P2. subst a. eexists. split; [exact Bk|]. cbn. rewrite U. reflexivity.
Qed.
Print Assumptions C26_live_next.
Theorem C26_too_slow_ends {P V} (flt : P -> V) (cap start : nat) (bl : list P) (g p : nat) (s s' : st P V) :
  reach flt cap start bl g p s -> at_ s = PLive -> tooSlow (sb s) = true -> sub flt start s s' -> at_ s' = PDone /\ out s' = out s.
Proof.
  intros _ Ha T E. destruct E; try congruence; try (split; reflexivity).
  match goal with H : pop (sb s) = (Got _, _) |- _ => unfold pop in H; rewrite T in H; discriminate end.
Qed.
Print Assumptions C26_too_slow_ends.

Lemma rSub' {P V} flt cap start bl g p (s s' t : st P V) : reach flt cap start bl g p s -> sub flt start s s' -> s' = t -> reach flt cap start bl g p t.
Proof. intros H E <-. eapply rSub; eauto. Qed.
Lemma rEnv' {P V} flt cap start bl g p (s s' t : st P V) : reach flt cap start bl g p s -> env cap s s' -> s' = t -> reach flt cap start bl g p t.
Proof. intros H E <-. eapply rEnv; eauto. Qed.
Lemma aSub' {P V} flt cap start bl g p (s s' t : st P V) : reachAny flt cap start bl g p s -> sub flt start s s' -> s' = t -> reachAny flt cap start bl g p t.
Proof. intros H E <-. eapply aSub; eauto. Qed.
Lemma aEnv' {P V} flt cap start bl g p (s s' t : st P V) : reachAny flt cap start bl g p s -> env cap s s' -> s' = t -> reachAny flt cap start bl g p t.
Proof. intros H E <-. eapply aEnv; eauto. Qed.
Lemma aSkip' {P V} flt cap start bl g p (s s' t : st P V) : reachAny flt cap start bl g p s -> skip s s' -> s' = t -> reachAny flt cap start bl g p t.
Proof. intros H E <-. eapply aSkip; eauto. Qed.
(** A run that reads two blocks from storage, drops the overlap and goes on live. *)
Definition exS (bl : list nat) g pu su b a o f : st nat nat := mkS bl g pu su b a o f.
Example stream_run : reach (fun x => x * 10) 4 1 [7] 1 1 (exS [7; 8; 9] 1 3 true (mkBuf [] false 3) PLive [(1, 70); (2, 80); (3, 90)] false).
Proof.
  eapply rSub'; [|eapply (SLive _ _ (exS [7; 8; 9] 1 3 true (mkBuf [(3, 9)] false 3) PLive [(1, 70); (2, 80)] false) (3, 9)); reflexivity|reflexivity].
  eapply rSub'; [|eapply (SDrop _ _ (exS [7; 8; 9] 1 3 true (mkBuf [(2, 8); (3, 9)] false 3) (PDrop 2) [(1, 70); (2, 80)] false) 2 (2, 8)); reflexivity|reflexivity].
  eapply rSub'; [|eapply (SLe _ _ (exS [7; 8; 9] 1 3 true (mkBuf [(2, 8); (3, 9)] false 3) (PLe 2) [(1, 70); (2, 80)] false) 2); reflexivity|reflexivity].
  eapply rSub'; [|eapply (SGap _ _ (exS [7; 8; 9] 1 3 true (mkBuf [(2, 8); (3, 9)] false 3) (PGap 2) [(1, 70); (2, 80)] false) 2); reflexivity|reflexivity].
  eapply rEnv'; [|eapply (EPush _ (exS [7; 8; 9] 1 2 true (mkBuf [(2, 8)] false 2) (PGap 2) [(1, 70); (2, 80)] false) 9); [unfold lastId; cbn; lia|reflexivity]|reflexivity].
  eapply rSub'; [|eapply (SCmp _ _ (exS [7; 8; 9] 1 2 true (mkBuf [(2, 8)] false 2) (PCmp 2) [(1, 70); (2, 80)] false) 2); reflexivity|reflexivity].
  eapply rEnv'; [|eapply (EStore _ (exS [7; 8] 1 2 true (mkBuf [(2, 8)] false 2) (PCmp 2) [(1, 70); (2, 80)] false) 9)|reflexivity].
  eapply rSub'; [|eapply (SWait2 _ _ (exS [7; 8] 1 2 true (mkBuf [(2, 8)] false 2) (PWait2 2) [(1, 70); (2, 80)] false) 2 2); reflexivity|reflexivity].
  eapply rEnv'; [|eapply (EPush _ (exS [7; 8] 1 1 true buf0 (PWait2 2) [(1, 70); (2, 80)] true) 8); [unfold lastId; cbn; lia|reflexivity]|reflexivity].
  eapply rSub'; [|eapply (SReadEnd _ _ (exS [7; 8] 1 1 true buf0 (PRead 3 2) [(1, 70); (2, 80)] true) 3 2); [reflexivity|lia]|reflexivity].
  eapply rSub'; [|eapply (SRead _ _ (exS [7; 8] 1 1 true buf0 (PRead 2 2) [(1, 70)] true) 2 2 8); try reflexivity; cbn; lia|reflexivity].
  eapply rSub'; [|eapply (SRead _ _ (exS [7; 8] 1 1 true buf0 (PRead 1 2) [] true) 1 2 7); try reflexivity; cbn; lia|reflexivity].
  eapply rSub'; [|eapply (SEnd _ _ (exS [7; 8] 1 1 true buf0 PEnd [] true)); reflexivity|reflexivity].
  eapply rSub'; [|eapply (SSync _ _ (exS [7; 8] 1 1 true buf0 PSync [] true)); reflexivity|reflexivity].
  eapply rEnv'; [|eapply (EStore _ (exS [7] 1 1 true buf0 PSync [] true) 8)|reflexivity].
  eapply rSub'; [|eapply (SLast _ _ (exS [7] 1 1 true buf0 PLast [] true)); reflexivity|reflexivity].
  eapply rSub'; [|eapply (SAdd _ _ (exS [7] 1 1 false buf0 PAdd [] true)); reflexivity|reflexivity].
  eapply rSub'; [|eapply (SCheck _ _ (exS [7] 1 1 false buf0 PCheck [] true)); reflexivity|reflexivity].
  apply r0.
Qed.

(** Limits of the code. Blocks withheld from the subscribers in the live phase (state transfer) leave a silent gap in the stream:
    the live loop does not compare the id it reads with the last one sent. *)
Theorem C26_withheld_block_refuted : exists s : st nat nat,
  initOk [7] 1 1 /\ reachAny (fun x => x) 4 2 [7] 1 1 s /\ out s = [(2, 8); (4, 10)] /\ blockAt s 3 = Some 9.
Proof.
  exists (exS [7; 8; 9; 10] 1 4 true (mkBuf [] false 4) PLive [(2, 8); (4, 10)] false). split; [repeat split; cbn; lia|]. split; [|split; reflexivity].
  eapply aSub'; [|eapply (SLive _ _ (exS [7; 8; 9; 10] 1 4 true (mkBuf [(4, 10)] false 4) PLive [(2, 8)] false) (4, 10)); reflexivity|reflexivity].
  eapply aEnv'; [|eapply (EPush _ (exS [7; 8; 9; 10] 1 3 true (mkBuf [] false 2) PLive [(2, 8)] false) 10); [unfold lastId; cbn; lia|reflexivity]|reflexivity].
  eapply aSkip'; [|eapply (ESkip (exS [7; 8; 9; 10] 1 2 true (mkBuf [] false 2) PLive [(2, 8)] false)); unfold lastId; cbn; lia|reflexivity].
  eapply aEnv'; [|eapply (EStore _ (exS [7; 8; 9] 1 2 true (mkBuf [] false 2) PLive [(2, 8)] false) 10)|reflexivity].
  eapply aEnv'; [|eapply (EStore _ (exS [7; 8] 1 2 true (mkBuf [] false 2) PLive [(2, 8)] false) 9)|reflexivity].
  eapply aSub'; [|eapply (SDrop _ _ (exS [7; 8] 1 2 true (mkBuf [(2, 8)] false 2) (PDrop 2) [(2, 8)] false) 2 (2, 8)); reflexivity|reflexivity].
  eapply aSub'; [|eapply (SLe _ _ (exS [7; 8] 1 2 true (mkBuf [(2, 8)] false 2) (PLe 2) [(2, 8)] false) 2); reflexivity|reflexivity].
  eapply aSub'; [|eapply (SGap _ _ (exS [7; 8] 1 2 true (mkBuf [(2, 8)] false 2) (PGap 2) [(2, 8)] false) 2); reflexivity|reflexivity].
  eapply aSub'; [|eapply (SCmp _ _ (exS [7; 8] 1 2 true (mkBuf [(2, 8)] false 2) (PCmp 2) [(2, 8)] false) 2); reflexivity|reflexivity].
  eapply aSub'; [|eapply (SWait2 _ _ (exS [7; 8] 1 2 true (mkBuf [(2, 8)] false 2) (PWait2 2) [(2, 8)] false) 2 2); reflexivity|reflexivity].
  eapply aSub'; [|eapply (SReadEnd _ _ (exS [7; 8] 1 2 true (mkBuf [(2, 8)] false 2) (PRead 3 2) [(2, 8)] false) 3 2); [reflexivity|lia]|reflexivity].
  eapply aSub'; [|eapply (SRead _ _ (exS [7; 8] 1 2 true (mkBuf [(2, 8)] false 2) (PRead 2 2) [] false) 2 2 8); try reflexivity; cbn; lia|reflexivity].
  eapply aSub'; [|eapply (SEnd _ _ (exS [7; 8] 1 2 true (mkBuf [(2, 8)] false 2) PEnd [] false)); reflexivity|reflexivity].
  eapply aSub'; [|eapply (SSync _ _ (exS [7; 8] 1 2 true (mkBuf [(2, 8)] false 2) PSync [] false)); reflexivity|reflexivity].
  eapply aSub'; [|eapply (SWaitGo _ _ (exS [7; 8] 1 2 true (mkBuf [(2, 8)] false 2) (PWait 1) [] false) 1 2); [reflexivity|reflexivity|lia]|reflexivity].
  eapply aEnv'; [|eapply (EPush _ (exS [7; 8] 1 1 true buf0 (PWait 1) [] true) 8); [unfold lastId; cbn; lia|reflexivity]|reflexivity].
  eapply aEnv'; [|eapply (EStore _ (exS [7] 1 1 true buf0 (PWait 1) [] true) 8)|reflexivity].
  eapply aSub'; [|eapply (SLast _ _ (exS [7] 1 1 true buf0 PLast [] true)); reflexivity|reflexivity].
  eapply aSub'; [|eapply (SAdd _ _ (exS [7] 1 1 false buf0 PAdd [] true)); reflexivity|reflexivity].
  eapply aSub'; [|eapply (SCheck _ _ (exS [7] 1 1 false buf0 PCheck [] true)); reflexivity|reflexivity].
  apply a0.
Qed.
Print Assumptions C26_withheld_block_refuted.

(** A request for block 0 before the first block exists fails an assertion of the server. *)
Theorem C26_block_zero_refuted : exists s : st nat nat, initOk (P := nat) [] 0 0 /\ reach (fun x => x) 4 0 [] 0 0 s /\ at_ s = PAbort.
Proof.
  exists (exS [] 0 0 true buf0 PAbort [] true). split; [repeat split; cbn; lia|]. split; [|reflexivity].
  eapply rSub'; [|eapply (SSync _ _ (exS [] 0 0 true buf0 PSync [] true)); reflexivity|reflexivity].
  eapply rSub'; [|eapply (SLast _ _ (exS [] 0 0 true buf0 PLast [] true)); reflexivity|reflexivity].
  eapply rSub'; [|eapply (SAdd _ _ (exS [] 0 0 false buf0 PAdd [] true)); reflexivity|reflexivity].
  eapply rSub'; [|eapply (SCheck _ _ (exS [] 0 0 false buf0 PCheck [] true)); reflexivity|reflexivity].
  apply r0.
Qed.
Print Assumptions C26_block_zero_refuted.

(** newestBlockId reports an update that is not in the buffer once an update was lost. *)
Theorem C26_newest_id_refuted : exists l : list (bop nat), ~ In RemoveAll l /\
  let b := fst (brun (fun x => x) 2 buf0 l) in newestBlockId b = Some 4 /\ ~ In 4 (queue b).
Proof. exists [Push 1; Push 2; Push 3; Push 4]. split; [intros [H|[H|[H|[H|[]]]]]; discriminate|]. split; [reflexivity|]. cbn. lia. Qed.
Print Assumptions C26_newest_id_refuted.

(** The list of subscribers: every announced update is pushed into every buffer, other buffers are not affected by one slow reader. *)
Theorem C26_all_subscribers {A} (idOf : A -> nat) (cap : nat) (u : A) (s : subList (A := A)) (h : nat) (b : buf A) :
  getBuf h s = Some b -> getBuf h (updateSubBuffers idOf cap u s) = Some (push idOf cap u b).
Proof.
  unfold getBuf, updateSubBuffers. induction s as [|[k c] s IH]; cbn; [discriminate|]. destruct (k =? h); cbn; auto. intros H. inversion H. auto.
Qed.
Print Assumptions C26_all_subscribers.
(** Subscribing: a new handle gets its (empty) buffer and no other changes; a handle that is in the list already is refused and its
    buffer, with what it holds, stays. *)
Theorem C26_subscribed {A} (s : subList (A := A)) (h : nat) (b : buf A) :
  (getBuf h s = None -> exists s', addBuffer h b s = (true, s') /\ getBuf h s' = Some b /\ forall k, k <> h -> getBuf k s' = getBuf k s) /\
  (forall b', getBuf h s = Some b' -> addBuffer h b s = (false, s)).
Proof.
  unfold addBuffer, getBuf. assert (E : existsb (fun p => fst p =? h) s = match find (fun p : nat * buf A => fst p =? h) s with Some _ => true | None => false end)
    by (induction s as [|[k c] s IH]; cbn; auto; destruct (k =? h); auto).
  rewrite E. destruct (find _ s); split; try discriminate; auto. intros _. eexists. split; [reflexivity|]. cbn. rewrite Nat.eqb_refl. split; [reflexivity|].
  intros k Hk. destruct (Nat.eqb_spec h k); [congruence|reflexivity].
Qed.
Print Assumptions C26_subscribed.
Example C26_subscribed_example : exists s, addBuffer 2 (@buf0 nat) [(1, buf0)] = (true, s) /\ addBuffer 2 buf0 s = (false, s).
Proof. eexists. split; reflexivity. Qed.
Theorem C26_unsubscribed {A} (s s' : subList (A := A)) (h : nat) : removeBuffer h s = Some s' ->
  getBuf h s' = None /\ (forall k, k <> h -> getBuf k s' = getBuf k s).
Proof.
  unfold removeBuffer. destruct (existsb _ s); [|discriminate]. intros E. inversion E; subst. clear E. unfold getBuf. split.
  - induction s as [|[k c] s IH]; cbn; auto. destruct (Nat.eqb_spec k h); cbn; auto. destruct (Nat.eqb_spec k h); [congruence|auto].
  - intros k Hk. induction s as [|[j c] s IH]; cbn; auto. destruct (Nat.eqb_spec j h) as [->|]; cbn.
    + destruct (Nat.eqb_spec h k); [congruence|auto].
    + destruct (Nat.eqb_spec j k); auto.
Qed.
Print Assumptions C26_unsubscribed.
