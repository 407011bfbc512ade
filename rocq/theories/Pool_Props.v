(** C40: the client pool. Requests of many threads on a few clients; model and terms in Pool_Model. *)
From Coq Require Import List Arith Bool Lia Permutation.
From Verif Require Import Pool_Model Pool_Proofs Pool_Proofs2.
Import ListNotations.

(** In every run, whatever the threads, the timer, the jobs and the connections do, every client of the pool is in exactly one place: free,
    or in one job. So no client is ever used by two jobs. *)
Theorem C40_client_in_one_place B T clients l c : NoDup clients -> In c clients ->
  let s := run B T clients l in
  (In c (queue s) /\ ~ In c (map fst (jobs s)) /\ count_occ Nat.eq_dec (queue s) c = 1) \/
  (~ In c (queue s) /\ count_occ Nat.eq_dec (map fst (jobs s)) c = 1).
Proof.
  intros ND Hc s. assert (H := run_P B T clients ND l). fold s in H. unfold P, held in H.
  assert (N : NoDup (queue s ++ map fst (jobs s))) by (eapply Permutation_NoDup; eauto).
  assert (E : count_occ Nat.eq_dec (queue s ++ map fst (jobs s)) c = 1).
  { apply NoDup_count_occ' ; auto. eapply Permutation_in; eauto. }
  rewrite count_occ_app in E. destruct (in_dec Nat.eq_dec c (queue s)) as [Hq|Hq].
  - assert (Q := proj1 (count_occ_In Nat.eq_dec _ _) Hq). left. repeat split; auto; [|lia]. intros Hj. assert (J := proj1 (count_occ_In Nat.eq_dec _ _) Hj). lia.
  - right. split; auto. rewrite (proj1 (count_occ_not_In Nat.eq_dec _ _) Hq) in E. exact E.
Qed.
Print Assumptions C40_client_in_one_place.

(** A batch never holds more requests than the batch size, a free client always has room for one more, and a client that works on a request of its
    own has no requests waiting. *)
Theorem C40_batches_bounded B T clients l c : NoDup clients -> 0 < B ->
  let s := run B T clients l in
  length (pend s c) <= B /\ (In c (queue s) -> length (pend s c) < B) /\ (forall r b, In (c, JSingle r b) (jobs s) -> pend s c = []).
Proof. intros ND HB s. destruct (run_L B T clients ND l HB) as (L1 & L2 & L3). fold s in L1, L2, L3. repeat split; eauto. Qed.
Print Assumptions C40_batches_bounded.

(** A request is either acknowledged or refused with one error: with a timeout of zero (and only then) as invalid; otherwise, as overloaded only when
    no client is free, as not ready only when all free clients lack connections; and when a free and connected client could take
    it, it is acknowledged. In any state whatever. *)
Theorem C40_acknowledged_or_refused B T s r : crashed s = false ->
  let s' := step B T s (Send r) in
  ((acked s' = acked s ++ [r] /\ rejected s' = rejected s) \/
   (acked s' = acked s /\ answers s' = answers s /\ pend s' = pend s /\ exists a, rejected s' = rejected s ++ [(rid r, a)] /\
     (a = Invalid /\ zero r = true \/
      a = Overloaded /\ zero r = false /\ queue s' = [] \/
      a = NotReady /\ zero r = false /\ queue s' <> [] /\ forall c, In c (queue s') -> serving s c = false))) /\
  (zero r = true -> acked s' = acked s) /\
  (forall c, zero r = false -> In c (queue s) -> serving s c = true -> (batchable r = true \/ pend s c = []) -> acked s' = acked s ++ [r]).
Proof.
  intros Cr s'. assert (E : s' = send B T r s). { unfold s', step. rewrite Cr. reflexivity. } rewrite E. clear E s'.
  destruct (zero r) eqn:Z.
  - unfold send. rewrite Z. cbn. repeat split; try discriminate. right. repeat split. exists Invalid. auto.
  - assert (H := send_rejects B T r s Z). cbv zeta in H. destruct H as [[H1 H2]|(H1 & H2 & H3 & H3' & H4 & H5)].
    + repeat split; auto. discriminate.
    + repeat split; auto.
      * right. repeat split; auto. eexists. split; [exact H2|]. right. destruct (queue (send B T r s)) eqn:Q; [left|right]; repeat split; auto. discriminate.
      * intros c _ Hc Sv Hb. exfalso. destruct (H5 c Hc) as [H6|(_ & H6 & H7)]; [rewrite (H4 c H6) in Sv; discriminate|]. destruct Hb; congruence.
Qed.
Print Assumptions C40_acknowledged_or_refused.

Lemma nd_filter {A} : forall (l : list (nat * A)) i a, NoDup (map fst l) -> In (i, a) l -> filter (fun x => fst x =? i) l = [(i, a)].
Proof.
  intros l i a N H. apply in_split in H as (x & y & ->). rewrite map_app in N. cbn in N. apply NoDup_remove_2 in N. rewrite in_app_iff in N.
  assert (F : forall l : list (nat * A), ~ In i (map fst l) -> filter (fun x => fst x =? i) l = []).
  { induction l as [|[k b] l IH]; cbn; auto. intros Hn. destruct (Nat.eqb_spec k i); [tauto|]. apply IH. tauto. }
  rewrite filter_app. cbn. rewrite Nat.eqb_refl, (F x), (F y) by tauto. reflexivity.
Qed.
Lemma nd_inj : forall (l : list req) x y, NoDup (map rid l) -> In x l -> In y l -> rid x = rid y -> x = y.
Proof.
  induction l as [|a l IH]; intros x y N Hx Hy E; [destruct Hx|]. cbn in N. inversion N; subst. destruct Hx as [->|Hx], Hy as [->|Hy]; auto.
  - exfalso. apply H1. rewrite E. apply in_map. auto.
  - exfalso. apply H1. rewrite <- E. apply in_map. auto.
Qed.

(** Partial: if every ended job has its result looked at before anything else happens, and all acknowledged requests have different correlation ids, then every
    acknowledged request is still being worked on and has no answer yet, or is no longer worked on and was answered exactly once, with an error or the reply to its own
    sequence number; and nobody else is answered. Without the first condition it fails (C40_answered_twice_refuted, C40_never_answered_refuted), without
    the second too (C40_equal_ids_refuted). *)
Theorem C40_answered_once_partial B T clients s : NoDup clients -> calm B T clients s -> NoDup (map cid (acked s)) -> NoDup (map rid (acked s)) ->
  (forall r, In r (acked s) ->
     (In r (working clients s) /\ filter (fun x => fst x =? rid r) (answers s) = []) \/
     (~ In r (working clients s) /\ exists a, filter (fun x => fst x =? rid r) (answers s) = [(rid r, a)] /\ (a = Timeout \/ a = Reply (seq r)))) /\
  (forall i a, In (i, a) (answers s) -> exists r, In r (acked s) /\ rid r = i) /\
  (forall r, In r (working clients s) -> In r (acked s)).
Proof.
  intros ND Hc Nc Nr. destruct (calm_W B T clients ND s Hc Nc) as (_ & d & H1 & H2 & H3).
  assert (A : forall i a, In (i, a) (answers s) -> a = Timeout \/ exists n, a = Reply n).
  { clear - Hc. assert (Rj : forall s r, answers (send B T r s) = answers s).
    { intros s0 r. assert (X : answers s0 = answers s0) by reflexivity. revert X. apply (send_inv B T (fun x => answers x = answers s0) (fun x => answers x = answers s0)); auto.
      intros s1 c q E _ _ _. rewrite <- E. unfold addBatch. cbv zeta. set (s2 := match pend s1 c with [] => timerStart T c s1 | _ => s1 end).
      assert (E2 : answers s2 = answers s1). { unfold s2, timerStart. destruct (pend s1 c); [destruct T|]; auto. }
      rewrite <- E2. match goal with |- context [if ?b then _ else _] => destruct b end; reflexivity. }
    assert (St : forall s e, (forall i a, In (i, a) (answers s) -> a = Timeout \/ exists n, a = Reply n) -> forall i a, In (i, a) (answers (step B T s e)) -> a = Timeout \/ exists n, a = Reply n).
    { intros s0 e H i a. unfold step. destruct (crashed s0); [apply H|]. destruct e.
      - rewrite Rj. apply H.
      - destruct (armed s0); apply H.
      - destruct (expired s0), (fired s0); try apply H. destruct (tclient s0); apply H.
      - destruct (fired s0); [|apply H]. cbv zeta. cbn [queue]. destruct (queue s0); [apply H|]. destruct (_ =? _); apply H.
      - destruct (findJob c s0) as [[[]|r []]|]; try apply H. destruct (pend s0 c); apply H.
      - destruct (findJob c s0) as [[[]|r []]|]; try apply H; cbn; rewrite in_app_iff; (intros [Hi|Hi]; [exact (H _ _ Hi)|]).
        + destruct (_ && _); [|destruct Hi]. unfold batchReplies in Hi. apply in_flat_map in Hi as (q & _ & Hi). apply in_map_iff in Hi as (p9 & Hi & _). injection Hi as _ <-. eauto.
        + destruct Hi as [Hi|[]]. injection Hi as _ <-. destruct ok; eauto.
      - destruct (find _ (post s0)); [|apply H]. cbn. rewrite in_app_iff. intros [Hi|Hi]; [exact (H _ _ Hi)|]. destruct (good s0 c); [destruct Hi|]. apply in_map_iff in Hi as (p9 & Hi & _). injection Hi as _ <-. auto.
      - apply H. }
    induction Hc; [intros i a []|apply St; auto|apply St; apply St; auto]. }
  assert (Nw : NoDup (map rid (working clients s ++ d))). { eapply Permutation_NoDup; [|exact Nr]. apply Permutation_map. exact H1. }
  assert (Na : NoDup (map fst (answers s))). { eapply Permutation_NoDup; [symmetry; exact H2|]. rewrite map_app in Nw. apply nd_app_r in Nw. exact Nw. }
  assert (Hex : forall r r', In r (working clients s) -> In r' d -> rid r <> rid r').
  { intros r r' Hr Hr' E. apply in_split in Hr as (x & y & Ew). rewrite Ew, <- app_assoc, map_app in Nw. cbn in Nw. apply NoDup_remove_2 in Nw. apply Nw. rewrite E.
    rewrite !in_app_iff, !map_app, !in_app_iff. right. right. apply in_map. exact Hr'. }
  split; [|split].
  - intros r Hr. eapply Permutation_in in Hr; [|exact H1]. apply in_app_or in Hr as [Hr|Hr].
    + left. split; auto. destruct (filter _ (answers s)) as [|[i a] t] eqn:F; auto. exfalso. assert (X : In (i, a) ((i, a) :: t)) by (left; auto). rewrite <- F in X. apply filter_In in X as [X1 X2].
      cbn in X2. apply Nat.eqb_eq in X2. subst i. apply (in_map fst) in X1. cbn in X1. eapply Permutation_in in X1; [|exact H2]. apply in_map_iff in X1 as (r' & E & Hr'). eapply Hex; eauto.
    + right. split. { intros Hw. eapply Hex; eauto. }
      assert (X : In (rid r) (map fst (answers s))). { eapply Permutation_in; [symmetry; exact H2|]. apply in_map. exact Hr. }
      apply in_map_iff in X as ([i a] & E & X). cbn in E. subst i. exists a. split; [apply nd_filter; auto|].
      destruct (A _ _ X) as [->|[n ->]]; auto. right. destruct (H3 _ _ X) as (r' & R1 & R2 & R3). f_equal. rewrite <- R3. f_equal.
      rewrite map_app in Nw. apply nd_app_r in Nw. eapply nd_inj; eauto.
  - intros i a X. apply (in_map fst) in X. cbn in X. eapply Permutation_in in X; [|exact H2]. apply in_map_iff in X as (r & E & Hr). exists r. split; auto. eapply Permutation_in; [symmetry; exact H1|]. apply in_or_app. auto.
  - intros r Hr. eapply Permutation_in; [symmetry; exact H1|]. apply in_or_app. auto.
Qed.
Print Assumptions C40_answered_once_partial.

(** Partial: as long as all clients stay connected and nothing has crashed, every client with requests waiting is in a job of its own, or is the next to be used and its timer runs or
    has fired and is about to send the batch. So no acknowledged request is forgotten. With connections that come and go it fails (C40_forgotten_refuted). *)
Theorem C40_waiting_is_watched_partial B clients s c : NoDup clients -> connected B true clients s -> crashed s = false -> pend s c <> [] ->
  (exists b, In (c, JBatch b) (jobs s)) \/
  (exists q, queue s = c :: q /\ ((tclient s = Some c /\ (armed s = true \/ 0 < expired s)) \/ fired s = Some c)).
Proof. intros ND H Cr Hn. destruct (connected_Tm B true clients ND s eq_refl H Cr) as [_ [_ H2]]. exact (H2 c Hn). Qed.
Print Assumptions C40_waiting_is_watched_partial.

(** Partial: if the timer's thread handles the end of a wait at once, nothing ever crashes, whatever else happens. Otherwise it may (C40_stale_timer_refuted). *)
Theorem C40_no_crash_partial B T clients s : NoDup clients -> prompt B T clients s -> crashed s = false.
Proof. intros ND H. destruct (prompt_K B T clients ND s H) as [_ [H1 _]]. exact H1. Qed.
Print Assumptions C40_no_crash_partial.

(** * What fails. *)
Definition rq (i : nat) (b : bool) : req := mkReq i i (100 + i) b false.
(** A handler of the timer that runs late takes down the process: with no client free; with a batch already sent; with the client of a later wait. *)
Theorem C40_stale_timer_refuted :
  crashed (run 2 true [0] [Send (rq 1 true); Expire; Send (rq 2 true); Handler; OnTimeout]) = true /\
  crashed (run 2 true [0; 1] [Send (rq 1 true); Expire; Handler; Send (rq 2 true); Begin 0; Done 0 true; Check 0; Send (rq 3 false); OnTimeout; Begin 0]) = true /\
  crashed (run 2 true [0; 1] [Send (rq 1 true); Expire; Send (rq 2 true); Send (rq 3 true); Expire; Handler; OnTimeout; Handler]) = true.
Proof. vm_compute. auto. Qed.
Print Assumptions C40_stale_timer_refuted.
(** A client that loses its connections while it has requests waiting is put behind the others; the timer is taken over by the next client; the acknowledged request stays, with nothing left that would
    send it, even after the connections are back: no job, no wait, no handler. *)
Theorem C40_forgotten_refuted :
  let s := run 3 true [0; 1] [Send (rq 1 true); Serve 0 false; Send (rq 2 true); Expire; Handler; OnTimeout; Begin 1; Done 1 true; Check 1; Serve 0 true] in
  acked s = [rq 1 true; rq 2 true] /\ answers s = [(2, Reply 102)] /\ pend s 0 = [rq 1 true] /\ jobs s = [] /\ armed s = false /\ expired s = 0 /\ fired s = None /\ crashed s = false /\ queue s = [0; 1].
Proof. vm_compute. repeat split. Qed.
Print Assumptions C40_forgotten_refuted.
(** The client is free before its result is looked at: with a good batch followed by a bad one in between, the first is told of a timeout after its reply. *)
Theorem C40_answered_twice_refuted :
  answers (run 1 true [0] [Send (rq 1 true); Begin 0; Done 0 true; Send (rq 2 true); Begin 0; Done 0 false; Check 0]) = [(1, Reply 101); (1, Timeout)].
Proof. reflexivity. Qed.
Print Assumptions C40_answered_twice_refuted.
(** With a bad batch followed by the start of another, the first is never answered. *)
Theorem C40_never_answered_refuted :
  let s := run 1 true [0] [Send (rq 1 true); Begin 0; Done 0 false; Send (rq 2 true); Begin 0; Check 0; Done 0 true; Check 0] in
  acked s = [rq 1 true; rq 2 true] /\ answers s = [(2, Reply 102)] /\ working [0] s = [] /\ post s = [] /\ jobs s = [].
Proof. vm_compute. repeat split. Qed.
Print Assumptions C40_never_answered_refuted.
(** Two requests of a batch with the same correlation id are each answered twice, once with the reply to the other. *)
Theorem C40_equal_ids_refuted :
  answers (run 2 true [0] [Send (mkReq 1 7 101 true false); Send (mkReq 2 7 102 true false); Begin 0; Done 0 true; Check 0]) =
    [(1, Reply 101); (2, Reply 101); (1, Reply 102); (2, Reply 102)].
Proof. reflexivity. Qed.
Print Assumptions C40_equal_ids_refuted.
(** With a timeout of zero the timer is off, and a request waits until others fill the batch. *)
Theorem C40_no_timer_refuted :
  let s := run 2 false [0] [Send (rq 1 true)] in
  acked s = [rq 1 true] /\ pend s 0 = [rq 1 true] /\ jobs s = [] /\ armed s = false /\ expired s = 0 /\ fired s = None.
Proof. vm_compute. repeat split. Qed.
Print Assumptions C40_no_timer_refuted.

(** * The hypotheses are met. *)
Definition ex : list event := [Send (rq 1 true); Send (rq 2 true); Send (rq 3 false); Send (rq 4 true); Begin 0].
Example ex_calm : calm 2 true [0; 1; 2] (step 2 true (step 2 true (run 2 true [0; 1; 2] ex) (Done 0 true)) (Check 0)).
Proof. apply calmDone. unfold run, ex. cbn [fold_left]. do 5 (apply calmStep; [|discriminate|discriminate]). apply calm0. Qed.
Example ex_values : let s := step 2 true (step 2 true (run 2 true [0; 1; 2] ex) (Done 0 true)) (Check 0) in
  answers s = [(1, Reply 101); (2, Reply 102)] /\ working [0; 1; 2] s = [rq 4 true; rq 3 false] /\ acked s = [rq 1 true; rq 2 true; rq 3 false; rq 4 true] /\ queue s = [2; 0] /\ jobs s = [(1, JSingle (rq 3 false) false)] /\
  tclient s = Some 2 /\ armed s = true.
Proof. vm_compute. repeat split. Qed.
Example ex_connected : connected 2 true [0; 1; 2] (run 2 true [0; 1; 2] ex).
Proof. unfold run, ex. cbn [fold_left]. do 5 (apply conStep; [|discriminate]). apply con0. Qed.
Example ex_prompt : let s := step 2 true (step 2 true (step 2 true (run 2 true [0; 1; 2] ex) Expire) Handler) OnTimeout in
  prompt 2 true [0; 1; 2] s /\ jobs s = [(0, JBatch true); (1, JSingle (rq 3 false) false); (2, JBatch false)].
Proof. split; [|vm_compute; reflexivity]. apply proTimer. unfold run, ex. cbn [fold_left]. do 5 (apply proStep; [|discriminate..]). apply pro0. Qed.
Example ex_refused : let s := run 2 true [0; 1] [Send (rq 1 false); Serve 1 false; Send (rq 2 true); Begin 0; Send (rq 3 false)] in
  rejected s = [(2, NotReady); (3, NotReady)] /\ rejected (run 2 true [0] [Send (rq 1 false); Send (rq 2 true)]) = [(2, Overloaded)].
Proof. vm_compute. auto. Qed.
