(** C43: a replica that fetches state always has a source, and tries them all. *)
From Coq Require Import List Arith Bool Lia.
From Verif Require Import Src_Model Src_Proofs Src_Proofs2.
Import ListNotations.

(** No assertion about the source fails, whatever happens: there is always a replica to choose. *)
Theorem C43_never_stuck k l : proper k -> failed (run k l) = false /\ (md (run k l) = Fetching -> pref (run k l) <> []).
Proof. intros P. destruct (ok_run k P l) as (A & _ & _ & _ & _ & B & _). auto. Qed.
Print Assumptions C43_never_stuck.
(** Only other replicas of the cluster are chosen. *)
Theorem C43_sources_valid k l x : proper k -> In x (picked (run k l)) \/ cur (run k l) = Some x -> In x (k_all k).
Proof. intros P. destruct (ok_run k P l) as (_ & _ & A & _ & B & _). intros [H|H]; [auto|apply (A x H)]. Qed.
Print Assumptions C43_sources_valid.

(** As long as the known primary stays the same: after as many choices as there are preferred and other replicas, every replica but the primary has been chosen. *)
Theorem C43_all_tried_partial k l l' : proper k -> let s := run k l in let s' := runFrom k s l' in md s = Fetching -> Forall (same_primary (prim s)) l' ->
  exists p, picked s' = picked s ++ p /\ (length (pref s) + length (k_all k) <= length p -> forall r, In r (k_all k) -> prim s <> Some r -> In r p).
Proof. intros P s s' M F. apply every_one; auto. apply ok_run, P. Qed.
Print Assumptions C43_all_tried_partial.

(** The known primary is not chosen, when it has been taken out of the preferred replicas. *)
Theorem C43_primary_avoided_partial k l l' q : proper k -> let s := run k l in let s' := runFrom k s l' in md s = Fetching -> prim s = Some q -> ~ In q (pref s) -> Forall (same_primary (Some q)) l' ->
  exists p, picked s' = picked s ++ p /\ ~ In q p.
Proof. intros P s s' M E N F. destruct (primary_run k P l' s q (ok_run k P l) M E N F) as (p & A & B & _). eauto. Qed.
Print Assumptions C43_primary_avoided_partial.

(** A source from which nothing comes is replaced after one timeout more than the allowed number of retransmissions. *)
Theorem C43_silent_replaced k l x ts : proper k -> let s := run k l in md s = Fetching -> cur s = Some x -> 0 < stamp s -> late (k_rto k) (stamp s) ts -> length ts = S (k_maxr k) ->
  picked (runFrom k s (map silent ts)) <> picked s.
Proof. intros P s M C T L H. apply (silent_run k P ts s x); auto; [apply ok_run, P|destruct (ongoing s); lia|lia]. Qed.
Print Assumptions C43_silent_replaced.
(** A source whose messages come in time is kept. *)
Theorem C43_answering_kept k l x m : proper k -> let s := run k l in md s = Fetching -> cur s = Some x -> 0 < k_maxr k -> (forall d t, In (d, t) m -> 0 < t /\ t - d <= k_rto k) ->
  let s' := runFrom k s (dribble m) in cur s' = Some x /\ picked s' = picked s.
Proof. intros P s M C H D. destruct (dribble_run k P m s x (ok_run k P l) M C H D) as (A & B & _). auto. Qed.
Print Assumptions C43_answering_kept.

(** * What does not hold. *)
Definition net : cfg := mkCfg [1; 2; 3; 4; 5; 6] 10 0 3 10.
Lemma net_proper : proper net.
Proof. split; [|cbn; lia]. cbn. repeat constructor; cbn; intuition discriminate. Qed.
(** A source that sends something in time, but never what completes a block, is kept for ever. *)
Theorem C43_useless_replaced_refuted : exists l x, let s := run net l in cur s = Some x /\ picked s = [x] /\ forall n, exists l', length l' = n /\ (forall d t, In (d, t) l' -> 0 < t) /\ (forall i d t d' t', nth_error l' i = Some (d, t) -> nth_error l' (S i) = Some (d', t') -> t < t') /\
  let s' := runFrom net s (dribble l') in cur s' = Some x /\ picked s' = [x] /\ actual s' = [].
Proof.
  exists [Start; Summaries [1; 2; 3]; Process 1 0 false false (Nothing false false)], 3. cbv zeta. set (s := run _ _). assert (C : cur s = Some 3) by (vm_compute; reflexivity). assert (K : picked s = [3]) by (vm_compute; reflexivity). assert (M : md s = Fetching) by (vm_compute; reflexivity). assert (A0 : actual s = []) by (vm_compute; reflexivity). assert (O : ok net s) by apply (ok_run net net_proper). clearbody s. split; [exact C|]. split; [exact K|]. intros n.
  exists (map (fun i => (S i, S i)) (seq 0 n)). split; [rewrite map_length, seq_length; reflexivity|].
  assert (Hin : forall d t, In (d, t) (map (fun i => (S i, S i)) (seq 0 n)) -> 0 < t /\ t - d <= k_rto net) by (intros d t H; apply in_map_iff in H as (i & E & _); injection E as <- <-; rewrite Nat.sub_diag; lia).
  split; [intros d t H; apply (Hin d t H)|]. split.
  - assert (Nth : forall i x, nth_error (map (fun i => (S i, S i)) (seq 0 n)) i = Some x -> x = (S i, S i)).
    { intros i x H. rewrite nth_error_map in H. destruct (nth_error (seq 0 n) i) as [y|] eqn:E; [|discriminate]. assert (L : i < n) by (assert (X : nth_error (seq 0 n) i <> None) by congruence; apply nth_error_Some in X; rewrite seq_length in X; exact X).
      apply nth_error_nth with (d := 0) in E. rewrite seq_nth in E by exact L. cbn in *. congruence. }
    intros i d t d' t' H1 H2. apply Nth in H1, H2. injection H1 as _ ->. injection H2 as _ ->. lia.
  - destruct (dribble_run net net_proper (map (fun i => (S i, S i)) (seq 0 n)) s 3 O M C ltac:(cbn; lia) Hin) as (A & B & D). rewrite A, B, D. split; auto.
Qed.
Print Assumptions C43_useless_replaced_refuted.
(** Two faulty replicas that in turn make themselves known as the primary keep all the others from being chosen: the one that was the primary before is preferred again, so that the set is never filled up. *)
Definition turn (a t : nat) : list event := repeat (PP a) 10 ++ [Process t 0 true false (Nothing false false)].
Fixpoint turns (n : nat) : list event := match n with 0 => [] | S m => turn 1 5 ++ turn 2 5 ++ turns m end.
Theorem C43_all_tried_refuted : exists l, let s := run net l in md s = Fetching /\ forall n, exists l', let s' := runFrom net s l' in md s' = Fetching /\ length (picked s') = length (picked s) + 2 * n /\ (forall x, In x (picked s') -> In x [1; 2; 3]) /\
  (forall e, In e l' -> match e with PP _ | Process _ _ _ _ _ => True | _ => False end).
Proof.
  exists ([Start; Summaries [1; 2; 3]; Process 5 0 false false (Nothing false false)] ++ repeat (PP 2) 10 ++ [Process 5 0 true false (Nothing false false)]). cbv zeta. set (s := run _ _). split; [vm_compute; reflexivity|].
  set (base := fun p => mkSt Fetching [1] (Some 1) (Some 2) None 0 5 5 true 0 false [] false p).
  assert (E0 : s = base (picked s)) by (vm_compute; reflexivity). assert (E1 : picked s = [3; 1]) by (vm_compute; reflexivity).
  assert (T : forall p, runFrom net (base p) (turn 1 5 ++ turn 2 5) = base ((p ++ [2]) ++ [1])) by (intros p; vm_compute; reflexivity).
  assert (Md : forall p, md (base p) = Fetching) by reflexivity. assert (Pk : forall p, picked (base p) = p) by reflexivity. clearbody base. clearbody s.
  assert (App : forall a b s0, runFrom net s0 (a ++ b) = runFrom net (runFrom net s0 a) b) by (intros a b s0; unfold runFrom; apply fold_left_app).
  assert (R : forall n p, exists q, runFrom net (base p) (turns n) = base (p ++ q) /\ length q = 2 * n /\ forall x, In x q -> In x [1; 2; 3]).
  { induction n as [|n IH]; intros p; [exists []; rewrite app_nil_r; split; [reflexivity|split; [reflexivity|intros x []]]|]. destruct (IH ((p ++ [2]) ++ [1])) as (q & Q1 & Q2 & Q3).
    change (turns (S n)) with (turn 1 5 ++ turn 2 5 ++ turns n). rewrite app_assoc, App, T. exists ([2] ++ [1] ++ q). rewrite Q1, <- !app_assoc. split; [reflexivity|]. split; [cbn [app length]; lia|]. intros x Hx. cbn [app In] in *. destruct Hx as [<-|[<-|Hx]]; auto. }
  intros n. exists (turns n). rewrite E0. destruct (R n (picked s)) as (q & Q1 & Q2 & Q3). cbv zeta. rewrite Q1, Md, !Pk. split; [reflexivity|]. split; [rewrite app_length; lia|]. split.
  - intros x Hx. apply in_app_or in Hx as [Hx|Hx]; [|auto]. rewrite E1 in Hx. cbn [In] in Hx |- *. clear - Hx. intuition.
  - clear. induction n as [|n IH]; intros e He; [destruct He|]. change (turns (S n)) with (turn 1 5 ++ turn 2 5 ++ turns n) in He. unfold turn in He. apply in_app_or in He as [He|He]; [|apply in_app_or in He as [He|He]; [|exact (IH e He)]]; apply in_app_or in He as [He|[<-|[]]]; try exact I; apply repeat_spec in He; subst; exact I.
Qed.
Print Assumptions C43_all_tried_refuted.
(** One message of another replica, after nine of the primary, makes that replica the known primary. *)
Theorem C43_one_message_refuted : exists l x, let s := run net l in prim s = Some x /\ length (filter (fun e => match e with PP y => y =? x | _ => false end) l) = 1 /\ k_minp net = 10.
Proof. exists (repeat (PP 1) 9 ++ [PP 2]), 2. cbv zeta. split; [vm_compute; reflexivity|]. split; reflexivity. Qed.
Print Assumptions C43_one_message_refuted.
(** The known primary can be among the preferred replicas, and the source: when it was the only preferred one. *)
Theorem C43_primary_avoided_refuted : exists l x, let s := run net l in md s = Fetching /\ prim s = Some x /\ In x (pref s) /\ cur (step net s (Process 9 0 false false (Nothing false false))) = Some x.
Proof.
  exists ([Start; Summaries [1; 2]; Process 1 0 false false (Nothing false false); Reject] ++ repeat (PP 1) 10), 1. cbv zeta. vm_compute. auto 10.
Qed.
Print Assumptions C43_primary_avoided_refuted.


(** * The hypotheses are met. *)
Definition nothing : found := Nothing false false.
Example silent_ex : let l := [Start; Summaries [1; 2; 3]; Process 5 0 false false nothing] in let s := run net l in md s = Fetching /\ cur s = Some 3 /\ 0 < stamp s /\ late (k_rto net) (stamp s) [16; 27; 38; 49] /\
  picked (runFrom net s (map silent [16; 27; 38; 49])) = [3; 2] /\ picked (runFrom net s (map silent [16; 27])) = [3].
Proof. repeat split; try (vm_compute; reflexivity); vm_compute; lia. Qed.
Example dribble_ex : let s := run net [Start; Summaries [1; 2; 3]; Process 5 0 false false nothing] in md s = Fetching /\ cur s = Some 3 /\ 0 < k_maxr net /\ (forall d t, In (d, t) [(6, 16); (20, 30); (31, 41)] -> 0 < t /\ t - d <= k_rto net) /\
  picked (runFrom net s (dribble [(6, 16); (20, 30); (31, 41)])) = [3].
Proof.
  split; [vm_compute; reflexivity|]. split; [vm_compute; reflexivity|]. split; [vm_compute; lia|]. split; [|vm_compute; reflexivity].
  intros d t H. cbn [In] in H. destruct H as [H|[H|[H|[]]]]; injection H as <- <-; split; vm_compute; lia.
Qed.
(** The primary 4 is not among the preferred replicas; every choice is answered with data that is not valid. *)
Definition bads (n : nat) : list event := map (fun t => Process (S t) t true false nothing) (seq 0 n).
Example all_tried_ex : let s := run net ([Start; Summaries [1; 2; 3]; Process 5 0 false false nothing] ++ repeat (PP 4) 10) in let s' := runFrom net s (bads 9) in md s = Fetching /\ prim s = Some 4 /\ ~ In 4 (pref s) /\
  length (pref s) + length (k_all net) = 9 /\ Forall (same_primary (prim s)) (bads 9) /\ picked s' = [3; 2; 1; 3; 6; 2; 5; 1; 3; 1].
Proof. repeat split; try (vm_compute; reflexivity); [vm_compute; intuition discriminate|]. apply Forall_forall. intros e He. apply in_map_iff in He as (t & <- & _). exact I. Qed.
