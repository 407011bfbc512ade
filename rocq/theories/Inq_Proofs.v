From Coq Require Import List Arith Bool Lia.
From Verif Require Import Inq_Model.
Import ListNotations.

Section Inq.
Context (k : cfg).
Lemma runFrom_app a b s : runFrom k s (a ++ b) = runFrom k (runFrom k s a) b.
Proof. unfold runFrom. apply fold_left_app. Qed.
Lemma tookE_app s a : tookE (mkSt (pe s) (pi s) (le s) (li s) (dropped s) (stopped s) (out s ++ a) (ran s) (popped s)) = tookE s ++ flat_map (fun x => match x with Some (Ext m) => [m] | _ => [] end) a.
Proof. unfold tookE. cbn [out]. apply flat_map_app. Qed.
Lemma internals_cons e l : internals (e :: l) = internals [e] ++ internals l.
Proof. apply (flat_map_app _ [e] l). Qed.
(** What a turn does. *)
Inductive Turned (s s' : st) : Prop :=
| T_int m r : li s = m :: r -> li s' = r -> le s' = le s -> pe s' = pe s -> pi s' = pi s -> tookI s' = tookI s ++ [m] -> tookE s' = tookE s -> Turned s s'
| T_ext m r : li s = [] -> le s = m :: r -> le s' = r -> li s' = [] -> pe s' = pe s -> pi s' = pi s -> tookI s' = tookI s -> tookE s' = tookE s ++ [m] -> Turned s s'
| T_sint m r : li s = [] -> le s = [] -> pi s = m :: r -> li s' = r -> le s' = pe s -> pe s' = [] -> pi s' = [] -> tookI s' = tookI s ++ [m] -> tookE s' = tookE s -> Turned s s'
| T_sext m r : li s = [] -> le s = [] -> pi s = [] -> pe s = m :: r -> li s' = [] -> le s' = r -> pe s' = [] -> pi s' = [] -> tookI s' = tookI s -> tookE s' = tookE s ++ [m] -> Turned s s'
| T_none : li s = [] -> le s = [] -> pi s = [] -> pe s = [] -> li s' = [] -> le s' = [] -> pi s' = [] -> pe s' = [] -> tookI s' = tookI s -> tookE s' = tookE s -> Turned s s'.
Lemma turned s : stopped s = false -> Turned s (dispatch k s).
Proof using.
  intros N. destruct s as [a b c d dr sp o rn pp]. cbn in N. subst sp. unfold dispatch, getMsg, popLocal, swap. cbn [stopped li le pe pi dropped out ran popped].
  destruct d as [|m d]; [|eapply T_int; cbn; try reflexivity; unfold tookI, tookE; cbn [out]; rewrite flat_map_app; cbn; auto using app_nil_r].
  destruct c as [|m c]; [|eapply T_ext; cbn; try reflexivity; unfold tookI, tookE; cbn [out]; rewrite flat_map_app; cbn; auto using app_nil_r].
  cbn [stopped li le pe pi dropped out ran popped]. destruct b as [|m b]; [|destruct a; eapply T_sint; cbn; try reflexivity; unfold tookI, tookE; cbn [out]; rewrite flat_map_app; cbn; auto using app_nil_r].
  destruct a as [|m a]; [apply T_none; cbn; auto; unfold tookI, tookE; cbn [out]; rewrite flat_map_app; cbn; auto using app_nil_r|].
  eapply T_sext; cbn; try reflexivity; unfold tookI, tookE; cbn [out]; rewrite flat_map_app; cbn; auto using app_nil_r.
Qed.
Lemma stopped_step s e : e <> Stop -> stopped (step k s e) = stopped s.
Proof using.
  clear. intros H. destruct e; cbn [step]; unfold receive, pushE, pushI, dispatch, getMsg, popLocal, swap; try congruence.
  - destruct (_ <=? _); reflexivity.
  - destruct (_ <? _); [reflexivity|]. destruct (_ <? _); [reflexivity|]. destruct (_ <=? _); reflexivity.
  - reflexivity.
  - destruct (stopped s) eqn:E; [reflexivity || exact E|]. destruct (li s) eqn:A; [|cbn; auto]. destruct (le s) eqn:B; [|cbn; auto]. destruct (pe s) eqn:C, (pi s) eqn:D; cbn; auto.
Qed.
(** What a push does. *)
Lemma pushed s e : e <> Turn -> let s' := step k s e in li s' = li s /\ le s' = le s /\ pe s' = pe s ++ accepts k s e /\ pi s' = pi s ++ internals [e] /\ tookE s' = tookE s /\ tookI s' = tookI s.
Proof using.
  clear. intros H. destruct e; cbn [step accepts internals flat_map app]; unfold receive, pushE, pushI, tookE, tookI; rewrite ?app_nil_r; try congruence.
  - destruct (_ <=? _); cbn; rewrite ?app_nil_r; auto 10.
  - destruct (_ <? _); [cbn; rewrite ?app_nil_r; auto 10|]. destruct (_ <? _); [cbn; rewrite ?app_nil_r; auto 10|]. destruct (_ <=? _); cbn; rewrite ?app_nil_r; auto 10.
  - cbn. auto 10.
  - cbn. auto 10.
Qed.
Lemma turned_any s : Turned s (dispatch k s) \/ dispatch k s = s.
Proof using. destruct (stopped s) eqn:E; [right; unfold dispatch; rewrite E; reflexivity|left; apply turned, E]. Qed.
(** Nothing is lost and nothing is doubled. *)
Lemma all_ext l : forall s, tookE (runFrom k s l) ++ le (runFrom k s l) ++ pe (runFrom k s l) = (tookE s ++ le s ++ pe s) ++ accepted k s l.
Proof using.
  induction l as [|e l IH]; intros s; [cbn; rewrite app_nil_r; reflexivity|]. cbn [accepted]. change (runFrom k s (e :: l)) with (runFrom k (step k s e) l). rewrite IH, (app_assoc _ (accepts k s e)). f_equal.
  destruct e; try (match goal with |- context [step k s ?e] => destruct (pushed s e ltac:(congruence)) as (A & B & C & D & E & F) end; rewrite B, C, E, <- !app_assoc; reflexivity).
  cbn [accepts]. rewrite app_nil_r. cbn [step]. destruct (turned_any s) as [T|T]; [|rewrite T; reflexivity]. destruct T; repeat match goal with H : _ = _ |- _ => rewrite H end; cbn [app]; rewrite <- ?app_assoc, ?app_nil_r; cbn [app]; rewrite ?app_nil_r; reflexivity.
Qed.
Lemma all_int l : forall s, tookI (runFrom k s l) ++ li (runFrom k s l) ++ pi (runFrom k s l) = (tookI s ++ li s ++ pi s) ++ internals l.
Proof using.
  induction l as [|e l IH]; intros s; [cbn; rewrite app_nil_r; reflexivity|]. rewrite (internals_cons e l). change (runFrom k s (e :: l)) with (runFrom k (step k s e) l). rewrite IH, (app_assoc _ (internals [e])). f_equal.
  destruct e; try (match goal with |- context [step k s ?e] => destruct (pushed s e ltac:(congruence)) as (A & B & C & D & E & F) end; rewrite A, D, F, <- !app_assoc; reflexivity).
  cbn [internals flat_map app]. rewrite app_nil_r. cbn [step]. destruct (turned_any s) as [T|T]; [|rewrite T; reflexivity]. destruct T; repeat match goal with H : _ = _ |- _ => rewrite H end; cbn [app]; rewrite <- ?app_assoc, ?app_nil_r; cbn [app]; rewrite ?app_nil_r; reflexivity.
Qed.
(** Bounds. *)
Lemma bounds l : forall s, length (pe s) <= k_cap k -> length (le s) <= k_cap k -> length (pe (runFrom k s l)) <= k_cap k /\ length (le (runFrom k s l)) <= k_cap k.
Proof using.
  induction l as [|e l IH]; intros s A B; [cbn; auto|]. change (runFrom k s (e :: l)) with (runFrom k (step k s e) l). apply IH.
  - destruct e; cbn [step]; unfold receive, pushE, pushI; try (cbn; lia).
    + destruct (k_cap k <=? length (pe s)) eqn:E; cbn; [lia|]. apply Nat.leb_gt in E. rewrite app_length. cbn. lia.
    + destruct (_ <? _); [cbn; lia|]. destruct (_ <? _); [cbn; lia|]. destruct (k_cap k <=? length (pe s)) eqn:E; cbn; [lia|]. apply Nat.leb_gt in E. rewrite app_length. cbn. lia.
    + destruct (turned_any s) as [T|T]; [|rewrite T; lia]. destruct T; repeat match goal with H : pe (dispatch k s) = _ |- _ => rewrite H end; cbn; lia.
  - destruct e; try (match goal with |- context [step k s ?e] => destruct (pushed s e ltac:(congruence)) as (A' & B' & _) end; rewrite B'; lia).
    cbn [step]. destruct (turned_any s) as [T|T]; [|rewrite T; lia]. destruct T; repeat match goal with H : le (dispatch k s) = _ |- _ => rewrite H end; repeat match goal with H : le s = _ |- _ => rewrite H in * end; repeat match goal with H : pe s = _ |- _ => rewrite H in * end; cbn in *; lia.
Qed.

(** An internal message is not overtaken. *)
Lemma first l : forall s A I, length (tookE s) + length (le s) <= A \/ I <= length (tookI s) + length (li s) /\ (length (tookE s) <= A \/ I <= length (tookI s)) -> I <= length (tookI s) + length (li s) + length (pi s) ->
  A < length (tookE (runFrom k s l)) -> I <= length (tookI (runFrom k s l)).
Proof using.
  induction l as [|e l IH]; intros s A I H T; [cbn; lia|]. change (runFrom k s (e :: l)) with (runFrom k (step k s e) l). apply IH; clear IH.
  - destruct e; try (match goal with |- context [step k s ?e] => destruct (pushed s e ltac:(congruence)) as (A' & B' & C' & D' & E' & F') end; rewrite A', B', E', F'; exact H).
    cbn [step]. destruct (turned_any s) as [X|X]; [|rewrite X; exact H]. destruct X; repeat match goal with H0 : _ = _ |- _ => rewrite H0 in * end; rewrite ?app_length in *; cbn [length] in *; lia.
  - destruct e; try (match goal with |- context [step k s ?e] => destruct (pushed s e ltac:(congruence)) as (A' & B' & C' & D' & E' & F') end; rewrite A', D', F', app_length; lia).
    cbn [step]. destruct (turned_any s) as [X|X]; [|rewrite X; exact T]. destruct X; repeat match goal with H0 : _ = _ |- _ => rewrite H0 in * end; rewrite ?app_length in *; cbn [length] in *; lia.
Qed.

(** Turns take what waits. *)
Lemma drain l : forall s, stopped s = false -> noStop l -> length (le s) + length (li s) <= turns l ->
  length (tookE s) + length (le s) <= length (tookE (runFrom k s l)) /\ length (tookI s) + length (li s) <= length (tookI (runFrom k s l)).
Proof using.
  assert (Mono : forall l s, length (tookE s) <= length (tookE (runFrom k s l)) /\ length (tookI s) <= length (tookI (runFrom k s l))).
  { clear l. induction l as [|e l IH]; intros s; [cbn; auto|]. change (runFrom k s (e :: l)) with (runFrom k (step k s e) l). specialize (IH (step k s e)).
    assert (length (tookE s) <= length (tookE (step k s e)) /\ length (tookI s) <= length (tookI (step k s e))); [|lia]. 
    destruct e; try (match goal with |- context [step k s ?e] => destruct (pushed s e ltac:(congruence)) as (A' & B' & C' & D' & E' & F') end; rewrite E', F'; lia).
    cbn [step]. destruct (turned_any s) as [X|X]; [|rewrite X; lia]. destruct X; repeat match goal with H0 : _ = _ |- _ => rewrite H0 in * end; rewrite ?app_length in *; cbn [length] in *; lia. }
  induction l as [|e l IH]; intros s N NS T; [cbn in T|-*; lia|]. change (runFrom k s (e :: l)) with (runFrom k (step k s e) l).
  assert (NS' : noStop l) by (intros H; apply NS; right; exact H). assert (Ne : e <> Stop) by (intros ->; apply NS; left; reflexivity).
  assert (N' : stopped (step k s e) = false) by (rewrite stopped_step; auto).
  specialize (IH (step k s e) N' NS'). specialize (Mono l (step k s e)). unfold turns in T. cbn [filter] in T. fold (turns l) in IH.
  destruct e; try congruence; try (match goal with H : context [step k s ?e] |- _ => destruct (pushed s e ltac:(congruence)) as (A' & B' & C' & D' & E' & F') end; rewrite A', B', E', F' in IH; apply IH; exact T).
  cbn [length] in T. fold (turns l) in T. cbn [step] in *. pose proof (turned s N) as X. destruct X; repeat match goal with H0 : _ = _ |- _ => rewrite H0 in * end; rewrite ?app_length in *; cbn [length] in *; lia.
Qed.
Lemma served l1 : forall s l2, stopped s = false -> noStop (l1 ++ l2) -> length (le s) + length (li s) < turns l1 -> length (pe s) + length (pi s) + (pushes l1 + length (internals l1)) <= turns l2 ->
  length (tookE s) + length (le s) + length (pe s) <= length (tookE (runFrom k s (l1 ++ l2))) /\ length (tookI s) + length (li s) + length (pi s) <= length (tookI (runFrom k s (l1 ++ l2))).
Proof using.
  induction l1 as [|e l1 IH]; intros s l2 N NS T1 T2; [cbn in T1; lia|]. cbn [app] in *. change (runFrom k s (e :: l1 ++ l2)) with (runFrom k (step k s e) (l1 ++ l2)).
  assert (NS' : noStop (l1 ++ l2)) by (intros H; apply NS; right; exact H). assert (Ne : e <> Stop) by (intros ->; apply NS; left; reflexivity).
  assert (N' : stopped (step k s e) = false) by (rewrite stopped_step; auto). specialize (IH (step k s e) l2 N' NS').
  assert (Acc : length (accepts k s e) <= pushes [e]) by (destruct e; cbn; try (destruct (fst _)); cbn; lia).
  assert (P : pushes (e :: l1) = pushes [e] + pushes l1) by (unfold pushes; cbn [filter]; destruct e; cbn; lia). assert (Q : length (internals (e :: l1)) = length (internals [e]) + length (internals l1)) by (rewrite (internals_cons e l1); apply app_length).
  unfold turns in T1. cbn [filter] in T1.
  destruct e; try congruence; try (match goal with H : context [step k s ?e] |- _ => destruct (pushed s e ltac:(congruence)) as (A' & B' & C' & D' & E' & F') end; rewrite A', B', C', D', E', F', !app_length in IH; fold (turns l1) in T1; lia).
  cbn [length] in T1. fold (turns l1) in T1. cbn [step] in *.
  assert (Dr := drain (l1 ++ l2) (dispatch k s) N' NS'). assert (Tn : turns (l1 ++ l2) = turns l1 + turns l2) by (unfold turns; rewrite filter_app, app_length; reflexivity). rewrite Tn in Dr.
  pose proof (turned s N) as X. destruct X; repeat match goal with H0 : _ = _ |- _ => rewrite H0 in * end; rewrite ?app_length in *; cbn [length] in *; lia.
Qed.
(** Only what has a handler is given to one, in the order in which it was taken; the callbacks of what was taken ran. *)
Lemma handled l : forall s, ran s = filter (known k) (taken s) -> popped s = tookE s -> ran (runFrom k s l) = filter (known k) (taken (runFrom k s l)) /\ popped (runFrom k s l) = tookE (runFrom k s l).
Proof using.
  induction l as [|e l IH]; intros s A B; [cbn; auto|]. change (runFrom k s (e :: l)) with (runFrom k (step k s e) l). apply IH; clear IH; unfold taken, tookE in *.
  - destruct e; cbn [step]; unfold receive, pushE, pushI, dispatch, getMsg, popLocal, swap; repeat (match goal with |- context [if ?b then _ else _] => destruct b eqn:? | |- context [match ?x with [] => _ | _ :: _ => _ end] => destruct x eqn:? end; cbn [fst snd ran out li le pe pi]);
      try exact A; rewrite ?flat_map_app; cbn [flat_map app]; rewrite ?app_nil_r, ?filter_app; cbn [filter known]; repeat match goal with H : k_known _ _ = _ |- _ => rewrite H end; rewrite A, ?app_nil_r; reflexivity.
  - destruct e; cbn [step]; unfold receive, pushE, pushI, dispatch, getMsg, popLocal, swap; repeat (match goal with |- context [if ?b then _ else _] => destruct b eqn:? | |- context [match ?x with [] => _ | _ :: _ => _ end] => destruct x eqn:? end; cbn [fst snd popped out li le pe pi]);
      try exact B; rewrite ?flat_map_app; cbn [flat_map app]; rewrite B, ?app_nil_r; reflexivity.
Qed.
End Inq.
