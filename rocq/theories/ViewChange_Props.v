(** C04 (restrictions), C05 (stable lower bound), C06 (view numbers). Specification: end of ViewChange_Model.v. *)
From Coq Require Import List Arith Lia Bool Permutation.
From Verif Require Import Lib_Sets ViewChange_Model ViewChange_Proofs.
Import ListNotations.

(** For every set of well-formed view-change messages with consistent signature verdicts, the computation does not hit an
    assertion, and the restriction of every sequence number in the window is what the rule prescribes; the restricted range
    is empty if no message has an element above the bound and is otherwise lb+1 .. lb+300, or lb+1 .. lb+150 if there is a
    non-null restriction and none is above lb+150. *)
Theorem C04_restrictions_follow_rule F C a lb :
  1 <= F + C -> Forall wellFormed (present a) -> consistentSigs (present a) ->
  exists mn mx rs, computeRestrictions F C a lb = Some (mn, mx, rs) /\ length rs = kWorkWindowSize /\
    (forall s, lb < s <= lb + kWorkWindowSize ->
       exists r, Rule F C (present a) s r /\ nth_error rs (s - lb - 1) = Some (norm r)) /\
    RangeSpec (present a) lb mn mx rs.
Proof. exact (computeRestrictions_ok F C a lb). Qed.
Print Assumptions C04_restrictions_follow_rule.

(** The rule determines the restriction: it is a function of the messages. *)
Theorem C04_rule_functional F C M s r r' :
  Forall wellFormed M -> length M <= 2 * F + 2 * C + 1 -> Rule F C M s r -> Rule F C M s r' -> r = r'.
Proof. exact (Rule_unique F C M s r r'). Qed.
Print Assumptions C04_rule_functional.

(** The output does not depend on the positions (order) of the messages. *)
Theorem C04_order_independent F C a a' lb :
  1 <= F + C -> Permutation (present a) (present a') ->
  Forall wellFormed (present a) -> consistentSigs (present a) -> length (present a) <= 2 * F + 2 * C + 1 ->
  computeRestrictions F C a lb = computeRestrictions F C a' lb.
Proof. exact (computeRestrictions_perm F C a a' lb). Qed.
Print Assumptions C04_order_independent.

(** Without the consistency of signature verdicts the claim is false of the code: std::set<SlowElem> drops a valid certificate
    equivalent to an earlier one with a bad signature, so the result depends on the order of the messages (f=2, c=0). *)
Definition goodM := mkVC 4 2 0 [mkElem 7 99 1 (Some (1, true))].
Definition badM := mkVC 0 2 0 [mkElem 7 99 1 (Some (1, false))].
Theorem C04_order_independent_refuted :
  exists F C a a' lb, 1 <= F + C /\ Permutation (present a) (present a') /\ Forall wellFormed (present a) /\
    length (present a) <= 2 * F + 2 * C + 1 /\
    computeRestrictions F C a lb <> computeRestrictions F C a' lb /\
    (exists mn mx rs, computeRestrictions F C a lb = Some (mn, mx, rs) /\ nth_error rs 6 = Some None) /\
    TopCert (present a) 7 1 99.
Proof.
  exists 2, 0, [Some badM; Some (mkVC 1 2 0 []); None; None; Some goodM; Some (mkVC 5 2 0 []); Some (mkVC 6 2 0 [])],
    [Some goodM; Some (mkVC 1 2 0 []); None; None; Some badM; Some (mkVC 5 2 0 []); Some (mkVC 6 2 0 [])], 0.
  split; [lia|]. split.
  { simpl. apply (Permutation_trans (l' := [goodM; badM; mkVC 1 2 0 []; mkVC 5 2 0 []; mkVC 6 2 0 []])).
    - apply (Permutation_trans (l' := [badM; goodM; mkVC 1 2 0 []; mkVC 5 2 0 []; mkVC 6 2 0 []])); [apply perm_skip, perm_swap | apply perm_swap].
    - apply perm_skip, perm_swap. }
  split; [repeat constructor|]. split; [simpl; lia|]. split; [vm_compute; intro E; discriminate E|].
  split; [eexists _, _, _; split; [vm_compute; reflexivity | reflexivity]|].
  split.
  - exists goodM, (mkElem 7 99 1 (Some (1, true))). simpl. tauto.
  - intros v' d' (m & e & Hm & He & Hs & Hd & Hc). right. simpl in Hm.
    destruct Hm as [<-|[<-|[<-|[<-|[<-|[]]]]]]; simpl in He;
    repeat match goal with H : _ \/ _ |- _ => destruct H | H : False |- _ => destruct H end; subst; simpl in *; try discriminate.
    injection Hc as <-. lia.
Qed.
Print Assumptions C04_order_independent_refuted.

(** With f = c = 0 one vote should suffice, but the code compares the counter only after an increment (f >= 1 is required by the
    configuration's documentation). *)
Theorem C04_single_replica_refuted :
  exists a lb s, length (present a) = 1 /\ Forall wellFormed (present a) /\ consistentSigs (present a) /\ lb < s <= lb + kWorkWindowSize /\
    Rule 0 0 (present a) s (Some 99) /\ exists mn mx rs, computeRestrictions 0 0 a lb = Some (mn, mx, rs) /\ nth_error rs (s - lb - 1) = Some None.
Proof.
  exists [Some (mkVC 0 2 0 [mkElem 1 99 1 None])], 0, 1. split; [reflexivity|]. split; [repeat constructor|].
  split. { intros m1 m2 e1 e2 v ok1 ok2 [<-|[]] [<-|[]] [<-|[]] [<-|[]]; simpl; intros; discriminate. }
  split. { Transparent kWorkWindowSize. unfold kWorkWindowSize. lia. }
  split.
  - exists 0. split.
    + right. split; [|reflexivity]. intros v d (m & e & [<-|[]] & [<-|[]] & _ & _ & H). discriminate.
    + left. exists 99. split; [reflexivity|]. vm_compute. lia.
  - eexists _, _, _. split; vm_compute; reflexivity.
Qed.
Print Assumptions C04_single_replica_refuted.

(** C05: the bound is the (f+1)-th largest reported value; it is backed by f+1 messages, by at least one correct replica for every
    fault set, and is computed for every quorum of messages for one view (otherwise the assertion fails). *)
Theorem C05_lower_bound F C a x : calcLB F C a = Some x ->
  length (present a) = 2 * F + 2 * C + 1 /\
  F + 1 <= geReports x (present a) /\ gtReports x (present a) <= F /\ In x (map vc_ls (present a)) /\
  exists v, forall m, In m (present a) -> vc_view m = v.
Proof. exact (calcLB_spec F C a x). Qed.
Print Assumptions C05_lower_bound.

Theorem C05_backed_by_correct F C a x Z : calcLB F C a = Some x -> NoDup (map vc_from (present a)) -> length Z <= F ->
  exists m, In m (present a) /\ ~ In (vc_from m) Z /\ x <= vc_ls m.
Proof. exact (calcLB_honest F C a x Z). Qed.
Print Assumptions C05_backed_by_correct.

Theorem C05_defined F C a : length (present a) = 2 * F + 2 * C + 1 ->
  (exists v, forall m, In m (present a) -> vc_view m = v) -> exists x, calcLB F C a = Some x.
Proof. exact (calcLB_total F C a). Qed.
Print Assumptions C05_defined.

(** C06: adopted view numbers (first: correct, second: agreed) are backed by f+1 / 2f+2c+1 messages, are the largest such, and are
    at most a view requested by a correct replica. *)
Theorem C06_views F C p a :
  let '(vc, va) := relevantViews F C p a in
  (vc = p \/ (p < vc /\ F + 1 <= asks vc (present a))) /\
  (va = p \/ (p < va /\ 2 * F + 2 * C + 1 <= asks va (present a))) /\
  (forall v, vc < v -> asks v (present a) <= F) /\
  (forall v, va < v -> asks v (present a) <= 2 * F + 2 * C) /\ va <= vc.
Proof. exact (relevantViews_spec F C p a). Qed.
Print Assumptions C06_views.

Theorem C06_views_backed_by_correct F C p a Z : NoDup (map vc_from (present a)) -> length Z <= F ->
  let '(vc, va) := relevantViews F C p a in
  (p < vc -> exists m, In m (present a) /\ ~ In (vc_from m) Z /\ vc <= vc_view m) /\
  (p < va -> exists m, In m (present a) /\ ~ In (vc_from m) Z /\ va <= vc_view m).
Proof. exact (relevantViews_honest F C p a Z). Qed.
Print Assumptions C06_views_backed_by_correct.

(** Non-vacuity. *)
Definition exA : vcarray :=
  [Some (mkVC 0 3 0 [mkElem 5 42 2 (Some (1, true)); mkElem 6 43 2 None; mkElem 200 44 2 None]);
   Some (mkVC 1 3 2 [mkElem 5 42 2 (Some (1, true)); mkElem 6 43 2 None]); None;
   Some (mkVC 3 3 1 [mkElem 5 41 0 None; mkElem 6 43 1 (Some (0, false))])].
Example C04_nonvacuous : Forall wellFormed (present exA) /\ consistentSigs (present exA) /\
  exists rs, computeRestrictions 1 0 exA 1 = Some (2, 151, rs) /\ firstn 6 rs = [None; None; None; Some 42; Some 43; None].
Proof.
  split; [repeat constructor; simpl; lia|]. split.
  - intros m1 m2 e1 e2 v ok1 ok2 H1 H2 I1 I2 Hs Hd C1 C2. simpl in H1, H2.
    repeat match goal with H : _ \/ _ |- _ => destruct H | H : False |- _ => destruct H end; subst; simpl in *;
    repeat match goal with H : _ \/ _ |- _ => destruct H | H : False |- _ => destruct H end; subst; simpl in *; congruence.
  - eexists. split; vm_compute; reflexivity.
Qed.
Example C05_nonvacuous : calcLB 1 0 exA = Some 1. Proof. reflexivity. Qed.
Example C06_nonvacuous : relevantViews 1 0 1 exA = (3, 3). Proof. reflexivity. Qed.
