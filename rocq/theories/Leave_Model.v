(** Leaving a view: complaints, view change messages, and the move to a higher view. bftengine/src/bftengine/ReplicaImp.cpp, ViewsManager.cpp,
    ReplicasAskedToLeaveViewInfo.hpp. View change messages have only their number and complaints here (elements: C04, C19); of NewView messages only the number and the
    view change messages they name. While requests are executed, messages and moves are deferred (activeExecutions_): here the events come later. No overflow of numbers.
    Simplified: the new view message the primary itself makes is not kept. *)
From Coq Require Import List Arith Bool.
From Verif Require Import Lib_Sets ViewChange_Model.
Import ListNotations.

(** ReplicaAsksToLeaveViewMsg: issuer, view, and whether it is valid (size, epoch, id of a replica, signature of the issuer). *)
Record complaint := mkCo { c_gen : nat; c_view : nat; c_ok : bool }.
(** ViewChangeMsg: newView and the complaints. The complaints are not covered by its signature (ViewChangeMsg.cpp:156-165). *)
Record vc := mkVc { v_new : nat; v_comps : list complaint }.

Record rep := mkRep {
  view : nat;                        (* myCurrentView *)
  active : bool;                     (* viewIsActive(myCurrentView) *)
  last : nat;                        (* myLatestActiveView *)
  pending : nat;                     (* myLatestPendingView *)
  comps : list complaint;            (* complainedReplicas *)
  vcs : nat -> option vc;            (* viewChangeMessages of others *)
  nvs : nat -> option (nat * list (nat * vc));   (* newViewMessages: number and the messages named by digest *)
  own : option vc;                   (* getMyLatestViewChangeMsg *)
  saved : list complaint }.          (* complaints in DescriptorOfLastExitFromView *)

Section Leave.
Context (N F C : nat) (me : nat).
Definition primaryOf (v : nat) : nat := v mod N.

Definition withComps (l : list complaint) (r : rep) : rep := mkRep (view r) (active r) (last r) (pending r) l (vcs r) (nvs r) (own r) (saved r).
(** ReplicasAskedToLeaveViewInfo::store (unordered_map::emplace: the first of an issuer stays), hasQuorumToLeaveView, getComplaintFromReplica. *)
Definition has (g : nat) (l : list complaint) : bool := existsb (fun c => c_gen c =? g) l.
Definition store (c : complaint) (l : list complaint) : list complaint := if has (c_gen c) l then l else l ++ [c].
Definition quorum (l : list complaint) : bool := F + 1 <=? length l.
(** getAllMsgs(true): sorted by issuer. *)
Fixpoint insertC (c : complaint) (l : list complaint) : list complaint :=
  match l with [] => [c] | d :: t => if c_gen c <=? c_gen d then c :: l else d :: insertC c t end.
Definition sorted (l : list complaint) : list complaint := fold_right insertC [] l.

(** MoveToHigherView, ReplicaImp.cpp:2980-3052, with prepareViewChangeMsgAndSetHigherView and insertStoredComplaintsIntoVCMsg, ViewsManager.cpp:1086-1124:
    the message sent and the new state; None: the assertion that the view is higher fails. *)
Definition move (next : nat) (r : rep) : option (rep * list vc) :=
  if next <=? view r then None else
  let m := mkVc next (sorted (comps r)) in
  Some (mkRep next false (last r) (pending r) [] (vcs r) (nvs r) (Some m) (if active r then sorted (comps r) else saved r), [m]).
Definition bind {A} (x : option (rep * A)) (f : rep -> option (rep * A)) (app : A -> A -> A) : option (rep * A) :=
  match x with None => None | Some (r, a) => match f r with None => None | Some (r', b) => Some (r', app a b) end end.
Definition stay (r : rep) : option (rep * list vc) := Some (r, []).
Definition andThen (x : option (rep * list vc)) (f : rep -> option (rep * list vc)) := bind x f (@app vc).

(** tryToGoToNextView, ReplicaImp.cpp:5882-5888, goToNextView 3056-3062. *)
Definition try (r : rep) : option (rep * list vc) := if quorum (comps r) then move (S (view r)) r else stay r.
(** onMessage<ReplicaAsksToLeaveViewMsg>, 540-561; the message was validated. *)
Definition onComplaint (c : complaint) (r : rep) : option (rep * list vc) :=
  if c_view c =? view r then try (withComps (store c (comps r)) r) else stay r.
(** askToLeaveView, 3766-3777, without the last step. *)
Definition complain (r : rep) : rep := withComps (store (mkCo me (view r) true) (comps r)) r.

(** ViewsManager::add(ViewChangeMsg), ViewsManager.cpp:279-323. *)
Definition named (g : nat) (m : vc) (l : list (nat * vc)) (eqb : vc -> vc -> bool) : bool := existsb (fun x => (fst x =? g) && eqb (snd x) m) l.
Definition eqCo (a b : complaint) : bool := (c_gen a =? c_gen b) && (c_view a =? c_view b) && Bool.eqb (c_ok a) (c_ok b).
Fixpoint eqCos (a b : list complaint) : bool := match a, b with [], [] => true | x :: a, y :: b => eqCo x y && eqCos a b | _, _ => false end.
Definition eqVc (a b : vc) : bool := (v_new a =? v_new b) && eqCos (v_comps a) (v_comps b).   (* equal digests *)
Definition ignored (g : nat) (m : vc) (r : rep) : bool :=
  (v_new m <=? pending r) ||
  match nvs r (primaryOf (v_new m)) with
  | None => false
  | Some (w, l) =>
      if v_new m <? w then true
      else if w =? v_new m then match vcs r g with Some p => (v_new p =? v_new m) && named g p l eqVc | None => false end
      else false
  end.
Definition upd {A} (f : nat -> A) (i : nat) (x : A) : nat -> A := fun j => if j =? i then x else f j.
Definition addVc (g : nat) (m : vc) (r : rep) : rep :=
  mkRep (view r) (active r) (last r) (pending r) (comps r) (upd (vcs r) g (Some m)) (nvs r) (own r) (saved r).
(** ViewsManager::add(NewViewMsg), 258-277: from the primary of its view. *)
Definition onNewView (g w : nat) (l : list (nat * vc)) (r : rep) : rep :=
  if (w <=? pending r) || negb (primaryOf w =? g) then r
  else mkRep (view r) (active r) (last r) (pending r) (comps r) (vcs r) (upd (nvs r) g (Some (w, l))) (own r) (saved r).

(** processComplaintsFromViewChangeMessage, 1126-1168: the stored complaints and those for a higher view; [k] numberOfProcessedComplaints. *)
Fixpoint process (cur target k : nat) (l cs hs : list complaint) : list complaint * list complaint :=
  match l with
  | [] => (cs, hs)
  | c :: t =>
      if (cur <? target) && negb (quorum cs || quorum hs) && (k <=? F + 1) then
        if target =? S cur then
          if negb (has (c_gen c) cs) && (c_view c =? cur) && c_ok c then process cur target (S k) t (store c cs) hs
          else process cur target (S k) t cs hs
        else
          if (S (c_view c) =? target) && c_ok c then process cur target (S k) t cs (store c hs)
          else process cur target (S k) t cs hs
      else (cs, hs)
  end.
(** computeCorrectRelevantViewNumbers, 339-370 (relevantViews in ViewChange_Model), on the messages held. *)
Definition held (r : rep) : vcarray :=
  map (fun i => option_map (fun m => mkVC i (v_new m) 0 []) (if i =? me then own r else vcs r i)) (seq 0 N).
Definition relevant (r : rep) : nat * nat := relevantViews F C (pending r) (held r).

(** onMessage<ViewChangeMsg>, ReplicaImp.cpp:2870-2923, of the issuer g; the message was validated. What follows is [enter]. *)
Definition jump (m : vc) (hs : list complaint) (r : rep) : option (rep * list vc) :=
  if quorum (comps r) then move (S (view r)) r
  else if quorum hs then
    if v_new m <=? S (view r) then None   (* assertion in tryToJumpToHigherViewAndMoveComplaintsOnQuorum, ViewsManager.cpp:1172 *)
    else move (v_new m) (withComps hs r)
  else stay r.
Definition ofPrimary (g : nat) (m : vc) (r : rep) : option (rep * list vc) :=
  if (g =? primaryOf (view r)) && (view r <? v_new m) then move (S (view r)) r else stay r.
Definition known (r : rep) : option (rep * list vc) :=
  if view r <? fst (relevant r) then move (fst (relevant r)) r else stay r.
Definition onVc (g : nat) (m : vc) (r : rep) : option (rep * list vc) :=
  if ignored g m r then stay r else
  let r := addVc g m r in
  let '(cs, hs) := process (view r) (v_new m) 0 (v_comps m) (comps r) [] in
  andThen (andThen (jump m hs (withComps cs r)) (ofPrimary g m)) known.
(** The end of onMessage<ViewChangeMsg> and tryToEnterView: with enough messages for the current view the view is pending (NewView and restrictions fit), and perhaps active. *)
Definition enter (inView : bool) (r : rep) : rep :=
  if active r || negb (snd (relevant r) =? view r) then r
  else mkRep (view r) inView (if inView then view r else last r) (view r) (comps r) (vcs r) (nvs r) (own r) (saved r).
(** A restart: ReplicaLoader.cpp:106-163, createOutsideView and createInsideView, ReplicaImp.cpp:4027-4037. The last active view and the complaints of the last exit are stored; the message for the
    view after it is made again, and sent to whoever lags behind. *)
Definition restart (r : rep) : rep * list vc :=
  if active r then (mkRep (last r) true (last r) (last r) [] (fun _ => None) (fun _ => None) (own r) (saved r), [])
  else let m := mkVc (S (last r)) (sorted (saved r)) in
       (mkRep (S (last r)) false (last r) (last r) [] (fun _ => None) (fun _ => None) (Some m) (saved r), [m]).
Definition first : rep := mkRep 0 true 0 0 [] (fun _ => None) (fun _ => None) None [].
End Leave.

(** * A cluster. [bad]: the faulty replicas. *)
Record cluster := mkCl {
  reps : nat -> rep;
  asked : list (nat * nat);      (* complaints signed by correct replicas: issuer, view *)
  rotated : list (nat * nat);    (* views left by automatic rotation of the primary *)
  sent : list (nat * nat);       (* numbers of view change messages signed by correct replicas *)
  failed : bool }.               (* an assertion of a correct replica has failed *)
Section Cluster.
Context (N F C : nat) (bad : nat -> bool).
Inductive event :=
| Complain (i : nat)                      (* a timeout, or a bad preprocessed result *)
| Try (i : nat)                           (* right after, or when the executions have ended *)
| Rotate (i : nat)                        (* onViewsChangeTimer, ReplicaImp.cpp:3793-3810 *)
| GetComplaint (i : nat) (c : complaint)
| GetVc (i g : nat) (m : vc)
| GetNewView (i g w : nat) (l : list (nat * vc))
| Enter (i : nat) (b : bool)
| Restart (i : nat).
(** A valid complaint of a correct replica was made by it. *)
Definition genuine (s : cluster) (c : complaint) : bool :=
  c_ok c && (c_gen c <? N) && (bad (c_gen c) || existsb (fun x => (fst x =? c_gen c) && (snd x =? c_view c)) (asked s)).
(** What a correct replica may get: everything but forged signatures. *)
Definition mayGet (s : cluster) (e : event) : bool :=
  match e with
  | GetComplaint i c => genuine s c
  | GetVc i g m => negb (g =? i) && (g <? N) && (bad g || existsb (fun x => (fst x =? g) && (snd x =? v_new m)) (sent s)) &&
                   forallb (fun c => negb (c_ok c) || genuine s c) (v_comps m)
  | _ => true
  end.
Definition who (e : event) : nat := match e with Complain i | Try i | Rotate i | GetComplaint i _ | GetVc i _ _ | GetNewView i _ _ _ | Enter i _ | Restart i => i end.
Definition finish (i : nat) (s : cluster) (x : option (rep * list vc)) : cluster :=
  match x with
  | None => mkCl (reps s) (asked s) (rotated s) (sent s) true
  | Some (r, l) => mkCl (upd (reps s) i r) (asked s) (rotated s) (sent s ++ map (fun m => (i, v_new m)) l) (failed s)
  end.
Definition step (s : cluster) (e : event) : cluster :=
  let i := who e in let r := reps s i in
  if bad i || (N <=? i) || negb (mayGet s e) then s else
  match e with
  | Complain _ => mkCl (upd (reps s) i (complain i r)) (asked s ++ [(i, view r)]) (rotated s) (sent s) (failed s)
  | Try _ => finish i s (try F r)
  | Rotate _ => finish i (mkCl (reps s) (asked s) (rotated s ++ [(i, view r)]) (sent s) (failed s)) (move (S (view r)) r)
  | GetComplaint _ c => finish i s (onComplaint F c r)
  | GetVc _ g m => finish i s (onVc N F C i g m r)
  | GetNewView _ g w l => mkCl (upd (reps s) i (onNewView N g w l r)) (asked s) (rotated s) (sent s) (failed s)
  | Enter _ b => mkCl (upd (reps s) i (enter N F C i b r)) (asked s) (rotated s) (sent s) (failed s)
  | Restart _ => finish i s (Some (restart r))
  end.
Definition start : cluster := mkCl (fun _ => first) [] [] [] false.
Definition run (l : list event) : cluster := fold_left step l start.
(** A correct replica wanted to leave view v. *)
Definition wanted (s : cluster) (v : nat) : Prop := exists i, In (i, v) (asked s ++ rotated s).
End Cluster.
