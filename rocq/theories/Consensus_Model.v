(** The consensus protocol of bftengine: ordering in a view (slow and fast path), checkpoints, state transfer and view changes
    (C02, C03).  A global state is the list of the replicas' local states; every step is one event at one replica.  What a
    replica has sent is stored in its own local state, the network delivers any sent message at any later time, any number of
    times or never.  A crash is a replica that takes no more steps; a restarted replica continues with the state of the last
    completed write transaction (C21), i.e. with the same local state.

    Simplifications (each also noted at the definition): a digest identifies its batch (collision-free hashing); signatures
    cannot be forged: a threshold signature exists iff enough signers have signed the same (view, sequence number, digest); a
    checkpoint's state digest is represented by the history of executed batches that it summarises. *)
From Coq Require Import List Arith Lia Bool.
From Verif Require Import Lib_Sets Quorum_Model ViewChange_Model.
Import ListNotations.

(** ReplicaConfig: fVal, cVal; [byz]: the Byzantine replicas of the run; [ctime]: the time service is enabled and may judge
    the primary's timestamp out of bounds (ReplicaImp.cpp:1098-1110). *)
Record config := mkCfg { cf : nat; cc : nat; cbyz : list nat; ctime : bool }.
Definition cn (k : config) := nReplicas (cf k) (cc k).

(** A pre-prepare in the main log: its digest, SeqNumInfo::isTimeCorrect_, and whether it started on the slow path (all
    pre-prepares installed by a view change do: ViewsManager.cpp:716, ReplicaImp.cpp:3190). *)
Record ppinfo := mkPP { p_dig : nat; p_tok : bool; p_slow : bool }.

(** History (ghost): one record per view entered: view, quorum of view-change messages, lower bound, last stable at entry. *)
Record entry := mkEntry { n_view : nat; n_Q : list vcmsg; n_lb : nat; n_ls : nat }.

(** Local state of ReplicaImp and ViewsManager.
    r_view: curView; r_active: stat == IN_VIEW; r_ls: lastStableSeqNum; r_lb: lowerBoundStableForPendingView;
    r_exec: lastExecutedSeqNum; r_pp: the pre-prepares in mainLog; r_prep: sequence numbers with a PrepareFull of this view;
    r_fast: with own PartialCommitProof; r_com/r_fcom: with CommitFull / FullCommitProof; r_prev: my ViewChangeMsg for r_view;
    r_pend: viewChangeMsgsOfPendingView; r_hist: executed digests, latest first.
    Sent: r_pps PrePrepare, r_votes shares over (view,seq,digest) (PreparePartial and PartialCommitProof sign the same data:
    PreparePartialMsg.hpp create / ReplicaImp.cpp:1340 calcCombination), r_commits CommitPartial, r_vcs, r_nvs, r_cks.
    Ghost (never read by a step): r_pph every pre-prepare ever held, r_ents views entered, r_dec decisions. *)
Record rep := mkRep {
  r_view : nat;
  r_active : bool;
  r_ls : nat;
  r_lb : nat;
  r_exec : nat;
  r_pp : list (nat * ppinfo);
  r_prep : list nat;
  r_fast : list nat;
  r_com : list nat;
  r_fcom : list nat;
  r_prev : option vcmsg;
  r_pend : option (list vcmsg);
  r_hist : list nat;
  r_pps : list (nat * nat * nat);
  r_votes : list (nat * nat * nat);
  r_commits : list (nat * nat * nat);
  r_vcs : list vcmsg;
  r_nvs : list (nat * list vcmsg);
  r_cks : list (nat * list nat);
  r_pph : list (nat * nat * nat);
  r_ents : list entry;
  r_dec : list (nat * nat * nat)
}.
Definition set_view (x : nat) (r : rep) : rep := mkRep x (r_active r) (r_ls r) (r_lb r) (r_exec r) (r_pp r) (r_prep r) (r_fast r) (r_com r) (r_fcom r) (r_prev r) (r_pend r) (r_hist r) (r_pps r) (r_votes r) (r_commits r) (r_vcs r) (r_nvs r) (r_cks r) (r_pph r) (r_ents r) (r_dec r).
Definition set_active (x : bool) (r : rep) : rep := mkRep (r_view r) x (r_ls r) (r_lb r) (r_exec r) (r_pp r) (r_prep r) (r_fast r) (r_com r) (r_fcom r) (r_prev r) (r_pend r) (r_hist r) (r_pps r) (r_votes r) (r_commits r) (r_vcs r) (r_nvs r) (r_cks r) (r_pph r) (r_ents r) (r_dec r).
Definition set_ls (x : nat) (r : rep) : rep := mkRep (r_view r) (r_active r) x (r_lb r) (r_exec r) (r_pp r) (r_prep r) (r_fast r) (r_com r) (r_fcom r) (r_prev r) (r_pend r) (r_hist r) (r_pps r) (r_votes r) (r_commits r) (r_vcs r) (r_nvs r) (r_cks r) (r_pph r) (r_ents r) (r_dec r).
Definition set_lb (x : nat) (r : rep) : rep := mkRep (r_view r) (r_active r) (r_ls r) x (r_exec r) (r_pp r) (r_prep r) (r_fast r) (r_com r) (r_fcom r) (r_prev r) (r_pend r) (r_hist r) (r_pps r) (r_votes r) (r_commits r) (r_vcs r) (r_nvs r) (r_cks r) (r_pph r) (r_ents r) (r_dec r).
Definition set_exec (x : nat) (r : rep) : rep := mkRep (r_view r) (r_active r) (r_ls r) (r_lb r) x (r_pp r) (r_prep r) (r_fast r) (r_com r) (r_fcom r) (r_prev r) (r_pend r) (r_hist r) (r_pps r) (r_votes r) (r_commits r) (r_vcs r) (r_nvs r) (r_cks r) (r_pph r) (r_ents r) (r_dec r).
Definition set_pp (x : list (nat * ppinfo)) (r : rep) : rep := mkRep (r_view r) (r_active r) (r_ls r) (r_lb r) (r_exec r) x (r_prep r) (r_fast r) (r_com r) (r_fcom r) (r_prev r) (r_pend r) (r_hist r) (r_pps r) (r_votes r) (r_commits r) (r_vcs r) (r_nvs r) (r_cks r) (r_pph r) (r_ents r) (r_dec r).
Definition set_prep (x : list nat) (r : rep) : rep := mkRep (r_view r) (r_active r) (r_ls r) (r_lb r) (r_exec r) (r_pp r) x (r_fast r) (r_com r) (r_fcom r) (r_prev r) (r_pend r) (r_hist r) (r_pps r) (r_votes r) (r_commits r) (r_vcs r) (r_nvs r) (r_cks r) (r_pph r) (r_ents r) (r_dec r).
Definition set_fast (x : list nat) (r : rep) : rep := mkRep (r_view r) (r_active r) (r_ls r) (r_lb r) (r_exec r) (r_pp r) (r_prep r) x (r_com r) (r_fcom r) (r_prev r) (r_pend r) (r_hist r) (r_pps r) (r_votes r) (r_commits r) (r_vcs r) (r_nvs r) (r_cks r) (r_pph r) (r_ents r) (r_dec r).
Definition set_com (x : list nat) (r : rep) : rep := mkRep (r_view r) (r_active r) (r_ls r) (r_lb r) (r_exec r) (r_pp r) (r_prep r) (r_fast r) x (r_fcom r) (r_prev r) (r_pend r) (r_hist r) (r_pps r) (r_votes r) (r_commits r) (r_vcs r) (r_nvs r) (r_cks r) (r_pph r) (r_ents r) (r_dec r).
Definition set_fcom (x : list nat) (r : rep) : rep := mkRep (r_view r) (r_active r) (r_ls r) (r_lb r) (r_exec r) (r_pp r) (r_prep r) (r_fast r) (r_com r) x (r_prev r) (r_pend r) (r_hist r) (r_pps r) (r_votes r) (r_commits r) (r_vcs r) (r_nvs r) (r_cks r) (r_pph r) (r_ents r) (r_dec r).
Definition set_prev (x : option vcmsg) (r : rep) : rep := mkRep (r_view r) (r_active r) (r_ls r) (r_lb r) (r_exec r) (r_pp r) (r_prep r) (r_fast r) (r_com r) (r_fcom r) x (r_pend r) (r_hist r) (r_pps r) (r_votes r) (r_commits r) (r_vcs r) (r_nvs r) (r_cks r) (r_pph r) (r_ents r) (r_dec r).
Definition set_pend (x : option (list vcmsg)) (r : rep) : rep := mkRep (r_view r) (r_active r) (r_ls r) (r_lb r) (r_exec r) (r_pp r) (r_prep r) (r_fast r) (r_com r) (r_fcom r) (r_prev r) x (r_hist r) (r_pps r) (r_votes r) (r_commits r) (r_vcs r) (r_nvs r) (r_cks r) (r_pph r) (r_ents r) (r_dec r).
Definition set_hist (x : list nat) (r : rep) : rep := mkRep (r_view r) (r_active r) (r_ls r) (r_lb r) (r_exec r) (r_pp r) (r_prep r) (r_fast r) (r_com r) (r_fcom r) (r_prev r) (r_pend r) x (r_pps r) (r_votes r) (r_commits r) (r_vcs r) (r_nvs r) (r_cks r) (r_pph r) (r_ents r) (r_dec r).
Definition set_pps (x : list (nat * nat * nat)) (r : rep) : rep := mkRep (r_view r) (r_active r) (r_ls r) (r_lb r) (r_exec r) (r_pp r) (r_prep r) (r_fast r) (r_com r) (r_fcom r) (r_prev r) (r_pend r) (r_hist r) x (r_votes r) (r_commits r) (r_vcs r) (r_nvs r) (r_cks r) (r_pph r) (r_ents r) (r_dec r).
Definition set_votes (x : list (nat * nat * nat)) (r : rep) : rep := mkRep (r_view r) (r_active r) (r_ls r) (r_lb r) (r_exec r) (r_pp r) (r_prep r) (r_fast r) (r_com r) (r_fcom r) (r_prev r) (r_pend r) (r_hist r) (r_pps r) x (r_commits r) (r_vcs r) (r_nvs r) (r_cks r) (r_pph r) (r_ents r) (r_dec r).
Definition set_commits (x : list (nat * nat * nat)) (r : rep) : rep := mkRep (r_view r) (r_active r) (r_ls r) (r_lb r) (r_exec r) (r_pp r) (r_prep r) (r_fast r) (r_com r) (r_fcom r) (r_prev r) (r_pend r) (r_hist r) (r_pps r) (r_votes r) x (r_vcs r) (r_nvs r) (r_cks r) (r_pph r) (r_ents r) (r_dec r).
Definition set_vcs (x : list vcmsg) (r : rep) : rep := mkRep (r_view r) (r_active r) (r_ls r) (r_lb r) (r_exec r) (r_pp r) (r_prep r) (r_fast r) (r_com r) (r_fcom r) (r_prev r) (r_pend r) (r_hist r) (r_pps r) (r_votes r) (r_commits r) x (r_nvs r) (r_cks r) (r_pph r) (r_ents r) (r_dec r).
Definition set_nvs (x : list (nat * list vcmsg)) (r : rep) : rep := mkRep (r_view r) (r_active r) (r_ls r) (r_lb r) (r_exec r) (r_pp r) (r_prep r) (r_fast r) (r_com r) (r_fcom r) (r_prev r) (r_pend r) (r_hist r) (r_pps r) (r_votes r) (r_commits r) (r_vcs r) x (r_cks r) (r_pph r) (r_ents r) (r_dec r).
Definition set_cks (x : list (nat * list nat)) (r : rep) : rep := mkRep (r_view r) (r_active r) (r_ls r) (r_lb r) (r_exec r) (r_pp r) (r_prep r) (r_fast r) (r_com r) (r_fcom r) (r_prev r) (r_pend r) (r_hist r) (r_pps r) (r_votes r) (r_commits r) (r_vcs r) (r_nvs r) x (r_pph r) (r_ents r) (r_dec r).
Definition set_pph (x : list (nat * nat * nat)) (r : rep) : rep := mkRep (r_view r) (r_active r) (r_ls r) (r_lb r) (r_exec r) (r_pp r) (r_prep r) (r_fast r) (r_com r) (r_fcom r) (r_prev r) (r_pend r) (r_hist r) (r_pps r) (r_votes r) (r_commits r) (r_vcs r) (r_nvs r) (r_cks r) x (r_ents r) (r_dec r).
Definition set_ents (x : list entry) (r : rep) : rep := mkRep (r_view r) (r_active r) (r_ls r) (r_lb r) (r_exec r) (r_pp r) (r_prep r) (r_fast r) (r_com r) (r_fcom r) (r_prev r) (r_pend r) (r_hist r) (r_pps r) (r_votes r) (r_commits r) (r_vcs r) (r_nvs r) (r_cks r) (r_pph r) x (r_dec r).
Definition set_dec (x : list (nat * nat * nat)) (r : rep) : rep := mkRep (r_view r) (r_active r) (r_ls r) (r_lb r) (r_exec r) (r_pp r) (r_prep r) (r_fast r) (r_com r) (r_fcom r) (r_prev r) (r_pend r) (r_hist r) (r_pps r) (r_votes r) (r_commits r) (r_vcs r) (r_nvs r) (r_cks r) (r_pph r) (r_ents r) x.

Definition rep0 : rep := mkRep 0 true 0 0 0 [] [] [] [] [] None None [] [] [] [] [] [] [] [] [] [].
Definition gstate := list rep.
Definition get (g : gstate) (i : nat) : rep := nth i g rep0.
Fixpoint put (i : nat) (r : rep) (g : gstate) : gstate :=
  match g, i with [], _ => [] | _ :: t, 0 => r :: t | x :: t, S i' => x :: put i' r t end.
Definition init (k : config) : gstate := repeat rep0 (cn k).

Definition t3 := (nat * nat * nat)%type.
Definition eq3 (a b : t3) : bool :=
  let '(a1, a2, a3) := a in let '(b1, b2, b3) := b in (a1 =? b1) && (a2 =? b2) && (a3 =? b3).
Definition mem3 (x : t3) (l : list t3) : bool := existsb (eq3 x) l.
Fixpoint lookup {T} (s : nat) (l : list (nat * T)) : option T :=
  match l with [] => None | (s', x) :: r => if s =? s' then Some x else lookup s r end.
Fixpoint eqlist (a b : list nat) : bool :=
  match a, b with [], [] => true | x :: a', y :: b' => (x =? y) && eqlist a' b' | _, _ => false end.

(** Signers of a share over (view, seq, digest). *)
Definition voters (k : config) (g : gstate) (x : t3) : list nat :=
  filter (fun j => mem3 x (r_votes (get g j))) (seq 0 (cn k)).
Definition committers (k : config) (g : gstate) (x : t3) : list nat :=
  filter (fun j => mem3 x (r_commits (get g j))) (seq 0 (cn k)).
Definition ckSigners (k : config) (g : gstate) (s : nat) (h : list nat) : list nat :=
  filter (fun j => existsb (fun y => (fst y =? s) && eqlist h (snd y)) (r_cks (get g j))) (seq 0 (cn k)).
(** A PrepareFull for (view, seq, digest) can be produced: CryptoManager.hpp:126, threshold 2f+c+1. *)
Definition certB (k : config) (g : gstate) (x : t3) : bool := slowQuorum (cf k) (cc k) <=? length (voters k g x).

(** SequenceWithActiveWindow::advanceActiveWindow on mainLog (ReplicaImp.cpp:3400-3460 onSeqNumIsStable): forget everything up
    to the new stable point. *)
Definition setStable (s : nat) (r : rep) : rep :=
  let keep := filter (fun x => s <? x) in
  set_ls s (set_pp (filter (fun x => s <? fst x) (r_pp r))
           (set_prep (keep (r_prep r)) (set_fast (keep (r_fast r)) (set_com (keep (r_com r)) (set_fcom (keep (r_fcom r)) r))))).

(** ViewsManager.cpp:507-523: certificate for (s, d) in my previous ViewChangeMsg. *)
Definition carried (prev : option vcmsg) (s d : nat) : option (nat * bool) :=
  match prev with
  | None => None
  | Some m => match find (fun e => (e_seq e =? s) && (e_dig e =? d)) (vc_elems m) with Some e => e_cert e | None => None end
  end.

(** ReplicaImp.cpp:2994-3020 and ViewsManager.cpp:490-565: the element of my new ViewChangeMsg for sequence number s. *)
Definition vcElem (r : rep) (s : nat) : list elem :=
  match lookup s (r_pp r) with
  | Some p =>
    if p_tok p then
      if mem s (r_prep r) then [mkElem s (p_dig p) (r_view r) (Some (r_view r, true))]
      else match carried (r_prev r) s (p_dig p) with
           | Some ce => [mkElem s (p_dig p) (r_view r) (Some ce)]
           | None => if p_dig p =? nullDigest then [] else [mkElem s (p_dig p) (r_view r) None]
           end
    else []
  | None => []
  end.
(** ViewsManager.cpp:465-581 exitFromCurrentView and setNewViewNumber (ViewsManager.cpp:1090-1115). *)
Definition buildVC (i u : nat) (r : rep) : vcmsg :=
  mkVC i u (r_ls r) (flat_map (vcElem r) (seq (r_ls r + 1) kWorkWindowSize)).

(** The quorum of a pending view as the array viewChangeMsgsOfPendingView; calcLB and computeRestrictions only visit the
    non-null entries in order, so the null entries are left out. *)
Definition arr (Q : list vcmsg) : vcarray := map Some Q.

(** std::set<uint16_t> relatedVCMsgs: senders in increasing order. *)
Fixpoint incSenders (lo : nat) (Q : list vcmsg) : bool :=
  match Q with [] => true | m :: r => (lo <=? vc_from m) && incSenders (S (vc_from m)) r end.
Definition eqcert (a b : option (nat * bool)) : bool :=
  match a, b with None, None => true | Some (x, p), Some (y, q) => (x =? y) && eqb p q | _, _ => false end.
Definition eqelem (a b : elem) : bool :=
  (e_seq a =? e_seq b) && (e_dig a =? e_dig b) && (e_origin a =? e_origin b) && eqcert (e_cert a) (e_cert b).
Fixpoint eqelems (a b : list elem) : bool :=
  match a, b with [], [] => true | x :: a', y :: b' => eqelem x y && eqelems a' b' | _, _ => false end.
Definition eqvc (a b : vcmsg) : bool :=
  (vc_from a =? vc_from b) && (vc_view a =? vc_view b) && (vc_ls a =? vc_ls b) && eqelems (vc_elems a) (vc_elems b).
Fixpoint eqQ (a b : list vcmsg) : bool :=
  match a, b with [], [] => true | x :: a', y :: b' => eqvc x y && eqQ a' b' | _, _ => false end.
(** ViewsManager.cpp:745-867: a quorum of ViewChangeMsgs of view v that were really sent (their signatures are verified). *)
Definition quorumOK (k : config) (g : gstate) (v : nat) (Q : list vcmsg) : bool :=
  (length Q =? vcQuorum (cf k) (cc k)) && incSenders 0 Q &&
  forallb (fun m => (vc_from m <? cn k) && (vc_view m =? v) && existsb (eqvc m) (r_vcs (get g (vc_from m)))) Q.

(** ViewsManager.cpp:694-738: pre-prepares of the new view, for sequence numbers above my last stable one. *)
Definition installed (mn mx ls lb : nat) (rs : list (option nat)) : list (nat * ppinfo) :=
  if mn =? 0 then []
  else flat_map (fun s => if ls <? s then [(s, mkPP (match nth (s - lb - 1) rs None with Some d => d | None => nullDigest end)
                                                    true true)] else [])
                (seq mn (S mx - mn)).

(** ViewChangeMsg::checkElements (ViewChangeMsg.cpp:191-242) for a message of view v with last stable ls: strictly increasing
    sequence numbers in (ls, ls+kWorkWindowSize], originView < newView, certificateView <= originView. The signature of a
    certificate verifies ([ok]) only if enough replicas signed. *)
Fixpoint elemsOK (k : config) (g : gstate) (v ls lo : nat) (l : list elem) : bool :=
  match l with
  | [] => true
  | e :: r => (lo <? e_seq e) && (e_seq e <=? ls + kWorkWindowSize) && (e_origin e <? v) &&
              match e_cert e with
              | None => true
              | Some (cv, ok) => (cv <=? e_origin e) && (negb ok || certB k g (cv, e_seq e, e_dig e))
              end && elemsOK k g v ls (e_seq e) r
  end.

Inductive event :=
| EPropose (i s d : nat) (slow : bool) | EAccept (i s d : nat) (slow tok : bool)
| EVote (i s : nat) | EVoteFast (i s : nat) | EPrepared (i s : nat) | ECommit (i s : nat)
| EDecideSlow (i s : nat) | EDecideFast (i s : nat) | EExec (i : nat)
| ECkpt (i : nat) | EStable (i s : nat) | EStableFast (i : nat) | EST (i s : nat) (h : list nat)
| ELeave (i u : nat) | EPend (i : nat) (Q : list vcmsg) | EEnter (i : nat)
| BVote (i v s d : nat) | BCommit (i v s d : nat) | BPP (i v s d : nat) | BVC (i : nat) (m : vcmsg)
| BNV (i v : nat) (Q : list vcmsg) | BCk (i s : nat) (h : list nat).

Definition actor (e : event) : nat :=
  match e with
  | EPropose i _ _ _ | EAccept i _ _ _ _ | EVote i _ | EVoteFast i _ | EPrepared i _ | ECommit i _ | EDecideSlow i _
  | EDecideFast i _ | EExec i | ECkpt i | EStable i _ | EStableFast i | EST i _ _ | ELeave i _ | EPend i _ | EEnter i
  | BVote i _ _ _ | BCommit i _ _ _ | BPP i _ _ _ | BVC i _ | BNV i _ _ | BCk i _ _ => i
  end.
Definition isByzEvent (e : event) : bool :=
  match e with BVote _ _ _ _ | BCommit _ _ _ _ | BPP _ _ _ _ | BVC _ _ | BNV _ _ _ | BCk _ _ _ => true | _ => false end.

Definition guard (b : bool) (r : rep) : option rep := if b then Some r else None.
Definition inWindow (r : rep) (s : nat) : bool := (r_ls r <? s) && (s <=? r_ls r + kWorkWindowSize).
Definition addPP (s d : nat) (slow tok : bool) (r : rep) : rep :=
  set_pp ((s, mkPP d tok slow) :: r_pp r) (set_pph ((r_view r, s, d) :: r_pph r) r).

Definition local (k : config) (g : gstate) (i : nat) (r : rep) (e : event) : option rep :=
  let n := cn k in
  let isPrimary := primaryOfView n (r_view r) =? i in
  match e with
  (* ReplicaImp.cpp:655-947 tryToSendPrePrepareMsg/startConsensusProcess: the active primary proposes a batch at a free number
     of its window (the code uses primaryLastUsedSeqNum+1, one of them). *)
  | EPropose _ s d slow =>
    guard (isPrimary && r_active r && inWindow r s && negb (d =? nullDigest) &&
           match lookup s (r_pp r) with None => true | Some _ => false end)
          (set_pps ((r_view r, s, d) :: r_pps r) (addPP s d slow true r))
  (* ReplicaImp.cpp:1055-1147 onMessage<PrePrepareMsg>: from the primary of the active view, inside the window, first one for
     this number; null pre-prepares are rejected by PrePrepareMsg::validate. *)
  | EAccept _ s d slow tok =>
    guard (negb isPrimary && r_active r && inWindow r s && negb (d =? nullDigest) && (tok || ctime k) &&
           match lookup s (r_pp r) with None => true | Some _ => false end &&
           mem3 (r_view r, s, d) (r_pps (get g (primaryOfView n (r_view r)))))
          (addPP s d slow tok r)
  (* ReplicaImp.cpp:1372-1396 sendPreparePartial. *)
  | EVote _ s =>
    match lookup s (r_pp r) with
    | Some p => guard (r_active r && p_tok p) (set_votes ((r_view r, s, p_dig p) :: r_votes r) r)
    | None => None
    end
  (* ReplicaImp.cpp:1318-1370 sendPartialProof; with isTimeCorrect false the share is kept for the replica's own collector. *)
  | EVoteFast _ s =>
    match lookup s (r_pp r) with
    | Some p => guard (r_active r && negb (p_slow p))
                      (set_fast (s :: r_fast r) (set_votes ((r_view r, s, p_dig p) :: r_votes r) r))
    | None => None
    end
  (* ReplicaImp.cpp:1806-1845, 1909-2000 onMessage<PrepareFullMsg>, onPrepareCombinedSigSucceeded: a valid PrepareFull of this
     view for the digest of my pre-prepare. *)
  | EPrepared _ s =>
    match lookup s (r_pp r) with
    | Some p => guard (r_active r && certB k g (r_view r, s, p_dig p)) (set_prep (s :: r_prep r) r)
    | None => None
    end
  (* ReplicaImp.cpp:1398-1431 sendCommitPartial. *)
  | ECommit _ s =>
    match lookup s (r_pp r) with
    | Some p => guard (r_active r && mem s (r_prep r)) (set_commits ((r_view r, s, p_dig p) :: r_commits r) r)
    | None => None
    end
  (* ReplicaImp.cpp:1847-1885, 2028-2134 CommitFull: 2f+c+1 commit shares for my pre-prepare. *)
  | EDecideSlow _ s =>
    match lookup s (r_pp r) with
    | Some p => guard (r_active r && (slowQuorum (cf k) (cc k) <=? length (committers k g (r_view r, s, p_dig p))))
                      (set_com (s :: r_com r) (set_dec ((r_view r, s, p_dig p) :: r_dec r) r))
    | None => None
    end
  (* ReplicaImp.cpp:1460-1497, 2136-2259 FullCommitProof: 3f+c+1 (or all, optimistic) shares; the digest to verify is only set
     together with my own PartialCommitProof (SeqNumInfo.cpp addFastPathSelfPartialCommitMsgAndDigest). *)
  | EDecideFast _ s =>
    match lookup s (r_pp r) with
    | Some p => guard (r_active r && mem s (r_fast r) &&
                       (fastQuorum (cf k) (cc k) <=? length (voters k g (r_view r, s, p_dig p))))
                      (set_fcom (s :: r_fcom r) (set_dec ((r_view r, s, p_dig p) :: r_dec r) r))
    | None => None
    end
  (* ReplicaImp.cpp:4748-4796, 5775-5880 executeNextCommittedRequests: the next number, when committed. *)
  | EExec _ =>
    let s := S (r_exec r) in
    match lookup s (r_pp r) with
    | Some p => guard (r_active r && (mem s (r_com r) || mem s (r_fcom r)))
                      (set_exec s (set_hist (p_dig p :: r_hist r) r))
    | None => None
    end
  (* ReplicaImp.cpp:5540-5570: own checkpoint after executing a multiple of checkpointWindowSize; later resends are covered
     because sent messages stay available. *)
  | ECkpt _ =>
    guard ((0 <? r_exec r) && (r_exec r mod checkpointWindowSize =? 0)) (set_cks ((r_exec r, r_hist r) :: r_cks r) r)
  (* ReplicaImp.cpp:2262-2415 onMessage<CheckpointMsg>, CheckpointInfo: matching checkpoints including my own, which
     MsgsCertificate::addSelfMsg counts twice when another matching one came first (C11): 2f+c of them may do. *)
  | EStable _ s =>
    match lookup s (r_cks r) with
    | Some h => guard ((r_ls r <? s) && (s <=? r_exec r) && (checkpointQuorum (cf k) (cc k) <=? length (ckSigners k g s h) + (if 2 <=? length (ckSigners k g s h) then 1 else 0)))
                      (setStable s r)
    | None => None
    end
  (* ReplicaImp.cpp:3271-3297 tryToMarkCheckpointStableForFastPath (MaxConcurrentFastPaths = 75). *)
  | EStableFast _ =>
    let s := (r_exec r / checkpointWindowSize) * checkpointWindowSize in
    match lookup s (r_cks r) with
    | Some _ => guard (r_active r && (r_ls r <? s) && (s + 75 <=? r_exec r) && mem (r_exec r) (r_fcom r)) (setStable s r)
    | None => None
    end
  (* ReplicaImp.cpp:3299-3383 onTransferringCompleteImp after state transfer to a checkpoint confirmed by f+1 replicas (C22);
     the replica then issues its own checkpoint. *)
  | EST _ s h =>
    guard ((r_exec r <? s) && (cf k + 1 <=? length (ckSigners k g s h)))
          (let r1 := set_exec s (set_hist h (set_cks ((s, h) :: r_cks r) r)) in
           if r_ls r + kWorkWindowSize <? s then setStable (s - kWorkWindowSize) r1 else r1)
  (* ReplicaImp.cpp:2980-3054 MoveToHigherView. *)
  | ELeave _ u =>
    if r_view r <? u then
      if r_active r then
        let m := buildVC i u r in
        Some (set_view u (set_active false (set_pp [] (set_prep [] (set_fast [] (set_com [] (set_fcom []
             (set_prev (Some m) (set_pend None (set_vcs (m :: r_vcs r) r))))))))))
      else match r_prev r with
           | Some m0 => let m := mkVC (vc_from m0) u (vc_ls m0) (vc_elems m0) in
                        Some (set_view u (set_prev (Some m) (set_pend None (set_vcs (m :: r_vcs r) r))))
           | None => None
           end
    else None
  (* ViewsManager.cpp:608-640 and 745-867: a new pending view; the primary creates the NewViewMsg, the others need it. *)
  | EPend _ Q =>
    match calcLB (cf k) (cc k) (arr Q) with
    | Some x =>
      guard (negb (r_active r) && match r_pend r with None => true | Some _ => false end &&
             (r_ls r <=? r_exec r) && (r_lb r <=? r_ls r) && quorumOK k g (r_view r) Q &&
             (isPrimary || existsb (fun y => (fst y =? r_view r) && eqQ Q (snd y))
                                   (r_nvs (get g (primaryOfView n (r_view r))))))
            (set_pend (Some Q) (set_lb (max x (max (r_ls r) (r_lb r)))
             (if isPrimary then set_nvs ((r_view r, Q) :: r_nvs r) r else r)))
    | None => None
    end
  (* ViewsManager.cpp:583-743 tryToEnterView, ReplicaImp.cpp:3083-3235 onNewView. *)
  | EEnter _ =>
    match r_pend r with
    | Some Q =>
      match computeRestrictions (cf k) (cc k) (arr Q) (r_lb r) with
      | Some (mn, mx, rs) =>
        let pps := installed mn mx (r_ls r) (r_lb r) rs in
        guard (negb (r_active r) && (r_ls r <=? r_exec r) && (r_lb r <=? r_ls r))
              (set_active true (set_pp pps (set_pend None
               (set_pph (map (fun x => (r_view r, fst x, p_dig (snd x))) pps ++ r_pph r)
               (set_ents (mkEntry (r_view r) Q (r_lb r) (r_ls r) :: r_ents r) r)))))
      | None => None
      end
    | None => None
    end
  (* Byzantine replicas send anything their own keys can sign. Messages that fail validation have no effect and are left out. *)
  | BVote _ v s d => Some (set_votes ((v, s, d) :: r_votes r) r)
  | BCommit _ v s d => Some (set_commits ((v, s, d) :: r_commits r) r)
  | BPP _ v s d => Some (set_pps ((v, s, d) :: r_pps r) r)
  | BVC _ m => guard ((vc_from m =? i) && elemsOK k g (vc_view m) (vc_ls m) (vc_ls m) (vc_elems m)) (set_vcs (m :: r_vcs r) r)
  | BNV _ v Q => Some (set_nvs ((v, Q) :: r_nvs r) r)
  | BCk _ s h => Some (set_cks ((s, h) :: r_cks r) r)
  end.

Definition step (k : config) (g : gstate) (e : event) : option gstate :=
  let i := actor e in
  if (i <? cn k) && eqb (isByzEvent e) (mem i (cbyz k)) then
    match local k g i (get g i) e with Some r' => Some (put i r' g) | None => None end
  else None.
Fixpoint run (k : config) (g : gstate) (l : list event) : option gstate :=
  match l with [] => Some g | e :: r => match step k g e with Some g' => run k g' r | None => None end end.

(** ** Specification *)

(** At most f Byzantine replicas; n = 3f+2c+1. *)
Definition validConfig (k : config) : Prop := NoDup (cbyz k) /\ Forall (fun i => i < cn k) (cbyz k) /\ length (cbyz k) <= cf k.
Definition correct (k : config) (i : nat) : Prop := i < cn k /\ ~ In i (cbyz k).
(** A state that some execution reaches. *)
Definition reachable (k : config) (g : gstate) : Prop := exists l, run k (init k) l = Some g.
(** Correct replica i has obtained a commit proof (slow or fast) for digest d at sequence number s in view v. *)
Definition committed (k : config) (g : gstate) (i v s d : nat) : Prop := correct k i /\ In (v, s, d) (r_dec (get g i)).
(** Executed digest at sequence number s (1-based) of replica i. *)
Definition executed (g : gstate) (i s : nat) : option nat :=
  if s =? 0 then None else nth_error (rev (r_hist (get g i))) (s - 1).

(** Hypotheses used by the survival theorems, about the quorums of view-change messages with which correct replicas entered
    views. [honestReports]: messages of correct replicas in Q that report a last stable sequence number >= x. *)
Definition honestReports (k : config) (Q : list vcmsg) (x : nat) : nat :=
  length (filter (fun m => negb (mem (vc_from m) (cbyz k)) && (x <=? vc_ls m)) Q).
(** When t correct members of an entry quorum report a stable number >= x, the lower bound computed from Q is >= x. *)
Definition stableReported (k : config) (g : gstate) (t : nat) : Prop :=
  forall i en x, correct k i -> In en (r_ents (get g i)) -> t <= honestReports k (n_Q en) x ->
  exists lb, calcLB (cf k) (cc k) (arr (n_Q en)) = Some lb /\ x <= lb.
(** No Byzantine message spoils a valid certificate by attaching a bad signature to the same (view, seq, digest) (see C04). *)
Definition consistentEntries (k : config) (g : gstate) : Prop :=
  forall i en, correct k i -> In en (r_ents (get g i)) -> consistentSigs (n_Q en).
(** Sequence number s, if inside the window of an entered view, is among the numbers the view change decides about.  (The
    code cuts the restrictions to the first half of the window when no real batch is restricted in the second half,
    ViewChangeSafetyLogic.cpp:232-239; this always holds for s <= lower bound + checkpointWindowSize.) *)
Definition coversAt (k : config) (g : gstate) (s : nat) : Prop :=
  forall i en mn mx rs, correct k i -> In en (r_ents (get g i)) ->
  computeRestrictions (cf k) (cc k) (arr (n_Q en)) (n_lb en) = Some (mn, mx, rs) -> mn <> 0 ->
  n_lb en < s <= n_lb en + kWorkWindowSize -> s <= mx.
