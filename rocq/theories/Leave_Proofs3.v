(** More proofs for Leave_Model: what a pending view rests on; restarts. *)
From Coq Require Import List Arith Bool Lia Permutation.
From Verif Require Import Lib_Sets ViewChange_Model ViewChange_Proofs Leave_Model Leave_Proofs Leave_Proofs2.
Import ListNotations.

(** At least n replicas are faulty or signed a view change message for w or a higher view. *)
Definition backed (N : nat) (bad : nat -> bool) (n : nat) (S : list (nat * nat)) (w : nat) : Prop :=
  exists L, NoDup L /\ n <= length L /\ forall g, In g L -> g < N /\ (bad g = true \/ exists v, w <= v /\ In (g, v) S).

Section Backed.
Context (N F C : nat) (bad : nat -> bool) (Npos : 0 < N) (few : length (filter bad (seq 0 N)) <= F).
Notation n := (2 * F + 2 * C + 1).
Definition B (S : list (nat * nat)) (r : rep) : Prop := pending r = 0 \/ backed N bad n S (pending r).
Lemma backed_mono k S S' w w' : incl S S' -> w' <= w -> backed N bad k S w -> backed N bad k S' w'.
Proof.
  intros Is Hw (L & H1 & H2 & H3). exists L. repeat split; auto; destruct (H3 g H) as [H4 [H5|(v & H5 & H6)]]; auto. right. exists v. split; [lia|auto].
Qed.
Lemma B_same S S' r r' : incl S S' -> pending r' = pending r -> B S r -> B S' r'.
Proof. intros Is E [H|H]; [left; lia|right]. eapply backed_mono; [exact Is| |exact H]. lia. Qed.
Lemma move_pending w r r' l : move w r = Some (r', l) -> pending r' = pending r.
Proof. unfold move. destruct (_ <=? _); [discriminate|]. intros E. injection E as <- _. reflexivity. Qed.
Lemma try_pending r r' l : try F r = Some (r', l) -> pending r' = pending r.
Proof. unfold try. destruct (quorum _ _); [apply move_pending|]. intros E. injection E as <- _. reflexivity. Qed.
Lemma onComplaint_pending c r r' l : onComplaint F c r = Some (r', l) -> pending r' = pending r.
Proof. unfold onComplaint. destruct (_ =? _); [intros E; apply try_pending in E; exact E|]. intros E. injection E as <- _. reflexivity. Qed.
Lemma onVc_pending me g m r r' l : onVc N F C me g m r = Some (r', l) -> pending r' = pending r.
Proof.
  unfold onVc. destruct (ignored N g m r). { intros E. injection E as <- _. reflexivity. } cbv zeta. destruct (process _ _ _ _ _ _ _) as [cs hs]. unfold andThen, bind.
  destruct (jump_mono F m hs (withComps cs (addVc g m r))) as (x & Ex & Hx). rewrite Ex. destruct x as [[r1 l1]|]; [|discriminate]. destruct Hx as (_ & _ & X). cbn in X.
  destruct (ofPrimary_mono N g m r1) as (r2 & l2 & P1 & _ & _ & P4). rewrite P1. destruct (known_mono N F C me r2) as (r3 & l3 & Q1 & _ & _ & Q4 & _). rewrite Q1. intros E. injection E as <- _. lia.
Qed.
Lemma enter_B A S i r b V : K N bad V A S i r -> B S r -> B S (enter N F C i b r).
Proof.
  intros ((_ & _ & _ & _ & P5 & P6 & _) & _) Hb. unfold enter. destruct (active r); [exact Hb|]. cbn [orb]. destruct (Nat.eqb_spec (snd (relevant N F C i r)) (view r)) as [E|]; [|exact Hb]. cbn [negb].
  assert (X := relevantViews_spec F C (pending r) (held N i r)). fold (relevant N F C i r) in X. destruct (relevant N F C i r) as [vcn va]. cbn [snd] in E. subst va. destruct X as (_ & X & _).
  destruct X as [X|[_ X]]; [apply (B_same S S r); auto; apply incl_refl|]. right. exists (map vc_from (filter (fun m => view r <=? vc_view m) (present (held N i r)))).
  split; [|split; [rewrite map_length; exact X|]].
  - clear X. assert (H := held_nd N i r). revert H. induction (present (held N i r)) as [|m t IH]; cbn; intros H; [constructor|]. inversion H; subst. destruct (_ <=? _); cbn; auto. constructor; auto.
    intros Y. apply H2. apply in_map_iff in Y as (y & Y1 & Y2). apply filter_In in Y2 as [Y2 _]. rewrite <- Y1. apply in_map. exact Y2.
  - intros g Hg. apply in_map_iff in Hg as (m & <- & Hm). apply filter_In in Hm as [Hm Hv]. apply Nat.leb_le in Hv. apply held_in in Hm as (H1 & x & H2 & H3). split; [exact H1|]. cbn [pending].
    destruct (Nat.eqb_spec (vc_from m) i) as [Ei|Ei].
    + right. exists (v_new x). split; [lia|]. rewrite Ei. auto.
    + destruct (P5 _ _ H2) as [H4|H4]; auto. right. exists (v_new x). split; [lia|auto].
Qed.
Definition J (s : cluster) : Prop := forall i, i < N -> bad i = false -> B (sent s) (reps s i).
Lemma finish_J s i x : J s -> i < N -> bad i = false -> match x with None => True | Some (r', l) => pending r' = pending (reps s i) \/ B (sent s ++ map (fun m => (i, v_new m)) l) r' end -> J (finish i s x).
Proof.
  intros Hj Hi Hb Hx. destruct x as [[r l]|]; [|exact Hj]. intros j Hj' Bj. cbn. destruct (Nat.eq_dec j i) as [->|Ne]; [rewrite upd_same|rewrite upd_other by auto].
  - destruct Hx as [Hx|Hx]; [|exact Hx]. eapply B_same; [apply incl_appl, incl_refl|exact Hx|auto].
  - eapply B_same; [apply incl_appl, incl_refl|reflexivity|auto].
Qed.
Lemma step_J s e : I N bad 0 s -> J s -> J (step N F C bad s e).
Proof.
  intros [_ Hk] Hs. unfold step. cbv zeta. destruct (bad (who e)) eqn:Eb; [exact Hs|]. cbn [orb]. destruct (Nat.leb_spec N (who e)) as [|Hi]; [exact Hs|]. cbn [orb].
  destruct (mayGet N bad s e); [|exact Hs]. cbn [negb]. assert (Ki := Hk _ Hi Eb). assert (Bi := Hs _ Hi Eb).
  destruct e; cbn [who] in *.
  - intros j Hj Bj. cbn. destruct (Nat.eq_dec j i) as [->|Ne]; [rewrite upd_same; exact Bi|rewrite upd_other by auto; auto].
  - apply finish_J; auto. destruct (try F (reps s i)) as [[r l]|] eqn:E; auto. left. eapply try_pending; eauto.
  - apply finish_J; auto. destruct (move _ _) as [[r l]|] eqn:E; auto. left. eapply move_pending; eauto.
  - apply finish_J; auto. destruct (onComplaint F c (reps s i)) as [[r l]|] eqn:E; auto. left. eapply onComplaint_pending; eauto.
  - apply finish_J; auto. destruct (onVc _ _ _ _ _ _ _) as [[r l]|] eqn:E; auto. left. eapply onVc_pending; eauto.
  - intros j Hj Bj. cbn. destruct (Nat.eq_dec j i) as [->|Ne]; [rewrite upd_same|rewrite upd_other by auto; auto]. unfold onNewView. destruct (_ || _); exact Bi.
  - intros j Hj Bj. cbn. destruct (Nat.eq_dec j i) as [->|Ne]; [rewrite upd_same|rewrite upd_other by auto; auto]. eapply enter_B; eauto.
  - apply finish_J; auto. destruct (restart (reps s i)) as [r l] eqn:E. right. destruct Ki as ((P1 & _) & _). unfold restart in E.
    assert (Er : pending r = last (reps s i)) by (destruct (active (reps s i)); injection E as <- _; reflexivity).
    destruct Bi as [Bi|Bi]; [left; lia|right]. rewrite Er. eapply backed_mono; [apply incl_appl, incl_refl|exact P1|exact Bi].
Qed.
Lemma run_J l : J (run N F C bad l).
Proof.
  unfold run. assert (H : I N bad 0 start /\ J start). { split; [exact (run_I N F C bad Npos few 0 [])|]. intros i _ _. left. reflexivity. }
  revert H. generalize start. induction l; cbn; [tauto|]. intros s [H1 H2]. apply IHl. split; [apply step_I; auto|apply step_J; auto].
Qed.
Lemma run_K l i : i < N -> bad i = false -> K N bad 0 (asked (run N F C bad l) ++ rotated (run N F C bad l)) (sent (run N F C bad l)) i (reps (run N F C bad l) i).
Proof. intros Hi Hb. apply (run_I N F C bad Npos few 0 l); auto. Qed.
End Backed.

(** * One step. *)
Section Step.
Context (N F C : nat) (bad : nat -> bool).
Lemma finish_view s i x : match x with None => True | Some (r, _) => view (reps s i) <= view r end -> forall j, view (reps s j) <= view (reps (finish i s x) j).
Proof.
  intros H j. destruct x as [[r l]|]; cbn; auto. destruct (Nat.eq_dec j i) as [->|Ne]; [rewrite upd_same; auto|rewrite upd_other by auto; auto].
Qed.
Lemma move_view w r : match move w r with None => True | Some (r', _) => view r <= view r' end.
Proof. unfold move. destruct (Nat.leb_spec w (view r)); auto. cbn. lia. Qed.
Lemma try_view r : match try F r with None => True | Some (r', _) => view r <= view r' end.
Proof. unfold try. destruct (quorum _ _); [apply move_view|cbn; auto]. Qed.
Lemma step_view s e : match e with Restart _ => False | _ => True end -> forall j, view (reps s j) <= view (reps (step N F C bad s e) j).
Proof.
  intros He j. unfold step. cbv zeta. destruct (_ || _); [auto|]. destruct e; try contradiction; cbn [who].
  - cbn. destruct (Nat.eq_dec j i) as [->|Ne]; [rewrite upd_same; cbn; auto|rewrite upd_other by auto; auto].
  - apply finish_view, try_view.
  - apply (finish_view (mkCl _ _ _ _ _)), move_view.
  - apply finish_view. unfold onComplaint. destruct (_ =? _); [apply (try_view (withComps _ _))|cbn; auto].
  - apply finish_view. unfold onVc. destruct (ignored _ _ _ _); [cbn; auto|]. cbv zeta. destruct (process _ _ _ _ _ _ _) as [cs hs]. unfold andThen, bind.
    destruct (jump_mono F m hs (withComps cs (addVc g m (reps s i)))) as (x & Ex & Hx). rewrite Ex. destruct x as [[r1 l1]|]; [|auto]. destruct Hx as (X & _). cbn in X.
    destruct (ofPrimary_mono N g m r1) as (r2 & l2 & P1 & P2 & _). rewrite P1. destruct (known_mono N F C i r2) as (r3 & l3 & Q1 & Q2 & _). rewrite Q1. lia.
  - cbn. destruct (Nat.eq_dec j i) as [->|Ne]; [rewrite upd_same|rewrite upd_other by auto; auto]. unfold onNewView. destruct (_ || _); cbn; auto.
  - cbn. destruct (Nat.eq_dec j i) as [->|Ne]; [rewrite upd_same|rewrite upd_other by auto; auto]. unfold enter. destruct (_ || _); cbn; auto.
Qed.
End Step.
