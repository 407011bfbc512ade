(** Proofs for Snap_Model. *)
From Coq Require Import List Arith Bool Lia Sorted.
From Verif Require Import Snap_Model.
Import ListNotations.

Lemma mem_In x l : mem x l = true <-> In x l.
Proof. unfold mem. rewrite existsb_exists. split; [intros (y & ? & E%Nat.eqb_eq); now subst | intros H; exists x; now rewrite Nat.eqb_refl]. Qed.
Lemma mem_nIn x l : mem x l = false <-> ~ In x l.
Proof. rewrite <- mem_In. destruct (mem x l); split; congruence. Qed.
Lemma del_In x y l : In y (del x l) <-> In y l /\ y <> x.
Proof. unfold del. rewrite filter_In, negb_true_iff, Nat.eqb_neq. tauto. Qed.
Lemma ins_In x y l : In y (ins x l) <-> y = x \/ In y l.
Proof. induction l as [|a l IH]; simpl; [intuition|]. destruct (x <=? a); simpl; rewrite ?IH; intuition. Qed.
Lemma ins_len x l : length (ins x l) = S (length l).
Proof. induction l as [|a l IH]; simpl; [easy|]. destruct (x <=? a); simpl; lia. Qed.
Notation srt := (StronglySorted lt).
Lemma ins_srt x l : srt l -> ~ In x l -> srt (ins x l).
Proof.
  induction 1 as [|a l S IH F]; intros N; simpl in *; [repeat constructor|].
  rewrite Forall_forall in F. destruct (Nat.leb_spec x a).
  - constructor; [constructor; [easy|now apply Forall_forall]|]. apply Forall_forall. intros y [<-|y']; [lia|]. specialize (F _ y'). lia.
  - constructor; [apply IH; tauto|]. apply Forall_forall. intros y [->|y']%ins_In; [lia|auto].
Qed.
Lemma srt_nodup l : srt l -> NoDup l.
Proof. induction 1 as [|a l S IH F]; constructor; auto. rewrite Forall_forall in F. intros H. specialize (F _ H). lia. Qed.
Lemma ins_last x l : Forall (fun y => y < x) l -> ins x l = l ++ [x].
Proof. induction 1 as [|a l H F IH]; simpl; [easy|]. destruct (Nat.leb_spec x a); [lia|]. now rewrite IH. Qed.
Lemma lasto_app l x : lasto (l ++ [x]) = Some x.
Proof. unfold lasto. now rewrite rev_app_distr. Qed.
Lemma lasto_cons o r : r <> [] -> lasto (o :: r) = lasto r.
Proof. intros N. destruct (exists_last N) as (l & x & ->). now rewrite app_comm_cons, !lasto_app. Qed.

Section S.
Context (mx : nat) (early clean ord nofail : bool).
Notation step := (step mx early clean ord nofail).
Notation reach := (reach mx early clean ord nofail).

(** Shape: the stored list against the list in memory. *)
Definition shape (s : st) : Prop :=
  match p s with
  | PFree | PTrim _ => meta s = mm s
  | PMake i _ | PPrep i _ => meta s = mm s /\ ~ In i (mm s)
  | PSave i => mm s = ins i (meta s) /\ ~ In i (meta s)
  | PRm o _ => if early then meta s = mm s /\ ~ In o (mm s) else meta s = mm s /\ exists r, mm s = o :: r
  | PEr o _ => if early then meta s = mm s /\ ~ In o (mm s) else meta s = o :: mm s
  end.
Definition W (s : st) : Prop := srt (mm s) /\ srt (meta s) /\ shape s.
Lemma srt_tl o r : srt (o :: r) -> srt r /\ ~ In o r.
Proof. intros H. apply StronglySorted_inv in H as [A B]. rewrite Forall_forall in B. split; [easy|]. intros I. specialize (B _ I). lia. Qed.
Lemma W_step s t : W s -> step s t -> W t.
Proof.
  intros (A & B & C) X. destruct X; unfold W, shape, rm_start, gone, erased, restart in *; simpl in *; repeat match goal with H : p s = _ |- _ => rewrite H in *; clear H end; simpl in *; auto.
  - destruct (mem id (mm s)) eqn:E; simpl; auto. repeat split; auto. now apply mem_nIn.
  - repeat split; intuition.
  - destruct C as [-> N]. repeat split; auto. now apply ins_srt.
  - rewrite H1 in *. destruct (srt_tl _ _ A) as [A1 A2]. destruct early; simpl; rewrite ?H1; repeat split; eauto.
  - rewrite H1 in *. destruct (srt_tl _ _ A) as [A1 A2]. destruct early; simpl; rewrite ?H1; repeat split; eauto.
  - destruct early; simpl; [tauto|]. destruct C as [C [r E]]. rewrite C, E in *. destruct (srt_tl _ _ A) as [A1 A2]. repeat split; auto.
  - destruct own; simpl; auto.
Qed.
Lemma W_reach s : reach s -> W s.
Proof. induction 1; [repeat constructor|eauto using W_step]. Qed.

(** Listed snapshots are there. *)
Definition R (s : st) : Prop := forall x, In x (mm s) \/ In x (meta s) -> dir s x = Ready \/ (p s = PSave x -> True) /\ early = false /\ In x (removing (p s)).
Lemma upd_eq f k v : upd f k v k = v.
Proof. unfold upd. now rewrite Nat.eqb_refl. Qed.
Lemma upd_ne f k v x : x <> k -> upd f k v x = f x.
Proof. unfold upd. intros H%Nat.eqb_neq. now rewrite H. Qed.
Lemma R_step s t : (early = true \/ clean = true) -> W s -> R s -> step s t -> R t.
Proof.
  intros M (A & B & C) Q X x. specialize (Q x). unfold shape in C.
  destruct X; unfold rm_start, gone, erased, restart in *; simpl in *; repeat match goal with H : p s = _ |- _ => rewrite H in *; clear H end; simpl in *; auto; try tauto.
  - destruct (mem id (mm s)) eqn:E; simpl; [tauto|]. apply mem_nIn in E. rewrite C in *. intros I. rewrite upd_ne by (intros ->; tauto). tauto.
  - destruct C as [C N]. rewrite C in *. intros I. rewrite upd_ne by (intros ->; tauto). tauto.
  - destruct C as [C N]. rewrite C in *. intros I. rewrite upd_ne by (intros ->; tauto). tauto.
  - destruct C as [C N]. rewrite C, ins_In in *. intros I. destruct (Nat.eq_dec x id) as [->|D]; [now rewrite upd_eq; left|]. rewrite upd_ne by easy. tauto.
  - rewrite C, H1 in *. destruct (srt_tl _ _ A) as [A1 A2]. destruct early; simpl.
    + simpl in Q. tauto.
    + intros I. destruct (Nat.eq_dec x o) as [->|D]; [right; tauto|]. rewrite upd_ne by easy. simpl in *. rewrite ?C, ?H1 in *. simpl in *. tauto.
  - rewrite C, H1 in *. destruct (srt_tl _ _ A) as [A1 A2]. destruct early; simpl.
    + simpl in Q. tauto.
    + intros I. destruct (Nat.eq_dec x o) as [->|D]; [right; tauto|]. rewrite upd_ne by easy. simpl in *. rewrite ?C, ?H1 in *. simpl in *. tauto.
  - destruct early.
    + destruct C as [C N]. rewrite C in *. intros I. rewrite upd_ne by (intros ->; tauto). destruct Q as [Q|(_ & ? & _)]; [tauto|auto|congruence].
    + destruct C as [C [r E]]. rewrite C, E in *. simpl in *. destruct (Nat.eq_dec x o) as [->|D]; [right; tauto|]. rewrite upd_ne by easy. intros I. destruct Q as [Q|(_ & _ & [?|[]])]; [tauto|auto|congruence].
  - destruct early.
    + destruct C as [C N]. rewrite C in *. intros I. destruct Q as [Q|(_ & ? & _)]; [tauto|auto|congruence].
    + rewrite C in *. simpl in *. destruct (srt_tl _ _ B) as [B1 B2]. intros I. destruct Q as [Q|(_ & _ & [?|[]])]; [tauto|auto|]. subst. tauto.
  - intros I. assert (I2 : In x (meta s)) by tauto. rewrite (proj2 (mem_In _ _) I2). destruct Q as [Q|(_ & N & I3)]; [auto|auto|]. destruct M as [M|M]; [congruence|]. rewrite (H M) in I3. destruct I3.
Qed.
Lemma R_reach s : (early = true \/ clean = true) -> reach s -> R s.
Proof. intros M X. induction X as [|s t X IH Y]; [intros x [[]|[]]|]. eapply R_step; eauto using W_reach. Qed.

(** No directory is forgotten. *)
Definition making (c : pc) : list nat := match c with PMake i _ | PPrep i _ => [i] | PRm o _ => [o] | _ => [] end.
Definition O (s : st) : Prop := forall x, dir s x <> Absent -> In x (mm s) \/ In x (making (p s)).
Lemma O_step s t : W s -> O s -> step s t -> O t.
Proof.
  intros (A & B & C) Q X x. specialize (Q x). unfold shape in C.
  destruct X; unfold rm_start, gone, erased, restart in *; simpl in *; repeat match goal with H : p s = _ |- _ => rewrite H in *; clear H end; simpl in *; auto; try tauto.
  - destruct (mem id (mm s)) eqn:E; simpl; [tauto|]. destruct (Nat.eq_dec x id) as [->|D]; [auto|rewrite upd_ne by easy; tauto].
  - destruct (Nat.eq_dec x id) as [->|D]; [auto|rewrite upd_ne by easy; tauto].
  - destruct (Nat.eq_dec x id) as [->|D]; [rewrite upd_eq; tauto|rewrite upd_ne by easy; intuition congruence].
  - rewrite ins_In. destruct (Nat.eq_dec x id) as [->|D]; [auto|rewrite upd_ne by easy; intuition congruence].
  - rewrite H1 in *. destruct early; simpl in *; [tauto|]. rewrite ?H1. destruct (Nat.eq_dec x o) as [->|D]; [auto|rewrite upd_ne by easy; simpl; tauto].
  - rewrite H1 in *. destruct early; simpl in *; [tauto|]. rewrite ?H1. destruct (Nat.eq_dec x o) as [->|D]; [auto|rewrite upd_ne by easy; simpl; tauto].
  - destruct (Nat.eq_dec x o) as [->|D]; [rewrite upd_eq; tauto|]. rewrite upd_ne by easy. destruct early.
    + intuition congruence.
    + destruct C as [C [r E]]. rewrite E in *. simpl in *. intuition congruence.
  - destruct (mem x (meta s)) eqn:E; [|tauto]. intros _. left. now apply mem_In.
Qed.
Lemma O_reach s : reach s -> O s.
Proof. induction 1 as [|s t X IH Y]; [now intros x []|]. eapply O_step; eauto using W_reach. Qed.

(** How many. *)
Definition N (s : st) : Prop := match p s with PFree | PMake _ _ | PPrep _ _ => length (mm s) <= mx + crashes s | PRm _ None | PEr _ None => length (meta s) <= mx + crashes s | PRm _ _ | PEr _ _ => length (meta s) <= S (mx + crashes s) | _ => length (mm s) <= S (mx + crashes s) end.
Lemma meta_len s : W s -> N s -> length (meta s) <= S (mx + crashes s).
Proof.
  intros (A & B & C) Q. unfold N, shape in *. destruct (p s) as [|i q|i q|i|i|o [w|]|o [w|]]; try match type of C with _ /\ _ => destruct C as [C C2] end; try (rewrite C in *; rewrite ?ins_len in Q; lia); try lia.
Qed.
Lemma N_step s t : W s -> N s -> step s t -> N t.
Proof.
  intros A Q X. destruct X; [..|pose proof (meta_len s A Q); unfold N, restart; simpl; lia]; destruct A as (A & B & C); unfold N, shape in *;
    unfold rm_start, gone, erased, restart in *; simpl in *; repeat match goal with H : p s = _ |- _ => rewrite H in *; clear H end; simpl in *; auto; try lia.
  - destruct (mem id (mm s)); simpl; lia.
  - rewrite ins_len. lia.
  - rewrite H1 in *. destruct early; simpl in *; rewrite ?C; simpl; lia.
  - rewrite H1 in *. destruct early; simpl in *; rewrite ?C; simpl; lia.
  - destruct own; simpl; destruct early; try match type of C with _ /\ _ => destruct C as [C C2] end; rewrite C in Q; simpl in *; lia.
Qed.
Lemma N_reach s : reach s -> N s.
Proof. induction 1 as [|s t X IH Y]; [unfold N; simpl; lia|]. eapply N_step; eauto using W_reach. Qed.
Lemma mm_len s : reach s -> length (mm s) <= S (mx + crashes s).
Proof.
  intros X. pose proof (N_reach s X) as Q. pose proof (W_reach s X) as (A & B & C). unfold N, shape in *. destruct (p s) as [| | | | |o [w|]|o [w|]]; try lia; destruct early; try match type of C with _ /\ _ => destruct C as [C C2] end; rewrite C in Q; simpl in Q; lia.
Qed.
Lemma dirs_len s l : reach s -> NoDup l -> (forall x, In x l -> dir s x <> Absent) -> length l <= S (S (mx + crashes s)).
Proof.
  intros X D H. assert (I : incl l (mm s ++ making (p s))) by (intros x I; apply in_app_iff, (O_reach s X), H, I).
  apply (NoDup_incl_length D) in I. rewrite app_length in I. pose proof (mm_len s X). destruct (p s); simpl in I; lia.
Qed.

(** Growing numbers, in turn. *)
Notation below x l := (Forall (fun y => y < x) l).
Lemma lasto_In l x : lasto l = Some x -> In x l.
Proof. unfold lasto. destruct (rev l) as [|y r] eqn:E; [easy|]. intros [= ->]. apply in_rev. rewrite E. now left. Qed.
Lemma srt_app l x : srt l -> below x l -> srt (l ++ [x]).
Proof. intros S F. rewrite <- ins_last by easy. apply ins_srt; [easy|]. intros I. rewrite Forall_forall in F. specialize (F _ I). lia. Qed.
Definition D (s : st) : Prop :=
  dead s = false /\ srt (map fst (run s)) /\ (forall x y, In x (mm s ++ owner (p s) ++ removing (p s)) -> In y (map fst (run s)) -> x < y) /\
  match p s with PFree => lcd s = lasto (mm s) | PMake i _ | PPrep i _ => below i (mm s) /\ lcd s = lasto (mm s) | PSave i | PTrim i => lasto (mm s) = Some i /\ lcd s = Some i
  | PRm o (Some i) | PEr o (Some i) => lasto (mm s) = Some i /\ o < i /\ lcd s = Some i | PRm o None | PEr o None => mm s = [] \/ lcd s = lasto (mm s) end.
Context (ORD : ord = true) (POS : 0 < mx).
Lemma D_step s t : W s -> D s -> step s t -> D t.
Proof.
  intros (A & B & C) (D1 & D2 & D3 & D4) X. unfold shape, D in *.
  destruct X; unfold rm_start, gone, erased, restart, unfinished in *; simpl in *; repeat match goal with H : p s = _ |- _ => rewrite H in *; clear H end; simpl in *; auto.
  - specialize (H3 ORD). rewrite Forall_forall in H3. rewrite map_app. simpl. repeat split; auto.
    + apply srt_app; [easy|]. apply Forall_forall. intros y I. apply H3. rewrite !in_app_iff. auto.
    + intros x y I [J|[<-|[]]]%in_app_iff; [auto|]. apply H3. rewrite !in_app_iff in *. tauto.
  - rewrite (H2 ORD) in *. simpl in *. rewrite H1 in *. simpl in *. apply StronglySorted_inv in D2 as [D2 F]. rewrite Forall_forall in F.
    assert (M : below id (mm s)) by (apply Forall_forall; intros y I; apply D3; [rewrite !in_app_iff|]; auto).
    destruct (mem id (mm s)) eqn:E.
    { apply mem_In in E. rewrite Forall_forall in M. specialize (M _ E). lia. }
    simpl. repeat split; auto. intros x y. rewrite !in_app_iff. simpl. intros [I|[<-|[]]] J; [apply D3; [rewrite in_app_iff|]; auto|auto].
  - repeat split; try tauto. intros x y I. apply D3. rewrite !in_app_iff in *. simpl in *. tauto.
  - rewrite (ins_last _ _ (proj1 D4)), lasto_app. repeat split; auto. intros x y I. apply D3. rewrite !in_app_iff in *. simpl in *. tauto.
  - rewrite H1 in *. assert (NR : r <> []) by (intros ->; simpl in *; lia). rewrite (lasto_cons _ _ NR) in D4. assert (L : o < id).
    { apply StronglySorted_inv in A as [_ F]. rewrite Forall_forall in F. apply F, lasto_In. tauto. }
    destruct early; simpl; rewrite ?H1, ?(lasto_cons _ _ NR); repeat split; try tauto; intros x y I; apply D3; simpl in *; rewrite !in_app_iff in *; simpl in *; tauto.
  - repeat split; try tauto; [|now destruct D4 as [-> ->]]. intros x y I. apply D3. rewrite !in_app_iff in *. simpl in *. tauto.
  - rewrite H1 in *. destruct early; simpl; rewrite ?H1; repeat split; auto.
    1,3: intros x y I; apply D3; simpl in *; rewrite !in_app_iff in *; simpl in *; tauto.
    destruct r; [auto|right]. rewrite D4. apply lasto_cons. easy.
  - destruct early; simpl.
    + repeat split; auto.
    + destruct C as [C [r E]]. rewrite E in *. simpl in *. repeat split; auto.
      destruct own as [i|].
      * destruct r as [|a r]; [unfold lasto in D4; simpl in D4; destruct D4 as [[= ->] [L _]]; lia|]. rewrite (lasto_cons o (a :: r)) in D4 by easy. easy.
      * destruct r as [|a r]; [auto|]. rewrite (lasto_cons o (a :: r)) in D4 by easy. destruct D4; [easy|auto].
  - assert (M : mem o (map fst (run s) ++ opt own) = false).
    { apply mem_nIn. rewrite in_app_iff. intros [I|I].
      - specialize (D3 o o). rewrite !in_app_iff in D3. simpl in D3. specialize (D3 ltac:(tauto) I). lia.
      - destruct own as [i|]; simpl in I; [|easy]. lia. }
    rewrite D1, M. simpl. repeat split; auto.
    + intros x y I. apply D3. rewrite !in_app_iff in *. destruct own; simpl in *; tauto.
    + destruct own as [i|].
      * destruct D4 as (D4 & _ & D5). destruct (mm s) eqn:E; [easy|]. split; easy.
      * destruct D4 as [-> | ->]; [easy|]. now destruct (mm s).
  - repeat split; auto; try constructor. easy.
Qed.
Lemma D_reach s : reach s -> D s.
Proof. induction 1 as [|s t X IH Y]; [repeat split; simpl; auto; try constructor; easy|]. eapply D_step; eauto using W_reach. Qed.
End S.

(** Pending requests when no write fails. *)
Definition writing (c : pc) : list nat := match c with PMake i _ | PPrep i _ => [i] | _ => [] end.
Definition P (s : st) : Prop := forall x, In x (fut s) -> In x (mm s) \/ In x (map fst (run s)) \/ In x (writing (p s)) \/ In x (removing (p s)).
Lemma P_step mx early clean ord s t : W early s -> P s -> step mx early clean ord true s t -> P t.
Proof.
  intros (A & B & C) Q X x. specialize (Q x). unfold shape in *.
  destruct X; unfold rm_start, gone, erased, restart in *; simpl in *; repeat match goal with H : p s = _ |- _ => rewrite H in *; clear H end; simpl in *; auto; try tauto; rewrite ?map_app, ?in_app_iff in *; simpl in *; try tauto; try easy.
  - rewrite H1, map_app, in_app_iff in Q. simpl in Q. destruct (mem id (mm s)) eqn:E; [apply mem_In in E|]; simpl; rewrite ?map_app, ?in_app_iff; simpl; intuition (subst; auto).
  - rewrite ins_In. intuition.
  - rewrite H1 in *. destruct early; simpl in *; rewrite ?H1; simpl; tauto.
  - rewrite H1 in *. destruct early; simpl in *; rewrite ?H1; simpl; tauto.
  - destruct early; [tauto|]. destruct C as [C [r E]]. rewrite E in *. simpl in *. tauto.
  - rewrite del_In. intros [I N]. specialize (Q I). destruct own; simpl in *; intuition congruence.
Qed.
Lemma P_reach mx early clean ord s : reach mx early clean ord true s -> P s.
Proof. induction 1 as [|s t X IH Y]; [easy|]. eapply P_step; eauto using W_reach. Qed.

(** A failed one, until a restart. *)
Definition stuck (id : nat) (s : st) : Prop := In id (fut s) /\ ~ In id (mm s) /\ ~ In id (unfinished s) /\ ~ In id (removing (p s)).
Lemma stuck_step mx early clean ord nf id s t : W early s -> stuck id s -> step mx early clean ord nf s t -> crashes t = crashes s -> stuck id t.
Proof.
  intros (A & B & C) (Q1 & Q2 & Q3 & Q4) X CR. unfold shape, stuck, unfinished in *.
  destruct X; unfold rm_start, gone, erased, restart, unfinished in *; simpl in *; repeat match goal with H : p s = _ |- _ => rewrite H in *; clear H end; simpl in *; rewrite ?map_app, ?in_app_iff in *; simpl in *; try tauto; try lia.
  - apply mem_nIn in H2. repeat split; auto; intuition congruence.
  - rewrite H1, map_app, in_app_iff in Q3. simpl in Q3. destruct (mem id0 (mm s)); simpl; rewrite ?map_app, ?in_app_iff; simpl; tauto.
  - rewrite ins_In. repeat split; auto; intuition congruence.
  - rewrite H1 in *. destruct early; simpl in *; rewrite ?H1, ?in_app_iff; simpl; repeat split; intuition congruence.
  - rewrite H1 in *. destruct early; simpl in *; rewrite ?H1, ?in_app_iff; simpl; repeat split; intuition congruence.
  - destruct early; repeat split; try tauto. destruct C as [C [r E]]. rewrite E in *. simpl in *. tauto.
  - rewrite del_In. repeat split; auto; destruct own; simpl in *; intuition congruence.
Qed.
Lemma on_reach mx early clean ord nf s t : reach mx early clean ord nf s -> on mx early clean ord nf s t -> reach mx early clean ord nf t.
Proof. intros R X. induction X; auto. eapply rS; eauto. Qed.
Lemma stuck_on mx early clean ord nf id s t : reach mx early clean ord nf s -> stuck id s -> on mx early clean ord nf s t -> stuck id t.
Proof. intros R S X. induction X as [|t u X IH Y E]; auto. apply (stuck_step mx early clean ord nf id t u); auto. eapply W_reach, on_reach; eauto. Qed.

(** A snapshot that leaves the list is the lowest. *)
Lemma leaves mx early clean ord nf s t x : W early s -> step mx early clean ord nf s t -> crashes t = crashes s -> In x (mm s) -> ~ In x (mm t) -> forall y, In y (mm t) -> x < y.
Proof.
  intros (A & B & C) X CR I J y K. unfold shape in *.
  assert (G : forall o r, mm s = o :: r -> mm t = r -> x < y).
  { intros o r E E2. rewrite E, E2 in *. apply StronglySorted_inv in A as [_ F]. rewrite Forall_forall in F. destruct I as [->|I]; [auto|tauto]. }
  destruct X; unfold rm_start, gone, erased, restart in *; simpl in *; try tauto; try lia.
  - destruct (mem id (mm s)); simpl in *; tauto.
  - rewrite ins_In in J. tauto.
  - destruct early; simpl in *; [eauto|tauto].
  - destruct early; simpl in *; [eauto|tauto].
  - destruct early; simpl in *; [tauto|]. rewrite H in C. destruct C as [C [r E]]. rewrite E in G. eapply G; eauto.
Qed.
