(** Proofs for Leave_Model. *)
From Coq Require Import List Arith Bool Lia Permutation.
From Verif Require Import Lib_Sets ViewChange_Model ViewChange_Proofs Leave_Model.
Import ListNotations.

Section Proofs.
Context (N F C : nat) (bad : nat -> bool) (Npos : 0 < N) (few : length (filter bad (seq 0 N)) <= F) (V : nat).
Notation pairs := (list (nat * nat)).

Definition gen (A : pairs) (c : complaint) : Prop := c_ok c = true /\ c_gen c < N /\ (bad (c_gen c) = true \/ In (c_gen c, c_view c) A).
Lemma genuine_gen s c : genuine N bad s c = true <-> gen (asked s) c.
Proof.
  unfold genuine, gen. rewrite !andb_true_iff, orb_true_iff, Nat.ltb_lt, existsb_exists. split.
  - intros [[H1 H2] [H3|(x & H3 & H4)]]; repeat split; auto. right. apply andb_true_iff in H4 as [H4 H5]. apply Nat.eqb_eq in H4, H5. destruct x. cbn in *. subst. exact H3.
  - intros (H1 & H2 & [H3|H3]); repeat split; auto. right. exists (c_gen c, c_view c). cbn. rewrite !Nat.eqb_refl. auto.
Qed.
Lemma correct_among l : NoDup l -> (forall x, In x l -> x < N) -> F + 1 <= length l -> exists x, In x l /\ bad x = false.
Proof.
  intros ND Hl Hn. destruct (existsb (fun x => negb (bad x)) l) eqn:E.
  - apply existsb_exists in E as (x & H1 & H2). exists x. split; auto. destruct (bad x); [discriminate|auto].
  - exfalso. assert (I : incl l (filter bad (seq 0 N))).
    { intros x Hx. apply filter_In. split; [apply in_seq; specialize (Hl x Hx); lia|]. destruct (bad x) eqn:B; auto.
      assert (X : existsb (fun x => negb (bad x)) l = true) by (apply existsb_exists; exists x; rewrite B; auto). congruence. }
    apply NoDup_incl_length in I; auto. lia.
Qed.

(** * Lists of complaints. *)
Definition okList (A : pairs) (v : nat) (l : list complaint) : Prop := NoDup (map c_gen l) /\ forall c, In c l -> gen A c /\ c_view c = v.
Lemma has_in g l : has g l = true <-> In g (map c_gen l).
Proof.
  unfold has. rewrite existsb_exists, in_map_iff. split; intros (c & H1 & H2); exists c; [apply Nat.eqb_eq in H2|apply Nat.eqb_eq in H1]; auto.
Qed.
Lemma store_ok A v c l : okList A v l -> gen A c -> c_view c = v -> okList A v (store c l).
Proof.
  intros [H1 H2] Hg Hv. unfold store. destruct (has (c_gen c) l) eqn:E; [split; auto|].
  assert (Hn : ~ In (c_gen c) (map c_gen l)). { intros X. apply has_in in X. congruence. }
  split.
  - rewrite map_app. cbn. eapply Permutation_NoDup; [apply Permutation_cons_append|]. constructor; auto.
  - intros d Hd. apply in_app_or in Hd as [Hd|[<-|[]]]; auto.
Qed.
Lemma insertC_perm c l : Permutation (insertC c l) (c :: l).
Proof.
  induction l as [|d l IH]; cbn; [reflexivity|]. destruct (c_gen c <=? c_gen d); [reflexivity|]. rewrite IH. apply perm_swap.
Qed.
Lemma sorted_perm l : Permutation (sorted l) l.
Proof. unfold sorted. induction l as [|c l IH]; cbn; [reflexivity|]. rewrite insertC_perm, IH. reflexivity. Qed.
Lemma okList_perm A v l l' : Permutation l l' -> okList A v l -> okList A v l'.
Proof.
  intros P [H1 H2]. split; [eapply Permutation_NoDup; [apply Permutation_map; exact P|exact H1]|]. intros c Hc. apply H2. eapply Permutation_in; [symmetry; exact P|exact Hc].
Qed.
Lemma quorum_view A v l : okList A v l -> quorum F l = true -> exists i, In (i, v) A /\ bad i = false.
Proof.
  intros [H1 H2] Q. unfold quorum in Q. apply Nat.leb_le in Q. destruct (correct_among (map c_gen l)) as (x & X1 & X2); auto.
  - intros x X. apply in_map_iff in X as (c & <- & X). destruct (H2 c X) as [(_ & G & _) _]. exact G.
  - rewrite map_length. exact Q.
  - apply in_map_iff in X1 as (c & <- & X). destruct (H2 c X) as [(_ & _ & [G|G]) E]; [congruence|]. exists (c_gen c). rewrite <- E. auto.
Qed.

(** * One replica. *)
Definition rOK0 (S : pairs) (i : nat) (r : rep) : Prop :=
  last r <= pending r /\ pending r <= view r /\ (active r = false -> last r < view r) /\ (active r = true -> last r = view r) /\
  (forall g m, vcs r g = Some m -> bad g = true \/ In (g, v_new m) S) /\ (forall m, own r = Some m -> In (i, v_new m) S) /\
  (active r = false -> exists m, own r = Some m /\ v_new m = view r).
Definition Lim (A : pairs) : Prop := bad (V mod N) = false /\ forall i v, V <= v -> ~ In (i, v) A.
Definition K (A S : pairs) (i : nat) (r : rep) : Prop :=
  rOK0 S i r /\ okList A (view r) (comps r) /\ (Lim A -> view r <= V /\ forall g v, In (g, v) S -> v <= V).
Definition marks (i : nat) (l : list vc) : pairs := map (fun m => (i, v_new m)) l.
Definition good (A S : pairs) (i : nat) (x : option (rep * list vc)) : Prop :=
  match x with None => False | Some (r, l) => K A (S ++ marks i l) i r end.
Lemma rOK0_mono S S' i r : incl S S' -> rOK0 S i r -> rOK0 S' i r.
Proof.
  intros I (H1 & H2 & H3 & H4 & H5 & H6 & H7). repeat split; auto; intros.
  all: try (destruct (H5 _ _ H); auto; fail); eauto.
Qed.
Lemma good_andThen A S i x f : good A S i x -> (forall r S', K A S' i r -> incl S S' -> good A S' i (f r)) -> good A S i (andThen x f).
Proof.
  intros Hx Hf. unfold andThen, bind. destruct x as [[r l]|]; [|exact Hx]. cbn in Hx. specialize (Hf r (S ++ marks i l) Hx (incl_appl _ (incl_refl _))).
  destruct (f r) as [[r' l']|]; [|exact Hf]. cbn in *. unfold marks in *. rewrite map_app, app_assoc. exact Hf.
Qed.
Lemma good_stay A S i r : K A S i r -> good A S i (stay r).
Proof. intros H. cbn. rewrite app_nil_r. exact H. Qed.
Lemma move_good A S i r next : rOK0 S i r -> view r < next -> (Lim A -> next <= V /\ forall g v, In (g, v) S -> v <= V) -> good A S i (move next r).
Proof.
  intros (H1 & H2 & H3 & H4 & H5 & H6 & H7) Hn HL. unfold move. destruct (Nat.leb_spec next (view r)); [lia|]. cbn.
  split; [|split]; [|split; [constructor|intros c []]|].
  - repeat split; cbn; try discriminate; try lia.
    + intros g m Hm. destruct (H5 g m Hm); auto. right. apply in_or_app; auto.
    + intros m Hm. injection Hm as <-. apply in_or_app. right. left. reflexivity.
    + intros _. eexists. split; reflexivity.
  - cbn. intros L. destruct (HL L) as [L1 L2]. split; auto. intros g v Hv. apply in_app_or in Hv as [Hv|[Hv|[]]]; [eauto|]. cbn in Hv. injection Hv as _ <-. exact L1.
Qed.
Lemma lim_next A S i r : K A S i r -> (Lim A -> view r <> V) -> Lim A -> Datatypes.S (view r) <= V /\ forall g v, In (g, v) S -> v <= V.
Proof. intros (_ & _ & H) Hn L. destruct (H L) as [H1 H2]. specialize (Hn L). split; auto. lia. Qed.
Lemma quorum_lim A v l : okList A v l -> quorum F l = true -> Lim A -> v < V.
Proof.
  intros O Q [_ L]. destruct (quorum_view A v l O Q) as (i & Hi & _). destruct (Nat.lt_ge_cases v V); auto. exfalso. eapply L; eauto.
Qed.
Lemma try_good A S i r : K A S i r -> good A S i (try F r).
Proof.
  intros H. unfold try. destruct (quorum F (comps r)) eqn:Q; [|apply good_stay; exact H].
  destruct (H) as (H0 & H1 & H2). apply move_good; auto. apply lim_next with (i := i); auto. intros L E. assert (X := quorum_lim _ _ _ H1 Q L). lia.
Qed.
Lemma onComplaint_good A S i r c : K A S i r -> gen A c -> good A S i (onComplaint F c r).
Proof.
  intros H G. unfold onComplaint. destruct (Nat.eqb_spec (c_view c) (view r)) as [E|]; [|apply good_stay; exact H].
  apply try_good. destruct H as (H0 & H1 & H2). split; [exact H0|]. split; [|exact H2]. cbn. apply store_ok; auto.
Qed.
Lemma process_ok A cur target : forall l k cs hs, (forall c, In c l -> c_ok c = true -> gen A c) -> okList A cur cs -> okList A (pred target) hs -> (target <= S cur -> hs = []) -> 
  let '(cs', hs') := process F cur target k l cs hs in okList A cur cs' /\ okList A (pred target) hs' /\ (target <= S cur -> hs' = []).
Proof using. clear Npos few V.
  induction l as [|c l IH]; intros k cs hs Hl Hc Hh He; cbn [process]; auto.
  destruct (_ && _ && _) eqn:G; auto. apply andb_true_iff in G as [G _]. apply andb_true_iff in G as [G _]. apply Nat.ltb_lt in G.
  assert (Hl' : forall d, In d l -> c_ok d = true -> gen A d) by (intros; apply Hl; [right|]; auto).
  destruct (Nat.eqb_spec target (S cur)) as [E|E].
  - destruct (negb _ && _ && _) eqn:G2; [|apply IH; auto]. apply andb_true_iff in G2 as [G2 G3]. apply andb_true_iff in G2 as [_ G2]. apply Nat.eqb_eq in G2.
    apply IH; auto. apply store_ok; auto. apply Hl; [left|]; auto.
  - destruct (_ && _) eqn:G2; [|apply IH; auto]. apply andb_true_iff in G2 as [G2 G3]. apply Nat.eqb_eq in G2.
    apply IH; auto; [|lia]. apply store_ok; auto; [apply Hl; [left|]; auto|lia].
Qed.
Lemma jump_good A S i r m cs hs : K A S i r -> okList A (view r) cs -> okList A (pred (v_new m)) hs -> (v_new m <= Datatypes.S (view r) -> hs = []) -> good A S i (jump F m hs (withComps cs r)).
Proof.
  intros (H0 & H1 & H2) Hc Hh He. unfold jump. cbn [comps withComps view]. destruct (quorum F cs) eqn:Qc.
  - apply (move_good A S i (withComps cs r)); cbn; auto. intros L. destruct (H2 L) as [L1 L2]. split; auto. assert (X := quorum_lim _ _ _ Hc Qc L). lia.
  - destruct (quorum F hs) eqn:Qh; [|apply good_stay; split; [exact H0|split; auto]].
    destruct (Nat.leb_spec (v_new m) (Datatypes.S (view r))) as [Hle|Hgt]. { rewrite (He Hle) in Qh. unfold quorum in Qh. apply Nat.leb_le in Qh. cbn in Qh. lia. }
    apply move_good; cbn; [exact H0|lia|]. intros L. destruct (H2 L) as [L1 L2]. split; auto. assert (X := quorum_lim _ _ _ Hh Qh L). lia.
Qed.
Lemma ofPrimary_good A S i r g m : K A S i r -> (bad g = true \/ In (g, v_new m) S) -> good A S i (ofPrimary N g m r).
Proof.
  intros H Hg. unfold ofPrimary. destruct (_ && _) eqn:G; [|apply good_stay; exact H]. apply andb_true_iff in G as [G1 G2]. apply Nat.eqb_eq in G1. apply Nat.ltb_lt in G2.
  destruct (H) as (H0 & _ & H2). apply move_good; auto. apply lim_next with (i := i); auto. intros L E. destruct (L) as [L1 _]. unfold primaryOf in G1. rewrite E in G1. subst g.
  destruct Hg as [Hg|Hg]; [congruence|]. destruct (H2 L) as [_ L2]. specialize (L2 _ _ Hg). lia.
Qed.
Lemma present_map {B} (f : B -> option vcmsg) l : forall m, In m (present (map f l)) <-> exists x, In x l /\ f x = Some m.
Proof using. clear Npos few.
  induction l as [|x l IH]; cbn; intros m. { split; [intros []|intros (x & [] & _)]. }
  destruct (f x) eqn:E; cbn; rewrite IH; split.
  - intros [<-|(y & H1 & H2)]; eauto.
  - intros (y & [->|H1] & H2); [left; congruence|right; eauto].
  - intros (y & H1 & H2). eauto.
  - intros (y & [->|H1] & H2); [congruence|eauto].
Qed.
Lemma held_in i r m : In m (present (held N i r)) -> vc_from m < N /\
  exists x, (if vc_from m =? i then own r else vcs r (vc_from m)) = Some x /\ vc_view m = v_new x.
Proof using. clear Npos few.
  unfold held. rewrite present_map. intros (x & H1 & H2). apply in_seq in H1. destruct (if x =? i then own r else vcs r x) eqn:E; [|discriminate]. cbn in H2. injection H2 as <-. cbn. split; [lia|]. eauto.
Qed.
Lemma held_nd i r : NoDup (map vc_from (present (held N i r))).
Proof using. clear Npos few.
  unfold held. assert (H := seq_NoDup N 0). revert H. generalize (seq 0 N). induction l as [|x l IH]; intros H; cbn; [constructor|]. inversion H; subst.
  destruct (if x =? i then own r else vcs r x); cbn; auto. constructor; auto. intros X. apply in_map_iff in X as (m & E & X). apply present_map in X as (y & Y1 & Y2).
  destruct (if y =? i then own r else vcs r y); [|discriminate]. cbn in Y2. injection Y2 as <-. cbn in E. subst. contradiction.
Qed.
Lemma known_good A S i r : K A S i r -> good A S i (known N F C i r).
Proof.
  intros H. unfold known. destruct (Nat.ltb_spec (view r) (fst (relevant N F C i r))) as [Hlt|]; [|apply good_stay; exact H].
  destruct (H) as (H0 & _ & H2). apply move_good; auto. intros L. destruct (H2 L) as [L1 L2]. split; auto.
  assert (X := relevantViews_honest F C (pending r) (held N i r) (filter bad (seq 0 N)) (held_nd i r) few). fold (relevant N F C i r) in X.
  destruct (relevant N F C i r) as [vcn va]. cbn in *. destruct X as [X _]. destruct H0 as (_ & P1 & _ & _ & P5 & P6 & _).
  destruct X as (m & M1 & M2 & M3); [lia|]. apply held_in in M1 as (M4 & x & M5 & M6). destruct (Nat.eqb_spec (vc_from m) i) as [E|E].
  - specialize (L2 _ _ (P6 _ M5)). lia.
  - destruct (P5 _ _ M5) as [B|B]; [exfalso; apply M2; apply filter_In; split; auto; apply in_seq; lia|]. specialize (L2 _ _ B). lia.
Qed.
Lemma onVc_good A S i r g m : K A S i r -> (bad g = true \/ In (g, v_new m) S) -> (forall c, In c (v_comps m) -> c_ok c = true -> gen A c) -> good A S i (onVc N F C i g m r).
Proof.
  intros H Hg Hc. unfold onVc. destruct (ignored N g m r); [apply good_stay; exact H|]. cbv zeta.
  assert (Ka : K A S i (addVc g m r)).
  { destruct H as ((P1 & P2 & P3 & P4 & P5 & P6 & P7) & H1 & H2). split; [|split; [exact H1|exact H2]]. repeat (split; [solve [auto]|]). split; [|split; auto].
    intros g' m' Hm. cbn in Hm. unfold upd in Hm. destruct (Nat.eqb_spec g' g) as [->|]; [injection Hm as <-; exact Hg|eauto]. }
  destruct (process _ _ _ _ _ _ _) as [cs hs] eqn:Ep. assert (X := process_ok A (view (addVc g m r)) (v_new m) (v_comps m) 0 (comps (addVc g m r)) [] Hc).
  rewrite Ep in X. destruct X as (X1 & X2 & X3); auto. { apply Ka. } { split; [constructor|intros c []]. }
  apply good_andThen; [apply good_andThen|].
  - apply jump_good; auto.
  - intros r' S' K' I. apply ofPrimary_good; auto. destruct Hg; auto.
  - intros r' S' K' _. apply known_good; auto.
Qed.
Lemma enter_K A S i r b : K A S i r -> K A S i (enter N F C i b r).
Proof.
  intros H. unfold enter. destruct (active r) eqn:Ac; [exact H|]. cbn [orb]. destruct (Nat.eqb_spec (snd (relevant N F C i r)) (view r)); [|exact H]. cbn.
  destruct H as ((P1 & P2 & P3 & P4 & P5 & P6 & P7) & H1 & H2). split; [|split; auto]. destruct b; repeat split; cbn; auto; try discriminate. lia.
Qed.
Lemma restart_good A S i r : K A S i r -> good A S i (Some (restart r)).
Proof.
  intros ((P1 & P2 & P3 & P4 & P5 & P6 & P7) & H1 & H2). unfold restart. destruct (active r) eqn:Ac; cbn.
  - rewrite app_nil_r. specialize (P4 eq_refl). split; [|split]; [|split; [constructor|intros c []]|]; cbn.
    + repeat split; cbn; auto; discriminate.
    + rewrite P4. exact H2.
  - specialize (P3 eq_refl). split; [|split]; [|split; [constructor|intros c []]|]; cbn.
    + repeat split; cbn; auto; try discriminate; try lia.
      * intros m Hm. injection Hm as <-. apply in_or_app. right. left. reflexivity.
      * intros _. eexists. split; reflexivity.
    + intros L. destruct (H2 L) as [L1 L2]. split; [lia|]. intros g v Hv. apply in_app_or in Hv as [Hv|[Hv|[]]]; [eauto|]. injection Hv as _ <-. lia.
Qed.

(** * The cluster. *)
Definition I (s : cluster) : Prop := failed s = false /\ forall i, i < N -> bad i = false -> K (asked s ++ rotated s) (sent s) i (reps s i).
Lemma gen_mono A A' c : incl A A' -> gen A c -> gen A' c.
Proof. intros Hi (H1 & H2 & [H3|H3]); repeat split; auto. Qed.
Lemma K_mono A A' S S' i r : incl A A' -> incl S S' -> (Lim A' -> forall g v, In (g, v) S' -> v <= V) -> K A S i r -> K A' S' i r.
Proof.
  intros Ia Is Hs (H0 & [H1 H1'] & H2). split; [eapply rOK0_mono; eauto|]. split.
  - split; auto. intros c Hc. destruct (H1' c Hc). split; auto. eapply gen_mono; eauto.
  - intros L. split; [|exact (Hs L)]. apply H2. destruct L as [L1 L2]. split; auto. intros j v Hv X. eapply L2; eauto.
Qed.
Lemma upd_same {B} (f : nat -> B) i x : upd f i x i = x. Proof. unfold upd. rewrite Nat.eqb_refl. reflexivity. Qed.
Lemma upd_other {B} (f : nat -> B) i x j : j <> i -> upd f i x j = f j. Proof. intros H. unfold upd. destruct (Nat.eqb_spec j i); [contradiction|reflexivity]. Qed.
Lemma finish_I s i x : I s -> i < N -> bad i = false -> good (asked s ++ rotated s) (sent s) i x -> I (finish i s x).
Proof.
  intros [If Ir] Hi Hb Hg. destruct x as [[r l]|]; [|destruct Hg]. cbn in Hg. split; [exact If|]. cbn. intros j Hj Bj. unfold finish. cbn.
  destruct (Nat.eq_dec j i) as [->|Ne]; [rewrite upd_same; exact Hg|]. rewrite upd_other by auto.
  eapply K_mono; [apply incl_refl|apply incl_appl, incl_refl| |apply Ir; auto]. intros L. apply Hg. exact L.
Qed.
Lemma step_I s e : I s -> I (step N F C bad s e).
Proof.
  intros Hs. unfold step. cbv zeta. destruct (bad (who e)) eqn:B; [exact Hs|]. cbn [orb]. destruct (Nat.leb_spec N (who e)) as [|Hi]; [exact Hs|]. cbn [orb].
  destruct (mayGet N bad s e) eqn:M; [|exact Hs]. cbn [negb]. destruct (Hs) as [If Ir]. assert (Ki := Ir _ Hi B).
  assert (Hmono : forall i v, incl (asked s ++ rotated s) ((asked s ++ [(i, v)]) ++ rotated s)). { intros i v x Hx. rewrite !in_app_iff in *. tauto. }
  destruct e; cbn [who] in *.
  - split; [exact If|]. cbn. intros j Hj Bj. 
    assert (Kj : K ((asked s ++ [(i, view (reps s i))]) ++ rotated s) (sent s) j (reps s j)).
    { eapply K_mono; [apply Hmono|apply incl_refl| |apply Ir; auto]. intros L. clear Hs. destruct Ki as (_ & _ & L'). apply L'. destruct L as [L1 L2]. split; auto. intros x v Hv X. apply (L2 x v Hv), Hmono, X. }
    destruct (Nat.eq_dec j i) as [->|Ne]; [rewrite upd_same|rewrite upd_other by auto; exact Kj].
    destruct Kj as (K0 & K1 & K2). split; [exact K0|]. split; [|exact K2]. cbn. apply store_ok; auto. split; [|split]; cbn; auto. right. rewrite !in_app_iff. cbn. auto.
  - apply finish_I; auto. apply try_good; auto.
  - set (s' := mkCl (reps s) (asked s) (rotated s ++ [(i, view (reps s i))]) (sent s) (failed s)).
    assert (Is : I s').
    { split; [exact If|]. cbn. intros j Hj Bj. assert (Ii : incl (asked s ++ rotated s) (asked s ++ rotated s ++ [(i, view (reps s i))])). { intros x Hx. rewrite !in_app_iff in *. tauto. }
      eapply K_mono; [exact Ii|apply incl_refl| |apply Ir; auto]. intros L. destruct Ki as (_ & _ & L'). apply L'. destruct L as [L1 L2]. split; auto. intros x v Hv X. apply (L2 x v Hv), Ii, X. }
    apply finish_I; auto. assert (Kn := proj2 Is i Hi B). apply move_good; [apply Kn|lia|]. apply lim_next with (i := i); [exact Kn|].
    intros [_ L] E. cbn [asked rotated s' reps] in *. apply (L i (view (reps s i))); [lia|]. rewrite !in_app_iff. cbn. auto.
  - apply finish_I; auto. apply onComplaint_good; auto. cbn in M. apply genuine_gen in M. eapply gen_mono; [|exact M]. apply incl_appl, incl_refl.
  - cbn in M. apply andb_true_iff in M as [M M4]. apply andb_true_iff in M as [M M3]. apply andb_true_iff in M as [M1 M2]. apply finish_I; auto. apply onVc_good; auto.
    + apply orb_true_iff in M3 as [M3|M3]; auto. right. apply existsb_exists in M3 as (x & X1 & X2). apply andb_true_iff in X2 as [X2 X3]. apply Nat.eqb_eq in X2, X3. destruct x. cbn in *. subst. exact X1.
    + intros c Hc Ok. rewrite forallb_forall in M4. specialize (M4 c Hc). rewrite Ok in M4. cbn in M4. apply genuine_gen in M4. eapply gen_mono; [|exact M4]. apply incl_appl, incl_refl.
  - split; [exact If|]. cbn. intros j Hj Bj. destruct (Nat.eq_dec j i) as [->|Ne]; [rewrite upd_same|rewrite upd_other by auto; auto]. unfold onNewView. destruct (_ || _); exact Ki.
  - split; [exact If|]. cbn. intros j Hj Bj. destruct (Nat.eq_dec j i) as [->|Ne]; [rewrite upd_same|rewrite upd_other by auto; auto]. apply enter_K. exact Ki.
  - apply finish_I; auto. apply restart_good. exact Ki.
Qed.
Lemma run_I l : I (run N F C bad l).
Proof.
  unfold run. assert (H : I start).
  { split; [reflexivity|]. intros i Hi Bi. split; [|split]; [|split; [constructor|intros c []]|].
    - repeat split; cbn; auto; discriminate.
    - cbn. intros _. split; [lia|intros g v []]. }
  revert H. generalize start. induction l; cbn; auto. intros s H. apply IHl. apply step_I. exact H.
Qed.
End Proofs.
