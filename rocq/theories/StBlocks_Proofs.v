From Coq Require Import List Arith NArith Bool Lia.
From Verif Require Import Lib_Bytes StBlocks_Model.
Import ListNotations.
Local Open Scope N_scope.

Lemma beq_eq a b : beq a b = true <-> a = b.
Proof. unfold beq. destruct (list_eq_dec N.eq_dec a b); split; intros; auto; discriminate. Qed.

Section S.
Variable H : bytes -> bytes.
Variable prevDig : bytes -> bytes.
Variable RV : Type.
Variable stored : RV -> N -> option bytes.
Variable setRvb : RV -> bytes -> N -> N -> option RV.
Variable ub : RV -> N -> N -> N.
Variable rv0 : RV.
Variables (frs mcb maxBlock bufSize maxChunks maxPend : N) (tdig : bytes).
Notation st := (st RV).
Notation finalize := (finalize RV).
Notation finalizeAll := (finalizeAll RV).
Notation nextBatch := (nextBatch RV ub frs mcb).
Notation loop := (loop H prevDig RV stored setRvb ub frs mcb maxBlock bufSize tdig).
Notation checkBlock := (checkBlock H RV stored frs tdig).
Notation D := (D H).
Notation step := (step H prevDig RV stored setRvb ub rv0 frs mcb maxBlock bufSize maxChunks maxPend tdig).
Notation run := (run H prevDig RV stored setRvb ub rv0 frs mcb maxBlock bufSize maxChunks maxPend tdig).
Notation start := (start RV ub rv0 frs mcb).

Definition same (s s' : st) : Prop :=
  fmin _ s' = fmin _ s /\ fmax _ s' = fmax _ s /\ fnext _ s' = fnext _ s /\ dnext _ s' = dnext _ s /\ pend _ s' = pend _ s /\
  lastR _ s' = lastR _ s /\ rv _ s' = rv _ s /\ src _ s' = src _ s /\ fin _ s' = fin _ s /\ issued _ s' = issued _ s.
Fixpoint down (hi : N) (n : nat) : list N := match n with O => [] | Datatypes.S n => hi :: down (hi - 1) n end.
(** The jobs in flight are cnext, cnext-1, ..., nx+1, and what is above is in storage. *)
Definition flight (s : st) (nx : N) : Prop :=
  map fst (io _ s) = down (cnext _ s) (length (io _ s)) /\ N.of_nat (length (io _ s)) + nx = cnext _ s /\
  (forall id, cnext _ s < id -> id <= fmax _ s -> In id (map fst (disk _ s))).

Lemma finalize_spec k : forall s s' nx, flight s nx -> fmin _ s <= nx + 1 -> fmin _ s <= cnext _ s -> cnext _ s <= fmax _ s -> finalize k s = Some s' ->
  same s s' /\ incl (disk _ s) (disk _ s') /\ incl (disk _ s') (disk _ s ++ io _ s) /\ incl (io _ s') (io _ s) /\
  ((firstR _ s' = fmax _ s + 1 /\ fmax _ s + 1 <= lastR _ s /\ io _ s' = [] /\ nx + 1 = fmin _ s /\ forall id, fmin _ s <= id -> id <= fmax _ s -> In id (map fst (disk _ s')))
   \/ (firstR _ s' = firstR _ s /\ flight s' nx /\ fmin _ s <= cnext _ s' /\ cnext _ s' <= cnext _ s /\ (io _ s <> [] -> (length (io _ s) <= k)%nat -> io _ s' = [] /\ fmin _ s < nx + 1))).
Proof.
  induction k as [|k IH]; intros s s' nx F L0 L1 L2 E.
  - simpl in E. assert (s' = s) by (destruct (io _ s) as [|[]]; congruence). subst s'. unfold same. split; [repeat split|]. split; [apply incl_refl|]. split; [apply incl_appl, incl_refl|]. split; [apply incl_refl|].
    right. split; auto. split; auto. split; auto. split; [lia|]. intros NE LE. destruct (io _ s); [congruence|simpl in LE; lia].
  - simpl in E. destruct (io _ s) as [|[id b] r] eqn:IO.
    { inversion E; subst s'. unfold same. split; [repeat split|]. split; [apply incl_refl|]. rewrite IO. split; [apply incl_appl, incl_refl|]. split; [apply incl_refl|]. right. split; auto. split; auto. split; auto. split; [lia|]. congruence. }
    destruct F as (FM & FL & FC). rewrite IO in FM, FL. simpl in FM. inversion FM as [[E1 E2]]. 
    destruct (N.eqb_spec id (cnext _ s)); [|discriminate]. simpl negb in E. cbv iota in E. clear e.
    destruct (N.eqb_spec (cnext _ s) (fmin _ s)) as [CM|CM].
    + destruct (N.leb_spec (fmax _ s + 1) (lastR _ s)) as [LR|]; [|discriminate]. destruct r as [|x r]; [|discriminate]. simpl in E. inversion E; subst s'; clear E. unfold same; simpl.
      split; [repeat split|]. split; [intros x Ix; right; auto|]. split; [intros x [<-|Ix]; apply in_or_app; [right; left; congruence|auto]|]. split; [intros x []|].
      left. cbn [length] in FL. split; auto. split; auto. split; auto. split; [lia|]. intros i A B. destruct (N.eq_dec i (cnext _ s)); [left; simpl; congruence|right]. apply FC; lia.
    + match type of E with finalize _ ?x = _ => set (s1 := x) in * end.
      assert (F1 : flight s1 nx). { unfold flight, s1; simpl. split; [auto|]. split; [simpl length in FL; lia|]. intros i A B. destruct (N.eq_dec i (cnext _ s)); [left; simpl; congruence|right]. apply FC; lia. }
      destruct (IH s1 s' nx F1) as (SA & I1 & I2 & I3 & C); auto; try (unfold s1; simpl; lia).
      split; [exact SA|]. split; [intros x Ix; apply I1; right; auto|]. split. { intros x Ix. apply I2 in Ix. unfold s1 in Ix; simpl in Ix. destruct Ix as [<-|Ix]; apply in_or_app; [right; left; congruence|]. apply in_app_or in Ix. destruct Ix; auto. right. right. auto. }
      split; [intros x Ix; right; apply I3; auto|].
      destruct C as [C|(C1 & C2 & C3 & C4 & C5)]; [left; auto|right]. unfold s1 in C1, C3, C4, C5; simpl in C1, C3, C4, C5. split; auto. split; auto. split; auto. split; [lia|]. intros _ LE. destruct r as [|x r].
      * destruct k; simpl in E; inversion E; subst s'; simpl; split; auto; cbn [length] in FL; lia.
      * apply C5; [congruence|cbn [length] in *; lia].
Qed.

Lemma pick_incl {A} k (l : list A) : incl (pick k l) l.
Proof. revert l; induction k as [|b k IH]; intros l; [intros x []|]. destruct l as [|x l]; [intros y []|]. cbn [pick]. destruct b; intros y Iy; [destruct Iy as [<-|Iy]; [left; auto|right; apply IH; auto]|right; apply IH; auto]. Qed.

(** * Coverage: what is in storage *)
Section Cover.
Variables first last : N.
Definition Cov (s : st) : Prop :=
  incl (disk _ s) (issued _ s) /\ incl (io _ s) (issued _ s) /\
  if fin _ s then forall id, first <= id -> id <= last -> In id (map fst (disk _ s))
  else fmin _ s <> 0 /\ lastR _ s = last /\ first <= fmin _ s /\ fmin _ s <= fnext _ s /\ fnext _ s <= fmax _ s /\ fmax _ s <= last /\ cnext _ s <= fmax _ s /\ firstR _ s = fmin _ s /\
       flight s (fnext _ s) /\ (forall id, first <= id -> id < fmin _ s -> In id (map fst (disk _ s))).

Lemma batchMax_le r l m : batchMax RV ub frs mcb r l m <= l.
Proof. unfold batchMax. match goal with |- N.min (N.min ?a ?b) ?c <= _ => pose proof (N.le_min_l (N.min a b) c); pose proof (N.le_min_r a b) end. lia. Qed.
Lemma nextBatch_spec s m s' : nextBatch s m = Some s' -> m <> 0 /\ m <= fmax _ s' /\ fmax _ s' <= lastR _ s /\ fmin _ s' = m /\ fnext _ s' = fmax _ s' /\ cnext _ s' = fmax _ s' /\ dnext _ s' = zeros /\
  pend _ s' = pend _ s /\ io _ s' = io _ s /\ disk _ s' = disk _ s /\ firstR _ s' = firstR _ s /\ lastR _ s' = lastR _ s /\ rv _ s' = rv _ s /\ src _ s' = src _ s /\ fin _ s' = fin _ s /\ issued _ s' = issued _ s /\ fmax _ s' = batchMax RV ub frs mcb (rv _ s) (lastR _ s) m.
Proof.
  unfold StBlocks_Model.nextBatch. destruct (N.eqb_spec m 0); [discriminate|]. destruct (N.leb_spec m (batchMax RV ub frs mcb (rv _ s) (lastR _ s) m)); [|discriminate]. destruct (N.ltb_spec (fnext _ s) (mcb + m)); [|discriminate]. simpl. intros E. inversion E; simpl. pose proof (batchMax_le (rv _ s) (lastR _ s) m). repeat split; auto.
Qed.
Lemma flight_nil (s : st) nx : io _ s = [] -> cnext _ s = nx -> (forall id, cnext _ s < id -> id <= fmax _ s -> In id (map fst (disk _ s))) -> flight s nx.
Proof. intros A B C. unfold flight. rewrite A. simpl. split; [reflexivity|]. split; [lia|exact C]. Qed.

(** The invariant is preserved by whatever the loop does; P is any further invariant of the blocks issued. *)
Lemma cov_setPend s p : Cov s -> Cov (setPend _ s p). Proof. auto. Qed.
Lemma cov_setSrc s x : Cov s -> Cov (setSrc _ s x). Proof. auto. Qed.
Lemma cov_setRv s x : Cov s -> Cov (setRv _ s x). Proof. auto. Qed.

Lemma cov_finalize k s s' : fin _ s = false -> Cov s -> finalize k s = Some s' -> Cov s' /\ same s s'.
Proof.
  intros FN (I1 & I2 & C) E. rewrite FN in C. destruct C as (NZ & A & B & C & D0 & E0 & F0 & G & FL & K).
  assert (L : fmin _ s <= cnext _ s) by (destruct FL as (_ & ? & _); lia).
  destruct (finalize_spec k s s' _ FL ltac:(lia) L F0 E) as (SA & J1 & J2 & J3 & Z). pose proof SA as (S1 & S2 & S3 & S4 & S5 & S6 & S7 & S8 & S9 & S10).
  split; [|exact SA]. unfold Cov. rewrite S9, FN, S1, S2, S3, S6, S10. split; [intros x Ix; apply J2, in_app_or in Ix; destruct Ix; auto|]. split; [intros x Ix; auto|].
  destruct Z as [(_ & _ & _ & Z & _)|(Z1 & Z2 & Z3 & Z4 & _)]; [lia|]. rewrite Z1. split; [exact NZ|]. split; [exact A|]. split; [exact B|]. split; [exact C|]. split; [exact D0|]. split; [exact E0|]. split; [lia|]. split; [exact G|]. split; [exact Z2|]. intros i P Q. specialize (K i P Q). apply in_map_iff in K. destruct K as (x & <- & Ix). apply in_map, J1, Ix.
Qed.
Lemma down_app n : forall hi, down hi (n + 1) = down hi n ++ [hi - N.of_nat n].
Proof. induction n; intros hi; simpl plus; [simpl; f_equal; lia|]. cbn [down app]. f_equal. rewrite IHn. f_equal. f_equal. lia. Qed.

Definition issue (s : st) (data : bytes) (p : list msg) : st :=
  mkS _ (fmin _ s) (fmax _ s) (fnext _ s) (cnext _ s) (prevDig data) p (io _ s ++ [(fnext _ s, data)]) (disk _ s) (firstR _ s) (lastR _ s) (rv _ s) (src _ s) (fin _ s) ((fnext _ s, data) :: issued _ s).
Lemma cov_issue s1 data p s4 : fin _ s1 = false -> Cov s1 ->
  (if fnext _ s1 =? fmin _ s1 then if fmax _ s1 + 1 <=? lastR _ s1 then match finalizeAll (issue s1 data p) with None => None | Some s2 => nextBatch s2 (fmax _ s1 + 1) end else None
   else Some (setFnext _ (issue s1 data p) (fnext _ s1 - 1))) = Some s4 ->
  Cov s4 /\ fin _ s4 = false /\ issued _ s4 = (fnext _ s1, data) :: issued _ s1 /\ rv _ s4 = rv _ s1 /\ pend _ s4 = p /\ src _ s4 = src _ s1 /\ io _ s4 = (if fnext _ s1 =? fmin _ s1 then [] else io _ s1 ++ [(fnext _ s1, data)]) /\
  if fnext _ s1 =? fmin _ s1 then fmin _ s4 = fmax _ s1 + 1 /\ fmax _ s4 = batchMax RV ub frs mcb (rv _ s1) (lastR _ s1) (fmax _ s1 + 1) /\ fnext _ s4 = fmax _ s4 /\ dnext _ s4 = zeros
  else fmin _ s4 = fmin _ s1 /\ fmax _ s4 = fmax _ s1 /\ fnext _ s4 = fnext _ s1 - 1 /\ dnext _ s4 = prevDig data.
Proof.
  intros F1 C1 EN. set (s2 := issue s1 data p) in *.
  assert (P2 : incl (disk _ s2) (issued _ s2) /\ incl (io _ s2) (issued _ s2)). { destruct C1 as (J1 & J2 & _). unfold s2; simpl. split; [intros x Ix; right; auto|]. intros x Ix. apply in_app_or in Ix. destruct Ix as [Ix|[<-|[]]]; [right; auto|left; auto]. }
  destruct C1 as (J1 & J2 & C). rewrite F1 in C. destruct C as (NZ & A & B & C & D0 & E0 & F0 & G & FL & K).
  assert (FL2 : flight s2 (fnext _ s1 - 1)). { destruct FL as (X & Y & Z). unfold flight, s2; simpl. rewrite map_app, X, app_length. simpl length. split; [|split; [lia|auto]]. rewrite down_app. simpl map. f_equal. f_equal. lia. }
  assert (KK : forall d, incl (disk _ s1) d -> forall id, first <= id -> id < fmin _ s1 -> In id (map fst d)). { intros d ID i P Q. specialize (K i P Q). apply in_map_iff in K. destruct K as (x & <- & Ix). apply in_map, ID, Ix. }
  destruct (N.eqb_spec (fnext _ s1) (fmin _ s1)) as [EM|EM].
  - destruct (N.leb_spec (fmax _ s1 + 1) (lastR _ s1)) as [LR|]; [|discriminate]. destruct (finalizeAll s2) as [s3|] eqn:EA; [|discriminate]. 
    apply nextBatch_spec in EN. destruct EN as (N1 & N2 & N3 & N4 & N5 & N6 & N7 & N8 & N9 & N10 & N11 & N12 & N13 & N14 & N15 & N16 & N17).
    assert (LC : fmin _ s2 <= cnext _ s2). { destruct FL as (_ & Y & _). unfold s2; simpl. lia. }
    destruct (finalize_spec _ s2 s3 _ FL2 ltac:(unfold s2; simpl; lia) LC F0 EA) as (SA & I1 & I2 & I3 & Z). destruct SA as (S1 & S2 & S3 & S4 & S5 & S6 & S7 & S8 & S9 & S10). simpl in S1, S2, S3, S4, S5, S6, S7, S8, S9, S10, Z.
    destruct Z as [(Z1 & Z2 & Z3 & Z4 & Z5)|(_ & _ & _ & _ & Z)]; [|exfalso; destruct Z as [_ Z]; [destruct (io _ s1); discriminate|lia|lia]].
    split. 
    { unfold Cov. rewrite N15, S9, F1, N16, S10, N10, N9, Z3. split. { intros x Ix. apply I2 in Ix. apply in_app_or in Ix. destruct P2 as [P2 P3]. destruct Ix as [Ix|Ix]; [apply P2 in Ix|apply P3 in Ix]; exact Ix. }
      split; [intros x []|]. split; [lia|]. split; [congruence|]. split; [lia|]. split; [lia|]. split; [lia|]. split; [lia|]. split; [lia|]. split; [lia|].
      split. { apply flight_nil; [congruence|lia|]. intros; lia. }
      intros i P Q. destruct (N.lt_ge_cases i (fmin _ s1)); [apply KK; auto|apply Z5; lia]. }
    split; [congruence|]. split; [congruence|]. split; [congruence|]. split; [congruence|]. split; [congruence|]. split; [congruence|]. split; [congruence|]. split; [congruence|]. split; [congruence|auto].
  - inversion EN; subst s4; clear EN. split; [|repeat split; auto]. unfold Cov. simpl. rewrite F1. split; [apply P2|]. split; [apply P2|]. split; [auto|]. split; [auto|]. split; [auto|]. split; [lia|]. split; [lia|]. split; [auto|]. split; [auto|]. split; [auto|]. split; [auto|]. apply KK, incl_refl.
Qed.

Lemma cov_loop fuel : forall its bad li rsz s s', fin _ s = false -> Cov s -> loop fuel its bad li rsz s = Ok _ s' -> Cov s'.
Proof.
  induction fuel as [|fuel IH]; intros its bad li rsz s s' FN CV E; [discriminate|]. cbn [StBlocks_Model.loop] in E.
  set (mo := if bad || match src _ s with Some _ => false | None => true end then Immediate (ralt (hd rnd0 its)) else rmode (hd rnd0 its)) in *.
  set (sx := match mo with Keep => s | Graceful r => setSrc _ s (Some r) | Immediate r => setPend _ (setSrc _ s (Some r)) [] end) in *.
  assert (CX : Cov sx /\ fin _ sx = false) by (unfold sx; destruct mo; auto). destruct CX as [CX FX]. clearbody sx. clearbody mo. clear CV FN s. rename sx into s.
  match type of E with (if ?c then _ else _) = _ => destruct c; [discriminate|] end.
  destruct (nextFull maxBlock bufSize (fnext _ s) (pend _ s)) as [| |buf rest| |]; try discriminate.
  - match type of E with (if ?c then _ else _) = _ => destruct c end; [|inversion E; subst; auto]. destruct (finalize _ s) eqn:EF; [|discriminate]. inversion E; subst. eapply cov_finalize; eauto.
  - eapply IH; [| |exact E]; auto.
  - destruct (N.of_nat (length buf) <? rsz); [discriminate|]. 
    match type of E with match ?c with Some _ => _ | None => _ end = _ => destruct c as [r|]; [|eapply IH; [| |exact E]; auto] end.
    destruct (checkBlock _ _ _); [|eapply IH; [| |exact E]; auto|discriminate].
    destruct (finalize (rready (hd rnd0 its)) _) as [s1|] eqn:EF; [|discriminate].
    assert (C1 : Cov s1 /\ fin _ s1 = false). { destruct (cov_finalize _ (setRv _ (setPend _ s rest) r) s1 FX CX EF) as (A & B). split; auto. unfold same in B. simpl in B. destruct B as (_ & _ & _ & _ & _ & _ & _ & _ & B & _). rewrite B. auto. }
    clear EF CX FX. destruct C1 as [C1 F1].
    destruct ((fnext _ s1 =? fmin _ s1) && (lastR _ s1 =? fmax _ s1)) eqn:EL.
    + destruct (finalizeAll s1) as [s2|] eqn:EA; [|discriminate]. destruct (cov_finalize _ _ _ F1 C1 EA) as (C2 & SA). destruct SA as (_ & _ & _ & _ & _ & _ & _ & _ & F2 & _). rewrite F1 in F2.
      destruct ((cnext _ s2 =? fnext _ s2) && _) eqn:EC; [|discriminate]. inversion E; subst s'; clear E. apply andb_true_iff in EC. destruct EC as [EC EI]. apply N.eqb_eq in EC. apply andb_true_iff in EL. destruct EL as [EL1 EL2]. apply N.eqb_eq in EL1, EL2.
      destruct (cov_finalize _ _ _ F1 C1 EA) as (_ & (S1 & S2 & S3 & _ & _ & S6 & _)).
      destruct C2 as (J1 & J2 & C2). rewrite F2 in C2. destruct C2 as (NZ & A & B & C & D0 & E0 & F0 & G & FL & K). unfold Cov. simpl. split; [intros x [<-|Ix]; [left; auto|right; auto]|]. split; [intros x []|].
      intros i P Q. destruct (N.eq_dec i (fnext _ s2)); [left; auto|right]. destruct (N.lt_ge_cases i (fmin _ s2)); [auto|]. destruct FL as (_ & _ & FL). apply FL; lia.
    + destruct (maxBlock <? _); [discriminate|]. destruct (clearBlk _ _) as [p|]; [|discriminate]. set (data := skipn (N.to_nat rsz) buf) in *.
      match type of E with match ?x with _ => _ end = _ => destruct x as [s4|] eqn:EN; [|discriminate] end.
      destruct (cov_issue s1 data p s4 F1 C1 EN) as (CV & FV & _).
      destruct (li || rsend (hd rnd0 its) || _); [inversion E; subst; exact CV|]. eapply IH; [| |exact E]; auto.
Qed.

Lemma cov_step s e s' : Cov s -> step s e = Ok _ s' -> Cov s'.
Proof.
  intros C E. unfold StBlocks_Model.step in E. destruct (fin _ s) eqn:F; [inversion E; subst; auto|].
  destruct e as [m its|its|its|k].
  - destruct (valid maxChunks m && _); [|inversion E; subst; auto]. destruct (emplace m (pend _ s)); [|inversion E; subst; auto]. eapply cov_loop; [| |exact E]; auto.
  - eapply cov_loop; [| |exact E]; auto.
  - eapply cov_loop; [| |exact E]; auto.
  - match type of E with match ?x with _ => _ end = _ => destruct x as [s1|] eqn:EN; [|discriminate] end. inversion E; subst s1; clear E. apply nextBatch_spec in EN. simpl in EN. destruct EN as (N1 & N2 & N3 & N4 & N5 & N6 & N7 & N8 & N9 & N10 & N11 & N12 & N13 & N14 & N15 & N16 & N17).
    destruct C as (J1 & J2 & C). rewrite F in C. destruct C as (NZ & A & B & C & D0 & E0 & F0 & G & FL & K). unfold Cov. rewrite N15, N16, N10, N9. 
    split; [intros x Ix; apply in_app_or in Ix; destruct Ix as [Ix|Ix]; [apply pick_incl in Ix; auto|auto]|]. split; [intros x []|]. split; [lia|]. split; [congruence|]. split; [lia|]. split; [lia|]. split; [lia|]. split; [lia|]. split; [lia|]. split; [congruence|].
    split; [apply flight_nil; [auto|lia|intros; lia]|]. intros i P Q. rewrite map_app. apply in_or_app. right. apply K; lia.
Qed.
Lemma cov_run es : forall s s', Cov s -> run s es = Ok _ s' -> Cov s'.
Proof.
  induction es as [|e es IH]; intros s s' C E; simpl in E; [inversion E; subst; auto|]. destruct (step s e) as [s1| | |] eqn:E1; try discriminate. eapply IH; [|exact E]. eapply cov_step; eauto.
Qed.
Lemma cov_start s : start first last = Some s -> Cov s.
Proof.
  intros EN. apply nextBatch_spec in EN. simpl in EN. destruct EN as (N1 & N2 & N3 & N4 & N5 & N6 & N7 & N8 & N9 & N10 & N11 & N12 & N13 & N14 & N15 & N16 & N17).
  unfold Cov. rewrite N15, N16, N10, N9. split; [intros x []|]. split; [intros x []|]. split; [lia|]. split; [auto|]. split; [lia|]. split; [lia|]. split; [lia|]. split; [lia|]. split; [lia|]. split; [congruence|]. split; [apply flight_nil; [auto|lia|intros; lia]|]. intros; lia.
Qed.

(** * The blocks are those of the chain, unless one put is a collision *)
Variable chain : N -> bytes.
Hypothesis LINK : forall i, first <= i -> i < last -> prevDig (chain (i + 1)) = D i (chain i).
Hypothesis TD : tdig = D last (chain last).
Definition truthful (r : RV) : Prop := forall id d, stored r id = Some d -> d = D id (chain id).
Hypothesis T0 : truthful rv0.
Hypothesis TS : forall r b mn mx r', truthful r -> setRvb r b mn mx = Some r' -> truthful r'.

Definition Coll (s : st) : Prop := exists id b, In (id, b) (issued _ s) /\ b <> chain id /\ D id b = D id (chain id).
Definition Cor (s : st) : Prop :=
  truthful (rv _ s) /\ (forall id b, In (id, b) (issued _ s) -> b = chain id) /\
  (fin _ s = false -> (fnext _ s = fmax _ s /\ isZero (dnext _ s) = true) \/ dnext _ s = D (fnext _ s) (chain (fnext _ s))).
Lemma coll_incl s s' : incl (issued _ s) (issued _ s') -> Coll s -> Coll s'.
Proof. intros I (id & b & A & B). exists id, b. auto. Qed.
Lemma zeros_zero : isZero zeros = true. Proof. reflexivity. Qed.

Lemma checkBlock_ok s b : Cov s -> fin _ s = false -> Cor s -> checkBlock s (fnext _ s) b = COk -> D (fnext _ s) b = D (fnext _ s) (chain (fnext _ s)).
Proof.
  intros (_ & _ & C) F (T & _ & DN) E. rewrite F in C. destruct C as (NZ & A & B & C & D0 & E0 & F0 & G & FL & K). specialize (DN F).
  unfold StBlocks_Model.checkBlock in E. destruct b as [|x b]; [discriminate|]. destruct (isRvb frs (fnext _ s)).
  - destruct (stored (rv _ s) (fnext _ s)) as [d|] eqn:ES; [|discriminate]. destruct (beq d _) eqn:EB; [|discriminate]. apply beq_eq in EB. rewrite <- EB. apply T; auto.
  - destruct ((fnext _ s =? fmax _ s) && (lastR _ s =? fmax _ s)) eqn:EM.
    + apply andb_true_iff in EM. destruct EM as [E1 E2]. apply N.eqb_eq in E1, E2. destruct (beq tdig _) eqn:EB; [|discriminate]. apply beq_eq in EB. rewrite <- EB, TD. f_equal; congruence.
    + destruct (isZero (dnext _ s)) eqn:EZ; [discriminate|]. destruct (beq _ (dnext _ s)) eqn:EB; [|discriminate]. apply beq_eq in EB. destruct DN as [(_ & DN)|DN]; congruence.
Qed.

Lemma cor_same s s' : same s s' -> Cor s -> Cor s'.
Proof. intros (S1 & S2 & S3 & S4 & S5 & S6 & S7 & S8 & S9 & S10). unfold Cor. rewrite S2, S3, S4, S7, S9, S10. auto. Qed.

Lemma cor_loop fuel : forall its bad li rsz s s', fin _ s = false -> Cov s -> Cor s \/ Coll s -> loop fuel its bad li rsz s = Ok _ s' -> (Cor s' \/ Coll s') /\ incl (issued _ s) (issued _ s').
Proof.
  induction fuel as [|fuel IH]; intros its bad li rsz s s' FN CV CO E; [discriminate|]. cbn [StBlocks_Model.loop] in E.
  set (mo := if bad || match src _ s with Some _ => false | None => true end then Immediate (ralt (hd rnd0 its)) else rmode (hd rnd0 its)) in *.
  set (sx := match mo with Keep => s | Graceful r => setSrc _ s (Some r) | Immediate r => setPend _ (setSrc _ s (Some r)) [] end) in *.
  assert (CX : Cov sx /\ fin _ sx = false /\ (Cor sx \/ Coll sx) /\ issued _ sx = issued _ s) by (unfold sx; destruct mo; auto). destruct CX as [CX [FX [OX IX]]]. rewrite <- IX. clearbody sx. clearbody mo. clear CV FN CO IX s. rename sx into s.
  match type of E with (if ?c then _ else _) = _ => destruct c; [discriminate|] end.
  destruct (nextFull maxBlock bufSize (fnext _ s) (pend _ s)) as [| |buf rest| |]; try discriminate.
  - match type of E with (if ?c then _ else _) = _ => destruct c end; [|inversion E; subst; split; [auto|apply incl_refl]]. destruct (finalize _ s) as [s1|] eqn:EF; [|discriminate]. inversion E; subst. destruct (cov_finalize _ _ _ FX CX EF) as (_ & SA).
    assert (SI : issued _ s' = issued _ s) by apply SA. split; [|rewrite SI; apply incl_refl]. destruct OX as [OX|OX]; [left; eapply cor_same; eauto|right; eapply coll_incl; [|exact OX]; rewrite SI; apply incl_refl].
  - eapply IH in E; eauto.
  - destruct (N.of_nat (length buf) <? rsz); [discriminate|]. 
    match type of E with match ?c with Some _ => _ | None => _ end = _ => destruct c as [r|] eqn:ER; [|eapply IH in E; eauto] end.
    set (sr := setRv _ (setPend _ s rest) r) in *.
    assert (CR : Cov sr /\ fin _ sr = false /\ (Cor sr \/ Coll sr)). { split; [exact CX|]. split; [exact FX|]. destruct OX as [OX|OX]; [left|right; exact OX]. destruct OX as (T & O1 & O2). split; [|split; [exact O1|exact O2]]. unfold sr; simpl. destruct (0 <? rsz); [eapply TS; [|exact ER]; exact T|inversion ER; subst; exact T]. }
    destruct CR as (CR & FR & OR). destruct (checkBlock sr _ _) eqn:ECK; [|eapply IH in E; eauto|discriminate].
    assert (DG : Cor sr -> D (fnext _ s) (skipn (N.to_nat rsz) buf) = D (fnext _ s) (chain (fnext _ s))). { intros OO. exact (checkBlock_ok sr _ CR FR OO ECK). }
    destruct (finalize (rready (hd rnd0 its)) _) as [s1|] eqn:EF; [|discriminate].
    destruct (cov_finalize _ _ _ FR CR EF) as (C1 & SA). assert (F1 : fin _ s1 = false) by (destruct SA as (_ & _ & _ & _ & _ & _ & _ & _ & SA & _); congruence).
    assert (O1 : Cor s1 \/ Coll s1). { destruct OR as [OR|OR]; [left; eapply cor_same; eauto|right; eapply coll_incl; [|exact OR]]. replace (issued _ s1) with (issued _ sr) by (symmetry; apply SA). apply incl_refl. }
    assert (DG1 : Cor s1 -> D (fnext _ s1) (skipn (N.to_nat rsz) buf) = D (fnext _ s1) (chain (fnext _ s1))). { intros OO. destruct OR as [OR|OR]; [|]. - replace (fnext _ s1) with (fnext _ s) by (symmetry; apply SA). auto. - exfalso. destruct OR as (id & b & P & Q & R). destruct OO as (_ & OO & _). apply Q, OO. replace (issued _ s1) with (issued _ sr) by (symmetry; apply SA). exact P. }
    assert (I1 : issued _ s1 = issued _ s) by (destruct SA as (_ & _ & _ & _ & _ & _ & _ & _ & _ & SA); rewrite SA; reflexivity). rewrite <- I1.
    clear EF SA OR DG ECK. set (data := skipn (N.to_nat rsz) buf) in *. clearbody data.
    (* the state after the block is issued *)
    assert (NEWI : forall s2, issued _ s2 = (fnext _ s1, data) :: issued _ s1 -> rv _ s2 = rv _ s1 -> 
       (fin _ s2 = false -> data = chain (fnext _ s1) -> (fnext _ s2 = fmax _ s2 /\ isZero (dnext _ s2) = true) \/ dnext _ s2 = D (fnext _ s2) (chain (fnext _ s2))) -> (Cor s2 \/ Coll s2) /\ incl (issued _ s1) (issued _ s2)).
    { intros s2 X1 X2 X3. split; [|rewrite X1; intros x Ix; right; auto]. destruct O1 as [O1|O1]; [|right; eapply coll_incl; [|exact O1]; rewrite X1; intros x Ix; right; auto].
      specialize (DG1 O1). destruct (list_eq_dec N.eq_dec data (chain (fnext _ s1))) as [EQ|NE].
      - left. destruct O1 as (T & O1 & O2). split; [rewrite X2; exact T|]. split; [|auto]. intros i b Ib. rewrite X1 in Ib. destruct Ib as [Ib|Ib]; [inversion Ib; subst; auto|auto].
      - right. exists (fnext _ s1), data. rewrite X1. split; [left; auto|auto]. }
    destruct ((fnext _ s1 =? fmin _ s1) && (lastR _ s1 =? fmax _ s1)) eqn:EL.
    + destruct (finalizeAll s1) as [s2|] eqn:EA; [|discriminate]. destruct (cov_finalize _ _ _ F1 C1 EA) as (_ & SA). destruct SA as (S1 & S2 & S3 & S4 & S5 & S6 & S7 & S8 & S9 & S10).
      destruct ((cnext _ s2 =? fnext _ s2) && _) eqn:EC; [|discriminate]. inversion E; subst s'; clear E. apply NEWI; simpl; try congruence.
    + destruct (maxBlock <? _); [discriminate|]. destruct (clearBlk _ _) as [p|]; [|discriminate]. 
      match type of E with match ?x with _ => _ end = _ => destruct x as [s4|] eqn:EN; [|discriminate] end.
      destruct (cov_issue s1 data p s4 F1 C1 EN) as (CV & FV & IV & RVV & _ & _ & _ & ST).
      destruct (NEWI s4 IV RVV) as (O4 & I4).
      { intros _ ED. destruct (N.eqb_spec (fnext _ s1) (fmin _ s1)).
        - destruct ST as (_ & _ & ST & ST2). left. rewrite ST2. auto.
        - destruct ST as (_ & _ & ST & ST2). right. pose proof C1 as (J1 & J2 & C). rewrite F1 in C. destruct C as (NZ & A & B & C & D0 & E0 & F0 & G & FL & K).
          rewrite ST2, ST, ED. replace (fnext _ s1) with (fnext _ s1 - 1 + 1) at 1 by lia. apply LINK; lia. }
      destruct (li || rsend (hd rnd0 its) || _); [inversion E; subst; auto|]. eapply IH in E; eauto. destruct E as [E1 E2]. split; [auto|]. eapply incl_tran; eauto.
Qed.
Lemma cor_step s e s' : Cov s -> Cor s \/ Coll s -> step s e = Ok _ s' -> Cor s' \/ Coll s'.
Proof.
  intros C O E. unfold StBlocks_Model.step in E. destruct (fin _ s) eqn:F; [inversion E; subst; auto|].
  destruct e as [m its|its|its|k].
  - destruct (valid maxChunks m && _); [|inversion E; subst; auto]. destruct (emplace m (pend _ s)); [|inversion E; subst; auto]. eapply cor_loop in E; [apply E| | |]; auto.
  - eapply cor_loop in E; [apply E| | |]; auto.
  - eapply cor_loop in E; [apply E| | |]; auto.
  - match type of E with match ?x with _ => _ end = _ => destruct x as [s1|] eqn:EN; [|discriminate] end. inversion E; subst s1; clear E. apply nextBatch_spec in EN. simpl in EN. destruct EN as (N1 & N2 & N3 & N4 & N5 & N6 & N7 & N8 & N9 & N10 & N11 & N12 & N13 & N14 & N15 & N16 & N17).
    destruct O as [(T & O1 & O2)|O]; [left|right; eapply coll_incl; [|exact O]; rewrite N16; apply incl_refl]. split; [rewrite N13; exact T0|]. split; [rewrite N16; auto|]. intros _. left. rewrite N7. auto.
Qed.
Lemma cor_run es : forall s s', Cov s -> Cor s \/ Coll s -> run s es = Ok _ s' -> Cor s' \/ Coll s'.
Proof.
  induction es as [|e es IH]; intros s s' C O E; simpl in E; [inversion E; subst; auto|]. destruct (step s e) as [s1| | |] eqn:E1; try discriminate. eapply IH; [| |exact E]; [eapply cov_step; eauto|eapply cor_step; eauto].
Qed.
Lemma cor_start s : start first last = Some s -> Cor s.
Proof.
  intros EN. apply nextBatch_spec in EN. simpl in EN. destruct EN as (N1 & N2 & N3 & N4 & N5 & N6 & N7 & N8 & N9 & N10 & N11 & N12 & N13 & N14 & N15 & N16 & N17).
  split; [rewrite N13; exact T0|]. split; [rewrite N16; intros ? ? []|]. intros _. left. rewrite N7. auto.
Qed.
End Cover.
End S.
