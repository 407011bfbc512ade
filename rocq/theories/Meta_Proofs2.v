(** The persisted consensus metadata: what the setters write. *)
From Coq Require Import List Arith NArith Bool Lia ZifyBool ZifyN.
From Verif Require Import Lib_Bytes Meta_Model Meta_Spec Meta_Proofs.
Import ListNotations.
Local Open Scope N_scope.

(** * Windows *)
Lemma modeq p a b : 0 < p -> a mod p = b mod p -> a < b -> a + p <= b.
Proof.
  intros Hp E Hab. pose proof (N.div_mod a p ltac:(lia)) as Ea. pose proof (N.div_mod b p ltac:(lia)) as Eb. rewrite E in Ea.
  assert (a / p < b / p). { destruct (N.lt_ge_cases (a / p) (b / p)) as [Hl|Hl]; [exact Hl|]. exfalso. nia. }
  nia.
Qed.
Lemma cleanLoop_in fuel : forall items a b i, 0 < items -> a <= b -> b - a < items -> (N.to_nat (b - a) <= fuel)%nat ->
  (In i (cleanLoop fuel items (a mod items) (b mod items)) <-> exists k, a <= k < b /\ i = k mod items).
Proof.
  induction fuel as [|fuel IH]; intros items a b i Hi Hab Hlt Hf.
  - assert (a = b) by lia. subst. cbn [cleanLoop In]. split; [intros []|intros (k & Hk & _); lia].
  - cbn [cleanLoop]. destruct (a mod items =? b mod items) eqn:E.
    + apply N.eqb_eq in E. assert (a = b). { destruct (N.lt_ge_cases a b) as [Hl|Hl]; [|lia]. pose proof (modeq _ _ _ Hi E Hl). lia. }
      subst. cbn [In]. split; [intros []|intros (k & Hk & _); lia].
    + assert (a < b). { destruct (N.lt_ge_cases a b) as [Hl|Hl]; [exact Hl|]. replace b with a in E by lia. rewrite N.eqb_refl in E. discriminate. }
      rewrite N.add_mod_idemp_l by lia. cbn [In]. rewrite IH by lia. split.
      * intros [<-|(k & Hk & ->)]; [exists a; split; [lia|reflexivity]|exists k; split; [lia|reflexivity]].
      * intros (k & Hk & ->). destruct (N.eq_dec a k) as [->|D]; [left; reflexivity|right; exists k; split; [lia|reflexivity]].
Qed.
Definition cleaned (items a b : N) (l : list N) : Prop := forall i, In i l <-> exists k, a <= k < b /\ i = k mod items.
Lemma all_cleaned items a b : 0 < items -> a + items <= b -> cleaned items a b (map N.of_nat (seq 0 (N.to_nat items))).
Proof.
  intros Hi Hab i. rewrite in_map_iff. split.
  - intros (x & <- & X). apply in_seq in X.
    exists (a + ((N.of_nat x + items - a mod items) mod items)).
    assert (Hm : a mod items < items) by (apply N.mod_upper_bound; lia).
    assert (Hm2 : (N.of_nat x + items - a mod items) mod items < items) by (apply N.mod_upper_bound; lia).
    split; [lia|]. rewrite N.add_mod_idemp_r by lia.
    rewrite <- (N.add_mod_idemp_l a) by lia.
    replace (a mod items + (N.of_nat x + items - a mod items)) with (N.of_nat x + 1 * items) by lia.
    rewrite N.mod_add by lia. symmetry. apply N.mod_small. lia.
  - intros (k & Hk & ->). exists (N.to_nat (k mod items)). assert (k mod items < items) by (apply N.mod_upper_bound; lia).
    split; [lia|]. apply in_seq. lia.
Qed.
Lemma advance_spec items reso beg new l b : 0 < items -> 0 < reso -> beg mod reso = 0 -> advance (items * reso) reso beg new = Ok (l, b) ->
  new mod reso = 0 /\ beg <= new /\ b = new /\ cleaned items (beg / reso) (new / reso) l.
Proof.
  intros Hi Hr Hb E. unfold advance in E. destruct (new mod reso =? 0) eqn:E1; [|discriminate]. cbn [guard bind] in E.
  destruct (beg <=? new) eqn:E2; [|discriminate]. cbn [guard bind] in E. apply N.eqb_eq in E1. apply N.leb_le in E2.
  rewrite N.div_mul in E by lia.
  pose proof (N.div_mod beg reso ltac:(lia)) as Db. pose proof (N.div_mod new reso ltac:(lia)) as Dn. rewrite Hb in Db. rewrite E1 in Dn.
  split; [exact E1|]. split; [exact E2|].
  destruct (new =? beg) eqn:E3.
  - apply N.eqb_eq in E3. subst new. injection E as <- <-. split; [reflexivity|]. intros i. cbn [In]. split; [intros []|intros (k & Hk & _); lia].
  - destruct (items * reso <=? new - beg) eqn:E4.
    + injection E as <- <-. split; [reflexivity|]. apply all_cleaned; [exact Hi|]. nia.
    + injection E as <- <-. split; [reflexivity|]. intros i. apply N.leb_gt in E4. apply cleanLoop_in; [exact Hi|nia|nia|]. 
      assert (new / reso - beg / reso < items) by nia. lia.
Qed.
Lemma advance_ok items reso beg new : new mod reso = 0 -> beg <= new -> exists l, advance (items * reso) reso beg new = Ok (l, new).
Proof.
  intros H1 H2. unfold advance. rewrite H1. cbn [N.eqb guard bind]. destruct (beg <=? new) eqn:E; [|lia]. cbn [guard bind].
  destruct (new =? beg) eqn:E3; [apply N.eqb_eq in E3; subst; eexists; reflexivity|]. destruct (_ <=? new - beg); eexists; reflexivity.
Qed.

(** * The writes of a setter, from the last stable sequence number alone *)
Definition cleanC (L n : N) : list N := match advance 450 150 L n with Ok (l, _) => l | _ => [] end.
Definition cleanS (L n : N) : list N := match advance 300 1 (L + 1) (n + 1) with Ok (l, _) => l | _ => [] end.
Definition ws (c : cfg) (L : N) (s : setter) : list (N * bytes) :=
  match s with
  | SLastExec n => [(idLastExec, le 8 n)]
  | SPrimUsed n => [(idPrimUsed, le 8 n)]
  | SLower n => [(idLower, le 8 n)]
  | SLastView n => [(idLastView, le 8 n)]
  | SExit x => exitWrites c x
  | SNew x => newWrites c x
  | SExec x => [(idExecDesc, encExec x)]
  | SStable ms => [(idStable, encStable ms)]
  | SClearSeq => clearSeqWrites (L + 1)
  | SLastStable n => (idLastStable, le 8 n) :: (idCheckWin, le 8 n) :: (idSeqWin, le 8 (n + 1))
       :: concat (map (fun i => checkElemWrites i check0) (cleanC L n)) ++ concat (map (fun i => seqElemWrites i seq0) (cleanS L n))
  | SSeq n f => [(idSeqWin + fieldId f + (n mod 300) * 6, fieldBytes f)]
  | SMark n => [(idCheckWin + 2 + ((n / 150) mod 3) * 2, encBool true)]
  | SCkpt n m => [(idCheckWin + 1 + ((n / 150) mod 3) * 2, encMsg m)]
  | SUser b => [(idUser, b)]
  | SRsi i b => [(idRsi + vcNum c + i, b)]
  end.
Definition legal (c : cfg) (L : N) (s : setter) : Prop :=
  match s with
  | SLastStable n => n mod 150 = 0 /\ L <= n
  | SSeq n f => L < n <= L + 300
  | SMark n | SCkpt n _ => n mod 150 = 0 /\ L <= n < L + 450
  | SExit x => lenN (ex_elements x) <= 300 /\ exitOverflow c x = true
  | SNew x => lenN (nw_vcs x) = vcNum c /\ newOverflow c x = true
  | SExec x => xc_nbits x <= 4096
  | SStable ms => lenN (encStable ms) <= stableMax c
  | _ => True
  end.
Definition next (L : N) (s : setter) : N := match s with SLastStable n => n | _ => L end.
Definition writable c (l : list (N * bytes)) : Prop := Forall (fun kv => canWrite c (fst kv) (snd kv) = true) l.

Lemma clean0_check i k v : In (k, v) (checkElemWrites i check0) -> v = [0] /\ (k = idCheckWin + 1 + i * 2 \/ k = idCheckWin + 2 + i * 2).
Proof.
  unfold checkElemWrites. cbv zeta. cbn [In]. ids. intros [E|[E|[]]]; apply pair_equal_spec in E; destruct E as (<- & <-);
    (split; [reflexivity|lia]).
Qed.
Lemma clean0_seq i k v : In (k, v) (seqElemWrites i seq0) -> v = [0] /\ exists j, 1 <= j <= 6 /\ k = idSeqWin + j + i * 6.
Proof.
  unfold seqElemWrites. cbv zeta. cbn [In]. ids. intros [E|[E|[E|[E|[E|[E|[]]]]]]]; apply pair_equal_spec in E; destruct E as (<- & <-);
    (split; [reflexivity|]); [exists 1|exists 2|exists 3|exists 4|exists 5|exists 6]; split; lia.
Qed.
Lemma clean0_seq_in i j : 1 <= j <= 6 -> In (idSeqWin + j + i * 6, [0]) (seqElemWrites i seq0).
Proof.
  intros Hj. assert (Hc : j = 1 \/ j = 2 \/ j = 3 \/ j = 4 \/ j = 5 \/ j = 6) by lia. unfold seqElemWrites. cbv zeta. cbn [In].
  change (encMsg (sq_pp seq0)) with [0]. change (encMsg (sq_fcp seq0)) with [0]. change (encMsg (sq_pf seq0)) with [0].
  change (encMsg (sq_cf seq0)) with [0]. change (encBool (sq_force seq0)) with [0]. change (encBool (sq_slow seq0)) with [0].
  destruct Hc as [->|[->|[->|[->|[->| ->]]]]];
    [do 0 right; left|do 1 right; left|do 2 right; left|do 3 right; left|do 4 right; left|do 5 right; left]; f_equal; ids; lia.
Qed.
Lemma in_concat_map {A B} (f : A -> list B) l x : In x (concat (map f l)) <-> exists a, In a l /\ In x (f a).
Proof.
  rewrite in_concat. split.
  - intros (y & Hy & Hx). apply in_map_iff in Hy. destruct Hy as (a & <- & Ha). eauto.
  - intros (a & Ha & Hx). exists (f a). split; [apply in_map; exact Ha|exact Hx].
Qed.
Lemma enum_in {A} (l : list A) i a : In (i, a) (enum l) <-> exists k, i = N.of_nat k /\ nth_error l k = Some a.
Proof.
  unfold enum. assert (G : forall l b, In (i, a) (combine (map N.of_nat (seq b (length l))) l) <-> exists k, i = N.of_nat (b + k) /\ nth_error l k = Some a).
  { clear l. induction l as [|x l IH]; intros b; cbn [length seq map combine In].
    - split; [intros []|intros (k & _ & E); destruct k; discriminate].
    - rewrite IH. split.
      + intros [E|(k & E1 & E2)]; [injection E as <- <-; exists 0%nat; split; [f_equal; lia|reflexivity]|exists (S k); split; [rewrite E1; f_equal; lia|exact E2]].
      + intros ([|k] & E1 & E2); [left; injection E2 as <-; f_equal; rewrite E1; f_equal; lia|right; exists k; split; [rewrite E1; f_equal; lia|exact E2]]. }
  apply G.
Qed.
Lemma wr1 s k0 v k : wr s [(k0, v)] k = if k =? k0 then Some v else s k.
Proof. reflexivity. Qed.

(** the setters do what [ws] says *)
Definition same (p q : ps) : Prop := nested q = nested p /\ batch q = batch p /\ seqBeg q = seqBeg p /\ checkBeg q = checkBeg p.
Lemma same_refl p : same p p.
Proof. repeat split. Qed.
Lemma hasNewF_same c d p b q : hasNewF c d p = Ok (b, q) -> same p q.
Proof.
  unfold hasNewF. destruct (hasNew p); [intros E; injection E as <- <-; apply same_refl|]. destruct (getNew c d p); [|discriminate]. cbn [bind].
  destruct (nw_default a); intros E; injection E as <- <-; apply same_refl || (repeat split).
Qed.
Lemma hasExitF_same c d p b q : hasExitF c d p = Ok (b, q) -> same p q.
Proof.
  unfold hasExitF. destruct (hasExit p); [intros E; injection E as <- <-; apply same_refl|]. destruct (getExit c d p); [|discriminate]. cbn [bind].
  destruct (ex_default a); intros E; injection E as <- <-; apply same_refl || (repeat split).
Qed.
Lemma guard_ok b (r : unit) : guard b = Ok r -> b = true.
Proof. destruct b; [reflexivity|discriminate]. Qed.
Lemma bind_ok {A B} (r : res A) (f : A -> res B) b : bind r f = Ok b -> exists a, r = Ok a /\ f a = Ok b.
Proof. destruct r as [a|w]; [|discriminate]. cbn [bind]. eauto. Qed.
Definition did (c : cfg) (p q : ps) (l : list (N * bytes)) (w : list (N * bytes)) : Prop :=
  exists l', batch q = Some l' /\ (forall st k, wr st l' k = wr st (l ++ w) k) /\ writable c w /\ nested q = nested p.
Lemma writes_did c p q l w : batch p = Some l -> writes c p w = Ok q -> did c p q l w /\ seqBeg q = seqBeg p /\ checkBeg q = checkBeg p.
Proof.
  intros Hb E. unfold writes in E. rewrite Hb in E. apply bind_ok in E. destruct E as (b & E1 & E2). injection E2 as <-.
  destruct (writeAll_sound _ _ _ _ E1) as (l' & -> & H1 & H2). split; [|split; reflexivity]. exists l'. auto.
Qed.
Lemma writes_none c p q w : batch p = None -> w <> [] -> writes c p w = Ok q -> False.
Proof.
  intros Hb Hw E. unfold writes in E. rewrite Hb in E. destruct w as [|kv w]; [elim Hw; reflexivity|]. cbn [writeAll] in E.
  destruct (negb _); discriminate.
Qed.
Lemma did_setp c p q q' l w : did c p q l w -> batch q' = batch q -> nested q' = nested q -> did c p q' l w.
Proof. intros (l' & H1 & H2 & H3 & H4) E1 E2. exists l'. rewrite E1, E2. auto. Qed.
Lemma did_same c p p1 q l w : same p p1 -> did c p1 q l w -> did c p q l w.
Proof. intros (E1 & _) (l' & H1 & H2 & H3 & H4). exists l'. rewrite <- E1. auto. Qed.
Ltac gd := match goal with E : bind (guard ?b) _ = Ok _ |- _ => let u := fresh "u" in let Eg := fresh "Eg" in
  apply bind_ok in E; destruct E as (u & Eg & E); apply guard_ok in Eg end.
Lemma doSet_did c d p q L l x : seqBeg p = L + 1 -> checkBeg p = L -> batch p = Some l -> doSet c d p x = Ok q ->
  did c p q l (ws c L x) /\ legal c L x /\ seqBeg q = next L x + 1 /\ checkBeg q = next L x.
Proof.
  intros Hs Hk Hb E. destruct x; cbn [doSet ws legal next] in *.
  - repeat gd. apply bind_ok in E. destruct E as (q1 & E1 & E2). injection E2 as <-. destruct (writes_did _ _ _ _ _ Hb E1) as (D & S1 & S2).
    split; [eapply did_setp; [exact D|reflexivity..]|]. cbn. rewrite S1, S2. auto.
  - repeat gd. destruct (writes_did _ _ _ _ _ Hb E) as (D & S1 & S2). rewrite S1, S2. auto.
  - repeat gd. destruct (writes_did _ _ _ _ _ Hb E) as (D & S1 & S2). rewrite S1, S2. auto.
  - repeat gd. apply bind_ok in E. destruct E as (q1 & E1 & E2). injection E2 as <-. destruct (writes_did _ _ _ _ _ Hb E1) as (D & S1 & S2).
    split; [eapply did_setp; [exact D|reflexivity..]|]. cbn. rewrite S1, S2. auto.
  - repeat gd. apply bind_ok in E. destruct E as ((h & p1) & E1 & E). pose proof (hasNewF_same _ _ _ _ _ E1) as Sm.
    repeat gd. apply bind_ok in E. destruct E as (u9 & Eo & E). destruct (exitOverflow c x) eqn:Ov; [|discriminate]. repeat gd.
    apply bind_ok in E. destruct E as (q1 & E2 & E3). injection E3 as <-. pose proof Sm as (Sa & Sb & Sc & Sd).
    rewrite <- Sb in Hb. destruct (writes_did _ _ _ _ _ Hb E2) as (D & S1 & S2).
    split; [eapply did_same; [exact Sm|]; eapply did_setp; [exact D|reflexivity..]|]. cbn. rewrite S1, S2, Sc, Sd. repeat split; auto. lia.
  - repeat gd. apply bind_ok in E. destruct E as ((h & p1) & E1 & E). pose proof (hasExitF_same _ _ _ _ _ E1) as Sm.
    repeat gd. apply bind_ok in E. destruct E as (u9 & Eo & E). destruct (newOverflow c x) eqn:Ov; [|discriminate].
    apply bind_ok in E. destruct E as (q1 & E2 & E3). injection E3 as <-. pose proof Sm as (Sa & Sb & Sc & Sd).
    rewrite <- Sb in Hb. destruct (writes_did _ _ _ _ _ Hb E2) as (D & S1 & S2).
    split; [eapply did_same; [exact Sm|]; eapply did_setp; [exact D|reflexivity..]|]. cbn. rewrite S1, S2, Sc, Sd. repeat split; auto. lia.
  - repeat gd. apply bind_ok in E. destruct E as (q1 & E1 & E2). injection E2 as <-. destruct (writes_did _ _ _ _ _ Hb E1) as (D & S1 & S2).
    split; [eapply did_setp; [exact D|reflexivity..]|]. cbn. rewrite S1, S2. repeat split; auto. lia.
  - apply bind_ok in E. destruct E as (u9 & Eo & E). unfold noOverflow in Eo. destruct (_ <=? _) eqn:Ov; [|discriminate].
    destruct (writes_did _ _ _ _ _ Hb E) as (D & S1 & S2). rewrite S1, S2. split; [exact D|]. repeat split; auto. lia.
  - rewrite Hs in E. destruct (writes_did _ _ _ _ _ Hb E) as (D & S1 & S2). rewrite S1, S2. auto.
  - gd. rewrite Hs, Hk in *. apply N.eqb_eq in Eg. apply bind_ok in E. destruct E as ((cc & kb) & A1 & E). apply bind_ok in E. destruct E as ((sc & sb) & A2 & E).
    unfold cleanC, cleanS. rewrite A1, A2.
    change 450 with (3 * 150) in A1. change 300 with (300 * 1) in A2.
    apply advance_spec in A1; [|lia..|exact Eg]. apply advance_spec in A2; [|lia..|apply N.mod_1_r].
    destruct A1 as (M1 & L1 & -> & _). destruct A2 as (_ & L2 & -> & _).
    apply bind_ok in E. destruct E as (q1 & E1 & E2). injection E2 as <-. destruct (writes_did _ _ _ _ _ Hb E1) as (D & S1 & S2).
    split; [eapply did_setp; [exact D|reflexivity..]|]. cbn. auto.
  - apply bind_ok in E. destruct E as (u9 & Eo & E). apply bind_ok in E. destruct E as (i & Ec & E). unfold convert in Ec. repeat gd.
    rewrite N.mod_1_r in Eg. injection Ec as <-. rewrite N.div_1_r in E. change (300 / 1) with 300 in E. unfold inside in Eg0. rewrite Hs in Eg0.
    destruct (writes_did _ _ _ _ _ Hb E) as (D & S1 & S2). rewrite S1, S2. split; [exact D|]. repeat split; auto; lia.
  - apply bind_ok in E. destruct E as (i & Ec & E). unfold convert in Ec. repeat gd.
    apply N.eqb_eq in Eg. injection Ec as <-. change (450 / 150) with 3 in E. unfold inside in Eg0. rewrite Hk in Eg0.
    destruct (writes_did _ _ _ _ _ Hb E) as (D & S1 & S2). rewrite S1, S2. split; [exact D|]. repeat split; auto; lia.
  - apply bind_ok in E. destruct E as (u9 & Eo & E). apply bind_ok in E. destruct E as (i & Ec & E). unfold convert in Ec. repeat gd.
    apply N.eqb_eq in Eg. injection Ec as <-. change (450 / 150) with 3 in E. unfold inside in Eg0. rewrite Hk in Eg0.
    destruct (writes_did _ _ _ _ _ Hb E) as (D & S1 & S2). rewrite S1, S2. split; [exact D|]. repeat split; auto; lia.
  - repeat gd. destruct (256 <? lenN b) eqn:E1; [discriminate|].
    destruct (writes_did _ _ _ _ _ Hb E) as (D & S1 & S2). rewrite S1, S2. auto.
  - destruct (writes_did _ _ _ _ _ Hb E) as (D & S1 & S2). rewrite S1, S2. auto.
Qed.
(** outside of a transaction no setter succeeds *)
Lemma doSet_none c d p q x : batch p = None -> doSet c d p x = Ok q -> False.
Proof.
  intros Hb E. destruct x; cbn [doSet] in E;
    repeat (gd || (match type of E with bind _ _ = Ok _ => idtac end; apply bind_ok in E; let a := fresh "a" in let E1 := fresh "E1" in destruct E as (a & E1 & E));
            try match goal with a : (_ * _)%type |- _ => destruct a end; cbv beta iota in E);
    try (match goal with H : hasNewF _ _ _ = Ok _ |- _ => apply hasNewF_same in H; destruct H as (_ & H & _); rewrite Hb in H
         | H : hasExitF _ _ _ = Ok _ |- _ => apply hasExitF_same in H; destruct H as (_ & H & _); rewrite Hb in H end);
    try (match goal with H : writes _ _ _ = Ok _ |- _ => eapply writes_none; [|  |exact H]; [eassumption|discriminate] end).
  destruct (256 <? lenN b); [discriminate|]. eapply writes_none; [| |exact E]; [eassumption|discriminate].
Qed.
