(** Invariants of the subscription buffer and of the subscription loop. *)
From Coq Require Import List Arith Bool Lia.
From Verif Require Import Sub_Model.
Import ListNotations.

Section B.
Context {A : Type}.
Context (idOf : A -> nat) (cap : nat).
Implicit Types b : buf A.

Lemma brun_app (b : buf A) l1 l2 : brun idOf cap b (l1 ++ l2) = (let (b1, r1) := brun idOf cap b l1 in let (b2, r2) := brun idOf cap b1 l2 in (b2, r1 ++ r2)).
Proof.
  revert b. induction l1 as [|o l1 IH]; intros b; cbn [app brun].
  - destruct (brun idOf cap b l2); reflexivity.
  - destruct (bstep idOf cap b o) as [b1 r1]. rewrite IH. destruct (brun idOf cap b1 l1) as [b2 r2]. destruct (brun idOf cap b2 l2) as [b3 r3]. rewrite app_assoc. reflexivity.
Qed.
Lemma got_app l1 l2 : @got A (l1 ++ l2) = got l1 ++ got l2.
Proof. induction l1 as [|[u| |] l1 IH]; cbn; auto. f_equal; auto. Qed.

Lemma slow_run l : forall c b r, tooSlow b = true -> ~ In RemoveAll l -> brun idOf cap b l = (c, r) -> queue c = queue b /\ got r = [] /\ tooSlow c = true.
Proof.
  induction l as [|o l IH]; intros c b r T N E; cbn [brun] in E; [inversion E; subst; auto|].
  assert (N' : ~ In RemoveAll l) by (intros X; apply N; right; auto).
  destruct o as [u| |]; cbn [bstep] in E.
  - destruct (brun idOf cap (push idOf cap u b) l) as [c2 r2] eqn:E2. injection E as <- <-. 
    destruct (IH _ _ _ (eq_trans (f_equal tooSlow (eq_refl (push idOf cap u b))) ltac:(unfold push; rewrite T; reflexivity)) N' E2) as (X1 & X2 & X3).
    cbn [app]. rewrite X1. unfold push. rewrite T. auto.
  - unfold pop in E. rewrite T in E. destruct (brun idOf cap b l) as [c2 r2] eqn:E2. injection E as <- <-. cbn. eauto.
  - exfalso. apply N. left. auto.
Qed.

(** While not too slow, what was read, followed by the queue, is what was pushed; afterwards it is a prefix of it. *)
Lemma brun_pref l : ~ In RemoveAll l -> forall b, exists rest,
   queue b ++ pushes l = got (snd (brun idOf cap b l)) ++ queue (fst (brun idOf cap b l)) ++ rest /\ (tooSlow (fst (brun idOf cap b l)) = false -> rest = []).
Proof.
  induction l as [|o l IH]; intros N b.
  { exists []. cbn. rewrite !app_nil_r. auto. }
  assert (N' : ~ In RemoveAll l) by (intros X; apply N; right; auto).
  cbn [brun]. destruct o as [u| |]; cbn [bstep].
  - cbn [pushes]. destruct (brun idOf cap (push idOf cap u b) l) as [b2 r2] eqn:E. cbn [app fst snd].
    destruct (IH N' (push idOf cap u b)) as (rest & H & R). rewrite E in H, R. cbn [fst snd] in H, R.
    unfold push in H, E. destruct (tooSlow b) eqn:T.
    + cbn [queue] in H.
      edestruct (slow_run l) with (3 := E) as (X1 & X2 & X3); [reflexivity|auto|]. cbn [queue] in X1. rewrite X1, X2. cbn [app]. exists (u :: pushes l). split; auto. intros. congruence.
    + destruct (length (queue b) <? cap).
      * cbn [queue] in H. exists rest. split; auto. rewrite <- H, <- app_assoc. auto.
      * cbn [queue] in H.
        edestruct (slow_run l) with (3 := E) as (X1 & X2 & X3); [reflexivity|auto|]. cbn [queue] in X1. rewrite X1, X2. cbn [app]. exists (u :: pushes l). split; auto. intros. congruence.
  - cbn [pushes]. unfold pop. destruct (tooSlow b) eqn:T.
    + destruct (brun idOf cap b l) as [b2 r2] eqn:E. cbn. destruct (IH N' b) as (rest & H & R). rewrite E in H, R. cbn in H, R. eauto.
    + destruct (queue b) as [|u q] eqn:Q.
      * destruct (brun idOf cap b l) as [b2 r2] eqn:E. cbn. destruct (IH N' b) as (rest & H & R). rewrite E, Q in H. rewrite E in R. cbn in H, R. eauto.
      * destruct (brun idOf cap (mkBuf q false (newest b)) l) as [b2 r2] eqn:E. cbn. destruct (IH N' (mkBuf q false (newest b))) as (rest & H & R). rewrite E in H, R. cbn in H, R. exists rest. split; auto. rewrite <- H. reflexivity.
  - exfalso. apply N. left. auto.
Qed.

(** Once too slow, always too slow, whatever is done to the buffer; and every read fails. *)
Lemma slow_forever l : forall b, tooSlow b = true -> tooSlow (fst (brun idOf cap b l)) = true /\ (forall r, In r (snd (brun idOf cap b l)) -> r = Throw).
Proof.
  induction l as [|o l IH]; intros b T; cbn [brun]; [cbn; tauto|].
  destruct o as [u| |]; cbn [bstep].
  - assert (T' : tooSlow (push idOf cap u b) = true) by (unfold push; rewrite T; auto). specialize (IH _ T'). destruct (brun idOf cap (push idOf cap u b) l). auto.
  - unfold pop. rewrite T. specialize (IH _ T). destruct (brun idOf cap b l). cbn in *. destruct IH as [I1 I2]. split; auto. intros r [H|H]; auto.
  - assert (T' : tooSlow (removeAll b) = true) by auto. specialize (IH _ T'). destruct (brun idOf cap (removeAll b) l). auto.
Qed.
End B.

Section S.
Context {P V : Type}.
Context (flt : P -> V) (cap start : nat).
Implicit Types s : st P V.

Definition ids (s : st P V) := map fst (queue (sb s)).
(** The buffer holds consecutive blocks [a, a+len), the newest being the last pushed unless an update was lost. *)
Record BInv (a : nat) (s : st P V) : Prop := {
  b_ids : ids s = seq a (length (queue (sb s)));
  b_blk : forall i p, In (i, p) (queue (sb s)) -> 1 <= i /\ i <= pushed s /\ blockAt s i = Some p;
  b_len : length (queue (sb s)) <= cap;
  b_live : tooSlow (sb s) = false -> fresh s = false -> a + length (queue (sb s)) = S (pushed s);
  b_fresh : fresh s = true -> queue (sb s) = [] /\ tooSlow (sb s) = false;
  b_slow : tooSlow (sb s) = true -> queue (sb s) <> [];
  b_new : queue (sb s) <> [] -> a + length (queue (sb s)) <= S (newest (sb s)) /\ newest (sb s) <= pushed s }.
Definition nxt s := start + length (out s).
Definition PInv (a : nat) (s : st P V) : Prop :=
  match at_ s with
  | PCheck => out s = [] /\ subscribed s = false
  | PAdd => out s = [] /\ subscribed s = false /\ start <= S (lastId s)
  | PLast => out s = [] /\ start <= S (lastId s)
  | PWait l => out s = [] /\ start = S l
  | PSync => out s = [] /\ start <= lastId s
  | PEnd => out s = [] /\ start <= lastId s /\ 1 <= start
  | PRead cur en => cur = nxt s /\ cur <= S en /\ en <= lastId s /\ 1 <= start
  | PWait2 en => nxt s = S en /\ en <= lastId s /\ 1 <= start
  | PCmp en => nxt s = S en /\ en <= lastId s /\ queue (sb s) <> [] /\ 1 <= start
  | PGap en => nxt s = S en /\ en <= lastId s /\ queue (sb s) <> [] /\ a <> S en /\ 1 <= start
  | PGapRead cur en => cur = nxt s /\ cur <= S en /\ en <= lastId s /\ queue (sb s) <> [] /\ a <= en /\ 1 <= start
  | PLe en => nxt s = S en /\ queue (sb s) <> [] /\ a <= en /\ 1 <= start
  | PDrop en => nxt s = S en /\ fresh s = false /\ (tooSlow (sb s) = false -> a <= en) /\ 1 <= start
  | PLive => fresh s = false /\ (tooSlow (sb s) = false -> a = nxt s) /\ 1 <= start
  | PDone => True
  | PAbort => start = 0
  end.
Definition Inv s := exists a, BInv a s /\ PInv a s /\ pushed s <= lastId s /\ inOrder flt start s /\ (subscribed s = false -> fresh s = true).

Lemma oldest_a a s i : BInv a s -> oldestBlockId fst (sb s) = Some i -> i = a /\ queue (sb s) <> [].
Proof.
  intros B H. unfold oldestBlockId in H. destruct (queue (sb s)) as [|u q] eqn:Q; [discriminate|]. split; [|congruence].
  pose proof (b_ids _ _ B) as I. unfold ids in I. rewrite Q in I. cbn in I. inversion I. inversion H. congruence.
Qed.
Lemma oldest_some a s : BInv a s -> queue (sb s) <> [] -> oldestBlockId fst (sb s) = Some a /\ newestBlockId (sb s) = Some (newest (sb s)) /\ fresh s = false.
Proof.
  intros B H. destruct (queue (sb s)) as [|u q] eqn:Q; [congruence|]. pose proof (b_ids _ _ B) as I. unfold ids in I. rewrite Q in I. cbn in I. inversion I.
  unfold oldestBlockId, newestBlockId. rewrite Q. split; [|split]; auto. destruct (fresh s) eqn:F; auto. destruct (b_fresh _ _ B F). congruence.
Qed.
Lemma blockAt_app s b g pu su x y z w i p : blockAt s i = Some p -> blockAt (mkS (blocks s ++ [b]) g pu su x y z w : st P V) i = Some p.
Proof. unfold blockAt. cbn. intros H. rewrite nth_error_app1; auto. apply nth_error_Some. congruence. Qed.
Lemma binv_ext a s s' : sb s' = sb s -> fresh s' = fresh s -> pushed s' = pushed s -> (forall i p, blockAt s i = Some p -> blockAt s' i = Some p) -> BInv a s -> BInv a s'.
Proof.
  intros E F G H []. constructor; unfold ids; rewrite ?E, ?F, ?G; auto. intros i p Hi. destruct (b_blk0 i p Hi) as (?&?&?). auto.
Qed.

Lemma pop_inv a s u b : BInv a s -> pop (sb s) = (Got u, b) -> BInv (S a) (setBuf b s) /\ fst u = a /\ blockAt s a = Some (snd u) /\ tooSlow (sb s) = false /\ tooSlow b = false /\ fresh s = false.
Proof.
  intros B H. unfold pop in H. destruct (tooSlow (sb s)) eqn:T; [discriminate|]. destruct (queue (sb s)) as [|x q] eqn:Q; [discriminate|]. inversion H; subst. clear H.
  destruct (oldest_some a s B) as (_ & _ & F); [congruence|].
  pose proof (b_ids _ _ B) as I. unfold ids in I. rewrite Q in I. cbn in I. inversion I as [[I1 I2]].
  split; [|split; [auto|split; [|auto]]].
  - pose proof (b_live _ _ B T F) as L. pose proof (b_len _ _ B) as Le. rewrite Q in L, Le. cbn in L, Le. constructor; cbn; auto; try lia.
    + intros i p Hi. change (blockAt (setBuf (mkBuf q false (newest (sb s))) s) i) with (blockAt s i). apply (b_blk _ _ B). rewrite Q. right. auto.
    + intros; congruence.
    + intros _. destruct (b_new _ _ B) as [N1 N2]; [congruence|]. rewrite Q in N1. cbn in N1. lia.
  - destruct (b_blk _ _ B (fst u) (snd u)) as (_ & _ & X); [rewrite Q; left; destruct u; auto|]. rewrite <- X. f_equal; auto.
Qed.

Lemma inOrder_emit s i v b : inOrder flt start s -> i = nxt s -> option_map flt (blockAt s i) = Some v -> blocks b = blocks s -> out b = out s -> inOrder flt start (emit i v b).
Proof.
  intros I -> H Hb Ho k o Hk. cbn in Hk. rewrite Ho in Hk.
  assert (Z : forall j, blockAt (emit (nxt s) v b) j = blockAt s j) by (intros j; unfold blockAt; cbn; rewrite Hb; auto).
  destruct (Nat.lt_ge_cases k (length (out s))) as [L|L].
  - rewrite nth_error_app1 in Hk by auto. destruct (I k o Hk) as [I1 I2]. split; auto. rewrite Z. auto.
  - rewrite nth_error_app2 in Hk by auto. destruct (k - length (out s)) as [|m] eqn:E; [|destruct m; discriminate]. cbn in Hk. inversion Hk. cbn. unfold nxt in *.
    replace (start + k) with (start + length (out s)) by lia. split; auto. rewrite Z. auto.
Qed.
Lemma inOrder_ext s s' : inOrder flt start s -> out s' = out s -> (forall i p, blockAt s i = Some p -> blockAt s' i = Some p) -> inOrder flt start s'.
Proof.
  intros I E H k o Hk. rewrite E in Hk. destruct (I k o Hk) as [I1 I2]. split; auto. destruct (blockAt s (start + k)) eqn:Q; [|discriminate]. rewrite (H _ _ Q). auto.
Qed.

Lemma blockAt_last s i p : 1 <= i -> blockAt s i = Some p -> i <= lastId s.
Proof. intros H E. unfold blockAt in E. assert (i - 1 < length (blocks s)) by (apply nth_error_Some; congruence). unfold lastId. lia. Qed.

Lemma env_inv s s' : 1 <= cap -> env cap s s' -> Inv s -> Inv s'.
Proof.
  intros Hc E (a & B & Pc & Pu & O & Sf). destruct E as [s p|s p Hp Hb|s g G1 G2].
  - exists a. split; [|split; [|split; [|split]]].
    + eapply binv_ext; [..|exact B]; auto. intros. apply blockAt_app. auto.
    + assert (L : lastId (mkS (blocks s ++ [p]) (max 1 (genesis s)) (pushed s) (subscribed s) (sb s) (at_ s) (out s) (fresh s)) = S (lastId s)).
      { unfold lastId. cbn. rewrite app_length. cbn. lia. }
      unfold PInv in *. rewrite L. cbn [at_ out subscribed sb fresh]. change (nxt (mkS (blocks s ++ [p]) (max 1 (genesis s)) (pushed s) (subscribed s) (sb s) (at_ s) (out s) (fresh s))) with (nxt s).
      destruct (at_ s); intuition lia.
    + unfold lastId in *. cbn. rewrite app_length. lia.
    + eapply inOrder_ext; [exact O|auto|]. intros. apply blockAt_app. auto.
    + auto.
  - destruct (subscribed s) eqn:Su.
    + set (s' := mkS _ _ _ _ _ _ _ _).
      assert (BA : forall i, blockAt s' i = blockAt s i) by reflexivity.
      assert (K : exists a', BInv a' s' /\ (fresh s = false -> a' = a) /\ (fresh s = true -> tooSlow (sb s') = false -> a' = S (pushed s)) /\ (queue (sb s) <> [] -> queue (sb s') <> []) /\ (tooSlow (sb s') = false -> tooSlow (sb s) = false)).
      { destruct (fresh s) eqn:F.
        - destruct (b_fresh _ _ B F) as [Q T]. exists (S (pushed s)). split; [|split; [congruence|split; [auto|split; [congruence|congruence]]]].
          assert (X : sb s' = mkBuf [(S (pushed s), p)] false (S (pushed s))).
          { unfold s'. cbn [sb]. unfold push. rewrite T, Q. cbn [length]. destruct (Nat.ltb_spec 0 cap); [auto|lia]. }
          constructor; unfold ids; rewrite ?X; cbn; auto; try lia; try congruence.
          intros i q [H|[]]. inversion H; subst. rewrite BA. split; [lia|split; auto].
        - exists a. split; [|split; [auto|split; [congruence|split]]].
          + destruct B as [B1 B2 B3 B4 B5 B6 B7]. unfold ids in B1. unfold s', push. destruct (tooSlow (sb s)) eqn:T; [|destruct (Nat.ltb_spec (length (queue (sb s))) cap) as [L|L]].
            * specialize (B7 (B6 eq_refl)). constructor; unfold ids; cbn; auto; try lia; try congruence. intros i q Hi. destruct (B2 i q Hi) as (?&?&?). split; [lia|split; [lia|auto]].
            * specialize (B4 eq_refl F). constructor; unfold ids; cbn; rewrite ?app_length, ?map_app; cbn; auto; try lia; try congruence.
              -- rewrite B1, seq_app. cbn. repeat f_equal. lia.
              -- intros i q Hi. apply in_app_or in Hi. destruct Hi as [Hi|[Hi|[]]]; [destruct (B2 i q Hi) as (?&?&?); split; [lia|split; [lia|auto]]|]. inversion Hi; subst. split; [lia|split; auto].
            * specialize (B4 eq_refl F). assert (Q : queue (sb s) <> []) by (intros Q0; rewrite Q0 in L; cbn in L; lia). specialize (B7 Q).
              constructor; unfold ids; cbn; auto; try lia; try congruence. intros i q Hi. destruct (B2 i q Hi) as (?&?&?). split; [lia|split; [lia|auto]].
          + intros Q. unfold s', push; cbn [sb]; destruct (tooSlow (sb s)); [auto|]. destruct (length (queue (sb s)) <? cap); cbn; auto. intros X. apply app_eq_nil in X. destruct X; discriminate.
          + unfold s', push. cbn [sb]. destruct (tooSlow (sb s)); auto. }
      destruct K as (a' & B' & K1 & K2 & K3 & K4). exists a'. split; [auto|split; [|split; [|split]]].
      * assert (NF : queue (sb s) <> [] -> fresh s = false) by (intros; destruct (fresh s) eqn:F; auto; destruct (b_fresh _ _ B F); congruence).
        unfold PInv in *. change (at_ s') with (at_ s). change (lastId s') with (lastId s). change (nxt s') with (nxt s). change (out s') with (out s). change (subscribed s') with true. change (fresh s') with false.
        destruct (at_ s); auto; try (intuition congruence); try (destruct Pc as (? & ? & ? & Pc); rewrite (K1 (NF ltac:(auto))); tauto).
      * exact Hp.
      * eapply inOrder_ext; [exact O|auto|auto].
      * cbn. congruence.
    + pose proof (Sf eq_refl) as F. destruct (b_fresh _ _ B F) as [Q T]. exists a. split; [|split; [|split; [|split]]].
      * destruct B as [B1 B2 B3 B4 B5 B6 B7]. constructor; unfold ids in *; cbn; rewrite ?Q in *; auto; try congruence; cbn in *; intuition congruence.
      * unfold PInv in *. cbn. rewrite Q in *. destruct (at_ s); try (intuition congruence). 
      * exact Hp.
      * eapply inOrder_ext; [exact O|auto|auto].
      * auto.
  - exists a. split; [eapply binv_ext; [..|exact B]; auto|]. split; [exact Pc|]. split; auto.
Qed.

Lemma skip_inv s s' : skip s s' -> fresh s = true -> Inv s -> Inv s'.
Proof.
  intros E F (a & B & Pc & Pu & O & Sf). destruct E as [s Hp]. destruct (b_fresh _ _ B F) as [Q T]. exists a. split; [|split; [|split; [exact Hp|split; [|auto]]]].
  - destruct B as [B1 B2 B3 B4 B5 B6 B7]. constructor; unfold ids in *; cbn; rewrite ?Q in *; auto; try congruence; cbn in *; intuition congruence.
  - exact Pc.
  - eapply inOrder_ext; [exact O|auto|auto].
Qed.

Lemma setAt_inv a s p : BInv a s -> BInv a (setAt p s).
Proof. intros B. eapply binv_ext; [..|exact B]; auto. Qed.
Lemma inv_done s : Inv s -> Inv (setAt PDone s).
Proof. intros (a & B & Pc & Pu & O & Sf). exists a. split; [apply setAt_inv; auto|]. split; [exact I|]. split; [exact Pu|]. split; [eapply inOrder_ext; [exact O|auto|auto]|exact Sf]. Qed.
Lemma inv_to a s p : BInv a s -> PInv a (setAt p s) -> pushed s <= lastId s -> inOrder flt start s -> (subscribed s = false -> fresh s = true) -> Inv (setAt p s).
Proof. intros B Pc Pu O Sf. exists a. split; [apply setAt_inv; auto|]. split; [auto|]. split; [exact Pu|]. split; [eapply inOrder_ext; [exact O|auto|auto]|exact Sf]. Qed.

Lemma read_ok s cur p : blockAt s cur = Some p -> option_map flt (blockAt s cur) = Some (flt p).
Proof. intros ->. auto. Qed.
Lemma pinv_at a s p : at_ s = p -> PInv a s -> PInv a (setAt p s).
Proof. intros <-. destruct s. auto. Qed.

Lemma sub_inv s s' : sub flt start s s' -> Inv s -> Inv s'.
Proof.
  intros E I0. destruct I0 as (a & B & Pc & Pu & O & Sf).
  assert (ID : Inv (setAt PDone s)) by (apply inv_done; exists a; auto).
  destruct E; try (exact ID); (match goal with H : at_ s = _ |- _ => rename H into Ha end; unfold PInv in Pc; rewrite Ha in Pc);
  try match goal with H : pop (sb _) = _ |- _ => rename H into Hpop end; try match goal with H : oldestBlockId fst (sb _) = Some _ |- _ => rename H into Hold end.
  - destruct Pc as (P1 & P2). destruct (Nat.leb_spec start (S (lastId s))) as [L1|L1]; cbn [andb]; [destruct (Nat.leb_spec (genesis s) start) as [L2|L2]|]; try exact ID.
    apply inv_to with a; auto. cbn. auto.
  - destruct Pc as (P1 & P2 & P3). exists 0. split; [|split; [|split; [exact Pu|split; [|auto]]]].
    + constructor; cbn; auto; try congruence; try lia; try (intros ? ? []; fail); intuition congruence.
    + cbn. auto.
    + eapply inOrder_ext; [exact O|auto|auto].
  - destruct Pc as (P1 & P2). apply inv_to with a; auto. destruct (Nat.eqb_spec start (S (lastId s))); cbn; auto. unfold lastId in *. cbn. split; auto. lia.
  - destruct Pc as (P1 & P2). destruct (oldest_a _ _ _ B Hold) as [-> Q]. apply inv_to with a; auto. cbn. split; auto.
    destruct (queue (sb s)) as [|[j p] q] eqn:E; [congruence|]. destruct (b_blk _ _ B j p) as (?&?&?); [rewrite E; left; auto|].
    assert (j = a). { pose proof (b_ids _ _ B) as Z. unfold ids in Z. rewrite E in Z. cbn in Z. inversion Z. auto. } unfold lastId in *. cbn. lia.
  - destruct Pc as (P1 & P2). destruct (pop_inv _ _ _ _ B Hpop) as (B' & _). exists (S a). split; [auto|]. split; [unfold PInv; cbn; rewrite Ha; auto|]. split; [exact Pu|]. split; [eapply inOrder_ext; [exact O|auto|auto]|exact Sf].
  - destruct Pc as (P1 & P2). destruct (Nat.eqb_spec start 0); [|destruct (start <? genesis s)]; try exact ID; apply inv_to with a; auto. cbn. split; auto. split; auto. lia.
  - destruct Pc as (P1 & P2 & P3). destruct (Nat.leb_spec start (lastId s)); [|lia]. apply inv_to with a; auto. cbn. unfold nxt. cbn. rewrite P1. cbn. split; [lia|split; [lia|split; auto]].
  - destruct Pc as (-> & P2 & P3 & P4). exists a. split; [apply binv_ext with s; auto|]. split; [|split; [exact Pu|split; [|exact Sf]]].
    + cbn. unfold nxt. cbn. rewrite app_length. cbn. unfold nxt in *. split; [lia|split; [lia|auto]].
    + eapply inOrder_emit; eauto using read_ok.
  - destruct Pc as (-> & P2 & P3 & P4). apply inv_to with a; auto. cbn. unfold nxt in *. cbn. split; [lia|auto].
  - destruct Pc as (P1 & P2 & P3). destruct (oldest_a _ _ _ B Hold) as [-> Q]. apply inv_to with a; auto. cbn. auto.
  - destruct Pc as (P1 & P2 & P3 & P4). destruct (oldest_some _ _ B P3) as (E1 & E2 & F). rewrite E1. apply inv_to with a; auto. destruct (Nat.eqb_spec a (S en)) as [->|]; cbn; auto.
  - destruct Pc as (P1 & P2 & P3 & P4 & P5). destruct (oldest_some _ _ B P3) as (E1 & E2 & F). rewrite E1, E2. apply inv_to with a; auto. destruct (b_new _ _ B P3) as [N1 N2].
    assert (length (queue (sb s)) <> 0) by (destruct (queue (sb s)); cbn; congruence).
    destruct (Nat.ltb_spec (S en) a); cbn; auto; change (nxt (setAt (PGapRead (S en) (newest (sb s))) s)) with (nxt s).
    + split; [auto|]. split; [lia|]. split; [unfold lastId in *; cbn; lia|]. split; auto. split; auto. lia.
    + split; auto. split; auto. split; auto. lia.
  - destruct Pc as (-> & P2 & P3 & P4 & P5 & P6). exists a. split; [apply binv_ext with s; auto|]. split; [|split; [exact Pu|split; [|exact Sf]]].
    + cbn. unfold nxt. cbn. rewrite app_length. cbn. unfold nxt in *. split; [lia|split; [lia|auto]].
    + eapply inOrder_emit; eauto using read_ok.
  - destruct Pc as (-> & P2 & P3 & P4 & P5 & P6). apply inv_to with a; auto. cbn. unfold nxt in *. cbn. split; [lia|auto].
  - destruct Pc as (P1 & P2 & P3 & P4). destruct (oldest_some _ _ B P2) as (E1 & E2 & F). rewrite E1. apply inv_to with a; auto. destruct (Nat.leb_spec a en); [|lia]. cbn. auto.
  - destruct Pc as (P1 & P2 & P3 & P4). destruct (pop_inv _ _ _ _ B Hpop) as (B' & U & _ & T & T' & _). specialize (P3 T). exists (S a). split; [eapply binv_ext; [..|exact B']; auto|]. split; [|split; [exact Pu|split; [eapply inOrder_ext; [exact O|auto|auto]|exact Sf]]].
    rewrite U. unfold nxt in *. destruct (Nat.ltb_spec a en); cbn; unfold nxt; cbn; rewrite T'; (split; [lia || auto|]).
    + split; [auto|]. split; [intros; lia|auto].
    + split; [intros; lia|auto].
  - destruct Pc as (P1 & P2 & P3). destruct (pop_inv _ _ _ _ B Hpop) as (B' & U & Bk & T & T' & _). specialize (P2 T). exists (S a). split; [eapply binv_ext; [..|exact B']; auto|]. split; [|split; [exact Pu|split; [|exact Sf]]].
    + unfold PInv. cbn. rewrite Ha. unfold nxt in *. cbn. rewrite app_length, T'. cbn. split; auto. split; [intros; lia|auto].
    + rewrite U. eapply inOrder_emit; [exact O| | |auto|auto]; [congruence|]. rewrite Bk. auto.
Qed.

Lemma reach_inv bl g p s : 1 <= cap -> initOk bl g p -> reach flt cap start bl g p s -> Inv s.
Proof.
  intros Hc (I1 & I2 & I3) R. induction R.
  - exists 0. split; [|split; [|split; [exact I1|split; auto]]].
    + constructor; cbn; auto; try congruence; try lia; intuition congruence.
    + cbn. auto.
    + intros k o H. destruct k; discriminate.
  - eapply env_inv; eauto.
  - eapply sub_inv; eauto.
  - eapply skip_inv; eauto.
Qed.
End S.
