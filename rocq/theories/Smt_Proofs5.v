(** Proofs about the sparse Merkle tree, part 5: the walker and the update cache. *)
From Coq Require Import List NArith Bool Arith Lia.
From Verif Require Import Smt_Model Smt_Proofs Smt_Proofs2 Smt_Proofs3 Smt_Proofs4.
Import ListNotations.

(** aligned positions: whole nibbles *)
Definition al (Q : bits) : Prop := exists d, length Q = 4 * d.
Lemma al_nil : al [].
Proof. exists 0. reflexivity. Qed.
Lemma al_snoc P nb : al P -> length nb = 4 -> al (P ++ nb).
Proof. intros [d E] L. exists (S d). rewrite app_length. lia. Qed.
Lemma al_pre P nb : al (P ++ nb) -> length nb = 4 -> al P.
Proof. intros [d E] L. rewrite app_length in E. exists (d - 1). lia. Qed.
Lemma al_dec Q : {al Q} + {~ al Q}.
Proof.
  destruct (Nat.eq_dec (length Q mod 4) 0) as [E|E].
  - left. exists (length Q / 4). pose proof (Nat.div_mod (length Q) 4). lia.
  - right. intros [d X]. rewrite X in E. apply E. rewrite Nat.mul_comm. apply Nat.mod_mul. discriminate.
Qed.
Lemma al_div (Q : bits) d : length Q = 4 * d -> length Q / 4 = d.
Proof. intros ->. rewrite Nat.mul_comm. apply Nat.div_mul. discriminate. Qed.
(** an aligned prefix of [P ++ nb] is [P ++ nb] or a prefix of [P] *)
Lemma al_pre_snoc Q P nb : al Q -> al P -> length nb = 4 -> isPre Q (P ++ nb) = true -> Q = P ++ nb \/ isPre Q P = true.
Proof.
  intros [d1 E1] [d2 E2] L X. destruct (le_lt_dec (length Q) (length P)) as [G|G].
  - right. eapply isPre_two; eauto. apply isPre_app.
  - left. apply isPre_eq; auto. rewrite app_length. lia.
Qed.
(** an aligned prefix of [k] longer than [P] extends the next nibble *)
Lemma al_next Q P nb k : al Q -> al P -> length nb = 4 -> isPre Q k = true -> isPre (P ++ nb) k = true ->
  isPre Q P = true \/ isPre (P ++ nb) Q = true.
Proof.
  intros [d1 E1] [d2 E2] L X Y. destruct (le_lt_dec (length Q) (length P)) as [G|G].
  - left. apply (isPre_two Q P k); auto. eapply isPre_trans; [apply (isPre_app P nb)|exact Y].
  - right. eapply isPre_two; eauto. rewrite app_length. lia.
Qed.
Lemma next_nibble P k : al P -> isPre P k = true -> length k = KL -> length P < KL ->
  exists nb, length nb = 4 /\ isPre (P ++ nb) k = true.
Proof.
  intros [d E] X L G. apply isPre_spec in X as [r ->]. exists (firstn 4 r). rewrite app_length in L.
  split. - apply firstn_length_le. unfold KL in *. lia.
  - rewrite isPre_app_iff. apply isPre_spec. exists (skipn 4 r). symmetry. apply firstn_skipn.
Qed.

Section S1.
Variable H : Type.
Notation leaf := (leaf H).
Notation node := (node H).
Notation under := (under H).
Notation inner := (inner H).
Notation wf := (wf H).
Notation rm := (rm H).
Notation ins := (ins H).
Notation offk := (offk H).

Definition pos (m : list leaf) (Q : bits) : Prop := al Q /\ (Q = [] \/ inner [] m Q = true).

Lemma inner_mono m Q Q' : isPre Q' Q = true -> inner [] m Q = true -> inner [] m Q' = true.
Proof.
  intros E I. pose proof I as I0. apply inner_true in I as [I|(l & _ & ->)].
  - apply inner_len2. pose proof (under_len_sub H m Q' Q E). lia.
  - apply isPre_nil_r in E as ->. auto.
Qed.
Lemma pos_mono m Q Q' : al Q' -> isPre Q' Q = true -> pos m Q -> pos m Q'.
Proof.
  intros A E [_ [-> |I]]; split; auto.
  - left. apply isPre_nil_r; auto.
  - right. eapply inner_mono; eauto.
Qed.
Lemma pos_lt m Q : wf m -> pos m Q -> length Q < KL.
Proof. intros W [_ [-> |I]]; [cbn; unfold KL; lia|]. eapply inner_lt in I; eauto. cbn. unfold KL. lia. Qed.
Lemma pos_dec m Q : {pos m Q} + {~ pos m Q}.
Proof.
  unfold pos. destruct (al_dec Q) as [A|A]; [|right; tauto].
  destruct (bits_dec Q []) as [E|E]; [left; auto|].
  destruct (inner [] m Q) eqn:I; [left; auto|right]. intros [_ [X|X]]; congruence.
Qed.
Lemma pos_off k m m' Q : offk k m m' -> isPre Q k = false -> pos m' Q <-> pos m Q.
Proof.
  intros O E. unfold pos. rewrite (inner_under H [] m m' Q) by (apply O; auto). tauto.
Qed.
Lemma pos_ins l m Q : wf m -> pos m Q -> pos (ins l m) Q.
Proof. intros W [A [E|I]]; split; auto. right. apply inner_ins; auto. Qed.
Lemma len_under_rm k m Q : length (under (rm k m) Q) <= length (under m Q).
Proof. rewrite under_rm. unfold Smt_Proofs.rm. induction (under m Q) as [|a u IH]; cbn; auto. destruct (negb _); cbn; lia. Qed.
Lemma inner_rm k m Q : inner [] (rm k m) Q = true -> inner [] m Q = true.
Proof.
  intros I. pose proof (inner_pos H _ _ _ I) as NE. apply inner_true in I as [I|(l & I & ->)].
  - apply inner_len2. pose proof (len_under_rm k m Q). lia.
  - unfold Smt_Proofs.inner. pose proof (len_under_rm k m []) as L. rewrite I in L. cbn in L.
    destruct (under m []) as [|? [|? ?]]; cbn in L; auto; lia.
Qed.
Lemma pos_rm k m Q : pos (rm k m) Q -> pos m Q.
Proof. intros [A [E|I]]; split; auto. right. eapply inner_rm; eauto. Qed.

(** the stack of ancestors of a position, nearest first *)
Fixpoint stk (G : bits -> bits -> node -> Prop) (P : bits) (st : list node) : Prop :=
  match st with
  | [] => P = []
  | c :: st' => exists P0 nb, P = P0 ++ nb /\ length nb = 4 /\ G P0 nb c /\ stk G P0 st'
  end.
Lemma stk_impl (G G' : bits -> bits -> node -> Prop) X st : forall P, isPre P X = true ->
  (forall P0 nb c, isPre (P0 ++ nb) X = true -> length nb = 4 -> G P0 nb c -> G' P0 nb c) -> stk G P st -> stk G' P st.
Proof.
  induction st as [|c st IH]; intros P E F; cbn [stk]; auto. intros (P0 & nb & -> & L & G0 & S0).
  exists P0, nb. repeat split; auto. apply IH; auto. eapply isPre_trans; [apply isPre_app|exact E].
Qed.
Lemma stk_al G st : forall P, stk G P st -> al P.
Proof.
  induction st as [|c st IH]; intros P; cbn [stk]; [intros ->; apply al_nil|].
  intros (P0 & nb & -> & L & _ & S0). apply al_snoc; eauto.
Qed.

Lemma plookup_premove P Q (ns : list (bits * node)) : plookup Q (premove P ns) = if bits_eqb P Q then None else plookup Q ns.
Proof.
  unfold premove. induction ns as [|[p c] ns IH]; cbn [filter plookup fst]; [destruct (bits_eqb P Q); auto|].
  destruct (bits_eqb P p) eqn:E; cbn [negb plookup].
  - rewrite IH. apply bits_eqb_spec in E as ->. destruct (bits_eqb p Q) eqn:E2; auto.
    destruct (bits_eqb Q p) eqn:E3; auto. apply bits_eqb_spec in E3 as ->. rewrite bits_eqb_refl in E2. discriminate.
  - rewrite IH. destruct (bits_eqb Q p) eqn:E3; auto. apply bits_eqb_spec in E3 as ->. rewrite E. auto.
Qed.
Lemma plookup_put P Q c (ns : list (bits * node)) :
  plookup Q ((P, c) :: premove P ns) = if bits_eqb P Q then Some c else plookup Q ns.
Proof.
  cbn [plookup]. rewrite plookup_premove. destruct (bits_eqb Q P) eqn:E.
  - apply bits_eqb_spec in E as ->. now rewrite bits_eqb_refl.
  - destruct (bits_eqb P Q) eqn:E2; auto. apply bits_eqb_spec in E2 as ->. rewrite bits_eqb_refl in E. discriminate.
Qed.
End S1.

Section S.
Variable H : Type.
Variable hparent : H -> H -> H.
Variable ph : H.
Notation leaf := (leaf H).
Notation node := (node H).
Notation under := (under H).
Notation inner := (inner H).
Notation lslot := (lslot H).
Notation thash := (thash H hparent ph).
Notation wf := (wf H).
Notation rm := (rm H).
Notation ins := (ins H).
Notation offk := (offk H).
Notation slotOk := (slotOk H hparent ph).
Notation nodeOk := (nodeOk H hparent ph).
Notation pend := (pend H hparent ph).
Notation pos := (pos H).
Notation stk := (stk H).
Notation ucache := (ucache H).
Notation walker := (walker H).

Lemma nodeOk_version m ver P c : nodeOk [] m ver P c -> P = [] \/ inner [] m P = true -> nodeVersion c = Some (ver P).
Proof.
  intros OK I. specialize (OK [] ltac:(cbn; lia)). unfold Smt_Proofs.slotOk in OK. rewrite app_nil_r, enc_nil in OK.
  unfold nodeVersion. destruct (inner [] m P) eqn:E.
  - destruct OK as (u & -> & Hv & _). f_equal. auto.
  - destruct I as [-> |I]; [|discriminate]. rewrite bits_eqb_refl in OK. destruct OK as [[-> ->]| ->]; reflexivity.
Qed.
Lemma nodeOk_hash m ver P c : nodeOk [] m ver P c -> P = [] \/ inner [] m P = true -> nodeHash H ph c = thash [] m P.
Proof.
  intros OK I. specialize (OK [] ltac:(cbn; lia)). unfold Smt_Proofs.slotOk in OK. rewrite app_nil_r, enc_nil in OK.
  unfold nodeHash, getHash. destruct (inner [] m P) eqn:E.
  - destruct OK as (u & -> & _). reflexivity.
  - destruct I as [-> |I]; [|discriminate]. rewrite bits_eqb_refl in OK.
    rewrite thash_leaf by auto. unfold hleaf. assert (U : under m [] = []).
    { unfold Smt_Proofs.inner in E. destruct (under m []) as [|? [|? ?]]; auto; discriminate. }
    rewrite U. destruct OK as [[-> _]| ->]; reflexivity.
Qed.

(** ** what one operation does to the cache: nodes at [T] are written, nodes at [D] are dropped. *)
Definition cacheUpd (m : list leaf) (ver old : bits -> N) (v : N) (T D : bits -> Prop) (u u' : ucache) : Prop :=
  uc_version u' = uc_version u /\ uc_root0 u' = uc_root0 u /\ uc_stale_leaf u' = uc_stale_leaf u /\
  (forall Q, T Q -> exists c, plookup Q (uc_nodes u') = Some c /\ nodeOk [] m ver Q c) /\
  (forall Q, D Q -> plookup Q (uc_nodes u') = None) /\
  (forall Q, ~ T Q -> ~ D Q -> plookup Q (uc_nodes u') = plookup Q (uc_nodes u)) /\
  (forall x Q, In (x, Q) (uc_stale_int u') <->
     In (x, Q) (uc_stale_int u) \/ ((T Q \/ D Q) /\ x = old Q /\ x <> 0%N /\ x <> v)).

Definition none : bits -> Prop := fun _ => False.
Definition one (P : bits) : bits -> Prop := fun Q => Q = P.
Definition either (A B : bits -> Prop) : bits -> Prop := fun Q => A Q \/ B Q.

Lemma cacheUpd_refl m ver old v u : cacheUpd m ver old v none none u u.
Proof. unfold cacheUpd, none. repeat split; auto; try tauto. Qed.
Lemma cacheUpd_ext m ver old v T D T' D' u u' : (forall Q, T Q <-> T' Q) -> (forall Q, D Q <-> D' Q) ->
  cacheUpd m ver old v T D u u' -> cacheUpd m ver old v T' D' u u'.
Proof.
  intros ET ED (A & B & C & E1 & E2 & E3 & E4). repeat (split; [assumption|]). repeat split.
  - intros Q X. apply E1, ET, X.
  - intros Q X. apply E2, ED, X.
  - intros Q X Y. apply E3; [rewrite ET|rewrite ED]; auto.
  - intros X. apply E4 in X. rewrite <- ET, <- ED. auto.
  - intros X. apply E4. rewrite ET, ED. auto.
Qed.
Lemma cacheUpd_trans m ver old v T1 D1 T2 D2 u u1 u2 :
  (forall Q, T1 Q \/ D1 Q -> T2 Q \/ D2 Q -> False) -> (forall Q, T1 Q \/ ~ T1 Q) -> (forall Q, D1 Q \/ ~ D1 Q) ->
  cacheUpd m ver old v T1 D1 u u1 -> cacheUpd m ver old v T2 D2 u1 u2 ->
  cacheUpd m ver old v (either T1 T2) (either D1 D2) u u2.
Proof.
  intros DJ d1 d2 (A & B & C & E1 & E2 & E3 & E4) (A' & B' & C' & E1' & E2' & E3' & E4'). unfold either.
  split; [congruence|]. split; [congruence|]. split; [congruence|]. split; [|split; [|split]].
  - intros Q [X|X]; auto. destruct (E1 Q X) as (c & E & OK). exists c. split; auto. rewrite E3'; auto; intros Y; eapply DJ; eauto.
  - intros Q [X|X]; auto. rewrite E3'; auto; intros Y; eapply DJ; eauto.
  - intros Q X Y. rewrite E3' by tauto. apply E3; tauto.
  - intros x Q. rewrite E4', E4. tauto.
Qed.

Lemma put_ok m ver old v w c : nodeOk [] m ver (w_path w) c -> w_stale w = old (w_path w) -> w_version w = v ->
  cacheUpd m ver old v (one (w_path w)) none (w_cache w) (ucPut (markCurrentNodeStale w) (w_path w) c).
Proof.
  intros OK E1 E2. unfold cacheUpd, ucPut, markCurrentNodeStale.
  assert (X : forall (b : bool) A (f : ucache -> A) x y, f (if b then x else y) = if b then f x else f y) by (intros []; auto).
  set (b := negb (w_stale w =? 0)%N && negb (w_stale w =? w_version w)%N).
  assert (Hb : b = true <-> w_stale w <> 0%N /\ w_stale w <> v).
  { unfold b. rewrite andb_true_iff, !negb_true_iff, !N.eqb_neq, E2. tauto. }
  cbn [uc_version uc_root0 uc_nodes uc_stale_int uc_stale_leaf]. rewrite !X. unfold ucPutStaleInt.
  cbn [uc_version uc_root0 uc_nodes uc_stale_int uc_stale_leaf]. unfold one, none.
  split; [destruct b; auto|]. split; [destruct b; auto|]. split; [destruct b; auto|]. split; [|split; [|split]].
  - intros Q ->. exists c. rewrite plookup_put, bits_eqb_refl. auto.
  - tauto.
  - intros Q NE _. rewrite plookup_put. rewrite (proj2 (bits_eqb_neq _ _)) by auto. destruct b; auto.
  - intros x Q. destruct b.
    + cbn [In]. rewrite pair_equal_spec. destruct (proj1 Hb eq_refl) as [N1 N2]. rewrite <- E2.
      split; [intros [[<- <-]|I]; [right|left; auto]|intros [I|[[-> |[]] (-> & _ & _)]]; [right; auto|left; auto]].
      repeat split; auto; congruence.
    + split; [left; auto|intros [I|[[-> |[]] (-> & N1 & N2)]]; auto]. exfalso.
      assert (false = true) by (apply Hb; rewrite E1; auto). discriminate.
Qed.
Lemma del_ok m ver old v w : w_stale w = old (w_path w) -> w_version w = v ->
  cacheUpd m ver old v none (one (w_path w)) (w_cache w) (ucRemove (markCurrentNodeStale w) (w_path w)).
Proof.
  intros E1 E2. unfold cacheUpd, ucRemove, markCurrentNodeStale.
  assert (X : forall (b : bool) A (f : ucache -> A) x y, f (if b then x else y) = if b then f x else f y) by (intros []; auto).
  set (b := negb (w_stale w =? 0)%N && negb (w_stale w =? w_version w)%N).
  assert (Hb : b = true <-> w_stale w <> 0%N /\ w_stale w <> v).
  { unfold b. rewrite andb_true_iff, !negb_true_iff, !N.eqb_neq, E2. tauto. }
  cbn [uc_version uc_root0 uc_nodes uc_stale_int uc_stale_leaf]. rewrite !X. unfold ucPutStaleInt.
  cbn [uc_version uc_root0 uc_nodes uc_stale_int uc_stale_leaf]. unfold one, none.
  split; [destruct b; auto|]. split; [destruct b; auto|]. split; [destruct b; auto|]. split; [|split; [|split]].
  - tauto.
  - intros Q ->. rewrite plookup_premove, bits_eqb_refl. auto.
  - intros Q _ NE. rewrite plookup_premove. rewrite (proj2 (bits_eqb_neq _ _)) by auto. destruct b; auto.
  - intros x Q. destruct b.
    + cbn [In]. rewrite pair_equal_spec. destruct (proj1 Hb eq_refl) as [N1 N2]. rewrite <- E2.
      split; [intros [[<- <-]|I]; [right|left; auto]|intros [I|[[[]| ->] (-> & _ & _)]]; [right; auto|left; auto]].
      repeat split; auto; congruence.
    + split; [left; auto|intros [I|[[[]| ->] (-> & N1 & N2)]]; auto]. exfalso.
      assert (false = true) by (apply Hb; rewrite E1; auto). discriminate.
Qed.

(** ** going up *)
Definition Pend (m : list leaf) (ver old : bits -> N) (P nb : bits) (c : node) : Prop :=
  pend [] m ver P nb c /\ nodeVersion c = Some (old P).

Lemma nodeOk_pend k m m' ver ver' P nb c : offk k m m' -> veroff k ver ver' -> length nb = 4 -> isPre (P ++ nb) k = true ->
  inner [] m (P ++ nb) = true -> inner [] m' (P ++ nb) = true -> nodeOk [] m ver P c -> pend [] m' ver' P nb c.
Proof.
  intros O VO L4 EP I I' OK q Lq. assert (EPk : isPre P k = true) by (eapply isPre_trans; [apply isPre_app|exact EP]).
  destruct (isPre q nb) eqn:Eq.
  - intros NE l X. pose proof (OK q Lq) as S0. unfold Smt_Proofs.slotOk in S0. rewrite (inner_mono H m (P ++ nb)) in S0; auto.
    + destruct S0 as (u & S0 & _). congruence.
    + rewrite isPre_app_iff. auto.
  - apply (slot_move H hparent ph [] k m m' ver ver'); auto.
    + rewrite (onpath P nb); auto. lia.
    + cbn. lia.
    + intros s0 Es. destruct (snoc_cases q) as [-> |(a & b & ->)]; [discriminate|].
      rewrite app_assoc, removelast_snoc. destruct (isPre (P ++ a) k) eqn:Ea.
      * rewrite app_length in Lq. cbn in Lq. rewrite (onpath P nb) in Ea by (auto; lia).
        rewrite (inner_mono H m (P ++ nb)), (inner_mono H m' (P ++ nb)); auto; rewrite isPre_app_iff; auto.
      * apply inner_under. apply O; auto.
Qed.

(** the aligned prefixes of [P] *)
Definition onp (P Q : bits) : Prop := al Q /\ isPre Q P = true.
Lemma onp_dec P Q : onp P Q \/ ~ onp P Q.
Proof. unfold onp. destruct (al_dec Q); [|tauto]. destruct (isPre Q P); [auto|right; intros [_ X]; discriminate]. Qed.

Lemma ascendToRoot_ok m ver old v : wf m -> forall st w key,
  w_stack w = st -> stk (Pend m ver old) (w_path w) st -> nodeOk [] m ver (w_path w) (w_cur w) ->
  (w_path w = [] \/ inner [] m (w_path w) = true) -> w_stale w = old (w_path w) -> w_version w = v ->
  (forall Q, isPre Q (w_path w) = true -> ver Q = v) ->
  exists u', ascendToRoot H hparent ph w key = Some u' /\
    cacheUpd m ver old v (onp (w_path w)) none (ucPutStaleLeaf (w_cache w) key) u'.
Proof.
  intros W.
  assert (G : forall st w, w_stack w = st -> stk (Pend m ver old) (w_path w) st -> nodeOk [] m ver (w_path w) (w_cur w) ->
    (w_path w = [] \/ inner [] m (w_path w) = true) -> w_stale w = old (w_path w) -> w_version w = v ->
    (forall Q, isPre Q (w_path w) = true -> ver Q = v) ->
    exists w', ascend_loop H hparent ph (length st) w = Some w' /\
      cacheUpd m ver old v (onp (w_path w)) none (w_cache w) (ucPut (markCurrentNodeStale w') (w_path w') (w_cur w'))).
  { induction st as [|c st IH]; intros w Es S0 OK I E1 E2 HV; cbn [stk Smt_Proofs5.stk] in S0.
    - exists w. split; [cbn; unfold atRoot; now rewrite S0|].
      eapply cacheUpd_ext; [| |apply (put_ok m ver old v w (w_cur w)); auto]; [|reflexivity].
      intros Q. unfold one, onp. rewrite S0. split; [intros ->; split; [apply al_nil|auto]|intros [_ X]; apply isPre_nil_r; auto].
    - destruct S0 as (P0 & nb & EP & L4 & [PD NV] & S0).
      assert (AP0 : al P0) by (eapply stk_al; eauto).
      assert (NP : w_path w <> []) by (rewrite EP; intros X; apply (f_equal (@length bool)) in X; rewrite app_length in X; cbn in X; lia).
      assert (I1 : inner [] m (P0 ++ nb) = true) by (destruct I as [I|I]; [congruence|now rewrite <- EP]).
      assert (I0 : inner [] m P0 = true) by (eapply inner_mono; [apply (isPre_app P0 nb)|exact I1]).
      cbn [length ascend_loop]. assert (AR : atRoot w = false) by (unfold atRoot; destruct (w_path w); congruence). rewrite AR.
      assert (E3 : pathPop (w_path w) = Some (nb, P0)).
      { assert (X : forall p : bits, p <> [] -> pathPop p = Some (skipn (length p - 4) p, firstn (length p - 4) p)) by (intros []; [congruence|auto]).
        rewrite X, EP, app_length, L4 by auto. replace (length P0 + 4 - 4) with (length P0) by lia.
        rewrite skipn_app, skipn_all, Nat.sub_diag, firstn_app, firstn_all, Nat.sub_diag. cbn [skipn firstn app]. now rewrite app_nil_r. }
      unfold ascend, pop. rewrite Es.
      rewrite E3, NV. cbn [w_cur w_cache w_stack w_path w_stale].
      rewrite (nodeOk_hash m ver (w_path w) (w_cur w)) by auto. rewrite EP, E2.
      destruct (link_ok H hparent ph [] m ver P0 nb c v) as (c' & EL & OK'); auto.
      + cbn. unfold KL. lia.
      + cbn. lia.
      + intros q Eq. eapply inner_mono; [|exact I1]. now rewrite isPre_app_iff.
      + apply HV. rewrite EP. apply isPre_app.
      + apply HV. rewrite EP. apply isPre_refl.
      + rewrite EL. set (u1 := ucPut (markCurrentNodeStale w) (P0 ++ nb) (w_cur w)).
        assert (C1 : cacheUpd m ver old v (one (P0 ++ nb)) none (w_cache w) u1).
        { unfold u1. rewrite <- EP. apply put_ok; auto. }
        destruct (IH (mkW u1 st c' P0 (old P0))) as (w' & EA & C2); cbn [w_cur w_cache w_stack w_path w_stale]; auto.
        * destruct C1 as (V1 & _). unfold w_version in *. cbn [w_cache]. congruence.
        * intros Q X. apply HV. rewrite EP. eapply isPre_trans; [exact X|apply isPre_app].
        * exists w'. split; [exact EA|]. cbn [w_cache w_path] in C2.
          eapply cacheUpd_ext; [| |eapply cacheUpd_trans; [| | |exact C1|exact C2]].
          -- intros Q. unfold either, one, onp. split.
             ++ intros [-> |[A X]]; [split; [apply al_snoc; auto|rewrite isPre_refl; auto]|].
                split; auto. eapply isPre_trans; [exact X|apply isPre_app].
             ++ intros [A X]. destruct (al_pre_snoc Q P0 nb A AP0 L4 X); auto.
          -- intros Q. unfold either, none. tauto.
          -- intros Q [-> |[]] [[_ X]|[]]. apply isPre_len in X. rewrite app_length in X. lia.
          -- intros Q. unfold one. destruct (bits_dec Q (P0 ++ nb)); auto.
          -- intros Q. right. intros []. }
  intros st w key Es S0 OK I E1 E2 HV. unfold ascendToRoot.
  destruct (G st (mkW (ucPutStaleLeaf (w_cache w) key) (w_stack w) (w_cur w) (w_path w) (w_stale w))) as (w' & EA & C);
    cbn [w_cur w_cache w_stack w_path w_stale]; auto.
  - unfold w_version. cbn [w_cache]. rewrite <- E2. unfold w_version. destruct key; reflexivity.
  - cbn [w_stack] in EA |- *. rewrite <- Es in EA. rewrite EA. eexists. split; [reflexivity|]. exact C.
Qed.
End S.
