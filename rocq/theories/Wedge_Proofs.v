(** Proofs about Wedge_Model.v *)
From Coq Require Import ZArith List Bool Lia.
From Verif Require Import Wedge_Model.
Import ListNotations.
Local Open Scope Z_scope.

Definition isOrder (c : cmd) : bool := match c with CWedge | CAddRemove | CRestart => true | _ => false end.

Lemma stopFor_spec s : 1 <= s -> secondCheckpointAfter s (stopFor s).
Proof.
  intros H. unfold stopFor, secondCheckpointAfter, CW. destruct (Z.eqb_spec s 0); [lia|]. cbv zeta.
  pose proof (Z.mod_pos_bound (s + 2 * 150) 150 ltac:(lia)). split; [|lia].
  rewrite Zminus_mod, Z.mod_mod, Z.sub_diag by lia. reflexivity.
Qed.
Lemma secondCheckpoint_unique s m m' : secondCheckpointAfter s m -> secondCheckpointAfter s m' -> m = m'.
Proof.
  unfold secondCheckpointAfter, CW. intros [A B] [A' B'].
  apply Z.mod_divide in A; [|lia]. apply Z.mod_divide in A'; [|lia]. destruct A as [a ->], A' as [b ->]. lia.
Qed.

Lemma applyAll_form n self l : ~ In CInstall l -> forall ch wp, c_ep ch = self ->
  let r := applyAll n self (ch, wp) l in
  c_ep (fst r) = self /\ c_ki (fst r) = c_ki ch /\
  snd r = (if existsb isOrder l then stopFor n else wp) /\
  c_kw (fst r) = (if existsb isOrder l then Some (n, self) else c_kw ch) /\
  (c_ka (fst r) <> None -> c_ka ch <> None \/ existsb isOrder l = true).
Proof.
  unfold applyAll. induction l as [|c l IH]; intros Hn ch wp He; cbn [fold_left existsb].
  - cbn. repeat split; auto.
  - assert (Hc : c <> CInstall) by (intros ->; apply Hn; left; auto).
    assert (Hl : ~ In CInstall l) by (intros X; apply Hn; right; auto).
    specialize (IH Hl).
    assert (K : forall ch' wp', c_ep ch' = self -> c_ki ch' = c_ki ch -> apply1 n self (ch, wp) c = (ch', wp') ->
       (isOrder c = true -> wp' = stopFor n /\ c_kw ch' = Some (n, self)) ->
       (isOrder c = false -> wp' = wp /\ c_kw ch' = c_kw ch /\ c_ka ch' = c_ka ch) ->
       let r := fold_left (apply1 n self) l (apply1 n self (ch, wp) c) in
       c_ep (fst r) = self /\ c_ki (fst r) = c_ki ch /\
       snd r = (if isOrder c || existsb isOrder l then stopFor n else wp) /\
       c_kw (fst r) = (if isOrder c || existsb isOrder l then Some (n, self) else c_kw ch) /\
       (c_ka (fst r) <> None -> c_ka ch <> None \/ isOrder c || existsb isOrder l = true)).
    { intros ch' wp' E1 E2 E3 A B. rewrite E3. destruct (IH ch' wp' E1) as (I1 & I2 & I3 & I4 & I5). cbv zeta in *.
      split; [exact I1|]. split; [rewrite I2; exact E2|]. rewrite I3, I4.
      destruct (isOrder c) eqn:Eo.
      - destruct (A eq_refl) as [-> ->]. cbn [orb]. split; [destruct (existsb isOrder l); reflexivity|].
        split; [destruct (existsb isOrder l); reflexivity|]. intros _. right. reflexivity.
      - destruct (B eq_refl) as (-> & -> & Ea). cbn [orb]. split; [reflexivity|]. split; [reflexivity|]. rewrite <- Ea. exact I5. }
    destruct c; try congruence; unfold apply1 in *.
    all: try (eapply K; [| |reflexivity|..]; cbn [c_ep c_ki c_kw c_ka isOrder]; auto; discriminate).
    + destruct ((wp =? 0) || (wp <? n)) eqn:E; (eapply K; [| |reflexivity|..]; cbn [c_ep c_ki c_kw c_ka isOrder]; auto; discriminate).
Qed.

(** The reference execution: the chain and the stop point after number k, if the cluster is always let go on. *)
Definition opened (k : nat) (s : chain * Z) : chain * Z :=
  let '(ch, pt) := s in if negb (pt =? 0) && (pt =? Z.of_nat k) then (mkC (c_kw ch) (c_ka ch) (c_ki ch) (c_ep ch + 1), 0) else s.
Fixpoint sp (log : Z -> list cmd) (k : nat) : chain * Z :=
  match k with
  | O => (mkC None None None 0, 0)
  | S k' => let o := opened k' (sp log k') in applyAll (Z.of_nat k) (c_ep (fst o)) o (log (Z.of_nat k))
  end.

Section Log.
Context (log : Z -> list cmd) (NI : noInstall log).
Definition ord (n : Z) : bool := existsb isOrder (log n).
Lemma ord_iff n : 1 <= n -> ord n = true <-> ordersStop log n.
Proof.
  intros H. unfold ord, ordersStop. rewrite existsb_exists. split.
  - intros (c & A & B). split; auto. exists c. split; auto. destruct c; cbn in B; try discriminate; auto.
  - intros (_ & c & A & B). exists c. split; auto. destruct B as [X|[X|[X|X]]]; subst c; cbn; auto. destruct (NI _ A).
Qed.

Definition pt (k : nat) : Z := snd (sp log k).
Definition ep (k : nat) : Z := c_ep (fst (sp log k)).
Definition kw (k : nat) : option (Z * Z) := c_kw (fst (sp log k)).
Definition stp (k : nat) : bool := negb (pt k =? 0) && (pt k =? Z.of_nat k).

Lemma sp_step k :
  ep (S k) = (if stp k then ep k + 1 else ep k) /\
  pt (S k) = (if ord (Z.of_nat (S k)) then stopFor (Z.of_nat (S k)) else if stp k then 0 else pt k) /\
  kw (S k) = (if ord (Z.of_nat (S k)) then Some (Z.of_nat (S k), ep (S k)) else kw k).
Proof.
  unfold ep, pt, kw, stp, ord, pt. cbn [sp]. destruct (sp log k) as [ch p] eqn:E. cbn [fst snd]. unfold opened.
  destruct (negb (p =? 0) && (p =? Z.of_nat k)) eqn:Es; cbn [fst snd c_ep].
  - destruct (applyAll_form (Z.of_nat (S k)) (c_ep ch + 1) (log (Z.of_nat (S k))) (NI _) (mkC (c_kw ch) (c_ka ch) (c_ki ch) (c_ep ch + 1)) 0 eq_refl) as (A & B & C & D & F).
    cbv zeta in *. rewrite A, C, D. auto.
  - destruct (applyAll_form (Z.of_nat (S k)) (c_ep ch) (log (Z.of_nat (S k))) (NI _) ch p eq_refl) as (A & B & C & D & F).
    cbv zeta in *. rewrite A, C, D. auto.
Qed.

Lemma sp_inv k :
  0 <= ep k /\
  match kw k with
  | None => pt k = 0 /\ (forall n, 1 <= n <= Z.of_nat k -> ord n = false)
  | Some (s, e) => 1 <= s <= Z.of_nat k /\ ord s = true /\ (forall n, s < n <= Z.of_nat k -> ord n = false) /\ 0 <= e <= ep k /\
                   (e = ep k -> pt k = stopFor s /\ Z.of_nat k <= pt k) /\ (e < ep k -> pt k = 0)
  end.
Proof.
  induction k as [|k IH].
  - unfold ep, kw, pt. cbn. split; [lia|]. split; auto. intros. lia.
  - destruct (sp_step k) as (E1 & E2 & E3). destruct IH as (I0 & I). rewrite E3.
    assert (Ep : 0 <= ep (S k)) by (rewrite E1; destruct (stp k); lia). split; [exact Ep|].
    destruct (ord (Z.of_nat (S k))) eqn:Eo.
    + split; [lia|]. split; [exact Eo|]. split; [intros; lia|]. split; [lia|]. split; [|lia]. intros _. split; [exact E2|].
      rewrite E2. destruct (stopFor_spec (Z.of_nat (S k)) ltac:(lia)) as [_ X]. unfold CW in X. lia.
    + destruct (kw k) as [[s e]|] eqn:Ek.
      * destruct I as (A & B & C & D & F & G). split; [lia|]. split; [exact B|]. split.
        { intros n Hn. destruct (Z.eq_dec n (Z.of_nat (S k))) as [->|Ne]; [exact Eo|]. apply C. lia. }
        split; [rewrite E1; destruct (stp k); lia|]. unfold stp in *. destruct (negb (pt k =? 0) && (pt k =? Z.of_nat k)) eqn:Es.
        { split; [rewrite E1; lia|]. intros _. exact E2. }
        { split.
          - rewrite E1, E2. intros X. destruct (F X) as [F1 F2]. split; [exact F1|].
            destruct (Z.eqb_spec (pt k) 0) as [Z0|]; [exfalso; destruct (stopFor_spec s ltac:(lia)) as [_ Y]; unfold CW in Y; lia|].
            destruct (Z.eqb_spec (pt k) (Z.of_nat k)); [discriminate|]. lia.
          - rewrite E1, E2. exact G. }
      * destruct I as [A B]. unfold stp in *. rewrite A in *. cbn in E2. split; [exact E2|]. intros n Hn.
        destruct (Z.eq_dec n (Z.of_nat (S k))) as [->|Ne]; [exact Eo|]. apply B. lia.
Qed.

Lemma pt_range k : pt k = 0 \/ (Z.of_nat k <= pt k /\ 0 < pt k).
Proof.
  destruct (sp_inv k) as [_ I]. destruct (kw k) as [[s e]|]; [|left; apply I].
  destruct I as (A & B & C & D & F & G). destruct (Z.eq_dec e (ep k)) as [X|X].
  - right. destruct (F X). lia.
  - left. apply G. lia.
Qed.

Lemma ep_mono j k : (j <= k)%nat -> ep j <= ep k.
Proof. induction 1 as [|k H IH]; [lia|]. destruct (sp_step k) as (E & _). rewrite E. destruct (stp k); lia. Qed.
Lemma ep_stop j k : (j < k)%nat -> stp j = true -> ep j + 1 <= ep k.
Proof. intros H X. destruct (sp_step j) as (E & _). rewrite X in E. rewrite <- E. apply ep_mono. lia. Qed.

Lemma stp_iff k : stp k = true <-> stopPoint log (Z.of_nat k).
Proof.
  unfold stp. rewrite andb_true_iff, negb_true_iff, Z.eqb_neq, Z.eqb_eq. split.
  - intros [H0 H1]. destruct (sp_inv k) as [_ I]. destruct (kw k) as [[s e]|]; [|destruct I; congruence].
    destruct I as (A & B & C & D & F & G). destruct (Z.eq_dec e (ep k)) as [X|X]; [|rewrite G in H0 by lia; congruence].
    destruct (F X) as [F1 F2]. exists s. split; [apply ord_iff; [lia|exact B]|]. split; [lia|]. split.
    + rewrite <- H1, F1. apply stopFor_spec. lia.
    + intros s' Hs' O. apply ord_iff in O; [|lia]. rewrite C in O by lia. discriminate.
  - intros (s & O & Hs & S2 & L). assert (S1 : 1 <= s) by apply O. apply ord_iff in O; [|lia].
    assert (Em : stopFor s = Z.of_nat k) by (eapply secondCheckpoint_unique; [apply stopFor_spec; exact S1|exact S2]).
    assert (K : forall j, (Z.to_nat s <= j <= k)%nat -> pt j = stopFor s).
    { induction j as [|j IH]; [lia|]. intros Hj. destruct (sp_step j) as (_ & E2 & _).
      destruct (Z.eq_dec (Z.of_nat (S j)) s) as [X|X].
      - rewrite E2, X, O. reflexivity.
      - rewrite E2. destruct (ord (Z.of_nat (S j))) eqn:Eo.
        + exfalso. apply (L (Z.of_nat (S j))); [lia|]. apply ord_iff; [lia|exact Eo].
        + unfold stp. rewrite IH by lia. rewrite Em. destruct (Z.eqb_spec (Z.of_nat k) (Z.of_nat j)); [lia|]. rewrite andb_false_r. reflexivity. }
    rewrite K by lia. rewrite Em. split; [lia|reflexivity].
Qed.
Lemma stp_mod k : stp k = true -> Z.of_nat k mod CW = 0.
Proof. intros H. apply stp_iff in H. destruct H as (s & _ & _ & [X _] & _). exact X. Qed.

(** * Invariant of a replica *)
Definition okChain (k : nat) (c : chain) : Prop :=
  c_ki c = None /\ (c_kw c = None -> c_ka c = None) /\
  (c_kw c = kw k \/ (c_kw c = Some (0, 0) /\ exists s e, kw k = Some (s, e) /\ e < c_ep c)).
Definition passed (r : rep) (m : nat) : Prop := Z.of_nat m < r_le r \/ (Z.of_nat m = r_le r /\ r_wp r = 0).
Record Inv (r : rep) : Prop := {
  i_le : 0 <= r_lst r <= r_le r;
  i_mod : r_lst r mod CW = 0;
  i_st : (c_ep (r_ch r) = ep (Z.to_nat (r_le r)) /\ r_wp r = pt (Z.to_nat (r_le r))) \/
         (stp (Z.to_nat (r_le r)) = true /\ c_ep (r_ch r) = ep (Z.to_nat (r_le r)) + 1 /\ r_wp r = 0);
  i_self : r_self r = c_ep (r_ch r);
  i_ch : okChain (Z.to_nat (r_le r)) (r_ch r);
  i_wd : r_wd r = true -> r_wp r = r_le r /\ r_wp r <> 0;
  i_acc : forall n m, In n (r_acc r) -> Z.of_nat m < n -> stp m = true -> passed r m;
  i_snap : forall n c, In (n, c) (r_snap r) -> 0 < n <= r_le r /\ n mod CW = 0 /\ c_ep c = ep (Z.to_nat n) /\ okChain (Z.to_nat n) c
}.

Lemma stp0 : stp 0 = false. Proof. reflexivity. Qed.
Lemma inv_init : Inv rep0.
Proof.
  constructor; cbn.
  - lia.
  - reflexivity.
  - left. split; reflexivity.
  - reflexivity.
  - split; [reflexivity|]. split; [reflexivity|]. left. reflexivity.
  - discriminate.
  - intros n m [].
  - intros n c [].
Qed.

Lemma ofto z : 0 <= z -> Z.of_nat (Z.to_nat z) = z. Proof. lia. Qed.

(** If the replica's stop point is set it is the reference one. *)
Lemma wp_pt r : Inv r -> r_wp r <> 0 -> r_wp r = pt (Z.to_nat (r_le r)) /\ c_ep (r_ch r) = ep (Z.to_nat (r_le r)) /\ r_le r <= r_wp r.
Proof.
  intros I H. pose proof (i_le r I). destruct (i_st r I) as [[A B]|(A & B & C)]; [|congruence]. split; [exact B|]. split; [exact A|].
  rewrite B in *. destruct (pt_range (Z.to_nat (r_le r))); lia.
Qed.

Lemma next_stop (r : rep) n m : Inv r -> n <= r_lst r + WW -> refused r n = false -> Z.of_nat m < n -> stp m = true -> passed r m.
Proof.
  intros I Hn Hr Hm Hs. pose proof (i_le r I) as L. unfold passed.
  destruct (Z.lt_ge_cases (Z.of_nat m) (r_le r)) as [|G]; [left; auto|]. right.
  unfold refused in Hr. apply orb_false_iff in Hr. destruct Hr as [Hw Hp].
  assert (Pm : pt m = Z.of_nat m /\ pt m <> 0). { unfold stp in Hs. apply andb_true_iff in Hs. destruct Hs as [X Y]. apply negb_true_iff, Z.eqb_neq in X. apply Z.eqb_eq in Y. auto. }
  destruct (proj1 (stp_iff m) Hs) as (s & O & Sm & S2 & Lst).
  destruct (Z.le_gt_cases s (r_le r)) as [C|C].
  - (* the order was executed *)
    destruct (i_st r I) as [[A B]|(A & B & D)].
    + (* closed: the stop point is m *)
      assert (Pk : pt (Z.to_nat (r_le r)) = Z.of_nat m).
      { assert (Em : stopFor s = Z.of_nat m) by (eapply secondCheckpoint_unique; [apply stopFor_spec; apply O|exact S2]).
        assert (S1 : 1 <= s) by apply O. apply ord_iff in O; [|lia].
        assert (K : forall j, (Z.to_nat s <= j <= m)%nat -> pt j = Z.of_nat m).
        { induction j as [|j IH]; [lia|]. intros Hj. destruct (sp_step j) as (_ & E2 & _).
          destruct (Z.eq_dec (Z.of_nat (S j)) s) as [X|X]; [rewrite E2, X, O; exact Em|].
          rewrite E2. destruct (ord (Z.of_nat (S j))) eqn:Eo.
          - exfalso. apply (Lst (Z.of_nat (S j))); [lia|]. apply ord_iff; [lia|exact Eo].
          - unfold stp. rewrite IH by lia. destruct (Z.eqb_spec (Z.of_nat m) (Z.of_nat j)); [lia|]. rewrite andb_false_r. reflexivity. }
        apply K. lia. }
      rewrite B, Pk in Hp. destruct (Z.eqb_spec (Z.of_nat m) 0); [lia|]. cbn in Hp. apply Z.ltb_ge in Hp. lia.
    + (* open at le: then le is a stop point after which m needs an order *)
      destruct (Z.eq_dec (Z.of_nat m) (r_le r)) as [E|E]; [split; [exact E|exact D]|]. exfalso.
      destruct (proj1 (stp_iff _) A) as (s1 & O1 & Sm1 & S21 & Lst1). rewrite ofto in * by lia.
      assert (s = s1). { destruct (Z.lt_trichotomy s s1) as [X|[X|X]]; auto; exfalso; [apply (Lst s1); [lia|exact O1]|apply (Lst1 s); [lia|exact O]]. }
      subst s1. apply E. eapply secondCheckpoint_unique; eauto.
  - (* not executed: the window ends at or before its stop point *)
    exfalso. pose proof (i_mod r I) as M. destruct S2 as [S2a S2b]. unfold CW, WW in *.
    apply Z.mod_divide in M; [|lia]. apply Z.mod_divide in S2a; [|lia]. destruct M as [a Ha], S2a as [b Hb]. lia.
Qed.

Lemma inv_accept r n r' : Inv r -> accept r n = Some r' -> Inv r'.
Proof.
  intros I H. unfold accept in H. destruct ((r_lst r <? n) && (n <=? r_lst r + WW) && negb (refused r n)) eqn:E; [|discriminate].
  apply andb_true_iff in E. destruct E as [E Er]. apply andb_true_iff in E. destruct E as [E1 E2]. apply Z.leb_le in E2. apply negb_true_iff in Er.
  inversion H; subst. destruct I as [A B C D E' F G J]. constructor; cbn; auto.
  intros n' m [<-|Hn] Hm Hs; [|apply (G n' m Hn Hm Hs)]. apply (next_stop r n m); auto. constructor; auto.
Qed.

Lemma to_nat_S z : 0 <= z -> Z.to_nat (z + 1) = S (Z.to_nat z). Proof. lia. Qed.

Local Opaque Z.of_nat.
Lemma exec_go r r' : Inv r -> exec log r = Some r' -> r_le r' = r_le r + 1 /\ Inv r' /\ (r_wd r' = true <-> stp (Z.to_nat (r_le r')) = true).
Proof.
  intros I H. unfold exec in H. destruct ((r_le r <? r_lst r + WW) && negb (r_wd r) && existsb (Z.eqb (r_le r + 1)) (r_acc r)) eqn:E; [|discriminate].
  apply andb_true_iff in E. destruct E as [E Ea]. apply andb_true_iff in E. destruct E as [E1 E2]. apply negb_true_iff in E2.
  apply existsb_exists in Ea. destruct Ea as (n & Hin & En). apply Z.eqb_eq in En. subst n.
  pose proof (i_le r I) as L. pose proof (i_st r I) as Ist. destruct (i_ch r I) as (O1 & O2 & O3). remember (Z.to_nat (r_le r)) as k eqn:Hk. assert (Ek : r_le r = Z.of_nat k) by lia.
  assert (Pre : c_ep (r_ch r) = ep (S k) /\ r_wp r = (if stp k then 0 else pt k)).
  { destruct (sp_step k) as (S1 & _). destruct (stp k) eqn:Es.
    - destruct (i_acc r I _ k Hin ltac:(lia) Es) as [X|[X Y]]; [lia|].
      destruct Ist as [[A B]|(A & B & C)].
      + exfalso. unfold stp in Es. rewrite <- B, Y in Es. discriminate.
      + rewrite S1. auto.
    - destruct Ist as [[A B]|(A & B & C)]; [|congruence]. rewrite S1. auto. }
  destruct Pre as [P1 P2]. destruct (sp_step k) as (S1 & S2 & S3).
  destruct (applyAll (r_le r + 1) (r_self r) (r_ch r, r_wp r) (log (r_le r + 1))) as [ch wp] eqn:Ea.
  pose proof (applyAll_form (r_le r + 1) (r_self r) (log (r_le r + 1)) (NI _) (r_ch r) (r_wp r) (eq_sym (i_self r I))) as (F1 & F2 & F3 & F4 & F5).
  cbv zeta in *. rewrite Ea in *. cbn [fst snd] in *. fold (ord (r_le r + 1)) in *.
  assert (En1 : r_le r + 1 = Z.of_nat (S k)) by lia.
  rewrite En1 in Ea, F3, F4, F5, H.
  assert (W : wp = pt (S k)). { rewrite F3, S2. destruct (ord (Z.of_nat (S k))); [reflexivity|]. exact P2. }
  assert (Ec : c_ep ch = ep (S k)) by (rewrite F1, (i_self r I); exact P1).
  assert (Oc : okChain (S k) ch).
  { split; [rewrite F2; exact O1|]. split.
    - intros N0. rewrite F4 in N0. destruct (ord (Z.of_nat (S k))) eqn:Eo; [discriminate|]. destruct (c_ka ch) eqn:Eka; auto. exfalso.
      destruct (F5 ltac:(discriminate)) as [X|X]; [apply X, O2, N0|]. congruence.
    - rewrite F4, S3, F1. destruct (ord (Z.of_nat (S k))); [left; rewrite (i_self r I), P1; reflexivity|].
      destruct O3 as [O3|(O3 & s & e & O4 & O5)]; [left; exact O3|]. right. split; [exact O3|]. exists s, e. split; [exact O4|]. rewrite (i_self r I). exact O5. }
  injection H as <-. cbn [r_le r_wd]. split; [lia|].
  assert (Stp : stp (S k) = (wp =? Z.of_nat (S k))). { unfold stp. rewrite <- W. destruct (Z.eqb_spec wp 0) as [->|]; [|reflexivity]. symmetry. apply Z.eqb_neq. lia. }
  split; [|rewrite Nat2Z.id, Stp; tauto].
  constructor; cbn [r_le r_lst r_acc r_ch r_snap r_self r_wp r_wd]; rewrite ?Nat2Z.id.
  - lia.
  - apply I.
  - left. split; [exact Ec|exact W].
  - rewrite F1. reflexivity.
  - exact Oc.
  - intros X. apply Z.eqb_eq in X. split; [exact X|lia].
  - intros n m Hn Hm Hs. left. cbn [r_le]. destruct (i_acc r I n m Hn Hm Hs) as [X|[X _]]; lia.
  - intros n c Hin'. assert (K : In (n, c) (r_snap r) -> 0 < n <= Z.of_nat (S k) /\ n mod CW = 0 /\ c_ep c = ep (Z.to_nat n) /\ okChain (Z.to_nat n) c).
    { intros X. destruct (i_snap r I n c X) as (Y1 & Y2 & Y3). split; [lia|]. auto. }
    destruct (Z.of_nat (S k) mod CW =? 0) eqn:Em; [|apply K, Hin']. destruct Hin' as [Hin'|Hin']; [|apply K, Hin'].
    inversion Hin'; subst n c. rewrite Nat2Z.id. apply Z.eqb_eq in Em. repeat split; auto; try lia; apply Oc.
Qed.

Lemma inv_stable r n r' : Inv r -> stable r n = Some r' -> Inv r'.
Proof.
  intros I H. unfold stable in H. destruct ((r_lst r <? n) && (n <=? r_le r) && (n mod CW =? 0)) eqn:E; [|discriminate].
  apply andb_true_iff in E. destruct E as [E E3]. apply andb_true_iff in E. destruct E as [E1 E2]. apply Z.ltb_lt in E1. apply Z.leb_le in E2. apply Z.eqb_eq in E3.
  inversion H; subst. pose proof (wp_pt r I) as W. destruct I as [A B C D E' F G J]. constructor; cbn; auto; try lia.
  intros X. apply orb_true_iff in X. destruct X as [X|X]; [auto|]. apply andb_true_iff in X. destruct X as [X1 X2]. apply negb_true_iff, Z.eqb_neq in X1.
  apply Z.eqb_eq in X2. destruct (W X1) as (_ & _ & W3). split; [lia|exact X1].
Qed.

Lemma inv_wd_stp r : Inv r -> r_wd r = true -> stp (Z.to_nat (r_le r)) = true /\ c_ep (r_ch r) = ep (Z.to_nat (r_le r)) /\ r_wp r = r_le r.
Proof.
  intros I H. destruct (i_wd r I H) as [A B]. destruct (wp_pt r I B) as (C & D & _). pose proof (i_le r I). split; [|auto].
  unfold stp. rewrite <- C, A, ofto by lia. rewrite Z.eqb_refl, andb_true_r. apply negb_true_iff, Z.eqb_neq. lia.
Qed.

Lemma open_chain k c e' : okChain k c -> c_ep c <= e' -> okChain k (mkC (c_kw c) (c_ka c) (c_ki c) e').
Proof. intros (A & B & C) H. split; [exact A|]. split; [exact B|]. cbn. destruct C as [C|(C & s & e & D & F)]; [left; exact C|]. right. split; [exact C|]. exists s, e. split; [exact D|lia]. Qed.

Lemma inv_open r : Inv r -> r_wd r = true ->
  Inv (mkR (r_le r) (r_lst r) (r_acc r) (mkC (c_kw (r_ch r)) (c_ka (r_ch r)) (c_ki (r_ch r)) (c_ep (r_ch r) + 1)) (r_snap r) (c_ep (r_ch r) + 1) 0 false).
Proof.
  intros I H. destruct (inv_wd_stp r I H) as (A & B & C). destruct (i_wd r I H) as [_ N0].
  constructor; cbn [r_le r_lst r_acc r_ch r_snap r_self r_wp r_wd c_ep].
  - exact (i_le r I).
  - exact (i_mod r I).
  - right. split; [exact A|]. split; [lia|reflexivity].
  - reflexivity.
  - apply open_chain; [exact (i_ch r I)|lia].
  - discriminate.
  - intros n m Hn Hm Hs. destruct (i_acc r I n m Hn Hm Hs) as [X|[X Y]]; [left; exact X|congruence].
  - exact (i_snap r I).
Qed.

Lemma inv_unwedge r r' : Inv r -> unwedge r = Some r' -> Inv r'.
Proof.
  intros I H. unfold unwedge in H. destruct (r_wd r) eqn:E; [|discriminate]. inversion H; subst. rewrite (i_self r I). apply inv_open; auto.
Qed.

(** What a starting replica derives from its chain. *)
Lemma wedgeEvent_closed k c : okChain k c -> c_ep c = ep k -> wedgeEvent c (Z.of_nat k) = (pt k, stp k).
Proof.
  intros (A & B & C) E. unfold wedgeEvent. destruct (sp_inv k) as [_ I].
  assert (Z0 : pt k = 0 -> (pt k, stp k) = (0, false)) by (intros X; unfold stp; rewrite X; reflexivity).
  destruct C as [C|(C & s & e & D & F)].
  - rewrite C. destruct (kw k) as [[s e]|]; [|rewrite Z0 by apply I; reflexivity].
    destruct I as (I1 & I2 & I3 & I4 & I5 & I6). destruct (Z.eqb_spec s 0); [lia|]. rewrite E. destruct (Z.eqb_spec e (ep k)) as [X|X].
    + destruct (I5 X) as [Y1 Y2]. unfold stp. rewrite Y1. f_equal. destruct (Z.eqb_spec (stopFor s) 0) as [Y|]; [|reflexivity].
      destruct (stopFor_spec s ltac:(lia)) as [_ Q]. unfold CW in Q. lia.
    + rewrite Z0; [reflexivity|]. apply I6. lia.
  - rewrite C. cbn. rewrite D in I. rewrite Z0; [reflexivity|]. apply I. lia.
Qed.
Lemma wedgeEvent_open k c : okChain k c -> c_ep c = ep k + 1 -> wedgeEvent c (Z.of_nat k) = (0, false).
Proof.
  intros (A & B & C) E. unfold wedgeEvent. destruct (sp_inv k) as [_ I].
  destruct C as [C|(C & _)]; rewrite C; [|reflexivity]. destruct (kw k) as [[s e]|]; [|reflexivity].
  destruct I as (I1 & I2 & I3 & I4 & I5 & I6). destruct (Z.eqb_spec s 0); [lia|]. destruct (Z.eqb_spec e (c_ep c)); [lia|reflexivity].
Qed.

Lemma start_form r : Inv r -> start r false =
  mkR (r_le r) (r_lst r) (r_acc r) (r_ch r) (r_snap r) (r_self r) (r_wp r) (stp (Z.to_nat (r_le r)) && negb (r_wp r =? 0)).
Proof.
  intros I. unfold start. pose proof (i_le r I) as L. rewrite (i_self r I). destruct (i_st r I) as [[A B]|(A & B & C)].
  - pose proof (wedgeEvent_closed _ _ (i_ch r I) A) as W. rewrite ofto in W by lia. rewrite W, B. f_equal.
    unfold stp. destruct (pt (Z.to_nat (r_le r)) =? 0); [reflexivity|]. cbn. rewrite andb_true_r. reflexivity.
  - pose proof (wedgeEvent_open _ _ (i_ch r I) B) as W. rewrite ofto in W by lia. rewrite W, C. rewrite andb_false_r. reflexivity.
Qed.
Lemma inv_start r : Inv r -> Inv (start r false).
Proof.
  intros I. rewrite start_form by exact I. pose proof (i_le r I) as L. pose proof (wp_pt r I) as W. destruct I as [A B C D E' F G J]. constructor; cbn; auto.
  intros X. apply andb_true_iff in X. destruct X as [X Y]. apply negb_true_iff, Z.eqb_neq in Y. destruct (W Y) as (W1 & _). split; [|exact Y].
  unfold stp in X. rewrite <- W1 in X. apply andb_true_iff in X. destruct X as [_ X]. apply Z.eqb_eq in X. lia.
Qed.
Lemma inv_unwedgeRestart r r' : Inv r -> unwedgeRestart r 0 = Some r' -> Inv r'.
Proof.
  intros I H. unfold unwedgeRestart in H. destruct (r_wd r) eqn:E; [|discriminate]. inversion H; subst; clear H. cbn [startNew].
  pose proof (inv_open r I E) as O. destruct (inv_wd_stp r I E) as (A & B & C). pose proof (i_le r I) as L.
  unfold start. pose proof (wedgeEvent_open _ _ (i_ch _ O)) as W. cbn [r_le r_ch c_ep] in W. rewrite ofto in W by lia. rewrite W by lia. exact O.
Qed.

Lemma ch_ge r : Inv r -> ep (Z.to_nat (r_le r)) <= c_ep (r_ch r). Proof. intros I. destruct (i_st r I) as [[A _]|(_ & A & _)]; lia. Qed.

Lemma inv_transfer r n c r' : Inv r -> 0 < n -> n mod CW = 0 -> c_ep c = ep (Z.to_nat n) -> okChain (Z.to_nat n) c ->
  (forall s e, c_kw c = Some (s, e) -> e = c_ep c -> r_self r = c_ep c) ->
  transfer r n c = Some r' -> Inv r' /\ r_le r' = n /\ r_wp r' = pt (Z.to_nat n).
Proof.
  intros I Hn Mn Ec Ok Mild H. unfold transfer in H. destruct (Z.ltb_spec (r_le r) n) as [Hlt|]; [|discriminate].
  destruct (c_ep c <? r_self r) eqn:Eg; [discriminate|]. apply Z.ltb_ge in Eg.
  pose proof (i_le r I) as L. set (k := Z.to_nat n) in *. assert (Ek : n = Z.of_nat k) by lia.
  assert (Hrk : (Z.to_nat (r_le r) < k)%nat) by lia.
  destruct Ok as (O1 & O2 & O3).
  assert (R : stInstall c (stWedge c (stAddRemove n c (stInstall c (r_self r, r_wp r, r_wd r)))) = (c_ep c, pt k, false)).
  { unfold stInstall. rewrite O1. destruct (sp_inv k) as [_ Ik]. destruct (sp_inv (Z.to_nat (r_le r))) as [_ Ir].
    assert (WD : forall s e, c_kw c = Some (s, e) -> e = c_ep c -> r_wd r = false).
    { intros s e K1 K2. destruct (r_wd r) eqn:Ew; auto. exfalso. specialize (Mild s e K1 K2). destruct (inv_wd_stp r I Ew) as (A & B & _).
      pose proof (ep_stop _ _ Hrk A). rewrite (i_self r I) in Mild. lia. }
    destruct (c_kw c) as [[s e]|] eqn:Ekw.
    - destruct (Z.eq_dec e (c_ep c)) as [Ee|Ee].
      + (* an order of the epoch, known *)
        specialize (Mild s e eq_refl Ee). rewrite (WD s e eq_refl Ee).
        assert (SA : stAddRemove n c (r_self r, r_wp r, false) = (r_self r, r_wp r, false)).
        { unfold stAddRemove. destruct (c_ka c) as [[sa ea]|]; [|reflexivity]. destruct (ea <? r_self r); [reflexivity|].
          destruct ((r_self r =? ea) && (r_self r =? c_ep c) && (n <? stopFor sa)); [reflexivity|]. rewrite Mild, Z.ltb_irrefl. reflexivity. }
        rewrite SA. unfold stWedge. rewrite Ekw, Mild, Ee, Z.eqb_refl. cbn [andb]. f_equal. f_equal.
        destruct O3 as [O3|(O3 & s' & e' & O4 & O5)].
        * rewrite <- O3 in Ik. destruct Ik as (_ & _ & _ & _ & I5 & _). symmetry. apply I5. lia.
        * exfalso. inversion O3; subst s e. rewrite O4 in Ik. destruct Ik as (_ & _ & _ & I4 & _). lia.
      + (* an older order: the stop point is cleared *)
        assert (Le : e < c_ep c /\ pt k = 0).
        { destruct O3 as [O3|(O3 & s' & e' & O4 & O5)].
          - rewrite <- O3 in Ik. destruct Ik as (_ & _ & _ & I4 & _ & I6). split; [lia|]. apply I6. lia.
          - rewrite O4 in Ik. destruct Ik as (_ & _ & _ & I4 & _ & I6). inversion O3; subst s e. split; [lia|]. apply I6. lia. }
        destruct Le as [Le P0].
        destruct (stAddRemove n c (r_self r, r_wp r, r_wd r)) as [[self wp] wd] eqn:SA.
        assert (X : self = r_self r /\ (wp = 0 -> wd = false)).
        { assert (Q : r_wp r = 0 -> r_wd r = false). { intros Q. destruct (r_wd r) eqn:Ew; auto. destruct (i_wd r I Ew). congruence. }
          unfold stAddRemove in SA. destruct (c_ka c) as [[sa ea]|]; [|injection SA as <- <- <-; auto].
          destruct (ea <? r_self r); [injection SA as <- <- <-; auto|].
          destruct ((r_self r =? ea) && (r_self r =? c_ep c) && (n <? stopFor sa)); [injection SA as <- <- <-; auto|].
          destruct (Z.ltb_spec (r_self r) (c_ep c)) as [Lt|]; injection SA as <- <- <-; auto. split; auto.
          intros Z0. destruct (r_wd r) eqn:Ew; auto. exfalso. destruct (inv_wd_stp r I Ew) as (A & _ & _).
          pose proof (stp_mod _ A) as M1. rewrite ofto in M1 by lia. assert (r_le r <> 0) by (intros Y; rewrite Y in A; discriminate).
          change (stopFor (n - 2 * CW) = 0) in Z0. unfold stopFor in Z0. destruct (Z.eqb_spec (n - 2 * CW) 0) as [Y|Y].
          - destruct (proj1 (stp_iff _) A) as (s0 & (O6 & _) & O7 & [_ O8] & _). rewrite ofto in * by lia. unfold CW in *.
            apply Z.mod_divide in M1; [|lia]. destruct M1 as [a Ha].
            (* s0 + 150 < le < n = 300 *) assert (a = 1) by lia. subst a. lia.
          - cbv zeta in Z0.
            replace (n - 2 * CW + 2 * CW) with n in Z0 by lia. rewrite Mn in Z0. lia. }
        destruct X as [-> X]. unfold stWedge. rewrite Ekw.
        destruct ((r_self r =? e) && (r_self r =? c_ep c)) eqn:Eb.
        { apply andb_true_iff in Eb. destruct Eb as [B1 B2]. apply Z.eqb_eq in B1. apply Z.eqb_eq in B2. congruence. }
        destruct (Z.ltb_spec e (c_ep c)); [|lia]. rewrite P0. destruct (Z.eqb_spec wp 0) as [->|]; cbn; [rewrite X by reflexivity; reflexivity|reflexivity].
    - (* no order so far *)
      destruct O3 as [O3|(O3 & _)]; [|congruence]. rewrite <- O3 in Ik. destruct Ik as [Pk Nk].
      assert (Ka : c_ka c = None) by (apply O2; reflexivity). unfold stAddRemove, stWedge. rewrite Ka, Ekw.
      assert (NoStp : forall j, (j <= k)%nat -> stp j = false).
      { intros j Hj. destruct (stp j) eqn:Ej; auto. exfalso. destruct (proj1 (stp_iff _) Ej) as (s0 & O6 & O7 & _). assert (1 <= s0) by apply O6.
        apply ord_iff in O6; [|lia]. rewrite Nk in O6 by lia. discriminate. }
      assert (Pj : forall j, (j <= k)%nat -> pt j = 0 /\ ep j = 0).
      { induction j as [|j IH]; intros Hj; [split; reflexivity|]. destruct (sp_step j) as (Q1 & Q2 & _). rewrite Q1, Q2.
        rewrite Nk by lia. rewrite NoStp by lia. apply IH. lia. }
      destruct (i_st r I) as [[A B]|(A & _)]; [|rewrite NoStp in A by lia; discriminate].
      destruct (Pj (Z.to_nat (r_le r)) ltac:(lia)) as [Q1 Q2]. destruct (Pj k ltac:(lia)) as [Q3 Q4].
      assert (Wd : r_wd r = false). { destruct (r_wd r) eqn:Ew; auto. destruct (i_wd r I Ew). congruence. }
      rewrite (i_self r I), A, B, Wd, Q1, Q2, Q3. f_equal. f_equal. lia. }
  rewrite R in H. inversion H; subst r'; clear H R. cbn [orb].
  assert (Wd : (r_lst r + WW <? n) && (negb (pt k =? 0) && (pt k =? n - WW)) = false).
  { destruct (pt_range k) as [->|P]; [cbn; apply andb_false_r|]. destruct (Z.eqb_spec (pt k) (n - WW)) as [X|]; [unfold WW in X; lia|].
    rewrite andb_false_r. apply andb_false_r. }
  rewrite Wd. split; [|split; reflexivity].
  constructor; cbn [r_le r_lst r_acc r_ch r_snap r_self r_wp r_wd].
  - destruct (Z.ltb_spec (r_lst r + WW) n); unfold WW in *; lia.
  - destruct (Z.ltb_spec (r_lst r + WW) n); [|apply I]. clear - Mn. unfold WW, CW in *. apply Z.mod_divide in Mn; [|lia]. destruct Mn as [a ->].
    replace (a * 150 - 300) with ((a - 2) * 150) by lia. apply Z.mod_mul. lia.
  - left. fold k. auto.
  - reflexivity.
  - fold k. split; [exact O1|]. split; [exact O2|exact O3].
  - discriminate.
  - intros n' m Hn' Hm Hs. left. cbn [r_le]. destruct (i_acc r I n' m Hn' Hm Hs) as [X|[X _]]; lia.
  - intros n' c' [X|X].
    + inversion X; subst n' c'. fold k. split; [lia|]. split; [exact Mn|]. split; [exact Ec|]. split; [exact O1|]. split; [exact O2|exact O3].
    + destruct (i_snap r I n' c' X) as (Y1 & Y2). split; [lia|exact Y2].
Qed.

Lemma inv_prune r r' : Inv r -> (forall s e, c_kw (r_ch r) = Some (s, e) -> e < c_ep (r_ch r)) -> pruneKw r = Some r' -> Inv r'.
Proof.
  intros I M H. unfold pruneKw in H. destruct (c_kw (r_ch r)) as [[s e]|] eqn:E; [|discriminate]. inversion H; subst; clear H.
  specialize (M s e eq_refl). destruct I as [A B C D E' F G J]. constructor; cbn; auto.
  destruct E' as (E1 & E2 & E3). split; [exact E1|]. split; [discriminate|]. right. split; [reflexivity|]. cbn [c_ep].
  destruct E3 as [E3|(E3 & s' & e' & E4 & E5)]; [exists s, e; split; [congruence|exact M]|exists s', e'; auto].
Qed.

Lemma find_snap r n c : snapAt r n = Some c -> In (n, c) (r_snap r).
Proof.
  unfold snapAt. destruct (find (fun p => fst p =? n) (r_snap r)) as [[a b]|] eqn:E; [|discriminate]. intros X. inversion X; subst.
  apply find_some in E. destruct E as [E1 E2]. cbn in E2. apply Z.eqb_eq in E2. subst a. exact E1.
Qed.

Lemma inv_step R e R' : (forall i, Inv (R i)) -> mild R e -> step log R e = Some R' -> forall i, Inv (R' i).
Proof.
  intros I M H. assert (K : forall i o, lift R i o = Some R' -> (forall r, o = Some r -> Inv r) -> forall k, Inv (R' k)).
  { intros i o Hl Ho k. unfold lift in Hl. destruct o as [r|]; [|discriminate]. inversion Hl; subst. unfold put. destruct (Nat.eqb k i); [apply Ho; reflexivity|apply I]. }
  destruct e as [i n|i|i n|i m|i|i m k|i j n|i]; cbn [step mild] in *.
  - eapply K; [exact H|]. intros r Hr. eapply inv_accept; eauto.
  - eapply K; [exact H|]. intros r Hr. eapply exec_go; eauto.
  - eapply K; [exact H|]. intros r Hr. eapply inv_stable; eauto.
  - destruct (r_le (R i) =? m); [|discriminate]. eapply K; [exact H|]. intros r Hr. eapply inv_unwedge; eauto.
  - inversion H; subst. intros k. unfold put. destruct (Nat.eqb k i); [apply inv_start, I|apply I].
  - subst k. destruct (r_le (R i) =? m); [|discriminate]. eapply K; [exact H|]. intros r Hr. eapply inv_unwedgeRestart; eauto.
  - destruct (snapAt (R j) n) as [c|] eqn:Es; [|discriminate]. eapply K; [exact H|]. intros r Hr.
    destruct (i_snap (R j) (I j) n c (find_snap _ _ _ Es)) as (A & B & C & D).
    apply (inv_transfer (R i) n c r (I i) (proj1 A) B C D); [|exact Hr]. intros s e Hk He. apply (M c s e eq_refl Hk He).
  - eapply K; [exact H|]. intros r Hr. eapply inv_prune; eauto.
Qed.
Lemma inv_run evs : forall R R', (forall i, Inv (R i)) -> mildRun log R evs -> run log R evs = Some R' -> forall i, Inv (R' i).
Proof.
  induction evs as [|e evs IH]; intros R R' I M H; cbn [run mildRun] in *; [inversion H; subst; auto|].
  destruct M as [M1 M2]. destruct (step log R e) as [R1|] eqn:E; [|discriminate]. eapply IH; [|exact M2|exact H]. eapply inv_step; eauto.
Qed.
End Log.
