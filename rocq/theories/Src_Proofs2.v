(** Proofs for Src_Model: every replica gets its turn; silent and responsive sources; the primary. *)
From Coq Require Import List Arith Bool Lia.
From Verif Require Import Src_Model Src_Proofs.
Import ListNotations.

Section Fair.
Context (k : cfg).
Hypothesis P : proper k.
Definition left (s : st) : list nat := eraseO (cur s) (pref s).
Lemma left_nodup s : ok k s -> NoDup (left s).
Proof using. clear P. intros (_ & O & _). apply (okset_erase k (cur s) _ O). Qed.
Lemma left_length s : length (left s) <= length (pref s).
Proof using. clear P. unfold left. destruct (cur s); cbn [eraseO]; auto. apply erase_length. Qed.
Lemma same_refl p : same (Some p) (Some p) = true. Proof. cbn. apply Nat.eqb_refl. Qed.
(** What an event that keeps the primary does: nothing for the choice, a choice, or the source is given up. *)
Lemma keeps_step s e : ok k s -> md s = Fetching -> same_primary (prim s) e -> let s' := step k s e in
  md s' = Fetching /\ prim s' = prim s /\
  ((pref s' = pref s /\ cur s' = cur s /\ picked s' = picked s) \/
   (exists x, let l := if length (left s) =? 0 then others k s else left s in In x l /\ pref s' = l /\ cur s' = Some x /\ picked s' = picked s ++ [x]) \/
   (pref s' = (if length (left s) =? 0 then others k s else left s) /\ cur s' = None /\ picked s' = picked s)).
Proof using P.
  intros K M S. destruct e; cbn [same_primary] in S; try contradiction; cbn [step]; rewrite ?M; cbn [isM andb].
  - destruct (Nat.ltb_spec 0 t) as [T|T]; [|auto 10]. destruct (process_spec k P t c bad last f s K M T) as (_ & B2 & B3 & B4). split; auto. split; auto. destruct B4 as [(C1 & C2 & _ & _ & C5)|(x & C0 & C1 & C2 & C3 & C4)]; [auto|]. right. left. exists x. auto.
  - destruct (cur s) eqn:C; [|auto 10]. fs. auto 10.
  - destruct (cur s) eqn:C; [|auto 10]. destruct (removeCurrent_spec k s) as (B1 & B2 & B3 & B4 & B5 & B6 & B7). split; [congruence|]. split; [congruence|]. right. right. auto.
  - unfold updatePrimary. rewrite S, same_refl. auto 10.
Qed.
Definition covered (s0 : st) (p : list nat) : Prop := forall r, In r (others k s0) -> In r p.
Definition phase (s0 s : st) (p : list nat) : Prop :=
  length p + length (left s) <= length (pref s0) \/
  (exists p1 p2, p = p1 ++ p2 /\ length p1 <= length (pref s0) /\ length p2 + length (left s) <= length (others k s0) /\ forall r, In r (others k s0) -> In r p2 \/ In r (left s)) \/
  covered s0 p.
Lemma covered_app s0 p q : covered s0 p -> covered s0 (p ++ q).
Proof using. clear P. intros H r Hr. apply in_or_app. auto. Qed.
Lemma phase_step s0 s e p : ok k s -> md s = Fetching -> prim s = prim s0 -> same_primary (prim s) e -> picked s = picked s0 ++ p -> phase s0 s p -> exists p', picked (step k s e) = picked s0 ++ p' /\ phase s0 (step k s e) p'.
Proof using P.
  intros K M E S Pk H. destruct (keeps_step s e K M S) as (_ & _ & D). cbv zeta in D. assert (Oth : others k s = others k s0) by (unfold others; rewrite E; reflexivity). rewrite Oth in D.
  assert (Nl := left_nodup s K). assert (No := others_nodup k P s0). remember (step k s e) as s' eqn:Es. clear Es. destruct D as [(D1 & D2 & D3)|[(x & D0 & D1 & D2 & D3)|(D1 & D2 & D3)]].
  - exists p. split; [congruence|]. replace (left s') with (left s) in * by (unfold left; congruence). unfold phase in *. replace (left s') with (left s) by (unfold left; congruence). exact H.
  - exists (p ++ [x]). split; [rewrite D3, Pk, app_assoc; reflexivity|]. assert (L' : left s' = erase x (pref s')) by (unfold left; rewrite D2; reflexivity). rewrite D1 in L'. unfold phase. destruct (length (left s) =? 0) eqn:Z.
    + apply Nat.eqb_eq in Z. assert (X := erase_length_in x _ No D0). destruct H as [H|[(p1 & p2 & H1 & H2 & H3 & H4)|H]]; [|right; right; apply covered_app|right; right; apply covered_app; exact H].
      * right. left. exists p, [x]. split; auto. split; [lia|]. rewrite L'. cbn [length]. split; [lia|]. intros r Hr. destruct (Nat.eq_dec r x) as [->|N]; [left; left; auto|right; apply erase_in; auto].
      * intros r Hr. destruct (H4 r Hr) as [Y|Y]; [subst p; apply in_or_app; auto|]. destruct (left s); [destruct Y|discriminate].
    + assert (X := erase_length_in x _ Nl D0). rewrite <- L' in X. destruct H as [H|[(p1 & p2 & H1 & H2 & H3 & H4)|H]]; [left; rewrite app_length; cbn [length]; lia| |right; right; apply covered_app; exact H].
      right. left. exists p1, (p2 ++ [x]). split; [rewrite H1, app_assoc; reflexivity|]. split; auto. rewrite app_length. cbn [length]. split; [lia|]. intros r Hr. destruct (H4 r Hr) as [Y|Y]; [left; apply in_or_app; auto|].
      destruct (Nat.eq_dec r x) as [->|N]; [left; apply in_or_app; right; left; auto|right; rewrite L'; apply erase_in; auto].
  - exists p. split; [congruence|]. assert (L' : left s' = pref s') by (unfold left; rewrite D2; reflexivity). rewrite D1 in L'. unfold phase. rewrite L'. destruct (length (left s) =? 0) eqn:Z; [|exact H].
    apply Nat.eqb_eq in Z. destruct H as [H|[(p1 & p2 & H1 & H2 & H3 & H4)|H]]; [| |right; right; exact H].
    + right. left. exists p, []. rewrite app_nil_r. cbn [length]. split; auto. split; [lia|]. split; [lia|]. auto.
    + right. right. intros r Hr. destruct (H4 r Hr) as [Y|Y]; [subst p; apply in_or_app; auto|]. destruct (left s); [destruct Y|discriminate].
Qed.
Lemma phase_run s0 l : forall s p, ok k s -> md s = Fetching -> prim s = prim s0 -> Forall (same_primary (prim s0)) l -> picked s = picked s0 ++ p -> phase s0 s p ->
  exists p', picked (runFrom k s l) = picked s0 ++ p' /\ phase s0 (runFrom k s l) p'.
Proof using P.
  induction l as [|e l IH]; intros s p K M E F Pk H; [exists p; auto|]. inversion F; subst. assert (S : same_primary (prim s) e) by (rewrite E; auto). destruct (phase_step s0 s e p K M E S Pk H) as (p' & A & B). destruct (keeps_step s e K M S) as (C1 & C2 & _).
  cbn [runFrom fold_left]. apply (IH (step k s e) p'); auto; [apply ok_step; auto|congruence].
Qed.
Lemma every_one s0 l : ok k s0 -> md s0 = Fetching -> Forall (same_primary (prim s0)) l -> exists p, picked (runFrom k s0 l) = picked s0 ++ p /\
  (length (pref s0) + length (k_all k) <= length p -> forall r, In r (k_all k) -> prim s0 <> Some r -> In r p).
Proof using P.
  intros K M F. destruct (phase_run s0 l s0 [] K M eq_refl F (eq_sym (app_nil_r _))) as (p & A & B); [left; apply left_length|]. exists p. split; auto. intros L r Hr Hp. assert (Or : In r (others k s0)) by (apply others_in; auto).
  assert (Po := others_length k s0). destruct B as [B|[(p1 & p2 & H1 & H2 & H3 & H4)|B]]; [|destruct (H4 r Or) as [Y|Y]; [subst p; apply in_or_app; auto|]|apply B, Or].
  - destruct P as [_ P2]. lia.
  - subst p. rewrite app_length in L. destruct (left (runFrom k s0 l)); [destruct Y|cbn [length] in H3; lia].
Qed.
(** The primary is not chosen when it is not among the preferred replicas. *)
Lemma primary_run l : forall s q, ok k s -> md s = Fetching -> prim s = Some q -> ~ In q (pref s) -> Forall (same_primary (Some q)) l -> exists p, picked (runFrom k s l) = picked s ++ p /\ ~ In q p /\ ~ In q (pref (runFrom k s l)).
Proof using P.
  induction l as [|e l IH]; intros s q K M E N F; [exists []; rewrite app_nil_r; auto|]. inversion F; subst. assert (S : same_primary (prim s) e) by (rewrite E; auto). destruct (keeps_step s e K M S) as (C1 & C2 & C3). cbv zeta in C3. cbn [runFrom fold_left].
  assert (No : ~ In q (if length (left s) =? 0 then others k s else left s)).
  { destruct (_ =? 0); [intros X; apply others_in in X; destruct X; congruence|]. unfold left. destruct (cur s); cbn [eraseO]; auto. intros X. apply erase_in in X. tauto. }
  assert (I : exists p0, picked (step k s e) = picked s ++ p0 /\ ~ In q p0 /\ ~ In q (pref (step k s e))).
  { destruct C3 as [(D1 & D2 & D3)|[(x & D0 & D1 & D2 & D3)|(D1 & D2 & D3)]]; [exists []|exists [x]|exists []]; rewrite D1, D3, ?app_nil_r; split; auto; try (split; auto; fail). split; auto. intros [->|[]]. auto. }
  destruct I as (p0 & I1 & I2 & I3). destruct (IH (step k s e) q) as (p & J1 & J2 & J3); auto; [apply ok_step; auto|congruence|]. exists (p0 ++ p). split; [rewrite app_assoc, <- I1; exact J1|]. split; auto. intros X. apply in_app_or in X. tauto.
Qed.

(** A silent source. *)
Lemma silent_step s t x : ok k s -> md s = Fetching -> cur s = Some x -> 0 < t -> 0 < stamp s -> k_rto k < t - stamp s -> let s' := step k s (silent t) in
  picked s' <> picked s \/ (md s' = Fetching /\ cur s' = Some x /\ picked s' = picked s /\ stamp s' = t /\ ongoing s' = true /\ cnt s' = (if ongoing s then S (cnt s) else cnt s) /\ cnt s' < k_maxr k).
Proof using P.
  intros K M C T Ts L. cbv zeta. unfold silent. cbn [step]. rewrite M. cbn [isM andb]. destruct (Nat.ltb_spec 0 t); [|lia]. assert (D := process_spec k P t 0 false false (Nothing false false) s K M T). cbv zeta in D. destruct D as (_ & _ & _ & D).
  destruct D as [(_ & D2 & _ & _ & D5)|(y & _ & _ & _ & _ & D)]; [|left; rewrite D; intros X; apply (f_equal (@length nat)) in X; rewrite app_length in X; cbn in X; lia].
  revert D2 D5. unfold process. destruct K as (_ & O & Kc & _ & _ & Kp & _). destruct (length (pref s) =? 0) eqn:Z; [apply Nat.eqb_eq in Z; specialize (Kp M); destruct (pref s); [congruence|discriminate]|].
  assert (Ex : expired k t s = true) by (unfold expired; rewrite C; destruct (Nat.eqb_spec (stamp s) 0); [lia|]; cbn [negb andb]; apply Nat.ltb_lt; exact L).
  assert (E1 : (if expired k t s && ongoing s then withStamp (stamp s) false (S (cnt s)) s else s) = withStamp (stamp s) (if ongoing s then false else ongoing s) (if ongoing s then S (cnt s) else cnt s) s) by (rewrite Ex; cbn [andb]; destruct s; fs; destruct ongoing; reflexivity).
  unfold should. rewrite C. cbv beta iota zeta. rewrite E1. set (s1 := withStamp _ _ _ s). assert (C1 : cur s1 = Some x) by exact C. assert (Ex1 : expired k t s1 = true) by exact Ex. assert (S1 : cnt s1 = if ongoing s then S (cnt s) else cnt s) by reflexivity.
  assert (A1 : selAt s1 = selAt s) by reflexivity. assert (M1 : md s1 = Fetching) by exact M. assert (P1 : picked s1 = picked s) by reflexivity. assert (O1 : okset k (pref s1)) by exact O. clearbody s1. cbn [andb].
  destruct (Nat.leb_spec (k_maxr k) (cnt s1)) as [Lm|Lm]; cbv beta iota zeta.
  - destruct (update_spec k P t 0 s1 O1) as (y & _ & Y). cbv zeta in Y. rewrite Y. fs. destruct (Nat.eqb_spec t 0); [lia|]. cbn [orb andb negb]. fs. intros _ X. exfalso. rewrite P1 in X. apply (f_equal (@length nat)) in X. rewrite app_length in X. cbn in X. lia.
  - rewrite C1. destruct (Nat.eqb_spec (selAt s1) 0) as [Z0|Z0]; [assert (X := Kc x C); lia|]. rewrite Ex1. cbn [orb andb negb]. fs. intros _ _. right. rewrite <- S1. auto 10.
Qed.
Lemma silent_run ts : forall s x, ok k s -> md s = Fetching -> cur s = Some x -> 0 < stamp s -> late (k_rto k) (stamp s) ts -> (if ongoing s then k_maxr k else S (k_maxr k)) <= length ts + cnt s -> 0 < length ts -> picked (runFrom k s (map silent ts)) <> picked s.
Proof using P.
  induction ts as [|t ts IH]; intros s x K M C Ts L H1 H2; [cbn in H2; lia|]. cbn [late] in L. destruct L as [L1 L2]. cbn [map runFrom fold_left].
  assert (Mono : forall l s, ok k s -> exists p, picked (runFrom k s (map silent l)) = picked s ++ p).
  { clear - P. induction l as [|t l IH]; intros s K; [exists []; rewrite app_nil_r; auto|]. cbn [map runFrom fold_left]. destruct (IH (step k s (silent t))) as (p & Hp); [apply ok_step; auto|].
    destruct (isM (md s) Fetching) eqn:M; [apply isM_eq in M|exists p; unfold silent in *; cbn [step] in *; rewrite M in *; exact Hp].
    destruct (keeps_step s (silent t) K M I) as (_ & _ & D). cbv zeta in D. destruct D as [(_ & _ & D3)|[(x & _ & _ & _ & D3)|(_ & _ & D3)]]; rewrite D3 in Hp; [exists p|exists (x :: p); rewrite <- app_assoc in Hp|exists p]; exact Hp. }
  destruct (silent_step s t x K M C ltac:(lia) Ts L1) as [D|(D1 & D2 & D3 & D4 & D5 & D6 & D7)].
  - destruct (keeps_step s (silent t) K M I) as (_ & _ & D'). cbv zeta in D'. destruct (Mono ts (step k s (silent t))) as (p & Hp); [apply ok_step; auto|]. unfold runFrom in Hp. rewrite Hp. destruct D' as [(_ & _ & D3)|[(y & _ & _ & _ & D3)|(_ & _ & D3)]]; try contradiction.
    rewrite D3. intros X. apply (f_equal (@length nat)) in X. rewrite !app_length in X. cbn in X. lia.
  - intros X. revert X. rewrite <- D3. apply (IH _ x); auto; [apply ok_step; auto|lia|rewrite D4; exact L2| |]; rewrite ?D5, ?D6 in *; cbn [length] in *; destruct (ongoing s); lia.
Qed.
(** A source that answers in time. *)
Lemma dribble_run l : forall s x, ok k s -> md s = Fetching -> cur s = Some x -> 0 < k_maxr k -> (forall d t, In (d, t) l -> 0 < t /\ t - d <= k_rto k) -> 
  let s' := runFrom k s (dribble l) in cur s' = Some x /\ picked s' = picked s /\ actual s' = actual s.
Proof using P.
  induction l as [|[d t] l IH]; intros s x K M C Hm H; [cbn; auto|]. cbv zeta. unfold dribble. cbn [flat_map fst snd app runFrom fold_left].
  set (s1 := step k s (Data d)). assert (S1 : s1 = withStamp d false 0 s) by (unfold s1; cbn [step]; rewrite M, C; reflexivity). assert (K1 : ok k s1) by (apply ok_step; auto). set (s2 := step k s1 _). assert (K2 : ok k s2) by (apply ok_step; auto).
  destruct (H d t (or_introl eq_refl)) as [Ht Hd].
  assert (S2 : cur s2 = Some x /\ md s2 = Fetching /\ picked s2 = picked s /\ actual s2 = actual s).
  { unfold s2. cbn [step]. assert (M1 : md s1 = Fetching) by (rewrite S1; exact M). rewrite M1. cbn [isM andb]. destruct (Nat.ltb_spec 0 t); [|lia]. unfold process. destruct K1 as (_ & _ & Kc & _ & _ & Kp & _).
    destruct (length (pref s1) =? 0) eqn:Z; [apply Nat.eqb_eq in Z; specialize (Kp M1); destruct (pref s1); [congruence|discriminate]|].
    assert (C1 : cur s1 = Some x) by (rewrite S1; exact C). assert (Ex : expired k t s1 = false) by (unfold expired; rewrite C1, S1; fs; destruct (k_rto k <? t - d) eqn:Y; [apply Nat.ltb_lt in Y; lia|apply andb_false_r]).
    unfold should. rewrite C1, Ex. cbn [andb]. replace (cnt s1) with 0 by (rewrite S1; reflexivity). destruct (Nat.leb_spec (k_maxr k) 0); [lia|]. rewrite C1. destruct (Nat.eqb_spec (selAt s1) 0) as [Z0|Z0]; [specialize (Kc x C1); lia|].
    rewrite Ex. cbn [orb andb]. rewrite S1. fs. auto. }
  destruct S2 as (B1 & B2 & B3 & B4). destruct (IH s2 x K2 B2 B1 Hm) as (D1 & D2 & D3); [intros; apply H; right; auto|]. unfold runFrom, dribble in *. rewrite D1, D2, D3. auto.
Qed.
End Fair.
