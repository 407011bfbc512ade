From Coq Require Import List Arith NArith ZArith Bool Lia Sorted.
From Verif Require Import Lib_Bytes Cmf_Model.
Import ListNotations.
Open Scope Z_scope.
Scheme ty_mind := Induction for ty Sort Prop with flds_mind := Induction for flds Sort Prop with alts_mind := Induction for alts Sort Prop.
Combined Scheme ty_mutind from ty_mind, flds_mind, alts_mind.
Definition inRange (sg : bool) (k : nat) (z : Z) : Prop := if sg then - 2 ^ (8 * Z.of_nat k - 1) <= z < 2 ^ (8 * Z.of_nat k - 1) else 0 <= z < 2 ^ (8 * Z.of_nat k).
Lemma pow256 k : 2 ^ (8 * Z.of_nat k) = Z.of_N (256 ^ N.of_nat k).
Proof. rewrite N2Z.inj_pow, nat_N_Z. rewrite Z.pow_mul_r by lia. reflexivity. Qed.
Lemma pow_half k : (1 <= k)%nat -> 2 ^ (8 * Z.of_nat k) = 2 * 2 ^ (8 * Z.of_nat k - 1) /\ 0 < 2 ^ (8 * Z.of_nat k - 1).
Proof. intros. split; [rewrite <- Z.pow_succ_r by lia; f_equal; lia|apply Z.pow_pos_nonneg; lia]. Qed.
Lemma take_app k x r : length x = k -> take k (x ++ r) = Some (x, r).
Proof. intros H. unfold take. rewrite app_length. destruct (Nat.ltb_spec (length x + length r) k); [lia|]. rewrite firstn_app_exact, skipn_app_exact; auto. Qed.
Lemma take_some k b x r : take k b = Some (x, r) -> b = x ++ r /\ length x = k.
Proof. unfold take. destruct (Nat.ltb_spec (length b) k); [discriminate|]. intros H0. inversion H0. split; [symmetry; apply firstn_skipn|apply firstn_length_le; lia]. Qed.
Lemma encInt_len k z : length (encInt k z) = k. Proof. apply be_length. Qed.
Lemma encInt_bytes k z : Forall isByte (encInt k z). Proof. apply be_bytes. Qed.
Lemma decInt_enc sg k z r : (1 <= k)%nat -> inRange sg k z -> decInt sg k (encInt k z ++ r) = Some (z, r).
Proof.
  intros K R. unfold decInt. rewrite take_app by apply encInt_len. f_equal. f_equal. unfold encInt. destruct (pow_half k K) as [P1 P2].
  assert (M : 0 <= z mod 2 ^ (8 * Z.of_nat k) < 2 ^ (8 * Z.of_nat k)) by (apply Z.mod_pos_bound; lia).
  rewrite unbe_be. 2: { apply N2Z.inj_lt. rewrite <- pow256, Z2N.id by lia. lia. }
  rewrite Z2N.id by lia. unfold toSigned, inRange in *. destruct sg; cbn [andb].
  - destruct (Z.leb_spec 0 z).
    + rewrite Z.mod_small by lia. destruct (Z.leb_spec (2 ^ (8 * Z.of_nat k - 1)) z); lia.
    + assert (E : z mod 2 ^ (8 * Z.of_nat k) = z + 2 ^ (8 * Z.of_nat k)) by (symmetry; apply (Z.mod_unique_pos z _ (-1)); lia). rewrite E.
      destruct (Z.leb_spec (2 ^ (8 * Z.of_nat k - 1)) (z + 2 ^ (8 * Z.of_nat k))); lia.
  - apply Z.mod_small. lia.
Qed.
Lemma be_unbe l : Forall isByte l -> be (length l) (unbe l) = l.
Proof. intros H. unfold be, unbe. rewrite <- (rev_length l). rewrite le_unle by (apply Forall_rev; auto). apply rev_involutive. Qed.
Lemma decInt_some sg k b z r : (1 <= k)%nat -> Forall isByte b -> decInt sg k b = Some (z, r) -> b = encInt k z ++ r /\ inRange sg k z.
Proof.
  intros K F H. unfold decInt in H. destruct (take k b) as [[x r']|] eqn:T; [|discriminate]. apply take_some in T. destruct T as [-> L]. inversion H; subst r'. clear H.
  apply Forall_app in F. destruct F as [F _]. assert (U : 0 <= Z.of_N (unbe x) < 2 ^ (8 * Z.of_nat k)).
  { rewrite pow256. split; [lia|]. apply N2Z.inj_lt. unfold unbe. rewrite <- L, <- (rev_length x). apply unle_bound. apply Forall_rev; auto. }
  destruct (pow_half k K) as [P1 P2]. set (n := Z.of_N (unbe x)) in *.
  assert (X : be k (Z.to_N n) = x) by (unfold n; rewrite N2Z.id, <- L; apply be_unbe; auto).
  unfold toSigned, inRange, encInt. destruct sg; cbn [andb].
  - destruct (Z.leb_spec (2 ^ (8 * Z.of_nat k - 1)) n).
    + split; [|lia]. f_equal. replace ((n - 2 ^ (8 * Z.of_nat k)) mod 2 ^ (8 * Z.of_nat k)) with n; auto. apply (Z.mod_unique_pos _ _ (-1)); lia.
    + split; [|lia]. f_equal. rewrite Z.mod_small by lia. auto.
  - split; [|lia]. f_equal. rewrite Z.mod_small by lia. auto.
Qed.
Lemma decInt_mono sg k b z r q : decInt sg k b = Some (z, r) -> decInt sg k (b ++ q) = Some (z, r ++ q).
Proof. unfold decInt. destruct (take k b) as [[x r']|] eqn:T; [|discriminate]. intros H. inversion H; subst. apply take_some in T. destruct T as [-> L]. rewrite <- app_assoc, take_app; auto. Qed.
Lemma take_mono k b x r q : take k b = Some (x, r) -> take k (b ++ q) = Some (x, r ++ q).
Proof. intros T. apply take_some in T. destruct T as [-> L]. rewrite <- app_assoc. apply take_app; auto. Qed.
Lemma decLen_enc n r : size32 n -> decLen (encLen n ++ r) = Some (n, r).
Proof. intros H. unfold decLen, encLen. rewrite decInt_enc; [rewrite Nat2Z.id; auto|lia|]. unfold inRange, size32 in *. change (8 * Z.of_nat 4) with 32. lia. Qed.
Lemma decLen_some b n r : Forall isByte b -> decLen b = Some (n, r) -> b = encLen n ++ r /\ size32 n.
Proof.
  intros F H. unfold decLen in H. destruct (decInt false 4 b) as [[z r']|] eqn:E; [|discriminate]. inversion H; subst. apply decInt_some in E; [|lia|auto]. destruct E as [-> R]. unfold inRange in R. change (8 * Z.of_nat 4) with 32 in R.
  unfold encLen, size32. rewrite Z2Nat.id by lia. split; auto. lia.
Qed.
Lemma decLen_mono b n r q : decLen b = Some (n, r) -> decLen (b ++ q) = Some (n, r ++ q).
Proof. unfold decLen. destruct (decInt false 4 b) as [[z r']|] eqn:E; [|discriminate]. rewrite (decInt_mono _ _ _ _ _ q E). intros H. inversion H; auto. Qed.
Lemma decBool_mono b x r q : decBool b = Some (x, r) -> decBool (b ++ q) = Some (x, r ++ q).
Proof. destruct b; simpl; [discriminate|]. repeat (destruct (_ =? _)%N); intros H; inversion H; auto. Qed.
Lemma decBool_some b x r : decBool b = Some (x, r) -> b = (if x then 1%N else 0%N) :: r.
Proof. destruct b as [|y b]; simpl; [discriminate|]. destruct (N.eqb_spec y 0); [intros H; inversion H; subst; auto|]. destruct (N.eqb_spec y 1); intros H; inversion H; subst; auto. Qed.
Lemma decStr_enc s r : size32 (length s) -> decStr (encStr s ++ r) = Some (s, r).
Proof. intros H. unfold decStr, encStr. rewrite <- app_assoc, decLen_enc by auto. apply take_app; auto. Qed.
Lemma decStr_some b s r : Forall isByte b -> decStr b = Some (s, r) -> b = encStr s ++ r /\ size32 (length s) /\ Forall isByte s.
Proof.
  unfold decStr. intros F H. destruct (decLen b) as [[n r']|] eqn:E; [|discriminate]. apply decLen_some in E; auto. destruct E as [-> S]. apply take_some in H. destruct H as [-> L]. unfold encStr. rewrite L, <- app_assoc. split; auto. split; auto.
  apply Forall_app in F. destruct F as [_ F]. apply Forall_app in F. tauto.
Qed.
Lemma decStr_mono b s r q : decStr b = Some (s, r) -> decStr (b ++ q) = Some (s, r ++ q).
Proof. unfold decStr. destruct (decLen b) as [[n r']|] eqn:E; [|discriminate]. rewrite (decLen_mono _ _ _ q E). apply take_mono. Qed.

(** * Sequences of elements *)
Definition RTd (d : bytes -> option (val * bytes)) (e : val -> bytes) (P : val -> Prop) : Prop := forall v r, P v -> d (e v ++ r) = Some (v, r).
Definition Mono {A} (d : bytes -> option (A * bytes)) : Prop := forall b v r q, d b = Some (v, r) -> d (b ++ q) = Some (v, r ++ q).
Definition Sound {A} (d : bytes -> option (A * bytes)) (P : A -> Prop) : Prop := forall b v r, Forall isByte b -> d b = Some (v, r) -> (exists p, b = p ++ r) /\ P v.
Definition Canon {A} (d : bytes -> option (A * bytes)) (e : A -> bytes) : Prop := forall b v r, Forall isByte b -> d b = Some (v, r) -> b = e v ++ r.
Lemma decN_rt d e P : RTd d e P -> forall l r, Forall P l -> decN d (length l) (flat_map e l ++ r) = Some (l, r).
Proof. intros H. induction l as [|v l IH]; intros r F; auto. inversion F; subst. simpl. rewrite <- app_assoc, H by auto. rewrite IH; auto. Qed.
Lemma decN_mono d : Mono d -> forall n, Mono (decN d n).
Proof.
  intros H. induction n as [|n IH]; intros b v r q E; simpl in *; [inversion E; auto|]. destruct (d b) as [[x r1]|] eqn:D; [|discriminate]. rewrite (H _ _ _ q D).
  destruct (decN d n r1) as [[l r2]|] eqn:D2; [|discriminate]. rewrite (IH _ _ _ q D2). inversion E; auto.
Qed.
Lemma decN_sound d P : Sound d P -> forall n, Sound (decN d n) (fun l => length l = n /\ Forall P l).
Proof.
  intros H. induction n as [|n IH]; intros b v r F E; simpl in *; [inversion E; subst; split; [exists []; auto|auto]|]. destruct (d b) as [[x r1]|] eqn:D; [|discriminate]. destruct (H _ _ _ F D) as [[p ->] Px]. apply Forall_app in F.
  destruct (decN d n r1) as [[l r2]|] eqn:D2; [|discriminate]. destruct (IH _ _ _ (proj2 F) D2) as [[p2 ->] [L Pl]]. inversion E; subst. split; [exists (p ++ p2); apply app_assoc|]. simpl. auto.
Qed.
Lemma decN_canon d e P : Sound d P -> Canon d e -> forall n, Canon (decN d n) (flat_map e).
Proof.
  intros S H. induction n as [|n IH]; intros b v r F E; simpl in *; [inversion E; auto|]. destruct (d b) as [[x r1]|] eqn:D; [|discriminate]. pose proof (H _ _ _ F D) as Eb; rewrite Eb in F; rewrite Eb. apply Forall_app in F.
  destruct (decN d n r1) as [[l r2]|] eqn:D2; [|discriminate]. rewrite (IH _ _ _ (proj2 F) D2). inversion E; subst. simpl. apply app_assoc.
Qed.
Lemma decInt1 sg x r : isByte x -> decInt sg 1 (x :: r) = Some (toSigned sg 1 (Z.of_N x), r).
Proof. intros H. unfold decInt, take. simpl. f_equal. f_equal. f_equal. unfold unbe. simpl. rewrite N.add_0_r. auto. Qed.
(** What the byte-copying path reads. *)
Lemma one_rt a f l : wfty a -> oneByte a = Some f -> Forall (hasType a) l -> exists x, flat_map (enc a) l = x /\ length x = length l /\ map f x = l.
Proof.
  intros W O. induction l as [|v l IH]; intros F; [exists []; auto|]. inversion F as [|? ? T F']; subst. destruct (IH F') as (x & E & L & M). cbn [flat_map]. rewrite E.
  destruct a; try discriminate; cbn [oneByte] in O.
  - inversion O; subst f. destruct v; try contradiction. exists ((if b then 1%N else 0%N) :: x). cbn [enc app length map]. repeat split; auto. f_equal; auto. destruct b; auto.
  - destruct (Nat.eqb_spec size 1) as [->|]; [|discriminate]. inversion O; subst f. destruct v; try (destruct signed; contradiction). cbn [enc].
    assert (R : inRange signed 1 z) by (destruct signed; auto). pose proof (decInt_enc signed 1 z [] ltac:(lia) R) as D. assert (L1 := encInt_len 1 z). destruct (encInt 1 z) as [|y [|? ?]] eqn:Ez; try discriminate.
    exists (y :: x). cbn [app length map]. repeat split; auto. f_equal; auto. assert (B := encInt_bytes 1 z). rewrite Ez in B. inversion B; subst. cbn [app] in D. rewrite decInt1 in D by auto. inversion D. reflexivity.
Qed.
Lemma one_sound a f x : wfty a -> oneByte a = Some f -> Forall isByte x -> Forall (hasType a) (map f x) /\ (a <> TBool -> flat_map (enc a) (map f x) = x).
Proof.
  intros W O. induction x as [|y x IH]; intros F; [simpl; auto|]. inversion F as [|? ? By F']; subst. destruct (IH F') as [T E]. destruct a; try discriminate; cbn [oneByte] in O.
  - inversion O; subst f. split; [constructor; simpl; auto|congruence].
  - destruct (Nat.eqb_spec size 1) as [->|]; [|discriminate]. inversion O; subst f. pose proof (decInt1 signed y [] By) as D. apply decInt_some in D; [|lia|constructor; auto]. destruct D as [D R].
    split; [constructor; auto; destruct signed; exact R|]. intros N. rewrite app_nil_r in D. specialize (E N). change (encInt 1 (toSigned signed 1 (Z.of_N y)) ++ flat_map (enc (TInt signed 1)) (map (fun x => VInt (toSigned signed 1 (Z.of_N x))) x) = y :: x). rewrite E, <- D. auto.
Qed.
Lemma decElems_rt a l r : wfty a -> RTd (dec a) (enc a) (hasType a) -> Forall (hasType a) l -> decElems a (dec a) (length l) (flat_map (enc a) l ++ r) = Some (l, r).
Proof.
  intros W H F. unfold decElems. destruct (oneByte a) as [f|] eqn:O; [|eapply decN_rt; eauto]. destruct (one_rt a f l W O F) as (x & E & L & M). rewrite E, take_app by auto. rewrite M. auto.
Qed.
Lemma decElems_mono a n : Mono (dec a) -> Mono (decElems a (dec a) n).
Proof.
  intros H. unfold decElems. destruct (oneByte a) as [f|] eqn:O; [|apply decN_mono; auto]. intros b v r q E. destruct (take n b) as [[x r1]|] eqn:T; [|discriminate]. rewrite (take_mono _ _ _ _ q T). inversion E; auto.
Qed.
Lemma decElems_sound a n : wfty a -> Sound (dec a) (hasType a) -> Sound (decElems a (dec a) n) (fun l => length l = n /\ Forall (hasType a) l).
Proof.
  intros W H. unfold decElems. destruct (oneByte a) as [f|] eqn:O; [|apply decN_sound; auto]. intros b v r F E. destruct (take n b) as [[x r1]|] eqn:T; [|discriminate]. apply take_some in T. destruct T as [-> L]. inversion E; subst.
  apply Forall_app in F. split; [exists x; auto|]. rewrite map_length. split; auto. apply (one_sound a f x W O); tauto.
Qed.
Lemma decElems_canon a n : wfty a -> a <> TBool -> Sound (dec a) (hasType a) -> Canon (dec a) (enc a) -> Canon (decElems a (dec a) n) (flat_map (enc a)).
Proof.
  intros W N S H. unfold decElems. destruct (oneByte a) as [f|] eqn:O; [|eapply decN_canon; eauto]. intros b v r F E. destruct (take n b) as [[x r1]|] eqn:T; [|discriminate]. apply take_some in T. destruct T as [-> L]. inversion E; subst.
  apply Forall_app in F. f_equal. symmetry. apply (one_sound a f x W O); tauto.
Qed.

(** * Map keys *)
Lemma lexlt_trans a : forall b c, lexlt a b = true -> lexlt b c = true -> lexlt a c = true.
Proof.
  induction a as [|x a IH]; intros [|y b] [|z c]; simpl; auto; try discriminate.
  destruct (N.ltb_spec x y), (N.ltb_spec y x), (N.ltb_spec y z), (N.ltb_spec z y), (N.ltb_spec x z), (N.ltb_spec z x); intros; try lia; try discriminate; auto; try (eapply IH; eauto).
Qed.
Lemma lexlt_total a : forall b, lexlt a b = false -> lexlt b a = false -> a = b.
Proof.
  induction a as [|x a IH]; intros [|y b]; simpl; auto; try discriminate. destruct (N.ltb_spec x y), (N.ltb_spec y x); intros; try discriminate. f_equal; [lia|auto].
Qed.
Lemma keylt_trans k a b c : primitive k -> hasType k a -> hasType k b -> hasType k c -> keylt a b = true -> keylt b c = true -> keylt a c = true.
Proof.
  intros P. destruct k; try contradiction; destruct a, b, c; simpl; try contradiction; try (destruct signed; contradiction); intros.
  - destruct b0, b, b1; auto.
  - apply Z.ltb_lt in H2, H3. apply Z.ltb_lt. lia.
  - eapply lexlt_trans; eauto.
  - eapply lexlt_trans; eauto.
Qed.
Lemma minsert_In k v m x : In x (minsert k v m) -> x = (k, v) \/ In x m.
Proof. induction m as [|[k' v'] m IH]; simpl; [intros [<-|[]]; auto|]. destruct (keylt k' k); simpl; [tauto|]. destruct (keylt k k'); simpl; intuition. Qed.
Lemma minsert_len k v m : (length (minsert k v m) <= S (length m))%nat.
Proof. induction m as [|[k' v'] m IH]; simpl; auto. destruct (keylt k' k); simpl; [lia|]. destruct (keylt k k'); simpl; lia. Qed.
Lemma minsert_sorted kt k v m : primitive kt -> hasType kt k -> Forall (fun p => hasType kt (fst p)) m -> strictlySorted m -> strictlySorted (minsert k v m).
Proof.
  intros P Tk. unfold strictlySorted. induction m as [|[k' v'] m IH]; intros F S; simpl; [repeat constructor|]. inversion S as [|? ? S1 F1]; subst. inversion F as [|? ? T1 F2]; subst. simpl in T1.
  destruct (keylt k' k) eqn:L1.
  - constructor; [apply IH; auto|]. rewrite Forall_forall in *. intros x Hx. apply minsert_In in Hx. destruct Hx as [->|Hx]; auto.
  - destruct (keylt k k') eqn:L2; auto. constructor; auto. constructor; auto. rewrite Forall_forall in *. intros x Hx. eapply (keylt_trans kt k k'); auto.
Qed.
Definition mins (m : list (val * val)) (p : val) := match p with VPair x y => minsert x y m | _ => m end.
Lemma minsert_last k v m : Forall (fun p => keylt (fst p) k = true) m -> minsert k v m = m ++ [(k, v)].
Proof. induction m as [|[k' v'] m IH]; intros F; auto. inversion F as [|? ? H F']; subst. simpl in *. rewrite H, IH; auto. Qed.
Lemma fold_mins l : forall m, strictlySorted (m ++ l) -> fold_left mins (map (fun p => VPair (fst p) (snd p)) l) m = m ++ l.
Proof.
  induction l as [|[k v] l IH]; intros m S; simpl; [rewrite app_nil_r; auto|]. rewrite minsert_last.
  - rewrite IH; rewrite <- app_assoc; auto.
  - clear IH. induction m as [|x m IH]; simpl in *; constructor; inversion S as [|? ? S1 F]; subst; [|apply IH; auto]. rewrite Forall_forall in F. apply (F (k, v)). apply in_or_app. simpl. auto.
Qed.

(** * The main inductions over types *)
Lemma wf_size k : k = 1%nat \/ k = 2%nat \/ k = 4%nat \/ k = 8%nat -> (1 <= k)%nat. Proof. lia. Qed.
Lemma rt_all :
  (forall t, wfty t -> RTd (dec t) (enc t) (hasType t)) /\
  (forall fs, wfF fs -> forall l r, hasF fs l -> decF fs (encF fs l ++ r) = Some (l, r)) /\
  (forall al, wfA al -> forall id x r, hasA al id x -> decA al id (encA al id x ++ r) = Some (x, r)).
Proof.
  apply ty_mutind; intros; cbn [wfty wfF wfA] in *; try (intros vv r0 T; destruct vv; cbn [hasType] in T; try contradiction; try (destruct signed; contradiction); cbn [dec enc]).
  - destruct b; auto.
  - rewrite decInt_enc; [auto|apply wf_size; auto|destruct signed; auto].
  - rewrite decInt_enc; [|lia|unfold inRange; change (8 * Z.of_nat 1) with 8; lia]. rewrite Z.mod_small by lia. destruct (Z.ltb_spec z tags); [auto|lia].
  - rewrite decStr_enc by apply T. auto.
  - rewrite decStr_enc by apply T. auto.
  - destruct H1, T. rewrite <- app_assoc. rewrite H by auto. rewrite H0; auto.
  - destruct T as [S F]. rewrite <- app_assoc, decLen_enc by auto. rewrite decElems_rt; auto.
  - destruct T as [<- F]. rewrite decElems_rt; auto.
  - destruct T as (S & F & So). destruct H1 as (P & W1 & W2). rewrite <- app_assoc, decLen_enc by auto.
    assert (D : decN (fun b => match dec k b with None => None | Some (x, r) => match dec v r with None => None | Some (y, r) => Some (VPair x y, r) end end) (length l) (flat_map (fun p => enc k (fst p) ++ enc v (snd p)) l ++ r0)
        = Some (map (fun p => VPair (fst p) (snd p)) l, r0)).
    { clear S So. induction l as [|[x y] l IH]; auto. inversion F as [|? ? [Tx Ty] F']; subst. cbn [flat_map fst snd length decN map]. rewrite <- !app_assoc. rewrite H by auto. rewrite H0 by auto. rewrite IH; auto. }
    rewrite D. f_equal. f_equal. f_equal. apply (fold_mins l []). auto.
  - destruct o as [x|]; [|reflexivity]. cbn [app decBool]. change (1 =? 0)%N with false. change (1 =? 1)%N with true. cbv iota beta. rewrite H; auto.
  - rewrite H; auto.
  - destruct T as [R T]. rewrite <- app_assoc, decInt_enc; [|lia|exact R]. rewrite H; auto.
  - cbn [hasF] in *. destruct l; [auto|contradiction].
  - cbn [hasF] in *. destruct l as [|x l]; [contradiction|]. destruct H1, H2. cbn [encF decF]. rewrite <- app_assoc, H by auto. rewrite H0; auto.
  - contradiction.
  - cbn [hasA encA decA] in *. destruct (id =? id0); [apply H; tauto|apply H0; tauto].
Qed.
Lemma mono_all : (forall t, Mono (dec t)) /\ (forall fs, Mono (decF fs)) /\ (forall al id, Mono (decA al id)).
Proof.
  apply ty_mutind; intros; intros b0 v0 r q E; cbn [dec decF decA] in *.
  - destruct (decBool b0) as [[x y]|] eqn:D; [|discriminate]. rewrite (decBool_mono _ _ _ q D). inversion E; auto.
  - destruct (decInt _ _ _) as [[x y]|] eqn:D; [|discriminate]. rewrite (decInt_mono _ _ _ _ _ q D). inversion E; auto.
  - destruct (decInt _ _ _) as [[x y]|] eqn:D; [|discriminate]. rewrite (decInt_mono _ _ _ _ _ q D). destruct (x <? _); inversion E; auto.
  - destruct (decStr _) as [[x y]|] eqn:D; [|discriminate]. rewrite (decStr_mono _ _ _ q D). inversion E; auto.
  - destruct (decStr _) as [[x y]|] eqn:D; [|discriminate]. rewrite (decStr_mono _ _ _ q D). inversion E; auto.
  - destruct (dec a b0) as [[x y]|] eqn:D; [|discriminate]. rewrite (H _ _ _ q D). destruct (dec b y) as [[x' y']|] eqn:D'; [|discriminate]. rewrite (H0 _ _ _ q D'). inversion E; auto.
  - destruct (decLen _) as [[x y]|] eqn:D; [|discriminate]. rewrite (decLen_mono _ _ _ q D). destruct (decElems a (dec a) x y) as [[x' y']|] eqn:D'; [|discriminate]. rewrite (decElems_mono a x H _ _ _ q D'). inversion E; auto.
  - destruct (decElems a (dec a) n b0) as [[x' y']|] eqn:D'; [|discriminate]. rewrite (decElems_mono a n H _ _ _ q D'). inversion E; auto.
  - destruct (decLen _) as [[x y]|] eqn:D; [|discriminate]. rewrite (decLen_mono _ _ _ q D).
    match type of E with context [decN ?d x y] => set (dd := d) in *; assert (M : Mono dd) end.
    { intros b1 v1 r1 q1 E1. unfold dd in *. destruct (dec k b1) as [[x1 y1]|] eqn:D1; [|discriminate]. rewrite (H _ _ _ q1 D1). destruct (dec v y1) as [[x' y']|] eqn:D'; [|discriminate]. rewrite (H0 _ _ _ q1 D'). inversion E1; auto. }
    destruct (decN dd x y) as [[x' y']|] eqn:D'; [|discriminate]. rewrite (decN_mono dd M x _ _ _ q D'). inversion E; auto.
  - destruct (decBool b0) as [[x y]|] eqn:D; [|discriminate]. rewrite (decBool_mono _ _ _ q D). destruct x; [|inversion E; auto]. destruct (dec a y) as [[x' y']|] eqn:D'; [|discriminate]. rewrite (H _ _ _ q D'). inversion E; auto.
  - destruct (decF fs b0) as [[x y]|] eqn:D; [|discriminate]. rewrite (H _ _ _ q D). inversion E; auto.
  - destruct (decInt _ _ _) as [[x y]|] eqn:D; [|discriminate]. rewrite (decInt_mono _ _ _ _ _ q D). destruct (decA al x y) as [[x' y']|] eqn:D'; [|discriminate]. rewrite (H x _ _ _ q D'). inversion E; auto.
  - inversion E; auto.
  - destruct (dec t b0) as [[x y]|] eqn:D; [|discriminate]. rewrite (H _ _ _ q D). destruct (decF fs y) as [[x' y']|] eqn:D'; [|discriminate]. rewrite (H0 _ _ _ q D'). inversion E; auto.
  - discriminate.
  - destruct (id =? id0); [apply H; auto|apply H0; auto].
Qed.
Lemma sound_all :
  (forall t, wfty t -> Sound (dec t) (hasType t)) /\ (forall fs, wfF fs -> Sound (decF fs) (hasF fs)) /\ (forall al, wfA al -> forall id, Sound (decA al id) (hasA al id)).
Proof.
  apply ty_mutind; intros; intros b0 v0 r F E; cbn [dec decF decA wfty wfF wfA] in *.
  - destruct (decBool b0) as [[x y]|] eqn:D; [|discriminate]. apply decBool_some in D. inversion E; subst. split; [|simpl; auto]. eexists [_]. reflexivity.
  - destruct (decInt _ _ _) as [[x y]|] eqn:D; [|discriminate]. apply decInt_some in D; auto using wf_size. inversion E; subst. destruct D as [-> R]. split; [eexists; reflexivity|destruct signed; exact R].
  - destruct (decInt _ _ _) as [[x y]|] eqn:D; [|discriminate]. apply decInt_some in D; [|lia|auto]. destruct D as [-> R]. rewrite Z.mod_small in E by lia. destruct (Z.ltb_spec x tags); inversion E; subst. split; [eexists; reflexivity|simpl; unfold inRange in R; lia].
  - destruct (decStr _) as [[x y]|] eqn:D; [|discriminate]. apply decStr_some in D; auto. destruct D as (-> & S & B). inversion E; subst. split; [eexists; reflexivity|simpl; auto].
  - destruct (decStr _) as [[x y]|] eqn:D; [|discriminate]. apply decStr_some in D; auto. destruct D as (-> & S & B). inversion E; subst. split; [eexists; reflexivity|simpl; auto].
  - destruct H1 as [W1 W2]. destruct (dec a b0) as [[x y]|] eqn:D; [|discriminate]. destruct (H W1 _ _ _ F D) as [[p ->] T1]. apply Forall_app in F. destruct (dec b y) as [[x' y']|] eqn:D'; [|discriminate]. destruct (H0 W2 _ _ _ (proj2 F) D') as [[p2 ->] T2]. inversion E; subst.
    split; [exists (p ++ p2); apply app_assoc|simpl; auto].
  - destruct (decLen _) as [[x y]|] eqn:D; [|discriminate]. apply decLen_some in D; auto. destruct D as [-> S]. apply Forall_app in F. destruct (decElems a (dec a) x y) as [[x' y']|] eqn:D'; [|discriminate].
    destruct (decElems_sound a x H0 (H H0) _ _ _ (proj2 F) D') as [[p ->] [L T]]. inversion E; subst. split; [eexists (_ ++ p); apply app_assoc|simpl; auto].
  - destruct (decElems a (dec a) n b0) as [[x' y']|] eqn:D'; [|discriminate]. destruct (decElems_sound a n H0 (H H0) _ _ _ F D') as [[p ->] [L T]]. inversion E; subst. split; [eexists; reflexivity|simpl; auto].
  - destruct H1 as (P & W1 & W2). destruct (decLen _) as [[x y]|] eqn:D; [|discriminate]. apply decLen_some in D; auto. destruct D as [-> S]. apply Forall_app in F.
    match type of E with context [decN ?d x y] => set (dd := d) in *; assert (M : Sound dd (fun p => match p with VPair a b => hasType k a /\ hasType v b | _ => False end)) end.
    { intros b1 v1 r1 F1 E1. unfold dd in *. destruct (dec k b1) as [[x1 y1]|] eqn:D1; [|discriminate]. destruct (H W1 _ _ _ F1 D1) as [[p ->] T1]. apply Forall_app in F1. destruct (dec v y1) as [[x' y']|] eqn:D'; [|discriminate].
      destruct (H0 W2 _ _ _ (proj2 F1) D') as [[p2 ->] T2]. inversion E1; subst. split; [exists (p ++ p2); apply app_assoc|auto]. }
    destruct (decN dd x y) as [[x' y']|] eqn:D'; [|discriminate]. destruct (decN_sound dd _ M x _ _ _ (proj2 F) D') as [[p ->] [L T]]. inversion E; subst. split; [eexists (_ ++ p); apply app_assoc|].
    assert (G : forall l m, Forall (fun p => match p with VPair a b => hasType k a /\ hasType v b | _ => False end) l -> Forall (fun p => hasType k (fst p) /\ hasType v (snd p)) m -> strictlySorted m ->
       let m' := fold_left mins l m in (length m' <= length l + length m)%nat /\ Forall (fun p => hasType k (fst p) /\ hasType v (snd p)) m' /\ strictlySorted m').
    { induction l as [|z l IH]; intros m Fl Fm Sm; cbn [fold_left length]; [auto|]. inversion Fl as [|? ? Tz Fl']; subst. destruct z; try contradiction. cbn [mins].
      destruct (IH (minsert z1 z2 m) Fl') as (I1 & I2 & I3).
      - rewrite Forall_forall in *. intros q Hq. apply minsert_In in Hq. destruct Hq as [->|Hq]; auto.
      - eapply (minsert_sorted k); [auto|tauto| |auto]. eapply Forall_impl; [|exact Fm]. simpl. tauto.
      - split; [|split; auto]. pose proof (minsert_len z1 z2 m). lia. }
    destruct (G x' [] T) as (G1 & G2 & G3); [constructor|constructor|]. cbn [hasType]. fold mins. change (fun m p => match p with VPair x y => minsert x y m | _ => m end) with mins.
    split; [|split; auto]. unfold size32 in *. simpl in G1. lia.
  - destruct (decBool b0) as [[x y]|] eqn:D; [|discriminate]. apply decBool_some in D. subst b0. destruct x; [|inversion E; subst; split; [eexists [_]; reflexivity|simpl; auto]]. inversion F; subst. destruct (dec a y) as [[x' y']|] eqn:D'; [|discriminate].
    destruct (H H0 _ _ _ H4 D') as [[p ->] T]. inversion E; subst. split; [exists (1%N :: p); auto|simpl; auto].
  - destruct (decF fs b0) as [[x y]|] eqn:D; [|discriminate]. destruct (H H0 _ _ _ F D) as [[p ->] T]. inversion E; subst. split; [eexists; reflexivity|simpl; auto].
  - destruct (decInt _ _ _) as [[x y]|] eqn:D; [|discriminate]. apply decInt_some in D; [|lia|auto]. destruct D as [-> R]. apply Forall_app in F. destruct (decA al x y) as [[x' y']|] eqn:D'; [|discriminate]. destruct (H H0 x _ _ _ (proj2 F) D') as [[p ->] T]. inversion E; subst.
    split; [eexists (_ ++ p); apply app_assoc|simpl; split; auto].
  - inversion E; subst. split; [exists []; auto|simpl; auto].
  - destruct H1 as [W1 W2]. destruct (dec t b0) as [[x y]|] eqn:D; [|discriminate]. destruct (H W1 _ _ _ F D) as [[p ->] T]. apply Forall_app in F. destruct (decF fs y) as [[x' y']|] eqn:D'; [|discriminate]. destruct (H0 W2 _ _ _ (proj2 F) D') as [[p2 ->] T2]. inversion E; subst.
    split; [exists (p ++ p2); apply app_assoc|simpl; auto].
  - discriminate.
  - cbn [hasA]. destruct (id =? id0); [eapply H; eauto; tauto|eapply H0; eauto; tauto].
Qed.
Lemma canon_all :
  (forall t, wfty t -> canonical t -> Canon (dec t) (enc t)) /\ (forall fs, wfF fs -> canonF fs -> Canon (decF fs) (encF fs)) /\ (forall al, wfA al -> canonA al -> forall id, Canon (decA al id) (encA al id)).
Proof.
  destruct sound_all as (ST & SF & SA).
  apply ty_mutind; intros; intros b0 v0 r F E; cbn [dec decF decA wfty wfF wfA canonical canonF canonA] in *.
  - destruct (decBool b0) as [[x y]|] eqn:D; [|discriminate]. apply decBool_some in D. inversion E; subst. reflexivity.
  - destruct (decInt _ _ _) as [[x y]|] eqn:D; [|discriminate]. apply decInt_some in D; auto using wf_size. inversion E; subst. apply D.
  - destruct (decInt _ _ _) as [[x y]|] eqn:D; [|discriminate]. apply decInt_some in D; [|lia|auto]. destruct (x <? _); inversion E; subst. apply D.
  - destruct (decStr _) as [[x y]|] eqn:D; [|discriminate]. apply decStr_some in D; auto. inversion E; subst. apply D.
  - destruct (decStr _) as [[x y]|] eqn:D; [|discriminate]. apply decStr_some in D; auto. inversion E; subst. apply D.
  - destruct H1 as [W1 W2], H2 as [C1 C2]. destruct (dec a b0) as [[x y]|] eqn:D; [|discriminate]. pose proof (H W1 C1 _ _ _ F D) as Eb. subst b0. apply Forall_app in F. destruct (dec b y) as [[x' y']|] eqn:D'; [|discriminate]. pose proof (H0 W2 C2 _ _ _ (proj2 F) D') as Eb. subst y.
    inversion E; subst. apply app_assoc.
  - destruct H1 as [N C]. destruct (decLen _) as [[x y]|] eqn:D; [|discriminate]. apply decLen_some in D; auto. destruct D as [-> S]. apply Forall_app in F. destruct (decElems a (dec a) x y) as [[x' y']|] eqn:D'; [|discriminate].
    destruct (decElems_sound a x H0 (ST a H0) _ _ _ (proj2 F) D') as [_ [L _]]. pose proof (decElems_canon a x H0 N (ST a H0) (H H0 C) _ _ _ (proj2 F) D') as Eb. subst y. inversion E; subst. cbn [enc]. apply app_assoc.
  - destruct H1 as [N C]. destruct (decElems a (dec a) n b0) as [[x' y']|] eqn:D'; [|discriminate]. pose proof (decElems_canon a n H0 N (ST a H0) (H H0 C) _ _ _ F D') as Eb. inversion E; subst. auto.
  - contradiction.
  - destruct (decBool b0) as [[x y]|] eqn:D; [|discriminate]. apply decBool_some in D. subst b0. destruct x; [|inversion E; subst; auto]. inversion F; subst. destruct (dec a y) as [[x' y']|] eqn:D'; [|discriminate].
    pose proof (H H0 H1 _ _ _ H5 D') as Eb. subst y. inversion E; subst. auto.
  - destruct (decF fs b0) as [[x y]|] eqn:D; [|discriminate]. inversion E; subst. cbn [enc]. apply (H H0 H1 _ _ _ F D).
  - destruct (decInt _ _ _) as [[x y]|] eqn:D; [|discriminate]. apply decInt_some in D; [|lia|auto]. destruct D as [-> R]. apply Forall_app in F. destruct (decA al x y) as [[x' y']|] eqn:D'; [|discriminate]. pose proof (H H0 H1 x _ _ _ (proj2 F) D') as Eb. subst y. inversion E; subst.
    cbn [enc]. apply app_assoc.
  - inversion E; subst. auto.
  - destruct H1 as [W1 W2], H2 as [C1 C2]. destruct (dec t b0) as [[x y]|] eqn:D; [|discriminate]. pose proof (H W1 C1 _ _ _ F D) as Eb. subst b0. apply Forall_app in F. destruct (decF fs y) as [[x' y']|] eqn:D'; [|discriminate]. pose proof (H0 W2 C2 _ _ _ (proj2 F) D') as Eb. subst y.
    inversion E; subst. apply app_assoc.
  - discriminate.
  - cbn [encA]. destruct (id =? id0); [eapply H; eauto; tauto|eapply H0; eauto; tauto].
Qed.
