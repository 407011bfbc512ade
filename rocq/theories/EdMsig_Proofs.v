From Coq Require Import List Arith NArith Lia Bool Permutation.
From Verif Require Import Lib_Bytes EdMsig_Model.
Import ListNotations.

Lemma decode_encode e : length (e_sig e) = 64 -> (e_id e < 2 ^ 64)%N -> decodeEntry (encodeEntry e) = e.
Proof.
  intros H1 H2. destruct e as [i s]. unfold decodeEntry, encodeEntry. cbn [e_id e_sig] in *.
  rewrite firstn_app_exact by apply le_length. rewrite unle_le.
  - f_equal. rewrite slice_app_skip by (rewrite le_length; lia). rewrite le_length. cbn [Nat.sub].
    unfold slice. cbn [skipn]. apply firstn_all2. lia.
  - exact H2.
Qed.
Lemma encode_length e : length (e_sig e) = 64 -> length (encodeEntry e) = ENTRY.
Proof. intros H. unfold encodeEntry. rewrite app_length, le_length, H. reflexivity. Qed.

Lemma concat_length es : (forall e, In e es -> length (e_sig e) = 64) ->
  length (concat (map encodeEntry es)) = ENTRY * length es.
Proof.
  induction es as [|e es IH]; intros H; [reflexivity|].
  cbn [map concat length]. rewrite app_length, encode_length, IH by (intros; apply H; cbn; auto). lia.
Qed.
Lemma slice_cons a b o k : length a <= o -> slice (a ++ b) o k = slice b (o - length a) k.
Proof. apply slice_app_skip. Qed.

Lemma map_seq_shift {A} (f : nat -> A) n s : map f (seq (S s) n) = map (fun i => f (S i)) (seq s n).
Proof. rewrite <- seq_shift, map_map. reflexivity. Qed.

Lemma entries_concat es : (forall e, In e es -> length (e_sig e) = 64 /\ (e_id e < 2 ^ 64)%N) ->
  entries (concat (map encodeEntry es)) = es.
Proof.
  intros H. unfold entries. rewrite concat_length by (intros; apply H; auto).
  rewrite Nat.mul_comm, Nat.div_mul by (unfold ENTRY; lia).
  induction es as [|e es IH]; [reflexivity|].
  cbn [length seq map concat]. f_equal.
  - rewrite Nat.mul_0_r. rewrite slice_app_here by (apply encode_length, H; cbn; auto).
    apply decode_encode; apply H; cbn; auto.
  - rewrite map_seq_shift. rewrite <- IH at 2 by (intros; apply H; cbn; auto).
    apply map_ext_in. intros i _. rewrite slice_app_skip; rewrite encode_length by (apply H; cbn; auto); [|lia].
    f_equal. f_equal. lia.
Qed.

Section S.
Context {K : Type}.
Variable vb : K -> bytes -> bytes -> bool.

Definition validb (v : verifier K) (m : bytes) (e : entry) : bool :=
  if ((e_id e =? 0) || (N.of_nat (length (v_keys v)) <=? e_id e))%N then false
  else match nth_error (v_keys v) (N.to_nat (e_id e)) with Some k => vb k m (e_sig e) | None => false end.

Lemma countValid_filter v m es : countValid vb v m es = Some (length (filter (validb v m) es)).
Proof.
  induction es as [|e es IH]; [reflexivity|]. cbn [countValid filter].
  destruct ((e_id e =? 0) || (N.of_nat (length (v_keys v)) <=? e_id e))%N eqn:E.
  - unfold validb at 1. rewrite E. exact IH.
  - unfold validb at 1. rewrite E. unfold verifySingle, keyAt. apply orb_false_iff in E as [E1 E2].
    rewrite E1. apply N.leb_gt in E2. assert (L := E2). apply N.ltb_lt in L. rewrite L.
    destruct (nth_error (v_keys v) (N.to_nat (e_id e))) as [k|] eqn:En.
    + rewrite IH. destruct (vb k m (e_sig e)); reflexivity.
    + exfalso. apply nth_error_None in En. lia.
Qed.

Lemma filter_length_le {A} (f : A -> bool) l : length (filter f l) <= length l.
Proof. induction l; cbn; auto. destruct (f a); cbn; lia. Qed.

Lemma entries_length sig : length (entries sig) = length sig / ENTRY.
Proof. unfold entries. rewrite map_length, seq_length. reflexivity. Qed.

Lemma verify_eq v m sig : length sig mod ENTRY = 0 ->
  verify vb v m sig = Some (v_threshold v <=? length (filter (validb v m) (entries sig))).
Proof.
  intros H. unfold verify. rewrite H. cbn [Nat.eqb negb]. rewrite countValid_filter.
  destruct (length sig / ENTRY <? v_threshold v) eqn:E; [|reflexivity].
  apply Nat.ltb_lt in E. rewrite <- entries_length in E.
  pose proof (filter_length_le (validb v m) (entries sig)). f_equal. symmetry. apply Nat.leb_gt. lia.
Qed.
Lemma verify_none v m sig : length sig mod ENTRY <> 0 -> verify vb v m sig = None.
Proof. intros H. unfold verify. apply Nat.eqb_neq in H. rewrite H. reflexivity. Qed.

Lemma validb_ok v m e : wellFormed v -> validb v m e = true <-> ValidShare vb v m (e_id e) (e_sig e).
Proof.
  intros W. unfold validb, ValidShare. unfold wellFormed in W. rewrite W. split.
  - destruct ((e_id e =? 0) || (N.of_nat (v_signers v + 1) <=? e_id e))%N eqn:E; [discriminate|].
    apply orb_false_iff in E as [E1 E2]. apply N.eqb_neq in E1. apply N.leb_gt in E2.
    destruct (nth_error _ _) eqn:En; [|discriminate]. intros Hv. split; [lia|]. exists k. auto.
  - intros [R (k & E & Hv)]. rewrite E, Hv.
    destruct ((e_id e =? 0) || (N.of_nat (v_signers v + 1) <=? e_id e))%N eqn:E0; [|reflexivity].
    apply orb_true_iff in E0 as [E0|E0]; [apply N.eqb_eq in E0|apply N.leb_le in E0]; lia.
Qed.

Lemma entry_at sig i e : length sig mod ENTRY = 0 -> nth_error (entries sig) i = Some e -> EntryAt sig i (e_id e) (e_sig e).
Proof.
  intros Hm H. assert (Hi : i < length sig / ENTRY).
  { rewrite <- entries_length. apply nth_error_Some. congruence. }
  unfold entries in H. rewrite nth_error_map in H.
  rewrite (nth_error_nth' _ 0) in H by (rewrite seq_length; auto). rewrite seq_nth in H by auto.
  cbn [option_map] in H. rewrite Nat.add_0_l in H.
  assert (E : e = decodeEntry (slice sig (ENTRY * i) ENTRY)) by congruence. clear H. rewrite E. clear E e.
  assert (HL : length sig = ENTRY * (length sig / ENTRY)).
  { pose proof (Nat.div_mod (length sig) ENTRY ltac:(unfold ENTRY; lia)). lia. }
  assert (Hlen : ENTRY * i + ENTRY <= length sig) by (unfold ENTRY in *; lia).
  set (b := slice sig (ENTRY * i) ENTRY).
  assert (Hb : length b = ENTRY).
  { unfold b, slice. rewrite firstn_length, skipn_length. lia. }
  exists (firstn (ENTRY * i) sig), (firstn 8 b), (skipn (ENTRY * i + ENTRY) sig).
  unfold decodeEntry. cbn [e_id e_sig]. split; [|split; [|split; [|split; [reflexivity|]]]].
  - transitivity (firstn (ENTRY * i) sig ++ b ++ skipn (ENTRY * i + ENTRY) sig).
    + unfold b, slice. rewrite <- (firstn_skipn (ENTRY * i) sig) at 1. f_equal.
      rewrite <- (firstn_skipn ENTRY (skipn (ENTRY * i) sig)) at 1. f_equal. rewrite skipn_add. reflexivity.
    + f_equal. rewrite app_assoc. f_equal. rewrite <- (firstn_skipn 8 b) at 1. f_equal. unfold slice.
      symmetry. apply firstn_all2. rewrite skipn_length, Hb. unfold ENTRY. lia.
  - rewrite firstn_length. lia.
  - rewrite firstn_length, Hb. reflexivity.
  - fold b. unfold slice. rewrite firstn_length, skipn_length. rewrite Hb. reflexivity.
Qed.
Lemma entry_at_lists sig i id s : EntryAt sig i id s -> Lists sig id s.
Proof.
  intros (pre & b & post & E & L & R). exists pre, b, post. split; [exact E|]. split; [|exact R].
  rewrite L, Nat.mul_comm. apply Nat.mod_mul. unfold ENTRY. lia.
Qed.
Lemma entry_at_inv sig i id s : EntryAt sig i id s -> i < length sig / ENTRY /\ nth_error (entries sig) i = Some (mkE id s).
Proof.
  intros (pre & b & post & E & L & Lb & U & Ls).
  assert (Hi : i < length sig / ENTRY).
  { apply Nat.div_le_lower_bound; [unfold ENTRY; lia|]. rewrite E, !app_length. unfold ENTRY in *. lia. }
  split; [exact Hi|]. unfold entries. rewrite nth_error_map.
  rewrite (nth_error_nth' _ 0) by (rewrite seq_length; auto). rewrite seq_nth by auto. cbn [option_map Nat.add]. f_equal.
  replace (slice sig (ENTRY * i) ENTRY) with (b ++ s).
  - unfold decodeEntry. rewrite firstn_app_exact by auto. rewrite U. f_equal.
    rewrite slice_app_skip by lia. rewrite Lb. unfold slice. cbn [Nat.sub skipn]. apply firstn_all2. lia.
  - rewrite E. rewrite slice_app_skip by lia. replace (ENTRY * i - length pre) with 0 by lia.
    rewrite app_assoc. rewrite slice_app_here; [reflexivity|]. rewrite app_length. unfold ENTRY. lia.
Qed.

(** Positions of the elements that satisfy a test. *)
Fixpoint positions {A} (f : A -> bool) (l : list A) : list nat :=
  match l with
  | [] => []
  | x :: l' => (if f x then [0] else []) ++ map S (positions f l')
  end.
Lemma positions_length {A} (f : A -> bool) l : length (positions f l) = length (filter f l).
Proof. induction l; cbn; auto. rewrite app_length, map_length, IHl. destruct (f a); reflexivity. Qed.
Lemma positions_in {A} (f : A -> bool) l i : In i (positions f l) <-> exists x, nth_error l i = Some x /\ f x = true.
Proof.
  revert i. induction l as [|a l IH]; intros i; cbn [positions].
  - split; [intros []|]. intros (x & E & _). destruct i; discriminate.
  - rewrite in_app_iff, in_map_iff. split.
    + intros [H|(j & <- & H)].
      * destruct (f a) eqn:Ea; [|destruct H]. destruct H as [<-|[]]. exists a. auto.
      * apply IH in H. exact H.
    + intros (x & E & F). destruct i.
      * cbn in E. injection E as ->. rewrite F. left. cbn. auto.
      * right. exists i. split; auto. apply IH. exists x. auto.
Qed.
Lemma positions_nodup {A} (f : A -> bool) l : NoDup (positions f l).
Proof.
  induction l as [|a l IH]; [constructor|]. cbn [positions].
  assert (N : NoDup (map S (positions f l))).
  { apply FinFun.Injective_map_NoDup; auto. intros x y. congruence. }
  destruct (f a); [|exact N]. cbn [app]. constructor; [|exact N]. intros H. apply in_map_iff in H as (j & E & _). discriminate.
Qed.

(** At least that many different positions satisfying the test. *)
Lemma filter_ge {A} (f : A -> bool) l ps :
  NoDup ps -> (forall p, In p ps -> exists x, nth_error l p = Some x /\ f x = true) -> length ps <= length (filter f l).
Proof.
  intros N H. rewrite <- positions_length. apply NoDup_incl_length; auto. intros p Hp. apply positions_in. auto.
Qed.

(** ---------- the accumulator ---------- *)
Definition step (v : verifier K) (l : list (N * entry)) (share : bytes) : list (N * entry) :=
  let e := decodeEntry share in
  if ((e_id e =? 0) || (maxShareID v <? e_id e))%N then l else insertNew (e_id e mod 2 ^ 32) e l.
Definition stepInv (v : verifier K) (m : bytes) (l : list N) (share : bytes) : list N :=
  let e := decodeEntry share in
  if ((e_id e =? 0) || (maxShareID v <? e_id e))%N then l
  else if validb v m e then l else addSet (e_id e) l.
Definition okShare (v : verifier K) (ver : bool) (share : bytes) : Prop :=
  length share = ENTRY /\ (ver = true -> e_id (decodeEntry share) <> maxShareID v).

Lemma verifySingle_in v m e : wellFormed v -> e_id e <> 0%N -> (e_id e < maxShareID v)%N ->
  verifySingle vb v m e = Some (validb v m e).
Proof.
  intros W H0 H1. unfold verifySingle, validb, keyAt, maxShareID, wellFormed in *. rewrite W.
  apply N.eqb_neq in H0. rewrite H0. cbn [orb].
  assert (E : (e_id e <? N.of_nat (v_signers v + 1))%N = true) by (apply N.ltb_lt; lia). rewrite E.
  assert (E2 : (N.of_nat (v_signers v + 1) <=? e_id e)%N = false) by (apply N.leb_gt; apply N.ltb_lt in E; lia). rewrite E2.
  destruct (nth_error _ _) eqn:En; [reflexivity|]. apply nth_error_None in En. apply N.ltb_lt in E. lia.
Qed.
Lemma verifySingle_out v m e : wellFormed v -> e_id e = maxShareID v -> verifySingle vb v m e = None.
Proof.
  intros W H. unfold verifySingle, keyAt, maxShareID, wellFormed in *. rewrite W, H.
  assert (E0 : (N.of_nat (v_signers v) + 1 =? 0)%N = false) by (apply N.eqb_neq; lia). rewrite E0.
  assert (E : (N.of_nat (v_signers v) + 1 <? N.of_nat (v_signers v + 1))%N = false) by (apply N.ltb_ge; lia).
  rewrite E. reflexivity.
Qed.

Lemma add_spec v a share : wellFormed v -> okShare v (a_verification a) share ->
  add vb v a share =
  Some (mkA (step v (a_sigs a) share) (a_digest a) (a_verification a)
            (if a_verification a then stepInv v (a_digest a) (a_invalid a) share else a_invalid a),
        length (step v (a_sigs a) share)).
Proof.
  intros W [L X]. unfold add, step, stepInv. rewrite L, Nat.eqb_refl. cbn [negb].
  set (e := decodeEntry share) in *.
  destruct ((e_id e =? 0) || (maxShareID v <? e_id e))%N eqn:E.
  - destruct a as [s d ver i]. cbn. destruct ver; reflexivity.
  - apply orb_false_iff in E as [E1 E2]. apply N.eqb_neq in E1. apply N.ltb_ge in E2.
    destruct (a_verification a) eqn:Ev; [|reflexivity].
    rewrite (verifySingle_in v) by (auto; specialize (X eq_refl); lia).
    destruct (validb v (a_digest a) e); reflexivity.
Qed.
Lemma addAll_spec v shares : forall a, wellFormed v -> (forall s, In s shares -> okShare v (a_verification a) s) ->
  addAll vb v a shares =
  Some (mkA (fold_left (step v) shares (a_sigs a)) (a_digest a) (a_verification a)
            (if a_verification a then fold_left (stepInv v (a_digest a)) shares (a_invalid a) else a_invalid a)).
Proof.
  induction shares as [|s rest IH]; intros a W H.
  - cbn. destruct a as [x d ver i]; destruct ver; reflexivity.
  - cbn [addAll fold_left]. rewrite add_spec by (auto; apply H; cbn; auto).
    rewrite IH; [|exact W|cbn [a_verification]; intros; apply H; cbn; auto].
    cbn [a_sigs a_digest a_verification a_invalid]. destruct (a_verification a); reflexivity.
Qed.
(** A share of another length aborts; a share numbered n + 1 is looked up outside the vector. *)
Lemma add_bad v a share : wellFormed v -> ~ okShare v (a_verification a) share -> add vb v a share = None.
Proof.
  intros W H. unfold add. destruct (Nat.eqb_spec (length share) ENTRY) as [L|L]; [|reflexivity]. cbn [negb].
  set (e := decodeEntry share) in *.
  destruct (a_verification a) eqn:Ev.
  - destruct (N.eq_dec (e_id e) (maxShareID v)) as [E|E].
    + rewrite verifySingle_out by auto. rewrite E. unfold maxShareID. rewrite N.ltb_irrefl.
      assert (E0 : (N.of_nat (v_signers v) + 1 =? 0)%N = false) by (apply N.eqb_neq; lia). rewrite E0. reflexivity.
    + exfalso. apply H. split; auto.
  - exfalso. apply H. split; [auto|discriminate].
Qed.
Lemma addAll_bad v shares : forall a s, wellFormed v -> In s shares -> ~ okShare v (a_verification a) s -> addAll vb v a shares = None.
Proof.
  induction shares as [|x rest IH]; intros a s W Hin Hs; [destruct Hin|]. cbn [addAll].
  destruct (add vb v a x) as [[a' n']|] eqn:E; [|reflexivity].
  destruct Hin as [->|Hin]; [rewrite (add_bad v a s) in E by auto; discriminate|].
  apply (IH a' s); auto.
  assert (a_verification a' = a_verification a) as ->; [|exact Hs].
  clear -E. unfold add in E. repeat (match type of E with context [match ?x with _ => _ end] => destruct x end; try discriminate);
    injection E as <- <-; reflexivity.
Qed.
End S.
