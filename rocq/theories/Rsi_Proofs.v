From Coq Require Import List Arith NArith Bool Lia.
From Verif Require Import Lib_Bytes Rsi_Model.
Import ListNotations.

Lemma decode_serialize i : (N.of_nat (ix i) < 2 ^ 64)%N -> (N.of_nat (sn i) < 2 ^ 64)%N -> (N.of_nat (length (dat i)) < 2 ^ 64)%N -> decode (serialize i) = (false, i).
Proof.
  intros A B C. unfold decode, serialize. set (a := le 8 (N.of_nat (ix i))). set (b := le 8 (N.of_nat (sn i))). set (c := le 8 (N.of_nat (length (dat i)))).
  assert (La : length a = 8) by apply le_length. assert (Lb : length b = 8) by apply le_length. assert (Lc : length c = 8) by apply le_length.
  assert (E0 : slice (a ++ b ++ c ++ dat i) 0 8 = a) by (apply slice_app_here; exact La).
  assert (E1 : slice (a ++ b ++ c ++ dat i) 8 8 = b) by (rewrite slice_app_skip by (rewrite ?La, ?Lb, ?Lc; cbn; lia); rewrite La; cbn [Nat.sub]; apply slice_app_here; exact Lb).
  assert (E2 : slice (a ++ b ++ c ++ dat i) 16 8 = c) by (rewrite slice_app_skip by (rewrite ?La, ?Lb, ?Lc; cbn; lia); rewrite La; cbn [Nat.sub]; rewrite slice_app_skip by (rewrite ?La, ?Lb, ?Lc; cbn; lia); rewrite Lb; cbn [Nat.sub]; apply slice_app_here; exact Lc).
  rewrite E0, E1, E2. assert (Ua : unle a = N.of_nat (ix i)) by (apply unle_le; exact A). assert (Ub : unle b = N.of_nat (sn i)) by (apply unle_le; exact B). assert (Uc : unle c = N.of_nat (length (dat i))) by (apply unle_le; exact C).
  rewrite Ua, Ub, Uc, !Nnat.Nat2N.id. assert (E3 : slice (a ++ b ++ c ++ dat i) 24 (length (dat i)) = dat i).
  { rewrite slice_app_skip by (rewrite ?La, ?Lb, ?Lc; cbn; lia); rewrite La; cbn [Nat.sub]. rewrite slice_app_skip by (rewrite ?La, ?Lb, ?Lc; cbn; lia); rewrite Lb; cbn [Nat.sub]. rewrite slice_app_skip by (rewrite ?La, ?Lb, ?Lc; cbn; lia); rewrite Lc; cbn [Nat.sub]. cbn [Nat.sub]. unfold slice. cbn [skipn]. apply firstn_all. }
  rewrite E3. destruct i; reflexivity.
Qed.
Lemma deserialize_empty b : dat (snd (deserialize b)) = []. Proof. reflexivity. Qed.

Lemma lastN_snoc {A} b (l : list A) x : 0 < b -> lastN b (l ++ [x]) = (if b <=? length (lastN b l) then tl (lastN b l) else lastN b l) ++ [x].
Proof.
  intros Hb. unfold lastN. rewrite skipn_length, app_length. cbn [length]. destruct (b <=? length l - (length l - b)) eqn:E; [apply Nat.leb_le in E|apply Nat.leb_gt in E].
  - rewrite skipn_app. replace (length l + 1 - b) with (S (length l - b)) by lia. replace (S (length l - b) - length l) with 0 by lia. cbn [skipn]. f_equal.
    clear - E Hb. assert (G : forall (l : list A) k, skipn (S k) l = tl (skipn k l)) by (induction l0 as [|y l0 IH]; intros [|k]; auto; apply IH). apply G.
  - replace (length l - b) with 0 by lia. replace (length l + 1 - b) with 0 by lia. reflexivity.
Qed.
Section Rsi.
Context (n B : nat) (dec : bytes -> bool * item) (P : 0 < B).
Lemma run_snoc l e : run n B dec (l ++ [e]) = step n B dec (run n B dec l) e.
Proof. unfold run. rewrite fold_left_app. reflexivity. Qed.
Definition pairs (l : list item) : list (nat * bytes) := map (fun i => (sn i, dat i)) l.
Lemma history_snoc c l e : history c (l ++ [e]) = history c l ++ history c [e].
Proof. apply flat_map_app. Qed.
Lemma cache_run l c : noRestart l -> pairs (cache (run n B dec l) c) = lastN B (history c l) /\ next (run n B dec l) c = length (history c l).
Proof using P.
  induction l as [|e l IH] using rev_ind; intros NR; [split; reflexivity|]. assert (NR' : noRestart l) by (intros H; apply NR, in_or_app; auto). destruct (IH NR') as [A1 A2]. rewrite run_snoc, history_snoc.
  destruct e as [x q d|]; [|exfalso; apply NR, in_or_app; right; left; reflexivity]. cbn [step]. unfold set. cbn [cache next history flat_map]. unfold upd. rewrite (Nat.eqb_sym x c). destruct (c =? x) eqn:E; cbn [app]; [|rewrite app_nil_r; auto].
  apply Nat.eqb_eq in E. subst x. rewrite app_length, lastN_snoc by exact P. cbn [length]. split; [|lia]. rewrite <- A1. unfold pairs. rewrite map_app, map_length. cbn [map]. f_equal. destruct (B <=? _); auto. destruct (cache (run n B dec l) c); reflexivity.
Qed.
Lemma slot_neq c x i j : c <> x -> c * B + i mod B <> x * B + j mod B.
Proof using P. intros H E. pose proof (Nat.mod_upper_bound i B ltac:(lia)). pose proof (Nat.mod_upper_bound j B ltac:(lia)). destruct (Nat.lt_trichotomy c x) as [L|[L|L]]; [|auto|]; [assert (S c <= x) by lia|assert (S x <= c) by lia]; nia. Qed.
Lemma disk_run l c j q d : noRestart l -> nth_error (history c l) j = Some (q, d) -> length (history c l) <= j + B -> disk (run n B dec l) (c * B + j mod B) = Some (serialize (mkItem j q d)).
Proof using P.
  induction l as [|e l IH] using rev_ind; intros NR H L; [destruct j; discriminate|]. assert (NR' : noRestart l) by (intros X; apply NR, in_or_app; auto). rewrite run_snoc. rewrite history_snoc in *.
  destruct e as [x r b|]; [|exfalso; apply NR, in_or_app; right; left; reflexivity]. cbn [step]. unfold set. cbn [disk history flat_map] in *. destruct (cache_run l x NR') as [_ A2]. rewrite A2. unfold upd. rewrite app_nil_r in *.
  destruct (x =? c) eqn:E; [apply Nat.eqb_eq in E; subst x|apply Nat.eqb_neq in E].
  - rewrite app_length in L. cbn [length] in L. destruct (Nat.lt_ge_cases j (length (history c l))) as [Lt|Ge].
    + rewrite nth_error_app1 in H by exact Lt. rewrite (IH NR' H ltac:(lia)). destruct (_ =? _) eqn:Q; [|reflexivity]. exfalso. apply Nat.eqb_eq in Q. assert (M : j mod B = length (history c l) mod B) by lia.
      pose proof (Nat.div_mod j B ltac:(lia)) as D1. pose proof (Nat.div_mod (length (history c l)) B ltac:(lia)) as D2. rewrite M in D1. assert (j / B < length (history c l) / B) by nia. nia.
    + assert (j = length (history c l)). { assert (X : nth_error (history c l ++ [(r, b)]) j <> None) by congruence. apply nth_error_Some in X. rewrite app_length in X. cbn in X. lia. } subst j. rewrite nth_error_app2, Nat.sub_diag in H by lia. injection H as <- <-. rewrite Nat.eqb_refl. reflexivity.
  - rewrite app_nil_r in *. rewrite (IH NR' H L). destruct (_ =? _) eqn:Q; [|reflexivity]. exfalso. apply Nat.eqb_eq in Q. revert Q. apply slot_neq. congruence.
Qed.
End Rsi.
(** After a restart there is nothing. *)
Lemma loaded_nil B c s : loaded B deserialize c s = [].
Proof.
  unfold loaded. assert (E : filter (fun i => negb (length (dat i) =? 0)) (map snd (entries B deserialize c s)) = []); [|rewrite E; reflexivity].
  unfold entries. induction (seq 0 B) as [|o l IH]; [reflexivity|]. cbn [flat_map]. rewrite map_app, filter_app, IH. destruct (disk s (c * B + o)) as [[|x b]|]; reflexivity.
Qed.
