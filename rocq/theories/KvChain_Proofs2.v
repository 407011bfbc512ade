(** Proofs for the categorized chain (C15), part 2: rebuilding raw blocks, the invariant. *)
From Coq Require Import List Arith NArith Lia Bool.
From Verif Require Import Lib_Bytes Keys_Model Keys_Proofs Lib_CF Versioned_Model Versioned_Proofs Immutable_Model Immutable_Proofs KvChain_Model KvChain_Proofs.
Import ListNotations.
Local Open Scope N_scope.
Local Opaque tagBit.

Section Chain.
Variable H : bytes -> bytes.
Variable HD : N -> raw -> bytes.

(** * Rebuilding the input of one category *)
Definition valOf (x : cat) (b : N) (k : bytes) : bytes := match vget x k b with Some (_, v) => v | None => [] end.
Lemma vrebuild_spec x b ks : (forall k stale, In (k, (false, stale)) ks -> vget x k b <> None) ->
  vrebuild x b ks = Some (map (fun e => (fst e, (valOf x b (fst e), snd (snd e)))) (filter (fun e => negb (fst (snd e))) ks), map fst (filter (fun e => fst (snd e)) ks)).
Proof.
  induction ks as [|[k [dl stale]] ks IH]; intros E; auto. cbn [vrebuild filter snd fst]. rewrite IH by (intros; eapply E; right; eauto). destruct dl; cbn [negb map fst snd]; auto.
  unfold valOf at 2. specialize (E k stale (or_introl eq_refl)). destruct (vget x k b) as [[? v]|]; auto. congruence.
Qed.
Lemma vrebuild_ok x b i : goodInput i -> sorted (kv i) -> sortedKeys (dels i) ->
  (forall k, vget x k b = match writeOf i k with Some (Wrote d _) => Some (b, d) | _ => None end) ->
  vrebuild x b (okeys (addOut H i)) = Some (kv i, dels i).
Proof.
  intros G Sk Sd V. pose proof (out_sorted H i) as So. rewrite vrebuild_spec.
  2:{ intros k stale I. apply In_cfGet in I; [|apply sorted_NoDup; auto]. rewrite out_get in I by auto. rewrite V. unfold flagsOf in I. destruct (writeOf i k) as [[d s|]|]; [discriminate|injection I; discriminate|discriminate]. }
  assert (Dj : forall k, In k (dels i) -> cfGet (kv i) k = None). { intros k I. apply cfGet_None. apply G. auto. }
  f_equal. f_equal.
  - apply sorted_ext; auto.
    + apply (sorted_mapf (fun e : bytes * (bool * bool) => (valOf x b (fst e), snd (snd e)))). apply sorted_filter; auto.
    + intros k. rewrite (cfGet_mapf (fun e : bytes * (bool * bool) => (valOf x b (fst e), snd (snd e)))). rewrite cfGet_filter by auto. rewrite out_get by auto.
      unfold valOf. cbn [fst snd]. rewrite V. unfold writeOf. destruct (cfGet (kv i) k) as [[d s]|]; cbn [flagsOf fst snd negb option_map]; auto.
      destruct (existsb (beqb k) (dels i)); auto.
  - assert (Ed : map (fun k => (k, tt)) (map fst (filter (fun e : bytes * (bool * bool) => fst (snd e)) (okeys (addOut H i)))) = map (fun k => (k, tt)) (dels i)).
    { rewrite map_map. apply sorted_ext; auto.
      - apply (sorted_mapf (fun _ : bytes * (bool * bool) => tt)). apply sorted_filter; auto.
      - intros k. rewrite (cfGet_mapf (fun _ : bytes * (bool * bool) => tt)). rewrite cfGet_filter by auto. rewrite out_get by auto.
        assert (Z : forall l, cfGet (map (fun k => (k, tt)) l) k = if existsb (beqb k) l then Some tt else None).
        { induction l as [|k' l IH]; auto. cbn [map cfGet existsb]. destruct (beqb k k'); cbn [orb]; auto. }
        rewrite Z. unfold writeOf. destruct (cfGet (kv i) k) as [[d s]|] eqn:Ek; cbn [flagsOf fst snd option_map].
        + destruct (existsb (beqb k) (dels i)) eqn:Ex; auto. apply existsb_In in Ex. apply Dj in Ex. congruence.
        + destruct (existsb (beqb k) (dels i)); auto. }
    apply (f_equal (map fst)) in Ed. rewrite !map_map in Ed. cbn [fst] in Ed. rewrite !map_id in Ed. auto.
Qed.
Lemma irebuild_ok x b l : (forall k d tags, In (k, (d, tags)) l -> iget x k b = Some (b, d)) ->
  irebuild x b (map (fun u => (fst u, snd (snd u))) l) = Some l.
Proof.
  induction l as [|[k [d t]] l IH]; intros E; auto. cbn [map irebuild fst snd]. rewrite IH by (intros; eapply E; right; eauto). rewrite (E k d t) by (left; auto). auto.
Qed.

(** * History *)
Lemma specParent_app us l j : (j <= length us)%nat -> specParent H HD (us ++ l) j = specParent H HD us j.
Proof. induction j as [|j IH]; intros L; auto. cbn [specParent]. rewrite IH by lia. rewrite app_nth1 by lia. auto. Qed.
Lemma specRaw_app us l i : 1 <= i <= N.of_nat (length us) -> specRaw H HD (us ++ l) i = specRaw H HD us i.
Proof. intros L. unfold specRaw. rewrite specParent_app, app_nth1 by lia. auto. Qed.
Definition specBlock (us : list updates) (i : N) : block :=
  {| b_parent := specParent H HD us (N.to_nat i - 1); b_info := map (fun e => (fst e, outOf H (snd e))) (nth (N.to_nat i - 1) us []) |}.
Lemma specBlock_app us l i : 1 <= i <= N.of_nat (length us) -> specBlock (us ++ l) i = specBlock us i.
Proof. intros L. unfold specBlock. rewrite specParent_app, app_nth1 by lia. auto. Qed.
Lemma specParent_S us i : 1 <= i -> specParent H HD us (N.to_nat i) = HD i (specRaw H HD us i).
Proof. intros L. unfold specRaw. destruct (N.to_nat i) as [|j] eqn:E; [lia|]. cbn [specParent]. replace (N.of_nat (S j)) with i by lia. cbn [Nat.sub]. rewrite Nat.sub_0_r. auto. Qed.

Definition outsV (c : bytes) (us : list updates) : N -> option voutput := fun b => Some (addOut H (vin c (nth (N.to_nat (b - 1)) us []))).
Definition outsI (c : bytes) (us : list updates) : N -> option ioutput := fun b => Some (iaddOut H (iin c (nth (N.to_nat (b - 1)) us []))).
Lemma upds_length h : length (upds h) = length (kb h). Proof. unfold upds. rewrite map_length; auto. Qed.
Lemma projV_len c h : hlen (projV c h) = klen h. Proof. unfold hlen, klen, projV. cbn [blocks]. rewrite map_length. auto. Qed.
Lemma projV_nth c h b : 1 <= b <= klen h -> exists g, nth_error (blocks (projV c h)) (N.to_nat (b - 1)) = Some (vin c (nth (N.to_nat (b - 1)) (upds h) []), g).
Proof.
  intros L. unfold klen in L. unfold projV. cbn [blocks]. destruct (nth_error (kb h) (N.to_nat (b - 1))) as [[u g]|] eqn:E.
  - exists g. erewrite map_nth_error by eauto. cbn [fst snd]. unfold upds. erewrite (nth_error_nth (map fst (kb h))); [reflexivity|]. erewrite map_nth_error by eauto. auto.
  - apply nth_error_None in E. lia.
Qed.
Lemma projV_at c h k b : 1 <= b <= klen h -> at_ (projV c h) k b = writeOf (vin c (nth (N.to_nat (b - 1)) (upds h) [])) k.
Proof. intros L. unfold at_. destruct (N.eqb_spec b 0); [lia|]. destruct (projV_nth c h b L) as (g & ->). auto. Qed.
Lemma projV_add c h u : projV c (kadd h u) = hstep (projV c h) (Add (vin c u)).
Proof. unfold projV, kadd, hstep. cbn [kb kg blocks hgen]. rewrite map_app. auto. Qed.
Lemma projV_gen c h : projV c {| kb := kb h; kg := kg h + 1 |} = hstep (projV c h) DelGenesis. Proof. reflexivity. Qed.
Lemma removelast_map {A B} (f : A -> B) l : removelast (map f l) = map f (removelast l).
Proof. induction l as [|a [|b l] IH]; auto. change (removelast (map f (a :: b :: l))) with (f a :: removelast (map f (b :: l))). rewrite IH. auto. Qed.
Lemma projV_last c h : projV c {| kb := removelast (kb h); kg := kg h |} = hstep (projV c h) DelLast.
Proof. unfold projV, hstep. cbn [kb kg blocks hgen]. rewrite removelast_map. auto. Qed.
Lemma number_app c l : forall i l', number i c (l ++ l') = number i c l ++ number (i + N.of_nat (length l)) c l'.
Proof. induction l as [|p l IH]; intros i l'; cbn [number app length]; [replace (i + N.of_nat 0) with i by lia; auto|]. rewrite IH. do 2 f_equal. f_equal. lia. Qed.
Lemma number_length c l : forall i, length (number i c l) = length l.
Proof. induction l; intros; cbn; auto. Qed.
Lemma number_In c l : forall i b x, In (b, x) (number i c l) -> exists j, b = i + N.of_nat j /\ (j < length l)%nat /\ x = iin c (nth j (map fst l) []).
Proof.
  induction l as [|p l IH]; intros i b x; cbn [number]; [intros []|]. intros [E|E]; [injection E as <- <-; exists 0%nat; cbn; repeat split; lia|].
  apply IH in E. destruct E as (j & -> & L & ->). exists (S j). cbn. repeat split; lia.
Qed.
Lemma number_nth c l : forall i j, (j < length l)%nat -> nth_error (number i c l) j = Some (i + N.of_nat j, iin c (nth j (map fst l) [])).
Proof. induction l as [|p l IH]; intros i [|j] L; cbn in *; try lia; [do 2 f_equal; lia|]. rewrite IH by lia. do 2 f_equal; lia. Qed.
Lemma skipn_In {A} n (l : list A) x : In x (skipn n l) <-> exists j, (n <= j)%nat /\ nth_error l j = Some x.
Proof.
  revert n. induction l as [|a l IH]; intros n; [rewrite skipn_nil; split; [intros []|intros ([|j] & _ & E); discriminate]|].
  destruct n; cbn [skipn].
  - split; [intros I; apply In_nth_error in I; destruct I as [j I]; exists j; split; [lia|auto]|intros (j & _ & E); apply nth_error_In in E; auto].
  - rewrite IH. split; intros (j & L & E); [exists (S j); split; [lia|auto]|destruct j as [|j]; [lia|exists j; split; [lia|auto]]].
Qed.
Lemma projI_In c h b x : In (b, x) (snd (projI c h)) <-> kg h <= b <= klen h /\ 1 <= b /\ x = iin c (nth (N.to_nat (b - 1)) (upds h) []).
Proof.
  unfold projI. cbn [snd]. rewrite skipn_In. split.
  - intros (j & L & E). assert (Lj : (j < length (kb h))%nat) by (rewrite <- (number_length c (kb h) 1); apply nth_error_Some; congruence). rewrite number_nth in E by auto. apply (f_equal (fun o => match o with Some p => p | None => (b, x) end)) in E. pose proof (f_equal fst E) as Eb. pose proof (f_equal snd E) as Ex. cbn [fst snd] in Eb, Ex. clear E. subst x.
    assert (b = N.of_nat j + 1) as -> by lia. clear Eb. unfold klen. split; [lia|]. split; [lia|]. unfold upds. do 2 f_equal. lia.
  - intros (R & L1 & ->). unfold klen in R. exists (N.to_nat (b - 1)). split; [lia|]. rewrite number_nth by lia. unfold upds. do 2 f_equal. lia.
Qed.
Lemma projI_len c h : kg h <= klen h + 1 -> 1 <= kg h -> N.of_nat (length (snd (projI c h))) = klen h + 1 - kg h.
Proof. intros L L1. unfold projI. cbn [snd]. rewrite skipn_length, number_length. unfold klen in *. lia. Qed.
Lemma projI_add c h u : kg h <= klen h + 1 -> projI c (kadd h u) = isstep (projI c h) (IAdd (iin c u)).
Proof.
  intros L. unfold projI, kadd, isstep. cbn [kb kg fst snd]. unfold klen in *. cbn [kb]. rewrite app_length. cbn [length]. f_equal; [lia|].
  rewrite number_app, skipn_app, number_length. cbn [number fst]. replace (N.to_nat (kg h) - 1 - length (kb h))%nat with 0%nat by lia. cbn [skipn]. do 3 f_equal. lia.
Qed.
Lemma skipn_S {A} n (l : list A) : skipn (S n) l = tl (skipn n l).
Proof. revert l. induction n; intros [|a l]; auto. change (skipn (S (S n)) (a :: l)) with (skipn (S n) l). rewrite IHn. auto. Qed.
Lemma projI_gen c h : 1 <= kg h -> projI c {| kb := kb h; kg := kg h + 1 |} = isstep (projI c h) IDelGenesis.
Proof. intros L. unfold projI, isstep. cbn [kb kg fst snd]. f_equal. replace (N.to_nat (kg h + 1) - 1)%nat with (S (N.to_nat (kg h) - 1)) by lia. apply skipn_S. Qed.
Lemma removelast_len {A} (l : list A) : length (removelast l) = (length l - 1)%nat.
Proof. induction l as [|a [|b l] IH]; auto. change (removelast (a :: b :: l)) with (a :: removelast (b :: l)). cbn [length] in *. rewrite IH. lia. Qed.
Lemma removelast_skipn {A} n (l : list A) : (n < length l)%nat -> removelast (skipn n l) = skipn n (removelast l).
Proof.
  intros L. destruct (exists_last (l := l)) as (l' & a & ->); [intros ->; cbn in L; lia|]. rewrite app_length in L. cbn [length] in L. rewrite skipn_app. replace (n - length l')%nat with 0%nat by lia. cbn [skipn].
  rewrite !removelast_last. auto.
Qed.
Lemma number_removelast c l i : number i c (removelast l) = removelast (number i c l).
Proof.
  destruct l as [|p l]; auto. destruct (exists_last (l := p :: l)) as (l' & a & ->); [discriminate|]. rewrite number_app. cbn [number]. rewrite !removelast_last. auto.
Qed.
Lemma projI_last c h : 1 <= kg h <= klen h -> projI c {| kb := removelast (kb h); kg := kg h |} = isstep (projI c h) IDelLast.
Proof.
  intros L. unfold projI, isstep, klen in *. cbn [kb kg fst snd]. rewrite removelast_len. f_equal; [lia|]. rewrite number_removelast, removelast_skipn; auto. rewrite number_length. lia.
Qed.
End Chain.
