(** C18. Values of every type of the message language decode to themselves; nothing is read past the end; truncated input is refused. *)
From Coq Require Import List Arith NArith ZArith Bool Lia Sorted.
From Verif Require Import Lib_Bytes Cmf_Model Cmf_Proofs.
Import ListNotations.
Open Scope Z_scope.

(** Serialised and read back, with anything behind it: the value itself, and exactly what is behind is left. *)
Theorem C18_round_trip t v rest : wfty t -> hasType t v -> dec t (enc t v ++ rest) = Some (v, rest).
Proof. intros W T. apply (proj1 rt_all t W v rest T). Qed.
(** So two values of one type have different encodings, and no encoding is a beginning of another. *)
Theorem C18_prefix_free t v w r1 r2 : wfty t -> hasType t v -> hasType t w -> enc t v ++ r1 = enc t w ++ r2 -> v = w /\ r1 = r2.
Proof. intros W Tv Tw E. pose proof (C18_round_trip t v r1 W Tv) as A. pose proof (C18_round_trip t w r2 W Tw) as B. rewrite E, B in A. inversion A. auto. Qed.
(** Every strict beginning of an encoding is refused. *)
Theorem C18_truncated_refused t v p q : wfty t -> hasType t v -> enc t v = p ++ q -> q <> [] -> dec t p = None.
Proof.
  intros W T E Q. destruct (dec t p) as [[w r]|] eqn:D; auto. exfalso. apply (proj1 mono_all t p w r q) in D. rewrite <- E in D. pose proof (C18_round_trip t v [] W T) as A. rewrite app_nil_r in A. rewrite A in D. inversion D as [[H1 H2]].
  symmetry in H2. apply app_eq_nil in H2. tauto.
Qed.
(** For arbitrary input: what decoding leaves is an end piece of the input, and the result is a value of the type. *)
Theorem C18_any_input t b v r : wfty t -> Forall isByte b -> dec t b = Some (v, r) -> (exists p, b = p ++ r) /\ hasType t v.
Proof. intros W F D. apply (proj1 sound_all t W b v r F D). Qed.
(** Without maps and lists of bool, the only accepted input for a value is its own encoding. *)
Theorem C18_canonical_partial t b v r : wfty t -> canonical t -> Forall isByte b -> dec t b = Some (v, r) -> b = enc t v ++ r.
Proof. intros W C F D. apply (proj1 canon_all t W C b v r F D). Qed.

(** What does not hold. The entries of a map are accepted in any order and repeated, and in a list of bool every byte other than 0 is true:
    different byte strings decode to the same value, so a digest over the bytes is not a digest over the value. *)
Theorem C18_map_malleable_refuted : exists b1 b2 v, b1 <> b2 /\ Forall isByte b1 /\ Forall isByte b2 /\ dec (TMap (TInt false 1) TBool) b1 = Some (v, []) /\ dec (TMap (TInt false 1) TBool) b2 = Some (v, []).
Proof.
  exists [0; 0; 0; 2; 5; 1; 7; 0]%N, [0; 0; 0; 3; 7; 0; 5; 1; 7; 1]%N. eexists. split; [discriminate|]. split; [repeat constructor|]. split; [repeat constructor|]. split; vm_compute; reflexivity.
Qed.
Theorem C18_bool_list_malleable_refuted : exists b1 b2 v, b1 <> b2 /\ Forall isByte b1 /\ Forall isByte b2 /\ dec (TList TBool) b1 = Some (v, []) /\ dec (TList TBool) b2 = Some (v, []) /\ dec TBool [9]%N = None.
Proof. exists [0; 0; 0; 1; 1]%N, [0; 0; 0; 1; 9]%N. eexists. split; [discriminate|]. split; [repeat constructor|]. split; [repeat constructor|]. repeat split. Qed.
(** The buffer overloads ignore what follows the message. *)
Theorem C18_trailing_bytes_refuted t v rest : wfty t -> hasType t v -> decodeBuffer t (enc t v ++ rest) = Some v.
Proof. intros W T. unfold decodeBuffer. rewrite C18_round_trip; auto. Qed.
(** Decoding into a string or byte vector that is not empty appends to it. *)
Theorem C18_not_fresh_refuted old s : Forall isByte s -> size32 (length s) -> old <> [] -> exists x, decStringInto old (encStr s) = Some (x, []) /\ x <> s.
Proof.
  intros F S N. exists (old ++ s). split; [unfold decStringInto; pose proof (decStr_enc s [] S) as D; rewrite app_nil_r in D; rewrite D; auto|].
  intros E. apply N. apply (f_equal (@length _)) in E. rewrite app_length in E. destruct old; [auto|simpl in E; lia].
Qed.
(** An enum with 256 tags (enumSize is a uint8_t, so 0) refuses all its values. *)
Theorem C18_enum_256_refuted z rest : dec (TEnum 256) (encInt 1 z ++ rest) = None.
Proof.
  cbn [dec]. destruct (decInt false 1 (encInt 1 z ++ rest)) as [[y r]|] eqn:D; auto. unfold decInt in D. rewrite take_app in D by apply encInt_len. inversion D. unfold toSigned. cbn [andb]. change (256 mod 256) with 0. destruct (Z.ltb_spec (Z.of_N (unbe (encInt 1 z))) 0); auto. lia.
Qed.

Print Assumptions C18_round_trip.
Print Assumptions C18_prefix_free.
Print Assumptions C18_truncated_refused.
Print Assumptions C18_any_input.
Print Assumptions C18_canonical_partial.
Print Assumptions C18_map_malleable_refuted.
Print Assumptions C18_bool_list_malleable_refuted.
Print Assumptions C18_trailing_bytes_refuted.
Print Assumptions C18_not_fresh_refuted.
Print Assumptions C18_enum_256_refuted.

(** Non-vacuity: a message with all kinds of fields, with a negative integer and a nested oneof. *)
Definition T1 : ty := TMsg (FCons (TInt true 4) (FCons (TMap TString (TList (TInt false 2))) (FCons (TOpt (TEnum 3)) (FCons (TOneof (ACons 7 (TMsg (FCons TBytes FNil)) (ACons 9 (TMsg FNil) ANil)))
  (FCons (TPair TBool (TArray (TInt true 1) 2)) FNil))))).
Definition v1 : val := VMsg [VInt (-2); VMap [(VStr [97%N], VList [VInt 258]); (VStr [97%N; 98%N], VList [])]; VOpt (Some (VInt 2)); VOneof 7 (VMsg [VStr [255%N]]); VPair (VBool true) (VList [VInt (-1); VInt 5])].
Example C18_example : wfty T1 /\ hasType T1 v1 /\ enc T1 v1 = [255; 255; 255; 254; 0; 0; 0; 2; 0; 0; 0; 1; 97; 0; 0; 0; 1; 1; 2; 0; 0; 0; 2; 97; 98; 0; 0; 0; 0; 1; 2; 0; 0; 0; 7; 0; 0; 0; 1; 255; 1; 255; 5]%N /\ dec T1 (enc T1 v1) = Some (v1, []).
Proof.
  split; [cbn; repeat split; auto; lia|]. split; [|split; vm_compute; reflexivity].
  cbn. unfold size32, isByte, strictlySorted. repeat split; try lia; repeat constructor; simpl; try lia.
Qed.
