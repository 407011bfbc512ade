(** C46: the replica-specific information of replies. *)
From Coq Require Import List Arith NArith Bool Lia.
From Verif Require Import Lib_Bytes Rsi_Model Rsi_Proofs.
Import ListNotations.

(** As long as the replica does not restart: the information of a request is that saved for it, among the last ones of its client; those of other clients do not matter. *)
Theorem C46_last_kept_partial n B l c q : 0 < B -> noRestart l -> get c q (run n B deserialize l) = match find (fun p => fst p =? q) (lastN B (history c l)) with Some p => snd p | None => [] end.
Proof.
  intros P N. destruct (cache_run n B deserialize P l c N) as [A _]. rewrite <- A. clear A. unfold get, pairs. induction (cache (run n B deserialize l) c) as [|i r IH]; [reflexivity|]. cbn [find map fst]. destruct (sn i =? q); [reflexivity|exact IH].
Qed.
Print Assumptions C46_last_kept_partial.
(** Each of the last entries of each client is stored, and what is stored has all of it: the index, the sequence number and the data. *)
Theorem C46_stored n B l c j q d : 0 < B -> noRestart l -> nth_error (history c l) j = Some (q, d) -> length (history c l) <= j + B -> (N.of_nat j < 2 ^ 64)%N -> (N.of_nat q < 2 ^ 64)%N -> (N.of_nat (length d) < 2 ^ 64)%N ->
  exists b o, o < B /\ disk (run n B deserialize l) (c * B + o) = Some b /\ decode b = (false, mkItem j q d).
Proof. intros P N H L B1 B2 B3. exists (serialize (mkItem j q d)), (j mod B). split; [apply Nat.mod_upper_bound; lia|]. split; [apply disk_run; auto|]. apply decode_serialize; auto. Qed.
Print Assumptions C46_stored.

(** * What does not hold. *)
(** After a restart all of it is lost, whatever was saved: the data is copied to an empty string, so that the loaded entries count as empty. *)
Theorem C46_survives_restart_refuted n B l c q : get c q (run n B deserialize (l ++ [Restart])) = [].
Proof. rewrite run_snoc. cbn [step]. unfold get, init. cbn [cache]. destruct (c <? n); [|reflexivity]. rewrite loaded_nil. reflexivity. Qed.
Print Assumptions C46_survives_restart_refuted.
(** And the copy runs over the end of the buffer, when the data is longer than 16 bytes. *)
Theorem C46_restart_safe_refuted : exists l, over (run 1 1 deserialize l) = true.
Proof. exists [Set_ 0 1 (repeat 7%N 17); Restart]. vm_compute. reflexivity. Qed.
Print Assumptions C46_restart_safe_refuted.
(** With the data copied as it should be, the first entry after a restart would take the place of the newest stored one, as the index goes on with the last one used. *)
Theorem C46_index_after_restart_refuted : let a := Set_ 0 1 [1%N] in let b := Set_ 0 2 [2%N] in let c := Set_ 0 3 [3%N] in
  get 0 2 (run 1 3 decode [a; b; Restart]) = [2%N] /\ get 0 2 (run 1 3 decode [a; b; c; Restart]) = [2%N] /\ get 0 2 (run 1 3 decode [a; b; Restart; c; Restart]) = [] /\ get 0 3 (run 1 3 decode [a; b; Restart; c; Restart]) = [3%N].
Proof. vm_compute. auto. Qed.
Print Assumptions C46_index_after_restart_refuted.
(** What is saved is not the information that follows the reply: it starts too late, by the length of the header. *)
Theorem C46_saved_right_refuted : exists hdr reply info rest, hdr = 28 /\ saved hdr (reply ++ info ++ rest) (length reply + length info) (length info) <> info.
Proof. exists 28, [1%N; 2%N], [5%N; 6%N], (repeat 0%N 30). split; [reflexivity|]. vm_compute. discriminate. Qed.
Print Assumptions C46_saved_right_refuted.
(** A reply with information cannot be sent again: the assertion about its length fails. *)
Theorem C46_resent_refuted replyLength rsi : rsi <> [] -> fits replyLength rsi = false.
Proof. intros H. unfold fits. destruct rsi as [|x r]; [congruence|]. cbn [length]. apply orb_false_iff. split; [reflexivity|]. apply Nat.leb_gt. lia. Qed.
Print Assumptions C46_resent_refuted.

(** * The hypotheses are met. *)
Definition l0 : list event := [Set_ 0 1 [1%N]; Set_ 1 1 [9%N]; Set_ 0 2 [2%N; 2%N]; Set_ 0 3 [3%N]; Set_ 0 4 [4%N]].
Example last_kept_ex : noRestart l0 /\ map (fun q => get 0 q (run 2 3 deserialize l0)) [1; 2; 3; 4] = [[]; [2%N; 2%N]; [3%N]; [4%N]] /\ get 1 1 (run 2 3 deserialize l0) = [9%N].
Proof. split; [intros H; cbn in H; intuition discriminate|]. vm_compute. auto. Qed.
Example stored_ex : nth_error (history 0 l0) 3 = Some (4, [4%N]) /\ length (history 0 l0) <= 3 + 3 /\ option_map decode (disk (run 2 3 deserialize l0) 0) = Some (false, mkItem 3 4 [4%N]).
Proof. vm_compute. auto. Qed.
