(** C24. Pre-processing results need f+1 equal hashes. *)
From Coq Require Import List Arith NArith Bool Lia Sorting.Sorted.
From Verif Require Import Lib_Bytes Pre_Model Pre_Proofs.
Import ListNotations.
Local Open Scope N_scope.

(** * The primary *)
(** A request completes only when some hash was reported by f+1 different replicas, and what is handed to consensus is: the primary's own
    result, which has this hash; or the primary's result with the block id replaced by 0, which has this hash; or, if the others agree on an
    error and the primary succeeded, no defined data at all. *)
Theorem C24_complete (before : hash -> hash -> bool) (sign : N -> hash -> bytes) (me client seq : N) (f : nat) (n : N) (es : list event) (s : st) :
  run before sign me client seq (S f) n (EStart :: es) st0 = (s, Complete) ->
  exists h l, NoDup l /\ (S f <= length l)%nat /\ (forall r, In r l -> reports me client seq es h r) /\
  exists buf len res, In (EPrimary buf len res) es /\
    ((h = createHash (firstn len buf) res client seq /\ (res = SUCCESS -> pdata s = Some (firstn len buf))) \/
     (res = SUCCESS /\ h = createHash (zeroed (firstn len buf)) SUCCESS client seq /\ pdata s = Some (zeroed (firstn len buf))) \/
     (res = SUCCESS /\ agreed s <> SUCCESS /\ pdata s = None)).
Proof.
  intros H. apply run_start in H. destruct H as [[H _]|[H|(s1 & I & D)]]; try discriminate.
  destruct (define_complete _ _ _ _ _ _ _ _ _ D) as (h & vs & P & L & B & A & Pr & C). apply pick_in in P. destruct P as (P1 & P2 & P3).
  destruct (votes_list _ _ _ _ _ _ _ _ I P1) as [V1 V2].
  assert (M : forall x r, reports me client seq (EStart :: es) x r -> reports me client seq es x r).
  { intros x r [(k & q & [Q|Q] & Q')|(E & b & l & q & [Q|Q] & Q')]; try discriminate; [left; exists k, q; auto|right; split; auto; exists b, l, q; auto]. }
  exists h, (map vsender vs). split; auto. split; [rewrite map_length; auto|]. split; [intros r Hr; apply M; auto|].
  destruct (i_prim _ _ _ _ _ _ I) as [X|(buf & len & res & [X|X] & E1 & E2 & E3)]; [congruence|discriminate|]. exists buf, len, res. split; auto.
  destruct C as [(C1 & C2 & C3 & C4)|[(C1 & C2 & C3 & C4 & C5 & C6)|(d & C1 & C2 & C3 & C4 & C5 & C6 & C7 & C8 & C9)]].
  - left. split; [congruence|]. intros ->. rewrite C3, E3. auto.
  - right. right. split; [congruence|auto].
  - right. left. assert (res = SUCCESS) by congruence. subst res. rewrite H in E3. rewrite C4 in E3. cbn in E3. injection E3 as ->. auto.
Qed.
Print Assumptions C24_complete.

(** If every replica reports at most one hash and only replicas report: a request is cancelled only when some other hash than the primary's
    has f+1 reports, or everyone has reported and no hash has f+1. *)
Definition oneReport (me client seq n : N) (es : list event) : Prop :=
  (forall h h' r, reports me client seq es h r -> reports me client seq es h' r -> h = h') /\ (forall h r, reports me client seq es h r -> r < n).
Lemma reported_vin s h r : reported s h r <-> exists v, vIn h v (votes s) /\ vsender v = r.
Proof. unfold reported, vIn. split; [intros (vs & v & A & B & C); exists v; split; auto; exists vs; auto|intros (v & (vs & A & B) & C); exists vs, v; auto]. Qed.
Lemma reportedBy_len s h k : mok (votes s) -> (1 <= k)%nat -> (reportedBy s h k <-> exists vs, In (h, vs) (votes s) /\ (k <= length vs)%nat).
Proof.
  intros W K. split.
  - intros (l & N & L & R). assert (E : exists r, In r l) by (destruct l; [cbn in L; lia|exists n; left; auto]). destruct E as (r & Hr). apply R in Hr. destruct Hr as (vs & v & A & _).
    exists vs. split; auto. etransitivity; [exact L|]. rewrite <- (map_length vsender vs). apply NoDup_incl_length; auto. intros x Hx. apply R in Hx. destruct Hx as (ws & w & A' & B' & <-).
    assert (ws = vs); [|subst; apply in_map; auto]. destruct W as [W _]. apply in_split in A. destruct A as (a & b & A). rewrite A in *. apply (key_unique a b h vs); auto.
  - intros (vs & A & L). exists (map vsender vs). split; [apply ssorted_nodup, (proj2 W h); auto|]. rewrite map_length. split; auto. intros r Hr. apply in_map_iff in Hr. destruct Hr as (v & <- & Hv). exists vs, v. auto.
Qed.
Lemma all_reported me client seq n es s sign : Inv sign me client seq es s -> oneReport me client seq n es -> n < 65536 ->
  (recv s = n <-> forall r, r < n -> exists h, reported s h r).
Proof.
  intros I [O1 O2] Hn. destruct (nodup_all_senders (votes s)) as (l & L1 & L2 & L3).
  { apply (i_ok _ _ _ _ _ _ I). }
  { intros h h' v v' A B E. eapply O1; [apply (evVote_reports sign), (i_prov _ _ _ _ _ _ I); exact A|]. rewrite E. apply (evVote_reports sign), (i_prov _ _ _ _ _ _ I). exact B. }
  set (u := map N.of_nat (List.seq 0 (N.to_nat n))).
  assert (U : forall r, In r u <-> r < n).
  { intros r. unfold u. rewrite in_map_iff. split; [intros (x & <- & Hx); apply in_seq in Hx; lia|]. intros Hr. exists (N.to_nat r). rewrite N2Nat.id. split; auto. apply in_seq. lia. }
  assert (Ul : length u = N.to_nat n) by (unfold u; rewrite map_length, seq_length; auto).
  assert (Un : NoDup u) by (unfold u; apply FinFun.Injective_map_NoDup; [intros a b; lia|apply seq_NoDup]).
  assert (LI : incl l u). { intros r Hr. apply U. apply L3 in Hr. destruct Hr as (h & v & A & <-). eapply O2, (evVote_reports sign), (i_prov _ _ _ _ _ _ I). eauto. }
  assert (Lb : (length l <= N.to_nat n)%nat) by (rewrite <- Ul; apply NoDup_incl_length; auto).
  assert (R : recv s = N.of_nat (length l)). { rewrite (i_recv _ _ _ _ _ _ I), <- L2. apply N.mod_small. lia. }
  rewrite R. split.
  - intros E r Hr. assert (In r l) as Hl by (apply (NoDup_length_incl L1 (l' := u)); auto; [lia|apply U; auto]). apply L3 in Hl. destruct Hl as (h & v & A & B). exists h. apply reported_vin. exists v. auto.
  - intros F. assert (length u <= length l)%nat; [|lia]. apply NoDup_incl_length; auto. intros r Hr. apply U in Hr. destruct (F r Hr) as (h & Hh). apply reported_vin in Hh. destruct Hh as (v & A & B). apply L3. exists h, v. auto.
Qed.
Theorem C24_cancel_justified (before : hash -> hash -> bool) (sign : N -> hash -> bytes) (me client seq : N) (f : nat) (n : N) (es : list event) (s : st) :
  n < 65536 -> oneReport me client seq n es ->
  run before sign me client seq (S f) n (EStart :: es) st0 = (s, Cancel) ->
  (exists h, h <> phash s /\ reportedBy s h (S f)) \/
  ((forall r, r < n -> exists h, reported s h r) /\ forall h, ~ reportedBy s h (S f)).
Proof.
  intros Hn O H. apply run_start in H. destruct H as [[H _]|[H|(s1 & I & D)]]; try discriminate.
  apply define_cancel in D; [|lia]. destruct D as (D1 & D2 & D). pose proof (i_ok _ _ _ _ _ _ I) as W.
  assert (O' : oneReport me client seq n (EStart :: es)).
  { assert (M : forall x r, reports me client seq (EStart :: es) x r -> reports me client seq es x r).
    { intros x r [(k & q & [Q|Q] & Q')|(E & b & l & q & [Q|Q] & Q')]; try discriminate; [left; exists k, q; auto|right; split; auto; exists b, l, q; auto]. }
    destruct O as [O1 O2]. split; [intros; eapply O1; apply M; eauto|intros; eapply O2; apply M; eauto]. }
  destruct D as [(h & vs & A & B & C)|[A B]].
  - left. exists h. rewrite D2. split; auto. apply reportedBy_len; [rewrite D1; auto|lia|]. exists vs. rewrite D1. auto.
  - right. split.
    + intros r Hr. destruct (proj1 (all_reported _ _ _ _ _ _ _ I O' Hn) A r Hr) as (h & vs & v & X). exists h, vs, v. rewrite D1. auto.
    + intros h X. apply reportedBy_len in X; [|rewrite D1; auto|lia]. destruct X as (vs & X & Y). rewrite D1 in X. apply B in X. lia.
Qed.
Print Assumptions C24_cancel_justified.

(** Under the same assumption a request never waits for ever for want of a verdict: once the primary is done and everyone has reported, it is
    completed or cancelled. *)
Theorem C24_decides (before : hash -> hash -> bool) (sign : N -> hash -> bytes) (me client seq : N) (f : nat) (n : N) (es : list event) (s : st) :
  n < 65536 -> N.of_nat (S f) <= n -> oneReport me client seq n es ->
  run before sign me client seq (S f) n (EStart :: es) st0 = (s, Continue) ->
  busy s = true \/ exists r, r < n /\ forall h, ~ reported s h r.
Proof.
  intros Hn Hf O H. pose proof H as H'. apply run_start in H. assert (I : Inv sign me client seq (EStart :: es) s).
  { destruct H as [[_ H]|[H|(s1 & I & D)]]; [auto|discriminate|]. eapply Inv_same; [exact I|]. eapply define_continue. exact D. }
  assert (O' : oneReport me client seq n (EStart :: es)).
  { assert (M : forall x r, reports me client seq (EStart :: es) x r -> reports me client seq es x r).
    { intros x r [(k & q & [Q|Q] & Q')|(E & b & l & q & [Q|Q] & Q')]; try discriminate; [left; exists k, q; auto|right; split; auto; exists b, l, q; auto]. }
    destruct O as [O1 O2]. split; [intros; eapply O1; apply M; eauto|intros; eapply O2; apply M; eauto]. }
  destruct (busy s) eqn:Bs; auto. right.
  assert (Rn : recv s <> n).
  { intros E. cbn [run step] in H'. apply run_waiting in H'; [|left; reflexivity]. destruct H' as [H'|H']; [congruence|]. apply (define_decides before sign me client seq (S f) n s); auto; lia. }
  destruct (N.eq_dec (recv s) n) as [|_]; [tauto|].
  destruct (Forall_Exists_dec (fun r => exists h, reported s h r)) with (l := map N.of_nat (List.seq 0 (N.to_nat n))) as [F|F].
  - intros r. destruct (existsb (fun p => existsb (fun v => vsender v =? r) (snd p)) (votes s)) eqn:E.
    + left. apply existsb_exists in E. destruct E as ([h vs] & A & E). apply existsb_exists in E. destruct E as (v & B & E). apply N.eqb_eq in E. exists h, vs, v. auto.
    + right. intros (h & vs & v & A & B & C). assert (existsb (fun p => existsb (fun v => vsender v =? r) (snd p)) (votes s) = true); [|congruence].
      apply existsb_exists. exists (h, vs). split; auto. apply existsb_exists. exists v. split; auto. apply N.eqb_eq. auto.
  - exfalso. apply Rn. eapply all_reported; eauto. intros r Hr. rewrite Forall_forall in F. apply F. apply in_map_iff. exists (N.to_nat r). rewrite N2Nat.id. split; auto. apply in_seq. lia.
  - apply Exists_exists in F. destruct F as (r & Hr & F). apply in_map_iff in Hr. destruct Hr as (x & <- & Hx). apply in_seq in Hx. exists (N.of_nat x). split; [lia|]. intros h X. apply F. exists h. auto.
Qed.
Print Assumptions C24_decides.

(** * The other replicas *)
(** A result message whose signatures are found valid carries f+1 signatures of different replicas over one hash: that of its body, client and
    number with some result code. *)
Theorem C24_backup_accepts (sign : N -> hash -> bytes) (verify : N -> hash -> bytes -> bool) (me : N) (f : nat) (m : resultMsg) (d : bytes) :
  (forall h, verify me h (sign me h) = true) -> mbody m = Some d ->
  validateSigs sign verify me f m = Some true ->
  exists res l, NoDup l /\ length l = S f /\ forall r, In r l -> exists sig, verify r (createHash d res (mclient m) (mseq m)) sig = true.
Proof.
  intros V Bd. unfold validateSigs, deserialize. destruct (deser _ (msigs m) []) as [vs|] eqn:D; [|discriminate]. apply deser_sorted in D; [|constructor].
  destruct (Nat.eqb_spec (length vs) (S f)) as [L|L]; cbn [negb]; [|discriminate]. intros X. injection X as X. rewrite Bd in X.
  exists (match vs with v :: _ => vres v | [] => UNKNOWN end), (map vsender vs). split; [apply ssorted_nodup; auto|]. split; [rewrite map_length; auto|].
  intros r Hr. apply in_map_iff in Hr. destruct Hr as (v & <- & Hv). rewrite forallb_forall in X. specialize (X v Hv). exists (vsig v). destruct (N.eqb_spec (vsender v) me) as [->|]; auto.
  apply bytesEqb_ok in X. rewrite <- X. auto.
Qed.
Print Assumptions C24_backup_accepts.
Lemma createHash_inj4 d r c s d' r' c' s' : r < 2^32 -> r' < 2^32 -> c < 2^16 -> c' < 2^16 -> s < 2^64 -> s' < 2^64 -> createHash d r c s = createHash d' r' c' s' ->
  r = r' /\ c = c' /\ s = s' /\ (r = SUCCESS -> d = d').
Proof.
  unfold createHash. intros R R' C C' S S' H. injection H as H.
  assert (L : length (le 4 r ++ le 2 c ++ le 8 s) = length (le 4 r' ++ le 2 c' ++ le 8 s')) by (rewrite !app_length, !le_length; auto).
  destruct (app_tail_inj _ _ _ _ L H) as [H1 H2]. assert (L2 : length (le 2 c ++ le 8 s) = length (le 2 c' ++ le 8 s')) by (rewrite !app_length, !le_length; auto).
  destruct (app_tail_inj _ _ _ _ L2 H2) as [H3 H4]. assert (L3 : length (le 8 s) = length (le 8 s')) by (rewrite !le_length; auto). destruct (app_tail_inj _ _ _ _ L3 H4) as [H5 H6].
  apply le_inj in H3; auto. apply le_inj in H5; auto. apply le_inj in H6; auto. repeat split; auto. intros Z. subst r r'. cbn in H1. auto.
Qed.
(** So, with at most f Byzantine replicas, some correct replica pre-processed this very request with that result code, and if the code is
    SUCCESS the body is the result this correct replica computed. *)
Theorem C24_backup_result_correct (sign : N -> hash -> bytes) (verify : N -> hash -> bytes -> bool) (me : N) (f : nat) (m : resultMsg) (d : bytes)
  (byz : list N) (computed : N -> N -> N -> bytes -> N -> Prop) :
  (forall h, verify me h (sign me h) = true) -> mbody m = Some d -> mclient m < 2^16 -> mseq m < 2^64 -> (length byz <= f)%nat ->
  (forall r h sig, ~ In r byz -> verify r h sig = true -> exists d' res c s, computed r c s d' res /\ res < 2^32 /\ c < 2^16 /\ s < 2^64 /\ h = createHash d' res c s) ->
  validateSigs sign verify me f m = Some true -> (forall v vs, deserialize (msigs m) = Some (v :: vs) -> vres v < 2^32) ->
  exists r d' res, ~ In r byz /\ computed r (mclient m) (mseq m) d' res /\ (res = SUCCESS -> d' = d).
Proof.
  intros V Bd C Sq B H X Y.
  assert (Z : exists res l, res < 2^32 /\ NoDup l /\ length l = S f /\ forall r, In r l -> exists sig, verify r (createHash d res (mclient m) (mseq m)) sig = true).
  { unfold validateSigs in X. destruct (deserialize (msigs m)) as [vs|] eqn:D; [|discriminate]. assert (Sv : ssorted vs) by (unfold deserialize in D; apply deser_sorted in D; auto; constructor).
    destruct (Nat.eqb_spec (length vs) (Datatypes.S f)) as [L|L]; cbn [negb] in X; [|discriminate]. injection X as X. rewrite Bd in X.
    destruct vs as [|v0 vs0] eqn:Evs; [discriminate|]. rewrite <- Evs in *. exists (vres v0), (map vsender vs). split; [apply (Y v0 vs0); congruence|]. split; [apply ssorted_nodup; auto|]. split; [rewrite map_length; auto|].
    intros r Hr. apply in_map_iff in Hr. destruct Hr as (v & <- & Hv). rewrite forallb_forall in X. specialize (X v Hv). exists (vsig v). destruct (N.eqb_spec (vsender v) me) as [->|]; auto.
    apply bytesEqb_ok in X. rewrite <- X. auto. }
  destruct Z as (res & l & Rr & N & L & F).
  assert (E : exists r, In r l /\ ~ In r byz).
  { destruct (Forall_Exists_dec (fun r => In r byz) (fun r => in_dec N.eq_dec r byz) l) as [A|A].
    - exfalso. rewrite Forall_forall in A. pose proof (NoDup_incl_length N A). lia.
    - apply Exists_exists in A. destruct A as (r & A1 & A2). exists r. auto. }
  destruct E as (r & Hr & Br). destruct (F r Hr) as (sig & Vs). destruct (H _ _ _ Br Vs) as (d' & res' & c & s & Cm & R1 & R2 & R3 & E).
  apply createHash_inj4 in E; auto. destruct E as (<- & <- & <- & E). exists r, d', res. repeat split; auto. intros Q. symmetry. auto.
Qed.
Print Assumptions C24_backup_result_correct.

(** * A completed request is accepted by every other replica *)
Lemma message_ok sign verify me' f m h vs body client seq res :
  (forall r h b, verify r h b = true <-> b = sign r h) -> mok m -> lookup h m = Some vs -> (S f <= length vs)%nat -> Forall wireOk vs ->
  (forall v, In v vs -> verify (vsender v) h (vsig v) = true /\ vres v = res) -> createHash body res client seq = h ->
  forall mr, validateSigs sign verify me' f (mkRM (Some body) mr client seq (serialize (S f) vs)) = Some true.
Proof.
  intros V W Lk L Wi F E mr. unfold lookup in Lk. destruct (find _ m) as [[g ws]|] eqn:Fd; [|discriminate]. injection Lk as ->. apply find_some in Fd. destruct Fd as [Fd Eg]. apply hashEqb_ok in Eg. cbn in Eg. subst g.
  assert (Sv : ssorted vs) by (apply (proj2 W h); auto). unfold validateSigs, serialize. cbn [msigs mbody mclient mseq].
  assert (Sf : ssorted (firstn (S f) vs)) by (rewrite <- (firstn_skipn (S f) vs) in Sv; eapply ssorted_app_inv; eauto).
  assert (Lf : length (firstn (S f) vs) = S f) by (rewrite firstn_length; lia).
  rewrite deserialize_ok; auto; [|intros Z; rewrite Z in Lf; discriminate|apply Forall_forall; intros v Hv; rewrite Forall_forall in Wi; apply Wi; rewrite <- (firstn_skipn (S f) vs); apply in_app_iff; auto].
  rewrite Lf, Nat.eqb_refl. cbn [negb]. destruct (firstn (S f) vs) as [|v0 l0] eqn:Ef; [discriminate|]. rewrite <- Ef in *. f_equal. apply forallb_forall. intros v Hv.
  assert (Iv : forall w, In w (firstn (S f) vs) -> In w vs) by (intros w Hw; rewrite <- (firstn_skipn (S f) vs); apply in_app_iff; auto).
  assert (R0 : vres v0 = res) by (apply F, Iv; rewrite Ef; left; auto). rewrite R0, E. destruct (F v (Iv v Hv)) as [F1 _]. destruct (vsender v =? me') eqn:Q; auto. apply N.eqb_eq in Q. rewrite Q in F1. apply V in F1. rewrite F1. apply bytesEqb_ok. auto.
Qed.
(** Provided every counted reply carries a valid signature of the replica it is filed under and the result code that its hash was made with,
    the message that a completed request produces is accepted by every other replica. *)
Theorem C24_completed_message_validates (before : hash -> hash -> bool) (sign : N -> hash -> bytes) (verify : N -> hash -> bytes -> bool) (me me' client seq : N) (f : nat) (n : N) (es : list event) (s : st) :
  (forall r h b, verify r h b = true <-> b = sign r h) -> (forall r h, N.of_nat (length (sign r h)) < 2^32) -> me < 2^16 ->
  (forall k r, In (EReply k r) es -> rstatus r <> Reject ->
     filedUnder k r < 2^16 /\ rres r < 2^32 /\ verify (filedUnder k r) (rhash r) (rsig r) = true /\ exists d, rhash r = createHash d (rres r) client seq) ->
  (forall buf len res, In (EPrimary buf len res) es -> res < 2^32) ->
  run before sign me client seq (S f) n (EStart :: es) st0 = (s, Complete) -> pdata s <> None ->
  exists m, finalize client seq (S f) s = Some m /\ validateSigs sign verify me' f m = Some true.
Proof.
  intros V Sl Me Hr Hp H Pd. apply run_start in H. destruct H as [[H _]|[H|(s1 & I & D)]]; try discriminate.
  destruct (define_complete _ _ _ _ _ _ _ _ _ D) as (h & vs & P & L & B & A & Pr & C). apply pick_in in P. destruct P as (P1 & P2 & P3).
  destruct (i_prim _ _ _ _ _ _ I) as [X|(buf & len & res & [X|X] & E1 & E2 & E3)]; [congruence|discriminate|]. pose proof (i_ok _ _ _ _ _ _ I) as W.
  (* every recorded vote is well formed *)
  assert (G : forall h v, vIn h v (votes s1) -> wireOk v /\ verify (vsender v) h (vsig v) = true /\ exists d, h = createHash d (vres v) client seq).
  { intros g v Hv. apply (i_prov _ _ _ _ _ _ I) in Hv. destruct Hv as [(k & r & [Q|Q] & Q1 & <- & ->)|(b & l & r & [Q|Q] & -> & ->)]; try discriminate.
    - destruct (Hr k r Q Q1) as (Y1 & Y2 & Y3 & Y4). unfold wireOk. cbn. repeat split; auto. apply V in Y3. rewrite Y3. apply Sl.
    - unfold wireOk. cbn [vsender vsig vres]. repeat split; auto; [eapply Hp; eauto|apply V; auto|eauto]. }
  assert (LK : forall m h vs, mok m -> In (h, vs) m -> lookup h m = Some vs).
  { intros m g ws [W1 _] Hg. unfold lookup. destruct (find (fun p => hashEqb g (fst p)) m) as [[g' ws']|] eqn:Fd.
    - apply find_some in Fd. destruct Fd as [Fd Eg]. apply hashEqb_ok in Eg. cbn in Eg. subst g'. cbn. f_equal. apply in_split in Hg. destruct Hg as (a & c & Hg). rewrite Hg in *. apply (key_unique a c g ws); auto.
    - exfalso. apply (find_none _ _ Fd (g, ws)) in Hg. cbn in Hg. apply hashEqb_no in Hg. tauto. }
  unfold finalize.
  destruct C as [(C1 & C2 & C3 & C4)|[(C1 & C2 & C3 & C4 & C5 & C6)|(d & C1 & C2 & C3 & C4 & C5 & C6 & C7 & C8 & C9)]]; [|tauto|].
  - assert (Hh : h = createHash (firstn len buf) res client seq) by congruence.
    rewrite C2, C4, (LK _ _ _ W P1), C3, E3. eexists. split; [reflexivity|].
    apply (message_ok sign verify me' f (votes s1) h vs _ client seq res); auto.
    + apply Forall_forall. intros v Hv. apply (G h). exists vs. auto.
    + intros v Hv. destruct (G h v) as (G1 & G2 & d & G3); [exists vs; auto|]. split; auto. rewrite Hh in G3. apply createHash_inj in G3; [symmetry; tauto| |apply G1]. eapply Hp; eauto.
    + rewrite Hh. unfold createHash. destruct (res =? SUCCESS); auto.
  - destruct (addVote before h (mkV me (sign me h) (pres s1)) (votes s1)) as [m' b] eqn:Av. cbn [fst] in C9. pose proof (addVote_spec _ _ _ _ _ _ W Av) as (W' & Vi & _ & _).
    assert (Rs : res = SUCCESS) by congruence.
    assert (Vh : exists vs', In (h, vs') m' /\ (S f <= length vs')%nat).
    { destruct vs as [|v0 vs0]; [tauto|]. destruct (proj2 (Vi h v0)) as (vs' & Q1 & Q2); [left; exists (v0 :: vs0); cbn; auto|]. exists vs'. split; auto.
      etransitivity; [exact L|]. rewrite <- (map_length vsender (v0 :: vs0)), <- (map_length vsender vs'). apply NoDup_incl_length; [apply ssorted_nodup, (proj2 W h); auto|].
      intros r Hr'. apply in_map_iff in Hr'. destruct Hr' as (v & <- & Hv). apply in_map. destruct (proj2 (Vi h v)) as (ws & Q3 & Q4); [left; exists (v0 :: vs0); auto|].
      assert (ws = vs'); [|subst; auto]. pose proof (LK _ _ _ W' Q3). pose proof (LK _ _ _ W' Q1). congruence. }
    destruct Vh as (vs' & Q1 & Q2). rewrite C7, C9, (LK _ _ _ W' Q1), C8. eexists. split; [reflexivity|].
    assert (Gm : forall v, In v vs' -> wireOk v /\ verify (vsender v) h (vsig v) = true /\ vres v = SUCCESS).
    { intros v Hv. destruct (proj1 (Vi h v)) as [Q|(-> & _ & ->)]; [exists vs'; auto| |].
      - destruct (G h v Q) as (G1 & G2 & d' & G3). split; auto. split; auto. rewrite C6 in G3. apply createHash_inj in G3; [symmetry; tauto|reflexivity|apply G1].
      - unfold wireOk. cbn [vsender vsig vres]. rewrite C2. repeat split; auto. apply V. auto. }
    apply (message_ok sign verify me' f m' h vs' _ client seq SUCCESS); auto.
    + apply Forall_forall. intros v Hv. apply Gm. auto.
    + intros v Hv. split; apply Gm; auto.
Qed.
Print Assumptions C24_completed_message_validates.
(** The message names the client, the request and the agreed data; a result that the replicas agreed was successful is to be executed (UNKNOWN), any
    other result is passed on as it is and the request is not executed. *)
Theorem C24_message_contents (client seq : N) (k : nat) (s : st) (m : resultMsg) : finalize client seq k s = Some m ->
  mclient m = client /\ mseq m = seq /\ mbody m = pdata s /\ (agreed s = SUCCESS -> mres m = UNKNOWN) /\ (agreed s <> SUCCESS -> mres m = agreed s).
Proof.
  unfold finalize. destruct (lookup (phash s) (votes s)); [|discriminate]. intros E. injection E as <-. cbn [mclient mseq mbody mres].
  repeat split; auto; intros A; destruct (N.eqb_spec (agreed s) SUCCESS); auto; contradiction.
Qed.
Print Assumptions C24_message_contents.

(** * What does not hold *)
(** Example setting: replicas 0..3, f = 1, primary 1, client 7, request 5. *)
Definition xsign (r : N) (h : hash) : bytes := match h with Zero => [r] | Dig p => r :: p end.
Definition xverify (r : N) (h : hash) (b : bytes) : bool := bytesEqb b (xsign r h).
Definition xbefore (a b : hash) : bool := match a, b with Dig p, Dig q => (length p <? length q)%nat | _, _ => false end.
Definition xrun := run xbefore xsign 1 7 5 2 4.
Definition xok (es : list event) : Prop := forall k r, In (EReply k r) es -> validReply 1 xverify r = true.
Definition data : bytes := [11; 12; 13; 14; 15; 16; 17; 18; 19].
Definition hOk : hash := createHash data SUCCESS 7 5.
Definition hErr : hash := createHash [] 10 7 5.
(** The honest reply of replica [r] for hash [h] with result code [c]. *)
Definition honest (r : N) (h : hash) (c : N) : event := EReply Single (mkReply r r (if c =? SUCCESS then Good else Failed) h (xsign r h) c).

(** Non-vacuity of the theorems above: an ordinary run completes, and its message is accepted by replica 2 and 3. *)
Definition good_run : list event := [EPrimary data 9 SUCCESS; honest 2 hOk SUCCESS].
Example good_completes : exists s m, xrun (EStart :: good_run) st0 = (s, Complete) /\ pdata s = Some data /\ finalize 7 5 2 s = Some m /\ validateSigs xsign xverify 3 1 m = Some true /\ validateSigs xsign xverify 2 1 m = Some true /\ xok good_run.
Proof.
  eexists _, _. repeat split; try (vm_compute; reflexivity). intros k r [H|[H|[]]]; [discriminate|]. injection H as <- <-. reflexivity.
Qed.
(** A run in which the other replicas saw block id 0. *)
Definition blockid_run : list event := [honest 2 (createHash (zeroed data) SUCCESS 7 5) SUCCESS; honest 0 (createHash (zeroed data) SUCCESS 7 5) SUCCESS; EPrimary data 9 SUCCESS].
Example blockid_completes : exists s m, xrun (EStart :: blockid_run) st0 = (s, Complete) /\ pdata s = Some (zeroed data) /\ finalize 7 5 2 s = Some m /\ validateSigs xsign xverify 3 1 m = Some true.
Proof. eexists _, _. repeat split; vm_compute; reflexivity. Qed.
(** A run that is cancelled because everyone reports something else. *)
Definition cancel_run : list event := [EPrimary data 9 SUCCESS; honest 0 (createHash [1] SUCCESS 7 5) SUCCESS; honest 2 (createHash [2] SUCCESS 7 5) SUCCESS; honest 3 (createHash [3] SUCCESS 7 5) SUCCESS].
Example cancel_example : snd (xrun (EStart :: cancel_run) st0) = Cancel /\ oneReport 1 7 5 4 cancel_run.
Proof.
  split; [vm_compute; reflexivity|].
  assert (R : forall h r, reports 1 7 5 cancel_run h r -> (r = 0 /\ h = createHash [1] SUCCESS 7 5) \/ (r = 1 /\ h = hOk) \/ (r = 2 /\ h = createHash [2] SUCCESS 7 5) \/ (r = 3 /\ h = createHash [3] SUCCESS 7 5)).
  { intros h r [(k & q & H & _ & E1 & E2)|(-> & b & l & q & H & E)].
    - destruct H as [H|[H|[H|[H|[]]]]]; try discriminate; injection H as <- <-; cbn in E1, E2; subst; auto 6.
    - destruct H as [H|[H|[H|[H|[]]]]]; try discriminate. injection H as <- <- <-. subst h. auto. }
  split.
  - intros h h' r H H'. apply R in H. apply R in H'. destruct H as [[-> ->]|[[-> ->]|[[-> ->]|[-> ->]]]]; destruct H' as [[E ->]|[[E ->]|[[E ->]|[E ->]]]]; try discriminate; auto.
  - intros h r H. apply R in H. destruct H as [[-> _]|[[-> _]|[[-> _]|[-> _]]]]; lia.
Qed.

(** 1. A malformed signature block makes the check throw inside the task, and the result is then taken as valid: any body is accepted without
    any signature. *)
Theorem C24_unsigned_result_accepted_refuted : forall sign verify me f body res client seq,
  acceptResults sign verify me f [mkRM body res client seq []] = true /\
  validateSigs sign verify me f (mkRM body res client seq []) = None.
Proof. intros. split; reflexivity. Qed.
Print Assumptions C24_unsigned_result_accepted_refuted.

(** 2. Signatures over an error do not cover the body, and the result code used at execution is not the signed one: with f+1 signatures over an
    error, any body passes the checks and is executed as a successful result. *)
Theorem C24_error_signatures_any_body_refuted : forall body : bytes, exists m,
  mbody m = Some body /\ validateSigs xsign xverify 3 1 m = Some true /\ executedAsSuccess m = true /\
  msigs m = serialize 2 [mkV 0 (xsign 0 hErr) 10; mkV 2 (xsign 2 hErr) 10].
Proof. intros body. exists (mkRM (Some body) UNKNOWN 7 5 (serialize 2 [mkV 0 (xsign 0 hErr) 10; mkV 2 (xsign 2 hErr) 10])). repeat split. Qed.
Print Assumptions C24_error_signatures_any_body_refuted.

(** 3. The result code in a reply is not signed. One faulty replica with a small number sends the right hash and signature with another code:
    the correct primary completes, and its message is rejected by the others, who then ask to replace it. *)
Theorem C24_result_code_unsigned_refuted : exists es s m, xok es /\
  es = [EPrimary data 9 SUCCESS; EReply Single (mkReply 0 0 Good hOk (xsign 0 hOk) 10)] /\
  xrun (EStart :: es) st0 = (s, Complete) /\ finalize 7 5 2 s = Some m /\ validateSigs xsign xverify 2 1 m = Some false.
Proof.
  exists [EPrimary data 9 SUCCESS; EReply Single (mkReply 0 0 Good hOk (xsign 0 hOk) 10)]. eexists _, _. split; [|repeat split; vm_compute; reflexivity].
  intros k r [H|[H|[]]]; [discriminate|]. injection H as <- <-. reflexivity.
Qed.
Print Assumptions C24_result_code_unsigned_refuted.

(** 4. With another status than GOOD the signature is not checked, and inside a batch the sender is a field of the message: one faulty replica
    makes the reports of f+1 others. Here nobody but replica 3 sends anything; the primary succeeded; it completes with an error nobody
    computed, and its data pointer is overwritten. *)
Theorem C24_forged_reports_refuted : exists es s, xok es /\ (forall k r, In (EReply k r) es -> transport r = 3) /\
  xrun (EStart :: es) st0 = (s, Complete) /\ agreed s = 10 /\ pdata s = None.
Proof.
  exists [EPrimary data 9 SUCCESS; EReply Batch (mkReply 3 0 Failed hErr [] 10); EReply Batch (mkReply 3 2 Failed hErr [] 10)]. eexists.
  split; [|split; [|repeat split; vm_compute; reflexivity]]; intros k r [H|[H|[H|[]]]]; try discriminate; injection H as <- <-; reflexivity.
Qed.
Print Assumptions C24_forged_reports_refuted.

(** 5. One replica may report several hashes; each counts as a reply. A faulty replica gets a request cancelled before any other has
    answered. *)
Theorem C24_cancelled_by_one_refuted : exists es, xok es /\ (forall k r, In (EReply k r) es -> transport r = 3) /\ snd (xrun (EStart :: es) st0) = Cancel.
Proof.
  exists [EPrimary data 9 SUCCESS; honest 3 (createHash [1] SUCCESS 7 5) SUCCESS; honest 3 (createHash [2] SUCCESS 7 5) SUCCESS; honest 3 (createHash [3] SUCCESS 7 5) SUCCESS].
  split; [|split; [|vm_compute; reflexivity]]; intros k r [H|[H|[H|[H|[]]]]]; try discriminate; injection H as <- <-; reflexivity.
Qed.
Print Assumptions C24_cancelled_by_one_refuted.

(** 6. And if it does so while the primary still works, the count passes the number of replicas and the request is never cancelled although
    everyone has answered and no two agree. *)
Theorem C24_never_cancelled_refuted : exists es s, xok es /\ xrun (EStart :: es) st0 = (s, Continue) /\ busy s = false /\ (forall r, r < 4 -> exists h, reported s h r) /\ forall h, ~ reportedBy s h 2.
Proof.
  exists [honest 3 (createHash [1] SUCCESS 7 5) SUCCESS; honest 3 (createHash [2] SUCCESS 7 5) SUCCESS; honest 3 (createHash [3] SUCCESS 7 5) SUCCESS; honest 3 (createHash [4] SUCCESS 7 5) SUCCESS;
          EPrimary data 9 SUCCESS; honest 0 (createHash [5] SUCCESS 7 5) SUCCESS; honest 2 (createHash [6] SUCCESS 7 5) SUCCESS].
  eexists. split; [intros k r [H|[H|[H|[H|[H|[H|[H|[]]]]]]]]; try discriminate; injection H as <- <-; reflexivity|]. split; [vm_compute; reflexivity|]. split; [reflexivity|]. split.
  - intros r Hr. assert (C : r = 0 \/ r = 1 \/ r = 2 \/ r = 3) by lia. unfold reported; cbn [votes In]. destruct C as [-> | [-> | [-> | ->]]].
    + eexists _, _, _. split; [do 4 right; left; reflexivity|]. split; [left; reflexivity|reflexivity].
    + eexists _, _, _. split; [do 6 right; left; reflexivity|]. split; [left; reflexivity|reflexivity].
    + eexists _, _, _. split; [do 5 right; left; reflexivity|]. split; [left; reflexivity|reflexivity].
    + eexists _, _, _. split; [left; reflexivity|]. split; [left; reflexivity|reflexivity].
  - intros h (l & Nd & L & R). destruct l as [|a [|b l]]; cbn in L; try lia.
    destruct (R a (or_introl eq_refl)) as (vs & v & A & B & Ea). destruct (R b (or_intror (or_introl eq_refl))) as (ws & w & A' & B' & Eb). cbn [votes In] in A, A'.
    inversion Nd as [|? ? Na _]. apply Na. left. rewrite <- Ea, <- Eb.
    destruct A as [A|[A|[A|[A|[A|[A|[A|[]]]]]]]]; injection A as <- <-; destruct A' as [A'|[A'|[A'|[A'|[A'|[A'|[A'|[]]]]]]]]; try discriminate; injection A' as <-; destruct B as [<-|[]]; destruct B' as [<-|[]]; reflexivity.
Qed.
Print Assumptions C24_never_cancelled_refuted.

(** 7. When the others agree on an error and the primary succeeded, the primary completes with a message that carries only its own signature,
    and the others reject it. All replicas are correct here. *)
Theorem C24_error_consensus_rejected_refuted : exists es s m, xok es /\ es = [honest 0 hErr 10; honest 2 hErr 10; EPrimary data 9 SUCCESS] /\
  xrun (EStart :: es) st0 = (s, Complete) /\ finalize 7 5 2 s = Some m /\ validateSigs xsign xverify 2 1 m = Some false /\ mbody m = None.
Proof.
  exists [honest 0 hErr 10; honest 2 hErr 10; EPrimary data 9 SUCCESS]. eexists _, _. split; [|repeat split; vm_compute; reflexivity].
  intros k r [H|[H|[H|[]]]]; try discriminate; injection H as <- <-; reflexivity.
Qed.
Print Assumptions C24_error_consensus_rejected_refuted.

(** 8. When pre-processing failed on the primary, the data it sends do not start with the result code it wrote: they are the request number and
    six bytes of whatever was in the buffer. *)
Theorem C24_error_data_shifted_refuted : forall (rest : bytes) (b : bytes), (length b = 14)%nat -> setupData 7 5 (b ++ [65; 66; 67; 68; 69; 70] ++ rest) 10 = le 8 5 ++ [65; 66; 67; 68; 69; 70].
Proof. intros rest b L. unfold setupData. rewrite skipn_app_exact by auto. reflexivity. Qed.
Print Assumptions C24_error_data_shifted_refuted.
