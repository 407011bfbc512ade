(** C36: key exchange. *)
From Coq Require Import List Arith Lia ZArith Bool NArith Sorted.
From Verif Require Import Kex_Model Kex_Proofs Kex_Proofs2 Kex_Proofs3.
Import ListNotations.
Open Scope Z_scope.

(** Two replicas that executed the same exchanges use the same verification keys for every sequence number, whatever pairs they
    generated meanwhile, as long as neither restarted. *)
Theorem C36_replicas_agree : forall n PS HDR me1 me2 epoch i1 i2 ops1 ops2 s1 s2 sn r,
  (forall r, sy_vk i1 r = sy_vk i2 r) ->
  run n PS HDR me1 epoch ops1 (start i1) = Some s1 -> run n PS HDR me2 epoch ops2 (start i2) = Some s2 ->
  accepted epoch (executed ops1) [] = accepted epoch (executed ops2) [] ->
  vkAt (s_sys s1) sn r = vkAt (s_sys s2) sn r.
Proof. intros. apply sv_vkAt. eapply run_agree; eauto. Qed.
Print Assumptions C36_replicas_agree.

(** Exchanges executed in order take effect two checkpoints after the number they were generated at, in every history of
    executions, restarts, crashes and state transfers. *)
Theorem C36_takes_effect_partial : forall n PS HDR me epoch init l s sn r,
  Hist n PS HDR me epoch init l s ->
  Ordered (accepted epoch l []) -> InRange (accepted epoch l []) -> 1 <= sn ->
  exists k, vkAt (s_sys s) sn r = Some k /\ InForce (accepted epoch l []) (sy_vk init) r sn k.
Proof. intros n PS HDR me epoch init l s sn r Hh O Rg Ls. apply inv_inforce; [|exact Ls]. eapply hist_inv; eauto. Qed.
Print Assumptions C36_takes_effect_partial.

Lemma inforce_unique L vk0 r sn k k' : Ordered L -> InForce L vk0 r sn k -> InForce L vk0 r sn k' -> k = k'.
Proof.
  intros O [(e & A & B & C & D & F)|[A B]] [(e' & A' & B' & C' & D' & F')|[A' B']].
  - assert (e_gen e = e_gen e') by (pose proof (F _ A' B' D'); pose proof (F' _ A B D); lia).
    assert (e = e') by (apply (ordered_unique L); auto; congruence). congruence.
  - destruct (A' _ A B D).
  - destruct (A _ A' B' D').
  - congruence.
Qed.
(** So any two replicas with such histories agree. *)
Theorem C36_histories_agree_partial : forall n PS HDR me1 me2 epoch i1 i2 l1 l2 s1 s2 sn r,
  (forall r, sy_vk i1 r = sy_vk i2 r) ->
  Hist n PS HDR me1 epoch i1 l1 s1 -> Hist n PS HDR me2 epoch i2 l2 s2 -> accepted epoch l1 [] = accepted epoch l2 [] ->
  Ordered (accepted epoch l1 []) -> InRange (accepted epoch l1 []) -> 1 <= sn ->
  vkAt (s_sys s1) sn r = vkAt (s_sys s2) sn r.
Proof.
  intros n PS HDR me1 me2 epoch i1 i2 l1 l2 s1 s2 sn r Ei H1 H2 Ea O Rg Ls.
  destruct (C36_takes_effect_partial _ _ _ _ _ _ _ _ sn r H1 O Rg Ls) as (k1 & E1 & F1). rewrite Ea in *.
  destruct (C36_takes_effect_partial _ _ _ _ _ _ _ _ sn r H2 O Rg Ls) as (k2 & E2 & F2). rewrite E1, E2. f_equal.
  eapply inforce_unique; [exact O|exact F1|]. destruct F2 as [F2|[A B]]; [left; exact F2|right]. split; [exact A|]. rewrite Ei. exact B.
Qed.
Print Assumptions C36_histories_agree_partial.

(** A restart of such a replica succeeds, and the key it signs with afterwards is, exactly: its own exchanged key only until the
    next exchange of anybody takes effect, and its initial key otherwise. *)
Definition RestartKey (L : list ent) (priv : kmap) (sk0 : key) (sn : Z) (k : key) : Prop :=
  (exists z, kfind z priv = Some k /\ usableFrom z <= ckptCovering sn /\
     (forall e, In e L -> usableFrom z < usableFrom (e_gen e) -> ckptCovering sn < usableFrom (e_gen e)) /\
     (forall z', kfind z' priv <> None -> usableFrom z' = usableFrom z -> z' <= z))
  \/ (k = sk0 /\ forall z, kfind z priv <> None -> usableFrom z <= ckptCovering sn ->
        exists e, In e L /\ usableFrom z < usableFrom (e_gen e) <= ckptCovering sn).
Theorem C36_after_restart : forall n PS HDR me epoch init l s,
  Hist n PS HDR me epoch init l s -> Ordered (accepted epoch l []) -> InRange (accepted epoch l []) ->
  OwnKnown me (accepted epoch l []) (s_priv s) ->
  exists s', restart n me init (s_store s) (s_priv s) = Some s' /\
    forall sn, 1 <= sn ->
      (forall r, vkAt (s_sys s') sn r = vkAt (s_sys s) sn r) /\
      exists k, privAt (s_sys s') sn = Some k /\ RestartKey (accepted epoch l []) (s_priv s) (sy_priv init) sn k.
Proof.
  intros n PS HDR me epoch init l s Hh O Rg Ok. pose proof (hist_store _ _ _ _ _ _ _ _ Hh) as [Sr Ps].
  destruct (restart_inv n me init _ _ _ Sr Ps O Rg Ok) as (s' & E & I & Pv). exists s'. split; [exact E|]. intros sn Ls.
  pose proof (hist_inv _ _ _ _ _ _ _ _ Hh O Rg) as I0. split.
  - intros r. destruct (inv_inforce _ _ _ sn r I0 Ls) as (k1 & E1 & F1). destruct (inv_inforce _ _ _ sn r I Ls) as (k2 & E2 & F2).
    rewrite E1, E2. f_equal. eapply inforce_unique; eauto.
  - destruct I as (I1 & I2 & I3 & I4 & I5). unfold privAt. pose proof (getSys_spec sn (s_sys s') I1) as G. rewrite (covering sn Ls) in G.
    destruct (getSys sn (s_sys s')) as [t|].
    + destruct G as (c & Ec & Lc & Mx). exists (sy_priv t). split; [reflexivity|]. rewrite (Pv _ _ Ec).
      assert (Mx' : forall e, In e (accepted epoch l []) -> c < usableFrom (e_gen e) -> ckptCovering sn < usableFrom (e_gen e)).
      { intros e He Lt. destruct (Z.le_gt_cases (usableFrom (e_gen e)) (ckptCovering sn)) as [Le|Gt]; [|exact Gt].
        pose proof (I4 e He) as Hn. destruct (look (usableFrom (e_gen e)) (s_sys s')) as [u|] eqn:Q; [|congruence]. pose proof (Mx _ _ Q Le). lia. }
      pose proof (lastAt_spec c (s_priv s) (proj1 Ps)) as La. destruct (lastAt c (s_priv s)) as [[z sk]|].
      * destruct La as (A & B & D). left. exists z. split; [exact A|]. split; [lia|]. split; [rewrite B; exact Mx'|rewrite B; exact D].
      * right. split; [reflexivity|]. intros z Hz Lz.
        assert (Hl : exists e, In e (accepted epoch l []) /\ usableFrom (e_gen e) = usableFrom z).
        { destruct (kfind z (s_priv s)) as [k|] eqn:Q; [|congruence]. pose proof (proj2 Ps _ _ Q) as Q'.
          destruct (kfind z (s_store s me)) as [v|] eqn:Q2; [|congruence]. apply Sr in Q2. exists (mkE me v z). auto. }
        destruct Hl as (e & He & Ue). pose proof (I4 e He) as Hn. destruct (look (usableFrom (e_gen e)) (s_sys s')) as [u|] eqn:Q; [|congruence].
        pose proof (Mx _ _ Q ltac:(lia)) as Lc'. destruct (I3 _ _ Ec) as [->|(e' & He' & Ue')].
        -- assert (2 <= usableFrom (e_gen e)); [|lia]. apply usable_ge2. unfold InRange in Rg. rewrite Forall_forall in Rg. apply Rg. exact He.
        -- exists e'. split; [exact He'|]. rewrite Ue'. pose proof (La z Hz). lia.
    + destruct (look 0 (s_sys s')) as [t|] eqn:Q; [|congruence]. exfalso. apply (G _ _ Q). unfold ckptCovering, CW. apply Z.div_pos; lia.
Qed.
Print Assumptions C36_after_restart.

(** Executing an exchange changes no key used for a sequence number already executed, nor any up to the second checkpoint after
    the number it was generated at (for numbers that fit a SeqNum). *)
Theorem C36_changes_only_later : forall n PS HDR me epoch init l s m req rp s' sn,
  Hist n PS HDR me epoch init l s -> onKeyExchange n PS HDR me epoch m req s = Some (rp, s') ->
  0 <= k_gen m < 2 ^ 63 -> 1 <= sn -> sn <= CW * usableFrom (k_gen m) \/ sn <= req ->
  privAt (s_sys s') sn = privAt (s_sys s) sn /\ forall r, vkAt (s_sys s') sn r = vkAt (s_sys s) sn r.
Proof.
  intros n PS HDR me epoch init l s m req rp s' sn Hh E Rg Ls Lu. destruct (hist_wf _ _ _ _ _ _ _ _ Hh) as [So Ne].
  pose proof (exec_later _ _ _ _ _ _ _ _ _ _ _ So Ne E Rg Ls Lu) as G. unfold privAt, vkAt. rewrite G. auto.
Qed.
Print Assumptions C36_changes_only_later.

(** While it runs, a replica signs for every sequence number with the private key that belongs to the verification key the others
    have for it, if the exchanges that name it are its own. *)
Theorem C36_signs_with_its_key : forall n PS HDR me epoch init (pubOf : key -> key) ops s sn,
  sy_vk init me = pubOf (sy_priv init) ->
  (forall g fresh, In (OGen g fresh) ops -> snd fresh = pubOf (fst fresh)) ->
  ownOnly n PS HDR me epoch ops (start init) -> run n PS HDR me epoch ops (start init) = Some s -> 1 <= sn ->
  exists sk, privAt (s_sys s) sn = Some sk /\ vkAt (s_sys s) sn me = Some (pubOf sk).
Proof.
  intros n PS HDR me epoch init pubOf ops s sn Hi Fr Ow R Ls.
  assert (I : SInv me pubOf s).
  { eapply sign_run; eauto. split; [discriminate|]. split; [|split; discriminate]. intros c t [E|[]]. injection E as <- <-. exact Hi. }
  assert (I0 : In 0 (map fst (s_sys s))) by (eapply run_has0; [|exact R]; left; reflexivity).
  destruct I as (_ & A & _). unfold privAt, vkAt. pose proof (getSys_some sn _ Ls I0) as Gn. destruct (getSys sn (s_sys s)) as [t|] eqn:G; [|congruence].
  exists (sy_priv t). split; [reflexivity|]. cbn [option_map]. f_equal. unfold getSys in G.
  destruct (find _ (rev (s_sys s))) as [[c u]|] eqn:F; [|discriminate]. cbn in G. injection G as <-. apply find_some in F as [F _].
  apply in_rev in F. eapply A. exact F.
Qed.
Print Assumptions C36_signs_with_its_key.

(** Each replica can exchange its key only so often: a replica that goes on has accepted at most as many exchanges of one replica
    as fit in a reserved page; the next one stops every replica that executes it (see C36_one_more_exchange_stops_all_refuted). *)
Theorem C36_number_of_exchanges : forall n PS HDR me epoch init l s r,
  Hist n PS HDR me epoch init l s ->
  (length (filter (fun e => (e_rep e =? r)%nat) (accepted epoch l [])) * 16 <= PS)%nat.
Proof.
  intros n PS HDR me epoch init l s r Hh. pose proof (hist_store _ _ _ _ _ _ _ _ Hh) as [(S1 & S2 & S3) _].
  pose proof (hist_bound _ _ _ _ _ _ _ _ Hh r) as B. set (F := filter _ _).
  assert (Len : (length F <= length (s_store s r))%nat).
  { rewrite <- (map_length e_gen F), <- (map_length fst (s_store s r)). apply NoDup_incl_length.
    - pose proof (accepted_nodup epoch l [] ltac:(constructor)) as Nd. subst F. clear - Nd. induction (accepted epoch l []) as [|e L IH]; [constructor|].
      cbn [map] in Nd. inversion Nd as [|? ? N1 N2]; subst. cbn [filter]. destruct (e_rep e =? r)%nat eqn:E; [|auto]. apply Nat.eqb_eq in E. cbn [map]. constructor; [|auto].
      intros Hi. apply in_map_iff in Hi as (a & Ea & Ha). apply filter_In in Ha as [Ha Ra]. apply Nat.eqb_eq in Ra. apply N1.
      apply in_map_iff. exists a. split; [congruence|exact Ha].
    - intros z Hz. apply in_map_iff in Hz as (a & <- & Ha). subst F. apply filter_In in Ha as [Ha Ra]. apply Nat.eqb_eq in Ra.
      apply in_map_iff. exists (e_gen a, e_pub a). split; [reflexivity|]. apply kfind_in, S2. destruct a; cbn in *; congruence. }
  destruct B as [B|B]; [rewrite B in Len; cbn in Len; lia|]. pose proof (pageBytes_len HDR (s_store s r)). lia.
Qed.
Print Assumptions C36_number_of_exchanges.

(** ---------- a concrete cluster: 4 replicas, the usual page size ---------- *)
Definition pub (k : key) : key := map (fun x => x + 1000)%N k.
Definition init (i : nat) : sys := mkSys [N.of_nat i] (fun r => pub [N.of_nat r]).
Definition ex (r : nat) (k : key) (g : Z) : msg := mkMsg false r k g 0.
Notation run4 := (run 4 4096 60).
Notation exec4 := (onKeyExchange 4 4096 60).
Definition vksOf (o : option st) (sn : Z) : list (option key) :=
  match o with Some s => map (vkAt (s_sys s) sn) [0; 1; 2; 3]%nat | None => [] end.
Definition signsWith (o : option st) (sn : Z) : option key := match o with Some s => privAt (s_sys s) sn | None => None end.
Definition reboot (me : nat) (o : option st) : option st :=
  match o with Some s => restart 4 me (init me) (s_store s) (s_priv s) | None => None end.

Definition k0 : key := [0]%N. Definition k51 : key := [51]%N. Definition k52 : key := [52]%N. Definition k60 : key := [60]%N.
Definition k61 : key := [61]%N. Definition k66 : key := [66]%N.
Lemma ordered1 a : Ordered [a].
Proof. intros i j x y Lt A B. destruct i, j; try lia; [destruct j; discriminate|destruct i; discriminate]. Qed.
Lemma ordered2 a b : usableFrom (e_gen a) <= usableFrom (e_gen b) -> (e_rep a = e_rep b -> e_gen a < e_gen b) -> Ordered [a; b].
Proof.
  intros A B i j x y Lt X Y. destruct i as [|[|i]]; [| |destruct i; discriminate].
  - destruct j as [|[|j]]; [lia| |destruct j; discriminate]. injection X as <-. injection Y as <-. auto.
  - destruct j as [|[|j]]; [lia|lia|destruct j; discriminate].
Qed.
(** Replica 1 and then replica 0 exchange their keys; replica 0 restarts in between; replica 2 only gets the pages of replica 3. *)
Definition ops0 : list op := [OExec (ex 1 k51 10) 12; OGen 160 (k60, pub k60); OExec (ex 0 (pub k60) 160) 165].
Definition log0 : list (msg * Z) := [(ex 1 k51 10, 12); (ex 0 (pub k60) 160, 165)].
Example C36_hypotheses_met :
  exists s0 s2, Hist 4 4096 60 0 0 (init 0) log0 s0 /\ Hist 4 4096 60 2 0 (init 2) log0 s2 /\
    accepted 0 log0 [] = [mkE 1 k51 10; mkE 0 (pub k60) 160] /\ Ordered (accepted 0 log0 []) /\ InRange (accepted 0 log0 []) /\
    vksOf (Some s0) 300 = vksOf (Some (start (init 0))) 300 /\
    vksOf (Some s0) 301 = map Some [pub [0%N]; k51; pub [2%N]; pub [3%N]] /\
    vksOf (Some s2) 451 = map Some [pub k60; k51; pub [2%N]; pub [3%N]] /\ signsWith (Some s0) 451 = Some k60.
Proof.
  assert (Or : Ordered (accepted 0 log0 [])).
  { change (Ordered [mkE 1 k51 10; mkE 0 (pub k60) 160]). apply ordered2; vm_compute; congruence. }
  assert (K0 : forall L (p : kmap), (forall a, In a L -> e_rep a <> 0%nat) -> OwnKnown 0 L p) by (intros L p F; left; intros a Ha Ra; destruct (F a Ha Ra)).
  (* replica 0: executes the first, restarts, generates, executes the second *)
  destruct (run4 0%nat 0 [OExec (ex 1 k51 10) 12] (start (init 0))) as [a1|] eqn:A1; [|vm_compute in A1; discriminate].
  assert (H1 : Hist 4 4096 60 0 0 (init 0) [(ex 1 k51 10, 12)] a1).
  { apply (HOp _ _ _ _ _ _ [] (start (init 0)) (OExec (ex 1 k51 10) 12)); [constructor|]. cbn [run] in A1. destruct (step _ _ _ _ _ _ _); [exact A1|discriminate]. }
  destruct (C36_after_restart _ _ _ _ _ _ _ _ H1) as (a2 & A2 & _).
  { change (Ordered [mkE 1 k51 10]). apply ordered1. }
  { repeat constructor; vm_compute; congruence. }
  { apply K0. vm_compute. intros a [<-|[]]. discriminate. }
  assert (H2 : Hist 4 4096 60 0 0 (init 0) [(ex 1 k51 10, 12)] a2).
  { eapply HRestart; [exact H1| |exact A2]. apply K0. vm_compute. intros a [<-|[]]. discriminate. }
  destruct (run4 0%nat 0 [OGen 160 (k60, pub k60); OExec (ex 0 (pub k60) 160) 165] a2) as [a3|] eqn:A3.
  2:{ exfalso. vm_compute in A1. injection A1 as <-. vm_compute in A2. injection A2 as <-. vm_compute in A3. discriminate. }
  assert (H3 : Hist 4 4096 60 0 0 (init 0) log0 a3).
  { cbn [run step] in A3. destruct (option_map snd _) eqn:Q; [|discriminate]. injection A3 as <-.
    change log0 with (([(ex 1 k51 10, 12)] ++ executed [OGen 160 (k60, pub k60)]) ++ executed [OExec (ex 0 (pub k60) 160) 165]).
    eapply HOp; [eapply HOp; [exact H2|reflexivity]|exact Q]. }
  (* replica 2 gets the pages *)
  destruct (run4 3%nat 0 (map (fun p => OExec (fst p) (snd p)) log0) (start (init 3))) as [b1|] eqn:B1; [|vm_compute in B1; discriminate].
  destruct (loadPublicKeys 4 2 (s_store b1) (start (init 2))) as [b2|] eqn:B2.
  2:{ exfalso. vm_compute in B1. injection B1 as <-. vm_compute in B2. discriminate. }
  exists a3, b2. split; [exact H3|]. split.
  { eapply (HTransfer _ _ _ _ _ _ [] (start (init 2)) log0 3%nat (init 3)); [constructor|exact B1|reflexivity| |exact B2].
    left. vm_compute. intros a [<-|[<-|[]]]; discriminate. }
  split; [reflexivity|]. split; [exact Or|]. split; [repeat constructor; vm_compute; congruence|].
  vm_compute in A1. injection A1 as <-. vm_compute in A2. injection A2 as <-. vm_compute in A3. injection A3 as <-.
  vm_compute in B1. injection B1 as <-. vm_compute in B2. injection B2 as <-. vm_compute. auto.
Qed.
Example C36_signs_hypotheses_met : exists s, ownOnly 4 4096 60 0 0 ops0 (start (init 0)) /\ run4 0%nat 0 ops0 (start (init 0)) = Some s /\
  signsWith (Some s) 451 = Some k60 /\ signsWith (Some s) 450 = Some [0%N].
Proof.
  destruct (run4 0%nat 0 ops0 (start (init 0))) as [s|] eqn:R; [|vm_compute in R; discriminate]. exists s. split; [|split; [reflexivity|]].
  - split; [intros m req E Me; injection E as <- <-; discriminate Me|]. intros s1 S1. split; [intros m req E; discriminate|]. intros s2 S2.
    split; [|intros s3 S3; exact I]. intros m req E _. injection E as <- <-. split; [discriminate|]. left.
    vm_compute in S1. injection S1 as <-. vm_compute in S2. injection S2 as <-. vm_compute. discriminate.
  - vm_compute in R. injection R as <-. vm_compute. auto.
Qed.

(** Two correct exchanges, generated at 160 and 140, are executed in the other order (170, 172).  Without a restart, the key of
    replica 1 is used 150 numbers too early, and replica 2 goes back to its old key from 451 on; a replica that restarts has other
    keys for the same numbers. *)
Definition ops_swap : list op := [OExec (ex 1 k51 160) 170; OExec (ex 2 k52 140) 172].
Theorem C36_swapped_exchanges_refuted :
  vksOf (run4 0%nat 0 ops_swap (start (init 0))) 301 = map Some [pub [0%N]; k51; k52; pub [3%N]] /\
  vksOf (run4 0%nat 0 ops_swap (start (init 0))) 451 = map Some [pub [0%N]; k51; pub [2%N]; pub [3%N]] /\
  vksOf (reboot 0 (run4 0%nat 0 ops_swap (start (init 0)))) 301 = map Some [pub [0%N]; pub [1%N]; k52; pub [3%N]] /\
  vksOf (reboot 0 (run4 0%nat 0 ops_swap (start (init 0)))) 451 = map Some [pub [0%N]; k51; k52; pub [3%N]].
Proof. repeat split; vm_compute; reflexivity. Qed.
Print Assumptions C36_swapped_exchanges_refuted.

(** Replica 0 exchanges its key, later replica 1 does.  Replica 0 signs with its new key; after a restart it signs for 451 with its
    initial one, which does not belong to the key all replicas have for it. *)
Definition ops_sign : list op := [OGen 10 (k60, pub k60); OExec (ex 0 (pub k60) 10) 12; OExec (ex 1 k51 200) 205].
Theorem C36_restart_signs_with_old_key_refuted :
  let s := run4 0%nat 0 ops_sign (start (init 0)) in
  signsWith s 451 = Some k60 /\ vksOf s 451 = map Some [pub k60; k51; pub [2%N]; pub [3%N]] /\
  signsWith (reboot 0 s) 451 = Some [0%N] /\ vksOf (reboot 0 s) 451 = map Some [pub k60; k51; pub [2%N]; pub [3%N]].
Proof. repeat split; vm_compute; reflexivity. Qed.
Print Assumptions C36_restart_signs_with_old_key_refuted.

(** The process stops after the page was written and before the key file: the private key is lost.  Executing the message again
    changes nothing, and the replica signs for 301 with its initial key. *)
Theorem C36_crash_loses_the_private_key_refuted :
  forall s sc, run4 0%nat 0 [OGen 10 (k60, pub k60)] (start (init 0)) = Some s ->
  nth_error (crashPoints 4 4096 60 0 0 (ex 0 (pub k60) 10) 12 s) 1 = Some sc ->
  let r := restart 4 0 (init 0) (fst sc) (snd sc) in
  let r' := match r with Some x => run4 0%nat 0 [OExec (ex 0 (pub k60) 10) 12] x | None => None end in
  signsWith r' 301 = Some [0%N] /\ vksOf r' 301 = map Some [pub k60; pub [1%N]; pub [2%N]; pub [3%N]].
Proof. intros s sc E C. vm_compute in E. injection E as <-. vm_compute in C. injection C as <-. vm_compute. auto. Qed.
Print Assumptions C36_crash_loses_the_private_key_refuted.
(** If that happens to the second of two own exchanges that become usable together (the generator allows it: an exchange at number
    0 does not count as the last one), the replica restarts with another verification key for itself than everybody else. *)
Definition ops_two : list op := [OGen 0 (k60, pub k60); OExec (ex 0 (pub k60) 0) 3; OGen 100 (k61, pub k61)].
Theorem C36_lost_key_changes_verification_key_refuted :
  forall s sc, run4 0%nat 0 ops_two (start (init 0)) = Some s ->
  s_map s 100 = Some (k61, pub k61) ->
  nth_error (crashPoints 4 4096 60 0 0 (ex 0 (pub k61) 100) 103 s) 1 = Some sc ->
  vksOf (restart 4 0 (init 0) (fst sc) (snd sc)) 301 = map Some [pub k60; pub [1%N]; pub [2%N]; pub [3%N]] /\
  vksOf (run4 1%nat 0 [OExec (ex 0 (pub k60) 0) 3; OExec (ex 0 (pub k61) 100) 103] (start (init 1))) 301 = map Some [pub k61; pub [1%N]; pub [2%N]; pub [3%N]].
Proof. intros s sc E _ C. vm_compute in E. injection E as <-. vm_compute in C. injection C as <-. vm_compute. auto. Qed.
Print Assumptions C36_lost_key_changes_verification_key_refuted.
Example C36_two_candidates_met : exists s, run4 0%nat 0 ops_two (start (init 0)) = Some s /\ s_map s 100 = Some (k61, pub k61).
Proof. destruct (run4 0%nat 0 ops_two (start (init 0))) as [s|] eqn:R; [|vm_compute in R; discriminate]. exists s. split; [reflexivity|]. vm_compute in R. injection R as <-. reflexivity. Qed.

(** A number above 2^63 in a message changes the keys of sequence numbers that were executed long ago. *)
Theorem C36_wrapped_number_refuted :
  let s := run4 0%nat 0 [OExec (ex 2 k66 (2 ^ 64 - 300)) 1000] (start (init 0)) in
  vksOf s 1 = map Some [pub [0%N]; pub [1%N]; k66; pub [3%N]] /\ vksOf s 1000 = vksOf s 1.
Proof. split; vm_compute; reflexivity. Qed.
Print Assumptions C36_wrapped_number_refuted.
(** Nothing ties the replica named in a message to its sender: whoever gets a message ordered replaces any replica's key; if that
    replica waits for an exchange with that number, it stops; a replica id out of range stops everybody. *)
Theorem C36_anyone_replaces_any_key_refuted :
  (forall me s m req, (exists rp s', exec4 me 0 m req s = Some (rp, s')) -> forall m', k_query m' = k_query m -> k_rep m' = k_rep m -> k_pub m' = k_pub m ->
     k_gen m' = k_gen m -> k_epoch m' = k_epoch m -> exec4 me 0 m' req s = exec4 me 0 m req s) /\
  vksOf (run4 0%nat 0 [OExec (ex 2 k66 10) 12] (start (init 0))) 301 = map Some [pub [0%N]; pub [1%N]; k66; pub [3%N]] /\
  run4 0%nat 0 [OGen 10 (k60, pub k60); OExec (ex 0 k66 10) 12] (start (init 0)) = None /\
  (forall me, run4 me 0 [OExec (ex 4 k66 10) 12] (start (init me)) = None).
Proof.
  split; [|split; [vm_compute; reflexivity|split; [vm_compute; reflexivity|intros me; vm_compute; reflexivity]]].
  intros me s [q r p g e] req _ [q' r' p' g' e']. cbn. intros -> -> -> -> ->. reflexivity.
Qed.
Print Assumptions C36_anyone_replaces_any_key_refuted.
(** An exchange generated at 0 and executed at 299, when 150 is stable and numbers up to 450 may be in progress, changes the keys of
    301 and later. *)
Theorem C36_in_progress_keys_change_refuted :
  let s := run4 0%nat 0 [OExec (ex 1 k51 0) 299] (start (init 0)) in
  vksOf s 301 = map Some [pub [0%N]; k51; pub [2%N]; pub [3%N]] /\ vksOf (Some (start (init 0))) 301 = map Some [pub [0%N]; pub [1%N]; pub [2%N]; pub [3%N]].
Proof. split; vm_compute; reflexivity. Qed.
Print Assumptions C36_in_progress_keys_change_refuted.
(** Whatever the page size, one replica's exchanges, 300 numbers apart, stop every replica. *)
Fixpoint many (k : nat) : list (msg * Z) := match k with O => [] | Datatypes.S k' => many k' ++ [(ex 1 k51 (300 * Z.of_nat k'), 300 * Z.of_nat k' + 1)] end.
Lemma many_accepted k : Z.of_nat k < 2 ^ 50 -> accepted 0 (many k) [] = map (fun p => entOf (fst p)) (many k) /\
  forall e, In e (accepted 0 (many k) []) -> e_rep e = 1%nat /\ e_gen e < 300 * Z.of_nat k.
Proof.
  induction k as [|k IH]; intros Lk; [split; [reflexivity|intros e []]|]. cbn [many]. rewrite accepted_app, counts_step. destruct (IH ltac:(lia)) as [E F].
  assert (Ts : toSeq (300 * Z.of_nat k) = 300 * Z.of_nat k).
  { unfold toSeq. replace (_ <? _) with true; [reflexivity|]. symmetry. apply Z.ltb_lt. change (2 ^ 63) with 9223372036854775808. change (2 ^ 50) with 1125899906842624 in Lk. lia. }
  assert (C : counts 0 (ex 1 k51 (300 * Z.of_nat k)) (300 * Z.of_nat k + 1) (accepted 0 (many k) []) = true).
  { unfold counts, ex. cbn [k_query k_epoch k_gen negb andb]. rewrite Z.eqb_refl. cbn [andb]. apply andb_true_iff. split.
    - apply Z.leb_le. unfold WW. replace (300 * Z.of_nat k + 1) with (1 + Z.of_nat k * 300) by lia. rewrite Z.div_add by lia. change (1 / 300) with 0. lia.
    - apply negb_true_iff. apply slot_none. intros e He _ Ge. cbn [k_gen] in Ge. rewrite Ts in Ge. apply F in He as [_ He]. lia. }
  rewrite C. split.
  - rewrite map_app, E. reflexivity.
  - intros e He. apply in_app_iff in He as [He|[<-|[]]]; [apply F in He as [A B]; split; [exact A|lia]|]. unfold entOf, ex. cbn [e_rep e_gen k_rep k_gen]. rewrite Ts. split; [reflexivity|lia].
Qed.
Theorem C36_one_more_exchange_stops_all_refuted : forall n PS HDR me epoch0, epoch0 = 0 -> Z.of_nat PS < 2 ^ 40 ->
  run n PS HDR me epoch0 (map (fun p => OExec (fst p) (snd p)) (many (Datatypes.S PS))) (start (init me)) = None.
Proof.
  intros n PS HDR me e0 -> Lp. destruct (run _ _ _ _ _ _ _) as [s|] eqn:R; [exfalso|reflexivity].
  assert (Hs : forall l s0 s1 l0, Hist n PS HDR me 0 (init me) l0 s0 -> run n PS HDR me 0 (map (fun p => OExec (fst p) (snd p)) l) s0 = Some s1 ->
    Hist n PS HDR me 0 (init me) (l0 ++ l) s1).
  { clear. induction l as [|[m q] l IH]; intros s0 s1 l0 Hh R; cbn [map run] in R; [injection R as <-; rewrite app_nil_r; exact Hh|].
    destruct (step _ _ _ _ _ _ s0) as [s2|] eqn:St; [|discriminate]. replace (l0 ++ (m, q) :: l) with ((l0 ++ executed [OExec m q]) ++ l) by (rewrite <- app_assoc; reflexivity).
    eapply IH; [|exact R]. eapply HOp; [exact Hh|exact St]. }
  pose proof (Hs _ _ _ [] (HStart n PS HDR me 0 (init me)) R) as Hh. cbn [app] in Hh.
  pose proof (C36_number_of_exchanges _ _ _ _ _ _ _ _ 1%nat Hh) as B.
  destruct (many_accepted (Datatypes.S PS)) as [E F]; [change (2 ^ 40) with 1099511627776 in Lp; change (2 ^ 50) with 1125899906842624; lia|].
  assert (Ml : forall k, length (many k) = k) by (clear; induction k as [|k IH]; [reflexivity|]; cbn [many]; rewrite app_length, IH; cbn; lia).
  assert (Fl : filter (fun e => (e_rep e =? 1)%nat) (accepted 0 (many (Datatypes.S PS)) []) = accepted 0 (many (Datatypes.S PS)) []).
  { clear - F. induction (accepted 0 (many (Datatypes.S PS)) []) as [|e L IH]; [reflexivity|]. cbn [filter]. destruct (F e ltac:(left; reflexivity)) as [-> _]. cbn. f_equal. apply IH.
    intros a Ha. apply F. right. exact Ha. }
  rewrite Fl, E, map_length, Ml in B. lia.
Qed.
Print Assumptions C36_one_more_exchange_stops_all_refuted.
