From Coq Require Import List Arith NArith Bool Lia.
From Verif Require Import Lib_Bytes StBlocks_Model StBlocks_Proofs StBlocks_Proofs2.
Import ListNotations.
Local Open Scope N_scope.

(** Every batch ends at a block with a validation digest or at the last block. *)
Section S.
Variable H : bytes -> bytes.
Variable prevDig : bytes -> bytes.
Variable RV : Type.
Variable stored : RV -> N -> option bytes.
Variable setRvb : RV -> bytes -> N -> N -> option RV.
Variable ub : RV -> N -> N -> N.
Variable rv0 : RV.
Variables (frs mcb maxBlock bufSize maxChunks maxPend : N) (tdig : bytes).
Notation st := (st RV).
Notation loop := (loop H prevDig RV stored setRvb ub frs mcb maxBlock bufSize tdig).
Notation step := (step H prevDig RV stored setRvb ub rv0 frs mcb maxBlock bufSize maxChunks maxPend tdig).
Notation run := (run H prevDig RV stored setRvb ub rv0 frs mcb maxBlock bufSize maxChunks maxPend tdig).
Notation start := (start RV ub rv0 frs mcb).
Variables first last : N.
Hypothesis F0 : frs <> 0.
Hypothesis FM : frs <= mcb.
Hypothesis UB : forall r a b, a <= b -> a <= ub r a b /\ (ub r a b mod frs = 0 \/ b <= ub r a b).

Definition BE (s : st) : Prop := fin _ s = false -> (isRvb frs (fmax _ s) = true \/ fmax _ s = last) /\ fmax _ s < fmin _ s + mcb.
Lemma be_bm r m : m <> 0 -> m <= last -> let x := batchMax RV ub frs mcb r last m in (isRvb frs x = true \/ x = last) /\ x < m + mcb.
Proof.
  intros M0 ML x. destruct (batchMax_spec RV ub frs mcb r last m F0 FM M0 ML (UB r)) as (A & B & C & E). split; [|exact C]. destruct E as [E|E]; [left; unfold isRvb; apply N.eqb_eq; exact E|right; exact E].
Qed.
Lemma be_loop fuel : forall its bad li rsz s s', fin _ s = false -> Cov RV first last s -> BE s -> loop fuel its bad li rsz s = Ok _ s' -> BE s'.
Proof.
  induction fuel as [|fuel IH]; intros its bad li rsz s s' FN CV B E; [discriminate|]. cbn [StBlocks_Model.loop] in E.
  set (mo := if bad || match src _ s with Some _ => false | None => true end then Immediate (ralt (hd rnd0 its)) else rmode (hd rnd0 its)) in *.
  set (sx := match mo with Keep => s | Graceful r => setSrc _ s (Some r) | Immediate r => setPend _ (setSrc _ s (Some r)) [] end) in *.
  assert (CX : Cov RV first last sx /\ fin _ sx = false /\ BE sx) by (unfold sx; destruct mo; auto). destruct CX as (CX & FX & BX). clearbody sx. clearbody mo. clear CV FN B s. rename sx into s.
  match type of E with (if ?c then _ else _) = _ => destruct c; [discriminate|] end.
  destruct (nextFull maxBlock bufSize (fnext _ s) (pend _ s)) as [| |buf rest| |]; try discriminate.
  - match type of E with (if ?c then _ else _) = _ => destruct c end; [|inversion E; subst; auto]. destruct (finalize _ _ s) eqn:EF; [|discriminate]. inversion E; subst.
    destruct (cov_finalize _ _ _ _ _ _ FX CX EF) as (_ & (S1 & S2 & _ & _ & _ & _ & _ & _ & S9 & _)). unfold BE in *. rewrite S1, S2, S9. auto.
  - eapply IH; [| | |exact E]; auto.
  - destruct (N.of_nat (length buf) <? rsz); [discriminate|].
    match type of E with match ?c with Some _ => _ | None => _ end = _ => destruct c as [r|]; [|eapply IH; [| | |exact E]; auto] end.
    destruct (checkBlock _ _ _ _ _ _ _ _); [|eapply IH; [| | |exact E]; auto|discriminate].
    destruct (finalize _ (rready (hd rnd0 its)) _) as [s1|] eqn:EF; [|discriminate].
    assert (C1 : Cov RV first last s1 /\ fin _ s1 = false /\ BE s1). { destruct (cov_finalize _ _ _ _ (setRv _ (setPend _ s rest) r) s1 FX CX EF) as (A & (S1 & S2 & _ & _ & _ & _ & _ & _ & S9 & _)). cbn in S1, S2, S9. split; auto. unfold BE in *. rewrite S1, S2, S9. auto. }
    clear EF CX FX BX. destruct C1 as (C1 & F1 & B1).
    destruct ((fnext _ s1 =? fmin _ s1) && (lastR _ s1 =? fmax _ s1)) eqn:EL.
    + destruct (finalizeAll _ s1) as [s2|] eqn:EA; [|discriminate]. match type of E with (if ?c then _ else _) = _ => destruct c; [|discriminate] end. inversion E. intros X. cbn in X. discriminate.
    + destruct (maxBlock <? _); [discriminate|]. destruct (clearBlk _ _) as [p|]; [|discriminate]. set (data := skipn (N.to_nat rsz) buf) in *.
      match type of E with match ?x with _ => _ end = _ => destruct x as [s4|] eqn:EN; [|discriminate] end.
      destruct (cov_issue prevDig _ _ _ _ _ _ s1 data p s4 F1 C1 EN) as (CV & FV & _ & _ & _ & _ & _ & X).
      assert (B4 : BE s4). { destruct (fnext _ s1 =? fmin _ s1). - destruct X as (X1 & X2 & X3 & _). intros _. rewrite X1, X2. destruct C1 as (_ & _ & C1). rewrite F1 in C1. destruct C1 as (_ & LR & _). rewrite LR. destruct CV as (_ & _ & CV). rewrite FV in CV. destruct CV as (NZ & _ & _ & V1 & V2 & V3 & _). rewrite <- X1. apply be_bm; lia.
        - destruct X as (X1 & X2 & _). intros _. rewrite X1, X2. auto. }
      destruct (li || rsend (hd rnd0 its) || _); [inversion E; subst; exact B4|]. eapply IH; [| | |exact E]; auto.
Qed.
Lemma be_step s e s' : Cov RV first last s -> BE s -> step s e = Ok _ s' -> BE s'.
Proof.
  intros C B E. unfold StBlocks_Model.step in E. destruct (fin _ s) eqn:F; [inversion E; subst; auto|].
  destruct e as [m its|its|its|k].
  - destruct (valid maxChunks m && _); [|inversion E; subst; auto]. destruct (emplace m (pend _ s)); [|inversion E; subst; auto]. eapply be_loop; [| | |exact E]; auto.
  - eapply be_loop; [| | |exact E]; auto.
  - eapply be_loop; [| | |exact E]; auto.
  - match type of E with match ?x with _ => _ end = _ => destruct x as [s1|] eqn:EN; [|discriminate] end. inversion E; subst s1; clear E. apply nextBatch_spec in EN. simpl in EN. destruct EN as (N1 & N2 & N3 & N4 & N5 & N6 & N7 & N8 & N9 & N10 & N11 & N12 & N13 & N14 & N15 & N16 & N17).
    destruct C as (_ & _ & C). rewrite F in C. destruct C as (NZ & A & _). intros _. rewrite N17, A, N4. apply be_bm; lia.
Qed.
Lemma be_run es : forall s s', Cov RV first last s -> BE s -> run s es = Ok _ s' -> BE s'.
Proof.
  induction es as [|e es IH]; intros s s' C B E; simpl in E; [inversion E; subst; auto|]. destruct (step s e) as [s1| | |] eqn:E1; try discriminate. eapply IH; [| |exact E]; [eapply cov_step; eauto|eapply be_step; eauto].
Qed.
Lemma be_start s : start first last = Some s -> BE s.
Proof.
  intros EN. apply nextBatch_spec in EN. simpl in EN. destruct EN as (N1 & N2 & N3 & N4 & N5 & N6 & N7 & N8 & N9 & N10 & N11 & N12 & N13 & N14 & N15 & N16 & N17). intros _. rewrite N17, N4. apply be_bm; lia.
Qed.
End S.
