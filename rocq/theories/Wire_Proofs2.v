(** Messages made by correct nodes are accepted and read back. *)
From Coq Require Import List Arith NArith ZArith Bool Lia.
From Verif Require Import Lib_Bytes Wire_Model Wire_Proofs.
Import ListNotations.
Local Open Scope N_scope.
Local Open Scope wire_scope.


Lemma size_app a b : size (a ++ b) = size a + size b.
Proof. unfold size. rewrite app_length. lia. Qed.
Lemma size_le k x : size (le k x) = N.of_nat k.
Proof. unfold size. rewrite le_length. reflexivity. Qed.
Lemma size_len4 b : size (len4 b) = 4.
Proof. apply size_le. Qed.
Lemma size_nil : size [] = 0.
Proof. reflexivity. Qed.
Lemma part_skip p r o k : size p <= o -> part (p ++ r) o k = part r (o - size p) k.
Proof.
  intros H. unfold part. rewrite size_app. unfold size in *.
  replace (o + k <=? N.of_nat (length p) + N.of_nat (length r)) with (o - N.of_nat (length p) + k <=? N.of_nat (length r)).
  2:{ apply eq_true_iff_eq. rewrite !N.leb_le. lia. }
  rewrite slice_app_skip by lia. replace (N.to_nat o - length p)%nat with (N.to_nat (o - N.of_nat (length p))) by lia. reflexivity.
Qed.
Lemma part_here p r o k : o = 0 -> k = size p -> part (p ++ r) o k = Ok p.
Proof.
  intros -> ->. unfold part. rewrite size_app, (proj2 (N.leb_le _ _)) by lia. rewrite slice_app_here; auto. unfold size. lia.
Qed.
Lemma part_end p o k : o = 0 -> k = size p -> part p o k = Ok p.
Proof. intros. rewrite <- (app_nil_r p) at 1. apply part_here; auto. Qed.
Lemma num_skip p r o k : size p <= o -> num (p ++ r) o k = num r (o - size p) k.
Proof. intros H. unfold num. rewrite part_skip; auto. Qed.
Lemma num_here n x r o k : o = 0 -> k = N.of_nat n -> fits k x -> num (le n x ++ r) o k = Ok x.
Proof. intros -> -> H. unfold num. rewrite part_here; auto; [|rewrite size_le; auto]. cbn [bind]. rewrite unle_le; auto. Qed.
Lemma num_end n x o k : o = 0 -> k = N.of_nat n -> fits k x -> num (le n x) o k = Ok x.
Proof. intros. rewrite <- (app_nil_r (le n x)). apply num_here; auto. Qed.
Lemma bind_ok {A B} (x : out A) (f : A -> out B) a r : x = Ok a -> f a = r -> bind x f = r.
Proof. intros -> <-. reflexivity. Qed.
Lemma need_ok b : b = true -> need b = Ok tt. Proof. intros ->. reflexivity. Qed.
Lemma assert_ok b : b = true -> assert b = Ok tt. Proof. intros ->. reflexivity. Qed.

Ltac szr := rewrite ?size_app, ?size_le, ?size_len4, ?size_nil in *.
Ltac sz := rewrite ?size_app, ?size_le, ?size_len4, ?size_nil; first [lia | reflexivity].
Ltac rd := match goal with
  | |- num (le ?n ?x ++ _) _ _ = _ => first [apply num_here; [sz | reflexivity | try assumption] | rewrite num_skip by sz; rd]
  | |- num (le ?n ?x) _ _ = _ => apply num_end; [sz | reflexivity | try assumption]
  | |- num (len4 ?b ++ _) _ _ = _ => first [unfold len4 at 1; apply num_here; [sz | reflexivity | try assumption] | rewrite num_skip by sz; rd]
  | |- num (_ ++ _) _ _ = _ => rewrite num_skip by sz; rd
  | |- part (_ ++ _) _ _ = _ => first [apply part_here; [sz | sz] | rewrite part_skip by sz; rd]
  | |- part _ _ _ = _ => apply part_end; [sz | sz]
  end.
Ltac ck := first [assumption | apply N.leb_le; sz | apply N.eqb_eq; first [assumption | symmetry; assumption | sz] | apply N.ltb_lt; sz | idtac].
Ltac ev := match goal with
  | |- bind _ _ = _ => eapply bind_ok; [ev | cbv beta; ev]
  | |- need _ = _ => apply need_ok; ck
  | |- assert _ = _ => apply assert_ok; ck
  | |- span _ = _ => unfold span; ev
  | |- num _ _ _ = _ => rd
  | |- part _ _ _ = _ => first [eassumption | rd]
  | |- Ok _ = _ => reflexivity
  | |- _ => idtac
  end.
Ltac open := repeat rewrite <- app_assoc.

Section Trip.
Context (e : env) (sender : N).
Context (Hs : sender <> me e).
Lemma other_ok : other e sender = true.
Proof. unfold other. apply negb_true_iff, N.eqb_neq. auto. Qed.
Lemma peer_ok : isReplica e sender = true -> peer e sender = true.
Proof. intros H. unfold peer. rewrite other_ok, H. auto. Qed.

Section Rep.
Context (Hr : isReplica e sender = true).
Let Hp := peer_ok Hr.
Let Ho := other_ok.

Lemma trip_ack s v d : fits 8 s -> fits 8 v -> fits 8 d -> fits 8 (epoch e) -> vAck e sender (mkAck (epoch e) s v d) = Ok tt /\ ack (mkAck (epoch e) s v d) = Ok (s, v, d).
Proof. intros. unfold mkAck, base, vAck, ack. open. split; ev. Qed.
Lemma trip_slow v s sp : fits 8 s -> fits 8 v -> fits 4 (size sp) -> fits 8 (epoch e) -> primaryOf e v = sender ->
  vSlow e sender (mkSlow (epoch e) v s sp) = Ok tt /\ slow (mkSlow (epoch e) v s sp) = Ok (v, s, sp).
Proof. intros. unfold mkSlow, base, vSlow, slow. open. split; ev. Qed.
Lemma trip_missing v s f sp : fits 8 s -> fits 8 v -> fits 2 f -> fits 4 (size sp) -> fits 8 (epoch e) ->
  vMissing e sender (mkMissing (epoch e) v s f sp) = Ok tt /\ missing (mkMissing (epoch e) v s f sp) = Ok (v, s, f, sp).
Proof. intros. unfold mkMissing, base, vMissing, missing. open. split; ev. Qed.
Lemma trip_share ty v s sp sg : fits 8 s -> fits 8 v -> fits 4 (size sp) -> fits 2 (size sg) -> fits 8 (epoch e) ->
  let m := mkShare ty (epoch e) v s sp sg in
  vProof e sender m = Ok tt /\ vFull e sender m = Ok tt /\ (primaryOf e v = me e -> vPartial e sender m = Ok tt) /\ share m = Ok (v, s, sp, sg).
Proof. intros. unfold m, mkShare, base, vPartial, vProof, vFull, share. open. split; [ev|]. split; [ev|]. split; [intros; ev|ev]. Qed.
Lemma trip_partProof v s p sp sg : fits 8 s -> fits 8 v -> p = 0 \/ (p = 1 /\ 0 < cVal e) -> fits 4 (size sp) -> fits 2 (size sg) -> fits 8 (epoch e) -> collects e v s = true ->
  let m := mkPartProof (epoch e) v s p sp sg in vPartProof e sender m = Ok tt /\ partProof m = Ok (v, s, p, sp, sg).
Proof.
  intros F1 F2 P F3 F4 F5 C. cbv zeta. assert (fits 1 p). { unfold fits. destruct P as [X|[X _]]; rewrite X; reflexivity. }
  unfold mkPartProof, base, vPartProof, partProof. open. split; ev.
  destruct P as [X|[X Y]]; rewrite X; cbn; auto. apply N.ltb_lt. auto.
Qed.
(** New view. *)
Notation els l := (concat (map (fun x : N * bytes => le 2 (fst x) ++ snd x) l)).
Lemma els_size l : forall p, sortedFrom p l -> size (els l) = 34 * N.of_nat (length l).
Proof.
  induction l as [|[i d] l IH]; intros p H; cbn [map concat length]; auto. destruct H as (_ & _ & L & _ & H).
  rewrite !size_app, size_le, (IH _ H). cbn [fst snd]. lia.
Qed.
Lemma trip_nvLoop l : forall pre p, sortedFrom p l -> nvLoop (pre ++ els l) (length l) (size pre) p = Ok tt.
Proof.
  induction l as [|[i d] l IH]; intros pre p H; cbn [map concat length nvLoop]; auto. destruct H as (Hp' & F & L & Z & H). cbn [fst snd].
  specialize (IH (pre ++ le 2 i ++ d) (Some i) H). rewrite !size_app, size_le, L in IH. repeat rewrite <- app_assoc in IH.
  replace (size pre + (N.of_nat 2 + 32)) with (size pre + 34) in IH by lia.
  open. ev; auto. { destruct p; auto. apply N.ltb_lt. auto. } rewrite Z. auto.
Qed.
Lemma sorted_named l r i : sortedFrom (Some i) l -> r <= i -> named l r = None.
Proof.
  revert i. induction l as [|[j d] l IH]; intros i H L; cbn [named]; auto. destruct H as (Hp' & F & _ & _ & H).
  destruct (N.eqb_spec j r); [lia|]. apply IH with j; auto. lia.
Qed.
Lemma trip_nvFind l r : forall pre p, sortedFrom p l -> nvFind (pre ++ els l) (length l) (size pre) r = Ok (named l r).
Proof.
  induction l as [|[i d] l IH]; intros pre p H; cbn [map concat length nvFind named]; auto. destruct H as (Hp' & F & L & Z & H). cbn [fst snd].
  specialize (IH (pre ++ le 2 i ++ d) (Some i) H). rewrite !size_app, size_le, L in IH. repeat rewrite <- app_assoc in IH.
  replace (size pre + (N.of_nat 2 + 32)) with (size pre + 34) in IH by lia.
  open. eapply bind_ok; [rd|]. destruct (N.eqb_spec i r). { ev. }
  destruct (N.ltb_spec r i). { rewrite sorted_named with (i := i); auto. lia. } exact IH.
Qed.
Lemma trip_newview v sp l r : fits 8 v -> fits 4 (size sp) -> fits 8 (epoch e) -> primaryOf e v = sender -> sortedFrom None l -> N.of_nat (length l) = nvExpected e ->
  24 + 34 * nvExpected e + size sp < 2 ^ 16 ->
  let m := mkNewView (epoch e) v sp l in vNewView e sender m = Ok tt /\ newViewOf m r = Ok (v, named l r).
Proof.
  intros F1 F2 F3 P S L B. cbv zeta. assert (F4 : fits 2 (N.of_nat (length l))). { unfold fits. change (256 ^ 2) with (2 ^ 16). lia. }
  assert (Z := els_size l None S).
  set (pre := base 604 sp ++ le 8 v ++ le 8 (epoch e) ++ le 2 (N.of_nat (length l)) ++ sp).
  assert (E : mkNewView (epoch e) v sp l = pre ++ els l). { unfold mkNewView, pre. open. reflexivity. }
  assert (Lp : size pre = 24 + size sp). { unfold pre, base. sz. }
  assert (X1 := trip_nvLoop l pre None S). assert (X2 := trip_nvFind l r pre None S). rewrite Lp in *.
  rewrite <- E in *. unfold vNewView, newViewOf. split.
  - eapply bind_ok. { unfold span, mkNewView, base. open. rd. }
    cbv beta. eapply bind_ok. { apply need_ok, N.leb_le. rewrite N.mod_small by lia. rewrite E, size_app, Lp. lia. }
    cbv beta. eapply bind_ok; [apply need_ok; auto|]. cbv beta. eapply bind_ok; [apply need_ok; auto|].
    cbv beta. eapply bind_ok. { unfold mkNewView, base. open. rd. } cbv beta. eapply bind_ok; [apply need_ok; apply N.eqb_eq; auto|].
    cbv beta. eapply bind_ok. { unfold mkNewView, base. open. rd. } cbv beta. eapply bind_ok; [apply need_ok; apply N.eqb_eq; auto|].
    cbv beta. eapply bind_ok. { unfold mkNewView, base. open. rd. } cbv beta. eapply bind_ok; [apply need_ok; apply N.eqb_eq; auto|].
    cbv beta. rewrite <- L, Nat2N.id. exact X1.
  - eapply bind_ok. { unfold mkNewView, base. open. rd. } cbv beta.
    eapply bind_ok. { unfold span, mkNewView, base. open. rd. } cbv beta.
    eapply bind_ok. { unfold mkNewView, base. open. rd. } cbv beta. rewrite Nat2N.id. eapply bind_ok; [exact X2|]. reflexivity.
Qed.
End Rep.
End Trip.
