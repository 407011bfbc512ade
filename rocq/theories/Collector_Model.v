(** Model of bftengine/src/bftengine/CollectorOfThresholdSignatures.hpp and of the EdDSA multi-signature verifier it uses
    (libs/crypto/src/threshsign/eddsa/EdDSAMultisigVerifier.cpp). A share is the signer id and the 64 signature bytes (one token here);
    a digest is a number; whether the signature bytes of a signer verify for a digest is an arbitrary function.
    Simplified: the background job's result is delivered to the collector that started it, or dropped when that collector was reset
    (ReplicaImp checks view and window before delivering, ReplicaImp.cpp 1887-2235); spans, logs and metrics are dropped;
    uint16_t counters are naturals (C10 shows they never exceed the number of replicas and never go below zero). *)
From Coq Require Import List Arith Bool.
Import ListNotations.

Definition share : Type := nat * nat.     (* SingleEdDSASignature: id, signature bytes *)
(** n signers with ids 1..n, threshold, verification of a single signature; verifiers_ has n+1 entries (cpp 73). *)
Record vkey := mkVk { vk_n : nat; vk_thr : nat; vk_ok : nat -> nat -> nat -> bool }.
Definition validVk (k : vkey) : Prop := 1 <= vk_thr k <= vk_n k.
(** A combined signature: its shares; false when its length is not a multiple of the size of a share. *)
Record csig := mkCs { cs : list share; cs_whole : bool }.
(** Body of a partial signature message; None when its length differs from the size of a share. *)
Definition pmsg := option share.

Section V.
Variable k : vkey.
(** verifySingleSignature, cpp 83-91. None: access beyond verifiers_. *)
Definition verifySingle (d : nat) (s : share) : option bool :=
  if fst s =? 0 then Some false else if fst s <=? vk_n k then Some (vk_ok k (fst s) d (snd s)) else None.
(** The loop of verify counts every entry whose id is in range and whose signature verifies, cpp 104-117. *)
Definition counts (d : nat) (s : share) : bool := negb (fst s =? 0) && (fst s <? S (vk_n k)) && vk_ok k (fst s) d (snd s).
(** verify, cpp 93-122. None: the assert on the length fails. *)
Definition verify (d : nat) (c : csig) : option bool :=
  if negb (cs_whole c) then None
  else if length (cs c) <? vk_thr k then Some false
  else Some (vk_thr k <=? length (filter (counts d) (cs c))).

(** EdDSASignatureAccumulator: signatures_ by id and invalidShares_. add, cpp 16-40: maxShareID() is n+1 (cpp 131). *)
Definition acc : Type := list share * list nat.
Definition accAdd (d : nat) (ver : bool) (a : option acc) (p : pmsg) : option acc :=
  match a, p with
  | Some (sg, inv), Some s =>
      if (fst s =? 0) || (vk_n k + 1 <? fst s) then Some (sg, inv)
      else
        let sg' := if existsb (fun x => fst x =? fst s) sg then sg else sg ++ [s] in
        if ver then match verifySingle d s with
                    | None => None
                    | Some true => Some (sg', inv)
                    | Some false => Some (sg', if existsb (Nat.eqb (fst s)) inv then inv else inv ++ [fst s])
                    end
        else Some (sg', inv)
  | _, _ => None
  end.
Definition accumulate (d : nat) (ver : bool) (ps : list pmsg) : option acc := fold_left (accAdd d ver) ps (Some ([], [])).

(** SignaturesProcessingJob::execute, CollectorOfThresholdSignatures.hpp 371-419; getFullSignedData asserts that the buffer of n shares
    suffices (EdDSAMultisigVerifier.cpp 46-58). *)
Inductive jres := JOk (c : csig) | JBad (ids : list nat).
Definition runCombine (d : nat) (ps : list pmsg) : option jres :=
  match accumulate d false ps with
  | None => None
  | Some (sg, _) =>
      if vk_n k <? length sg then None
      else match verify d (mkCs sg true) with
           | None => None
           | Some true => Some (JOk (mkCs sg true))
           | Some false =>
               match accumulate d true ps with
               | None => None
               | Some (sg2, inv) =>
                   if vk_n k <? length sg2 then None
                   else match verify d (mkCs sg2 true) with
                        | None => None
                        | Some true => Some (JOk (mkCs sg2 true))
                        | Some false => Some (JBad (map (fun i => i - 1) inv))
                        end
               end
           end
  end.

(** * The collector *)
Inductive job := JCombine (d : nat) (ps : list pmsg) | JVerify (d : nat) (c : csig).
(** replicasInfo: replica, message (None: the entry was created by replicasInfo[repId] in line 130), Invalid flag. *)
Record rinfo := mkR { ri_rep : nat; ri_msg : option pmsg; ri_bad : bool }.
Record cst := mkC { reps : list rinfo; unknown : nat; valid : option csig; cand : option csig; exp : option (nat * nat * nat); busy : option job }.
Definition cinit : cst := mkC [] 0 None None None None.
(** Iteration order of the unordered_map. *)
Variable ord : list rinfo -> list rinfo.
Definition hasRep (s : cst) (r : nat) : bool := existsb (fun x => ri_rep x =? r) (reps s).

(** The loop that fills the job, hpp 279-291: the first thr messages not marked invalid. A null message would be dereferenced. *)
Fixpoint pickJob (l : list rinfo) (n : nat) : option (list pmsg) :=
  match n, l with
  | 0, _ => Some []
  | S _, [] => None
  | S m, x :: l => if ri_bad x then pickJob l n
                   else match ri_msg x with None => None | Some p => match pickJob l m with Some t => Some (p :: t) | None => None end end
  end.
(** trySendToBkThread, hpp 244-297. None: an assert fails. *)
Definition trySend (s : cst) : option cst :=
  match valid s with
  | Some _ => None
  | None =>
      match busy s, exp s with
      | Some _, _ => Some s
      | _, None => Some s
      | None, Some (_, _, d) =>
          match cand s with
          | Some c => Some (mkC (reps s) (unknown s) None (Some c) (exp s) (Some (JVerify d c)))
          | None => if vk_thr k <=? unknown s
                    then match pickJob (ord (reps s)) (vk_thr k) with
                         | Some ps => Some (mkC (reps s) (unknown s) None None (exp s) (Some (JCombine d ps)))
                         | None => None
                         end
                    else Some s
          end
      end
  end.
(** Marking the replicas with bad signatures, hpp 127-132. *)
Definition markBad (l : list rinfo) (r : nat) : list rinfo :=
  if existsb (fun x => ri_rep x =? r) l then map (fun x => if ri_rep x =? r then mkR r (ri_msg x) true else x) l else l ++ [mkR r None true].
Definition markAll (l : list rinfo) (rs : list nat) : list rinfo := fold_left markBad rs l.

Inductive cop :=
| AddPart (r : nat) (p : pmsg)            (* addMsgWithPartialSignature, hpp 46-61 *)
| AddFull (c : csig)                      (* addMsgWithCombinedSignature, hpp 63-72 *)
| SetExp (s v d : nat)                    (* setExpected, hpp 74-84 *)
| Reset                                   (* resetAndFree, getAndReset: hpp 86-104, 478-507 *)
| JobDone                                 (* the job runs and its result is delivered: hpp 118-183 *)
| InitExp (s v d : nat)                   (* initExpected, hpp 186-194 *)
| InitPart (r : nat) (p : pmsg)           (* initMsgWithPartialSignature, hpp 197-222 *)
| InitFull (c : csig).                    (* initMsgWithCombinedSignature, hpp 225-240 *)

Definition cstep (s : cst) (o : cop) : option cst :=
  match o with
  | AddPart r p =>
      match valid s with
      | Some _ => Some s
      | None => if hasRep s r then Some s else trySend (mkC (reps s ++ [mkR r (Some p) false]) (unknown s + 1) None (cand s) (exp s) (busy s))
      end
  | AddFull c =>
      match valid s, cand s with
      | None, None => trySend (mkC (reps s) (unknown s) None (Some c) (exp s) (busy s))
      | _, _ => Some s
      end
  | SetExp sq v d =>
      match exp s, busy s with
      | None, None => if sq =? 0 then None else trySend (mkC (reps s) (unknown s) (valid s) (cand s) (Some (sq, v, d)) None)
      | _, _ => None
      end
  | Reset => Some cinit
  | JobDone =>
      match busy s with
      | None => Some s
      | Some j =>
          match valid s with
          | Some _ => None
          | None =>
              match j with
              | JVerify d c =>
                  match cand s, verify d c with
                  | Some _, Some true => Some (mkC (reps s) (unknown s) (cand s) None (exp s) None)
                  | Some _, Some false => trySend (mkC (reps s) (unknown s) None None (exp s) None)
                  | _, _ => None
                  end
              | JCombine d ps =>
                  match runCombine d ps with
                  | None => None
                  | Some (JOk c) => Some (mkC (reps s) (unknown s) (Some c) None (exp s) None)
                  | Some (JBad ids) => trySend (mkC (markAll (reps s) ids) (unknown s - length ids) None (cand s) (exp s) None)
                  end
              end
          end
      end
  | InitExp sq v d =>
      match exp s, busy s with
      | None, None => if sq =? 0 then None else Some (mkC (reps s) (unknown s) (valid s) (cand s) (Some (sq, v, d)) None)
      | _, _ => None
      end
  | InitPart r p =>
      match busy s, exp s, valid s, cand s with
      | None, Some _, None, None =>
          if hasRep s r || negb (unknown s =? 0) || negb (1 <? vk_thr k) then None
          else Some (mkC (reps s ++ [mkR r (Some p) false]) 1 None None (exp s) None)
      | _, _, _, _ => None
      end
  | InitFull c =>
      match busy s, exp s, valid s, cand s with
      | None, Some (_, _, d), None, None =>
          match verify d c with Some true => Some (mkC (reps s) (unknown s) (Some c) None (exp s) None) | _ => None end
      | _, _, _, _ => None
      end
  end.
Fixpoint crun (s : cst) (l : list cop) : option cst := match l with [] => Some s | o :: l => match cstep s o with Some s' => crun s' l | None => None end end.
End V.

(** * Specification vocabulary *)
(** At least m different signers have a signature in c that verifies for the digest. *)
Definition distinctSigners (k : vkey) (d : nat) (c : csig) (m : nat) : Prop :=
  exists S, NoDup S /\ length S = m /\ forall i, In i S -> 1 <= i <= vk_n k /\ exists b, In (i, b) (cs c) /\ vk_ok k i d b = true.
(** A share that replica r is entitled to send: it carries r's own signer id. *)
Definition ownId (r : nat) (p : pmsg) : Prop := exists b, p = Some (r + 1, b).
