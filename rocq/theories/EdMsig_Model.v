(** The EdDSA multisignature that certifies prepares, commits and checkpoints.
    libs/crypto/src/threshsign/eddsa/EdDSAMultisigVerifier.cpp, EdDSAMultisigSigner.cpp,
    libs/crypto/threshsign/eddsa/EdDSAMultisigVerifier.h, SingleEdDSASignature.h, and the job that combines shares
    (bftengine/src/bftengine/CollectorOfThresholdSignatures.hpp:290-419).

    Ed25519 itself is not modelled: a key is an element of an arbitrary type and [vb k msg sig] says whether OpenSSL accepts
    [sig] (any function).  Every theorem holds for each such function.  [None] is a failed ConcordAssert (the process
    aborts) or an access outside a vector. *)
From Coq Require Import List Arith NArith Lia Bool Permutation.
From Verif Require Import Lib_Bytes.
Import ListNotations.

(** SingleEdDSASignature.h:22-25: uint64_t id and 64 signature bytes; sizeof = 72 (no padding). *)
Definition ENTRY : nat := 72.
Record entry := mkE { e_id : N; e_sig : bytes }.
(** The reinterpret_cast of 72 bytes. *)
Definition decodeEntry (b : bytes) : entry := mkE (unle (firstn 8 b)) (slice b 8 64).
(** The memcpy of a SingleEdDSASignature. *)
Definition encodeEntry (e : entry) : bytes := le 8 (e_id e) ++ e_sig e.

Section Scheme.
Context {K : Type}.
Variable vb : K -> bytes -> bytes -> bool.

(** EdDSAMultisigVerifier.cpp:70-76 the members; the constructor asserts verifiers.size() == signersCount + 1 (index 0 is a
    stub). *)
Record verifier := mkV { v_keys : list K; v_signers : nat; v_threshold : nat }.
Definition wellFormed (v : verifier) : Prop := length (v_keys v) = v_signers v + 1.

(** vector::operator[]: outside the vector is undefined behaviour. *)
Definition keyAt (v : verifier) (i : N) : option K :=
  if (i <? N.of_nat (length (v_keys v)))%N then nth_error (v_keys v) (N.to_nat i) else None.

(** EdDSAMultisigVerifier.cpp:82-90 verifySingleSignature *)
Definition verifySingle (v : verifier) (m : bytes) (e : entry) : option bool :=
  if (e_id e =? 0)%N then Some false
  else match keyAt v (e_id e) with
       | None => None
       | Some k => Some (vb k m (e_sig e))
       end.

(** EdDSAMultisigVerifier.cpp:92-121 verify.  The entries of the buffer, in order. *)
Definition entries (sig : bytes) : list entry :=
  map (fun i => decodeEntry (slice sig (ENTRY * i) ENTRY)) (seq 0 (length sig / ENTRY)).
(** 107-117 the loop: bad ids are skipped, the others are verified and counted. *)
Fixpoint countValid (v : verifier) (m : bytes) (es : list entry) : option nat :=
  match es with
  | [] => Some 0
  | e :: es' =>
    if ((e_id e =? 0) || (N.of_nat (length (v_keys v)) <=? e_id e))%N then countValid v m es'
    else match verifySingle v m e with
         | None => None
         | Some r =>
           match countValid v m es' with
           | None => None
           | Some c => Some ((if r then 1 else 0) + c)
           end
         end
  end.
Definition verify (v : verifier) (m sig : bytes) : option bool :=
  if negb (length sig mod ENTRY =? 0) then None
  else if length sig / ENTRY <? v_threshold v then Some false
  else match countValid v m (entries sig) with
       | None => None
       | Some c => Some (v_threshold v <=? c)
       end.

(** EdDSAMultisigVerifier.cpp:123-125, 130 *)
Definition requiredLength (v : verifier) : nat := v_signers v * ENTRY.
Definition maxShareID (v : verifier) : N := N.of_nat (v_signers v) + 1.

(** EdDSAMultisigVerifier.h:36-50 EdDSASignatureAccumulator.  signatures_ is unordered_map<uint32_t, ...>: an association
    list with at most one entry per key (the iteration order is a parameter of [getFullSignedData]). *)
Record acc := mkA {
  a_sigs : list (N * entry);
  a_digest : bytes;
  a_verification : bool;
  a_invalid : list N }.
(** 65-68 the constructor; 40-43 setExpectedDigest *)
Definition newAccumulator (verification : bool) : acc := mkA [] [] verification [].
Definition setExpectedDigest (a : acc) (d : bytes) : acc := mkA (a_sigs a) d (a_verification a) (a_invalid a).

Definition addSet (x : N) (l : list N) : list N := if existsb (N.eqb x) l then l else x :: l.
(** unordered_map::insert does not replace. *)
Definition insertNew (k : N) (e : entry) (l : list (N * entry)) : list (N * entry) :=
  if existsb (fun p => N.eqb k (fst p)) l then l else l ++ [(k, e)].

(** EdDSAMultisigVerifier.cpp:16-39 add (the result is the number of stored shares). *)
Definition add (v : verifier) (a : acc) (share : bytes) : option (acc * nat) :=
  if negb (length share =? ENTRY) then None
  else
    let e := decodeEntry share in
    if ((e_id e =? 0) || (maxShareID v <? e_id e))%N then Some (a, length (a_sigs a))
    else
      let checked :=
        if a_verification a then
          match verifySingle v (a_digest a) e with
          | None => None
          | Some true => Some (a_invalid a)
          | Some false => Some (addSet (e_id e) (a_invalid a))
          end
        else Some (a_invalid a) in
      match checked with
      | None => None
      | Some inv =>
        let sigs := insertNew (e_id e mod 2 ^ 32) e (a_sigs a) in
        Some (mkA sigs (a_digest a) (a_verification a) inv, length sigs)
      end.

(** EdDSAMultisigVerifier.cpp:45-56 getFullSignedData; [ord] is the iteration order of the hash map. *)
Definition getFullSignedData (ord : list entry -> list entry) (a : acc) (threshSigLen : nat) : option bytes :=
  if threshSigLen <? length (a_sigs a) * ENTRY then None
  else Some (concat (map encodeEntry (ord (map snd (a_sigs a))))).
(** 59-63 *)
Definition getNumValidShares (a : acc) : nat := length (a_sigs a) - length (a_invalid a).
Definition getInvalidShareIds (a : acc) : list N := a_invalid a.

Fixpoint addAll (v : verifier) (a : acc) (shares : list bytes) : option acc :=
  match shares with
  | [] => Some a
  | s :: rest => match add v a s with None => None | Some (a', _) => addAll v a' rest end
  end.

(** CollectorOfThresholdSignatures.hpp:364-419 SignaturesProcessingJob::execute: the internal message it pushes. *)
Inductive jobResult := JSuccess (sig : bytes) | JFailed (bad : list N).
Definition jobBuffer (v : verifier) : nat := N.to_nat (N.of_nat (requiredLength v) mod 2 ^ 16).
Definition combine (v : verifier) (ord : list entry -> list entry) (m : bytes) (verification : bool) (shares : list bytes)
  : option (acc * bytes) :=
  match addAll v (setExpectedDigest (newAccumulator verification) m) shares with
  | None => None
  | Some a =>
    match getFullSignedData ord a (jobBuffer v) with
    | None => None
    | Some sig => Some (a, sig)
    end
  end.
Definition job (v : verifier) (ord1 ord2 : list entry -> list entry) (m : bytes) (shares : list bytes) : option jobResult :=
  match combine v ord1 m false shares with
  | None => None
  | Some (_, sig) =>
    match verify v m sig with
    | None => None
    | Some true => Some (JSuccess sig)
    | Some false =>
      match combine v ord2 m true shares with
      | None => None
      | Some (a, sig2) =>
        match verify v m sig2 with
        | None => None
        | Some true => Some (JSuccess sig2)
        | Some false => Some (JFailed (map (fun i => i - 1)%N (getInvalidShareIds a)))
        end
      end
    end
  end.

(** ---------- Specification ---------- *)
(** [share] is a signature on [m] that the key of signer [id] accepts; signers are numbered 1..n. *)
Definition ValidShare (v : verifier) (m : bytes) (id : N) (share : bytes) : Prop :=
  (1 <= id <= N.of_nat (v_signers v))%N /\ exists k, nth_error (v_keys v) (N.to_nat id) = Some k /\ vb k m share = true.
(** The buffer [sig] lists the pair (id, share) at a multiple of 72. *)
Definition Lists (sig : bytes) (id : N) (share : bytes) : Prop :=
  exists pre idb post,
    sig = pre ++ idb ++ share ++ post /\ length pre mod ENTRY = 0 /\ length idb = 8 /\ unle idb = id /\ length share = 64.
(** The entry at position [i] of [sig] is the pair (id, share). *)
Definition EntryAt (sig : bytes) (i : nat) (id : N) (share : bytes) : Prop :=
  exists pre idb post,
    sig = pre ++ idb ++ share ++ post /\ length pre = ENTRY * i /\ length idb = 8 /\ unle idb = id /\ length share = 64.
(** [sig] proves that each of [ids] signed [m]. *)
Definition Certifies (v : verifier) (m sig : bytes) (ids : list N) : Prop :=
  NoDup ids /\ forall id, In id ids -> exists share, Lists sig id share /\ ValidShare v m id share.
(** What a certificate has to mean: at least [threshold] different signers signed. *)
Definition QuorumSigned (v : verifier) (m sig : bytes) : Prop :=
  exists ids, Certifies v m sig ids /\ v_threshold v <= length ids.

(** EdDSAMultisigSigner.cpp:29-38 signData; [sign] is the signature function of the signer's private key, [id] is uint32_t. *)
Definition signData (id : N) (sign : bytes -> bytes) (m : bytes) : bytes := encodeEntry (mkE id (sign m)).
End Scheme.
Arguments verifier : clear implicits.
