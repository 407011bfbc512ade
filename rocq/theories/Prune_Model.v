(** Pruning: kvbc/src/pruning_handler.cpp with the block deletion of both storage back ends. Model only; theorems in Prune_Props.v. *)
From Coq Require Import List Arith Bool Lia Decimal DecimalNat.
Import ListNotations.

(** Decimal text of a number, as operator<< on an ostringstream writes it: the list of digits. *)
Fixpoint digitsOf (u : uint) : list nat :=
  match u with
  | Nil => [] | D0 u => 0 :: digitsOf u | D1 u => 1 :: digitsOf u | D2 u => 2 :: digitsOf u | D3 u => 3 :: digitsOf u | D4 u => 4 :: digitsOf u
  | D5 u => 5 :: digitsOf u | D6 u => 6 :: digitsOf u | D7 u => 7 :: digitsOf u | D8 u => 8 :: digitsOf u | D9 u => 9 :: digitsOf u
  end.
Definition dec (n : nat) : list nat := digitsOf (Nat.to_uint n).

(** LatestPrunableBlock (bft_sequence_number is not signed and not used): replica, block id and the key that made the signature together with
    the text it was made over. Signatures are ideal: a signature is the pair (signer, signed text); it can only appear if the signer made it. *)
Record lpb := mkLpb { lreplica : nat; lblock : nat; lsig : nat * list nat }.
(** PruningSigner::sign, pruning_handler.cpp:24-33: replica and block id written one after the other, without separator. *)
Definition signedText (replica block : nat) : list nat := dec replica ++ dec block.
Definition sign (me replica block : nat) : lpb := mkLpb replica block (me, signedText replica block).

(** Signature checking with the public key of replica [r]. *)
Fixpoint eqText (a b : list nat) : bool := match a, b with [], [] => true | x :: a, y :: b => (x =? y) && eqText a b | _, _ => false end.
Definition sigOk (r : nat) (text : list nat) (s : nat * list nat) : bool := (fst s =? r) && eqText (snd s) text.

(** PruningVerifier::verify(LatestPrunableBlock), pruning_handler.cpp:55-66 (and 98-105: the verifier of that replica). *)
Definition verifyLpb (replicas : list nat) (b : lpb) : bool :=
  existsb (Nat.eqb (lreplica b)) replicas && sigOk (lreplica b) (signedText (lreplica b) (lblock b)) (lsig b).
(** PruneRequest: sender and the collected answers. *)
Record request := mkReq { sender : nat; blocks : list lpb }.
(** pruning_handler.cpp:84-95: erase each verified answer's replica from the set of ids. *)
Fixpoint verifyAll (replicas left : list nat) (l : list lpb) : bool :=
  match l with
  | [] => match left with [] => true | _ => false end
  | b :: l => verifyLpb replicas b && existsb (Nat.eqb (lreplica b)) left && verifyAll replicas (filter (fun r => negb (r =? lreplica b)) left) l
  end.
(** PruningVerifier::verify(PruneRequest), pruning_handler.cpp:68-96. *)
Definition verifyReq (replicas : list nat) (q : request) : bool :=
  (length (blocks q) =? length replicas) && negb (existsb (Nat.eqb (sender q)) replicas) && verifyAll replicas replicas (blocks q).

(** latestBasedOnNumBlocksConfig, pruning_handler.cpp:193-199. *)
Definition latestPrunable (last keep : nat) : nat := if last <? keep then 0 else last - keep.
(** agreedPrunableBlockId, pruning_handler.cpp:201-207 ([None]: the assertion that there is an answer). *)
Definition agreed (l : list lpb) : option nat :=
  match l with [] => None | b :: l => Some (fold_left (fun m x => if lblock x <? m then lblock x else m) l (lblock b)) end.

(** A chain: ids genesis..last are present; genesis = last = 0 when empty. *)
Record chain := mkChain { genesis : nat; last : nat }.
(** The two back ends. [None]: assertion or exception; the handler turns both into the end of the process (pruning_handler.cpp:216-222).
    v4: kvbc/src/v4blockchain/detail/blockchain.cpp:82-118. *)
Definition delUntilV4 (c : chain) (until : nat) : option chain :=
  if genesis c =? 0 then None
  else if until <=? genesis c then None
  else if last c =? genesis c then Some c
  else Some (mkChain (S (min (last c - 1) (until - 1))) (last c)).
(** Categorized: kv_blockchain.cpp:419-490 deleteBlock for the ids that occur here (genesis, last, or only block), called for each id from
    genesis on by blocks_deleter_adapter.cpp:35-53. Deleting the only block throws (kv_blockchain.cpp:466-467). *)
Definition deleteBlockCat (c : chain) (i : nat) : option chain :=
  if (i =? 0) || (i <? genesis c) || (last c <? i) then None              (* returns false: the caller asserts *)
  else if (i =? last c) && (i =? genesis c) then None                      (* throws *)
  else if i =? last c then Some (mkChain (genesis c) (last c - 1))
  else if i =? genesis c then Some (mkChain (S (genesis c)) (last c))
  else None.                                                              (* throws: in the middle *)
Definition delUntilCat (c : chain) (until : nat) : option chain :=
  if genesis c =? 0 then None
  else if until <=? genesis c then None
  else fold_left (fun c i => match c with Some c => deleteBlockCat c i | None => None end)
                 (seq (genesis c) (S (min (last c) (until - 1)) - genesis c)) (Some c).
Inductive backend := V4 | Cat.
Definition delUntil (b : backend) := match b with V4 => delUntilV4 | Cat => delUntilCat end.

(** pruneThroughBlockId, pruning_handler.cpp:209-237. The asynchronous deletion is one step: while it runs the replica executes nothing
    (ReplicaImp.cpp:5405, ReplicaImp.hpp:667). *)
Definition pruneThrough (b : backend) (c : chain) (t : nat) : option chain := if genesis c <=? t then delUntil b c (S t) else Some c.

(** Configuration of a replica: is it read-only; numBlocksToKeep_; pruningEnabled_; its storage. *)
Record rcfg := mkR { ro : bool; keep : nat; enabled : bool; store : backend }.
(** handle(PruneRequest), pruning_handler.cpp:159-191: the new chain ([None] = the process ends). A refused request leaves the chain.
    Read-only replicas do nothing (pruning_handler.hpp:224-230). *)
Definition handlePrune (replicas : list nat) (r : rcfg) (c : chain) (q : request) : option chain :=
  if negb (enabled r) || ro r then Some c
  else if negb (verifyReq replicas q) then Some c
  else match agreed (blocks q) with None => None | Some t => pruneThrough (store r) c t end.
(** handle(LatestPrunableBlockRequest), pruning_handler.cpp:131-157, and for read-only replicas pruning_handler.hpp:204-222. *)
Definition handleLpb (me : nat) (r : rcfg) (c : chain) : option lpb :=
  if negb (enabled r) then None else Some (sign me me (if ro r then last c else latestPrunable (last c) (keep r))).
(** handle(PruneStatusRequest), pruning_handler.cpp:239-256: last_pruned_block. *)
Definition lastPruned (c : chain) : nat := if 1 <? genesis c then genesis c - 1 else 0.

(** The system: all replicas' chains, and every signature made so far. Chains only grow at the end (no rollback). *)
Record sys := mkSys { chains : nat -> chain; made : list (nat * list nat) }.
Section Sys.
Context (replicas : list nat) (cfg : nat -> rcfg) (byz : list nat).
Definition upd (f : nat -> chain) (i : nat) (c : chain) : nat -> chain := fun j => if j =? i then c else f j.
Definition addBlock (c : chain) : chain := mkChain (max 1 (genesis c)) (S (last c)).
(** A request can only contain signatures that were made; a Byzantine replica signs any text with its key. *)
Inductive step : sys -> sys -> Prop :=
| SAdd s i : step s (mkSys (upd (chains s) i (addBlock (chains s i))) (made s))
| SLpb s i b : handleLpb i (cfg i) (chains s i) = Some b -> step s (mkSys (chains s) (lsig b :: made s))
| SByz s i text : In i byz -> step s (mkSys (chains s) ((i, text) :: made s))
| SPrune s i q c : (forall b, In b (blocks q) -> In (lsig b) (made s)) -> handlePrune replicas (cfg i) (chains s i) q = Some c ->
    step s (mkSys (upd (chains s) i c) (made s)).
Inductive reach (c0 : nat -> chain) : sys -> Prop :=
| R0 : reach c0 (mkSys c0 [])
| RS s s' : reach c0 s -> step s s' -> reach c0 s'.
End Sys.

(** Specification. *)
Definition chainOk (c : chain) : Prop := (genesis c = 0 /\ last c = 0) \/ (1 <= genesis c /\ genesis c <= last c).
Definition contains (c : chain) (i : nat) : Prop := 1 <= i /\ genesis c <= i <= last c.
(** Replica [r] has signed that everything up to [b] may be pruned. *)
Definition signedPrunable (s : sys) (r b : nat) : Prop := In (r, signedText r b) (made s).
