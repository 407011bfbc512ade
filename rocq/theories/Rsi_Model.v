(** Replica-specific information of replies: bftengine/src/bftengine/ReplicaSpecificInfoManager.cpp, .hpp, and its use in ClientsManager.cpp:330-382 and 425-445. Single thread; 32-bit storage indices do not overflow; the bytes
    of a stored entry are what the metadata storage returns for it (C21). *)
From Coq Require Import List Arith NArith Bool.
From Verif Require Import Lib_Bytes.
Import ListNotations.

Record item := mkItem { ix : nat; sn : nat; dat : bytes }.
(** RsiItem::serialize, ReplicaSpecificInfoManager.cpp:17-28: the three prefixes have 8 bytes each. *)
Definition serialize (i : item) : bytes := le 8 (N.of_nat (ix i)) ++ le 8 (N.of_nat (sn i)) ++ le 8 (N.of_nat (length (dat i))) ++ dat i.
(** RsiItem::deserialize, 29-37: the bytes are copied to the buffer of an empty string, whose length stays 0. A buffer in the string itself holds 15 bytes and a terminator (libstdc++): a longer copy runs over it. *)
Definition deserialize (b : bytes) : bool * item :=
  let n := N.to_nat (unle (slice b 16 8)) in (16 <? n, mkItem (N.to_nat (unle (slice b 0 8))) (N.to_nat (unle (slice b 8 8))) []).
(** What it should do. *)
Definition decode (b : bytes) : bool * item :=
  let n := N.to_nat (unle (slice b 16 8)) in (false, mkItem (N.to_nat (unle (slice b 0 8))) (N.to_nat (unle (slice b 8 8))) (slice b 24 n)).

Record st := mkSt { cache : nat -> list item; next : nat -> nat; disk : nat -> option bytes; over : bool }.   (* rsiCache_, clientsIndex_, the stored entries, memory was overwritten *)
Definition upd {A} (f : nat -> A) (k : nat) (v : A) : nat -> A := fun x => if x =? k then v else f x.
Section Rsi.
Context (n B : nat) (dec : bytes -> bool * item).   (* num_of_principles_, max_client_batch_size_ *)
(** getRsiForClient, 39-44: the data; a default item has none. *)
Definition get (c q : nat) (s : st) : bytes := match find (fun i => sn i =? q) (cache s c) with Some i => dat i | None => [] end.
(** setRsiForClient, 45-62. *)
Definition set (c q : nat) (d : bytes) (s : st) : st :=
  let i := mkItem (next s c) q d in
  mkSt (upd (cache s) c ((if B <=? length (cache s c) then tl (cache s c) else cache s c) ++ [i])) (upd (next s) c (S (next s c))) (upd (disk s) (c * B + next s c mod B) (Some (serialize i))) (over s).
(** init, 63-82, for a client: the entries with data, sorted by index. *)
Fixpoint ins (i : item) (l : list item) : list item := match l with [] => [i] | j :: r => if ix i <=? ix j then i :: j :: r else j :: ins i r end.
Definition sort (l : list item) : list item := fold_right ins [] l.
Definition entries (c : nat) (s : st) : list (bool * item) := flat_map (fun o => match disk s (c * B + o) with Some (x :: b) => [dec (x :: b)] | _ => [] end) (seq 0 B).
Definition loaded (c : nat) (s : st) : list item := sort (filter (fun i => negb (length (dat i) =? 0)) (map snd (entries c s))).
Definition init (s : st) : st :=
  mkSt (fun c => if c <? n then loaded c s else []) (fun c => if c <? n then match rev (loaded c s) with i :: _ => ix i | [] => 0 end else 0) (disk s) (over s || existsb (fun c => existsb fst (entries c s)) (seq 0 n)).
End Rsi.
Definition start : st := mkSt (fun _ => []) (fun _ => 0) (fun _ => None) false.
(** The information of a reply is saved, or the replica restarts. *)
Inductive event := Set_ (c q : nat) (d : bytes) | Restart.
Definition step (n B : nat) dec (s : st) (e : event) : st := match e with Set_ c q d => set B c q d s | Restart => init n B dec s end.
Definition run (n B : nat) dec (l : list event) : st := fold_left (step n B dec) l start.

(** allocateNewReplyMsgAndWriteToStorage, ClientsManager.cpp:349-377: the buffer that starts at reply holds the common part and then rsiLength bytes of information; what is saved starts at the size of the message with the common part, header included. *)
Definition saved (hdr : nat) (buffer : bytes) (replyLength rsiLength : nat) : bytes := slice buffer (hdr + (replyLength - rsiLength)) rsiLength.
(** allocateReplyFromSavedOne, 425-445, and ClientReplyMsg::setReplyLength, ClientReplyMsg.cpp:52-56: the message is allocated for the common part alone; false when the assertion fails. *)
Definition fits (replyLength : nat) (rsi : bytes) : bool := (length rsi =? 0) || (replyLength + length rsi <=? replyLength).

(** * Specification. *)
(** What was saved for a client, in order, and the last B of it. *)
Definition history (c : nat) (l : list event) : list (nat * bytes) := flat_map (fun e => match e with Set_ x q d => if x =? c then [(q, d)] else [] | Restart => [] end) l.
Definition lastN {A} (b : nat) (l : list A) : list A := skipn (length l - b) l.
Definition noRestart (l : list event) : Prop := ~ In Restart l.
