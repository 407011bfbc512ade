(** The read-only replica's checkpoints: bftengine/src/bftengine/ReadOnlyReplica.cpp:98-103, 124-193 and CheckpointInfo.hpp:24-80, with the certificates of Cert_Model (C11). A message has passed CheckpointMsg::validate: the signature of its generating replica,
    a number below nReps (CheckpointMsg.cpp:49-72). Left out: the transfer itself (C22, C32-C34, C43), reserved pages (an event gives the epoch), the bytes of the descriptor. *)
From Coq Require Import List Arith Bool.
From Verif Require Import Cert_Model.
Import ListNotations.

(** CheckpointMsg: dg stands for its three digests, state is the number of its last block. *)
Record ckpt := mkC { sq : nat; epoch : nat; stable : bool; state : nat; dg : nat }.
(** CheckpointMsg::equivalent, CheckpointMsg.cpp:74-78. *)
Definition equiv (a b : ckpt) : bool := (sq a =? sq b) && (dg a =? dg b) && (state a =? state b).
Inductive event :=
| Ckpt (r : nat) (m : ckpt)     (* onMessage<CheckpointMsg>; r: idOfGeneratedReplica *)
| Complete (c : nat)            (* onTransferringCompleteImp: newStateCheckpoint *)
| Epoch (e : nat).              (* the epoch in the reserved pages is e *)
Record st := mkSt { certs : nat -> cert ckpt; keys : list nat;     (* checkpointsInfo: the certificate of a number, new ones are empty; the numbers in the map *)
  lastExec : nat; known : nat; collecting : bool;
  stored : list (nat * list (nat * ckpt));                         (* the descriptors written: the number and the messages *)
  hist : list (nat * ckpt);                                        (* ghost: the messages that counted since the last start *)
  bad : bool }.                                                    (* an undefined dereference in a certificate *)
Definition s0 := mkSt (fun _ => cert0 ckpt) [] 0 0 false [] [] false.

Section Ro.
Context (f c window : nat).
Definition nReps : nat := 3 * f + 2 * c + 1.
(** CheckpointInfo's constructor, 45-49. *)
Definition required : nat := 2 * f + c + 1.
(** Line 147. *)
Definition relevant (m : ckpt) (s : st) : bool := stable m && (lastExec s <? sq m) && (known s <=? epoch m).
(** onMessage<CheckpointMsg>, 124-164, persistCheckpointDescriptor, 166-193 (all messages of the certificate). CheckpointInfo<false>: no self message, all messages kept; selfId is not among the senders. *)
Definition onCkpt (r : nat) (m : ckpt) (s : st) : st :=
  if collecting s || negb (relevant m s) then s else
  match addMsg ckpt equiv false true nReps required nReps (certs s (sq m)) r m with
  | None => mkSt (certs s) (keys s) (lastExec s) (known s) (collecting s) (stored s) (hist s) true
  | Some (k, _) =>
      if complete ckpt k then mkSt (fun _ => cert0 ckpt) [] (lastExec s) (known s) true (stored s ++ [(sq m, msgs ckpt k)]) [] (bad s)
      else mkSt (fun q => if q =? sq m then k else certs s q) (if existsb (Nat.eqb (sq m)) (keys s) then keys s else sq m :: keys s) (lastExec s) (known s) false (stored s) (hist s ++ [(r, m)]) (bad s)
  end.
Definition step (s : st) (e : event) : st :=
  match e with
  | Ckpt r m => onCkpt r m s
  | Complete n => mkSt (certs s) (keys s) (n * window) (known s) false (stored s) (hist s) (bad s)
  | Epoch e => mkSt (certs s) (keys s) (lastExec s) e (collecting s) (stored s) (hist s) (bad s)
  end.
Definition run (l : list event) : st := fold_left step l s0.
End Ro.
(** All senders are replicas of the cluster. *)
Definition valid (n : nat) (l : list event) : Prop := forall r m, In (Ckpt r m) l -> r < n.
(** The first message of each replica for number q. *)
Definition votes (q : nat) (l : list (nat * ckpt)) : list (nat * ckpt) := received [] (map (fun x => Add ckpt (fst x) (snd x)) (filter (fun x => sq (snd x) =? q) l)).
