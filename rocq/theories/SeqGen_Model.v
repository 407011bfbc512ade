(** Model of client/bftclient/include/bftclient/seq_num_generator.h:38-90 (SeqNumberGenerator) and of the same algorithm in
    bftengine/src/bftengine/SimpleClientImp.cpp:653-703. The clock reading is an argument; the mutex makes each call atomic.
    Simplified: the counter is a uint32_t in the code, here an unbounded integer (it never exceeds 0x3FFFFF, which the code asserts). *)
From Coq Require Import List ZArith.
Import ListNotations.
Open Scope Z_scope.
Definition countLimit : Z := 4194303.                      (* LAST_COUNT_LIMIT = 0x3FFFFF, line 79 *)
Definition u64 (z : Z) : Z := z mod 2 ^ 64.
Record gen := mkGen { lastMilli : Z; lastCount : Z }.      (* lines 81-84 *)
Definition gen0 : gen := mkGen 0 0.
(** unique(now), lines 50-75. [now] is the clock in milliseconds since the epoch, converted to uint64_t; None models the assertion on line 71. *)
Definition unique (g : gen) (now : Z) : option (gen * Z) :=
  let milli := u64 now in
  let g' := if lastMilli g <? milli then mkGen milli 0
            else if lastCount g =? countLimit then mkGen (u64 (lastMilli g + 1)) 0
            else mkGen (lastMilli g) (lastCount g + 1) in
  let r := u64 (Z.shiftl (lastMilli g') (64 - 42)) in
  if lastCount g' <=? countLimit then Some (g', Z.lor r (lastCount g')) else None.
(** The numbers generated when the clock shows [nows] at the successive calls. *)
Fixpoint numbers (g : gen) (nows : list Z) : option (gen * list Z) :=
  match nows with
  | [] => Some (g, [])
  | now :: nows => match unique g now with
                   | None => None
                   | Some (g', r) => match numbers g' nows with None => None | Some (g2, l) => Some (g2, r :: l) end
                   end
  end.
