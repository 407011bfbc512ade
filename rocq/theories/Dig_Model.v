(** The digest that a replica signs for a proposal at a view and a sequence number: DigestHolder::calcCombination, libs/crypto/digest_holder.hpp:81-91, as used by SignedShareMsgs.cpp:45-60 and SeqNumInfo.cpp:104, 130, 196.
    A digest of 32 bytes is four 64-bit words, as the code reads it; views and sequence numbers are 64-bit numbers. *)
From Coq Require Import NArith Bool.
Open Scope N_scope.
Record digest := mkD { w0 : N; w1 : N; w2 : N; w3 : N }.
(** X = (32 / 8) / 2. *)
Definition X : N := 2.
Definition locA (d : digest) : N := w0 d mod X.
Definition locB (d : digest) : N := N.shiftr (w0 d) 8 mod X.
(** ptr[i] ^= v, for the words that can be chosen. *)
Definition xorAt (i v : N) (d : digest) : digest := if i =? 0 then mkD (N.lxor (w0 d) v) (w1 d) (w2 d) (w3 d) else mkD (w0 d) (N.lxor (w1 d) v) (w2 d) (w3 d).
Definition comb (d : digest) (view seq : N) : digest := xorAt (locB d) seq (xorAt (locA d) view d).
