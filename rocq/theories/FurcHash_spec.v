(** The pseudo-random bit stream of a key, independent of the caching in the code:
    word 0 is the key's hash, word i+1 the rehash of word i; bit [n] is bit [n mod 64] of word
    [n/64]. *)
From Verif Require Import Bytes FurcHash_model.
Definition word (key : list byte) (i : nat) : N :=
  Nat.iter i murmurRehash64A (murmurHash64A key kMurmur2Seed).
Definition bit (key : list byte) (n : N) : bool :=
  N.testbit (word key (N.to_nat (n / 64))) (n mod 64).

(** [key] is unlucky for going from 2^b to 2^b + 1 shards: 32 designated bits of its stream
    (spaced 23*(b+1) apart) are all set. *)
Definition unlucky (key : list byte) (b : nat) : Prop :=
  forall t : nat, t < 32 ->
    bit key (N.of_nat (S b) + N.of_nat t * (23 * N.of_nat (S b)))%N = true.
