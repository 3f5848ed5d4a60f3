(** Running a history of filter operations (newest first) against the modelled code. *)
From Verif Require Import Bytes BloomFilter_model BloomFilter_spec.

Fixpoint frun (comb : N -> N -> N) (f : bf) (hist : list fop) : option bf :=
  match hist with
  | [] => Some f
  | o :: r =>
    let* f1 := frun comb f r in
    match o with
    | FSet i k => set comb f1 i k
    | FClear i => clear f1 i
    | FReset => reset f1
    end
  end.

(** Caller's duty (BloomFilter.h:83 "Doesn't check bounds"): the index is in range. *)
Definition fop_ok (nf : N) (o : fop) : Prop :=
  match o with FSet i _ => (i < nf)%N | FClear i => (i < nf)%N | FReset => True end.

(** The parameters are positive (the constructor throws otherwise) and all the memory
    the filters need is addressable with 64 bits. *)
Definition params_ok (nf nh ht : N) : Prop :=
  (0 < nf /\ 0 < nh /\ 0 < ht /\ nf * (8 + nh * ht) < two64)%N.
