(** Specification for C25. *)
From Verif Require Import Bytes SplitSet_model.

(** The keys inserted since the last reset (oldest first), starting from [acc]. *)
Fixpoint inserted (acc : list N) (cs : list scall) : list N :=
  match cs with
  | [] => acc
  | SInsert k :: r => inserted (acc ++ [k]) r
  | SReset :: r => inserted [] r
  end.
(** The low 32 bits of a key are what is tracked; 0 stands for "no key" in the table. *)
Definition usable (k : N) : Prop := wrap32 k <> 0%N.
Definition usable_call (c : scall) : Prop := match c with SInsert k => usable k | SReset => True end.
(** [l] is exactly the set of (32-bit) keys an insert would report as already present. *)
Definition tracks (s : sset) (l : list N) : Prop :=
  NoDup l /\ (forall k, In k l -> (0 < k < two32)%N) /\
  forall k, usable k -> exists b, lookupS s k = Some b /\ (b = true <-> In (wrap32 k) l).
