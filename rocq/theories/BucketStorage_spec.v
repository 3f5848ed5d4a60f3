(** Specification of a bucket's storage: a bounded FIFO of byte strings.
    Each stored string costs its length plus 4 bytes. *)
From Verif Require Import Bytes.

(** Space taken by the live strings, oldest first. *)
Definition used (l : list (list byte)) : nat :=
  fold_right (fun p acc => 4 + length p + acc) 0 l.

(** Elements of [l] whose mark in [mask] is false (marks beyond the end: none). *)
Fixpoint unmarked {A} (mask : list bool) (l : list A) : list A :=
  match mask, l with
  | b :: m, x :: r => if b then unmarked m r else x :: unmarked m r
  | _, r => r
  end.
Fixpoint marked {A} (mask : list bool) (l : list A) : list A :=
  match mask, l with
  | b :: m, x :: r => if b then x :: marked m r else marked m r
  | _, _ => []
  end.

(** What a client can do with the storage. *)
Inductive sop :=
| Push (payload : list byte)      (* allocate and fill; fails when it does not fit *)
| RemoveAt (i : nat)              (* remove the i-th live allocation *)
| RemoveMarked (mask : list bool) (* remove a set of live allocations, in order *)
| RemoveUntilAt (i : nat).        (* remove everything up to and including the i-th *)

(** The abstract effect on the live strings, oldest first. *)
Definition sop_spec (cap : nat) (l : list (list byte)) (o : sop) : list (list byte) :=
  match o with
  | Push p => if used l + 4 + length p <=? cap then l ++ [p] else l
  | RemoveAt i => firstn i l ++ skipn (S i) l
  | RemoveMarked m => unmarked m l
  | RemoveUntilAt i => if i <? length l then skipn (S i) l else l
  end.

(** Sizes the 32-bit slot header can describe. *)
Definition sop_ok (o : sop) : Prop :=
  match o with Push p => (N.of_nat (length p) + 4 < two32)%N | _ => True end.
