(** Specification of an array of Bloom filters, independent of bit layouts. *)
From Verif Require Import Bytes.

Inductive fop := FSet (idx key : N) | FClear (idx : N) | FReset.

(** The keys set in filter [idx] since it was last cleared (history newest first). *)
Fixpoint live (idx : N) (hist : list fop) : list N :=
  match hist with
  | [] => []
  | FReset :: _ => []
  | FClear i :: r => if (i =? idx)%N then [] else live idx r
  | FSet i k :: r => if (i =? idx)%N then k :: live idx r else live idx r
  end.
