(** Specification for C24. *)
From Verif Require Import Bytes CountMin_model.

(** The number of times [k] was counted, capped, decayed and reset: what the sketch must not
    under-report.  [lo]/[hi] process the history from its start value [a]. *)
Fixpoint lo (cmax : N) (k : N) (a : N) (cs : list call) : N :=
  match cs with
  | [] => a
  | Inc k' :: r => lo cmax k (if (k' =? k)%N then N.min cmax (a + 1) else a) r
  | ResetKey _ :: r => lo cmax k 0 r
  | Decay d :: r => lo cmax k (d a) r
  | Reset :: r => lo cmax k 0 r
  end.
(** Everything counted. *)
Fixpoint hi (a : N) (cs : list call) : N :=
  match cs with
  | [] => a
  | Inc _ :: r => hi (a + 1) r
  | ResetKey _ :: r => hi a r
  | Decay d :: r => hi (d a) r
  | Reset :: r => hi 0 r
  end.
(** A decay factor in [0,1]: monotone and never increasing a counter. *)
Definition decaying (c : call) : Prop :=
  match c with
  | Decay d => (forall x, d x <= x)%N /\ (forall x y, x <= y -> d x <= d y)%N
  | _ => True
  end.
Definition not_reset_key (c : call) : Prop := match c with ResetKey _ => False | _ => True end.
