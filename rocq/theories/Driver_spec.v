(** What is outstanding: admitted inserts whose completion has not finished. *)
From Coq Require Import List NArith Bool.
Import ListNotations.
From Verif Require Import Driver_model.
Local Open Scope N_scope.

Definition outstanding (c : call) : bool := match at_ c with Outstanding _ _ => true | _ => false end.
(** Bytes and number of the outstanding inserts. *)
Definition outstanding_bytes (s : st) : N := total_size (filter outstanding (calls s)).
Definition outstanding_count (s : st) : N := N.of_nat (length (filter outstanding (calls s))).

(** Calls that have reserved memory / an insert slot and not given it back. *)
Definition holds_memory (c : call) : bool :=
  match at_ c with Added _ | Tested _ _ | Outstanding _ _ | Reverting => true | _ => false end.
Definition holds_slot (c : call) : bool :=
  match at_ c with Tested _ _ | Outstanding _ _ | Releasing => true | _ => false end.

(** No call or completion in progress. *)
Definition quiescent (s : st) : Prop := forall c, In c (calls s) -> at_ c = Rejected \/ at_ c = Completed.
