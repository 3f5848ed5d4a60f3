(** Schedules in which switchCohorts is called by one at a time, and the requests of a cohort. *)
From Coq Require Import List ZArith Bool.
Import ListNotations.
From Verif Require Import Cohort_model.

(** no call of switchCohorts begins while another waits *)
Fixpoint oneAtATime (s : world) (l : list event) : Prop :=
  match l with
  | [] => True
  | e :: l => (e = Switch -> waiting s = 0%nat) /\ match step s e with Some s' => oneAtATime s' l | None => False end
  end.
Definition reachable (n : nat) (s : world) : Prop := exists l, oneAtATime (start n) l /\ run (start n) l = Some s.
(** requests that have a token of the cohort [t], or hold it for a moment because they loaded the word before a switch *)
Definition counts (t : bool) (p : pc) : bool := match p with Holds u | Undo u => Bool.eqb u t | _ => false end.
Definition users (t : bool) (s : world) : nat := length (filter (counts t) (reqs s)).
(** The word can count the requests. *)
Definition fits (n : nat) : Prop := (Z.of_nat n < 2 ^ 31)%Z.
