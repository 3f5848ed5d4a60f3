(** C33: what the order guarantee means, on observable events only. *)
From Verif Require Import Scheduler_model.

Definition reqEqb (a b : req) : bool :=
  (r_id a =? r_id b)%nat && (r_key a =? r_key b)%N && Bool.eqb (r_read a) (r_read b).

Definition evReq (e : event) : req :=
  match e with ESubmit r | EStart r | EYield r | EDone r => r end.

(** The events of one key. *)
Definition ofKey (k : N) (e : event) : bool := (r_key (evReq e) =? k)%N.

(** A one-at-a-time first-in first-out server: jobs submitted and not yet done,
    oldest first, and whether the oldest one is executing. *)
Record fifo := { f_jobs : list req; f_busy : bool }.

Definition fifoStep (q : fifo) (e : event) : option fifo :=
  match e with
  | ESubmit r => Some {| f_jobs := f_jobs q ++ [r]; f_busy := f_busy q |}
  | EStart r =>
      match f_jobs q with
      | x :: _ => if negb (f_busy q) && reqEqb x r
                  then Some {| f_jobs := f_jobs q; f_busy := true |} else None
      | [] => None
      end
  | EYield r =>
      match f_jobs q with
      | x :: _ => if f_busy q && reqEqb x r
                  then Some {| f_jobs := f_jobs q; f_busy := false |} else None
      | [] => None
      end
  | EDone r =>
      match f_jobs q with
      | x :: l => if f_busy q && reqEqb x r
                  then Some {| f_jobs := l; f_busy := false |} else None
      | [] => None
      end
  end.

Fixpoint fifoRun (q : fifo) (es : list event) : option fifo :=
  match es with
  | [] => Some q
  | e :: r => match fifoStep q e with None => None | Some q' => fifoRun q' r end
  end.
Definition idle : fifo := {| f_jobs := []; f_busy := false |}.

(** Internal steps: everything but enqueue and stop. *)
Definition internal (l : label) : Prop :=
  match l with LLoop _ _ | LTask _ _ _ => True | _ => False end.
(** Internal steps in which no job asks to be rescheduled. *)
Definition internalDone (l : label) : Prop :=
  match l with LLoop _ _ | LTask _ _ true => True | _ => False end.
