(** What is said about the periodic worker. *)
From Coq Require Import List Arith Bool.
Import ListNotations.
From Verif Require Import PeriodicW_model.

(** The state after the events of a history, in order; [None]: that history cannot happen. *)
Fixpoint run (s : state) (es : list event) : option state :=
  match es with [] => Some s | e :: es => match step s e with Some s' => run s' es | None => None end end.

(** Events of the worker's loop: its preWork, its work, its sleeping and its leaving. *)
Definition looping (e : event) : Prop := match e with Enter _ | Begin _ _ | End _ | Sleep _ | Resleep _ | Exit _ _ => True | _ => False end.
Definition launches (e : event) : Prop := match e with Launch _ => True | _ => False end.
Definition begins (e : event) : Prop := match e with Begin _ _ => True | _ => False end.
Definition stopTimesOut (e : event) : Prop := match e with StopAwake _ TimedOut => True | _ => False end.
Definition none (P : event -> Prop) (es : list event) : Prop := forall e, In e es -> ~ P e.

(** The caller is inside stop(). *)
Definition stopping (s : state) (c : nat) : Prop :=
  match ctl s c with CStop _ | CWait _ _ | CJoin _ | CStopR _ => True | _ => False end.

(** Histories in which no stop() is called while another one is under way. *)
Inductive reach1 (n : nat) : state -> Prop :=
| reach1_init : reach1 n (init n)
| reach1_step : forall s e s', reach1 n s -> step s e = Some s' ->
    (match e with StopCall _ _ => forall d, ~ stopping s d | _ => True end) -> reach1 n s'.

(** Events of worker threads and of caller [c] only, in which nothing times out and nothing wakes for no reason. *)
Definition plain (k : cause) : Prop := k = Straight \/ k = Notified.
Definition unaided (c : nat) (e : event) : Prop :=
  match e with
  | Enter _ | End _ | Note _ _ => True
  | Begin _ k | Exit _ k => plain k
  | StopDo d _ | StopJoin d | StopRet d _ => d = c
  | StopAwake d k => d = c /\ plain k
  | _ => False
  end.
(** Events of worker threads in which only the sleep interval ends. *)
Definition workersOwn (e : event) : Prop :=
  match e with
  | Enter _ | End _ | Note _ _ | Sleep _ => True
  | Begin _ k => k <> Spurious
  | _ => False
  end.
