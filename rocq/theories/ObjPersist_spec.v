(** What is said about persisting and recovering an object cache. *)
From Coq Require Import List ZArith Bool Permutation.
Import ListNotations.
Open Scope Z_scope.
From Verif Require Import ObjPersist_model.

(** The states a persist run can get to from [s0], whatever the schedule, the passing of time and the failures. *)
Inductive reach (ser : nat -> sres) (cap : nat) (s0 : state) : state -> Prop :=
| reach0 : reach ser cap s0 s0
| reachS : forall s e s', reach ser cap s0 s -> step ser cap s e = Some (Ok s') -> reach ser cap s0 s'.
(** The same for a restore. *)
Inductive rreach (s0 : rstate) : rstate -> Prop :=
| rreach0 : rreach s0 s0
| rreachS : forall s e s', rreach s0 s -> rstep s e = Some s' -> rreach s0 s'.
Definition restored (s : rstate) : Prop := Forall (fun w => rat w = REnd) (rws s).

(** The record of an object: none if it cannot be serialized. *)
Definition recs (ser : nat -> sres) (o : obj) : list rec := match ser (optr o) with SBuf c => [recOf o c] | _ => [] end.
Definition gone (now : Z) (o : obj) : Prop := 0 <> oexp o /\ oexp o < now.
Definition alive (now : Z) (o : obj) : bool := (oexp o =? 0) || (now <=? oexp o).
Definition content (s : state) : list (list rec) := map file (wks s).

Inductive subseq {A} : list A -> list A -> Prop :=
| sub_nil : subseq [] []
| sub_skip : forall x l m, subseq l m -> subseq l (x :: m)
| sub_take : forall x l m, subseq l m -> subseq (x :: l) (x :: m).

(** The restore call [i] brings the record [r] back: same key and payload, and an object that could expire still can, not before its time. *)
Definition brings (r : rec) (i : ins) : Prop :=
  ikey i = rkey r /\ ipay i = rpay r /\ isize i = u64 (rsize r) /\
  (u32 (rexp r) = 0 -> iexp i = 0) /\ (0 < u32 (rexp r) -> u32 (rexp r) <= iexp i).
(** The restore call [i] brings the object [o] back. *)
Definition bringsObj (ser : nat -> sres) (o : obj) (i : ins) : Prop :=
  ikey i = okey o /\ ser (optr o) = SBuf [ipay i] /\ isize i = osize o /\ (oexp o = 0 -> iexp i = 0) /\ (0 < oexp o -> oexp o <= iexp i).
(** An object that serializes to one buffer, of a size below 2^31. *)
Definition fits (ser : nat -> sres) (o : obj) : Prop := (exists b, ser (optr o) = SBuf [b]) /\ 0 <= osize o < 2 ^ 31 /\ 0 <= oexp o < 2 ^ 32.

(** A list of events, for examples. *)
Fixpoint runs (ser : nat -> sres) (cap : nat) (s : state) (es : list event) : option res :=
  match es with [] => Some (Ok s) | e :: es => match step ser cap s e with Some (Ok s') => runs ser cap s' es | r => r end end.
Fixpoint rruns (s : rstate) (es : list revent) : option rstate :=
  match es with [] => Some s | e :: es => match rstep s e with Some s' => rruns s' es | None => None end end.
(** A record whose expiry time had come. *)
Definition goneR (now : Z) (r : rec) : Prop := 0 < u32 (rexp r) /\ u32 (rexp r) <= now.
(** The object / the record can still be used at time [now]. *)
Definition lives (now : Z) (o : obj) : bool := (oexp o =? 0) || (now <? oexp o).
Definition fresh (now : Z) (r : rec) : bool := (u32 (rexp r) =? 0) || (now <? u32 (rexp r)).
