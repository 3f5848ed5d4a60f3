(** What is said about resizing a compact cache. *)
From Coq Require Import List Arith Bool.
Import ListNotations.
From Verif Require Import CCResize_model.

(** The states that follow from [s0] when every step satisfies [P]. *)
Inductive reach (home : nat -> nat) (P : state -> event -> Prop) (s0 : state) : state -> Prop :=
| reach0 : reach home P s0 s0
| reachS : forall s e s', reach home P s0 s -> P s e -> step home s e = Some (Ok s') -> reach home P s0 s'.

(** Hashing gives a chunk that exists. *)
Definition inRange (home : nat -> nat) : Prop := forall n, 0 < n -> home n < n.

(** Calls of resize do not overlap, the pool is not resized while one runs, and never to nothing. *)
Definition calm (s : state) (e : event) : Prop :=
  match e with
  | EConf n => 0 < n /\ cur s = None /\ calls s = []
  | ERead => cur s = None /\ calls s = []
  | _ => True
  end.
(** A set or del of the key that has found its first bucket and not yet its second. *)
Definition between (o : op) : Prop :=
  kd o <> Get /\ match pc o with PApply _ | PPend | PNum2 _ => True | _ => False end.
(** No set or del of the key is there when resize stores numChunks_. *)
Definition noStraddle (s : state) (e : event) : Prop :=
  match e, cur s with
  | ERes _ _, Some (_, _, ANum) => forall o, In o (ops s) -> ~ between o
  | _, _ => True
  end.

(** A get found the value of a set that had returned before some set or del of the key began, and that one had returned before the get began. *)
Definition stale (s : state) : Prop :=
  exists g i ws we se, In (g, Some i) (gets s) /\ In (ws, we) (done s) /\ we < g /\ In (i, se) (done s) /\ se < ws.

(** The call uses buckets: it has a token. *)
Definition holds (o : op) : bool :=
  match pc o with PNum | PApply _ | PPend | PNum2 _ | PDbl _ | PDrop _ => true | _ => false end.
(** the resize has just waited for the cohort *)
Definition waited (ph : phase) : bool :=
  match ph with ACopy _ | ANum | ASw2x | AUnp | ASw3x | ADel _ | AFree => true | _ => false end.

(** Nothing is written or evicted, and every entry is copied. *)
Definition readOnly (s : state) (e : event) : Prop :=
  calm s e /\ match e with EStart k => k = Get | EEvict _ => False | ERes b _ => b = true | EStep _ b => b = false | _ => True end.
Definition quiet (s : state) : Prop := cur s = None /\ calls s = [] /\ forall o, In o (ops s) -> pc o = PDone.

(** A resize is over; it was the one to [m] chunks. *)
Definition finished (m : nat) (s s' : state) : Prop := (exists o ph, cur s = Some (o, m, ph)) /\ cur s' = None.
(** The cache is again as a new one of [n] chunks is: it has them, uses them and no others, and nothing is pending. *)
Definition settled (n : nat) (s : state) : Prop := num s = n /\ na s = n /\ pend s = 0.

(** A list of events, for examples. *)
Fixpoint runs (home : nat -> nat) (s : state) (es : list event) : option res :=
  match es with
  | [] => Some (Ok s)
  | e :: es => match step home s e with Some (Ok s') => runs home s' es | r => r end
  end.

(** [calm], but the cache may be resized to nothing. *)
Definition calmZero (s : state) (e : event) : Prop :=
  match e with EConf n => cur s = None /\ calls s = [] | _ => calm s e end.
(** [calm], but calls of resize may overlap. *)
Definition calmTwo (s : state) (e : event) : Prop :=
  match e with ERead => True | _ => calm s e end.
(** [calm], but the pool may be resized while a resize of the cache runs. *)
Definition calmPool (s : state) (e : event) : Prop :=
  match e with EConf n => 0 < n | _ => calm s e end.
