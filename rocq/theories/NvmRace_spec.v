(** What must not happen, and the conditions under which it provably does not.  Everything is said
    about traces: lists of events in the order in which they happened. *)
From Coq Require Import List Arith.
Import ListNotations.
From Verif Require Import NvmRace_model.

(** A call [n] to insertOrReplace / remove / in-place write began after the call that wrote version
    [v] had returned, [n] itself has returned, and a find that began after that returns [v]. *)
Definition resurrected (tr : list event) : Prop :=
  exists v n k f t0 t1 t2 t3 t4 t5,
    tr = t0 ++ MutRet v :: t1 ++ MutStart n k :: t2 ++ MutRet n :: t3 ++ FindStart f :: t4 ++
         FindRet f (Some v) :: t5.

(** Mutating calls on the key do not overlap each other. *)
Fixpoint serialFrom (act : option nat) (tr : list event) : Prop :=
  match tr with
  | [] => True
  | MutStart n _ :: r => act = None /\ serialFrom (Some n) r
  | MutRet n :: r => act = Some n /\ serialFrom None r
  | _ :: r => serialFrom act r
  end.
Definition serialMutators (tr : list event) : Prop := serialFrom None tr.

(** No removal takes the "cannot exist" shortcut between the moment flash drops the entry and the
    moment evictCB has invalidated the fill of the key. *)
Definition noShortcutInDropWindow (tr : list event) : Prop :=
  forall t0 t1 t2, tr = t0 ++ Dropped :: t1 ++ Shortcut :: t2 -> In Notified t1.
(** No find joins a fill that has already put its item into RAM but is still in the fill map. *)
Definition noJoinAfterFill (tr : list event) : Prop :=
  forall t0 t1 t2 f, tr = t0 ++ Filled :: t1 ++ Joined f :: t2 -> In Erased t1.
(** Flash is not disabled (by an I/O failure) during the run. *)
Definition neverDisabled (tr : list event) : Prop := ~ In Disabled tr.

(** A hit returns a version that some insertOrReplace or in-place write begun before has written. *)
Definition writes (k : kind) : Prop := k = KInsert \/ k = KUpdate.
Definition noThinAir (tr : list event) : Prop :=
  forall t0 f v t1, tr = t0 ++ FindRet f (Some v) :: t1 -> exists k, writes k /\ In (MutStart v k) t0.

(** Versions are numbered in the order in which their calls began.  Every find that begins after
    call [n] has returned finds nothing older than [n]; nothing at all that is not newer, if [n]
    was a removal. *)
Definition freshReads (tr : list event) : Prop :=
  forall t0 n t1 f t2 v t3,
    tr = t0 ++ MutRet n :: t1 ++ FindStart f :: t2 ++ FindRet f (Some v) :: t3 ->
    n <= v /\ (In (MutStart n KRemove) tr -> n < v).
