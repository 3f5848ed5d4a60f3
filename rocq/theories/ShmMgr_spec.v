(** What C41 means, over the observable events of a run only. *)
From Verif Require Import Bytes ShmMgr_model.

(** [run_trace tr]: [tr] is what some schedule shows, starting from nothing. *)
Definition run_trace (tr : list event) : Prop :=
  exists acts w, run world0 acts = Some (w, tr).

(** Process [p] has locked the directory and has neither released the lock nor
    died. *)
Definition ends (p : nat) (e : event) : Prop :=
  e = EReleased p \/ e = ECrashed p \/ e = EThrow p.

Definition holds (p : nat) (tr : list event) : Prop :=
  exists a b, tr = a ++ ELocked p :: b /\ forall e, In e b -> ~ ends p e.

(** Process [p]'s constructor returned, and it has neither released the lock
    (shutDown, destructor) nor died. *)
Definition running (p : nat) (tr : list event) : Prop :=
  exists a leg b, tr = a ++ ERunning p leg :: b /\ forall e, In e b -> ~ ends p e.

(** The value process [p] last gave segment [n], or found in it. *)
Definition note_value (p : nat) (n : name) (cur : option nat) (e : event)
  : option nat :=
  let mine p' n' := (p' =? p) && bytes_eqb n' n in
  match e with
  | ECreated p' n' => if mine p' n' then Some 0 else cur
  | EAttached p' n' v => if mine p' n' then Some v else cur
  | EWrote p' n' v => if mine p' n' then Some v else cur
  | ERemoved p' n' => if mine p' n' then None else cur
  | _ => cur
  end.

Definition last_value (p : nat) (n : name) (tr : list event) : option nat :=
  fold_left (note_value p n) tr None.

(** The claim: whatever segment [p] attaches to after [pre] is exactly as
    process [q] left it when [q]'s shutDown completed its record, and no other
    process ran on the directory since. *)
Definition from_clean_shutdown (pre : list event) (p : nat) (n : name) (v : nat)
  : Prop :=
  exists q pre1 pre2,
    pre = pre1 ++ ESaved q :: pre2 /\ q <> p /\
    last_value q n pre1 = Some v /\
    forall r leg, In (ERunning r leg) pre2 -> r = p.

Definition attach_only_clean (tr : list event) : Prop :=
  forall pre p n v post,
    tr = pre ++ EAttached p n v :: post -> from_clean_shutdown pre p n v.

(** Conditions on the environment. *)

(** Nobody deletes the metadata file. *)
Definition meta_kept (tr : list event) : Prop := ~ In EMetaDeleted tr.

(** No process gets a lock while another one holds one. *)
Definition serial (tr : list event) : Prop :=
  forall a p b, tr = a ++ ELocked p :: b -> forall q, q <> p -> ~ holds q a.

(** From the moment a starting process looks at the metadata file until it has
    locked it, no other process holds or gets the lock. *)
Definition starts_alone (tr : list event) : Prop :=
  forall a p b c, tr = a ++ ERead p :: b ++ ELocked p :: c ->
    (forall q, q <> p -> ~ holds q a) /\
    (forall q, q <> p -> ~ In (ELocked q) b).

(** A process of the version before the new segment ids never runs after one of
    this version. *)
Definition upgrade_only (tr : list event) : Prop :=
  forall a p b, tr = a ++ ERunning p true :: b ->
    forall q, ~ In (ERunning q false) a.

(** The drop request: the marker is there when [p] looks for it. *)
Definition drop_requested (tr : list event) (p : nat) : Prop :=
  exists a b c seen, tr = a ++ EDropMade :: b ++ ELooked p seen :: c /\
    ~ In EDropGone b.

Definition never_attaches (tr : list event) (p : nat) : Prop :=
  forall n v, ~ In (EAttached p n v) tr.
