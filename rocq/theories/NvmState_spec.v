(** What C42 means, over the observable events of a history of instances. *)
From Coq Require Import List Bool Arith.
Import ListNotations.
From Verif Require Import NvmState_model.

Definition nhistory (tr : list nevent) : Prop :=
  exists acts w, nrun nw0 acts = Some (w, tr).

Definition nostart (l : list nevent) : Prop := forall p c, ~ In (NEStart p c) l.

(** No instance came up: those that started died before they touched anything. *)
Definition untouched (l : list nevent) : Prop :=
  forall e, In e l -> match e with
    | NEStart _ _ | NELooked _ _ | NEShut _ _ | NECrash _ | NEIce => True
    | _ => False end.

(** What the flash cache of one instance holds, from that instance's events. *)
Definition content_of (l : list nevent) : option nat :=
  fold_left (fun cur e => match e with
    | NEResumed _ v _ _ => Some v
    | NEFresh _ _ => Some 0
    | NEPut _ v => Some v
    | _ => cur end) l None.

(** The creation time the instance reports. *)
Definition time_of (l : list nevent) : option nat :=
  fold_left (fun cur e => match e with
    | NEResumed _ _ t _ => Some t
    | NEFresh _ t => Some t
    | _ => cur end) l None.

(** After [pre], instance [p] starts with contents [v]: then the last instance
    that came up saved exactly [v] and marked it, with the same format version and
    settings; [p] did not find the drop request; and if [p] drops the flash cache
    with the RAM cache, its RAM cache was attached. *)
Definition resume_ok (pre : list nevent) (p v t : nat) (sound : bool) : Prop :=
  sound = true /\
  exists q cq cp pre0 pre1 x y,
    pre = pre0 ++ NEStart q cq :: pre1 ++ NEMarked q :: x ++ NEStart p cp :: y /\
    nostart pre1 /\ untouched x /\ nostart y /\
    content_of pre1 = Some v /\ time_of pre1 = Some t /\
    nVer cq = nVer cp /\ nEnc cq = nEnc cp /\ nTrunc cq = nTrunc cp /\
    nHas cp = true /\ In (NELooked p false) y /\
    (nDropNew cp = true -> nAttached cp = true).

Definition resume_only_saved (tr : list nevent) : Prop :=
  forall pre p v t sound post,
    tr = pre ++ NEResumed p v t sound :: post -> resume_ok pre p v t sound.

(** No device write of the metadata failed without being noticed. *)
Definition no_silent (tr : list nevent) : Prop := forall p, ~ In (NESilent p) tr.

(** The settings of an instance fit those of the one before. *)
Definition fits (cq cp : ncfg) : Prop :=
  nVer cq = nVer cp /\ nEnc cq = nEnc cp /\ nTrunc cq = nTrunc cp /\
  nHas cp = true /\ (nDropNew cp = true -> nAttached cp = true).

(** The drop-request file, as the events tell it. *)
Definition ice_of (l : list nevent) : bool :=
  fold_left (fun b e => match e with NEIce => true | NEIceGone _ => false | _ => b end) l false.

(** A clean hand-over without failures: save, mark, start [p], come up. *)
Definition hand_over (p : nat) (c : ncfg) : list naction :=
  [NaShut OK; NaNext OK; NaStart p c; NaNext OK; NaNext OK; NaNext OK; NaNext OK;
   NaNext OK; NaNext OK; NaNext OK].

(** The last instance that started was told to drop the flash cache: it saw the drop request, or it drops it with the RAM cache and that one was not attached. *)
Definition told_to_drop (tr : list nevent) : Prop :=
  exists x p c y, tr = x ++ NEStart p c :: y /\ nostart y /\
    (In (NELooked p true) y \/ (nDropNew c = true /\ nAttached c = false)).
