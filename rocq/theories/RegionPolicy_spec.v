(** Reference behaviour of the region eviction policies. *)
From Coq Require Import List Arith Bool.
Import ListNotations.
From Verif Require Import RegionPolicy_model.

(** FIFO: a queue of region ids. *)
Fixpoint fifoSpec (q : list nat) (cs : list fcall) : list nat * list (option nat) :=
  match cs with
  | [] => (q, [])
  | FTrack r _ :: cs => let '(q', os) := fifoSpec (q ++ [r]) cs in (q', None :: os)
  | FEvict :: cs => match q with
                    | [] => let '(q', os) := fifoSpec [] cs in (q', None :: os)
                    | r :: q1 => let '(q', os) := fifoSpec q1 cs in (q', Some r :: os)
                    end
  | FReset :: cs => let '(q', os) := fifoSpec [] cs in (q', None :: os)
  | FRestart :: cs => let '(q', os) := fifoSpec q cs in (q', None :: os)
  end.

(** LRU: every tracked region with the time of its last use (tracking or touch); evict returns the
    one used least recently.  The clock counts calls. *)
Definition used := list (nat * nat).        (* region, last use; any order *)
Definition tracked (u : used) (r : nat) : bool := existsb (fun p => fst p =? r) u.
Definition setUse (u : used) (r t : nat) : used :=
  map (fun p => if fst p =? r then (r, t) else p) u.
Definition drop (u : used) (r : nat) : used := filter (fun p => negb (fst p =? r)) u.
Inductive lruSpec : nat -> used -> list lcall -> list (option nat) -> used -> Prop :=
| ls_nil t u : lruSpec t u [] [] u
| ls_touch t u r cs os u' : lruSpec (S t) (setUse u r t) cs os u' -> lruSpec t u (Touch r :: cs) (None :: os) u'
| ls_track t u r cs os u' :
    lruSpec (S t) (if tracked u r then u else (r, t) :: u) cs os u' -> lruSpec t u (Track r :: cs) (None :: os) u'
| ls_evict_none t cs os u' : lruSpec (S t) [] cs os u' -> lruSpec t [] (Evict :: cs) (None :: os) u'
| ls_evict t u r k cs os u' : In (r, k) u -> (forall r' k', In (r', k') u -> k <= k') ->
    lruSpec (S t) (drop u r) cs os u' -> lruSpec t u (Evict :: cs) (Some r :: os) u'
| ls_reset t u cs os u' : lruSpec (S t) [] cs os u' -> lruSpec t u (Reset :: cs) (None :: os) u'.

(** Segmented FIFO: legal calls use an existing segment. *)
Definition slegal (n : nat) (c : scall) : Prop := match c with STrack _ p _ => p < n | _ => True end.
(** regions handed to track() and not yet evicted or reset: a bag, as a list of labelled calls *)
Fixpoint evictedOf (os : list (option snode)) : list snode :=
  match os with [] => [] | Some x :: r => x :: evictedOf r | None :: r => evictedOf r end.
Fixpoint trackedOf (cs : list scall) : list snode :=
  match cs with [] => [] | STrack r p t :: c => mkSNode r t p :: trackedOf c | _ :: c => trackedOf c end.
