(** What users rely on when lookups meet items that a slab release is moving. *)
From Coq Require Import List Arith Bool.
Import ListNotations.
From Verif Require Import MoveWait_model.

(** The answers that lookup [w] got, in a history. *)
Fixpoint answersTo (w : nat) (t : list event) : list (option (nat * nat)) :=
  match t with
  | [] => []
  | EAns x v :: r => if x =? w then v :: answersTo w r else answersTo w r
  | _ :: r => answersTo w r
  end.
Definition asked (w k : nat) (t : list event) : Prop := In (EAsk w k) t.

(** Nothing is under way: no lookup holds a bucket lock, every slab release has ended. *)
Definition idle (s : state) : Prop := trys s = [] /\ Forall (fun m => m = MDone) (mvs s).

(** Steps that are nobody's choice: those of lookups that have begun and of slab releases. *)
Definition progress (x : action) : Prop := match x with ATry _ | AStep _ _ => True | _ => False end.

(** A search of a hash table for a key visits the slot that key was put in. *)
Definition hashing (visits : nat -> nat -> bool) : Prop := forall k, visits k k = true.

(** An item that can be found is not in the eviction container, and nobody has a handle to it or is
    moving it: it can never be evicted. *)
Definition unevictable (s : state) (a : nat) : Prop :=
  idx s (ckey (mem s a)) = Some a /\ clnk (mem s a) = false /\ busy s a = false /\ cmov (mem s a) = false /\ cexc (mem s a) = false.
