(** What is said about the objects of an object cache. *)
From Coq Require Import List Arith ZArith Bool.
Import ListNotations.
From Verif Require Import ObjCache_model.
Open Scope Z_scope.

(** Item [i] can be got by a lookup, or some shared_ptr keeps it. *)
Definition cached (s : state) (i : nat) (it : item) : Prop := nth_error (items s) i = Some it /\ iin it = true.
Definition kept (s : state) (i : nat) (it : item) : Prop := nth_error (items s) i = Some it /\ exists k, In (PItem i k) (ptrs s).

(** The sum of the sizes of the items that satisfy [P]. *)
Fixpoint sumSizes (P : item -> bool) (l : list item) : Z :=
  match l with [] => 0 | it :: l => (if P it then isz it else 0) + sumSizes P l end.
(** in the index, or referred to *)
Definition present (it : item) : bool := iin it || (0 <? irefs it).

(** No call is under way. *)
Definition quiet (s : state) : Prop := ops s = [].
(** The cache is empty and users have no pointers. *)
Definition empty (s : state) : Prop := quiet s /\ ptrs s = [] /\ forall i it, nth_error (items s) i = Some it -> iin it = false.

(** NVM together with an item destructor. *)
Definition leaky (c : conf) : bool := nvm c && destr c.
