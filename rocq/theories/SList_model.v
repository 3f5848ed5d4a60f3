(** Model of the intrusive singly linked list (cachelib/allocator/datastruct/SList.h) that keeps the free allocations of the
    allocation classes.  Several lists share the nodes' hooks.  Nodes are numbers; compressed pointers are lossless (C08), so a
    pointer is a node or null. *)
From Coq Require Import List Arith Bool.
Import ListNotations.

Definition node := nat.
(** head_, tail_, size_ (SList.h:239-243) and the nodes' next_ (48). *)
Record slist := mkL { head : option node; tail : option node; size : nat }.
Record world := mkW { next : node -> option node; lists : nat -> slist }.
(** SList.h:81-82 *)
Definition emptyL : slist := mkL None None 0.
Definition start : world := mkW (fun _ => None) (fun _ => emptyL).

Definition upd {A} (f : nat -> A) (i : nat) (v : A) : nat -> A := fun j => if j =? i then v else f j.
(** setNext, 223-225 and 42-45 *)
Definition setNext (w : world) (n : node) (p : option node) : world := mkW (upd (next w) n p) (lists w).
Definition setL (w : world) (i : nat) (l : slist) : world := mkW (next w) (upd (lists w) i l).
Definition isNone {A} (o : option A) : bool := match o with None => true | _ => false end.
(** checkStateOrThrow, 227-234: true: it does not throw. *)
Definition check (l : slist) : bool :=
  negb (((size l =? 0) && negb (isNone (head l))) || (isNone (head l) && negb (size l =? 0))) && Bool.eqb (isNone (head l)) (isNone (tail l)).

(** A call that throws has no result. *)
(** insert, 247-264 *)
Definition insert (w : world) (i : nat) (n : node) : option world :=
  let l := lists w i in
  Some (setL (setNext w n (head l)) i (mkL (Some n) (match tail l with None => Some n | t => t end) (S (size l)))).
(** pop, 267-287 *)
Definition pop (w : world) (i : nat) : option world :=
  let l := lists w i in
  if size l =? 0 then None else
  match head l with
  | None => None                                                (* null dereference *)
  | Some n => let h := next w n in
              let l' := mkL h (match h with None => None | _ => tail l end) (size l - 1) in
              if check l' then Some (setNext (setL w i l') n None) else None
  end.
(** splice, 290-315: list j to the front of list i *)
Definition splice (w : world) (i j : nat) : option world :=
  let l := lists w i in let o := lists w j in
  if size o =? 0 then Some w else
  match tail o with
  | None => None                                                (* null dereference *)
  | Some t => let w1 := setNext w t (head l) in
              Some (setL (setL w1 i (mkL (head o) (match tail l with None => tail o | t => t end) (size l + size o))) j emptyL)
  end.
(** remove, 344-378, with an iterator of this list at [curr], its previous() [prev] *)
Definition remove (w : world) (i : nat) (prev : option node) (curr : node) : option world :=
  match prev with
  | None => pop w i
  | Some p => let l := lists w i in
              let w1 := setNext w p (next w curr) in
              let l' := mkL (head l) (match tail l with Some t => if t =? curr then Some p else Some t | None => None end) (size l - 1) in
              if check l' then Some (setNext (setL w1 i l') curr None) else None
  end.
(** The loop that removes all elements of which [f] holds: begin (334-336), ++ (318-331), remove and the iterator it returns.
    [fuel]: the loop has not ended by then ([None]). *)
Fixpoint sweepFrom (fuel : nat) (f : node -> bool) (w : world) (i : nat) (prev curr : option node) : option world :=
  match curr with
  | None => Some w
  | Some n => match fuel with
              | O => None
              | S fuel => if f n then match remove w i prev n with Some w' => sweepFrom fuel f w' i prev (next w n) | None => None end
                          else sweepFrom fuel f w i (Some n) (next w n)
              end
  end.
Definition sweep (w : world) (i : nat) (f : node -> bool) : option world := sweepFrom (size (lists w i)) f w i None (head (lists w i)).
(** Iterating from begin to end. *)
Fixpoint walk (fuel : nat) (w : world) (curr : option node) : option (list node) :=
  match curr with
  | None => Some []
  | Some n => match fuel with O => None | S fuel => match walk fuel w (next w n) with Some l => Some (n :: l) | None => None end end
  end.
Definition elements (w : world) (i : nat) : option (list node) := walk (size (lists w i)) w (head (lists w i)).
(** Move assignment, 70-79. *)
Definition moveAssign (w : world) (i j : nat) : option world := Some (setL (setL w i (lists w j)) j emptyL).
(** The move constructor, 66: defaulted, so each member is copied: pointers and the size stay as they are in the source. *)
Definition moveConstruct (w : world) (i j : nat) : option world := Some (setL w i (lists w j)).
(** saveState and the constructor from it, 84-113; [old]: a state saved without a tail (compressedTail is negative), 94-99. *)
Definition save (w : world) (i : nat) : slist := lists w i.
Definition saveOld (w : world) (i : nat) : option node * nat := (head (lists w i), size (lists w i)).
Definition restore (w : world) (i : nat) (l : slist) : option world := if check l then Some (setL w i l) else None.
Fixpoint findTail (fuel : nat) (w : world) (n : node) : option node :=
  match next w n with None => Some n | Some m => match fuel with O => None | S fuel => findTail fuel w m end end.
Definition restoreOld (w : world) (i : nat) (s : option node * nat) : option world :=
  match fst s with
  | None => restore w i (mkL None None (snd s))
  | Some n => match findTail (snd s) w n with Some t => restore w i (mkL (Some n) (Some t) (snd s)) | None => None end
  end.

Inductive call :=
| Insert (i : nat) (n : node) | Pop (i : nat) | Splice (i j : nat) | Sweep (i : nat) (f : node -> bool) | MoveAssign (i j : nat)
| Restore (i : nat)      (* save, then construct again *)
| RestoreOld (i : nat).
Definition exec (w : world) (c : call) : option world :=
  match c with
  | Insert i n => insert w i n | Pop i => pop w i | Splice i j => splice w i j | Sweep i f => sweep w i f | MoveAssign i j => moveAssign w i j
  | Restore i => restore w i (save w i) | RestoreOld i => restoreOld w i (saveOld w i)
  end.
Fixpoint run (w : world) (cs : list call) : option world :=
  match cs with [] => Some w | c :: cs => match exec w c with Some w' => run w' cs | None => None end end.
