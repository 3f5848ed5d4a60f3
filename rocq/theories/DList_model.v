(** * DList: intrusive doubly linked list.
    Models /repo/cachelib/allocator/datastruct/DList.h.
    Nodes are natural numbers (addresses); a null pointer is [None].  The hooks of all nodes
    are one heap shared by all lists (an item has a single hook, which may be in any list).
    Pointer compression is the identity here (its losslessness is property C08).
    size_ (size_t) is a [nat]: fewer than 2^64 nodes.  XDCHECKs are not executed. *)
From Coq Require Import List Arith Bool Lia.
Import ListNotations.

Definition node := nat.
Definition ptr := option node.

(** DList.h:33-85 DListHook: next_, prev_ (updateTime_ is in the container models). *)
Record heap := mkHeap { nxt : node -> ptr; prv : node -> ptr }.

(** DList.h:87-260: head_, tail_, size_. *)
Record dlist := mkDL { head : ptr; tail : ptr; size : nat }.
Definition emptyDL : dlist := {| head := None; tail := None; size := 0 |}.

Definition upd (f : node -> ptr) (n : node) (v : ptr) : node -> ptr :=
  fun x => if x =? n then v else f x.
(** DList.h:133-149 setNext / setPrev (setNextFrom, setPrevFrom copy the stored value). *)
Definition setNext (h : heap) (n : node) (v : ptr) : heap :=
  {| nxt := upd (nxt h) n v; prv := prv h |}.
Definition setPrev (h : heap) (n : node) (v : ptr) : heap :=
  {| nxt := nxt h; prv := upd (prv h) n v |}.

Definition isPtr (p : ptr) (n : node) : bool :=
  match p with Some x => x =? n | None => false end.

(** DList.h:267-283 linkAtHead. *)
Definition linkAtHead (h : heap) (d : dlist) (n : node) : heap * dlist :=
  let h1 := setNext h n (head d) in
  let h2 := setPrev h1 n None in
  let h3 := match head d with Some x => setPrev h2 x (Some n) | None => h2 end in
  (h3, {| head := Some n;
          tail := match tail d with None => Some n | t => t end;
          size := S (size d) |}).

(** DList.h:285-301 linkAtTail. *)
Definition linkAtTail (h : heap) (d : dlist) (n : node) : heap * dlist :=
  let h1 := setNext h n None in
  let h2 := setPrev h1 n (tail d) in
  let h3 := match tail d with Some x => setNext h2 x (Some n) | None => h2 end in
  (h3, {| head := match head d with None => Some n | t => t end;
          tail := Some n;
          size := S (size d) |}).

(** DList.h:303-325 insertBefore(nextNode, node). *)
Definition insertBefore (h : heap) (d : dlist) (nextNode n : node) : heap * dlist :=
  let prev := prv h nextNode in
  let h1 := setPrev h n prev in
  let '(h2, hd) := match prev with
                   | Some p => (setNext h1 p (Some n), head d)
                   | None => (h1, Some n)
                   end in
  let h3 := setPrev h2 nextNode (Some n) in
  let h4 := setNext h3 n (Some nextNode) in
  (h4, {| head := hd; tail := tail d; size := S (size d) |}).

(** DList.h:327-349 unlink. *)
Definition unlink (h : heap) (d : dlist) (n : node) : heap * dlist :=
  let prev := prv h n in
  let next := nxt h n in
  let hd := if isPtr (head d) n then next else head d in
  let tl := if isPtr (tail d) n then prev else tail d in
  let h1 := match prev with Some p => setNext h p (nxt h n) | None => h end in
  let h2 := match next with Some x => setPrev h1 x (prv h1 n) | None => h1 end in
  (h2, {| head := hd; tail := tl; size := size d - 1 |}).

(** DList.h:351-356 remove. *)
Definition remove (h : heap) (d : dlist) (n : node) : heap * dlist :=
  let '(h1, d1) := unlink h d n in
  (setPrev (setNext h1 n None) n None, d1).

(** DList.h:358-385 replace(oldNode, newNode). *)
Definition replace (h : heap) (d : dlist) (o n : node) : heap * dlist :=
  let hd := if isPtr (head d) o then Some n else head d in
  let tl := if isPtr (tail d) o then Some n else tail d in
  let prev := prv h o in
  let next := nxt h o in
  let h1 := match prev with Some p => setNext h p (Some n) | None => h end in
  let h2 := match next with Some x => setPrev h1 x (Some n) | None => h1 end in
  let h3 := setPrev h2 n prev in
  let h4 := setNext h3 n next in
  let h5 := setPrev h4 o None in
  let h6 := setNext h5 o None in
  (h6, {| head := hd; tail := tl; size := size d |}).

(** DList.h:387-394 moveToHead. *)
Definition moveToHead (h : heap) (d : dlist) (n : node) : heap * dlist :=
  if isPtr (head d) n then (h, d)
  else let '(h1, d1) := unlink h d n in linkAtHead h1 d1 n.

(** DList.h:396-458: iteration with begin()/rbegin() and ++ until null; [fuel] bounds the
    number of steps, running out of it is [None]. *)
Fixpoint walkNext (fuel : nat) (h : heap) (p : ptr) : option (list node) :=
  match p with
  | None => Some []
  | Some x => match fuel with
              | O => None
              | S f => match walkNext f h (nxt h x) with Some r => Some (x :: r) | None => None end
              end
  end.
Fixpoint walkPrev (fuel : nat) (h : heap) (p : ptr) : option (list node) :=
  match p with
  | None => Some []
  | Some x => match fuel with
              | O => None
              | S f => match walkPrev f h (prv h x) with Some r => Some (x :: r) | None => None end
              end
  end.

(** A family of lists over one heap, and the calls on them. *)
Record world := mkWorld { wheap : heap; wlist : nat -> dlist }.
Definition initWorld : world :=
  {| wheap := {| nxt := fun _ => None; prv := fun _ => None |}; wlist := fun _ => emptyDL |}.
Inductive call :=
| LinkAtHead (i : nat) (n : node) | LinkAtTail (i : nat) (n : node)
| InsertBefore (i : nat) (nextNode n : node) | Remove (i : nat) (n : node)
| Replace (i : nat) (o n : node) | MoveToHead (i : nat) (n : node).
Definition setList (f : nat -> dlist) (i : nat) (d : dlist) : nat -> dlist :=
  fun j => if j =? i then d else f j.
Definition doCall (w : world) (c : call) : world :=
  let go i (p : heap * dlist) := {| wheap := fst p; wlist := setList (wlist w) i (snd p) |} in
  let h := wheap w in
  match c with
  | LinkAtHead i n => go i (linkAtHead h (wlist w i) n)
  | LinkAtTail i n => go i (linkAtTail h (wlist w i) n)
  | InsertBefore i x n => go i (insertBefore h (wlist w i) x n)
  | Remove i n => go i (remove h (wlist w i) n)
  | Replace i o n => go i (replace h (wlist w i) o n)
  | MoveToHead i n => go i (moveToHead h (wlist w i) n)
  end.
