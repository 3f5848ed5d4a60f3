(** Specification for C04: a family of disjoint sequences of nodes. *)
From Coq Require Import List Arith Bool Lia.
Import ListNotations.
From Verif Require Import DList_model.

Fixpoint insert_before (l : list node) (x n : node) : list node :=
  match l with
  | [] => []
  | y :: r => if y =? x then n :: y :: r else y :: insert_before r x n
  end.
Definition remove_node (l : list node) (n : node) : list node :=
  filter (fun y => negb (y =? n)) l.
Definition replace_node (l : list node) (o n : node) : list node :=
  map (fun y => if y =? o then n else y) l.

Definition seqs := nat -> list node.
Definition set_seq (s : seqs) (i : nat) (l : list node) : seqs := fun j => if j =? i then l else s j.

Definition spec_call (s : seqs) (c : call) : seqs :=
  match c with
  | LinkAtHead i n => set_seq s i (n :: s i)
  | LinkAtTail i n => set_seq s i (s i ++ [n])
  | InsertBefore i x n => set_seq s i (insert_before (s i) x n)
  | Remove i n => set_seq s i (remove_node (s i) n)
  | Replace i o n => set_seq s i (replace_node (s i) o n)
  | MoveToHead i n => set_seq s i (n :: remove_node (s i) n)
  end.

(** A node to be linked is in no list; a node to be used or removed is in the named list. *)
Definition unlinked (s : seqs) (n : node) : Prop := forall j, ~ In n (s j).
Definition legal (s : seqs) (c : call) : Prop :=
  match c with
  | LinkAtHead i n | LinkAtTail i n => unlinked s n
  | InsertBefore i x n => In x (s i) /\ unlinked s n
  | Remove i n | MoveToHead i n => In n (s i)
  | Replace i o n => In o (s i) /\ unlinked s n
  end.
Fixpoint legal_calls (s : seqs) (cs : list call) : Prop :=
  match cs with [] => True | c :: r => legal s c /\ legal_calls (spec_call s c) r end.
