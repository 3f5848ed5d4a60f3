(** What the lists stand for: a family of sequences without a common node. *)
From Coq Require Import List Arith Bool.
Import ListNotations.
From Verif Require Import SList_model.

Definition seqs := nat -> list node.
Definition setSeq (s : seqs) (i : nat) (l : list node) : seqs := fun j => if j =? i then l else s j.
Definition does (s : seqs) (c : call) : seqs :=
  match c with
  | Insert i n => setSeq s i (n :: s i)
  | Pop i => setSeq s i (tl (s i))
  | Splice i j => setSeq (setSeq s i (s j ++ s i)) j []
  | Sweep i f => setSeq s i (filter (fun n => negb (f n)) (s i))
  | MoveAssign i j => setSeq (setSeq s i (s j)) j []
  | Restore _ | RestoreOld _ => s
  end.
(** A node to be inserted is in no list; two different lists are spliced or assigned. *)
Definition legal (s : seqs) (c : call) : Prop :=
  match c with
  | Insert i n => forall j, ~ In n (s j)
  | Pop i => s i <> []
  | Splice i j | MoveAssign i j => i <> j
  | _ => True
  end.
Fixpoint legals (s : seqs) (cs : list call) : Prop :=
  match cs with [] => True | c :: cs => legal s c /\ legals (does s c) cs end.
Definition doAll (s : seqs) (cs : list call) : seqs := fold_left does cs s.
Definition lastOf (l : list node) : option node := match rev l with [] => None | n :: _ => Some n end.
