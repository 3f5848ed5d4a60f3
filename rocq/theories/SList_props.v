(** C53: the singly linked list of free allocations. *)
From Coq Require Import List Arith Bool.
Import ListNotations.
From Verif Require Import SList_model SList_spec SList_proofs.

(** Every legal sequence of calls over any number of lists succeeds, and each list then iterates, counts, begins and ends like its sequence. *)
Theorem C53_refines : forall cs, legals (fun _ => []) cs -> exists w, run start cs = Some w /\
  forall i, let l := doAll (fun _ => []) cs i in elements w i = Some l /\ size (lists w i) = length l /\ head (lists w i) = hd_error l /\ tail (lists w i) = lastOf l.
Proof. exact refines. Qed.
Print Assumptions C53_refines.

(** No node is ever in two lists, nor twice in one. *)
Theorem C53_no_sharing : forall cs i j n, legals (fun _ => []) cs -> In n (doAll (fun _ => []) cs i) -> i <> j -> ~ In n (doAll (fun _ => []) cs j).
Proof. exact no_sharing. Qed.
Print Assumptions C53_no_sharing.
Theorem C53_once : forall cs i, legals (fun _ => []) cs -> NoDup (doAll (fun _ => []) cs i).
Proof. exact once. Qed.
Print Assumptions C53_once.

(** Popping an empty list throws. *)
Theorem C53_pop_empty : forall cs w i, legals (fun _ => []) cs -> run start cs = Some w -> doAll (fun _ => []) cs i = [] -> pop w i = None.
Proof. exact pop_empty. Qed.
Print Assumptions C53_pop_empty.

(** REFUTED: after a list is move constructed from another, the source is empty.  The source keeps its head and size: both hand out the same node. *)
Theorem C53_move_ctor_refuted : exists cs w w1, legals (fun _ => []) cs /\ run start cs = Some w /\ moveConstruct w 1 0 = Some w1 /\
  exists n w2 w3, head (lists w1 0) = Some n /\ pop w1 0 = Some w2 /\ head (lists w2 1) = Some n /\ pop w2 1 = Some w3.
Proof. exact move_ctor. Qed.
Print Assumptions C53_move_ctor_refuted.

(** Non-vacuity: every call, with the results. *)
Definition demo : list call :=
  [Insert 0 1; Insert 0 2; Insert 0 3; Insert 1 4; Insert 1 5; Splice 0 1; Insert 1 6; Sweep 0 Nat.even; Restore 0; RestoreOld 0; Pop 0; Splice 1 0; MoveAssign 2 1; Insert 0 5].
Example C53_meets : legals (fun _ => []) demo.
Proof.
  cbn [legals legal demo]. repeat (split; [first [exact I | intros [|[|[|j]]]; vm_compute; intuition discriminate | vm_compute; discriminate]|]). exact I.
Qed.
Example C53_results : map (fun i => doAll (fun _ => []) demo i) [0; 1; 2] = [[5]; []; [3; 1; 6]] /\
  match run start demo with Some w => map (elements w) [0; 1; 2] | None => [] end = [Some [5]; Some []; Some [3; 1; 6]].
Proof. split; reflexivity. Qed.
