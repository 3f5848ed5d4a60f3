(** C04: the intrusive doubly linked list refines a sequence. *)
From Coq Require Import List Arith Bool Lia.
Import ListNotations.
From Verif Require Import DList_model DList_spec DList_proofs.

(** After any legal sequence of calls on any number of lists sharing their nodes: walking
    list [i] from the head visits exactly the specified sequence, from the tail its reverse,
    the reported size is its length, and nodes in no list have null links. *)
Theorem C04_refines_sequence : forall cs, legal_calls (fun _ => []) cs ->
  let w := fold_left doCall cs initWorld in
  let s := fold_left spec_call cs (fun _ => []) in
  (forall i, walkNext (size (wlist w i)) (wheap w) (head (wlist w i)) = Some (s i) /\
             walkPrev (size (wlist w i)) (wheap w) (tail (wlist w i)) = Some (rev (s i)) /\
             size (wlist w i) = length (s i) /\ NoDup (s i)) /\
  (forall x, (forall i, ~ In x (s i)) -> nxt (wheap w) x = None /\ prv (wheap w) x = None).
Proof.
  intros cs L w s. assert (W : wrep w s) by (apply calls_ok; [apply init_wrep|auto]).
  destruct W as (W1 & W2 & W3). split.
  - intros i. pose proof (W1 i) as R. destruct (rep_walk _ _ _ R) as (A & B & C).
    destruct R as (ND & _). auto.
  - exact W3.
Qed.

(** No node is ever in two lists, or twice in one. *)
Theorem C04_exclusive_membership : forall cs, legal_calls (fun _ => []) cs ->
  let s := fold_left spec_call cs (fun _ => []) in
  forall i j x, In x (s i) -> In x (s j) -> i = j.
Proof.
  intros cs L s. assert (W : wrep (fold_left doCall cs initWorld) s) by (apply calls_ok; [apply init_wrep|auto]).
  destruct W as (_ & W2 & _). exact W2.
Qed.

Definition demo : list call :=
  [LinkAtHead 0 5; LinkAtTail 0 6; InsertBefore 0 5 7; InsertBefore 0 6 8; LinkAtHead 1 9;
   MoveToHead 0 6; Replace 0 5 10; Remove 0 7; Remove 1 9; LinkAtTail 1 5].
Example C04_demo : legal_calls (fun _ => []) demo /\
  walkNext 9 (wheap (fold_left doCall demo initWorld)) (head (wlist (fold_left doCall demo initWorld) 0)) = Some [6; 10; 8] /\
  walkPrev 9 (wheap (fold_left doCall demo initWorld)) (tail (wlist (fold_left doCall demo initWorld) 0)) = Some [8; 10; 6].
Proof.
  split; [|split; reflexivity].
  unfold demo, legal_calls, legal, unlinked, spec_call, set_seq; simpl.
  repeat split; auto;
    intros j; repeat (destruct j as [|j]; simpl; [intuition discriminate|]); intuition discriminate.
Qed.

Print Assumptions C04_refines_sequence.
Print Assumptions C04_exclusive_membership.
