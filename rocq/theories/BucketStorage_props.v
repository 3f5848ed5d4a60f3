(** C20: the storage inside a small-object bucket is a bounded FIFO of byte strings. *)
From Verif Require Import Bytes BucketStorage_model BucketStorage_spec BucketStorage_client
  BucketStorage_proofs BucketStorage_proofs2.

(** For every memory block and every sequence of operations no undefined behaviour
    occurs; iterating reads back exactly the live strings, in insertion order and
    unchanged; the count and remaining space are right; and the live slots (header
    included) are disjoint and inside the block. *)
Theorem C20_storage_is_fifo : forall (mem : list byte) (ops : list sop),
  (N.of_nat (length mem) < two32)%N ->
  Forall sop_ok ops ->
  let live := fold_left (sop_spec (length mem)) ops [] in
  exists s, run (initStorage mem) ops = Some s
    /\ contents s = Some live
    /\ snum s = length live
    /\ remainingCapacity s + used live = length mem
    /\ exists al, iterAll s = Some al
         /\ (forall i j a b, i < j -> nth_error al i = Some a -> nth_error al j = Some b ->
               aoff a + asize a <= aoff b - 4 /\ aoff b + asize b <= length mem).
Proof. exact storage_fifo_l. Qed.
Print Assumptions C20_storage_is_fifo.

(** In every reachable state allocate answers "no space" exactly when the string
    plus its 4-byte header does not fit in the remaining space. *)
Theorem C20_allocate_iff_fits : forall (mem : list byte) (ops : list sop) s (p : list byte),
  (N.of_nat (length mem) < two32)%N -> Forall sop_ok ops ->
  run (initStorage mem) ops = Some s ->
  (N.of_nat (length p) + 4 < two32)%N ->
  exists s1 a, allocate s (length p) = Some (s1, a) /\
    (a = None <-> remainingCapacity s < 4 + length p).
Proof. exact storage_allocate_iff_l. Qed.
Print Assumptions C20_allocate_iff_fits.

(** The size guard above is needed: slotSize is computed in 32 bits, so a request
    within 4 bytes of 2^32 is accepted in an 8-byte storage. *)
Theorem C20_slot_size_wrap_refuted :
  exists (s : storage) (size : nat),
    s = initStorage (repeat 0%N 8) /\
    scap s < size /\ exists s1 a, allocate s size = Some (s1, Some a) /\ asize a = size.
Proof. exact storage_wrap_refuted_l. Qed.
Print Assumptions C20_slot_size_wrap_refuted.

(** Non-vacuity: a history with pushes, a failing push, subset removal, removeUntil. *)
Definition demo_ops : list sop :=
  [Push [1;2;3]%N; Push []; Push [7]%N; Push [9;9;9;9;9;9;9;9;9;9]%N; RemoveMarked [false;true];
   Push [4;5]%N; RemoveUntilAt 0; RemoveAt 5].
Example C20_demo :
  let mem := repeat 255%N 24 in
  (N.of_nat (length mem) < two32)%N /\ Forall sop_ok demo_ops /\
  fold_left (sop_spec (length mem)) demo_ops [] = [[7];[4;5]]%N /\
  (let* s := run (initStorage mem) demo_ops in contents s) = Some [[7];[4;5]]%N.
Proof.
  cbv zeta. split; [reflexivity|]. split; [|split; vm_compute; reflexivity].
  unfold demo_ops. repeat constructor.
Qed.
