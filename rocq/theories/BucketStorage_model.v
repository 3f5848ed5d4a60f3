(** Model of navy's BucketStorage: the byte allocator inside one BigHash bucket.
    Models /repo/cachelib/navy/bighash/BucketStorage.{h,cpp}.
    The storage is the byte array [sdata] of exactly [scap] bytes; out-of-range
    reads/writes are undefined behaviour and make the operation return [None]. *)
From Verif Require Import Bytes.

(** BucketStorage.h:110-113: capacity_, numAllocations_, endOffset_, data_[]. *)
Record storage := mkStorage {
  scap : nat;
  snum : nat;
  send : nat;
  sdata : list byte
}.

(** BucketStorage.h:41-60 class Allocation: a view (offset of its first byte in
    data_, size) and its position.  [done()] (null view) is modelled by [None]
    of [option allocation]. *)
Record allocation := mkAlloc { aoff : nat; asize : nat; apos : nat }.

(** BucketStorage.cpp:24 sizeof(Slot) = 4 (one packed uint32_t). *)
Definition kAllocationOverhead : nat := 4.

(** BucketStorage.h:62 slotSize: 32-bit addition. *)
Definition slotSize (size : nat) : nat :=
  N.to_nat (wrap32 (N.of_nat kAllocationOverhead + N.of_nat size)).

(** BucketStorage.h:65 constructor (placement new on raw memory [mem]). *)
Definition initStorage (mem : list byte) : storage :=
  {| scap := length mem; snum := 0; send := 0; sdata := mem |}.

(** BucketStorage.h:75 *)
Definition remainingCapacity (s : storage) : nat := scap s - send s.

(** BucketStorage.h:104-106 canAllocate: the sum is done in 64 bits. *)
Definition canAllocate (s : storage) (size : nat) : bool :=
  send s + slotSize size <=? scap s.

(** BucketStorage.cpp:28-37 allocate.  The slot header (its size) is written at
    the end offset; the payload bytes are left as they are. *)
Definition allocate (s : storage) (size : nat) : option (storage * option allocation) :=
  if negb (canAllocate s size) then Some (s, None)
  else
    let* d := wr (sdata s) (send s) (le_enc 4 (N.of_nat size)) in
    Some ({| scap := scap s; snum := S (snum s); send := send s + slotSize size; sdata := d |},
          Some {| aoff := send s + 4; asize := size; apos := snum s |}).

(** The caller fills the view it got ([MutableBufferView], Bucket.cpp:83-84). *)
Definition writeAlloc (s : storage) (a : allocation) (payload : list byte) : option storage :=
  let* d := wr (sdata s) (aoff a) payload in
  Some {| scap := scap s; snum := snum s; send := send s; sdata := d |}.

(** The bytes behind an allocation's view. *)
Definition readAlloc (s : storage) (a : allocation) : option (list byte) :=
  rd_bytes (sdata s) (aoff a) (asize a).

(** BucketStorage.cpp:59-74: the loop body of remove(vector): state is
    (srcOffset, dstOffset, numAllocations_, data_). *)
Definition removeStep (st : nat * nat * nat * list byte) (a : allocation)
  : nat * nat * nat * list byte :=
  let '(src, dst, n, d) := st in
  let removedOff := aoff a - kAllocationOverhead in
  let '(dst', d') :=
    if negb (src =? removedOff) then
      let len := removedOff - src in
      (dst + len, if negb (dst =? src) then memmove d dst src len else d)
    else (dst, d) in
  (aoff a + asize a, dst', n - 1, d').

(** BucketStorage.cpp:43-83 remove(const std::vector<Allocation>&). *)
Definition removeAll (s : storage) (allocs : list allocation) : storage :=
  match allocs with
  | [] => s
  | _ =>
    let '(src, dst, n, d) :=
      fold_left removeStep allocs (0, 0, snum s, sdata s) in
    let '(dst', d') :=
      if negb (src =? send s)
      then (dst + (send s - src), memmove d dst src (send s - src))
      else (dst, d) in
    {| scap := scap s; snum := n; send := dst'; sdata := d' |}
  end.

(** BucketStorage.cpp:39-41 remove(Allocation). *)
Definition removeOne (s : storage) (a : allocation) : storage := removeAll s [a].

(** BucketStorage.cpp:84-107 removeUntil. *)
Definition removeUntil (s : storage) (a : option allocation) : storage :=
  match a with
  | None => s
  | Some a =>
    let offset := aoff a + asize a in
    if send s <? offset then s
    else {| scap := scap s;
            snum := snum s - (apos a + 1);
            send := send s - offset;
            sdata := memmove (sdata s) 0 offset (send s - offset) |}
  end.

(** BucketStorage.cpp:109-115 getFirst. *)
Definition getFirst (s : storage) : option (option allocation) :=
  if send s =? 0 then Some None
  else
    let* sz := rd 4 (sdata s) 0 in
    Some (Some {| aoff := 4; asize := N.to_nat sz; apos := 0 |}).

(** BucketStorage.cpp:117-129 getNext (on a not-done allocation; on a done one
    it returns done, line 119-121). *)
Definition getNext (s : storage) (a : allocation) : option (option allocation) :=
  let next := aoff a + asize a in
  if send s <=? next then Some None
  else
    let* sz := rd 4 (sdata s) next in
    Some (Some {| aoff := next + 4; asize := N.to_nat sz; apos := apos a + 1 |}).

(** The iteration idiom of Bucket.cpp (getFirst / while !done / getNext):
    list of all allocations.  [fuel] bounds the loop; running out is [None]. *)
Fixpoint iterFrom (fuel : nat) (s : storage) (a : option allocation)
  : option (list allocation) :=
  match a with
  | None => Some []
  | Some a =>
    match fuel with
    | O => None
    | S fuel' =>
      let* nx := getNext s a in
      let* r := iterFrom fuel' s nx in
      Some (a :: r)
    end
  end.

Definition iterAll (s : storage) : option (list allocation) :=
  let* f := getFirst s in iterFrom (S (length (sdata s))) s f.
