(** Specification for C08. *)
From Verif Require Import Bytes Compress_model.

(** A slab allocator over [mem] bytes: slab memory starts at a slab-aligned non-null address,
    after the slabs reserved for headers; slabs are carved up to [nextSlab]. *)
Definition wf_slabs (m : slabs) (mem : N) : Prop :=
  (0 < slabMemoryStart m)%N /\ (slabMemoryStart m mod kSlabSize = 0)%N /\
  (nextSlab m <= slabMemoryStart m + (numSlabsOf mem - numSlabsForHeaders mem) * kSlabSize)%N.

(** [ptr] is the address of the [i]-th allocation of slab number [s], which belongs to an
    allocation class of a legal size. *)
Definition alloc_at (m : slabs) (s i ptr : N) : Prop :=
  (slabMemoryStart m + s * kSlabSize < nextSlab m)%N /\
  (kMinAllocSize <= allocSizeOf m s)%N /\ (allocSizeOf m s <= kSlabSize)%N /\
  (i < kSlabSize / allocSizeOf m s)%N /\
  ptr = (slabMemoryStart m + s * kSlabSize + i * allocSizeOf m s)%N.
Definition is_alloc (m : slabs) (ptr : N) : Prop := exists s i, alloc_at m s i ptr.
