(** * Compressed item pointers.
    Models /repo/cachelib/allocator/memory/CompressedPtr.h and the compress/unCompress functions
    of /repo/cachelib/allocator/memory/SlabAllocator.h.  Addresses and integers are [N] with the
    C++ widths made explicit. *)
From Verif Require Import Bytes.

Definition wrap8 (v : N) : N := (v mod 256)%N.

(** Slab.h:80-88. *)
Definition kNumSlabBits : N := 22.
Definition kMinAllocPower : N := 6.
Definition kMinAllocSize : N := N.shiftl 1 kMinAllocPower.
Definition kSlabSize : N := N.shiftl 1 kNumSlabBits.
(** CompressedPtr.h:117-118. *)
Definition kNumAllocIdxBits : N := (kNumSlabBits - kMinAllocPower)%N.
Definition kAllocIdxMask : N := (N.shiftl 1 kNumAllocIdxBits - 1)%N.
Definition kNull32 : N := 4294967295.

(** ** CompressedPtr4B *)
(** CompressedPtr.h:121, 126. *)
Definition kTierOff4 : N := 31.
Definition kTierMask4 : N := N.shiftl 1 kTierOff4.
(** CompressedPtr.h:134-136 numSlabIdxBits. *)
Definition numSlabIdxBits4 (multi : bool) : N := (kTierOff4 - kNumAllocIdxBits + if multi then 0 else 1)%N.
(** CompressedPtr.h:75-78. *)
Definition maxAddressable4 : N := N.shiftl 1 (numSlabIdxBits4 false + kNumSlabBits).
(** CompressedPtr.h:140-151 compress (uint32 arithmetic). *)
Definition compress4 (slabIdx allocIdx : N) (multi : bool) (tid : N) : N :=
  if negb multi then wrap32 (wrap32 (N.shiftl slabIdx kNumAllocIdxBits) + allocIdx)
  else wrap32 (wrap32 (wrap32 (N.shiftl tid kTierOff4) + wrap32 (N.shiftl slabIdx kNumAllocIdxBits)) + allocIdx).
(** CompressedPtr.h:154-158, 161-166, 168-171, 173-175, 62. *)
Definition getSlabIdx4 (p : N) (multi : bool) : N :=
  N.shiftr (if multi then N.ldiff p kTierMask4 else p) kNumAllocIdxBits.
Definition getAllocIdx4 (p : N) : N := N.land p kAllocIdxMask.
Definition getTierId4 (p : N) (multi : bool) : N := if multi then N.shiftr p kTierOff4 else 0%N.
Definition setTierId4 (p tid : N) : N := wrap32 (p + wrap32 (N.shiftl tid kTierOff4)).
Definition isNull4 (p : N) : bool := (p =? kNull32)%N.

(** ** CompressedPtr5B: a pair (ptr_ : uint32, regionIdx_ : uint8) *)
Record cptr5 := mkC5 { p5 : N; r5 : N }.
(** CompressedPtr.h:271, 277-278. *)
Definition kTierOff5 : N := 6.
Definition kTierMask5 : N := N.shiftl 1 kTierOff5.
(** CompressedPtr.h:283-286. *)
Definition numSlabIdxBits5 (multi : bool) : N := (kTierOff5 + (32 - kNumAllocIdxBits) + if multi then 0 else 1)%N.
Definition maxAddressable5 : N := N.shiftl 1 (numSlabIdxBits5 false + kNumSlabBits).
Definition kRegionNull : N := 255.
Definition null5 : cptr5 := {| p5 := kNull32; r5 := kRegionNull |}.
(** CompressedPtr.h:290-301 compress: the result is truncated to 32 bits by the constructor
    (247-254), so the tier term, which is above bit 32, disappears. *)
Definition compress5 (slabIdx allocIdx : N) (multi : bool) (tid : N) : N :=
  if negb multi then wrap32 (wrap32 (N.shiftl slabIdx kNumAllocIdxBits) + allocIdx)
  else wrap32 (N.shiftl tid (kTierOff5 + 32) + wrap32 (N.shiftl slabIdx kNumAllocIdxBits) + allocIdx).
(** CompressedPtr.h:313-324 getRegionIdx. *)
Definition getRegionIdx5 (slabIdx : N) (multi : bool) (tid : N) : N :=
  let region := N.shiftr slabIdx (32 - kNumAllocIdxBits) in
  if multi then wrap8 (wrap8 (N.shiftl tid kTierOff5) + wrap8 (N.ldiff region kTierMask5))
  else wrap8 region.
Definition mk5 (slabIdx allocIdx : N) (multi : bool) (tid : N) : cptr5 :=
  {| p5 := compress5 slabIdx allocIdx multi tid; r5 := getRegionIdx5 slabIdx multi tid |}.
(** CompressedPtr.h:327-337 getSlabIdx; 340-345; 347-352; 356-358; 193-195. *)
Definition getSlabIdx5 (p : cptr5) (multi : bool) : N :=
  let r := if multi then N.ldiff (r5 p) kTierMask5 else r5 p in
  wrap32 (wrap32 (N.shiftl r (32 - kNumAllocIdxBits)) + N.shiftr (p5 p) kNumAllocIdxBits).
Definition getAllocIdx5 (p : cptr5) : N := N.land (p5 p) kAllocIdxMask.
Definition getTierId5 (p : cptr5) (multi : bool) : N := if multi then N.shiftr (r5 p) kTierOff5 else 0%N.
Definition setTierId5 (p : cptr5) (tid : N) : cptr5 := {| p5 := p5 p; r5 := wrap8 (r5 p + N.shiftl tid kTierOff5) |}.
Definition isNull5 (p : cptr5) : bool := (p5 p =? kNull32)%N && (r5 p =? kRegionNull)%N.
(** CompressedPtr.h:229-234 saveState/getRaw, 225-226 restoring constructor, 303-311. *)
Definition getRaw5 (p : cptr5) : N := wrap64 (wrap64 (N.shiftl (r5 p) 32) + p5 p).
Definition restore5 (raw : N) : cptr5 := {| p5 := wrap32 raw; r5 := wrap8 (N.shiftr raw 32) |}.
(** CompressedPtr.h:84-89 for the 4-byte pointer: int64 holding the uint32. *)
Definition getRaw4 (p : N) : N := p.
Definition restore4 (raw : N) : N := wrap32 raw.

(** ** SlabAllocator *)
Record slabs := mkSlabs {
  slabMemoryStart : N;      (* address *)
  nextSlab : N;             (* nextSlabAllocation_ *)
  allocSizeOf : N -> N      (* header allocSize, by slab index *)
}.
(** SlabAllocator.h:229-235 getSlabForMemory: clear the low kNumSlabBits bits. *)
Definition getSlabForMemory (a : N) : N := (a - a mod kSlabSize)%N.
(** SlabAllocator.h:218-224 isValidSlab. *)
Definition isValidSlab (m : slabs) (slab : N) : bool :=
  (slabMemoryStart m <=? slab)%N && (slab <? nextSlab m)%N && (getSlabForMemory slab =? slab)%N.
(** SlabAllocator.h:245-267 compress up to the construction of the compressed pointer: (slabIdx, allocIdx);
    [None]: throws invalid_argument, or divides by zero. *)
Definition locate (m : slabs) (ptr : N) : option (N * N) :=
  let slab := getSlabForMemory ptr in
  if isValidSlab m slab then
    let idx := wrap32 ((slab - slabMemoryStart m) / kSlabSize) in
    let sz := allocSizeOf m idx in
    if (sz =? 0)%N then None else Some (idx, (wrap32 (ptr - slab) / sz)%N)
  else None.
(** The null pointer is address 0. *)
Definition compressPtr4 (m : slabs) (ptr : N) (multi : bool) : option N :=
  if (ptr =? 0)%N then Some kNull32
  else let* (s, i) := locate m ptr in Some (compress4 s i multi 0).
Definition compressPtr5 (m : slabs) (ptr : N) (multi : bool) : option cptr5 :=
  if (ptr =? 0)%N then Some null5
  else let* (s, i) := locate m ptr in Some (mk5 s i multi 0).
(** SlabAllocator.h:273-310 unCompress (non-debug path): slab->memoryAtOffset(allocSize * allocIdx), uint32 product. *)
Definition address (m : slabs) (slabIdx allocIdx : N) : N :=
  (slabMemoryStart m + slabIdx * kSlabSize + wrap32 (allocSizeOf m slabIdx * allocIdx))%N.
Definition unCompress4 (m : slabs) (p : N) (multi : bool) : N :=
  if isNull4 p then 0%N else address m (getSlabIdx4 p multi) (getAllocIdx4 p).
Definition unCompress5 (m : slabs) (p : cptr5) (multi : bool) : N :=
  if isNull5 p then 0%N else address m (getSlabIdx5 p multi) (getAllocIdx5 p).

(** SlabAllocator.cpp:374-388: slabs used for headers (7 bytes each) and usable slabs. *)
Definition sizeofSlabHeader : N := 7.
Definition numSlabsOf (mem : N) : N := (mem / kSlabSize)%N.
Definition numSlabsForHeaders (mem : N) : N :=
  ((sizeofSlabHeader * numSlabsOf mem + kSlabSize - 1) / kSlabSize)%N.
