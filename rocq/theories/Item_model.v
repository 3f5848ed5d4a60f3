(** Model of the in-memory item: KAllocation (packed key/value sizes, key,
    value), CacheItem (creation and expiry time), CacheChainedItem (parent
    pointer as key, next pointer at the head of the value).

    /repo/cachelib/allocator/KAllocation.h, /repo/cachelib/allocator/CacheItem.h,
    /repo/cachelib/allocator/CacheAllocator.h (allocateInternal).

    An allocation is a byte string [m]; [None] is undefined behaviour (an
    access outside of it).  An item starts at offset 0 of its allocation.
    [isz] is sizeof(Item): the hooks and the reference count come first, then
    creationTime_, expiryTime_ and the 4-byte packed size of [alloc_]
    (CacheItem.h:447-472, packed), then the variable part.  [isz] depends on
    the compressed pointer and MM type, so it is a parameter (>= 12). *)
From Verif Require Import Bytes.
Local Open Scope N_scope.

(** KAllocation.h:47-62: kMaxValSizeBits = 24, kMaxValSize, kKeyMaxLen,
    kKeyMaxLenSmall. *)
Definition kMaxValSize : N := 16777215.
Definition kKeyMaxLen : N := kMaxValSize.
Definition kKeyMaxLenSmall : N := 255.

(** KAllocation.h:68-70 *)
Definition extraBytesForLargeKeys (keySize : N) : N :=
  if keySize <=? kKeyMaxLenSmall then 0 else 4.

(** KAllocation.h:166-169 struct PackedSize: valSize_ in the low 24 bits,
    keySize_ in the top 8 (assigning to a bit field truncates). *)
Definition packSize (valSize keySize : N) : N :=
  valSize mod 16777216 + 16777216 * (keySize mod 256).
Definition packedVal (w : N) : N := w mod 16777216.
Definition packedKey (w : N) : N := w / 16777216 mod 256.

(** All KAllocation functions take the offset [o] of [alloc_] in [m]. *)

(** KAllocation.h:185 *)
Definition isSmallKey (m : list byte) (o : nat) : option bool :=
  let* w := rd 4 m o in Some (negb (packedKey w =? 0)).
(** KAllocation.h:190-192 getData() as an offset *)
Definition getDataOff (m : list byte) (o : nat) : option nat :=
  let* s := isSmallKey m o in Some (if s then o + 4 else o + 8)%nat.
(** KAllocation.h:199-202 *)
Definition getKeySize (m : list byte) (o : nat) : option N :=
  let* w := rd 4 m o in
  let* s := isSmallKey m o in
  if s then Some (packedKey w) else rd 4 m (o + 4)%nat.
(** KAllocation.h:127-129 *)
Definition getKey (m : list byte) (o : nat) : option (list byte) :=
  let* d := getDataOff m o in
  let* k := getKeySize m o in
  rd_bytes m d (N.to_nat k).
(** KAllocation.h:158 getMemory() as an offset *)
Definition getMemoryOff (m : list byte) (o : nat) : option nat :=
  let* d := getDataOff m o in
  let* k := getKeySize m o in
  Some (d + N.to_nat k)%nat.
(** KAllocation.h:161 *)
Definition getValSize (m : list byte) (o : nat) : option N :=
  let* w := rd 4 m o in Some (packedVal w).

(** KAllocation.h:211-214.  A null data pointer is not modelled. *)
Definition isKeyValid (key : list byte) : bool :=
  (N.of_nat (length key) <=? kKeyMaxLen) && negb (N.of_nat (length key) =? 0).
(** KAllocation.h:250-252 *)
Definition isSmallKeyValid (key : list byte) : bool :=
  (N.of_nat (length key) <=? kKeyMaxLenSmall) && negb (N.of_nat (length key) =? 0).

(** Outcome of code that may throw std::invalid_argument. *)
Inductive res (A : Type) := Threw | Ok (a : A).
Arguments Threw {A}. Arguments Ok {A} a.

(** KAllocation.h:99-118 the constructor *)
Definition kallocCtor (m : list byte) (o : nat) (key : list byte) (valSize : N)
  : option (res (list byte)) :=
  if kMaxValSize <? valSize then Some Threw
  else if negb (isKeyValid key) then Some Threw
  else
    let ks := N.of_nat (length key) in
    let* m1 := (if ks <=? kKeyMaxLenSmall
                then wr m o (le_enc 4 (packSize valSize ks))
                else let* m0 := wr m o (le_enc 4 (packSize valSize 0)) in
                     wr m0 (o + 4)%nat (le_enc 4 ks)) in
    let* d := getDataOff m1 o in
    let* m2 := wr m1 d key in
    Some (Ok m2).

(** KAllocation.h:148-153 changeKey *)
Definition kallocChangeKey (m : list byte) (o : nat) (key : list byte)
  : option (res (list byte)) :=
  let* k := getKeySize m o in
  if negb (N.of_nat (length key) =? k) then Some Threw
  else
    let* d := getDataOff m o in
    let* m' := wr m d key in
    Some (Ok m').

(** KAllocation.h:134-146 getKeyCheckedNoAsan: offset and length of the key it
    returns ((0,0) for the empty key). *)
Definition getKeyChecked (m : list byte) (o : nat) (allocSize : N)
  : option (nat * N) :=
  let* s := isSmallKey m o in
  let headerSize := if s then 4 else 8 in
  let* keySize := getKeySize m o in
  if (allocSize <? headerSize) || (allocSize - headerSize <? keySize)
  then Some (0%nat, 0)
  else let* d := getDataOff m o in Some (d, keySize).

(** ** CacheItem *)

(** Offset of alloc_, expiryTime_ and creationTime_ (CacheItem.h:462-472). *)
Definition offAlloc (isz : nat) : nat := (isz - 4)%nat.
Definition offExpiry (isz : nat) : nat := (isz - 8)%nat.
Definition offCreation (isz : nat) : nat := (isz - 12)%nat.

(** CacheItem.h:615-647 getRequiredSize *)
Definition getRequiredSize (isz : nat) (keySize size : N) : N :=
  let r := size + keySize + N.of_nat isz + extraBytesForLargeKeys keySize in
  if two32 - 1 <? r then 0 else r.

(** CacheItem.h:649-655 the constructor (the hooks and the reference count,
    which occupy the first [isz - 12] bytes, are modelled in C01-C05). *)
Definition itemCtor (isz : nat) (m : list byte) (key : list byte)
  (size ctime exp : N) : option (res (list byte)) :=
  let* m1 := wr m (offCreation isz) (le_enc 4 ctime) in
  let* m2 := wr m1 (offExpiry isz) (le_enc 4 exp) in
  kallocCtor m2 (offAlloc isz) key size.

(** CacheItem.h:664,688,703,717,750: accessors of a regular item *)
Definition itemKey (isz : nat) m := getKey m (offAlloc isz).
Definition itemMemoryOff (isz : nat) m := getMemoryOff m (offAlloc isz).
Definition itemSize (isz : nat) m := getValSize m (offAlloc isz).
Definition itemCreation (isz : nat) m := rd 4 m (offCreation isz).
Definition itemExpiry (isz : nat) m := rd 4 m (offExpiry isz).
(** The user's view of the value: [getMemory(), getMemory()+getSize()) *)
Definition itemValue (isz : nat) m : option (list byte) :=
  let* d := itemMemoryOff isz m in
  let* s := itemSize isz m in
  rd_bytes m d (N.to_nat s).
(** CacheItem.h:708-712 getTotalSize *)
Definition itemTotalSize (isz : nat) m : option N :=
  let* d := itemMemoryOff isz m in
  let* s := itemSize isz m in
  Some (wrap32 (N.of_nat d + s)).
(** CacheItem.h:748-752 getConfiguredTTL (uint32_t subtraction) *)
Definition itemConfiguredTTL (isz : nat) m : option N :=
  let* e := itemExpiry isz m in
  let* c := itemCreation isz m in
  Some (if 0 <? e then (e + two32 - c) mod two32 else 0).
(** CacheItem.h:989-1008 updateExpiryTime: [ok] is the state test
    (not moving, not being evicted, in the MM container, not chained). *)
Definition itemUpdateExpiry (isz : nat) m (ok : bool) (t : N) : option (bool * list byte) :=
  if ok then let* m' := wr m (offExpiry isz) (le_enc 4 t) in Some (true, m')
  else Some (false, m).
(** What a caller does with getMemory(): overwrite [data] at [pos] of the value *)
Definition itemWriteValue (isz : nat) m (pos : nat) (data : list byte) : option (list byte) :=
  let* d := itemMemoryOff isz m in wr m (d + pos)%nat data.

(** ** Allocation (CacheAllocator.h:3113-3172, MemoryPool.cpp:194-209)

    [classes] are the pool's allocation sizes in increasing order.  The memory
    handed out for a class is an arbitrary byte string of that size (C09). *)
Definition allocClass (classes : list N) (size : N) : option N :=
  if size =? 0 then None else find (fun c => size <=? c) classes.

Definition allocateItem (isz : nat) (classes : list N) (allowLarge : bool)
  (garbage : N -> list byte) (key : list byte) (size ctime exp : N)
  : option (res (list byte)) :=
  match allocClass classes (getRequiredSize isz (N.of_nat (length key)) size) with
  | None => Some Threw
  | Some c =>
      if negb allowLarge && (kKeyMaxLenSmall <? N.of_nat (length key)) then Some Threw
      else itemCtor isz (garbage c) key size ctime exp
  end.

(** CacheAllocator.h:4773-4779 getUsableSize of a regular item *)
Definition usableSize (isz : nat) (allocSize : N) m : option N :=
  let* k := itemKey isz m in
  Some (wrap32 (allocSize + two32 - getRequiredSize isz (N.of_nat (length k)) 0)).

(** CacheAllocator.h:1675-1705: the sampled item's key is used for a lookup
    only if it passes both tests ([None] = rejected; the tests on slab memory
    and on the flags are left out, they only reject more). *)
Definition sampleKey (isz : nat) (m : list byte) (allocSize : N)
  : option (option (nat * N)) :=
  let* k := getKeyChecked m (offAlloc isz) allocSize in
  let '(d, n) := k in
  Some (if n =? 0 then None
        else if allocSize <? getRequiredSize isz n 0 then None
        else Some (d, n)).

(** ** CacheChainedItem: [pw] is sizeof(CompressedPtrType), the size of the
    key and of the payload's hook (CacheItem.h:543, 1020-1046). *)

(** CacheItem.h:1048-1060 *)
Definition chainedRequiredSize (isz pw : nat) (size : N) : N :=
  let r := size + N.of_nat pw + N.of_nat isz + N.of_nat pw in
  if two32 - 1 <? r then 0 else r.

(** CacheItem.h:1062-1075: size + sizeof(Payload) is converted to uint32_t; the
    placement-new of Payload zeroes the hook. *)
Definition chainedCtor (isz pw : nat) (m : list byte) (parent size ctime : N)
  : option (res (list byte)) :=
  let* r := itemCtor isz m (le_enc pw parent) (wrap32 (size + N.of_nat pw)) ctime 0 in
  match r with
  | Threw => Some Threw
  | Ok m1 =>
      let* d := getMemoryOff m1 (offAlloc isz) in
      let* m2 := wr m1 d (le_enc pw 0) in
      Some (Ok m2)
  end.

(** CacheAllocator.h:3213-3250 allocateChainedItemInternal *)
Definition allocateChained (isz pw : nat) (classes : list N)
  (garbage : N -> list byte) (parent size ctime : N) : option (res (list byte)) :=
  match allocClass classes (chainedRequiredSize isz pw size) with
  | None => Some Threw
  | Some c => chainedCtor isz pw (garbage c) parent size ctime
  end.

(** CacheItem.h:1087-1093 (the parent's compressed pointer) *)
Definition chainedParent (isz pw : nat) m : option N :=
  let* d := getDataOff m (offAlloc isz) in rd pw m d.
(** CacheItem.h:1141-1152 *)
Definition chainedNext (isz pw : nat) m : option N :=
  let* d := getMemoryOff m (offAlloc isz) in rd pw m d.
Definition chainedSetNext (isz pw : nat) m (p : N) : option (list byte) :=
  let* d := getMemoryOff m (offAlloc isz) in wr m d (le_enc pw p).
(** CacheItem.h:1095-1105: getMemory is behind the hook; getSize deducts it *)
Definition chainedMemoryOff (isz pw : nat) m : option nat :=
  let* d := getMemoryOff m (offAlloc isz) in Some (d + pw)%nat.
Definition chainedSize (isz pw : nat) m : option N :=
  let* s := getValSize m (offAlloc isz) in
  Some (wrap32 (s + two32 - N.of_nat pw)).
Definition chainedValue (isz pw : nat) m : option (list byte) :=
  let* d := chainedMemoryOff isz pw m in
  let* s := chainedSize isz pw m in
  rd_bytes m d (N.to_nat s).
Definition chainedWriteValue (isz pw : nat) m (pos : nat) (data : list byte)
  : option (list byte) :=
  let* d := chainedMemoryOff isz pw m in wr m (d + pos)%nat data.
(** CacheItem.h:1077-1085 (the caller has checked the item is not accessible) *)
Definition chainedChangeKey (isz pw : nat) m (parent : N) : option (res (list byte)) :=
  kallocChangeKey m (offAlloc isz) (le_enc pw parent).
