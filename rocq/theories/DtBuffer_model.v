(** * Buffer and BufferManager: storage inside chained items.
    Models /repo/cachelib/datatype/Buffer.h and Buffer.cpp.
    Memory is typed: at a header offset there is a slot (size, removed, content), and content is the
    {key, value} pair that Map and RangeMap store; reading where no header was written, reading content
    that was never written, or writing more than the slot holds is [None] (undefined behaviour).
    The chained items of the parent are the list of buffers, oldest first; adding and replacing a
    chained item is C15.  Cache allocations succeed or fail as an oracle says ([al], in the order of
    the requests; no entry: success).  XDCHECKs are not executed. *)
From Verif Require Import Bytes.
Local Open Scope N_scope.

Definition u32 (x : N) : N := x mod 2 ^ 32.
Record slot := mkSlot { ssize : N; sremoved : bool; spay : option (N * N) }.
Record buffer := mkBuf { cap : N; deleted : N; nextb : N; mem : N -> option slot }.
Definition updm (f : N -> option slot) (o : N) (s : option slot) : N -> option slot := fun x => if x =? o then s else f x.
(** Buffer.h:154-158 Slot::getAllocSize; 160 the size is kept in 22 bits. *)
Definition allocSize (size : N) : N := u32 (4 + size).
Definition newSlot (size : N) : slot := mkSlot (size mod 2 ^ 22) false None.
Definition newBuffer (capacity : N) : buffer := mkBuf capacity 0 0 (fun _ => None).
Definition remaining (b : buffer) : N := cap b - nextb b.
(** Buffer.cpp:25-31 *)
Definition canAllocateNow (b : buffer) (size : N) : bool := allocSize size <=? remaining b.
(** Buffer.cpp:33-38: copying the used bytes. *)
Definition copyBuffer (capacity : N) (o : buffer) : buffer :=
  mkBuf capacity (deleted o) (nextb o) (fun x => if x <? nextb o then mem o x else None).
(** Buffer.cpp:40-54; None: kInvalidOffset. *)
Definition bAllocate (b : buffer) (size : N) : option (buffer * N) :=
  let a := u32 (4 + size) in
  if cap b <? u32 (nextb b + a) then None
  else let s := newSlot size in
       Some (mkBuf (cap b) (deleted b) (u32 (nextb b + allocSize (ssize s))) (updm (mem b) (nextb b) (Some s)), nextb b + 4).
(** Buffer.cpp:95-109 getSlotImpl: throws for an offset outside the used bytes ([None]). *)
Definition getSlot (b : buffer) (off : N) : option slot :=
  if (nextb b <=? off) || (off <? 4) then None else mem b (off - 4).
(** Buffer.cpp:56-62 *)
Definition bRemove (b : buffer) (off : N) : option buffer :=
  let* s := getSlot b off in
  if sremoved s then Some b
  else Some (mkBuf (cap b) (u32 (deleted b + allocSize (ssize s))) (nextb b)
               (updm (mem b) (off - 4) (Some (mkSlot (ssize s) true (spay s))))).
(** Buffer.cpp:64-66 getData, then reading or writing what is there. *)
Definition bRead (b : buffer) (off : N) : option (N * N) := let* s := mem b (off - 4) in spay s.
Definition bWrite (b : buffer) (off : N) (size : N) (p : N * N) : option buffer :=
  let* s := mem b (off - 4) in
  if ssize s <? size then None
  else Some (mkBuf (cap b) (deleted b) (nextb b) (updm (mem b) (off - 4) (Some (mkSlot (ssize s) (sremoved s) (Some p))))).
(** Buffer.cpp:68-93 compact *)
Fixpoint compactFrom (fuel : nat) (b dest : buffer) (off : N) : option buffer :=
  if off <? nextb b then
    match fuel with
    | O => None
    | S f =>
      let* s := mem b off in
      let* dest' :=
        (if sremoved s then Some dest
         else let* (d1, o) := bAllocate dest (ssize s) in
              match spay s with Some p => bWrite d1 o (ssize s) p | None => Some d1 end) in
      compactFrom f b dest' (u32 (off + allocSize (ssize s)))
    end
  else Some dest.
Definition compactBuffer (b : buffer) : option buffer :=
  if deleted b =? 0 then Some b
  else
    let tmp := newBuffer (cap b) in
    if cap tmp <? cap b - deleted b - remaining b then None
    else let* t := compactFrom (S (N.to_nat (nextb b))) b tmp 0 in Some (copyBuffer (cap t) t).
(** Buffer.h:80-143, Buffer.cpp:111-131: walking the slots from a data offset to the end. *)
Fixpoint slotsFrom (fuel : nat) (b : buffer) (off : N) : option (list (N * slot)) :=
  match fuel with
  | O => None
  | S f =>
    let* s := getSlot b off in
    let nx := u32 (off + allocSize (ssize s)) in
    if nextb b <=? nx then Some [(off, s)] else let* r := slotsFrom f b nx in Some ((off, s) :: r)
  end.
Definition bSlots (b : buffer) : option (list (N * slot)) :=
  if nextb b <? allocSize 0 then Some [] else slotsFrom (S (N.to_nat (nextb b))) b (allocSize 0).

(** ** Addresses: Buffer.h:195-245 BufferAddr.  22 bits of byte offset (shift and or are product and
    sum for a byte offset below 2^22). *)
Definition nullAddr : N := 2 ^ 32 - 1.
Definition compress (item byte : N) : N := u32 (item * 2 ^ 22 + byte).
Definition itemOff (a : N) : N := a / 2 ^ 22.
Definition byteOff (a : N) : N := a mod 2 ^ 22.

(** ** BufferManager *)
Definition maxCapacity : N := 1024 * 1024 - 100.
Definition maxItems : N := 2 ^ 10 - 1.
Definition mgr := list buffer.
Definition take (al : list bool) : bool * list bool := match al with [] => (true, []) | b :: r => (b, r) end.
(** Buffer.h:513-532, 615-622 allocate; None: the null address. *)
Fixpoint allocIn (l : mgr) (i : N) (size : N) : option (mgr * N) :=
  match l with
  | [] => None
  | b :: r =>
    if canAllocateNow b size then
      match bAllocate b size with
      | Some (b', o) => Some (b' :: r, compress i o)
      | None => None                       (* not reached: see canAllocateNow *)
      end
    else let* (r', a) := allocIn r (i + 1) size in Some (b :: r', a)
  end.
Definition mAllocate (m : mgr) (size : N) : option (mgr * N) :=
  if maxCapacity <=? allocSize size then None else allocIn m 0 size.
(** Buffer.h:624-640 addNewBuffer *)
Definition addNewBuffer (m : mgr) (capacity : N) (al : list bool) : option mgr * list bool :=
  let (ok, al1) := take al in if ok then (Some (m ++ [newBuffer capacity]), al1) else (None, al1).
(** Buffer.h:642-677 expandBuffer, on the newest buffer *)
Definition expandBuffer (m : mgr) (extra : N) (al : list bool) : option mgr * list bool :=
  match rev m with
  | [] => (None, al)
  | b :: r =>
    if maxCapacity <=? u32 (cap b + extra) then (None, al)
    else
      let (ok, al1) := take al in
      if ok then
        let normal := N.min maxCapacity (u32 (cap b * 2)) in
        let wanted := N.max (u32 (cap b + extra)) normal in
        (Some (rev r ++ [copyBuffer wanted b]), al1)
      else (None, al1)
  end.
(** Buffer.h:534-561 expand; None: false *)
Definition mExpand (m : mgr) (size : N) (al : list bool) : option mgr * list bool :=
  let req := allocSize size in
  if maxCapacity <? req then (None, al)
  else
    match expandBuffer m req al with
    | (Some m', al1) => (Some m', al1)
    | (None, al1) => if maxItems <=? N.of_nat (length m) then (None, al1) else addNewBuffer m maxCapacity al1
    end.
Definition getBuffer (m : mgr) (a : N) : option buffer := nth_error m (N.to_nat (itemOff a)).
Fixpoint setBuffer (m : mgr) (i : nat) (b : buffer) : mgr :=
  match m, i with
  | [], _ => []
  | _ :: r, O => b :: r
  | x :: r, S j => x :: setBuffer r j b
  end.
(** Buffer.h:563-572 remove; 574-581 get *)
Definition mRemove (m : mgr) (a : N) : option mgr :=
  let* b := getBuffer m a in
  let* b' := bRemove b (byteOff a) in Some (setBuffer m (N.to_nat (itemOff a)) b').
Definition mRead (m : mgr) (a : N) : option (N * N) := let* b := getBuffer m a in bRead b (byteOff a).
Definition mWrite (m : mgr) (a size : N) (p : N * N) : option mgr :=
  let* b := getBuffer m a in
  let* b' := bWrite b (byteOff a) size p in Some (setBuffer m (N.to_nat (itemOff a)) b').
(** Buffer.h:583-597 clone: each item is copied; None: some allocation failed. *)
Fixpoint mClone (m : mgr) (al : list bool) : option mgr * list bool :=
  match m with
  | [] => (Some [], al)
  | b :: r =>
    let (ok, al1) := take al in
    if ok then match mClone r al1 with (Some r', al2) => (Some (b :: r'), al2) | (None, al2) => (None, al2) end
    else (None, al1)
  end.
(** Buffer.h:679-699 compact *)
Fixpoint mCompact (m : mgr) : option mgr :=
  match m with
  | [] => Some []
  | b :: r => let* b' := compactBuffer b in let* r' := mCompact r in Some (b' :: r')
  end.
(** Buffer.h:719-731 wastedBytesPct; dividing by zero is [None]. *)
Definition sumN (l : list N) : N := fold_right N.add 0 l.
Definition wastedPct (m : mgr) : option N :=
  let c := sumN (map cap m) in if c =? 0 then None else Some (sumN (map deleted m) * 100 / c).
(** Buffer.h:436-511 BufferManagerIterator: the newest buffer first, removed slots skipped; each
    element with its address.  Content that was never written: [None]. *)
Fixpoint contents (i : N) (l : list (N * slot)) : option (list (N * (N * N))) :=
  match l with
  | [] => Some []
  | (o, s) :: r => if sremoved s then contents i r
                   else let* p := spay s in let* r' := contents i r in Some ((compress i o, p) :: r')
  end.
Fixpoint iterFrom (m : mgr) (i : N) : option (list (N * (N * N))) :=
  match m with
  | [] => Some []
  | b :: r => let* sl := bSlots b in let* x := contents i sl in let* y := iterFrom r (i + 1) in Some (y ++ x)
  end.
Definition mIterate (m : mgr) : option (list (N * (N * N))) := iterFrom m 0.
