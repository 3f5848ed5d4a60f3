(** * Chained allocations.
    Models the chained item operations of /repo/cachelib/allocator/CacheAllocator.h and
    CacheItem.h, at the level of the fields of the items: reference counts, flags, the parent
    pointer that is the key of a chained item, the next pointers, and the chained access container.
    Every operation below runs under chainedItemLocks_ of the parent's key (or has the only
    reference), so operations on one parent are atomic; an execution is a sequence of them.
    Items are identified by their address ([node]); addresses are reused after a free.
    Simplified: compressed pointers are the pointers (C08); the chained access container is a map
    from the parent's address to the head (C03); an item is in its eviction container or not
    (C05-C07); reference counts do not overflow (C02); regular items have no keys here: insertion
    and removal set and clear the flags of the item at hand (C03, C16).
    XDCHECKs are not executed.  [None]: null dereference, use or free of dead memory, a reference
    count below zero, an endless loop.  Not modelled: statistics, events, NVM (C17, C18). *)
From Verif Require Import Bytes DList_model.

Record item := mkItem {
  ischained : bool;     (* kIsChainedItem *)
  haschain : bool;      (* kHasChainedItem *)
  parent : node;        (* the key of a chained item *)
  next : ptr;           (* ChainedItemPayload::hook_ *)
  refs : nat;
  inmm : bool;          (* kLinked *)
  acc : bool            (* kAccessible *)
}.
Inductive event :=
| EAlloc (n : node) | EFree (n : node)
| ERecycle (n : node)                     (* memory handed to the allocating thread instead of freed *)
| ECb (n : node) (chain : list node).     (* removeCb / itemDestructor with the chain they see *)
Record cache := mkCache {
  msize : nat;                  (* number of addresses *)
  it : node -> item;
  live : node -> bool;
  tbl : node -> ptr;            (* chainedItemAccessContainer_ *)
  log : list event              (* newest first *)
}.
Definition updf {A} (f : node -> A) (n : node) (v : A) : node -> A := fun x => if x =? n then v else f x.
Definition put (s : cache) (n : node) (i : item) : cache := mkCache (msize s) (updf (it s) n i) (live s) (tbl s) (log s).
Definition setTbl (s : cache) (p : node) (h : ptr) : cache := mkCache (msize s) (it s) (live s) (updf (tbl s) p h) (log s).
Definition setLive (s : cache) (n : node) (b : bool) : cache := mkCache (msize s) (it s) (updf (live s) n b) (tbl s) (log s).
Definition say (s : cache) (e : event) : cache := mkCache (msize s) (it s) (live s) (tbl s) (e :: log s).
Definition setHas (s : cache) (n : node) (b : bool) : cache :=
  let i := it s n in put s n (mkItem (ischained i) b (parent i) (next i) (refs i) (inmm i) (acc i)).
Definition setParent (s : cache) (n p : node) : cache :=
  let i := it s n in put s n (mkItem (ischained i) (haschain i) p (next i) (refs i) (inmm i) (acc i)).
Definition setNext (s : cache) (n : node) (x : ptr) : cache :=
  let i := it s n in put s n (mkItem (ischained i) (haschain i) (parent i) x (refs i) (inmm i) (acc i)).
Definition setRefs (s : cache) (n : node) (r : nat) : cache :=
  let i := it s n in put s n (mkItem (ischained i) (haschain i) (parent i) (next i) r (inmm i) (acc i)).
Definition setMM (s : cache) (n : node) (b : bool) : cache :=
  let i := it s n in put s n (mkItem (ischained i) (haschain i) (parent i) (next i) (refs i) b (acc i)).
Definition setAcc (s : cache) (n : node) (b : bool) : cache :=
  let i := it s n in put s n (mkItem (ischained i) (haschain i) (parent i) (next i) (refs i) (inmm i) b).

(** Item::incRef / decRef. *)
Definition incRef (s : cache) (n : node) : option cache := if live s n then Some (setRefs s n (S (refs (it s n)))) else None.
Definition decRef (s : cache) (n : node) : option cache :=
  if live s n then match refs (it s n) with O => None | S r => Some (setRefs s n r) end else None.
(** allocator_->free: dead memory must not be freed. *)
Definition freeMem (s : cache) (n : node) : option cache :=
  if live s n then Some (say (setLive s n false) (EFree n)) else None.

(** CacheItem.h, CacheChainedItemIterator.h:49-56: walking a chain. *)
Fixpoint walk (fuel : nat) (s : cache) (cur : ptr) : option (list node) :=
  match cur with
  | None => Some []
  | Some c => match fuel with
              | O => None
              | S f => if live s c then let* r := walk f s (next (it s c)) in Some (c :: r) else None
              end
  end.
(** CacheAllocator.h:4297-4306 viewAsChainedAllocsRangeT (the temporary handle included: no effect). *)
Definition viewChain (s : cache) (p : node) : option (list node) :=
  if haschain (it s p) then walk (S (msize s)) s (tbl s p) else Some [].

(** ChainedHashTable.h:1185-1220 insertOrReplace on chainedItemAccessContainer_; the result is the
    old head, with a handle (one reference) on it. *)
Definition insertOrReplace (s : cache) (c : node) : option (cache * ptr) :=
  if acc (it s c) then Some (s, None)
  else
    let p := parent (it s c) in
    let old := tbl s p in
    let s1 := setTbl s p (Some c) in
    match old with
    | None => Some (setAcc s1 c true, None)
    | Some o => let* s2 := incRef s1 o in Some (setAcc (setAcc s2 c true) o false, Some o)
    end.
(** ChainedHashTable.h:1254-1270 remove. *)
Definition tblRemove (s : cache) (c : node) : cache * bool :=
  if acc (it s c) then (setAcc (setTbl s (parent (it s c)) None) c false, true) else (s, false).
(** CacheAllocator.h:6162-6166 findChainedItem: the head with a reference. *)
Definition findChained (s : cache) (p : node) : option (cache * ptr) :=
  match tbl s p with None => Some (s, None) | Some h => let* s1 := incRef s h in Some (s1, Some h) end.

(** CacheAllocator.h:3658-3686: the loop freeing the chain. *)
Fixpoint freeChain (fuel : nat) (s : cache) (cur : ptr) (toRecycle : ptr) (rec : bool) : option (cache * bool) :=
  match cur with
  | None => Some (s, rec)
  | Some c =>
    match fuel with
    | O => None
    | S f =>
      if live s c then
        let nx := next (it s c) in
        let s1 := setMM s c false in
        let* s2 := decRef s1 c in
        match toRecycle with
        | Some r => if c =? r then freeChain f (say (setLive s2 c false) (ERecycle c)) nx toRecycle true
                    else let* s3 := freeMem s2 c in freeChain f s3 nx toRecycle rec
        | None => let* s3 := freeMem s2 c in freeChain f s3 nx toRecycle rec
        end
      else None
    end
  end.
(** CacheAllocator.h:3558-3700 releaseBackToAllocator; throwing is [None] here: it would leave
    a leaked item.  The result tells whether [toRecycle] was recycled. *)
Definition releaseBack (s : cache) (n : node) (nascent : bool) (toRecycle : ptr) : option (cache * bool) :=
  let i := it s n in
  if negb ((refs i =? 0) && negb (inmm i) && negb (acc i)) then None
  else if ischained i then
    match toRecycle with Some _ => None | None => let* s1 := freeMem s n in Some (s1, false) end
  else
    let* s1 := (if nascent then Some s else let* l := viewChain s n in Some (say s (ECb n l))) in
    let* (s2, rec) :=
      (if haschain i then
         let* (t1, hd) := findChained s1 n in
         let* h := hd in
         let* t2 := decRef t1 h in              (* headHandle.reset(); not the last reference *)
         if negb (parent (it t2 h) =? n) then None
         else let (t3, ok) := tblRemove t2 h in
              if negb ok then None else freeChain (S (msize s)) t3 (Some h) toRecycle false
       else Some (s1, false)) in
    match toRecycle with
    | Some r => if n =? r then Some (say (setLive s2 n false) (ERecycle n), true)
                else let* s3 := freeMem s2 n in Some (s3, rec)
    | None => let* s3 := freeMem s2 n in Some (s3, rec)
    end.
(** CacheAllocator.h:3762-3776 release: a handle is dropped. *)
Definition release (s : cache) (n : node) (nascent : bool) : option cache :=
  let* s1 := decRef s n in
  let i := it s1 n in
  if (refs i =? 0) && negb (inmm i) && negb (acc i) then let* (s2, _) := releaseBack s1 n nascent None in Some s2 else Some s1.

Inductive out := OOk | OThrow | OItem (n : node) | OChain (l : list node) | OBool (b : bool).

(** allocateInternal and allocateChainedItemInternal (CacheAllocator.h:3219-3253) on address [n]. *)
Definition alloc (s : cache) (n : node) (i : item) : option cache :=
  if live s n || negb (n <? msize s) then None else Some (say (put (setLive s n true) n i) (EAlloc n)).
Definition allocParent (s : cache) (n : node) : option cache := alloc s n (mkItem false false 0 None 1 false false).
Definition allocChild (s : cache) (p n : node) : option cache := alloc s n (mkItem true false p None 1 false false).

(** CacheAllocator.h:3257-3300 addChainedItem; appendChain CacheItem.h:1123-1135.  The handle of
    the child is consumed. *)
Definition addChained (s : cache) (p c : node) : option (cache * out) :=
  if negb (ischained (it s c)) then let* s1 := release s c false in Some (s1, OThrow)
  else
    let* (s1, old) := insertOrReplace s c in
    match (match old with
           | Some o => match next (it s1 c) with Some _ => None | None => Some (setNext s1 c (Some o)) end
           | None => Some s1
           end) with
    | None =>    (* appendChain throws *)
      let* s2 := (match old with Some o => release s1 o false | None => Some s1 end) in
      let* s3 := release s2 c false in Some (s3, OThrow)
    | Some s2 =>
      let s3 := setHas s2 p true in
      let* s4 := incRef s3 c in
      let thrown := inmm (it s4 c) in         (* insertInMMContainer throws *)
      let s5 := setMM s4 c true in
      let* s6 := (match old with Some o => release s5 o false | None => Some s5 end) in
      let* s7 := release s6 c false in Some (s7, if thrown then OThrow else OOk)
    end.

(** CacheAllocator.h:3304-3335 popChainedItem. *)
Definition popChained (s : cache) (p : node) : option (cache * out) :=
  if negb (haschain (it s p)) then Some (s, OThrow)
  else
    let* (s1, hd) := findChained s p in
    let* h := hd in
    let* s2 :=
      (match next (it s1 h) with
       | Some x => let* (t1, old) := insertOrReplace s1 x in
                   match old with Some o => release t1 o false | None => Some t1 end
       | None => let (t1, _) := tblRemove s1 h in Some (setHas t1 p false)
       end) in
    let s3 := setMM (setNext s2 h None) h false in
    let* s4 := decRef s3 h in Some (s4, OItem h).

(** CacheAllocator.h:3372-3380: changing the key of each item of the chain; changeKey throws for an
    accessible item (CacheItem.h:1062-1069). *)
Fixpoint rekey (fuel : nat) (s : cache) (cur : ptr) (p : node) : option (cache * bool) :=
  match cur with
  | None => Some (s, true)
  | Some c => match fuel with
              | O => None
              | S f => if live s c then
                         if acc (it s c) then Some (s, false) else rekey f (setParent s c p) (next (it s c)) p
                       else None
              end
  end.
(** CacheAllocator.h:3353-3390 transferChainLocked; false: an exception. *)
Definition transferLocked (s : cache) (p p2 : node) : option (cache * bool) :=
  if haschain (it s p2) then Some (s, false)
  else
    let* (s1, hd) := findChained s p in
    let* h := hd in
    let (s2, _) := tblRemove s1 h in
    let* (s3, ok) := rekey (S (msize s)) s2 (Some h) p2 in
    if negb ok then let* s4 := release s3 h false in Some (s4, false)
    else
      let s4 := setHas s3 p2 true in
      let* (s5, old) := insertOrReplace s4 h in
      match old with
      | Some o => let* s6 := release s5 o false in let* s7 := release s6 h false in Some (s7, false)
      | None => let* s6 := release (setHas s5 p false) h false in Some (s6, true)
      end.
(** CacheAllocator.h:3407-3436 replaceIfAccessible, no interference: an accessible old item is
    replaced in both containers. *)
Definition replaceIfAccessible (s : cache) (o n : node) : cache :=
  if acc (it s o) then setMM (setMM (setAcc (setAcc s n true) o false) n true) o false else s.
(** CacheAllocator.h:3393-3406 transferChainAndReplace. *)
Definition transferChain (s : cache) (p p2 : node) : option (cache * out) :=
  let* (s1, ok) := transferLocked s p p2 in
  if ok then Some (replaceIfAccessible s1 p p2, OOk) else Some (s1, OThrow).

(** CacheAllocator.h:3484-3491: the item before [o]; the last item if [o] is not found. *)
Fixpoint findPrev (fuel : nat) (s : cache) (prev : node) (curr : ptr) (o : node) : option node :=
  match curr with
  | None => Some prev
  | Some c => if c =? o then Some prev
              else match fuel with O => None | S f => if live s c then findPrev f s c (next (it s c)) o else None end
  end.
(** CacheAllocator.h:3467-3523 replaceInChainLocked. *)
Definition replaceInChain (s : cache) (o n p : node) (fromMove : bool) : option cache :=
  let* (s1, hd) := findChained s p in
  let* h := hd in
  let* s2 :=
    (if h =? o then
       let* (t1, old) := insertOrReplace s1 n in
       match old with Some x => release t1 x false | None => Some t1 end
     else let* pr := findPrev (S (msize s)) s1 h (next (it s1 h)) o in Some (setNext s1 pr (Some n))) in
  let s3 := setNext (setNext s2 n (next (it s2 o))) o None in
  if fromMove then
    let* s4 := release s3 h false in
    let* s5 := decRef s4 o in incRef s5 n
  else
    let* s4 := decRef s3 o in
    let* s5 := incRef s4 n in release s5 h false.
(** CacheAllocator.h:3441-3463, 3527-3556 replaceChainedItem. *)
Definition replaceChained (s : cache) (o n p : node) : option (cache * out) :=
  if negb (ischained (it s o)) || negb (ischained (it s n)) || negb (parent (it s o) =? parent (it s n)) ||
     negb (parent (it s o) =? p) || inmm (it s n) || negb (inmm (it s o))
  then let* s1 := release s n false in Some (s1, OThrow)
  else
    let* s1 := incRef s o in
    let s2 := setMM (setMM s1 o false) n true in
    let* s3 := replaceInChain s2 o n p false in
    let* s4 := release s3 n false in Some (s4, OItem o).

(** CacheAllocator.h:4118-4206, 4255-4295 eviction of the memory of [r] (a regular item or one of a
    chain), which must be in the eviction container; false: the parent is in use. *)
Definition evict (s : cache) (r : node) : option (cache * out) :=
  if negb (live s r && inmm (it s r)) then None
  else
    let p := if ischained (it s r) then parent (it s r) else r in
    if negb (live s p) then None
    else if negb ((refs (it s p) =? 0) && inmm (it s p)) then Some (s, OBool false)      (* markForEviction *)
    else
      let s1 := setMM s r false in
      let s2 := setMM (setAcc s1 p false) p false in
      let* (s3, b) := releaseBack s2 p false (Some r) in Some (s3, OBool b).
(** CacheAllocator.h:5577-5620 evictForSlabRelease of the item at [r] (its parent marked moving). *)
Definition evictSlab (s : cache) (r : node) : option (cache * out) :=
  if negb (live s r && inmm (it s r)) then None
  else
    let p := if ischained (it s r) then parent (it s r) else r in
    if negb (live s p) then None
    else if negb ((refs (it s p) =? 0) && inmm (it s p)) then Some (s, OBool false)      (* markMoving *)
    else
      let s1 := setMM (setAcc s p false) p false in
      let* (s2, _) := releaseBack s1 p false None in Some (s2, OBool true).

(** CacheAllocator.h:5480-5545, 4055-4089 a slab release moves the chained item [o] to [n]. *)
Definition moveChained (s : cache) (o n : node) : option (cache * out) :=
  if negb (live s o && inmm (it s o) && ischained (it s o)) then None
  else
    let p := parent (it s o) in
    if negb (live s p) then None
    else if negb ((refs (it s p) =? 0) && inmm (it s p)) then Some (s, OBool false)
    else
      let* s1 := allocChild s p n in
      let s2 := setMM s1 n true in
      let* s3 := replaceInChain s2 o n p true in
      let s4 := setMM s3 o false in
      let* s5 := release s4 n true in
      let* s6 := freeMem s5 o in Some (s6, OBool true).
(** CacheAllocator.h:5480-5545, 3995-4052 a slab release moves the regular item [p] to [p2].
    [raced]: another thread removed [p] from the access container (insertOrReplace or remove of
    its key) before the new item was made accessible. *)
Definition moveRegular (s : cache) (p p2 : node) (raced : bool) : option (cache * out) :=
  if negb (live s p && inmm (it s p) && negb (ischained (it s p))) then None
  else if negb (refs (it s p) =? 0) then Some (s, OBool false)
  else
    let* s1 := allocParent s p2 in
    let s2 := setMM s1 p2 true in
    let* (s3, ok) := (if haschain (it s2 p) then transferLocked s2 p p2 else Some (s2, true)) in
    if negb ok then None
    else
      let s4 := if raced then setAcc s3 p false else s3 in
      if acc (it s4 p) then
        let s5 := setMM (setAcc (setAcc s4 p2 true) p false) p false in
        let* s6 := release s5 p2 false in
        let* s7 := freeMem s6 p in Some (s7, OBool true)
      else
        let s5 := setMM s4 p2 false in
        let* s6 := release s5 p2 true in
        let s7 := setMM s6 p false in
        let* (s8, _) := releaseBack s7 p false None in Some (s8, OBool false).

Inductive call :=
| AllocParent (n : node) | AllocChild (p n : node)
| Insert (p : node)                  (* insert / insertOrReplace of a held item *)
| Unlink (p : node)                  (* a held item is removed from, or replaced in, the cache *)
| Hold (n : node)                    (* find, or a copy of a handle *)
| Drop (n : node) (nascent : bool)   (* a handle is dropped *)
| Add (p c : node) | Pop (p : node) | Transfer (p p2 : node) | Replace (o n p : node) | View (p : node)
| Evict (r : node) | EvictSlab (r : node) | MoveChained (o n : node) | MoveRegular (p p2 : node) (raced : bool).
Definition exec (s : cache) (c : call) : option (cache * out) :=
  match c with
  | AllocParent n => let* s1 := allocParent s n in Some (s1, OItem n)
  | AllocChild p n => let* s1 := allocChild s p n in Some (s1, OItem n)
  | Insert p => Some (setMM (setAcc s p true) p true, OOk)
  | Unlink p => Some (setMM (setAcc s p false) p false, OOk)
  | Hold n => let* s1 := incRef s n in Some (s1, OOk)
  | Drop n nas => let* s1 := release s n nas in Some (s1, OOk)
  | Add p c => addChained s p c
  | Pop p => popChained s p
  | Transfer p p2 => transferChain s p p2
  | Replace o n p => replaceChained s o n p
  | View p => let* l := viewChain s p in Some (s, OChain l)
  | Evict r => evict s r
  | EvictSlab r => evictSlab s r
  | MoveChained o n => moveChained s o n
  | MoveRegular p p2 r => moveRegular s p p2 r
  end.
Fixpoint execs (s : cache) (cs : list call) : option (cache * list out) :=
  match cs with
  | [] => Some (s, [])
  | c :: r => let* (s1, o) := exec s c in let* (s2, os) := execs s1 r in Some (s2, o :: os)
  end.
Definition init (m : nat) : cache :=
  mkCache m (fun _ => mkItem false false 0 None 0 false false) (fun _ => false) (fun _ => None) [].
