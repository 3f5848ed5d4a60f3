(** * Lifetime of items: allocation, handles, index, eviction container, eviction, moving.

    Models, at the atomicity of the code's locks and compare-and-swap loops, the concurrent
    life cycle of regular (non-chained) items in a RAM-only cache:
    /repo/cachelib/allocator/CacheAllocator.h (allocateInternal, releaseBackToAllocator, acquire,
    release, insertImpl, insertOrReplace, remove, removeIfExpired, getNextCandidate, findEviction,
    unlinkItemForEviction, markMovingForSlabRelease, moveForSlabRelease, moveRegularItem,
    evictForSlabRelease, wakeUpWaiters), ChainedHashTable.h (Container), Refcount.h and Handle.h.

    Simplifications:
    - An allocation is named by its key and a serial number that no other allocation ever has
      ([id]); reusing an address is "free the old name, allocate a new name".  A use of a name
      after its free is reported as [EUAF], whatever the address has become since.
    - The reference-count word is kept as its fields (Refcount_props relates the word to the
      fields, C01, and shows that each CAS loop is one atomic step, C02).
    - The hash table is a map from key to item (C03); the eviction container is a set (C05);
      which of its items is offered to an evictor is a free choice.
    - Threads are an arbitrary finite list; a step is one locked region or one atomic
      operation.  A step whose code may take either branch for reasons outside the model
      (allocator full, item expired, no move callback) takes a free [choice].
    - Not modelled: chained items (C15), flash (C17), statistics, iterators over the index. *)
From Coq Require Import List Arith Bool.
Import ListNotations.

(** Name of an allocation: its key and a serial number. *)
Definition id := (nat * nat)%type.
Definition ikey (a : id) : nat := fst a.
Definition ideq (a b : id) : bool := (fst a =? fst b) && (snd a =? snd b).

(** One allocation.  [ref], [lnk], [acc], [exc] are the fields of the refcount word
    (Refcount.h:57-129); [alive] says that the allocator has handed the memory out
    (MemoryAllocator::allocate / free); [was] and [mvd] are ghost: the item has once been
    made accessible; its content has been moved to another allocation. *)
Record item := mkItem { alive : bool; ref : nat; lnk : bool; acc : bool; exc : bool;
                        was : bool; mvd : bool }.
Definition dead : item := mkItem false 0 false false false false false.

(** A handle: the item and the handle's nascent flag (Handle.h HandleFlags::kNascent). *)
Definition hdl := (id * bool)%type.

(** What an allocating thread does with the memory: return it to the user
    (CacheAllocator.h:3042-3110 allocate), or move [old] into it (5480-5548). *)
Inductive acont := KUser (k : nat) | KMove (old : id).
Definition ckey (c : acont) : nat := match c with KUser k => k | KMove old => ikey old end.

(** Who looks a key up: find, or remove(key) (4359-4420). *)
Inductive wfind := WFind | WRem.
(** Who runs removeImpl: remove(handle) or remove(key) (4478-4540, 4419). *)
Inductive wrem := RUser | RKey.
(** What follows a handle's destruction. *)
Inductive rnext := NDone | NEv (old : id) | NFree (old : id).

(** Program counters of a thread. *)
Inductive tst :=
| TIdle
(* allocateInternal / findEviction / getNextCandidate *)
| AStart (c : acont) | ANew (c : acont)
| EvAC (c : acont) (a : id) | EvMM (c : acont) (a : id) | EvUnm (c : acont) (a : id)
| EvRel (c : acont) (a : id) | EvFree (c : acont) (a : id)
(* find *)
| FFind (w : wfind) (k : nat) | FWait (w : wfind) (k : nat) | FGot (w : wfind) (h : hdl)
(* insert *)
| InChk (h : hdl) | InMM (h : hdl) | InPre (h : hdl) | InAC (h : hdl) | InRm (h : hdl)
(* insertOrReplace *)
| OrChk (h : hdl) | OrMM (h : hdl) | OrPre (h : hdl) | OrAC (h : hdl)
| OrWait (h : hdl) (k : nat) | OrRm (h h2 : hdl) | OrFail (h : hdl)
(* remove, removeIfExpired *)
| RmAC (h : hdl) (w : wrem) | RmMM (h : hdl) (w : wrem)
| XAC (h : hdl) | XMM (h h2 : hdl)
(* handle destruction, releaseBackToAllocator *)
| RDec (h : hdl) (n : rnext) | RRel (a : id) (nas : bool) (n : rnext) | RFree (a : id) (n : rnext)
(* slab release *)
| SGo (old : id) | SMM (old n : id) | SRep (old n : id) | SRm (old n : id) | SOld (old n : id)
| SUnm (old n : id) | SWake (old n : id) | SFree (old : id)
| SEv (old : id) | SEvAC (old : id) | SEvMM (old : id) | SEvUnm (old : id)
| SEvWake (old : id) | SEvRel (old : id) | SEvFree (old : id)
(* a waiter whose wake-up was lost to a reference-count overflow *)
| THung (h : option hdl).

(** What an observer (user, allocator, or undefined behaviour detector) sees. *)
Inductive event :=
| EAlloc (a : id)      (* memory handed out, item constructed *)
| EFree (a : id)       (* memory given back *)
| EIns (a : id)        (* item made accessible on behalf of a user *)
| EMoved (old n : id)  (* content of [old] now served from [n] *)
| EDtor (a : id)       (* item destructor / remove callback *)
| EThrow               (* an exception reaches the caller *)
| EUAF (a : id)        (* an allocation is dereferenced while it is not handed out *)
| EBad (a : id).       (* an internal check fails: reference underflow, release of an item
                          that is not drained, unlinking an absent hash-table node *)

Record state := mkState {
  it : id -> item;
  nexti : nat;
  idx : nat -> option id;        (* the access container *)
  mm : id -> bool;               (* the eviction container *)
  hs : list hdl;                 (* handles held by users *)
  thr : list tst;
  tr : list event                (* newest first *)
}.

Definition init (nthreads : nat) : state :=
  mkState (fun _ => dead) 0 (fun _ => None) (fun _ => false) [] (repeat TIdle nthreads) [].

(** ** Small helpers on the state. *)
Definition updf (f : id -> item) (a : id) (v : item) : id -> item :=
  fun b => if ideq a b then v else f b.
Definition updb (f : id -> bool) (a : id) (v : bool) : id -> bool :=
  fun b => if ideq a b then v else f b.
Definition updk (f : nat -> option id) (k : nat) (v : option id) : nat -> option id :=
  fun j => if k =? j then v else f j.
Fixpoint updl (l : list tst) (i : nat) (t : tst) : list tst :=
  match l, i with
  | [], _ => []
  | _ :: r, 0 => t :: r
  | x :: r, S j => x :: updl r j t
  end.

Definition set_it (s : state) (a : id) (v : item) : state :=
  mkState (updf (it s) a v) (nexti s) (idx s) (mm s) (hs s) (thr s) (tr s).
Definition set_idx (s : state) (k : nat) (v : option id) : state :=
  mkState (it s) (nexti s) (updk (idx s) k v) (mm s) (hs s) (thr s) (tr s).
Definition set_mm (s : state) (a : id) (v : bool) : state :=
  mkState (it s) (nexti s) (idx s) (updb (mm s) a v) (hs s) (thr s) (tr s).
Definition put_h (s : state) (h : hdl) : state :=
  mkState (it s) (nexti s) (idx s) (mm s) (h :: hs s) (thr s) (tr s).
Definition set_t (s : state) (i : nat) (t : tst) : state :=
  mkState (it s) (nexti s) (idx s) (mm s) (hs s) (updl (thr s) i t) (tr s).
Definition ev (s : state) (e : event) : state :=
  mkState (it s) (nexti s) (idx s) (mm s) (hs s) (thr s) (e :: tr s).

Definition w_ref (x : item) (r : nat) := mkItem (alive x) r (lnk x) (acc x) (exc x) (was x) (mvd x).
Definition w_lnk (x : item) (b : bool) := mkItem (alive x) (ref x) b (acc x) (exc x) (was x) (mvd x).
Definition w_acc (x : item) (b : bool) :=
  mkItem (alive x) (ref x) (lnk x) b (exc x) (was x || b) (mvd x).
Definition w_exc (x : item) (b : bool) := mkItem (alive x) (ref x) (lnk x) (acc x) b (was x) (mvd x).
Definition w_free (x : item) (m : bool) :=
  mkItem false (ref x) (lnk x) (acc x) (exc x) (was x) (mvd x || m).

(** Refcount.h:470 isDrained. *)
Definition drained (x : item) : bool := (ref x =? 0) && negb (lnk x) && negb (acc x) && negb (exc x).

(** Refcount.h:152-177 incRef; the four outcomes. *)
Inductive incres := IncOk | IncEvicting | IncMoving | IncOverflow.
Definition incRef (maxRef : nat) (x : item) : incres :=
  if ref x =? maxRef then IncOverflow
  else if exc x then (if ref x =? 0 then IncEvicting else IncMoving)
  else IncOk.

(** CacheAllocator.h:3779-3787 removeFromMMContainer (MMLru.h remove under the container
    lock): nothing unless the item says it is linked. *)
Definition mmRemove (s : state) (a : id) : state :=
  if lnk (it s a) then set_mm (set_it s a (w_lnk (it s a) false)) a false else s.
(** MMContainer::add when the item is not linked. *)
Definition mmAdd (s : state) (a : id) : state :=
  set_mm (set_it s a (w_lnk (it s a) true)) a true.

(** ChainedHashTable.h:1247-1264 Container::remove, under the bucket lock.  Unlinking a node
    the table does not hold is reported. *)
Definition acRemove (s : state) (a : id) : state :=
  if acc (it s a) then
    let s1 := set_idx (set_it s a (w_acc (it s a) false)) (ikey a) None in
    match idx s (ikey a) with
    | Some b => if ideq a b then s1 else ev s1 (EBad a)
    | None => ev s1 (EBad a)
    end
  else s.

(** decRef (Refcount.h:185-207). *)
Definition decRef (s : state) (a : id) : state :=
  let x := it s a in
  let s1 := set_it s a (w_ref x (ref x - 1)) in
  if ref x =? 0 then ev s1 (EBad a) else s1.

Definition goNext (n : rnext) : tst :=
  match n with NDone => TIdle | NEv old => SEv old | NFree old => SFree old end.

(** What a failed allocation does: allocate returns null; moveForSlabRelease returns false and
    the item is evicted instead (5501-5518, 5451-5454). *)
Definition allocFailed (c : acont) : tst :=
  match c with KUser _ => TIdle | KMove old => SEv old end.

(** CacheAllocator.h:2490-2507 MoveCtx::wakeUpWaiters for a non-null handle to [n]: every
    waiter on the key gets a clone; if a clone overflows, that waiter is never set and the
    later ones get null.  [r] is [n]'s reference count. *)
Fixpoint wakeAll (maxRef : nat) (k : nat) (n : id) (r : nat) (ovf : bool) (l : list tst)
  : list tst * nat :=
  match l with
  | [] => ([], r)
  | FWait w k' :: q =>
    if k' =? k then
      if ovf then let (q', r') := wakeAll maxRef k n r true q in (TIdle :: q', r')
      else if r =? maxRef then
        let (q', r') := wakeAll maxRef k n r true q in (THung None :: q', r')
      else let (q', r') := wakeAll maxRef k n (S r) false q in (FGot w (n, false) :: q', r')
    else let (q', r') := wakeAll maxRef k n r ovf q in (FWait w k' :: q', r')
  | OrWait h k' :: q =>
    if k' =? k then
      if ovf then let (q', r') := wakeAll maxRef k n r true q in (FGot WFind h :: q', r')
      else if r =? maxRef then
        let (q', r') := wakeAll maxRef k n r true q in (THung (Some h) :: q', r')
      else let (q', r') := wakeAll maxRef k n (S r) false q in (OrRm h (n, false) :: q', r')
    else let (q', r') := wakeAll maxRef k n r ovf q in (OrWait h k' :: q', r')
  | t :: q => let (q', r') := wakeAll maxRef k n r ovf q in (t :: q', r')
  end.

(** The same for a null handle: finders miss; insertOrReplace has replaced nothing. *)
Definition wakeNull (k : nat) (t : tst) : tst :=
  match t with
  | FWait w k' => if k' =? k then TIdle else t
  | OrWait h k' => if k' =? k then FGot WFind h else t
  | _ => t
  end.

(** Items a thread dereferences in its next step, apart from those it reaches through the
    index. *)
Definition touch (t : tst) : list id :=
  match t with
  | TIdle | AStart (KUser _) | ANew (KUser _) | FFind _ _ | FWait _ _ | OrWait _ _ | THung _ => []
  | AStart (KMove o) | ANew (KMove o) => [o]
  | EvAC _ a | EvMM _ a | EvUnm _ a | EvRel _ a | EvFree _ a => [a]
  | FGot _ h => []
  | InChk h | InMM h | InPre h | InAC h | InRm h => [fst h]
  | OrChk h | OrMM h | OrPre h | OrAC h | OrFail h => [fst h]
  | OrRm h h2 => [fst h; fst h2]
  | RmAC h _ | RmMM h _ | XAC h => [fst h]
  | XMM h h2 => [fst h; fst h2]
  | RDec h _ => [fst h]
  | RRel a _ _ | RFree a _ => [a]
  | SGo o | SEv o | SEvAC o | SEvMM o | SEvUnm o | SEvWake o | SEvRel o | SEvFree o | SFree o => [o]
  | SMM o n | SRep o n | SRm o n | SOld o n | SUnm o n | SWake o n => [o; n]
  end.

(** Items reached through the index: the bucket walk compares keys with the linked items
    (ChainedHashTable.h findInBucket / insertInBucket / removeFromBucket). *)
Definition touchIdx (s : state) (t : tst) : list id :=
  let via k := match idx s k with Some b => [b] | None => [] end in
  match t with
  | FFind _ k => via k
  | InAC h | OrAC h => via (ikey (fst h))
  | RmAC h _ | XAC h => via (ikey (fst h))
  | EvAC _ a | SEvAC a => via (ikey a)
  | SRep _ n => via (ikey n)
  | _ => []
  end.

(** A choice of branch. *)
Inductive choice := CA | CB | CPick (a : id).

Section Step.
  (** The largest reference count (2^18 - 1 in the code), and whether the callers keep the
      documented contract: one thread at a time inserts an item, and a handle to an item that
      is not inserted yet is not cloned. *)
  Variable maxRef : nat.
  Variable strict : bool.

  (** Finish: thread [i] becomes idle and the handle goes back to its user. *)
  Definition back (s : state) (i : nat) (h : hdl) : state := set_t (put_h s h) i TIdle.

  (** One step of thread [i], which is in state [t]. *)
  Definition run (s : state) (i : nat) (t : tst) (c : choice) : option state :=
    match t with
    | TIdle | FWait _ _ | OrWait _ _ | THung _ => None
    (* 3129-3144: memory from the allocator (CA), no memory and no victim (CB), or an
       eviction candidate from the container, marked and unlinked under the container lock
       (4120-4225, Refcount.h:307-344) *)
    | AStart k =>
      match c with
      | CA => Some (set_t s i (ANew k))
      | CB => Some (set_t s i (allocFailed k))
      | CPick a =>
        if mm s a then
          if negb (alive (it s a)) then Some (set_t (ev s (EUAF a)) i TIdle)
          else if lnk (it s a) && negb (exc (it s a)) && (ref (it s a) =? 0) then
            Some (set_t (mmRemove (set_it s a (w_exc (it s a) true)) a) i (EvAC k a))
          else Some s
        else None
      end
    (* 3165-3170: construct and acquire *)
    | ANew k =>
      let a := (ckey k, nexti s) in
      let s1 := mkState (updf (it s) a (mkItem true 1 false false false false false))
                        (S (nexti s)) (idx s) (mm s) (hs s) (thr s) (EAlloc a :: tr s) in
      match k with
      | KUser _ => Some (back s1 i (a, true))
      | KMove old => Some (set_t s1 i (SMM old a))
      end
    (* 4107-4117 unlinkItemForEviction *)
    | EvAC k a => Some (set_t (acRemove s a) i (EvMM k a))
    | EvMM k a => Some (set_t (mmRemove s a) i (EvUnm k a))
    | EvUnm k a => Some (set_t (set_it s a (w_exc (it s a) false)) i (EvRel k a))
    (* 3560-3698 releaseBackToAllocator with toRecycle = the item *)
    | EvRel k a =>
      if drained (it s a) then Some (set_t (ev s (EDtor a)) i (EvFree k a))
      else Some (set_t (ev s (EBad a)) i TIdle)
    | EvFree k a => Some (set_t (ev (set_it s a (w_free (it s a) false)) (EFree a)) i (ANew k))
    (* find under the bucket lock: ChainedHashTable.h:1289-1297, CacheAllocator.h:3718-3741,
       3955-3976 *)
    | FFind w k =>
      match idx s k with
      | None => Some (set_t s i TIdle)
      | Some a =>
        match incRef maxRef (it s a) with
        | IncOk => Some (set_t (set_it s a (w_ref (it s a) (S (ref (it s a))))) i (FGot w (a, false)))
        | IncEvicting => Some (set_t s i TIdle)
        | IncMoving => Some (set_t s i (FWait w k))
        | IncOverflow => Some (set_t (ev s EThrow) i TIdle)
        end
      end
    | FGot w h =>
      match w with
      | WFind => Some (back s i h)
      | WRem => Some (set_t s i (RmAC h RKey))
      end
    (* 3848-3878 insertImpl *)
    | InChk h =>
      if acc (it s (fst h)) then Some (back (ev s EThrow) i h) else Some (set_t s i (InMM h))
    | InMM h =>
      if lnk (it s (fst h)) then Some (back (ev s EThrow) i h)
      else Some (set_t (mmAdd s (fst h)) i (InPre h))
    (* ChainedHashTable.h:1164-1182: the first check is made without the lock *)
    | InPre h => if acc (it s (fst h)) then Some (set_t s i (InRm h)) else Some (set_t s i (InAC h))
    | InAC h =>
      let a := fst h in
      match idx s (ikey a) with
      | Some _ => Some (set_t s i (InRm h))
      | None => Some (back (ev (set_idx (set_it s a (w_acc (it s a) true)) (ikey a) (Some a)) (EIns a))
                           i (a, false))
      end
    | InRm h => Some (back (mmRemove s (fst h)) i h)
    (* 3881-3937 insertOrReplace *)
    | OrChk h =>
      if acc (it s (fst h)) then Some (back (ev s EThrow) i h) else Some (set_t s i (OrMM h))
    | OrMM h =>
      if lnk (it s (fst h)) then Some (back (ev s EThrow) i h)
      else Some (set_t (mmAdd s (fst h)) i (OrPre h))
    (* ChainedHashTable.h:1184-1217 *)
    | OrPre h =>
      if acc (it s (fst h)) then Some (back s i (fst h, false)) else Some (set_t s i (OrAC h))
    | OrAC h =>
      let a := fst h in
      let k := ikey a in
      match idx s k with
      | None => Some (back (ev (set_idx (set_it s a (w_acc (it s a) true)) k (Some a)) (EIns a))
                           i (a, false))
      | Some o =>
        let swap s0 :=
          let s1 := set_idx (set_it s0 a (w_acc (it s0 a) true)) k (Some a) in
          ev (set_it s1 o (w_acc (it s1 o) false)) (EIns a) in
        match incRef maxRef (it s o) with
        | IncOverflow => Some (set_t s i (OrFail h))
        | IncEvicting => Some (back (swap s) i (a, false))
        | IncMoving => Some (set_t (swap s) i (OrWait (a, false) k))
        | IncOk => Some (set_t (swap (set_it s o (w_ref (it s o) (S (ref (it s o)))))) i
                               (OrRm (a, false) (o, false)))
        end
      end
    | OrRm h h2 => Some (set_t (put_h (put_h (mmRemove s (fst h2)) h) h2) i TIdle)
    | OrFail h => Some (back (ev (mmRemove s (fst h)) EThrow) i h)
    (* 4490-4540 removeImpl *)
    | RmAC h w => Some (set_t (acRemove s (fst h)) i (RmMM h w))
    | RmMM h w =>
      match w with
      | RUser => Some (back (mmRemove s (fst h)) i h)
      | RKey => Some (set_t (mmRemove s (fst h)) i (RDec h NDone))
      end
    (* removeIfExpired; ChainedHashTable.h:1266-1287 removeIf.  CA: expired *)
    | XAC h =>
      match c with
      | CA =>
        if acc (it s (fst h)) then
          match incRef maxRef (it s (fst h)) with
          | IncOk => Some (set_t (acRemove (set_it s (fst h) (w_ref (it s (fst h)) (S (ref (it s (fst h)))))) (fst h))
                                 i (XMM h (fst h, false)))
          | IncOverflow => Some (back (ev s EThrow) i h)
          | _ => Some (set_t (ev s (EBad (fst h))) i TIdle)
          end
        else Some (back s i h)
      | _ => Some (back s i h)
      end
    | XMM h h2 => Some (set_t (put_h (mmRemove s (fst h)) h) i (RDec h2 NDone))
    (* 3759-3776 release; 3560-3698 releaseBackToAllocator *)
    | RDec h n =>
      let s1 := decRef s (fst h) in
      if drained (it s1 (fst h)) then Some (set_t s1 i (RRel (fst h) (snd h) n))
      else Some (set_t s1 i (goNext n))
    | RRel a nas n =>
      if drained (it s a) then
        Some (set_t (if nas then s else ev s (EDtor a)) i (RFree a n))
      else Some (set_t (ev s (EBad a)) i TIdle)
    | RFree a n => Some (set_t (ev (set_it s a (w_free (it s a) false)) (EFree a)) i (goNext n))
    (* 5448-5454, 5480-5483: move if a move callback is set (CA), else evict *)
    | SGo old => match c with CA => Some (set_t s i (AStart (KMove old))) | _ => Some (set_t s i (SEv old)) end
    (* 3996-4052 moveRegularItem.  CB: expired *)
    | SMM old n =>
      match c with
      | CA =>
        if lnk (it s n) then Some (set_t (ev s (EBad n)) i TIdle)
        else Some (set_t (mmAdd s n) i (SRep old n))
      | _ => Some (set_t s i (RDec (n, true) (NEv old)))
      end
    (* ChainedHashTable.h:1219-1245 replaceIfAccessible, under the bucket lock *)
    | SRep old n =>
      if acc (it s old) then
        let s1 := set_it s old (w_acc (it s old) false) in
        let s2 := set_idx (set_it s1 n (w_acc (it s1 n) true)) (ikey n) (Some n) in
        let s3 := ev s2 (EMoved old n) in
        let s4 := match idx s (ikey n) with
                  | Some b => if ideq old b then s3 else ev s3 (EBad old)
                  | None => ev s3 (EBad old)
                  end in
        Some (set_t s4 i (SOld old n))
      else Some (set_t s i (SRm old n))
    | SRm old n => Some (set_t (mmRemove s n) i (RDec (n, true) (NEv old)))
    (* 5510 *)
    | SOld old n => Some (set_t (mmRemove s old) i (SUnm old n))
    (* 5471-5478 unmarkMovingAndWakeUpWaiters; 3979-3993 wakeUpWaiters *)
    | SUnm old n =>
      Some (set_t (set_it s old (w_exc (w_ref (it s old) (ref (it s old) - 1)) false)) i (SWake old n))
    | SWake old n =>
      let (l, r) := wakeAll maxRef (ikey old) n (ref (it s n)) false (thr s) in
      let s1 := mkState (updf (it s) n (w_ref (it s n) r)) (nexti s) (idx s) (mm s) (hs s) l (tr s) in
      Some (set_t s1 i (RDec (n, false) (NFree old)))
    (* 5545 *)
    | SFree old => Some (set_t (ev (set_it s old (w_free (it s old) true)) (EFree old)) i TIdle)
    (* 5586-5638 evictForSlabRelease; Refcount.h:415-427 markForEvictionWhenMoving *)
    | SEv old => Some (set_t (set_it s old (w_ref (it s old) (ref (it s old) - 1))) i (SEvAC old))
    | SEvAC old => Some (set_t (acRemove s old) i (SEvMM old))
    | SEvMM old => Some (set_t (mmRemove s old) i (SEvUnm old))
    | SEvUnm old => Some (set_t (set_it s old (w_exc (it s old) false)) i (SEvWake old))
    | SEvWake old =>
      let s1 := mkState (it s) (nexti s) (idx s) (mm s) (hs s) (map (wakeNull (ikey old)) (thr s)) (tr s) in
      Some (set_t s1 i (SEvRel old))
    | SEvRel old =>
      if drained (it s old) then Some (set_t (ev s (EDtor old)) i (SEvFree old))
      else Some (set_t (ev s (EBad old)) i TIdle)
    | SEvFree old => Some (set_t (ev (set_it s old (w_free (it s old) false)) (EFree old)) i TIdle)
    end.

  (** The calls a thread may make when it is idle.  [n] selects one of the users' handles. *)
  Inductive call :=
  | CAlloc (k : nat) | CFind (k : nat) | CRemoveKey (k : nat)
  | CInsert (n : nat) | CInsertOrReplace (n : nat) | CRemove (n : nat) | CExpire (n : nat)
  | CRelease (n : nat) | CClone (n : nat) | CMove (a : id).

  Definition take (l : list hdl) (n : nat) : option (hdl * list hdl) :=
    match nth_error l n with
    | Some h => Some (h, firstn n l ++ skipn (S n) l)
    | None => None
    end.
  Definition set_hs (s : state) (l : list hdl) : state :=
    mkState (it s) (nexti s) (idx s) (mm s) l (thr s) (tr s).

  (** Items some thread is in the middle of inserting. *)
  Definition inserting (t : tst) (a : id) : bool :=
    match t with
    | InChk h | InMM h | InPre h | InAC h | InRm h
    | OrChk h | OrMM h | OrPre h | OrAC h | OrFail h => ideq (fst h) a
    | SMM _ n | SRep _ n | SRm _ n => ideq n a
    | _ => false
    end.

  Definition start (s : state) (i : nat) (c : call) : option state :=
    match c with
    | CAlloc k => Some (set_t s i (AStart (KUser k)))
    | CFind k => Some (set_t s i (FFind WFind k))
    | CRemoveKey k => Some (set_t s i (FFind WRem k))
    | CInsert n =>
      match take (hs s) n with
      | Some (h, l) =>
        if strict && existsb (fun t => inserting t (fst h)) (thr s) then None
        else Some (set_t (set_hs s l) i (InChk h))
      | None => None
      end
    | CInsertOrReplace n =>
      match take (hs s) n with
      | Some (h, l) =>
        if strict && existsb (fun t => inserting t (fst h)) (thr s) then None
        else Some (set_t (set_hs s l) i (OrChk h))
      | None => None
      end
    | CRemove n =>
      match take (hs s) n with
      | Some (h, l) => Some (set_t (set_hs s l) i (RmAC h RUser))
      | None => None
      end
    | CExpire n =>
      match take (hs s) n with
      | Some (h, l) => Some (set_t (set_hs s l) i (XAC h))
      | None => None
      end
    | CRelease n =>
      match take (hs s) n with
      | Some (h, l) => Some (set_t (set_hs s l) i (RDec h NDone))
      | None => None
      end
    (* Handle.h:254-271 clone: acquire and copy the flags *)
    | CClone n =>
      match nth_error (hs s) n with
      | Some h =>
        if strict && snd h then None
        else if negb (alive (it s (fst h))) then Some (ev s (EUAF (fst h)))
        else match incRef maxRef (it s (fst h)) with
             | IncOk => Some (put_h (set_it s (fst h) (w_ref (it s (fst h)) (S (ref (it s (fst h)))))) h)
             | IncOverflow => Some (ev s EThrow)
             | _ => Some (ev s (EBad (fst h)))
             end
      | None => None
      end
    (* 5660-5720 markMovingForSlabRelease: the callback runs only on an allocation that is not
       free, and marks it under the container lock *)
    | CMove a =>
      if alive (it s a) && lnk (it s a) && negb (exc (it s a)) && (ref (it s a) =? 0) then
        Some (set_t (set_it s a (w_exc (w_ref (it s a) 1) true)) i (SGo a))
      else None
    end.

  Inductive label := LCall (i : nat) (c : call) | LStep (i : nat) (c : choice).

  Definition step (s : state) (l : label) : option state :=
    match l with
    | LCall i c =>
      match nth_error (thr s) i with
      | Some TIdle => start s i c
      | _ => None
      end
    | LStep i c =>
      match nth_error (thr s) i with
      | Some t =>
        match find (fun a => negb (alive (it s a))) (touch t ++ touchIdx s t) with
        | Some a => Some (set_t (ev s (EUAF a)) i TIdle)
        | None => run s i t c
        end
      | None => None
      end
    end.

  (** States reachable from an empty cache with any number of threads. *)
  Inductive reach : state -> Prop :=
  | reach_init : forall n, reach (init n)
  | reach_step : forall s l s', reach s -> step s l = Some s' -> reach s'.

  Fixpoint exec (s : state) (ls : list label) : option state :=
    match ls with
    | [] => Some s
    | l :: r => match step s l with Some s' => exec s' r | None => None end
    end.
End Step.
