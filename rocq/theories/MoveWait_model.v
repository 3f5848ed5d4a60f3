(** * Lookups that wait for an item that is being moved.

    Models the table of waiters of moved items and the threads that use it:
    /repo/cachelib/allocator/CacheAllocator.h: MoveCtx (2456-2509), MoveMap (2508-2511),
    acquire (3719-3740), tryGetHandleWithWaitContextForMovingItem (3954-3976), wakeUpWaiters
    (3978-3993), moveRegularItem (3995-4054), moveForSlabRelease (5483-5559),
    evictForSlabRelease (5604-5645), markMovingForSlabRelease (5666-5720), and
    ChainedHashTable.h (find, insertOrReplace, replaceIf, remove, 1186-1307).

    The keys of the table are string views into the memory of items (MoveMap is keyed by
    folly::StringPiece and filled with item.getKey()), so items have addresses here, addresses are
    used again, and a key of the table is whatever its address holds when it is compared.

    Simplifications:
    - An item's memory is its key and its flags.  The data, the move
      callback and the chain of a parent are not modelled: a chained move is the marking and
      unmarking of the parent.  The eviction container is the mark "linked".
    - The reference count of an item is the number of handles to it (C16_refcount_exact), so it
      is computed here, not stored.  Overflow is not modelled (C16, C44).
    - A step is one region under the lock of a hash bucket or of a shard of the table, or one
      atomic change of flags.  The eviction of an item by an allocating thread is one step.
    - The hash table of waiters compares the key only with the slots its hashing makes it visit:
      [visits k k0] says that a search for [k] visits a slot filled for [k0].  Any relation
      that finds a key in its own slot is allowed.  Rehashing is not modelled. *)
From Coq Require Import List Arith Bool.
Import ListNotations.

(** An item's memory (CacheItem.h, Refcount.h).  [clive]: handed out by the allocator; [clnk]: in
    the eviction container; [cmov]: marked moving; [cexc]: marked for eviction. *)
Record cell := mkC { ckey : nat; clive : bool; clnk : bool; cmov : bool; cexc : bool }.
Definition blank : cell := mkC 0 false false false false.

(** Who waits: a lookup of a user, an insertOrReplace for the handle to the item it replaced
    (3900), or a moving thread for its second lookup (5534-5546). *)
Inductive who := WUser | WRep | WMover.

(** An entry of the table of waiters.  [eptr]: the item whose memory holds the key;
    [ekey]: the key it held when the entry was made, which decided the slot; [ews]: the waiters. *)
Record entry := mkE { eptr : nat; ekey : nat; ews : list (nat * who) }.

(** Where a slab-releasing thread is.
    [MReg a]: [a] is marked moving; [MUnm a n]: [n] replaced [a] in the index; [MWake a n]:
    [a] unmarked (5478); [MFree a]: waiters woken.
    [MEv], [MEvU], [MEvW]: evictForSlabRelease, before marking, before unlinking, before waking.
    [MChild p]: [p] marked for the move of one of its chained items; [MCUnm p]: the item is
    moved; [MCFind p k]: [p], of key [k], is unmarked (5530); [MCWait p k w]: waiting for the
    handle [w] of the second lookup; [MCWake p k v]: has it and is about to wake (5537, 5548). *)
Inductive mpc :=
| MReg (a : nat) | MUnm (a n : nat) | MWake (a n : nat) | MFree (a : nat)
| MEv (a : nat) | MEvU (a : nat) | MEvW (a : nat)
| MChild (p : nat) | MCUnm (p : nat) | MCFind (p k : nat) | MCWait (p k w : nat)
| MCWake (p k : nat) (v : option nat)
| MDone.

(** [EAsk w k]: lookup number [w], of key [k], starts.  [EAns w v]: it is answered: a miss, or
    the item at an address, with its key.  [EIns w k a]: an insertOrReplace has put item [a] in
    the place of another; lookup [w] is for the replaced one.  [EEvict k]: a slab release evicted
    an item of key [k]. *)
Inductive event :=
| EAsk (w k : nat) | EAns (w : nat) (v : option (nat * nat)) | EIns (w k a : nat) | EEvict (k : nat).

Record state := mkS {
  mem : nat -> cell;
  idx : nat -> option nat;          (* the access container *)
  tbl : list entry;                 (* movesMap_, all shards *)
  trys : list (nat * nat);          (* lookups (w, a) that found [a] moving and still hold the bucket lock *)
  mvs : list mpc;
  held : list (nat * nat);          (* handles of users: address, and key when it was got *)
  nw : nat;
  tr : list event                   (* newest first *)
}.

Definition init : state := mkS (fun _ => blank) (fun _ => None) [] [] [] [] 0 [].

Definition upd {A} (f : nat -> A) (i : nat) (v : A) : nat -> A := fun j => if i =? j then v else f j.
Fixpoint updl {A} (l : list A) (i : nat) (x : A) : list A :=
  match l, i with [], _ => [] | _ :: r, 0 => x :: r | y :: r, S j => y :: updl r j x end.
Fixpoint del {A} (l : list A) (i : nat) : list A :=
  match l, i with [], _ => [] | _ :: r, 0 => r | y :: r, S j => y :: del r j end.

Definition w_mem (s : state) a c := mkS (upd (mem s) a c) (idx s) (tbl s) (trys s) (mvs s) (held s) (nw s) (tr s).
Definition w_idx (s : state) k v := mkS (mem s) (upd (idx s) k v) (tbl s) (trys s) (mvs s) (held s) (nw s) (tr s).
Definition w_tbl (s : state) t := mkS (mem s) (idx s) t (trys s) (mvs s) (held s) (nw s) (tr s).
Definition w_trys (s : state) t := mkS (mem s) (idx s) (tbl s) t (mvs s) (held s) (nw s) (tr s).
Definition w_mvs (s : state) m := mkS (mem s) (idx s) (tbl s) (trys s) m (held s) (nw s) (tr s).
Definition w_held (s : state) h := mkS (mem s) (idx s) (tbl s) (trys s) (mvs s) h (nw s) (tr s).
Definition emit (s : state) e := mkS (mem s) (idx s) (tbl s) (trys s) (mvs s) (held s) (nw s) (e :: tr s).
(** A new lookup, of key [k]; its number is the old [nw]. *)
Definition ask (s : state) k := mkS (mem s) (idx s) (tbl s) (trys s) (mvs s) (held s) (S (nw s)) (EAsk (nw s) k :: tr s).

Definition c_lnk (c : cell) b := mkC (ckey c) (clive c) b (cmov c) (cexc c).
Definition c_mov (c : cell) b := mkC (ckey c) (clive c) (clnk c) b (cexc c).
Definition c_exc (c : cell) b := mkC (ckey c) (clive c) (clnk c) (cmov c) b.
Definition c_live (c : cell) b := mkC (ckey c) b (clnk c) (cmov c) (cexc c).

(** isAccessible. *)
Definition indexed (s : state) (a : nat) : bool :=
  match idx s (ckey (mem s a)) with Some b => b =? a | None => false end.
(** The lock of the bucket of [k] is held by a lookup: who wants to change the index has to wait
    (buckets hold one key here). *)
Definition locked (s : state) (k : nat) : bool := existsb (fun r => ckey (mem s (snd r)) =? k) (trys s).

(** getRefCount() > 0: somebody has a handle. *)
Definition mholds (a : nat) (m : mpc) : bool :=
  match m with MUnm _ n | MWake _ n => n =? a | MCWake _ _ (Some b) => b =? a | _ => false end.
Definition busy (s : state) (a : nat) : bool :=
  existsb (fun h => fst h =? a) (held s) || existsb (mholds a) (mvs s).

(** Lookup [w] gets its answer (Handle.h ItemWaitContext::set; C44).  A user gets a handle; an
    insertOrReplace takes what it got for the replaced item out of the eviction container when it
    runs next (3912-3916; here at once); a moving thread goes on. *)
Definition resume (w : nat) (v : option nat) (m : mpc) : mpc :=
  match m with MCWait p k w' => if w' =? w then MCWake p k v else m | _ => m end.
Definition answer (s : state) (w : nat) (o : who) (v : option nat) : state :=
  let s1 := emit s (EAns w (match v with Some a => Some (a, ckey (mem s a)) | None => None end)) in
  match o, v with
  | WMover, _ => w_mvs s1 (map (resume w v) (mvs s1))
  | WUser, Some a => w_held s1 ((a, ckey (mem s a)) :: held s1)
  | WRep, Some a => w_held (w_mem s1 a (c_lnk (mem s1 a) false)) ((a, ckey (mem s a)) :: held s1)
  | _, None => s1
  end.

(** Who frees: may a user's last release or an eviction free the memory of [a] now?  Always, in
    the code.  [pin] restricts to histories in which this does not happen between the
    unmarking of a parent whose chained item was moved and the wake-up after it. *)
Definition window (a : nat) (m : mpc) : bool :=
  match m with MCFind p _ | MCWait p _ _ | MCWake p _ _ => p =? a | _ => false end.
Definition pinned (pin : bool) (s : state) (a : nat) : bool := pin && existsb (window a) (mvs s).

(** A handle to [a] has been given up: if it was the last and the item is drained, its memory goes
    back (release, 3759-3776; Refcount.h:470 isDrained). *)
Definition unref (s : state) (a : nat) : state :=
  let c := mem s a in
  if negb (busy s a) && negb (clnk c) && negb (cmov c) && negb (cexc c) && negb (indexed s a)
  then w_mem s a (c_live c false) else s.

Section Step.
  Variable visits : nat -> nat -> bool.
  Variable pin : bool.

  (** A search for [k] ends at this entry (F14ValueMap: slots are visited by hash, keys compared). *)
  Definition hit (s : state) (k : nat) (e : entry) : bool :=
    visits k (ekey e) && (ckey (mem s (eptr e)) =? k).

  (** 3967-3970 try_emplace and addWaiter, for item [a]. *)
  Fixpoint addTo (s : state) (k : nat) (w : nat * who) (l : list entry) : option (list entry) :=
    match l with
    | [] => None
    | e :: r => if hit s k e then Some (mkE (eptr e) (ekey e) (ews e ++ [w]) :: r)
                else match addTo s k w r with Some r' => Some (e :: r') | None => None end
    end.
  Definition enqueue (s : state) (a : nat) (w : nat * who) : state :=
    let k := ckey (mem s a) in
    match addTo s k w (tbl s) with
    | Some t => w_tbl s t
    | None => w_tbl s (tbl s ++ [mkE a k [w]])
    end.

  (** 3984-3988 eraseInto. *)
  Fixpoint erase (s : state) (k : nat) (l : list entry) : list (nat * who) * list entry :=
    match l with
    | [] => ([], [])
    | e :: r => if hit s k e then (ews e, r) else let (ws, r') := erase s k r in (ws, e :: r')
    end.
  (** 3978-3993 wakeUpWaiters and 2483-2502. *)
  Definition answerAll (s : state) (ws : list (nat * who)) (v : option nat) : state :=
    fold_left (fun s w => answer s (fst w) (snd w) v) ws s.
  Definition wake (s : state) (k : nat) (v : option nat) : state :=
    answerAll (w_tbl s (snd (erase s k (tbl s)))) (fst (erase s k (tbl s))) v.

  (** acquire (3719-3740) of an item that is not moving. *)
  Definition acquired (s : state) (a : nat) : option nat := if cexc (mem s a) then None else Some a.

  (** What the moving thread is about: succeed, into free memory [n], or fail. *)
  Inductive choice := CTo (n : nat) | CFail.

  Definition go (s : state) (i : nat) (m : mpc) : option state := Some (w_mvs s (updl (mvs s) i m)).

  Definition moverStep (s : state) (i : nat) (m : mpc) (c : choice) : option state :=
    match m with
    (* 3995-4054: no move callback, no memory or expired (CFail); or replaceIfAccessible *)
    | MReg a =>
      let k := ckey (mem s a) in
      match c with
      | CFail => go s i (MEv a)
      | CTo n =>
        if clive (mem s n) || locked s k then None
        else if indexed s a
        then go (w_idx (w_mem s n (mkC k true true false false)) k (Some n)) i (MUnm a n)
        else go s i (MEv a)
      end
    (* 5516 removeFromMMContainer, 5478 unmarkMoving *)
    | MUnm a n => go (w_mem s a (c_lnk (c_mov (mem s a) false) false)) i (MWake a n)
    (* 5479, and the end of the handle to the new item *)
    | MWake a n =>
      let s1 := wake s (ckey (mem s a)) (Some n) in
      let s2 := w_mvs s1 (updl (mvs s1) i (MFree a)) in
      Some (unref s2 n)
    (* 5556; 5642-5644 *)
    | MFree a => go (w_mem s a (c_live (mem s a) false)) i MDone
    (* 5615 markForEvictionWhenMoving *)
    | MEv a => go (w_mem s a (c_exc (c_mov (mem s a) false) true)) i (MEvU a)
    (* 5618, 4107-4117 unlinkItemForEviction *)
    | MEvU a =>
      let k := ckey (mem s a) in
      if locked s k then None
      else let s1 := if indexed s a then w_idx s k None else s in
           go (emit (w_mem s1 a (c_lnk (c_exc (mem s1 a) false) false)) (EEvict k)) i (MEvW a)
    (* 5622 *)
    | MEvW a => go (wake s (ckey (mem s a)) None) i (MFree a)
    (* 4055-4089 moveChainedItem *)
    | MChild p => match c with CTo _ => go s i (MCUnm p) | CFail => go s i (MEv p) end
    (* 5523-5530: the key is copied, then the mark is cleared *)
    | MCUnm p => go (w_mem s p (c_mov (mem s p) false)) i (MCFind p (ckey (mem s p)))
    (* 5534 findInternal *)
    | MCFind p k =>
      match idx s k with
      | None => go s i (MCWake p k None)
      | Some a =>
        if cmov (mem s a) then go (enqueue (ask s k) a (nw s, WMover)) i (MCWait p k (nw s))
        else go s i (MCWake p k (acquired s a))
      end
    | MCWait p k w => None
    (* 5537, 5548 *)
    | MCWake p k v =>
      let s1 := wake s k v in
      let s2 := w_mvs s1 (updl (mvs s1) i MDone) in
      Some (match v with Some b => unref s2 b | None => s2 end)
    | MDone => None
    end.

  Inductive action :=
  | AInsert (k a : nat)   (* a new item of key k at free memory a: insertOrReplace *)
  | ALook (k : nat)       (* find, remove(key): the first attempt to take a reference *)
  | ATry (i : nat)        (* ... and, if the item was moving, the next one *)
  | ADrop (i : nat)       (* a user releases a handle *)
  | ARemove (i : nat)     (* a user removes the item it has a handle to *)
  | AEvict (a : nat)      (* an allocating thread evicts *)
  | AMove (a : nat)       (* a slab release marks an item *)
  | AMoveChild (p : nat)  (* ... or the parent of a chained item *)
  | AStep (i : nat) (c : choice).

  (** markMoving and markForEviction (Refcount.h:296-397): linked, not exclusive, no handle. *)
  Definition markable (s : state) (a : nat) : bool :=
    let c := mem s a in
    clive c && clnk c && negb (busy s a) && negb (cmov c) && negb (cexc c).

  Definition step (s : state) (x : action) : option state :=
    match x with
    (* 3881-3937; ChainedHashTable.h:1186-1220 *)
    | AInsert k a =>
      if clive (mem s a) || locked s k then None
      else
        let s1 := w_idx (w_held (w_mem s a (mkC k true true false false)) ((a, k) :: held s)) k (Some a) in
        match idx s k with
        | None => Some s1
        | Some o =>
          let s2 := emit (ask s1 k) (EIns (nw s) k a) in
          if cmov (mem s o) then Some (enqueue s2 o (nw s, WRep))
          else Some (answer s2 (nw s) WRep (acquired s o))
        end
    | ALook k =>
      let s1 := ask s k in
      match idx s k with
      | None => Some (answer s1 (nw s) WUser None)
      | Some a =>
        if cmov (mem s a) then Some (w_trys s1 ((nw s, a) :: trys s))
        else Some (answer s1 (nw s) WUser (acquired s a))
      end
    (* 3958-3975: isMoving is looked at again under the lock of the table; if it is gone
       acquire tries again *)
    | ATry i =>
      match nth_error (trys s) i with
      | None => None
      | Some (w, a) =>
        let s1 := w_trys s (del (trys s) i) in
        if cmov (mem s a) then Some (enqueue s1 a (w, WUser))
        else Some (answer s1 w WUser (acquired s a))
      end
    | ADrop i =>
      match nth_error (held s) i with
      | None => None
      | Some (a, _) =>
        if pinned pin s a then None
        else Some (unref (w_held s (del (held s) i)) a)
      end
    (* 4492-4540 *)
    | ARemove i =>
      match nth_error (held s) i with
      | None => None
      | Some (a, _) =>
        if locked s (ckey (mem s a)) then None
        else let s1 := if indexed s a then w_idx s (ckey (mem s a)) None else s in
             Some (w_mem s1 a (c_lnk (mem s1 a) false))
      end
    | AEvict a =>
      if markable s a && negb (locked s (ckey (mem s a))) && negb (pinned pin s a)
      then let s1 := if indexed s a then w_idx s (ckey (mem s a)) None else s in
           Some (w_mem s1 a (c_live (c_lnk (mem s1 a) false) false))
      else None
    (* 5699-5718 *)
    | AMove a => if markable s a then Some (w_mvs (w_mem s a (c_mov (mem s a) true)) (mvs s ++ [MReg a])) else None
    | AMoveChild p => if markable s p then Some (w_mvs (w_mem s p (c_mov (mem s p) true)) (mvs s ++ [MChild p])) else None
    | AStep i c =>
      match nth_error (mvs s) i with
      | Some m => moverStep s i m c
      | None => None
      end
    end.

  Fixpoint run (s : state) (l : list action) : option state :=
    match l with
    | [] => Some s
    | x :: r => match step s x with Some s' => run s' r | None => None end
    end.
End Step.
