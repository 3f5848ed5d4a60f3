(** * Allocation class: carving slabs into fixed-size allocations, and slab release.
    Models /repo/cachelib/allocator/memory/AllocationClass.{h,cpp} and the slab header fields of
    /repo/cachelib/allocator/memory/Slab.h.

    Threads interleave at the granularity of the code's critical sections (one [lock_] section is
    one step); everything a thread does outside the lock on private data is folded into the
    preceding section.  An allocation is (slab number, byte offset in the slab).  The intrusive
    free list (SList, compressed pointers: C08) is a list of allocations, head first.  Folly's
    lock, ASAN poisoning and statistics are not modelled.  [None] as a result of a section is a
    thrown exception or undefined behaviour.  currOffset_ is not wrapped: it stays <= 4 MiB. *)
From Verif Require Import Bytes Compress_model.

Definition fupd {X} (f : nat -> X) (s : nat) (x : X) : nat -> X := fun t => if t =? s then x else f t.

Definition alloc := (nat * N)%type.

(** Slab.h:141-262 SlabHeader.  [None] is kInvalidPoolId / kInvalidClassId. *)
Record hdr := mkHdr { hPool : option nat; hClass : option nat; hMark : bool; hAdv : bool; hSize : N }.
Definition hdrs := nat -> hdr.
(** Slab.h SlabHeader::setMarkedForRelease / assignToClass / clearClassAndUnmark /
    restoreClassAndUnmark. *)
Definition setMark (b : bool) (x : hdr) : hdr := mkHdr (hPool x) (hClass x) b (hAdv x) (hSize x).
Definition assignToClass (c : option nat) (sz : N) (x : hdr) : hdr := mkHdr (hPool x) c (hMark x) (hAdv x) sz.
Definition clearClassAndUnmark (x : hdr) : hdr := mkHdr (hPool x) None false (hAdv x) 0.
Definition restoreClassAndUnmark (c : nat) (sz : N) (x : hdr) : hdr := mkHdr (hPool x) (Some c) false (hAdv x) sz.

(** AllocationClass.h: poolId_, classId_, allocationSize_. *)
Record acfg := mkCfg { cPool : nat; cId : nat; cSize : N }.
(** AllocationClass.h getAllocsPerSlab. *)
Definition perSlab (c : acfg) : nat := N.to_nat (kSlabSize / cSize c).
(** AllocationClass.cpp:373-380 getAllocIdx; 366-371 getAllocForIdx. *)
Definition allocIdx (c : acfg) (a : alloc) : nat := N.to_nat (snd a / cSize c).
Definition allocForIdx (c : acfg) (s i : nat) : alloc := (s, (N.of_nat i * cSize c)%N).

(** AllocationClass.h:395-470 data members. *)
Record ac := mkAc {
  curS : option nat;               (* currSlab_ *)
  curOff : N;                      (* currOffset_ *)
  allocd : list nat;               (* allocatedSlabs_ *)
  freeS : list nat;                (* freeSlabs_ *)
  freed : list alloc;              (* freedAllocations_ *)
  canA : bool;                     (* canAllocate_ *)
  relMap : nat -> option (list bool);  (* slabReleaseAllocMap_ *)
  nActive : Z                      (* activeReleases_ *)
}.
Definition initAc : ac := mkAc None 0 [] [] [] true (fun _ => None) 0.

(** AllocationClass.cpp:193-196. *)
Definition canCarve (c : acfg) (a : ac) : bool :=
  match curS a with Some _ => (curOff a + cSize c <=? kSlabSize)%N | None => false end.
(** AllocationClass.cpp:185-191 allocateFromCurrentSlabLocked. *)
Definition carve (c : acfg) (a : ac) : ac * option alloc :=
  match curS a with
  | Some s => (mkAc (Some s) (curOff a + cSize c) (allocd a) (freeS a) (freed a) (canA a) (relMap a) (nActive a), Some (s, curOff a))
  | None => (a, None)
  end.
(** AllocationClass.cpp:237-244 setupCurrentSlabLocked: freeSlabs_.back() becomes current. *)
Definition setupCurrent (a : ac) : ac :=
  match rev (freeS a) with
  | s :: _ => mkAc (Some s) 0 (allocd a ++ [s]) (removelast (freeS a)) (freed a) (canA a) (relMap a) (nActive a)
  | [] => a
  end.
(** AllocationClass.cpp:205-235 allocateLocked. *)
Definition allocateLocked (c : acfg) (a : ac) : ac * option alloc :=
  match freed a with
  | m :: r => (mkAc (curS a) (curOff a) (allocd a) (freeS a) r (canA a) (relMap a) (nActive a), Some m)
  | [] =>
    if canCarve c a then carve c a
    else match freeS a with
         | [] => (mkAc (curS a) (curOff a) (allocd a) (freeS a) (freed a) false (relMap a) (nActive a), None)
         | _ :: _ => carve c (setupCurrent a)
         end
  end.
(** AllocationClass.cpp:165-170 addSlabLocked. *)
Definition addSlabLocked (c : acfg) (a : ac) (h : hdrs) (s : nat) : ac * hdrs :=
  (mkAc (curS a) (curOff a) (allocd a) (freeS a ++ [s]) (freed a) true (relMap a) (nActive a),
   fupd h s (assignToClass (Some (cId c)) (cSize c) (h s))).

(** [*it = back(); pop_back()] for the first occurrence. *)
Fixpoint replaceFirst (s x : nat) (l : list nat) : list nat :=
  match l with [] => [] | y :: r => if y =? s then x :: r else y :: replaceFirst s x r end.
Definition swapRemove (s : nat) (l : list nat) : list nat :=
  match rev l with [] => [] | z :: _ => removelast (replaceFirst s z l) end.

(** vector<bool> element assignment; out of range is undefined behaviour. *)
Fixpoint setTrue (v : list bool) (i : nat) : option (list bool) :=
  match v, i with
  | [], _ => None
  | _ :: r, 0 => Some (true :: r)
  | b :: r, S j => let* r' := setTrue r j in Some (b :: r')
  end.

(** AllocationClass.cpp:257-336, first section of startSlabRelease for the chosen slab [s] (the
    hint, or getSlabForReleaseLocked's choice, 246-255, which is some slab of the class). *)
Inductive startRes :=
| SThrow                            (* invalid argument, nothing changed *)
| SFatal                            (* runtime_error "not present in the free list or allocated list" / map insert failed *)
| SReleased (a : ac) (h : hdrs)     (* free slab: released at once *)
| SMarked (a : ac) (h : hdrs).      (* marked; pruning follows *)
(** the tail of the vector from position k set to true (332-337). *)
Definition markTail (k : nat) (v : list bool) : list bool :=
  firstn k v ++ repeat true (length v - k).
Definition startRelease (c : acfg) (a : ac) (h : hdrs) (s : nat) : startRes :=
  let x := h s in
  if negb (match hClass x with Some k => k =? cId c | None => false end) ||
     negb (match hPool x with Some k => k =? cPool c | None => false end) || hMark x then SThrow
  else if existsb (Nat.eqb s) (freeS a) then
    SReleased (mkAc (curS a) (curOff a) (allocd a) (swapRemove s (freeS a)) (freed a) (canA a) (relMap a) (nActive a))
              (fupd h s (assignToClass None 0 x))
  else match relMap a s with
       | Some _ => SFatal
       | None =>
         if existsb (Nat.eqb s) (allocd a) then
           let v0 := repeat false (perSlab c) in
           let isCur := match curS a with Some k => k =? s | None => false end in
           let v := if isCur then markTail (N.to_nat (curOff a / cSize c)) v0 else v0 in
           SMarked (mkAc (if isCur then None else curS a) (if isCur then 0%N else curOff a)
                      (swapRemove s (allocd a)) (freeS a) (freed a) (canA a) (fupd (relMap a) s (Some v)) (nActive a))
                   (fupd h s (setMark true x))
         else SFatal
       end.

(** AllocationClass.h kFreeAllocsPruneLimit. *)
Definition kPruneLimit : nat := N.to_nat 4096.
(** AllocationClass.cpp:382-395 partitionFreeAllocs: (freeAllocs, inSlab, notInSlab). *)
Fixpoint partitionFree (n : nat) (s : nat) (fr ins nots : list alloc) : list alloc * list alloc * list alloc :=
  match n, fr with
  | S m, x :: r => if fst x =? s then partitionFree m s r (x :: ins) nots else partitionFree m s r ins (x :: nots)
  | _, _ => (fr, ins, nots)
  end.
(** AllocationClass.cpp:413-423: take the free list offline, partition the first batch. *)
Definition pruneSwap (a : ac) (s : nat) : ac * (list alloc * list alloc * list alloc) :=
  (mkAc (curS a) (curOff a) (allocd a) (freeS a) [] (canA a) (relMap a) (nActive a),
   partitionFree kPruneLimit s (freed a) [] []).
(** AllocationClass.cpp:439-449: mark the allocations found in the slab. *)
Fixpoint markIn (c : acfg) (v : list bool) (ins : list alloc) : option (list bool) :=
  match ins with [] => Some v | x :: r => let* v' := setTrue v (allocIdx c x) in markIn c v' r end.
(** AllocationClass.cpp:431-450: one batch under the lock. *)
Definition pruneMerge (c : acfg) (a : ac) (s : nat) (ins nots : list alloc) : option ac :=
  let* v := relMap a s in
  let* v' := markIn c v ins in
  Some (mkAc (curS a) (curOff a) (allocd a) (freeS a) (nots ++ freed a)
          (match nots with [] => canA a | _ => true end) (fupd (relMap a) s (Some v')) (nActive a)).
(** AllocationClass.cpp:474-482: abort while pruning, everything spliced back.  canAllocate_ is not
    touched here. *)
Definition pruneAbort (a : ac) (fr ins nots : list alloc) : ac :=
  mkAc (curS a) (curOff a) (allocd a) (freeS a) ((ins ++ nots ++ fr) ++ freed a) (canA a) (relMap a) (nActive a).
(** AllocationClass.cpp:489-502: allocations whose bit is not set. *)
Fixpoint activeFrom (c : acfg) (s i : nat) (v : list bool) : list alloc :=
  match v with
  | [] => []
  | b :: r => (if b then [] else [allocForIdx c s i]) ++ activeFrom c s (S i) r
  end.
(** AllocationClass.cpp:535-552 restoreFreedAllocsLocked. *)
Fixpoint restoreFrom (c : acfg) (s i : nat) (v : list bool) (fl : list alloc) : list alloc :=
  match v with
  | [] => fl
  | b :: r => restoreFrom c s (S i) r (if b then allocForIdx c s i :: fl else fl)
  end.
Definition restoreFreed (c : acfg) (a : ac) (s : nat) : option ac :=
  let* v := relMap a s in
  Some (mkAc (curS a) (curOff a) (allocd a) (freeS a) (restoreFrom c s 0 v (freed a))
          (if existsb (fun b => b) v then true else canA a) (relMap a) (nActive a)).
(** AllocationClass.cpp:340-346 (abort in startSlabRelease). *)
Definition startAborted (c : acfg) (a : ac) (h : hdrs) (s : nat) : option (ac * hdrs) :=
  let* a1 := restoreFreed c a s in
  Some (mkAc (curS a1) (curOff a1) (allocd a1 ++ [s]) (freeS a1) (freed a1) (canA a1) (fupd (relMap a1) s None) (nActive a1),
        fupd h s (setMark false (h s))).
(** AllocationClass.cpp:352-363: last section of startSlabRelease. *)
Definition startFinish (c : acfg) (a : ac) (h : hdrs) (s : nat) (act : list alloc) : ac * hdrs :=
  match act with
  | [] => (mkAc (curS a) (curOff a) (allocd a) (freeS a) (freed a) (canA a) (fupd (relMap a) s None) (nActive a),
           fupd h s (clearClassAndUnmark (h s)))
  | _ => (mkAc (curS a) (curOff a) (allocd a) (freeS a) (freed a) (canA a) (relMap a) (nActive a + 1), h)
  end.
(** AllocationClass.cpp:554-570 abortSlabRelease. *)
Definition abortRelease (c : acfg) (a : ac) (h : hdrs) (s : nat) : option (ac * hdrs) :=
  let* a1 := restoreFreed c a s in
  Some (mkAc (curS a1) (curOff a1) (allocd a1 ++ [s]) (freeS a1) (freed a1) (canA a1) (fupd (relMap a1) s None) (nActive a1 - 1),
        fupd h s (restoreClassAndUnmark (cId c) (cSize c) (h s))).
(** AllocationClass.cpp:581-588: header check of completeSlabRelease ([false]: throws). *)
Definition completeCheck (c : acfg) (h : hdrs) (s : nat) : bool :=
  match hClass (h s) with Some k => k =? cId c | None => false end && hMark (h s).
(** AllocationClass.cpp:504-521 allFreed. *)
Definition allFreed (a : ac) (s : nat) : option bool :=
  let* v := relMap a s in Some (forallb (fun b => b) v).
(** AllocationClass.cpp:598-605: last section of completeSlabRelease. *)
Definition completeFinish (a : ac) (h : hdrs) (s : nat) : ac * hdrs :=
  (mkAc (curS a) (curOff a) (allocd a) (freeS a) (freed a) (canA a) (fupd (relMap a) s None) (nActive a - 1),
   fupd h s (clearClassAndUnmark (h s))).
(** AllocationClass.cpp:675-684: the unlocked header check of free() ([false]: throws). *)
Definition freeCheck (c : acfg) (h : hdrs) (m : alloc) : bool :=
  match hClass (h (fst m)) with Some k => k =? cId c | None => false end.
(** AllocationClass.cpp:687-714: the locked part of free(). *)
Definition freeLocked (c : acfg) (a : ac) (h : hdrs) (m : alloc) : option ac :=
  if hMark (h (fst m)) then
    let* v := relMap a (fst m) in
    match nth_error v (allocIdx c m) with
    | Some false =>
      let* v' := setTrue v (allocIdx c m) in
      Some (mkAc (curS a) (curOff a) (allocd a) (freeS a) (freed a) (canA a) (fupd (relMap a) (fst m) (Some v')) (nActive a))
    | _ => None
    end
  else Some (mkAc (curS a) (curOff a) (allocd a) (freeS a) (m :: freed a) true (relMap a) (nActive a)).
(** AllocationClass.cpp:608-661 checkSlabInRelease + isAllocFreed; the same test guards the callback of
    processAllocForRelease (663-673), which runs under the lock. *)
Definition isAllocFreed (c : acfg) (a : ac) (h : hdrs) (s : nat) (m : alloc) : option bool :=
  if freeCheck c h m && hMark (h (fst m)) && (fst m =? s) then
    let* v := relMap a (fst m) in nth_error v (allocIdx c m)
  else None.
(** AllocationClass.h:161-175 forEachAllocation's check under the lock. *)
Definition iterCheck (c : acfg) (h : hdrs) (s : nat) : bool :=
  match hClass (h s) with Some k => k =? cId c | None => false end &&
  match hPool (h s) with Some k => k =? cPool c | None => false end && negb (hAdv (h s)) && negb (hMark (h s)).

(** ** Threads *)
(** Where the thread holding startSlabReleaseLock_ is. *)
Inductive phase :=
| P0                                        (* marked, free list not yet taken offline *)
| P1 (fr ins nots : list alloc)             (* top of the do-while loop *)
| PA2                                       (* aborted, lists spliced back, slab not yet restored *)
| P3                                        (* pruned, active list not yet collected *)
| P4 (act : list alloc).                    (* collected, last section pending *)
Inductive slock := LkFree | LkPrune (s : nat) (p : phase) | LkIter (s : nat).
(** Progress of a context handed to the caller. *)
Inductive cphase := COpen | CWait | CFreed.
Record ctx := mkCtx { xSlab : nat; xAct : list alloc; xPh : cphase }.

(** The class and its callers.  [live] and [freeing] are ghost: allocations the callers own, and those
    being freed by a thread that passed the unlocked header check. *)
Record ast := mkAst {
  sAc : ac; sLk : slock; live : list alloc; freeing : list alloc; ctxs : list ctx }.
Definition initAst : ast := mkAst initAc LkFree [] [] [].

(** What callers observe. *)
Inductive label :=
| LTau
| LAlloc (r : option alloc)          (* allocate() / addSlabAndAllocate returned r *)
| LFreeCall (m : alloc)              (* free(m) called *)
| LFree (m : alloc)                  (* free(m)'s locked section: m is no longer owned by the caller *)
| LAddSlab (s : nat)
| LStart (s : nat)                   (* startSlabRelease chose s and marked it *)
| LPruneAbort (s : nat)              (* shouldAbortFn said yes *)
| LAborted (s : nat)                 (* startSlabRelease threw SlabReleaseAborted *)
| LCtx (s : nat) (act : list alloc)  (* startSlabRelease returned an unreleased context *)
| LReleased (s : nat)                (* startSlabRelease returned a released context *)
| LAbort (s : nat)                   (* abortSlabRelease *)
| LComplete (s : nat)                (* completeSlabRelease returned *)
| LProbe (s : nat) (m : alloc) (b : bool)  (* isAllocFreed / processAllocForRelease *)
| LIter (s : nat)                    (* forEachAllocation entered the slab *)
| LVisit (m : alloc)                 (* its callback is run on m *)
| LSaveRestore.

Definition setCtx (s : nat) (p : cphase) (l : list ctx) : list ctx :=
  map (fun x => if xSlab x =? s then mkCtx s (xAct x) p else x) l.
Definition dropCtx (s : nat) (l : list ctx) : list ctx := filter (fun x => negb (xSlab x =? s)) l.
Fixpoint remA (m : alloc) (l : list alloc) : list alloc :=
  match l with
  | [] => []
  | x :: r => if (fst x =? fst m) && (snd x =? snd m)%N then r else x :: remA m r
  end.

(** Slabs the class holds. *)
Definition owns (a : ac) (s : nat) : Prop := In s (allocd a) \/ In s (freeS a) \/ relMap a s <> None.

Definition isSome {X} (o : option X) : bool := match o with Some _ => true | None => false end.
Definition optL {X} (o : option X) : list X := match o with Some x => [x] | None => [] end.

(** One critical section of one thread.  Callers free only what they own, call abort or complete once
    per context, and (the pool) add only slabs of the pool that nobody holds. *)
Inductive astep (c : acfg) : ast * hdrs -> label -> ast * hdrs -> Prop :=
| StAllocFull t h : canA (sAc t) = false ->                  (* allocate(), 198-201 *)
    astep c (t, h) (LAlloc None) (t, h)
| StAlloc t h a' r : allocateLocked c (sAc t) = (a', r) ->
    astep c (t, h) (LAlloc r) (mkAst a' (sLk t) (optL r ++ live t) (freeing t) (ctxs t), h)
| StAddSlab t h s a' h' : ~ owns (sAc t) s -> hPool (h s) = Some (cPool c) -> hMark (h s) = false ->
    addSlabLocked c (sAc t) h s = (a', h') ->
    astep c (t, h) (LAddSlab s) (mkAst a' (sLk t) (live t) (freeing t) (ctxs t), h')
| StFreeCall t h m : In m (live t) -> freeCheck c h m = true ->
    astep c (t, h) (LFreeCall m) (mkAst (sAc t) (sLk t) (remA m (live t)) (m :: freeing t) (ctxs t), h)
| StFree t h m a' : In m (freeing t) -> freeLocked c (sAc t) h m = Some a' ->
    astep c (t, h) (LFree m) (mkAst a' (sLk t) (live t) (remA m (freeing t)) (ctxs t), h)
| StStartFree t h s a' h' : sLk t = LkFree -> startRelease c (sAc t) h s = SReleased a' h' ->
    astep c (t, h) (LReleased s) (mkAst a' LkFree (live t) (freeing t) (ctxs t), h')
| StStart t h s a' h' : sLk t = LkFree -> startRelease c (sAc t) h s = SMarked a' h' ->
    astep c (t, h) (LStart s) (mkAst a' (LkPrune s P0) (live t) (freeing t) (ctxs t), h')
| StSwap t h s a' fr ins nots : sLk t = LkPrune s P0 -> pruneSwap (sAc t) s = (a', (fr, ins, nots)) ->
    astep c (t, h) LTau (mkAst a' (LkPrune s (P1 fr ins nots)) (live t) (freeing t) (ctxs t), h)
| StMergeMore t h s fr ins nots a' x r fr' ins' nots' : sLk t = LkPrune s (P1 fr ins nots) ->
    pruneMerge c (sAc t) s ins nots = Some a' -> fr = x :: r ->
    partitionFree kPruneLimit s fr [] [] = (fr', ins', nots') ->
    astep c (t, h) LTau (mkAst a' (LkPrune s (P1 fr' ins' nots')) (live t) (freeing t) (ctxs t), h)
| StMergeLast t h s ins nots a' : sLk t = LkPrune s (P1 [] ins nots) ->
    pruneMerge c (sAc t) s ins nots = Some a' ->
    astep c (t, h) LTau (mkAst a' (LkPrune s P3) (live t) (freeing t) (ctxs t), h)
| StPruneAbort t h s fr ins nots : sLk t = LkPrune s (P1 fr ins nots) ->
    astep c (t, h) (LPruneAbort s)
      (mkAst (pruneAbort (sAc t) fr ins nots) (LkPrune s PA2) (live t) (freeing t) (ctxs t), h)
| StAborted t h s a' h' : sLk t = LkPrune s PA2 -> startAborted c (sAc t) h s = Some (a', h') ->
    astep c (t, h) (LAborted s) (mkAst a' LkFree (live t) (freeing t) (ctxs t), h')
| StCollect t h s v : sLk t = LkPrune s P3 -> relMap (sAc t) s = Some v ->
    astep c (t, h) LTau (mkAst (sAc t) (LkPrune s (P4 (activeFrom c s 0 v))) (live t) (freeing t) (ctxs t), h)
| StFinishReleased t h s a' h' : sLk t = LkPrune s (P4 []) -> startFinish c (sAc t) h s [] = (a', h') ->
    astep c (t, h) (LReleased s) (mkAst a' LkFree (live t) (freeing t) (ctxs t), h')
| StFinishCtx t h s x act a' h' : sLk t = LkPrune s (P4 (x :: act)) -> startFinish c (sAc t) h s (x :: act) = (a', h') ->
    astep c (t, h) (LCtx s (x :: act)) (mkAst a' LkFree (live t) (freeing t) (mkCtx s (x :: act) COpen :: ctxs t), h')
| StAbort t h s act a' h' : In (mkCtx s act COpen) (ctxs t) -> abortRelease c (sAc t) h s = Some (a', h') ->
    astep c (t, h) (LAbort s) (mkAst a' (sLk t) (live t) (freeing t) (dropCtx s (ctxs t)), h')
| StCheck t h s act : In (mkCtx s act COpen) (ctxs t) -> completeCheck c h s = true ->
    astep c (t, h) LTau (mkAst (sAc t) (sLk t) (live t) (freeing t) (setCtx s CWait (ctxs t)), h)
| StWait t h s act : In (mkCtx s act CWait) (ctxs t) -> allFreed (sAc t) s = Some true ->
    astep c (t, h) LTau (mkAst (sAc t) (sLk t) (live t) (freeing t) (setCtx s CFreed (ctxs t)), h)
| StComplete t h s act a' h' : In (mkCtx s act CFreed) (ctxs t) -> completeFinish (sAc t) h s = (a', h') ->
    astep c (t, h) (LComplete s) (mkAst a' (sLk t) (live t) (freeing t) (dropCtx s (ctxs t)), h')
| StProbe t h x m b : In x (ctxs t) -> In m (xAct x) -> isAllocFreed c (sAc t) h (xSlab x) m = Some b ->
    astep c (t, h) (LProbe (xSlab x) m b) (t, h)
| StIter t h s : sLk t = LkFree -> iterCheck c h s = true ->
    astep c (t, h) (LIter s) (mkAst (sAc t) (LkIter s) (live t) (freeing t) (ctxs t), h)
| StVisit t h s i : sLk t = LkIter s -> i < perSlab c ->
    astep c (t, h) (LVisit (allocForIdx c s i)) (t, h)
| StIterEnd t h s : sLk t = LkIter s ->
    astep c (t, h) LTau (mkAst (sAc t) LkFree (live t) (freeing t) (ctxs t), h)
(** AllocationClass.cpp:717-740 saveState and 108-163 the restoring constructor, when no call is in
    progress: every field but slabReleaseAllocMap_ and activeReleases_ is saved. *)
| StSaveRestore t h a : sLk t = LkFree -> freeing t = [] -> sAc t = a -> (nActive a <= 0)%Z ->
    astep c (t, h) LSaveRestore
      (mkAst (mkAc (curS a) (curOff a) (allocd a) (freeS a) (freed a) (canA a) (fun _ => None) 0) LkFree (live t) [] (ctxs t), h).

(** Headers of slabs the class does not hold change freely (other classes and pools), but only this
    class writes its own id into a header of its pool. *)
Definition envOk (c : acfg) (a : ac) (h h' : hdrs) : Prop :=
  (forall s, owns a s -> h' s = h s) /\
  (forall s, ~ owns a s -> ~ (hClass (h' s) = Some (cId c) /\ hPool (h' s) = Some (cPool c))).

Inductive arun (c : acfg) : ast * hdrs -> list label -> ast * hdrs -> Prop :=
| RunNil x : arun c x [] x
| RunStep x l y tr z : astep c x l y -> arun c y tr z -> arun c x (l :: tr) z
| RunEnv t h h' tr z : envOk c (sAc t) h h' -> arun c (t, h') tr z -> arun c (t, h) tr z.
