(** * Flash regions: the region manager, the allocators, and their readers - all interleavings.

    Models navy/block_cache: Region.cpp/.h (all of it), RegionManager.cpp 58-533 (getCleanRegion,
    claimBufferFromPool, assignBufferToRegion, doFlush, doFlushInternal, flushBuffer, detachBuffer,
    cleanupBufferOnFlushFailure, releaseCleanedupRegion, doReclaim, releaseEvictedRegion,
    openForRead, close), RegionManager.h 186-195 (returnBufferToPool), Allocator.cpp 25-137
    (allocate, allocateWith, flushAndReleaseRegionFromRALocked, flush).

    Granularity: one step = one critical section of Region::lock_, cleanRegionsMutex_, bufferMutex_,
    the lock of the eviction policy or of the index, one atomic access of seqNumber_, one device
    operation.  A RegionAllocator's lock is held across the steps of [allocateWith].
    Waiting on a condition variable = the step is not possible yet.

    Simplifications:
      - the eviction policy is the collection of tracked regions; it may pick any (C31);
      - the index is a collection of entries (region, ghost generation of the region); it is
        filled by those who hold a write descriptor, emptied at any time by anybody; callbacks
        remove all entries of their region in one step;
      - the counters activeWriters_ etc. (uint32_t) are integers: a decrement below 0, which would
        wrap to 2^32-1, gives -1;
      - [XDCHECK]s are not assumed: a step whose check fails emits [EBad];
      - priorities, statistics, waiters, fibers, persistence (persist/recover/reset of the whole
        manager, which are single threaded) are left out;
      - [rid_] of a RegionAllocator is cleared when the flush starts rather than when it returns:
        its lock is held meanwhile. *)
From Coq Require Import List Arith Bool NArith ZArith.
Import ListNotations.

(** Region.h:306-321; [gen] is a ghost: the number of resets so far. *)
Record region := mkR {
  wr : Z; ph : Z; im : Z;
  block : bool; recl : bool; pend : bool; flushed : bool; cleaned : bool;
  lastEnd : N; items : nat; buf : option nat; gen : nat }.
Definition newRegion : region :=
  {| wr := 0; ph := 0; im := 0; block := false; recl := false; pend := false; flushed := false; cleaned := false;
     lastEnd := 0; items := 0; buf := None; gen := 0 |}.
Record rast := mkRa { locked : bool; rrid : option nat }.
Record cfg := mkCfg { regionSize : N; numClean : nat; retryLimit : nat; allowRead : bool }.

(** What a flush goes on with when it is done: nothing (a job of its own), the unlocking of the
    allocator (Allocator::flush), or the rest of allocateWith (worker without async flush). *)
Inductive kont := KNone | KUnlock (a : nat) | KGet (a : nat) (sz : N).
Inductive tst :=
| TDone
(* Allocator::allocate, by a writer *)
| WLock (a : nat) (sz : N) | WTry (a : nat) (sz : N) | WGet (a : nat) (sz : N)
| WBuf (a : nat) (sz : N) (r : nat) | WAttach (a : nat) (sz : N) (r b : nat) | WAlloc (a : nat) (sz : N) (r : nat)
| WBack (a r : nat) | WUnlock (a : nat)
| WHold (r b g : nat)              (* has a write descriptor and a view into buffer b *)
(* Allocator::flush *)
| LLock (a : nat) | LTry (a : nat)
(* doFlushInternal *)
| FLoop (r n : nat) (k : kont) | FWrite (r n : nat) (k : kont) | FDetach (r : nat) (k : kont)
| FRet (r b : nat) (k : kont) | FTrack (r : nat) (k : kont)
| CWait (r : nat) (k : kont) | CCb (r : nat) (k : kont) | CDetach (r : nat) (k : kont) | CRet (r b : nat) (k : kont)
| CSeq (r : nat) (k : kont) | CReset (r : nat) (k : kont) | CPush (r : nat) (k : kont)
(* doReclaim *)
| JEvict | JMark (r : nat) | JWait (r : nat) | JRead (r : nat) | JSeq (r : nat) | JBlock (r : nat) | JWaitR (r : nat)
| JReset (r : nat) | JPush (r : nat)
(* readers *)
| RSeq | RIdx (q : nat) | ROpen (r g q : nat) | RChk (r : nat) (p : bool) (g q : nat) | RHold (r : nat) (p : bool) (g : nat)
| RClose (r : nat) (p : bool).

Inductive event :=
| EBad                                 (* a check of the code fails *)
| EAlloc (r : nat) (off sz : N)        (* space handed to a writer *)
| EOpen (r : nat) | EReset (r : nat) | EFlushWrite (r : nat) | EDetach (r : nat)
| EGiveUp (r : nat)                    (* flush retries exhausted: buffer cleaned up *)
| EReadFail (r : nat)                  (* the region could not be read for reclaim *)
| ERead (r g : nat).                   (* a reader that looked up generation g reads the region *)

Record state := mkS {
  regs : list region; ras : list rast; clean : list nat; tracked : list nat; pool : list nat;
  index : list (nat * nat); seqn : nat; outst : nat; cleanEmpty : bool; thr : list tst }.

(** RegionManager.cpp:58-83, Allocator.cpp:34-49: all regions empty and tracked. *)
Definition init (nregs nras nbufs : nat) : state :=
  {| regs := repeat newRegion nregs; ras := repeat {| locked := false; rrid := None |} nras;
     clean := []; tracked := rev (seq 0 nregs); pool := seq 0 nbufs; index := []; seqn := 0; outst := 0;
     cleanEmpty := false; thr := [] |}.

Fixpoint upd {A} (l : list A) (i : nat) (x : A) : list A :=
  match l, i with
  | [], _ => []
  | _ :: r, O => x :: r
  | y :: r, S j => y :: upd r j x
  end.
Fixpoint del {A} (l : list A) (i : nat) : list A :=
  match l, i with
  | [], _ => []
  | _ :: r, O => r
  | y :: r, S j => y :: del r j
  end.
Definition setRegs s x := {| regs := x; ras := ras s; clean := clean s; tracked := tracked s; pool := pool s; index := index s; seqn := seqn s; outst := outst s; cleanEmpty := cleanEmpty s; thr := thr s |}.
Definition setRas s x := {| regs := regs s; ras := x; clean := clean s; tracked := tracked s; pool := pool s; index := index s; seqn := seqn s; outst := outst s; cleanEmpty := cleanEmpty s; thr := thr s |}.
Definition setClean s x := {| regs := regs s; ras := ras s; clean := x; tracked := tracked s; pool := pool s; index := index s; seqn := seqn s; outst := outst s; cleanEmpty := cleanEmpty s; thr := thr s |}.
Definition setTracked s x := {| regs := regs s; ras := ras s; clean := clean s; tracked := x; pool := pool s; index := index s; seqn := seqn s; outst := outst s; cleanEmpty := cleanEmpty s; thr := thr s |}.
Definition setPool s x := {| regs := regs s; ras := ras s; clean := clean s; tracked := tracked s; pool := x; index := index s; seqn := seqn s; outst := outst s; cleanEmpty := cleanEmpty s; thr := thr s |}.
Definition setIndex s x := {| regs := regs s; ras := ras s; clean := clean s; tracked := tracked s; pool := pool s; index := x; seqn := seqn s; outst := outst s; cleanEmpty := cleanEmpty s; thr := thr s |}.
Definition setSeq s x := {| regs := regs s; ras := ras s; clean := clean s; tracked := tracked s; pool := pool s; index := index s; seqn := x; outst := outst s; cleanEmpty := cleanEmpty s; thr := thr s |}.
Definition setOut s x := {| regs := regs s; ras := ras s; clean := clean s; tracked := tracked s; pool := pool s; index := index s; seqn := seqn s; outst := x; cleanEmpty := cleanEmpty s; thr := thr s |}.
Definition setCE s x := {| regs := regs s; ras := ras s; clean := clean s; tracked := tracked s; pool := pool s; index := index s; seqn := seqn s; outst := outst s; cleanEmpty := x; thr := thr s |}.
Definition setThr s x := {| regs := regs s; ras := ras s; clean := clean s; tracked := tracked s; pool := pool s; index := index s; seqn := seqn s; outst := outst s; cleanEmpty := cleanEmpty s; thr := x |}.
Definition setReg s r R := setRegs s (upd (regs s) r R).
Definition goto s i t := setThr s (upd (thr s) i t).
Definition spawnT s t := setThr s (thr s ++ [t]).

(** ** Region.cpp *)
Definition rMark (al : bool) (R : region) : region :=
  {| wr := wr R; ph := ph R; im := im R; block := if al then block R else true; recl := if al then true else recl R;
     pend := pend R; flushed := flushed R; cleaned := cleaned R; lastEnd := lastEnd R; items := items R; buf := buf R; gen := gen R |}.
Definition rBlock (R : region) : region :=
  {| wr := wr R; ph := ph R; im := im R; block := true; recl := recl R;
     pend := pend R; flushed := flushed R; cleaned := cleaned R; lastEnd := lastEnd R; items := items R; buf := buf R; gen := gen R |}.
Definition rPend (R : region) : region :=
  {| wr := wr R; ph := ph R; im := im R; block := block R; recl := recl R;
     pend := true; flushed := flushed R; cleaned := cleaned R; lastEnd := lastEnd R; items := items R; buf := buf R; gen := gen R |}.
Definition rFlushed (R : region) : region :=
  {| wr := wr R; ph := ph R; im := im R; block := block R; recl := recl R;
     pend := pend R; flushed := true; cleaned := cleaned R; lastEnd := lastEnd R; items := items R; buf := buf R; gen := gen R |}.
Definition rCleaned (R : region) : region :=
  {| wr := wr R; ph := ph R; im := im R; block := block R; recl := recl R;
     pend := pend R; flushed := flushed R; cleaned := true; lastEnd := lastEnd R; items := items R; buf := buf R; gen := gen R |}.
Definition rBuf (R : region) (b : option nat) : region :=
  {| wr := wr R; ph := ph R; im := im R; block := block R; recl := recl R;
     pend := pend R; flushed := flushed R; cleaned := cleaned R; lastEnd := lastEnd R; items := items R; buf := b; gen := gen R |}.
Definition rCnt (R : region) (w p m : Z) : region :=
  {| wr := w; ph := p; im := m; block := block R; recl := recl R;
     pend := pend R; flushed := flushed R; cleaned := cleaned R; lastEnd := lastEnd R; items := items R; buf := buf R; gen := gen R |}.
(** Region.cpp:142-153 reset *)
Definition rReset (R : region) : region :=
  {| wr := 0; ph := 0; im := 0; block := false; recl := false; pend := false; flushed := false; cleaned := false;
     lastEnd := 0; items := 0; buf := buf R; gen := S (gen R) |}.
(** Region.h:295-299 canAllocateLocked: a sum of two uint32_t *)
Definition canAllocate (c : cfg) (R : region) (sz : N) : bool := ((lastEnd R + sz) mod 2 ^ 32 <=? regionSize c)%N.
Definition rAlloc (R : region) (sz : N) : region :=
  {| wr := wr R + 1; ph := ph R; im := im R; block := block R; recl := recl R;
     pend := pend R; flushed := flushed R; cleaned := cleaned R; lastEnd := ((lastEnd R + sz) mod 2 ^ 32)%N; items := S (items R);
     buf := buf R; gen := gen R |}.
Definition bad (ok : bool) (e : list event) : list event := if ok then e else EBad :: e.
Definition isNil {A} (l : list A) : bool := match l with [] => true | _ => false end.
Definition isNone {A} (o : option A) : bool := match o with None => true | Some _ => false end.
(** Region.cpp:59-62 and Region.h:297: the checks of openAndAllocate *)
Definition openOk (R : region) : bool := negb (block R) && negb (recl R) && negb (pend R) && negb (flushed R).
Definition idle (R : region) : bool := (wr R + ph R + im R =? 0)%Z.
Definition noEntries (r : nat) (l : list (nat * nat)) : list (nat * nat) := filter (fun x => negb (Nat.eqb (fst x) r)) l.

Definition kontT (k : kont) : tst := match k with KNone => TDone | KUnlock a => WUnlock a | KGet a sz => WGet a sz end.
Definition setLock (s : state) (a : nat) (l : bool) (o : option nat) : state := setRas s (upd (ras s) a {| locked := l; rrid := o |}).

(** Allocator.cpp:83-86,117-121: openAndAllocate on region r for RA a, which is left unlocked. *)
Definition openAlloc (c : cfg) (s : state) (i a : nat) (sz : N) (r : nat) (R : region) : option (state * list event) :=
  match buf R with
  | None => Some (goto s i TDone, [EBad])
  | Some b =>
      Some (goto (setLock (setReg s r (rAlloc R sz)) a false (Some r)) i (WHold r b (gen R)),
            bad (openOk R) [EAlloc r (lastEnd R) sz])
  end.
(** Allocator.cpp:129-137, RegionManager.cpp:279-307: doFlush *)
Definition startFlush (s : state) (i a r : nat) (R : region) (t : tst) : state * list event :=
  (goto (setLock (setReg s r (rPend R)) a true None) i t, bad (negb (isNone (buf R)) && negb (pend R) && negb (flushed R)) []).
(** push to the clean list, RegionManager.cpp:183-191 *)
Definition pushClean (s : state) (r : nat) : state := setCE (setClean s (r :: clean s)) false.

(** One step of thread [i] in state [t].  [b], [k]: free choices. *)
Definition tstep (c : cfg) (s : state) (i : nat) (t : tst) (b : bool) (k : nat) : option (state * list event) :=
  match t with
  | TDone => None
  (* Allocator.cpp:76-137 *)
  | WLock a sz =>
      match nth_error (ras s) a with
      | Some x => if locked x then None else Some (goto (setLock s a true (rrid x)) i (WTry a sz), [])
      | None => None
      end
  | WTry a sz =>
      match nth_error (ras s) a with
      | Some x =>
          match rrid x with
          | None => Some (goto s i (WGet a sz), [])
          | Some r =>
              match nth_error (regs s) r with
              | Some R =>
                  if canAllocate c R sz then openAlloc c s i a sz r R
                  else
                    (* full: flush it, asynchronously or (worker, [b]) right here *)
                    if b then Some (startFlush s i a r R (FLoop r 0 (KGet a sz)))
                    else let (s1, e) := startFlush s i a r R (WGet a sz) in Some (spawnT s1 (FLoop r 0 KNone), e)
              | None => None
              end
          end
      | None => None
      end
  (* RegionManager.cpp:229-263 *)
  | WGet a sz =>
      if b && cleanEmpty s then Some (goto s i (WUnlock a), [])
      else
        let c1 := tl (clean s) in
        let s1 := setCE s (cleanEmpty s || (isNil c1 && Nat.ltb 0 (outst s))) in
        let planned := length c1 + outst s in
        let new := numClean c - planned in
        let s2 := setThr (setOut (setClean s1 c1) (outst s + new)) (upd (thr s) i (match clean s with r :: _ => WBuf a sz r | [] => WUnlock a end) ++ repeat JEvict new) in
        Some (s2, [])
  (* RegionManager.cpp:208-224 claimBufferFromPool *)
  | WBuf a sz r =>
      match pool s with
      | [] => Some (goto s i (WBack a r), [])
      | x :: p => Some (goto (setPool s p) i (WAttach a sz r x), [])
      end
  (* Region.h:156-160 attachBuffer *)
  | WAttach a sz r x =>
      match nth_error (regs s) r with
      | Some R => Some (goto (setReg s r (rBuf R (Some x))) i (WAlloc a sz r), bad (isNone (buf R)) [])
      | None => None
      end
  (* Allocator.cpp:111-122 *)
  | WAlloc a sz r =>
      match nth_error (ras s) a, nth_error (regs s) r with
      | Some x, Some R =>
          if isNone (rrid x) && canAllocate c R sz then openAlloc c s i a sz r R
          else Some (goto s i TDone, [EBad])
      | _, _ => None
      end
  (* RegionManager.cpp:267-275 *)
  | WBack a r => Some (goto (pushClean s r) i (WUnlock a), [])
  | WUnlock a =>
      match nth_error (ras s) a with
      | Some x => Some (goto (setLock s a false (rrid x)) i TDone, [])
      | None => None
      end
  (* the holder of a write descriptor adds index entries ([b] = false), then closes; Region.cpp:155-162 *)
  | WHold r x g =>
      if b then
        match nth_error (regs s) r with
        | Some R => Some (goto (setReg s r (rCnt R (wr R - 1) (ph R) (im R))) i TDone, bad (0 <? wr R)%Z [])
        | None => None
        end
      else Some (setIndex s ((r, g) :: index s), [])
  (* Allocator.cpp:139-146 *)
  | LLock a =>
      match nth_error (ras s) a with
      | Some x => if locked x then None else Some (goto (setLock s a true (rrid x)) i (LTry a), [])
      | None => None
      end
  | LTry a =>
      match nth_error (ras s) a with
      | Some x =>
          match rrid x with
          | None => Some (goto s i (WUnlock a), [])
          | Some r => match nth_error (regs s) r with
                      | Some R => Some (startFlush s i a r R (FLoop r 0 (KUnlock a)))
                      | None => None
                      end
          end
      | None => None
      end
  (* RegionManager.cpp:309-330, Region.cpp:104-121 flushBuffer *)
  | FLoop r n q =>
      if Nat.leb (retryLimit c) n then Some (goto s i (CWait r q), [])
      else
        match nth_error (regs s) r with
        | Some R =>
            if negb (wr R =? 0)%Z then Some (s, [])
            else if flushed R then Some (goto s i (FDetach r q), [])
            else Some (goto s i (FWrite r n q), bad (negb (isNone (buf R))) [EFlushWrite r])
        | None => None
        end
  | FWrite r n q =>
      match nth_error (regs s) r with
      | Some R => if b then Some (goto (setReg s r (rFlushed R)) i (FDetach r q), [])
                  else Some (goto s i (FLoop r (S n) q), [])
      | None => None
      end
  (* Region.cpp:87-98 detachBuffer *)
  | FDetach r q =>
      match nth_error (regs s) r with
      | Some R =>
          if negb (im R =? 0)%Z then None
          else match buf R with
               | None => Some (goto s i TDone, [EBad])
               | Some x => Some (goto (setReg s r (rBuf R None)) i (FRet r x q), bad (wr R =? 0)%Z [EDetach r])
               end
      | None => None
      end
  | FRet r x q => Some (goto (setPool s (x :: pool s)) i (FTrack r q), [])
  | FTrack r q => Some (goto (setTracked s (r :: tracked s)) i (kontT q), [])
  (* RegionManager.cpp:332-338, Region.cpp:123-134 cleanupBuffer; 173-191 releaseCleanedupRegion *)
  | CWait r q =>
      match nth_error (regs s) r with
      | Some R => if negb (wr R =? 0)%Z then None
                  else if cleaned R then Some (goto s i (CDetach r q), []) else Some (goto s i (CCb r q), [])
      | None => None
      end
  | CCb r q =>
      match nth_error (regs s) r with
      | Some R => Some (goto (setReg (setIndex s (noEntries r (index s))) r (rCleaned R)) i (CDetach r q), bad (negb (isNone (buf R))) [])
      | None => None
      end
  | CDetach r q =>
      match nth_error (regs s) r with
      | Some R =>
          if negb (im R =? 0)%Z then None
          else match buf R with
               | None => Some (goto s i TDone, [EBad])
               | Some x => Some (goto (setReg s r (rBuf R None)) i (CRet r x q), bad (wr R =? 0)%Z [EDetach r; EGiveUp r])
               end
      | None => None
      end
  | CRet r x q => Some (goto (setPool s (x :: pool s)) i (CSeq r q), [])
  | CSeq r q => Some (goto (setSeq s (S (seqn s))) i (CReset r q), [])
  | CReset r q =>
      match nth_error (regs s) r with
      | Some R => Some (goto (setReg s r (rReset R)) i (CPush r q), bad (idle R) [EReset r])
      | None => None
      end
  | CPush r q => Some (goto (pushClean s r) i (kontT q), [])
  (* RegionManager.cpp:362-403 *)
  | JEvict =>
      match nth_error (tracked s) k with
      | Some r => Some (goto (setTracked s (del (tracked s) k)) i (JMark r), [])
      | None => None
      end
  | JMark r =>
      match nth_error (regs s) r with
      | Some R => Some (goto (setReg s r (rMark (allowRead c) R)) i (JWait r), [])
      | None => None
      end
  | JWait r =>
      match nth_error (regs s) r with
      | Some R => if (if allowRead c then (wr R =? 0)%Z else idle R) then Some (goto s i (JRead r), []) else None
      | None => None
      end
  | JRead r =>
      match nth_error (regs s) r with
      | Some R =>
          if Nat.eqb (items R) 0 then Some (goto s i (JSeq r), [])
          else if b then Some (goto (setIndex s (noEntries r (index s))) i (JSeq r), bad (isNone (buf R)) [])
          else Some (goto s i (JSeq r), bad (isNone (buf R)) [EReadFail r])
      | None => None
      end
  (* RegionManager.cpp:466-500 releaseEvictedRegion *)
  | JSeq r => Some (goto (setSeq s (S (seqn s))) i (if allowRead c then JBlock r else JReset r), [])
  (* Region.cpp:37-44 waitForActiveReaders *)
  | JBlock r =>
      match nth_error (regs s) r with
      | Some R => Some (goto (setReg s r (rBlock R)) i (JWaitR r), [])
      | None => None
      end
  | JWaitR r =>
      match nth_error (regs s) r with
      | Some R => if ((im R =? 0) && (ph R =? 0))%Z then Some (goto s i (JReset r), []) else None
      | None => None
      end
  | JReset r =>
      match nth_error (regs s) r with
      | Some R => Some (goto (setReg s r (rReset R)) i (JPush r), bad (idle R) [EReset r])
      | None => None
      end
  | JPush r => Some (goto (pushClean (setOut s (outst s - 1)) r) i TDone, [])
  (* BlockCache.cpp:372-388: sequence number, index, open *)
  | RSeq => Some (goto s i (RIdx (seqn s)), [])
  | RIdx q =>
      match nth_error (index s) k with
      | Some (r, g) => Some (goto s i (ROpen r g q), [])
      | None => Some (goto s i TDone, [])
      end
  (* Region.cpp:68-85 *)
  | ROpen r g q =>
      match nth_error (regs s) r with
      | Some R =>
          if block R then Some (goto s i TDone, [])
          else if flushed R || isNone (buf R)
               then Some (goto (setReg s r (rCnt R (wr R) (ph R + 1) (im R))) i (RChk r true g q), [EOpen r])
               else Some (goto (setReg s r (rCnt R (wr R) (ph R) (im R + 1))) i (RChk r false g q), [EOpen r])
      | None => None
      end
  (* RegionManager.cpp:447-455 *)
  | RChk r p g q => Some (goto s i (if Nat.eqb (seqn s) q then RHold r p g else RClose r p), [])
  (* RegionManager.cpp:700-721 read *)
  | RHold r p g =>
      match nth_error (regs s) r with
      | Some R => Some (goto s i (RClose r p), bad (p || negb (isNone (buf R))) [ERead r g])
      | None => None
      end
  (* Region.cpp:163-176 *)
  | RClose r p =>
      match nth_error (regs s) r with
      | Some R =>
          if p then Some (goto (setReg s r (rCnt R (wr R) (ph R - 1) (im R))) i TDone, bad (0 <? ph R)%Z [])
          else Some (goto (setReg s r (rCnt R (wr R) (ph R) (im R - 1))) i TDone, bad (0 <? im R)%Z [])
      | None => None
      end
  end.

Inductive action :=
| AWrite (a : nat) (sz : N)       (* Allocator::allocate on allocator a *)
| AFlush (a : nat)                (* Allocator::flush reaches allocator a *)
| ALookup                         (* a reader starts *)
| AForget (k : nat)               (* an index entry is removed or replaced *)
| AThread (i : nat) (b : bool) (k : nat).
Definition step (c : cfg) (s : state) (a : action) : option (state * list event) :=
  match a with
  (* Allocator.cpp:53-57 *)
  | AWrite a sz => if (sz =? 0)%N || (regionSize c <? sz)%N then Some (s, []) else Some (spawnT s (WLock a sz), [])
  | AFlush a => Some (spawnT s (LLock a), [])
  | ALookup => Some (spawnT s RSeq, [])
  | AForget k => Some (setIndex s (del (index s) k), [])
  | AThread i b k => match nth_error (thr s) i with Some t => tstep c s i t b k | None => None end
  end.
Fixpoint run (c : cfg) (s : state) (l : list action) : option (state * list event) :=
  match l with
  | [] => Some (s, [])
  | a :: r => match step c s a with
              | Some (s1, e1) => match run c s1 r with Some (s2, e2) => Some (s2, e1 ++ e2) | None => None end
              | None => None
              end
  end.
