(** * Memory pools over one slab allocator.
    Models /repo/cachelib/allocator/memory/{MemoryPool.cpp,MemoryPool.h,SlabAllocator.cpp,
    MemoryPoolManager.cpp}, on top of AllocClass_model.

    Threads interleave at lock sections and single atomic accesses.  A thread holding a slab that is
    in no list, or owing a counter update, is a [tok]en.  Counters are unsigned 64-bit and wrap.
    Not modelled: pool names, statistics, zeroing, the memory locker, ASAN.  Slab numbers are indexes
    from slabMemoryStart_; the header of a slab beyond nextSlabAllocation_ is not readable in the code
    (getSlabHeader returns nullptr) and is "no pool" here. *)
From Verif Require Import Bytes Compress_model AllocClass_model.
Local Open Scope N_scope.

Definition w64 : N := 18446744073709551616.
Definition add64 (x y : N) : N := (x + y) mod w64.
Definition sub64 (x y : N) : N := (x + (w64 - y mod w64)) mod w64.

(** SlabAllocator.h: freeSlabs_, advisedSlabs_, nextSlabAllocation_, getSlabMemoryEnd(), canAllocate_. *)
Record slabAlloc := mkSA { saFree : list nat; saAdv : list nat; saNext : nat; saTot : nat; saCan : bool }.
(** SlabAllocator.cpp:394-420 makeNewSlabImpl. *)
Definition makeNew (s : slabAlloc) : slabAlloc * option nat :=
  if negb (saCan s) then (s, None)
  else match rev (saFree s) with
       | x :: _ => (mkSA (removelast (saFree s)) (saAdv s) (saNext s) (saTot s) (saCan s), Some x)
       | [] => if (saNext s =? saTot s)%nat then (mkSA (saFree s) (saAdv s) (saNext s) (saTot s) false, None)
               else (mkSA (saFree s) (saAdv s) (S (saNext s)) (saTot s) (saCan s), Some (saNext s))
       end.
(** Slab.h SlabHeader::initialize, resetAllocInfo, setAdvised. *)
Definition initHdr (p : nat) : hdr := mkHdr (Some p) None false false 0.
Definition resetHdr (x : hdr) : hdr := mkHdr None None (hMark x) (hAdv x) 0.
Definition advHdr (x : hdr) : hdr := mkHdr None None (hMark x) true 0.
(** SlabAllocator.cpp:442-456 freeSlab, 458-482 adviseSlab (success), 484-508 reclaimSlab. *)
Definition saFreeSlab (s : slabAlloc) (x : nat) : slabAlloc := mkSA (saFree s ++ [x]) (saAdv s) (saNext s) (saTot s) true.
Definition saAdvise (s : slabAlloc) (x : nat) : slabAlloc := mkSA (saFree s) (saAdv s ++ [x]) (saNext s) (saTot s) (saCan s).
Definition saReclaim (s : slabAlloc) : slabAlloc * option nat :=
  match rev (saAdv s) with
  | [] => (s, None)
  | x :: _ => (mkSA (saFree s) (removelast (saAdv s)) (saNext s) (saTot s) (saCan s), Some x)
  end.

(** MemoryPool.h:370-399: maxSize_, currSlabAllocSize_, freeSlabs_, curSlabsAdvised_. *)
Record pool := mkPool { pMax : N; pCur : N; pFree : list nat; pAdv : N }.
(** MemoryPool.h:87-89 getPoolAdvisedSize. *)
Definition advSize (adv : N) : N := (adv * kSlabSize) mod w64.
(** MemoryPool.h:129-132 allSlabsAllocated, given the two values read. *)
Definition allSlabsAllocated (pl : pool) (adv cur : N) : bool :=
  (pMax pl <? add64 (add64 cur (advSize adv)) kSlabSize).
(** MemoryPool.cpp:167-170 getCurrentUsedSize; MemoryPool.h:106-110 overLimit. *)
Definition usedSize (pl : pool) : N := add64 (pCur pl) ((N.of_nat (length (pFree pl)) * kSlabSize) mod w64).
Definition overLimit (pl : pool) : bool := pMax pl <? add64 (usedSize pl) (advSize (pAdv pl)).
Definition setCur (pl : pool) (x : N) : pool := mkPool (pMax pl) x (pFree pl) (pAdv pl).
Definition setFree (pl : pool) (x : list nat) : pool := mkPool (pMax pl) (pCur pl) x (pAdv pl).
Definition setAdv (pl : pool) (x : N) : pool := mkPool (pMax pl) (pCur pl) (pFree pl) x.
Definition setMax (pl : pool) (x : N) : pool := mkPool x (pCur pl) (pFree pl) (pAdv pl).

(** Slab.h SlabReleaseMode, with the receiver of a rebalance. *)
Inductive mode := MResize | MAdvise | MRebalance (recv : option nat).

(** Threads inside MemoryPool code. *)
Inductive tok :=
| KRead (p c : nat) (adv : N)   (* getSlabLocked (pool lock held): curSlabsAdvised_ read *)
| KTake (p c : nat)             (* limit check passed *)
| KTake2 (p c : nat)            (* currSlabAllocSize_ bumped *)
| KFail (p : nat)               (* no slab from the slab allocator; bump down pending *)
| KGot (p c s : nat)            (* slab obtained, to be added to class c *)
| KRel (p s : nat) (m : mode)   (* slab left its class; releaseSlab pending *)
| KDec (p : nat)                (* releaseSlab: currSlabAllocSize_ -= pending *)
| KAdv (p : nat)                (* slab advised; ++curSlabsAdvised_ pending *)
| KPush (p s : nat)             (* slab to be pushed on the pool's free list, then KDec *)
| KRecl (p s : nat).            (* reclaimed slab, push and --curSlabsAdvised_ pending *)

Record gst := mkG {
  gAc : nat -> nat -> ast;       (* classes, by pool and class id *)
  gH : hdrs;
  gPool : nat -> pool;
  gSA : slabAlloc;
  gTok : list tok }.

(** The configuration: number of pools and the sorted allocation sizes of each (acSizes_). *)
Record conf := mkConf { nPools : nat; sizesOf : nat -> list N }.
Definition cfgOf (k : conf) (p c : nat) : acfg := mkCfg p c (nth c (sizesOf k p) 0).
Definition isClass (k : conf) (p c : nat) : Prop := (p < nPools k)%nat /\ (c < length (sizesOf k p))%nat.

Definition updAc (f : nat -> nat -> ast) (p c : nat) (x : ast) : nat -> nat -> ast :=
  fun p' c' => if (p' =? p)%nat && (c' =? c)%nat then x else f p' c'.

(** Labels: a class action, or a pool action. *)
Inductive glabel :=
| GClass (p c : nat) (l : label)
| GTau
| GSetMax (p : nat) (v : N)            (* MemoryPool::resize *)
| GFreeListRelease (p : nat)           (* startSlabRelease(kInvalidClassId, _, kResize) *)
| GAdvised (p : nat) (racy : bool)     (* ++curSlabsAdvised_; racy: a thread is inside the limit check *)
| GNoSlab (p : nat)                    (* getSlabLocked returned null: limit, or no slab anywhere *)
| GReclaim (p : nat).

Definition reading (p : nat) (k : tok) : bool := match k with KRead q _ _ => (q =? p)%nat | _ => false end.
(** Is the pool lock held across steps? *)
Definition locking (p : nat) (k : tok) : bool :=
  match k with KRead q _ _ => (q =? p)%nat | KTake q _ => (q =? p)%nat | KTake2 q _ => (q =? p)%nat | KFail q => (q =? p)%nat | _ => false end.
Definition unlocked (p : nat) (l : list tok) : Prop := existsb (locking p) l = false.
(** Labels whose slab leaves the class. *)
Definition leaves (l : label) : option nat := match l with LReleased s => Some s | LComplete s => Some s | _ => None end.
Definition isAdd (l : label) : Prop := exists s, l = LAddSlab s.
Definition reclCount (p : nat) (l : list tok) : nat :=
  length (filter (fun k => match k with KRecl q _ => (q =? p)%nat | _ => false end) l).

(** One step of one thread; the token worked on is anywhere in the list. *)
Inductive gstep (k : conf) : gst -> glabel -> gst -> Prop :=
(** allocate / free / iteration / slab release inside one allocation class. *)
| GsClass f h pl sa tk p c l t' h' : isClass k p c -> astep (cfgOf k p c) (f p c, h) l (t', h') ->
    leaves l = None -> ~ isAdd l ->
    gstep k (mkG f h pl sa tk) (GClass p c l) (mkG (updAc f p c t') h' pl sa tk)
(** startSlabRelease / completeSlabRelease gave up the slab: MemoryPool.cpp:520-526 and 565 call releaseSlab. *)
| GsLeave f h pl sa tk p c l s m t' h' : isClass k p c -> astep (cfgOf k p c) (f p c, h) l (t', h') ->
    leaves l = Some s -> (forall r, m = MRebalance (Some r) -> isClass k p r) ->
    gstep k (mkG f h pl sa tk) (GClass p c l) (mkG (updAc f p c t') h' pl sa (KRel p s m :: tk))
(** getSlabLocked, MemoryPool.cpp:236-262: first read of the limit check. *)
| GsRead f h pl sa tk p c : isClass k p c -> unlocked p tk ->
    gstep k (mkG f h pl sa tk) GTau (mkG f h pl sa (KRead p c (pAdv (pl p)) :: tk))
| GsFull f h pl sa t1 t2 p c adv : allSlabsAllocated (pl p) adv (pCur (pl p)) = true ->
    gstep k (mkG f h pl sa (t1 ++ KRead p c adv :: t2)) (GNoSlab p) (mkG f h pl sa (t1 ++ t2))
| GsRoom f h pl sa t1 t2 p c adv : allSlabsAllocated (pl p) adv (pCur (pl p)) = false ->
    gstep k (mkG f h pl sa (t1 ++ KRead p c adv :: t2)) GTau (mkG f h pl sa (t1 ++ KTake p c :: t2))
| GsBump f h pl sa t1 t2 p c :
    gstep k (mkG f h pl sa (t1 ++ KTake p c :: t2)) GTau
      (mkG f h (fupd pl p (setCur (pl p) (add64 (pCur (pl p)) kSlabSize))) sa (t1 ++ KTake2 p c :: t2))
| GsPop f h pl sa t1 t2 p c s : hd_error (rev (pFree (pl p))) = Some s ->
    gstep k (mkG f h pl sa (t1 ++ KTake2 p c :: t2)) GTau
      (mkG f h (fupd pl p (setFree (pl p) (removelast (pFree (pl p))))) sa (t1 ++ KGot p c s :: t2))
(** SlabAllocator.cpp:430-440 makeNewSlab. *)
| GsNew f h pl sa t1 t2 p c sa' s : pFree (pl p) = [] -> makeNew sa = (sa', Some s) ->
    gstep k (mkG f h pl sa (t1 ++ KTake2 p c :: t2)) GTau
      (mkG f (fupd h s (initHdr p)) pl sa' (t1 ++ KGot p c s :: t2))
| GsNewFail f h pl sa t1 t2 p c sa' : pFree (pl p) = [] -> makeNew sa = (sa', None) ->
    gstep k (mkG f h pl sa (t1 ++ KTake2 p c :: t2)) GTau (mkG f h pl sa' (t1 ++ KFail p :: t2))
| GsUnbump f h pl sa t1 t2 p :
    gstep k (mkG f h pl sa (t1 ++ KFail p :: t2)) (GNoSlab p)
      (mkG f h (fupd pl p (setCur (pl p) (sub64 (pCur (pl p)) kSlabSize))) sa (t1 ++ t2))
(** addSlabAndAllocate (the allocation half is a class step) / addSlab in provision. *)
| GsAdd f h pl sa t1 t2 p c s t' h' : astep (cfgOf k p c) (f p c, h) (LAddSlab s) (t', h') ->
    gstep k (mkG f h pl sa (t1 ++ KGot p c s :: t2)) (GClass p c (LAddSlab s)) (mkG (updAc f p c t') h' pl sa (t1 ++ t2))
(** provision failed: MemoryPool.cpp:271-276 freeAllSlabs has the effect of a resize release. *)
| GsGiveBack f h pl sa t1 t2 p c s :
    gstep k (mkG f h pl sa (t1 ++ KGot p c s :: t2)) GTau (mkG f h pl sa (t1 ++ KRel p s MResize :: t2))
(** releaseSlab, MemoryPool.cpp:401-455. *)
| GsResize f h pl sa t1 t2 p s :
    gstep k (mkG f h pl sa (t1 ++ KRel p s MResize :: t2)) GTau
      (mkG f (fupd h s (resetHdr (h s))) pl (saFreeSlab sa s) (t1 ++ KDec p :: t2))
| GsAdviseOk f h pl sa t1 t2 p s :
    gstep k (mkG f h pl sa (t1 ++ KRel p s MAdvise :: t2)) GTau
      (mkG f (fupd h s (advHdr (h s))) pl (saAdvise sa s) (t1 ++ KAdv p :: t2))
| GsAdviseCount f h pl sa t1 t2 p :
    gstep k (mkG f h pl sa (t1 ++ KAdv p :: t2)) (GAdvised p (existsb (reading p) (t1 ++ t2)))
      (mkG f h (fupd pl p (setAdv (pl p) (add64 (pAdv (pl p)) 1))) sa (t1 ++ KDec p :: t2))
| GsAdviseFail f h pl sa t1 t2 p s :
    gstep k (mkG f h pl sa (t1 ++ KRel p s MAdvise :: t2)) GTau (mkG f h pl sa (t1 ++ KPush p s :: t2))
| GsRebalanceFree f h pl sa t1 t2 p s :
    gstep k (mkG f h pl sa (t1 ++ KRel p s (MRebalance None) :: t2)) GTau (mkG f h pl sa (t1 ++ KPush p s :: t2))
| GsRebalanceTo f h pl sa t1 t2 p s c t' h' : astep (cfgOf k p c) (f p c, h) (LAddSlab s) (t', h') ->
    gstep k (mkG f h pl sa (t1 ++ KRel p s (MRebalance (Some c)) :: t2)) (GClass p c (LAddSlab s))
      (mkG (updAc f p c t') h' pl sa (t1 ++ t2))
| GsPush f h pl sa t1 t2 p s : unlocked p (t1 ++ t2) ->
    gstep k (mkG f h pl sa (t1 ++ KPush p s :: t2)) GTau
      (mkG f h (fupd pl p (setFree (pl p) (pFree (pl p) ++ [s]))) sa (t1 ++ KDec p :: t2))
| GsDec f h pl sa t1 t2 p :
    gstep k (mkG f h pl sa (t1 ++ KDec p :: t2)) GTau
      (mkG f h (fupd pl p (setCur (pl p) (sub64 (pCur (pl p)) kSlabSize))) sa (t1 ++ t2))
(** releaseFromFreeSlabs, MemoryPool.cpp:474-485 (then releaseSlab(kResize)). *)
| GsFreeList f h pl sa tk p s : (p < nPools k)%nat -> unlocked p tk -> hd_error (rev (pFree (pl p))) = Some s ->
    gstep k (mkG f h pl sa tk) (GFreeListRelease p)
      (mkG f h (fupd pl p (setFree (pl p) (removelast (pFree (pl p))))) sa (KRel p s MResize :: tk))
(** reclaimSlabsAndGrow, MemoryPool.cpp:457-472; callers reclaim at most what the pool has advised
    (MemoryPoolManager::calcNumSlabsToAdviseReclaim). *)
| GsReclaim f h pl sa tk p sa' s : (p < nPools k)%nat -> N.of_nat (reclCount p tk) < pAdv (pl p) -> saReclaim sa = (sa', Some s) ->
    gstep k (mkG f h pl sa tk) (GReclaim p) (mkG f (fupd h s (initHdr p)) pl sa' (KRecl p s :: tk))
| GsReclaimPush f h pl sa t1 t2 p s : unlocked p (t1 ++ t2) ->
    gstep k (mkG f h pl sa (t1 ++ KRecl p s :: t2)) GTau
      (mkG f h (fupd pl p (setAdv (setFree (pl p) (pFree (pl p) ++ [s])) (sub64 (pAdv (pl p)) 1))) sa (t1 ++ t2))
(** MemoryPool.h:174 resize. *)
| GsSetMax f h pl sa tk p v : (p < nPools k)%nat ->
    gstep k (mkG f h pl sa tk) (GSetMax p v) (mkG f h (fupd pl p (setMax (pl p) v)) sa tk).

Inductive grun (k : conf) : gst -> list glabel -> gst -> Prop :=
| GrNil x : grun k x [] x
| GrStep x l y tr z : gstep k x l y -> grun k y tr z -> grun k x (l :: tr) z.

(** A new allocator with [tot] slabs. *)
Definition initG (mx : nat -> N) (tot : nat) : gst :=
  mkG (fun _ _ => initAst) (fun _ => mkHdr None None false false 0) (fun p => mkPool (mx p) 0 [] 0) (mkSA [] [] 0 tot true) [].

(** ** MemoryPoolManager.cpp: sizes of the pools, in creation order.  The whole body runs under lock_;
    sums do not wrap because they stay below the total. *)
Record mgr := mkMgr { mSizes : list N; mTotal : N }.
Definition sumN (l : list N) : N := fold_right N.add 0 l.
(** 87-98 getRemainingSizeLocked. *)
Definition remaining (m : mgr) : N := mTotal m - sumN (mSizes m).
Fixpoint setNth (l : list N) (i : nat) (x : N) : list N :=
  match l, i with [], _ => [] | _ :: r, O => x :: r | y :: r, S j => y :: setNth r j x end.
Definition kMaxPools : nat := 64.
(** 100-130 createNewPool (names aside): the new pool's id. *)
Definition createPool (m : mgr) (sz : N) : option (mgr * nat) :=
  if (length (mSizes m) =? kMaxPools)%nat then None
  else if remaining m <? sz then None
  else Some (mkMgr (mSizes m ++ [sz]) (mTotal m), length (mSizes m)).
(** 210-223 resizePools, 225-234 shrinkPool, 236-247 growPool; [None] throws (bad id). *)
Definition resizePools (m : mgr) (src dst : nat) (b : N) : option (mgr * bool) :=
  let* x := nth_error (mSizes m) src in
  let* _ := nth_error (mSizes m) dst in
  if x <? b then Some (m, false)
  else let l1 := setNth (mSizes m) src (x - b) in
       let* y := nth_error l1 dst in
       Some (mkMgr (setNth l1 dst (y + b)) (mTotal m), true).
Definition shrinkPool (m : mgr) (p : nat) (b : N) : option (mgr * bool) :=
  let* x := nth_error (mSizes m) p in
  if x <? b then Some (m, false) else Some (mkMgr (setNth (mSizes m) p (x - b)) (mTotal m), true).
Definition growPool (m : mgr) (p : nat) (b : N) : option (mgr * bool) :=
  let* x := nth_error (mSizes m) p in
  if remaining m <? b then Some (m, false) else Some (mkMgr (setNth (mSizes m) p (x + b)) (mTotal m), true).

(** 262-290 getTargetSlabsToAdvise, for pools in use [u] (in id order) of total [T]. *)
Fixpoint bumpTargets (n T sum : N) (tu : list (N * N)) : list N * N :=
  match tu with
  | [] => ([], sum)
  | (t, u) :: r =>
      if (sum <? n) && ((t * T) / n <? u) then let (ts, s) := bumpTargets n T (sum + 1) r in (t + 1 :: ts, s)
      else let (ts, s) := bumpTargets n T sum r in (t :: ts, s)
  end.
Definition adviseTargets (n : N) (us : list N) : list N * N :=
  let T := sumN us in
  let ts := map (fun u => u * n / T) us in
  bumpTargets n T (sumN ts) (combine ts us).

(** 283-338 calcNumSlabsToAdviseReclaim, for pools with [us] slabs in use and [as_] advised (in id
    order): [None] is the empty answer; otherwise advise?/reclaim and the count per pool (0: not in the map). *)
Fixpoint spread (diff : N) (ws : list N) : list N :=
  match ws with
  | [] => []
  | w :: r => let x := N.min w diff in x :: spread (diff - x) r
  end.
Definition calcAdviseReclaim (n : N) (us as_ : list N) : option (bool * list N) :=
  let T := sumN us in
  let A := sumN as_ in
  if (T =? 0) || ((n =? 0) && (A =? 0)) then None
  else let ts := fst (adviseTargets n us) in
       if A <? n then Some (true, spread (n - A) (map (fun ta => fst ta - snd ta) (combine ts as_)))
       else Some (false, spread (A - n) (map (fun ta => snd ta - fst ta) (combine ts as_))).

(** ** Choosing the class for a size: MemoryPool.cpp:190-207.  [None]: throws. *)
(** std::lower_bound on a sorted vector: the first element not less than x (the binary search itself is
    not modelled). *)
Fixpoint lowerBound (l : list N) (x : N) : nat :=
  match l with [] => 0%nat | y :: r => if y <? x then S (lowerBound r x) else 0%nat end.
Definition classIdForSize (sizes : list N) (sz : N) : option nat :=
  if (last sizes 0 <? sz) || (sz =? 0) then None else Some (lowerBound sizes sz).
(** MemoryPool.cpp:209-234: class of an address, from its slab header. *)
Definition classIdForMemory (h : hdrs) (p ncls : nat) (m : alloc) : option nat :=
  match hPool (h (fst m)), hClass (h (fst m)) with
  | Some q, Some c => if (q =? p)%nat && (c <? ncls)%nat then Some c else None
  | _, _ => None
  end.
