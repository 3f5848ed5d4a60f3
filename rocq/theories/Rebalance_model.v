(** Model of the slab rebalancing strategies.

    /repo/cachelib/allocator/RebalanceStrategy.cpp, RebalanceInfo.h,
    LruTailAgeStrategy.cpp, HitsPerSlabStrategy.cpp, FreeMemStrategy.cpp,
    MarginalHitsStrategy.cpp, MarginalHitsState.h, RandomStrategy.h,
    PoolResizeStrategy.h, PoolRebalancer.cpp.

    A class id is a number; [None] in place of a class id is
    Slab::kInvalidClassId.  [None] as the outcome of a function is undefined
    behaviour (dereferencing end(), dividing by zero).  Counters are unbounded
    (no wrap-around of 64-bit statistics).  Floating point is abstract: [F] with
    whatever operations the machine has.  The pool's classes are fixed, so every
    class has statistics and a record.  Locks and logging are not modelled. *)
From Coq Require Export List Arith NArith ZArith Bool Lia.
Export ListNotations.
Local Open Scope N_scope.

Notation "'let*' x := a 'in' b" := (match a with Some x => b | None => None end)
  (at level 200, x pattern, right associativity).

(** Slab.h kSize = 4 MB. *)
Definition kSlabSize : N := 4194304.

(** memory/MemoryAllocatorStats.h:29-57 ACStats and CacheStats.h CacheStat: the
    fields the strategies read. *)
Record cstat := { c_used : N; c_freeSlabs : N; c_freeAllocs : N; c_allocSize : N; c_perSlab : N;
                  c_evictions : N; c_allocFailures : N; c_hits : N; c_tailHits : N; c_evAge : N }.
(** CacheStats.h PoolStats; getClassIds() is a std::set (ascending, no duplicates). *)
Record stats := { classIds : list nat; cs : nat -> cstat }.

(** MemoryAllocatorStats.h:51-57 *)
Definition totalSlabs (s : stats) (c : nat) : N := c_freeSlabs (cs s c) + c_used (cs s c).
Definition totalFreeMemory (s : stats) (c : nat) : N :=
  kSlabSize * c_freeSlabs (cs s c) + c_freeAllocs (cs s c) * c_allocSize (cs s c).

(** RebalanceInfo.h:28-65 Info *)
Record info := { nSlabs : N; evictions : N; allocFailures : N; holdOff : N; hits : N; accuTailHits : N }.
Definition pstate := nat -> info.

(** RebalanceInfo.h:62 *)
Definition kNumHoldOffRounds : N := 10.

(** RebalanceInfo.h:80-85 getDeltaEvictions (int64_t) *)
Definition deltaEvictions (p : pstate) (s : stats) (c : nat) : Z :=
  (Z.of_N (c_evictions (cs s c)) - Z.of_N (evictions (p c)))%Z.
(** RebalanceInfo.h:91-102 deltaHits, :109-116 deltaAllocFailures *)
Definition deltaHits (p : pstate) (s : stats) (c : nat) : N :=
  if c_hits (cs s c) <=? hits (p c) then 0 else c_hits (cs s c) - hits (p c).
Definition deltaAllocFailures (p : pstate) (s : stats) (c : nat) : N :=
  if c_allocFailures (cs s c) <=? allocFailures (p c) then 0 else c_allocFailures (cs s c) - allocFailures (p c).
(** RebalanceInfo.h:123-136 deltaHitsPerSlab, projectedDeltaHitsPerSlab; a zero
    divisor is undefined. *)
Definition deltaHitsPerSlab (p : pstate) (s : stats) (c : nat) : option N :=
  if totalSlabs s c =? 0 then None else Some (deltaHits p s c / totalSlabs s c).
Definition projectedDeltaHitsPerSlab (p : pstate) (s : stats) (c : nat) : option N :=
  if totalSlabs s c =? 1 then Some (2 ^ 64 - 1)
  else Some (deltaHits p s c / (if totalSlabs s c =? 0 then 2 ^ 64 - 1 else totalSlabs s c - 1)).

Definition updInfo (p : pstate) (c : nat) (i : info) : pstate := fun x => if Nat.eqb x c then i else p x.
Definition setHoldOff (p : pstate) (c : nat) (h : N) : pstate :=
  updInfo p c {| nSlabs := nSlabs (p c); evictions := evictions (p c); allocFailures := allocFailures (p c);
                 holdOff := h; hits := hits (p c); accuTailHits := accuTailHits (p c) |}.
(** RebalanceInfo.h:159 startHoldOff *)
Definition startHoldOff (p : pstate) (c : nat) : pstate := setHoldOff p c kNumHoldOffRounds.
(** RebalanceInfo.h:161-163 updateHits, for all classes of the pool *)
Definition updateHits (p : pstate) (s : stats) : pstate := fun x =>
  if existsb (Nat.eqb x) (classIds s)
  then {| nSlabs := nSlabs (p x); evictions := evictions (p x); allocFailures := allocFailures (p x);
          holdOff := holdOff (p x); hits := c_hits (cs s x); accuTailHits := accuTailHits (p x) |}
  else p x.
(** RebalanceInfo.h:167-181 updateRecord, RebalanceStrategy.cpp:32-37 recordCurrentState *)
Definition recordCurrentState (p : pstate) (s : stats) : pstate := fun x =>
  if existsb (Nat.eqb x) (classIds s)
  then {| nSlabs := totalSlabs s x; evictions := c_evictions (cs s x);
          allocFailures := c_allocFailures (cs s x); holdOff := holdOff (p x); hits := hits (p x);
          accuTailHits := c_tailHits (cs s x) |}
  else p x.
(** RebalanceStrategy.cpp:92-101 initPoolState; Info's constructor leaves
    allocFailures and holdOffRemaining at 0 (RebalanceInfo.h:54-59). *)
Definition initPoolState (s : stats) : pstate := fun x =>
  if existsb (Nat.eqb x) (classIds s)
  then {| nSlabs := totalSlabs s x; evictions := c_evictions (cs s x); allocFailures := 0; holdOff := 0;
          hits := c_hits (cs s x); accuTailHits := c_tailHits (cs s x) |}
  else {| nSlabs := 0; evictions := 0; allocFailures := 0; holdOff := 0; hits := 0; accuTailHits := 0 |}.

(** RebalanceStrategy.cpp:196-222 filter: drops what satisfies [pred]. *)
Definition filterOut (pred : nat -> bool) (l : list nat) : list nat := filter (fun c => negb (pred c)) l.

(** std::max_element / std::min_element: the first maximal / minimal element. *)
Fixpoint maxFrom {A} (lt : A -> A -> bool) (best : A) (l : list A) : A :=
  match l with [] => best | x :: r => maxFrom lt (if lt best x then x else best) r end.
Definition maxElement {A} (lt : A -> A -> bool) (l : list A) : option A :=
  match l with [] => None | x :: r => Some (maxFrom lt x r) end.
Definition minElement {A} (lt : A -> A -> bool) (l : list A) : option A :=
  maxElement (fun best x => lt x best) l.

(** RebalanceStrategy.cpp:136-194: the filters. *)
Definition filterByNumEvictableSlabs (s : stats) (l : list nat) (minSlabs : N) : list nat :=
  filterOut (fun c => totalSlabs s c <=? minSlabs) l.
Definition filterByAllocFailure (p : pstate) (s : stats) (l : list nat) : list nat :=
  filterOut (fun c => deltaAllocFailures p s c =? 0) l.
Definition filterByNoEvictions (p : pstate) (s : stats) (l : list nat) : list nat :=
  filterOut (fun c => (0 <? c_freeSlabs (cs s c)) || (deltaEvictions p s c =? 0)%Z) l.
Definition filterByMinTailAge (s : stats) (l : list nat) (a : N) : list nat :=
  filterOut (fun c => c_evAge (cs s c) <? a) l.
Definition filterByMaxTailAge (s : stats) (l : list nat) (a : N) : list nat :=
  filterOut (fun c => a <? c_evAge (cs s c)) l.
(** RebalanceStrategy.cpp:244-271; [m]: the target map *)
Definition filterVictimsByTargetEvictionAge (s : stats) (l : list nat) (m : nat -> option N) : list nat :=
  filterOut (fun c => match m c with Some t => c_evAge (cs s c) <? t | None => false end) l.
Definition filterReceiversByTargetEvictionAge (s : stats) (l : list nat) (m : nat -> option N) : list nat :=
  filterOut (fun c => match m c with Some t => t <=? c_evAge (cs s c) | None => true end) l.
(** RebalanceStrategy.cpp:224-242 filterVictimsByHoldOff: also updates the records. *)
Fixpoint filterVictimsByHoldOff (p : pstate) (s : stats) (l : list nat) : pstate * list nat :=
  match l with
  | [] => (p, [])
  | c :: r =>
      if 0 <? holdOff (p c) then
        if (deltaEvictions p s c =? 0)%Z
        then filterVictimsByHoldOff (setHoldOff p c (holdOff (p c) - 1)) s r
        else let '(p', l') := filterVictimsByHoldOff (setHoldOff p c 0) s r in (p', c :: l')
      else let '(p', l') := filterVictimsByHoldOff p s r in (p', c :: l')
  end.

(** RebalanceStrategy.cpp:103-134 pickVictimByFreeMem.  The emptiness test is
    on [victims], not on [nonEvicting]; the iterator is dereferenced unless the
    threshold is 0. *)
Definition pickVictimByFreeMem (p : pstate) (s : stats) (victims : list nat) (threshold : N)
  : option (option nat) :=
  let nonEvicting := filterOut (fun c => (0 <? deltaEvictions p s c)%Z) victims in
  match victims with
  | [] => Some None
  | _ =>
      if threshold =? 0 then Some None
      else let* it := maxElement (fun a b => totalFreeMemory s a <? totalFreeMemory s b) nonEvicting in
           if totalFreeMemory s it <=? threshold then Some None else Some (Some it)
  end.

(** ** Strategies to fall back on (PickVictimStrategy) *)
(** RebalanceStrategy.cpp:39-57 TotalSlabsStrategy *)
Definition totalSlabsPick (s : stats) : option (option nat) :=
  let* r := maxElement (fun a b => totalSlabs s a <? totalSlabs s b) (classIds s) in
  if totalSlabs s r =? 0 then Some None else Some (Some r).
(** RebalanceStrategy.cpp:59-88 AllocationSizeStrategy; [rnd]: the 64-bit random
    number (rand64(0) is 0).  Allocation sizes of a pool's classes differ, so the
    order of std::sort is determined. *)
Fixpoint insertBySize (s : stats) (c : nat) (l : list nat) : list nat :=
  match l with
  | [] => [c]
  | x :: r => if c_allocSize (cs s x) <? c_allocSize (cs s c) then c :: l else x :: insertBySize s c r
  end.
Definition sortBySize (s : stats) (l : list nat) : list nat := fold_right (insertBySize s) [] l.
Definition allocationSizePick (minSlabsForResizing numClasses rnd : N) (s : stats) : option (option nat) :=
  let eligible := filter (fun c => minSlabsForResizing <=? totalSlabs s c) (classIds s) in
  match eligible with
  | [] => totalSlabsPick s
  | _ =>
      let n := N.min numClasses (N.of_nat (length eligible)) in
      let i := if n =? 0 then 0 else rnd mod n in
      let* c := nth_error (sortBySize s eligible) (N.to_nat i) in Some (Some c)
  end.

(** What a strategy is given about the pool in one call, apart from the statistics. *)
Record env := {
  e_allAllocated : bool;     (* getPool(pid).allSlabsAllocated() *)
  e_unallocated : N;         (* getPool(pid).getUnAllocatedSlabMemory() *)
  e_projected : nat -> N;    (* getPoolEvictionAgeStats: projectedAge of the selected queue *)
  e_oldest : nat -> N;       (* oldestElementAge *)
  e_random : nat -> N        (* random numbers *)
}.

(** RebalanceStrategy.h:27-36 RebalanceContext *)
Record ctx := { victim : option nat; receiver : option nat }.
Definition kNoOp : ctx := {| victim := None; receiver := None |}.

(** The two virtual functions (RebalanceStrategy.h:158-166); [X] is the
    strategy's own state beside the records. *)
Record strategy (X : Type) := {
  pickBoth : X -> pstate -> env -> stats -> option (ctx * pstate * X);
  pickOne : X -> pstate -> env -> stats -> option (option nat * pstate * X)
}.
Arguments pickBoth {X}. Arguments pickOne {X}.

(** RebalanceStrategy.cpp:322-340 pickReceiverWithAllocFailures *)
Definition pickReceiverWithAllocFailures (p : pstate) (s : stats) : option nat :=
  maxElement (fun a b => deltaAllocFailures p s a <? deltaAllocFailures p s b)
             (filterByAllocFailure p s (classIds s)).

Section Base.
Context {X : Type} (st : strategy X) (fallback : env -> stats -> option (option nat)).

(** RebalanceStrategy.cpp:273-301, the lambda of pickVictimAndReceiver *)
Definition pickVictimAndReceiverLambda (x : X) (p : pstate) (e : env) (s : stats) : option (ctx * pstate * X) :=
  match pickReceiverWithAllocFailures p s with
  | Some r =>
      let* (v0, p1, x1) := pickOne st x p e s in
      let* v := (match v0 with Some v => Some (Some v) | None => fallback e s end) in
      match v with
      | Some vc =>
          if negb (Nat.eqb vc r) && (1 <? nSlabs (p1 vc))
          then Some ({| victim := Some vc; receiver := Some r |}, startHoldOff p1 r, x1)
          else pickBoth st x1 p1 e s
      | None => pickBoth st x1 p1 e s
      end
  | None => pickBoth st x p e s
  end.

(** RebalanceStrategy.cpp:342-362 executeAndRecordCurrentState with
    :273-301 pickVictimAndReceiver; no record yet: initialize, do nothing. *)
Definition pickVictimAndReceiver (x : X) (po : option pstate) (e : env) (s : stats)
  : option (ctx * option pstate * X) :=
  match po with
  | None => Some (kNoOp, Some (initPoolState s), x)
  | Some p =>
      let* (c, p', x') := pickVictimAndReceiverLambda x p e s in
      Some (c, Some (recordCurrentState p' s), x')
  end.

(** RebalanceStrategy.cpp:303-320 pickVictimForResizing; [s2]: the statistics
    read again for the fallback *)
Definition pickVictimForResizing (x : X) (po : option pstate) (e : env) (s s2 : stats)
  : option (option nat * option pstate * X) :=
  let* (v, po', x') :=
    (match po with
     | None => Some (None, Some (initPoolState s), x)
     | Some p => let* (v, p', x') := pickOne st x p e s in Some (v, Some (recordCurrentState p' s), x')
     end) in
  match v with
  | Some v => Some (Some v, po', x')
  | None => let* v := fallback e s2 in Some (v, po', x')
  end.
End Base.

(** ** FreeMemStrategy.cpp:35-62 *)
Record freeMemCfg := { fm_minSlabs : N; fm_numFreeSlabs : N; fm_maxUnalloc : N }.
Definition freeMemStrategy (g : freeMemCfg) : strategy unit := {|
  pickBoth _ p e s :=
    if fm_maxUnalloc g * kSlabSize <? e_unallocated e then Some (kNoOp, p, tt)
    else
      let victims := filterByNumEvictableSlabs s (classIds s) (fm_minSlabs g) in
      match victims with
      | [] => Some (kNoOp, p, tt)
      | _ => let* v := pickVictimByFreeMem p s victims (fm_numFreeSlabs g * kSlabSize) in
             match v with
             | None => Some (kNoOp, p, tt)
             | Some v => Some ({| victim := Some v; receiver := None |}, p, tt)
             end
      end;
  (* RebalanceStrategy.h:164-166: not overridden *)
  pickOne _ p _ _ := Some (None, p, tt) |}.

(** ** RandomStrategy.h:43-66 *)
Definition pickRandom (rnd : N) (l : list nat) : option nat :=
  if Nat.eqb (length l) 0 then None else nth_error l (N.to_nat (rnd mod N.of_nat (length l))).
Definition eraseId (v : option nat) (l : list nat) : list nat :=
  match v with Some v => filter (fun c => negb (Nat.eqb c v)) l | None => l end.
Definition randomStrategy (minSlabs : N) : strategy unit := {|
  pickBoth _ p e s :=
    let v := pickRandom (e_random e 0%nat) (filterByNumEvictableSlabs s (classIds s) minSlabs) in
    let r := pickRandom (e_random e 1%nat) (eraseId v (classIds s)) in
    Some ({| victim := v; receiver := r |}, p, tt);
  pickOne _ p _ _ := Some (None, p, tt) |}.

(** ** PoolResizeStrategy.h:40-67 *)
Definition poolResizeStrategy (minSlabs : N) : strategy unit := {|
  (* RebalanceStrategy.h:158-162: not overridden *)
  pickBoth _ p _ _ := Some (kNoOp, p, tt);
  pickOne _ p _ s :=
    Some (maxElement (fun a b => c_evAge (cs s a) <? c_evAge (cs s b))
                     (filterByNumEvictableSlabs s (classIds s) minSlabs), p, tt) |}.

(** ** Floating point, abstract *)
Section Float.
Context {F : Type}.
Record float_ops := {
  ofN : N -> F;                  (* uint64_t to double *)
  mul : F -> F -> F; sub : F -> F -> F; add : F -> F -> F;
  flt : F -> F -> bool;          (* < *)
  below : F -> F -> F -> bool    (* below ratio x d: d < ratio * (long double)x *)
}.
Context (fo : float_ops).

(** LruTailAgeStrategy.h:33-61 Config; LruTailAgeStrategy.cpp *)
Record lruCfg := { l_ratio : F; l_minDiff : N; l_minSlabs : N; l_numSlabsFreeMem : N;
                   l_weight : option (nat -> F) }.
Definition weightOf (w : option (nat -> F)) (c : nat) : F :=
  match w with Some f => f c | None => ofN fo 1 end.

(** LruTailAgeStrategy.cpp:70-107 pickVictim *)
Definition lruPickVictim (g : lruCfg) (p : pstate) (e : env) (s : stats) : option (option nat * pstate) :=
  let '(p1, victims) := filterVictimsByHoldOff p s (filterByNumEvictableSlabs s (classIds s) (l_minSlabs g)) in
  match victims with
  | [] => Some (None, p1)
  | _ =>
      let* v := pickVictimByFreeMem p1 s victims (l_numSlabsFreeMem g * kSlabSize) in
      match v with
      | Some v => Some (Some v, p1)
      | None =>
          Some (maxElement (fun a b => flt fo (mul fo (ofN fo (e_projected e a)) (weightOf (l_weight g) a))
                                              (mul fo (ofN fo (e_projected e b)) (weightOf (l_weight g) b)))
                           victims, p1)
      end
  end.
(** LruTailAgeStrategy.cpp:109-131 pickReceiver *)
Definition lruPickReceiver (g : lruCfg) (p : pstate) (e : env) (s : stats) (v : option nat) : option nat :=
  minElement (fun a b => flt fo (mul fo (ofN fo (e_oldest e a)) (weightOf (l_weight g) a))
                                (mul fo (ofN fo (e_oldest e b)) (weightOf (l_weight g) b)))
             (filterByNoEvictions p s (eraseId v (classIds s))).
(** LruTailAgeStrategy.cpp:133-183; the unweighted subtraction is on uint64_t and
    evaluated before the test that makes it meaningful. *)
Definition lruTailAgeStrategy (g : lruCfg) : strategy unit := {|
  pickBoth _ p e s :=
    if negb (e_allAllocated e) then Some (kNoOp, p, tt)
    else
      let* (v, p1) := lruPickVictim g p e s in
      let r := lruPickReceiver g p1 e s v in
      match v, r with
      | Some vc, Some rc =>
          if Nat.eqb vc rc then Some (kNoOp, p1, tt)
          else
            let improvement := (e_projected e vc + 2 ^ 64 - e_oldest e rc) mod 2 ^ 64 in
            if match l_weight g with
               | Some _ => false
               | None => (e_projected e vc <? e_oldest e rc) || (improvement <? l_minDiff g)
                         || below fo (l_ratio g) (ofN fo (e_projected e vc)) (ofN fo improvement)
               end
            then Some (kNoOp, p1, tt)
            else Some ({| victim := v; receiver := r |}, startHoldOff p1 rc, tt)
      | _, _ => Some (kNoOp, p1, tt)
      end;
  (* LruTailAgeStrategy.cpp:185-192 *)
  pickOne _ p e s := let* (v, p1) := lruPickVictim g p e s in Some (v, p1, tt) |}.

(** HitsPerSlabStrategy.h:38-83 Config.  [h_target]: classIdTargetEvictionAge
    ([None]: null or empty). *)
Record hitsCfg := { h_minDiff : N; h_ratio : F; h_minSlabs : N; h_numSlabsFreeMem : N;
                    h_minAge : N; h_maxAge : N; h_byFreeMem : bool; h_everyAttempt : bool;
                    h_weight : option (nat -> F); h_target : option (nat -> option N) }.

(** HitsPerSlabStrategy.cpp:96-105, :187-196: comparators of the last step.  The
    comparator may be undefined (division by zero): all operands are computed
    first, which is the same since each of them is used unless there is only one. *)
Fixpoint mapO {A B} (f : A -> option B) (l : list A) : option (list (A * B)) :=
  match l with
  | [] => Some []
  | a :: r => let* b := f a in let* r' := mapO f r in Some ((a, b) :: r')
  end.

(** HitsPerSlabStrategy.cpp:38-106 pickVictim *)
Definition hitsPickVictim (g : hitsCfg) (p : pstate) (s : stats) : option (option nat * pstate) :=
  let l0 := filterByNumEvictableSlabs s (classIds s) (h_minSlabs g) in
  let '(p1, l1) := filterVictimsByHoldOff p s l0 in
  let l2 := if h_minAge g =? 0 then l1 else filterByMinTailAge s l1 (h_minAge g) in
  match l2 with
  | [] => Some (None, p1)
  | _ =>
      let l3 := match h_target g with Some m => filterVictimsByTargetEvictionAge s l2 m | None => l2 end in
      match l3 with
      | [] => Some (None, p1)
      | _ =>
          let* v := (if h_byFreeMem g then pickVictimByFreeMem p1 s l3 (h_numSlabsFreeMem g * kSlabSize)
                     else Some None) in
          match v with
          | Some v => Some (Some v, p1)
          | None =>
              let l4 := if h_maxAge g =? 0 then l3
                        else match filterOut (fun c => c_evAge (cs s c) <? h_maxAge g) l3 with
                             | [] => l3
                             | l => l
                             end in
              let* sc := mapO (fun c => let* x := projectedDeltaHitsPerSlab p1 s c in
                                        Some (mul fo (ofN fo x) (weightOf (h_weight g) c))) l4 in
              Some (option_map fst (minElement (fun a b => flt fo (snd a) (snd b)) sc), p1)
          end
      end
  end.

(** HitsPerSlabStrategy.cpp:115-197 pickReceiver *)
Definition hitsPickReceiver (g : hitsCfg) (p : pstate) (s : stats) (v : option nat) : option (option nat) :=
  let l0 := filterByNumEvictableSlabs s (filterByNoEvictions p s (eraseId v (classIds s))) 0 in
  let l1 := if h_maxAge g =? 0 then l0
            else match filterByMaxTailAge s l0 (h_maxAge g) with [] => l0 | l => l end in
  match l1 with
  | [] => Some None
  | _ =>
      let l2 := match h_target g with
                | None => l1
                | Some m => match filterReceiversByTargetEvictionAge s l1 m with
                            | [] => filterOut (fun c => match m c with Some _ => true | None => false end) l1
                            | l => l
                            end
                end in
      match l2 with
      | [] => Some None
      | _ =>
          let l3 := if h_minAge g =? 0 then l2
                    else match filterOut (fun c => h_minAge g <=? c_evAge (cs s c)) l2 with
                         | [] => l2 | l => l end in
          let* sc := mapO (fun c => let* x := deltaHitsPerSlab p s c in
                                    Some (mul fo (ofN fo x) (weightOf (h_weight g) c))) l3 in
          Some (option_map fst (maxElement (fun a b => flt fo (snd a) (snd b)) sc))
      end
  end.

(** HitsPerSlabStrategy.cpp:199-288 *)
Definition hitsPerSlabStrategy (g : hitsCfg) : strategy unit := {|
  pickBoth _ p e s :=
    if negb (e_allAllocated e) then Some (kNoOp, p, tt)
    else
      let* (v, p1) := hitsPickVictim g p s in
      let* r := hitsPickReceiver g p1 s v in
      match v, r with
      | Some vc, Some rc =>
          if Nat.eqb vc rc then Some (kNoOp, p1, tt)
          else
            let* vx := projectedDeltaHitsPerSlab p1 s vc in
            let* rx := deltaHitsPerSlab p1 s rc in
            let vd := mul fo (ofN fo vx) (weightOf (h_weight g) vc) in
            let rd := mul fo (ofN fo rx) (weightOf (h_weight g) rc) in
            let improvement := sub fo rd vd in
            if flt fo rd vd || flt fo improvement (ofN fo (h_minDiff g)) || below fo (h_ratio g) vd improvement
            then Some (kNoOp, if h_everyAttempt g then updateHits p1 s else p1, tt)
            else Some ({| victim := v; receiver := r |}, updateHits (startHoldOff p1 rc) s, tt)
      | _, _ => Some (kNoOp, p1, tt)
      end;
  pickOne _ p e s :=
    let* (v, p1) := hitsPickVictim g p s in Some (v, updateHits p1 s, tt) |}.

(** MarginalHitsStrategy.h:32-52 Config *)
Record mhCfg := { m_avg : F; m_minSlabs : N; m_maxFreeMemSlabs : N }.
(** MarginalHitsState.h:30-35: the entities and their smoothed ranks, in the
    (arbitrary) iteration order of the unordered_map. *)
Definition ranks := list (nat * F).
(** MarginalHitsState.h:74-102 updateRankings: [perm] is the order std::sort put
    the entities in; the i-th entity's rank is averaged with i. *)
Fixpoint rankOf (perm : list nat) (c : nat) (i : N) : option N :=
  match perm with
  | [] => None
  | x :: r => if Nat.eqb x c then Some i else rankOf r c (i + 1)
  end.
Definition updateRankings (g : mhCfg) (perm : list nat) (rk : ranks) : ranks :=
  map (fun cr => match rankOf perm (fst cr) 0 with
                 | Some i => (fst cr, add fo (mul fo (snd cr) (m_avg g))
                                             (mul fo (ofN fo i) (sub fo (ofN fo 1) (m_avg g))))
                 | None => cr end) rk.
(** MarginalHitsState.h:104-127 pickVictimAndReceiverFromRankings; [negOne] = -1. *)
Fixpoint pickFromRankings (validV validR : nat -> bool) (rk : ranks) (v r : option nat) (minRank maxRank : F)
  : option nat * option nat :=
  match rk with
  | [] => (v, r)
  | (c, x) :: rest =>
      let '(r', mx) := if validR c && flt fo maxRank x then (Some c, x) else (r, maxRank) in
      let '(v', mn) := if validV c && flt fo x minRank then (Some c, x) else (v, minRank) in
      pickFromRankings validV validR rest v' r' mn mx
  end.
(** MarginalHitsStrategy.cpp:29-104; [sorted]: what std::sort returns for
    the scores of this call (any order; the claims do not depend on it). *)
Definition marginalHitsStrategy (g : mhCfg) (negOne : F) (sorted : pstate -> stats -> list nat -> list nat)
  : strategy ranks :=
  let both rk p (e : env) s : option (ctx * pstate * ranks) :=
    if negb (e_allAllocated e) then Some (kNoOp, p, rk)
    else
      let rk0 := match rk with [] => map (fun c => (c, ofN fo 0)) (classIds s) | _ => rk end in
      let rk1 := updateRankings g (sorted p s (map fst rk0)) rk0 in
      let validV c := m_minSlabs g <? totalSlabs s c in
      let validR c := totalFreeMemory s c <? m_maxFreeMemSlabs g * kSlabSize in
      let '(v, r) := pickFromRankings validV validR rk1 None None (ofN fo (N.of_nat (length rk1))) negOne in
      match v, r with
      | Some vc, Some rc => if Nat.eqb vc rc then Some (kNoOp, p, rk1)
                            else Some ({| victim := v; receiver := r |}, p, rk1)
      | _, _ => Some (kNoOp, p, rk1)
      end in
  {| pickBoth := both;
     pickOne rk p e s := let* (c, p', rk') := both rk p e s in Some (victim c, p', rk') |}.
End Float.
Arguments float_ops : clear implicits.
Arguments lruCfg : clear implicits.
Arguments hitsCfg : clear implicits.
Arguments mhCfg : clear implicits.

(** ** PoolRebalancer.cpp:84-103 pickVictimByFreeAlloc *)
Fixpoint freeAllocLoop (s : stats) (threshold : N) (l : list nat) (best : N) (ret : option nat) : option (option nat) :=
  match l with
  | [] => Some ret
  | c :: r =>
      if c_perSlab (cs s c) =? 0 then None
      else
        let n := c_freeAllocs (cs s c) / c_perSlab (cs s c) in
        if (threshold <? n) && (best <? n) then freeAllocLoop s threshold r n (Some c)
        else freeAllocLoop s threshold r best ret
  end.
Definition pickVictimByFreeAlloc (s : stats) (threshold : N) : option (option nat) :=
  freeAllocLoop s threshold (classIds s) 1 None.
