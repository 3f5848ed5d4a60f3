(** * Refcount: the item's reference count and flag word.
    Models /repo/cachelib/allocator/Refcount.h.  The word is an [N] below 2^32; all
    arithmetic is taken modulo 2^32 ([wrap32]) as for the uint32_t [Value].
    Not modelled: memory orderings (every access is sequentially consistent), the
    debug-only XDCHECKs, and the pause in the CAS loop. *)
From Verif Require Import Bytes.
Open Scope N_scope.

(** Refcount.h:57-59, 65-70. *)
Definition kNumAccessRefBits : N := 18.
Definition kNumAdminRefBits : N := 3.
Definition kNumFlags : N := 11.
Definition maxValue : N := two32 - 1.
Definition kAccessRefMask : N := N.shiftr maxValue (32 - kNumAccessRefBits).
Definition kRefMask : N := N.shiftr maxValue (32 - kNumAdminRefBits - kNumAccessRefBits).

(** Refcount.h:78-88 AdminRef. *)
Definition kLinked : N := kNumAccessRefBits.
Definition kAccessible : N := kLinked + 1.
Definition kExclusive : N := kLinked + 2.
(** Refcount.h:98-129 Flags (first flag bit; the others follow consecutively). *)
Definition kMMFlag0 : N := kNumAccessRefBits + kNumAdminRefBits.
Definition kIsChainedItem : N := kMMFlag0 + 3.
Definition kHasChainedItem : N := kMMFlag0 + 4.
Definition kNvmClean : N := kMMFlag0 + 5.
Definition kNvmEvicted : N := kMMFlag0 + 6.
Definition kNvmLargeItem : N := kMMFlag0 + 8.
Definition kRemovedByReplacement : N := kMMFlag0 + 9.

(** Refcount.h:575-590 getFlag / getAdminRef: 1 << bit. *)
Definition bitMask (b : N) : N := wrap32 (N.shiftl 1 b).
(** ~mask on a uint32_t; Refcount.h:528-529 computes the same as max - (1 << bit). *)
Definition notMask (m : N) : N := maxValue - m.

Definition bitSetIn (w b : N) : bool := negb (N.land w (bitMask b) =? 0).

(** What an operation returns. *)
Inductive rc_result :=
| RIncOk | RIncFailedMoving | RIncFailedEviction | RThrowOverflow
| RRef (v : N) | RThrowUnderflow
| RMark (ok : bool)
| REvSuccess | REvUnlinked | REvExclusive | REvRefHeld
| RVoid.

(** The operations.  [OSetBit]/[OClearBit] are markInMMContainer, markAccessible,
    setFlag and their inverses: a single atomic or/and (Refcount.h:249-286, 505-531). *)
Inductive rc_op :=
| OInc | ODec
| OMarkForEviction | OUnmarkForEviction
| OMarkMoving | OUnmarkMoving | OMarkForEvictionWhenMoving
| OSetBit (b : N) | OClearBit (b : N).

(** What evaluating predicate and new-value lambdas on a value says: stop (throw or
    return false) with a result, or try to install a new value with a result. *)
Inductive attempt := Stop (r : rc_result) | Install (new : N) (r : rc_result).

(** The predicate/newValue lambdas given to atomicUpdateValue, and for the plain atomic
    and/or operations the (always applicable) update. *)
Definition attemptOf (o : rc_op) (cur : N) : attempt :=
  let acc := N.land cur kAccessRefMask in
  let excl := bitSetIn cur kExclusive in
  let linked := bitSetIn cur kLinked in
  match o with
  (* Refcount.h:152-177 incRef *)
  | OInc =>
    if acc =? kAccessRefMask then Stop RThrowOverflow
    else if excl then Stop (if acc =? 0 then RIncFailedEviction else RIncFailedMoving)
    else Install (wrap32 (cur + 1)) RIncOk
  (* Refcount.h:185-207 decRef *)
  | ODec =>
    if acc =? 0 then Stop RThrowUnderflow
    else let new := wrap32 (cur + (two32 - 1)) in Install new (RRef (N.land new kRefMask))
  (* Refcount.h:307-344 markForEviction *)
  | OMarkForEviction =>
    if negb linked then Stop REvUnlinked
    else if excl then Stop REvExclusive
    else if negb (acc =? 0) then Stop REvRefHeld
    else Install (N.lor cur (bitMask kExclusive)) REvSuccess
  (* Refcount.h:346-350 unmarkForEviction *)
  | OUnmarkForEviction =>
    let new := N.land cur (notMask (bitMask kExclusive)) in Install new (RRef (N.land new kRefMask))
  (* Refcount.h:372-400 markMoving *)
  | OMarkMoving =>
    if (0 <? acc) || negb linked || excl then Stop (RMark false)
    else Install (N.lor (wrap32 (cur + 1)) (bitMask kExclusive)) (RMark true)
  (* Refcount.h:402-420 unmarkMoving *)
  | OUnmarkMoving =>
    let new := N.land (wrap32 (cur + (two32 - 1))) (notMask (bitMask kExclusive)) in
    Install new (RRef (N.land new kRefMask))
  (* Refcount.h:431-442 markForEvictionWhenMoving *)
  | OMarkForEvictionWhenMoving => Install (wrap32 (cur + (two32 - 1))) (RMark true)
  | OSetBit b => Install (N.lor cur (bitMask b)) RVoid
  | OClearBit b => Install (N.land cur (notMask (bitMask b))) RVoid
  end.

(** The same operation run with no interference. *)
Definition apply (o : rc_op) (w : N) : N * rc_result :=
  match attemptOf o w with Stop r => (w, r) | Install n r => (n, r) end.

(** Refcount.h:210-220 getAccessRef. *)
Definition getAccessRef (w : N) : N :=
  let acc := N.land w kAccessRefMask in
  if bitSetIn w kExclusive && (1 <=? acc) then acc - 1 else acc.
(** Refcount.h:223-225 getRefWithAccessAndAdmin; 502 isDrained. *)
Definition getRefWithAccessAndAdmin (w : N) : N := N.land w kRefMask.
Definition isDrained (w : N) : bool := getRefWithAccessAndAdmin w =? 0.
(** Refcount.h:352-355, 422-425. *)
Definition isMarkedForEviction (w : N) : bool :=
  bitSetIn w kExclusive && (N.land w kAccessRefMask =? 0).
Definition isMoving (w : N) : bool :=
  bitSetIn w kExclusive && negb (N.land w kAccessRefMask =? 0).
(** Refcount.h:258-260, 276-278, 532-535. *)
Definition isInMMContainer (w : N) : bool := bitSetIn w kLinked.
Definition isAccessible (w : N) : bool := bitSetIn w kAccessible.
Definition isFlagSet (w b : N) : bool := bitSetIn w b.

(** ** Interleaving of threads on one shared word.
    Refcount.h:545-572 atomicUpdateValue: a load, then a loop of evaluating the lambdas
    on the local copy and a compare-exchange that on failure refreshes the local copy.
    Between any two of these steps other threads may run.  The plain atomic and/or
    operations ([isRmw]) take effect in the single step in which they are issued. *)
Definition isRmw (o : rc_op) : bool :=
  match o with OSetBit _ | OClearBit _ | OUnmarkForEviction => true | _ => false end.

Definition tid := nat.
Inductive pc := Idle | InLoop (o : rc_op) (cur : N).

Record shared := mkShared {
  word : N;
  pcs : tid -> pc;
  trace : list (tid * rc_op * rc_result)   (* completed operations, newest first *)
}.

Definition setPc (p : tid -> pc) (t : tid) (x : pc) : tid -> pc :=
  fun t' => if Nat.eqb t' t then x else p t'.

(** [legal tr t o]: the thread is allowed to start [o] after the history [tr]; a parameter
    of the transition system, fixed in Refcount_spec.v. *)
Section Steps.
Variable legal : list (tid * rc_op * rc_result) -> tid -> rc_op -> Prop.

Inductive step : shared -> shared -> Prop :=
| StepRmw s t o n r :
    pcs s t = Idle -> isRmw o = true -> legal (trace s) t o ->
    attemptOf o (word s) = Install n r ->
    step s {| word := n; pcs := pcs s; trace := (t, o, r) :: trace s |}
| StepLoad s t o :
    pcs s t = Idle -> isRmw o = false -> legal (trace s) t o ->
    step s {| word := word s; pcs := setPc (pcs s) t (InLoop o (word s)); trace := trace s |}
| StepStop s t o cur r :
    pcs s t = InLoop o cur -> attemptOf o cur = Stop r ->
    step s {| word := word s; pcs := setPc (pcs s) t Idle; trace := (t, o, r) :: trace s |}
| StepCasOk s t o cur n r :
    pcs s t = InLoop o cur -> attemptOf o cur = Install n r -> word s = cur ->
    step s {| word := n; pcs := setPc (pcs s) t Idle; trace := (t, o, r) :: trace s |}
| StepCasFail s t o cur n r :
    pcs s t = InLoop o cur -> attemptOf o cur = Install n r -> word s <> cur ->
    step s {| word := word s; pcs := setPc (pcs s) t (InLoop o (word s)); trace := trace s |}.

Inductive steps : shared -> shared -> Prop :=
| steps_refl s : steps s s
| steps_trans s1 s2 s3 : steps s1 s2 -> step s2 s3 -> steps s1 s3.
End Steps.

(** Refcount.h:594: refCount_{0}. *)
Definition initShared : shared := {| word := 0; pcs := fun _ => Idle; trace := [] |}.
