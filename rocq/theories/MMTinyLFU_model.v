(** * MMTinyLFU: the tiny / main eviction container with frequency based admission.
    Models /repo/cachelib/allocator/MMTinyLFU.h on top of the pointer-level DList model and the
    CountMinSketch model.
    Every public call runs its body under lruMutex_, so a concurrent execution is a sequence of
    these critical sections; recordAccess' unlocked check and its unlocked markAccessed are
    separate steps.  Item flags are separate maps (their independence inside the word is C01).
    Times are uint32 ([wrap32]).  lruRefreshRatio (a double) is an arbitrary function on ages;
    exp(1.0) * window / 5 is an arbitrary function [raw]; hashes are arbitrary functions.  size_t
    arithmetic is on [nat]/[N]: fewer than 2^64/128 items.  XDCHECKs are not executed; a null
    dereference, an access outside the counter table, an exception leaving a noexcept function
    are [None].
    Not modelled: getStats/getEvictionAgeStat beyond what reconfigureLocked uses, racy unlocked
    reads of config_. *)
From Verif Require Import Bytes DList_model.
From Verif Require CountMin_model.

(** MMTinyLFU.h:77 LruType. *)
Definition Main := 0. Definition Tiny := 1.

(** The parameters: hashNode (MMTinyLFU.h:594-596), the row hashes of the sketch, and
    exp(1.0) * maxWindowSize / kErrorThreshold (MMTinyLFU.h:725-726). *)
Record env := mkEnv { khash : node -> N; rowh : N -> N -> N; raw : N -> N }.
(** numeric_limits<uint32_t>::max() (CountMinSketch.h:244). *)
Definition CMAX : N := 2 ^ 32 - 1.

(** MMTinyLFU.h:79-323 Config.  [ratio]: lruRefreshRatio times an age. *)
Record conf := mkConf {
  defRefresh : N; initRefresh : N; ratio : N -> N; updOnWrite : bool; updOnRead : bool;
  windowRatio : N; tinyPct : N; interval : N; newcomerWins : bool
}.
(** MMTinyLFU.h:263-276 checkConfig: false is the exception. *)
Definition checkConfig (c : conf) : bool :=
  negb ((tinyPct c <? 1)%N || (50 <? tinyPct c)%N) && negb ((windowRatio c <? 2)%N || (128 <? windowRatio c)%N).

Record lfu := mkLfu {
  wd : world;                     (* lru_ *)
  inMM : node -> bool;            (* isInMMContainer *)
  tiny : node -> bool;            (* kMMFlag0 *)
  accd : node -> bool;            (* kMMFlag1 *)
  utime : node -> N;              (* updateTime_ of the hook *)
  cfg : conf; refresh : N; nextReconf : N;
  window : N; maxWindow : N; capacity : N;    (* windowSize_, maxWindowSize_, capacity_ *)
  sk : CountMin_model.sketch      (* accessFreq_ *)
}.
Definition updb (f : node -> bool) (n : node) (v : bool) : node -> bool := fun x => if x =? n then v else f x.
Definition updt (f : node -> N) (n : node) (v : N) : node -> N := fun x => if x =? n then v else f x.
Definition setWd (s : lfu) (w : world) : lfu :=
  mkLfu w (inMM s) (tiny s) (accd s) (utime s) (cfg s) (refresh s) (nextReconf s) (window s) (maxWindow s) (capacity s) (sk s).
Definition setIn (s : lfu) (n : node) (b : bool) : lfu :=
  mkLfu (wd s) (updb (inMM s) n b) (tiny s) (accd s) (utime s) (cfg s) (refresh s) (nextReconf s) (window s) (maxWindow s) (capacity s) (sk s).
(** MMTinyLFU.h:628-650 markTiny, unmarkTiny, markAccessed, unmarkAccessed. *)
Definition setTiny (s : lfu) (n : node) (b : bool) : lfu :=
  mkLfu (wd s) (inMM s) (updb (tiny s) n b) (accd s) (utime s) (cfg s) (refresh s) (nextReconf s) (window s) (maxWindow s) (capacity s) (sk s).
Definition setAcc (s : lfu) (n : node) (b : bool) : lfu :=
  mkLfu (wd s) (inMM s) (tiny s) (updb (accd s) n b) (utime s) (cfg s) (refresh s) (nextReconf s) (window s) (maxWindow s) (capacity s) (sk s).
Definition setTime (s : lfu) (n : node) (t : N) : lfu :=
  mkLfu (wd s) (inMM s) (tiny s) (accd s) (updt (utime s) n t) (cfg s) (refresh s) (nextReconf s) (window s) (maxWindow s) (capacity s) (sk s).
Definition setCfg (s : lfu) (c : conf) (r nx : N) : lfu :=
  mkLfu (wd s) (inMM s) (tiny s) (accd s) (utime s) c r nx (window s) (maxWindow s) (capacity s) (sk s).
Definition setFreq (s : lfu) (w mw cap : N) (k : CountMin_model.sketch) : lfu :=
  mkLfu (wd s) (inMM s) (tiny s) (accd s) (utime s) (cfg s) (refresh s) (nextReconf s) w mw cap k.
Definition lcall (s : lfu) (c : call) : lfu := setWd s (doCall (wd s) c).
Definition lst (s : lfu) (i : nat) : dlist := wlist (wd s) i.
(** MultiDList.h:75-82 size. *)
Definition total (s : lfu) : nat := size (lst s Main) + size (lst s Tiny).
(** MMTinyLFU.h:565-567 getLruType. *)
Definition getLruType (s : lfu) (n : node) : nat := if tiny s n then Tiny else Main.

(** folly::nextPowTwo: the smallest power of two not below [x]; 1 for 0. *)
Definition nextPow2 (x : N) : N := if (x <=? 1)%N then 1%N else (2 ^ N.log2_up x)%N.
(** MMTinyLFU.h:703-735 maybeGrowAccessCountersLocked; kDefaultCapacity 100, kHashCount 4. *)
Definition grow (e : env) (s : lfu) : option lfu :=
  let cap := N.of_nat (total s) in
  if (cap <? 2 * capacity s)%N then Some s
  else
    let cap' := N.max cap 100 in
    let mw := (cap' * windowRatio (cfg s))%N in
    let* k := CountMin_model.create (nextPow2 (raw e mw)) 4 in
    Some (setFreq s 0 mw cap' k).

(** MMTinyLFU.h:804-816 updateFrequenciesLocked; kDecayFactor 0.5 on an integer. *)
Definition updateFreq (e : env) (s : lfu) (n : node) : option lfu :=
  let* k := CountMin_model.increment CMAX (rowh e) (sk s) (khash e n) in
  let w := (window s + 1)%N in
  if (w =? maxWindow s)%N then Some (setFreq s (w / 2) (maxWindow s) (capacity s) (CountMin_model.decay k N.div2))
  else Some (setFreq s w (maxWindow s) (capacity s) k).

(** MMTinyLFU.h:598-610 admitToMain. *)
Definition admit (e : env) (s : lfu) (t m : node) : option bool :=
  let* ft := CountMin_model.getCount CMAX (rowh e) (sk s) (khash e t) in
  let* fm := CountMin_model.getCount CMAX (rowh e) (sk s) (khash e m) in
  Some (if newcomerWins (cfg s) then (fm <=? ft)%N else (fm <? ft)%N).

(** MMTinyLFU.h:818-851 maybePromoteTailLocked. *)
Definition maybePromoteTail (e : env) (s : lfu) : option lfu :=
  match tail (lst s Main) with
  | None => Some s
  | Some m =>
    match tail (lst s Tiny) with
    | None => Some s
    | Some t =>
      let* b := admit e s t m in
      if b then
        let s1 := setTiny (lcall (lcall s (Remove Tiny t)) (LinkAtHead Main t)) t false in
        Some (setTiny (lcall (lcall s1 (Remove Main m)) (LinkAtTail Tiny m)) m true)
      else Some (lcall s (MoveToHead Main m))
    end
  end.

(** MMTinyLFU.h:853-889 add. *)
Definition add (e : env) (s : lfu) (n : node) (now : N) : option (lfu * bool) :=
  if inMM s n then Some (s, false)
  else
    let s1 := setTiny (lcall s (LinkAtHead Tiny n)) n true in
    let* s2 := updateFreq e s1 n in
    let expected := (tinyPct (cfg s2) * N.of_nat (total s2) / 100)%N in
    let* s3 :=
      (if (expected <? N.of_nat (size (lst s2 Tiny)))%N then
         let* t := tail (lst s2 Tiny) in
         Some (setTiny (lcall (lcall s2 (Remove Tiny t)) (LinkAtHead Main t)) t false)
       else maybePromoteTail e s2) in
    let* s4 := grow e s3 in
    Some (setAcc (setTime (setIn s4 n true) n now) n false, true).

(** MMTinyLFU.h:913-925 removeLocked. *)
Definition removeLocked (s : lfu) (n : node) : lfu :=
  let s1 := if tiny s n then setTiny (lcall s (Remove Tiny n)) n false else lcall s (Remove Main n) in
  setIn (setAcc s1 n false) n false.
(** MMTinyLFU.h:927-935 remove. *)
Definition remove (s : lfu) (n : node) : lfu * bool :=
  if negb (inMM s n) then (s, false) else (removeLocked s n, true).

(** MMTinyLFU.h:409-517, 1043-1049 LockedIterator: the tiny and the main position. *)
Definition iter := (ptr * ptr)%type.
Definition rbegin (s : lfu) : iter := (tail (lst s Tiny), tail (lst s Main)).
(** MMTinyLFU.h:490-505 evictTiny. *)
Definition evictTiny (e : env) (s : lfu) (it : iter) : option bool :=
  match it with
  | (_, None) => Some true
  | (None, Some _) => Some false
  | (Some t, Some m) => let* b := admit e s t m in Some (negb b)
  end.
(** MMTinyLFU.h:432-436 get. *)
Definition itGet (e : env) (s : lfu) (it : iter) : option ptr :=
  let* b := evictTiny e s it in Some (if b then fst it else snd it).
(** MMTinyLFU.h:420-423 operator++; DList.h:419-425: not past null. *)
Definition back (s : lfu) (p : ptr) : ptr := match p with Some x => prv (wheap (wd s)) x | None => None end.
Definition itNext (e : env) (s : lfu) (it : iter) : option iter :=
  let* b := evictTiny e s it in
  Some (if b then (back s (fst it), snd it) else (fst it, back s (snd it))).
(** Iterating to the end; [None]: more than [fuel] items. *)
Fixpoint walkIt (fuel : nat) (e : env) (s : lfu) (it : iter) : option (list node) :=
  let* p := itGet e s it in
  match p with
  | None => Some []
  | Some n => match fuel with
              | O => None
              | S f => let* jt := itNext e s it in let* r := walkIt f e s jt in Some (n :: r)
              end
  end.
(** MMTinyLFU.h:891-896: the order in which an eviction iterator offers items. *)
Definition evictionOrder (e : env) (s : lfu) : option (list node) := walkIt (total s) e s (rbegin s).

(** MMTinyLFU.h:937-943 remove(LockedIterator&). *)
Definition removeIt (e : env) (s : lfu) (it : iter) : option (lfu * iter) :=
  let* p := itGet e s it in
  match p with
  | None => None
  | Some n => let* jt := itNext e s it in Some (removeLocked s n, jt)
  end.
(** An eviction: iterate from the beginning to the item [n], then remove(it). *)
Fixpoint seek (fuel : nat) (e : env) (s : lfu) (it : iter) (n : node) : option iter :=
  let* p := itGet e s it in
  match p with
  | None => None
  | Some x => if x =? n then Some it
              else match fuel with O => None | S f => let* jt := itNext e s it in seek f e s jt n end
  end.
Definition evict (e : env) (s : lfu) (n : node) : option (lfu * iter) :=
  let* jt := seek (total s) e s (rbegin s) n in removeIt e s jt.

(** MMTinyLFU.h:945-973 replace. *)
Definition replace (s : lfu) (o n : node) : lfu * bool :=
  if negb (inMM s o) || inMM s n then (s, false)
  else
    let t := utime s o in
    let s1 := if tiny s o then setTiny (setTiny (lcall s (Replace Tiny o n)) o false) n true
              else lcall s (Replace Main o n) in
    let s2 := setTime (setIn (setIn s1 o false) n true) n t in
    (setAcc s2 n (accd s2 o), true).

(** MMTinyLFU.h:783-802 getEvictionAgeStatLocked(0): the age of the main tail.
    MMTinyLFU.h:1025-1041 reconfigureLocked; kLruRefreshTimeCap 900. *)
Definition reconfigure (s : lfu) (now : N) : lfu :=
  if (now <? nextReconf s)%N then s
  else
    let age := match tail (lst s Main) with Some n => wrap32 (now + 2 ^ 32 - utime s n) | None => 0%N end in
    setCfg s (cfg s) (N.min (N.max (defRefresh (cfg s)) (ratio (cfg s) age)) 900) (wrap32 (now + interval (cfg s))).

(** MMTinyLFU.h:763-771 the critical section of recordAccess. *)
Definition accessLocked (e : env) (s0 : lfu) (n : node) (now : N) : option (lfu * bool) :=
  let s := reconfigure s0 now in
  if negb (inMM s n) then Some (s, false)
  else
    let s1 := setTime (lcall s (MoveToHead (getLruType s n) n)) n now in
    let* s2 := updateFreq e s1 n in Some (s2, true).
(** MMTinyLFU.h:739-750 the unlocked check of recordAccess. *)
Definition accessCheck (s : lfu) (n : node) (write : bool) (now : N) : bool :=
  if (write && negb (updOnWrite (cfg s))) || (negb write && negb (updOnRead (cfg s))) then false
  else inMM s n && ((wrap32 (utime s n + refresh s) <=? now)%N || negb (accd s n)).
(** MMTinyLFU.h:737-774 recordAccess, lock obtained, no interference. *)
Definition recordAccess (e : env) (s : lfu) (n : node) (write : bool) (now : N) : option (lfu * bool) :=
  if accessCheck s n write now then accessLocked e (setAcc s n true) n now else Some (s, false).

(** MMTinyLFU.h:347-351: the time of the next reconfiguration. *)
Definition nextTime (c : conf) (now : N) : N := if (interval c =? 0)%N then (2 ^ 32 - 1)%N else wrap32 (now + interval c).
(** MMTinyLFU.h:981-990 setConfig (the Config constructor's checkConfig included); false: exception. *)
Definition setConfig (s : lfu) (c : conf) (now : N) : lfu * bool :=
  if negb (checkConfig c) then (s, false) else (setCfg s c (initRefresh c) (nextTime c now), true).

(** MMTinyLFU.h:992-1013, 689-701 saveState and the restoring constructor: lists and flags are in
    shared memory, the counters start from zero; then CacheAllocator sets the same configuration. *)
Definition restart (e : env) (s : lfu) (now : N) : option lfu :=
  let c := cfg s in
  let c1 := mkConf (refresh s) (refresh s) (ratio c) (updOnWrite c) (updOnRead c) (windowRatio c) (tinyPct c)
              (interval c) (newcomerWins c) in
  grow e (setFreq (setCfg s c1 (refresh s) (nextTime c1 now)) 0 0 0 CountMin_model.emptySketch).

(** MMTinyLFU.h:341-352: an empty container. *)
Definition initLfu (e : env) (c : conf) (now : N) : option lfu :=
  grow e (mkLfu initWorld (fun _ => false) (fun _ => false) (fun _ => false) (fun _ => 0%N) c (initRefresh c) (nextTime c now)
            0 0 0 CountMin_model.emptySketch).

Inductive mcall :=
| MAdd (n : node) (now : N) | MRemove (n : node)
| MEvict (n : node)                                  (* eviction iterator walked to n, remove(it) *)
| MReplace (o n : node)
| MAccessCheck (n : node) (write : bool) (now : N)   (* unlocked check *)
| MMark (n : node)                                   (* unlocked markAccessed *)
| MAccessLocked (n : node) (now : N)                 (* critical section of an access *)
| MRecordAccess (n : node) (write : bool) (now : N)
| MSetConfig (c : conf) (now : N)
| MRestart (now : N).
Inductive mout := MBool (b : bool) | MPtr (p : ptr) | MUnit.

Definition mexec (e : env) (s : lfu) (c : mcall) : option (lfu * mout) :=
  match c with
  | MAdd n now => let* (s1, b) := add e s n now in Some (s1, MBool b)
  | MRemove n => let (s1, b) := remove s n in Some (s1, MBool b)
  | MEvict n => let* (s1, it) := evict e s n in let* p := itGet e s1 it in Some (s1, MPtr p)
  | MReplace o n => let (s1, b) := replace s o n in Some (s1, MBool b)
  | MAccessCheck n w now => Some (s, MBool (accessCheck s n w now))
  | MMark n => Some (setAcc s n true, MUnit)
  | MAccessLocked n now => let* (s1, b) := accessLocked e s n now in Some (s1, MBool b)
  | MRecordAccess n w now => let* (s1, b) := recordAccess e s n w now in Some (s1, MBool b)
  | MSetConfig c now => let (s1, b) := setConfig s c now in Some (s1, MBool b)
  | MRestart now => let* s1 := restart e s now in Some (s1, MUnit)
  end.
Fixpoint mexecs (e : env) (s : lfu) (cs : list mcall) : option (lfu * list mout) :=
  match cs with
  | [] => Some (s, [])
  | c :: r => let* (s1, o) := mexec e s c in let* (s2, os) := mexecs e s1 r in Some (s2, o :: os)
  end.
