(** * MM2Q: the hot / warm / cold eviction container.
    Models /repo/cachelib/allocator/MM2Q.h and the iterator of
    /repo/cachelib/allocator/datastruct/MultiDList.h on top of the pointer-level DList model.
    Every public call runs its body under lruMutex_, so a concurrent execution is a sequence of
    these critical sections; recordAccess' unlocked pre-check is a separate step ([accessCheck]).
    Item flags are separate maps (their independence inside the word is C01).  Times are uint32
    ([wrap32]).  lruRefreshRatio (a double) is an arbitrary function on ages.  size_t arithmetic on
    list sizes is on [nat]/[N]: fewer than 2^64/100 items.  XDCHECKs are not executed; popping from
    an empty list (a null dereference) is [None].
    Not modelled: getStats/getEvictionAgeStat beyond what reconfigureLocked uses, the 3-list to
    5-list upgrade of old serialized states, racy unlocked reads of config_. *)
From Verif Require Import Bytes DList_model.

(** MM2Q.h:66 LruType: the index of each list. *)
Definition Warm := 0. Definition WarmTail := 1. Definition Hot := 2. Definition Cold := 3.
Definition ColdTail := 4. Definition NumTypes := 5.

(** MM2Q.h:69-355 Config.  [ratio]: lruRefreshRatio times an age. *)
Record conf := mkConf {
  defRefresh : N; ratio : N -> N; updOnWrite : bool; updOnRead : bool; rebalOnAccess : bool;
  hotPct : N; coldPct : N; tailSize : nat; interval : N
}.
Definition SIZE_MOD : N := 2 ^ 64.
(** MM2Q.h:280-282 getWarmSizePercent, in size_t. *)
Definition warmPct (c : conf) : N :=
  ((100 + 2 * SIZE_MOD - hotPct c mod SIZE_MOD - coldPct c mod SIZE_MOD) mod SIZE_MOD)%N.
(** MM2Q.h:285-305 checkLruSizes: false is the exception. *)
Definition checkLruSizes (c : conf) : bool :=
  if (hotPct c =? 100)%N then negb (negb (coldPct c =? 0)%N && negb (warmPct c =? 0)%N)
  else negb ((hotPct c <=? 0)%N || (100 <? hotPct c)%N || (coldPct c <=? 0)%N || (100 <=? coldPct c)%N ||
             (warmPct c <=? 0)%N || (100 <=? warmPct c)%N).

(** MM2Q.h:640-648 access counters. *)
Record counters := mkCnt { nHot : nat; nCold : nat; nWarm : nat; nWarmTail : nat; nColdTail : nat }.
Definition cnt0 : counters := mkCnt 0 0 0 0 0.

Record mm := mkMM {
  wd : world;               (* lru_: the five lists *)
  inMM : node -> bool;      (* isInMMContainer *)
  hot : node -> bool;       (* kMMFlag0 *)
  tailf : node -> bool;     (* kMMFlag1 *)
  cold : node -> bool;      (* kMMFlag2 *)
  utime : node -> N;        (* updateTime_ of the hook *)
  cfg : conf;               (* config_ *)
  tailTrack : bool;         (* tailTrackingEnabled_ *)
  refresh : N;              (* lruRefreshTime_ *)
  nextReconf : N;           (* nextReconfigureTime_ *)
  cnt : counters
}.

Definition updb (f : node -> bool) (n : node) (v : bool) : node -> bool :=
  fun x => if x =? n then v else f x.
Definition updt (f : node -> N) (n : node) (v : N) : node -> N :=
  fun x => if x =? n then v else f x.

Definition setWd (s : mm) (w : world) : mm :=
  mkMM w (inMM s) (hot s) (tailf s) (cold s) (utime s) (cfg s) (tailTrack s) (refresh s) (nextReconf s) (cnt s).
Definition setIn (s : mm) (n : node) (b : bool) : mm :=
  mkMM (wd s) (updb (inMM s) n b) (hot s) (tailf s) (cold s) (utime s) (cfg s) (tailTrack s) (refresh s) (nextReconf s) (cnt s).
(** MM2Q.h:563-613 markHot ... unmarkTail. *)
Definition setHot (s : mm) (n : node) (b : bool) : mm :=
  mkMM (wd s) (inMM s) (updb (hot s) n b) (tailf s) (cold s) (utime s) (cfg s) (tailTrack s) (refresh s) (nextReconf s) (cnt s).
Definition setTail (s : mm) (n : node) (b : bool) : mm :=
  mkMM (wd s) (inMM s) (hot s) (updb (tailf s) n b) (cold s) (utime s) (cfg s) (tailTrack s) (refresh s) (nextReconf s) (cnt s).
Definition setCold (s : mm) (n : node) (b : bool) : mm :=
  mkMM (wd s) (inMM s) (hot s) (tailf s) (updb (cold s) n b) (utime s) (cfg s) (tailTrack s) (refresh s) (nextReconf s) (cnt s).
Definition setTime (s : mm) (n : node) (t : N) : mm :=
  mkMM (wd s) (inMM s) (hot s) (tailf s) (cold s) (updt (utime s) n t) (cfg s) (tailTrack s) (refresh s) (nextReconf s) (cnt s).
Definition setCfg (s : mm) (c : conf) (r nx : N) (k : counters) : mm :=
  mkMM (wd s) (inMM s) (hot s) (tailf s) (cold s) (utime s) c (tailTrack s) r nx k.
Definition lcall (s : mm) (c : call) : mm := setWd s (doCall (wd s) c).
Definition lst (s : mm) (i : nat) : dlist := wlist (wd s) i.

(** MM2Q.h:615-617 inTail. *)
Definition inTail (s : mm) (n : node) : bool := negb (tailSize (cfg s) =? 0) && tailf s n.
(** MM2Q.h:825-835 getLruType. *)
Definition getLruType (s : mm) (n : node) : nat :=
  if hot s n then Hot
  else if cold s n then (if inTail s n then ColdTail else Cold)
  else (if inTail s n then WarmTail else Warm).
(** MultiDList.h:75-82 size. *)
Definition total (s : mm) : nat :=
  size (lst s 0) + size (lst s 1) + size (lst s 2) + size (lst s 3) + size (lst s 4).
Definition expected (pct : N) (n : nat) : nat := N.to_nat (pct * N.of_nat n / 100).

(** MM2Q.h:839-862 first loop of rebalance. [fuel] exceeds the number of turns. *)
Fixpoint shrinkWarm (fuel : nat) (e : nat) (s : mm) : option mm :=
  if e <? size (lst s Warm) + size (lst s WarmTail) then
    match fuel with
    | O => None
    | S f =>
      let i := if 0 <? size (lst s WarmTail) then WarmTail else Warm in
      match tail (lst s i) with
      | None => None
      | Some n =>
        let s1 := lcall s (Remove i n) in
        let s2 := if (i =? WarmTail) || (i =? ColdTail) then setTail s1 n false else s1 in
        shrinkWarm f e (setCold (lcall s2 (LinkAtHead Cold n)) n true)
      end
    end
  else Some s.
(** MM2Q.h:864-875 second loop of rebalance. *)
Fixpoint shrinkHot (fuel : nat) (e : nat) (s : mm) : option mm :=
  if e <? size (lst s Hot) then
    match fuel with
    | O => None
    | S f =>
      match tail (lst s Hot) with
      | None => None
      | Some n =>
        shrinkHot f e (setCold (setHot (lcall (lcall s (Remove Hot n)) (LinkAtHead Cold n)) n false) n true)
      end
    end
  else Some s.
(** MM2Q.h:1044-1053 getTailLru. *)
Definition getTailLru (i : nat) : nat := if i =? Warm then WarmTail else ColdTail.
(** MM2Q.h:1055-1066 adjustTail. *)
Fixpoint adjustTail (fuel : nat) (i : nat) (s : mm) : option mm :=
  match tail (lst s i) with
  | None => Some s
  | Some n =>
    if size (lst s (getTailLru i)) + 1 <=? tailSize (cfg s) then
      match fuel with
      | O => None
      | S f => adjustTail f i (lcall (lcall (setTail s n true) (Remove i n)) (LinkAtHead (getTailLru i) n))
      end
    else Some s
  end.
(** MM2Q.h:837-880 rebalance. *)
Definition rebalance (s : mm) : option mm :=
  let f := S (total s) in
  let* s1 := shrinkWarm f (expected (warmPct (cfg s)) (total s)) s in
  let* s2 := shrinkHot f (expected (hotPct (cfg s1)) (total s1)) s1 in
  let* s3 := adjustTail f Cold s2 in
  adjustTail f Warm s3.

(** MM2Q.h:882-900 add. *)
Definition add (s : mm) (n : node) (now : N) : option (mm * bool) :=
  if inMM s n then Some (s, false)
  else
    let s1 := setTail (setCold (setHot s n true) n false) n false in
    let s2 := lcall s1 (LinkAtHead Hot n) in
    let* s3 := rebalance s2 in
    Some (setTime (setIn s3 n true) n now, true).

(** MM2Q.h:932-945 removeLocked. *)
Definition removeLocked (s : mm) (n : node) (doRebalance : bool) : option mm :=
  let s1 := lcall s (Remove (getLruType s n) n) in
  let* s2 := (if doRebalance then rebalance s1 else Some s1) in
  Some (setIn s2 n false).
(** MM2Q.h:975-985 remove. *)
Definition remove (s : mm) (n : node) : option (mm * bool) :=
  if negb (inMM s n) then Some (s, false)
  else let* s1 := removeLocked s n true in Some (s1, true).

(** MultiDList.h:245-258 initToValidRBeginFrom, from list [k-1] downwards; an iterator is a list
    index and a node, the end is [None]. *)
Definition iter := option (nat * node).
Fixpoint rbeginFrom (s : mm) (k : nat) : option iter :=
  match k with
  | O => Some None
  | S j => if size (lst s j) =? 0 then rbeginFrom s j
           else match tail (lst s j) with
                | Some n => Some (Some (j, n))
                | None => None (* the iterator would point at null *)
                end
  end.
(** MultiDList.h:188-191, 269-273 rbegin. *)
Definition rbegin (s : mm) : option iter := rbeginFrom s NumTypes.
(** MultiDList.h:205-219 goForward: lists [k-1], ..., 0 after the end of the current one. *)
Fixpoint skipEmpty (s : mm) (k : nat) : iter :=
  match k with
  | O => None
  | S j => match tail (lst s j) with Some n => Some (j, n) | None => skipEmpty s j end
  end.
Definition goForward (s : mm) (it : iter) : iter :=
  match it with
  | None => None
  | Some (i, n) => match prv (wheap (wd s)) n with
                   | Some p => Some (i, p)
                   | None => skipEmpty s i
                   end
  end.
(** Iterating to the end; [None]: more than [fuel] items. *)
Fixpoint walkIt (fuel : nat) (s : mm) (it : iter) : option (list node) :=
  match it with
  | None => Some []
  | Some (_, n) => match fuel with
                   | O => None
                   | S f => let* r := walkIt f s (goForward s it) in Some (n :: r)
                   end
  end.
(** MM2Q.h:902-920: the order in which an eviction iterator offers items. *)
Definition evictionOrder (s : mm) : option (list node) :=
  let* it := rbegin s in walkIt (total s) s it.

(** MM2Q.h:987-998 remove(Iterator&): the iterator is advanced first; no rebalance. *)
Definition removeIt (s : mm) (it : iter) : option (mm * iter) :=
  match it with
  | None => None
  | Some (_, n) => let nx := goForward s it in let* s1 := removeLocked s n false in Some (s1, nx)
  end.
(** An eviction: iterate from rbegin() to the item [n], then remove(it). *)
Fixpoint seek (fuel : nat) (s : mm) (it : iter) (n : node) : option iter :=
  match it with
  | None => None
  | Some (_, x) => if x =? n then Some it
                   else match fuel with O => None | S f => seek f s (goForward s it) n end
  end.
Definition evict (s : mm) (n : node) : option (mm * iter) :=
  let* it := rbegin s in let* jt := seek (total s) s it n in removeIt s jt.

(** MM2Q.h:1000-1040 replace. *)
Definition replace (s : mm) (o n : node) : mm * bool :=
  if negb (inMM s o) || inMM s n then (s, false)
  else
    let t := utime s o in
    let ty := getLruType s o in
    let s1 := lcall s (Replace ty o n) in
    let s2 := if ty =? Hot then setHot s1 n true
              else if ty =? ColdTail then setCold (setTail s1 n true) n true
              else if ty =? Cold then setCold s1 n true
              else if ty =? WarmTail then setTail s1 n true
              else s1 in
    (setTime (setIn (setIn s2 o false) n true) n t, true).

(** MM2Q.h:817-823 getOldestAgeLocked(WarmTail): the tail of the first non-empty list among
    WarmTail, Warm. *)
Definition oldestWarmAge (s : mm) (now : N) : option N :=
  let* it := rbeginFrom s (S WarmTail) in
  Some (match it with Some (_, n) => wrap32 (now + 2 ^ 32 - utime s n)%N | None => 0%N end).
(** MM2Q.h:671 kLruRefreshTimeCap. *)
Definition refreshCap : N := 900.
(** MM2Q.h:1106-1122 reconfigureLocked. *)
Definition reconfigure (s : mm) (now : N) : option mm :=
  if (now <? nextReconf s)%N then Some s
  else
    let* age := oldestWarmAge s now in
    Some (setCfg s (cfg s) (N.min (N.max (defRefresh (cfg s)) (ratio (cfg s) age)) refreshCap)
            (wrap32 (now + interval (cfg s))) (cnt s)).

Definition addCnt (s : mm) (f : counters -> counters) : mm :=
  setCfg s (cfg s) (refresh s) (nextReconf s) (f (cnt s)).

(** MM2Q.h:709-745 the critical section of recordAccess ([func]). *)
Definition accessLocked (s0 : mm) (n : node) (now : N) : option (mm * bool) :=
  let* s := reconfigure s0 now in
  if negb (inMM s n) then Some (s, false)
  else
    let* s1 :=
      (if hot s n then
         Some (addCnt (lcall s (MoveToHead Hot n))
                 (fun c => mkCnt (S (nHot c)) (nCold c) (nWarm c) (nWarmTail c) (nColdTail c)))
       else if cold s n then
         let s1 := if inTail s n
                   then addCnt (lcall (setTail s n false) (Remove ColdTail n))
                          (fun c => mkCnt (nHot c) (nCold c) (nWarm c) (nWarmTail c) (S (nColdTail c)))
                   else lcall s (Remove Cold n) in
         let s2 := setCold (lcall s1 (LinkAtHead Warm n)) n false in
         let s3 := addCnt s2 (fun c => mkCnt (nHot c) (S (nCold c)) (nWarm c) (nWarmTail c) (nColdTail c)) in
         if rebalOnAccess (cfg s3) then rebalance s3 else Some s3
       else
         let s1 := if inTail s n
                   then addCnt (lcall (lcall (setTail s n false) (Remove WarmTail n)) (LinkAtHead Warm n))
                          (fun c => mkCnt (nHot c) (nCold c) (nWarm c) (S (nWarmTail c)) (nColdTail c))
                   else lcall s (MoveToHead Warm n) in
         Some (addCnt s1 (fun c => mkCnt (nHot c) (nCold c) (S (nWarm c)) (nWarmTail c) (nColdTail c)))) in
    Some (setTime s1 n now, true).

(** MM2Q.h:695-708 the unlocked part of recordAccess. *)
Definition accessCheck (s : mm) (n : node) (write : bool) (now : N) : bool :=
  if (write && negb (updOnWrite (cfg s))) || (negb write && negb (updOnRead (cfg s))) then false
  else inMM s n && (wrap32 (utime s n + refresh s) <=? now)%N.
(** MM2Q.h:692-763 recordAccess, lock obtained, no interference. *)
Definition recordAccess (s : mm) (n : node) (write : bool) (now : N) : option (mm * bool) :=
  if accessCheck s n write now then accessLocked s n now else Some (s, false).

(** MM2Q.h:374-385 / 957-966: the time of the next reconfiguration. *)
Definition TIME_MAX : N := 2 ^ 32 - 1.
Definition nextTime (c : conf) (now : N) : N :=
  if (interval c =? 0)%N then TIME_MAX else wrap32 (now + interval c).
(** MM2Q.h:947-968 setConfig (the Config constructor's checkLruSizes included); false: exception. *)
Definition setConfig (s : mm) (c : conf) (now : N) : mm * bool :=
  if negb (checkLruSizes c) then (s, false)
  else if negb (tailTrack s) && (0 <? tailSize c) then (s, false)
  else if tailTrack s && (tailSize c =? 0) then (s, false)
  else (setCfg s c (defRefresh c) (nextTime c now) (cnt s), true).

(** MM2Q.h:682-695, 1068-1084 saveState and the restoring constructor (the lists and the flags are in
    shared memory; tail size and reconfiguration interval are not saved), then
    CacheAllocator.h:6062-6066 addExtraConfig([t]) and setConfig.  If that throws, the restart
    fails and the saved state is what it was. *)
Definition restart (s : mm) (t : nat) (now : N) : mm * bool :=
  let c := cfg s in
  let c1 := mkConf (refresh s) (ratio c) (updOnWrite c) (updOnRead c) (rebalOnAccess c) (hotPct c) (coldPct c) 0 0 in
  let s1 := setCfg s c1 (refresh s) (nextTime c1 now) cnt0 in
  let c2 := mkConf (refresh s) (ratio c) (updOnWrite c) (updOnRead c) (rebalOnAccess c) (hotPct c) (coldPct c) t 0 in
  match setConfig s1 c2 now with
  | (s2, true) => (s2, true)
  | (_, false) => (s, false)
  end.

(** CacheItem construction: a newly allocated item has all flags clear (Refcount.h, C01). *)
Definition fresh (s : mm) (n : node) : mm := setTail (setCold (setHot s n false) n false) n false.

(** MM2Q.h:374-385: an empty container. *)
Definition initMM (c : conf) (now : N) : mm :=
  mkMM initWorld (fun _ => false) (fun _ => false) (fun _ => false) (fun _ => false) (fun _ => 0%N)
    c (0 <? tailSize c) (defRefresh c) (nextTime c now) cnt0.

(** The calls. *)
Inductive mcall :=
| MFresh (n : node)                                  (* the item is (re)allocated *)
| MAdd (n : node) (now : N) | MRemove (n : node)
| MEvict (n : node)                                  (* eviction iterator walked to n, remove(it) *)
| MReplace (o n : node)
| MAccessCheck (n : node) (write : bool) (now : N)   (* unlocked pre-check *)
| MAccessLocked (n : node) (now : N)                 (* critical section of an access *)
| MRecordAccess (n : node) (write : bool) (now : N)
| MSetConfig (c : conf) (now : N)
| MRestart (t : nat) (now : N).
Inductive mout := MBool (b : bool) | MPtr (p : ptr) | MUnit.

Definition mexec (s : mm) (c : mcall) : option (mm * mout) :=
  match c with
  | MFresh n => Some (fresh s n, MUnit)
  | MAdd n now => let* (s1, b) := add s n now in Some (s1, MBool b)
  | MRemove n => let* (s1, b) := remove s n in Some (s1, MBool b)
  | MEvict n => let* (s1, it) := evict s n in Some (s1, MPtr (option_map snd it))
  | MReplace o n => let (s1, b) := replace s o n in Some (s1, MBool b)
  | MAccessCheck n w now => Some (s, MBool (accessCheck s n w now))
  | MAccessLocked n now => let* (s1, b) := accessLocked s n now in Some (s1, MBool b)
  | MRecordAccess n w now => let* (s1, b) := recordAccess s n w now in Some (s1, MBool b)
  | MSetConfig c now => let (s1, b) := setConfig s c now in Some (s1, MBool b)
  | MRestart t now => let (s1, b) := restart s t now in Some (s1, MBool b)
  end.
Fixpoint mexecs (s : mm) (cs : list mcall) : option (mm * list mout) :=
  match cs with
  | [] => Some (s, [])
  | c :: r => let* (s1, o) := mexec s c in let* (s2, os) := mexecs s1 r in Some (s2, o :: os)
  end.
