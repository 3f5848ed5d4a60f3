(** Model of how the object cache limits its size
    (/repo/cachelib/object_cache/ObjectCache.h, ObjectCacheSizeController.h).

    The object cache keeps one record (pointer and size of the object) per entry, in slots of one
    size; a shard is a pool of the cache underneath, with a fixed number of slots.  It limits the
    number of entries by holding slots itself ("placeholders"), and the size controller changes
    their number.

    Numbers are integers; what the code computes in size_t is reduced modulo 2^64 by [wr].

    The cache underneath is reduced to the slots of each shard: free, held by a placeholder, of an
    entry in the index, or of an item that is referred to but not in the index (allocated and not
    yet inserted; removed or replaced and still used).  If there is no free slot an allocation
    evicts an entry of the same shard, or fails; which one is chosen by the schedule ([ev]),
    it depends on handles and on the eviction policy.  A replace leaves all the counts as they are
    and is left out, expiry is a removal.  One iteration of the loops of the controller is
    one step; other threads run between any two.  Not modelled: throttling, counters, the
    fragmentation of the heap (getTotalObjSizeBytes: the reading of the total is any number). *)
From Coq Require Import List ZArith Bool Lia.
Import ListNotations.
Open Scope Z_scope.

Definition wr (x : Z) : Z := x mod 2 ^ 64.
Definition w32 (x : Z) : Z := x mod 2 ^ 32.
Definition slabSize : Z := 2 ^ 22.        (* Slab::kSize, Slab.h *)
Definition recSize : Z := 16.             (* sizeof(ObjectCacheItem): objectPtr, objectSize *)

(** ** The layout of an entry *)

(** extraBytesForLargeKeys (KAllocation.h:66-68): keys over 255 bytes have their length before them. *)
Definition extra (k : Z) : Z := if k <=? 255 then 0 else 4.
(** getValueAlignmentPadding (ObjectCache.h:224-226) *)
Definition pad (k : Z) : Z := (- k) mod 8.
(** getRequiredSize (CacheItem.h:633-643); [hdr] is sizeof(Item). *)
Definition required (hdr k v : Z) : Z :=
  let r := v + k + hdr + extra k in if r >? 2 ^ 32 - 1 then 0 else r.
(** getAlignedSize(x, 8) (Utils.h:274-278) *)
Definition align8 (x : Z) : Z := let rem := x mod 8 in if rem =? 0 then x else x + 8 - rem.
(** getL1AllocSize (ObjectCache.h:1237-1246) *)
Definition allocSize (hdr maxKey : Z) : Z :=
  let r := required hdr maxKey (recSize + pad maxKey) in
  if r <=? 64 then 64 else w32 (align8 r).
(** getMemory (KAllocation.h:159): the value starts after header, length of a large key, and key. *)
Definition valueAt (hdr base k : Z) : Z := base + hdr + extra k + k.
(** getAlignedItemPtr, getValueAlignmentOffset (ObjectCache.h:229-246) *)
Definition recordAt (hdr base k : Z) : Z :=
  let m := valueAt hdr base k in m + wr (align8 m - m).
(** allocateFromL1 (ObjectCache.h:1209-1220): the size asked for the value. *)
Definition valueSize (k : Z) : Z := recSize + pad k.
(** What insert adds to totalKeyPaddingBytes_ (ObjectCache.h:1132, 1196) and what the destruction
    takes from it (getPaddingBytes, 759-762, 858, 892). *)
Definition padAdded (k : Z) : Z := pad k.
Definition padTaken (hdr base k : Z) : Z := recordAt hdr base k - valueAt hdr base k.

(** ** Capacity *)

(** getDivCeiling (Utils.h:289-292), the divisor being an uint32_t. *)
Definition divCeil (a b : Z) : Z := wr (wr (a + w32 b) - 1) / w32 b.

Record capacity := mkCap {
  cSlabs : Z;        (* slabsPerShard *)
  cPerSlab : Z;      (* allocsPerSlab *)
  cPerShard : Z;     (* allocsPerShard *)
  cPool : Z;         (* perPoolSize *)
  cTotal : Z         (* totalCacheSize *)
}.
(** calculateCacheCapacity (ObjectCache.h:1249-1275); its DCHECKs are not in a release build. *)
Definition calcCapacity (limit shards size : Z) : capacity :=
  let perSlab := slabSize / size in
  let perShard := divCeil limit shards in
  let slabs := divCeil perShard perSlab in
  let pool := wr (slabs * slabSize) in
  let total := wr (wr (pool * shards) + slabSize) in
  mkCap slabs perSlab perShard pool total.
(** init (ObjectCache.h:957-978): the number of placeholders. *)
Definition initPlaceholders (limit shards size : Z) : Z :=
  let c := calcCapacity limit shards size in
  let perShard := wr (wr (cSlabs c * cPerSlab c) - cPerShard c) in
  let extraLimit := wr (wr (cPerShard c * shards) - limit) in
  wr (wr (perShard * shards) + extraLimit).

(** ** The controller *)

Inductive ctlMode := FreeMemory | ResidentMemory | ObjectSize | FreeMemoryOnly.

Record conf := mkConf {
  shards : Z;          (* l1NumShards *)
  slots : Z;           (* slots of a shard: slabsPerShard * allocsPerSlab *)
  entLimit : Z;        (* l1EntriesLimit *)
  mode : ctlMode;      (* memoryMode *)
  lower : Z;           (* lowerLimitBytes *)
  upper : Z;           (* upperLimitBytes *)
  shrinkBy : Z;        (* shrinkCacheBy *)
  expandBy : Z         (* expandCacheBy *)
}.

Inductive plan := PIdle | PShrink (n : Z) | PExpand (n : Z) | PEnsure.

(** work (ObjectCacheSizeController.h:126-262).  [lim] is currentEntriesLimit_, [sizeLim]
    totalObjectSizeLimit_, [num] getNumEntries, [total] the total object size, [fm] and [rss]
    what getFreeMemBytes and getRSSMemBytes return. *)
Definition warming (c : conf) (lim sizeLim num total : Z) : bool :=
  (total <? wr (50 * sizeLim) / 100) && (num <? wr (50 * entLimit c) / 100) && (num <? lim).
(** lines 188-241: the new limit before it is capped *)
Definition target (c : conf) (sizeLim num avg fm rss : Z) : Z :=
  let new := sizeLim / avg in
  match mode c with
  | FreeMemory =>
    if fm <? lower c then Z.min new (wr (num - wr (lower c - fm) / avg))
    else if upper c <? fm then Z.min new (wr (num + wr (upper c - fm) / avg))
    else new
  | ResidentMemory =>
    if upper c <? rss then Z.min new (wr (num - wr (rss - upper c) / avg))
    else if rss <? lower c then Z.min new (wr (num + wr (lower c - rss) / avg))
    else new
  | _ => new
  end.
Definition work (c : conf) (lim sizeLim num total fm rss : Z) : plan :=
  match mode c with
  | FreeMemoryOnly =>
    if fm <? lower c then PEnsure
    else if upper c <? fm then PExpand (expandBy c) else PIdle
  | _ =>
    if num =? 0 then PIdle
    else if warming c lim sizeLim num total then PIdle
    else
      let avg := total / num in
      if avg =? 0 then PIdle
      else
        let new := Z.min (target c sizeLim num avg fm rss) (entLimit c) in
        if (new <? lim) && (new <=? num) then PShrink (lim - new)
        else if (lim <? new) && (num =? lim) then PExpand (new - lim)
        else PIdle
  end.

(** Where the controller thread is. *)
Inductive cpc :=
| CIdle
| CShrink (n : Z) (ens : bool)   (* shrinkCacheByEntriesNum, n iterations left; called by ensureFreeMemory... *)
| CExpand (n : Z).               (* expandCacheByEntriesNum *)

Record state := mkSt {
  ent : Z -> Z;          (* entries of a shard in the index *)
  held : Z -> Z;         (* slots of items outside the index *)
  ph : list Z;           (* placeholders_, the shard of each *)
  lim : Z;               (* currentEntriesLimit_ *)
  sizeLim : Z;           (* totalObjectSizeLimit_ *)
  ctl : cpc;
  answers : list (Z * bool)   (* the allocations for the user so far: shard, success *)
}.

Definition upd (f : Z -> Z) (p v : Z) : Z -> Z := fun q => if q =? p then v else f q.
Fixpoint cnt (p : Z) (l : list Z) : Z :=
  match l with [] => 0 | q :: l => (if q =? p then 1 else 0) + cnt p l end.
Definition free (c : conf) (s : state) (p : Z) : Z := slots c - ent s p - held s p - cnt p (ph s).

(** sum of [f] over the shards *)
Fixpoint sumTo (f : Z -> Z) (n : nat) : Z :=
  match n with O => 0 | S n => sumTo f n + f (Z.of_nat n) end.
(** getNumEntries (ObjectCache.h:453-455) *)
Definition numEntries (c : conf) (s : state) : Z := sumTo (ent s) (Z.to_nat (shards c)).

(** A slot of shard [p]: a free one or one of an evicted entry. *)
Definition alloc (c : conf) (s : state) (p : Z) (ev : bool) : option (Z -> Z) :=
  if 0 <? free c s p then Some (ent s)
  else if ev && (0 <? ent s p) then Some (upd (ent s) p (ent s p - 1))
  else None.

(** the shard of the next placeholder (allocatePlaceholder, ObjectCache.h:1223-1234) *)
Definition nextShard (c : conf) (s : state) : Z := Z.of_nat (length (ph s)) mod shards c.

Inductive action :=
| UAlloc (p : Z) (ev : bool)   (* a user inserts an object: a slot is allocated *)
| UPublish (p : Z)             (* ... and the item inserted into the index *)
| UUnlink (p : Z)              (* an entry is removed, replaced or expires *)
| URelease (p : Z)             (* the last reference to an item outside the index goes away *)
| USetLimit (l : Z)            (* setTotalObjectSizeLimit *)
| CStart (total fm rss : Z)    (* the controller runs *)
| CStep (ev : bool) (fm : Z).  (* one iteration of its loop *)

Definition inRange (c : conf) (p : Z) : bool := (0 <=? p) && (p <? shards c).

(** None: not possible in this state, or undefined behaviour (pop_back of an empty vector). *)
Definition step (c : conf) (s : state) (a : action) : option state :=
  match a with
  | UAlloc p ev =>
    (* allocateFromL1 (ObjectCache.h:1209-1220) *)
    if inRange c p then
      match alloc c s p ev with
      | Some e => Some (mkSt e (upd (held s) p (held s p + 1)) (ph s) (lim s) (sizeLim s) (ctl s) (answers s ++ [(p, true)]))
      | None => Some (mkSt (ent s) (held s) (ph s) (lim s) (sizeLim s) (ctl s) (answers s ++ [(p, false)]))
      end
    else None
  | UPublish p =>
    if inRange c p && (0 <? held s p) then
      Some (mkSt (upd (ent s) p (ent s p + 1)) (upd (held s) p (held s p - 1)) (ph s) (lim s) (sizeLim s) (ctl s) (answers s))
    else None
  | UUnlink p =>
    if inRange c p && (0 <? ent s p) then
      Some (mkSt (upd (ent s) p (ent s p - 1)) (upd (held s) p (held s p + 1)) (ph s) (lim s) (sizeLim s) (ctl s) (answers s))
    else None
  | URelease p =>
    if inRange c p && (0 <? held s p) then
      Some (mkSt (ent s) (upd (held s) p (held s p - 1)) (ph s) (lim s) (sizeLim s) (ctl s) (answers s))
    else None
  | USetLimit l =>
    (* ObjectCache.h:532-538 *)
    if 0 <? l then Some (mkSt (ent s) (held s) (ph s) (lim s) l (ctl s) (answers s)) else Some s
  | CStart total fm rss =>
    match ctl s with
    | CIdle =>
      let pc := match work c (lim s) (sizeLim s) (numEntries c s) total fm rss with
                | PIdle => CIdle
                | PShrink n => CShrink n false
                | PEnsure => CShrink 0 true    (* it reads the free memory again: next step *)
                | PExpand n =>
                  (* expandCacheByEntriesNum (ObjectCacheSizeController.h:299-312) *)
                  let n := Z.min n (Z.of_nat (length (ph s))) in
                  let maxExpand := if lim s <? entLimit c then entLimit c - lim s else 0 in
                  CExpand (Z.min n maxExpand)
                end in
      Some (mkSt (ent s) (held s) (ph s) (lim s) (sizeLim s) pc (answers s))
    | _ => None
    end
  | CStep ev fm =>
    match ctl s with
    | CIdle => None
    | CShrink n ens =>
      if n <=? 0 then
        (* ensureFreeMemoryAboveLowerLimit (361-369) reads again; otherwise done *)
        Some (mkSt (ent s) (held s) (ph s) (lim s) (sizeLim s)
                (if ens && (fm <? lower c) then CShrink (shrinkBy c) true else CIdle) (answers s))
      else
        (* 278-288 *)
        match alloc c s (nextShard c s) ev with
        | Some e => Some (mkSt e (held s) (ph s ++ [nextShard c s]) (wr (lim s - 1)) (sizeLim s) (CShrink (n - 1) ens) (answers s))
        | None => Some (mkSt (ent s) (held s) (ph s) (lim s) (sizeLim s) (CShrink (n - 1) ens) (answers s))
        end
    | CExpand n =>
      if n <=? 0 then Some (mkSt (ent s) (held s) (ph s) (lim s) (sizeLim s) CIdle (answers s))
      else match ph s with
           | [] => None
           | _ => Some (mkSt (ent s) (held s) (removelast (ph s)) (wr (lim s + 1)) (sizeLim s) (CExpand (n - 1)) (answers s))
           end
    end
  end.

Fixpoint run (c : conf) (s : state) (l : list action) : option state :=
  match l with
  | [] => Some s
  | a :: l => match step c s a with Some s' => run c s' l | None => None end
  end.

(** After init (ObjectCache.h:957-982): the placeholders are put round robin, all slots being free. *)
Definition initPh (c : conf) (n : nat) : list Z := map (fun i => Z.of_nat i mod shards c) (seq 0 n).
Definition init (c : conf) (sl : Z) : state :=
  mkSt (fun _ => 0) (fun _ => 0) (initPh c (Z.to_nat (shards c * slots c - entLimit c))) (entLimit c) sl CIdle [].
