# Formal model of facebook/CacheLib in Rocq (Coq 8.16.1)

## Layout

`rocq/theories/<Comp>_model.v`  executable Gallina model of one component; every definition cites `/repo` file:lines.
`rocq/theories/<Comp>_spec.v`   (where the property needs one) the small, separate specification.
`rocq/theories/<Comp>_proofs.v` lemmas and proofs.
`rocq/theories/<Comp>_props.v`  only the property theorems (`exact lemma`), `Print Assumptions`, and non-vacuity Examples.

## Plan per property (initial)

| id | model | proof method |
|----|-------|--------------|
| C01 | Refcount word as `N` with masks; each atomic RMW a function | bit lemmas, case analysis |
| C02 | threads with program counters doing load / CAS steps on a shared word plus ghost ownership | inductive invariant over interleavings |
| C03 | bucket array of chains (list of items per bucket, hash a section variable) | refinement to a finite map |
| C04 | heap of nodes with next/prev, head/tail/size | representation predicate, refinement to `list` |
| C05-C07 | container state over lists with marks | invariant by induction over ops |
| C08 | bit-field packing in `N` | round trip and injectivity |
| C09,C10 | slabs, free lists, current slab/offset, released-allocation map | inductive invariant |
| C11 | lower_bound on sorted list | direct |
| C12 | pool accounting counters | inductive invariant |
| C13,C14 | field arithmetic with explicit 32-bit wrap | direct |
| C15 | chain as parent->head compressed ptr map, next links | refinement to list |
| C16 | threads x items step relation over index/container/refcount | inductive invariant over interleavings |
| C17 | asynchronous state machine of one key: RAM, tombstones, put token, fill ctx, job queue, flash | inductive invariant over interleavings |
| C18 | NvmItem byte layout | round trip |
| C19 | flags NvmClean / NvmEvicted / itemRemoved + copies | invariant, refutation if race found |
| C20-C22 | byte-level BucketStorage, entries, buckets on a device with failures | refinement to list / lossy map |
| C23,C24,C25 | arrays as functions / lists, hash as section variable | invariants over op lists |
| C26-C31 | index + regions + allocator state machines | invariants / refinement |
| C32 | two engines as oracles with statuses | refinement to lossy map |
| C33 | shards with job queues, per-key wait lists | invariant over interleavings |
| C34 | div/mod mapping | bijection, round trip |
| C35 | counters with atomic steps | invariant over interleavings |
| C36,C37 | byte/array models | refinement to maps |
| C38 | decision functions over stats | direct |
| C39,C40 | arithmetic | direct |

All can be expressed at least in part.  What a model cannot carry (weak memory ordering, real I/O timing, the
allocator of the C++ runtime, floating point in heuristics) is named with each claim below and in MANIFEST.json.

## How the theorems are to be read

* **Model.** Gallina functions (sequential code) or step relations / step functions (concurrent code).  Concurrent
  models interleave at the granularity of critical sections and single atomic accesses outside them, for any number
  of threads; memory is sequentially consistent (C++ memory orders are not modelled).
* **Undefined behaviour** (out-of-bounds access, signed overflow, dereferencing end(), a failed assertion or XDCHECK)
  is a distinct outcome of the model (`None`, `UB`, ...), not a default value, and theorems say that it does not
  happen or under which condition.
* **Environment** (device faults, clocks, hash functions, admission policies, user callbacks, allocation failures)
  is universally quantified: an argument, a section variable that becomes a universally quantified argument of the
  theorem, or a nondeterministic choice of a step.
* **Integers** are `Z`/`N`/`nat` with the wrap-around of the C++ type written out where it can matter; where a model
  uses unbounded numbers the note of the property says so.
* **Refutations.** A theorem `..._refuted` exhibits a concrete run of the model in which a natural stronger claim is
  false.  They are findings about the code (as modelled) and show that the hypotheses of the positive theorems cannot
  be dropped.
* **Non-vacuity.** Each `_props.v` file has Examples in which the hypotheses of its theorems are met by a concrete,
  non-trivial run (computed by the kernel).
* **Wrong programs.** seeded/LOG.jsonl lists the edits to the model that were tried, with the theorems that failed.

## Trusted base

* Coq's kernel (8.16.1), including its bytecode conversion (`vm_compute` is used in Examples, refutations and a few
  closed computations).
* The hand-written model: that each definition does what the cited lines of /repo do, up to the simplifications
  written in its comment.
* What is assumed of libraries is stated as specification in the model: `std::lower_bound`, `std::sort`,
  `std::map`/`unordered_map`, `tsl::sparse_map`, folly locks and batons, IEEE doubles (as Coq's SpecFloat or an exact
  integer soft-float), Thrift serialisation (as the identity on records).
* No axioms, no functors, no module types of our own, no plugins; `Print Assumptions` for every theorem of
  MANIFEST.json prints `Closed under the global context`.  (The gate's list of library axioms names fields of a
  module type in Coq's ssr library that is loaded by mathcomp/ssreflect; nothing depends on them.)

<!-- generated below by mkdesign.py -->

## Per property: what is modelled, how it is proved, what is not modelled

Every theorem named in MANIFEST.json is reported by `Print Assumptions` as `Closed under the global context`: no axiom, of the standard library or otherwise, is used.  The model files of a property are those its theorems depend on; the code they model is cited in each definition (file:lines in /repo).

### C01 Taking and dropping handles never corrupts an item's state word

* status: proved; 6 theorems (0 of them refutations of a stronger claim)
* model and specification: `Bytes.v`, `Refcount_model.v`, `Refcount_spec.v`
* code modelled: Refcount.h
* Bit-exact 32-bit word; every operation of Refcount.h on every word and every call sequence.

### C02 Eviction/move exclusivity against concurrent handles

* status: proved; 10 theorems (0 of them refutations of a stronger claim)
* model and specification: `Bytes.v`, `Refcount_model.v`, `Refcount_spec.v`
* code modelled: Refcount.h
* Threads interleave at load/CAS granularity (sequentially consistent; C++ memory orders not modelled). Client rule: drop only held handles, end only owned exclusivity. Includes linearisation of every call.

### C03 The RAM index behaves as a map

* status: proved; 5 theorems (1 of them refutations of a stronger claim)
* model and specification: `Bytes.v`, `HashTable_model.v`, `HashTable_spec.v`
* code modelled: ChainedHashTable.h, Mutex.h
* Pointer-level ChainedHashTable; every interleaving of critical sections with stale unlocked checks, any hash function/collisions, throwing handle makers, memory reuse. Guard (no two racing insertOrReplace of one item) shown necessary by C03_same_item_race_refuted.

### C04 Intrusive doubly linked list refines a sequence

* status: proved; 2 theorems (0 of them refutations of a stronger claim)
* model and specification: `DList_model.v`, `DList_spec.v`
* code modelled: DList.h
* Pointer-level heap model of DList; any number of lists sharing nodes; every legal call sequence.

### C05 LRU eviction order and insertion point

* status: proved; 6 theorems (0 of them refutations of a stronger claim)
* model and specification: `Bytes.v`, `DList_model.v`, `DList_spec.v`, `MMLru_model.v`, `MMLru_spec.v`
* code modelled: DList.h, MMLru.h
* MMLru over the pointer-level DList; every call history incl. unlocked access pre-check; insertion point spec < 64 (larger shift is UB). C05_insertion_point needs a fixed configuration (setConfig re-targets lazily); reconfigureLocked's refresh-time formula abstracted to an arbitrary setConfig.

### C06 2Q queue discipline

* status: proved; 9 theorems (1 of them refutations of a stronger claim)
* model and specification: `Bytes.v`, `DList_model.v`, `DList_spec.v`, `MM2Q_model.v`, `MM2Q_spec.v`
* code modelled: CacheAllocator.h, DList.h, MM2Q.h, MultiDList.h, Refcount.h
* MM2Q.h and MultiDList.h iterator on the pointer-level DList model. Every history of add/remove/evict-through-iterator/replace/access (pre-check and critical section separately)/setConfig/restart, any percentages, tail sizes and times, refines three abstract queues; membership, scan resistance, size bounds, promotion order, 100% hot = LRU. Requires that replace() gets a newly allocated item; without that the property is refuted (stale flags).

### C07 TinyLFU admission queue discipline

* status: proved; 10 theorems (1 of them refutations of a stronger claim)
* model and specification: `Bytes.v`, `CountMin_model.v`, `CountMin_spec.v`, `DList_model.v`, `DList_spec.v`, `MMLru_model.v`, `MMLru_spec.v`, `MMTinyLFU_model.v`, `MMTinyLFU_spec.v`
* code modelled: CountMinSketch.h, DList.h, MMLru.h, MMTinyLFU.h, MultiDList.h
* MMTinyLFU.h on the pointer-level DList model and the CountMinSketch model, for arbitrary hashes, counter formula, configuration and times. Every history of add/remove/evict-through-iterator/replace/access (pre-check and critical section separately)/setConfig/restart refines two abstract queues with a counted history; membership, eviction choice by estimate, admission only by higher estimate, tiny share bound, estimate lower bound, window bound. Requires at most 2^29 counters per row: beyond that (about 31M items with window ratio 32) the claim is refuted with the real formula (table size wraps to 0).

### C08 Compressed item pointers are lossless

* status: proved; 7 theorems (2 of them refutations of a stronger claim)
* model and specification: `Bytes.v`, `Compress_model.v`, `Compress_spec.v`
* code modelled: CompressedPtr.h, Slab.h, SlabAllocator.cpp, SlabAllocator.h
* 4-byte and 5-byte encodings bit-exact; round trip for every allocation of every allocator within getMaxAddressableSize(); single-tier layout (what PtrCompressor passes). With tiers the fields are recovered below 2^15 / 2^22 slabs (C08_tiers), and the advertised limit is too large there (C08_tiered_limit_refuted).

### C09 Live allocations never overlap and stay in their slab

* status: proved; 8 theorems (0 of them refutations of a stronger claim)
* model and specification: `AllocClass_model.v`, `AllocClass_spec.v`, `Bytes.v`, `Compress_model.v`, `Pool_model.v`, `Pool_spec.v`
* code modelled: AllocationClass.cpp, AllocationClass.h, CompressedPtr.h, MemoryPool.cpp, MemoryPool.h, MemoryPoolManager.cpp, Slab.h, SlabAllocator.cpp, SlabAllocator.h
* AllocationClass, MemoryPool and SlabAllocator: every interleaving of allocate/free/slab acquire/release/rebalance/advise/reclaim over any number of classes and pools, at lock/atomic granularity. Each class of the allocator refines the single-class histories of C09/C10.

### C10 Slab release completes only when every allocation is freed

* status: proved; 7 theorems (1 of them refutations of a stronger claim)
* model and specification: `AllocClass_model.v`, `AllocClass_spec.v`, `Bytes.v`, `Compress_model.v`
* code modelled: AllocationClass.cpp, AllocationClass.h, CompressedPtr.h, MemoryPool.cpp, Slab.h, SlabAllocator.cpp, SlabAllocator.h
* Every interleaving of the critical sections of allocate/free/startSlabRelease (incl. batched pruning and aborts)/complete/abort/probe/iterate/save-restore. C10_abort_restores_capacity_refuted: after a prune abort allocate() can keep failing although memory is free.

### C11 Allocation class selection is the smallest fit

* status: proved; 2 theorems (0 of them refutations of a stronger claim)
* model and specification: `AllocClass_model.v`, `AllocClass_spec.v`, `Bytes.v`, `Compress_model.v`, `Pool_model.v`, `Pool_spec.v`
* code modelled: AllocationClass.cpp, AllocationClass.h, CompressedPtr.h, MemoryPool.cpp, MemoryPool.h, MemoryPoolManager.cpp, Slab.h, SlabAllocator.cpp, SlabAllocator.h
* getAllocationClassId(size) on every sorted size list; std::lower_bound taken as its specification. generateAllocSizes (floating point) not modelled.

### C12 Pool memory limits and conservation

* status: proved; 14 theorems (3 of them refutations of a stronger claim)
* model and specification: `AllocClass_model.v`, `AllocClass_spec.v`, `Bytes.v`, `Compress_model.v`, `Pool_model.v`, `Pool_spec.v`
* code modelled: AllocationClass.cpp, AllocationClass.h, CompressedPtr.h, MemoryPool.cpp, MemoryPool.h, MemoryPoolManager.cpp, Slab.h, SlabAllocator.cpp, SlabAllocator.h
* Counters are wrapping 64-bit. Pool limit needs: pool not shrunk, no release straight from a pool's free list (C12_*_free_list_release_refuted: the counter wraps), no advise between the two reads of the limit check (C12_limit_with_racing_advise_refuted). Conservation and one-place hold unconditionally. Includes MemoryPoolManager sizes and advise/reclaim arithmetic.

### C13 Item key/value layout

* status: proved; 8 theorems (1 of them refutations of a stronger claim)
* model and specification: `Bytes.v`, `Item_model.v`, `Item_spec.v`
* code modelled: CacheAllocator.h, CacheItem.h, KAllocation.h, MemoryPool.cpp
* Byte-exact model of KAllocation/CacheItem/CacheChainedItem. Accessors refine the abstract (key,value,creation,expiry) record under every history of in-bounds writes; acceptance characterised exactly; chained items likewise. Refuted: the sampling path may look up a key ending up to 4 bytes behind the slot (proved tight).

### C14 Expired items are never served

* status: proved; 8 theorems (4 of them refutations of a stronger claim)
* model and specification: `Bytes.v`, `Expiry_model.v`, `Expiry_spec.v`
* code modelled: CacheAllocator.h, CacheItem.h, NvmCache.h, NvmItem.cpp, Reaper.h, Time.h
* RAM+flash lookups, TTL arithmetic, thread-local stale time, reaper. Refuted sub-claims: inspectCache serves expired items, 32-bit TTL overflow, clock set back, insert() blocked by an expired item. Races between operations are not part of this model.

### C15 Chained allocations form a LIFO chain owned by one parent

* status: proved; 10 theorems (2 of them refutations of a stronger claim)
* model and specification: `Bytes.v`, `Chain_model.v`, `Chain_spec.v`, `DList_model.v`, `DList_spec.v`
* code modelled: CacheAllocator.h, CacheChainedItemIterator.h, CacheItem.h, ChainedHashTable.h, DList.h
* Model of allocate/add/pop/transfer/replace/release/evict/slab-release move on the item fields (refcount, flags, parent key, next pointers, chained access container as a map). Each operation is atomic (runs under the parent's chained item lock); compressed pointers, hash table and eviction containers are abstracted (C08, C03, C05-C07). Two natural claims are refuted: adding a child that names another parent leaks it (addChainedItem does not check), and a slab-release move that loses the race frees the chain without callback.

### C16 An item's memory is reused only after the last handle is gone, and exactly once

* status: proved; 15 theorems (5 of them refutations of a stronger claim)
* model and specification: `Lifetime_model.v`, `Lifetime_spec.v`
* code modelled: CacheAllocator.h, ChainedHashTable.h, Handle.h, MMLru.h, Refcount.h
* Lifetime_*.v: unbounded threads/items step relation (allocate, find, insert, insertOrReplace, remove by key/handle, removeIfExpired, clone, release, eviction, slab-release moving with waiters, wake-ups); inductive counting invariant. Proved under the caller contract (no concurrent insert of one item, no clone of a nascent handle), whose necessity is shown by C16_nascent_clone_refuted and C16_concurrent_insert_refuted. Also refuted: accessible items always stay evictable (two races), waiters are always woken when the reference count is full. Not modelled here: chained items (C15), flash (C17).

### C17 Removed or replaced data is never resurrected from flash

* status: proved; 7 theorems (4 of them refutations of a stronger claim)
* model and specification: `NvmRace_model.v`, `NvmRace_spec.v`
* code modelled: CacheAllocator.h, InFlightPuts.h, NvmCache.h, ReqContexts.h, TombStones.h
* All interleavings, any number of threads and calls, for one key, at the granularity of the code's locks and atomic steps: find, insertOrReplace, remove, in-place write (invalidateNvm), eviction with/without put token, NvmCache put/remove/find/onGetComplete, tombstones, fill contexts, put contexts, flash drop + evictCB. C17_no_resurrection / C17_fresh_reads hold under four stated conditions on the trace; four _refuted theorems show, with a concrete run of the model each, that none of them can be dropped: overlapping mutators of one key (an insert caught between its RAM step and its flash invalidation), a remove that takes the couldExist shortcut between a flash drop and its evictCB, a find joining a fill that is already done, disabling navy after a lookup passed the enabled check. C17_no_thin_air is unconditional. Abstracted: flash = per-key FIFO job queue over one optional version (C22, C32, C33, C35 justify), moving items, chained items, remove(handle), allocation details.

### C18 Flash item encoding round-trip

* status: proved; 4 theorems (1 of them refutations of a stronger claim)
* model and specification: `Bytes.v`, `Item_model.v`, `Item_spec.v`, `NvmItem_model.v`, `NvmItem_spec.v`
* code modelled: CacheAllocator.h, CacheItem.h, KAllocation.h, MemoryPool.cpp, NvmCache.h, NvmItem.cpp, NvmItem.h
* Byte-level model of NvmItem encoding and NvmCache makeNvmItem/createItem for parent and chained parts; unbounded chains. Encode/decode user callbacks and IOBuf read-out not modelled. Class change without truncation overruns (C18_new_classes_without_truncation_refuted).

### C19 Item destructor runs exactly once across RAM and flash

* status: proved; 11 theorems (7 of them refutations of a stronger claim)
* model and specification: `Destr_model.v`, `Destr_spec.v`
* code modelled: BigHash.cpp, BlockCache.cpp, CacheAllocator.h, InFlightPuts.h, NvmCache.h, ReqContexts.h, TombStones.h
* Destr_*.v: state machine for one key (RAM item with NvmClean/NvmEvicted, put token, tombstones, fills, flash job queue, dropped copies with outstanding callbacks, itemRemoved_ mark, any number of calls, evictions, removals), all interleavings at lock granularity, every insertOrReplace a fresh item id. Ownership invariant: each inserted item has exactly one owner among {destructed, RAM, handle, eviction in progress, flash}. Proved for runs without the conditions in Destr_spec.hazard: at most once; exactly once when nothing is in progress; never while a find returns the item or somebody has a handle to it; only for inserted items. The unconditional English claim is false of the code: seven _refuted theorems show, by a concrete run each, that every condition except flash being disabled (not covered by the theorems, not refuted) alone breaks it: overlapping mutators of one key, a removal's couldExist shortcut or a remove job between a flash drop and its callback, insertion ending in BadState, a flash copy lost without callback, an unreadable copy at removal, slab move dropping the NvmEvicted flag. Flash is abstracted to a per-key FIFO job queue; chained items, expiry times and the admission policy are nondeterministic choices or left out.

### C20 Small-object bucket storage is a FIFO byte allocator

* status: proved; 3 theorems (1 of them refutations of a stronger claim)
* model and specification: `BucketStorage_model.v`, `BucketStorage_spec.v`, `Bytes.v`
* code modelled: Bucket.cpp, BucketStorage.cpp, BucketStorage.h
* Byte-level model of BucketStorage; unbounded histories. Guard: sizes < 2^32-4 (wrap witness in C20_slot_size_wrap_refuted).

### C21 Small-object bucket: find/insert/remove/evict

* status: proved; 6 theorems (2 of them refutations of a stronger claim)
* model and specification: `BucketStorage_model.v`, `BucketStorage_spec.v`, `Bucket_model.v`, `Bucket_spec.v`, `Bytes.v`
* code modelled: Bucket.cpp, Bucket.h, BucketStorage.cpp, BucketStorage.h, Hash.h, Types.h
* Byte-level model of Bucket over BucketStorage; unbounded histories. getRandomAlloc key defect shown by C21_random_alloc_*_refuted.

### C22 Small-object engine behaves as a lossy map

* status: proved; 6 theorems (2 of them refutations of a stronger claim)
* model and specification: `BigHash_model.v`, `BigHash_spec.v`, `BloomFilter_model.v`, `BloomFilter_spec.v`, `BucketStorage_model.v`, `BucketStorage_spec.v`, `Bucket_model.v`, `Bucket_spec.v`, `Bytes.v`
* code modelled: BigHash.cpp, BigHash.h, BloomFilter.cpp, BloomFilter.h, BloomFilter.thrift, Bucket.cpp, Bucket.h, BucketStorage.cpp, BucketStorage.h, Hash.h, Types.h, Utils.h
* Sequential calls (each runs under its bucket mutex) with arbitrary device faults. Guards shown necessary by C22_*_refuted: no transient corruption on a remove's read; numBuckets+100<=2^32.

### C23 Bloom filter has no false negatives

* status: proved; 6 theorems (2 of them refutations of a stronger claim)
* model and specification: `BloomFilter_model.v`, `BloomFilter_spec.v`, `Bytes.v`
* code modelled: BloomFilter.cpp, BloomFilter.h, BloomFilter.thrift, Hash.h, Utils.h
* Byte-level model, unbounded histories, hash functions universally quantified. C23_recover_*_refuted: hash-count mismatch at recovery is not detected.

### C24 Count-min sketch never underestimates

* status: proved; 8 theorems (3 of them refutations of a stronger claim)
* model and specification: `Bytes.v`, `CountMin_model.v`, `CountMin_spec.v`
* code modelled: CountMinSketch.h
* CountMinSketch.h modelled with uint32 index arithmetic, any hash, any counter width, any monotone non-increasing decay. Lower bound restarts at every reset of any key (resetCount decrements shared cells: C24_reset_other_key_refuted); sizes with width*depth >= 2^32 go out of bounds (C24_large_sketch_refuted).

### C25 Approximate split set

* status: proved; 6 theorems (3 of them refutations of a stronger claim)
* model and specification: `Bytes.v`, `SplitSet_model.v`, `SplitSet_spec.v`
* code modelled: ApproxSplitSet.h
* DropSet (Robin Hood probing, rehash) and ApproxSplitSet (rotation) modelled; keys are identified by their low 32 bits and key 0 is reserved (C25_zero_key_refuted, C25_truncation_refuted); the entry bound is numSplits*max(1,numEntries/numSplits) (C25_bound_refuted for numEntries<numSplits).

### C26 Large-object engine returns only what was stored

* status: proved; 16 theorems (3 of them refutations of a stronger claim)
* model and specification: `AddrCode_model.v`, `AddrCode_spec.v`, `BlockCache_model.v`, `BlockCache_spec.v`, `Bytes.v`
* code modelled: Allocator.cpp, BlockCache.cpp, BlockCache.h, Index.h, Region.cpp, Region.h, RegionManager.cpp, RegionManager.h, Types.h, Utils.h
* Byte-level model of entries in regions (writeEntry/readEntry/parse in reclaim), index by hash token, all interleavings of insert/lookup/remove/reclaim (with reinsertion)/cleanup threads. Proved: a found value is the one stored (last inserted, not removed) at some moment during the lookup; a miss means nothing stored at some moment; each call does exactly what it reports, once; evictions only hit what is stored and pass the destructor the last inserted value; reinsertion keeps the value. Guarded by [safe] (no undetected wrong device read, no reclaim that could not read/parse its region, no exception in the expiry check, no reader admitted after a cleanup discarded the buffer, no UB). C26_unreadable_region_refuted shows a concrete run where an unreadable region at reclaim leads to a lookup returning a value never inserted for the key; the other refuted theorems show silent evictions and removal of a colliding key.

### C27 Flash index entry operations are atomic per key

* status: proved; 14 theorems (6 of them refutations of a stronger claim)
* model and specification: `Bytes.v`, `FixedIndex_model.v`, `FixedIndex_spec.v`, `SparseIndex_model.v`, `SparseIndex_spec.v`
* code modelled: FixedSizeIndex.cpp, FixedSizeIndex.h, Index.h, SparseMapIndex.cpp, SparseMapIndex.h, objects.thrift
* Both index implementations. SparseMapIndex: every history of calls (incl. persist/recover) answers as a map from hash mod 2^(32+k) to records. FixedSizeIndex (handleOverflow off): map from (bucket, partial bits), displacement only when the shard is crowded, never out of bounds, shard lock adequate (calls on different shards commute), counters exact, size-hint rounding bounded (IEEE double loop modelled exactly) - for shard size >= 98 dividing the table. Refuted (with witnesses): configurations accepted by validate() incl. the default 64 buckets per mutex lose entries or go out of bounds; uneven shards; fill-bit bytes shared between locks; size hints above 55157 hit an undefined conversion; restart with fewer hash maps silently loses entries. Not modelled: combined entry blocks (handleOverflow), shm attach, footprint.

### C28 Flash addresses and size hints encode losslessly/safely

* status: proved; 10 theorems (3 of them refutations of a stronger claim)
* model and specification: `AddrCode_model.v`, `AddrCode_spec.v`
* code modelled: BlockCache.cpp, BlockCache.h, Index.h, RegionManager.h, Types.h, Utils.h
* Bit-exact; double arithmetic via SpecFloat. Defects shown: last slot of a maximal cache encodes to the invalid address 0; hints > 55157 in the packed index read back through an out-of-range double conversion; 32-bit slot size wraps for 4 GiB values.

### C29 Regions are not recycled under active readers/writers

* status: proved; 15 theorems (3 of them refutations of a stronger claim)
* model and specification: `RegMgr_model.v`, `RegMgr_spec.v`
* code modelled: Allocator.cpp, BlockCache.cpp, Region.cpp, Region.h, RegionManager.cpp, RegionManager.h
* Proved for every interleaving of writers, flushers, readers and reclaims, with device write/read failures as free choices (region size <= 1 GB): exclusion at reset/flush/detach, no reader admitted to a blocked region, reader/writer generation, allocation ranges disjoint and inside the region, no failed check, no deadlock. Guarded by 'no flush was given up' (and 'no unreadable region' for the generation theorem); the two refuted theorems show a concrete schedule violating the English claim in exactly those failure paths (reset under an active physical reader after flush retries are exhausted; stale index entry after a failed reclaim read).

### C30 Clean-region and write-buffer pools conserve their elements

* status: proved; 5 theorems (0 of them refutations of a stronger claim)
* model and specification: `RegMgr_model.v`, `RegMgr_spec.v`
* code modelled: Allocator.cpp, BlockCache.cpp, Region.cpp, Region.h, RegionManager.cpp, RegionManager.h
* Proved for every interleaving including all failure paths (flush given up, region unreadable, no buffer available).

### C31 Region eviction policies

* status: proved; 7 theorems (0 of them refutations of a stronger claim)
* model and specification: `DList_model.v`, `DList_spec.v`, `RegionPolicy_model.v`, `RegionPolicy_spec.v`
* code modelled: DList.h, FifoPolicy.cpp, FifoPolicy.h, LruPolicy.cpp, LruPolicy.h, objects.thrift
* FIFO, LRU and segmented-FIFO region policies, every history of track/touch/evict/reset calls with arbitrary priorities; persistence for FIFO (the other two have none in the code).

### C32 Small/large engine pair never serves a stale copy

* status: proved; 8 theorems (2 of them refutations of a stronger claim)
* model and specification: `EnginePair_model.v`, `EnginePair_spec.v`
* code modelled: EnginePair.cpp, Types.h
* Engines are arbitrary lossy stores answering any status; jobs with retries, evictions, other keys interleaved. Guards are necessary: C32_insert_ok_after_retry_refuted, C32_remove_ok_after_error_refuted exhibit stale reads in the code.

### C33 Flash requests for one key execute in order

* status: proved; 5 theorems (1 of them refutations of a stronger claim)
* model and specification: `Scheduler_model.v`, `Scheduler_spec.v`
* code modelled: NavyRequestDispatcher.cpp, NavyRequestDispatcher.h, NavyRequestScheduler.cpp, NavyRequestScheduler.h, NavyThread.h
* Small-step model of NavyRequestScheduler and NavyRequestDispatcher (atomic queue with sentinel, dispatch loop, baton, request fibers, spooling); every interleaving, any shards/threads/limits. OrderedThreadPoolJobScheduler not modelled. finish() is shown not to wait for all jobs (C33_finish_waits_for_all_refuted).

### C34 Striped device maps logical bytes one-to-one

* status: proved; 7 theorems (2 of them refutations of a stronger claim)
* model and specification: `Device_model.v`, `Device_spec.v`
* code modelled: Device.cpp, Device.h
* Striping, chunking, alignment/trim and blockwise encryption; failed operations may damage their own range. Guards necessary: C34_huge_write_refuted, C34_encryptor_contract_refuted.

### C35 Admission accounting

* status: proved; 4 theorems (0 of them refutations of a stronger claim)
* model and specification: `Driver_model.v`, `Driver_spec.v`
* code modelled: AtomicCounter.h, Driver.cpp
* Every interleaving of the atomic counter steps of any number of calls/completions; sizes in flight fit in 64 bits.

### C36 Compact cache bucket is an LRU map of bounded size

* status: proved; 8 theorems (2 of them refutations of a stronger claim)
* model and specification: `Bytes.v`, `CCache_model.v`, `CCache_spec.v`
* code modelled: CCache.h, CCacheFixedLruBucket.h, CCacheVariableLruBucket.h
* Byte-level model of the fixed and the variable bucket layout (headers as records, data section as bytes) and of bucketSet/Get/Promote/Del; every history refines a bounded LRU list; answers and eviction reports exact. Empty key (fixed layout) and over-long values (variable layout) are shown to break the claim. Resizing, double writes, locks and statistics not modelled.

### C37 Cache-resident containers (Map, RangeMap, Buffer) behave as maps

* status: proved; 10 theorems (3 of them refutations of a stronger claim)
* model and specification: `Bytes.v`, `DtBuffer_model.v`, `DtMap_model.v`, `DtMap_spec.v`, `DtRange_model.v`, `DtRange_spec.v`
* code modelled: Buffer.cpp, Buffer.h, Map.h, RangeMap.h
* datatype/Buffer.h (Buffer, BufferAddr, BufferManager), Map.h (hash table, Map) and RangeMap.h (BinaryIndex, RangeMap) modelled: typed memory of slots (reading a hole, past the end or at a bad offset is undefined = None), allocation failures as an oracle at every allocation point, probing/halving loops with proved termination. Any call sequence refines a finite (sorted) map; throwing calls change nothing; growth keeps the item in the cache. compact() can throw runtime_error (refuted + exact condition), zero sizes and reversed ranges are undefined (refuted). Not modelled: concurrent use (the classes are documented single threaded), byte layout of keys and values, MapView serialisation.

### C38 Rebalancing picks legal victims and receivers

* status: proved; 17 theorems (2 of them refutations of a stronger claim)
* model and specification: `Rebalance_model.v`, `Rebalance_spec.v`
* code modelled: CacheStats.h, FreeMemStrategy.cpp, HitsPerSlabStrategy.cpp, HitsPerSlabStrategy.h, LruTailAgeStrategy.cpp, LruTailAgeStrategy.h, MarginalHitsState.h, MarginalHitsStrategy.cpp, MarginalHitsStrategy.h, MemoryAllocatorStats.h, PoolRebalancer.cpp, PoolResizeStrategy.h, RandomStrategy.h, RebalanceInfo.h, RebalanceStrategy.cpp, RebalanceStrategy.h, Slab.h
* All pickVictimAndReceiver / pickVictimForResizing strategies and the base-class bookkeeping (hold-off, minimum-evictable filters, free-memory and alloc-failure fallbacks) over arbitrary histories of pool statistics. Decisions name legal, distinct classes that can give up a slab; thresholds and hold-off exact. Refuted parts: the default LruTailAge/HitsPerSlab configuration reaches pickVictimByFreeMem with no non-evicting class and dereferences end() (undefined behaviour, guarded theorem gives the exact condition); the configured minSlabs is not honoured by the allocation-failure fallback. Floats are an abstract ordered carrier; counters unbounded; time and statistics are inputs.

### C39 Consistent hashing is in range and monotone

* status: proved; 4 theorems (1 of them refutations of a stronger claim)
* model and specification: `Bytes.v`, `FurcHash_model.v`, `FurcHash_spec.v`
* code modelled: FurcHash.cpp, Hash.h
* Bit-exact furc hash over murmur; nPart <= 2^23 (documented limit). Strict 'key moves only to the new shard' is refuted by a concrete key (C39_strict_monotone_refuted); C39_monotone states the exact exception.

### C40 Piecewise request splitting covers the requested range exactly

* status: proved; 12 theorems (4 of them refutations of a stronger claim)
* model and specification: `Bytes.v`, `Pieces_model.v`, `Pieces_spec.v`
* code modelled: GenericPieces.cpp, GenericPieces.h, GenericPiecesBase.cpp, GenericPiecesBase.h, RequestRange.cpp, RequestRange.h
* Guard len+pieceSize <= 2^64. Refuted corners shown: escaped base keys, start past the body (abort), stale end after reset, wrap at 2^64.

### C41 The RAM cache is re-attached after a restart only after a clean shutdown

* status: proved; 15 theorems (6 of them refutations of a stronger claim)
* model and specification: `Bytes.v`, `ShmMgr_model.v`, `ShmMgr_spec.v`
* code modelled: PosixShmSegment.cpp, ShmManager.cpp, ShmManager.h, shm.thrift
* Multi-process model at system-call granularity (directory, metadata inode, flock, drop file, kernel segment names by old and new id, byte-exact thrift record). Assumed: a start that reads the record locks it before any other process does (starts_alone) and no older version runs after this one (upgrade_only); both are needed: C41_overlapping_starts_refuted (record read before the lock), C41_rollback_refuted (attach ignores the saved key). Further findings proved: a failed start consumes the drop marker; deleting the metadata file allows two owners and a 'successful' shutdown that saved nothing; shutDown removes segments by name after releasing the lock. Not modelled: segment sizes, mapping failures, huge pages, permissions; segment contents are one number.

### C42 The flash cache is resumed only after a clean save by the last instance

* status: proved; 9 theorems (4 of them refutations of a stronger claim)
* model and specification: `NvmState_model.v`, `NvmState_spec.v`
* code modelled: CacheAllocator.h, Driver.cpp, NavySetup.cpp, NvmCache.h, NvmCacheState.cpp, NvmCacheState.h
* Instances one after the other (C41 gives mutual exclusion), each file or device operation one step with a crash possible between any two. Positive theorems assume no metadata write fails unnoticed (no_silent); without it the claim is false: C42_resume_after_silent_failure_refuted. Further refuted: a drop request made between look and unlink is deleted unhonoured; a cache that could not be recovered reports the old creation time; shutDown of a disabled flash cache reports success though nothing was saved. Not modelled: contents of the engines (one number; C26-C29 model them), the record encoding of the metadata (C43).

### C43 The saved flash-engine state is read back exactly, or not at all

* status: proved; 9 theorems (3 of them refutations of a stronger claim)
* model and specification: `Bytes.v`, `MetaRec_model.v`, `MetaRec_spec.v`
* code modelled: Driver.cpp, RecordIO.cpp
* Byte-level model; folly's 28-byte record header modelled from its documented format, the two hash functions are parameters (no collision assumption is needed). Refuted: a save whose last block ends exactly at the end of the area reports success without any failed write and loses its last record (destructor compares with < and then zeroes the block); failures of the destructor's writes are not reported; a save that fails for lack of space may overwrite cached data behind the area when its size is not a multiple of 4096. Not modelled: the int type of dataOffset (records of 2 GiB and more), encryption, FileRecordWriter/Reader.

### C44 Pending handles resolve once, to the right item, for every waiter, and leak nothing

* status: proved; 10 theorems (4 of them refutations of a stronger claim)
* model and specification: `AsyncHdl_model.v`, `AsyncHdl_spec.v`
* code modelled: CacheAllocator.h, Handle.h, NvmCache.h, Refcount.h
* Step-level model of ItemWaitContext and GetCtx with unboundedly many handles and fetches of one key. Refuted (for every count limit): when the reference count overflows while waiters are woken, the waiter at which it happens is never woken (the comment says it gets a miss): a user blocked on it stays blocked for ever, a future made of it is broken; the other waiters get a miss. A SemiFuture destroyed without being evaluated leaves getNumActiveHandles at -1 and shutDown is refused. wentToNvm() is false for pending handles although documented otherwise. Not modelled: time to access, fibers, several keys (shards do not interact), what decides the fetch's result (C17, C19).

### C45 A lookup that meets an item being moved is answered exactly once, with an item of its key, and is never left waiting

* status: proved; 12 theorems (4 of them refutations of a stronger claim)
* model and specification: `MoveWait_model.v`, `MoveWait_spec.v`
* code modelled: CacheAllocator.h, CacheItem.h, ChainedHashTable.h, Handle.h, Refcount.h
* All closed. Four refutations about the code as it is: a lookup that is never woken and a lookup answered with an item of another key (the key of the waiter table is a view into a parent that can be freed between unmarkMoving and wakeUpWaiters), insertOrReplace told it replaced its own item, which then can never be evicted, and a find that misses a key that is present throughout. The positive liveness/key/table theorems restrict to histories without a free in that window (pin = true).

### C46 The object cache keeps to its entry and size limits

* status: proved; 17 theorems (7 of them refutations of a stronger claim)
* model and specification: `SizeCtl_model.v`, `SizeCtl_spec.v`
* code modelled: CacheItem.h, KAllocation.h, ObjectCache.h, ObjectCacheSizeController.h, Slab.h, Utils.h
* Slot-level model of the shards, the placeholders and the controller's loops, one iteration a step; arithmetic as in the code, modulo 2^64. Positive theorems for all histories; refutations: one object larger than the size limit leaves every configuration (not FreeMemoryOnly) with a cache that never again accepts an object; the shortage subtraction wraps so that very low free memory (very high RSS) makes the cache expand; the cap on expansion never applies; FreeMemoryOnly's loop does not return while memory is low; fewer entries than shards starves a shard; for keys over 255 bytes the record ends beyond the item's memory (inside the slot) and the padding counter drifts below zero.

### C47 Objects of the object cache are destroyed exactly once and their sizes add up

* status: proved; 14 theorems (5 of them refutations of a stronger claim)
* model and specification: `ObjCache_model.v`, `ObjCache_spec.v`
* code modelled: CacheAllocator.h, NvmCache.h, ObjectCache.h, ObjectCacheConfig.h
* Ownership and size accounting of ObjectCache, any number of threads, one shared access a step, over an index with reference counts. Invariants by counting owners. Refuted parts, each with a concrete history: insertOrReplace that throws (old object out of reference counts) leaves the size in the total for ever; insert publishes before it adds, so a concurrent updateObjectSize wraps the total; NVM with an item destructor leaks objects and sizes of items evicted while in or queued for NVM; getObjectSize/updateObjectSize on the replaced pointer, a pointer returned with kAllocError/kKeyAlreadyExists, or a converted pointer dereferences null; without tracking, mutateObject and NVM hits still change the total.

### C48 A cache saved to a stream is restored as it was, or not at all

* status: proved; 11 theorems (8 of them refutations of a stronger claim)
* model and specification: `PersistMgr_model.v`, `PersistMgr_spec.v`
* code modelled: PersistenceManager.cpp, PersistenceManager.h, Utils.h
* Byte-level model of the stream: marks, headers, checksummed blocks; thrift and CRC32 abstract (any encoding that round-trips, any function). Round trip, rejection of every proper prefix and of every change that alters a checksum, for all sizes. Refuted parts: navy files of a multiple of 4 GiB (int32_t size: no block read, checksum byte taken for a mark: failure, or success with empty files); streams of 1-8 bytes read beyond the buffer; an empty NvmCacheState leaves the old file; a changed mark ends the restore early and is accepted; a changed block length reads out of bounds; two blocks exchanged are accepted.

### C49 A compact cache can be resized while it is in use

* status: proved; 10 theorems (4 of them refutations of a stronger claim)
* model and specification: `CCResize_model.v`, `CCResize_spec.v`
* code modelled: CCache.h, CCacheAllocator.cpp, CCacheAllocator.h, Cohort.h
* Model: one key, every shared access a step, cohort counts, numChunks_, pendingNumChunks_, chunk releases as generations. C49_no_stale needs that no set/del of the key is between its two lookups at the store of numChunks_; C49_no_stale_refuted shows the code fails otherwise (a completed del is undone). Other refutations: resize to zero, overlapping resizes, pool resized during a resize. Not modelled: bucket internals (C36), two-vector chunk list, packing of cohort counts.

### C50 A periodic worker starts, stops, wakes and works one at a time

* status: proved; 11 theorems (3 of them refutations of a stronger claim)
* model and specification: `PeriodicW_model.v`, `PeriodicW_spec.v`
* code modelled: PeriodicWorker.cpp, PeriodicWorker.h
* Model: each section under lock_ is a step; condition variable with explicit notify_one choice, spurious wake-ups and timeouts at any moment; preWork() holds the lock across steps. Found: between the worker's exit (flag lowered, lock released) and the stopper's wake-up a second stop() raises the flag again; then two stop(0) calls hang for ever (C50_two_stops_refuted), start() returns true without a worker (C50_start_runs_refuted), a timed-out stop leaves no worker (C50_timeout_goes_on_refuted). Not modelled: exceptions out of work(), stop() called from work() itself, destruction during a call, interval values.

### C51 Persisting an object cache and recovering it gives every object back

* status: proved; 14 theorems (5 of them refutations of a stronger claim)
* model and specification: `ObjPersist_model.v`, `ObjPersist_spec.v`
* code modelled: MMLru-inl.h, ObjectCache.h, Persistence.h, Time.h, persistent_data.thrift
* Model: small-step interleaving of Persistor::run, the bounded queue, the persist workers (as PeriodicWorkers, C50), and of the restorer's threads; i32/uint32/size_t conversions exact; files as lists of records; constructor's truncations as crash steps. Found: objectSize i32 narrowing (C51_size_refuted), memcpy of length() bytes of the first IOBuf only (C51_chain_refuted), ttl computed from the worker's start time (C51_expiry_refuted), torn base/worker files accepted (C51_crash_torn_refuted), throwing serialize callback (C51_throw_refuted). Not modelled: thrift and RecordIO encodings, the insertion's own success (C23), logs.

### C52 The access tracker remembers accesses for the tracked time and the reuse-time policy reinserts accordingly

* status: proved; 10 theorems (5 of them refutations of a stronger claim)
* model and specification: `Tracker_model.v`, `Tracker_spec.v`
* code modelled: AccessTracker.h, ReuseTimeReinsertionPolicy.cpp
* Model: the tracker's rotation over abstract buckets (lists of hashes since the last reset) and any sketch (C23, C24 give the two used); calls one after the other for the positive theorems, two interleaved recordAccess calls for the race. Found: C52_removed_refuted, C52_two_buckets_refuted, C52_skipped_refuted, C52_first_refuted, C52_race_refuted. Not modelled: the conversion of the reuse time to int, counters, rate windows.

### C53 The free-allocation lists behave like disjoint sequences

* status: proved; 5 theorems (1 of them refutations of a stronger claim)
* model and specification: `SList_model.v`, `SList_spec.v`
* code modelled: SList.h
* Model: head, tail, size and next pointers over a shared heap of nodes; pointer compression lossless (C08); iteration with removal as the loop the callers write. Found: C53_move_ctor_refuted. Not modelled: AsanSList.

### C54 switchCohorts waits for exactly the tokens handed out before it

* status: proved; 9 theorems (1 of them refutations of a stronger claim)
* model and specification: `Cohort_model.v`, `Cohort_spec.v`
* code modelled: Cohort.h
* Model: the 64-bit word with its wrapping arithmetic, one atomic operation per step, sequentially consistent (as the code asks for). Found: C54_two_switchers_refuted (the comment in the code excludes it). C49 uses the two counts this property justifies. Not modelled: moving tokens, the sleep.

### C55 The combined entry block is a map, and its buffer alone has the map

* status: proved; 3 theorems (0 of them refutations of a stronger claim)
* model and specification: `Bytes.v`, `CombBlk_model.v`, `CombBlk_spec.v`
* code modelled: CombinedEntryBlock.h, Index.h
* Model: the buffer byte by byte with the layout of GCC on a little-endian machine (header 12, info 24, record 5 bytes); accesses outside it are undefined (None). Not modelled: read mode (not implemented in the code yet), that the infos lie 12 bytes into the buffer and so are not aligned for their 64-bit members, CombinedEntryManager's streams and locks.
