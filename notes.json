{
 "C20": {
  "note": "Byte-level model of BucketStorage; unbounded histories. Guard: sizes < 2^32-4 (wrap witness in C20_slot_size_wrap_refuted)."
 },
 "C21": {
  "note": "Byte-level model of Bucket over BucketStorage; unbounded histories. getRandomAlloc key defect shown by C21_random_alloc_*_refuted."
 },
 "C22": {
  "note": "Sequential calls (each runs under its bucket mutex) with arbitrary device faults. Guards shown necessary by C22_*_refuted: no transient corruption on a remove's read; numBuckets+100<=2^32."
 },
 "C23": {
  "note": "Byte-level model, unbounded histories, hash functions universally quantified. C23_recover_*_refuted: hash-count mismatch at recovery is not detected."
 },
 "C01": {
  "note": "Bit-exact 32-bit word; every operation of Refcount.h on every word and every call sequence."
 },
 "C02": {
  "note": "Threads interleave at load/CAS granularity (sequentially consistent; C++ memory orders not modelled). Client rule: drop only held handles, end only owned exclusivity. Includes linearisation of every call."
 },
 "C04": {
  "note": "Pointer-level heap model of DList; any number of lists sharing nodes; every legal call sequence."
 },
 "C05": {
  "note": "MMLru over the pointer-level DList; every call history incl. unlocked access pre-check; insertion point spec < 64 (larger shift is UB). C05_insertion_point needs a fixed configuration (setConfig re-targets lazily); reconfigureLocked's refresh-time formula abstracted to an arbitrary setConfig."
 },
 "C03": {
  "note": "Pointer-level ChainedHashTable; every interleaving of critical sections with stale unlocked checks, any hash function/collisions, throwing handle makers, memory reuse. Guard (no two racing insertOrReplace of one item) shown necessary by C03_same_item_race_refuted."
 },
 "C24": {
  "note": "CountMinSketch.h modelled with uint32 index arithmetic, any hash, any counter width, any monotone non-increasing decay. Lower bound restarts at every reset of any key (resetCount decrements shared cells: C24_reset_other_key_refuted); sizes with width*depth >= 2^32 go out of bounds (C24_large_sketch_refuted)."
 },
 "C25": {
  "note": "DropSet (Robin Hood probing, rehash) and ApproxSplitSet (rotation) modelled; keys are identified by their low 32 bits and key 0 is reserved (C25_zero_key_refuted, C25_truncation_refuted); the entry bound is numSplits*max(1,numEntries/numSplits) (C25_bound_refuted for numEntries<numSplits)."
 },
 "C08": {
  "note": "4-byte and 5-byte encodings bit-exact; round trip for every allocation of every allocator within getMaxAddressableSize(); single-tier layout (what PtrCompressor passes). With tiers the fields are recovered below 2^15 / 2^22 slabs (C08_tiers), and the advertised limit is too large there (C08_tiered_limit_refuted)."
 },
 "C09": {
  "note": "AllocationClass, MemoryPool and SlabAllocator: every interleaving of allocate/free/slab acquire/release/rebalance/advise/reclaim over any number of classes and pools, at lock/atomic granularity. Each class of the allocator refines the single-class histories of C09/C10."
 },
 "C10": {
  "note": "Every interleaving of the critical sections of allocate/free/startSlabRelease (incl. batched pruning and aborts)/complete/abort/probe/iterate/save-restore. C10_abort_restores_capacity_refuted: after a prune abort allocate() can keep failing although memory is free."
 },
 "C11": {
  "note": "getAllocationClassId(size) on every sorted size list; std::lower_bound taken as its specification. generateAllocSizes (floating point) not modelled."
 },
 "C12": {
  "note": "Counters are wrapping 64-bit. Pool limit needs: pool not shrunk, no release straight from a pool's free list (C12_*_free_list_release_refuted: the counter wraps), no advise between the two reads of the limit check (C12_limit_with_racing_advise_refuted). Conservation and one-place hold unconditionally. Includes MemoryPoolManager sizes and advise/reclaim arithmetic."
 },
 "C31": {
  "note": "FIFO, LRU and segmented-FIFO region policies, every history of track/touch/evict/reset calls with arbitrary priorities; persistence for FIFO (the other two have none in the code)."
 },
 "C39": {
  "note": "Bit-exact furc hash over murmur; nPart <= 2^23 (documented limit). Strict 'key moves only to the new shard' is refuted by a concrete key (C39_strict_monotone_refuted); C39_monotone states the exact exception."
 },
 "C40": {
  "note": "Guard len+pieceSize <= 2^64. Refuted corners shown: escaped base keys, start past the body (abort), stale end after reset, wrap at 2^64."
 },
 "C32": {
  "note": "Engines are arbitrary lossy stores answering any status; jobs with retries, evictions, other keys interleaved. Guards are necessary: C32_insert_ok_after_retry_refuted, C32_remove_ok_after_error_refuted exhibit stale reads in the code."
 },
 "C35": {
  "note": "Every interleaving of the atomic counter steps of any number of calls/completions; sizes in flight fit in 64 bits."
 },
 "C28": {
  "note": "Bit-exact; double arithmetic via SpecFloat. Defects shown: last slot of a maximal cache encodes to the invalid address 0; hints > 55157 in the packed index read back through an out-of-range double conversion; 32-bit slot size wraps for 4 GiB values."
 },
 "C34": {
  "note": "Striping, chunking, alignment/trim and blockwise encryption; failed operations may damage their own range. Guards necessary: C34_huge_write_refuted, C34_encryptor_contract_refuted."
 },
 "C13": {
  "note": "Byte-exact model of KAllocation/CacheItem/CacheChainedItem. Accessors refine the abstract (key,value,creation,expiry) record under every history of in-bounds writes; acceptance characterised exactly; chained items likewise. Refuted: the sampling path may look up a key ending up to 4 bytes behind the slot (proved tight)."
 },
 "C14": {
  "note": "RAM+flash lookups, TTL arithmetic, thread-local stale time, reaper. Refuted sub-claims: inspectCache serves expired items, 32-bit TTL overflow, clock set back, insert() blocked by an expired item. Races between operations are not part of this model."
 },
 "C18": {
  "note": "Byte-level model of NvmItem encoding and NvmCache makeNvmItem/createItem for parent and chained parts; unbounded chains. Encode/decode user callbacks and IOBuf read-out not modelled. Class change without truncation overruns (C18_new_classes_without_truncation_refuted)."
 },
 "C33": {
  "note": "Small-step model of NavyRequestScheduler and NavyRequestDispatcher (atomic queue with sentinel, dispatch loop, baton, request fibers, spooling); every interleaving, any shards/threads/limits. OrderedThreadPoolJobScheduler not modelled. finish() is shown not to wait for all jobs (C33_finish_waits_for_all_refuted)."
 },
 "C36": {
  "note": "Byte-level model of the fixed and the variable bucket layout (headers as records, data section as bytes) and of bucketSet/Get/Promote/Del; every history refines a bounded LRU list; answers and eviction reports exact. Empty key (fixed layout) and over-long values (variable layout) are shown to break the claim. Resizing, double writes, locks and statistics not modelled."
 },
 "C38": {
  "note": "All pickVictimAndReceiver / pickVictimForResizing strategies and the base-class bookkeeping (hold-off, minimum-evictable filters, free-memory and alloc-failure fallbacks) over arbitrary histories of pool statistics. Decisions name legal, distinct classes that can give up a slab; thresholds and hold-off exact. Refuted parts: the default LruTailAge/HitsPerSlab configuration reaches pickVictimByFreeMem with no non-evicting class and dereferences end() (undefined behaviour, guarded theorem gives the exact condition); the configured minSlabs is not honoured by the allocation-failure fallback. Floats are an abstract ordered carrier; counters unbounded; time and statistics are inputs."
 },
 "C17": {
  "status": "proved",
  "note": "All interleavings, any number of threads and calls, for one key, at the granularity of the code's locks and atomic steps: find, insertOrReplace, remove, in-place write (invalidateNvm), eviction with/without put token, NvmCache put/remove/find/onGetComplete, tombstones, fill contexts, put contexts, flash drop + evictCB. C17_no_resurrection / C17_fresh_reads hold under four stated conditions on the trace; four _refuted theorems show, with a concrete run of the model each, that none of them can be dropped: overlapping mutators of one key (an insert caught between its RAM step and its flash invalidation), a remove that takes the couldExist shortcut between a flash drop and its evictCB, a find joining a fill that is already done, disabling navy after a lookup passed the enabled check. C17_no_thin_air is unconditional. Abstracted: flash = per-key FIFO job queue over one optional version (C22, C32, C33, C35 justify), moving items, chained items, remove(handle), allocation details."
 },
 "C29": {
  "note": "Proved for every interleaving of writers, flushers, readers and reclaims, with device write/read failures as free choices (region size <= 1 GB): exclusion at reset/flush/detach, no reader admitted to a blocked region, reader/writer generation, allocation ranges disjoint and inside the region, no failed check, no deadlock. Guarded by 'no flush was given up' (and 'no unreadable region' for the generation theorem); the two refuted theorems show a concrete schedule violating the English claim in exactly those failure paths (reset under an active physical reader after flush retries are exhausted; stale index entry after a failed reclaim read)."
 },
 "C30": {
  "note": "Proved for every interleaving including all failure paths (flush given up, region unreadable, no buffer available)."
 },
 "C26": {
  "note": "Byte-level model of entries in regions (writeEntry/readEntry/parse in reclaim), index by hash token, all interleavings of insert/lookup/remove/reclaim (with reinsertion)/cleanup threads. Proved: a found value is the one stored (last inserted, not removed) at some moment during the lookup; a miss means nothing stored at some moment; each call does exactly what it reports, once; evictions only hit what is stored and pass the destructor the last inserted value; reinsertion keeps the value. Guarded by [safe] (no undetected wrong device read, no reclaim that could not read/parse its region, no exception in the expiry check, no reader admitted after a cleanup discarded the buffer, no UB). C26_unreadable_region_refuted shows a concrete run where an unreadable region at reclaim leads to a lookup returning a value never inserted for the key; the other refuted theorems show silent evictions and removal of a colliding key."
 },
 "C27": {
  "note": "Both index implementations. SparseMapIndex: every history of calls (incl. persist/recover) answers as a map from hash mod 2^(32+k) to records. FixedSizeIndex (handleOverflow off): map from (bucket, partial bits), displacement only when the shard is crowded, never out of bounds, shard lock adequate (calls on different shards commute), counters exact, size-hint rounding bounded (IEEE double loop modelled exactly) - for shard size >= 98 dividing the table. Refuted (with witnesses): configurations accepted by validate() incl. the default 64 buckets per mutex lose entries or go out of bounds; uneven shards; fill-bit bytes shared between locks; size hints above 55157 hit an undefined conversion; restart with fewer hash maps silently loses entries. Not modelled: combined entry blocks (handleOverflow), shm attach, footprint."
 },
 "C16": {
  "note": "Lifetime_*.v: unbounded threads/items step relation (allocate, find, insert, insertOrReplace, remove by key/handle, removeIfExpired, clone, release, eviction, slab-release moving with waiters, wake-ups); inductive counting invariant. Proved under the caller contract (no concurrent insert of one item, no clone of a nascent handle), whose necessity is shown by C16_nascent_clone_refuted and C16_concurrent_insert_refuted. Also refuted: accessible items always stay evictable (two races), waiters are always woken when the reference count is full. Not modelled here: chained items (C15), flash (C17)."
 },
 "C06": {
  "note": "MM2Q.h and MultiDList.h iterator on the pointer-level DList model. Every history of add/remove/evict-through-iterator/replace/access (pre-check and critical section separately)/setConfig/restart, any percentages, tail sizes and times, refines three abstract queues; membership, scan resistance, size bounds, promotion order, 100% hot = LRU. Requires that replace() gets a newly allocated item; without that the property is refuted (stale flags)."
 },
 "C07": {
  "note": "MMTinyLFU.h on the pointer-level DList model and the CountMinSketch model, for arbitrary hashes, counter formula, configuration and times. Every history of add/remove/evict-through-iterator/replace/access (pre-check and critical section separately)/setConfig/restart refines two abstract queues with a counted history; membership, eviction choice by estimate, admission only by higher estimate, tiny share bound, estimate lower bound, window bound. Requires at most 2^29 counters per row: beyond that (about 31M items with window ratio 32) the claim is refuted with the real formula (table size wraps to 0)."
 },
 "C15": {
  "note": "Model of allocate/add/pop/transfer/replace/release/evict/slab-release move on the item fields (refcount, flags, parent key, next pointers, chained access container as a map). Each operation is atomic (runs under the parent's chained item lock); compressed pointers, hash table and eviction containers are abstracted (C08, C03, C05-C07). Two natural claims are refuted: adding a child that names another parent leaks it (addChainedItem does not check), and a slab-release move that loses the race frees the chain without callback."
 },
 "C37": {
  "note": "datatype/Buffer.h (Buffer, BufferAddr, BufferManager), Map.h (hash table, Map) and RangeMap.h (BinaryIndex, RangeMap) modelled: typed memory of slots (reading a hole, past the end or at a bad offset is undefined = None), allocation failures as an oracle at every allocation point, probing/halving loops with proved termination. Any call sequence refines a finite (sorted) map; throwing calls change nothing; growth keeps the item in the cache. compact() can throw runtime_error (refuted + exact condition), zero sizes and reversed ranges are undefined (refuted). Not modelled: concurrent use (the classes are documented single threaded), byte layout of keys and values, MapView serialisation."
 },
 "C19": {
  "status": "proved",
  "note": "Destr_*.v: state machine for one key (RAM item with NvmClean/NvmEvicted, put token, tombstones, fills, flash job queue, dropped copies with outstanding callbacks, itemRemoved_ mark, any number of calls, evictions, removals), all interleavings at lock granularity, every insertOrReplace a fresh item id. Ownership invariant: each inserted item has exactly one owner among {destructed, RAM, handle, eviction in progress, flash}. Proved for runs without the conditions in Destr_spec.hazard: at most once; exactly once when nothing is in progress; never while a find returns the item or somebody has a handle to it; only for inserted items. The unconditional English claim is false of the code: seven _refuted theorems show, by a concrete run each, that every condition except flash being disabled (not covered by the theorems, not refuted) alone breaks it: overlapping mutators of one key, a removal's couldExist shortcut or a remove job between a flash drop and its callback, insertion ending in BadState, a flash copy lost without callback, an unreadable copy at removal, slab move dropping the NvmEvicted flag. Flash is abstracted to a per-key FIFO job queue; chained items, expiry times and the admission policy are nondeterministic choices or left out."
 },
 "C41": {
  "note": "Multi-process model at system-call granularity (directory, metadata inode, flock, drop file, kernel segment names by old and new id, byte-exact thrift record). Assumed: a start that reads the record locks it before any other process does (starts_alone) and no older version runs after this one (upgrade_only); both are needed: C41_overlapping_starts_refuted (record read before the lock), C41_rollback_refuted (attach ignores the saved key). Further findings proved: a failed start consumes the drop marker; deleting the metadata file allows two owners and a 'successful' shutdown that saved nothing; shutDown removes segments by name after releasing the lock. Not modelled: segment sizes, mapping failures, huge pages, permissions; segment contents are one number."
 },
 "C42": {
  "note": "Instances one after the other (C41 gives mutual exclusion), each file or device operation one step with a crash possible between any two. Positive theorems assume no metadata write fails unnoticed (no_silent); without it the claim is false: C42_resume_after_silent_failure_refuted. Further refuted: a drop request made between look and unlink is deleted unhonoured; a cache that could not be recovered reports the old creation time; shutDown of a disabled flash cache reports success though nothing was saved. Not modelled: contents of the engines (one number; C26-C29 model them), the record encoding of the metadata (C43)."
 },
 "C43": {
  "note": "Byte-level model; folly's 28-byte record header modelled from its documented format, the two hash functions are parameters (no collision assumption is needed). Refuted: a save whose last block ends exactly at the end of the area reports success without any failed write and loses its last record (destructor compares with < and then zeroes the block); failures of the destructor's writes are not reported; a save that fails for lack of space may overwrite cached data behind the area when its size is not a multiple of 4096. Not modelled: the int type of dataOffset (records of 2 GiB and more), encryption, FileRecordWriter/Reader."
 },
 "C44": {
  "note": "Step-level model of ItemWaitContext and GetCtx with unboundedly many handles and fetches of one key. Refuted (for every count limit): when the reference count overflows while waiters are woken, the waiter at which it happens is never woken (the comment says it gets a miss): a user blocked on it stays blocked for ever, a future made of it is broken; the other waiters get a miss. A SemiFuture destroyed without being evaluated leaves getNumActiveHandles at -1 and shutDown is refused. wentToNvm() is false for pending handles although documented otherwise. Not modelled: time to access, fibers, several keys (shards do not interact), what decides the fetch's result (C17, C19)."
 },
 "C45": {
  "note": "All closed. Four refutations about the code as it is: a lookup that is never woken and a lookup answered with an item of another key (the key of the waiter table is a view into a parent that can be freed between unmarkMoving and wakeUpWaiters), insertOrReplace told it replaced its own item, which then can never be evicted, and a find that misses a key that is present throughout. The positive liveness/key/table theorems restrict to histories without a free in that window (pin = true)."
 },
 "C46": {
  "note": "Slot-level model of the shards, the placeholders and the controller's loops, one iteration a step; arithmetic as in the code, modulo 2^64. Positive theorems for all histories; refutations: one object larger than the size limit leaves every configuration (not FreeMemoryOnly) with a cache that never again accepts an object; the shortage subtraction wraps so that very low free memory (very high RSS) makes the cache expand; the cap on expansion never applies; FreeMemoryOnly's loop does not return while memory is low; fewer entries than shards starves a shard; for keys over 255 bytes the record ends beyond the item's memory (inside the slot) and the padding counter drifts below zero."
 },
 "C47": {
  "note": "Ownership and size accounting of ObjectCache, any number of threads, one shared access a step, over an index with reference counts. Invariants by counting owners. Refuted parts, each with a concrete history: insertOrReplace that throws (old object out of reference counts) leaves the size in the total for ever; insert publishes before it adds, so a concurrent updateObjectSize wraps the total; NVM with an item destructor leaks objects and sizes of items evicted while in or queued for NVM; getObjectSize/updateObjectSize on the replaced pointer, a pointer returned with kAllocError/kKeyAlreadyExists, or a converted pointer dereferences null; without tracking, mutateObject and NVM hits still change the total."
 },
 "C48": {
  "note": "Byte-level model of the stream: marks, headers, checksummed blocks; thrift and CRC32 abstract (any encoding that round-trips, any function). Round trip, rejection of every proper prefix and of every change that alters a checksum, for all sizes. Refuted parts: navy files of a multiple of 4 GiB (int32_t size: no block read, checksum byte taken for a mark: failure, or success with empty files); streams of 1-8 bytes read beyond the buffer; an empty NvmCacheState leaves the old file; a changed mark ends the restore early and is accepted; a changed block length reads out of bounds; two blocks exchanged are accepted."
 },
 "C49": {
  "note": "Model: one key, every shared access a step, cohort counts, numChunks_, pendingNumChunks_, chunk releases as generations. C49_no_stale needs that no set/del of the key is between its two lookups at the store of numChunks_; C49_no_stale_refuted shows the code fails otherwise (a completed del is undone). Other refutations: resize to zero, overlapping resizes, pool resized during a resize. Not modelled: bucket internals (C36), two-vector chunk list, packing of cohort counts."
 },
 "C50": {
  "note": "Model: each section under lock_ is a step; condition variable with explicit notify_one choice, spurious wake-ups and timeouts at any moment; preWork() holds the lock across steps. Found: between the worker's exit (flag lowered, lock released) and the stopper's wake-up a second stop() raises the flag again; then two stop(0) calls hang for ever (C50_two_stops_refuted), start() returns true without a worker (C50_start_runs_refuted), a timed-out stop leaves no worker (C50_timeout_goes_on_refuted). Not modelled: exceptions out of work(), stop() called from work() itself, destruction during a call, interval values."
 },
 "C51": {
  "note": "Model: small-step interleaving of Persistor::run, the bounded queue, the persist workers (as PeriodicWorkers, C50), and of the restorer's threads; i32/uint32/size_t conversions exact; files as lists of records; constructor's truncations as crash steps. Found: objectSize i32 narrowing (C51_size_refuted), memcpy of length() bytes of the first IOBuf only (C51_chain_refuted), ttl computed from the worker's start time (C51_expiry_refuted), torn base/worker files accepted (C51_crash_torn_refuted), throwing serialize callback (C51_throw_refuted). Not modelled: thrift and RecordIO encodings, the insertion's own success (C23), logs."
 },
 "C52": {
  "note": "Model: the tracker's rotation over abstract buckets (lists of hashes since the last reset) and any sketch (C23, C24 give the two used); calls one after the other for the positive theorems, two interleaved recordAccess calls for the race. Found: C52_removed_refuted, C52_two_buckets_refuted, C52_skipped_refuted, C52_first_refuted, C52_race_refuted. Not modelled: the conversion of the reuse time to int, counters, rate windows."
 },
 "C53": {
  "note": "Model: head, tail, size and next pointers over a shared heap of nodes; pointer compression lossless (C08); iteration with removal as the loop the callers write. Found: C53_move_ctor_refuted. Not modelled: AsanSList."
 },
 "C54": {
  "note": "Model: the 64-bit word with its wrapping arithmetic, one atomic operation per step, sequentially consistent (as the code asks for). Found: C54_two_switchers_refuted (the comment in the code excludes it). C49 uses the two counts this property justifies. Not modelled: moving tokens, the sleep."
 },
 "C55": {
  "note": "Model: the buffer byte by byte with the layout of GCC on a little-endian machine (header 12, info 24, record 5 bytes); accesses outside it are undefined (None). Not modelled: read mode (not implemented in the code yet), that the infos lie 12 bytes into the buffer and so are not aligned for their 64-bit members, CombinedEntryManager's streams and locks."
 }
}