{"id": "C01", "title": "Taking and dropping handles never corrupts an item's state word", "statement": "Acquiring a handle raises the number of outstanding handles by exactly one and dropping it lowers it by exactly one; neither ever changes the item's linked/accessible/exclusive marks or any flag. At the maximum count acquiring throws instead of wrapping into the admin bits, and dropping with no outstanding handle throws instead of borrowing. Every mark/flag setter changes only its own bit.", "quantifier": "every 32-bit state word and every sequence of operations on it", "why_tests_cant": "there are 2^32 state words and the interesting ones (count saturated, count zero with marks set) are hit only at the boundary", "anchors": ["cachelib/allocator/Refcount.h: incRef, decRef, markAccessible, markInMMContainer, markForEviction, markMoving, setFlag"]}
{"id": "C02", "title": "Eviction/move exclusivity against concurrent handles", "statement": "Whatever the interleaving of threads acquiring/dropping handles and trying to evict or move an item: at most one thread at a time owns the item exclusively; it obtains exclusivity only when no user handle exists; while an item is marked for eviction or moving no handle can be acquired; every handle acquired is dropped at most once; a failed attempt leaves the item unchanged.", "quantifier": "every number of threads and every interleaving of their load/compare-exchange steps", "why_tests_cant": "races need one specific interleaving of compare-and-swap loops out of unboundedly many", "anchors": ["cachelib/allocator/Refcount.h: incRef, decRef, markForEviction, markMoving, markForEvictionWhenMoving, unmarkMoving, atomicUpdateValue"]}
{"id": "C03", "title": "The RAM index behaves as a map", "statement": "Lookup by key in the RAM index returns the item most recently inserted/replaced under that key and not yet removed, or nothing; insert fails exactly when the key is present; insertOrReplace returns the old item; remove/replace succeed exactly when the very item is indexed; no operation on one key affects another key, even when they share a bucket.", "quantifier": "every sequence of index operations, every key set and every hash function (all collision patterns)", "why_tests_cant": "collision patterns and histories are unbounded", "anchors": ["cachelib/allocator/ChainedHashTable.h: insert, insertOrReplace, replaceIf, remove, find, Impl"]}
{"id": "C04", "title": "Intrusive doubly linked list refines a sequence", "statement": "After any sequence of link-at-head/tail, insert-before, remove, replace and move-to-head, walking the list from the head visits exactly the elements of the corresponding sequence in order, from the tail in reverse, and the reported size is its length; nodes not in the list have null links.", "quantifier": "every sequence of list operations respecting the API preconditions", "why_tests_cant": "pointer corruption shows only on particular adjacent/head/tail combinations in long histories", "anchors": ["cachelib/allocator/datastruct/DList.h"]}
{"id": "C05", "title": "LRU eviction order and insertion point", "statement": "In the LRU container an item is present exactly if it was added and not removed; eviction candidates are offered from least to most recently promoted; promotion moves exactly the accessed item to the head and never loses/duplicates items; with an insertion point spec k the insertion-point item is at (size >> k, at least 1) from the tail.", "quantifier": "every sequence of add/remove/replace/access operations, all configurations and clock values", "why_tests_cant": "ordering/marking invariants break only after long mixed histories", "anchors": ["cachelib/allocator/MMLru.h: add, remove, replace, recordAccess, updateLruInsertionPoint, ensureNotInsertionPoint"]}
{"id": "C06", "title": "2Q queue discipline", "statement": "In the 2Q container each managed item is in exactly one of hot/warm/cold queues, newly added items go to hot, an access to a cold item promotes it to warm, rebalancing moves overflow from hot/warm to cold without loss or duplication, and evicted/removed items leave every queue; eviction iterates the queues cold (tails first) without visiting an item twice.", "quantifier": "every history of add/access/remove/replace and all size percentages", "why_tests_cant": "queue membership depends on unbounded history", "anchors": ["cachelib/allocator/MM2Q.h: add, recordAccess, rebalance, removeLocked, replace", "cachelib/allocator/datastruct/MultiDList.h"]}
{"id": "C07", "title": "TinyLFU admission queue discipline", "statement": "Items live in exactly one of the tiny/main queues; the tiny queue is kept at its configured fraction; an item is moved from tiny to main only under the documented frequency rule; no item is lost or duplicated.", "quantifier": "every history and every frequency estimate", "why_tests_cant": "depends on sketch state and unbounded histories", "anchors": ["cachelib/allocator/MMTinyLFU.h: add, maybePromoteTailLocked, recordAccess, remove"]}
{"id": "C08", "title": "Compressed item pointers are lossless", "statement": "Compressing a pointer to any allocation of any slab/class and uncompressing gives back the same pointer; null maps to null; two distinct allocations never share a compressed value, within the documented size limits (with and without the memory-tier bit).", "quantifier": "every slab index, allocation index and allocation size at least the minimum alloc size", "why_tests_cant": "the domain has billions of values; failures are at bit-field boundaries", "anchors": ["cachelib/allocator/memory/CompressedPtr.h", "cachelib/allocator/memory/SlabAllocator.h: compress/uncompress"]}
{"id": "C09", "title": "Live allocations never overlap and stay in their slab", "statement": "Any two simultaneously live allocations of the memory allocator occupy disjoint byte ranges, each wholly inside one slab assigned to its allocation class and at least as large as requested; freeing makes exactly that range reusable.", "quantifier": "every sequence of allocate/free/slab-acquire/slab-release operations", "why_tests_cant": "overlap needs particular interplay of freelist, current slab and slab release", "anchors": ["cachelib/allocator/memory/AllocationClass.cpp", "cachelib/allocator/memory/MemoryPool.cpp", "cachelib/allocator/memory/SlabAllocator.cpp"]}
{"id": "C10", "title": "Slab release completes only when every allocation is freed", "statement": "While a slab is being released no new allocation is placed in it; release completes only after every live allocation in it was freed or moved; afterwards the class no longer owns it and it can be given to another pool; aborting returns it intact.", "quantifier": "every slab occupancy and every order of frees/allocations during the release", "why_tests_cant": "state machine with history-dependent free lists", "anchors": ["cachelib/allocator/memory/AllocationClass.cpp: startSlabRelease, abortSlabRelease, completeSlabRelease, pruneFreeAllocs, freeAlloc"]}
{"id": "C11", "title": "Allocation class selection is the smallest fit", "statement": "A request of size s in a pool is served from the smallest configured allocation size >= s, and throws if s is 0 or larger than the maximum.", "quantifier": "every sorted configuration of sizes and every request size", "why_tests_cant": "boundaries of every class configuration", "anchors": ["cachelib/allocator/memory/MemoryPool.cpp: getAllocationClassId", "cachelib/allocator/memory/MemoryAllocator.cpp: generateAllocSizes"]}
{"id": "C12", "title": "Pool memory limits and conservation", "statement": "A pool never holds more slab memory than its configured size unless shrunk; the sum of configured pool sizes never exceeds the cache size; resizing moves exactly the requested number of bytes; slab counts of all pools plus the free slabs equal all usable slabs.", "quantifier": "every history of pool creation/resizing/slab acquire and release", "why_tests_cant": "accounting drift accumulates over histories", "anchors": ["cachelib/allocator/memory/MemoryPool.cpp", "cachelib/allocator/memory/MemoryPoolManager.cpp"]}
{"id": "C13", "title": "Item key/value layout", "statement": "For every accepted key and value size an item stores the key and value at disjoint in-bounds offsets, returns exactly the key it was created with, and its recorded value size equals the requested size; oversized keys/values are rejected.", "quantifier": "every key length and value size including the small/large key encoding boundary", "why_tests_cant": "packed length fields fail at boundaries", "anchors": ["cachelib/allocator/KAllocation.h"]}
{"id": "C14", "title": "Expired items are never served", "statement": "A lookup never returns an item whose expiry time has passed, expiry extension/updates obey the documented rule and an item with expiry 0 never expires.", "quantifier": "every creation time, TTL and current time", "why_tests_cant": "depends on clock values and 32-bit arithmetic", "anchors": ["cachelib/allocator/CacheItem.h: isExpired, updateExpiryTime, extendTTL", "cachelib/allocator/CacheAllocator.h: find"]}
{"id": "C15", "title": "Chained allocations form a LIFO chain owned by one parent", "statement": "Adding chained allocations to a parent and iterating yields them in reverse insertion order; popping returns the most recently added; transferring moves the whole chain to the new parent and leaves none behind; replacing substitutes exactly one in place; freeing the parent frees each chained allocation exactly once.", "quantifier": "every chain length and every sequence of chain operations", "why_tests_cant": "unbounded chain histories", "anchors": ["cachelib/allocator/CacheAllocator.h: addChainedItem, popChainedItem, transferChainLocked, replaceChainedItem", "cachelib/allocator/ChainedAllocs.h"]}
{"id": "C16", "title": "An item's memory is reused only after the last handle is gone, and exactly once", "statement": "For any interleaving of find/insert/remove/evict/handle release, the memory of an item is returned to the allocator exactly once, only when no handle refers to it and it is neither indexed nor in the eviction container; no handle ever refers to freed memory; nothing leaks once every handle is dropped and the item is removed.", "quantifier": "every number of threads and every interleaving of API calls at the atomicity of the locks and CASes", "why_tests_cant": "use-after-free and leaks are schedule dependent", "anchors": ["cachelib/allocator/CacheAllocator.h: releaseBackToAllocator, release, insertOrReplace, remove, getNextCandidate, unlinkItemForEviction"]}
{"id": "C17", "title": "Removed or replaced data is never resurrected from flash", "statement": "After remove(key) (or an insertOrReplace) has returned in the two-level cache, no later find(key) returns a value older than it, whatever evictions to flash, flash lookups, flash removals and fills into RAM are in flight.", "quantifier": "every interleaving of find/insertOrReplace/remove/evict with asynchronous flash jobs", "why_tests_cant": "requires a specific race among four asynchronous activities", "anchors": ["cachelib/allocator/nvmcache/NvmCache.h: find, put, remove, onGetComplete, createDeleteTombStone", "cachelib/allocator/nvmcache/InFlightPuts.h", "cachelib/allocator/nvmcache/TombStones.h", "cachelib/allocator/CacheAllocator.h"]}
{"id": "C18", "title": "Flash item encoding round-trip", "statement": "An item with any number of chained allocations written to flash and read back yields the same pool, creation/expiry time, and the same list of payloads with the same original sizes in the same order.", "quantifier": "every number of blobs, sizes and contents", "why_tests_cant": "packing offsets over unbounded lists", "anchors": ["cachelib/allocator/nvmcache/NvmItem.h", "cachelib/allocator/nvmcache/NvmItem.cpp", "cachelib/allocator/nvmcache/NvmCache.h: makeNvmItem, createItem"]}
{"id": "C19", "title": "Item destructor runs exactly once across RAM and flash", "statement": "For each item inserted, the registered destructor is invoked exactly once over its life across RAM and flash copies.", "quantifier": "every order of eviction, removal, flash eviction and promotion", "why_tests_cant": "history dependent hand-over between two levels", "anchors": ["cachelib/allocator/nvmcache/NvmCache.h: evictCB, markNvmItemRemovedLocked", "cachelib/allocator/CacheAllocator.h: releaseBackToAllocator"]}
{"id": "C20", "title": "Small-object bucket storage is a FIFO byte allocator", "statement": "A bucket's storage, operated by allocate, remove, remove-many and remove-until, always iterates exactly the live allocations in insertion order with unchanged contents, never overlapping and never beyond capacity; allocate fails exactly when the slot does not fit.", "quantifier": "every capacity, every sequence of operations and all byte contents", "why_tests_cant": "compaction by memmove over arbitrary subsets", "anchors": ["cachelib/navy/bighash/BucketStorage.h", "cachelib/navy/bighash/BucketStorage.cpp"]}
{"id": "C21", "title": "Small-object bucket: find/insert/remove/evict", "statement": "In a bucket, find returns the value of the entry whose key equals the requested key (hash equality alone is not enough); insert evicts first expired entries and then oldest-first just enough to fit, calling the destructor exactly once for each evicted entry; remaining entries keep value and order.", "quantifier": "every bucket content, key, value, expiry predicate", "why_tests_cant": "combinatorial bucket contents", "anchors": ["cachelib/navy/bighash/Bucket.h", "cachelib/navy/bighash/Bucket.cpp"]}
{"id": "C22", "title": "Small-object engine behaves as a lossy map", "statement": "BigHash lookup returns either the last successfully inserted value of that key that was not removed since, or a miss; never another key's value, nor a stale one, including with bloom filter, I/O errors, corrupted buckets (checksum mismatch), and generation change; a miss from couldExist is never wrong for a stored key.", "quantifier": "every history of insert/lookup/remove, device failures, hash function, and bucket count", "why_tests_cant": "needs failure injection at each I/O of unbounded histories", "anchors": ["cachelib/navy/bighash/BigHash.cpp: insert, lookup, remove, couldExist, bfRebuild, readBucket, writeBucket"]}
{"id": "C23", "title": "Bloom filter has no false negatives", "statement": "After any sequence of set/clear/reset on any filter index, couldExist(idx,key) is true for every key set in idx since its last clear; operating one filter index never changes another; persisting and recovering preserves all answers.", "quantifier": "every parameterization, key, history and hash function", "why_tests_cant": "bit index arithmetic over all parameterizations", "anchors": ["cachelib/common/BloomFilter.h", "cachelib/common/BloomFilter.cpp"]}
{"id": "C24", "title": "Count-min sketch never underestimates", "statement": "The count reported for a key is at least the number of its increments (capped at the counter maximum) since the last reset/decay and at most the total number of increments; counters saturate and never wrap; reset of one key brings its own count to zero without underflow.", "quantifier": "every width/depth, hash, key and history", "why_tests_cant": "collision patterns and saturation", "anchors": ["cachelib/common/CountMinSketch.h"]}
{"id": "C25", "title": "Approximate split set", "statement": "A \"seen before\" answer is given only for a (32-bit truncated) key really inserted earlier and still tracked; a key inserted and not dropped by the bounded probing is found; tracked keys never exceed the configured number.", "quantifier": "every insertion history", "why_tests_cant": "robin-hood probing states", "anchors": ["cachelib/common/ApproxSplitSet.h"]}
{"id": "C26", "title": "Large-object engine returns only what was stored", "statement": "BlockCache lookup returns the exact value most recently inserted for that key or a miss; entries of other keys with colliding index entries or reclaimed regions are never returned.", "quantifier": "every history of insert/lookup/remove/reclaim with any hash collisions", "why_tests_cant": "collisions and reclaim timing", "anchors": ["cachelib/navy/block_cache/BlockCache.cpp: insert, lookup, remove, onRegionReclaim, readEntry, writeEntry"]}
{"id": "C27", "title": "Flash index entry operations are atomic per key", "statement": "The flash index maps each key hash to at most one address; replaceIfMatch/removeIfMatch take effect iff the current address equals the expected one; lookups/inserts/removes act like a map from (the recognised part of) the key hash to address.", "quantifier": "every history of index operations", "why_tests_cant": "unbounded histories/collisions", "anchors": ["cachelib/navy/block_cache/SparseMapIndex.cpp", "cachelib/navy/block_cache/FixedSizeIndex.h", "cachelib/navy/block_cache/FixedSizeIndex.cpp", "cachelib/navy/block_cache/Index.h"]}
{"id": "C28", "title": "Flash addresses and size hints encode losslessly/safely", "statement": "Entry addresses encode to and decode from the 32-bit on-flash form without loss for every aligned address in range; the size hint always decodes to at least the actual size.", "quantifier": "every region/offset/alignment and every size", "why_tests_cant": "exponent/bit boundaries", "anchors": ["cachelib/navy/block_cache/BlockCache.h: encodeRelAddress, decodeRelAddress, encodeSizeHint, decodeSizeHint", "cachelib/navy/block_cache/Types.h"]}
{"id": "C29", "title": "Regions are not recycled under active readers/writers", "statement": "A flash region is reset/reused only when no reader or writer holds it open; no reader is admitted while it is blocked for reclaim; concurrent allocations in a region get disjoint ranges inside the region; a buffer is flushed only with no active writer and detached only with no in-memory reader.", "quantifier": "every interleaving of region operations", "why_tests_cant": "thread interleavings", "anchors": ["cachelib/navy/block_cache/Region.cpp", "cachelib/navy/block_cache/RegionManager.cpp"]}
{"id": "C30", "title": "Clean-region and write-buffer pools conserve their elements", "statement": "Every region is at any time in exactly one place (clean, allocated to an allocator, tracked by the eviction policy, or being reclaimed) and in-memory buffers are neither lost nor duplicated.", "quantifier": "every interleaving of region-manager operations including failures", "why_tests_cant": "leaks occur in rare failure paths", "anchors": ["cachelib/navy/block_cache/RegionManager.cpp: getCleanRegion, releaseCleanedupRegion, assignBufferToRegion, doFlush, doReclaim"]}
{"id": "C31", "title": "Region eviction policies", "statement": "FIFO (and segmented FIFO) and LRU region policies return each tracked region exactly once before it is tracked again, in insertion (resp. least-recent-touch) order, and persist/recover preserves the order.", "quantifier": "every sequence of track/touch/evict", "why_tests_cant": "unbounded histories", "anchors": ["cachelib/navy/block_cache/FifoPolicy.cpp", "cachelib/navy/block_cache/LruPolicy.cpp"]}
{"id": "C32", "title": "Small/large engine pair never serves a stale copy", "statement": "With items routed by size between the two flash engines, a lookup after an insert or remove never returns the copy left in the other engine.", "quantifier": "every sequence of operations with any sizes and engine outcomes (ok/not found/retry/errors)", "why_tests_cant": "needs errors/retries between two engines", "anchors": ["cachelib/navy/engine/EnginePair.cpp"]}
{"id": "C33", "title": "Flash requests for one key execute in order", "statement": "Requests of the same key are executed one at a time in submission order, and none is lost, for any number of workers.", "quantifier": "every submission order and worker schedule", "why_tests_cant": "scheduling nondeterminism", "anchors": ["cachelib/navy/scheduler/NavyRequestScheduler.cpp", "cachelib/navy/scheduler/NavyRequestDispatcher.cpp"]}
{"id": "C34", "title": "Striped device maps logical bytes one-to-one", "statement": "Reading back any range previously written through the RAID0 device returns those bytes; the logical to (device, offset) mapping is a bijection; I/O is split into chunks without gap or overlap.", "quantifier": "every stripe size, device count, offset and length", "why_tests_cant": "boundary arithmetic", "anchors": ["cachelib/navy/common/Device.cpp"]}
{"id": "C35", "title": "Admission accounting", "statement": "The driver never has more parcel memory or concurrent inserts outstanding than configured, and releases exactly what it reserved.", "quantifier": "every interleaving of inserts and completions", "why_tests_cant": "atomic counter races", "anchors": ["cachelib/navy/driver/Driver.cpp"]}
{"id": "C36", "title": "Compact cache bucket is an LRU map of bounded size", "statement": "A compact-cache bucket holds at most its capacity of entries, never two entries with one key, evicts the least recently used/promoted first, and get returns the last set value of a key.", "quantifier": "every sequence of set/get/del", "why_tests_cant": "unbounded histories", "anchors": ["cachelib/compact_cache/CCacheFixedLruBucket.h", "cachelib/compact_cache/CCacheVariableLruBucket.h"]}
{"id": "C37", "title": "Cache-resident containers (Map, RangeMap, Buffer) behave as maps", "statement": "The containers stored inside cache items behave as (ordered) maps for every sequence of operations including reallocation/compaction.", "quantifier": "every sequence of operations", "why_tests_cant": "unbounded histories", "anchors": ["cachelib/datatype/Map.h", "cachelib/datatype/RangeMap.h", "cachelib/datatype/Buffer.h", "cachelib/datatype/Buffer.cpp"]}
{"id": "C38", "title": "Rebalancing picks legal victims and receivers", "statement": "A rebalancing strategy never returns a victim class without the minimum number of slabs, never victim = receiver, and never acts when the configured threshold is not exceeded.", "quantifier": "every pool statistics", "why_tests_cant": "all statistics vectors", "anchors": ["cachelib/allocator/RebalanceStrategy.cpp", "cachelib/allocator/LruTailAgeStrategy.cpp", "cachelib/allocator/HitsPerSlabStrategy.cpp", "cachelib/allocator/FreeMemStrategy.cpp", "cachelib/allocator/MarginalHitsStrategy.cpp"]}
{"id": "C39", "title": "Consistent hashing is in range and monotone", "statement": "The shard chosen for a key among m shards is < m, and growing from m to m+1 shards moves keys only to the new shard.", "quantifier": "every key and m", "why_tests_cant": "all keys and sizes", "anchors": ["cachelib/common/FurcHash.cpp"]}
{"id": "C40", "title": "Piecewise request splitting covers the requested range exactly", "statement": "Splitting an object/range into pieces yields pieces that tile exactly the requested range within the object; trims at start and end are right.", "quantifier": "every object size, piece size, range", "why_tests_cant": "boundary arithmetic", "anchors": ["cachelib/common/piecewise/GenericPieces.cpp", "cachelib/common/piecewise/GenericPiecesBase.cpp"]}
{"id": "C41", "title": "The RAM cache is re-attached after a restart only after a clean shutdown", "statement": "A process that re-attaches a shared-memory segment finds exactly the contents that the previous owner of the cache directory left when its shutDown completed; no process ran on the directory in between; a crash at any point, a torn metadata write or a drop request never leads to an attach. While nobody deletes the metadata file at most one process runs on a directory. A clean shutdown followed by a start does re-attach every segment, unchanged.", "quantifier": "every number of processes, every interleaving of their system calls, every crash point, every torn write, every deletion of files or segments", "why_tests_cant": "schedules of several processes and crash points between any two system calls cannot be enumerated", "anchors": ["cachelib/shm/ShmManager.cpp", "cachelib/shm/ShmManager.h", "cachelib/shm/shm.thrift"]}
{"id": "C42", "title": "The flash cache is resumed only after a clean save by the last instance", "statement": "An instance that starts with old flash contents starts with exactly what the last instance that came up had saved and marked, with the same format version and settings, and with that cache's creation time; after a crash at any point, a torn state file, a drop request that was seen, or a lost RAM cache (if so configured) it starts empty. A shutdown and start without failures always resumes.", "quantifier": "every sequence of instances and settings, every crash point between file and device operations, every reported failure, every moment at which the drop request is made", "why_tests_cant": "crash points, failures and drop requests combine over any number of restarts", "anchors": ["cachelib/allocator/NvmCacheState.cpp", "cachelib/allocator/CacheAllocator.h:initNvmCache,saveNvmCache", "cachelib/navy/driver/Driver.cpp:persist,recover,reset"]}
{"id": "C43", "title": "The saved flash-engine state is read back exactly, or not at all", "statement": "If saving the engines' records to the device's metadata area reports success, its writes succeeded, and the stream's last block ends before the end of the area, then reading returns exactly those records in order and then fails; without write failures a save succeeds iff the records fit; a successful save changes no byte behind the area; whatever the device holds, each record that reading returns lies on it intact with matching length and hashes; after invalidate nothing is found.", "quantifier": "every list of records and sizes, every block size and area size, every prior device content, every pattern of failing writes", "why_tests_cant": "record sizes relative to block and area boundaries, stale device contents and write failures combine without bound", "anchors": ["cachelib/navy/serialization/RecordIO.cpp:DeviceMetaDataWriter,DeviceMetaDataReader", "cachelib/navy/driver/Driver.cpp:persist,recover"]}
{"id": "C44", "title": "Pending handles resolve once, to the right item, for every waiter, and leak nothing", "statement": "A lookup that has to go to flash returns a pending handle. Whatever users do with such handles at whatever time (isReady, wait, get, clone, release, toSemiFuture, reset, destroying the future) and however the completion interleaves: every handle that waits for a fetch gets the item that fetch brought, or a miss if it brought none; all looks at one handle agree and ready stays ready; when the fetch is over all of its waiters have their answer and blocked users can go on; the fetch can always be completed; no reference is taken from a freed item, held items are alive, and when all handles are gone every reference has been returned and the number of active handles is back at zero.", "quantifier": "every number of lookups, fetches and handles of a key, every reference count limit, every interleaving of users' calls with the steps of the completing threads", "why_tests_cant": "the hand-over between the completing thread and users has unboundedly many interleavings, and reference count overflow is practically not reached in tests", "anchors": ["cachelib/allocator/Handle.h:ItemWaitContext,toSemiFuture,clone,release,wentToNvm", "cachelib/allocator/nvmcache/NvmCache.h:GetCtx,wakeUpWaiters,removeFromFillMap,find,onGetComplete", "cachelib/allocator/CacheAllocator.h:incRef,decRef,adjustHandleCountForThread_private,shutDown"]}
{"id": "C45", "title": "A lookup that meets an item being moved is answered exactly once, with an item of its key, and is never left waiting", "statement": "While slab releases move items, a find, remove or insertOrReplace of a key whose item is marked moving waits. Whatever the interleaving of inserts, lookups, removes, evictions and slab releases (including a slab release that itself has to wait for another one): no lookup is answered twice; every lookup is answered by the time the slab releases under way have ended; slab releases and waiting lookups never wait for each other in a circle and end after a bounded number of steps; the answer is a miss or an item of the key asked for; handles, the index and the table of waiters refer only to memory that has not been given back and whose key has not changed. The liveness, key and table claims hold for histories in which the parent of a moved chained item is not freed between being unmarked and its waiters being woken; without that they are refuted, as is that insertOrReplace is never told it replaced the very item it inserted, and that a find of a key that is present all the time hits.", "quantifier": "all histories of inserts, lookups, releases, removes, evictions, moves of items and of chained items, of any length, number of threads, keys and addresses, with address reuse; all interleavings of their atomic steps; all hash functions of the waiter table", "why_tests_cant": "The table of waiters is keyed by views into item memory which other threads may free; whether every waiter is woken, by whom, and that the waits are not circular depends on every interleaving of any number of threads.", "anchors": ["cachelib/allocator/CacheAllocator.h: acquire, tryGetHandleWithWaitContextForMovingItem, wakeUpWaiters, moveRegularItem, moveForSlabRelease, evictForSlabRelease, insertOrReplace, MoveMap", "cachelib/allocator/ChainedHashTable.h: insertOrReplace, replaceIf, find, remove", "cachelib/allocator/Refcount.h: markMoving, unmarkMoving, markForEvictionWhenMoving"]}
{"id": "C46", "title": "The object cache keeps to its entry and size limits", "statement": "An object cache (ObjectCache with l1EntriesLimit, l1NumShards, totalObjectSizeLimit) never holds more objects than the current entries limit, which never exceeds l1EntriesLimit, whatever inserts, removals, evictions and controller runs interleave; the limit is spread evenly over the shards, so every shard has room when the limit is at least the number of shards. When the objects (all of one size) exceed the total size limit, one run of the size controller evicts down to the limit; any limit it chooses, times the average size, is at most the size limit. Every entry's record fits into its slot, aligned, for all keys up to maxKeySizeBytes. Low free memory makes the cache shrink.", "quantifier": "all configurations (shards, slots, limits, modes, key lengths), all histories of inserts, publishes, unlinks, releases, limit changes and controller steps in any interleaving, all readings of total size, free and resident memory", "why_tests_cant": "The tests run a controller against a few hand-chosen memory readings and a single-threaded user; that the slots add up under every interleaving, for every shard count and every reading (wrap-around included), and that a state is never left again, are claims about infinitely many runs.", "anchors": ["cachelib/object_cache/ObjectCache.h: init, calculateCacheCapacity, getL1AllocSize, allocatePlaceholder, getAlignedItemPtr", "cachelib/object_cache/ObjectCacheSizeController.h: work, shrinkCacheByEntriesNum, expandCacheByEntriesNum, ensureFreeMemoryAboveLowerLimit", "cachelib/allocator/KAllocation.h: getMemory, extraBytesForLargeKeys", "cachelib/common/Utils.h: getDivCeiling, getAlignedSize"]}
{"id": "C47", "title": "Objects of the object cache are destroyed exactly once and their sizes add up", "statement": "An object handed to ObjectCache::insert or insertOrReplace (or made from NVM by a find) is destroyed at most once, never while a lookup can find it or a shared_ptr returned by the cache keeps it; a key maps to at most one object; once the cache is empty and users have dropped their pointers every object has been destroyed, and every state can be brought there. With size tracking, getTotalObjectSize is, whenever no call is under way, the sum of the sizes of the objects in the cache or kept by users.", "quantifier": "all configurations (size tracking, item destructor or remove callback, NVM), all histories of any number of threads: inserts, replacements, finds, removals, evictions, NVM hits, copies/conversions/drops of pointers, updateObjectSize, mutateObject, every interleaving of the steps of these calls", "why_tests_cant": "The tests run single calls; that no interleaving of replace, evict, update and drop destroys an object twice or too early, or loses a size, is a claim about every schedule and every history.", "anchors": ["cachelib/object_cache/ObjectCache.h: insertOrReplace, insert, find, remove, mutateObject, updateObjectSize, Deleter, getReadHandleRefInternal, init (callbacks)", "cachelib/object_cache/ObjectCacheConfig.h: overrideNvmCbs", "cachelib/allocator/CacheAllocator.h: releaseBackToAllocator, release, insertOrReplace", "cachelib/allocator/nvmcache/NvmCache.h: createItem, onGetComplete"]}
{"id": "C48", "title": "A cache saved to a stream is restored as it was, or not at all", "statement": "restoreCache on what saveCache wrote gives back the shared memory segments, the navy files and the NVM state byte for byte; if the storage returns a stream that ends early, or data blocks with another checksum, restoreCache throws and no cache becomes attachable.", "quantifier": "all contents and sizes of segments and navy files, all block sizes, all prefixes of the stream, all changes of the data of any blocks, any checksum function and any header encoding that decodes what it encoded", "why_tests_cant": "The tests save and restore one small cache and corrupt a few fixed positions; byte-exactness and rejection must hold for every content, size and point of truncation. Sizes of 4 GiB and more are never tested, and there the round trip is false.", "anchors": ["cachelib/persistence/PersistenceManager.cpp: saveCache, restoreCache, saveDataInBlocks, restoreDataFromBlocks, saveShm, saveFile, restoreFile", "cachelib/persistence/PersistenceManager.h: DataBlock, kDataBlockSize", "cachelib/common/Utils.h: getAlignedSize"]}
{"id": "C49", "title": "A compact cache can be resized while it is in use", "statement": "While get, set and del calls run, resizing a compact cache (growing or shrinking the number of chunks) never lets a call touch a chunk whose memory has been given back; when resize has waited, only calls that started after the switch still hold a token; what a get finds was set; an entry that is not written to is found before, during and after the resize when entries are copied; a get never finds a value that was replaced or removed before it began (unless a set or del of that key straddles the store of the new number of chunks, which the code allows and which undoes the del); after resize the cache uses exactly the new chunks and nothing is pending.  Resizing to nothing, overlapping resizes and resizing the pool during a resize break this, and are shown to.", "quantifier": "every hash function into the chunks, every initial size, every interleaving of any number of gets, sets, dels, evictions, timeouts, pool resizes and resizes of the cache", "why_tests_cant": "The races are between single atomic accesses of the resizer and of callers (three cohort switches, two loads of the number of chunks per write); a test sees a few schedules.", "anchors": ["cachelib/compact_cache/CCache.h:CompactCache::resize", "cachelib/compact_cache/CCache.h:CompactCache::callBucketFn", "cachelib/compact_cache/CCache.h:CompactCache::tableRehash", "cachelib/compact_cache/CCache.h:CompactCache::tableFindDblWriteBucket", "cachelib/common/Cohort.h:Cohort::switchCohorts", "cachelib/common/Cohort.h:Cohort::incrActiveReqs", "cachelib/allocator/CCacheAllocator.cpp:CCacheAllocator::resize"]}
{"id": "C50", "title": "A periodic worker starts, stops, wakes and works one at a time", "statement": "Whatever threads call start, stop and wakeUp on a periodic worker: when stop() has returned true no work is under way and none begins until a start() makes a new thread; there is never more than one work() at a time; from the moment a stop() has got the lock no further work() begins (unless it times out); a wakeUp() is not lost: until a work() has begun after it, the worker does not sleep on; a stop() with no time limit returns false only if another stop() was under way; if stops do not overlap, a stop returns true as soon as the worker runs, and after one that timed out the work goes on; a start() that makes a thread gets work going.  With two overlapping stops three of these fail, and are shown to: both stops may wait for each other for ever, start() may return true with no worker, and a stop may time out 'leaving the work going' when the worker has ended.", "quantifier": "every number of calling threads, every history of calls of start, stop (with and without time limit) and wakeUp, every interleaving with the worker's loop, every timeout and spurious wake-up and every choice notify_one makes", "why_tests_cant": "The outcomes depend on who gets the lock between the worker's last unlock and the stopper's wake-up and on whom notify_one chooses; tests cannot force these.", "anchors": ["cachelib/common/PeriodicWorker.cpp:PeriodicWorker::stop", "cachelib/common/PeriodicWorker.cpp:PeriodicWorker::start", "cachelib/common/PeriodicWorker.cpp:PeriodicWorker::loop", "cachelib/common/PeriodicWorker.h:PeriodicWorker::wakeUp"]}
{"id": "C51", "title": "Persisting an object cache and recovering it gives every object back", "statement": "ObjectCache::persist() followed by recover(): every object of the cache, in whatever pool, is written to the files exactly once if the serialize callback gives buffers for it, unless it has expired by then; expired ones are counted; the run ends.  Recovering calls the deserialize callback exactly once for each record that has not expired, with the key, payload and size that were written and a time to live that does not end before the object's expiry time.  So each object comes back once, or its time has come; with one thread (enablePersistenceWithEvictionOrder) the objects of each pool come back in eviction order.  A crash while persisting leaves only records of this cache's objects, none twice, or files of the previous run.  This needs sizes below 2^31 and payloads of one buffer: a size of 2^31 comes back as 2^64-2^31, a chained payload comes back cut, an object can outlive its expiry time by the length of the restore, and a crash while the files are opened makes recover() return true with part of the old cache: shown as refutations.", "quantifier": "every content of the cache, every number of pools and workers, every interleaving of the iterating thread, the persist workers and the restore workers, every passing of time and every crash point", "why_tests_cant": "The queue, the workers' intervals and the clock interleave freely, and the wait for the empty queue races with the worker that has just taken the last unit; the size and expiry conversions matter only at values tests do not use; crash points cannot be enumerated.", "anchors": ["cachelib/object_cache/persistence/Persistence.h:Persistor::run", "cachelib/object_cache/persistence/Persistence.h:PersistWorker::work", "cachelib/object_cache/persistence/Persistence.h:RestoreWorker::work", "cachelib/object_cache/persistence/Persistence.h:Restorer::run", "cachelib/object_cache/persistence/persistent_data.thrift:Item", "cachelib/object_cache/ObjectCache.h:ObjectCache::persist"]}
{"id": "C52", "title": "The access tracker remembers accesses for the tracked time and the reuse-time policy reinserts accordingly", "statement": "An access recorded in the tracker is not forgotten while it is less than numBuckets spans old: all accesses of a key in such a span are counted in one of the features, and unless it is the oldest, in one at most one place from its age, whatever the gaps between calls.  In steady use (at least three buckets, a call in every span) each feature is exactly what the sketch says of the accesses of its span, and older ones are gone.  The reuse-time reinsertion policy reinserts exactly the items that are in the index, have not expired and whose time since the last access and time between the last two accesses, to the span, are within the threshold; with a threshold of the whole tracked time no live item accessed within it is dropped.  Not so, as shown: with gaps buckets are not removed (an access any number of whole windows ago is reported as of now, skipped buckets keep what they held), two buckets never rotate, the first span can be merged with the next, and two threads at the start of a span can lose an access.", "quantifier": "every number and length of buckets, every history of calls with any gaps between them, every key and every sketch that does not underestimate", "why_tests_cant": "The answer depends on the whole history of call times modulo the window; tests try a few tick sequences with every bucket used in turn, and the race at a span's start needs a particular interleaving.", "anchors": ["cachelib/common/AccessTracker.h:AccessTrackerBase::updateMostRecentAccessedBucket", "cachelib/common/AccessTracker.h:AccessTrackerBase::getAccesses", "cachelib/common/AccessTracker.h:AccessTrackerBase::recordAccess", "cachelib/navy/block_cache/ReuseTimeReinsertionPolicy.cpp:ReuseTimeReinsertionPolicy::shouldReinsert", "cachelib/navy/block_cache/ReuseTimeReinsertionPolicy.cpp:ReuseTimeReinsertionPolicy::getReuseTime"]}
{"id": "C53", "title": "The free-allocation lists behave like disjoint sequences", "statement": "For every sequence of calls in which a node is inserted only while it is in no list and pop is called only on a non-empty list, any number of intrusive singly linked lists over the same nodes behave like sequences that have no node in common and none twice: insert puts at the front, pop takes from the front, splice moves a whole list in front of another, removing through an iterator deletes exactly the chosen elements and keeps the order, move assignment empties the source, and a list restored from its saved state (with the tail saved, or found by walking) is the same; no such call throws or dereferences null.  Popping an empty list throws.  Not so, as shown: the (defaulted) move constructor leaves the source with its elements, so both lists then hand out the same node.", "quantifier": "every number of lists and nodes, every sequence of calls, every set of elements to remove", "why_tests_cant": "The links are shared between lists and every operation rewrites them; tests check short fixed sequences, while correctness needs the links to be right after every history.", "anchors": ["cachelib/allocator/datastruct/SList.h:SList::insert", "cachelib/allocator/datastruct/SList.h:SList::pop", "cachelib/allocator/datastruct/SList.h:SList::splice", "cachelib/allocator/datastruct/SList.h:SList::remove", "cachelib/allocator/datastruct/SList.h:SList::operator="]}
{"id": "C54", "title": "switchCohorts waits for exactly the tokens handed out before it", "statement": "With fewer than 2^31 requests and switchCohorts called by one at a time, in every interleaving: the two counts packed in one word are exact at every moment and exactly one cohort is current; switchCohorts does not return while any token handed out before it began is held; when no call is under way every token held is of the current cohort; a token is always handed out for the cohort current at that moment; a waiting call returns at its next look once nobody uses the old cohort, each user of which is out with its own next operation; a request gets its token at the first try unless a switch came between its two operations.  Not so, as shown, if two calls of switchCohorts overlap: both return while a token handed out before them is held.", "quantifier": "every number of requests below 2^31, every schedule of the atomic operations of requests and switches", "why_tests_cant": "The guarantee is about the interleavings in which a request reads the current cohort, is overtaken by one or more switches and then adds; stress tests rarely hit them and cannot cover all.", "anchors": ["cachelib/common/Cohort.h:Cohort::switchCohorts", "cachelib/common/Cohort.h:Cohort::incrActiveReqs", "cachelib/common/Cohort.h:Cohort::decrActiveReqs", "cachelib/common/Cohort.h:Cohort::getPending"]}
{"id": "C55", "title": "The combined entry block is a map, and its buffer alone has the map", "statement": "For every block size from 12 to 65535 bytes, whatever bytes the buffer has at first, and for every sequence of adding, removing and clearing: no access leaves the buffer; adding answers ok for a new or removed key, updated for one that is there, and full exactly if the infos and records of one more key do not fit (and then changes nothing); a removed key keeps its place and can come back in a full block, under the same or another bucket; removing answers ok exactly for a key that is there; every key reads as last added, the numbers of entries, of valid entries and of keys of each bucket are right; and what is written to flash, read back entry by entry skipping removed ones, is exactly the map with buckets and records.", "quantifier": "every block size, every initial content of the buffer, every sequence of calls with 64-bit keys and buckets", "why_tests_cant": "Infos grow from the front and records from the back of one buffer and 16-bit positions are computed from both; overlap, a wrap or a stale flag show only for particular sizes and orders of adds, removals and re-adds.", "anchors": ["cachelib/navy/block_cache/CombinedEntryBlock.cpp:CombinedEntryBlock::addIndexEntry", "cachelib/navy/block_cache/CombinedEntryBlock.cpp:CombinedEntryBlock::removeIndexEntry", "cachelib/navy/block_cache/CombinedEntryBlock.cpp:CombinedEntryBlock::getIndexEntry", "cachelib/navy/block_cache/CombinedEntryBlock.cpp:CombinedEntryBlock::clear", "cachelib/navy/block_cache/CombinedEntryBlock.h:CombinedEntryBlock"]}
