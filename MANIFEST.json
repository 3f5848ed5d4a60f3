{
 "claims": [
  {
   "property": "C01",
   "status": "proved",
   "theorems": [
    "C01_word_refines_fields",
    "C01_history",
    "C01_acquire",
    "C01_drop",
    "C01_set_mark_only",
    "C01_observers"
   ],
   "note": "Bit-exact 32-bit word; every operation of Refcount.h on every word and every call sequence."
  },
  {
   "property": "C02",
   "status": "proved",
   "theorems": [
    "C02_at_most_one_owner",
    "C02_owner_excludes_handles",
    "C02_count_exact",
    "C02_status_exact",
    "C02_no_acquire_while_owned",
    "C02_granted_only_when_free",
    "C02_failed_unchanged",
    "C02_linearised",
    "C02_drop_never_throws",
    "C02_overflow_genuine"
   ],
   "note": "Threads interleave at load/CAS granularity (sequentially consistent; C++ memory orders not modelled). Client rule: drop only held handles, end only owned exclusivity. Includes linearisation of every call."
  },
  {
   "property": "C03",
   "status": "proved",
   "theorems": [
    "C03_behaves_as_map",
    "C03_iteration_and_count",
    "C03_concurrent_scan",
    "C03_lock_groups",
    "C03_same_item_race_refuted"
   ],
   "note": "Pointer-level ChainedHashTable; every interleaving of critical sections with stale unlocked checks, any hash function/collisions, throwing handle makers, memory reuse. Guard (no two racing insertOrReplace of one item) shown necessary by C03_same_item_race_refuted."
  },
  {
   "property": "C04",
   "status": "proved",
   "theorems": [
    "C04_refines_sequence",
    "C04_exclusive_membership"
   ],
   "note": "Pointer-level heap model of DList; any number of lists sharing nodes; every legal call sequence."
  },
  {
   "property": "C05",
   "status": "proved",
   "theorems": [
    "C05_refines_sequence",
    "C05_promote_moves_one",
    "C05_remove_removes_one",
    "C05_add_keeps_others",
    "C05_insertion_point",
    "C05_access_promotes_iff"
   ],
   "note": "MMLru over the pointer-level DList; every call history incl. unlocked access pre-check; insertion point spec < 64 (larger shift is UB). C05_insertion_point needs a fixed configuration (setConfig re-targets lazily); reconfigureLocked's refresh-time formula abstracted to an arbitrary setConfig."
  },
  {
   "property": "C06",
   "status": "proved",
   "theorems": [
    "C06_refines_queues",
    "C06_membership",
    "C06_warm_was_accessed",
    "C06_sizes_after_add",
    "C06_sizes_after_remove",
    "C06_access_order",
    "C06_hot100_is_lru",
    "C06_evict_continues",
    "C06_replace_by_used_item_refuted"
   ],
   "note": "MM2Q.h and MultiDList.h iterator on the pointer-level DList model. Every history of add/remove/evict-through-iterator/replace/access (pre-check and critical section separately)/setConfig/restart, any percentages, tail sizes and times, refines three abstract queues; membership, scan resistance, size bounds, promotion order, 100% hot = LRU. Requires that replace() gets a newly allocated item; without that the property is refuted (stale flags)."
  },
  {
   "property": "C07",
   "status": "proved",
   "theorems": [
    "C07_refines_queues",
    "C07_membership",
    "C07_evict_continues",
    "C07_access_order",
    "C07_first_candidate",
    "C07_admission",
    "C07_tiny_size",
    "C07_estimate_counts",
    "C07_window_bound",
    "C07_large_container_refuted"
   ],
   "note": "MMTinyLFU.h on the pointer-level DList model and the CountMinSketch model, for arbitrary hashes, counter formula, configuration and times. Every history of add/remove/evict-through-iterator/replace/access (pre-check and critical section separately)/setConfig/restart refines two abstract queues with a counted history; membership, eviction choice by estimate, admission only by higher estimate, tiny share bound, estimate lower bound, window bound. Requires at most 2^29 counters per row: beyond that (about 31M items with window ratio 32) the claim is refuted with the real formula (table size wraps to 0)."
  },
  {
   "property": "C08",
   "status": "proved",
   "theorems": [
    "C08_roundtrip_4byte",
    "C08_roundtrip_5byte",
    "C08_null",
    "C08_distinct",
    "C08_tiers",
    "C08_tiered_limit_refuted",
    "C08_above_limit_refuted"
   ],
   "note": "4-byte and 5-byte encodings bit-exact; round trip for every allocation of every allocator within getMaxAddressableSize(); single-tier layout (what PtrCompressor passes). With tiers the fields are recovered below 2^15 / 2^22 slabs (C08_tiers), and the advertised limit is too large there (C08_tiered_limit_refuted)."
  },
  {
   "property": "C09",
   "status": "proved",
   "theorems": [
    "C09_live_allocations_disjoint",
    "C09_iteration_stays_inside",
    "C09_full_means_full",
    "C09_locked_full_means_full",
    "C09_disjoint_across_classes_and_pools",
    "C09_every_class_history",
    "C09_free_finds_class",
    "C09_request_fits"
   ],
   "note": "AllocationClass, MemoryPool and SlabAllocator: every interleaving of allocate/free/slab acquire/release/rebalance/advise/reclaim over any number of classes and pools, at lock/atomic granularity. Each class of the allocator refines the single-class histories of C09/C10."
  },
  {
   "property": "C10",
   "status": "proved",
   "theorems": [
    "C10_no_internal_error",
    "C10_no_allocation_in_releasing_slab",
    "C10_released_only_when_empty",
    "C10_context_lists_all_live",
    "C10_probe_exact",
    "C10_complete_ready_iff_all_freed",
    "C10_abort_restores_capacity_refuted"
   ],
   "note": "Every interleaving of the critical sections of allocate/free/startSlabRelease (incl. batched pruning and aborts)/complete/abort/probe/iterate/save-restore. C10_abort_restores_capacity_refuted: after a prune abort allocate() can keep failing although memory is free."
  },
  {
   "property": "C11",
   "status": "proved",
   "theorems": [
    "C11_smallest_fit",
    "C11_throws_iff"
   ],
   "note": "getAllocationClassId(size) on every sorted size list; std::lower_bound taken as its specification. generateAllocSizes (floating point) not modelled."
  },
  {
   "property": "C12",
   "status": "proved",
   "theorems": [
    "C12_one_place",
    "C12_slabs_conserved",
    "C12_pool_within_limit",
    "C12_accounting_exact_at_rest",
    "C12_out_of_slabs_iff",
    "C12_handover_accepted",
    "C12_sizes_never_exceed_memory",
    "C12_resize_moves_exactly",
    "C12_resize_to_itself_changes_nothing",
    "C12_advise_targets_exact",
    "C12_advise_reclaim_exact",
    "C12_free_list_release_refuted",
    "C12_limit_with_free_list_release_refuted",
    "C12_limit_with_racing_advise_refuted"
   ],
   "note": "Counters are wrapping 64-bit. Pool limit needs: pool not shrunk, no release straight from a pool's free list (C12_*_free_list_release_refuted: the counter wraps), no advise between the two reads of the limit check (C12_limit_with_racing_advise_refuted). Conservation and one-place hold unconditionally. Includes MemoryPoolManager sizes and advise/reclaim arithmetic."
  },
  {
   "property": "C13",
   "status": "proved",
   "theorems": [
    "C13_item_is_its_fields",
    "C13_accepted_iff",
    "C13_disjoint_and_in_bounds",
    "C13_chained_item_is_its_fields",
    "C13_chained_accepted_iff",
    "C13_checked_key",
    "C13_sampled_key_bound",
    "C13_sampled_key_in_allocation_refuted"
   ],
   "note": "Byte-exact model of KAllocation/CacheItem/CacheChainedItem. Accessors refine the abstract (key,value,creation,expiry) record under every history of in-bounds writes; acceptance characterised exactly; chained items likewise. Refuted: the sampling path may look up a key ending up to 4 bytes behind the slot (proved tight)."
  },
  {
   "property": "C14",
   "status": "proved",
   "theorems": [
    "C14_never_serves_expired",
    "C14_never_expires_early",
    "C14_reaper_removes_only_expired",
    "C14_extension_takes_effect",
    "C14_inspect_never_serves_expired_refuted",
    "C14_ttl_overflow_refuted",
    "C14_clock_set_back_refuted",
    "C14_miss_then_insert_succeeds_refuted"
   ],
   "note": "RAM+flash lookups, TTL arithmetic, thread-local stale time, reaper. Refuted sub-claims: inspectCache serves expired items, 32-bit TTL overflow, clock set back, insert() blocked by an expired item. Races between operations are not part of this model."
  },
  {
   "property": "C15",
   "status": "proved",
   "theorems": [
    "C15_refines",
    "C15_last_in_first_out",
    "C15_transfer_moves_all",
    "C15_replace_in_place",
    "C15_release_with_chain",
    "C15_evict_with_chain",
    "C15_released_once",
    "C15_one_owner",
    "C15_add_any_child_refuted",
    "C15_callback_sees_chain_refuted"
   ],
   "note": "Model of allocate/add/pop/transfer/replace/release/evict/slab-release move on the item fields (refcount, flags, parent key, next pointers, chained access container as a map). Each operation is atomic (runs under the parent's chained item lock); compressed pointers, hash table and eviction containers are abstracted (C08, C03, C05-C07). Two natural claims are refuted: adding a child that names another parent leaks it (addChainedItem does not check), and a slab-release move that loses the race frees the chain without callback."
  },
  {
   "property": "C16",
   "status": "proved",
   "theorems": [
    "C16_no_use_after_free",
    "C16_references_are_live",
    "C16_freed_is_unreachable",
    "C16_freed_once",
    "C16_destructor_once",
    "C16_no_leak",
    "C16_refcount_exact",
    "C16_index_key",
    "C16_calls_can_end",
    "C16_steps_bounded",
    "C16_remove_insert_race_refuted",
    "C16_move_wakeup_race_refuted",
    "C16_waiter_hangs_refuted",
    "C16_nascent_clone_refuted",
    "C16_concurrent_insert_refuted"
   ],
   "note": "Lifetime_*.v: unbounded threads/items step relation (allocate, find, insert, insertOrReplace, remove by key/handle, removeIfExpired, clone, release, eviction, slab-release moving with waiters, wake-ups); inductive counting invariant. Proved under the caller contract (no concurrent insert of one item, no clone of a nascent handle), whose necessity is shown by C16_nascent_clone_refuted and C16_concurrent_insert_refuted. Also refuted: accessible items always stay evictable (two races), waiters are always woken when the reference count is full. Not modelled here: chained items (C15), flash (C17)."
  },
  {
   "property": "C17",
   "status": "proved",
   "theorems": [
    "C17_no_resurrection",
    "C17_fresh_reads",
    "C17_no_thin_air",
    "C17_overlapping_mutators_refuted",
    "C17_shortcut_in_drop_window_refuted",
    "C17_join_after_fill_refuted",
    "C17_disable_refuted"
   ],
   "note": "All interleavings, any number of threads and calls, for one key, at the granularity of the code's locks and atomic steps: find, insertOrReplace, remove, in-place write (invalidateNvm), eviction with/without put token, NvmCache put/remove/find/onGetComplete, tombstones, fill contexts, put contexts, flash drop + evictCB. C17_no_resurrection / C17_fresh_reads hold under four stated conditions on the trace; four _refuted theorems show, with a concrete run of the model each, that none of them can be dropped: overlapping mutators of one key (an insert caught between its RAM step and its flash invalidation), a remove that takes the couldExist shortcut between a flash drop and its evictCB, a find joining a fill that is already done, disabling navy after a lookup passed the enabled check. C17_no_thin_air is unconditional. Abstracted: flash = per-key FIFO job queue over one optional version (C22, C32, C33, C35 justify), moving items, chained items, remove(handle), allocation details."
  },
  {
   "property": "C18",
   "status": "proved",
   "theorems": [
    "C18_roundtrip",
    "C18_roundtrip_new_classes",
    "C18_too_big",
    "C18_new_classes_without_truncation_refuted"
   ],
   "note": "Byte-level model of NvmItem encoding and NvmCache makeNvmItem/createItem for parent and chained parts; unbounded chains. Encode/decode user callbacks and IOBuf read-out not modelled. Class change without truncation overruns (C18_new_classes_without_truncation_refuted)."
  },
  {
   "property": "C19",
   "status": "proved",
   "theorems": [
    "C19_at_most_once",
    "C19_exactly_once",
    "C19_not_early",
    "C19_only_inserted",
    "C19_overlapping_calls_refuted",
    "C19_drop_during_removal_refuted",
    "C19_drop_during_remove_job_refuted",
    "C19_insert_badstate_refuted",
    "C19_lost_copy_refuted",
    "C19_moved_item_refuted",
    "C19_unreadable_copy_refuted"
   ],
   "note": "Destr_*.v: state machine for one key (RAM item with NvmClean/NvmEvicted, put token, tombstones, fills, flash job queue, dropped copies with outstanding callbacks, itemRemoved_ mark, any number of calls, evictions, removals), all interleavings at lock granularity, every insertOrReplace a fresh item id. Ownership invariant: each inserted item has exactly one owner among {destructed, RAM, handle, eviction in progress, flash}. Proved for runs without the conditions in Destr_spec.hazard: at most once; exactly once when nothing is in progress; never while a find returns the item or somebody has a handle to it; only for inserted items. The unconditional English claim is false of the code: seven _refuted theorems show, by a concrete run each, that every condition except flash being disabled (not covered by the theorems, not refuted) alone breaks it: overlapping mutators of one key, a removal's couldExist shortcut or a remove job between a flash drop and its callback, insertion ending in BadState, a flash copy lost without callback, an unreadable copy at removal, slab move dropping the NvmEvicted flag. Flash is abstracted to a per-key FIFO job queue; chained items, expiry times and the admission policy are nondeterministic choices or left out."
  },
  {
   "property": "C20",
   "status": "proved",
   "theorems": [
    "C20_storage_is_fifo",
    "C20_allocate_iff_fits",
    "C20_slot_size_wrap_refuted"
   ],
   "note": "Byte-level model of BucketStorage; unbounded histories. Guard: sizes < 2^32-4 (wrap witness in C20_slot_size_wrap_refuted)."
  },
  {
   "property": "C21",
   "status": "proved",
   "theorems": [
    "C21_bucket_refines_list",
    "C21_find_exact_key",
    "C21_remove_exact_key",
    "C21_insert_evicts_minimally",
    "C21_random_alloc_key_refuted",
    "C21_random_alloc_overread_refuted"
   ],
   "note": "Byte-level model of Bucket over BucketStorage; unbounded histories. getRandomAlloc key defect shown by C21_random_alloc_*_refuted."
  },
  {
   "property": "C22",
   "status": "proved",
   "theorems": [
    "C22_engine_refines_spec",
    "C22_lossy_map",
    "C22_could_exist_sound",
    "C22_insert_visible",
    "C22_transient_corruption_refuted",
    "C22_bucket_count_wrap_refuted"
   ],
   "note": "Sequential calls (each runs under its bucket mutex) with arbitrary device faults. Guards shown necessary by C22_*_refuted: no transient corruption on a remove's read; numBuckets+100<=2^32."
  },
  {
   "property": "C23",
   "status": "proved",
   "theorems": [
    "C23_could_exist_exact",
    "C23_no_false_negative",
    "C23_cleared_rejects_all",
    "C23_persist_recover",
    "C23_recover_hash_count_refuted",
    "C23_recover_seed_overflow_refuted"
   ],
   "note": "Byte-level model, unbounded histories, hash functions universally quantified. C23_recover_*_refuted: hash-count mismatch at recovery is not detected."
  },
  {
   "property": "C24",
   "status": "proved",
   "theorems": [
    "C24_never_underestimates",
    "C24_counts",
    "C24_increment",
    "C24_reset_key",
    "C24_empty_sketch",
    "C24_large_sketch_refuted",
    "C24_reset_other_key_refuted",
    "C24_saturated_after_reset_refuted"
   ],
   "note": "CountMinSketch.h modelled with uint32 index arithmetic, any hash, any counter width, any monotone non-increasing decay. Lower bound restarts at every reset of any key (resetCount decrements shared cells: C24_reset_other_key_refuted); sizes with width*depth >= 2^32 go out of bounds (C24_large_sketch_refuted)."
  },
  {
   "property": "C25",
   "status": "proved",
   "theorems": [
    "C25_tracked_set",
    "C25_insert",
    "C25_insert_drops_at_most_one",
    "C25_zero_key_refuted",
    "C25_truncation_refuted",
    "C25_bound_refuted"
   ],
   "note": "DropSet (Robin Hood probing, rehash) and ApproxSplitSet (rotation) modelled; keys are identified by their low 32 bits and key 0 is reserved (C25_zero_key_refuted, C25_truncation_refuted); the entry bound is numSplits*max(1,numEntries/numSplits) (C25_bound_refuted for numEntries<numSplits)."
  },
  {
   "property": "C26",
   "status": "proved",
   "theorems": [
    "C26_lookup_found",
    "C26_lookup_missing",
    "C26_remove_missing",
    "C26_removed",
    "C26_calls",
    "C26_eviction",
    "C26_reinsertion",
    "C26_remove_destructor",
    "C26_drop",
    "C26_displaced",
    "C26_stored_is_last",
    "C26_sparse_index",
    "C26_fixed_index",
    "C26_unreadable_region_refuted",
    "C26_eviction_without_destructor_refuted",
    "C26_remove_other_key_refuted"
   ],
   "note": "Byte-level model of entries in regions (writeEntry/readEntry/parse in reclaim), index by hash token, all interleavings of insert/lookup/remove/reclaim (with reinsertion)/cleanup threads. Proved: a found value is the one stored (last inserted, not removed) at some moment during the lookup; a miss means nothing stored at some moment; each call does exactly what it reports, once; evictions only hit what is stored and pass the destructor the last inserted value; reinsertion keeps the value. Guarded by [safe] (no undetected wrong device read, no reclaim that could not read/parse its region, no exception in the expiry check, no reader admitted after a cleanup discarded the buffer, no UB). C26_unreadable_region_refuted shows a concrete run where an unreadable region at reclaim leads to a lookup returning a value never inserted for the key; the other refuted theorems show silent evictions and removal of a colliding key."
  },
  {
   "property": "C27",
   "status": "proved",
   "theorems": [
    "C27_fixed_is_map",
    "C27_fixed_shards_independent",
    "C27_fixed_size_hint",
    "C27_fixed_size_hint_large_refuted",
    "C27_fixed_size_hint_large_always",
    "C27_fixed_fill_bits",
    "C27_fixed_fill_bytes_disjoint",
    "C27_fixed_fill_bytes_shared_refuted",
    "C27_fixed_default_shard_loses_refuted",
    "C27_fixed_validated_in_bounds_refuted",
    "C27_fixed_uneven_shards_refuted",
    "C27_sparse_is_map",
    "C27_sparse_same_map_same_mutex",
    "C27_sparse_restart_resized_refuted"
   ],
   "note": "Both index implementations. SparseMapIndex: every history of calls (incl. persist/recover) answers as a map from hash mod 2^(32+k) to records. FixedSizeIndex (handleOverflow off): map from (bucket, partial bits), displacement only when the shard is crowded, never out of bounds, shard lock adequate (calls on different shards commute), counters exact, size-hint rounding bounded (IEEE double loop modelled exactly) - for shard size >= 98 dividing the table. Refuted (with witnesses): configurations accepted by validate() incl. the default 64 buckets per mutex lose entries or go out of bounds; uneven shards; fill-bit bytes shared between locks; size hints above 55157 hit an undefined conversion; restart with fewer hash maps silently loses entries. Not modelled: combined entry blocks (handleOverflow), shm attach, footprint."
  },
  {
   "property": "C28",
   "status": "proved",
   "theorems": [
    "C28_address_roundtrip",
    "C28_address_injective",
    "C28_address_guard",
    "C28_address_last_slot_refuted",
    "C28_alignment",
    "C28_slot_size",
    "C28_slot_size_wrap_refuted",
    "C28_size_hint",
    "C28_packed_hint",
    "C28_packed_hint_large_refuted"
   ],
   "note": "Bit-exact; double arithmetic via SpecFloat. Defects shown: last slot of a maximal cache encodes to the invalid address 0; hints > 55157 in the packed index read back through an out-of-range double conversion; 32-bit slot size wraps for 4 GiB values."
  },
  {
   "property": "C29",
   "status": "proved",
   "theorems": [
    "C29_no_check_fails",
    "C29_only_given_up_reset_fails",
    "C29_reset_exclusive",
    "C29_flush_no_writer",
    "C29_detach_no_user",
    "C29_blocked_admits_no_reader",
    "C29_reader_generation",
    "C29_writer_buffer",
    "C29_no_writer_during_write",
    "C29_progress",
    "C29_alloc_at_cursor",
    "C29_alloc_disjoint",
    "C29_reset_after_giving_up_refuted",
    "C29_generation_after_giving_up_refuted",
    "C29_generation_after_read_failure_refuted"
   ],
   "note": "Proved for every interleaving of writers, flushers, readers and reclaims, with device write/read failures as free choices (region size <= 1 GB): exclusion at reset/flush/detach, no reader admitted to a blocked region, reader/writer generation, allocation ranges disjoint and inside the region, no failed check, no deadlock. Guarded by 'no flush was given up' (and 'no unreadable region' for the generation theorem); the two refuted theorems show a concrete schedule violating the English claim in exactly those failure paths (reset under an active physical reader after flush retries are exhausted; stale index entry after a failed reclaim read)."
  },
  {
   "property": "C30",
   "status": "proved",
   "theorems": [
    "C30_one_place",
    "C30_buffers_conserved",
    "C30_clean_is_empty",
    "C30_reclaims_counted",
    "C30_waiters_have_reason"
   ],
   "note": "Proved for every interleaving including all failure paths (flush given up, region unreadable, no buffer available)."
  },
  {
   "property": "C31",
   "status": "proved",
   "theorems": [
    "C31_fifo",
    "C31_fifo_persist",
    "C31_lru",
    "C31_sfifo_exactly_once",
    "C31_sfifo_evict_finds",
    "C31_sfifo_order",
    "C31_sfifo_shares"
   ],
   "note": "FIFO, LRU and segmented-FIFO region policies, every history of track/touch/evict/reset calls with arbitrary priorities; persistence for FIFO (the other two have none in the code)."
  },
  {
   "property": "C32",
   "status": "proved",
   "theorems": [
    "C32_lookup_allowed",
    "C32_after_insert",
    "C32_after_remove_notfound",
    "C32_after_remove_ok",
    "C32_single_copy",
    "C32_could_exist",
    "C32_insert_ok_after_retry_refuted",
    "C32_remove_ok_after_error_refuted"
   ],
   "note": "Engines are arbitrary lossy stores answering any status; jobs with retries, evictions, other keys interleaved. Guards are necessary: C32_insert_ok_after_retry_refuted, C32_remove_ok_after_error_refuted exhibit stale reads in the code."
  },
  {
   "property": "C33",
   "status": "proved",
   "theorems": [
    "C33_one_at_a_time_in_order",
    "C33_none_lost",
    "C33_all_drained_means_done",
    "C33_outstanding_bounded",
    "C33_finish_waits_for_all_refuted"
   ],
   "note": "Small-step model of NavyRequestScheduler and NavyRequestDispatcher (atomic queue with sentinel, dispatch loop, baton, request fibers, spooling); every interleaving, any shards/threads/limits. OrderedThreadPoolJobScheduler not modelled. finish() is shown not to wait for all jobs (C33_finish_waits_for_all_refuted)."
  },
  {
   "property": "C34",
   "status": "proved",
   "theorems": [
    "C34_mapping_bijective",
    "C34_split_covers",
    "C34_split_disjoint",
    "C34_read_after_write",
    "C34_terminates",
    "C34_huge_write_refuted",
    "C34_encryptor_contract_refuted"
   ],
   "note": "Striping, chunking, alignment/trim and blockwise encryption; failed operations may damage their own range. Guards necessary: C34_huge_write_refuted, C34_encryptor_contract_refuted."
  },
  {
   "property": "C35",
   "status": "proved",
   "theorems": [
    "C35_limits",
    "C35_exact",
    "C35_released",
    "C35_admits_when_idle"
   ],
   "note": "Every interleaving of the atomic counter steps of any number of calls/completions; sizes in flight fit in 64 bits."
  },
  {
   "property": "C36",
   "status": "proved",
   "theorems": [
    "C36_fixed_is_lru",
    "C36_variable_is_lru",
    "C36_fixed_honest",
    "C36_variable_honest",
    "C36_oversize_rejected",
    "C36_oversize_update_loses_entry",
    "C36_set_always_stores_refuted",
    "C36_empty_key_refuted"
   ],
   "note": "Byte-level model of the fixed and the variable bucket layout (headers as records, data section as bytes) and of bucketSet/Get/Promote/Del; every history refines a bounded LRU list; answers and eviction reports exact. Empty key (fixed layout) and over-long values (variable layout) are shown to break the claim. Resizing, double writes, locks and statistics not modelled."
  },
  {
   "property": "C37",
   "status": "proved",
   "theorems": [
    "C37_map_refines",
    "C37_map_insert_succeeds",
    "C37_map_compact",
    "C37_map_stays_in_cache",
    "C37_map_compact_never_throws_refuted",
    "C37_map_any_size_refuted",
    "C37_range_refines",
    "C37_range_insert_succeeds",
    "C37_range_stays_in_cache",
    "C37_range_any_call_refuted"
   ],
   "note": "datatype/Buffer.h (Buffer, BufferAddr, BufferManager), Map.h (hash table, Map) and RangeMap.h (BinaryIndex, RangeMap) modelled: typed memory of slots (reading a hole, past the end or at a bad offset is undefined = None), allocation failures as an oracle at every allocation point, probing/halving loops with proved termination. Any call sequence refines a finite (sorted) map; throwing calls change nothing; growth keeps the item in the cache. compact() can throw runtime_error (refuted + exact condition), zero sizes and reversed ranges are undefined (refuted). Not modelled: concurrent use (the classes are documented single threaded), byte layout of keys and values, MapView serialisation."
  },
  {
   "property": "C38",
   "status": "proved",
   "theorems": [
    "C38_victim_legal",
    "C38_fallbacks_sane",
    "C38_allocation_size_fallback",
    "C38_resize_legal",
    "C38_lru_threshold",
    "C38_hits_threshold",
    "C38_hits_threshold_exact",
    "C38_hits_victim_age",
    "C38_marginal_legal",
    "C38_free_memory_threshold",
    "C38_free_memory_victim",
    "C38_free_alloc_victim",
    "C38_hold_off",
    "C38_free_memory_undefined",
    "C38_defined_guarded",
    "C38_always_defined_refuted",
    "C38_min_slabs_refuted"
   ],
   "note": "All pickVictimAndReceiver / pickVictimForResizing strategies and the base-class bookkeeping (hold-off, minimum-evictable filters, free-memory and alloc-failure fallbacks) over arbitrary histories of pool statistics. Decisions name legal, distinct classes that can give up a slab; thresholds and hold-off exact. Refuted parts: the default LruTailAge/HitsPerSlab configuration reaches pickVictimByFreeMem with no non-evicting class and dereferences end() (undefined behaviour, guarded theorem gives the exact condition); the configured minSlabs is not honoured by the allocation-failure fallback. Floats are an abstract ordered carrier; counters unbounded; time and statistics are inputs."
  },
  {
   "property": "C39",
   "status": "proved",
   "theorems": [
    "C39_in_range",
    "C39_monotone",
    "C39_monotone_many",
    "C39_strict_monotone_refuted"
   ],
   "note": "Bit-exact furc hash over murmur; nPart <= 2^23 (documented limit). Strict 'key moves only to the new shard' is refuted by a concrete key (C39_strict_monotone_refuted); C39_monotone states the exact exception."
  },
  {
   "property": "C40",
   "status": "proved",
   "theorems": [
    "C40_range_covered",
    "C40_pieces_tile",
    "C40_totals",
    "C40_reversed_range_ignored",
    "C40_keys_distinct",
    "C40_escape",
    "C40_fetch_loop",
    "C40_base_key",
    "C40_base_key_refuted",
    "C40_start_past_body_refuted",
    "C40_reset_stale_end_refuted",
    "C40_huge_wraps_refuted"
   ],
   "note": "Guard len+pieceSize <= 2^64. Refuted corners shown: escaped base keys, start past the body (abort), stale end after reset, wrap at 2^64."
  },
  {
   "property": "C41",
   "status": "proved",
   "theorems": [
    "C41_attach_only_after_clean_shutdown",
    "C41_one_owner",
    "C41_lock_serializes",
    "C41_attach_only_after_clean_shutdown_kept",
    "C41_drop_marker_respected",
    "C41_clean_restart_attaches",
    "C41_deleted_file_reported",
    "C41_record_round_trip",
    "C41_torn_record_rejected",
    "C41_overlapping_starts_refuted",
    "C41_rollback_refuted",
    "C41_drop_request_not_lost_refuted",
    "C41_one_owner_with_deletion_refuted",
    "C41_success_means_recorded_refuted",
    "C41_segment_stays_while_running_refuted"
   ],
   "note": "Multi-process model at system-call granularity (directory, metadata inode, flock, drop file, kernel segment names by old and new id, byte-exact thrift record). Assumed: a start that reads the record locks it before any other process does (starts_alone) and no older version runs after this one (upgrade_only); both are needed: C41_overlapping_starts_refuted (record read before the lock), C41_rollback_refuted (attach ignores the saved key). Further findings proved: a failed start consumes the drop marker; deleting the metadata file allows two owners and a 'successful' shutdown that saved nothing; shutDown removes segments by name after releasing the lock. Not modelled: segment sizes, mapping failures, huge pages, permissions; segment contents are one number."
  },
  {
   "property": "C42",
   "status": "proved",
   "theorems": [
    "C42_resume_only_saved",
    "C42_drop_request_seen",
    "C42_drop_request_honoured",
    "C42_dropped_cache_has_new_time",
    "C42_clean_hand_over_resumes",
    "C42_resume_after_silent_failure_refuted",
    "C42_drop_request_removed_only_if_honoured_refuted",
    "C42_fresh_creation_time_is_recent_refuted",
    "C42_shutdown_success_means_saved_refuted"
   ],
   "note": "Instances one after the other (C41 gives mutual exclusion), each file or device operation one step with a crash possible between any two. Positive theorems assume no metadata write fails unnoticed (no_silent); without it the claim is false: C42_resume_after_silent_failure_refuted. Further refuted: a drop request made between look and unlink is deleted unhonoured; a cache that could not be recovered reports the old creation time; shutDown of a disabled flash cache reports success though nothing was saved. Not modelled: contents of the engines (one number; C26-C29 model them), the record encoding of the metadata (C43)."
  },
  {
   "property": "C43",
   "status": "proved",
   "theorems": [
    "C43_round_trip",
    "C43_save_succeeds_iff_fits",
    "C43_all_but_last_two_failed_writes_reported",
    "C43_save_stays_inside",
    "C43_read_only_intact_records",
    "C43_invalidated_is_empty",
    "C43_successful_save_is_readable_refuted",
    "C43_save_reports_failed_writes_refuted",
    "C43_failed_save_stays_inside_refuted"
   ],
   "note": "Byte-level model; folly's 28-byte record header modelled from its documented format, the two hash functions are parameters (no collision assumption is needed). Refuted: a save whose last block ends exactly at the end of the area reports success without any failed write and loses its last record (destructor compares with < and then zeroes the block); failures of the destructor's writes are not reported; a save that fails for lack of space may overwrite cached data behind the area when its size is not a multiple of 4096. Not modelled: the int type of dataOffset (records of 2 GiB and more), encryption, FileRecordWriter/Reader."
  },
  {
   "property": "C44",
   "status": "proved",
   "theorems": [
    "C44_references_are_accounted_for",
    "C44_right_value",
    "C44_one_answer",
    "C44_everyone_is_answered_except_one_on_overflow",
    "C44_fetch_can_always_finish",
    "C44_wentToNvm_when_ready",
    "C44_overflow_is_a_miss_refuted",
    "C44_future_gets_a_value_refuted",
    "C44_shutdown_when_all_released_refuted",
    "C44_wentToNvm_when_pending_refuted"
   ],
   "note": "Step-level model of ItemWaitContext and GetCtx with unboundedly many handles and fetches of one key. Refuted (for every count limit): when the reference count overflows while waiters are woken, the waiter at which it happens is never woken (the comment says it gets a miss): a user blocked on it stays blocked for ever, a future made of it is broken; the other waiters get a miss. A SemiFuture destroyed without being evaluated leaves getNumActiveHandles at -1 and shutDown is refused. wentToNvm() is false for pending handles although documented otherwise. Not modelled: time to access, fibers, several keys (shards do not interact), what decides the fetch's result (C17, C19)."
  },
  {
   "property": "C45",
   "status": "proved",
   "theorems": [
    "C45_answered_at_most_once",
    "C45_handles_and_index_are_live",
    "C45_answer_has_the_key",
    "C45_never_stuck",
    "C45_settles",
    "C45_no_lookup_left_waiting",
    "C45_can_finish",
    "C45_table_keys_valid",
    "C45_no_lookup_left_waiting_refuted",
    "C45_answer_has_the_key_refuted",
    "C45_insert_replaces_itself_refuted",
    "C45_find_misses_present_key_refuted"
   ],
   "note": "All closed. Four refutations about the code as it is: a lookup that is never woken and a lookup answered with an item of another key (the key of the waiter table is a view into a parent that can be freed between unmarkMoving and wakeUpWaiters), insertOrReplace told it replaced its own item, which then can never be evicted, and a find that misses a key that is present throughout. The positive liveness/key/table theorems restrict to histories without a free in that window (pin = true)."
  },
  {
   "property": "C46",
   "status": "proved",
   "theorems": [
    "C46_record_fits_slot",
    "C46_small_key_record_fits_value",
    "C46_large_key_record_fits_value_refuted",
    "C46_capacity_exact",
    "C46_within_limit",
    "C46_shards_even",
    "C46_controller_safe",
    "C46_aim_respects_limits",
    "C46_shrinks_within_size_limit",
    "C46_expands_as_decided",
    "C46_low_memory_shrinks",
    "C46_cache_recovers_refuted",
    "C46_low_memory_shrinks_refuted",
    "C46_high_resident_memory_shrinks_refuted",
    "C46_expands_less_refuted",
    "C46_controller_returns_refuted",
    "C46_every_shard_has_room_refuted"
   ],
   "note": "Slot-level model of the shards, the placeholders and the controller's loops, one iteration a step; arithmetic as in the code, modulo 2^64. Positive theorems for all histories; refutations: one object larger than the size limit leaves every configuration (not FreeMemoryOnly) with a cache that never again accepts an object; the shortage subtraction wraps so that very low free memory (very high RSS) makes the cache expand; the cap on expansion never applies; FreeMemoryOnly's loop does not return while memory is low; fewer entries than shards starves a shard; for keys over 255 bytes the record ends beyond the item's memory (inside the slot) and the padding counter drifts below zero."
  },
  {
   "property": "C47",
   "status": "proved",
   "theorems": [
    "C47_destroyed_at_most_once",
    "C47_not_destroyed_in_use",
    "C47_pointers_are_good",
    "C47_one_object_per_key",
    "C47_none_lost",
    "C47_all_destroyed_at_the_end",
    "C47_can_be_emptied",
    "C47_total_is_the_sum",
    "C47_total_after_throw_refuted",
    "C47_total_wraps_refuted",
    "C47_none_lost_refuted",
    "C47_every_pointer_refuted",
    "C47_no_undefined_behaviour",
    "C47_total_untracked_refuted"
   ],
   "note": "Ownership and size accounting of ObjectCache, any number of threads, one shared access a step, over an index with reference counts. Invariants by counting owners. Refuted parts, each with a concrete history: insertOrReplace that throws (old object out of reference counts) leaves the size in the total for ever; insert publishes before it adds, so a concurrent updateObjectSize wraps the total; NVM with an item destructor leaks objects and sizes of items evicted while in or queued for NVM; getObjectSize/updateObjectSize on the replaced pointer, a pointer returned with kAllocError/kKeyAlreadyExists, or a converted pointer dereferences null; without tracking, mutateObject and NVM hits still change the total."
  },
  {
   "property": "C48",
   "status": "proved",
   "theorems": [
    "C48_round_trip",
    "C48_damage_is_found",
    "C48_truncated_fails",
    "C48_truncated_exception_refuted",
    "C48_large_navy_refuted",
    "C48_large_navy_lost_refuted",
    "C48_large_navy_fails_refuted",
    "C48_empty_state_refuted",
    "C48_early_end_refuted",
    "C48_block_length_refuted",
    "C48_swapped_refuted"
   ],
   "note": "Byte-level model of the stream: marks, headers, checksummed blocks; thrift and CRC32 abstract (any encoding that round-trips, any function). Round trip, rejection of every proper prefix and of every change that alters a checksum, for all sizes. Refuted parts: navy files of a multiple of 4 GiB (int32_t size: no block read, checksum byte taken for a mark: failure, or success with empty files); streams of 1-8 bytes read beyond the buffer; an empty NvmCacheState leaves the old file; a changed mark ends the restore early and is accepted; a changed block length reads out of bounds; two blocks exchanged are accepted."
  },
  {
   "property": "C49",
   "status": "proved",
   "theorems": [
    "C49_no_use_after_release",
    "C49_waited",
    "C49_no_stale",
    "C49_found_was_set",
    "C49_lossless",
    "C49_over",
    "C49_no_stale_refuted",
    "C49_disable_refuted",
    "C49_overlap_refuted",
    "C49_pool_refuted"
   ],
   "note": "Model: one key, every shared access a step, cohort counts, numChunks_, pendingNumChunks_, chunk releases as generations. C49_no_stale needs that no set/del of the key is between its two lookups at the store of numChunks_; C49_no_stale_refuted shows the code fails otherwise (a completed del is undone). Other refutations: resize to zero, overlapping resizes, pool resized during a resize. Not modelled: bucket internals (C36), two-vector chunk list, packing of cohort counts."
  },
  {
   "property": "C50",
   "status": "proved",
   "theorems": [
    "C50_stop_quiet",
    "C50_one_work",
    "C50_wake_not_lost",
    "C50_stop_no_more_work",
    "C50_stop_returns",
    "C50_stop_forever_true",
    "C50_timeout_goes_on",
    "C50_start_works",
    "C50_two_stops_refuted",
    "C50_start_runs_refuted",
    "C50_timeout_goes_on_refuted"
   ],
   "note": "Model: each section under lock_ is a step; condition variable with explicit notify_one choice, spurious wake-ups and timeouts at any moment; preWork() holds the lock across steps. Found: between the worker's exit (flag lowered, lock released) and the stopper's wake-up a second stop() raises the flag again; then two stop(0) calls hang for ever (C50_two_stops_refuted), start() returns true without a worker (C50_start_runs_refuted), a timed-out stop leaves no worker (C50_timeout_goes_on_refuted). Not modelled: exceptions out of work(), stop() called from work() itself, destruction during a call, interval values."
  },
  {
   "property": "C51",
   "status": "proved",
   "theorems": [
    "C51_persist_all",
    "C51_persist_finishes",
    "C51_order",
    "C51_restore_all",
    "C51_restore_finishes",
    "C51_roundtrip",
    "C51_order_kept",
    "C51_crash_running",
    "C51_crash_opening",
    "C51_size_refuted",
    "C51_chain_refuted",
    "C51_expiry_refuted",
    "C51_crash_torn_refuted",
    "C51_throw_refuted"
   ],
   "note": "Model: small-step interleaving of Persistor::run, the bounded queue, the persist workers (as PeriodicWorkers, C50), and of the restorer's threads; i32/uint32/size_t conversions exact; files as lists of records; constructor's truncations as crash steps. Found: objectSize i32 narrowing (C51_size_refuted), memcpy of length() bytes of the first IOBuf only (C51_chain_refuted), ttl computed from the worker's start time (C51_expiry_refuted), torn base/worker files accepted (C51_crash_torn_refuted), throwing serialize callback (C51_throw_refuted). Not modelled: thrift and RecordIO encodings, the insertion's own success (C23), logs."
  },
  {
   "property": "C52",
   "status": "proved",
   "theorems": [
    "C52_kept",
    "C52_exact",
    "C52_not_invented",
    "C52_policy",
    "C52_reinserted",
    "C52_removed_refuted",
    "C52_two_buckets_refuted",
    "C52_skipped_refuted",
    "C52_first_refuted",
    "C52_race_refuted"
   ],
   "note": "Model: the tracker's rotation over abstract buckets (lists of hashes since the last reset) and any sketch (C23, C24 give the two used); calls one after the other for the positive theorems, two interleaved recordAccess calls for the race. Found: C52_removed_refuted, C52_two_buckets_refuted, C52_skipped_refuted, C52_first_refuted, C52_race_refuted. Not modelled: the conversion of the reuse time to int, counters, rate windows."
  },
  {
   "property": "C53",
   "status": "proved",
   "theorems": [
    "C53_refines",
    "C53_no_sharing",
    "C53_once",
    "C53_pop_empty",
    "C53_move_ctor_refuted"
   ],
   "note": "Model: head, tail, size and next pointers over a shared heap of nodes; pointer compression lossless (C08); iteration with removal as the loop the callers write. Found: C53_move_ctor_refuted. Not modelled: AsanSList."
  },
  {
   "property": "C54",
   "status": "proved",
   "theorems": [
    "C54_exact",
    "C54_one_cohort",
    "C54_waits",
    "C54_drained",
    "C54_joins",
    "C54_finishes",
    "C54_releases",
    "C54_no_retry",
    "C54_two_switchers_refuted"
   ],
   "note": "Model: the 64-bit word with its wrapping arithmetic, one atomic operation per step, sequentially consistent (as the code asks for). Found: C54_two_switchers_refuted (the comment in the code excludes it). C49 uses the two counts this property justifies. Not modelled: moving tokens, the sleep."
  },
  {
   "property": "C55",
   "status": "proved",
   "theorems": [
    "C55_refines",
    "C55_buffer",
    "C55_seen"
   ],
   "note": "Model: the buffer byte by byte with the layout of GCC on a little-endian machine (header 12, info 24, record 5 bytes); accesses outside it are undefined (None). Not modelled: read mode (not implemented in the code yet), that the infos lie 12 bytes into the buffer and so are not aligned for their 64-bit members, CombinedEntryManager's streams and locks."
  }
 ]
}