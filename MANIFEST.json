{
 "claims": [
  {
   "property": "C01",
   "status": "proved",
   "theorems": [
    "C01_canonical_forever",
    "C01_reduction_terminates",
    "C01_abort_iff_zero_denominator",
    "C01_div_abort_iff_zero",
    "C01_pow_abort_iff"
   ],
   "note": "Over unbounded integers; canonical form for every program, termination of the reduction loop, and exact characterisation of aborts."
  },
  {
   "property": "C02",
   "status": "proved",
   "theorems": [
    "C02_constructor_exact",
    "C02_add_exact",
    "C02_sub_exact",
    "C02_mul_exact",
    "C02_div_exact",
    "C02_neg_exact",
    "C02_abs_exact",
    "C02_pos_identity",
    "C02_pow_exact",
    "C02_comparisons_exact",
    "C02_representation_unique"
   ],
   "note": "Over unbounded integers; exact with respect to Coq's Q. Exponentiation uses the polymorphic power routine."
  },
  {
   "property": "C03",
   "status": "partial",
   "theorems": [
    "C03_setter_numerator_refuted",
    "C03_setter_denominator_refuted",
    "C03_setter_partial"
   ],
   "note": "REFUTED: setters take the rational by value so the caller's variable never changes. The returned previous part and the callee's copy are proved right."
  },
  {
   "property": "C04",
   "status": "partial",
   "theorems": [
    "C04_time_to_timespec",
    "C04_time_to_timeval",
    "C04_timespec_roundtrip_partial",
    "C04_timeval_roundtrip_partial",
    "C04_timespec_roundtrip_refuted",
    "C04_duration_from_timespec",
    "C04_duration_from_timeval",
    "C04_unit_roundtrip",
    "C04_unit_truncates",
    "C04_unit_scales",
    "C04_time_add_sub",
    "C04_time_difference",
    "C04_time_difference_exact",
    "C04_duration_abs_min_max"
   ],
   "note": "Round trip through timespec/timeval holds below 2^63 ns; from 2^63 ns on the constructor's signed multiplication overflows (refuted)."
  },
  {
   "property": "C05",
   "status": "partial",
   "theorems": [
    "C05_alarm_wellformed",
    "C05_interval_refuted",
    "C05_interval_partial"
   ],
   "note": "itimerval(alarm, interval) stores the whole interval in tv_usec instead of the remainder: refuted for every interval >= 1s, proved below."
  },
  {
   "property": "C06",
   "status": "partial",
   "theorems": [
    "C06_leading0s",
    "C06_trailing0s",
    "C06_all1s",
    "C06_all0s",
    "C06_low1",
    "C06_low0",
    "C06_high1",
    "C06_high0",
    "C06_is_pow2",
    "C06_floor2_unsigned",
    "C06_ceiling2_unsigned",
    "C06_floor2_signed",
    "C06_ceiling2_signed",
    "C06_libPow2",
    "C06_libFloor",
    "C06_libCeiling",
    "C06_lib_abort",
    "C06_floor_unsigned",
    "C06_ceiling_unsigned",
    "C06_ceiling_signed",
    "C06_floor_signed_partial",
    "C06_floor_signed_rounds_up_when_negative",
    "C06_floor_signed_refuted",
    "C06_ceiling_div_unsigned_partial",
    "C06_ceiling_div_signed_partial",
    "C06_ceiling_div_refuted",
    "C06_log2"
   ],
   "note": "All widths. floor(n, align) of math.hfa rounds negative n up (refuted); ceiling_div wraps for large unsigned n and truncates for negative n (refuted); everything else proved."
  },
  {
   "property": "C07",
   "status": "proved",
   "theorems": [
    "C07_sorted_permutation"
   ],
   "note": "The whole !SAFE_SORT branch of bits/algorithm.hfa (networks for 2-7 elements, insertion sort otherwise); dim < 2^31."
  },
  {
   "property": "C08",
   "status": "proved",
   "theorems": [
    "C08_lower_bound",
    "C08_upper_bound",
    "C08_exact"
   ],
   "note": "All bsearch/bsearchl/bsearchu loops of stdlib.cfa and heap.cfa's Bsearchl, parametric in the comparison."
  },
  {
   "property": "C09",
   "status": "partial",
   "theorems": [
    "C09_lcgbi",
    "C09_xorshift",
    "C09_xoshiro",
    "C09_xorwow",
    "C09_counters",
    "C09_kiss_parts",
    "C09_kiss_mwc_refuted",
    "C09_never_zero",
    "C09_kiss_mwc_nonzero",
    "C09_xoshiro_seed",
    "C09_splitmix64_output",
    "C09_splitmix32_output_refuted",
    "C09_seed_refuted",
    "C09_seed_nonzero"
   ],
   "note": "All generators of random.hfa; output functions are modelled, statistical quality is not claimed. Refuted parts: the multiply-with-carry halves of kiss_64 are not permutations and have a non-zero fixed point; one seed puts each xorshift generator and lehmer64 into the absorbing zero state; splitmix32 computes in 64 bits, so its output is not a permutation."
  },
  {
   "property": "C10",
   "status": "proved",
   "theorems": [
    "C10_stack",
    "C10_queue",
    "C10_sequence",
    "C10_contents",
    "C10_listed"
   ],
   "note": "Full histories over any number of lists, including transfer and split between different lists and iteration; node fields are exact, addresses are abstract; single-threaded use."
  },
  {
   "property": "C11",
   "status": "proved",
   "theorems": [
    "C11_refines",
    "C11_walks",
    "C11_membership",
    "C11_validates"
   ],
   "note": "Any history of insert before/after/first/last, remove, remove_first/last on any number of lists gives the list results; walks both ways, membership, debug validators. Origin tagging is a constructor; two experimental build modes not modelled."
  },
  {
   "property": "C12",
   "status": "partial",
   "theorems": [
    "C12_actual",
    "C12_first_refuted",
    "C12_last_refuted"
   ],
   "note": "Refuted: both predicates are inverted; C12_actual says what they compute."
  },
  {
   "property": "C13",
   "status": "partial",
   "theorems": [
    "C13_refines",
    "C13_capacity",
    "C13_reserve_refuted",
    "C13_bytes_refuted"
   ],
   "note": "Proved for every history whose requested sizes in bytes fit in size_t; reserve with a larger size wraps the doubling or the byte count (vector.cfa:131-132) and is refuted with two concrete histories."
  },
  {
   "property": "C14",
   "status": "partial",
   "theorems": [
    "C14_clear_actual",
    "C14_clear_refuted",
    "C14_empty",
    "C14_copy_actual",
    "C14_copy_refuted"
   ],
   "note": "As written clear and copy_internal use the index size for every iteration (vector.cfa:78,91): refuted for every non-empty vector, with the exact set of indices touched proved. Holds for empty vectors."
  },
  {
   "property": "C15",
   "status": "proved",
   "theorems": [
    "C15_address",
    "C15_in_bounds",
    "C15_distinct",
    "C15_onto",
    "C15_checked",
    "C15_lifetime"
   ],
   "note": "Any order of subscripts reachable with all (rotation), any rank and extents; also bounds checks and construction order. Alignment and address overflow not modelled."
  },
  {
   "property": "C16",
   "status": "partial",
   "theorems": [
    "C16_values",
    "C16_parts",
    "C16_next",
    "C16_shared_append_refuted",
    "C16_moved_append_refuted",
    "C16_overlap_refuted",
    "C16_stale_refuted",
    "C16_null_handle_refuted"
   ],
   "note": "Proved for histories of construction, whole copy, assignment and destruction (C16_values), of construction of parts (C16_parts), and one further operation after these (C16_next). Refuted in general: appending to shared or not-last strings, overlapping parts of a destroyed string, appending a string while the heap is extended, and the empty constructor. Missing: share-edit sets, private contexts."
  },
  {
   "property": "C17",
   "status": "partial",
   "theorems": [
    "C17_find",
    "C17_least_unique",
    "C17_find_empty",
    "C17_find_empty_refuted",
    "C17_find_char",
    "C17_find_char_refuted",
    "C17_long_refuted",
    "C17_includes",
    "C17_includes_refuted",
    "C17_prefix",
    "C17_suffix"
   ],
   "note": "Non-empty needles, prefixes, suffixes and includes answer as specified without reading outside the strings. Refuted: the empty needle is found at 0 whatever the start; a character search from beyond the end reads outside; includes(\"\",\"\") is false; int results are wrong from 2^31 characters."
  },
  {
   "property": "C18",
   "status": "proved",
   "theorems": [
    "C18_smallest_class",
    "C18_lookup_agrees",
    "C18_threshold",
    "C18_leftover_safe",
    "C18_leftover_largest",
    "C18_classes"
   ],
   "note": "Size classes, lookup-table fill loop, binary search, class choice of doMalloc, leftover filing of manager_extend and the threshold setter; for every accepted threshold and every request below it. Assumes the 64-bit layout (16-byte header) and FASTLOOKUP."
  },
  {
   "property": "C19",
   "status": "partial",
   "theorems": [
    "C19_no_overlap",
    "C19_aligned",
    "C19_inside_system_storage",
    "C19_bookkeeping",
    "C19_contents",
    "C19_granted",
    "C19_realloc",
    "C19_requested_alignment",
    "C19_aligned_empty_refuted"
   ],
   "note": "Refinement of the allocator (doMalloc, doFree, memalign, calloc, cmemalign, resize, realloc, aligned resize/realloc, mallopt) to a map of live blocks, for all histories, any number of heap managers, with and without debug scrubbing. Requests whose size plus overhead wraps are excluded by usage and treated in C20. Refuted part: memalign of an empty block does not honour the alignment (heap.cfa:1246). Binding of threads to managers is not modelled."
  },
  {
   "property": "C20",
   "status": "partial",
   "theorems": [
    "C20_enough_bytes",
    "C20_products",
    "C20_malloc_refuted",
    "C20_memalign_refuted",
    "C20_pvalloc_refuted",
    "C20_array_refuted",
    "C20_null_refuted"
   ],
   "note": "Proved for every request whose size plus overhead is representable. Refuted: doMalloc adds 16 before any check (the guard at heap.cfa:920-928 is under __DEBUG__, which the library does not define), products and aligned sizes wrap, and realloc/memalign dereference the 0p malloc returns for sizes just below 2^64."
  },
  {
   "property": "C21",
   "status": "partial",
   "theorems": [
    "C21_lexicographic",
    "C21_consistent",
    "C21_maybe",
    "C21_result",
    "C21_result_assignment_value_refuted"
   ],
   "note": "Pairs for all totally ordered component types; maybe and result over all histories of set, set_none/set_error and assignment, with field construction and destruction tracked. Refuted part: result's ?=? has no return statement (result.cfa:50-64), so the value of the assignment expression is undefined."
  },
  {
   "property": "C22",
   "status": "proved",
   "theorems": [
    "C22_fifo_exactly_once",
    "C22_nothing_lost_or_duplicated",
    "C22_only_real_elements",
    "C22_arrival_order"
   ],
   "note": "Histories of insert/remove/try/flush/close and closed routines, with waituntil writes; order can break only when waituntil reads and writes mix on a buffered channel (C63_channel_order_refuted)."
  },
  {
   "property": "C23",
   "status": "proved",
   "theorems": [
    "C23_blocking_discipline",
    "C23_blocks_only_if_needed"
   ],
   "note": ""
  },
  {
   "property": "C24",
   "status": "proved",
   "theorems": [
    "C24_nobody_stranded",
    "C24_closed_insert_refused",
    "C24_remaining_elements_removable"
   ],
   "note": "A plain insert on a closed channel is refused; with a resumption handler that returns, the code deliberately inserts the handler's element if there is room. is_closed is declared void in the source and not modelled."
  },
  {
   "property": "C25",
   "status": "partial",
   "theorems": [
    "C25_refines_permits_fifo_partial",
    "C25_permits_conserved_partial",
    "C25_fifo_partial",
    "C25_negative_count_refuted",
    "C25_empty_refuted"
   ],
   "note": "Proved for non-negative initial counts (C25_*_partial); refuted for negative ones and for empty(). One transition per critical section; counts unbounded."
  },
  {
   "property": "C26",
   "status": "partial",
   "theorems": [
    "C26_bulk_release_partial",
    "C26_bulk_count",
    "C26_bulk_release_refuted",
    "C26_positive_count_refuted"
   ],
   "note": "False in general (max instead of min, positive count wraps): C26_*_refuted. C26_bulk_release_partial covers count<=0 and n at least the number of blocked threads."
  },
  {
   "property": "C27",
   "status": "partial",
   "theorems": [
    "C27_mutual_exclusion",
    "C27_owner_counts",
    "C27_unlock",
    "C27_fifo",
    "C27_try_lock",
    "C27_wait_releases",
    "C27_wait_returns",
    "C27_wait_depth_kept",
    "C27_wait_result",
    "C27_cond_queue",
    "C27_notify",
    "C27_notify_without_lock_refuted",
    "C27_single_relock_refuted",
    "C27_timeout"
   ],
   "note": "Critical-section model of blocking_lock + cond_lock; exclusion, recursion, FIFO, wait/notify/timeouts proved when notifiers hold the lock. Refuted: notify without the lock uses an unset link_node; single-acquisition relock is not counted in release builds."
  },
  {
   "property": "C28",
   "status": "partial",
   "theorems": [
    "C28_block_spin_exclusive",
    "C28_block_spin_fifo",
    "C28_block_spin_progress",
    "C28_block_spin_notified",
    "C28_fast_block_exclusive",
    "C28_fast_block_no_stranded",
    "C28_fast_block_handover",
    "C28_fast_block_wait_returns_holding",
    "C28_fast_block_stranded_refuted"
   ],
   "note": "fast_block_lock, block_spin_lock and (with C27) blocking_lock/simple_owner_lock on condition variables; refuted for fast_block_lock: notifying while the lock is free strands the waiter."
  },
  {
   "property": "C29",
   "status": "proved",
   "theorems": [
    "C29_futex_exclusive",
    "C29_futex_no_lost_wakeup",
    "C29_futex_carrier_steps",
    "C29_go_exclusive",
    "C29_go_no_lost_wakeup",
    "C29_backoff_exclusive",
    "C29_backoff_no_lost_wakeup",
    "C29_backoff_waker_steps"
   ],
   "note": "futex_mutex, go_mutex and exp_backoff_then_block_lock, one transition per atomic access; exclusion and no lost wake-up for all interleavings (SC memory)."
  },
  {
   "property": "C30",
   "status": "partial",
   "theorems": [
    "C30_exclusive",
    "C30_fifo",
    "C30_free",
    "C30_progress",
    "C30_handoff",
    "C30_reuse_refuted",
    "C30_block_spin_exclusive"
   ],
   "note": "Exclusion for the three node disciplines; arrival order, progress, hand-off for mcs_lock with reused nodes and mcs_spin_lock with a node per acquisition; spin_queue_lock/mcs_block_spin_lock exclusive. Refuted: mcs_spin_lock with reused nodes passes over and strands a waiter (unlock leaves n.next set)."
  },
  {
   "property": "C31",
   "status": "proved",
   "theorems": [
    "C31_sem_atomic",
    "C31_oneshot_atomic",
    "C31_unparked_once",
    "C31_oneshot_stays",
    "C31_sem_not_stranded",
    "C31_oneshot_not_stranded",
    "C31_post_releases"
   ],
   "note": "One waiter, any number of posters; parking by tickets."
  },
  {
   "property": "C32",
   "status": "partial",
   "theorems": [
    "C32_registration_history_partial",
    "C32_posted_iff_not_retracted",
    "C32_freed_once_partial",
    "C32_spin_ends",
    "C32_abandon_registered_refuted"
   ],
   "note": "Proved for clients that do not abandon while registered; abandoning while registered frees twice (refuted)."
  },
  {
   "property": "C33",
   "status": "partial",
   "theorems": [
    "C33_no_dangling_partial",
    "C33_returns_ready",
    "C33_wait_ends",
    "C33_early_return_refuted"
   ],
   "note": "Proved for calls in which every set-up succeeds; the early return leaves dangling registrations (refuted)."
  },
  {
   "property": "C34",
   "status": "partial",
   "theorems": [
    "C34_exactly_once",
    "C34_legal_meaning",
    "C34_nobody_stays_parked",
    "C34_winner_progress",
    "C34_ready_refuted"
   ],
   "note": "Every interleaving, any number of calls and threads, weak CAS failures included. The READY state is never stored (C34_ready_refuted); the behaviour is right nevertheless because the list stays poisoned."
  },
  {
   "property": "C35",
   "status": "proved",
   "theorems": [
    "C35_releases_whole_groups",
    "C35_reusable"
   ],
   "note": "Group sizes 1..2^63-1 (size 0 never releases)."
  },
  {
   "property": "C36",
   "status": "proved",
   "theorems": [
    "C36_ordered",
    "C36_tick",
    "C36_cancelled",
    "C36_timer_armed"
   ],
   "note": ""
  },
  {
   "property": "C37",
   "status": "partial",
   "theorems": [
    "C37_history",
    "C37_conserved",
    "C37_lanes",
    "C37_search",
    "C37_search_refuted"
   ],
   "note": "Proved for all histories of atomic queue operations (lane locks and the scheduler lock make them atomic). The claim that a search finding nothing means an empty queue is refuted: the unsigned index (offset + i) % count wraps (ready_queue.cfa:226-241); it holds when offset + count <= 2^32 or count divides 2^32."
  },
  {
   "property": "C38",
   "status": "proved",
   "theorems": [
    "C38_exclusive",
    "C38_exclusive_entered",
    "C38_recursion",
    "C38_free",
    "C38_queued",
    "C38_not_lost",
    "C38_entry_order",
    "C38_return",
    "C38_wait",
    "C38_signal",
    "C38_signal_block",
    "C38_resume"
   ],
   "note": "Invariant over the monitor model (one step per critical section): exclusion over active calls and over entered monitors, recursion count = number of active calls, FIFO entry, heir order on return/wait, signal and signal_block hand-over, nobody lost, state restored on resume. Destructor/join entry and timeouts not modelled."
  },
  {
   "property": "C39",
   "status": "proved",
   "theorems": [
    "C39_no_deadlock"
   ],
   "note": "Proved on the monitor model for calls and returns, including nested calls whose monitors are already held or come after all held ones; the sort itself is C07."
  },
  {
   "property": "C40",
   "status": "partial",
   "theorems": [
    "C40_first",
    "C40_admitted",
    "C40_single",
    "C40_waitfor",
    "C40_multi_refuted",
    "C40_queued_refuted"
   ],
   "note": "Exact acceptance for the first monitor of a call and for single-monitor calls; clause and caller choice of waitfor proved. Refuted for multi-monitor calls: is_accepted compares a pointer with 0 (monitor.cfa:782), so any call that reaches the awaited monitor second is let in; accepted callers queued at a non-first monitor are not noticed."
  },
  {
   "property": "C41",
   "status": "partial",
   "theorems": [
    "C41_sound",
    "C41_quiet",
    "C41_no_fault",
    "C41_nonblocking",
    "C41_built",
    "C41_fits_refuted"
   ],
   "note": "Theorems over all trees, thread counts and interleavings, with unbounded counts. C41_fits_refuted: a node's count is a signed char in the code, so 128 unfinished arrivals at one leaf do not fit and the next arrival spins forever."
  },
  {
   "property": "C42",
   "status": "partial",
   "theorems": [
    "C42_one",
    "C42_meet",
    "C42_resumed",
    "C42_waiting",
    "C42_waiting_plain",
    "C42_nodes",
    "C42_self_refuted"
   ],
   "note": "Zero-size open channels; any number of threads, clauses and channels, plain insert/remove taking part; atomic steps. waituntil of one channel's both directions hangs (refuted part). Futures and timeouts as OR clauses are not in this model."
  },
  {
   "property": "C43",
   "status": "proved",
   "theorems": [
    "C43_linearizable",
    "C43_results",
    "C43_conservation",
    "C43_version",
    "C43_solo"
   ],
   "note": "Linearizable stack by 128-bit CAS with non-atomic copies in either half order and node reuse; results, conservation, version counter = number of pushes. Version counter is unbounded in the model."
  },
  {
   "property": "C44",
   "status": "proved",
   "theorems": [
    "C44_fifo",
    "C44_empty",
    "C44_next",
    "C44_starts",
    "C44_progress",
    "C44_released"
   ],
   "note": "FIFO in order of tail exchanges, empty result only when nothing completed, consumer progress, popped nodes released and reset."
  },
  {
   "property": "C45",
   "status": "proved",
   "theorems": [
    "C45_value",
    "C45_put",
    "C45_woken",
    "C45_safe",
    "C45_freed",
    "C45_count",
    "C45_assign",
    "C45_assign_done",
    "C45_copy",
    "C45_destroy"
   ],
   "note": "Handles: FutureRC/ (atomic-step interleavings; a handle is not changed by one thread while another reads it). The future inside: Future/, while only values are put in."
  },
  {
   "property": "C46",
   "status": "partial",
   "theorems": [
    "C46_lock_partial",
    "C46_raise_partial",
    "C46_lock_refuted",
    "C46_resume_refuted",
    "C46_try_refuted",
    "C46_late_refuted"
   ],
   "note": "Holds while only values are put in, or no get has to wait and no handler resumes. Refuted otherwise: lock released by a waiter that does not hold it, released twice after a resumption, try_get reports unwritten storage, a woken getter raises a later round's exception."
  },
  {
   "property": "C47",
   "status": "partial",
   "theorems": [
    "C47_order_is_lexicographic",
    "C47_infinity_greatest",
    "C47_strict_total_order",
    "C47_components_determine",
    "C47_construct",
    "C47_add_componentwise",
    "C47_add_monoid",
    "C47_add_assoc",
    "C47_add_monotone",
    "C47_add_unchecked_refuted",
    "C47_increment",
    "C47_decrement_spec"
   ],
   "note": "Order is exactly the lexicographic order of the eight components with infinity greatest; addition componentwise while components stay in range; refuted: operator+ does not check ranges, byte carries corrupt the next component."
  },
  {
   "property": "C48",
   "status": "partial",
   "theorems": [
    "C48_compare_partial",
    "C48_compare_infinity_refuted",
    "C48_units_partial",
    "C48_implicit_unit_refuted"
   ],
   "note": "compare(infinity, infinity) returns 1 although they are equal (refuted); the constant 'implicit' also counts a sign conversion (refuted)."
  },
  {
   "property": "C49",
   "status": "proved",
   "theorems": [
    "C49_refines_environment_stack",
    "C49_scope_restores",
    "C49_iteration"
   ],
   "note": "Histories over begin/end scope, insert, insertAt, erase, find, contains, count and operator[] refine a stack of environments; iteration order; scope restoration. ScopedSet is the same code with unit values. Scope notes are not modelled."
  },
  {
   "property": "C50",
   "status": "partial",
   "theorems": [
    "C50_erase_hides",
    "C50_insert_partial",
    "C50_insert_after_erase_refuted",
    "C50_scope",
    "C50_iteration_partial",
    "C50_iteration_refuted",
    "C50_erase_result_refuted"
   ],
   "note": "erase hides; successful insertion is visible; iteration = non-sentinel entries. Refuted: insertion after erase in the same scope is lost; iteration also visits hidden outer entries; erase's returned count."
  },
  {
   "property": "C51",
   "status": "proved",
   "theorems": [
    "C51_versions_are_immutable",
    "C51_old_version_unchanged"
   ],
   "note": "All histories over all versions; values answered as immutable maps (find/get/get_or_default, count, size, empty). Iterators over the hash table and memory reclamation not modelled."
  },
  {
   "property": "C52",
   "status": "proved",
   "theorems": [
    "C52_exactly_valid_combinations",
    "C52_into_vector",
    "C52_no_duplicates"
   ],
   "note": "Every checker meeting the documented append/backtrack contract, and the collecting iterator in particular."
  },
  {
   "property": "C53",
   "status": "partial",
   "theorems": [
    "C53_injective",
    "C53_type_mode",
    "C53_prefix",
    "C53_kept",
    "C53_forall_partial",
    "C53_operators",
    "C53_variables_refuted",
    "C53_scope_refuted",
    "C53_parameters_refuted",
    "C53_qualified_refuted",
    "C53_operator_name_refuted"
   ],
   "note": "Iff for declarations without forall (C53_injective) and for types in type mode; C53_kept states exactly what is kept with forall clauses; up to renaming with one prenex clause and one variable per kind (C53_forall_partial). The general claim is refuted for several variables of a kind, nested clauses, mixed use of parameters, nested qualified types and operator names. Trait instances as types, and the kinds the mangler rejects by assertion, are not modelled."
  },
  {
   "property": "C54",
   "status": "partial",
   "theorems": [
    "C54_roundtrip_partial",
    "C54_type",
    "C54_mono",
    "C54_unchanged",
    "C54_ends",
    "C54_ends_refuted",
    "C54_nested_refuted",
    "C54_generic_refuted",
    "C54_results_refuted",
    "C54_abort_refuted"
   ],
   "note": "Round trip for flat types and functions over them with at most one result and no assertions (name, type up to what the name keeps), termination for numbers of at most 18 digits; refuted for nested functions, generic aggregates, several results, assertions, qualified types, and termination in general. Printing of the resulting type (genType) is not modelled."
  },
  {
   "property": "C55",
   "status": "partial",
   "theorems": [
    "C55_environment_stays_correct",
    "C55_success_makes_equal",
    "C55_environment_is_extended",
    "C55_success_has_instance",
    "C55_no_common_instance_fails",
    "C55_failure_means_no_instance",
    "C55_reference_refuted",
    "C55_array_without_dimension_refuted",
    "C55_function_pointer_refuted",
    "C55_enumeration_refuted",
    "C55_complete_variable_becomes_void_refuted",
    "C55_closed_variables_by_name_refuted",
    "C55_widening_is_top_level"
   ],
   "note": "Proved of Unify/: for all types and widening modes unification leaves one class per variable, no cyclic binding and the same variables. For types without references, arrays without dimension, C enumerations and pointer parameters to qualified types, without widening: success makes the types equal, keeps the old equations, is most general and has an instance; failure means there is no instance. Outside these types the code departs from the statement (refuted). Not proved: termination (fuel)."
  },
  {
   "property": "C56",
   "status": "partial",
   "theorems": [
    "C56_variable_in_two_classes_refuted",
    "C56_cycle_refuted",
    "C56_combine_terminates_refuted",
    "C56_order_refuted",
    "C56_combine_partial"
   ],
   "note": "Refuted in general: a variable in two classes with a lost equation, a cyclic result, an endless occurs check, dependence on the order of the classes. Proved for environments that fit (Spec.v: no class of the other environment has variables of two classes of this one; bindings mention only what comes earlier; plain types, no widening): success gives one class per variable, no cycle, and exactly the equations of both."
  },
  {
   "property": "C57",
   "status": "partial",
   "theorems": [
    "C57_lookup_end",
    "C57_lookup_cycle",
    "C57_lookup_only",
    "C57_lookup_terminates_partial",
    "C57_lookup_terminates_refuted",
    "C57_apply",
    "C57_apply_unique",
    "C57_apply_idempotent",
    "C57_apply_terminates_refuted",
    "C57_lookup_apply_refuted",
    "C57_free_bound",
    "C57_free_capture_refuted",
    "C57_normalize_partial",
    "C57_add",
    "C57_add_all"
   ],
   "note": "lookup: C57_lookup_end, _cycle and _only say what it returns for every substitution; it terminates for acyclic ones without self bindings (_terminates_partial) and loops for a variable that leads to a cycle it is not on (_terminates_refuted). apply terminates on acyclic substitutions with the unique solved type equal under the bindings; it does not terminate on a two-variable cycle that lookup handles. lookup drops qualifiers of intermediate bindings; applyFree does not avoid capture. normalize proved for types without binders."
  },
  {
   "property": "C58",
   "status": "partial",
   "theorems": [
    "C58_sound_partial",
    "C58_evaluable",
    "C58_complete",
    "C58_sound_refuted",
    "C58_known_refuted",
    "C58_known_zero",
    "C58_dimensions_refuted",
    "C58_dimensions_partial",
    "C58_zero_division_refuted",
    "C58_cast_refuted",
    "C58_unsigned_refuted",
    "C58_no_ub_refuted",
    "C58_no_ub_partial",
    "C58_unlisted"
   ],
   "note": "Sound for every expression whose C value is defined and in which no conversion or unsigned operation changes a value, when both flags are set (C58_sound_partial); isEvaluableInGCC implies absence of variables and calls; completeness for the listed operators. Refuted: hasKnownValue alone (used by unification of array dimensions), zero divisors, narrowing casts, unsigned wrap-around, undefined behaviour in the compiler."
  },
  {
   "property": "C59",
   "status": "partial",
   "theorems": [
    "C59_counts",
    "C59_no_dangling",
    "C59_deleted",
    "C59_completes",
    "C59_assign",
    "C59_drop",
    "C59_move",
    "C59_release",
    "C59_swap",
    "C59_mutate_shared",
    "C59_mutate_unique",
    "C59_move_child_refuted",
    "C59_cycle_refuted",
    "C59_weak_cycle_refuted",
    "C59_mutate_weak_refuted"
   ],
   "note": "For every well-formed shape and every history of operations whose target survives the operation: the counts equal the numbers of references, nothing dangles, a node is deleted once and exactly when no reference of either kind is left, every other pointer keeps its value, a node with two strong references is copied by get_and_mutate. Refuted: move assignment from a field of the only referenced node, clearing the field that closes a strong cycle, readonly references keep (and leak) their nodes, get_and_mutate through a readonly changes a node that a ptr holds."
  },
  {
   "property": "C60",
   "status": "partial",
   "theorems": [
    "C60_print_duration_partial",
    "C60_print_total",
    "C60_print_negative_refuted",
    "C60_two_digit_year_refuted"
   ],
   "note": "Durations strictly between -1s and 0 print without their sign (refuted); two-digit year taken mod 99 (refuted); proved elsewhere."
  },
  {
   "property": "C61",
   "status": "partial",
   "theorems": [
    "C61_power_unsigned",
    "C61_power_signed_partial",
    "C61_power_signed_refuted",
    "C61_power_polymorphic"
   ],
   "note": "Signed base -1 with exponent >= width returns 0 (refuted); proved otherwise."
  },
  {
   "property": "C62",
   "status": "partial",
   "theorems": [
    "C62_log2_integer_part_partial",
    "C62_log2_of_one_refuted"
   ],
   "note": "Undefined 64-bit shift for the value 1 (refuted); integer part proved for every value >= 2. Missing: error bound of the fraction."
  },
  {
   "property": "C63",
   "status": "partial",
   "theorems": [
    "C63_one_clause_partial",
    "C63_flush_refuted",
    "C63_channel_order_refuted",
    "C63_same_channel_hangs_refuted"
   ],
   "note": "At most one clause: proved without flush. Refuted: flush completes an already decided clause; a waituntil read overtakes the buffer by taking from a blocked waituntil writer; a waituntil reading and writing the same channel spins for ever."
  },
  {
   "property": "C64",
   "status": "proved",
   "theorems": [
    "C64_no_lost_wakeup",
    "C64_matched_resumes",
    "C64_scheduled_once",
    "C64_returns_matched",
    "C64_abort_iff_mismatch"
   ],
   "note": "Ticket protocol of park/unpark with yields and exit."
  },
  {
   "property": "C65",
   "status": "partial",
   "theorems": [
    "C65_link_left_dirty_refuted"
   ],
   "note": "Refuted: user_link.next is left 1p or pointing at another thread."
  },
  {
   "property": "C66",
   "status": "partial",
   "theorems": [
    "C66_single",
    "C66_mixed_refuted",
    "C66_baton_refuted",
    "C66_deadlock_refuted"
   ],
   "note": "Holds for waits on one monitor (C66_single). Refuted when clauses name different monitors: the waiter sleeps forever after the accepted call (two ways), or two accepted calls deadlock."
  },
  {
   "property": "C67",
   "status": "proved",
   "theorems": [
    "C67_queue",
    "C67_stack",
    "C67_dllist",
    "C67_stack_check_gap"
   ],
   "note": "All three collections, with the debug checks. A double push of a stack's bottom node passes push's check and makes a ring (C67_stack_check_gap)."
  },
  {
   "property": "C68",
   "status": "proved",
   "theorems": [
    "C68_queries",
    "C68_usable_disjoint"
   ],
   "note": "Same histories as C19."
  },
  {
   "property": "C69",
   "status": "partial",
   "theorems": [
    "C69_min_max",
    "C69_partition",
    "C69_clamp",
    "C69_abs",
    "C69_abs_fixed_width_refuted",
    "C69_swap"
   ],
   "note": "Parametric in the order. Refuted part: abs of the most negative fixed-width integer is negative."
  },
  {
   "property": "C70",
   "status": "partial",
   "theorems": [
    "C70_strcmp",
    "C70_operators",
    "C70_order",
    "C70_long_refuted",
    "C70_strncmp"
   ],
   "note": "Dictionary order for lengths differing by less than 2^31. Refuted beyond: the size_t difference is truncated to int, so distinct strings compare equal."
  },
  {
   "property": "C71",
   "status": "partial",
   "theorems": [
    "C71_include",
    "C71_include_predicate",
    "C71_longest_unique",
    "C71_slice",
    "C71_slice_overflow_refuted",
    "C71_tail",
    "C71_tail_refuted",
    "C71_replace",
    "C71_replace_empty_refuted"
   ],
   "note": "Slices, spans and replacement of non-empty strings. Refuted: s(start, SSIZE_MAX) overflows, s(start) outside the string is not checked, replace of the empty string never returns."
  },
  {
   "property": "C72",
   "status": "partial",
   "theorems": [
    "C72_exclusive",
    "C72_ids",
    "C72_no_fault_partial",
    "C72_progress_partial",
    "C72_free_partial",
    "C72_free_refuted",
    "C72_no_fault_refuted"
   ],
   "note": "Exclusion and distinct ids proved for all executions. Memory safety, progress and release are proved when no thread unregisters and refuted otherwise: a writer that has read a cell may touch the lock of a thread that has unregistered and exited; a thread that unregisters during a write section keeps its lock taken."
  },
  {
   "property": "C74",
   "status": "partial",
   "theorems": [
    "C74_when",
    "C74_start",
    "C74_vacuous_partial",
    "C74_vacuous_refuted",
    "C74_all_or_partial",
    "C74_no_and",
    "C74_all_or_refuted"
   ],
   "note": "else clauses are not in the model. A parenthesised statement containing 'and' may be compiled as an exclusive choice, and a disjunction all of whose clauses are disabled may wait forever (refuted parts); both clean for the shapes named in the _partial theorems."
  },
  {
   "property": "C73",
   "status": "partial",
   "theorems": [
    "C73_sleep",
    "C73_unpark",
    "C73_progress",
    "C73_ends",
    "C73_once",
    "C73_kept",
    "C73_frame_partial",
    "C73_frame_refuted"
   ],
   "note": "Theorems over all interleavings, clause counts and predicates. C73_frame_partial covers channels; C73_frame_refuted: with futures a fulfilling thread can add to the counter after the waituntil has ended, because unregister_select$ (future.hfa:80-86) does not take the lock for a node already removed."
  },
  {
   "property": "C75",
   "status": "partial",
   "theorems": [
    "C75_value",
    "C75_too_large_refuted",
    "C75_text",
    "C75_binary_partial",
    "C75_binary_refuted",
    "C75_hex128_partial",
    "C75_decimal128_partial",
    "C75_octal128_partial",
    "C75_decimal128_too_large",
    "C75_lower_half_zero_refuted",
    "C75_octal128_refuted",
    "C75_octal128_too_large_refuted",
    "C75_decimal128_refuted",
    "C75_binary128_refuted"
   ],
   "note": "Values below 2^64 in hexadecimal, octal and decimal and the text handed on are proved for all literals. Binary literals: exactly which number is taken is proved (up to two last digits are not read), so the property is refuted (0b101 is taken for 1). 128-bit literals are right unless the lower half is zero (2^64 is taken for 1), octal ones from 2^127 on are wrong and too large ones are accepted, decimal ones overflow a signed multiplication from 2^127 on; literals from 2^64 on without L128 are silently 2^64-1. 128-bit binary literals and the texts of 128-bit literals have no positive theorem."
  },
  {
   "property": "C76",
   "status": "partial",
   "theorems": [
    "C76_zero_one",
    "C76_type_partial",
    "C76_long_unsigned_refuted",
    "C76_unsigned_decimal_refuted",
    "C76_long_refuted",
    "C76_binary_refuted",
    "C76_length_asked"
   ],
   "note": "The type is characterised exactly: it is C's type unless the literal is in the list 'departs' (lu, decimal u between 2^31 and 2^32, l or ll from 2^63 on, decimal from 2^63 on). Binary literals get the type of the wrong value (refuted)."
  },
  {
   "property": "C77",
   "status": "partial",
   "theorems": [
    "C77_values",
    "C77_new_key_null",
    "C77_get_after_set",
    "C77_destructors_partial",
    "C77_defined_partial",
    "C77_delete_race_refuted",
    "C77_stale_value_refuted",
    "C77_own_thread_refuted",
    "C77_join_keeps_values_refuted"
   ],
   "note": "C77_values, C77_new_key_null, C77_get_after_set: the answers of create, delete, set and get agree with a plain map in every interleaving. C77_destructors_partial, C77_defined_partial: owed destructors are called once each, provided no key is deleted between the test of its destructor and the call; without that the code calls NULL (C77_delete_race_refuted) or the destructor of another key (C77_stale_value_refuted). Destructors run in the joining thread (C77_own_thread_refuted) and so change its values (C77_join_keeps_values_refuted)."
  },
  {
   "property": "C78",
   "status": "partial",
   "theorems": [
    "C78_exclusive_partial",
    "C78_defined_partial",
    "C78_results_partial",
    "C78_waiters_partial",
    "C78_static_quiet_partial",
    "C78_static_trylock_refuted",
    "C78_static_race_refuted",
    "C78_static_null_refuted",
    "C78_trylock_blocks_refuted"
   ],
   "note": "Proved for mutexes set up by pthread_mutex_init, and for static ones whose first lock returns before another thread comes (C78_exclusive_partial, C78_results_partial, C78_waiters_partial, C78_defined_partial, C78_static_quiet_partial). Static initialisation breaks exclusion: C78_static_trylock_refuted, C78_static_race_refuted, C78_static_null_refuted. trylock may block: C78_trylock_blocks_refuted."
  },
  {
   "property": "C79",
   "status": "partial",
   "theorems": [
    "C79_exclusive",
    "C79_depth_restored",
    "C79_signal_one",
    "C79_broadcast_all",
    "C79_defined_partial",
    "C79_signal_race_refuted",
    "C79_static_refuted",
    "C79_signal_result_refuted",
    "C79_timeout_result_refuted",
    "C79_deadline_exact",
    "C79_deadline_refuted"
   ],
   "note": "Exclusion, depth, one waiter per signal and broadcast are proved for all executions. Definedness is proved when signals come from the holder of the mutex; the rest is refuted because the code differs from POSIX: signal without the mutex, results of signal and broadcast, ETIMEDOUT, deadline, static initialiser."
  },
  {
   "property": "C80",
   "status": "partial",
   "theorems": [
    "C80_once_partial",
    "C80_returns_after",
    "C80_exactly_partial",
    "C80_no_deadlock",
    "C80_null",
    "C80_reentrant_refuted",
    "C80_independent_refuted"
   ],
   "note": "At most once, return after the end and absence of deadlock are proved for all executions (at most once: those where no init routine calls pthread_once on its own control). Independence of controls is refuted, one global lock is held during every init routine; re-entrance runs the init routine again."
  },
  {
   "property": "C81",
   "status": "partial",
   "theorems": [
    "C81_defined",
    "C81_counts",
    "C81_deref",
    "C81_effect",
    "C81_once",
    "C81_no_leak",
    "C81_cycle_refuted",
    "C81_self_owned_refuted",
    "C81_wrap_refuted",
    "C81_equal"
   ],
   "note": "All parts are proved for programs that touch only reachable pointers and have fewer than 2^32 - 2 of them. Refuted outside: cycles are never destroyed, assigning to a pointer inside an object that only the cycle keeps alive uses freed memory, 2^32 copies wrap the counter."
  },
  {
   "property": "C82",
   "status": "partial",
   "theorems": [
    "C82_defined_partial",
    "C82_unique",
    "C82_effect",
    "C82_destroys",
    "C82_once",
    "C82_no_leak",
    "C82_move_self_refuted",
    "C82_move_tail_refuted",
    "C82_own_itself_refuted"
   ],
   "note": "Full but for the condition that in move(p, q) the pointer q is not inside what p owns, and p is not q: those two cases are refuted (use after free; destruction), as is freedom from leaks when a pointer is moved into its own object."
  },
  {
   "property": "C83",
   "status": "partial",
   "theorems": [
    "C83_print_unsigned",
    "C83_print_signed_partial",
    "C83_decimal_unique",
    "C83_read_back",
    "C83_print_least_refuted",
    "C83_read_smash_refuted",
    "C83_read_smash_iff",
    "C83_read_nothing",
    "C83_read_zeros_refuted"
   ],
   "note": "Full for unsigned; signed without the least value, whose negation overflows (refuted). Reading: round trip for all values including the least; refuted: 40 minus signs overrun the buffer, more than 39 digits with leading zeros are misread."
  },
  {
   "property": "C84",
   "status": "partial",
   "theorems": [
    "C84_print128_partial",
    "C84_shown_unique",
    "C84_width",
    "C84_hex_refuted",
    "C84_signed_refuted",
    "C84_left_refuted",
    "C84_precision_refuted",
    "C84_binary_refuted",
    "C84_zero_refuted",
    "C84_least_refuted"
   ],
   "note": "For every base, width, precision and flag under Spec.good; outside it seven refutations show where the code departs: 2^64 in base 2 or 16, signed chunks of 2^63 and more, left adjustment with a head that is a power of ten, precision with zero padding, short binary precision, 0 in base 16, and the least signed value, whose negation overflows. log10 is a parameter; printf is as in C17."
  },
  {
   "property": "C85",
   "status": "partial",
   "theorems": [
    "C85_fifo",
    "C85_empty",
    "C85_space",
    "C85_size_zero_refuted",
    "C85_discipline_refuted",
    "C85_parts",
    "C85_victim_part"
   ],
   "note": "Proved for queues used as the comments at actor.hfa:106-107 demand and for buffer sizes of at least 1; C85_size_zero_refuted and C85_discipline_refuted show that both conditions are needed."
  },
  {
   "property": "C86",
   "status": "partial",
   "theorems": [
    "C86_safe",
    "C86_order",
    "C86_nothing_lost",
    "C86_one_at_a_time",
    "C86_sequential",
    "C86_quiet",
    "C86_served",
    "C86_no_gap",
    "C86_alive",
    "C86_bufsize_zero_refuted"
   ],
   "note": "Proved for every executor with 1 <= nworkers <= nrqueues and buf_size >= 1; C86_bufsize_zero_refuted shows that buf_size 0, which the constructor accepts, does not work. Sequentially consistent memory; delivery is shown as a safety property (nothing lost, order, workers never blocked), not as fairness."
  },
  {
   "property": "C87",
   "status": "partial",
   "theorems": [
    "C87_count",
    "C87_no_mismatch",
    "C87_stops_after_all",
    "C87_wakes",
    "C87_early_refuted",
    "C87_mismatch_refuted",
    "C87_no_actor_refuted"
   ],
   "note": "Proved under the condition that the executor thread creates no actor after all earlier ones have terminated; without it actor_stop can return while an actor is live (C87_early_refuted) or the program is aborted (C87_mismatch_refuted), and without any actor actor_stop never returns (C87_no_actor_refuted)."
  },
  {
   "property": "C88",
   "status": "partial",
   "theorems": [
    "C88_sequence",
    "C88_permit_stays",
    "C88_iteration",
    "C88_insert_empty_refuted",
    "C88_capacity_zero_refuted",
    "C88_past_end_refuted",
    "C88_negative_refuted",
    "C88_iterate_full_refuted",
    "C88_permit_left_refuted",
    "C88_exit_refuses"
   ],
   "note": "Proved for every sequence of operations within the contract; the theorems named refuted show where the code itself departs: insertion into an empty vector, capacity 0, the index equal to the length, negative indices, iteration over a full vector, and a permit that is left behind when an insertion at the front fills the buffer."
  },
  {
   "property": "C89",
   "status": "partial",
   "theorems": [
    "C89_costs",
    "C89_ends",
    "C89_choice",
    "C89_tables",
    "C89_common_upper",
    "C89_common_table",
    "C89_order",
    "C89_common_least",
    "C89_common_cheapest",
    "C89_common_of_many",
    "C89_resolver_cost",
    "C89_resolver_order",
    "C89_max_int",
    "C89_hierarchy_refuted"
   ],
   "note": "Everything but the last sentence is proved; C89_hierarchy_refuted: printing the ranks reads graph[36], one past the end. generateCommonType is only right for the shape of this graph, as its comment says (C89_common_general_ex); its asserts test a string and can never fail."
  },
  {
   "property": "C90",
   "status": "partial",
   "theorems": [
    "C90_basic",
    "C90_operands",
    "C90_constant_takes",
    "C90_upper_refuted",
    "C90_enum",
    "C90_enum_order_refuted",
    "C90_zero_enum_refuted",
    "C90_two_enums_refuted",
    "C90_one_sided",
    "C90_one_sided_refuted",
    "C90_qualifiers",
    "C90_mutex_refuted"
   ],
   "note": "Proved for two basic types and for 0 and 1 with each other (C90_basic, C90_operands, C90_qualifiers without mutex and atomic). Refuted: 0 with a char is a char though 0 counts as int; an enumeration counts as int when second and as unsigned int when first; two enumerations have no common type; one-sided widening goes to the other operand's type even where that narrows; a mutex qualifier is added."
  },
  {
   "property": "C91",
   "status": "partial",
   "theorems": [
    "C91_statement",
    "C91_no_deadlock",
    "C91_ends",
    "C91_exclusion",
    "C91_tuples_refuted",
    "C91_twice_refuted",
    "C91_moved_refuted",
    "C91_same_address_refuted",
    "C91_raise_refuted",
    "C91_empty"
   ],
   "note": "Proved for arguments that are locks at different addresses and are not changed by the body: one statement is lock ascending, body, unlock descending; any number of threads with any number of statements have no deadlock, end with all locks free and exclude each other. Refuted (compiler bugs): tuples of locks (args.at(0)), the same lock twice, an argument that designates another lock after the body, two locks at one address, an exception from lock. Nested statements can deadlock (example), which the language allows."
  },
  {
   "property": "C92",
   "status": "partial",
   "theorems": [
    "C92_refines",
    "C92_total",
    "C92_conserved",
    "C92_fifo",
    "C92_available",
    "C92_teardown",
    "C92_alone",
    "C92_helper_refuted"
   ],
   "note": "Proved when operations on the ring of a processor happen one after the other: refinement of three queues, conservation, FIFO, availability, teardown. Refuted when a processor helps another one (io.cfa:304-305): two concurrent __release_sqes put entries into the free ring twice, and two clients get the same entry."
  },
  {
   "property": "C93",
   "status": "partial",
   "theorems": [
    "C93_once",
    "C93_alone",
    "C93_bounded",
    "C93_drained",
    "C93_overflow_refuted"
   ],
   "note": "Proved: every completion once and in order, mutual exclusion, bounded ring, and everything in the ring is delivered while processors keep draining. Refuted: completions that the kernel kept back are asked for only after a drain of a whole ring; if the ring filled up while a drain of fewer was on its way they stay in the kernel, with all later ones (io.cfa:216-218)."
  },
  {
   "property": "C94",
   "status": "partial",
   "theorems": [
    "C94_once",
    "C94_woken",
    "C94_flag",
    "C94_alone",
    "C94_flushed",
    "C94_sleep_refuted",
    "C94_more_refuted",
    "C94_pending_refuted",
    "C94_intended",
    "C94_notify_refuted",
    "C94_notify_exact",
    "C94_lost_wakeup_refuted"
   ],
   "note": "Proved: external submissions go into the ring once and in order, threads are woken once and only then, the flag is right, mutual exclusion, and everything is served while some processor is awake and flushes. Refuted: the owner can fall asleep with a request in the queue (the signal comes between the flush and the sleep), the flag pending is cleared after the flush by the system call, the test for waiting allocations is the wrong way round (io.cfa:650), and a release between the failed allocation and the request is not noticed."
  },
  {
   "property": "C95",
   "status": "partial",
   "theorems": [
    "C95_cast",
    "C95_deterministic",
    "C95_refines",
    "C95_anywhere",
    "C95_resume_stack",
    "C95_accepted",
    "C95_finally_refuted",
    "C95_wrong_clause_refuted",
    "C95_rethrow_refuted",
    "C95_deleted_refuted",
    "C95_rethrow_finally_refuted",
    "C95_reresume_refuted"
   ],
   "note": "C95_refines: for all programs in which no rethrow is caught within the clause that rethrows, no throw; is in a finally clause and no throwResume; is in a try block with catch clauses or a finally clause (ok, a syntactic condition that implies what the compiler checks: C95_accepted), and for all executions in which no exception that is on its way is superseded by one out of a finally clause, the generated code run by the runtime gives the same events and the same end as the meaning of the statements, and leaves no exception, no resume node and no leak. C95_anywhere: the same below any try statements, in any consistent state of the runtime. C95_resume_stack: for all code the stack of resume nodes is restored. C95_cast: virtual casts. The six _refuted theorems show with programs that the compiler accepts that each restriction is needed: the code departs from the property there."
  },
  {
   "property": "C96",
   "status": "partial",
   "theorems": [
    "C96_layout",
    "C96_offsets",
    "C96_struct",
    "C96_union_refuted"
   ],
   "note": "C96_layout and C96_offsets for all types without a union whose members all have size 0 in the instance (solid), and whose parts are smaller than 2^64 bytes; C96_struct for the layout function itself. C96_union_refuted: a union with members of size 0 only has size 1 in generic code and 0 for the instance, so that generic code and instance disagree about the members that follow it."
  },
  {
   "property": "C97",
   "status": "partial",
   "theorems": [
    "C97_refines",
    "C97_deterministic",
    "C97_choose",
    "C97_labels",
    "C97_accepts",
    "C97_body_refuted",
    "C97_lost_refuted",
    "C97_if_refuted"
   ],
   "note": "Proved for all accepted bodies in which bodies of loops and branches of if are blocks without labels of their own (C97_refines, C97_labels; C97_accepts for all bodies). Refuted outside of that: a compound statement with a label as the body of a loop or a branch of an if statement has its break label put elsewhere (C97_body_refuted, C97_lost_refuted, C97_if_refuted). Executions that do not end, goto, try, return and fallthrough with a label are not covered."
  },
  {
   "property": "C98",
   "status": "partial",
   "theorems": [
    "C98_cursor",
    "C98_flat",
    "C98_typed",
    "C98_value_refuted",
    "C98_brace_refuted",
    "C98_index_refuted",
    "C98_crash_refuted",
    "C98_excess_refuted"
   ],
   "note": "The cursor of CurrentObject.cpp (iterators for scalars, arrays, structures, unions; setPosition, options, small and big steps, entering and leaving lists) and the loop over initializers are modelled; the specification is C's order over paths. Proved: agreement for the initializers described by Spec.fine (which includes all nestings of braces at member boundaries, omitted braces, structure designators); for all types when all braces are omitted; for all initializers the types are those of the designated subobjects. Refuted: after an expression of structure type the cursor goes into it; braces after a nested designator or in a begun member are taken for the outer member; a designator of an element keeps the place within the element; a designator after the last element uses a null pointer; lists after the last element are accepted. Not modelled: names in designators, generic types, tuples, the resolver's costs."
  },
  {
   "property": "C99",
   "status": "partial",
   "theorems": [
    "C99_control",
    "C99_one_active",
    "C99_never_again",
    "C99_stack",
    "C99_end_refuted",
    "C99_freed_refuted",
    "C99_waiting_refuted"
   ],
   "note": "Model: the state, starter and last fields of every coroutine of a thread and resume, suspend, prime, the end of main and the destructor with their assertions; executions are arbitrary sequences of actions. Proved: the next active coroutine is the one given by the history (refinement, for all executions), exactly one Active coroutine, ended and destroyed coroutines never run again, stack behaviour under the discipline. Refuted: the end returns to the waiting resumer (it goes to the first resumer, by design); the first resumer still exists when a coroutine ends (no check); a coroutine that waits for a resume cannot be destroyed by the one it resumed (no check). Not modelled: cancellation, non-local exceptions, stacks, resume( coroutine$ * )."
  },
  {
   "property": "C100",
   "status": "partial",
   "theorems": [
    "C100_first",
    "C100_body",
    "C100_implicit_once",
    "C100_once_partial",
    "C100_branch_refuted",
    "C100_return_refuted",
    "C100_twice_refuted",
    "C100_self_refuted",
    "C100_destructor_order",
    "C100_destroyed_partial",
    "C100_undestroyed_refuted"
   ],
   "note": "Members without an explicit call: constructed exactly once, first, in order, before every use, on every path (C100_first, C100_body, C100_implicit_once), and destroyed exactly once in reverse order (C100_destructor_order, C100_destroyed_partial). Explicit calls: exactly once and before use when they are statements of the body itself, at most one per member, and do not use the member in their own arguments (C100_once_partial). Missing in general because the code does not look at paths: C100_branch_refuted, C100_return_refuted, C100_twice_refuted, C100_self_refuted, C100_undestroyed_refuted."
  },
  {
   "property": "C101",
   "status": "partial",
   "theorems": [
    "C101_exact",
    "C101_live_partial",
    "C101_fresh_partial",
    "C101_balance_partial",
    "C101_left_partial",
    "C101_computed_refuted",
    "C101_plain_refuted"
   ],
   "note": "C101_exact: accepted iff no jump crosses a construction, for the function and all nested ones. C101_live_partial, C101_fresh_partial, C101_balance_partial, C101_left_partial: in every execution the live objects are those in scope, constructions and destructions alternate and balance; partial because functions with computed jumps are excluded, for which it fails (C101_computed_refuted). C101_plain_refuted: objects without construction are counted as well, so jumps legal in C are rejected."
  },
  {
   "property": "C102",
   "status": "proved",
   "theorems": [
    "C102_lazy",
    "C102_restore",
    "C102_outer",
    "C102_type_hides",
    "C102_id_hides",
    "C102_redeclare",
    "C102_c_linkage"
   ],
   "note": "The order of entries in a mangle table is left to the model's association list; baseExpr and the members of with are not modelled."
  },
  {
   "property": "C103",
   "status": "partial",
   "theorems": [
    "C103_available_partial",
    "C103_order_partial",
    "C103_intrinsic_refuted",
    "C103_before_refuted"
   ],
   "note": "Holds for functions that are not intrinsic and orders that are accepted. Refuted for intrinsic functions (the loop for other functions skips them, that for copy functions does not) and for acceptance (a definition by the user before the generated one of the same type is a duplicate)."
  },
  {
   "property": "C104",
   "status": "proved",
   "theorems": [
    "C104_no_abort",
    "C104_nesting",
    "C104_scheduler",
    "C104_one",
    "C104_signal",
    "C104_pending",
    "C104_poll"
   ],
   "note": "Instructions between the accesses of the state are one Work step each; the nullness of the processor, PREEMPT_TERMINATE and the choice of the next thread are not modelled."
  },
  {
   "property": "C105",
   "status": "partial",
   "theorems": [
    "C105_statement",
    "C105_off",
    "C105_line_start",
    "C105_first_refuted",
    "C105_sep_partial",
    "C105_sep_refuted",
    "C105_nosep",
    "C105_null_refuted",
    "C105_newline",
    "C105_silent"
   ],
   "note": "The text of statements of values and tuples, of whole sequences of them, the start of lines, nosep and the newlines at the end are proved for all cascades. Refuted: the first line of a stream can start with a separator after sep (sawNL$ is false at first); sep has no effect after a character or a null string at the beginning of a line (they do not clear sawNL$); a null string is printed without a separator before it. The formatting of values and errors of the file are outside the model."
  },
  {
   "property": "C106",
   "status": "proved",
   "theorems": [
    "C106_iter",
    "C106_sound",
    "C106_total",
    "C106_order",
    "C106_width"
   ],
   "note": "Exact output on all well-formed lists, soundness and termination on all texts, the width. Signs and blanks before numbers are taken as errors in the model. The comment in the source says only one comma is supported; any number is."
  },
  {
   "property": "C107",
   "status": "partial",
   "theorems": [
    "C107_map",
    "C107_offline",
    "C107_online_refuted"
   ],
   "note": "Proved for machines whose processors 0..n-1 are all online. Refuted with a processor offline: the arrays have as many elements as processors are online but are indexed by the numbers of the processors (C107_offline: every such list of processors goes beyond the array). Reading of the files and the lower cache levels are not modelled."
  },
  {
   "property": "C108",
   "status": "partial",
   "theorems": [
    "C108_choice",
    "C108_best",
    "C108_order",
    "C108_found",
    "C108_min",
    "C108_min_order",
    "C108_named_refuted"
   ],
   "note": "Proved for all candidate lists where satisfying assertions lowers no cost and changes the type only of candidates with a name of their own (both are assumed by comments in the code, and C108_skip_ex shows the first is needed). Refuted: the alternatives named in the error are the cheapest before satisfying assertions, so the message can name a single candidate that is not one of the tied ones. Which of several deleted candidates is kept depends on the order."
  },
  {
   "property": "C109",
   "status": "partial",
   "theorems": [
    "C109_c",
    "C109_declares",
    "C109_unique",
    "C109_injective",
    "C109_ref_refuted"
   ],
   "note": "C109_c: in the mode that prints C code every type without references is printed as text that declares it. C109_declares: the same in both modes, for references not directly to an array or a function and without a single unnamed void parameter. C109_unique, C109_injective: the text has one reading. C109_ref_refuted: when Cforall code is printed, a reference to an array or a function is printed without parentheses and declares an array of references or a function that returns a reference. Not modelled: attributes, forall clauses, generic arguments, tuple, typeof, vtable and qualified types."
  },
  {
   "property": "C110",
   "status": "partial",
   "theorems": [
    "C110_partial",
    "C110_mono",
    "C110_nonneg",
    "C110_level",
    "C110_refuted"
   ],
   "note": "C110_partial: exact for all types in which each generic type has at most one polymorphic argument, followed by basic types only. C110_mono, C110_nonneg, C110_level hold for all types. C110_refuted: with more arguments the last polymorphic argument counts instead of the shallowest, pointer levels of later arguments without variables are added, and a later structure or function without variables resets the count to none: the minimum computed by the previsit is lost, because the arguments are visited again after it (and the result field it reads is not set)."
  },
  {
   "property": "C111",
   "status": "partial",
   "theorems": [
    "C111_space",
    "C111_tabular",
    "C111_room",
    "C111_comment_refuted",
    "C111_novalue_refuted",
    "C111_store_refuted"
   ],
   "note": "C111_tabular: exact for all files of well-formed lines. C111_room: the array never overflows. C111_comment_refuted: a comment that starts with a word of more than 63 characters ends the reader with cstring_length. C111_novalue_refuted: a key without a value takes the next key as value. C111_store_refuted: each string is copied to a block one byte too small."
  },
  {
   "property": "C112",
   "status": "partial",
   "theorems": [
    "C112_done",
    "C112_missing",
    "C112_parse_fail",
    "C112_valid_fail",
    "C112_complete",
    "C112_twice_refuted",
    "C112_string_refuted"
   ],
   "note": "C112_done, _missing, _parse_fail, _valid_fail, _complete: exact if no key of an entry occurs twice in the file. C112_twice_refuted: a repeated key is counted for a missing entry, whose variable stays unset without an exception; and reading stops before an entry that is in the file. C112_string_refuted: a string variable is left with the address of a freed string."
  },
  {
   "property": "C113",
   "status": "partial",
   "theorems": [
    "C113_int",
    "C113_empty_refuted",
    "C113_unsigned",
    "C113_value",
    "C113_words"
   ],
   "note": "The empty argument is read as zero by parse of int (C113_empty_refuted). strtoll and strtoull are modelled from the C standard with unbounded intermediate values; doubles are not modelled."
  },
  {
   "property": "C114",
   "status": "partial",
   "theorems": [
    "C114_column",
    "C114_pieces",
    "C114_width_refuted"
   ],
   "note": "For a reported width of 0 columns the loop never ends (C114_width_refuted). The wrapped lines start with three spaces, so an output line can be wider than the terminal when the column falls back to the whole width; this is not part of the claim."
  },
  {
   "property": "C115",
   "status": "partial",
   "theorems": [
    "C115_choice",
    "C115_check",
    "C115_help_refuted"
   ],
   "note": "An option with the short name h or ? passes the check and is never delivered (C115_help_refuted). getopt_long is taken as given; long names that are a null pointer are not modelled."
  },
  {
   "property": "C116",
   "status": "partial",
   "theorems": [
    "C116_decl",
    "C116_use",
    "C116_uses",
    "C116_shadow_refuted",
    "C116_formal",
    "C116_unnumbered"
   ],
   "note": "C116_decl, _use, _uses: exact if no clause reuses a name of an enclosing clause. C116_shadow_refuted: otherwise the inner clause overwrites the entry of the outer one, and later occurrences of the outer variable get the key of the inner one. The pointer to the declaration in the key is left out; counters do not overflow."
  },
  {
   "property": "C117",
   "status": "partial",
   "theorems": [
    "C117_uleb",
    "C117_sleb",
    "C117_round",
    "C117_padding_refuted",
    "C117_fixed",
    "C117_variable",
    "C117_aligned",
    "C117_size"
   ],
   "note": "C117_padding_refuted: padding bytes, which the standard allows, make the shift 64 or more from the eleventh byte on, which is undefined in C. The header of the table and the unwinder are not modelled; the machine is a 64-bit little-endian one."
  },
  {
   "property": "C118",
   "status": "partial",
   "theorems": [
    "C118_exclusive",
    "C118_fields",
    "C118_safe",
    "C118_fifo",
    "C118_handoff",
    "C118_try",
    "C118_notify",
    "C118_wait",
    "C118_wait_refuted"
   ],
   "note": "C118_wait_refuted: wait unlocks a recursive_mutex_lock once, so a thread holding it twice keeps it while waiting and a notifier that takes the lock first never runs. The spin-lock sections are atomic steps; lock_all, unlock_all and lock_scope are not modelled; threads unlock only what they hold."
  },
  {
   "property": "C119",
   "status": "partial",
   "theorems": [
    "C119_stream",
    "C119_length",
    "C119_bounds",
    "C119_error_refuted",
    "C119_read",
    "C119_read_refuted"
   ],
   "note": "C119_error_refuted: a negative result of vsnprintf is added to the cursor, taking back a character. C119_read_refuted: with two blanks a word is read twice, after a newline a word is lost (the source comments admit the second limitation in part). vsnprintf and sscanf %s are modelled after the C standard; fwrite succeeds."
  },
  {
   "property": "C120",
   "status": "proved",
   "theorems": [
    "C120_parent",
    "C120_order",
    "C120_cast",
    "C120_upcast",
    "C120_null",
    "C120_table",
    "C120_conflict"
   ],
   "note": "The walk starts at the virtual table, whose first word is the type id, as the generated cast passes the object; the target is assumed not to be the address of that table. Layout of the structures and the choice of the type id by mangled name (Virtual/ExpandCasts followHeadPointerType) are not modelled; the table of type ids has one scope, since no pass enters another."
  },
  {
   "property": "C121",
   "status": "partial",
   "theorems": [
    "C121_file",
    "C121_uses",
    "C121_transparent",
    "C121_generic",
    "C121_forall_ends",
    "C121_local",
    "C121_leak",
    "C121_block_refuted",
    "C121_repaired"
   ],
   "note": "Lexical kinds of all uses fail for bodies with inner blocks (C121_block_refuted): local declarations go to the scope around their block; with a scope per declaration, as at file level, they hold for every program (C121_repaired). Type parameters, declarators that turn a name into an identifier, and lookahead are not modelled."
  }
 ]
}