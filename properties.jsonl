{"id": "C01", "title": "Rational numbers are always in canonical form", "statement": "Every rational value that a program can obtain by construction and by any sequence of the library's arithmetic, negation, absolute value, conversion and exponentiation operations has a strictly positive denominator that shares no factor with the numerator; construction or division that would give a zero denominator aborts instead of returning a value.", "quantifier": "all integer numerators and denominators, all finite sequences of operations", "why_tests_cant": "The form must hold after every chain of operations; tests sample a few operand pairs.", "anchors": ["libcfa/src/rational.cfa: gcd, simplify, ?{}, ?+?, ?-?, ?*?, ?/?, ?\\?, abs, +?, -?", "libcfa/src/rational.hfa"]}
{"id": "C02", "title": "Rational arithmetic and comparison are exact", "statement": "The sum, difference, product, quotient, negation, absolute value and integer power of rationals denote the exact mathematical value, and each of the six comparison operators answers as the exact order on the denoted values (no overflow of the underlying integer assumed).", "quantifier": "all pairs of rationals in canonical form and all integer exponents", "why_tests_cant": "Infinitely many operands; sign and zero corner cases interact.", "anchors": ["libcfa/src/rational.cfa: ?+?, ?-?, ?*?, ?/?, ?==?, ?<?, ?<=?, ?>?, ?>=?, ?!=?, ?\\?, abs"]}
{"id": "C03", "title": "Rational setters update their argument", "statement": "Setting the numerator (denominator) of a rational variable returns the previous numerator (denominator) and leaves the variable holding the reduced value with the new part.", "quantifier": "all rational variables and all new values", "why_tests_cant": "A test of the returned value alone does not observe whether the caller's variable changed.", "anchors": ["libcfa/src/rational.cfa: numerator( rational(T) r, T n ), denominator( rational(T) r, T d )"]}
{"id": "C04", "title": "Time and duration conversions round-trip", "statement": "Converting a duration or time to a timespec (timeval) and back loses nothing beyond the resolution of the format; the sub-second field of the produced timespec (timeval) of a non-negative value is always in [0, 10^9) (resp. [0, 10^6)); unit extractors and unit constructors are inverse on whole units.", "quantifier": "all 64-bit nanosecond counts", "why_tests_cant": "2^64 values, boundary at every second.", "anchors": ["libcfa/src/time.hfa: Duration, Time, ?`s, ?`ms, timeval, timespec, itimerval", "libcfa/src/time_t.hfa"]}
{"id": "C05", "title": "Timer settings built from durations are well formed", "statement": "The interval-timer structure built from an alarm and an interval has both microsecond fields in [0, 10^6) and denotes the two durations truncated to microseconds.", "quantifier": "all non-negative durations", "why_tests_cant": "The failing field is only observable with intervals of at least one second.", "anchors": ["libcfa/src/time.hfa: itimerval ?{}( alarm ), ?{}( alarm, interval )"]}
{"id": "C06", "title": "Power-of-two rounding is exact", "statement": "is-power-of-two accepts exactly the powers of two; rounding down (up) to a power-of-two alignment returns the greatest (least) multiple of the alignment not above (not below) the argument, on machine words whenever the result is representable; the general (non power of two) floor and ceiling do the same for every positive alignment; counts of leading/trailing zeros and ones agree with the binary representation.", "quantifier": "all machine words and all alignments", "why_tests_cant": "2^64 x 64 combinations.", "anchors": ["libcfa/src/bitmanip.hfa", "libcfa/src/bits/align.hfa: libPow2, libFloor, libCeiling"]}
{"id": "C07", "title": "Small-array sort produces a sorted permutation", "statement": "The sort used to order monitors before bulk acquisition leaves every array, of every length, in ascending order and with exactly the same elements.", "quantifier": "all array lengths and all contents", "why_tests_cant": "All permutations of all lengths.", "anchors": ["libcfa/src/bits/algorithm.hfa: __libcfa_small_sort2..6, __libcfa_small_sortN"]}
{"id": "C08", "title": "Binary search finds the right position", "statement": "On an ascending array the exact search reports a matching position iff the key is present; the lower search returns the first position whose element is not below the key and the upper search the first position whose element is above it, for every array size including zero, and no access is out of bounds.", "quantifier": "all ascending arrays and all keys", "why_tests_cant": "Unbounded sizes and duplicate patterns; off-by-one errors are size dependent.", "anchors": ["libcfa/src/stdlib.cfa: bsearch, bsearchl, bsearchu", "libcfa/src/heap.cfa: Bsearchl"]}
{"id": "C09", "title": "Pseudo-random generators have reversible state steps", "statement": "The backward step of the scheduler's linear-congruential generator undoes its forward step and vice versa; each xor-shift style step is a bijection on the state and never maps a non-zero state to zero, so the generators never fall into a fixed point at zero.", "quantifier": "all generator states", "why_tests_cant": "2^48..2^64 states.", "anchors": ["libcfa/src/bits/random.hfa: LCGBI_fwd, LCGBI_bck, xorshift_6_21_7, xorshift_12_25_27, kiss_64, xorwow, lehmer64, splitmix"]}
{"id": "C10", "title": "Intrusive stack, queue and sequence are lists", "statement": "For every sequence of operations on the intrusive Stack, Queue and Sequence in which a node is added only when it is in no list, the contents read from the structure are those of the obvious list: stack LIFO, queue FIFO, sequence with insertion/removal at both ends and at any node; head, tail, successor, emptiness and membership answers agree with that list.", "quantifier": "all finite operation histories and numbers of nodes", "why_tests_cant": "Pointer invariants must hold for every history and every length.", "anchors": ["libcfa/src/bits/stack.hfa", "libcfa/src/bits/queue.hfa", "libcfa/src/bits/sequence.hfa", "libcfa/src/bits/collection.hfa"]}
{"id": "C11", "title": "dlist operations refine list operations", "statement": "For every sequence of insert first/last/before/after and remove operations respecting the membership preconditions, walking a dlist forwards gives exactly the abstract list and walking it backwards gives its reverse; removed nodes are unlisted and can be reinserted; nodes of other lists are unaffected.", "quantifier": "all histories over any number of lists and nodes", "why_tests_cant": "Unbounded lists and histories; tagged-pointer handling at the ends.", "anchors": ["libcfa/src/collections/list.hfa: insert_before, insert_after, insert_first, insert_last, remove, remove_first, remove_last, advance, recede"]}
{"id": "C12", "title": "dlist end-of-list predicates", "statement": "Asking whether a listed node is the first (last) of its list answers true exactly when no node precedes (follows) it.", "quantifier": "all lists and nodes", "why_tests_cant": "Needs the characterisation over every list shape.", "anchors": ["libcfa/src/collections/list.hfa: bool first( tE & ), bool last( tE & )"]}
{"id": "C13", "title": "Vector growth preserves contents", "statement": "For every sequence of push_back, pop_back, reserve and element writes, the vector's readable contents are those of the abstract sequence, its capacity is never below its size, and no access touches storage outside the allocated block.", "quantifier": "all finite histories and element values", "why_tests_cant": "Reallocation points depend on the history.", "anchors": ["libcfa/src/collections/vector.cfa", "libcfa/src/collections/vector.hfa"]}
{"id": "C14", "title": "Vector copy and clear touch only live elements", "statement": "Copying or clearing a vector reads and destroys exactly the elements at indices below its size and leaves the source contents unchanged.", "quantifier": "all vectors", "why_tests_cant": "An off-by-one read of uninitialised storage is silent in most tests.", "anchors": ["libcfa/src/collections/vector.cfa: clear, copy_internal"]}
{"id": "C15", "title": "Multi-dimensional array subscripts are in bounds and distinct", "statement": "Subscripting an n-dimensional array with in-range indices, in any order of dimensions, addresses an element inside the array and different index tuples address different elements; every element is addressed.", "quantifier": "all numbers of dimensions, all extents, all index tuples", "why_tests_cant": "Unbounded rank and extents.", "anchors": ["libcfa/src/collections/array.hfa: arpk, ?[?], NewPermuteType"]}
{"id": "C16", "title": "Mutable strings behave as independent values", "statement": "Each string variable reads back the text last given to it by the abstract value semantics (construct, copy, assign, append, share/substring edit) regardless of what other strings do and of when the shared character pool is compacted or grown.", "quantifier": "all histories of operations on any number of string variables, all compaction points", "why_tests_cant": "Corruption needs specific layouts of the pool at the time of compaction.", "anchors": ["libcfa/src/collections/string_res.cfa: VbyteAlloc, compaction, garbage, assign_, ?{}, AddThisAfter, DeleteNode"]}
{"id": "C17", "title": "String search answers", "statement": "Finding a needle from a start position returns the least matching position at or after the start, or the length when there is none; includes/prefix/suffix answer accordingly, for every needle including the empty one.", "quantifier": "all texts, needles and start positions", "why_tests_cant": "All string pairs.", "anchors": ["libcfa/src/collections/string_res.cfa: findFrom, includes, startsWith, endsWith"]}
{"id": "C18", "title": "Allocator picks the smallest sufficient bucket", "statement": "For every request below the large-object threshold the block size class chosen is the least configured class that can hold the request plus its header; the fast lookup table and the binary search agree for every size.", "quantifier": "all request sizes", "why_tests_cant": "2^64 sizes; table boundary cases.", "anchors": ["libcfa/src/heap.cfa: bucketSizes, lookup, Bsearchl, doMalloc"]}
{"id": "C19", "title": "Live allocations never overlap", "statement": "Under every sequence of allocate, aligned allocate, zeroed allocate, resize, reallocate and free, every live block lies inside storage obtained from the system, satisfies the requested alignment and size, is disjoint from every other live block and from allocator bookkeeping, and its contents are changed only by the program; reallocation preserves the common prefix and zero-fill allocations keep later growth zeroed.", "quantifier": "all finite histories of allocator calls, all sizes and alignments", "why_tests_cant": "Histories unbounded; overlap needs particular reuse orders.", "anchors": ["libcfa/src/heap.cfa: doMalloc, doFree, manager_extend, malloc, calloc, realloc, resize, memalign, free"]}
{"id": "C20", "title": "Allocation size arithmetic does not overflow", "statement": "An allocation request that is granted returns a block of at least the requested number of bytes (for array requests count times element size as an exact product).", "quantifier": "all 64-bit sizes and counts", "why_tests_cant": "Only requests near 2^64 fail; tests do not issue them.", "anchors": ["libcfa/src/heap.cfa: doMalloc, calloc, aalloc, reallocarray, memalign"]}
{"id": "C21", "title": "Pairs are ordered lexicographically", "statement": "When the component orders are total orders, the pair order is the lexicographic total order and its six comparison operators are mutually consistent; maybe/result accessors return what was stored and refuse the absent alternative.", "quantifier": "all component types and values", "why_tests_cant": "Parametric in the component orders.", "anchors": ["libcfa/src/collections/pair.cfa", "libcfa/src/collections/maybe.cfa", "libcfa/src/collections/result.cfa"]}
{"id": "C22", "title": "Channel delivers every element exactly once in FIFO order", "statement": "For every history of inserts and removes by any number of threads on a channel of any capacity (including zero), the sequence of completed removes is a prefix of the sequence of accepted inserts; elements are neither lost nor duplicated, and removals made by waiting consumers are served in arrival order.", "quantifier": "all interleavings of operations, capacities, numbers of threads", "why_tests_cant": "Schedules and capacities are unbounded; wrap-around of the ring index.", "anchors": ["libcfa/src/concurrency/channel.hfa: insert, remove, __buf_insert, __do_insert, __do_remove, __prods_handoff, __cons_handoff"]}
{"id": "C23", "title": "Channel blocking discipline", "statement": "At every point the buffer holds between 0 and capacity elements; a consumer is blocked only when nothing is available, a producer only when the channel is full, never both at once; every blocked thread is the one resumed by a later matching operation.", "quantifier": "all interleavings, capacities, numbers of threads", "why_tests_cant": "Needs the invariant for all reachable states.", "anchors": ["libcfa/src/concurrency/channel.hfa: insert, remove, handle_wait"]}
{"id": "C24", "title": "Closing a channel strands nobody", "statement": "After close no thread remains blocked on the channel, no later plain insert is accepted, and elements accepted before the close can still be removed in order until the buffer is empty.", "quantifier": "all histories with close at any point", "why_tests_cant": "All close points.", "anchors": ["libcfa/src/concurrency/channel.hfa: close, __closed_insert, __closed_remove, flush, is_closed"]}
{"id": "C25", "title": "Counting semaphore conserves permits and is FIFO", "statement": "In every history the number of completed acquisitions never exceeds the initial count plus the number of releases; a thread is blocked only when no permit is available; blocked threads are released in arrival order; try-acquire never blocks and succeeds iff a permit is free.", "quantifier": "all interleavings of P, try_P and V by any number of threads", "why_tests_cant": "All schedules.", "anchors": ["libcfa/src/concurrency/locks.hfa/locks.cfa: semaphore P, try_P, V"]}
{"id": "C26", "title": "Bulk release equals repeated release", "statement": "Releasing n permits at once has the same effect on the count and on the blocked threads as releasing one permit n times.", "quantifier": "all counts, n and queues", "why_tests_cant": "Depends on sign relations between count and n.", "anchors": ["libcfa/src/concurrency/locks.cfa: V( semaphore & this, unsigned diff )"]}
{"id": "C27", "title": "Owner/blocking locks give mutual exclusion with FIFO hand-off", "statement": "At most one thread holds the lock; a recursive lock is released to others only after as many releases as acquisitions; blocked threads obtain the lock in arrival order; the lock is never free while a thread is queued; waiting on a condition variable and being notified returns with the lock held at its previous recursion depth.", "quantifier": "all histories of lock, try_lock, unlock, wait, notify by any number of threads", "why_tests_cant": "All interleavings.", "anchors": ["libcfa/src/concurrency/locks.cfa: blocking_lock lock/try_lock/unlock/pop_node/on_notify/on_wait/on_wakeup"]}
{"id": "C28", "title": "Notified waiters always get to run again", "statement": "A thread notified on a condition variable that was waiting with a given lock re-acquires that lock and continues, even if nobody holds the lock at the time of the notification.", "quantifier": "all lock kinds usable with condition variables, all notification points", "why_tests_cant": "Requires the notifier not to hold the lock.", "anchors": ["libcfa/src/concurrency/locks.hfa: fast_block_lock on_notify, simple_owner_lock on_notify, block_spin_lock on_notify, exp_backoff_then_block_lock on_notify"]}
{"id": "C29", "title": "Futex-style locks: mutual exclusion and no lost wake-up", "statement": "Under every interleaving of the atomic steps of the futex mutexes, at most one thread is in the critical section, and whenever the lock is free and some thread sleeps a wake-up is pending or some other thread is on its way to take or release the lock.", "quantifier": "all interleavings, any number of threads", "why_tests_cant": "Exponential schedules; the failure is a hang.", "anchors": ["libcfa/src/concurrency/locks.hfa: futex_mutex, go_mutex, exp_backoff_then_block_lock"]}
{"id": "C30", "title": "Queue and ticket spin locks are mutually exclusive and FIFO", "statement": "Under every interleaving, at most one thread is inside; threads enter in the order of their arrival at the queue tail; when the holder leaves and someone is queued the next one becomes able to enter; node objects may be reused for later acquisitions.", "quantifier": "all interleavings, any number of threads and acquisitions", "why_tests_cant": "All schedules.", "anchors": ["libcfa/src/concurrency/locks.hfa: mcs_spin_lock, mcs_lock, spin_queue_lock", "libcfa/src/collections/lockfree.hfa: mcs_queue"]}
{"id": "C31", "title": "Single-waiter semaphores and one-shots lose no signal", "statement": "For every interleaving of one waiter and any number of posters, the waiter continues after the post, is unparked exactly once per wait that parked, and is never left parked after the post; a one-shot stays satisfied.", "quantifier": "all interleavings", "why_tests_cant": "Races between park and unpark.", "anchors": ["libcfa/src/concurrency/kernel/fwd.hfa: single_sem, oneshot"]}
{"id": "C32", "title": "Kernel futures: woken once, freed once", "statement": "For every interleaving of set-up, retract/abandon and fulfil on a kernel future, the registered waiter is posted exactly once if and only if it has not successfully retracted, and the future's storage is released exactly once by exactly one side when it was abandoned.", "quantifier": "all interleavings of the atomic steps", "why_tests_cant": "Races.", "anchors": ["libcfa/src/concurrency/kernel/fwd.hfa: future_t setup, retract, abandon, fulfil, available"]}
{"id": "C33", "title": "Waiting for any of several futures leaves no dangling registration", "statement": "When waiting for any of several futures returns, none of the futures still refers to the finished waiter.", "quantifier": "all arrays of futures and all fulfilment points", "why_tests_cant": "Dangling reference is only used by a later fulfil.", "anchors": ["libcfa/src/concurrency/kernel/fwd.hfa: wait_any"]}
{"id": "C34", "title": "call_once runs the function exactly once", "statement": "For every interleaving of any number of callers, the function is executed exactly once, no caller returns before that execution is complete, and no caller stays parked once it is complete.", "quantifier": "all interleavings and numbers of callers", "why_tests_cant": "All schedules.", "anchors": ["libcfa/src/concurrency/once.hfa: call_once", "libcfa/src/collections/lockfree.hfa: poison_list"]}
{"id": "C35", "title": "Barrier releases whole groups", "statement": "Of every N consecutive arrivals at a barrier for N participants, none is released before the N-th arrives, all are then released, the arrival numbers returned are a permutation of 0..N-1 in arrival order, and the barrier is immediately reusable.", "quantifier": "all N, all arrival orders, any number of rounds", "why_tests_cant": "Unbounded rounds and group sizes.", "anchors": ["libcfa/src/concurrency/barrier.hfa: block, barrier"]}
{"id": "C36", "title": "Alarms fire in deadline order", "statement": "The pending-alarm list is always in ascending deadline order with equal deadlines in registration order; expiring removes exactly the alarms whose deadline has passed, in that order; cancelled alarms do not fire and periodic alarms are re-armed.", "quantifier": "all histories of register, unregister and tick", "why_tests_cant": "All histories.", "anchors": ["libcfa/src/concurrency/alarm.cfa: insert, pop, append, register_self, unregister_self", "libcfa/src/concurrency/preemption.cfa: tick_preemption"]}
{"id": "C37", "title": "Ready queue loses and duplicates no thread", "statement": "Every thread pushed on the ready queue is popped exactly once; within one sub-queue threads leave in arrival order; a sub-queue reports empty iff it holds no thread; resizing the number of sub-queues keeps every queued thread.", "quantifier": "all histories of push, pop, grow and shrink", "why_tests_cant": "All histories.", "anchors": ["libcfa/src/concurrency/ready_subqueue.hfa", "libcfa/src/concurrency/kernel/cluster.cfa: ready_queue_grow, ready_queue_shrink, push, pop"]}
{"id": "C38", "title": "Monitors: mutual exclusion, recursion and FIFO entry", "statement": "At most one thread is inside a monitor; a thread may re-enter monitors it owns and the monitor is released only when it has left as often as it entered; entering threads that must wait are admitted in arrival order, after any signalled threads.", "quantifier": "all histories of enter and leave by any number of threads on any number of monitors", "why_tests_cant": "All interleavings.", "anchors": ["libcfa/src/concurrency/monitor.cfa: __enter, __leave, next_thread, __set_owner"]}
{"id": "C39", "title": "Ordered bulk acquisition cannot deadlock", "statement": "Threads that acquire sets of monitors in the library's sorted order, hold them and release them all, can never reach a state in which every unfinished thread is blocked.", "quantifier": "all sets of monitors per thread, all interleavings", "why_tests_cant": "All interleavings and monitor sets.", "anchors": ["libcfa/src/concurrency/monitor.cfa: monitor_guard_t, enter", "libcfa/src/bits/algorithm.hfa: __libcfa_small_sort"]}
{"id": "C40", "title": "waitfor admits only accepted calls", "statement": "While a thread is waiting in waitfor for a given set of calls, the only calls admitted to the waited monitors are calls of an accepted function with the accepted monitor set.", "quantifier": "all monitor groups, masks and calls", "why_tests_cant": "Only multi-monitor calls on the second monitor expose it.", "anchors": ["libcfa/src/concurrency/monitor.cfa: is_accepted, __enter, __waitfor_internal"]}
{"id": "C41", "title": "Non-zero indicator is accurate", "statement": "Whenever no operation is in progress the indicator's query answers true iff the number of completed arrivals exceeds the number of completed departures, and it never answers false while an arrival has completed without a matching departure having started.", "quantifier": "all interleavings of arrive, depart and query over any tree", "why_tests_cant": "Helping and versioning races.", "anchors": ["libcfa/src/concurrency/snzi.hfa: arrive, depart, query"]}
{"id": "C42", "title": "A waituntil over alternatives has exactly one winner", "statement": "When several events race to satisfy an exclusive waituntil, exactly one clause wins, the losers' resources are not consumed, and the waiting thread is always resumed after a winner exists.", "quantifier": "all numbers of clauses and all interleavings", "why_tests_cant": "Races between wakers and the waiter's own polling.", "anchors": ["libcfa/src/concurrency/select.hfa: __make_select_node_available, __mark_select_node, __handle_waituntil_OR, __CFA_maybe_park", "libcfa/src/concurrency/select.cfa"]}
{"id": "C43", "title": "Lock-free stack is a stack despite reuse of nodes", "statement": "Under every interleaving of pushes and pops, with nodes reused arbitrarily, every completed pop returns the element on top of the abstract stack at some moment during the call, and no element is lost or returned twice (as long as the version counter does not wrap during a call).", "quantifier": "all interleavings and numbers of threads", "why_tests_cant": "The ABA problem appears only in rare schedules.", "anchors": ["libcfa/src/collections/lockfree.hfa: StackLF push, pop"]}
{"id": "C44", "title": "Multi-producer queue is FIFO", "statement": "Under every interleaving of producers and the single consumer, every pushed element is popped exactly once, in the order of the producers' tail exchanges.", "quantifier": "all interleavings", "why_tests_cant": "Races between tail exchange and linking.", "anchors": ["libcfa/src/collections/lockfree.hfa: mpsc_queue, mcs_queue"]}
{"id": "C45", "title": "Reference-counted futures are freed exactly once", "statement": "For every history of copies, assignments (including self-assignment) and destructions of handles, the shared state is destroyed exactly once, precisely when the last handle goes away; getting a fulfilled future returns the fulfilled value.", "quantifier": "all histories of handles", "why_tests_cant": "All histories.", "anchors": ["libcfa/src/concurrency/future.hfa: future_rc ?{}, ?=?, ^?{}, single_future, future get, fulfil, reset"]}
{"id": "C46", "title": "Futures that deliver exceptions keep their lock consistent", "statement": "A get on a future fulfilled with an exception raises it and leaves the future's internal lock as an unlocked lock that was released exactly as often as it was acquired; a try_get on such a future does not report an uninitialised value.", "quantifier": "all interleavings of get, try_get, fulfil with exception", "why_tests_cant": "Needs exceptions to race with waiters.", "anchors": ["libcfa/src/concurrency/future.hfa: get, get$, exceptCheck, try_get, fulfil"]}
{"id": "C47", "title": "Resolution cost order is total and additive", "statement": "Costs of candidate interpretations are compared lexicographically by component in the documented priority, the comparison is a total order with infinity as greatest element, and adding costs adds components (specialisation cost subtracting), is commutative, associative, has zero as unit and preserves strict order, as long as no component leaves its documented range.", "quantifier": "all cost values within component range", "why_tests_cant": "Packed 8x8-bit arithmetic: 2^128 pairs.", "anchors": ["src/ResolvExpr/Cost.hpp: Cost, operator+, operator<, compare, inc*"]}
{"id": "C48", "title": "Three-way cost comparison agrees with equality", "statement": "The three-way comparison of two costs returns zero exactly when they are equal, a negative number exactly when the first is smaller and is antisymmetric, and each named unit cost increases exactly its own component.", "quantifier": "all cost values including infinity", "why_tests_cant": "Infinity compared with itself is never tested.", "anchors": ["src/ResolvExpr/Cost.hpp: compare, implicit, infinity"]}
{"id": "C49", "title": "Scoped maps obey lexical scoping", "statement": "For every sequence of begin-scope, end-scope, insert, erase and find, a lookup returns the binding of the innermost scope that binds the key, inner insertions never change outer scopes, and ending a scope restores exactly the bindings visible before it began; iterating visits every stored binding once from the innermost scope outward.", "quantifier": "all histories of scope operations, all keys", "why_tests_cant": "Nesting depth and histories unbounded.", "anchors": ["src/Common/ScopedMap.hpp", "src/GenPoly/ScopedSet.hpp"]}
{"id": "C50", "title": "Erasable scoped maps: erase hides, insert shows", "statement": "After erasing a key it is not found until it is inserted again or the scope ends; after inserting a binding that was reported absent, lookup finds it; ending the scope restores the outer view; iteration visits only visible bindings.", "quantifier": "all histories of scope operations", "why_tests_cant": "Interaction of erase and insert in one scope.", "anchors": ["src/GenPoly/ErasableScopedMap.hpp"]}
{"id": "C51", "title": "Persistent maps never change", "statement": "Each version of the resolver's persistent map always answers find, count and size as the version it was when created, whatever other versions are created from it or read in between.", "quantifier": "all trees of versions, all orders of access", "why_tests_cant": "Rerooting rewrites nodes on every access; all access orders.", "anchors": ["src/Common/PersistentMap.hpp: reroot, set, erase, find, get"]}
{"id": "C52", "title": "Combination filter enumerates exactly the valid combinations", "statement": "Combining lists of alternatives returns, in lexicographic order and without duplicates, exactly those combinations every prefix of which is accepted by the supplied prefix-checker, and hands the checker matched append/backtrack calls.", "quantifier": "all lists of non-empty alternative lists and all prefix checkers", "why_tests_cant": "All sizes and checkers.", "anchors": ["src/Common/FilterCombos.hpp: filterCombos, IntoVectorComboIter"]}
{"id": "C53", "title": "Name mangling distinguishes overloads", "statement": "Two declarations with the same mangled name have the same source name and types that are equal up to the documented identifications (parameter qualifiers, references, function versus function pointer, array length, names of type variables).", "quantifier": "all names and types", "why_tests_cant": "Unbounded type expressions; collisions need nested types.", "anchors": ["src/SymTab/Mangler.cpp", "src/SymTab/ManglerCommon.cpp"]}
{"id": "C54", "title": "Demangling inverts mangling", "statement": "Demangling the mangled form of a declaration whose type uses the supported constructors recovers its name and its type.", "quantifier": "all names and types", "why_tests_cant": "Nested function types only.", "anchors": ["src/SymTab/Demangle.cpp: parseFunction, parseType, extractName, stripMangleName"]}
{"id": "C55", "title": "Unification yields a consistent, acyclic environment", "statement": "When unification of two types succeeds, the resulting type environment makes them equal, keeps each type variable in at most one class, contains no cyclic binding, and extends the previous environment; when types without a common instance are given it fails.", "quantifier": "all type terms and environments reachable by unification", "why_tests_cant": "Unbounded terms.", "anchors": ["src/ResolvExpr/Unify.cpp", "src/AST/TypeEnvironment.cpp: bindVar, bindVarToVar, mergeClasses, occurs"]}
{"id": "C56", "title": "Combining type environments respects both", "statement": "If combining two type environments succeeds, the result satisfies every equation of both and every variable belongs to one class.", "quantifier": "all pairs of environments", "why_tests_cant": "Depends on order of classes and of hash sets.", "anchors": ["src/AST/TypeEnvironment.cpp: combine, mergeBound, mergeClasses"]}
{"id": "C57", "title": "Type substitution lookup terminates with the final binding", "statement": "Looking up a type variable in a substitution terminates and returns the end of its chain of variable-to-variable bindings.", "quantifier": "all substitutions", "why_tests_cant": "Cycles not through the start variable.", "anchors": ["src/AST/TypeSubstitution.cpp: lookup, apply, normalize"]}
{"id": "C58", "title": "Constant evaluation is sound", "statement": "When the compiler reports a known integer value for a constant expression, that is the value the C expression has.", "quantifier": "all constant expressions", "why_tests_cant": "Unbounded expressions; division by zero, casts and overflow.", "anchors": ["src/Common/Eval.cpp: eval, EvalNew"]}
{"id": "C59", "title": "Shared AST nodes are freed exactly once", "statement": "For every history of creating, copying, assigning and dropping strong and weak node pointers, a node is deleted exactly once, exactly when its last reference of either kind disappears, and a mutation of a node reachable from another strong reference is performed on a fresh copy.", "quantifier": "all histories of pointer operations", "why_tests_cant": "All histories.", "anchors": ["src/AST/Node.hpp: ptr_base, increment, decrement, mutate", "src/AST/Node.cpp"]}
{"id": "C60", "title": "Printed durations and dates read back as the value printed", "statement": "Printing a duration produces decimal text (optional minus sign, seconds, optional point and fraction without trailing zeros) that, read as a decimal number of seconds, is exactly the duration; and the two-digit year in the short date formats is the calendar year modulo 100.", "quantifier": "every 64-bit duration; every year", "why_tests_cant": "Sign, carry and trailing-zero corner cases are spread over 2^64 values; the failing ones (between -1s and 0) are not in the test expectations.", "anchors": ["libcfa/src/time.cfa nanomsd, ?|?(ostype&, Duration), yy_mm_dd, mm_dd_yy, dd_mm_yy"]}
{"id": "C61", "title": "Integer exponentiation is exact whenever the result is representable", "statement": "x \\ y for the built-in integer types returns exactly x to the power y, with no overflow in the intermediate products, whenever that power is representable in the type; the polymorphic version returns the product of y copies of x for any associative multiplication with a unit.", "quantifier": "every base, every exponent, every integer width; every monoid", "why_tests_cant": "Overflow of intermediate squarings and the special-cased bases and exponents depend on the whole input range.", "anchors": ["libcfa/src/math.cfa __CFA_EXP__", "libcfa/src/math.cfa ?\\?"]}
{"id": "C62", "title": "The fixed-point base-2 logarithm is defined and has the right integer part", "statement": "For every positive 64-bit value the 32.32 fixed-point logarithm is computed without undefined behaviour, its table accesses are in bounds, and its integer part is the floor of the logarithm.", "quantifier": "every positive 64-bit value", "why_tests_cant": "2^64 inputs; the undefined shift happens for a single value.", "anchors": ["libcfa/src/math.cfa log2_u32_32"]}
{"id": "C63", "title": "OR waituntil on channels", "statement": "A waituntil statement whose clauses are or-ed completes at most one of them; using waituntil does not change the first-in first-out order of a channel; and registering the clauses always terminates.", "quantifier": "all histories of plain channel operations, waituntil registrations, unregistrations and wins elsewhere", "why_tests_cant": "Needs particular races between registration, close, flush and other clauses", "anchors": ["libcfa/src/concurrency/channel.hfa: register_select$, unregister_chan, __handle_pending, flush", "libcfa/src/concurrency/select.hfa: __handle_waituntil_OR, __pending_set_other, __make_select_node_available"]}
{"id": "C64", "title": "Parking never loses a wake-up and a thread is never scheduled twice", "statement": "Whichever of park and unpark comes first, a thread that has been unparked as often as it parked is running or becomes runnable; a thread parked once more than unparked does not run; it is on at most one ready queue and never run by two processors; unpark aborts exactly when it would be a second unpark ahead of a park or the thread has terminated.", "quantifier": "all interleavings of the atomic ticket operations with yields, preemption and termination", "why_tests_cant": "Races between the wake-up and the context switch away.", "anchors": ["libcfa/src/concurrency/kernel.cfa: __run_thread, __must_unpark, unpark, park, force_yield, __cfactx_thrd_leave", "libcfa/src/concurrency/kernel/private.hfa: TICKET_*"]}
{"id": "C65", "title": "call_once leaves the calling thread fit for other queues", "statement": "When call_once returns, the calling thread's intrusive link field is null as it was before the call, which the runtime's queues require of a thread put on them.", "quantifier": "all interleavings of callers", "why_tests_cant": "The stale link is only used by a later queue operation of the same thread.", "anchors": ["libcfa/src/concurrency/once.hfa: call_once, once_wait$", "libcfa/src/collections/lockfree.hfa: poison_list push"]}
{"id": "C66", "title": "A thread in waitfor resumes once the call it accepted is over", "statement": "After an accepted call has returned, and everything it left behind has drained, the thread blocked in the waitfor statement is running again and holds its monitors; no monitor stays owned by a thread that is in no mutex call.", "quantifier": "all interleavings of any number of threads, monitors, mutex calls and waitfor clauses", "why_tests_cant": "The failing cases need clauses that name different sets of monitors together with particular arrival orders; the suite's waitfor tests use one monitor or the same set in every clause.", "anchors": ["libcfa/src/concurrency/monitor.cfa:589-710", "libcfa/src/concurrency/monitor.cfa:725-736", "libcfa/src/concurrency/monitor.cfa:774-794", "libcfa/src/concurrency/monitor.cfa:872-891"]}
{"id": "C67", "title": "Runtime collections behave as lists", "statement": "For every history of operations on the runtime's internal queues (append, peek, pop_head, removal through a link found by walking), stacks and doubly linked lists, each operation passes its internal checks and returns what plain lists would, the links walked from a head give exactly the list, and a node in no list has null links.", "quantifier": "all finite histories over any number of lists and nodes", "why_tests_cant": "The tail pointer and the sentinel are only exercised by particular orders of removal.", "anchors": ["libcfa/src/bits/collections.hfa: __stack, __queue, __dllist", "libcfa/src/concurrency/monitor.cfa: search_entry_queue"]}
{"id": "C68", "title": "Allocation queries report the request", "statement": "For every live block, malloc_size, malloc_alignment and malloc_zero_fill return the size, alignment and zero-fill property of the call that created or last resized it, and malloc_usable_size is at least the size and covers only bytes no other block and no header uses.", "quantifier": "all finite histories of allocator calls, all live blocks", "why_tests_cant": "The header is reused for free-list links and for alignment headers; wrong answers need particular histories.", "anchors": ["libcfa/src/heap.cfa: malloc_size, malloc_alignment, malloc_zero_fill, malloc_usable_size, headers"]}
{"id": "C69", "title": "min, max, clamp and swap select correctly", "statement": "min and max of any number of arguments return one of the arguments that no argument is below (above); of two arguments one is the minimum and the other the maximum even if they are equivalent; clamp returns a value within the bounds and its argument when that lies between them; abs is the absolute value; swap exchanges exactly two objects.", "quantifier": "all element types with a strict weak order, all argument lists", "why_tests_cant": "Polymorphic and variadic.", "anchors": ["libcfa/src/common.hfa: min, max, clamp, abs, swap"]}
{"id": "C70", "title": "String comparison is the dictionary order", "statement": "For every two strings strcmp and the six comparison operators agree with the dictionary order on unsigned characters, including a string and its own extension; strncmp compares exactly the first n characters, aborting if either string is shorter.", "quantifier": "all pairs of strings, all n", "why_tests_cant": "All pairs of strings, including those longer than any test would allocate.", "anchors": ["libcfa/src/collections/string_res.cfa: strcmp$ 782-786", "libcfa/src/collections/string_res.hfa 199-221", "libcfa/src/collections/string.cfa: strncmp 379-400"]}
{"id": "C71", "title": "Slicing, spanning and replacing in strings", "statement": "A slice covers exactly the positions it names, negative starts counting from the end and negative lengths extending leftwards; include/exclude return the longest prefix inside/outside a set; replace substitutes every leftmost non-overlapping occurrence and terminates.", "quantifier": "all strings, positions, lengths, sets and replacements", "why_tests_cant": "All strings and all signed positions.", "anchors": ["libcfa/src/collections/string.cfa: ?() 245-258, include/exclude 508-530, replace 532-543", "libcfa/src/collections/string_res.cfa 949-970"]}
{"id": "C72", "title": "Scheduler lock: one writer or many readers", "statement": "While a thread is in the write section of the scheduler lock no other thread is in a read or write section; ids of registered threads differ; the lock touches only memory of threads that exist; some waiting thread can always go on; and when nobody uses the lock it is free.", "quantifier": "all executions of any number of threads registering, reading, writing, unregistering and exiting", "why_tests_cant": "The races are between single instructions of several processors.", "anchors": ["libcfa/src/concurrency/kernel/private.hfa: ready_schedule_lock, ready_schedule_unlock", "libcfa/src/concurrency/kernel/cluster.cfa: register_proc_id, unregister_proc_id, ready_mutate_lock, ready_mutate_unlock"]}
{"id": "C74", "title": "False when conditions make waituntil clauses disappear", "statement": "A waituntil statement some of whose clauses have a false when condition completes exactly when the clauses that have run complete the statement with those clauses removed; if no clause is left it completes at once; the statement is compiled as an exclusive choice only if its clauses are joined by \"or\" only.", "quantifier": "all trees of clauses joined by \"and\" and \"or\", all assignments of when conditions, all sets of clauses that have run", "why_tests_cant": "Exponentially many combinations of tree shape and conditions.", "anchors": ["src/Concurrency/Waituntil.cpp: paintWhenTree, updateAmbiguousWhen, collectWhens, genSubtreeAssign, genStatusAssign, genWhenStateConditions, genPredExpr", "src/AST/Stmt.hpp: WaitUntilStmt::ClauseNode"]}
{"id": "C73", "title": "General waituntil: no lost wakeup, each clause run at most once", "statement": "In a waituntil that is not a plain disjunction (a status word per clause and a park counter), the thread sleeps only while the clauses satisfied so far do not complete the statement, and every clause satisfied by then has been run; it is unparked exactly once for each time it parks; each clause is run at most once; the statement ends only if the clauses that ran complete it (or through its else clause); a channel operation that took place on the statement's behalf is always followed by running its clause; when the statement has ended, no thread is still using its nodes or counter.", "quantifier": "For every number of clauses, every predicate, every choice of enabled clauses and kinds of resource, every interleaving of the waiter with the threads satisfying the clauses", "why_tests_cant": "The counter and the statuses are updated by different threads at different moments; the harmful orders are a few instructions wide", "anchors": ["src/Concurrency/Waituntil.cpp:582-868", "src/Concurrency/Waituntil.cpp:1206-1400", "libcfa/src/concurrency/select.hfa:33-37,154-199", "libcfa/src/concurrency/future.hfa:57-86,174-189", "libcfa/src/concurrency/channel.hfa:371-383"]}
{"id": "C75", "title": "An integer literal is taken for the number written", "statement": "For every integer literal the lexer accepts, the constant the parser builds carries the number that the digits denote in their radix, and the text handed to the C compiler is a literal of the same number; literals too large for their type are rejected.", "quantifier": "all literals: every radix, digit string, prefix spelling and integer suffix (imaginary suffixes aside)", "why_tests_cant": "The faults depend on the number of digits, on the suffix kept and on the lower 64 bits being zero; tests print literals through the C compiler, which re-reads the text and hides a wrong value inside the translator.", "anchors": ["src/Parser/ExpressionNode.cpp:116-125 scanbin", "src/Parser/ExpressionNode.cpp:127-326 build_constantInteger", "src/Parser/lex.ll:106-128"]}
{"id": "C76", "title": "An integer literal has the type C gives it", "statement": "An integer literal with a C suffix other than the plain 0 and 1 gets the first type of the C11 list (6.4.4.1) that can hold its number, the same type the C compiler gives to the text handed to it; the literals 0 and 1 get zero_t and one_t; a Cforall length suffix gives the type it names.", "quantifier": "all literals: every radix, digit string and integer suffix (imaginary suffixes aside)", "why_tests_cant": "The type depends on boundaries of the value, radix, and the order of u and l; only overload resolution on the literal reveals it.", "anchors": ["src/Parser/ExpressionNode.cpp:64-114 lnthSuffix, valueToType", "src/Parser/ExpressionNode.cpp:127-326 build_constantInteger"]}
{"id": "C77", "title": "Thread-specific data is a map from thread and key to the last value set, and each owed destructor call happens once", "statement": "For all sequences of pthread_key_create, pthread_key_delete, pthread_setspecific and pthread_getspecific by any threads, interleaved in any way with the ends of threads, each answer is that of a map from (thread, key) to the value that thread last stored since the key was created: a new key reads NULL everywhere, other threads and keys never interfere, invalid keys give EINVAL or NULL, EAGAIN only when every key is taken; when a thread ends, each of its non-NULL values of a living key with a destructor is passed to that destructor exactly once, by that thread, before the thread is gone.", "quantifier": "all numbers of keys, all threads, all values and destructors, all interleavings of the operations with the destructor passes of ended threads", "why_tests_cant": "Slots of deleted keys are re-used across threads and the destructor pass drops its lock in the middle; tests reach a handful of the orders in which threads delete keys, end and set values.", "anchors": ["libcfa/src/concurrency/pthread.cfa:31-62", "libcfa/src/concurrency/pthread.cfa:203-240", "libcfa/src/concurrency/pthread.cfa:513-598"]}
{"id": "C78", "title": "A pthread mutex excludes, reports EPERM and EBUSY rightly, and trylock does not block", "statement": "For all numbers of threads and all interleavings of pthread_mutex_lock, trylock, unlock and destroy on one mutex, initialised by pthread_mutex_init or PTHREAD_MUTEX_INITIALIZER: at most one thread holds the mutex; unlock returns EPERM exactly to threads that do not hold it; trylock returns EBUSY exactly when another thread holds it and never blocks; destroy returns EBUSY exactly when it is held; while a thread waits some thread holds the mutex, and the last unlock hands it to a waiting thread.", "quantifier": "all threads, all nestings of locks, all interleavings of the calls, both kinds of initialisation", "why_tests_cant": "The failures need a second thread between two instructions of the lazy initialisation, or a trylock before the first lock of a statically initialised mutex.", "anchors": ["libcfa/src/concurrency/pthread.cfa:102-119", "libcfa/src/concurrency/pthread.cfa:412-455", "libcfa/src/concurrency/locks.hfa:510-576"]}
{"id": "C79", "title": "pthread condition variables: waits give the mutex back, signals wake exactly one waiter", "statement": "pthread_cond_wait releases the mutex while waiting and returns with it held as often as before; mutual exclusion is kept throughout; pthread_cond_signal wakes exactly the longest-waiting thread (or nobody if there is none), pthread_cond_broadcast all; both return 0, also when called without the mutex; pthread_cond_timedwait times out at the given absolute time and then returns ETIMEDOUT; a statically initialised condition works.", "quantifier": "All numbers of threads, all interleavings of lock, unlock, wait, timed wait, signal, broadcast, alarms and passing time, all deadlines and recursion depths.", "why_tests_cant": "A wait crosses three critical sections in two modules; which interleaving a test sees depends on the machine, and wrong deadlines show only as spurious wake-ups, which POSIX allows callers to ignore.", "anchors": ["libcfa/src/concurrency/pthread.cfa:460-494", "libcfa/src/concurrency/locks.cfa:286-316", "libcfa/src/concurrency/locks.cfa:494-583", "libcfa/src/concurrency/locks.hfa:510-611"]}
{"id": "C80", "title": "pthread_once runs each init routine exactly once, before any call returns", "statement": "For each once_control the init routine is entered at most once, and any pthread_once on it returns only after that init routine has returned; null arguments give EINVAL; a waiting thread is always waiting for one that can go on; calls on different controls do not affect each other.", "quantifier": "All numbers of threads and controls, all interleavings, all nestings of pthread_once in init routines.", "why_tests_cant": "Exactly-once is a statement about every interleaving of the first calls; tests see a few, and the coupling of unrelated controls through one lock shows only as a deadlock in programs whose init routines wait for each other.", "anchors": ["libcfa/src/concurrency/pthread.cfa:500-511", "libcfa/src/concurrency/pthread.cfa:27", "libcfa/src/concurrency/locks.hfa:533-576"]}
{"id": "C81", "title": "counter_ptr: an object lives exactly as long as a pointer to it", "statement": "After any sequence of constructions, copies, assignments and destructions of counter_ptrs, including counter_ptrs inside the objects pointed to, each object's counter is the number of pointers to it; an object is destroyed exactly when the last pointer to it goes, once; no pointer dangles; an assignment gives the target the source's value and changes no other pointer; with all variables gone nothing is left unless there are cycles.", "quantifier": "All programs over any number of variables, objects and fields, all shapes of the object graph, with fewer than 2^32 - 2 pointers and touching only pointers reachable from variables.", "why_tests_cant": "The interesting cases (the source of an assignment lies in an object the assignment destroys, cascades of destructors, graphs with sharing) depend on the shape of the object graph; tests contain a handful of straight-line uses.", "anchors": ["libcfa/src/memory.cfa:21-116", "libcfa/src/memory.hfa:17-66", "libcfa/src/stdlib.hfa:316-322", "src/InitTweak/FixInit.cpp:397-433"]}
{"id": "C82", "title": "unique_ptr: every object has exactly one owner", "statement": "After any sequence of constructions, moves, releases, assignments of zero and destructions of unique_ptrs, including unique_ptrs inside the objects owned, every allocated object has exactly one pointer to it and no pointer dangles; move(p, q) gives p what q owned, makes q null, destroys only what p owned and changes no other pointer; release gives up the object without destroying it; each object is destroyed at most once; with all variables gone nothing is left unless an object owns itself.", "quantifier": "All programs over any number of variables, objects and fields, all shapes of the ownership forest, touching only pointers reachable from variables; for move(p, q), q not inside what p owns.", "why_tests_cant": "Whether a move is safe depends on where the two pointers lie in the ownership forest, and destructors cascade through structures of any depth; tests move between two local variables.", "anchors": ["libcfa/src/memory.cfa:118-184", "libcfa/src/memory.hfa:68-106", "libcfa/src/stdlib.hfa:316-322"]}
{"id": "C83", "title": "128-bit integers are printed in decimal and read back", "statement": "Printing any unsigned 128-bit integer, and any signed one except the least, with `sout | v` writes its decimal text: no leading zeros, a minus sign if negative, all digits in order across the 19-digit chunks; that text is unique; reading the text with `sin | v`, after blanks and before anything that is not a digit, stores the same value and leaves the rest of the input.", "quantifier": "for all values of int128 and unsigned int128, all previous contents of the variable, all numbers of blanks and all following input", "why_tests_cant": "There are 2^128 values; the chunk boundaries at multiples of 10^19 and the 64-bit boundary interact, and tests print a handful of values.", "anchors": ["libcfa/src/iostream.cfa:132-161", "libcfa/src/iostream.cfa:892-912"]}
{"id": "C84", "title": "128-bit integers are printed as the manipulators ask", "statement": "Printing a 128-bit integer in base 2, 8, 10 or 16 with a width, a precision and the flags for left adjustment, sign, zero padding and no prefix writes exactly one field: the separator that is due, then sign, prefix and all digits of the number with at least as many digits as the precision, padded on the proper side with the proper character to the width; afterwards the stream's separator state is as after any other item.", "quantifier": "for all values, widths, precisions, flags and stream states within the conditions of Spec.good", "why_tests_cant": "The number is printed in one to three chunks by three calls of printf, whose widths, precisions, flags and separators must fit together for every combination of value and format.", "anchors": ["libcfa/src/iostream.cfa:396-482", "libcfa/src/iostream.cfa:501-563", "libcfa/src/iostream.cfa:565-586"]}
{"id": "C85", "title": "The actors' message queues are first in, first out, and stay within their buffers", "statement": "A copy queue into which requests are inserted, and which is emptied before the next insertion, gives the requests out in the order they were put in, never reads or writes outside its buffer and never reads an entry that was not written, however it grows and is shrunk between; its buffer is at most twice the largest number of requests ever in it or its first size; and the work queues are divided among the workers without overlap or remainder, the thief computing the same parts as the constructor.", "quantifier": "for all initial sizes of at least 1, all sequences of insertions, removals, reclamations and transfers that keep the discipline stated in the code, and all numbers of workers and queues", "why_tests_cant": "Growth by doubling, shrinking by one and the index that is reset when the queue becomes empty interact over long histories; tests with the default buffer size rarely resize.", "anchors": ["libcfa/src/concurrency/actor.hfa:77-126", "libcfa/src/concurrency/actor.hfa:320-330", "libcfa/src/concurrency/actor.hfa:519-528"]}
{"id": "C86", "title": "The actor executor delivers every message once, in order, one at a time per actor, also when queues are stolen", "statement": "Messages sent to an actor are received in the order in which they were put in its queue, none twice and none skipped; no message is lost: every one is received or still in a queue; an actor never receives two messages at the same time; when nothing is queued and nobody receives, everything sent has been received; workers that steal queues from each other at the same time neither lose nor duplicate a queue, never dereference the null left in the array while swapping, and never fail the assertion; no worker ever has to wait for another, and none ends before shutdown.", "quantifier": "for all numbers of workers and queues, all actors and messages, all interleavings of senders, workers and thieves, all random choices of victims, and all stale values of the flags read without a lock", "why_tests_cant": "The swap of two array entries by two compare-and-exchanges, the flag being_processed and the exchange of copy queues must be right in every interleaving of several workers; tests sample few.", "anchors": ["libcfa/src/concurrency/actor.hfa:128-190", "libcfa/src/concurrency/actor.hfa:481-584", "libcfa/src/concurrency/actor.hfa:587-670"]}
{"id": "C87", "title": "The actor system stops exactly when all actors have terminated", "statement": "The count of actors is always the number of live ones; if the executor thread creates actors only while one is live (or none was created yet), then actor_stop returns only after all actors have terminated and no worker will touch the executor thread again, it does return once they have, wherever the executor thread is when the last one terminates, and parking and unparking always match, over any number of sessions.", "quantifier": "for all numbers of actors, all interleavings of the executor thread and the workers, and any sequence of sessions", "why_tests_cant": "The last actor may terminate before, during or after the executor thread parks, and actors may create others; a lost wakeup or an early one shows in few schedules only.", "anchors": ["libcfa/src/concurrency/actor.hfa:400-440", "libcfa/src/concurrency/actor.hfa:679-709", "libcfa/src/concurrency/kernel.cfa:525-564"]}
{"id": "C88", "title": "The vector with iterators is a sequence, and its iterators stay with their elements", "statement": "A vector behaves as a sequence under push_last, insert_before, indexing, length and capacity; a permit iterator keeps seeing its element when others are inserted before it or the buffer is moved; an exit iterator forbids changes while it lives; iterating from the origin visits every element once, in order; no memory outside the buffer and no unwritten element is used.", "quantifier": "for all capacities of at least 1, all element types and all sequences of operations within the contract of Spec.spec", "why_tests_cant": "The wrap-around of the end pointer when the buffer is full, growth and the shifting of live iterators interact; the demo program exercises one history.", "anchors": ["libcfa/src/collections/vector2.hfa:120-358"]}
{"id": "C89", "title": "The tables of conversions between basic types are those of the conversion graph", "statement": "The program that generates the tables finds, for every conversion graph and whatever order equal elements of its queue come out in, the path with the least length and then the fewest sign changes, and ends; the tables in the compiler are its output; safe conversion between the basic types is a partial order in which going through a third type is never cheaper; the common type of two or more types is the least type all of them convert to safely, the cheapest in total, and does not depend on order or grouping; the costs handed to the resolver never overflow and order every safe conversion before every unsafe one. The generator reads only inside its arrays.", "quantifier": "for all conversion graphs with up to three children per node, all orders of equal queue elements, all basic types, all lists of operands", "why_tests_cant": "The tables have 36 x 36 entries each, and the algorithm is checked for all graphs; tests compile a few expressions", "anchors": ["src/BasicTypes-gen.cpp:56-224", "src/BasicTypes-gen.cpp:254-271", "src/BasicTypes-gen.cpp:347-360", "src/ResolvExpr/ConversionCost.cpp:73-159", "src/ResolvExpr/ConversionCost.cpp:311-320", "src/ResolvExpr/ConversionCost.cpp:463-510", "src/ResolvExpr/CommonType.cpp:43-339"]}
{"id": "C90", "title": "Arithmetic operands have one common type", "statement": "The two branches of a conditional expression (and other operands unified with widening on both sides) that are of basic types, constants 0 or 1, or C enumerations have a common type that both convert to safely, that is the same in either order, and whose qualifiers are the least ones both convert to freely.", "quantifier": "for all basic types, qualifiers, enumerations and orders of the operands", "why_tests_cant": "All pairs of operand types in both orders, with all qualifiers; a test tries a few pairs", "anchors": ["src/ResolvExpr/CommonType.cpp:367-401", "src/ResolvExpr/CommonType.cpp:649-711", "src/ResolvExpr/Unify.cpp:631-705", "src/AST/CVQualifiers.hpp:58-71"]}
{"id": "C91", "title": "The mutex statement acquires its locks in address order and releases them all", "statement": "mutex( a, b, ... ) { body } with locks at different addresses acquires each lock once in ascending order of address, runs the body, and releases each once in the opposite order, also when the body raises an exception. Threads that run such statements one after the other therefore never deadlock, always come to an end with all locks free, and no two are inside statements with a common lock.", "quantifier": "for all numbers and orders of arguments, addresses and lock types, numbers of threads and statements per thread, and all interleavings", "why_tests_cant": "a deadlock needs particular threads to be stopped between two acquisitions; address orders depend on the allocator; arguments that are tuples, duplicates, share an address or change in the body are rarely tested", "anchors": ["src/Concurrency/Keywords.cpp:996-1005", "src/Concurrency/Keywords.cpp:1190-1376", "libcfa/src/concurrency/mutex_stmt.hfa:17-34", "libcfa/src/bits/algorithm.hfa"]}
{"id": "C92", "title": "Entries of the I/O submission ring are never lost, shared or reordered", "statement": "Every entry of a submission ring is at all times in exactly one place: free, given to one client by cfa_io_allocate, or submitted and not yet taken by the kernel. The kernel sees every submitted entry exactly once, in the order of submission. An allocation succeeds exactly when enough entries are free. Counters that wrap around at 2^32 make no difference. Taking the ring down aborts exactly when some entry is not free.", "quantifier": "for all ring sizes 2^k with k at most 31, all sequences of allocations, submissions in any order of the entries, and system calls in which the kernel takes any number of entries", "why_tests_cant": "the wrap-around of the counters needs 2^32 operations; the partition of entries depends on how much the kernel takes in each call; two processors release at the same time only by chance", "anchors": ["libcfa/src/concurrency/io.cfa:102-143", "libcfa/src/concurrency/io.cfa:383-405", "libcfa/src/concurrency/io.cfa:454-482", "libcfa/src/concurrency/io.cfa:536-585", "libcfa/src/concurrency/io/setup.cfa:129-306"]}
{"id": "C93", "title": "Completions are handled once and the thread of each is woken", "statement": "When processors drain the completion ring of a processor (the owner, or another one that helps), every completion of the kernel is handled exactly once and in order, by at most one processor at a time; the ring never holds more than its size; and as long as processors keep draining, every completion is handled, also those that the kernel kept back while the ring was full.", "quantifier": "For all sizes of the ring, numbers of processors, interleavings of their steps with completions of the kernel", "why_tests_cant": "A drain that is overtaken by completions between its reads of the head and the tail, or a ring that fills up exactly during a drain, needs thousands of operations in flight at a precise moment; the tests of I/O keep few operations in flight.", "anchors": ["libcfa/src/concurrency/io.cfa:145-234", "libcfa/src/concurrency/io.cfa:248-345"]}
{"id": "C94", "title": "Threads that wait for the arbiter of the I/O are served", "statement": "A thread that submits operations to the ring of another processor has its entries put into that ring exactly once, in order of the requests, is woken once and only afterwards, and is not forgotten when the processors fall asleep. A thread that waits for free entries is woken when there are enough, with the entries it asked for, in order of arrival.", "quantifier": "For all numbers of processors and threads, requests, interleavings of submissions, flushes, system calls and sleeping; for all states of the ring of free entries", "why_tests_cant": "A request that arrives between the last flush of a processor and its sleep has a window of a few instructions, and waiting allocations need a ring with all entries in use; tests with a few operations never come near either.", "anchors": ["libcfa/src/concurrency/io.cfa:412-452", "libcfa/src/concurrency/io.cfa:587-746", "libcfa/src/concurrency/kernel.cfa:177-256", "libcfa/src/concurrency/kernel.cfa:704-747"]}
{"id": "C95", "title": "Exceptions: throw, throwResume, try, catch, catchResume, finally and rethrow do what they mean", "statement": "A program of throw, throw;, throwResume, throwResume;, try with catch and catchResume clauses, finally clauses, function calls and output behaves as the statements mean. An exception that is thrown goes to the innermost try block around whose catch clauses take it (first clause whose type is the type of the exception or an ancestor and whose condition holds), every finally clause on the way runs once, in order, and the code after continues. An exception that is resumed goes to the dynamically innermost catchResume clause that takes it, searching from outside a clause while the clause runs; control returns to the throwResume; if every clause declines with throwResume; or there is none, it is thrown. throw; throws the exception of the clause around again. At the end no exception and no handler is left on the runtime's lists, and each allocated exception was freed exactly once.", "quantifier": "all programs (statements of any size and nesting, any family of functions, recursive ones included, any type hierarchy, any clause conditions), all executions that end; the well-behaved programs are given by a syntactic condition", "why_tests_cant": "The tests are ten short programs with two or three exception types and at most three levels of try statements; the interplay of catch, catchResume, finally and rethrow across calls and within running handlers has no bound", "anchors": ["src/ControlStruct/ExceptTranslate.cpp:65-135", "src/ControlStruct/ExceptTranslate.cpp:244-653", "libcfa/src/exception.c:69-183", "libcfa/src/exception.c:237-310", "libcfa/src/exception.c:316-448", "libcfa/src/exception.c:494-533", "libcfa/src/virtual.c:21-38"]}
{"id": "C96", "title": "Generic code and instances agree on the layout of generic structures and unions", "statement": "For every generic structure or union (nested, with arrays, with any number of type parameters) and all arguments for its parameters, the size, the alignment and the offsets of the members that generic code computes at run time from the sizes and alignments of the arguments are those that C gives to the type with its parameters replaced. For any sizes and power-of-two alignments of the members the offsets are aligned, the members do not overlap and lie inside, the alignment suits all members and is the least such, the size is the least multiple of the alignment.", "quantifier": "all types built from C types, parameters, arrays, structures and unions; all arguments; all member lists; sizes up to the 64-bit limit", "why_tests_cant": "The tests instantiate a few generic types with int, double and pointers; sizes such as 3 or 5 and alignments that rise and fall along a structure, and nesting, are not covered by any finite set", "anchors": ["src/GenPoly/Box.cpp:202-221", "src/GenPoly/Box.cpp:223-295", "src/GenPoly/Box.cpp:297-353", "src/GenPoly/Box.cpp:1946-1956", "src/GenPoly/Box.cpp:2231-2261"]}
{"id": "C97", "title": "Break, continue and fallthrough, with and without labels, keep their meaning as gotos", "statement": "A function body whose breaks, continues, fallthroughs and fallthrough defaults (of loops with else clauses, switch, choose, labelled blocks and labelled if statements, nested to any depth) are replaced by gotos does what the source says: the same actions in the same order, with no jump left over. A body is accepted exactly when each of its branches has something to go to. In the generated code labels are distinct and every goto has its label.", "quantifier": "all function bodies over actions, blocks, if, while, do-while, for with else, switch and choose; all conditions, switch values and program states; all terminating executions", "why_tests_cant": "The tests compare a handful of control-flow programs; the nesting of control structures and labels is unbounded.", "anchors": ["src/ControlStruct/MultiLevelExit.cpp:40-701", "src/ControlStruct/LabelGenerator.cpp:29-35", "src/Parser/StatementNode.cpp:153-175", "src/Parser/StatementNode.cpp:471-479"]}
{"id": "C98", "title": "Initializers are resolved against the subobjects that C initializes", "statement": "While an initializer of an object of structure, union or array type is resolved, with nested brace lists, omitted braces, designators and expressions of structure type, every expression is resolved against the type of the subobject that C initializes with it (C11 6.7.9) and every nested list is entered with the type of the subobject it is for; an expression is never given a type other than that of the subobject it is recorded for.", "quantifier": "For all types built from scalars, arrays, structures and unions, and all initializers of any nesting and length.", "why_tests_cant": "Initializers nest without bound and the cursor keeps a nested state for each level; tests cover a few shapes whose members mostly have interchangeable types.", "anchors": ["src/ResolvExpr/CurrentObject.cpp:90-591", "src/ResolvExpr/Resolver.cpp:1228-1298", "src/ResolvExpr/CandidateFinder.cpp:1764-1845", "tests/designations.cfa"]}
{"id": "C99", "title": "Coroutines: control goes to the last resumer, the first resumer, or the resumed coroutine", "statement": "Among the coroutines of a thread exactly one is active. A resume activates the resumed coroutine; a suspend activates the coroutine that last resumed the suspending one; when the main of a coroutine returns its first resumer continues; a terminated or destroyed coroutine never runs again and an attempt to resume it, or to go back to a terminated coroutine, stops the program with a message. Coroutines used as routines with memory (not resumed while they wait for a resume of their own, ending under their first resumer) behave as a stack of calls.", "quantifier": "For all numbers of coroutines and all sequences of resume, suspend, prime, end and destruction by whichever coroutine is active.", "why_tests_cant": "The order of control transfers depends on the whole history of resumes between any number of coroutines; tests run a few producer-consumer and generator shapes.", "anchors": ["libcfa/src/concurrency/coroutine.hfa:104-207", "libcfa/src/concurrency/coroutine.cfa:124-182,277-310", "libcfa/src/concurrency/invoke.c:37-51"]}
{"id": "C100", "title": "Members of structures are constructed exactly once, before use, and destroyed exactly once", "statement": "In a user-defined constructor of a structure, on every path through its body, every member that can be constructed is constructed exactly once and before it is used, whether by an explicit call in the body or by a call the translator adds; members without an explicit call are constructed first, in the order of declaration. In a user-defined destructor every such member is destroyed exactly once on every path, the members without an explicit call after the body in the reverse order of declaration.", "quantifier": "All structures, all bodies built from uses, calls for members, delegation to another constructor, return, branches and loops, and all paths through them", "why_tests_cant": "Tests run a few constructors along a few paths; a path on which a member stays unconstructed or is constructed twice shows only when the member owns a resource", "anchors": ["src/InitTweak/FixInit.cpp:1045-1081", "src/InitTweak/FixInit.cpp:1083-1174", "src/InitTweak/FixInit.cpp:1199-1221", "src/InitTweak/FixInit.cpp:1223-1236", "src/InitTweak/InitTweak.cpp:380-392"]}
{"id": "C101", "title": "Jumps never enter the scope of an object without constructing it", "statement": "A function is accepted exactly when none of its goto, break and continue statements, nor those of functions nested in it, jumps into the scope of an object that the jump is not already in. In every execution of an accepted function the objects alive are at every point exactly the objects in scope: each was constructed when control passed its declaration and is destroyed exactly once each time control leaves its scope, however it leaves it.", "quantifier": "All functions with nested blocks, branches, loops, labels, jumps, returns and nested functions, and all their executions", "why_tests_cant": "The set of jumps over declarations is unbounded, and a crossed construction is silent unless the object owns a resource", "anchors": ["src/InitTweak/FixInit.cpp:132-145", "src/InitTweak/FixInit.cpp:944-974", "src/InitTweak/FixInit.cpp:976-986", "src/InitTweak/FixInit.cpp:988-1036"]}
{"id": "C102", "title": "Names in the compiler's symbol table follow block structure", "statement": "After any sequence of entering and leaving scopes and adding declarations to the symbol table, lookups find what they would find with a separate table for every open scope: the delayed copying of tables at scope entry is not visible. Leaving a scope restores exactly what was visible before it was entered, for lookups and for all later operations; a lookup in an outer scope gives what would be found after leaving the inner ones; the first declaration of a name in a new scope is always accepted, hides the outer declaration and nothing else; of two declarations of an aggregate in one scope the one with the body is found and two bodies are an error; no scope holds two different identifiers of one name with C linkage", "quantifier": "For all sequences of operations, names, declarations and depths", "why_tests_cant": "Tests have few nested scopes; the copy is made only at the first addition in a scope, so an error needs particular interleavings of entering, adding and leaving", "anchors": ["src/AST/SymbolTable.cpp:102-117", "src/AST/SymbolTable.cpp:262-416", "src/AST/SymbolTable.cpp:477-496", "src/AST/SymbolTable.cpp:686-887"]}
{"id": "C103", "title": "Which special functions of a type can be called does not depend on the order of their declarations", "statement": "A constructor, destructor or assignment of a type can be called if the user declared it; a generated copy function unless the user declared a copy function of the type; any other generated function unless the user declared any function of that kind for the type. This holds for every order in which the declarations are added", "quantifier": "For all finite sets of user-declared and generated functions of a type, and all orders that are accepted", "why_tests_cant": "The removal loops treat copy functions, other functions, generated and intrinsic ones differently; the number of orders grows factorially", "anchors": ["src/AST/SymbolTable.cpp:500-664", "src/AST/SymbolTable.cpp:753-828"]}
{"id": "C104", "title": "Threads are preempted only where preemption is enabled, and no preemption is lost", "statement": "Threads that nest disable_interrupts and enable_interrupts and yield or park only with preemption enabled run on any number of kernel threads, with preemption signals at any time and threads moving between kernel threads at every yield. No internal check fails. The disable count of a kernel thread always equals the number of open disable_interrupts calls of the thread it runs, preemption is off while there are any and on otherwise, and a scheduler runs with preemption disabled. A signal interrupts a thread only outside those calls, outside the code that must not be preempted and outside the handler; otherwise it is noted as pending and changes nothing else. A pending note is cleared only by a yield on that kernel thread, and the last enable_interrupts with polling tests the note of the processor it runs on and yields", "quantifier": "For all programs of properly nested calls, all numbers of threads and kernel threads, all interleavings of steps, signals and dispatches", "why_tests_cant": "Signals arrive between any two instructions, and threads migrate between kernel threads inside the calls; tests meet few of these points", "anchors": ["libcfa/src/concurrency/preemption.cfa:233-343", "libcfa/src/concurrency/preemption.cfa:452-465", "libcfa/src/concurrency/preemption.cfa:545-598", "libcfa/src/concurrency/kernel.cfa:567-628"]}
{"id": "C105", "title": "Separators and newlines of output streams", "statement": "A cascade of values on an output stream shows exactly the texts of the values in order, the separator (the tuple separator inside a tuple) between two neighbours that both allow one by their kind and their first or last character, and a single newline at the end of the statement; sep, nosep, sepOn, sepOff, nl, nonl, nlOn and nlOff change exactly that, no separator starts a line, and a statement that prints nothing leaves the line open.", "quantifier": "All cascades of values, tuples and manipulators, all texts, all separators, all earlier statements on the stream.", "why_tests_cant": "The separator between two values depends on five flags left by everything printed before on the stream; tests compare the output of a few fixed programs.", "anchors": ["libcfa/src/iostream.cfa:43-379", "libcfa/src/fstream.cfa:34-107", "libcfa/src/fstream.cfa:161-182", "libcfa/src/iostream.hfa:88"]}
{"id": "C106", "title": "Textual lists of processors", "statement": "The generator RangeIter delivers exactly the numbers of a comma-separated list of numbers and ranges, in the order of the text, skips empty pieces, and ends the program with an error on every other text; read_width of such a list is the number of numbers in it.", "quantifier": "All texts of characters; all lists of ranges with bounds below 2^31-1.", "why_tests_cant": "The scanner is re-entered through a generator and the width is computed by another recursive reader, so the two only agree by an argument over all lists; tests run on the one list of the machine at hand.", "anchors": ["libcfa/src/algorithms/range_iterator.cfa:24-64", "libcfa/src/algorithms/range_iterator.hfa:29", "libcfa/src/device/cpu.cfa:51-92"]}
{"id": "C107", "title": "The map from processors to last-level caches", "statement": "After start-up every processor has an entry whose cache is the one it shares, whose count is the number of processors sharing it and whose self is a position between start and start+count; the positions of all processors are 0..n-1 each once, processors of one cache share the same interval and different caches have disjoint intervals.", "quantifier": "All numbers of processors, all consistent assignments of caches to processors, all orders in which the sort may leave equal elements.", "why_tests_cant": "The map is built by a sort, a running offset and counters per cache; a test sees the topology of one machine only.", "anchors": ["libcfa/src/device/cpu.cfa:241-262", "libcfa/src/device/cpu.cfa:271-308", "libcfa/src/device/cpu.cfa:319-338", "libcfa/src/device/cpu.cfa:343-466", "libcfa/src/device/cpu.hfa:22"]}
{"id": "C108", "title": "Choice of the cheapest candidate per type", "statement": "After pruning, an expression has for every result type at most one candidate: the one of least cost, then least conversion cost, among all candidates of that type whose assertions are satisfied; two such candidates that use no deleted identifier make the type ambiguous and none is kept; the result does not depend on the order of candidates of equal cost.", "quantifier": "All lists of candidates with any costs, types and deleted identifiers, any number of candidates made by satisfying assertions.", "why_tests_cant": "The choice depends on the order left by an unstable sort, on skipping by the cost before the assertions, and on three tie-breaking rules; tests see single programs.", "anchors": ["src/ResolvExpr/CandidateFinder.cpp:68-81", "src/ResolvExpr/CandidateFinder.cpp:1886-1998", "src/ResolvExpr/CandidateFinder.cpp:2054-2075"]}
{"id": "C109", "title": "The text printed for a type declares the name with that type", "statement": "When the compiler prints a type for a name (or without one) the text, read by the rules of C for declarations, declares exactly this name with exactly this type: pointers, arrays with qualifiers and dimension, functions with parameters and ellipsis, and their qualifiers; the parameters of a function have different names. Two different types or names have different texts.", "quantifier": "every type built from named types, pointers, arrays and functions to any depth, every combination of qualifiers, every name, both printing modes; references in the mode that prints Cforall code", "why_tests_cant": "tests compare a few outputs; a wrong pair of parentheses shows only for some nesting of pointers, arrays and functions, and then declares another valid type", "anchors": ["src/CodeGen/GenType.cpp:83-206", "src/CodeGen/GenType.cpp:316-359"]}
{"id": "C110", "title": "The specialization cost is the number of levels above the shallowest type variable", "statement": "The cost by which the compiler prefers the more specialised of two polymorphic functions counts for a parameter type the levels of pointer, array, reference, function, tuple and generic type above its shallowest type variable; a type without variables costs nothing. The order of the arguments of a generic type does not matter.", "quantifier": "every type to any depth below the largest int, every number of arguments", "why_tests_cant": "tests resolve a few calls; a wrong cost shows only when two candidates are otherwise equal, and then silently selects another function", "anchors": ["src/ResolvExpr/SpecCost.cpp:36-119", "src/AST/Pass.impl.hpp:1494-1507", "src/AST/Pass.impl.hpp:1924-1954"]}
{"id": "C111", "title": "The tabular configuration reader gives the settings of the file", "statement": "Reading a configuration file in the tabular format yields for each line with a key and a value this pair, in the order of the lines; blank lines, lines that start with a number sign and everything behind the value are ignored, and the last line may lack its newline. Every pair is stored within the array and every string within its block.", "quantifier": "every file made of such lines, with keys up to 63 and values up to 255 characters; every number of pairs and every first capacity", "why_tests_cant": "tests read four small files; long comments, missing values and the byte behind a string do not occur in them or have no visible effect", "anchors": ["libcfa/src/parseconfig.cfa:74-152", "libcfa/src/iostream.cfa:984-988", "libcfa/src/iostream.cfa:1049-1099"]}
{"id": "C112", "title": "parse_config sets every variable or reports what is wrong", "statement": "If parse_config returns, every entry occurs in the file and its variable has the parsed and validated value; otherwise the exception names a pair of the file that its entry does not parse or validate, or the number of entries that are not in the file. A file with all entries and good values is accepted. The values remain usable after the return.", "quantifier": "every list of entries with different keys, all parse and validate functions, every list of pairs", "why_tests_cant": "tests have one good, one incomplete and one wrong file; repeated keys and entries of type string are not among them", "anchors": ["libcfa/src/parseconfig.cfa:155-198", "libcfa/src/parseargs.cfa:333-336"]}
{"id": "C113", "title": "Command-line numbers and truth values are read exactly", "statement": "The typed argument parsers of parseargs accept exactly the numerals of C (decimal, 0 octal, 0x hexadecimal) after optional white space, with a sign for int and without one for the unsigned types, whose value is in the range of the type, and give that value; yes/no and true/false accept exactly their words. The empty argument should be refused.", "quantifier": "for all argument strings, all values and all maximal values of an unsigned type", "why_tests_cant": "Tests try some numerals; rejection of everything else and the boundaries of each range hold only by proof.", "anchors": ["libcfa/src/parseargs.cfa:283-321", "libcfa/src/parseargs.cfa:338-397"]}
{"id": "C114", "title": "The help column of the usage text wraps lines and ends", "statement": "For a terminal of at least one column, printing the help of an option ends, and the pieces printed are the lines of the help text, each cut into consecutive pieces of the width of the column, so no character other than the newlines is lost or repeated and no piece is wider than the column. The same should hold for every width a terminal can report.", "quantifier": "for all terminal widths, widths of the long names and help texts", "why_tests_cant": "Tests print one usage text on one terminal width; a loop that never ends depends on the width reported.", "anchors": ["libcfa/src/parseargs.cfa:173-184", "libcfa/src/parseargs.cfa:188-229", "libcfa/src/parseargs.cfa:263-270"]}
{"id": "C115", "title": "Every command-line option is delivered to its own variable", "statement": "parse_args refuses arrays of options exactly if a long name or a short name is used twice; otherwise the values given to the options are different, and the value getopt_long returns for an option selects this option and no other, so its argument goes to its own parse function and variable. An option called h or ? should be refused or delivered.", "quantifier": "for all arrays of options with any short and long names", "why_tests_cant": "Tests use one array of options; collisions depend on the characters chosen and on how many options have no short name.", "anchors": ["libcfa/src/parseargs.cfa:57-70", "libcfa/src/parseargs.cfa:95-138", "libcfa/src/parseargs.cfa:140-170"]}
{"id": "C116", "title": "Renaming type variables preserves their bindings", "statement": "renameTyVars gives each type parameter of a forall clause a key that no other type parameter of the type has, gives every occurrence of a type variable the key of the innermost enclosing clause that declares its name, and leaves free type variables alone; two renamings of the same declared type for two uses have no key in common. This should hold for all types, also if a clause reuses a name of an enclosing clause.", "quantifier": "for all types with nested forall clauses, all keys and all states of the counters", "why_tests_cant": "Tests compile some polymorphic programs; a wrong key shows only as a failed or wrong unification in particular nestings of clauses.", "anchors": ["src/ResolvExpr/RenameVars.cpp:31-145", "src/Common/ScopedMap.hpp:165-169"]}
{"id": "C117", "title": "Numbers in exception tables are read as the encoding says", "statement": "The readers of the exception tables give, for every encoding of the DWARF standard, the number encoded and the position behind it: unsigned and signed LEB128 numbers of any length that fits 64 bits, fixed sizes with and without sign, aligned words, relative to the place or the base, null kept, indirection applied; the sizes given for the fixed formats are the bytes read. What an encoder writes for any 64-bit number is read back. Padded numbers should be read too.", "quantifier": "for all byte sequences, encodings, bases and addresses", "why_tests_cant": "Tests see only the tables the compiler emits; sign extension at each length, the last bits of ten-byte numbers and the combination of flags hold only by proof.", "anchors": ["libcfa/src/lsda.h:36-52", "libcfa/src/lsda.h:77-121", "libcfa/src/lsda.h:123-212"]}
{"id": "C118", "title": "The deprecated locks exclude, hand over in order and lose no wake-up", "statement": "mutex_lock and recursive_mutex_lock let one thread in at a time, count its locks exactly, serve threads in the order they came, hand the lock to the thread blocked longest on the last unlock, and try_lock takes the lock exactly when nobody holds it; with cond_lock, a thread that has released its lock in wait is reached by every later notify, in order, each park has exactly one unpark, and no park/unpark mismatch aborts. wait should not hold the lock while it waits.", "quantifier": "for all numbers of threads and all interleavings of lock, try_lock, unlock, wait, notify_one and notify_all", "why_tests_cant": "Tests run a few interleavings; the races between append, park and unpark and between wait and notify are ruled out only by proof over all of them.", "anchors": ["libcfa/src/concurrency/mutex.cfa:29-70", "libcfa/src/concurrency/mutex.cfa:74-130", "libcfa/src/concurrency/mutex.cfa:133-175", "libcfa/src/concurrency/kernel.cfa:525-564"]}
{"id": "C119", "title": "Streams in memory hold exactly the text formatted and never leave their buffer", "statement": "Formatting into an ostrstream appends the text, write sends exactly the pending text to the file and empties the stream, clear drops it, the program is ended exactly when a text does not fit with its null, and no byte outside the buffer is ever changed, even after formatting errors. Successive reads of words from an istrstream give successive words of the buffer. Formatting errors should not change the text.", "quantifier": "for all buffers, sizes, texts, formatting results and sequences of operations", "why_tests_cant": "Tests write a few short strings; the truncating case at every cursor, errors of vsnprintf and input with other spacing hold or fail only by proof.", "anchors": ["libcfa/src/strstream.cfa:77-89", "libcfa/src/strstream.cfa:127-160", "libcfa/src/strstream.cfa:191-207"]}
{"id": "C120", "title": "Virtual casts succeed exactly along the inheritance chain", "statement": "__cfavir_is_parent answers whether one type id is another or an ancestor of it, ends whenever the chain of parents ends, and fails its assertion for a null child; a virtual cast gives the object itself exactly when the target is the type of the object or one of its ancestors and null otherwise, so that a cast that succeeds also succeeds to every ancestor of its target. The translator uses the first definition of a type id, or else its first declaration, and reports exactly the second definitions.", "quantifier": "for all memories, type ids, objects and sequences of declarations", "why_tests_cant": "Tests have a few small hierarchies; agreement with ancestry for every hierarchy and memory, and the choice among declarations in any order, hold only by proof.", "anchors": ["libcfa/src/virtual.c:21-38", "src/Virtual/ExpandCasts.cpp:63-90"]}
{"id": "C121", "title": "Names of types are scoped lexically by the parser's table at file level", "statement": "For every program of typedefs, aggregates, uses of names, nested distribution blocks and functions, the parser's table of type names never indexes a scope that is not there, returns to one scope and level zero, and holds at file level exactly the names of lexical scoping; distribution blocks are transparent and make an aggregate generic exactly when it or a block around it has a forall, until the block ends; with function bodies free of inner blocks every use of a name has its lexical kind, and local declarations reach at most one scope further out than their block.", "quantifier": "for all programs of the modelled constructs, nested to any depth", "why_tests_cant": "Tests parse particular files, and most places accept a type name where an identifier is meant; that levels and scopes always agree for any nesting holds only by proof.", "anchors": ["src/Parser/TypedefTable.cpp:58-128", "src/Parser/TypedefTable.hpp:22-49", "src/Common/ScopedMap.hpp:99-163", "src/Parser/parser.yy:652-658", "src/Parser/parser.yy:1251-1278", "src/Parser/parser.yy:2151-2163", "src/Parser/parser.yy:2598-2622", "src/Parser/parser.yy:3293-3306", "src/Parser/parser.yy:3373-3402"]}
