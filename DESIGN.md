# Design

Target: cforall/cforall at the pinned commit in `/repo` (library `libcfa/src` and compiler `src`).
Nothing is built or run; `/repo` was read as text. The only tie between model and code is that reading, so every
model definition cites the file and lines it models and says where it simplifies.

## Layout

`rocq/theories/<Topic>/`

* `Model.v` - executable definitions only (functions, step machines), each citing `/repo`.
* `Spec.v` - the independent specification (small, no model helpers where avoidable).
* `Proofs.v` - lemmas.
* `Props.v` - the property theorems (`exact lemma`), `Print Assumptions`, and an `Example` meeting the hypotheses.

Conventions: undefined behaviour, abort and out-of-fuel are distinct outcomes, never a normal value. Concurrent code
is an interleaving machine: one transition per atomic instruction for lock-free code, one transition per critical
section for code that runs entirely under a spin lock. Memory is sequentially consistent in the models.
A property the code violates gets a theorem `..._refuted` with a concrete witness next to the strongest positive
theorem that does hold; a theorem weaker than its property is named `..._partial`.

## Trusted base

* Coq 8.16.1 kernel (with `vm_compute`), the standard library, and the reading of the source described above.
* `Print Assumptions` output for every property theorem: see the table at the end. No axioms of our own.
* Not modelled: the C / CFA compiler, weak memory orderings, preemption inside spin-lock critical sections, signals,
  OS calls (futex, sbrk, mmap, timers are modelled by their documented contract where they occur).

## Plan per property

* **C01 Rational numbers are always in canonical form** - `Rational/`. Model gcd (fuelled Euclid loop shown never to run out), simplify, constructors and every operator over Z. Proof: induction over arbitrary operation sequences of the invariant `den>0 /\ gcd=1`; zero denominator is the distinct outcome `Abort`.
* **C02 Rational arithmetic and comparison are exact** - `Rational/`. Denotation into stdlib `Q`; each operator proved equal (Qeq) to the Q operator, comparisons equivalent to Q order, power by induction.
* **C03 Rational setters update their argument** - `Rational/`. The setter takes the rational by value; model returns (result, caller's variable). Expected outcome: refuted with witness; the old-value half proved.
* **C04 Time and duration conversions round-trip** - `TimeConv/`. Duration/Time as Z with explicit int64/uint64 range and wrap; div/rem truncating as in C. Round-trip theorems for all values in range.
* **C05 Timer settings built from durations are well formed** - `TimeConv/`. One-argument itimerval proved well formed; two-argument interval field refuted, and proved under interval < 1s.
* **C06 Power-of-two rounding is exact** - `Bits/`. Words as N with explicit mod 2^w. is_pow2/floor2/ceiling2/libFloor/libCeiling, leading/trailing zero counts characterised against 2^k arithmetic.
* **C07 Small-array sort produces a sorted permutation** - `SmallSort/`. Sorting networks and insertion sort over list nat/keys with swap; sorted + Permutation for all lists of every length.
* **C08 Binary search finds the right position** - `BSearch/`. Loops on explicit lo/hi with fuel = length, array reads return option (out of bounds = error). First-not-less / first-greater characterisation.
* **C09 Pseudo-random generators have reversible state steps** - `Prng/`. 64/32-bit words as N with land/lxor/shift masks; linear-algebra-free proof of xorshift invertibility through explicit inverses; LCG inverse mod 2^48 by number theory.
* **C10 Intrusive stack, queue and sequence are lists** - `Collections/`. Heap of nodes as function/gmap from node id to link fields; representation predicate; refinement to list for all op sequences.
* **C11 dlist operations refine list operations** - `DList/`. Tagged-pointer heap model; representation predicate for several lists; refinement per operation and for histories.
* **C12 dlist end-of-list predicates** - `DList/`. Same model; predicates first/last on nodes; expected refuted (inverted), plus exact characterisation of what they compute.
* **C13 Vector growth preserves contents** - `Vector/`. Storage as list of cells (Uninit | Val), capacity doubling; refinement to list; out-of-storage access is error.
* **C14 Vector copy and clear touch only live elements** - `Vector/`. clear/copy_internal loops over cells with construct/destroy/reads of Uninit or out of bounds as distinct UB outcomes; expected refuted.
* **C15 Multi-dimensional array subscripts are in bounds and distinct** - `ArraySub/`. Strides as in arpk; address arithmetic; injectivity and bounds by induction on rank.
* **C16 Mutable strings behave as independent values** - `StringHeap/`. Character pool with handles in a list; alloc/compact; theorem under address-ordered disjoint handles, refutations for the recorded layouts.
* **C17 String search answers** - `StrFind/`. KMP-free search loop as coded; least-match theorem for non-empty needle, refuted for empty needle with non-zero start.
* **C18 Allocator picks the smallest sufficient bucket** - `HeapBuckets/`. The 91-entry table as written, lookup table construction, Bsearchl; smallest sufficient bucket for all sizes (finite domain theorem is lifted from a proved binary search, not enumerated).
* **C19 Live allocations never overlap** - `HeapAlloc/`. Address-level model of the allocator: extent, per-bucket free lists, headers with sticky bits, fake headers; invariant of disjointness over all histories.
* **C20 Allocation size arithmetic does not overflow** - `HeapAlloc/`. size_t wrap explicit; refuted for release build; proved when no wrap.
* **C21 Pairs are ordered lexicographically** - `Pair/`. Parametric in component comparison functions (Section variables with order hypotheses).
* **C22 Channel delivers every element exactly once in FIFO order** - `Channel/`. State machine whose steps are the critical sections under the channel's lock; ring buffer with front/back/count; thread histories; FIFO theorem by invariant over all traces.
* **C23 Channel blocking discipline** - `Channel/`. Same machine; invariant.
* **C24 Closing a channel strands nobody** - `Channel/`. Same machine with close/flush.
* **C25 Counting semaphore conserves permits and is FIFO** - `Semaphore/`. Critical-section-granular machine (spin lock makes them atomic); invariants over all traces.
* **C26 Bulk release equals repeated release** - `Semaphore/`. V(n) loop as coded with size_t conversion; expected refuted; corrected bound theorem for the cases where it agrees.
* **C27 Owner/blocking locks give mutual exclusion with FIFO hand-off** - `OwnerLock/`. blocking_lock critical sections incl. on_notify/on_wait/on_wakeup; invariants over traces.
* **C28 Notified waiters always get to run again** - `CondLocks/`. For each lock kind the on_notify step; progress theorem; expected refuted for fast_block_lock.
* **C29 Futex-style locks: mutual exclusion and no lost wake-up** - `Futex/`. Atomic-step interleaving machine per thread program counter, any number of threads; inductive invariant.
* **C30 Queue and ticket spin locks are mutually exclusive and FIFO** - `McsLock/`. Interleaving machine over node heap; FIFO + mutual exclusion invariant; node reuse refuted for mcs_spin_lock.
* **C31 Single-waiter semaphores and one-shots lose no signal** - `OneShot/`. Interleaving machine; invariant + terminal-state theorem.
* **C32 Kernel futures: woken once, freed once** - `OneShot/`. future_t atomic words; invariant over interleavings.
* **C33 Waiting for any of several futures leaves no dangling registration** - `OneShot/`. wait_any loop; expected refuted.
* **C34 call_once runs the function exactly once** - `Once/`. Interleaving machine; invariant.
* **C35 Barrier releases whole groups** - `Barrier/`. Monitor-granular machine; theorem over all rounds.
* **C36 Alarms fire in deadline order** - `Alarm/`. Sorted insertion, expiry loop; stability.
* **C37 Ready queue loses and duplicates no thread** - `ReadyQueue/`. Lanes as intrusive lists + timestamps; multiset conservation over histories incl. resize.
* **C38 Monitors: mutual exclusion, recursion and FIFO entry** - `Monitor/`. Monitor critical sections for enter/leave with owner, recursion, entry queue, signal stack; invariants over all traces.
* **C39 Ordered bulk acquisition cannot deadlock** - `LockOrder/`. Interleaving machine of threads acquiring sorted monitor lists; deadlock freedom by maximal-resource argument.
* **C40 waitfor admits only accepted calls** - `Monitor/`. is_accepted as coded; refuted with two-monitor call; single-monitor case proved.
* **C41 Non-zero indicator is accurate** - `Snzi/`. Atomic-step machine of the tree, threads as stacks of frames; invariant: the count of every node equals the arrivals held there by clients, by children with a positive count and by frames.
* **C42 A waituntil over alternatives has exactly one winner** - `SelectOr/`. CAS-level interleaving machine of the exclusive OR over zero-size channels, with plain operations taking part; invariants.
* **C43 Lock-free stack is a stack despite reuse of nodes** - `LockFree/`. Atomic-step machine with (pointer, count) top word; linearizability to a stack.
* **C44 Multi-producer queue is FIFO** - `LockFree/`. mpsc_queue machine: exchange then link; FIFO refinement.
* **C45 Reference-counted futures are freed exactly once** - `FutureRC/`. Handle histories; refcount = number of handles.
* **C46 Futures that deliver exceptions keep their lock consistent** - `Future/`. Interleavings of get, try_get, fulfil and reset, with the lock explicit; refuted in general.
* **C47 Resolution cost order is total and additive** - `Cost/`. Packed 64-bit arithmetic explicit; decode to components; order/monoid theorems under no-overflow hypotheses.
* **C48 Three-way cost comparison agrees with equality** - `Cost/`. compare and unit constants as written; expected refuted at infinity and for `implicit`; proved otherwise.
* **C49 Scoped maps obey lexical scoping** - `ScopedMap/`. Stack of association maps as coded; refinement to an environment-stack spec; iteration.
* **C50 Erasable scoped maps: erase hides, insert shows** - `ScopedMap/`. Erasable variant with sentinel; expected refuted for insert-after-erase; positive theorems for the rest.
* **C51 Persistent maps never change** - `PersistentMap/`. Heap of version nodes (Base/Rem/Ins/Upd) with reroot as coded; every version keeps its abstract map over all histories.
* **C52 Combination filter enumerates exactly the valid combinations** - `FilterCombos/`. The loop as a small-step machine over index stack and an abstract checker; equality with the recursive specification.
* **C53 Name mangling distinguishes overloads** - `Mangle/`. Mangler over a type AST to byte lists; unique decodability modulo identification for monomorphic types; refuted for polymorphic types (type variables are not numbered apart) and for names used with and without parameters.
* **C54 Demangling inverts mangling** - `Demangle/`. Demangler as parser with index; round trip for types without nested function types; termination for short numbers; refuted for nested function types, generic aggregates, overlong numbers.
* **C55 Unification yields a consistent, acyclic environment** - `Unify/`. Type terms, class-list environment, unifyExact, unifyInexact, commonType, bindVar and bindVarToVar as coded, fuelled; structure kept for all types and widening modes; on plain types without widening sound, most general and complete; refuted for references, arrays without dimension, function pointers, C enums, incomplete types, names.
* **C56 Combining type environments respects both** - `Unify/`. combine, mergeBound, mergeClasses as coded with explicit set order; refuted with witnesses; proved for environments that fit.
* **C57 Type substitution lookup terminates with the final binding** - `TypeSubst/`. lookup, apply, applyFree, normalize with fuel; what lookup returns is characterised for all substitutions; apply on acyclic substitutions is the unique solved form; refuted termination on cycles, capture, lost qualifiers.
* **C58 Constant evaluation is sound** - `EvalConst/`. Expression AST, eval as coded over int64, reference C semantics with UB outcome; refuted for zero division, narrowing casts, unsigned wrap-around and array dimensions compared by hasKnownValue alone; sound on the rest.
* **C59 Shared AST nodes are freed exactly once** - `AstRef/`. Machine over pointer objects (variables and node fields of both kinds) and node counts, with the recursive deletion; invariant count = number of live pointers; refuted for move assignment from a child, strong and weak cycles, mutate through a weak pointer.

* **C60 Printed durations and dates** - `TimeConv/`. The printing functions as coded over Z; round trip where the sign survives, refuted in (-1s, 0).
* **C61 Integer exponentiation** - `Bits/`. Square-and-multiply loop with wrap; exact whenever representable; refuted for base -1 with exponent at least the width.
* **C62 Fixed-point log2** - `Bits/`. Shift loop with shift-range outcome; integer part; refuted for argument 1.
* **C63 OR waituntil on channels** - `Channel/`. The registration and racing protocol on top of the channel machine.
* **C64 Parking** - `Park/`. Ticket-word machine for park/unpark; no lost wake-up, no double scheduling.
* **C65 call_once and links** - `Once/`. The link field left behind by the waiting queue.
* **C66 waitfor resumption** - `Monitor/`. Same machine as C38-C40.
* **C67 Runtime collections** - `RtColl/`. The runtime's stack and queue templates; refinement to lists.
* **C68 Allocation queries** - `HeapAlloc/`. Queries on the header written by the allocation.
* **C69 min, max, clamp, swap** - `Pair/`.
* **C70 String comparison** - `StrFind/`. strcmp$ over unsigned bytes with the int conversion of the length difference.
* **C71 Slicing, spanning and replacing** - `StrFind/`. Offsets as ssize_t with wrap.
* **C72 Scheduler lock** - `SchedLock/`. Registration, reader and writer sides of the per-processor reader-writer lock, one transition per atomic instruction; exclusion for all executions.
* **C73 General waituntil** - `SelectAnd/`. One waiter with any number of clauses and an arbitrary predicate, one waker per clause, one transition per atomic instruction on a status or on the park counter; invariant: the counter covers every satisfied, counted and not yet run clause of the part of the clauses the last scan has passed.
* **C74 False when conditions make waituntil clauses disappear** - `WhenTree/`. The compiler's passes over the clause tree as total functions; evaluation of the generated predicate compared with the tree without the disabled clauses.
* **C75 Value of integer literals** - `IntConst/`. lnthSuffix, valueToType, scanbin and build_constantInteger on character lists; a literal is specified as prefix, digits and suffix with the number its digits denote. Not modelled: imaginary suffixes, the rest of the lexer.
* **C76 Type of integer literals** - `IntConst/`. Compared with the table of C11 6.4.4.1; the departures are characterised exactly.
* **C77 Thread-specific data** - `PthreadKeys/`. Key table, per-key lists and per-thread arrays; the end of a thread is cut where key_lock is given up. Simulation by a map with owed destructor calls. Not modelled: the main thread (which is no cfaPthread), re-use of thread identifiers.
* **C78 Pthread mutexes** - `PthreadMutex/`. mutex_check, the constructor of simple_owner_lock write by write, lock, trylock, unlock, destroy; invariants over all interleavings. Not modelled: reset of the inner spin lock, attributes, timed locks (not implemented in the code).
* **C79 pthread condition variables** - `PthreadCond/`. Invariant over executions: the lists agree with what each thread does, the mutex has one owner; a wait gives the depth back; signal takes the first of the list; refutations of deadline, results and the race with on_wait.
* **C80 pthread_once** - `PthreadOnce/`. Invariants of the owner lock and of the control variables over executions with nested calls; at most once, return after the end, no deadlock; refutation of independence of controls.
* **C81 counter_ptr** - `CounterPtr/`. Object graph with counters; the recursion of destructors as a work list; invariant counter = number of pointers, fields present, paths from variables kept; effect of each operation; refutations for cycles and counter overflow.
* **C82 unique_ptr** - `UniquePtr/`. Simulated by the counted pointers of C81 with all counters 1; move goes through a count of 2.
* **C83 128-bit decimal output and input**, **C84 128-bit output with manipulators** - `Int128Io/`. Value and format to text; printf and log10 specified.
* **C85 Message queues of actors** - `ActorQueue/`. copy_queue and the division of the work queues: fifo refinement, bounds, partition.
* **C86 Actor executor** - `Actor/`. Workers, senders, transfer and work stealing as atomic steps; invariants over all interleavings.
* **C87 Stopping the actor system** - `ActorStop/`. Count of actors, park in actor_stop, unpark by the last actor; all interleavings.
* **C88 Vector with iterators** - `Vector2/`. Refinement of a sequence with positions; iterators under insertion and growth.
* **C89 Tables of basic types** - `BasicTypes/`. The graph and Dijkstra program of BasicTypes-gen.cpp, proved for every graph; the three tables transcribed and proved to be its output; lattice laws by computation over all kinds and induction over lists of operands. int overflow of path lengths is not modelled (the tables are checked by computation).
* **C90 Common type of arithmetic operands** - `CommonArith/`. The commonType and unifyInexact models of `Unify/` with the real table of `BasicTypes/`; conversion costs of the operands from the same tables.
* **C91 Mutex statement** - `MutexStmt/`. Model of the flattening of arguments, the sorted array and the nested try/finally statements as a list of events, and of threads that execute them. Theorems: one statement; no deadlock (the thread that waits for the highest address waits for one that can go on), termination, exclusion. Not modelled: resolution of lock/unlock, the virtual operations (genVirtLockUnlockExpr has no effect on the order), exceptions from unlock.
* **C92 Submission ring** - `IoRing/`. Model of the ring with 32-bit counters, masks and the two arrays; refinement of the queues free / held / waiting; small steps of __release_sqes for several processors. Not modelled: memory order (each access is sequentially consistent), the contents of the entries, the mmap of setup, EINTR (repeated), statistics.
* **C93 Completion ring** - `IoDrain/`. Drain of the completion ring by owner and helpers against the kernel; invariant over all interleavings, progress by measure.
* **C94 Arbiter of the I/O** - `IoArbiter/`. External submissions, waiting allocations, sleeping owner; invariant over all interleavings, progress by measure, refutations for the lost wake-ups.
* **C95 Exceptions** - `Except/`. Source statements and generated code as two languages with interpreters; translation, matcher, search, list of exceptions, resume nodes; simulation by induction on fuel.
* **C96 Layout of generic types** - `GenLayout/`. Layout functions against the layout of C on the instantiated type, by induction over types.
* **C97 Multi-level exits** - `LevelExit/`. Source semantics with branches as results against C with gotos: simulation by induction over the execution; labels distinct and defined, acceptance, by induction over statements.
* **C98 Initializers** - `InitCursor/`. The cursor through the object that initializers are resolved with, against the order of C over paths.
* **C99 Coroutines** - `Coroutine/`. Resume, suspend, prime, end and destruction against the history of resumes.
* **C100 Members of structures are constructed exactly once, before use, and destroyed exactly once** - `MemberCalls/`. The visit of constructor and destructor bodies (unhandled and used members), the rejection of uses before the explicit call, the implicit calls; executions of bodies along every path as the specification.
* **C101 Jumps never enter the scope of an object without constructing it** - `JumpCheck/`. LabelFinder and InsertDtors as they traverse the statements; specification: positions in the body (zippers), the objects in scope at a position, executions with construction and destruction.
* **C102 Symbol table scopes** - `SymTab/`. Lazy snapshots refine a stack of tables (relation by induction on the snapshots); entries carry their scope, bounded by the current one.
* **C103 Special functions** - `SymTab/`. Loops as filters, invariant of the mangle table by induction over the declarations added; callable stated on the set of declarations.
* **C104 Preemption** - `Preempt/`. Continuations as lists of instructions; the count needed by a continuation is computed from its end; invariant relates it to the thread-local state for every kernel thread.
* **C105 Separators and newlines of output streams** - `OStream/`. Closed form of print on the five flags and the output; statements by folding it; an invariant for the start of lines.
* **C106, C107 Lists of processors and the map to last-level caches** - `CpuMap/`. Range: the two readers of the text against rendered lists; Proofs: in the sorted pairs the entry at position i gets self = i.
* **C108 Choice of the cheapest candidate per type** - `Prune/`. The map selected holds for each type the state of the list of candidates seen; skipped candidates lose anyway. Uses the order of costs of C47.
* **C109 Printed declarations** - `GenType/`. The visitor that builds a declarator from the inside out, on tokens. Independent reader: a recursive-descent reader of C declarations by the grammar of C11 6.7.6; the text printed is read back as the same type and name.
* **C110 Specialization cost** - `SpecCost/`. The counter and the order of the visits. Spec: depth of the shallowest type variable.
* **C111, C112 Configuration files** - `Config/`. The word reader of input streams, the tabular reader, the array of pairs, parse_config. Spec: files as lists of lines; entries assigned, absent.
* **C113-C115 Command-line options** - `Args/`. Model of strtoll/strtoull with base 0 and the parsers of parseargs.cfa, the wrapping loop of printopt, the check of names and the choice of an option; spec by numerals built digit by digit, lines cut into pieces, and pairwise different names.
* **C116 Renaming of type variables** - `Rename/`. The pass with the scoped map as coded; spec compares the binding structure (positions of binders) by names before with the one by keys after.
* **C117 Numbers in exception tables** - `Leb/`. The readers of lsda.h on byte lists with undefined shifts as an outcome; spec by base-128 digits and the encoders of the DWARF standard.
* **C118 Deprecated locks** - `OldLocks/`. mutex.cfa as a transition system of atomic sections, a permit for park/unpark, ghost histories for the order; one invariant for both kinds of lock with the condition.
* **C119 Streams in memory** - `StrStream/`. ostrstream on a memory of bytes refined to a bounded stream; vsnprintf after the C standard with errors; istrstream with %s against the words of the text.
* **C120 Virtual casts** - `Virtual/`. The walk over parent pointers in a memory given by first words, with fuel and failed assertions as outcomes; spec by an inductive ancestor relation; the table of type ids against the first definition or declaration.
* **C121 Table of type names** - `Typedefs/`. Scopes with notes and levels as a list, a small language of external definitions and local declarations interpreted by the actions of the grammar; spec by environments; invariant: empty scopes of the distribution blocks over the one of the file.

## Findings (disagreements between the code and a property)

Each is proved as a `..._refuted` theorem with a concrete witness, next to the strongest positive theorem that holds.

| property | place | what happens |
|---|---|---|
| C03 | rational setters | the argument is taken by value, the caller's rational is unchanged |
| C04 | time.cfa | timespec round trip leaves int64 for times of 2^63 ns and beyond |
| C05 | time.cfa | the interval's tv_usec of the two-argument itimerval constructor is not reduced below 10^6 |
| C06 | bits | `floor(n, align)` rounds negative numbers up; `ceiling_div` wraps near the maximum |
| C09 | bits/random.hfa | the multiply-with-carry halves of kiss_64 are not permutations and have a non-zero fixed point; one seed gives the absorbing zero state of the xorshift generators and of lehmer64; splitmix32 keeps a 64-bit intermediate |
| C12 | list.hfa:337-343 | first(node) and last(node) are inverted |
| C13 | vector.cfa:131,132 | doubling in reserve and the byte product wrap |
| C14 | vector.cfa:78,91,108 | clear and copy_internal use index `size` in every iteration; the allocator's copy constructor reallocs an uninitialised pointer |
| C16 | string_res.cfa:739-764,1142-1169,335-348 | appending in place to a shared last string loses the text at the next compaction; appending to another string moves its bytes but not its handle; overlapping parts of a destroyed string are corrupted; an appended string is read at its old place after an extension; the null address of an empty string breaks the second compaction |
| C17 | string.cfa | the empty needle is found at 0 whatever the start; starts beyond the end read outside; `includes("", "")` is false; int results are wrong from 2^31 characters |
| C19 | heap.cfa:1246 | memalign of size 0 ignores the alignment |
| C20 | heap.cfa:920-928 | doMalloc adds the header before checking the size in release builds; calloc, aalloc, reallocarray products and memalign, pvalloc sums wrap |
| C21 | result.cfa:50-64 | `?=?` of results returns nothing |
| C25 | locks | a negative initial count lets V release too many; `empty(sem)` answers count == 0 |
| C26 | locks | V(sem, n) uses the maximum instead of the minimum |
| C27 | locks.cfa:152,175 | notify without the lock can find a waiter before its link is set; a single-acquisition lock retaken by its holder is not detected in release builds |
| C28 | locks.hfa:495-499 | fast_block_lock's on_notify queues a waiter on a free lock: it is stranded |
| C30 | locks.hfa:217-236 | mcs_spin_lock leaves `n.next` set after unlock, so a reused node breaks the queue |
| C32 | future.hfa | abandon while another thread is registered frees twice |
| C33 | future.hfa | an early return of wait_any leaves dangling registrations |
| C34, C65 | once.hfa | READY is never stored; the link of the calling thread is left set |
| C37 | ready_queue.cfa:226-241 | the index `(offset + i) % count` of the search wraps at 2^32, so a search can miss a lane and report an empty queue |
| C40 | monitor.cfa:782 | is_accepted compares a pointer; search_entry_queue looks only at the first monitor |
| C41 | snzi.hfa:9,64-65 | a node's count is a char: the 128th simultaneous arrival at one leaf makes it -128, after which every arrival there spins (checked only by verify) |
| C42 | select.hfa:129-146, channel.hfa:385-398 | a waituntil whose clauses send to and receive from one channel finds its own node pending, and toggles forever with the channel's lock held |
| C46 | future.hfa:113-138,158-168 | a getter that waited releases the future's lock without holding it when it raises; after a resumption the lock is released twice; try_get reports never-written storage for an exception; a getter woken with a value raises an exception put in after a reset |
| C47, C48 | ResolvExpr/Cost.hpp | byte carries in `+` are unchecked; compare(infinity, infinity) = 1; the constant `implicit` also sets the sign component |
| C50 | Common/ErasableScopedMap.hpp | insert after erase and iteration disagree with lookup |
| C53 | src/SymTab/Mangler.cpp:296-312 | nextVarNum is never incremented, so every type variable is number 0 and two variables of one kind get the same encoding: forall( T &, S & ) f( T &, S &, T & ) and f( T &, S &, S & ) have one mangled name. |
| C53 | src/SymTab/Mangler.cpp:170-182,292-312 | varNums is not restored after a nested forall clause, so a later type of the same name outside the clause is mangled as the variable. |
| C53 | src/SymTab/Mangler.cpp:254-268 | A qualified type below a qualified type loses its N...E brackets: A(B.C, D).X and A(B, C.D).X have one mangled name. |
| C53 | src/SymTab/Mangler.cpp:184-199 | The _ around instance parameters is also the end of parameter lists: with an aggregate used both with and without parameters two types have one name. |
| C53 | src/CodeGen/OperatorTable.cpp:22-66 | The output name of an operator is an ordinary C identifier: a function _operator_add has the mangled name of ?+?. |
| C54 | src/SymTab/Demangle.cpp:163-182 | parseFunction does not consume the closing _ of a nested function type, so the remaining parameters of the outer function are dropped silently. |
| C54 | src/SymTab/Demangle.cpp:221-240 | Parameters of generic aggregates (S1A_i_) are not parsed: the _ is taken for the end of the parameter list and the rest is dropped silently. |
| C54 | src/SymTab/Demangle.cpp:121-129 | curIdx + len wraps round modulo 2^64: _X1fFv_S18446744073709551595_1 reads the same parameter for ever and allocates without bound. |
| C54 | src/SymTab/Demangle.cpp:163-182,253-274 | Functions with several results, or with assertions, come back undemangled. |
| C54 | src/SymTab/Demangle.cpp:285-289 | A letter the demangler does not know (N for qualified types, Q after a qualifier) aborts by assertion instead of returning the name unchanged. |
| C55 | src/AST/TypeEnvironment.cpp:284-285 | A type variable unified with a reference is bound to the type referred to: T and int& unify with T = int, and the two are not equal. |
| C55 | src/ResolvExpr/Unify.cpp:290-303 | An array without dimension unifies with any array, so unification is not transitive and a variable bound to int[] unifies with int[3] and int[4] one after the other. |
| C55 | src/ResolvExpr/CommonType.cpp:503-539 | Parameters of function pointers whose bases have different qualifiers are not compared: void(*)(const int*) is accepted for void(*)(float*) although no widening is allowed. |
| C55 | src/ResolvExpr/CommonType.cpp:648-662 | A variable bound to a C enumeration is rebound to unsigned int without regard to the widening mode; the other way round is refused. |
| C55 | src/AST/TypeEnvironment.cpp:319-398 | Merging the classes of a complete and of an incomplete type variable forgets the completeness: sized T = S, S = void is accepted and T becomes void, which T = void alone does not. |
| C55 | src/ResolvExpr/Unify.cpp:526-531 | Type variables without a class are compared by name only. |
| C56 | src/AST/TypeEnvironment.cpp:205-220 | With r bound all variables of c are put into r before their own classes are looked up: b, bound elsewhere, is then in two classes, its old binding is out of sight and contradictory environments combine. |
| C56 | src/AST/TypeEnvironment.cpp:221-223 | Classes copied from the other environment are not checked for cycles; two acyclic environments combine to a cyclic one. |
| C56 | src/AST/TypeEnvironment.cpp:203-208 | mergeBound has bound r before the occurs check runs, so that the check for a variable without a class can follow a cycle for ever (stack overflow), depending on the order of a hash set. |
| C56 | src/AST/TypeEnvironment.cpp:190-224 | Whether two environments combine depends on the order of the classes: a variable whose class comes later is not yet open and compares unequal. |
| C57 | AST/TypeSubstitution.cpp:64-83 | lookup of a variable that leads to a cycle it is not on, e.g. to a variable bound to itself, does not terminate |
| C57 | AST/TypeSubstitution.cpp:164-189 | apply does not terminate on a two-variable cycle, which lookup handles; applyFree lets a free variable of a binding be captured by a forall; lookup drops the qualifiers of intermediate bindings, apply keeps them |
| C58 | Common/Eval.cpp:56-146 | the early returns leave hasKnownValue true with value 0 for operators over non-constant operands; Unify.cpp:161-172 and GenPoly.cpp:254-264 look only at hasKnownValue, so array dimensions n + 1 and m + 2 count as equal |
| C58 | Common/Eval.cpp:94-190 | x / 0 and x % 0 are reported as the known value 0; casts and unsigned wrap-around are ignored; shifts and overflow are undefined in the compiler, even in operands C does not evaluate |
| C59 | src/AST/Node.hpp:210-216 | Move assignment decrements the old node before it reads the source: p = std::move( p->next ) on the last reference reads the source after it was deleted (C59_move_child_refuted). |
| C59 | src/AST/Node.hpp:75-84, 93-105 | readonly references keep a node alive (the count of weak references is part of the deletion test), so a parent reference of kind readonly leaks the cycle (C59_weak_cycle_refuted); mutate looks only at the number of strong references, so through a readonly a node held by someone else's ptr is changed in place (C59_mutate_weak_refuted). |
| C60 | time.cfa | durations in (-1s, 0) lose their sign; years are printed modulo 99 |
| C61 | math | (-1)\y is 0 for y at least the width |
| C62 | math | log2_u32_32(1) shifts by the width |
| C63 | channel.hfa:424-434 | flush completes an OR waituntil that is already decided; a read overtakes the buffer; read and write of one channel in one OR waituntil spins forever |
| C66 | monitor.cfa | waitfor clauses naming different monitor sets can deadlock |
| C67 | stack | the push check misses the bottom node |
| C69 | abs | the minimum integer has no absolute value |
| C70 | string_res.cfa | strcmp$ truncates the length difference to int |
| C71 | string.cfa | `s(start, SSIZE_MAX)` overflows; `s(start)` is unchecked; replace with an empty `from` never returns |
| C72 | kernel/cluster.cfa:134-193 | unregistering does not wait for writers: a writer can touch the lock of an exited thread, and a thread that unregisters during a write section keeps its lock taken |
| C73 | future.hfa:80-86,174-187 | unregistering from a future takes no lock when the node has been removed: the fulfilling thread can still add to the park counter, and set the status, in a stack frame that is gone |
| C74 | Waituntil.cpp:216-257 | the second child overwrites andBelow set by the first: ( A and B ) or ( C or D ) is compiled as an exclusive choice of one of the four |
| C74 | Waituntil.cpp:202-208,274-304 | clauses of an all-optional disjunction are not collected: with all conditions false, ( when A or when B ) or ( when C and when D ) waits forever |
| C75 | Parser/ExpressionNode.cpp:122 | scanbin stops at the subscript `last - 1`, so the last two digits of a binary literal without suffix (one with a one-character suffix) are not read: 0b101 is the constant 1 to the translator (enum values, constant folding, type of the literal). |
| C75 | Parser/ExpressionNode.cpp:309-314 | The halves of a 128-bit literal are swapped when the lower half is zero, to cover the case of a literal that fits 64 bits: 0x10000000000000000L128 (2^64) becomes 1. |
| C75 | Parser/ExpressionNode.cpp:236-252 | Octal 128-bit literals: the size check looks at str[0], always '0', instead of str[1]; with 43 digits (len 44) the middle part is read from the leading zero on, 22 digits at once, and saturates from 2^64 on. |
| C75 | Parser/ExpressionNode.cpp:268-283 | Decimal 128-bit literals: more than 39 digits are not rejected, and unsigned ones from 2^127 on overflow signed __int128 arithmetic. |
| C76 | Parser/ExpressionNode.cpp:71-93 | The suffix lu (l followed by u) leaves the type unset: 5lu is an unsigned int, and 5u is handed on; 5ul is right. |
| C76 | Parser/ExpressionNode.cpp:96-114 | A decimal literal with u between 2^31 and 2^32 is an unsigned long int to the translator and an unsigned int to the C compiler; the l suffix gives long int even to 0xffffffffffffffffL. |
| C77 | pthread.cfa:221-223 | pthread_deletespecific_ tests key->destructor under key_lock and reads it again after unlocking: a concurrent pthread_key_delete makes it call NULL, and a re-created key's destructor may get a value never stored under that key. |
| C77 | pthread.cfa:236-240, 355-372 | Destructors of thread-specific data run in the thread that joins, not in the thread that ended: pthread_setspecific in a destructor changes the joining thread's values, and a thread never joined runs none. |
| C78 | pthread.cfa:447-455, 102-119 | pthread_mutex_trylock does not call mutex_check: after a successful trylock of a mutex initialised by PTHREAD_MUTEX_INITIALIZER, the next pthread_mutex_lock initialises the held mutex and both threads hold it. Two racing trylocks of such a mutex append to a zeroed list and write through NULL. |
| C78 | pthread.cfa:109-116, locks.hfa:523-528 | Double-checked initialisation: the constructor sets up the list (the word mutex_check tests) before owner, so a second thread may lock the mutex and then lose it to the first thread's write of owner = 0p; both hold it. |
| C78 | pthread.cfa:450-453 | pthread_mutex_trylock tests owner outside the lock and then calls the blocking lock: it blocks if another thread gets the mutex in between. |
| C79 | libcfa/src/concurrency/locks.cfa:567-575 | getDuration subtracts the wrong way round: pthread_cond_timedwait with a deadline in the future times out at once, with one in the past it waits as long as the deadline has passed |
| C79 | libcfa/src/concurrency/pthread.cfa:473-478 | pthread_cond_timedwait drops the result of wait and never returns ETIMEDOUT |
| C79 | libcfa/src/concurrency/pthread.cfa:480-488 | pthread_cond_signal and pthread_cond_broadcast return 1 (EPERM) when they woke a thread |
| C79 | libcfa/src/concurrency/locks.cfa:550-560, locks.hfa:578-609 | A waiting thread is on the condition's list before on_wait sets its link_node; a signal by a thread that does not hold the mutex then inserts an unset node pointer into the list of the mutex |
| C79 | libcfa/src/concurrency/pthread.cfa:466-471 | A condition variable set up with PTHREAD_COND_INITIALIZER has an all-zero list header; the first wait writes through a null pointer |
| C80 | libcfa/src/concurrency/pthread.cfa:504-509 | One global lock is held while an init routine runs: no other thread's pthread_once returns meanwhile, not even on a control that is done, so init routines that wait for another thread using pthread_once deadlock |
| C80 | libcfa/src/concurrency/pthread.cfa:505-507 | The lock is an owner lock and the control is set after the init routine: pthread_once on its own control from inside an init routine enters the init routine again |
| C81 | libcfa/src/memory.cfa:92-96, 84-90 | Assignment decrements before it changes the pointer: an assignment to a counter_ptr inside an object that is kept alive only through that pointer (breaking a cycle) destroys the object, decrements a second time in its destructor and then writes to freed memory |
| C81 | libcfa/src/memory.cfa:52-58 | The counter is an unsigned int without check: 2^32 copies of a pointer make it wrap, and the end of one destroys the object the others point to |
| C82 | libcfa/src/memory.cfa:151-156 | move deletes the target's object before it reads the source. move(p, p) destroys the object and leaves p null; move(head, (*head).next), the usual way to take off the head of a list, reads the destroyed object. |
| C83 | iostream.cfa:142-154 | printing the least int128 negates it, which overflows |
| C83 | iostream.cfa:898-901 | reading: the scan set [-] has no width, 40 minus signs write beyond char s[40] |
| C83 | iostream.cfa:898-911 | reading: more than 39 digits, even leading zeros, are cut off and dropped, so the value is wrong; without digits the variable keeps its value and no exception is raised |
| C84 | iostream.cfa:504 | val > power should be >=: 2^64 in base 2 or 16 prints as 0 |
| C84 | iostream.cfa:565-583 | signed decimal: chunks of 2^63 and more are printed with %ld as negative numbers, 10^19 prints as -8446744073709551616 |
| C84 | iostream.cfa:528 | left adjusted decimal: ceil(log10(v)) is one less than the number of digits for powers of ten, so the field is one blank too wide |
| C84 | iostream.cfa:516-517 | a precision not above the digits of the lower chunks is cleared together with the flag, so zero padding, which a precision should switch off, is done |
| C84 | iostream.cfa:418-452 | binary with a precision below the number of bits: the width is reduced by the precision, so the field is too wide; 0 in base 16 right adjusted prints 0x, blanks, 0 |
| C84 | libcfa/src/iostream.cfa:565-583 | signed decimal output with a manipulator of the least value negates it: overflow (C84_least_refuted) |
| C85 | actor.hfa:95-104, 284-285 | a buf_size of 0 is accepted; doubling it leaves 0, so the first message sent is written outside the buffer |
| C85 | actor.hfa:106-116 | inserting into a copy queue between removals overwrites messages not yet removed (documented in a comment, not tested) |
| C87 | actor.hfa:434-438, 701-702 | if the actors created so far terminate before the executor thread creates the next one, the wakeup is kept: actor_stop returns at once and deletes the executor while the later actors are live |
| C87 | actor.hfa:434-438, kernel.cfa:525-540 | if the count of actors reaches 0 twice before actor_stop parks, the program is aborted with mismatch park/unpark |
| C87 | actor.hfa:701-702 | actor_stop without any actor created since actor_start blocks for ever |
| C88 | vector2.hfa:148-157, 327-344 | insert_before on an empty vector computes its target from the null pointer elems_first_$ and then overwrites memory downwards |
| C88 | vector2.hfa:249, 265 | a vector constructed with capacity 0 fails an assertion at the first push_last (2 * 0 is no growth) |
| C88 | vector2.hfa:150 | the wrap-around loop uses > instead of >=: v[len], v[2*len], ... refer to the cell after the last element |
| C88 | vector2.hfa:150-151 | idx > len compares ptrdiff_t with size_t, that is unsigned, so a negative index never reaches the loop meant for it |
| C88 | vector2.hfa:206 | moveNext fails an assertion when the vector is full (end pointer wrapped) |
| C88 | vector2.hfa:268-272, 353 | an insertion at the front that fills the buffer leaves permits behind: from == to is taken for the empty range |
| C89 | src/BasicTypes-gen.cpp:349-351 | The loop that prints the ranks compares graph[c].rank with graph[c + 1].rank also for the last node, and so reads past the end of the array. |
| C89 | src/BasicTypes-gen.cpp:202-223 | assert( "invalid ancestor assumption" ) tests a string literal, so it never fails: with another graph a missing child is used as the index -1 and a missing entry stays NUMBER_OF_BASIC_TYPES, used later as an index. |
| C90 | src/ResolvExpr/CommonType.cpp:389,657 | An enumeration of C counts as signed int when it is the second operand and as unsigned int when it is the first, so c ? i : e is int and c ? e : i is unsigned int; likewise 0 with an enumeration gives the enumeration or unsigned int. |
| C90 | src/ResolvExpr/CommonType.cpp:371-373 | When only one side may be widened the result is the type of the other side, with no check that the conversion is safe: double is taken to int. |
| C91 | src/Concurrency/Keywords.cpp:1268-1271 | flattening asks args.at(0) whether it is a tuple, not arg: mutex([a,b],c) acquires a and b twice and never c; a tuple that is not first is not taken apart and does not compile |
| C91 | src/Concurrency/Keywords.cpp:1213-1243 | the type of the lock to release is found by evaluating the arguments again: when the body changes p in mutex(*p) the lock is never released; two locks of different types at one address both get the operations of the first |
| C91 | src/Concurrency/Keywords.cpp:1322-1337 | lock is called inside the try block whose finally clause unlocks: when lock raises an exception, a lock that was not acquired is released |
| C92 | libcfa/src/concurrency/io.cfa:304-305,536-585 | __release_sqes 'cannot be done by multiple threads', but a helping processor calls __cfa_do_flush on the ring of another processor without any lock (sq.lock is never used): entries are released twice, and then given to two clients |
| C93 | libcfa/src/concurrency/io.cfa:216-218 | Completions that the kernel kept back because the ring was full are fetched only if this drain took a whole ring; if the ring filled up during a drain of fewer, they stay in the kernel until the next time a drain happens to take a whole ring (C93_overflow_refuted). |
| C94 | libcfa/src/concurrency/io.cfa:650 | The test is the wrong way round: `have > want` gives up when there are more than enough entries, and goes on when there are too few; then the allocation fails (only a debug check notices) and the thread is woken with an array of entries that nobody wrote (C94_notify_refuted). Besides, the check of line 635 wants preemption enabled, line 139 wants it disabled, on the same path. |
| C94 | libcfa/src/concurrency/io.cfa:412-452,613-630 | A thread whose allocation failed enqueues its request without looking at the ring again: entries that are released in between do not wake it, and it waits though all entries are free (C94_lost_wakeup_refuted). |
| C94 | libcfa/src/concurrency/io.cfa:697-706, libcfa/src/concurrency/kernel.cfa:188-231 | A submission to the ring of a processor that has just flushed and is about to sleep is signalled before the sleep; the signal has no lasting effect, the processor sleeps and the thread waits; further submissions do not even send a signal (C94_sleep_refuted, C94_more_refuted). |
| C94 | libcfa/src/concurrency/io.cfa:142,245-247 | The system call clears pending although a request may have come in after the flush of external requests: a busy processor does not flush it (C94_pending_refuted). |
| C95 | libcfa/src/exception.c:494-533, 133-156 | An exception out of a finally clause that runs while another exception unwinds leaves the other one on the list of exceptions for good. A rethrow in a clause around then throws the one left behind (C95_finally_refuted), and an exception on its way is exchanged for it: since try_terminate returns the handler_index of current_exception, the clause of the wrong exception runs (C95_wrong_clause_refuted). |
| C95 | src/ControlStruct/ExceptTranslate.cpp:65-88, libcfa/src/exception.c:304-310 | throw; throws current_exception instead of the exception of its clause and clears the clause's pointer. When the rethrown exception is caught within the same clause it is deleted: a second throw; aborts (C95_rethrow_refuted) or throws the exception of an outer clause, which that clause then deletes while it is on its way (C95_deleted_refuted). In a finally clause throw; throws the exception on its way (C95_rethrow_finally_refuted). |
| C95 | src/ControlStruct/ExceptTranslate.cpp:126-128, 556-565 | throwResume; is taken anywhere in a catchResume clause but translated to return false, so in a try block with catch clauses or in a finally clause it returns from the wrapper function of the block (return with a value in a void function: a warning up to gcc 13, an error since) and the exception counts as handled (C95_reresume_refuted). |
| C96 | src/GenPoly/Box.cpp:322-325 | The layout function of a union starts with size 1, so a generic union whose members all have size 0 (empty structures, zero-length arrays) has a different size in generic code than its instance has in C, and the members after it different offsets (C96_union_refuted). |
| C97 | src/ControlStruct/MultiLevelExit.cpp:201-207, 447-456, 670-694; src/Parser/StatementNode.cpp:471-479 | A compound statement with a label that is itself the body of a loop or a branch of an if statement is not put in a block by the parser, and the label for its breaks is left in break_label for whatever block is visited next. `while (c) L: { ...; break L; }` leaves the loop (C97_body_refuted); with a break of the loop in it as well the label is lost and the C code does not compile (C97_lost_refuted); `if (c) L: { 1; break L; } else { 2; 3; }` jumps into the else branch, after 2 (C97_if_refuted). |
| C97 | src/ControlStruct/LabelGenerator.cpp:51-54 | The check after the name of the label is added compares the length of the addition with size minus itself, so a label of 61 characters or more fails the assertion although the buffer has room (read, not modelled). |
| C98 | src/ResolvExpr/CurrentObject.cpp:275-297,318-330 | After an initializer of structure type for a member or element the cursor is set to the start of that member and `smallStep` goes to its second member: with `struct A { int x, y; }`, `A a[2] @= { v, w }` offers `int` (of `a[0].y`) for `w` and is rejected. |
| C98 | src/ResolvExpr/CurrentObject.cpp:161-169 | `IndexIterator::setPosition` does not renew `memberIter`: in `A a[2] @= { 1, [1] = 2 }` the 2 is resolved against `a[1].y`; when the last element has been initialized `memberIter` is null and `int a[2] @= { [1] = 1, [0] = 2 }` dereferences it (the translator crashes). |
| C98 | src/ResolvExpr/CurrentObject.cpp:222,336-339,575-581 | `getNext` gives the type of the outermost member, whatever the position within it: the list in `.a0.y = { 2 }` or in `{ 1, { 2 } }` is resolved against the type of `a0`; for arrays also after the last element, so excess lists are accepted. |
| C98 | src/ResolvExpr/CurrentObject.cpp:429 | `TupleIterator::smallStep` tests `!memberIter` where the other iterators test `*memberIter`: the remaining members of a structure in a tuple are skipped (by reading, not modelled). |
| C99 | libcfa/src/concurrency/coroutine.cfa:277-291 | When a coroutine ends `starter` is dereferenced without a check that it still exists: if the first resumer has been destroyed and another coroutine resumes the last time, the end uses freed memory. |
| C99 | libcfa/src/concurrency/coroutine.cfa:155-170 | The destructor accepts a coroutine that is in the middle of a `resume`: it is unwound, and the coroutine it resumed (the destroyer or one below it) keeps a dangling `last`, used by its next `suspend`. |
| C100 | src/InitTweak/FixInit.cpp:1199-1221 | An explicit constructor call for a member anywhere in the body, also in one branch of an if, in a loop or after a return, takes the member out of the set of members to construct: on the other paths it is never constructed, and its use is accepted (C100_branch_refuted, C100_return_refuted); likewise for destructors (C100_undestroyed_refuted). Two calls for one member, or a call after delegating to another constructor, are accepted and construct it twice (C100_twice_refuted). |
| C100 | src/InitTweak/FixInit.cpp:1199-1236 | The call is seen before its arguments: in (this.x){ this.x } the use of the unconstructed member as its own argument is accepted (C100_self_refuted). |
| C101 | src/InitTweak/FixInit.cpp:993-994 | Computed gotos are not checked: a function in which one jumps over a declaration is accepted, and the object is used and destroyed without having been constructed (C101_computed_refuted). |
| C101 | src/InitTweak/FixInit.cpp:948-953 | Every object declaration counts, also of objects without constructor and initializer (int x;) and static ones: jumps that are legal in C and cross no construction are rejected as crossing an initialization (C101_plain_refuted). |
| C103 | src/AST/SymbolTable.cpp:591-594,623 | A copy function of the user deletes the intrinsic functions of the type, another function of the user does not and also prevents the later deletion; so for a basic type the order of two declarations decides whether its intrinsic default constructor can be called (C103_intrinsic_refuted) |
| C103 | src/AST/SymbolTable.cpp:695-724 | Only the earlier declaration is asked whether it can be overridden: a constructor defined for a structure that is only declared yet makes the generated one a duplicate definition, an error (C103_before_refuted) |
| C105 | libcfa/src/fstream.cfa:34-44,71; libcfa/src/iostream.cfa:51-55,246 | A new stream starts with sawNL$ false, so sout | sep | 1 starts the first line with a separator; a character or a null string does not clear sawNL$, so sep after it at the beginning of a line is ignored ('a' | sep | 1 shows a1); a null string is shown without separator before it (1 | 0p shows 10p). Also fmt calls vfprintf again with the same va_list after EINTR. |
| C107 | libcfa/src/device/cpu.cfa:242-247,320-325,435-450 | The tables raw, pairings and entries are allocated with the number of online processors and indexed by processor numbers: with an offline processor (online file "0,2-3") the accesses go beyond the arrays; only the debug build checks it (verify(cpus_c > i), 353). |
| C108 | src/ResolvExpr/CandidateFinder.cpp:2058-2067 | When all types are ambiguous the error lists findMinCost( candidates ), taken before assertions are satisfied: it can say "Cannot choose between 1 alternatives" and name a candidate whose assertions fail instead of the tied ones. |
| C109 | src/CodeGen/GenType.cpp:98,162 | parentheses are put around the declarator only if it starts with a star; a reference to an array (or a function) is printed as & name [..], which reads as an array of references. Only the mode that prints Cforall code is affected. |
| C110 | src/ResolvExpr/SpecCost.cpp:94-101 | the previsit of struct and union types does not turn off the visit of the arguments, so the count of the last visited argument replaces the minimum: pair(T, int *) costs 2, pair(int *, T) costs 1, pair(T, struct X) costs 0. |
| C111 | libcfa/src/parseconfig.cfa:98-101 | the blocks for key and value have strlen bytes, strcpy writes one more (also in the constructors of the exceptions, 34-37 and 53-56). |
| C111 | libcfa/src/parseconfig.cfa:110-112 | the first word of a comment is read into the 64 bytes of a key: a comment that starts with a longer word (a rule of dashes) ends the program with cstring_length. |
| C112 | libcfa/src/parseconfig.cfa:165,186,192 | pairs are counted instead of entries: a key given twice hides a missing entry, and stops the loop before an entry further down is read. |
| C112 | libcfa/src/parseargs.cfa:333-336 with parseconfig.cfa:83-87,197 | for a string variable parse stores the pointer to the value of the pair, which is freed before parse_config returns. |
| C113 | libcfa/src/parseargs.cfa:342-348 | An empty argument (`--count=`) is accepted by parse of int as 0: strtoll consumes nothing, sets no errno, and *end is the null character; the unsigned types refuse it in strict_strtoull. parse of double (399-405) has the same omission and does not look at errno. |
| C114 | libcfa/src/parseargs.cfa:191-192,218 | If the terminal reports 0 columns (ws_col stays 0 on a pseudo terminal whose size was never set), hwidth is 0, real is 0, and printopt prints empty lines forever. |
| C115 | libcfa/src/parseargs.cfa:62,149-152 | check_args does not refuse the short names h and ?; such an option always prints the usage text and exits. |
| C116 | src/ResolvExpr/RenameVars.cpp:85 with Common/ScopedMap.hpp:165-169 | openLevel begins a scope and then assigns through operator[] of ScopedMap, which looks in all scopes: a nested forall with a name of an enclosing forall (say the type of a function-pointer parameter) overwrites the outer entry, so occurrences of the outer variable after it (in the order assertions, returns, parameters) get the key of the inner variable. insert would be right. |
| C117 | libcfa/src/lsda.h:91,111 | A LEB128 number with more than ten bytes (legal padding) shifts a 64-bit number by 70 or more, which is undefined; read_sleb128 tests the shift only for the sign extension. |
| C118 | libcfa/src/concurrency/mutex.cfa:167-175 | wait(cond_lock, recursive_mutex_lock) unlocks once: at depth 2 or more the waiting thread keeps the lock (deadlock with any notifier that locks first). |
| C118 | libcfa/src/concurrency/mutex.hfa:104-127,mutex.cfa:179-197 | Read, not modelled: the header declares lock and unlock for arrays of locks, the file defines lock_all and unlock_all; lock_scope therefore refers to functions that are not defined, and its lock function returns no value. |
| C119 | libcfa/src/strstream.cfa:130-132 | The result of vsnprintf is added to the cursor without a test: an encoding error (-1) silently removes the last character, and at cursor 0 reports a buffer too small. |
| C119 | libcfa/src/strstream.cfa:202-205 | istrstream fmt does not skip leading blanks before it moves the cursor, so a word after two blanks is read again; a newline is not taken as white space, so the word after it is skipped. |
| C121 | src/Parser/TypedefTable.cpp:101-107, src/Parser/parser.yy:1254-1270 | declarations are always added to the scope around the current one, which is right at file level where each external definition has a scope of its own, but a declaration in a block has none: a typedef in an inner block is put into the scope of the outer block and is still a type name after the inner block has closed (C121_leak, C121_block_refuted) |

Noticed but not stated as properties: Demangle.cpp:71-75 uses ast::BasicType::NUMBER_OF_BASIC_TYPES and ast::BasicType::Kind, which moved to ast::BasicKind, so the file no longer compiles as it stands; an "or" waituntil all of whose clauses have false conditions skips its else clause too (Waituntil.cpp genAllOr); recursiveOrIfGen reads else_stmt->location before testing else_stmt;
the six-argument string find (string.cfa:405-417, not in the header) ignores several arguments;
`find(string, size_t, const string &)` is declared but not defined; VbyteTryAdjustLast doubles only once; `is_closed` is declared void;
update_preemption re-registers an alarm without recomputing its deadline; getDuration(timespec) is inverted (locks.cfa);
StackLF unsafe_remove takes the address of the top word; nested unordered monitor calls can deadlock; transfer(q, q) loses the list;
`get` of single_future that returns a pair reads the result before waiting (future.hfa:340); manager_extend lacks an `else` after the lookup (heap.cfa:864-866, harmless).

## What is and is not modelled

Modelled: the functions cited in the comments of `rocq/theories/*/Model*.v`. Each topic's model file starts with its scope and its
simplifications. Throughout: sequential consistency; park/unpark by the ticket protocol of `Park/` or by its contract; malloc, mmap and sbrk by their
contract (a placement oracle that may fail); no signals inside critical sections; no I/O.

Not modelled: code generation and most of the compiler's passes, I/O (io_uring, streams), coroutine context switches, actors, exceptions,
the concurrency kernel's idle sleep, statistics, debug-only checks unless stated, and the parts of `libcfa/src` without a topic directory.

## Assumptions

`Print Assumptions` for the theorems named in MANIFEST.json. Library axioms that come with loading the standard library's ssreflect files
(`Coq.ssr.ssrunder.Under_rel.*`, seven declarations of a sealed module) are not used by any theorem.

<!-- assumptions -->
| property | theorems | Print Assumptions |
|---|---|---|
| C01 | `C01_canonical_forever`, `C01_reduction_terminates`, `C01_abort_iff_zero_denominator`, `C01_div_abort_iff_zero`, `C01_pow_abort_iff` | closed under the global context |
| C02 | `C02_constructor_exact`, `C02_add_exact`, `C02_sub_exact`, `C02_mul_exact`, `C02_div_exact`, `C02_neg_exact`, `C02_abs_exact`, `C02_pos_identity`, `C02_pow_exact`, `C02_comparisons_exact`, `C02_representation_unique` | closed under the global context |
| C03 | `C03_setter_numerator_refuted`, `C03_setter_denominator_refuted`, `C03_setter_partial` | closed under the global context |
| C04 | `C04_time_to_timespec`, `C04_time_to_timeval`, `C04_timespec_roundtrip_partial`, `C04_timeval_roundtrip_partial`, `C04_timespec_roundtrip_refuted`, `C04_duration_from_timespec`, `C04_duration_from_timeval`, `C04_unit_roundtrip`, `C04_unit_truncates`, `C04_unit_scales`, `C04_time_add_sub`, `C04_time_difference`, `C04_time_difference_exact`, `C04_duration_abs_min_max` | closed under the global context |
| C05 | `C05_alarm_wellformed`, `C05_interval_refuted`, `C05_interval_partial` | closed under the global context |
| C06 | `C06_leading0s`, `C06_trailing0s`, `C06_all1s`, `C06_all0s`, `C06_low1`, `C06_low0`, `C06_high1`, `C06_high0`, `C06_is_pow2`, `C06_floor2_unsigned`, `C06_ceiling2_unsigned`, `C06_floor2_signed`, `C06_ceiling2_signed`, `C06_libPow2`, `C06_libFloor`, `C06_libCeiling`, `C06_lib_abort`, `C06_floor_unsigned`, `C06_ceiling_unsigned`, `C06_ceiling_signed`, `C06_floor_signed_partial`, `C06_floor_signed_rounds_up_when_negative`, `C06_floor_signed_refuted`, `C06_ceiling_div_unsigned_partial`, `C06_ceiling_div_signed_partial`, `C06_ceiling_div_refuted`, `C06_log2` | closed under the global context |
| C07 | `C07_sorted_permutation` | closed under the global context |
| C08 | `C08_lower_bound`, `C08_upper_bound`, `C08_exact` | closed under the global context |
| C09 | `C09_lcgbi`, `C09_xorshift`, `C09_xoshiro`, `C09_xorwow`, `C09_counters`, `C09_kiss_parts`, `C09_kiss_mwc_refuted`, `C09_never_zero`, `C09_kiss_mwc_nonzero`, `C09_xoshiro_seed`, `C09_splitmix64_output`, `C09_splitmix32_output_refuted`, `C09_seed_refuted`, `C09_seed_nonzero` | closed under the global context |
| C10 | `C10_stack`, `C10_queue`, `C10_sequence`, `C10_contents`, `C10_listed` | closed under the global context |
| C11 | `C11_refines`, `C11_walks`, `C11_membership`, `C11_validates` | closed under the global context |
| C12 | `C12_actual`, `C12_first_refuted`, `C12_last_refuted` | closed under the global context |
| C13 | `C13_refines`, `C13_capacity`, `C13_reserve_refuted`, `C13_bytes_refuted` | closed under the global context |
| C14 | `C14_clear_actual`, `C14_clear_refuted`, `C14_empty`, `C14_copy_actual`, `C14_copy_refuted` | closed under the global context |
| C15 | `C15_address`, `C15_in_bounds`, `C15_distinct`, `C15_onto`, `C15_checked`, `C15_lifetime` | closed under the global context |
| C16 | `C16_values`, `C16_parts`, `C16_next`, `C16_shared_append_refuted`, `C16_moved_append_refuted`, `C16_overlap_refuted`, `C16_stale_refuted`, `C16_null_handle_refuted` | closed under the global context |
| C17 | `C17_find`, `C17_least_unique`, `C17_find_empty`, `C17_find_empty_refuted`, `C17_find_char`, `C17_find_char_refuted`, `C17_long_refuted`, `C17_includes`, `C17_includes_refuted`, `C17_prefix`, `C17_suffix` | closed under the global context |
| C18 | `C18_smallest_class`, `C18_lookup_agrees`, `C18_threshold`, `C18_leftover_safe`, `C18_leftover_largest`, `C18_classes` | closed under the global context |
| C19 | `C19_no_overlap`, `C19_aligned`, `C19_inside_system_storage`, `C19_bookkeeping`, `C19_contents`, `C19_granted`, `C19_realloc`, `C19_requested_alignment`, `C19_aligned_empty_refuted` | closed under the global context |
| C20 | `C20_enough_bytes`, `C20_products`, `C20_malloc_refuted`, `C20_memalign_refuted`, `C20_pvalloc_refuted`, `C20_array_refuted`, `C20_null_refuted` | closed under the global context |
| C21 | `C21_lexicographic`, `C21_consistent`, `C21_maybe`, `C21_result`, `C21_result_assignment_value_refuted` | closed under the global context |
| C22 | `C22_fifo_exactly_once`, `C22_nothing_lost_or_duplicated`, `C22_only_real_elements`, `C22_arrival_order` | closed under the global context |
| C23 | `C23_blocking_discipline`, `C23_blocks_only_if_needed` | closed under the global context |
| C24 | `C24_nobody_stranded`, `C24_closed_insert_refused`, `C24_remaining_elements_removable` | closed under the global context |
| C25 | `C25_refines_permits_fifo_partial`, `C25_permits_conserved_partial`, `C25_fifo_partial`, `C25_negative_count_refuted`, `C25_empty_refuted` | closed under the global context |
| C26 | `C26_bulk_release_partial`, `C26_bulk_count`, `C26_bulk_release_refuted`, `C26_positive_count_refuted` | closed under the global context |
| C27 | `C27_mutual_exclusion`, `C27_owner_counts`, `C27_unlock`, `C27_fifo`, `C27_try_lock`, `C27_wait_releases`, `C27_wait_returns`, `C27_wait_depth_kept`, `C27_wait_result`, `C27_cond_queue`, `C27_notify`, `C27_notify_without_lock_refuted`, `C27_single_relock_refuted`, `C27_timeout` | closed under the global context |
| C28 | `C28_block_spin_exclusive`, `C28_block_spin_fifo`, `C28_block_spin_progress`, `C28_block_spin_notified`, `C28_fast_block_exclusive`, `C28_fast_block_no_stranded`, `C28_fast_block_handover`, `C28_fast_block_wait_returns_holding`, `C28_fast_block_stranded_refuted` | closed under the global context |
| C29 | `C29_futex_exclusive`, `C29_futex_no_lost_wakeup`, `C29_futex_carrier_steps`, `C29_go_exclusive`, `C29_go_no_lost_wakeup`, `C29_backoff_exclusive`, `C29_backoff_no_lost_wakeup`, `C29_backoff_waker_steps` | closed under the global context |
| C30 | `C30_exclusive`, `C30_fifo`, `C30_free`, `C30_progress`, `C30_handoff`, `C30_reuse_refuted`, `C30_block_spin_exclusive` | closed under the global context |
| C31 | `C31_sem_atomic`, `C31_oneshot_atomic`, `C31_unparked_once`, `C31_oneshot_stays`, `C31_sem_not_stranded`, `C31_oneshot_not_stranded`, `C31_post_releases` | closed under the global context |
| C32 | `C32_registration_history_partial`, `C32_posted_iff_not_retracted`, `C32_freed_once_partial`, `C32_spin_ends`, `C32_abandon_registered_refuted` | closed under the global context |
| C33 | `C33_no_dangling_partial`, `C33_returns_ready`, `C33_wait_ends`, `C33_early_return_refuted` | closed under the global context |
| C34 | `C34_exactly_once`, `C34_legal_meaning`, `C34_nobody_stays_parked`, `C34_winner_progress`, `C34_ready_refuted` | closed under the global context |
| C35 | `C35_releases_whole_groups`, `C35_reusable` | closed under the global context |
| C36 | `C36_ordered`, `C36_tick`, `C36_cancelled`, `C36_timer_armed` | closed under the global context |
| C37 | `C37_history`, `C37_conserved`, `C37_lanes`, `C37_search`, `C37_search_refuted` | closed under the global context |
| C38 | `C38_exclusive`, `C38_exclusive_entered`, `C38_recursion`, `C38_free`, `C38_queued`, `C38_not_lost`, `C38_entry_order`, `C38_return`, `C38_wait`, `C38_signal`, `C38_signal_block`, `C38_resume` | closed under the global context |
| C39 | `C39_no_deadlock` | closed under the global context |
| C40 | `C40_first`, `C40_admitted`, `C40_single`, `C40_waitfor`, `C40_multi_refuted`, `C40_queued_refuted` | closed under the global context |
| C41 | `C41_sound`, `C41_quiet`, `C41_no_fault`, `C41_nonblocking`, `C41_built`, `C41_fits_refuted` | closed under the global context |
| C42 | `C42_one`, `C42_meet`, `C42_resumed`, `C42_waiting`, `C42_waiting_plain`, `C42_nodes`, `C42_self_refuted` | closed under the global context |
| C43 | `C43_linearizable`, `C43_results`, `C43_conservation`, `C43_version`, `C43_solo` | closed under the global context |
| C44 | `C44_fifo`, `C44_empty`, `C44_next`, `C44_starts`, `C44_progress`, `C44_released` | closed under the global context |
| C45 | `C45_value`, `C45_put`, `C45_woken`, `C45_safe`, `C45_freed`, `C45_count`, `C45_assign`, `C45_assign_done`, `C45_copy`, `C45_destroy` | closed under the global context |
| C46 | `C46_lock_partial`, `C46_raise_partial`, `C46_lock_refuted`, `C46_resume_refuted`, `C46_try_refuted`, `C46_late_refuted` | closed under the global context |
| C47 | `C47_order_is_lexicographic`, `C47_infinity_greatest`, `C47_strict_total_order`, `C47_components_determine`, `C47_construct`, `C47_add_componentwise`, `C47_add_monoid`, `C47_add_assoc`, `C47_add_monotone`, `C47_add_unchecked_refuted`, `C47_increment`, `C47_decrement_spec` | closed under the global context |
| C48 | `C48_compare_partial`, `C48_compare_infinity_refuted`, `C48_units_partial`, `C48_implicit_unit_refuted` | closed under the global context |
| C49 | `C49_refines_environment_stack`, `C49_scope_restores`, `C49_iteration` | closed under the global context |
| C50 | `C50_erase_hides`, `C50_insert_partial`, `C50_insert_after_erase_refuted`, `C50_scope`, `C50_iteration_partial`, `C50_iteration_refuted`, `C50_erase_result_refuted` | closed under the global context |
| C51 | `C51_versions_are_immutable`, `C51_old_version_unchanged` | closed under the global context |
| C52 | `C52_exactly_valid_combinations`, `C52_into_vector`, `C52_no_duplicates` | closed under the global context |
| C53 | `C53_injective`, `C53_type_mode`, `C53_prefix`, `C53_kept`, `C53_forall_partial`, `C53_operators`, `C53_variables_refuted`, `C53_scope_refuted`, `C53_parameters_refuted`, `C53_qualified_refuted`, `C53_operator_name_refuted` | closed under the global context |
| C54 | `C54_roundtrip_partial`, `C54_type`, `C54_mono`, `C54_unchanged`, `C54_ends`, `C54_ends_refuted`, `C54_nested_refuted`, `C54_generic_refuted`, `C54_results_refuted`, `C54_abort_refuted` | closed under the global context |
| C55 | `C55_environment_stays_correct`, `C55_success_makes_equal`, `C55_environment_is_extended`, `C55_success_has_instance`, `C55_no_common_instance_fails`, `C55_failure_means_no_instance`, `C55_reference_refuted`, `C55_array_without_dimension_refuted`, `C55_function_pointer_refuted`, `C55_enumeration_refuted`, `C55_complete_variable_becomes_void_refuted`, `C55_closed_variables_by_name_refuted`, `C55_widening_is_top_level` | closed under the global context |
| C56 | `C56_variable_in_two_classes_refuted`, `C56_cycle_refuted`, `C56_combine_terminates_refuted`, `C56_order_refuted`, `C56_combine_partial` | closed under the global context |
| C57 | `C57_lookup_end`, `C57_lookup_cycle`, `C57_lookup_only`, `C57_lookup_terminates_partial`, `C57_lookup_terminates_refuted`, `C57_apply`, `C57_apply_unique`, `C57_apply_idempotent`, `C57_apply_terminates_refuted`, `C57_lookup_apply_refuted`, `C57_free_bound`, `C57_free_capture_refuted`, `C57_normalize_partial`, `C57_add`, `C57_add_all` | closed under the global context |
| C58 | `C58_sound_partial`, `C58_evaluable`, `C58_complete`, `C58_sound_refuted`, `C58_known_refuted`, `C58_known_zero`, `C58_dimensions_refuted`, `C58_dimensions_partial`, `C58_zero_division_refuted`, `C58_cast_refuted`, `C58_unsigned_refuted`, `C58_no_ub_refuted`, `C58_no_ub_partial`, `C58_unlisted` | closed under the global context |
| C59 | `C59_counts`, `C59_no_dangling`, `C59_deleted`, `C59_completes`, `C59_assign`, `C59_drop`, `C59_move`, `C59_release`, `C59_swap`, `C59_mutate_shared`, `C59_mutate_unique`, `C59_move_child_refuted`, `C59_cycle_refuted`, `C59_weak_cycle_refuted`, `C59_mutate_weak_refuted` | closed under the global context |
| C60 | `C60_print_duration_partial`, `C60_print_total`, `C60_print_negative_refuted`, `C60_two_digit_year_refuted` | closed under the global context |
| C61 | `C61_power_unsigned`, `C61_power_signed_partial`, `C61_power_signed_refuted`, `C61_power_polymorphic` | closed under the global context |
| C62 | `C62_log2_integer_part_partial`, `C62_log2_of_one_refuted` | closed under the global context |
| C63 | `C63_one_clause_partial`, `C63_flush_refuted`, `C63_channel_order_refuted`, `C63_same_channel_hangs_refuted` | closed under the global context |
| C64 | `C64_no_lost_wakeup`, `C64_matched_resumes`, `C64_scheduled_once`, `C64_returns_matched`, `C64_abort_iff_mismatch` | closed under the global context |
| C65 | `C65_link_left_dirty_refuted` | closed under the global context |
| C66 | `C66_single`, `C66_mixed_refuted`, `C66_baton_refuted`, `C66_deadlock_refuted` | closed under the global context |
| C67 | `C67_queue`, `C67_stack`, `C67_dllist`, `C67_stack_check_gap` | closed under the global context |
| C68 | `C68_queries`, `C68_usable_disjoint` | closed under the global context |
| C69 | `C69_min_max`, `C69_partition`, `C69_clamp`, `C69_abs`, `C69_abs_fixed_width_refuted`, `C69_swap` | closed under the global context |
| C70 | `C70_strcmp`, `C70_operators`, `C70_order`, `C70_long_refuted`, `C70_strncmp` | closed under the global context |
| C71 | `C71_include`, `C71_include_predicate`, `C71_longest_unique`, `C71_slice`, `C71_slice_overflow_refuted`, `C71_tail`, `C71_tail_refuted`, `C71_replace`, `C71_replace_empty_refuted` | closed under the global context |
| C72 | `C72_exclusive`, `C72_ids`, `C72_no_fault_partial`, `C72_progress_partial`, `C72_free_partial`, `C72_free_refuted`, `C72_no_fault_refuted` | closed under the global context |
| C74 | `C74_when`, `C74_start`, `C74_vacuous_partial`, `C74_vacuous_refuted`, `C74_all_or_partial`, `C74_no_and`, `C74_all_or_refuted` | closed under the global context |
| C73 | `C73_sleep`, `C73_unpark`, `C73_progress`, `C73_ends`, `C73_once`, `C73_kept`, `C73_frame_partial`, `C73_frame_refuted` | closed under the global context |
| C75 | `C75_value`, `C75_too_large_refuted`, `C75_text`, `C75_binary_partial`, `C75_binary_refuted`, `C75_hex128_partial`, `C75_decimal128_partial`, `C75_octal128_partial`, `C75_decimal128_too_large`, `C75_lower_half_zero_refuted`, `C75_octal128_refuted`, `C75_octal128_too_large_refuted`, `C75_decimal128_refuted`, `C75_binary128_refuted` | closed under the global context |
| C76 | `C76_zero_one`, `C76_type_partial`, `C76_long_unsigned_refuted`, `C76_unsigned_decimal_refuted`, `C76_long_refuted`, `C76_binary_refuted`, `C76_length_asked` | closed under the global context |
| C77 | `C77_values`, `C77_new_key_null`, `C77_get_after_set`, `C77_destructors_partial`, `C77_defined_partial`, `C77_delete_race_refuted`, `C77_stale_value_refuted`, `C77_own_thread_refuted`, `C77_join_keeps_values_refuted` | closed under the global context |
| C78 | `C78_exclusive_partial`, `C78_defined_partial`, `C78_results_partial`, `C78_waiters_partial`, `C78_static_quiet_partial`, `C78_static_trylock_refuted`, `C78_static_race_refuted`, `C78_static_null_refuted`, `C78_trylock_blocks_refuted` | closed under the global context |
| C79 | `C79_exclusive`, `C79_depth_restored`, `C79_signal_one`, `C79_broadcast_all`, `C79_defined_partial`, `C79_signal_race_refuted`, `C79_static_refuted`, `C79_signal_result_refuted`, `C79_timeout_result_refuted`, `C79_deadline_exact`, `C79_deadline_refuted` | closed under the global context |
| C80 | `C80_once_partial`, `C80_returns_after`, `C80_exactly_partial`, `C80_no_deadlock`, `C80_null`, `C80_reentrant_refuted`, `C80_independent_refuted` | closed under the global context |
| C81 | `C81_defined`, `C81_counts`, `C81_deref`, `C81_effect`, `C81_once`, `C81_no_leak`, `C81_cycle_refuted`, `C81_self_owned_refuted`, `C81_wrap_refuted`, `C81_equal` | closed under the global context |
| C82 | `C82_defined_partial`, `C82_unique`, `C82_effect`, `C82_destroys`, `C82_once`, `C82_no_leak`, `C82_move_self_refuted`, `C82_move_tail_refuted`, `C82_own_itself_refuted` | closed under the global context |
| C83 | `C83_print_unsigned`, `C83_print_signed_partial`, `C83_decimal_unique`, `C83_read_back`, `C83_print_least_refuted`, `C83_read_smash_refuted`, `C83_read_smash_iff`, `C83_read_nothing`, `C83_read_zeros_refuted` | closed under the global context |
| C84 | `C84_print128_partial`, `C84_shown_unique`, `C84_width`, `C84_hex_refuted`, `C84_signed_refuted`, `C84_left_refuted`, `C84_precision_refuted`, `C84_binary_refuted`, `C84_zero_refuted`, `C84_least_refuted` | closed under the global context |
| C85 | `C85_fifo`, `C85_empty`, `C85_space`, `C85_size_zero_refuted`, `C85_discipline_refuted`, `C85_parts`, `C85_victim_part` | closed under the global context |
| C86 | `C86_safe`, `C86_order`, `C86_nothing_lost`, `C86_one_at_a_time`, `C86_sequential`, `C86_quiet`, `C86_served`, `C86_no_gap`, `C86_alive`, `C86_bufsize_zero_refuted` | closed under the global context |
| C87 | `C87_count`, `C87_no_mismatch`, `C87_stops_after_all`, `C87_wakes`, `C87_early_refuted`, `C87_mismatch_refuted`, `C87_no_actor_refuted` | closed under the global context |
| C88 | `C88_sequence`, `C88_permit_stays`, `C88_iteration`, `C88_insert_empty_refuted`, `C88_capacity_zero_refuted`, `C88_past_end_refuted`, `C88_negative_refuted`, `C88_iterate_full_refuted`, `C88_permit_left_refuted`, `C88_exit_refuses` | closed under the global context |
| C89 | `C89_costs`, `C89_ends`, `C89_choice`, `C89_tables`, `C89_common_upper`, `C89_common_table`, `C89_order`, `C89_common_least`, `C89_common_cheapest`, `C89_common_of_many`, `C89_resolver_cost`, `C89_resolver_order`, `C89_max_int`, `C89_hierarchy_refuted` | closed under the global context |
| C90 | `C90_basic`, `C90_operands`, `C90_constant_takes`, `C90_upper_refuted`, `C90_enum`, `C90_enum_order_refuted`, `C90_zero_enum_refuted`, `C90_two_enums_refuted`, `C90_one_sided`, `C90_one_sided_refuted`, `C90_qualifiers`, `C90_mutex_refuted` | closed under the global context |
| C91 | `C91_statement`, `C91_no_deadlock`, `C91_ends`, `C91_exclusion`, `C91_tuples_refuted`, `C91_twice_refuted`, `C91_moved_refuted`, `C91_same_address_refuted`, `C91_raise_refuted`, `C91_empty` | closed under the global context |
| C92 | `C92_refines`, `C92_total`, `C92_conserved`, `C92_fifo`, `C92_available`, `C92_teardown`, `C92_alone`, `C92_helper_refuted` | closed under the global context |
| C93 | `C93_once`, `C93_alone`, `C93_bounded`, `C93_drained`, `C93_overflow_refuted` | closed under the global context |
| C94 | `C94_once`, `C94_woken`, `C94_flag`, `C94_alone`, `C94_flushed`, `C94_sleep_refuted`, `C94_more_refuted`, `C94_pending_refuted`, `C94_intended`, `C94_notify_refuted`, `C94_notify_exact`, `C94_lost_wakeup_refuted` | closed under the global context |
| C95 | `C95_cast`, `C95_deterministic`, `C95_refines`, `C95_anywhere`, `C95_resume_stack`, `C95_accepted`, `C95_finally_refuted`, `C95_wrong_clause_refuted`, `C95_rethrow_refuted`, `C95_deleted_refuted`, `C95_rethrow_finally_refuted`, `C95_reresume_refuted` | closed under the global context |
| C96 | `C96_layout`, `C96_offsets`, `C96_struct`, `C96_union_refuted` | closed under the global context |
| C97 | `C97_refines`, `C97_deterministic`, `C97_choose`, `C97_labels`, `C97_accepts`, `C97_body_refuted`, `C97_lost_refuted`, `C97_if_refuted` | closed under the global context |
| C98 | `C98_cursor`, `C98_flat`, `C98_typed`, `C98_value_refuted`, `C98_brace_refuted`, `C98_index_refuted`, `C98_crash_refuted`, `C98_excess_refuted` | closed under the global context |
| C99 | `C99_control`, `C99_one_active`, `C99_never_again`, `C99_stack`, `C99_end_refuted`, `C99_freed_refuted`, `C99_waiting_refuted` | closed under the global context |
| C100 | `C100_first`, `C100_body`, `C100_implicit_once`, `C100_once_partial`, `C100_branch_refuted`, `C100_return_refuted`, `C100_twice_refuted`, `C100_self_refuted`, `C100_destructor_order`, `C100_destroyed_partial`, `C100_undestroyed_refuted` | closed under the global context |
| C101 | `C101_exact`, `C101_live_partial`, `C101_fresh_partial`, `C101_balance_partial`, `C101_left_partial`, `C101_computed_refuted`, `C101_plain_refuted` | closed under the global context |
| C102 | `C102_lazy`, `C102_restore`, `C102_outer`, `C102_type_hides`, `C102_id_hides`, `C102_redeclare`, `C102_c_linkage` | closed under the global context |
| C103 | `C103_available_partial`, `C103_order_partial`, `C103_intrinsic_refuted`, `C103_before_refuted` | closed under the global context |
| C104 | `C104_no_abort`, `C104_nesting`, `C104_scheduler`, `C104_one`, `C104_signal`, `C104_pending`, `C104_poll` | closed under the global context |
| C105 | `C105_statement`, `C105_off`, `C105_line_start`, `C105_first_refuted`, `C105_sep_partial`, `C105_sep_refuted`, `C105_nosep`, `C105_null_refuted`, `C105_newline`, `C105_silent` | closed under the global context |
| C106 | `C106_iter`, `C106_sound`, `C106_total`, `C106_order`, `C106_width` | closed under the global context |
| C107 | `C107_map`, `C107_offline`, `C107_online_refuted` | closed under the global context |
| C108 | `C108_choice`, `C108_best`, `C108_order`, `C108_found`, `C108_min`, `C108_min_order`, `C108_named_refuted` | closed under the global context |
| C109 | `C109_c`, `C109_declares`, `C109_unique`, `C109_injective`, `C109_ref_refuted` | closed under the global context |
| C110 | `C110_partial`, `C110_mono`, `C110_nonneg`, `C110_level`, `C110_refuted` | closed under the global context |
| C111 | `C111_space`, `C111_tabular`, `C111_room`, `C111_comment_refuted`, `C111_novalue_refuted`, `C111_store_refuted` | closed under the global context |
| C112 | `C112_done`, `C112_missing`, `C112_parse_fail`, `C112_valid_fail`, `C112_complete`, `C112_twice_refuted`, `C112_string_refuted` | closed under the global context |
| C113 | `C113_int`, `C113_empty_refuted`, `C113_unsigned`, `C113_value`, `C113_words` | closed under the global context |
| C114 | `C114_column`, `C114_pieces`, `C114_width_refuted` | closed under the global context |
| C115 | `C115_choice`, `C115_check`, `C115_help_refuted` | closed under the global context |
| C116 | `C116_decl`, `C116_use`, `C116_uses`, `C116_shadow_refuted`, `C116_formal`, `C116_unnumbered` | closed under the global context |
| C117 | `C117_uleb`, `C117_sleb`, `C117_round`, `C117_padding_refuted`, `C117_fixed`, `C117_variable`, `C117_aligned`, `C117_size` | closed under the global context |
| C118 | `C118_exclusive`, `C118_fields`, `C118_safe`, `C118_fifo`, `C118_handoff`, `C118_try`, `C118_notify`, `C118_wait`, `C118_wait_refuted` | closed under the global context |
| C119 | `C119_stream`, `C119_length`, `C119_bounds`, `C119_error_refuted`, `C119_read`, `C119_read_refuted` | closed under the global context |
| C120 | `C120_parent`, `C120_order`, `C120_cast`, `C120_upcast`, `C120_null`, `C120_table`, `C120_conflict` | closed under the global context |
| C121 | `C121_file`, `C121_uses`, `C121_transparent`, `C121_generic`, `C121_forall_ends`, `C121_local`, `C121_leak`, `C121_block_refuted`, `C121_repaired` | closed under the global context |
<!-- end assumptions -->
