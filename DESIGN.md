# Formal model of awl (dmitriano/Awl) in Rocq

Everything lives under `rocq/theories`. For an area `X`:

* `XModel.v`  - executable Gallina model, function by function, each definition citing the C++ lines;
* `XSpec.v`   - (where the spec is more than a line) the independent specification;
* `XProofs.v` - lemmas;
* `XProps.v`  - the property theorems, together with `Example`s showing concrete non-trivial instances of the
  hypotheses.  Small areas have their specification and their lemmas in this file too.

## Plan per property (written before the proofs)

| Id | What is modelled | How it is proved |
|----|------------------|------------------|
| C01 | `vector_set` at pointer level: a heap of nodes with parent/left/right/colour/count/prev/next fields, null dereference = `UB` outcome, loops with fuel | representation predicate heap <-> (tree, zipper); every step of InsertNode/RemoveNode/rotations commutes with a functional tree; refinement to a sorted list by induction over the op list, for every strict weak order |
| C02 | the counter fields and index searches of the same heap model | corollary of the representation predicate (count = number of descendants) |
| C03 | FindNodeByKey / FindBoundByKey of the same heap | corollary of the search-tree order |
| C04 | the quick_list threaded through the nodes | representation predicate contains both circular lists; equal to the in-order walk |
| C05 | outcomes `UB` and `OutOfFuel` of the heap model | the refinement theorem says the outcome is never `UB`/`OutOfFuel` |
| C06 | colours and shapes | C06a: red-black invariants preserved by InsertNode, height bound; C06b: expected to be false (RemoveNode tests the colour after it has been overwritten, and does nothing when the removed black node has no child) -> `_refuted` |
| C07 | CopyElements, copy assignment with possibly aliased operands | copy refines the same list; self-assignment `_refuted` |
| C08 | ring buffer: physical slots (raw or constructed), head, size; reading or destroying a raw slot = `UB` | refinement to a bounded deque by induction on the history |
| C09 | reserve / clear / copy with slot bookkeeping | same refinement |
| C10 | at / check_index | expected off-by-one -> `_refuted`, plus `_partial` for all other indices |
| C11 | copy constructor, assignment, operator== | refinement, equality of contents |
| C12, C17 | operator<< and from_string / parse_int on character lists with 8-bit counters and wrap-around | round-trip law; parsing soundness, expected to be false for >= 256 digits |
| C13 | operator==, compare | comparison of exact rationals (cross multiplication on Z) |
| C14, C19 | operator+, -, multiply with field truncation mod 2^len | exactness under no-overflow; silent overflow `_refuted` |
| C15, C16 | rescale family | arithmetic on Z; floor/ceil for negative numbers expected `_refuted` |
| C18 | bit packing | N bit operations |
| C20 | quick_list/single_list on a heap of links | representation predicate, refinement to `list` |
| C21 | Notify walking a list with a saved iterator while observers unsubscribe | induction over the list; unsubscribing *the next* observer -> `_refuted` |
| C22, C23 | observable_set with observers over the abstract set of C01 | invariant over histories |
| C24 | UpdateQueue as a transition system, one transition per critical section | invariant over all interleavings |
| C25-C27 | two files as byte lists, elementary write/truncate/flush steps, crash after any prefix of a step | invariant over all crash histories; C27 expected `_refuted` |
| C28, C29 | HashStream over an abstract hash | induction on blocks; collision-freeness appears only as "unless the hashes agree" |
| C30 | Crc64 with the table of the source | Calc is GF(2)-linear and a bijection of the register; finite sweep of the table lifted by lemmas |
| C31-C34 | universe of types, generic Read/Write on byte lists | induction on types; C33/C34 expected `_refuted` for some types |
| C35, C36 | Reader/Writer with prototypes | induction on struct descriptions |
| C37, C50 | comparers as boolean functions, strings as lists of characters | induction on the lists |
| C38, C39 | byte arrays, bit sets | arithmetic, bit lemmas |
| C40 | interval_map over a sorted map | expected `_refuted` (merging of non adjacent intervals) plus `_partial` |
| C41 | TimeQueue with a clock oracle | expected `_refuted` (max-heap) |
| C42 | sleeper/stopper interleavings as a transition system | expected `_refuted` for the lost wake-up, safety part proved |
| C43-C46 | small state machines | invariants |
| C51, C52 | coroutine frames with promises, a stack of executing coroutines, an event loop that resumes in any order; bodies as trees | one invariant with ghost outcomes, a count of the remaining steps; expected `_refuted`: release of a finished UpdateTask leaks |
| C53 | generator frame over an arbitrary step function of the body, range-based for loop | induction on the sequence of values |
| C54 | producer and consumer coroutines with their promise | simulation of a cursor on the sequence |
| C55 | owner, thread, canceller and clock as a transition system | invariant; expected `_refuted` for the lifetime of the log function |
| C56 | header, hash stream, version tolerant format and atomic storage put together; the reader is generic in the stream and a relation between a stream of bytes and a hash stream (StreamRel.v) carries the codec theorems over; a crash leaves a cut file, or anything without a forged block | refinement: a file that is read is the one that was written (PersistProofs.v), then the invariant of C25 with `reads` and `good` for the values that can be stored; expected `_refuted`: load() changes the value before it finds bytes after the end |
| C57 | restoring a snapshot into the same object | C31 round trip; expected `_refuted`: containers are not cleared |
| C58 | slots for the values, references into them | `_refuted` by the implicit move constructor |
| C59 | the meaning of a command line is a list of options with and without value; what is typed for it | parsing is complete, sound and refuses the rest; `_refuted`: short names, values like options |
| C60 | values of a type and their texts | round trip through the stream of the formatter; `_refuted`: unsigned int, flags, strings with spaces, malformed numbers |
| C61 | the planned calls: the accepted names in order, each as often as asked for, up to the first failure | induction over the map; `_refuted`: exit code, other exceptions, a second Run |
| C62 | the entries that were registered, with their signatures | the last entry with the deduced signature; `_refuted`: lvalue arguments, duplicates |
| C63 | what the function throws | case analysis on the classes; `_refuted` for the bases of TestException |
| C64 | the bytes that are left; a file as a function from offsets to bytes | simulation of every sequence of calls; `_refuted`: short reads, streams that did not open, positions beyond the end, lost errors on Windows |
| C65 | what each owner refers to (also with copies of null handles), swap, comparison | invariant: every open handle is in exactly one owner; simulation of unique_ptr by the pointers, released and deleted objects; `_refuted`: copies of null handles, self assignment, destructors that use the pointer |
| C66 | relation between types, values and bytes | the writer computes exactly the related bytes; the relation is functional and injective |
| C67 | list of identifiers | look-up by position and by name; `_refuted`: names that differ in case only, enumerators with initializers |
| C68 | reflexive transitive closure of "is made of" | induction on types and on paths; comparison of types is identity if each structure has one definition; `_refuted`: structures among the extra types, tuples as fields |
| C69 | list of the leaves of a structure | induction on types |
| C70 | decimals and doubles as rational numbers; nearest number of the format binary64 | round to nearest even is specified (`number`, `nearest`) and proved once: nearest, monotone, exact on numbers, relative error; then error bounds; `_refuted`: 0.29 truncated is 0.28, make_floored above its argument, round trip beyond 2^51 units |
| C71 | the exact sum, product, quotient of rational numbers | error bounds from C70 and C18; `_refuted`: multiplication by 1 changes 0.29, casts to int of large mantissas, integers beyond 2^53 |
| C72 | the bit-field record of C18 | refinement of the bit masks: every bit of every setter, then simulation of all programs over the interface; `_refuted`: exponents that do not fit, mantissa lengths beyond 256 bits |
| C73 | the number of a sequence of bytes, big-endian | induction on the number of bytes; shortest, prefix-free, round trip, truncation; `_refuted`: numbers from 2^1016, malformed data |
| C74 | the life of a singleton: never made, alive with its owners, dead | refinement of every sequence of uses; `_refuted`: overlapping calls make two instances |
| C75 | the interval as a rational number of ticks | arithmetic of truncated division; `_refuted`: early by a part of a tick, overflow of large intervals |
| C76 | every two elements are in order | transitivity; `_refuted`: equivalent neighbours in a multiset |
| C77 | the numbers of an IEEE 754 format | a number between f + 1/2 and the next integer; `_refuted`: the number below 1/2, negative numbers, 2^52 + 1 |
| C78 | what happens to the members at an index | induction on the members; `_refuted`: NaN |
| C79 | equal members have equal hashes | xor and addition modulo 2^64 are invertible |
| C80 | the logical contents of a ring (C08) | a raw slot among the elements makes the destructor undefined; `_refuted` for every ring, but reserve keeps the ring |
| C81 | the blocks of the data (C28) and a device that fails from some call on | invariant: full blocks stored and a pending one, or a failed block that stays; `_refuted`: the destructor throws, a failed block is hashed again |
| C82 | values and types of C31 | the round trip of C31 for another structure header; `_refuted`: other prototypes |
| C83 | positions in the list of elements, programs over iterators | refinement over the relation of C08; `_refuted`: iterators do not follow their elements, moved-from rings |
| C84 | the pointer model of C01 with a list of answers: which calls of the user's code throw | each reading call is its C01 counterpart or a throw in the same state; refinement to what a failed call may leave; `_refuted`: leaks, lost elements |
| C85 | strings as lists; the two locales' wcsrtombs and mbsrtowcs | encoding and decoding one character are inverse, then induction; against the table of well-formed UTF-8 |
| C86 | arrays and loops | refinement of programs to plain strings; separators by induction |
| C87 | mktime and hh_mm_ss as arithmetic | the number of a day grows by one with the calendar's next day; digits read back |
| C88 | the functions of C31 over a table that puts elements anywhere | the bytes are those of a deque of the elements, so the theorems of C31 and C32 apply; permutations |
| C89 | the model of C35 | layouts of types and the relation meets (which old structure is read into which new one) are defined without the reader; lockstep invariant by induction over the written type |
| C90 | iterators of interval_map over the model of C40 | the elements are expanded to runs of keys; induction over the suffixes of the map and the offset |
| C91 | functions of an aggregator as trees of operations that see exceptions | simulation: the nested operations, in the order in which they begin, are a history of C43; divergence by induction over the depth of the stack |
| C92 | the rational value of the decimal; nearest number of the format binary32 | double rounding: the middle of two floats would be between the value and the double, but is further away (for at most 12 digits as 5^12 < 2^28, for 13 to 22 digits from the nearest multiples that Euclid's algorithm gives); relative errors add; `_refuted`: mantissas above 24 and 23 bits |
| C93 | sequences of observers; a notification calls those subscribed when it began, and its calls enclose those of the notifications made by its observers | a call stack machine over the pointer-level lists simulates the big-step specification (mutual induction); cascades by induction on the level; `_refuted`: an observer that unsubscribes itself in a nested notification of the same observable |
| C94 | TaskVarSpec.v: careful programs, early release, the relation 'awaits' between coroutines | invariant on ownership for all programs; invariant on frames, stack and events for careful ones; pigeonhole and injectivity for chains of waits |
| C95 | one Reader that reads many values: each is read as a new Reader reads it, also after exceptions; Reader::Initialize | the maps of a Reader in every reachable state are those that MapPrototypes makes (simulation of two streams read in step), then the proof of C35 from any such state; a concrete program for the wrong map that an exception leaves |
| C96 | stop_source, stop_token and stop_callback of Extras/JThread used by any number of threads: which histories of calls are possible, no access to deleted objects, when the state is deleted; the early deletion by __remove_token_reference | a machine of threads with stacks of frames, one step per atomic operation; the standard's rules as a predicate on histories that does not mention the implementation; refinement to an abstract machine (flags and counters for the word, a list for the intrusive list) with four invariants by induction on executions; concrete executions for what is refuted |
| C97 | JCvSpec.v: which overload a thread is in, when it calls its predicate, who calls a callback, who returned | transition system of any number of threads over one condition variable, one lock and one stop state; invariants on the internal mutex, the lock, the list of callbacks and the sleepers; ranks for the bounds |
| C98 | JThreadSpec.v: which history of starts, requests, queries, ends, joins and detaches is lawful; which object owns a thread | transition system of any number of threads and objects; invariants on the pairs of source and thread, on the exclusive use of objects and on the history |
| C99 | VSetStable.v `follows`: which variable has the element after a call | over the refinement of C01: handles are unique, every call keeps the pairs of handle and value that `follows` keeps |
| C100 | ASConcSpec.v: an object that changes at once at the end of each modification; a save takes a value of the object during the call | transition system of any number of threads over the storage of C25; invariants; crash results of C25 |
| C101 | the specification of C44 (PoolSpec.v) for the operations in the order in which they are executed; a machine with a stack of calls of Finalize | invariant of the machine; every step is a step of the pool |
| C102 | the queue of UQueueSpec.v in which a call of Push that throws does not occur; messages that are deleted; copies that are kept | invariant and refinement by induction on the program |
| C103 | A watch_dog with its real sleep_for: everything the abstract watch_dog (C55) guarantees holds with the clock in place of the abstract timeout; its destructor takes at most the rest of the timeout; it is prompt unless the notification is lost | product of the two transition systems, forward simulation to WatchDogModel.v, ranks; refutation by an explicit execution and an invariant of its continuations |
| C104 | Composite comparers whose keys have different types order by the whole key, member by member; lookups by composite keys behave as on a sorted list; keys built by make_key are the ones meant, or dangle | dependent lists of comparers and keys, induction; case analysis of the arithmetic conversions; refutation for int members with size_t arguments |
| C105 | GenVarSpec.v: who refers to which sequence, how often each has been advanced; no frames | refinement in both directions: a program is defined with these observations iff the specification allows them |
| C106 | `rest`: what the consumer does without the generator; `waits` | induction on the rest of the consumer / on the number of waits, over the machine of C54 |
| C107 | the bytes as bits: element m is bit m mod 8 of byte m / 8 | the two nested loops with the 8-bit mask and an index of any integer type; induction on the bytes |
| C108 | membership only: what an observer shows is contained in, or equal to, its set | the trees of C22 with observers that throw; invariants of all programs, conservative over C22 |
| C109 | what an observer knows from its calls (last addition, removal or clearing) against the elements of the source | invariant of all programs over C23 with lists of observers at the set and at each group |
| C110 | what each observer knows from its calls against the elements of the set, whatever notifications are under way | invariant of a stack machine: an observer knows an element unless a frame of the stack hides it from its position; termination by a measure over the plans |
| C111 | tapes: a list of bytes and a position (MemStreamSpec) | refinement of a heap of blocks and objects with pointers, by a relation that says who owns which block; round trip by induction over the writes and reads; the misuses as refutations; TrivialSpace by induction over the requests |
| C112 | places: an element or the end of a list (QIterSpec) over the sequences of C20 | simulation on top of the relation of C20: the links beside an element are the neighbours in the sequence, in both directions; the loop by induction over what is still to be visited |
| C113 | the times at which coroutines start and end, sums of durations (CoTimerSpec) | invariant: where each coroutine stands and that what it has awaited has passed; counting; a potential of two per await; an invariant for the starved coroutine |
| C114 | who observes whom (edges), the objects below an object, the elements of each object (MirMoveSpec) | forest: one parent each, the objects of a circle are empty; a call visits a subtree once (depth by the pigeonhole principle); cutting an object out and putting one into the place of another keep the invariant; a ring of full mirrors needs more stack than any (induction on the fuel) |
| C115 | the elements that are the first of their equals, in the order (VSetCtorSpec) | induction over the elements with the exact outcomes of one insertion from C84; `_refuted`: leaks for every list |
| C116 | events of the program and of the timer queue, the frames that were destroyed (CoOwnSpec) | projection to the executions of C113; invariant: coroutines that have not ended have frames, each is in the queue or running once |
| C117 | which observers are told up to the first that throws, who stays subscribed, what is in the source (relation effect of GroupThrowSpec); what an observer knows from its calls (C109) | the groups by repairing the logs and C109; the knowledge from the relation alone, by cases |
| C118 | relations did/told and the function cascade of NotifyThrowSpec over the sequences of C20 | evaluator with fuel, monotone in it; mutual induction over the relations with the simulation of C20; the cascade by induction over the level with a frame condition for the levels above |
| C119 | elements of each source and the source of each foreign_set, GroupMoveSpec, with the grouping of C23 | per foreign_set the invariant of C109; the observers of different foreign_sets are different people, so that the calls of one keep the invariant of the others; simulation by the maps of GroupMoveSpec |
| C120 | the values of the objects, over the codec of C31 | induction over the objects with the round trip, the truncation and the any-bytes theorems of the codec |

## Trusted base

* The kernel of Coq 8.16.1, with its virtual machine (`vm_compute`).
* Assumptions: `theories/Assumptions.v` prints the assumptions of every theorem named in MANIFEST.json. Every one of
  them is "Closed under the global context": no axiom is used, neither of the standard library nor of our own.
  A checker that lists the axioms of all loaded files also shows the seven parameters of the module type
  `Coq.ssr.ssrunder.Under_rel` of the standard library, which some of its files load; no theorem uses them.
* The models are faithful to the C++ text. The code has not been executed.

### What is modelled, and what is not

Everywhere: allocation does not fail, user supplied functions behave as the model of the area says, the C++ standard
library behaves as the standard says, integers have the sizes of a 64-bit little-endian platform.

| Area | Modelled source | Left out |
|------|-----------------|----------|
| VSet (C01-C07) | Awl/VectorSet.h at the level of pointers | iterators other than through the threaded list |
| Ring (C08-C11) | Awl/Ring.h | element types that throw |
| Decimal (C12-C19) | Awl/Decimal.h, Awl/DecimalConstants.h, Awl/DecimalData.h | the layout of the bit-fields, streams with another locale than the default one |
| QList (C20) | Awl/QuickList.h, Awl/SingleList.h, Awl/QuickLink.h, Awl/SingleLink.h | - |
| Observer (C21) | Awl/Observable.h | a notification inside a notification is in C93 |
| ObsSet (C22, C23) | Awl/ObservableSet.h, Awl/ForeignSet.h, Awl/MirrorSet.h, over the list semantics of C01 | observers of a source that has been destroyed; exceptions are in C108, group level observers in C109 |
| UQueue (C24) | Awl/UpdateQueue.h, one transition per critical section | several applying threads |
| AStore (C25-C27) | Awl/Io/AtomicStorage.h, Awl/Io/AtomicStorage.cpp | what a torn write leaves is a parameter; a Load that is interrupted directly after a failed Save |
| HashStream (C28, C29, C49) | Awl/Io/HashStream.h | an underlying stream that reads short or fails to write, exceptions in destructors |
| Crc64 (C30) | Awl/Crypto/Crc64.h | - |
| Codec (C31-C34) | Awl/Io/ReadWrite.h and the serializable types | unordered containers (see C88) |
| Vts (C35, C36, C47, C48) | Awl/Io/Vts.h, Reader.h, Writer.h, Awl/Prototype.h, Awl/Mp/TypeDescriptor.h | recursive types, smart pointers, names of floating point types and decimals, Initialize(), the cache after an exception, allowTypeMismatch |
| Compare (C37, C50) | Awl/KeyCompare.h, Awl/String.h comparers | comparers that throw, null pointers, composite keys of several types |
| Int2Array, BitMap (C38, C39) | Awl/Int2Array.h, Awl/BitMap.h | std::bitset is taken from the standard |
| Interval (C40) | Tests/Experimental/IntervalMap.h with integer keys and std::less | clear, the state after an exception; iteration is in C90 |
| Timer (C41) | Awl/Testing/TimeQueue.h | overflow of now() + timeout (modelled in C113) |
| Sleep (C42) | Awl/Sleep.h | - |
| Aggregator (C43) | Awl/Aggregator.h | exceptions and re-entrancy are in C91 |
| Pool (C44) | Awl/ObjectPool.h, over the list semantics of C20 | a Finalize that uses the pool |
| ScopeGuard (C45) | Awl/ScopeGuard.h | what a moved-from function does is a parameter |
| MemberList (C46) | Awl/Reflection.h, the parsing of the stringized names | the stringizing itself |
| Coro (C51, C52) | Awl/Coro/ProcessTask.h, Awl/Coro/UpdateTask.h | awaiting a task from another coroutine than the one that has started it, moves of tasks, is_ready / get, destruction of a coroutine that is suspended: in C94 |
| Generator (C53) | Awl/Coro/Generator.h, one generator | several generators and iterators, moves: in C105 |
| AsyncGen (C54) | Awl/Coro/AsyncGenerator.h with one iterator | destruction of the generator or of the consumer: in C106; moves of generators: in C105 |
| WatchDog (C55) | Awl/WatchDog.h | sleep_for is "returns when the timeout has elapsed or the stop is requested", see C42 |
| Persist (C56) | Awl/Io/PersistentObject.h, HeaderedSerializable.h, EuphoricallySerializable.h, HashingSerializable.h, VersionTolerantSerializable.h, OptionalStorage.h over Codec, Vts, HashStream and AStore | an overridden ReadOldVersion, the mutex, values that are not move-assignable (C57), a hash that is as long as a block |
| InPlace (C57, C58) | Awl/Io/VersionTolerantSerializable.h for types that are not move-assignable; the implicit move constructor of PersistentObject | what the object contains when Read throws is a parameter |
| CmdLine (C59, C60) | Awl/Testing/CommandLineProvider.{h,cpp}, AttributeProvider.h, LocalAttribute.h, Formatter.h, ScalarFormatter.h | floating point attributes, conversions between char and wchar_t, locales other than the classic one; iostream extraction and strtol are modelled for base 10 |
| TestRun (C61) | Awl/Testing/TestChain.h, TestMap.{h,cpp}, TestConsole.cpp, Main/main.cpp | messages and times, the timeout (C55), the counting of used options; std::regex_match and the behaviour of the tests are parameters |
| Factory (C62, C63) | Awl/StaticChain.h, StaticFactory.h, Testing/TestAssert.h (Throws) | the order of static initialization (it is the order of the registrations), explicit template arguments, volatile; the functions that are called |
| RawStream (C64) | Awl/Io/VectorStream.h, MeasureStream.h, StdStream.h, Rw/ReadRaw.h, Platforms/{Posix,Windows}/Awl/Io/NativeStream.h | a vector that changes while it is read, descriptors that are not open, other processes and signals, errors of the disk, a short write(2), builds with NDEBUG on Windows |
| Handle (C65) | Platforms/{Posix,Windows}/Awl/Io/UniqueHandle.h, Windows SharedHandle.h, Awl/UniquePtr.h | hash of the handles, conversions between unique_ptr of a class and of its base, exceptions of destructors |
| Wire (C66) | no new code: a second description of what CodecModel, VtsModel and PersistModel write | big endian machines, 32 bit size_t, floating point numbers |
| Enum (C67) | Awl/EnumTraits.h, Reflection.h (split of the argument of the macro), String.h | negative and user defined values, wide character names, EnumReadWrite (in Codec) |
| Types (C68, C69) | Awl/Mp/TypeCollector.h, TupleToVariant.h, VariantFromStructs.h, TypeIndex.h, find_variant_type_v | references and const, recursive types (the compiler does not terminate), monostate of empty variants |
| Float, DecFloat (C70, C71) | the functions of Awl/Decimal.h that use double; IEEE 754 binary64 to nearest even as a function on rational numbers | infinities, NaN, signed zeros, long double (float is in C92), the rounding mode, flags of the compiler like -ffast-math, x87 extended precision |
| Multi (C72, C73) | Extras/Boost/BoostExtras/MultiprecisionDecimalData.h, MultiprecisionReadWrite.h | boost::multiprecision itself: cpp_int is a number modulo 2^w or a sign and a magnitude, export_bits and import_bits are their documentation; floating point backends; decimals over cpp_int beyond their data |
| Singleton (C74) | Awl/SharedSingleton.h | the control blocks of std::shared_ptr (a use count and a life), the data race on the weak_ptr itself (its assignment is one step), StaticSingleton |
| Util (C75-C79) | Awl/StopWatch.h, RangeUtil.h, Math.h (round, clamp, sign), the operators of Tuplizable.h, Hashable.h | durations with floating point counts, the constants and degrees of Math.h, std::hash of the members (any function), std::tuple before C++20 |
| RingThrow (C80) | Awl/Ring.h when the constructor of an element throws | the allocator does not throw; what moving leaves in the elements |
| HashFail (C81) | Awl/Io/HashStream.h:157-235 over a failing stream, BufferedStream.h, FakeHash | the exception of the underlying stream is one value; allocation does not fail |
| PlainReader (C82) | Awl/Io/PlainReader.h, BasicReader.h | as for the codec (C31) |
| Iterators of rings (C83) | Awl/Ring.h:33-170, 375-389 | the ranges overloads of the standard algorithms; iterators to const |
| Exceptions of vector_set (C84) | Awl/VectorSet.h as for C01 | asserts (NDEBUG), the initializer_list and range constructors (C115), throwing destructors and comparator copies |
| Text conversions (C85) | Awl/String.h:240-340 where Char is char, LogString.h | MSVC and Qt; other locales; the C functions are transcribed from their documentation, not from a source |
| Fixed strings and the like (C86) | Awl/FixedString.h, Separator.h, Crypto/FixedHash.h, IntRange.h, String.h:53-67 | constexpr evaluation, streams that fail |
| Time (C87) | Awl/Time.h:18-57, 106-113 | daylight saving time, the branch :59-104 (no supported compiler takes it), other clocks; mktime and hh_mm_ss are transcribed |
| Unordered containers (C88) | Awl/Io/Rw/CollectionReadWrite.h for std::unordered_set and unordered_map | containers inside other types and in versioned data, rehashing of the table of libstdc++, exceptions of the hash |
| Any versions (C89) | the model of C35 (Awl/Io/Reader.h, Writer.h) | data that no version has written (see C34) |
| Interval iterators (C90) | Tests/Experimental/IntervalMap.h, MyIterator | signed keys narrower than int, iterators during assign, operator < (does not compile for std::map) |
| Aggregator functions (C91) | Awl/Aggregator.h with functions that throw, set and cancel | functions that take references to the slots, destruction of the aggregator by its function |
| cast<float>() of decimals (C92) | Decimal.h:92-96 with Float = float: the conversion of the mantissa to float, the division in double, the conversion of the quotient to float | long double |
| Nested notifications (C93) | Awl/Observable.h Notify called by observers, over the lists of C20 | exceptions of observers and NotifyWhileTrue (C118), the depth of the stack |
| Tasks in variables (C94) | ProcessTask, UpdateTask held in variables that ordinary code and coroutines share: move construction and assignment, free, is_ready, get, done, release, co_await of lvalues, destruction of suspended coroutines, events; arbitrary programs of these statements | values whose move constructor throws; objects inside coroutine frames (their destructors); several threads; bad_alloc for a frame |
| A Reader that is used again (C95) | Reader::Initialize; protoMaps across several ReadV and after exceptions in FindProtoMap; Writer: prototypes once, then any number of values | which elements of protoMaps there are after an exception inside a nested structure is not followed (every subset that FindProtoMap could have made is allowed); the position of the stream after an exception |
| Extras/JThread stop_token.hpp (C96) | __stop_state: the packed word with wraparound, all its functions, the intrusive list with its pointers, the spin lock, compare_exchange_weak with spurious failures; stop_callback constructors (const& and &&) and destructor, callbacks that construct, destroy and request; tokens and sources as counted objects; any number of threads and callbacks | one stop state (objects of several states do not meet); memory orders (sequential consistency); moves, swaps and comparisons of tokens and sources (they do not touch the state); callbacks that throw (noexcept: terminate); __spin_wait and yielding; bad_alloc of the constructor of stop_source; the guarded part between a lock and its unlock is one step |
| Extras/JThread condition_variable_any2.hpp (C97) | all the wait, wait_until and wait_for overloads (with and without predicate, token and time), notify_one, notify_all, the destructor while threads wait, request_stop with the callbacks of the waits | the stop state is the one of C96 in one step per operation (its memory is C96); one stop state and one lock for all the waits; predicates that throw or change the data; a lock that is held recursively; std::condition_variable itself; the clock (a timeout may happen at any time) |
| Extras/JThread jthread.hpp (C98) | constructors, destructor, move, move assignment, swap, joinable, join, detach, request_stop, get_stop_token (the token of the thread) | the callable and its arguments; failures of thread creation; native_handle, get_id, hardware_concurrency; tokens and sources outside of the objects (they are C96); std::thread is taken from the standard |
| Stability of iterators (C99) | Awl/VectorSet.h as for C01 | the const_iterator conversion |
| Save with a mutex (C100) | Awl/Io/AtomicStorage.cpp:38-62 with p_mutex, MutexWrapper of Awl/OptionalMutex.h, threads that modify the object | errors of the files during a concurrent Save (C27), Save without mutex while threads modify the object (a data race) |
| Finalize of pooled objects (C101) | Awl/ObjectPool.h:64-75 Deleter with a Finalize that uses the pool, Awl/PooledObject.h | a Finalize that destroys the pool, or that throws |
| Functions of UpdateQueue (C102) | Awl/UpdateQueue.h with functions whose copying throws, and the copies that the messages keep; over the list semantics of C20, C24 | destructors of functions that use the queue |
| WatchDog.h with Sleep.h (C103) | the owner with ~jthread (request_stop, the callback registered by sleep_for, join), the thread in and after sleep_for, the canceller, the clock, spurious wake-ups; every interleaving | the implementation of std::jthread, std::stop_callback and std::condition_variable; exceptions of m_log |
| TransparentCompositeCompare.h, TupleHelpers.h make_similar_tuple (C104) | operator() of elements and keys with keys of any types, as tuples of references that may dangle; make_key with integer arguments, common_reference, the conversion to key_type | make_key with other than integer types (the same rule with other common types); the deleted constructor of C++23 |
| GenVar (C105), AsyncDrop (C106) | Awl/Coro/Generator.h: constructors, destructor, operator=, swap, begin and iterators of generators in variables; the same members of AsyncGenerator.h; the destruction of an async_generator and of its consumer at any moment | the memory for a frame is available; what the destruction of a frame does to the local variables of the body; two consumers of one async_generator; begin() of an empty async_generator |
| Packed bools (C107) | `WriteVector`/`ReadVector` of `Awl/Io/Rw/VectorReadWrite.h` lines 53-92 for bool: the mask of type uint8_t that becomes 0, the index of the container's size_type (any integer type, signed overflow is UB, `icast` of the size), `operator[]` out of range is UB, a short stream; the adapters of `RwAdapters.h` and `BitMapReadWrite.h` | the proxy reference of `vector<bool>` and `bitset` (a plain element) |
| Exceptions of observers (C108) | ObservableSet.h, MirrorSet.h, ForeignSet.h as for C22 with observers of the user that throw at any call: the state after the exception, the logic_error of mirrors, std::terminate in destructor and move assignment | observers that modify the set or the list of observers while they are called (C93); observers of the groups that throw (C117) |
| Observers of groups (C109) | ForeignSet.h OnAdded, OnRemoving, OnClearing, Subscribe, Unsubscribe; ObservableSet.h ~observable_set, erase, clear, insert; observers of the foreign_set and of its groups that come and go | observers that throw (C108, C117) or that modify the sets while they are called; observers not from the program (mirrors of a group) are their calls |
| Observers that modify the set (C110) | ObservableSet.h insert, erase, clear, NotifyAdded, NotifyRemoving with observers that insert, erase and clear the same set while they are called; mirrors; the nodes of the set have identities, a reference to an erased one dangles | the order of the elements (C01), mirrors of mirrors and foreign sets (C22), changes of the list of observers (C93), exceptions (C108), several sets |
| Memory streams and the trivial allocator of the experiments (C111) | SwitchMemoryOutputStream, VirtualMemoryOutputStream, TrivialMemoryStream with constructor, destructor, implicit copy and move, Write, Read, typed Write and Read, Reset, GetLength, End; TrivialSpace::Reserve, Clear, Allocate and its allocator | MeasureStream, MemoryOutputStream (a typedef), the aliasing rules, begin/end, overlap of the source of a write with the buffer |
| Iterators of quick_list (C112) | begin, end, rbegin, rend, ++, --, *, ==, insert and erase of both kinds of iterators between any operations of C20; the erase(i++) loop | conversions to const iterators; the node iterators are DoubleIterator with a member access and are covered by C99 |
| Coroutines on the timer queue (C113) | co_await of a duration (TimeAwaitable), the queue and loop() with any number of coroutines, 64-bit overflow of now() + timeout | exceptions in coroutines, tasks destroyed while they wait (C51), other threads |
| Moves of mirrors (C114) | move construction and move assignment of mirror_set and observable_set with their links and observers, reflect, UnsubscribeSafe, insert, erase, clear, destructors, for any number of sets and mirrors of mirrors; the depth of the stack | the order of the elements (C01), migrate (C22), other observers than mirrors, exceptions of observers (C108), observers that modify (C110) |
| Constructors of vector_set from elements (C115) | Awl/VectorSet.h:242-271 over the pointer model of C84: the initializer_list and the range constructor, exceptions of comparator, element constructor, allocation and iterators | copying the comparator and the allocator; the range constructor with two arguments (ambiguous, does not compile); that the initializer_list constructor default-constructs m_nodeAlloc |
| Owners of waiting coroutines (C116) | UpdateTask.h: destructor, release(), final_suspend with m_owned; TimeQueue.h as for C113 | coroutines that own tasks of others and await them (C51, C94); moves of tasks (C94); exceptions (unhandled_exception terminates) |
| Observers of groups that throw (C117) | ForeignSet.h OnAdded, OnRemoving, OnClearing, ObservableSet.h insert, erase, clear and the noexcept destructor of a group, with the source that the foreign_set observes | other observers of the same source (C108); observers that modify the sets while they are called; the destructor of the source (C108) |
| Notifications that end early (C118) | Awl/Observable.h Notify and NotifyWhileTrue called by observers at any depth, exceptions and their handlers, returns of false; over the lists of C20 | the depth of the stack; the destruction of the observable itself in a call (moving or clearing its list is there) |
| Moves of foreign_sets and of their sources (C119) | construction, moves, move assignments and destruction of any number of Awl/ObservableSet.h and Awl/ForeignSet.h, with observers of the groups and of the foreign_sets; Awl/QuickLink.h moves of links | observers that throw (C117) or change things when called; moves of the observers themselves; the order of the calls to different observers |
| PlainSerializable (C120) | Awl/Io/PlainSerializable.h, atomic and not, several objects on one stream, over Codec | what a value contains after a Read into it has thrown is a parameter; the uninitialized local value of the atomic Read is the default one |

## Mutation log (seeded/LOG.jsonl)

Each line is one edit of a definition of the model, built in a scratch copy.

- `first_failures` are the items at which the compiler stopped.  A file is left at its
  first error, so there may be more.
- `theorems_failed` are the property theorems whose proofs use one of these items, directly
  or through other lemmas, by the reference graph in the .glob files of the unmodified
  build.
- The verdict `caught` says that these proofs no longer check.  It does not by itself show
  that the statements became false: an equivalent edit can break a proof script too.
- `invalid` mutants made the model, or another definition that uses it, fail to type-check;
  they test nothing and do not count.

Correction: up to the serialization mutants `theorems_failed` was computed from file times
and also listed theorems of files that the edit does not reach.  All records were
recomputed from `first_failures`; those that had been called caught but do not type-check are now marked invalid, one was
caught by an example only, and two attempts that were missing were added.
