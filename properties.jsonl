{"id": "C01", "title": "vector_set behaves as a sorted set", "statement": "After any sequence of insert, emplace, erase and clear on an awl::vector_set, iterating it from begin to end yields exactly the keys inserted and not since erased, each once, in strictly increasing order; insert reports 'inserted' exactly when no equivalent element was present, and erase reports true exactly when one was.", "quantifier": "every finite sequence of insert/erase/clear with every key, over every strict weak order", "why_tests_cant": "The tree shape, rotations and count updates depend on the whole history; a test samples a few histories.", "anchors": ["Awl/VectorSet.h: insert, emplace, erase, clear, UniversalInsert, InsertNode, RemoveNode, RotateLeft, RotateRight, BalanceAfterInsert, BalanceAfterRemove"]}
{"id": "C02", "title": "vector_set positions are order statistics", "statement": "In every reachable vector_set, at(i) is the i-th smallest element for every i < size(), at(i) throws out_of_range for every i >= size(), index_of(find(x)) and find2(x) return the number of elements less than x for every present x, and size() is the number of elements.", "quantifier": "every reachable state, every index, every element", "why_tests_cant": "Subtree counts are updated incrementally along paths; an off-by-one shows only after particular rotation histories.", "anchors": ["Awl/VectorSet.h: at, operator[], index_of, find2, find_by_index, size, FindNodeByIndex, IndexOfNode, FindIndexByKey, Link::UpdateCount"]}
{"id": "C03", "title": "vector_set lookup and bounds", "statement": "In every reachable vector_set and for every key k: find(k)/contains(k) succeed exactly when an equivalent element is present; lower_bound(k) is the first element not less than k and upper_bound(k) the first element greater than k, or end() if there is none.", "quantifier": "every reachable state and every key, present or absent", "why_tests_cant": "Needs the search-tree order in every reachable shape.", "anchors": ["Awl/VectorSet.h: find, contains, lower_bound, upper_bound, FindNodeByKey, FindBoundByKey"]}
{"id": "C04", "title": "vector_set iteration order equals tree order in both directions", "statement": "In every reachable vector_set the forward iteration and the backward iteration visit the same elements in exactly opposite orders, and the i-th element of the forward iteration is at(i). The successor and the predecessor that the tree gives for a node are its neighbours in that order.", "quantifier": "every reachable state", "why_tests_cant": "The list threaded through the nodes and the search tree are two separate structures updated by separate code.", "anchors": ["Awl/VectorSet.h: begin, end, rbegin, InsertNode, GetPredecessor, GetSuccessor, RemoveNode", "Awl/QuickList.h: insert", "Awl/QuickLink.h: insert_after, exclude"]}
{"id": "C05", "title": "vector_set operations are memory safe and terminate", "statement": "No sequence of vector_set operations (with indices below size for operator[]) ever dereferences a null or freed node, and every operation terminates.", "quantifier": "every reachable state and every operation", "why_tests_cant": "Absence of a crash on tested histories says nothing about others; erase rebalancing has many pointer cases.", "anchors": ["Awl/VectorSet.h: RemoveNode, BalanceAfterRemove, BalanceAfterInsert, GetSuccessor, GetPredecessor, IndexOfNode"]}
{"id": "C06", "title": "vector_set stays balanced", "statement": "The depth of the search performed by find/insert/at on a vector_set with n elements never exceeds 2*log2(n+1), after any sequence of insertions (C06a) and after any sequence of insertions and erasures (C06b).", "quantifier": "every sequence of operations of any length", "why_tests_cant": "Height bounds are about all histories; timings on samples cannot establish them.", "anchors": ["Awl/VectorSet.h: BalanceAfterInsert, BalanceAfterRemove, RemoveNode"]}
{"id": "C07", "title": "vector_set copies are equal and self-assignment is harmless", "statement": "A copy of a vector_set holds the same elements as its source and later changes to either do not affect the other; assigning a vector_set to itself leaves its contents unchanged.", "quantifier": "every reachable state", "why_tests_cant": "Aliasing of the two operands is a case tests rarely instantiate.", "anchors": ["Awl/VectorSet.h: vector_set(const vector_set&), operator=(const vector_set&), CopyElements, operator=="]}
{"id": "C08", "title": "ring behaves as a bounded deque", "statement": "For every history of push_back, push_front, pop_front, pop_back on a ring of fixed capacity c > 0, its contents are those of a double-ended queue that, when full, drops its front on push_back and its back on push_front; size() never exceeds c, front()/back()/operator[](i) read the corresponding deque elements, and iterating forward or backward visits them in order.", "quantifier": "every history, every capacity, every wrap-around position", "why_tests_cant": "Wrap-around position depends on history; all residues mod capacity and all alternations must work.", "anchors": ["Awl/Ring.h: push_back, push_front, pop_front, pop_back, allocate_next, allocate_prev, address, next, prev, begin, end"]}
{"id": "C09", "title": "ring reserve keeps the newest elements", "statement": "reserve(n) on a ring leaves exactly the last min(n, size()) elements, in order, with capacity n, whatever the physical rotation of the buffer was, and constructs and destroys every element exactly once.", "quantifier": "every reachable ring and every n", "why_tests_cant": "Depends on the wrap position of head and tail.", "anchors": ["Awl/Ring.h: reserve, clear, copy"]}
{"id": "C10", "title": "ring at() rejects exactly the invalid indices", "statement": "ring.at(i) returns element i for i < size() and throws out_of_range for every i >= size().", "quantifier": "every reachable ring and every index", "why_tests_cant": "The claim covers every index; the boundary i == size() has to be checked in every state.", "anchors": ["Awl/Ring.h: at, check_index"]}
{"id": "C11", "title": "ring copy, assignment and equality", "statement": "Copy-constructing or copy-assigning a ring gives a ring with equal contents that compares equal to the source, self-assignment is harmless, and two rings compare equal exactly when they hold the same sequence, whatever their physical rotations.", "quantifier": "every pair of reachable rings", "why_tests_cant": "Equality has to be independent of the physical layout produced by the history.", "anchors": ["Awl/Ring.h: ring(const ring&), operator=, operator==, copy"]}
{"id": "C12", "title": "decimal text round trip", "statement": "For every decimal value d, parsing the text printed by operator<< gives back a decimal with the same sign, mantissa and exponent.", "quantifier": "every sign, every mantissa, every exponent representable", "why_tests_cant": "2^64 values; leading zeros, zero integer parts and padding widths interact.", "anchors": ["Awl/Decimal.h: operator<<, from_string, parse_int"]}
{"id": "C13", "title": "decimal comparison is a total order on values", "statement": "For all decimals a, b: exactly one of a<b, a==b, a>b holds, and it agrees with the comparison of the exact rational values (-1)^s * m / 10^e; equality does not depend on trailing zeros.", "quantifier": "every pair of decimals with every pair of exponents", "why_tests_cant": "Alignment, integer/fraction split and sign handling have to agree for all 2^128 pairs.", "anchors": ["Awl/Decimal.h: operator==, compare, compare_positive, operator<, normalize"]}
{"id": "C14", "title": "decimal addition and subtraction are exact or reported", "statement": "For all decimals a, b: a+b and a-b either equal the exact rational sum/difference or throw; the exponent of the result is the larger of the two exponents.", "quantifier": "every pair of decimals", "why_tests_cant": "Overflow corner cases are a vanishing fraction of the input space.", "anchors": ["Awl/Decimal.h: operator+, operator-, align, set_mantissa, extend_self"]}
{"id": "C15", "title": "decimal rescale, truncate and normalize preserve or round as documented", "statement": "rescale to more digits preserves the exact value or throws; truncate to fewer digits drops digits toward zero; normalize preserves the value and yields the representation with the fewest digits; rescaling up and then back down is the identity.", "quantifier": "every decimal and every digit count", "why_tests_cant": "All mantissa/exponent combinations.", "anchors": ["Awl/Decimal.h: rescale, extend_self, trim_self, truncate, normalize_self"]}
{"id": "C16", "title": "decimal floor and ceil are bounds", "statement": "For every decimal d and digit count n, floor(n) <= d <= ceil(n), and each differs from d by less than one unit of the n-th digit.", "quantifier": "every decimal of either sign and every digit count", "why_tests_cant": "Sign and carry cases over the whole domain.", "anchors": ["Awl/Decimal.h: floor, ceil, ceil_self, truncate"]}
{"id": "C17", "title": "decimal parsing never returns a wrong number silently", "statement": "from_string of a text [+-]digits[.digits] either returns a decimal whose value is exactly that number, or throws.", "quantifier": "every text of any length", "why_tests_cant": "Inputs of unbounded length, counters of 8 bits.", "anchors": ["Awl/Decimal.h: from_string, parse_int"]}
{"id": "C18", "title": "decimal bit image round trip", "statement": "from_bits(to_bits(d)) == d for every decimal, to_bits is injective, and the three fields do not overlap.", "quantifier": "every decimal bit pattern", "why_tests_cant": "Exhausting 2^64 patterns is not possible.", "anchors": ["Awl/Decimal.h: to_bits, from_bits", "Awl/DecimalData.h"]}
{"id": "C19", "title": "decimal multiplication is exact or reported", "statement": "multiply(a, b) equals the exact rational product or throws.", "quantifier": "every pair of decimals", "why_tests_cant": "Overflow cases are sparse.", "anchors": ["Awl/Decimal.h: multiply"]}
{"id": "C20", "title": "intrusive lists behave as sequences", "statement": "After any sequence of push_front, push_back, insert, exclude/erase, pop_front, pop_back, and splicing on quick_lists, forward traversal gives the sequence prescribed by the operations and backward traversal its reverse; an excluded element belongs to no list; no operation touches an element of another list.", "quantifier": "every sequence of operations on any number of lists", "why_tests_cant": "Pointer surgery has to keep two circular lists consistent in all states.", "anchors": ["Awl/QuickList.h: push_front, push_back, insert, erase, pop_front, pop_back, attach, clear", "Awl/QuickLink.h: insert_after, insert_before, exclude", "Awl/SingleList.h"]}
{"id": "C21", "title": "notification reaches every subscriber exactly once", "statement": "A Notify call invokes each observer subscribed at its start exactly once, in subscription order, even if an observer unsubscribes (or destroys) itself while being notified.", "quantifier": "every set of subscribers and every choice of self-unsubscribing observers", "why_tests_cant": "Which observers leave during the walk is an arbitrary subset; modification during traversal.", "anchors": ["Awl/Observable.h: Notify, NotifyWhileTrue, Subscribe, Unsubscribe", "Awl/Observable.h: class Observer"]}
{"id": "C22", "title": "a mirror set always reflects its source", "statement": "A mirror_set that reflects an observable_set (or another mirror of it) contains, after every sequence of insertions, erasures, clears, moves and migrations on the source, exactly the source's current elements in the mirror's own order, provided the mirror's comparator never identifies two of them; otherwise the insertion into the source throws std::logic_error.", "quantifier": "every history of the source set", "why_tests_cant": "Consistency between two containers over all histories.", "anchors": ["Awl/ObservableSet.h: insert, emplace, erase, clear, migrate, operator=", "Awl/MirrorSet.h: reflect, OnAdded, OnRemoving, OnClearing"]}
{"id": "C23", "title": "a foreign set is the grouping of its source", "statement": "A foreign_set subscribed to an observable_set always shows one non-empty group for each foreign key in use, in increasing key order, each holding exactly the current source elements with that key in increasing primary key order, after every history in which no two elements share both keys.", "quantifier": "every history of the source set", "why_tests_cant": "Consistency between two containers over all histories.", "anchors": ["Awl/ForeignSet.h: OnAdded, OnRemoving, OnClearing"]}
{"id": "C24", "title": "update queue delivers every update once, in order", "statement": "For every interleaving of any number of pushing threads (and of updates that push) with one applying thread, every pushed update is applied exactly once and in the order of the pushes unless ClearPending or an exception drops it; dropped or not, nothing is reordered, duplicated or invented; every message block is deleted exactly once by the destructor; and what the applying thread reads without the mutex is not written by concurrent calls.", "quantifier": "every interleaving, every number of threads and updates", "why_tests_cant": "Schedules cannot be enumerated by tests.", "anchors": ["Awl/UpdateQueue.h: Push, ApplyUpdates, ClearPending, PrepareData, FreeData"]}
{"id": "C25", "title": "atomic storage survives a crash at any point of Save", "statement": "If Save(v2) is interrupted by a crash after any of its elementary file operations, a following Load returns v1 (the value stored before) or v2, never a mixture and never 'no data'.", "quantifier": "every crash point, including torn writes of any length, and every pair of values", "why_tests_cant": "Crash points and torn-write lengths are unbounded in number.", "anchors": ["Awl/Io/AtomicStorage.cpp: Save, Load, LoadFromFile, ClearBackup", "Awl/Io/AtomicStorage.h: WriteToStreamFunc"]}
{"id": "C26", "title": "atomic storage recovery is idempotent", "statement": "If Load itself is interrupted by a crash any number of times, the next completed Load still returns the value that the first Load would have returned.", "quantifier": "every number and position of nested crashes", "why_tests_cant": "Nested crash sequences are unbounded.", "anchors": ["Awl/Io/AtomicStorage.cpp: Load, ClearBackup"]}
{"id": "C27", "title": "atomic storage survives failed saves", "statement": "If a Save fails with an IO error (and the process goes on) and a later Save is interrupted by a crash, Load still returns one of the values passed to Save or the value before.", "quantifier": "every history of failing and crashing saves", "why_tests_cant": "Two-fault histories are rarely tested.", "anchors": ["Awl/Io/AtomicStorage.cpp: Save"]}
{"id": "C28", "title": "hash stream round trip", "statement": "Bytes written through a HashOutputStream in any pieces and read through a HashInputStream in any pieces are the same bytes, followed by end-of-stream, for every block size larger than the hash and every hash function.", "quantifier": "every byte sequence, every division into writes, every division into reads, every block size", "why_tests_cant": "Block boundary alignment of writes and reads is unbounded.", "anchors": ["Awl/Io/HashStream.h: HashOutputStream::Write, Flush, HashInputStream::Read, PeekBuf, FlushBuf, End"]}
{"id": "C29", "title": "hash stream detects corruption", "statement": "If the stored bytes of a block differ from what was written, reading that block throws CorruptionException unless the altered payload hashes to the altered hash; data delivered before the exception is the original data.", "quantifier": "every alteration of every stored block", "why_tests_cant": "Corruptions cannot be enumerated.", "anchors": ["Awl/Io/HashStream.h: PeekBuf", "Awl/Crypto/Crc64.h"]}
{"id": "C30", "title": "CRC-64 detects every burst of up to 8 bytes", "statement": "Two messages of equal length that differ only within 8 consecutive bytes have different Crc64 values, for every seed.", "quantifier": "every message of every length, every position and content of the altered bytes", "why_tests_cant": "Messages are unbounded; detection is an algebraic property of the table.", "anchors": ["Awl/Crypto/Crc64.h: Calc, operator(), crc64_tab"]}
{"id": "C31", "title": "serialization round trip for every type", "statement": "For every serializable type built from integers, bool, enums, strings, optionals, pointers, arrays, vectors, sets, maps, variants, tuples and structs, Read after Write into a default-constructed object gives back the written value and consumes exactly the written bytes, whatever follows them.", "quantifier": "every type of any nesting depth and every value", "why_tests_cant": "Types and values nest without bound.", "anchors": ["Awl/Io/Rw/*.h: Read, Write"]}
{"id": "C32", "title": "truncated serialized data is never accepted", "statement": "Reading any proper prefix of the bytes written for a value throws EndOfFileException and never returns a value.", "quantifier": "every value, every truncation point", "why_tests_cant": "Every truncation point of every value.", "anchors": ["Awl/Io/Rw/ReadRaw.h", "Awl/Io/Rw/*.h"]}
{"id": "C33", "title": "reading into a non-empty object replaces it", "statement": "Reading into an object that already holds data gives the same result as reading into a default-constructed one.", "quantifier": "every type and every previous content", "why_tests_cant": "Depends on previous content of the target.", "anchors": ["Awl/Io/Rw/CollectionReadWrite.h: ReadCollection, ReadMap", "Awl/Io/Rw/OptionalReadWrite.h"]}
{"id": "C34", "title": "malformed input is reported, not undefined behaviour", "statement": "Reading arbitrary bytes as any supported type ends with a value or an exception, never with undefined behaviour.", "quantifier": "every byte sequence and every type", "why_tests_cant": "Arbitrary malformed inputs.", "anchors": ["Awl/Io/Rw/VariantReadWrite.h", "Awl/Io/Rw/EnumReadWrite.h", "Awl/Io/Reader.h: ReadStructIndex"]}
{"id": "C35", "title": "versioned reading tolerates field addition, removal and reordering", "statement": "Data written with the old version of a struct and read with a new version gives every field present (by name, with the same type) in both versions its written value, leaves added fields at their defaults and skips removed ones, whatever the order of fields.", "quantifier": "every pair of versions of a struct (any number, order and nesting of fields) and every value", "why_tests_cant": "Pairs of versions are unbounded.", "anchors": ["Awl/Io/Reader.h: ReadV, SkipField, SkipStruct, FindProtoMap, MapPrototypes", "Awl/Io/Writer.h: WriteV, WriteNewPrototypes"]}
{"id": "C36", "title": "versioned reading detects type changes", "statement": "If a field with the same name has different types in the two versions, versioned reading throws TypeMismatchException before returning.", "quantifier": "every pair of versions", "why_tests_cant": "Pairs of versions are unbounded.", "anchors": ["Awl/Io/Reader.h: CheckTypesCompatible, AreTypesEqual, AttachMetadata"]}
{"id": "C37", "title": "combined comparers are strict weak orders", "statement": "member_compare, property_compare, composite comparers, their transparent versions and reverse_compare are strict weak orders whenever their components are; composition is lexicographic.", "quantifier": "every list of component comparers and every triple of values", "why_tests_cant": "Universally quantified over comparers and values.", "anchors": ["Awl/KeyCompare.h", "Awl/CompositeCompare.h", "Awl/TransparentCompositeCompare.h", "Awl/ReverseCompare.h"]}
{"id": "C38", "title": "integer/byte-array conversion round trip", "statement": "from_array(to_array(x)) == x for every integer of every width, to_array(from_array(a)) == a for every array, and the first byte of to_array is the most significant.", "quantifier": "every width and every value", "why_tests_cant": "2^64 values per width.", "anchors": ["Awl/Int2Array.h: to_array, from_array"]}
{"id": "C39", "title": "bitmap is a set of enumerators", "statement": "bitmap set/reset/test/union/intersection/difference behave as the corresponding operations on sets of enumerators, for every enumeration size.", "quantifier": "every enum size and every operation sequence", "why_tests_cant": "Sizes beyond 32/64 bits are easily missed.", "anchors": ["Awl/BitMap.h"]}
{"id": "C40", "title": "interval map is a function on keys", "statement": "After any sequence of assign(a, b, v), at(k)/contains(k) reflect the latest assignment whose interval contains k and no other key is present.", "quantifier": "every sequence of assignments and every key", "why_tests_cant": "Interval overlap patterns are unbounded.", "anchors": ["Tests/Experimental/IntervalMap.h: assign, at, contains"]}
{"id": "C41", "title": "timers fire in deadline order", "statement": "When several suspended coroutines are due, TimeQueue::loop resumes them in order of their deadlines, and never before its deadline.", "quantifier": "every set of pushed deadlines and every evolution of the clock", "why_tests_cant": "Clock evolutions cannot be enumerated.", "anchors": ["Awl/Testing/TimeQueue.h: push, loop"]}
{"id": "C42", "title": "interruptible sleep wakes on stop", "statement": "sleep_for returns when the duration has elapsed or when stop has been requested, whichever is first, in every interleaving with the requesting thread.", "quantifier": "every interleaving of sleeper and stopper", "why_tests_cant": "Lost-wakeup schedules are rare.", "anchors": ["Awl/Sleep.h: sleep_for"]}
{"id": "C43", "title": "aggregator fires exactly when complete", "statement": "aggregator calls its function exactly when the last missing value arrives, with the latest value of each slot, and never after cancellation.", "quantifier": "every order of arrivals", "why_tests_cant": "Orders are factorial in number of slots.", "anchors": ["Awl/Aggregator.h"]}
{"id": "C44", "title": "object pool never hands out an object in use", "statement": "make() of an object_pool never returns an object that is still referenced, every released object becomes available again, and every object is destroyed exactly once.", "quantifier": "every history of make/release/clear", "why_tests_cant": "Histories are unbounded.", "anchors": ["Awl/ObjectPool.h"]}
{"id": "C45", "title": "scope guard runs its action exactly once unless released", "statement": "The action of a scope_guard runs exactly once when the owning guard goes out of scope, and never if it was released, however often the guard was moved.", "quantifier": "every sequence of moves, assignments and releases", "why_tests_cant": "Move chains are unbounded.", "anchors": ["Awl/ScopeGuard.h"]}
{"id": "C46", "title": "member name list parsing", "statement": "For every list of identifiers, the member names reported for AWL_REFLECT(a, b, c) are exactly those identifiers in order.", "quantifier": "every list of identifiers", "why_tests_cant": "Names and counts unbounded.", "anchors": ["Awl/Reflection.h: MemberList::traverse, getArgNames"]}
{"id": "C47", "title": "decimal seconds convert to exact nanoseconds", "statement": "decimal_to_nanoseconds(d) returns exactly d * 10^9 nanoseconds or throws when that is not a representable whole number.", "quantifier": "every decimal of every exponent", "why_tests_cant": "Exponents above 9 and counts above 64 bits are outside the usual samples.", "anchors": ["Awl/DecimalTime.h: decimal_to_nanoseconds", "Awl/Decimal.h: extend, mantissa"]}
{"id": "C48", "title": "operator<< for __uint128_t honours the field width", "statement": "out << setfill('0') << setw(w) << n prints the decimal digits of the 128-bit n padded with zeros to at least w characters, exactly like the built-in unsigned types.", "quantifier": "every n < 2^128 and every width", "why_tests_cant": "The wrong branch is reached only when the number is longer than the field.", "anchors": ["Awl/String.h: operator<< for __uint128_t"]}
{"id": "C49", "title": "hash input stream after a corruption exception", "statement": "After Read or End of a HashInputStream has thrown CorruptionException, calling Read or End again has defined behaviour.", "quantifier": "every corrupted file and every later call", "why_tests_cant": "The tests stop at the first exception; the dangling iterator is only noticed with checked iterators.", "anchors": ["Awl/Io/HashStream.h: PeekBuf, InternalEnd, Read"]}
{"id": "C50", "title": "case-insensitive string comparers agree and order strings", "statement": "For strings of characters that std::tolower accepts, CStringInsensitiveLess is a strict weak order, namely the lexicographic order of the lowered strings, StringInsensitiveEqual is equality of the lowered strings, and for any two strings exactly one of less, equal, greater holds.", "quantifier": "every pair and triple of strings of any length and every lowering function", "why_tests_cant": "Universally quantified over strings and locales.", "anchors": ["Awl/String.h"]}
{"id": "C51", "title": "awaiting a coroutine task is running it", "statement": "In a program of ProcessTask (or UpdateTask) coroutines in which every coroutine awaits (or releases) each task it starts exactly once before it ends, co_await yields the value or rethrows the exception that the awaited body computes, whether the task has finished before or finishes later; the outcome does not depend on the order in which the event loop resumes the suspended coroutines, no continuation is lost, every order takes the same finite number of steps, and there is no std::terminate and no access to a destroyed frame.", "quantifier": "every tree of coroutine bodies and every order of resumption", "why_tests_cant": "The orders of resumption grow factorially with the number of suspended coroutines.", "anchors": ["Awl/Coro/ProcessTask.h: ProcessPromise, operator co_await", "Awl/Coro/UpdateTask.h: UpdatePromise, operator co_await"]}
{"id": "C52", "title": "coroutine frames are destroyed exactly once", "statement": "In such a program no coroutine frame is destroyed twice or before it has finished, and when nothing is left to be resumed every frame but that of the main coroutine has been destroyed, also those of the UpdateTasks that have been released.", "quantifier": "every tree of coroutine bodies and every order of resumption", "why_tests_cant": "A leaked frame is not observable in the tests, and depends on the order of resumption.", "anchors": ["Awl/Coro/ProcessTask.h: free, ~ProcessTask", "Awl/Coro/UpdateTask.h: release, free, final_suspend"]}
{"id": "C53", "title": "generators yield the sequence of their body lazily", "statement": "A range-based for loop over a generator gets exactly the values that its body yields, in order, and ends normally or with the exception of the body; the body is executed only as far as the values are asked for; fmap yields the images of the values up to an exception of the function; a loop over a generator that has been iterated before is an ordinary loop.", "quantifier": "every generator body, finite or infinite, and every loop body", "why_tests_cant": "Universally quantified over bodies, and infinite sequences cannot be tested.", "anchors": ["Awl/Coro/Generator.h: generator, generator_iterator, fmap"]}
{"id": "C54", "title": "asynchronous generators deliver the sequence of the producer", "statement": "A consumer coroutine that iterates over an async_generator gets exactly the values of the producer, in order, and then its end or its exception, however often the producer or the consumer is suspended in between; begin() can be called again.", "quantifier": "every producer, every consumer and every placement of suspensions", "why_tests_cant": "Universally quantified over producers, consumers and suspensions.", "anchors": ["Awl/Coro/AsyncGenerator.h"]}
{"id": "C55", "title": "watch_dog stops its token exactly when it should", "statement": "The token of a watch_dog is stopped when the timeout has elapsed or the parent token has been stopped, and not before; the log function is called at most once, only because of the timeout, and only while it exists; the destructor ends and leaves no thread behind.", "quantifier": "every interleaving of the owner, the thread of the watch_dog, the thread that stops the parent and the clock", "why_tests_cant": "The interleavings cannot be enumerated by running the code; the bad ones need a timeout that elapses within microseconds of the construction or the destruction.", "anchors": ["Awl/WatchDog.h"]}
{"id": "C56", "title": "A PersistentObject keeps its value through crashes and new versions of the program", "statement": "save() of a PersistentObject followed by load() gives the saved value, with a crash anywhere in a save or a load the next load() gives the value of the last completed save or of the one that was cut short, and a new version of the program finds the converted value in the files of the old one, also after a crash; files that are truncated, damaged, of another format or of another version are refused, and then load() returns false and the value stays as it was. An OptionalObject whose files could not be opened keeps its defaults.", "quantifier": "all values, types and pairs of versions that evolve, all hash functions and block sizes, all histories of saves and loads with crashes after any byte", "why_tests_cant": "The combination of crash point, torn file, hash block boundary and version is unbounded; the test saves and loads one value.", "anchors": ["Awl/Io/PersistentObject.h", "Awl/Io/HeaderedSerializable.h", "Awl/Io/EuphoricallySerializable.h", "Awl/Io/HashingSerializable.h", "Awl/Io/VersionTolerantSerializable.h", "Awl/Io/OptionalStorage.h"]}
{"id": "C57", "title": "A failed read of a VersionTolerantSerializable leaves the object as it was", "statement": "If Read of an atomic VersionTolerantSerializable ends with an exception, the object has the value that it had before, whether or not its type can be moved.", "quantifier": "all types, values, streams and points at which the read fails", "why_tests_cant": "It depends on the types of the fields, on the value, and on the point of failure.", "anchors": ["Awl/Io/VersionTolerantSerializable.h"]}
{"id": "C58", "title": "A moved PersistentObject is still a PersistentObject", "statement": "After a PersistentObject has been move-constructed from another, save() writes the value that value() shows and load() changes it, also when the other object has been destroyed.", "quantifier": "all values and storages, all orders of move, assignment, destruction, save and load", "why_tests_cant": "The tests never move one, and reading through a dangling reference often seems to work.", "anchors": ["Awl/Io/PersistentObject.h", "Awl/Io/HashingSerializable.h", "Awl/Io/VersionTolerantSerializable.h"]}
{"id": "C59", "title": "The options of a command line are those that were typed", "statement": "CommandLineProvider accepts exactly the command lines that consist of distinct options --name, each followed by at most one value that is not itself an option; TryFind then gives each option its value, an empty one if it has none, and finds nothing else; every other command line is refused with a TestException. The destructor names exactly the options that were never asked for. Every identifier can be the name of an option and every text its value.", "quantifier": "all lists of arguments, all names, all sequences of queries", "why_tests_cant": "The space of command lines is unbounded; the tests check a few well-formed ones.", "anchors": ["Awl/Testing/CommandLineProvider.h", "Awl/Testing/CommandLineProvider.cpp"]}
{"id": "C60", "title": "An attribute has the value that is passed for it, or its default", "statement": "FromString(ToString(v)) = v for scalars, strings, vectors and sets; an attribute has the value that the command line gives it, whatever its default is, and its default if the command line does not mention it; a text that is not a value of the type is not taken for one.", "quantifier": "all types of attributes without floating point, all values, defaults and command lines", "why_tests_cant": "Ranges of 32 and 64 bit integers and arbitrary texts can not be enumerated.", "anchors": ["Awl/Testing/Formatter.h", "Awl/Testing/ScalarFormatter.h", "Awl/Testing/AttributeProvider.h", "Awl/Testing/LocalAttribute.h"]}
{"id": "C61", "title": "The console runs the tests that were asked for and reports their outcome", "statement": "TestConsole::Run calls the registered tests whose names match the filter in the order of their names, or those of --run, each --loop times, up to the first one that fails; with --output failed exactly the output of the failed call is printed; --list prints the names and calls nothing; unknown names and tests registered twice are reported; the exit code is zero if and only if all of them pass; a test that throws fails.", "quantifier": "all sets of registered tests, all behaviours of tests, filters and options", "why_tests_cant": "The behaviour of the framework on all sets of tests, filters and failures can not be enumerated, and it is itself what runs the tests.", "anchors": ["Awl/Testing/TestChain.h", "Awl/Testing/TestMap.h", "Awl/Testing/TestMap.cpp", "Awl/Testing/TestConsole.cpp", "Main/main.cpp"]}
{"id": "C62", "title": "create calls the factory function that was registered with the name", "statement": "create<T>(name, args...) calls the factory function that is registered with this name and can be called with these arguments, and throws FactoryException if there is none; a name identifies one function.", "quantifier": "all sequences of registrations, all signatures, names and arguments", "why_tests_cant": "The tests use two signatures and rvalue arguments only.", "anchors": ["Awl/StaticFactory.h", "Awl/StaticChain.h"]}
{"id": "C63", "title": "Assert::Throws<E> holds exactly if an E is thrown", "statement": "Assert::Throws<E>(f) returns if and only if f throws an exception of type E or of a type derived from it; it throws TestException if f returns, and any other exception of f leaves it.", "quantifier": "all hierarchies of exceptions, all E and all f", "why_tests_cant": "Every test that uses it relies on it; none checks it with a base of TestException.", "anchors": ["Awl/Testing/TestAssert.h", "Awl/Testing/TestException.h", "Awl/Exception.h"]}
{"id": "C64", "title": "Streams of bytes give the bytes in order, and a file stream is a file", "statement": "VectorInputStream, StdInputStream and the native file streams answer any sequence of Read and End with the consecutive pieces of their contents: Read(n) returns fewer than n bytes only at the end, and End() is true exactly if nothing is left. ReadRaw gives all the bytes or throws EndOfFileException. MeasureStream counts exactly what VectorOutputStream would contain. For every sequence of Read, Write, Seek, Move, Truncate, GetLength and GetPosition the native stream behaves like a file with a position: overwriting, zero filled gaps, failing seeks that change nothing.", "quantifier": "all contents, positions and sequences of calls", "why_tests_cant": "The tests write and read small files from the begin to the end; short reads, positions beyond the end and failed seeks do not occur.", "anchors": ["Awl/Io/VectorStream.h", "Awl/Io/MeasureStream.h", "Awl/Io/StdStream.h", "Awl/Io/Rw/ReadRaw.h", "Platforms/Posix/Awl/Io/NativeStream.h", "Platforms/Windows/Awl/Io/NativeStream.h"]}
{"id": "C65", "title": "Every handle and every object has one owner and is released once", "statement": "After any sequence of constructions, moves, copies, assignments, close() and destructions each UniqueHandle or SharedHandle refers to what it should refer to, every open handle is in exactly one of them, and no handle is open when all of them are destroyed; no handle is closed twice. The same holds for the objects of awl::unique_ptr with reset() and release(). swap exchanges two handles without opening or closing any, and two objects compare equal only if they are one object or both are null. Each unique_ptr points to what the moves, resets and releases have put there, and exactly the objects that were overwritten or left in a destroyed pointer are deleted.", "quantifier": "all sequences of operations, including self assignment", "why_tests_cant": "Handles are tested with one object; a handle that is closed twice or leaks shows up only in long runs.", "anchors": ["Platforms/Posix/Awl/Io/UniqueHandle.h", "Platforms/Windows/Awl/Io/UniqueHandle.h", "Platforms/Windows/Awl/Io/SharedHandle.h", "Awl/UniquePtr.h"]}
{"id": "C66", "title": "The bytes of serialized data are those of the documented layout", "statement": "For every serializable value Write produces exactly the bytes that the layout prescribes: integers, enums and time points in little endian two's complement of their width, booleans as one byte, strings, vectors, deques, sets and maps as a 64 bit count followed by the elements, vectors and arrays of bool packed eight in a byte, optionals as a presence byte and the value, variants as an index and the value, tuples, arrays and structures as their parts. In the version tolerant format the descriptions of all the types and structures come first and each structure is preceded by its 16 bit index; a persistent file holds the format and version header, this data, and a hash before each block of it. Reading these bytes gives the value, and different values have different bytes.", "quantifier": "all types and values, all programs, all headers and block sizes", "why_tests_cant": "Round trip tests pass with every pair of a writer and a reader that agree with each other; files written by earlier builds are readable only if the layout itself stays as it is.", "anchors": ["Awl/Io/Rw/ArithmeticReadWrite.h", "Awl/Io/Rw/StringReadWrite.h", "Awl/Io/Rw/VectorReadWrite.h", "Awl/Io/Rw/CollectionReadWrite.h", "Awl/Io/Rw/VariantReadWrite.h", "Awl/Io/Rw/OptionalReadWrite.h", "Awl/Io/Rw/TuplizableReadWrite.h", "Awl/Io/Rw/ChronoReadWrite.h", "Awl/Io/Rw/EnumReadWrite.h", "Awl/Io/Writer.h", "Awl/Io/HeaderedSerializable.h", "Awl/Io/HashStream.h"]}
{"id": "C67", "title": "Enumerators and their names are in one to one correspondence", "statement": "For an enum declared by AWL_SEQUENTIAL_ENUM with any list of identifiers, enum_to_index, enum_from_index and validate_enum accept exactly the values 0 .. count-1 and throw on others; enum_to_string gives the name written in the declaration; enum_from_string gives the enumerator with that name and throws on every other string. enum_from_string_i gives the first enumerator whose name is equal up to case.", "quantifier": "all lists of identifiers, all values and all strings", "why_tests_cant": "The tests use one enum with a handful of names; values outside of it and names that differ in case only do not occur.", "anchors": ["Awl/EnumTraits.h", "Awl/Reflection.h", "Awl/String.h"]}
{"id": "C68", "title": "The types of a versioned structure are collected completely and once", "statement": "For every structure T the variant made of it contains every type T is made of, through any nesting (except tuples and the arithmetic elements of vectors and arrays), the type of every field of every structure among them and the extra types; it contains nothing else and nothing twice, so that find_variant_type_v has exactly one result for each. Split into structures and other types it is a program that the version tolerant reader and writer accept: every field has an index.", "quantifier": "all types, nested to any depth, and all extra types", "why_tests_cant": "A type that is missing breaks the build of the user's program, not of the tests; a type that is there twice shows up only with particular structures.", "anchors": ["Awl/Mp/TypeCollector.h", "Awl/Mp/TupleToVariant.h", "Awl/Mp/VariantFromStructs.h", "Awl/Mp/TypeDescriptor.h", "Awl/Mp/TypeConverter.h", "Awl/Io/PrototypeContainer.h", "Awl/TupleHelpers.h"]}
{"id": "C69", "title": "Indices of nested fields", "statement": "countof_fields<T>() is the number of the fields of T with the fields of nested structures counted in place of them, and indexof_type<T, F>() is the position of the first of them that has the type F, or no_type_index if none has.", "quantifier": "all structures and field types", "why_tests_cant": "The tests check two small structures at compile time.", "anchors": ["Awl/Io/TypeIndex.h", "Awl/Tuplizable.h"]}
{"id": "C70", "title": "Conversions between decimals and doubles", "statement": "A decimal with at most 53 bits and 22 digits is converted to a nearest double and the order is kept; make_rounded(static_cast<double>(d), d.digits()) is d again below 2^51 units; make_truncated, make_rounded, make_ceiled, make_floored of a double are less than one unit away from it, and truncated, rounded, ceiled, floored exactly if the product with the power of ten is a double.", "quantifier": "all decimals, doubles and digits in these ranges", "why_tests_cant": "The tests convert some literals with a tolerance or that happen to be exact.", "anchors": ["Awl/Decimal.h", "Tests/DecimalTest.cpp"]}
{"id": "C71", "title": "Arithmetic of decimals with doubles and integers", "statement": "d + x and d - x with a double x are less than one unit away from the exact values, d *= x and d /= x less than one unit plus a relative error of 3 * 2^-53, an assigned integer is exact and a cast to an integer truncates; no step overflows.", "quantifier": "all decimals, doubles and integers in these ranges", "why_tests_cant": "Only a few values are tested, without a bound of the error.", "anchors": ["Awl/Decimal.h", "Tests/DecimalTest.cpp"]}
{"id": "C72", "title": "Decimals over boost::multiprecision have the same data", "statement": "Every sequence of set_positive, set_exp, set_man and from_bits of MultiprecisionDecimalData has the sign, exponent, mantissa and bits that BuiltinDecimalData has after the same calls: setting a field changes only that field.", "quantifier": "all sizes, exponent lengths up to 8, initial values and sequences of calls whose exponents fit", "why_tests_cant": "The tests set a few values and compare them through decimals.", "anchors": ["Extras/Boost/BoostExtras/MultiprecisionDecimalData.h", "Awl/DecimalData.h", "Awl/DecimalConstants.h"]}
{"id": "C73", "title": "Serialization of boost::multiprecision integers", "statement": "A number is written as a byte with its sign and number of bytes and the shortest big-endian sequence of its magnitude; it is read back with what follows untouched; truncated data throws EndOfFileException; no number's bytes are a prefix of another's; Write throws exactly from 2^1016 on.", "quantifier": "all integers and types, all following bytes", "why_tests_cant": "The tests write some numbers and read them.", "anchors": ["Extras/Boost/BoostExtras/Io/Rw/MultiprecisionReadWrite.h"]}
{"id": "C74", "title": "Singletons", "statement": "In sequential use at most one instance is alive at any time; all callers get the same one; shared_singleton constructs at most one instance in the life of the program and returns nullptr after it is destroyed; ondemand_singleton then constructs a new one and always returns a live instance; after an exception from make_singleton_instance nothing has changed and the next call tries again.", "quantifier": "all sequences of calls, copies and releases, all outcomes of make_singleton_instance", "why_tests_cant": "The tests call the functions a few times; they do not throw from the constructor, return nullptr or interleave calls.", "anchors": ["Awl/SharedSingleton.h"]}
{"id": "C75", "title": "StopWatch", "statement": "HasElapsed is exact for intervals that are whole numbers of ticks of steady_clock, otherwise never late and early by less than one tick; once true it stays true until Reset, and for shorter intervals; GetElapsedCast truncates.", "quantifier": "all times, intervals and ratios whose conversion does not overflow", "why_tests_cant": "A test measures a few intervals with the clock of the machine.", "anchors": ["Awl/StopWatch.h"]}
{"id": "C76", "title": "position_changed", "statement": "If all the elements of a range but the one at the iterator are in order, position_changed returns false exactly if the whole range is in order.", "quantifier": "all ranges, iterators and strict orders", "why_tests_cant": "There is no test of it.", "anchors": ["Awl/RangeUtil.h"]}
{"id": "C77", "title": "Math.h: round, clamp, sign", "statement": "round gives the nearest integer, halves up, for all non-negative numbers below half of the precision of the type but the one before 1/2; clamp gives the nearest value between the bounds; sign times absolute value is the value.", "quantifier": "all numbers of any IEEE 754 binary format, all integer types, all orders", "why_tests_cant": "There is no test; floating point numbers are too many to enumerate, and the exception is a single one.", "anchors": ["Awl/Math.h"]}
{"id": "C78", "title": "Memberwise operators", "statement": "Objects are equal exactly if all the members are; <, >, <=, >= are decided by the first members that are not equivalent; if the members are totally ordered, so are the objects, consistently with ==.", "quantifier": "all lists of member types, all objects", "why_tests_cant": "Tests compare a few objects of integers and strings.", "anchors": ["Awl/Tuplizable.h"]}
{"id": "C79", "title": "Hashes of objects and vectors", "statement": "Equal objects and vectors have equal hashes if equal members have; a change of the hash of the last member changes the hash; hash<vector> is the hash of the tuple of the elements; collisions can be constructed for any prefix.", "quantifier": "all member types and hash functions, all objects", "why_tests_cant": "There is no test; a test can compare a few hashes.", "anchors": ["Awl/Hashable.h"]}
{"id": "C80", "title": "Rings whose elements throw", "statement": "A ring can be destroyed, and nothing is leaked, after an exception from the constructor of an element in push_back, push_front, reserve, the copy constructor or copy assignment.", "quantifier": "all rings with a buffer, all contents, any element at which the constructor throws", "why_tests_cant": "No test has elements whose constructors throw.", "anchors": ["Awl/Ring.h"]}
{"id": "C81", "title": "Hash output streams over a stream that fails; buffered streams", "statement": "When a write of the underlying stream fails, HashOutputStream reports it with an exception, and closing the stream afterwards leaves a file whose data can be read up to its end. Without failures the calls succeed and the file is the one of C28. BufferedOutputStream and BufferedInputStream write and read exactly the bytes of the underlying stream.", "quantifier": "all data and sequences of Write and Read, all block sizes greater than the size of the hash, every hash function, every point at which the underlying stream begins to fail", "why_tests_cant": "The tests write to memory and to files that do not fail.", "anchors": ["Awl/Io/HashStream.h", "Awl/Io/BufferedStream.h", "Awl/Crypto/BasicHash.h"]}
{"id": "C82", "title": "PlainReader", "statement": "PlainReader reads back the objects that a Writer wrote one after another, provided that all the prototypes are equal; the indices of the structures have no influence; malformed input is not undefined behaviour; a file with other prototypes is not read as other values.", "quantifier": "all types and values of C31, all sequences of objects, all indices", "why_tests_cant": "The test reads two structures of one version with their own indices.", "anchors": ["Awl/Io/PlainReader.h", "Awl/Io/BasicReader.h", "Awl/Io/Writer.h"]}
{"id": "C83", "title": "Iterators of a ring", "statement": "After any history of operations on rings, a program that walks over a live ring with iterators (begin, end, ++, --, + n, - n, += n, -= n, difference, ==, !=, <, * and the reverse iterators) and keeps them between begin() and end() observes exactly what it would with positions in the list of the ring's elements, although the elements may be wrapped around in the buffer. An iterator is a position and not a reference to an element: push_back to a full ring moves every iterator to the following element, push_front to a ring that is not full to the preceding one. Iterators of different rings at one position are equal. A ring that has been moved from still reports its old size() and iterating over it is undefined.", "quantifier": "all element types and equality functions, all programs over any number of rings (constructed, copied, moved, assigned, reserved, pushed, popped, cleared, destroyed), all iterator programs, all rings shorter than 2^63 elements", "why_tests_cant": "Tests/RingTest.cpp walks over rings of a few sizes with std::equal, std::find and std::lower_bound; it never keeps an iterator over a modification and never looks at a moved-from ring.", "anchors": ["Awl/Ring.h:33-170", "Awl/Ring.h:375-389", "Awl/Ring.h:196"]}
{"id": "C84", "title": "Exceptions in a vector_set", "statement": "Whatever call of the comparator, of an element's constructor or of the allocator throws, a program over vector_sets that keeps to the preconditions stays defined. A failed insert, emplace, erase(key), find, find2, contains, lower_bound, upper_bound, index_of or == leaves every set with the same elements; a failed copy construction makes no set; a failed assignment leaves a prefix of the right operand in the left one. Every other call does what it does without exceptions, and the nodes owned by the sets are exactly their elements. Memory is not safe: an insertion whose constructor throws, or whose comparator throws in InsertNode, loses one block; a failed copy construction loses all the nodes made so far.", "quantifier": "all element and key types, all strict weak orders and consistent keys, all programs over any number of sets, all patterns of exceptions", "why_tests_cant": "The tests use ints and a class that never throw; there are exponentially many places where exceptions can occur.", "anchors": ["Awl/VectorSet.h:104-195", "Awl/VectorSet.h:231-234", "Awl/VectorSet.h:278-285", "Awl/VectorSet.h:353-369", "Awl/VectorSet.h:587-806", "Awl/VectorSet.h:1191-1197"]}
{"id": "C85", "title": "String conversions", "statement": "EncodeString converts exactly the wide characters before the first zero: if the locale can encode them all, the result is well formed and DecodeString gives the characters back, otherwise a std::length_error is thrown. DecodeString accepts exactly the well-formed bytes before the first zero (in a UTF-8 locale those of the table of the Unicode standard: no overlong forms, no surrogates, nothing above U+10FFFF) and EncodeString gives the bytes back; it makes one character of each byte that does not continue another. Both are injective. A message logged from a std::string loses everything after its first zero, and in the locale a program starts in logging a wide message that is not ASCII throws.", "quantifier": "all wide and narrow strings, both the C and the UTF-8 locale", "why_tests_cant": "Tests/ExceptionTest.cpp converts two Russian strings to and fro; almost all of the 2^32 sequences of four bytes are malformed.", "anchors": ["Awl/String.h:240-340", "Awl/LogString.h:50-56"]}
{"id": "C86", "title": "Fixed strings, separators, string hashes and integer ranges", "statement": "A program over fixed_strings that stays within their sizes observes plain strings: construction drops the last element of the array, + concatenates, == and != compare also strings of different sizes, the conversions and the output give all the characters and c_str() ends at the end. operator[] can overwrite the terminating zero, c_str() is then read past the array. from_ascii keeps ASCII and makes negative characters of the rest. A separator printed before each item puts its text between the items and nowhere else. FixedHash gives one value for a literal, a fixed_string, a string and a string_view of the same characters, but ignores the last element of an array that is no literal. make_int_range yields begin..end-1 in order; a negative make_count is undefined.", "quantifier": "all programs over any number of fixed strings, all items and separators, all hash functions, all ranges", "why_tests_cant": "Tests/StringTest.cpp, SeparatorTest.cpp, HashTest.cpp and IntRangeTest.cpp check a few strings and ranges.", "anchors": ["Awl/FixedString.h:11-113", "Awl/String.h:53-67", "Awl/Separator.h:13-62", "Awl/Crypto/FixedHash.h:13-61", "Awl/IntRange.h:13-24"]}
{"id": "C87", "title": "Dates to points in time, durations to texts", "statement": "make_time counts its month from zero: given the month less one it is the exact number of nanoseconds from 1 January 1970 for every date of the Gregorian calendar from 1677 to 2262 and any hours, minutes and seconds; given the month of the calendar it is late by the length of that month, for every date. A date that mktime cannot represent becomes the last second of 1969; later dates than 2262 are undefined. The overload with a fraction adds it. format_duration writes [-]h:mm:ss.fffffffff of exactly the duration given, so that different durations have different texts (GCC, MSVC), or the number of nanoseconds (clang); the least duration is undefined.", "quantifier": "all dates, times of day, time zones at a fixed offset, all durations of 64 bits in nanoseconds", "why_tests_cant": "Tests/TimeTest.cpp is compiled only where __STDC_LIB_EXT1__ is defined, checks one date and compares tm_mon with the month given.", "anchors": ["Awl/Time.h:18-41", "Awl/Time.h:43-130"]}
{"id": "C88", "title": "Unordered containers in files", "statement": "Whatever the hash function and the hash table do with the order, a std::unordered_set or std::unordered_map that is written is read back into an empty one with the same elements, and only its bytes are consumed; a file that is cut off ends in EndOfFileException; whatever bytes are accepted give values of the type without two equivalent keys. What was in the object before stays in it. Saving what has just been loaded need not give the same file: with the hash table of libstdc++ the order of a set of three ints is reversed each time.", "quantifier": "all element, key and mapped types of the universe of C31, all values, all tables, all inputs", "why_tests_cant": "Tests/RwHelpersTest.cpp reads back one set and one map and compares them with ==; the order of a hash table depends on its history.", "anchors": ["Awl/Io/Rw/CollectionReadWrite.h:22-46", "Awl/Io/Rw/CollectionReadWrite.h:66-101", "Awl/Io/Rw/CollectionReadWrite.h:157-198"]}
{"id": "C89", "title": "any version reads the data of any other version without undefined behaviour", "statement": "Data written by one version of a program and read by any other version (other structures, fields, types, name mappings) is never undefined behaviour: the reader throws, or it consumes exactly the bytes that were written. If fields may not be deleted, it throws when a structure that is read has a field without a counterpart.", "quantifier": "every pair of programs, every mapping of field and type names that keeps layouts, every value, whatever follows the data", "why_tests_cant": "Pairs of programs are unbounded, and data of other versions is rarely kept.", "anchors": ["Awl/Io/Reader.h: ReadV, SkipField, SkipStruct, FindProtoMap, MapPrototypes, CheckTypesCompatible, AttachMetadata", "Awl/Io/Writer.h: WriteV, WriteNewPrototypes"]}
{"id": "C90", "title": "iterating an interval map visits its keys in order", "statement": "A loop from begin() to end() of an interval_map visits every key for which contains() is true, each exactly once, in increasing order, with the value that at() returns, and no other key; reverse iteration visits the same in reverse.", "quantifier": "every sequence of assignments before the loop", "why_tests_cant": "The number and the shape of the intervals are unbounded; a test with small keys does not reach the overflow of the interval length.", "anchors": ["Tests/Experimental/IntervalMap.h: MyIterator, begin, end, rbegin"]}
{"id": "C91", "title": "the function of an aggregator may throw and use the aggregator", "statement": "A function of an aggregator may throw, and may call set and cancel of that aggregator: set returns or passes the exception on, every call gets the values set last, and exactly the operations that C43 names make a call.", "quantifier": "every function (any finite sequence of operations, depending on the arguments and on the number of the call) and every sequence of operations", "why_tests_cant": "Functions and nestings are unbounded; that a function never returns cannot be observed.", "anchors": ["Awl/Aggregator.h: set, call, cancel"]}
{"id": "C92", "title": "cast<float>() of a decimal is the nearest float for mantissas of 24 bits, and rounding gives the decimal back", "statement": "cast<float>() of a decimal whose mantissa has at most 24 bits and that has at most 22 digits is a float nearest to its value, although it is rounded to double before; it does not reverse the order; for any mantissa its relative error is at most 3 * 2^-24; make_rounded of the float gives a decimal of less than 2^23 units back. Above 24 bits the mantissa is rounded to float before the division, so the result is not the nearest float while static_cast<float>(cast<double>()) is nearer; above 23 bits make_rounded gives another decimal.", "quantifier": "All decimals of every configuration of mantissa and exponent widths, with the mantissas and numbers of digits said.", "why_tests_cant": "There are 2^24 mantissas for each number of digits, and double rounding goes wrong at one in 2^29 numbers if at all; a test finds no counterexample and cannot exclude one.", "anchors": ["Awl/Decimal.h:92-96", "Awl/Decimal.h:101-104", "Awl/Decimal.h:402-410"]}
{"id": "C93", "title": "notifications inside notifications call each subscriber exactly once per notification", "statement": "An observer may notify another observable, or the same one, while it is being notified. Each Notify, at any depth, calls those that were subscribed when it began, once each and in order, as long as no operation touches an observer that some Notify under way still has to call. In particular observers that forward to observables of a lower level and unsubscribe themselves are safe for any number of levels. An observer that unsubscribes itself in a nested notification of its own observable is not: the outer loop calls it again and then follows a null pointer. An observer that always notifies its own observable never returns.", "quantifier": "All states of the lists reachable by any program, all observers' programs (which may depend on the calls made before), any depth of nesting.", "why_tests_cant": "The tests notify once and do not call Notify from an observer.", "anchors": ["Awl/Observable.h: Notify", "Awl/QuickLink.h: exclude, safe_exclude"]}
{"id": "C94", "title": "Tasks in variables: each coroutine is destroyed once, careful programs are safe and lose no wakeup", "statement": "For any program that starts coroutines, keeps their ProcessTask or UpdateTask objects in variables, moves, frees, awaits, reads and releases them in any order, from ordinary code and from coroutines: no coroutine is destroyed twice, a variable never refers to a destroyed coroutine, no two variables refer to the same coroutine; when every function has returned, each coroutine has been destroyed, is held by exactly one variable or has been released (for ProcessTask: with all variables empty each coroutine has been destroyed exactly once; for UpdateTask released before its end: each finished coroutine has been destroyed). If tasks are destroyed or overwritten only when empty or finished, get() is called only on finished ones and done() on non-empty ones, then nothing undefined happens, is_ready() and done() answer exactly whether the coroutine has finished, and each unfinished coroutine waits, through the ones it awaits, for one that executes or expects an event, unless it waits for itself. get() gives what the coroutine has returned or thrown (a moved-from value when it had been taken before); a coroutine in co_await goes on exactly when the awaited one ends, with the value or the exception of that one.", "quantifier": "all programs (arbitrary bodies of coroutines and of ordinary code, any order of events, both kinds of task), all moments", "why_tests_cant": "the interleavings of suspensions, moves and destructions are unbounded, and a use of a destroyed frame or a leaked frame usually shows no symptom in a test", "anchors": ["Awl/Coro/ProcessTask.h: ProcessTask, ProcessPromise, operator co_await", "Awl/Coro/UpdateTask.h: UpdateTask, UpdatePromise, operator co_await"]}
{"id": "C95", "title": "One Reader reads any number of values, also after exceptions", "statement": "If a Writer writes its prototypes once and then any number of values, a Reader of another version of the program that reads the prototypes once reads all the values in this order, consumes exactly the written bytes, and each value becomes what it becomes when it is written and read alone (C35). A value is read this way from every state that the Reader can be in after other calls of ReadV, whether they have returned or thrown, as long as each old structure has been read into the structure that it has become; reading an old structure into a second new structure throws IoError. A Reader on which Initialize() is called reads back any number of values that a Writer of the same program has written without prototypes. Violated by the code: after ReadV has thrown because the types of a field do not match, the same Reader does not throw when it meets the structure again, but reads wrong values (vts_retry_refuted).", "quantifier": "all programs (old and new version), all lists of values of all types of the serializer, all sequences of earlier calls that return or throw, all bytes that follow", "why_tests_cant": "VtsTest reads the same two values again and again with one Reader and has no test in which a Reader is used after an exception; the field maps depend on the history of the Reader, and the number of histories is unbounded", "anchors": ["Awl/Io/Reader.h:137-147", "Awl/Io/Reader.h:355-396", "Awl/Io/Writer.h", "Tests/VtsTest.cpp:82-200"]}
{"id": "C96", "title": "Stop tokens of Extras/JThread keep the promises of the standard, except that the state is deleted too early", "statement": "In every execution of any number of threads that use one stop state through stop_source, stop_token and stop_callback objects, in which a source exists all the time (or, more generally, no token reference is dropped while there is no source and another token or registered callback refers to the state), nothing that has been deleted or destroyed is accessed and the history is one that the standard allows: a stop is requested at most once, request_stop() returns true exactly to the thread that made the request and only after every registered callback has been called or is being destroyed; stop_requested() is true exactly after the request; stop_possible() is true after the request and there is no request after it was false; a callback is called at most once, by the thread that made the request or by its own constructor, not before the request and not after its destructor has returned; a callback constructed after the request has been called when its constructor returns; the destructor of a callback returns while the callback is executed only if it is called in that callback's thread. The state is deleted exactly when nothing refers to it. Whoever holds the internal lock releases it in at most two steps, and a destructor waits only for another thread that is executing the callback. If the last source is gone and two token references exist, destroying one of them deletes the state although the other refers to it: two tokens, destroy the source and one token, and stop_requested() of the other token is undefined behaviour.", "quantifier": "all numbers of threads and callbacks, all schedules, all spurious failures of compare_exchange_weak, callbacks that themselves use the stop state; up to 2^31-1 tokens and sources", "why_tests_cant": "Data races and their interleavings with callbacks that destroy themselves or are destroyed elsewhere depend on the schedule; a test runs a few schedules and a use after free mostly goes unnoticed.", "anchors": ["Extras/JThread/JThreadExtras/stop_token.hpp:29-303", "Extras/JThread/JThreadExtras/stop_token.hpp:305-480", "Extras/JThread/JThreadExtras/stop_token.hpp:487-561", "Awl/CppStd/Thread.h:7"]}
{"id": "C97", "title": "Interruptible condition variable of Extras/JThread", "statement": "condition_variable_any2, with any number of threads that wait (any overload), notify, change the data under the lock, request a stop and destroy the condition variable: no execution is undefined, also if the condition variable is destroyed while threads wait; a predicate is called under the user's lock only; a wait returns with the lock held, returns what its predicate says of the data at that moment, returns false only after a timeout or a stop request, and leaves nothing behind that refers to it; after notify_all() no thread whose predicate is true sleeps until the data are changed again, and it returns within 8 own steps; after request_stop() returned true no wait with the token sleeps, and each returns within 11 own steps after the flag has been set; the internal mutex is released within 3 steps of its owner, and if no function can go on each of them sleeps or waits for the lock that user code holds", "quantifier": "all numbers of threads, data types, predicates, overloads and interleavings, with spurious wake ups and timeouts at any moment", "why_tests_cant": "a lost wake up needs one particular interleaving of the test of the predicate, the notification and the stop request", "anchors": ["Extras/JThread/JThreadExtras/condition_variable_any2.hpp", "Awl/CppStd/Thread.h"]}
{"id": "C98", "title": "Joining threads of Extras/JThread", "statement": "any number of threads that create, move, swap, assign, join, detach, stop and destroy jthread objects: a thread that runs and was not detached is owned by exactly one existing object, so no thread outlives the objects; ~jthread and operator = ask their own thread to stop before they wait for it, and go on as soon as it has ended; join() returns after the end of the thread and never for the same thread twice; request_stop() returns true exactly once for a thread, and the token of the thread says whether it was called; std::terminate is called only when a thread destroys or assigns to the object that owns itself", "quantifier": "all numbers of threads and objects and all interleavings in which an object is used by one thread at a time", "why_tests_cant": "a wrong pairing of source and thread after a move or swap stops another thread, which tests with one thread do not see", "anchors": ["Extras/JThread/JThreadExtras/jthread.hpp"]}
{"id": "C99", "title": "Iterators and references of a vector_set stay valid", "statement": "An iterator that gives a value gives the same value, at the same address, after any further calls on any sets, until the element is erased, cleared, overwritten by an assignment or destroyed with its set. Insertions and erasures of other elements, whatever the shape of the tree, do not move it; moving the set takes the element, with its iterator, to the new set.", "quantifier": "all legal programs before and after, all elements, all strict weak orders", "why_tests_cant": "Erasing a node with two children in a red-black tree has to exchange two nodes; implementations that copy the value instead invalidate iterators only for some shapes of the tree.", "anchors": ["Awl/VectorSet.h:517-535", "Awl/VectorSet.h:1036-1084", "Awl/DoubleNodeIterator.h:1-128"]}
{"id": "C100", "title": "Save with a mutex takes one consistent value while other threads modify the object", "statement": "Threads modify the fields of an object under a mutex while Save is called with that mutex: there is no data race, what Save writes is a value that the object has had between two modifications and during the call, nobody waits for the disk, and after a crash at any moment Load gives the value of the last Save that returned or such a value of the call in progress. Two calls of Save at the same time are not protected by the mutex: both return and the saved data are lost.", "quantifier": "all numbers of threads, all modifications, all interleavings of single field accesses and file operations, all crashes, all formats as in C25", "why_tests_cant": "The mutex is released before the files are written; a test would have to hit an interleaving inside MakeShanshot or between the system calls of two threads.", "anchors": ["Awl/Io/AtomicStorage.cpp:38-62", "Awl/Io/AtomicStorage.h:98-132", "Awl/OptionalMutex.h:5-33"]}
{"id": "C101", "title": "Finalize of a pooled object may use the pool", "statement": "object_pool calls Finalize of an object when the last shared pointer to it goes away, and Finalize may itself make, add, copy, reset and clear. Whatever the Finalizes do, and however deep they call one another, the pool behaves as if the same operations were done one after another. A Finalize may use its own object as long as no Finalize clears the pool, and the object is not handed out while its Finalize runs as long as no Finalize calls make(). The code does not guarantee more: make() in Finalize returns the very object that is being finalized, a Finalize that takes an object and gives it back calls itself without end, and clear() in Finalize deletes the object whose Finalize is running.", "quantifier": "all programs, all scripts of every call of Finalize, all numbers of steps", "why_tests_cant": "A test would have to write a Finalize that uses the pool; the deleter is called in the middle of an assignment of shared pointers, and the number of combinations has no bound.", "anchors": ["Awl/ObjectPool.h:17-60", "Awl/ObjectPool.h:64-75", "Awl/PooledObject.h"]}
{"id": "C102", "title": "UpdateQueue when copying a function throws, and the copies it keeps", "statement": "If copying the function in UpdateQueue::Push throws, the queue behaves from then on as if Push had not been called: the other updates are applied in order, nothing is undefined. When ApplyUpdates has ended, normally or by an exception, the queue keeps no copy of an update that is not waiting. The destructor deletes every message. The code violates the last two in part: the message is lost if the assignment in Push throws (at most one per such call), and ClearPending keeps the copies of the functions it drops in the free messages.", "quantifier": "all programs of Push, ClearPending and ApplyUpdates, all choices of which copy throws and which updates throw", "why_tests_cant": "A test would need a function object that throws in its second copy and a count of messages; the existing tests use functions that do not throw.", "anchors": ["Awl/UpdateQueue.h:17-50", "Awl/UpdateQueue.h:54-82", "Awl/UpdateQueue.h:85-96", "Awl/UpdateQueue.h:122-142"]}
{"id": "C103", "title": "A watch_dog with its real sleep_for: causes of a stop, the log, and how long the destructor takes", "statement": "For a watch_dog with the timeout d whose thread runs the real sleep_for (mutex, condition variable, stop_callback), in every interleaving: the token is stopped only if d has passed on the clock since the thread began to sleep, the parent token was stopped or the destructor has begun; the log function is called at most once and never before d has passed; when the destructor has joined, the thread has left sleep_for and ended; request_stop of the destructor never runs a callback of a sleep_for that has returned. Once the deadline has passed the destructor finishes in at most ten steps of the thread and of request_stop, none of which waits. If the notification is not made between the check of the predicate and the wait, the destructor needs at most nine steps and no time. In general the destructor is not prompt: for every d there is an execution in which request_stop has returned at time 0 and the destructor does not return before d has passed, unless a spurious wake-up occurs.", "quantifier": "for all timeouts, all start times and all interleavings of the owner, the thread, the thread that stops the parent, the clock and spurious wake-ups", "why_tests_cant": "The lost notification needs the destructor to hit the few instructions between the check and the wait; a test would have to control the scheduler, and it would merely run slowly. The bounds quantify over all interleavings.", "anchors": ["Awl/WatchDog.h:21-49", "Awl/WatchDog.h:57-67", "Awl/Sleep.h:22-45"]}
{"id": "C104", "title": "Composite keys of several types, and the keys that make_key builds", "statement": "For a TransparentCompositeCompare of any number of coherent comparers whose keys have arbitrary, different types: comparing elements, an element with a key and a key with an element is comparing the tuples of their keys lexicographically; a vector_set ordered by it behaves as a sorted list, also in lookups by composite keys. A comparison with a key some of whose references dangle is undefined exactly if all members before the first dangling one are equivalent. make_key yields the key meant (the arguments converted to the types of the members) if for every argument the common type of the member and the argument is the type of the member; this is so exactly if the types are equal, or the member has at least 32 bits and the argument is, after promotion, narrower, or as wide and not unsigned for a signed member. Otherwise, e.g. a size_t argument for an int member or a literal for a short member, the key refers to a destroyed temporary and the lookup is undefined behaviour.", "quantifier": "for all element types, all lists of key types and comparers, all elements and keys; for all integer types and values of the arguments of make_key", "why_tests_cant": "The composite is a variadic template; tests instantiate it with two members of fixed types. A dangling key reads stack memory that usually still has the right value.", "anchors": ["Awl/TransparentCompositeCompare.h:28-126", "Awl/CompositeCompare.h:27-61", "Awl/TupleHelpers.h:271-284", "Awl/KeyCompare.h:44-57"]}
{"id": "C105", "title": "Generators in variables: moves, assignments and swaps do not disturb the sequences, each coroutine is destroyed once", "statement": "A program that creates generators, keeps them in variables, moves, assigns (also to themselves), swaps and destroys them in any order and uses any number of iterators observes exactly the sequences of the coroutine bodies: each advance by begin() of the variable that holds the generator or by ++ of any iterator on it gives the next element, all iterators on it see the same element, wherever the generator has been moved to. Each coroutine is destroyed exactly when the variable that holds it is destroyed or overwritten, never twice, and no other way; two variables never hold the same one. The operations on variables are always defined; begin() is undefined exactly on a generator that has ended, and the operations of an iterator exactly when it is null or at the end (for ++ and *) or its generator has been destroyed.", "quantifier": "all bodies, finite or infinite, with or without exceptions; all sequences of operations", "why_tests_cant": "the orders of moves and uses are unbounded, and the use of a destroyed frame or its leak usually has no symptom", "anchors": ["Awl/Coro/Generator.h: generator, generator_iterator", "Awl/Coro/AsyncGenerator.h: async_generator(async_generator&&), operator=, swap, ~async_generator"]}
{"id": "C106", "title": "Destruction of asynchronous generators", "statement": "An async_generator can be destroyed whenever its coroutine is suspended at a co_yield, at its beginning or its end; the consumer then goes on to its result if and only if it does not use the generator or its iterator any more, otherwise the behaviour is undefined. When the coroutine waits for an event, the destruction of the generator (with or without the consumer) succeeds and the event is then undefined behaviour; if the consumer alone is destroyed, the coroutine goes on until it yields or ends, which is undefined. Without destruction the machine is the one of C54.", "quantifier": "all bodies, all consumers, all moments", "why_tests_cant": "the interleavings of suspensions and destructions are unbounded and a resumed destroyed frame often seems to work", "anchors": ["Awl/Coro/AsyncGenerator.h: ~async_generator, async_generator_yield_operation, async_generator_advance_operation"]}
{"id": "C107", "title": "Packed bools: any index type, short streams", "statement": "Writing a container of N bools, a std::bitset, a std::vector<bool> or an awl::bitmap, writes exactly ceil(N/8) bytes, element m being bit m mod 8 of byte m / 8 (the rest of the last byte is zero), for every size_type that can hold N, signed or not, even when N is its largest value: the index never overflows and no element out of range is touched. Reading consumes the same number of bytes and assigns every element; when the stream ends early EndOfFile is thrown, the elements that the available bytes are for have been assigned and the others keep their values. What one container has written another one of the same length reads, whatever its size_type and its former contents.", "quantifier": "all bool containers of any length, all integer size types, all streams (also short ones)", "why_tests_cant": "Tests write a few lengths with size_t; the boundary cases, a signed index type whose maximum is the length and streams cut at each byte, are not run.", "anchors": ["Awl/Io/Rw/VectorReadWrite.h: WriteVector, ReadVector (bool)", "Awl/Io/Rw/BitMapReadWrite.h", "Awl/Io/Rw/RwAdapters.h"]}
{"id": "C108", "title": "Observers of sets that throw", "statement": "Observers of observable_set trees (mirrors, foreign sets, observers of the user) may throw at any notification and the program catches it. Then in every state no mirror or foreign_set shows an element that the set it observes does not contain, so no pointer of a foreign_set dangles. An insert that throws has inserted the element, the observers before the one that threw show it and those after do not; an erase or clear that throws has removed nothing. The observers of the user get each call once, in order of subscription, up to the first observer that throws, and none if the statement changes nothing. An exception of an observer in a destructor or a move assignment terminates the program. Each statement that returns keeps the observers in step if they were, and after a clear() that returns they are in step again whatever was thrown before. An element that a mirror has missed cannot be erased: each erase of it throws and changes neither the set nor the mirror. Without a foreign_set nothing is undefined; with one the erasure of an element it has missed is (refuted). Observers that do not throw behave as in C22.", "quantifier": "all programs over any number of sets, trees of observers of any shape, all comparators (strict weak orders), all plans of exceptions", "why_tests_cant": "Each test would fix one place where an exception is thrown; what the observers show afterwards depends on the place, the order of subscription and on all later operations.", "anchors": ["Awl/ObservableSet.h: insert, erase, clear, migrate, operator=, ~observable_set", "Awl/MirrorSet.h: OnAdded, OnRemoving, OnClearing, reflect", "Awl/ForeignSet.h: OnAdded, OnRemoving", "Awl/Observable.h: Notify"]}
{"id": "C109", "title": "Observers of a foreign_set and of its groups", "statement": "Observers may subscribe to a foreign_set and to each of its groups at any time and read what is there. Then an observer of a group knows from its calls exactly the elements of the source that have the foreign key of the group, at every moment; when the last such element is removed, or the source is cleared, it is told OnClearing, knows nothing and is unsubscribed, and a group created later with the same key does not bring it back. As long as an element with the key exists it stays subscribed. An observer of the foreign_set knows exactly the foreign keys of the elements of the source. The observers do not change the groups (C23), and an element with new keys can always be added, one of the source removed, a group of a present key observed.", "quantifier": "all sequences of notifications of the source, subscriptions and destructions of observers, all keys", "why_tests_cant": "The calls an observer gets depend on all earlier elements of its key and on when the group was created and destroyed; a test fixes one order.", "anchors": ["Awl/ForeignSet.h: OnAdded, OnRemoving, OnClearing, Subscribe", "Awl/ObservableSet.h: insert, erase, clear, ~observable_set", "Awl/Observable.h: Subscribe, Notify, ~Observable"]}
{"id": "C110", "title": "Observers that modify the set they observe", "statement": "An observer of an observable_set may insert into it and erase from it while it is notified, to any depth: the other observers are then told of the nested changes before the outer ones. Provided that an observer does not erase an element while the observers are being told of that very element, does not clear the set from inside a notification and does nothing while the set is being cleared, nothing is undefined, no mirror throws, the program ends, and whenever no notification is under way every mirror and every observer knows exactly the elements of the set; in the middle of notifications it knows every element of the set it is not being told of, and never another one. Each proviso is needed: an erase inside OnAdded makes a mirror throw or leaves the following observers with a dangling reference, an erase of the same element inside OnRemoving erases it twice, an insert inside OnClearing leaves a mirror with an element that the set does not have.", "quantifier": "all programs, any number of observers, all plans of reactions of all observers, every moment of the execution", "why_tests_cant": "The order in which the observers learn of nested changes depends on their positions and on all reactions; tests use observers that only record.", "anchors": ["Awl/ObservableSet.h: insert, erase, clear, NotifyAdded, NotifyRemoving", "Awl/Observable.h: Notify", "Awl/MirrorSet.h: OnAdded, OnRemoving, OnClearing"]}
{"id": "C111", "title": "The memory streams of the experiments are tapes, and which uses of them are undefined", "statement": "Any program that creates, writes, reads, resets, queries and destroys SwitchMemoryOutputStream, VirtualMemoryOutputStream and TrivialMemoryStream objects (without copying or moving them) returns exactly what tapes (bytes and a position) return, and it is undefined exactly if it writes beyond the capacity, reads a typed value beyond it, accesses an integer at a misaligned offset, or uses an object that does not exist. When all streams are destroyed no buffer remains. What is written to a TrivialMemoryStream and read after Reset in pieces of any lengths is what was written followed by zeros. A copied or moved SwitchMemoryOutputStream or TrivialMemoryStream deletes its buffer twice; the GetLength and the Write of a moved-from VirtualMemoryOutputStream are undefined; a write of 2, 4 or 8 bytes after one byte is misaligned in the Switch stream. Every TrivialSpace is undefined to destroy; what its allocators return is disjoint and within the reserved space, and elements of different sizes may be misaligned.", "quantifier": "all sequences of operations on any number of streams of any capacity, all contents; all sequences of allocations", "why_tests_cant": "the experiments write fixed structures to one stream and never copy, move or overflow it; misaligned access and delete of an array work by accident on x86", "anchors": ["Tests/Experimental/Io/SampleStreams.h:20", "Tests/Experimental/Io/TrivialMemoryStream.h:17", "Tests/Experimental/Io/StreamUtils.h:12", "Tests/Experimental/TrivialAllocator.h:14"]}
{"id": "C112", "title": "Iterators of a quick_list stay valid while the lists change", "statement": "A program that keeps iterators and reverse iterators of quick_lists between arbitrary operations (push, pop, insert, erase, splice, list moves, element moves) gets what places give: an iterator names an element, whichever list it is in at the moment, or the end of its list; ++ and -- go to the neighbours in the list as it is when they are called, the end being between the last and the first element; a reverse iterator names the element itself; insert(i, a) puts a behind the element of i in the direction of i. A loop that increments the iterator before it erases the element or moves it to another list sees each element once in order and leaves exactly those it should, in order. Not so: an iterator to an erased element can not be incremented and used, iterators into a cleared list still walk through its old elements, and insert(end(), a) is undefined.", "quantifier": "all programs over any number of lists, elements and iterators that meet the preconditions of C20; all loops over all lists", "why_tests_cant": "the tests increment fresh iterators and erase one element; they keep no iterator across splices, moves or insertions", "anchors": ["Awl/DoubleIterator.h:13", "Awl/QuickList.h:93", "Awl/QuickList.h:111", "Awl/SingleIterator.h:17"]}
{"id": "C113", "title": "Coroutines that await durations end, not early, but a short wait can take as long as all the others", "statement": "For any number of coroutines that each await a list of durations with co_await and any clock: a coroutine does not end before the sum of its positive durations has passed since its start; a duration that is not positive does not suspend; when loop() returns every coroutine has ended as often as it was started; loop() makes at most two iterations per await if sleep_until returns after its time, and is never stuck before that; there is no overflow while the clock is not within the longest duration of its end. Not so: co_await nanoseconds::max() is undefined on any running clock, and a coroutine that awaits 1 ns is not resumed before another one that awaits 10 ns n times has ended, for every n.", "quantifier": "all executions of any coroutines, any durations, any passing of time; all n", "why_tests_cant": "the test awaits a few durations one after another; no test has coroutines that wait again and again beside a short one, and none awaits a very long time", "anchors": ["Awl/Testing/TimeQueue.h:20", "Awl/Testing/TimeQueue.h:25", "Awl/Testing/TimeQueue.h:67", "Awl/Testing/TimeQueue.h:73", "Awl/Testing/TimeQueue.h:89"]}
{"id": "C114", "title": "Moved mirrors go on reflecting", "statement": "For any number of observable_sets and mirror_sets, with mirrors of mirrors, in any order of construction, reflect, unsubscribing, insert, erase, clear, moves and destruction: every mirror that observes a set or a mirror has its elements; a change of a set is told once to each mirror below it and to nobody else; a move construction tells nobody anything, and the new object has the elements, the observers and the place of the old one, which is empty and observes nothing; a move assignment tells only the mirrors below the target, that it clears, after which they are empty and observe nothing, then the target has the place of the other object; destruction empties the mirrors below. Nothing is undefined and the recursion is not deeper than the number of objects, if a mirror that calls reflect is empty and observes nothing, and no object is assigned from itself or, unless empty, from a mirror below it. Without that: assigning an object that is not empty from a mirror below it never returns, however deep the stack is; self-move loses the elements and the subscription; a second reflect throws, leaves the mirror with elements that the set does not have, or is undefined.", "quantifier": "all programs of these operations over any number of objects, all elements, any depth of mirrors of mirrors", "why_tests_cant": "the tests move a set or a mirror once; they have no mirror of a mirror that is moved, and none assigns a mirror from one below it", "anchors": ["Awl/MirrorSet.h:46", "Awl/MirrorSet.h:50", "Awl/MirrorSet.h:63", "Awl/QuickLink.h:182", "Awl/ObservableSet.h:64", "Awl/ObservableSet.h:79", "Awl/Observable.h:77"]}
{"id": "C115", "title": "A vector_set made from elements is the set of these elements", "statement": "For every strict weak order and every list of elements, in any order and with repetitions, vector_set(initializer_list) and vector_set(first, last, comp) make the set that inserting the elements one after the other makes: its elements are those that are not equivalent to an earlier one, in the order of the comparator, and it has exactly as many nodes; if equivalent elements are equal the order and the repetitions of the arguments do not matter. Whatever throws - the comparator, the constructor of an element, the allocation, an iterator of the range - the constructor either makes that set and loses nothing or throws; then the range constructor has lost at most one block of memory. Violated: the initializer_list constructor loses all the nodes that it has made and possibly one more block, for every list and every element at which it throws.", "quantifier": "all strict weak orders, all lists, all sequences of exceptions", "why_tests_cant": "the tests build sets from a few distinct elements whose constructors do not throw", "anchors": ["Awl/VectorSet.h:242", "Awl/VectorSet.h:259", "Awl/VectorSet.h:273"]}
{"id": "C116", "title": "Tasks of waiting coroutines may be released, but not destroyed", "statement": "For every program that starts coroutines which await durations, destroys their UpdateTasks or calls release(), in any order between the steps of the timer queue: the owners do not influence when coroutines are resumed; every frame is destroyed at most once; if no task is destroyed while its coroutine waits for the timer, nothing is undefined (while now plus the longest duration is before the end of the clock), and when the queue is empty the frame of every coroutine has been destroyed whose task was destroyed, or released before its end. Violated otherwise: when the task of a waiting coroutine is destroyed its handle stays in the queue, loop() can not return and resumes the destroyed coroutine; a coroutine that is released after its end is never destroyed.", "quantifier": "all programs, all numbers of coroutines, durations and clocks, all interleavings of the owners with the queue", "why_tests_cant": "the tests wait for all their coroutines before the tasks go out of scope", "anchors": ["Awl/Coro/UpdateTask.h:31", "Awl/Coro/UpdateTask.h:120", "Awl/Coro/UpdateTask.h:145", "Awl/Testing/TimeQueue.h:31"]}
{"id": "C117", "title": "Observers of the groups of a foreign_set that throw", "statement": "Observers of a foreign_set and of its groups may throw at any call and the program catches it. Then the groups are always exactly those of the elements of the source. No observer shows an element that the source does not have or that belongs to another group, or a key that no element has, so no pointer dangles. Each statement tells the observers in the order of their subscription up to the first that throws; an insert that throws has inserted the element, an erase or clear that throws has removed nothing. The program is terminated exactly if an observer of a group throws when its group is destroyed, by the erasure of the last element or by clear, and no observer of the foreign_set has thrown before. A statement that returns keeps every observer in step that was, and after a clear that returns all are. An erase that has thrown can be repeated, and an insert that has thrown can be undone by an erase: when it returns at last, every observer that was in step is in step. An insert that has thrown cannot be repeated: nobody is told, and the observers that were not reached miss the element.", "quantifier": "all programs of inserts, erasures, clears, subscriptions and destructions of observers, all keys, all sets of observers that throw at each statement", "why_tests_cant": "A test fixes one observer that throws at one moment; what is missed depends on the order of subscription, on the size of the group and on all later statements.", "anchors": ["Awl/ForeignSet.h: OnAdded, OnRemoving, OnClearing", "Awl/ObservableSet.h: insert, erase, clear, ~observable_set", "Awl/Observable.h: Notify"]}
{"id": "C118", "title": "Notifications with observers that throw or return false", "statement": "Observers may throw, catch, return false and notify other observables, or the same, with Notify or NotifyWhileTrue at any depth. Each notification calls those that were subscribed when it began, once each and in order, up to the first that throws, or that returns false to NotifyWhileTrue, provided that when an observer returns those still to be called are subscribed as they were. NotifyWhileTrue returns true exactly if all were called and returned true. An exception passes through all notifications up to the innermost handler and leaves all subscriptions as the observers made them. Observers that unsubscribe themselves, forward to observables of lower levels in any of these ways and then return or throw are safe for any number of levels and the calls are those of a function on plain lists. An observer that ends the notification may do anything to the lists before, for instance unsubscribe the next ones or itself; the same observer that returns true makes the loop follow a null pointer. As long as one observer throws, those after it are never called, however often the notification is repeated.", "quantifier": "All states of the lists reachable by any program, all observers' programs (which may depend on the calls made before), any depth of nesting, any number of steps.", "why_tests_cant": "The tests have no observer that throws and none that notifies; which observers are skipped depends on the order of subscription at each level.", "anchors": ["Awl/Observable.h:107-135: Notify, NotifyWhileTrue", "Awl/QuickLink.h: exclude, safe_exclude"]}
{"id": "C119", "title": "Moves of foreign_sets and of their sources", "statement": "Sources and foreign_sets are created, moved to other places, assigned by move and destroyed in any order, while elements are inserted and erased and observers of groups and of foreign_sets come and go. Each foreign_set always has exactly the elements of the source that it follows, grouped by the foreign key in the order of keys: a move of the source or of the foreign_set keeps the connection, an assignment takes over that of the other one, and a source that is assigned or destroyed leaves empty foreign_sets without a source. An observer of a group always knows exactly the elements of its group, one of a foreign_set the keys of its groups, and one that observes nothing knows nothing. An operation has a defined result exactly when its objects are there; it calls only observers of the foreign_sets that follow the source that changes or of the one that is assigned or destroyed, so a move calls nobody. A moved foreign_set keeps its place in the order of notification. A foreign_set that is assigned to itself loses its groups, its observers and its source.", "quantifier": "All types of elements and keys, all numbers of sources, foreign_sets and observers, all sequences of operations.", "why_tests_cant": "The tests of ForeignSet move nothing; which observers are connected depends on all moves and assignments before.", "anchors": ["Awl/ForeignSet.h:60-120", "Awl/ObservableSet.h:64-113: moves and the destructor", "Awl/Observable.h:20-90", "Awl/QuickLink.h:85-100, 160-195"]}
{"id": "C120", "title": "Objects read and written through PlainSerializable", "statement": "Any number of objects are written to a stream through PlainSerializable and read by objects of the same types, whatever these contain: they get the written values and only the written bytes are consumed. If the end of the bytes is missing, the objects whose bytes are there get their values, the others keep what they contain, and EndOfFileException is thrown. With any other bytes the first objects get values of their types, which depend only on the bytes, and the one whose Read throws and those after it keep what they contain. Without the atomic parameter the result is the same for types without optionals, deques, sets and maps if nothing is thrown; an optional keeps its old value when an empty one is read.", "quantifier": "All types, values, numbers of objects, all bytes and all positions at which they end.", "why_tests_cant": "No test uses PlainSerializable with a stream that ends early; the object at which it ends depends on the values before it.", "anchors": ["Awl/Io/PlainSerializable.h:17-40"]}
