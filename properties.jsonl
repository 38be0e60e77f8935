{"id": "C01", "title": "Value transparency", "statement": "A program that manipulates flyweight<T> objects through construction, copy, move, assignment, swap and destruction observes, through get(), values equivalent to those the same program would observe if every flyweight<T> were replaced by a plain T: each object always denotes (a value equivalent to) the last value it was given.", "quantifier": "all finite histories of flyweight operations, any number of objects, any key/equivalence, any interleaving of any number of threads, any allocator address choice", "why_tests_cant": "A test checks finitely many histories; sharing bugs show up only for particular interleavings of creation, release and address reuse.", "anchors": ["include/boost/flyweight/flyweight.hpp:flyweight::flyweight,operator=,swap,get", "include/boost/flyweight/detail/flyweight_core.hpp:insert_rep,insert_value", "include/boost/flyweight/refcounted.hpp:refcounted_handle"]}
{"id": "C02", "title": "Sharing: same address iff equivalent key", "statement": "At every moment, two live flyweight objects of the same type refer to the same value object (&x.get()==&y.get(), hence x==y) if and only if their keys are equivalent under the factory's equivalence.", "quantifier": "every reachable state of every history/interleaving, every pair of live flyweight objects", "why_tests_cant": "Uniqueness is a global invariant of the factory over all histories; a violation needs a specific interleaving of erase and insert.", "anchors": ["include/boost/flyweight/flyweight.hpp:operator==", "include/boost/flyweight/hashed_factory.hpp:insert", "include/boost/flyweight/assoc_container_factory.hpp:insert", "include/boost/flyweight/detail/flyweight_core.hpp:insert_and_visit"]}
{"id": "C03", "title": "Stability while referenced", "statement": "While a flyweight object is alive and not itself assigned, swapped or destroyed, the address and the contents of the value it refers to never change, whatever is done to other flyweights by any thread.", "quantifier": "every transition of every history, every live flyweight not targeted by the transition", "why_tests_cant": "Requires checking all operations on all other objects under all schedules, including erasure of equivalent and unrelated entries.", "anchors": ["include/boost/flyweight/refcounted.hpp:refcounted_handle", "include/boost/flyweight/detail/flyweight_core.hpp:tracking_helper::erase"]}
{"id": "C04", "title": "Refcounted tracking leaves no garbage", "statement": "With refcounted tracking, whenever no flyweight operation is in progress the factory holds exactly the values that are referred to by some live flyweight (directly or as a part of another stored value); in particular it is empty once all flyweights are gone.", "quantifier": "all histories and interleavings, all quiescent states", "why_tests_cant": "A leak or premature erase depends on which thread saw the count hit zero and who got the lock first.", "anchors": ["include/boost/flyweight/refcounted.hpp:refcounted_value,refcounted_handle,check_erase", "include/boost/flyweight/detail/flyweight_core.hpp:tracking_helper::erase"]}
{"id": "C05", "title": "No-tracking values live forever", "statement": "With no_tracking, a value once successfully stored in the factory is never erased or moved before program termination, even if no flyweight refers to it.", "quantifier": "all histories and interleavings", "why_tests_cant": "Absence of erasure over all histories cannot be sampled.", "anchors": ["include/boost/flyweight/no_tracking.hpp:no_tracking::entry,handle"]}
{"id": "C06", "title": "At most one value construction, only on miss", "statement": "Creating a flyweight from a key constructs the associated value at most once, and only if no equivalent entry is present in the factory; while an entry is referenced no second value is ever constructed for an equivalent key.", "quantifier": "all histories, keys and interleavings", "why_tests_cant": "Counts of constructor calls depend on the whole preceding history.", "anchors": ["include/boost/flyweight/key_value.hpp:key_construct_value,copy_construct_value,move_construct_value", "include/boost/flyweight/detail/flyweight_core.hpp:insert_and_visit"]}
{"id": "C07", "title": "Strong exception safety of creation and retry", "statement": "If construction of the value throws while creating a flyweight, no flyweight is created, the factory contains exactly what it did before, the lock is released, the exception propagates, no other flyweight is affected, and a later creation for the same key attempts the construction again.", "quantifier": "every history in which any subset of value constructions throw, every interleaving", "why_tests_cant": "Throw points combine with every prior state and schedule.", "anchors": ["include/boost/flyweight/detail/flyweight_core.hpp:insert_and_visit (catch block)", "include/boost/flyweight/key_value.hpp:key_construct_value"]}
{"id": "C08", "title": "Copy, move and assignment semantics", "statement": "After y(x), y(move(x)), y=x or y=move(x), both x and y refer to x's previous value and x is unchanged (moving is copying); self-assignment is a no-op; the old value of an assigned object is released after the new one is acquired. After x=value, x denotes a value equivalent to it, and x is unchanged if that throws.", "quantifier": "all states, all pairs of objects including aliases", "why_tests_cant": "Self-assignment and last-owner cases must hold in all reachable states.", "anchors": ["include/boost/flyweight/flyweight.hpp:193-239", "include/boost/flyweight/refcounted.hpp:119-151"]}
{"id": "C09", "title": "Swap exchanges and neither creates nor destroys", "statement": "swap(x,y) exchanges the values referred to by x and y (also when x and y are the same object), leaves all other flyweights alone, never constructs or destroys a value and leaves all reference counts unchanged once finished.", "quantifier": "all states and pairs of objects", "why_tests_cant": "Universally quantified over states and aliasing.", "anchors": ["include/boost/flyweight/flyweight.hpp:278", "include/boost/flyweight/refcounted.hpp:139-159", "include/boost/flyweight/concurrent_factory.hpp:55-84"]}
{"id": "C10", "title": "Hash consistent with equality", "statement": "For any two live flyweights of the same type, if x==y then hash(x)==hash(y) for both std::hash and boost::hash_value; the hash of an unmodified flyweight does not change over time.", "quantifier": "all reachable states, all pairs of live flyweights, any pointer hash function", "why_tests_cant": "Address-based hash relies on the sharing invariant in all states.", "anchors": ["include/boost/flyweight/flyweight.hpp:467-506"]}
{"id": "C11", "title": "Comparison operators agree with comparisons of values", "statement": "Provided the factory's equivalence coincides with == on the values, x==y, x!=y, x<y, x>y, x<=y, x>=y on flyweights of the same type return the same result as the operator set derived from == and < applied to the underlying values; for operands of different flyweight types, or a flyweight and a plain value on either side, they do so unconditionally. Without the proviso == on flyweights of the same type can differ from == on the values (it compares addresses).", "quantifier": "all pairs of flyweights / values, every == and < on the value type", "why_tests_cant": "Universal over user relations and over all reachable sharing states.", "anchors": ["include/boost/flyweight/flyweight.hpp:257-274,294-415"]}
{"id": "C12", "title": "Key-value lifetime discipline (with key extractor)", "statement": "With key_value and a key extractor, each stored entry holds either a key or a value, never both and never none; every key or value object constructed by the library is destroyed exactly once, no object is used outside its lifetime, for any sequence of lookups, successful or throwing constructions, and destruction.", "quantifier": "all sequences of operations on an entry and all choices of throwing constructors", "why_tests_cant": "Placement new lifetime errors depend on throw points and orders; sanitizers see only executed paths.", "anchors": ["include/boost/flyweight/key_value.hpp:50-192"]}
{"id": "C13", "title": "Key-value lifetime discipline (without key extractor)", "statement": "With key_value without extractor, the stored key lives as long as the entry and is what get_key() returns; the value is constructed at most once and destroyed exactly once iff it was constructed; nothing is leaked or destroyed twice when the constructor throws.", "quantifier": "all sequences of operations on an entry and all throw points", "why_tests_cant": "As C12.", "anchors": ["include/boost/flyweight/key_value.hpp:194-295"]}
{"id": "C14", "title": "Rvalue arguments are consumed only when needed", "statement": "With key_value with extractor, creating a flyweight from an rvalue value leaves the argument untouched if an equivalent entry already exists, and moves from it exactly once otherwise; an lvalue value argument is never modified.", "quantifier": "all factory states and argument values", "why_tests_cant": "Hit/miss depends on arbitrary prior history.", "anchors": ["include/boost/flyweight/key_value.hpp:move_construct_value", "include/boost/flyweight/detail/flyweight_core.hpp:302-311"]}
{"id": "C15", "title": "Hashed factory behaves as a unique set", "statement": "If Hash is compatible with Pred and Pred is an equivalence, the hashed factory's insert returns the unique stored element equivalent to the argument if there is one and otherwise stores the argument; erase removes exactly the given element; elements never move. If Hash is not compatible with Pred, sharing can fail.", "quantifier": "all insertion/erasure histories, all hash functions, any bucket count including rehashing", "why_tests_cant": "Universal over histories, hash collisions and rehash points.", "anchors": ["include/boost/flyweight/hashed_factory.hpp:37-100"]}
{"id": "C16", "title": "Set factory behaves as a unique set", "statement": "If Compare is a strict weak ordering, the set factory's insert returns the unique stored element equivalent (neither less) to the argument if there is one and otherwise stores the argument; erase removes exactly the given element. If Compare is not a strict weak ordering, sharing can fail.", "quantifier": "all insertion/erasure histories, all orderings", "why_tests_cant": "Universal over histories and orderings.", "anchors": ["include/boost/flyweight/set_factory.hpp", "include/boost/flyweight/assoc_container_factory.hpp:41-93"]}
{"id": "C17", "title": "Composite values are released completely", "statement": "When stored values themselves contain flyweights of the same type (trees, DAGs), destroying the last flyweight to a value releases the contained flyweights recursively, erasing exactly those no longer referenced, without deadlock, without use after free, and in finitely many steps.", "quantifier": "all DAG shapes and depths, all interleavings", "why_tests_cant": "Unbounded recursion through the factory from inside destructors.", "anchors": ["include/boost/flyweight/detail/flyweight_core.hpp:tracking_helper::erase", "include/boost/flyweight/detail/recursive_lw_mutex.hpp", "example/composite.cpp"]}
{"id": "C18", "title": "Recursive value construction (memoization)", "statement": "If the value constructor for a key itself creates flyweights for other keys of the same type (well-founded), the resulting value equals that of the direct recursive definition, no undefined behaviour occurs and, with no_tracking, each key's value is constructed exactly once.", "quantifier": "all well-founded dependency functions, all keys, all prior factory contents", "why_tests_cant": "Induction over recursion depth and factory states.", "anchors": ["include/boost/flyweight/detail/flyweight_core.hpp:insert_and_visit", "include/boost/flyweight/key_value.hpp:key_construct_value", "example/fibonacci.cpp"]}
{"id": "C19", "title": "Recursive construction of the same key (defect)", "statement": "Creating a flyweight whose value constructor, while running, creates a flyweight of an equivalent key and then throws should behave as any throwing construction (no undefined behaviour). This is false of the code: the entry is erased twice.", "quantifier": "all constructors that re-enter with an equivalent key", "why_tests_cant": "Needs a specific re-entrant constructor; the general claim is refuted by a witness.", "anchors": ["include/boost/flyweight/detail/flyweight_core.hpp:100-118"]}
{"id": "C20", "title": "No use after free under any schedule", "statement": "With simple_locking and refcounted tracking, no interleaving of flyweight operations by any number of threads (each object being used according to the usual rules for non-atomic objects) ever accesses a value entry after it was destroyed, erases an entry twice, or unlocks a mutex not owned.", "quantifier": "all numbers of threads, programs and schedules", "why_tests_cant": "Race windows between count decrement and lock acquisition cannot be exhaustively scheduled.", "anchors": ["include/boost/flyweight/refcounted.hpp:53-151", "include/boost/flyweight/detail/flyweight_core.hpp:tracking_helper::erase"]}
{"id": "C21", "title": "Lock discipline (no data races on plain fields)", "statement": "Every access to the factory container, to the non-atomic deleter count, and every in-place value construction is made by the thread holding the factory's mutex; a value's storage is never written while some flyweight refers to it.", "quantifier": "all threads, programs and schedules", "why_tests_cant": "Race detectors see only executed schedules.", "anchors": ["include/boost/flyweight/detail/flyweight_core.hpp:261-311", "include/boost/flyweight/refcounted.hpp:28-45,100-106"]}
{"id": "C22", "title": "An entry is erased exactly when it becomes unreferenced for good", "statement": "Each erasure of an entry happens at a moment when no live flyweight refers to it and no creation in progress has selected it; every entry whose last flyweight is destroyed is either erased once by the pending releaser(s) or taken over by a concurrent creation.", "quantifier": "all threads, programs and schedules", "why_tests_cant": "Depends on the exact order of decrement, lock, re-acquire and check.", "anchors": ["include/boost/flyweight/refcounted.hpp:28-45 (comment),check_erase"]}
{"id": "C23", "title": "Deadlock freedom", "statement": "In every reachable state in which some operation is unfinished, some thread can take a step; the thread holding the lock never blocks; the lock is never held when no operation is in progress; a thread running without interference finishes its current operation in boundedly many steps.", "quantifier": "all reachable states", "why_tests_cant": "Requires reachability over all schedules and nesting depths.", "anchors": ["include/boost/flyweight/detail/recursive_lw_mutex.hpp", "include/boost/flyweight/detail/flyweight_core.hpp"]}
{"id": "C24", "title": "A value is fully constructed before anyone can observe it", "statement": "No flyweight ever refers to an entry whose value has not been constructed: get() never hits the assertion/unconstructed state, in any schedule.", "quantifier": "all threads, programs and schedules", "why_tests_cant": "Publication race, all schedules.", "anchors": ["include/boost/flyweight/key_value.hpp:111-115,240-244", "include/boost/flyweight/detail/flyweight_core.hpp:insert_and_visit"]}
{"id": "C25", "title": "no_locking is safe single-threaded", "statement": "With no_locking, if a single thread uses the flyweight type, all of C01-C09 hold.", "quantifier": "all single-threaded histories", "why_tests_cant": "Universal over histories.", "anchors": ["include/boost/flyweight/no_locking.hpp"]}
{"id": "C26", "title": "no_locking is unsafe with two threads (documented)", "statement": "With no_locking, concurrent use by two threads should still be free of data races and memory safe. This is false: there are schedules with a data race on the container and schedules that access a destroyed value.", "quantifier": "all schedules (refuted by witness)", "why_tests_cant": "Witness schedule is rarely hit by testing.", "anchors": ["include/boost/flyweight/no_locking.hpp", "include/boost/flyweight/simple_locking.hpp"]}
{"id": "C27", "title": "Concurrent factory GC never removes a referenced value", "statement": "With concurrent_factory, the garbage-collection thread never erases an entry to which a flyweight refers or which a creation in progress has selected, and no operation accesses an erased entry, in any interleaving.", "quantifier": "all threads, programs and schedules, any number of collection passes", "why_tests_cant": "Race between count test and re-acquisition.", "anchors": ["include/boost/flyweight/concurrent_factory.hpp:40-178"]}
{"id": "C28", "title": "Concurrent factory GC eventually removes unreferenced values", "statement": "An entry unreferenced when a collection pass starts and not re-acquired by the time it ends has been erased when the pass ends; after all flyweights are gone, finitely many passes empty the factory, even for nested values.", "quantifier": "all histories and passes", "why_tests_cant": "Liveness over all schedules.", "anchors": ["include/boost/flyweight/concurrent_factory.hpp:116-131"]}
{"id": "C29", "title": "Concurrent factory shutdown terminates", "statement": "Destruction of the concurrent factory always makes the GC thread finish (no lost wake-up forever, no deadlock), and the container is not accessed by the GC thread after join.", "quantifier": "all interleavings of the destructor and the GC thread, all timings of time-outs", "why_tests_cant": "Wake-up/time-out races.", "anchors": ["include/boost/flyweight/concurrent_factory.hpp:116-143"]}
{"id": "C30", "title": "Sharing without global lock", "statement": "With concurrent_factory, no_locking and no_tracking, sharing (C02), stability (C03) and value transparency (C01) hold in all interleavings.", "quantifier": "all threads, programs and schedules", "why_tests_cant": "As C20.", "anchors": ["include/boost/flyweight/concurrent_factory.hpp:151-163"]}
{"id": "C31", "title": "Throwing construction with concurrent factory", "statement": "With concurrent_factory, if a value construction throws then no flyweight is created, an unreferenced entry without value may remain but no flyweight ever refers to it until a later creation has successfully constructed its value.", "quantifier": "all interleavings and throw points", "why_tests_cant": "As C20.", "anchors": ["include/boost/flyweight/concurrent_factory.hpp:151-163", "include/boost/flyweight/key_value.hpp"]}
{"id": "C32", "title": "Concurrent handle operations keep the value alive", "statement": "For concurrent_factory's reference-counted handles, copy, assignment (including self-assignment), swap and get() never let the count of a value that stays referenced reach zero at any intermediate point.", "quantifier": "all states and aliasing patterns, all interleavings", "why_tests_cant": "Transient zero counts are only visible to a GC pass at the exact moment.", "anchors": ["include/boost/flyweight/concurrent_factory.hpp:55-84,170"]}
{"id": "C33", "title": "Serialization round trip", "statement": "Loading an archive produced by any sequence of saves of flyweights yields flyweights with keys equivalent, for the factory, to the saved ones, in the same order, and restores sharing: loaded flyweights are equal iff the saved ones were.", "quantifier": "all sequences of saved flyweights", "why_tests_cant": "Universal over sequences and sharing patterns.", "anchors": ["include/boost/flyweight/serialize.hpp:43-91", "include/boost/flyweight/detail/serialization_helper.hpp"]}
{"id": "C34", "title": "Each distinct key is stored once per archive", "statement": "An archive contains the key of each distinct flyweight value at most once; every further occurrence is written as an index to a previous one, and every index written is at most the number of keys stored before it.", "quantifier": "all sequences of saves", "why_tests_cant": "Universal over sequences.", "anchors": ["include/boost/flyweight/serialize.hpp:43-63", "include/boost/flyweight/detail/serialization_helper.hpp:44-71"]}
{"id": "C35", "title": "Serialization robust against destruction and address reuse", "statement": "C33 and C34 hold even if flyweights are created and destroyed between saves to the same archive and the allocator reuses addresses of destroyed values.", "quantifier": "all interleavings of saves with creations/destructions, all address choices", "why_tests_cant": "Address reuse (ABA) is allocator dependent.", "anchors": ["include/boost/flyweight/detail/serialization_helper.hpp:44-71"]}
{"id": "C36", "title": "Corrupt archives are rejected", "statement": "Loading from any input whose index exceeds the number of flyweights loaded so far throws and leaves the target flyweight unchanged; no input makes the loader access an element out of range.", "quantifier": "all input token sequences", "why_tests_cant": "All malformed inputs.", "anchors": ["include/boost/flyweight/serialize.hpp:65-91"]}
{"id": "C37", "title": "Failed load leaves the target unchanged and leaks nothing", "statement": "If loading throws at any point (reading the index, constructing or reading the key, creating the flyweight), the target keeps its value and every temporary key object constructed is destroyed exactly once.", "quantifier": "all inputs and throw points", "why_tests_cant": "All throw points.", "anchors": ["include/boost/flyweight/serialize.hpp:65-91", "include/boost/flyweight/detail/archive_constructed.hpp:31-71"]}
{"id": "C38", "title": "Serialization of recursive keys (defect)", "statement": "The round trip of C33 should also hold when keys contain flyweights of the same type. This is false of the code: the index read before the nested loads is stale afterwards.", "quantifier": "all nested keys (refuted by witness)", "why_tests_cant": "Needs recursive value types; the general claim is refuted by a witness.", "anchors": ["include/boost/flyweight/serialize.hpp:65-91"]}
{"id": "C39", "title": "Factory and mutex are ready before first use and created once", "statement": "In every static-initialization order, every flyweight operation finds the factory and mutex already constructed; each is constructed exactly once per program (per module with static_holder), and init() is idempotent.", "quantifier": "all static initialization orders and nesting", "why_tests_cant": "Order is unspecified across translation units.", "anchors": ["include/boost/flyweight/detail/flyweight_core.hpp:153-163,314-351", "include/boost/flyweight/static_holder.hpp", "include/boost/flyweight/flyweight.hpp:181-189"]}
{"id": "C40", "title": "Static destruction order", "statement": "Any static object whose construction creates a flyweight or is preceded by a flyweight::initializer is destroyed before the factory and mutex it uses. Without it (static container filled later) a use after destruction is possible; adding an initializer removes the problem.", "quantifier": "all static object sequences", "why_tests_cant": "All initialization orders.", "anchors": ["include/boost/flyweight/flyweight.hpp:181-189", "include/boost/flyweight/static_holder.hpp", "doc/tutorial/technical.html"]}
{"id": "C41", "title": "Unsynchronised first initialization (documented limitation)", "statement": "Concurrent first calls of init() by two threads should be free of data races. This is false: conflicting unsynchronised accesses exist; it holds if init() completed before the threads start.", "quantifier": "all schedules of two initializing threads", "why_tests_cant": "Race detectors need the exact schedule.", "anchors": ["include/boost/flyweight/detail/flyweight_core.hpp:153-163"]}
{"id": "C42", "title": "Intermodule sharing", "statement": "With intermodule_holder all modules of a program share one factory, so equality of flyweights across modules is as within one module; with static_holder each module has its own and cross-module equality of equivalent values fails.", "quantifier": "all numbers of modules and initialization orders", "why_tests_cant": "Universal over module structures.", "anchors": ["include/boost/flyweight/intermodule_holder.hpp", "include/boost/flyweight/static_holder.hpp"]}
{"id": "C43", "title": "Free-order policy parameters", "statement": "Any permutation of tag, tracking, factory, locking and holder specifiers yields the same configuration; omitted parameters take the documented defaults (refcounted, hashed_factory, simple_locking, static_holder, no tag); parameters matching no category or a repeated category are rejected.", "quantifier": "all parameter lists", "why_tests_cant": "Combinatorial; the compile-time resolution is tested only on samples.", "anchors": ["include/boost/flyweight/flyweight.hpp:73-166"]}
{"id": "C44", "title": "Configurations with different tags are isolated", "statement": "Two flyweight types share a factory iff their value type, tag and policies resolve to the same configuration; operations on one never affect values of the other.", "quantifier": "all pairs of parameter lists, all histories", "why_tests_cant": "Universal.", "anchors": ["include/boost/flyweight/flyweight.hpp:168-172", "include/boost/flyweight/tag.hpp", "include/boost/flyweight/static_holder.hpp"]}
{"id": "C45", "title": "Perfect forwarding is complete and unambiguous", "statement": "For every number of arguments up to the supported limit and every combination of lvalue/const/rvalue arguments, exactly one best construction overload is selected and each argument arrives with its own constness/value category.", "quantifier": "all arities and argument category combinations", "why_tests_cant": "Combinatorial explosion of overloads.", "anchors": ["include/boost/flyweight/detail/pp_perfect_fwd.hpp", "include/boost/flyweight/detail/dyn_perfect_fwd.hpp", "include/boost/flyweight/detail/perfect_fwd.hpp"]}
{"id": "C46", "title": "Copying is never hijacked by the forwarding constructor", "statement": "Constructing or assigning a flyweight from a flyweight of the same type (any const/value category) copies its handle; constructing from a value_type (any category) looks that value up; any other arguments construct a key. In particular no spurious value construction happens when copying.", "quantifier": "all argument types and categories", "why_tests_cant": "Overload sets are not enumerable by runtime tests.", "anchors": ["include/boost/flyweight/flyweight.hpp:193-239", "include/boost/flyweight/detail/flyweight_core.hpp:167-184"]}
{"id": "C47", "title": "Stream operators", "statement": "Writing a flyweight produces what writing its value produces; reading assigns the value read; if reading fails leaving t in some state, the flyweight gets that state, exactly as for a plain value; other flyweights sharing the old value are unaffected.", "quantifier": "all streams and values", "why_tests_cant": "Universal over stream behaviours.", "anchors": ["include/boost/flyweight/flyweight.hpp:427-457"]}
{"id": "C48", "title": "get_key consistent with the factory", "statement": "get_key() of a flyweight is always equivalent to the key it was created with: the stored key with key_value without extractor, the extractor applied to the value with an extractor (provided the extractor laws), the value itself otherwise.", "quantifier": "all histories and keys, all extractors satisfying the laws", "why_tests_cant": "Universal over keys and extractors.", "anchors": ["include/boost/flyweight/flyweight.hpp:243-247", "include/boost/flyweight/key_value.hpp:103-109,238", "include/boost/flyweight/detail/default_value_policy.hpp"]}
{"id": "C49", "title": "Recursive mutex", "statement": "The mutex used gives mutual exclusion between threads while letting the owning thread lock again; it becomes free exactly when every lock has been matched by an unlock; an exception path releases exactly the locks acquired.", "quantifier": "all lock/unlock sequences of all threads", "why_tests_cant": "All schedules.", "anchors": ["include/boost/flyweight/detail/recursive_lw_mutex.hpp"]}
{"id": "C50", "title": "archive_constructed temporary lifetime", "statement": "The temporary key used while loading is constructed before it is read into, destroyed exactly once on every path (including when reading into it throws), and never destroyed if its construction threw.", "quantifier": "all throw points", "why_tests_cant": "All throw points.", "anchors": ["include/boost/flyweight/detail/archive_constructed.hpp:31-71"]}
{"id": "C51", "title": "Nested flyweight types at program exit", "statement": "If the value of one flyweight type holds flyweights of another (or the same) type, an initializer of the outer type alone does not make program exit safe: the inner factory may be destroyed while values of the outer one still hold inner flyweights; the same with no_tracking, or if an outer value is leaked. Exit is safe if the inner type is initialized before the outer and every value is released.", "quantifier": "all sequences of static objects and nestings; the negative parts by witness", "why_tests_cant": "Needs particular static destruction orders and reasons about all others.", "anchors": ["include/boost/flyweight/detail/flyweight_core.hpp:153-163", "include/boost/flyweight/static_holder.hpp:31-35", "include/boost/flyweight/flyweight.hpp:181-189", "include/boost/flyweight/no_tracking.hpp"]}
{"id": "C52", "title": "Free functions accept every flyweight type", "statement": "Stream operators, hash_value, std::hash and swap accept every flyweight type with up to five policy arguments. Serialization (serialize, save, load) accepts those with up to three and no others, although a type may have five; a configuration that differs from the default in four categories cannot be serialized however it is written.", "quantifier": "all flyweight types, all ways to write their arguments", "why_tests_cant": "The tests instantiate some types; which types the templates accept is a statement about all.", "anchors": ["include/boost/flyweight/serialize.hpp:32-71", "include/boost/flyweight/flyweight.hpp:419-506", "include/boost/flyweight/flyweight_fwd.hpp:32-40"]}
{"id": "C53", "title": "Constructors that create flyweights, with concurrent_factory", "statement": "With concurrent_factory a value is constructed while its element is being visited, so that a constructor that creates flyweights of the same type enters the container again. If the container locks elements one by one, threads never deadlock when constructors do not ask for each other in a cycle, with or without locking, and every execution ends; a constructor that asks for its own key, directly or through others, deadlocks. If elements are locked in groups, an order on the keys compatible with the groups is needed, or, with simple_locking, only that no constructor asks for a key in its own group; otherwise a single thread may deadlock. All results are those of the constructors run without sharing, and without collections no value is constructed twice.", "quantifier": "all constructor programs, all schedules of any number of threads and collections, all collision relations, both locking policies", "why_tests_cant": "Deadlocks depend on interleavings and on the hash groups the keys fall in.", "anchors": ["include/boost/flyweight/concurrent_factory.hpp:144-163", "include/boost/flyweight/detail/flyweight_core.hpp:261-312", "include/boost/flyweight/key_value.hpp:264-270", "example/fibonacci.cpp:1-60"]}
{"id": "C54", "title": "Placeholder expressions in specifiers", "statement": "is_placeholder_expression tells types with MPL placeholders from those without. hashed_factory, set_factory, concurrent_factory and assoc_container_factory make their factory class of Entry and Key with _1 and _2 replaced in their arguments and nothing else changed, defaults being the standard functors of Key; giving the factory class itself as a placeholder expression is the same. Specifiers are never placeholder expressions themselves, and members of a placeholder expression are never looked up. This holds for both compiler behaviours that not_placeholder_expr.hpp distinguishes.", "quantifier": "all types as template arguments, both variants of the macro", "why_tests_cant": "Concerns all types that may be given as arguments, and compilers not at hand.", "anchors": ["include/boost/flyweight/detail/is_placeholder_expr.hpp:33-57", "include/boost/flyweight/detail/nested_xxx_if_not_ph.hpp:23-37", "include/boost/flyweight/detail/not_placeholder_expr.hpp:32-61", "include/boost/flyweight/hashed_factory.hpp:36-119", "include/boost/flyweight/set_factory.hpp:32-76", "include/boost/flyweight/assoc_container_factory.hpp:41-110", "include/boost/flyweight/concurrent_factory.hpp:180-242"]}
{"id": "C55", "title": "concurrent_factory with refcounted tracking", "statement": "A flyweight type that combines concurrent_factory with (the default) refcounted tracking keeps two sets of counters in its entries. For any number of threads creating, copying, reading and destroying flyweights of a key, with the garbage collector running at any time and constructors throwing at any time: no access is made to an entry that has been collected; the collector takes an entry just when no flyweight and no thread refers to it; between operations the counters are the number of flyweights and one deleter if there are any; the last deleter leaves no flyweight behind; some thread can always go on. With simple_locking the plain deleter counter is never accessed by two threads at once; with no_locking it may be.", "quantifier": "all schedules of any number of threads and the collector, both locking policies", "why_tests_cant": "The race and the two-level counting depend on interleavings that tests meet by chance.", "anchors": ["include/boost/flyweight/refcounted.hpp:60-151", "include/boost/flyweight/concurrent_factory.hpp:40-173", "include/boost/flyweight/detail/flyweight_core.hpp:61-75", "include/boost/flyweight/detail/flyweight_core.hpp:261-312"]}
{"id": "C56", "title": "Overloads of the comparison operators", "statement": "== and != of two flyweights of one type select the friend that compares identities; every other comparison with a flyweight operand selects the operator that forwards to the values, whatever operators and conversions the user has declared for other classes. Hence comparing flyweights of flyweights, at any depth, with each other or with plain values is comparing the values under them. Objects of classes derived from a flyweight type cannot be compared with each other (ambiguous) and are compared with flyweights by value.", "quantifier": "all operand types, nestings and values; all user operators for classes that are not flyweights", "why_tests_cant": "Unbounded nesting and arbitrary user operators.", "anchors": ["include/boost/flyweight/flyweight.hpp:255-274", "include/boost/flyweight/flyweight.hpp:290-415"]}
{"id": "C57", "title": "Accesses to an entry are ordered (refcounted, simple_locking)", "statement": "In the sense of the C++ memory model, with refcounted tracking and simple_locking: accesses by different threads to the container, to the plain deleter counter and to the value are ordered by happens-before whenever they conflict, and an entry is destroyed after every access anybody made to it, atomic ones included. It is enough that decrements of the atomic counter acquire and release; increments may be relaxed. If decrements do not release, or do not acquire, the entry may be destroyed while an access to it is unordered.", "quantifier": "all schedules of any number of threads, all orderings by other means of the program, constructors failing at any time, both kinds of increment", "why_tests_cant": "Missing ordering shows up on few machines and rarely.", "anchors": ["include/boost/flyweight/refcounted.hpp:60-151", "include/boost/flyweight/detail/flyweight_core.hpp:61-75", "include/boost/flyweight/detail/flyweight_core.hpp:261-312", "include/boost/flyweight/simple_locking.hpp:1-37"]}
{"id": "C58", "title": "Accesses to an entry are ordered (concurrent_factory, no_tracking)", "statement": "In the sense of the C++ memory model, with concurrent_factory and no_tracking: an entry is constructed before, and erased by the garbage collector after, every access anybody makes to it; its value is constructed before it is read and after every access to the key that it replaces. The collector may read outdated values of the counter, but reads zero only if no flyweight has the entry and no thread is about to get it. It is enough that decrements release and the collector's load acquires; if either does not, an entry may be erased with an access to it unordered.", "quantifier": "all schedules of any number of threads and collectors, all values that coherence allows loads to return, all orderings by other means of the program, constructors failing at any time, all orderings of increments and acquire orderings of decrements", "why_tests_cant": "Outdated values and missing ordering show up on few machines and rarely.", "anchors": ["include/boost/flyweight/concurrent_factory.hpp:40-173", "include/boost/flyweight/key_value.hpp:97-143", "include/boost/flyweight/key_value.hpp:264-270"]}
{"id": "C59", "title": "Factories written by users", "statement": "A user's factory may reorganize itself whenever it is searched. The self-organizing list of test_custom_factory.cpp behaves as a unique set for every equivalence, whatever has been inserted, found and erased; every tenth hit of an element brings it to the front and leaves the order of the others, and no other hit changes the order. Flyweights with this factory share, stay and are free of undefined behaviour as with the factories of the library. Equality must be an equivalence: a key that does not equal itself is stored again by every insertion.", "quantifier": "all key types and equivalences, all histories of insertions and erasures, all policies, threads and schedules", "why_tests_cant": "test_custom_factory.cpp runs one short single-threaded script.", "anchors": ["test/test_custom_factory.cpp:28-86", "example/custom_factory.cpp:38-90", "include/boost/flyweight/assoc_container_factory.hpp:59-76"]}
{"id": "C60", "title": "No data races (any keys, nested flyweights)", "statement": "In the sense of the C++ memory model, with refcounted tracking or no_tracking and with simple_locking: no two conflicting accesses to the container, to keys and values, to the counters and to the deleter counts of any entries are unordered by happens-before, the transitive closure of the order of each thread and of what synchronizes, also when values hold flyweights and are read through several levels. The creation of an entry happens before, and its destruction after, every other access to it, atomic ones included. It is enough that decrements of the atomic counter acquire and release; if they do not release or do not acquire there are races. With no_locking the same holds for a single thread, and there are races with two.", "quantifier": "all factories and policies that meet their requirements, all keys, values that hold any number of flyweights to any depth, all schedules of any number of threads, constructors and insertions that throw at any time, all orderings by other means of the program, both kinds of increment", "why_tests_cant": "Missing ordering shows up on few machines and rarely; the test suite has no program that shares nested flyweights between threads.", "anchors": ["include/boost/flyweight/refcounted.hpp:60-151", "include/boost/flyweight/no_tracking.hpp:27-40", "include/boost/flyweight/detail/flyweight_core.hpp:61-118", "include/boost/flyweight/detail/flyweight_core.hpp:261-312", "include/boost/flyweight/key_value.hpp:97-143", "include/boost/flyweight/flyweight.hpp:191-239", "include/boost/flyweight/simple_locking.hpp:1-37", "include/boost/flyweight/no_locking.hpp:26-30"]}
{"id": "C61", "title": "Flyweights inside values", "statement": "A flyweight copied out of the value of another flyweight, through any number of levels of get(), is that very flyweight: it has the same entry and value, and the copy can always be made. Reading the same path again gives the same flyweight as long as the outer one is left alone, and the copy keeps its value after the outer flyweight and all others are gone. Paths inside values never lead back: no value contains itself, at any depth, and every path is shorter than the number of entries.", "quantifier": "all policies and factories that meet their requirements, all reachable states, all paths, all schedules of any number of threads", "why_tests_cant": "The test suite has no flyweight inside a flyweight; example/composite.cpp and example/html.cpp are run by hand.", "anchors": ["example/composite.cpp:37-46", "example/composite.cpp:95-128", "example/html.cpp:195", "include/boost/flyweight/detail/flyweight_core.hpp:186-194", "include/boost/flyweight/refcounted.hpp:96-117"]}
{"id": "C62", "title": "Structural sharing", "statement": "If values are compared by what they hold beside flyweights and by the addresses of the flyweights in them, then every flyweight denotes one finite tree, two flyweights are the same entry exactly if their trees are equal at every level, the tree does not change while the flyweight is left alone, a new flyweight made from others denotes the label asked for with the trees of those others below, and printing the tree by following get() ends, at a depth of at most the number of entries.", "quantifier": "all label types and equalities, all policies and factories that meet their requirements, all schedules of any number of threads", "why_tests_cant": "example/composite.cpp builds a list from the user's input in one thread; equality of whole trees against equality of addresses is not checked anywhere.", "anchors": ["example/composite.cpp:25-128", "include/boost/flyweight/flyweight.hpp:257-269", "include/boost/flyweight/detail/flyweight_core.hpp:261-312"]}
{"id": "C63", "title": "No data races (concurrent_factory, any keys, nested flyweights)", "statement": "In the sense of the C++ memory model, with concurrent_factory and no_tracking: no two conflicting accesses to the keys, values and counters of any entries are unordered by happens-before, also when values hold flyweights and are read through several levels while the collector makes its passes. The creation of an entry happens before, and its erasure after, every other access to it, atomic ones included. The collector's load may return outdated values, but returns zero only if nothing refers to the entry, and nothing does until it is erased; what a flyweight refers to is there with its value. It is enough that decrements release and the load acquires; if either does not there are races.", "quantifier": "all policies that meet their requirements, all keys, values that hold any number of flyweights to any depth, all schedules of any number of threads and the collector, all values that coherence allows its loads to return, constructors and insertions that throw at any time, all orderings by other means of the program, all orderings of increments and acquire orderings of decrements", "why_tests_cant": "Outdated values and missing ordering show up on few machines and rarely; the test suite has no program that shares nested flyweights between threads.", "anchors": ["include/boost/flyweight/concurrent_factory.hpp:40-173", "include/boost/flyweight/key_value.hpp:97-143", "include/boost/flyweight/key_value.hpp:264-270", "include/boost/flyweight/detail/flyweight_core.hpp:61-118", "include/boost/flyweight/detail/flyweight_core.hpp:261-312", "include/boost/flyweight/flyweight.hpp:191-239"]}
{"id": "C64", "title": "Programs see plain values", "statement": "A program that makes, copies, assigns, swaps, destroys, compares, reads and walks through flyweights behaves, in every schedule, as the same program with plain values of any depth: every run of it corresponds to a run with plain values, its objects stand for exactly those values, and it never runs into undefined behaviour if the program with plain values does not. It can always be run to its end. With tracking, when nothing is in progress, the entries are exactly the different values found at any depth in live objects, each once.", "quantifier": "all programs, all policies and factories that meet their requirements, all configurations, all schedules of any number of other threads which use objects of their own, constructors that throw at any time", "why_tests_cant": "Tests run a handful of programs in one or few schedules; this is about all programs.", "anchors": ["include/boost/flyweight/flyweight.hpp:191-269", "include/boost/flyweight/detail/flyweight_core.hpp:84-118", "include/boost/flyweight/detail/flyweight_core.hpp:186-194", "include/boost/flyweight/detail/flyweight_core.hpp:261-312", "example/composite.cpp:24-46"]}
{"id": "C65", "title": "The list parser of composite.cpp", "statement": "For every input line the program accepts exactly the lines whose parentheses match and prints each of their tokens, with parentheses around the whole, on a line of its own at the level of nesting; otherwise it reports \"unmatched )\" if some prefix closes more than it opens and \"unmatched (\" if not. Whatever it reports, including an exception thrown by a constructor or the vector, no flyweight is left. After parsing, the factory holds each string and list in the input exactly once.", "quantifier": "all input lines, all factories that meet their requirements, all configurations, all schedules of any number of other threads which use objects of their own, all growth policies of the vector, exceptions at any time", "why_tests_cant": "The example has no test; inputs are unbounded and nested to any depth.", "anchors": ["example/composite.cpp:37-46", "example/composite.cpp:56-82", "example/composite.cpp:88-128", "example/composite.cpp:132-159", "example/composite.cpp:161-174"]}
{"id": "C66", "title": "The HTML processor of html.cpp", "statement": "parse_tag finds the first '>' outside quotes and returns the name before it in lower case, whether it is a closing tag, and its properties, and fails exactly if there is no such '>' or no name. scan_html reads past the end of the text exactly if the text ends in an odd number of '<'. Otherwise the characters it finds, in any order and any selection, are written by produce_html so that reading the result gives the same characters in the same contexts, as long as no character is '<', no tag name contains a quote and no tag is a declaration; without these conditions this is false. In particular for the reversal of the middle done by main.", "quantifier": "all texts, all rearrangements of the characters found", "why_tests_cant": "The example has no test; texts are unbounded and nested to any depth.", "anchors": ["example/html.cpp:35-46", "example/html.cpp:69-128", "example/html.cpp:134-171", "example/html.cpp:173-205", "example/html.cpp:207-267", "example/html.cpp:300-307"]}
{"id": "C67", "title": "html.cpp with its flyweights", "statement": "For every text that does not end in an odd number of '<', in every schedule the program writes exactly what it would write with plain values, reading back what it wrote gives the rearranged characters (under the conditions of C66), and no flyweight is left, also if a constructor or a vector throws; it never runs into undefined behaviour of the library, whatever the text. It can always be run to its end. With tracking, once the text is scanned and nothing is in progress, the number of entries is the number of different characters with their contexts plus that of different contexts plus that of different tags in these contexts.", "quantifier": "all texts, all factories that meet their requirements, all configurations, all schedules of any number of other threads which use objects of their own, all growth policies of the vectors, exceptions at any time", "why_tests_cant": "The example has no test; texts are unbounded, and so are the schedules of other threads.", "anchors": ["example/html.cpp:66-84", "example/html.cpp:86-128", "example/html.cpp:134-171", "example/html.cpp:173-205", "example/html.cpp:223-267", "example/html.cpp:276-321"]}
{"id": "C68", "title": "Programs in several threads", "statement": "If several threads run programs, each with objects of its own, then in every schedule each program goes through states it could go through alone with plain values, its objects have these values, and there is no undefined behaviour. All programs can be brought to their ends. The same for processes that fork threads, join them and fork again, where objects pass from thread to thread at these points: if the process is safe with plain values, it is safe with flyweights and ends with the same values.", "quantifier": "all programs, any number of threads and stages, all configurations with locking (or one thread), all factories that meet their requirements, all schedules, any behaviour of other threads on other objects, exceptions at any time", "why_tests_cant": "The tests of the library run one thread; programs and schedules are unbounded.", "anchors": ["include/boost/flyweight/flyweight.hpp:75-228", "include/boost/flyweight/detail/flyweight_core.hpp:186-233", "include/boost/flyweight/simple_locking.hpp:23-37", "include/boost/flyweight/refcounted.hpp:40-175", "example/parallel.cpp:83-119"]}
{"id": "C69", "title": "parallel.cpp tokenizes in parallel as in one thread", "statement": "The tokenizer finds exactly the maximal runs of letters of a range, in order, without reading outside of it. For every number of threads from 1 the chunks cover the text, no word is divided, and what the threads find is in sum what one thread would find. With regular flyweights, in every schedule of the threads there is no undefined behaviour, and when the threads are joined element j of the vector is the j-th word of the text; with tracking there is then one entry for each different word. After the vector is destroyed, or if its construction throws, no flyweight of the process is left. The process can always be brought to its end.", "quantifier": "all texts, any number of threads, all factories that meet their requirements, configurations with locking, all schedules including other threads which use objects of their own", "why_tests_cant": "The example has no test; texts, numbers of threads and schedules are unbounded.", "anchors": ["example/parallel.cpp:24-54", "example/parallel.cpp:60-79", "example/parallel.cpp:81-103", "example/parallel.cpp:105-119"]}
{"id": "C70", "title": "Values are constructed once while a program keeps them", "statement": "As long as a program always has some object with a value, even if not always the same object, the entry of that value stays at its address with its representation, is not erased, and no other value with an equivalent key is constructed, whatever else the program and other threads do. A program that drops no value before it only destroys objects, alone in the process, has each value constructed at most once; each value constructed is one it has. Constructing an object from a value that the program already has constructs nothing.", "quantifier": "all programs that are safe with plain values, all configurations with locking (or one thread), all factories and policies that meet their requirements, all schedules, exceptions at any time", "why_tests_cant": "The tests do not count constructions and their programs and schedules are few.", "anchors": ["include/boost/flyweight/detail/flyweight_core.hpp:186-233", "include/boost/flyweight/refcounted.hpp:40-175", "include/boost/flyweight/key_value.hpp:50-192"]}
{"id": "C71", "title": "key_value.cpp loads each texture once", "statement": "For all numbers std::rand may return the program ends with as many flyweights as both loops make, unless an exception is thrown, and with no object left; only an empty vector before the second loop is undefined. From when a flyweight has a texture until the vector is destroyed the texture stays where it is and its file is not loaded again, whatever other threads do with textures. No texture is copied. After both loops each flyweight has the texture of the file chosen; with tracking and if no other thread has flyweights, there is one entry for each different file. Alone in the process, the files loaded are those chosen, each once.", "quantifier": "all sequences of numbers, all lengths of both loops, all factories that meet their requirements, all configurations with locking (or one thread), all schedules including other threads which use objects of their own", "why_tests_cant": "The example has no test; sequences and schedules are unbounded.", "anchors": ["example/key_value.cpp:21-63", "example/key_value.cpp:65-99", "include/boost/flyweight/key_value.hpp:50-192"]}
{"id": "C72", "title": "With concurrent_factory flyweights behave as plain values of any depth", "statement": "A program that is safe with plain values behaves the same with flyweights whose values hold flyweights, with concurrent_factory: in every schedule of other threads and of the garbage collector no step of it is undefined, the results of comparisons and of get() at any depth are those for plain values, and its objects are at each of its own steps what they would be as plain values. From every state it can be brought to its end, without exceptions. After enough passes of the collector with no call in progress, what is stored is every different tree among the values and their parts, once.", "quantifier": "all programs that are safe with plain values, all policies that meet their requirements and compare keys by value, all schedules including other threads which use objects of their own and collector passes at any time, exceptions at any time", "why_tests_cant": "The tests do not use concurrent_factory with nested values while the collector runs; programs and schedules are unbounded.", "anchors": ["include/boost/flyweight/concurrent_factory.hpp:45-239", "include/boost/flyweight/detail/flyweight_core.hpp:120-233"]}
{"id": "C73", "title": "The garbage collector leaves exactly what objects hold", "statement": "With any number of objects alive and no call in progress, the collector alone never changes which entries are held, directly or within values that are held, nor what they contain. If the entries that nothing holds are k, then k complete passes (k+1 if one was already in progress) leave exactly those that are held, however entries are nested and in whatever order the container is traversed.", "quantifier": "all reachable states with no call in progress, all policies that meet their requirements, all orders of traversal, all numbers of passes", "why_tests_cant": "The tests only check that the program ends; nested values are collected in an order no test controls.", "anchors": ["include/boost/flyweight/concurrent_factory.hpp:116-131", "include/boost/flyweight/concurrent_factory.hpp:57-103"]}
{"id": "C74", "title": "Threads that run programs with concurrent_factory do not disturb one another", "statement": "Several threads each run a program with its own flyweight objects, with concurrent_factory and no locking policy, and the objects pass to other threads when all have been joined. If each program is safe with plain values on what it is given, then in every schedule of these threads, of others and of the collector no step is undefined, each program has the results it would have alone with plain values, and after the last team the objects are what the programs with plain values leave. From every state all can be brought to the end without exceptions.", "quantifier": "all numbers of threads and of teams, all programs safe with plain values, all ways to divide the objects between threads, all schedules with other threads and collector passes, exceptions at any time", "why_tests_cant": "The tests for threads use a fixed number of threads and sample few interleavings; the collector's passes are timed by the system.", "anchors": ["include/boost/flyweight/concurrent_factory.hpp:45-239", "include/boost/flyweight/detail/flyweight_core.hpp:120-233", "example/parallel.cpp:107-119"]}
{"id": "C75", "title": "example/parallel.cpp with concurrent_factory", "statement": "With concurrent_flyweight, parse never does anything undefined, and when it is done each element of the vector has its word, whatever the text, the number of threads, the schedule and the collector's passes. If there are no other objects, then after enough passes of the collector the factory has exactly one entry for each different word of the text, and after the vector is destroyed enough passes leave none. If memory is there it can always come to its end; an exception while the vector is made leaves no object.", "quantifier": "all texts, all numbers of threads, all schedules of the threads, of others with their own objects and of the collector, exceptions at any time", "why_tests_cant": "The example prints times and number of words only; what is in the factory, and schedules with the collector, are not observed.", "anchors": ["example/parallel.cpp:68-119", "example/parallel.cpp:134-141", "include/boost/flyweight/concurrent_factory.hpp:57-131"]}
{"id": "C76", "title": "example/basic.cpp", "statement": "Every text is read to an end, and of a text of entries (two names and a number, with spaces between them) exactly these users are read. In every schedule with other threads the program shows the users read from the text with the names of the first changed and each user with the name anna jones replaced, as it would with strings, or ends with an exception; either way it leaves no flyweight object. Without exceptions it comes to its end, and then there is nothing in the factory if there are no other objects.", "quantifier": "all texts from which a user can be read, all growth of the vector, all numbers of copies of the predicate, all schedules with other threads, exceptions at any time", "why_tests_cant": "The example has one text and one thread; that formatted input into flyweights does nothing else than into strings is not observed.", "anchors": ["example/basic.cpp:40-75", "example/basic.cpp:79-89", "example/basic.cpp:116-156", "include/boost/flyweight/flyweight.hpp:444-459"]}
{"id": "C77", "title": "example/custom_factory.cpp", "statement": "A factory that writes a message at each insertion, hit and erasure, put around any factory, is a factory. In every execution with any number of threads the messages about each key are \"new\", any number of \"hit\", \"del\", again and again, and there is an entry with the key exactly between \"new\" and \"del\"; when no objects are left, there are as many \"del\" as \"new\" for each key. A program that runs alone without exceptions writes \"new\" or \"hit\" for each value it makes, according to whether an object with this value exists, \"del\" when the last object with a value goes, and nothing for copies. The program of the example therefore writes, for each word of the text, \"new\" or \"hit\" according to whether the word has come before, and then \"del\" for each word, in the order of the last occurrences; with other threads and exceptions it still leaves no object.", "quantifier": "all factories below, all keys, all executions of any number of threads; for the output: all programs with flyweights of words, all texts, all growth of the vector", "why_tests_cant": "The example has one text, and its output is not checked by anything.", "anchors": ["example/custom_factory.cpp:36-74", "example/custom_factory.cpp:95-122"]}
{"id": "C78", "title": "example/serialization.cpp", "statement": "Whatever other threads do, whatever is in the files and whatever is asked for, the program has no undefined behaviour and writes the files it would write with strings in place of flyweights, or ends with an exception; it leaves no object unless it ends with std::exit because a file cannot be opened. A text saved as an archive and loaded from it again is the same text. The archive has, for each token of the text, a number, followed by the token when it comes for the first time; so each distinct token is there once, and each number is that of its token among them. The tokens are the separators and what is between them, in order, and the text can be cut in this way only.", "quantifier": "all texts, all contents of files (also such as are no archives), all input, all reachable states and executions with other threads, all exceptions, all growth of the vectors, all encodings of numbers and strings", "why_tests_cant": "The example is run by hand with files of the user; tests serialize a few values in one thread.", "anchors": ["example/serialization.cpp:36-79", "example/serialization.cpp:83-108", "example/serialization.cpp:110-131", "include/boost/flyweight/serialize.hpp:43-91"]}
{"id": "C79", "title": "example/perf.cpp", "statement": "Whatever other threads do, the test of perf.cpp with flyweights (any factory, with or without tracking) returns the number it returns with strings, or ends with an exception, and leaves no object. For a text without null characters, of fewer than 2^64/100 characters, the number is c + 10 (2^20 - 1) times the length of the text, modulo 2^64, where c, the sum of the numbers of equal elements found in 100 searches, is between 100 and 100 times the number of tokens. Each element is the token up to its first null character. It is defined unless the text is empty; for an empty file the program divides by zero. When the bytes are reported, the program has eleven flyweights for each token; at rest, with tracking and no other flyweights, the store has one value for each different token, and no other.", "quantifier": "all texts, all input, all reachable states and executions with other threads, all exceptions, all growth of the vectors", "why_tests_cant": "The program is run by hand to see times; its result is not looked at, and an empty file is not tried.", "anchors": ["example/perf.cpp:163-245", "example/perf.cpp:281-312"]}
{"id": "C80", "title": "Counting allocator of perf.cpp", "statement": "For every sequence of allocations, failed allocations and deallocations that gives memory back once and as it was allocated, with elements of any types, count_allocator_mem is the number of bytes in use modulo 2^64 (0 when all has been given back) and no other array is deleted; the report splits it into the bytes of the two vectors and those of everything else. An array has the room for the elements asked for unless the product overflows; for each element size of two or more there is a number permitted by max_size for which it has not. Memory given back with too small a number of elements makes the count too large. Giving back what is not in use, also a second time, is undefined behaviour in every case.", "quantifier": "all sequences of calls, all sizes and numbers of elements, all addresses, exceptions of new", "why_tests_cant": "The numbers are only printed; sizes near 2^64 are never asked for.", "anchors": ["example/perf.cpp:45-93", "example/perf.cpp:235-241"]}
{"id": "C81", "title": "What is stored for a program", "statement": "For every program that is defined with plain values, at every point of every execution at which no call is in progress and all flyweights are those of the program, with tracking: the store has exactly one entry for each different value among the objects that the same program with plain values has at that point and the parts of these values, and no other; the number of entries is the number of these values. If the program ends without objects, nothing is stored. At every point between calls of the program, also with flyweights and calls of other threads, and without tracking, each of these values and parts is in the factory exactly once; so there are at least as many entries as different ones. The same holds after the last of several teams of threads that run one after another, for the objects of all of them.", "quantifier": "all programs, policies with tracking, factories, all executions with calls and exceptions of other threads", "why_tests_cant": "The tests do not look at what is stored; they would see it for a few programs and schedules only.", "anchors": ["include/boost/flyweight/detail/flyweight_core.hpp:186-251", "include/boost/flyweight/refcounted.hpp:60-140"]}
{"id": "C82", "title": "What is stored for a program, concurrent_factory", "statement": "For every program that is defined with plain values and uses flyweights with concurrent_factory, at every point of every execution at which no call is in progress and all flyweights are those of the program: as many passes of the garbage collector as there are entries that nothing holds (one more if a pass is in progress) leave the objects as they are and exactly one entry for each different value among the objects that the same program with plain values has at that point and the parts of these values, and no other. If the program ends without objects, the container is emptied. At every point between calls of the program, whatever others and the collector are doing, each of these values and parts is in the container exactly once. Such passes can always be completed. The same holds after the last of several teams of threads that run one after another, for the objects of all of them.", "quantifier": "all programs (without copies from within values), policies, all executions with other threads, collector passes and exceptions", "why_tests_cant": "The tests do not look at what is stored; the collector's passes are timed.", "anchors": ["include/boost/flyweight/concurrent_factory.hpp:45-239", "include/boost/flyweight/detail/flyweight_core.hpp:120-233"]}
