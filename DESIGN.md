# Formal model of Boost.Flyweight in Rocq

Line numbers cite `/repo` (`H/` = `/repo/include/boost/flyweight/`).  The code
is not run here: the tie between the model and the code is the citation beside
each definition.

## How the model is built

Each part of the library is an executable Gallina program: `init` and `step`
for what has state, plain functions otherwise.  Undefined behaviour is an
outcome of its own (`Undef`, `UB`), never assumed away; waiting is `Stuck`.
Threads are stacks of micro-instructions, each a single access to shared state.
A *schedule* is a list of labels, each of which starts an API call in some
thread or runs the next micro-instruction of a thread (with the address the
allocator would hand out).  Theorems quantify over all schedules or operation
sequences, hence over all numbers of threads, programs and histories.

For each part there are: the model (`X.v`), the vocabulary of the properties
(`XSpec.v`, not used by the model), proofs (`XProofs.v` and others), and the
property theorems (`PropX.v`) with an `Example` meeting the hypotheses and
`Print Assumptions` beneath.

| model | what it models | source | proofs | theorems |
|---|---|---|---|---|
| `Policies.v` | value policies: default, key_value with and without extractor | `H/detail/default_value_policy.hpp`, `H/key_value.hpp` | same file | `PropOps.v` C48 |
| `Factory.v`, `HashedFactory.v`, `SetFactory.v` | factories as containers of addresses that read keys from memory: buckets with rehashing, search tree | `H/hashed_factory.hpp`, `H/set_factory.hpp`, `H/assoc_container_factory.hpp` | `*FactoryProofs.v`, `FactoryProps.v` | `PropFactory.v` C15, C16 |
| `ListFactory.v` | a factory written by a user, which reorganizes itself | `test/test_custom_factory.cpp`, `example/custom_factory.cpp` | same file | `PropList.v` C59 |
| `Core.v` | flyweight objects, entries with `ref`/`del_ref`, container, recursive lock, threads, nested flyweights and copies taken of them through get(), throwing constructors, address reuse; refcounted or no_tracking, simple_locking or no_locking | `H/flyweight.hpp`, `H/detail/flyweight_core.hpp`, `H/refcounted.hpp`, `H/no_tracking.hpp`, `H/simple_locking.hpp`, `H/no_locking.hpp`, `H/detail/recursive_lw_mutex.hpp` | `CoreInv.v` (invariant), `CoreStep.v`, `CoreRun.v`, `CoreEff.v`, `CoreProps.v`, `CoreLive.v`, `CoreSolo.v`, `CoreOps.v`, `CoreRace.v`, `CoreTrace.v` | `PropCore.v`, `PropOps.v` C01-C11, C17, C20-C26, C47, C48; `PropInner.v` C61; `PropStruct.v` C62 |
| `Compare.v` | comparison, hash, stream operators | `H/flyweight.hpp` 257-506 | same file | `PropOps.v` C10, C11, C47 |
| `Lifetime.v` | the value policies at the level of object lifetimes (placement new, destructors, raw storage), insertion functions, `archive_constructed` | `H/key_value.hpp`, `H/detail/default_value_policy.hpp`, `H/detail/flyweight_core.hpp` 84-118, 167-184, 224-312, `H/detail/archive_constructed.hpp` | `LifetimeProofs.v`, `LifetimeInsert.v`, `LifetimeRun.v` | `PropLifetime.v` C12-C14, C50 |
| `Recursive.v` | value constructors which create flyweights of the same type | `H/detail/flyweight_core.hpp` 84-118, `example/fibonacci.cpp` | `RecursiveProofs.v` | `PropRecursive.v` C18, C19 |
| `Concurrent.v` | concurrent_factory with counted handles and garbage collector | `H/concurrent_factory.hpp` | `ConcurrentInv.v`, `ConcurrentStep.v`, `ConcurrentProofs.v`, `ConcurrentGc.v`, `ConcurrentLive.v`, `ConcurrentSolo.v`, `ConcurrentMore.v`, `ConcurrentPolicies.v` | `PropConcurrent.v` C27, C28, C30-C32 |
| `Shutdown.v` | collector thread and destructor of concurrent_factory | `H/concurrent_factory.hpp` 116-143, 173-177 | - | `PropShutdown.v` C29 |
| `Mutex.v` | recursive_lw_mutex and its scoped_lock under exceptions | `H/detail/recursive_lw_mutex.hpp` | - | `PropMutex.v` C49 |
| `Serialize.v` | save and load with helpers, over the core machine | `H/serialize.hpp`, `H/detail/serialization_helper.hpp`, `H/detail/archive_constructed.hpp` | `SerializeProofs.v` | `PropSerialize.v` C33-C37 |
| `SerRec.v` | the same with keys that contain flyweights of the same type | same | `SerRecProofs.v` | `PropSerialize.v` C38 |
| `Statics.v` | static initialization and destruction, holders, initializers, nested types | `H/detail/flyweight_core.hpp` 153-163, 314-351, `H/static_holder.hpp` | `StaticsProofs.v` | `PropStatics.v` C39, C40, C51 |
| `StaticsRace.v` | init() called by several threads | `H/detail/flyweight_core.hpp` 153-163 | - | `PropRace.v` C41 |
| `Modules.v` | several dynamically loaded modules | `H/static_holder.hpp`, `H/intermodule_holder.hpp` | - | `PropModules.v` C42 |
| `Config.v` | template arguments in any order, tags | `H/flyweight.hpp` 65-172, `H/*_tag.hpp` | - | `PropConfig.v` C43, C44 |
| `Forward.v` | overload sets of constructors, assignment, insert; perfect forwarding in its three implementations | `H/detail/*perfect_fwd.hpp`, `H/flyweight.hpp` 191-239, `H/detail/flyweight_core.hpp` 165-184 | `ForwardProofs.v` | `PropForward.v` C45, C46 |
| `Operators.v` | overloads of free functions and comparison operators, nested and derived flyweights | `H/flyweight.hpp` 255-506, `H/flyweight_fwd.hpp`, `H/serialize.hpp` 32-71 | `OperatorsProofs.v` | `PropOperators.v` C52, C56 |
| `Placeholder.v` | MPL placeholder expressions in factory and holder specifiers | `H/detail/is_placeholder_expr.hpp`, `H/detail/nested_xxx_if_not_ph.hpp`, `H/detail/not_placeholder_expr.hpp`, `H/*_factory.hpp`, `H/*_holder.hpp` | `PlaceholderProofs.v` | `PropPlaceholder.v` C54 |
| `Tracked.v` | refcounted tracking on top of concurrent_factory | `H/refcounted.hpp`, `H/concurrent_factory.hpp`, `H/detail/flyweight_core.hpp` 61-75, 261-312 | - | `PropTracked.v` C55 |
| `Nested.v` | constructors that create flyweights while the concurrent container is visited | `H/concurrent_factory.hpp` 144-163, `H/detail/flyweight_core.hpp` 261-312, `H/key_value.hpp` 264-270 | - | `PropNested.v` C53 |
| `Hb.v` | happens-before between accesses to an entry | `H/refcounted.hpp` 96-151, `H/detail/flyweight_core.hpp` 61-75, 261-312 | - | `PropHb.v` C57 |
| `CoreHb.v` | happens-before in all executions of `Core.v`: any keys, values that hold flyweights, no_tracking, no_locking | as `Core.v` and `Hb.v` | `CoreHbWf.v`, `CoreHbInv.v`, `CoreHbStep.v`, `CoreHbExec.v`, `CoreHbRun.v`, `CoreHbLife.v` | `PropCoreHb.v` C60 |
| `CoreHbGraph.v` | the same as a graph: sequenced-before and synchronizes-with over a log, as the C++ standard defines it | as `CoreHb.v` | `CoreHbGraphRun.v` | `PropCoreGraph.v` C60 |
| `Chb.v` | the same with concurrent_factory, whose collector may read old values | `H/concurrent_factory.hpp` 40-173, `H/key_value.hpp` 97-143, 264-270 | - | `PropChb.v` C58 |
| `ConHb.v` | happens-before in all executions of `Concurrent.v`: any keys, values that hold flyweights, old values read by the collector | as `Concurrent.v` and `Chb.v` | `ConHbInv.v`, `ConHbStep.v`, `ConHbHist.v`, `ConHbExec.v`, `ConHbRun.v`, `ConHbLife.v` | `PropConHb.v` C63 |
| `ConHbGraph.v` | the same as a graph over a log, with what each load reads | as `ConHb.v` | `ConHbGraphRun.v` | `PropConGraph.v` C63 |
| `Client.v` | a thread that runs a program with flyweights whose values are trees; the same program with plain values | `example/`, `H/flyweight.hpp` | same file | `PropClient.v` C64, `PropStored.v` C81 |
| `Vectors.v` | vectors of flyweights in programs | `example/` | same file | |
| `Composite.v` | tokenizer, parser and printer of lists of strings and lists | `example/composite.cpp` | `CompositeProofs.v` | `PropComposite.v` C65 |
| `Html.v` | tag parser, scanner and producer, with plain values | `example/html.cpp` | same file | `PropHtml.v` C66 |
| `HtmlProg.v` | the program with its flyweights of tags, contexts and characters | `example/html.cpp` | `HtmlProofs.v` | `PropHtmlProg.v` C67 |
| `Team.v` | programs in several threads, forked and joined | `example/` | | `PropTeam.v` C68 |
| `Parallel.v` | the tokenizer, the chunks and the program of the threads | `example/parallel.cpp` | `ParallelProofs.v` | `PropParallel.v` C69 |
| `KeyValue.v` | textures by file name and the two loops | `example/key_value.cpp` | `KeyValueProofs.v` | `PropKept.v` C70, `PropKeyValue.v` C71 |
| `ConClient.v` | programs as in `Client.v` with concurrent_factory | `H/detail/flyweight_core.hpp`, `H/concurrent_factory.hpp` | (in the next) | `PropConClient.v` C72, `PropConHeld.v` C73, `PropConStored.v` C82 |
| `ConTeam.v` | programs in several threads with concurrent_factory, one team after the other; parallel.cpp with concurrent_flyweight | `H/concurrent_factory.hpp`, `example/parallel.cpp` | (in the next) | `PropConTeam.v` C74, `PropConParallel.v` C75 |
| `Basic.v` | user entries read from a stream, changed, compared, replaced and shown | `example/basic.cpp` 40-155, `flyweight.hpp` 232-233, 444-459 | (in the next) | `PropBasic.v` C76 |
| `Verbose.v` | a factory around any other that says what it inserts, finds and erases; words of a text collected with it | `example/custom_factory.cpp` 36-74, 95-122 | `VerboseProofs.v` | `PropVerbose.v` C77 |
| `SerText.v` | texts saved as archives of vectors of flyweights and loaded from them, as asked for on the standard input | `example/serialization.cpp` 31-131, `H/serialize.hpp` 43-91, `H/detail/serialization_helper.hpp` 44-90 | (in the next) | `PropSerText.v` C78 |
| `Perf.v` | a vector of the tokens of a text filled, copied, searched and read, with strings or flyweights | `example/perf.cpp` 163-312 | (in the next) | `PropPerf.v` C79 |
| `Alloc.v` | the counting allocator: allocate, deallocate, max_size, the report of the memory | `example/perf.cpp` 45-93, 235-240 | (in the next) | `PropAlloc.v` C80 |

`Prelude.v` has lemmas on finite maps, `Instances.v` the configuration used in
examples.

## How each property is proved

* **C01-C03, C08-C10** - invariant of `Core.v` by induction over the schedule;
  C01 against an outside observer who sees only calls and completions
  (`CoreTrace.v`).
* **C04, C17, C22** - `ref` is the number of handles, `del_ref` is [ref > 0]
  plus pending erasers; unreferenced entries are pinned or pending; a creation
  stamp makes containment acyclic, hence nothing is left when no object is.
* **C05, C25** - the same machine with `trk = false`, `lck = false`.
* **C06, C07, C24** - construction events; complete outcome of an
  uninterrupted creation (`CoreSolo.v`).
* **C11, C47** - generic in the user's `==`, `<`, `<<`, `>>`.
* **C12-C14, C50** - rules for programs with throw points; all operation
  sequences.
* **C15, C16, C59** - factory laws under hypotheses on Hash/Pred or Compare, and
  witnesses that they are needed.
* **C18, C19** - well-founded induction over keys; C19 by a witness and general
  theorems about re-entering constructors.
* **C20, C21, C23, C49** - no `Undef`; owner invariant; measure for solo runs.
* **C26** - explicit schedules.
* **C27, C28, C30-C32** - invariant of `Concurrent.v`; a pass of the collector
  erases what is unreferenced from its start to its end.
* **C29** - finite control, measure after stop is set, fair executions.
* **C33-C37** - simulation of the archive by the list of saved keys; C36 for
  arbitrary input. **C38** - witness, and two conditions under which it holds.
* **C39, C40, C51** - invariant over all initialization orders; witnesses for
  the negative parts. **C41** - witnesses, and race freedom after init().
* **C42** - history of labels determines the live values; witnesses.
* **C43, C44** - `bind` against a description that does not mention order.
* **C45, C46** - overload resolution; the winner is found in general.
* **C52** - deduction of the template patterns; **C56** - the best candidate is
  found in general, then induction over the nesting of values.
* **C53** - stack invariant; well-founded induction over keys for progress and
  termination; a cycle is followed to the deadlock.
* **C54** - evaluation of lambda expressions against an inductive description
  of replacement.
* **C55** - invariant relating both sets of counters to what threads hold.
* **C57, C58** - invariant: whatever was done with an entry is known to the counter, to
  the mutex, or to a flyweight or thread that still counts.
* **C60** - the same over the invariant of `Core.v`; what is known of an entry
  reaches the flyweights inside values through those that hold them.  The sets
  of events are shown to stay within the transitive closure of a graph that is
  defined without them.
* **C63** - the same over the invariant of `Concurrent.v`, with the history of each
  counter: a zero that is not current has been replaced by a write which whoever
  visits the element next knows of.
  As for C60 the sets of events stay within a graph defined without them; the
  values of the counters are those of the log, and every load that coherence
  allows in the graph is a step of the machine.
* **C61, C62** - invariant of `Core.v`; induction along the parts of a value,
  which are older than it.  C62 is stated with the trees a user sees.
* **C64** - simulation: each step of the program on the machine is a step with plain
  values or none; the invariant of `Core.v` and C62 carry its objects along.
* **C65** - weakest preconditions with plain values, then C64.
* **C72** - a simulation between the machine of `Concurrent.v` and plain values: an
  entry that an object refers to has a positive count in every state, so neither
  other threads nor the collector change what it shows.  For completion, other
  threads first let go of the elements they occupy.
* **C73** - kids are older than what holds them, so the youngest entry that nothing
  holds has count zero at the beginning of a pass, and the pass erases it.
* **C74** - C72's simulation holds for each thread at once, as the objects of the
  others are among those it does not use; where all threads are done, what each
  leaves is put together and divided anew for the next team.
* **C75** - the stages are those of C69, whose programs with plain values are the
  same; C73 and C72 give what the collector leaves.
* **C76** - the vector is a list of users with their objects and values, which is
  exactly what the program has beside a few locals; the program with strings is
  total as each user read takes characters, and C64 carries it over.
* **C77** - the factory with messages meets the specification of factories, with
  an invariant that has the story of each key; so all theorems for factories hold
  of it, and each reachable state has the stories.  What a call of a program alone
  says follows from the stories before and after it, which are determined by the
  values of the objects (C64), and from the number of searches it makes.
* **C78** - the program with plain values, by weakest preconditions, writes what
  the same functions on strings write; for these, by induction, loading undoes
  saving and the archive has each token once.  C64 carries this to flyweights.
* **C79** - as C78; `C79_memory` is about the program up to the report of the
  memory (`measure`), before its objects are destroyed, and uses `C64_minimal`;
  the sum that is computed is known in closed form modulo 2^64
  except for the number of equal elements found, which has bounds.
* **C81** - C64: the objects of the machine denote the values of the plain program,
  and with tracking an entry is stored exactly if it is a part of one of these.
  With teams of threads, the same from C68 (and C74 for C82).
* **C82** - the same with C72 and C73: the collector's passes leave the objects and
  what they denote as they are.
* **C80** - induction over the calls: the count is the sum of what is in use, taken
  from the calls alone and without overflow, modulo 2^64.
* **C70** - the simulation of C64, and that an entry that some object refers to is
  neither erased nor made anew (C01, C03).  For the number of constructions, an
  invariant over the log: each value constructed so far is held by the program.
* **C71** - a program logic in which every step is checked to lose no value, then
  C64 and C70.
* **C68** - the simulation of C64 for each thread; what one program does is an
  action of the environment for the others, since it writes only to its own
  objects.  When threads are joined, their memories are put together.
* **C69** - words are maximal runs of letters and sorted lists of them are unique;
  no boundary between chunks is within a word; weakest preconditions for each
  thread, then C68 and C64.
* **C67** - weakest preconditions with plain values, then C64 and C66; the number
  of entries by a bijection with the different values.
* **C66** - the reader is characterized by what can be written; induction over the
  text written.
* **C48** - policy laws and the invariant of `Core.v`.

## Where the code does not do what one might expect

* C19: a constructor that creates a flyweight of its own key and then throws
  leads to an entry being erased twice (`flyweight_core.hpp` 84-118).
* C38: `serialize.hpp` 90 uses an index read before nested loads.
* C45: without rvalue references rvalues arrive as const lvalues
  (`C45_category_refuted`).
* C46: constructing from an object of a class derived from flyweight does not
  copy the handle (`C46_derived_refuted`); assignment does.
* C52: `serialize.hpp` 32-71 names three policy arguments where flyweight has
  five; types with more cannot be serialized (`C52_serialization_refuted`).
* C53: constructors run inside a visitation of the concurrent container; memoizing
  constructors as in `example/fibonacci.cpp` can deadlock with concurrent_factory
  if the container locks more than single elements (`C53_group_refuted`).
* C54: set_factory and concurrent_factory do not work for value types that have
  an MPL placeholder in them (`C54_placeholder_value_refuted`).
* C55: with concurrent_factory, no_locking and refcounted (the default) tracking,
  `del_ref` (`refcounted.hpp` 105) is written without synchronization.  The
  documentation recommends no_tracking in this case but does not require it.
* C79: `example/perf.cpp` (219) divides by zero if the file is empty
  (`C79_empty_refuted`).
* C80: `max_size` of the allocator of `example/perf.cpp` (80) is too large for
  elements of two bytes or more: the number of bytes overflows and the array has
  less room than asked for (`C80_room_refuted`).
* C66: `scan_html` of `example/html.cpp` (203) dereferences the end iterator if
  the text ends in an odd number of '<' (`C66_past_end`); a '<' that starts no tag
  is lost (`C66_less_refuted`); text after a declaration that was closed is read
  as part of it once written (`C66_declaration_refuted`); what closes a tag with a
  quote in its name may not be read as a closing tag (`C66_quote_refuted`).
* C56: two objects of a class derived from a flyweight type cannot be compared.
* C43: `flyweight.hpp` does not itself reject an argument repeating a category.
* C41, C26, C40, C51: limits stated in the documentation, with witnesses.
* `flyweight_core.hpp` 93 (`fac().erase(h)`) is ill-formed if instantiated; it
  is compiled only before C++11.  Not modelled.

## Simplifications

* `Core.v`: constructing a value does not change the flyweights in the entry;
  with an extractor all contained flyweights are in the key.  Atomic counters
  are sequentially consistent.
* `HashedFactory.v`: hash values are not cached. `SetFactory.v`: rebalancing is
  an arbitrary function that keeps the order.
* `Lifetime.v`: one thread; one throw point per container lookup; a throwing
  extractor is merged with the key constructor.
* `Recursive.v`: one thread, simple_locking is then invisible.
* `Concurrent.v`: the container is taken at its documentation, with exclusive
  access per element only; the intermediate temporary entry is skipped;
  addresses are never reused, so that every late access is seen; conflicting
  calls on one object wait; with an extractor, equivalent keys hold the same
  flyweights.
* `Shutdown.v`: a traversal is a sequence of accesses.
* `Mutex.v`, `Shutdown.v`: mutex and condition variable primitives at their
  specification.
* `Serialize.v`: writing the key and pushing it in the helper is one step;
  copies made by vector reallocation in the load helper are not seen; keys hold
  no other flyweight types.  `SerRec.v`: one thread, flyweights are identified
  with the trees they denote.
* `Statics.v`: holder constructors do not throw. `StaticsRace.v`: sequentially
  consistent interleavings (a race is two enabled conflicting accesses).
* `Modules.v`: one class, one thread, refcounted, value = key, addresses never
  reused; intermodule_singleton at its documentation.
* `Config.v`: Boost.Parameter at its documentation; `strict` covers both
  treatments of left-over arguments.
* `Forward.v`: the rules of overload resolution are written down for the
  parameters that occur; no volatile, braced lists or types that are not
  classes.
* `Operators.v`: before C++20; operands are const lvalues; user operators are
  not templates.
* `Nested.v`: rehashing is one of the collisions; values are read when visited;
  no counters, the collector may take whatever is not visited; no key extractor.
* `Tracked.v`: one key; one copy of the factory's handle per access to an entry
  is not seen; after a race the machine goes on as if the counter were atomic.
* `CoreHb.v`: events observe the steps of `Core.v`; a search may read all keys;
  erasing an entry and a constructor are one event each; as `Hb.v` otherwise.
* `Hb.v`: one key (any number in `CoreHb.v`); operations on the counter take effect one after the other (they
  are read-modify-writes); the program passes flyweights between threads by means
  of its own (`LSync`).
* `ConHb.v`: events observe the steps of `Concurrent.v`; the container has no
  races of its own, as documented, and visits of an element exclude each other
  (shared access by searches is not modelled); get() through several levels is
  one step (`CWalk`); a constructor that throws leaves the key as it was.
* `Chb.v`: one key (any number in `ConHb.v`); exclusive access to the element while it is visited, as
  `Concurrent.v`; the counter is the only atomic.
* `Client.v`: walking down a value through several get() is one step; the program
  does not use flyweights whose values cannot be constructed; it is a tree of
  calls, its other state is not seen.
* `Composite.v`: characters are bytes; boost::tokenizer at its documentation;
  output and copies of strings do not throw separately; the copies of a vector
  made for an argument are those `Core.v` makes.
* `Html.v`: characters are bytes, std::tolower in the "C" locale; flyweights are
  their values.
* `ConClient.v`: as `Client.v`, without copies of flyweights from within values
  (`OInner`), which `Concurrent.v` does not have.
* `KeyValue.v`: a texture is its file name; std::rand is any sequence of numbers and
  both loops have any length.  Output is not modelled apart from the number of
  flyweights, loading and copying are the events `EvBuild` of the log.
* `Team.v`: what the threads of a process write outside of flyweights is not
  modelled; a thread that fails stops the process where it is.
* `Parallel.v`: the instantiations with regular_flyweight (E/ 159-160); that with
  std::string does not use the library, that with concurrent_flyweight (E/ 161-162)
  is the same program over `ConTeam.v`.  Counting words in threads (E/ 86-94) is a
  function, as the threads share nothing then.  Starting a thread does not throw.
* `Basic.v`: std::istringstream is the rest of its text, eofbit and failbit;
  characters are bytes and spaces those of the "C" locale; integers have 32 bits.
  `full_name` (E/ 93-110) is not called and is not modelled.  Strings and the
  stream do not throw.  The predicate of std::replace_if is copied any number of
  times before the loop.
* `Verbose.v`: the messages are kept in the factory; they are written without
  failure.  A message about an element that is found has the key with which it was
  inserted, which is equivalent to the one that is looked up (the code writes the
  latter; for words they are equal).  The store below is any factory that meets
  the specification (the code has std::set).
* `SerText.v`: numbers and strings are written to the archive by any encoders and
  read by partial decoders (Boost.Serialization is not in /repo), without header,
  versions and class information; C78_round and C78_text assume that what is
  written can be read.  Writing to files does not fail once they are open.  The
  search of the save helper by the address of the value is operator== with each
  element of its table.  What is written to the standard output is left out.
* `Perf.v`: std::size_t has 64 bits.  The times and the memory that are written
  are left out; the options 2 to 5 are the
  same program, for any factory and with or without tracking.
* `Alloc.v`: the allocator by itself: which calls the containers make is not
  derived, they are any that meet the requirements on allocators.
* `HtmlProg.v`: the three flyweight classes are one, with values that are never
  equal across them; reading and writing files does not throw; copies of
  temporaries that may be elided are; an assignment from a flyweight in a value
  goes through a copy.
* `Placeholder.v`: MPL at its documentation; no mpl::_, bind or protect;
  rebinding of allocators is not seen.

## Trusted base

* The kernel of Coq 8.16.1, and `vm_compute` for examples and witnesses.
* Libraries: std++ (proved lemmas) and the standard library.
* Axioms: none.  `Print Assumptions` says "Closed under the global context"
  under every property theorem.  The checker run on whole libraries also lists
  seven names from `Coq.ssr.ssrunder` (`Under_rel`, ...), sealed definitions of
  the standard distribution that come with std++; no theorem here depends on
  them.
* External components at their documented contract: std::set and
  multi_index_container nodes (unique insertion, stable addresses, unlinked
  before destruction), mutexes, condition variables, atomic counters,
  boost::concurrent_node_set, archives and `get_helper` (one helper per archive
  and type), function-local statics, intermodule_singleton, Boost.Parameter, mpl::apply
  and mpl::lambda.
* Not modelled: weak memory other than `Hb.v`, `CoreHb.v`, `Chb.v` and `ConHb.v`, the internals of those components, preprocessor
  branches for old compilers other than the forwarding macros, class names for
  serialization, build files, documentation.

## Testing the theorems

`seeded/LOG.jsonl` records edits of the model in a scratch copy, each the kind
of change a bug would make, with the theorems that no longer go through.
