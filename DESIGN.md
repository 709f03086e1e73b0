# Formal model of goldsborough/lru-cache

Header-only C++14 library: `LRU::Cache`, `LRU::TimedCache`, their iterators,
statistics, callbacks and `LRU::wrap`. Everything is in Rocq/Coq 8.16.1 under
`rocq/theories`; properties are listed in `properties.jsonl` (C01 ...), their
status in `MANIFEST.json`.

## Trusted base

* Coq's kernel (and the OCaml runtime it runs on).
* The axioms printed by `Print Assumptions` under each theorem (see "Axioms").
* That `Model.v` transcribes `/repo/include/lru/**` faithfully. Each definition
  cites the file and lines it transcribes and says where it simplifies.
* The meaning given to the C++ standard library parts used (`std::list`,
  `std::unordered_map`, `std::vector` of callbacks, `std::shared_ptr`,
  `std::chrono`), see below.

## Model

* `Monad.v`: outcomes of C++ code: value, exception, undefined behaviour (with a
  reason), `std::terminate`.
* `Types.v`: memory. A cache object points to a *region* holding the internals
  of its `_map` and `_order`; node pointers and list iterators are
  (region, node number), so dangling and foreign iterators are detectable and
  `swap`/move keep iterators attached to elements. The `env` record holds what
  the library does not decide: KeyEqual, `operator==` of keys and values, hash
  map placement and rehash, the clock, `duration_cast`, junk in uninitialised
  memory, failing allocations, the effect of user callbacks. All theorems
  quantify over it.
* `Model.v`: every function of `BaseCache`, `Cache`, `TimedCache`,
  `LastAccessed`, `StatisticsMutator`, `Statistics`, `CallbackManager` and the
  iterators, one definition each.
* `Api.v`: the public calls (`op`), one call (`exec`) and histories (`run`).
* `Hash.v`: `internal/hash.hpp`, the hash of tuples, modulo 2^64. The element
  hashes are arbitrary functions.
* `HitRate.v`: `hit_rate`, `miss_rate` of `statistics.hpp`, with Flocq's binary64.
* `Optional.v`: `internal/optional.hpp`, a unique_ptr on a heap. (The iterators of
  `Model.v` hold a plain optional value; C70 says that this is what an Optional is.)
* `IterObj.v`: iterators as variables of a program: construction, copy, move,
  conversion, assignment, swap, ++ and --, access, comparison, erase (base-iterator,
  base-ordered-iterator, base-unordered-iterator). The functions on one iterator are
  those of `Model.v`.
* `EntryRefs.v`: the entries that iterators keep, as objects with a lifetime; programs
  that hold references to them or copies of them, and end the lifetimes of iterators.
* `StatObj.v`: statistics objects with their lifetimes; programs that hold pointers to
  them, references to them and references to the counts of a key.
* `FunObj.v`: hash and equality objects that differ between caches of one type (with
  state, or function pointers, possibly null), `hash_function()`, `key_equal()`, and
  what constructors, copies, moves and swaps do to them. Keys carry the number of the
  objects they are compared with. Comparing caches with different objects is undefined.
  A null pointer is called by every call that searches the hash map.
* `Refs.v`: calls whose key and value arguments refer to elements of caches
  (references are read where the code reads them), caches used as ranges, and the
  calls that overload resolution picks for caches that are not const (below).
* `Wrap.v`: `wrap.hpp`. Closures with captured functions and cache arguments
  (values, references, temporaries with their lifetimes), one static cache per
  instantiation of `operator()`, functions that call wrapped functions.
* `Memo.v`: client code, the memoised functions of `examples/` and of the README, for
  any recursive function; the order in which the operands of `+` are evaluated is a
  parameter.
* `Searches.v`: the functions of `Model.v` that search the hash table or compare with
  the last accessed key, once more, with these calls counted and able to throw.
* `IterSearches.v`: the functions of iterators that search the hash table, once more, with
  the searches counted and able to throw.
* `MoreSearches.v`: insertion of ranges, constructors, assignments, copies, comparison and the calls
  of timed caches, once more, with the searches counted and able to throw. Whether
  `std::unordered_map` keeps hash values (and so does not hash when copied) is a parameter.
* `CbRefs.v`: client code that lists the callbacks of a cache, keeps references to the containers
  and calls the functions in them.
* `LastObj.v`: LastAccessed objects in the hands of a client, with the keys and informations they
  refer to and their lifetimes (internal/last-accessed.hpp; in `Model.v` the one of a cache is an
  optional element).
* `Moves.v`: the functions that store keys and values, once more, with the copy and move
  constructions and assignments of keys and values counted.

### What is taken as given

* The behaviour of `std::list`, `std::unordered_map`, `std::vector`,
  `std::shared_ptr` and `std::chrono` as transcribed in `Types.v` and the
  primitive operations of `Model.v`: node-based containers with stable nodes,
  `splice` keeping iterators, `swap` and move exchanging the nodes, rehash
  invalidating map iterators but not nodes. Using an invalid iterator is
  undefined behaviour in the model even where an implementation might tolerate it.
* KeyEqual is an equivalence and hash values respect it (`good`, `fair`). Without
  this `std::unordered_map` itself promises nothing.
* Allocation and copying can fail at the steps marked `fallible`
  (C53-C55); the other theorems assume that nothing fails (`good`).
  `unordered_map::emplace` has the strong guarantee. An assignment of a value that
  throws leaves the old value.
* A callback is recorded in the log of the world when it is called; C54 and C55
  let it throw, or make calls itself.
* The clock is an arbitrary sequence of readings, one per call of `now()`;
  theorems that need a monotone clock say so.
* Functions of the standard library that take a reference read it before they
  free anything it may refer to (`erase(key)`, `emplace`).
* `Optional` is the project's own (optional.hpp:45-204), which is used where the compiler
  has no header `<optional>`. This matters for C70, C71 and C89 to C91 only.
* In `construct_from_tuple` (wrap) copies are elided or unobservable.
* double is binary64, arithmetic rounds to nearest even (C52).

### Not modelled

* Buckets, load factors and hash values of `std::unordered_map`: a lookup finds
  the node whose key is KeyEqual to the argument; iteration order and rehashing
  are oracles.
* Templates, `const` overloads (same bodies). Overload resolution is done by hand:
  `Copy` is `auto e = d` (or a const d), `CopyAssign` is `c = d` for a const d,
  `MoveAssign` is `c = std::move(d)`. For a d that is not const, `Cache e(d)` is the
  constructor from a range (`PCopyDirect`) and `c = d` the assignment from an rvalue
  range (`PAssign`), because a `Cache&` binds to `Range&&` better than to
  `const Cache&` (cache.hpp:127-132; base-cache.hpp:63, 554-558). `swap(c, d)` on two
  `LRU::Cache` is `std::swap` (`PSwap`).
* How often a hash function is called when a hash table grows, and by `std::swap` and `wrap`; an
  `operator==` of keys or values that throws.
* Copies and moves made by `wrap`, by copying a cache and by calls that read (`lookup` returns a
  reference; what the caller does with it is not counted).
* What is left of a range when an exception ends `insert(Range&&)`.
* `Statistics::reset_all` (does not compile when instantiated).
* Threads (the library has no synchronisation and documents none).
* Memory exhaustion other than at the marked fallible steps.

## Properties: how each is modelled and proved

Definitions used in the statements are in `Spec*.v`. They use the calls of
`Api.v`, their outcomes, and (for callbacks) the log; not the internals of the
model. "Reachable" means: after some history of copy-free calls from the empty world and
assignments to values of elements through pointers, references or iterators. A property that is false of the code has theorems `..._refuted` (a witness
run, or a statement for all runs of some kind) and `..._partial` (the largest part
found to be true); it has status "partial" and a note that begins with REFUTED.

Proof structure:

* `Ref.v` is a pointer-free machine (caches are sequences of entries). `SimBase.v`
  to `SimExec.v` prove that every copy-free call of the model behaves like it
  (forward simulation with the representation invariant `rel`); `RefEval.v`,
  `SimRun.v`, `Flat.v`, `Global.v` evaluate it without monads.
* `Effects.v` reads off the model, for all worlds, which parts a call can change.
* `NodeTrack.v`: Hoare logic for node identity (iterators, references).
* `Copy*.v`: relational logic for two worlds (frame, blindness to the stale list
  iterators of a copy).
* `Sturdy*.v`, `Fault*.v`: a weaker invariant that survives allocation failures
  and callbacks, with its own Hoare logic.
* `Any*.v`: an invariant that all calls keep, copies included, as long as none is
  undefined behaviour.
* `Tally*.v`: which statistics object each cache feeds and what each has seen, in
  histories with copies, by following the calls through the model (no invariant on
  the contents is needed).
* `Wrap*.v`: invariants of wrapped functions by induction on the recursion depth.
* `Props1.v` to `Props33.v`: the property theorems, their `Print Assumptions`, and
  beside each an `Example` that meets the hypotheses.

| Id | How | Where |
|----|-----|-------|
| C01 | Separate textbook LRU machine in `Spec.v`; equal outputs for every history. | `LruProofs.v`, Props2 |
| C02, C03 | Representation invariant; stated through size, capacity, traversals. | `CallProofs.v`, Props1 |
| C04 | Histories end in undefined behaviour or termination in the listed cases only; those cases refute the full statement. | `Safe.v`, Props3 |
| C05 | Induction on histories with a "last write" function. | `LruTrack.v`, Props2 |
| C06-C10, C12, C13, C15-C18, C22, C24 | One call from any reachable world; contents before and after observed by ordered iteration. | `CallProofs.v`, Props1, Props2 |
| C11 | Induction on histories, counting distinct keys. | `LruMore.v`, Props2 |
| C14 | Two histories related through the textbook machine. | Props2 |
| C19-C21 | Induction on the range. | `LruMore.v`, Props2 |
| C23, C31 | No cache, statistics object or log entry changes. | `Effects.v`, Props2 |
| C25, C65 | Node identity: an element keeps its nodes while present. | `NodeTrack.v`, `IterProofs.v`, Props7 |
| C26, C27 | Iterator functions evaluated in any reachable world. | `IterProofs.v`, Props7 |
| C28-C30, C63 | A ledger computed from calls and outcomes versus the statistics objects. Theorems named `..._any`: the same where caches may be copied and allocations may fail, with the tally of `SpecTally.v`. | `StatProofs.v`, `StatMore.v`, Props4, `Tally*.v`, Props29 |
| C32 | Log after one access. | `TimedStats.v`, Props4 |
| C33-C35 | Two caches in any reachable world. The capacity of a moved-from cache is uninitialised: C34 refuted. | `PairProofs.v`, Props6 |
| C36 | Copy from any reachable world. | `CopyEval.v`, `CopyProofs.v`, Props8 |
| C37 | False: list iterators and last-accessed pointer of a copy refer to the original. Refuted, also for all copies of non-empty caches; partial for careful use. | `Copy*.v`, Props8 |
| C38, C39, C59, C60 | One access from any reachable timed world; insertion times from the history. | `TimedTrack.v`, `TimedProofs.v`, Props5 |
| C40 | False: insertion_time is never renewed. Partial for absent keys. | Props5 |
| C41, C42 | False when an access reorders elements. Partial: prefix of expired elements; exact when the order of use is the order of insertion. | `TimedOrder.v`, `TimedErase.v`, Props5 |
| C43, C44 | False for an expired last-accessed key. | Props4, Props5 |
| C45 | False for ordered iterators. | Props5 |
| C46 | False: front and back are noexcept. | Props2 |
| C47-C50, C64 | Invariants of the static caches and closures; refuted by sharing per type and by dangling references. | `Wrap*.v`, Props10 |
| C51 | Arithmetic modulo 2^64, induction on the tuple. | `HashProofs.v`, Props9 |
| C52 | Flocq; the counters of reachable statistics objects. | `RateProofs.v`, `RateRun.v`, `RateMore.v`, Props9 |
| C53 | Refuted: a failed list allocation leaves a map node without list node. Partial: what exactly a failure leaves; everything is defined while the sizes agree. | `Sturdy*.v`, `FaultProofs.v`, Props11 |
| C54 | An access is: count, call the callbacks, reorder. | `FaultCb.v`, Props11 |
| C55 | Refuted; partial for gentle callbacks, nested to any depth. | `SturdyCb.v`, Props11 |
| C67-C69 | For all worlds: the parts of a cache object no other call writes; induction on histories. | `Settings.v`, Props12 |
| C70, C71 | A program over Optionals versus one over optional values: ownership invariant, counting. C71 refuted: a noexcept constructor allocates. | `OptionalProofs.v`, Props13 |
| C72 | Programs with iterator variables versus cursors (a key, or the end): simulation, one case per step. | `CursorProofs.v`, `CursorRun.v`, Props14 |
| C73 | Per call: a reference is only read while its element is there. | `RefsProofs.v`, Props15 |
| C74 | The loop over the iterators of one cache framed against the insertions into another one. | `FillFrame.v`, `FillProofs.v`, Props15 |
| C75, C76 | False for a cache that is not const (overload resolution). Partial: the effect of what is called instead. | `FillMore.v`, `FillRes.v`, Props15 |
| C77 | False for a vector that is not const. Partial: induction on the vector. | `VecProofs.v`, Props16 |
| C78 | std::swap reads an uninitialised variable. Partial: four steps on the reference machine. | `SwapProofs.v`, Props16 |
| C79 | Induction along the hash order: an insertion that finds its key keeps that order. False of ordered iterators. | `SelfFill.v`, Props16 |
| C80, C81 | Mutual induction on the meaning of the function; each call leaves correct values. C81 false: an element may expire between contains and lookup. | `MemoCalls.v`, `MemoProofs.v`, Props17 |
| C82 | The recursion on the keys in the cache: which keys are left, how many calls found theirs. False for capacity 2 and the left operand first. | `FibProofs.v`, Props17 |
| C83 | The instrumented functions do what those of the model do (`follows`); cost of each by cases (`spends`); the reference machine says when the key is the last accessed one. | `SearchProofs.v`, `SearchMain.v`, `SearchCost.v`, Props18 |
| C84, C85 | `follows` with a predicate on the worlds in which a search can throw. C84 false of an insertion that evicts and of the erasure of the last accessed key; C85 false because of a noexcept. | the same |
| C86 | False of emplace of a present key and of rvalue ranges. Partial: the exact number of copies and moves of every call that stores, by induction on the range along the reference machine. | `MoveProofs.v`, Props19 |
| C87 | False of a TimedCache, where key() searches twice. Partial: the exact number of searches of every step with iterators, by evaluation in the states tracked for C72, and that a used element is not searched for again. | `IterSearchProofs.v`, `IterSearchMain.v`, Props20 |
| C88 | False: operator*, has_expired and is_valid are noexcept. Partial: exactly which searches end the program; the exceptions of the others reach the caller and change nothing. | `IterSearchMain.v`, Props20 |
| C89-C91 | C72's programs with entry objects: invariant which iterator owns which object and which element it refers to; node identity (C65) for the elements. C89 and C91 false: an iterator destroys its entry when it moves on or ends, and equal iterators have different ones. Partial: as long as the owner is left alone. | `EntryRefsProofs.v`, Props21 |
| C92 | The list node of the evicted element is the list node of the inserted one, the map node is not. False for an iterator that was dereferenced (it keeps the reference to the evicted element). Partial: what each kind of iterator gives. | `EvictIter.v`, Props22 |
| C93 | Programs with pointers, references and key references to statistics objects, over the reference machine: invariant that ties the client's own record (`SpecStatObj.v`) to the objects; an object lives as long as a pointer variable or a living cache has it. | `StatObj.v`, `StatObjProofs.v`, Props23 |
| C94 | Every step on caches with function objects is a call of `Model.v` on keys tagged with the objects' number; invariant: all keys of a cache carry its number, and both copies of the objects agree; then the textbook refinement (C01) with the tags removed. | `FunObj.v`, `FunObjProofs.v`, `FunObjRuns.v`, Props24 |
| C95 | REFUTED twice (moved-from caches with null pointers; `Cache e(d)` from a d that is not const); the rest proved from C33, C34, C36 with tagged keys. | `FunObjRuns.v`, Props24 |
| C96 | As C83; a range by induction along the textbook machine (`range_searches`), the loop of clear_expired by induction on its bound. | `MoreSearchProofs.v`, `MoreSearchCost.v`, Props25 |
| C97 | REFUTED: has_expired, operator==, copy assignment and part of the copy constructor are noexcept. Partial: as C84, for each call what a failing search leaves. | `MoreSearchMain.v`, `MoreSearchCost.v`, Props25 |
| C98 | The callbacks of other caches are kept (C69); what each registering, clearing, copying or moving call does to its own, by evaluation; induction on the program. | `CbRefProofs.v`, Props26 |
| C99 | A weaker invariant than C01's, kept by every call, copies included: the list and the map of a store name the same nodes and keys, and a node's stored list iterator is into its own list or into an older store. Traversals do not read these iterators, so they run as in a store whose iterators are right. | `AnyWorld.v` to `AnyAll.v`, `AnySee.v`, `AnyView.v`, Props27 |
| C100, C101 | Evaluation of the calls under that invariant. | `AnyInsert.v`, `AnyPut.v`, `AnyMore.v`, Props27 |
| C102 | Invariant: the members of every object are what the client's history gives (`SpecLast.v`); one case per step, induction on the program. | `LastProofs.v`, `LastMore.v`, Props28 |
| C103 | REFUTED: comparison with an end iterator dereferences it, and the comparisons are noexcept. Partial: from C102. | `LastMore.v`, Props28 |
| C104 | Evaluation of the calls under the invariant of C99; ranges by induction. | `AnyFill.v`, Props30 |
| C105 | Partial correctness under the invariant of C99: every list iterator that refers to the containers of its own cache refers to the right node. | `AnyHit.v`, `AnyErase.v`, Props31 |
| C106 | Invariant `owned` (`AnyOwn.v`): the nodes with the inserted keys (all nodes, after clear() or construction) have list iterators into the containers of their own cache; partial correctness from C105. | `SpecOwn.v`, `AnyOwn.v`, `AnyOwnCalls.v`, Props32 |
| C107 | Evaluation of the iterators under the invariant of C99, then the erasure lemmas of C105. | `AnyPlace.v`, Props33 |
| C56, C66 | False on rehash; false because ordered iterators keep the address of the cache. Partials. | `IterProofs.v`, Props7 |
| C57, C61, C62 | Two runs related through the reference machine. | `Frame.v`, `TimedErase.v`, Props3, Props5 |
| C58 | Keys of the textbook machine under a KeyEqual equivalence. | `LruTrack.v`, Props2 |

## Axioms

None of our own. `Print Assumptions` reports "Closed under the global context" for
every property theorem except those of C52, which use Coq's real numbers through
Flocq: `ClassicalDedekindReals.sig_not_dec`, `ClassicalDedekindReals.sig_forall_dec`,
`FunctionalExtensionality.functional_extensionality_dep` and
`Classical_Prop.classic`, all from the standard library. (The opaque definitions
`Rdefinitions.RbaseSymbolsImpl.*`, `RinvImpl.*` and `ssrunder.Under_rel.*`, which a
listing of the loaded libraries also shows, are sealed standard-library modules with
implementations.)

## Tests of the theorems

`UnitTests.v` and `LastTests.v` run the project's own unit tests (`/repo/tests`) in the model; all of them
come out as expected there, except that two tests of `wrap` have undefined behaviour
(they pass a temporary that is gone when the cache is made) and one of iterators has it
in the standard's terms (it dereferences `unordered_end()`). These are tests of the model,
not proofs.

`seeded/LOG.jsonl` records edits of the model that imitate bugs, the claims they
break, and the theorems that failed on the edited model.
