{"id": "C01", "title": "A Cache is a textbook LRU cache", "statement": "Every history of calls on an LRU::Cache (insert, emplace, find, lookup, operator[] read and write, contains, erase, clear, shrink, capacity, size, front, back, ordered iteration ...) returns exactly what the textbook LRU cache returns: a bounded sequence of key/value pairs ordered by most recent use, whose last element is dropped when a new key does not fit.", "quantifier": "all key/value types, all KeyEqual equivalences, all capacities, all finite histories of calls, whatever the order and rehashing of the hash map", "why_tests_cant": "A test checks finitely many short histories; the claim is about every history.", "anchors": ["include/lru/internal/base-cache.hpp: insert, lookup, contains, erase, shrink, capacity, _move_to_front, _evict_lru_for, _last_accessed", "include/lru/cache.hpp: find, front, back"]}
{"id": "C02", "title": "Size never exceeds capacity", "statement": "At every point of every history, size() of a cache is at most capacity().", "quantifier": "all caches alive after any copy-free history, timed or not", "why_tests_cant": "Needs an invariant over all histories, including ones with resizes, range assignment, swaps and moves.", "anchors": ["include/lru/internal/base-cache.hpp: insert, _is_too_full, _evict_lru_for, capacity, _clear_and_increase_capacity, swap"]}
{"id": "C03", "title": "Each key is stored once", "statement": "Iterating a cache, in any of the three ways, never shows two elements whose keys are equal according to KeyEqual, and size() is the number of elements shown.", "quantifier": "all caches alive after any copy-free history", "why_tests_cant": "Needs an invariant over all histories.", "anchors": ["include/lru/internal/base-cache.hpp: _map, _order, insert, emplace, size"]}
{"id": "C04", "title": "No undefined behaviour without copies", "statement": "A history of well-formed calls that never copies a cache never reaches undefined behaviour (dangling or foreign iterators, past-the-end dereference, failed asserts, empty-container access, endless loops) and never calls std::terminate, except for front()/back() of an empty cache.", "quantifier": "all copy-free histories, all environments whose allocations succeed and whose callbacks do not touch the caches", "why_tests_cant": "Undefined behaviour need not show in a test run; absence is a statement about every history.", "anchors": ["include/lru/internal/base-cache.hpp: all of it", "include/lru/cache.hpp: front, back", "include/lru/timed-cache.hpp: all of it"]}
{"id": "C05", "title": "A successful access returns the last value written", "statement": "If lookup/operator[]/find of a key succeeds on a Cache, the value delivered is the one most recently written for that key by insert, emplace, range insert or assignment through operator[]/lookup.", "quantifier": "all keys, all histories of calls on that cache", "why_tests_cant": "Needs tracking of the last write through arbitrarily long histories with evictions in between.", "anchors": ["include/lru/internal/base-cache.hpp: lookup, insert, emplace, _move_to_front, _value_for_last_accessed", "include/lru/cache.hpp: find"]}
{"id": "C06", "title": "Inserting a new key into a full cache evicts exactly the least recently used element", "statement": "When a key not present is inserted (or emplaced) into a cache with size() == capacity() > 0, exactly the least recently used element disappears, all others keep value and relative order, the new element is the most recently used one, and the call reports an insertion.", "quantifier": "all reachable caches, keys and values", "why_tests_cant": "Ranges over all reachable states.", "anchors": ["include/lru/internal/base-cache.hpp: insert, _insert_new_key, _evict_lru_for"]}
{"id": "C07", "title": "Inserting a new key below capacity evicts nothing", "statement": "When a key not present is inserted into a cache with size() < capacity(), every element stays with its value and relative order and the new one is added as most recently used.", "quantifier": "all reachable caches, keys and values", "why_tests_cant": "Ranges over all reachable states.", "anchors": ["include/lru/internal/base-cache.hpp: insert, _insert_new_key"]}
{"id": "C08", "title": "Inserting a present key updates it and makes it most recent", "statement": "insert/emplace of a key already present (in the map sense) changes its value, makes it the most recently used element, changes nothing else, keeps size(), and reports that nothing was inserted.", "quantifier": "all reachable caches, keys and values", "why_tests_cant": "Ranges over all reachable states.", "anchors": ["include/lru/internal/base-cache.hpp: insert, emplace, _move_to_front(MapIterator, value)"]}
{"id": "C09", "title": "A hit makes the key most recent and changes nothing else", "statement": "A successful find/lookup/operator[]/contains moves the element to the most recently used position and leaves all values and the relative order of the other elements unchanged.", "quantifier": "all reachable untimed caches and present keys", "why_tests_cant": "Ranges over all reachable states; the shortcut for the last accessed key makes it depend on history.", "anchors": ["include/lru/cache.hpp: find", "include/lru/internal/base-cache.hpp: lookup, contains, _last_accessed"]}
{"id": "C10", "title": "A miss changes nothing", "statement": "An unsuccessful find/lookup/contains leaves contents, order, size and capacity unchanged; lookup and operator[] throw KeyNotFound and never insert.", "quantifier": "all reachable untimed caches and absent keys", "why_tests_cant": "Ranges over all reachable states.", "anchors": ["include/lru/cache.hpp: find", "include/lru/internal/base-cache.hpp: lookup, contains"]}
{"id": "C11", "title": "An element survives exactly as long as fewer than capacity other keys are used", "statement": "After a key is inserted or hit, and then a history of insertions, emplacements and accesses on the same Cache of capacity n > 0 follows that does not touch the key, the key is still present if and only if fewer than n distinct other keys were inserted or hit since.", "quantifier": "all reachable untimed caches with positive capacity, all histories of insert/emplace/find/lookup/contains", "why_tests_cant": "A counting statement over unbounded histories.", "anchors": ["include/lru/internal/base-cache.hpp: insert, _evict_lru_for", "include/lru/cache.hpp: find"]}
{"id": "C12", "title": "erase(key) removes exactly that key", "statement": "erase(key) returns true iff the key was present; afterwards the key is absent, and every other element keeps value and relative order.", "quantifier": "all reachable caches and keys", "why_tests_cant": "Ranges over all reachable states, with and without the last-accessed shortcut.", "anchors": ["include/lru/internal/base-cache.hpp: erase(const Key&), _erase"]}
{"id": "C13", "title": "Erasing through an iterator is erasing its key", "statement": "erase(iterator), with an iterator obtained from find(), begin()+n or ordered_begin()+n, removes exactly the element it denotes; with an end iterator it throws InvalidIterator and changes nothing.", "quantifier": "all reachable untimed caches, all positions and keys", "why_tests_cant": "Ranges over all reachable states and positions.", "anchors": ["include/lru/internal/base-cache.hpp: erase(UnorderedConstIterator), erase(OrderedConstIterator)"]}
{"id": "C14", "title": "clear empties", "statement": "After clear() the cache is empty, keeps its capacity, and behaves as a freshly constructed one.", "quantifier": "all reachable caches", "why_tests_cant": "'Behaves as' quantifies over all continuations.", "anchors": ["include/lru/internal/base-cache.hpp: clear, LastAccessed::invalidate"]}
{"id": "C15", "title": "shrink(n) keeps the n most recent elements", "statement": "shrink(n) leaves exactly the min(n, size) most recently used elements in the same order and does not change the capacity.", "quantifier": "all reachable caches and all n", "why_tests_cant": "Ranges over all states and n.", "anchors": ["include/lru/internal/base-cache.hpp: shrink, _erase_lru"]}
{"id": "C16", "title": "capacity(n) keeps the n most recent elements and bounds the cache", "statement": "capacity(n) sets the capacity to n and leaves exactly the min(n, size) most recently used elements in the same order.", "quantifier": "all reachable caches and all n", "why_tests_cant": "Ranges over all states and n.", "anchors": ["include/lru/internal/base-cache.hpp: capacity(size_t), _erase_lru"]}
{"id": "C17", "title": "space_left, is_full and is_empty agree with size and capacity", "statement": "space_left() is capacity()-size() and never wraps around; is_full() iff space_left() is 0; is_empty() iff size() is 0.", "quantifier": "all reachable caches with capacity below 2^64", "why_tests_cant": "Unsigned wrap-around would need size > capacity; excluding it needs the invariant.", "anchors": ["include/lru/internal/base-cache.hpp: space_left, is_full, is_empty"]}
{"id": "C18", "title": "A cache of capacity 0 stays empty", "statement": "With capacity 0 every insertion reports false and end(), nothing is ever stored, and no other call misbehaves.", "quantifier": "all histories on a cache whose capacity is 0", "why_tests_cant": "All histories.", "anchors": ["include/lru/internal/base-cache.hpp: insert, emplace"]}
{"id": "C19", "title": "Range insertion is repeated insertion", "statement": "insert(range), insert(begin, end), insert(list) leave the cache as the element-by-element insertions would, and return the number of elements that were newly inserted.", "quantifier": "all reachable caches and all finite ranges (with repetitions, longer than the capacity, ...)", "why_tests_cant": "All ranges and states.", "anchors": ["include/lru/internal/base-cache.hpp: insert(Iterator, Iterator), insert(Range&), insert(Range&&), insert(InitializerList)"]}
{"id": "C20", "title": "Range constructors", "statement": "A cache constructed from a range holds what inserting the range into an empty cache of the documented capacity gives: the given capacity; max(length,128) for iterators and lvalue ranges; the length for initializer lists and rvalue ranges.", "quantifier": "all ranges, capacities and kinds of constructor", "why_tests_cant": "All ranges.", "anchors": ["include/lru/internal/base-cache.hpp: constructors 348-487", "include/lru/cache.hpp: constructors", "include/lru/timed-cache.hpp: constructors"]}
{"id": "C21", "title": "Range assignment replaces the contents", "statement": "Assigning a range or initializer list makes the contents those of inserting it into an empty cache whose capacity is the larger of the old capacity and the length; no element is lost to eviction.", "quantifier": "all reachable caches and all ranges", "why_tests_cant": "All ranges and states.", "anchors": ["include/lru/internal/base-cache.hpp: operator=(Range), _clear_and_increase_capacity"]}
{"id": "C22", "title": "The three traversals agree", "statement": "Iterating from ordered_begin() to ordered_end() shows the elements from least to most recently used; iterating backwards from ordered_end() shows the exact reverse; unordered iteration shows a permutation of them; each shows size() elements.", "quantifier": "all reachable caches", "why_tests_cant": "All reachable states and all hash-map orders.", "anchors": ["include/lru/internal/base-cache.hpp: ordered_begin.., begin..", "include/lru/internal/base-ordered-iterator.hpp: operator++, operator--, operator*", "include/lru/internal/base-unordered-iterator.hpp"]}
{"id": "C23", "title": "Observers have no effect", "statement": "size, capacity, space_left, is_empty, is_full, front, back, ==, has_expired, all_expired, traversals and statistics queries change no cache, no statistics and call no callback.", "quantifier": "all reachable worlds", "why_tests_cant": "All reachable states.", "anchors": ["include/lru/internal/base-cache.hpp: const members", "include/lru/timed-cache.hpp: has_expired, all_expired"]}
{"id": "C24", "title": "emplace behaves as insert", "statement": "emplace(k, v) and insert(k, v) return the same result and leave the cache in the same observable state.", "quantifier": "all reachable caches, keys, values", "why_tests_cant": "All reachable states.", "anchors": ["include/lru/internal/base-cache.hpp: emplace, insert"]}
{"id": "C25", "title": "Ordered iterators follow their element", "statement": "An ordered iterator to an element stays usable, and denotes that element with its current value, across any calls that do not remove that element, even though the element moves in the order.", "quantifier": "all reachable caches, all iterators to a present element, all copy-free histories that keep the element", "why_tests_cant": "All histories between taking and using the iterator.", "anchors": ["include/lru/internal/base-cache.hpp: _move_to_front (splice)", "include/lru/internal/base-ordered-iterator.hpp"]}
{"id": "C26", "title": "Converting and comparing iterators", "statement": "Converting the unordered iterator of an element gives an ordered iterator denoting the same element; an unordered and an ordered iterator compare equal iff they denote the same element or are both end; converting end throws InvalidIteratorConversion.", "quantifier": "all reachable untimed caches, all pairs of iterators into them", "why_tests_cant": "All states and pairs.", "anchors": ["include/lru/internal/base-ordered-iterator.hpp: conversion constructors, operator==(BaseUnorderedIterator)"]}
{"id": "C27", "title": "Checked access through iterators", "statement": "is_valid(it) is true iff it is not the end (and, for timed caches, its element has not expired); entry() of a valid ordered iterator delivers its element, of the end iterator throws InvalidIterator, of an expired one throws KeyExpired.", "quantifier": "all reachable caches, all positions", "why_tests_cant": "All states, clocks and positions.", "anchors": ["include/lru/internal/base-cache.hpp: is_valid, throw_if_invalid", "include/lru/timed-cache.hpp: is_valid, throw_if_invalid", "include/lru/internal/base-ordered-iterator.hpp: entry"]}
{"id": "C28", "title": "Statistics count every access of an untimed cache", "statement": "While a Cache is monitored, total_accesses() grows by exactly one per find/lookup/operator[]/contains and total_hits() by one exactly when the key was present, modulo 2^64; total_misses() is the difference.", "quantifier": "all histories (copies and failing allocations included) without timed caches; and those with timed caches in which all accesses are made by find", "why_tests_cant": "All histories, including the last-accessed shortcut and wrap-around.", "anchors": ["include/lru/internal/base-cache.hpp: _register_hit, _register_miss", "include/lru/internal/statistics-mutator.hpp", "include/lru/statistics.hpp"]}
{"id": "C29", "title": "Per-key statistics are exact", "statement": "For each monitored key the hits and misses reported are those of the accesses naming that key since it was monitored; other keys' accesses do not change them; unmonitored keys raise UnmonitoredKey.", "quantifier": "all histories (copies and failing allocations included) and keys, without timed caches or with all accesses made by find", "why_tests_cant": "All histories.", "anchors": ["include/lru/internal/statistics-mutator.hpp", "include/lru/statistics.hpp: stats_for, monitor, unmonitor, reset_key"]}
{"id": "C30", "title": "A statistics object shared by caches sums their accesses", "statement": "If several caches share one statistics object, its totals are the sums of the accesses of those caches; accesses of other caches do not change it.", "quantifier": "all histories over any number of caches (sharing also by copying), without timed caches or with all accesses made by find", "why_tests_cant": "All interleavings of calls on several caches.", "anchors": ["include/lru/internal/base-cache.hpp: monitor(StatisticsPointer), shared_stats"]}
{"id": "C31", "title": "Modifications are not accesses", "statement": "insert, emplace, erase, clear, shrink, capacity, assignment, swap, move, clear_expired and traversals register no hit or miss and call no callback.", "quantifier": "all reachable worlds", "why_tests_cant": "All states.", "anchors": ["include/lru/internal/base-cache.hpp: insert, emplace, erase, clear, shrink, swap"]}
{"id": "C32", "title": "Callbacks: who, what and in which order", "statement": "A hit calls every hit callback, then every access callback, each once, in registration order, with the key asked for, the value stored before the call, and true; a miss calls the miss callbacks, then the access callbacks with false; nothing else is called. Clearing callbacks stops them.", "quantifier": "all reachable caches, all registered callbacks", "why_tests_cant": "All states and any number of callbacks.", "anchors": ["include/lru/internal/callback-manager.hpp", "include/lru/internal/base-cache.hpp: _register_hit, _register_miss, *_callback"]}
{"id": "C33", "title": "swap exchanges the caches", "statement": "swap exchanges contents, order, capacity (and time to live) of two caches; monitoring and callbacks stay with the object; swapping twice restores everything.", "quantifier": "all pairs of reachable caches of one kind, including a cache with itself", "why_tests_cant": "All pairs of states.", "anchors": ["include/lru/internal/base-cache.hpp: swap", "include/lru/timed-cache.hpp: swap"]}
{"id": "C34", "title": "Moving transfers the contents and leaves a usable cache", "statement": "Move construction and move assignment give the destination the contents, order and capacity of the source without copying; the source is left an empty (or swapped) cache that can be used like any other, with a defined capacity.", "quantifier": "all reachable caches", "why_tests_cant": "All reachable states and continuations.", "anchors": ["include/lru/internal/base-cache.hpp: move constructor, move assignment"]}
{"id": "C35", "title": "Equality means same elements in the same order", "statement": "c == d iff both hold equal keys and values (and, for timed caches, insertion times) in the same order of use; capacities, statistics and callbacks do not matter; == is an equivalence.", "quantifier": "all pairs of reachable caches with operator== of keys and values equivalences and KeyEqual = operator==", "why_tests_cant": "All pairs of states.", "anchors": ["include/lru/internal/base-cache.hpp: operator==, operator!=", "include/lru/internal/information.hpp: operator=="]}
{"id": "C36", "title": "A copy equals its original and can be read", "statement": "Copy construction and copy assignment give a cache equal to the original with the same capacity, traversal results, monitoring and callbacks, and leave the original unchanged.", "quantifier": "all reachable caches", "why_tests_cant": "All reachable states.", "anchors": ["include/lru/internal/base-cache.hpp: copy constructor, copy assignment, _reassign_references"]}
{"id": "C37", "title": "A copy is independent and fully usable", "statement": "Any history of calls on a copy is free of undefined behaviour, behaves as on the original, and never affects the original (nor the other way round).", "quantifier": "all reachable caches, all histories on original and copy", "why_tests_cant": "All histories; aliasing bugs can go unnoticed in tests.", "anchors": ["include/lru/internal/base-cache.hpp: copy constructor, copy assignment, _reassign_references, _last_accessed"]}
{"id": "C38", "title": "A timed cache never serves a stale element", "statement": "A successful find/lookup/operator[]/contains on a TimedCache is only for an element whose age (by the clock reading made during the call, in units of Duration) is at most the time to live.", "quantifier": "all reachable timed caches, all monotone clocks", "why_tests_cant": "All clocks and histories.", "anchors": ["include/lru/timed-cache.hpp: find, _has_expired, _last_accessed_is_ok, _value_for_last_accessed"]}
{"id": "C39", "title": "A timed cache serves every live element", "statement": "An element that has been inserted, not removed or evicted since, and whose age does not exceed the time to live during the call is found by find/lookup/contains.", "quantifier": "all reachable timed caches and clocks", "why_tests_cant": "All clocks and histories.", "anchors": ["include/lru/timed-cache.hpp: find, _has_expired"]}
{"id": "C40", "title": "Re-inserting a key into a timed cache makes it fresh", "statement": "After insert or emplace of a key into a TimedCache (positive capacity), the key can be looked up until the time to live has passed since that call, also when an old element for the key was present.", "quantifier": "all reachable timed caches, keys, clocks", "why_tests_cant": "All histories and clocks.", "anchors": ["include/lru/internal/base-cache.hpp: insert (update branch)", "include/lru/internal/timed-information.hpp: insertion_time"]}
{"id": "C41", "title": "clear_expired removes exactly the expired elements", "statement": "clear_expired() removes all elements that have expired and no others, and returns their number.", "quantifier": "all reachable timed caches and clocks", "why_tests_cant": "All histories and clocks; needs the relation between order of use and age.", "anchors": ["include/lru/timed-cache.hpp: clear_expired"]}
{"id": "C42", "title": "all_expired tells whether every element has expired", "statement": "all_expired() returns true iff every element has expired.", "quantifier": "all reachable timed caches and clocks", "why_tests_cant": "All histories and clocks.", "anchors": ["include/lru/timed-cache.hpp: all_expired"]}
{"id": "C43", "title": "Statistics count every access of a timed cache", "statement": "While a TimedCache is monitored, each find/lookup/operator[]/contains counts as exactly one access, a hit iff it succeeded.", "quantifier": "all reachable timed caches and clocks", "why_tests_cant": "All histories and clocks.", "anchors": ["include/lru/timed-cache.hpp: find, _last_accessed_is_ok", "include/lru/internal/base-cache.hpp: contains, lookup"]}
{"id": "C44", "title": "A failed timed lookup reports a uniform error", "statement": "lookup of a key whose element has expired fails the same way whatever was accessed before.", "quantifier": "all reachable timed caches and clocks", "why_tests_cant": "Depends on history through the last-accessed shortcut.", "anchors": ["include/lru/timed-cache.hpp: _value_for_last_accessed, find", "include/lru/internal/base-cache.hpp: lookup"]}
{"id": "C45", "title": "Expired elements can be erased through iterators", "statement": "erase(iterator) removes the element denoted also when it has expired, for both kinds of iterator.", "quantifier": "all reachable timed caches, positions and clocks", "why_tests_cant": "All states and clocks.", "anchors": ["include/lru/internal/base-cache.hpp: erase(OrderedConstIterator)", "include/lru/internal/base-ordered-iterator.hpp: key"]}
{"id": "C46", "title": "front()/back() of an empty cache report EmptyCache", "statement": "front() and back() of an empty cache throw EmptyCache, which can be caught; of a non-empty cache they deliver the most / least recently used key.", "quantifier": "all reachable untimed caches", "why_tests_cant": "All states.", "anchors": ["include/lru/cache.hpp: front, back"]}
{"id": "C47", "title": "A wrapped function returns what the function returns", "statement": "Every call of wrap(f, ...) with arguments x returns f(x), for a deterministic f.", "quantifier": "all deterministic f, all call histories, all capacities", "why_tests_cant": "All histories.", "anchors": ["include/lru/wrap.hpp: wrap"]}
{"id": "C48", "title": "A wrapped function is called only when needed", "statement": "Between two calls of the wrapped function with equal arguments, f is not called again if fewer than capacity other arguments were used in between (and, timed, the result has not expired).", "quantifier": "all f, call histories, capacities", "why_tests_cant": "All histories.", "anchors": ["include/lru/wrap.hpp: wrap, timed_wrap"]}
{"id": "C49", "title": "Wrapped functions do not share caches", "statement": "Two functions wrapped separately never see each other's results, and each uses the capacity it was wrapped with.", "quantifier": "all functions and call histories", "why_tests_cant": "All interleavings.", "anchors": ["include/lru/wrap.hpp: static auto cache"]}
{"id": "C50", "title": "The cache arguments given to wrap are the ones used", "statement": "wrap(f, args...) creates its cache from the arguments given, whenever the wrapped function is first called.", "quantifier": "all arguments", "why_tests_cant": "Dangling references need not show in tests.", "anchors": ["include/lru/wrap.hpp: cache_args = std::forward_as_tuple, timed_wrap"]}
{"id": "C51", "title": "The tuple hash respects equality", "statement": "Equal tuples have equal hashes (so that wrapped calls with equal arguments meet), the hash is a size_t for all element hashes, and depends on every element.", "quantifier": "all tuples of any length and element hashes", "why_tests_cant": "All tuples.", "anchors": ["include/lru/internal/hash.hpp: hash_tuple"]}
{"id": "C52", "title": "hit_rate and miss_rate are rates", "statement": "hit_rate() and miss_rate() lie between 0 and 1 and add up to 1 (up to rounding) whenever there was an access.", "quantifier": "all reachable statistics with counters below 2^53", "why_tests_cant": "All counter values in floating point.", "anchors": ["include/lru/statistics.hpp: hit_rate, miss_rate"]}
{"id": "C53", "title": "A failed insertion leaves the cache usable", "statement": "If an allocation or copy fails during insert/emplace, the exception reaches the caller and the cache stays consistent: no later call is undefined and the other elements are unaffected.", "quantifier": "all reachable caches and all failing steps", "why_tests_cant": "All crash points in all states.", "anchors": ["include/lru/internal/base-cache.hpp: insert, emplace, _insert_new_key"]}
{"id": "C54", "title": "A throwing callback leaves the cache usable", "statement": "If a callback throws during find/lookup/contains, the exception reaches the caller, the access has been counted, and the cache's contents and order are as before the call.", "quantifier": "all reachable caches and callbacks", "why_tests_cant": "All states and callbacks.", "anchors": ["include/lru/internal/base-cache.hpp: _register_hit, _register_miss", "include/lru/internal/callback-manager.hpp: _call_each"]}
{"id": "C55", "title": "Callbacks may use the cache", "statement": "A callback may call the cache it is registered with (look up, insert, erase, register callbacks) during find/lookup/contains without undefined behaviour.", "quantifier": "all callbacks and reachable caches", "why_tests_cant": "All callback behaviours.", "anchors": ["include/lru/cache.hpp: find", "include/lru/internal/callback-manager.hpp: _call_each"]}
{"id": "C56", "title": "Unordered iterators survive insertions", "statement": "An unordered iterator to an element stays usable across insertions that do not remove the element.", "quantifier": "all reachable caches, iterators and insertions", "why_tests_cant": "Depends on when the hash map rehashes.", "anchors": ["include/lru/internal/base-cache.hpp: insert (documentation 890-899)"]}
{"id": "C57", "title": "Calls on one cache do not affect another", "statement": "A call on one cache changes no other cache: contents, order, capacity, monitoring, callbacks and the results of later calls.", "quantifier": "all pairs of distinct caches in all copy-free worlds (with separate statistics)", "why_tests_cant": "All interleavings.", "anchors": ["include/lru/internal/base-cache.hpp: all members"]}
{"id": "C58", "title": "The stored key is the first one", "statement": "With a custom KeyEqual, the key shown for an element is the one first inserted; later insertions of KeyEqual keys change only the value; all equal keys access the same element.", "quantifier": "all KeyEqual equivalences and reachable caches", "why_tests_cant": "All equivalences.", "anchors": ["include/lru/internal/base-cache.hpp: insert, emplace"]}
{"id": "C59", "title": "Expiry precision", "statement": "An element of a TimedCache with an integral Duration unit u and time to live d units is served at age a exactly when a < (d+1)*u: up to one unit longer than the time to live.", "quantifier": "all ages, units and times to live", "why_tests_cant": "All values.", "anchors": ["include/lru/timed-cache.hpp: _has_expired, duration_cast"]}
{"id": "C60", "title": "Expired elements stay until removed", "statement": "Accesses to expired elements change neither contents nor order: expired elements keep counting towards size() and are evicted only by order of use.", "quantifier": "all reachable timed caches and clocks", "why_tests_cant": "All histories and clocks.", "anchors": ["include/lru/timed-cache.hpp: find", "include/lru/internal/base-cache.hpp: size, insert"]}
{"id": "C61", "title": "Hash order is unobservable", "statement": "Apart from the order of unordered iteration, no result of any call depends on hash values, bucket order or rehashing.", "quantifier": "all pairs of environments differing only there, all copy-free histories", "why_tests_cant": "Relates pairs of executions.", "anchors": ["include/lru/internal/base-cache.hpp: _map"]}
{"id": "C62", "title": "An everlasting timed cache is a cache", "statement": "A TimedCache whose elements never expire returns the same results as a Cache under the same history.", "quantifier": "all histories of calls common to both", "why_tests_cant": "Relates pairs of executions.", "anchors": ["include/lru/timed-cache.hpp: find", "include/lru/cache.hpp: find"]}
{"id": "C63", "title": "Monitoring switches", "statement": "is_monitoring() tells whether monitor() was called after the last stop_monitoring(), a copy starting with the setting of its original; stats() throws NotMonitoring exactly when it is false; monitor(args) starts from zero counters; stopping leaves the shared statistics object unchanged.", "quantifier": "all histories, copies and failing allocations included", "why_tests_cant": "All histories.", "anchors": ["include/lru/internal/base-cache.hpp: monitor, stop_monitoring, is_monitoring, stats"]}
{"id": "C64", "title": "A timed wrapped function refreshes its results", "statement": "After the result of a timed-wrapped function for some arguments expired and the function was called again, the new result is served from the cache until it expires.", "quantifier": "all f, call histories, clocks", "why_tests_cant": "All histories and clocks.", "anchors": ["include/lru/wrap.hpp: timed_wrap, cache.emplace", "include/lru/internal/base-cache.hpp: emplace"]}
{"id": "C65", "title": "References to values stay valid", "statement": "The reference returned by lookup or operator[] keeps referring to that element, and reading it gives the element's current value, across any calls that do not remove the element, including insertions that make the hash table grow, evictions of other elements and swapping the cache with another one.", "quantifier": "all reachable caches, keys, and copy-free histories that keep the element", "why_tests_cant": "All histories between taking and using the reference.", "anchors": ["include/lru/internal/base-cache.hpp: lookup, operator[]", "include/lru/internal/base-cache.hpp: insert, _move_to_front, _erase_lru", "include/lru/internal/base-cache.hpp: swap"]}
{"id": "C66", "title": "Iterators survive swap", "statement": "After two caches were swapped, an ordered iterator still denotes the element it denoted before (now in the other cache), as it does for the standard containers.", "quantifier": "all reachable pairs of caches and iterators", "why_tests_cant": "All states; the wrong lookup is silent when the other cache has the key.", "anchors": ["include/lru/internal/base-cache.hpp: swap", "include/lru/internal/base-ordered-iterator.hpp: _lookup"]}
{"id": "C67", "title": "The capacity changes only on request", "statement": "The capacity a cache was constructed with, or was last given by capacity(n), stays its capacity until capacity(n) is called again, the cache is assigned a range or another cache, is swapped or moved, or is destroyed; no insertion, access, erasure, shrink, clear or failed call changes it.", "quantifier": "all caches, histories (with copies and failing allocations), worlds", "why_tests_cant": "All histories of calls, including ones that throw.", "anchors": ["include/lru/internal/base-cache.hpp: capacity(size_t), _capacity", "include/lru/internal/base-cache.hpp: _clear_and_increase_capacity, swap"]}
{"id": "C68", "title": "The time to live is fixed at construction", "statement": "The time to live given to the constructor of a timed cache stays in force until the cache is assigned from another cache, swapped or destroyed, and a cache never turns from timed into untimed or back.", "quantifier": "all caches, histories (with copies and failing allocations), worlds", "why_tests_cant": "All histories of calls.", "anchors": ["include/lru/timed-cache.hpp: _time_to_live, swap", "include/lru/internal/base-cache.hpp: operator="]}
{"id": "C69", "title": "Monitoring and callbacks change only on request", "statement": "The statistics object a cache feeds changes only by monitor and stop_monitoring, and the callbacks registered with it only by the callback registration and clearing functions (and copy assignment to the cache, and its destruction); swapping, moving and clearing a cache leave both with the object.", "quantifier": "all caches, histories (with copies and failing allocations), worlds", "why_tests_cant": "All histories of calls.", "anchors": ["include/lru/internal/base-cache.hpp: monitor, stop_monitoring, hit_callback, clear_all_callbacks, swap", "include/lru/internal/callback-manager.hpp", "include/lru/internal/statistics-mutator.hpp"]}
{"id": "C70", "title": "The library's own Optional is a value that leaks nothing", "statement": "A program over Internal::Optional objects observes exactly what it would over plain optional values (copies are independent, a move or assignment from an rvalue leaves the source empty, self assignment and emplacing from oneself are harmless, value() of an empty one throws), dereferencing an empty or dead one is the only undefined use, and at every moment exactly the engaged Optionals own a live allocation each, so that nothing is leaked or freed twice.", "quantifier": "all element types, programs over any number of Optionals, histories (with failing allocations)", "why_tests_cant": "All programs, and leaks and double frees are invisible to an ordinary test.", "anchors": ["include/lru/internal/optional.hpp: Optional"]}
{"id": "C71", "title": "A failed operation on an Optional changes nothing", "statement": "An operation of Internal::Optional whose allocation or element copy fails throws and leaves every Optional as it was; moving, swapping, reading, resetting and destroying never fail.", "quantifier": "all element types, programs, failing allocations", "why_tests_cant": "Allocation failures at every point of every program.", "anchors": ["include/lru/internal/optional.hpp: operator=, emplace, Optional(const Optional&), Optional(Optional<U>&&)"]}
{"id": "C72", "title": "Iterators kept in variables are cursors", "statement": "A program may keep ordered and unordered iterators in variables, copy, move, convert, assign, swap, advance, dereference, write through and compare them, erase through them, and call the cache in between. An iterator stands at the element with its key (or at the end) until that element leaves its cache, its cache is moved, swapped or destroyed, or (for an unordered iterator) something else is inserted. While it stands there, all of this is defined: a copy, an iterator moved from, i++ and a converted iterator stand where they should; reading gives the element as it is now, whoever changed it; writing changes this value and nothing else; entry(), key(), value(), is_valid and erase act as at that position of a traversal, expired elements included; two iterators are equal exactly if they stand at the same place; converting the end throws.", "quantifier": "all key and value types, environments, programs with any number of iterator variables and caches", "why_tests_cant": "All interleavings of iterator operations and cache calls; misuse of a stale cached entry or iterator need not crash.", "anchors": ["include/lru/internal/base-iterator.hpp: BaseIterator", "include/lru/internal/base-ordered-iterator.hpp: BaseOrderedIterator", "include/lru/internal/base-unordered-iterator.hpp: BaseUnorderedIterator", "include/lru/internal/base-cache.hpp: erase, is_valid"]}
{"id": "C73", "title": "Arguments may be references into a cache", "statement": "The key and value arguments of insert, emplace, find, contains, lookup, operator[], erase, has_expired and the statistics calls may be references to keys and values of elements of this or another cache, including the element that the call evicts, erases or finds expired. The call is defined and does exactly what it does with copies of the arguments, as long as callbacks leave the elements alone.", "quantifier": "all key and value types, worlds, references, callbacks that leave the elements alone", "why_tests_cant": "A use after free of an argument usually reads the old value; the element referred to can be any element of any cache.", "anchors": ["include/lru/internal/base-cache.hpp: insert, emplace, find, erase, _erase", "include/lru/timed-cache.hpp: find, has_expired", "include/lru/internal/statistics-mutator.hpp: register_hit, register_miss"]}
{"id": "C74", "title": "A cache can be used as a range", "statement": "Inserting another cache (or the range of its ordered or unordered iterators) into a cache, constructing a cache from one, and assigning a const cache of the other type does exactly what it does with a list of the other cache's elements in that order; the other cache is not changed. Inserting a cache as an rvalue does what inserting the list does and leaves moved-from values under unchanged keys, order and everything else (or the cache unchanged, if the capacity is zero).", "quantifier": "all key and value types, environments, reachable worlds, pairs of different caches", "why_tests_cant": "Reading one container while the other one evicts, for all contents and capacities.", "anchors": ["include/lru/internal/base-cache.hpp: insert(begin, end), insert(Range), BaseCache(Range), operator=(Range), _clear_and_increase_capacity"]}
{"id": "C75", "title": "c = d makes c a copy of d and leaves d alone", "statement": "After c = d, for caches c and d of one type, c has the elements of d in the same order and the capacity of d, d has the elements that it had, other caches are not changed, and c = c changes nothing, also if d is not const.", "quantifier": "all key and value types, environments, reachable worlds", "why_tests_cant": "Which overload is called depends on constness; moved-from values of some types look like copies.", "anchors": ["include/lru/internal/base-cache.hpp: operator=(Range&&), PUBLIC_BASE_CACHE_MEMBERS", "include/lru/cache.hpp: operator="]}
{"id": "C76", "title": "Cache e(d) makes e a copy of d", "statement": "After Cache e(d), e has the elements of d in the same order and the capacity of d, and d and all other caches are as they were, also if d is not const.", "quantifier": "all key and value types, environments, reachable worlds", "why_tests_cant": "Which overload is called depends on constness.", "anchors": ["include/lru/cache.hpp: Cache(Range&&)", "include/lru/internal/base-cache.hpp: BaseCache(Range&)"]}
{"id": "C77", "title": "c = v leaves the range v as it is", "statement": "Assigning a vector (or another range) that is an lvalue to a cache leaves the vector's elements as they were, also if it is not const; inserting or assigning an rvalue moves from each of its elements exactly if the cache can take elements.", "quantifier": "all key and value types, environments, worlds, vectors", "why_tests_cant": "Which overload is called depends on constness; moved-from values of some types look like copies.", "anchors": ["include/lru/internal/base-cache.hpp: operator=(Range&&), insert(Range&&), PUBLIC_BASE_CACHE_MEMBERS"]}
{"id": "C78", "title": "swap(c, d) exchanges two caches", "statement": "The unqualified call swap(c, d), or std::swap, for two objects of type LRU::Cache is defined and exchanges their elements with order, ages and capacities; statistics and callbacks stay with the objects, other caches are not changed, and swap(c, c) changes nothing.", "quantifier": "all key and value types, environments, reachable worlds, pairs of caches (also equal ones)", "why_tests_cant": "Reading an uninitialised variable usually works; which overload is called depends on derived-to-base conversion.", "anchors": ["include/lru/internal/base-cache.hpp: BaseCache(BaseCache&&), swap", "include/lru/cache.hpp"]}
{"id": "C79", "title": "A cache's own elements can be inserted into it", "statement": "Inserting a range of a cache's own ordered or unordered iterators into the cache is defined and does exactly what inserting a list of its elements in that order does.", "quantifier": "all key and value types, environments, reachable worlds, caches", "why_tests_cant": "The insertion changes the order that the loop is following; for all contents.", "anchors": ["include/lru/internal/base-cache.hpp: insert(begin, end)", "include/lru/internal/base-ordered-iterator.hpp: operator++"]}
{"id": "C80", "title": "A memoised function is the function", "statement": "A function written as in the examples (if (cache.contains(k)) return cache.lookup(k); compute, possibly calling itself for other keys; cache.emplace(k, value)) with an LRU::Cache returns the value, or throws the exception, of the function without the cache, and leaves only values of the function in the cache. In particular fibonacci(n) of the examples is the n-th Fibonacci number modulo 2^64, which is the number itself exactly up to n = 92.", "quantifier": "all key and value types, recursive functions, environments, capacities including 0, reachable worlds in which the cache has correct values, keys; insert or emplace", "why_tests_cant": "For all functions, capacities and starting contents; evictions happen in the middle of the recursion.", "anchors": ["examples/fibonacci-basic.cpp: fibonacci", "examples/statistics.cpp: fibonacci, main", "README.md: MyWebServer::get", "include/lru/cache.hpp: contains, lookup", "include/lru/internal/base-cache.hpp: emplace, insert"]}
{"id": "C81", "title": "A function memoised with a TimedCache is the function", "statement": "The same idiom with an LRU::TimedCache returns the value, or throws the exception, of the function without the cache, and leaves only values of the function in the cache.", "quantifier": "all key and value types, recursive functions, environments and clocks, capacities, times to live, reachable worlds in which the cache has correct values, keys", "why_tests_cant": "Depends on the moment at which an element expires: between contains and lookup.", "anchors": ["examples/fibonacci-timed.cpp: fibonacci", "include/lru/timed-cache.hpp: contains, lookup"]}
{"id": "C82", "title": "Misses of the Fibonacci example", "statement": "Computing fibonacci(n) with a fresh monitored cache of capacity at least 2 registers exactly n - 1 misses (and 2(n - 3) hits, for n > 2), whichever operand of + is evaluated first.", "quantifier": "all n, capacities of at least 2, orders of evaluation, environments, reachable worlds with a fresh cache", "why_tests_cant": "For all n and capacities; a compiler chooses one order of evaluation.", "anchors": ["examples/statistics.cpp: comments in fibonacci", "examples/fibonacci-basic.cpp: comment on the capacity"]}
{"id": "C83", "title": "contains followed by lookup searches the table once", "statement": "A contains(key) + lookup(key) sequence involves only a single hash table search: after a call that found or stored a key, contains, lookup and writing through lookup do not search for it (or an equal key) again, and the first such access searches at most once. find and erase search once; insert and emplace never (capacity 0), once (key present), twice (new key, room) or three times (new key, full cache); shrink(n > 0) and capacity(n) once per element removed, shrink(0) never.", "quantifier": "all key and value types, environments, caches timed or not, reachable worlds, calls, equal keys", "why_tests_cant": "The number of calls of the hash function in every state; tests look at results only.", "anchors": ["README.md: comment in fibonacci", "examples/fibonacci-basic.cpp: comment", "include/lru/internal/last-accessed.hpp: class comment", "include/lru/internal/base-cache.hpp: contains, lookup, insert, emplace, erase, shrink, capacity"]}
{"id": "C84", "title": "A hash function that throws leaves the cache as it was", "statement": "If a search of the hash table throws during insert, emplace, find, contains, lookup, erase, shrink or capacity, the exception reaches the caller and the elements of the cache, their order, its capacity, its statistics and the callbacks called are as before the call.", "quantifier": "all environments, reachable worlds, calls, and positions of the failing search", "why_tests_cant": "Needs a throwing hash function at every possible search of every call.", "anchors": ["include/lru/internal/base-cache.hpp: insert, _insert_new_key, _evict_lru_for, erase, _erase, shrink, capacity", "include/lru/cache.hpp: find", "include/lru/timed-cache.hpp: find"]}
{"id": "C85", "title": "An exception of KeyEqual reaches the caller", "statement": "An exception thrown by the KeyEqual function during insert, emplace, find, contains, lookup, erase, shrink or capacity reaches the caller; it does not end the program.", "quantifier": "all environments, worlds, calls, and positions of the failing comparison", "why_tests_cant": "Needs a throwing KeyEqual at every possible comparison.", "anchors": ["include/lru/internal/last-accessed.hpp: operator==", "include/lru/internal/base-cache.hpp: contains, lookup, erase"]}
{"id": "C86", "title": "100% move-aware", "statement": "A key or value given to the cache as an rvalue (emplace with rvalue arguments, insert of an rvalue range, construction and assignment from an rvalue range) is never copied, only moved; and insert of const references copies each key and value at most once.", "quantifier": "all reachable worlds, all calls that store elements, all lengths of the range", "why_tests_cant": "The project's test (MoveAwareTest) counts the copies of three single calls, all with keys that are not present; the number for a range depends on which of its keys are present, repeated or evicted on the way.", "anchors": ["README.md: Caches are 100% move-aware", "include/lru/internal/base-cache.hpp: insert, emplace, _move_to_front", "include/lru/internal/information.hpp", "tests/move-awareness-test.cpp"]}
{"id": "C87", "title": "Ordered iterators give fast access to the key", "statement": "key() of an ordered iterator, its conversion from an unordered iterator, its copies, ++, -- and comparisons make no search of the hash table; using the value makes exactly one search the first time the iterator is dereferenced, and none afterwards until the iterator is moved, whatever else is done with the cache in between.", "quantifier": "all programs with iterators in variables, all caches, all steps in between", "why_tests_cant": "The searches are not observable in the tests, and their number depends on how the iterator came about (copied, moved, converted, incremented) and on what happened since it was first used.", "anchors": ["README.md: Iterators", "include/lru/internal/base-ordered-iterator.hpp: key, _maybe_lookup", "include/lru/timed-cache.hpp: has_expired, throw_if_invalid"]}
{"id": "C88", "title": "An exception of the hash function reaches a caller who uses an iterator", "statement": "An exception thrown by the hash function (or by KeyEqual) in a search made by *it, it->, entry(), key(), value(), erase(it) or is_valid(it) reaches the caller, and no cache, statistics object or iterator is different afterwards.", "quantifier": "all programs with iterators in variables, all steps, all positions of the failing search", "why_tests_cant": "Needs a throwing hash function at every search a program makes through its iterators.", "anchors": ["include/lru/internal/base-ordered-iterator.hpp: operator*, entry, value", "include/lru/internal/base-iterator.hpp: operator->", "include/lru/timed-cache.hpp: has_expired, is_valid", "include/lru/internal/base-cache.hpp: erase"]}
{"id": "C89", "title": "A reference to an entry stays usable", "statement": "After auto& e = *it the reference e can be used as long as the element is in the cache: it shows the element's key and its present value, and assigning to e.value() changes the value of this element and nothing else.", "quantifier": "all programs with iterators, references to entries and copies of entries in variables; all caches; all steps in between", "why_tests_cant": "The tests use the reference at once. Whether it dangles later depends on who owns the entry by then (copied, moved, swapped, assigned, advanced and destroyed iterators), and a dangling reference often reads the right bytes.", "anchors": ["include/lru/internal/base-iterator.hpp: _entry, move and swap", "include/lru/internal/base-ordered-iterator.hpp: operator++, operator--, operator*", "include/lru/internal/base-unordered-iterator.hpp: operator++, operator*", "include/lru/internal/optional.hpp", "include/lru/entry.hpp"]}
{"id": "C90", "title": "A copy of an entry stays usable", "statement": "A copy of an iterator's entry (auto e = *it) can be used as long as the element is in a cache, whatever becomes of the iterator and of other elements, also after the contents of the cache were moved to or swapped with another cache: it shows the element's key and its present value, and assigning to e.value() changes the value of this element and nothing else.", "quantifier": "all programs with iterators, references to entries and copies of entries in variables; all caches; all steps in between", "why_tests_cant": "Entries hold references into the hash table; that these stay valid through rehashing, moves and swaps cannot be seen by running.", "anchors": ["include/lru/entry.hpp", "include/lru/internal/base-iterator.hpp", "include/lru/internal/base-cache.hpp: swap, move constructor"]}
{"id": "C91", "title": "Equal iterators refer to the same entry", "statement": "If two iterators are equal, dereferencing them gives references to the same object, as the iterator categories they declare require: what is written through one is read through the other, and one stays usable as long as the other.", "quantifier": "all programs with iterators and references to entries in variables", "why_tests_cant": "The tests compare keys and values of entries, never their identity or lifetime.", "anchors": ["include/lru/internal/base-iterator.hpp: operator*, iterator_category", "include/lru/internal/base-ordered-iterator.hpp: operator*, operator==", "include/lru/internal/optional.hpp"]}
{"id": "C92", "title": "Ordered iterators to an evicted element go on with the inserted one", "statement": "When inserting a new key evicts the least recently used element, the list node of that element is re-used: an ordered iterator to it is afterwards the ordered iterator to the inserted (most recently used) element and gives the inserted key and value, whether or not it was dereferenced before.", "quantifier": "all reachable states with a full cache, all new keys and values, insert and emplace, timed or not", "why_tests_cant": "The tests hold no iterator across an insertion that evicts its element.", "anchors": ["include/lru/internal/base-cache.hpp: _insert_new_key, _evict_lru_for", "include/lru/internal/base-ordered-iterator.hpp: operator*, key, _maybe_lookup"]}
{"id": "C93", "title": "Statistics objects held by the client", "statement": "A cache and a client share a statistics object as holders of the same shared_ptr: c.stats(), *p and references to it name the same object; its totals and key counts are those of all accesses counted while a cache monitored with it and of what was done to it under any name, no more and no less; copies are independent; it exists as long as a pointer or a living cache has it (a cache keeps it though the client drops every pointer), and references to it, or to the counts of a key in it, are usable exactly until then, or until the key is unmonitored or the object assigned to.", "quantifier": "all programs of calls on caches (without copies of caches) and steps that create, copy, move, assign, attach, detach, swap, drop, reference, read and change statistics objects", "why_tests_cant": "The tests attach one object to one cache and read it once; lifetimes and sharing between caches, pointers and references need all orders of steps.", "anchors": ["include/lru/internal/base-cache.hpp: monitor, stop_monitoring, stats, shared_stats", "include/lru/internal/statistics-mutator.hpp: StatisticsMutator, register_hit, register_miss, shared, get, reset", "include/lru/statistics.hpp: Statistics", "include/lru/key-statistics.hpp: KeyStatistics"]}
{"id": "C94", "title": "Every cache works with its own hash and equality objects", "statement": "Two caches of one type may hold different hash and equality objects (function pointers, objects with state). hash_function() and key_equal() of a cache return the objects its history gives it: those passed to its constructor (or value-initialised ones), exchanged by swap and moves. Every sequence of calls on an untimed cache has the outcomes of a textbook LRU cache under that cache's own equality, whatever objects other caches have; its keys are different under it; steps that do not name a cache change neither it nor its objects. Nothing is undefined except calls through null function pointers, comparing two caches whose objects differ, and the cases of C04.", "quantifier": "all types of keys and values, all families of equality objects, all programs of constructors with or without objects and calls on any number of caches (without copies), all caches and call sequences", "why_tests_cant": "The tests use the default std::hash and std::equal_to only, which have one value each; a cache that lost its object, or used another one's, would pass them all.", "anchors": ["include/lru/internal/base-cache.hpp: constructors, swap, operator=, hash_function, key_equal, _map, _last_accessed", "include/lru/internal/last-accessed.hpp: LastAccessed, operator==", "include/lru/cache.hpp: Cache constructors"]}
{"id": "C95", "title": "Copies, moves and swaps carry the function objects", "statement": "Copies, moves and swaps of caches carry the hash and equality objects along with the elements, and every cache involved can be used afterwards.", "quantifier": "all caches reached by programs without copies, all families of equality objects", "why_tests_cant": "The tests use the default std::hash and std::equal_to only and never use a cache that was moved from.", "anchors": ["include/lru/internal/base-cache.hpp: BaseCache(const BaseCache&), BaseCache(BaseCache&&), operator=, swap, BaseCache(Range&)", "include/lru/cache.hpp: Cache(Range&&)"]}
{"id": "C96", "title": "How often ranges, constructors, copies, comparison and timed calls search the table", "statement": "Inserting a range makes the searches of inserting its elements one by one: one per element, one more per new key, one more per eviction, none if the capacity is 0; a constructor from a range the same for an empty cache; assignment from a range one per element and one per new key. Copying a cache searches once per element (twice if the table does not keep hash values). operator== makes no search for different sizes, at most one per element otherwise, exactly one per element if the caches are equal, none if they are the same object. has_expired searches once, all_expired at most once, clear_expired once per element removed and once for the element at which it stops.", "quantifier": "all key and value types, environments, reachable worlds, ranges, capacities, caches timed or not", "why_tests_cant": "The number of calls of the hash function in every state and for every range; tests look at results only.", "anchors": ["include/lru/internal/base-cache.hpp: insert(range), constructors, operator=, operator==, copy constructor", "include/lru/timed-cache.hpp: has_expired, all_expired, clear_expired"]}
{"id": "C97", "title": "An exception of the hash function reaches the caller of these calls", "statement": "If a search of the hash table throws during the insertion of a range, a constructor from a range, an assignment from a range, a copy, a comparison, has_expired, all_expired or clear_expired, then the exception reaches the caller, and the caches hold what they held before, except for the elements of the range already inserted, the old elements of the cache assigned to, and expired elements already removed.", "quantifier": "all environments, reachable worlds, calls, and positions of the failing search", "why_tests_cant": "Needs a throwing hash function at every possible search of every call.", "anchors": ["include/lru/internal/base-cache.hpp: operator==, operator=, copy constructor, insert(range)", "include/lru/timed-cache.hpp: has_expired, all_expired, clear_expired", "include/lru/cache.hpp: noexcept of copy assignment"]}
{"id": "C98", "title": "The callback accessors list exactly the registered callbacks", "statement": "hit_callbacks(), miss_callbacks() and access_callbacks() list exactly the callbacks registered with this cache and not cleared since, in order of registration; they are those the cache calls on a hit or miss. A copy starts with those of the original, a moved-to cache with none; swap and move leave each cache its own. A reference obtained from an accessor shows the current callbacks as long as the cache exists; calling the functions through it calls each once, in order, and is not an access (no statistics, no element moves).", "quantifier": "all programs of calls (with copies of caches and failing allocations) and steps that list, bind references to, read and call the containers; callbacks that leave the caches alone", "why_tests_cant": "Every interleaving of registrations, clears, copies, moves and swaps with references kept across them.", "anchors": ["include/lru/internal/callback-manager.hpp: hit_callbacks, miss_callbacks, access_callbacks, hit_callback, clear", "include/lru/internal/base-cache.hpp: hit_callbacks, miss_callbacks, access_callbacks, copy, move, swap"]}
{"id": "C99", "title": "Every living cache is coherent after any history, copies included", "statement": "Whatever calls a program has made (copy construction, copies of copies and copy assignment included), as long as none of them was undefined behaviour, every living cache can be read from end to end and every way of reading it agrees: the backward traversal is the reverse of the forward one, the unordered traversal is a permutation of it, size(), is_empty(), is_full() and space_left() count its elements, front() and back() name its last and first key, no two keys are equal, and there are no more elements than the capacity.", "quantifier": "all environments whose key equality is an equivalence, all histories of calls and of assignments to values of elements, all living caches of the final state", "why_tests_cant": "A copy keeps list iterators of its original, so later calls on it can behave arbitrarily badly; a test can only try some histories, and cannot show that no history without undefined behaviour leaves an inconsistent cache.", "anchors": ["include/lru/internal/base-cache.hpp: copy constructor, operator=, _reassign_references, insert, erase, clear, swap", "include/lru/cache.hpp: front, back", "include/lru/timed-cache.hpp"]}
{"id": "C100", "title": "Inserting a new key is always defined and exact, also in copies", "statement": "In every state that a program can reach, copies of caches included, insert and emplace of a key that is not in the cache (of capacity not 0) are well defined and report success with an iterator to the new element; the element becomes the most recently used one, the least recently used one is dropped if the cache was full, and no other cache (neither the original nor a copy) changes.", "quantifier": "all environments whose key equality is an equivalence, all states reached by any calls, all caches, keys and values", "why_tests_cant": "Copies hold list iterators of their original, also of originals that were destroyed; that eviction and insertion never use them has to be shown for every history.", "anchors": ["include/lru/internal/base-cache.hpp: insert, emplace, _insert_new_key, _evict_lru_for"]}
{"id": "C101", "title": "Calls on whole caches are always defined, also for copies", "statement": "In every state that a program can reach, copies of caches included: clear() empties the cache; copy construction and copy assignment (also of copies) give a cache that shows the same elements in the same order with the same capacity, the original unchanged; swap() exchanges elements and capacities; destruction of a cache leaves all others as they were. In each case no cache that is not an operand changes.", "quantifier": "all environments whose key equality is an equivalence, all states reached by any calls, all caches", "why_tests_cant": "Ranges over all histories of copies, of copies of copies and of destroyed originals.", "anchors": ["include/lru/internal/base-cache.hpp: clear, copy constructor, operator=, swap, _reassign_references"]}
{"id": "C102", "title": "A LastAccessed shows the element it was given last", "statement": "A LastAccessed object refers to the key and information it was given last, by construction, by assignment of an iterator, or through another LastAccessed (copy, assignment, swap), and shows their present state: key() and information() are the very objects, and writing through one LastAccessed is seen by all that refer to the same information. invalidate() makes it invalid: equal to no key, not to be read; other objects are unaffected. Nothing else that happens in the program changes what it refers to. Reading it is undefined exactly when it is invalid or when what it refers to has been destroyed.", "quantifier": "all programs that make, write and destroy keys (const or not) and informations, and construct, copy, assign, swap, invalidate, read, write through and compare LastAccessed objects; all KeyEqual objects", "why_tests_cant": "Every interleaving of assignments, copies, writes and destructions; the tests have three short programs with one object.", "anchors": ["include/lru/internal/last-accessed.hpp: LastAccessed, operator=, key, information, is_valid, invalidate"]}
{"id": "C103", "title": "A LastAccessed can be compared with any key and iterator", "statement": "A LastAccessed can be compared by == and != with any key and any iterator of the map, end() included, in both orders: it equals a key if it is valid and its KeyEqual says so of that key and its own; it equals an iterator if it equals the key of the iterator; != is the opposite of ==. An exception of KeyEqual reaches the caller.", "quantifier": "all programs as in C102, all keys, iterators and KeyEqual objects, throwing ones included", "why_tests_cant": "Comparison with end() and throwing KeyEqual are not tried; any history before the comparison.", "anchors": ["include/lru/internal/last-accessed.hpp: operator==, operator!="]}
{"id": "C104", "title": "Filling, moving and resizing are always defined, also for copies", "statement": "In every state that a program can reach, copies of caches included: inserting a range of different keys that are not in the cache is well defined and stores as many as fit, the last of them as the most recently used; assigning a range of different keys replaces the elements and raises the capacity if needed; every constructor makes a new cache with the elements given; move construction and move assignment hand over elements and capacity; a capacity that is at least the size is set and shrinking to such a size does nothing; find() of an absent key says so. In each case no cache that is not an operand changes.", "quantifier": "all environments whose key equality is an equivalence, all states reached by any calls, all caches, timed or not, all ranges of different keys", "why_tests_cant": "Ranges over all histories of copies, of copies of copies and of destroyed originals, and over all ranges.", "anchors": ["include/lru/internal/base-cache.hpp: insert, operator=, constructors, capacity, shrink", "include/lru/cache.hpp: find", "include/lru/timed-cache.hpp: find"]}
{"id": "C105", "title": "On copies, calls that are defined do what they should", "statement": "In every state that a program can reach, copies of caches included: whenever find(), insert() or emplace() of a key that is in the cache, erase() of any key, shrink() or capacity(n) is well defined, it has the effect it has on a cache that was never copied: the element found, replaced or erased is the one asked for, found and replaced elements become the most recently used, shrinking drops the least recently used, and no other cache changes. None of these calls throws.", "quantifier": "all environments whose key equality is an equivalence, all states reached by any calls, all caches, timed or not, all keys, values and sizes", "why_tests_cant": "Ranges over all histories of copies and over all uses of the stale iterators and of the stale record of the last access that copies keep.", "anchors": ["include/lru/cache.hpp: find", "include/lru/timed-cache.hpp: find", "include/lru/internal/base-cache.hpp: insert, emplace, erase, shrink, capacity, _move_to_front, _erase, _erase_lru"]}
{"id": "C106", "title": "What was inserted into a copy can be used in it, and an emptied copy is as good as new", "statement": "After keys that a cache did not have were inserted or emplaced into it, whatever calls came before (copies of caches included), find(), insert(), emplace() and erase() by these keys are well defined on that cache, and so are contains() and lookup() if it is not timed; after the cache was emptied by clear() or newly constructed, this holds for all keys. It remains so after any further such calls, insertions of new keys, into this cache and others, and after construction, copying, assignment, emptying and destruction of other caches (this cache may be the one copied). If such a key is still in the cache, find() (untimed), contains() and lookup() give its element and make it the most recently used, insert() and emplace() replace its value and make it the most recently used, and erase() of such a key removes its element, if there, and tells whether it was there. No other cache changes.", "quantifier": "all environments whose key equality is an equivalence, all states reached by any calls and then by any insertions of new keys, calls by keys so inserted (all keys, if the cache was emptied or constructed) and calls on whole other caches; all caches with a positive capacity, all keys and values", "why_tests_cant": "Ranges over all histories of copies followed by all sequences of insertions, replacements, evictions and lookups, where each element's list iterator and the record of the last access must refer to the copy's own containers.", "anchors": ["include/lru/internal/base-cache.hpp: insert, emplace, erase, contains, lookup, _insert_new_key, _move_to_front, _erase", "include/lru/cache.hpp: find", "include/lru/timed-cache.hpp: find"]}
{"id": "C107", "title": "The elements of copies by place", "statement": "In every state that a program can reach, copies of caches included: the i-th element in order of a cache can be read through an ordered iterator, and this is well defined: it gives the element, or throws past the end, or, on a timed cache only, throws KeyExpired. is_valid() of an ordered iterator of an untimed cache tells whether there is such an element. Whenever erase() of an ordered iterator, of an unordered iterator or of what find() returned is well defined, it removes exactly the element referred to and changes no other cache; past the end, for a key that is not there, and (on a timed cache only, by ordered iterator or by find()) for an expired element, it throws and changes nothing.", "quantifier": "all environments whose key equality is an equivalence, all states reached by any calls, all caches, all places and keys", "why_tests_cant": "Ranges over all histories of copies, all places and all uses of the stale list iterators that the elements of copies keep.", "anchors": ["include/lru/internal/base-cache.hpp: erase(UnorderedConstIterator), erase(OrderedConstIterator), is_valid, throw_if_invalid, _erase", "include/lru/internal/base-ordered-iterator.hpp: operator++, entry, key", "include/lru/internal/base-unordered-iterator.hpp: operator++"]}
