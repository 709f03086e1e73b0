{
 "claims": [
  {
   "property": "C01",
   "status": "proved",
   "theorems": [
    "C01_textbook_lru"
   ],
   "note": ""
  },
  {
   "property": "C02",
   "status": "proved",
   "theorems": [
    "C02_size_le_capacity"
   ],
   "note": ""
  },
  {
   "property": "C03",
   "status": "proved",
   "theorems": [
    "C03_keys_unique"
   ],
   "note": ""
  },
  {
   "property": "C04",
   "status": "partial",
   "theorems": [
    "C04_move_refuted",
    "C04_entry_refuted",
    "C04_only_undefined_partial",
    "C04_only_terminated_partial"
   ],
   "note": "REFUTED in the abstract machine by two calls: the move constructor reads an uninitialised capacity, and entry() of the end iterator of a missed find dereferences it before throwing. Proved: no other copy-free call is ever undefined, and only front()/back() of an empty cache terminate."
  },
  {
   "property": "C05",
   "status": "proved",
   "theorems": [
    "C05_last_written"
   ],
   "note": ""
  },
  {
   "property": "C06",
   "status": "proved",
   "theorems": [
    "C06_insert_into_full"
   ],
   "note": ""
  },
  {
   "property": "C07",
   "status": "proved",
   "theorems": [
    "C07_insert_with_room"
   ],
   "note": ""
  },
  {
   "property": "C08",
   "status": "proved",
   "theorems": [
    "C08_insert_present"
   ],
   "note": ""
  },
  {
   "property": "C09",
   "status": "proved",
   "theorems": [
    "C09_hit",
    "C09_write_hit"
   ],
   "note": ""
  },
  {
   "property": "C10",
   "status": "proved",
   "theorems": [
    "C10_miss",
    "C10_write_miss"
   ],
   "note": ""
  },
  {
   "property": "C11",
   "status": "proved",
   "theorems": [
    "C11_survival"
   ],
   "note": ""
  },
  {
   "property": "C12",
   "status": "proved",
   "theorems": [
    "C12_erase_key"
   ],
   "note": ""
  },
  {
   "property": "C13",
   "status": "proved",
   "theorems": [
    "C13_erase_ordered_iterator",
    "C13_erase_unordered_iterator",
    "C13_erase_found"
   ],
   "note": ""
  },
  {
   "property": "C14",
   "status": "proved",
   "theorems": [
    "C14_clear",
    "C14_clear_as_fresh"
   ],
   "note": ""
  },
  {
   "property": "C15",
   "status": "proved",
   "theorems": [
    "C15_shrink"
   ],
   "note": ""
  },
  {
   "property": "C16",
   "status": "proved",
   "theorems": [
    "C16_set_capacity"
   ],
   "note": ""
  },
  {
   "property": "C17",
   "status": "proved",
   "theorems": [
    "C17_space_left"
   ],
   "note": ""
  },
  {
   "property": "C18",
   "status": "proved",
   "theorems": [
    "C18_capacity_zero"
   ],
   "note": ""
  },
  {
   "property": "C19",
   "status": "proved",
   "theorems": [
    "C19_insert_range"
   ],
   "note": ""
  },
  {
   "property": "C20",
   "status": "proved",
   "theorems": [
    "C20_range_constructors"
   ],
   "note": ""
  },
  {
   "property": "C21",
   "status": "proved",
   "theorems": [
    "C21_assign_range",
    "C21_assign_keeps_all"
   ],
   "note": ""
  },
  {
   "property": "C22",
   "status": "proved",
   "theorems": [
    "C22_traversals"
   ],
   "note": ""
  },
  {
   "property": "C23",
   "status": "proved",
   "theorems": [
    "C23_observers",
    "C23_pure_observers"
   ],
   "note": ""
  },
  {
   "property": "C24",
   "status": "proved",
   "theorems": [
    "C24_emplace_is_insert"
   ],
   "note": ""
  },
  {
   "property": "C25",
   "status": "proved",
   "theorems": [
    "C25_ordered_iterator_follows"
   ],
   "note": ""
  },
  {
   "property": "C26",
   "status": "proved",
   "theorems": [
    "C26_conversion",
    "C26_returned_iterators",
    "C26_comparison",
    "C26_comparison_other_cache"
   ],
   "note": ""
  },
  {
   "property": "C27",
   "status": "proved",
   "theorems": [
    "C27_is_valid",
    "C27_entry"
   ],
   "note": ""
  },
  {
   "property": "C28",
   "status": "proved",
   "theorems": [
    "C28_totals_any",
    "C28_every_read",
    "C28_totals",
    "C28_one_access"
   ],
   "note": ""
  },
  {
   "property": "C29",
   "status": "proved",
   "theorems": [
    "C29_key_stats_any",
    "C29_is_monitoring_any",
    "C29_number_any",
    "C29_key_stats",
    "C29_is_monitoring",
    "C29_number"
   ],
   "note": ""
  },
  {
   "property": "C30",
   "status": "proved",
   "theorems": [
    "C30_sum_any",
    "C30_sum"
   ],
   "note": ""
  },
  {
   "property": "C31",
   "status": "proved",
   "theorems": [
    "C31_modifications_are_not_accesses"
   ],
   "note": ""
  },
  {
   "property": "C32",
   "status": "proved",
   "theorems": [
    "C32_callbacks"
   ],
   "note": ""
  },
  {
   "property": "C33",
   "status": "proved",
   "theorems": [
    "C33_swap_exchanges",
    "C33_swap_self",
    "C33_swap_twice"
   ],
   "note": ""
  },
  {
   "property": "C34",
   "status": "partial",
   "theorems": [
    "C34_capacity_refuted",
    "C34_move_constructor_partial",
    "C34_move_undefined",
    "C34_move_assignment",
    "C34_move_assignment_self"
   ],
   "note": "REFUTED as stated: the move constructor swaps the new object's uninitialised _capacity into the source, so its capacity afterwards is indeterminate (undefined behaviour in the abstract machine). Proved: everything else about the move constructor, for every junk value (_partial), and move assignment in full."
  },
  {
   "property": "C35",
   "status": "proved",
   "theorems": [
    "C35_equal",
    "C35_equal_timed",
    "C35_insertion_time",
    "C35_reflexive",
    "C35_symmetric",
    "C35_transitive"
   ],
   "note": ""
  },
  {
   "property": "C36",
   "status": "proved",
   "theorems": [
    "C36_copy_has_the_same",
    "C36_copy_traversals",
    "C36_copy_equals",
    "C36_original_does_not_notice",
    "C36_self_assignment"
   ],
   "note": ""
  },
  {
   "property": "C37",
   "status": "partial",
   "theorems": [
    "C37_usable_refuted",
    "C37_independent_refuted",
    "C37_dangling_refuted",
    "C37_find_undefined",
    "C37_insert_undefined",
    "C37_erase_undefined",
    "C37_shrink_undefined",
    "C37_set_capacity_undefined",
    "C37_safe_with_care_partial",
    "C37_behaves_with_care_partial",
    "C37_independent_with_care_partial"
   ],
   "note": "REFUTED as stated: map nodes of a copy keep list iterators into the original's list and its last-accessed record points into the original, so find/insert of a present key, erase and shrink on a copy are undefined (C37_*_undefined, for all reachable caches), and reading or writing the last accessed key goes to the original (C37_independent_refuted, C37_dangling_refuted). The _partial theorems cover every history that uses the copy with care (SpecCopy.careful): observers, insertion and search of absent keys, clear, assignment of elements, growth, monitoring, callbacks, destruction; anything after a reset; anything on other caches."
  },
  {
   "property": "C38",
   "status": "proved",
   "theorems": [
    "C38_served_iff_young"
   ],
   "note": ""
  },
  {
   "property": "C39",
   "status": "proved",
   "theorems": [
    "C39_inserted_is_served"
   ],
   "note": ""
  },
  {
   "property": "C40",
   "status": "partial",
   "theorems": [
    "C40_reinsertion_refuted",
    "C40_new_partial"
   ],
   "note": "REFUTED as stated: re-inserting a present key (even an expired one) keeps the old insertion time, so the key may be unfindable at once. Proved (_partial): an insertion or emplacement of an absent key makes it servable exactly while young since that call."
  },
  {
   "property": "C41",
   "status": "partial",
   "theorems": [
    "C41_exact_refuted",
    "C41_prefix_partial",
    "C41_exact_partial",
    "C41_age_order"
   ],
   "note": "REFUTED as stated: expired elements behind a live one in order of use stay. Proved (_partial): it removes exactly the longest expired prefix of the order of use, with each element checked by its own clock reading; and it is exact whenever order of use is order of insertion, which C41_age_order proves for every history that uses each element once."
  },
  {
   "property": "C42",
   "status": "partial",
   "theorems": [
    "C42_all_refuted",
    "C42_last_partial",
    "C42_exact_partial"
   ],
   "note": "REFUTED as stated: only the most recently used element is examined. Proved (_partial): true iff that element has expired (or the cache is empty); exact when order of use is order of insertion (C41_age_order)."
  },
  {
   "property": "C43",
   "status": "partial",
   "theorems": [
    "C43_contains_refuted",
    "C43_lookup_refuted",
    "C43_late_refuted",
    "C43_counted_partial"
   ],
   "note": "REFUTED as stated: contains() or lookup() of an expired last-accessed key counts nothing, and a lookup whose second clock reading finds the key expired counts a hit although it throws (three refutations). Proved: what every outcome counts on any cache, the exceptions only for an expired most recently used element or one that expires between the two clock readings of the call; and, with C28_totals/C28_one_access under by_find, that find counts exactly one access, a hit iff it succeeded."
  },
  {
   "property": "C44",
   "status": "partial",
   "theorems": [
    "C44_uniform_refuted",
    "C44_fails_partial",
    "C44_after_partial"
   ],
   "note": "REFUTED as stated: lookup of an expired key throws KeyExpired if it was accessed last and KeyNotFound otherwise. Proved (_partial): it always fails with one of these two, KeyExpired only for the most recently used element; after any call that inserted or found an element it is KeyExpired for that key and KeyNotFound for any other; find, contains, find().entry() fail uniformly."
  },
  {
   "property": "C45",
   "status": "partial",
   "theorems": [
    "C45_ordered_refuted",
    "C45_ordered_partial",
    "C45_unordered"
   ],
   "note": "REFUTED for ordered iterators: erase(ordered iterator) of an expired element throws KeyExpired and removes nothing. Proved: for unordered iterators in full; for ordered iterators the exact behaviour (_partial)."
  },
  {
   "property": "C46",
   "status": "partial",
   "theorems": [
    "C46_empty_front_back_refuted",
    "C46_front_back_partial"
   ],
   "note": "REFUTED as stated: front()/back() are noexcept, so EmptyCache terminates the program. Proved: the result for non-empty caches, and that an empty one always terminates."
  },
  {
   "property": "C47",
   "status": "partial",
   "theorems": [
    "C47_deterministic_partial",
    "C47_refuted"
   ],
   "note": "REFUTED as stated: functions of the same type (for example two std::function objects or two pointers to functions) share one static cache per instantiation of operator(), so one returns what the other computed (C47_refuted, witness run). Proved part: if functions of the same closure type do the same, every call of a wrapped function, also recursive ones and ones that throw, does what the original does, for every history and every recursion depth."
  },
  {
   "property": "C48",
   "status": "partial",
   "theorems": [
    "C48_kept_partial",
    "C48_refuted"
   ],
   "note": "REFUTED as stated: passing the same argument once as an lvalue and once as an rvalue uses two caches, so the function is called twice in a row (C48_refuted). Proved part: with the arguments passed the same way, the function is not called again while fewer than capacity other arguments were used in between."
  },
  {
   "property": "C49",
   "status": "partial",
   "theorems": [
    "C49_own_results_partial",
    "C49_separate_partial",
    "C49_results_refuted",
    "C49_capacity_refuted"
   ],
   "note": "REFUTED as stated: separately wrapped functions of the same type share results (C49_results_refuted) and capacity (C49_capacity_refuted). Proved part: results only ever come from functions of the same closure type, and calls using other closure types leave the cache unchanged."
  },
  {
   "property": "C50",
   "status": "partial",
   "theorems": [
    "C50_first_call_partial",
    "C50_lasting_partial",
    "C50_temporary_refuted",
    "C50_timed_wrap_refuted",
    "C50_changed_refuted"
   ],
   "note": "REFUTED as stated: wrap with a temporary capacity (C50_temporary_refuted), timed_wrap always (C50_timed_wrap_refuted, for all programs), and variables changed before the first call (C50_changed_refuted). Proved part: arguments that live until the first call are used and kept for ever; programs that keep arguments alive never dangle."
  },
  {
   "property": "C51",
   "status": "proved",
   "theorems": [
    "C51_equal",
    "C51_size_t",
    "C51_first",
    "C51_every",
    "C51_any_length"
   ],
   "note": ""
  },
  {
   "property": "C52",
   "status": "proved",
   "theorems": [
    "C52_range",
    "C52_sum",
    "C52_quotient",
    "C52_no_access"
   ],
   "note": ""
  },
  {
   "property": "C53",
   "status": "partial",
   "theorems": [
    "C53_usable_partial",
    "C53_failed_partial",
    "C53_refuted",
    "C53_order_refuted"
   ],
   "note": "REFUTED as stated: insert and emplace put the node into the map before they allocate the list node; if that allocation fails, size() counts an element that no traversal shows and every later call with its key is undefined (C53_refuted; C53_failed_partial shows it of erase for every such failure). If the assignment of the value of a present key fails, the last-accessed pointer no longer denotes the most recent element and a later lookup does not reorder (C53_order_refuted). Proved part: exactly what every failed insertion leaves behind (exception reaches the caller, other caches and capacities unaffected, elements unaffected), and that after any number of failures every call is defined as long as the traversals show as many elements as size()."
  },
  {
   "property": "C54",
   "status": "proved",
   "theorems": [
    "C54_exception",
    "C54_usable"
   ],
   "note": "Proved for all callbacks that throw (depending on the event and all events before), all accesses and all worlds reachable with them, also after earlier failures and exceptions."
  },
  {
   "property": "C55",
   "status": "partial",
   "theorems": [
    "C55_gentle_partial",
    "C55_erase_refuted",
    "C55_insert_refuted",
    "C55_rehash_refuted",
    "C55_register_refuted"
   ],
   "note": "REFUTED as stated: a hit callback that erases the found key, inserts (with eviction or rehash) or registers another callback makes find undefined (four witness runs). Proved part: callbacks that make any sequence of gentle calls (lookups, writes, observers, statistics, new caches), nested to any depth, and may throw."
  },
  {
   "property": "C56",
   "status": "partial",
   "theorems": [
    "C56_survives_insertion_refuted",
    "C56_iterator_follows_partial"
   ],
   "note": "REFUTED as stated: an insertion may rebuild the hash table, and dereferencing an unordered iterator afterwards is undefined (C56_survives_insertion_refuted; rehash oracle). The partial theorem gives the cases in which it holds, for all kept histories: iterator dereferenced before, no insertion in between, or no rebuild."
  },
  {
   "property": "C57",
   "status": "proved",
   "theorems": [
    "C57_frame"
   ],
   "note": ""
  },
  {
   "property": "C58",
   "status": "proved",
   "theorems": [
    "C58_first_key",
    "C58_equal_keys"
   ],
   "note": ""
  },
  {
   "property": "C59",
   "status": "proved",
   "theorems": [
    "C59_precision"
   ],
   "note": ""
  },
  {
   "property": "C60",
   "status": "proved",
   "theorems": [
    "C60_expired_access",
    "C60_eviction"
   ],
   "note": ""
  },
  {
   "property": "C61",
   "status": "proved",
   "theorems": [
    "C61_hash_order"
   ],
   "note": ""
  },
  {
   "property": "C62",
   "status": "proved",
   "theorems": [
    "C62_everlasting"
   ],
   "note": ""
  },
  {
   "property": "C63",
   "status": "proved",
   "theorems": [
    "C63_is_monitoring_any",
    "C63_throws_any",
    "C63_is_monitoring",
    "C63_throws",
    "C63_throws_only",
    "C63_start",
    "C63_stop"
   ],
   "note": ""
  },
  {
   "property": "C64",
   "status": "partial",
   "theorems": [
    "C64_new_partial",
    "C64_expired_partial",
    "C64_refuted"
   ],
   "note": "REFUTED as stated: operator() stores the recomputed result with emplace, which keeps the old insertion time, so after the first expiry every call calls the function again (C64_refuted). Proved part: a result for arguments not in the cache is served until the time to live passed; expired results are never returned."
  },
  {
   "property": "C65",
   "status": "proved",
   "theorems": [
    "C65_reference_follows"
   ],
   "note": ""
  },
  {
   "property": "C66",
   "status": "partial",
   "theorems": [
    "C66_ordered_refuted",
    "C66_ordered_confused_refuted",
    "C66_used_iterator_follows_partial"
   ],
   "note": "REFUTED as stated: an ordered iterator holds a pointer to the cache object it came from and looks its element up there, so after swap it is undefined or shows an element of the wrong cache. The partial theorem: iterators dereferenced before the swap follow their element; C56_iterator_follows_partial covers unordered iterators."
  },
  {
   "property": "C67",
   "status": "proved",
   "theorems": [
    "C67_capacity_stays",
    "C67_capacity_set",
    "C67_capacity_built"
   ],
   "note": "Holds in every world and for every environment whose callbacks do not touch the caches; what the listed calls set the capacity to: C16, C20, C21, C33, C34, C36."
  },
  {
   "property": "C68",
   "status": "proved",
   "theorems": [
    "C68_ttl_stays",
    "C68_ttl_built",
    "C68_kind_stays"
   ],
   "note": "Holds in every world and for every environment whose callbacks do not touch the caches."
  },
  {
   "property": "C69",
   "status": "proved",
   "theorems": [
    "C69_monitoring_stays",
    "C69_callbacks_stay"
   ],
   "note": "Holds in every world and for every environment whose callbacks do not touch the caches."
  },
  {
   "property": "C70",
   "status": "proved",
   "theorems": [
    "C70_value_semantics",
    "C70_calls",
    "C70_values_exist",
    "C70_no_leaks",
    "C70_all_freed"
   ],
   "note": "Optional.v models the unique_ptr and the heap; the specification has no pointers."
  },
  {
   "property": "C71",
   "status": "partial",
   "theorems": [
    "C71_converting_move_refuted",
    "C71_failure_changes_nothing_partial",
    "C71_cheap_operations"
   ],
   "note": "REFUTED for the generalized move constructor: it is noexcept but allocates, so a failed allocation ends the program (C71_converting_move_refuted). Every other operation: C71_failure_changes_nothing_partial."
  },
  {
   "property": "C72",
   "status": "proved",
   "theorems": [
    "C72_iterators_are_cursors"
   ],
   "note": "One theorem, by simulation: SpecCursor says which steps are allowed, and what each gives, in terms of cursors. Cached entries, cache pointers and node identities are in the model (IterObj.v) and not in the statement."
  },
  {
   "property": "C73",
   "status": "proved",
   "theorems": [
    "C73_references"
   ],
   "note": "Callbacks must leave the elements of caches alone (hands_off)."
  },
  {
   "property": "C74",
   "status": "proved",
   "theorems": [
    "C74_insert",
    "C74_construct",
    "C74_construct_sized",
    "C74_assign",
    "C74_insert_moved",
    "C74_moved_from",
    "C74_moved_from_others"
   ],
   "note": "Two different caches. Const assignment is the overload for caches of different types."
  },
  {
   "property": "C75",
   "status": "partial",
   "theorems": [
    "C75_source_refuted",
    "C75_copy_refuted",
    "C75_self_refuted",
    "C75_assign_partial",
    "C75_as_list_partial",
    "C75_self_partial"
   ],
   "note": "REFUTED for d that is not const: \"using super::operator=\" makes operator=(Range&&) the best match, which moves the values out of d, takes the order of the hash map and never shrinks the capacity; c = c empties c. For const d the copy assignment operator is called (C36, C37). Partial: exact effect of c = d."
  },
  {
   "property": "C76",
   "status": "partial",
   "theorems": [
    "C76_copy_refuted",
    "C76_construct_partial",
    "C76_as_list_partial"
   ],
   "note": "REFUTED for d that is not const: the explicit constructor template Cache(Range&&) is the best match; order of the hash map, capacity max(size, 128). Partial: exact effect."
  },
  {
   "property": "C77",
   "status": "partial",
   "theorems": [
    "C77_vector_refuted",
    "C77_assign_partial",
    "C77_insert_partial"
   ],
   "note": "REFUTED for an lvalue that is not const: operator= has no overload for Range&, so operator=(Range&&) is selected and moves from the elements (bc:541-566). C77_assign_partial and C77_insert_partial say exactly which elements are moved from and that the cache does what it does for an rvalue."
  },
  {
   "property": "C78",
   "status": "partial",
   "theorems": [
    "C78_swap_refuted",
    "C78_swap_partial",
    "C78_undefined_partial"
   ],
   "note": "REFUTED: for LRU::Cache the call selects std::swap, whose move construction reads the uninitialised _capacity (bc:196). C78_swap_partial: where that read gives a value, the caches are exchanged; C78_undefined_partial: elsewhere it is undefined."
  },
  {
   "property": "C79",
   "status": "partial",
   "theorems": [
    "C79_ordered_refuted",
    "C79_unordered_partial",
    "C79_ordered_partial"
   ],
   "note": "REFUTED for ordered iterators: the first element is moved to the end of the order, so the loop ends after one step. C79_unordered_partial: the full statement for unordered iterators; C79_ordered_partial: exactly what happens with ordered ones."
  },
  {
   "property": "C80",
   "status": "proved",
   "theorems": [
    "C80_memoised",
    "C80_fibonacci",
    "C80_last_that_fits"
   ],
   "note": "Any recursive function given as a recipe (SpecMemo.means is its meaning without a cache). The depth of recursion is taken large enough."
  },
  {
   "property": "C81",
   "status": "partial",
   "theorems": [
    "C81_expires_refuted",
    "C81_or_expired_partial",
    "C81_lasting_partial"
   ],
   "note": "REFUTED: the element may expire between contains() and lookup(), which then throws KeyExpired (fibonacci(4) with time to live 2 and a clock that advances). C81_or_expired_partial: the result is right or KeyExpired is thrown, and the cache stays correct; C81_lasting_partial: right if no readings of the clock are further apart than the time to live."
  },
  {
   "property": "C82",
   "status": "partial",
   "theorems": [
    "C82_capacity_two_refuted",
    "C82_left_two_partial",
    "C82_no_room_partial",
    "C82_right_two_partial",
    "C82_three_partial"
   ],
   "note": "REFUTED for capacity 2 when the left operand is evaluated first: fibonacci(5) has 5 misses; C82_left_two_partial gives the exact numbers of hits and misses for every n (more than n - 1 misses from n = 5 on). C82_right_two_partial: capacity 2 and right operand first; C82_three_partial: capacity 3 or more, any order; C82_no_room_partial: capacities 0 and 1."
  },
  {
   "property": "C83",
   "status": "proved",
   "theorems": [
    "C83_once",
    "C83_at_most_once",
    "C83_number",
    "C83_same_calls"
   ],
   "note": "Proved about an instrumented transcription (Searches.v) of the functions that search; C83_same_calls says that it is otherwise the model the other theorems are about."
  },
  {
   "property": "C84",
   "status": "partial",
   "theorems": [
    "C84_insert_refuted",
    "C84_erase_refuted",
    "C84_early_partial",
    "C84_shrink_partial"
   ],
   "note": "REFUTED: an insertion into a full cache searches once more to evict, after the new key is in the hash table (C84_insert_refuted: more elements than the capacity, then undefined behaviour); erasing the last accessed key removes it from the list first (C84_erase_refuted). C84_early_partial: every call that searches before changing anything leaves everything unchanged. C84_shrink_partial: shrink and capacity stop early, in the state after shrink to a larger size."
  },
  {
   "property": "C85",
   "status": "partial",
   "theorems": [
    "C85_reaches_refuted",
    "C85_search_partial"
   ],
   "note": "REFUTED: LastAccessed::operator== is noexcept, so that a KeyEqual that throws in contains, lookup or erase ends the program (C85_reaches_refuted). C85_search_partial: what a search throws reaches the caller; nothing else but that comparison ends the program."
  },
  {
   "property": "C86",
   "status": "partial",
   "theorems": [
    "C86_emplace_refuted",
    "C86_price_partial",
    "C86_new_keys_partial",
    "C86_same_calls_partial"
   ],
   "note": "REFUTED: emplace of a key that is present assigns the new value from a const reference, so that it is copied even if it was passed as an rvalue; insert of an rvalue range does the same (C86_emplace_refuted). C86_price_partial: the exact number of key and value copies and moves of every call that stores; C86_new_keys_partial: nothing is copied if every key is new; C86_same_calls_partial: the counted functions are those of the model."
  },
  {
   "property": "C87",
   "status": "partial",
   "theorems": [
    "C87_fast_key_refuted",
    "C87_number_partial",
    "C87_key_partial",
    "C87_steady_partial",
    "C87_once_partial"
   ],
   "note": "REFUTED for TimedCache: key() searches the hash table twice each time (has_expired takes the iterator by value, dereferences the copy, then finds the key), and value() twice after the first dereference. Proved: the exact number of searches of every step; without an expiry time key() never searches; conversions, copies, ++, -- and comparisons never search; after the first use the element is not searched for again until the iterator is moved."
  },
  {
   "property": "C88",
   "status": "partial",
   "theorems": [
    "C88_reaches_refuted",
    "C88_key_refuted",
    "C88_fatal",
    "C88_reaches_partial"
   ],
   "note": "REFUTED: operator*, operator->, has_expired and is_valid are noexcept, so std::terminate is called. Proved: exactly which searches are fatal; the exceptions of all others reach the caller and leave caches, statistics and iterators as they were."
  },
  {
   "property": "C89",
   "status": "partial",
   "theorems": [
    "C89_advanced_refuted",
    "C89_reverse_iterator_refuted",
    "C89_reference_partial",
    "C89_programs_partial"
   ],
   "note": "REFUTED in full: the reference is to an object the iterator owns and destroys when it is advanced, assigned to or destroyed (C89_advanced_refuted); std::reverse_iterator's operator* always returns a dangling reference (C89_reverse_iterator_refuted). C89_reference_partial: usable as long as the iterator that owns the entry (also after moves and swaps of iterators) is left alone and the element stays. C89_programs_partial: every step of such programs is defined and has the stated effect. Copies of caches are excluded (C37)."
  },
  {
   "property": "C90",
   "status": "proved",
   "theorems": [
    "C90_copy"
   ],
   "note": "Copies of caches are excluded (C37). Programs with any steps of C72 and with references and copies of entries. The insertion of a range that contains the key counts as a removal of the element (it may be evicted and inserted anew on the way)."
  },
  {
   "property": "C91",
   "status": "partial",
   "theorems": [
    "C91_one_object_refuted",
    "C91_same_element_partial"
   ],
   "note": "REFUTED in full: equal iterators have entry objects of their own, with different lifetimes (C91_one_object_refuted). C91_same_element_partial: the two entries show the same key and value, and writes through one are seen through the other."
  },
  {
   "property": "C92",
   "status": "partial",
   "theorems": [
    "C92_used_iterator_refuted",
    "C92_unused_iterator_partial",
    "C92_used_iterator_partial"
   ],
   "note": "REFUTED for an iterator that was dereferenced before: it keeps a reference to the evicted element, and dereferencing it again gives this dangling reference. Partial: an iterator not dereferenced before shows the inserted element; for one that was, what it gives (dangling reference, inserted key)."
  },
  {
   "property": "C93",
   "status": "proved",
   "theorems": [
    "C93_handles",
    "C93_totals",
    "C93_key_counts",
    "C93_is_monitoring",
    "C93_number",
    "C93_changes",
    "C93_key_references",
    "C93_new_object",
    "C93_copied_object",
    "C93_copied_pointer",
    "C93_shared_stats",
    "C93_monitor_new",
    "C93_pointers",
    "C93_assign",
    "C93_take_key_reference",
    "C93_gone_for_good"
   ],
   "note": "Caches are not copied in these programs. Contrary to the comment at base-cache.hpp:1238-1241 the cache does own the object: C93_handles says that a cache which names an object keeps it."
  },
  {
   "property": "C94",
   "status": "proved",
   "theorems": [
    "C94_accessors",
    "C94_constructor",
    "C94_default",
    "C94_textbook_lru",
    "C94_keys_unique",
    "C94_frame",
    "C94_only_undefined",
    "C94_only_terminated"
   ],
   "note": ""
  },
  {
   "property": "C95",
   "status": "partial",
   "theorems": [
    "C95_moved_from_refuted",
    "C95_copy_refuted",
    "C95_exchange_partial",
    "C95_move_partial",
    "C95_null",
    "C95_copy_partial",
    "C95_direct_partial"
   ],
   "note": "REFUTED: after the move constructor the source has value-initialised hash and equality objects (bc:501-504), so with function pointers any later insertion or lookup in it calls a null pointer (C95_moved_from_refuted); and Cache e(d) for a d that is not const is the constructor from a range, which gives the new cache value-initialised objects, so e.contains(k) and d.contains(k) differ (C95_copy_refuted). Proved: swap and move assignment exchange objects with elements, the move constructor carries them, copies made by the copy constructor and copy assignment have them, and exactly what Cache e(d) builds."
  },
  {
   "property": "C96",
   "status": "proved",
   "theorems": [
    "C96_same_calls",
    "C96_one_by_one",
    "C96_range",
    "C96_constructor",
    "C96_assignment",
    "C96_number",
    "C96_clear_expired",
    "C96_equal",
    "C96_copy",
    "C96_copy_assign"
   ],
   "note": "The number of searches of each call; ranges by the textbook machine (range_searches), everything else a number. calm: no search throws."
  },
  {
   "property": "C97",
   "status": "partial",
   "theorems": [
    "C97_has_expired_refuted",
    "C97_equal_refuted",
    "C97_copy_refuted",
    "C97_sealed_partial",
    "C97_copy_partial",
    "C97_all_expired_partial",
    "C97_clear_expired_partial",
    "C97_constructor_partial",
    "C97_range_partial",
    "C97_assignment_partial"
   ],
   "note": "REFUTED: has_expired(key), operator== and copy assignment are noexcept, and so is the part of the copy constructor that searches the copied table: the program ends. Partial: exactly which calls throw, which end the program, and what is left in the caches."
  },
  {
   "property": "C98",
   "status": "proved",
   "theorems": [
    "C98_listed",
    "C98_reference",
    "C98_by_hand",
    "C98_called",
    "C98_dead"
   ],
   "note": "passive: callbacks are recorded and do nothing to the caches. The client's own record (SpecCbRefs.v) against the containers, in programs with copies and failures."
  },
  {
   "property": "C99",
   "status": "proved",
   "theorems": [
    "C99_coherent",
    "C99_history"
   ],
   "note": "For every history of calls (copy construction and copy assignment included) that ends without undefined behaviour, under an equivalence on keys and allocations that do not fail. Calls that are undefined on copies: C37."
  },
  {
   "property": "C100",
   "status": "proved",
   "theorems": [
    "C100_new_key"
   ],
   "note": "Insert and Emplace of an absent key in every such state. Existing keys in copies: C37 (undefined)."
  },
  {
   "property": "C101",
   "status": "proved",
   "theorems": [
    "C101_clear",
    "C101_copy",
    "C101_copy_assign",
    "C101_swap",
    "C101_destroy"
   ],
   "note": "Clear, Copy, CopyAssign, Swap, Destroy in every such state."
  },
  {
   "property": "C102",
   "status": "proved",
   "theorems": [
    "C102_foretold",
    "C102_given",
    "C102_invalid",
    "C102_copy"
   ],
   "note": "All programs with LastAccessed objects; informations are opaque (iterator() and value() are parts of information())."
  },
  {
   "property": "C103",
   "status": "partial",
   "theorems": [
    "C103_key_partial",
    "C103_iterator_partial",
    "C103_not_partial",
    "C103_end_refuted",
    "C103_throw_refuted"
   ],
   "note": "REFUTED: operator== with an iterator dereferences it first, so the comparison with end() is undefined even for an invalid object, and the comparisons are noexcept, so an exception of KeyEqual terminates the program. Proved: the rest (C103_key_partial, C103_iterator_partial, C103_not_partial)."
  },
  {
   "property": "C104",
   "status": "proved",
   "theorems": [
    "C104_insert_range",
    "C104_assign_range",
    "C104_construct",
    "C104_move",
    "C104_move_assign",
    "C104_capacity",
    "C104_shrink",
    "C104_find_absent"
   ],
   "note": ""
  },
  {
   "property": "C105",
   "status": "proved",
   "theorems": [
    "C105_find",
    "C105_put",
    "C105_erase",
    "C105_shrink",
    "C105_capacity"
   ],
   "note": ""
  },
  {
   "property": "C106",
   "status": "proved",
   "theorems": [
    "C106_defined",
    "C106_find",
    "C106_contains",
    "C106_lookup",
    "C106_put",
    "C106_erase"
   ],
   "note": ""
  },
  {
   "property": "C107",
   "status": "proved",
   "theorems": [
    "C107_entry",
    "C107_entry_any",
    "C107_valid",
    "C107_erase_ordered",
    "C107_erase_unordered",
    "C107_erase_found"
   ],
   "note": ""
  }
 ]
}