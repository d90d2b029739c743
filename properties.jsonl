{"id": "C01", "title": "CycleMap: pairing is a bijection and lookups are mutually inverse", "statement": "In every reachable map, get_right(l) returns r exactly when get_left(r) returns the stored left item equal to l; no item belongs to two pairs; contains_left/contains_right hold exactly for items that have a partner; are_paired(l,r) holds exactly when get_right(l) is an item equal to r.", "quantifier": "every history of public CycleMap calls (any length, any items, any order, closures that may panic) that takes fewer than 2^64 ids and in which every drain() iterator is consumed to its end (dropping one early is C15 and C63), every lawful Eq/Hash implementation, every hash function including ones where everything collides, every hash-table slot layout", "why_tests_cant": "The claim ranges over unboundedly many histories, item types, hash functions and table layouts; a test runs one history with one random hasher, in which hash collisions essentially never occur.", "anchors": ["src/cycle_map.rs: CycleMap::get_left, get_right, are_paired, contains_left, contains_right"]}
{"id": "C02", "title": "CycleMap: single copy of each item, len is exact", "statement": "No two stored left items are Eq to each other, nor two right items; len() equals the number of pairs iter() yields, which equals the number of left items and the number of right items; is_empty() iff there is no pair.", "quantifier": "every history of public CycleMap calls (any length, any items, any order, closures that may panic) that takes fewer than 2^64 ids and in which every drain() iterator is consumed to its end (dropping one early is C15 and C63), every lawful Eq/Hash implementation, every hash function including ones where everything collides, every hash-table slot layout", "why_tests_cant": "The claim ranges over unboundedly many histories, item types, hash functions and table layouts; a test runs one history with one random hasher, in which hash collisions essentially never occur.", "anchors": ["src/cycle_map.rs: len, is_empty, iter, iter_left, iter_right"]}
{"id": "C03", "title": "CycleMap::insert: exact effect and exact report", "statement": "After insert(l,r) the map's pairs are exactly (l,r) plus the old pairs that contain neither an item equal to l nor one equal to r; the return value reports exactly the evicted pairs (left slot: the pair that held l; right slot: the pair that held r, unless it is the same pair, which is reported once, on the left).", "quantifier": "every history of public CycleMap calls (any length, any items, any order, closures that may panic) that takes fewer than 2^64 ids and in which every drain() iterator is consumed to its end (dropping one early is C15 and C63), every lawful Eq/Hash implementation, every hash function including ones where everything collides, every hash-table slot layout; every pair inserted", "why_tests_cant": "The claim ranges over unboundedly many histories, item types, hash functions and table layouts; a test runs one history with one random hasher, in which hash collisions essentially never occur.", "anchors": ["src/cycle_map.rs: insert"]}
{"id": "C04", "title": "CycleMap::remove_via_left / remove_via_right remove exactly one pair", "statement": "remove_via_left(l) returns the stored pair whose left item equals l and removes exactly it, or returns None and changes nothing when there is none; symmetrically for the right side. It never panics.", "quantifier": "every history of public CycleMap calls (any length, any items, any order, closures that may panic) that takes fewer than 2^64 ids and in which every drain() iterator is consumed to its end (dropping one early is C15 and C63), every lawful Eq/Hash implementation, every hash function including ones where everything collides, every hash-table slot layout", "why_tests_cant": "The claim ranges over unboundedly many histories, item types, hash functions and table layouts; a test runs one history with one random hasher, in which hash collisions essentially never occur.", "anchors": ["src/cycle_map.rs: remove_via_left, remove_via_right"]}
{"id": "C05", "title": "CycleMap::remove is conditional on being paired together", "statement": "remove(l,r) removes and returns the pair if l and r are paired with each other; otherwise it returns None and the map is unchanged.", "quantifier": "every history of public CycleMap calls (any length, any items, any order, closures that may panic) that takes fewer than 2^64 ids and in which every drain() iterator is consumed to its end (dropping one early is C15 and C63), every lawful Eq/Hash implementation, every hash function including ones where everything collides, every hash-table slot layout", "why_tests_cant": "The claim ranges over unboundedly many histories, item types, hash functions and table layouts; a test runs one history with one random hasher, in which hash collisions essentially never occur.", "anchors": ["src/cycle_map.rs: remove, are_paired"]}
{"id": "C06", "title": "CycleMap: observable behaviour does not depend on hashes or table layout", "statement": "Running the same history with two different hash functions, hasher states and slot layouts produces the same return values (up to iteration order) and maps with the same pairs: colliding hashes never confuse two pairs.", "quantifier": "every pair of hashers and layouts, every history of CycleMap calls in the sense of C01", "why_tests_cant": "Needs all pairs of hash functions, including degenerate ones; a test cannot produce 64-bit collisions with the default hasher.", "anchors": ["src/cycle_map.rs: hash_and_id, just_id, equivalent_key, MappingPair", "src/utils.rs: make_hash, make_hasher"]}
{"id": "C07", "title": "CycleMap::swap_left / swap_right with a present old item: exact effect", "statement": "If old is in the map, swap_left(old,new) turns the pair (l,r) with l equal to old into (new,r), removes the other pair whose left item equals new (if new differs from old), leaves all other pairs alone, and returns SomeLeft(l) or SomeBoth(l, removed pair) accordingly; symmetric for swap_right. SomeRight is never returned.", "quantifier": "every history of public CycleMap calls (any length, any items, any order, closures that may panic) that takes fewer than 2^64 ids and in which every drain() iterator is consumed to its end (dropping one early is C15 and C63), every lawful Eq/Hash implementation, every hash function including ones where everything collides, every hash-table slot layout", "why_tests_cant": "The claim ranges over unboundedly many histories, item types, hash functions and table layouts; a test runs one history with one random hasher, in which hash collisions essentially never occur.", "anchors": ["src/cycle_map.rs: swap_left, swap_left_eq_check, swap_right, swap_right_eq_check"]}
{"id": "C08", "title": "CycleMap::swap_left / swap_right with an absent old item change nothing", "statement": "If old is not in the map, swap_left(old,new) and swap_right(old,new) return Neither and the map is unchanged.", "quantifier": "every history of public CycleMap calls (any length, any items, any order, closures that may panic) that takes fewer than 2^64 ids and in which every drain() iterator is consumed to its end (dropping one early is C15 and C63), every lawful Eq/Hash implementation, every hash function including ones where everything collides, every hash-table slot layout", "why_tests_cant": "Depends on the combination of an absent old item with a present new item over all histories.", "anchors": ["src/cycle_map.rs: swap_left, swap_left_eq_check, swap_right, swap_right_eq_check"]}
{"id": "C09", "title": "CycleMap::swap_*_checked swap only when the expected partner matches", "statement": "swap_left_checked(old,expected,new) behaves as swap_left(old,new) when old and expected are paired together and otherwise returns Neither and changes nothing; symmetric for swap_right_checked.", "quantifier": "every history of public CycleMap calls (any length, any items, any order, closures that may panic) that takes fewer than 2^64 ids and in which every drain() iterator is consumed to its end (dropping one early is C15 and C63), every lawful Eq/Hash implementation, every hash function including ones where everything collides, every hash-table slot layout", "why_tests_cant": "The claim ranges over unboundedly many histories, item types, hash functions and table layouts; a test runs one history with one random hasher, in which hash collisions essentially never occur.", "anchors": ["src/cycle_map.rs: swap_left_checked, swap_right_checked"]}
{"id": "C10", "title": "CycleMap::swap_left_or_insert: swap if old is present, else insert; never panics", "statement": "If old is present it acts as swap_left(old,new); otherwise it acts as insert(new,to_insert), reporting the evicted left item and the evicted right pair.", "quantifier": "every history of public CycleMap calls (any length, any items, any order, closures that may panic) that takes fewer than 2^64 ids and in which every drain() iterator is consumed to its end (dropping one early is C15 and C63), every lawful Eq/Hash implementation, every hash function including ones where everything collides, every hash-table slot layout", "why_tests_cant": "The claim ranges over unboundedly many histories, item types, hash functions and table layouts; a test runs one history with one random hasher, in which hash collisions essentially never occur.", "anchors": ["src/cycle_map.rs: swap_left_or_insert"]}
{"id": "C11", "title": "CycleMap::swap_right_or_insert never panics", "statement": "For every map and arguments swap_right_or_insert(old,new,to_insert) returns normally: swap_right(old,new) if old is present, else insert(to_insert,new).", "quantifier": "every history of public CycleMap calls (any length, any items, any order, closures that may panic) that takes fewer than 2^64 ids and in which every drain() iterator is consumed to its end (dropping one early is C15 and C63), every lawful Eq/Hash implementation, every hash function including ones where everything collides, every hash-table slot layout", "why_tests_cant": "Depends on a particular combination of presence/absence of three items; the authors left a TODO saying all cases should be covered.", "anchors": ["src/cycle_map.rs: swap_right_or_insert"]}
{"id": "C12", "title": "CycleMap: no internal unwrap can fail", "statement": "No reachable map and no arguments make any public CycleMap operation panic through an internal unwrap or unreachable (user closures aside), except as reported under C11 and C15.", "quantifier": "every history of public CycleMap calls (any length, any items, any order, closures that may panic) that takes fewer than 2^64 ids and in which every drain() iterator is consumed to its end (dropping one early is C15 and C63), every lawful Eq/Hash implementation, every hash function including ones where everything collides, every hash-table slot layout", "why_tests_cant": "Panic freedom is a statement about all reachable states.", "anchors": ["src/cycle_map.rs: every .unwrap() and unreachable!()"]}
{"id": "C13", "title": "CycleMap iterators are exact, fused and correctly sized", "statement": "From any reachable map, n calls of next on iter() yield the first n of the map's pairs, each pair exactly once overall, then None forever; size_hint/len always equal the number of items still to come; the same for iter_left and iter_right with the left and right items.", "quantifier": "every map reachable by a history in the sense of C01, every number n of calls, every clone point", "why_tests_cant": "Needs every partial consumption of every map.", "anchors": ["src/cycle_map.rs: Iter, SingleIter, ExactSizeIterator, FusedIterator impls"]}
{"id": "C14", "title": "CycleMap::drain consumed to the end yields every pair once and leaves an empty reusable map", "statement": "Consuming drain() to the end yields each pair exactly once; afterwards the map is empty on both sides and subsequent operations behave as on a new map.", "quantifier": "every history of public CycleMap calls (any length, any items, any order, closures that may panic) that takes fewer than 2^64 ids and in which every drain() iterator is consumed to its end (dropping one early is C15 and C63), every lawful Eq/Hash implementation, every hash function including ones where everything collides, every hash-table slot layout", "why_tests_cant": "The claim ranges over unboundedly many histories, item types, hash functions and table layouts; a test runs one history with one random hasher, in which hash collisions essentially never occur.", "anchors": ["src/cycle_map.rs: drain, DrainIter"]}
{"id": "C15", "title": "CycleMap::drain dropped early drops the remaining pairs", "statement": "If the iterator returned by drain() is dropped before being fully consumed, the remaining pairs are dropped: the map is empty and behaves like a new one.", "quantifier": "every map reachable by a history in the sense of C01, every number of items consumed before the drop", "why_tests_cant": "Every drop point must be covered, including the state seen by later operations.", "anchors": ["src/cycle_map.rs: drain, DrainIter (no Drop impl)"]}
{"id": "C16", "title": "CycleMap::drain_filter removes exactly the pairs selected by the closure", "statement": "However many items are consumed before the iterator is dropped, after the drop exactly the pairs for which the closure returned true are gone (the consumed ones were yielded), all others remain, and the closure is asked about every pair exactly once.", "quantifier": "every map reachable by a history in the sense of C01, every stateful closure, every consumption point", "why_tests_cant": "Ranges over closures with state and over all drop points.", "anchors": ["src/cycle_map.rs: drain_filter, DrainFilterIter, DrainFilterInner::next, ConsumeAllOnDrop"]}
{"id": "C17", "title": "CycleMap: a panicking closure never corrupts the map", "statement": "If the closure passed to retain or drain_filter panics at any visit, the pair being visited stays in the map, no half pair exists, and all later operations behave as on a map holding the remaining pairs.", "quantifier": "every map reachable by a history in the sense of C01, every closure, every panic point", "why_tests_cant": "Crash-point quantification.", "anchors": ["src/cycle_map.rs: retain, drain_filter, DrainFilterInner::next"]}
{"id": "C18", "title": "CycleMap::retain keeps exactly the pairs for which the closure returns true", "statement": "After retain(f) the pairs are exactly the old pairs for which f returned true; f is called exactly once per pair.", "quantifier": "every map reachable by a history in the sense of C01, every stateful closure", "why_tests_cant": "The claim ranges over unboundedly many histories, item types, hash functions and table layouts; a test runs one history with one random hasher, in which hash collisions essentially never occur.", "anchors": ["src/cycle_map.rs: retain, remove_via_hashes_and_id"]}
{"id": "C19", "title": "CycleMap equality is set equality of pairs", "statement": "a == b iff they hold the same pairs up to Eq of the items, regardless of insertion history, hash builders and layouts; it is an equivalence relation.", "quantifier": "every two (three) maps reachable by histories in the sense of C01, each with its own hasher", "why_tests_cant": "The claim ranges over unboundedly many histories, item types, hash functions and table layouts; a test runs one history with one random hasher, in which hash collisions essentially never occur.", "anchors": ["src/cycle_map.rs: PartialEq::eq"]}
{"id": "C20", "title": "CycleMap extend/collect equals inserting one by one; later pairs win", "statement": "extend(xs) leaves the map in the state of inserting the elements left to right; collecting from xs gives a map in which the last pair of xs is always present.", "quantifier": "every list of pairs, every map reachable by a history in the sense of C01", "why_tests_cant": "The claim ranges over unboundedly many histories, item types, hash functions and table layouts; a test runs one history with one random hasher, in which hash collisions essentially never occur.", "anchors": ["src/cycle_map.rs: Extend::extend, FromIterator::from_iter"]}
{"id": "C21", "title": "CycleMap clone is equal and independent", "statement": "A clone is == to the original; any further operations on the clone and on the original give the results each would give alone, and the two behave identically under the same history.", "quantifier": "every map reachable by a history in the sense of C01, every continuation history", "why_tests_cant": "The claim ranges over unboundedly many histories, item types, hash functions and table layouts; a test runs one history with one random hasher, in which hash collisions essentially never occur.", "anchors": ["src/cycle_map.rs: Clone::clone"]}
{"id": "C22", "title": "CycleMap capacity operations never change contents", "statement": "reserve, try_reserve (also when it fails half way), shrink_to and shrink_to_fit leave the set of pairs, all lookups and len unchanged.", "quantifier": "every map reachable by a history in the sense of C01, every argument, every layout change", "why_tests_cant": "The claim ranges over unboundedly many histories, item types, hash functions and table layouts; a test runs one history with one random hasher, in which hash collisions essentially never occur.", "anchors": ["src/cycle_map.rs: reserve, try_reserve, shrink_to, shrink_to_fit"]}
{"id": "C23", "title": "CycleMap clear empties both sides and the map is reusable", "statement": "After clear() no item is found on either side, len is 0 and further operations behave as on a new map.", "quantifier": "every history of public CycleMap calls (any length, any items, any order, closures that may panic) that takes fewer than 2^64 ids and in which every drain() iterator is consumed to its end (dropping one early is C15 and C63), every lawful Eq/Hash implementation, every hash function including ones where everything collides, every hash-table slot layout", "why_tests_cant": "The claim ranges over unboundedly many histories, item types, hash functions and table layouts; a test runs one history with one random hasher, in which hash collisions essentially never occur.", "anchors": ["src/cycle_map.rs: clear"]}
{"id": "C24", "title": "CycleMap serde round trip", "statement": "Deserializing the serialization of a map yields a map equal (==) to it, for every reachable map, provided the element codecs round-trip; deserializing an arbitrary sequence gives the map obtained by inserting its elements in order; a malformed element yields an error.", "quantifier": "every map reachable by a history in the sense of C01, every sequence of encoded elements, every hasher of the new map", "why_tests_cant": "The claim ranges over unboundedly many histories, item types, hash functions and table layouts; a test runs one history with one random hasher, in which hash collisions essentially never occur.", "anchors": ["src/serde.rs: CycleMapVisitor::visit_seq, Serialize::serialize"]}
{"id": "C25", "title": "CycleMap pair ids never repeat while the counter has not been exhausted", "statement": "During the first 2^64-1 id-consuming operations the id counter neither overflows nor assigns an id that is still in use; consequently all CycleMap guarantees hold for every such history, with or without overflow checks.", "quantifier": "every history in the sense of C01", "why_tests_cant": "No test can perform 2^64 insertions.", "anchors": ["src/cycle_map.rs: counter, insert"]}
{"id": "C26", "title": "CycleMap borrowed lookups agree with owned lookups", "statement": "get_left(q) / get_right(q) with a borrowed form q of the key returns what the lookup with any owned key that borrows to something equal to q returns.", "quantifier": "every map reachable by a history in the sense of C01, every Borrow implementation obeying the Borrow contract, every query", "why_tests_cant": "The claim ranges over unboundedly many histories, item types, hash functions and table layouts; a test runs one history with one random hasher, in which hash collisions essentially never occur.", "anchors": ["src/cycle_map.rs: get_left<Q>, get_right<Q>, equivalent_key"]}
{"id": "C27", "title": "PartialCycleMap: pairing is a partial bijection", "statement": "In every reachable map get_right(l)=r iff get_left(r) is the stored item equal to l; is_left_paired(l) iff get_right(l) is Some iff some r satisfies are_paired(l,r); every item has at most one partner; no two items of a side are Eq.", "quantifier": "every history of public PartialCycleMap calls (any length, any items, any order, closures that may panic) that takes fewer than 2^64 ids, never calls unpair(l,r) on items whose partners' hashes collide with theirs (C32, C64), passes drain_filter no closure that accepts the right half of a pair (C40, C64) and leaks no drain() iterator, every lawful Eq/Hash implementation, every hash function including ones where everything collides, every hash-table slot layout", "why_tests_cant": "The claim ranges over unboundedly many histories, item types, hash functions and table layouts; a test runs one history with one random hasher, in which hash collisions essentially never occur.", "anchors": ["src/partial_cycle_map.rs: get_left, get_right, are_paired, is_left_paired, is_right_paired"]}
{"id": "C28", "title": "PartialCycleMap::insert / insert_left / insert_right: exact effect and report", "statement": "insert(l,r) removes the entry holding l and the entry holding r together with their partners, adds the pair (l,r), leaves all other entries alone, and returns exactly what was removed; insert_left(l)/insert_right(r) remove the entry holding the item with its partner, add the item unpaired, and return what was removed.", "quantifier": "every history of public PartialCycleMap calls (any length, any items, any order, closures that may panic) that takes fewer than 2^64 ids, never calls unpair(l,r) on items whose partners' hashes collide with theirs (C32, C64), passes drain_filter no closure that accepts the right half of a pair (C40, C64) and leaks no drain() iterator, every lawful Eq/Hash implementation, every hash function including ones where everything collides, every hash-table slot layout", "why_tests_cant": "The claim ranges over unboundedly many histories, item types, hash functions and table layouts; a test runs one history with one random hasher, in which hash collisions essentially never occur.", "anchors": ["src/partial_cycle_map.rs: insert, insert_left, insert_right"]}
{"id": "C29", "title": "PartialCycleMap::pair pairs exactly two present unpaired items", "statement": "pair(l,r) returns true iff both items are present and unpaired; then they are paired and nothing else changes; if it returns false nothing changes.", "quantifier": "every history of public PartialCycleMap calls (any length, any items, any order, closures that may panic) that takes fewer than 2^64 ids, never calls unpair(l,r) on items whose partners' hashes collide with theirs (C32, C64), passes drain_filter no closure that accepts the right half of a pair (C40, C64) and leaks no drain() iterator, every lawful Eq/Hash implementation, every hash function including ones where everything collides, every hash-table slot layout", "why_tests_cant": "The claim ranges over unboundedly many histories, item types, hash functions and table layouts; a test runs one history with one random hasher, in which hash collisions essentially never occur.", "anchors": ["src/partial_cycle_map.rs: pair"]}
{"id": "C30", "title": "PartialCycleMap::pair_forced re-pairs, releasing old partners in place", "statement": "If both items are present and not already paired together, pair_forced(l,r) pairs them, leaves their former partners in the map unpaired and returns those; otherwise nothing changes and Neither is returned. It never panics.", "quantifier": "every history of public PartialCycleMap calls (any length, any items, any order, closures that may panic) that takes fewer than 2^64 ids, never calls unpair(l,r) on items whose partners' hashes collide with theirs (C32, C64), passes drain_filter no closure that accepts the right half of a pair (C40, C64) and leaks no drain() iterator, every lawful Eq/Hash implementation, every hash function including ones where everything collides, every hash-table slot layout", "why_tests_cant": "The claim ranges over unboundedly many histories, item types, hash functions and table layouts; a test runs one history with one random hasher, in which hash collisions essentially never occur.", "anchors": ["src/partial_cycle_map.rs: pair_forced"]}
{"id": "C31", "title": "PartialCycleMap::pair_forced_remove re-pairs, removing old partners", "statement": "As pair_forced, but the former partners are removed from the map and returned.", "quantifier": "every history of public PartialCycleMap calls (any length, any items, any order, closures that may panic) that takes fewer than 2^64 ids, never calls unpair(l,r) on items whose partners' hashes collide with theirs (C32, C64), passes drain_filter no closure that accepts the right half of a pair (C40, C64) and leaks no drain() iterator, every lawful Eq/Hash implementation, every hash function including ones where everything collides, every hash-table slot layout", "why_tests_cant": "The claim ranges over unboundedly many histories, item types, hash functions and table layouts; a test runs one history with one random hasher, in which hash collisions essentially never occur.", "anchors": ["src/partial_cycle_map.rs: pair_forced_remove"]}
{"id": "C32", "title": "PartialCycleMap::unpair unpairs exactly a pair", "statement": "unpair(l,r) returns true iff l and r are paired together; then both stay in the map unpaired and nothing else changes; otherwise nothing changes.", "quantifier": "every history of public PartialCycleMap calls (any length, any items, any order, closures that may panic) that takes fewer than 2^64 ids, never calls unpair(l,r) on items whose partners' hashes collide with theirs (C32, C64), passes drain_filter no closure that accepts the right half of a pair (C40, C64) and leaks no drain() iterator, every lawful Eq/Hash implementation, every hash function including ones where everything collides, every hash-table slot layout", "why_tests_cant": "The guard compares hashes only, so the claim hinges on inputs whose 64-bit hashes collide.", "anchors": ["src/partial_cycle_map.rs: unpair"]}
{"id": "C33", "title": "PartialCycleMap::remove, remove_left/right, remove_via_left/right: exact effect", "statement": "remove_left(l) removes only l and leaves its partner unpaired; remove_via_left(l) removes l and its partner; remove(l,r) removes the pair iff they are paired together; each returns what was removed; nothing else changes; none panics. Symmetric on the right.", "quantifier": "every history of public PartialCycleMap calls (any length, any items, any order, closures that may panic) that takes fewer than 2^64 ids, never calls unpair(l,r) on items whose partners' hashes collide with theirs (C32, C64), passes drain_filter no closure that accepts the right half of a pair (C40, C64) and leaks no drain() iterator, every lawful Eq/Hash implementation, every hash function including ones where everything collides, every hash-table slot layout", "why_tests_cant": "The claim ranges over unboundedly many histories, item types, hash functions and table layouts; a test runs one history with one random hasher, in which hash collisions essentially never occur.", "anchors": ["src/partial_cycle_map.rs: remove, remove_left, remove_right, remove_via_left, remove_via_right"]}
{"id": "C34", "title": "PartialCycleMap::swap_left / swap_right with a present old item: exact effect", "statement": "The item equal to old is replaced by new keeping its partner (or its unpaired status); another entry holding an item equal to new is removed and returned; nothing else changes; SomeRight is never returned.", "quantifier": "every history of public PartialCycleMap calls (any length, any items, any order, closures that may panic) that takes fewer than 2^64 ids, never calls unpair(l,r) on items whose partners' hashes collide with theirs (C32, C64), passes drain_filter no closure that accepts the right half of a pair (C40, C64) and leaks no drain() iterator, every lawful Eq/Hash implementation, every hash function including ones where everything collides, every hash-table slot layout", "why_tests_cant": "The claim ranges over unboundedly many histories, item types, hash functions and table layouts; a test runs one history with one random hasher, in which hash collisions essentially never occur.", "anchors": ["src/partial_cycle_map.rs: swap_left, swap_right and their eq_check helpers"]}
{"id": "C35", "title": "PartialCycleMap::swap_left / swap_right with an absent old item change nothing", "statement": "If old is absent, Neither is returned and the map is unchanged.", "quantifier": "every history of public PartialCycleMap calls (any length, any items, any order, closures that may panic) that takes fewer than 2^64 ids, never calls unpair(l,r) on items whose partners' hashes collide with theirs (C32, C64), passes drain_filter no closure that accepts the right half of a pair (C40, C64) and leaks no drain() iterator, every lawful Eq/Hash implementation, every hash function including ones where everything collides, every hash-table slot layout", "why_tests_cant": "Needs the combination absent old / present new over all maps.", "anchors": ["src/partial_cycle_map.rs: swap_left, swap_right"]}
{"id": "C36", "title": "PartialCycleMap::swap_*_checked and swap_*_or_insert", "statement": "swap_*_checked swaps iff old and expected are paired; swap_left_or_insert / swap_right_or_insert swap if old is present and otherwise insert the new pair, never panicking.", "quantifier": "every history of public PartialCycleMap calls (any length, any items, any order, closures that may panic) that takes fewer than 2^64 ids, never calls unpair(l,r) on items whose partners' hashes collide with theirs (C32, C64), passes drain_filter no closure that accepts the right half of a pair (C40, C64) and leaks no drain() iterator, every lawful Eq/Hash implementation, every hash function including ones where everything collides, every hash-table slot layout", "why_tests_cant": "Panic freedom over all argument combinations; the authors left a TODO.", "anchors": ["src/partial_cycle_map.rs: swap_left_checked, swap_right_checked, swap_left_or_insert, swap_right_or_insert"]}
{"id": "C37", "title": "PartialCycleMap::iter visits every item", "statement": "iter() yields every pair and every unpaired item of both sides exactly once.", "quantifier": "every history of public PartialCycleMap calls (any length, any items, any order, closures that may panic) that takes fewer than 2^64 ids, never calls unpair(l,r) on items whose partners' hashes collide with theirs (C32, C64), passes drain_filter no closure that accepts the right half of a pair (C40, C64) and leaks no drain() iterator, every lawful Eq/Hash implementation, every hash function including ones where everything collides, every hash-table slot layout", "why_tests_cant": "The claim ranges over unboundedly many histories, item types, hash functions and table layouts; a test runs one history with one random hasher, in which hash collisions essentially never occur.", "anchors": ["src/partial_cycle_map.rs: iter, Iter::next"]}
{"id": "C38", "title": "PartialCycleMap iter_paired / iter_unpaired / iter_left / iter_right are exact", "statement": "iter_paired yields each pair once, iter_unpaired each unpaired item of either side once (lefts first), iter_left/iter_right each item of the side once; then None forever; none of them panics; len() equals the number of items still to come.", "quantifier": "every map reachable by a history in the sense of C27, every number of calls", "why_tests_cant": "The claim ranges over unboundedly many histories, item types, hash functions and table layouts; a test runs one history with one random hasher, in which hash collisions essentially never occur.", "anchors": ["src/partial_cycle_map.rs: PairedIter, UnpairedIter, SingleIter"]}
{"id": "C39", "title": "PartialCycleMap::drain yields every item and leaves the map empty", "statement": "Consuming drain() yields every pair and every unpaired item of either side exactly once; whenever the iterator is dropped the map is empty.", "quantifier": "every map reachable by a history in the sense of C27, every drop point", "why_tests_cant": "Every drop point and every number of unpaired right items.", "anchors": ["src/partial_cycle_map.rs: drain, DrainIter::next, Drop for DrainIter"]}
{"id": "C40", "title": "PartialCycleMap::drain_filter removes exactly the selected entries", "statement": "After the iterator is dropped, exactly the entries (pairs, unpaired lefts, unpaired rights) for which the closure returned true are gone, the others are intact and the map is consistent.", "quantifier": "every map reachable by a history in the sense of C27, every closure, every consumption point", "why_tests_cant": "Ranges over closures and drop points.", "anchors": ["src/partial_cycle_map.rs: drain_filter, DrainFilterInner::next"]}
{"id": "C41", "title": "PartialCycleMap::retain / retain_paired / retain_unpaired keep what the closure accepts", "statement": "retain(f) drops exactly the entries for which f returns false; retain_paired considers only pairs, retain_unpaired only unpaired items.", "quantifier": "every map reachable by a history in the sense of C27, every closure", "why_tests_cant": "The claim ranges over unboundedly many histories, item types, hash functions and table layouts; a test runs one history with one random hasher, in which hash collisions essentially never occur.", "anchors": ["src/partial_cycle_map.rs: retain, retain_paired, retain_unpaired"]}
{"id": "C42", "title": "PartialCycleMap equality is equality of contents", "statement": "a == b iff they have the same pairs and the same unpaired items; it is an equivalence relation.", "quantifier": "every two (three) maps reachable by histories in the sense of C27", "why_tests_cant": "The claim ranges over unboundedly many histories, item types, hash functions and table layouts; a test runs one history with one random hasher, in which hash collisions essentially never occur.", "anchors": ["src/partial_cycle_map.rs: PartialEq::eq"]}
{"id": "C43", "title": "PartialCycleMap size_hint is a valid bound", "statement": "For iter, iter_paired, iter_unpaired, drain and drain_filter, size_hint() brackets the number of items actually still to come.", "quantifier": "every map reachable by a history in the sense of C27, every consumption point", "why_tests_cant": "The claim ranges over unboundedly many histories, item types, hash functions and table layouts; a test runs one history with one random hasher, in which hash collisions essentially never occur.", "anchors": ["src/partial_cycle_map.rs: size_hint impls"]}
{"id": "C44", "title": "PartialCycleMap extend/collect equals inserting one by one", "statement": "extend over pairs or OptionalPairs equals the left-to-right sequence of insert/insert_left/insert_right calls (Neither ignored).", "quantifier": "every list, every map reachable by a history in the sense of C27", "why_tests_cant": "The claim ranges over unboundedly many histories, item types, hash functions and table layouts; a test runs one history with one random hasher, in which hash collisions essentially never occur.", "anchors": ["src/partial_cycle_map.rs: Extend, FromIterator impls"]}
{"id": "C45", "title": "PartialCycleMap: results do not depend on hashes or layout; no internal unwrap fails", "statement": "The same history run with any two hashers and table layouts returns the same values (up to order of iteration, the choice of the one unpaired right item a finished drain yields, and the outcome of try_reserve) and leaves the same contents. A call panics only if a closure passed to it does, or in the swap_*_or_insert situation of C36.", "quantifier": "every history in the sense of C27 whose closures answer from the entry alone and whose drain_filter iterators are not leaked, every two hashers and layouts", "why_tests_cant": "Needs all hash functions.", "anchors": ["src/partial_cycle_map.rs: hash_and_id, just_id, every .unwrap()"]}
{"id": "C46", "title": "PartialCycleMap clone, clear and capacity operations", "statement": "clone yields a map with the same contents that evolves independently; clear empties both sides; reserve_*/try_reserve_*/shrink_* never change contents; len_left/len_right are exact; is_empty iff no item on either side.", "quantifier": "every history of public PartialCycleMap calls (any length, any items, any order, closures that may panic) that takes fewer than 2^64 ids, never calls unpair(l,r) on items whose partners' hashes collide with theirs (C32, C64), passes drain_filter no closure that accepts the right half of a pair (C40, C64) and leaks no drain() iterator, every lawful Eq/Hash implementation, every hash function including ones where everything collides, every hash-table slot layout", "why_tests_cant": "The claim ranges over unboundedly many histories, item types, hash functions and table layouts; a test runs one history with one random hasher, in which hash collisions essentially never occur.", "anchors": ["src/partial_cycle_map.rs: clone, clear, reserve_left, shrink_to_fit, len_left, is_empty"]}
{"id": "C47", "title": "GroupMap: every left item belongs to exactly one group, lookups agree", "statement": "In every reachable map get_right(l)=r iff l is among get_left_iter(r) iff are_paired(l,r); every left item has exactly one right item; is_right_paired(r) iff get_left_iter(r) is non-empty; no two items of a side are Eq.", "quantifier": "every calm history of public GroupMap calls (any length, any items, any order, closures that may panic; calm leaves out exactly the calls whose defects are reported under C48, C50, C51 and C56: insert of a pair already there, swap_right/swap_right_remove of a right item with left items or onto one already present, retain_paired whose closure answers true to a pair), every lawful Eq/Hash implementation, every hash function including ones where everything collides, every hash-table slot layout", "why_tests_cant": "The claim ranges over unboundedly many histories, item types, hash functions and table layouts; a test runs one history with one random hasher, in which hash collisions essentially never occur.", "anchors": ["src/group_map.rs: get_right, get_left_iter, are_paired, is_right_paired"]}
{"id": "C48", "title": "GroupMap::insert: exact effect", "statement": "After insert(l,r) l is paired with r, all other left items keep their right item, no right item disappears, stored items equal to the arguments are kept; in particular are_paired(l,r) holds.", "quantifier": "every calm history of public GroupMap calls (any length, any items, any order, closures that may panic; calm leaves out exactly the calls whose defects are reported under C48, C50, C51 and C56: insert of a pair already there, swap_right/swap_right_remove of a right item with left items or onto one already present, retain_paired whose closure answers true to a pair), every lawful Eq/Hash implementation, every hash function including ones where everything collides, every hash-table slot layout; the call itself is any call, not only a calm one", "why_tests_cant": "Includes inserting a pair that is already there, in any history.", "anchors": ["src/group_map.rs: insert"]}
{"id": "C49", "title": "GroupMap::insert_remove, insert_left, insert_right: exact effect and report", "statement": "insert_remove(l,r) removes l from its group and r with its whole group, then adds the group {l}->r, returning what was removed; insert_left(l,r) moves a fresh l to r's group if r is present and otherwise does nothing; insert_right(r) replaces r's group by an empty group, returning the removed group.", "quantifier": "every calm history of public GroupMap calls (any length, any items, any order, closures that may panic; calm leaves out exactly the calls whose defects are reported under C48, C50, C51 and C56: insert of a pair already there, swap_right/swap_right_remove of a right item with left items or onto one already present, retain_paired whose closure answers true to a pair), every lawful Eq/Hash implementation, every hash function including ones where everything collides, every hash-table slot layout", "why_tests_cant": "The claim ranges over unboundedly many histories, item types, hash functions and table layouts; a test runs one history with one random hasher, in which hash collisions essentially never occur.", "anchors": ["src/group_map.rs: insert_remove, insert_left, insert_right"]}
{"id": "C50", "title": "GroupMap::swap_right re-pairs all of old's items with new", "statement": "swap_right(old,new): every left item of old's group is afterwards paired with new, old stays unpaired, everything else is unchanged, right items stay distinct.", "quantifier": "every calm history of public GroupMap calls (any length, any items, any order, closures that may panic; calm leaves out exactly the calls whose defects are reported under C48, C50, C51 and C56: insert of a pair already there, swap_right/swap_right_remove of a right item with left items or onto one already present, retain_paired whose closure answers true to a pair), every lawful Eq/Hash implementation, every hash function including ones where everything collides, every hash-table slot layout; the call itself is any call, not only a calm one", "why_tests_cant": "The defect is only visible in later lookups through ids, depends on hashes.", "anchors": ["src/group_map.rs: swap_right"]}
{"id": "C51", "title": "GroupMap::swap_right_remove re-pairs all of old's items with new and removes old", "statement": "As swap_right but old is removed and returned.", "quantifier": "every calm history of public GroupMap calls (any length, any items, any order, closures that may panic; calm leaves out exactly the calls whose defects are reported under C48, C50, C51 and C56: insert of a pair already there, swap_right/swap_right_remove of a right item with left items or onto one already present, retain_paired whose closure answers true to a pair), every lawful Eq/Hash implementation, every hash function including ones where everything collides, every hash-table slot layout; the call itself is any call, not only a calm one", "why_tests_cant": "As C50.", "anchors": ["src/group_map.rs: swap_right_remove"]}
{"id": "C52", "title": "GroupMap::pair moves one left item to another group", "statement": "pair(l,r) returns true iff both are present; then l is in r's group (also if it already was), all other items keep their group; otherwise nothing changes. It never panics.", "quantifier": "every calm history of public GroupMap calls (any length, any items, any order, closures that may panic; calm leaves out exactly the calls whose defects are reported under C48, C50, C51 and C56: insert of a pair already there, swap_right/swap_right_remove of a right item with left items or onto one already present, retain_paired whose closure answers true to a pair), every lawful Eq/Hash implementation, every hash function including ones where everything collides, every hash-table slot layout", "why_tests_cant": "The claim ranges over unboundedly many histories, item types, hash functions and table layouts; a test runs one history with one random hasher, in which hash collisions essentially never occur.", "anchors": ["src/group_map.rs: pair"]}
{"id": "C53", "title": "GroupMap::remove_left / remove_right / remove: exact effect", "statement": "remove_left(l) removes exactly l; remove_right(r) removes r and exactly its group; remove(l,r) does the latter iff l and r are paired; each returns what was removed.", "quantifier": "every calm history of public GroupMap calls (any length, any items, any order, closures that may panic; calm leaves out exactly the calls whose defects are reported under C48, C50, C51 and C56: insert of a pair already there, swap_right/swap_right_remove of a right item with left items or onto one already present, retain_paired whose closure answers true to a pair), every lawful Eq/Hash implementation, every hash function including ones where everything collides, every hash-table slot layout", "why_tests_cant": "The claim ranges over unboundedly many histories, item types, hash functions and table layouts; a test runs one history with one random hasher, in which hash collisions essentially never occur.", "anchors": ["src/group_map.rs: remove_left, remove_right, remove"]}
{"id": "C54", "title": "GroupMap iterators are exact", "statement": "iter() yields (Some l, r) for each paired left item and (None, r) for each unpaired right item exactly once, iter_paired, iter_unpaired, iter_left, iter_right and get_left_iter likewise; then None forever; none panics.", "quantifier": "every map reachable by a calm history (see C47), every number of calls", "why_tests_cant": "The claim ranges over unboundedly many histories, item types, hash functions and table layouts; a test runs one history with one random hasher, in which hash collisions essentially never occur.", "anchors": ["src/group_map.rs: Iter, PairedIter, UnpairedIter, LeftIter, RightIter, PairIter"]}
{"id": "C55", "title": "GroupMap iterator clones and len continue where the original is", "statement": "Cloning an iterator yields the remaining items of the original, and len() is the number of items still to come, at every point of the iteration; size_hint brackets the number of items to come.", "quantifier": "every map reachable by a calm history (see C47), every clone point", "why_tests_cant": "Every clone point must be considered.", "anchors": ["src/group_map.rs: Clone for Iter, ExactSizeIterator for Iter, size_hint"]}
{"id": "C56", "title": "GroupMap::retain_paired / retain_unpaired keep what the closure accepts and leave a consistent map", "statement": "retain_paired(f) drops exactly the left items for which f returns false; retain_unpaired(f) drops exactly the unpaired right items for which f returns false; afterwards the map is consistent.", "quantifier": "every map reachable by a calm history (see C47), every closure", "why_tests_cant": "The claim ranges over unboundedly many histories, item types, hash functions and table layouts; a test runs one history with one random hasher, in which hash collisions essentially never occur.", "anchors": ["src/group_map.rs: retain_paired, retain_unpaired, remove_via_hash_and_id"]}
{"id": "C57", "title": "GroupMap equality is equality of contents", "statement": "a == b iff they hold the same groups; it is an equivalence relation.", "quantifier": "every two (three) maps reachable by calm histories (see C47)", "why_tests_cant": "The claim ranges over unboundedly many histories, item types, hash functions and table layouts; a test runs one history with one random hasher, in which hash collisions essentially never occur.", "anchors": ["src/group_map.rs: PartialEq::eq"]}
{"id": "C58", "title": "GroupMap extend/collect equals inserting one by one", "statement": "extend equals the left-to-right sequence of insert / insert_right calls; the last pair given for a left item determines its group.", "quantifier": "every list (also with duplicates), every map reachable by a calm history (see C47)", "why_tests_cant": "The claim ranges over unboundedly many histories, item types, hash functions and table layouts; a test runs one history with one random hasher, in which hash collisions essentially never occur.", "anchors": ["src/group_map.rs: Extend, FromIterator impls"]}
{"id": "C59", "title": "GroupMap: no internal unwrap fails, results independent of hashes", "statement": "A history that is calm for one hash function is calm for every other; the results are the same up to the order of iteration, and no call panics unless a closure passed to it does. The same holds for the wider class of histories of C69.", "quantifier": "every calm history (see C47), every two hash functions, hasher states and table layouts over the same Eq; closures that answer from the item alone (for the first part), any closure (for panics)", "why_tests_cant": "Needs all hash functions and all histories.", "anchors": ["src/group_map.rs: every .unwrap()"]}
{"id": "C60", "title": "GroupMap clone, clear, len, is_empty", "statement": "clone has the same contents and evolves independently; clear empties both sides; len_left/len_right are exact; is_empty iff there is no item.", "quantifier": "every calm history of public GroupMap calls (any length, any items, any order, closures that may panic; calm leaves out exactly the calls whose defects are reported under C48, C50, C51 and C56: insert of a pair already there, swap_right/swap_right_remove of a right item with left items or onto one already present, retain_paired whose closure answers true to a pair), every lawful Eq/Hash implementation, every hash function including ones where everything collides, every hash-table slot layout", "why_tests_cant": "The claim ranges over unboundedly many histories, item types, hash functions and table layouts; a test runs one history with one random hasher, in which hash collisions essentially never occur.", "anchors": ["src/group_map.rs: clone, clear, len_left, len_right, is_empty"]}
{"id": "C61", "title": "OptionalPair conversions are mutually inverse", "statement": "Converting to (Option,Option) or Option<(Option,Option)> and back is the identity; converting from them loses nothing (Some((None,None)) and None both become Neither).", "quantifier": "every value of every type", "why_tests_cant": "All types and values.", "anchors": ["src/optionals.rs: From impls"]}
{"id": "C62", "title": "OptionalPair map/map_left/map_right/convert/cloned act componentwise", "statement": "They apply the functions exactly to the present components and preserve the variant; map satisfies identity and composition laws; is_none/is_some/get_left/get_right agree with the option pair view.", "quantifier": "every value, every function", "why_tests_cant": "All types and functions.", "anchors": ["src/optionals.rs: map, map_left, map_right, convert, cloned, is_none, get_left, get_right"]}
{"id": "C63", "title": "CycleMap: the pairing is a bijection after any history, also with drain iterators dropped early", "statement": "C01 without its restriction on drain: after any history, including ones that drop a drain() iterator before its end, every left item has exactly one partner and vice versa.", "quantifier": "every history of public CycleMap calls", "why_tests_cant": "The claim ranges over unboundedly many histories, item types, hash functions and table layouts; a test runs one history with one random hasher, in which hash collisions essentially never occur.", "anchors": ["src/cycle_map.rs: drain, DrainIter, Drop for DrainIter"]}
{"id": "C64", "title": "PartialCycleMap: the pairing is a partial bijection after any history", "statement": "C27 without its restrictions: after any history, including unpair with colliding hashes and drain_filter with any closure, an item that counts as paired has a partner, and iterating does not panic.", "quantifier": "every history of public PartialCycleMap calls", "why_tests_cant": "The claim ranges over unboundedly many histories, item types, hash functions and table layouts; a test runs one history with one random hasher, in which hash collisions essentially never occur.", "anchors": ["src/partial_cycle_map.rs: unpair, drain_filter"]}
{"id": "C65", "title": "PartialCycleMap refines a hash-free partial bijection along histories", "statement": "Every history returns call by call what a plain list of entries (pairs, unpaired lefts, unpaired rights) would return, up to the order of iteration, and ends with the same entries.", "quantifier": "every history in the sense of C27", "why_tests_cant": "The claim ranges over unboundedly many histories, item types, hash functions and table layouts; a test runs one history with one random hasher, in which hash collisions essentially never occur.", "anchors": ["src/partial_cycle_map.rs: every public function"]}
{"id": "C66", "title": "PartialCycleMap ids", "statement": "Ids are below the counter; two items of a side never share an id; a left and a right item share an id exactly when they are paired together.", "quantifier": "every map reachable by a history in the sense of C27", "why_tests_cant": "The claim ranges over unboundedly many histories, item types, hash functions and table layouts; a test runs one history with one random hasher, in which hash collisions essentially never occur.", "anchors": ["src/partial_cycle_map.rs: MappingPair, counter"]}
{"id": "C67", "title": "PartialCycleMap lookups by a borrowed form of the key", "statement": "get_left(q) / get_right(q) with a borrowed form q of the key returns what the lookup with any owned key that borrows to something equal to q returns.", "quantifier": "every map reachable by a history in the sense of C27, every Borrow implementation obeying the Borrow contract, every query", "why_tests_cant": "The claim ranges over unboundedly many histories, item types, hash functions and table layouts; a test runs one history with one random hasher, in which hash collisions essentially never occur.", "anchors": ["src/partial_cycle_map.rs: get_left, get_right"]}
{"id": "C68", "title": "GroupMap: lookups agree after any history", "statement": "C47 without its restriction to calm histories: after any history get_right, are_paired and is_right_paired agree, and no call panics.", "quantifier": "every history of public GroupMap calls", "why_tests_cant": "The claim ranges over unboundedly many histories, item types, hash functions and table layouts; a test runs one history with one random hasher, in which hash collisions essentially never occur.", "anchors": ["src/group_map.rs: insert, swap_right, retain_paired"]}
{"id": "C69", "title": "GroupMap refines plain lists of right items and pairs along histories", "statement": "Every calm history returns call by call what a list of right items and a list of pairs would return, up to the order of iteration, and ends with the same contents. Histories may also contain the calls left out of calm histories (except re-inserting an existing pair and swapping onto an item already present), as long as later calls stay off the damaged groups, as judged by public lookups (get_right finds a right item l is paired with; get_left_iter does not panic): then the results are still those of the lists.", "quantifier": "every such history, every lawful Eq/Hash, every hash function and table layout", "why_tests_cant": "The claim ranges over unboundedly many histories, item types, hash functions and table layouts; a test runs one history with one random hasher, in which hash collisions essentially never occur.", "anchors": ["src/group_map.rs: every public function"]}
{"id": "C70", "title": "GroupMap lookups by a borrowed form of the key", "statement": "A lookup with a borrowed form q of the key returns what the lookup with any owned key equal to q returns.", "quantifier": "every map whatsoever, every Borrow implementation obeying the Borrow contract, every query", "why_tests_cant": "The claim ranges over unboundedly many histories, item types, hash functions and table layouts; a test runs one history with one random hasher, in which hash collisions essentially never occur.", "anchors": ["src/group_map.rs: get_right, get_left_iter"]}
{"id": "C71", "title": "GroupMap ids", "statement": "Left ids are below the left counter and right ids below the right counter, each distinct on its side; the right id stored with a left item is that of the right item it is paired with.", "quantifier": "every map reachable by a calm history", "why_tests_cant": "The claim ranges over unboundedly many histories, item types, hash functions and table layouts; a test runs one history with one random hasher, in which hash collisions essentially never occur.", "anchors": ["src/group_map.rs: MappingPair, left_counter, right_counter"]}
{"id": "C72", "title": "CycleMap sides after any history at all", "statement": "Each side of the map is a set of pairwise non-equal items, all of them handed over by some call; iter_left/iter_right, contains_left/contains_right, len and is_empty agree about it, and lookups only return items of it. An insert that returns leaves the two items stored and paired with each other. remove_via_left/remove_via_right leave no equal item behind, even if they panic.", "quantifier": "every history of public CycleMap calls, without restriction: drains dropped or leaked anywhere, wrapped counters, caught panics", "why_tests_cant": "The claim ranges over unboundedly many histories, item types, hash functions and table layouts; a test runs one history with one random hasher, in which hash collisions essentially never occur.", "anchors": ["src/cycle_map.rs: every public function"]}
{"id": "C73", "title": "PartialCycleMap sides after any history at all", "statement": "Each side of the map is a set of pairwise non-equal items, all of them handed over by some call; the single-side iterators and membership tests agree about it, iter() never panics and yields every left item exactly once, and lookups only return items of the map. Insertions and pairings that return have taken effect; removals leave no equal item behind, even if they panic.", "quantifier": "every history of public PartialCycleMap calls, without restriction: colliding unpair, torn pairs, leaked drains, wrapped counters, caught panics", "why_tests_cant": "The claim ranges over unboundedly many histories, item types, hash functions and table layouts; a test runs one history with one random hasher, in which hash collisions essentially never occur.", "anchors": ["src/partial_cycle_map.rs: every public function"]}
{"id": "C74", "title": "GroupMap sides after any history at all", "statement": "The left side of the map is a set of pairwise non-equal items; every item on either side was handed over by some call; iter_left/iter_right, contains_left/contains_right, the lengths, is_empty, get_left_iter and the other lookups agree about what is there. Items inserted by a call that returns are there afterwards; remove_left leaves no equal item behind, even if it panics.", "quantifier": "every history of public GroupMap calls, without restriction: repeated insertions, any swaps, dropped pairs, wrapped counters, caught panics", "why_tests_cant": "The claim ranges over unboundedly many histories, item types, hash functions and table layouts; a test runs one history with one random hasher, in which hash collisions essentially never occur.", "anchors": ["src/group_map.rs: every public function"]}
{"id": "C75", "title": "GroupMap right side is a set", "statement": "After any history the right items are pairwise non-equal, remove_right leaves no equal item behind, and insert_remove, pair and insert of a new item leave the two items paired.", "quantifier": "every history of public GroupMap calls, without restriction", "why_tests_cant": "The claim ranges over unboundedly many histories, item types, hash functions and table layouts; a test runs one history with one random hasher, in which hash collisions essentially never occur.", "anchors": ["src/group_map.rs: swap_right, swap_right_remove, remove_right, insert, pair"]}
{"id": "C76", "title": "CycleMap Debug output", "statement": "Printing a CycleMap with {:?} never panics and shows every pair exactly once, in the form {(left, right), ...}; printing iter(), iter_left() or iter_right() shows exactly the items the iterator has still to yield and does not advance it.", "quantifier": "every reachable map, every Debug implementation of the items, every point of an iteration", "why_tests_cant": "The claim ranges over all maps, items and Debug texts; a test prints one map.", "anchors": ["src/cycle_map.rs:1125-1134", "src/cycle_map.rs:1199-1208", "src/cycle_map.rs:1267-1274"]}
{"id": "C77", "title": "PartialCycleMap Debug output", "statement": "Printing a PartialCycleMap with {:?} never panics and shows every pair and every unpaired item exactly once; printing one of its iterators shows exactly what it has still to yield.", "quantifier": "every reachable map, every Debug implementation of the items, every point of an iteration", "why_tests_cant": "The claim ranges over all maps, items and Debug texts; a test prints one map.", "anchors": ["src/partial_cycle_map.rs:1729-1738", "src/partial_cycle_map.rs:2003-2012", "src/partial_cycle_map.rs:2074-2083", "src/partial_cycle_map.rs:2151-2160", "src/partial_cycle_map.rs:2229-2236"]}
{"id": "C78", "title": "GroupMap Debug output", "statement": "Printing a GroupMap with {:?} never panics and shows every pair and every right item without left items exactly once; printing one of its iterators shows exactly what it has still to yield.", "quantifier": "every reachable map, every Debug implementation of the items, every point of an iteration", "why_tests_cant": "The claim ranges over all maps, items and Debug texts; a test prints one map.", "anchors": ["src/group_map.rs:1050-1059", "src/group_map.rs:1313-1332", "src/group_map.rs:1418-1427", "src/group_map.rs:1491-1500", "src/group_map.rs:1558-1565", "src/group_map.rs:1601-1608", "src/group_map.rs:1646-1653"]}
{"id": "C79", "title": "OptionalPair Debug output", "statement": "The {:?} text of an OptionalPair tells its variants apart and contains the text of each of its items.", "quantifier": "every OptionalPair, every Debug implementation of the items", "why_tests_cant": "The claim ranges over all maps, items and Debug texts; a test prints one map.", "anchors": ["src/optionals.rs:163-186"]}
{"id": "C80", "title": "CycleMap capacity", "statement": "capacity() is never below len(). with_capacity(n) gives capacity() >= n, and no history that adds at most n items to each side reallocates. reserve(n) leaves capacity() >= len() + n with the same guarantee for n more items, does not reallocate if there was room, and capacity() does not go down; try_reserve(n) the same if it returns Ok. clear() and drain() keep the allocated memory. shrink_to(n) keeps at least min(capacity(), n) and room for all pairs; shrink_to_fit() room for all pairs; neither allocates.", "quantifier": "every map obtainable by any history of calls (iterators of drain dropped, not leaked), lawful or unlawful Eq and Hash; every table meeting hashbrown's capacity contract", "why_tests_cant": "The claim ranges over all histories, item types and allocation policies; a test sees one table size.", "anchors": ["src/cycle_map.rs:117-119", "src/cycle_map.rs:900-967", "src/cycle_map.rs:1018-1045", "src/cycle_map.rs:1094-1097", "src/cycle_map.rs:796-802"]}
{"id": "C81", "title": "CycleMap capacity holds for both sets", "statement": "Both sets always have the same capacity, so capacity() - len() more pairs can be inserted without reallocating.", "quantifier": "every map obtainable by any history of calls (iterators of drain dropped, not leaked), lawful or unlawful Eq and Hash; every table meeting hashbrown's capacity contract", "why_tests_cant": "The claim ranges over all histories, item types and allocation policies; a test sees one table size.", "anchors": ["src/cycle_map.rs:1030-1045"]}
{"id": "C82", "title": "PartialCycleMap capacity", "statement": "capacity_left() is never below len_left(), and capacity_left() - len_left() more left items go in without the left set being reallocated; with_capacity(n), reserve_left(n), try_reserve_left(n) give the promised room, without reallocating if it was there and without touching the right set; clear() and drain() keep the allocated memory; shrink_to_left(n) keeps min(capacity_left(), n) and room for all left items; the same for the right set; shrink_to_fit() does both.", "quantifier": "every map obtainable by any history of calls (iterators of drain dropped, not leaked), lawful or unlawful Eq and Hash; every table meeting hashbrown's capacity contract", "why_tests_cant": "The claim ranges over all histories, item types and allocation policies; a test sees one table size.", "anchors": ["src/partial_cycle_map.rs:124-126", "src/partial_cycle_map.rs:1366-1376", "src/partial_cycle_map.rs:1580-1705", "src/partial_cycle_map.rs:1818-1857", "src/partial_cycle_map.rs:1919-1922"]}
{"id": "C83", "title": "GroupMap capacity", "statement": "capacity_left() and capacity_right() are never below len_left() and len_right(), and what is spare is room for that many more items without the set being reallocated; with_capacity(n) gives that room on both sides; clear() keeps the allocated memory.", "quantifier": "every map obtainable by any history of calls (iterators of drain dropped, not leaked), lawful or unlawful Eq and Hash; every table meeting hashbrown's capacity contract", "why_tests_cant": "The claim ranges over all histories, item types and allocation policies; a test sees one table size.", "anchors": ["src/group_map.rs:182-184", "src/group_map.rs:1136-1175", "src/group_map.rs:1244-1247"]}
{"id": "C84", "title": "CycleMap clone with distinguishable copies", "statement": "The clone of a map holds the clones of the pairs: its iterators yield, in the same order, the clones of what the original's yield; every lookup answers with the clone of what the original answers and contains_*, are_paired, len and is_empty answer alike; original and clone are equal in both directions; afterwards the clone behaves as the map of the cloned pairs.", "quantifier": "every map (the first part also for maps damaged by defective calls), every lawful Eq and Hash, every Clone of the items returning an Eq-equal value, every hasher Clone that hashes alike", "why_tests_cant": "A test fixes one Clone; a wrong clone may only show for items whose clones are distinguishable, for colliding hashes or for one order of later calls.", "anchors": ["src/cycle_map.rs:1100-1114", "src/cycle_map.rs:1460-1468"]}
{"id": "C85", "title": "PartialCycleMap clone with distinguishable copies", "statement": "The clone of a map holds the clones of the pairs and unpaired items: its iterators yield, in the same order, the clones of what the original's yield; every lookup answers with the clone of what the original answers and contains_*, is_*_paired, are_paired, len_* and is_empty answer alike; original and clone are equal in both directions; afterwards the clone behaves as the map of the cloned entries.", "quantifier": "every map (the first part also for maps damaged by defective calls), every lawful Eq and Hash, every Clone of the items returning an Eq-equal value, every hasher Clone that hashes alike", "why_tests_cant": "A test fixes one Clone; a wrong clone may only show for items whose clones are distinguishable, for colliding hashes or for one order of later calls.", "anchors": ["src/partial_cycle_map.rs:1704-1718", "src/partial_cycle_map.rs:2476-2484"]}
{"id": "C86", "title": "GroupMap clone with distinguishable copies", "statement": "The clone of a map holds the clones of the groups: its iterators (get_left_iter included) yield, in the same order, the clones of what the original's yield; every lookup answers with the clone of what the original answers and contains_*, is_right_paired, are_paired, len_* and is_empty answer alike; original and clone are equal in both directions; afterwards the clone behaves as the map of the cloned contents.", "quantifier": "every map (the first part also for maps damaged by defective calls), every lawful Eq and Hash, every Clone of the items returning an Eq-equal value, every hasher Clone that hashes alike", "why_tests_cant": "A test fixes one Clone; a wrong clone may only show for items whose clones are distinguishable, for colliding hashes or for one order of later calls.", "anchors": ["src/group_map.rs:1024-1039", "src/group_map.rs:1708-1717", "src/group_map.rs:1750-1758"]}
{"id": "C87", "title": "CycleMap: a panic in a call that adds nothing changes nothing", "statement": "If the Hash or Eq of an item (or the closure of retain) panics inside a call that neither adds items nor changes the capacity (lookups, removals, retain, iteration, ==, clear, clone, drain, drain_filter's own hashing), the map is exactly as it was before the call; all later calls behave as if it had not been made.", "quantifier": "every map, every such call, every point at which user code may panic; histories with any number of such panics", "why_tests_cant": "The panic point is a hidden parameter of every call of Hash and Eq; a test can only plant it in a few places.", "anchors": ["src/cycle_map.rs:186-318", "src/cycle_map.rs:633-700", "src/cycle_map.rs:1041-1057", "src/utils.rs:1-35"]}
{"id": "C88", "title": "CycleMap: panic safety of insertions into reserved room", "statement": "If there is room for the new pairs (for instance after reserve), a panic of Hash or Eq inside insert leaves a sound map which holds the old pairs, or those without the pair of the left item, or those without the pairs of both items; nothing else is lost and the new pair is not half in. The same for extend, and for swaps that replace an item by an equal one or whose old item is absent; histories of such calls with panics behave as the list specification says.", "quantifier": "every reachable map, every pair, every panic point, every table satisfying the documented capacity contract", "why_tests_cant": "The states depend on where user code panics and on the layout of two tables.", "anchors": ["src/cycle_map.rs:155-183", "src/cycle_map.rs:350-389", "src/cycle_map.rs:500-540"]}
{"id": "C89", "title": "CycleMap: a panic in insert leaves a sound map", "statement": "Whatever the capacities, after a panic of Hash or Eq inside insert or extend the map is sound: it iterates without panicking, no item is in it without its partner, and only pairs of the two items inserted are missing.", "quantifier": "every reachable map, every pair, every panic point, every way in which a table may lose buckets when its hasher panics", "why_tests_cant": "Needs a panic of Hash exactly while the second of two tables grows.", "anchors": ["src/cycle_map.rs:155-183"]}
{"id": "C90", "title": "CycleMap: a panic in a swap leaves a sound map", "statement": "After a panic of Hash or Eq inside swap_left, swap_right, their _checked and _or_insert forms, the map is sound: it holds the pairs from before, or those without the pair of the new item.", "quantifier": "every reachable map, all arguments, every panic point, every way in which a table may lose buckets when its hasher panics", "why_tests_cant": "Needs a panic of Eq between the two updates of a swap.", "anchors": ["src/cycle_map.rs:350-389", "src/cycle_map.rs:442-468", "src/cycle_map.rs:500-540", "src/cycle_map.rs:595-631"]}
{"id": "C91", "title": "CycleMap: a panic while the capacity changes loses nothing", "statement": "If Hash panics inside shrink_to, shrink_to_fit, reserve or try_reserve, the map still holds exactly the pairs it held before, and behaves accordingly.", "quantifier": "every reachable map, every amount, every panic point, every way in which a table may lose buckets when its hasher panics", "why_tests_cant": "Needs a panic of Hash during a rehash of one of two tables.", "anchors": ["src/cycle_map.rs:884-1040"]}
{"id": "C92", "title": "CycleMap: what survives any panic", "statement": "Whatever was done to a map, with panics of Hash, Eq and closures anywhere, tables losing buckets, and drain iterators dropped early: each side is a set of pairwise non-equal items that were handed over; contains_*, len and is_empty agree with iter_left and iter_right; get_* and are_paired only report items that are there; and after clear() the map behaves as a new one.", "quantifier": "every history of calls with panics anywhere, every lawful Eq and Hash, every table behaviour allowed", "why_tests_cant": "Quantifies over all histories with arbitrary panic points.", "anchors": ["src/cycle_map.rs:60-1175"]}
{"id": "C93", "title": "PartialCycleMap: a panic in a call that adds nothing changes nothing", "statement": "If the Hash or Eq of an item (or a retain closure) panics inside a call that neither adds items nor changes the capacity (lookups, removals, pair, pair_forced, pair_forced_remove, unpair, the three retains, iteration, ==, clear, clone, drain, drain_filter's own hashing), the map is exactly as it was before the call; all later calls behave as if it had not been made.", "quantifier": "every map, every such call, every point at which user code may panic; histories with any number of such panics", "why_tests_cant": "The panic point is a hidden parameter of every call of Hash and Eq; pair_forced alone hashes and compares in a dozen places.", "anchors": ["src/partial_cycle_map.rs:312-575", "src/partial_cycle_map.rs:671-840", "src/partial_cycle_map.rs:1434-1575", "src/partial_cycle_map.rs:1746-1785"]}
{"id": "C94", "title": "PartialCycleMap: panic safety of insertions into reserved room", "statement": "If there is room for the new items (for instance after reserve_left and reserve_right), a panic of Hash or Eq inside insert, insert_left or insert_right leaves a sound map holding the old entries, or those without the entries of the items being inserted; nothing else is lost and nothing is half in. The same for extend, and for swaps that replace an unpaired item or an item by an equal one, or whose old item is absent; histories of such calls with panics behave as the list specification says.", "quantifier": "every reachable map, all items, every panic point, every table satisfying the documented capacity contract", "why_tests_cant": "The states depend on where user code panics and on the layout of two tables.", "anchors": ["src/partial_cycle_map.rs:162-310", "src/partial_cycle_map.rs:842-1140", "src/partial_cycle_map.rs:1932-1960"]}
{"id": "C95", "title": "PartialCycleMap: what survives any panic", "statement": "Whatever was done to a map, with panics of Hash, Eq and closures anywhere, tables losing buckets, and drain iterators dropped early: each side is a set of pairwise non-equal items that were handed over; contains_*, len_* and is_empty agree with iter_left and iter_right; get_*, are_paired and is_*_paired only report items that are there; iter does not panic; and after clear() the map behaves as a new one.", "quantifier": "every history of calls with panics anywhere, every lawful Eq and Hash, every table behaviour allowed", "why_tests_cant": "Quantifies over all histories with arbitrary panic points.", "anchors": ["src/partial_cycle_map.rs:60-2460"]}
{"id": "C96", "title": "PartialCycleMap: a panic in an insertion leaves a sound map", "statement": "Whatever the capacities, after a panic of Hash or Eq inside insert, insert_left, insert_right or extend the map is sound: iterating over the pairs does not panic, no item counts as paired without having a partner, and only the entries of the items inserted are missing.", "quantifier": "every reachable map, all items, every panic point, every way in which a table may lose buckets when its hasher panics", "why_tests_cant": "Needs a panic of Hash exactly while one of two tables grows.", "anchors": ["src/partial_cycle_map.rs:162-310", "src/partial_cycle_map.rs:1932-1960"]}
{"id": "C97", "title": "PartialCycleMap: a panic in a swap leaves a sound map", "statement": "After a panic of Hash or Eq inside swap_left, swap_right, their _checked and _or_insert forms, the map is sound: it holds the entries from before, or those without the entry of the new item.", "quantifier": "every reachable map, all arguments, every panic point, every way in which a table may lose buckets when its hasher panics", "why_tests_cant": "Needs a panic of Eq between the two updates of a swap.", "anchors": ["src/partial_cycle_map.rs:842-1150"]}
{"id": "C98", "title": "PartialCycleMap: a panic while a capacity changes loses nothing", "statement": "If Hash panics inside shrink_to_left, shrink_to_right, shrink_to_fit, reserve_left, reserve_right or their try_ forms, the map still holds exactly the entries it held before, and behaves accordingly.", "quantifier": "every reachable map, every amount, every panic point, every way in which a table may lose buckets when its hasher panics", "why_tests_cant": "Needs a panic of Hash during a rehash of one of two tables.", "anchors": ["src/partial_cycle_map.rs:1580-1710"]}
{"id": "C99", "title": "GroupMap: panicking Hash or Eq leaves lookups, remove_left and retain without effect", "statement": "If Hash or Eq of an item panics inside a lookup, iteration, ==, remove_left, retain_paired, retain_unpaired, clear, clone or a length query, the map is exactly the map before the call; a later history goes on as if the call had not been made.", "quantifier": "every map whatsoever for single calls, every panic point; for histories every reachable map and every calm history in which only such calls panic", "why_tests_cant": "Needs user code that panics at every possible point of every call; tests use derived implementations.", "anchors": ["src/group_map.rs:605-680", "src/group_map.rs:706-733", "src/group_map.rs:787-1095"]}
{"id": "C100", "title": "GroupMap: panics in roomy calls leave a consistent map", "statement": "If the tables have room for what a call adds and every right item it removes has at most one left item, then a panic of Hash or Eq inside insert, insert_remove, insert_right, remove, remove_right, a swap of an unpaired right item, pair or insert_left with an absent item, or extend leaves a consistent map: the contents from before the call, or those after a part of its documented removals, or after a prefix of the extended items. All later calls behave accordingly.", "quantifier": "every reachable map, every calm history with panics at any point of such calls, every hash function and table behaviour that rehashes only when there is no room", "why_tests_cant": "Needs panics at every point of every call followed by arbitrary histories.", "anchors": ["src/group_map.rs:231-600", "src/group_map.rs:687-780", "src/group_map.rs:1257-1290"]}
{"id": "C101", "title": "GroupMap sides after any history with any panics", "statement": "Whatever panics of Hash, Eq and closures happened and were caught, the left side is a set of pairwise non-equal items; so is the right side while no swap brings in an item already there. Membership tests, lengths, iterators and lookups agree about what is on the two sides, every item there was handed over by some call, and clear() gives back a map that behaves as a new one.", "quantifier": "every history of public calls with panics anywhere, every hash function, table layout, and way in which tables lose buckets", "why_tests_cant": "Ranges over all histories and panic points; tests have neither panicking items nor colliding hashes.", "anchors": ["src/group_map.rs: every public function"]}
{"id": "C102", "title": "GroupMap: a panic in a removal leaves a consistent map", "statement": "If Hash or Eq panics inside remove_right, remove, insert_right or insert_remove, every left item still has its right item, iterators return, and the map behaves as if it had held the items it now holds from the start.", "quantifier": "every reachable map, every argument, every panic point", "why_tests_cant": "Needs an Eq that panics in the middle of the removal of a group.", "anchors": ["src/group_map.rs:341-367", "src/group_map.rs:434-449", "src/group_map.rs:687-693", "src/group_map.rs:735-751"]}
{"id": "C103", "title": "GroupMap: a panic in an insertion leaves a consistent map", "statement": "If Hash or Eq panics inside insert or extend, the map holds what it held before, or what the items handled so far made of it; iterators return, no pair is reported that was not inserted, and the call can be made again.", "quantifier": "every reachable map, calls that do not insert a present pair again, every panic point", "why_tests_cant": "Needs a Hash that panics while the second of two tables grows.", "anchors": ["src/group_map.rs:231-303", "src/group_map.rs:1257-1290"]}
{"id": "C104", "title": "GroupMap: a panic in pair, insert_left or a swap leaves a consistent map", "statement": "If Hash or Eq panics inside pair, insert_left, swap_right or swap_right_remove, the two sides agree about who is paired with whom, and all iterators return.", "quantifier": "every reachable map, every argument (swaps of unpaired right items bringing in absent ones), every panic point", "why_tests_cant": "Needs an Eq or Hash that panics between the two writes of a call.", "anchors": ["src/group_map.rs:385-407", "src/group_map.rs:472-497", "src/group_map.rs:515-545", "src/group_map.rs:562-590"]}
{"id": "C105", "title": "GroupMap: a map damaged by a panic can be mended", "statement": "After a panic of Hash or Eq in any call, the left items stranded without right item are exactly those paired with no right item; calling remove_left on each of them (catching its panic) in any order, or repeating the interrupted insert_left, gives a map that behaves as if it had always held the remaining contents. Left items lost in a rehash in place may stay listed by their right items; then this holds for histories that do not touch those right items' groups.", "quantifier": "every reachable map, every calm call, every panic point, every way in which tables lose buckets; also maps after loose histories", "why_tests_cant": "Needs panics at every point of every call followed by arbitrary histories.", "anchors": ["src/group_map.rs:231-600", "src/group_map.rs:687-780", "src/group_map.rs:1257-1290"]}
{"id": "C106", "title": "CycleMap: how often a call runs Hash and Eq", "statement": "\"Lookup speeds on par with the standard HashMap\": contains, get and remove_via calls run Hash once and Eq at most once per stored item whose hash has the tag (7 bits) of the argument's; without such collisions one Hash and at most one Eq, however large the map. Insertions and swaps run a bounded number of lookups and rehash each table at most once, not at all while there is room. Iteration costs one lookup per pair, retain at most four hashes and two searches per pair; capacity changes at most one Hash per item; len, clear, clone, drains and one-sided iterators none. After any history with panics included.", "quantifier": "every history, every call, every hash function and table layout that inspects only buckets with the right tag", "why_tests_cant": "Tests do not count calls of Hash and Eq; worst cases need adversarial hashes.", "anchors": ["README.md:10", "src/lib.rs:4", "src/cycle_map.rs: every public function"]}
{"id": "C107", "title": "PartialCycleMap: how often a call runs Hash and Eq", "statement": "\"Lookup speeds on par with the standard HashMap\": contains, is_paired, get, remove and remove_via calls run Hash once and Eq at most once per stored item whose hash has the tag (7 bits) of the argument's; are_paired, pair and unpair twice that; without such collisions one Hash and at most one Eq per argument, however large the map. Insertions, forced pairings and swaps run a bounded number of lookups and rehash each table at most once, not at all while there is room. Iterating everything costs one lookup per left item, iterating the pairs one Hash per left item, retain at most four hashes and two searches per left item; capacity changes at most one Hash per item; len, clear, clone, drains, one-sided and unpaired iterators none. After any history with panics included.", "quantifier": "every history, every call, every hash function and table layout that inspects only buckets with the right tag", "why_tests_cant": "Tests do not count calls of Hash and Eq; worst cases need adversarial hashes.", "anchors": ["README.md:10", "src/lib.rs:4", "src/partial_cycle_map.rs: every public function"]}
{"id": "C108", "title": "GroupMap: how often a call runs Hash and Eq", "statement": "\"Lookup speeds on par with the standard HashMap\": contains, is_right_paired, get_right, get_left_iter (iterated to its end) and remove_left run Hash once and Eq at most once per stored item whose hash has the tag (7 bits) of the argument's, whatever the size of the map and of the group; without such collisions one Hash and at most one Eq. are_paired costs two lookups, pair three. remove_right costs a lookup, a Hash for every left item of the group and at most one Eq for every two of them. Insertions and swaps run a bounded number of these and rehash each table at most once, not at all while there is room. retain_paired costs at most one lookup per left item, retain_unpaired one per right item; all iterators, len, clear and clone nothing; == one lookup per item yielded. After any history with panics included.", "quantifier": "every history, every call, every hash function and table layout that inspects only buckets with the right tag", "why_tests_cant": "Tests do not count calls of Hash and Eq; worst cases need adversarial hashes.", "anchors": ["README.md:10", "src/lib.rs:4", "src/group_map.rs: every public function"]}
{"id": "C109", "title": "CycleMap: a panic while items are dropped loses nothing but the dropped items", "statement": "Items whose Drop panics: retain, extend, drain_filter and the drop of the map itself leave a map that is a pairing of the items not dropped yet. drain_filter still takes out, and drops once each, every remaining pair its closure accepts (the guard in its destructor works), also when the closure panics first; retain and extend stop at the value whose Drop panicked, with everything before it done and nothing after it touched; the values removed are dropped once each and in order; a second panic aborts. Destructors that do not panic change nothing: the calls are those of the other properties.", "quantifier": "every history, every closure, every Drop with state of its own, every choice of panicking items", "why_tests_cant": "No test has items with a panicking Drop; the behaviour depends on which item panics and on the state of the closure.", "anchors": ["src/cycle_map.rs:861-877", "src/cycle_map.rs:1165-1169", "src/cycle_map.rs:1368-1382"]}
{"id": "C110", "title": "CycleMap: clear and drain empty the map even if a Drop panics", "statement": "After clear() or a dropped drain() the map is empty, even if the Drop of an item panics.", "quantifier": "every history, every Drop", "why_tests_cant": "No test has items with a panicking Drop.", "anchors": ["src/cycle_map.rs:1094-1097"]}
{"id": "C111", "title": "PartialCycleMap: a panic while items are dropped loses nothing but the dropped items", "statement": "Items whose Drop panics: drain_filter (with any closure, also one that panics first) still takes out and drops, once each, everything its closure accepts, and leaves the map it leaves without a panic; retain, retain_paired, retain_unpaired and extend stop at the value whose Drop panicked, with everything before it done, nothing after it touched and every remaining entry whole; a dropped drain empties the map and loses at most unpaired right items; dropping the map drops each item at most once. A second panic aborts. Destructors that do not panic change nothing.", "quantifier": "every history, every closure, every Drop with state of its own, every choice of panicking items", "why_tests_cant": "No test has items with a panicking Drop; the behaviour depends on which item panics and on the state of the closure.", "anchors": ["src/partial_cycle_map.rs:1434-1557", "src/partial_cycle_map.rs:1932-1961", "src/partial_cycle_map.rs:2285-2300", "src/partial_cycle_map.rs:2365-2377"]}
{"id": "C112", "title": "PartialCycleMap: clear empties the map even if a Drop panics", "statement": "After clear() the map is empty, or at least sound, even if the Drop of an item panics.", "quantifier": "every history, every Drop", "why_tests_cant": "No test has items with a panicking Drop.", "anchors": ["src/partial_cycle_map.rs:1919-1922"]}
{"id": "C113", "title": "GroupMap: a panic while items are dropped loses nothing but the dropped items", "statement": "Items whose Drop panics: retain_paired, retain_unpaired and extend stop at the item whose Drop panicked, with everything before it done and nothing after it touched (retain leaves what it leaves for a closure that accepts just that many items); insert, swap_right and swap_right_remove are complete whatever Drop does; every item given up is dropped exactly once, except that after a panic the other left items of a replaced right item may be leaked; dropping the map drops each item at most once. A second panic aborts. Destructors that do not panic change nothing.", "quantifier": "every history (extend, insert, swap_right: every map), every closure, every Drop with state of its own, every order of the sets", "why_tests_cant": "No test has items with a panicking Drop; the behaviour depends on which item panics and on the state of the closure.", "anchors": ["src/group_map.rs:231-303", "src/group_map.rs:472-545", "src/group_map.rs:972-1021", "src/group_map.rs:1257-1279"]}
{"id": "C114", "title": "GroupMap: clear empties the map even if a Drop panics", "statement": "After clear() the map is empty, or at least sound, even if the Drop of an item panics.", "quantifier": "every history, every Drop", "why_tests_cant": "No test has items with a panicking Drop.", "anchors": ["src/group_map.rs:1244-1247"]}
{"id": "C115", "title": "CycleMap: the unsafe iterator code never touches a freed bucket", "statement": "Iterators read only full buckets, in table order, with exact size hints. drain_filter, which removes buckets while its RawIter runs, never reads or removes a bucket that is not full: for any number of next() calls, also after a panic of the closure that was caught, and when the iterator is then dropped or leaked. It fills and moves no bucket, and its results and the tables are those of the safe model.", "quantifier": "every layout of the cells and group width, every map (lawful Eq/Hash not needed), every closure, every sequence of calls", "why_tests_cant": "Use of a freed bucket may go unnoticed in a test, and depends on where in a group the removed buckets are.", "anchors": ["src/cycle_map.rs:830-842", "src/cycle_map.rs:1368-1374", "src/cycle_map.rs:1404-1434"]}
{"id": "C116", "title": "PartialCycleMap: the unsafe iterator code never touches a freed bucket", "statement": "As C115 for drain_filter with its two passes: the right RawIter made at the start is stale once the left pass has removed a right bucket, and is replaced before it is used.", "quantifier": "every layout of the cells and group width, every map (lawful Eq/Hash not needed), every closure, every sequence of calls", "why_tests_cant": "Use of a freed bucket may go unnoticed in a test, and depends on where in a group the removed buckets are.", "anchors": ["src/partial_cycle_map.rs:1401-1417", "src/partial_cycle_map.rs:2371-2377", "src/partial_cycle_map.rs:2402-2446"]}
{"id": "C117", "title": "CycleMap: pairs stay pairs whatever Eq does", "statement": "If equal items have equal hashes, and each call uses the same hashes, then nothing else need hold of Eq: it may be non-reflexive (NaN), asymmetric, intransitive, or change between calls. Items are still stored in pairs; a call removes or changes only pairs that Eq says match, and hands back whole pairs; len counts them. No call panics, except iteration, retain, drain_filter and swap_right_or_insert.", "quantifier": "every history of calls with an Eq (and table layout) of its own per call, except drain iterators dropped early; fewer than 2^64 ids", "why_tests_cant": "f32-like items and buggy Eq impls come in endless varieties; a test picks one and one history.", "anchors": ["src/cycle_map.rs:155-183", "src/cycle_map.rs:274-318", "src/cycle_map.rs:350-389", "src/cycle_map.rs:500-540"]}
{"id": "C118", "title": "CycleMap: iteration lists the stored pairs whatever Eq does", "statement": "With any Eq that respects hashes, iterating yields each stored pair once and does not panic.", "quantifier": "every history as in C117, then iter()", "why_tests_cant": "Depends on which items are odd and on the order of buckets.", "anchors": ["src/cycle_map.rs:1218-1227", "src/cycle_map.rs:669-683"]}
{"id": "C119", "title": "CycleMap: no item is invented or duplicated, whatever Eq and Hash do", "statement": "Of any kind of item, those in the map and those handed back by value never number more than those handed over, on each side. Eq and Hash may be arbitrary, disagree, and change from call to call; calls may panic, iterators may be dropped early or leaked.", "quantifier": "every history of calls whatsoever, every Eq/Hash per call, every layout of the tables that keeps their buckets", "why_tests_cant": "An item handed out twice is a double free; the states that might do it are reached only with broken Eq/Hash and after panics.", "anchors": ["src/cycle_map.rs:155-183", "src/cycle_map.rs:274-318", "src/cycle_map.rs:350-389", "src/cycle_map.rs:500-540", "src/cycle_map.rs:1321-1328", "src/cycle_map.rs:1411-1430"]}
{"id": "C120", "title": "PartialCycleMap: no item is invented or duplicated, whatever Eq and Hash do", "statement": "Of any kind of item, those in the map and those handed back by value never number more than those handed over, on each side. Eq and Hash may be arbitrary, disagree, and change from call to call; calls may panic, iterators may be dropped early or leaked.", "quantifier": "every history of calls whatsoever, every Eq/Hash per call, every layout of the tables that keeps their buckets", "why_tests_cant": "An item handed out twice is a double free; the states that might do it are reached only with broken Eq/Hash and after panics.", "anchors": ["src/partial_cycle_map.rs:162-286", "src/partial_cycle_map.rs:461-541", "src/partial_cycle_map.rs:671-813", "src/partial_cycle_map.rs:842-1120", "src/partial_cycle_map.rs:2285-2460"]}
{"id": "C121", "title": "GroupMap: no item is invented or duplicated, whatever Eq and Hash do", "statement": "Of any kind of item, those in the map and those handed back by value never number more than those handed over, on each side. Eq and Hash may be arbitrary, disagree, and change from call to call; calls may panic.", "quantifier": "every history of calls whatsoever, every Eq/Hash per call, every layout of the tables that keeps their buckets", "why_tests_cant": "An item handed out twice is a double free; the states that might do it are reached only with broken Eq/Hash and after panics.", "anchors": ["src/group_map.rs:231-303", "src/group_map.rs:341-449", "src/group_map.rs:472-545", "src/group_map.rs:706-769", "src/group_map.rs:972-1021"]}
{"id": "C122", "title": "CycleMap obeys the laws of a finite bijection", "statement": "Two maps are == exactly when are_paired answers alike on all items, and equal maps stay equal and give equal results under the same calls. Inserting twice is inserting once; inserts that share no item commute; a fresh insert is undone by any removal; removals commute, and a pair may be removed through either item and put back; a swap equals removing the old pair and inserting the new one, is undone by swapping back if the new item was absent, and does not interfere with a swap on the other side; extending by xs then ys is extending by xs ++ ys, in any order if no item of xs repeats; collecting iter() gives an equal map; retain(p) then retain(q) is retain(p and q); drain_filter(p) leaves what retain(not p) leaves.", "quantifier": "every reachable map, all items, all lawful Eq/Hash, all hashers and layouts, all predicates, all lists", "why_tests_cant": "Each law relates two histories on an arbitrary map, including equal but distinguishable items and colliding hashes.", "anchors": ["src/cycle_map.rs:155-320", "src/cycle_map.rs:350-640", "src/cycle_map.rs:796-890", "src/cycle_map.rs:1137-1190"]}
{"id": "C123", "title": "PartialCycleMap obeys the laws of a finite partial bijection", "statement": "Maps on which contains_left, contains_right and are_paired answer alike stay so, and give equal results, under the same calls (all but drain_filter). pair and unpair undo each other; pair_forced is unpairing both items from their partners and pairing them, pair_forced_remove of two present items is insert; insert is insert_left, insert_right and pair; inserting or removing twice is once; inserts sharing no item commute, insert_left and insert_right always do; removals commute, a pair may be removed through either item or item by item, and be put back; remove_left is unpair then remove_via_left; a swap is a removal and an insertion, is undone by swapping back if the new item was absent and does not interfere with a swap on the other side; the checked and or_insert forms are the plain call, the insert or nothing; extend is a loop of inserts; calls on absent items change nothing.", "quantifier": "every reachable map, all items, all lawful Eq/Hash, all hashers and layouts, all lists", "why_tests_cant": "Each law relates two histories on an arbitrary map of paired and unpaired items, including equal but distinguishable items and colliding hashes.", "anchors": ["src/partial_cycle_map.rs:162-575", "src/partial_cycle_map.rs:671-800", "src/partial_cycle_map.rs:842-1135", "src/partial_cycle_map.rs:1925-1962"]}
{"id": "C124", "title": "GroupMap obeys the laws of a finite map into groups", "statement": "On maps kept consistent (no insert of a pair already paired, no swap of an inhabited group before, retain_paired unused for removal), maps on which contains_left, contains_right and are_paired answer alike stay so, and give equal results, under the same calls. Insertions of different left items commute; insert_left, insert_right and insert_remove twice are once; the last group wins; insert into a present group is insert_left, into an absent one insert_right then insert_left; insert_remove is remove_left, remove_right and insert; an insertion is undone by the removals. pair on present items is insert_left, the last pair wins, pairs of different left items commute, and a left item paired away survives the removal of its old group. Removals are idempotent and commute, remove of a pair is remove_right, a left item removed can be put back. swap_right_remove is undone by swapping back, composes, is swap_right then remove_right, and is the same as inserting the new right item, pairing each left item to it and removing the old one; with the old right item absent a swap is insert_right. extend is a loop of inserts. Calls on absent items change nothing.", "quantifier": "every reachable map (congruence and extend: every loosely reachable map), all items, all lawful Eq/Hash, all hashers and layouts, all lists", "why_tests_cant": "Each law relates two histories on an arbitrary map of groups, including equal but distinguishable items, empty groups and colliding hashes.", "anchors": ["src/group_map.rs:231-460", "src/group_map.rs:472-600", "src/group_map.rs:687-780", "src/group_map.rs:1250-1280"]}
{"id": "C125", "title": "CycleMap treats its two sides alike", "statement": "Take a CycleMap<L, R> and a CycleMap<R, L> whose iter() yields the same pairs turned round, with any hashers and histories. Any sequence of calls on the first and the mirrored calls (left for right) on the second leave such maps again and give mirrored results at every step: insert reports the same pairs with SomeLeft and SomeRight exchanged, remove, swap and lookup calls return the same items, iteration yields the same pairs, closures see the same pairs. swap_left_or_insert and swap_right_or_insert leave mirrored maps too, but their results are mirrored exactly if old is present or neither of the other two items is.", "quantifier": "every two reachable maps holding mirrored pairs, all sequences of calls (closures that answer from the pair alone, drain_filter iterators not leaked), all lawful Eq/Hash on either map, all hashers and layouts", "why_tests_cant": "A test of one side says nothing of the other; the two halves of the code are written out separately, and the two maps may have unrelated hashes, ids and histories.", "anchors": ["src/cycle_map.rs:155-320", "src/cycle_map.rs:350-640", "src/cycle_map.rs:796-890"]}
{"id": "C126", "title": "PartialCycleMap treats its two sides alike", "statement": "Take a PartialCycleMap<L, R> and a PartialCycleMap<R, L> whose iter_paired() and iter_unpaired() yield the same entries turned round, with any hashers and histories. Any sequence of calls other than retain and drain_filter on the first and the mirrored calls on the second leave such maps again and give mirrored results at every step, except iter and drain, which show unpaired left items but not all unpaired right ones. swap_left_or_insert and swap_right_or_insert also give mirrored results (or both panic) exactly unless old is absent and the other two items are paired with each other.", "quantifier": "every two reachable maps holding mirrored entries, all guarded sequences of calls (closures that answer from the entry alone), all lawful Eq/Hash on either map, all hashers and layouts", "why_tests_cant": "A test of one side says nothing of the other; the two halves of the code are written out separately, and the two maps may have unrelated hashes, ids and histories.", "anchors": ["src/partial_cycle_map.rs:162-575", "src/partial_cycle_map.rs:671-800", "src/partial_cycle_map.rs:842-1135"]}
{"id": "C127", "title": "PartialCycleMap without unpaired items behaves like CycleMap", "statement": "Take a CycleMap and a PartialCycleMap that has no unpaired items and holds the same pairs, with any hashers and histories. Any sequence of the calls the two types share leaves them so and gives the same results at every step, up to the return types (insert reports each displaced pair as SomeBoth on its side, remove_via_* return SomeBoth or Neither, swap_* report the evicted pair as SomeBoth); retain does the same with the opposite answers given to PartialCycleMap. swap_*_or_insert leave the same pairs but report alike only in part: swap_left_or_insert exactly if old is present or new is absent; swap_right_or_insert exactly if old is present, or to_insert and new are both absent, or both present and not paired with each other (both panic).", "quantifier": "every reachable CycleMap and PartialCycleMap holding the same pairs, all sequences of shared calls other than drain and drain_filter (closures that answer from the pair alone), all lawful Eq/Hash, all hashers and layouts", "why_tests_cant": "A test of one type says nothing of the other; the two maps may have unrelated hashes, ids and histories, and the differences show only for particular presence of the three items.", "anchors": ["src/cycle_map.rs:155-640", "src/partial_cycle_map.rs:162-1135"]}
{"id": "C128", "title": "extend with a panicking or endless iterator keeps exactly the items given", "statement": "extend takes any iterator. Whatever its next() does - give items, end, panic, or go on for ever - after n calls of next() the map is exactly the map left by inserting the items given so far one by one; a panic of next() reaches the caller, leaves that map, and the map stays usable; nothing else panics. For GroupMap, whose insert may panic or go wrong by itself (C48, C58), extend is the sequence of insert and insert_right calls for the items given, up to the first that panics.", "quantifier": "every reachable CycleMap and PartialCycleMap with enough ids left, every GroupMap at all, every iterator (any state type, any next function), any number of calls of next()", "why_tests_cant": "The iterator is arbitrary user code with arbitrary state and may stop the loop at any point.", "anchors": ["src/cycle_map.rs:1165-1169", "src/partial_cycle_map.rs:1932-1961", "src/group_map.rs:1257-1279"]}
{"id": "C129", "title": "CycleMap: deserializing from an untrusted deserializer", "statement": "Whatever the deserializer does - give elements, end, fail, panic, go on for ever - and whatever size it announces: the result of deserializing is the map with exactly the elements given, inserted in order; an error of the deserializer is passed on; there is no panic but the deserializer's own. False as stated: the announced size is trusted, so a document announcing 2^59 elements or more panics even if it is empty, and one announcing c elements makes both sets hold c buckets however few elements it has.", "quantifier": "every deserializer (any state type, any size hint, any next_element function), any number of its calls, every table layout", "why_tests_cant": "The deserializer is arbitrary foreign code and the announced size is arbitrary.", "anchors": ["src/serde.rs:42-54"]}
{"id": "C130", "title": "PartialCycleMap: entries survive any Eq", "statement": "If equal items have equal hashes, and each call uses the same hashes, then nothing else need hold of Eq: it may be non-reflexive (NaN), asymmetric, intransitive, or change between calls. The map is still a collection of pairs and unpaired items; a call removes or changes only entries that Eq says match and hands back whole entries; the lengths, iter_left, iter_right, iter_paired and iter_unpaired tell exactly these entries. No call panics, except the three retains, drain_filter and the two swap_or_insert calls. Not covered: unpair and drain_filter in the cases of C32 and C40, and retain_paired/retain_unpaired when a lookup of the item to drop leads to an entry of the wrong kind (C131).", "quantifier": "every history of calls with an Eq (and table layout) of its own per call meeting the four conditions named; fewer than 2^64 ids", "why_tests_cant": "f32-like items and buggy Eq impls come in endless varieties; a test picks one and one history.", "anchors": ["src/partial_cycle_map.rs:162-830", "src/partial_cycle_map.rs:842-1131", "src/partial_cycle_map.rs:1401-1417", "src/partial_cycle_map.rs:2415-2445"]}
{"id": "C131", "title": "PartialCycleMap: iter, retain_paired and retain_unpaired whatever Eq does", "statement": "With any Eq that respects hashes, iter() shows the stored entries that have a left item, and retain_paired and retain_unpaired leave every item either in a pair or unpaired.", "quantifier": "every history as in C130, then one of these calls", "why_tests_cant": "Depends on which items are odd, on colliding hashes and on the order of buckets.", "anchors": ["src/partial_cycle_map.rs:1248", "src/partial_cycle_map.rs:1486-1502", "src/partial_cycle_map.rs:1519-1557"]}
{"id": "C132", "title": "GroupMap: groups survive any Eq", "statement": "If equal items have equal hashes, and each call uses the same hashes, then nothing else need hold of Eq: it may be non-reflexive (NaN), asymmetric, intransitive, or change between calls. The map is still a collection of right items, each with its own left items; a call removes or moves only items that Eq says match, and right items go together with their left items; the lengths and all five iterators tell exactly these items. No call panics, except retain_paired and retain_unpaired. Not covered: insert of two items already paired, swap_right and swap_right_remove of a right item that has left items, and retain_paired that drops a pair (C48, C50, C51, C56).", "quantifier": "every history of calls with an Eq (and table layout) of its own per call meeting the conditions named; fewer than 2^64 ids on each side", "why_tests_cant": "f32-like items and buggy Eq impls come in endless varieties; a test picks one and one history.", "anchors": ["src/group_map.rs:231-785", "src/group_map.rs:787-1021", "src/group_map.rs:1244-1247"]}
{"id": "C133", "title": "GroupMap: remove_right and retain_unpaired whatever Eq does", "statement": "With any Eq that respects hashes, remove_right returns every left item it removes, and retain_unpaired removes exactly the right items without left items to which the closure answered true.", "quantifier": "every history as in C132, then one of these calls", "why_tests_cant": "Depends on which items are odd, on colliding hashes and on the order of buckets.", "anchors": ["src/group_map.rs:735-751", "src/group_map.rs:1005-1021"]}
{"id": "C134", "title": "CycleMap: no item is invented or doubled, whatever user code does during a call", "statement": "Let Hash, BuildHasher, PartialEq::eq and PartialEq::ne of the items do as they like: have side effects, give a different answer each time they are asked (also within one call), contradict one another, panic. Then the items of any kind in the map together with those handed back are still never more than those handed over, and an item to which a call hands out a reference is an item of the map.", "quantifier": "every history of calls, each with user code and a state of the outside world of its own; every predicate on items", "why_tests_cant": "The number of ways user code can answer grows exponentially with the number of comparisons in a call; memory safety of safe code must not depend on them.", "anchors": ["src/cycle_map.rs:100-990", "src/cycle_map.rs:1100-1300"]}
{"id": "C135", "title": "CycleMap: a pair handed back came in as a pair, whatever user code does during a call", "statement": "With user code as in C134, the two items of every pair that a call returns (insert, remove, remove_via_left, remove_via_right, the swaps, drain, drain_filter) were inserted together, or took, by a swap, the place of one that was.", "quantifier": "every history of calls with fewer than 2^64 inserts, each call with user code and a world of its own", "why_tests_cant": "As C134: the answers of user code in the middle of a call decide which entries are searched, removed and re-inserted.", "anchors": ["src/cycle_map.rs:100-640", "src/cycle_map.rs:780-990"]}
{"id": "C136", "title": "PartialCycleMap: no item is invented or doubled, whatever user code does during a call", "statement": "Let Hash, BuildHasher, PartialEq::eq and PartialEq::ne of the items do as they like: have side effects, give a different answer each time they are asked (also within one call), contradict one another, panic. Then the items of any kind in the map together with those handed back are still never more than those handed over, and an item to which a call hands out a reference (get_left, get_right, pair_forced, the iterators) is an item of the map the call leaves.", "quantifier": "every history of calls, each with user code and a state of the outside world of its own; every predicate on items", "why_tests_cant": "The number of ways user code can answer grows exponentially with the number of comparisons in a call; pair_forced and the swaps rewrite entries between two searches.", "anchors": ["src/partial_cycle_map.rs:100-1000", "src/partial_cycle_map.rs:1100-1340"]}
{"id": "C137", "title": "GroupMap: no item is invented or doubled, whatever user code does during a call", "statement": "Let Hash, BuildHasher and PartialEq::eq of the items do as they like: have side effects, give a different answer each time they are asked (also within one call), contradict one another, panic. Then the items of any kind in the map together with those handed back (also those in the HashSet that the remove functions return) are still never more than those handed over, and an item to which a call hands out a reference (get_right, get_left_iter, the iterators) is an item of the map.", "quantifier": "every history of calls, each with user code and a state of the outside world of its own; every predicate on items", "why_tests_cant": "The number of ways user code can answer grows exponentially with the number of comparisons in a call; removing a group runs user code between the removals of its items.", "anchors": ["src/group_map.rs:231-1021", "src/group_map.rs:1257-1682"]}
{"id": "C138", "title": "CycleMap: a call that returns loses no item, whatever user code does", "statement": "With user code as in C134: if insert, remove, remove_via_left, remove_via_right, a lookup, an iteration over references or a change of capacity returns without panicking, or swap_left, swap_right or one of their _checked forms returns something other than Neither, then every item that was in the map or was handed over is afterwards in the map or handed back, exactly once. The exceptions are real even with the usual Eq and Hash: a swap that returns Neither drops the new item and the pair it displaced, and swap_left_or_insert that swaps drops to_insert.", "quantifier": "every map (also one that no lawful history reaches), every call, user code and state of the outside world; every history of such calls; every predicate on items", "why_tests_cant": "The loss happens only for particular answers of user code in the middle of a call, or for maps already broken by earlier lies; the number of ways to answer grows exponentially with the number of comparisons.", "anchors": ["src/cycle_map.rs:155-631", "src/cycle_map.rs:900-966"]}
{"id": "C139", "title": "PartialCycleMap: a call that returns loses no item, whatever user code does", "statement": "With user code as in C136: if one of the insert, pair, unpair or remove functions, a lookup, an iteration over references or a change of capacity returns without panicking, or a swap (not _or_insert) returns something other than Neither, then every item that was in the map or was handed over is afterwards in the map or handed back, exactly once. The exceptions are real even with the usual Eq and Hash: a swap that returns Neither drops the new item and what it displaced, and swap_right_or_insert that swaps drops to_insert.", "quantifier": "every map (also one that no lawful history reaches), every call, user code and state of the outside world; every history of such calls; every predicate on items", "why_tests_cant": "The loss happens only for particular answers of user code in the middle of a call, or for maps already broken by earlier lies; the number of ways to answer grows exponentially with the number of comparisons.", "anchors": ["src/partial_cycle_map.rs:162-1160"]}
{"id": "C140", "title": "GroupMap: which calls that return lose no item, whatever user code does", "statement": "With user code as in C137. Right items: if insert_remove, insert_left, insert_right, remove, remove_left, remove_right, pair, a lookup or an iteration returns without panicking, or swap_right_remove returns Some, then every right item that was in the map or was handed over is afterwards in the map or handed back, exactly once. Left items: the same for remove_left, pair, the lookups and iterations, for insert_left and swap_right_remove if they return Some, and for insert_remove, insert_right, remove and remove_right if they return no group. The exceptions are real: insert and insert_left drop an item with the usual Eq and Hash, swap_right_remove drops a whole group, and the set returned by remove_right lacks a left item if == then calls two left items of the group equal.", "quantifier": "every map (also one that no lawful history reaches), every call, user code and state of the outside world; every history of such calls; every predicate on items", "why_tests_cant": "The loss happens only for particular answers of user code in the middle of a call, or for maps already broken by earlier lies; the number of ways to answer grows exponentially with the number of comparisons.", "anchors": ["src/group_map.rs:231-751"]}
{"id": "C141", "title": "PartialCycleMap: a pair handed back came in as a pair, whatever user code does during a call", "statement": "With user code as in C136, the two items of every pair that a call returns (the insert and remove functions, the swaps, drain, drain_filter) or that iter_paired shows were inserted together, or took, by a swap, the place of one that was, or are a pair that pair, pair_forced or pair_forced_remove was asked for.", "quantifier": "every history of calls that uses fewer than 2^64 ids, each call with user code and a world of its own", "why_tests_cant": "As C134: the answers of user code in the middle of a call decide which entries are searched, removed and re-inserted.", "anchors": ["src/partial_cycle_map.rs:162-1131", "src/partial_cycle_map.rs:1267-1560", "src/partial_cycle_map.rs:2190-2450"]}
{"id": "C142", "title": "CycleMap clone runs Clone once for each item", "statement": "clone() calls Clone once for each left item, in the order of iter_left(), then once for each right item, in the order of iter_right(), then once for the hasher, and never Hash or Eq; a call that panics is the last one. The new map holds exactly what these calls returned, in the same order. If they returned Eq-equal items and a hasher that hashes alike, original and clone are equal in both directions, each pair of the clone consists of what the calls for the items of the same pair of the original returned, and afterwards the clone behaves as the map of those pairs.", "quantifier": "every map (the first part also for maps damaged by defective calls), every Clone, with a state of its own, different results each time and panics; for the second part every lawful Eq and Hash", "why_tests_cant": "A test fixes one Clone; a clone made twice, in another order or mixed up between items only shows for a Clone with effects or with distinguishable results.", "anchors": ["src/cycle_map.rs:1100-1114", "src/cycle_map.rs:1460-1468"]}
{"id": "C143", "title": "PartialCycleMap clone runs Clone once for each item", "statement": "clone() calls Clone once for each left item, in the order of iter_left(), then once for each right item, in the order of iter_right(), then once for the hasher, and never Hash or Eq; a call that panics is the last one. The new map holds exactly what these calls returned, in the same order. If they returned Eq-equal items and a hasher that hashes alike, original and clone are equal in both directions, each entry of the clone consists of what the calls for the items of the same entry of the original returned, and afterwards the clone behaves as the map of those entries.", "quantifier": "every map (the first part also for maps damaged by defective calls), every Clone, with a state of its own, different results each time and panics; for the second part every lawful Eq and Hash", "why_tests_cant": "A test fixes one Clone; a clone made twice, in another order or mixed up between items only shows for a Clone with effects or with distinguishable results.", "anchors": ["src/partial_cycle_map.rs:1704-1718", "src/partial_cycle_map.rs:2476-2484"]}
{"id": "C144", "title": "GroupMap clone runs Clone once for each item", "statement": "clone() calls Clone once for each left item, in the order of iter_left(), then once for each right item, in the order of iter_right(), then once for the hasher, and never Hash or Eq; a call that panics is the last one. The new map holds exactly what these calls returned, in the same order. If they returned Eq-equal items and a hasher that hashes alike, original and clone are equal in both directions, each pair and right item of the clone consists of what the calls for the items of the same pair and right item of the original returned, and afterwards the clone behaves as the map of those groups.", "quantifier": "every map (the first part also for maps damaged by defective calls), every Clone, with a state of its own, different results each time and panics; for the second part every lawful Eq and Hash", "why_tests_cant": "A test fixes one Clone; a clone made twice, in another order or mixed up between items only shows for a Clone with effects or with distinguishable results.", "anchors": ["src/group_map.rs:1024-1039", "src/group_map.rs:1708-1717", "src/group_map.rs:1750-1758"]}
{"id": "C145", "title": "CycleMap Debug output with {:?} and {:#?} into any writer", "statement": "The map prints as the set of its pairs, each once; an iterator (also a partly consumed one) as the list of what it has still to yield. With {:#?} each entry stands on lines of its own, indented by four blanks per level also where an item prints several lines, with a comma behind it. Printing never panics. The writer is given the text in pieces until it refuses one, and nothing after that; fmt returns Ok exactly if all pieces were accepted.", "quantifier": "every map built by the API, every position of every iterator, both flags, every Debug of the items that writes its text and hands on errors, every writer, with a state of its own and refusing at any point", "why_tests_cant": "A test prints a few maps into a String, which never refuses; a writer may stop at any piece and item texts may contain line breaks anywhere.", "anchors": ["src/cycle_map.rs:1125-1134", "src/cycle_map.rs:1199-1208", "src/cycle_map.rs:1267-1274"]}
{"id": "C146", "title": "PartialCycleMap Debug output with {:?} and {:#?} into any writer", "statement": "The map and iter() print the pairs and the unpaired left items; iter_paired, iter_unpaired, iter_left and iter_right print as the list of what they have still to yield. An OptionalPair stays on one line and prints its items without the alternate flag, also under {:#?}. With {:#?} each entry stands on lines of its own, indented by four blanks per level also where an item prints several lines, with a comma behind it. Printing never panics. The writer is given the text in pieces until it refuses one, and nothing after that; fmt returns Ok exactly if all pieces were accepted.", "quantifier": "every map built by the API, every position of every iterator, both flags, every Debug of the items that writes its text and hands on errors, every writer, with a state of its own and refusing at any point", "why_tests_cant": "A test prints a few maps into a String, which never refuses; a writer may stop at any piece and item texts may contain line breaks anywhere.", "anchors": ["src/partial_cycle_map.rs:1728-1738", "src/partial_cycle_map.rs:2003-2012", "src/partial_cycle_map.rs:2074-2083", "src/partial_cycle_map.rs:2151-2160", "src/partial_cycle_map.rs:2229-2236", "src/optionals.rs:163-186"]}
{"id": "C147", "title": "GroupMap Debug output with {:?} and {:#?} into any writer", "statement": "The map prints as the set of its pairs and of its right items without left items, each once; an iterator of iter() prints the items still to come except those with the right item of the item yielded last; every other iterator prints as the list of what it has still to yield. With {:#?} each entry stands on lines of its own, indented by four blanks per level also where an item prints several lines, with a comma behind it. Printing never panics. The writer is given the text in pieces until it refuses one, and nothing after that; fmt returns Ok exactly if all pieces were accepted.", "quantifier": "every map built by the API, every position of every iterator, both flags, every Debug of the items that writes its text and hands on errors, every writer, with a state of its own and refusing at any point", "why_tests_cant": "A test prints a few maps into a String, which never refuses; a writer may stop at any piece and item texts may contain line breaks anywhere.", "anchors": ["src/group_map.rs:1050-1059", "src/group_map.rs:1329-1331", "src/group_map.rs:1418-1427", "src/group_map.rs:1491-1500", "src/group_map.rs:1558-1565", "src/group_map.rs:1601-1608", "src/group_map.rs:1646-1653"]}
{"id": "C148", "title": "CycleMap keeps its hasher", "statement": "hasher() returns the hasher the map was built with after any calls, clear, drain, extend and clone included, whether they returned or panicked. No call replaces it, whatever Hash, Eq and the closures do.", "quantifier": "every way to build a map (with_hasher, with_capacity_and_hasher, collect), every history of calls, every user code with a state of its own, consistent or not, panicking at any point", "why_tests_cant": "A replaced hasher shows only if two hasher states differ and the call that replaces it is followed by a lookup; panics may leave a call at any point.", "anchors": ["src/cycle_map.rs:1028-1030", "src/cycle_map.rs:988-996", "src/cycle_map.rs:1018-1026", "src/cycle_map.rs:1172-1182"]}
{"id": "C149", "title": "PartialCycleMap keeps its hasher", "statement": "hasher() returns the hasher the map was built with after any calls, clear, drain, extend and clone included, whether they returned or panicked. No call replaces it, whatever Hash, Eq and the closures do.", "quantifier": "every way to build a map (with_hasher, with_capacity_and_hasher, collect), every history of calls, every user code with a state of its own, consistent or not, panicking at any point", "why_tests_cant": "A replaced hasher shows only if two hasher states differ and the call that replaces it is followed by a lookup; panics may leave a call at any point.", "anchors": ["src/partial_cycle_map.rs:1828-1830", "src/partial_cycle_map.rs:1788-1796", "src/partial_cycle_map.rs:1818-1826", "src/partial_cycle_map.rs:1966-1990"]}
{"id": "C150", "title": "GroupMap keeps its hasher", "statement": "hasher() returns the hasher the map was built with after any calls, clear, extend and clone included, whether they returned or panicked. No call replaces it, whatever Hash, Eq and the closures do.", "quantifier": "every way to build a map (with_hasher, with_capacity_and_hasher, collect), every history of calls, every user code with a state of its own, consistent or not, panicking at any point", "why_tests_cant": "A replaced hasher shows only if two hasher states differ and the call that replaces it is followed by a lookup; panics may leave a call at any point.", "anchors": ["src/group_map.rs:1147-1149", "src/group_map.rs:1105-1113", "src/group_map.rs:1136-1144", "src/group_map.rs:1284-1304"]}
{"id": "C151", "title": "CycleMap runs Hash and Eq only on the items it should", "statement": "Lookups and removals hash only the items given, with the map's own hasher, and compare a given item (as self) with items of the map; none of the map's items is hashed. contains and get hash the given item exactly once, before any comparison. Insertions, swaps and changes of capacity may also rehash the map's items; iter and retain may look them up. The items of a map are never compared with each other by an insertion or a lookup; != is asked only by a swap, with the new and the old item. This holds up to the panic if user code panics.", "quantifier": "every map, call, arguments and user code with a state of its own, consistent or not, panicking at any point", "why_tests_cant": "A Hash run on another item or with another hasher, or a comparison of two other items, changes no answer while user code is consistent; it shows only through the side effects, the cost or the panics of user code.", "anchors": ["src/utils.rs:4-25", "src/cycle_map.rs:30-32", "src/cycle_map.rs:155-182", "src/cycle_map.rs:222-225", "src/cycle_map.rs:350-390", "src/cycle_map.rs:669-690"]}
{"id": "C152", "title": "PartialCycleMap runs Hash and Eq only on the items it should", "statement": "Lookups and removals hash only the items given, with the map's own hasher, and compare a given item (as self) with items of the map; none of the map's items is hashed. contains and get hash the given item exactly once, before any comparison. Insertions, swaps and changes of capacity may also rehash the map's items; iter and retain may look them up. The items of a map are never compared with each other by an insertion or a lookup; != is asked only by a swap, with the new and the old item. This holds up to the panic if user code panics.", "quantifier": "every map, call, arguments and user code with a state of its own, consistent or not, panicking at any point", "why_tests_cant": "A Hash run on another item or with another hasher, or a comparison of two other items, changes no answer while user code is consistent; it shows only through the side effects, the cost or the panics of user code.", "anchors": ["src/utils.rs:4-25", "src/partial_cycle_map.rs:31-33", "src/partial_cycle_map.rs:162-185", "src/partial_cycle_map.rs:637-640", "src/partial_cycle_map.rs:842-880", "src/partial_cycle_map.rs:1174-1195"]}
{"id": "C153", "title": "GroupMap runs Hash and Eq only on the items it should", "statement": "Lookups, remove_left and pair hash only the items given, with the map's own hasher, and ask items of the map (as self) whether they equal a given item. contains, get_right, get_left_iter and is_right_paired hash the given item exactly once, before any comparison. Insertions may also rehash the items of a table they put something into. Only calls that remove a whole group (into a HashSet) and retain_paired hash the map's left items otherwise or compare left items of the map with each other; right items are compared with each other only by retain_unpaired. Iterating, clear and clone run neither Hash nor Eq; != is never asked. == uses the other map's hasher alone.", "quantifier": "every map, call, arguments and user code with a state of its own, consistent or not, panicking at any point", "why_tests_cant": "A Hash run on another item or with another hasher, or a comparison of two other items, changes no answer while user code is consistent; it shows only through the side effects, the cost or the panics of user code.", "anchors": ["src/utils.rs:4-25", "src/group_map.rs:23-33", "src/group_map.rs:231-303", "src/group_map.rs:649-672", "src/group_map.rs:735-751", "src/group_map.rs:812-826"]}
{"id": "C154", "title": "CycleMap::drain_filter's size_hint is a valid bound", "statement": "At every point size_hint() of drain_filter is (0, Some(n)) where n is the number of pairs the closure has not been shown; so n is at least the number of items still to come, whatever the closure answers, and 0 once next() has returned None.", "quantifier": "every map, closure (with a state of its own), number of calls of next that returned and number of later calls", "why_tests_cant": "The bound depends on how many entries were passed over and how many removed before, in every order.", "anchors": ["src/cycle_map.rs:1395-1398", "src/cycle_map.rs:1411-1430"]}
{"id": "C155", "title": "GroupMap: collecting and extending by items that do not clash", "statement": "Two items clash if they give the same left item a group, or if one is (None, r) and the other has the right item r too. Collecting items of which no two clash never panics and gives exactly what the items say: are_paired, contains_left, contains_right, is_right_paired and len_left are read off the list. The order of the items, the hasher and the table layouts make no difference to ==, lookups and lengths. Collecting what iter() lists, in any order, gives a map equal to the original, with the same lookups and lengths. Extending a map by items of which no two clash, none of them a pair that is there already, adds what they say, keeps a pair iff no item gives its left item a group or empties its right item, and does not depend on their order either.", "quantifier": "every list of fewer than 2^64 items without clash, every permutation of it, all hashers and layouts; every map reachable by a calm history (see C47)", "why_tests_cant": "All lists, all orders and all maps; a group is filled in as many orders as there are permutations.", "anchors": ["src/group_map.rs:231-303", "src/group_map.rs:1250-1308", "src/group_map.rs:1334-1380"]}
{"id": "C156", "title": "PartialCycleMap: collecting and extending by entries that share no item", "statement": "Collecting OptionalPairs none of which is Neither and no two of which share an item never panics and gives a map of exactly these entries; their order, the hasher and the layouts make no difference to ==, lookups, lengths and contents. Collecting what iter_paired() and iter_unpaired() list, in any order, gives such a twin of the original map; so does iter() if no right item is unpaired. Extending a map by such entries gives them and the old entries that share no item with them, and does not depend on their order either.", "quantifier": "every list of fewer than 2^64 entries sharing no item, every permutation of it, all hashers and layouts; every map reachable by a history in the sense of C27", "why_tests_cant": "All lists, all orders and all maps.", "anchors": ["src/partial_cycle_map.rs:1924-1985"]}
{"id": "C157", "title": "The iterators of one map agree on the order", "statement": "On an unchanged map the iterators list items in one order. CycleMap: iter_left() yields the left items of iter() in the order of iter(). PartialCycleMap: iter_left() yields the left items of iter(), iter_paired() its pairs, iter_unpaired() first its unpaired left items and then the unpaired right items in the order of iter_right(); drain() yields the entries of iter() in that order, then at most one unpaired right item. drain_filter() shows its closure the entries of iter() in that order, then right items in the order of iter_right(), and yields what it takes in that order. GroupMap: iter() goes through the right items in the order of iter_right() and through each group in the order of get_left_iter(); iter_unpaired() yields the empty groups in that order; iter_left() follows iter_paired(). The closures of PartialCycleMap's retain, retain_paired, retain_unpaired and GroupMap's retain_paired, retain_unpaired are shown what iter, iter_paired, iter_unpaired yield, once each and in that order, whatever they answer (CycleMap: C18). So zipping such iterators puts together what belongs together.", "quantifier": "CycleMap: every map whose iter() does not panic, reachable or not. PartialCycleMap: every map reachable by a history in the sense of C27. GroupMap: every map reachable by a calm history (see C47). All hashers and layouts. drain_filter: closures as in C40.", "why_tests_cant": "The order depends on hashes, table layout and history; a test sees single orders.", "anchors": ["src/cycle_map.rs:730-773", "src/cycle_map.rs:1199-1294", "src/partial_cycle_map.rs:1248-1338", "src/partial_cycle_map.rs:2022-2265", "src/group_map.rs:864-952", "src/group_map.rs:1342-1670"]}
{"id": "C158", "title": "CycleMap: collecting and extending by pairs that share no item", "statement": "Collecting pairs of which no two share an item never panics and gives a map of exactly these pairs; their order, the hasher and the layouts make no difference to ==, lookups, len and contents. Collecting what iter() lists, in any order, gives such a twin of the original map. Extending a map by such pairs gives them and the old pairs that share no item with them, and does not depend on their order either.", "quantifier": "every list of fewer than 2^64 pairs sharing no item, every permutation of it, all hashers and layouts; every map reachable by a history in the sense of C01", "why_tests_cant": "All lists, all orders and all maps.", "anchors": ["src/cycle_map.rs:1158-1170", "src/cycle_map.rs:1172-1182"]}
