# CycleMap: machine-checked model — design

Source: `/repo` (crate `cycle_map`, Rust). Model and proofs: `rocq/theories` (Coq 8.16.1, standard library only).
Property list: `properties.jsonl`. Claim table: `MANIFEST.json`. Mutation log: `seeded/LOG.jsonl`.

## 1. What is modelled

| Code | Model | Notes |
|---|---|---|
| `src/utils.rs` `make_hash`, `make_hasher` | `hashL`, `hashR` fields of `env` | hashing a value with a hasher state is an uninterpreted function `S -> T -> N`; every map carries its own hasher state `S` |
| `src/optionals.rs` | `Optionals.v` | all functions and conversions; `Debug` in `Debug.v` |
| `hashbrown::raw::RawTable` (external) | `RawTable.v` | by contract, see 2 |
| `hashbrown::HashSet<(u64,ID)>` (external, used by GroupMap) | `RawTable.v` (`hs_*`) | the same table with pairs as entries; every set has its own random hasher state, modelled by a hash function `hashP` indexed by the id of the right item the set was made for |
| `src/cycle_map.rs` | `CycleMap.v` | every public function and iterator; `Debug` in `CycleMapDebug.v` |
| `src/serde.rs` | `Serde.v`, `SerdeStream.v` | `visit_seq` and `serialize`; the data format is an element codec parameter |
| `src/partial_cycle_map.rs` | `PartialCycleMap.v` | likewise; `MappingPair`'s own `PartialEq` (used nowhere) is left out |
| `src/group_map.rs` | `GroupMap.v` | likewise |
| `src/cycle_map.rs` with panicking `Hash`/`Eq` | `Faults.v`, `CycleMapFault.v` | the same functions, every call of user code a possible panic |
| `src/partial_cycle_map.rs` with panicking `Hash`/`Eq` | `Faults.v`, `PartialFault.v` | likewise |
| `src/group_map.rs` with panicking `Hash`/`Eq` | `Faults.v`, `GroupFault.v` | likewise |
| the calls that drop items, with panicking `Drop` | `Drops.v`, `CycleMapDrop.v`, `PartialDrop.v`, `GroupDrop.v` | `clear`, `retain*`, `extend`, for `GroupMap` also `insert` and `swap_right*`, the destructors of `DrainFilterIter`, `DrainIter` and the map |
| raw buckets and `RawIter` | `Buckets.v`, `CycleMapBuckets.v`, `PartialBuckets.v` | the unsafe code: `RawTable::iter` over a table that stays as it is (all other iterators), and `DrainFilterInner::next`, which removes while it iterates |
| `src/cycle_map.rs` with unlawful `Eq`/`Hash` | `CycleMapLax*.v`, `Conserve.v`, `CycleMapConserve.v` | the model of `CycleMap.v`, with less assumed |
| `src/cycle_map.rs` with user code that does as it likes during a call | `Wild.v`, `CycleMapWild*.v` | each call of `Hash`, `BuildHasher`, `eq`, `ne` is a computation on a state of the outside world, in the order of `CycleMapFault.v`, of which it is shown to be a generalization (`wild_is_fault`) |
| `src/partial_cycle_map.rs` with user code that does as it likes during a call | `PartialWild*.v` | as for CycleMap, in the order of `PartialFault.v`, of which it is shown to be a generalization |
| `src/group_map.rs` with user code that does as it likes during a call | `GroupWild*.v` | as for CycleMap, in the order of `GroupFault.v`, of which it is shown to be a generalization. The returned `HashSet<L>` compares a new item with all its items until one is equal; a comparison that hashbrown skips is one answered with false and no effect |
| `src/partial_cycle_map.rs` with unlawful `Eq`/`Hash` | `PartialLax*.v`, `PartialConserve.v` | the model of `PartialCycleMap.v`, with less assumed |
| `src/group_map.rs` with unlawful `Eq`/`Hash` | `GroupLax*.v`, `GroupConserve.v` | the model of `GroupMap.v`, with less assumed |
| the iterator given to `extend` | `UserIter.v` | any `next`, with panics and without end; `extend` in the models of the maps takes the list of the items |
| `fmt::Debug` of the maps, iterators and `OptionalPair` | `Debug.v`, `CycleMapDebug.v`, `PartialDebug.v`, `GroupDebug.v`; `DebugWriter.v`, `CycleMapDebugWriter.v`, `PartialDebugWriter.v`, `GroupDebugWriter.v` | the first four: `{:?}` into a writer that never fails; the others: `{:?}` and `{:#?}` into any writer. Width, precision and the other flags reach only the items' own Debug and are not modelled |

Not modelled: `Debug` of the private entry types, allocation failure (except `try_reserve` returning an
error), memory layout below the cells of `Buckets.v`, aliasing and lifetimes (checked by rustc, and trusted), `RawDrain` and `RawIntoIter` (an iterator is the list of slots still to be
visited; drains/filters hold the table and a cursor), `Send`/`Sync`, what
becomes of the items cloned before a `Clone` panics, items dropped because a call panics in `Hash`/`Eq` or on overflow (only other drops are modelled), `Hash` that contradicts `Eq` (for CycleMap see C119, for the other two only C120, C121), answers of `Eq`/`Hash` that change during a call (only C134 to C141); for serde, the data format itself
(the deserializer and its size hint are foreign code in C129). `clone` in the models of the maps returns
identical items; `clone_with` takes the `Clone` of items and hasher as parameters (C84–C86); in `clone_run` they have effects and may panic (C142–C144). A clone is a second value of the model, so its independence
of the original (no shared memory) is part of the modelling, as it is of safe Rust.

## 2. Modelling decisions

* **Items.** Types `L`, `R` are arbitrary. `Eq` is a boolean equivalence relation, *not* Coq equality: equal
  items may be distinguishable, so the theorems say exactly which stored copy is returned or kept.
  `Hash` must respect `Eq` and is otherwise arbitrary; in particular constant hash functions are covered.
* **RawTable.** A table is the list of its occupied slots `(stored hash, entry)` in iteration order plus an
  opaque layout token. `find h p` walks an arbitrary *probe sequence* of slots given by an oracle. The oracle may
  show slots with other hashes (hashbrown compares 7 hash bits only) in any order; the only law is that every slot
  stored under exactly `h` is shown. `insert` may put the slots in any order (law: a permutation) and may rehash
  all entries with the hasher passed to it. All oracles are universally quantified in the theorems.
* **Capacities.** The layout token determines two numbers, `capacity()` and what is allocated (`hb_full`; it changes
  only when the table is reallocated). What hashbrown promises about them is the record `capacity_ok` in
  `Capacity.v` (insertion reallocates only when there is no room, removal may leave a tombstone that costs one unit,
  `reserve`, `shrink_to`, `with_capacity` and `clear` as documented); it is a hypothesis of C80–C83 only. The
  memory a leaked drain iterator takes away is not modelled: `DrainN` stands there for an iterator that is dropped
  (`DrainLeak` of PartialCycleMap is excluded explicitly).
* **Panics** are values: `res` = `Ret state value | Panic state`; the state at the moment of the panic is kept, so
  `catch_unwind` can be modelled. Every `.unwrap()`, `unreachable!()` and the debug overflow check is such a point.
* **Panicking user code** (C87–C105). A call runs with a *fuse*: after that many calls of `Hash`/`Eq` the next one
  panics. `CycleMapFault.v`, `PartialFault.v` and `GroupFault.v` repeat every function with these calls as separate steps;
  without a fuse they are proved equal to `CycleMap.v`, `PartialCycleMap.v` and `GroupMap.v`. What hashbrown 0.12 leaves of a table when the hasher panics during a rehash is a parameter
  `fault`: `shrink_to` always works on a new allocation (the old table stays), insertion and `reserve` may rehash in
  place, and then any buckets may be lost (`fault_ok`: those left were there before). Only C88, C94 and C100 need to know *when* a
  table rehashes (`calm_ok`: not while there is room).
* **Costs** (C106–C108). The fuse also counts: a call that does on a fuse of `n` what it does without has run `Hash` and
  `Eq` at most `n` times. The searches of hashbrown must then be known better: `frugal` (`Cost.v`) says that a search
  compares with no bucket twice and only with buckets whose hash has the same *tag* (hashbrown: 7 bits of the hash);
  the tag is an arbitrary function. How many buckets a search steps over without comparing is not modelled.
* **Buckets** (C115, C116). A table is an array of cells, full or free; a bucket is the index of a cell; reading or
  removing a bucket whose cell is free is undefined behaviour, an explicit result of the model. `RawIter` looks at one
  group of `W` control bytes at a time (`W` arbitrary) and yields the cells that were full when the group was loaded,
  without looking again; its counter of remaining items may not underflow. `stale_bucket` shows that undefined
  behaviour can be reached by wrong use. `RawTable::find` stays a contract. `abs` maps cells to the tables of
  `RawTable.v`; the theorems hold for every map, lawful or not.
* **Unlawful Eq and Hash** (C117–C121, C130–C133). The models are parametric in Eq and Hash; only theorems assume them lawful. C117,
  C118 and C130–C133 assume `lax`: equal items have equal hashes, and each call sees the same hashes; each call has an Eq of its own.
  C119–C121 assume nothing of them, and of the tables only that they keep their buckets. Within one call Eq and Hash are
  functions there; in C134 to C141 (`Wild.v`) they are computations on a state of the outside world and may answer as they like. The receiver of `==` is as in the source: CycleMap and
  PartialCycleMap ask `given == stored`, GroupMap asks `stored == given`, a returned `HashSet` asks `new == present`.
* **Panicking Drop** (C109–C114). `dtor` is the destructor of the items, with a state of its own; every run is logged, so
  that "dropped once" can be said. Rust's rules are built into `Drops.v`: the fields of a value are dropped even if one of them
  panics (`glue`), a panic while unwinding aborts, hashbrown drops the buckets of a table in a plain loop and leaks the rest
  after a panic, leaving the table empty (`drop_elements`; `RawTable::clear` and `RawDrain::drop` of hashbrown 0.12).
* **Counters** are `u64`: `+= 1` at `2^64-1` panics with overflow checks and wraps to 0 without; the theorems hold
  for histories consuming fewer than `2^64` ids and for both settings.
* **Closures** (`FnMut`) are state-passing functions that answer true, false or panic.
* **Reachability.** Theorems about a map quantify over every state reachable from an empty map by any list of
  public operations, including operations that panicked and whose panic was caught.
* **Scope of histories.** A few calls break the maps for good, so that afterwards nothing useful is true. Histories
  leave out exactly these, the quantifiers in `properties.jsonl` say so, and the unrestricted claims are separate
  properties with `_refuted` theorems:
  - CycleMap: a `drain()` iterator dropped before its end (C15, C63). `drain_filter` iterators may be dropped
    anywhere or leaked.
  - PartialCycleMap (`guard` in `PartialHistory.v`): `unpair(l,r)` where `l` and `r` are not paired together, both
    are paired, and the hashes of their partners collide with theirs (C32, C64); `drain_filter` with a closure that
    answers true to the `SomeRight` of a paired item (C40, C64); leaking a `DrainIter` (`DrainLeak` in
    `PartialAny.v`). Dropping a `DrainIter` early is fine there and allowed.
  - GroupMap (`calm` in `GroupHistory.v`): `insert` of a pair already there (C48); `swap_right` / `swap_right_remove`
    of a right item that has left items, or onto a right item already present (C50, C51); `retain_paired` whose
    closure answers true to a pair (C56). The unrestricted claim is C68. C69 and C59 also treat a wider class
    (`loose`): these calls may be made, except the repeated insertion and swapping onto a present item, and later calls
    must stay off the damaged groups, as judged by public lookups.
  - All: 2^64 or more ids taken (C25 shows what a wrapped counter does).

  What still holds after *any* history, these calls included, is C72, C73 and C74; C75 excludes only swaps that bring
  in a right item already present.

## 3. Proof structure

`Rep m Z` (internal invariant): there is a list `Z` of abstract entries (with ids) of which both tables are
permutations; ids are distinct and below the counter; items are pairwise non-equal. Every function is proved to
transform `Z` as the specification says; lookup lemmas come from two table lemmas (unique match / no match).
The *statements* of the properties do not use `Rep`: they are phrased with API observers (the pairs yielded by
iterating, `get_*`, return values) and small list specifications (`CycleMapSpec.v`, ...).

Refuted claims are `..._refuted` theorems: concrete witnesses computed by the model (`vm_compute`), accompanied by a
`..._partial` theorem giving the exact behaviour under the condition that excludes the defect.

Files: `Prelude`, `RawTable`, `ListFacts`, `TableFacts` (monad, table contract, list and table lemmas); `CycleMap`
(model), `CycleMapSpec` (list specification), `CycleMapProofs*` (refinement per function), `CycleMapHistory` (histories
of public calls for model and specification), `CycleMapHistoryProofs`, `CycleMapProps*`, `CycleMapHashFree`,
`CycleMapLax*`, `PartialLax*`, `GroupLax*` (odd Eq: specification, proofs, properties), `Conserve`, `CycleMapConserve`, `PartialConserve`, `GroupConserve` (counting items), `Wild` (user code that does as it likes), `CycleMapWild*` (model, agreement with `CycleMapFault`, counting items, pairs), `PartialWild*`, `GroupWild*` (model, agreement, counting items), `Settle.v` and `*WildKept.v` (exact accounts), `*WildPairs.v` (pairs handed back), `*Collect.v` (collect, for C20, C44, C58), `CycleMapLaws`, `PartialLaws`, `GroupLaws` (laws between calls), `CycleMapMirror`, `PartialMirror` (left and right exchanged), `SameMaps` (CycleMap against PartialCycleMap), `UserIter` (iterators given to extend), `SerdeStream` (an untrusted deserializer),
`SerdeProps`, `OptionalsProps` (the property theorems, with their concrete cases); `PartialCycleMap`, `PartialSpec`,
`PartialProofs*`, `PartialHistory`, `PartialHistoryProofs`, `PartialProps*`, `PartialHashFree` likewise, `IterFacts` (iterators as state machines); `GroupMap`,
`GroupSpec`, `GroupProofs*`, `GroupHistory`, `GroupHistoryProofs`, `GroupProps*`, `GroupHashFree` likewise, `SoundTables`, `CycleMapAny`, `PartialAny`, `GroupAny` (unrestricted histories), `Hints`, `PartialHints`, `GroupHints` (size hints), `GroupDuplicate` (right items doubled by swap_right), `HasherKept`, `CycleMapHasher`, `PartialHasher`, `GroupHasher` (the hasher stays), `UserCalls`, `CycleMapUserCalls`, `PartialUserCalls`, `GroupUserCalls` (on which items user code runs), `CycleMapFilterHint`, `PartialFilterHint` (size hints of drain_filter), `CycleMapDistinct`, `GroupDistinct`, `PartialDistinct`, `GroupDistinctExtend`, `PartialDistinctExtend` (collecting and extending in any order), `CycleMapOrder`, `PartialOrder`, `GroupOrder` (iterators agree on the order), `DebugWriter`, `CycleMapDebugWriter`, `PartialDebugWriter`, `GroupDebugWriter` (both flags, any writer), `Debug`, `CycleMapDebug`, `PartialDebug`, `GroupDebug` (printed text), `Capacity`, `CycleMapCapacity`, `PartialCapacity`, `GroupCapacity`, `CycleMapDefects`, `Buckets`, `CycleMapBuckets`, `PartialBuckets` (unsafe code), `Drops`, `CycleMapDrop`, `PartialDrop`, `GroupDrop` (panicking Drop), `PartialWidows` (reads of a PartialCycleMap in which items count as paired without a partner), `PartialDefects`, `GroupDefects` (what exactly the defective calls do), `Clones`, `CycleMapClone`, `PartialClone`, `GroupClone` (clones of items that are equal, not identical), `CloneRuns`, `*CloneRuns.v` (which calls of Clone are made), `Faults`, `FaultTables`, `CycleMapFault`, `CycleMapFaultProofs` (every
panicking call classified), `CycleMapDamage` (maps with entries that lost their partner), `CycleMapFaultProps`, `CycleMapFaultProps2`, `CycleMapFaultAny`, `PartialFault`, `PartialFaultProofs`, `PartialFaultProps`, `PartialFaultAny`, `PartialFaultProps2`, `GroupFault`, `GroupFaultProofs`, `GroupWreck` (what each panicking GroupMap call leaves), `GroupMend`, `GroupFaultProps`, `GroupFaultProps2`, `GroupFaultAny`, `Cost` (a logic for bounding calls of user code), `CycleMapCost`, `PartialCost`, `GroupCost`, `Concrete` (concrete environments
used by the cases: a constant hash, a perfect hash, a two-valued hash, and a hostile table layout). "The same Eq" in
C06 is Coq equality of the two boolean functions.

Testing the model: `CycleMapTests`, `PartialTests`, `GroupTests`, `OptionalsTests` transcribe the project's tests
(/repo/tests) and the doc-comment examples (/repo/src) and evaluate them in the model (`TestKit`), in five environments
(all hashes equal with a table that reorders itself; hashes equal in their low bits; two hash values; two tables that
count their capacity). All pass. They prove no property; they are evidence that the model does what the code does,
including where tests expect what the documentation denies: the closures of `retain*` of PartialCycleMap and GroupMap
(C41, C56), `GroupMap::insert` of a pair already present, which loses the pairing (tests/group_map.rs:59-63, C48),
`drain` and `==` of PartialCycleMap whose defects hide each other (partial_cycle_map_tests.rs:593-615; C39, C42). Left out:
printing, and that `drain_filter` keeps the capacity (it depends on where hashbrown leaves tombstones).

## 4. Properties

| Id | How it is modelled and proved |
|---|---|
| C01, C02 | invariant over all histories; observers computed from the abstract pair list |
| C03–C05, C07, C09, C10 | each operation = list operation on the pairs; exact return value |
| C06 | consequence of refinement of a hash-free specification machine: outputs of any two runs agree up to order |
| C08 | false: refuted (a swap with absent old and present new deletes new's pair and returns Neither); partial: true if new is absent; exact effect proved |
| C11 | false: refuted (panics if old is absent and to_insert present); partial: exact panic condition and effect |
| C12 | every operation returns `Ret` on reachable states except the cases of C11 |
| C13, C14 | iterators as state machines; induction on the number of calls |
| C15 | false: refuted (rights survive, later operations panic); partial: true if fully consumed; otherwise which right items stay, what lookups answer and which calls panic (`C15_stale_rights_partial`) |
| C16–C18 | induction over the cursor, arbitrary stateful closure, arbitrary panic point |
| C19 | `eq` computed by the model iff same pairs; equivalence laws |
| C20–C23 | fold/refinement |
| C24 | codec parameter with round-trip law |
| C25 | counter bound by induction over histories; wrap-around shown by example |
| C26 | Borrow contract as hypotheses |
| C27–C31, C33, C34, C44–C46 | as for CycleMap with entries SomeLeft/SomeRight/SomeBoth |
| C32 | false under hash collision: refuted; partial: true when the two hashes guarded on do not collide with those of other partners; `C32_colliding_partial`: the state after the call in the colliding case |
| C35, C36 | false: refuted; partial with exact conditions |
| C37 | false: refuted (unpaired rights never visited); partial: everything else visited exactly once |
| C38 | iterators as state machines, including `len()` |
| C39 | false: refuted (at most one unpaired right yielded); partial: empties the map at every drop point, yields all pairs and lefts |
| C40 | false: refuted (paired rights re-tested as SomeRight, half pairs); partial: closures rejecting SomeRight of paired items; `C40_any_closure_partial`, `C40_any_panic_partial`: yields and final map for every closure |
| C41 | false: refuted (polarity inverted, unpaired rights not visited by retain); partial: exact behaviour |
| C42 | false: refuted (also symmetry and transitivity); partial: reflexive, exact characterisation, correct on maps without unpaired items |
| C43 | false for iter_paired, iter_unpaired, drain, drain_filter: refuted; partial: iter exact, upper bound of iter_paired, exact value and lower bound of drain; `C43_exact_partial` (`PartialHints`): what iter, iter_paired, iter_unpaired and drain say at every position of one fixed order, and how many items really follow; `C43_filter_upper_partial`, `C43_filter_valid_partial`: drain_filter says how many left items its closure has not been shown |
| C47, C49, C52–C54, C60 | invariant with groups (`Repr (b1,b2)`: b1 says no dangling (hash, id) entries, b2 no stale right ids) |
| C48 | false: refuted (re-inserting an existing pair breaks it); partial: all other cases; every answer after re-inserting a pair, and the later calls that panic (`C48_reinsert_partial`) |
| C50, C51 | false: refuted (right id of the left items not updated; Eq duplicates); partial: absent old / empty group; for an absent new: which lookups of the moved left items fail and which calls panic (`C50_moved_partial`, `C51_moved_partial`); for a present new: what every query and iterator answers about the map with two right items equal to new (`C50_duplicate_partial`, `C51_duplicate_partial` in GroupDuplicate: `Rep` weakened to `Dup`, without distinct right items) |
| C55 | false: refuted (clone inside a group loses its rest; upper bound of iter and lower bound of iter_unpaired wrong); partial: exact behaviour, and exactly the items a clone leaves out (`C55_clone_loses_partial`); `C55_hints_partial` (`GroupHints`): what size_hint of iter and iter_unpaired says at every position |
| C56 | false: refuted (polarity, dangling pairs); partial: exact behaviour; which calls panic on a right item that lost left items (`C56_dropped_partial`) |
| C57 | false: refuted; partial: exact characterisation, reflexive |
| C58 | sequence of calls for all lists; false for lists with a repeated pair: refuted; partial: the others |
| C59 | determinism of the specification up to order; calmness itself is shown independent of hashes |
| C61, C62 | direct |
| C63 | false: refuted by the witness of C15; C01 is the restricted claim |
| C64 | false: refuted (colliding unpair; torn pairs in C40_drain_filter_refuted); C27 is the restricted claim |
| C65 | every guarded history agrees with a machine on a plain list of entries |
| C66, C67 | as C25, C26 |
| C68 | false: refuted by two insertions; C47 is the restricted claim |
| C69 | as C65, for calm and for loose histories |
| C70, C71 | as C26 (for any map at all), C25 |
| C72–C74 | per-table invariant (entries stored under their hash, pairwise non-equal, handed over by the caller) kept by every function, returning or panicking; a small Hoare logic in `SoundTables` |
| C75 | false: refuted (swap onto a present item); partial: histories whose swaps bring in absent items |
| C76 | text = function of what the iterator yields (C13), for any item texts and any text already written |
| C77 | false: refuted (unpaired right items not shown); partial: everything else |
| C78 | map and most iterators proved; `iter()` false inside a group (it prints a clone of itself): refuted; partial: exact behaviour |
| C79 | direct, on strings |
| C80, C82, C83 | accounting of spare room through every function (returning or panicking), then over histories; no assumption on Eq and Hash |
| C81 | false: refuted twice; partial: each set with its own capacity |
| C84–C86 | the table clone keeps order and stored hashes; searches and iterators of clone and original run in lockstep, for any map whatever its state; on reachable maps also the invariant of the clone |
| C87 | a panicking run of each function agrees with the plain one up to the panic, and has not changed the map yet (`u_step_cases`) |
| C88 | classification of panicking calls, cases with a rehash excluded by the capacity accounting of C80 |
| C89 | false: refuted (the right table grows after the left entry is in: half a pair); partial: exactly what is left, which calls answer and panic, and which removals mend the map |
| C90 | false: refuted (the partner is redirected before the old entry is taken out); partial: likewise |
| C91 | shrinking proved; reserve false: refuted (rehash in place); partial: likewise |
| C92 | the per-table invariant of C72 is kept by losing buckets; ids counted through every function |
| C93 | as C87: agreement of the panicking run of each function with the plain one (`u_step_cases` of `PartialFaultProofs`) |
| C94 | as C88 |
| C95 | as C92, with the invariant of C73 |
| C96 | false: refuted (the right table grows after the left entry is in); partial: exactly what is left (the record of `PartialWidows` with the lost buckets), and which removals mend the map |
| C97 | false: refuted (the partner is redirected before the old entry is taken out); partial: likewise |
| C98 | shrinking proved; reserve false: refuted (rehash in place); partial: likewise |
| C99 | as C87: `u_step_cases` of `GroupFaultProofs` |
| C100 | `step_wreck` of `GroupWreck` (what a panic leaves after each call), restricted to calls with room in the tables and groups of at most one left item, which strand nothing; then induction over the history |
| C101 | as C95: each outcome listed by `u_step_cases` keeps the per-table invariant of `GroupAny` (`Inv`), so every history does; counters are bounded by the ids the calls may take, and `clear` gives the invariant of the empty map |
| C102 | false: refuted (a panic in the loop of `remove_right` leaves left items whose right item is gone). Partial: exactly what is left (`s_half_remove`, `s_half_insert_right`, `s_half_insert_remove`) and that `remove_left` of the stranded items mends the map |
| C103 | false: refuted (`insert` of two new items when the right table grows: the left item is stored, its right item is not; its id is given out again, so with colliding hashes a pair never inserted is reported). Partial: as C102 |
| C104 | false: refuted (`pair`, `insert_left` and swaps write one direction before user code runs again). Partial: as C102; after `insert_left` a second call mends |
| C105 | `step_wreck` and `wreck_mend`: simulation between the damaged map and its contents `G` plus the stranded left items; `GroupMend` shows what lookups and iterators report (`seen_as`) |
| C106 | a logic `spends n m c Q` over the fused model bounds the calls of user code; with `tracks` (C87) a call with enough fuse equals the call without. Budgets count stored items with the tag of an argument, by the items `iter_left`/`iter_right` list; the cases show the bounds are attained |
| C107 | as C106, on the fused model of PartialCycleMap; `retain_unpaired` walks both sides, `iter_paired` hashes but never compares |
| C108 | as C106, on the fused model of GroupMap. A group's size is the len() of `get_left_iter`. The HashSet<L> that `remove_right` collects is charged a comparison with every item it holds (hashbrown compares fewer), so the bound is an upper one |
| C109 | the model with destructors follows the plain one step by step (`df_drop_d_ok`, `retain_d_ok`, `extend_d_ok`): the end state is that of the plain call, cut off after `k` values for `retain` and `extend`; the log gives what was dropped and `panics_of` how many destructors panicked, which decides between return, panic and abort (`glue_fate`, `elements_fate`, `seq_fate`: what the loops of `Drops.v` do, stated with `after`, `panics_of` and `fate`, which do not mention the loops); `C109_peaceful` ties it to `CycleMap.v` |
| C110 | false: refuted (`clear`: if the Drop of a left item panics the right items stay, unpaired, and inserting one of them panics). Partial: exactly what is left, and `clear` again or `remove_via_right`, which panics once, mends; a dropped `drain` leaves what it leaves without panics (C15) |
| C111 | as C109. `drain().next()` drops the right items it has not returned inside `next`; whether the item it was about to return is dropped when that panics is left open (`leak`, both cases proved). `drain_filter` for any closure: the map is the one of C40 (`torn`) |
| C112 | false: refuted (`clear`: if the Drop of a left item panics the right items of the pairs stay, count as paired, and removing or re-inserting them panics). Partial: exactly what is left (`wrecked_r`, as for C96), and how it is mended |
| C113 | as C109. For `retain_paired` and `retain_unpaired` the map is that of the same call with a closure that stops accepting after `k` items (`capped`), to which C56 applies. `extend`, `swap_right`, `swap_right_remove`: for every map, also a damaged one, the plain call on a prefix. The order in which a `HashSet` drops its left items is any permutation (`ord`); after a panic the rest of that set is leaked. Arguments dropped while `insert` itself panics are not logged |
| C114 | false: refuted (`clear`: if the Drop of a left item panics all right items stay, with sets that list left items that are gone: they count as paired, iterating or removing them panics). Partial: exactly what is left, for every Drop, and that `clear` again mends |
| C115 | invariant: what the `RawIter` has still to yield (rest of the loaded group, then the full cells of later groups) is the list of full cells from position `df_pos` on; removing the bucket just yielded keeps it. Hence each call equals that of `CycleMap.v` under `abs`, and every cell is as before or freed |
| C116 | as C115. In the left pass nothing is known about the right iterator, which is stale after the first removal; it is not used before `reset_right_iter` makes a fresh one. The case shows that without the reset a freed bucket would be read |
| C117 | `WRep` is `Rep` without distinctness of the items: both tables are permutations of entries with distinct ids. Ids and stored hashes alone keep partners together, so each call acts on some entry that Eq matches (`lax_step`: which one is open when Eq matches several). `C117_hash_must_agree_refuted` shows that agreement of Hash with Eq is needed: otherwise `remove_via_left` panics and leaves half a pair |
| C118 | false: refuted (a NaN on the left makes `iter` and `==` panic; an asymmetric Eq makes `iter` show a pair never inserted). Partial: it panics iff some stored left item is not found by looking it up; otherwise it shows each stored left item once, with a partner of an item it equals; exact if Eq tells the stored left items apart |
| C119 | `pays w g c h`: a call takes the weight of the map plus `g` to the new map plus `h` of its result, also when it panics; composed along each function, for the weight that counts the items of a kind. Each entry leaves a table exactly when it is handed on |
| C120 | as C119, for PartialCycleMap; what a call hands back depends on the call too, since `pair_forced` and `get_*` return references |
| C121 | as C119, for GroupMap; `remove_right` collects into a HashSet and may hand back fewer left items than it removed |
| C122 | for every reachable map, both sides of each law as histories of public calls compared by the crate's own `==`; lists of pairs read as relations (`s_are_paired`), each call as a boolean formula on the relation |
| C123 | for every reachable map, both sides of each law as histories of public calls, compared by the answers of contains_left, contains_right and are_paired on all items (`same_map`; the crate's `==` is broken, C42); each call as a boolean formula on those three lookups (`act`, proved from the list spec), the laws then by case analysis on Eq |
| C124 | as C123 for GroupMap, on maps and calls the guards of GroupHistory admit (`reachable`; congruence and extend for `loosely_reachable`), since C48, C50, C51 and C56 refute the laws outside them; `fit`/`moves` track whether a whole group has been moved, after which calls that read a left item's stored right id are not used; the move law takes the left items from get_left_iter and is by induction on them; extend is an equality of maps |
| C125 | two maps with unrelated environments (only Eq shared), related by `images` (what iter() yields, turned round); `mirror` maps each call to the one for the other side; by induction on the calls, from the refinement of both maps and `step_mirror` on the list spec; `mirrored` spells out each result; closures answer from the pair alone since the order of visits differs; what try_reserve answers is left open |
| C126 | as C125, with iter_paired and iter_unpaired as observation; unpair only where its guard (C32) holds; retain and drain_filter, which are one-sided (C40, C41), are left out, as are the results of iter and drain (C37, C39) |
| C127 | as C125, between `CycleMap.v` and `PartialCycleMap.v`: the two list specs are compared call by call (`step_same`), observation is iter() on one side, iter_paired() and iter_unpaired() on the other |
| C128 | `for_each` (`UserIter.v`) is the for loop of extend around an arbitrary `next`, watched for n calls; `gives` says what the iterator gives independently of the map; by induction the loop is the list version of extend on the items given, to which C20, C44 and C58 apply |
| C129 | false: the announced size is passed to `with_capacity`, so an empty document announcing 2^60 elements panics (`C129_no_panic_refuted`); which announced sizes panic and how many buckets the others cost is proved with the capacity contract (`Capacity.v`) and the limit of 2^63 bytes per allocation; partial: for sizes the tables accept, `visit` (a loop around an arbitrary `next_element`, watched for n calls) is `extend` on the elements given |
| C130 | `PartialLax.lax_step` says on a list of entries what each call may do when Eq matches several entries or none; `WRep` as in C117; `step_lax` for one call, `run_lax` for histories with an environment per call. The conditions on the map before a call are `lax_guard`, stated with public calls only |
| C131 | false: with an asymmetric Eq `iter()` shows a pair nobody made, and both retains break a pair that they were not asked about, after which `iter_paired` or `remove_via_right` panics (`C131_iter_and_retain_any_eq_refuted`); partial: exactly what iter() shows in every case (`shown_as`), and the claim in full when the stored items can be told apart by Eq; what the retains do under their conditions is part of C130 |
| C132 | `GroupLax.lax_step` says what each call may do when Eq matches several items or none, on right items with tags and left items with the tag of their right item (Eq cannot tell them apart, so tags must); `WRep` ties the stored ids to the tags; `step_w` for one call, `run_w` for histories with an environment per call. The conditions are `lax_calm`, stated with public calls only |
| C133 | false: with an asymmetric Eq `remove_right` may return fewer left items than it removes, and `retain_unpaired` may drop a paired right item with its left items in place of the one it was told to drop (`C133_remove_right_and_retain_any_eq_refuted`); partial: what `remove_right` removes in every case, and the claim in full when Eq tells the stored left (right) items apart |
| C134 | as C119, on `w_xstep`, where user code is a computation on a world of any type; `w_insert` etc. call it once per bucket inspected or rehashed. References: by cases on the call, no assumption at all |
| C135 | false as stated: drain starts the ids again from 0 while an item whose partner was lost may still be there, and a later pair may be given its id (`C135_drain_refuted`). Partial: all histories in which every drain() leaves no right item behind (`drained_dry`), as a drain consumed to the end does if == never lied (C14, C15). Invariant `inv P`: items with one id are related by P, ids are below the counter; `shrinks` for calls that only remove, a Hoare triple with a panic postcondition for the others; then P := `kin`. Pairs listed by `iter` are not claimed (C118) |
| C136 | as C134, on the calls of `PartialWild.v`: weight of the items in both tables (`pays`), each user call a computation on a world of any type. References: by cases on the call; for `pair_forced` a postcondition on the map it leaves (`shows`) |
| C137 | as C136, on the calls of `GroupWild.v`; removing a group: the items already in the returned set count (`w_remove_pairs_pays`). References: an invariant of each iterator (`collect_all`) |
| C138, C139 | `Settle.v`: an equation beside the inequality of `Conserve.v`: what is in the map after a call that returns, and what it hands back, is what was in the map and what it was given; proved of every function on any state of the map, then of histories. `accounts_for` names the calls and answers; the rest is shown to lose items by witnesses (`C138_swap_refuted`, `C138_or_insert_refuted`, and so for C139) |
| C140 | the same; left and right items have separate accounts, since the set returned by remove_right may drop left items only. Witnesses `C140_insert_refuted`, `C140_remove_right_refuted` |
| C141 | false as stated: if == says so, pair(5, 50) makes partners of two other items (`C141_pair_refuted`). Partial: all histories without pair, pair_forced and pair_forced_remove. Method of C135; unpair gives the right item a new id, drain keeps the counter, so no restriction on drain is needed |
| C142–C144 | `CloneRuns.v`: the table clone with a Clone that has a state and may panic, every call recorded (the hasher last, as in the struct expression). The record is compared with what the iterators show, for any map. On reachable maps the stored items are distinct, so a function `pick` that does what was recorded exists and C84–C86 apply to it; Clone of the hasher may panic and have effects, but its result is a function of the hasher. What becomes of items cloned before a panic is hashbrown's affair and not modelled |
| C145–C147 | `DebugWriter.v`: DebugSet, DebugList, DebugTuple and PadAdapter of `core::fmt` written out as functions over an arbitrary writer (state and a write_str that may refuse). `says f t`: code f gives the pieces of text t to any writer, until one is refused. The combinators keep `says`; PadAdapter, which works on lines of pieces, is compared with `indent`, which goes through the characters of the whole text. The entries come from C13, C37, C38, C55. The flag of an OptionalPair is dropped, as `write!` with `{item:?}` makes new options |
| C148–C150 | In the models of `*Wild.v`, where Hash and Eq are arbitrary state transformers. `leaves I c`: c keeps I, whether it returns or panics (`HasherKept.v`); shown bind by bind for every call, then by induction over the history. No law on user code and none on the table layout is assumed. `clone()` is taken to copy the hasher; what a Clone of its own does is C142–C144 |
| C151–C153 | In the models of `*Wild.v`, with user code replaced by one that first writes its arguments down (`logged`, `UserCalls.v`). `allowed m o c` is the spec: may call o on map m run user code c? Written from the arguments of o and the contents of m before the call. `_calls`: everything written down is allowed, by an invariant on map and record (the items in the map were there or were put there by o). `_lookups`: the whole record of contains and get, in order. `_eq`: the same for `==`. `_unchanged`: the record changes neither map nor answer. A search compares only the buckets that the layout's probe gives; which ones is RawTable's choice. GroupMap: the HashSet<L> of a removed group has a hasher of its own; its Hash calls are written down with the map's hasher, so C153 says on which items they run, not with which hasher |
| C154 | `shown f`: the closure f, writing down what it is shown. By induction on the calls of next: pairs shown + buckets to come = len. Holds in any map. The same for PartialCycleMap's drain_filter is part of C43 (`PartialFilterHint.v`), where only left items are counted |
| C155 | `clash`, `free` (no two items clash), `gives_left`, `gives_right`: read off the list, without the model. By induction from the end of the list with C58_extend_partial: no insert finds its pair present, so the guard of C58 is met. `twins`: ==, lookups and lengths. The items iter() lists are free since the groups of a reachable map are a grouping (C47). `C155_extend*` (`GroupDistinctExtend`): `says`, `spared` read off the list and the answers before |
| C156 | The hypothesis is `partial_bijection` of the list (C27). Inserting an entry that shares no item deletes nothing, so the contents are the list reversed. `twins` as in C155, with the copies of the items returned by get_left/get_right. Unlike C155 the order does not even affect which copies are stored. `C156_extend*` (`PartialDistinctExtend`): `untouched` filters the old entries |
| C157 | `C157_cycle` is an induction over the slots of the left table and needs no invariant; `C157_pmap*` and `C157_group` use the representation of the tables by entries and groups (C27, C47). The order is that of the table contract (slot order, fixed while the table is not changed); two tables of one map need not agree, so iter_right() of a CycleMap is not related to iter() beyond C13. `C157_pmap_filter` is C40 with the order of the visits. `C157_*_retain`: `logging g` is a closure that writes down what it is shown and answers by g, which may depend on what was shown before |
| C158 | As C156: the hypothesis is `bijective` of the list (C01), `untouched` filters the old pairs, `twins` compares ==, lookups, len and contents. C20 covers lists with shared items |

## 5. Trusted base

* Coq 8.16.1 kernel (and `vm_compute` for the closed witnesses).
* Axioms: each property file ends with `Print Assumptions`; expected output everywhere: "Closed under the global context".
  (Loading `Lia` also loads the standard library's `Coq.ssr.ssrunder`, whose module parameters `Under_rel.*` a
  checker lists as 7 library axioms; no theorem depends on them.)
* The model's faithfulness to the Rust text (each definition cites file and lines) and the RawTable contract of 2 (for C80–C83 with
  `capacity_ok`; for C87–C105 with the order of the calls of user code in `CycleMapFault.v`, `PartialFault.v`, `GroupFault.v` and `fault_ok`, for C88, C94 and C100 also
  `capacity_ok` and `calm_ok`; for C106–C108 also `frugal`; for C109–C114 `Drops.v`; for C115 and C116 `Buckets.v`;
  for C134 to C141 the order of the calls in `CycleMapWild.v`, `PartialWild.v` and `GroupWild.v`, and `tame`: the table keeps its buckets, also when the hasher panics).
