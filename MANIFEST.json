{
 "claims": [
  {
   "property": "C01",
   "status": "proved",
   "theorems": [
    "C01_bijection"
   ],
   "note": ""
  },
  {
   "property": "C02",
   "status": "proved",
   "theorems": [
    "C02_single_copy_len"
   ],
   "note": ""
  },
  {
   "property": "C03",
   "status": "proved",
   "theorems": [
    "C03_insert"
   ],
   "note": ""
  },
  {
   "property": "C04",
   "status": "proved",
   "theorems": [
    "C04_remove_via",
    "C04_one_pair"
   ],
   "note": ""
  },
  {
   "property": "C05",
   "status": "proved",
   "theorems": [
    "C05_remove"
   ],
   "note": ""
  },
  {
   "property": "C06",
   "status": "proved",
   "theorems": [
    "C06_hash_independence"
   ],
   "note": ""
  },
  {
   "property": "C07",
   "status": "proved",
   "theorems": [
    "C07_swap_present"
   ],
   "note": ""
  },
  {
   "property": "C08",
   "status": "partial",
   "theorems": [
    "C08_swap_absent_partial",
    "C08_swap_absent_refuted",
    "C08_swap_absent_right_refuted"
   ],
   "note": "False as stated (new already present): refuted; exact effect proved, unchanged if new is absent too."
  },
  {
   "property": "C09",
   "status": "proved",
   "theorems": [
    "C09_swap_checked"
   ],
   "note": ""
  },
  {
   "property": "C10",
   "status": "proved",
   "theorems": [
    "C10_swap_left_or_insert"
   ],
   "note": ""
  },
  {
   "property": "C11",
   "status": "partial",
   "theorems": [
    "C11_swap_right_or_insert_partial",
    "C11_swap_right_or_insert_refuted"
   ],
   "note": "False as stated (panics if old absent and to_insert present): refuted; exact behaviour proved."
  },
  {
   "property": "C12",
   "status": "proved",
   "theorems": [
    "C12_no_internal_panic",
    "C12_history_refinement"
   ],
   "note": ""
  },
  {
   "property": "C13",
   "status": "proved",
   "theorems": [
    "C13_iterators"
   ],
   "note": ""
  },
  {
   "property": "C14",
   "status": "proved",
   "theorems": [
    "C14_drain"
   ],
   "note": ""
  },
  {
   "property": "C15",
   "status": "partial",
   "theorems": [
    "C15_drain_early_drop_partial",
    "C15_stale_rights_partial",
    "C15_drain_early_drop_refuted",
    "C15_two_partners_refuted"
   ],
   "note": "False as stated: refuted; the partial theorems give what does hold: which right items stay behind, what every lookup answers, which calls panic."
  },
  {
   "property": "C16",
   "status": "proved",
   "theorems": [
    "C16_drain_filter",
    "C16_visits_once",
    "C16_drain_filter_pred"
   ],
   "note": ""
  },
  {
   "property": "C17",
   "status": "proved",
   "theorems": [
    "C17_panic_safety"
   ],
   "note": ""
  },
  {
   "property": "C18",
   "status": "proved",
   "theorems": [
    "C18_retain",
    "C18_visits_once",
    "C18_retain_pred"
   ],
   "note": ""
  },
  {
   "property": "C19",
   "status": "proved",
   "theorems": [
    "C19_equality",
    "C19_equivalence"
   ],
   "note": ""
  },
  {
   "property": "C20",
   "status": "proved",
   "theorems": [
    "C20_extend",
    "C20_last_wins",
    "C20_collect"
   ],
   "note": ""
  },
  {
   "property": "C21",
   "status": "proved",
   "theorems": [
    "C21_clone"
   ],
   "note": ""
  },
  {
   "property": "C22",
   "status": "proved",
   "theorems": [
    "C22_capacity"
   ],
   "note": ""
  },
  {
   "property": "C23",
   "status": "proved",
   "theorems": [
    "C23_clear"
   ],
   "note": ""
  },
  {
   "property": "C24",
   "status": "proved",
   "theorems": [
    "C24_serialize",
    "C24_deserialize",
    "C24_round_trip"
   ],
   "note": ""
  },
  {
   "property": "C25",
   "status": "proved",
   "theorems": [
    "C25_ids"
   ],
   "note": ""
  },
  {
   "property": "C26",
   "status": "proved",
   "theorems": [
    "C26_borrowed"
   ],
   "note": ""
  },
  {
   "property": "C27",
   "status": "proved",
   "theorems": [
    "C27_partial_bijection",
    "C27_single_copy"
   ],
   "note": ""
  },
  {
   "property": "C28",
   "status": "proved",
   "theorems": [
    "C28_insert",
    "C28_insert_one"
   ],
   "note": ""
  },
  {
   "property": "C29",
   "status": "proved",
   "theorems": [
    "C29_pair",
    "C29_pair_iff"
   ],
   "note": ""
  },
  {
   "property": "C30",
   "status": "proved",
   "theorems": [
    "C30_pair_forced"
   ],
   "note": ""
  },
  {
   "property": "C31",
   "status": "proved",
   "theorems": [
    "C31_pair_forced_remove"
   ],
   "note": ""
  },
  {
   "property": "C32",
   "status": "partial",
   "theorems": [
    "C32_unpair_partial",
    "C32_colliding_partial",
    "C32_unpair_refuted"
   ],
   "note": "False as stated under hash collisions: refuted; proved when the compared hashes do not collide; C32_colliding_partial says exactly what the map is afterwards in the colliding case, so all cases are covered."
  },
  {
   "property": "C33",
   "status": "proved",
   "theorems": [
    "C33_remove",
    "C33_remove_side"
   ],
   "note": ""
  },
  {
   "property": "C34",
   "status": "proved",
   "theorems": [
    "C34_swap_present"
   ],
   "note": ""
  },
  {
   "property": "C35",
   "status": "partial",
   "theorems": [
    "C35_swap_absent_partial",
    "C35_swap_absent_refuted",
    "C35_swap_absent_right_refuted"
   ],
   "note": "False as stated (new already present): refuted; exact effect proved, unchanged if new is absent too."
  },
  {
   "property": "C36",
   "status": "partial",
   "theorems": [
    "C36_swap_checked",
    "C36_swap_left_or_insert_partial",
    "C36_swap_right_or_insert_partial",
    "C36_swap_left_or_insert_refuted",
    "C36_swap_right_or_insert_refuted"
   ],
   "note": "swap_*_checked proved; swap_*_or_insert panic in some cases: refuted; exact behaviour proved."
  },
  {
   "property": "C37",
   "status": "partial",
   "theorems": [
    "C37_iter_partial",
    "C37_iter_all_lefts",
    "C37_iter_refuted"
   ],
   "note": "False as stated (unpaired rights are skipped): refuted; everything else is visited once."
  },
  {
   "property": "C38",
   "status": "proved",
   "theorems": [
    "C38_iterators"
   ],
   "note": ""
  },
  {
   "property": "C39",
   "status": "partial",
   "theorems": [
    "C39_drain_partial",
    "C39_drain_refuted"
   ],
   "note": "False as stated (only one unpaired right item is yielded): refuted; the map is empty at every drop point, every entry with a left item is yielded once."
  },
  {
   "property": "C40",
   "status": "partial",
   "theorems": [
    "C40_drain_filter_partial",
    "C40_drain_filter_pred_partial",
    "C40_panic_safety_partial",
    "C40_any_closure_partial",
    "C40_any_panic_partial",
    "C40_drain_filter_refuted"
   ],
   "note": "False as stated (right halves of pairs are offered again): refuted; proved for closures that refuse these; C40_any_closure_partial and C40_any_panic_partial say for every closure what is yielded and what the map is afterwards."
  },
  {
   "property": "C41",
   "status": "partial",
   "theorems": [
    "C41_retain_partial",
    "C41_retain_paired_partial",
    "C41_retain_unpaired_partial",
    "C41_retain_pred_partial",
    "C41_retain_refuted",
    "C41_retain_paired_refuted",
    "C41_retain_unpaired_refuted"
   ],
   "note": "False as stated (what the closure accepts is dropped): refuted; exact behaviour proved."
  },
  {
   "property": "C42",
   "status": "partial",
   "theorems": [
    "C42_equality_partial",
    "C42_reflexive",
    "C42_equality_refuted",
    "C42_symmetry_refuted",
    "C42_transitivity_refuted"
   ],
   "note": "False as stated: refuted; exact characterisation, correct on maps without unpaired items."
  },
  {
   "property": "C43",
   "status": "partial",
   "theorems": [
    "C43_size_hint_partial",
    "C43_exact_partial",
    "C43_filter_upper_partial",
    "C43_filter_valid_partial",
    "C43_paired_refuted",
    "C43_unpaired_refuted",
    "C43_drain_refuted"
   ],
   "note": "False as stated except for iter: refuted; exact values proved."
  },
  {
   "property": "C44",
   "status": "proved",
   "theorems": [
    "C44_extend",
    "C44_extend_pairs",
    "C44_last_wins",
    "C44_collect",
    "C44_collect_pairs"
   ],
   "note": ""
  },
  {
   "property": "C45",
   "status": "proved",
   "theorems": [
    "C45_hash_independence",
    "C45_no_panic"
   ],
   "note": ""
  },
  {
   "property": "C46",
   "status": "proved",
   "theorems": [
    "C46_clone",
    "C46_clear",
    "C46_capacity",
    "C46_len"
   ],
   "note": ""
  },
  {
   "property": "C47",
   "status": "proved",
   "theorems": [
    "C47_single_copy",
    "C47_groups"
   ],
   "note": ""
  },
  {
   "property": "C48",
   "status": "partial",
   "theorems": [
    "C48_insert_partial",
    "C48_reinsert_partial",
    "C48_insert_refuted"
   ],
   "note": "False as stated (re-inserting an existing pair breaks it): refuted; proved for all other insertions. What re-inserting a pair does to every answer of the map, and what happens next, is C48_reinsert_partial."
  },
  {
   "property": "C49",
   "status": "proved",
   "theorems": [
    "C49_insert_remove",
    "C49_insert_left",
    "C49_insert_right"
   ],
   "note": ""
  },
  {
   "property": "C50",
   "status": "partial",
   "theorems": [
    "C50_swap_right_partial",
    "C50_moved_partial",
    "C50_duplicate_partial",
    "C50_swap_right_refuted",
    "C50_swap_right_collision_refuted",
    "C50_swap_right_duplicate_refuted"
   ],
   "note": "False as stated (stale right ids, Eq duplicates): refuted; proved for an absent old or one without left items. What happens to the left items of old when new is absent is C50_moved_partial; what the map answers when new is present already (two equal right items) is C50_duplicate_partial; what still holds otherwise is in C69_loose_histories."
  },
  {
   "property": "C51",
   "status": "partial",
   "theorems": [
    "C51_swap_right_remove_partial",
    "C51_moved_partial",
    "C51_duplicate_partial",
    "C51_swap_right_remove_refuted"
   ],
   "note": "As C50; C51_moved_partial says what happens to the left items of old, C51_duplicate_partial what the map answers when new is present already."
  },
  {
   "property": "C52",
   "status": "proved",
   "theorems": [
    "C52_pair"
   ],
   "note": ""
  },
  {
   "property": "C53",
   "status": "proved",
   "theorems": [
    "C53_remove_left",
    "C53_remove_right",
    "C53_remove"
   ],
   "note": ""
  },
  {
   "property": "C54",
   "status": "proved",
   "theorems": [
    "C54_iterators"
   ],
   "note": ""
  },
  {
   "property": "C55",
   "status": "partial",
   "theorems": [
    "C55_hints_partial",
    "C55_len",
    "C55_iter_partial",
    "C55_clone_loses_partial",
    "C55_iter_clone_refuted",
    "C55_size_hint_refuted"
   ],
   "note": "False as stated for Iter inside a group and for size_hint: refuted; exact behaviour of clone, len and size_hint proved."
  },
  {
   "property": "C56",
   "status": "partial",
   "theorems": [
    "C56_retain_paired_partial",
    "C56_retain_unpaired_partial",
    "C56_dropped_partial",
    "C56_retain_paired_refuted",
    "C56_retain_unpaired_refuted"
   ],
   "note": "False as stated (what the closure accepts is dropped, dropped pairs leave dangling entries): refuted; exact behaviour proved."
  },
  {
   "property": "C57",
   "status": "partial",
   "theorems": [
    "C57_equality_partial",
    "C57_reflexive",
    "C57_equality_refuted",
    "C57_symmetry_refuted",
    "C57_transitivity_refuted"
   ],
   "note": "False as stated: refuted; exact characterisation and reflexivity proved."
  },
  {
   "property": "C58",
   "status": "partial",
   "theorems": [
    "C58_sequence",
    "C58_extend_partial",
    "C58_last_pair_partial",
    "C58_extend_pairs",
    "C58_collect_partial",
    "C58_collect_pairs_partial",
    "C58_duplicate_refuted"
   ],
   "note": "That extend is the sequence of calls is proved for all lists and maps; the last-pair clause is false for lists with a repeated pair: refuted, proved for the others."
  },
  {
   "property": "C59",
   "status": "proved",
   "theorems": [
    "C59_hash_independence",
    "C59_loose_histories",
    "C59_no_panic",
    "C59_no_panic_calm"
   ],
   "note": ""
  },
  {
   "property": "C60",
   "status": "proved",
   "theorems": [
    "C60_clone",
    "C60_clear",
    "C60_len"
   ],
   "note": ""
  },
  {
   "property": "C61",
   "status": "proved",
   "theorems": [
    "C61_conversions"
   ],
   "note": ""
  },
  {
   "property": "C62",
   "status": "proved",
   "theorems": [
    "C62_observers",
    "C62_map",
    "C62_map_laws",
    "C62_cloned",
    "C62_equality"
   ],
   "note": ""
  },
  {
   "property": "C63",
   "status": "partial",
   "theorems": [
    "C15_two_partners_refuted",
    "C01_bijection"
   ],
   "note": "False: refuted; C01_bijection is the claim for histories that drain to the end."
  },
  {
   "property": "C64",
   "status": "partial",
   "theorems": [
    "C64_any_history_refuted",
    "C40_drain_filter_refuted",
    "C27_partial_bijection"
   ],
   "note": "False: refuted; C27_partial_bijection is the claim for histories without the two defective calls."
  },
  {
   "property": "C65",
   "status": "proved",
   "theorems": [
    "C65_history_refinement",
    "C65_from_new"
   ],
   "note": ""
  },
  {
   "property": "C66",
   "status": "proved",
   "theorems": [
    "C66_ids"
   ],
   "note": ""
  },
  {
   "property": "C67",
   "status": "proved",
   "theorems": [
    "C67_borrowed"
   ],
   "note": ""
  },
  {
   "property": "C68",
   "status": "partial",
   "theorems": [
    "C68_any_history_refuted",
    "C47_groups"
   ],
   "note": "False: refuted; C47_groups is the claim for calm histories."
  },
  {
   "property": "C69",
   "status": "proved",
   "theorems": [
    "C69_history_refinement",
    "C69_from_new",
    "C69_loose_histories"
   ],
   "note": ""
  },
  {
   "property": "C70",
   "status": "proved",
   "theorems": [
    "C70_borrowed"
   ],
   "note": ""
  },
  {
   "property": "C71",
   "status": "proved",
   "theorems": [
    "C71_ids"
   ],
   "note": ""
  },
  {
   "property": "C72",
   "status": "proved",
   "theorems": [
    "C72_sides",
    "C72_given",
    "C72_insert",
    "C72_remove"
   ],
   "note": ""
  },
  {
   "property": "C73",
   "status": "proved",
   "theorems": [
    "C73_sides",
    "C73_given",
    "C73_insert",
    "C73_remove",
    "C73_pair"
   ],
   "note": ""
  },
  {
   "property": "C74",
   "status": "proved",
   "theorems": [
    "C74_sides",
    "C74_given",
    "C74_insert",
    "C74_remove"
   ],
   "note": ""
  },
  {
   "property": "C75",
   "status": "partial",
   "theorems": [
    "C75_rights_partial",
    "C75_rights_refuted"
   ],
   "note": "False: refuted (a swap can bring in an item already present); proved for histories whose swaps do not."
  },
  {
   "property": "C76",
   "status": "proved",
   "theorems": [
    "C76_debug"
   ],
   "note": ""
  },
  {
   "property": "C77",
   "status": "partial",
   "theorems": [
    "C77_debug_map_partial",
    "C77_debug_iterators",
    "C77_debug_map_refuted"
   ],
   "note": "False as stated (unpaired right items are not shown): refuted; everything else proved, the iterators other than iter() in full."
  },
  {
   "property": "C78",
   "status": "partial",
   "theorems": [
    "C78_debug_map",
    "C78_debug_iter_partial",
    "C78_debug_iterators",
    "C78_debug_iter_refuted"
   ],
   "note": "The map and all iterators but iter() in full; iter() is false as stated inside a group: refuted, exact behaviour proved."
  },
  {
   "property": "C79",
   "status": "proved",
   "theorems": [
    "C79_debug_optional"
   ],
   "note": ""
  },
  {
   "property": "C80",
   "status": "proved",
   "theorems": [
    "C80_len_le_capacity",
    "C80_with_capacity",
    "C80_reserve",
    "C80_try_reserve",
    "C80_clear",
    "C80_drain",
    "C80_shrink",
    "C80_shrink_to_fit"
   ],
   "note": ""
  },
  {
   "property": "C81",
   "status": "partial",
   "theorems": [
    "C81_capacity_partial",
    "C81_same_capacity_refuted",
    "C81_drained_refuted"
   ],
   "note": "False: refuted (swaps reuse buckets on one side only; an early dropped drain leaves right items). Proved for each set with its own capacity."
  },
  {
   "property": "C82",
   "status": "proved",
   "theorems": [
    "C82_capacity",
    "C82_with_capacity",
    "C82_reserve_left",
    "C82_reserve_right",
    "C82_try_reserve",
    "C82_clear",
    "C82_drain",
    "C82_shrink_left",
    "C82_shrink_right",
    "C82_shrink_to_fit"
   ],
   "note": ""
  },
  {
   "property": "C83",
   "status": "proved",
   "theorems": [
    "C83_capacity",
    "C83_with_capacity",
    "C83_clear"
   ],
   "note": ""
  },
  {
   "property": "C84",
   "status": "proved",
   "theorems": [
    "C84_any_map",
    "C84_clone",
    "C84_clone_again"
   ],
   "note": ""
  },
  {
   "property": "C85",
   "status": "proved",
   "theorems": [
    "C85_any_map",
    "C85_clone"
   ],
   "note": ""
  },
  {
   "property": "C86",
   "status": "proved",
   "theorems": [
    "C86_any_map",
    "C86_clone"
   ],
   "note": ""
  },
  {
   "property": "C87",
   "status": "proved",
   "theorems": [
    "C87_atomic",
    "C87_eq",
    "C87_calm",
    "C87_history"
   ],
   "note": ""
  },
  {
   "property": "C88",
   "status": "proved",
   "theorems": [
    "C88_insert",
    "C88_reserved_insert",
    "C88_history"
   ],
   "note": ""
  },
  {
   "property": "C89",
   "status": "partial",
   "theorems": [
    "C89_insert_partial",
    "C89_extend_partial",
    "C89_insert_refuted"
   ],
   "note": "False: refuted (a left item without partner stays when Hash panics while the right table grows). Proved for every panic: exactly what is left and how removals mend it."
  },
  {
   "property": "C90",
   "status": "partial",
   "theorems": [
    "C90_swap_left_partial",
    "C90_swap_right_partial",
    "C90_swap_left_or_insert_partial",
    "C90_swap_right_or_insert_partial",
    "C90_swap_refuted"
   ],
   "note": "False: refuted (Eq panics after the partner was redirected). Proved for every panic: exactly what is left and how removals mend it."
  },
  {
   "property": "C91",
   "status": "partial",
   "theorems": [
    "C91_shrink",
    "C91_reserve_partial",
    "C91_reserve_refuted"
   ],
   "note": "shrink_to and shrink_to_fit in full; for reserve and try_reserve false (rehash in place loses buckets): refuted, exact outcome proved."
  },
  {
   "property": "C92",
   "status": "proved",
   "theorems": [
    "C92_sides",
    "C92_given",
    "C92_clear"
   ],
   "note": ""
  },
  {
   "property": "C93",
   "status": "proved",
   "theorems": [
    "C93_atomic",
    "C93_eq",
    "C93_calm",
    "C93_history"
   ],
   "note": ""
  },
  {
   "property": "C94",
   "status": "proved",
   "theorems": [
    "C94_insert",
    "C94_reserved_insert",
    "C94_history"
   ],
   "note": ""
  },
  {
   "property": "C95",
   "status": "proved",
   "theorems": [
    "C95_sides",
    "C95_given",
    "C95_clear"
   ],
   "note": ""
  },
  {
   "property": "C96",
   "status": "partial",
   "theorems": [
    "C96_insert_partial",
    "C96_extend_partial",
    "C96_insert_refuted"
   ],
   "note": "False: refuted (a left item that counts as paired without partner stays when Hash panics while the right table grows). Proved for every panic: exactly what is left and how removals mend it."
  },
  {
   "property": "C97",
   "status": "partial",
   "theorems": [
    "C97_swap_left_partial",
    "C97_swap_right_partial",
    "C97_swap_left_or_insert_partial",
    "C97_swap_right_or_insert_partial",
    "C97_swap_refuted"
   ],
   "note": "False: refuted (Eq panics after the partner was redirected). Proved for every panic: exactly what is left and how removals mend it."
  },
  {
   "property": "C98",
   "status": "partial",
   "theorems": [
    "C98_shrink",
    "C98_reserve_left_partial",
    "C98_reserve_right_partial",
    "C98_reserve_refuted"
   ],
   "note": "Shrinking in full; for reserve_* and try_reserve_* false (rehash in place loses buckets): refuted, exact outcome proved."
  },
  {
   "property": "C99",
   "status": "proved",
   "theorems": [
    "C99_atomic",
    "C99_eq",
    "C99_calm",
    "C99_history"
   ],
   "note": ""
  },
  {
   "property": "C100",
   "status": "proved",
   "theorems": [
    "C100_call",
    "C100_history"
   ],
   "note": ""
  },
  {
   "property": "C101",
   "status": "proved",
   "theorems": [
    "C101_sides",
    "C101_rights",
    "C101_given",
    "C101_clear"
   ],
   "note": ""
  },
  {
   "property": "C102",
   "status": "partial",
   "theorems": [
    "C102_remove_right_partial",
    "C102_remove_partial",
    "C102_insert_right_partial",
    "C102_insert_remove_partial",
    "C102_remove_right_refuted",
    "C102_insert_right_refuted"
   ],
   "note": "False: refuted (left items whose right item is gone stay behind). Proved for every panic: exactly what is left and how remove_left mends it."
  },
  {
   "property": "C103",
   "status": "partial",
   "theorems": [
    "C103_insert_partial",
    "C103_extend_partial",
    "C103_extend_pairs_partial",
    "C103_insert_refuted",
    "C103_false_pair_refuted"
   ],
   "note": "False: refuted (a left item is stored without its right item; inserting again panics; its id is given out again). Proved for every panic: exactly what is left and how it is mended."
  },
  {
   "property": "C104",
   "status": "partial",
   "theorems": [
    "C104_pair_partial",
    "C104_insert_left_partial",
    "C104_swap_right_partial",
    "C104_swap_right_remove_partial",
    "C104_pair_refuted",
    "C104_insert_left_refuted",
    "C104_swap_refuted"
   ],
   "note": "False: refuted (one direction of a pair is written before user code runs again). Proved for every panic: exactly what is left and how it is mended."
  },
  {
   "property": "C105",
   "status": "proved",
   "theorems": [
    "C105_any_call",
    "C105_strays",
    "C105_loose_maps",
    "C105_undamaged"
   ],
   "note": ""
  },
  {
   "property": "C106",
   "status": "proved",
   "theorems": [
    "C106_budget",
    "C106_roomy",
    "C106_lookup",
    "C106_extend",
    "C106_eq"
   ],
   "note": ""
  },
  {
   "property": "C107",
   "status": "proved",
   "theorems": [
    "C107_budget",
    "C107_roomy",
    "C107_lookup",
    "C107_extend",
    "C107_extend_pairs",
    "C107_eq"
   ],
   "note": ""
  },
  {
   "property": "C108",
   "status": "proved",
   "theorems": [
    "C108_budget",
    "C108_roomy",
    "C108_lookup",
    "C108_extend",
    "C108_extend_pairs",
    "C108_eq"
   ],
   "note": ""
  },
  {
   "property": "C109",
   "status": "proved",
   "theorems": [
    "C109_drain_filter",
    "C109_closure_panics",
    "C109_retain",
    "C109_extend",
    "C109_map_drop",
    "C109_peaceful",
    "glue_fate",
    "elements_fate",
    "seq_fate"
   ],
   "note": ""
  },
  {
   "property": "C110",
   "status": "partial",
   "theorems": [
    "C110_clear_partial",
    "C110_drain_partial",
    "C110_clear_refuted"
   ],
   "note": "False: refuted (clear with a panicking Drop of a left item keeps the right items, unpaired). Proved for every Drop: exactly what is left and how it is mended."
  },
  {
   "property": "C111",
   "status": "proved",
   "theorems": [
    "C111_drain_filter",
    "C111_closure_panics",
    "C111_retain",
    "C111_retain_paired",
    "C111_retain_unpaired",
    "C111_extend",
    "C111_map_drop",
    "C111_drain",
    "C111_peaceful"
   ],
   "note": ""
  },
  {
   "property": "C112",
   "status": "partial",
   "theorems": [
    "C112_clear_partial",
    "C112_clear_refuted"
   ],
   "note": "False: refuted (clear with a panicking Drop of a left item keeps the right items; those of pairs count as paired). Proved for every Drop: exactly what is left and how it is mended."
  },
  {
   "property": "C113",
   "status": "proved",
   "theorems": [
    "C113_retain_paired",
    "C113_retain_unpaired",
    "C113_extend",
    "C113_swap_right",
    "C113_map_drop",
    "C113_peaceful"
   ],
   "note": ""
  },
  {
   "property": "C114",
   "status": "partial",
   "theorems": [
    "C114_clear_partial",
    "C114_clear_refuted"
   ],
   "note": "False: refuted (clear with a panicking Drop of a left item keeps all right items, listing left items that are gone). Proved for every Drop: exactly what is left, and that clear again mends."
  },
  {
   "property": "C115",
   "status": "proved",
   "theorems": [
    "C115_iter",
    "C115_drain_filter"
   ],
   "note": ""
  },
  {
   "property": "C116",
   "status": "proved",
   "theorems": [
    "C116_drain_filter"
   ],
   "note": ""
  },
  {
   "property": "C117",
   "status": "proved",
   "theorems": [
    "C117_pairs_survive_any_eq",
    "C117_no_panic",
    "C117_hash_must_agree_refuted"
   ],
   "note": "C117_hash_must_agree_refuted shows that the hypothesis (equal items have equal hashes) is needed."
  },
  {
   "property": "C118",
   "status": "partial",
   "theorems": [
    "C118_iter_any_eq_partial",
    "C118_iter_any_eq_refuted"
   ],
   "note": "False: refuted (NaN on the left: iter and == panic; asymmetric Eq: iter shows a pair never inserted). Proved: when it panics, what it shows, and that it is exact if Eq tells the stored left items apart."
  },
  {
   "property": "C119",
   "status": "proved",
   "theorems": [
    "C119_no_item_invented"
   ],
   "note": ""
  },
  {
   "property": "C120",
   "status": "proved",
   "theorems": [
    "C120_no_item_invented"
   ],
   "note": ""
  },
  {
   "property": "C121",
   "status": "proved",
   "theorems": [
    "C121_no_item_invented"
   ],
   "note": ""
  },
  {
   "property": "C122",
   "status": "proved",
   "theorems": [
    "C122_equality_is_observation",
    "C122_congruence",
    "C122_insert_laws",
    "C122_remove_laws",
    "C122_swap_laws",
    "C122_extend_laws",
    "C122_collect",
    "C122_closure_laws"
   ],
   "note": ""
  },
  {
   "property": "C123",
   "status": "proved",
   "theorems": [
    "C123_insert_laws",
    "C123_pair_laws",
    "C123_remove_laws",
    "C123_swap_laws",
    "C123_extend_laws",
    "C123_congruence"
   ],
   "note": ""
  },
  {
   "property": "C124",
   "status": "proved",
   "theorems": [
    "C124_insert_laws",
    "C124_pair_laws",
    "C124_remove_laws",
    "C124_swap_laws",
    "C124_move_law",
    "C124_extend_laws",
    "C124_congruence"
   ],
   "note": "within the histories of C47 (the calls refuted in C48, C50, C51, C56 excluded); drop order and the order inside a returned group left open"
  },
  {
   "property": "C125",
   "status": "proved",
   "theorems": [
    "C125_mirror",
    "C125_or_insert"
   ],
   "note": "calls with closures: closures answering from the pair alone; a leaked drain_filter excluded"
  },
  {
   "property": "C126",
   "status": "proved",
   "theorems": [
    "C126_mirror",
    "C126_or_insert"
   ],
   "note": "guarded calls; retain and drain_filter excluded, results of iter and drain left open (one-sided, C37, C39-C41)"
  },
  {
   "property": "C127",
   "status": "proved",
   "theorems": [
    "C127_same",
    "C127_or_insert"
   ],
   "note": "drain and drain_filter not compared; closures answering from the pair alone"
  },
  {
   "property": "C128",
   "status": "proved",
   "theorems": [
    "C128_cycle_map",
    "C128_partial_pairs",
    "C128_partial_entries",
    "C128_group_map",
    "C128_group_pairs",
    "C128_group_sound"
   ],
   "note": "from_iter drops the half-built map when the iterator panics; nothing of it can be observed"
  },
  {
   "property": "C129",
   "status": "partial",
   "theorems": [
    "C129_deserialize_partial",
    "C129_hint_panics",
    "C129_hint_memory",
    "C129_no_panic_refuted"
   ],
   "note": "false as stated: the announced size is trusted; for sizes the tables accept the claim is proved in full"
  },
  {
   "property": "C130",
   "status": "proved",
   "theorems": [
    "C130_entries_survive_any_eq",
    "C130_no_panic"
   ],
   "note": "under the conditions named; what each call does is lax_step in PartialLax.v"
  },
  {
   "property": "C131",
   "status": "partial",
   "theorems": [
    "C131_iter_and_retain_any_eq_partial",
    "C131_iter_and_retain_any_eq_refuted"
   ],
   "note": "false as stated; proved when the stored items can be told apart by Eq"
  },
  {
   "property": "C132",
   "status": "proved",
   "theorems": [
    "C132_groups_survive_any_eq",
    "C132_no_panic"
   ],
   "note": "under the conditions named; what each call does is lax_step in GroupLax.v"
  },
  {
   "property": "C133",
   "status": "partial",
   "theorems": [
    "C133_remove_right_and_retain_any_eq_partial",
    "C133_remove_right_and_retain_any_eq_refuted"
   ],
   "note": "false as stated; proved when the stored items can be told apart by Eq"
  },
  {
   "property": "C134",
   "status": "proved",
   "theorems": [
    "C134_no_item_invented",
    "C134_shown_items_stored"
   ],
   "note": ""
  },
  {
   "property": "C135",
   "status": "partial",
   "theorems": [
    "C135_pairs_given_partial",
    "C135_drain_refuted"
   ],
   "note": "false as stated: drain restarts the ids; proved for all histories in which every drain leaves no right item behind"
  },
  {
   "property": "C136",
   "status": "proved",
   "theorems": [
    "C136_no_item_invented",
    "C136_shown_items_stored"
   ],
   "note": ""
  },
  {
   "property": "C137",
   "status": "proved",
   "theorems": [
    "C137_no_item_invented",
    "C137_shown_items_stored"
   ],
   "note": ""
  },
  {
   "property": "C138",
   "status": "proved",
   "theorems": [
    "C138_call_loses_no_item",
    "C138_history_loses_no_item",
    "C138_swap_refuted",
    "C138_or_insert_refuted"
   ],
   "note": "the _refuted theorems show that the exceptions named in the property are real"
  },
  {
   "property": "C139",
   "status": "proved",
   "theorems": [
    "C139_call_loses_no_item",
    "C139_history_loses_no_item",
    "C139_swap_refuted",
    "C139_or_insert_refuted"
   ],
   "note": "the _refuted theorems show that the exceptions named in the property are real"
  },
  {
   "property": "C140",
   "status": "proved",
   "theorems": [
    "C140_call_loses_no_item",
    "C140_history_loses_no_item",
    "C140_insert_refuted",
    "C140_remove_right_refuted"
   ],
   "note": "the _refuted theorems show that the exceptions named in the property are real"
  },
  {
   "property": "C141",
   "status": "partial",
   "theorems": [
    "C141_pairs_given_partial",
    "C141_pair_refuted"
   ],
   "note": "false as stated: pair may join items nobody asked to join; proved for all histories without pair, pair_forced and pair_forced_remove"
  },
  {
   "property": "C142",
   "status": "proved",
   "theorems": [
    "C142_calls",
    "C142_clone"
   ],
   "note": "any stateful or panicking Clone of the items; the result of cloning the hasher is a function of the hasher"
  },
  {
   "property": "C143",
   "status": "proved",
   "theorems": [
    "C143_calls",
    "C143_clone"
   ],
   "note": "any stateful or panicking Clone of the items; the result of cloning the hasher is a function of the hasher"
  },
  {
   "property": "C144",
   "status": "proved",
   "theorems": [
    "C144_calls",
    "C144_clone"
   ],
   "note": "any stateful or panicking Clone of the items; the result of cloning the hasher is a function of the hasher"
  },
  {
   "property": "C145",
   "status": "proved",
   "theorems": [
    "C145_writer"
   ],
   "note": "both flags, any writer that may refuse at any point; core::fmt builders written out in DebugWriter.v"
  },
  {
   "property": "C146",
   "status": "proved",
   "theorems": [
    "C146_writer_map",
    "C146_writer_iterators",
    "C146_writer_optional"
   ],
   "note": "both flags, any writer that may refuse at any point; core::fmt builders written out in DebugWriter.v"
  },
  {
   "property": "C147",
   "status": "proved",
   "theorems": [
    "C147_writer_map",
    "C147_writer_iterators"
   ],
   "note": "both flags, any writer that may refuse at any point; core::fmt builders written out in DebugWriter.v"
  },
  {
   "property": "C148",
   "status": "proved",
   "theorems": [
    "C148_hasher_kept"
   ],
   "note": "any user code, panics included; clone() copies the hasher"
  },
  {
   "property": "C149",
   "status": "proved",
   "theorems": [
    "C149_hasher_kept"
   ],
   "note": "any user code, panics included; clone() copies the hasher"
  },
  {
   "property": "C150",
   "status": "proved",
   "theorems": [
    "C150_hasher_kept"
   ],
   "note": "any user code, panics included; clone() copies the hasher"
  },
  {
   "property": "C151",
   "status": "proved",
   "theorems": [
    "C151_calls",
    "C151_lookups",
    "C151_eq",
    "C151_unchanged"
   ],
   "note": "any user code, panics included; hashbrown by contract: a search compares only entries of its table, a change of size hashes only them"
  },
  {
   "property": "C152",
   "status": "proved",
   "theorems": [
    "C152_calls",
    "C152_lookups",
    "C152_eq",
    "C152_unchanged"
   ],
   "note": "any user code, panics included; hashbrown by contract: a search compares only entries of its table, a change of size hashes only them"
  },
  {
   "property": "C153",
   "status": "proved",
   "theorems": [
    "C153_calls",
    "C153_lookups",
    "C153_eq",
    "C153_unchanged"
   ],
   "note": "any user code, panics included; hashbrown by contract: a search compares only entries of its table, a change of size hashes only them; the hasher of the HashSet of a removed group is not told apart from the map's"
  },
  {
   "property": "C154",
   "status": "proved",
   "theorems": [
    "C154_upper",
    "C154_valid"
   ],
   "note": "any map; after a panic of the closure nothing is said"
  },
  {
   "property": "C155",
   "status": "proved",
   "theorems": [
    "C155_collect",
    "C155_order",
    "C155_rebuild",
    "C155_extend",
    "C155_extend_order"
   ],
   "note": "lists without clash; C58 covers the others"
  },
  {
   "property": "C156",
   "status": "proved",
   "theorems": [
    "C156_collect",
    "C156_order",
    "C156_rebuild",
    "C156_iter",
    "C156_extend",
    "C156_extend_order"
   ],
   "note": "lists without shared items; C44 covers the others"
  },
  {
   "property": "C157",
   "status": "proved",
   "theorems": [
    "C157_cycle",
    "C157_pmap",
    "C157_pmap_drain",
    "C157_pmap_retain",
    "C157_pmap_filter",
    "C157_group",
    "C157_group_retain"
   ],
   "note": "slot order is part of the table contract; get_left_iter order is that of the inner set"
  },
  {
   "property": "C158",
   "status": "proved",
   "theorems": [
    "C158_collect",
    "C158_order",
    "C158_rebuild",
    "C158_extend",
    "C158_extend_order"
   ],
   "note": "lists without shared items; C20 covers the others"
  }
 ]
}