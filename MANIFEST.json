{
 "claims": [
  {
   "property": "C01",
   "status": "proved",
   "theorems": [
    "C01_entries_ascending_disjoint",
    "C01_every_ascending_list_is_reachable"
   ],
   "note": "All histories of all mutating methods, panicking calls included; conversely every ascending list of valid disjoint entries is reachable."
  },
  {
   "property": "C02",
   "status": "proved",
   "theorems": [
    "C02_get_key_value_at_point",
    "C02_get_at_point_Some",
    "C02_get_at_point_None",
    "C02_contains_point",
    "C02_one_entry"
   ],
   "note": "All three lookups, both directions."
  },
  {
   "property": "C03",
   "status": "proved",
   "theorems": [
    "C03_maximal_gap_at_point"
   ],
   "note": "max_run states maximality."
  },
  {
   "property": "C04",
   "status": "proved",
   "theorems": [
    "C04_overlapping"
   ],
   "note": "sub = exactly the entries meeting q, in order, with multiplicity."
  },
  {
   "property": "C05",
   "status": "proved",
   "theorems": [
    "C05_overlaps"
   ],
   "note": "Proved for all reachable maps and all arguments."
  },
  {
   "property": "C06",
   "status": "proved",
   "theorems": [
    "C06_contains_interval"
   ],
   "note": "Proved for all reachable maps and all arguments."
  },
  {
   "property": "C07",
   "status": "proved",
   "theorems": [
    "C07_gaps_untrimmed"
   ],
   "note": "lists_max_runs = exactly the maximal uncovered runs meeting q, ascending."
  },
  {
   "property": "C08",
   "status": "proved",
   "theorems": [
    "C08_gaps_trimmed",
    "C08_trimmed_is_untrimmed_cut_to_query"
   ],
   "note": "Exactly the maximal uncovered runs inside q; pointwise; and relation to the untrimmed gaps."
  },
  {
   "property": "C09",
   "status": "proved",
   "theorems": [
    "C09_insert_strict_refused",
    "C09_insert_strict_done"
   ],
   "note": "Both outcomes."
  },
  {
   "property": "C10",
   "status": "proved",
   "theorems": [
    "C10_insert_overwrite"
   ],
   "note": "Proved for all reachable maps and all arguments."
  },
  {
   "property": "C11",
   "status": "proved",
   "theorems": [
    "C11_cut_yields",
    "C11_cut_leaves"
   ],
   "note": "Yielded pieces and remaining entries, both directions."
  },
  {
   "property": "C12",
   "status": "proved",
   "theorems": [
    "C12_remove_overlapping"
   ],
   "note": "Proved for all reachable maps and all arguments."
  },
  {
   "property": "C13",
   "status": "proved",
   "theorems": [
    "C13_insert_merge_touching_refused",
    "C13_insert_merge_touching_done"
   ],
   "note": "absorbs is defined in Spec.v."
  },
  {
   "property": "C14",
   "status": "proved",
   "theorems": [
    "C14_insert_merge_touching_if_values_equal_refused",
    "C14_insert_merge_touching_if_values_equal_done"
   ],
   "note": "veq is the PartialEq of V, arbitrary."
  },
  {
   "property": "C15",
   "status": "proved",
   "theorems": [
    "C15_insert_merge_overlapping"
   ],
   "note": "Proved for all reachable maps and all arguments."
  },
  {
   "property": "C16",
   "status": "proved",
   "theorems": [
    "C16_insert_merge_touching_or_overlapping"
   ],
   "note": "Proved for all reachable maps and all arguments."
  },
  {
   "property": "C17",
   "status": "proved",
   "theorems": [
    "C17_history_is_a_point_function",
    "C17_every_history_describes_a_function"
   ],
   "note": "Restated to the operations whose effect can be told from points alone; C57 covers all operations."
  },
  {
   "property": "C18",
   "status": "proved",
   "theorems": [
    "C18_insertions_panic_iff_invalid",
    "C18_insertions_panic_leave_map_unchanged",
    "C18_removals_panic_iff_invalid",
    "C18_removals_panic_leave_map_unchanged",
    "C18_queries_panic_iff_invalid",
    "C18_point_methods_never_panic"
   ],
   "note": "Every method taking an interval, both directions, and the state after a panic."
  },
  {
   "property": "C19",
   "status": "proved",
   "theorems": [
    "C19_accepts_iff_disjoint",
    "C19_result_holds_exactly_the_entries",
    "C19_order_irrelevant",
    "C19_error_is_first_clash",
    "C19_panic_is_first_invalid",
    "C19_from_slice_strict_same"
   ],
   "note": "Complete characterisation of Ok, Err and panic."
  },
  {
   "property": "C20",
   "status": "proved",
   "theorems": [
    "C20_len_is_empty_iter",
    "C20_first_key_value",
    "C20_last_key_value"
   ],
   "note": "Proved for all reachable maps and all arguments."
  },
  {
   "property": "C21",
   "status": "proved",
   "theorems": [
    "C21_iter_mut",
    "C21_overlapping_mut",
    "C21_get_at_point_mut"
   ],
   "note": "Proved for all reachable maps and all arguments."
  },
  {
   "property": "C22",
   "status": "proved",
   "theorems": [
    "C22_round_trip",
    "C22_accepts_iff_disjoint",
    "C22_rejects",
    "C22_panics_iff_first_bad_is_invalid"
   ],
   "note": "Exact acceptance condition, rejection and panic conditions."
  },
  {
   "property": "C23",
   "status": "proved",
   "theorems": [
    "C23_uu",
    "C23_ui",
    "C23_ue",
    "C23_iu",
    "C23_eu",
    "C23_ii",
    "C23_ie",
    "C23_ei",
    "C23_ee"
   ],
   "note": "builds (Spec.v): exactly the described points, or a panic if there are none."
  },
  {
   "property": "C24",
   "status": "proved",
   "theorems": [
    "C24_contains_point",
    "C24_is_valid",
    "C24_contains_interval",
    "C24_is_singular",
    "C24_overlaps",
    "C24_overlaps_symmetric",
    "C24_intersection_Some",
    "C24_intersection_None",
    "C24_intersection_symmetric"
   ],
   "note": "Proved for all reachable maps and all arguments."
  },
  {
   "property": "C25",
   "status": "proved",
   "theorems": [
    "C25_from_range_inclusive",
    "C25_from_range",
    "C25_to_range_inclusive",
    "C25_range_inclusive_round_trip",
    "C25_range_round_trip",
    "C25_range_round_trip_identity",
    "C25_range_panics_exactly_at_MAX",
    "C25_bounds"
   ],
   "note": "Proved for all reachable maps and all arguments."
  },
  {
   "property": "C26",
   "status": "proved",
   "theorems": [
    "C26_translate",
    "C26_translate_debug_overflow",
    "C26_width",
    "C26_width_debug_overflow",
    "C26_translate_keeps_width"
   ],
   "note": "For every integer type [lo,hi] and every interval type."
  },
  {
   "property": "C27",
   "status": "proved",
   "theorems": [
    "C27_integers",
    "C27_integer_instances",
    "C27_usize",
    "C27_WithInfinity"
   ],
   "note": "All ranges lo<=hi, hence all fixed-width types; usize for every pointer width; WithInfinity over every lawful T."
  },
  {
   "property": "C28",
   "status": "proved",
   "theorems": [
    "C28_iter_lists_maximal_intervals",
    "C28_same_points_same_intervals",
    "C28_insertion_order",
    "C28_same_points_equal",
    "C28_insertion_order_equal"
   ],
   "note": "Every interval type (same points); equality of the sets for K = Interval. remove_overlapping is allowed too."
  },
  {
   "property": "C29",
   "status": "proved",
   "theorems": [
    "C29_iter_ascending_disjoint",
    "C29_history_is_a_point_set",
    "C29_every_history_describes_a_point_set",
    "C29_remove_overlapping",
    "C29_insertions_return",
    "C29_cut_yields"
   ],
   "note": "remove_overlapping is described interval by interval, every other call by its point set."
  },
  {
   "property": "C30",
   "status": "proved",
   "theorems": [
    "C30_histories",
    "C30_queries",
    "C30_calls",
    "C30_bulk"
   ],
   "note": "Every method, and any value type in place of ()."
  },
  {
   "property": "C31",
   "status": "proved",
   "theorems": [
    "C31_overlapping_and_gaps_tile_the_query"
   ],
   "note": "Proved for all reachable maps and all arguments."
  },
  {
   "property": "C32",
   "status": "proved",
   "theorems": [
    "C32_entries_ascending_zero_overlap",
    "C32_non_singular_once",
    "C32_every_such_sequence_is_reachable"
   ],
   "note": "All histories; also shown tight: every list of valid intervals ascending in this sense is reached (up to the representation of an interval with the same points)."
  },
  {
   "property": "C33",
   "status": "proved",
   "theorems": [
    "C33_is_zero_overlap"
   ],
   "note": "All reachable maps, query type may differ from the key type."
  },
  {
   "property": "C34",
   "status": "proved",
   "theorems": [
    "C34_insert_strict_back_refused",
    "C34_insert_strict_back_done"
   ],
   "note": "All reachable maps. The false claim about entries with the same interval is C65."
  },
  {
   "property": "C35",
   "status": "proved",
   "theorems": [
    "C35_overlapping"
   ],
   "note": "All reachable maps."
  },
  {
   "property": "C36",
   "status": "proved",
   "theorems": [
    "C36_first_last_key_value",
    "C36_len_at_least"
   ],
   "note": "All reachable maps. The exact counter claim is C63 (false in the code)."
  },
  {
   "property": "C37",
   "status": "partial",
   "theorems": [
    "C37_cut_partial",
    "C37_cut_otherwise_does_nothing_partial",
    "C37_cut_refuted"
   ],
   "note": "False as stated: cut positions its cursor at the first entry not below q's start and returns at once when the entry there does not straddle it (C37_cut_refuted: map {[0,1],[4,8]}, cut [3,6] does nothing). Proved: the full claim when some overlapping entry starts below q or no entry lies before q; in all other reachable states cut changes nothing and yields nothing, so the behaviour is fully characterised."
  },
  {
   "property": "C38",
   "status": "partial",
   "theorems": [
    "C38_get_last_value_at_point_partial",
    "C38_returned_value_is_the_last_partial",
    "C38_otherwise_none_partial",
    "C38_get_last_value_at_point_refuted"
   ],
   "note": "False as stated (C38_get_last_value_at_point_refuted: {[0,1],[4,8]} at point 1 gives None). Proved: the full claim when some entry contains p and a later point or no entry reaches past p; None in all other reachable states; a returned value is always the right one."
  },
  {
   "property": "C39",
   "status": "proved",
   "theorems": [
    "C39_remove_last_value_at_point"
   ],
   "note": "All reachable maps; relative to what get_last_value_at_point returns."
  },
  {
   "property": "C40",
   "status": "proved",
   "theorems": [
    "C40_accepts_iff_zero_overlapping",
    "C40_result_holds_exactly_the_entries",
    "C40_error_is_first_clash",
    "C40_panic_is_first_invalid",
    "C40_from_slice_same"
   ],
   "note": "All lists; errors and panics characterised exactly."
  },
  {
   "property": "C41",
   "status": "proved",
   "theorems": [
    "C41_round_trip",
    "C41_accepts_like_bulk_construction",
    "C41_rejects",
    "C41_panics_iff_first_bad_is_invalid"
   ],
   "note": "All reachable maps and all sequences; also says exactly when deserialization panics (an invalid interval is the first offender)."
  },
  {
   "property": "C42",
   "status": "proved",
   "theorems": [
    "C42_insert_panics_iff_invalid",
    "C42_cut_panics_iff_invalid",
    "C42_queries_panic_iff_invalid",
    "C42_remove_never_panics"
   ],
   "note": "All reachable maps. The unreachable!() branches are modelled as Panic, hence never reached."
  },
  {
   "property": "C43",
   "status": "proved",
   "theorems": [
    "C43_identifiers_follow_history",
    "C43_last_call_decides"
   ],
   "note": "added/adds/removes in GqditOps.v say what a history means, without reference to the model's methods."
  },
  {
   "property": "C44",
   "status": "proved",
   "theorems": [
    "C44_insert"
   ],
   "note": "Any list of identifiers, collected into the BTreeSet the method takes."
  },
  {
   "property": "C45",
   "status": "proved",
   "theorems": [
    "C45_cut_with_identifiers",
    "C45_cut_all_identifiers"
   ],
   "note": "Both cuts; s and s' are the sets returned by identifiers_at_point before and after."
  },
  {
   "property": "C46",
   "status": "proved",
   "theorems": [
    "C46_append_unites"
   ],
   "note": "Also: the result is again reachable."
  },
  {
   "property": "C47",
   "status": "proved",
   "theorems": [
    "C47_other_has_no_identifiers",
    "C47_append_other_again"
   ],
   "note": "The other half of the original claim (b is usable like a new Gqdit) is C67."
  },
  {
   "property": "C48",
   "status": "proved",
   "theorems": [
    "C48_gaps_no_identifier"
   ],
   "note": "lists_max_runs: ascending, sound, maximal, complete."
  },
  {
   "property": "C49",
   "status": "proved",
   "theorems": [
    "C49_gaps_with_identifier"
   ],
   "note": "Covers the left/right expansion, the join of both ends into one gap, the inner gaps and the final coalescing."
  },
  {
   "property": "C50",
   "status": "proved",
   "theorems": [
    "C50_equality_is_extensional",
    "C50_order_of_inserts",
    "C50_permuted_inserts"
   ],
   "note": "keq is the interval type's PartialEq, assumed reflexive and to imply the same points (the derived == of Interval does)."
  },
  {
   "property": "C51",
   "status": "proved",
   "theorems": [
    "C51_new",
    "C51_mutations",
    "C51_append",
    "C51_queries"
   ],
   "note": "Also for Gqdits that were passed to append as other."
  },
  {
   "property": "C52",
   "status": "proved",
   "theorems": [
    "C52_round_trip",
    "C52_serialized_data"
   ],
   "note": "Well-formedness of accepted data is C66."
  },
  {
   "property": "C53",
   "status": "proved",
   "theorems": [
    "C53_nodit_searches",
    "C53_nodit_insert",
    "C53_nodit_range",
    "C53_gqdit",
    "C53_zosdit_searches",
    "C53_zosdit_ranges"
   ],
   "note": "TreeShape.v models the tree with nodes of any size and depth and the search from the root; shape_free compares get, get_mut, remove, lower_bound and upper_bound, insert_shape_free the place of an insert, range_shape_free the entries of a range. That the dependency's tree searches in this way is part of the trusted base."
  },
  {
   "property": "C54",
   "status": "partial",
   "theorems": [
    "C54_reservation_refuted",
    "C54_reservation_partial",
    "C54_without_conversion_partial",
    "C54_conversion_partial"
   ],
   "note": "False as stated: insert_strict then insert_overwrite leaves two entries sharing a point. Partial: holds for every history over the README's type that calls no converting method; holds for all histories for the type with the off-by-one repaired; and the conversion is shown to add exactly one point to every interval not ending at i8::MAX."
  },
  {
   "property": "C55",
   "status": "proved",
   "theorems": [
    "C55_constructors",
    "C55_conversions",
    "C55_intersection"
   ],
   "note": "Restated to the calls for which it holds; the rest is C61."
  },
  {
   "property": "C56",
   "status": "proved",
   "theorems": [
    "C56_cut_idempotent",
    "C56_cut_restore",
    "C56_cuts_commute",
    "C56_disjoint_cuts_yield_the_same"
   ],
   "note": "Commutation of the maps holds even for overlapping cuts."
  },
  {
   "property": "C57",
   "status": "proved",
   "theorems": [
    "C57_history_refines_entry_sets",
    "C57_history_determined_by_entry_sets"
   ],
   "note": "Refinement for every interval type; determinism for K = Interval."
  },
  {
   "property": "C58",
   "status": "partial",
   "theorems": [
    "C58_deserialize_never_panics_refuted",
    "C58_deserialize_never_panics_partial"
   ],
   "note": "False as stated: serialized invalid intervals reach insert_strict, which panics. Partial: no panic when all intervals are valid."
  },
  {
   "property": "C59",
   "status": "partial",
   "theorems": [
    "C59_range_conversion_partial",
    "C59_range_conversion_refuted"
   ],
   "note": "False for intervals ending at MAX; holds for all others."
  },
  {
   "property": "C60",
   "status": "partial",
   "theorems": [
    "C60_translate_debug_refuted",
    "C60_translate_release_refuted",
    "C60_width_refuted",
    "C60_width_partial",
    "C60_translate_release_valid_partial",
    "C60_translate_release_invalid_partial",
    "C60_width_release_partial",
    "C60_debug_iff_partial",
    "C60_translate_release_keeps_width_partial"
   ],
   "note": "False: debug panic, release wrap-around to an invalid interval, signed width overflow. Partial, exact: in a debug build a result exactly when nothing overflows; in a release build always a result, translate is valid (and keeps the distance of its ends) exactly when both ends overflow or neither does, width is the distance when that fits and negative otherwise; width never overflows for unsigned types; see C26."
  },
  {
   "property": "C61",
   "status": "partial",
   "theorems": [
    "C61_deserialized_interval_refuted",
    "C61_translated_interval_refuted",
    "C61_translated_interval_partial",
    "C61_translated_interval_release_partial",
    "C61_deserialized_interval_partial"
   ],
   "note": "False: derived Deserialize does not check, release translate wraps. Partial, exact: debug translate gives valid intervals only; release translate gives a valid interval iff both ends overflow or neither does; a deserialized interval is valid iff its ends are in order."
  },
  {
   "property": "C62",
   "status": "proved",
   "theorems": [
    "C62_values_never_inspected",
    "C62_queries",
    "C62_calls"
   ],
   "note": "No law on points or intervals is needed."
  },
  {
   "property": "C63",
   "status": "partial",
   "theorems": [
    "C63_len_partial",
    "C63_is_empty_partial",
    "C63_len_refuted"
   ],
   "note": "False as stated: remove_last_value_at_point never decrements the counter. Proved instead, exactly: for every history, len() = number of entries + number of successful removals; is_empty() iff there are no entries and there was no removal."
  },
  {
   "property": "C64",
   "status": "partial",
   "theorems": [
    "C64_round_trip_equal_partial",
    "C64_round_trip_equal_iff_partial",
    "C64_without_cut_stored_once_partial",
    "C64_announced_length_partial",
    "C64_round_trip_equal_refuted",
    "C64_announced_length_refuted",
    "C64_cut_stored_once_iff_partial",
    "C64_twinless_stored_once_partial",
    "C64_twinless_round_trip_equal_partial"
   ],
   "note": "False as stated (counter wrong after removals; a cut can leave two tree entries with the same singular key which deserialization joins). Proved instead, exactly: the round trip reproduces the structure iff nothing was removed and the tree holds no interval twice. In terms of the API: a cut stores an interval twice exactly if it takes effect and leaves of some entry a single point whose one-point interval is stored too (leaves_twin); so in every history without such cuts (twinless) the round trip is exact iff nothing was removed. The announced length is right iff nothing was removed."
  },
  {
   "property": "C65",
   "status": "partial",
   "theorems": [
    "C65_insert_at_the_back_partial",
    "C65_insert_at_the_back_refuted",
    "C65_twinless_insert_at_the_back_partial"
   ],
   "note": "False as stated: after [0,0] a, [0,4] b, cut [1,3] the tree holds the key [0,0] twice and a new [0,0] goes between. Proved for non-singular k in every history, and for every k in histories without cuts that leave a twin (see C64). Note: with equal keys the real tree may find either; the model finds the first. C34 covers both."
  },
  {
   "property": "C66",
   "status": "partial",
   "theorems": [
    "C66_deserialized_partial",
    "C66_described_data_accepted_partial",
    "C66_deserialized_refuted",
    "C66_gaps_refuted"
   ],
   "note": "False: the empty sequence is accepted and an insert into the result is lost; unmerged neighbours are accepted and gaps_no_identifier lists a non-maximal gap. Proved instead: the result is a reachable Gqdit exactly if the data describes one, and all such data is accepted."
  },
  {
   "property": "C67",
   "status": "partial",
   "theorems": [
    "C67_other_never_recovers_partial",
    "C67_other_like_new_refuted"
   ],
   "note": "False: append leaves other with an empty inner map, on which inserts are lost and no gaps are listed. Proved instead: point queries agree with a new Gqdit and no later call changes anything."
  },
  {
   "property": "C68",
   "status": "partial",
   "theorems": [
    "C68_entry_partial",
    "C68_entry_any_shape_partial",
    "C68_entry_refuted",
    "C68_twinless_entry_partial"
   ],
   "note": "False after a cut that leaves two entries with the same one-point interval: witness with two valid B-trees (B = 6). Proved instead: true for histories without such cuts (twinless, see C64); and in every state and tree no comparison panics and the value is put where C34 allows."
  },
  {
   "property": "C69",
   "status": "proved",
   "theorems": [
    "C69_entries_ascending_disjoint",
    "C69_reachable_without_panics",
    "C69_no_panic_no_difference",
    "C69_returning_calls",
    "C69_interrupted_cut",
    "C69_interrupted_overwrite",
    "C69_no_new_values"
   ],
   "note": "Full, for the crash-point model of CrashModel.v (user Clone, PartialEq and From calls may panic at any point)."
  },
  {
   "property": "C70",
   "status": "partial",
   "theorems": [
    "C70_merging_inserts_unchanged_partial",
    "C70_if_values_equal_partial",
    "C70_cut_refuted",
    "C70_overwrite_refuted",
    "C70_if_values_equal_refuted"
   ],
   "note": "False for cut, insert_overwrite and insert_merge_touching_if_values_equal (witnesses). Proved for the other three merging inserts; insert_merge_touching_if_values_equal loses at most the touching, equal-valued left neighbour."
  },
  {
   "property": "C71",
   "status": "proved",
   "theorems": [
    "C71_entries_ascending_zero_overlap",
    "C71_queries_still_correct",
    "C71_interrupted_cut",
    "C71_returning_cut",
    "C71_no_panic_no_difference"
   ],
   "note": "Full."
  },
  {
   "property": "C72",
   "status": "proved",
   "theorems": [
    "C72_entries_ascending_disjoint",
    "C72_interrupted_insert",
    "C72_interrupted_cut_with_identifiers",
    "C72_interrupted_cut_all_identifiers",
    "C72_interrupted_append",
    "C72_returning_calls",
    "C72_no_panic_no_difference"
   ],
   "note": "Full; append: no identifier appears that neither side had."
  },
  {
   "property": "C73",
   "status": "partial",
   "theorems": [
    "C73_insert_after_panic_partial",
    "C73_insert_after_panic_refuted"
   ],
   "note": "False: an interrupted insert takes points out of the inner map for good (witness). Proved instead: a later insert works at exactly the points some stored interval still contains."
  },
  {
   "property": "C74",
   "status": "partial",
   "theorems": [
    "C74_len_never_too_small_partial",
    "C74_len_refuted",
    "C74_interrupted_cut_len_partial",
    "C74_returning_cut_len_partial",
    "C74_len_partial",
    "C74_no_interrupted_cut_partial"
   ],
   "note": "False: len() stays too large after an interrupted cut (witness). Proved instead: len() is never smaller than the number of entries."
  },
  {
   "property": "C75",
   "status": "partial",
   "theorems": [
    "C75_gap_queries_partial",
    "C75_gap_queries_refuted",
    "C75_gap_queries_exact",
    "C75_gap_queries_keeping_invalid"
   ],
   "note": "False: touching neighbours inside the query make the code convert an invalid interval. Exactly when the queries are right: whenever none of those conversions gives a valid interval (or panics); so for every K::from that keeps invalid intervals invalid."
  },
  {
   "property": "C76",
   "status": "partial",
   "theorems": [
    "C76_gap_queries_panic_partial",
    "C76_laziness_is_immaterial",
    "C76_gap_queries_panic_refuted",
    "C76_contains_interval_panics_exact"
   ],
   "note": "False: the conversion between touching neighbours panics. Exactly when each query panics; and laziness does not matter for a K::from that always returns."
  },
  {
   "property": "C77",
   "status": "proved",
   "theorems": [
    "C77_cut_size",
    "C77_insert_overwrite_size",
    "C77_history_size"
   ],
   "note": "Size bounds of cut, insert_overwrite and of whole histories, the last attained in C77_example."
  },
  {
   "property": "C78",
   "status": "proved",
   "theorems": [
    "C78_values_are_conserved"
   ],
   "note": "Values conserved as multisets over every sequence of insert_strict / remove_overlapping from any reachable map; remove_overlapping with an invalid query panics and changes nothing, which the statement covers."
  },
  {
   "property": "C79",
   "status": "proved",
   "theorems": [
    "C79_zosdit_values_are_conserved",
    "C79_zosdit_cut_conserves"
   ],
   "note": "Values conserved by ZosditMap sequences and, point by point and in order, by cut (also where cut misses entries, see C37)."
  },
  {
   "property": "C80",
   "status": "proved",
   "theorems": [
    "C80_map_equality",
    "C80_set_equality"
   ],
   "note": "Derived PartialEq modelled in EqModel; K's and V's == are parameters assumed correct (K's on valid intervals only, for sets)."
  },
  {
   "property": "C81",
   "status": "proved",
   "theorems": [
    "C81_entries_are_maximal",
    "C81_equality_is_extensional",
    "C81_insertion_order"
   ],
   "note": "Proved; C81_example shows a plain insert_strict breaks it, so the restriction on the history is needed."
  },
  {
   "property": "C82",
   "status": "partial",
   "theorems": [
    "C82_zosdit_equality_partial",
    "C82_zosdit_equality_stored_once_partial",
    "C82_equal_maps_have_equal_entries_partial",
    "C82_zosdit_equality_refuted",
    "C82_twinless_zosdit_equality_partial"
   ],
   "note": "Refuted twice: after remove_last_value_at_point the stale counter (C63) makes equal contents unequal, after cut the same one-point entries are grouped differently. Proved: equal iff same entries and same len(), for histories without cuts that leave a twin (see C64); in general equal maps have the same entries and len()."
  },
  {
   "property": "C83",
   "status": "proved",
   "theorems": [
    "C83_histories",
    "C83_insertions",
    "C83_removals_and_queries",
    "C83_interval_follows",
    "C83_integers",
    "C83_finite_points"
   ],
   "note": "C83_histories, C83_insertions and C83_removals_and_queries for arbitrary embeddings; C83_integers, C83_finite_points and C83_interval_follows show that integer shifts, the README's Finite and the crate's Interval qualify. Gap queries are C84 (they see MIN and MAX)."
  },
  {
   "property": "C84",
   "status": "proved",
   "theorems": [
    "C84_gap_queries",
    "C84_integers"
   ],
   "note": "C84_gap_queries; C84_integers shows that integer types of the same width qualify. C84_example shows that the condition on the ends is needed."
  },
  {
   "property": "C85",
   "status": "proved",
   "theorems": [
    "C85_zosdit_histories",
    "C85_zosdit_calls"
   ],
   "note": "C85_zosdit_histories and C85_zosdit_calls."
  },
  {
   "property": "C86",
   "status": "proved",
   "theorems": [
    "C86_entries_ascending_disjoint",
    "C86_point_queries",
    "C86_gap_at_point",
    "C86_overlap_queries",
    "C86_insert_strict",
    "C86_remove_overlapping"
   ],
   "note": "No IntervalLaws assumption in any of these theorems."
  },
  {
   "property": "C87",
   "status": "proved",
   "theorems": [
    "C87_insert_laws",
    "C87_insert_on_pieces",
    "C87_cut_laws",
    "C87_cut_all_is_cut_with",
    "C87_insert_and_cut",
    "C87_append_laws",
    "C87_append_and_calls",
    "C87_gaps_with_is_gaps_no",
    "C87_gaps_with_is_gaps_no_Interval"
   ],
   "note": "Each call is a pointwise operation on sets and a Gqdit is determined by its points (canonical form), so every law of sets carries over."
  },
  {
   "property": "C88",
   "status": "proved",
   "theorems": [
    "C88_point_is_one_point_interval",
    "C88_contains_overlaps_gaps",
    "C88_inserted_iff_not_overlaps",
    "C88_overwrite_is_cut_then_insert",
    "C88_remove_overlapping_yields_overlapping",
    "C88_removal_clears",
    "C88_insert_then_remove",
    "C88_insertions_agree_when_apart",
    "C88_touching_or_overlapping_extends_both",
    "C88_if_values_equal_lies_between"
   ],
   "note": "Equalities of whole results and maps between pairs of methods, derived from the specifications C02-C16 and, where those leave the interval value open, from the computations."
  },
  {
   "property": "C89",
   "status": "proved",
   "theorems": [
    "C89_fill_trimmed_gaps",
    "C89_fill_untrimmed_gaps"
   ],
   "note": "The gap lists are disjoint valid free intervals that cover what is missing (C07, C08); induction over the insertions."
  },
  {
   "property": "C90",
   "status": "proved",
   "theorems": [
    "C90_iter",
    "C90_overlapping",
    "C90_set_iter",
    "C90_set_overlapping",
    "C90_zosdit_iter",
    "C90_zosdit_overlapping",
    "C90_zosdit_backwards",
    "C90_resumed"
   ],
   "note": "Iterators as state machines (IterModel, core's flat_map included), simulated by the list still to come."
  },
  {
   "property": "C91",
   "status": "proved",
   "theorems": [
    "C91_iter_mut",
    "C91_overlapping_mut",
    "C91_intervals"
   ],
   "note": "The mutable iterator as a zipper over the entries; the range is the one overlapping yields (C04)."
  },
  {
   "property": "C92",
   "status": "proved",
   "theorems": [
    "C92_from_before_to_after",
    "C92_one_entry_at_a_time",
    "C92_every_state_valid",
    "C92_no_new_values",
    "C92_other_entries_stay",
    "C92_crash_points_are_traced",
    "C92_histories_included",
    "C92_interrupted_histories"
   ],
   "note": "User code that panics during a B-tree change (after the search) is not modelled."
  },
  {
   "property": "C93",
   "status": "proved",
   "theorems": [
    "C93_from_before_to_after",
    "C93_one_entry_at_a_time",
    "C93_histories_included",
    "C93_every_state_ordered",
    "C93_insert_states",
    "C93_cut_with_states",
    "C93_cut_all_states",
    "C93_one_run_lost",
    "C93_append_states",
    "C93_crash_points_are_traced"
   ],
   "note": "User code that panics during a B-tree change (after the search) is not modelled."
  },
  {
   "property": "C94",
   "status": "proved",
   "theorems": [
    "C94_from_before_to_after",
    "C94_histories_included",
    "C94_every_state_ordered",
    "C94_len_never_too_small",
    "C94_queries_still_correct",
    "C94_cut_states",
    "C94_crash_points_are_traced"
   ],
   "note": "User code that panics during a B-tree change (after the search) is not modelled."
  },
  {
   "property": "C95",
   "status": "proved",
   "theorems": [
    "C95_entries_ascending_disjoint",
    "C95_point_queries",
    "C95_misses",
    "C95_overlap_queries",
    "C95_insert_strict",
    "C95_remove_overlapping"
   ],
   "note": "Only TotalPreorder (a total order of the points up to cmp-Equality) is assumed of the points. A finite history is carried over to integers by the rank of each of its points (OrderOnly.v)."
  },
  {
   "property": "C96",
   "status": "proved",
   "theorems": [
    "C96_entries_ascending_zero_overlap",
    "C96_is_zero_overlap",
    "C96_overlapping",
    "C96_first_last_key_value",
    "C96_insert_strict_back",
    "C96_get_last_value_at_point",
    "C96_remove_last_value_at_point"
   ],
   "note": "Only TotalPreorder is assumed of the points, as in C95; histories are carried over to integers as for C95 (OrderOnlyZosdit.v). get_last_value_at_point keeps the exception of C38."
  },
  {
   "property": "C97",
   "status": "proved",
   "theorems": [
    "C97_histories",
    "C97_insertions",
    "C97_removals_and_queries",
    "C97_gap_queries"
   ],
   "note": "Carried over to the integer type of the ranks with C83 and C84. The example uses points with a mark that cmp ignores; the marks kept do depend on which point was passed."
  },
  {
   "property": "C98",
   "status": "proved",
   "theorems": [
    "C98_histories",
    "C98_calls"
   ],
   "note": "From C85, as C97."
  },
  {
   "property": "C99",
   "status": "proved",
   "theorems": [
    "C99_identifiers",
    "C99_gaps",
    "C99_entries",
    "C99_calls"
   ],
   "note": "keeps_order, reaches_all, ends_sent and gop_sent are defined in GqditTransportOps.v."
  },
  {
   "property": "C100",
   "status": "proved",
   "theorems": [
    "C100_identifier_is_a_set",
    "C100_intervals"
   ],
   "note": "set_of is defined in GqditSetsOps.v."
  },
  {
   "property": "C101",
   "status": "proved",
   "theorems": [
    "C101_gaps_no_identifier",
    "C101_gaps_with_identifier"
   ],
   "note": "all_of and all_but are defined in GqditSetsOps.v; intervals are compared by their points."
  },
  {
   "property": "C102",
   "status": "proved",
   "theorems": [
    "C102_overlapping",
    "C102_insert",
    "C102_histories",
    "C102_lookup",
    "C102_cut"
   ],
   "note": "The results of cut are compared by their points and values; get and cut under the conditions of C38 and C37, outside which ZosditMap returns nothing (C37, C38)."
  },
  {
   "property": "C103",
   "status": "proved",
   "theorems": [
    "C103_equality",
    "C103_equality_of_ends",
    "C103_equivalence",
    "C103_equal_intervals_hash_alike",
    "C103_different_intervals_hash_differently",
    "C103_containers"
   ],
   "note": "Proved in full. Hash is modelled by the sequence of data handed to the hasher."
  },
  {
   "property": "C104",
   "status": "proved",
   "theorems": [
    "C104_merging_sets",
    "C104_value_merging_maps",
    "C104_zosdit_maps",
    "C104_gqdits"
   ],
   "note": "Proved in full; for Gqdit with points that are equal when they compare Equal. NoditMap with all its calls: C01."
  },
  {
   "property": "C105",
   "status": "proved",
   "theorems": [
    "C105_points",
    "C105_laws",
    "C105_laws_complete",
    "C105_laws_exact"
   ],
   "note": "Complete."
  },
  {
   "property": "C106",
   "status": "proved",
   "theorems": [
    "C106_inserted_iff_is_zero_overlap",
    "C106_nothing_overlapping_is_zero_overlap",
    "C106_point_is_one_point_interval",
    "C106_cut_again_does_nothing",
    "C106_insert_then_remove",
    "C106_insertions_commute",
    "C106_removing_repeatedly"
   ],
   "note": "Complete; the conditions of C37 and C38 appear where the code has the defects refuted there."
  },
  {
   "property": "C107",
   "status": "proved",
   "theorems": [
    "C107_local",
    "C107_near_entries_decide",
    "C107_commute",
    "C107_interleavings"
   ],
   "note": "Frame lemmas for every search of the B-tree model with a comparator that sends the entries on the left right and the entries on the right left; no call covers a point that was neither covered nor its own, so what is clear stays clear. The order does show when an entry concerns both calls (ex_lc_order_shows)."
  },
  {
   "property": "C108",
   "status": "proved",
   "theorems": [
    "C108_from_iter_any_order",
    "C108_inserts_commute",
    "C108_overlapping_inserts_exclude",
    "C108_from_iter_any_order_same_map"
   ],
   "note": "Sorted entries are determined by the values at each interval; entry_push commutes by induction over the tree, the position being decided by a transitive comparison of the extents."
  },
  {
   "property": "C109",
   "status": "proved",
   "theorems": [
    "C109_history_refines_entry_sequences",
    "C109_history_determined_by_entry_sequences",
    "C109_without_cut"
   ],
   "note": "Forward simulation, step by step, and determinism of the abstract steps up to equal intervals. Without the condition on cuts the claim fails (C65)."
  },
  {
   "property": "C110",
   "status": "proved",
   "theorems": [
    "C110_entries_start_where_identifiers_change",
    "C110_fewest_entries",
    "C110_calls",
    "C110_history"
   ],
   "note": "Proved from the change points of the identifiers; the bound 2n+1 is attained in the Example."
  },
  {
   "property": "C111",
   "status": "proved",
   "theorems": [
    "C111_cut",
    "C111_history"
   ],
   "note": "Uses that an interval of more than one point holds exactly one value."
  },
  {
   "property": "C112",
   "status": "proved",
   "theorems": [
    "C112_identifiers_follow_history",
    "C112_last_call_decides",
    "C112_gaps_no_identifier",
    "C112_gaps_with_identifier",
    "C112_panics",
    "C112_append_never_panics",
    "C112_converted"
   ],
   "note": "The identifiers of a history are numbered by their place in the order; every call commutes with that conversion."
  },
  {
   "property": "C113",
   "status": "partial",
   "theorems": [
    "C113_untouched_points_partial",
    "C113_same_content_partial",
    "C113_untouched_points_refuted"
   ],
   "note": "False: merging touching intervals replaces the identifiers of a neighbour by Equal ones (refuted by a witness). Proved: what is there afterwards compares Equal, one by one, and the same for any two histories with the same content up to comparing Equal."
  },
  {
   "property": "C114",
   "status": "partial",
   "theorems": [
    "C114_interval_queries",
    "C114_point_calls_partial",
    "C114_cut_partial",
    "C114_point_calls_refuted",
    "C114_cut_refuted"
   ],
   "note": "True for overlapping and is_zero_overlap (C114_interval_queries). False for the point calls and cut (refuted by witnesses). The partial theorems decide the answer in every case: unchanged when k lies before the point (after the cut interval), or when a stored entry contains the point and a later one (meets the cut interval and starts before it); otherwise None (nothing cut)."
  },
  {
   "property": "C115",
   "status": "proved",
   "theorems": [
    "C115_faithful_clone",
    "C115_zosdit_faithful_clone",
    "C115_lawful_clone",
    "C115_zosdit_lawful_clone",
    "C115_cut_returns_originals",
    "C115_cut_clones",
    "C115_overwrite",
    "C115_zosdit_cut_clones",
    "C115_zosdit_cut_intervals",
    "C115_state_threaded",
    "C115_zosdit_state_threaded",
    "C115_clone_count",
    "C115_zosdit_clone_count"
   ],
   "note": "The documentation at nodit/map.rs:395-398 says the values returned by cut are clones; the code returns the originals and keeps clones (C115_cut_returns_originals). The derived Clone of the maps themselves is C117."
  },
  {
   "property": "C116",
   "status": "proved",
   "theorems": [
    "C116_queries",
    "C116_calls",
    "C116_from_iter"
   ],
   "note": "The counterpart of C62 for ZosditMap."
  },
  {
   "property": "C117",
   "status": "proved",
   "theorems": [
    "C117_map_clone",
    "C117_zosdit_clone",
    "C117_faithful",
    "C117_set_and_gqdit",
    "C117_calls_on_the_clone",
    "C117_zosdit_calls_on_the_clone",
    "C117_equal"
   ],
   "note": "The Clone of BTreeMap, BTreeSet and SmallVec is modelled as documented for the standard collections: elements in order. C117_not_copying shows that the clone of the intervals must be a copy."
  },
  {
   "property": "C118",
   "status": "partial",
   "theorems": [
    "C118_wrapping_entries",
    "C118_wrapping_answers",
    "C118_wrapping_len",
    "C118_wrapping_is_empty",
    "C118_checked_partial",
    "C118_no_removals_partial",
    "C118_checked_insert",
    "C118_order",
    "C118_stopped_cut",
    "C118_overflow_refuted"
   ],
   "note": "Refuted at every width by insert/remove repeated usize::MAX times (C118_overflow_refuted). The _partial theorems give the condition under which a checked build agrees with the unbounded model; the wrapping build is described exactly."
  },
  {
   "property": "C119",
   "status": "partial",
   "theorems": [
    "C119_overlapping_after_cut_partial",
    "C119_zero_overlap_after_cut_partial",
    "C119_cut_after_cut_partial",
    "C119_point_calls_after_cut_partial",
    "C119_after_remove_partial",
    "C119_point_calls_refuted",
    "C119_zero_overlap_refuted",
    "C119_cut_refuted"
   ],
   "note": "Refuted for the point calls, is_zero_overlap and cut by witnesses. The partial theorems: overlapping is described in every case; is_zero_overlap is unchanged when a point lies between the two intervals and never turns from true to false; cut and the point calls give the same when the entries before and after allow the search to reach its target (cut_reaches, point_reached, as in C37 and C38), and otherwise find nothing; for removals overlapping is unchanged outright."
  },
  {
   "property": "C120",
   "status": "proved",
   "theorems": [
    "C120_map_balance",
    "C120_map_adds",
    "C120_map_removes",
    "C120_map_work",
    "C120_map_work_from_new",
    "C120_zosdit_adds",
    "C120_zosdit_balance",
    "C120_zosdit_work",
    "C120_gqdit_adds",
    "C120_gqdit_balance",
    "C120_gqdit_work",
    "C120_gqdit_counted"
   ],
   "note": "Counts insertions into and removals from the BTreeMap along the states of TraceModel (one per change of the tree, C92), not comparisons: the search cost inside the B-tree crate is outside the model. ZosditMap's tree holds all values of an interval in one entry. Gqdit::append and the bulk constructors are excluded."
  },
  {
   "property": "C121",
   "status": "partial",
   "theorems": [
    "C121_map_counted",
    "C121_map_delimited",
    "C121_set_counted",
    "C121_set_delimited",
    "C121_gqdit_counted",
    "C121_gqdit_delimited",
    "C121_zosdit_delimited",
    "C121_zosdit_counted_partial",
    "C121_zosdit_file",
    "C121_zosdit_counted_refuted",
    "C121_zosdit_counted_panics_refuted"
   ],
   "note": "Refuted for ZosditMap in counted formats after remove_last_value_at_point; the partial theorem covers every history in which that call removed nothing, C121_zosdit_file says exactly what happens at the end of a file otherwise. Data formats are modelled by codecs (SerdeOps), not by any particular crate."
  },
  {
   "property": "C122",
   "status": "proved",
   "theorems": [
    "C122_map_read_as_zosdit",
    "C122_zosdit_read_as_map",
    "C122_there_and_back"
   ],
   "note": "Serde sequences as in C22/C41."
  },
  {
   "property": "C123",
   "status": "proved",
   "theorems": [
    "C123_intersection_commutes",
    "C123_intersection_associates",
    "C123_intersection_idempotent",
    "C123_contains_iff_intersection",
    "C123_contains_reflexive",
    "C123_contains_transitive",
    "C123_contains_antisymmetric",
    "C123_largest_common",
    "C123_overlaps_iff_intersection",
    "C123_contains_point_iff",
    "C123_singular_iff"
   ],
   "note": "Theorems C123_*."
  },
  {
   "property": "C124",
   "status": "proved",
   "theorems": [
    "C124_zero",
    "C124_twice_debug",
    "C124_twice_release",
    "C124_undo",
    "C124_undo_release",
    "C124_points",
    "C124_predicates",
    "C124_intersection"
   ],
   "note": "Theorems C124_*."
  },
  {
   "property": "C125",
   "status": "proved",
   "theorems": [
    "C125_as_alone",
    "C125_one_after_the_other",
    "C125_append_of_both",
    "C125_own_calls_keep_own_gaps"
   ],
   "note": "Theorems C125_*; own_calls_keep_own_gaps is stated for Interval keys over points whose equality is identity, where the lists are identical."
  },
  {
   "property": "C126",
   "status": "proved",
   "theorems": [
    "C126_any_order_any_insertion",
    "C126_gqdit"
   ],
   "note": "Theorems C126_*."
  },
  {
   "property": "C127",
   "status": "proved",
   "theorems": [
    "C127_point_queries",
    "C127_interval_queries",
    "C127_removals",
    "C127_insertions",
    "C127_bulk_constructors",
    "C127_interval_determined_by_its_points"
   ],
   "note": "Soundness and completeness of the specifications of C02-C19 in one: doc_X m args o <-> o = X args m. CompleteOps.v states the documented effects without mentioning the model's methods."
  },
  {
   "property": "C128",
   "status": "proved",
   "theorems": [
    "C128_identifiers_at_point",
    "C128_gap_queries",
    "C128_changes",
    "C128_append",
    "C128_proper_is_reachable"
   ],
   "note": "Soundness and completeness of C44-C49 and C51. The other Gqdit is left without entries by append, as C67 describes."
  },
  {
   "property": "C129",
   "status": "proved",
   "theorems": [
    "C129_queries",
    "C129_remove_last_value_at_point",
    "C129_cut",
    "C129_insert_strict_back",
    "C129_bulk_constructors"
   ],
   "note": "Soundness and completeness of C33-C40 and C42 in one. With a twice-stored point interval the place of an insertion depends on the shape of the tree (C68), so nothing determines it."
  },
  {
   "property": "C130",
   "status": "proved",
   "theorems": [
    "C130_indistinguishable",
    "C130_nodit_as_documented",
    "C130_indistinguishable_only_if_documented"
   ],
   "note": "C130_indistinguishable: two implementations as documented (as_documented, over the doc_ relations of CompleteOps and the *_mut, len, first/last clauses of ClientOps) agree on every client; C130_nodit_as_documented; C130_indistinguishable_only_if_documented is the converse. The example equates an implementation keeping entries in descending order with the model on a branching program."
  },
  {
   "property": "C131",
   "status": "proved",
   "theorems": [
    "C131_indistinguishable",
    "C131_gqdit_as_documented",
    "C131_indistinguishable_only_if_documented"
   ],
   "note": "C131_indistinguishable: two implementations as documented (gqdit_as_documented, over relations between points and identifiers only) agree on every gclient; C131_gqdit_as_documented; C131_indistinguishable_only_if_documented is the converse, reading a state through identifiers_at_point. The example equates an implementation that keeps a log of calls and replays it with the model."
  },
  {
   "property": "C132",
   "status": "proved",
   "theorems": [
    "C132_indistinguishable",
    "C132_zosdit_as_documented",
    "C132_indistinguishable_only_if_documented"
   ],
   "note": "C132_indistinguishable: two implementations as described (zosdit_as_documented) agree on every careful zclient; C132_zosdit_as_documented; C132_indistinguishable_only_if_documented is the converse, reading states through iter and len. The example equates an implementation replaying a log with the model on a branching program."
  },
  {
   "property": "C133",
   "status": "proved",
   "theorems": [
    "C133_effects_determine_the_methods",
    "C133_indistinguishable",
    "C133_noditset_as_documented",
    "C133_indistinguishable_only_if_documented"
   ],
   "note": "C133_effects_determine_the_methods: set_documented (over lists of intervals only) holds exactly of the model's outcome; C133_indistinguishable, C133_noditset_as_documented, C133_indistinguishable_only_if_documented as C130. The example equates an implementation keeping intervals in descending order with the model on a branching program."
  },
  {
   "property": "C134",
   "status": "proved",
   "theorems": [
    "C134_gaps",
    "C134_when_infinity_is_encountered",
    "C134_at_infinity",
    "C134_gqdit_identifiers",
    "C134_gqdit_gaps"
   ],
   "note": "C134_gaps relates the gap queries, C134_when_infinity_is_encountered says when a gap ends in Infinity, C134_at_infinity treats the point Infinity; the entries and the other calls correspond by C83 (C83_finite_points). The wrapping of intervals is InfinityOps.wrap, wrap_gap; the calls correspond by TransportOps.op_sent."
  },
  {
   "property": "C135",
   "status": "partial",
   "theorems": [
    "C135_config",
    "C135_config_unique",
    "C135_sorted_config_partial",
    "C135_sorted_config_otherwise",
    "C135_cut_interval",
    "C135_sorted_config_refuted"
   ],
   "note": "Full for config (C135_config, C135_config_unique) and cut_interval (C135_cut_interval). Refuted for sorted_config (C135_sorted_config_refuted: line 67 maps LeftFirstPartialOverlap to Swallowed); C135_sorted_config_partial is the claim for all other pairs and C135_sorted_config_otherwise says what it returns for these. No public method shows the difference: only InclusiveInterval::overlaps calls it (C24)."
  },
  {
   "property": "C136",
   "status": "proved",
   "theorems": [
    "C136_only_the_query",
    "C136_surroundings",
    "C136_calls_elsewhere",
    "C136_gqdit_only_the_query",
    "C136_gqdit_surroundings",
    "C136_gqdit_calls_elsewhere"
   ],
   "note": "C136_only_the_query, C136_surroundings, C136_calls_elsewhere for NoditMap, C136_gqdit_* for Gqdit; same_inside, shows_surroundings and keeps_outside are defined in GapLocalOps.v. Intervals are compared by their points."
  },
  {
   "property": "C137",
   "status": "proved",
   "theorems": [
    "C137_inert_once_appended",
    "C137_indistinguishable",
    "C137_careful_programs"
   ],
   "note": "C137_inert_once_appended says it of the model (AppendedOps.inert_once_appended), C137_indistinguishable that it determines the results of all programs, C137_careful_programs relates careful programs to C131's semantics. That append should leave a usable Gqdit is the refuted C67."
  },
  {
   "property": "C138",
   "status": "proved",
   "theorems": [
    "C138_recorded",
    "C138_only_walks",
    "C138_position",
    "C138_cut",
    "C138_position_iff_gapless",
    "C138_cut_iff_gapless",
    "C138_step_back"
   ],
   "note": "The documented use case. C138_position and C138_cut are the claims C37 and C38, false in general, for walks without a pause; C138_position_iff_gapless and C138_cut_iff_gapless say that these are exactly the maps for which they hold."
  },
  {
   "property": "C139",
   "status": "proved",
   "theorems": [
    "C139_remove_undone",
    "C139_cut_undone",
    "C139_cut_undone_by_merging",
    "C139_overwrite_undone",
    "C139_remove_last_undone"
   ],
   "note": "Zosdit cut is not included: put back, its parts no longer share points with their neighbours (see C138 for what that means)."
  },
  {
   "property": "C140",
   "status": "proved",
   "theorems": [
    "C140_indistinguishable",
    "C140_nodit_as_documented",
    "C140_indistinguishable_only_if_documented"
   ],
   "note": "Extends C130 and C133 (one map or one set) to several containers and to the constructors, clone and ==. clone is taken for value types whose clone copies (C117 says what it does for others)."
  },
  {
   "property": "C141",
   "status": "proved",
   "theorems": [
    "C141_agreeing_changes",
    "C141_agreeing_queries",
    "C141_stays_well_formed",
    "C141_reachable",
    "C141_cut_outside",
    "C141_cut_finds_all",
    "C141_cut_returns",
    "C141_overwrite_returns",
    "C141_needs_key_overlaps",
    "C141_needs_key_valid",
    "C141_needs_query_valid",
    "C141_agreeing_histories"
   ],
   "note": "start and end are the interval; only these two provided methods are called by NoditMap on user types. Gap queries are covered for agreeing replacements."
  },
  {
   "property": "C142",
   "status": "proved",
   "theorems": [
    "C142_agreeing_histories",
    "C142_agreeing",
    "C142_stays_well_formed",
    "C142_remove",
    "C142_cut_outside",
    "C142_cut_returns",
    "C142_needs_key_valid",
    "C142_needs_query_valid"
   ],
   "note": "The ZosditMap counterpart of C141. Deserialization is not among the calls of this model; it only inserts."
  },
  {
   "property": "C143",
   "status": "proved",
   "theorems": [
    "C143_agreeing",
    "C143_stays_well_formed",
    "C143_more_overlaps_lose_identifiers",
    "C143_agreeing_histories"
   ],
   "note": "The Gqdit counterpart of C141 and C142."
  },
  {
   "property": "C144",
   "status": "proved",
   "theorems": [
    "C144_put_back",
    "C144_same_values",
    "C144_second_cut",
    "C144_position"
   ],
   "note": "The losses are those of C37 and C38, here for a use that a caller may well try."
  },
  {
   "property": "C145",
   "status": "proved",
   "theorems": [
    "C145_map_as_documented",
    "C145_map",
    "C145_set_as_documented",
    "C145_set",
    "C145_gqdit_as_documented",
    "C145_gqdit"
   ],
   "note": "Gqdit: points and identifiers with a lawful Ord, programs as in C131."
  },
  {
   "property": "C146",
   "status": "proved",
   "theorems": [
    "C146_overlaps",
    "C146_contains_interval",
    "C146_overlapping",
    "C146_gaps_untrimmed",
    "C146_gaps_trimmed",
    "C146_remove_overlapping",
    "C146_cut",
    "C146_cut_left",
    "C146_insert_overwrite",
    "C146_insert_strict",
    "C146_insert_merge_touching",
    "C146_insert_merge_touching_if_values_equal",
    "C146_insert_merge_touching_or_overlapping",
    "C146_insert_merge_overlapping",
    "C146_same_entries"
   ],
   "note": "Entries are the same up to which of several equal points an interval names; equal where intervals are determined by their points (C146_same_entries). insert_merge_touching_if_values_equal: the value equal to itself."
  },
  {
   "property": "C147",
   "status": "partial",
   "theorems": [
    "C147_overlapping",
    "C147_cut_right_first_partial",
    "C147_cut_right_first_gapless_partial",
    "C147_cut_left_first_partial",
    "C147_cut_left_first_stuck_partial",
    "C147_cut_left_first_refuted",
    "C147_cut_right_first_refuted"
   ],
   "note": "False as stated: cutting 3..=4 and then 5..=6 out of the single entry 0..=9 leaves 5..=6 in the map (left first), and right first fails for two entries with a pause between them. Proved: from right to left wherever the cuts of q and of q2 find what there is to cut (cut_finds), in particular in every map without a pause; from left to right exactly if nothing is stored before q (otherwise the second cut finds nothing). overlapping holds in full."
  },
  {
   "property": "C148",
   "status": "proved",
   "theorems": [
    "C148_insert_merge_overlapping",
    "C148_insert_merge_touching_or_overlapping",
    "C148_insert_merge_touching",
    "C148_accepted",
    "C148_determined",
    "C148_any_order_overlapping",
    "C148_any_order_touching_or_overlapping",
    "C148_any_order_touching"
   ],
   "note": "components and accepted (MergeAllOps) say what is described; C148_determined shows that this leaves nothing open but which of several Equal points an interval names. For a map that already has touching entries the touching kinds leave those as they are until an insertion reaches them (C13, C16 say what one call does then)."
  },
  {
   "property": "C149",
   "status": "proved",
   "theorems": [
    "C149_cut_each",
    "C149_parts_determined",
    "C149_any_order",
    "C149_minus",
    "C149_only",
    "C149_overlay",
    "C149_overlay_determined",
    "C149_overlay_itself",
    "C149_overlay_empty",
    "C149_overlay_associative",
    "C149_overlay_after_minus",
    "C149_minus_after_overlay",
    "C149_put_back"
   ],
   "note": "nodit has no call taking two maps; the loops users write are in OverlayOps beside the meaning (parts, common, overlaid). C149_parts_determined and C149_overlay_determined show that the descriptions leave nothing open but which of several Equal points an interval names."
  },
  {
   "property": "C150",
   "status": "proved",
   "theorems": [
    "C150_first_fit",
    "C150_history",
    "C150_unsigned"
   ],
   "note": "The program is in FirstFitOps. C150_signed_width shows why the width of q must fit: on i8 a gap of 256 points has no width, so the program panics in a debug build and overlooks the room in a release build."
  },
  {
   "property": "C151",
   "status": "proved",
   "theorems": [
    "C151_asked_decide",
    "C151_asked_are_stored",
    "C151_depth",
    "C151_every_list_fits",
    "C151_get_key_value_at_point",
    "C151_get_at_point_mut",
    "C151_overlaps",
    "C151_insert_strict",
    "C151_get_last_value_at_point",
    "C151_is_zero_overlap"
   ],
   "note": "Intervals compared are counted by SearchOps.asks beside TreeShape.search; C151_asked_decide shows that the search depends on nothing else. That the dependency's tree has this shape and searches in this way is part of the trusted base, as for C53."
  },
  {
   "property": "C152",
   "status": "proved",
   "theorems": [
    "C152_gqdits_as_described",
    "C152_indistinguishable",
    "C152_indistinguishable_only_if_described"
   ],
   "note": "Extends C131 and C137 by cloning, comparing and, for Gqdits used after they were appended, the converse."
  },
  {
   "property": "C153",
   "status": "proved",
   "theorems": [
    "C153_cut",
    "C153_insert_overwrite",
    "C153_insert_merge_touching",
    "C153_insert_merge_touching_if_values_equal",
    "C153_insert_merge_overlapping",
    "C153_insert_merge_touching_or_overlapping",
    "C153_merges_at_most_five",
    "C153_at_most_one",
    "C153_zosdit_cut",
    "C153_gqdit_insert",
    "C153_cut_with_identifiers",
    "C153_cut_all_identifiers",
    "C153_no_identifiers"
   ],
   "note": "Counted on the model in which user code may panic: a call runs user code n times if it panics exactly when fewer than n calls of user code return. Cloning or comparing a whole set or store is one call."
  },
  {
   "property": "C154",
   "status": "proved",
   "theorems": [
    "C154_shapes_exist",
    "C154_overlapping",
    "C154_gaps_untrimmed",
    "C154_remove_overlapping",
    "C154_cut",
    "C154_insert_overwrite",
    "C154_insert_merge_overlapping",
    "C154_insert_merge_touching_or_overlapping",
    "C154_insert_merge_touching",
    "C154_insert_merge_touching_if_values_equal",
    "C154_remove_last_value_at_point",
    "C154_insert_strict_back",
    "C154_zosdit_overlapping",
    "C154_zosdit_cut",
    "C154_gaps_no_identifier",
    "C154_gaps_with_identifier",
    "C154_cut_with_identifiers",
    "C154_cut_all_identifiers",
    "C154_gqdit_insert",
    "C154_gaps_trimmed",
    "C154_contains_interval"
   ],
   "note": "Counts intervals given to comparators on the way down and entries stepped on by iterators run to the end and by cursors; rebalancing of btree_monstrousity is not modelled, so the trees met during one call are arbitrary B-trees with the right entries. The answer of insert_strict_back in an arbitrary tree equals the model's if no singular interval is stored twice (C68); its bound holds always."
  },
  {
   "property": "C155",
   "status": "proved",
   "theorems": [
    "C155_from_iter_strict",
    "C155_from_iter_strict_back",
    "C155_append_looks",
    "C155_append_adds",
    "C155_append_removes"
   ],
   "note": "As in C154 rebalancing of btree_monstrousity is not modelled: the trees met during one call are arbitrary B-trees with the right entries. Tree changes are counted as in C120."
  },
  {
   "property": "C156",
   "status": "proved",
   "theorems": [
    "C156_zosdits_as_described",
    "C156_indistinguishable",
    "C156_never_cuts_careful",
    "C156_indistinguishable_only_if_described"
   ],
   "note": "Equality is derived from the underlying B-tree map, so two maps with the same entries may differ once a single point is stored twice (C82); the example shows a program that sees this."
  },
  {
   "property": "C157",
   "status": "proved",
   "theorems": [
    "C157_any_overlapping",
    "C157_any_get",
    "C157_any_insert_strict",
    "C157_any_remove_overlapping",
    "C157_any_cut",
    "C157_any_insert_overwrite",
    "C157_any_insert_merge_touching",
    "C157_any_insert_merge_touching_if_values_equal",
    "C157_any_insert_merge_overlapping",
    "C157_any_insert_merge_touching_or_overlapping",
    "C157_any_values_once",
    "C157_any_values_given",
    "C157_right_overlapping",
    "C157_right_overlaps",
    "C157_right_remove_overlapping",
    "C157_right_cut",
    "C157_right_gaps",
    "C157_right_get",
    "C157_right_insertions",
    "C157_right_history"
   ],
   "note": "The B-tree is taken to be searched node by node and changed in one step after its search (TreeShape); the gap iterators are consumed to the end; the methods that hand out mutable references are not included."
  },
  {
   "property": "C158",
   "status": "proved",
   "theorems": [
    "C158_any_insert_strict_back",
    "C158_any_remove_last_value_at_point",
    "C158_any_cut",
    "C158_any_len",
    "C158_any_no_underflow",
    "C158_any_remove_last_no_panic",
    "C158_any_values_once",
    "C158_any_values_given",
    "C158_right_last_value",
    "C158_right_queries",
    "C158_right_cut",
    "C158_right_insert_strict_back",
    "C158_right_insert_where",
    "C158_right_history"
   ],
   "note": "The B-tree is taken to be searched node by node and changed in one step after its search (TreeShape); the iterators are consumed to the end."
  },
  {
   "property": "C159",
   "status": "proved",
   "theorems": [
    "C159_any_from_iter_strict",
    "C159_any_visit_seq",
    "C159_any_from_iter_strict_back",
    "C159_any_visit_seq_back",
    "C159_any_custom_panics",
    "C159_any_fuel",
    "C159_any_serialize",
    "C159_any_zosdit_serialize",
    "C159_right_from_iter_strict",
    "C159_right_visit_seq",
    "C159_right_read_back",
    "C159_right_from_iter_strict_back",
    "C159_right_visit_seq_back"
   ],
   "note": "Loops over the source are run with fuel; a run that has ended does not depend on it. The B-tree is searched node by node and changed in one step after its search (TreeShape). serde's own code and the element encodings are the user's here."
  },
  {
   "property": "C160",
   "status": "proved",
   "theorems": [
    "C160_any_new",
    "C160_any_insert",
    "C160_any_cut_with_identifiers",
    "C160_any_cut_all_identifiers",
    "C160_any_append",
    "C160_any_history",
    "C160_any_nothing",
    "C160_any_identifiers_at_point",
    "C160_any_gaps_no_identifier",
    "C160_right_queries",
    "C160_right_insert",
    "C160_right_cut_with_identifiers",
    "C160_right_cut_all_identifiers",
    "C160_right_append",
    "C160_right_history"
   ],
   "note": "The B-trees (map and sets) are searched node by node in any shape with the right entries and changed in one step after the search. Gqdit's == and serde are not part of this one."
  },
  {
   "property": "C161",
   "status": "proved",
   "theorems": [
    "C161_any_intervals",
    "C161_any_made",
    "C161_any_overlapping_mut",
    "C161_any_iter_mut",
    "C161_any_get_at_point_mut",
    "C161_any_keys",
    "C161_any_get_at_point",
    "C161_right_default_code",
    "C161_right_default_methods",
    "C161_right_constructors",
    "C161_right_queries",
    "C161_right_mut",
    "C161_right_get_at_point_mut",
    "C161_right_default_history"
   ],
   "note": "The caller's code that uses a &mut V is a program run on each value in turn. The B-tree is searched node by node in any shape and changed in one step after the search."
  },
  {
   "property": "C162",
   "status": "proved",
   "theorems": [
    "C162_any_history",
    "C162_any_insert_strict",
    "C162_any_remove_overlapping",
    "C162_any_cut",
    "C162_any_from_iter_strict",
    "C162_any_visit_seq",
    "C162_any_custom",
    "C162_any_serialize",
    "C162_right_queries",
    "C162_right_removals",
    "C162_right_insertions",
    "C162_right_history",
    "C162_right_from_iter_strict",
    "C162_right_visit_seq"
   ],
   "note": "The B-tree is searched node by node in any shape and changed in one step after the search; sources are run with fuel, and fuel running out (LRunning) is an outcome of its own."
  },
  {
   "property": "C163",
   "status": "proved",
   "theorems": [
    "C163_cut",
    "C163_insert_overwrite",
    "C163_insert_merge_touching",
    "C163_insert_merge_touching_if_values_equal",
    "C163_insert_merge_overlapping",
    "C163_insert_merge_touching_or_overlapping",
    "C163_history",
    "C163_interrupted_cut",
    "C163_merging_inserts_unchanged",
    "C163_zosdit_cut",
    "C163_zosdit_len",
    "C163_gqdit_new",
    "C163_gqdit_insert",
    "C163_cut_with_identifiers",
    "C163_cut_all_identifiers",
    "C163_append",
    "C163_gqdit_history"
   ],
   "note": "The identifiers' cmp and all methods of points and intervals give the right answers here; C92-C94 and C157-C160 are about panics anywhere. For ZosditMap one cut in any state left by panics is covered, not the whole history."
  },
  {
   "property": "C164",
   "status": "proved",
   "theorems": [
    "C164_queries",
    "C164_remove_overlapping",
    "C164_cut",
    "C164_insert_strict",
    "C164_insert_overwrite",
    "C164_insert_merge_touching",
    "C164_insert_merge_touching_if_values_equal",
    "C164_insert_merge_overlapping",
    "C164_insert_merge_touching_or_overlapping",
    "C164_any_call",
    "C164_history",
    "C164_zosdit_history",
    "C164_zosdit_queries",
    "C164_remove_last_value_at_point",
    "C164_insert_strict_back",
    "C164_zosdit_cut",
    "C164_gqdit_new",
    "C164_gqdit_queries",
    "C164_gqdit_insert",
    "C164_cut_with_identifiers",
    "C164_cut_all_identifiers",
    "C164_append",
    "C164_interrupted_insert",
    "C164_gqdit_history"
   ],
   "note": "C163 is about the same code with comparisons that do not panic, where fewer states are left: C164_example has an insert_merge_touching that loses two neighbours."
  },
  {
   "property": "C165",
   "status": "proved",
   "theorems": [
    "C165_default_code",
    "C165_default_methods",
    "C165_constructors",
    "C165_queries",
    "C165_overlapping_mut",
    "C165_iter_mut",
    "C165_get_at_point_mut",
    "C165_stopped_edits",
    "C165_default_history",
    "C165_from_iter_strict",
    "C165_visit_seq",
    "C165_read_back",
    "C165_from_iter_strict_back",
    "C165_visit_seq_back",
    "C165_set_queries",
    "C165_set_removals",
    "C165_set_insertions",
    "C165_set_history",
    "C165_set_any_call",
    "C165_set_from_iter_strict",
    "C165_set_visit_seq"
   ],
   "note": "The methods of C159, C161 and C162 under the assumptions of C164."
  },
  {
   "property": "C166",
   "status": "partial",
   "theorems": [
    "C166_collect",
    "C166_contains_interval",
    "C166_any",
    "C166_fused",
    "C166_right_or_panic",
    "C166_right",
    "C166_set_collect",
    "C166_after_panic_refuted"
   ],
   "note": "The claim that gaps drawn after a caught panic are still gaps is refuted (C166_after_panic_refuted); the other parts are proved. Assumes that the adaptors of itertools and core are lazy, as described in EffectLazyModel."
  },
  {
   "property": "C167",
   "status": "proved",
   "theorems": [
    "C167_any_clone",
    "C167_any_set_clone",
    "C167_any_zosdit_clone",
    "C167_any_gqdit_clone",
    "C167_any_eq",
    "C167_any_zosdit_eq",
    "C167_any_set_eq",
    "C167_any_gqdit_eq",
    "C167_different_lengths",
    "C167_clone_is_C117",
    "C167_right",
    "C167_right_or_panic",
    "C167_interval",
    "C167_hash_feeds",
    "C167_gqdit_serialize",
    "C167_gqdit_visit_seq",
    "C167_gqdit_read_back"
   ],
   "note": "The order in which BTreeMap and SmallVec clone and compare is a model of the dependencies, see DESIGN.md."
  },
  {
   "property": "C168",
   "status": "proved",
   "theorems": [
    "C168_integers",
    "C168_interval",
    "C168_nodit",
    "C168_set",
    "C168_zosdit",
    "C168_gqdit",
    "C168_errors",
    "C168_helpers",
    "C168_same_text",
    "C168_text_and_eq",
    "C168_one_line",
    "C168_pretty_interval",
    "C168_pretty_nodit"
   ],
   "note": "Models core::fmt's builders and PadAdapter and takes the Debug impls of the B-tree and SmallVec to be debug_map and debug_list; Debug impls that return an error or panic are left out. With a value type that is not delimited texts can coincide (last line of C168_example)."
  },
  {
   "property": "C169",
   "status": "partial",
   "theorems": [
    "C169_map",
    "C169_set",
    "C169_gqdit",
    "C169_zosdit_partial",
    "C169_zosdit_counted_partial",
    "C169_zosdit_file_partial",
    "C169_zosdit_refuted"
   ],
   "note": "The claim is false for ZosditMap (C169_zosdit_refuted); the _partial theorems give conditions under which it holds."
  },
  {
   "property": "C170",
   "status": "proved",
   "theorems": [
    "C170_first_fit",
    "C170_others",
    "C170_history",
    "C170_unsigned"
   ],
   "note": "book is client code on top of the API (see BookingOps). For unsigned points the conditions on sizes hold by themselves (C170_unsigned)."
  },
  {
   "property": "C171",
   "status": "proved",
   "theorems": [
    "C171_range_update",
    "C171_range_updates",
    "C171_any_order",
    "C171_coverage"
   ],
   "note": "range_update is client code on top of the API (see RangeOps)."
  },
  {
   "property": "C172",
   "status": "proved",
   "theorems": [
    "C172_writes",
    "C172_well_behaved",
    "C172_map",
    "C172_set",
    "C172_gqdit",
    "C172_zosdit",
    "C172_interval",
    "C172_errors"
   ],
   "note": "The builders and PadAdapter of core::fmt are modelled (FmtModel); formatting options other than # are not."
  },
  {
   "property": "C173",
   "status": "proved",
   "theorems": [
    "C173_tidy",
    "C173_equality",
    "C173_twice",
    "C173_coverage"
   ],
   "note": "tidy is client code on top of the API (see TidyOps)."
  },
  {
   "property": "C174",
   "status": "proved",
   "theorems": [
    "C174_entry_from",
    "C174_entry_until",
    "C174_walk_from",
    "C174_walk",
    "C174_known_by_points"
   ],
   "note": "entry_from, entry_until and walk_on are client code on top of the API (see NearOps)."
  },
  {
   "property": "C175",
   "status": "proved",
   "theorems": [
    "C175_used",
    "C175_free",
    "C175_total",
    "C175_insert",
    "C175_overwrite",
    "C175_cut",
    "C175_unsigned"
   ],
   "note": "size, used and free are client code on top of the API; the sums are taken in a type wide enough (see SizeOps)."
  },
  {
   "property": "C176",
   "status": "proved",
   "theorems": [
    "C176_moves",
    "C176_back",
    "C176_debug",
    "C176_release",
    "C176_release_panics",
    "C176_no_error",
    "C176_queries",
    "C176_places"
   ],
   "note": "shift is client code on top of the API (see ShiftOps)."
  },
  {
   "property": "C177",
   "status": "proved",
   "theorems": [
    "C177_integers",
    "C177_interval",
    "C177_nodit",
    "C177_set",
    "C177_zosdit",
    "C177_gqdit",
    "C177_same_text",
    "C177_width",
    "C177_value",
    "C177_no_options"
   ],
   "note": "core::fmt's pad_integral and pad are modelled from the standard library; other fills, alignments and precision are not."
  },
  {
   "property": "C178",
   "status": "proved",
   "theorems": [
    "C178_nobodys",
    "C178_open_to",
    "C178_alone",
    "C178_insert",
    "C178_cut_all"
   ],
   "note": "The counts are small programs over the public API (SharesOps), not functions of the crate."
  },
  {
   "property": "C179",
   "status": "proved",
   "theorems": [
    "C179_integers",
    "C179_interval",
    "C179_nodit",
    "C179_gqdit",
    "C179_zosdit",
    "C179_same_text",
    "C179_set",
    "C179_digit_fill",
    "C179_where",
    "C179_zeros",
    "C179_units"
   ],
   "note": "core::fmt's padding, pad_integral and pad are modelled from the standard library; a fill is one of the 256 characters of the model's texts."
  },
  {
   "property": "C180",
   "status": "proved",
   "theorems": [
    "C180_moves",
    "C180_queries",
    "C180_back",
    "C180_debug"
   ],
   "note": "The move is a small program over the public API (ZShiftOps), not a function of the crate. What a release build does when an interval leaves the type is in C183 (for NoditMap in C176)."
  },
  {
   "property": "C181",
   "status": "proved",
   "theorems": [
    "C181_number",
    "C181_union",
    "C181_minus",
    "C181_complement",
    "C181_monotone",
    "C181_distance_zero",
    "C181_distance"
   ],
   "note": "The programs and the sum are small programs over the public API (SetAlgebraOps, MeasureOps), not functions of the crate. The sum is taken in a type where it does not overflow. A signed query wider than the type's maximum is excluded: a debug build can panic there (C181_signed_width)."
  },
  {
   "property": "C182",
   "status": "proved",
   "theorems": [
    "C182_moves",
    "C182_debug",
    "C182_release",
    "C182_no_error",
    "C182_programs",
    "C182_count"
   ],
   "note": "The move, the programs and the sum are small programs over the public API (SetShiftOps, SetAlgebraOps, MeasureOps), not functions of the crate."
  },
  {
   "property": "C183",
   "status": "proved",
   "theorems": [
    "C183_rolls",
    "C183_lookups",
    "C183_panics",
    "C183_no_error",
    "C183_last_place_differs"
   ],
   "note": "The move is a small program over the public API (ZShiftOps), not a function of the crate. At the last place of an interval the lookup need not find what it found (C183_last_place_differs), as it depends there on the neighbouring entries."
  }
 ]
}
