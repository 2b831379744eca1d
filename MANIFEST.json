{
 "claims": [
  {
   "property": "C01",
   "status": "proved",
   "theorems": [
    "C01_fz_hash_map_get"
   ],
   "note": ""
  },
  {
   "property": "C02",
   "status": "proved",
   "theorems": [
    "C02_fz_ordered_map_get",
    "C02_inline_ordered_map_get"
   ],
   "note": ""
  },
  {
   "property": "C03",
   "status": "proved",
   "theorems": [
    "C03_fz_scalar_map_get"
   ],
   "note": "Key order agrees with the index and the span is below usize::MAX; C27 and C48 show both are needed."
  },
  {
   "property": "C04",
   "status": "proved",
   "theorems": [
    "C04_fz_string_map_get"
   ],
   "note": ""
  },
  {
   "property": "C05",
   "status": "proved",
   "theorems": [
    "C05_scan_map_get"
   ],
   "note": ""
  },
  {
   "property": "C06",
   "status": "proved",
   "theorems": [
    "C06_dense_map"
   ],
   "note": ""
  },
  {
   "property": "C07",
   "status": "proved",
   "theorems": [
    "C07_sparse_map_get"
   ],
   "note": ""
  },
  {
   "property": "C08",
   "status": "proved",
   "theorems": [
    "C08_hash_map_magnitude"
   ],
   "note": ""
  },
  {
   "property": "C09",
   "status": "proved",
   "theorems": [
    "C09_set_queries",
    "C09_sets_constructed"
   ],
   "note": ""
  },
  {
   "property": "C10",
   "status": "proved",
   "theorems": [
    "C10_iteration"
   ],
   "note": ""
  },
  {
   "property": "C11",
   "status": "proved",
   "theorems": [
    "C11_len",
    "C11_key_count_is_cardinality"
   ],
   "note": ""
  },
  {
   "property": "C12",
   "status": "proved",
   "theorems": [
    "C12_write_one",
    "C12_write_many",
    "C12_iter_mut"
   ],
   "note": ""
  },
  {
   "property": "C13",
   "status": "proved",
   "theorems": [
    "C13_queries_agree"
   ],
   "note": ""
  },
  {
   "property": "C14",
   "status": "proved",
   "theorems": [
    "C14_disjoint"
   ],
   "note": "Under the hypothesis, stated in the property, that Eq on queries agrees with equivalence to keys; C15 shows it is needed."
  },
  {
   "property": "C15",
   "status": "proved",
   "theorems": [
    "C15_disjoint_any_query_refuted",
    "C15_disjoint_aliases_exactly",
    "C15_disjoint_safe_exactly"
   ],
   "note": "The property records a limitation; the _refuted theorem proves the counterexample."
  },
  {
   "property": "C16",
   "status": "proved",
   "theorems": [
    "C16_map_eq_extensional",
    "C16_made_maps_hold_their_input",
    "C16_map_eq_refl",
    "C16_map_eq_sym",
    "C16_map_eq_trans"
   ],
   "note": ""
  },
  {
   "property": "C17",
   "status": "proved",
   "theorems": [
    "C17_frozen_sets_lawful",
    "C17_set_eq_extensional"
   ],
   "note": ""
  },
  {
   "property": "C18",
   "status": "proved",
   "theorems": [
    "C18_union"
   ],
   "note": ""
  },
  {
   "property": "C19",
   "status": "proved",
   "theorems": [
    "C19_intersection",
    "C19_difference",
    "C19_symmetric_difference"
   ],
   "note": ""
  },
  {
   "property": "C20",
   "status": "proved",
   "theorems": [
    "C20_is_disjoint",
    "C20_is_subset",
    "C20_is_superset"
   ],
   "note": ""
  },
  {
   "property": "C21",
   "status": "proved",
   "theorems": [
    "C21_operators"
   ],
   "note": ""
  },
  {
   "property": "C22",
   "status": "proved",
   "theorems": [
    "C22_size_hints",
    "C22_bounds_attained"
   ],
   "note": ""
  },
  {
   "property": "C23",
   "status": "proved",
   "theorems": [
    "C23_union_lower_bound_refuted",
    "C23_union_lower_bound_exactly"
   ],
   "note": "The property records a limitation; the _refuted theorem proves the counterexample."
  },
  {
   "property": "C24",
   "status": "proved",
   "theorems": [
    "C24_map_iterators"
   ],
   "note": ""
  },
  {
   "property": "C25",
   "status": "proved",
   "theorems": [
    "C25_no_unchecked_access_out_of_range"
   ],
   "note": "Proved for every map made by the safe constructors, with lawful trait implementations; C51 drops the laws."
  },
  {
   "property": "C26",
   "status": "proved",
   "theorems": [
    "C26_construction_total"
   ],
   "note": ""
  },
  {
   "property": "C27",
   "status": "proved",
   "theorems": [
    "C27_scalar_construction_total_refuted"
   ],
   "note": "The property records a limitation; the _refuted theorem proves the counterexample."
  },
  {
   "property": "C28",
   "status": "proved",
   "theorems": [
    "C28_sizing"
   ],
   "note": ""
  },
  {
   "property": "C29",
   "status": "proved",
   "theorems": [
    "C29_slice_analysis_usable",
    "C29_slice_analysis_exact"
   ],
   "note": ""
  },
  {
   "property": "C30",
   "status": "proved",
   "theorems": [
    "C30_scalar_classification",
    "C30_scalar_classification_empty"
   ],
   "note": ""
  },
  {
   "property": "C31",
   "status": "proved",
   "theorems": [
    "C31_eytzinger"
   ],
   "note": ""
  },
  {
   "property": "C32",
   "status": "proved",
   "theorems": [
    "C32_using_eq",
    "C32_using_hash",
    "C32_using_cmp",
    "C32_survivors",
    "C32_has_duplicates"
   ],
   "note": ""
  },
  {
   "property": "C33",
   "status": "proved",
   "theorems": [
    "C33_index_order",
    "C33_implemented_types",
    "C33_builtin_types_lawful"
   ],
   "note": ""
  },
  {
   "property": "C34",
   "status": "proved",
   "theorems": [
    "C34_scalar_collection"
   ],
   "note": ""
  },
  {
   "property": "C35",
   "status": "proved",
   "theorems": [
    "C35_string_collection"
   ],
   "note": ""
  },
  {
   "property": "C36",
   "status": "proved",
   "theorems": [
    "C36_hash_collection",
    "C36_ordered_collection"
   ],
   "note": ""
  },
  {
   "property": "C37",
   "status": "proved",
   "theorems": [
    "C37_compiles_means_fits",
    "C37_hash_compiles",
    "C37_string_compiles",
    "C37_ordered_compiles",
    "C37_scalar_compiles",
    "C37_emitted_form"
   ],
   "note": ""
  },
  {
   "property": "C38",
   "status": "proved",
   "theorems": [
    "C38_runtime_duplicates_refuted",
    "C38_hash_runtime_keys",
    "C38_ordered_runtime_keys",
    "C38_scalar_runtime_keys",
    "C38_string_runtime_keys"
   ],
   "note": "The property records a limitation; the _refuted theorem proves the counterexample."
  },
  {
   "property": "C39",
   "status": "proved",
   "theorems": [
    "C39_kind_order",
    "C39_rejection_order",
    "C39_accepted_exactly",
    "C39_message_exactly",
    "C39_kind_exactly",
    "C39_mixtures_rejected"
   ],
   "note": ""
  },
  {
   "property": "C40",
   "status": "proved",
   "theorems": [
    "C40_digit_grouping"
   ],
   "note": ""
  },
  {
   "property": "C41",
   "status": "proved",
   "theorems": [
    "C41_options_rejected",
    "C41_options_decide"
   ],
   "note": ""
  },
  {
   "property": "C42",
   "status": "proved",
   "theorems": [
    "C42_hash_map",
    "C42_ordered_map",
    "C42_scalar_map",
    "C42_string_map",
    "C42_map_equal",
    "C42_hash_set",
    "C42_ordered_set",
    "C42_scalar_set",
    "C42_string_set",
    "C42_set_equal",
    "C42_format_exists",
    "C42_map_writes",
    "C42_set_writes"
   ],
   "note": ""
  },
  {
   "property": "C43",
   "status": "proved",
   "theorems": [
    "C43_string_map_needs_lending",
    "C43_string_set_needs_lending",
    "C43_string_round_trip_refuted"
   ],
   "note": "The property records a limitation; the _refuted theorem proves the counterexample."
  },
  {
   "property": "C44",
   "status": "proved",
   "theorems": [
    "C44_left_range_hasher",
    "C44_right_range_hasher",
    "C44_right_is_mirrored_left",
    "C44_backwards_range_panics"
   ],
   "note": ""
  },
  {
   "property": "C45",
   "status": "proved",
   "theorems": [
    "C45_construction_order",
    "C45_construction_order_eq"
   ],
   "note": ""
  },
  {
   "property": "C46",
   "status": "proved",
   "theorems": [
    "C46_default_empty",
    "C46_default_equals_empty",
    "C46_defaults_are_made"
   ],
   "note": ""
  },
  {
   "property": "C47",
   "status": "proved",
   "theorems": [
    "C47_ordered_lookup_cost",
    "C47_hash_lookup_cost",
    "C47_collisions_exactly",
    "C47_no_collision_lookup_cost"
   ],
   "note": ""
  },
  {
   "property": "C48",
   "status": "proved",
   "theorems": [
    "C48_any_ord_refuted"
   ],
   "note": "The property records a limitation; the _refuted theorem proves the counterexample."
  },
  {
   "property": "C49",
   "status": "proved",
   "theorems": [
    "C49_derive_accepts",
    "C49_derive_numbers"
   ],
   "note": ""
  },
  {
   "property": "C50",
   "status": "proved",
   "theorems": [
    "C50_union_commutes",
    "C50_intersection_commutes",
    "C50_cardinality",
    "C50_algebra",
    "C50_subset_antisymmetric"
   ],
   "note": ""
  },
  {
   "property": "C51",
   "status": "proved",
   "theorems": [
    "C51_safe_without_laws",
    "C51_constructors"
   ],
   "note": ""
  },
  {
   "property": "C52",
   "status": "proved",
   "theorems": [
    "C52_inconsistent_index_refuted"
   ],
   "note": "The property records a limitation; the _refuted theorem proves the counterexample."
  },
  {
   "property": "C53",
   "status": "proved",
   "theorems": [
    "C53_integer_macro",
    "C53_rejected_exactly",
    "C53_message_exactly",
    "C53_types"
   ],
   "note": ""
  },
  {
   "property": "C54",
   "status": "proved",
   "theorems": [
    "C54_string_macro"
   ],
   "note": ""
  },
  {
   "property": "C55",
   "status": "proved",
   "theorems": [
    "C55_hashed_macro",
    "C55_ordered_macro",
    "C55_scalar_macro",
    "C55_string_macro",
    "C55_empty_macro"
   ],
   "note": ""
  },
  {
   "property": "C56",
   "status": "proved",
   "theorems": [
    "C56_hash_map",
    "C56_ordered_map",
    "C56_scalar_map",
    "C56_string_map",
    "C56_hash_set",
    "C56_ordered_set",
    "C56_scalar_set",
    "C56_string_set",
    "C56_deserialization_never_panics_refuted"
   ],
   "note": ""
  },
  {
   "property": "C57",
   "status": "proved",
   "theorems": [
    "C57_grammar_accepted",
    "C57_nothing_else",
    "C57_unambiguous"
   ],
   "note": ""
  },
  {
   "property": "C58",
   "status": "proved",
   "theorems": [
    "C58_never_panics",
    "C58_rejected",
    "C58_expanded",
    "C58_integer_call",
    "C58_string_call",
    "C58_hashed_call"
   ],
   "note": ""
  },
  {
   "property": "C59",
   "status": "proved",
   "theorems": [
    "C59_exact_on_target",
    "C59_isize_tables_out_of_range",
    "C59_cut_off_refuted"
   ],
   "note": "The property records a limitation; the _refuted theorem proves the counterexample. Exactness is under the condition that the printed literals are in range on the target; isize tables never meet it. Endianness of the target plays no part for integers."
  },
  {
   "property": "C60",
   "status": "proved",
   "theorems": [
    "C60_emit_hash",
    "C60_emit_ordered",
    "C60_emit_scalar",
    "C60_emit_string",
    "C60_long_form",
    "C60_short_form"
   ],
   "note": "Type checking is a relation over the printed syntax (SpecTypes.v); trait bounds other than AsRef<str>, lifetimes, privacy and coercions are not part of it."
  },
  {
   "property": "C61",
   "status": "proved",
   "theorems": [
    "C61_unsuffixed_refuted",
    "C61_strings_refuted",
    "C61_static_refuted"
   ],
   "note": "The property records a limitation; the _refuted theorem proves the counterexample."
  },
  {
   "property": "C62",
   "status": "proved",
   "theorems": [
    "C62_history",
    "C62_kinds"
   ],
   "note": ""
  },
  {
   "property": "C63",
   "status": "proved",
   "theorems": [
    "C63_sixty_four_bits",
    "C63_sixty_four_bits_strings",
    "C63_scalar_any_width",
    "C63_sparse_any_width",
    "C63_dense_any_width",
    "C63_string_any_width",
    "C63_widths_agree",
    "C63_scalar_construction_total_refuted",
    "C63_dense_full_range_refuted"
   ],
   "note": "The property records a limitation; the _refuted theorem proves the counterexample."
  },
  {
   "property": "C64",
   "status": "proved",
   "theorems": [
    "C64_string_target",
    "C64_hash_target",
    "C64_exact_iff",
    "C64_no_hash_exact",
    "C64_string_macro_target",
    "C64_strings_lost_refuted"
   ],
   "note": "The property records a limitation; the _refuted theorem proves the counterexample."
  },
  {
   "property": "C65",
   "status": "proved",
   "theorems": [
    "C65_slice_work",
    "C65_hash_work",
    "C65_slice_record",
    "C65_hash_record",
    "C65_hash_map_space",
    "C65_string_map_space",
    "C65_scalar_map_space",
    "C65_emitted_space"
   ],
   "note": ""
  },
  {
   "property": "C66",
   "status": "proved",
   "theorems": [
    "C66_tokens_read",
    "C66_reading_unique",
    "C66_literals",
    "C66_panics_exactly",
    "C66_keywords_refuted"
   ],
   "note": "The property records a limitation; the _refuted theorem proves the counterexample."
  },
  {
   "property": "C67",
   "status": "proved",
   "theorems": [
    "C67_value",
    "C67_scalar_collection",
    "C67_string_collection",
    "C67_hash_collection",
    "C67_ordered_collection",
    "C67_integer_macro",
    "C67_string_macro"
   ],
   "note": ""
  },
  {
   "property": "C68",
   "status": "proved",
   "theorems": [
    "C68_record",
    "C68_every_map",
    "C68_get_mut",
    "C68_tree_borrows",
    "C68_tree_borrows_lawful",
    "C68_one_key",
    "C68_two_keys",
    "C68_stacked_borrows",
    "C68_stacked_inline",
    "C68_stacked_scan",
    "C68_stacked_hash",
    "C68_stacked_ordered",
    "C68_stacked_dense",
    "C68_stacked_sparse",
    "C68_stacked_borrows_refuted"
   ],
   "note": "The property records a limitation; the _refuted theorem proves the counterexample. The aliasing models are written from their papers (SpecAliasing.v), without protectors, two-phase borrows and interior mutability; the reborrows of each function are recorded in ModelBorrows.v."
  },
  {
   "property": "C69",
   "status": "proved",
   "theorems": [
    "C69_maps",
    "C69_sets",
    "C69_iterators",
    "C69_set_operations",
    "C69_symmetric_difference",
    "C69_symmetric_difference_refuted",
    "C69_owned_iterators",
    "C69_values_only_refuted",
    "C69_equal_maps_refuted"
   ],
   "note": "The property records a limitation; the _refuted theorem proves the counterexample. Covers {:?} with a writer that does not fail; {:#?} is left out. The builders of core::fmt are modelled from the standard library."
  },
  {
   "property": "C70",
   "status": "proved",
   "theorems": [
    "C70_never_panics",
    "C70_rejected",
    "C70_accepted",
    "C70_one_program",
    "C70_integer_call",
    "C70_string_call",
    "C70_empty_call",
    "C70_hashed_call",
    "C70_ordered_call",
    "C70_scalar_call",
    "C70_string_expr_call"
   ],
   "note": ""
  },
  {
   "property": "C71",
   "status": "proved",
   "theorems": [
    "C71_fused",
    "C71_count"
   ],
   "note": ""
  },
  {
   "property": "C72",
   "status": "proved",
   "theorems": [
    "C72_set_history"
   ],
   "note": ""
  },
  {
   "property": "C73",
   "status": "proved",
   "theorems": [
    "C73_record",
    "C73_every_map",
    "C73_values_unseen",
    "C73_sharing",
    "C73_iter_mut",
    "C73_in_turn",
    "C73_history",
    "C73_history_stacked"
   ],
   "note": "Aliasing models as in C68. What the borrow checker allows is a list of phases (SpecPhases.v); references within one phase are used in any order. A *const pointer is recorded as a shared reborrow."
  },
  {
   "property": "C74",
   "status": "proved",
   "theorems": [
    "C74_exact",
    "C74_make",
    "C74_session",
    "C74_program",
    "C74_dense_refuted",
    "C74_fz_scalar_refuted",
    "C74_put_refuted",
    "C74_dense_steady",
    "C74_fz_scalar_steady"
   ],
   "note": "The property records a limitation; the _refuted theorem proves the counterexample. Trait calls take their answers from an arbitrary stream (ModelHostile.v). hashbrown's table and std's sort are over-approximated: any stored index, any permutation. get_disjoint_mut is left to C15 and C68."
  },
  {
   "property": "C75",
   "status": "proved",
   "theorems": [
    "C75_hash_exact",
    "C75_no_collisions_exact",
    "C75_power_reaches_all",
    "C75_dense_exact",
    "C75_sparse_exact",
    "C75_any_entries",
    "C75_raw_refuted"
   ],
   "note": "The property records a limitation; the _refuted theorem proves the counterexample. The exact conditions quantify over trait implementations that answer anything; a key type whose hash codes or indices cover less may need less."
  },
  {
   "property": "C76",
   "status": "proved",
   "theorems": [
    "C76_program",
    "C76_string_program",
    "C76_session"
   ],
   "note": ""
  },
  {
   "property": "C77",
   "status": "proved",
   "theorems": [
    "C77_in_range",
    "C77_in_range_only_if",
    "C77_exact",
    "C77_exact_only_if",
    "C77_builtin",
    "C77_off_by_one_refuted"
   ],
   "note": "The property records a limitation; the _refuted theorem proves the counterexample. An implementation is a record of its constants and conversions, the conversions being functions that do not panic."
  },
  {
   "property": "C78",
   "status": "proved",
   "theorems": [
    "C78_same",
    "C78_answers",
    "C78_equal",
    "C78_safe",
    "C78_session",
    "C78_magnitude",
    "C78_magnitude_refuted",
    "C78_iterators"
   ],
   "note": "The property records a limitation; the _refuted theorem proves the counterexample. A user's Clone is a function of the position in the entry array, each entry being cloned once; dropping the entries cloned before a panic is not modelled."
  },
  {
   "property": "C79",
   "status": "proved",
   "theorems": [
    "C79_iterators",
    "C79_union_first",
    "C79_comparisons",
    "C79_made",
    "C79_scalar_refuted",
    "C79_covers",
    "C79_hints",
    "C79_lower_bounds"
   ],
   "note": "The property records a limitation; the _refuted theorem proves the counterexample. Covers sets of the crate on both sides; a panicking contains is assumed to leave the stream of answers somewhere, which the arbitrary stream stands for. hashbrown and std sets as operands, whose own contains is not modelled, are outside."
  },
  {
   "property": "C80",
   "status": "proved",
   "theorems": [
    "C80_in_bounds",
    "C80_panics",
    "C80_results",
    "C80_aliasing_refuted",
    "C80_btree",
    "C80_btree_disjoint",
    "C80_btree_refuted"
   ],
   "note": "The property records a limitation; the _refuted theorem proves the counterexample. BTreeMap, outside of the crate, is modelled as documented: its entries in order, get_mut by comparison. That a second mutable reference to one value is undefined behaviour is the language's rule; the theorems give the positions."
  },
  {
   "property": "C81",
   "status": "proved",
   "theorems": [
    "C81_string_map",
    "C81_calls",
    "C81_panics",
    "C81_hash_map",
    "C81_fz_hash_map",
    "C81_leftovers",
    "C81_last_value_refuted",
    "C81_covers",
    "C81_string_covers"
   ],
   "note": "The property records a limitation; the _refuted theorem proves the counterexample. The tables of hashbrown are modelled as: any stored index it likes may be asked about, and one found equal may be taken out, or none. The analysis of the string keys is one answer (it may panic); which hasher it picks shows only in the codes, which are arbitrary. Positions of references stand for the references."
  },
  {
   "property": "C82",
   "status": "proved",
   "theorems": [
    "C82_hash_map_iter",
    "C82_ordered_map_iter",
    "C82_scalar_map_iter",
    "C82_string_map_iter",
    "C82_hash_set_iter",
    "C82_ordered_set_iter",
    "C82_scalar_set_iter",
    "C82_string_set_iter",
    "C82_hash_map_array",
    "C82_ordered_map_array",
    "C82_scalar_map_array",
    "C82_string_map_array",
    "C82_hash_set_array",
    "C82_ordered_set_array",
    "C82_scalar_set_array",
    "C82_string_set_array",
    "C82_any_hint_refuted",
    "C82_limits"
   ],
   "note": "The property records a limitation; the _refuted theorem proves the counterexample. The vector is std's, for iterators std has no special case for; running out of memory (abort) is not modelled. A string key is the string its as_ref yields, and as_ref is a function."
  },
  {
   "property": "C83",
   "status": "proved",
   "theorems": [
    "C83_maps",
    "C83_sets",
    "C83_complete",
    "C83_cut",
    "C83_indentation",
    "C83_iterators",
    "C83_set_operations",
    "C83_symmetric_difference",
    "C83_owned_iterators",
    "C83_owned_set_iterator",
    "C83_plain",
    "C83_writers"
   ],
   "note": "core::fmt's builders and std's Debug of tuples, slices, Option, Chain and iterators are modelled as in std. A key or value writes the same pieces into every writer and passes its errors on; one that swallows an error of the writer is outside."
  },
  {
   "property": "C84",
   "status": "proved",
   "theorems": [
    "C84_bounds",
    "C84_attained",
    "C84_fewest_attained",
    "C84_entries",
    "C84_disjoint",
    "C84_disjoint_attained",
    "C84_scan_new",
    "C84_scan_new_attained",
    "C84_scan_new_fewest_attained",
    "C84_hash_table",
    "C84_made"
   ],
   "note": "Calls are counted as answers taken from the stream: comparisons of keys, cmp, hash and index each count one; what they do inside is not looked at. Attainment assumes that the slot array has at most 2^64 elements. The calls of std's sort and of hashbrown during the removal of duplicates are not counted (hence 'further calls')."
  },
  {
   "property": "C85",
   "status": "proved",
   "theorems": [
    "C85_map_eq_lengths",
    "C85_map_eq",
    "C85_map_eq_covers",
    "C85_lengths",
    "C85_comparisons",
    "C85_union",
    "C85_difference",
    "C85_intersection",
    "C85_symmetric_difference",
    "C85_union_attained",
    "C85_difference_attained",
    "C85_intersection_attained",
    "C85_symmetric_difference_attained"
   ],
   "note": "Calls are counted as in C84. The counts of the iterators are for streams without panics: after a caught panic the stream carries on with its next answer, so the position in it no longer counts calls (what happens then is C79). For the symmetric difference the stream attaining a bound changes in the middle, so it depends on where it starts."
  },
  {
   "property": "C86",
   "status": "proved",
   "theorems": [
    "C86_hash_map",
    "C86_ordered_map",
    "C86_scalar_map",
    "C86_string_map",
    "C86_hash_set",
    "C86_ordered_set",
    "C86_scalar_set",
    "C86_string_set",
    "C86_lists"
   ],
   "note": ""
  },
  {
   "property": "C87",
   "status": "proved",
   "theorems": [
    "C87_maps",
    "C87_sets",
    "C87_one_answer",
    "C87_map_trait_is_inherent",
    "C87_set_trait_is_inherent",
    "C87_map_references",
    "C87_set_references",
    "C87_foreign_maps",
    "C87_foreign_sets",
    "C87_needs_new_std",
    "C87_old_std"
   ],
   "note": "The bodies are transcribed as data (which function each one calls on what), and the resolution of method calls is modelled after rustc's rules for these cases: visible inherent functions first, then the traits in scope. The arguments are not distinguished. The answers of the code at the bottom are those of the other models."
  },
  {
   "property": "C88",
   "status": "proved",
   "theorems": [
    "C88_range",
    "C88_range_agreeing",
    "C88_gaps",
    "C88_sparse",
    "C88_dense",
    "C88_gaps_allocated",
    "C88_sparse_allocated",
    "C88_limit_only_panics",
    "C88_limit_not_met",
    "C88_sparse_wide_refuted"
   ],
   "note": "C88_sparse_wide_refuted shows that the limit on the span in C88_sparse_allocated is needed; FzScalarMap is not affected."
  },
  {
   "property": "C89",
   "status": "proved",
   "theorems": [
    "C89_text",
    "C89_items",
    "C89_length_hasher",
    "C89_plain_body"
   ],
   "note": ""
  },
  {
   "property": "C90",
   "status": "proved",
   "theorems": [
    "C90_reads",
    "C90_lawful",
    "C90_maps",
    "C90_refused_exactly"
   ],
   "note": ""
  },
  {
   "property": "C91",
   "status": "proved",
   "theorems": [
    "C91_same",
    "C91_exact",
    "C91_maps",
    "C91_most",
    "C91_attained",
    "C91_pairs"
   ],
   "note": ""
  },
  {
   "property": "C92",
   "status": "proved",
   "theorems": [
    "C92_analysis",
    "C92_hash_table",
    "C92_fz_hash_map"
   ],
   "note": ""
  }
 ]
}