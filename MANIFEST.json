{
 "claims": [
  {
   "property": "C01",
   "status": "proved",
   "theorems": [
    "C01_canonicity",
    "C01_canonicity_tree"
   ],
   "note": ""
  },
  {
   "property": "C02",
   "status": "proved",
   "theorems": [
    "C02_union"
   ],
   "note": ""
  },
  {
   "property": "C03",
   "status": "proved",
   "theorems": [
    "C03_intersection"
   ],
   "note": ""
  },
  {
   "property": "C04",
   "status": "proved",
   "theorems": [
    "C04_difference"
   ],
   "note": ""
  },
  {
   "property": "C05",
   "status": "proved",
   "theorems": [
    "C05_canonical",
    "C05_canonical_is_built"
   ],
   "note": ""
  },
  {
   "property": "C06",
   "status": "proved",
   "theorems": [
    "C06_union_total",
    "C06_intersection_total",
    "C06_difference_total",
    "C06_fuel"
   ],
   "note": ""
  },
  {
   "property": "C07",
   "status": "proved",
   "theorems": [
    "C07_union_errors",
    "C07_intersection_errors",
    "C07_difference_errors",
    "C07_union_throws",
    "C07_intersection_throws",
    "C07_difference_throws",
    "C07_never_mixed",
    "C07_union_throws_iff",
    "C07_intersection_throws_iff",
    "C07_difference_throws_iff",
    "C07_operators_throw_alike"
   ],
   "note": ""
  },
  {
   "property": "C08",
   "status": "proved",
   "theorems": [
    "C08_set_algebra",
    "C08_identities_hold"
   ],
   "note": ""
  },
  {
   "property": "C09",
   "status": "proved",
   "theorems": [
    "C09_union",
    "C09_intersection",
    "C09_difference",
    "C09_moving_union",
    "C09_moving_intersection",
    "C09_moving_difference",
    "C09_moving_any_operands",
    "C09_moving_homomorphism",
    "C09_moving_homomorphism_any_orders",
    "C09_moving_throws_iff"
   ],
   "note": ""
  },
  {
   "property": "C10",
   "status": "proved",
   "theorems": [
    "C10_union_set",
    "C10_intersection_set",
    "C10_union_group",
    "C10_intersection_group",
    "C10_units"
   ],
   "note": ""
  },
  {
   "property": "C11",
   "status": "partial",
   "theorems": [
    "C11_intersection_throw_depends_on_addresses_refuted",
    "C11_intersection_returns_partial",
    "C11_intersection_throws_iff_partial"
   ],
   "note": "The claim is false: C11_intersection_throw_depends_on_addresses_refuted exhibits operands for which one address order returns |0| and another throws. C11_intersection_throws_iff_partial gives the exact condition for each order of addresses, and C11_intersection_returns_partial that operands without clash never throw, even when addresses change during the operation."
  },
  {
   "property": "C12",
   "status": "proved",
   "theorems": [
    "C12_flat_constructor",
    "C12_hierarchical_constructor",
    "C12_flat_zero",
    "C12_hierarchical_zero",
    "C12_empty"
   ],
   "note": ""
  },
  {
   "property": "C13",
   "status": "proved",
   "theorems": [
    "C13_from_order"
   ],
   "note": ""
  },
  {
   "property": "C14",
   "status": "proved",
   "theorems": [
    "C14_size"
   ],
   "note": ""
  },
  {
   "property": "C15",
   "status": "partial",
   "theorems": [
    "C15_paths",
    "C15_disjoint",
    "C15_total",
    "C15_empty_refuted"
   ],
   "note": "Proved for every diagram other than |0|. The remaining claim (nothing is produced for |0|) is false of the code: C15_empty_refuted."
  },
  {
   "property": "C16",
   "status": "proved",
   "theorems": [
    "C16_iteration",
    "C16_constructor",
    "C16_sum",
    "C16_intersection",
    "C16_difference",
    "C16_insert",
    "C16_erase",
    "C16_empty",
    "C16_equality",
    "C16_values_type"
   ],
   "note": ""
  },
  {
   "property": "C17",
   "status": "partial",
   "theorems": [
    "C17_constructor_insert",
    "C17_test",
    "C17_range",
    "C17_sum",
    "C17_intersection",
    "C17_difference",
    "C17_shift_left",
    "C17_shift_right",
    "C17_size",
    "C17_empty",
    "C17_equality",
    "C17_values_type",
    "C17_order_64",
    "C17_order_refuted",
    "C17_test_refuted"
   ],
   "note": "Holds for every N except comparison and hashing, which terminate the program for N > 64 (C17_order_refuted); test(i) terminates out of range (C17_test_refuted)."
  },
  {
   "property": "C18",
   "status": "proved",
   "theorems": [
    "C18_transparent",
    "C18_entries",
    "C18_operations"
   ],
   "note": ""
  },
  {
   "property": "C19",
   "status": "proved",
   "theorems": [
    "C19_lru",
    "C19_bound"
   ],
   "note": ""
  },
  {
   "property": "C20",
   "status": "partial",
   "theorems": [
    "C20_clear_refuted",
    "C20_growth_refuted",
    "C20_clear_partial"
   ],
   "note": "False as stated: clear() keeps the nodes of the LRU list, so later evictions are not least recently used (C20_clear_refuted) and the list grows without bound (C20_growth_refuted). What holds is proved: after clear() the cache is empty and every later outcome is the one of new caches, without fault (C20_clear_partial)."
  },
  {
   "property": "C21",
   "status": "partial",
   "theorems": [
    "C21_capacity_partial",
    "C21_capacity_refuted",
    "C21_unique_table_refuted"
   ],
   "note": "False as stated: with 0, 1 or more than 2^63 the constructor of the cache writes outside of its pool, and with 0 or more than 2^63 the first insertion in the unique table is out of bounds (C21_*_refuted). Proved for the other sizes: C21_capacity_partial with C18/C19 for caches, C25_set (up to 2^62) for the unique table."
  },
  {
   "property": "C22",
   "status": "proved",
   "theorems": [
    "C22_unicity"
   ],
   "note": ""
  },
  {
   "property": "C23",
   "status": "proved",
   "theorems": [
    "C23_lifetime",
    "C23_no_leak"
   ],
   "note": ""
  },
  {
   "property": "C24",
   "status": "partial",
   "theorems": [
    "C24_self_assignment_partial",
    "C24_self_copy_refuted",
    "C24_nested_copy_refuted",
    "C24_self_move_refuted"
   ],
   "note": "The claim is false of the code: self copy assignment of the only handle accesses destroyed data, self move assignment loses the data, and x = x.successor() reads the destroyed node (theorems _refuted). Proved when another handle designates the same data."
  },
  {
   "property": "C25",
   "status": "proved",
   "theorems": [
    "C25_set",
    "C25_collisions"
   ],
   "note": ""
  },
  {
   "property": "C26",
   "status": "proved",
   "theorems": [
    "C26_blocks",
    "C26_fit",
    "C26_scope"
   ],
   "note": ""
  },
  {
   "property": "C27",
   "status": "proved",
   "theorems": [
    "C27_least_power",
    "C27_zero",
    "C27_above",
    "C27_32_bits"
   ],
   "note": ""
  },
  {
   "property": "C28",
   "status": "proved",
   "theorems": [
    "C28_built_iff_unique",
    "C28_duplicate_reported",
    "C28_positions",
    "C28_variables",
    "C28_structure",
    "C28_node",
    "C28_contains"
   ],
   "note": ""
  },
  {
   "property": "C29",
   "status": "proved",
   "theorems": [
    "C29_push",
    "C29_concat",
    "C29_range",
    "C29_size",
    "C29_size_concat",
    "C29_height"
   ],
   "note": ""
  },
  {
   "property": "C30",
   "status": "proved",
   "theorems": [
    "C30_flatten",
    "C30_order_flat",
    "C30_flatten_valid"
   ],
   "note": ""
  },
  {
   "property": "C31",
   "status": "partial",
   "theorems": [
    "C31_grouped_partial",
    "C31_zero_diverges_refuted",
    "C31_one_refuted"
   ],
   "note": "Proved for n >= 2 (any builder). False for n = 0, where the loop never ends (C31_zero_diverges_refuted), and for n = 1, where the builder is returned unchanged (C31_one_refuted)."
  },
  {
   "property": "C32",
   "status": "partial",
   "theorems": [
    "C32_round_trip_partial",
    "C32_empty_refuted"
   ],
   "note": "Proved for non-empty orders whose identifiers are read back by mk_order_identifier. False for the empty order (C32_empty_refuted). The JSON text itself (quoting, integer parsing) is abstracted by the predicate readable here, and modelled character by character in C67."
  },
  {
   "property": "C33",
   "status": "proved",
   "theorems": [
    "C33_permutation",
    "C33_duplicates",
    "C33_reverse"
   ],
   "note": ""
  },
  {
   "property": "C34",
   "status": "partial",
   "theorems": [
    "C34_returns_last",
    "C34_best_refuted",
    "C34_spans"
   ],
   "note": "False of the code: smallest_span is never updated, so the last order is returned (C34_returns_last, C34_best_refuted for every correct sort). The spans kept for statistics are those of the orders (C34_spans)."
  },
  {
   "property": "C35",
   "status": "proved",
   "theorems": [
    "C35_zero",
    "C35_identity",
    "C35_composition",
    "C35_composition_total",
    "C35_composition_plain",
    "C35_composition_refuted"
   ],
   "note": "Proved for every composition whose mergeable local parts are linear (C35_composition, C35_composition_total) and, without simplification by the constructor, for all homomorphisms (C35_composition_plain). C35_composition_refuted: merging two locals on the same variable changes the result when the left one depends on whole sets of values."
  },
  {
   "property": "C36",
   "status": "proved",
   "theorems": [
    "C36_sum",
    "C36_sum_set",
    "C36_empty"
   ],
   "note": ""
  },
  {
   "property": "C37",
   "status": "partial",
   "theorems": [
    "C37_intersection_partial",
    "C37_intersection_nofix_partial",
    "C37_intersection_plain",
    "C37_intersection_refuted",
    "C37_intersection_regular_partial",
    "C37_intersection_distinct_partial"
   ],
   "note": "Proved for selectors all of whose parts terminate (C37_intersection_partial, C37_intersection_nofix_partial), for operands, selectors or not, which send disjoint sets to disjoint sets below each hierarchy or are the same there (C37_intersection_regular_partial; C37_intersection_distinct_partial for operands local to different hierarchies) and, once constructed, for all operands that terminate (C37_intersection_plain). Missing: the other families, for which the claim is false: C37_intersection_refuted shows that regrouping then changes the result."
  },
  {
   "property": "C38",
   "status": "proved",
   "theorems": [
    "C38_fixpoint",
    "C38_least",
    "C38_fixpoint_ends_iff"
   ],
   "note": "C38_fixpoint_ends_iff adds when the evaluation ends: exactly when finitely many assignments can be reached (linear elementary parts)."
  },
  {
   "property": "C39",
   "status": "partial",
   "theorems": [
    "C39_rejects",
    "C39_if_then_else_partial",
    "C39_if_then_else_iff_partial",
    "C39_if_then_else_plain",
    "C39_if_then_else_refuted"
   ],
   "note": "Proved except for if_then_else(p,t,t) with a t that is not additive: C39_if_then_else_refuted shows that the constructor's simplification to t is then wrong. C39_if_then_else_iff_partial: one side ends exactly when the other does, unless the constructor drops a condition that is not the identity and something is a fixpoint."
  },
  {
   "property": "C40",
   "status": "proved",
   "theorems": [
    "C40_local",
    "C40_local_linear"
   ],
   "note": ""
  },
  {
   "property": "C41",
   "status": "proved",
   "theorems": [
    "C41_function",
    "C41_unknown",
    "C41_pointwise"
   ],
   "note": ""
  },
  {
   "property": "C42",
   "status": "proved",
   "theorems": [
    "C42_skip",
    "C42_residual",
    "C42_whole"
   ],
   "note": ""
  },
  {
   "property": "C43",
   "status": "proved",
   "theorems": [
    "C43_rewrite_total",
    "C43_rewrite_agrees",
    "C43_rewrite_total_agrees",
    "C43_rewrite_image",
    "C43_rewrite_same",
    "C43_rewrite_refuted"
   ],
   "note": "For homomorphisms whose elementary parts distribute over unions and whose intersections have filters as operands (lin). C43_rewrite_refuted: a function depending on the whole set of values is enough to make the rewritten homomorphism give another result. C43_rewrite_same: when the elementary parts always end, one evaluation ends exactly when the other does, with the same result."
  },
  {
   "property": "C44",
   "status": "proved",
   "theorems": [
    "C44_declared",
    "C44_selectors"
   ],
   "note": ""
  },
  {
   "property": "C45",
   "status": "partial",
   "theorems": [
    "C45_history_partial",
    "C45_order_partial",
    "C45_history_refuted"
   ],
   "note": "False as stated: C45_history_refuted shows a single evaluation, with one order holding two hierarchies with the same variables, whose cached result differs from the uncached one, because the key of the cache has no order and the inductive homomorphism reads an identifier. Proved: with inductive homomorphisms that only use the shape of the order (in particular with none), any history through a cache of any size gives the uncached results, and results depend on the shape of the order only."
  },
  {
   "property": "C46",
   "status": "proved",
   "theorems": [
    "C46_nodes",
    "C46_arcs",
    "C46_number_of_arcs",
    "C46_bytes",
    "C46_statistics"
   ],
   "note": ""
  },
  {
   "property": "C47",
   "status": "partial",
   "theorems": [
    "C47_init_throws",
    "C47_throw_changes_nothing",
    "C47_one_manager",
    "C47_last_copy",
    "C47_diagrams_isolated",
    "C47_nothing_dangles",
    "C47_destroyed_clean",
    "C47_isolation_partial",
    "C47_isolation_distinct_partial",
    "C47_isolation_refuted"
   ],
   "note": "The exception part is proved in full. The isolation part is false of the code (C47_isolation_refuted: conf1 and conf2 share flat_set<unsigned int>; init tests global_ptr<Values> instead of global_values_ptr). Proved when live managers do not share a stateful Values type; the diagram part is isolated in all cases."
  },
  {
   "property": "C48",
   "status": "partial",
   "theorems": [
    "C48_arcs_kept_partial",
    "C48_equality_partial",
    "C48_arcs_kept_refuted",
    "C48_equality_refuted"
   ],
   "note": "Proved below 2^16 arcs (any width). The full statement is false of the code: C48_arcs_kept_refuted, C48_equality_refuted."
  },
  {
   "property": "C49",
   "status": "partial",
   "theorems": [
    "C49_insert_iterator_refuted",
    "C49_insert_iterator_valid_iff_partial"
   ],
   "note": "The claim is false: C49_insert_iterator_refuted. C49_insert_iterator_valid_iff_partial gives the exact condition."
  },
  {
   "property": "C50",
   "status": "proved",
   "theorems": [
    "C50_display",
    "C50_display_injective"
   ],
   "note": ""
  },
  {
   "property": "C51",
   "status": "proved",
   "theorems": [
    "C51_dot"
   ],
   "note": ""
  },
  {
   "property": "C52",
   "status": "partial",
   "theorems": [
    "C52_aligned_partial",
    "C52_aligned_refuted"
   ],
   "note": "The claim is false of the code (C52_aligned_refuted: a 1-byte request misaligns the next block). Proved when every request is a multiple of the alignment."
  },
  {
   "property": "C53",
   "status": "partial",
   "theorems": [
    "C53_system_partial",
    "C53_system_refuted"
   ],
   "note": "The claim is false of the code (C53_system_refuted: a block of operator new that starts exactly at the end of the buffer is taken for a block of the buffer and leaks). Proved for blocks that do not start there."
  },
  {
   "property": "C54",
   "status": "proved",
   "theorems": [
    "C54_order_equality"
   ],
   "note": ""
  },
  {
   "property": "C55",
   "status": "proved",
   "theorems": [
    "C55_orders_have_shapes",
    "C55_never_fails",
    "C55_terminates",
    "C55_deterministic"
   ],
   "note": ""
  },
  {
   "property": "C56",
   "status": "partial",
   "theorems": [
    "C56_arc",
    "C56_node",
    "C56_sdd",
    "C56_difference",
    "C56_nary",
    "C56_flat_set",
    "C56_identifier",
    "C56_homomorphism_partial",
    "C56_order_refuted",
    "C56_cons_refuted"
   ],
   "note": "Proved for every class except orders and cons homomorphisms (C56_homomorphism_partial requires the same order object); C56_order_refuted and C56_cons_refuted show that the library breaks the law there."
  },
  {
   "property": "C57",
   "status": "proved",
   "theorems": [
    "C57_construct",
    "C57_index",
    "C57_visit",
    "C57_binary_visit",
    "C57_is",
    "C57_cast",
    "C57_equality",
    "C57_storage",
    "C57_packed_refuted"
   ],
   "note": "Proved for every list of types; C57_packed_refuted: with LIBSDD_PACKED the storage is not aligned."
  },
  {
   "property": "C58",
   "status": "partial",
   "theorems": [
    "C58_nodes",
    "C58_edges",
    "C58_identities",
    "C58_identities_differ",
    "C58_refuted"
   ],
   "note": "Proved for the classes with a visitor; C58_refuted: the others are neither declared nor explored."
  },
  {
   "property": "C59",
   "status": "partial",
   "theorems": [
    "C59_injective_partial",
    "C59_reads_partial",
    "C59_refuted",
    "C59_document",
    "C59_document_partial"
   ],
   "note": "Injective on the exported classes; C59_refuted: the others are all exported as TODO."
  },
  {
   "property": "C60",
   "status": "proved",
   "theorems": [
    "C60_handle_equality",
    "C60_handle_empty"
   ],
   "note": ""
  },
  {
   "property": "C61",
   "status": "proved",
   "theorems": [
    "C61_unicity_table",
    "C61_cache"
   ],
   "note": ""
  },
  {
   "property": "C62",
   "status": "partial",
   "theorems": [
    "C62_construction_in_block",
    "C62_elements_partial",
    "C62_elements_refuted",
    "C62_struct",
    "C62_arcs_aligned_partial",
    "C62_operands_aligned_refuted"
   ],
   "note": "In the block and intact: proved in full. Elements: proved as long as their number fits in the field that holds it, false beyond (C62_elements_refuted). Alignment: proved for the arcs of the default configurations on 64-bit platforms (C62_arcs_aligned_partial), false for the operands of every sum on the same platforms (C62_operands_aligned_refuted: they start 28 bytes after the beginning of the block)."
  },
  {
   "property": "C63",
   "status": "proved",
   "theorems": [
    "C63_arc",
    "C63_node",
    "C63_sdd",
    "C63_difference",
    "C63_nary",
    "C63_flat_set",
    "C63_homomorphism"
   ],
   "note": ""
  },
  {
   "property": "C64",
   "status": "partial",
   "theorems": [
    "C64_values_partial",
    "C64_block_partial",
    "C64_linked_node_refuted",
    "C64_duplicate_refuted",
    "C64_cache_refuted"
   ],
   "note": "Handles: no undefined behaviour, values and unicity kept, whatever creations fail (C64_values_partial); refusal of the node's block changes nothing (C64_block_partial). False: memory is lost (C64_linked_node_refuted, C64_duplicate_refuted), and one failed insertion in the LRU list ends in undefined behaviour (C64_cache_refuted)."
  },
  {
   "property": "C65",
   "status": "proved",
   "theorems": [
    "C65_usable",
    "C65_session",
    "C65_common_shape",
    "C65_deterministic"
   ],
   "note": "Any list of commands through the caches of Cache.v, any sizes, any hash function, any traversal orders. Inductive homomorphisms have to use nothing but the shape of orders, as the statement says: C45_history_refuted shows why."
  },
  {
   "property": "C66",
   "status": "proved",
   "theorems": [
    "C66_safe",
    "C66_after",
    "C66_history",
    "C66_thrown",
    "C66_not_lost"
   ],
   "note": "Any schedule of exceptions of user code, evaluations that do not end included (C66_safe); C66_after and C66_history for what follows; C66_thrown and C66_not_lost for one run. The model's bounds (EFuel) stand for an evaluation still going on."
  },
  {
   "property": "C67",
   "status": "partial",
   "theorems": [
    "C67_load",
    "C67_load_empty",
    "C67_strings_partial",
    "C67_strings_refuted",
    "C67_injection_refuted",
    "C67_integers_partial",
    "C67_integers_refuted",
    "C67_quoted",
    "C67_error_refuted",
    "C67_characters_refuted",
    "C67_spelled",
    "C67_unicode",
    "C67_surrogates",
    "C67_quoted_all",
    "C67_escapes"
   ],
   "note": "The full claim is false: strings are written without escapes, and integers are read as int (C67_strings_refuted, C67_injection_refuted, C67_integers_refuted, C67_characters_refuted; C67_error_refuted: a document with something else than strings, integers and arrays terminates the program). C67_load says exactly which texts are loaded; C67_strings_partial and C67_integers_partial prove the round trip for exactly the identifiers for which it holds. RapidJSON is modelled from the JSON grammar."
  },
  {
   "property": "C68",
   "status": "partial",
   "theorems": [
    "C68_writes",
    "C68_unsigned_partial",
    "C68_signed_partial",
    "C68_characters_partial",
    "C68_bitset_partial",
    "C68_equal_partial",
    "C68_determined",
    "C68_concatenate_partial",
    "C68_executions_refuted",
    "C68_strings_refuted"
   ],
   "note": "Proved for sets of integers, of characters and bitsets: C68_unsigned_partial, C68_signed_partial, C68_characters_partial, C68_bitset_partial, C68_equal_partial, C68_concatenate_partial. False for sets of strings (C68_strings_refuted). That a set has the same text in all executions is false (C68_executions_refuted): arcs are in the order of addresses."
  },
  {
   "property": "C69",
   "status": "partial",
   "theorems": [
    "C69_end",
    "C69_flat",
    "C69_hier",
    "C69_pointwise_flat_partial",
    "C69_pointwise_hier_partial",
    "C69_union_refuted"
   ],
   "note": "The equations are proved without restriction (C69_end, C69_flat, C69_hier, with C42_skip for skipped levels). Distribution over unions is false in general (C69_union_refuted: user code sees sets of values) and proved when what the user's code returns treats values one by one (C69_pointwise_flat_partial, C69_pointwise_hier_partial)."
  },
  {
   "property": "C70",
   "status": "partial",
   "theorems": [
    "C70_longest",
    "C70_words",
    "C70_count_padded",
    "C70_count_partial",
    "C70_count_refuted"
   ],
   "note": "The content of the dictionary and the number of distinct completed lines are proved for every file (C70_longest, C70_words, C70_count_padded). The number of words is wrong when a line ends with '#' (C70_count_refuted), and right otherwise (C70_count_partial)."
  },
  {
   "property": "C71",
   "status": "proved",
   "theorems": [
    "C71_ends",
    "C71_states",
    "C71_count",
    "C71_won"
   ],
   "note": "Through the theorems on rewriting (C43), fixpoints (C38), inductive homomorphisms (C69) and size (C14), for all numbers of rings and poles. The numbers are unbounded in the model."
  },
  {
   "property": "C72",
   "status": "partial",
   "theorems": [
    "C72_operations",
    "C72_size_exact",
    "C72_size_partial",
    "C72_size_refuted",
    "C72_dot_exact",
    "C72_dot_partial",
    "C72_dot_refuted"
   ],
   "note": "Proved for +, & and - (C72_operations). For size() and the export to DOT, C72_size_exact and C72_dot_exact give the exact conditions: the claim is false however maps grow (C72_size_refuted, C72_dot_refuted: some diagram makes them use an invalidated iterator), and holds for diagrams with few nodes (C72_size_partial, C72_dot_partial)."
  },
  {
   "property": "C73",
   "status": "proved",
   "theorems": [
    "C73_once",
    "C73_operations"
   ],
   "note": "C73_operations: diagrams without hierarchy, any history of +, & and -. C73_once: any cached operations, of diagrams or not. C73_ex shows 16 evaluations instead of 51."
  },
  {
   "property": "C74",
   "status": "partial",
   "theorems": [
    "C74_lines",
    "C74_text_partial",
    "C74_text_refuted",
    "C74_text_lines_refuted"
   ],
   "note": "The lines are proved for all orders (C74_lines). Two orders with the same text are the same (C74_text_partial) when the texts of identifiers differ, hold in one line and begin with neither a space nor an at sign. Missing: the other identifiers, for which it is false (C74_text_refuted, C74_text_lines_refuted)."
  },
  {
   "property": "C75",
   "status": "partial",
   "theorems": [
    "C75_width_partial",
    "C75_distinct_partial",
    "C75_distinct_refuted"
   ],
   "note": "Proved for orders whose levels have at most as many identifiers as the type of variables has values, and with fewer identifiers than positions. Missing: longer levels, for which it is false by one identifier (C75_distinct_refuted, for every size of type)."
  },
  {
   "property": "C76",
   "status": "partial",
   "theorems": [
    "C76_programs_partial",
    "C76_lifetime",
    "C76_programs_refuted"
   ],
   "note": "Proved for programs with no self-assignment of a non-empty set held by one variable only. Missing: that case, which is undefined behaviour (C76_programs_refuted)."
  },
  {
   "property": "C77",
   "status": "partial",
   "theorems": [
    "C77_ends",
    "C77_nothing_to_do",
    "C77_exact_partial",
    "C77_sound",
    "C77_count",
    "C77_one_core",
    "C77_complete_refuted",
    "C77_dependencies_refuted"
   ],
   "note": "The result is characterised exactly, for any number of cores, and is sound; with the rules of the problem instead of those of the program it is false (C77_complete_refuted: 0 is printed though a scheduling exists) except with one core, and dependencies are not respected across cores (C77_dependencies_refuted)."
  },
  {
   "property": "C78",
   "status": "partial",
   "theorems": [
    "C78_erased",
    "C78_all_once_partial",
    "C78_cycle",
    "C78_topological_partial",
    "C78_topological_refuted"
   ],
   "note": "build_order reads an erased iterator whenever a task has no dependency (C78_erased); if that read gives the erased element, every task is listed once when some task has no dependency, but the order does not follow the dependencies (C78_topological_refuted), except when the dependencies have none themselves."
  },
  {
   "property": "C79",
   "status": "partial",
   "theorems": [
    "C79_regrouped",
    "C79_text_partial",
    "C79_parentheses_partial",
    "C79_cons_refuted",
    "C79_saturation_refuted",
    "C79_parentheses_refuted"
   ],
   "note": "The text determines the homomorphism up to the grouping of compositions, if it has no saturation fixpoint without part G, if the orders of conses are given by their first identifiers and if the ends of the texts of the user can be found; parentheses match without rewriting. False otherwise: C79_cons_refuted, C79_saturation_refuted, C79_parentheses_refuted."
  },
  {
   "property": "C80",
   "status": "partial",
   "theorems": [
    "C80_history_partial",
    "C80_built",
    "C80_weights_refuted",
    "C80_isolated_refuted",
    "C80_again_refuted"
   ],
   "note": "Proved for hyperedges of weight 1, and for hyperedges of the same integral weight when every identifier is in one (C80_history_partial, C80_built). False otherwise, for every sort (C80_weights_refuted, C80_isolated_refuted), and when the same hypergraph is ordered twice (C80_again_refuted)."
  },
  {
   "property": "C81",
   "status": "partial",
   "theorems": [
    "C81_fits_partial",
    "C81_exact",
    "C81_big_refuted",
    "C81_history_refuted"
   ],
   "note": "Proved when the number of ends of hyperedges times the number of identifiers given so far times the greatest weight fits in an int (C81_fits_partial); C81_exact: without overflow the result is that of exact arithmetic. False of big hyperedges (C81_big_refuted) and of long histories (C81_history_refuted)."
  },
  {
   "property": "C82",
   "status": "partial",
   "theorems": [
    "C82_drawing",
    "C82_text_partial",
    "C82_names_differ",
    "C82_names",
    "C82_weights_refuted",
    "C82_lines_refuted",
    "C82_names_refuted"
   ],
   "note": "The lines of the export are proved for all hypergraphs (C82_drawing), and that they determine identifiers and hyperedges when identifiers are on one line (C82_text_partial); names differ (C82_names_differ) and C82_names gives exactly when DOT accepts them. False: weights (C82_weights_refuted), identifiers on several lines (C82_lines_refuted), other characters in names (C82_names_refuted)."
  },
  {
   "property": "C83",
   "status": "proved",
   "theorems": [
    "C83_replaced",
    "C83_results",
    "C83_associative",
    "C83_fixpoint",
    "C83_text",
    "C83_skip_refuted"
   ],
   "note": "C83_skip_refuted: homomorphisms with the same types and results, but that skip other levels, may not be replaced in an intersection, which stops at the first |0|."
  },
  {
   "property": "C84",
   "status": "partial",
   "theorems": [
    "C84_exported",
    "C84_labels_partial",
    "C84_names",
    "C84_lines",
    "C84_text",
    "C84_short_refuted",
    "C84_shared_refuted"
   ],
   "note": "False of the code in full: a node that is in two hierarchies is labelled with the identifier of one of them only (C84_shared_refuted), and an order without the levels of the SDD makes the export dereference a null pointer (C84_short_refuted). Proved: what is declared and drawn and that each label is the identifier of a level where the node is (C84_exported), the right label for orders without hierarchy (C84_labels_partial), names all different (C84_names), the lines of the text in terms of the SDD (C84_lines), the text determines the set (C84_text)."
  },
  {
   "property": "C85",
   "status": "partial",
   "theorems": [
    "C85_text_partial",
    "C85_lines",
    "C85_names",
    "C85_closed_partial",
    "C85_text_refuted",
    "C85_closed_refuted"
   ],
   "note": "Proved for homomorphisms all of whose operations have an overload in the visitor; the variables of saturation fixpoints are not in the text (C85_text_refuted), and operations without overload are not declared (C85_closed_refuted). The names are different exactly when there are at most 2^32 identities (C85_names)."
  },
  {
   "property": "C86",
   "status": "partial",
   "theorems": [
    "C86_own_identifiers_partial",
    "C86_twice",
    "C86_loaded_partial",
    "C86_own_identifiers_refuted"
   ],
   "note": "Holds as long as fewer than 2^32 artificial identifiers have been made, those of the nodes of orders included (C86_own_identifiers_partial, C86_loaded_partial, C86_twice); false afterwards (C86_own_identifiers_refuted)."
  }
 ]
}
