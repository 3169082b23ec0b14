{
 "claims": [
  {
   "property": "C01",
   "status": "proved",
   "theorems": [
    "C01_query_is_range_fold",
    "C01_query_is_range_sum_Z",
    "C01_query_is_range_sum_unsigned"
   ],
   "note": ""
  },
  {
   "property": "C02",
   "status": "proved",
   "theorems": [
    "C02_update_one_element"
   ],
   "note": ""
  },
  {
   "property": "C03",
   "status": "proved",
   "theorems": [
    "C03_set_value_overwrites_one_element"
   ],
   "note": ""
  },
  {
   "property": "C04",
   "status": "proved",
   "theorems": [
    "C04_query_symmetric_and_clamped"
   ],
   "note": ""
  },
  {
   "property": "C05",
   "status": "proved",
   "theorems": [
    "C05_unbuilt_trees_throw"
   ],
   "note": ""
  },
  {
   "property": "C06",
   "status": "proved",
   "theorems": [
    "C06_rebuild_forgets_the_past",
    "C06_constructor_contents"
   ],
   "note": ""
  },
  {
   "property": "C07",
   "status": "partial",
   "theorems": [
    "C07_resize_keeps_prefix_partial",
    "C07_resize_then_query_safe_refuted"
   ],
   "note": "REFUTED at size 0: after resize(0) a built tree still counts as built and a query reads outside the array. The _partial theorem covers every size >= 1 (growing changes nothing, shrinking keeps the answers of the surviving prefix)."
  },
  {
   "property": "C08",
   "status": "proved",
   "theorems": [
    "C08_in_bounds_and_terminating"
   ],
   "note": ""
  },
  {
   "property": "C09",
   "status": "proved",
   "theorems": [
    "C09_at_is_block_value"
   ],
   "note": ""
  },
  {
   "property": "C10",
   "status": "partial",
   "theorems": [
    "C10_product_query_partial",
    "C10_update_by_zero_refuted",
    "C10_query_behind_zero_refuted",
    "C10_set_value_refuted"
   ],
   "note": "REFUTED for the multiplication transform: update by zero, queries behind a zero and set_value on a zero element are wrong. The _partial theorem covers non-zero elements."
  },
  {
   "property": "C11",
   "status": "proved",
   "theorems": [
    "C11_capacity_never_exceeded"
   ],
   "note": ""
  },
  {
   "property": "C12",
   "status": "proved",
   "theorems": [
    "C12_no_duplicates_and_lookup_agrees"
   ],
   "note": ""
  },
  {
   "property": "C13",
   "status": "proved",
   "theorems": [
    "C13_behaves_as_recency_list",
    "C13_constructors"
   ],
   "note": ""
  },
  {
   "property": "C14",
   "status": "proved",
   "theorems": [
    "C14_most_recently_used_distinct_keys"
   ],
   "note": ""
  },
  {
   "property": "C15",
   "status": "proved",
   "theorems": [
    "C15_every_key_accounted_once",
    "C15_discards_least_recent_first"
   ],
   "note": ""
  },
  {
   "property": "C16",
   "status": "proved",
   "theorems": [
    "C16_reports_tell_the_truth"
   ],
   "note": ""
  },
  {
   "property": "C17",
   "status": "partial",
   "theorems": [
    "C17_index_returns_the_key_partial",
    "C17_index_capacity_zero_is_ub",
    "C17_index_returns_the_key_refuted"
   ],
   "note": "REFUTED for capacity 0: operator[] dereferences a singular iterator (proved for every capacity-0 state). The _partial theorem covers every capacity >= 1."
  },
  {
   "property": "C18",
   "status": "partial",
   "theorems": [
    "C18_copy_observers_partial",
    "C18_copy_lookup_is_ub",
    "C18_copy_usable_refuted",
    "C18_moved_from_is_empty_partial"
   ],
   "note": "REFUTED: the defaulted copy keeps map iterators into the source's list; find, operator[] and remove of any contained key are undefined on the copy (proved for every state). The _partial theorems: const observers of the copy agree; a moved-from cache is a usable empty cache."
  },
  {
   "property": "C19",
   "status": "partial",
   "theorems": [
    "C19_remove_own_reference_is_ub",
    "C19_remove_own_reference_refuted"
   ],
   "note": "REFUTED: proved that remove() with a reference to any own element is a use after free, in every reachable state."
  },
  {
   "property": "C20",
   "status": "proved",
   "theorems": [
    "C20_same_is_generated_equivalence"
   ],
   "note": ""
  },
  {
   "property": "C21",
   "status": "proved",
   "theorems": [
    "C21_disjoint_counts_classes"
   ],
   "note": ""
  },
  {
   "property": "C22",
   "status": "proved",
   "theorems": [
    "C22_size_of_is_class_size"
   ],
   "note": ""
  },
  {
   "property": "C23",
   "status": "proved",
   "theorems": [
    "C23_join_reports_merge"
   ],
   "note": ""
  },
  {
   "property": "C24",
   "status": "proved",
   "theorems": [
    "C24_find_canonical_and_silent"
   ],
   "note": ""
  },
  {
   "property": "C25",
   "status": "proved",
   "theorems": [
    "C25_depth_logarithmic"
   ],
   "note": ""
  },
  {
   "property": "C26",
   "status": "proved",
   "theorems": [
    "C26_resize_adds_singletons"
   ],
   "note": ""
  },
  {
   "property": "C27",
   "status": "partial",
   "theorems": [
    "C27_insert_existing_silent_refuted",
    "C27_insert_missing_is_ignored_partial"
   ],
   "note": "REFUTED: insert of an existing element inflates the counters, forgets a root's class size, or tears a member out of its class. The _partial theorem: insert of an id outside the structure changes nothing."
  },
  {
   "property": "C28",
   "status": "proved",
   "theorems": [
    "C28_members_are_the_inserted_elements",
    "C28_insert_and_exists",
    "C28_same_set_is_generated_equivalence",
    "C28_join_sets_reports_merge",
    "C28_find_by_elem_canonical",
    "C28_size_of_is_class_size",
    "C28_disjoint_counts_classes"
   ],
   "note": ""
  },
  {
   "property": "C29",
   "status": "partial",
   "theorems": [
    "C29_ids_accepted_refuted",
    "C29_ids_partial"
   ],
   "note": "REFUTED: the id-level members test the id as if it were an element; find(id) can read outside the arrays and handed-out ids are reported missing. The _partial theorem says exactly when find(id) is undefined and that the id API agrees with the element API when the elements are the ids."
  },
  {
   "property": "C30",
   "status": "partial",
   "theorems": [
    "C30_acorn_counts_root_sets_refuted",
    "C30_acorn_is_element_count_partial"
   ],
   "note": "REFUTED: acorn() does not shrink on join; the _partial theorem says it is the number of elements after every history."
  },
  {
   "property": "C31",
   "status": "proved",
   "theorems": [
    "C31_set_semantics"
   ],
   "note": ""
  },
  {
   "property": "C32",
   "status": "proved",
   "theorems": [
    "C32_multiset_semantics"
   ],
   "note": ""
  },
  {
   "property": "C33",
   "status": "proved",
   "theorems": [
    "C33_in_order_sorted_and_complete"
   ],
   "note": ""
  },
  {
   "property": "C34",
   "status": "proved",
   "theorems": [
    "C34_insertions_keep_balance"
   ],
   "note": ""
  },
  {
   "property": "C35",
   "status": "proved",
   "theorems": [
    "C35_height_is_depth"
   ],
   "note": ""
  },
  {
   "property": "C36",
   "status": "partial",
   "theorems": [
    "C36_removal_keeps_balance_refuted",
    "C36_logarithmic_refuted",
    "C36_one_removal_partial"
   ],
   "note": "REFUTED: with equal grandchild heights removal does a double rotation; after 8 insertions and 2 removals the tree is unbalanced. Worse, proved for every k: 47k+4 insertions and removals of distinct values leave k+4 elements at height k+3, a list. The _partial theorem: one removal after insertions leaves at most one node off, by two, and the height does not grow."
  },
  {
   "property": "C37",
   "status": "partial",
   "theorems": [
    "C37_duplicates_keep_balance_refuted"
   ],
   "note": "REFUTED: equal values are sent right but the rotation choice uses a strict comparison; ten equal values give an unbalanced tree."
  },
  {
   "property": "C38",
   "status": "partial",
   "theorems": [
    "C38_extremes_partial",
    "C38_empty_is_reported_refuted"
   ],
   "note": "REFUTED on the empty tree (null root dereferenced). The _partial theorem covers every non-empty tree."
  },
  {
   "property": "C39",
   "status": "partial",
   "theorems": [
    "C39_remove_all_partial",
    "C39_every_reference_dangles",
    "C39_by_reference_refuted"
   ],
   "note": "REFUTED for a reference into the tree: proved that every such call ends in a dangling read. The _partial theorem covers every value stored outside the tree."
  },
  {
   "property": "C40",
   "status": "partial",
   "theorems": [
    "C40_has_parent_partial",
    "C40_copy_parents_partial",
    "C40_parent_refuted",
    "C40_parent_dangling_refuted"
   ],
   "note": "parent() is REFUTED: wrong after a rotation (the moved middle subtree keeps its old parent) and dangling after a removal. The _partial theorems: has_parent() is right in every reachable tree; parent() is right everywhere directly after a copy."
  },
  {
   "property": "C41",
   "status": "partial",
   "theorems": [
    "C41_copy_contents_partial",
    "C41_copy_height_refuted",
    "C41_copy_stays_balanced_refuted",
    "C41_assign_empty_refuted",
    "C41_self_assign_refuted"
   ],
   "note": "REFUTED: a copy reports height 1, does not stay balanced, assigning an empty tree keeps the old contents with size 0, self-assignment loses the contents. The _partial theorem: contents, shape, size, flag of a copy of any non-empty tree onto any target, and correct answers of every later history."
  },
  {
   "property": "C42",
   "status": "partial",
   "theorems": [
    "C42_move_partial",
    "C42_moved_from_size_refuted"
   ],
   "note": "REFUTED: a moved-from tree keeps size(). The _partial theorem: the target has everything, the source is empty except for size() and is correct again after clear()."
  },
  {
   "property": "C43",
   "status": "proved",
   "theorems": [
    "C43_binary_traversals",
    "C43_avl_in_order"
   ],
   "note": "Calls and counts of the three binary traversals; also links the AVL model's in-order walk to this traversal."
  },
  {
   "property": "C44",
   "status": "proved",
   "theorems": [
    "C44_breadth_first",
    "C44_level_order_complete",
    "C44_C45_binary"
   ],
   "note": "For every tree, arity and stateful callback; also over binary nodes and for the empty tree."
  },
  {
   "property": "C45",
   "status": "proved",
   "theorems": [
    "C45_depth_first",
    "C45_binary_pre_order"
   ],
   "note": "For every tree, arity and stateful callback; also over binary nodes and for the empty tree."
  },
  {
   "property": "C46",
   "status": "partial",
   "theorems": [
    "C46_binary_stop_refuted",
    "C46_binary_calls_partial",
    "C46_binary_pruning_partial"
   ],
   "note": "REFUTED: in_order only skips the right subtree, pre_order only prunes the subtree, pos_order ignores the answer. The _partial theorems: calls are an ordered part of the full walk and are counted right; for callbacks on the node alone, exactly which nodes are called."
  },
  {
   "property": "C47",
   "status": "proved",
   "theorems": [
    "C47_kary_traversals",
    "C47_calls_per_node"
   ],
   "note": "in_order assumes that slot counts are below 2^64 (they are size_t)."
  },
  {
   "property": "C48",
   "status": "proved",
   "theorems": [
    "C48_never_too_many_children",
    "C48_full_node_refuses",
    "C48_add_child"
   ],
   "note": "All programs over any number of owned nodes; replace_at with an out-of-range position is excluded (undefined, see C50)."
  },
  {
   "property": "C49",
   "status": "proved",
   "theorems": [
    "C49_owned_exactly_once"
   ],
   "note": "All programs over any number of owned nodes; replace_at with an out-of-range position is excluded (undefined, see C50)."
  },
  {
   "property": "C50",
   "status": "partial",
   "theorems": [
    "C50_insert_at_refuses_partial",
    "C50_replace_at_refuted",
    "C50_replace_at_always_out_of_bounds"
   ],
   "note": "Proved for insert_at. REFUTED for replace_at: it always writes out of bounds for such positions."
  },
  {
   "property": "C51",
   "status": "proved",
   "theorems": [
    "C51_insert_at",
    "C51_replace_at",
    "C51_extract_child",
    "C51_delete_child",
    "C51_child_and_has_child",
    "C51_children_count",
    "C51_find",
    "C51_first",
    "C51_last"
   ],
   "note": "All slot operations and queries, with what must not change."
  },
  {
   "property": "C52",
   "status": "partial",
   "theorems": [
    "C52_copy_from_another_tree_partial",
    "C52_copy_constructor",
    "C52_move_from_another_tree_partial",
    "C52_self_assignment_drops_children",
    "C52_assignment_from_descendant_is_UB",
    "C52_assignment_to_left_child_never_ends",
    "C52_self_move_drops_children_and_parent",
    "C52_move_from_descendant_is_UB",
    "C52_aliasing_is_safe_refuted"
   ],
   "note": "Copy and move assignment and construction are right when source and target are in disjoint trees. Aliasing is not safe: n = n drops the children, assigning or moving from a descendant reads deleted memory, n.left() = n never ends, moving from itself drops children and parent; each is proved for every such tree and witnessed by the refutation."
  },
  {
   "property": "C53",
   "status": "partial",
   "theorems": [
    "C53_double_free_refuted",
    "C53_assignment_leaks_refuted",
    "C53_assignment_always_leaks",
    "C53_copy_partial",
    "C53_move_partial"
   ],
   "note": "REFUTED: a copy of a tree whose root has a child is released twice; copy assignment over a tree leaks it. The _partial theorems: exactly when copying is right, and moves into an empty tree."
  },
  {
   "property": "C54",
   "status": "partial",
   "theorems": [
    "C54_parent_inverts_children",
    "C54_parent_inverts_all_positions_refuted",
    "C54_children_are_distinct",
    "C54_every_position_is_a_child",
    "C54_level_order",
    "C54_one_path_each",
    "C54_swap_with_parent",
    "C54_swap_outside",
    "C54_swap_with_children",
    "C54_swap_with_child_of_no_element_refuted",
    "C54_set_left_partial",
    "C54_set_right_partial",
    "C54_set_at_boundary_throws",
    "C54_set_child_refuted",
    "C54_root_head_tail"
   ],
   "note": "Parent/child arithmetic for every position whose children fit in 64 bits (the first one beyond is refuted), one path from the root to every position, the swaps exchange exactly two elements; set_left/set_right proved where the position has an element; setting a child of a position without one is refuted (grows the array by the wrong amount or throws). height_of: C117."
  },
  {
   "property": "C55",
   "status": "proved",
   "theorems": [
    "C55_query_is_the_fold",
    "C55_sum",
    "C55_multiplication",
    "C55_min",
    "C55_max"
   ],
   "note": "For every transform with associative join and no updates; the size computation of the code (floating point) is a parameter that must satisfy enough. Corollaries for the four ready-made trees over size_t."
  },
  {
   "property": "C56",
   "status": "proved",
   "theorems": [
    "C56_lazy_is_eager",
    "C56_range_add_is_lawful",
    "C56_range_set_is_lawful"
   ],
   "note": "For every transform obeying the laws written in SegmentSpec.v and every history of builds, updates and queries; two concrete transforms are shown to obey them."
  },
  {
   "property": "C57",
   "status": "proved",
   "theorems": [
    "C57_accesses_in_bounds",
    "C57_four_n_is_enough",
    "C57_rounding",
    "C57_monotone",
    "C57_no_room",
    "C57_four_is_least"
   ],
   "note": "Every access of every history is in bounds (it would be UB); the allocation is what the size computation says. Any computation of 4n with a relative error up to 2^-31 is enough for all sizes below 2^60; exact set of cells taken, undefined without room for one of them; no factor below four is enough."
  },
  {
   "property": "C58",
   "status": "proved",
   "theorems": [
    "C58_symmetric",
    "C58_clamps"
   ],
   "note": "For every tree, transform and argument (clamping: for every non-empty size below 2^64)."
  },
  {
   "property": "C59",
   "status": "partial",
   "theorems": [
    "C59_rebuild_forgets_partial",
    "C59_rebuild_empty_forgets_refuted"
   ],
   "note": "Proved for rebuilds from a non-empty vector; false for the empty one: the old contents keep answering (what exactly happens then: C152)."
  },
  {
   "property": "C60",
   "status": "partial",
   "theorems": [
    "C60_unbuilt_throws_partial",
    "C60_const_head_throws_refuted"
   ],
   "note": "query, query_update and the non-const head throw in every never-built state; the const head reads out of bounds (refuted)."
  },
  {
   "property": "C61",
   "status": "partial",
   "theorems": [
    "C61_never_wrong_partial",
    "C61_found_first_partial",
    "C61_found_second_partial",
    "C61_found_halving_partial",
    "C61_found_short_partial",
    "C61_late_gap_is_UB",
    "C61_nothing_missing_is_UB",
    "C61_always_found_refuted"
   ],
   "note": "Any returned answer is the missing term. It is found at the first two positions, at the positions the halving passes and in all sequences of up to 4 elements; from 5 elements on, a gap in about the last quarter always reads beyond the end (refuted)."
  },
  {
   "property": "C62",
   "status": "partial",
   "theorems": [
    "C62_never_wrong_partial",
    "C62_found_first_partial",
    "C62_found_halving_partial",
    "C62_found_short_partial",
    "C62_late_gap_is_UB",
    "C62_always_found_refuted"
   ],
   "note": "As C61, with std::pow assumed exact on the terms."
  },
  {
   "property": "C63",
   "status": "partial",
   "theorems": [
    "C63_missing_of_range_partial",
    "C63_range_up_to_the_largest_int_is_UB",
    "C63_every_range_refuted"
   ],
   "note": "Proved for ranges that do not end at the largest int; for those the loop overflows (refuted)."
  },
  {
   "property": "C64",
   "status": "partial",
   "theorems": [
    "C64_not_common_partial",
    "C64_empty_first_list_refuted"
   ],
   "note": "Proved for a non-empty first list; the empty one is read out of bounds (refuted)."
  },
  {
   "property": "C65",
   "status": "proved",
   "theorems": [
    "C65_non_repeated"
   ],
   "note": ""
  },
  {
   "property": "C66",
   "status": "proved",
   "theorems": [
    "C66_longest_zero_sum",
    "C66_every_answer"
   ],
   "note": "For sequences whose sum of absolute values fits the type; every answer given is right in any case."
  },
  {
   "property": "C67",
   "status": "partial",
   "theorems": [
    "C67_some_part_partial",
    "C67_longest_refuted"
   ],
   "note": "The answer is the length of some part with the sum, 0 only if there is none, and at least the longest prefix. Not the longest in general (refuted, also for positive elements)."
  },
  {
   "property": "C68",
   "status": "partial",
   "theorems": [
    "C68_doubled_first_partial",
    "C68_right_partial",
    "C68_error_partial",
    "C68_empty",
    "C68_greatest_refuted"
   ],
   "note": "The first element is added twice: the answer is the greatest sum of the sequence with a positive first element doubled. Right for a non-positive first element, otherwise refuted."
  },
  {
   "property": "C69",
   "status": "proved",
   "theorems": [
    "C69_counts"
   ],
   "note": "For sums that fit the type, in both evaluation orders."
  },
  {
   "property": "C70",
   "status": "proved",
   "theorems": [
    "C70_shared_cache",
    "C70_other_sequence_is_wrong"
   ],
   "note": "For a cache that is new at the first call and used with one sequence only; another sequence gets wrong answers, shown as a theorem."
  },
  {
   "property": "C71",
   "status": "proved",
   "theorems": [
    "C71_gcd"
   ],
   "note": "All 64-bit pairs, with the loop bound; gcd(0,0)=0."
  },
  {
   "property": "C72",
   "status": "partial",
   "theorems": [
    "C72_proper_divisors_partial",
    "C72_nothing_for_primes",
    "C72_zero",
    "C72_all_divisors_refuted"
   ],
   "note": "REFUTED as stated: 1 and n are never returned. The _partial theorem says exactly what is: the divisors other than 1 and n, once each, ascending when sorted. Takes the integer part of std::sqrt as a parameter with the property square_root, which C135 derives from IEEE arithmetic."
  },
  {
   "property": "C73",
   "status": "proved",
   "theorems": [
    "C73_round_trip",
    "C73_first_match",
    "C73_unknown"
   ],
   "note": "Every signed underlying type up to 64 bits, every naming; unknown names give the maximum, the first match wins."
  },
  {
   "property": "C74",
   "status": "partial",
   "theorems": [
    "C74_maximal_runs",
    "C74_meaning",
    "C74_shipped_filters_partial",
    "C74_shipped_filters_refuted"
   ],
   "note": "Maximal runs for every total filter and every input. REFUTED for the shipped filters by the C standard alone where char is signed (negative values passed to isalpha etc.); the _partial theorem covers unsigned char or a library that accepts them (glibc). \"C\" locale."
  },
  {
   "property": "C75",
   "status": "partial",
   "theorems": [
    "C75_round_trip_partial",
    "C75_unterminated_partial",
    "C75_too_many_fields",
    "C75_bad_field_throws",
    "C75_offset",
    "C75_offset_beyond_the_end",
    "C75_no_file",
    "C75_nothing_lost",
    "C75_empty_last_field_refuted"
   ],
   "note": "Round trip for all tables whose fields contain neither separator nor newline and whose rows do not end in an empty field; REFUTED for an empty last field, which is lost. Offset, missing file, too many fields, failing conversions for every file."
  },
  {
   "property": "C76",
   "status": "partial",
   "theorems": [
    "C76_text",
    "C76_int_field",
    "C76_double_field_partial",
    "C76_default_field_partial",
    "C76_numerals",
    "C76_str_field_is_UB",
    "C76_numbers_refuted"
   ],
   "note": "Text right for every type, numbers right for INT, get_double for DOUBLE. REFUTED: a STR field has uninitialised numbers, a DOUBLE field casts NaN to int. stod is a parameter; stoi is modelled."
  },
  {
   "property": "C77",
   "status": "partial",
   "theorems": [
    "C77_in_range_partial",
    "C77_every_number",
    "C77_characters",
    "C77_strings",
    "C77_every_string",
    "C77_empty_range_is_UB",
    "C77_every_range_refuted"
   ],
   "note": "For arbitrary generator output. REFUTED where the range exceeds the generator's or the requested type; the _partial theorem covers all ranges that fit. An empty range is undefined. next_random_double: C136."
  },
  {
   "property": "C78",
   "status": "partial",
   "theorems": [
    "C78_sum_partial",
    "C78_sum_never_wrong",
    "C78_product_partial",
    "C78_product_never_wrong",
    "C78_unsigned",
    "C78_minimum",
    "C78_maximum",
    "C78_reverse_partial",
    "C78_sum_refuted",
    "C78_division_undone_refuted",
    "C78_null_values",
    "C78_null_value_of_class_refuted"
   ],
   "note": "Sum and product equal the fold when the partial results from the right fit, and are never wrong when defined; unsigned sums wrap. REFUTED: a total that fits can overflow on the way; integer division is not undone by multiplication; null values of class types."
  },
  {
   "property": "C79",
   "status": "partial",
   "theorems": [
    "C79_bounded_partial",
    "C79_deleted_once_partial",
    "C79_undo_is_UB",
    "C79_store_is_UB",
    "C79_undo_redo_refuted",
    "C79_stored_twice_refuted"
   ],
   "note": "REFUTED: undo after any store takes from the empty deque (proved for every program), redo only ever answers null, a command stored twice is deleted twice, and store has no return statement, so strictly every call of it is undefined. The _partial theorems: where the missing return is harmless, at most 1024 commands are kept, the oldest go first, each distinct command is deleted exactly once."
  },
  {
   "property": "C80",
   "status": "proved",
   "theorems": [
    "C80_resource_bound"
   ],
   "note": "Any number of threads, every interleaving; also bounds what they hold together."
  },
  {
   "property": "C81",
   "status": "proved",
   "theorems": [
    "C81_linearizable",
    "C81_accounting",
    "C81_never_negative"
   ],
   "note": "Linearizability against a plain counter, with what each answer then means."
  },
  {
   "property": "C82",
   "status": "proved",
   "theorems": [
    "C82_no_lost_wakeup",
    "C82_mutex_is_released",
    "C82_no_deadlock"
   ],
   "note": "The waiting thread needs no notification, the mutex is always given back, no deadlock. Fairness among several waiting threads is not claimed by the code and not proved."
  },
  {
   "property": "C83",
   "status": "partial",
   "theorems": [
    "C83_throws_partial",
    "C83_throws_only_then",
    "C83_waits_for_ever_refuted"
   ],
   "note": "A call of lock that finds no resources throws, and only such a call. REFUTED for a thread that already waits when the number becomes 0: it stays in lock for ever."
  },
  {
   "property": "C84",
   "status": "proved",
   "theorems": [
    "C84_admission",
    "C84_others_keep_it"
   ],
   "note": "Admission only below the current number; setting the number changes nothing else."
  },
  {
   "property": "C85",
   "status": "proved",
   "theorems": [
    "C85_fifo",
    "C85_in_order",
    "C85_at_most_once",
    "C85_size"
   ],
   "note": "Any number of producers, every interleaving, FIFO container; conservation for any container policy; size() is received less gone."
  },
  {
   "property": "C86",
   "status": "partial",
   "theorems": [
    "C86_stop_loses_refuted",
    "C86_last_look_partial",
    "C86_stop_serves_partial"
   ],
   "note": "REFUTED: a message received after the worker's last look at the queue and before it reads the stop flag stays in the queue though its receive_message returned before stop() was called. The _partial theorems: that window is the only one, all else received is processed."
  },
  {
   "property": "C87",
   "status": "partial",
   "theorems": [
    "C87_drops_later_refuted",
    "C87_on_request_partial",
    "C87_once_per_call",
    "C87_prompt",
    "C87_all_gone"
   ],
   "note": "REFUTED: a message received after discard_messages() returned can be dropped with the earlier ones. Proved: dropped only on request, at most one clearing per call, at most one more message processed before it, nothing left after it."
  },
  {
   "property": "C88",
   "status": "proved",
   "theorems": [
    "C88_life",
    "C88_message_between",
    "C88_once",
    "C88_no_accident"
   ],
   "note": "Per life of the worker (start to end); also across restarts. The run-twice exception and an empty pop never happen."
  },
  {
   "property": "C89",
   "status": "proved",
   "theorems": [
    "C89_greatest_first"
   ],
   "note": "For every policy that selects a greatest element, as std::priority_queue does."
  },
  {
   "property": "C90",
   "status": "partial",
   "theorems": [
    "C90_answers",
    "C90_join_returns",
    "C90_start_again_refuted",
    "C90_code_clash_refuted"
   ],
   "note": "For any calls of one owner and any result of run(). Refuted: start() on a thread not yet joined ends the program; run() returning -100 looks like running for ever."
  },
  {
   "property": "C91",
   "status": "proved",
   "theorems": [
    "C91_called_after",
    "C91_exit_code",
    "C91_answer"
   ],
   "note": "Until the next start; the exit code is what the callback returned last, 0 without a callback."
  },
  {
   "property": "C92",
   "status": "proved",
   "theorems": [
    "C92_apart",
    "C92_remaining"
   ],
   "note": "Counted from the return of the callback before, on_start or the start; histories without set_interval and notify. Nanosecond clock that only grows."
  },
  {
   "property": "C93",
   "status": "partial",
   "theorems": [
    "C93_stop_partial",
    "C93_join",
    "C93_stop_lost_refuted"
   ],
   "note": "Refuted: stop() is lost in two windows. Proved: outside them at most one further callback, and the thread ends by itself within a period if its callback returns; stop(true) returns only after the thread ended."
  },
  {
   "property": "C94",
   "status": "partial",
   "theorems": [
    "C94_thread_partial",
    "C94_cycles_partial",
    "C94_once_refuted"
   ],
   "note": "Refuted: stop() and the thread both call on_stop. Proved: the thread itself calls on_start and on_stop once per cycle."
  },
  {
   "property": "C95",
   "status": "partial",
   "theorems": [
    "C95_update_by_own_reference_refuted",
    "C95_update_by_earlier_reference_partial"
   ],
   "note": "REFUTED: update with a reference to one of the tree's own cells uses a value that changes during the loop. The _partial theorem: a reference to a cell before the updated position is harmless."
  },
  {
   "property": "C96",
   "status": "proved",
   "theorems": [
    "C96_compression_unobservable",
    "C96_compression_unobservable_elements"
   ],
   "note": ""
  },
  {
   "property": "C97",
   "status": "partial",
   "theorems": [
    "C97_kary_stop_refuted",
    "C97_kary_calls_partial"
   ],
   "note": "REFUTED for pre_order, pos_order, and in_order on nodes without slots. The _partial theorem: calls are an ordered part of the full walk and in_order stops for good after a true on a node with slots."
  },
  {
   "property": "C98",
   "status": "proved",
   "theorems": [
    "C98_parent_links"
   ],
   "note": "All programs over any number of owned nodes; replace_at with an out-of-range position is excluded (undefined, see C50)."
  },
  {
   "property": "C99",
   "status": "partial",
   "theorems": [
    "C99_add_refuses_taken_side",
    "C99_add_to_free_side",
    "C99_delete_child_by_side",
    "C99_delete_child_by_index_partial",
    "C99_delete_child_by_index_refuted",
    "C99_swap_exchanges_values",
    "C99_swap_without_child",
    "C99_clear_and_delete"
   ],
   "note": "Everything holds except delete_child(index) for indices from 2^32 on, where the cast to the enumeration truncates: index 2^32 deletes the left child."
  },
  {
   "property": "C100",
   "status": "partial",
   "theorems": [
    "C100_criteria_is_honoured_refuted",
    "C100_criteria_partial"
   ],
   "note": "False: a node without pending update takes the change whatever the criteria says. The partial theorem covers transforms whose apply is right for such nodes."
  },
  {
   "property": "C101",
   "status": "partial",
   "theorems": [
    "C101_never_wrong_partial",
    "C101_found_first_partial",
    "C101_found_middle_partial",
    "C101_left_half_never_found",
    "C101_always_found_refuted"
   ],
   "note": "Over exact rationals. Any returned answer is right; a gap in the middle or directly after the first term is found; a gap in the left half behind that never is (refuted)."
  },
  {
   "property": "C102",
   "status": "partial",
   "theorems": [
    "C102_races_partial",
    "C102_race_free_refuted"
   ],
   "note": "REFUTED: max_count() reads without the mutex while set_available_resources writes. The _partial theorem: that is the only race."
  },
  {
   "property": "C103",
   "status": "partial",
   "theorems": [
    "C103_look_races_refuted",
    "C103_is_running_races_refuted",
    "C103_races_partial"
   ],
   "note": "REFUTED: the worker reads _queue.empty() without the mutex, and is_running() reads _running and _exit_code unsynchronised. The _partial theorem: there is no other race."
  },
  {
   "property": "C104",
   "status": "proved",
   "theorems": [
    "C104_stop_ends",
    "C104_mutex_is_released"
   ],
   "note": "By its own steps only, from every reachable state in which no caller holds the mutex; callers release it within two steps."
  },
  {
   "property": "C105",
   "status": "partial",
   "theorems": [
    "C105_races_refuted",
    "C105_races_partial"
   ],
   "note": "Refuted for exit_code() and is_running() while run() ends; proved that only calls while the thread runs can race."
  },
  {
   "property": "C106",
   "status": "partial",
   "theorems": [
    "C106_races_refuted",
    "C106_thread_partial",
    "C106_callers_partial",
    "C106_start_partial"
   ],
   "note": "Refuted for set_interval() and is_running(); proved that there are no other races."
  },
  {
   "property": "C107",
   "status": "partial",
   "theorems": [
    "C107_destroy_refuted",
    "C107_destroy_partial",
    "C107_returns_partial",
    "C107_hooks_partial"
   ],
   "note": "Refuted; proved that it is the only way: destroyed while its thread runs or started afterwards."
  },
  {
   "property": "C108",
   "status": "partial",
   "theorems": [
    "C108_construct",
    "C108_assign",
    "C108_move_refuted"
   ],
   "note": "Refuted: built from an rvalue of the wrapped type it copies, the source keeps its content. The rest proved."
  },
  {
   "property": "C109",
   "status": "partial",
   "theorems": [
    "C109_false",
    "C109_true_partial",
    "C109_true_refuted",
    "C109_false_refuted"
   ],
   "note": "False proved; true proved except when the callback returns -100, the code that marks a running thread (refuted with a witness); false right after start() or stop(false) although a call of the function follows (refuted reading)."
  },
  {
   "property": "C110",
   "status": "proved",
   "theorems": [
    "C110_apart",
    "C110_wait",
    "C110_adopted",
    "C110_in_callback"
   ],
   "note": "Proved for every history of set_interval and notify."
  },
  {
   "property": "C111",
   "status": "partial",
   "theorems": [
    "C111_notify_partial",
    "C111_lost_refuted"
   ],
   "note": "Proved while the thread sleeps (it is then able to call at once); refuted when notify() comes just before the wait or during the callback: _forced_awaken is not looked at before waiting and is cleared after the callback."
  },
  {
   "property": "C112",
   "status": "partial",
   "theorems": [
    "C112_answer",
    "C112_ready_refuted"
   ],
   "note": "The first part proved exactly; the second refuted: true although the worker will not look at the queue any more."
  },
  {
   "property": "C113",
   "status": "partial",
   "theorems": [
    "C113_restart_refuted",
    "C113_one_pass_partial",
    "C113_no_more_partial"
   ],
   "note": "Refuted: _stopped is never reset. Proved what happens instead: exactly one pass per later start, and nothing is taken after it."
  },
  {
   "property": "C114",
   "status": "partial",
   "theorems": [
    "C114_safe",
    "C114_safe_returns",
    "C114_safe_loses_refuted",
    "C114_safe_serves_partial",
    "C114_unsafe_refuted",
    "C114_no_on_stop_refuted",
    "C114_broken_only_partial"
   ],
   "note": "Safe with safe_delete(), and it returns; a message that arrives in the window of C86 is lost (refuted), all others are processed. Without safe_delete() refuted: pure virtual call; only if the thread runs and a message is pending."
  },
  {
   "property": "C115",
   "status": "partial",
   "theorems": [
    "C115_alone",
    "C115_ends",
    "C115_cut_off_refuted",
    "C115_goes_on_refuted",
    "C115_race_refuted",
    "C115_undisturbed_partial",
    "C115_complete_partial"
   ],
   "note": "Refuted: a nested or parallel traversal that is stopped cuts off another one, one that begins revives a stopped one, and there is always a data race. Proved: ends in any case; without a true answer, and accesses taken one at a time, every traversal is as if alone."
  },
  {
   "property": "C116",
   "status": "partial",
   "theorems": [
    "C116_difference",
    "C116_elapsed",
    "C116_later",
    "C116_laps",
    "C116_laps_exact_refuted",
    "C116_not_negative_refuted",
    "C116_same_refuted"
   ],
   "note": "Proved for a clock that is not behind the last reset: difference is the number of whole units, elapsed that number rounded to a double, later answers not smaller, laps add up within a unit per lap. Refuted: negative answers if the clock is set back (high_resolution_clock may be), laps are not exact, elapsed differs from difference above 2^53 units."
  },
  {
   "property": "C117",
   "status": "partial",
   "theorems": [
    "C117_height_partial",
    "C117_leftmost_too_small",
    "C117_height_refuted"
   ],
   "note": "Proved for every node whose path from the root turns right at least once; refuted otherwise: the leftmost node of every level gets the height of the level above, and height_of(0) converts minus infinity to size_t. The logarithm is a parameter assumed right below 2^40."
  },
  {
   "property": "C118",
   "status": "partial",
   "theorems": [
    "C118_returning_calls",
    "C118_program_without_exceptions",
    "C118_only_faults_throw",
    "C118_first_point_partial",
    "C118_one_key_affected",
    "C118_hook_retry",
    "C118_clear_repairs",
    "C118_find_dangles",
    "C118_add_lost",
    "C118_discard_lost",
    "C118_usable_after_exception_refuted"
   ],
   "note": "Calls that return do what the model without exceptions says; an exception at the first point changes nothing; at most one key is affected by any exception; after a throwing hook clip() finishes the job (the key is reported twice); clear() always repairs. Refuted: find/operator[] that throw while moving a key leave a dangling iterator (every later use of the key is undefined), add that throws at the map leaves an unremovable key, a throwing hook leaves one key too many. Hash and equality are assumed not to throw."
  },
  {
   "property": "C119",
   "status": "partial",
   "theorems": [
    "C119_any_capacity_partial",
    "C119_reserve_fails",
    "C119_unlimited_is_undefined",
    "C119_every_capacity_refuted"
   ],
   "note": "Proved for capacities below 2^58 for any double arithmetic with the range given in computed; a reserve that throws changes nothing visible (and is skipped when the call is repeated). Refuted from 2^59 on, for instance for numeric_limits<size_t>::max(): undefined conversion."
  },
  {
   "property": "C120",
   "status": "partial",
   "theorems": [
    "C120_reading_hooks",
    "C120_modest_hooks_partial",
    "C120_putting_back_never_returns",
    "C120_clearing_is_undefined",
    "C120_adding_another_key",
    "C120_any_hook_refuted",
    "C120_index_refuted"
   ],
   "note": "Hooks that only look change nothing; hooks that also find and remove keep everything but operator[] (refuted: the new key may be removed). Refuted for every full cache: a hook that adds the key back or calls clip never returns, one that clears is undefined, one that adds another key loses a third key that is still claimed to be there."
  },
  {
   "property": "C121",
   "status": "partial",
   "theorems": [
    "C121_as_another_thread",
    "C121_fifo",
    "C121_no_deadlock",
    "C121_own_messages",
    "C121_stop_in_hook",
    "C121_discard_in_hook",
    "C121_stop_ends",
    "C121_goes_on",
    "C121_sent_by_on_stop_refuted",
    "C121_resend_goes_on_refuted",
    "C121_exception_refuted"
   ],
   "note": "Proved: looks as if another thread made the calls (so C85-C89 hold), no self-deadlock, messages of on_start and on_new_message are processed, stop() in them loses nothing, discard_messages() takes effect at once, stop() ends the thread if messages dwindle. Refuted: what on_stop sends is not processed; hooks that resend never end; an exception ends the program."
  },
  {
   "property": "C122",
   "status": "partial",
   "theorems": [
    "C122_as_another_thread",
    "C122_stop_in_callback",
    "C122_hooks_return",
    "C122_stop_ends",
    "C122_exit_code",
    "C122_stop_in_on_start_refuted",
    "C122_stop_true_refuted",
    "C122_stop_in_on_stop_refuted"
   ],
   "note": "Proved: executions with hooks are executions of the timer with further threads (so C91-C94 and the others hold), a stop() in the callback is never lost (unlike C93), no callback follows and the thread ends by itself without waiting; hooks that do not throw and whose on_stop does not call stop() return. Refuted: stop() in on_start is lost; stop(true) in the callback joins itself and throws; stop() in on_stop recurses until the stack is full, whatever its depth."
  },
  {
   "property": "C123",
   "status": "partial",
   "theorems": [
    "C123_histories",
    "C123_returning_calls",
    "C123_only_faults_throw",
    "C123_insert_without_throwing_comparisons",
    "C123_insert_changes_nothing_refuted",
    "C123_remove_changes_nothing_refuted",
    "C123_throwing_comparisons_make_a_list",
    "C123_balance_refuted"
   ],
   "note": "Proved: for every history with exceptions at any points, no undefined behaviour, contents sorted, size() right, every answer right, and exactly what a throwing call may have done to the contents (insert: nothing or the value went in; remove: nothing or one occurrence was overwritten by a second copy of a greater value, the next one if there are no duplicates); a returning call is the call of C31-C42; insert has no effect when it throws if comparing cannot throw. Refuted: that a throwing insert or remove changes nothing, and that balance and height() survive (a list of any length with height() = 3)."
  },
  {
   "property": "C124",
   "status": "partial",
   "theorems": [
    "C124_copy_assignment",
    "C124_target_stays_valid_refuted"
   ],
   "note": "Proved: a returning copy assignment is that of C41; a throwing one leaves the target untouched or with a partial copy whose root holds a default value, under the target's old size and flag. Refuted: that the target stays valid."
  },
  {
   "property": "C125",
   "status": "partial",
   "theorems": [
    "C125_what_invalidates",
    "C125_never_valid_again",
    "C125_find_answers_the_front",
    "C125_valid_while_present_refuted"
   ],
   "note": "Exactly which calls invalidate an iterator, for every reachable cache and call; refuted: it lives as long as its key is in the cache, as find() and operator[] move a key that is not in front to a new node."
  },
  {
   "property": "C126",
   "status": "partial",
   "theorems": [
    "C126_const_loops",
    "C126_const_reversed_loops",
    "C126_loops_that_add",
    "C126_loops_that_look_up",
    "C126_loops_that_remove",
    "C126_reversed_loops_that_look_up",
    "C126_every_key_once_refuted",
    "C126_loops_that_add_refuted"
   ],
   "note": "Loops with const bodies and with additions that fit visit every key once; refuted: forward loops that look keys up (undefined for two keys or more), that remove, or that add to a full cache; a reverse loop that looks keys up never meets the second last key, for every cache with two keys or more."
  },
  {
   "property": "C127",
   "status": "partial",
   "theorems": [
    "C127_programs",
    "C127_start",
    "C127_no_leak",
    "C127_child_then_parent",
    "C127_parent_then_child",
    "C127_children_or_exception",
    "C127_parent_or_exception",
    "C127_climbing",
    "C127_moving_from_a_child_refuted"
   ],
   "note": "Every program that respects the contract runs without undefined behaviour against a forest specification; navigation is consistent in every heap it can reach. Refuted without the contract: after moving from a child, the child is still owned by its parent but says it has none."
  },
  {
   "property": "C128",
   "status": "partial",
   "theorems": [
    "C128_own_node",
    "C128_own_node_no_adding",
    "C128_own_node_values",
    "C128_pre_order",
    "C128_in_order",
    "C128_breadth_first",
    "C128_depth_first",
    "C128_pos_order",
    "C128_deleting_its_node",
    "C128_pre_order_pruning",
    "C128_in_order_pruning",
    "C128_breadth_first_pruning",
    "C128_depth_first_pruning",
    "C128_pre_order_values",
    "C128_in_order_values",
    "C128_breadth_first_values",
    "C128_depth_first_values",
    "C128_ends_refuted",
    "C128_deleting_its_node_refuted",
    "C128_deleting_another_node_refuted"
   ],
   "note": "Holds for every callback that changes only its own node and what is below it. Refuted beyond that: a callback that deletes its own node makes every traversal but pos_order undefined, one that deletes a node waiting in a search makes the search undefined, and one that keeps adding children ahead of the walk never ends."
  },
  {
   "property": "C129",
   "status": "partial",
   "theorems": [
    "C129_references_survive_insertions",
    "C129_removal_ends_one_reference",
    "C129_removal_with_duplicates",
    "C129_references_handed_out",
    "C129_valid_while_value_present_refuted",
    "C129_same_value_refuted"
   ],
   "note": "Proved for all histories: references survive every call that deletes nothing; a removal ends exactly one reference (without duplicates: of the removed or the next larger value, the others keep their values; with duplicates: none of a smaller value); references handed out are usable. Refuted: a reference is valid while its value is in the tree (the successor's node is deleted), and a valid reference keeps its value."
  },
  {
   "property": "C130",
   "status": "partial",
   "theorems": [
    "C130_asking_callbacks",
    "C130_inserting_callbacks_are_safe",
    "C130_all_values_seen_refuted",
    "C130_seen_once_refuted",
    "C130_ends_refuted",
    "C130_remove_own_refuted",
    "C130_remove_and_stop_refuted",
    "C130_remove_in_pos_order_refuted"
   ],
   "note": "Proved: asking callbacks leave every traversal exact; callbacks that delete nothing never make the traversal use a deleted node, and it returns the number of calls. Refuted: inserting callbacks see all values, see none twice (each of the five traversals), or end (in_order, for every number of steps); removing the own value (undefined in four traversals, also when a search is told to stop; pos_order leaves values or uses a deleted node)."
  },
  {
   "property": "C131",
   "status": "partial",
   "theorems": [
    "C131_reached_states",
    "C131_positions",
    "C131_calls_defined",
    "C131_what_invalidates",
    "C131_never_valid_again",
    "C131_spared",
    "C131_valid_while_the_child_lives_refuted"
   ],
   "note": "Proved for all programs, widths and growth policies: positions, which calls are defined, exactly which iterators each call ends, that an ended iterator never revives, and which calls keep all. Refuted: an iterator stays valid while its child is in the tree (add_child may move the vector)."
  },
  {
   "property": "C132",
   "status": "partial",
   "theorems": [
    "C132_undisturbed_loops",
    "C132_every_child_once",
    "C132_calls_on_the_child_at_hand",
    "C132_extracting_every_child",
    "C132_deleting_the_next_child",
    "C132_adding_in_the_loop",
    "C132_adding_in_a_range_for",
    "C132_breaking_the_loop",
    "C132_deleting_the_child_at_hand",
    "C132_children_can_be_deleted_in_a_loop_refuted",
    "C132_children_can_be_added_in_a_loop_refuted"
   ],
   "note": "Proved for all states and bodies: undisturbed loops see every slot once in order; calls on the child at hand, extracting all and deleting the next child are fine; exact outcome of adding in a loop; deleting the child at hand is undefined for every node with a slot. Refuted: deleting or adding children in loops is safe."
  },
  {
   "property": "C133",
   "status": "partial",
   "theorems": [
    "C133_callbacks",
    "C133_extracting_callback",
    "C133_pre_order",
    "C133_searches",
    "C133_in_order",
    "C133_pos_order",
    "C133_pos_order_any_callback",
    "C133_no_new_nodes",
    "C133_no_new_nodes_searches",
    "C133_no_new_nodes_in_order",
    "C133_in_order_defined",
    "C133_setting_values",
    "C133_taking_nodes_out",
    "C133_deleting_nodes",
    "C133_pos_order_may_delete_refuted",
    "C133_growing",
    "C133_traversals_end_refuted",
    "C133_in_order_may_add_refuted"
   ],
   "note": "All five traversals with state-changing callbacks, in terms of walks over the changing tree; exact orders for value changes, termination for callbacks that add no nodes, pos_order always ends. Refuted: termination in general, adding during in_order, delete_child of the own node during pos_order."
  },
  {
   "property": "C134",
   "status": "partial",
   "theorems": [
    "C134_programs",
    "C134_start",
    "C134_live",
    "C134_parents",
    "C134_parents_right",
    "C134_moved_parents_refuted",
    "C134_move",
    "C134_copy",
    "C134_copy_twice",
    "C134_assigning_a_value_refuted",
    "C134_copying_refuted",
    "C134_lifting_a_child_refuted"
   ],
   "note": "Programs over k-ary nodes with assignments on a heap, run exactly as the trees say and leak nothing; exact effect of every assignment that breaks the rules: lost nodes or double deletion. Refuted: assigning a value frees the children, copies can be destroyed, a child can be moved to its parent, moved children know their new parent."
  },
  {
   "property": "C135",
   "status": "partial",
   "theorems": [
    "C135_root",
    "C135_exact_root_refuted",
    "C135_rounding_refuted",
    "C135_divisors",
    "C135_primes",
    "C135_zero"
   ],
   "note": "std::sqrt over IEEE doubles (SpecFloat): defined, exact below 2^52, never below the integer root, square below n + 3072; divisors_of with it is right for every 64-bit n. Refuted: the root is always exact; its square stays within 2048 of n."
  },
  {
   "property": "C136",
   "status": "partial",
   "theorems": [
    "C136_between",
    "C136_defined",
    "C136_monotone",
    "C136_half_open_refuted"
   ],
   "note": "Over IEEE doubles, for every draw c in [0,1): the answer is between start and end, both included, monotone in c, defined under the precondition of the distribution. Refuted: end is never answered."
  },
  {
   "property": "C137",
   "status": "partial",
   "theorems": [
    "C137_doubled_partial",
    "C137_right_partial",
    "C137_integers",
    "C137_nan",
    "C137_ends_nan",
    "C137_nan_refuted",
    "C137_nearest_refuted",
    "C137_greatest_refuted"
   ],
   "note": "Over IEEE doubles: the greatest left-to-right rounded sum, with the first element doubled if positive (as C68 for integers); right for first elements that are not positive; exact for integers within 2^53; a NaN makes the search start anew. Refuted: positive first element, nearest to the exact sum, NaN."
  },
  {
   "property": "C138",
   "status": "partial",
   "theorems": [
    "C138_exact",
    "C138_defined",
    "C138_nonnegative",
    "C138_elements_refuted",
    "C138_replacement_refuted"
   ],
   "note": "Fenwick tree over a signed type, overflow is UB: defined histories answer as the list of integers; defined if all sums of neighbours fit (and differences of replacements), for non-negative elements if the total fits. Refuted: elements and asked sum fitting suffices; replacement is always possible."
  },
  {
   "property": "C139",
   "status": "partial",
   "theorems": [
    "C139_integers_partial",
    "C139_run_partial",
    "C139_query_refuted",
    "C139_set_refuted",
    "C139_negative_refuted"
   ],
   "note": "Fenwick tree over IEEE doubles: exact for integers with sums of neighbours within 2^53 (by simulation of the 54 bit tree of C138). Error bounds for other doubles are C146; three refutations show what fails."
  },
  {
   "property": "C140",
   "status": "partial",
   "theorems": [
    "C140_never_wrong",
    "C140_first",
    "C140_found",
    "C140_lost",
    "C140_integers",
    "C140_integers_lost",
    "C140_always_found_refuted",
    "C140_small_terms_refuted",
    "C140_nearest_terms_refuted"
   ],
   "note": "Over IEEE doubles with std::pow a parameter: answers are right to the last bit; exactly which gaps are found with ten elements or more, UB for all others; integers below 2^52 exact. Refuted: always found; found in the middle (terms within the tolerance); no false answers for complete sequences of nearest doubles."
  },
  {
   "property": "C141",
   "status": "partial",
   "theorems": [
    "C141_never_wrong",
    "C141_short_partial",
    "C141_halving_partial",
    "C141_wide_refuted"
   ],
   "note": "Answers are right whatever the power gives; with an exact std::pow the product in double is exact for types of up to 54 bits. Refuted for 64 bits beyond 2^53."
  },
  {
   "property": "C142",
   "status": "partial",
   "theorems": [
    "C142_isolation",
    "C142_failed_element",
    "C142_failed_element_becomes_alias",
    "C142_emplace_half_done",
    "C142_union_set_resize",
    "C142_strong_guarantee_refuted",
    "C142_sets_apart_refuted"
   ],
   "note": "Failed insertions are invisible to calls about other elements; the failed element counts as present, is undefined to ask for and becomes an alias of the next one. Refuted: the strong guarantee, and that elements never joined are in different sets."
  },
  {
   "property": "C143",
   "status": "partial",
   "theorems": [
    "C143_bracketing",
    "C143_outside",
    "C143_left_to_right_refuted"
   ],
   "note": "Any join, no updates: the brackets of an answer are a function of size and range (with updates: C149). Refuted: joined from left to right."
  },
  {
   "property": "C144",
   "status": "partial",
   "theorems": [
    "C144_exact",
    "C144_build",
    "C144_magnitudes",
    "C144_loop_suffices_refuted"
   ],
   "note": "Exact if all sums of neighbours fit. Refuted: prefix sums suffice."
  },
  {
   "property": "C145",
   "status": "partial",
   "theorems": [
    "C145_error",
    "C145_integers",
    "C145_nan",
    "C145_min",
    "C145_additive_refuted",
    "C145_min_nan_refuted"
   ],
   "note": "Error bound log2(n) * 2^-52 for sums of doubles, exact for integers up to 2^53, minima of numbers. Refuted: additivity, minima with NaN."
  },
  {
   "property": "C146",
   "status": "partial",
   "theorems": [
    "C146_error",
    "C146_own_range_refuted",
    "C146_undone_refuted"
   ],
   "note": "Error bound over all histories of builds, updates, queries and shrinking of a Fenwick tree of doubles (set_value excluded). Refuted: bound by the range itself, undoing."
  },
  {
   "property": "C147",
   "status": "proved",
   "theorems": [
    "C147_error"
   ],
   "note": "Distance of max_sum_of over doubles from the greatest exact sum, with the doubled first element of C68."
  },
  {
   "property": "C148",
   "status": "partial",
   "theorems": [
    "C148_returns",
    "C148_quiet",
    "C148_safe",
    "C148_query",
    "C148_first",
    "C148_built",
    "C148_keeps",
    "C148_update",
    "C148_rebuild",
    "C148_leftovers",
    "C148_strong_refuted",
    "C148_rebuild_refuted",
    "C148_retry_refuted"
   ],
   "note": "Returning calls are exact, nothing is undefined, throwing updates have a boundary. Refuted: strong guarantee of update and rebuild; a repeated first build is right (it adds to the leftovers)."
  },
  {
   "property": "C149",
   "status": "partial",
   "theorems": [
    "C149_histories",
    "C149_order",
    "C149_depth",
    "C149_past",
    "C149_associative",
    "C149_lawful",
    "C149_mean",
    "C149_minus",
    "C149_assign",
    "C149_elements_suffice_refuted"
   ],
   "note": "Any join, all histories with updates. Refuted: a law for the elements alone is enough."
  },
  {
   "property": "C150",
   "status": "partial",
   "theorems": [
    "C150_histories",
    "C150_returned",
    "C150_state",
    "C150_queries",
    "C150_elements",
    "C150_repair",
    "C150_mean",
    "C150_minus",
    "C150_assign",
    "C150_sum",
    "C150_min",
    "C150_agree_refuted",
    "C150_rebuild_refuted",
    "C150_clean_refuted"
   ],
   "note": "Throwing transforms as scripts of mishaps over the model of segment_tree.h; safety for all scripts, element-wise guarantees and harmless queries for operations that leave the nodes unchanged when they throw, repair by rebuild; three refuted statements name the damage (stale inner values, half-done rebuild, half-done propagate). Default construction and conversion to bool are taken not to throw."
  },
  {
   "property": "C151",
   "status": "partial",
   "theorems": [
    "C151_binary",
    "C151_kary",
    "C151_levels",
    "C151_binary_stop",
    "C151_kary_stop",
    "C151_again",
    "C151_answer_refuted"
   ],
   "note": "All eight traversals with a callback that may throw: the calls are those of the callback that answers instead, cut after the first that throws; with a callback that never answers true, the prefix of the order up to that node. Refuted: answering true stops a traversal as an exception does. Not covered: callbacks that change the tree, memory exhaustion of the queue, stack and call stack."
  },
  {
   "property": "C152",
   "status": "partial",
   "theorems": [
    "C152_histories",
    "C152_not_seen",
    "C152_next_rebuild",
    "C152_clamped_refuted"
   ],
   "note": "Full characterisation of all histories, rebuilds from nothing included, for lawful transforms. Refuted: an emptied tree clamps positions beyond the end."
  },
  {
   "property": "C153",
   "status": "partial",
   "theorems": [
    "C153_swap_returned",
    "C153_swap_quiet",
    "C153_swap_others",
    "C153_swap_threw",
    "C153_swaps_loss",
    "C153_sets",
    "C153_swap_strong_refuted",
    "C153_swap_copies_refuted",
    "C153_set_strong_refuted"
   ],
   "note": "All calls with exceptions at any element operation. Refuted: swaps that throw keep the elements (strong guarantee), stores that throw keep the size. Simplified: resize has the strong guarantee; stores for positions below 2^61."
  },
  {
   "property": "C154",
   "status": "partial",
   "theorems": [
    "C154_single_owner",
    "C154_all_deleted",
    "C154_outcomes",
    "C154_copied",
    "C154_assigned",
    "C154_lost",
    "C154_itself",
    "C154_copies_are_independent_refuted",
    "C154_assignment_deletes_refuted",
    "C154_moves_refuted"
   ],
   "note": "Proved for every program over any number of managers (New, calls, copies or moves, assignments, ends), where the missing return of store does nothing. Without copies and undo: defined, each command deleted once. A copied or assigned command makes every execution that ends both managers undefined; assignments leak what the target held. Refuted: independent copies, assignments that delete, moves that give away."
  },
  {
   "property": "C155",
   "status": "partial",
   "theorems": [
    "C155_strict_weak",
    "C155_objects",
    "C155_empty",
    "C155_slots",
    "C155_no_slot",
    "C155_as_objects",
    "C155_defined",
    "C155_undefined",
    "C155_others",
    "C155_twice",
    "C155_greatest_first",
    "C155_changes_refuted",
    "C155_null_refuted"
   ],
   "note": "Proved for every order, memory and any computation that only compares elements: pointers are ordered and handled as their objects, undefined exactly if an empty or dangling pointer is compared; greatest object first in every interleaving of the message queue with unchanging objects. Refuted: a waiting message keeps its place when its object changes; empty pointers have a place."
  }
 ]
}