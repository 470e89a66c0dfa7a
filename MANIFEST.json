{
 "claims": [
  {
   "property": "C01",
   "status": "proved",
   "theorems": [
    "C01_returns_fixpoint",
    "C01_returns_greatest",
    "C01_terminates",
    "C01_pass_bound"
   ],
   "note": "Any graph, node order, lattice and initial storage; termination for every well-founded lattice, with an explicit bound on the number of passes for lattices of finite height."
  },
  {
   "property": "C02",
   "status": "proved",
   "theorems": [
    "C02_single_pass",
    "C02_order",
    "C02_unique"
   ],
   "note": "Acyclic graphs with arbitrary transfer functions; evaluation order, equations, and uniqueness of the solution. llvm::po_iterator is modelled as recursive depth-first search."
  },
  {
   "property": "C03",
   "status": "proved",
   "theorems": [
    "C03_found_is_back_edge",
    "C03_exact",
    "C03_isDAG"
   ],
   "note": "Exact for all finite graphs; the search always finishes."
  },
  {
   "property": "C04",
   "status": "partial",
   "theorems": [
    "C04_acyclic_region_partial",
    "C04_always_single_pass",
    "C04_cyclic_region_refuted"
   ],
   "note": "False of the code: the acyclicity test walks against the flow from a node without incoming data, so the single pass is always selected (proved) and an irreducible region gets values that violate the equations (refuted). Proved for acyclic regions."
  },
  {
   "property": "C05",
   "status": "partial",
   "theorems": [
    "C05_insert_bytes",
    "C05_history",
    "C05_flag_grew_partial",
    "C05_flag_exact_refuted",
    "C05_iterator_refuted",
    "C05_copy"
   ],
   "note": "Bytes after insertion are exact for any set, order and history (byte ranges and array sections). The flag is true whenever bytes grew; the converse is refuted, and so is the meaning of the returned iterator."
  },
  {
   "property": "C06",
   "status": "partial",
   "theorems": [
    "C06_contain",
    "C06_no_overlap",
    "C06_covered_parts_partial",
    "C06_cover_refuted"
   ],
   "note": "'contain' and 'no overlap' are right for all sets; the parts listed by findCoveredBy lie in the location and the set. 'cover' does not mean that an element is contained: refuted."
  },
  {
   "property": "C07",
   "status": "partial",
   "theorems": [
    "C07_subtract_bounds",
    "C07_subtract_bytes_partial",
    "C07_subtract_sections_partial",
    "C07_unknown_size_refuted"
   ],
   "note": "Lower and upper bound hold always; exact for byte ranges with known bounds and for unit-step sections; with unknown sizes it is refuted."
  },
  {
   "property": "C08",
   "status": "partial",
   "theorems": [
    "C08_merge",
    "C08_intersect_subset",
    "C08_intersect_exact_partial",
    "C08_intersect_flag_refuted",
    "C08_intersect_unknown_refuted",
    "C08_difference"
   ],
   "note": "merge is exact with a sound flag. intersect never invents bytes and is exact when intersections are known; its flag and the case of unknown sizes are refuted. Static difference also modelled."
  },
  {
   "property": "C09",
   "status": "partial",
   "theorems": [
    "C09_equal_bytes_partial",
    "C09_reflexive",
    "C09_order_of_insertions_refuted",
    "C09_sections_refuted"
   ],
   "note": "Equal sets of byte ranges have equal bytes. The converse is refuted (order of insertions), and equality of sets of sections is refuted."
  },
  {
   "property": "C10",
   "status": "partial",
   "theorems": [
    "C10_merge",
    "C10_intersect_subset",
    "C10_intersect_exact_partial",
    "C10_full_laws",
    "C10_contain",
    "C10_no_overlap",
    "C10_common_parts",
    "C10_subtract_partial",
    "C10_insert",
    "C10_difference",
    "C10_equal_partial",
    "C10_empty",
    "C10_full_flags_refuted"
   ],
   "note": "Lattice laws with the full value hold for all sets. Exactness of intersection/subtraction and equality hold under the conditions of C07-C09 (partial). The returned change flag for the full value is refuted."
  },
  {
   "property": "C11",
   "status": "proved",
   "theorems": [
    "C11_byte_ranges",
    "C11_other_object"
   ],
   "note": "Byte ranges, bounds below 2^64; an unknown upper bound is covered too."
  },
  {
   "property": "C12",
   "status": "partial",
   "theorems": [
    "C12_sections_indices",
    "C12_sections_decided",
    "C12_bytes",
    "C12_complement_unchanged_refuted",
    "C12_element_size_refuted"
   ],
   "note": "Index tuples and bytes, any number of dimensions and any solver meeting dioSpec (an instance is proved). 'Lists unchanged on empty intersection' and mixed element sizes are refuted."
  },
  {
   "property": "C13",
   "status": "partial",
   "theorems": [
    "C13_delinearize_partial",
    "C13_out_of_range_refuted"
   ],
   "note": "Exact for ranges inside of the array; refuted beyond the end of the array."
  },
  {
   "property": "C14",
   "status": "proved",
   "theorems": [
    "C14_order_and_repetition_do_not_matter",
    "C14_combination_permits_the_common_treatments",
    "C14_flags_are_kept",
    "C14_mark_of_sharing_dropped",
    "C14_dependence_never_disappears"
   ],
   "note": "All binary combinations of elementary traits (any size, order, grouping and repetition). The meaning is given by the set of permitted treatments of a location in a parallel loop (TraitSpec.v): the combination permits exactly the common ones. Removal of the mark 'shared' keeps the class."
  },
  {
   "property": "C15",
   "status": "proved",
   "theorems": [
    "C15_description_total",
    "C15_encoding_of_the_description",
    "C15_encoding_is_conservative"
   ],
   "note": "Total description with compatible traits for all combinations, exact re-encoding; every well-formed descriptor is encoded conservatively."
  },
  {
   "property": "C16",
   "status": "partial",
   "theorems": [
    "C16_counters_partial",
    "C16_header_and_explicit_counters_swapped",
    "C16_counters_refuted"
   ],
   "note": "The counters of header and explicit accesses are swapped (refuted, with an exact description of what they count); all others are exact for every combination."
  },
  {
   "property": "C17",
   "status": "partial",
   "theorems": [
    "C17_live_partial",
    "C17_default_out_partial"
   ],
   "note": "Proved for all nests of loops, reducible control-flow graphs, paths of real runs, sets of blocks: whatever the rest of a real run reads before writing it is live at the end of the block; so is what is alive after the function. Premises: aggregation keeps bytes, no loop with known trip count 1. Missing: aggregation that widens locations; interprocedural part; default live-out only if definitions are whole objects."
  },
  {
   "property": "C18",
   "status": "partial",
   "theorems": [
    "C18_must_partial",
    "C18_may",
    "C18_may_nested_partial",
    "C18_irreducible_refuted"
   ],
   "note": "Must definitions proved for every iteration of every region of a reducible graph (after a block, before a node, after an inner loop); may definitions proved for innermost regions without restrictions and on all levels if definitions are whole objects. Refuted for irreducible control flow (the region is passed once)."
  },
  {
   "property": "C19",
   "status": "partial",
   "theorems": [
    "C19_uses_musts_partial",
    "C19_mays_partial",
    "C19_single_trip_refuted",
    "C19_lost_definition_refuted",
    "C19_dropped_use_refuted"
   ],
   "note": "Uses and must definitions of a loop proved for all executions with any number of iterations. Refuted: known trip count 1 (definitions of a body which is never executed are reported as must definitions), bytes of a must definition that is only in part must defined at the exit are lost, a use which is dropped by clarify. May definitions proved for whole objects."
  },
  {
   "property": "C20",
   "status": "partial",
   "theorems": [
    "C20_partial",
    "C20_nested_refuted",
    "C20_unknown_size_refuted",
    "C20_other_trees_refuted"
   ],
   "note": "The full claim is false. C20_nested_refuted: the boundary of a class is never updated, so nested alias nodes of every branch but the first are counted twice and a location is reported covered although it is not. C20_unknown_size_refuted: any listed part of unknown size is reported to cover the whole. C20_other_trees_refuted: the end iterator of an empty map is dereferenced if no listed location is in the tree of the location. C20_partial: if sizes of parts are known and only the branch visited first has nested nodes, then a positive answer means that all bytes are covered (sums wrap modulo 2^64 in the model)."
  },
  {
   "property": "C21",
   "status": "proved",
   "theorems": [
    "C21_numbering",
    "C21_relation",
    "C21_parent",
    "C21_lowest_common_ancestor"
   ],
   "note": "Numbering, relation, parent and lowest common ancestor are exact for all finite rooted trees. tree_restriction_is_needed shows a graph with a shared node for which the relation is wrong."
  },
  {
   "property": "C22",
   "status": "partial",
   "theorems": [
    "C22_identifiers",
    "C22_distinct_items_distinct_identifiers",
    "C22_register",
    "C22_count_partial",
    "C22_count_refuted"
   ],
   "note": "Identifiers are exactly first id + position among the items registered since the last clear, for all histories. Refuted: numberOfIDs counts from the first identifier, so it is not the number of items unless the first identifier is 0."
  },
  {
   "property": "C23",
   "status": "partial",
   "theorems": [
    "C23_bimap_partial",
    "C23_inverse_partial",
    "C23_erase_by_key_refuted",
    "C23_erase_range_refuted"
   ],
   "note": "Proved for all histories of insert, emplace, erase by iterator and clear, for any probing order of the hash sets. Refuted: erase by a key and erase of a range access freed elements."
  },
  {
   "property": "C24",
   "status": "partial",
   "theorems": [
    "C24_list_bimap_partial",
    "C24_one_node_partial",
    "C24_erase_partial",
    "C24_erase_by_key_refuted"
   ],
   "note": "Proved for all histories of insert, emplace, erase by iterator and clear. Refuted: erase by a key leaves other keys of the node attached to a freed element (the code does not compile if instantiated; the evident meaning is modelled)."
  },
  {
   "property": "C25",
   "status": "partial",
   "theorems": [
    "C25_iterators_follow_elements_partial",
    "C25_operations_are_defined_partial",
    "C25_assign_between_elements_refuted",
    "C25_assign_back_refuted",
    "C25_copied_element_refuted",
    "C25_overwritten_element_refuted"
   ],
   "note": "For all histories of construction, copy, move, assignment and destruction of iterators, creation, relocation and destruction of elements: validity and target of each iterator equal the specification, and each operation is defined and terminates. Partial: assignment from a valid iterator is covered only if the target is invalid and does not keep the address of the same element, or is valid and refers to the same element; relocation over an element only if no iterator refers to it. The excluded cases are refuted (assignment between elements, assignment back to a moved-from iterator, copied element, overwritten element). The hash table of PersistentMap/PersistentSet is not modelled."
  },
  {
   "property": "C26",
   "status": "partial",
   "theorems": [
    "C26_strong_siv_partial",
    "C26_strong_siv_unknown_sign_refuted",
    "C26_strong_siv_zero_coeff_refuted",
    "C26_ziv"
   ],
   "note": "Full statement is false of the code: refuted for a coefficient of unknown sign (false 'independent') and for a coefficient that can be zero. Proved for a coefficient with known sign that is not zero, for all symbolic and constant operands, bounds and iteration pairs. ZIV test included."
  },
  {
   "property": "C27",
   "status": "partial",
   "theorems": [
    "C27_weak_crossing_partial",
    "C27_split_partial",
    "C27_weak_crossing_zero_coeff_refuted"
   ],
   "note": "Proved for every coefficient that is not zero, with the split point; refuted if the symbolic coefficient can be zero."
  },
  {
   "property": "C28",
   "status": "partial",
   "theorems": [
    "C28_exact_siv_independent_partial",
    "C28_exact_siv_directions_partial",
    "C28_exact_siv_exact_partial",
    "C28_exact_siv_directions_refuted",
    "C28_exact_siv_wrap_refuted"
   ],
   "note": "Independence is exact if no Bits-bit operation wraps; directions are complete for coprime coefficients. Refuted: directions when gcd > 1 (the multiplier is not divided by the gcd) and false independence on wrap-around."
  },
  {
   "property": "C29",
   "status": "partial",
   "theorems": [
    "C29_weak_zero_src_partial",
    "C29_weak_zero_dst_partial",
    "C29_peel_src_partial",
    "C29_peel_dst_partial",
    "C29_weak_zero_zero_coeff_refuted"
   ],
   "note": "Proved for coefficients that are not zero, with the peel suggestions; refuted if the symbolic coefficient can be zero."
  },
  {
   "property": "C30",
   "status": "partial",
   "theorems": [
    "C30_symbolic_rdiv",
    "C30_exact_rdiv_partial",
    "C30_exact_rdiv_exact_partial",
    "C30_exact_rdiv_wrap_refuted"
   ],
   "note": "Symbolic test: full. Exact test: exact if no Bits-bit operation wraps; refuted on wrap-around."
  },
  {
   "property": "C31",
   "status": "proved",
   "theorems": [
    "C31_gcd_sound",
    "C31_only_equal_removed"
   ],
   "note": "All nests, chains of recurrences, symbolic coefficients; also that nothing but '=' is removed. Arithmetic is over unbounded integers."
  },
  {
   "property": "C32",
   "status": "proved",
   "theorems": [
    "C32_banerjee_sound",
    "C32_nesting_levels",
    "C32_testMIV_sound"
   ],
   "note": "All nests, unknown bounds, both tests in turn (testMIV); numbering of levels (establishNestingLevels). Unbounded integers."
  },
  {
   "property": "C33",
   "status": "partial",
   "theorems": [
    "C33_intersection",
    "C33_intersection_total",
    "C33_intersection_with_unknown_refuted",
    "C33_propagation",
    "C33_propagation_of_one",
    "C33_direction_update"
   ],
   "note": "Intersection and propagation keep all conflicts, propagation adds none; refuted for an unknown second constraint (llvm_unreachable is reached)."
  },
  {
   "property": "C34",
   "status": "partial",
   "theorems": [
    "C34_kind_recorded_partial",
    "C34_ignored_partial",
    "C34_different_directions_refuted",
    "C34_confused_level_refuted"
   ],
   "note": "All dependences, depths and histories (inserted, assumed, merged). Refuted for the direction 'different' of flow and anti dependences, and for directions of confused levels."
  },
  {
   "property": "C35",
   "status": "partial",
   "theorems": [
    "C35_bounds_partial",
    "C35_bounds_with_merges_partial",
    "C35_summary_defined",
    "C35_assumed_has_no_bounds",
    "C35_merge_refuted",
    "C35_output_distance_refuted"
   ],
   "note": "All histories without merges; with merges for levels below the known-distance level. Refuted for merged records with different numbers of known levels and for output dependences with both directions. First level compared as unsigned words."
  },
  {
   "property": "C36",
   "status": "proved",
   "theorems": [
    "C36_permitted_treatments_are_correct",
    "C36_classified",
    "C36_reported_classes_are_true",
    "C36_incompletely_accessed_location"
   ],
   "note": "Each treatment permitted by the reported traits is proved correct for all parallel executions (any schedule, any interleaving, any number of threads) of loops given as programs over cells. Premises: results of use/def, live and dependence analyses are true (subjects of C17-C19, C26-C35)."
  },
  {
   "property": "C37",
   "status": "partial",
   "theorems": [
    "C37_entry_is_not_more_permissive_partial",
    "C37_stored",
    "C37_entry_is_not_more_permissive_refuted",
    "C37_dependence_is_reported_refuted"
   ],
   "note": "All lists of locations and unknown accesses, flags and dependence kinds included. Refuted for locations corrected to first private after the conjunction; also refuted: kinds of dependences are reported for incompatible classes. bcl::trait set/unset are modelled by their names."
  },
  {
   "property": "C38",
   "status": "partial",
   "theorems": [
    "C38_pair_partial",
    "C38_merged_partial",
    "C38_negative_offset_refuted",
    "C38_merged_coincide_refuted"
   ],
   "note": "Relation of two locations and relations merged over all pointers of an estimate location and a range of estimate locations, proved true of byte sets for any truthful alias analysis. Partial: ends of partially overlapping locations must have offsets of the same sign (refuted otherwise: unsigned comparison of int64+uint64), and a merged 'coincide' is only true of some pair (refuted for all pairs)."
  },
  {
   "property": "C39",
   "status": "proved",
   "theorems": [
    "C39_splice_next",
    "C39_merge_next",
    "C39_merge_prev",
    "C39_splice_prev",
    "C39_linked",
    "C39_detach"
   ],
   "note": "All four chain operations on arbitrary forests: exact picture of the result, links mutually inverse, no cycles. A condition that a location does not become its own ancestor is stated (C39_condition_needed shows it is needed)."
  },
  {
   "property": "C40",
   "status": "partial",
   "theorems": [
    "C40_ancestor",
    "C40_descendant_partial",
    "C40_queries",
    "C40_descendant_refuted"
   ],
   "note": "ancestor(), isAncestorOf(), isDescendantOf(), isUnreachable(), getTopLevelParent() proved; descendant() proved for connected locations, refuted for unconnected ones (it returns the first location instead of nothing)."
  },
  {
   "property": "C41",
   "status": "proved",
   "theorems": [
    "C41_no_dangling",
    "C41_progress",
    "C41_location",
    "C41_parent",
    "C41_resolve",
    "C41_held_condition_needed"
   ],
   "note": "Every history of creations, merges, changes of parents, locations and unknown accesses of alias nodes, with path compression and reference counting. Handles are parents, forwarding pointers, nodes of locations and sets of unknown accesses. A caller of setParent and setAliasNode must hold the new node by another reference when it replaces the node with itself: C41_held_condition_needed shows that otherwise a destroyed node is used. References of destroyed nodes to their parents are never released (memory is kept longer), so counters are proved to be at least the number of handles."
  },
  {
   "property": "C42",
   "status": "partial",
   "theorems": [
    "C42_content_partial",
    "C42_find",
    "C42_attach_if_new",
    "C42_attach_found",
    "C42_references_equal",
    "C42_references_valid_partial",
    "C42_functions",
    "C42_not_equal_refuted",
    "C42_instruction_refuted",
    "C42_references_valid_refuted",
    "C42_attach_if_new_refuted",
    "C42_latest_refuted",
    "C42_functions_refuted"
   ],
   "note": "Contents of every place after every history (C42_content_partial), searches for items of loops (C42_find, C42_attach_found), equality of references, marks of functions. Refuted: searches at instructions and functions never find anything (tag bits of the anchor), operator!= is operator==, references dangle after an attachment to another anchor of the same block, a search returns the oldest item of a kind, marks of functions survive removal. C42_references_valid_partial: references stay valid if the place has a location and less than 4 items."
  },
  {
   "property": "C43",
   "status": "partial",
   "theorems": [
    "C43_success_is_exact",
    "C43_overflow_partial",
    "C43_overflow_refuted",
    "C43_expression"
   ],
   "note": "A successful conversion is exact and no APInt assertion fails; exact meaning of overflow proved. Refuted: a signed value that fits but needs all bits (e.g. 2^62 to a 64-bit type) is reported as overflow."
  },
  {
   "property": "C44",
   "status": "partial",
   "theorems": [
    "C44_lookup_partial",
    "C44_next_argument_is_returned",
    "C44_lookup_refuted"
   ],
   "note": "Refuted for all functions: the argument after the requested one is returned. The partial theorem says what remains true."
  },
  {
   "property": "C45",
   "status": "partial",
   "theorems": [
    "C45_join_partial",
    "C45_join_refuted",
    "C45_tokenize_partial",
    "C45_tokenize_refuted"
   ],
   "note": "Join proved for non-empty sequences (the empty one dereferences the end iterator). Tokenize proved for patterns without empty matches; refuted (never terminates) for a pattern that matches the empty string. std::regex_search is an oracle."
  },
  {
   "property": "C46",
   "status": "proved",
   "theorems": [
    "C46_nodes",
    "C46_edges",
    "C46_entry_exit",
    "C46_no_unreachable_nodes",
    "C46_innermost",
    "C46_remove_edges",
    "C46_temporary_edges"
   ],
   "note": "All loop nests, all traversal orders of the block map; exact node list and edge relation, multiplicities, entry/exit, reachability, innermost region, removal of temporary edges. Deeper levels are built by the same function applied to inner loops."
  },
  {
   "property": "C47",
   "status": "partial",
   "theorems": [
    "C47_partial",
    "C47_marker_refuted",
    "C47_merge_refuted"
   ],
   "note": "Constructs other than markers: full picture for all histories (C47_partial). Markers: refuted, a marker keeps a pointer to a destroyed construct (C47_marker_refuted), the merge of parallel regions leads to this state (C47_merge_refuted)."
  },
  {
   "property": "C48",
   "status": "partial",
   "theorems": [
    "C48_chains_ascend",
    "C48_one_chain",
    "C48_add_keeps",
    "C48_prev_partial",
    "C48_explicit",
    "C48_find_partial",
    "C48_find_exact_partial",
    "C48_cache",
    "C48_prev_refuted",
    "C48_find_refuted"
   ],
   "note": "C48_chains_ascend, C48_one_chain, C48_add_keeps, C48_explicit and C48_cache hold for all answers of alias analysis (premises: a pointer must-aliases itself and has its own base). C48_find_partial/C48_find_exact_partial need that it is certain which chains contain the pointer; C48_find_refuted shows an addition history after which a search for an added access reaches llvm_unreachable. C48_prev_refuted: getPrev() gives no location although getNext() of another one leads to it. Alias nodes and metadata are not part of this model."
  },
  {
   "property": "C49",
   "status": "partial",
   "theorems": [
    "C49_groups",
    "C49_rounds_end",
    "C49_answer_partial",
    "C49_loosely_coupled_partial",
    "C49_stale_constraint_refuted",
    "C49_uninitialized_level_refuted"
   ],
   "note": "The whole driver (classification, partition, separable and coupled subscripts, constraint propagation, scalar levels) is modelled. Partition and termination are proved in full. Soundness of the answer is proved for sound symbolic queries under premises on numbers (no overflow, coprime steps, known signs: see C26-C30), for the subscripts which appear in the course of the analysis. Two defects are refuted: a constraint of a previous subscript is stored for a loop if the test of a subscript makes no constraint (no dependence is then reported for conflicting iterations), and an uninitialized level is used if a recurrence belongs to a loop which is not around the access. Delinearization, unification of types and splitting are not modelled."
  },
  {
   "property": "C50",
   "status": "partial",
   "theorems": [
    "C50_edits_partial",
    "C50_rewritten_text",
    "C50_independent",
    "C50_insert_after_remove_refuted",
    "C50_insert_at_removed_beginning_refuted",
    "C50_insert_inside_replaced_refuted",
    "C50_insert_before_refuted",
    "C50_insert_after_last_token_refuted",
    "C50_remove_line",
    "C50_remove_text",
    "C50_remove_line_outside_refuted"
   ],
   "note": "Edits, rewritten text, independence of edits, removal of a line (the range and the text itself). Six refutations. Missing: insertion into replaced text, locations outside of the text, lexing."
  },
  {
   "property": "C51",
   "status": "partial",
   "theorems": [
    "C51_divide_partial",
    "C51_divide_by_constant",
    "C51_divide_by_variable",
    "C51_lost_remainder_refuted",
    "C51_exact_zero_refuted",
    "C51_replaced_by_one_refuted",
    "C51_zero_denominator_refuted",
    "C51_unsafe_factor_refuted",
    "C51_unsafe_denominator_refuted",
    "C51_add_rec_partial",
    "C51_gcd_partial",
    "C51_gcd_quadratic_refuted",
    "C51_gcd_lost_refuted"
   ],
   "note": "Proved for any sound ScalarEvolution: the identity whenever the result does not come from one of four early returns of visitMulExpr; unconditionally for denominators which are not variables/products and for variables factored out of products; safe simplification to recurrences; common divisors for affine expressions. Refuted: lost remainder, exact zero quotient, replaced by one, division by zero, two missing reports of unsafe casts, common divisor of a quadratic recurrence and after a lost remainder. Missing: no-wrap flags, termination."
  },
  {
   "property": "C52",
   "status": "partial",
   "theorems": [
    "C52_indexes",
    "C52_extra_zeros_constant",
    "C52_variable_partial",
    "C52_variable_zeros_partial",
    "C52_sizes_partial",
    "C52_two_zeros_refuted",
    "C52_border_zero_refuted",
    "C52_constant_types_refuted",
    "C52_zero_size_refuted"
   ],
   "note": "Indexes of a chain give its offset; zeros in constant dimensions are inserted correctly; variable dimensions: offset is preserved if all subscripts are present, or if at most one is omitted and all dimensions are variable; computed sizes divide subscripts if remainders are zero. Refuted: two omitted subscripts, a zero at the border of variable and constant dimensions, unchecked types of constant dimensions, unchecked remainders (zero sizes and division by zero)."
  },
  {
   "property": "C53",
   "status": "partial",
   "theorems": [
    "C53_reversed_partial",
    "C53_same_result",
    "C53_canonical",
    "C53_requests_partial",
    "C53_requests_refuted",
    "C53_unsigned_refuted",
    "C53_no_iterations_refuted",
    "C53_negative_step_refuted",
    "C53_shift_refuted",
    "C53_or_refuted",
    "C53_final_value_refuted"
   ],
   "note": "Proved for signed variables with small values, a terminating source loop, bounds of tight precedence, a step which agrees with the condition; for exclusive conditions the sign of the step must be visible in its operator and a loop with a step must have an iteration unless constants are known. Everything else is refuted: unsigned variables (endless loop), loops without iterations, += with a negative step, shifts and weaker operations in bounds, the value of the variable after the loop, requests in a decreasing order."
  },
  {
   "property": "C54",
   "status": "partial",
   "theorems": [
    "C54_no_io",
    "C54_always_return_partial",
    "C54_direct_callees",
    "C54_no_io_complete",
    "C54_always_return_complete",
    "C54_direct_callees_complete",
    "C54_endless_loop_refuted",
    "C54_endless_recursion_refuted",
    "C54_io_table_refuted",
    "C54_libfunc",
    "C54_libfunc_callee_partial",
    "C54_libfunc_callee_refuted",
    "C54_indirect_partial",
    "C54_indirect_refuted",
    "C54_loop"
   ],
   "note": "Proved: no I/O, no exit from the program, no unknown callees for marked functions of any program whose calls are edges of the call graph, for any order of components; completeness for bottom-up orders; loops. Partial/refuted: a marked function may run forever (endless loop, recursion); the table of I/O functions misses write, read, __isoc99_scanf; callees of library functions in a cycle are missed; a function passed as an argument is not marked as called indirectly."
  },
  {
   "property": "C55",
   "status": "partial",
   "theorems": [
    "C55_referenced_partial",
    "C55_precise",
    "C55_callback_refuted",
    "C55_integer_to_pointer_refuted",
    "C55_aggregate_refuted"
   ],
   "note": "Proved: references through user functions at any depth, with address computations and a cast to an integer; precision. Refuted: call-backs from library functions, integers cast to pointers (the loop recomputes the underlying object of the same operand), aggregates."
  },
  {
   "property": "C56",
   "status": "partial",
   "theorems": [
    "C56_not_captured_partial",
    "C56_memory_partial",
    "C56_ends",
    "C56_local_memory_refuted",
    "C56_two_operands_refuted",
    "C56_library_refuted",
    "C56_new_object_refuted",
    "C56_indirect_call_refuted"
   ],
   "note": "Proved: no capture if callees do not get pointers to memory of the function, keep all or none of their arguments, do not return unkept arguments and new objects contain no pointers; termination. Refuted: a callee finds the copy in local memory, g(p, p), library functions which return an argument, new objects with pointers, a null dereference for indirect calls."
  },
  {
   "property": "C57",
   "status": "partial",
   "theorems": [
    "C57_promoted_partial",
    "C57_two_exiting_refuted",
    "C57_dangling_refuted",
    "C57_constant_refuted",
    "C57_speculative_refuted"
   ],
   "note": "Proved: the same execution if each exit is reached from one block, the location may be accessed and the transformation does not crash. Refuted: several exiting blocks with the same exit (the last store is lost), a deleted phi node is stored in an exit block, a constant operand of a redundant phi node (null dereference), a speculative access to a location before the loop."
  },
  {
   "property": "C58",
   "status": "partial",
   "theorems": [
    "C58_runs_as_described_partial",
    "C58_rectangular_partial",
    "C58_ends",
    "C58_reversed_refuted",
    "C58_phi_refuted",
    "C58_condition_refuted",
    "C58_real_step_refuted",
    "C58_cycle_refuted"
   ],
   "note": "Proved: the loop runs as described if the variable is the left operand of the condition and steps and bounds do not depend on phi nodes; values of a rectangular loop are the same in all iterations of its parent; the check ends if there are no cycles of operands. Refuted: a bound on the left of the comparison (the predicate is inverted instead of being swapped), a step selected by a phi node, a condition with several blocks (a comparison is reported as an end), a real step (an assertion), a bound with a cycle through a phi node (infinite recursion)."
  },
  {
   "property": "C59",
   "status": "partial",
   "theorems": [
    "C59_accepted_partial",
    "C59_rejected_partial",
    "C59_no_failure_partial",
    "C59_rejected_refuted",
    "C59_no_failure_refuted",
    "C59_assignment_refuted"
   ],
   "note": "Proved: acceptance for comparisons, rejection for strict comparisons, no failures if types are the same. Refuted: for (i = 5; i <= 5; ++i) is rejected, constants of different types (for (char i = 0; i < 10; ++i)) fail an assertion, an assignment as a condition is accepted."
  },
  {
   "property": "C60",
   "status": "partial",
   "theorems": [
    "C60_nest",
    "C60_same_result_partial",
    "C60_induction_variable_refuted",
    "C60_call_refuted",
    "C60_endless_refuted",
    "C60_no_failure_partial",
    "C60_no_failure_refuted",
    "C60_ends_partial",
    "C60_ends_refuted",
    "C60_order"
   ],
   "note": "Proved: only perfect nests are permuted, the same memory if heads have no calls and can be evaluated before the nest, no failures for pairs of names, an end if there are no cycles of operands. Refuted: induction variables have other final values if a loop of the nest has no iterations, a call in a head may read an induction variable of an outer loop, an evaluation of an inner head that does not end is moved in front, a variable that is named as the clause or an odd number of names fails an assertion, a phi-node in a bound leads to endless recursion."
  },
  {
   "property": "C61",
   "status": "proved",
   "theorems": [
    "C61_perfect"
   ],
   "note": ""
  },
  {
   "property": "C62",
   "status": "partial",
   "theorems": [
    "C62_live_partial",
    "C62_no_locals",
    "C62_no_failure",
    "C62_after_call_refuted",
    "C62_variadic_refuted",
    "C62_inside_refuted",
    "C62_pointer_refuted",
    "C62_recursion_refuted"
   ],
   "note": "Proved without recursion, for calls which end their blocks, without variable numbers of arguments, if callers know the memory due to the same global variable or an actual argument; each of these conditions is shown to be needed by a refutation. Failures are excluded by C62_no_failure."
  },
  {
   "property": "C63",
   "status": "partial",
   "theorems": [
    "C63_same_refs_partial",
    "C63_new_names",
    "C63_fresh",
    "C63_globals",
    "C63_exactly",
    "C63_type_refuted",
    "C63_function_refuted",
    "C63_extern_refuted",
    "C63_macro_refuted",
    "C63_macro_partial"
   ],
   "note": "Proved for objects declared inside of functions; refuted for types and functions declared there, for objects declared extern and for macros which are defined but not used."
  },
  {
   "property": "C64",
   "status": "partial",
   "theorems": [
    "C64_same_partial",
    "C64_names_partial",
    "C64_groups",
    "C64_unused",
    "C64_volatile_read_refuted",
    "C64_volatile_write_refuted",
    "C64_extern_refuted",
    "C64_size_refuted",
    "C64_enum_refuted"
   ],
   "note": "Proved for functions without volatile objects, extern declarations and sizes of arrays with side effects (C64_same_partial), names: without local enumerations whose constants are used (C64_names_partial). Refuted: a read of a volatile object in a removed assignment (C64_volatile_read_refuted), a removed volatile variable (C64_volatile_write_refuted), extern int g; g = 5; (C64_extern_refuted), int a[n++]; (C64_size_refuted), a local enumeration whose constant is used (C64_enum_refuted). Not modelled: C++ declarations, switch, goto, exact ranges of removed text."
  },
  {
   "property": "C65",
   "status": "partial",
   "theorems": [
    "C65_nested_partial",
    "C65_reachability_partial",
    "C65_complete_partial",
    "C65_checked",
    "C65_inner",
    "C65_front_refuted",
    "C65_index_refuted",
    "C65_cast_refuted"
   ],
   "note": "Proved without mutual recursion and for direct calls: C65_nested_partial, C65_reachability_partial, C65_complete_partial; for all components: C65_checked, C65_inner. Refuted: only calls of the first function of a component are considered (C65_front_refuted), a number of a component is used as an index of a function (C65_index_refuted), a call through a cast is added to parallel calls but is not an edge of the call graph (C65_cast_refuted). Not modelled: exploitParallelism and optimizeLevel of OpenMP and DVMH, calls through pointers, mExternalCalls."
  },
  {
   "property": "C66",
   "status": "partial",
   "theorems": [
    "C66_results_partial",
    "C66_rejected",
    "C66_static_refuted",
    "C66_induction_refuted",
    "C66_last_refuted",
    "C66_unknown_refuted",
    "C66_references"
   ],
   "note": "Full statement fails: static locals are treated as private, a final value of the loop variable is lost, a live variable with first private trait only is not copied out, private memory without a known variable stays shared. Regular (ordered) dependencies and merging with an existing parallel region are not modelled."
  },
  {
   "property": "C67",
   "status": "partial",
   "theorems": [
    "C67_cover_partial",
    "C67_sign_refuted",
    "C67_defined_partial",
    "C67_depth_refuted",
    "C67_clauses_partial",
    "C67_lastprivate_refuted",
    "C67_nest",
    "C67_results_partial",
    "C67_progress_partial",
    "C67_step_refuted",
    "C67_deadlock_refuted",
    "C67_variable_refuted"
   ],
   "note": "Full statement fails: distances of inner loops are not negated (C67_sign_refuted), a step of a loop is ignored (C67_step_refuted, C67_deadlock_refuted), a depth is not limited with a number of known distances (C67_depth_refuted), distances of the first location of a variable are kept only (C67_variable_refuted), lastprivate variables of inner loops are lost (C67_lastprivate_refuted). Results are proved for a nest of a single loop."
  },
  {
   "property": "C68",
   "status": "partial",
   "theorems": [
    "C68_results_partial",
    "C68_or_refuted",
    "C68_type_refuted",
    "C68_comma_refuted",
    "C68_place_refuted",
    "C68_braces_refuted",
    "C68_macro_refuted",
    "C68_increment_refuted",
    "C68_coverage_partial",
    "C68_before_refuted",
    "C68_after_refuted"
   ],
   "note": "Full statement fails: a value of a disjunction is not 0 or 1 (C68_or_refuted), a conversion of a branch is lost (C68_type_refuted), a comma operator becomes a part of an assignment (C68_comma_refuted), a parenthesis is inserted at a wrong place (C68_place_refuted), braces of a branch are removed inside an unbraced body (C68_braces_refuted), a header in a macro gets the next statement as a body (C68_macro_refuted), an increment remains without a semicolon (C68_increment_refuted), ranges before the first segment or after the last one (C68_before_refuted, C68_after_refuted). Switch, do-while, labels and goto are not modelled."
  },
  {
   "property": "C69",
   "status": "partial",
   "theorems": [
    "C69_holds_partial",
    "C69_all_partial",
    "C69_first",
    "C69_found",
    "C69_terminates",
    "C69_fragments",
    "C69_operation_refuted",
    "C69_deref_refuted",
    "C69_fragment_refuted",
    "C69_phi_refuted"
   ],
   "note": "Proved if expressions of intrinsics contain only fragments and fragments of a variable are equal or disjoint (C69_holds_partial), for all users if there are no phi-nodes among them (C69_all_partial). The main variable, completeness, termination and the test of fragments are proved without these conditions. Refuted otherwise: operations of an expression are dropped by DIMemoryLocation::get, so x = V + 1 is reported as x = V; intrinsics with a dereference are ignored; an overlapping fragment in the block of the user is not noticed; for a phi-node the end of the block which defines the value is checked instead of the incoming block."
  },
  {
   "property": "C70",
   "status": "partial",
   "theorems": [
    "C70_results_partial",
    "C70_memory_refuted",
    "C70_uses_refuted",
    "C70_shadow_refuted",
    "C70_init_refuted",
    "C70_switch_refuted",
    "C70_increment_refuted",
    "C70_constant_refuted",
    "C70_sign_refuted",
    "C70_conversion_refuted",
    "C70_operand_refuted"
   ],
   "note": "Proved if right-hand sides do not read memory, a definition has a single use, names of local variables do not hide global objects or variables in their own initialization, values are not used in switch instructions, there are no increments in definitions, types of constants and variables are kept, there are no conversions in assignments and a variable of a right-hand side may hold its own operand only (C70_results_partial). Each condition is necessary: ten refutations. The list of unexamined references is shared by all uses, so operands are checked for the first use only; a variable which holds the result is counted as an available operand; the replacement of an operand of a switch is active in its whole body; a global object is considered accessible even if it is hidden."
  },
  {
   "property": "C71",
   "status": "partial",
   "theorems": [
    "C71_finishes_partial",
    "C71_sound_partial",
    "C71_complete_partial",
    "C71_expansion_partial",
    "C71_kept_partial",
    "C71_uniform_finishes_partial",
    "C71_self_partial",
    "C71_some_partial",
    "C71_repeated_partial",
    "C71_sound_refuted",
    "C71_complete_refuted",
    "C71_expansion_refuted",
    "C71_finishes_refuted"
   ],
   "note": "Proved if all chains of calls between two functions (without a return to the first one) have the same length: C71_finishes_partial, C71_sound_partial, C71_complete_partial, C71_expansion_partial; without this condition: C71_uniform_finishes_partial, C71_self_partial, C71_some_partial, C71_repeated_partial. Refuted in general: a function without recursion which is called directly and through another function is excluded (C71_sound_refuted); a cycle of three functions which all call a function which calls itself is missed (C71_complete_refuted) and compile never stops (C71_expansion_refuted); the search never stops if the last call of a recursive function will not be inlined (C71_finishes_refuted)."
  },
  {
   "property": "C72",
   "status": "partial",
   "theorems": [
    "C72_results_partial",
    "C72_comma_refuted",
    "C72_void_refuted",
    "C72_group_refuted"
   ],
   "note": "C72_results_partial is proved if calls which may be expanded are not in right operands of comma operators and in groups of declarators and calls of void functions are whole statements. Each condition is necessary: C72_comma_refuted (a call is executed before the left operand), C72_void_refuted (a loop with a call of a void function in its initialization is removed), C72_group_refuted (arguments are evaluated before previous declarators). Preservation of termination, static variables, labels, switches and pointers are not covered."
  },
  {
   "property": "C73",
   "status": "partial",
   "theorems": [
    "C73_count",
    "C73_weights_partial",
    "C73_entry_refuted",
    "C73_outer_refuted",
    "C73_mean_partial",
    "C73_nested_partial",
    "C73_threshold_partial"
   ],
   "note": "C73_weights_partial is proved if numbers of calls are less than 2^32 and loops with inner loops are executed. C73_entry_refuted: a number of calls is truncated to 32 bits and may be zero; C73_outer_refuted: a nest of loops which is not executed leads to division by zero. C73_count is proved without conditions for sorted coverage. C73_mean_partial, C73_nested_partial, C73_threshold_partial are corollaries under the same conditions. Saturation of weights and loading of a profile are not covered."
  },
  {
   "property": "C74",
   "status": "partial",
   "theorems": [
    "C74_load_partial",
    "C74_roundtrip_partial",
    "C74_lookup_partial",
    "C74_deps_refuted",
    "C74_first_refuted",
    "C74_files_refuted",
    "C74_null_refuted",
    "C74_causes_refuted",
    "C74_roundtrip_private_refuted",
    "C74_roundtrip_first_refuted",
    "C74_roundtrip_anti_refuted",
    "C74_roundtrip_int_refuted",
    "C74_roundtrip_may_refuted",
    "C74_roundtrip_null_refuted",
    "C74_lookup_loops_refuted",
    "C74_lookup_vars_refuted"
   ],
   "note": "C74_load_partial is proved if dependencies of private variables and reductions are listed in files, private variables have no values from outside a loop, each file describes all executions, and dependencies have descriptions. C74_roundtrip_partial is proved if private variables are already shared, there are no first private variables, flow and anti dependencies are not mixed, distances fit 32 bits and dependencies are not marked as possible only. C74_lookup_partial needs unique positions of loops and variables. Each condition is necessary, see refutations C74_*_refuted: a written private variable is loaded as shared, a first private one as private, distances of an anti dependence are taken from a flow dependence, 64-bit distances are truncated, results of the second file are lost, causes of dependencies are lost. Functions marked as pure, parsing of files and buildVariable are not covered."
  },
  {
   "property": "C75",
   "status": "partial",
   "theorems": [
    "C75_true_partial",
    "C75_true_refuted",
    "C75_dynamic_refuted",
    "C75_parallel_partial",
    "C75_parallel_refuted",
    "C75_marks",
    "C75_distance"
   ],
   "note": "C75_marks and C75_distance are proved in full. C75_true_partial is proved unless a mark 'first private' is dropped because of new traits which do not justify that. C75_true_refuted and C75_dynamic_refuted: a variable which is last private with a copy-in loses the copy-in if the repeated analysis reports dependences or an unknown iteration with the final value, so garbage is copied out. C75_parallel_partial is proved except for variables which are 'first private' only; C75_parallel_refuted: they get unknown dependences. Meanings of reductions and inductions are arbitrary predicates."
  },
  {
   "property": "C76",
   "status": "partial",
   "theorems": [
    "C76_cover_partial",
    "C76_coverIR_partial",
    "C76_cover_refuted",
    "C76_coverIR_refuted_kinds",
    "C76_coverIR_refuted_sign",
    "C76_total_partial",
    "C76_totalIR_partial",
    "C76_total_refuted",
    "C76_totalIR_refuted_types",
    "C76_totalIR_refuted_levels",
    "C76_definite",
    "C76_may_partial",
    "C76_may_refuted",
    "C76_kinds",
    "C76_causes_partial",
    "C76_causes_refuted"
   ],
   "note": "C76_definite and C76_kinds are proved in full. C76_cover_partial and C76_coverIR_partial hold if traits of a target are not vague (private, reduction and so on) or at most one kind of dependences of the other location is described, and bounds of the outermost distance of IR-level descriptions are not negative. C76_cover_refuted: a description of the first kind hides that the target is private, so the next kind gets distances of the other location only. C76_coverIR_refuted_sign: negative bounds are read as unsigned ones. C76_total_partial and C76_totalIR_partial hold if bounds have the same type and each level of IR-level descriptions is described; C76_total_refuted, C76_totalIR_refuted_types, C76_totalIR_refuted_levels: an assertion fails otherwise. C76_may_refuted: a possible dependence becomes definite if the other location is vague. C76_causes_refuted: causes of the target are lost. Behaviour of set() of the library bcl (incompatible traits are unset) is an assumption of the model."
  },
  {
   "property": "C77",
   "status": "partial",
   "theorems": [
    "C77_total",
    "C77_same",
    "C77_alone",
    "C77_markers_partial",
    "C77_markers_refuted",
    "C77_tail_partial",
    "C77_tail_refuted"
   ],
   "note": "C77_total, C77_same, C77_alone are proved in full. C77_markers_partial holds if markers do not follow calls; C77_markers_refuted: getNextUsefulInstruction checks the call instead of instructions after it, so a block of markers is created. C77_tail_partial holds if a result of a musttail call is not cast; C77_tail_refuted: the call and the cast get to different blocks, which IR does not allow. splitBasicBlock of LLVM is modelled by its documentation."
  },
  {
   "property": "C78",
   "status": "partial",
   "theorems": [
    "C78_same_partial",
    "C78_same_refuted",
    "C78_found",
    "C78_operands",
    "C78_terminators_partial",
    "C78_terminators_refuted"
   ],
   "note": "C78_found and C78_operands are proved in full. C78_same_partial holds if there are no volatile stores to local variables; C78_same_refuted: such a store is removed. C78_terminators_partial holds if each terminator accesses memory; C78_terminators_refuted: an invoke of a function without accesses to memory is removed with the store which uses its result. Alias sets are given by an analysis; AliasSetTracker of LLVM is not modelled."
  },
  {
   "property": "C79",
   "status": "partial",
   "theorems": [
    "C79_pairs",
    "C79_macro",
    "C79_exact_partial",
    "C79_exact_refuted_inc",
    "C79_exact_refuted_index",
    "C79_exact_refuted_kept",
    "C79_unmatched_partial",
    "C79_unmatched_refuted"
   ],
   "note": "C79_pairs and C79_macro are proved in full. C79_exact_partial holds if increments are not applied to subscripts, an index of a subscript contains no nested subscript, and instructions are not removed; C79_exact_refuted_inc, C79_exact_refuted_index and C79_exact_refuted_kept show that each of these is needed: p[i]++ stops a build with assertions, b[k] in a[i][b[k]] is not visited, after optimization of a load in x += 1 the store is paired with x. C79_unmatched_partial holds without increments and compound assignments; C79_unmatched_refuted: i in i++ is both paired and reported as unmatched. Declarations with initializers, conditional expressions and statements other than one expression are not modelled."
  },
  {
   "property": "C80",
   "status": "partial",
   "theorems": [
    "C80_finish",
    "C80_sound",
    "C80_complete_partial",
    "C80_complete_refuted_locs",
    "C80_complete_refuted_once",
    "C80_expand",
    "C80_size_partial",
    "C80_size_refuted_one",
    "C80_size_refuted_leaf"
   ],
   "note": "C80_finish, C80_sound and C80_expand are proved in full. C80_complete_partial holds if locations of calls in a function differ and there are no marks before; C80_complete_refuted_locs: the second call with the same location (from a macro) is not marked; C80_complete_refuted_once: calls in a callee of a call which has been marked before are not marked. C80_size_partial holds for a function with a single call of a function without calls; C80_size_refuted_one and C80_size_refuted_leaf: costs of a caller and a callee are not updated when a call is expanded. Recursion of functions is not modelled in expansion."
  },
  {
   "property": "C81",
   "status": "partial",
   "theorems": [
    "C81_initial",
    "C81_results_partial",
    "C81_results_refuted",
    "C81_groups_partial",
    "C81_groups_refuted"
   ],
   "note": "C81_initial is proved in full. C81_results_partial and C81_groups_partial hold if neighbouring parallel loops are of the same kind. C81_results_refuted: after a change of a kind the list of loops to merge is not cleared, so a loop for a host is executed on a device and its results are lost; C81_groups_refuted: loops which have been merged are merged again and removed directives are accessed. Merging on nested levels and optimization of data transfer are not modelled here."
  },
  {
   "property": "C82",
   "status": "partial",
   "theorems": [
    "C82_nest",
    "C82_pairs",
    "C82_fronts_partial",
    "C82_fronts_refuted",
    "C82_across_partial",
    "C82_across_refuted",
    "C82_kept_partial",
    "C82_kept_refuted"
   ],
   "note": "C82_nest and C82_pairs (no inner loop outruns the outer one) are proved in full. C82_fronts_partial holds for nests of at most two loops; C82_fronts_refuted: negative components are checked one by one, so (2, -1, -1) is accepted. C82_across_partial holds if the first access to an array mentions the loop; C82_across_refuted: A[j] before A[i] is not rejected. C82_kept_partial holds if the rejected loop has no regular dependencies; C82_kept_refuted: otherwise its induction variable is removed from private variables and is not returned."
  },
  {
   "property": "C83",
   "status": "partial",
   "theorems": [
    "C83_tie_partial",
    "C83_tie_refuted_order",
    "C83_tie_refuted_sum",
    "C83_tie_refuted_symbol",
    "C83_found",
    "C83_sanitize_partial",
    "C83_sanitize_refuted"
   ],
   "note": "C83_found is proved in full. C83_tie_partial holds if accesses to an array use loops in the same way, a subscript uses at most one loop and coefficients are constants; refuted otherwise: the mapping is reset for each access (A[0], A[i]), the last loop of A[i+j] is used, n*i is tied in the opposite direction. C83_sanitize_partial holds if each parallel loop is in a region; C83_sanitize_refuted: otherwise a directive of an absent region is accessed."
  },
  {
   "property": "C84",
   "status": "partial",
   "theorems": [
    "C84_coherent_partial",
    "C84_coherent_refuted_written",
    "C84_coherent_refuted_induction",
    "C84_precise",
    "C84_exit_partial",
    "C84_exit_refuted",
    "C84_callee_partial",
    "C84_callee_refuted"
   ],
   "note": "C84_precise is proved in full. C84_coherent_partial holds if a variable written by an accelerator and by the host is an input variable of some region and there are no specially treated induction variables; refuted otherwise: an array which is an output variable only is not actualized after a write on the host, a write to an induction variable is ignored although there is another region before the loop. C84_exit_partial/_refuted: get_actual is always placed before the terminator, so after instructions which read memory. C84_callee_partial/_refuted: the list of actual directives is used for get_actual. Interprocedural optimization and replacement of directives between levels are not modelled."
  },
  {
   "property": "C85",
   "status": "partial",
   "theorems": [
    "C85_named_partial",
    "C85_named_refuted_server",
    "C85_named_refuted_chain",
    "C85_named_refuted_init",
    "C85_named_refuted_outside",
    "C85_named_refuted_expr",
    "C85_enabled",
    "C85_exact",
    "C85_complete"
   ],
   "note": "C85_enabled and C85_exact are proved in full. C85_named_partial holds if functions of a client and a server are the same, parameters are not passed further, addresses are not used in initializers and constant casts to integers, all functions are analyzed; refuted for each missing premise. Recursion is not modelled."
  },
  {
   "property": "C86",
   "status": "partial",
   "theorems": [
    "C86_covered_partial",
    "C86_covered_refuted_same",
    "C86_covered_refuted_unknown",
    "C86_covered_refuted_argument",
    "C86_exact",
    "C86_class"
   ],
   "note": "C86_exact and C86_class are proved in full. C86_covered_partial holds if different memory has different locations, locations are in the alias tree and memory of arguments has metadata; refuted otherwise: a location of a nested memory is erased although other memory has it too, a use of a location absent in the tree is lost silently, arguments without metadata do not raise a warning."
  },
  {
   "property": "C87",
   "status": "partial",
   "theorems": [
    "C87_match_partial",
    "C87_match_refuted_asserts",
    "C87_match_refuted_removed",
    "C87_match_refuted_header",
    "C87_implicit_partial",
    "C87_implicit_refuted_labels",
    "C87_once",
    "C87_reported_partial",
    "C87_reported_refuted_copies"
   ],
   "note": "C87_once is proved in full. C87_match_partial holds in a build without assertions if no loop of a repeated text is removed from IR and terminators of headers have locations of loops; refuted otherwise: with assertions enabled a visit of an initialization takes the last element of an empty queue and the analyzer terminates, a removed copy shifts pairs, remaining copies are dropped if locations differ. C87_implicit_partial holds if a header has one label, refuted for two labels. C87_reported_partial: each loop other than for with initialization is paired or reported; refuted for for loops: the third copy of a text is lost. That a pair for an implicit loop exists is shown on an example only."
  },
  {
   "property": "C88",
   "status": "proved",
   "theorems": [
    "C88_traits",
    "C88_deps"
   ],
   "note": "Both claims are proved in full for well-formed alias trees. checkFirstPrivate and unknown memory are not modelled here."
  },
  {
   "property": "C89",
   "status": "partial",
   "theorems": [
    "C89_cover_partial",
    "C89_cover_refuted_cycle",
    "C89_precise_partial",
    "C89_precise_refuted_shared",
    "C89_class",
    "C89_read",
    "C89_flags",
    "C89_kept_partial",
    "C89_kept_refuted_covered",
    "C89_total"
   ],
   "note": "C89_class, C89_read, C89_flags and C89_total are proved in full. C89_cover_partial: locations which other ones are accessed through are accessed directly (refuted otherwise: two locations accessed through each other are both skipped and the node is not accessed). C89_precise_partial: no private variable is shared (refuted otherwise: a flow dependence of another location becomes an arbitrary one). C89_kept_partial: for locations which are not skipped."
  },
  {
   "property": "C90",
   "status": "partial",
   "theorems": [
    "C90_atomic_partial",
    "C90_atomic_refuted_direct",
    "C90_atomic_refuted_copy",
    "C90_atomic_refuted_erase",
    "C90_success_partial",
    "C90_success_refuted_workdir",
    "C90_success_refuted_leave",
    "C90_failed_partial",
    "C90_failed_refuted_copy",
    "C90_create_error",
    "C90_abandon_partial",
    "C90_abandon_refuted_exists",
    "C90_erase_partial",
    "C90_erase_refuted_workdir",
    "C90_leftover_partial",
    "C90_leftover_refuted_copy",
    "C90_signal_partial",
    "C90_signal_refuted_direct",
    "C90_signal_refuted_copy",
    "C90_signal_refuted_fail",
    "C90_signal_refuted_moment",
    "C90_stdout",
    "C90_assert",
    "C90_works",
    "C90_special"
   ],
   "note": "C90_create_error, C90_stdout, C90_assert and C90_works are proved in full. C90_atomic_partial needs a temporary file which is renamed and kept (refuted for direct writing, for a copy and for an abandoned output: the previous file is removed although a temporary one has been used). C90_success_partial: direct writing ignores a working directory (refuted). C90_erase_partial: with a working directory a file of the current directory is removed (refuted). C90_abandon_partial: the file did not exist before (refuted otherwise). C90_signal_partial: the flag RemoveFileOnSignal is not used for direct writing (refuted). C90_failed_partial, C90_leftover_partial: LLVM does not copy a file."
  },
  {
   "property": "C91",
   "status": "partial",
   "theorems": [
    "C91_cover_partial",
    "C91_cover_refuted_hole",
    "C91_explicit_cover",
    "C91_sound",
    "C91_once",
    "C91_smallest",
    "C91_general_partial",
    "C91_general_refuted_unmarked",
    "C91_general_refuted_hole"
   ],
   "note": "C91_explicit_cover, C91_sound, C91_once and C91_smallest are proved in full. C91_cover_partial: traits of a node exist if traits of its child exist (refuted otherwise: a search is stopped at a node without traits). C91_general_partial: an explicitly accessed node is marked as redundant or not redundant (refuted otherwise)."
  },
  {
   "property": "C92",
   "status": "partial",
   "theorems": [
    "C92_same",
    "C92_untouched",
    "C92_uniform",
    "C92_kept",
    "C92_drop",
    "C92_reason",
    "C92_original_partial",
    "C92_original_refuted_changed",
    "C92_order_partial",
    "C92_order_refuted_changed",
    "C92_unknown_partial",
    "C92_unknown_refuted_dropped"
   ],
   "note": "C92_same, C92_untouched, C92_uniform, C92_kept, C92_reason and C92_drop are proved in full. C92_original_partial and C92_order_partial: nodes of pointers have no dependences (refuted otherwise: a pointer may become private during the correction, so that the result depends on the order of a hash table). C92_unknown_partial: a pointer is not in the set (refuted otherwise: unknown memory is not inspected and its dependence is dropped)."
  },
  {
   "property": "C93",
   "status": "partial",
   "theorems": [
    "C93_atomic_partial",
    "C93_atomic_refuted_direct",
    "C93_atomic_refuted_full",
    "C93_result_partial",
    "C93_result_refuted_same",
    "C93_main_partial",
    "C93_main_refuted_same",
    "C93_nofatal_partial",
    "C93_nofatal_refuted_closed",
    "C93_works",
    "C93_signal_partial",
    "C93_signal_refuted_middle",
    "C93_transaction_partial",
    "C93_transaction_refuted_two"
   ],
   "note": "C93_works is proved in full. C93_atomic_partial: temporary files can be created and a disk is not full; refuted otherwise (a file is written in place; an incomplete temporary file is moved over the source file because errors of a stream are checked after renaming). C93_result_partial and C93_main_partial: names of files are different (refuted for equal adjusted names). C93_nofatal_partial: files can be opened (refuted: a stream which is not opened is used, it crashes). C93_signal_partial: a signal arrives after a release (refuted: temporary files are not registered to be removed on a signal). C93_transaction_partial: a single file (refuted for two files). Not modelled: Windows, texts of diagnostics."
  },
  {
   "property": "C94",
   "status": "partial",
   "theorems": [
    "C94_distinct_partial",
    "C94_distinct_refuted_many",
    "C94_number_partial",
    "C94_number_refuted_many",
    "C94_place",
    "C94_sources_partial",
    "C94_sources_refuted_dots",
    "C94_total",
    "C94_history"
   ],
   "note": "C94_place, C94_total and C94_history are proved in full. C94_distinct_partial and C94_number_partial: a file is dumped less than 10000 times (refuted otherwise: the buffer stores 4 digits only, the name of the 10000th dump is equal to the name of the 1000th one). C94_sources_partial: names of source files contain a single dot (refuted for a.c and a.1.c). Not modelled: names . and .. and paths with a slash at the end."
  },
  {
   "property": "C95",
   "status": "partial",
   "theorems": [
    "C95_exit",
    "C95_exact_partial",
    "C95_exact_refuted_inner",
    "C95_entry_refuted",
    "C95_noentry",
    "C95_inside",
    "C95_single",
    "C95_call_partial",
    "C95_call_refuted_pointer",
    "C95_func",
    "C95_report",
    "C95_only",
    "C95_kind_partial",
    "C95_kind_refuted_goto"
   ],
   "note": "C95_exit, C95_inside, C95_single, C95_func, C95_report and C95_only are proved in full. C95_exact_partial: labels are outside of loops with their gotos (refuted otherwise: a goto to a label of the same loop is an exit). C95_entry_refuted: a goto into a loop is not marked for this loop, because labels are mapped to gotos instead of loops; C95_noentry: no loop has an entry. C95_call_partial: each declared callee is a function called in LLVM IR (refuted for a call by a pointer, its declaration is a variable and the call has no flags). C95_kind_partial: there are no gotos (refuted otherwise: a return and a goto share a slot of a report). Not modelled: range-based loops, computed gotos, exceptions, slots of visible functions."
  },
  {
   "property": "C96",
   "status": "partial",
   "theorems": [
    "C96_level_partial",
    "C96_level_refuted_implicit",
    "C96_level_refuted_macro",
    "C96_level_refuted_file",
    "C96_order_partial",
    "C96_order_refuted_macro",
    "C96_order_refuted_file",
    "C96_all",
    "C96_forest",
    "C96_total",
    "C96_unique_partial",
    "C96_unique_refuted_macro"
   ],
   "note": "C96_all, C96_forest and C96_total are proved in full. C96_level_partial and C96_order_partial: there are no implicit loops, different bounds of loops are produced by different expansions, they are in a single file. Refuted otherwise: an implicit loop is a labelled statement which ends before its goto; two loops from nested expansions of a macro have the same location; files are not compared. C96_unique_partial: beginnings of loops have different locations (refuted otherwise). Not modelled: traits of loops in the answer."
  },
  {
   "property": "C97",
   "status": "partial",
   "theorems": [
    "C97_collect_partial",
    "C97_collect_refuted_null",
    "C97_collect_refuted_include",
    "C97_only_partial",
    "C97_only_refuted_null",
    "C97_only_refuted_define",
    "C97_total_partial",
    "C97_total_refuted_null",
    "C97_total_refuted_include",
    "C97_total_refuted_define",
    "C97_search_partial",
    "C97_search_refuted_null",
    "C97_search_refuted_include",
    "C97_search_refuted_outside",
    "C97_once",
    "C97_noassert_partial",
    "C97_noassert_refuted_null",
    "C97_assert",
    "C97_checked_partial",
    "C97_checked_refuted_end"
   ],
   "note": "C97_once and C97_assert are proved in full. C97_collect_partial, C97_only_partial, C97_total_partial and C97_search_partial: there are no null directives, each #include names a file, each #define names a macro, macros are defined in visited files. Refuted otherwise: a directive after a null directive is lost, '#include <' without '>' hides next lines (or is an infinite loop at the end of a file), '#include NAME' and '#define' without a name violate an assertion, a macro from a command line is not found if it is expanded to tokens without locations in AST. C97_noassert_partial: no null directives in a range (refuted otherwise). C97_checked_partial: there is a statement after each clause in its block (otherwise the next statement after the block is checked). Not modelled: names of included files, TypeLoc, texts of diagnostics."
  },
  {
   "property": "C98",
   "status": "partial",
   "theorems": [
    "C98_files_partial",
    "C98_files_refuted_shared",
    "C98_kinds",
    "C98_variables",
    "C98_functions_partial",
    "C98_functions_refuted_units",
    "C98_user_partial",
    "C98_user_refuted_common",
    "C98_loops_partial",
    "C98_loops_refuted_units",
    "C98_parallel_partial",
    "C98_parallel_refuted_common",
    "C98_traits_partial",
    "C98_traits_refuted_common",
    "C98_traits_refuted_mixed",
    "C98_order_partial",
    "C98_order_refuted_loops"
   ],
   "note": "C98_kinds and C98_variables are proved in full. C98_files_partial: units have no common files (refuted otherwise, a header is counted in each unit). C98_functions_partial and C98_loops_partial: a single unit (refuted otherwise: functions of a module are counted for each unit, loops of the first unit only are stored). C98_user_partial and C98_parallel_partial: functions are declared in separate units (refuted otherwise). C98_traits_partial: in addition accessed locations have traits of their node (refuted otherwise: traits of a node are counted for each location). C98_order_partial: all counters except loops (refuted for loops). Not modelled: construction of the matchers, a mapping of loops between servers, serialization."
  },
  {
   "property": "C99",
   "status": "partial",
   "theorems": [
    "C99_fresh",
    "C99_valid_partial",
    "C99_valid_refuted_spec",
    "C99_valid_refuted_label",
    "C99_valid_refuted_array",
    "C99_same_partial",
    "C99_same_refuted_scope",
    "C99_same_refuted_label",
    "C99_same_refuted_array",
    "C99_replaced",
    "C99_identity_partial",
    "C99_identity_refuted_array",
    "C99_declared"
   ],
   "note": "C99_fresh, C99_replaced and C99_declared are proved in full. C99_valid_partial: no constants in subscripts in a specification part, no label before the first statement in the free form, no named constants which are arrays. Refuted otherwise: a variable is used in a specification part, a label is moved to a declaration, a name of a constant array is replaced with a scalar. C99_same_partial: in addition all names are visible to the search (refuted for names of inner scopes). C99_identity_partial: no constant arrays (refuted otherwise). Not modelled: parsing, provenance, macros and included files, kinds of values, several subscripts, structured statements (conditional jumps are used), DATA semantics."
  },
  {
   "property": "C100",
   "status": "partial",
   "theorems": [
    "C100_created",
    "C100_class_partial",
    "C100_class_refuted",
    "C100_scope",
    "C100_reported_partial",
    "C100_reported_refuted",
    "C100_replace_partial",
    "C100_replace_refuted",
    "C100_insert_partial",
    "C100_insert_refuted",
    "C100_modified_partial",
    "C100_modified_refuted",
    "C100_noticed"
   ],
   "note": "C100_created, C100_scope and C100_noticed are proved in full. C100_class_partial: a place outside of files is after all files (refuted otherwise: a macro before an included file is reported as included). C100_reported_partial: replacements (refuted for insertions which are always reported as failures). C100_replace_partial and C100_insert_partial: ends of a range are characters of a cooked source, the first edit (refuted for ignored characters, e.g. comments: they are mapped to the beginning of a file). C100_modified_partial: the first question (refuted for next ones: a positive answer is stored). Not modelled: Flang, print, ReplacedSize."
  },
  {
   "property": "C101",
   "status": "partial",
   "theorems": [
    "C101_stops_partial",
    "C101_stops_refuted_loop",
    "C101_stops_refuted_group",
    "C101_sound_partial",
    "C101_complete_partial",
    "C101_complete_refuted"
   ],
   "note": "C101_stops_partial and C101_sound_partial: repeated parts are not empty (otherwise recognition does not stop, refuted), groups in choices do not directly contain obligatory repetitions and choices (otherwise an assertion fails, refuted), variants of choices are tokens and groups. All clauses of Directives.td have such form. C101_complete_partial: the next token determines what to do (refuted otherwise: an optional part is never reconsidered). Not modelled: lexing, locations, code which is generated for single tokens, names of directives and clauses."
  },
  {
   "property": "C102",
   "status": "partial",
   "theorems": [
    "C102_namespace_partial",
    "C102_namespace_refuted",
    "C102_directive_partial",
    "C102_directive_refuted",
    "C102_clause_partial",
    "C102_clause_refuted",
    "C102_prototype",
    "C102_found_partial",
    "C102_found_refuted_body",
    "C102_found_refuted_name",
    "C102_unknown_partial",
    "C102_unknown_refuted",
    "C102_select",
    "C102_realign_refuted"
   ],
   "note": "C102_prototype is proved in full, as well as C102_select. C102_namespace_partial, C102_directive_partial, C102_clause_partial, C102_unknown_partial: names of invalid identifiers are excluded (refuted otherwise: not_namespace is found, an assertion fails for not_directive and not_clause). C102_found_partial: the directive has no body (refuted otherwise: after the body each token is processed as a body again, so clauses are lost). C102_realign_refuted: the body of realign belongs to another directive in Directives.td, so an error is reported for each text. Not modelled: generated tokens and their parsing, locations, removal of pragmas."
  },
  {
   "property": "C103",
   "status": "partial",
   "theorems": [
    "C103_tree",
    "C103_root",
    "C103_count_partial",
    "C103_count_refuted",
    "C103_find_partial",
    "C103_find_refuted"
   ],
   "note": "C103_tree and C103_root are proved in full for one translation unit. C103_count_partial: no internal declarations (refuted otherwise: they are counted as top-level files). C103_find_partial: one translation unit (refuted otherwise: the map is indexed by an identifier which is local for a translation unit, so files of different units are mixed). Not modelled: order of children, iteration over nodes, graphs for printing."
  }
 ]
}