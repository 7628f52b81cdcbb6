{
 "claims": [
  {
   "property": "C01",
   "status": "proved",
   "theorems": [
    "einsum_computes_the_einstein_sum",
    "einsum_outcome_on_every_well_formed_call"
   ],
   "note": ""
  },
  {
   "property": "C02",
   "status": "proved",
   "theorems": [
    "result_shape"
   ],
   "note": ""
  },
  {
   "property": "C03",
   "status": "proved",
   "theorems": [
    "validation_accepts_exactly_well_formed_calls",
    "einsum_rejects_exactly_malformed_calls",
    "einsum_path_rejects_malformed_calls"
   ],
   "note": ""
  },
  {
   "property": "C04",
   "status": "proved",
   "theorems": [
    "parser_recognises_grammar",
    "parser_is_the_regular_expression",
    "parser_rejects_everything_else",
    "grammar_is_unambiguous",
    "accepted_characters"
   ],
   "note": ""
  },
  {
   "property": "C05",
   "status": "proved",
   "theorems": [
    "implicit_output_labels",
    "implicit_is_explicit"
   ],
   "note": ""
  },
  {
   "property": "C06",
   "status": "proved",
   "theorems": [
    "summation_labels"
   ],
   "note": ""
  },
  {
   "property": "C07",
   "status": "proved",
   "theorems": [
    "valid_calls_do_not_panic"
   ],
   "note": ""
  },
  {
   "property": "C08",
   "status": "proved",
   "theorems": [
    "empty_diagonal_refuted",
    "empty_operand_with_repeated_label_panics",
    "well_formed_call_panics_exactly_when_blocked"
   ],
   "note": "The expected behaviour is refuted; the exact set of panicking calls is proved."
  },
  {
   "property": "C09",
   "status": "proved",
   "theorems": [
    "hash_order_is_irrelevant"
   ],
   "note": ""
  },
  {
   "property": "C10",
   "status": "proved",
   "theorems": [
    "operand_layout_is_irrelevant",
    "operand_layout_is_irrelevant_refuted"
   ],
   "note": "Proved except for empty operands with repeated labels, for which it is refuted (see C08)."
  },
  {
   "property": "C11",
   "status": "proved",
   "theorems": [
    "naive_and_reverse_agree"
   ],
   "note": ""
  },
  {
   "property": "C12",
   "status": "proved",
   "theorems": [
    "compiled_path_is_reusable"
   ],
   "note": ""
  },
  {
   "property": "C13",
   "status": "proved",
   "theorems": [
    "path_structure"
   ],
   "note": ""
  },
  {
   "property": "C14",
   "status": "proved",
   "theorems": [
    "unsupported_strategies"
   ],
   "note": ""
  },
  {
   "property": "C15",
   "status": "proved",
   "theorems": [
    "step_labels",
    "each_label_summed_once"
   ],
   "note": ""
  },
  {
   "property": "C16",
   "status": "proved",
   "theorems": [
    "rearrangement_is_exact"
   ],
   "note": ""
  },
  {
   "property": "C17",
   "status": "proved",
   "theorems": [
    "tensordot_is_correct",
    "tensordot_agrees_with_einsum"
   ],
   "note": ""
  },
  {
   "property": "C18",
   "status": "proved",
   "theorems": [
    "tensordot_rejects",
    "tensordot_panics_exactly",
    "tensordot_outcome",
    "tensordot_rejects_mismatched_axes_refuted"
   ],
   "note": "Rejection of bad axis lists proved with the exact outcome on every other call; rejection of mismatched paired lengths refuted."
  },
  {
   "property": "C19",
   "status": "proved",
   "theorems": [
    "as_einsum_string_round_trip"
   ],
   "note": ""
  },
  {
   "property": "C20",
   "status": "proved",
   "theorems": [
    "subset_succeeds_exactly",
    "subset_contraction_value"
   ],
   "note": "A subset with no operands at all validates but panics when contracted (example beside the theorem)."
  },
  {
   "property": "C21",
   "status": "proved",
   "theorems": [
    "label_lengths"
   ],
   "note": ""
  },
  {
   "property": "C22",
   "status": "proved",
   "theorems": [
    "operand_order_is_irrelevant"
   ],
   "note": ""
  },
  {
   "property": "C23",
   "status": "proved",
   "theorems": [
    "label_names_are_irrelevant"
   ],
   "note": ""
  },
  {
   "property": "C24",
   "status": "proved",
   "theorems": [
    "einsum_is_additive_in_each_operand",
    "einsum_is_homogeneous_in_each_operand"
   ],
   "note": ""
  },
  {
   "property": "C25",
   "status": "proved",
   "theorems": [
    "too_few_operands_panic",
    "surplus_operands_are_ignored",
    "sized_contraction_operands",
    "running_never_errs",
    "mismatched_operands_panic_refuted"
   ],
   "note": "Too few operands always panic and surplus ones are ignored; rejection of mismatched shapes is refuted."
  },
  {
   "property": "C26",
   "status": "proved",
   "theorems": [
    "intermediate_size_bound",
    "intermediate_size_bound_no_empty_axis",
    "intermediate_size_bound_refuted"
   ],
   "note": "Proved with empty axes counted as length one, and as stated when no axis is empty; refuted as stated when a summed axis is empty."
  },
  {
   "property": "C27",
   "status": "proved",
   "theorems": [
    "message_varies_exactly",
    "error_message_determined_otherwise",
    "error_message_determined_refuted"
   ],
   "note": "The full property is refuted; the exact set of calls whose message varies is proved."
  },
  {
   "property": "C28",
   "status": "proved",
   "theorems": [
    "empty_sums_are_zero"
   ],
   "note": ""
  },
  {
   "property": "C29",
   "status": "proved",
   "theorems": [
    "multiplication_order_refuted"
   ],
   "note": "Refuted, with two by two matrices as scalars."
  },
  {
   "property": "C30",
   "status": "proved",
   "theorems": [
    "contractors_are_correct",
    "stacked_handles_every_pair_refuted"
   ],
   "note": "Each pair contractor proved on the contractions its documentation names; the documented universality of StackedTensordotGeneral is refuted."
  },
  {
   "property": "C31",
   "status": "proved",
   "theorems": [
    "diagonalization_and_summation_is_general",
    "nothing_to_sum_panics",
    "diagonalization_and_summation_universal_refuted"
   ],
   "note": "Proved when some index is summed; refuted when none is."
  },
  {
   "property": "C32",
   "status": "proved",
   "theorems": [
    "step_products_bounded",
    "step_products_do_not_overflow",
    "path_products_do_not_overflow",
    "tensordot_products_do_not_overflow",
    "products_of_representable_operands_refuted"
   ],
   "note": ""
  },
  {
   "property": "C33",
   "status": "proved",
   "theorems": [
    "wrapping_integers",
    "machine_integers_wrap"
   ],
   "note": ""
  },
  {
   "property": "C34",
   "status": "proved",
   "theorems": [
    "staged_evaluation"
   ],
   "note": ""
  },
  {
   "property": "C35",
   "status": "proved",
   "theorems": [
    "diagonal_views_stay_inside",
    "diagonal_of_any_layout",
    "empty_diagonal_panics"
   ],
   "note": ""
  },
  {
   "property": "C36",
   "status": "proved",
   "theorems": [
    "special_cases"
   ],
   "note": ""
  },
  {
   "property": "C37",
   "status": "proved",
   "theorems": [
    "stride_sums_do_not_overflow",
    "stride_sums_of_two",
    "stride_sums_do_not_overflow_refuted"
   ],
   "note": "Refuted for three or more axes of length one with the same label."
  },
  {
   "property": "C38",
   "status": "proved",
   "theorems": [
    "messages_describe_the_defect",
    "described_messages_occur",
    "rejected_exactly_with_defect",
    "einsum_messages",
    "subset_messages"
   ],
   "note": ""
  },
  {
   "property": "C39",
   "status": "proved",
   "theorems": [
    "einsum_respects_relations",
    "tensordot_respects_relations",
    "einsum_stays_in_closed_sets",
    "einsum_commutes_with_homomorphisms",
    "interval_einsum_encloses"
   ],
   "note": ""
  },
  {
   "property": "C40",
   "status": "proved",
   "theorems": [
    "einsum_rounding_error",
    "einsum_relative_error",
    "tensordot_rounding_error"
   ],
   "note": "Relative and absolute (underflow) error per operation, fused or not."
  },
  {
   "property": "C41",
   "status": "proved",
   "theorems": [
    "direct_calls_are_reproducible",
    "calls_are_reproducible_refuted"
   ],
   "note": "Proved for direct calls, refuted in general with four-bit rounding scalars."
  },
  {
   "property": "C42",
   "status": "proved",
   "theorems": [
    "compiled_paths_follow_the_plan",
    "plans_determine_the_methods",
    "step_strings_mean_the_step",
    "step_strings_parse_refuted",
    "pair_summaries_count_the_labels",
    "singleton_summaries_count_the_labels"
   ],
   "note": "The stored strings are as described and parse exactly when both simplified operands keep a label; that they always parse is refuted."
  },
  {
   "property": "C43",
   "status": "proved",
   "theorems": [
    "singleton_debug_brackets_match",
    "pair_debug_brackets_never_match",
    "debug_brackets_match_refuted"
   ],
   "note": "The output for one operand is well bracketed; for two or more it never is (the closing brace of PairContraction is missing)."
  },
  {
   "property": "C44",
   "status": "proved",
   "theorems": [
    "undocumented_pairs_panic",
    "fixed_position_exactly",
    "fixed_position_refuses_refuted",
    "singleton_contractors_are_correct",
    "undocumented_singletons_panic",
    "singleton_constructors_refuse_refuted",
    "constructors_count_operands",
    "all_constructors_count_operands_refuted"
   ],
   "note": "Proved for every pair contractor but TensordotFixedPosition and for Permutation and DiagonalizationAndSummation; refuted for TensordotFixedPosition, Identity, Summation, Diagonalization and PermutationAndSummation. The crate itself selects contractors only for contractions they are documented for."
  },
  {
   "property": "C45",
   "status": "proved",
   "theorems": [
    "valid_orders_compute_the_einstein_sum",
    "valid_orders_respect_relations",
    "valid_orders_agree",
    "generated_orders_are_valid",
    "every_tree_has_a_valid_order",
    "orders_are_checked_refuted"
   ],
   "note": "That invalid orders are refused is refuted."
  },
  {
   "property": "C46",
   "status": "proved",
   "theorems": [
    "only_labels_and_lengths_matter",
    "complete_contractions_compile_exactly",
    "hand_built_contractions_compute",
    "contraction_and_operands_outcome",
    "accepted_contractions_run_refuted",
    "strings_of_hand_built_contractions_refuted",
    "orders_compile_exactly",
    "compiled_orders_run_refuted"
   ],
   "note": "That accepted contractions can be run, that their strings denote them, and that an order that compiles runs on operands of the recorded lengths, is refuted."
  },
  {
   "property": "C47",
   "status": "proved",
   "theorems": [
    "bad_values_are_not_lost",
    "structural_zeros_stay_zero",
    "bad_values_come_from_factors_refuted"
   ],
   "note": "The converse of the first part is refuted: an empty sum, zero, is multiplied with operands whose elements occur in no term."
  },
  {
   "property": "C48",
   "status": "proved",
   "theorems": [
    "stored_values_are_read_back",
    "stored_contractions_run_the_same",
    "stored_paths_can_be_compiled_again",
    "stored_text_is_reproducible_refuted",
    "fields_are_read_in_any_order",
    "every_field_is_given_once",
    "reading_validates_refuted"
   ],
   "note": "That what is stored is reproducible and that reading validates are refuted."
  },
  {
   "property": "C49",
   "status": "proved",
   "theorems": [
    "einstein_sum_without_absorbing_zero",
    "relations_without_absorbing_zero",
    "relations_without_zero",
    "valid_orders_without_absorbing_zero",
    "bad_values_come_from_factors",
    "bad_values_are_exactly_those_with_bad_factors",
    "einstein_sum_without_absorbing_zero_refuted",
    "tensordot_is_correct",
    "tensordot_relations_without_zero"
   ],
   "note": "Without the condition that no sum is empty it is refuted."
  },
  {
   "property": "C50",
   "status": "proved",
   "theorems": [
    "einsum_size_limit",
    "compiled_size_limit",
    "size_limit_not_reached",
    "limit_only_adds_panics",
    "results_are_within_the_limit",
    "tensordot_size_limit",
    "calls_on_representable_operands_return_refuted",
    "strategies_return_alike_refuted"
   ],
   "note": "That every well-formed call on representable operands returns, and that the strategies agree on it, is refuted."
  },
  {
   "property": "C51",
   "status": "proved",
   "theorems": [
    "hadamard_product_of_any_operands",
    "scalar_products_of_any_operands",
    "fixed_position_products_of_any_operands",
    "rearrangements_of_any_operand",
    "sums_of_any_operand",
    "reused_paths_keep_the_shape_refuted",
    "general_hadamard_product_of_any_operands",
    "general_scalar_products_of_any_operands",
    "general_products_of_any_operands",
    "stacked_products_of_any_operands",
    "rearranged_sums_of_any_operand",
    "diagonals_of_any_operand",
    "diagonals_of_longer_operands",
    "diagonal_sums_of_longer_operands",
    "diagonal_sums_of_any_operand",
    "diagonal_sums_of_contiguous_operands",
    "broadcast_product_of_any_operands",
    "reused_paths_ignore_the_layout_refuted"
   ],
   "note": "Refuted: that a reused path returns an array of the compiled shape, and that it ignores the layout of operands of other shapes. diagonal_sums_of_any_operand covers row-major operands and those copied first, diagonal_sums_of_contiguous_operands those whose memory is used as it is; every contractor is covered."
  },
  {
   "property": "C52",
   "status": "proved",
   "theorems": [
    "float_arithmetic_rounds",
    "float_einsum_error",
    "float_tensordot_error",
    "einsum_does_not_overflow",
    "float_einsum_does_not_overflow",
    "einsum_exact_on_integers",
    "float_einsum_exact_on_integers",
    "float_einsum_exact_on_integers_refuted",
    "float_einsum_does_not_overflow_refuted",
    "tensordot_does_not_overflow",
    "float_tensordot_does_not_overflow",
    "tensordot_exact_on_integers",
    "float_tensordot_exact_on_integers"
   ],
   "note": "For every binary format; without the bound exactness is refuted, with an empty sum absence of overflow is."
  },
  {
   "property": "C53",
   "status": "proved",
   "theorems": [
    "einsum_work",
    "compiled_work",
    "tensordot_work",
    "work_bounded",
    "strategies_sum_alike",
    "matrix_chain_work",
    "work_bounded_refuted",
    "strategies_work_alike_refuted"
   ],
   "note": "The bound by direct evaluation is refuted with an empty axis; that the strategies take about the same number of products is refuted."
  },
  {
   "property": "C54",
   "status": "proved",
   "theorems": [
    "assignment_writes_exactly_the_view",
    "contract_and_assign_writes_the_result",
    "pair_contraction_into_a_view",
    "contract_and_assign_checks_the_shape_refuted"
   ],
   "note": "That a result of another shape than the view panics is refuted."
  },
  {
   "property": "C55",
   "status": "proved",
   "theorems": [
    "orders_run_step_by_step",
    "dangling_orders_panic",
    "valid_orders_fit",
    "squarings_compute_powers",
    "steps_check_lengths_refuted"
   ],
   "note": "That steps check the lengths they record is refuted; what the contractors do with other shapes is C51."
  },
  {
   "property": "C56",
   "status": "proved",
   "theorems": [
    "loops_compute_what_einsum_returns",
    "tests_of_one_operand",
    "tests_of_two_operands",
    "tests_of_three_operands",
    "test_of_four_operands",
    "tests_of_tensordot"
   ],
   "note": "The parser tests and the tests at their own shapes are examples in RepoTests.v; for floating-point numbers see C40 and C52."
  },
  {
   "property": "C57",
   "status": "proved",
   "theorems": [
    "adjoint_is_an_einsum",
    "gradient_is_an_einsum"
   ],
   "note": "Labels that repeat in the operand, or occur nowhere else, are excluded: no einsum string asks for such an array."
  },
  {
   "property": "C58",
   "status": "proved",
   "theorems": [
    "kept_labels_in_blocks",
    "summed_labels_in_blocks",
    "merged_labels"
   ],
   "note": ""
  },
  {
   "property": "C59",
   "status": "proved",
   "theorems": [
    "operands_of_ones",
    "operands_of_zeros",
    "identity_matrices"
   ],
   "note": ""
  },
  {
   "property": "C60",
   "status": "proved",
   "theorems": [
    "related_elements_give_related_results",
    "outcome_does_not_depend_on_the_elements",
    "each_element_is_a_fixed_expression",
    "expressions_mention_exactly_the_factors",
    "other_elements_do_not_matter",
    "maps_of_the_arithmetic_commute_with_calls",
    "signs_of_zeros_reach_only_zeros"
   ],
   "note": ""
  },
  {
   "property": "C61",
   "status": "proved",
   "theorems": [
    "overflow_checks_only_add_panics",
    "bad_scalars_are_never_lost",
    "bad_scalars_are_never_lost_in_valid_orders",
    "checked_results_are_exact",
    "checked_tensordot_is_exact",
    "checked_calls_return",
    "checked_positive_integers",
    "checked_signed_and_unsigned",
    "checked_calls_return_refuted",
    "strategies_overflow_alike_refuted",
    "bad_scalars_are_never_lost_refuted"
   ],
   "note": "Refuted: that a call returns whenever the elements of its result fit, that the two strategies overflow together, and that an overflow shows in the result when a label has length zero."
  },
  {
   "property": "C62",
   "status": "proved",
   "theorems": [
    "graded_elements_give_graded_results",
    "negated_operands_negate_the_result",
    "signs_multiply",
    "powers_of_two_pass_through",
    "smaller_operands_give_smaller_results",
    "calls_are_monotone_in_each_operand",
    "finite_results_have_finite_factors",
    "powers_of_two_pass_through_refuted"
   ],
   "note": "Zeros of either sign count as equal. Refuted: that powers of two pass through where products can fall below the smallest number."
  },
  {
   "property": "C63",
   "status": "proved",
   "theorems": [
    "orders_work",
    "squarings_work",
    "orders_compile_without_overflow",
    "orders_size_limit",
    "strategies_are_near_the_best_order_refuted"
   ],
   "note": "Any list of pair steps. Refuted: that the better of the two strategies takes at most a constant multiple of the products of every valid order."
  },
  {
   "property": "C64",
   "status": "proved",
   "theorems": [
    "steps_hold_bounded_storage",
    "settled_steps_hold",
    "orders_hold",
    "calls_hold",
    "single_operand_calls_hold",
    "tensordot_holds",
    "single_operand_calls_hold_exactly",
    "steps_hold_exactly",
    "tensordot_holds_exactly",
    "storage_is_linear_in_operands_and_result_refuted"
   ],
   "note": "Refuted: that the peak is at most a constant multiple of the operands and the result; all intermediate results are kept to the end of a call."
  },
  {
   "property": "C65",
   "status": "proved",
   "theorems": [
    "unbounded_build_is_the_model",
    "checks_decide",
    "builds_agree_on_sized_calls",
    "builds_agree_on_tensordot",
    "long_runs_of_a_label",
    "builds_panic_alike_refuted",
    "wrapping_reads_all_strings_refuted"
   ],
   "note": "Refuted: that a build without checks panics wherever one with checks does (a contraction made by hand), and that it reads every string as the model does (a label repeated more than 2^32 times)."
  },
  {
   "property": "C66",
   "status": "proved",
   "theorems": [
    "legible_texts_are_read_uniquely",
    "debug_shows_the_stored_form",
    "debug_determines_values",
    "debug_shows_the_steps",
    "debug_determines_the_steps",
    "debug_determines_results_refuted",
    "debug_is_reproducible_refuted"
   ],
   "note": "Labels are lower-case letters or need no escape. Refuted: that equal texts mean equal results (the operands of the steps are not shown), and that the text of a call is the same in every run (hash order)."
  },
  {
   "property": "C67",
   "status": "proved",
   "theorems": [
    "dual_runs_differentiate",
    "runs_move_by_the_derivative",
    "dual_tensordot_differentiates",
    "complex_runs"
   ],
   "note": "Scalars chosen by the caller: dual numbers over any commutative semiring, complex numbers over any commutative ring."
  },
  {
   "property": "C68",
   "status": "proved",
   "theorems": [
    "unit_operands",
    "einsum_is_determined_by_unit_operands",
    "unit_operands_of_tensordot",
    "tensordot_is_determined_by_unit_operands"
   ],
   "note": ""
  },
  {
   "property": "C69",
   "status": "proved",
   "theorems": [
    "benchmarks_match_the_builtins",
    "benchmarks_of_outer_products",
    "benchmarks_use_these_contractors",
    "benchmarks_work"
   ],
   "note": ""
  },
  {
   "property": "C70",
   "status": "proved",
   "theorems": [
    "einsum_moves_terms",
    "einsum_is_backward_stable",
    "backward_stability_of_all_calls_refuted",
    "float_einsum_is_backward_stable"
   ],
   "note": "backward_stability_of_all_calls_refuted: without an operand that has every label the claim fails."
  },
  {
   "property": "C71",
   "status": "proved",
   "theorems": [
    "multi_axis_iterator_visits_every_position",
    "multi_axis_iterator_panics_on_empty_axes",
    "multi_axis_iterator_visits_no_empty_axes_refuted",
    "multi_axis_iterator_refuses_missing_axes",
    "multi_axis_iterator_refuses_repeated_axes_refuted",
    "adding_up_the_items_is_einsum"
   ],
   "note": "The file is commented out in the crate. Refuted: that axes of length zero are visited zero times, and that repeated axes are refused."
  },
  {
   "property": "C72",
   "status": "proved",
   "theorems": [
    "ndarray_is_a_backend",
    "einsum_outcome_on_ndarray",
    "copies_keep_the_layout",
    "products_keep_the_layout",
    "sums_are_row_major",
    "sums_add_in_order",
    "multipliers_add_in_order",
    "tensordot_adds_in_order",
    "tensordot_ignores_layout",
    "einsum_ignores_layout_refuted"
   ],
   "note": "ndarray's sources are not in /repo: NdSchedule.v writes its choices down as known of version 0.15, which cannot be checked here, and is used by this property and one theorem of C73 only. Refuted: that einsum is independent of the layout of its operands to the last bit."
  },
  {
   "property": "C73",
   "status": "proved",
   "theorems": [
    "memory_orders_do_not_show",
    "backends_that_add_alike_agree",
    "tensordot_hides_memory_orders",
    "paths_hide_memory_orders",
    "products_ignore_layout_on_ndarray"
   ],
   "note": "Paths: for the two strategies that are implemented. The last theorem is about the reading of ndarray in NdSchedule.v."
  },
  {
   "property": "C74",
   "status": "proved",
   "theorems": [
    "einsum_holds_its_products",
    "paths_hold_their_products",
    "product_of_two_is_exact",
    "matrix_product_on_ndarray"
   ],
   "note": "The array library may add up the products of a matrix product in any way that does not look at the layout; the last theorem uses the reading of ndarray in NdSchedule.v. With three operands or more the order of the labels of the results in between is left open, because it depends on the seeds of the hash maps. Paths: for the two strategies that are implemented."
  },
  {
   "property": "C75",
   "status": "proved",
   "theorems": [
    "einsum_is_exact",
    "paths_are_exact",
    "sum_of_one_is_exact",
    "sum_of_one_is_fixed",
    "einsum_is_exact_on_ndarray",
    "sum_of_one_label_on_ndarray"
   ],
   "note": "For calls that return a result; which calls do is C07 and C08. How terms along an axis are added up may depend on the layout, so their sum is any the array library makes of them; the last two theorems use the reading of ndarray in NdSchedule.v. The order of the labels of a reduced operand is left open, because it depends on the seeds of the hash maps. Paths: for the two strategies that are implemented."
  },
  {
   "property": "C76",
   "status": "proved",
   "theorems": [
    "writing_does_not_show",
    "names_do_not_show",
    "names_of_one_do_not_show",
    "axes_do_not_show",
    "swapping_does_not_show",
    "transposed_product_on_ndarray",
    "swapping_on_ndarray",
    "names_never_show_refuted",
    "axes_never_show_refuted",
    "swapping_never_shows_refuted"
   ],
   "note": "For one operand, and for two operands neither of which repeats a label or has a summed label of its own. The unrestricted claims are refuted, each by a call on f64 with ndarray's own sums. The theorems named after ndarray and the refutations use the reading of ndarray in NdSchedule.v."
  },
  {
   "property": "C77",
   "status": "proved",
   "theorems": [
    "tensordot_is_einsum_to_the_last_bit",
    "tensordot_is_einsum_on_ndarray",
    "unsummed_products_are_products",
    "outer_tensordot_is_products",
    "tensordot_is_einsum_in_any_order_refuted",
    "outer_products_keep_signs_refuted"
   ],
   "note": "The calls that sum nothing have two operands or more, none of which repeats a label. The unrestricted claims are refuted, each by a call on f64 with ndarray's own products. All but the first theorem use the reading of ndarray in NdSchedule.v."
  },
  {
   "property": "C78",
   "status": "proved",
   "theorems": [
    "documented_axis_sum",
    "documented_transpose",
    "documented_diagonal",
    "documented_product",
    "trace_on_ndarray",
    "documented_trace",
    "documented_trace_of_slices_refuted"
   ],
   "note": "The tensordot examples of the documentation are C77. The last three theorems use the reading of ndarray in NdSchedule.v. The equality for traces is refuted for slices, by the trace of every second column of a matrix of f64."
  },
  {
   "property": "C79",
   "status": "proved",
   "theorems": [
    "tensordot_moves_terms",
    "tensordot_is_backward_stable",
    "tensordot_is_backward_stable_on_the_right",
    "float_tensordot_is_backward_stable",
    "backward_stability_of_all_tensordots_refuted"
   ],
   "note": "backward_stability_of_all_tensordots_refuted: if both operands keep an axis the claim fails."
  },
  {
   "property": "C80",
   "status": "proved",
   "theorems": [
    "rounded_operands_move_the_sum",
    "precisions_differ_by_at_most",
    "runs_differ_by_at_most",
    "float_precisions_differ_by_at_most",
    "float_runs_differ_by_at_most",
    "relative_error_of_all_calls_refuted"
   ],
   "note": "For elements that represent numbers in both runs. The error bound is that of C40."
  },
  {
   "property": "C81",
   "status": "proved",
   "theorems": [
    "tensordot_ignores_the_order_of_pairs",
    "tensordot_of_swapped_operands",
    "tensordot_is_linear",
    "tensordot_associates"
   ],
   "note": "Over commutative semirings, so for exact arithmetic; rounding is C77, C79 and C82."
  },
  {
   "property": "C82",
   "status": "proved",
   "theorems": [
    "rounded_operands_move_the_dot",
    "dots_in_two_precisions_differ_by_at_most",
    "dots_differ_by_at_most",
    "dot_and_einsum_differ_by_at_most",
    "float_dots_in_two_precisions_differ_by_at_most",
    "float_dots_differ_by_at_most",
    "float_dot_and_einsum_differ_by_at_most"
   ],
   "note": "For elements that represent numbers in both runs. The error bound of tensordot is that of tensordot_rounding_error (C40)."
  },
  {
   "property": "C83",
   "status": "proved",
   "theorems": [
    "tensordot_of_permuted_operands",
    "tensordot_of_permuted_operands_on_ndarray",
    "tensordot_of_permuted_operands_in_any_order",
    "tensordot_of_swapped_operands_to_the_last_bit",
    "float_tensordot_of_swapped_operands"
   ],
   "note": "tensordot_of_permuted_operands_on_ndarray and float_tensordot_of_swapped_operands use the reading of ndarray in NdSchedule.v."
  },
  {
   "property": "C84",
   "status": "proved",
   "theorems": [
    "nested_dots_compute",
    "nested_dots_rounding_error",
    "nested_dots_differ_by_at_most",
    "ways_of_nesting_differ_by_at_most",
    "float_nested_dots_error",
    "float_ways_of_nesting_differ_by_at_most"
   ],
   "note": "Differences are for elements that represent numbers both ways. nested_dots_compute is over commutative semirings."
  },
  {
   "property": "C85",
   "status": "proved",
   "theorems": [
    "standard_layout_is_row_major",
    "reshaping_reads_memory_in_order",
    "only_row_major_arrays_are_reshaped"
   ],
   "note": "into_shape and is_standard_layout are those of ndarray 0.15 as modelled in NDArray.v."
  },
  {
   "property": "C86",
   "status": "proved",
   "theorems": [
    "arrays_approximate_themselves",
    "einsum_of_approximations",
    "tensordot_of_approximations",
    "nested_dots_roundings_add_up",
    "float_einsum_of_approximations",
    "float_nested_dots_roundings_add_up"
   ],
   "note": "For elements of the result that represent numbers; the bound has the form of that of C40, with a second term for underflow."
  },
  {
   "property": "C87",
   "status": "proved",
   "theorems": [
    "staged_rounding_error",
    "staging_rounds_no_more",
    "staged_and_single_differ_by_at_most",
    "float_staged_rounding_error",
    "float_staged_and_single_differ_by_at_most"
   ],
   "note": "Differences are for elements that represent numbers both ways. The exact case is C34."
  },
  {
   "property": "C88",
   "status": "proved",
   "theorems": [
    "programs_respect_relations",
    "programs_compute",
    "programs_return",
    "programs_agree",
    "programs_rounding_error",
    "program_runs_differ_by_at_most",
    "float_programs_rounding_error"
   ],
   "note": "The programs are those of a user of the crate; call_fits excludes calls that panic because an operand with a repeated label has an empty axis (C08)."
  },
  {
   "property": "C89",
   "status": "proved",
   "theorems": [
    "stored_steps_are_read",
    "stored_steps_say_the_methods_and_no_more",
    "stored_steps_are_those_of_the_stored_order"
   ],
   "note": "The crate has no reader of steps; the reader is the specification, written from the declarations. Recompiling uses the hash order of the compilation that was stored."
  },
  {
   "property": "C90",
   "status": "proved",
   "theorems": [
    "methods_follow_from_the_string",
    "simplification_methods_are_reproducible_refuted",
    "valid_orders_use_the_same_methods",
    "stored_methods_are_used_again"
   ],
   "note": "The refuted theorem is the claim without the exception for sums. What each method is for is C42."
  }
 ]
}