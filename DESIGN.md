# Formal model of oracleofnj/einsum (ndarray_einsum_beta 0.7.0) in Coq 8.16.1

The model is executable Gallina, one definition per function of the crate, each with a comment citing
the file and lines it stands for. The specification (`Spec.v`) is written separately and mentions none
of the crate's helpers. The theorems about each property are in the `Props*.v` files, each followed by
`Print Assumptions` and by a concrete case that meets its hypotheses.

## Files (rocq/theories, in build order)

| file | contents |
|---|---|
| `Base.v` | outcomes (`Ok`/`Err`/`Panic`), labels, scalars, hash-order oracle |
| `NDArray.v` | the part of ndarray the crate calls: strided views over a buffer, and the `backend` oracle |
| `Validation.v` | `src/validation.rs` |
| `Regex.v` | the regular expression of `validation.rs`, read from its text, and what it matches |
| `Optimizers.v` | `src/optimizers.rs` |
| `Strategies.v`, `Singleton.v`, `Pair.v` | `src/contractors/{strategies,singleton_contractors,pair_contractors}.rs` |
| `Path.v`, `Api.v` | `src/contractors/mod.rs`, `src/lib.rs` |
| `Iterators.v` | `src/iterators.rs`, which is commented out in the crate |
| `Overflow.v` | the same compilation with every `usize` product and every `isize` stride sum checked |
| `Builds.v` | the same compilation with every counter, difference and product of machine width, with and without overflow checks |
| `Limits.v` | the same execution with ndarray's limit on the size of an array |
| `Work.v` | the same execution with its products and summands counted |
| `Storage.v` | the same execution with the elements of all live arrays counted |
| `Checked.v` | the same execution with arithmetic that panics on overflow |
| `NdSchedule.v` | the memory orders and orders of addition of ndarray 0.15 and matrixmultiply, one `backend`; used by C72, the last theorems of C73 to C78 and two theorems of C83 only |
| `Debug.v` | the `Debug` implementations of every type |
| `Serde.v` | the derived serde implementations of every type that has them |
| `DebugSpec.v` | trees of names and values, and their texts |
| `Spec.v` | grammar, meaning of a string, acceptance, nested sums, Einstein sum, relations between scalars |
| `ExactSpec.v` | the order of the labels of sums in arithmetic without laws (C75) |
| `BaseFacts`, `ParserFacts`, `RegexFacts`, `ValidationFacts`, `ValidationMain` | strings and validation |
| `SumFacts`, `ArrayFacts` | nested sums; strided arrays, `lrep`/`rrep`/`lsum` |
| `DiagFacts`, `SingletonFacts`, `TensordotFacts`, `PairFacts`, `StackedFacts`, `PairMain` | one lemma per contractor |
| `PathFacts`, `PathShape`, `EinsumMain`, `EinsumProps`, `EinsumCases` | paths, the outcome of every call, consequences |
| `AlgebraFacts`, `StagedFacts`, `SpecialCases`, `WrapFacts` | laws, staged evaluation, named cases, wrap-around integers |
| `TensordotMain`, `MisuseFacts`, `UnusedFacts`, `ContractorFacts`, `OverflowFacts`, `BuildsFacts`, `BuildsMain`, `LimitsFacts`, `LimitsMain`, `WorkFacts`, `WorkMain`, `OrderCostFacts`, `StorageFacts`, `StorageMain`, `StorageExact`, `DualFacts`, `TensordotRange`, `UniqueFacts`, `BenchFacts`, `BackwardFacts`, `IteratorsFacts`, `NdScheduleFacts`, `NdLayoutFacts`, `TwinFacts`, `ExactFacts`, `ReduceFacts`, `WritingFacts`, `OuterFacts`, `AssignFacts`, `MismatchFacts`, `DiagAnyFacts`, `DiagMemFacts`, `GeneralFacts`, `BroadcastAnyFacts`, `ViewFacts`, `MessageFacts`, `LoopFacts`, `TestFacts`, `AdjointFacts`, `DotAlgebra`, `BlockFacts`, `UnitFacts`, `ParamFacts`, `Schedule`, `CheckedFacts`, `GradeFacts`, `DebugFacts` | the remaining properties |
| `OrderFacts`, `HandFacts`, `CompileFacts`, `ProgramFacts`, `SerdeFacts` | orders of pair steps along any tree; contractions assembled by hand; orders that compile; any steps as a program; values read back |
| `RelationFacts`, `RoundFacts`, `RangeFacts`, `FloatFacts`, `FloatMain`, `FloatSigns`, `FloatRound`, `ReproFacts`, `PlanFacts` | scalar relations, rounding error, overflow and exactness, IEEE 754 arithmetic, independence of hash order, choice of contractors |
| `Examples.v` | concrete oracles, scalars and arrays for the cases beside the theorems |
| `Props*.v` | the property theorems |
| `RepoTests.v` | the repository's tests and documentation examples, run on the model |

## Modelling decisions

* **Labels** (`char`) are Unicode code points, `N`. Strings are lists of code points.
* **Outcomes.** `res T = Ok t | Err msg | Panic`. `Err` is the crate's `Result::Err(&'static str)`;
  `Panic` is any panic: failed `assert!`, `unwrap` on `None`/`Err`, out-of-range index, `usize`
  underflow. A read outside a buffer, undefined behaviour in Rust, is a `Panic` too, so a theorem that
  excludes `Panic` excludes it.
* **Hash iteration order** is an oracle `h : key -> list char -> list char` that may return any
  permutation (`hash_ok`). Every HashMap/HashSet that is iterated has its own key, so two sets with
  equal contents may iterate differently, as with Rust's per-instance `RandomState`.
* **Arrays** are strided views: buffer, offset, shape, signed strides. `permuted_axes`, `index_axis`,
  `outer_iter`, `insert_axis`, `broadcast`, `into_shape`, `from_shape` with strides (with its bounds and
  overlap checks), `is_standard_layout`, `as_slice_memory_order`, `from_shape_vec`, `assign`, and `dot`
  (with its column-major output rule) are modelled at that level, so layout dependent branches are real.
  Owned arrays and views are not distinguished, and `ArrayLike::into_dyn_view` is the identity.
* **Backend oracle.** ndarray is free to choose the memory order of an array it allocates (`to_owned`,
  `into_owned`, `mapv`, `&a * &b`, `sum_axis`) and the order and association in which it adds up terms
  (`sum_axis`, `dot`); in `dot` it may also fuse a product with the addition after it. A `backend` is any
  choice of these. `backend_runs` assumes only that arranging keeps the shape and the elements, that a sum
  contains every term once (`sums_to`; zeros may be added) and that a dot product does, of the products
  (`dots_to`; partial sums may be multiplied by one, and `0 * 0` added, as `alpha` and `beta` are in the
  matrix product). `backend_ok` adds that the fused operation is the product followed by the sum, which
  holds of exact arithmetic.
* **Scalars** are any type with `zero`, `one`, `add`, `mul` (`LinalgScalar`). Theorems that identify the
  values of sums assume a commutative semiring (`semi_ring_theory` of Coq's `Ring_theory`). The induction
  behind them needs `0 * x = 0` only if a sum is empty (`summable` in Base.v), which gives C49. Acceptance,
  shapes, panics, messages, paths, rearrangements, overflow, views and reproducibility assume no law.
* **Relations.** The main induction relates a run over any scalars to an Einstein sum over a semiring,
  along any relation that `zero`, `one`, `add`, `mul` respect. The theorem over a semiring is the case
  of equality; rounding error, closed sets, homomorphisms and intervals are other cases. A relation need
  not hold of zero if no sum is empty (`weak_relation`), as for overflow and exactness in C52.
* **Floating-point numbers** are those of the standard library's `SpecFloat` (round to nearest, ties to
  even), any precision and exponent range; `f64` and `f32` are two of them. Only C52, the last theorem of C60,
  C62 and their cases use them. The fused multiply-add, which `SpecFloat` lacks, is defined in `FloatFacts.v`.
* **Sizes** are unbounded `nat`. `Overflow.v` repeats the compilation with checked machine arithmetic and
  C32 shows when the two agree. `Builds.v` repeats it once more over a choice of machine arithmetic, with the
  counters of label occurrences (`i32` by inference) and with differences, checked or wrapping; C65 compares
  them. `Limits.v` repeats the execution with a panic wherever ndarray would make
  an array whose non-zero axis lengths have a product above `isize::MAX`, and C50 shows when that happens.
* **Overflow checks** on elements are in `Checked.v`: an operation that would panic gives a bad scalar, and
  a contraction panics if its result has a bad element, instead of in the middle of computing it.
* **Cost** is counted in `Work.v`: products of two elements, and elements read by sums along an axis. Time
  and copies are not counted.
* **Storage** is followed in `Storage.v`: the elements of every owned array from the moment the library makes
  it until it goes out of scope. Not followed: vectors of labels, lengths and strides, unused capacity of a
  vector, and the packing buffers inside a matrix product.
* **`blocked`** (Spec.v) characterises the one panic a valid call can meet: an operand with a repeated
  label and an empty axis. The strides of an empty copy are zero, which fails `assert!(stride > 0)`
  (singleton_contractors.rs:237); of a view they may be positive, and then `from_shape` refuses their sums.

## What is modelled

| source | model | remarks |
|---|---|---|
| lib.rs:29-165, the examples of the documentation | `PropsDocs.v` | ndarray's `diag()` and `sum()` of a vector are `diag` and `vector_sum` there |
| lib.rs `einsum`, `einsum_sc`, `einsum_path`, `tensordot` | `Api.v` | `einsum_path` is `einsum_path_fn`; its unimplemented strategies panic |
| validation.rs `parse_einsum_string`, `Contraction::{new,from_parse,from_indices}`, `validate` | `Validation.v` | the regular expression is a hand-written scanner; C04 proves it against a grammar and against the pattern's text as `Regex.v` reads it |
| validation.rs `OutputSize`, `SizedContraction::{new,from_*,subset,contract_operands,as_einsum_string}`, `validate_and_*` | `Validation.v`, `Optimizers.v`, `Api.v` | the size map is an association list: the code iterates it only to filter it |
| optimizers.rs, all functions and types | `Optimizers.v` | Greedy/Optimal/Branch are `unimplemented!()` in the code, `Panic` here |
| strategies.rs, all | `Strategies.v` | |
| singleton_contractors.rs, all | `Singleton.v` | |
| pair_contractors.rs, all, including the contractors never selected | `Pair.v` | with `contract_and_assign_pair` (mod.rs:109) |
| contractors/mod.rs construction and execution | `Path.v` | trait objects are the sums `singleton_op`, `pair_op` |
| `Debug` implementations, hand-written (contractors/mod.rs:174-182, 236-244, 381-398, 494-501) and derived | `Debug.v` | format `{:?}` only; labels are lower-case letters, other characters are not escaped |
| `derive(Serialize, Deserialize)` in every module | `Serde.v` | at the level of serde's data model, numbers of any size, errors without their text |

## Not modelled

* The sources of ndarray, regex, serde and std, which are not in /repo: only their contracts as stated in
  the comments of `NDArray.v`, `Validation.v` and `Serde.v`. `NdSchedule.v` is a reading of ndarray 0.15 that
  cannot be checked here; no other property rests on it.
* What happens when memory is exhausted, including the allocator's limit on the bytes of one allocation; C64
  says how many elements are held.
* What a run makes of the two zeros of floating-point arithmetic beyond C60, and of its infinities and
  not-a-number beyond C47, C49 and C62. C40 covers rounding with a relative and an absolute error per operation (underflow),
  fused or not, and treats overflow as a value that represents nothing; C52 says when there is none.
* That a Rust target's `f64` and `f32` follow IEEE 754, on which the reading of C52 rests.
* serde's formats: `presents` (SerdeFacts.v) lists what a format may do to the data model between writing
  and reading.
* the timing of the benchmarks (their calls, the operations of ndarray beside them, the contractors they run and the arithmetic are C69; `m1.sum()` is any order of additions of the elements).

## How the properties are proved

A *labelled* representation relation says that an array, its axes named `labels`, holds at every
in-range assignment of the labels a value related to `F` of it. Each ndarray operation and each
contractor has one lemma in this form: permutation and diagonal leave `F` unchanged, `sum_axis` adds one
sum, pair contractors give a nested sum of a product. A path is handled by induction on the remaining
operands, with distributivity and reordering of nested sums on the semiring side. `EinsumMain.v` turns
this into the outcome of every call: `Err` exactly for rejected calls, `Panic` exactly for blocked ones,
otherwise the Einstein sum.

* C01, C02, C07–C12, C20, C28: the outcome theorem (`PropsEinsum.v`).
* C03–C06, C14, C19, C21, C27: parser and validation (`PropsValidation.v`); C38 and the exact condition of
  C27: `PropsMessages.v`.
* C13, C15, C26: the path generator (`PropsPath.v`). C45, orders that need not be generated: `PropsOrder.v`;
  C55, any list of steps: `PropsProgram.v`; what such a list costs and when the limits stop it, C63: `PropsOrderCost.v`. C56, the repository's tests: `PropsTests.v`. C57 to
  C59: `PropsAlgebra.v`. C60: `PropsData.v`; the backends there follow a schedule that sees everything
  but the elements, and one lemma per operation shows that two runs over related scalars stay in step.
  C61: `PropsChecked.v`; a bad intermediate result is followed through the rest of the order to the result.
  C62: `PropsGrade.v`; as C60, with a relation for each grade (a sign, a power of two, a part), and grades
  are combined along the order.
* C46, contractions that no string denotes: `PropsHand.v`. C48, stored values: `PropsSerde.v`.
* C16, C22–C24, C33, C34, C36: laws and special cases (`PropsLaws.v`).
* C17, C18: `PropsTensordot.v`. C25, C29: `PropsMisuse.v`. C51: `PropsMismatch.v`, `PropsGeneral.v`. C30, C31: `PropsUnused.v`. C44:
  `PropsContractors.v`.
* C32: `PropsOverflow.v`. C65: `PropsBuilds.v`. C50: `PropsLimits.v`. C53: `PropsWork.v`. C64: `PropsStorage.v`, `PropsStorageExact.v`. C54: `PropsAssign.v`. C35, C37: `PropsView.v`.
* C39: `PropsRelation.v`. C40: `PropsRounding.v`. C52: `PropsFloat.v`, `PropsTensordotRange.v`. C47: `PropsValues.v`. C49: `PropsNear.v`, `PropsTensordotRange.v`. C41: `PropsRepro.v`. C42: `PropsPlan.v`.
* C43: `PropsDebug.v`. C66: `PropsDebugText.v`.
* C67: `PropsDual.v`. C68: `PropsUnique.v`. C69: `PropsBench.v`.
* C70: `PropsBackward.v`. C71: `PropsIterators.v`. C72: `PropsNdarray.v`.
* C73: `PropsTwin.v`. C74: `PropsExact.v`. C75: `PropsReduce.v`. C76: `PropsWriting.v`.
* C77: `PropsTensordotBits.v`. C78: `PropsDocs.v`. C79: `PropsBackwardDot.v`. C80: `PropsSpread.v`.
* C81: `PropsDotAlgebra.v`. C82: `PropsDotSpread.v`. C83: `PropsDotAxes.v`. C84: `PropsDotNest.v`. C85: `PropsReshape.v`. C86: `PropsChain.v`.
* C87: `PropsStaged.v`. C88: `PropsCalls.v`. C89: `PropsStoredSteps.v`. C90: `PropsMethods.v`.

Claims that are false of the code have a theorem with the suffix `_refuted`, of the form `~ (claim)` with
its witness in the proof; the note in MANIFEST.json says what was refuted and what holds instead.

## Mutation tests

`seeded/LOG.jsonl` records edits that put realistic bugs into a copy of the model, the claim each breaks
and the theorems whose proofs failed. A theorem counts as failed if its proof, or a
proof it uses, no longer goes through; a theorem listed there need not be false of the edited model. Edits that
only change last bits, for example, leave the theorems about exact arithmetic true. Edits that break no claim are logged as such. One edit (keeping
simplifications that only permute) broke no theorem at first, as it changes no value; C41 and C42 were
added and exclude it.

`RepoTests.v` runs the repository's own tests and documentation examples on the model, with integers in
place of random floats. They are tests of the model, not proofs of a property.

## Trusted base

* Coq 8.16.1's kernel, including its conversion by `vm_compute` in examples and refutations.
* The reading of /repo in the model files, and the contracts of ndarray 0.15, regex 1 and serde 1 stated there.
* No axioms. `Print Assumptions` prints "Closed under the global context" for each theorem listed below.
  Checking the compiled files with coqchk lists the module axioms of the standard library file
  `Coq.ssr.ssrunder` (`Under_rel`, `Under_rel_from_rel`, `Under_relE`, `over_rel`, `over_rel_done`,
  `Over_rel`, `under_rel_done`), which is loaded but which no theorem uses.

Closed under the global context:

* `PropsAlgebra.v`: `adjoint_is_an_einsum`, `gradient_is_an_einsum`, `kept_labels_in_blocks`, `summed_labels_in_blocks`, `merged_labels`, `operands_of_ones`, `operands_of_zeros`, `identity_matrices`.
* `PropsAssign.v`: `assignment_writes_exactly_the_view`, `contract_and_assign_writes_the_result`, `pair_contraction_into_a_view`, `contract_and_assign_checks_the_shape_refuted`.
* `PropsBackward.v`: `einsum_moves_terms`, `einsum_is_backward_stable`, `backward_stability_of_all_calls_refuted`, `float_einsum_is_backward_stable`.
* `PropsBackwardDot.v`: `tensordot_moves_terms`, `tensordot_is_backward_stable`, `tensordot_is_backward_stable_on_the_right`, `float_tensordot_is_backward_stable`, `backward_stability_of_all_tensordots_refuted`.
* `PropsBench.v`: `benchmarks_match_the_builtins`, `benchmarks_of_outer_products`, `benchmarks_use_these_contractors`, `benchmarks_work`.
* `PropsBuilds.v`: `unbounded_build_is_the_model`, `checks_decide`, `builds_agree_on_sized_calls`, `builds_agree_on_tensordot`, `builds_panic_alike_refuted`, `long_runs_of_a_label`, `wrapping_reads_all_strings_refuted`.
* `PropsCalls.v`: `programs_respect_relations`, `programs_compute`, `programs_return`, `programs_agree`, `programs_rounding_error`, `program_runs_differ_by_at_most`, `float_programs_rounding_error`.
* `PropsChain.v`: `arrays_approximate_themselves`, `einsum_of_approximations`, `tensordot_of_approximations`, `nested_dots_roundings_add_up`, `float_einsum_of_approximations`, `float_nested_dots_roundings_add_up`.
* `PropsChecked.v`: `overflow_checks_only_add_panics`, `bad_scalars_are_never_lost`, `bad_scalars_are_never_lost_in_valid_orders`, `checked_results_are_exact`, `checked_tensordot_is_exact`, `checked_calls_return`, `checked_positive_integers`, `checked_signed_and_unsigned`, `checked_calls_return_refuted`, `strategies_overflow_alike_refuted`, `bad_scalars_are_never_lost_refuted`.
* `PropsContractors.v`: `undocumented_pairs_panic`, `fixed_position_exactly`, `fixed_position_refuses_refuted`, `singleton_contractors_are_correct`, `undocumented_singletons_panic`, `singleton_constructors_refuse_refuted`, `constructors_count_operands`, `all_constructors_count_operands_refuted`.
* `PropsData.v`: `related_elements_give_related_results`, `outcome_does_not_depend_on_the_elements`, `each_element_is_a_fixed_expression`, `expressions_mention_exactly_the_factors`, `other_elements_do_not_matter`, `maps_of_the_arithmetic_commute_with_calls`, `signs_of_zeros_reach_only_zeros`.
* `PropsDebug.v`: `singleton_debug_brackets_match`, `pair_debug_brackets_never_match`, `debug_brackets_match_refuted`.
* `PropsDebugText.v`: `legible_texts_are_read_uniquely`, `debug_shows_the_stored_form`, `debug_determines_values`, `debug_shows_the_steps`, `debug_determines_the_steps`, `debug_determines_results_refuted`, `debug_is_reproducible_refuted`.
* `PropsDocs.v`: `documented_axis_sum`, `documented_transpose`, `documented_diagonal`, `documented_product`, `trace_on_ndarray`, `documented_trace`, `documented_trace_of_slices_refuted`.
* `PropsDotAlgebra.v`: `tensordot_ignores_the_order_of_pairs`, `tensordot_of_swapped_operands`, `tensordot_is_linear`, `tensordot_associates`.
* `PropsDotAxes.v`: `tensordot_of_permuted_operands`, `tensordot_of_permuted_operands_on_ndarray`, `tensordot_of_permuted_operands_in_any_order`, `tensordot_of_swapped_operands_to_the_last_bit`, `float_tensordot_of_swapped_operands`.
* `PropsDotNest.v`: `nested_dots_compute`, `nested_dots_rounding_error`, `nested_dots_differ_by_at_most`, `ways_of_nesting_differ_by_at_most`, `float_nested_dots_error`, `float_ways_of_nesting_differ_by_at_most`.
* `PropsDotSpread.v`: `rounded_operands_move_the_dot`, `dots_in_two_precisions_differ_by_at_most`, `dots_differ_by_at_most`, `dot_and_einsum_differ_by_at_most`, `float_dots_in_two_precisions_differ_by_at_most`, `float_dots_differ_by_at_most`, `float_dot_and_einsum_differ_by_at_most`.
* `PropsDual.v`: `dual_runs_differentiate`, `runs_move_by_the_derivative`, `dual_tensordot_differentiates`, `complex_runs`.
* `PropsEinsum.v`: `einsum_computes_the_einstein_sum`, `einsum_outcome_on_every_well_formed_call`, `result_shape`, `einsum_rejects_exactly_malformed_calls`, `einsum_path_rejects_malformed_calls`, `valid_calls_do_not_panic`, `empty_diagonal_refuted`, `empty_operand_with_repeated_label_panics`, `well_formed_call_panics_exactly_when_blocked`, `hash_order_is_irrelevant`, `operand_layout_is_irrelevant`, `operand_layout_is_irrelevant_refuted`, `naive_and_reverse_agree`, `compiled_path_is_reusable`, `subset_contraction_value`, `empty_sums_are_zero`.
* `PropsExact.v`: `einsum_holds_its_products`, `paths_hold_their_products`, `product_of_two_is_exact`, `matrix_product_on_ndarray`.
* `PropsFloat.v`: `float_arithmetic_rounds`, `float_einsum_error`, `float_tensordot_error`, `einsum_does_not_overflow`, `float_einsum_does_not_overflow`, `einsum_exact_on_integers`, `float_einsum_exact_on_integers`, `float_einsum_exact_on_integers_refuted`, `float_einsum_does_not_overflow_refuted`.
* `PropsGeneral.v`: `general_hadamard_product_of_any_operands`, `general_scalar_products_of_any_operands`, `general_products_of_any_operands`, `stacked_products_of_any_operands`, `rearranged_sums_of_any_operand`, `diagonals_of_any_operand`, `diagonals_of_longer_operands`, `diagonal_sums_of_longer_operands`, `diagonal_sums_of_any_operand`, `diagonal_sums_of_contiguous_operands`, `broadcast_product_of_any_operands`, `reused_paths_ignore_the_layout_refuted`.
* `PropsGrade.v`: `graded_elements_give_graded_results`, `negated_operands_negate_the_result`, `signs_multiply`, `powers_of_two_pass_through`, `smaller_operands_give_smaller_results`, `calls_are_monotone_in_each_operand`, `finite_results_have_finite_factors`, `powers_of_two_pass_through_refuted`.
* `PropsHand.v`: `only_labels_and_lengths_matter`, `complete_contractions_compile_exactly`, `hand_built_contractions_compute`, `contraction_and_operands_outcome`, `accepted_contractions_run_refuted`, `strings_of_hand_built_contractions_refuted`, `orders_compile_exactly`, `compiled_orders_run_refuted`.
* `PropsIterators.v`: `multi_axis_iterator_visits_every_position`, `multi_axis_iterator_panics_on_empty_axes`, `multi_axis_iterator_visits_no_empty_axes_refuted`, `multi_axis_iterator_refuses_missing_axes`, `multi_axis_iterator_refuses_repeated_axes_refuted`, `adding_up_the_items_is_einsum`.
* `PropsLaws.v`: `rearrangement_is_exact`, `operand_order_is_irrelevant`, `label_names_are_irrelevant`, `einsum_is_additive_in_each_operand`, `einsum_is_homogeneous_in_each_operand`, `wrapping_integers`, `machine_integers_wrap`, `staged_evaluation`, `special_cases`.
* `PropsLimits.v`: `einsum_size_limit`, `compiled_size_limit`, `size_limit_not_reached`, `limit_only_adds_panics`, `results_are_within_the_limit`, `tensordot_size_limit`, `calls_on_representable_operands_return_refuted`, `strategies_return_alike_refuted`.
* `PropsMessages.v`: `messages_describe_the_defect`, `described_messages_occur`, `rejected_exactly_with_defect`, `einsum_messages`, `subset_messages`, `message_varies_exactly`.
* `PropsMethods.v`: `methods_follow_from_the_string`, `simplification_methods_are_reproducible_refuted`, `valid_orders_use_the_same_methods`, `stored_methods_are_used_again`.
* `PropsMismatch.v`: `hadamard_product_of_any_operands`, `scalar_products_of_any_operands`, `fixed_position_products_of_any_operands`, `rearrangements_of_any_operand`, `sums_of_any_operand`, `reused_paths_keep_the_shape_refuted`.
* `PropsMisuse.v`: `too_few_operands_panic`, `surplus_operands_are_ignored`, `sized_contraction_operands`, `running_never_errs`, `mismatched_operands_panic_refuted`, `multiplication_order_refuted`.
* `PropsNdarray.v`: `ndarray_is_a_backend`, `einsum_outcome_on_ndarray`, `copies_keep_the_layout`, `products_keep_the_layout`, `sums_are_row_major`, `sums_add_in_order`, `multipliers_add_in_order`, `tensordot_adds_in_order`, `tensordot_ignores_layout`, `einsum_ignores_layout_refuted`.
* `PropsNear.v`: `relations_without_zero`, `relations_without_absorbing_zero`, `einstein_sum_without_absorbing_zero`, `einstein_sum_without_absorbing_zero_refuted`, `bad_values_come_from_factors`, `bad_values_are_exactly_those_with_bad_factors`, `valid_orders_without_absorbing_zero`.
* `PropsOrder.v`: `valid_orders_compute_the_einstein_sum`, `valid_orders_respect_relations`, `valid_orders_agree`, `generated_orders_are_valid`, `every_tree_has_a_valid_order`, `orders_are_checked_refuted`.
* `PropsOrderCost.v`: `orders_work`, `squarings_work`, `orders_compile_without_overflow`, `orders_size_limit`, `strategies_are_near_the_best_order_refuted`.
* `PropsOverflow.v`: `step_products_bounded`, `step_products_do_not_overflow`, `path_products_do_not_overflow`, `tensordot_products_do_not_overflow`, `products_of_representable_operands_refuted`.
* `PropsPath.v`: `path_structure`, `step_labels`, `each_label_summed_once`, `intermediate_size_bound`, `intermediate_size_bound_no_empty_axis`, `intermediate_size_bound_refuted`.
* `PropsPlan.v`: `compiled_paths_follow_the_plan`, `plans_determine_the_methods`, `step_strings_mean_the_step`, `step_strings_parse_refuted`, `pair_summaries_count_the_labels`, `singleton_summaries_count_the_labels`.
* `PropsProgram.v`: `orders_run_step_by_step`, `dangling_orders_panic`, `valid_orders_fit`, `squarings_compute_powers`, `steps_check_lengths_refuted`.
* `PropsReduce.v`: `einsum_is_exact`, `paths_are_exact`, `sum_of_one_is_exact`, `sum_of_one_is_fixed`, `einsum_is_exact_on_ndarray`, `sum_of_one_label_on_ndarray`.
* `PropsRelation.v`: `einsum_respects_relations`, `tensordot_respects_relations`, `einsum_stays_in_closed_sets`, `einsum_commutes_with_homomorphisms`, `interval_einsum_encloses`.
* `PropsRepro.v`: `direct_calls_are_reproducible`, `calls_are_reproducible_refuted`.
* `PropsReshape.v`: `standard_layout_is_row_major`, `reshaping_reads_memory_in_order`, `only_row_major_arrays_are_reshaped`.
* `PropsRounding.v`: `einsum_rounding_error`, `einsum_relative_error`, `tensordot_rounding_error`.
* `PropsSerde.v`: `stored_values_are_read_back`, `stored_contractions_run_the_same`, `stored_paths_can_be_compiled_again`, `stored_text_is_reproducible_refuted`, `fields_are_read_in_any_order`, `every_field_is_given_once`, `reading_validates_refuted`.
* `PropsSpread.v`: `rounded_operands_move_the_sum`, `precisions_differ_by_at_most`, `runs_differ_by_at_most`, `float_precisions_differ_by_at_most`, `float_runs_differ_by_at_most`, `relative_error_of_all_calls_refuted`.
* `PropsStaged.v`: `staged_rounding_error`, `staging_rounds_no_more`, `staged_and_single_differ_by_at_most`, `float_staged_rounding_error`, `float_staged_and_single_differ_by_at_most`.
* `PropsStorage.v`: `steps_hold_bounded_storage`, `settled_steps_hold`, `orders_hold`, `calls_hold`, `single_operand_calls_hold`, `tensordot_holds`, `storage_is_linear_in_operands_and_result_refuted`.
* `PropsStorageExact.v`: `single_operand_calls_hold_exactly`, `steps_hold_exactly`, `tensordot_holds_exactly`.
* `PropsStoredSteps.v`: `stored_steps_are_read`, `stored_steps_say_the_methods_and_no_more`, `stored_steps_are_those_of_the_stored_order`.
* `PropsTensordot.v`: `tensordot_is_correct`, `tensordot_agrees_with_einsum`, `tensordot_rejects`, `tensordot_panics_exactly`, `tensordot_outcome`, `tensordot_rejects_mismatched_axes_refuted`.
* `PropsTensordotBits.v`: `tensordot_is_einsum_to_the_last_bit`, `tensordot_is_einsum_on_ndarray`, `unsummed_products_are_products`, `outer_tensordot_is_products`, `tensordot_is_einsum_in_any_order_refuted`, `outer_products_keep_signs_refuted`.
* `PropsTensordotRange.v`: `tensordot_relations_without_zero`, `tensordot_does_not_overflow`, `float_tensordot_does_not_overflow`, `tensordot_exact_on_integers`, `float_tensordot_exact_on_integers`.
* `PropsTests.v`: `loops_compute_what_einsum_returns`, `tests_of_one_operand`, `tests_of_two_operands`, `tests_of_three_operands`, `test_of_four_operands`, `tests_of_tensordot`.
* `PropsTwin.v`: `memory_orders_do_not_show`, `backends_that_add_alike_agree`, `tensordot_hides_memory_orders`, `paths_hide_memory_orders`, `products_ignore_layout_on_ndarray`.
* `PropsUnique.v`: `unit_operands`, `einsum_is_determined_by_unit_operands`, `unit_operands_of_tensordot`, `tensordot_is_determined_by_unit_operands`.
* `PropsUnused.v`: `sized_from_string`, `sized_from_subset`, `contractors_are_correct`, `stacked_handles_every_pair_refuted`, `diagonalization_and_summation_is_general`, `nothing_to_sum_panics`, `diagonalization_and_summation_universal_refuted`.
* `PropsValidation.v`: `validation_accepts_exactly_well_formed_calls`, `parser_recognises_grammar`, `parser_is_the_regular_expression`, `parser_rejects_everything_else`, `grammar_is_unambiguous`, `accepted_characters`, `implicit_output_labels`, `implicit_is_explicit`, `summation_labels`, `unsupported_strategies`, `as_einsum_string_round_trip`, `subset_succeeds_exactly`, `label_lengths`, `error_message_determined_otherwise`, `error_message_determined_refuted`.
* `PropsValues.v`: `bad_values_are_not_lost`, `structural_zeros_stay_zero`, `bad_values_come_from_factors_refuted`.
* `PropsView.v`: `diagonal_views_stay_inside`, `diagonal_of_any_layout`, `empty_diagonal_panics`, `stride_sums_do_not_overflow`, `stride_sums_of_two`, `stride_sums_do_not_overflow_refuted`.
* `PropsWork.v`: `einsum_work`, `compiled_work`, `tensordot_work`, `work_bounded`, `work_bounded_refuted`, `strategies_sum_alike`, `matrix_chain_work`, `strategies_work_alike_refuted`.
* `PropsWriting.v`: `writing_does_not_show`, `names_do_not_show`, `names_of_one_do_not_show`, `axes_do_not_show`, `swapping_does_not_show`, `transposed_product_on_ndarray`, `swapping_on_ndarray`, `names_never_show_refuted`, `axes_never_show_refuted`, `swapping_never_shows_refuted`.
