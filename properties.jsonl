{"id": "C01", "title": "einsum computes the Einstein sum", "statement": "Whenever the string is well formed and the operand shapes agree with it (and no operand that repeats a label is empty, see C08), einsum returns Ok(r) and every element r[o] equals the sum, over all values of the labels that are not in the output, of the product over the operands of the operand's element at the position its labels select.", "quantifier": "every einsum string, every number/rank/shape of operands, every memory layout of the operands (any strides, offset, negative or zero strides), every element position, every commutative semiring of scalars, every HashMap/HashSet iteration order and every layout ndarray may pick for the arrays it allocates", "why_tests_cant": "Tests sample a few dozen strings on tiny shapes; the strategy choice (6 singleton and 5 pair methods), the layout branches and the random hash order multiply into an unbounded space.", "anchors": [{"file": "src/lib.rs", "symbol": "einsum"}, {"file": "src/lib.rs", "symbol": "einsum_sc"}, {"file": "src/contractors/mod.rs", "symbol": "EinsumPath::contract_operands"}, {"file": "src/contractors/mod.rs", "symbol": "PairContraction::contract_pair"}]}
{"id": "C02", "title": "Result shape", "statement": "The array returned by einsum has exactly one axis per output label, in the order the output lists them, and the length of each axis is the length that label has in the operands.", "quantifier": "every accepted string and operand list", "why_tests_cant": "Unbounded ranks and shapes, including zero-length and length-one axes.", "anchors": [{"file": "src/lib.rs", "symbol": "einsum"}, {"file": "src/validation.rs", "symbol": "SizedContraction"}]}
{"id": "C03", "title": "Exact acceptance condition", "statement": "einsum / validate_and_size return a non-Err outcome exactly when: the string has the einsum grammar, the explicit output (if any) has no repeated label and only labels that occur in the operands, the number of operands matches, each operand's rank matches its label count, and all axes carrying one label have the same length. Otherwise Err is returned and nothing panics.", "quantifier": "every string (any character sequence) and every list of shapes", "why_tests_cant": "The set of malformed strings and inconsistent shapes is infinite; both directions of the equivalence are needed.", "anchors": [{"file": "src/validation.rs", "symbol": "Contraction::new"}, {"file": "src/validation.rs", "symbol": "from_indices"}, {"file": "src/validation.rs", "symbol": "OutputSize::from_contraction_and_shapes"}, {"file": "src/validation.rs", "symbol": "SizedContraction::from_string_and_shapes"}]}
{"id": "C04", "title": "Parser recognises exactly the documented grammar", "statement": "A string parses exactly when it is a comma separated list of one or more non-empty runs of a-z, optionally followed by -> and a possibly empty run of a-z; the operand and output labels returned are those runs, and the decomposition is unique. Whitespace, upper case, empty operands and trailing text are rejected.", "quantifier": "every string", "why_tests_cant": "Regex correctness over all strings (prefix/suffix anchoring, commas, empty groups) cannot be enumerated.", "anchors": [{"file": "src/validation.rs", "symbol": "parse_einsum_string"}]}
{"id": "C05", "title": "Implicit output", "statement": "Without ->, the output labels are exactly the labels that occur once in total over all operands, in alphabetical order, and the call behaves exactly like the same call with that output written explicitly.", "quantifier": "every operand part of a string and all operands", "why_tests_cant": "Depends on counting over unbounded operand lists and on sorting a hash map's keys in whatever order it iterates.", "anchors": [{"file": "src/validation.rs", "symbol": "Contraction::from_parse"}]}
{"id": "C06", "title": "Summation labels", "statement": "For a validated contraction, summation_indices is the strictly increasing list of the labels that occur in some operand and not in the output; operand_indices and output_indices are the labels as written.", "quantifier": "every accepted string and every hash iteration order", "why_tests_cant": "Map iteration order is randomised per process; a test sees one order.", "anchors": [{"file": "src/validation.rs", "symbol": "Contraction::from_indices"}]}
{"id": "C07", "title": "No panic on valid input", "statement": "If the string and shapes are accepted and no operand that repeats a label inside itself has a zero-length axis, then einsum, einsum_path followed by contract_operands (Naive or Reverse), and SizedContraction::contract_operands never panic: no index, unwrap, assert, reshape or usize subtraction in the crate fails.", "quantifier": "all accepted strings, all operands of every layout, all hash orders", "why_tests_cant": "Absence of a panic over all inputs; there are over sixty asserts/unwraps/indexings on the path.", "anchors": [{"file": "src/contractors/mod.rs", "symbol": "EinsumPath::new"}, {"file": "src/contractors/mod.rs", "symbol": "EinsumPath::contract_operands"}, {"file": "src/contractors/mod.rs", "symbol": "PairContraction::new"}, {"file": "src/contractors/pair_contractors.rs", "symbol": "StackedTensordotGeneral::new"}, {"file": "src/contractors/pair_contractors.rs", "symbol": "TensordotGeneral::from_shapes_and_axis_numbers"}]}
{"id": "C08", "title": "Empty operands with repeated labels", "statement": "einsum should return the (empty or zero) Einstein sum for an operand that repeats a label and has a zero-length axis, as it does for empty operands without repeated labels. REFUTED by the code: the diagonalisation asserts that all strides are positive, and ndarray gives an empty array zero strides, so the call panics.", "quantifier": "all accepted calls in which an operand repeating a label has a zero-length axis and the standard layout", "why_tests_cant": "Tests contain no zero-length axis; the failure holds for a whole infinite family of inputs.", "anchors": [{"file": "src/contractors/singleton_contractors.rs", "symbol": "Diagonalization::view_singleton"}, {"file": "src/contractors/singleton_contractors.rs", "symbol": "Diagonalization::contract_singleton"}]}
{"id": "C09", "title": "Independence from hash iteration order", "statement": "Two runs of the same call that differ only in the iteration order of the hash sets and maps used while planning return arrays with the same shape and the same elements (or both fail).", "quantifier": "every pair of iteration orders, every call", "why_tests_cant": "Order is random per HashMap instance; intermediate axis orders and chosen contractors change with it.", "anchors": [{"file": "src/optimizers.rs", "symbol": "generate_path"}, {"file": "src/contractors/mod.rs", "symbol": "SimplificationMethodAndOutput::from_indices_and_sizes"}]}
{"id": "C10", "title": "Independence from operand memory layout", "statement": "Replacing an operand by another array or view with the same shape and elements but different strides, offset or backing storage (transposed, sliced, reversed, broadcast) does not change the result.", "quantifier": "every operand list and every layout of it", "why_tests_cant": "Layout dependent branches (is_standard_layout, as_slice_memory_order, strides > 0) are taken at run time on arbitrary strides.", "anchors": [{"file": "src/contractors/singleton_contractors.rs", "symbol": "DiagonalizationAndSummation::contract_singleton"}, {"file": "src/contractors/pair_contractors.rs", "symbol": "TensordotFixedPosition::contract_pair"}]}
{"id": "C11", "title": "Naive and Reverse agree", "statement": "Compiling with OptimizationMethod::Naive or OptimizationMethod::Reverse gives paths that compute the same array.", "quantifier": "every accepted call", "why_tests_cant": "Any number of operands; different intermediate index sets in each order.", "anchors": [{"file": "src/optimizers.rs", "symbol": "generate_optimized_order"}, {"file": "src/optimizers.rs", "symbol": "naive_order"}, {"file": "src/optimizers.rs", "symbol": "reverse_order"}]}
{"id": "C12", "title": "A compiled path is reusable", "statement": "The EinsumPath compiled from a string and some operands computes, on any other operands with the same shapes (whatever their contents and layouts), what einsum computes on those operands; compiling looks only at shapes.", "quantifier": "every accepted string, every pair of operand lists with equal shapes", "why_tests_cant": "History property: compile once, then run on arbitrarily many operand lists.", "anchors": [{"file": "src/lib.rs", "symbol": "einsum_path"}, {"file": "src/contractors/mod.rs", "symbol": "EinsumPath::from_path"}, {"file": "src/contractors/mod.rs", "symbol": "EinsumPath::contract_operands"}]}
{"id": "C13", "title": "Path structure", "statement": "For n >= 2 operands the contraction order is a list of n-1 pair steps in which every input operand is used exactly once and every intermediate result except the last is used exactly once, by a later step; for one operand it is the singleton.", "quantifier": "every sized contraction and both supported strategies", "why_tests_cant": "Quantifies over n and over both strategies.", "anchors": [{"file": "src/optimizers.rs", "symbol": "generate_path"}]}
{"id": "C14", "title": "Unsupported strategies", "statement": "Greedy, Optimal and Branch panic on every call whose string and operands validate; on a call that does not validate, Err is returned whatever the strategy.", "quantifier": "every string, operands and strategy", "why_tests_cant": "All inputs.", "anchors": [{"file": "src/optimizers.rs", "symbol": "generate_optimized_order"}, {"file": "src/validation.rs", "symbol": "validate_and_optimize_order"}]}
{"id": "C15", "title": "No label is summed too early", "statement": "In every step of a compiled path the step's output labels are exactly those of its two inputs that still occur in an operand not yet used or in the final output, and the last step's output is the requested output in the requested order; so a label is summed out exactly once, at the last step where it occurs.", "quantifier": "every sized contraction with two or more operands, every hash order", "why_tests_cant": "Needs an invariant over all steps of an arbitrarily long path.", "anchors": [{"file": "src/optimizers.rs", "symbol": "generate_path"}, {"file": "src/optimizers.rs", "symbol": "get_remaining_indices"}, {"file": "src/optimizers.rs", "symbol": "get_existing_indices"}]}
{"id": "C16", "title": "Pure rearrangements are exact for every scalar type", "statement": "When one operand is given and every one of its labels is in the output (identity, transpose, diagonal extraction), each result element is a copy of one operand element: the statement needs no law of arithmetic at all, so it holds for floats including NaN and signed zero.", "quantifier": "every such string, operand, layout, and every scalar type with arbitrary operations", "why_tests_cant": "All permutations and all diagonal patterns.", "anchors": [{"file": "src/contractors/singleton_contractors.rs", "symbol": "Identity"}, {"file": "src/contractors/singleton_contractors.rs", "symbol": "Permutation"}, {"file": "src/contractors/singleton_contractors.rs", "symbol": "Diagonalization"}]}
{"id": "C17", "title": "tensordot", "statement": "tensordot(lhs, rhs, lhs_axes, rhs_axes) returns the array whose axes are the uncontracted axes of lhs then those of rhs in their original order, with the products summed over the paired axes, whenever the axis lists have the same length, no repetition, are in range and paired axes have equal lengths.", "quantifier": "all ranks, shapes, layouts, axis lists including empty ones and 0-d operands", "why_tests_cant": "Unbounded ranks and axis permutations.", "anchors": [{"file": "src/lib.rs", "symbol": "tensordot"}, {"file": "src/contractors/pair_contractors.rs", "symbol": "TensordotGeneral::from_shapes_and_axis_numbers"}, {"file": "src/contractors/pair_contractors.rs", "symbol": "TensordotGeneral::contract_pair"}]}
{"id": "C18", "title": "tensordot rejects ill-formed axis lists", "statement": "tensordot panics when the axis lists have different lengths, repeat an axis or name an axis out of range. It should also panic when paired axes have different lengths: REFUTED, only the products of the contracted lengths are compared, so some mismatched shapes give a result silently.", "quantifier": "all axis lists and shapes", "why_tests_cant": "Rejection must hold for all bad inputs; the refutation exhibits an accepted bad input.", "anchors": [{"file": "src/contractors/pair_contractors.rs", "symbol": "TensordotFixedPosition::from_shapes_and_number_of_contracted_axes"}, {"file": "src/contractors/pair_contractors.rs", "symbol": "TensordotGeneral::from_shapes_and_axis_numbers"}]}
{"id": "C19", "title": "as_einsum_string round trip", "statement": "For a SizedContraction made from a string, as_einsum_string gives a string in explicit form that parses to the same operand, output and summation labels, and it is a fixed point (showing it again gives the same string).", "quantifier": "every accepted string", "why_tests_cant": "Printer/parser inverse over all strings.", "anchors": [{"file": "src/validation.rs", "symbol": "SizedContraction::as_einsum_string"}, {"file": "src/validation.rs", "symbol": "Contraction::new"}]}
{"id": "C20", "title": "subset", "statement": "SizedContraction::subset succeeds exactly when every new operand label has a known length, the new output has no repetition and only labels of the new operands; the result has the requested labels, and the known lengths are exactly those of the labels used, unchanged. Contracting with it computes the Einstein sum of the new labels.", "quantifier": "every sized contraction and all requested label lists", "why_tests_cant": "All label lists.", "anchors": [{"file": "src/validation.rs", "symbol": "SizedContraction::subset"}]}
{"id": "C21", "title": "Label lengths", "statement": "After validate_and_size succeeds, output_size maps exactly the labels occurring in the operands, each to the length of every axis that carries it.", "quantifier": "every accepted call", "why_tests_cant": "Arbitrary repetition of labels within and across operands.", "anchors": [{"file": "src/validation.rs", "symbol": "OutputSize::from_contraction_and_shapes"}]}
{"id": "C22", "title": "Operand order is irrelevant", "statement": "Permuting the operands together with their label groups (with the output written explicitly) does not change the result.", "quantifier": "every accepted explicit string, every permutation", "why_tests_cant": "Different permutations take different paths, contractors and products.", "anchors": [{"file": "src/lib.rs", "symbol": "einsum"}, {"file": "src/optimizers.rs", "symbol": "generate_path"}]}
{"id": "C23", "title": "Label names are irrelevant", "statement": "Renaming the labels by any injective map (with the output written explicitly and renamed too) does not change the result.", "quantifier": "every accepted explicit string, every injective renaming within a-z", "why_tests_cant": "Sorting and hashing depend on the names; the result must not.", "anchors": [{"file": "src/validation.rs", "symbol": "Contraction::from_indices"}, {"file": "src/contractors/pair_contractors.rs", "symbol": "TensordotGeneral::new"}]}
{"id": "C24", "title": "Multilinearity", "statement": "einsum is linear in each operand separately: adding two values of one operand adds the results, and scaling one operand scales the result.", "quantifier": "every accepted call, every operand position, every semiring", "why_tests_cant": "Algebraic law over all inputs.", "anchors": [{"file": "src/lib.rs", "symbol": "einsum"}]}
{"id": "C25", "title": "Operands that do not match a compiled path", "statement": "contract_operands panics if fewer operands are supplied than the path needs. It should reject operands whose shapes differ from those compiled for: REFUTED, some mismatching shapes are silently accepted and the result is not an Einstein sum of them; surplus operands are ignored.", "quantifier": "all operand lists given to a compiled path", "why_tests_cant": "Rejection must hold for all inputs; the refutation exhibits an accepted bad input.", "anchors": [{"file": "src/contractors/mod.rs", "symbol": "EinsumPath::contract_operands"}, {"file": "src/validation.rs", "symbol": "SizedContraction::contract_operands"}]}
{"id": "C26", "title": "Size of intermediate results", "statement": "No intermediate result of a compiled path has more elements than the product of the lengths of the labels occurring in the operands combined so far, and none carries a repeated label.", "quantifier": "every accepted call", "why_tests_cant": "Bound over all paths.", "anchors": [{"file": "src/optimizers.rs", "symbol": "generate_path"}]}
{"id": "C27", "title": "Error message is a function of the input", "statement": "The Err message returned for a given string and operands should be the same on every run. REFUTED: the message depends on hash iteration order exactly when the output both repeats some label and names once a label that no operand has; in every other case it is determined.", "quantifier": "all rejected inputs, all hash orders", "why_tests_cant": "A test sees one random order.", "anchors": [{"file": "src/validation.rs", "symbol": "Contraction::from_indices"}]}
{"id": "C28", "title": "Empty sums are zero", "statement": "If some label that is summed over has length zero, every element of the result is zero.", "quantifier": "every accepted call without an empty operand that repeats a label", "why_tests_cant": "Zero-length axes go through every contractor differently.", "anchors": [{"file": "src/contractors/pair_contractors.rs", "symbol": "TensordotFixedPosition::contract_pair"}, {"file": "src/contractors/singleton_contractors.rs", "symbol": "Summation::contract_singleton"}]}
{"id": "C29", "title": "Order of multiplication", "statement": "For scalars whose multiplication does not commute, factors should be multiplied in operand order. REFUTED: the scalar-by-tensor contractor multiplies the right operand's element by the left scalar from the right.", "quantifier": "all non-commutative scalar types accepted by the trait bound", "why_tests_cant": "Tests only use f64.", "anchors": [{"file": "src/contractors/pair_contractors.rs", "symbol": "ScalarMatrixProduct::contract_pair"}]}
{"id": "C30", "title": "Unused contractors are correct", "statement": "The pair contractors that the strategy never selects (HadamardProduct, ScalarMatrixProduct, MatrixScalarProduct, TensordotFixedPosition, BroadcastProductGeneral) compute the Einstein sum on the contractions they are documented for, and StackedTensordotGeneral does so for all pairs of simplified operands, including those without stack axes.", "quantifier": "all contractions of the documented forms", "why_tests_cant": "The tests never reach them.", "anchors": [{"file": "src/contractors/pair_contractors.rs", "symbol": "BroadcastProductGeneral"}, {"file": "src/contractors/pair_contractors.rs", "symbol": "HadamardProduct"}, {"file": "src/contractors/pair_contractors.rs", "symbol": "ScalarMatrixProduct"}, {"file": "src/contractors/pair_contractors.rs", "symbol": "MatrixScalarProduct"}, {"file": "src/contractors/pair_contractors.rs", "symbol": "TensordotFixedPosition"}, {"file": "src/contractors/pair_contractors.rs", "symbol": "StackedTensordotGeneral"}]}
{"id": "C31", "title": "DiagonalizationAndSummation as universal singleton contractor", "statement": "The documentation says DiagonalizationAndSummation should be able to handle every singleton contraction. It does whenever at least one label is summed; REFUTED otherwise, its constructor asserts that at least one axis is summed.", "quantifier": "all singleton contractions", "why_tests_cant": "All label patterns.", "anchors": [{"file": "src/contractors/strategies.rs", "symbol": "SingletonSummary::get_strategy"}, {"file": "src/contractors/singleton_contractors.rs", "symbol": "DiagonalizationAndSummation::new"}, {"file": "src/contractors/singleton_contractors.rs", "symbol": "Summation::from_sizes"}]}
{"id": "C32", "title": "No usize overflow in the crate's own products", "statement": "Every product of axis lengths the crate computes while compiling a pair step is at most the product of the non-zero axis lengths of one of the two arrays of that step, a number ndarray guarantees to fit in isize; so none of these multiplications overflows.", "quantifier": "every accepted call and every step", "why_tests_cant": "Needs sizes near 2^63.", "anchors": [{"file": "src/contractors/pair_contractors.rs", "symbol": "TensordotFixedPosition::from_shapes_and_number_of_contracted_axes"}, {"file": "src/contractors/pair_contractors.rs", "symbol": "StackedTensordotGeneral::new"}]}
{"id": "C33", "title": "Wrapping integers", "statement": "For machine integers with wrap-around arithmetic of any width, einsum returns the exact integer Einstein sum reduced modulo 2^width, whatever order the products and sums are done in.", "quantifier": "every width, every accepted call, all operand values", "why_tests_cant": "Overflow patterns depend on evaluation order; equality must hold for all values.", "anchors": [{"file": "src/lib.rs", "symbol": "einsum"}]}
{"id": "C34", "title": "Staged evaluation", "statement": "Contracting some of the operands first, keeping every label that the remaining operands or the output use, and then contracting that result with the rest, gives the same array as one call.", "quantifier": "every accepted explicit call with at least two operands and every split point", "why_tests_cant": "Associativity over all splits.", "anchors": [{"file": "src/lib.rs", "symbol": "einsum"}]}
{"id": "C35", "title": "Diagonal views stay inside the operand", "statement": "The strided view used to extract a diagonal never addresses memory outside the operand's own elements, and ndarray's bounds and overlap checks on it always succeed for a non-empty operand, so the unwrap cannot fail.", "quantifier": "all non-empty contiguous operands in any axis memory order, all repeated-label patterns", "why_tests_cant": "Bounds over all shapes, strides and patterns.", "anchors": [{"file": "src/contractors/singleton_contractors.rs", "symbol": "Diagonalization::view_singleton"}]}
{"id": "C36", "title": "Named special cases", "statement": "ii is the trace, ii->i the diagonal, ij->ji (and ji) the transpose, ij->i the row sums, ij,jk->ik the matrix product, i,j->ij the outer product, ij,ij->ij the element-wise product, bij,bjk->bik the batched matrix product, i,i-> the dot product.", "quantifier": "all shapes, contents and layouts", "why_tests_cant": "Documentation examples use one literal each.", "anchors": [{"file": "src/lib.rs", "symbol": "einsum"}]}
{"id": "C37", "title": "Sums of strides in the diagonal view", "statement": "Adding up the strides of the axes that share a label while building a diagonal view never exceeds usize::MAX, for a contiguous operand with positive strides whose element count fits in isize. Proved for labels of length at least two, and for labels of length one with at most two axes; REFUTED for three axes of length one, whose strides ndarray leaves arbitrary.", "quantifier": "all non-empty contiguous operands with positive strides, all repeated-label patterns", "why_tests_cant": "Needs strides near 2^63 on axes of length one.", "anchors": [{"file": "src/contractors/singleton_contractors.rs", "symbol": "Diagonalization::view_singleton"}]}
{"id": "C38", "title": "Error messages name a defect the call has", "statement": "The Err message of a rejected call describes a defect of that call: no parse, an output label repeated, an output label no operand has, a wrong number of operands, an operand whose rank differs from its label count, or an axis length that disagrees with an earlier one, looked for in that order; conversely every message so described is returned for some hash order. SizedContraction::subset likewise reports an unknown label before a defect of the output.", "quantifier": "all strings, all operand shapes, all hash orders", "why_tests_cant": "Tests only check is_err, never the text, so any two messages could be exchanged.", "anchors": [{"file": "src/validation.rs", "symbol": "Contraction::from_indices"}, {"file": "src/validation.rs", "symbol": "OutputSize::from_contraction_and_shapes"}, {"file": "src/validation.rs", "symbol": "SizedContraction::subset"}]}
{"id": "C39", "title": "Runs respect relations between scalar types", "statement": "If a relation between two scalar types holds of the zeros and ones and is preserved by sums and products (and by the fused multiply-add, where ndarray uses one), and the second type is a commutative semiring, then every element einsum, a compiled path or tensordot computes over the first type is related to the sum over the second. Consequences: results stay in any set of scalars closed under the operations; homomorphisms commute with einsum; einsum over intervals encloses every sum of enclosed values.", "quantifier": "all scalar types and relations, all strings and operands, hash orders, layouts, summation orders, both strategies", "why_tests_cant": "Tests instantiate einsum at f64 only; the claim is about every element type the generic code accepts.", "anchors": [{"file": "src/lib.rs", "symbol": "einsum"}, {"file": "src/contractors/mod.rs", "symbol": "EinsumPath::contract_operands"}]}
{"id": "C40", "title": "Rounding error is bounded", "statement": "Over scalars whose sums and products, fused or not, are exact up to a relative error eps and an absolute error eta for underflow (adding zero, multiplying by zero or one and one plus one being exact), each element of the result of einsum over n operands and t summed index combinations differs from the exact Einstein sum by at most ((1+eps)^k - 1) times the Einstein sum of the absolute values plus ((1+eta)^k - 1)(1+eps)^k times the Einstein sum of one plus the absolute values, with k = n+t-2, or is an overflowed value; for non-negative operands and without underflow this is relative to the result itself. An element of a tensordot over t contracted positions obeys the same bound with k = t.", "quantifier": "all rounding scalars, all strings and operands, hash orders, layouts, summation orders, both strategies", "why_tests_cant": "Tests compare within a fixed tolerance on a few arrays; the bound holds for every order in which the sums and products may be evaluated.", "anchors": [{"file": "src/lib.rs", "symbol": "einsum"}, {"file": "src/contractors/mod.rs", "symbol": "EinsumPath::contract_operands"}]}
{"id": "C41", "title": "Results are reproducible between runs", "statement": "The result of einsum does not depend on the hash seed, bit for bit and for scalars that obey no law. Proved, along with the compiled path, for one operand and for two operands neither of which repeats a label or has a summed label of its own; REFUTED in general: a label summed away first leaves the others in hash order, and a rounding sum over them depends on it.", "quantifier": "all scalars, strings, operands and pairs of hash orders", "why_tests_cant": "Each test process sees one hash seed and compares within a tolerance.", "anchors": [{"file": "src/contractors/mod.rs", "symbol": "PairContraction::new"}, {"file": "src/validation.rs", "symbol": "SizedContraction::subset"}]}
{"id": "C42", "title": "A compiled path uses the contractor its labels call for", "statement": "In a compiled path an operand is simplified before a pair step exactly if it repeats a label or has one that neither the other operand nor the result uses, and keeps exactly the other labels; the pair method is Hadamard, scalar-matrix, matrix-scalar, tensordot or stacked tensordot exactly in the cases these are for (mutually exclusive); a single operand is treated by identity, permutation, summation, diagonalization or their combinations exactly in their cases; the boxed contractor is the one the stored method names; the stored strings are the step's labels, and mean the step's contraction exactly when both simplified operands keep a label. That the stored strings always parse is REFUTED.", "quantifier": "all accepted calls, both strategies, all hash orders", "why_tests_cant": "A wrong choice of contractor may still give the right values, and tests only look at values.", "anchors": [{"file": "src/contractors/mod.rs", "symbol": "PairContraction::new"}, {"file": "src/contractors/strategies.rs", "symbol": "PairSummary::get_strategy"}, {"file": "src/contractors/strategies.rs", "symbol": "SingletonSummary::get_strategy"}]}
{"id": "C43", "title": "Debug output of a compiled path is well bracketed", "statement": "The {:?} text of a compiled path has matching parentheses, brackets and braces. True for a path of one operand. REFUTED for two or more operands: the text never matches, because PairContraction's Debug implementation omits its closing brace.", "quantifier": "all accepted calls, both strategies, all hash orders", "why_tests_cant": "No test reads the Debug text, and its content varies with labels and shapes.", "anchors": [{"file": "src/contractors/mod.rs", "symbol": "Debug for PairContraction"}, {"file": "src/contractors/mod.rs", "symbol": "Debug for EinsumPath"}]}
{"id": "C44", "title": "Contractors refuse contractions they cannot compute", "statement": "A contractor given a contraction it is not documented for panics, when it is built or whenever it is run, and never computes something else. Proved for all pair contractors but TensordotFixedPosition, and for Permutation and DiagonalizationAndSummation. REFUTED for TensordotFixedPosition (which compares only numbers of labels and products of lengths and multiplies its operands as matrices whatever their labels) and for Identity, Summation, Diagonalization and PermutationAndSummation, each of which silently computes something else for some contraction. On the contractions it is documented for every single-operand contractor gives the Einstein sum.", "quantifier": "all sized contractions of one or two operands, all operands, layouts and backends", "why_tests_cant": "The constructors are private and the crate's tests reach them only through the strategies, with contractions that fit.", "anchors": [{"file": "src/contractors/pair_contractors.rs", "symbol": "TensordotFixedPosition::new"}, {"file": "src/contractors/singleton_contractors.rs", "symbol": "PermutationAndSummation::new"}]}
{"id": "C45", "title": "Any valid contraction order computes the Einstein sum", "statement": "EinsumPath::from_path compiles, and contract_operands runs, any order of pair steps that combines the operands into one array along any binary tree, provided a step drops a label only when no array still to be combined and not the output has it. The result is the Einstein sum, so any two valid orders agree; the path panics exactly when an operand with a repeated label and an empty axis meets the step that uses it. Orders generated by Naive and Reverse are valid, and every binary tree over the operands has a valid order. REFUTED: that from_path or contract_operands refuse an order that is not valid; one that drops a label too early runs and gives another value.", "quantifier": "all operand counts, trees, orders, operands, layouts, hash orders and backends", "why_tests_cant": "The crate generates only two of the exponentially many orders, always extending one intermediate result; orders combining two intermediate results arise only from hand-written or deserialised orders.", "anchors": [{"file": "src/contractors/mod.rs", "symbol": "EinsumPath::from_path"}, {"file": "src/contractors/mod.rs", "symbol": "EinsumPath::contract_operands"}, {"file": "src/optimizers.rs", "symbol": "ContractionOrder"}]}
{"id": "C46", "title": "Contractions assembled by hand", "statement": "The fields of Contraction and SizedContraction are public. A SizedContraction with any field values compiles exactly if it has an operand, its output names distinct labels of the operands, and every operand label has a length; otherwise compiling panics. Labels may be any characters and operands may have no axes. A compiled one computes the Einstein sum for operands of the recorded lengths. The summation labels it records and the lengths of other labels are ignored. SizedContraction::from_contraction_and_operands accepts any contraction exactly if lengths fit the operands. EinsumPath::from_path compiles a ContractionOrder exactly if each pair step has two operands and satisfies the condition above, or, for one operand, if the output has no more labels than the operand has different ones, and either the operand repeats no label and the output names some of its labels, or it does and all labels have lengths; otherwise it panics. REFUTED: that an order that compiles runs on operands of the recorded lengths (an output may repeat labels), that what from_contraction_and_operands accepts can be run (output labels are not checked), and that as_einsum_string of a contraction that can be run denotes it.", "quantifier": "all field values, operands, layouts, hash orders and backends", "why_tests_cant": "Tests build contractions from strings, which have letters as labels, operands with axes, and consistent fields.", "anchors": [{"file": "src/validation.rs", "symbol": "SizedContraction"}, {"file": "src/validation.rs", "symbol": "SizedContraction::from_contraction_and_operands"}, {"file": "src/lib.rs", "symbol": "einsum_sc"}, {"file": "src/optimizers.rs", "symbol": "generate_optimized_order"}, {"file": "src/contractors/mod.rs", "symbol": "EinsumPath::from_path"}]}
{"id": "C47", "title": "Not-a-number and zero factors show in the result", "statement": "A scalar that spoils every sum and product it enters (not-a-number) and is a factor of some term of a result element spoils that element. An element all of whose terms have a zero factor is zero (or not finite, if something was not finite). Neither needs a law of arithmetic. The converse of the first is REFUTED: when a summed label has length zero the Einstein sum has no terms, but the code multiplies the empty sum, zero, with the other operands, so not-a-number there spoils the result.", "quantifier": "all scalar types, strings, operands, hash orders, layouts, summation orders, both strategies", "why_tests_cant": "Tests use random finite operands of positive size.", "anchors": [{"file": "src/lib.rs", "symbol": "einsum"}, {"file": "src/contractors/mod.rs", "symbol": "EinsumPath::contract_operands"}]}
{"id": "C48", "title": "Stored contractions, orders and paths can be read back", "statement": "With the feature serde, every value of a type that derives Serialize and Deserialize is read back as itself, up to the order of hash maps, however the format presents it (structs as maps in any order or as sequences, variants and fields by name or number, characters as strings). A contraction or an order that was read back gives the same result as the stored one on every operand list, panics included, also under other hash maps. The order in a stored compiled path, which itself cannot be read, can be compiled again and computes the Einstein sum. Fields may come in any order, unknown ones are ignored, missing or repeated ones are errors; a repeated length replaces the one before. That what is stored is the same in every run is REFUTED (hash order), and so is that reading validates: a contraction can be read that panics on every operand list.", "quantifier": "all values, presentations, hash orders of the writer and of the reader, operands, layouts", "why_tests_cant": "The repository has no test with the feature serde; presentations and hash orders are unbounded.", "anchors": [{"file": "src/validation.rs", "symbol": "SizedContraction"}, {"file": "src/optimizers.rs", "symbol": "ContractionOrder"}, {"file": "src/contractors/mod.rs", "symbol": "EinsumPath"}]}
{"id": "C49", "title": "Scalars whose zero does not absorb", "statement": "For scalars that satisfy every law of a commutative semiring but 0*x = 0 (numbers with a not-a-number), einsum, both strategies and every valid contraction order still return the Einstein sum, as long as no label that is summed over has length zero. Hence a result element is not-a-number exactly when a factor of one of its terms is. With an empty sum this is REFUTED: the code multiplies the empty sum with the other operands. The function tensordot needs no such condition; its elements are related to the sums of related operands by every relation that sums and products of non-empty sums keep, or come from zero if the summed axes are empty.", "quantifier": "all scalar types with these laws, strings, operands, hash orders, layouts, summation orders, both strategies, all valid orders", "why_tests_cant": "Tests use random finite operands.", "anchors": [{"file": "src/lib.rs", "symbol": "einsum"}, {"file": "src/contractors/mod.rs", "symbol": "EinsumPath::contract_operands"}, {"file": "src/lib.rs", "symbol": "tensordot"}]}
{"id": "C50", "title": "ndarray's limit on the size of an array", "statement": "ndarray refuses arrays whose non-zero axis lengths have a product above isize::MAX. A well-formed call on operands within the limit panics for this reason exactly when, for some m >= 2, the product of the first m operands (in the order of the strategy), after summing every label that neither a later operand nor the output has, exceeds the limit; no temporary matrix, copy or product computed by the crate exceeds it before. Otherwise the call ends as it does without a limit, so it is enough that the product over all labels is within the limit. On any arguments the limit turns results into panics and changes nothing else; rejected calls get the same message. tensordot panics for this reason exactly when its result exceeds the limit. That well-formed calls on such operands return is REFUTED, even for results without elements, and so is that both strategies return on the same calls.", "quantifier": "all limits, strings, operands, scalar types, hash orders, layouts, both strategies", "why_tests_cant": "Operands near the limit cannot be allocated in a test, apart from empty ones.", "anchors": [{"file": "src/lib.rs", "symbol": "einsum"}, {"file": "src/contractors/mod.rs", "symbol": "EinsumPath::contract_operands"}, {"file": "src/contractors/pair_contractors.rs", "symbol": "TensordotFixedPosition"}, {"file": "src/lib.rs", "symbol": "tensordot"}]}
{"id": "C51", "title": "Contractors given operands of other shapes", "statement": "A compiled path can be given operands of other shapes (C25). For every operand: HadamardProduct broadcasts its operands as ndarray does and panics exactly when they have no common shape; ScalarMatrixProduct and MatrixScalarProduct use the first element of the operand in the number's place and panic exactly when it has none; TensordotFixedPosition reads its operands in row-major order as the matrices it was compiled for and panics exactly when a number of elements differs; Permutation panics exactly when the rank differs; Summation sums the axes it was compiled for, keeps those after them, and panics exactly when they do not exist. The contractors that also permute do the same after permuting, StackedTensordotGeneral for each matrix of the stack. Diagonalization returns, at each position, the element at the sum of the row-major strides, and panics exactly when one is outside the memory or ndarray's overlap check fails; an operand at least as long along every axis gives its leading part, in every layout and also when the diagonal is summed. DiagonalizationAndSummation does the same, except that it adds up the strides of the memory itself when the operand is contiguous with positive strides. BroadcastProductGeneral repeats its operands along missing axes and axes of length 1 and panics exactly when another length differs or the number of axes does not fit. That a reused path returns an array of the shape it was compiled for, and that its result does not depend on the layout of its operands, are REFUTED.", "quantifier": "all operands of any shape, layout and scalar type, all compiled lengths, permutations and axes", "why_tests_cant": "The repository never reuses a path with other shapes.", "anchors": [{"file": "src/contractors/pair_contractors.rs", "symbol": "HadamardProduct"}, {"file": "src/contractors/pair_contractors.rs", "symbol": "ScalarMatrixProduct"}, {"file": "src/contractors/pair_contractors.rs", "symbol": "TensordotFixedPosition"}, {"file": "src/contractors/singleton_contractors.rs", "symbol": "Summation"}, {"file": "src/contractors/singleton_contractors.rs", "symbol": "Diagonalization"}, {"file": "src/contractors/singleton_contractors.rs", "symbol": "DiagonalizationAndSummation"}, {"file": "src/contractors/pair_contractors.rs", "symbol": "StackedTensordotGeneral"}, {"file": "src/contractors/pair_contractors.rs", "symbol": "TensordotGeneral"}, {"file": "src/contractors/pair_contractors.rs", "symbol": "BroadcastProductGeneral"}]}
{"id": "C52", "title": "Floating-point numbers", "statement": "Over the numbers of any binary floating-point format, f64 and f32 among them, rounded to nearest and multiplied and added with or without fused multiply-adds: an element of the result of einsum, of a compiled path or of tensordot is within the bound of C40 of the exact sum, with eps = 2^-prec and eta half the smallest positive number, or is an infinity or not-a-number. If all operands are finite and no sum is empty, an element is finite whenever (1+eps)^k (1+eta)^k times the Einstein sum of one plus the absolute values is below 2^emax, k being the number of operands plus the number of summed index combinations. If the operands are integers, an element is exact whenever the Einstein sum of the absolute values, each taken as at least one, is at most 2^prec. For tensordot the same two conditions suffice, with k two more than the number of terms and without the condition on empty sums. That integers are always added exactly, and that elements of a result of einsum are finite also with empty sums, are REFUTED.", "quantifier": "all formats with 0 < prec < emax, all strings, operands of any layout and any elements, all hash orders, all ways ndarray may add up terms, fused or not", "why_tests_cant": "The repository compares floating-point results on random operands up to a tolerance.", "anchors": [{"file": "src/lib.rs", "symbol": "einsum"}, {"file": "src/lib.rs", "symbol": "tensordot"}, {"file": "src/contractors/mod.rs", "symbol": "EinsumPath"}, {"file": "src/contractors/pair_contractors.rs", "symbol": "TensordotGeneral"}]}
{"id": "C53", "title": "Amount of arithmetic", "statement": "A well-formed call takes exactly this many products of two elements and reads exactly this many elements in sums along an axis, whatever the layouts and the hash order. The operands are multiplied in the order of the strategy, from left to right by default; multiplying in the next one takes one product for each value of those labels, of it and the operands before it, that it shares with them or that a later operand or the output has. Before it is used, each operand is restricted to its diagonals and summed, axis by axis, over the labels that neither another operand nor the output has; every such axis reads the elements that are left. tensordot takes one product for each position of the result and each position along the contracted axes. Without empty axes a call of n operands takes at most n - 1 products for each value of all labels, and reads each operand at most once for each of its axes. The strategies read the same number of elements in sums, and take the same number of products for at most two operands. That the bound holds with empty axes, and that the strategies take the same number of products up to a constant factor, are REFUTED.", "quantifier": "all strings, operands of any layout and elements, all hash orders, all backends", "why_tests_cant": "Tests compare results; a contractor that keeps a label too long, or sums it inside the matrix product, gives the same result at a higher cost.", "anchors": [{"file": "src/contractors/mod.rs", "symbol": "EinsumPath"}, {"file": "src/contractors/mod.rs", "symbol": "PairContraction"}, {"file": "src/contractors/pair_contractors.rs", "symbol": "StackedTensordotGeneral"}, {"file": "src/contractors/singleton_contractors.rs", "symbol": "Summation"}, {"file": "src/lib.rs", "symbol": "einsum"}, {"file": "src/lib.rs", "symbol": "tensordot"}]}
{"id": "C54", "title": "Contracting into a view", "statement": "contract_and_assign_pair runs the contractor on its operands and writes the result into the given view: for a PairContraction made from a string, the Einstein sum at every index, repeated along the axes that the view has in addition and along those where the result has length 1. Every element of the buffer outside the view keeps its value, for views with any offset and strides. It panics exactly when the contraction does or when the shape of the result cannot be repeated to that of the view. That a result of another shape than the view always panics is REFUTED.", "quantifier": "all strings with two operands, operands of any layout and elements, all mutable views, all hash orders, all backends over a commutative semiring", "why_tests_cant": "The method is only reached through StackedTensordotGeneral, which passes row-major views of the right shape.", "anchors": [{"file": "src/contractors/mod.rs", "symbol": "contract_and_assign_pair"}, {"file": "src/contractors/mod.rs", "symbol": "PairContraction"}, {"file": "src/contractors/pair_contractors.rs", "symbol": "StackedTensordotGeneral"}]}
{"id": "C55", "title": "Contraction orders are straight-line programs", "statement": "EinsumPath::from_path and contract_operands take any list of pair steps, not only those that combine every operand once. If every step refers to arrays of the lengths it records, the steps run one after another and each computes the Einstein sum of the two arrays it refers to, in its own labels and lengths, so a result may be used several times or dropped and a label may have another length in every step; the last result is returned. The run panics exactly if a step meets an operand with a repeated label and an empty axis. An order without steps, or with a step that refers to a missing operand or to the result of itself or a later step, panics. The orders of C45 are among these. As an instance, n squaring steps compute the 2^n-th power of a matrix. REFUTED: that steps check the lengths they record when they run.", "quantifier": "all lists of steps, operands, layouts, hash orders and backends", "why_tests_cant": "The crate generates only chains in which every array is used once; other programs are hand-written or deserialised.", "anchors": [{"file": "src/contractors/mod.rs", "symbol": "EinsumPath::contract_operands"}, {"file": "src/contractors/mod.rs", "symbol": "EinsumPath::from_path"}, {"file": "src/optimizers.rs", "symbol": "ContractionOrder"}]}
{"id": "C56", "title": "The repository's tests, for all operands", "statement": "tests/einsum_test.rs compares the library with loops written out by hand for one shape and random elements. For every well-formed call on operands of any lengths, layouts and elements (lengths other than 0 where an operand repeats a label, C08), the program that starts from zeros, runs one loop per label in any order and adds the product of the operands' elements to the answer computes what einsum, and einsum_path followed by contract_operands with Naive or Reverse, return; and the equation of each numeric test holds with its fixed shape replaced by any lengths. tensordot with a number 1 returns the other operand.", "quantifier": "all lengths, layouts, elements, commutative semirings, loop orders, hash orders, both strategies", "why_tests_cant": "Each test checks one shape with random elements, in row-major order but for two tests.", "anchors": [{"file": "tests/einsum_test.rs", "symbol": "it_contracts_three_matrices_with_repeats_3"}, {"file": "tests/einsum_test.rs", "symbol": "tensordot_handles_degenerate_lhs"}, {"file": "src/lib.rs", "symbol": "einsum"}, {"file": "src/lib.rs", "symbol": "einsum_path"}]}
{"id": "C57", "title": "The adjoint of einsum in an operand is an einsum", "statement": "If x, whose labels each occur once in it and also in another operand or the output, is an operand of a call that returned r, and z has the shape of r, then the call with z in the place of x that asks for the labels of x returns an array g of the shape of x, and the sum over all positions of z times r equals that of x times g. So g is the gradient with respect to x of the sum of z times r: adding dx to x adds the sum of dx times g, exactly.", "quantifier": "all well-formed calls, operands, layouts, commutative semirings, hash orders", "why_tests_cant": "A test compares one numeric gradient at one point, up to rounding.", "anchors": [{"file": "src/lib.rs", "symbol": "einsum"}]}
{"id": "C58", "title": "Einstein sums in blocks and with merged labels", "statement": "Restricting a label of the output to a range in every operand that has it gives that range of the result. Cutting the range of a summed label into blocks in every operand gives arrays that add up to the result. Two labels that occur in the same operands, and are both in the output or both summed, may be merged into one whose length is the product, the operands and the result being reshaped accordingly.", "quantifier": "all well-formed calls, ranges, numbers of blocks, layouts, commutative semirings, hash orders; no operand with a repeated label and an empty axis", "why_tests_cant": "There are infinitely many shapes and ways to cut them.", "anchors": [{"file": "src/lib.rs", "symbol": "einsum"}]}
{"id": "C59", "title": "Operands of ones and zeros and identity matrices", "statement": "An operand of ones all of whose labels occur in another operand or the output may be left out, together with the output labels that only it has, along which the result is constant. An operand of zeros makes every element zero. An identity matrix one of whose two labels is summed may be left out if that label is renamed to the other one in the remaining operands, even if this makes an operand repeat a label.", "quantifier": "all well-formed calls, layouts, commutative semirings, hash orders; no operand with a repeated label and an empty axis", "why_tests_cant": "Each test has fixed labels and shapes.", "anchors": [{"file": "src/lib.rs", "symbol": "einsum"}]}
{"id": "C60", "title": "What a call does with the elements", "statement": "If ndarray chooses layouts and orders of summation without looking at elements, then whether a call returns, its message or panic, and the layout of the result depend on no element and not on the element type. For given string, layouts and hash order each element of the result is one fixed expression of sums, products and fused multiply-adds in the operands' elements, and if no sum is empty that expression mentions exactly the factors of its terms in the Einstein sum, so changing any other element does not change it by a bit. A map that commutes with the machine's operations commutes with every call. Changing the signs of zeros in floating-point operands changes only signs of zeros in the result.", "quantifier": "all strings, valid or not, operands, layouts, scalar types without any law, hash orders, schedules of summation", "why_tests_cant": "A test has particular elements; a shortcut taken only for some values would go unnoticed.", "anchors": [{"file": "src/lib.rs", "symbol": "einsum"}, {"file": "src/lib.rs", "symbol": "einsum_path"}, {"file": "src/lib.rs", "symbol": "tensordot"}]}
{"id": "C61", "title": "Integers with overflow checks", "statement": "In a build where integer overflow panics, if a call returns then every element is the Einstein sum over the unbounded integers. If no label has length zero, a call panics exactly if looking for an overflow in the final result of an unchecked run would find one: an overflow in an intermediate result always reaches the result. A call is certain to return if no Einstein sum of the absolute values, each taken to be at least one, exceeds the largest integer; for operands that are at least one it returns exactly if the elements of the result fit.", "quantifier": "all calls, layouts, integer ranges and widths, signed or unsigned, backends, hash orders, valid orders of pair steps", "why_tests_cant": "A test has particular values and shapes; whether an intermediate result overflows depends on the order of contraction.", "anchors": [{"file": "src/lib.rs", "symbol": "einsum"}, {"file": "src/contractors/mod.rs", "symbol": "EinsumPath::contract_operands"}, {"file": "src/lib.rs", "symbol": "tensordot"}]}
{"id": "C62", "title": "Signs, powers of two and order in rounding arithmetic", "statement": "For floating-point numbers of any format, with rounding, overflow and fused multiply-adds, and sums in any fixed order: negating operands negates the result exactly (by the parity of the number negated); operands of definite signs give results of the product of the signs, or zeros or not-a-number; multiplying operands by powers of two multiplies the result by their product without changing a digit where nothing overflows and no product can fall below the smallest number; making non-negative operands smaller makes no element larger, nor a finite one infinite; a call is monotone in each operand by itself if the others are not negative; a finite element has only finite factors and is within the error bound.", "quantifier": "all formats, operand shapes and layouts, elements, einsum strings, both strategies, valid orders, tensordot axes, orders of summation, hash orders", "why_tests_cant": "Tests compare sums of a few small integers or with a tolerance; whether signs and factors pass through exactly depends on every rounding of every operation in every order.", "anchors": [{"file": "src/lib.rs", "symbol": "einsum"}, {"file": "src/lib.rs", "symbol": "tensordot"}, {"file": "src/contractors/mod.rs", "symbol": "EinsumPath::contract_operands"}, {"file": "src/contractors/pair_contractors.rs", "symbol": "PairContractor"}]}
{"id": "C63", "title": "The cost of a contraction order", "statement": "For any list of pair steps that finds arrays of the recorded lengths, a run takes in each step one product for each value of the labels of the result and of the labels contracted, and reads, before that, the elements of each operand along the axes that only it has; repeated squaring of a d by d matrix takes d^3 products a step. If the operands of all steps have representable sizes, compiling the list does not overflow; run under a limit on the size of an array, it ends as without the limit if the result of every step is within it, and panics otherwise. The two strategies' orders are not always within a constant factor of the best valid order (refuted).", "quantifier": "all lists of pair steps, operand shapes and layouts, element types, limits, hash orders", "why_tests_cant": "Counts and limits depend on lengths and steps that tests fix; no test times an order or reaches a size limit.", "anchors": [{"file": "src/contractors/mod.rs", "symbol": "EinsumPath::contract_operands"}, {"file": "src/contractors/mod.rs", "symbol": "EinsumPath::from_path"}, {"file": "src/optimizers.rs", "symbol": "generate_optimized_order"}]}
{"id": "C64", "title": "The storage a call holds", "statement": "Following the elements of all arrays the library has made and not yet dropped: a call ends holding its result only. Meanwhile every intermediate result is kept to the end, so the most it holds is at least all intermediate products together, and it is at most three times the operands plus twice the intermediate products. Of the steps with no operand to be simplified first, an elementwise or scalar product holds only its result, any other holds its result twice, and one with a label in both operands and the result that is not elementwise also copies both operands, whatever their layout. A rearrangement of one operand holds only its result. tensordot holds its result twice and at most both operands besides. Exactly: a call with one operand holds a copy, or its successive sums two at a time, or a copy and its diagonal, or the diagonal beside the larger of the copy and the sums, the last needing neither copy nor diagonal if the operand is one piece of memory with positive strides; a step prepares its left operand, then beside it the right one, then beside both the product; a product read as matrices copies exactly the operands that are not in row-major order along the matrix. The peak is not bounded by a constant multiple of the operands and the result (refuted).", "quantifier": "all calls and lists of pair steps, operand shapes and layouts, element types, hash orders, backends", "why_tests_cant": "No test observes allocation, and the peak grows with the number of operands and their lengths.", "anchors": [{"file": "src/contractors/mod.rs", "symbol": "EinsumPath::contract_operands"}, {"file": "src/contractors/pair_contractors.rs", "symbol": "StackedTensordotGeneral"}, {"file": "src/contractors/pair_contractors.rs", "symbol": "TensordotGeneral"}, {"file": "src/contractors/singleton_contractors.rs", "symbol": "Diagonalization"}]}
{"id": "C65", "title": "Builds with and without overflow checks", "statement": "Take the compilation with counters of label occurrences, differences and products of machine width, once with overflow checks (out of range panics) and once without (out of range wraps). With unbounded numbers it is the model. Whatever the build with checks does without a panic - a call, a call with a path, tensordot, validating a string, compiling an order - the build without checks and the model do too, with the same outcome. If no character of the string occurs more often than the largest counter and the operands of all steps have representable sizes, both builds give the model's outcome; for tensordot it is enough that the operands have representable sizes. A label repeated more often than the largest counter panics with checks, and repeated 2^32 + 1 times is kept in an implicit output without them, though it should be summed. The build without checks does not always panic where the other does (refuted), and does not read every string as the model does (refuted).", "quantifier": "all machine widths, strings, operand shapes and layouts, element types, strategies, orders, hash orders, backends", "why_tests_cant": "Tests run in one build profile and with small sizes.", "anchors": [{"file": "src/validation.rs", "symbol": "Contraction::from_indices"}, {"file": "src/contractors/strategies.rs", "symbol": "SingletonSummary"}, {"file": "src/contractors/pair_contractors.rs", "symbol": "TensordotFixedPosition::from_shapes_and_number_of_contracted_axes"}, {"file": "src/contractors/singleton_contractors.rs", "symbol": "Summation"}]}
{"id": "C66", "title": "What the Debug texts show", "statement": "The text of a tree of names, numbers, characters, strings, lists and tables with proper names and no quotation mark inside a string determines the tree. Every derived Debug implementation shows the names, the parts and their order that the derived Serialize implementation stores, so equal texts of contractors and contractions mean equal values, and of orders equal up to the order of hash maps. The hand-written implementations show method, contractor with all its numbers, kept labels and string; a simplification is called a SingletonContraction, and a pair step lacks only its closing brace. The text of a compiled path determines its steps. It does not determine results, since the operands of the steps are not shown (refuted), and it is not the same in every run (refuted).", "quantifier": "all values of every type, all calls, element types, strategies, hash orders", "why_tests_cant": "Tests can compare single texts; that no two different values share a text is a statement about all pairs of values.", "anchors": [{"file": "src/contractors/mod.rs", "symbol": "Debug for EinsumPath"}, {"file": "src/contractors/mod.rs", "symbol": "Debug for PairContraction"}, {"file": "src/contractors/mod.rs", "symbol": "Debug for SimplificationMethodAndOutput"}, {"file": "src/optimizers.rs", "symbol": "ContractionOrder"}]}
{"id": "C67", "title": "Derivatives and complex numbers", "statement": "Over dual numbers (a value and a slope, the square of the slope unit being zero) einsum, compiled Naive and Reverse paths and tensordot return the value of the operation and its derivative: the sum, over the operands, of the operation with that operand replaced by its slope. It is the derivative: moving the operands by t along the slopes, up to multiples of t squared, moves the result of a run by t times it, up to a multiple of t squared. Over the complex numbers of a commutative ring, conjugating the operands conjugates the result, and real operands give the result of the run over the ring. Panics and errors are those of the plain run.", "quantifier": "all commutative semirings (rings for complex numbers), strings, operands, layouts, hash orders, exact backends, steps t", "why_tests_cant": "A test differentiates one call at one point; the statement is about every call, every scalar type and every direction.", "anchors": [{"file": "src/lib.rs", "symbol": "einsum"}, {"file": "src/lib.rs", "symbol": "tensordot"}, {"file": "src/contractors/mod.rs", "symbol": "EinsumPath::contract_operands"}]}
{"id": "C68", "title": "Einsum is determined by unit operands", "statement": "Over a commutative semiring, if each operand is one at one position and zero elsewhere, an element of the result of einsum is one if its position and those of the operands give every label a single value, and zero otherwise; such a call never panics. Any function of the operands that is linear in each of them and does this on unit operands has, at every position, the value einsum returns. The same two statements hold of tensordot, where the coordinates along the free axes make up the position in the result and those along the contracted axes have to agree. So what these functions compute is fixed without reference to a definition of Einstein sums.", "quantifier": "all commutative semirings, strings, operands of any layout, hash orders, summation orders, all functions linear in each operand", "why_tests_cant": "Uniqueness speaks about all functions on all operands.", "anchors": [{"file": "src/lib.rs", "symbol": "einsum"}, {"file": "src/lib.rs", "symbol": "tensordot"}]}
{"id": "C69", "title": "The benchmarks time equal computations", "statement": "Each call of benches/bench.rs that is timed beside an operation of ndarray (a matrix product, a product position by position, one with the transpose, the sum of a matrix) returns, by einsum and by a path compiled once, an array equal to the one of that operation; the outer products return the products of the elements. The matrix product and the double outer products compile to TensordotGeneral or, with a shared label, StackedTensordotGeneral, the products position by position to HadamardProductGeneral, the sum to Summation, without simplifications. Matrix products and products position by position take exactly as many products as the builtin operations; the sum of an n by m matrix reads n*m+m elements.", "quantifier": "all lengths of the axes, operands of any layout, commutative semirings (any scalars for the contractors and the work), hash orders, summation orders", "why_tests_cant": "The benchmarks are never checked against each other, and fix one length each.", "anchors": [{"file": "benches/bench.rs", "symbol": "bench_multiply_large"}, {"file": "benches/bench.rs", "symbol": "bench_sum_huge"}, {"file": "benches/bench.rs", "symbol": "bench_stacked_double_outer_product_large"}]}
{"id": "C70", "title": "Backward error", "statement": "In arithmetic with relative error eps per operation, with n operands and t summed index combinations, each finite element that einsum or a compiled path returns is the exact Einstein sum with every term multiplied by a factor within (1+eps)^(n+t-2)-1 of one, up to what underflow may add. If some operand has every label (a matrix times a vector, an elementwise product, a sum), the whole result is the exact Einstein sum of the same operands except that one, whose elements are each moved by at most that factor. This holds of IEEE floating-point numbers, however products and sums are ordered and fused. Without such an operand it fails: a computed outer product need not be the outer product of any two vectors.", "quantifier": "all rounding arithmetics, formats, calls, operands of any layout, hash orders, summation orders", "why_tests_cant": "The perturbed operand is not computed by the program, and the statement is about every rounding.", "anchors": [{"file": "src/lib.rs", "symbol": "einsum"}, {"file": "src/contractors/mod.rs", "symbol": "contract_operands"}]}
{"id": "C71", "title": "The disabled iterator over several axes", "statement": "If the code in iterators.rs were compiled: for distinct axes of non-zero length, every call of next succeeds; the positions along the axes are visited in row-major order, each exactly once, and then the iterator stays exhausted. Each item is a view into the array with the remaining axes, holding the array's elements at that position; adding up the items is the einsum that drops the labels of those axes. An axis the array lacks is refused by new. With an axis of length zero the first call of next panics instead of returning None, and a repeated axis is not refused.", "quantifier": "all arrays of any rank and layout, all axis lists, any number of calls of next", "why_tests_cant": "The renumbering of axes and the carrying of positions interact for every order of axes and every shape.", "anchors": [{"file": "src/iterators.rs", "symbol": "MultiAxisIterator"}]}
{"id": "C72", "title": "With ndarray's own layouts and summation orders", "statement": "The memory orders and the orders of addition that ndarray 0.15 and matrixmultiply use are among those every other theorem allows, whatever the scalars. With them, copies of contiguous arrays keep their strides and other copies are row-major; element-wise products of column-major arrays are column-major. An element of a tensordot is the sum of its products in row-major order of the summed axes, added up the way the matrix multiplication does, so equal operands give the same result to the last bit however they are stored. For einsum that is false: a sum over a contiguous lane and over a strided one can differ.", "quantifier": "all scalars without any laws, all arrays, axes, layouts, block sizes, with and without fused multiply-adds", "why_tests_cant": "Tests fix one machine's kernels and a few layouts, and compare with a tolerance.", "anchors": [{"file": "src/lib.rs", "symbol": "tensordot"}, {"file": "src/contractors/pair_contractors.rs", "symbol": "TensordotFixedPosition"}, {"file": "src/contractors/singleton_contractors.rs", "symbol": "Summation"}]}
{"id": "C73", "title": "Memory orders never show", "statement": "If two array libraries add up sums in the same order and differ only in how they lay out the arrays they make, and the operands are equal element by element but stored differently, then einsum, tensordot and a compiled path give results equal to the last bit, in any arithmetic. On the same operands the two also fail together. With ndarray's own rules, whose sums along an axis do depend on the layout, this still holds of every call in which no operand repeats a label and each label is shared with another operand or the output, such as a product of matrices.", "quantifier": "all scalars without any laws, calls, operands, layouts, hash orders, and array libraries", "why_tests_cant": "It compares two libraries on every pair of layouts; tests have one library and compare with a tolerance.", "anchors": [{"file": "src/lib.rs", "symbol": "einsum"}, {"file": "src/lib.rs", "symbol": "tensordot"}, {"file": "src/contractors/mod.rs", "symbol": "contract_operands"}]}
{"id": "C74", "title": "Exact values of products", "statement": "Take a call of two operands or more in which no operand repeats a label and each label is shared with another operand or the output. In any arithmetic, even one whose additions round and are not associative, it returns an array whose elements are explicit expressions: the operands are combined one after the other, in order (from the last for a reversed path). Each combination is one product of elements if both sides and the result have the same labels or one side is a scalar, and otherwise the sum that a matrix product makes of the products met by one loop per summed label. The loops are in the order of the first side if a label of the result is one of both sides, and otherwise in alphabetical order. In particular the product of two matrices on ndarray is, to the last bit, the multiplier's sum of its products in order.", "quantifier": "all scalars without any laws, calls, operands, layouts, hash orders, and array libraries whose matrix products ignore the layout", "why_tests_cant": "The order of summation shows only in the last bits of floating-point results, which tests compare with a tolerance.", "anchors": [{"file": "src/lib.rs", "symbol": "einsum"}, {"file": "src/contractors/pair_contractors.rs", "symbol": "TensordotGeneral"}, {"file": "src/contractors/pair_contractors.rs", "symbol": "StackedTensordotGeneral"}, {"file": "src/contractors/strategies.rs", "symbol": "PairSummary"}]}
{"id": "C75", "title": "Exact values of all calls", "statement": "In any arithmetic, even one whose additions round and are not associative, every element of the result of any call is an explicit expression. With one operand, the labels that the output lacks are summed one after the other, in the order in which the operand's labels are first met. With two or more, the operands are combined one after the other as in C74, but before each combination each side is reduced: its labels that neither the other side nor the result has are summed in that same order, repeated labels are taken along the diagonal, and a side that needs neither stays as it is. In particular the sum over one label on ndarray is, to the last bit, a sum in eight interleaved parts if no axis of the operand has a smaller stride and the stride is one, and a sum from the left otherwise.", "quantifier": "all scalars without any laws, calls, operands, layouts, hash orders, and array libraries whose matrix products ignore the layout", "why_tests_cant": "The order of summation shows only in the last bits of floating-point results, which tests compare with a tolerance, and the choice of summation depends on the memory layout of the operand.", "anchors": [{"file": "src/lib.rs", "symbol": "einsum"}, {"file": "src/contractors/singleton_contractors.rs", "symbol": "Summation"}, {"file": "src/contractors/singleton_contractors.rs", "symbol": "DiagonalizationAndSummation"}, {"file": "src/contractors/mod.rs", "symbol": "SimplificationMethodAndOutput"}]}
{"id": "C76", "title": "Ways of writing a product", "statement": "In any arithmetic, even one whose additions round, some ways of writing the same call give results equal to the last bit. For one operand: other names for the labels. For two operands neither of which repeats a label or has a summed label of its own: other names, if a label is one of both operands and the output or if the summed labels keep their alphabetical order; permuted axes of operands and result, if no label is one of both operands and the output or if the summed labels of the first operand keep their order; swapped operands, if multiplication commutes and under the like condition. So in floating-point arithmetic with or without fused multiply-adds the product of the transposed matrices is the transposed product. REFUTED without the conditions: each of the three can change a result in f64.", "quantifier": "all scalars without any laws, calls, operands, layouts, hash orders, renamings and permutations, and array libraries whose matrix products ignore the layout", "why_tests_cant": "Tests compare with a tolerance, which hides differences in the last bits and cannot show that there are none.", "anchors": [{"file": "src/contractors/pair_contractors.rs", "symbol": "TensordotGeneral::new"}, {"file": "src/contractors/pair_contractors.rs", "symbol": "StackedTensordotGeneral::new"}, {"file": "src/validation.rs", "symbol": "Contraction::from_indices"}]}
{"id": "C77", "title": "Tensor dot products to the last bit", "statement": "In any arithmetic, even one whose additions round, tensordot gives the same result to the last bit as einsum with the string that names the contracted axes alike and lists the others in order, if the contracted axes are listed in the alphabetical order of their labels, as in the documentation's examples. In floating-point arithmetic, a call on two or more operands that sums nothing and repeats no label in an operand, and tensordot without contracted axes, hold in each element the product of elements of the operands from the left to the right, rounded after every factor, infinities and all, whatever multiplies the matrices and with or without fused multiply-adds; only the sign of a zero is open, and tensordot without fused multiply-adds never holds a negative zero. REFUTED without the conditions: with the axes in another order the two functions can differ in f64, and an outer product can lose the sign of a zero.", "quantifier": "all scalars without any laws, operands, layouts, lists of axes, hash orders and array libraries whose matrix products ignore the layout; all floating-point formats and numbers", "why_tests_cant": "The documentation's examples compare one call each, with a tolerance in the tests; which orders of axes give the same bits is a statement about all of them.", "anchors": [{"file": "src/lib.rs", "symbol": "tensordot"}, {"file": "src/contractors/pair_contractors.rs", "symbol": "TensordotGeneral::from_shapes_and_axis_numbers"}, {"file": "src/contractors/pair_contractors.rs", "symbol": "TensordotFixedPosition::contract_pair"}]}
{"id": "C78", "title": "The documentation's equalities, to the last bit", "statement": "The documentation asserts with assert_eq!, which compares floating-point numbers bit for bit up to the sign of zero, that einsum returns what ndarray's own methods return. For operands of all shapes, layouts and elements, in any arithmetic: a sum over the last label is sum_axis over the last axis; \"ji\" and \"ij->ji\" are the transpose; \"ii->i\" is the diagonal if the matrix is not empty; \"ij,jk->ik\", called directly or through a naive path, is dot. A trace \"ii\" is diag().sum() if the matrix is stored without gaps and with positive strides. REFUTED for other matrices: of a slice, the two can differ in f64, because einsum copies the diagonal and then adds it up in eight parts.", "quantifier": "all scalars without any laws, operands, layouts, lengths and hash orders; for the trace ndarray's own sums, otherwise all array libraries (for products those whose matrix products ignore the layout)", "why_tests_cant": "The documentation's examples are one matrix each, filled with small integers, for which every order of addition gives the same bits.", "anchors": [{"file": "src/lib.rs", "symbol": "einsum"}, {"file": "src/lib.rs", "symbol": "einsum_path"}, {"file": "src/contractors/singleton_contractors.rs", "symbol": "DiagonalizationAndSummation::contract_singleton"}]}
{"id": "C79", "title": "Backward error of tensordot", "statement": "In arithmetic with relative error eps per operation, each finite element that tensordot returns is the exact sum of its t terms, each multiplied by a factor within (1+eps)^t-1 of one, up to what underflow may add. If all axes of one operand are contracted, as in the product of a matrix with a vector, the whole result is the exact one for an other operand whose elements are each moved by at most that factor. This holds of IEEE floating-point numbers, however products and sums are ordered and fused. REFUTED if both operands keep an axis: a computed outer product need not be the outer product of any two vectors.", "quantifier": "all rounding arithmetics, formats, operands of any layout, contracted axes in any order, summation orders", "why_tests_cant": "The perturbed operand is not computed by the program, and the statement is about every rounding.", "anchors": [{"file": "src/contractors/pair_contractors.rs", "symbol": "TensordotGeneral::contract_pair"}, {"file": "src/lib.rs", "symbol": "tensordot"}]}
{"id": "C80", "title": "How far results can differ", "statement": "In arithmetic with relative error eps per operation: two runs of a call, with whatever hash orders, memory layouts, summation orders and strategies, differ by at most twice the error bound. Two runs in different arithmetics (f32 and f64), on operands that agree up to a relative error of d, differ by at most the sum of the two error bounds and ((1+d)^n-1) times the Einstein sum of the absolute values, for n operands. The exact Einstein sum of operands rounded with relative error d is within that last term of the exact one. This holds of IEEE floating-point numbers. REFUTED: no bound relative to the exact result holds for all calls, in f64 four numbers that add up to zero can give -2.", "quantifier": "all pairs of rounding arithmetics and formats, calls, operands of any layout, hash orders, array libraries, strategies", "why_tests_cant": "Tests compare results up to a tolerance chosen by hand; they cannot show that no run exceeds it.", "anchors": [{"file": "src/lib.rs", "symbol": "einsum"}, {"file": "src/lib.rs", "symbol": "einsum_path"}, {"file": "src/contractors/mod.rs", "symbol": "contract_operands"}]}
{"id": "C81", "title": "Algebra of tensordot", "statement": "Over any commutative semiring: the order in which tensordot's pairs of axes are named does not matter; with the operands and their axes swapped, the result is the same with the two groups of its axes swapped; tensordot is linear in each operand; and of an array contracted with two others along different axes it does not matter which contraction comes first, when the axes of the second contraction are those that come from the same axes of the shared operand.", "quantifier": "all commutative semirings, operands of any rank and layout, axis lists of any length, array libraries that meet the contract", "why_tests_cant": "Tests compare a few axis lists; they cannot relate the results of all of them.", "anchors": [{"file": "src/lib.rs", "symbol": "tensordot"}, {"file": "src/contractors/pair_contractors.rs", "symbol": "TensordotGeneral"}]}
{"id": "C82", "title": "How far results of tensordot can differ", "statement": "In arithmetic with relative error eps per operation: two tensordots of the same operands, with the pairs of axes named in any order, any memory layouts and any summation orders, differ by at most twice the error bound of tensordot. In two arithmetics, on operands that agree up to a relative error of d, they differ by at most the sum of the two error bounds and ((1+d)^2-1) times the tensor dot product of the absolute values; the exact product of rounded operands is within that last term of the exact one. A tensordot and the corresponding einsum differ by at most the sum of their error bounds. This holds of IEEE floating-point numbers.", "quantifier": "all rounding arithmetics and formats, operands of any rank and layout, axis lists, array libraries, hash orders and strategies of the einsum", "why_tests_cant": "Tests compare results up to a tolerance chosen by hand; they cannot show that no run exceeds it.", "anchors": [{"file": "src/lib.rs", "symbol": "tensordot"}, {"file": "src/lib.rs", "symbol": "einsum"}, {"file": "src/contractors/pair_contractors.rs", "symbol": "TensordotGeneral"}]}
{"id": "C83", "title": "Permuted and swapped operands of tensordot", "statement": "If the axes of tensordot's operands are permuted, as views, and the axes named in the call are renamed accordingly, the axes of the result are permuted and its elements are the same to the last bit, whatever the scalars and however a matrix product adds up its products, as long as both calls add alike. In arithmetic with the laws of addition the elements are the same even if the two sums are ordered differently. Swapping the operands and their axes swaps the two groups of axes of the result and changes no bit either, if swapping the factors of products does not change their sum, as for IEEE floating-point numbers.", "quantifier": "all scalar types, operands of any rank and layout, permutations, axis lists of any length, array libraries", "why_tests_cant": "Tests try a few permutations on a few operands; they cannot show that the order of additions never depends on the permutation.", "anchors": [{"file": "src/lib.rs", "symbol": "tensordot"}, {"file": "src/contractors/pair_contractors.rs", "symbol": "TensordotGeneral"}]}
{"id": "C84", "title": "Nested tensordots", "statement": "Calls of tensordot whose operands are results of tensordot, nested in any way, return if the axes of every call fit. In exact arithmetic the result holds the nested tensor dot products. With rounding, if there are k arrays and each element multiplies out to n products, every element that represents a number is within ((1 + eps)^(k + n - 2) - 1) times the same expression of the absolute values, plus a term for underflow. The two ways of nesting three operands, one of which is contracted with both others, differ by at most twice this bound.", "quantifier": "all expressions of nested calls, operands of any rank and layout, arithmetics that round, floating-point formats, orders in which sums are taken", "why_tests_cant": "Tests compare a few nested products with a tolerance chosen by hand; they cannot show that a bound holds for every expression and every order of additions.", "anchors": [{"file": "src/lib.rs", "symbol": "tensordot"}]}
{"id": "C85", "title": "Reshaping", "statement": "is_standard_layout says exactly whether the elements of an array lie in memory in row-major order. into_shape reads a row-major array in row-major order and a column-major array in column-major order, and fails for any other array or if the number of elements changes. The pair contractors never reshape an array that is not in row-major order, whatever the layout of the operands and whatever the contractor was built from: with a reshape that panics on all other arrays every contraction ends in the same way.", "quantifier": "all well-formed arrays, shapes, pair contractors, scalar types, array libraries", "why_tests_cant": "Tests pass a few layouts; they cannot show that no intermediate matrix product or buffer is ever laid out so that a reshape fails or scrambles its elements.", "anchors": [{"file": "src/contractors/pair_contractors.rs", "symbol": "TensordotFixedPosition"}, {"file": "src/contractors/pair_contractors.rs", "symbol": "StackedTensordotGeneral"}]}
{"id": "C86", "title": "Rounding through a series of calls", "statement": "If each operand of a call is within a known number of roundings of some exact array, such as the result of another call, then the result is within the sum of these numbers, plus those of the call itself, of the Einstein sum or tensor dot product of the exact arrays: errors of a series of calls add up in the exponent of (1 + eps). For nested tensordots the number of roundings is the sum of the contracted lengths of all calls, not their product.", "quantifier": "all arithmetics with a bounded relative error, in particular all binary floating-point formats; all well-formed calls; both strategies; all operands and what they approximate", "why_tests_cant": "Tests compare single calls within a tolerance; they cannot bound how the errors of one call's result grow in the calls that use it.", "anchors": [{"file": "src/lib.rs", "symbol": "einsum"}, {"file": "src/lib.rs", "symbol": "einsum_path"}, {"file": "src/lib.rs", "symbol": "tensordot"}]}
{"id": "C87", "title": "Staged evaluation in rounding arithmetic", "statement": "Contracting some of the operands in a first call and the result with the others in a second call panics exactly when the single call for all operands does, and otherwise returns elements within the roundings of both calls of the exact Einstein sum of all operands. Unless a summed label has length zero, the two calls together round no more often than the single call, and their result differs from that of the single call, with any strategy, by at most twice the error bound of the single call.", "quantifier": "all arithmetics with a bounded relative error, in particular all binary floating-point formats; all well-formed calls with explicit output; all splits of the operands into a first and a second group; all hash seeds and array libraries", "why_tests_cant": "Tests compare a few staged calls within a tolerance chosen by hand; the bound holds for every split, operand and summation order.", "anchors": [{"file": "src/lib.rs", "symbol": "einsum"}, {"file": "src/lib.rs", "symbol": "einsum_path"}]}
{"id": "C88", "title": "Series of calls", "statement": "A straight-line program of einsum calls, runs of compiled paths and tensordots, whose operands are given arrays or earlier results used any number of times, returns whenever its calls fit the shapes that can be read off the calls alone, with results of these shapes and whatever scalars. Over a commutative semiring the results are the Einstein sums and tensor dot products of the exact operands, and neither the strategies nor the hash orders of the calls nor the array library show. In rounding arithmetic each result is within the number of roundings counted along the program, operands counting as often as they are used, and two runs differ by at most twice that.", "quantifier": "all programs, given arrays, scalar types, hash orders of each call, array libraries, strategies", "why_tests_cant": "Tests make single calls; programs of calls are unbounded and share results.", "anchors": [{"file": "src/lib.rs", "symbol": "einsum"}, {"file": "src/lib.rs", "symbol": "einsum_path"}, {"file": "src/lib.rs", "symbol": "tensordot"}]}
{"id": "C89", "title": "Stored steps of a path", "statement": "The steps of a compiled path, of which contractors/mod.rs derives only Serialize, are stored so that a program knowing only the declarations can read them: from every presentation of what was stored it gets the variant, the method of every step, the simplification of either operand with its method, new labels and string, and the simplified string. Exactly this is stored: steps are stored alike if and only if they agree but for their boxed contractors, which are skipped. Compiling the order stored with them again gives the steps that were stored.", "quantifier": "all steps, paths, orders, presentations of stored data, hash orders of the storing program", "why_tests_cant": "No test stores a path, and the crate cannot read one.", "anchors": [{"file": "src/contractors/mod.rs", "symbol": "EinsumPathSteps"}, {"file": "src/contractors/mod.rs", "symbol": "PairContraction"}, {"file": "src/contractors/mod.rs", "symbol": "SimplificationMethodAndOutput"}]}
{"id": "C90", "title": "Methods follow from the string", "statement": "Two calls with the same string and the same strategy, on operands of any accepted shapes and scalar types and with any hash orders, use the same number of steps and the same contractor for each pair, simplify the same operands before a step, to the same labels in some order, and in the same way except that a sum may or may not move the kept axes first; a call on one operand uses the same contractor. The exception is real: simplification methods do depend on the hash order. The same holds for any valid order compiled by two programs, and a path that was stored says, in these terms, how its order will be computed when it is compiled again.", "quantifier": "all strings, operands, scalar types, strategies, hash orders, valid orders, presentations of stored paths", "why_tests_cant": "Hash orders change from run to run and tests see only one of them; no test compares methods across shapes.", "anchors": [{"file": "src/contractors/mod.rs", "symbol": "PairContraction::new"}, {"file": "src/contractors/mod.rs", "symbol": "SimplificationMethodAndOutput::from_indices_and_sizes"}, {"file": "src/optimizers.rs", "symbol": "generate_path"}]}
