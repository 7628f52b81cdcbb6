(** The execution of a path with ndarray's limit on the size of an array. ndarray refuses, by a
    panic or by an error the crate unwraps, to make an array or view whose non-zero axis lengths
    have a product above [isize::MAX] ([size_of_shape_checked] and [can_index_slice] in ndarray
    0.15); an axis of length zero does not lift the limit. NDArray.v makes arrays of every size.
    Here the operations that make an array or change its shape are repeated with the limit, and
    the functions of the crate that call them, with nothing else changed. No proofs in this
    file. *)
From Verif Require Import Base NDArray Validation Optimizers Strategies Singleton Pair Path Api Spec Overflow.

Section Limited.
(** [isize::MAX]. *)
Variable L : nat.

(** ndarray makes no array whose non-zero lengths multiply to more than [isize::MAX]; the arrays
    made are those of pair_contractors.rs:223,437,783-784 and singleton_contractors.rs:166,244. *)
Definition fits (sh : list nat) : bool := Nat.leb (nonzero_product sh) L.

(** An operation of ndarray that makes an array of a new shape. ndarray checks the shape first;
    every failure is a panic of the crate, so that checking it last amounts to the same
    [pair_contractors.rs:437]. *)
Definition limited {A : Type} (x : res (arr A)) : res (arr A) :=
  do r <- x; do _ <- rassert (fits (a_shape r)); Ok r.

Section Run.
Context {A : Type} {S : Scalar A}.
Variable lay : backend A.

(** singleton_contractors.rs:115-124 [Permutation::contract_singleton]. *)
Definition permutation_contract_l (p : permutation) (t : arr A) : res (arr A) :=
  do v <- permuted_axes t p; limited (to_owned lay v).

(** singleton_contractors.rs:161-171 [Summation::contract_singleton]. *)
Definition summation_contract_l (s : summation) (t : arr A) : res (arr A) :=
  do ax0 <- index (adjusted_axis_list s) 0;
  do r0 <- limited (sum_axis lay t ax0);
  foldM (fun r ax => limited (sum_axis lay r ax)) (skipn 1 (adjusted_axis_list s)) r0.

(** singleton_contractors.rs:228-249 [Diagonalization::view_singleton]. The limit is that of
    [ArrayView::from_shape]; its second limit, on the largest offset, is implied by the first
    element and the last lying in the slice. *)
Definition diagonalization_view_l (d : diagonalization) (t : arr A) : res (arr A) :=
  limited (diagonalization_view d t).

(** singleton_contractors.rs:253-263 [Diagonalization::contract_singleton]. *)
Definition diagonalization_contract_l (d : diagonalization) (t : arr A) : res (arr A) :=
  do l <- a_iter t;
  do cloned <- limited (from_shape_vec (a_shape t) l);
  do v <- diagonalization_view_l d cloned;
  limited (into_owned lay v).

(** singleton_contractors.rs:349-372 [DiagonalizationAndSummation::contract_singleton]. *)
Definition diag_and_sum_contract_l (d : diagonalization) (s : summation) (t : arr A)
  : res (arr A) :=
  let direct :=
    match as_slice_memory_order t with Some _ => true | None => false end
    && forallb (fun st => Z.ltb 0 st) (a_strides t) in
  do viewed <- (if direct then diagonalization_view_l d t else diagonalization_contract_l d t);
  summation_contract_l s viewed.

(** singleton_contractors.rs:56-62, 115-124, 161-171, 253-263, 309-316, 349-372. *)
Definition run_singleton_l (op : singleton_op) (t : arr A) : res (arr A) :=
  match op with
  | OpIdentity => limited (to_owned lay t)
  | OpPermutation p => permutation_contract_l p t
  | OpSummation s => summation_contract_l s t
  | OpDiagonalization d => diagonalization_contract_l d t
  | OpPermutationAndSummation p s =>
      do v <- permutation_view p t; summation_contract_l s v
  | OpDiagonalizationAndSummation d s => diag_and_sum_contract_l d s t
  end.

(** pair_contractors.rs:195-206 and 209-220. *)
Definition as_matrix_l (rows cols : nat) (t : arr A) : res (arr A) :=
  if is_standard_layout t then limited (into_shape t [rows; cols])
  else do l <- a_iter t; limited (from_shape_vec [rows; cols] l).

(** pair_contractors.rs:184-226 [TensordotFixedPosition::contract_pair]. *)
Definition run_tfp_l (t : tensordot_fixed) (lhs rhs : arr A) : res (arr A) :=
  do lv <- as_matrix_l (len_uncontracted_lhs t) (len_contracted_axes t) lhs;
  do rv <- as_matrix_l (len_contracted_axes t) (len_uncontracted_rhs t) rhs;
  do d <- limited (dot lay lv rv);
  limited (into_shape d (tfp_output_shape t)).

(** pair_contractors.rs:379-396 [TensordotGeneral::contract_pair]. *)
Definition run_tg_l (t : tensordot_general) (lhs rhs : arr A) : res (arr A) :=
  do pl <- permutation_view (tg_lhs_permutation t) lhs;
  do pr <- permutation_view (tg_rhs_permutation t) rhs;
  do d <- run_tfp_l (tg_fixed t) pl pr;
  permutation_contract_l (tg_output_permutation t) d.

(** pair_contractors.rs:427-438 [HadamardProduct::contract_pair]. The views over the common shape
    have the shape of the result. *)
Definition run_hadamard_l (lhs rhs : arr A) : res (arr A) := limited (mul_arrays lay lhs rhs).

(** pair_contractors.rs:480-494 [HadamardProductGeneral::contract_pair]. *)
Definition run_hadamard_general_l (pl pr : permutation) (lhs rhs : arr A) : res (arr A) :=
  do l <- permutation_view pl lhs;
  do r <- permutation_view pr rhs;
  run_hadamard_l l r.

(** pair_contractors.rs:525-537 [ScalarMatrixProduct::contract_pair]. *)
Definition run_scalar_matrix_l (lhs rhs : arr A) : res (arr A) :=
  do o <- first lhs;
  do s <- unwrap o;
  limited (mapv lay (fun x => smul x s) rhs).

(** pair_contractors.rs:581-593. *)
Definition run_scalar_matrix_general_l (pr : permutation) (lhs rhs : arr A) : res (arr A) :=
  do r <- permutation_view pr rhs; run_scalar_matrix_l lhs r.

(** pair_contractors.rs:624-636 [MatrixScalarProduct::contract_pair]. *)
Definition run_matrix_scalar_l (lhs rhs : arr A) : res (arr A) :=
  do o <- first rhs;
  do s <- unwrap o;
  limited (mapv lay (fun x => smul x s) lhs).

(** pair_contractors.rs:680-692. *)
Definition run_matrix_scalar_general_l (pl : permutation) (lhs rhs : arr A) : res (arr A) :=
  do l <- permutation_view pl lhs; run_matrix_scalar_l l rhs.

(** pair_contractors.rs:764-787 [BroadcastProductGeneral::contract_pair]. *)
Definition run_broadcast_l (b : broadcast_product) (lhs rhs : arr A) : res (arr A) :=
  do l0 <- permutation_view (bp_lhs_permutation b) lhs;
  do r0 <- permutation_view (bp_rhs_permutation b) rhs;
  do l1 <- foldM (fun t i => insert_axis t i) (bp_lhs_insertions b) l0;
  do r1 <- foldM (fun t i => insert_axis t i) (bp_rhs_insertions b) r0;
  do l2 <- limited (broadcast l1 (bp_output_sizes b));
  do r2 <- limited (broadcast r1 (bp_output_sizes b));
  run_hadamard_l l2 r2.

(** pair_contractors.rs:988-996 and contractors/mod.rs:109-122. The assignment is between arrays
    that exist; if it has to broadcast, then to the shape of one of them. *)
Definition stacked_iteration_l (t : tensordot_fixed) (lsubs rsubs : list (arr A))
    (buf : arr A) (i : nat) : res (arr A) :=
  do out <- index_axis buf 0 i;
  do l <- index lsubs i;
  do r <- index rsubs i;
  do out' <- contract_and_assign_pair (run_tfp_l t) l r out;
  Ok (mkArr (a_data out') (a_off buf) (a_shape buf) (a_strides buf)).

(** pair_contractors.rs:963-1002 [StackedTensordotGeneral::contract_pair]. *)

Definition run_stacked_l (s : stacked_tensordot) (lhs rhs : arr A) : res (arr A) :=
  do pl <- permutation_view (st_lhs_permutation s) lhs;
  do ll <- a_iter pl;
  do lr <- limited (from_shape_vec (st_lhs_output_shape s) ll);
  do pr <- permutation_view (st_rhs_permutation s) rhs;
  do rl <- a_iter pr;
  do rr <- limited (from_shape_vec (st_rhs_output_shape s) rl);
  do buf <- limited (Ok (zeros (st_intermediate_shape s)));
  do lsubs <- outer_iter lr;
  do rsubs <- outer_iter rr;
  do n <- index (a_shape buf) 0;
  do buf' <- foldM (stacked_iteration_l (st_fixed s) lsubs rsubs) (seq 0 n) buf;
  do reshaped <- limited (into_shape buf' (st_output_shape s));
  permutation_contract_l (st_output_permutation s) reshaped.

(** [contract_pair] of each [PairContractor]
    [pair_contractors.rs:183-227,339-352,431-438,489-497,528-537,577-585,627-636,676-684,762-789,957-1003]. *)
Definition run_pair_l (op : pair_op) (lhs rhs : arr A) : res (arr A) :=
  match op with
  | OpHadamardProduct => run_hadamard_l lhs rhs
  | OpHadamardProductGeneral pl pr => run_hadamard_general_l pl pr lhs rhs
  | OpScalarMatrixProduct => run_scalar_matrix_l lhs rhs
  | OpScalarMatrixProductGeneral pr => run_scalar_matrix_general_l pr lhs rhs
  | OpMatrixScalarProduct => run_matrix_scalar_l lhs rhs
  | OpMatrixScalarProductGeneral pl => run_matrix_scalar_general_l pl lhs rhs
  | OpTensordotFixedPosition t => run_tfp_l t lhs rhs
  | OpTensordotGeneral t => run_tg_l t lhs rhs
  | OpBroadcastProductGeneral b => run_broadcast_l b lhs rhs
  | OpStackedTensordotGeneral s => run_stacked_l s lhs rhs
  end.

(** contractors/mod.rs:355-378 [PairContraction::contract_pair]. *)

Definition run_simplification_l (s : option simplification) (t : arr A) : res (arr A) :=
  match s with
  | Some s => run_singleton_l (simpl_op s) t
  | None => Ok t
  end.

(** contractors/mod.rs:354-378 [PairContraction::contract_pair]. *)
Definition run_pair_contraction_l (p : pair_contraction) (lhs rhs : arr A) : res (arr A) :=
  do l <- run_simplification_l (pc_lhs_simplification p) lhs;
  do r <- run_simplification_l (pc_rhs_simplification p) rhs;
  run_pair_l (pc_op p) l r.

(** contractors/mod.rs:474-486. *)
Definition run_step_l (operands : list (arr A)) (intermediates : list (arr A))
    (so : pair_contraction * pair_step) : res (list (arr A)) :=
  let '(step, order_step) := so in
  do lhs <- fetch operands intermediates (ps_lhs order_step);
  do rhs <- fetch operands intermediates (ps_rhs order_step);
  do r <- run_pair_contraction_l step lhs rhs;
  Ok (intermediates ++ [r]).

(** contractors/mod.rs:462-491 [EinsumPath::contract_operands]. *)
Definition contract_operands_l (p : einsum_path) (operands : list (arr A)) : res (arr A) :=
  match path_steps p, path_order p with
  | StepsSingleton c, Singleton _ =>
      do t <- index operands 0; run_singleton_l (sgl_op c) t
  | StepsPairs steps, Pairs order_steps =>
      do ints <- foldM (run_step_l operands) (combine steps order_steps) [];
      unwrap (pop_last ints)
  | _, _ => Panic
  end.

(** The public functions with both limits: [M] on the products the crate computes (Overflow.v),
    [L] on the arrays ndarray makes. *)
Variable M : nat.
Variable h : hash_order.

(** contractors/mod.rs:431-435 [EinsumPath::new]. *)
Definition einsum_path_new_c (k : key) (sc : sized_contraction) : res einsum_path :=
  do order <- generate_optimized_order h (10 :: k) sc Naive;
  from_path_c M h (11 :: k) order.

(** lib.rs:221-227 [einsum], lib.rs:202-207 [einsum_sc]. *)
Definition einsum_l (s : list char) (operands : list (arr A)) : res (arr A) :=
  do sc <- validate_and_size h s operands;
  do p <- einsum_path_new_c [21] sc;
  contract_operands_l p operands.

(** lib.rs:210-218 [einsum_path]. *)
Definition einsum_path_fn_c (s : list char) (operands : list (arr A))
    (strategy : optimization_method) : res einsum_path :=
  do order <- validate_and_optimize_order h [22] s (get_operand_shapes operands) strategy;
  from_path_c M h [23] order.

(** lib.rs:210-218 and contractors/mod.rs:462-491: compile with a strategy, then run. *)
Definition compile_and_run_l (s : list char) (operands : list (arr A))
    (strategy : optimization_method) : res (arr A) :=
  do p <- einsum_path_fn_c s operands strategy; contract_operands_l p operands.

(** lib.rs:269-294 [tensordot]. *)
Definition tensordot_l (lhs rhs : arr A) (lhs_axes rhs_axes : list nat) : res (arr A) :=
  do _ <- rassert (Nat.eqb (length lhs_axes) (length rhs_axes));
  do n <- usub (length (a_shape lhs) + length (a_shape rhs)) (2 * length lhs_axes);
  do t <- tg_from_axes_c M (a_shape lhs) (a_shape rhs) lhs_axes rhs_axes (seq 0 n);
  run_tg_l t lhs rhs.

End Run.
End Limited.
