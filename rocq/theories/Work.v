(** How much arithmetic a run does. The functions below repeat those of Singleton.v, Pair.v, Path.v
    and Api.v that reach ndarray's arithmetic, and count: each product of two elements that is formed,
    and each element that is read by a sum along an axis. Additions inside a matrix product are one per
    product; multiplications by one and by zero that a backend may add (see [dots_to]) are not counted.
    No proofs in this file. *)
From Verif Require Import Base NDArray Validation Optimizers Strategies Singleton Pair Path Api.

(** Counts for the arithmetic of pair_contractors.rs:223,437,536,635 and
    singleton_contractors.rs:166,168. *)

Record work := mkWork {
  products : nat;     (* products of two elements *)
  summands : nat      (* elements read by [sum_axis] *)
}.

(** A step that does no arithmetic, for example singleton_contractors.rs:110. *)

Definition no_work : work := mkWork 0 0.

(** Two steps one after the other, for example contractors/mod.rs:354-378. *)
Definition more (v w : work) : work := mkWork (products v + products w) (summands v + summands w).

(** A run with what it has counted [contractors/mod.rs:462-491]. *)

Definition counted (T : Type) : Type := res (T * work).

(** A step of the model that does no arithmetic, for example singleton_contractors.rs:122. *)

Definition uncounted {T : Type} (x : res T) : counted T := do t <- x; Ok (t, no_work).

(** Sequencing, for example contractors/mod.rs:354-378. *)

Definition cbind {T U : Type} (x : counted T) (f : T -> counted U) : counted U :=
  do (t, v) <- x; do (u, w) <- f t; Ok (u, more v w).
Notation "'count' x <- e ; k" := (cbind e (fun x => k))
  (at level 200, x pattern, e at level 100, k at level 200, right associativity) : res_scope.

(** The loops of singleton_contractors.rs:161-171, pair_contractors.rs:986-993 and
    contractors/mod.rs:474-486. *)
Fixpoint foldC {T U : Type} (f : U -> T -> counted U) (l : list T) (u : U) : counted U :=
  match l with
  | [] => Ok (u, no_work)
  | x :: l' => count u' <- f u x; foldC f l' u'
  end.

Section Run.
Context {A : Type} {S : Scalar A}.
Variable lay : backend A.

(** ** The operations of ndarray that do arithmetic *)

(** [&a * &b]: a product for each element of the result [pair_contractors.rs:437]. *)
Definition mul_arrays_w (a b : arr A) : counted (arr A) :=
  do r <- mul_arrays lay a b; Ok (r, mkWork (prod (a_shape r)) 0).

(** [mapv(|x| x * s)]: a product for each element [pair_contractors.rs:536,635]. *)
Definition scale_w (s : A) (a : arr A) : counted (arr A) :=
  do r <- mapv lay (fun x => smul x s) a; Ok (r, mkWork (prod (a_shape a)) 0).

(** [a.dot(&b)]: for each element of the result a product for each contracted position
    [pair_contractors.rs:223]. *)
Definition dot_w (a b : arr A) : counted (arr A) :=
  do r <- dot lay a b;
  Ok (r, mkWork (prod (a_shape r) * nth 1 (a_shape a) 0) 0).

(** [sum_axis(Axis(ax))] reads each element once [singleton_contractors.rs:166,168]. *)
Definition sum_axis_w (a : arr A) (ax : nat) : counted (arr A) :=
  do r <- sum_axis lay a ax; Ok (r, mkWork 0 (prod (a_shape a))).

(** ** One operand *)

(** singleton_contractors.rs:161-171 [Summation::contract_singleton]. *)
Definition summation_contract_w (s : summation) (t : arr A) : counted (arr A) :=
  count ax0 <- uncounted (index (adjusted_axis_list s) 0);
  count r0 <- sum_axis_w t ax0;
  foldC (fun r ax => sum_axis_w r ax) (skipn 1 (adjusted_axis_list s)) r0.

(** singleton_contractors.rs:349-372 [DiagonalizationAndSummation::contract_singleton]. *)
Definition diag_and_sum_contract_w (d : diagonalization) (s : summation) (t : arr A)
  : counted (arr A) :=
  let direct :=
    match as_slice_memory_order t with Some _ => true | None => false end
    && forallb (fun st => Z.ltb 0 st) (a_strides t) in
  count viewed <- uncounted (if direct then diagonalization_view d t else diagonalization_contract lay d t);
  summation_contract_w s viewed.

(** singleton_contractors.rs:56-62, 115-124, 161-171, 253-263, 309-316, 349-372. *)
Definition run_singleton_w (op : singleton_op) (t : arr A) : counted (arr A) :=
  match op with
  | OpIdentity => uncounted (to_owned lay t)
  | OpPermutation p => uncounted (permutation_contract lay p t)
  | OpSummation s => summation_contract_w s t
  | OpDiagonalization d => uncounted (diagonalization_contract lay d t)
  | OpPermutationAndSummation p s =>
      count v <- uncounted (permutation_view p t); summation_contract_w s v
  | OpDiagonalizationAndSummation d s => diag_and_sum_contract_w d s t
  end.

(** ** Two operands *)

(** pair_contractors.rs:184-226 [TensordotFixedPosition::contract_pair]. *)
Definition run_tfp_w (t : tensordot_fixed) (lhs rhs : arr A) : counted (arr A) :=
  count lv <- uncounted (as_matrix (len_uncontracted_lhs t) (len_contracted_axes t) lhs);
  count rv <- uncounted (as_matrix (len_contracted_axes t) (len_uncontracted_rhs t) rhs);
  count d <- dot_w lv rv;
  uncounted (into_shape d (tfp_output_shape t)).

(** pair_contractors.rs:379-396 [TensordotGeneral::contract_pair]. *)
Definition run_tg_w (t : tensordot_general) (lhs rhs : arr A) : counted (arr A) :=
  count pl <- uncounted (permutation_view (tg_lhs_permutation t) lhs);
  count pr <- uncounted (permutation_view (tg_rhs_permutation t) rhs);
  count d <- run_tfp_w (tg_fixed t) pl pr;
  uncounted (permutation_contract lay (tg_output_permutation t) d).

(** pair_contractors.rs:427-438 [HadamardProduct::contract_pair]. *)
Definition run_hadamard_w (lhs rhs : arr A) : counted (arr A) := mul_arrays_w lhs rhs.

(** pair_contractors.rs:480-494 [HadamardProductGeneral::contract_pair]. *)
Definition run_hadamard_general_w (pl pr : permutation) (lhs rhs : arr A) : counted (arr A) :=
  count l <- uncounted (permutation_view pl lhs);
  count r <- uncounted (permutation_view pr rhs);
  run_hadamard_w l r.

(** pair_contractors.rs:525-537 [ScalarMatrixProduct::contract_pair]. *)
Definition run_scalar_matrix_w (lhs rhs : arr A) : counted (arr A) :=
  count o <- uncounted (first lhs);
  count s <- uncounted (unwrap o);
  scale_w s rhs.

(** pair_contractors.rs:581-593. *)
Definition run_scalar_matrix_general_w (pr : permutation) (lhs rhs : arr A) : counted (arr A) :=
  count r <- uncounted (permutation_view pr rhs); run_scalar_matrix_w lhs r.

(** pair_contractors.rs:624-636 [MatrixScalarProduct::contract_pair]. *)
Definition run_matrix_scalar_w (lhs rhs : arr A) : counted (arr A) :=
  count o <- uncounted (first rhs);
  count s <- uncounted (unwrap o);
  scale_w s lhs.

(** pair_contractors.rs:680-692. *)
Definition run_matrix_scalar_general_w (pl : permutation) (lhs rhs : arr A) : counted (arr A) :=
  count l <- uncounted (permutation_view pl lhs); run_matrix_scalar_w l rhs.

(** pair_contractors.rs:764-787 [BroadcastProductGeneral::contract_pair]. *)
Definition run_broadcast_w (b : broadcast_product) (lhs rhs : arr A) : counted (arr A) :=
  count l0 <- uncounted (permutation_view (bp_lhs_permutation b) lhs);
  count r0 <- uncounted (permutation_view (bp_rhs_permutation b) rhs);
  count l1 <- uncounted (foldM (fun t i => insert_axis t i) (bp_lhs_insertions b) l0);
  count r1 <- uncounted (foldM (fun t i => insert_axis t i) (bp_rhs_insertions b) r0);
  count l2 <- uncounted (broadcast l1 (bp_output_sizes b));
  count r2 <- uncounted (broadcast r1 (bp_output_sizes b));
  run_hadamard_w l2 r2.

(** pair_contractors.rs:988-996 and contractors/mod.rs:109-122. *)
Definition stacked_iteration_w (t : tensordot_fixed) (lsubs rsubs : list (arr A))
    (buf : arr A) (i : nat) : counted (arr A) :=
  count out <- uncounted (index_axis buf 0 i);
  count l <- uncounted (index lsubs i);
  count r <- uncounted (index rsubs i);
  count out' <- (count x <- run_tfp_w t l r; uncounted (assign out x));
  Ok (mkArr (a_data out') (a_off buf) (a_shape buf) (a_strides buf), no_work).

(** pair_contractors.rs:963-1002 [StackedTensordotGeneral::contract_pair]. *)
Definition run_stacked_w (s : stacked_tensordot) (lhs rhs : arr A) : counted (arr A) :=
  count pl <- uncounted (permutation_view (st_lhs_permutation s) lhs);
  count ll <- uncounted (a_iter pl);
  count lr <- uncounted (from_shape_vec (st_lhs_output_shape s) ll);
  count pr <- uncounted (permutation_view (st_rhs_permutation s) rhs);
  count rl <- uncounted (a_iter pr);
  count rr <- uncounted (from_shape_vec (st_rhs_output_shape s) rl);
  let buf := zeros (st_intermediate_shape s) in
  count lsubs <- uncounted (outer_iter lr);
  count rsubs <- uncounted (outer_iter rr);
  count n <- uncounted (index (a_shape buf) 0);
  count buf' <- foldC (stacked_iteration_w (st_fixed s) lsubs rsubs) (seq 0 n) buf;
  count reshaped <- uncounted (into_shape buf' (st_output_shape s));
  uncounted (permutation_contract lay (st_output_permutation s) reshaped).

(** The [op] of a [PairContraction], contractors/mod.rs:358-377. *)
Definition run_pair_w (op : pair_op) (lhs rhs : arr A) : counted (arr A) :=
  match op with
  | OpHadamardProduct => run_hadamard_w lhs rhs
  | OpHadamardProductGeneral pl pr => run_hadamard_general_w pl pr lhs rhs
  | OpScalarMatrixProduct => run_scalar_matrix_w lhs rhs
  | OpScalarMatrixProductGeneral pr => run_scalar_matrix_general_w pr lhs rhs
  | OpMatrixScalarProduct => run_matrix_scalar_w lhs rhs
  | OpMatrixScalarProductGeneral pl => run_matrix_scalar_general_w pl lhs rhs
  | OpTensordotFixedPosition t => run_tfp_w t lhs rhs
  | OpTensordotGeneral t => run_tg_w t lhs rhs
  | OpBroadcastProductGeneral b => run_broadcast_w b lhs rhs
  | OpStackedTensordotGeneral s => run_stacked_w s lhs rhs
  end.

(** ** Paths *)

(** contractors/mod.rs:358-377, the simplification of one operand. *)
Definition run_simplification_w (s : option simplification) (t : arr A) : counted (arr A) :=
  match s with
  | Some s => run_singleton_w (simpl_op s) t
  | None => Ok (t, no_work)
  end.

(** contractors/mod.rs:355-378 [PairContraction::contract_pair]. *)
Definition run_pair_contraction_w (p : pair_contraction) (lhs rhs : arr A) : counted (arr A) :=
  count l <- run_simplification_w (pc_lhs_simplification p) lhs;
  count r <- run_simplification_w (pc_rhs_simplification p) rhs;
  run_pair_w (pc_op p) l r.

(** contractors/mod.rs:474-486. *)
Definition run_step_w (operands : list (arr A)) (intermediates : list (arr A))
    (so : pair_contraction * pair_step) : counted (list (arr A)) :=
  let '(step, order_step) := so in
  count lhs <- uncounted (fetch operands intermediates (ps_lhs order_step));
  count rhs <- uncounted (fetch operands intermediates (ps_rhs order_step));
  count r <- run_pair_contraction_w step lhs rhs;
  Ok (intermediates ++ [r], no_work).

(** contractors/mod.rs:462-491 [EinsumPath::contract_operands]. *)
Definition contract_operands_w (p : einsum_path) (operands : list (arr A)) : counted (arr A) :=
  match path_steps p, path_order p with
  | StepsSingleton c, Singleton _ =>
      count t <- uncounted (index operands 0); run_singleton_w (sgl_op c) t
  | StepsPairs steps, Pairs order_steps =>
      count ints <- foldC (run_step_w operands) (combine steps order_steps) [];
      uncounted (unwrap (pop_last ints))
  | _, _ => Panic
  end.

(** lib.rs:221-227 [einsum], lib.rs:202-207 [einsum_sc]. *)
Definition einsum_w (h : hash_order) (s : list char) (operands : list (arr A)) : counted (arr A) :=
  count sc <- uncounted (validate_and_size h s operands);
  count p <- uncounted (einsum_path_new h [21] sc);
  contract_operands_w p operands.

(** lib.rs:210-218 [einsum_path] and contractors/mod.rs:462-491: compile with a strategy, then run. *)
Definition compile_and_run_w (h : hash_order) (s : list char) (operands : list (arr A))
    (strategy : optimization_method) : counted (arr A) :=
  count p <- uncounted (einsum_path_fn h s operands strategy);
  contract_operands_w p operands.

(** lib.rs:269-294 [tensordot]. *)
Definition tensordot_w (lhs rhs : arr A) (lhs_axes rhs_axes : list nat) : counted (arr A) :=
  count _ <- uncounted (rassert (Nat.eqb (length lhs_axes) (length rhs_axes)));
  count n <- uncounted (usub (length (a_shape lhs) + length (a_shape rhs)) (2 * length lhs_axes));
  count t <- uncounted (tg_from_axes (a_shape lhs) (a_shape rhs) lhs_axes rhs_axes (seq 0 n));
  run_tg_w t lhs rhs.

End Run.
