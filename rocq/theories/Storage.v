(** How much storage a run holds. The functions below repeat those of Singleton.v, Pair.v, Path.v and
    Api.v that make arrays, and follow the number of elements that the arrays made by the library hold:
    an owned array counts from the moment it is made until it goes out of scope. Views hold nothing, and
    nor do the operands of the call, which the caller owns. Not followed: vectors of labels, lengths and
    strides, the unused capacity of a vector (at most four elements), and the fixed-size packing buffers
    inside a matrix product. No proofs in this file. *)
From Verif Require Import Base NDArray Validation Optimizers Strategies Singleton Pair Path Api.

(** The elements that a run holds when it ends, and the most that it holds at any moment
    [contractors/mod.rs:462-491]. *)

Record storage := mkStorage {
  held : nat;
  peak : nat
}.

(** A step that allocates nothing, for example singleton_contractors.rs:110. *)
Definition no_storage : storage := mkStorage 0 0.

(** One run after another: the second runs beside what the first still holds
    [contractors/mod.rs:462-491]. *)
Definition beside (v w : storage) : storage :=
  mkStorage (held v + held w) (Nat.max (peak v) (held v + peak w)).

(** A run with the storage it used [contractors/mod.rs:462-491]. *)

Definition stored (T : Type) : Type := res (T * storage).

(** A view of an array, for example singleton_contractors.rs:228-249. *)

Definition viewed {T : Type} (x : res T) : stored T := do t <- x; Ok (t, no_storage).

(** Sequencing, for example contractors/mod.rs:354-378. *)

Definition sbind {T U : Type} (x : stored T) (f : T -> stored U) : stored U :=
  do (t, v) <- x; do (u, w) <- f t; Ok (u, beside v w).
Notation "'store' x <- e ; k" := (sbind e (fun x => k))
  (at level 200, x pattern, e at level 100, k at level 200, right associativity) : res_scope.

(** The loops of singleton_contractors.rs:161-171, pair_contractors.rs:986-993 and
    contractors/mod.rs:474-486. *)

Fixpoint foldS {T U : Type} (f : U -> T -> stored U) (l : list T) (u : U) : stored U :=
  match l with
  | [] => Ok (u, no_storage)
  | x :: l' => store u' <- f u x; foldS f l' u'
  end.

Section Run.
Context {A : Type} {S : Scalar A}.
Variable lay : backend A.

(** The elements of an array that a step allocates, for example pair_contractors.rs:437. *)
Definition elements (a : arr A) : nat := prod (a_shape a).

(** [x] makes a new array [contractors/mod.rs:462-491]. *)
Definition made (x : res (arr A)) : stored (arr A) :=
  do r <- x; Ok (r, mkStorage (elements r) (elements r)).

(** The end of a function that returns an owned array: whatever else it holds goes out of scope
    [contractors/mod.rs:462-491]. *)
Definition returned (x : stored (arr A)) : stored (arr A) :=
  do (r, m) <- x; Ok (r, mkStorage (elements r) (peak m)).

(** The end of a scope from which no array is returned [contractors/mod.rs:462-491]. *)
Definition dropped {T : Type} (x : stored T) : stored T :=
  do (r, m) <- x; Ok (r, mkStorage 0 (peak m)).

(** ** One operand *)

(** singleton_contractors.rs:167-169: [result = result.sum_axis(..)] for each further axis. The array
    replaced is dropped once the new one is made. The storage includes [r]. *)
Fixpoint sums_s (r : arr A) (axes : list nat) : stored (arr A) :=
  match axes with
  | [] => made (Ok r)
  | ax :: axes' =>
      do r' <- sum_axis lay r ax;
      do (x, m) <- sums_s r' axes';
      Ok (x, mkStorage (held m) (Nat.max (elements r + elements r') (peak m)))
  end.

(** singleton_contractors.rs:161-171 [Summation::contract_singleton]. *)
Definition summation_contract_s (s : summation) (t : arr A) : stored (arr A) :=
  store ax0 <- viewed (index (adjusted_axis_list s) 0);
  store r0 <- viewed (sum_axis lay t ax0);
  sums_s r0 (skipn 1 (adjusted_axis_list s)).

(** singleton_contractors.rs:115-124 [Permutation::contract_singleton]: a view, then [to_owned]. *)
Definition permutation_contract_s (p : permutation) (t : arr A) : stored (arr A) :=
  store v <- viewed (permuted_axes t p); made (to_owned lay v).

(** singleton_contractors.rs:253-263 [Diagonalization::contract_singleton]: a copy of the operand, and a
    copy of its diagonal. *)
Definition diagonalization_contract_s (d : diagonalization) (t : arr A) : stored (arr A) :=
  returned (
    store l <- viewed (a_iter t);
    store cloned <- made (from_shape_vec (a_shape t) l);
    store v <- viewed (diagonalization_view d cloned);
    made (into_owned lay v)).

(** singleton_contractors.rs:349-372 [DiagonalizationAndSummation::contract_singleton]: the diagonal is
    either a view or a new array that lives until the function returns. *)
Definition diag_and_sum_contract_s (d : diagonalization) (s : summation) (t : arr A)
  : stored (arr A) :=
  let direct :=
    match as_slice_memory_order t with Some _ => true | None => false end
    && forallb (fun st => Z.ltb 0 st) (a_strides t) in
  returned (
    store diagonal <- if direct then viewed (diagonalization_view d t) else diagonalization_contract_s d t;
    summation_contract_s s diagonal).

(** singleton_contractors.rs:56-62, 115-124, 161-171, 253-263, 309-316, 349-372. *)
Definition run_singleton_s (op : singleton_op) (t : arr A) : stored (arr A) :=
  match op with
  | OpIdentity => made (to_owned lay t)
  | OpPermutation p => permutation_contract_s p t
  | OpSummation s => summation_contract_s s t
  | OpDiagonalization d => diagonalization_contract_s d t
  | OpPermutationAndSummation p s =>
      store v <- viewed (permutation_view p t); summation_contract_s s v
  | OpDiagonalizationAndSummation d s => diag_and_sum_contract_s d s t
  end.

(** ** Two operands *)

(** pair_contractors.rs:195-206 and 209-220: a copy only if the view is not in standard layout. *)
Definition as_matrix_s (rows cols : nat) (t : arr A) : stored (arr A) :=
  if is_standard_layout t then viewed (into_shape t [rows; cols])
  else store l <- viewed (a_iter t); made (from_shape_vec [rows; cols] l).

(** pair_contractors.rs:184-226 [TensordotFixedPosition::contract_pair]: the product is reshaped in
    place; the copies of the operands live until the function returns. *)
Definition run_tfp_s (t : tensordot_fixed) (lhs rhs : arr A) : stored (arr A) :=
  returned (
    store lv <- as_matrix_s (len_uncontracted_lhs t) (len_contracted_axes t) lhs;
    store rv <- as_matrix_s (len_contracted_axes t) (len_uncontracted_rhs t) rhs;
    store d <- made (dot lay lv rv);
    viewed (into_shape d (tfp_output_shape t))).

(** pair_contractors.rs:379-396 [TensordotGeneral::contract_pair]: the product is copied once more. *)
Definition run_tg_s (t : tensordot_general) (lhs rhs : arr A) : stored (arr A) :=
  returned (
    store pl <- viewed (permutation_view (tg_lhs_permutation t) lhs);
    store pr <- viewed (permutation_view (tg_rhs_permutation t) rhs);
    store d <- run_tfp_s (tg_fixed t) pl pr;
    permutation_contract_s (tg_output_permutation t) d).

(** pair_contractors.rs:427-438 [HadamardProduct::contract_pair]. *)
Definition run_hadamard_s (lhs rhs : arr A) : stored (arr A) := made (mul_arrays lay lhs rhs).

(** pair_contractors.rs:480-494 [HadamardProductGeneral::contract_pair]. *)
Definition run_hadamard_general_s (pl pr : permutation) (lhs rhs : arr A) : stored (arr A) :=
  store l <- viewed (permutation_view pl lhs);
  store r <- viewed (permutation_view pr rhs);
  run_hadamard_s l r.

(** pair_contractors.rs:525-537 [ScalarMatrixProduct::contract_pair]. *)
Definition run_scalar_matrix_s (lhs rhs : arr A) : stored (arr A) :=
  store o <- viewed (first lhs);
  store s <- viewed (unwrap o);
  made (mapv lay (fun x => smul x s) rhs).

(** pair_contractors.rs:581-593. *)
Definition run_scalar_matrix_general_s (pr : permutation) (lhs rhs : arr A) : stored (arr A) :=
  store r <- viewed (permutation_view pr rhs); run_scalar_matrix_s lhs r.

(** pair_contractors.rs:624-636 [MatrixScalarProduct::contract_pair]. *)
Definition run_matrix_scalar_s (lhs rhs : arr A) : stored (arr A) :=
  store o <- viewed (first rhs);
  store s <- viewed (unwrap o);
  made (mapv lay (fun x => smul x s) lhs).

(** pair_contractors.rs:680-692. *)
Definition run_matrix_scalar_general_s (pl : permutation) (lhs rhs : arr A) : stored (arr A) :=
  store l <- viewed (permutation_view pl lhs); run_matrix_scalar_s l rhs.

(** pair_contractors.rs:764-787 [BroadcastProductGeneral::contract_pair]: everything before the product
    is a view. *)
Definition run_broadcast_s (b : broadcast_product) (lhs rhs : arr A) : stored (arr A) :=
  store l0 <- viewed (permutation_view (bp_lhs_permutation b) lhs);
  store r0 <- viewed (permutation_view (bp_rhs_permutation b) rhs);
  store l1 <- viewed (foldM (fun t i => insert_axis t i) (bp_lhs_insertions b) l0);
  store r1 <- viewed (foldM (fun t i => insert_axis t i) (bp_rhs_insertions b) r0);
  store l2 <- viewed (broadcast l1 (bp_output_sizes b));
  store r2 <- viewed (broadcast r1 (bp_output_sizes b));
  run_hadamard_s l2 r2.

(** pair_contractors.rs:988-996 and contractors/mod.rs:109-122: the product of each iteration is copied
    into the buffer and dropped. *)
Definition stacked_iteration_s (t : tensordot_fixed) (lsubs rsubs : list (arr A))
    (buf : arr A) (i : nat) : stored (arr A) :=
  dropped (
    store out <- viewed (index_axis buf 0 i);
    store l <- viewed (index lsubs i);
    store r <- viewed (index rsubs i);
    store out' <- (store x <- run_tfp_s t l r; viewed (assign out x));
    viewed (Ok (mkArr (a_data out') (a_off buf) (a_shape buf) (a_strides buf)))).

(** pair_contractors.rs:963-1002 [StackedTensordotGeneral::contract_pair]: both operands are copied,
    the buffer is made and filled, and its rearrangement is copied. *)
Definition run_stacked_s (s : stacked_tensordot) (lhs rhs : arr A) : stored (arr A) :=
  returned (
    store pl <- viewed (permutation_view (st_lhs_permutation s) lhs);
    store ll <- viewed (a_iter pl);
    store lr <- made (from_shape_vec (st_lhs_output_shape s) ll);
    store pr <- viewed (permutation_view (st_rhs_permutation s) rhs);
    store rl <- viewed (a_iter pr);
    store rr <- made (from_shape_vec (st_rhs_output_shape s) rl);
    store buf <- made (Ok (zeros (st_intermediate_shape s)));
    store lsubs <- viewed (outer_iter lr);
    store rsubs <- viewed (outer_iter rr);
    store n <- viewed (index (a_shape buf) 0);
    store buf' <- foldS (stacked_iteration_s (st_fixed s) lsubs rsubs) (seq 0 n) buf;
    store reshaped <- viewed (into_shape buf' (st_output_shape s));
    permutation_contract_s (st_output_permutation s) reshaped).

(** The [op] of a [PairContraction], contractors/mod.rs:358-377. *)
Definition run_pair_s (op : pair_op) (lhs rhs : arr A) : stored (arr A) :=
  match op with
  | OpHadamardProduct => run_hadamard_s lhs rhs
  | OpHadamardProductGeneral pl pr => run_hadamard_general_s pl pr lhs rhs
  | OpScalarMatrixProduct => run_scalar_matrix_s lhs rhs
  | OpScalarMatrixProductGeneral pr => run_scalar_matrix_general_s pr lhs rhs
  | OpMatrixScalarProduct => run_matrix_scalar_s lhs rhs
  | OpMatrixScalarProductGeneral pl => run_matrix_scalar_general_s pl lhs rhs
  | OpTensordotFixedPosition t => run_tfp_s t lhs rhs
  | OpTensordotGeneral t => run_tg_s t lhs rhs
  | OpBroadcastProductGeneral b => run_broadcast_s b lhs rhs
  | OpStackedTensordotGeneral s => run_stacked_s s lhs rhs
  end.

(** ** Paths *)

(** contractors/mod.rs:358-377, the simplification of one operand. *)
Definition run_simplification_s (s : option simplification) (t : arr A) : stored (arr A) :=
  match s with
  | Some s => run_singleton_s (simpl_op s) t
  | None => viewed (Ok t)
  end.

(** contractors/mod.rs:355-378 [PairContraction::contract_pair]: the simplified operands live until the
    product is made. *)
Definition run_pair_contraction_s (p : pair_contraction) (lhs rhs : arr A) : stored (arr A) :=
  returned (
    store l <- run_simplification_s (pc_lhs_simplification p) lhs;
    store r <- run_simplification_s (pc_rhs_simplification p) rhs;
    run_pair_s (pc_op p) l r).

(** contractors/mod.rs:474-486: the result stays in the list of intermediate results. *)
Definition run_step_s (operands : list (arr A)) (intermediates : list (arr A))
    (so : pair_contraction * pair_step) : stored (list (arr A)) :=
  let '(step, order_step) := so in
  store lhs <- viewed (fetch operands intermediates (ps_lhs order_step));
  store rhs <- viewed (fetch operands intermediates (ps_rhs order_step));
  store r <- run_pair_contraction_s step lhs rhs;
  viewed (Ok (intermediates ++ [r])).

(** contractors/mod.rs:462-491 [EinsumPath::contract_operands]: the list of intermediate results is
    dropped when the last one is returned. *)
Definition contract_operands_s (p : einsum_path) (operands : list (arr A)) : stored (arr A) :=
  match path_steps p, path_order p with
  | StepsSingleton c, Singleton _ =>
      store t <- viewed (index operands 0); run_singleton_s (sgl_op c) t
  | StepsPairs steps, Pairs order_steps =>
      returned (
        store ints <- foldS (run_step_s operands) (combine steps order_steps) [];
        viewed (unwrap (pop_last ints)))
  | _, _ => Panic
  end.

(** lib.rs:221-227 [einsum], lib.rs:202-207 [einsum_sc]. *)
Definition einsum_s (h : hash_order) (s : list char) (operands : list (arr A)) : stored (arr A) :=
  store sc <- viewed (validate_and_size h s operands);
  store p <- viewed (einsum_path_new h [21] sc);
  contract_operands_s p operands.

(** lib.rs:210-218 [einsum_path] and contractors/mod.rs:462-491: compile with a strategy, then run. *)
Definition compile_and_run_s (h : hash_order) (s : list char) (operands : list (arr A))
    (strategy : optimization_method) : stored (arr A) :=
  store p <- viewed (einsum_path_fn h s operands strategy);
  contract_operands_s p operands.

(** lib.rs:269-294 [tensordot]. *)
Definition tensordot_s (lhs rhs : arr A) (lhs_axes rhs_axes : list nat) : stored (arr A) :=
  store _ <- viewed (rassert (Nat.eqb (length lhs_axes) (length rhs_axes)));
  store n <- viewed (usub (length (a_shape lhs) + length (a_shape rhs)) (2 * length lhs_axes));
  store t <- viewed (tg_from_axes (a_shape lhs) (a_shape rhs) lhs_axes rhs_axes (seq 0 n));
  run_tg_s t lhs rhs.

End Run.
