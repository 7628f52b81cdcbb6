(** Model of /repo/src/contractors/pair_contractors.rs. No proofs in this file. *)
From Verif Require Import Base NDArray Validation Singleton.

(** pair_contractors.rs:53-73 [maybe_find_outputs_in_inputs_unique]: positions of the output
    labels in the input labels, panicking when a label that is found occurs again later. *)
Definition maybe_find_outputs_in_inputs_unique (output input : list char)
  : res (list (option nat)) :=
  mapM (fun o =>
    match position o input with
    | Some p =>
        do _ <- rassert (match position o (skipn (p + 1) input) with None => true | Some _ => false end);
        Ok (Some p)
    | None => Ok None
    end) output.

(** pair_contractors.rs:75-80 [find_outputs_in_inputs_unique]. *)
Definition find_outputs_in_inputs_unique (output input : list char) : res (list nat) :=
  do l <- maybe_find_outputs_in_inputs_unique output input;
  mapM unwrap l.

(** ** TensordotFixedPosition *)

(** pair_contractors.rs:96-111. *)
Record tensordot_fixed := mkTFP {
  len_uncontracted_lhs : nat;
  len_uncontracted_rhs : nat;
  len_contracted_axes : nat;
  tfp_output_shape : list nat
}.

(** pair_contractors.rs:142-180 [from_shapes_and_number_of_contracted_axes]. The first loop is a
    fold over (axis, length) with state (uncontracted product, contracted product, output
    shape); [num_axes_lhs - num_contracted_axes] is evaluated inside the loop. *)
Definition tfp_from_shapes (lhs_shape rhs_shape : list nat) (num_contracted : nat)
  : res tensordot_fixed :=
  do (ul, cl, shape1) <-
    foldM (fun st ad =>
      let '(u, c, sh) := st in
      let '(axis, d) := ad in
      do lim <- usub (length lhs_shape) num_contracted;
      if Nat.ltb axis lim then Ok (u * d, c, sh ++ [d]) else Ok (u, c * d, sh))
      (combine (seq 0 (length lhs_shape)) lhs_shape) (1, 1, []);
  let '(ur, cr, shape2) :=
    fold_left (fun st ad =>
      let '(u, c, sh) := st in
      let '(axis, d) := ad in
      if Nat.ltb axis num_contracted then (u, c * d, sh) else (u * d, c, sh ++ [d]))
      (combine (seq 0 (length rhs_shape)) rhs_shape) (1, 1, shape1) in
  do _ <- rassert (Nat.eqb cr cl);
  Ok (mkTFP ul ur cl shape2).

(** pair_contractors.rs:114-134 [TensordotFixedPosition::new]. *)
Definition tfp_new (sc : sized_contraction) : res tensordot_fixed :=
  let c := sc_contraction sc in
  do _ <- rassert (Nat.eqb (length (operand_indices c)) 2);
  do lhs <- index (operand_indices c) 0;
  do rhs <- index (operand_indices c) 1;
  do twice <- usub (length lhs + length rhs) (length (output_indices c));
  do _ <- rassert (Nat.eqb (Nat.modulo twice 2) 0);
  do lhs_shape <- mapM (size_of (sc_output_size sc)) lhs;
  do rhs_shape <- mapM (size_of (sc_output_size sc)) rhs;
  tfp_from_shapes lhs_shape rhs_shape (Nat.div twice 2).

(** ** TensordotGeneral *)

(** pair_contractors.rs:240-245. *)
Record tensordot_general := mkTG {
  tg_lhs_permutation : permutation;
  tg_rhs_permutation : permutation;
  tg_fixed : tensordot_fixed;
  tg_output_permutation : permutation
}.

(** Axes not listed in [axes], in order (pair_contractors.rs:333-338, 351-356). *)
Definition other_axes (rank : nat) (axes : list nat) : list nat :=
  filter (fun i => negb (existsb (Nat.eqb i) axes)) (seq 0 rank).

(** pair_contractors.rs:314-375 [from_shapes_and_axis_numbers]. *)
Definition tg_from_axes (lhs_shape rhs_shape lhs_axes rhs_axes output_order : list nat)
  : res tensordot_general :=
  let n := length lhs_axes in
  do _ <- rassert (Nat.eqb n (length rhs_axes));
  do _ <- rassert (Nat.eqb n (length (nodup Nat.eq_dec lhs_axes)));
  do _ <- rassert (Nat.eqb n (length (nodup Nat.eq_dec rhs_axes)));
  do lhs_back <- mapM (index lhs_shape) lhs_axes;
  do rhs_front <- mapM (index rhs_shape) rhs_axes;
  do lhs_front <- mapM (index lhs_shape) (other_axes (length lhs_shape) lhs_axes);
  do rhs_back <- mapM (index rhs_shape) (other_axes (length rhs_shape) rhs_axes);
  do fixed <- tfp_from_shapes (lhs_front ++ lhs_back) (rhs_front ++ rhs_back) n;
  Ok (mkTG (other_axes (length lhs_shape) lhs_axes ++ lhs_axes)
           (rhs_axes ++ other_axes (length rhs_shape) rhs_axes)
           fixed output_order).

(** pair_contractors.rs:267-307 [from_shapes_and_indices]. *)
Definition tg_from_indices (lhs_shape rhs_shape : list nat)
    (lhs rhs contracted output : list char) : res tensordot_general :=
  do lhs_axes <- find_outputs_in_inputs_unique contracted lhs;
  do rhs_axes <- find_outputs_in_inputs_unique contracted rhs;
  let uncontracted :=
    filter (fun c => mem c output) lhs ++ filter (fun c => mem c output) rhs in
  do order <- find_outputs_in_inputs_unique output uncontracted;
  tg_from_axes lhs_shape rhs_shape lhs_axes rhs_axes order.

(** pair_contractors.rs:248-265 [TensordotGeneral::new]. *)
Definition tg_new (sc : sized_contraction) : res tensordot_general :=
  let c := sc_contraction sc in
  do _ <- rassert (Nat.eqb (length (operand_indices c)) 2);
  do lhs <- index (operand_indices c) 0;
  do rhs <- index (operand_indices c) 1;
  do lhs_shape <- mapM (size_of (sc_output_size sc)) lhs;
  do rhs_shape <- mapM (size_of (sc_output_size sc)) rhs;
  tg_from_indices lhs_shape rhs_shape lhs rhs (summation_indices c) (output_indices c).

(** ** HadamardProduct, HadamardProductGeneral *)

(** [==] on label vectors [pair_contractors.rs:415-416,514,613]. *)
Fixpoint chars_eqb (a b : list char) : bool :=
  match a, b with
  | [], [] => true
  | x :: a', y :: b' => N.eqb x y && chars_eqb a' b'
  | _, _ => false
  end.

(** pair_contractors.rs:410-419 [HadamardProduct::new]. *)
Definition hadamard_new (sc : sized_contraction) : res unit :=
  let c := sc_contraction sc in
  do _ <- rassert (Nat.eqb (length (operand_indices c)) 2);
  do lhs <- index (operand_indices c) 0;
  do rhs <- index (operand_indices c) 1;
  do _ <- rassert (chars_eqb lhs rhs);
  rassert (chars_eqb lhs (output_indices c)).

(** pair_contractors.rs:457-476 [HadamardProductGeneral::new]: (lhs, rhs) permutations. *)
Definition hadamard_general_new (sc : sized_contraction) : res (permutation * permutation) :=
  let c := sc_contraction sc in
  do _ <- rassert (Nat.eqb (length (operand_indices c)) 2);
  do lhs <- index (operand_indices c) 0;
  do rhs <- index (operand_indices c) 1;
  do _ <- rassert (Nat.eqb (length lhs) (length rhs));
  do _ <- rassert (Nat.eqb (length lhs) (length (output_indices c)));
  do pl <- find_outputs_in_inputs_unique (output_indices c) lhs;
  do pr <- find_outputs_in_inputs_unique (output_indices c) rhs;
  Ok (pl, pr).

(** ** ScalarMatrixProduct, MatrixScalarProduct and their general forms *)

(** pair_contractors.rs:508-517 [ScalarMatrixProduct::new]. *)
Definition scalar_matrix_new (sc : sized_contraction) : res unit :=
  let c := sc_contraction sc in
  do _ <- rassert (Nat.eqb (length (operand_indices c)) 2);
  do lhs <- index (operand_indices c) 0;
  do rhs <- index (operand_indices c) 1;
  do _ <- rassert (Nat.eqb (length lhs) 0);
  rassert (chars_eqb (output_indices c) rhs).

(** pair_contractors.rs:555-577 [ScalarMatrixProductGeneral::new]. *)
Definition scalar_matrix_general_new (sc : sized_contraction) : res permutation :=
  let c := sc_contraction sc in
  do _ <- rassert (Nat.eqb (length (operand_indices c)) 2);
  do lhs <- index (operand_indices c) 0;
  do rhs <- index (operand_indices c) 1;
  do _ <- rassert (Nat.eqb (length lhs) 0);
  do _ <- rassert (Nat.eqb (length rhs) (length (output_indices c)));
  find_outputs_in_inputs_unique (output_indices c) rhs.

(** pair_contractors.rs:607-616 [MatrixScalarProduct::new]. *)
Definition matrix_scalar_new (sc : sized_contraction) : res unit :=
  let c := sc_contraction sc in
  do _ <- rassert (Nat.eqb (length (operand_indices c)) 2);
  do lhs <- index (operand_indices c) 0;
  do rhs <- index (operand_indices c) 1;
  do _ <- rassert (Nat.eqb (length rhs) 0);
  rassert (chars_eqb (output_indices c) lhs).

(** pair_contractors.rs:654-676 [MatrixScalarProductGeneral::new]. *)
Definition matrix_scalar_general_new (sc : sized_contraction) : res permutation :=
  let c := sc_contraction sc in
  do _ <- rassert (Nat.eqb (length (operand_indices c)) 2);
  do lhs <- index (operand_indices c) 0;
  do rhs <- index (operand_indices c) 1;
  do _ <- rassert (Nat.eqb (length rhs) 0);
  do _ <- rassert (Nat.eqb (length lhs) (length (output_indices c)));
  find_outputs_in_inputs_unique (output_indices c) lhs.

(** ** BroadcastProductGeneral (never selected) *)

(** pair_contractors.rs:707-714. *)
Record broadcast_product := mkBP {
  bp_lhs_permutation : permutation;
  bp_rhs_permutation : permutation;
  bp_lhs_insertions : list nat;
  bp_rhs_insertions : list nat;
  bp_output_sizes : list nat
}.

(** The [Some] entries, and the positions of the [None] entries (pair_contractors.rs:725-746). *)

Definition somes (l : list (option nat)) : list nat :=
  flat_map (fun o => match o with Some p => [p] | None => [] end) l.

(** The labels without a position [pair_contractors.rs:725-746]. *)
Definition nones (l : list (option nat)) : list nat :=
  map fst (filter (fun io => match snd io with None => true | Some _ => false end)
             (combine (seq 0 (length l)) l)).

(** pair_contractors.rs:717-760 [BroadcastProductGeneral::new]. *)
Definition broadcast_new (sc : sized_contraction) : res broadcast_product :=
  let c := sc_contraction sc in
  do _ <- rassert (Nat.eqb (length (operand_indices c)) 2);
  do lhs <- index (operand_indices c) 0;
  do rhs <- index (operand_indices c) 1;
  do ml <- maybe_find_outputs_in_inputs_unique (output_indices c) lhs;
  do mr <- maybe_find_outputs_in_inputs_unique (output_indices c) rhs;
  do sizes <- mapM (size_of (sc_output_size sc)) (output_indices c);
  Ok (mkBP (somes ml) (somes mr) (nones ml) (nones mr) sizes).

(** ** StackedTensordotGeneral *)

(** pair_contractors.rs:813-822. *)
Record stacked_tensordot := mkST {
  st_lhs_permutation : permutation;
  st_rhs_permutation : permutation;
  st_lhs_output_shape : list nat;
  st_rhs_output_shape : list nat;
  st_intermediate_shape : list nat;
  st_fixed : tensordot_fixed;
  st_output_shape : list nat;
  st_output_permutation : permutation
}.

(** Accumulators of the first loop of [StackedTensordotGeneral::new]
    [pair_contractors.rs:856-897]. *)
Record stack_acc := mkSA {
  sa_lhs_stack_axes : list nat;
  sa_rhs_stack_axes : list nat;
  sa_stack_indices : list char;
  sa_lhs_outer_axes : list nat;
  sa_lhs_outer_indices : list char;
  sa_rhs_outer_axes : list nat;
  sa_rhs_outer_indices : list char;
  sa_lhs_uncontracted_shape : list nat;
  sa_rhs_uncontracted_shape : list nat;
  sa_lhs_stack_len : nat;           (* lhs_output_shape[0] *)
  sa_rhs_stack_len : nat            (* rhs_output_shape[0] *)
}.

(** pair_contractors.rs:856-883: one iteration. *)
Definition stack_step (m : output_size_map) (a : stack_acc)
    (x : option nat * option nat * char) : res stack_acc :=
  let '(l, r, c) := x in
  match l, r with
  | Some lp, Some rp =>
      do d <- size_of m c;
      Ok (mkSA (sa_lhs_stack_axes a ++ [lp]) (sa_rhs_stack_axes a ++ [rp])
               (sa_stack_indices a ++ [c])
               (sa_lhs_outer_axes a) (sa_lhs_outer_indices a)
               (sa_rhs_outer_axes a) (sa_rhs_outer_indices a)
               (sa_lhs_uncontracted_shape a) (sa_rhs_uncontracted_shape a)
               (sa_lhs_stack_len a * d) (sa_rhs_stack_len a * d))
  | Some lp, None =>
      do d <- size_of m c;
      Ok (mkSA (sa_lhs_stack_axes a) (sa_rhs_stack_axes a) (sa_stack_indices a)
               (sa_lhs_outer_axes a ++ [lp]) (sa_lhs_outer_indices a ++ [c])
               (sa_rhs_outer_axes a) (sa_rhs_outer_indices a)
               (sa_lhs_uncontracted_shape a ++ [d]) (sa_rhs_uncontracted_shape a)
               (sa_lhs_stack_len a) (sa_rhs_stack_len a))
  | None, Some rp =>
      do d <- size_of m c;
      Ok (mkSA (sa_lhs_stack_axes a) (sa_rhs_stack_axes a) (sa_stack_indices a)
               (sa_lhs_outer_axes a) (sa_lhs_outer_indices a)
               (sa_rhs_outer_axes a ++ [rp]) (sa_rhs_outer_indices a ++ [c])
               (sa_lhs_uncontracted_shape a) (sa_rhs_uncontracted_shape a ++ [d])
               (sa_lhs_stack_len a) (sa_rhs_stack_len a))
  | None, None => Panic
  end.

(** pair_contractors.rs:885-901: contracted axes of the lhs, their positions in the rhs and
    their lengths. *)
Definition contracted_step (m : output_size_map) (rhs output : list char)
    (a : list nat * list nat * list nat) (pc : nat * char) : res (list nat * list nat * list nat) :=
  let '(la, ra, sh) := a in
  let '(lpos, c) := pc in
  match position c output with
  | Some _ => Ok a
  | None =>
      do rpos <- unwrap (position c rhs);
      do d <- size_of m c;
      Ok (la ++ [lpos], ra ++ [rpos], sh ++ [d])
  end.

(** pair_contractors.rs:825-959 [StackedTensordotGeneral::new]. *)
Definition stacked_new (sc : sized_contraction) : res stacked_tensordot :=
  let c := sc_contraction sc in
  let m := sc_output_size sc in
  let output := output_indices c in
  do _ <- rassert (Nat.eqb (length (operand_indices c)) 2);
  do lhs <- index (operand_indices c) 0;
  do rhs <- index (operand_indices c) 1;
  do ml <- maybe_find_outputs_in_inputs_unique output lhs;
  do mr <- maybe_find_outputs_in_inputs_unique output rhs;
  do a <- foldM (stack_step m) (combine (combine ml mr) output)
            (mkSA [] [] [] [] [] [] [] [] [] 1 1);
  do (lca, rca, csh) <-
     foldM (contracted_step m rhs output) (combine (seq 0 (length lhs)) lhs) ([], [], []);
  let lhs_order := sa_lhs_stack_axes a ++ sa_lhs_outer_axes a ++ lca in
  let lhs_output_shape := [sa_lhs_stack_len a] ++ sa_lhs_uncontracted_shape a ++ csh in
  let rhs_order := sa_rhs_stack_axes a ++ rca ++ sa_rhs_outer_axes a in
  let rhs_output_shape := [sa_rhs_stack_len a] ++ csh ++ sa_rhs_uncontracted_shape a in
  let intermediate_indices :=
    sa_stack_indices a ++ sa_lhs_outer_indices a ++ sa_rhs_outer_indices a in
  do _ <- rassert (Nat.eqb (sa_lhs_stack_len a) (sa_rhs_stack_len a));
  do lo <- mapM (size_of m) (sa_lhs_outer_indices a);
  do ro <- mapM (size_of m) (sa_rhs_outer_indices a);
  let intermediate_shape := [sa_lhs_stack_len a] ++ lo ++ ro in
  do output_order <- find_outputs_in_inputs_unique output intermediate_indices;
  do output_shape <- mapM (size_of m) intermediate_indices;
  do fixed <- tfp_from_shapes (skipn 1 lhs_output_shape) (skipn 1 rhs_output_shape) (length lca);
  Ok (mkST lhs_order rhs_order lhs_output_shape rhs_output_shape intermediate_shape
           fixed output_shape output_order).

(** The boxed trait objects of contractors/mod.rs:309-343, as a sum type. The contractors without
    fields are also made by [from_nothing] (pair_contractors.rs:421-423, 519-521, 618-620). *)
Inductive pair_op :=
| OpHadamardProduct
| OpHadamardProductGeneral (pl pr : permutation)
| OpScalarMatrixProduct
| OpScalarMatrixProductGeneral (pr : permutation)
| OpMatrixScalarProduct
| OpMatrixScalarProductGeneral (pl : permutation)
| OpTensordotFixedPosition (t : tensordot_fixed)
| OpTensordotGeneral (t : tensordot_general)
| OpBroadcastProductGeneral (b : broadcast_product)
| OpStackedTensordotGeneral (s : stacked_tensordot).

(** ** Execution *)

Section Run.
Context {A : Type} {S : Scalar A}.
Variable lay : backend A.

(** pair_contractors.rs:195-206 and 209-220: reshape to a matrix, copying if the view is not in
    standard layout. *)
Definition as_matrix (rows cols : nat) (t : arr A) : res (arr A) :=
  if is_standard_layout t then into_shape t [rows; cols]
  else do l <- a_iter t; from_shape_vec [rows; cols] l.

(** pair_contractors.rs:184-226 [TensordotFixedPosition::contract_pair]. *)
Definition run_tfp (t : tensordot_fixed) (lhs rhs : arr A) : res (arr A) :=
  do lv <- as_matrix (len_uncontracted_lhs t) (len_contracted_axes t) lhs;
  do rv <- as_matrix (len_contracted_axes t) (len_uncontracted_rhs t) rhs;
  do d <- dot lay lv rv;
  into_shape d (tfp_output_shape t).

(** pair_contractors.rs:379-396 [TensordotGeneral::contract_pair]. *)
Definition run_tg (t : tensordot_general) (lhs rhs : arr A) : res (arr A) :=
  do pl <- permutation_view (tg_lhs_permutation t) lhs;
  do pr <- permutation_view (tg_rhs_permutation t) rhs;
  do d <- run_tfp (tg_fixed t) pl pr;
  permutation_contract lay (tg_output_permutation t) d.

(** pair_contractors.rs:427-438 [HadamardProduct::contract_pair]. *)
Definition run_hadamard (lhs rhs : arr A) : res (arr A) := mul_arrays lay lhs rhs.

(** pair_contractors.rs:480-494 [HadamardProductGeneral::contract_pair]. *)
Definition run_hadamard_general (pl pr : permutation) (lhs rhs : arr A) : res (arr A) :=
  do l <- permutation_view pl lhs;
  do r <- permutation_view pr rhs;
  run_hadamard l r.

(** pair_contractors.rs:525-537 [ScalarMatrixProduct::contract_pair]: [x * lhs_0d]. *)
Definition run_scalar_matrix (lhs rhs : arr A) : res (arr A) :=
  do o <- first lhs;
  do s <- unwrap o;
  mapv lay (fun x => smul x s) rhs.

(** pair_contractors.rs:581-593. *)
Definition run_scalar_matrix_general (pr : permutation) (lhs rhs : arr A) : res (arr A) :=
  do r <- permutation_view pr rhs; run_scalar_matrix lhs r.

(** pair_contractors.rs:624-636 [MatrixScalarProduct::contract_pair]: [x * rhs_0d]. *)
Definition run_matrix_scalar (lhs rhs : arr A) : res (arr A) :=
  do o <- first rhs;
  do s <- unwrap o;
  mapv lay (fun x => smul x s) lhs.

(** pair_contractors.rs:680-692. *)
Definition run_matrix_scalar_general (pl : permutation) (lhs rhs : arr A) : res (arr A) :=
  do l <- permutation_view pl lhs; run_matrix_scalar l rhs.

(** pair_contractors.rs:764-787 [BroadcastProductGeneral::contract_pair]. *)
Definition run_broadcast (b : broadcast_product) (lhs rhs : arr A) : res (arr A) :=
  do l0 <- permutation_view (bp_lhs_permutation b) lhs;
  do r0 <- permutation_view (bp_rhs_permutation b) rhs;
  do l1 <- foldM (fun t i => insert_axis t i) (bp_lhs_insertions b) l0;
  do r1 <- foldM (fun t i => insert_axis t i) (bp_rhs_insertions b) r0;
  do l2 <- broadcast l1 (bp_output_sizes b);
  do r2 <- broadcast r1 (bp_output_sizes b);
  run_hadamard l2 r2.

(** contractors/mod.rs:109-122 [PairContractor::contract_and_assign_pair], which no contractor
    overrides: [run] is its [contract_pair]; the result is the view [out] with the updated buffer. *)
Definition contract_and_assign_pair (run : arr A -> arr A -> res (arr A)) (lhs rhs out : arr A)
  : res (arr A) :=
  do result <- run lhs rhs;
  assign out result.

(** pair_contractors.rs:988-996: one iteration over [outer_iter_mut]: contract the [i]th
    subviews and assign into the [i]th subview of the buffer. *)
Definition stacked_iteration (t : tensordot_fixed) (lsubs rsubs : list (arr A))
    (buf : arr A) (i : nat) : res (arr A) :=
  do out <- index_axis buf 0 i;
  do l <- index lsubs i;
  do r <- index rsubs i;
  do out' <- contract_and_assign_pair (run_tfp t) l r out;
  Ok (mkArr (a_data out') (a_off buf) (a_shape buf) (a_strides buf)).

(** pair_contractors.rs:963-1002 [StackedTensordotGeneral::contract_pair]. *)

Definition run_stacked (s : stacked_tensordot) (lhs rhs : arr A) : res (arr A) :=
  do pl <- permutation_view (st_lhs_permutation s) lhs;
  do ll <- a_iter pl;
  do lr <- from_shape_vec (st_lhs_output_shape s) ll;
  do pr <- permutation_view (st_rhs_permutation s) rhs;
  do rl <- a_iter pr;
  do rr <- from_shape_vec (st_rhs_output_shape s) rl;
  let buf := zeros (st_intermediate_shape s) in
  do lsubs <- outer_iter lr;
  do rsubs <- outer_iter rr;
  do n <- index (a_shape buf) 0;
  do buf' <- foldM (stacked_iteration (st_fixed s) lsubs rsubs) (seq 0 n) buf;
  do reshaped <- into_shape buf' (st_output_shape s);
  permutation_contract lay (st_output_permutation s) reshaped.

(** [contract_pair] of each [PairContractor]
    [pair_contractors.rs:183-227,339-352,431-438,489-497,528-537,577-585,627-636,676-684,762-789,957-1003]. *)
Definition run_pair (op : pair_op) (lhs rhs : arr A) : res (arr A) :=
  match op with
  | OpHadamardProduct => run_hadamard lhs rhs
  | OpHadamardProductGeneral pl pr => run_hadamard_general pl pr lhs rhs
  | OpScalarMatrixProduct => run_scalar_matrix lhs rhs
  | OpScalarMatrixProductGeneral pr => run_scalar_matrix_general pr lhs rhs
  | OpMatrixScalarProduct => run_matrix_scalar lhs rhs
  | OpMatrixScalarProductGeneral pl => run_matrix_scalar_general pl lhs rhs
  | OpTensordotFixedPosition t => run_tfp t lhs rhs
  | OpTensordotGeneral t => run_tg t lhs rhs
  | OpBroadcastProductGeneral b => run_broadcast b lhs rhs
  | OpStackedTensordotGeneral s => run_stacked s lhs rhs
  end.

End Run.
