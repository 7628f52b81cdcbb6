(** The compilation of pair steps with machine arithmetic: every product of axis lengths that
    the crate computes is checked against the largest [usize], and a product above it panics,
    as in a build with overflow checks. Pair.v and Path.v compute the same products with
    unbounded numbers. Only the functions that multiply, and their callers, are repeated here.
    No proofs in this file. *)
From Verif Require Import Base NDArray Validation Optimizers Strategies Singleton Pair Path Api.

Section Checked.
(** [usize::MAX]. *)
Variable M : nat.

(** [x *= y] on [usize] [pair_contractors.rs:154-171]. *)
Definition umul (x y : nat) : res nat := if Nat.leb (x * y) M then Ok (x * y) else Panic.

(** pair_contractors.rs:142-180, multiplications at 156, 159, 165 and 167. *)
Definition tfp_from_shapes_c (lhs_shape rhs_shape : list nat) (num_contracted : nat)
  : res tensordot_fixed :=
  do (ul, cl, shape1) <-
    foldM (fun st ad =>
      let '(u, c, sh) := st in
      let '(axis, d) := ad in
      do lim <- usub (length lhs_shape) num_contracted;
      if Nat.ltb axis lim then do u' <- umul u d; Ok (u', c, sh ++ [d])
      else do c' <- umul c d; Ok (u, c', sh))
      (combine (seq 0 (length lhs_shape)) lhs_shape) (1, 1, []);
  do (ur, cr, shape2) <-
    foldM (fun st ad =>
      let '(u, c, sh) := st in
      let '(axis, d) := ad in
      if Nat.ltb axis num_contracted then do c' <- umul c d; Ok (u, c', sh)
      else do u' <- umul u d; Ok (u', c, sh ++ [d]))
      (combine (seq 0 (length rhs_shape)) rhs_shape) (1, 1, shape1);
  do _ <- rassert (Nat.eqb cr cl);
  Ok (mkTFP ul ur cl shape2).

(** pair_contractors.rs:114-134. *)
Definition tfp_new_c (sc : sized_contraction) : res tensordot_fixed :=
  let c := sc_contraction sc in
  do _ <- rassert (Nat.eqb (length (operand_indices c)) 2);
  do lhs <- index (operand_indices c) 0;
  do rhs <- index (operand_indices c) 1;
  do twice <- usub (length lhs + length rhs) (length (output_indices c));
  do _ <- rassert (Nat.eqb (Nat.modulo twice 2) 0);
  do lhs_shape <- mapM (size_of (sc_output_size sc)) lhs;
  do rhs_shape <- mapM (size_of (sc_output_size sc)) rhs;
  tfp_from_shapes_c lhs_shape rhs_shape (Nat.div twice 2).

(** pair_contractors.rs:314-375. *)
Definition tg_from_axes_c (lhs_shape rhs_shape lhs_axes rhs_axes output_order : list nat)
  : res tensordot_general :=
  let n := length lhs_axes in
  do _ <- rassert (Nat.eqb n (length rhs_axes));
  do _ <- rassert (Nat.eqb n (length (nodup Nat.eq_dec lhs_axes)));
  do _ <- rassert (Nat.eqb n (length (nodup Nat.eq_dec rhs_axes)));
  do lhs_back <- mapM (index lhs_shape) lhs_axes;
  do rhs_front <- mapM (index rhs_shape) rhs_axes;
  do lhs_front <- mapM (index lhs_shape) (other_axes (length lhs_shape) lhs_axes);
  do rhs_back <- mapM (index rhs_shape) (other_axes (length rhs_shape) rhs_axes);
  do fixed <- tfp_from_shapes_c (lhs_front ++ lhs_back) (rhs_front ++ rhs_back) n;
  Ok (mkTG (other_axes (length lhs_shape) lhs_axes ++ lhs_axes)
           (rhs_axes ++ other_axes (length rhs_shape) rhs_axes)
           fixed output_order).

(** pair_contractors.rs:267-307. *)
Definition tg_from_indices_c (lhs_shape rhs_shape : list nat)
    (lhs rhs contracted output : list char) : res tensordot_general :=
  do lhs_axes <- find_outputs_in_inputs_unique contracted lhs;
  do rhs_axes <- find_outputs_in_inputs_unique contracted rhs;
  let uncontracted :=
    filter (fun c => mem c output) lhs ++ filter (fun c => mem c output) rhs in
  do order <- find_outputs_in_inputs_unique output uncontracted;
  tg_from_axes_c lhs_shape rhs_shape lhs_axes rhs_axes order.

(** pair_contractors.rs:248-265. *)
Definition tg_new_c (sc : sized_contraction) : res tensordot_general :=
  let c := sc_contraction sc in
  do _ <- rassert (Nat.eqb (length (operand_indices c)) 2);
  do lhs <- index (operand_indices c) 0;
  do rhs <- index (operand_indices c) 1;
  do lhs_shape <- mapM (size_of (sc_output_size sc)) lhs;
  do rhs_shape <- mapM (size_of (sc_output_size sc)) rhs;
  tg_from_indices_c lhs_shape rhs_shape lhs rhs (summation_indices c) (output_indices c).

(** pair_contractors.rs:856-883, multiplications at 866 and 867. *)
Definition stack_step_c (m : output_size_map) (a : stack_acc)
    (x : option nat * option nat * char) : res stack_acc :=
  let '(l, r, c) := x in
  match l, r with
  | Some lp, Some rp =>
      do d <- size_of m c;
      do ll <- umul (sa_lhs_stack_len a) d;
      do rl <- umul (sa_rhs_stack_len a) d;
      Ok (mkSA (sa_lhs_stack_axes a ++ [lp]) (sa_rhs_stack_axes a ++ [rp])
               (sa_stack_indices a ++ [c])
               (sa_lhs_outer_axes a) (sa_lhs_outer_indices a)
               (sa_rhs_outer_axes a) (sa_rhs_outer_indices a)
               (sa_lhs_uncontracted_shape a) (sa_rhs_uncontracted_shape a)
               ll rl)
  | _, _ => stack_step m a x
  end.

(** pair_contractors.rs:825-959. *)
Definition stacked_new_c (sc : sized_contraction) : res stacked_tensordot :=
  let c := sc_contraction sc in
  let m := sc_output_size sc in
  let output := output_indices c in
  do _ <- rassert (Nat.eqb (length (operand_indices c)) 2);
  do lhs <- index (operand_indices c) 0;
  do rhs <- index (operand_indices c) 1;
  do ml <- maybe_find_outputs_in_inputs_unique output lhs;
  do mr <- maybe_find_outputs_in_inputs_unique output rhs;
  do a <- foldM (stack_step_c m) (combine (combine ml mr) output)
            (mkSA [] [] [] [] [] [] [] [] [] 1 1);
  do (lca, rca, csh) <-
     foldM (contracted_step m rhs output) (combine (seq 0 (length lhs)) lhs) ([], [], []);
  let lhs_order := sa_lhs_stack_axes a ++ sa_lhs_outer_axes a ++ lca in
  let lhs_output_shape := [sa_lhs_stack_len a] ++ sa_lhs_uncontracted_shape a ++ csh in
  let rhs_order := sa_rhs_stack_axes a ++ rca ++ sa_rhs_outer_axes a in
  let rhs_output_shape := [sa_rhs_stack_len a] ++ csh ++ sa_rhs_uncontracted_shape a in
  let intermediate_indices :=
    sa_stack_indices a ++ sa_lhs_outer_indices a ++ sa_rhs_outer_indices a in
  do _ <- rassert (Nat.eqb (sa_lhs_stack_len a) (sa_rhs_stack_len a));
  do lo <- mapM (size_of m) (sa_lhs_outer_indices a);
  do ro <- mapM (size_of m) (sa_rhs_outer_indices a);
  let intermediate_shape := [sa_lhs_stack_len a] ++ lo ++ ro in
  do output_order <- find_outputs_in_inputs_unique output intermediate_indices;
  do output_shape <- mapM (size_of m) intermediate_indices;
  do fixed <- tfp_from_shapes_c (skipn 1 lhs_output_shape) (skipn 1 rhs_output_shape) (length lca);
  Ok (mkST lhs_order rhs_order lhs_output_shape rhs_output_shape intermediate_shape
           fixed output_shape output_order).

(** contractors/mod.rs:309-343. *)
Definition pair_op_new_c (m : pair_method) (sc : sized_contraction) : res pair_op :=
  match m with
  | MTensordotFixedPosition => do t <- tfp_new_c sc; Ok (OpTensordotFixedPosition t)
  | MTensordotGeneral => do t <- tg_new_c sc; Ok (OpTensordotGeneral t)
  | MStackedTensordotGeneral => do s <- stacked_new_c sc; Ok (OpStackedTensordotGeneral s)
  | _ => pair_op_new m sc
  end.

(** contractors/mod.rs:275-351. *)
Definition pair_contraction_new_c (h : hash_order) (k : key) (sc : sized_contraction)
  : res pair_contraction :=
  let c := sc_contraction sc in
  do _ <- rassert (Nat.eqb (length (operand_indices c)) 2);
  do lhs <- index (operand_indices c) 0;
  do rhs <- index (operand_indices c) 1;
  do ls <- simplification_from h (0 :: k) lhs rhs (output_indices c) sc;
  do rs <- simplification_from h (1 :: k) rhs lhs (output_indices c) sc;
  let new_lhs := match ls with Some s => simpl_new_indices s | None => lhs end in
  let new_rhs := match rs with Some s => simpl_new_indices s | None => rhs end in
  do reduced <- unwrap_res (subset h (2 :: k) sc [new_lhs; new_rhs] (output_indices c));
  do s <- pair_summary_new reduced;
  let m := pair_strategy s in
  do op <- pair_op_new_c m reduced;
  do str <- as_einsum_string reduced;
  Ok (mkPC ls rs m op str).

(** contractors/mod.rs:437-458. *)
Definition from_path_c (h : hash_order) (k : key) (order : contraction_order) : res einsum_path :=
  match order with
  | Singleton sc =>
      do s <- singleton_contraction_new sc; Ok (mkPath order (StepsSingleton s))
  | Pairs steps =>
      do l <- mapM (fun ist => pair_contraction_new_c h (fst ist :: 9 :: k) (ps_sc (snd ist)))
                (combine (seq 0 (length steps)) steps);
      Ok (mkPath order (StepsPairs l))
  end.

(** lib.rs:269-294 [tensordot]. *)
Definition tensordot_c {A : Type} {S : Scalar A} (lay : backend A) (lhs rhs : arr A)
    (lhs_axes rhs_axes : list nat) : res (arr A) :=
  do _ <- rassert (Nat.eqb (length lhs_axes) (length rhs_axes));
  do n <- usub (length (a_shape lhs) + length (a_shape rhs)) (2 * length lhs_axes);
  do t <- tg_from_axes_c (a_shape lhs) (a_shape rhs) lhs_axes rhs_axes (seq 0 n);
  run_tg lay t lhs rhs.

End Checked.

(** singleton_contractors.rs:236-239 with the addition at 238 checked against the largest
    [usize]. *)
Definition add_stride_c (M : Z) (mapping : list nat) (strides : list Z) (is : nat * Z)
  : res (list Z) :=
  let '(i, s) := is in
  do _ <- rassert (Z.ltb 0 s);
  do pos <- index mapping i;
  do old <- index strides pos;
  do _ <- rassert (Z.leb (old + s) M);
  Ok (set_nth pos (old + s)%Z strides).

(** singleton_contractors.rs:228-249. *)
Definition diagonalization_view_c {A : Type} (M : Z) (d : diagonalization) (t : arr A)
  : res (arr A) :=
  do strides <- foldM (add_stride_c M (input_to_output_mapping d))
                  (combine (seq 0 (length (a_strides t))) (a_strides t))
                  (map (fun _ => 0%Z) (diag_output_shape d));
  do data <- unwrap (as_slice_memory_order t);
  view_from_shape (diag_output_shape d) strides data.
