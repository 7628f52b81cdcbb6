(** The compilation as built with and without overflow checks. Everything the crate computes with machine
    integers while it compiles goes through a [build]: the counters of label occurrences, differences and
    products of lengths, and the room for a vector of axis numbers. Only the functions that compute with
    them, and their callers, are repeated here. Sums of strides are in Overflow.v (C37); sums of two vector
    lengths, and successors of them, cannot overflow, since no vector has more than [isize::MAX] elements.
    No proofs in this file. *)
From Verif Require Import Base NDArray Validation Optimizers Strategies Singleton Pair Path Api.
Local Open Scope list_scope.

(** What a build does with a [usize] result that is out of range. /repo sets no profile, so both
    are possible; the sums and products are those of validation.rs:91-94, pair_contractors.rs:154-171
    and strategies.rs:59-66. *)
Record build := mkBuild {
  b_count : nat -> res Z;            (* a counter that was increased so many times *)
  b_sub : nat -> nat -> res nat;     (* [usize] subtraction *)
  b_mul : nat -> nat -> res nat;     (* [usize] multiplication *)
  b_room : nat -> res unit           (* collecting so many numbers into a vector *)
}.

(** Unbounded numbers, except that nothing is below zero [pair_contractors.rs:154-171]. *)
Definition ideal : build := mkBuild (fun n => Ok (Z.of_nat n)) usub (fun x y => Ok (x * y)) (fun _ => Ok tt).

Section Machine.
(** The largest counter ([i32::MAX]), the largest [usize], and the most elements of a vector. A longer
    vector is refused in every build ("capacity overflow"). *)
Variables C M R : nat.

(** A build with overflow checks: whatever is out of range panics [pair_contractors.rs:154-171]. *)
Definition checked_build : build :=
  mkBuild (fun n => if Nat.leb n C then Ok (Z.of_nat n) else Panic) usub
    (fun x y => if Nat.leb (x * y) M then Ok (x * y) else Panic)
    (fun n => if Nat.leb n R then Ok tt else Panic).

(** A build without: counters wrap around to [- C - 1], lengths modulo [M + 1]
    [pair_contractors.rs:154-171]. *)
Definition wrapping_build : build :=
  mkBuild (fun n => Ok ((Z.of_nat n + Z.of_nat C + 1) mod (2 * (Z.of_nat C + 1)) - Z.of_nat C - 1)%Z)
    (fun a b => Ok (if Nat.leb b a then a - b else a + (M + 1) - b))
    (fun x y => Ok (Nat.modulo (x * y) (M + 1)))
    (fun n => if Nat.leb n R then Ok tt else Panic).
End Machine.

Section Build.
Variable b : build.

(** ** Validation *)

(** [*m.entry(c).or_insert(0) += 1] over a list (validation.rs:91-93, 120-122, 125-127, strategies.rs:59-62):
    every label with the final value of its counter. *)

Definition counters (l : list char) : res (list (char * Z)) :=
  mapM (fun c => do n <- b_count b (count c l); Ok (c, n)) (distinct l).

(** A counter counted up from zero [validation.rs:91-94,119-127]. *)
Definition counter (m : list (char * Z)) (c : char) : Z :=
  match find (fun cn => N.eqb (fst cn) c) m with Some cn => snd cn | None => 0%Z end.

(** validation.rs:128-138. *)
Fixpoint check_output_b (inputs : list char) (counts : list (char * Z)) (order : list char) : res unit :=
  match order with
  | [] => Ok tt
  | c :: order' =>
      if Z.ltb 1 (counter counts c) then Err msg_dup
      else if negb (mem c inputs) then Err msg_unknown
      else check_output_b inputs counts order'
  end.

(** validation.rs:115-154 [Contraction::from_indices]. *)
Definition from_indices_b (h : hash_order) (k : key)
    (operands : list (list char)) (output : list char) : res contraction :=
  let inputs := concat operands in
  do _ <- counters inputs;
  do counts <- counters output;
  do _ <- check_output_b inputs counts (h (0%nat :: k) (distinct output));
  let summation :=
    sort_chars (filter (fun c => negb (mem c output)) (h (1%nat :: k) (distinct inputs))) in
  Ok (mkContraction operands output summation).

(** validation.rs:85-111 [Contraction::from_parse]. *)
Definition from_parse_b (h : hash_order) (k : key) (p : einsum_parse) : res contraction :=
  let inputs := concat (p_operand_indices p) in
  do requested <-
    match p_output_indices p with
    | Some s => Ok s
    | None =>
        do counts <- counters inputs;
        Ok (sort_chars
              (filter (fun c => Z.eqb (counter counts c) 1) (h (2%nat :: k) (distinct inputs))))
    end;
  from_indices_b h k (p_operand_indices p) requested.

(** validation.rs:75-78 [Contraction::new] and 424-426 [validate]. *)
Definition validate_b (h : hash_order) (k : key) (s : list char) : res contraction :=
  match parse_einsum_string s with
  | None => Err msg_invalid
  | Some p => from_parse_b h k p
  end.

(** validation.rs:316-322 [SizedContraction::from_string_and_shapes]. *)
Definition from_string_and_shapes_b (h : hash_order) (k : key) (s : list char)
    (shapes : list (list nat)) : res sized_contraction :=
  do c <- validate_b h k s; sized_from_contraction c shapes.

(** validation.rs:234-267 [SizedContraction::subset]. *)
Definition subset_b (h : hash_order) (k : key) (sc : sized_contraction)
    (new_operands : list (list char)) (new_output : list char) : res sized_contraction :=
  let all := distinct (concat new_operands) in
  if existsb (fun c => match lookup c (sc_output_size sc) with None => true | Some _ => false end) all
  then Err msg_subset
  else
    do c <- from_indices_b h k new_operands new_output;
    Ok (mkSized c (filter (fun cn => mem (fst cn) all) (sc_output_size sc))).

(** ** The order of contractions *)

(** optimizers.rs:113-132. *)
Definition generate_permuted_contraction_b (h : hash_order) (k : key) (sc : sized_contraction)
    (tensor_order : list nat) : res sized_contraction :=
  let ops := operand_indices (sc_contraction sc) in
  do _ <- rassert (Nat.eqb (length ops) (length tensor_order));
  do new_ops <- mapM (index ops) tensor_order;
  unwrap_res (subset_b h k sc new_ops (output_indices (sc_contraction sc))).

(** optimizers.rs:135-147. *)
Definition generate_sized_contraction_pair_b (h : hash_order) (k : key)
    (lhs rhs output : list char) (orig : sized_contraction) : res sized_contraction :=
  unwrap_res (subset_b h k orig [lhs; rhs] output).

(** optimizers.rs:195-276. There are at least three operands here, so 236 cannot overflow. *)
Definition path_iteration_b (h : hash_order) (k : key) (permuted : sized_contraction)
    (tensor_order : list nat) (st : list char * list pair_step) (idx_of_lhs : nat)
  : res (list char * list pair_step) :=
  let '(prev_output, steps) := st in
  let ops := operand_indices (sc_contraction permuted) in
  let final_output := output_indices (sc_contraction permuted) in
  let lhs_indices := prev_output in
  let idx_of_rhs := S idx_of_lhs in
  do rhs_indices <- index ops idx_of_rhs;
  let output :=
    if Nat.eqb idx_of_rhs (length ops - 1) then final_output
    else
      let existing := get_existing_indices lhs_indices rhs_indices in
      let remaining := get_remaining_indices (skipn (S idx_of_rhs) ops) final_output in
      h (idx_of_lhs :: 3 :: k) (filter (fun c => mem c remaining) existing) in
  do sc <- generate_sized_contraction_pair_b h (idx_of_lhs :: 4 :: k)
             lhs_indices rhs_indices output permuted;
  do r <- index tensor_order idx_of_rhs;
  do l <- (if Nat.eqb idx_of_lhs 0
           then do t0 <- index tensor_order idx_of_lhs; Ok (Input t0)
           else Ok (IntermediateResult (idx_of_lhs - 1)));
  Ok (output, steps ++ [mkPair sc l (Input r)]).

(** optimizers.rs:152-281 [generate_path]; without operands 188 panics before the difference at 190. *)
Definition generate_path_b (h : hash_order) (k : key) (sc : sized_contraction)
    (tensor_order : list nat) : res contraction_order :=
  do permuted <- generate_permuted_contraction_b h (5 :: k) sc tensor_order;
  let ops := operand_indices (sc_contraction permuted) in
  match length ops with
  | 1 => Ok (Singleton permuted)
  | 2 =>
      do l <- index ops 0;
      do r <- index ops 1;
      do psc <- generate_sized_contraction_pair_b h (6 :: k) l r
                  (output_indices (sc_contraction permuted)) permuted;
      do t0 <- index tensor_order 0;
      do t1 <- index tensor_order 1;
      Ok (Pairs [mkPair psc (Input t0) (Input t1)])
  | _ =>
      do first <- index ops 0;
      do n <- b_sub b (length ops) 1;
      do st <- foldM (path_iteration_b h k permuted tensor_order) (seq 0 n) (first, []);
      Ok (Pairs (snd st))
  end.

(** optimizers.rs:298-308 [generate_optimized_order]. *)
Definition generate_optimized_order_b (h : hash_order) (k : key) (sc : sized_contraction)
    (strategy : optimization_method) : res contraction_order :=
  match strategy with
  | Naive => generate_path_b h k sc (naive_order sc)
  | Reverse => generate_path_b h k sc (reverse_order sc)
  | _ => Panic
  end.

(** validation.rs:445-452 [validate_and_optimize_order]. *)
Definition validate_and_optimize_order_b (h : hash_order) (k : key) (s : list char)
    (shapes : list (list nat)) (strategy : optimization_method) : res contraction_order :=
  do sc <- from_string_and_shapes_b h (7 :: k) s shapes;
  generate_optimized_order_b h (8 :: k) sc strategy.

(** ** One operand *)

(** strategies.rs:50-76 [SingletonSummary::new], the counters at 59-62, the difference at 63. *)
Definition singleton_summary_b (sc : sized_contraction) : res singleton_summary :=
  let output := output_indices (sc_contraction sc) in
  do _ <- rassert (Nat.eqb (length (operand_indices (sc_contraction sc))) 1);
  do input <- index (operand_indices (sc_contraction sc)) 0;
  do counts <- counters input;
  do summed <- b_sub b (length (distinct input)) (length output);
  Ok (mkSingletonSummary summed
        (length (filter (fun c => Z.ltb 1 (counter counts c)) (distinct input)))
        (length (filter (fun oi => negb (N.eqb (fst oi) (snd oi))) (combine output input)))).

(** singleton_contractors.rs:148-157 [Summation::from_sizes]: the second vector has [num] elements. *)
Definition summation_from_sizes_b (start num : nat) : res summation :=
  do _ <- rassert (Nat.leb 1 num);
  do _ <- b_room b num;
  Ok (mkSummation (seq start num) (map (fun _ => start) (seq 0 num))).

(** singleton_contractors.rs:138-146 [Summation::new]. *)
Definition summation_new_b (sc : sized_contraction) : res summation :=
  let output := output_indices (sc_contraction sc) in
  do input <- index (operand_indices (sc_contraction sc)) 0;
  do n <- b_sub b (length input) (length output);
  summation_from_sizes_b (length output) n.

(** singleton_contractors.rs:277-305 [PermutationAndSummation::new]. *)
Definition perm_and_sum_new_b (sc : sized_contraction) : res (permutation * summation) :=
  let c := sc_contraction sc in
  do input <- index (operand_indices c) 0;
  do front <- mapM (fun o => unwrap (position o input)) (output_indices c);
  let back :=
    map fst (filter (fun ic => match position (snd ic) (output_indices c) with
                               | None => true | Some _ => false end)
               (combine (seq 0 (length input)) input)) in
  do s <- summation_new_b sc;
  Ok (front ++ back, s).

(** singleton_contractors.rs:334-345 [DiagonalizationAndSummation::new]. *)
Definition diag_and_sum_new_b (sc : sized_contraction) : res (diagonalization * summation) :=
  do d <- diagonalization_new sc;
  let nout := length (output_indices (sc_contraction sc)) in
  do n <- b_sub b (length (diag_output_shape d)) nout;
  do s <- summation_from_sizes_b nout n;
  Ok (d, s).

(** contractors/mod.rs:148-159. *)
Definition singleton_op_new_b (m : singleton_method) (sc : sized_contraction) : res singleton_op :=
  match m with
  | MSummation => do s <- summation_new_b sc; Ok (OpSummation s)
  | MPermutationAndSummation =>
      do ps <- perm_and_sum_new_b sc; Ok (OpPermutationAndSummation (fst ps) (snd ps))
  | MDiagonalizationAndSummation =>
      do ds <- diag_and_sum_new_b sc; Ok (OpDiagonalizationAndSummation (fst ds) (snd ds))
  | _ => singleton_op_new m sc
  end.

(** contractors/mod.rs:142-161 [SingletonContraction::new]. *)
Definition singleton_contraction_new_b (sc : sized_contraction) : res singleton_contraction :=
  do s <- singleton_summary_b sc;
  let m := singleton_strategy s in
  do op <- singleton_op_new_b m sc;
  Ok (mkSC m op).

(** ** Two operands *)

(** strategies.rs:120-151 [PairSummary::new], the differences at 141-143. *)
Definition pair_summary_b (sc : sized_contraction) : res pair_summary :=
  do _ <- rassert (Nat.eqb (length (operand_indices (sc_contraction sc))) 2);
  do lhs <- index (operand_indices (sc_contraction sc)) 0;
  do rhs <- index (operand_indices (sc_contraction sc)) 1;
  let output := output_indices (sc_contraction sc) in
  let lhs_u := distinct lhs in
  let rhs_u := distinct rhs in
  let out_u := distinct output in
  do _ <- rassert (Nat.eqb (length lhs) (length lhs_u));
  do _ <- rassert (Nat.eqb (length rhs) (length rhs_u));
  do _ <- rassert (Nat.eqb (length output) (length out_u));
  let lhs_and_rhs := filter (fun c => mem c rhs_u) lhs_u in
  let stacked := filter (fun c => mem c out_u) lhs_and_rhs in
  let num_stacked := length stacked in
  do num_contracted <- b_sub b (length lhs_and_rhs) num_stacked;
  do l1 <- b_sub b (length lhs_u) num_stacked;
  do num_lhs_outer <- b_sub b l1 num_contracted;
  do r1 <- b_sub b (length rhs_u) num_stacked;
  do num_rhs_outer <- b_sub b r1 num_contracted;
  Ok (mkPairSummary num_stacked num_lhs_outer num_rhs_outer num_contracted).

(** pair_contractors.rs:142-180. *)
Definition tfp_from_shapes_b (lhs_shape rhs_shape : list nat) (num_contracted : nat)
  : res tensordot_fixed :=
  do (ul, cl, shape1) <-
    foldM (fun st ad =>
      let '(u, c, sh) := st in
      let '(axis, d) := ad in
      do lim <- b_sub b (length lhs_shape) num_contracted;
      if Nat.ltb axis lim then do u' <- b_mul b u d; Ok (u', c, sh ++ [d])
      else do c' <- b_mul b c d; Ok (u, c', sh))
      (combine (seq 0 (length lhs_shape)) lhs_shape) (1, 1, []);
  do (ur, cr, shape2) <-
    foldM (fun st ad =>
      let '(u, c, sh) := st in
      let '(axis, d) := ad in
      if Nat.ltb axis num_contracted then do c' <- b_mul b c d; Ok (u, c', sh)
      else do u' <- b_mul b u d; Ok (u', c, sh ++ [d]))
      (combine (seq 0 (length rhs_shape)) rhs_shape) (1, 1, shape1);
  do _ <- rassert (Nat.eqb cr cl);
  Ok (mkTFP ul ur cl shape2).

(** pair_contractors.rs:114-134. *)
Definition tfp_new_b (sc : sized_contraction) : res tensordot_fixed :=
  let c := sc_contraction sc in
  do _ <- rassert (Nat.eqb (length (operand_indices c)) 2);
  do lhs <- index (operand_indices c) 0;
  do rhs <- index (operand_indices c) 1;
  do twice <- b_sub b (length lhs + length rhs) (length (output_indices c));
  do _ <- rassert (Nat.eqb (Nat.modulo twice 2) 0);
  do lhs_shape <- mapM (size_of (sc_output_size sc)) lhs;
  do rhs_shape <- mapM (size_of (sc_output_size sc)) rhs;
  tfp_from_shapes_b lhs_shape rhs_shape (Nat.div twice 2).

(** pair_contractors.rs:314-375. *)
Definition tg_from_axes_b (lhs_shape rhs_shape lhs_axes rhs_axes output_order : list nat)
  : res tensordot_general :=
  let n := length lhs_axes in
  do _ <- rassert (Nat.eqb n (length rhs_axes));
  do _ <- rassert (Nat.eqb n (length (nodup Nat.eq_dec lhs_axes)));
  do _ <- rassert (Nat.eqb n (length (nodup Nat.eq_dec rhs_axes)));
  do lhs_back <- mapM (index lhs_shape) lhs_axes;
  do rhs_front <- mapM (index rhs_shape) rhs_axes;
  do lhs_front <- mapM (index lhs_shape) (other_axes (length lhs_shape) lhs_axes);
  do rhs_back <- mapM (index rhs_shape) (other_axes (length rhs_shape) rhs_axes);
  do fixed <- tfp_from_shapes_b (lhs_front ++ lhs_back) (rhs_front ++ rhs_back) n;
  Ok (mkTG (other_axes (length lhs_shape) lhs_axes ++ lhs_axes)
           (rhs_axes ++ other_axes (length rhs_shape) rhs_axes)
           fixed output_order).

(** pair_contractors.rs:267-307. *)
Definition tg_from_indices_b (lhs_shape rhs_shape : list nat)
    (lhs rhs contracted output : list char) : res tensordot_general :=
  do lhs_axes <- find_outputs_in_inputs_unique contracted lhs;
  do rhs_axes <- find_outputs_in_inputs_unique contracted rhs;
  let uncontracted :=
    filter (fun c => mem c output) lhs ++ filter (fun c => mem c output) rhs in
  do order <- find_outputs_in_inputs_unique output uncontracted;
  tg_from_axes_b lhs_shape rhs_shape lhs_axes rhs_axes order.

(** pair_contractors.rs:248-265. *)
Definition tg_new_b (sc : sized_contraction) : res tensordot_general :=
  let c := sc_contraction sc in
  do _ <- rassert (Nat.eqb (length (operand_indices c)) 2);
  do lhs <- index (operand_indices c) 0;
  do rhs <- index (operand_indices c) 1;
  do lhs_shape <- mapM (size_of (sc_output_size sc)) lhs;
  do rhs_shape <- mapM (size_of (sc_output_size sc)) rhs;
  tg_from_indices_b lhs_shape rhs_shape lhs rhs (summation_indices c) (output_indices c).

(** pair_contractors.rs:856-883, multiplications at 866 and 867. *)
Definition stack_step_b (m : output_size_map) (a : stack_acc)
    (x : option nat * option nat * char) : res stack_acc :=
  let '(l, r, c) := x in
  match l, r with
  | Some lp, Some rp =>
      do d <- size_of m c;
      do ll <- b_mul b (sa_lhs_stack_len a) d;
      do rl <- b_mul b (sa_rhs_stack_len a) d;
      Ok (mkSA (sa_lhs_stack_axes a ++ [lp]) (sa_rhs_stack_axes a ++ [rp])
               (sa_stack_indices a ++ [c])
               (sa_lhs_outer_axes a) (sa_lhs_outer_indices a)
               (sa_rhs_outer_axes a) (sa_rhs_outer_indices a)
               (sa_lhs_uncontracted_shape a) (sa_rhs_uncontracted_shape a)
               ll rl)
  | _, _ => stack_step m a x
  end.

(** pair_contractors.rs:825-959. *)
Definition stacked_new_b (sc : sized_contraction) : res stacked_tensordot :=
  let c := sc_contraction sc in
  let m := sc_output_size sc in
  let output := output_indices c in
  do _ <- rassert (Nat.eqb (length (operand_indices c)) 2);
  do lhs <- index (operand_indices c) 0;
  do rhs <- index (operand_indices c) 1;
  do ml <- maybe_find_outputs_in_inputs_unique output lhs;
  do mr <- maybe_find_outputs_in_inputs_unique output rhs;
  do a <- foldM (stack_step_b m) (combine (combine ml mr) output)
            (mkSA [] [] [] [] [] [] [] [] [] 1 1);
  do (lca, rca, csh) <-
     foldM (contracted_step m rhs output) (combine (seq 0 (length lhs)) lhs) ([], [], []);
  let lhs_order := sa_lhs_stack_axes a ++ sa_lhs_outer_axes a ++ lca in
  let lhs_output_shape := [sa_lhs_stack_len a] ++ sa_lhs_uncontracted_shape a ++ csh in
  let rhs_order := sa_rhs_stack_axes a ++ rca ++ sa_rhs_outer_axes a in
  let rhs_output_shape := [sa_rhs_stack_len a] ++ csh ++ sa_rhs_uncontracted_shape a in
  let intermediate_indices :=
    sa_stack_indices a ++ sa_lhs_outer_indices a ++ sa_rhs_outer_indices a in
  do _ <- rassert (Nat.eqb (sa_lhs_stack_len a) (sa_rhs_stack_len a));
  do lo <- mapM (size_of m) (sa_lhs_outer_indices a);
  do ro <- mapM (size_of m) (sa_rhs_outer_indices a);
  let intermediate_shape := [sa_lhs_stack_len a] ++ lo ++ ro in
  do output_order <- find_outputs_in_inputs_unique output intermediate_indices;
  do output_shape <- mapM (size_of m) intermediate_indices;
  do fixed <- tfp_from_shapes_b (skipn 1 lhs_output_shape) (skipn 1 rhs_output_shape) (length lca);
  Ok (mkST lhs_order rhs_order lhs_output_shape rhs_output_shape intermediate_shape
           fixed output_shape output_order).

(** contractors/mod.rs:309-343. *)
Definition pair_op_new_b (m : pair_method) (sc : sized_contraction) : res pair_op :=
  match m with
  | MTensordotFixedPosition => do t <- tfp_new_b sc; Ok (OpTensordotFixedPosition t)
  | MTensordotGeneral => do t <- tg_new_b sc; Ok (OpTensordotGeneral t)
  | MStackedTensordotGeneral => do s <- stacked_new_b sc; Ok (OpStackedTensordotGeneral s)
  | _ => pair_op_new m sc
  end.

(** contractors/mod.rs:198-233. *)
Definition simplification_from_b (h : hash_order) (k : key) (this other output : list char)
    (orig : sized_contraction) : res (option simplification) :=
  let desired :=
    filter (fun c => mem c (distinct (distinct other ++ distinct output))) (distinct this) in
  let new_indices := h (0 :: k) desired in
  do ssc <- unwrap_res (subset_b h (1 :: k) orig [this] new_indices);
  do sc <- singleton_contraction_new_b ssc;
  match sgl_method sc with
  | MIdentity | MPermutation => Ok None
  | m =>
      do str <- as_einsum_string ssc;
      Ok (Some (mkSimpl m (sgl_op sc) new_indices str))
  end.

(** contractors/mod.rs:275-351 [PairContraction::new]. *)
Definition pair_contraction_new_b (h : hash_order) (k : key) (sc : sized_contraction)
  : res pair_contraction :=
  let c := sc_contraction sc in
  do _ <- rassert (Nat.eqb (length (operand_indices c)) 2);
  do lhs <- index (operand_indices c) 0;
  do rhs <- index (operand_indices c) 1;
  do ls <- simplification_from_b h (0 :: k) lhs rhs (output_indices c) sc;
  do rs <- simplification_from_b h (1 :: k) rhs lhs (output_indices c) sc;
  let new_lhs := match ls with Some s => simpl_new_indices s | None => lhs end in
  let new_rhs := match rs with Some s => simpl_new_indices s | None => rhs end in
  do reduced <- unwrap_res (subset_b h (2 :: k) sc [new_lhs; new_rhs] (output_indices c));
  do s <- pair_summary_b reduced;
  let m := pair_strategy s in
  do op <- pair_op_new_b m reduced;
  do str <- as_einsum_string reduced;
  Ok (mkPC ls rs m op str).

(** ** Paths and calls *)

(** contractors/mod.rs:437-458 [EinsumPath::from_path]. *)
Definition from_path_b (h : hash_order) (k : key) (order : contraction_order) : res einsum_path :=
  match order with
  | Singleton sc =>
      do s <- singleton_contraction_new_b sc; Ok (mkPath order (StepsSingleton s))
  | Pairs steps =>
      do l <- mapM (fun ist => pair_contraction_new_b h (fst ist :: 9 :: k) (ps_sc (snd ist)))
                (combine (seq 0 (length steps)) steps);
      Ok (mkPath order (StepsPairs l))
  end.

(** contractors/mod.rs:431-435 [EinsumPath::new]. *)
Definition einsum_path_new_b (h : hash_order) (k : key) (sc : sized_contraction)
  : res einsum_path :=
  do order <- generate_optimized_order_b h (10 :: k) sc Naive;
  from_path_b h (11 :: k) order.

(** lib.rs:221-227 [einsum] up to the run (validation.rs:357-363). *)
Definition einsum_compile_b (h : hash_order) (s : list char) (shapes : list (list nat)) : res einsum_path :=
  do sc <- from_string_and_shapes_b h [20] s shapes;
  einsum_path_new_b h [21] sc.

(** lib.rs:210-218 [einsum_path]. *)
Definition einsum_path_fn_b (h : hash_order) (s : list char) (shapes : list (list nat))
    (strategy : optimization_method) : res einsum_path :=
  do order <- validate_and_optimize_order_b h [22] s shapes strategy;
  from_path_b h [23] order.

(** lib.rs:269-294 [tensordot] up to the run. *)
Definition tensordot_compile_b (lhs_shape rhs_shape lhs_axes rhs_axes : list nat) : res tensordot_general :=
  do _ <- rassert (Nat.eqb (length lhs_axes) (length rhs_axes));
  do n <- b_sub b (length lhs_shape + length rhs_shape) (2 * length lhs_axes);
  do _ <- b_room b n;
  tg_from_axes_b lhs_shape rhs_shape lhs_axes rhs_axes (seq 0 n).

(** The calls: compile, then run [lib.rs:202-207]. *)

Definition einsum_b {A : Type} {S : Scalar A} (lay : backend A) (h : hash_order) (s : list char)
    (operands : list (arr A)) : res (arr A) :=
  do p <- einsum_compile_b h s (get_operand_shapes operands); contract_operands lay p operands.

(** lib.rs:202-207 [einsum] after validation. *)

Definition compile_and_run_b {A : Type} {S : Scalar A} (lay : backend A) (h : hash_order) (s : list char)
    (operands : list (arr A)) (strategy : optimization_method) : res (arr A) :=
  do p <- einsum_path_fn_b h s (get_operand_shapes operands) strategy; contract_operands lay p operands.

(** lib.rs:269-294 [tensordot]. *)
Definition tensordot_b {A : Type} {S : Scalar A} (lay : backend A) (lhs rhs : arr A)
    (lhs_axes rhs_axes : list nat) : res (arr A) :=
  do t <- tensordot_compile_b (a_shape lhs) (a_shape rhs) lhs_axes rhs_axes; run_tg lay t lhs rhs.

End Build.
