(** Model of /repo/src/optimizers.rs. No proofs in this file. *)
From Verif Require Import Base Validation.

(** optimizers.rs:26-29 [enum OperandNumber]. *)
Inductive operand_number := Input (n : nat) | IntermediateResult (n : nat).

(** optimizers.rs:34-37 [struct OperandNumPair] and 43-49 [struct Pair]. *)
Record pair_step := mkPair {
  ps_sc : sized_contraction;
  ps_lhs : operand_number;
  ps_rhs : operand_number
}.

(** optimizers.rs:57-64 [enum ContractionOrder]. *)
Inductive contraction_order :=
| Singleton (sc : sized_contraction)
| Pairs (steps : list pair_step).

(** optimizers.rs:71-89 [enum OptimizationMethod]. *)
Inductive optimization_method := Naive | Reverse | Greedy | Optimal | Branch.

(** optimizers.rs:92-101 [get_remaining_indices]: the set, as a list of distinct labels. *)
Definition get_remaining_indices (operands : list (list char)) (output : list char) : list char :=
  distinct (concat operands ++ output).

(** optimizers.rs:104-110 [get_existing_indices]. *)
Definition get_existing_indices (lhs rhs : list char) : list char := distinct (lhs ++ rhs).

(** optimizers.rs:113-132 [generate_permuted_contraction]. *)
Definition generate_permuted_contraction (h : hash_order) (k : key) (sc : sized_contraction)
    (tensor_order : list nat) : res sized_contraction :=
  let ops := operand_indices (sc_contraction sc) in
  do _ <- rassert (Nat.eqb (length ops) (length tensor_order));
  do new_ops <- mapM (index ops) tensor_order;
  unwrap_res (subset h k sc new_ops (output_indices (sc_contraction sc))).

(** optimizers.rs:135-147 [generate_sized_contraction_pair]. *)
Definition generate_sized_contraction_pair (h : hash_order) (k : key)
    (lhs rhs output : list char) (orig : sized_contraction) : res sized_contraction :=
  unwrap_res (subset h k orig [lhs; rhs] output).

(** optimizers.rs:195-276: one iteration of the main loop. The state is [output_indices]
    (the labels of the previous result) and the steps produced so far. The HashSet
    [existing_indices.intersection(..)] of iteration [i] has key [i :: 3 :: k]. *)
Definition path_iteration (h : hash_order) (k : key) (permuted : sized_contraction)
    (tensor_order : list nat) (st : list char * list pair_step) (idx_of_lhs : nat)
  : res (list char * list pair_step) :=
  let '(prev_output, steps) := st in
  let ops := operand_indices (sc_contraction permuted) in
  let final_output := output_indices (sc_contraction permuted) in
  let lhs_indices := prev_output in
  let idx_of_rhs := S idx_of_lhs in
  do rhs_indices <- index ops idx_of_rhs;
  let output :=
    if Nat.eqb idx_of_rhs (length ops - 1) then final_output
    else
      let existing := get_existing_indices lhs_indices rhs_indices in
      let remaining := get_remaining_indices (skipn (S idx_of_rhs) ops) final_output in
      h (idx_of_lhs :: 3 :: k) (filter (fun c => mem c remaining) existing) in
  do sc <- generate_sized_contraction_pair h (idx_of_lhs :: 4 :: k)
             lhs_indices rhs_indices output permuted;
  do r <- index tensor_order idx_of_rhs;
  do l <- (if Nat.eqb idx_of_lhs 0
           then do t0 <- index tensor_order idx_of_lhs; Ok (Input t0)
           else Ok (IntermediateResult (idx_of_lhs - 1)));
  Ok (output, steps ++ [mkPair sc l (Input r)]).

(** optimizers.rs:152-281 [generate_path]. *)
Definition generate_path (h : hash_order) (k : key) (sc : sized_contraction)
    (tensor_order : list nat) : res contraction_order :=
  do permuted <- generate_permuted_contraction h (5 :: k) sc tensor_order;
  let ops := operand_indices (sc_contraction permuted) in
  match length ops with
  | 1 => Ok (Singleton permuted)
  | 2 =>
      do l <- index ops 0;
      do r <- index ops 1;
      do psc <- generate_sized_contraction_pair h (6 :: k) l r
                  (output_indices (sc_contraction permuted)) permuted;
      do t0 <- index tensor_order 0;
      do t1 <- index tensor_order 1;
      Ok (Pairs [mkPair psc (Input t0) (Input t1)])
  | _ =>
      do first <- index ops 0;
      do n <- usub (length ops) 1;
      do st <- foldM (path_iteration h k permuted tensor_order) (seq 0 n) (first, []);
      Ok (Pairs (snd st))
  end.

(** optimizers.rs:284-286 [naive_order]. *)
Definition naive_order (sc : sized_contraction) : list nat :=
  seq 0 (length (operand_indices (sc_contraction sc))).

(** optimizers.rs:289-293 [reverse_order]. *)
Definition reverse_order (sc : sized_contraction) : list nat :=
  rev (seq 0 (length (operand_indices (sc_contraction sc)))).

(** optimizers.rs:298-308 [generate_optimized_order]. *)
Definition generate_optimized_order (h : hash_order) (k : key) (sc : sized_contraction)
    (strategy : optimization_method) : res contraction_order :=
  match strategy with
  | Naive => generate_path h k sc (naive_order sc)
  | Reverse => generate_path h k sc (reverse_order sc)
  | _ => Panic
  end.

(** validation.rs:445-452 [validate_and_optimize_order]. *)
Definition validate_and_optimize_order (h : hash_order) (k : key) (s : list char)
    (shapes : list (list nat)) (strategy : optimization_method) : res contraction_order :=
  do sc <- from_string_and_shapes h (7 :: k) s shapes;
  generate_optimized_order h (8 :: k) sc strategy.
