(** Model of /repo/src/contractors/mod.rs. No proofs in this file. *)
From Verif Require Import Base NDArray Validation Optimizers Strategies Singleton Pair.

(** contractors/mod.rs:135-139 [struct SingletonContraction]. *)
Record singleton_contraction := mkSC {
  sgl_method : singleton_method;
  sgl_op : singleton_op
}.

(** contractors/mod.rs:148-159: the boxed contractor for a method. *)
Definition singleton_op_new (m : singleton_method) (sc : sized_contraction) : res singleton_op :=
  match m with
  | MIdentity => Ok OpIdentity
  | MPermutation => do p <- permutation_new sc; Ok (OpPermutation p)
  | MSummation => do s <- summation_new sc; Ok (OpSummation s)
  | MDiagonalization => do d <- diagonalization_new sc; Ok (OpDiagonalization d)
  | MPermutationAndSummation =>
      do ps <- perm_and_sum_new sc; Ok (OpPermutationAndSummation (fst ps) (snd ps))
  | MDiagonalizationAndSummation =>
      do ds <- diag_and_sum_new sc; Ok (OpDiagonalizationAndSummation (fst ds) (snd ds))
  end.

(** contractors/mod.rs:142-161 [SingletonContraction::new]. *)
Definition singleton_contraction_new (sc : sized_contraction) : res singleton_contraction :=
  do s <- singleton_summary_new sc;
  let m := singleton_strategy s in
  do op <- singleton_op_new m sc;
  Ok (mkSC m op).

(** contractors/mod.rs:186-192 [struct SimplificationMethodAndOutput]. *)
Record simplification := mkSimpl {
  simpl_method : singleton_method;
  simpl_op : singleton_op;
  simpl_new_indices : list char;
  simpl_einsum_string : list char
}.

(** contractors/mod.rs:198-233 [SimplificationMethodAndOutput::from_indices_and_sizes]. The
    HashSet [desired_uniques] has key [0 :: k]. *)
Definition simplification_from (h : hash_order) (k : key) (this other output : list char)
    (orig : sized_contraction) : res (option simplification) :=
  let desired :=
    filter (fun c => mem c (distinct (distinct other ++ distinct output))) (distinct this) in
  let new_indices := h (0 :: k) desired in
  do ssc <- unwrap_res (subset h (1 :: k) orig [this] new_indices);
  do sc <- singleton_contraction_new ssc;
  match sgl_method sc with
  | MIdentity | MPermutation => Ok None
  | m =>
      do str <- as_einsum_string ssc;
      Ok (Some (mkSimpl m (sgl_op sc) new_indices str))
  end.

(** contractors/mod.rs:265-272 [struct PairContraction]. *)
Record pair_contraction := mkPC {
  pc_lhs_simplification : option simplification;
  pc_rhs_simplification : option simplification;
  pc_method : pair_method;
  pc_op : pair_op;
  pc_string : list char
}.

(** contractors/mod.rs:309-343: the boxed contractor for a method. *)
Definition pair_op_new (m : pair_method) (sc : sized_contraction) : res pair_op :=
  match m with
  | MHadamardProduct => do _ <- hadamard_new sc; Ok OpHadamardProduct
  | MHadamardProductGeneral =>
      do p <- hadamard_general_new sc; Ok (OpHadamardProductGeneral (fst p) (snd p))
  | MScalarMatrixProduct => do _ <- scalar_matrix_new sc; Ok OpScalarMatrixProduct
  | MScalarMatrixProductGeneral =>
      do p <- scalar_matrix_general_new sc; Ok (OpScalarMatrixProductGeneral p)
  | MMatrixScalarProduct => do _ <- matrix_scalar_new sc; Ok OpMatrixScalarProduct
  | MMatrixScalarProductGeneral =>
      do p <- matrix_scalar_general_new sc; Ok (OpMatrixScalarProductGeneral p)
  | MTensordotFixedPosition => do t <- tfp_new sc; Ok (OpTensordotFixedPosition t)
  | MTensordotGeneral => do t <- tg_new sc; Ok (OpTensordotGeneral t)
  | MStackedTensordotGeneral => do s <- stacked_new sc; Ok (OpStackedTensordotGeneral s)
  | MBroadcastProductGeneral => do b <- broadcast_new sc; Ok (OpBroadcastProductGeneral b)
  end.

(** contractors/mod.rs:275-351 [PairContraction::new]. *)
Definition pair_contraction_new (h : hash_order) (k : key) (sc : sized_contraction)
  : res pair_contraction :=
  let c := sc_contraction sc in
  do _ <- rassert (Nat.eqb (length (operand_indices c)) 2);
  do lhs <- index (operand_indices c) 0;
  do rhs <- index (operand_indices c) 1;
  do ls <- simplification_from h (0 :: k) lhs rhs (output_indices c) sc;
  do rs <- simplification_from h (1 :: k) rhs lhs (output_indices c) sc;
  let new_lhs := match ls with Some s => simpl_new_indices s | None => lhs end in
  let new_rhs := match rs with Some s => simpl_new_indices s | None => rhs end in
  do reduced <- unwrap_res (subset h (2 :: k) sc [new_lhs; new_rhs] (output_indices c));
  do s <- pair_summary_new reduced;
  let m := pair_strategy s in
  do op <- pair_op_new m reduced;
  do str <- as_einsum_string reduced;
  Ok (mkPC ls rs m op str).

(** contractors/mod.rs:404-413 [enum EinsumPathSteps]. *)
Inductive einsum_path_steps :=
| StepsSingleton (s : singleton_contraction)
| StepsPairs (l : list pair_contraction).

(** contractors/mod.rs:422-428 [struct EinsumPath]. *)
Record einsum_path := mkPath {
  path_order : contraction_order;
  path_steps : einsum_path_steps
}.

(** contractors/mod.rs:437-458 [EinsumPath::from_path]. Step [i] compiles its hash sets under
    the key [i :: 9 :: k]. *)
Definition from_path (h : hash_order) (k : key) (order : contraction_order) : res einsum_path :=
  match order with
  | Singleton sc =>
      do s <- singleton_contraction_new sc; Ok (mkPath order (StepsSingleton s))
  | Pairs steps =>
      do l <- mapM (fun ist => pair_contraction_new h (fst ist :: 9 :: k) (ps_sc (snd ist)))
                (combine (seq 0 (length steps)) steps);
      Ok (mkPath order (StepsPairs l))
  end.

(** contractors/mod.rs:431-435 [EinsumPath::new]. *)
Definition einsum_path_new (h : hash_order) (k : key) (sc : sized_contraction)
  : res einsum_path :=
  do order <- generate_optimized_order h (10 :: k) sc Naive;
  from_path h (11 :: k) order.

Section Run.
Context {A : Type} {S : Scalar A}.
Variable lay : backend A.

(** contractors/mod.rs:355-378 [PairContraction::contract_pair]. *)

Definition run_simplification (s : option simplification) (t : arr A) : res (arr A) :=
  match s with
  | Some s => run_singleton lay (simpl_op s) t
  | None => Ok t
  end.

(** contractors/mod.rs:354-378 [PairContraction::contract_pair]. *)
Definition run_pair_contraction (p : pair_contraction) (lhs rhs : arr A) : res (arr A) :=
  do l <- run_simplification (pc_lhs_simplification p) lhs;
  do r <- run_simplification (pc_rhs_simplification p) rhs;
  run_pair lay (pc_op p) l r.

(** contractors/mod.rs:475-482: fetching the array an operand number refers to. *)
Definition fetch (operands intermediates : list (arr A)) (n : operand_number) : res (arr A) :=
  match n with
  | Input pos => index operands pos
  | IntermediateResult pos => index intermediates pos
  end.

(** contractors/mod.rs:474-486: one step. *)
Definition run_step (operands : list (arr A)) (intermediates : list (arr A))
    (so : pair_contraction * pair_step) : res (list (arr A)) :=
  let '(step, order_step) := so in
  do lhs <- fetch operands intermediates (ps_lhs order_step);
  do rhs <- fetch operands intermediates (ps_rhs order_step);
  do r <- run_pair_contraction step lhs rhs;
  Ok (intermediates ++ [r]).

(** [Vec::pop] [contractors/mod.rs:487]. *)
Definition pop_last {T : Type} (l : list T) : option T := nth_error l (length l - 1).

(** contractors/mod.rs:462-491 [EinsumPath::contract_operands]. *)
Definition contract_operands (p : einsum_path) (operands : list (arr A)) : res (arr A) :=
  match path_steps p, path_order p with
  | StepsSingleton c, Singleton _ =>
      do t <- index operands 0; run_singleton lay (sgl_op c) t
  | StepsPairs steps, Pairs order_steps =>
      do ints <- foldM (run_step operands) (combine steps order_steps) [];
      unwrap (pop_last ints)
  | _, _ => Panic
  end.

End Run.
