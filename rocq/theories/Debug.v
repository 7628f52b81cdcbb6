(** Model of the [Debug] output of compiled paths: the hand-written implementations of
    /repo/src/contractors/mod.rs, and all derived ones. No proofs in this file.

    The format is [{:?}]; labels are taken to be lower-case letters, which print as themselves. *)
From Verif Require Import Base NDArray Validation Optimizers Strategies Singleton Pair Path.
From Coq Require String DecimalString.
Import String.StringSyntax.
Local Open Scope string_scope.
Local Open Scope list_scope.

(** ** std *)

(** [usize] in decimal [optimizers.rs:24-29]. *)
Definition dbg_nat (n : nat) : list char := chars (DecimalString.NilZero.string_of_uint (Nat.to_uint n)).

(** Texts separated by ", " [validation.rs:57-71]. *)
Fixpoint commas (l : list (list char)) : list char :=
  match l with
  | [] => []
  | [x] => x
  | x :: l' => x ++ chars ", " ++ commas l'
  end.

(** [Vec<T>] [validation.rs:57-71]. *)
Definition dbg_list {T : Type} (f : T -> list char) (l : list T) : list char :=
  chars "[" ++ commas (map f l) ++ chars "]".

(** [Option<T>] [pair_contractors.rs:94-111]. *)
Definition dbg_option {T : Type} (f : T -> list char) (o : option T) : list char :=
  match o with None => chars "None" | Some x => chars "Some(" ++ f x ++ chars ")" end.

(** [HashMap]: the entries in the order of the map [validation.rs:159]. *)
Definition dbg_map (l : list (list char * list char)) : list char :=
  chars "{" ++ commas (map (fun kv => fst kv ++ chars ": " ++ snd kv) l) ++ chars "}".

(** [char] and [String] [validation.rs:57-71]. *)

Definition dbg_char (c : char) : list char := chars "'" ++ [c] ++ chars "'".

(** A [String], the text of a [&str]; the derives are those of validation.rs:56 and optimizers.rs:23. *)
Definition dbg_string (s : list char) : list char := [34%N] ++ s ++ [34%N].

(** A derived implementation: the name and the fields in order [validation.rs:57-71]. *)
Definition dbg_struct (name : String.string) (fields : list (String.string * list char)) : list char :=
  match fields with
  | [] => chars name
  | _ => chars name ++ chars " { " ++ commas (map (fun nv => chars (fst nv) ++ chars ": " ++ snd nv) fields)
         ++ chars " }"
  end.

(** A derived implementation for a variant that holds a value [optimizers.rs:24-29]. *)

Definition dbg_variant (name : String.string) (content : list char) : list char :=
  chars name ++ chars "(" ++ content ++ chars ")".

(** A [Vec<usize>], for example the field of singleton_contractors.rs:68-72. *)
Definition dbg_nats : list nat -> list char := dbg_list dbg_nat.

(** ** Derived implementations *)

(** validation.rs:37-41 [EinsumParse]. *)
Definition dbg_parse (p : einsum_parse) : list char :=
  dbg_struct "EinsumParse" [("operand_indices", dbg_list dbg_string (p_operand_indices p));
                            ("output_indices", dbg_option dbg_string (p_output_indices p))].
(** validation.rs:58-71 [Contraction]. *)
Definition dbg_contraction (c : contraction) : list char :=
  dbg_struct "Contraction" [("operand_indices", dbg_list (dbg_list dbg_char) (operand_indices c));
                            ("output_indices", dbg_list dbg_char (output_indices c));
                            ("summation_indices", dbg_list dbg_char (summation_indices c))].
(** validation.rs:212-216 [SizedContraction]; the map of lengths has key [k]. *)
Definition dbg_sized (h : hash_order) (k : key) (sc : sized_contraction) : list char :=
  dbg_struct "SizedContraction"
    [("contraction", dbg_contraction (sc_contraction sc));
     ("output_size",
       dbg_map (flat_map (fun c => match lookup c (sc_output_size sc) with
                                   | Some n => [(dbg_char c, dbg_nat n)]
                                   | None => []
                                   end) (h k (distinct (map fst (sc_output_size sc))))))].
(** optimizers.rs:25-29 [OperandNumber] and 33-37 [OperandNumPair]. *)

Definition dbg_operand_number (o : operand_number) : list char :=
  match o with
  | Input n => dbg_variant "Input" (dbg_nat n)
  | IntermediateResult n => dbg_variant "IntermediateResult" (dbg_nat n)
  end.

(** optimizers.rs:32-37 [OperandNumPair]. *)
Definition dbg_operand_pair (lr : operand_number * operand_number) : list char :=
  dbg_struct "OperandNumPair" [("lhs", dbg_operand_number (fst lr)); ("rhs", dbg_operand_number (snd lr))].
(** optimizers.rs:42-49 [Pair]. *)
Definition dbg_pair_step (h : hash_order) (k : key) (p : pair_step) : list char :=
  dbg_struct "Pair" [("sized_contraction", dbg_sized h k (ps_sc p));
                     ("operand_nums", dbg_operand_pair (ps_lhs p, ps_rhs p))].
(** optimizers.rs:56-64 [ContractionOrder]. The map of step [i] has key [i :: k]. *)
Definition dbg_order (h : hash_order) (k : key) (o : contraction_order) : list char :=
  match o with
  | Singleton sc => dbg_variant "Singleton" (dbg_sized h k sc)
  | Pairs steps =>
      dbg_variant "Pairs" (dbg_list (fun ip => dbg_pair_step h (fst ip :: k) (snd ip))
                             (combine (seq 0 (length steps)) steps))
  end.
(** optimizers.rs:70-89 [OptimizationMethod]. *)
Definition dbg_optimization (m : optimization_method) : list char :=
  chars match m with
        | Naive => "Naive" | Reverse => "Reverse" | Greedy => "Greedy" | Optimal => "Optimal" | Branch => "Branch"
        end.

(** strategies.rs:42-47 [SingletonSummary] and 111-117 [PairSummary]. *)

Definition dbg_singleton_summary (s : singleton_summary) : list char :=
  dbg_struct "SingletonSummary" [("num_summed_axes", dbg_nat (num_summed_axes s));
                                 ("num_diagonalized_axes", dbg_nat (num_diagonalized_axes s));
                                 ("num_reordered_axes", dbg_nat (num_reordered_axes s))].

(** strategies.rs:110-117 [PairSummary]. *)
Definition dbg_pair_summary (s : pair_summary) : list char :=
  dbg_struct "PairSummary" [("num_stacked_axes", dbg_nat (num_stacked_axes s));
                            ("num_lhs_outer_axes", dbg_nat (num_lhs_outer_axes s));
                            ("num_rhs_outer_axes", dbg_nat (num_rhs_outer_axes s));
                            ("num_contracted_axes", dbg_nat (num_contracted_axes s))].

(** strategies.rs:31-39 and 96-108. *)

Definition dbg_singleton_method (m : singleton_method) : list char :=
  chars match m with
        | MIdentity => "Identity"
        | MPermutation => "Permutation"
        | MSummation => "Summation"
        | MDiagonalization => "Diagonalization"
        | MPermutationAndSummation => "PermutationAndSummation"
        | MDiagonalizationAndSummation => "DiagonalizationAndSummation"
        end.

(** strategies.rs:95-108 [PairMethod]. *)
Definition dbg_pair_method (m : pair_method) : list char :=
  chars match m with
        | MHadamardProduct => "HadamardProduct"
        | MHadamardProductGeneral => "HadamardProductGeneral"
        | MTensordotFixedPosition => "TensordotFixedPosition"
        | MTensordotGeneral => "TensordotGeneral"
        | MScalarMatrixProduct => "ScalarMatrixProduct"
        | MScalarMatrixProductGeneral => "ScalarMatrixProductGeneral"
        | MMatrixScalarProduct => "MatrixScalarProduct"
        | MMatrixScalarProductGeneral => "MatrixScalarProductGeneral"
        | MBroadcastProductGeneral => "BroadcastProductGeneral"
        | MStackedTensordotGeneral => "StackedTensordotGeneral"
        end.

(** singleton_contractors.rs:69-72. *)
Definition dbg_permutation (p : permutation) : list char :=
  dbg_struct "Permutation" [("permutation", dbg_nats p)].
(** singleton_contractors.rs:131-135. *)
Definition dbg_summation (s : summation) : list char :=
  dbg_struct "Summation" [("orig_axis_list", dbg_nats (orig_axis_list s));
                          ("adjusted_axis_list", dbg_nats (adjusted_axis_list s))].
(** singleton_contractors.rs:182-186. *)
Definition dbg_diagonalization (d : diagonalization) : list char :=
  dbg_struct "Diagonalization" [("input_to_output_mapping", dbg_nats (input_to_output_mapping d));
                                ("output_shape", dbg_nats (diag_output_shape d))].
(** singleton_contractors.rs:36-37, 270-274, 327-331 and the above: the boxed contractor. *)
Definition dbg_singleton_op (op : singleton_op) : list char :=
  match op with
  | OpIdentity => dbg_struct "Identity" []
  | OpPermutation p => dbg_permutation p
  | OpSummation s => dbg_summation s
  | OpDiagonalization d => dbg_diagonalization d
  | OpPermutationAndSummation p s =>
      dbg_struct "PermutationAndSummation" [("permutation", dbg_permutation p); ("summation", dbg_summation s)]
  | OpDiagonalizationAndSummation d s =>
      dbg_struct "DiagonalizationAndSummation"
        [("diagonalization", dbg_diagonalization d); ("summation", dbg_summation s)]
  end.

(** pair_contractors.rs:95-111. *)
Definition dbg_tfp (t : tensordot_fixed) : list char :=
  dbg_struct "TensordotFixedPosition"
    [("len_uncontracted_lhs", dbg_nat (len_uncontracted_lhs t));
     ("len_uncontracted_rhs", dbg_nat (len_uncontracted_rhs t));
     ("len_contracted_axes", dbg_nat (len_contracted_axes t));
     ("output_shape", dbg_nats (tfp_output_shape t))].
(** pair_contractors.rs:239-245, 406-407, 449-454, 504-505, 548-552, 603-604, 647-651, 706-714,
    812-822: the boxed contractor. *)
Definition dbg_pair_op (op : pair_op) : list char :=
  match op with
  | OpHadamardProduct => dbg_struct "HadamardProduct" []
  | OpHadamardProductGeneral pl pr =>
      dbg_struct "HadamardProductGeneral"
        [("lhs_permutation", dbg_permutation pl); ("rhs_permutation", dbg_permutation pr);
         ("hadamard_product", dbg_struct "HadamardProduct" [])]
  | OpScalarMatrixProduct => dbg_struct "ScalarMatrixProduct" []
  | OpScalarMatrixProductGeneral pr =>
      dbg_struct "ScalarMatrixProductGeneral"
        [("rhs_permutation", dbg_permutation pr); ("scalar_matrix_product", dbg_struct "ScalarMatrixProduct" [])]
  | OpMatrixScalarProduct => dbg_struct "MatrixScalarProduct" []
  | OpMatrixScalarProductGeneral pl =>
      dbg_struct "MatrixScalarProductGeneral"
        [("lhs_permutation", dbg_permutation pl); ("matrix_scalar_product", dbg_struct "MatrixScalarProduct" [])]
  | OpTensordotFixedPosition t => dbg_tfp t
  | OpTensordotGeneral t =>
      dbg_struct "TensordotGeneral"
        [("lhs_permutation", dbg_permutation (tg_lhs_permutation t));
         ("rhs_permutation", dbg_permutation (tg_rhs_permutation t));
         ("tensordot_fixed_position", dbg_tfp (tg_fixed t));
         ("output_permutation", dbg_permutation (tg_output_permutation t))]
  | OpBroadcastProductGeneral b =>
      dbg_struct "BroadcastProductGeneral"
        [("lhs_permutation", dbg_permutation (bp_lhs_permutation b));
         ("rhs_permutation", dbg_permutation (bp_rhs_permutation b));
         ("lhs_insertions", dbg_nats (bp_lhs_insertions b));
         ("rhs_insertions", dbg_nats (bp_rhs_insertions b));
         ("output_sizes", dbg_nats (bp_output_sizes b));
         ("hadamard_product", dbg_struct "HadamardProduct" [])]
  | OpStackedTensordotGeneral s =>
      dbg_struct "StackedTensordotGeneral"
        [("lhs_permutation", dbg_permutation (st_lhs_permutation s));
         ("rhs_permutation", dbg_permutation (st_rhs_permutation s));
         ("lhs_output_shape", dbg_nats (st_lhs_output_shape s));
         ("rhs_output_shape", dbg_nats (st_rhs_output_shape s));
         ("intermediate_shape", dbg_nats (st_intermediate_shape s));
         ("tensordot_fixed_position", dbg_tfp (st_fixed s));
         ("output_shape", dbg_nats (st_output_shape s));
         ("output_permutation", dbg_permutation (st_output_permutation s))]
  end.

(** ** Hand-written implementations *)

(** contractors/mod.rs:174-182 [Debug for SingletonContraction]. *)
Definition dbg_singleton_contraction (c : singleton_contraction) : list char :=
  chars "SingletonContraction { method: " ++ dbg_singleton_method (sgl_method c)
  ++ chars ", op: " ++ dbg_singleton_op (sgl_op c) ++ chars " }".

(** contractors/mod.rs:236-244 [Debug for SimplificationMethodAndOutput], which calls itself a
    SingletonContraction. *)
Definition dbg_simplification (s : simplification) : list char :=
  chars "SingletonContraction { method: " ++ dbg_singleton_method (simpl_method s)
  ++ chars ", op: " ++ dbg_singleton_op (simpl_op s)
  ++ chars ", new_indices: " ++ dbg_list dbg_char (simpl_new_indices s)
  ++ chars ", einsum_string: " ++ dbg_string (simpl_einsum_string s) ++ chars " }".

(** contractors/mod.rs:381-398 [Debug for PairContraction]. The format string ends after the last
    field. *)
Definition dbg_pair_contraction (p : pair_contraction) : list char :=
  chars "PairContraction { lhs_simplification: " ++ dbg_option dbg_simplification (pc_lhs_simplification p)
  ++ chars ", rhs_simplification: " ++ dbg_option dbg_simplification (pc_rhs_simplification p)
  ++ chars ", method: " ++ dbg_pair_method (pc_method p)
  ++ chars ", op: " ++ dbg_pair_op (pc_op p)
  ++ chars ", simplified_einsum_string: " ++ dbg_string (pc_string p).

(** contractors/mod.rs:494-501 [Debug for EinsumPath]. *)
Definition dbg_path (p : einsum_path) : list char :=
  match path_steps p with
  | StepsSingleton c => chars "only_step: " ++ dbg_singleton_contraction c
  | StepsPairs l => chars "steps: " ++ dbg_list dbg_pair_contraction l
  end.

(** contractors/mod.rs:403-413 [EinsumPathSteps], derived. *)
Definition dbg_steps (s : einsum_path_steps) : list char :=
  match s with
  | StepsSingleton c => dbg_variant "SingletonContraction" (dbg_singleton_contraction c)
  | StepsPairs l => dbg_variant "PairContractions" (dbg_list dbg_pair_contraction l)
  end.
