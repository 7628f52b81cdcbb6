(** Model of the derived [Serialize] and [Deserialize] implementations (feature "serde"). No proofs in
    this file.

    The derives expand to calls into serde's data model. [data] is what a derived [Serialize] hands to a
    format, and [input] is what a format hands to a derived [Deserialize]. Formats are not modelled:
    [presents] says what a format may do between the two. An error is [None], without its text. *)
From Verif Require Import Base NDArray Validation Optimizers Strategies Singleton Pair Path.
From Coq Require String.
Import String.StringSyntax.
Local Open Scope string_scope.
Local Open Scope list_scope.

(** ** serde's data model *)

(** What is written. A variant has its enum, its number, its name and what it holds
    [validation.rs:57-71]. *)
Inductive data :=
| DNum (n : nat)
| DChar (c : char)
| DStr (s : list char)
| DOption (o : option data)
| DSeq (l : list data)
| DMap (l : list (data * data))
| DStruct (name : list char) (fields : list (list char * data))
| DVariant (enum : list char) (number : nat) (variant : list char) (content : option data).

(** What is read. Structs are read as maps or as sequences [validation.rs:57-71]. *)
Inductive input :=
| INum (n : nat)
| IChar (c : char)
| IStr (s : list char)
| IOption (o : option input)
| ISeq (l : list input)
| IMap (l : list (input * input))
| IVariant (variant : list char + nat) (content : option input).

(** ** std types *)

(** [usize]: any number is taken to fit [optimizers.rs:24-29]. *)

Definition ser_num (n : nat) : data := DNum n.

(** [Deserialize] of [usize], a field for example of optimizers.rs:24-29. *)
Definition de_num (v : input) : option nat := match v with INum n => Some n | _ => None end.

(** [char]: a string of one character is read as well [validation.rs:57-71]. *)

Definition ser_char (c : char) : data := DChar c.

(** [Deserialize] of [char], a field for example of validation.rs:57-71. *)
Definition de_char (v : input) : option char :=
  match v with IChar c => Some c | IStr [c] => Some c | _ => None end.

(** [String] and [Option], only written [validation.rs:57-71]. *)

Definition ser_string (s : list char) : data := DStr s.

(** [Serialize] of an [Option], a field for example of contractors/mod.rs:266-267. *)

Definition ser_option {T : Type} (f : T -> data) (o : option T) : data := DOption (option_map f o).

(** Reading the elements of a [Vec] until one fails, for example of validation.rs:57-71. *)
Fixpoint mapO {T U : Type} (f : T -> option U) (l : list T) : option (list U) :=
  match l with
  | [] => Some []
  | x :: l' =>
      match f x with
      | None => None
      | Some y => match mapO f l' with None => None | Some ys => Some (y :: ys) end
      end
  end.

(** [Vec] [validation.rs:57-71]. *)

Definition ser_vec {T : Type} (f : T -> data) (l : list T) : data := DSeq (map f l).

(** [Deserialize] of a [Vec], a field for example of validation.rs:57-71. *)
Definition de_vec {T : Type} (f : input -> option T) (v : input) : option (list T) :=
  match v with ISeq l => mapO f l | _ => None end.

(** [HashMap::insert] [validation.rs:159]. *)
Definition map_insert (m : output_size_map) (cn : char * nat) : output_size_map :=
  cn :: filter (fun x => negb (N.eqb (fst x) (fst cn))) m.

(** [HashMap<char, usize>]: written in the order of the hash map, and read by inserting the entries
    [validation.rs:159]. *)

Definition ser_map (h : hash_order) (k : key) (m : output_size_map) : data :=
  DMap (flat_map (fun c => match lookup c m with Some n => [(ser_char c, ser_num n)] | None => [] end)
          (h k (distinct (map fst m)))).

(** An entry of [OutputSize] [validation.rs:159]. *)

Definition de_entry (kv : input * input) : option (char * nat) :=
  match de_char (fst kv), de_num (snd kv) with
  | Some c, Some n => Some (c, n)
  | _, _ => None
  end.

(** [Deserialize] of [OutputSize] [validation.rs:159,211-216]. *)
Definition de_map (v : input) : option output_size_map :=
  match v with
  | IMap l => match mapO de_entry l with Some es => Some (fold_left map_insert es []) | None => None end
  | _ => None
  end.

(** ** Derived implementations *)

(** [serialize_struct]: the fields in order. Fields marked [serde(skip)] are left out
    [validation.rs:57-71]. *)
Definition ser_struct (name : String.string) (fields : list (String.string * data)) : data :=
  DStruct (chars name) (map (fun nd => (chars (fst nd), snd nd)) fields).

(** The identifier of a field: [None] for an error, [Some None] for a field that is not known, which
    is ignored [validation.rs:57-71]. *)
Definition field_number (names : list String.string) (k : input) : option (option nat) :=
  match k with
  | INum i => Some (if Nat.ltb i (length names) then Some i else None)
  | IStr s => Some (find (fun i => match nth_error names i with
                                   | Some n => chars_eqb (chars n) s | None => false end)
                      (seq 0 (length names)))
  | _ => None
  end.

(** The value of field [i]: given once, or an error [validation.rs:57-71]. *)
Definition field_value (entries : list (option nat * input)) (i : nat) : option input :=
  match filter (fun e => match fst e with Some j => Nat.eqb i j | None => false end) entries with
  | [e] => Some (snd e)
  | _ => None
  end.

(** [visit_map] and [visit_seq] of a struct: the values of its fields. Elements of a sequence after
    those of the fields are left to the format [validation.rs:57-71]. *)
Definition fields (names : list String.string) (v : input) : option (list input) :=
  match v with
  | IMap l =>
      match mapO (fun kv => match field_number names (fst kv) with
                            | Some i => Some (i, snd kv) | None => None end) l with
      | Some entries => mapO (field_value entries) (seq 0 (length names))
      | None => None
      end
  | ISeq l => mapO (nth_error l) (seq 0 (length names))
  | _ => None
  end.

(** [serialize_unit_variant] and [serialize_newtype_variant] [optimizers.rs:24-29]. *)
Definition ser_variant (enum : String.string) (number : nat) (variant : String.string) (content : option data) : data :=
  DVariant (chars enum) number (chars variant) content.

(** The variant of an enum, and what it holds [optimizers.rs:24-29]. *)
Definition variant (names : list String.string) (v : input) : option (nat * option input) :=
  match v with
  | IVariant (inr i) c => if Nat.ltb i (length names) then Some (i, c) else None
  | IVariant (inl s) c =>
      match field_number names (IStr s) with Some (Some i) => Some (i, c) | _ => None end
  | _ => None
  end.

(** An enum of which no variant holds anything [strategies.rs:30-39]. *)

Definition ser_unit (enum : String.string) (names : list String.string) (i : nat) : data :=
  ser_variant enum i (nth i names "") None.

(** [Deserialize] of an enum without contents, for example strategies.rs:30-39. *)
Definition de_unit (names : list String.string) (v : input) : option nat :=
  match variant names v with Some (i, None) => Some i | _ => None end.

(** ** validation.rs *)

(** validation.rs:57-71 [Contraction]. *)

Definition contraction_fields : list String.string := ["operand_indices"; "output_indices"; "summation_indices"].

(** [Serialize] of [Contraction], validation.rs:57-71. *)

Definition ser_contraction (c : contraction) : data :=
  ser_struct "Contraction" (combine contraction_fields
    [ser_vec (ser_vec ser_char) (operand_indices c); ser_vec ser_char (output_indices c);
     ser_vec ser_char (summation_indices c)]).

(** [Deserialize] of [Contraction], validation.rs:57-71. *)
Definition de_contraction (v : input) : option contraction :=
  match fields contraction_fields v with
  | Some [a; b; c] =>
      match de_vec (de_vec de_char) a, de_vec de_char b, de_vec de_char c with
      | Some x, Some y, Some z => Some (mkContraction x y z)
      | _, _, _ => None
      end
  | _ => None
  end.

(** validation.rs:211-216 [SizedContraction]. *)

Definition sized_fields : list String.string := ["contraction"; "output_size"].

(** [Serialize] of [SizedContraction], validation.rs:211-216. *)

Definition ser_sized (h : hash_order) (k : key) (sc : sized_contraction) : data :=
  ser_struct "SizedContraction" (combine sized_fields
    [ser_contraction (sc_contraction sc); ser_map h k (sc_output_size sc)]).

(** [Deserialize] of [SizedContraction], validation.rs:211-216. *)
Definition de_sized (v : input) : option sized_contraction :=
  match fields sized_fields v with
  | Some [a; b] =>
      match de_contraction a, de_map b with
      | Some c, Some m => Some (mkSized c m)
      | _, _ => None
      end
  | _ => None
  end.

(** ** optimizers.rs *)

(** optimizers.rs:24-29 [OperandNumber]. *)

Definition operand_number_names : list String.string := ["Input"; "IntermediateResult"].

(** [Serialize] of [OperandNumber], optimizers.rs:24-29. *)

Definition ser_operand_number (o : operand_number) : data :=
  match o with
  | Input n => ser_variant "OperandNumber" 0 "Input" (Some (ser_num n))
  | IntermediateResult n => ser_variant "OperandNumber" 1 "IntermediateResult" (Some (ser_num n))
  end.

(** [Deserialize] of [OperandNumber], optimizers.rs:24-29. *)
Definition de_operand_number (v : input) : option operand_number :=
  match variant operand_number_names v with
  | Some (0, Some d) => option_map Input (de_num d)
  | Some (1, Some d) => option_map IntermediateResult (de_num d)
  | _ => None
  end.

(** optimizers.rs:32-37 [OperandNumPair], as a pair. *)

Definition operand_pair_fields : list String.string := ["lhs"; "rhs"].

(** [Serialize] of [OperandNumPair], optimizers.rs:32-37. *)

Definition ser_operand_pair (lr : operand_number * operand_number) : data :=
  ser_struct "OperandNumPair" (combine operand_pair_fields
    [ser_operand_number (fst lr); ser_operand_number (snd lr)]).

(** [Deserialize] of [OperandNumPair], optimizers.rs:32-37. *)
Definition de_operand_pair (v : input) : option (operand_number * operand_number) :=
  match fields operand_pair_fields v with
  | Some [a; b] =>
      match de_operand_number a, de_operand_number b with
      | Some l, Some r => Some (l, r)
      | _, _ => None
      end
  | _ => None
  end.

(** optimizers.rs:41-49 [Pair]. *)

Definition pair_fields : list String.string := ["sized_contraction"; "operand_nums"].

(** [Serialize] of [Pair], optimizers.rs:41-49. *)

Definition ser_pair (h : hash_order) (k : key) (p : pair_step) : data :=
  ser_struct "Pair" (combine pair_fields
    [ser_sized h k (ps_sc p); ser_operand_pair (ps_lhs p, ps_rhs p)]).

(** [Deserialize] of [Pair], optimizers.rs:41-49. *)
Definition de_pair (v : input) : option pair_step :=
  match fields pair_fields v with
  | Some [a; b] =>
      match de_sized a, de_operand_pair b with
      | Some sc, Some lr => Some (mkPair sc (fst lr) (snd lr))
      | _, _ => None
      end
  | _ => None
  end.

(** optimizers.rs:55-64 [ContractionOrder]. The map of step [i] has key [i :: k]. *)

Definition order_names : list String.string := ["Singleton"; "Pairs"].

(** [Serialize] of [ContractionOrder], optimizers.rs:55-64. *)

Definition ser_order (h : hash_order) (k : key) (o : contraction_order) : data :=
  match o with
  | Singleton sc => ser_variant "ContractionOrder" 0 "Singleton" (Some (ser_sized h k sc))
  | Pairs steps =>
      ser_variant "ContractionOrder" 1 "Pairs"
        (Some (ser_vec (fun ip => ser_pair h (fst ip :: k) (snd ip)) (combine (seq 0 (length steps)) steps)))
  end.

(** [Deserialize] of [ContractionOrder], optimizers.rs:55-64. *)
Definition de_order (v : input) : option contraction_order :=
  match variant order_names v with
  | Some (0, Some d) => option_map Singleton (de_sized d)
  | Some (1, Some d) => option_map Pairs (de_vec de_pair d)
  | _ => None
  end.

(** optimizers.rs:69-89 [OptimizationMethod]. *)

Definition optimization_names : list String.string := ["Naive"; "Reverse"; "Greedy"; "Optimal"; "Branch"].

(** [Serialize] of [OptimizationMethod], optimizers.rs:69-89. *)

Definition ser_optimization (m : optimization_method) : data :=
  ser_unit "OptimizationMethod" optimization_names
    match m with Naive => 0 | Reverse => 1 | Greedy => 2 | Optimal => 3 | Branch => 4 end.

(** [Deserialize] of [OptimizationMethod], optimizers.rs:69-89. *)
Definition de_optimization (v : input) : option optimization_method :=
  match de_unit optimization_names v with
  | Some i => nth_error [Naive; Reverse; Greedy; Optimal; Branch] i
  | None => None
  end.

(** ** contractors/strategies.rs *)

(** strategies.rs:30-39 [SingletonMethod]. *)

Definition singleton_method_names : list String.string :=
  ["Identity"; "Permutation"; "Summation"; "Diagonalization"; "PermutationAndSummation";
   "DiagonalizationAndSummation"].

(** [Serialize] of [SingletonMethod], strategies.rs:30-39. *)

Definition ser_singleton_method (m : singleton_method) : data :=
  ser_unit "SingletonMethod" singleton_method_names
    match m with
    | MIdentity => 0 | MPermutation => 1 | MSummation => 2 | MDiagonalization => 3
    | MPermutationAndSummation => 4 | MDiagonalizationAndSummation => 5
    end.

(** [Deserialize] of [SingletonMethod], strategies.rs:30-39. *)
Definition de_singleton_method (v : input) : option singleton_method :=
  match de_unit singleton_method_names v with
  | Some i =>
      nth_error [MIdentity; MPermutation; MSummation; MDiagonalization; MPermutationAndSummation;
                 MDiagonalizationAndSummation] i
  | None => None
  end.

(** strategies.rs:41-47 [SingletonSummary]. *)

Definition singleton_summary_fields : list String.string :=
  ["num_summed_axes"; "num_diagonalized_axes"; "num_reordered_axes"].

(** [Serialize] of [SingletonSummary], strategies.rs:41-47. *)

Definition ser_singleton_summary (s : singleton_summary) : data :=
  ser_struct "SingletonSummary" (combine singleton_summary_fields
    [ser_num (num_summed_axes s); ser_num (num_diagonalized_axes s); ser_num (num_reordered_axes s)]).

(** [Deserialize] of [SingletonSummary], strategies.rs:41-47. *)
Definition de_singleton_summary (v : input) : option singleton_summary :=
  match fields singleton_summary_fields v with
  | Some [a; b; c] =>
      match de_num a, de_num b, de_num c with
      | Some x, Some y, Some z => Some (mkSingletonSummary x y z)
      | _, _, _ => None
      end
  | _ => None
  end.

(** strategies.rs:95-108 [PairMethod]. *)

Definition pair_method_names : list String.string :=
  ["HadamardProduct"; "HadamardProductGeneral"; "TensordotFixedPosition"; "TensordotGeneral";
   "ScalarMatrixProduct"; "ScalarMatrixProductGeneral"; "MatrixScalarProduct";
   "MatrixScalarProductGeneral"; "BroadcastProductGeneral"; "StackedTensordotGeneral"].

(** [Serialize] of [PairMethod], strategies.rs:95-108. *)

Definition ser_pair_method (m : pair_method) : data :=
  ser_unit "PairMethod" pair_method_names
    match m with
    | MHadamardProduct => 0 | MHadamardProductGeneral => 1 | MTensordotFixedPosition => 2
    | MTensordotGeneral => 3 | MScalarMatrixProduct => 4 | MScalarMatrixProductGeneral => 5
    | MMatrixScalarProduct => 6 | MMatrixScalarProductGeneral => 7 | MBroadcastProductGeneral => 8
    | MStackedTensordotGeneral => 9
    end.

(** [Deserialize] of [PairMethod], strategies.rs:95-108. *)
Definition de_pair_method (v : input) : option pair_method :=
  match de_unit pair_method_names v with
  | Some i =>
      nth_error [MHadamardProduct; MHadamardProductGeneral; MTensordotFixedPosition; MTensordotGeneral;
                 MScalarMatrixProduct; MScalarMatrixProductGeneral; MMatrixScalarProduct;
                 MMatrixScalarProductGeneral; MBroadcastProductGeneral; MStackedTensordotGeneral] i
  | None => None
  end.

(** strategies.rs:110-117 [PairSummary]. *)

Definition pair_summary_fields : list String.string :=
  ["num_stacked_axes"; "num_lhs_outer_axes"; "num_rhs_outer_axes"; "num_contracted_axes"].

(** [Serialize] of [PairSummary], strategies.rs:110-117. *)

Definition ser_pair_summary (s : pair_summary) : data :=
  ser_struct "PairSummary" (combine pair_summary_fields
    [ser_num (num_stacked_axes s); ser_num (num_lhs_outer_axes s); ser_num (num_rhs_outer_axes s);
     ser_num (num_contracted_axes s)]).

(** [Deserialize] of [PairSummary], strategies.rs:110-117. *)
Definition de_pair_summary (v : input) : option pair_summary :=
  match fields pair_summary_fields v with
  | Some [a; b; c; d] =>
      match de_num a, de_num b, de_num c, de_num d with
      | Some x, Some y, Some z, Some w => Some (mkPairSummary x y z w)
      | _, _, _, _ => None
      end
  | _ => None
  end.

(** ** contractors/singleton_contractors.rs *)

(** [Identity] (35-37), [HadamardProduct] (pair_contractors.rs:405-407), [ScalarMatrixProduct]
    (503-505) and [MatrixScalarProduct] (602-604): structs without fields. *)

Definition ser_empty (name : String.string) (_ : unit) : data := ser_struct name [].

(** [Deserialize] of a struct without fields, for example singleton_contractors.rs:35-37. *)
Definition de_empty (v : input) : option unit :=
  match fields [] v with Some _ => Some tt | None => None end.

(** singleton_contractors.rs:68-72 [Permutation]. *)

Definition permutation_fields : list String.string := ["permutation"].

(** [Serialize] of [Permutation], singleton_contractors.rs:68-72. *)

Definition ser_permutation (p : permutation) : data :=
  ser_struct "Permutation" (combine permutation_fields [ser_vec ser_num p]).

(** [Deserialize] of [Permutation], singleton_contractors.rs:68-72. *)
Definition de_permutation (v : input) : option permutation :=
  match fields permutation_fields v with
  | Some [a] => de_vec de_num a
  | _ => None
  end.

(** singleton_contractors.rs:130-135 [Summation]. *)

Definition summation_fields : list String.string := ["orig_axis_list"; "adjusted_axis_list"].

(** [Serialize] of [Summation], singleton_contractors.rs:130-135. *)

Definition ser_summation (s : summation) : data :=
  ser_struct "Summation" (combine summation_fields
    [ser_vec ser_num (orig_axis_list s); ser_vec ser_num (adjusted_axis_list s)]).

(** [Deserialize] of [Summation], singleton_contractors.rs:130-135. *)
Definition de_summation (v : input) : option summation :=
  match fields summation_fields v with
  | Some [a; b] =>
      match de_vec de_num a, de_vec de_num b with
      | Some x, Some y => Some (mkSummation x y)
      | _, _ => None
      end
  | _ => None
  end.

(** singleton_contractors.rs:181-186 [Diagonalization]. *)

Definition diagonalization_fields : list String.string := ["input_to_output_mapping"; "output_shape"].

(** [Serialize] of [Diagonalization], singleton_contractors.rs:181-186. *)

Definition ser_diagonalization (d : diagonalization) : data :=
  ser_struct "Diagonalization" (combine diagonalization_fields
    [ser_vec ser_num (input_to_output_mapping d); ser_vec ser_num (diag_output_shape d)]).

(** [Deserialize] of [Diagonalization], singleton_contractors.rs:181-186. *)
Definition de_diagonalization (v : input) : option diagonalization :=
  match fields diagonalization_fields v with
  | Some [a; b] =>
      match de_vec de_num a, de_vec de_num b with
      | Some x, Some y => Some (mkDiag x y)
      | _, _ => None
      end
  | _ => None
  end.

(** singleton_contractors.rs:269-274 [PermutationAndSummation]. *)

Definition perm_and_sum_fields : list String.string := ["permutation"; "summation"].

(** [Serialize] of [PermutationAndSummation], singleton_contractors.rs:269-274. *)

Definition ser_perm_and_sum (ps : permutation * summation) : data :=
  ser_struct "PermutationAndSummation" (combine perm_and_sum_fields
    [ser_permutation (fst ps); ser_summation (snd ps)]).

(** [Deserialize] of [PermutationAndSummation], singleton_contractors.rs:269-274. *)
Definition de_perm_and_sum (v : input) : option (permutation * summation) :=
  match fields perm_and_sum_fields v with
  | Some [a; b] =>
      match de_permutation a, de_summation b with
      | Some p, Some s => Some (p, s)
      | _, _ => None
      end
  | _ => None
  end.

(** singleton_contractors.rs:326-331 [DiagonalizationAndSummation]. *)

Definition diag_and_sum_fields : list String.string := ["diagonalization"; "summation"].

(** [Serialize] of [DiagonalizationAndSummation], singleton_contractors.rs:326-331. *)

Definition ser_diag_and_sum (ds : diagonalization * summation) : data :=
  ser_struct "DiagonalizationAndSummation" (combine diag_and_sum_fields
    [ser_diagonalization (fst ds); ser_summation (snd ds)]).

(** [Deserialize] of [DiagonalizationAndSummation], singleton_contractors.rs:326-331. *)
Definition de_diag_and_sum (v : input) : option (diagonalization * summation) :=
  match fields diag_and_sum_fields v with
  | Some [a; b] =>
      match de_diagonalization a, de_summation b with
      | Some d, Some s => Some (d, s)
      | _, _ => None
      end
  | _ => None
  end.

(** ** contractors/pair_contractors.rs *)

(** pair_contractors.rs:94-111 [TensordotFixedPosition]. *)

Definition tfp_fields : list String.string :=
  ["len_uncontracted_lhs"; "len_uncontracted_rhs"; "len_contracted_axes"; "output_shape"].

(** [Serialize] of [TensordotFixedPosition], pair_contractors.rs:94-111. *)

Definition ser_tfp (t : tensordot_fixed) : data :=
  ser_struct "TensordotFixedPosition" (combine tfp_fields
    [ser_num (len_uncontracted_lhs t); ser_num (len_uncontracted_rhs t); ser_num (len_contracted_axes t);
     ser_vec ser_num (tfp_output_shape t)]).

(** [Deserialize] of [TensordotFixedPosition], pair_contractors.rs:94-111. *)
Definition de_tfp (v : input) : option tensordot_fixed :=
  match fields tfp_fields v with
  | Some [a; b; c; d] =>
      match de_num a, de_num b, de_num c, de_vec de_num d with
      | Some x, Some y, Some z, Some w => Some (mkTFP x y z w)
      | _, _, _, _ => None
      end
  | _ => None
  end.

(** pair_contractors.rs:238-245 [TensordotGeneral]. *)

Definition tg_fields : list String.string :=
  ["lhs_permutation"; "rhs_permutation"; "tensordot_fixed_position"; "output_permutation"].

(** [Serialize] of [TensordotGeneral], pair_contractors.rs:238-245. *)

Definition ser_tg (t : tensordot_general) : data :=
  ser_struct "TensordotGeneral" (combine tg_fields
    [ser_permutation (tg_lhs_permutation t); ser_permutation (tg_rhs_permutation t); ser_tfp (tg_fixed t);
     ser_permutation (tg_output_permutation t)]).

(** [Deserialize] of [TensordotGeneral], pair_contractors.rs:238-245. *)
Definition de_tg (v : input) : option tensordot_general :=
  match fields tg_fields v with
  | Some [a; b; c; d] =>
      match de_permutation a, de_permutation b, de_tfp c, de_permutation d with
      | Some x, Some y, Some z, Some w => Some (mkTG x y z w)
      | _, _, _, _ => None
      end
  | _ => None
  end.

(** pair_contractors.rs:448-454 [HadamardProductGeneral], as the two permutations. *)

Definition hadamard_general_fields : list String.string :=
  ["lhs_permutation"; "rhs_permutation"; "hadamard_product"].

(** [Serialize] of [HadamardProductGeneral], pair_contractors.rs:448-454. *)

Definition ser_hadamard_general (pp : permutation * permutation) : data :=
  ser_struct "HadamardProductGeneral" (combine hadamard_general_fields
    [ser_permutation (fst pp); ser_permutation (snd pp); ser_empty "HadamardProduct" tt]).

(** [Deserialize] of [HadamardProductGeneral], pair_contractors.rs:448-454. *)
Definition de_hadamard_general (v : input) : option (permutation * permutation) :=
  match fields hadamard_general_fields v with
  | Some [a; b; c] =>
      match de_permutation a, de_permutation b, de_empty c with
      | Some x, Some y, Some _ => Some (x, y)
      | _, _, _ => None
      end
  | _ => None
  end.

(** pair_contractors.rs:547-552 [ScalarMatrixProductGeneral], as the permutation. *)

Definition scalar_general_fields : list String.string := ["rhs_permutation"; "scalar_matrix_product"].

(** [Serialize] of [ScalarMatrixProductGeneral], pair_contractors.rs:547-552. *)

Definition ser_scalar_general (p : permutation) : data :=
  ser_struct "ScalarMatrixProductGeneral" (combine scalar_general_fields
    [ser_permutation p; ser_empty "ScalarMatrixProduct" tt]).

(** [Deserialize] of [ScalarMatrixProductGeneral], pair_contractors.rs:547-552. *)
Definition de_scalar_general (v : input) : option permutation :=
  match fields scalar_general_fields v with
  | Some [a; b] =>
      match de_permutation a, de_empty b with
      | Some x, Some _ => Some x
      | _, _ => None
      end
  | _ => None
  end.

(** pair_contractors.rs:646-651 [MatrixScalarProductGeneral], as the permutation. *)

Definition matrix_general_fields : list String.string := ["lhs_permutation"; "matrix_scalar_product"].

(** [Serialize] of [MatrixScalarProductGeneral], pair_contractors.rs:646-651. *)

Definition ser_matrix_general (p : permutation) : data :=
  ser_struct "MatrixScalarProductGeneral" (combine matrix_general_fields
    [ser_permutation p; ser_empty "MatrixScalarProduct" tt]).

(** [Deserialize] of [MatrixScalarProductGeneral], pair_contractors.rs:646-651. *)
Definition de_matrix_general (v : input) : option permutation :=
  match fields matrix_general_fields v with
  | Some [a; b] =>
      match de_permutation a, de_empty b with
      | Some x, Some _ => Some x
      | _, _ => None
      end
  | _ => None
  end.

(** pair_contractors.rs:705-714 [BroadcastProductGeneral]. *)

Definition broadcast_fields : list String.string :=
  ["lhs_permutation"; "rhs_permutation"; "lhs_insertions"; "rhs_insertions"; "output_sizes";
   "hadamard_product"].

(** [Serialize] of [BroadcastProductGeneral], pair_contractors.rs:705-714. *)

Definition ser_broadcast (b : broadcast_product) : data :=
  ser_struct "BroadcastProductGeneral" (combine broadcast_fields
    [ser_permutation (bp_lhs_permutation b); ser_permutation (bp_rhs_permutation b);
     ser_vec ser_num (bp_lhs_insertions b); ser_vec ser_num (bp_rhs_insertions b);
     ser_vec ser_num (bp_output_sizes b); ser_empty "HadamardProduct" tt]).

(** [Deserialize] of [BroadcastProductGeneral], pair_contractors.rs:705-714. *)
Definition de_broadcast (v : input) : option broadcast_product :=
  match fields broadcast_fields v with
  | Some [a; b; c; d; e; f] =>
      match de_permutation a, de_permutation b, de_vec de_num c, de_vec de_num d, de_vec de_num e,
            de_empty f with
      | Some x, Some y, Some z, Some w, Some u, Some _ => Some (mkBP x y z w u)
      | _, _, _, _, _, _ => None
      end
  | _ => None
  end.

(** pair_contractors.rs:811-822 [StackedTensordotGeneral]. *)

Definition stacked_fields : list String.string :=
  ["lhs_permutation"; "rhs_permutation"; "lhs_output_shape"; "rhs_output_shape"; "intermediate_shape";
   "tensordot_fixed_position"; "output_shape"; "output_permutation"].

(** [Serialize] of [StackedTensordotGeneral], pair_contractors.rs:811-822. *)

Definition ser_stacked (s : stacked_tensordot) : data :=
  ser_struct "StackedTensordotGeneral" (combine stacked_fields
    [ser_permutation (st_lhs_permutation s); ser_permutation (st_rhs_permutation s);
     ser_vec ser_num (st_lhs_output_shape s); ser_vec ser_num (st_rhs_output_shape s);
     ser_vec ser_num (st_intermediate_shape s); ser_tfp (st_fixed s);
     ser_vec ser_num (st_output_shape s); ser_permutation (st_output_permutation s)]).

(** [Deserialize] of [StackedTensordotGeneral], pair_contractors.rs:811-822. *)
Definition de_stacked (v : input) : option stacked_tensordot :=
  match fields stacked_fields v with
  | Some [a; b; c; d; e; f; g; i] =>
      match de_permutation a, de_permutation b, de_vec de_num c, de_vec de_num d, de_vec de_num e,
            de_tfp f, de_vec de_num g, de_permutation i with
      | Some x, Some y, Some z, Some w, Some u, Some t, Some s, Some r => Some (mkST x y z w u t s r)
      | _, _, _, _, _, _, _, _ => None
      end
  | _ => None
  end.

(** ** contractors/mod.rs: only [Serialize] is derived, and the boxed contractors are skipped *)

(** contractors/mod.rs:134-139 [SingletonContraction]. *)
Definition ser_singleton_contraction (s : singleton_contraction) : data :=
  ser_struct "SingletonContraction" [("method", ser_singleton_method (sgl_method s))].

(** contractors/mod.rs:185-192 [SimplificationMethodAndOutput]. *)
Definition ser_simplification (s : simplification) : data :=
  ser_struct "SimplificationMethodAndOutput"
    [("method", ser_singleton_method (simpl_method s));
     ("new_indices", ser_vec ser_char (simpl_new_indices s));
     ("einsum_string", ser_string (simpl_einsum_string s))].

(** contractors/mod.rs:264-272 [PairContraction]. *)
Definition ser_pair_contraction (p : pair_contraction) : data :=
  ser_struct "PairContraction"
    [("lhs_simplification", ser_option ser_simplification (pc_lhs_simplification p));
     ("rhs_simplification", ser_option ser_simplification (pc_rhs_simplification p));
     ("method", ser_pair_method (pc_method p));
     ("simplified_einsum_string", ser_string (pc_string p))].

(** contractors/mod.rs:402-413 [EinsumPathSteps]. *)
Definition ser_steps (s : einsum_path_steps) : data :=
  match s with
  | StepsSingleton c =>
      ser_variant "EinsumPathSteps" 0 "SingletonContraction" (Some (ser_singleton_contraction c))
  | StepsPairs l =>
      ser_variant "EinsumPathSteps" 1 "PairContractions" (Some (ser_vec ser_pair_contraction l))
  end.

(** contractors/mod.rs:421-428 [EinsumPath]. *)

Definition path_fields : list String.string := ["contraction_order"; "steps"].

(** [Serialize] of [EinsumPath], contractors/mod.rs:421-428. *)
Definition ser_path (h : hash_order) (k : key) (p : einsum_path) : data :=
  ser_struct "EinsumPath" (combine path_fields [ser_order h k (path_order p); ser_steps (path_steps p)]).
