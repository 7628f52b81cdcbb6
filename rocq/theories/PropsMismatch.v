(** Contractors and compiled paths given operands of other shapes (C51). *)
From Verif Require Import Base BaseFacts NDArray Validation Optimizers Strategies Singleton Pair Path Api Spec ArrayFacts
  TensordotMain MismatchFacts Examples.
From Coq Require Import Lia.
From Coq Require String.
Import String.StringSyntax.
Local Open Scope string_scope.
Local Open Scope list_scope.

(** A compiled path does not keep the shapes it was compiled for; each contractor takes any array.
    The theorems say for every operand whether the contractor panics and what it returns
    otherwise. *)

(** HadamardProduct broadcasts its operands, as ndarray's [*] does. [source] is the position of the
    element that is repeated. *)
Theorem hadamard_product_of_any_operands :
  forall (A : Type) (Sc : Scalar A) lay (a b : arr A), backend_runs lay -> wf a -> wf b ->
    (forall sh, common (rev (a_shape a)) (rev (a_shape b)) (rev sh) ->
       exists r, run_pair lay OpHadamardProduct a b = Ok r
         /\ holds r sh (fun idx => smul (elem a (source (a_shape a) idx)) (elem b (source (a_shape b) idx))))
    /\ ((forall sh, ~ common (rev (a_shape a)) (rev (a_shape b)) (rev sh)) ->
        run_pair lay OpHadamardProduct a b = Panic).
Proof. intros A Sc lay a b Hlay. apply hadamard_any; auto. Qed.
Print Assumptions hadamard_product_of_any_operands.

(** A column and a row; a vector and a number; two vectors of different lengths. *)
Example hadamard_product_cases :
  common (rev [2; 1]) (rev [3]) (rev [2; 3])
  /\ run_pair c_backend OpHadamardProduct (zarr [2; 1] [1; 2]%Z) (zarr [3] [3; 4; 5]%Z)
     = Ok (zarr [2; 3] [3; 4; 5; 6; 8; 10]%Z)
  /\ run_pair c_backend OpHadamardProduct (zarr [3] [1; 2; 3]%Z) (zarr [] [2]%Z) = Ok (zarr [3] [2; 4; 6]%Z)
  /\ run_pair c_backend OpHadamardProduct (zarr [2] [1; 2]%Z) (zarr [3] [3; 4; 5]%Z) = Panic.
Proof.
  split; [|repeat split; vm_compute; reflexivity].
  simpl. apply common_one_left. apply common_right.
Qed.

(** The products with a number use the first element of the operand in the number's place. *)
Theorem scalar_products_of_any_operands :
  forall (A : Type) (Sc : Scalar A) lay (a b : arr A), backend_runs lay -> wf a -> wf b ->
    (~ In 0 (a_shape a) ->
       exists r, run_pair lay OpScalarMatrixProduct a b = Ok r
         /\ holds r (a_shape b) (fun idx => smul (elem b idx) (elem a (map (fun _ => 0) (a_shape a)))))
    /\ (In 0 (a_shape a) -> run_pair lay OpScalarMatrixProduct a b = Panic)
    /\ (~ In 0 (a_shape b) ->
       exists r, run_pair lay OpMatrixScalarProduct a b = Ok r
         /\ holds r (a_shape a) (fun idx => smul (elem a idx) (elem b (map (fun _ => 0) (a_shape b)))))
    /\ (In 0 (a_shape b) -> run_pair lay OpMatrixScalarProduct a b = Panic).
Proof.
  intros A Sc lay a b Hlay Wa Wb.
  destruct (scalar_matrix_any lay Hlay a b Wa Wb). destruct (matrix_scalar_any lay Hlay a b Wa Wb). auto.
Qed.
Print Assumptions scalar_products_of_any_operands.

Example scalar_product_cases :
  run_pair c_backend OpScalarMatrixProduct (zarr [2; 2] [3; 4; 5; 6]%Z) (zarr [2] [1; 2]%Z) = Ok (zarr [2] [3; 6]%Z)
  /\ run_pair c_backend OpMatrixScalarProduct (zarr [2] [1; 2]%Z) (zarr [0; 2] []) = Panic.
Proof. split; vm_compute; reflexivity. Qed.

(** TensordotFixedPosition reshapes its operands, so only the numbers of elements matter. *)
Theorem fixed_position_products_of_any_operands :
  forall (A : Type) (Sc : Scalar A) lay (t : tensordot_fixed) (a b : arr A),
    near_semiring A -> backend_ok lay -> wf a -> wf b ->
    let m := len_uncontracted_lhs t in let n := len_uncontracted_rhs t in let k := len_contracted_axes t in
    let fine := m * k = fold_right Nat.mul 1 (a_shape a) /\ k * n = fold_right Nat.mul 1 (a_shape b)
      /\ m * n = fold_right Nat.mul 1 (tfp_output_shape t) in
    (fine -> exists r, run_pair lay (OpTensordotFixedPosition t) a b = Ok r
               /\ holds r (tfp_output_shape t) (matrix_product_value t a b))
    /\ (~ fine -> run_pair lay (OpTensordotFixedPosition t) a b = Panic).
Proof. intros A Sc lay t a b SR Hlay Wa Wb. apply (tfp_any lay Hlay SR Hlay t a b Wa Wb). Qed.
Print Assumptions fixed_position_products_of_any_operands.

(** Compiled for 2x3 times 3x2, given 3x2 and 6: read as the matrices it was compiled for. *)
Example fixed_position_product_cases :
  let t := mkTFP 2 2 3 [2; 2] in
  run_pair c_backend (OpTensordotFixedPosition t) (zarr [3; 2] [1; 2; 3; 4; 5; 6]%Z) (zarr [6] [1; 0; 2; -1; 3; 1]%Z)
  = Ok (zarr [2; 2] [14; 1; 32; 1]%Z)
  /\ run_pair c_backend (OpTensordotFixedPosition t) (zarr [2; 2] [1; 2; 3; 4]%Z) (zarr [3; 2] [1; 0; 2; -1; 3; 1]%Z)
     = Panic.
Proof. split; vm_compute; reflexivity. Qed.

(** Permutation takes arrays of the rank it was compiled for; Summation takes all that have the
    axes to be summed, and keeps the axes after them. *)
Theorem rearrangements_of_any_operand :
  forall (A : Type) (Sc : Scalar A) lay p n (a : arr A), backend_runs lay -> Permutation p (seq 0 n) -> wf a ->
    (length (a_shape a) = n ->
       exists r, run_singleton lay (OpPermutation p) a = Ok r
         /\ holds r (axis_lengths (a_shape a) p) (fun idx => elem a (place n p idx)))
    /\ (length (a_shape a) <> n -> run_singleton lay (OpPermutation p) a = Panic).
Proof. intros A Sc lay p n a Hlay. apply permutation_any; auto. Qed.
Print Assumptions rearrangements_of_any_operand.

Theorem sums_of_any_operand :
  forall (A : Type) (Sc : Scalar A) lay start num s (a : arr A), near_semiring A -> backend_runs lay ->
    summation_from_sizes start num = Ok s -> wf a ->
    (start + num <= length (a_shape a) ->
       exists r, run_singleton lay (OpSummation s) a = Ok r
         /\ holds r (firstn start (a_shape a) ++ skipn (start + num) (a_shape a))
              (fun idx => sum_idx (firstn num (skipn start (a_shape a))) (fun z =>
                 elem a (firstn start idx ++ z ++ skipn start idx))))
    /\ (length (a_shape a) < start + num -> run_singleton lay (OpSummation s) a = Panic).
Proof. intros A Sc lay start num s a SR Hlay. apply summation_any; auto. Qed.
Print Assumptions sums_of_any_operand.

Example rearrangement_cases :
  run_singleton c_backend (OpPermutation [1; 0]) (zarr [2; 3] [1; 2; 3; 4; 5; 6]%Z)
  = Ok (zarr [3; 2] [1; 4; 2; 5; 3; 6]%Z)
  /\ run_singleton c_backend (OpPermutation [1; 0]) (zarr [6] [1; 2; 3; 4; 5; 6]%Z) = Panic
  /\ (do s <- summation_from_sizes 1 1; run_singleton c_backend (OpSummation s) (zarr [2; 2; 2] [1; 2; 3; 4; 5; 6; 7; 8]%Z))
     = Ok (zarr [2; 2] [4; 6; 12; 14]%Z)
  /\ (do s <- summation_from_sizes 1 1; run_singleton c_backend (OpSummation s) (zarr [2] [1; 2]%Z)) = Panic.
Proof. repeat split; vm_compute; reflexivity. Qed.

(** ** Compiled paths *)

(** A compiled path that does not panic should return an array of the shape it was compiled for.
    The path of "ij->i" applied to an array with three axes returns one with two. *)
Theorem reused_paths_keep_the_shape_refuted :
  exists s (arrays operands : list (arr Z)) p r r',
    einsum_path_fn id_hash s arrays Naive = Ok p /\ Forall wf arrays /\ Forall wf operands
    /\ length operands = length arrays
    /\ contract_operands c_backend p arrays = Ok r /\ contract_operands c_backend p operands = Ok r'
    /\ length (a_shape r) <> length (a_shape r').
Proof.
  exists (chars "ij->i"), [zarr [3; 2] [1; 2; 3; 4; 5; 6]%Z], [zarr [2; 2; 2] [1; 2; 3; 4; 5; 6; 7; 8]%Z].
  do 3 eexists. split; [vm_compute; reflexivity|]. split; [apply wfs_b_ok; reflexivity|].
  split; [apply wfs_b_ok; reflexivity|]. split; [reflexivity|].
  split; [vm_compute; reflexivity|]. split; [vm_compute; reflexivity|]. vm_compute. discriminate.
Qed.
Print Assumptions reused_paths_keep_the_shape_refuted.

(** Nor should it read operands it cannot line up: the path of "ij,ij->ij" for 2x3 and 2x3 takes a
    row and a column. *)
Example reused_path_broadcasts :
  (do p <- einsum_path_fn id_hash (chars "ij,ij->ij") [zarr [2; 3] [1; 2; 3; 4; 5; 6]%Z; zarr [2; 3] [1; 2; 3; 4; 5; 6]%Z] Naive;
   contract_operands c_backend p [zarr [1; 2] [1; 2]%Z; zarr [2; 1] [3; 4]%Z])
  = Ok (zarr [2; 2] [3; 6; 4; 8]%Z).
Proof. vm_compute. reflexivity. Qed.
