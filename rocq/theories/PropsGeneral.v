(** The contractors that rearrange their operands, given operands of other shapes (C51). *)
From Verif Require Import Base BaseFacts NDArray Validation Optimizers Strategies Singleton Pair Path Api Spec ArrayFacts
  TensordotFacts TensordotMain MismatchFacts DiagAnyFacts DiagMemFacts GeneralFacts ValidationFacts BroadcastAnyFacts Examples.
From Coq Require Import Lia.
From Coq Require String.
Import String.StringSyntax.
Local Open Scope string_scope.
Local Open Scope list_scope.

(** As in PropsMismatch.v: for every operand, whether the contractor panics and what it returns
    otherwise. [place n p idx] undoes the permutation [p] of [n] axes, [nth_permuted a p i] is the
    [i]th element in row-major order once the axes of [a] are permuted, and [product_entry k v f g]
    lists the product of the matrices whose elements in row-major order are [f] and [g]. *)

Theorem general_hadamard_product_of_any_operands :
  forall (A : Type) (Sc : Scalar A) lay pl pr (a b : arr A), backend_runs lay -> wf a -> wf b ->
    let n := length (a_shape a) in let n' := length (a_shape b) in
    let sa := axis_lengths (a_shape a) pl in let sb := axis_lengths (a_shape b) pr in
    let fit := Permutation pl (seq 0 n) /\ Permutation pr (seq 0 n') in
    (fit -> forall sh, common (rev sa) (rev sb) (rev sh) ->
       exists r, run_pair lay (OpHadamardProductGeneral pl pr) a b = Ok r
         /\ holds r sh (fun idx => smul (elem a (place n pl (source sa idx))) (elem b (place n' pr (source sb idx)))))
    /\ (~ fit \/ (forall sh, ~ common (rev sa) (rev sb) (rev sh)) ->
        run_pair lay (OpHadamardProductGeneral pl pr) a b = Panic).
Proof. intros A Sc lay pl pr a b Hlay Wa Wb. apply (hadamard_general_any lay Hlay pl pr a b Wa Wb). Qed.
Print Assumptions general_hadamard_product_of_any_operands.

Theorem general_scalar_products_of_any_operands :
  forall (A : Type) (Sc : Scalar A) lay p (a b : arr A), backend_runs lay -> wf a -> wf b ->
    let n := length (a_shape b) in
    let fine := ~ In 0 (a_shape a) /\ Permutation p (seq 0 n) in
    let value idx := smul (elem b (place n p idx)) (elem a (map (fun _ => 0) (a_shape a))) in
    (fine -> (exists r, run_pair lay (OpScalarMatrixProductGeneral p) a b = Ok r
                /\ holds r (axis_lengths (a_shape b) p) value)
          /\ (exists r, run_pair lay (OpMatrixScalarProductGeneral p) b a = Ok r
                /\ holds r (axis_lengths (a_shape b) p) value))
    /\ (~ fine -> run_pair lay (OpScalarMatrixProductGeneral p) a b = Panic
          /\ run_pair lay (OpMatrixScalarProductGeneral p) b a = Panic).
Proof.
  intros A Sc lay p a b Hlay Wa Wb n fine value.
  destruct (scalar_matrix_general_any lay Hlay p a b Wa Wb) as [S1 S2].
  destruct (matrix_scalar_general_any lay Hlay p b a Wb Wa) as [M1 M2]. split; intros Hf; split.
  - apply S1. exact Hf.
  - apply M1. unfold fine in Hf. tauto.
  - apply S2. exact Hf.
  - apply M2. unfold fine in Hf. tauto.
Qed.
Print Assumptions general_scalar_products_of_any_operands.

Theorem general_products_of_any_operands :
  forall (A : Type) (Sc : Scalar A) lay (t : tensordot_general) (a b : arr A),
    near_semiring A -> backend_ok lay -> wf a -> wf b ->
    let u := len_uncontracted_lhs (tg_fixed t) in let v := len_uncontracted_rhs (tg_fixed t) in
    let k := len_contracted_axes (tg_fixed t) in let sh := tfp_output_shape (tg_fixed t) in
    let fine := Permutation (tg_lhs_permutation t) (seq 0 (length (a_shape a)))
      /\ Permutation (tg_rhs_permutation t) (seq 0 (length (a_shape b)))
      /\ Permutation (tg_output_permutation t) (seq 0 (length sh))
      /\ u * k = fold_right Nat.mul 1 (a_shape a) /\ k * v = fold_right Nat.mul 1 (a_shape b)
      /\ u * v = fold_right Nat.mul 1 sh in
    (fine -> exists r, run_pair lay (OpTensordotGeneral t) a b = Ok r
       /\ holds r (axis_lengths sh (tg_output_permutation t)) (fun idx =>
            product_entry k v (nth_permuted a (tg_lhs_permutation t)) (nth_permuted b (tg_rhs_permutation t))
              (flat sh (place (length sh) (tg_output_permutation t) idx))))
    /\ (~ fine -> run_pair lay (OpTensordotGeneral t) a b = Panic).
Proof. intros A Sc lay t a b SR Hlay Wa Wb. apply (tg_any lay Hlay SR Hlay t a b Wa Wb). Qed.
Print Assumptions general_products_of_any_operands.

(** Every StackedTensordotGeneral that [new] builds multiplies [q] pairs of [u] by [k] and [k] by
    [v] matrices. *)
Theorem stacked_products_of_any_operands :
  forall (A : Type) (Sc : Scalar A) lay sc s, near_semiring A -> backend_ok lay -> stacked_new sc = Ok s ->
    exists q u k v, fold_right Nat.mul 1 (st_output_shape s) = q * (u * v)
    /\ forall a b : arr A, wf a -> wf b ->
      let pl := st_lhs_permutation s in let pr := st_rhs_permutation s in let po := st_output_permutation s in
      let out := st_output_shape s in
      let fine := Permutation pl (seq 0 (length (a_shape a))) /\ Permutation pr (seq 0 (length (a_shape b)))
        /\ Permutation po (seq 0 (length out))
        /\ q * (u * k) = fold_right Nat.mul 1 (a_shape a) /\ q * (k * v) = fold_right Nat.mul 1 (a_shape b) in
      (fine -> exists r, run_pair lay (OpStackedTensordotGeneral s) a b = Ok r
         /\ holds r (axis_lengths out po) (fun idx =>
              let i := flat out (place (length out) po idx) in
              product_entry k v (fun x => nth_permuted a pl (i / (u * v) * (u * k) + x))
                (fun x => nth_permuted b pr (i / (u * v) * (k * v) + x)) (i mod (u * v))))
      /\ (~ fine -> run_pair lay (OpStackedTensordotGeneral s) a b = Panic).
Proof.
  intros A Sc lay sc s SR Hlay H. destruct (stacked_form sc s H) as (q & us & cs & vs & Es & Eo).
  exists q, (prod us), (prod cs), (prod vs). split; auto. intros a b Wa Wb pl pr po out fine. cbn [run_pair].
  destruct (stacked_any lay Hlay SR Hlay pl pr po q us cs vs out a b Wa Wb) as [S1 S2].
  unfold pl, pr, po, out in S1, S2. rewrite <- Es in S1, S2. fold pl pr po out in S1, S2.
  split; intros Hf.
  - apply S1. unfold fine in Hf. repeat split; try tauto. symmetry. exact Eo.
  - apply S2. intros Hf'. apply Hf. unfold fine. repeat split; tauto.
Qed.
Print Assumptions stacked_products_of_any_operands.

(** TensordotGeneral compiled for 3x2 transposed times 3x2, given 2x3 and 2x3, then given six elements
    in one row; a column and a matrix; two elements in the place of a number. *)
Example general_product_cases :
  run_pair c_backend (OpTensordotGeneral (mkTG [1; 0] [0; 1] (mkTFP 2 2 3 [2; 2]) [1; 0]))
    (zarr [2; 3] [1; 2; 3; 4; 5; 6]%Z) (zarr [2; 3] [1; 0; 2; -1; 3; 1]%Z) = Ok (zarr [2; 2] [15; 29; -2; 3]%Z)
  /\ run_pair c_backend (OpTensordotGeneral (mkTG [1; 0] [0; 1] (mkTFP 2 2 3 [2; 2]) [1; 0]))
    (zarr [6] [1; 2; 3; 4; 5; 6]%Z) (zarr [2; 3] [1; 0; 2; -1; 3; 1]%Z) = Panic
  /\ run_pair c_backend (OpHadamardProductGeneral [1; 0] [0; 1]) (zarr [3; 1] [1; 2; 3]%Z) (zarr [2; 3] [1; 2; 3; 4; 5; 6]%Z)
     = Ok (zarr [2; 3] [1; 4; 9; 4; 10; 18]%Z)
  /\ run_pair c_backend (OpScalarMatrixProductGeneral [1; 0]) (zarr [2] [3; 4]%Z) (zarr [1; 2] [1; 2]%Z)
     = Ok (zarr [2; 1] [3; 6]%Z)
  /\ run_pair c_backend (OpMatrixScalarProductGeneral [1; 0]) (zarr [2] [3; 4]%Z) (zarr [] [1]%Z) = Panic.
Proof. repeat split; vm_compute; reflexivity. Qed.

Definition stacked_example := mkSized
  (mkContraction [chars "bij"; chars "bjk"] (chars "bik") (chars "j"))
  [(98%N, 2); (105%N, 1); (106%N, 2); (107%N, 1)].

Example stacked_product_cases :
  (do s <- stacked_new stacked_example;
   run_pair c_backend (OpStackedTensordotGeneral s) (zarr [1; 1; 4] [1; 2; 3; 4]%Z) (zarr [4; 1; 1] [1; 2; 3; 4]%Z))
  = Ok (zarr [2; 1; 1] [5; 25]%Z)
  /\ (do s <- stacked_new stacked_example;
      run_pair c_backend (OpStackedTensordotGeneral s) (zarr [1; 1; 2] [1; 2]%Z) (zarr [2; 1; 1] [1; 2]%Z)) = Panic.
Proof. split; vm_compute; reflexivity. Qed.

(** ** Sums and diagonals *)

Theorem rearranged_sums_of_any_operand :
  forall (A : Type) (Sc : Scalar A) lay p start num s (a : arr A), near_semiring A -> backend_runs lay -> wf a ->
    summation_from_sizes start num = Ok s ->
    let n := length (a_shape a) in let sh := axis_lengths (a_shape a) p in
    let fine := Permutation p (seq 0 n) /\ start + num <= n in
    (fine -> exists r, run_singleton lay (OpPermutationAndSummation p s) a = Ok r
       /\ holds r (firstn start sh ++ skipn (start + num) sh) (fun idx =>
            sum_idx (firstn num (skipn start sh)) (fun z =>
              elem a (place n p (firstn start idx ++ z ++ skipn start idx)))))
    /\ (~ fine -> run_singleton lay (OpPermutationAndSummation p s) a = Panic).
Proof. intros A Sc lay p start num s a SR Hlay Wa Hs. apply (perm_and_sum_any lay Hlay SR p start num s a Wa Hs). Qed.
Print Assumptions rearranged_sums_of_any_operand.

(** Diagonalization adds up the strides of the operand's row-major order, so what it shows at [o] is
    the element whose row-major number is [seen]: it need not lie on the diagonal. ndarray refuses a
    view that leaves the memory or shows an element twice. *)
Theorem diagonals_of_any_operand :
  forall (A : Type) (Sc : Scalar A) lay sc d (a : arr A), backend_runs lay -> diagonalization_new sc = Ok d -> wf a ->
    let mapping := input_to_output_mapping d in let out := diag_output_shape d in let sh := a_shape a in
    let last := seen sh mapping (map Nat.pred out) in
    let fine := ~ In 0 sh /\ length sh <= length mapping
      /\ (In 0 out -> last <= fold_right Nat.mul 1 sh)
      /\ (~ In 0 out -> last < fold_right Nat.mul 1 sh
            /\ dim_stride_overlap out (seen_strides sh mapping (length out)) = false) in
    (fine -> exists r, run_singleton lay (OpDiagonalization d) a = Ok r
       /\ holds r out (fun o => nth_elem a (seen sh mapping o)))
    /\ (~ fine -> run_singleton lay (OpDiagonalization d) a = Panic).
Proof.
  intros A Sc lay sc d a Hlay Hd Wa. destruct (diagonal_mapping sc d Hd) as [Hm _].
  apply (diagonal_any lay Hlay d a Wa Hm).
Qed.
Print Assumptions diagonals_of_any_operand.

(** An operand at least as long along every axis is not refused; the elements beyond the compiled
    lengths are ignored. *)
Theorem diagonals_of_longer_operands :
  forall (A : Type) (Sc : Scalar A) lay sc input d (a : arr A), backend_runs lay -> diagonalization_new sc = Ok d ->
    operand_indices (sc_contraction sc) = [input] -> incl (output_indices (sc_contraction sc)) input ->
    NoDup (output_indices (sc_contraction sc)) -> wf a ->
    let mapping := input_to_output_mapping d in let out := diag_output_shape d in
    Forall2 (fun n m => nth m out 0 <= n) (a_shape a) mapping -> ~ In 0 (a_shape a) ->
    exists r, run_singleton lay (OpDiagonalization d) a = Ok r
      /\ holds r out (fun o => elem a (map (fun m => nth m o 0) mapping)).
Proof.
  intros A Sc lay sc input d a Hlay Hd Hi Hin Hn Wa mapping out Hle Hz.
  destruct (diagonal_mapping sc d Hd) as [Hm Hall]. apply (diagonal_longer lay Hlay d a Wa Hm); auto.
  apply (Hall input); auto.
Qed.
Print Assumptions diagonals_of_longer_operands.

(** The same with a sum, whatever the layout. *)
Theorem diagonal_sums_of_longer_operands :
  forall (A : Type) (Sc : Scalar A) lay sc input d start num s (a : arr A), near_semiring A -> backend_runs lay ->
    diagonalization_new sc = Ok d ->
    operand_indices (sc_contraction sc) = [input] -> incl (output_indices (sc_contraction sc)) input ->
    NoDup (output_indices (sc_contraction sc)) -> wf a ->
    let mapping := input_to_output_mapping d in let out := diag_output_shape d in
    Forall2 (fun n m => nth m out 0 <= n) (a_shape a) mapping -> ~ In 0 (a_shape a) ->
    summation_from_sizes start num = Ok s -> start + num <= length out ->
    exists r, run_singleton lay (OpDiagonalizationAndSummation d s) a = Ok r
      /\ holds r (firstn start out ++ skipn (start + num) out) (fun idx =>
           sum_idx (firstn num (skipn start out)) (fun z =>
             elem a (map (fun m => nth m (firstn start idx ++ z ++ skipn start idx) 0) mapping))).
Proof.
  intros A Sc lay sc input d start num s a SR Hlay Hd Hi Hin Hn Wa mapping out Hle Hz Hs Hl.
  destruct (diagonal_mapping sc d Hd) as [Hm Hall].
  apply (diag_and_sum_longer lay Hlay SR d start num s a Wa Hm); auto. apply (Hall input); auto.
Qed.
Print Assumptions diagonal_sums_of_longer_operands.

(** Other operands: those in row-major order, and those whose memory is not used directly. *)
Theorem diagonal_sums_of_any_operand :
  forall (A : Type) (Sc : Scalar A) lay sc d start num s (a : arr A), near_semiring A -> backend_runs lay ->
    diagonalization_new sc = Ok d -> wf a ->
    let mapping := input_to_output_mapping d in let out := diag_output_shape d in let sh := a_shape a in
    a_strides a = default_strides sh \/ is_contiguous a = false \/ Exists (fun s => (s <= 0)%Z) (a_strides a) ->
    summation_from_sizes start num = Ok s -> start + num <= length out ->
    let last := seen sh mapping (map Nat.pred out) in
    let fine := ~ In 0 sh /\ length sh <= length mapping
      /\ (In 0 out -> last <= fold_right Nat.mul 1 sh)
      /\ (~ In 0 out -> last < fold_right Nat.mul 1 sh
            /\ dim_stride_overlap out (seen_strides sh mapping (length out)) = false) in
    (fine -> exists r, run_singleton lay (OpDiagonalizationAndSummation d s) a = Ok r
       /\ holds r (firstn start out ++ skipn (start + num) out) (fun idx =>
            sum_idx (firstn num (skipn start out)) (fun z =>
              nth_elem a (seen sh mapping (firstn start idx ++ z ++ skipn start idx)))))
    /\ (~ fine -> run_singleton lay (OpDiagonalizationAndSummation d s) a = Panic).
Proof.
  intros A Sc lay sc d start num s a SR Hlay Hd Wa mapping out sh Hl Hs Hn.
  destruct (diagonal_mapping sc d Hd) as [Hm _].
  apply (diag_and_sum_any lay Hlay SR d start num s a Wa Hm Hl Hs Hn).
Qed.
Print Assumptions diagonal_sums_of_any_operand.

(** The remaining operands: contiguous ones with positive strides, in any memory order. The contractor
    then works on the memory itself: it reads the elements stored [reach] places after the first one, and
    refuses an operand whose memory ends before the diagonal does. *)
Theorem diagonal_sums_of_contiguous_operands :
  forall (A : Type) (Sc : Scalar A) lay sc d start num s (a : arr A), near_semiring A -> backend_runs lay ->
    diagonalization_new sc = Ok d -> wf a ->
    let mapping := input_to_output_mapping d in let out := diag_output_shape d in let sh := a_shape a in
    is_contiguous a = true -> Forall (fun s => (0 < s)%Z) (a_strides a) ->
    summation_from_sizes start num = Ok s -> start + num <= length out ->
    let last := reach (a_strides a) mapping (map Nat.pred out) in
    let fine := length sh <= length mapping
      /\ (In 0 out -> (last <= Z.of_nat (fold_right Nat.mul 1 sh)%nat)%Z)
      /\ (~ In 0 out -> (last < Z.of_nat (fold_right Nat.mul 1 sh)%nat)%Z
            /\ dim_stride_overlap out (reach_strides (a_strides a) mapping (length out)) = false) in
    (fine -> exists r, run_singleton lay (OpDiagonalizationAndSummation d s) a = Ok r
       /\ holds r (firstn start out ++ skipn (start + num) out) (fun idx =>
            sum_idx (firstn num (skipn start out)) (fun z =>
              at_place a (reach (a_strides a) mapping (firstn start idx ++ z ++ skipn start idx)))))
    /\ (~ fine -> run_singleton lay (OpDiagonalizationAndSummation d s) a = Panic).
Proof.
  intros A Sc lay sc d start num s a SR Hlay Hd Wa mapping out sh Hc Hp Hs Hn.
  destruct (diagonal_mapping sc d Hd) as [Hm _].
  apply (diag_and_sum_contiguous lay Hlay SR d start num s a Wa Hm Hc Hp Hs Hn).
Qed.
Print Assumptions diagonal_sums_of_contiguous_operands.

(** The column-major 3x1x3 array, read with the path of "iii->" for 2x2x2: the second element read is
    the one stored seven places after the first. *)
Example contiguous_operand_case :
  let a : arr Z := mkArr [1; 4; 7; 2; 5; 8; 3; 6; 9]%Z 0 [3; 1; 3] [1; 3; 3]%Z in
  let sc := mkSized (mkContraction [chars "iii"] [] (chars "i")) [(105%N, 2)] in
  is_contiguous a = true /\ reach (a_strides a) [0; 0; 0] [1] = 7%Z /\ at_place a 7 = 6%Z
  /\ (do d <- diagonalization_new sc; do s <- summation_from_sizes 0 1;
      run_singleton c_backend (OpDiagonalizationAndSummation d s) a) = Ok (zarr [] [7]%Z)
  /\ (do d <- diagonalization_new sc; do s <- summation_from_sizes 0 1;
      run_singleton c_backend (OpDiagonalizationAndSummation d s)
        (mkArr [1; 4; 7; 2; 5; 8]%Z 0 [3; 1; 2] [1; 3; 3]%Z)) = Panic.
Proof. repeat split; vm_compute; reflexivity. Qed.

(** BroadcastProductGeneral repeats its operands along the axes they do not have and along axes of
    length 1, and panics when an axis has another length or the number of axes does not fit. *)
Theorem broadcast_product_of_any_operands :
  forall (A : Type) (Sc : Scalar A) lay sc lhs rhs out size b (x y : arr A), backend_runs lay ->
    sized sc [lhs; rhs] out size -> broadcast_new sc = Ok b -> wf x -> wf y ->
    let fine := stretches lhs out size x /\ stretches rhs out size y in
    (fine -> exists r, run_pair lay (OpBroadcastProductGeneral b) x y = Ok r
       /\ holds r (map size out) (fun idx => smul (elem x (stretched_from lhs out (a_shape x) idx))
                                                  (elem y (stretched_from rhs out (a_shape y) idx))))
    /\ (~ fine -> run_pair lay (OpBroadcastProductGeneral b) x y = Panic).
Proof.
  intros A Sc lay sc lhs rhs out size b x y Hlay HS Hb Wx Wy.
  apply (broadcast_any lay Hlay sc lhs rhs out size b x y HS Hb Wx Wy).
Qed.
Print Assumptions broadcast_product_of_any_operands.

(** "ij,j->ij" built for 2x3: a row is repeated, a row of another length is refused. Built for
    "ijk,j->ij", which sums over k, it takes a matrix and multiplies it. *)
Example broadcast_product_cases :
  let run ops sizes x y :=
    do b <- broadcast_new (mkSized (mkContraction ops (chars "ij") []) sizes);
    run_pair c_backend (OpBroadcastProductGeneral b) x y in
  let ij := [(105%N, 2); (106%N, 3)] in
  stretches (chars "ij") (chars "ij") (size_fn ij) (zarr [1; 3] [1; 2; 3]%Z)
  /\ run [chars "ij"; chars "j"] ij (zarr [1; 3] [1; 2; 3]%Z) (zarr [3] [1; 10; 100]%Z)
     = Ok (zarr [2; 3] [1; 20; 300; 1; 20; 300]%Z)
  /\ run [chars "ij"; chars "j"] ij (zarr [2; 2] [1; 2; 3; 4]%Z) (zarr [3] [1; 10; 100]%Z) = Panic
  /\ run [chars "ijk"; chars "j"] ((107%N, 4) :: ij) (zarr [2; 3] [1; 2; 3; 4; 5; 6]%Z) (zarr [1] [10]%Z)
     = Ok (zarr [2; 3] [10; 20; 30; 40; 50; 60]%Z).
Proof.
  cbv zeta. split; [|repeat split; vm_compute; reflexivity].
  split; [vm_compute; lia|]. split; [intros c Hc; exact Hc|]. split; [intros c []|].
  constructor; [right; reflexivity|]. constructor; [left; reflexivity|]. constructor.
Qed.

(** The diagonal of a 3x3 matrix: a 4x4 operand gives the first three entries of its diagonal, a 4x2
    operand gives elements that are not on its diagonal, a 2x2 operand is refused. *)
Definition diagonal_example := mkSized (mkContraction [chars "ii"] (chars "i") []) [(105%N, 3)].

Example diagonal_cases :
  let run a := do d <- diagonalization_new diagonal_example; run_singleton c_backend (OpDiagonalization d) a in
  run (zarr [4; 4] (map Z.of_nat (seq 0 16))) = Ok (zarr [3] [0; 5; 10]%Z)
  /\ run (zarr [4; 2] (map Z.of_nat (seq 0 8))) = Ok (zarr [3] [0; 3; 6]%Z)
  /\ run (zarr [2; 2] (map Z.of_nat (seq 0 4))) = Panic
  /\ run (zarr [9] (map Z.of_nat (seq 0 9))) = Ok (zarr [3] [0; 1; 2]%Z).
Proof. repeat split; vm_compute; reflexivity. Qed.

(** Sums: the last axis is moved to the front and the others are added up; the trace of a 2x2 matrix
    given a 3x3 matrix in row-major and in column-major order. *)
Definition trace_example := mkSized (mkContraction [chars "ii"] [] (chars "i")) [(105%N, 2)].

Example rearranged_sum_cases :
  (do s <- summation_from_sizes 1 1;
   run_singleton c_backend (OpPermutationAndSummation [1; 0] s) (zarr [2; 3] [1; 2; 3; 4; 5; 6]%Z))
  = Ok (zarr [3] [5; 7; 9]%Z)
  /\ (do s <- summation_from_sizes 1 2;
      run_singleton c_backend (OpPermutationAndSummation [1; 0] s) (zarr [2; 3] [1; 2; 3; 4; 5; 6]%Z)) = Panic
  /\ (let run a := do d <- diagonalization_new trace_example; do s <- summation_from_sizes 0 1;
                   run_singleton c_backend (OpDiagonalizationAndSummation d s) a in
      run (zarr [3; 3] [1; 2; 3; 4; 5; 6; 7; 8; 9]%Z) = Ok (zarr [] [6]%Z)
      /\ run (mkArr [1; 4; 7; 2; 5; 8; 3; 6; 9]%Z 0 [3; 3] [1; 3]%Z) = Ok (zarr [] [6]%Z)
      /\ run (zarr [1; 2] [1; 2]%Z) = Panic).
Proof. repeat split; vm_compute; reflexivity. Qed.

(** A compiled path should not depend on how its operands are laid out in memory, whatever their
    shapes. The path of "iii->" for 2x2x2 given a 3x1x3 array returns one number when it is in
    row-major order and another when it is in column-major order: neither adds up a diagonal. *)
Definition column_major_example : arr Z := mkArr [1; 4; 7; 2; 5; 8; 3; 6; 9]%Z 0 [3; 1; 3] [1; 3; 3]%Z.

Theorem reused_paths_ignore_the_layout_refuted :
  exists s (arrays : list (arr Z)) a a' p r r',
    einsum_path_fn id_hash s arrays Naive = Ok p /\ Forall wf arrays /\ wf a /\ wf a'
    /\ a_shape a = a_shape a' /\ (forall idx, in_bounds (a_shape a) idx = true -> a_get a idx = a_get a' idx)
    /\ contract_operands c_backend p [a] = Ok r /\ contract_operands c_backend p [a'] = Ok r'
    /\ a_shape r = a_shape r' /\ elem r [] <> elem r' [].
Proof.
  exists (chars "iii->"), [zarr [2; 2; 2] [1; 2; 3; 4; 5; 6; 7; 8]%Z], (zarr [3; 1; 3] [1; 2; 3; 4; 5; 6; 7; 8; 9]%Z),
    column_major_example.
  do 3 eexists. split; [vm_compute; reflexivity|]. split; [apply wfs_b_ok; reflexivity|].
  split; [apply wf_b_ok; reflexivity|]. split; [apply wf_b_ok; reflexivity|]. split; [reflexivity|].
  split.
  { intros idx Hi. apply indices_In in Hi. cbn in Hi.
    repeat (destruct Hi as [<-|Hi]; [reflexivity|]). destruct Hi. }
  split; [vm_compute; reflexivity|]. split; [vm_compute; reflexivity|]. split; [reflexivity|]. vm_compute. discriminate.
Qed.
Print Assumptions reused_paths_ignore_the_layout_refuted.
