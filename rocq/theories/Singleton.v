(** Model of /repo/src/contractors/singleton_contractors.rs. No proofs in this file. *)
From Verif Require Import Base NDArray Validation.

(** ** Compiled contractors *)

(** singleton_contractors.rs:70-72 [struct Permutation]; [Permutation::from_indices] (97-101) wraps
    the list it is given. *)
Definition permutation := list nat.

(** singleton_contractors.rs:132-135 [struct Summation]. *)
Record summation := mkSummation { orig_axis_list : list nat; adjusted_axis_list : list nat }.

(** singleton_contractors.rs:183-186 [struct Diagonalization]. *)
Record diagonalization := mkDiag {
  input_to_output_mapping : list nat;
  diag_output_shape : list nat
}.

(** singleton_contractors.rs:75-95 [Permutation::new]. *)
Definition permutation_new (sc : sized_contraction) : res permutation :=
  let c := sc_contraction sc in
  do _ <- rassert (Nat.eqb (length (operand_indices c)) 1);
  do input <- index (operand_indices c) 0;
  do _ <- rassert (Nat.eqb (length input) (length (output_indices c)));
  mapM (fun o => unwrap (position o input)) (output_indices c).

(** singleton_contractors.rs:148-157 [Summation::from_sizes]. *)
Definition summation_from_sizes (start num : nat) : res summation :=
  do _ <- rassert (Nat.leb 1 num);
  Ok (mkSummation (seq start num) (map (fun _ => start) (seq 0 num))).

(** singleton_contractors.rs:138-146 [Summation::new]. *)
Definition summation_new (sc : sized_contraction) : res summation :=
  let output := output_indices (sc_contraction sc) in
  do input <- index (operand_indices (sc_contraction sc)) 0;
  do n <- usub (length input) (length output);
  summation_from_sizes (length output) n.

(** singleton_contractors.rs:203-214: the loop building [adjusted_output_indices] and
    [input_to_output_mapping]. *)
Fixpoint diag_mapping (adjusted : list char) (input : list char) : list char * list nat :=
  match input with
  | [] => (adjusted, [])
  | c :: input' =>
      match position c adjusted with
      | Some pos => let '(adj, m) := diag_mapping adjusted input' in (adj, pos :: m)
      | None =>
          let '(adj, m) := diag_mapping (adjusted ++ [c]) input' in (adj, length adjusted :: m)
      end
  end.

(** singleton_contractors.rs:189-224 [Diagonalization::new]. *)
Definition diagonalization_new (sc : sized_contraction) : res diagonalization :=
  let c := sc_contraction sc in
  do _ <- rassert (Nat.eqb (length (operand_indices c)) 1);
  do input <- index (operand_indices c) 0;
  let '(adjusted, mapping) := diag_mapping (output_indices c) input in
  do shape <- mapM (size_of (sc_output_size sc)) adjusted;
  Ok (mkDiag mapping shape).

(** singleton_contractors.rs:277-305 [PermutationAndSummation::new]. *)
Definition perm_and_sum_new (sc : sized_contraction) : res (permutation * summation) :=
  let c := sc_contraction sc in
  do input <- index (operand_indices c) 0;
  do front <- mapM (fun o => unwrap (position o input)) (output_indices c);
  let back :=
    map fst (filter (fun ic => match position (snd ic) (output_indices c) with
                               | None => true | Some _ => false end)
               (combine (seq 0 (length input)) input)) in
  do s <- summation_new sc;
  Ok (front ++ back, s).

(** singleton_contractors.rs:334-345 [DiagonalizationAndSummation::new]. *)
Definition diag_and_sum_new (sc : sized_contraction) : res (diagonalization * summation) :=
  do d <- diagonalization_new sc;
  let nout := length (output_indices (sc_contraction sc)) in
  do n <- usub (length (diag_output_shape d)) nout;
  do s <- summation_from_sizes nout n;
  Ok (d, s).

(** The boxed trait objects of contractors/mod.rs:148-159, as a sum type. [Identity] has no fields
    and its constructor cannot fail (singleton_contractors.rs:37-43); its [view_singleton] (45-53)
    is never called. *)
Inductive singleton_op :=
| OpIdentity
| OpPermutation (p : permutation)
| OpSummation (s : summation)
| OpDiagonalization (d : diagonalization)
| OpPermutationAndSummation (p : permutation) (s : summation)
| OpDiagonalizationAndSummation (d : diagonalization) (s : summation).

(** ** Execution *)

Section Run.
Context {A : Type} {S : Scalar A}.
Variable lay : backend A.

(** singleton_contractors.rs:105-111 [Permutation::view_singleton]. *)
Definition permutation_view (p : permutation) (t : arr A) : res (arr A) := permuted_axes t p.

(** singleton_contractors.rs:115-124 [Permutation::contract_singleton]. *)
Definition permutation_contract (p : permutation) (t : arr A) : res (arr A) :=
  do v <- permuted_axes t p; to_owned lay v.

(** singleton_contractors.rs:161-171 [Summation::contract_singleton]. *)
Definition summation_contract (s : summation) (t : arr A) : res (arr A) :=
  do ax0 <- index (adjusted_axis_list s) 0;
  do r0 <- sum_axis lay t ax0;
  foldM (fun r ax => sum_axis lay r ax) (skipn 1 (adjusted_axis_list s)) r0.

(** singleton_contractors.rs:236-239: [assert!(stride > 0); strides[mapping[idx]] += stride]. *)
Definition add_stride (mapping : list nat) (strides : list Z) (is : nat * Z) : res (list Z) :=
  let '(i, s) := is in
  do _ <- rassert (Z.ltb 0 s);
  do pos <- index mapping i;
  do old <- index strides pos;
  Ok (set_nth pos (old + s)%Z strides).

(** singleton_contractors.rs:228-249 [Diagonalization::view_singleton]. *)
Definition diagonalization_view (d : diagonalization) (t : arr A) : res (arr A) :=
  do strides <- foldM (add_stride (input_to_output_mapping d))
                  (combine (seq 0 (length (a_strides t))) (a_strides t))
                  (map (fun _ => 0%Z) (diag_output_shape d));
  do data <- unwrap (as_slice_memory_order t);
  view_from_shape (diag_output_shape d) strides data.

(** singleton_contractors.rs:253-263 [Diagonalization::contract_singleton]. *)
Definition diagonalization_contract (d : diagonalization) (t : arr A) : res (arr A) :=
  do l <- a_iter t;
  do cloned <- from_shape_vec (a_shape t) l;
  do v <- diagonalization_view d cloned;
  into_owned lay v.

(** singleton_contractors.rs:349-372 [DiagonalizationAndSummation::contract_singleton]. *)
Definition diag_and_sum_contract (d : diagonalization) (s : summation) (t : arr A)
  : res (arr A) :=
  let direct :=
    match as_slice_memory_order t with Some _ => true | None => false end
    && forallb (fun st => Z.ltb 0 st) (a_strides t) in
  do viewed <- (if direct then diagonalization_view d t else diagonalization_contract d t);
  summation_contract s viewed.

(** The [contract_singleton] methods: 56-62 (Identity), 115-124, 161-171, 253-263,
    309-316 (PermutationAndSummation), 349-372. *)
Definition run_singleton (op : singleton_op) (t : arr A) : res (arr A) :=
  match op with
  | OpIdentity => to_owned lay t
  | OpPermutation p => permutation_contract p t
  | OpSummation s => summation_contract s t
  | OpDiagonalization d => diagonalization_contract d t
  | OpPermutationAndSummation p s =>
      do v <- permutation_view p t; summation_contract s v
  | OpDiagonalizationAndSummation d s => diag_and_sum_contract d s t
  end.

End Run.
