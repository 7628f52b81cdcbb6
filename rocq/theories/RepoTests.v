(** The tests and documentation examples of the repository, run on the model.

    These are tests, not proofs of a general statement: they compare the model with the results
    the repository itself expects.  Each example names the test it transcribes.  The repository
    fills its arrays with random floats and compares within 1e-10; here the arrays hold fixed
    integers and the comparison is exact.  The expected values are written as in the test, as
    loops over indices, and do not use the specification of Spec.v. *)
From Verif Require Import Base NDArray Validation Optimizers Path Api Spec Examples.
From Coq Require Import Lia.
From Coq Require String.
Import String.StringSyntax.
Local Open Scope string_scope.
Local Open Scope list_scope.

(** ** tests/einsum_test.rs:33-232, parsing *)

(** [Contraction::new] accepts [s] and finds these labels. *)
Definition parses (s : String.string) (ops : list String.string) (out sum : String.string) : Prop :=
  forall h, h = id_hash \/ h = rev_hash ->
  exists c, contraction_new h [] (chars s) = Ok c
            /\ operand_indices c = map chars ops
            /\ output_indices c = chars out
            /\ summation_indices c = chars sum.

(** [Contraction::new] answers with an error. *)
Definition rejects (s : String.string) : Prop :=
  exists m, contraction_new id_hash [] (chars s) = Err m.

Ltac parse_tac := intros h [->| ->]; eexists; repeat split; vm_compute; reflexivity.

Example tp1 : parses "i->" ["i"] "" "i". Proof. parse_tac. Qed.
Example tp2 : parses "ij->" ["ij"] "" "ij". Proof. parse_tac. Qed.
Example tp3 : parses "i->i" ["i"] "i" "". Proof. parse_tac. Qed.
Example tp4 : parses "ij,ij->ij" ["ij"; "ij"] "ij" "". Proof. parse_tac. Qed.
Example tp5 : parses "ij,ij->" ["ij"; "ij"] "" "ij". Proof. parse_tac. Qed.
Example tp6 : parses "ij,kl->" ["ij"; "kl"] "" "ijkl". Proof. parse_tac. Qed.
Example tp7 : parses "ij,jk->ik" ["ij"; "jk"] "ik" "j". Proof. parse_tac. Qed.
Example tp8 : parses "ijk,jkl,klm->im" ["ijk"; "jkl"; "klm"] "im" "jkl". Proof. parse_tac. Qed.
Example tp9 : parses "ij,jk->ki" ["ij"; "jk"] "ki" "j". Proof. parse_tac. Qed.
Example tp10 : parses "ij,ja->ai" ["ij"; "ja"] "ai" "j". Proof. parse_tac. Qed.
Example tp11 : parses "ii->i" ["ii"] "i" "". Proof. parse_tac. Qed.
Example tp12 : parses "ij,k" ["ij"; "k"] "ijk" "". Proof. parse_tac. Qed.
Example tp13 : parses "i" ["i"] "i" "". Proof. parse_tac. Qed.
Example tp14 : parses "ii" ["ii"] "" "i". Proof. parse_tac. Qed.
Example tp15 : parses "ijj" ["ijj"] "i" "j". Proof. parse_tac. Qed.
Example tp16 : parses "i,j,klm,nop" ["i"; "j"; "klm"; "nop"] "ijklmnop" "". Proof. parse_tac. Qed.
Example tp17 : parses "ij,jk" ["ij"; "jk"] "ik" "j". Proof. parse_tac. Qed.
Example tp18 : parses "ij,ja" ["ij"; "ja"] "ai" "j". Proof. parse_tac. Qed.

Example bad_parses_1 : Forall rejects ["->i"; "i,"; "->"; "i,,,j->k"].
Proof. repeat constructor; eexists; vm_compute; reflexivity. Qed.
Example bad_outputs_1 : Forall rejects ["i,j,k,l,m->p"; "i,j->ijj"].
Proof. repeat constructor; eexists; vm_compute; reflexivity. Qed.

(** ** Helpers for the tests that compute *)

(** [rand_array], with fixed contents: no two seeds give the same rows. *)
Definition sample (seed : nat) (sh : list nat) : arr Z :=
  zarr sh (map (fun k => let z := Z.of_nat k in
                         ((z * z * 7 + z * 3 + Z.of_nat seed * 5 + 1) mod 23 - 11)%Z)
             (seq 0 (fold_right Nat.mul 1 sh))).

(** [a[[i, j, ...]]]. *)
Definition at_ (a : arr Z) (idx : list nat) : Z := elem a idx.

(** [for i in 0..n { r += f(i) }]. *)
Definition loop (n : nat) (f : nat -> Z) : Z := fold_left (fun r i => (r + f i)%Z) (seq 0 n) 0%Z.

(** The result has this shape and these elements. *)
Definition is_array (a : arr Z) (sh : list nat) (f : list nat -> Z) : bool :=
  (if list_eq_dec Nat.eq_dec (a_shape a) sh then true else false)
  && wf_b a && forallb (fun idx => Z.eqb (at_ a idx) (f idx)) (indices sh).

Definition gives (r : res (arr Z)) (sh : list nat) (f : list nat -> Z) : bool :=
  match r with Ok a => is_array a sh f | _ => false end.

(** [einsum], and [einsum_path] followed by [contract_operands], under two hash orders. *)
Definition by_einsum (s : String.string) (ops : list (arr Z)) (sh : list nat) (f : list nat -> Z) : bool :=
  gives (einsum id_hash c_backend (chars s) ops) sh f
  && gives (einsum rev_hash c_backend (chars s) ops) sh f.
Definition by_path (s : String.string) (ops : list (arr Z)) (sh : list nat) (f : list nat -> Z) : bool :=
  let run h := do p <- einsum_path_fn h (chars s) ops Naive; contract_operands c_backend p ops in
  gives (run id_hash) sh f && gives (run rev_hash) sh f.

Definition f0 (x : Z) (idx : list nat) : Z := match idx with [] => x | _ => 0%Z end.
Definition f1 (f : nat -> Z) (idx : list nat) : Z := match idx with [i] => f i | _ => 0%Z end.
Definition f2 (f : nat -> nat -> Z) (idx : list nat) : Z :=
  match idx with [i; j] => f i j | _ => 0%Z end.
Definition f3 (f : nat -> nat -> nat -> Z) (idx : list nat) : Z :=
  match idx with [i; j; k] => f i j k | _ => 0%Z end.
Definition f4 (f : nat -> nat -> nat -> nat -> Z) (idx : list nat) : Z :=
  match idx with [i; j; k; l] => f i j k l | _ => 0%Z end.

Local Notation "a $ l" := (at_ a l) (at level 8, no associativity).
Local Open Scope Z_scope.
Ltac run_tac := vm_compute; reflexivity.

(** ** tests/einsum_test.rs:242-468, one operand *)

Example it_multiplies_two_matrices :
  let a := sample 1 [3; 4]%nat in let b := sample 2 [4; 5]%nat in
  by_einsum "ij,jk->ik" [a; b] [3; 5]%nat (f2 (fun i k => loop 4 (fun j => a$[i; j] * b$[j; k]))) = true.
Proof. run_tac. Qed.

Example it_computes_the_trace :
  let m := sample 1 [5; 5]%nat in
  by_einsum "ii->i" [m] [5]%nat (f1 (fun i => m$[i; i])) = true.
Proof. run_tac. Qed.

Example it_transposes_a_matrix :
  let m := sample 1 [2; 5]%nat in
  forallb (fun s => by_einsum s [m] [5; 2]%nat (f2 (fun i j => m$[j; i]))) ["ji"; "ij->ji"; "ji->ij"] = true.
Proof. run_tac. Qed.

Example it_clones_a_matrix :
  let m := sample 1 [2; 5]%nat in
  by_einsum "ij->ij" [m] [2; 5]%nat (f2 (fun i j => m$[i; j])) = true.
Proof. run_tac. Qed.

(** The operand is a view of 4 by 4 with strides 17 and 4 into a cube of 64 elements. *)
Example it_collapses_a_singleton_with_noncontiguous_strides :
  let cube := sample 1 [4; 4; 4]%nat in
  let square := mkArr (a_data cube) 0 [4; 4]%nat [17; 4] in
  by_path "ii->" [square] [] (f0 (loop 4 (fun i => square$[i; i]))) = true.
Proof. run_tac. Qed.

Example it_collapses_a_singleton_without_repeats :
  let s := sample 1 [4; 2; 3; 5]%nat in
  by_path "ijkl->lij" [s] [5; 4; 2]%nat (f3 (fun l i j => loop 3 (fun k => s$[i; j; k; l]))) = true.
Proof. run_tac. Qed.

Example it_diagonalizes_a_singleton :
  let s := sample 1 [2; 3; 4; 4; 4]%nat in
  by_path "jkiii->jik" [s] [2; 4; 3]%nat (f3 (fun j i k => s$[j; k; i; i; i])) = true.
Proof. run_tac. Qed.

Example it_collapses_a_singleton_with_multiple_repeats :
  let s := sample 1 [4; 3; 2; 3; 2]%nat in
  by_path "kjiji->ijk" [s] [2; 3; 4]%nat (f3 (fun i j k => s$[k; j; i; j; i])) = true.
Proof. run_tac. Qed.

Example it_collapses_a_singleton_with_a_repeat_that_gets_summed :
  let s := sample 1 [2; 2; 3]%nat in
  by_path "iij->j" [s] [3]%nat (f1 (fun j => loop 2 (fun i => s$[i; i; j]))) = true.
Proof. run_tac. Qed.

Example it_collapses_a_singleton_with_multiple_repeats_that_get_summed :
  let s := sample 1 [2; 2; 3; 4; 4]%nat in
  by_path "iijkk->j" [s] [3]%nat
    (f1 (fun j => loop 2 (fun i => loop 4 (fun k => s$[i; i; j; k; k])))) = true.
Proof. run_tac. Qed.

Example it_sums_a_singleton :
  let s := sample 1 [2; 3; 4]%nat in
  by_path "ijk->" [s] [] (f0 (loop 2 (fun i => loop 3 (fun j => loop 4 (fun k => s$[i; j; k]))))) = true.
Proof. run_tac. Qed.

Example it_collapses_a_singleton_with_multiple_sums :
  let s := sample 1 [2; 3; 4]%nat in
  by_path "ijk->k" [s] [4]%nat (f1 (fun k => loop 2 (fun i => loop 3 (fun j => s$[i; j; k])))) = true.
Proof. run_tac. Qed.

Example it_collapses_a_singleton :
  let s := sample 1 [4; 4; 2; 3; 5]%nat in
  by_path "iijkl->lij" [s] [5; 4; 2]%nat (f3 (fun l i j => loop 3 (fun k => s$[i; i; j; k; l]))) = true.
Proof. run_tac. Qed.

(** ** tests/einsum_test.rs:472-496, tensordot *)

Example tensordot_handles_degenerate_lhs :
  let lhs := zarr [] [1] in let rhs := sample 2 [2; 3]%nat in
  gives (tensordot c_backend lhs rhs [] []) [2; 3]%nat (f2 (fun i j => rhs$[i; j])) = true.
Proof. run_tac. Qed.

Example tensordot_handles_degenerate_rhs :
  let lhs := sample 1 [2; 3]%nat in let rhs := zarr [] [1] in
  gives (tensordot c_backend lhs rhs [] []) [2; 3]%nat (f2 (fun i j => lhs$[i; j])) = true.
Proof. run_tac. Qed.

Example tensordot_handles_degenerate_both :
  let one := zarr [] [1] in
  gives (tensordot c_backend one one [] []) [] (f0 1) = true.
Proof. run_tac. Qed.

(** ** tests/einsum_test.rs:499-1012, two operands *)

Example deduped_handles_dot_product :
  let l := sample 1 [3]%nat in let r := sample 2 [3]%nat in
  by_path "i,i->" [l; r] [] (f0 (loop 3 (fun i => l$[i] * r$[i]))) = true.
Proof. run_tac. Qed.

Example deduped_handles_hadamard_product :
  let l := sample 1 [3]%nat in let r := sample 2 [3]%nat in
  by_path "i,i->i" [l; r] [3]%nat (f1 (fun i => l$[i] * r$[i])) = true.
Proof. run_tac. Qed.

Example deduped_handles_outer_product_vec_vec :
  let l := sample 1 [3]%nat in let r := sample 2 [4]%nat in
  by_path "i,j->ij" [l; r] [3; 4]%nat (f2 (fun i j => l$[i] * r$[j])) = true.
Proof. run_tac. Qed.

Example deduped_handles_matrix_vector_1 :
  let l := sample 1 [3; 4]%nat in let r := sample 2 [4]%nat in
  by_path "ij,j->i" [l; r] [3]%nat (f1 (fun i => loop 4 (fun j => l$[i; j] * r$[j]))) = true.
Proof. run_tac. Qed.

Example deduped_handles_matrix_vector_2 :
  let l := sample 1 [3]%nat in let r := sample 2 [3; 4]%nat in
  by_path "i,ij->j" [l; r] [4]%nat (f1 (fun j => loop 3 (fun i => l$[i] * r$[i; j]))) = true.
Proof. run_tac. Qed.

Example deduped_handles_matrix_vector_3 :
  let l := sample 1 [3; 4]%nat in let r := sample 2 [3]%nat in
  by_path "ij,i->j" [l; r] [4]%nat (f1 (fun j => loop 3 (fun i => l$[i; j] * r$[i]))) = true.
Proof. run_tac. Qed.

Example deduped_handles_matrix_vector_4 :
  let l := sample 1 [4]%nat in let r := sample 2 [3; 4]%nat in
  by_path "j,ij->i" [l; r] [3]%nat (f1 (fun i => loop 4 (fun j => l$[j] * r$[i; j]))) = true.
Proof. run_tac. Qed.

Example deduped_handles_stacked_scalar_vector_product_1 :
  let l := sample 1 [3; 4]%nat in let r := sample 2 [3]%nat in
  by_path "ij,i->ij" [l; r] [3; 4]%nat (f2 (fun i j => l$[i; j] * r$[i])) = true.
Proof. run_tac. Qed.

Example deduped_handles_stacked_scalar_vector_product_2 :
  let l := sample 1 [3; 4]%nat in let r := sample 2 [3]%nat in
  by_path "ij,i->ji" [l; r] [4; 3]%nat (f2 (fun j i => l$[i; j] * r$[i])) = true.
Proof. run_tac. Qed.

Example deduped_handles_stacked_scalar_vector_product_3 :
  let l := sample 1 [3]%nat in let r := sample 2 [4; 3]%nat in
  by_path "i,ji->ij" [l; r] [3; 4]%nat (f2 (fun i j => l$[i] * r$[j; i])) = true.
Proof. run_tac. Qed.

Example deduped_handles_summed_hadamard_product_aka_stacked_1d_tensordot_1 :
  let l := sample 1 [3; 4]%nat in let r := sample 2 [3; 4]%nat in
  by_path "ij,ij->i" [l; r] [3]%nat (f1 (fun i => loop 4 (fun j => l$[i; j] * r$[i; j]))) = true.
Proof. run_tac. Qed.

Example deduped_handles_summed_hadamard_product_aka_stacked_1d_tensordot_2 :
  let l := sample 1 [3; 4]%nat in let r := sample 2 [4; 3]%nat in
  by_path "ij,ji->i" [l; r] [3]%nat (f1 (fun i => loop 4 (fun j => l$[i; j] * r$[j; i]))) = true.
Proof. run_tac. Qed.

Example deduped_handles_summed_hadamard_product_aka_stacked_1d_tensordot_3 :
  let l := sample 1 [3; 4]%nat in let r := sample 2 [4; 3]%nat in
  by_path "ji,ij->i" [l; r] [4]%nat (f1 (fun i => loop 3 (fun j => l$[j; i] * r$[i; j]))) = true.
Proof. run_tac. Qed.

Example deduped_handles_summed_hadamard_product_multiple_stacked_axes :
  let l := sample 1 [2; 3; 4; 5]%nat in let r := sample 2 [3; 5; 4; 2]%nat in
  by_path "ijkl,jlki->kji" [l; r] [4; 3; 2]%nat
    (f3 (fun k j i => loop 5 (fun x => l$[i; j; k; x] * r$[j; x; k; i]))) = true.
Proof. run_tac. Qed.

Example deduped_handles_2d_hadamard_product :
  let l := sample 1 [2; 3]%nat in let r := sample 2 [2; 3]%nat in
  by_path "ij,ij->ij" [l; r] [2; 3]%nat (f2 (fun i j => l$[i; j] * r$[i; j])) = true.
Proof. run_tac. Qed.

Example deduped_handles_2d_hadamard_product_2 :
  let l := sample 1 [2; 3]%nat in let r := sample 2 [2; 3]%nat in
  by_path "ij,ij->ji" [l; r] [3; 2]%nat (f2 (fun j i => l$[i; j] * r$[i; j])) = true.
Proof. run_tac. Qed.

Example deduped_handles_2d_hadamard_product_3 :
  let l := sample 1 [3; 2]%nat in let r := sample 2 [2; 3]%nat in
  by_path "ji,ij->ij" [l; r] [2; 3]%nat (f2 (fun i j => l$[j; i] * r$[i; j])) = true.
Proof. run_tac. Qed.

Example deduped_handles_double_dot_product_mat_mat :
  let l := sample 1 [2; 3]%nat in let r := sample 2 [2; 3]%nat in
  by_path "ij,ij->" [l; r] [] (f0 (loop 2 (fun i => loop 3 (fun j => l$[i; j] * r$[i; j])))) = true.
Proof. run_tac. Qed.

Example deduped_handles_outer_product_vect_mat_1 :
  let l := sample 1 [2; 3]%nat in let r := sample 2 [4]%nat in
  by_path "ij,k->kij" [l; r] [4; 2; 3]%nat (f3 (fun k i j => l$[i; j] * r$[k])) = true.
Proof. run_tac. Qed.

Example deduped_handles_outer_product_vect_mat_2 :
  let l := sample 1 [4]%nat in let r := sample 2 [2; 3]%nat in
  by_path "k,ij->kij" [l; r] [4; 2; 3]%nat (f3 (fun k i j => r$[i; j] * l$[k])) = true.
Proof. run_tac. Qed.

Example deduped_handles_outer_product_mat_mat :
  let a := sample 1 [5; 4]%nat in let b := sample 2 [2; 3]%nat in
  by_path "lk,ij->kilj" [a; b] [4; 2; 5; 3]%nat (f4 (fun k i l j => a$[l; k] * b$[i; j])) = true.
Proof. run_tac. Qed.

Example deduped_handles_matrix_product_1 :
  let l := sample 1 [2; 3]%nat in let r := sample 2 [3; 4]%nat in
  by_path "ij,jk" [l; r] [2; 4]%nat (f2 (fun i k => loop 3 (fun j => l$[i; j] * r$[j; k]))) = true.
Proof. run_tac. Qed.

Example it_handles_stacked_matrix_product_1 :
  let l := sample 1 [4; 2; 5]%nat in let r := sample 2 [4; 5; 3]%nat in
  by_path "nij,njk->nik" [l; r] [4; 2; 3]%nat
    (f3 (fun n i k => loop 5 (fun j => l$[n; i; j] * r$[n; j; k]))) = true.
Proof. run_tac. Qed.

Example it_handles_stacked_matrix_product_2 :
  let l := sample 1 [4; 5; 2]%nat in let r := sample 2 [4; 5; 3]%nat in
  by_path "nji,njk->nik" [l; r] [4; 2; 3]%nat
    (f3 (fun n i k => loop 5 (fun j => l$[n; j; i] * r$[n; j; k]))) = true.
Proof. run_tac. Qed.

Example it_handles_stacked_matrix_product_3 :
  let l := sample 1 [5; 2; 4]%nat in let r := sample 2 [4; 5; 3]%nat in
  by_path "jin,njk->nik" [l; r] [4; 2; 3]%nat
    (f3 (fun n i k => loop 5 (fun j => l$[j; i; n] * r$[n; j; k]))) = true.
Proof. run_tac. Qed.

Example deduped_handles_matrix_product_2 :
  let l := sample 1 [2; 3]%nat in let r := sample 2 [4; 3]%nat in
  by_path "ij,kj" [l; r] [2; 4]%nat (f2 (fun i k => loop 3 (fun j => l$[i; j] * r$[k; j]))) = true.
Proof. run_tac. Qed.

Example deduped_handles_stacked_outer_product_1 :
  let l := sample 1 [2; 3]%nat in let r := sample 2 [4; 2]%nat in
  by_path "ij,ki->ijk" [l; r] [2; 3; 4]%nat (f3 (fun i j k => l$[i; j] * r$[k; i])) = true.
Proof. run_tac. Qed.

Example diagonals_product :
  let l := sample 1 [2; 2]%nat in let r := sample 2 [2; 2]%nat in
  by_path "ii,ii->i" [l; r] [2]%nat (f1 (fun i => l$[i; i] * r$[i; i])) = true.
Proof. run_tac. Qed.

Example diagonals_product_lhs :
  let l := sample 1 [2; 2]%nat in let r := sample 2 [2]%nat in
  by_path "ii,i->i" [l; r] [2]%nat (f1 (fun i => l$[i; i] * r$[i])) = true.
Proof. run_tac. Qed.

Example diagonals_product_rhs :
  let l := sample 1 [2]%nat in let r := sample 2 [2; 2]%nat in
  by_path "i,ii->i" [l; r] [2]%nat (f1 (fun i => l$[i] * r$[i; i])) = true.
Proof. run_tac. Qed.

Example presum_lhs :
  let l := sample 1 [2; 3]%nat in let r := sample 2 [2; 2]%nat in
  by_path "ij,ii->i" [l; r] [2]%nat (f1 (fun i => loop 3 (fun j => l$[i; j] * r$[i; i]))) = true.
Proof. run_tac. Qed.

(** The right operand is a 5 by 3 by 4 array with its axes permuted by [1, 2, 0]. *)
Example it_tolerates_permuted_axes :
  let l := sample 1 [2; 3; 4]%nat in
  match permuted_axes (sample 2 [5; 3; 4]%nat) [1; 2; 0]%nat with
  | Ok r =>
      a_shape r = [3; 4; 5]%nat /\
      by_path "ijk,jkl->il" [l; r] [2; 5]%nat
        (f2 (fun i x => loop 3 (fun j => loop 4 (fun k => l$[i; j; k] * r$[j; k; x])))) = true
  | _ => False
  end.
Proof. vm_compute. auto. Qed.

(** ** tests/einsum_test.rs:1015-1166, three and four operands *)

Example it_contracts_three_matrices :
  let a := sample 1 [2; 3]%nat in let b := sample 2 [3; 4]%nat in let c := sample 3 [4; 5]%nat in
  by_path "ij,jk,kl->il" [a; b; c] [2; 5]%nat
    (f2 (fun i l => loop 3 (fun j => loop 4 (fun k => a$[i; j] * b$[j; k] * c$[k; l])))) = true.
Proof. run_tac. Qed.

Example it_contracts_three_matrices_with_repeats_1 :
  let a := sample 1 [2; 3]%nat in let b := sample 2 [3; 6; 6; 7; 4]%nat in let c := sample 3 [4; 5]%nat in
  by_path "ij,jmmnk,kl->il" [a; b; c] [2; 5]%nat
    (f2 (fun i l => loop 3 (fun j => loop 4 (fun k => loop 6 (fun m => loop 7 (fun n =>
       a$[i; j] * b$[j; m; m; n; k] * c$[k; l])))))) = true.
Proof. run_tac. Qed.

Example it_contracts_three_matrices_with_repeats_2 :
  let a := sample 1 [2; 6; 6; 7; 3]%nat in let b := sample 2 [3; 4]%nat in let c := sample 3 [4; 6; 5]%nat in
  by_path "immnj,jk,kml->il" [a; b; c] [2; 5]%nat
    (f2 (fun i l => loop 3 (fun j => loop 4 (fun k => loop 6 (fun m => loop 7 (fun n =>
       a$[i; m; m; n; j] * b$[j; k] * c$[k; m; l])))))) = true.
Proof. run_tac. Qed.

Example it_contracts_three_matrices_with_repeats_3 :
  let a := sample 1 [2; 6; 6; 7; 3]%nat in let b := sample 2 [3; 4]%nat in let c := sample 3 [4; 5]%nat in
  by_path "immnj,jk,kl->mil" [a; b; c] [6; 2; 5]%nat
    (f3 (fun m i l => loop 3 (fun j => loop 4 (fun k => loop 7 (fun n =>
       a$[i; m; m; n; j] * b$[j; k] * c$[k; l]))))) = true.
Proof. run_tac. Qed.

Example it_contracts_four_matrices :
  let a := sample 1 [2; 3]%nat in let b := sample 2 [3; 4]%nat in
  let c := sample 3 [4; 5]%nat in let d := sample 4 [5; 6]%nat in
  by_path "ij,jk,kl,lm->il" [a; b; c; d] [2; 5]%nat
    (f2 (fun i l => loop 3 (fun j => loop 4 (fun k => loop 6 (fun m =>
       a$[i; j] * b$[j; k] * c$[k; l] * d$[l; m]))))) = true.
Proof. run_tac. Qed.

(** ** lib.rs:25-165, the documentation of the crate *)

(** [Array::range(0., n, 1.).into_shape(sh)]. *)
Definition range (sh : list nat) : arr Z :=
  zarr sh (map Z.of_nat (seq 0 (fold_right Nat.mul 1%nat sh))).
Definition doc_a := range [5; 5]%nat.
Definition doc_c := range [2; 3]%nat.
Definition doc_d := range [3; 4]%nat.

(** The elements of a result, in row-major order. *)
Definition listed (r : res (arr Z)) : option (list nat * list Z) :=
  match r with Ok a => Some (a_shape a, map (at_ a) (indices (a_shape a))) | _ => None end.

Example doc_trace : listed (einsum id_hash c_backend (chars "ii") [doc_a]) = Some ([], [60]).
Proof. run_tac. Qed.
Example doc_diagonal :
  listed (einsum id_hash c_backend (chars "ii->i") [doc_a]) = Some ([5]%nat, [0; 6; 12; 18; 24]).
Proof. run_tac. Qed.
Example doc_sum_axis :
  listed (einsum id_hash c_backend (chars "ij->i") [doc_a]) = Some ([5]%nat, [10; 35; 60; 85; 110]).
Proof. run_tac. Qed.
Example doc_transpose :
  listed (einsum id_hash c_backend (chars "ji") [doc_c]) = Some ([3; 2]%nat, [0; 3; 1; 4; 2; 5])
  /\ listed (einsum id_hash c_backend (chars "ij->ji") [doc_c]) = Some ([3; 2]%nat, [0; 3; 1; 4; 2; 5]).
Proof. split; run_tac. Qed.
Example doc_matrix_product :
  let r := Some ([2; 4]%nat, [20; 23; 26; 29; 56; 68; 80; 92]) in
  listed (einsum id_hash c_backend (chars "ij,jk->ik") [doc_c; doc_d]) = r
  /\ listed (do p <- einsum_path_fn id_hash (chars "ij,jk->ik") [doc_c; doc_d] Naive;
             contract_operands c_backend p [doc_c; doc_d]) = r.
Proof. split; run_tac. Qed.

(** README.md:15-23: prints [Ok([7, 10])]. *)
Example readme_example :
  listed (einsum id_hash c_backend (chars "i,ij->j") [zarr [2]%nat [1; 2]; zarr [2; 2]%nat [1; 2; 3; 4]])
  = Some ([2]%nat, [7; 10]).
Proof. run_tac. Qed.

(** benches/bench.rs:158, on smaller arrays. *)
Example bench_stacked_outer_product :
  let l := sample 1 [2; 3; 4]%nat in let r := sample 2 [2; 2; 3]%nat in
  by_einsum "ijk,ilm->ijklm" [l; r] [2; 3; 4; 2; 3]%nat
    (fun idx => match idx with [i; j; k; x; m] => l$[i; j; k] * r$[i; x; m] | _ => 0 end) = true.
Proof. run_tac. Qed.

(** lib.rs:235-268, the documentation of [tensordot]: both examples. *)
Definition doc_m1 := range [3; 4; 5; 6]%nat.
Definition doc_m2 := range [4; 5; 6; 7]%nat.

Example doc_tensordot_1 :
  let x := listed (tensordot c_backend doc_m1 doc_m2 [1; 2; 3]%nat [0; 1; 2]%nat) in
  listed (einsum id_hash c_backend (chars "ijkl,jklm->im") [doc_m1; doc_m2]) = x
  /\ option_map fst x = Some [3; 7]%nat.
Proof. split; run_tac. Qed.

(** On smaller arrays than in the documentation, where the result has 12096 elements. *)
Example doc_tensordot_2 :
  let a := range [2; 3; 4; 2]%nat in let b := range [3; 4; 2; 2]%nat in
  let x := listed (tensordot c_backend a b [2]%nat [1]%nat) in
  listed (einsum id_hash c_backend (chars "abic,dief->abcdef") [a; b]) = x
  /\ option_map fst x = Some [2; 3; 2; 3; 2; 2]%nat.
Proof. split; run_tac. Qed.
