(** The identities checked by the repository's tests, for all operands (C56). *)
From Verif Require Import Base BaseFacts NDArray Validation Optimizers Path Api Spec ValidationFacts SumFacts ArrayFacts
  PathFacts EinsumMain EinsumProps AlgebraFacts TensordotFacts TensordotMain ParserFacts LoopFacts TestFacts Examples.
From Coq Require Import Lia.
From Coq Require String.
Import String.StringSyntax.
Local Open Scope string_scope.
Local Open Scope list_scope.

(** tests/einsum_test.rs compares the library with loops written out by hand: an array of zeros, one
    loop per label, and [answer[..] += a[..] * b[..] * ...] inside. [loop_answer] (LoopFacts.v) is that
    program for any labels. It computes what the library returns, whatever the order of the loops. *)
Theorem loops_compute_what_einsum_returns :
  forall (A : Type) (Sc : Scalar A), semiring A ->
  forall h lay s arrays ops out size order, hash_ok h -> backend_ok lay ->
    call_ok s (map (@a_shape A) arrays) ops out size -> Forall wf arrays -> no_empty_diagonal size ops ->
    NoDup order -> (forall c, In c order <-> In c (concat ops)) ->
    computes h lay s arrays (map size out) (loop_answer size order arrays ops out).
Proof.
  intros A Sc SR h lay s arrays ops out size order Hh Hlay Hc Hw Hn Ho Hi.
  apply (computes_value SR h lay Hh Hlay s arrays ops out size); auto. intros o Hb. symmetry.
  destruct Hc as (_ & [No Hio] & _). apply loop_answer_ok; auto using semiring_near.
Qed.
Print Assumptions loops_compute_what_einsum_returns.

(** The loops of it_contracts_three_matrices_with_repeats_3, which run over i, l, j, k, m, n. *)
Example loops_case :
  let a := zarr [2; 2; 2; 1; 1] [1; 2; 3; 4; 5; 6; 7; 8]%Z in
  let b := zarr [1; 2] [1; -1]%Z in
  let c := zarr [2; 1] [3; 5]%Z in
  let ops := [chars "immnj"; chars "jk"; chars "kl"] in
  let size := size_fn (combine (chars "imnjkl") [2; 2; 1; 1; 2; 1]) in
  call_ok (chars "immnj,jk,kl->mil") (map (@a_shape Z) [a; b; c]) ops (chars "mil") size
  /\ no_empty_diagonal size ops
  /\ NoDup (chars "iljkmn") /\ (forall x, In x (chars "iljkmn") <-> In x (concat ops))
  /\ map (loop_answer size (chars "iljkmn") [a; b; c] ops (chars "mil")) (indices [2; 2; 1]) = [-2; -10; -8; -16]%Z
  /\ (do r <- einsum id_hash c_backend (chars "immnj,jk,kl->mil") [a; b; c]; a_iter r) = Ok [-2; -10; -8; -16]%Z.
Proof.
  cbv zeta. split; [apply check_call_ok; check_call_tac|]. split; [apply no_empty_b_ok; reflexivity|].
  split; [apply nodup_b_ok; reflexivity|].
  split; [|split; vm_compute; reflexivity]. intros x. cbn. tauto.
Qed.

(** Tests with one operand. A test whose operand repeats a label holds for lengths other than 0 (C08). *)
Theorem tests_of_one_operand :
  forall (A : Type) (Sc : Scalar A), semiring A ->
  forall h lay, hash_ok h -> backend_ok lay ->
  forall (s : arr A), wf s ->
    (* it_computes_the_trace *)
    (forall ni, a_shape s = [ni; ni] -> ni <> 0 ->
       computes h lay (chars "ii->i") [s] [ni]
         (fun o => match o with [i] => elem s [i; i] | _ => szero end)) /\
    (* it_transposes_a_matrix *)
    (forall ni nj, a_shape s = [nj; ni] ->
       computes h lay (chars "ji") [s] [ni; nj]
         (fun o => match o with [i; j] => elem s [j; i] | _ => szero end)) /\
    (* it_transposes_a_matrix *)
    (forall ni nj, a_shape s = [ni; nj] ->
       computes h lay (chars "ij->ji") [s] [nj; ni]
         (fun o => match o with [j; i] => elem s [i; j] | _ => szero end)) /\
    (* it_transposes_a_matrix *)
    (forall ni nj, a_shape s = [nj; ni] ->
       computes h lay (chars "ji->ij") [s] [ni; nj]
         (fun o => match o with [i; j] => elem s [j; i] | _ => szero end)) /\
    (* it_clones_a_matrix *)
    (forall ni nj, a_shape s = [ni; nj] ->
       computes h lay (chars "ij->ij") [s] [ni; nj]
         (fun o => match o with [i; j] => elem s [i; j] | _ => szero end)) /\
    (* it_collapses_a_singleton_with_noncontiguous_strides *)
    (forall ni, a_shape s = [ni; ni] -> ni <> 0 ->
       computes h lay (chars "ii->") [s] []
         (fun _ => sum_n ni (fun i => elem s [i; i]))) /\
    (* it_collapses_a_singleton_without_repeats *)
    (forall ni nj nk nl, a_shape s = [ni; nj; nk; nl] ->
       computes h lay (chars "ijkl->lij") [s] [nl; ni; nj]
         (fun o => match o with [l; i; j] => sum_n nk (fun k => elem s [i; j; k; l]) | _ => szero end)) /\
    (* it_diagonalizes_a_singleton *)
    (forall ni nj nk, a_shape s = [nj; nk; ni; ni; ni] -> nj <> 0 -> nk <> 0 -> ni <> 0 ->
       computes h lay (chars "jkiii->jik") [s] [nj; ni; nk]
         (fun o => match o with [j; i; k] => elem s [j; k; i; i; i] | _ => szero end)) /\
    (* it_collapses_a_singleton_with_multiple_repeats *)
    (forall ni nj nk, a_shape s = [nk; nj; ni; nj; ni] -> nk <> 0 -> nj <> 0 -> ni <> 0 ->
       computes h lay (chars "kjiji->ijk") [s] [ni; nj; nk]
         (fun o => match o with [i; j; k] => elem s [k; j; i; j; i] | _ => szero end)) /\
    (* it_collapses_a_singleton_with_a_repeat_that_gets_summed *)
    (forall ni nj, a_shape s = [ni; ni; nj] -> ni <> 0 -> nj <> 0 ->
       computes h lay (chars "iij->j") [s] [nj]
         (fun o => match o with [j] => sum_n ni (fun i => elem s [i; i; j]) | _ => szero end)) /\
    (* it_collapses_a_singleton_with_multiple_repeats_that_get_summed *)
    (forall ni nj nk, a_shape s = [ni; ni; nj; nk; nk] -> ni <> 0 -> nj <> 0 -> nk <> 0 ->
       computes h lay (chars "iijkk->j") [s] [nj]
         (fun o => match o with [j] => sum_n ni (fun i => sum_n nk (fun k => elem s [i; i; j; k; k])) | _ => szero end)) /\
    (* it_sums_a_singleton *)
    (forall ni nj nk, a_shape s = [ni; nj; nk] ->
       computes h lay (chars "ijk->") [s] []
         (fun _ => sum_n ni (fun i => sum_n nj (fun j => sum_n nk (fun k => elem s [i; j; k]))))) /\
    (* it_collapses_a_singleton_with_multiple_sums *)
    (forall ni nj nk, a_shape s = [ni; nj; nk] ->
       computes h lay (chars "ijk->k") [s] [nk]
         (fun o => match o with [k] => sum_n ni (fun i => sum_n nj (fun j => elem s [i; j; k])) | _ => szero end)) /\
    (* it_collapses_a_singleton *)
    (forall ni nj nk nl, a_shape s = [ni; ni; nj; nk; nl] -> ni <> 0 -> nj <> 0 -> nk <> 0 -> nl <> 0 ->
       computes h lay (chars "iijkl->lij") [s] [nl; ni; nj]
         (fun o => match o with [l; i; j] => sum_n nk (fun k => elem s [i; i; j; k; l]) | _ => szero end)).
Proof.
  intros A Sc SR h lay Hh Hlay s W0.
  repeat apply conj; intros.
  - row [chars "ii"] (chars "i") (chars "") (size_fn (combine (chars "i") [ni])).
  - row [chars "ji"] (chars "ij") (chars "") (size_fn (combine (chars "ji") [nj; ni])).
  - row [chars "ij"] (chars "ji") (chars "") (size_fn (combine (chars "ij") [ni; nj])).
  - row [chars "ji"] (chars "ij") (chars "") (size_fn (combine (chars "ji") [nj; ni])).
  - row [chars "ij"] (chars "ij") (chars "") (size_fn (combine (chars "ij") [ni; nj])).
  - row [chars "ii"] (chars "") (chars "i") (size_fn (combine (chars "i") [ni])).
  - row [chars "ijkl"] (chars "lij") (chars "k") (size_fn (combine (chars "ijkl") [ni; nj; nk; nl])).
  - row [chars "jkiii"] (chars "jik") (chars "") (size_fn (combine (chars "jki") [nj; nk; ni])).
  - row [chars "kjiji"] (chars "ijk") (chars "") (size_fn (combine (chars "kji") [nk; nj; ni])).
  - row [chars "iij"] (chars "j") (chars "i") (size_fn (combine (chars "ij") [ni; nj])).
  - row [chars "iijkk"] (chars "j") (chars "ik") (size_fn (combine (chars "ijk") [ni; nj; nk])).
  - row [chars "ijk"] (chars "") (chars "ijk") (size_fn (combine (chars "ijk") [ni; nj; nk])).
  - row [chars "ijk"] (chars "k") (chars "ij") (size_fn (combine (chars "ijk") [ni; nj; nk])).
  - row [chars "iijkl"] (chars "lij") (chars "k") (size_fn (combine (chars "ijkl") [ni; nj; nk; nl])).
Qed.
Print Assumptions tests_of_one_operand.

(** Tests with two operands. *)
Theorem tests_of_two_operands :
  forall (A : Type) (Sc : Scalar A), semiring A ->
  forall h lay, hash_ok h -> backend_ok lay ->
  forall (a b : arr A), wf a -> wf b ->
    (* it_multiplies_two_matrices *)
    (forall ni nj nk, a_shape a = [ni; nj] -> a_shape b = [nj; nk] ->
       computes h lay (chars "ij,jk->ik") [a; b] [ni; nk]
         (fun o => match o with [i; k] => sum_n nj (fun j => smul (elem a [i; j]) (elem b [j; k])) | _ => szero end)) /\
    (* deduped_handles_dot_product *)
    (forall ni, a_shape a = [ni] -> a_shape b = [ni] ->
       computes h lay (chars "i,i->") [a; b] []
         (fun _ => sum_n ni (fun i => smul (elem a [i]) (elem b [i])))) /\
    (* deduped_handles_hadamard_product *)
    (forall ni, a_shape a = [ni] -> a_shape b = [ni] ->
       computes h lay (chars "i,i->i") [a; b] [ni]
         (fun o => match o with [i] => smul (elem a [i]) (elem b [i]) | _ => szero end)) /\
    (* deduped_handles_outer_product_vec_vec *)
    (forall ni nj, a_shape a = [ni] -> a_shape b = [nj] ->
       computes h lay (chars "i,j->ij") [a; b] [ni; nj]
         (fun o => match o with [i; j] => smul (elem a [i]) (elem b [j]) | _ => szero end)) /\
    (* deduped_handles_matrix_vector_1 *)
    (forall ni nj, a_shape a = [ni; nj] -> a_shape b = [nj] ->
       computes h lay (chars "ij,j->i") [a; b] [ni]
         (fun o => match o with [i] => sum_n nj (fun j => smul (elem a [i; j]) (elem b [j])) | _ => szero end)) /\
    (* deduped_handles_matrix_vector_2 *)
    (forall ni nj, a_shape a = [ni] -> a_shape b = [ni; nj] ->
       computes h lay (chars "i,ij->j") [a; b] [nj]
         (fun o => match o with [j] => sum_n ni (fun i => smul (elem a [i]) (elem b [i; j])) | _ => szero end)) /\
    (* deduped_handles_matrix_vector_3 *)
    (forall ni nj, a_shape a = [ni; nj] -> a_shape b = [ni] ->
       computes h lay (chars "ij,i->j") [a; b] [nj]
         (fun o => match o with [j] => sum_n ni (fun i => smul (elem a [i; j]) (elem b [i])) | _ => szero end)) /\
    (* deduped_handles_matrix_vector_4 *)
    (forall ni nj, a_shape a = [nj] -> a_shape b = [ni; nj] ->
       computes h lay (chars "j,ij->i") [a; b] [ni]
         (fun o => match o with [i] => sum_n nj (fun j => smul (elem a [j]) (elem b [i; j])) | _ => szero end)) /\
    (* deduped_handles_stacked_scalar_vector_product_1 *)
    (forall ni nj, a_shape a = [ni; nj] -> a_shape b = [ni] ->
       computes h lay (chars "ij,i->ij") [a; b] [ni; nj]
         (fun o => match o with [i; j] => smul (elem a [i; j]) (elem b [i]) | _ => szero end)) /\
    (* deduped_handles_stacked_scalar_vector_product_2 *)
    (forall ni nj, a_shape a = [ni; nj] -> a_shape b = [ni] ->
       computes h lay (chars "ij,i->ji") [a; b] [nj; ni]
         (fun o => match o with [j; i] => smul (elem a [i; j]) (elem b [i]) | _ => szero end)) /\
    (* deduped_handles_stacked_scalar_vector_product_3 *)
    (forall ni nj, a_shape a = [ni] -> a_shape b = [nj; ni] ->
       computes h lay (chars "i,ji->ij") [a; b] [ni; nj]
         (fun o => match o with [i; j] => smul (elem a [i]) (elem b [j; i]) | _ => szero end)) /\
    (* deduped_handles_summed_hadamard_product_aka_stacked_1d_tensordot_1 *)
    (forall ni nj, a_shape a = [ni; nj] -> a_shape b = [ni; nj] ->
       computes h lay (chars "ij,ij->i") [a; b] [ni]
         (fun o => match o with [i] => sum_n nj (fun j => smul (elem a [i; j]) (elem b [i; j])) | _ => szero end)) /\
    (* deduped_handles_summed_hadamard_product_aka_stacked_1d_tensordot_2 *)
    (forall ni nj, a_shape a = [ni; nj] -> a_shape b = [nj; ni] ->
       computes h lay (chars "ij,ji->i") [a; b] [ni]
         (fun o => match o with [i] => sum_n nj (fun j => smul (elem a [i; j]) (elem b [j; i])) | _ => szero end)) /\
    (* deduped_handles_summed_hadamard_product_aka_stacked_1d_tensordot_3 *)
    (forall ni nj, a_shape a = [nj; ni] -> a_shape b = [ni; nj] ->
       computes h lay (chars "ji,ij->i") [a; b] [ni]
         (fun o => match o with [i] => sum_n nj (fun j => smul (elem a [j; i]) (elem b [i; j])) | _ => szero end)) /\
    (* deduped_handles_summed_hadamard_product_multiple_stacked_axes *)
    (forall ni nj nk nl, a_shape a = [ni; nj; nk; nl] -> a_shape b = [nj; nl; nk; ni] ->
       computes h lay (chars "ijkl,jlki->kji") [a; b] [nk; nj; ni]
         (fun o => match o with [k; j; i] => sum_n nl (fun l => smul (elem a [i; j; k; l]) (elem b [j; l; k; i])) | _ => szero end)) /\
    (* deduped_handles_2d_hadamard_product *)
    (forall ni nj, a_shape a = [ni; nj] -> a_shape b = [ni; nj] ->
       computes h lay (chars "ij,ij->ij") [a; b] [ni; nj]
         (fun o => match o with [i; j] => smul (elem a [i; j]) (elem b [i; j]) | _ => szero end)) /\
    (* deduped_handles_2d_hadamard_product_2 *)
    (forall ni nj, a_shape a = [ni; nj] -> a_shape b = [ni; nj] ->
       computes h lay (chars "ij,ij->ji") [a; b] [nj; ni]
         (fun o => match o with [j; i] => smul (elem a [i; j]) (elem b [i; j]) | _ => szero end)) /\
    (* deduped_handles_2d_hadamard_product_3 *)
    (forall ni nj, a_shape a = [nj; ni] -> a_shape b = [ni; nj] ->
       computes h lay (chars "ji,ij->ij") [a; b] [ni; nj]
         (fun o => match o with [i; j] => smul (elem a [j; i]) (elem b [i; j]) | _ => szero end)) /\
    (* deduped_handles_double_dot_product_mat_mat *)
    (forall ni nj, a_shape a = [ni; nj] -> a_shape b = [ni; nj] ->
       computes h lay (chars "ij,ij->") [a; b] []
         (fun _ => sum_n ni (fun i => sum_n nj (fun j => smul (elem a [i; j]) (elem b [i; j]))))) /\
    (* deduped_handles_outer_product_vect_mat_1 *)
    (forall ni nj nk, a_shape a = [ni; nj] -> a_shape b = [nk] ->
       computes h lay (chars "ij,k->kij") [a; b] [nk; ni; nj]
         (fun o => match o with [k; i; j] => smul (elem a [i; j]) (elem b [k]) | _ => szero end)) /\
    (* deduped_handles_outer_product_vect_mat_2 *)
    (forall ni nj nk, a_shape a = [nk] -> a_shape b = [ni; nj] ->
       computes h lay (chars "k,ij->kij") [a; b] [nk; ni; nj]
         (fun o => match o with [k; i; j] => smul (elem a [k]) (elem b [i; j]) | _ => szero end)) /\
    (* deduped_handles_outer_product_mat_mat *)
    (forall ni nj nk nl, a_shape a = [nl; nk] -> a_shape b = [ni; nj] ->
       computes h lay (chars "lk,ij->kilj") [a; b] [nk; ni; nl; nj]
         (fun o => match o with [k; i; l; j] => smul (elem a [l; k]) (elem b [i; j]) | _ => szero end)) /\
    (* deduped_handles_matrix_product_1 *)
    (forall ni nj nk, a_shape a = [ni; nj] -> a_shape b = [nj; nk] ->
       computes h lay (chars "ij,jk") [a; b] [ni; nk]
         (fun o => match o with [i; k] => sum_n nj (fun j => smul (elem a [i; j]) (elem b [j; k])) | _ => szero end)) /\
    (* it_handles_stacked_matrix_product_1 *)
    (forall ni nj nk nn, a_shape a = [nn; ni; nj] -> a_shape b = [nn; nj; nk] ->
       computes h lay (chars "nij,njk->nik") [a; b] [nn; ni; nk]
         (fun o => match o with [n; i; k] => sum_n nj (fun j => smul (elem a [n; i; j]) (elem b [n; j; k])) | _ => szero end)) /\
    (* it_handles_stacked_matrix_product_2 *)
    (forall ni nj nk nn, a_shape a = [nn; nj; ni] -> a_shape b = [nn; nj; nk] ->
       computes h lay (chars "nji,njk->nik") [a; b] [nn; ni; nk]
         (fun o => match o with [n; i; k] => sum_n nj (fun j => smul (elem a [n; j; i]) (elem b [n; j; k])) | _ => szero end)) /\
    (* it_handles_stacked_matrix_product_3 *)
    (forall ni nj nk nn, a_shape a = [nj; ni; nn] -> a_shape b = [nn; nj; nk] ->
       computes h lay (chars "jin,njk->nik") [a; b] [nn; ni; nk]
         (fun o => match o with [n; i; k] => sum_n nj (fun j => smul (elem a [j; i; n]) (elem b [n; j; k])) | _ => szero end)) /\
    (* deduped_handles_matrix_product_2 *)
    (forall ni nj nk, a_shape a = [ni; nj] -> a_shape b = [nk; nj] ->
       computes h lay (chars "ij,kj") [a; b] [ni; nk]
         (fun o => match o with [i; k] => sum_n nj (fun j => smul (elem a [i; j]) (elem b [k; j])) | _ => szero end)) /\
    (* deduped_handles_stacked_outer_product_1 *)
    (forall ni nj nk, a_shape a = [ni; nj] -> a_shape b = [nk; ni] ->
       computes h lay (chars "ij,ki->ijk") [a; b] [ni; nj; nk]
         (fun o => match o with [i; j; k] => smul (elem a [i; j]) (elem b [k; i]) | _ => szero end)) /\
    (* diagonals_product *)
    (forall ni, a_shape a = [ni; ni] -> a_shape b = [ni; ni] -> ni <> 0 ->
       computes h lay (chars "ii,ii->i") [a; b] [ni]
         (fun o => match o with [i] => smul (elem a [i; i]) (elem b [i; i]) | _ => szero end)) /\
    (* diagonals_product_lhs *)
    (forall ni, a_shape a = [ni; ni] -> a_shape b = [ni] -> ni <> 0 ->
       computes h lay (chars "ii,i->i") [a; b] [ni]
         (fun o => match o with [i] => smul (elem a [i; i]) (elem b [i]) | _ => szero end)) /\
    (* diagonals_product_rhs *)
    (forall ni, a_shape a = [ni] -> a_shape b = [ni; ni] -> ni <> 0 ->
       computes h lay (chars "i,ii->i") [a; b] [ni]
         (fun o => match o with [i] => smul (elem a [i]) (elem b [i; i]) | _ => szero end)) /\
    (* presum_lhs *)
    (forall ni nj, a_shape a = [ni; nj] -> a_shape b = [ni; ni] -> ni <> 0 ->
       computes h lay (chars "ij,ii->i") [a; b] [ni]
         (fun o => match o with [i] => sum_n nj (fun j => smul (elem a [i; j]) (elem b [i; i])) | _ => szero end)) /\
    (* it_tolerates_permuted_axes *)
    (forall ni nj nk nl, a_shape a = [ni; nj; nk] -> a_shape b = [nj; nk; nl] ->
       computes h lay (chars "ijk,jkl->il") [a; b] [ni; nl]
         (fun o => match o with [i; l] => sum_n nj (fun j => sum_n nk (fun k => smul (elem a [i; j; k]) (elem b [j; k; l]))) | _ => szero end)).
Proof.
  intros A Sc SR h lay Hh Hlay a b W0 W1.
  repeat apply conj; intros.
  - row [chars "ij"; chars "jk"] (chars "ik") (chars "j") (size_fn (combine (chars "ijk") [ni; nj; nk])).
  - row [chars "i"; chars "i"] (chars "") (chars "i") (size_fn (combine (chars "i") [ni])).
  - row [chars "i"; chars "i"] (chars "i") (chars "") (size_fn (combine (chars "i") [ni])).
  - row [chars "i"; chars "j"] (chars "ij") (chars "") (size_fn (combine (chars "ij") [ni; nj])).
  - row [chars "ij"; chars "j"] (chars "i") (chars "j") (size_fn (combine (chars "ij") [ni; nj])).
  - row [chars "i"; chars "ij"] (chars "j") (chars "i") (size_fn (combine (chars "ij") [ni; nj])).
  - row [chars "ij"; chars "i"] (chars "j") (chars "i") (size_fn (combine (chars "ij") [ni; nj])).
  - row [chars "j"; chars "ij"] (chars "i") (chars "j") (size_fn (combine (chars "ji") [nj; ni])).
  - row [chars "ij"; chars "i"] (chars "ij") (chars "") (size_fn (combine (chars "ij") [ni; nj])).
  - row [chars "ij"; chars "i"] (chars "ji") (chars "") (size_fn (combine (chars "ij") [ni; nj])).
  - row [chars "i"; chars "ji"] (chars "ij") (chars "") (size_fn (combine (chars "ij") [ni; nj])).
  - row [chars "ij"; chars "ij"] (chars "i") (chars "j") (size_fn (combine (chars "ij") [ni; nj])).
  - row [chars "ij"; chars "ji"] (chars "i") (chars "j") (size_fn (combine (chars "ij") [ni; nj])).
  - row [chars "ji"; chars "ij"] (chars "i") (chars "j") (size_fn (combine (chars "ji") [nj; ni])).
  - row [chars "ijkl"; chars "jlki"] (chars "kji") (chars "l") (size_fn (combine (chars "ijkl") [ni; nj; nk; nl])).
  - row [chars "ij"; chars "ij"] (chars "ij") (chars "") (size_fn (combine (chars "ij") [ni; nj])).
  - row [chars "ij"; chars "ij"] (chars "ji") (chars "") (size_fn (combine (chars "ij") [ni; nj])).
  - row [chars "ji"; chars "ij"] (chars "ij") (chars "") (size_fn (combine (chars "ji") [nj; ni])).
  - row [chars "ij"; chars "ij"] (chars "") (chars "ij") (size_fn (combine (chars "ij") [ni; nj])).
  - row [chars "ij"; chars "k"] (chars "kij") (chars "") (size_fn (combine (chars "ijk") [ni; nj; nk])).
  - row [chars "k"; chars "ij"] (chars "kij") (chars "") (size_fn (combine (chars "kij") [nk; ni; nj])).
  - row [chars "lk"; chars "ij"] (chars "kilj") (chars "") (size_fn (combine (chars "lkij") [nl; nk; ni; nj])).
  - row [chars "ij"; chars "jk"] (chars "ik") (chars "j") (size_fn (combine (chars "ijk") [ni; nj; nk])).
  - row [chars "nij"; chars "njk"] (chars "nik") (chars "j") (size_fn (combine (chars "nijk") [nn; ni; nj; nk])).
  - row [chars "nji"; chars "njk"] (chars "nik") (chars "j") (size_fn (combine (chars "njik") [nn; nj; ni; nk])).
  - row [chars "jin"; chars "njk"] (chars "nik") (chars "j") (size_fn (combine (chars "jink") [nj; ni; nn; nk])).
  - row [chars "ij"; chars "kj"] (chars "ik") (chars "j") (size_fn (combine (chars "ijk") [ni; nj; nk])).
  - row [chars "ij"; chars "ki"] (chars "ijk") (chars "") (size_fn (combine (chars "ijk") [ni; nj; nk])).
  - row [chars "ii"; chars "ii"] (chars "i") (chars "") (size_fn (combine (chars "i") [ni])).
  - row [chars "ii"; chars "i"] (chars "i") (chars "") (size_fn (combine (chars "i") [ni])).
  - row [chars "i"; chars "ii"] (chars "i") (chars "") (size_fn (combine (chars "i") [ni])).
  - row [chars "ij"; chars "ii"] (chars "i") (chars "j") (size_fn (combine (chars "ij") [ni; nj])).
  - row [chars "ijk"; chars "jkl"] (chars "il") (chars "jk") (size_fn (combine (chars "ijkl") [ni; nj; nk; nl])).
Qed.
Print Assumptions tests_of_two_operands.

(** Tests with three operands. *)
Theorem tests_of_three_operands :
  forall (A : Type) (Sc : Scalar A), semiring A ->
  forall h lay, hash_ok h -> backend_ok lay ->
  forall (a b c : arr A), wf a -> wf b -> wf c ->
    (* it_contracts_three_matrices *)
    (forall ni nj nk nl, a_shape a = [ni; nj] -> a_shape b = [nj; nk] -> a_shape c = [nk; nl] ->
       computes h lay (chars "ij,jk,kl->il") [a; b; c] [ni; nl]
         (fun o => match o with [i; l] => sum_n nj (fun j => sum_n nk (fun k => smul (smul (elem a [i; j]) (elem b [j; k])) (elem c [k; l]))) | _ => szero end)) /\
    (* it_contracts_three_matrices_with_repeats_1 *)
    (forall ni nj nk nl nm nn, a_shape a = [ni; nj] -> a_shape b = [nj; nm; nm; nn; nk] -> a_shape c = [nk; nl] -> nj <> 0 -> nm <> 0 -> nn <> 0 -> nk <> 0 ->
       computes h lay (chars "ij,jmmnk,kl->il") [a; b; c] [ni; nl]
         (fun o => match o with [i; l] => sum_n nj (fun j => sum_n nk (fun k => sum_n nm (fun m => sum_n nn (fun n => smul (smul (elem a [i; j]) (elem b [j; m; m; n; k])) (elem c [k; l]))))) | _ => szero end)) /\
    (* it_contracts_three_matrices_with_repeats_2 *)
    (forall ni nj nk nl nm nn, a_shape a = [ni; nm; nm; nn; nj] -> a_shape b = [nj; nk] -> a_shape c = [nk; nm; nl] -> ni <> 0 -> nm <> 0 -> nn <> 0 -> nj <> 0 ->
       computes h lay (chars "immnj,jk,kml->il") [a; b; c] [ni; nl]
         (fun o => match o with [i; l] => sum_n nj (fun j => sum_n nk (fun k => sum_n nm (fun m => sum_n nn (fun n => smul (smul (elem a [i; m; m; n; j]) (elem b [j; k])) (elem c [k; m; l]))))) | _ => szero end)) /\
    (* it_contracts_three_matrices_with_repeats_3 *)
    (forall ni nj nk nl nm nn, a_shape a = [ni; nm; nm; nn; nj] -> a_shape b = [nj; nk] -> a_shape c = [nk; nl] -> ni <> 0 -> nm <> 0 -> nn <> 0 -> nj <> 0 ->
       computes h lay (chars "immnj,jk,kl->mil") [a; b; c] [nm; ni; nl]
         (fun o => match o with [m; i; l] => sum_n nj (fun j => sum_n nk (fun k => sum_n nn (fun n => smul (smul (elem a [i; m; m; n; j]) (elem b [j; k])) (elem c [k; l])))) | _ => szero end)).
Proof.
  intros A Sc SR h lay Hh Hlay a b c W0 W1 W2.
  repeat apply conj; intros.
  - row [chars "ij"; chars "jk"; chars "kl"] (chars "il") (chars "jk") (size_fn (combine (chars "ijkl") [ni; nj; nk; nl])).
  - row [chars "ij"; chars "jmmnk"; chars "kl"] (chars "il") (chars "jkmn") (size_fn (combine (chars "ijmnkl") [ni; nj; nm; nn; nk; nl])).
  - row [chars "immnj"; chars "jk"; chars "kml"] (chars "il") (chars "jkmn") (size_fn (combine (chars "imnjkl") [ni; nm; nn; nj; nk; nl])).
  - row [chars "immnj"; chars "jk"; chars "kl"] (chars "mil") (chars "jkn") (size_fn (combine (chars "imnjkl") [ni; nm; nn; nj; nk; nl])).
Qed.
Print Assumptions tests_of_three_operands.

(** The test with four operands. *)
Theorem test_of_four_operands :
  forall (A : Type) (Sc : Scalar A), semiring A ->
  forall h lay, hash_ok h -> backend_ok lay ->
  forall (a b c d : arr A), wf a -> wf b -> wf c -> wf d ->
    (* it_contracts_four_matrices *)
    (forall ni nj nk nl nm, a_shape a = [ni; nj] -> a_shape b = [nj; nk] -> a_shape c = [nk; nl] -> a_shape d = [nl; nm] ->
       computes h lay (chars "ij,jk,kl,lm->il") [a; b; c; d] [ni; nl]
         (fun o => match o with [i; l] => sum_n nj (fun j => sum_n nk (fun k => sum_n nm (fun m => smul (smul (smul (elem a [i; j]) (elem b [j; k])) (elem c [k; l])) (elem d [l; m])))) | _ => szero end)).
Proof.
  intros A Sc SR h lay Hh Hlay a b c d W0 W1 W2 W3.
  intros.
  row [chars "ij"; chars "jk"; chars "kl"; chars "lm"] (chars "il") (chars "jkm") (size_fn (combine (chars "ijklm") [ni; nj; nk; nl; nm])).
Qed.
Print Assumptions test_of_four_operands.

(** The tests of tensordot: a number 1 is neutral, on either side. *)
Theorem tests_of_tensordot :
  forall (A : Type) (Sc : Scalar A), near_semiring A -> forall lay (a b : arr A), backend_ok lay -> wf a -> wf b ->
    (* tensordot_handles_degenerate_lhs, tensordot_handles_degenerate_both *)
    (a_shape a = [] -> elem a [] = sone ->
       exists r, tensordot lay a b [] [] = Ok r /\ holds r (a_shape b) (elem b)) /\
    (* tensordot_handles_degenerate_rhs *)
    (a_shape b = [] -> elem b [] = sone ->
       exists r, tensordot lay a b [] [] = Ok r /\ holds r (a_shape a) (elem a)).
Proof.
  intros A Sc SR lay a b Hlay Wa Wb.
  assert (Hok : forall n, axes_ok n []) by (intros n; split; constructor).
  destruct (tensordot_ok lay Hlay SR Hlay a b [] [] Wa Wb eq_refl (Hok _) (Hok _) eq_refl) as (r & E & Hr).
  assert (Hp : forall sh o, in_bounds sh o = true -> place (length sh) (seq 0 (length sh) ++ []) (o ++ []) = o).
  { intros sh o Ho. rewrite !app_nil_r. apply place_all. apply in_bounds_length. auto. }
  unfold tensordot_value, free_axes in Hr. cbn [existsb negb] in Hr. rewrite !filter_all, !axis_lengths_all, !seq_length in Hr.
  split; intros Hs H1; exists r; (split; [auto|]).
  - rewrite Hs in Hr. cbn [app length] in Hr. eapply holds_ext_in; [|exact Hr]. intros o Ho. cbv beta.
    cbn [axis_lengths map sum_over firstn skipn app length seq]. rewrite Hp by auto. unfold place. cbn [seq map].
    rewrite H1. apply (ns_mul_1_l SR).
  - rewrite Hs in Hr. cbn [length] in Hr. rewrite app_nil_r in Hr. eapply holds_ext_in; [|exact Hr]. intros o Ho. cbv beta.
    rewrite <- (in_bounds_length _ _ Ho) in *. rewrite firstn_all, skipn_all. cbn [axis_lengths map sum_over].
    rewrite (in_bounds_length _ _ Ho), Hp by auto. unfold place at 1. cbn [seq map]. rewrite H1. apply (mul_1_r SR).
Qed.
Print Assumptions tests_of_tensordot.

(** Operands meeting the hypotheses, and what the run returns: a diagonal stored backwards, a matrix
    times a vector, a chain. *)
Example test_cases :
  let s := mkArr [8; 7; 6; 5; 4; 3; 2; 1]%Z 7%Z [2; 2; 2] [-4; -2; -1]%Z in
  let m := zarr [2; 3] [1; 2; 3; 4; 5; 6]%Z in
  let v := zarr [3] [1; 0; -1]%Z in
  wf s /\ a_shape s = [2; 2; 2]
  /\ (do r <- einsum id_hash c_backend (chars "iij->j") [s]; a_iter r) = Ok [8; 10]%Z
  /\ wf m /\ wf v /\ a_shape m = [2; 3] /\ a_shape v = [3]
  /\ (do p <- einsum_path_fn rev_hash (chars "ij,j->i") [m; v] Naive;
      do r <- contract_operands c_backend p [m; v]; a_iter r) = Ok [-2; -2]%Z
  /\ (do p <- einsum_path_fn rev_hash (chars "ij,jk,kl->il") [m; zarr [3; 1] [1; 1; 1]%Z; zarr [1; 2] [1; -1]%Z] Reverse;
      do r <- contract_operands c_backend p [m; zarr [3; 1] [1; 1; 1]%Z; zarr [1; 2] [1; -1]%Z]; a_iter r)
     = Ok [6; -6; 15; -15]%Z
  /\ (do r <- tensordot c_backend (zarr [] [1]%Z) m [] []; a_iter r) = Ok [1; 2; 3; 4; 5; 6]%Z.
Proof.
  cbv zeta. split; [apply wf_b_ok; reflexivity|]. split; [reflexivity|]. split; [vm_compute; reflexivity|].
  split; [apply wf_b_ok; reflexivity|]. split; [apply wf_b_ok; reflexivity|]. repeat split; vm_compute; reflexivity.
Qed.
