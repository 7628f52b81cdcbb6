(** Contracting into a given view (C54). *)
From Verif Require Import Base BaseFacts NDArray Validation Optimizers Strategies Singleton Pair Path Api Spec ParserFacts
  ValidationFacts ValidationMain ArrayFacts EinsumMain MismatchFacts AssignFacts Examples.
From Coq Require Import Lia.
From Coq Require String.
Import String.StringSyntax.
Local Open Scope string_scope.
Local Open Scope list_scope.

(** [repeats_to sh sh']: read from the last axis, every axis of [sh] is as long as that of [sh'] or
    has length 1; [source sh idx] is the position of the element repeated at [idx].
    [written v w f]: [w] is the view [v] with [f idx] written at every index [idx] and every other
    element of the buffer unchanged. [separate v]: no two indices of [v] have the same place in the
    buffer, which holds of every mutable view of ndarray. *)

Theorem assignment_writes_exactly_the_view :
  forall (A : Type) (Sc : Scalar A) (v src : arr A), wf v -> separate v -> wf src ->
    (repeats_to (a_shape src) (a_shape v) ->
       exists w, assign v src = Ok w /\ written v w (fun idx => elem src (source (a_shape src) idx)))
    /\ (~ repeats_to (a_shape src) (a_shape v) -> assign v src = Panic).
Proof. intros A Sc v src. apply assign_any. Qed.
Print Assumptions assignment_writes_exactly_the_view.

(** The second column of a 3 by 2 array, read backwards: written with a vector, with a number, and
    not with a vector of length 2. *)
Definition column : arr Z := mkArr [1; 2; 3; 4; 5; 6]%Z 5%Z [3] [-2]%Z.

Lemma column_separate : separate column.
Proof.
  intros [|i [|? ?]] [|j [|? ?]] Hi Hj; cbn in Hi, Hj; try discriminate;
    rewrite ?andb_false_r in *; try discriminate.
  intros H. cbn in H. f_equal. lia.
Qed.

Example assignment_cases :
  wf column /\ separate column
  /\ assign column (zarr [3] [10; 20; 30]%Z) = Ok (mkArr [1; 30; 3; 20; 5; 10]%Z 5%Z [3] [-2]%Z)
  /\ assign column (zarr [] [7]%Z) = Ok (mkArr [1; 7; 3; 7; 5; 7]%Z 5%Z [3] [-2]%Z)
  /\ repeats_to [] [3]
  /\ assign column (zarr [2] [7; 8]%Z) = Panic.
Proof.
  split; [apply wf_b_ok; vm_compute; reflexivity|]. split; [apply column_separate|].
  split; [vm_compute; reflexivity|]. split; [vm_compute; reflexivity|]. split; [apply common_left|].
  vm_compute. reflexivity.
Qed.

(** Contracting into a view runs the contractor and writes its result, for every contractor. *)
Theorem contract_and_assign_writes_the_result :
  forall (A : Type) (Sc : Scalar A) (run : arr A -> arr A -> res (arr A)) (a b v : arr A), wf v -> separate v ->
    (forall m, run a b = Err m -> contract_and_assign_pair run a b v = Err m)
    /\ (run a b = Panic -> contract_and_assign_pair run a b v = Panic)
    /\ (forall r sh f, run a b = Ok r -> holds r sh f ->
          (repeats_to sh (a_shape v) ->
             exists w, contract_and_assign_pair run a b v = Ok w /\ written v w (fun idx => f (source sh idx)))
          /\ (~ repeats_to sh (a_shape v) -> contract_and_assign_pair run a b v = Panic)).
Proof.
  intros A Sc run a b v Hv Hs. unfold contract_and_assign_pair.
  split; [intros m ->; reflexivity|]. split; [intros ->; reflexivity|].
  intros r sh f -> Hr. cbn [rbind]. pose proof Hr as (Es & _ & Hg).
  destruct (assign_any v r Hv Hs (holds_wf r sh f Hr)) as [H1 H2]. rewrite Es in *. split; auto.
  intros H. destruct (H1 H) as (w & E & W1 & W2 & W3 & W4 & W5). exists w. split; auto.
  split; [auto|]. split; [auto|]. split; [auto|]. split; [|auto].
  eapply ArrayFacts.holds_ext; [|exact W4]. intros idx Hi. cbn beta. unfold elem. rewrite Hg; auto.
  eapply source_bounds; eauto.
Qed.
Print Assumptions contract_and_assign_writes_the_result.

(** A PairContraction made from a string writes the Einstein sum, repeated along the axes that the
    view has in addition; or panics, if the call does or the shapes do not fit. *)
Theorem pair_contraction_into_a_view :
  forall (A : Type) (Sc : Scalar A), semiring A ->
  forall h lay k s (a b v : arr A) lhs rhs out size, hash_ok h -> backend_ok lay ->
    call_ok s [a_shape a; a_shape b] [lhs; rhs] out size -> wf a -> wf b -> wf v -> separate v ->
    exists sc p, validate_and_size h s [a; b] = Ok sc /\ pair_contraction_new h k sc = Ok p
      /\ let x := contract_and_assign_pair (run_pair_contraction lay p) a b v in
         (blocked_in size [(a, lhs); (b, rhs)] out -> x = Panic)
         /\ (~ repeats_to (map size out) (a_shape v) -> x = Panic)
         /\ (~ blocked_in size [(a, lhs); (b, rhs)] out -> repeats_to (map size out) (a_shape v) ->
               exists w, x = Ok w
                 /\ written v w (fun idx => einsum_value size [a; b] [lhs; rhs] out (source (map size out) idx))).
Proof.
  intros A Sc SR h lay k s a b v lhs rhs out size Hh Hlay Hc Wa Wb Wv Sv.
  unfold validate_and_size, get_operand_shapes. cbn [map].
  destruct (from_string_ok h [20] s _ [lhs; rhs] out size Hh Hc) as (sc & E & HS).
  pose proof Hc as (_ & _ & Hs). inversion Hs as [|? ? ? ? Ea Hs']; subst. inversion Hs' as [|? ? ? ? Eb _]; subst.
  destruct (pair_contraction_outcome SR h lay k sc a b lhs rhs out size Hh Hlay HS Wa Wb) as (p & Ep & Hp); auto.
  exists sc, p. split; auto. split; auto. cbv zeta.
  destruct (contract_and_assign_writes_the_result A Sc (run_pair_contraction lay p) a b v Wv Sv) as (_ & C2 & C3).
  destruct Hp as [[Er Hb]|(Hb & r & Er & Hr)]; cbn [combine] in Hb.
  - split; [auto|]. split; [auto|]. tauto.
  - destruct (C3 r _ _ Er Hr) as [C4 C5]. split; [tauto|]. split; auto.
Qed.
Print Assumptions pair_contraction_into_a_view.

(** A matrix times a vector, into a column, and the same into both columns. *)
Example pair_contraction_into_a_view_cases :
  let a := zarr [3; 2] [1; 2; 3; 4; 5; 6]%Z in
  let b := zarr [2] [10; 1]%Z in
  let both := mkArr [0; 0; 0; 0; 0; 0]%Z 0%Z [2; 3] [1; 2]%Z in
  call_ok (chars "ij,j->i") [a_shape a; a_shape b] [chars "ij"; chars "j"] (chars "i")
    (size_fn [(105%N, 3); (106%N, 2)])
  /\ (do sc <- validate_and_size id_hash (chars "ij,j->i") [a; b];
      do p <- pair_contraction_new id_hash [] sc;
      do w <- contract_and_assign_pair (run_pair_contraction c_backend p) a b column;
      Ok (a_data w)) = Ok [1; 56; 3; 34; 5; 12]%Z
  /\ (do sc <- validate_and_size id_hash (chars "ij,j->i") [a; b];
      do p <- pair_contraction_new id_hash [] sc;
      do w <- contract_and_assign_pair (run_pair_contraction c_backend p) a b both;
      Ok (a_data w)) = Ok [12; 12; 34; 34; 56; 56]%Z.
Proof.
  cbv zeta. split; [apply check_call_ok; check_call_tac|]. split; vm_compute; reflexivity.
Qed.

(** So a result of another shape than the view is not always noticed. *)
Theorem contract_and_assign_checks_the_shape_refuted :
  ~ (forall (run : arr Z -> arr Z -> res (arr Z)) (a b v r : arr Z), wf v -> separate v -> run a b = Ok r ->
       a_shape r <> a_shape v -> contract_and_assign_pair run a b v = Panic).
Proof.
  intros H. specialize (H (run_pair c_backend OpHadamardProduct) (zarr [] [3]%Z) (zarr [] [4]%Z) column (zarr [] [12]%Z)).
  assert (E : contract_and_assign_pair (run_pair c_backend OpHadamardProduct) (zarr [] [3]%Z) (zarr [] [4]%Z) column = Panic).
  { apply H; [apply wf_b_ok; vm_compute; reflexivity|apply column_separate|vm_compute; reflexivity|discriminate]. }
  vm_compute in E. discriminate E.
Qed.
Print Assumptions contract_and_assign_checks_the_shape_refuted.
