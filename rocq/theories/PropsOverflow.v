(** Products of axis lengths fit in a machine word (C32). *)
From Verif Require Import Base NDArray Validation Optimizers Strategies Singleton Pair Path Api Spec ParserFacts
  ValidationMain ValidationFacts PairFacts Overflow OverflowFacts Examples.
From Coq Require Import Lia NArith.
From Coq Require String.
Import String.StringSyntax.
Local Open Scope string_scope.
Local Open Scope list_scope.

(** Overflow.v repeats the compilation of pair steps with every product checked against a
    largest number [M]; a product above [M] panics. The theorems say that nothing panics that
    did not before, for every [M] that bounds the products of the non-zero axis lengths of the
    arrays of the step. Taking for [M] the larger of the two products gives the bound of the
    property; taking [usize::MAX] gives the absence of overflow. *)
Definition isize_max : nat := N.to_nat 9223372036854775807.
Definition usize_max : nat := N.to_nat 18446744073709551615.

Lemma isize_le_usize : isize_max <= usize_max.
Proof. unfold isize_max, usize_max. lia. Qed.

Lemma small_le_isize n : (N.of_nat n <= 100)%N -> n <= isize_max.
Proof. intros H. unfold isize_max. lia. Qed.

Lemma isize_not_enough : exists n, n <= isize_max /\ usize_max < n * n.
Proof. exists (N.to_nat 8589934592). unfold isize_max, usize_max. split; lia. Qed.

(** Never compute with these. *)
Opaque isize_max usize_max.

(** ** One pair step *)

Theorem step_products_bounded :
  forall h k sc lhs rhs out size, hash_ok h -> sized sc [lhs; rhs] out size ->
    pair_contraction_new_c
      (Nat.max (nonzero_product (map size lhs)) (nonzero_product (map size rhs))) h k sc
    = pair_contraction_new h k sc.
Proof. intros. eapply pair_contraction_checked; eauto; lia. Qed.
Print Assumptions step_products_bounded.

Theorem step_products_do_not_overflow :
  forall h k sc lhs rhs out size, hash_ok h -> sized sc [lhs; rhs] out size ->
    nonzero_product (map size lhs) <= isize_max -> nonzero_product (map size rhs) <= isize_max ->
    pair_contraction_new_c usize_max h k sc = pair_contraction_new h k sc.
Proof.
  intros h k sc lhs rhs out size Hh HS Hl Hr. pose proof isize_le_usize.
  eapply pair_contraction_checked; eauto; eapply Nat.le_trans; eauto.
Qed.
Print Assumptions step_products_do_not_overflow.

(** A batched product with an empty axis; the bound 12 is attained, 11 would not do. *)
Example step_products_example :
  let sc := from_string_and_shapes id_hash [] (chars "bij,bjk->bik") [[2; 3; 2]; [2; 2; 0]] in
  (do sc <- sc; do p <- pair_contraction_new_c 12 id_hash [] sc; Ok (pc_method p))
  = Ok MStackedTensordotGeneral
  /\ (do sc <- sc; pair_contraction_new_c 12 id_hash [] sc) = (do sc <- sc; pair_contraction_new id_hash [] sc).
Proof. split; vm_compute; reflexivity. Qed.

Example step_products_tight :
  let sc := from_string_and_shapes id_hash [] (chars "ij,k->ijk") [[3; 4]; [5]] in
  (do sc <- sc; pair_contraction_new_c 12 id_hash [] sc) = (do sc <- sc; pair_contraction_new id_hash [] sc)
  /\ (do sc <- sc; pair_contraction_new_c 11 id_hash [] sc) = Panic.
Proof. split; vm_compute; reflexivity. Qed.

(** ** A whole path *)

(** Every operand of every step, an input or an intermediate result, has a size ndarray can
    represent. *)
Definition arrays_representable (size : char -> nat) (order : contraction_order) : Prop :=
  forall steps, order = Pairs steps ->
    Forall (fun st => Forall (fun ix => nonzero_product (map size ix) <= isize_max)
                        (operand_indices (sc_contraction (ps_sc st)))) steps.

Theorem path_products_do_not_overflow :
  forall h k k0 k1 s shapes ops out size sc strategy order, hash_ok h ->
    call_ok s shapes ops out size -> strategy = Naive \/ strategy = Reverse ->
    from_string_and_shapes h k0 s shapes = Ok sc ->
    generate_optimized_order h k1 sc strategy = Ok order ->
    arrays_representable size order ->
    from_path_c usize_max h k order = from_path h k order.
Proof.
  intros h k k0 k1 s shapes ops out size sc strategy order Hh Hc Hst E Eo Hf.
  apply (from_path_checked usize_max h k s shapes ops out size sc strategy order k0 k1 Hh Hc Hst E Eo).
  intros steps Es. specialize (Hf steps Es).
  eapply Forall_impl; [|exact Hf]. intros st Hx. eapply Forall_impl; [|exact Hx]. cbn beta.
  intros ix Hix. eapply Nat.le_trans; [exact Hix|]. apply isize_le_usize.
Qed.
Print Assumptions path_products_do_not_overflow.

Example path_products_example :
  exists sc order,
    from_string_and_shapes id_hash [] (chars "ij,jk,kl->il") [[2; 3]; [3; 2]; [2; 2]] = Ok sc
    /\ generate_optimized_order id_hash [] sc Naive = Ok order
    /\ arrays_representable (size_fn [(105%N, 2); (106%N, 3); (107%N, 2); (108%N, 2)]) order.
Proof.
  do 2 eexists. split; [vm_compute; reflexivity|]. split; [vm_compute; reflexivity|].
  intros steps H. injection H as <-.
  repeat constructor; cbn [ps_sc sc_contraction operand_indices];
    repeat constructor; apply small_le_isize; vm_compute; discriminate.
Qed.

(** ** tensordot *)

Theorem tensordot_products_do_not_overflow :
  forall (A : Type) (Sc : Scalar A) lay (a b : arr A) lhs_axes rhs_axes,
    nonzero_product (a_shape a) <= isize_max -> nonzero_product (a_shape b) <= isize_max ->
    tensordot_c usize_max lay a b lhs_axes rhs_axes = tensordot lay a b lhs_axes rhs_axes.
Proof.
  intros A Sc lay a b la ra Ha Hb. pose proof isize_le_usize.
  apply tensordot_checked; eapply Nat.le_trans; eauto.
Qed.
Print Assumptions tensordot_products_do_not_overflow.

Example tensordot_products_example :
  tensordot_c 6 c_backend (zarr [2; 3] [1; 2; 3; 4; 5; 6]%Z) (zarr [3; 2] [1; 0; 2; -1; 3; 1]%Z) [1] [0]
  = Ok (zarr [2; 2] [14; 1; 32; 1]%Z).
Proof. vm_compute. reflexivity. Qed.

(** ** Without a hypothesis on the intermediate results *)

(** The path is compiled before any intermediate result exists, so operands of representable
    sizes are not enough: for "i,j,k->ijk" with axes of length 2^33 the compilation of the second
    step multiplies 2^33 by 2^33. Such a call cannot succeed (the first result would have 2^66
    elements), but it is the crate's own product that overflows. *)
Lemma umul_panic M x y : M < x * y -> umul M x y = Panic.
Proof. intros H. unfold umul. destruct (Nat.leb_spec (x * y) M); [lia|auto]. Qed.

Lemma outer_overflow M n : n <= M -> M < n * n ->
  match validate_and_optimize_order id_hash [22] (chars "i,j,k->ijk") [[n]; [n]; [n]] Naive with
  | Ok order => from_path_c M id_hash [23] order = Panic
                /\ exists p, from_path id_hash [23] order = Ok p
  | _ => False
  end.
Proof.
  intros H1 H2.
  remember (validate_and_optimize_order id_hash [22] (chars "i,j,k->ijk") [[n]; [n]; [n]] Naive) as x eqn:E.
  cbv -[Nat.mul umul] in E. subst x. split.
  - cbv -[Nat.mul umul].
    repeat (rewrite umul_ok by lia; cbv -[Nat.mul umul]).
    rewrite umul_panic by lia. reflexivity.
  - eexists. cbv -[Nat.mul]. reflexivity.
Qed.

Theorem products_of_representable_operands_refuted :
  exists s shapes order, Forall (fun sh => nonzero_product sh <= isize_max) shapes
    /\ validate_and_optimize_order id_hash [22] s shapes Naive = Ok order
    /\ from_path_c usize_max id_hash [23] order = Panic
    /\ exists p, from_path id_hash [23] order = Ok p.
Proof.
  destruct isize_not_enough as (n & H1 & H2).
  exists (chars "i,j,k->ijk"), [[n]; [n]; [n]].
  pose proof (outer_overflow usize_max n (Nat.le_trans _ _ _ H1 isize_le_usize) H2) as H.
  destruct (validate_and_optimize_order id_hash [22] (chars "i,j,k->ijk") [[n]; [n]; [n]] Naive) as [order|m|];
    [|contradiction|contradiction].
  exists order. split; [|auto].
  assert (Hn : nonzero_product [n] <= isize_max).
  { unfold nonzero_product. cbn [filter]. destruct (negb (Nat.eqb n 0)); cbn [fold_right]; [lia|].
    apply small_le_isize. vm_compute. discriminate. }
  repeat constructor; exact Hn.
Qed.
Print Assumptions products_of_representable_operands_refuted.
