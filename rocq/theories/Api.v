(** Model of /repo/src/lib.rs. No proofs in this file. [ArrayLike::into_dyn_view] (187-200) is the
    identity: an [arr] stands for an array and for its view. *)
From Verif Require Import Base NDArray Validation Optimizers Strategies Singleton Pair Path.

Section Api.
Context {A : Type} {S : Scalar A}.
Variable h : hash_order.
Variable lay : backend A.

(** validation.rs:429-434 [get_operand_shapes]. *)
Definition get_operand_shapes (operands : list (arr A)) : list (list nat) :=
  map (@a_shape A) operands.

(** validation.rs:437-442 [validate_and_size]. *)
Definition validate_and_size (s : list char) (operands : list (arr A)) : res sized_contraction :=
  from_string_and_shapes h [20] s (get_operand_shapes operands).

(** validation.rs:357-363 [SizedContraction::contract_operands] and lib.rs:202-207 [einsum_sc]. *)
Definition einsum_sc (sc : sized_contraction) (operands : list (arr A)) : res (arr A) :=
  do p <- einsum_path_new h [21] sc; contract_operands lay p operands.

(** lib.rs:210-218 [einsum_path]. *)
Definition einsum_path_fn (s : list char) (operands : list (arr A))
    (strategy : optimization_method) : res einsum_path :=
  do order <- validate_and_optimize_order h [22] s (get_operand_shapes operands) strategy;
  from_path h [23] order.

(** lib.rs:221-227 [einsum]. *)
Definition einsum (s : list char) (operands : list (arr A)) : res (arr A) :=
  do sc <- validate_and_size s operands; einsum_sc sc operands.

(** lib.rs:269-294 [tensordot]. *)
Definition tensordot (lhs rhs : arr A) (lhs_axes rhs_axes : list nat) : res (arr A) :=
  do _ <- rassert (Nat.eqb (length lhs_axes) (length rhs_axes));
  do n <- usub (length (a_shape lhs) + length (a_shape rhs)) (2 * length lhs_axes);
  do t <- tg_from_axes (a_shape lhs) (a_shape rhs) lhs_axes rhs_axes (seq 0 n);
  run_tg lay t lhs rhs.

End Api.
