(** Arithmetic that panics. In a build with overflow checks an integer addition or multiplication whose
    result does not fit panics at once. Here such an operation gives a bad scalar, which every later
    operation keeps bad, and each contraction that does arithmetic panics if its result has a bad
    element. No proofs in this file.

    Simplified: the panic comes at the end of the contraction (contractors/singleton_contractors.rs,
    contractors/pair_contractors.rs) that did the operation instead of inside it. A contraction has no
    other effect than its result, and uses every scalar it computes in an element of its result. *)
From Verif Require Import Base NDArray Validation Optimizers Strategies Singleton Pair Path Api.
From Coq Require Import ZArith.

Section Checked.
Context {A : Type} {S : Scalar A}.
(** Scalars standing for an operation that panicked. *)
Variable bad : A -> bool.

(** The panic of a contraction with a bad element in its result [contractors/mod.rs:462-491]. *)
Definition settle (x : res (arr A)) : res (arr A) :=
  do r <- x;
  do l <- a_iter r;
  if existsb bad l then Panic else Ok r.

Variable lay : backend A.

(** contractors/mod.rs:354-378 [PairContraction::contract_pair]: the simplification of an operand, then
    the contraction of the pair. *)

Definition run_simplification_k (s : option simplification) (t : arr A) : res (arr A) :=
  match s with
  | Some s => settle (run_singleton lay (simpl_op s) t)
  | None => Ok t
  end.

(** contractors/mod.rs:354-378 [PairContraction::contract_pair]. *)
Definition run_pair_contraction_k (p : pair_contraction) (lhs rhs : arr A) : res (arr A) :=
  do l <- run_simplification_k (pc_lhs_simplification p) lhs;
  do r <- run_simplification_k (pc_rhs_simplification p) rhs;
  settle (run_pair lay (pc_op p) l r).

(** contractors/mod.rs:474-486: one step. *)
Definition run_step_k (operands : list (arr A)) (intermediates : list (arr A))
    (so : pair_contraction * pair_step) : res (list (arr A)) :=
  let '(step, order_step) := so in
  do lhs <- fetch operands intermediates (ps_lhs order_step);
  do rhs <- fetch operands intermediates (ps_rhs order_step);
  do r <- run_pair_contraction_k step lhs rhs;
  Ok (intermediates ++ [r]).

(** contractors/mod.rs:462-491 [EinsumPath::contract_operands]. *)
Definition contract_operands_k (p : einsum_path) (operands : list (arr A)) : res (arr A) :=
  match path_steps p, path_order p with
  | StepsSingleton c, Singleton _ =>
      do t <- index operands 0; settle (run_singleton lay (sgl_op c) t)
  | StepsPairs steps, Pairs order_steps =>
      do ints <- foldM (run_step_k operands) (combine steps order_steps) [];
      unwrap (pop_last ints)
  | _, _ => Panic
  end.

(** lib.rs:221-227 [einsum], lib.rs:202-207 [einsum_sc]. *)
Definition einsum_k (h : hash_order) (s : list char) (operands : list (arr A)) : res (arr A) :=
  do sc <- validate_and_size h s operands;
  do p <- einsum_path_new h [21] sc;
  contract_operands_k p operands.

(** lib.rs:210-218 [einsum_path] and contractors/mod.rs:462-491: compile with a strategy, then run. *)
Definition compile_and_run_k (h : hash_order) (s : list char) (operands : list (arr A))
    (strategy : optimization_method) : res (arr A) :=
  do p <- einsum_path_fn h s operands strategy;
  contract_operands_k p operands.

(** lib.rs:269-294 [tensordot]: a single contraction. *)

Definition tensordot_k (lhs rhs : arr A) (lhs_axes rhs_axes : list nat) : res (arr A) :=
  settle (tensordot lay lhs rhs lhs_axes rhs_axes).

End Checked.

(** ** Machine integers *)

(** Integers from [lo] to [hi]; [None] is an operation that overflowed. *)
Section Integers.
Local Open Scope Z_scope.
Variables (lo hi : Z).

(** A value in the range of the scalar type. The arithmetic is that of pair_contractors.rs:437. *)

Definition fit (z : Z) : option Z := if (lo <=? z) && (z <=? hi) then Some z else None.

(** [*] and [+] that panic out of range, where pair_contractors.rs:437,536,635 use them. *)

Definition checked_scalar : Scalar (option Z) := {|
  szero := Some 0;
  sone := Some 1;
  sadd := fun x y => match x, y with Some a, Some b => fit (a + b) | _, _ => None end;
  smul := fun x y => match x, y with Some a, Some b => fit (a * b) | _, _ => None end
|}.

(** An operation that went out of range, for example pair_contractors.rs:437. *)
Definition overflowed (x : option Z) : bool := match x with None => true | _ => false end.

End Integers.

(** [i8] to [i128] and [u8] to [u128], for every width [lib.rs:202]. *)

Definition signed_checked (w : Z) : Scalar (option Z) := checked_scalar (- 2 ^ (w - 1)) (2 ^ (w - 1) - 1).

(** [u8] to [u128], for every width [lib.rs:202]. *)
Definition unsigned_checked (w : Z) : Scalar (option Z) := checked_scalar 0 (2 ^ w - 1).
