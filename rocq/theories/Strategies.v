(** Model of /repo/src/contractors/strategies.rs. No proofs in this file. *)
From Verif Require Import Base Validation.

(** strategies.rs:32-39 [enum SingletonMethod]. *)
Inductive singleton_method :=
| MIdentity | MPermutation | MSummation | MDiagonalization
| MPermutationAndSummation | MDiagonalizationAndSummation.

(** strategies.rs:43-47 [struct SingletonSummary]. *)
Record singleton_summary := mkSingletonSummary {
  num_summed_axes : nat;
  num_diagonalized_axes : nat;
  num_reordered_axes : nat
}.

(** strategies.rs:58-76 [SingletonSummary::from_indices]. *)
Definition singleton_summary_from_indices (input output : list char) : res singleton_summary :=
  do summed <- usub (length (distinct input)) (length output);
  Ok (mkSingletonSummary summed
        (length (filter (fun c => Nat.ltb 1 (count c input)) (distinct input)))
        (length (filter (fun oi => negb (N.eqb (fst oi) (snd oi))) (combine output input)))).

(** strategies.rs:50-56 [SingletonSummary::new]. *)
Definition singleton_summary_new (sc : sized_contraction) : res singleton_summary :=
  do _ <- rassert (Nat.eqb (length (operand_indices (sc_contraction sc))) 1);
  do input <- index (operand_indices (sc_contraction sc)) 0;
  singleton_summary_from_indices input (output_indices (sc_contraction sc)).

(** strategies.rs:78-91 [SingletonSummary::get_strategy]: first matching arm. *)
Definition singleton_strategy (s : singleton_summary) : singleton_method :=
  match num_summed_axes s, num_diagonalized_axes s, num_reordered_axes s with
  | 0, 0, 0 => MIdentity
  | 0, 0, _ => MPermutation
  | _, 0, 0 => MSummation
  | 0, _, _ => MDiagonalization
  | _, 0, _ => MPermutationAndSummation
  | _, _, _ => MDiagonalizationAndSummation
  end.

(** strategies.rs:97-108 [enum PairMethod]. *)
Inductive pair_method :=
| MHadamardProduct | MHadamardProductGeneral
| MTensordotFixedPosition | MTensordotGeneral
| MScalarMatrixProduct | MScalarMatrixProductGeneral
| MMatrixScalarProduct | MMatrixScalarProductGeneral
| MBroadcastProductGeneral | MStackedTensordotGeneral.

(** strategies.rs:112-117 [struct PairSummary]. *)
Record pair_summary := mkPairSummary {
  num_stacked_axes : nat;
  num_lhs_outer_axes : nat;
  num_rhs_outer_axes : nat;
  num_contracted_axes : nat
}.

(** strategies.rs:129-151 [PairSummary::from_indices]. *)
Definition pair_summary_from_indices (lhs rhs output : list char) : res pair_summary :=
  let lhs_u := distinct lhs in
  let rhs_u := distinct rhs in
  let out_u := distinct output in
  do _ <- rassert (Nat.eqb (length lhs) (length lhs_u));
  do _ <- rassert (Nat.eqb (length rhs) (length rhs_u));
  do _ <- rassert (Nat.eqb (length output) (length out_u));
  let lhs_and_rhs := filter (fun c => mem c rhs_u) lhs_u in
  let stacked := filter (fun c => mem c out_u) lhs_and_rhs in
  let num_stacked := length stacked in
  do num_contracted <- usub (length lhs_and_rhs) num_stacked;
  do l1 <- usub (length lhs_u) num_stacked;
  do num_lhs_outer <- usub l1 num_contracted;
  do r1 <- usub (length rhs_u) num_stacked;
  do num_rhs_outer <- usub r1 num_contracted;
  Ok (mkPairSummary num_stacked num_lhs_outer num_rhs_outer num_contracted).

(** strategies.rs:120-127 [PairSummary::new]. *)
Definition pair_summary_new (sc : sized_contraction) : res pair_summary :=
  do _ <- rassert (Nat.eqb (length (operand_indices (sc_contraction sc))) 2);
  do lhs <- index (operand_indices (sc_contraction sc)) 0;
  do rhs <- index (operand_indices (sc_contraction sc)) 1;
  pair_summary_from_indices lhs rhs (output_indices (sc_contraction sc)).

(** strategies.rs:153-169 [PairSummary::get_strategy]: first matching arm. *)
Definition pair_strategy (s : pair_summary) : pair_method :=
  match num_contracted_axes s, num_lhs_outer_axes s, num_rhs_outer_axes s, num_stacked_axes s with
  | 0, 0, 0, _ => MHadamardProductGeneral
  | 0, 0, _, 0 => MScalarMatrixProductGeneral
  | 0, _, 0, 0 => MMatrixScalarProductGeneral
  | _, _, _, 0 => MTensordotGeneral
  | _, _, _, _ => MStackedTensordotGeneral
  end.
