(** Every contractor on the contractions it is documented for (C30), and
    DiagonalizationAndSummation as the contractor for every single operand (C31). *)
From Verif Require Import SumFacts Base BaseFacts NDArray Validation Optimizers Strategies Singleton Pair Path Api Spec ParserFacts
  ValidationMain ValidationFacts PairFacts PairMain StackedFacts SingletonFacts EinsumMain UnusedFacts Examples.
From Coq Require Import Lia.
From Coq Require String.
Import String.StringSyntax.
Local Open Scope string_scope.
Local Open Scope list_scope.

(** ** Which sized contractions *)

(** [sized sc ops out size]: [sc] has these operand labels, these output labels and these axis
    lengths. Every sized contraction the crate makes from a string is such a one, and so is
    every [subset] of it; a [subset] may have operands without labels. *)
Theorem sized_from_string :
  forall h k s shapes ops out size, hash_ok h -> call_ok s shapes ops out size ->
    exists sc, from_string_and_shapes h k s shapes = Ok sc /\ sized sc ops out size.
Proof. exact from_string_ok. Qed.
Print Assumptions sized_from_string.

Theorem sized_from_subset :
  forall h k sc ops out size ops' out', hash_ok h -> sized sc ops out size ->
    incl (concat ops') (concat ops) -> output_ok ops' out' ->
    exists sc', subset h k sc ops' out' = Ok sc' /\ sized sc' ops' out' size.
Proof. exact subset_ok. Qed.
Print Assumptions sized_from_subset.

(** ** C30: the pair contractors *)

(** The labels of two operands and an output for which a contractor is documented
    [pair_contractors.rs:82-93, 231-237, 399-404, 441-447, 497-502, 540-546, 596-601, 639-645,
    695-704, 798-810]. [simplified] says that no operand repeats a label and that every label
    is shared by the operands or kept. *)
Inductive documented : pair_method -> list char -> list char -> list char -> Prop :=
| doc_hadamard : forall l, NoDup l -> documented MHadamardProduct l l l
| doc_hadamard_general : forall lhs rhs out, NoDup lhs -> Permutation out lhs -> Permutation out rhs ->
    documented MHadamardProductGeneral lhs rhs out
| doc_scalar_matrix : forall l, NoDup l -> documented MScalarMatrixProduct [] l l
| doc_scalar_matrix_general : forall rhs out, NoDup rhs -> Permutation out rhs ->
    documented MScalarMatrixProductGeneral [] rhs out
| doc_matrix_scalar : forall l, NoDup l -> documented MMatrixScalarProduct l [] l
| doc_matrix_scalar_general : forall lhs out, NoDup lhs -> Permutation out lhs ->
    documented MMatrixScalarProductGeneral lhs [] out
| doc_tensordot_fixed : forall u c v, NoDup (u ++ c) -> NoDup (c ++ v) ->
    documented MTensordotFixedPosition (u ++ c) (c ++ v) (u ++ v)
| doc_tensordot_general : forall lhs rhs out, simplified lhs rhs out ->
    (forall x, In x lhs -> In x rhs -> ~ In x out) -> documented MTensordotGeneral lhs rhs out
| doc_broadcast : forall lhs rhs out, NoDup lhs -> NoDup rhs -> incl (lhs ++ rhs) out ->
    documented MBroadcastProductGeneral lhs rhs out
| doc_stacked : forall lhs rhs out, simplified lhs rhs out ->
    documented MStackedTensordotGeneral lhs rhs out.

(** Each contractor is built and computes the Einstein sum on its documented contractions. *)
Theorem contractors_are_correct :
  forall (A : Type) (Sc : Scalar A) lay m sc lhs rhs out size, semiring A -> backend_ok lay ->
    sized sc [lhs; rhs] out size -> documented m lhs rhs out ->
    exists op, pair_op_new m sc = Ok op
      /\ forall a b : arr A, wf a -> wf b -> a_shape a = map size lhs -> a_shape b = map size rhs ->
         exists r, run_pair lay op a b = Ok r
           /\ holds r (map size out) (einsum_value size [a; b] [lhs; rhs] out).
Proof.
  intros A Sc lay m sc lhs rhs out size SR Hlay HS Hd.
  pose proof HS as (_ & [Ho _] & _).
  assert (H : exists op, pair_op_new m sc = Ok op /\ computes2 size eq (run_pair lay op) lhs rhs out).
  { destruct Hd; cbn [pair_op_new].
    - destruct (hadamard_ok sc l l l size HS eq _ (eq_weak SR) (eq_no_empty size) lay Hlay SR) as (E & Hc); auto. rewrite E. cbn [rbind]. eauto.
    - destruct (hadamard_general_ok sc lhs rhs out size HS eq _ (eq_weak SR) (eq_no_empty size) lay Hlay SR) as (p & E & Hc); auto.
      { eapply Permutation_NoDup; [exact H1|]; auto. }
      rewrite E. cbn [rbind]. eexists. split; [reflexivity|]. exact Hc.
    - destruct (scalar_matrix_ok sc [] l l size HS eq _ (eq_weak SR) lay Hlay SR) as (E & Hc); auto. rewrite E. cbn [rbind]. eauto.
    - destruct (scalar_matrix_general_ok sc [] rhs out size HS eq _ (eq_weak SR) lay Hlay SR) as (p & E & Hc); auto.
      rewrite E. cbn [rbind]. eexists. split; [reflexivity|]. exact Hc.
    - destruct (matrix_scalar_ok sc l [] l size HS eq _ (eq_weak SR) (eq_no_empty size) lay Hlay SR) as (E & Hc); auto. rewrite E. cbn [rbind]. eauto.
    - destruct (matrix_scalar_general_ok sc lhs [] out size HS eq _ (eq_weak SR) (eq_no_empty size) lay Hlay SR) as (p & E & Hc); auto.
      rewrite E. cbn [rbind]. eexists. split; [reflexivity|]. exact Hc.
    - destruct (tfp_ok sc (u ++ c) (c ++ v) (u ++ v) size HS eq _ (eq_weak SR) (eq_no_empty size) lay Hlay SR (eq_weak_fused lay SR Hlay) u c v) as (t & E & Hc); auto.
      rewrite E. cbn [rbind]. eexists. split; [reflexivity|]. exact Hc.
    - destruct (tg_ok sc lhs rhs out size HS eq _ (eq_weak SR) (eq_no_empty size) lay Hlay SR (eq_weak_fused lay SR Hlay)) as (t & E & Hc); auto.
      rewrite E. cbn [rbind]. eexists. split; [reflexivity|]. exact Hc.
    - destruct (broadcast_ok sc lhs rhs out size HS lay Hlay) as (t & E & Hc); auto.
      rewrite E. cbn [rbind]. eexists. split; [reflexivity|]. exact Hc.
    - destruct (stacked_ok size eq _ (eq_weak SR) (eq_no_empty size) lay Hlay (eq_weak_fused lay SR Hlay) SR sc lhs rhs out) as (t & E & Hc); auto.
      rewrite E. cbn [rbind]. eexists. split; [reflexivity|]. exact Hc. }
  destruct H as (op & E & Hc). exists op. split; auto. intros a b Wa Wb Sa Sb.
  apply (computes2_holds size SR); auto.
Qed.
Print Assumptions contractors_are_correct.

(** BroadcastProductGeneral on "ij,jk->kij". *)
Definition run_method (m : pair_method) (s : list char) (a b : arr Z) : res (arr Z) :=
  do sc <- from_string_and_shapes id_hash [] s [a_shape a; a_shape b];
  do op <- pair_op_new m sc; run_pair c_backend op a b.

Example broadcast_product_example :
  documented MBroadcastProductGeneral (chars "ij") (chars "jk") (chars "kij")
  /\ run_method MBroadcastProductGeneral (chars "ij,jk->kij")
       (zarr [2; 2] [1; 2; 3; 4]%Z) (zarr [2; 3] [1; 2; 3; 4; 5; 6]%Z)
     = Ok (zarr [3; 2; 2] [1; 8; 3; 16; 2; 10; 6; 20; 3; 12; 9; 24]%Z).
Proof.
  split; [|vm_compute; reflexivity]. constructor.
  - repeat constructor; cbn; intuition discriminate.
  - repeat constructor; cbn; intuition discriminate.
  - intros c. cbn. tauto.
Qed.

(** StackedTensordotGeneral on a matrix product, which has no stack axes. *)
Example stacked_example :
  documented MStackedTensordotGeneral (chars "ij") (chars "kj") (chars "ik")
  /\ run_method MStackedTensordotGeneral (chars "ij,kj->ik")
       (zarr [2; 2] [1; 2; 3; 4]%Z) (zarr [2; 2] [1; 2; 3; 4]%Z)
     = Ok (zarr [2; 2] [5; 11; 11; 25]%Z).
Proof.
  split; [|vm_compute; reflexivity]. constructor. constructor; cbn;
    try (repeat constructor; cbn; intuition discriminate); intros c; cbn; intuition.
Qed.

(** ScalarMatrixProduct on the subset ",j->j" of "i,j->j". *)
Example scalar_matrix_example :
  documented MScalarMatrixProduct [] (chars "j") (chars "j")
  /\ (do sc <- from_string_and_shapes id_hash [] (chars "i,j->j") [[2]; [3]];
      do sub <- subset id_hash [] sc [[]; chars "j"] (chars "j");
      do op <- pair_op_new MScalarMatrixProduct sub;
      run_pair c_backend op (zarr [] [5%Z]) (zarr [3] [1; 2; 3]%Z))
     = Ok (zarr [3] [5; 10; 15]%Z).
Proof. split; [|vm_compute; reflexivity]. constructor. repeat constructor; cbn; tauto. Qed.

(** The documentation of StackedTensordotGeneral says it could in theory handle all pairwise
    contractions. It does not handle those that need simplifying first: the constructor panics
    on "i,j->j", and the contraction itself on "i,j->i". *)
Theorem stacked_handles_every_pair_refuted :
  exists s t (a b : arr Z), wf a /\ wf b
    /\ (exists sc, from_string_and_shapes id_hash [] s [a_shape a; a_shape b] = Ok sc
          /\ pair_op_new MStackedTensordotGeneral sc = Panic)
    /\ (exists sc op, from_string_and_shapes id_hash [] t [a_shape a; a_shape b] = Ok sc
          /\ pair_op_new MStackedTensordotGeneral sc = Ok op
          /\ run_pair c_backend op a b = Panic).
Proof.
  exists (chars "i,j->j"), (chars "i,j->i"), (zarr [2] [1; 2]%Z), (zarr [2] [3; 4]%Z).
  split; [apply wf_b_ok; reflexivity|]. split; [apply wf_b_ok; reflexivity|]. split.
  - eexists. split; vm_compute; reflexivity.
  - do 2 eexists. split; [vm_compute; reflexivity|]. split; vm_compute; reflexivity.
Qed.
Print Assumptions stacked_handles_every_pair_refuted.

(** ** C31: DiagonalizationAndSummation *)

(** With at least one summed label it handles every operand without empty axes. *)
Theorem diagonalization_and_summation_is_general :
  forall (A : Type) (Sc : Scalar A) lay sc this out size, semiring A -> backend_ok lay ->
    sized sc [this] out size -> (exists c, In c this /\ ~ In c out) ->
    exists op, singleton_op_new MDiagonalizationAndSummation sc = Ok op
      /\ forall a : arr A, wf a -> a_shape a = map size this -> (forall c, In c this -> size c <> 0) ->
         exists r, run_singleton lay op a = Ok r
           /\ holds r (map size out) (einsum_value size [a] [this] out).
Proof.
  intros A Sc lay sc this out size SR Hlay HS Hc.
  destruct (diag_and_sum_general size lay Hlay SR sc this out HS Hc) as (d & s & E & H).
  cbn [singleton_op_new]. rewrite E. cbn [rbind fst snd]. eexists. split; [reflexivity|]. exact H.
Qed.
Print Assumptions diagonalization_and_summation_is_general.

Definition run_diag_and_sum (s : list char) (a : arr Z) : res (arr Z) :=
  do sc <- from_string_and_shapes id_hash [] s [a_shape a];
  do op <- singleton_op_new MDiagonalizationAndSummation sc; run_singleton c_backend op a.

(** It sums "ij->j" and "iji->j", the first of which the crate gives to another contractor. *)
Example diagonalization_and_summation_example :
  run_diag_and_sum (chars "ij->j") (zarr [2; 3] [1; 2; 3; 4; 5; 6]%Z) = Ok (zarr [3] [5; 7; 9]%Z)
  /\ run_diag_and_sum (chars "iji->j") (zarr [2; 2; 2] [1; 2; 3; 4; 5; 6; 7; 8]%Z)
     = Ok (zarr [2] [7; 11]%Z).
Proof. split; vm_compute; reflexivity. Qed.

(** "In general, DiagonalizationAndSummation should be able to accommodate all singleton
    contractions" [strategies.rs:18-19]: it cannot be built for any contraction without a
    summed label. *)
Theorem nothing_to_sum_panics :
  forall sc this out size, sized sc [this] out size -> incl this out ->
    singleton_op_new MDiagonalizationAndSummation sc = Panic.
Proof.
  intros sc this out size HS Hi. cbn [singleton_op_new].
  rewrite (diag_and_sum_nothing_summed size sc this out HS Hi). auto.
Qed.
Print Assumptions nothing_to_sum_panics.

(** So the claim fails for a transposition; and it also fails for a sum over an operand with an
    empty axis, which the contractor the crate does choose handles. *)
Theorem diagonalization_and_summation_universal_refuted :
  (exists s (a : arr Z) r, wf a /\ einsum id_hash c_backend s [a] = Ok r
     /\ run_diag_and_sum s a = Panic /\ ~ In 0 (a_shape a))
  /\ (exists s (a : arr Z) r sc op, wf a /\ einsum id_hash c_backend s [a] = Ok r
        /\ from_string_and_shapes id_hash [] s [a_shape a] = Ok sc
        /\ singleton_op_new MDiagonalizationAndSummation sc = Ok op
        /\ run_singleton c_backend op a = Panic).
Proof.
  split.
  - exists (chars "ij->ji"), (zarr [2; 2] [1; 2; 3; 4]%Z). eexists. split; [apply wf_b_ok; reflexivity|].
    split; [vm_compute; reflexivity|]. split; [vm_compute; reflexivity|]. cbn. intuition discriminate.
  - exists (chars "ij->i"), (zarr [2; 0] []). do 3 eexists. split; [apply wf_b_ok; reflexivity|].
    split; [vm_compute; reflexivity|]. split; [vm_compute; reflexivity|]. split; [vm_compute; reflexivity|].
    vm_compute. reflexivity.
Qed.
Print Assumptions diagonalization_and_summation_universal_refuted.
