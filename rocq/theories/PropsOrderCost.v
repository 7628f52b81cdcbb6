(** What a contraction order costs, and which orders the limits stop (C63). Any order: results may be used
    several times or dropped, and a label may have a different length in every step. *)
From Verif Require Import Base BaseFacts NDArray Validation Optimizers Strategies Singleton Pair Path
  Api Spec ValidationFacts SumFacts ArrayFacts PairMain PathFacts EinsumMain MisuseFacts HandFacts OrderFacts
  Overflow OverflowFacts Limits LimitsFacts LimitsMain Work WorkFacts WorkMain CompileFacts ProgramFacts
  OrderCostFacts Examples PropsOrder PropsProgram.
From Coq Require Import Lia.
From Coq Require String.
Import String.StringSyntax.
Local Open Scope string_scope.
Local Open Scope list_scope.

(** ** Work *)

(** [steps_fit] (ProgramFacts.v): every step finds two arrays of the lengths it records.
    [order_products]: each step takes a product for each value of the labels of its result and of the
    labels contracted. [order_summands]: before that, each of its operands is summed over the labels that
    neither the other operand nor the result has, axis by axis. The counts are those of Work.v (C53). *)
Theorem orders_work :
  forall (A : Type) (Sc : Scalar A) h k lay steps p (arrays : list (arr A)), hash_ok h -> backend_runs lay ->
    from_path h k (Pairs steps) = Ok p -> Forall wf arrays ->
    steps_fit (map (@a_shape A) arrays) [] steps ->
    contract_operands_w lay p arrays
    = do r <- contract_operands lay p arrays; Ok (r, mkWork (order_products steps) (order_summands steps)).
Proof. intros A Sc h k lay steps p arrays Hh Hl Ep Hw Hf. apply (orders_cost h lay Hh Hl k); auto. Qed.
Print Assumptions orders_work.

(** The [2^(n+1)]th power of a [d] by [d] matrix takes [(n+1) * d^3] products. *)
Theorem squarings_work :
  forall (A : Type) (Sc : Scalar A) h k lay d n p (m : arr A), hash_ok h -> backend_runs lay ->
    wf m -> a_shape m = [d; d] -> from_path h k (Pairs (squarings d n)) = Ok p ->
    contract_operands_w lay p [m]
    = do r <- contract_operands lay p [m]; Ok (r, mkWork ((n + 1) * (d * d * d)) 0).
Proof.
  intros A Sc h k lay d n p m Hh Hl Wm Sm Ep.
  rewrite (orders_work A Sc h k lay (squarings d n) p [m] Hh Hl Ep); auto.
  2:{ apply squarings_fit. simpl. congruence. }
  assert (P : forall x y, step_products (mkPair (square d) x y) = d * d * d).
  { intros x y. change (step_products (mkPair (square d) x y)) with (d * (d * 1) * (d * 1)). lia. }
  assert (S0 : forall x y, step_summands (mkPair (square d) x y) = 0).
  { intros x y. reflexivity. }
  assert (E1 : forall s, list_sum (map step_products (map (fun i => mkPair (square d) (IntermediateResult i) (IntermediateResult i)) (seq s n)))
               = n * (d * d * d)).
  { clear -P. induction n as [|n IH]; intros s; [reflexivity|]. cbn [seq map list_sum fold_right].
    specialize (IH (Datatypes.S s)). unfold list_sum in IH. rewrite IH, P. lia. }
  assert (E2 : forall s, list_sum (map step_summands (map (fun i => mkPair (square d) (IntermediateResult i) (IntermediateResult i)) (seq s n)))
               = 0).
  { clear -S0. induction n as [|n IH]; intros s; [reflexivity|]. cbn [seq map list_sum fold_right].
    specialize (IH (Datatypes.S s)). unfold list_sum in IH. rewrite IH, S0. lia. }
  replace (order_products (squarings d n)) with ((n + 1) * (d * d * d)).
  2:{ unfold order_products, squarings. cbn [map list_sum fold_right]. specialize (E1 0). unfold list_sum in E1.
      rewrite E1, P. lia. }
  replace (order_summands (squarings d n)) with 0; [reflexivity|].
  unfold order_summands, squarings. cbn [map list_sum fold_right]. specialize (E2 0). unfold list_sum in E2.
  rewrite E2, S0. reflexivity.
Qed.
Print Assumptions squarings_work.

Example squarings_work_case :
  (do p <- from_path rev_hash [] (Pairs (squarings 2 2));
   do rw <- contract_operands_w c_backend p [zarr [2; 2] [1; 1; 1; 0]%Z]; do l <- a_iter (fst rw); Ok (l, snd rw))
  = Ok ([34; 21; 21; 13]%Z, mkWork 24 0).
Proof. vm_compute. reflexivity. Qed.

(** A result used twice, another one dropped, labels of different lengths; the last step alone sums. *)
Example orders_work_case :
  steps_fit [[2]; [3]] [] reuse_steps
  /\ order_products reuse_steps = 6 + 6 + 9 + 3 /\ order_summands reuse_steps = 0
  /\ (do p <- from_path rev_hash [] (Pairs reuse_steps);
      do rw <- contract_operands_w c_backend p [zarr [2] [1; 2]%Z; zarr [3] [1; 0; -1]%Z];
      do l <- a_iter (fst rw); Ok (l, snd rw)) = Ok ([25; 0; 25]%Z, mkWork 24 0).
Proof.
  split; [apply reuse_case|]. repeat split; vm_compute; reflexivity.
Qed.

(** A step with labels of its own on both sides: 4 elements of the diagonal and 2 * 3 + 2 are read. *)
Example summands_case :
  let st := mkPair (mkSized (mkContraction [chars "iib"; chars "xby"] (chars "b") (chars "ixy"))
                      [(98%N, 2); (105%N, 2); (120%N, 1); (121%N, 3)]) (Input 0) (Input 1) in
  steps_fit [[2; 2; 2]; [1; 2; 3]] [] [st]
  /\ order_products [st] = 2 /\ order_summands [st] = 4 + (6 + 6)
  /\ (do p <- from_path rev_hash [] (Pairs [st]);
      do rw <- contract_operands_w c_backend p [zarr [2; 2; 2] [1; 2; 3; 4; 5; 6; 7; 8]%Z; zarr [1; 2; 3] [1; 2; 3; 4; 5; 6]%Z];
      do l <- a_iter (fst rw); Ok (l, snd rw)) = Ok ([48; 150]%Z, mkWork 2 16).
Proof.
  cbv zeta. split; [|repeat split; vm_compute; reflexivity].
  split; [do 4 eexists; split; [reflexivity|]; split; [vm_compute; reflexivity|];
          split; [vm_compute; reflexivity|]; repeat constructor|exact I].
Qed.

(** ** Limits *)

(** The products computed for a step are no larger than those of the lengths of its operands: if these are
    representable, compiling is the same with checked multiplications (C32), whatever the order. *)
Theorem orders_compile_without_overflow :
  forall M h k steps, hash_ok h -> step_operands_fit M steps ->
    from_path_c M h k (Pairs steps) = from_path h k (Pairs steps).
Proof. intros M h k steps Hh Hf. apply orders_checked; auto. Qed.
Print Assumptions orders_compile_without_overflow.

(** With a limit on the size of an array (C50), a run on arrays within the limit ends as without it if the
    result of every step is within the limit, and panics otherwise. *)
Theorem orders_size_limit :
  forall (A : Type) (Sc : Scalar A) L h k lay steps p (arrays : list (arr A)), hash_ok h -> backend_runs lay ->
    from_path h k (Pairs steps) = Ok p -> Forall wf arrays ->
    Forall (fun a => nonzero_product (a_shape a) <= L) arrays ->
    steps_fit (map (@a_shape A) arrays) [] steps ->
    (step_results_fit L steps -> contract_operands_l L lay p arrays = contract_operands lay p arrays)
    /\ (~ step_results_fit L steps -> contract_operands_l L lay p arrays = Panic).
Proof. intros A Sc L h k lay steps p arrays Hh Hl Ep Hw Hwf Hf. apply (orders_limited h lay Hh Hl L k); auto. Qed.
Print Assumptions orders_size_limit.

Example orders_limit_case :
  step_operands_fit 6 (squarings 2 1) /\ step_results_fit 6 (squarings 2 1) /\ ~ step_results_fit 8 reuse_steps
  /\ (do p <- from_path_c 6 rev_hash [] (Pairs (squarings 2 1));
      do r <- contract_operands_l 6 c_backend p [zarr [2; 2] [1; 1; 1; 0]%Z]; a_iter r) = Ok [5; 3; 3; 2]%Z
  /\ (do p <- from_path rev_hash [] (Pairs reuse_steps);
      contract_operands_l 8 c_backend p [zarr [2] [1; 2]%Z; zarr [3] [1; 0; -1]%Z]) = Panic
  /\ (do p <- from_path rev_hash [] (Pairs reuse_steps);
      do r <- contract_operands_l 9 c_backend p [zarr [2] [1; 2]%Z; zarr [3] [1; 0; -1]%Z]; a_iter r) = Ok [25; 0; 25]%Z.
Proof.
  split; [repeat constructor|]. split; [repeat constructor|]. split; [|repeat split; vm_compute; reflexivity].
  intros H. do 2 (apply Forall_inv_tail in H). apply Forall_inv in H. vm_compute in H. lia.
Qed.

(** ** The strategies compared with other orders *)

(** A contraction with the lengths [size]. *)
Definition sized_with (size : char -> nat) (ops : list (list char)) (out : list char) : sized_contraction :=
  mkSized (contraction_of ops out) (map (fun c => (c, size c)) (concat ops)).

Lemma sized_with_ok size ops out : output_ok ops out -> sized (sized_with size ops out) ops out size.
Proof.
  intros Ho. split; [reflexivity|]. split; auto. intros c. cbn [sized_with sc_output_size].
  induction (concat ops) as [|d l IH]; [reflexivity|]. cbn [map lookup]. unfold mem. cbn [existsb].
  destruct (N.eqb_spec c d) as [->|H]; [rewrite ?N.eqb_refl; reflexivity|].
  rewrite ?(proj2 (N.eqb_neq d c)) by congruence. exact IH.
Qed.

(** The four matrices of "ij,jk,kl,lm->im", multiplied in pairs. *)
Definition in_pairs (size : char -> nat) : list pair_step :=
  [mkPair (sized_with size [chars "ij"; chars "jk"] (chars "ik")) (Input 0) (Input 1);
   mkPair (sized_with size [chars "kl"; chars "lm"] (chars "km")) (Input 2) (Input 3);
   mkPair (sized_with size [chars "ik"; chars "km"] (chars "im")) (IntermediateResult 0) (IntermediateResult 1)].

Lemma in_pairs_valid size : valid_order size (map chars ["ij"; "jk"; "kl"; "lm"]) (chars "im") (Pairs (in_pairs size)).
Proof.
  assert (O : forall l r o, nodup_b o = true -> forallb (fun c => mem c (l ++ r)) o = true -> output_ok [l; r] o).
  { intros l r o H1 H2. split; [apply nodup_b_ok; auto|]. intros c Hc. rewrite forallb_forall in H2. simpl.
    rewrite app_nil_r. apply mem_In. auto. }
  cbn [valid_order in_pairs].
  apply (contracts_step _ _ _ _ (Input 0) (chars "ij") (Input 1) (chars "jk")
           [(Input 2, chars "kl"); (Input 3, chars "lm")] _ (chars "ik")).
  { apply Permutation_refl. } { apply sized_with_ok, O; reflexivity. } { apply kept_by_check. reflexivity. }
  apply (contracts_step _ _ _ _ (Input 2) (chars "kl") (Input 3) (chars "lm")
           [(IntermediateResult 0, chars "ik")] _ (chars "km")).
  { apply Permutation_refl. } { apply sized_with_ok, O; reflexivity. } { apply kept_by_check. reflexivity. }
  eapply contracts_last; [apply Permutation_refl|]. apply sized_with_ok, O; reflexivity.
Qed.

(** The better of the two strategies can take any number of times the products that a valid order takes:
    for four matrices with a middle label of length one, multiplying in pairs takes products in proportion
    to the square of the other lengths, and both strategies take a cube. *)
Theorem strategies_are_near_the_best_order_refuted :
  ~ (exists c, forall size ops out steps,
       (forall l, 0 < size l) -> valid_order size ops out (Pairs steps) ->
       total_products size ops out <= c * order_products steps
       \/ total_products size (rev ops) out <= c * order_products steps).
Proof.
  intros (c & H). set (n := 3 * c + 1).
  set (size := fun l => if N.eqb l 107%N then 1 else n).
  assert (Hp : forall l, 0 < size l) by (intros l; unfold size; destruct (N.eqb l 107%N); unfold n; lia).
  assert (E0 : order_products (in_pairs size) = 3 * (n * n)).
  { change (order_products (in_pairs size)) with
      (n * (1 * 1) * (n * 1) + (1 * (n * 1) * (n * 1) + (n * (n * 1) * (1 * 1) + 0))). lia. }
  set (ops := map chars ["ij"; "jk"; "kl"; "lm"]) in *.
  assert (E1 : total_products size ops (chars "im") = 2 * (n * n) + n * (n * n)).
  { clear -size. clearbody n. cbv -[Nat.mul Nat.add]. lia. }
  assert (E2 : total_products size (rev ops) (chars "im") = 2 * (n * n) + n * (n * n)).
  { clear -size. clearbody n. cbv -[Nat.mul Nat.add]. lia. }
  destruct (H size ops (chars "im") _ Hp (in_pairs_valid size)) as [G|G]; rewrite E0 in G;
    [rewrite E1 in G|rewrite E2 in G]; clear -G; subst n; nia.
Qed.
Print Assumptions strategies_are_near_the_best_order_refuted.

(** In numbers, for lengths of 4: 48 products, where the strategies take 96. *)
Example in_pairs_case :
  let a := zarr [4; 4] [1; 2; 3; 4; 5; 6; 7; 8; 1; 0; 2; 0; 3; 0; 4; 0]%Z in
  let u := zarr [4; 1] [1; -1; 2; 1]%Z in let v := zarr [1; 4] [1; 0; 2; 1]%Z in
  let arrays := [a; u; v; a] in
  let size l := if N.eqb l 107%N then 1 else 4 in
  (do p <- from_path id_hash [] (Pairs (in_pairs size));
   do rw <- contract_operands_w c_backend p arrays; do l <- a_iter (fst rw); Ok (l, snd rw))
  = (do rw <- compile_and_run_w c_backend id_hash (chars "ij,jk,kl,lm->im") arrays Naive;
     do l <- a_iter (fst rw); Ok (l, mkWork 48 0))
  /\ (do rw <- compile_and_run_w c_backend id_hash (chars "ij,jk,kl,lm->im") arrays Naive; Ok (snd rw)) = Ok (mkWork 96 0)
  /\ (do rw <- compile_and_run_w c_backend id_hash (chars "ij,jk,kl,lm->im") arrays Reverse; Ok (snd rw)) = Ok (mkWork 96 0).
Proof. repeat split; vm_compute; reflexivity. Qed.
