(** The contraction order: C13, C15, C26. *)
From Verif Require Import Base NDArray Validation Optimizers Spec ParserFacts PathShape Examples.
From Coq Require Import Lia.
From Coq Require String.
Import String.StringSyntax.
Local Open Scope string_scope.
Local Open Scope list_scope.

(** The order is the one [einsum_path] uses ([validate_and_optimize_order] is the composition of
    the two functions below), and with [Naive] the one [einsum] uses. *)

(** ** C13: path structure *)

(** With one operand the order is that contraction. With [n >= 2] there are [n - 1] steps; together
    they refer to every input operand once and to every intermediate result but the last once; an
    intermediate result is only referred to after it was made; and [Naive] takes the inputs from
    first to last, [Reverse] from last to first. *)
Theorem path_structure :
  forall h k0 k s shapes ops out size sc strategy, hash_ok h ->
    call_ok s shapes ops out size -> strategy = Naive \/ strategy = Reverse ->
    from_string_and_shapes h k0 s shapes = Ok sc ->
    (length ops = 1 ->
       exists sc', generate_optimized_order h k sc strategy = Ok (Singleton sc')
         /\ operand_indices (sc_contraction sc') = ops /\ output_indices (sc_contraction sc') = out)
    /\ (2 <= length ops ->
       exists steps, generate_optimized_order h k sc strategy = Ok (Pairs steps)
         /\ length steps = length ops - 1
         /\ Permutation (flat_map step_uses steps)
              (map Input (seq 0 (length ops)) ++ map IntermediateResult (seq 0 (length ops - 2)))
         /\ (forall i st j, nth_error steps i = Some st ->
               In (IntermediateResult j) (step_uses st) -> j < i)
         /\ inputs_used steps
            = match strategy with Naive => seq 0 (length ops) | _ => rev (seq 0 (length ops)) end).
Proof. intros h k0 k s shapes ops out size sc strategy Hh. apply path_structure_ok; auto. Qed.
Print Assumptions path_structure.

Definition chain_string := chars "ij,jk,kl,lm->im".
Definition chain_ops := [chars "ij"; chars "jk"; chars "kl"; chars "lm"].
Definition chain_shapes := [[2; 3]; [3; 4]; [4; 5]; [5; 6]].
Definition chain_size := size_fn (combine (chars "ijklm") [2; 3; 4; 5; 6]).
Definition chain_order (strategy : optimization_method) : res contraction_order :=
  do sc <- from_string_and_shapes rev_hash [] chain_string chain_shapes;
  generate_optimized_order rev_hash [] sc strategy.

Example path_structure_case :
  call_ok chain_string chain_shapes chain_ops (chars "im") chain_size
  /\ match chain_order Naive, chain_order Reverse with
     | Ok (Pairs n), Ok (Pairs r) =>
         map step_uses n = [[Input 0; Input 1]; [IntermediateResult 0; Input 2]; [IntermediateResult 1; Input 3]]
         /\ map step_uses r = [[Input 3; Input 2]; [IntermediateResult 0; Input 1]; [IntermediateResult 1; Input 0]]
     | _, _ => False
     end.
Proof. split; [apply check_call_ok; check_call_tac|split; reflexivity]. Qed.

(** ** C15: no label is summed too early *)

(** Each step's input labels are those of the arrays it refers to. The last step's result has the
    requested output labels. Any other step keeps exactly the labels of its inputs that occur in
    the output or in an operand that no step up to this one refers to. *)
Theorem step_labels :
  forall h k0 k s shapes ops out size sc strategy steps, hash_ok h ->
    call_ok s shapes ops out size -> strategy = Naive \/ strategy = Reverse ->
    from_string_and_shapes h k0 s shapes = Ok sc ->
    generate_optimized_order h k sc strategy = Ok (Pairs steps) ->
    forall i st, nth_error steps i = Some st ->
    step_inputs st = map (labels_of ops steps) (step_uses st)
    /\ NoDup (step_output st)
    /\ (S i = length steps -> step_output st = out)
    /\ (S i < length steps -> forall c,
          In c (step_output st) <->
          (In c (labels_of ops steps (ps_lhs st)) \/ In c (labels_of ops steps (ps_rhs st)))
          /\ (In c out
              \/ exists n, n < length ops /\ unused n (firstn (S i) steps) /\ In c (nth n ops []))).
Proof. intros h k0 k s shapes ops out size sc strategy steps Hh. apply path_labels_ok; auto. Qed.
Print Assumptions step_labels.

(** Every label that is not in the output is summed by exactly one step, the others by none. *)
Theorem each_label_summed_once :
  forall h k0 k s shapes ops out size sc strategy steps, hash_ok h ->
    call_ok s shapes ops out size -> strategy = Naive \/ strategy = Reverse ->
    from_string_and_shapes h k0 s shapes = Ok sc ->
    generate_optimized_order h k sc strategy = Ok (Pairs steps) ->
    (forall c, In c (concat ops) -> ~ In c out ->
       exists i, (exists st, nth_error steps i = Some st /\ In c (step_summed st))
         /\ forall i' st', nth_error steps i' = Some st' -> In c (step_summed st') -> i' = i)
    /\ (forall c st, In c out -> In st steps -> ~ In c (step_summed st)).
Proof. intros h k0 k s shapes ops out size sc strategy steps Hh. apply path_sums_once; auto. Qed.
Print Assumptions each_label_summed_once.

Example step_labels_case :
  match chain_order Naive, chain_order Reverse with
  | Ok (Pairs n), Ok (Pairs r) =>
      map step_inputs n = [[chars "ij"; chars "jk"]; [chars "ki"; chars "kl"]; [chars "li"; chars "lm"]]
      /\ map step_output n = [chars "ki"; chars "li"; chars "im"]
      /\ map step_summed n = [chars "j"; chars "k"; chars "l"]
      /\ map step_output r = [chars "km"; chars "jm"; chars "im"]
      /\ map step_summed r = [chars "l"; chars "k"; chars "j"]
  | _, _ => False
  end.
Proof. repeat split; reflexivity. Qed.

(** ** C26: size of intermediate results *)

(** No result carries a repeated label, and none has more elements than the product of the lengths
    of the labels of the operands combined so far, with empty axes counted as length one. *)
Theorem intermediate_size_bound :
  forall h k0 k s shapes ops out size sc strategy steps, hash_ok h ->
    call_ok s shapes ops out size -> strategy = Naive \/ strategy = Reverse ->
    from_string_and_shapes h k0 s shapes = Ok sc ->
    generate_optimized_order h k sc strategy = Ok (Pairs steps) ->
    forall i st, nth_error steps i = Some st ->
    NoDup (step_output st)
    /\ size_product size (step_output st)
       <= size_product (fun c => Nat.max 1 (size c)) (combined_labels ops (firstn (S i) steps)).
Proof. intros h k0 k s shapes ops out size sc strategy steps Hh. apply path_sizes_ok; auto. Qed.
Print Assumptions intermediate_size_bound.

(** Without empty axes this is the bound of C26. *)
Theorem intermediate_size_bound_no_empty_axis :
  forall h k0 k s shapes ops out size sc strategy steps, hash_ok h ->
    call_ok s shapes ops out size -> strategy = Naive \/ strategy = Reverse ->
    (forall c, In c (concat ops) -> size c <> 0) ->
    from_string_and_shapes h k0 s shapes = Ok sc ->
    generate_optimized_order h k sc strategy = Ok (Pairs steps) ->
    forall i st, nth_error steps i = Some st ->
    size_product size (step_output st)
      <= size_product size (combined_labels ops (firstn (S i) steps)).
Proof.
  intros h k0 k s shapes ops out size sc strategy steps Hh Hc Hst Hz E Eg i st Hi.
  rewrite <- (size_product_positive size (combined_labels _ _)).
  - eapply intermediate_size_bound; eauto.
  - apply Forall_forall. intros c H. apply Hz. eapply combined_labels_incl; eauto.
Qed.
Print Assumptions intermediate_size_bound_no_empty_axis.

Example intermediate_size_case :
  match chain_order Naive with
  | Ok (Pairs n) =>
      map (fun st => size_product chain_size (step_output st)) n = [8; 10; 12]
      /\ map (fun i => size_product chain_size (combined_labels chain_ops (firstn (S i) n))) [0; 1; 2]
         = [24; 120; 720]
  | _ => False
  end.
Proof. split; reflexivity. Qed.

(** With an empty summed axis the product is zero, and the bound as first stated is false: the
    first step of "ij,jk,kl->il" makes an array with [2 * 4] elements although [j] has length 0. *)
Theorem intermediate_size_bound_refuted :
  exists h k0 k s shapes ops out size sc steps st,
    hash_ok h /\ call_ok s shapes ops out size /\ from_string_and_shapes h k0 s shapes = Ok sc
    /\ generate_optimized_order h k sc Naive = Ok (Pairs steps)
    /\ nth_error steps 0 = Some st
    /\ size_product size (combined_labels ops (firstn 1 steps)) < size_product size (step_output st).
Proof.
  exists id_hash, [], [], (chars "ij,jk,kl->il"), [[2; 0]; [0; 4]; [4; 5]],
    [chars "ij"; chars "jk"; chars "kl"], (chars "il"),
    (size_fn (combine (chars "ijkl") [2; 0; 4; 5])).
  do 3 eexists. split; [exact id_hash_ok'|]. split; [apply check_call_ok; check_call_tac|].
  split; [vm_compute; reflexivity|]. split; [vm_compute; reflexivity|].
  split; [reflexivity|]. vm_compute. lia.
Qed.
Print Assumptions intermediate_size_bound_refuted.
