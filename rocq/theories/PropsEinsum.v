(** Theorems about [einsum], compiled paths and their outcomes: C01, C02, C03 (einsum), C07-C12,
    C20 (values), C28. Each theorem is closed by a lemma proved elsewhere and is followed by a
    concrete case that meets its hypotheses. *)
From Verif Require Import Base NDArray Validation Optimizers Path Api Spec
  ValidationMain EinsumMain EinsumProps Examples EinsumCases.
From Coq Require String.
Import String.StringSyntax.
Local Open Scope string_scope.
Local Open Scope list_scope.

(** ** C01: the value *)

Theorem einsum_computes_the_einstein_sum :
  forall (A : Type) (Sc : Scalar A), semiring A ->
  forall h lay s arrays ops out size, hash_ok h -> backend_ok lay ->
    call_ok s (map (@a_shape A) arrays) ops out size -> Forall wf arrays ->
    no_empty_diagonal size ops ->
    exists r, einsum h lay s arrays = Ok r
      /\ holds r (map size out) (einsum_value size arrays ops out).
Proof. intros A Sc. exact einsum_correct. Qed.
Print Assumptions einsum_computes_the_einstein_sum.

(** Without the condition on empty operands: the call ends in one of two ways, and which one is
    determined by the labels, the lengths and the operands' strides. *)
Theorem einsum_outcome_on_every_well_formed_call :
  forall (A : Type) (Sc : Scalar A), semiring A ->
  forall h lay s arrays ops out size, hash_ok h -> backend_ok lay ->
    call_ok s (map (@a_shape A) arrays) ops out size -> Forall wf arrays ->
    outcome_is (einsum h lay s arrays) size arrays ops out.
Proof. intros A Sc SR h lay s arrays ops out size Hh Hl. exact (einsum_outcome SR h lay Hh Hl s arrays ops out size). Qed.
Print Assumptions einsum_outcome_on_every_well_formed_call.

Definition example_size : char -> nat := size_fn (combine (chars "ijk") [2; 3; 2]).
Definition example_a : arr Z := zarr [2; 3] [1; 2; 3; 4; 5; 6]%Z.
(** A 3 by 2 array stored backwards and column-major: rows (6 3) (5 2) (4 1). *)
Definition example_b : arr Z := mkArr [1; 2; 3; 4; 5; 6]%Z 5%Z [3; 2] [-1; -3]%Z.

Example matrix_product_case :
  call_ok (chars "ij,jk->ki") (map (@a_shape Z) [example_a; example_b])
    [chars "ij"; chars "jk"] (chars "ki") example_size
  /\ Forall wf [example_a; example_b]
  /\ no_empty_diagonal example_size [chars "ij"; chars "jk"]
  /\ semiring Z /\ hash_ok rev_hash /\ backend_ok c_backend.
Proof.
  split; [apply check_call_ok; check_call_tac|].
  split; [apply wfs_b_ok; reflexivity|].
  split; [apply no_empty_b_ok; reflexivity|].
  split; [exact Z_semiring|]. split; [exact rev_hash_ok'|exact c_backend_ok].
Qed.
Example matrix_product_run :
  (do r <- einsum rev_hash c_backend (chars "ij,jk->ki") [example_a; example_b]; a_iter r)
  = Ok [28; 73; 10; 28]%Z
  /\ map (einsum_value example_size [example_a; example_b] [chars "ij"; chars "jk"] (chars "ki"))
       (indices [2; 2]) = [28; 73; 10; 28]%Z.
Proof. split; reflexivity. Qed.

(** ** C02: the shape *)

Theorem result_shape :
  forall (A : Type) (Sc : Scalar A) h lay s arrays ops out r, hash_ok h -> backend_runs lay -> Forall wf arrays ->
    meaning s ops out -> einsum h lay s arrays = Ok r ->
    length (a_shape r) = length out
    /\ forall n c i j ix (a : arr A), nth_error out n = Some c ->
         nth_error ops i = Some ix -> nth_error arrays i = Some a -> nth_error ix j = Some c ->
         nth_error (a_shape r) n = nth_error (a_shape a) j.
Proof. intros A Sc. exact result_shape_ok. Qed.
Print Assumptions result_shape.

Example result_shape_case :
  meaning (chars "ij,jk->ki") [chars "ij"; chars "jk"] (chars "ki")
  /\ (do r <- einsum id_hash c_backend (chars "ij,jk->ki") [zarr [1; 3] [1; 2; 3]%Z; example_b];
      Ok (a_shape r)) = Ok [2; 1].
Proof.
  split; [|reflexivity]. left. apply ParserFacts.parse_iff. reflexivity.
Qed.

(** ** C03: acceptance *)

(** [einsum] and [einsum_path] return [Err] exactly on the calls that are not well formed. *)
Theorem einsum_rejects_exactly_malformed_calls :
  forall (A : Type) (Sc : Scalar A) h lay s arrays, hash_ok h -> backend_runs lay -> Forall wf arrays ->
    ((forall m, einsum h lay s arrays <> Err m) <-> accepted s (map (@a_shape A) arrays))
    /\ (~ accepted s (map (@a_shape A) arrays) -> exists m, einsum h lay s arrays = Err m).
Proof. intros A Sc. exact einsum_accepts. Qed.
Print Assumptions einsum_rejects_exactly_malformed_calls.

Theorem einsum_path_rejects_malformed_calls :
  forall (A : Type) (h : hash_order) s (arrays : list (arr A)) strategy, hash_ok h ->
    ~ accepted s (map (@a_shape A) arrays) ->
    exists m, einsum_path_fn h s arrays strategy = Err m.
Proof. intros A h s arrays strategy Hh. exact (path_rejects h Hh s arrays strategy). Qed.
Print Assumptions einsum_path_rejects_malformed_calls.

Example rejected_call :
  ~ accepted (chars "ij,jk->ik") (map (@a_shape Z) [zarr [2; 3] [1; 2; 3; 4; 5; 6]%Z; zarr [5; 4] (repeat 1%Z 20)]).
Proof. exact not_accepted_example. Qed.

(** ** C07: no panic *)

Theorem valid_calls_do_not_panic :
  forall (A : Type) (Sc : Scalar A) h lay s arrays ops out size, hash_ok h -> backend_runs lay ->
    call_ok s (map (@a_shape A) arrays) ops out size -> Forall wf arrays ->
    no_empty_diagonal size ops ->
    (exists r, einsum h lay s arrays = Ok r)
    /\ (forall strategy, strategy = Naive \/ strategy = Reverse ->
          exists p r, einsum_path_fn h s arrays strategy = Ok p /\ contract_operands lay p arrays = Ok r)
    /\ (exists sc r, validate_and_size h s arrays = Ok sc /\ einsum_sc h lay sc arrays = Ok r).
Proof. intros A Sc. exact no_panics. Qed.
Print Assumptions valid_calls_do_not_panic.

(** Four operands, one of them a scalar expression with a repeated label, one with a label of
    its own, stack axes, and an empty axis. *)
Example no_panic_case :
  let size := size_fn (combine (chars "abcde") [2; 3; 0; 2; 4]) in
  let arrays := [zarr [3; 2; 2] (repeat 1%Z 12); zarr [2; 2; 2] (repeat 2%Z 8);
                 zarr [0; 2; 3] []; zarr [4] (repeat 3%Z 4)] in
  call_ok (chars "bad,dda,cab,e->b") (map (@a_shape Z) arrays)
    [chars "bad"; chars "dda"; chars "cab"; chars "e"] (chars "b") size
  /\ Forall wf arrays /\ no_empty_diagonal size [chars "bad"; chars "dda"; chars "cab"; chars "e"].
Proof.
  split; [apply check_call_ok; check_call_tac|].
  split; [apply wfs_b_ok; reflexivity|].
  apply no_empty_b_ok; reflexivity.
Qed.

(** ** C08: empty operands with repeated labels *)

(** What a user would expect: every well-formed call returns the Einstein sum. *)
Definition every_well_formed_call_returns_the_sum : Prop :=
  forall (A : Type) (Sc : Scalar A), semiring A ->
  forall h lay s arrays ops out size, hash_ok h -> backend_ok lay ->
    call_ok s (map (@a_shape A) arrays) ops out size -> Forall wf arrays ->
    exists r, einsum h lay s arrays = Ok r
      /\ holds r (map size out) (einsum_value size arrays ops out).

Theorem empty_diagonal_refuted : ~ every_well_formed_call_returns_the_sum.
Proof. exact empty_diagonal_counterexample. Qed.
Print Assumptions empty_diagonal_refuted.

(** The trace of a 0 by 0 matrix panics. *)
Example empty_trace_panics : einsum id_hash c_backend (chars "ii->") [zarr [0; 0] []] = Panic.
Proof. reflexivity. Qed.

(** Every operand that repeats a label, has an empty axis and the strides ndarray gives to arrays
    in standard layout makes the call panic; so does any other non-positive stride. *)
Theorem empty_operand_with_repeated_label_panics :
  forall (A : Type) (Sc : Scalar A) h lay s arrays ops out size i (a : arr A) ix, hash_ok h -> backend_runs lay ->
    call_ok s (map (@a_shape A) arrays) ops out size -> Forall wf arrays ->
    nth_error arrays i = Some a -> nth_error ops i = Some ix ->
    ~ NoDup ix -> In 0 (a_shape a) ->
    a_strides a = default_strides (a_shape a) \/ Exists (fun st => st <= 0)%Z (a_strides a) ->
    einsum h lay s arrays = Panic.
Proof. intros A Sc. exact empty_standard_panics. Qed.
Print Assumptions empty_operand_with_repeated_label_panics.

(** Exactly which well-formed calls panic. *)
Theorem well_formed_call_panics_exactly_when_blocked :
  forall (A : Type) (Sc : Scalar A) h lay s arrays ops out size, hash_ok h -> backend_runs lay ->
    call_ok s (map (@a_shape A) arrays) ops out size -> Forall wf arrays ->
    (einsum h lay s arrays = Panic <-> blocked_in size (combine arrays ops) out).
Proof. intros A Sc. exact blocked_calls_panic. Qed.
Print Assumptions well_formed_call_panics_exactly_when_blocked.

Example empty_diagonal_case :
  let size := size_fn (combine (chars "ijk") [2; 0; 3]) in
  let arrays := [zarr [2; 2; 0] []; zarr [0; 3] []] in
  call_ok (chars "iij,jk->ik") (map (@a_shape Z) arrays) [chars "iij"; chars "jk"] (chars "ik") size
  /\ Forall wf arrays /\ ~ NoDup (chars "iij")
  /\ einsum rev_hash c_backend (chars "iij,jk->ik") arrays = Panic.
Proof.
  split; [apply check_call_ok; check_call_tac|]. split; [apply wfs_b_ok; reflexivity|].
  split; [|reflexivity]. intros H. inversion H as [|x l Hn]. apply Hn. simpl; auto.
Qed.

(** ** C09: hash iteration order *)

(** Two runs with different iteration orders (and different layout choices in ndarray) end in
    the same way, with equal arrays; this covers rejected and panicking calls too. *)
Theorem hash_order_is_irrelevant :
  forall (A : Type) (Sc : Scalar A), semiring A ->
  forall h1 h2 lay1 lay2 s arrays, hash_ok h1 -> hash_ok h2 -> backend_ok lay1 -> backend_ok lay2 ->
    Forall (@wf A) arrays ->
    same_outcome (einsum h1 lay1 s arrays) (einsum h2 lay2 s arrays).
Proof. intros A Sc. exact both_outcomes. Qed.
Print Assumptions hash_order_is_irrelevant.

(** The two orders really lead to different plans: the intermediate result of the first step has
    its axes in a different order. *)
Example hash_order_case :
  let arrays := [zarr [2; 3] [1; 2; 3; 4; 5; 6]%Z; zarr [3; 2] [1; 0; 0; 1; 1; 1]%Z; zarr [2] [5; 7]%Z] in
  let steps h := match einsum_path_fn h (chars "ij,jk,i->k") arrays Naive with
                 | Ok p => match path_steps p with StepsPairs l => map pc_string l | _ => [] end
                 | _ => [] end in
  steps id_hash <> steps rev_hash /\ Forall wf arrays.
Proof. split; [vm_compute; discriminate|apply wfs_b_ok; reflexivity]. Qed.

(** ** C10: memory layout of the operands *)

(** Operands with equal shapes and elements but any layouts give equal results ... *)
Theorem operand_layout_is_irrelevant :
  forall (A : Type) (Sc : Scalar A), semiring A ->
  forall h1 h2 lay1 lay2 s arrays1 arrays2, hash_ok h1 -> hash_ok h2 ->
    backend_ok lay1 -> backend_ok lay2 -> Forall wf arrays1 -> Forall wf arrays2 ->
    Forall2 (@same_array A) arrays1 arrays2 ->
    (forall r1 r2, einsum h1 lay1 s arrays1 = Ok r1 -> einsum h2 lay2 s arrays2 = Ok r2 -> same_array r1 r2)
    /\ ((forall ops out size, call_ok s (map (@a_shape A) arrays1) ops out size -> no_empty_diagonal size ops) ->
        same_outcome (einsum h1 lay1 s arrays1) (einsum h2 lay2 s arrays2)).
Proof. intros A Sc. exact layouts_irrelevant. Qed.
Print Assumptions operand_layout_is_irrelevant.

(** ... but whether an empty operand with a repeated label makes the call panic does depend on
    its strides, so the unconditional statement is false. *)
Theorem operand_layout_is_irrelevant_refuted :
  ~ (forall (A : Type) (Sc : Scalar A), semiring A ->
     forall h lay s arrays1 arrays2, hash_ok h -> backend_ok lay ->
       Forall wf arrays1 -> Forall wf arrays2 -> Forall2 (@same_array A) arrays1 arrays2 ->
       same_outcome (einsum h lay s arrays1) (einsum h lay s arrays2)).
Proof. exact layout_counterexample. Qed.
Print Assumptions operand_layout_is_irrelevant_refuted.

Example layout_case :
  let a1 := zarr [3; 2] [6; 3; 5; 2; 4; 1]%Z in
  same_array a1 example_b /\ a_strides a1 <> a_strides example_b /\ wf a1 /\ wf example_b.
Proof.
  split; [|split; [discriminate|split; apply wf_b_ok; reflexivity]].
  split; [reflexivity|]. intros idx Hi. apply indices_complete in Hi.
  simpl in Hi. repeat (destruct Hi as [<-|Hi]; [reflexivity|]). contradiction.
Qed.

(** ** C11: strategies *)

Theorem naive_and_reverse_agree :
  forall (A : Type) (Sc : Scalar A), semiring A ->
  forall h h' lay lay' s arrays strategy, hash_ok h -> hash_ok h' ->
    backend_ok lay -> backend_ok lay' -> Forall (@wf A) arrays ->
    strategy = Naive \/ strategy = Reverse ->
    same_outcome (do p <- einsum_path_fn h s arrays strategy; contract_operands lay p arrays)
                 (einsum h' lay' s arrays).
Proof. intros A Sc. exact strategies_agree. Qed.
Print Assumptions naive_and_reverse_agree.

Example strategies_case :
  let arrays := [zarr [2; 3] [1; 2; 3; 4; 5; 6]%Z; zarr [3; 2] [1; 0; 0; 1; 1; 1]%Z; zarr [2] [5; 7]%Z] in
  (do p <- einsum_path_fn id_hash (chars "ij,jk,i->k") arrays Naive;
   do r <- contract_operands c_backend p arrays; a_iter r) = Ok [90; 102]%Z
  /\ (do p <- einsum_path_fn id_hash (chars "ij,jk,i->k") arrays Reverse;
      do r <- contract_operands c_backend p arrays; a_iter r) = Ok [90; 102]%Z.
Proof. split; reflexivity. Qed.

(** ** C12: reusing a path *)

Theorem compiled_path_is_reusable :
  forall (A : Type) (Sc : Scalar A), semiring A ->
  forall h h' lay lay' s (arrays0 arrays : list (arr A)) strategy, hash_ok h -> hash_ok h' ->
    backend_ok lay -> backend_ok lay' -> Forall wf arrays ->
    map (@a_shape A) arrays0 = map (@a_shape A) arrays ->
    einsum_path_fn h s arrays0 strategy = einsum_path_fn h s arrays strategy
    /\ forall p, einsum_path_fn h s arrays0 strategy = Ok p ->
         same_outcome (contract_operands lay p arrays) (einsum h' lay' s arrays).
Proof. intros A Sc. exact path_reusable. Qed.
Print Assumptions compiled_path_is_reusable.

Example reuse_case :
  let arrays0 := [zarr [2; 3] [0; 0; 0; 0; 0; 0]%Z; zarr [3; 2] [0; 0; 0; 0; 0; 0]%Z] in
  let arrays := [example_a; example_b] in
  map (@a_shape Z) arrays0 = map (@a_shape Z) arrays
  /\ (do p <- einsum_path_fn rev_hash (chars "ij,jk->ki") arrays0 Reverse;
      do r <- contract_operands c_backend p arrays; a_iter r) = Ok [28; 73; 10; 28]%Z.
Proof. split; reflexivity. Qed.

(** ** C20: contracting with a subset *)

Theorem subset_contraction_value :
  forall (A : Type) (Sc : Scalar A), semiring A ->
  forall h k k' lay s shapes sc ops' out' sc' size (arrays : list (arr A)), hash_ok h -> backend_ok lay ->
    from_string_and_shapes h k s shapes = Ok sc ->
    subset h k' sc ops' out' = Ok sc' -> ops' <> [] ->
    (forall c, In c (concat ops') -> lookup c (sc_output_size sc) = Some (size c)) ->
    Forall wf arrays -> shapes_ok size ops' (map (@a_shape A) arrays) ->
    outcome_is (einsum_sc h lay sc' arrays) size arrays ops' out'.
Proof. intros A Sc. exact subset_value. Qed.
Print Assumptions subset_contraction_value.

Example subset_contraction_case :
  (do sc <- from_string_and_shapes id_hash [] (chars "ij,jk->ik") [[2; 3]; [3; 2]];
   do sc' <- subset id_hash [] sc [chars "jij"; chars "i"] (chars "j");
   do r <- einsum_sc id_hash c_backend sc' [zarr [3; 2; 3] (map Z.of_nat (seq 0 18)); zarr [2] [1; 10]%Z];
   a_iter r) = Ok [30; 107; 184]%Z.
Proof. reflexivity. Qed.

(** With no operands at all, which [subset] allows, compiling panics. *)
Example subset_without_operands :
  (do sc <- from_string_and_shapes id_hash [] (chars "ij,jk->ik") [[2; 3]; [3; 2]];
   do sc' <- subset id_hash [] sc [] []; einsum_sc id_hash c_backend sc' []) = Panic.
Proof. reflexivity. Qed.

(** ** C28: empty sums *)

Theorem empty_sums_are_zero :
  forall (A : Type) (Sc : Scalar A), semiring A ->
  forall h lay s arrays ops out size r c, hash_ok h -> backend_ok lay ->
    call_ok s (map (@a_shape A) arrays) ops out size -> Forall wf arrays ->
    In c (concat ops) -> ~ In c out -> size c = 0 -> einsum h lay s arrays = Ok r ->
    forall o, in_bounds (a_shape r) o = true -> a_get r o = Ok szero.
Proof. intros A Sc. exact empty_sum_zero. Qed.
Print Assumptions empty_sums_are_zero.

Example empty_sum_case :
  let arrays := [zarr [2; 0] []; zarr [0; 3] []] in
  call_ok (chars "ij,jk->ik") (map (@a_shape Z) arrays) [chars "ij"; chars "jk"] (chars "ik")
    (size_fn (combine (chars "ijk") [2; 0; 3]))
  /\ (do r <- einsum id_hash c_backend (chars "ij,jk->ik") arrays; a_iter r) = Ok [0; 0; 0; 0; 0; 0]%Z.
Proof. split; [apply check_call_ok; check_call_tac|reflexivity]. Qed.
