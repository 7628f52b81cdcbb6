(** Exactly how much storage a call with one operand, a step and a [tensordot] hold (C64). The
    specification is at the head of StorageExact.v: [single_peak], [copy_of]. *)
From Verif Require Import Base BaseFacts NDArray Validation Optimizers Strategies Singleton Pair Path Api Spec
  ValidationFacts SumFacts ArrayFacts PairMain PathFacts PathShape EinsumMain HandFacts OrderFacts LimitsFacts LimitsMain
  WorkMain WorkFacts ProgramFacts OrderCostFacts Storage StorageFacts StorageMain StorageExact Examples PropsEinsum PropsOrder
  PropsProgram PropsStorage.
From Coq Require Import Lia Sorted.
From Coq Require String.
Import String.StringSyntax.
Local Open Scope string_scope.
Local Open Scope list_scope.

(** A call with one operand holds, depending on whether labels are repeated and whether labels are summed:
    a copy; the sums of one axis after another, each beside the one before; a copy and its diagonal; or the
    diagonal beside the larger of the copy and the sums. The last needs no copy and no diagonal of its own
    if the operand is one piece of memory with positive strides. *)
Theorem single_operand_calls_hold_exactly :
  forall (A : Type) (Sc : Scalar A) h lay s (a : arr A) this out size strategy, hash_ok h -> backend_runs lay ->
    call_ok s [a_shape a] [this] out size ->
    let exactly := fun r m => m = mkStorage (elements r) (single_peak (diagonal_direct a) size this out) in
    uses (einsum_s lay h s [a]) (einsum h lay s [a]) exactly
    /\ (strategy = Naive \/ strategy = Reverse ->
        uses (compile_and_run_s lay h s [a] strategy) (compile_and_run h lay s [a] strategy) exactly).
Proof.
  intros A Sc h lay s a this out size strategy Hh Hl Hc exactly. split.
  - apply (single_einsum_exact h lay Hh Hl s a this out size Hc).
  - apply (single_run_exact h lay Hh Hl s a this out size Hc).
Qed.
Print Assumptions single_operand_calls_hold_exactly.

Definition c23 : arr Z := zarr [2; 3] [1; 2; 3; 4; 5; 6]%Z.
Definition c222 : arr Z := zarr [2; 2; 2] [1; 2; 3; 4; 5; 6; 7; 8]%Z.
(** The same 2 by 2 by 2 array with its last axis reversed. *)
Definition reversed222 : arr Z := mkArr [2; 1; 4; 3; 6; 5; 8; 7]%Z 1 [2; 2; 2] [4; 2; -1]%Z.

(** A copy of 6 elements; the sums over i (3 elements) and then over j (1), two at a time; one sum of 2
    elements; a copy of 4 with a diagonal of 2; the diagonal taken in place and summed; the diagonal (4)
    beside a copy (8), since the strides are not all positive. *)
Example single_exact_case :
  storage_of "ij->ji" [c23] = Ok ([1; 4; 2; 5; 3; 6]%Z, mkStorage 6 6)
  /\ storage_of "ij->" [c23] = Ok ([21]%Z, mkStorage 1 (3 + 1))
  /\ storage_of "ij->i" [c23] = Ok ([6; 15]%Z, mkStorage 2 2)
  /\ storage_of "ii->i" [m22] = Ok ([1; 4]%Z, mkStorage 2 (4 + 2))
  /\ storage_of "iij->j" [c222] = Ok ([8; 10]%Z, mkStorage 2 2)
  /\ storage_of "iij->j" [reversed222] = Ok ([8; 10]%Z, mkStorage 2 (4 + 8))
  /\ single_peak (diagonal_direct reversed222) (fun _ => 2) (chars "iij") (chars "j") = 12
  /\ diagonal_direct c222 = true
  /\ (exists size, call_ok (chars "iij->j") [a_shape reversed222] [chars "iij"] (chars "j") size).
Proof.
  repeat (split; [vm_compute; reflexivity|]). exists (fun _ => 2). apply check_call_ok; check_call_tac.
Qed.

(** A compiled step first prepares the left operand, unless it is [settled], then beside it the right one,
    then beside both the product. The product is the result alone if it is elementwise or one operand has no
    label left; copies of both prepared operands and twice the result if a label is in both and in the
    result; otherwise twice the result, or the result and the copies needed to read the operands as matrices.
    If both operands are settled these copies are of exactly the operands that are not in row-major order
    when their axes are taken in the order of the matrix: contracted labels in alphabetical order, last on
    the left and first on the right. *)
Theorem steps_hold_exactly :
  forall (A : Type) (Sc : Scalar A) h k lay size sc lhs rhs out p (a b : arr A), hash_ok h -> backend_runs lay ->
    sized sc [lhs; rhs] out size -> pair_contraction_new h k sc = Ok p ->
    wf a -> wf b -> a_shape a = map size lhs -> a_shape b = map size rhs ->
    let l := kept_labels lhs (rhs ++ out) in
    let r := kept_labels rhs (lhs ++ out) in
    let elementwise := Permutation l out /\ Permutation r out in
    let stacked := exists c, In c l /\ In c r /\ In c out in
    uses (run_pair_contraction_s lay p a b) (run_pair_contraction lay p a b)
      (fun x m => exists product,
         m = mkStorage (elements x)
               (Nat.max (prepared_peak (diagonal_direct a) size lhs (rhs ++ out))
                  (prepared_held size lhs (rhs ++ out)
                   + Nat.max (prepared_peak (diagonal_direct b) size rhs (lhs ++ out))
                       (prepared_held size rhs (lhs ++ out) + product)))
         /\ (elementwise \/ l = [] \/ r = [] -> product = elements x)
         /\ (stacked -> ~ elementwise -> product = prod (map size l) + prod (map size r) + 2 * elements x)
         /\ (l <> [] -> r <> [] -> ~ stacked ->
             2 * elements x <= product <= Nat.max (prod (map size l) + prod (map size r) + elements x) (2 * elements x))
         /\ (lhs <> [] -> rhs <> [] -> ~ stacked -> settled lhs (rhs ++ out) = true -> settled rhs (lhs ++ out) = true ->
             forall C, StronglySorted N.lt C -> (forall c, In c C <-> In c lhs /\ In c rhs /\ ~ In c out) ->
             product = Nat.max (copy_of (axes_of a lhs (besides C lhs ++ C)) + copy_of (axes_of b rhs (C ++ besides C rhs))
                                + elements x) (2 * elements x))).
Proof.
  intros A Sc h k lay size sc lhs rhs out p a b Hh Hl. apply (step_exact h size Hh lay Hl k).
Qed.
Print Assumptions steps_hold_exactly.

(** Labels in both operands and in the result, with a diagonal and a sum first: a diagonal of 2 beside a copy of 4, then
    beside these 2 elements, two sums. A matrix read in place on the left; one copied (6) on the right. *)
Definition c32 : arr Z := zarr [3; 2] [1; 2; 3; 4; 5; 6]%Z.
Example steps_exact_case :
  storage_of "ii,ij->i" [m22; c23] = Ok ([6; 60]%Z, mkStorage 2 6)
  /\ Nat.max (prepared_peak true (fun c => if N.eqb c 106 then 3 else 2) (chars "ii") (chars "ij" ++ chars "i"))
       (prepared_held (fun c => if N.eqb c 106 then 3 else 2) (chars "ii") (chars "ij" ++ chars "i")
        + Nat.max (prepared_peak true (fun c => if N.eqb c 106 then 3 else 2) (chars "ij") (chars "ii" ++ chars "i"))
            (prepared_held (fun c => if N.eqb c 106 then 3 else 2) (chars "ij") (chars "ii" ++ chars "i") + 2)) = 6
  /\ storage_of "ij,kj->ik" [m22; c32] = Ok ([5; 11; 17; 11; 25; 39]%Z, mkStorage 6 (6 + 6))
  /\ copy_of (axes_of m22 (chars "ij") (chars "i" ++ chars "j")) = 0
  /\ copy_of (axes_of c32 (chars "kj") (chars "j" ++ chars "k")) = 6.
Proof. repeat split; vm_compute; reflexivity. Qed.

(** [tensordot]: the uncontracted axes of the left operand come first, those of the right one last. *)
Theorem tensordot_holds_exactly :
  forall (A : Type) (Sc : Scalar A) lay (a b : arr A) la ra, backend_runs lay ->
    uses (tensordot_s lay a b la ra) (tensordot lay a b la ra)
      (fun x m => m = mkStorage (elements x)
         (Nat.max (copy_of (axes_at a (free_axes (length (a_shape a)) la ++ la))
                   + copy_of (axes_at b (ra ++ free_axes (length (a_shape b)) ra)) + elements x) (2 * elements x))).
Proof. intros A Sc lay a b la ra Hl. apply (tensordot_exact lay Hl). Qed.
Print Assumptions tensordot_holds_exactly.

(** The left operand is copied (6), the right one is not; the result has 4 elements. *)
Example tensordot_exact_case :
  (do (r, m) <- tensordot_s c_backend c32 c32 [0] [0]; do l <- a_iter r; Ok (l, m))
  = Ok ([35; 44; 44; 56]%Z, mkStorage 4 (6 + 4))
  /\ copy_of (axes_at c32 (free_axes 2 [0] ++ [0])) = 6 /\ copy_of (axes_at c32 ([0] ++ free_axes 2 [0])) = 0.
Proof. repeat split; vm_compute; reflexivity. Qed.
