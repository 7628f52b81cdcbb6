(** The function [tensordot]: C17 and C18. *)
From Verif Require Import Base NDArray Validation Path Api Spec ParserFacts ArrayFacts TensordotMain Examples.
From Coq Require Import Lia.
From Coq Require String.
Import String.StringSyntax.
Local Open Scope string_scope.
Local Open Scope list_scope.

(** ** C17: value and shape *)

(** Zero need not absorb: nothing is multiplied after it has been summed. *)
Theorem tensordot_is_correct :
  forall (A : Type) (Sc : Scalar A), near_semiring A ->
  forall lay (a b : arr A) la ra, backend_ok lay -> wf a -> wf b ->
    length la = length ra -> axes_ok (length (a_shape a)) la -> axes_ok (length (a_shape b)) ra ->
    axis_lengths (a_shape a) la = axis_lengths (a_shape b) ra ->
    exists r, tensordot lay a b la ra = Ok r
      /\ holds r (axis_lengths (a_shape a) (free_axes (length (a_shape a)) la)
                  ++ axis_lengths (a_shape b) (free_axes (length (a_shape b)) ra))
                 (tensordot_value a b la ra).
Proof. intros A Sc SR lay a b la ra Hlay. apply tensordot_ok; auto. Qed.
Print Assumptions tensordot_is_correct.

Ltac axes_tac := split; [repeat constructor; simpl; lia|repeat constructor].

(** Two axes contracted in crossed order; and the same positions by the formula. *)
Example tensordot_case :
  let a := zarr [2; 3; 2] [1; 2; 3; 4; 5; 6; 7; 8; 9; 10; 11; 12]%Z in
  let b := zarr [2; 2; 3] [1; 0; 2; -1; 3; 1; 0; 0; 1; 4; 5; -2]%Z in
  wf a /\ wf b /\ axes_ok 3 [2; 1] /\ axes_ok 3 [1; 2]
  /\ axis_lengths (a_shape a) [2; 1] = axis_lengths (a_shape b) [1; 2]
  /\ free_axes 3 [2; 1] = [0] /\ free_axes 3 [1; 2] = [0]
  /\ (do r <- tensordot c_backend a b [2; 1] [1; 2]; a_iter r) = Ok [27; 21; 63; 69]%Z
  /\ map (tensordot_value a b [2; 1] [1; 2]) [[0; 0]; [0; 1]; [1; 0]; [1; 1]] = [27; 21; 63; 69]%Z.
Proof.
  split; [apply wf_b_ok; reflexivity|]. split; [apply wf_b_ok; reflexivity|].
  split; [axes_tac|]. split; [axes_tac|]. repeat split.
Qed.

(** Nothing contracted, with a 0-dimensional left operand. *)
Example tensordot_scalar_case :
  (do r <- tensordot c_backend (zarr [] [3]%Z) (zarr [2] [5; 7]%Z) [] []; a_iter r) = Ok [15; 21]%Z.
Proof. reflexivity. Qed.

(** The documentation's claim: [tensordot] agrees with [einsum] on the string that names the
    contracted axes alike and lists the others in order. *)
Theorem tensordot_agrees_with_einsum :
  forall (A : Type) (Sc : Scalar A), semiring A ->
  forall h lay lay' s (a b : arr A) u v la ra size,
    let out := axis_labels u (free_axes (length u) la) ++ axis_labels v (free_axes (length v) ra) in
    hash_ok h -> backend_ok lay -> backend_ok lay' -> wf a -> wf b ->
    call_ok s [a_shape a; a_shape b] [u; v] out size -> NoDup u -> NoDup v ->
    axes_ok (length u) la -> axes_ok (length v) ra -> axis_labels u la = axis_labels v ra ->
    exists r r', tensordot lay a b la ra = Ok r /\ einsum h lay' s [a; b] = Ok r' /\ same_array r r'.
Proof. intros A Sc SR h lay lay' s a b u v la ra size out Hh Hl Hl'. apply tensordot_einsum_same; auto using semiring_near. Qed.
Print Assumptions tensordot_agrees_with_einsum.

(** The two examples of the documentation. *)
Example tensordot_doc_case :
  axis_labels (chars "ijkl") (free_axes 4 [1; 2; 3]) ++ axis_labels (chars "jklm") (free_axes 4 [0; 1; 2])
    = chars "im"
  /\ axis_labels (chars "ijkl") [1; 2; 3] = axis_labels (chars "jklm") [0; 1; 2]
  /\ call_ok (chars "ijkl,jklm->im") [[3; 4; 5; 6]; [4; 5; 6; 7]] [chars "ijkl"; chars "jklm"] (chars "im")
       (size_fn (combine (chars "ijklm") [3; 4; 5; 6; 7]))
  /\ axis_labels (chars "abic") (free_axes 4 [2]) ++ axis_labels (chars "dief") (free_axes 4 [1])
    = chars "abcdef"
  /\ axis_labels (chars "abic") [2] = axis_labels (chars "dief") [1]
  /\ call_ok (chars "abic,dief->abcdef") [[3; 4; 5; 6]; [4; 5; 6; 7]] [chars "abic"; chars "dief"] (chars "abcdef")
       (size_fn (combine (chars "abicdef") [3; 4; 5; 6; 4; 6; 7])).
Proof.
  split; [reflexivity|]. split; [reflexivity|]. split; [apply check_call_ok; check_call_tac|].
  split; [reflexivity|]. split; [reflexivity|]. apply check_call_ok; check_call_tac.
Qed.

(** ** C18: rejection *)

(** No law of the scalars and no well-formedness is assumed. *)
Theorem tensordot_rejects :
  forall (A : Type) (Sc : Scalar A) lay (a b : arr A) la ra,
    length la <> length ra
    \/ ~ NoDup la \/ ~ NoDup ra
    \/ (exists k, In k la /\ length (a_shape a) <= k)
    \/ (exists k, In k ra /\ length (a_shape b) <= k)
    \/ fold_right Nat.mul 1 (axis_lengths (a_shape a) la)
       <> fold_right Nat.mul 1 (axis_lengths (a_shape b) ra) ->
    tensordot lay a b la ra = Panic.
Proof.
  intros A Sc lay a b la ra H. apply tensordot_panics. intros (H1 & [H2 H3] & [H4 H5] & H6).
  rewrite Forall_forall in H3, H5.
  destruct H as [H|[H|[H|[(k & Hk & Hle)|[(k & Hk & Hle)|H]]]]]; try contradiction.
  - apply H3 in Hk. lia.
  - apply H5 in Hk. lia.
Qed.
Print Assumptions tensordot_rejects.

Example tensordot_rejects_case :
  let a := zarr [2; 3] [1; 2; 3; 4; 5; 6]%Z in
  ~ NoDup [0; 0] /\ tensordot c_backend a a [0; 0] [0; 1] = Panic
  /\ (exists k, In k [0; 2] /\ 2 <= k) /\ tensordot c_backend a a [0; 1] [0; 2] = Panic
  /\ tensordot c_backend a a [0] [] = Panic
  /\ tensordot c_backend a a [0] [1] = Panic.
Proof.
  cbv zeta. split. { intros H. inversion H as [|? ? Hn]; subst. apply Hn. simpl; auto. }
  split; [reflexivity|]. split; [exists 2; simpl; auto|]. repeat split.
Qed.

(** Every other call on operands one can build returns an array of the shape kept. *)
Theorem tensordot_panics_exactly :
  forall (A : Type) (Sc : Scalar A) lay (a b : arr A) la ra, backend_runs lay -> wf a -> wf b ->
    let fine := length la = length ra /\ axes_ok (length (a_shape a)) la /\ axes_ok (length (a_shape b)) ra
      /\ fold_right Nat.mul 1 (axis_lengths (a_shape a) la) = fold_right Nat.mul 1 (axis_lengths (a_shape b) ra) in
    (tensordot lay a b la ra = Panic <-> ~ fine)
    /\ (fine -> exists r, tensordot lay a b la ra = Ok r /\ wf r
          /\ a_shape r = axis_lengths (a_shape a) (free_axes (length (a_shape a)) la)
                         ++ axis_lengths (a_shape b) (free_axes (length (a_shape b)) ra)).
Proof.
  intros A Sc lay a b la ra Hlay Wa Wb fine.
  destruct (tensordot_on_all_inputs lay Hlay a b la ra Wa Wb) as [(H1 & H2 & H3 & H4 & r & w & E & Hr & _)|[H E]].
  - assert (Hf : fine) by (unfold fine; auto). split.
    + rewrite E. split; [discriminate|contradiction].
    + intros _. exists r. split; auto. split; [eapply holds_wf; eauto|apply Hr].
  - split; [|intros Hf; exfalso; auto]. rewrite E. split; auto.
Qed.
Print Assumptions tensordot_panics_exactly.

(** Its elements: combinations of contracted positions are paired in row-major order. *)
Theorem tensordot_outcome :
  forall (A : Type) (Sc : Scalar A), near_semiring A ->
  forall lay (a b : arr A) la ra, backend_ok lay -> wf a -> wf b ->
    length la = length ra -> axes_ok (length (a_shape a)) la -> axes_ok (length (a_shape b)) ra ->
    fold_right Nat.mul 1 (axis_lengths (a_shape a) la) = fold_right Nat.mul 1 (axis_lengths (a_shape b) ra) ->
    exists r, tensordot lay a b la ra = Ok r
      /\ holds r (axis_lengths (a_shape a) (free_axes (length (a_shape a)) la)
                  ++ axis_lengths (a_shape b) (free_axes (length (a_shape b)) ra))
                 (paired_value a b la ra).
Proof.
  intros A Sc SR lay a b la ra Hlay Wa Wb H1 H2 H3 H4.
  apply tensordot_pairs; auto.
Qed.
Print Assumptions tensordot_outcome.

Example tensordot_outcome_case :
  let a := zarr [2; 3] [1; 2; 3; 4; 5; 6]%Z in
  let b := zarr [3; 2] [1; 0; 2; -1; 3; 1]%Z in
  map (paired_value a b [0; 1] [0; 1]) [[]] = [1 + 6 - 4 + 15 + 6]%Z
  /\ (do r <- tensordot c_backend a b [0; 1] [0; 1]; a_iter r) = Ok [24]%Z.
Proof. split; reflexivity. Qed.

(** Paired axes of different lengths should be rejected; they are not. *)
Theorem tensordot_rejects_mismatched_axes_refuted :
  exists (a b : arr Z) la ra r, wf a /\ wf b /\ length la = length ra
    /\ axes_ok (length (a_shape a)) la /\ axes_ok (length (a_shape b)) ra
    /\ axis_lengths (a_shape a) la <> axis_lengths (a_shape b) ra
    /\ tensordot c_backend a b la ra = Ok r.
Proof.
  exists (zarr [2; 3] [1; 2; 3; 4; 5; 6]%Z), (zarr [3; 2] [1; 0; 2; -1; 3; 1]%Z), [0; 1], [0; 1].
  eexists. split; [apply wf_b_ok; reflexivity|]. split; [apply wf_b_ok; reflexivity|].
  split; [reflexivity|]. split; [axes_tac|]. split; [axes_tac|]. split; [discriminate|].
  vm_compute. reflexivity.
Qed.
Print Assumptions tensordot_rejects_mismatched_axes_refuted.
