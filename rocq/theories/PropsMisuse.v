(** Operands that do not match a compiled path (C25), and scalars that do not commute (C29). *)
From Verif Require Import Base NDArray Validation Optimizers Path Api Spec ParserFacts ValidationMain PathFacts
  ValidationFacts SumFacts MisuseFacts Examples.
From Coq Require Import Lia.
From Coq Require String.
Import String.StringSyntax.
Local Open Scope string_scope.
Local Open Scope list_scope.

(** ** C25: operands that do not match *)

(** Nothing is assumed of the operands' shapes, strides or buffers, nor of the scalars. *)
Theorem too_few_operands_panic :
  forall (A : Type) (Sc : Scalar A) h lay s (arrays operands : list (arr A)) strategy p, hash_ok h ->
    einsum_path_fn h s arrays strategy = Ok p -> length operands < length arrays ->
    contract_operands lay p operands = Panic.
Proof. intros A Sc h lay s arrays operands strategy p Hh Ep. eapply path_misuse; eauto. Qed.
Print Assumptions too_few_operands_panic.

Theorem surplus_operands_are_ignored :
  forall (A : Type) (Sc : Scalar A) h lay s (arrays operands extra : list (arr A)) strategy p, hash_ok h ->
    einsum_path_fn h s arrays strategy = Ok p -> length operands = length arrays ->
    contract_operands lay p (operands ++ extra) = contract_operands lay p operands.
Proof. intros A Sc h lay s arrays operands extra strategy p Hh Ep. eapply path_misuse; eauto. Qed.
Print Assumptions surplus_operands_are_ignored.

(** The same for [SizedContraction::contract_operands]. *)
Theorem sized_contraction_operands :
  forall (A : Type) (Sc : Scalar A) h lay k0 s shapes sc, hash_ok h ->
    from_string_and_shapes h k0 s shapes = Ok sc ->
    (forall operands : list (arr A), length operands < length shapes -> einsum_sc h lay sc operands = Panic)
    /\ (forall operands extra : list (arr A), length operands = length shapes ->
          einsum_sc h lay sc (operands ++ extra) = einsum_sc h lay sc operands).
Proof. intros A Sc h lay k0 s shapes sc Hh. apply sized_misuse; auto. Qed.
Print Assumptions sized_contraction_operands.

(** Once a call has been validated and compiled nothing ends in [Err], whatever it is given. *)
Theorem running_never_errs :
  forall (A : Type) (Sc : Scalar A) h lay sc p (operands : list (arr A)) m,
    contract_operands lay p operands <> Err m /\ einsum_path_new h [21] sc <> Err m
    /\ einsum_sc h lay sc operands <> Err m.
Proof.
  intros A Sc h lay sc p operands m. split; [apply contract_operands_ne|].
  split; [apply einsum_path_new_ne|]. revert m.
  apply no_err_bind; [apply einsum_path_new_ne|]. intros p'. apply contract_operands_ne.
Qed.
Print Assumptions running_never_errs.

Example operand_count_case :
  let a := zarr [2; 3] [1; 2; 3; 4; 5; 6]%Z in
  let b := zarr [3; 2] [1; 0; 2; -1; 3; 1]%Z in
  match einsum_path_fn rev_hash (chars "ij,jk,ki->") [a; b; zarr [2; 2] [1; 1; 2; 0]%Z] Reverse with
  | Ok p => contract_operands c_backend p [a; b] = Panic
            /\ (do r <- contract_operands c_backend p [a; b; zarr [2; 2] [1; 1; 2; 0]%Z; b]; a_iter r) = Ok [48]%Z
  | _ => False
  end.
Proof. vm_compute. split; reflexivity. Qed.

(** Operands of other shapes than those compiled for should be rejected; they are not. The path
    for [2; 3] and [3; 2] accepts two arrays of shape [3; 2], which have no product. *)
Theorem mismatched_operands_panic_refuted :
  exists s (arrays operands : list (arr Z)) p r,
    einsum_path_fn id_hash s arrays Naive = Ok p
    /\ Forall wf operands /\ length operands = length arrays
    /\ ~ accepted s (map (@a_shape Z) operands)
    /\ contract_operands c_backend p operands = Ok r.
Proof.
  exists (chars "ij,jk->ik"),
    [zarr [2; 3] [1; 2; 3; 4; 5; 6]%Z; zarr [3; 2] [1; 0; 2; -1; 3; 1]%Z],
    [zarr [3; 2] [1; 2; 3; 4; 5; 6]%Z; zarr [3; 2] [1; 0; 2; -1; 3; 1]%Z].
  do 2 eexists. split; [vm_compute; reflexivity|]. split; [apply wfs_b_ok; reflexivity|].
  split; [reflexivity|]. split; [|vm_compute; reflexivity].
  intros (ops & out & size & Hc).
  destruct (from_string_ok id_hash [] _ _ _ _ _ id_hash_ok' Hc) as (sc & E & _). discriminate E.
Qed.
Print Assumptions mismatched_operands_panic_refuted.

(** ** C29: order of multiplication *)

(** The laws of a semiring without commutativity of the product. *)
Record noncommutative_semiring (A : Type) {Sc : Scalar A} : Prop := {
  nc_add_0 : forall x, sadd szero x = x;
  nc_add_comm : forall x y, sadd x y = sadd y x;
  nc_add_assoc : forall x y z, sadd x (sadd y z) = sadd (sadd x y) z;
  nc_mul_1_l : forall x, smul sone x = x;
  nc_mul_1_r : forall x, smul x sone = x;
  nc_mul_0_l : forall x, smul szero x = szero;
  nc_mul_0_r : forall x, smul x szero = szero;
  nc_mul_assoc : forall x y z, smul x (smul y z) = smul (smul x y) z;
  nc_distr_l : forall x y z, smul (sadd x y) z = sadd (smul x z) (smul y z);
  nc_distr_r : forall x y z, smul z (sadd x y) = sadd (smul z x) (smul z y)
}.

(** Two by two integer matrices, by rows. *)
Definition mat2 : Type := (Z * Z * Z * Z)%type.
Definition mat2_scalar : Scalar mat2 :=
  {| szero := (0, 0, 0, 0)%Z; sone := (1, 0, 0, 1)%Z;
     sadd := fun x y => let '(a, b, c, d) := x in let '(a', b', c', d') := y in
                        (a + a', b + b', c + c', d + d')%Z;
     smul := fun x y => let '(a, b, c, d) := x in let '(a', b', c', d') := y in
                        (a * a' + b * c', a * b' + b * d', c * a' + d * c', c * b' + d * d')%Z |}.

Lemma mat2_laws : @noncommutative_semiring mat2 mat2_scalar.
Proof.
  constructor; intros; repeat match goal with x : mat2 |- _ => destruct x as [[[? ?] ?] ?] end;
    cbv [szero sone sadd smul mat2_scalar]; repeat (match goal with |- (_, _) = (_, _) => f_equal end); ring.
Qed.

(** [einsum("i,i,j->j", [u, v, w])] with axes of length 1 should hold [u * v * w]; it holds
    [w * (u * v)]. *)
Theorem multiplication_order_refuted :
  exists (A : Type) (Sc : Scalar A) (lay : backend A) (u v w r : arr A), noncommutative_semiring A
    /\ backend_ok lay /\ Forall wf [u; v; w] /\ map (@a_shape A) [u; v; w] = [[1]; [1]; [1]]
    /\ einsum id_hash lay (chars "i,i,j->j") [u; v; w] = Ok r
    /\ a_get r [0] = Ok (smul (elem w [0]) (smul (elem u [0]) (elem v [0])))
    /\ a_get r [0] <> Ok (smul (smul (elem u [0]) (elem v [0])) (elem w [0])).
Proof.
  exists mat2, mat2_scalar, (@plain_backend mat2 mat2_scalar), (mk_c [1] [(0, 1, 0, 0)%Z]), (mk_c [1] [(1, 0, 0, 1)%Z]),
    (mk_c [1] [(0, 0, 1, 0)%Z]).
  eexists. split; [exact mat2_laws|]. split; [apply plain_backend_ok|].
  split; [apply wfs_b_ok; reflexivity|]. split; [reflexivity|]. split; [vm_compute; reflexivity|].
  split; [reflexivity|]. vm_compute. discriminate.
Qed.
Print Assumptions multiplication_order_refuted.
