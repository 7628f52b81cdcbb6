(** Reproducibility (C41): whether a call returns the same array, bit for bit, in every run of the
    program. The standard library seeds its hash maps afresh in each run, and over scalars that round
    the order of a sum shows in the result. *)
From Verif Require Import Base NDArray Validation Optimizers Path Api Spec ParserFacts ValidationMain SumFacts
  EinsumMain EinsumProps ReproFacts PropsRounding Examples.
From Coq Require Import ZArith List.
From Coq Require String.
Import String.StringSyntax.
Local Open Scope string_scope.
Local Open Scope list_scope.
Local Open Scope nat_scope.

(** A [direct] call has one operand, or two of which neither repeats a label or has one to itself that
    is summed. Over any scalars it returns the very same array whatever the hash order, and compiles
    to the same path. *)
Theorem direct_calls_are_reproducible :
  forall (A : Type) (Sc : Scalar A) (lay : backend A) h h' s arrays ops out size,
    hash_ok h -> hash_ok h' -> call_ok s (map (@a_shape A) arrays) ops out size -> direct ops out ->
    einsum h lay s arrays = einsum h' lay s arrays
    /\ forall strategy, strategy = Naive \/ strategy = Reverse ->
       einsum_path_fn h s arrays strategy = einsum_path_fn h' s arrays strategy.
Proof.
  intros A Sc lay h h' s arrays ops out size Hh Hh' Hc Hd. split.
  - apply (einsum_indep h h' Hh Hh' lay s arrays ops out size); auto.
  - intros strategy Hst. apply (path_indep h h' Hh Hh' s arrays ops out size strategy); auto.
Qed.
Print Assumptions direct_calls_are_reproducible.

Example direct_case :
  call_ok (chars "bij,bjk->bik") [[2; 3; 2]; [2; 2; 4]] [chars "bij"; chars "bjk"] (chars "bik")
    (size_fn (combine (chars "bijk") [2; 3; 2; 4]))
  /\ direct [chars "bij"; chars "bjk"] (chars "bik").
Proof.
  split; [apply check_call_ok; check_call_tac|].
  split; [|split; [|split]].
  - repeat constructor; simpl; intuition discriminate.
  - repeat constructor; simpl; intuition discriminate.
  - intros c H. simpl in *. tauto.
  - intros c H. simpl in *. tauto.
Qed.

(** Other calls are not reproducible. Here [x] belongs to the first operand alone and is summed away
    first, which leaves the other labels in hash order; the sum over [i] and [j] then runs in it. *)
Theorem calls_are_reproducible_refuted :
  ~ (forall (A : Type) (Sc : Scalar A) (lay : backend A) h h' s arrays,
       hash_ok h -> hash_ok h' -> backend_ok lay -> Forall wf arrays ->
       (do r <- einsum h lay s arrays; a_iter r) = (do r <- einsum h' lay s arrays; a_iter r)).
Proof.
  intros H.
  specialize (H _ cut_scalar (@plain_backend _ cut_scalar) id_hash rev_hash (chars "bijx,bij->b")
                [carr [1; 2; 2; 1] [1; 16; 1; 0]%Z; carr [1; 2; 2] [1; 1; 1; 1]%Z]
                id_hash_ok' rev_hash_ok' (@plain_backend_ok _ cut_scalar)).
  assert (E : Ok [Some 16%Z] = Ok [Some 18%Z]); [|discriminate].
  etransitivity; [|etransitivity; [apply H|]].
  - vm_compute. reflexivity.
  - apply wfs_b_ok. reflexivity.
  - vm_compute. reflexivity.
Qed.
Print Assumptions calls_are_reproducible_refuted.

(** The call of the refutation misses [direct] by the label [x] alone. *)
Example refuted_call_not_direct : ~ direct [chars "bijx"; chars "bij"] (chars "b").
Proof.
  intros (_ & _ & H & _). destruct (H 120%N) as [Hx|Hx]; [right; right; right; left; reflexivity| |];
    simpl in Hx; intuition discriminate.
Qed.
