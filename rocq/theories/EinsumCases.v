(** Counterexamples and small combinations of the outcome lemmas, for C08 and C10. *)
From Verif Require Import Base NDArray Validation Optimizers Path Api Spec
  ValidationMain EinsumMain EinsumProps Examples.
From Coq Require String.
Import String.StringSyntax.
Local Open Scope string_scope.
Local Open Scope list_scope.

Lemma empty_diagonal_counterexample :
  ~ (forall (A : Type) (Sc : Scalar A), semiring A ->
  forall h lay s arrays ops out size, hash_ok h -> backend_ok lay ->
    call_ok s (map (@a_shape A) arrays) ops out size -> Forall wf arrays ->
    exists r, einsum h lay s arrays = Ok r
      /\ holds r (map size out) (einsum_value size arrays ops out)).
Proof.
  intros H.
  destruct (H Z Z_scalar Z_semiring id_hash c_backend (chars "ii->") [zarr [0; 0] []] [chars "ii"] []
              (fun _ => 0) id_hash_ok' c_backend_ok) as (r & E & _).
  - apply check_call_ok. check_call_tac.
  - apply wfs_b_ok. reflexivity.
  - discriminate E.
Qed.

Lemma empty_standard_panics {A} {Sc : Scalar A} h lay s arrays ops out size i (a : arr A) ix :
  hash_ok h -> backend_runs lay ->
  call_ok s (map (@a_shape A) arrays) ops out size -> Forall wf arrays ->
  nth_error arrays i = Some a -> nth_error ops i = Some ix ->
  ~ NoDup ix -> In 0 (a_shape a) ->
  a_strides a = default_strides (a_shape a) \/ Exists (fun st => st <= 0)%Z (a_strides a) ->
  einsum h lay s arrays = Panic.
Proof.
  intros Hh Hl Hc Hw Ha Hi Hn H0 Hs. eapply empty_repeated_panics; eauto.
  destruct Hs as [->|Hs]; auto. apply default_strides_empty; auto.
Qed.

Lemma layouts_irrelevant {A} {Sc : Scalar A} (SR : semiring A) h1 h2 lay1 lay2 s arrays1 arrays2 :
  hash_ok h1 -> hash_ok h2 ->
  backend_ok lay1 -> backend_ok lay2 -> Forall wf arrays1 -> Forall wf arrays2 ->
  Forall2 (@same_array A) arrays1 arrays2 ->
  (forall r1 r2, einsum h1 lay1 s arrays1 = Ok r1 -> einsum h2 lay2 s arrays2 = Ok r2 -> same_array r1 r2)
  /\ ((forall ops out size, call_ok s (map (@a_shape A) arrays1) ops out size -> no_empty_diagonal size ops) ->
      same_outcome (einsum h1 lay1 s arrays1) (einsum h2 lay2 s arrays2)).
Proof.
  intros H H0 H1 H2 H3 H4 H5. split.
  - intros r1 r2 E1 E2. exact (layouts_agree SR h1 h2 lay1 lay2 s arrays1 arrays2 r1 r2 H H0 H1 H2 H3 H4 H5 E1 E2).
  - apply layouts_agree_outcome; auto.
Qed.

Lemma layout_counterexample :
  ~ (forall (A : Type) (Sc : Scalar A), semiring A ->
     forall h lay s arrays1 arrays2, hash_ok h -> backend_ok lay ->
       Forall wf arrays1 -> Forall wf arrays2 -> Forall2 (@same_array A) arrays1 arrays2 ->
       same_outcome (einsum h lay s arrays1) (einsum h lay s arrays2)).
Proof.
  intros H.
  specialize (H Z Z_scalar Z_semiring id_hash c_backend (chars "iij->j")
                [zarr [1; 1; 0] []] [mkArr [] 0%Z [1; 1; 0] [1; 1; 1]%Z] id_hash_ok' c_backend_ok).
  assert (E1 : einsum id_hash c_backend (chars "iij->j") [zarr [1; 1; 0] []] = Panic) by reflexivity.
  assert (E2 : exists r, einsum id_hash c_backend (chars "iij->j") [mkArr [] 0%Z [1; 1; 0] [1; 1; 1]%Z] = Ok r)
    by (eexists; reflexivity).
  destruct E2 as (r & E2). rewrite E1, E2 in H. simpl in H. apply H.
  - apply wfs_b_ok; reflexivity.
  - apply wfs_b_ok; reflexivity.
  - repeat constructor. intros idx Hi. apply indices_complete in Hi. contradiction.
Qed.
