(** Runs over related scalars (C39): what holds of an Einstein sum over one scalar type carries over
    to another along any relation the constants, sums, products and fused multiply-adds respect. The scalars of the run
    obey no law; only those of the description form a semiring. *)
From Verif Require Import Base NDArray Validation Optimizers Path Api Spec ParserFacts ValidationMain SumFacts
  EinsumMain EinsumProps RelationFacts TensordotMain Examples.
From Coq Require Import Lia.
From Coq Require String.
Import String.StringSyntax.
Local Open Scope string_scope.
Local Open Scope list_scope.

Theorem einsum_respects_relations :
  forall (A B : Type) (Sa : Scalar A) (Sb : Scalar B) (R : A -> B -> Prop),
  scalar_relation R -> semiring B ->
  forall h lay s arrays arrays' ops out size, hash_ok h -> backend_runs lay -> fused_relation R lay ->
    call_ok s (map (@a_shape A) arrays) ops out size -> Forall wf arrays ->
    Forall2 (related_arrays R) arrays arrays' ->
    outcome_related R (einsum h lay s arrays) size arrays arrays' ops out
    /\ forall strategy, strategy = Naive \/ strategy = Reverse ->
       outcome_related R (do p <- einsum_path_fn h s arrays strategy; contract_operands lay p arrays)
         size arrays arrays' ops out.
Proof.
  intros A B Sa Sb R HR SR h lay s arrays arrays' ops out size Hh Hl Hf Hc Hw Hz. split.
  - apply (einsum_related R HR SR h lay Hh Hl); auto.
  - intros strategy Hst. apply (compile_and_run_related R HR SR h lay Hh Hl); auto.
Qed.
Print Assumptions einsum_respects_relations.

(** The same for the function [tensordot]. *)
Theorem tensordot_respects_relations :
  forall (A B : Type) (Sa : Scalar A) (Sb : Scalar B) (R : A -> B -> Prop),
  scalar_relation R -> semiring B ->
  forall lay (a b : arr A) (a' b' : arr B) la ra, backend_runs lay -> fused_relation R lay -> wf a -> wf b ->
    related_arrays R a a' -> related_arrays R b b' ->
    length la = length ra -> axes_ok (length (a_shape a)) la -> axes_ok (length (a_shape b)) ra ->
    axis_lengths (a_shape a) la = axis_lengths (a_shape b) ra ->
    let kept := axis_lengths (a_shape a) (free_axes (length (a_shape a)) la)
                ++ axis_lengths (a_shape b) (free_axes (length (a_shape b)) ra) in
    exists r f, tensordot lay a b la ra = Ok r /\ holds r kept f
      /\ forall o, in_bounds kept o = true -> R (f o) (tensordot_value a' b' la ra o).
Proof.
  intros A B Sa Sb R HR SR lay a b a' b' la ra Hl Hf Wa Wb Ra Rb Hn Ha Hb He kept.
  destruct (tensordot_related lay Hl R HR SR Hf a b a' b' la ra) as (r & w & E & Hr & Hw); auto.
  { rewrite He. auto. }
  exists r, w. split; auto. split; auto. intros o Ho. specialize (Hw o Ho). destruct Ra as [Ea _], Rb as [Eb _].
  rewrite <- (paired_value_sum SR); auto; rewrite <- ?Ea, <- ?Eb; auto.
Qed.
Print Assumptions tensordot_respects_relations.

(** A set of scalars that contains zero and one and is closed under sums, products and the fused
    multiply-add of the backend. *)
Theorem einsum_stays_in_closed_sets :
  forall (A : Type) (Sc : Scalar A) (P : A -> Prop), closed_set P ->
  forall h lay s arrays r, hash_ok h -> backend_runs lay ->
    (forall x y z, P x -> P y -> P z -> P (fused lay x y z)) -> Forall wf arrays ->
    Forall (all_elements P) arrays ->
    einsum h lay s arrays = Ok r -> all_elements P r.
Proof.
  intros A Sc P HP h lay s arrays r Hh Hl Hf Hw Hp E.
  destruct (einsum_ok_shape h lay Hh Hl s arrays r Hw E) as (ops & out & size & Hc & _).
  eapply (closed_result P); [|exact E].
  apply (@einsum_related _ _ _ unit_scalar _ (closed_relation P HP) unit_semiring h lay Hh Hl); eauto.
  { intros x x' y y' z z' Hx Hy Hz. apply Hf; auto. }
  apply closed_related; auto.
Qed.
Print Assumptions einsum_stays_in_closed_sets.

(** Mapping the operands through a homomorphism maps the outcome. *)
Theorem einsum_commutes_with_homomorphisms :
  forall (A B : Type) (Sa : Scalar A) (Sb : Scalar B) (f : A -> B), homomorphism f -> semiring B ->
  forall h h' lay lay', hash_ok h -> hash_ok h' -> backend_runs lay -> maps_fused f lay -> backend_ok lay' ->
  forall s arrays, Forall wf arrays ->
    mapped_outcome f (einsum h lay s arrays) (einsum h' lay' s (map (amap f) arrays)).
Proof. intros A B Sa Sb. exact hom_einsum. Qed.
Print Assumptions einsum_commutes_with_homomorphisms.

(** ** A case: intervals *)

(** Pairs of integer bounds, with interval arithmetic. They are no semiring: the product does not
    distribute over the sum. *)
Definition interval : Type := (Z * Z)%type.
Definition min4 (a b c d : Z) : Z := Z.min (Z.min a b) (Z.min c d).
Definition max4 (a b c d : Z) : Z := Z.max (Z.max a b) (Z.max c d).
Definition interval_scalar : Scalar interval := {|
  szero := (0, 0)%Z;
  sone := (1, 1)%Z;
  sadd := fun x y => (fst x + fst y, snd x + snd y)%Z;
  smul := fun x y => (min4 (fst x * fst y) (fst x * snd y) (snd x * fst y) (snd x * snd y),
                      max4 (fst x * fst y) (fst x * snd y) (snd x * fst y) (snd x * snd y))%Z
|}.

Definition encloses (x : interval) (z : Z) : Prop := (fst x <= z <= snd x)%Z.

Lemma product_between a b c d x y : (a <= x <= b)%Z -> (c <= y <= d)%Z ->
  (min4 (a * c) (a * d) (b * c) (b * d) <= x * y <= max4 (a * c) (a * d) (b * c) (b * d))%Z.
Proof.
  intros Hx Hy. unfold min4, max4.
  assert (H1 : (Z.min (a * y) (b * y) <= x * y <= Z.max (a * y) (b * y))%Z) by (destruct (Z.le_ge_cases 0 y); nia).
  assert (H2 : (Z.min (a * c) (a * d) <= a * y <= Z.max (a * c) (a * d))%Z) by (destruct (Z.le_ge_cases 0 a); nia).
  assert (H3 : (Z.min (b * c) (b * d) <= b * y <= Z.max (b * c) (b * d))%Z) by (destruct (Z.le_ge_cases 0 b); nia).
  lia.
Qed.

Lemma encloses_relation : @scalar_relation interval Z interval_scalar Z_scalar encloses.
Proof.
  constructor.
  - split; simpl; lia.
  - split; simpl; lia.
  - intros [a b] x [c d] y [H1 H2] [H3 H4]. simpl in *. split; simpl; lia.
  - intros [a b] x [c d] y H1 H2. apply product_between; auto.
Qed.

(** So [einsum] over intervals encloses every Einstein sum of integers from the operands' intervals. *)
Theorem interval_einsum_encloses :
  forall h (lay : backend interval) s arrays arrays' ops out size,
    hash_ok h -> @backend_runs interval interval_scalar lay ->
    fused_relation encloses lay ->
    call_ok s (map (@a_shape interval) arrays) ops out size -> Forall wf arrays ->
    Forall2 (related_arrays encloses) arrays arrays' ->
    outcome_related encloses (@einsum interval interval_scalar h lay s arrays) size arrays arrays' ops out.
Proof.
  intros h lay s arrays arrays' ops out size Hh Hl Hf Hc Hw Hz.
  apply (einsum_related encloses encloses_relation Z_semiring h lay Hh Hl); auto.
Qed.
Print Assumptions interval_einsum_encloses.

Definition interval_a : arr interval := mk_c [2; 2] [(1, 2); (-3, 1); (0, 0); (2, 2)]%Z.
Definition interval_b : arr interval := mk_c [2] [(-1, 4); (5, 6)]%Z.
Definition inside_a : arr Z := zarr [2; 2] [2; -3; 0; 2]%Z.
Definition inside_b : arr Z := zarr [2] [4; 5]%Z.

Example interval_case :
  call_ok (chars "ij,j->i") (map (@a_shape interval) [interval_a; interval_b])
    [chars "ij"; chars "j"] (chars "i") (size_fn (combine (chars "ij") [2; 2]))
  /\ Forall wf [interval_a; interval_b]
  /\ Forall2 (related_arrays encloses) [interval_a; interval_b] [inside_a; inside_b]
  /\ (do r <- @einsum _ interval_scalar id_hash (@plain_backend _ interval_scalar) (chars "ij,j->i") [interval_a; interval_b];
      a_iter r) = Ok [(-20, 14); (10, 12)]%Z
  /\ (do r <- einsum id_hash c_backend (chars "ij,j->i") [inside_a; inside_b]; a_iter r) = Ok [-7; 10]%Z.
Proof.
  split; [apply check_call_ok; check_call_tac|]. split; [apply wfs_b_ok; reflexivity|].
  split; [|split; reflexivity].
  repeat constructor.
  - intros idx Hi. apply indices_complete in Hi. simpl in Hi.
    destruct Hi as [<-|[<-|[<-|[<-|[]]]]]; (do 2 eexists; split; [reflexivity|split; [reflexivity|]]);
      split; simpl; lia.
  - intros idx Hi. apply indices_complete in Hi. simpl in Hi.
    destruct Hi as [<-|[<-|[]]]; (do 2 eexists; split; [reflexivity|split; [reflexivity|]]);
      split; simpl; lia.
Qed.

(** The non-negative integers are closed. *)
Example closed_case : @closed_set Z Z_scalar (fun z => (0 <= z)%Z).
Proof. repeat split; cbn; intros; lia. Qed.

Example closed_run :
  Forall (all_elements (fun z => (0 <= z)%Z)) [zarr [2] [3; 0]%Z; zarr [2] [5; 7]%Z]
  /\ (do r <- einsum id_hash c_backend (chars "i,j->ij") [zarr [2] [3; 0]%Z; zarr [2] [5; 7]%Z]; a_iter r)
     = Ok [15; 21; 0; 0]%Z.
Proof.
  split; [|reflexivity].
  repeat constructor; intros idx x E.
  all: assert (Hi : In idx [[0]; [1]]) by
    (apply indices_complete with (sh := [2]); destruct (in_bounds [2] idx) eqn:Eb; auto;
     unfold a_get in E; simpl a_shape in E; rewrite Eb in E; discriminate).
  all: destruct Hi as [<-|[<-|[]]]; cbv in E; injection E as <-; discriminate.
Qed.

(** [tensordot] over intervals, contracting both axes in crossed order. *)
Example interval_tensordot_case :
  wf interval_a /\ axes_ok 2 [0; 1] /\ axes_ok 2 [1; 0]
  /\ axis_lengths (a_shape interval_a) [0; 1] = axis_lengths (a_shape interval_a) [1; 0]
  /\ @backend_runs _ interval_scalar (@plain_backend _ interval_scalar)
  /\ fused_relation encloses (@plain_backend _ interval_scalar)
  /\ (do r <- tensordot (@plain_backend _ interval_scalar) interval_a interval_a [0; 1] [1; 0];
      a_iter r) = Ok [(5, 8)]%Z
  /\ (do r <- tensordot c_backend inside_a inside_a [0; 1] [1; 0]; a_iter r) = Ok [8]%Z.
Proof.
  split; [apply wf_b_ok; reflexivity|]. split; [split; [repeat constructor; simpl; lia|repeat constructor]|].
  split; [split; [repeat constructor; simpl; lia|repeat constructor]|]. split; [reflexivity|].
  split; [apply plain_backend_ok|]. split; [|split; reflexivity].
  apply (@fused_exact_rel _ _ interval_scalar Z_scalar encloses); [exact encloses_relation|apply plain_backend_ok].
Qed.

(** ** A case: parities *)

Definition parity_scalar : Scalar bool := {| szero := false; sone := true; sadd := xorb; smul := andb |}.

Lemma parity_semiring : @semiring bool parity_scalar.
Proof. constructor; intros; repeat match goal with b : bool |- _ => destruct b end; reflexivity. Qed.

Lemma odd_homomorphism : @homomorphism Z bool Z_scalar parity_scalar Z.odd.
Proof. repeat split; intros; simpl; auto using Z.odd_add, Z.odd_mul. Qed.

Example parity_case :
  Forall wf [zarr [2; 2] [1; 2; 3; 5]%Z; zarr [2] [3; 4]%Z]
  /\ (do r <- einsum id_hash c_backend (chars "ij,j->i") [zarr [2; 2] [1; 2; 3; 5]%Z; zarr [2] [3; 4]%Z]; a_iter r)
     = Ok [11; 29]%Z
  /\ (do r <- @einsum _ parity_scalar rev_hash (@plain_backend _ parity_scalar) (chars "ij,j->i")
                (map (amap Z.odd) [zarr [2; 2] [1; 2; 3; 5]%Z; zarr [2] [3; 4]%Z]); a_iter r)
     = Ok [true; true].
Proof. split; [apply wfs_b_ok; reflexivity|split; reflexivity]. Qed.
