(** Facts about the operations that the benchmarks compare the library with (for C69): matrix products of
    matrices of any strides, the transpose, the sum of all elements, and which contractor a call with two
    operands compiles to. *)
From Verif Require Import Base BaseFacts NDArray Validation Optimizers Strategies Singleton Pair Path Api Spec ValidationFacts
  ValidationMain SumFacts ArrayFacts PathFacts EinsumMain EinsumProps AlgebraFacts TensordotFacts TensordotMain PlanFacts.
From Coq Require Import Lia Permutation.
Local Open Scope list_scope.

(** ** Builtin operations *)

(** [m.t()], the axes in reverse [benches/bench.rs:90]. *)
Definition transposed {A : Type} (a : arr A) : res (arr A) :=
  permuted_axes a (rev (seq 0 (length (a_shape a)))).

Section Builtins.
Context {A : Type} {Sc : Scalar A}.
Variable lay : backend A.

Lemma flat_2 m n i j : flat [m; n] [i; j] = i * n + j.
Proof. simpl. lia. Qed.

(** Matrix products of matrices of any strides, also when the result is column-major. *)
Lemma dot_any (a b : arr A) m k n f g : holds a [m; k] f -> holds b [k; n] g ->
  exists r, dot lay a b = Ok r /\ holds r [m; n] (dot_value lay a b k f g).
Proof.
  intros Ha Hb. unfold dot.
  assert (Ea : a_shape a = [m; k]) by apply Ha. assert (Eb : a_shape b = [k; n]) by apply Hb.
  rewrite Ea, Eb, Nat.eqb_refl. destruct (_ && _).
  - rewrite (mapM_ok _ (fun ji => match ji with
                                  | [j; i] => dot_value lay a b k f g [i; j]
                                  | _ => szero end)).
    2:{ intros ji Hji. apply indices_2 in Hji as (j & i & -> & Hj & Hi).
        rewrite (dot_elem_ok lay a b m k n f g) by auto. reflexivity. }
    cbn [rbind]. eexists. split; [reflexivity|]. split; [reflexivity|]. split.
    { unfold fortran_strides. destruct (is_empty_shape [m; n]); reflexivity. }
    intros ij Hi. assert (Hin := proj2 (indices_In [m; n] ij) Hi).
    apply indices_2 in Hin as (i & j & -> & Hi' & Hj').
    assert (Hst : fortran_strides [m; n] = [1; Z.of_nat m]%Z).
    { unfold fortran_strides. destruct (is_empty_shape [m; n]) eqn:E.
      - apply is_empty_prod in E. rewrite prod_pair in E. nia.
      - simpl. repeat f_equal; lia. }
    unfold a_get. cbn [a_shape]. rewrite Hi. cbn [a_data a_off a_strides]. rewrite Hst. cbn [dot_off].
    replace (0 + (Z.of_nat i * 1 + (Z.of_nat j * Z.of_nat m + 0)))%Z with (Z.of_nat (flat [n; m] [j; i]))
      by (rewrite flat_2; lia).
    rewrite znth_nat, nth_error_indices; [reflexivity|].
    simpl. rewrite (proj2 (Nat.ltb_lt i m) Hi'), (proj2 (Nat.ltb_lt j n) Hj'). auto.
  - rewrite (mapM_ok _ (dot_value lay a b k f g)).
    2:{ intros ij Hij. apply indices_2 in Hij as (i & j & -> & Hi & Hj).
        rewrite (dot_elem_ok lay a b m k n f g) by auto. reflexivity. }
    cbn [rbind]. eexists; split; [reflexivity|]. apply holds_mk_c.
Qed.

Lemma dot_sums (SR : semiring A) (Hlay : backend_ok lay) (a b : arr A) m k n :
  wf a -> wf b -> a_shape a = [m; k] -> a_shape b = [k; n] ->
  exists r, dot lay a b = Ok r /\ holds r [m; n] (fun o => match o with
    | [i; j] => sum_n k (fun x => smul (elem a [i; x]) (elem b [x; j])) | _ => szero end).
Proof.
  intros Wa Wb Ea Eb. pose proof (wf_holds a Wa) as Ha. pose proof (wf_holds b Wb) as Hb.
  rewrite Ea in Ha. rewrite Eb in Hb.
  destruct (dot_any a b m k n _ _ Ha Hb) as (r & E & Hr). exists r. split; auto.
  eapply holds_ext_in; [|exact Hr]. intros o Ho.
  assert (Hin := proj2 (indices_In [m; n] o) Ho). apply indices_2 in Hin as (i & j & -> & _ & _).
  cbn [dot_value].
  pose proof (add_products_ok Hlay a b [i; j] (dot_terms k (elem a) (elem b) i j)) as Hd.
  exact (dots_to_rel_n eq eq_relation lay (eq_fused lay Hlay) (semiring_near SR) k _ _ _ _ _ Hd
    (fun x _ => conj eq_refl eq_refl)).
Qed.

Lemma transposed_2 (a : arr A) m n : wf a -> a_shape a = [m; n] ->
  exists t, transposed a = Ok t /\ holds t [n; m] (fun o => match o with [j; i] => elem a [i; j] | _ => szero end).
Proof.
  intros Wa Ea. pose proof (wf_holds a Wa) as Ha. unfold transposed. rewrite Ea in *. cbn [length seq rev app].
  destruct (permuted_place a [m; n] (elem a) [1; 0] Ha) as (t & E & Ht); [apply perm_swap|].
  exists t. split; auto. cbn in Ht. eapply holds_ext_in; [|exact Ht].
  intros o Ho. assert (Hin := proj2 (indices_In [n; m] o) Ho). apply indices_2 in Hin as (j & i & -> & _ & _).
  reflexivity.
Qed.

End Builtins.

(** Summing all elements, in whatever order. *)
Lemma sums_all {A} {Sc : Scalar A} (SR : semiring A) (f : list nat -> A) m n x :
  sums_to (map f (indices [m; n])) x ->
  x = sum_n m (fun i => sum_n n (fun j => f [i; j])).
Proof.
  intros H. rewrite <- map_unflat, map_map in H.
  rewrite (sums_to_rel_n eq eq_relation (semiring_near SR) _ _ (fun t => f (unflat [m; n] t)) x H) by auto.
  rewrite prod_pair, (sum_n_mult (semiring_near SR)).
  apply sum_n_ext. intros i Hi. apply sum_n_ext. intros j Hj. f_equal.
  rewrite <- flat_2 with (m := m). apply unflat_flat.
  simpl. rewrite (proj2 (Nat.ltb_lt i m) Hi), (proj2 (Nat.ltb_lt j n) Hj). auto.
Qed.

(** ** Calls with two operands *)

Section Two.
Variable h : hash_order.
Hypothesis Hh : hash_ok h.

Lemma two_operands_plan {A} s (arrays : list (arr A)) lhs rhs out size p :
  call_ok s (map (@a_shape A) arrays) [lhs; rhs] out size ->
  einsum_path_fn h s arrays Naive = Ok p ->
  exists c, path_steps p = StepsPairs [c] /\ pair_plan lhs rhs out c.
Proof.
  intros Hc. unfold einsum_path_fn, validate_and_optimize_order, get_operand_shapes.
  destruct (from_string_ok h (7 :: [22]) s _ _ out size Hh Hc) as (sc & E & HS). rewrite E. cbn [rbind].
  unfold generate_optimized_order, naive_order.
  assert (El : length (operand_indices (sc_contraction sc)) = 2) by (destruct HS as (-> & _); auto).
  rewrite El.
  match goal with |- context [generate_path h ?k sc ?ord] =>
    destruct (generate_path_ok h k size Hh sc [lhs; rhs] out ord HS ltac:(discriminate) (Permutation_refl _))
      as [(sc' & Hl & _)|(i0 & js & L & todo & steps & Eo & Ep & _ & Eg & Hch)]; [discriminate|] end.
  rewrite Eg. cbn [rbind from_path].
  cbn [seq map nth] in Ep, Eo. injection Eo as <- <-. injection Ep as <- <-.
  inversion Hch as [? ? ? ? ? sc1 HS1|? ? ? ? ? ? ? ? ? ? Hne]; subst; [|congruence].
  destruct (mapM _ _) as [l| |] eqn:Em; try discriminate. cbn [rbind]. intros [= <-]. cbn [path_steps].
  revert Em. cbn [length seq combine mapM]. 
  match goal with |- context [rbind ?e _] => destruct e as [cc| |] eqn:Ec end; try discriminate.
  cbn [rbind]. intros [= <-]. exists cc. split; auto. cbn [ps_sc fst snd] in Ec. eapply pair_plan_ok; eauto.
Qed.

Lemma one_operand_plan {A} s (arrays : list (arr A)) this out size p :
  call_ok s (map (@a_shape A) arrays) [this] out size ->
  einsum_path_fn h s arrays Naive = Ok p ->
  exists c, path_steps p = StepsSingleton c /\ (forall m, sgl_method c = m <-> singleton_case m this out).
Proof.
  intros Hc. unfold einsum_path_fn, validate_and_optimize_order, get_operand_shapes.
  destruct (from_string_ok h (7 :: [22]) s _ _ out size Hh Hc) as (sc & E & HS). rewrite E. cbn [rbind].
  unfold generate_optimized_order, naive_order.
  assert (El : length (operand_indices (sc_contraction sc)) = 1) by (destruct HS as (-> & _); auto).
  rewrite El.
  match goal with |- context [generate_path h ?k sc ?ord] =>
    destruct (generate_path_ok h k size Hh sc [this] out ord HS ltac:(discriminate) (Permutation_refl _))
      as [(sc' & Hl & Eg & HS')|(i0 & js & L & todo & steps & Eo & Ep & Ht & _)] end.
  2:{ cbn in Ep. injection Ep as <- <-. congruence. }
  rewrite Eg. cbn [rbind from_path].
  destruct (singleton_contraction_new sc') as [c| |] eqn:Ec; try discriminate. cbn [rbind].
  intros [= <-]. exists c. split; auto. apply (singleton_plan _ _ _ _ _ HS' Ec).
Qed.

End Two.

(** When both operands have distinct labels, each in the other or in the output, nothing is simplified. *)
Lemma unsimplified_plan lhs rhs out c : NoDup lhs -> NoDup rhs -> incl lhs (rhs ++ out) -> incl rhs (lhs ++ out) ->
  pair_plan lhs rhs out c ->
  pc_lhs_simplification c = None /\ pc_rhs_simplification c = None
  /\ pair_case (pc_method c) lhs rhs out /\ pc_string c = lhs ++ [c_comma] ++ rhs ++ arrow ++ out.
Proof.
  intros Nl Nr Il Ir (lk & rk & Hl & Hr & Hm & _ & Hs).
  destruct Hl as (_ & _ & Hl), Hr as (_ & _ & Hr).
  destruct (pc_lhs_simplification c); [exfalso; apply (proj1 Hl); auto|].
  destruct (pc_rhs_simplification c); [exfalso; apply (proj1 Hr); auto|].
  subst lk rk. auto.
Qed.
