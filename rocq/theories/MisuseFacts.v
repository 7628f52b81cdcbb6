(** Operands that do not match the path they are given to. *)
From Verif Require Import Base BaseFacts NDArray Validation Optimizers Strategies Singleton Pair Path Api
  Spec ParserFacts ValidationFacts ValidationMain ArrayFacts PathFacts PathShape EinsumMain EinsumProps.
From Coq Require Import Lia.

(** ** Running a compiled path never ends in [Err] *)

Definition no_err {T} (x : res T) : Prop := forall m, x <> Err m.

Lemma no_err_ok {T} (x : T) : no_err (Ok x). Proof. discriminate. Qed.
Lemma no_err_panic {T} : no_err (@Panic T). Proof. discriminate. Qed.
Lemma no_err_bind {T U} (x : res T) (f : T -> res U) : no_err x -> (forall y, no_err (f y)) -> no_err (rbind x f).
Proof. intros Hx Hf m. destruct x; simpl; [apply Hf|exfalso; eapply Hx; eauto|discriminate]. Qed.
Lemma no_err_mapM {T U} (f : T -> res U) l : (forall x, no_err (f x)) -> no_err (mapM f l).
Proof.
  intros Hf. induction l as [|x l IH]; simpl; [apply no_err_ok|].
  apply no_err_bind; auto. intros y. apply no_err_bind; auto. intros ys. apply no_err_ok.
Qed.
Lemma no_err_foldM {T U} (f : U -> T -> res U) l u : (forall u x, no_err (f u x)) -> no_err (foldM f l u).
Proof.
  intros Hf. revert u; induction l as [|x l IH]; simpl; intros u; [apply no_err_ok|].
  apply no_err_bind; auto.
Qed.
Lemma no_err_unwrap {T} (o : option T) : no_err (unwrap o).
Proof. destruct o; discriminate. Qed.
Lemma no_err_rassert b : no_err (rassert b).
Proof. destruct b; discriminate. Qed.
Lemma no_err_usub a b : no_err (usub a b).
Proof. unfold usub. destruct (b <=? a); discriminate. Qed.
Lemma no_err_index {T} (l : list T) i : no_err (index l i).
Proof. apply no_err_unwrap. Qed.

Ltac no_err_step :=
  match goal with
  | |- no_err (Ok _) => apply no_err_ok
  | |- no_err Panic => apply no_err_panic
  | |- no_err (rbind _ _) => apply no_err_bind; [|intros ?]
  | |- no_err (mapM _ _) => apply no_err_mapM; intros ?
  | |- no_err (foldM _ _ _) => apply no_err_foldM; intros ? ?
  | |- no_err (unwrap _) => apply no_err_unwrap
  | |- no_err (rassert _) => apply no_err_rassert
  | |- no_err (usub _ _) => apply no_err_usub
  | |- no_err (index _ _) => apply no_err_index
  | |- no_err (if ?b then _ else _) => destruct b
  | |- no_err (match ?x with _ => _ end) => destruct x
  end.
Ltac no_err_tac := repeat no_err_step.

(** Compilation never ends in [Err] either. *)
Lemma no_err_unwrap_res {T} (x : res T) : no_err (unwrap_res x).
Proof. destruct x; discriminate. Qed.
Lemma size_of_ne m c : no_err (size_of m c).
Proof. unfold size_of. no_err_tac. Qed.
Lemma as_einsum_string_ne sc : no_err (as_einsum_string sc).
Proof. unfold as_einsum_string. no_err_tac. Qed.
Lemma singleton_summary_ne sc : no_err (singleton_summary_new sc).
Proof. unfold singleton_summary_new, singleton_summary_from_indices. no_err_tac. Qed.
Lemma singleton_op_new_ne m sc : no_err (singleton_op_new m sc).
Proof.
  unfold singleton_op_new, permutation_new, perm_and_sum_new, diag_and_sum_new, diagonalization_new,
    summation_new, summation_from_sizes.
  no_err_tac; apply size_of_ne.
Qed.
Lemma singleton_contraction_new_ne sc : no_err (singleton_contraction_new sc).
Proof. unfold singleton_contraction_new. no_err_tac; auto using singleton_summary_ne, singleton_op_new_ne. Qed.
Lemma simplification_from_ne h k this other output orig : no_err (simplification_from h k this other output orig).
Proof.
  unfold simplification_from.
  no_err_tac; auto using no_err_unwrap_res, singleton_contraction_new_ne, as_einsum_string_ne.
Qed.
Lemma tfp_from_shapes_ne l r n : no_err (tfp_from_shapes l r n).
Proof. unfold tfp_from_shapes. no_err_tac. Qed.
Lemma maybe_find_ne o i : no_err (maybe_find_outputs_in_inputs_unique o i).
Proof. unfold maybe_find_outputs_in_inputs_unique. no_err_tac. Qed.
Lemma find_ne o i : no_err (find_outputs_in_inputs_unique o i).
Proof. unfold find_outputs_in_inputs_unique. no_err_tac; apply maybe_find_ne. Qed.
Lemma tg_from_axes_ne ls rs la ra o : no_err (tg_from_axes ls rs la ra o).
Proof. unfold tg_from_axes. no_err_tac; apply tfp_from_shapes_ne. Qed.
Lemma pair_op_new_ne m sc : no_err (pair_op_new m sc).
Proof.
  unfold pair_op_new, hadamard_new, hadamard_general_new, scalar_matrix_new, scalar_matrix_general_new,
    matrix_scalar_new, matrix_scalar_general_new, tfp_new, tg_new, tg_from_indices, stacked_new,
    broadcast_new, stack_step, contracted_step.
  no_err_tac; auto using find_ne, maybe_find_ne, tfp_from_shapes_ne, tg_from_axes_ne, size_of_ne.
Qed.
Lemma pair_contraction_new_ne h k sc : no_err (pair_contraction_new h k sc).
Proof.
  unfold pair_contraction_new, pair_summary_new, pair_summary_from_indices.
  no_err_tac; auto using simplification_from_ne, no_err_unwrap_res, pair_op_new_ne, as_einsum_string_ne.
Qed.
Lemma from_path_ne h k order : no_err (from_path h k order).
Proof. unfold from_path. no_err_tac; auto using singleton_contraction_new_ne, pair_contraction_new_ne. Qed.
Lemma generate_path_ne h k sc order : no_err (generate_path h k sc order).
Proof.
  unfold generate_path, generate_permuted_contraction, path_iteration.
  no_err_tac; unfold generate_sized_contraction_pair; auto using no_err_unwrap_res.
Qed.
Lemma generate_optimized_order_ne h k sc strategy : no_err (generate_optimized_order h k sc strategy).
Proof. unfold generate_optimized_order. no_err_tac; auto using generate_path_ne. Qed.
Lemma einsum_path_new_ne h k sc : no_err (einsum_path_new h k sc).
Proof. unfold einsum_path_new. no_err_tac; auto using generate_optimized_order_ne, from_path_ne. Qed.

Section Run.
Context {A : Type} {Sc : Scalar A}.
Variable lay : backend A.

Lemma a_get_ne (a : arr A) idx : no_err (a_get a idx).
Proof. unfold a_get. no_err_tac. Qed.
Lemma a_iter_ne (a : arr A) : no_err (a_iter a).
Proof. unfold a_iter. no_err_tac. apply a_get_ne. Qed.
Lemma to_owned_ne (a : arr A) : no_err (to_owned lay a).
Proof. unfold to_owned. no_err_tac. apply a_iter_ne. Qed.
Lemma permuted_axes_ne (a : arr A) p : no_err (permuted_axes a p).
Proof. unfold permuted_axes. no_err_tac. Qed.
Lemma permutation_contract_ne p (a : arr A) : no_err (permutation_contract lay p a).
Proof. unfold permutation_contract. no_err_tac; [apply permuted_axes_ne|apply to_owned_ne]. Qed.
Lemma sum_axis_ne (a : arr A) ax : no_err (sum_axis lay a ax).
Proof. unfold sum_axis. no_err_tac. apply a_get_ne. Qed.
Lemma summation_contract_ne s (a : arr A) : no_err (summation_contract lay s a).
Proof. unfold summation_contract. no_err_tac; apply sum_axis_ne. Qed.
Lemma diagonalization_view_ne d (a : arr A) : no_err (diagonalization_view d a).
Proof. unfold diagonalization_view, add_stride, view_from_shape. no_err_tac. Qed.
Lemma from_shape_vec_ne sh (l : list A) : no_err (from_shape_vec sh l).
Proof. unfold from_shape_vec. no_err_tac. Qed.
Lemma diagonalization_contract_ne d (a : arr A) : no_err (diagonalization_contract lay d a).
Proof.
  unfold diagonalization_contract, into_owned.
  no_err_tac; auto using a_iter_ne, from_shape_vec_ne, diagonalization_view_ne.
Qed.
Lemma run_singleton_ne op (a : arr A) : no_err (run_singleton lay op a).
Proof.
  unfold run_singleton, diag_and_sum_contract, permutation_view.
  no_err_tac; auto using to_owned_ne, permutation_contract_ne, summation_contract_ne,
    diagonalization_contract_ne, permuted_axes_ne, diagonalization_view_ne.
Qed.

Lemma into_shape_ne (a : arr A) sh : no_err (into_shape a sh).
Proof. unfold into_shape. no_err_tac. Qed.
Lemma as_matrix_ne r c (a : arr A) : no_err (as_matrix r c a).
Proof. unfold as_matrix. no_err_tac; auto using into_shape_ne, a_iter_ne, from_shape_vec_ne. Qed.
Lemma dot_ne (a b : arr A) : no_err (dot lay a b).
Proof. unfold dot, dot_elem. no_err_tac; auto using a_get_ne. Qed.
Lemma run_tfp_ne t (a b : arr A) : no_err (run_tfp lay t a b).
Proof. unfold run_tfp. no_err_tac; auto using as_matrix_ne, dot_ne, into_shape_ne. Qed.
Lemma broadcast_ne (a : arr A) sh : no_err (broadcast a sh).
Proof. unfold broadcast. no_err_tac. Qed.
Lemma mul_arrays_ne (a b : arr A) : no_err (mul_arrays lay a b).
Proof. unfold mul_arrays, broadcast_with. no_err_tac; auto using a_get_ne, broadcast_ne. Qed.
Lemma run_scalar_matrix_ne (a b : arr A) : no_err (run_scalar_matrix lay a b).
Proof. unfold run_scalar_matrix, first, mapv. no_err_tac; auto using a_get_ne, a_iter_ne. Qed.
Lemma run_matrix_scalar_ne (a b : arr A) : no_err (run_matrix_scalar lay a b).
Proof. unfold run_matrix_scalar, first, mapv. no_err_tac; auto using a_get_ne, a_iter_ne. Qed.
Lemma run_stacked_ne s (a b : arr A) : no_err (run_stacked lay s a b).
Proof.
  unfold run_stacked, permutation_view, outer_iter, stacked_iteration, contract_and_assign_pair, assign, index_axis, a_set.
  no_err_tac; auto using permuted_axes_ne, a_iter_ne, from_shape_vec_ne, run_tfp_ne, broadcast_ne,
    a_get_ne, into_shape_ne, permutation_contract_ne.
Qed.
Lemma run_pair_ne op (a b : arr A) : no_err (run_pair lay op a b).
Proof.
  unfold run_pair, run_hadamard, run_hadamard_general, run_scalar_matrix_general,
    run_matrix_scalar_general, run_broadcast, run_hadamard, run_tg, insert_axis, permutation_view.
  no_err_tac; auto using mul_arrays_ne, permuted_axes_ne, run_scalar_matrix_ne, run_matrix_scalar_ne,
    run_tfp_ne, permutation_contract_ne, broadcast_ne, run_stacked_ne.
Qed.

Lemma fetch_ne (ops ints : list (arr A)) n : no_err (fetch ops ints n).
Proof. unfold fetch. no_err_tac. Qed.
Lemma run_step_ne (ops : list (arr A)) ints so : no_err (run_step lay ops ints so).
Proof.
  unfold run_step, run_pair_contraction, run_simplification.
  no_err_tac; auto using fetch_ne, run_singleton_ne, run_pair_ne.
Qed.
Lemma contract_operands_ne p (ops : list (arr A)) : no_err (contract_operands lay p ops).
Proof.
  unfold contract_operands. no_err_tac; auto using run_singleton_ne, run_step_ne.
Qed.

(** ** Too few and too many operands *)

Lemma run_step_missing (ops ints : list (arr A)) pc st j :
  In (Input j) (step_uses st) -> length ops <= j -> run_step lay ops ints (pc, st) = Panic.
Proof.
  intros Hi Hle. unfold run_step. destruct Hi as [E|[E|[]]].
  - rewrite E. cbn [fetch]. rewrite index_out by auto. auto.
  - destruct (fetch ops ints (ps_lhs st)) eqn:El; [|exfalso; eapply fetch_ne; eauto|auto].
    cbn [rbind]. rewrite E. cbn [fetch]. rewrite index_out by auto. auto.
Qed.

Lemma foldM_panic {T U} (f : U -> T -> res U) l x :
  In x l -> (forall u, f u x = Panic) -> (forall u y, no_err (f u y)) -> forall u, foldM f l u = Panic.
Proof.
  intros Hi Hp Hn. induction l as [|y l IH]; intros u; [contradiction|]. simpl.
  destruct Hi as [->|Hi]; [rewrite Hp; auto|].
  destruct (f u y) eqn:E; simpl; auto. exfalso. eapply Hn; eauto.
Qed.

(** The same step with more operands supplied. *)
Lemma run_step_surplus (ops extra ints : list (arr A)) pc st :
  (forall j, In (Input j) (step_uses st) -> j < length ops) ->
  run_step lay (ops ++ extra) ints (pc, st) = run_step lay ops ints (pc, st).
Proof.
  intros H. unfold run_step.
  assert (E : forall n, In n (step_uses st) -> fetch (ops ++ extra) ints n = fetch ops ints n).
  { intros n Hn. destruct n as [j|j]; auto. cbn [fetch]. unfold index. rewrite nth_error_app1; auto. }
  rewrite !E by (unfold step_uses; simpl; auto). auto.
Qed.

Lemma foldM_ext {T U} (f g : U -> T -> res U) l u :
  (forall u x, In x l -> f u x = g u x) -> foldM f l u = foldM g l u.
Proof.
  revert u; induction l as [|x l IH]; intros u H; auto. simpl. rewrite H by (simpl; auto).
  destruct (g u x); simpl; auto. apply IH. intros; apply H; simpl; auto.
Qed.

Lemma from_path_shape h k order p : from_path h k order = Ok p ->
  path_order p = order
  /\ match order, path_steps p with
     | Singleton _, StepsSingleton _ => True
     | Pairs steps, StepsPairs l => length l = length steps
     | _, _ => False
     end.
Proof.
  intros E. destruct order as [sc|steps]; simpl in E.
  - apply rbind_ok in E as (s & _ & E). injection E as <-. simpl; auto.
  - apply rbind_ok in E as (l & El & E). injection E as <-. simpl. split; auto.
    apply mapM_inv in El. apply Forall2_len in El. rewrite combine_length, seq_length in El. lia.
Qed.

Variables (h : hash_order).
Hypothesis Hh : hash_ok h.

Lemma order_misuse k0 k kp s shapes ops out size sc strategy order p :
  call_ok s shapes ops out size -> strategy = Naive \/ strategy = Reverse ->
  from_string_and_shapes h k0 s shapes = Ok sc ->
  generate_optimized_order h k sc strategy = Ok order -> from_path h kp order = Ok p ->
  (forall operands, length operands < length ops -> contract_operands lay p operands = Panic)
  /\ (forall operands extra, length operands = length ops ->
        contract_operands lay p (operands ++ extra) = contract_operands lay p operands).
Proof.
  intros Hc Hst E Eo Ep. destruct (from_path_shape _ _ _ _ Ep) as [E1 E2].
  destruct (path_structure_ok h Hh k0 k s shapes ops out size sc strategy Hc Hst E) as [P1 P2].
  assert (Hne : ops <> []). { destruct Hc as ([Hm|[Hm _]] & _); inversion Hm; auto. }
  destruct (Nat.eq_dec (length ops) 1) as [L1|L1].
  - destruct (P1 L1) as (sc' & Eg & _). assert (Eor : order = Singleton sc') by congruence. rewrite Eor in E1, E2.
    unfold contract_operands. rewrite E1. destruct (path_steps p); [|contradiction]. split.
    + intros operands Hlt. rewrite index_out by lia. auto.
    + intros operands extra Hl. unfold index. rewrite nth_error_app1 by lia. auto.
  - destruct P2 as (steps & Eg & Hl & Hperm & _). { destruct ops as [|? [|? ?]]; simpl in *; try congruence; lia. }
    assert (Eor : order = Pairs steps) by congruence. rewrite Eor in E1, E2.
    unfold contract_operands. rewrite E1. destruct (path_steps p) as [|l] eqn:Es; [contradiction|]. split.
    + intros operands Hlt.
      assert (Hi : In (Input (length operands)) (flat_map step_uses steps)).
      { apply (Permutation_in _ (Permutation_sym Hperm)). apply in_or_app. left. apply in_map. apply in_seq. lia. }
      apply in_flat_map in Hi as (st & Hst' & Hu).
      destruct (In_nth_error _ _ Hst') as (n & En).
      assert (Hn : n < length l).
      { rewrite E2. apply nth_error_Some. congruence. }
      destruct (nth_error l n) as [pc|] eqn:Epc; [|apply nth_error_None in Epc; lia].
      assert (Hin : In (pc, st) (combine l steps)).
      { clear - Epc En. revert n steps Epc En. induction l as [|y l IH]; intros [|n] [|z steps] E1 E2; simpl in *; try discriminate.
        - left. congruence.
        - right. eapply IH; eauto. }
      rewrite (foldM_panic _ _ (pc, st)); auto.
      * intros u. eapply run_step_missing; eauto.
      * intros u y. apply run_step_ne.
    + intros operands extra Hlen.
      rewrite (foldM_ext (run_step lay (operands ++ extra)) (run_step lay operands)); auto.
      intros u [pc st] Hin. apply run_step_surplus. intros j Hj. rewrite Hlen.
      assert (Hu : In (Input j) (flat_map step_uses steps)).
      { apply in_flat_map. exists st. split; auto. eapply in_combine_r; eauto. }
      apply (Permutation_in _ Hperm) in Hu. apply in_app_or in Hu as [Hu|Hu].
      * apply in_map_iff in Hu as (j' & Ej & Hj'). injection Ej as ->. apply in_seq in Hj'. lia.
      * apply in_map_iff in Hu as (j' & Ej & _). discriminate.
Qed.

Lemma path_misuse s (arrays : list (arr A)) strategy p : einsum_path_fn h s arrays strategy = Ok p ->
  (forall operands, length operands < length arrays -> contract_operands lay p operands = Panic)
  /\ (forall operands extra, length operands = length arrays ->
        contract_operands lay p (operands ++ extra) = contract_operands lay p operands).
Proof.
  intros Ep. unfold einsum_path_fn, validate_and_optimize_order in Ep.
  apply rbind_ok in Ep as (order & Eo & Ep). apply rbind_ok in Eo as (sc & E & Eo).
  destruct (from_string_inv _ _ _ _ _ Hh E) as (ops & out & size & Hc & _).
  assert (L : length arrays = length ops).
  { destruct Hc as (_ & _ & Hs). apply Forall2_len in Hs. unfold get_operand_shapes in Hs.
    rewrite map_length in Hs. auto. }
  assert (Hst : strategy = Naive \/ strategy = Reverse).
  { destruct strategy; auto; cbn [generate_optimized_order] in Eo; discriminate Eo. }
  rewrite L. eapply order_misuse; eauto.
Qed.

Lemma sized_misuse k0 s shapes sc : from_string_and_shapes h k0 s shapes = Ok sc ->
  (forall operands, length operands < length shapes -> einsum_sc h lay sc operands = Panic)
  /\ (forall operands extra, length operands = length shapes ->
        einsum_sc h lay sc (operands ++ extra) = einsum_sc h lay sc operands).
Proof.
  intros E.
  destruct (from_string_inv _ _ _ _ _ Hh E) as (ops & out & size & Hc & HS).
  assert (L : length shapes = length ops). { destruct Hc as (_ & _ & Hs). apply Forall2_len in Hs. auto. }
  rewrite L. unfold einsum_sc.
  destruct (einsum_path_new h [21] sc) as [p|m|] eqn:Ep; [|exfalso|simpl; auto].
  - cbn [rbind]. unfold einsum_path_new in Ep. apply rbind_ok in Ep as (order & Eo & Ep).
    eapply (order_misuse _ _ _ _ _ _ _ _ _ Naive); eauto.
  - eapply einsum_path_new_ne; eauto.
Qed.

End Run.
