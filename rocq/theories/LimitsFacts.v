(** Limited and unlimited execution: what the limits can change, and when they change nothing. *)
From Verif Require Import Base BaseFacts NDArray Validation Optimizers Strategies Singleton Pair Path Api Spec
  ValidationFacts SumFacts ArrayFacts TensordotFacts DiagFacts SingletonFacts PairFacts StackedFacts
  PairMain PathFacts PathShape TensordotMain Overflow OverflowFacts Limits.
From Coq Require Import Lia.

(** ** A limit only adds panics *)

Definition below {T} (x y : res T) : Prop := x = Panic \/ x = y.

Lemma below_refl {T} (x : res T) : below x x.
Proof. right; auto. Qed.

Lemma below_bind {T U} (x y : res T) (f g : T -> res U) :
  below x y -> (forall v, below (f v) (g v)) -> below (rbind x f) (rbind y g).
Proof.
  intros [->| ->] H; [left; auto|]. destruct y as [v|e|]; cbn [rbind]; auto; right; auto.
Qed.

Lemma below_foldM {T U} (f g : U -> T -> res U) l : (forall u x, below (f u x) (g u x)) ->
  forall u, below (foldM f l u) (foldM g l u).
Proof. intros H. induction l as [|x l IH]; intros u; cbn [foldM]; [apply below_refl|apply below_bind; auto]. Qed.

Lemma below_mapM {T U} (f g : T -> res U) l : (forall x, below (f x) (g x)) -> below (mapM f l) (mapM g l).
Proof.
  intros H. induction l as [|x l IH]; cbn [mapM]; [apply below_refl|].
  apply below_bind; auto. intros v. apply below_bind; auto. intros; apply below_refl.
Qed.

(** Closes [below] goals about functions that differ only in limited operations. *)
Ltac below_tac :=
  cbv zeta; repeat match goal with
    | |- below ?x ?x => apply below_refl
    | H : forall _, _ |- _ => solve [apply H]
    | |- below (rbind _ _) (rbind _ _) => apply below_bind; [|intros ?]
    | |- below (foldM _ _ _) (foldM _ _ _) => apply below_foldM; intros ? ?
    | |- below (mapM _ _) (mapM _ _) => apply below_mapM; intros ?
    | |- below (match ?x with _ => _ end) _ => destruct x
    end.

Section Products.
Variable M : nat.

Lemma umul_below x y : below (umul M x y) (Ok (x * y)).
Proof. unfold umul. destruct (Nat.leb _ _); [right|left]; auto. Qed.

Lemma umul_bind {U} x y (f g : nat -> res U) : (forall v, below (f v) (g v)) ->
  below (do v <- umul M x y; f v) (g (x * y)).
Proof. intros H. destruct (umul_below x y) as [->| ->]; cbn [rbind]; [left; auto|auto]. Qed.

Lemma tfp_from_shapes_below l r n : below (tfp_from_shapes_c M l r n) (tfp_from_shapes l r n).
Proof.
  unfold tfp_from_shapes_c, tfp_from_shapes. apply below_bind.
  - apply below_foldM. intros [[u c] sh] [ax d]. apply below_bind; [apply below_refl|]. intros lim.
    destruct (Nat.ltb ax lim).
    + apply (umul_bind u d _ (fun u' => Ok (u', c, sh ++ [d]))). intros; apply below_refl.
    + apply (umul_bind c d _ (fun c' => Ok (u, c', sh))). intros; apply below_refl.
  - intros [[u c] sh].
    assert (H : forall xs a, below
       (foldM (fun st (ad : nat * nat) =>
          let '(u, c, sh) := st in let '(axis, d) := ad in
          if Nat.ltb axis n then do c' <- umul M c d; Ok (u, c', sh)
          else do u' <- umul M u d; Ok (u', c, sh ++ [d])) xs a)
       (Ok (fold_left (fun st (ad : nat * nat) =>
          let '(u, c, sh) := st in let '(axis, d) := ad in
          if Nat.ltb axis n then (u, c * d, sh) else (u * d, c, sh ++ [d])) xs a))).
    { induction xs as [|[ax d] xs IH]; intros [[u' c'] sh']; [apply below_refl|].
      cbn [foldM fold_left]. destruct (Nat.ltb ax n).
      - destruct (umul_below c' d) as [->| ->]; cbn [rbind]; [left; auto|apply IH].
      - destruct (umul_below u' d) as [->| ->]; cbn [rbind]; [left; auto|apply IH]. }
    match goal with |- below (rbind (foldM _ ?xs ?a) _) _ => destruct (H xs a) as [->| ->] end;
      cbn [rbind]; [left; auto|].
    destruct (fold_left _ _ _) as [[? ?] ?]. apply below_refl.
Qed.

Lemma tg_from_axes_below l r la ra o : below (tg_from_axes_c M l r la ra o) (tg_from_axes l r la ra o).
Proof. unfold tg_from_axes_c, tg_from_axes. pose proof tfp_from_shapes_below. below_tac. Qed.

Lemma stack_step_below m a x : below (stack_step_c M m a x) (stack_step m a x).
Proof.
  destruct x as [[[lp|] [rp|]] c]; cbn [stack_step_c stack_step]; try apply below_refl.
  apply below_bind; [apply below_refl|]. intros d.
  destruct (umul_below (sa_lhs_stack_len a) d) as [->| ->]; cbn [rbind]; [left; auto|].
  destruct (umul_below (sa_rhs_stack_len a) d) as [->| ->]; cbn [rbind]; [left; auto|].
  apply below_refl.
Qed.

Lemma pair_op_below m sc : below (pair_op_new_c M m sc) (pair_op_new m sc).
Proof.
  destruct m; try apply below_refl; cbn [pair_op_new_c pair_op_new].
  - unfold tfp_new_c, tfp_new. pose proof tfp_from_shapes_below. below_tac.
  - unfold tg_new_c, tg_new, tg_from_indices_c, tg_from_indices. pose proof tg_from_axes_below. below_tac.
  - unfold stacked_new_c, stacked_new. pose proof tfp_from_shapes_below. pose proof stack_step_below. below_tac.
Qed.

Lemma pair_contraction_below h k sc : below (pair_contraction_new_c M h k sc) (pair_contraction_new h k sc).
Proof. unfold pair_contraction_new_c, pair_contraction_new. pose proof pair_op_below. below_tac. Qed.

Lemma from_path_below h k order : below (from_path_c M h k order) (from_path h k order).
Proof.
  destruct order; cbn [from_path_c from_path]; [apply below_refl|].
  pose proof pair_contraction_below. below_tac.
Qed.

End Products.

Section Below.
Variable L : nat.
Context {A : Type} {Sc : Scalar A}.
Variable lay : backend A.

Lemma limited_below (x : res (arr A)) : below (limited L x) x.
Proof.
  unfold limited. destruct x as [r|e|]; cbn [rbind]; try apply below_refl.
  destruct (fits L (a_shape r)); [right|left]; auto.
Qed.

Lemma run_singleton_below op t : below (run_singleton_l L lay op t) (run_singleton lay op t).
Proof.
  pose proof limited_below. destruct op; cbn [run_singleton_l run_singleton];
    unfold permutation_contract_l, permutation_contract, diag_and_sum_contract_l, diag_and_sum_contract,
      summation_contract_l, summation_contract, diagonalization_contract_l, diagonalization_contract,
      diagonalization_view_l; below_tac.
Qed.

Lemma run_tfp_below t l r : below (run_tfp_l L lay t l r) (run_tfp lay t l r).
Proof. pose proof limited_below. unfold run_tfp_l, run_tfp, as_matrix_l, as_matrix. below_tac. Qed.

Lemma run_pair_below op l r : below (run_pair_l L lay op l r) (run_pair lay op l r).
Proof.
  pose proof run_tfp_below. pose proof limited_below.
  destruct op; cbn [run_pair_l run_pair];
    unfold run_hadamard_general_l, run_hadamard_general, run_scalar_matrix_general_l, run_scalar_matrix_general,
      run_matrix_scalar_general_l, run_matrix_scalar_general, run_broadcast_l, run_broadcast,
      run_hadamard_l, run_hadamard, run_scalar_matrix_l, run_scalar_matrix, run_matrix_scalar_l, run_matrix_scalar,
      run_tg_l, run_tg, permutation_contract_l, permutation_contract;
    try solve [below_tac].
  unfold run_stacked_l, run_stacked, permutation_contract_l, permutation_contract. cbv zeta.
  do 6 (apply below_bind; [below_tac|intros ?]).
  unfold limited at 1. cbn [rbind]. destruct (fits L _); cbn [rassert rbind]; [|left; auto].
  unfold stacked_iteration_l, stacked_iteration, contract_and_assign_pair. below_tac.
Qed.

Lemma run_pair_contraction_below p l r :
  below (run_pair_contraction_l L lay p l r) (run_pair_contraction lay p l r).
Proof.
  pose proof run_singleton_below. pose proof run_pair_below.
  unfold run_pair_contraction_l, run_pair_contraction, run_simplification_l, run_simplification. below_tac.
Qed.

Lemma contract_operands_below p arrays : below (contract_operands_l L lay p arrays) (contract_operands lay p arrays).
Proof.
  pose proof run_singleton_below. pose proof run_pair_contraction_below.
  unfold contract_operands_l, contract_operands, run_step_l, run_step. below_tac.
Qed.

Lemma run_tg_below t l r : below (run_tg_l L lay t l r) (run_tg lay t l r).
Proof. apply (run_pair_below (OpTensordotGeneral t)). Qed.

Lemma tensordot_below M a b la ra : below (tensordot_l L lay M a b la ra) (tensordot lay a b la ra).
Proof.
  pose proof (tg_from_axes_below M). pose proof run_tg_below. unfold tensordot_l, tensordot. below_tac.
Qed.

Lemma einsum_below M h s arrays : below (einsum_l L lay M h s arrays) (einsum h lay s arrays).
Proof.
  pose proof (from_path_below M). pose proof contract_operands_below.
  unfold einsum_l, einsum, einsum_sc, einsum_path_new_c, einsum_path_new. below_tac.
Qed.

(** ** Results are within the limit *)

Lemma limited_Ok (x : res (arr A)) r : limited L x = Ok r -> x = Ok r /\ fits L (a_shape r) = true.
Proof.
  unfold limited. destruct x as [r'|e|]; cbn [rbind]; try discriminate.
  destruct (fits L (a_shape r')) eqn:E; cbn [rassert rbind]; [|discriminate]. intros [= <-]. auto.
Qed.

Lemma bind_Ok {T U} (x : res T) (f : T -> res U) y : rbind x f = Ok y -> exists v, x = Ok v /\ f v = Ok y.
Proof. destruct x as [v|e|]; cbn [rbind]; try discriminate. eauto. Qed.

Ltac last_limited := repeat match goal with
  | H : rbind ?x ?f = Ok _ |- _ => apply bind_Ok in H as (? & _ & H)
  | H : limited _ _ = Ok _ |- _ => apply limited_Ok in H as [_ H]; exact H
  end.

Lemma summation_fits s t r : summation_contract_l L lay s t = Ok r -> fits L (a_shape r) = true.
Proof.
  unfold summation_contract_l. intros H. apply bind_Ok in H as (ax & _ & H). apply bind_Ok in H as (r0 & H0 & H).
  apply limited_Ok in H0 as [_ H0]. revert r0 H0 H. induction (skipn 1 (adjusted_axis_list s)) as [|x l IH]; intros r0 H0 H.
  - injection H as <-. auto.
  - cbn [foldM] in H. apply bind_Ok in H as (r1 & H1 & H). apply limited_Ok in H1 as [_ H1]. eauto.
Qed.

Lemma run_singleton_fits op t r : run_singleton_l L lay op t = Ok r -> fits L (a_shape r) = true.
Proof.
  destruct op; cbn [run_singleton_l];
    unfold permutation_contract_l, diag_and_sum_contract_l, diagonalization_contract_l; cbv zeta; intros H;
    try (apply summation_fits in H; auto; fail); last_limited;
    apply summation_fits in H; auto.
Qed.

Lemma run_pair_fits op l r x : run_pair_l L lay op l r = Ok x -> fits L (a_shape x) = true.
Proof.
  destruct op; cbn [run_pair_l];
    unfold run_hadamard_general_l, run_scalar_matrix_general_l, run_matrix_scalar_general_l, run_broadcast_l,
      run_hadamard_l, run_scalar_matrix_l, run_matrix_scalar_l, run_tg_l, run_tfp_l, run_stacked_l,
      permutation_contract_l; intros H; last_limited.
Qed.

Lemma run_pair_contraction_fits p l r x : run_pair_contraction_l L lay p l r = Ok x -> fits L (a_shape x) = true.
Proof.
  unfold run_pair_contraction_l. intros H. do 2 (apply bind_Ok in H as (? & _ & H)).
  eapply run_pair_fits; eauto.
Qed.

Lemma run_steps_fit operands l : forall ints ints',
  Forall (fun a => fits L (a_shape a) = true) ints ->
  foldM (run_step_l L lay operands) l ints = Ok ints' -> Forall (fun a => fits L (a_shape a) = true) ints'.
Proof.
  induction l as [|[p st] l IH]; intros ints ints' Hi H; cbn [foldM] in H; [injection H as <-; auto|].
  apply bind_Ok in H as (i1 & H1 & H). apply (IH i1 ints'); auto.
  unfold run_step_l in H1. do 3 (apply bind_Ok in H1 as (? & ? & H1)).
  injection H1 as <-. apply Forall_app. split; auto. constructor; auto.
  eapply run_pair_contraction_fits; eauto.
Qed.

(** ** Nothing changes for parameters within the limit *)

Lemma limited_same (x : res (arr A)) : (forall r, x = Ok r -> fits L (a_shape r) = true) -> limited L x = x.
Proof.
  intros H. unfold limited. destruct x as [r|e|]; cbn [rbind]; auto. rewrite (H r eq_refl). auto.
Qed.

Lemma bind_same {T U} (x y : res T) (f g : T -> res U) :
  x = y -> (forall v, y = Ok v -> f v = g v) -> rbind x f = rbind y g.
Proof. intros -> H. destruct y as [v|e|]; cbn [rbind]; auto. Qed.

Hypothesis Hlay : backend_runs lay.

Lemma fits_le sh : fits L sh = true <-> nonzero_product sh <= L.
Proof. unfold fits. apply Nat.leb_le. Qed.

Lemma arranged op ins (a : arr A) : a_shape (lay op ins a) = a_shape a.
Proof. destruct (arrange_ok Hlay op ins a) as (H & _). auto. Qed.

Lemma to_owned_shape (a r : arr A) : to_owned lay a = Ok r -> a_shape r = a_shape a.
Proof. unfold to_owned. intros H. apply bind_Ok in H as (l & _ & H). injection H as <-. rewrite arranged. auto. Qed.

Lemma into_owned_shape (a r : arr A) : into_owned lay a = Ok r -> a_shape r = a_shape a.
Proof. unfold into_owned. intros H. apply bind_Ok in H as (l & _ & H). injection H as <-. rewrite arranged. auto. Qed.

Lemma mapv_shape f (a r : arr A) : mapv lay f a = Ok r -> a_shape r = a_shape a.
Proof. unfold mapv. intros H. apply bind_Ok in H as (l & _ & H). injection H as <-. rewrite arranged. auto. Qed.

Lemma sum_axis_shape (a r : arr A) ax : sum_axis lay a ax = Ok r -> a_shape r = remove_nth ax (a_shape a).
Proof.
  unfold sum_axis. intros H. do 2 (apply bind_Ok in H as (? & _ & H)). injection H as <-. rewrite arranged. auto.
Qed.

Lemma permuted_fits (a r : arr A) p : permuted_axes a p = Ok r -> nonzero_product (a_shape r) = nonzero_product (a_shape a).
Proof.
  unfold permuted_axes. destruct (_ && _ && _) eqn:E; [|discriminate]. intros [= <-]. cbn [a_shape].
  apply andb_true_iff in E as [E E3]. apply andb_true_iff in E as [E1 E2].
  apply Nat.eqb_eq in E1. rewrite forallb_forall in E2, E3.
  assert (Hp : Permutation p (seq 0 (length (a_shape a)))).
  { apply NoDup_Permutation_bis.
    - apply (NoDup_count_occ Nat.eq_dec). intros x. destruct (in_dec Nat.eq_dec x p) as [Hi|Hi].
      + specialize (E2 x Hi). apply Nat.ltb_lt in E2.
        assert (Hx : In x (seq 0 (length (a_shape a)))) by (apply in_seq; lia).
        specialize (E3 x Hx). apply Nat.eqb_eq in E3. lia.
      + apply (count_occ_not_In Nat.eq_dec) in Hi. lia.
    - rewrite seq_length. lia.
    - intros x Hx. specialize (E2 x Hx). apply Nat.ltb_lt in E2. apply in_seq. lia. }
  transitivity (nonzero_product (map (fun k => nth k (a_shape a) 0) (seq 0 (length (a_shape a))))).
  - apply nzp_perm, Permutation_map, Hp.
  - f_equal. apply (axis_lengths_all (a_shape a)).
Qed.

Lemma remove_nth_fits n sh : nonzero_product (remove_nth n sh) <= nonzero_product sh.
Proof.
  revert n; induction sh as [|d sh IH]; intros [|n]; cbn [remove_nth]; auto; rewrite !nzp_cons.
  - destruct (Nat.eqb_spec d 0); nia.
  - specialize (IH n). destruct (Nat.eqb d 0); nia.
Qed.

Definition shape_fits (a : arr A) : Prop := nonzero_product (a_shape a) <= L.

Lemma summation_same s t : shape_fits t -> summation_contract_l L lay s t = summation_contract lay s t.
Proof.
  intros Ht. unfold summation_contract_l, summation_contract.
  apply bind_same; auto. intros ax _.
  assert (H1 : forall (r x : arr A) a, shape_fits r -> sum_axis lay r a = Ok x -> shape_fits x).
  { intros r x a Hr Hx. unfold shape_fits. rewrite (sum_axis_shape _ _ _ Hx).
    eapply Nat.le_trans; [apply remove_nth_fits|auto]. }
  assert (H2 : forall (r : arr A) a, shape_fits r -> limited L (sum_axis lay r a) = sum_axis lay r a).
  { intros r a Hr. apply limited_same. intros x Hx. apply fits_le. eapply H1; eauto. }
  apply bind_same; auto. intros r0 E0. apply H1 in E0; auto. revert r0 E0.
  induction (skipn 1 (adjusted_axis_list s)) as [|x l IH]; intros r0 Hr0; cbn [foldM]; auto.
  apply bind_same; auto. intros v Hv. apply IH. eauto.
Qed.

(** The shape a contractor gives its diagonal. *)
Definition singleton_fits (op : singleton_op) : Prop :=
  match op with
  | OpDiagonalization d | OpDiagonalizationAndSummation d _ => nonzero_product (diag_output_shape d) <= L
  | _ => True
  end.

Lemma view_from_shape_shape sh st (data : list A) r : view_from_shape sh st data = Ok r -> a_shape r = sh.
Proof.
  unfold view_from_shape. repeat match goal with |- context [if ?c then _ else _] => destruct c end;
    try discriminate; intros [= <-]; auto.
Qed.

Lemma diagonal_view_shape d (t r : arr A) : diagonalization_view d t = Ok r -> a_shape r = diag_output_shape d.
Proof.
  unfold diagonalization_view. intros H. do 2 (apply bind_Ok in H as (? & _ & H)).
  apply view_from_shape_shape in H. auto.
Qed.

Lemma from_shape_vec_shape sh (l : list A) r : from_shape_vec sh l = Ok r -> a_shape r = sh.
Proof. unfold from_shape_vec. destruct (Nat.eqb _ _); [|discriminate]. intros [= <-]. auto. Qed.

Lemma diagonal_contract_same d t : shape_fits t -> nonzero_product (diag_output_shape d) <= L ->
  diagonalization_contract_l L lay d t = diagonalization_contract lay d t.
Proof.
  intros Ht Hd. unfold diagonalization_contract_l, diagonalization_contract, diagonalization_view_l.
  apply bind_same; auto. intros l _. apply bind_same.
  { apply limited_same. intros r Hr. rewrite (from_shape_vec_shape _ _ _ Hr). apply fits_le. auto. }
  intros c _. apply bind_same.
  { apply limited_same. intros r Hr. rewrite (diagonal_view_shape _ _ _ Hr). apply fits_le. auto. }
  intros v Hv. apply limited_same. intros r Hr.
  rewrite (into_owned_shape _ _ Hr), (diagonal_view_shape _ _ _ Hv). apply fits_le. auto.
Qed.

Lemma diagonal_contract_shape d (t r : arr A) : diagonalization_contract lay d t = Ok r -> a_shape r = diag_output_shape d.
Proof.
  unfold diagonalization_contract. intros H. do 2 (apply bind_Ok in H as (? & _ & H)).
  apply bind_Ok in H as (v & Hv & H). rewrite (into_owned_shape _ _ H), (diagonal_view_shape _ _ _ Hv). auto.
Qed.

Lemma permutation_contract_same p t : shape_fits t -> permutation_contract_l L lay p t = permutation_contract lay p t.
Proof.
  intros Ht. unfold permutation_contract_l, permutation_contract. apply bind_same; auto. intros v Hv.
  apply limited_same. intros r Hr. rewrite (to_owned_shape _ _ Hr). apply fits_le.
  rewrite (permuted_fits _ _ _ Hv). auto.
Qed.

Lemma run_singleton_same op t : shape_fits t -> singleton_fits op ->
  run_singleton_l L lay op t = run_singleton lay op t.
Proof.
  intros Ht Ho. destruct op; cbn [run_singleton_l run_singleton singleton_fits] in *.
  - apply limited_same. intros r Hr. rewrite (to_owned_shape _ _ Hr). apply fits_le. auto.
  - apply permutation_contract_same. auto.
  - apply summation_same. auto.
  - apply diagonal_contract_same; auto.
  - unfold permutation_view. apply bind_same; auto. intros v Hv. apply summation_same.
    unfold shape_fits. rewrite (permuted_fits _ _ _ Hv). auto.
  - unfold diag_and_sum_contract_l, diag_and_sum_contract. cbv zeta. apply bind_same.
    + destruct (_ && _).
      * apply limited_same. intros r Hr. rewrite (diagonal_view_shape _ _ _ Hr). apply fits_le. auto.
      * apply diagonal_contract_same; auto.
    + intros v Hv. apply summation_same. unfold shape_fits.
      destruct (_ && _); [rewrite (diagonal_view_shape _ _ _ Hv)|rewrite (diagonal_contract_shape _ _ _ Hv)]; auto.
Qed.

(** The shapes a tensordot goes through. *)
Definition tfp_fits (t : tensordot_fixed) : Prop :=
  nonzero_product [len_uncontracted_lhs t; len_contracted_axes t] <= L
  /\ nonzero_product [len_contracted_axes t; len_uncontracted_rhs t] <= L
  /\ nonzero_product [len_uncontracted_lhs t; len_uncontracted_rhs t] <= L
  /\ nonzero_product (tfp_output_shape t) <= L.

Lemma into_shape_shape (a r : arr A) sh : into_shape a sh = Ok r -> a_shape r = sh.
Proof.
  unfold into_shape. repeat match goal with |- context [if ?c then _ else _] => destruct c end;
    try discriminate; intros [= <-]; auto.
Qed.

Lemma as_matrix_shape m n (t r : arr A) : as_matrix m n t = Ok r -> a_shape r = [m; n].
Proof.
  unfold as_matrix. destruct (is_standard_layout t); intros H.
  - apply into_shape_shape in H. auto.
  - apply bind_Ok in H as (l & _ & H). apply from_shape_vec_shape in H. auto.
Qed.

Lemma as_matrix_same m n (t : arr A) : nonzero_product [m; n] <= L -> as_matrix_l L m n t = as_matrix m n t.
Proof.
  intros H. unfold as_matrix_l, as_matrix. destruct (is_standard_layout t).
  - apply limited_same. intros r Hr. rewrite (into_shape_shape _ _ _ Hr). apply fits_le. auto.
  - apply bind_same; auto. intros l _. apply limited_same. intros r Hr.
    rewrite (from_shape_vec_shape _ _ _ Hr). apply fits_le. auto.
Qed.

Lemma dot_shape (a b r : arr A) m k k2 n : a_shape a = [m; k] -> a_shape b = [k2; n] ->
  dot lay a b = Ok r -> a_shape r = [m; n].
Proof.
  intros Ea Eb. unfold dot. rewrite Ea, Eb. destruct (Nat.eqb k k2); [|discriminate].
  destruct (_ && _); intros H; apply bind_Ok in H as (l & _ & H); injection H as <-; auto.
Qed.

Lemma run_tfp_same t l r : tfp_fits t -> run_tfp_l L lay t l r = run_tfp lay t l r.
Proof.
  intros (H1 & H2 & H3 & H4). unfold run_tfp_l, run_tfp.
  apply bind_same; [apply as_matrix_same; auto|]. intros lv Hl.
  apply bind_same; [apply as_matrix_same; auto|]. intros rv Hr.
  apply as_matrix_shape in Hl, Hr. apply bind_same.
  - apply limited_same. intros d Hd. rewrite (dot_shape _ _ _ _ _ _ _ Hl Hr Hd). apply fits_le. auto.
  - intros d Hd. apply limited_same. intros x Hx. rewrite (into_shape_shape _ _ _ Hx). apply fits_le. auto.
Qed.

Lemma run_tfp_shape t (l r x : arr A) : run_tfp lay t l r = Ok x -> a_shape x = tfp_output_shape t.
Proof.
  unfold run_tfp. intros H. do 3 (apply bind_Ok in H as (? & _ & H)). apply into_shape_shape in H. auto.
Qed.

Lemma run_tg_same t l r : tfp_fits (tg_fixed t) -> run_tg_l L lay t l r = run_tg lay t l r.
Proof.
  intros H. unfold run_tg_l, run_tg. do 2 (apply bind_same; auto; intros ? ?).
  apply bind_same; [apply run_tfp_same; auto|]. intros d Hd. apply permutation_contract_same.
  unfold shape_fits. rewrite (run_tfp_shape _ _ _ _ Hd). destruct H as (_ & _ & _ & H). auto.
Qed.

(** The shapes a pair contractor gives its arrays, besides those of its operands and result. *)
Definition pair_fits (op : pair_op) : Prop :=
  match op with
  | OpTensordotFixedPosition t => tfp_fits t
  | OpTensordotGeneral t => tfp_fits (tg_fixed t)
  | OpBroadcastProductGeneral b => nonzero_product (bp_output_sizes b) <= L
  | OpStackedTensordotGeneral s =>
      nonzero_product (st_lhs_output_shape s) <= L /\ nonzero_product (st_rhs_output_shape s) <= L
      /\ nonzero_product (st_intermediate_shape s) <= L /\ nonzero_product (st_output_shape s) <= L
      /\ tfp_fits (st_fixed s)
  | _ => True
  end.

Lemma stacked_iteration_same t lsubs rsubs buf i : tfp_fits t ->
  stacked_iteration_l L lay t lsubs rsubs buf i = stacked_iteration lay t lsubs rsubs buf i.
Proof.
  intros H. unfold stacked_iteration_l, stacked_iteration. do 3 (apply bind_same; auto; intros ? ?).
  apply bind_same; auto. apply bind_same; auto. apply run_tfp_same. auto.
Qed.

Lemma run_pair_same op l r : pair_fits op ->
  (forall x, run_pair lay op l r = Ok x -> shape_fits x) ->
  run_pair_l L lay op l r = run_pair lay op l r.
Proof.
  intros Hf Hx.
  assert (Hm : forall a b, (forall x, run_hadamard lay a b = Ok x -> shape_fits x) ->
            run_hadamard_l L lay a b = run_hadamard lay a b).
  { intros a b H. apply limited_same. intros x E. apply fits_le. apply H. auto. }
  assert (Hv : forall (o : res (option A)) (k : A -> res (arr A)),
            (forall x, (do o <- o; do s <- unwrap o; k s) = Ok x -> shape_fits x) ->
            (do o <- o; do s <- unwrap o; limited L (k s)) = (do o <- o; do s <- unwrap o; k s)).
  { intros o k H. apply bind_same; auto. intros v Ev. apply bind_same; auto. intros s Es.
    apply limited_same. intros x E. apply fits_le. apply H. rewrite Ev. cbn [rbind]. rewrite Es. auto. }
  destruct op; cbn [run_pair_l run_pair pair_fits] in *.
  - apply Hm. auto.
  - unfold run_hadamard_general_l, run_hadamard_general in *. apply bind_same; auto. intros l1 E1.
    apply bind_same; auto. intros r1 E2. apply Hm. intros x E. apply Hx. rewrite E1. cbn [rbind]. rewrite E2. auto.
  - apply Hv. auto.
  - unfold run_scalar_matrix_general_l, run_scalar_matrix_general in *. apply bind_same; auto. intros r1 E1.
    apply Hv. intros x E. apply Hx. rewrite E1. auto.
  - apply Hv. auto.
  - unfold run_matrix_scalar_general_l, run_matrix_scalar_general in *. apply bind_same; auto. intros r1 E1.
    apply Hv. intros x E. apply Hx. rewrite E1. auto.
  - apply run_tfp_same. auto.
  - apply run_tg_same. auto.
  - unfold run_broadcast_l, run_broadcast in *. apply bind_same; auto. intros l0 E1.
    apply bind_same; auto. intros r0 E2. apply bind_same; auto. intros l1 E3. apply bind_same; auto. intros r1 E4.
    assert (Hb : forall (t : arr A), limited L (broadcast t (bp_output_sizes b)) = broadcast t (bp_output_sizes b)).
    { intros t. apply limited_same. intros x. unfold broadcast. destruct (upcast_rev _ _ _); [|discriminate].
      intros [= <-]. apply fits_le. auto. }
    apply bind_same; auto. intros l2 E5. apply bind_same; auto. intros r2 E6.
    apply Hm. intros x E. apply Hx. rewrite E1. cbn [rbind]. rewrite E2. cbn [rbind]. rewrite E3. cbn [rbind].
    rewrite E4. cbn [rbind]. rewrite E5. cbn [rbind]. rewrite E6. auto.
  - destruct Hf as (H1 & H2 & H3 & H4 & H5). unfold run_stacked_l, run_stacked. cbv zeta.
    apply bind_same; auto. intros pl _. apply bind_same; auto. intros ll _.
    apply bind_same. { apply limited_same. intros x E. rewrite (from_shape_vec_shape _ _ _ E). apply fits_le. auto. }
    intros lr _. apply bind_same; auto. intros pr _. apply bind_same; auto. intros rl _.
    apply bind_same. { apply limited_same. intros x E. rewrite (from_shape_vec_shape _ _ _ E). apply fits_le. auto. }
    intros rr _. rewrite (limited_same (Ok (zeros _))).
    2:{ intros x [= <-]. apply fits_le. auto. }
    cbn [rbind]. apply bind_same; auto. intros lsubs _. apply bind_same; auto. intros rsubs _.
    apply bind_same; auto. intros n _. apply bind_same.
    + generalize (zeros (st_intermediate_shape s)). induction (seq 0 n) as [|i is IH]; intros buf; cbn [foldM]; auto.
      apply bind_same; [apply stacked_iteration_same; auto|]. auto.
    + intros buf' _. apply bind_same.
      * apply limited_same. intros x E. rewrite (into_shape_shape _ _ _ E). apply fits_le. auto.
      * intros x E. apply permutation_contract_same. unfold shape_fits. rewrite (into_shape_shape _ _ _ E). auto.
Qed.

(** A whole step. *)
Definition simplification_fits (s : option simplification) : Prop :=
  match s with Some s => singleton_fits (simpl_op s) | None => True end.

Definition contraction_fits (p : pair_contraction) : Prop :=
  simplification_fits (pc_lhs_simplification p) /\ simplification_fits (pc_rhs_simplification p)
  /\ pair_fits (pc_op p).

Lemma run_pair_contraction_same p l r : contraction_fits p -> shape_fits l -> shape_fits r ->
  (forall x, run_pair_contraction lay p l r = Ok x -> shape_fits x) ->
  run_pair_contraction_l L lay p l r = run_pair_contraction lay p l r.
Proof.
  intros (H1 & H2 & H3) Hl Hr Hx. unfold run_pair_contraction_l, run_pair_contraction in *.
  assert (Hs : forall s t, simplification_fits s -> shape_fits t ->
            run_simplification_l L lay s t = run_simplification lay s t).
  { intros [s|] t Hs Ht; auto. apply run_singleton_same; auto. }
  apply bind_same; auto. intros l' E1. apply bind_same; auto. intros r' E2.
  apply run_pair_same; auto. intros x E. apply Hx. rewrite E1. cbn [rbind]. rewrite E2. auto.
Qed.

End Below.

(** ** Compiled contractors are within the limit of their operands and result *)

Section Compiled.
Variable L : nat.

Lemma prod_le_nzp sh : prod sh <= nonzero_product sh.
Proof.
  induction sh as [|d sh IH]; [cbn; auto|]. rewrite nzp_cons. cbn [prod fold_right]. fold (prod sh).
  destruct (Nat.eqb_spec d 0); nia.
Qed.

Lemma nzp_prods a b : nonzero_product [prod a; prod b] <= nonzero_product (a ++ b).
Proof.
  rewrite !nzp_cons, nzp_app. change (nonzero_product []) with 1.
  pose proof (prod_le_nzp a). pose proof (prod_le_nzp b). pose proof (nzp_pos a). pose proof (nzp_pos b).
  destruct (Nat.eqb_spec (prod a) 0), (Nat.eqb_spec (prod b) 0); nia.
Qed.

Lemma nzp_prod_cons a b : nonzero_product (prod a :: b) <= nonzero_product (a ++ b).
Proof.
  rewrite nzp_cons, nzp_app. pose proof (prod_le_nzp a). pose proof (nzp_pos a). pose proof (nzp_pos b).
  destruct (Nat.eqb_spec (prod a) 0); nia.
Qed.

Lemma nzp_app_le a b c : nonzero_product b <= nonzero_product c -> nonzero_product (a ++ b) <= nonzero_product (a ++ c).
Proof. rewrite !nzp_app. apply Nat.mul_le_mono_l. Qed.

(** What holds of a tensordot whose operands are within the limit. *)
Definition tfp_bounded (t : tensordot_fixed) : Prop :=
  nonzero_product [len_uncontracted_lhs t; len_contracted_axes t] <= L
  /\ nonzero_product [len_contracted_axes t; len_uncontracted_rhs t] <= L
  /\ nonzero_product [len_uncontracted_lhs t; len_uncontracted_rhs t] <= nonzero_product (tfp_output_shape t).

Definition pair_bounded (op : pair_op) : Prop :=
  match op with
  | OpTensordotFixedPosition t => tfp_bounded t
  | OpTensordotGeneral t => tfp_bounded (tg_fixed t)
  | OpStackedTensordotGeneral s =>
      nonzero_product (st_lhs_output_shape s) <= L /\ nonzero_product (st_rhs_output_shape s) <= L
      /\ nonzero_product (st_intermediate_shape s) <= nonzero_product (st_output_shape s)
      /\ tfp_bounded (st_fixed s)
      /\ nonzero_product (tfp_output_shape (st_fixed s)) <= nonzero_product (st_output_shape s)
  | _ => True
  end.

Lemma tfp_bounded_intro su sc sc' sv : nonzero_product (su ++ sc) <= L -> nonzero_product (sc' ++ sv) <= L ->
  prod sc' = prod sc -> tfp_bounded (mkTFP (prod su) (prod sv) (prod sc) (su ++ sv)).
Proof.
  intros H1 H2 E. unfold tfp_bounded.
  cbn [len_uncontracted_lhs len_uncontracted_rhs len_contracted_axes tfp_output_shape].
  split; [|split; [rewrite <- E|apply nzp_prods]]; (eapply Nat.le_trans; [apply nzp_prods|]); auto.
Qed.

Lemma tfp_from_shapes_bounded l r n t : nonzero_product l <= L -> nonzero_product r <= L ->
  tfp_from_shapes l r n = Ok t -> tfp_bounded t.
Proof.
  intros Hl Hr. unfold tfp_from_shapes.
  assert (Hs : forall st, foldM (fun st (ad : nat * nat) =>
      let '(u, c, sh) := st in
      let '(axis, d) := ad in
      do lim <- usub (length l) n;
      if Nat.ltb axis lim then Ok (u * d, c, sh ++ [d]) else Ok (u, c * d, sh))
      (combine (seq 0 (length l)) l) (1, 1, []) = Ok st ->
      exists su sc, l = su ++ sc /\ st = (prod su, prod sc, su)).
  { intros st. destruct (usub (length l) n) as [lim|e|] eqn:E.
    - assert (Ef := tfp_from_shapes_fold_l lim (length l) n l 0 1 1 [] E). rewrite E in Ef. rewrite Ef.
      rewrite Nat.sub_0_r, !Nat.mul_1_l. cbn [app]. intros [= <-]. exists (firstn lim l), (skipn lim l).
      rewrite firstn_skipn. auto.
    - unfold usub in E. destruct (Nat.leb n (length l)); discriminate.
    - destruct l as [|d l']; cbn [length seq combine foldM]; [|discriminate].
      intros [= <-]. exists [], []. auto. }
  destruct (foldM _ _ (1, 1, [])) as [st|e|]; cbn [rbind]; try discriminate.
  destruct (Hs st eq_refl) as (su & sc & El & ->).
  rewrite tfp_from_shapes_fold_r, Nat.sub_0_r, !Nat.mul_1_l.
  destruct (Nat.eqb_spec (prod (firstn n r)) (prod sc)) as [Ep|]; cbn [rassert rbind]; [|discriminate].
  intros [= <-]. apply (tfp_bounded_intro su sc (firstn n r) (skipn n r)); auto; [rewrite <- El|rewrite firstn_skipn]; auto.
Qed.

Lemma tg_from_axes_bounded l r la ra o t : nonzero_product l <= L -> nonzero_product r <= L ->
  tg_from_axes l r la ra o = Ok t -> tfp_bounded (tg_fixed t).
Proof.
  intros Hl Hr. unfold tg_from_axes.
  destruct (Nat.eqb_spec (length la) (length ra)) as [E0|]; cbn [rassert rbind]; [|discriminate].
  destruct (Nat.eqb_spec (length la) (length (nodup Nat.eq_dec la))) as [E1|]; cbn [rassert rbind]; [|discriminate].
  destruct (Nat.eqb_spec (length la) (length (nodup Nat.eq_dec ra))) as [E2|]; cbn [rassert rbind]; [|discriminate].
  destruct (mapM (index l) la) as [lb| |] eqn:E3; cbn [rbind]; try discriminate.
  destruct (mapM (index r) ra) as [rf| |] eqn:E4; cbn [rbind]; try discriminate.
  destruct (mapM (index l) (other_axes _ _)) as [lf| |] eqn:E5; cbn [rbind]; try discriminate.
  destruct (mapM (index r) (other_axes _ _)) as [rb| |] eqn:E6; cbn [rbind]; try discriminate.
  apply mapM_index_Ok in E3 as [B1 ->]. apply mapM_index_Ok in E4 as [B2 ->].
  apply mapM_index_Ok in E5 as [_ ->]. apply mapM_index_Ok in E6 as [_ ->].
  destruct (tfp_from_shapes _ _ _) as [f| |] eqn:E7; cbn [rbind]; try discriminate.
  intros [= <-]. cbn [tg_fixed]. eapply tfp_from_shapes_bounded; [| |exact E7]; rewrite axes_product; auto.
  - apply free_axes_perm. split; auto. apply nodup_length_NoDup. auto.
  - eapply Permutation_trans; [apply Permutation_app_comm|]. apply free_axes_perm. split; auto.
    apply nodup_length_NoDup. lia.
Qed.

Section Pair.
Variables (sc : sized_contraction) (lhs rhs out : list char) (size : char -> nat).
Hypothesis HS : sized sc [lhs; rhs] out size.
Hypothesis Hl : nonzero_product (map size lhs) <= L.
Hypothesis Hr : nonzero_product (map size rhs) <= L.

Lemma tg_new_bounded t : tg_new sc = Ok t -> tfp_bounded (tg_fixed t).
Proof.
  unfold tg_new. rewrite (sc_ops2 sc lhs rhs out size HS).
  cbn [length Nat.eqb rassert rbind]. unfold index. cbn [nth_error unwrap rbind].
  rewrite !(sizes2 sc lhs rhs out size HS) by (intros c Hc; apply in_or_app; auto). cbn [rbind].
  unfold tg_from_indices.
  destruct (find_outputs_in_inputs_unique _ lhs); cbn [rbind]; try discriminate.
  destruct (find_outputs_in_inputs_unique _ rhs); cbn [rbind]; try discriminate.
  destruct (find_outputs_in_inputs_unique _ _); cbn [rbind]; try discriminate.
  apply tg_from_axes_bounded; auto.
Qed.

Lemma tfp_new_bounded t : tfp_new sc = Ok t -> tfp_bounded t.
Proof.
  unfold tfp_new. rewrite (sc_ops2 sc lhs rhs out size HS).
  cbn [length Nat.eqb rassert rbind]. unfold index. cbn [nth_error unwrap rbind].
  destruct (usub _ _); cbn [rbind]; try discriminate. destruct (rassert _); cbn [rbind]; try discriminate.
  rewrite !(sizes2 sc lhs rhs out size HS) by (intros c Hc; apply in_or_app; auto). cbn [rbind].
  apply tfp_from_shapes_bounded; auto.
Qed.

Lemma stacked_new_bounded s : simplified lhs rhs out -> stacked_new sc = Ok s ->
  pair_bounded (OpStackedTensordotGeneral s).
Proof.
  intros [Nl Nr No Hi Ul Ur]. unfold stacked_new.
  pose proof HS as (Ec & _ & _). rewrite Ec.
  cbn [contraction_of operand_indices output_indices length Nat.eqb rassert rbind].
  unfold index. cbn [nth_error unwrap rbind].
  rewrite !maybe_find_ok by auto. cbn [rbind].
  assert (Hout : forall c, In c out -> In c lhs \/ In c rhs) by (intros c Hc; apply in_app_iff, Hi; auto).
  set (S := filter (both lhs rhs) out). set (U := filter (only lhs rhs) out). set (V := filter (only rhs lhs) out).
  set (C := filter (fun c => negb (mem c out)) lhs).
  rewrite (stack_fold sc lhs rhs out size HS out) by auto. fold S U V. cbn [rbind].
  rewrite (contracted_fold sc lhs rhs out size HS out).
  2:{ intros [i c] Hic. apply in_combine_r in Hic. cbn [snd]. auto. }
  set (X := filter (fun ic => negb (mem (snd ic) out)) (combine (seq 0 (length lhs)) lhs)).
  assert (XC : map snd X = C).
  { unfold X, C. clear. generalize 0. induction lhs as [|c l IH]; intros k; auto.
    cbn [length seq combine filter snd]. destruct (negb (mem c out)); cbn [map snd]; rewrite IH; auto. }
  assert (XS : map (fun ic => size (snd ic)) X = map size C) by (rewrite <- XC, map_map; auto).
  rewrite XS. cbn [app rbind sa_lhs_stack_axes sa_rhs_stack_axes sa_stack_indices
    sa_lhs_outer_axes sa_lhs_outer_indices sa_rhs_outer_axes sa_rhs_outer_indices
    sa_lhs_uncontracted_shape sa_rhs_uncontracted_shape sa_lhs_stack_len sa_rhs_stack_len skipn].
  assert (IS : forall c, In c S <-> In c out /\ In c lhs /\ In c rhs).
  { intros c. unfold S, both. rewrite filter_In, andb_true_iff, !mem_In. tauto. }
  assert (IU : forall c, In c U <-> In c out /\ In c lhs /\ ~ In c rhs).
  { intros c. unfold U, only. rewrite filter_In, andb_true_iff, negb_true_iff, mem_In, mem_false. tauto. }
  assert (IV : forall c, In c V <-> In c out /\ In c rhs /\ ~ In c lhs).
  { intros c. unfold V, only. rewrite filter_In, andb_true_iff, negb_true_iff, mem_In, mem_false. tauto. }
  assert (IC : forall c, In c C <-> In c lhs /\ ~ In c out).
  { intros c. unfold C. rewrite filter_In, negb_true_iff, mem_false. tauto. }
  assert (NS : NoDup S) by (apply NoDup_filter; auto).
  assert (NU : NoDup U) by (apply NoDup_filter; auto).
  assert (NV : NoDup V) by (apply NoDup_filter; auto).
  assert (NC : NoDup C) by (apply NoDup_filter; auto).
  assert (ICr : incl C rhs) by (intros c Hc; apply IC in Hc as [H1 H2]; destruct (Ul c H1); tauto).
  assert (B1 : nonzero_product (map size S ++ map size U ++ map size C) <= L).
  { rewrite <- !map_app. eapply Nat.le_trans; [|exact Hl]. apply nzp_incl.
    - repeat apply NoDup_app_intro; auto; intros c; rewrite ?in_app_iff, ?IS, ?IU, ?IC; tauto.
    - intros c. rewrite !in_app_iff, IS, IU, IC. tauto. }
  assert (B2 : nonzero_product (map size S ++ map size C ++ map size V) <= L).
  { rewrite <- !map_app. eapply Nat.le_trans; [|exact Hr]. apply nzp_incl.
    - repeat apply NoDup_app_intro; auto; intros c; rewrite ?in_app_iff, ?IS, ?IV, ?IC; try tauto.
    - intros c. rewrite !in_app_iff, IS, IV. specialize (ICr c). tauto. }
  rewrite Nat.mul_1_l, Nat.eqb_refl. cbn [rassert rbind].
  rewrite (sizes2 sc lhs rhs out size HS U) by (intros c Hc; apply IU in Hc; apply in_or_app; tauto).
  rewrite (sizes2 sc lhs rhs out size HS V) by (intros c Hc; apply IV in Hc; apply in_or_app; tauto). cbn [rbind].
  destruct (find_outputs_in_inputs_unique _ _); cbn [rbind]; try discriminate.
  rewrite (sizes2 sc lhs rhs out size HS (S ++ U ++ V)).
  2:{ intros c. rewrite !in_app_iff, IS, IU, IV. tauto. }
  cbn [rbind].
  destruct (tfp_from_shapes _ _ _) as [f| |] eqn:E; cbn [rbind]; try discriminate.
  intros [= <-].
  assert (Lx : length (map fst X) = length (map size C))
    by (rewrite !map_length, <- XC, map_length; auto).
  rewrite Lx, tfp_from_shapes_ok in E. injection E as <-.
  cbn [pair_bounded st_lhs_output_shape st_rhs_output_shape st_intermediate_shape st_fixed st_output_shape].
  rewrite !map_app. repeat split.
  - eapply Nat.le_trans; [apply nzp_prod_cons|auto].
  - eapply Nat.le_trans; [apply nzp_prod_cons|auto].
  - apply nzp_prod_cons.
  - cbn. eapply Nat.le_trans; [apply nzp_prods|]. rewrite nzp_app in B1. pose proof (nzp_pos (map size S)). nia.
  - cbn. eapply Nat.le_trans; [apply nzp_prods|]. rewrite nzp_app in B2. pose proof (nzp_pos (map size S)). nia.
  - cbn [tfp_for len_uncontracted_lhs len_uncontracted_rhs tfp_output_shape]. apply nzp_prods.
  - cbn [tfp_for tfp_output_shape]. rewrite (nzp_app (map size S)). pose proof (nzp_pos (map size S)). nia.
Qed.

Lemma pair_op_bounded m op : simplified lhs rhs out -> pair_op_new m sc = Ok op -> pair_bounded op.
Proof.
  intros Hs. destruct m; cbn [pair_op_new]; intros H; apply bind_Ok in H as (x & Hx & H); injection H as <-;
    try exact I; cbn [pair_bounded].
  - apply tfp_new_bounded. auto.
  - apply tg_new_bounded. auto.
  - apply stacked_new_bounded; auto.
Qed.

End Pair.

Lemma singleton_op_fits m sc this out size op : sized sc [this] out size -> nonzero_product (map size this) <= L ->
  singleton_op_new m sc = Ok op -> singleton_fits L op.
Proof.
  intros HS Hl.
  assert (Hd : forall d, diagonalization_new sc = Ok d -> nonzero_product (diag_output_shape d) <= L).
  { intros d E. destruct (diagonalization_new_ok sc this out size HS) as (ex & mm & E' & Hn & Hx & _).
    rewrite E in E'. injection E' as ->. cbn [diag_output_shape]. eapply Nat.le_trans; [|exact Hl].
    apply nzp_incl; auto. intros c Hc. apply in_app_iff in Hc as [Hc|Hc]; [|apply Hx in Hc; tauto].
    destruct HS as (_ & [_ Hi] & _). specialize (Hi c Hc). simpl in Hi. rewrite app_nil_r in Hi. auto. }
  destruct m; cbn [singleton_op_new]; intros H; try (injection H as <-; exact I);
    apply bind_Ok in H as (x & Hx & H); injection H as <-; try exact I; cbn [singleton_fits]; auto.
  unfold diag_and_sum_new in Hx. apply bind_Ok in Hx as (d & Ed & Hx). apply bind_Ok in Hx as (n & _ & Hx).
  apply bind_Ok in Hx as (s & _ & Hx). injection Hx as <-. cbn [fst]. auto.
Qed.

Lemma singleton_contraction_fits sc this out size c : sized sc [this] out size -> nonzero_product (map size this) <= L ->
  singleton_contraction_new sc = Ok c -> singleton_fits L (sgl_op c).
Proof.
  intros HS Hl H. unfold singleton_contraction_new in H. apply bind_Ok in H as (s & _ & H).
  apply bind_Ok in H as (op & Ho & H). injection H as <-. cbn [sgl_op]. eapply singleton_op_fits; eauto.
Qed.

Section Step.
Variables (h : hash_order) (size : char -> nat).
Hypothesis Hh : hash_ok h.

Lemma simplification_from_fits k this other out orig ops o s :
  sized orig ops o size -> incl this (concat ops) -> nonzero_product (map size this) <= L ->
  simplification_from h k this other out orig = Ok s -> simplification_fits L s.
Proof.
  intros HS Hi Hl. unfold simplification_from. cbv zeta.
  set (desired := filter _ (distinct this)). set (new := h (0 :: k) desired).
  assert (Pn : Permutation desired new) by apply Hh.
  assert (Nn : NoDup new).
  { eapply Permutation_NoDup; [exact Pn|]. apply NoDup_filter, distinct_NoDup. }
  destruct (subset_ok h (1 :: k) orig ops o size [this] new Hh HS) as (ssc & Es & HSs).
  { simpl. rewrite app_nil_r. auto. }
  { split; auto. simpl. rewrite app_nil_r. intros c Hc. apply (Permutation_in _ (Permutation_sym Pn)) in Hc.
    apply filter_In in Hc as [Hc _]. apply distinct_In. auto. }
  rewrite Es. cbn [unwrap_res rbind]. intros H. apply bind_Ok in H as (c & Ec & H).
  pose proof (singleton_contraction_fits _ _ _ _ _ HSs Hl Ec) as Hf.
  destruct (sgl_method c); try (injection H as <-; exact I);
    apply bind_Ok in H as (str & _ & H); injection H as <-; exact Hf.
Qed.

(** What holds of a compiled step whose operands are within the limit. *)
Definition contraction_bounded (p : pair_contraction) : Prop :=
  simplification_fits L (pc_lhs_simplification p) /\ simplification_fits L (pc_rhs_simplification p)
  /\ pair_bounded (pc_op p).

Lemma pair_contraction_bounded k sc lhs rhs out p : sized sc [lhs; rhs] out size ->
  nonzero_product (map size lhs) <= L -> nonzero_product (map size rhs) <= L ->
  pair_contraction_new h k sc = Ok p -> contraction_bounded p.
Proof.
  intros HS Hl Hr. unfold pair_contraction_new.
  rewrite (sc_ops2 sc lhs rhs out size HS), (sc_out2 sc lhs rhs out size HS).
  cbn [length Nat.eqb rassert rbind]. unfold index. cbn [nth_error unwrap rbind].
  pose proof (@plain_backend_ok unit unit_scalar) as Hlay.
  assert (I1 : incl lhs (concat [lhs; rhs])) by (simpl; intros c Hc; apply in_or_app; auto).
  assert (I2 : incl rhs (concat [lhs; rhs])) by (simpl; rewrite app_nil_r; intros c Hc; apply in_or_app; auto).
  destruct (simplification_ok h size Hh (Sc := unit_scalar) _ Hlay (0 :: k) lhs rhs out sc [lhs; rhs] out HS I1)
    as (ls & El & Nl & Il & _).
  destruct (simplification_ok h size Hh (Sc := unit_scalar) _ Hlay (1 :: k) rhs lhs out sc [lhs; rhs] out HS I2)
    as (rs & Er & Nr & Ir & _).
  pose proof (simplification_from_fits _ _ _ _ _ _ _ _ HS I1 Hl El) as F1.
  pose proof (simplification_from_fits _ _ _ _ _ _ _ _ HS I2 Hr Er) as F2.
  rewrite El, Er. cbn [rbind]. fold (new_labels ls lhs) (new_labels rs rhs).
  set (l' := new_labels ls lhs) in *. set (r' := new_labels rs rhs) in *.
  pose proof HS as (_ & [Ho Hi] & _). simpl in Hi. rewrite app_nil_r in Hi.
  destruct (subset_ok h (2 :: k) sc [lhs; rhs] out size [l'; r'] out Hh HS) as (red & Es & HSr).
  { simpl. rewrite !app_nil_r. intros c Hc. apply in_app_iff in Hc. apply in_app_iff.
    rewrite Il, Ir in Hc. tauto. }
  { split; auto. simpl. rewrite app_nil_r. intros c Hc. specialize (Hi c Hc).
    rewrite in_app_iff in Hi. apply in_app_iff. rewrite Il, Ir. tauto. }
  rewrite Es. cbn [unwrap_res rbind].
  assert (Hs : simplified l' r' out).
  { split; auto.
    - intros c Hc. specialize (Hi c Hc). rewrite in_app_iff in *. rewrite Il, Ir. tauto.
    - intros c. rewrite Il, Ir. tauto.
    - intros c. rewrite Il, Ir. tauto. }
  intros H. apply bind_Ok in H as (sm & _ & H). apply bind_Ok in H as (op & Eo & H).
  apply bind_Ok in H as (str & _ & H). injection H as <-. split; [auto|]. split; [auto|].
  cbn [pc_op]. apply (pair_op_bounded red l' r' out size HSr) with (m := pair_strategy sm); auto.
  - eapply Nat.le_trans; [|exact Hl]. apply nzp_incl; auto. intros c. rewrite Il. tauto.
  - eapply Nat.le_trans; [|exact Hr]. apply nzp_incl; auto. intros c. rewrite Ir. tauto.
Qed.

End Step.

(** ** A bounded contractor is limited by its result alone *)

Section Run.
Context {A : Type} {Sc : Scalar A}.
Variable lay : backend A.
Hypothesis Hlay : backend_runs lay.

Lemma permutation_contract_nzp p (t x : arr A) : permutation_contract lay p t = Ok x ->
  nonzero_product (a_shape x) = nonzero_product (a_shape t).
Proof.
  unfold permutation_contract. intros H. apply bind_Ok in H as (v & Hv & H).
  rewrite (to_owned_shape lay Hlay _ _ H). eapply permuted_fits; eauto.
Qed.

Lemma mul_broadcast_shape (a b x : arr A) : a_shape a = a_shape b -> mul_arrays lay a b = Ok x -> a_shape x = a_shape a.
Proof.
  intros E. unfold mul_arrays. rewrite E.
  assert (Hr : forall l, list_nat_eqb l l = true) by (induction l; simpl; auto; rewrite Nat.eqb_refl; auto).
  rewrite Hr. cbn [rbind]. intros H. apply bind_Ok in H as (l & _ & H). injection H as <-. rewrite (arranged lay Hlay); auto.
Qed.

Lemma bounded_fits op l r x : pair_bounded op -> run_pair lay op l r = Ok x -> shape_fits L x -> pair_fits L op.
Proof.
  intros Hb E Hx. unfold shape_fits in Hx.
  destruct op; cbn [pair_bounded pair_fits run_pair] in *; try exact I.
  - rewrite (run_tfp_shape lay _ _ _ _ E) in Hx. destruct Hb as (H1 & H2 & H3). unfold tfp_fits.
    repeat split; auto. lia.
  - unfold run_tg in E. do 2 (apply bind_Ok in E as (? & _ & E)). apply bind_Ok in E as (d & Ed & E).
    apply permutation_contract_nzp in E. rewrite (run_tfp_shape lay _ _ _ _ Ed) in E.
    destruct Hb as (H1 & H2 & H3). unfold tfp_fits. repeat split; auto; lia.
  - unfold run_broadcast in E. do 4 (apply bind_Ok in E as (? & _ & E)).
    apply bind_Ok in E as (l2 & E2 & E). apply bind_Ok in E as (r2 & E3 & E).
    unfold broadcast in E2, E3. destruct (upcast_rev _ _ _) in E2; [|discriminate]. injection E2 as <-.
    destruct (upcast_rev _ _ _) in E3; [|discriminate]. injection E3 as <-.
    unfold run_hadamard in E. apply mul_broadcast_shape in E; [|auto]. rewrite E in Hx. auto.
  - destruct Hb as (H1 & H2 & H3 & (F1 & F2 & F3) & H5).
    unfold run_stacked in E. cbv zeta in E. do 10 (apply bind_Ok in E as (? & _ & E)).
    apply bind_Ok in E as (d & Ed & E). apply permutation_contract_nzp in E.
    rewrite (into_shape_shape _ _ _ Ed) in E. unfold tfp_fits. repeat split; auto; lia.
Qed.

Lemma run_pair_contraction_limited p l r x : contraction_bounded p -> shape_fits L l -> shape_fits L r ->
  run_pair_contraction lay p l r = Ok x -> run_pair_contraction_l L lay p l r = limited L (Ok x).
Proof.
  intros (H1 & H2 & H3) Hl Hr E. unfold limited. cbn [rbind].
  destruct (fits L (a_shape x)) eqn:Ef; cbn [rassert rbind].
  - apply fits_le in Ef. rewrite <- E. apply run_pair_contraction_same; auto.
    + split; [auto|]. split; [auto|]. pose proof E as E'. unfold run_pair_contraction in E'.
      do 2 (apply bind_Ok in E' as (? & _ & E')). eapply bounded_fits; eauto.
    + intros y Ey. rewrite E in Ey. injection Ey as <-. exact Ef.
  - destruct (run_pair_contraction_below L lay p l r) as [H|H]; auto.
    rewrite E in H. apply run_pair_contraction_fits in H. congruence.
Qed.

Lemma tensordot_limited M a b la ra : L <= M -> nonzero_product (a_shape a) <= L -> nonzero_product (a_shape b) <= L ->
  (forall x, tensordot lay a b la ra = Ok x -> tensordot_l L lay M a b la ra = limited L (Ok x))
  /\ (tensordot lay a b la ra = Panic -> tensordot_l L lay M a b la ra = Panic).
Proof.
  intros HM Ha Hb. split.
  - intros x E. unfold limited. cbn [rbind]. destruct (fits L (a_shape x)) eqn:Ef; cbn [rassert rbind].
    + apply fits_le in Ef. revert E. unfold tensordot, tensordot_l.
      destruct (rassert _) as [[]| |]; cbn [rbind]; try discriminate.
      destruct (usub _ _) as [n| |]; cbn [rbind]; try discriminate.
      rewrite tg_axes_checked by lia. destruct (tg_from_axes _ _ _ _ _) as [t| |] eqn:Et; cbn [rbind]; try discriminate.
      intros E. rewrite <- E. apply (run_tg_same L lay Hlay); auto.
      apply (bounded_fits (OpTensordotGeneral t) a b x); [|exact E|exact Ef].
      eapply tg_from_axes_bounded; [| |exact Et]; auto.
    + destruct (tensordot_below L lay M a b la ra) as [H|H]; auto. rewrite E in H. exfalso.
      unfold tensordot_l in H. do 3 (apply bind_Ok in H as (? & _ & H)).
      apply (run_pair_fits L lay (OpTensordotGeneral _)) in H. congruence.
  - intros E. destruct (tensordot_below L lay M a b la ra) as [H|H]; congruence.
Qed.

End Run.
End Compiled.
