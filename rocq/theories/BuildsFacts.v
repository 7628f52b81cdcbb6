(** Builds with and without overflow checks: they agree wherever the one with checks does not panic. *)
From Verif Require Import Base BaseFacts NDArray Validation Optimizers Strategies Singleton Pair Path Api Spec
  EinsumMain Builds.
From Coq Require Import Lia ZArith.

(** ** Equal unless the first panics *)

Definition below {T} (x y : res T) : Prop := x = Panic \/ y = x.

Lemma below_refl {T} (x : res T) : below x x.
Proof. right. auto. Qed.
Lemma below_panic {T} (y : res T) : below Panic y.
Proof. left. auto. Qed.
Lemma below_bind {T U} (x y : res T) (f g : T -> res U) :
  below x y -> (forall a, below (f a) (g a)) -> below (rbind x f) (rbind y g).
Proof.
  intros [->| ->] H; [left; auto|]. destruct x as [a|e|]; cbn [rbind]; auto using below_refl, below_panic.
Qed.
Lemma below_unwrap_res {T} (x y : res T) : below x y -> below (unwrap_res x) (unwrap_res y).
Proof. intros [->| ->]; [left|right]; auto. Qed.
Lemma below_mapM {T U} (f g : T -> res U) l : (forall x, below (f x) (g x)) -> below (mapM f l) (mapM g l).
Proof.
  intros H. induction l as [|x l IH]; cbn [mapM]; [apply below_refl|].
  apply below_bind; auto. intros a. apply below_bind; auto. intros b. apply below_refl.
Qed.
Lemma below_foldM {T U} (f g : U -> T -> res U) l : (forall u x, below (f u x) (g u x)) ->
  forall u, below (foldM f l u) (foldM g l u).
Proof.
  intros H. induction l as [|x l IH]; intros u; cbn [foldM]; [apply below_refl|].
  apply below_bind; auto.
Qed.
Lemma below_not_panic {T} (x y : res T) : below x y -> x <> Panic -> y = x.
Proof. intros [H|H]; auto. intros N. contradiction. Qed.

(** ** Every function follows the order of builds *)

Definition build_below (b1 b2 : build) : Prop :=
  (forall n, below (b_count b1 n) (b_count b2 n)) /\ (forall x y, below (b_sub b1 x y) (b_sub b2 x y))
  /\ (forall x y, below (b_mul b1 x y) (b_mul b2 x y)) /\ (forall n, below (b_room b1 n) (b_room b2 n)).

Section Below.
Variables b1 b2 : build.
Hypothesis B : build_below b1 b2.

Lemma below_count n : below (b_count b1 n) (b_count b2 n). Proof. apply B. Qed.
Lemma below_sub x y : below (b_sub b1 x y) (b_sub b2 x y). Proof. apply B. Qed.
Lemma below_mul x y : below (b_mul b1 x y) (b_mul b2 x y). Proof. apply B. Qed.
Lemma below_room n : below (b_room b1 n) (b_room b2 n). Proof. apply B. Qed.
Hint Resolve below_refl below_panic below_count below_sub below_mul below_room below_unwrap_res : below.

Ltac step :=
  match goal with
  | |- forall _, _ => intro
  | |- below (rbind _ _) (rbind _ _) => apply below_bind
  | |- below (mapM _ _) (mapM _ _) => apply below_mapM
  | |- below (foldM _ _ _) (foldM _ _ _) => apply below_foldM
  | |- below (unwrap_res _) (unwrap_res _) => apply below_unwrap_res
  | |- below (match ?x with _ => _ end) (match ?x with _ => _ end) => destruct x
  | |- below ?x ?y => solve [auto with below]
  end.
Ltac go := repeat (cbn zeta beta; step).

Lemma counters_below l : below (counters b1 l) (counters b2 l).
Proof. unfold counters. go. Qed.
Hint Resolve counters_below : below.
Lemma from_indices_below h k ops out : below (from_indices_b b1 h k ops out) (from_indices_b b2 h k ops out).
Proof. unfold from_indices_b. go. Qed.
Hint Resolve from_indices_below : below.
Lemma from_parse_below h k p : below (from_parse_b b1 h k p) (from_parse_b b2 h k p).
Proof. unfold from_parse_b. go. Qed.
Hint Resolve from_parse_below : below.
Lemma validate_below h k s : below (validate_b b1 h k s) (validate_b b2 h k s).
Proof. unfold validate_b. go. Qed.
Hint Resolve validate_below : below.
Lemma from_string_and_shapes_below h k s shapes :
  below (from_string_and_shapes_b b1 h k s shapes) (from_string_and_shapes_b b2 h k s shapes).
Proof. unfold from_string_and_shapes_b. go. Qed.
Hint Resolve from_string_and_shapes_below : below.
Lemma subset_below h k sc ops out : below (subset_b b1 h k sc ops out) (subset_b b2 h k sc ops out).
Proof. unfold subset_b. go. Qed.
Hint Resolve subset_below : below.

Lemma path_iteration_below h k sc order st i :
  below (path_iteration_b b1 h k sc order st i) (path_iteration_b b2 h k sc order st i).
Proof. unfold path_iteration_b, generate_sized_contraction_pair_b. destruct st. go. Qed.
Hint Resolve path_iteration_below : below.
Lemma generate_path_below h k sc order : below (generate_path_b b1 h k sc order) (generate_path_b b2 h k sc order).
Proof. unfold generate_path_b, generate_permuted_contraction_b, generate_sized_contraction_pair_b. go. Qed.
Hint Resolve generate_path_below : below.
Lemma generate_optimized_order_below h k sc strategy :
  below (generate_optimized_order_b b1 h k sc strategy) (generate_optimized_order_b b2 h k sc strategy).
Proof. unfold generate_optimized_order_b. go. Qed.
Hint Resolve generate_optimized_order_below : below.
Lemma validate_and_optimize_order_below h k s shapes strategy :
  below (validate_and_optimize_order_b b1 h k s shapes strategy)
        (validate_and_optimize_order_b b2 h k s shapes strategy).
Proof. unfold validate_and_optimize_order_b. go. Qed.
Hint Resolve validate_and_optimize_order_below : below.

Lemma singleton_summary_below sc : below (singleton_summary_b b1 sc) (singleton_summary_b b2 sc).
Proof. unfold singleton_summary_b. go. Qed.
Hint Resolve singleton_summary_below : below.
Lemma summation_from_sizes_below s n : below (summation_from_sizes_b b1 s n) (summation_from_sizes_b b2 s n).
Proof. unfold summation_from_sizes_b. go. Qed.
Hint Resolve summation_from_sizes_below : below.
Lemma singleton_op_below m sc : below (singleton_op_new_b b1 m sc) (singleton_op_new_b b2 m sc).
Proof.
  destruct m; cbn [singleton_op_new_b]; auto with below;
    unfold perm_and_sum_new_b, diag_and_sum_new_b, summation_new_b; go.
Qed.
Hint Resolve singleton_op_below : below.
Lemma singleton_contraction_below sc : below (singleton_contraction_new_b b1 sc) (singleton_contraction_new_b b2 sc).
Proof. unfold singleton_contraction_new_b. go. Qed.
Hint Resolve singleton_contraction_below : below.

Lemma pair_summary_below sc : below (pair_summary_b b1 sc) (pair_summary_b b2 sc).
Proof. unfold pair_summary_b. go. Qed.
Hint Resolve pair_summary_below : below.
Lemma tfp_below l r n : below (tfp_from_shapes_b b1 l r n) (tfp_from_shapes_b b2 l r n).
Proof. unfold tfp_from_shapes_b. go. Qed.
Hint Resolve tfp_below : below.
Lemma tg_from_axes_below l r la ra o : below (tg_from_axes_b b1 l r la ra o) (tg_from_axes_b b2 l r la ra o).
Proof. unfold tg_from_axes_b. go. Qed.
Hint Resolve tg_from_axes_below : below.
Lemma stack_step_below m a x : below (stack_step_b b1 m a x) (stack_step_b b2 m a x).
Proof. unfold stack_step_b. go. Qed.
Hint Resolve stack_step_below : below.
Lemma pair_op_below m sc : below (pair_op_new_b b1 m sc) (pair_op_new_b b2 m sc).
Proof.
  destruct m; cbn [pair_op_new_b]; auto with below;
    unfold tfp_new_b, tg_new_b, tg_from_indices_b, stacked_new_b; go.
Qed.
Hint Resolve pair_op_below : below.
Lemma simplification_below h k this other out sc :
  below (simplification_from_b b1 h k this other out sc) (simplification_from_b b2 h k this other out sc).
Proof. unfold simplification_from_b. go. Qed.
Hint Resolve simplification_below : below.
Lemma pair_contraction_below h k sc :
  below (pair_contraction_new_b b1 h k sc) (pair_contraction_new_b b2 h k sc).
Proof. unfold pair_contraction_new_b. go. Qed.
Hint Resolve pair_contraction_below : below.
Lemma from_path_below h k order : below (from_path_b b1 h k order) (from_path_b b2 h k order).
Proof. unfold from_path_b. go. Qed.
Hint Resolve from_path_below : below.
Lemma einsum_compile_below h s shapes : below (einsum_compile_b b1 h s shapes) (einsum_compile_b b2 h s shapes).
Proof. unfold einsum_compile_b, einsum_path_new_b. go. Qed.
Lemma einsum_path_fn_below h s shapes strategy :
  below (einsum_path_fn_b b1 h s shapes strategy) (einsum_path_fn_b b2 h s shapes strategy).
Proof. unfold einsum_path_fn_b. go. Qed.
Lemma tensordot_compile_below l r la ra :
  below (tensordot_compile_b b1 l r la ra) (tensordot_compile_b b2 l r la ra).
Proof. unfold tensordot_compile_b. go. Qed.
End Below.

(** ** With unbounded numbers nothing changes *)

Lemma counter_count l c : counter (map (fun c => (c, Z.of_nat (count c l))) (distinct l)) c = Z.of_nat (count c l).
Proof.
  unfold counter.
  assert (H : forall d, (In c d -> True) -> (~ In c d -> ~ In c l) ->
    match find (fun cn : char * Z => N.eqb (fst cn) c) (map (fun c => (c, Z.of_nat (count c l))) d) with
    | Some cn => snd cn | None => 0%Z end = Z.of_nat (count c l)).
  { induction d as [|x d IH]; intros _ H; cbn [map find fst].
    - rewrite (proj1 (count_nil c l)); auto.
    - destruct (N.eqb_spec x c) as [->|Hx]; cbn [snd]; auto. apply IH; auto.
      intros Hd. apply H. simpl. intros [|]; auto. }
  apply H; auto. rewrite distinct_In. auto.
Qed.

Lemma counters_ideal l : counters ideal l = Ok (map (fun c => (c, Z.of_nat (count c l))) (distinct l)).
Proof. unfold counters. cbn [b_count ideal rbind]. apply mapM_ok. auto. Qed.

Lemma ltb_Z a b : Z.ltb (Z.of_nat a) (Z.of_nat b) = Nat.ltb a b.
Proof. destruct (Z.ltb_spec (Z.of_nat a) (Z.of_nat b)), (Nat.ltb_spec a b); auto; lia. Qed.
Lemma eqb_Z a b : Z.eqb (Z.of_nat a) (Z.of_nat b) = Nat.eqb a b.
Proof. destruct (Z.eqb_spec (Z.of_nat a) (Z.of_nat b)), (Nat.eqb_spec a b); auto; lia. Qed.

Lemma check_output_ideal inputs out order :
  check_output_b inputs (map (fun c => (c, Z.of_nat (count c out))) (distinct out)) order
  = check_output inputs out order.
Proof.
  induction order as [|c order IH]; cbn [check_output_b check_output]; auto.
  rewrite counter_count, IH. change 1%Z with (Z.of_nat 1). rewrite ltb_Z. auto.
Qed.

Lemma from_indices_ideal h k ops out : from_indices_b ideal h k ops out = from_indices h k ops out.
Proof.
  unfold from_indices_b, from_indices. rewrite !counters_ideal. cbn [rbind]. rewrite check_output_ideal. auto.
Qed.

Lemma from_parse_ideal h k p : from_parse_b ideal h k p = from_parse h k p.
Proof.
  unfold from_parse_b, from_parse. destruct (p_output_indices p) as [o|]; cbn [rbind].
  - apply from_indices_ideal.
  - rewrite counters_ideal. cbn [rbind]. rewrite from_indices_ideal. f_equal. f_equal. apply filter_ext.
    intros c. rewrite counter_count. change 1%Z with (Z.of_nat 1). apply eqb_Z.
Qed.

Lemma validate_ideal h k s : validate_b ideal h k s = validate h k s.
Proof.
  unfold validate_b, validate, contraction_new. destruct (parse_einsum_string s); cbn [rbind]; auto.
  apply from_parse_ideal.
Qed.

Lemma from_string_and_shapes_ideal h k s shapes :
  from_string_and_shapes_b ideal h k s shapes = from_string_and_shapes h k s shapes.
Proof. unfold from_string_and_shapes_b, from_string_and_shapes. rewrite validate_ideal. auto. Qed.

Lemma subset_ideal h k sc ops out : subset_b ideal h k sc ops out = subset h k sc ops out.
Proof. unfold subset_b, subset. destruct (existsb _ _); auto. rewrite from_indices_ideal. auto. Qed.

Lemma rbind_ext {T U} (x : res T) (f g : T -> res U) : (forall a, f a = g a) -> rbind x f = rbind x g.
Proof. intros H. destruct x; cbn [rbind]; auto. Qed.
Lemma mapM_ext {T U} (f g : T -> res U) l : (forall x, f x = g x) -> mapM f l = mapM g l.
Proof. intros H. induction l as [|x l IH]; cbn [mapM]; auto. rewrite H, IH. auto. Qed.
Lemma foldM_ext {T U} (f g : U -> T -> res U) l : (forall u x, f u x = g u x) -> forall u, foldM f l u = foldM g l u.
Proof.
  intros H. induction l as [|x l IH]; intros u; cbn [foldM]; auto. rewrite H. apply rbind_ext. auto.
Qed.

Lemma path_iteration_ideal h k sc order st i :
  path_iteration_b ideal h k sc order st i = path_iteration h k sc order st i.
Proof.
  unfold path_iteration_b, path_iteration. destruct st as [prev steps].
  apply rbind_ext. intros rhs. unfold generate_sized_contraction_pair_b, generate_sized_contraction_pair.
  rewrite subset_ideal. auto.
Qed.

Lemma generate_path_ideal h k sc order : generate_path_b ideal h k sc order = generate_path h k sc order.
Proof.
  unfold generate_path_b, generate_path, generate_permuted_contraction_b, generate_permuted_contraction.
  destruct (rassert _); cbn [rbind]; auto. destruct (mapM _ _); cbn [rbind]; auto. rewrite subset_ideal.
  apply rbind_ext. intros p. destruct (length _) as [|[|[|n]]]; auto.
  - apply rbind_ext. intros x. apply rbind_ext. intros y.
    unfold generate_sized_contraction_pair_b, generate_sized_contraction_pair. rewrite subset_ideal. auto.
  - apply rbind_ext. intros x. cbn [b_sub ideal]. apply rbind_ext. intros y.
    rewrite (foldM_ext _ (path_iteration h k p order)); auto. intros. apply path_iteration_ideal.
Qed.

Lemma generate_optimized_order_ideal h k sc strategy :
  generate_optimized_order_b ideal h k sc strategy = generate_optimized_order h k sc strategy.
Proof. destruct strategy; cbn [generate_optimized_order_b generate_optimized_order]; auto using generate_path_ideal. Qed.

Lemma validate_and_optimize_order_ideal h k s shapes strategy :
  validate_and_optimize_order_b ideal h k s shapes strategy = validate_and_optimize_order h k s shapes strategy.
Proof.
  unfold validate_and_optimize_order_b, validate_and_optimize_order. rewrite from_string_and_shapes_ideal.
  apply rbind_ext. intros. apply generate_optimized_order_ideal.
Qed.

Lemma singleton_summary_ideal sc : singleton_summary_b ideal sc = singleton_summary_new sc.
Proof.
  unfold singleton_summary_b, singleton_summary_new. apply rbind_ext. intros _. apply rbind_ext. intros input.
  rewrite counters_ideal. cbn [rbind b_sub ideal]. unfold singleton_summary_from_indices.
  apply rbind_ext. intros n. f_equal. f_equal. f_equal. apply filter_ext. intros c.
  rewrite counter_count. change 1%Z with (Z.of_nat 1). apply ltb_Z.
Qed.

Lemma summation_from_sizes_ideal s n : summation_from_sizes_b ideal s n = summation_from_sizes s n.
Proof. reflexivity. Qed.

Lemma singleton_contraction_ideal sc : singleton_contraction_new_b ideal sc = singleton_contraction_new sc.
Proof.
  unfold singleton_contraction_new_b, singleton_contraction_new. rewrite singleton_summary_ideal.
  apply rbind_ext. intros s. destruct (singleton_strategy s); reflexivity.
Qed.

Lemma pair_summary_ideal sc : pair_summary_b ideal sc = pair_summary_new sc.
Proof. reflexivity. Qed.

Lemma tfp_ideal l r n : tfp_from_shapes_b ideal l r n = tfp_from_shapes l r n.
Proof.
  unfold tfp_from_shapes_b, tfp_from_shapes. apply rbind_ext. intros [[u c] sh].
  cbn [b_mul ideal rbind].
  rewrite (foldM_ext _ (fun st (ad : nat * nat) => Ok (let '(u, c, sh) := st in let '(axis, d) := ad in
      if Nat.ltb axis n then (u, c * d, sh) else (u * d, c, sh ++ [d])))).
  2:{ intros [[x y] z] [axis d]. destruct (Nat.ltb axis n); auto. }
  assert (H : forall (T U : Type) (f : U -> T -> U) l u, foldM (fun u x => Ok (f u x)) l u = Ok (fold_left f l u)).
  { intros T U f m. induction m as [|x m IH]; intros v; simpl; auto. }
  rewrite H. cbn [rbind]. destruct (fold_left _ _ _) as [[? ?] ?]. auto.
Qed.

Lemma tg_from_axes_ideal l r la ra o : tg_from_axes_b ideal l r la ra o = tg_from_axes l r la ra o.
Proof.
  unfold tg_from_axes_b, tg_from_axes. do 7 (apply rbind_ext; intros ?). rewrite tfp_ideal. auto.
Qed.

Lemma stack_step_ideal m a x : stack_step_b ideal m a x = stack_step m a x.
Proof. destruct x as [[[l|] [r|]] c]; auto. Qed.

Lemma pair_op_ideal m sc : pair_op_new_b ideal m sc = pair_op_new m sc.
Proof.
  destruct m; cbn [pair_op_new_b pair_op_new]; auto.
  - unfold tfp_new_b, tfp_new. f_equal. cbn [b_sub ideal].
    do 7 (apply rbind_ext; intros ?). apply tfp_ideal.
  - unfold tg_new_b, tg_new. f_equal. do 5 (apply rbind_ext; intros ?). unfold tg_from_indices_b, tg_from_indices.
    do 3 (apply rbind_ext; intros ?). apply tg_from_axes_ideal.
  - unfold stacked_new_b, stacked_new. f_equal.
    do 5 (apply rbind_ext; intros ?).
    rewrite (foldM_ext _ (stack_step (sc_output_size sc))) by (intros; apply stack_step_ideal).
    apply rbind_ext; intros ?. apply rbind_ext; intros [[? ?] ?].
    do 5 (apply rbind_ext; intros ?). rewrite tfp_ideal. auto.
Qed.

Lemma simplification_ideal h k this other out sc :
  simplification_from_b ideal h k this other out sc = simplification_from h k this other out sc.
Proof.
  unfold simplification_from_b, simplification_from. rewrite subset_ideal. apply rbind_ext. intros ssc.
  rewrite singleton_contraction_ideal. auto.
Qed.

Lemma pair_contraction_ideal h k sc : pair_contraction_new_b ideal h k sc = pair_contraction_new h k sc.
Proof.
  unfold pair_contraction_new_b, pair_contraction_new. apply rbind_ext. intros _.
  apply rbind_ext. intros lhs. apply rbind_ext. intros rhs. rewrite !simplification_ideal.
  apply rbind_ext. intros ls. apply rbind_ext. intros rs. rewrite subset_ideal. apply rbind_ext. intros red.
  rewrite pair_summary_ideal. apply rbind_ext. intros s. rewrite pair_op_ideal. auto.
Qed.

Lemma from_path_ideal h k order : from_path_b ideal h k order = from_path h k order.
Proof.
  destruct order as [sc|steps]; cbn [from_path_b from_path].
  - rewrite singleton_contraction_ideal. auto.
  - apply (f_equal (fun x => rbind x (fun l => Ok (mkPath (Pairs steps) (StepsPairs l))))).
    apply mapM_ext. intros. apply pair_contraction_ideal.
Qed.

Lemma einsum_compile_ideal h s shapes :
  einsum_compile_b ideal h s shapes = do sc <- from_string_and_shapes h [20] s shapes; einsum_path_new h [21] sc.
Proof.
  unfold einsum_compile_b, einsum_path_new_b, einsum_path_new. rewrite from_string_and_shapes_ideal.
  apply rbind_ext. intros sc. rewrite generate_optimized_order_ideal. apply rbind_ext. intros. apply from_path_ideal.
Qed.

Lemma einsum_path_fn_ideal h s {A : Type} (arrays : list (arr A)) strategy :
  einsum_path_fn_b ideal h s (get_operand_shapes arrays) strategy = einsum_path_fn h s arrays strategy.
Proof.
  unfold einsum_path_fn_b, einsum_path_fn. rewrite validate_and_optimize_order_ideal. apply rbind_ext.
  intros. apply from_path_ideal.
Qed.

Section Calls.
Context {A : Type} {Sc : Scalar A}.
Variable lay : backend A.

Lemma rbind_assoc {T U V} (x : res T) (f : T -> res U) (g : U -> res V) :
  rbind (rbind x f) g = rbind x (fun a => rbind (f a) g).
Proof. destruct x; reflexivity. Qed.

Lemma einsum_ideal h s arrays : einsum_b ideal lay h s arrays = einsum h lay s arrays.
Proof.
  unfold einsum_b, einsum, einsum_sc, validate_and_size. rewrite einsum_compile_ideal. rewrite rbind_assoc. auto.
Qed.

Lemma compile_and_run_ideal h s arrays strategy :
  compile_and_run_b ideal lay h s arrays strategy = compile_and_run h lay s arrays strategy.
Proof. unfold compile_and_run_b, compile_and_run. rewrite einsum_path_fn_ideal. auto. Qed.

Lemma tensordot_ideal a b la ra : tensordot_b ideal lay a b la ra = tensordot lay a b la ra.
Proof.
  unfold tensordot_b, tensordot, tensordot_compile_b. rewrite rbind_assoc. apply rbind_ext. intros _.
  rewrite rbind_assoc. cbn [b_sub ideal]. apply rbind_ext. intros n. cbn [b_room rbind]. rewrite tg_from_axes_ideal.
  auto.
Qed.
End Calls.

(** ** The build with checks is below the others *)

Section Machine.
Variables C M R : nat.

Lemma checked_below_ideal : build_below (checked_build C M R) ideal.
Proof.
  unfold build_below, checked_build, ideal. cbn [b_count b_sub b_mul b_room]. repeat split; intros.
  - destruct (Nat.leb n C); auto using below_refl, below_panic.
  - apply below_refl.
  - destruct (Nat.leb (x * y) M); auto using below_refl, below_panic.
  - destruct (Nat.leb n R); auto using below_refl, below_panic.
Qed.

Lemma checked_below_wrapping : build_below (checked_build C M R) (wrapping_build C M R).
Proof.
  unfold build_below, checked_build, wrapping_build. cbn [b_count b_sub b_mul b_room]. repeat split; intros.
  - destruct (Nat.leb_spec n C); [|apply below_panic]. right. f_equal.
    rewrite Z.mod_small; lia.
  - unfold usub. destruct (Nat.leb y x); auto using below_refl, below_panic.
  - destruct (Nat.leb_spec (x * y) M); [|apply below_panic]. right. f_equal. apply Nat.mod_small. lia.
  - apply below_refl.
Qed.
End Machine.
