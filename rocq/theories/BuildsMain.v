(** Builds with and without overflow checks agree with the model on every call that is not too large. *)
From Verif Require Import Base BaseFacts NDArray Validation Optimizers Strategies Singleton Pair Path Api Spec
  ParserFacts ValidationFacts ValidationMain SumFacts ArrayFacts DiagFacts SingletonFacts PairFacts StackedFacts PairMain
  PathFacts PathShape EinsumMain Overflow OverflowFacts Builds BuildsFacts.
From Coq Require Import Lia ZArith.

(** ** Occurrences of labels *)

(** No label occurs more often in the first list. *)
Definition within (a b : list char) : Prop := forall c, count c a <= count c b.

Lemma count_app c a b : count c (a ++ b) = count c a + count c b.
Proof. apply count_occ_app. Qed.
Lemma within_refl a : within a a.
Proof. intros c. auto. Qed.
Lemma within_trans a b d : within a b -> within b d -> within a d.
Proof. intros H1 H2 c. specialize (H1 c). specialize (H2 c). lia. Qed.
Lemma within_NoDup a b : NoDup a -> incl a b -> within a b.
Proof.
  intros Hn Hi c. destruct (in_dec char_eq_dec c a) as [H|H].
  - apply Hi in H. rewrite count_In in H. pose proof (proj1 (count_NoDup a) Hn c). lia.
  - apply count_nil in H. lia.
Qed.
Lemma within_app a b c d : within a b -> within c d -> within (a ++ c) (b ++ d).
Proof. intros H1 H2 x. rewrite !count_app. specialize (H1 x). specialize (H2 x). lia. Qed.
Lemma within_length a : forall b, within a b -> length a <= length b.
Proof.
  induction a as [|x a IH]; intros b H; simpl; [lia|].
  assert (Hx : In x b).
  { apply count_In. specialize (H x). unfold count in *. simpl in H. destruct (char_eq_dec x x); [lia|congruence]. }
  apply in_split in Hx as (l1 & l2 & ->). specialize (IH (l1 ++ l2)).
  rewrite app_length in *. simpl. assert (length a <= length l1 + length l2); [|lia]. apply IH.
  intros c. specialize (H c). rewrite count_app in *. unfold count in *. simpl in H. destruct (char_eq_dec x c); lia.
Qed.
Lemma within_perm a b : Permutation a b -> within a b.
Proof. intros H c. unfold count. rewrite (proj1 (Permutation_count_occ char_eq_dec a b) H c). auto. Qed.
Lemma within_concat_firstn n (ops : list (list char)) : within (concat (firstn n ops)) (concat ops).
Proof. intros c. rewrite <- (firstn_skipn n ops) at 2. rewrite concat_app, count_app. lia. Qed.
Lemma within_nth (ops : list (list char)) ix : In ix ops -> within ix (concat ops).
Proof.
  intros H. apply in_split in H as (l1 & l2 & ->). intros c. rewrite concat_app. simpl. rewrite !count_app. lia.
Qed.

Section Checked.
Variables C M R : nat.
Notation cb := (checked_build C M R).

(** No label occurs more often than a counter can count. *)
Definition countable (l : list char) : Prop := forall c, count c l <= C.

Lemma countable_within a b : within a b -> countable b -> countable a.
Proof. intros H1 H2 c. specialize (H1 c). specialize (H2 c). lia. Qed.

Lemma counters_checked l : countable l -> counters cb l = counters ideal l.
Proof.
  intros H. unfold counters. apply mapM_ext. intros c. cbn [b_count checked_build ideal].
  rewrite (proj2 (Nat.leb_le _ _) (H c)). auto.
Qed.

Lemma from_indices_checked h k ops out : countable (concat ops) -> countable out ->
  from_indices_b cb h k ops out = from_indices h k ops out.
Proof.
  intros H1 H2. rewrite <- from_indices_ideal. unfold from_indices_b. rewrite !counters_checked by auto. auto.
Qed.

Lemma subset_checked h k sc ops out : countable (concat ops) -> countable out ->
  subset_b cb h k sc ops out = subset h k sc ops out.
Proof.
  intros H1 H2. unfold subset_b, subset. rewrite from_indices_checked by auto. auto.
Qed.

(** ** One operand *)

Lemma summation_checked s n : n <= R -> summation_from_sizes_b cb s n = summation_from_sizes s n.
Proof.
  intros H. unfold summation_from_sizes_b, summation_from_sizes. cbn [b_room checked_build].
  rewrite (proj2 (Nat.leb_le _ _) H). auto.
Qed.

Lemma summation_new_checked sc this out size : sized sc [this] out size -> length this <= R ->
  summation_new_b cb sc = summation_new sc.
Proof.
  intros HS HR. unfold summation_new_b, summation_new. rewrite (sc_op _ _ _ _ HS), (sc_out _ _ _ _ HS).
  unfold index. cbn [nth_error unwrap rbind b_sub checked_build]. unfold usub.
  destruct (Nat.leb (length out) (length this)); cbn [rbind]; auto. apply summation_checked. lia.
Qed.

Lemma singleton_checked sc this out size : sized sc [this] out size ->
  countable this -> length this <= R ->
  singleton_contraction_new_b cb sc = singleton_contraction_new sc.
Proof.
  intros HS HC HR. rewrite <- singleton_contraction_ideal.
  assert (E1 : singleton_summary_b cb sc = singleton_summary_b ideal sc).
  { unfold singleton_summary_b. rewrite (sc_op _ _ _ _ HS). cbn [length Nat.eqb rassert rbind].
    unfold index. cbn [nth_error unwrap rbind]. rewrite counters_checked by auto. auto. }
  unfold singleton_contraction_new_b. rewrite E1. apply rbind_ext. intros s.
  assert (E2 : summation_new_b cb sc = summation_new_b ideal sc).
  { rewrite (summation_new_checked sc this out size) by auto. auto. }
  destruct (singleton_strategy s); cbn [singleton_op_new_b]; auto.
  - rewrite E2. auto.
  - unfold perm_and_sum_new_b. rewrite E2. auto.
  - unfold diag_and_sum_new_b.
    destruct (diagonalization_new_ok sc this out size HS) as (ex & m & E & Hn & Hx & _).
    rewrite E. cbn [rbind diag_output_shape b_sub checked_build ideal]. rewrite map_length.
    unfold usub. destruct (Nat.leb _ _); cbn [rbind]; auto. rewrite summation_checked; auto.
    assert (length (out ++ ex) <= length this); [|lia].
    apply NoDup_incl_length; auto. intros c Hc. apply in_app_iff in Hc as [Hc|Hc]; [|apply Hx; auto].
    destruct HS as (_ & [_ Hi] & _). apply Hi in Hc. simpl in Hc. rewrite app_nil_r in Hc. auto.
Qed.

(** ** Two operands *)

Lemma pair_op_same m sc : pair_op_new_b cb m sc = pair_op_new_c M m sc.
Proof. destruct m; reflexivity. Qed.

Lemma simplification_checked h k this other out orig ops o size : hash_ok h ->
  sized orig ops o size -> incl this (concat ops) -> countable this -> length this <= R ->
  simplification_from_b cb h k this other out orig = simplification_from h k this other out orig.
Proof.
  intros Hh HS Hi HC HR. unfold simplification_from_b, simplification_from.
  set (desired := filter _ (distinct this)). set (new := h (0 :: k) desired).
  assert (Nn : NoDup new) by (apply hash_NoDup; auto; apply NoDup_filter, distinct_NoDup).
  assert (In_new : incl new this).
  { intros c Hc. unfold new in Hc. rewrite hash_In in Hc by auto. unfold desired in Hc.
    apply filter_In in Hc as [Hc _]. rewrite distinct_In in Hc. auto. }
  rewrite subset_checked.
  2:{ cbn [concat]. rewrite app_nil_r. auto. }
  2:{ eapply countable_within; [apply within_NoDup; eauto|auto]. }
  destruct (subset_ok h (1 :: k) orig ops o size [this] new Hh HS) as (ssc & Es & HSs).
  { simpl. rewrite app_nil_r. auto. }
  { split; auto. simpl. rewrite app_nil_r. auto. }
  rewrite Es. cbn [unwrap_res rbind]. rewrite (singleton_checked ssc this new size) by auto. auto.
Qed.

Lemma pair_contraction_checked_b h k sc lhs rhs out size : hash_ok h -> sized sc [lhs; rhs] out size ->
  countable (lhs ++ rhs) -> length lhs <= R -> length rhs <= R ->
  nonzero_product (map size lhs) <= M -> nonzero_product (map size rhs) <= M ->
  pair_contraction_new_b cb h k sc = pair_contraction_new h k sc.
Proof.
  intros Hh HS HC HRl HRr Hl Hr.
  rewrite <- (pair_contraction_checked M h k sc lhs rhs out size) by auto.
  unfold pair_contraction_new_b, pair_contraction_new_c.
  rewrite (sc_ops2 sc lhs rhs out size HS), (sc_out2 sc lhs rhs out size HS).
  cbn [length Nat.eqb rassert rbind]. unfold index. cbn [nth_error unwrap rbind].
  assert (Cl : countable lhs) by (eapply countable_within; [|exact HC]; intros c; rewrite count_app; lia).
  assert (Cr : countable rhs) by (eapply countable_within; [|exact HC]; intros c; rewrite count_app; lia).
  assert (Il : incl lhs (concat [lhs; rhs])) by (simpl; intros c Hc; apply in_or_app; auto).
  assert (Ir : incl rhs (concat [lhs; rhs])) by (simpl; intros c Hc; rewrite app_nil_r; apply in_or_app; auto).
  rewrite (simplification_checked h (0 :: k) lhs rhs out sc [lhs; rhs] out size) by auto.
  rewrite (simplification_checked h (1 :: k) rhs lhs out sc [lhs; rhs] out size) by auto.
  pose proof (@plain_backend_ok unit unit_scalar) as Hlay.
  destruct (simplification_ok h size Hh (Sc := unit_scalar) _ Hlay (0 :: k) lhs rhs out sc [lhs; rhs] out HS)
    as (ls & El & Nl & Jl & _); auto.
  destruct (simplification_ok h size Hh (Sc := unit_scalar) _ Hlay (1 :: k) rhs lhs out sc [lhs; rhs] out HS)
    as (rs & Er & Nr & Jr & _); auto.
  rewrite El, Er. cbn [rbind]. fold (new_labels ls lhs) (new_labels rs rhs).
  pose proof HS as (_ & [Ho Hi] & _). simpl in Hi. rewrite app_nil_r in Hi.
  rewrite subset_checked.
  2:{ cbn [concat]. rewrite app_nil_r. eapply countable_within; [|exact HC].
      apply within_app; apply within_NoDup; auto; intros c Hc; [apply Jl in Hc|apply Jr in Hc]; tauto. }
  2:{ eapply countable_within; [|exact HC]. apply within_NoDup; auto. }
  apply rbind_ext. intros red. apply rbind_ext. intros s. rewrite pair_op_same. auto.
Qed.

(** ** The order of contractions *)

Section Order.
Variables (h : hash_order) (k : key) (size : char -> nat).
Hypothesis Hh : hash_ok h.

Definition step_within (ops : list (list char)) (st : pair_step) : Prop :=
  within (concat (operand_indices (sc_contraction (ps_sc st)))) (concat ops).

Lemma subset_operands k' sc ops out sc' : subset h k' sc ops out = Ok sc' ->
  operand_indices (sc_contraction sc') = ops.
Proof.
  unfold subset. destruct (existsb _ _); [discriminate|]. unfold from_indices.
  destruct (check_output _ _ _); cbn [rbind]; try discriminate. intros H. injection H as <-. auto.
Qed.

Section Loop.
Variables (sc : sized_contraction) (ops : list (list char)) (out : list char) (ord : list nat).
Hypothesis HS : sized sc ops out size.
Hypothesis HC : countable (concat ops).

Lemma firstn_S_nth i r : nth_error ops i = Some r -> concat (firstn (S i) ops) = concat (firstn i ops) ++ r.
Proof.
  revert i. clear. induction ops as [|x l IH]; intros [|i] H; try discriminate; cbn [nth_error] in H.
  - injection H as ->. cbn [firstn concat app]. rewrite app_nil_r. auto.
  - change (concat (firstn (S (S i)) (x :: l))) with (x ++ concat (firstn (S i) l)).
    rewrite (IH i H). cbn [firstn concat]. apply app_assoc.
Qed.

Lemma path_iteration_checked i prev steps : within prev (concat (firstn (S i) ops)) ->
  Forall (step_within ops) steps ->
  path_iteration_b cb h k sc ord (prev, steps) i = path_iteration h k sc ord (prev, steps) i
  /\ forall st, path_iteration h k sc ord (prev, steps) i = Ok st ->
       within (fst st) (concat (firstn (S (S i)) ops)) /\ Forall (step_within ops) (snd st).
Proof.
  intros Hw Hs. pose proof HS as (Ec & [Ho Hi] & _). unfold path_iteration_b, path_iteration.
  rewrite Ec. cbn [contraction_of operand_indices output_indices].
  destruct (index ops (S i)) as [r|e|] eqn:Ei; cbn [rbind];
    [|split; [auto|intros ? H; discriminate H]|split; [auto|intros ? H; discriminate H]].
  assert (Er : nth_error ops (S i) = Some r).
  { unfold index in Ei. destruct (nth_error ops (S i)); cbn [unwrap] in Ei; congruence. }
  set (o := if Nat.eqb (S i) (length ops - 1) then out else _).
  assert (Hpr : within (prev ++ r) (concat (firstn (S (S i)) ops))).
  { rewrite (firstn_S_nth (S i) r Er). apply within_app; auto using within_refl. }
  assert (Hpo : within (prev ++ r) (concat ops)).
  { eapply within_trans; [exact Hpr|]. apply within_concat_firstn. }
  assert (Hwo : within o (concat (firstn (S (S i)) ops))).
  { unfold o. destruct (Nat.eqb_spec (S i) (length ops - 1)) as [E|E].
    - rewrite firstn_all2 by lia. apply within_NoDup; auto.
    - eapply within_trans; [|exact Hpr]. apply within_NoDup.
      + apply hash_NoDup; auto. apply NoDup_filter, distinct_NoDup.
      + intros c Hc. rewrite hash_In in Hc by auto. apply filter_In in Hc as [Hc _].
        unfold get_existing_indices in Hc. rewrite distinct_In in Hc. auto. }
  unfold generate_sized_contraction_pair_b, generate_sized_contraction_pair.
  rewrite subset_checked.
  2:{ cbn [concat]. rewrite app_nil_r. eapply countable_within; eauto. }
  2:{ eapply countable_within; [|exact HC]. eapply within_trans; [exact Hwo|]. apply within_concat_firstn. }
  split; auto. intros st.
  destruct (subset h _ sc [prev; r] o) as [sc'|e|] eqn:Es; cbn [unwrap_res rbind]; try discriminate.
  destruct (index ord (S i)); cbn [rbind]; try discriminate.
  destruct (if Nat.eqb i 0 then _ else _); cbn [rbind]; try discriminate.
  intros H. injection H as <-. cbn [fst snd]. split; auto. apply Forall_app. split; auto. constructor; auto.
  unfold step_within. cbn [ps_sc]. rewrite (subset_operands _ _ _ _ _ Es). cbn [concat]. rewrite app_nil_r. auto.
Qed.

Lemma path_loop_checked n : forall i prev steps, within prev (concat (firstn (S i) ops)) ->
  Forall (step_within ops) steps ->
  foldM (path_iteration_b cb h k sc ord) (seq i n) (prev, steps)
  = foldM (path_iteration h k sc ord) (seq i n) (prev, steps)
  /\ forall st, foldM (path_iteration h k sc ord) (seq i n) (prev, steps) = Ok st -> Forall (step_within ops) (snd st).
Proof.
  induction n as [|n IH]; intros i prev steps Hw Hs; cbn [seq foldM].
  - split; auto. intros st H. injection H as <-. auto.
  - destruct (path_iteration_checked i prev steps Hw Hs) as [E H]. rewrite E.
    destruct (path_iteration h k sc ord (prev, steps) i) as [[p st]|e|]; cbn [rbind];
      [|split; [auto|intros ? H'; discriminate H']|split; [auto|intros ? H'; discriminate H']].
    destruct (H _ eq_refl) as [H1 H2]. apply IH; auto.
Qed.
End Loop.

Lemma permuted_within (ops : list (list char)) ord : Permutation ord (seq 0 (length ops)) ->
  Permutation (concat (map (fun i => nth i ops []) ord)) (concat ops).
Proof.
  intros Hp. assert (Pc : Permutation (map (fun i => nth i ops []) ord) ops).
  { eapply Permutation_trans; [apply Permutation_map, Hp|]. rewrite map_nth_seq. auto. }
  clear Hp. induction Pc; cbn [concat]; auto.
  - apply Permutation_app_head. auto.
  - rewrite !app_assoc. apply Permutation_app_tail, Permutation_app_comm.
  - eapply Permutation_trans; eauto.
Qed.

Lemma generate_path_checked sc ops out ord : sized sc ops out size -> countable (concat ops) ->
  Permutation ord (seq 0 (length ops)) ->
  generate_path_b cb h k sc ord = generate_path h k sc ord
  /\ forall order, generate_path h k sc ord = Ok order ->
       match order with
       | Singleton sc' => exists ix, sized sc' [ix] out size /\ within ix (concat ops)
       | Pairs steps => Forall (step_within ops) steps
       end.
Proof.
  intros HS HC Hp. pose proof HS as (Ec & [Ho Hi] & _).
  assert (Hw : within (concat (map (fun i => nth i ops []) ord)) (concat ops)).
  { apply within_perm, permuted_within. auto. }
  unfold generate_path_b, generate_path.
  assert (E : generate_permuted_contraction_b cb h (5 :: k) sc ord = generate_permuted_contraction h (5 :: k) sc ord).
  { unfold generate_permuted_contraction_b, generate_permuted_contraction. rewrite Ec.
    cbn [contraction_of operand_indices output_indices].
    apply rbind_ext. intros _. rewrite (mapM_ok _ (fun i => nth i ops [])).
    2:{ intros i Hin. apply index_nth. apply (Permutation_in _ Hp), in_seq in Hin. lia. }
    cbn [rbind]. rewrite subset_checked; auto.
    - eapply countable_within; eauto.
    - eapply countable_within; [|exact HC]. apply within_NoDup; auto. }
  rewrite E. clear E.
  destruct (permuted_ok h size Hh sc ops out ord (5 :: k) HS Hp) as (sc' & -> & HS'). cbn [rbind].
  set (pops := map (fun i => nth i ops []) ord) in *. pose proof HS' as (Ec' & [_ Hi'] & _).
  rewrite Ec'. cbn [contraction_of operand_indices output_indices].
  assert (HC' : countable (concat pops)) by (eapply countable_within; eauto).
  destruct pops as [|x [|y [|z rest]]].
  - cbn [length]. unfold index. cbn [nth_error unwrap rbind]. split; auto. intros ? H; discriminate H.
  - split; auto. cbn [length]. intros order H. injection H as <-. exists x. split; auto.
    cbn [concat] in Hw. rewrite app_nil_r in Hw. auto.
  - cbn [length]. unfold index. cbn [nth_error unwrap rbind].
    unfold generate_sized_contraction_pair_b, generate_sized_contraction_pair. rewrite subset_checked; auto.
    2:{ eapply countable_within; [|exact HC]. apply within_NoDup; auto. }
    split; auto. intros order.
    destruct (subset h (6 :: k) sc' [x; y] out) as [psc|e|] eqn:Es; cbn [unwrap_res rbind]; try discriminate.
    destruct ord as [|t0 [|t1 ord]]; cbn [nth_error unwrap rbind]; try discriminate. intros H. injection H as <-.
    constructor; auto. unfold step_within. cbn [ps_sc]. rewrite (subset_operands _ _ _ _ _ Es). auto.
  - remember (x :: y :: z :: rest) as l eqn:El. assert (Hl : exists m, length l = S (S (S m))).
    { subst l. cbn [length]. eauto. }
    destruct Hl as (m & Hm). rewrite Hm.
    assert (E0 : index l 0 = Ok x) by (subst l; auto). rewrite E0. cbn [rbind b_sub checked_build].
    destruct (usub _ 1) as [n|e|]; cbn [rbind];
      [|split; [auto|intros ? H; discriminate H]|split; [auto|intros ? H; discriminate H]].
    destruct (path_loop_checked sc' l out ord HS' HC' n 0 x []) as [E1 E2].
    { subst l. cbn [firstn concat]. rewrite app_nil_r. apply within_refl. }
    { constructor. }
    rewrite E1. split; auto. intros order.
    destruct (foldM (path_iteration h k sc' ord) (seq 0 n) (x, [])) as [st|e|]; cbn [rbind]; try discriminate.
    intros H. injection H as <-.
    specialize (E2 st eq_refl). eapply Forall_impl; [|exact E2]. intros s Hs. unfold step_within in *.
    eapply within_trans; eauto.
Qed.

Lemma order_checked sc ops out strategy : sized sc ops out size -> countable (concat ops) ->
  generate_optimized_order_b cb h k sc strategy = generate_optimized_order h k sc strategy
  /\ forall order, generate_optimized_order h k sc strategy = Ok order ->
       match order with
       | Singleton sc' => exists ix, sized sc' [ix] out size /\ within ix (concat ops)
       | Pairs steps => Forall (step_within ops) steps
       end.
Proof.
  intros HS HC. pose proof HS as (Ec & _ & _).
  destruct strategy; cbn [generate_optimized_order_b generate_optimized_order];
    try (split; [reflexivity|intros ? H; discriminate H]).
  - apply generate_path_checked; auto. unfold naive_order. rewrite Ec. auto.
  - apply generate_path_checked; auto. unfold reverse_order. rewrite Ec.
    apply Permutation_sym, Permutation_rev.
Qed.

(** Both operands of every step fit. *)
Lemma from_path_checked_b order out (ops : list (list char)) :
  countable (concat ops) -> length (concat ops) <= R ->
  match order with
  | Singleton sc' => exists ix, sized sc' [ix] out size /\ within ix (concat ops)
  | Pairs steps => Forall (step_within ops) steps /\ Forall (step_fits M size) steps
      /\ Forall (fun st => exists l r o, sized (ps_sc st) [l; r] o size) steps
  end ->
  from_path_b cb h k order = from_path h k order.
Proof.
  intros HC HR H. destruct order as [sc'|steps]; cbn [from_path_b from_path].
  - destruct H as (ix & HS & Hw). rewrite (singleton_checked sc' ix out size); auto.
    + eapply countable_within; eauto.
    + apply within_length in Hw. lia.
  - destruct H as (H1 & H2 & H3).
    apply (f_equal (fun x => rbind x (fun l => Ok (mkPath (Pairs steps) (StepsPairs l))))).
    apply mapM_ext_in. intros [n st] Hi. apply in_combine_r in Hi. cbn [fst snd].
    rewrite Forall_forall in H1, H2, H3. destruct (H3 st Hi) as (l & r & o & HS).
    specialize (H1 st Hi). specialize (H2 st Hi). unfold step_fits in H2. unfold step_within in H1.
    rewrite (sc_ops2 _ l r o size HS) in H1, H2. cbn [concat] in H1. rewrite app_nil_r in H1.
    inversion H2 as [|? ? F1 F2]; subst. inversion F2; subst.
    assert (Hlen : length l + length r <= R).
    { apply within_length in H1. rewrite app_length in H1. lia. }
    apply (pair_contraction_checked_b h _ _ l r o size); auto; try lia. eapply countable_within; eauto.
Qed.
End Order.

(** ** Strings *)

Lemma join_within (ops : list (list char)) : within (concat ops) (join ops).
Proof.
  induction ops as [|x ops IH]; [apply within_refl|].
  destruct ops as [|y ops].
  - cbn [join concat]. rewrite app_nil_r. apply within_refl.
  - intros c. cbn [concat]. specialize (IH c). change (join (x :: y :: ops)) with (x ++ [comma] ++ join (y :: ops)).
    change (concat (y :: ops)) with (y ++ concat ops) in IH. rewrite !count_app in *. lia.
Qed.

Lemma grammar_within s ops o : grammar s ops o ->
  within (concat ops) s /\ match o with Some out => within out s | None => True end.
Proof.
  intros [l Hn Hl|l out Hn Hl Ho].
  - split; auto. apply join_within.
  - split; intros c; rewrite !count_app; pose proof (join_within l c); lia.
Qed.

Lemma from_string_checked h k s shapes : hash_ok h -> countable s ->
  from_string_and_shapes_b cb h k s shapes = from_string_and_shapes h k s shapes.
Proof.
  intros Hh HC. unfold from_string_and_shapes_b, from_string_and_shapes.
  assert (E : validate_b cb h k s = validate h k s); [|rewrite E; auto].
  unfold validate_b, validate, contraction_new.
  destruct (parse_einsum_string s) as [p|] eqn:Ep; auto. apply parse_sound, grammar_within in Ep as [H1 H2].
  assert (C1 : countable (concat (p_operand_indices p))) by (eapply countable_within; eauto).
  unfold from_parse_b, from_parse. destruct (p_output_indices p) as [o|]; cbn [rbind].
  - apply from_indices_checked; auto. eapply countable_within; eauto.
  - rewrite counters_checked, counters_ideal by auto. cbn [rbind].
    rewrite (filter_ext _ (fun c => Nat.eqb (count c (concat (p_operand_indices p))) 1)).
    2:{ intros c. rewrite counter_count. change 1%Z with (Z.of_nat 1). apply eqb_Z. }
    apply from_indices_checked; auto. eapply countable_within; [|exact C1]. apply within_NoDup.
    + eapply Permutation_NoDup; [apply sort_chars_perm|]. apply NoDup_filter, hash_NoDup; auto. apply distinct_NoDup.
    + intros c Hc. apply sort_chars_In, filter_In in Hc as [Hc _]. rewrite hash_In in Hc by auto.
      rewrite distinct_In in Hc. auto.
Qed.

(** ** Calls *)

(** The products of lengths that the steps need are representable (C32). *)
Definition steps_representable (h : hash_order) (k0 k1 : key) (s : list char) (shapes : list (list nat))
    (strategy : optimization_method) : Prop :=
  forall ops out size sc steps, call_ok s shapes ops out size ->
    from_string_and_shapes h k0 s shapes = Ok sc ->
    generate_optimized_order h k1 sc strategy = Ok (Pairs steps) -> Forall (step_fits M size) steps.

Lemma compile_checked h k0 k1 k2 s shapes strategy : hash_ok h -> countable s -> length s <= R ->
  steps_representable h k0 k1 s shapes strategy ->
  (do sc <- from_string_and_shapes_b cb h k0 s shapes;
   do order <- generate_optimized_order_b cb h k1 sc strategy; from_path_b cb h k2 order)
  = (do sc <- from_string_and_shapes h k0 s shapes;
     do order <- generate_optimized_order h k1 sc strategy; from_path h k2 order).
Proof.
  intros Hh HC HR HM. rewrite from_string_checked by auto.
  destruct (from_string_and_shapes h k0 s shapes) as [sc|e|] eqn:Es; cbn [rbind]; [|reflexivity|reflexivity].
  destruct (proj1 (proj1 (accepts_exactly h k0 s shapes Hh))) as (ops & out & size & Hc); [eauto|].
  destruct (from_string_ok h k0 s shapes ops out size Hh Hc) as (sc' & Es' & HS).
  rewrite Es in Es'. injection Es' as <-.
  assert (Hg : within (concat ops) s).
  { destruct Hc as ([Hg|[Hg _]] & _); apply grammar_within in Hg; tauto. }
  assert (HC' : countable (concat ops)) by (eapply countable_within; eauto).
  destruct (order_checked h k1 size Hh sc ops out strategy HS HC') as [E1 E2].
  rewrite E1. destruct (generate_optimized_order h k1 sc strategy) as [order|e|] eqn:Eo; cbn [rbind]; [|reflexivity|reflexivity].
  apply (from_path_checked_b h k2 size Hh order out ops); auto.
  { apply within_length in Hg. lia. }
  specialize (E2 order eq_refl). destruct order as [sc'|steps]; auto. split; auto. split; eauto.
  destruct strategy; cbn [generate_optimized_order] in Eo; try discriminate.
  - destruct (chosen_order h Hh k0 k1 s shapes ops out size sc Naive Hc (or_introl eq_refl) Es)
      as [(sc' & _ & E3 & _)|(i0 & js & steps' & _ & _ & _ & E3 & Hch)];
      cbn [generate_optimized_order] in E3; rewrite Eo in E3; [discriminate|]. injection E3 as <-.
    eapply chain_sized; eauto.
  - destruct (chosen_order h Hh k0 k1 s shapes ops out size sc Reverse Hc (or_intror eq_refl) Es)
      as [(sc' & _ & E3 & _)|(i0 & js & steps' & _ & _ & _ & E3 & Hch)];
      cbn [generate_optimized_order] in E3; rewrite Eo in E3; [discriminate|]. injection E3 as <-.
    eapply chain_sized; eauto.
Qed.
End Checked.
