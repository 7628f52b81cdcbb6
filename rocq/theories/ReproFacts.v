(** Compiling a call of one operand, or of two that need no simplification, does not depend on the
    iteration orders of the hash tables at all. *)
From Verif Require Import Base BaseFacts NDArray Validation Optimizers Strategies Singleton Pair Path Api Spec
  ParserFacts ValidationFacts ValidationMain SumFacts ArrayFacts SingletonFacts PairFacts PairMain PathFacts EinsumMain.
From Coq Require Import Lia.

Section Repro.
Variables h h' : hash_order.
Hypothesis Hh : hash_ok h.
Hypothesis Hh' : hash_ok h'.

Lemma subset_indep k k' sc ops out : output_ok ops out -> subset h k sc ops out = subset h' k' sc ops out.
Proof. intros Ho. unfold subset. rewrite !from_indices_ok by auto. auto. Qed.

Lemma from_string_indep k k' s shapes ops out size : call_ok s shapes ops out size ->
  from_string_and_shapes h k s shapes = from_string_and_shapes h' k' s shapes.
Proof.
  intros (Hm & Ho & Hs). unfold from_string_and_shapes. rewrite !(validate_ok _ _ s ops out) by auto. auto.
Qed.

(** Nothing to simplify. *)
Lemma simplification_none (H : hash_order) k this other out orig ops o size : hash_ok H ->
  sized orig ops o size -> incl this (concat ops) -> NoDup this ->
  (forall c, In c this -> In c other \/ In c out) ->
  simplification_from H k this other out orig = Ok None.
Proof.
  intros HH HS Hi Hn Hu. unfold simplification_from.
  set (desired := filter _ (distinct this)). set (new := H (0 :: k) desired).
  assert (Pd : Permutation desired new) by apply HH.
  assert (Ed : desired = this).
  { unfold desired. rewrite (distinct_fixed this) by auto.
    assert (Hf : forall c, In c this -> mem c (distinct (distinct other ++ distinct out)) = true).
    { intros c Hc. apply mem_In. rewrite distinct_In, in_app_iff, !distinct_In. auto. }
    clear - Hf. induction this as [|c l IH]; simpl; auto. rewrite Hf by (simpl; auto).
    f_equal. apply IH. intros d Hd. apply Hf. simpl; auto. }
  assert (Nn : NoDup new). { eapply Permutation_NoDup; [exact Pd|]. rewrite Ed. auto. }
  assert (Ln : length new = length this) by (rewrite <- (Permutation_length Pd), Ed; auto).
  destruct (subset_ok H (1 :: k) orig ops o size [this] new HH HS) as (ssc & Es & HSs).
  { simpl. rewrite app_nil_r. auto. }
  { split; auto. simpl. rewrite app_nil_r. intros c Hc. rewrite <- Ed.
    eapply Permutation_in; [apply Permutation_sym; exact Pd|auto]. }
  rewrite Es. cbn [unwrap_res rbind].
  destruct (singleton_contraction_ok ssc this new size HSs (plain_backend (S := unit_scalar)) plain_backend_ok)
    as (c & Ec & _).
  rewrite Ec. cbn [rbind].
  revert Ec. unfold singleton_contraction_new, singleton_summary_new.
  rewrite (sc_op ssc this new size HSs), (sc_out ssc this new size HSs).
  cbn [length Nat.eqb rassert rbind]. unfold index. cbn [nth_error unwrap rbind].
  unfold singleton_summary_from_indices. rewrite (distinct_fixed this) by auto.
  rewrite usub_ok by lia. cbn [rbind]. rewrite Ln, Nat.sub_diag.
  assert (Ez : filter (fun x => Nat.ltb 1 (count x this)) this = []).
  { rewrite count_NoDup in Hn. clear - Hn.
    assert (Hf : forall l, filter (fun x => Nat.ltb 1 (count x this)) l = []).
    { induction l as [|x l IH]; simpl; auto. destruct (Nat.ltb_spec 1 (count x this)); auto.
      specialize (Hn x). lia. }
    apply Hf. }
  rewrite Ez. cbn [length]. unfold singleton_strategy.
  cbn [num_summed_axes num_diagonalized_axes num_reordered_axes].
  match goal with |- context [length (filter ?f (combine new this))] => destruct (length (filter f (combine new this))) end;
    intros Ec;
    match type of Ec with (do op <- ?x; _) = _ => destruct x; cbn [rbind] in Ec; try discriminate end;
    injection Ec as <-; reflexivity.
Qed.

(** A pair step whose operands need no simplification. *)
Lemma pair_indep k k' sc lhs rhs out size : sized sc [lhs; rhs] out size -> NoDup lhs -> NoDup rhs ->
  (forall c, In c lhs -> In c rhs \/ In c out) -> (forall c, In c rhs -> In c lhs \/ In c out) ->
  pair_contraction_new h k sc = pair_contraction_new h' k' sc.
Proof.
  intros HS Hl Hr Ul Ur. unfold pair_contraction_new.
  rewrite (sc_ops2 sc lhs rhs out size HS), (sc_out2 sc lhs rhs out size HS).
  cbn [length Nat.eqb rassert rbind]. unfold index. cbn [nth_error unwrap rbind].
  assert (I1 : incl lhs (concat [lhs; rhs])) by (simpl; intros c Hc; apply in_or_app; auto).
  assert (I2 : incl rhs (concat [lhs; rhs])) by (simpl; rewrite app_nil_r; intros c Hc; apply in_or_app; auto).
  rewrite !(simplification_none _ _ lhs rhs out sc [lhs; rhs] out size) by auto.
  rewrite !(simplification_none _ _ rhs lhs out sc [lhs; rhs] out size) by auto.
  cbn [rbind]. rewrite (subset_indep (2 :: k) (2 :: k')); auto. apply HS.
Qed.

(** One operand, or two that need no simplification. *)
Definition direct (ops : list (list char)) (out : list char) : Prop :=
  match ops with
  | [_] => True
  | [lhs; rhs] => NoDup lhs /\ NoDup rhs /\ (forall c, In c lhs -> In c rhs \/ In c out)
                  /\ (forall c, In c rhs -> In c lhs \/ In c out)
  | _ => False
  end.

Lemma compile_indep k1 k2 k1' k2' sc ops out size ord : sized sc ops out size -> direct ops out ->
  Permutation ord (seq 0 (length ops)) ->
  (do order <- generate_path h k1 sc ord; from_path h k2 order)
  = (do order <- generate_path h' k1' sc ord; from_path h' k2' order).
Proof.
  intros HS Hd Hp. pose proof HS as (Hsc & Ho & Hz).
  unfold generate_path, generate_permuted_contraction. rewrite Hsc. cbn [contraction_of operand_indices output_indices].
  destruct ops as [|u [|w [|? ?]]]; cbn [direct] in Hd; try contradiction; cbn [length seq] in Hp.
  - assert (ord = [0]) by (apply Permutation_length_1_inv; apply Permutation_sym; auto). subst ord.
    cbn [length Nat.eqb rassert rbind mapM]. unfold index; cbn [nth_error unwrap rbind].
    rewrite (subset_indep (5 :: k1) (5 :: k1')) by auto.
    destruct (subset_ok h' (5 :: k1') sc [u] out size [u] out Hh' HS) as (sc' & E & HS'); auto using incl_refl.
    rewrite E. cbn [unwrap_res rbind]. destruct HS' as (-> & _). reflexivity.
  - assert (Hord : ord = [0; 1] \/ ord = [1; 0]).
    { apply Permutation_sym in Hp. apply Permutation_length_2_inv in Hp. auto. }
    assert (Ho' : output_ok [w; u] out).
    { destruct Ho as [H1 H2]. split; auto. simpl in *. rewrite app_nil_r in *. intros c Hc.
      apply H2, in_app_iff in Hc. apply in_app_iff. tauto. }
    destruct Hord as [-> | ->]; cbn [length Nat.eqb rassert rbind mapM]; unfold index;
      cbn [nth_error unwrap rbind].
    + rewrite (subset_indep (5 :: k1) (5 :: k1')) by auto.
      destruct (subset_ok h' (5 :: k1') sc [u; w] out size [u; w] out Hh' HS) as (sc1 & E1 & HS1); auto using incl_refl.
      rewrite E1. cbn [unwrap_res rbind]. pose proof HS1 as (Ec & _). rewrite Ec.
      cbn [contraction_of operand_indices output_indices length nth_error unwrap rbind].
      unfold generate_sized_contraction_pair. rewrite (subset_indep (6 :: k1) (6 :: k1')) by auto.
      destruct (subset_ok h' (6 :: k1') sc1 [u; w] out size [u; w] out Hh' HS1) as (sc2 & E2 & HS2); auto using incl_refl.
      rewrite E2. cbn [unwrap_res rbind from_path length seq combine mapM fst snd ps_sc].
      rewrite (pair_indep (0 :: 9 :: k2) (0 :: 9 :: k2') sc2 u w out size); tauto.
    + rewrite (subset_indep (5 :: k1) (5 :: k1')) by auto.
      destruct (subset_ok h' (5 :: k1') sc [u; w] out size [w; u] out Hh' HS) as (sc1 & E1 & HS1); auto.
      { simpl. rewrite !app_nil_r. intros c Hc. apply in_app_iff in Hc. apply in_app_iff. tauto. }
      rewrite E1. cbn [unwrap_res rbind]. pose proof HS1 as (Ec & _). rewrite Ec.
      cbn [contraction_of operand_indices output_indices length nth_error unwrap rbind].
      unfold generate_sized_contraction_pair. rewrite (subset_indep (6 :: k1) (6 :: k1')) by auto.
      destruct (subset_ok h' (6 :: k1') sc1 [w; u] out size [w; u] out Hh' HS1) as (sc2 & E2 & HS2); auto using incl_refl.
      rewrite E2. cbn [unwrap_res rbind from_path length seq combine mapM fst snd ps_sc].
      rewrite (pair_indep (0 :: 9 :: k2) (0 :: 9 :: k2') sc2 w u out size); tauto.
Qed.

Context {A : Type} {Sc : Scalar A}.

Lemma einsum_indep lay s (arrays : list (arr A)) ops out size :
  call_ok s (map (@a_shape A) arrays) ops out size -> direct ops out ->
  einsum h lay s arrays = einsum h' lay s arrays.
Proof.
  intros Hc Hd. unfold einsum, validate_and_size, get_operand_shapes.
  rewrite (from_string_indep [20] [20] s _ ops out size Hc).
  destruct (from_string_ok h' [20] s _ ops out size Hh' Hc) as (sc & E & HS). rewrite E. cbn [rbind].
  unfold einsum_sc, einsum_path_new, generate_optimized_order, naive_order.
  assert (El : length (operand_indices (sc_contraction sc)) = length ops) by (destruct HS as (-> & _); auto).
  rewrite El. rewrite (compile_indep (10 :: [21]) (11 :: [21]) (10 :: [21]) (11 :: [21]) sc ops out size); auto.
Qed.

Lemma path_indep s (arrays : list (arr A)) ops out size strategy :
  call_ok s (map (@a_shape A) arrays) ops out size -> direct ops out ->
  strategy = Naive \/ strategy = Reverse ->
  einsum_path_fn h s arrays strategy = einsum_path_fn h' s arrays strategy.
Proof.
  intros Hc Hd Hst. unfold einsum_path_fn, validate_and_optimize_order, get_operand_shapes.
  rewrite (from_string_indep (7 :: [22]) (7 :: [22]) s _ ops out size Hc).
  destruct (from_string_ok h' (7 :: [22]) s _ ops out size Hh' Hc) as (sc & E & HS). rewrite E. cbn [rbind].
  unfold generate_optimized_order, naive_order, reverse_order.
  assert (El : length (operand_indices (sc_contraction sc)) = length ops) by (destruct HS as (-> & _); auto).
  rewrite El. destruct Hst as [-> | ->];
    apply (compile_indep (8 :: [22]) [23] (8 :: [22]) [23] sc ops out size); auto.
  apply Permutation_sym, Permutation_rev.
Qed.

End Repro.
