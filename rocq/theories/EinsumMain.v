(** The outcome of [einsum] and of compiled paths on every call. *)
From Verif Require Import Base BaseFacts NDArray Validation Optimizers Strategies Singleton Pair Path
  Api Spec ValidationFacts SumFacts ArrayFacts SingletonFacts PairFacts PairMain PathFacts.
From Coq Require Import Lia.

(** The compiled path, run on the operands it was compiled for. *)
Definition compile_and_run {A} {Sc : Scalar A} (h : hash_order) (lay : backend A) (s : list char)
    (arrays : list (arr A)) (strategy : optimization_method) : res (arr A) :=
  do p <- einsum_path_fn h s arrays strategy; contract_operands lay p arrays.

Lemma same_array_holds {A} (a b : arr A) sh f : holds a sh f -> holds b sh f -> same_array a b.
Proof.
  intros (H1 & H2 & H3) (H4 & H5 & H6). split; [congruence|]. intros idx Hi. rewrite H1 in Hi.
  rewrite H3, H6; auto.
Qed.

Lemma outcome_same {A} {Sc : Scalar A} (x y : res (arr A)) size arrays ops out :
  outcome_is x size arrays ops out -> outcome_is y size arrays ops out -> same_outcome x y.
Proof.
  intros [[-> H1]|[H1 (r & -> & H2)]] [[-> H3]|[H3 (r' & -> & H4)]]; simpl; auto; try contradiction.
  eapply same_array_holds; eauto.
Qed.

Lemma meaning_nonempty s ops out : meaning s ops out -> ops <> [].
Proof. intros [H|[H _]]; inversion H; auto. Qed.

Lemma no_empty_not_blocked {A} size (arrays : list (arr A)) ops out :
  no_empty_diagonal size ops -> ~ blocked_in size (combine arrays ops) out.
Proof.
  intros Hn (p1 & a & ix & p2 & E & (H1 & (c & Hc & H0) & _)).
  assert (Hi : In (a, ix) (combine arrays ops)) by (rewrite E; apply in_elt).
  apply in_combine_r in Hi. unfold no_empty_diagonal in Hn. rewrite Forall_forall in Hn.
  destruct (Hn ix Hi) as [H|H]; auto. rewrite Forall_forall in H. eapply H; eauto.
Qed.

(** ** Rejected calls *)

Section Rejected.
Context {A : Type} {Sc : Scalar A}.
Variables (h : hash_order) (lay : backend A).
Hypothesis Hh : hash_ok h.

Lemma einsum_rejects s arrays : ~ accepted s (map (@a_shape A) arrays) ->
  exists m, einsum h lay s arrays = Err m.
Proof.
  intros H. unfold einsum, validate_and_size, get_operand_shapes.
  destruct (from_string_accepted h [20] s (map (@a_shape A) arrays) Hh) as [_ H2].
  destruct (proj2 H2 H) as (m & E). rewrite E. simpl. eauto.
Qed.

Lemma path_rejects s arrays strategy : ~ accepted s (map (@a_shape A) arrays) ->
  exists m, einsum_path_fn h s arrays strategy = Err m.
Proof.
  intros H. unfold einsum_path_fn, validate_and_optimize_order, get_operand_shapes.
  destruct (from_string_accepted h [7; 22] s (map (@a_shape A) arrays) Hh) as [_ H2].
  destruct (proj2 H2 H) as (m & E). rewrite E. simpl. eauto.
Qed.

Lemma accepted_dec s shapes : accepted s shapes \/ ~ accepted s shapes.
Proof.
  destruct (from_string_accepted h [] s shapes Hh) as [H1 H2].
  destruct (from_string_and_shapes h [] s shapes) eqn:E.
  - left. apply H1. eauto.
  - right. apply H2. eauto.
  - exfalso. eapply from_string_no_panic; eauto.
Qed.

End Rejected.

(** ** Described by related scalars *)

Section Weak.
Context {A B : Type} {Sc : Scalar A} {Sb : Scalar B}.
Variable R : A -> B -> Prop.
Variable Z : A -> Prop.
Hypothesis HR : weak_relation R Z.
Variables (h : hash_order) (lay : backend A).
Hypothesis Hh : hash_ok h.
Hypothesis Hlay : backend_runs lay.
Hypothesis Hfu : weak_fused R Z lay.
Variable size : char -> nat.
Hypothesis Hemp : no_empty_sums R Z size.
Hypothesis SR : summable B size.

Lemma einsum_sc_related_weak sc arrays arrays' ops out : sized sc ops out size -> ops <> [] ->
  Forall wf arrays -> shapes_ok size ops (map (@a_shape A) arrays) ->
  Forall2 (related_arrays R) arrays arrays' ->
  outcome_related R (einsum_sc h lay sc arrays) size arrays arrays' ops out.
Proof.
  intros HS Hne Hw Hs Hz. unfold einsum_sc, einsum_path_new, generate_optimized_order, naive_order.
  pose proof HS as (Hc & _).
  destruct (generated_path_computes h size Hh R Z HR Hemp lay Hlay Hfu SR (10 :: [21]) (11 :: [21]) sc ops out
              (seq 0 (length ops)) HS Hne (Permutation_refl _)) as (order & p & E1 & E2 & Hp).
  rewrite Hc. cbn [contraction_of operand_indices]. rewrite E1. cbn [rbind]. rewrite E2. cbn [rbind].
  destruct (Hp arrays arrays') as [H|H]; [apply usables_intro; auto|auto|left|right]; auto.
Qed.

Lemma einsum_related_weak s arrays arrays' ops out :
  call_ok s (map (@a_shape A) arrays) ops out size -> Forall wf arrays ->
  Forall2 (related_arrays R) arrays arrays' ->
  outcome_related R (einsum h lay s arrays) size arrays arrays' ops out.
Proof.
  intros Hc Hw Hz. unfold einsum, validate_and_size, get_operand_shapes.
  destruct (from_string_ok h [20] s _ ops out size Hh Hc) as (sc & E & HS).
  rewrite E. cbn [rbind]. destruct Hc as (Hm & _ & Hs).
  apply einsum_sc_related_weak; auto. eapply meaning_nonempty; eauto.
Qed.

Lemma path_related_weak s shapes ops out strategy :
  call_ok s shapes ops out size -> strategy = Naive \/ strategy = Reverse ->
  forall k k',
  exists order p, validate_and_optimize_order h k s shapes strategy = Ok order
    /\ from_path h k' order = Ok p
    /\ forall arrays arrays', Forall wf arrays -> map (@a_shape A) arrays = shapes ->
         Forall2 (related_arrays R) arrays arrays' ->
         outcome_related R (contract_operands lay p arrays) size arrays arrays' ops out.
Proof.
  intros Hc Hst k k'. unfold validate_and_optimize_order.
  destruct (from_string_ok h (7 :: k) s _ ops out size Hh Hc) as (sc & E & HS).
  rewrite E. cbn [rbind]. destruct Hc as (Hm & _ & Hs).
  assert (Hne : ops <> []) by (eapply meaning_nonempty; eauto).
  pose proof HS as (Hcc & _).
  assert (Ho : exists ord, Permutation ord (seq 0 (length ops))
            /\ generate_optimized_order h (8 :: k) sc strategy = generate_path h (8 :: k) sc ord).
  { destruct Hst as [-> | ->]; unfold generate_optimized_order, naive_order, reverse_order;
      rewrite Hcc; cbn [contraction_of operand_indices]; eexists; (split; [|reflexivity]); auto.
    apply Permutation_sym, Permutation_rev. }
  destruct Ho as (ord & Pord & ->).
  destruct (generated_path_computes h size Hh R Z HR Hemp lay Hlay Hfu SR (8 :: k) k' sc ops out ord HS Hne Pord)
    as (order & p & E1 & E2 & Hp).
  exists order, p. split; auto. split; auto. intros arrays arrays' Hw Hsh Hz.
  destruct (Hp arrays arrays') as [H|H]; [apply usables_intro; auto; rewrite Hsh; auto|auto|left|right]; auto.
Qed.

Lemma compile_and_run_related_weak s arrays arrays' ops out strategy :
  strategy = Naive \/ strategy = Reverse ->
  call_ok s (map (@a_shape A) arrays) ops out size -> Forall wf arrays ->
  Forall2 (related_arrays R) arrays arrays' ->
  outcome_related R (compile_and_run h lay s arrays strategy) size arrays arrays' ops out.
Proof.
  intros Hst Hc Hw Hz. unfold compile_and_run, einsum_path_fn, get_operand_shapes.
  destruct (path_related_weak s _ ops out strategy Hc Hst [22] [23]) as (o & p & E1 & E2 & Hp).
  rewrite E1. cbn [rbind]. rewrite E2. cbn [rbind]. apply Hp; auto.
Qed.

End Weak.

Section Related.
Context {A B : Type} {Sc : Scalar A} {Sb : Scalar B}.
Variable R : A -> B -> Prop.
Hypothesis HR : scalar_relation R.
Variables (h : hash_order) (lay : backend A).
Hypothesis Hh : hash_ok h.
Hypothesis Hlay : backend_runs lay.
Hypothesis Hfu : fused_relation R lay.
Variable size : char -> nat.
Hypothesis SR : summable B size.

Lemma einsum_sc_related_on sc arrays arrays' ops out : sized sc ops out size -> ops <> [] ->
  Forall wf arrays -> shapes_ok size ops (map (@a_shape A) arrays) ->
  Forall2 (related_arrays R) arrays arrays' ->
  outcome_related R (einsum_sc h lay sc arrays) size arrays arrays' ops out.
Proof.
  apply (einsum_sc_related_weak R _ (strong_weak R HR SR) h lay Hh Hlay (strong_weak_fused R lay HR SR Hfu) size
           (strong_no_empty R size) SR).
Qed.

Lemma einsum_related_on s arrays arrays' ops out :
  call_ok s (map (@a_shape A) arrays) ops out size -> Forall wf arrays ->
  Forall2 (related_arrays R) arrays arrays' ->
  outcome_related R (einsum h lay s arrays) size arrays arrays' ops out.
Proof.
  apply (einsum_related_weak R _ (strong_weak R HR SR) h lay Hh Hlay (strong_weak_fused R lay HR SR Hfu) size
           (strong_no_empty R size) SR).
Qed.

Lemma path_related_on s shapes ops out strategy :
  call_ok s shapes ops out size -> strategy = Naive \/ strategy = Reverse ->
  forall k k',
  exists order p, validate_and_optimize_order h k s shapes strategy = Ok order
    /\ from_path h k' order = Ok p
    /\ forall arrays arrays', Forall wf arrays -> map (@a_shape A) arrays = shapes ->
         Forall2 (related_arrays R) arrays arrays' ->
         outcome_related R (contract_operands lay p arrays) size arrays arrays' ops out.
Proof.
  apply (path_related_weak R _ (strong_weak R HR SR) h lay Hh Hlay (strong_weak_fused R lay HR SR Hfu) size
           (strong_no_empty R size) SR).
Qed.

Lemma compile_and_run_related_on s arrays arrays' ops out strategy :
  strategy = Naive \/ strategy = Reverse ->
  call_ok s (map (@a_shape A) arrays) ops out size -> Forall wf arrays ->
  Forall2 (related_arrays R) arrays arrays' ->
  outcome_related R (compile_and_run h lay s arrays strategy) size arrays arrays' ops out.
Proof.
  apply (compile_and_run_related_weak R _ (strong_weak R HR SR) h lay Hh Hlay (strong_weak_fused R lay HR SR Hfu) size
           (strong_no_empty R size) SR).
Qed.

End Related.

Section Semiring.
Context {A B : Type} {Sc : Scalar A} {Sb : Scalar B}.
Variable R : A -> B -> Prop.
Hypothesis HR : scalar_relation R.
Hypothesis SR : semiring B.
Variables (h : hash_order) (lay : backend A).
Hypothesis Hh : hash_ok h.
Hypothesis Hlay : backend_runs lay.
Hypothesis Hfu : fused_relation R lay.

Lemma einsum_sc_related sc arrays arrays' ops out size : sized sc ops out size -> ops <> [] ->
  Forall wf arrays -> shapes_ok size ops (map (@a_shape A) arrays) ->
  Forall2 (related_arrays R) arrays arrays' ->
  outcome_related R (einsum_sc h lay sc arrays) size arrays arrays' ops out.
Proof. apply (einsum_sc_related_on R HR h lay Hh Hlay Hfu size (semiring_summable size SR)). Qed.

Lemma einsum_related s arrays arrays' ops out size :
  call_ok s (map (@a_shape A) arrays) ops out size -> Forall wf arrays ->
  Forall2 (related_arrays R) arrays arrays' ->
  outcome_related R (einsum h lay s arrays) size arrays arrays' ops out.
Proof. apply (einsum_related_on R HR h lay Hh Hlay Hfu size (semiring_summable size SR)). Qed.

Lemma path_related s shapes ops out size strategy :
  call_ok s shapes ops out size -> strategy = Naive \/ strategy = Reverse ->
  forall k k',
  exists order p, validate_and_optimize_order h k s shapes strategy = Ok order
    /\ from_path h k' order = Ok p
    /\ forall arrays arrays', Forall wf arrays -> map (@a_shape A) arrays = shapes ->
         Forall2 (related_arrays R) arrays arrays' ->
         outcome_related R (contract_operands lay p arrays) size arrays arrays' ops out.
Proof. apply (path_related_on R HR h lay Hh Hlay Hfu size (semiring_summable size SR)). Qed.

Lemma compile_and_run_related s arrays arrays' ops out size strategy :
  strategy = Naive \/ strategy = Reverse ->
  call_ok s (map (@a_shape A) arrays) ops out size -> Forall wf arrays ->
  Forall2 (related_arrays R) arrays arrays' ->
  outcome_related R (compile_and_run h lay s arrays strategy) size arrays arrays' ops out.
Proof. apply (compile_and_run_related_on R HR h lay Hh Hlay Hfu size (semiring_summable size SR)). Qed.

End Semiring.

(** ** Any scalars *)

Section Free.
Context {A : Type} {Sc : Scalar A}.
Variables (h : hash_order) (lay : backend A).
Hypothesis Hh : hash_ok h.
Hypothesis Hlay : backend_runs lay.

(** Every scalar is related to the one element of the trivial semiring. *)
Let one_scalar : Scalar unit := {| szero := tt; sone := tt; sadd := fun _ _ => tt; smul := fun _ _ => tt |}.
Let one_semiring : @semiring unit one_scalar.
Proof. split; intros; repeat match goal with x : unit |- _ => destruct x end; reflexivity. Qed.
Let anything (x : A) (y : unit) : Prop := True.
Let anything_ok : @scalar_relation A unit Sc one_scalar anything.
Proof. split; intros; exact I. Qed.
Let anything_fused : @fused_relation A unit one_scalar anything lay.
Proof. intros x x' y y' z z' _ _ _. exact I. Qed.

Let forget (a : arr A) : arr unit := mk_c (a_shape a) (map (fun _ => tt) (indices (a_shape a))).

Let forget_related (arrays : list (arr A)) : Forall wf arrays ->
  Forall2 (related_arrays anything) arrays (map forget arrays).
Proof.
  induction 1 as [|a arrays Ha Hw IH]; simpl; constructor; auto. split; [reflexivity|].
  intros idx Hi. destruct (proj2 (proj1 (wf_readable a) Ha) idx Hi) as (x & Ex).
  exists x, tt. split; auto. split; [|exact I].
  destruct (holds_mk_c (a_shape a) (fun _ => tt)) as (_ & _ & H). apply H; auto.
Qed.

Let related_ends x size (arrays : list (arr A)) arrays' ops out :
  outcome_related (Sb := one_scalar) anything x size arrays arrays' ops out -> ends x size arrays ops out.
Proof.
  intros [H|[H (r & f & E & Hr & _)]]; [left; auto|right]. split; auto. exists r. split; auto.
  split; [eapply holds_wf; eauto|apply Hr].
Qed.

Lemma einsum_sc_ends sc arrays ops out size : sized sc ops out size -> ops <> [] ->
  Forall wf arrays -> shapes_ok size ops (map (@a_shape A) arrays) ->
  ends (einsum_sc h lay sc arrays) size arrays ops out.
Proof.
  intros HS Hne Hw Hs. eapply related_ends.
  eapply (einsum_sc_related anything anything_ok one_semiring); eauto.
Qed.

Lemma einsum_ends s arrays ops out size :
  call_ok s (map (@a_shape A) arrays) ops out size -> Forall wf arrays ->
  ends (einsum h lay s arrays) size arrays ops out.
Proof.
  intros Hc Hw. eapply related_ends.
  eapply (einsum_related anything anything_ok one_semiring); eauto.
Qed.

Lemma path_ends s shapes ops out size strategy :
  call_ok s shapes ops out size -> strategy = Naive \/ strategy = Reverse ->
  forall k k',
  exists order p, validate_and_optimize_order h k s shapes strategy = Ok order
    /\ from_path h k' order = Ok p
    /\ forall arrays, Forall wf arrays -> map (@a_shape A) arrays = shapes ->
         ends (contract_operands lay p arrays) size arrays ops out.
Proof.
  intros Hc Hst k k'.
  destruct (path_related anything anything_ok one_semiring h lay Hh Hlay anything_fused s shapes ops out size strategy Hc Hst k k')
    as (order & p & E1 & E2 & H).
  exists order, p. split; auto. split; auto. intros arrays Hw Hs. eapply related_ends; eauto.
Qed.

Lemma compile_and_run_ends s arrays ops out size strategy :
  strategy = Naive \/ strategy = Reverse ->
  call_ok s (map (@a_shape A) arrays) ops out size -> Forall wf arrays ->
  ends (compile_and_run h lay s arrays strategy) size arrays ops out.
Proof.
  intros Hst Hc Hw. eapply related_ends.
  eapply (compile_and_run_related anything anything_ok one_semiring); eauto.
Qed.

Lemma einsum_ok_shape s arrays r : Forall wf arrays -> einsum h lay s arrays = Ok r ->
  exists ops out size, call_ok s (map (@a_shape A) arrays) ops out size
    /\ ~ blocked_in size (combine arrays ops) out
    /\ wf r /\ a_shape r = map size out.
Proof.
  intros Hw E. destruct (accepted_dec h Hh s (map (@a_shape A) arrays)) as [(ops & out & size & Hc)|Hn].
  - exists ops, out, size. split; auto.
    destruct (einsum_ends s arrays ops out size Hc Hw) as [[H _]|[H (r' & E' & Hr)]]; [congruence|].
    assert (r' = r) by congruence. subst. auto.
  - apply (einsum_rejects h lay Hh) in Hn as (m & Em). congruence.
Qed.

End Free.

(** ** Semirings *)

Lemma eq_related {A} (arrays : list (arr A)) : Forall wf arrays ->
  Forall2 (related_arrays eq) arrays arrays.
Proof.
  induction 1 as [|a arrays Ha Hw IH]; constructor; auto. split; auto.
  intros idx Hi. destruct (proj2 (proj1 (wf_readable a) Ha) idx Hi) as (x & Ex). eauto.
Qed.

Lemma related_outcome {A} {Sc : Scalar A} (x : res (arr A)) size arrays ops out :
  outcome_related eq x size arrays arrays ops out -> outcome_is x size arrays ops out.
Proof.
  intros [H|[H (r & f & E & Hr & Hf)]]; [left; auto|right]. split; auto. exists r. split; auto.
  eapply ArrayFacts.holds_ext; [|exact Hr]. auto.
Qed.

Section Main.
Context {A : Type} {Sc : Scalar A}.
Hypothesis SR : semiring A.
Variables (h : hash_order) (lay : backend A).
Hypothesis Hh : hash_ok h.
Hypothesis Hlay : backend_ok lay.

Lemma einsum_sc_outcome sc arrays ops out size : sized sc ops out size -> ops <> [] ->
  Forall wf arrays -> shapes_ok size ops (map (@a_shape A) arrays) ->
  outcome_is (einsum_sc h lay sc arrays) size arrays ops out.
Proof.
  intros HS Hne Hw Hs. apply related_outcome.
  apply (einsum_sc_related eq eq_relation SR); auto using eq_fused. apply eq_related; auto.
Qed.

Lemma einsum_outcome s arrays ops out size :
  call_ok s (map (@a_shape A) arrays) ops out size -> Forall wf arrays ->
  outcome_is (einsum h lay s arrays) size arrays ops out.
Proof.
  intros Hc Hw. apply related_outcome.
  apply (einsum_related eq eq_relation SR); auto using eq_fused. apply eq_related; auto.
Qed.

Lemma path_outcome s shapes ops out size strategy :
  call_ok s shapes ops out size -> strategy = Naive \/ strategy = Reverse ->
  forall k k',
  exists order p, validate_and_optimize_order h k s shapes strategy = Ok order
    /\ from_path h k' order = Ok p
    /\ forall arrays, Forall wf arrays -> map (@a_shape A) arrays = shapes ->
         outcome_is (contract_operands lay p arrays) size arrays ops out.
Proof.
  intros Hc Hst k k'.
  destruct (path_related eq eq_relation SR h lay Hh Hlay (eq_fused lay Hlay) s shapes ops out size strategy Hc Hst k k')
    as (order & p & E1 & E2 & H).
  exists order, p. split; auto. split; auto. intros arrays Hw Hs. apply related_outcome.
  apply H; auto. apply eq_related; auto.
Qed.

Lemma einsum_ok_inv s arrays r : Forall wf arrays -> einsum h lay s arrays = Ok r ->
  exists ops out size, call_ok s (map (@a_shape A) arrays) ops out size
    /\ ~ blocked_in size (combine arrays ops) out
    /\ holds r (map size out) (einsum_value size arrays ops out).
Proof.
  intros Hw E. destruct (accepted_dec h Hh s (map (@a_shape A) arrays)) as [(ops & out & size & Hc)|Hn].
  - exists ops, out, size. split; auto.
    destruct (einsum_outcome s arrays ops out size Hc Hw) as [[H _]|[H (r' & E' & Hr)]]; [congruence|].
    assert (r' = r) by congruence. subst. auto.
  - apply (einsum_rejects h lay Hh) in Hn as (m & Em). congruence.
Qed.

Lemma compile_and_run_outcome s arrays ops out size strategy :
  strategy = Naive \/ strategy = Reverse ->
  call_ok s (map (@a_shape A) arrays) ops out size -> Forall wf arrays ->
  outcome_is (compile_and_run h lay s arrays strategy) size arrays ops out.
Proof.
  intros Hst Hc Hw. unfold compile_and_run, einsum_path_fn, get_operand_shapes.
  destruct (path_outcome s _ ops out size strategy Hc Hst [22] [23]) as (o & p & E1 & E2 & Hp).
  rewrite E1. cbn [rbind]. rewrite E2. cbn [rbind]. apply Hp; auto.
Qed.

End Main.
