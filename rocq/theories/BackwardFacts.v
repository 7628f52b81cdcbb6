(** From a bound on the error of a sum to perturbations of its terms (for C70). *)
From Verif Require Import Base BaseFacts NDArray Validation Optimizers Path Api Spec ParserFacts ValidationMain SumFacts
  ArrayFacts PathFacts EinsumMain EinsumProps RelationFacts AlgebraFacts RoundFacts.
From Coq Require Import Lia QArith Qcanon Qcabs.
Local Open Scope list_scope.
Local Open Scope nat_scope.

(** ** Rational numbers *)

Definition qsgn (x : Qc) : Qc := if Qclt_le_dec x 0%Qc then (- (1))%Qc else 1%Qc.

Lemma qsgn_abs x : (x * qsgn x = Qcabs x)%Qc.
Proof.
  unfold qsgn. destruct (Qclt_le_dec x 0%Qc) as [H|H].
  - rewrite Qcabs_neg by (apply Qclt_le_weak; auto). ring.
  - rewrite Qcabs_pos by auto. ring.
Qed.
Lemma abs_qsgn x : Qcabs (qsgn x) = 1%Qc.
Proof. unfold qsgn. destruct (Qclt_le_dec x 0%Qc); apply Qc_is_canon; reflexivity. Qed.

(** A number [q] within [g * m + u] of [s] is [s], plus a part of [m], plus a number of at most [u]. *)
Definition part (g m q s : Qc) : Qc :=
  if Qc_eq_dec m 0%Qc then 0%Qc
  else if Qclt_le_dec (g * m)%Qc (Qcabs (q - s))%Qc then (g * qsgn (q - s))%Qc
  else ((q - s) / m)%Qc.

Lemma spread g m u q s : (0 <= g)%Qc -> (0 <= m)%Qc -> (0 <= u)%Qc -> (Qcabs (q - s) <= g * m + u)%Qc ->
  (Qcabs (part g m q s) <= g)%Qc /\ (Qcabs (q - (s + part g m q s * m)) <= u)%Qc.
Proof.
  intros Hg Hm Hu H. unfold part.
  assert (Q0 : Qcabs 0 = 0%Qc) by (apply Qc_is_canon; reflexivity).
  destruct (Qc_eq_dec m 0%Qc) as [->|Hn].
  - rewrite Q0. split; auto. replace (s + 0 * 0)%Qc with s by ring.
    replace (g * 0 + u)%Qc with u in H by ring. auto.
  - assert (Hp : (0 < m)%Qc) by (apply Qcnot_le_lt; intros H'; apply Hn; apply Qcle_antisym; auto).
    destruct (Qclt_le_dec (g * m)%Qc (Qcabs (q - s))%Qc) as [L|L].
    + assert (E : (qsgn (q - s) * qsgn (q - s) = 1)%Qc).
      { unfold qsgn. destruct (Qclt_le_dec (q - s)%Qc 0%Qc); ring. }
      replace (q - (s + g * qsgn (q - s) * m))%Qc with ((Qcabs (q - s) - g * m) * qsgn (q - s))%Qc.
      2:{ rewrite <- qsgn_abs. transitivity ((q - s) * (qsgn (q - s) * qsgn (q - s)) - g * qsgn (q - s) * m)%Qc; [ring|].
          rewrite E. ring. }
      rewrite !Qcabs_Qcmult, !abs_qsgn, !Qcmult_1_r. split; [rewrite Qcabs_pos by auto; apply Qcle_refl|].
      rewrite Qcabs_pos.
      * replace u with (g * m + u + - (g * m))%Qc by ring.
        apply (Qcplus_le_compat _ _ (- (g * m)) (- (g * m)) H). apply Qcle_refl.
      * apply -> Qcle_minus_iff. apply Qclt_le_weak. auto.
    + split.
      * apply Qcmult_lt_0_le_reg_r with m; auto. rewrite <- (Qcabs_pos m) at 2 by auto.
        rewrite <- Qcabs_Qcmult. replace ((q - s) / m * m)%Qc with (q - s)%Qc by (field; auto). auto.
      * replace (q - (s + (q - s) / m * m))%Qc with 0%Qc by (field; auto). rewrite Q0. auto.
Qed.

(** ** The terms of an Einstein sum *)

Section Terms.
Context {F : Type} {Sf : Scalar F}.
Variable v : F -> option Qc.

Definition values (arrays : list (arr F)) : list (arr Qc) := map (amap (value_of v)) arrays.

Lemma elem_magnitude (a : arr F) idx :
  elem (amap (magnitude_of v) a) idx = Qcabs (elem (amap (value_of v) a) idx).
Proof.
  unfold elem. rewrite !a_get_amap. destruct (a_get a idx); simpl; auto; apply Qc_is_canon; reflexivity.
Qed.

Lemma term_magnitude (arrays : list (arr F)) ops e :
  term (map (amap (magnitude_of v)) arrays) ops e = Qcabs (term (values arrays) ops e).
Proof.
  revert ops. induction arrays as [|a arrays IH]; intros [|ix ops]; try (apply Qc_is_canon; reflexivity).
  unfold values. cbn [map]. rewrite !term_cons, elem_magnitude, IH. cbn. rewrite Qcabs_Qcmult. auto.
Qed.

(** The Einstein sum of the absolute values, spread over the terms. *)
Lemma spread_terms size (arrays : list (arr F)) ops out o d :
  (einsum_value size (values arrays) ops out o + d * einsum_value size (map (amap (magnitude_of v)) arrays) ops out o)%Qc
  = nested_sum size (summed_labels ops out)
      (fun e => term (values arrays) ops e * (1 + d * qsgn (term (values arrays) ops e)))%Qc (bind out o).
Proof.
  unfold einsum_value.
  transitivity (nested_sum size (summed_labels ops out)
    (fun e => sadd (term (values arrays) ops e) (smul d (term (map (amap (magnitude_of v)) arrays) ops e))) (bind out o)).
  - rewrite (nested_sum_add (semiring_near Qc_semiring)), (nested_sum_scale (semiring_summable _ Qc_semiring)). reflexivity.
  - apply nested_sum_ext. intros e _ _. rewrite term_magnitude, <- qsgn_abs. cbn. ring.
Qed.

Lemma nested_sum_nonneg size cs (f : env -> Qc) e : (forall e, (0 <= f e)%Qc) -> (0 <= nested_sum size cs f e)%Qc.
Proof.
  intros Hf. revert e. induction cs as [|c cs IH]; intros e; cbn [nested_sum]; auto.
  generalize (size c) as n. induction n as [|n IHn]; [apply Qcle_refl|]. cbn [sum_n]. apply Qcle_0_plus; auto.
Qed.

Lemma magnitude_nonneg size (arrays : list (arr F)) ops out o :
  (0 <= einsum_value size (map (amap (magnitude_of v)) arrays) ops out o)%Qc.
Proof. apply nested_sum_nonneg. intros e. rewrite term_magnitude. apply Qcabs_nonneg. Qed.

Lemma padded_nonneg size (arrays : list (arr F)) ops out o :
  (0 <= einsum_value size (map (amap (padded_of v)) arrays) ops out o)%Qc.
Proof.
  apply nested_sum_nonneg. intros e. revert ops. induction arrays as [|a arrays IH]; intros [|ix ops]; try discriminate.
  cbn [map]. rewrite term_cons. apply Qcle_0_mult; auto.
  unfold elem. rewrite a_get_amap. destruct (a_get a (map e ix)); cbn [rmap]; try apply Qcle_refl.
  unfold padded_of. apply Qcle_0_plus; [discriminate|apply Qcabs_nonneg].
Qed.

End Terms.
