(** Einstein sums as nested loops. *)
From Verif Require Import Base BaseFacts NDArray Validation Spec ValidationFacts SumFacts ArrayFacts PathFacts EinsumProps.
From Coq Require Import Lia.

(** [for c in order { for i in 0..size[c] { ... body } }], the first label outermost. *)
Fixpoint loops {T : Type} (size : char -> nat) (order : list char) (body : env -> T -> T) (e : env) (t : T) : T :=
  match order with
  | [] => body e t
  | c :: rest => fold_left (fun t i => loops size rest body (upd e c i) t) (seq 0 (size c)) t
  end.

Section Loops.
Context {A : Type} {S : Scalar A}.

(** [answer[out] += a1[..] * a2[..] * ...] for an answer that is a function of positions. *)
Definition accumulate (arrays : list (arr A)) (ops : list (list char)) (out : list char) (e : env)
    (answer : list nat -> A) : list nat -> A :=
  fun o => if list_eq_dec Nat.eq_dec o (map e out) then sadd (answer o) (term arrays ops e) else answer o.

(** The answer of the program: zeros, then the loops. *)
Definition loop_answer (size : char -> nat) (order : list char) (arrays : list (arr A)) (ops : list (list char))
    (out : list char) : list nat -> A :=
  loops size order (accumulate arrays ops out) (fun _ => 0) (fun _ => szero).

Variable SR : near_semiring A.
Let SR' : near_semiring A := SR.

Lemma loops_add size order arrays ops out o : forall e answer,
  loops size order (accumulate arrays ops out) e answer o
  = sadd (answer o)
      (nested_sum size order
         (fun e => if list_eq_dec Nat.eq_dec o (map e out) then term arrays ops e else szero) e).
Proof.
  induction order as [|c order IH]; intros e answer; cbn [loops nested_sum].
  - unfold accumulate. destruct (list_eq_dec _ _ _); auto. rewrite (add_0_r SR). auto.
  - generalize (size c). intros n. revert answer. induction n as [|n IHn]; intros answer.
    + cbn. rewrite (add_0_r SR). auto.
    + rewrite seq_S, fold_left_app. cbn [fold_left Nat.add]. rewrite IH, IHn. cbn [sum_n].
      rewrite (ns_add_assoc SR). auto.
Qed.

(** Only one value of an output label counts. *)
Lemma sum_one n k (f : nat -> A) : k < n -> (forall i, i < n -> i <> k -> f i = szero) -> sum_n n f = f k.
Proof.
  induction n as [|n IH]; intros Hk Hf; [lia|]. cbn [sum_n]. destruct (Nat.eq_dec k n) as [->|Hne].
  - rewrite (sum_n_zero_ext SR) by (intros i Hi; apply Hf; lia). apply (ns_add_0_l SR).
  - rewrite IH by (try lia; intros; apply Hf; lia). rewrite (Hf n) by lia. apply (add_0_r SR).
Qed.

Lemma pick_out size out : NoDup out -> forall (F : env -> A) o e, in_bounds (map size out) o = true ->
  (forall e', map e' out <> o -> (forall c, ~ In c out -> e' c = e c) -> F e' = szero) ->
  exists e0, map e0 out = o /\ (forall c, ~ In c out -> e0 c = e c) /\ nested_sum size out F e = F e0.
Proof.
  induction 1 as [|c out Hc Hn IH]; intros F o e Ho HF.
  - destruct o; [|discriminate]. exists e. auto.
  - destruct o as [|k o]; [discriminate|]. cbn [map in_bounds] in Ho. apply andb_true_iff in Ho as [Hk Ho].
    apply Nat.ltb_lt in Hk. cbn [nested_sum]. rewrite (sum_one _ k); auto.
    + destruct (IH F o (upd e c k) Ho) as (e0 & E1 & E2 & E3).
      { intros e' He' Hag. apply HF; [|intros d Hd; rewrite Hag by (simpl in Hd; tauto); apply upd_other; simpl in Hd; intuition].
        intros E. injection E as _ E. auto. }
      exists e0. split; [|split; auto].
      * simpl. rewrite E2 by auto. rewrite upd_same. f_equal. auto.
      * intros d Hd. rewrite E2 by (simpl in Hd; tauto). apply upd_other. simpl in Hd. intuition.
    + intros i Hi Hne. transitivity (nested_sum size out (fun _ => szero) (upd e c i)); [|apply (nested_sum_zero SR)].
      apply nested_sum_ext. intros e' Hag _. apply HF.
      * simpl. rewrite Hag by auto. rewrite upd_same. congruence.
      * intros d Hd. rewrite Hag by (simpl in Hd; tauto). apply upd_other. simpl in Hd. intuition.
Qed.

Lemma loop_answer_ok size order arrays ops out o : NoDup order -> (forall c, In c order <-> In c (concat ops)) ->
  NoDup out -> incl out (concat ops) -> in_bounds (map size out) o = true ->
  loop_answer size order arrays ops out o = einsum_value size arrays ops out o.
Proof.
  intros Hn Hi Ho Hio Hb. unfold loop_answer. rewrite loops_add, (ns_add_0_l SR).
  set (G := fun e => if list_eq_dec Nat.eq_dec o (map e out) then term arrays ops e else szero).
  assert (HG : dep G (concat ops)).
  { intros e e' Ha. unfold G. rewrite (map_ext_in e e') by (intros c Hc; apply Ha; auto).
    destruct (list_eq_dec _ _ _); auto. apply term_dep. auto. }
  set (sl := summed_labels ops out).
  assert (NS : NoDup sl) by (apply NoDup_filter, NoDup_nodup).
  assert (HS : forall c, In c sl <-> In c (concat ops) /\ ~ In c out).
  { intros c. unfold sl, summed_labels. rewrite filter_In, nodup_In, negb_true_iff, <- not_true_iff_false.
    fold (mem c out). rewrite mem_In. tauto. }
  assert (HP : Permutation order (out ++ sl)).
  { apply NoDup_Permutation; auto.
    - apply NoDup_app_intro; auto. intros c H1 H2. apply HS in H2. tauto.
    - intros c. rewrite Hi, in_app_iff, HS. specialize (Hio c). destruct (in_dec N.eq_dec c out); tauto. }
  rewrite (nested_sum_perm SR size order (out ++ sl) (concat ops)) by auto. rewrite nested_sum_app.
  destruct (pick_out size out Ho (nested_sum size sl G) o (fun _ => 0) Hb) as (e0 & E1 & E2 & E3).
  { intros e' He' _. transitivity (nested_sum size sl (fun _ => szero) e'); [|apply (nested_sum_zero SR)].
    apply nested_sum_ext. intros e2 Hag _. unfold G. destruct (list_eq_dec _ _ _) as [E|]; auto. exfalso. apply He'.
    rewrite E. apply map_ext_in. intros c Hc. symmetry. apply Hag. rewrite HS. tauto. }
  etransitivity; [exact E3|]. unfold einsum_value. fold sl.
  transitivity (nested_sum size sl (term arrays ops) e0).
  - apply nested_sum_ext. intros e2 Hag _. unfold G. destruct (list_eq_dec _ _ _) as [|E]; auto. exfalso. apply E.
    rewrite <- E1. apply map_ext_in. intros c Hc. symmetry. apply Hag. rewrite HS. tauto.
  - apply (nested_sum_agree size sl (concat ops)); [apply term_dep|].
    intros c Hc Hns. assert (Hco : In c out) by (destruct (in_dec N.eq_dec c out); auto; exfalso; apply Hns, HS; auto).
    rewrite <- E1. symmetry. apply bind_map. auto.
Qed.

End Loops.
