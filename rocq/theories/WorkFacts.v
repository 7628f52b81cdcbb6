(** Counting runs and plain runs give the same result; what a compiled contractor counts. *)
From Verif Require Import Base BaseFacts NDArray Validation Optimizers Strategies Singleton Pair Path Api Spec
  ValidationFacts SumFacts ArrayFacts TensordotFacts DiagFacts SingletonFacts PairFacts StackedFacts
  PairMain PathFacts PathShape PlanFacts TensordotMain OverflowFacts LimitsFacts Work.
From Coq Require Import Lia.

(** The counting run [xw] ends like [x], and counts [w] if it ends with a value. *)
Definition costs {T} (xw : counted T) (x : res T) (w : work) : Prop := xw = do v <- x; Ok (v, w).

Lemma costs_eq {T} (xw : counted T) x w w' : costs xw x w -> w = w' -> costs xw x w'.
Proof. intros H <-. auto. Qed.

Lemma costs_free {T} (x : res T) : costs (uncounted x) x no_work.
Proof. reflexivity. Qed.

Lemma costs_bind {T U} (xw : counted T) x (fw : T -> counted U) f v w :
  costs xw x v -> (forall t, x = Ok t -> costs (fw t) (f t) w) -> costs (cbind xw fw) (rbind x f) (more v w).
Proof.
  unfold costs, cbind. intros -> H. destruct x as [t|e|]; cbn [rbind]; auto.
  rewrite (H t eq_refl). destruct (f t); cbn [rbind]; auto.
Qed.

Lemma costs_after {T U} (x : res T) (fw : T -> counted U) f w :
  (forall t, x = Ok t -> costs (fw t) (f t) w) -> costs (cbind (uncounted x) fw) (rbind x f) w.
Proof.
  intros H. eapply costs_eq; [apply (costs_bind _ x fw f no_work w); auto; apply costs_free|].
  destruct w; reflexivity.
Qed.

Lemma costs_before {T U} (xw : counted T) x (f : T -> res U) w :
  costs xw x w -> costs (cbind xw (fun t => uncounted (f t))) (rbind x f) w.
Proof.
  intros H. eapply costs_eq; [apply (costs_bind xw x (fun t => uncounted (f t)) f w no_work); auto; intros; apply costs_free|].
  unfold more. destruct w; cbn. rewrite !Nat.add_0_r. reflexivity.
Qed.

Lemma costs_fold {T U} (fw : U -> T -> counted U) f w : (forall u x, costs (fw u x) (f u x) w) ->
  forall l u, costs (foldC fw l u) (foldM f l u) (mkWork (length l * products w) (length l * summands w)).
Proof.
  intros H. induction l as [|x l IH]; intros u; [reflexivity|]. cbn [foldC foldM].
  eapply costs_eq; [apply costs_bind; [apply H|intros; apply IH]|]. reflexivity.
Qed.

(** ** Contractors *)

(** The elements read by summing over [axes] one after another. *)
Fixpoint axes_summands (axes sh : list nat) : nat :=
  match axes with
  | [] => 0
  | ax :: axes' => prod sh + axes_summands axes' (remove_nth ax sh)
  end.

Definition singleton_summands (op : singleton_op) (sh : list nat) : nat :=
  match op with
  | OpSummation s => axes_summands (adjusted_axis_list s) sh
  | OpPermutationAndSummation p s => axes_summands (adjusted_axis_list s) (map (fun k => nth k sh 0) p)
  | OpDiagonalizationAndSummation d s => axes_summands (adjusted_axis_list s) (diag_output_shape d)
  | _ => 0
  end.

Definition tfp_products (t : tensordot_fixed) : nat :=
  len_uncontracted_lhs t * len_contracted_axes t * len_uncontracted_rhs t.

(** The products of a contractor for two operands whose result has [n] elements. *)
Definition op_products (op : pair_op) (n : nat) : nat :=
  match op with
  | OpTensordotFixedPosition t => tfp_products t
  | OpTensordotGeneral t => tfp_products (tg_fixed t)
  | OpStackedTensordotGeneral s => nth 0 (st_intermediate_shape s) 0 * tfp_products (st_fixed s)
  | _ => n
  end.

Section Run.
Context {A : Type} {Sc : Scalar A}.
Variable lay : backend A.
Hypothesis Hlay : backend_runs lay.

Lemma sum_axes_costs axes : forall r : arr A,
  costs (foldC (fun r ax => sum_axis_w lay r ax) axes r) (foldM (fun r ax => sum_axis lay r ax) axes r)
    (mkWork 0 (axes_summands axes (a_shape r))).
Proof.
  induction axes as [|ax axes IH]; intros r; [reflexivity|]. cbn [foldC foldM axes_summands].
  apply (costs_eq _ _ (more (mkWork 0 (prod (a_shape r))) (mkWork 0 (axes_summands axes (remove_nth ax (a_shape r)))))).
  - apply costs_bind; [reflexivity|]. intros x Hx. rewrite <- (sum_axis_shape lay Hlay _ _ _ Hx). apply IH.
  - reflexivity.
Qed.

Lemma summation_costs s (t : arr A) :
  costs (summation_contract_w lay s t) (summation_contract lay s t)
    (mkWork 0 (axes_summands (adjusted_axis_list s) (a_shape t))).
Proof.
  unfold summation_contract_w, summation_contract. destruct (adjusted_axis_list s) as [|ax axes]; [reflexivity|].
  apply costs_after. intros x [= <-]. apply (sum_axes_costs (ax :: axes) t).
Qed.

Lemma run_singleton_costs op (t : arr A) :
  costs (run_singleton_w lay op t) (run_singleton lay op t) (mkWork 0 (singleton_summands op (a_shape t))).
Proof.
  destruct op; cbn [run_singleton_w run_singleton singleton_summands]; try apply costs_free.
  - apply summation_costs.
  - apply costs_after. intros v Hv. eapply costs_eq; [apply summation_costs|].
    unfold permutation_view, permuted_axes in Hv. destruct (_ && _ && _); [|discriminate].
    injection Hv as <-. reflexivity.
  - unfold diag_and_sum_contract_w, diag_and_sum_contract. cbv zeta. apply costs_after. intros v Hv.
    eapply costs_eq; [apply summation_costs|]. do 2 f_equal.
    destruct (_ && _); [apply (diagonal_view_shape _ _ _ Hv)|apply (diagonal_contract_shape lay Hlay _ _ _ Hv)].
Qed.

Lemma run_tfp_costs t (l r : arr A) :
  costs (run_tfp_w lay t l r) (run_tfp lay t l r) (mkWork (tfp_products t) 0).
Proof.
  unfold run_tfp_w, run_tfp. apply costs_after. intros lv Hl. apply costs_after. intros rv Hr.
  apply as_matrix_shape in Hl, Hr. apply costs_before. unfold costs, dot_w.
  destruct (dot lay lv rv) as [d|e|] eqn:Hd; cbn [rbind]; auto.
  rewrite (dot_shape lay _ _ _ _ _ _ _ Hl Hr Hd), Hl. unfold tfp_products. cbn [prod fold_right nth].
  do 3 f_equal. lia.
Qed.

Lemma run_tg_costs t (l r : arr A) :
  costs (run_tg_w lay t l r) (run_tg lay t l r) (mkWork (tfp_products (tg_fixed t)) 0).
Proof.
  unfold run_tg_w, run_tg. do 2 (apply costs_after; intros ? _). apply costs_before. apply run_tfp_costs.
Qed.

Lemma run_stacked_costs s (l r : arr A) :
  costs (run_stacked_w lay s l r) (run_stacked lay s l r)
    (mkWork (nth 0 (st_intermediate_shape s) 0 * tfp_products (st_fixed s)) 0).
Proof.
  unfold run_stacked_w, run_stacked. do 6 (apply costs_after; intros ? _). cbv zeta.
  do 2 (apply costs_after; intros ? _). apply costs_after. intros n Hn.
  assert (En : nth 0 (st_intermediate_shape s) 0 = n).
  { unfold index, zeros, mk_c in Hn. cbn [a_shape] in Hn. destruct (st_intermediate_shape s); [discriminate|].
    injection Hn as <-. reflexivity. }
  rewrite En.
  match goal with |- costs (cbind ?xw _) (rbind ?x _) _ => assert (H : costs xw x (mkWork (n * tfp_products (st_fixed s)) 0)) end.
  { eapply costs_eq; [apply (costs_fold _ _ (mkWork (tfp_products (st_fixed s)) 0))|].
    - intros buf i. unfold stacked_iteration_w, stacked_iteration. do 3 (apply costs_after; intros ? _).
      eapply costs_eq; [apply costs_bind; [apply costs_before, run_tfp_costs|]|].
      + intros x _. apply (costs_free (Ok _)).
      + unfold more, no_work. cbn [products summands]. rewrite Nat.add_0_r. reflexivity.
    - rewrite seq_length. cbn [products summands]. rewrite Nat.mul_0_r. reflexivity. }
  eapply costs_eq; [apply costs_bind; [exact H|]|].
  - intros buf' _. apply costs_after. intros ? _. apply costs_free.
  - unfold more, no_work. cbn [products summands]. rewrite Nat.add_0_r. reflexivity.
Qed.

Lemma scale_costs s (a : arr A) n : (forall x, mapv lay (fun x => smul x s) a = Ok x -> prod (a_shape x) = n) ->
  costs (scale_w lay s a) (mapv lay (fun x => smul x s) a) (mkWork n 0).
Proof.
  intros H. unfold costs, scale_w. destruct (mapv lay _ a) as [r|e|] eqn:E; cbn [rbind]; auto.
  rewrite <- (H r eq_refl), (mapv_shape lay Hlay _ _ _ E). reflexivity.
Qed.

Lemma hadamard_costs (a b : arr A) n : (forall x, run_hadamard lay a b = Ok x -> prod (a_shape x) = n) ->
  costs (run_hadamard_w lay a b) (run_hadamard lay a b) (mkWork n 0).
Proof.
  unfold run_hadamard_w, run_hadamard. intros H. unfold costs, mul_arrays_w.
  destruct (mul_arrays lay a b) as [r|e|]; cbn [rbind]; auto. rewrite (H r eq_refl). reflexivity.
Qed.

Lemma run_pair_costs op (l r : arr A) n : (forall x, run_pair lay op l r = Ok x -> prod (a_shape x) = n) ->
  costs (run_pair_w lay op l r) (run_pair lay op l r) (mkWork (op_products op n) 0).
Proof.
  assert (Hscale : forall (o : res (option A)) a,
    (forall x, (do o <- o; do s <- unwrap o; mapv lay (fun x => smul x s) a) = Ok x -> prod (a_shape x) = n) ->
    costs (count o <- uncounted o; count s <- uncounted (unwrap o); scale_w lay s a)
      (do o <- o; do s <- unwrap o; mapv lay (fun x => smul x s) a) (mkWork n 0)).
  { intros o a H. apply costs_after. intros ov Eo. apply costs_after. intros s Es. apply scale_costs.
    intros x Hx. apply H. rewrite Eo. cbn [rbind]. rewrite Es. exact Hx. }
  destruct op; cbn [run_pair_w run_pair op_products]; intros H.
  - apply hadamard_costs. auto.
  - unfold run_hadamard_general_w, run_hadamard_general in *. apply costs_after. intros l1 E1. apply costs_after.
    intros r1 E2. apply hadamard_costs. intros x Hx. apply H. rewrite E1. cbn [rbind]. rewrite E2. exact Hx.
  - apply Hscale. exact H.
  - unfold run_scalar_matrix_general_w, run_scalar_matrix_general in *. apply costs_after. intros r1 E1.
    apply Hscale. intros x Hx. apply H. rewrite E1. exact Hx.
  - apply Hscale. exact H.
  - unfold run_matrix_scalar_general_w, run_matrix_scalar_general in *. apply costs_after. intros r1 E1.
    apply Hscale. intros x Hx. apply H. rewrite E1. exact Hx.
  - apply run_tfp_costs.
  - apply run_tg_costs.
  - unfold run_broadcast_w, run_broadcast in *.
    apply costs_after. intros l0 E1. apply costs_after. intros r0 E2. apply costs_after. intros l1 E3.
    apply costs_after. intros r1 E4. apply costs_after. intros l2 E5. apply costs_after. intros r2 E6.
    apply hadamard_costs. intros x Hx. apply H. rewrite E1. cbn [rbind]. rewrite E2. cbn [rbind]. rewrite E3. cbn [rbind].
    rewrite E4. cbn [rbind]. rewrite E5. cbn [rbind]. rewrite E6. exact Hx.
  - apply run_stacked_costs.
Qed.

Definition simplification_summands (s : option simplification) (sh : list nat) : nat :=
  match s with Some s => singleton_summands (simpl_op s) sh | None => 0 end.

Lemma run_pair_contraction_costs p (l r : arr A) n :
  (forall x, run_pair_contraction lay p l r = Ok x -> prod (a_shape x) = n) ->
  costs (run_pair_contraction_w lay p l r) (run_pair_contraction lay p l r)
    (mkWork (op_products (pc_op p) n)
       (simplification_summands (pc_lhs_simplification p) (a_shape l)
        + simplification_summands (pc_rhs_simplification p) (a_shape r))).
Proof.
  intros H.
  assert (Hs : forall s (t : arr A), costs (run_simplification_w lay s t) (run_simplification lay s t)
                             (mkWork 0 (simplification_summands s (a_shape t)))).
  { intros [s|] t; [apply run_singleton_costs|reflexivity]. }
  unfold run_pair_contraction_w, run_pair_contraction in *.
  eapply costs_eq; [apply costs_bind; [apply Hs|]|].
  - intros l' El. apply costs_bind; [apply Hs|]. intros r' Er. apply (run_pair_costs _ _ _ n).
    intros x Hx. apply H. rewrite El. cbn [rbind]. rewrite Er. exact Hx.
  - unfold more. cbn [products summands]. rewrite !Nat.add_0_l, Nat.add_0_r. reflexivity.
Qed.

End Run.

(** ** What is counted, in terms of labels *)

(** The labels of [l] that are not in [seen], each once, in the order of their first occurrences. *)
Fixpoint firsts (seen l : list char) : list char :=
  match l with
  | [] => []
  | c :: l' => if existsb (N.eqb c) seen then firsts seen l' else c :: firsts (c :: seen) l'
  end.

(** The elements read by summing away the last axes of an array one after another: [v] is the number of
    elements along the other axes, [lens] are the lengths of the summed axes. *)
Fixpoint axis_sums (v : nat) (lens : list nat) : nat :=
  match lens with
  | [] => 0
  | d :: lens' => v * prod lens + axis_sums v lens'
  end.

(** Summing the labels of [this] that are not among [used]. *)
Definition own_summands (size : char -> nat) (this used : list char) : nat :=
  axis_sums (prod (map size (filter (fun c => existsb (N.eqb c) used) (nodup N.eq_dec this))))
    (map size (firsts used this)).

(** The products of a step: one for each value of the labels of the result and of the labels contracted. *)
Definition pair_products (size : char -> nat) (lhs rhs out : list char) : nat :=
  prod (map size out)
  * prod (map size (filter (fun c => existsb (N.eqb c) rhs && negb (existsb (N.eqb c) out)) (nodup N.eq_dec lhs))).

Lemma prod_perm a b : Permutation a b -> prod a = prod b.
Proof. induction 1; rewrite ?prod_cons; lia. Qed.

Lemma prod_same (size : char -> nat) l l' : NoDup l -> NoDup l' -> (forall c, In c l <-> In c l') ->
  prod (map size l) = prod (map size l').
Proof. intros. apply prod_perm, Permutation_map, NoDup_Permutation; auto. Qed.

Lemma existsb_mem c l : existsb (N.eqb c) l = mem c l.
Proof. reflexivity. Qed.

Lemma firsts_ext l : forall s s', (forall c, In c l -> In c s <-> In c s') -> firsts s l = firsts s' l.
Proof.
  induction l as [|c l IH]; intros s s' H; auto. cbn [firsts]. rewrite !existsb_mem.
  assert (E : mem c s = mem c s').
  { destruct (mem c s) eqn:E1, (mem c s') eqn:E2; auto;
      rewrite ?mem_In, ?mem_false in *; specialize (H c (or_introl eq_refl)); tauto. }
  rewrite E. destruct (mem c s').
  - apply IH. intros d Hd. apply H. right; auto.
  - f_equal. apply IH. intros d Hd. specialize (H d (or_intror Hd)). simpl. tauto.
Qed.

Lemma firsts_nil l s : incl l s -> firsts s l = [].
Proof.
  induction l as [|c l IH]; intros H; auto. cbn [firsts]. rewrite existsb_mem.
  rewrite (proj2 (mem_In c s)) by (apply H; left; auto). apply IH. intros d Hd. apply H. right; auto.
Qed.

Lemma firsts_In l : forall s c, In c (firsts s l) <-> In c l /\ ~ In c s.
Proof.
  induction l as [|d l IH]; intros s c; [simpl; tauto|]. cbn [firsts]. rewrite existsb_mem.
  destruct (mem d s) eqn:E.
  - apply mem_In in E. rewrite IH. simpl. split; [tauto|]. intros [[->|H] Hn]; tauto.
  - apply mem_false in E. simpl. rewrite IH. simpl. split.
    + intros [->|[H Hn]]; [auto|]. tauto.
    + intros [[->|H] Hn]; [auto|]. destruct (N.eq_dec d c); [auto|]. right. split; auto. tauto.
Qed.

Lemma firsts_NoDup l : forall s, NoDup (firsts s l).
Proof.
  induction l as [|d l IH]; intros s; [constructor|]. cbn [firsts]. rewrite existsb_mem.
  destruct (mem d s); auto. constructor; auto. rewrite firsts_In. simpl. tauto.
Qed.

Lemma firsts_distinct l s : NoDup l -> firsts s l = filter (fun c => negb (mem c s)) l.
Proof.
  intros Hn. revert s. induction Hn as [|c l Hc Hn IH]; intros s; auto. cbn [firsts filter]. rewrite existsb_mem.
  destruct (mem c s) eqn:E; cbn [negb]; auto. f_equal. rewrite <- IH. apply firsts_ext.
  intros d Hd. simpl. split; [intros [->|H]; [contradiction|auto]|auto].
Qed.

Lemma diag_mapping_firsts input : forall adj, fst (diag_mapping adj input) = adj ++ firsts adj input.
Proof.
  induction input as [|c input IH]; intros adj; [cbn; rewrite app_nil_r; auto|]. cbn [diag_mapping firsts].
  rewrite existsb_mem. destruct (position c adj) as [p|] eqn:E.
  - apply position_Some_In in E. rewrite (proj2 (mem_In c adj) E). specialize (IH adj).
    destruct (diag_mapping adj input). exact IH.
  - apply position_None in E. rewrite (proj2 (mem_false c adj) E). specialize (IH (adj ++ [c])).
    destruct (diag_mapping (adj ++ [c]) input). cbn [fst] in *. rewrite IH, <- app_assoc. cbn [app]. do 2 f_equal.
    apply firsts_ext. intros d _. rewrite in_app_iff. simpl. tauto.
Qed.

Lemma remove_nth_app {T} (a : list T) x b : remove_nth (length a) (a ++ x :: b) = a ++ b.
Proof. induction a as [|y a IH]; cbn; auto. rewrite IH. auto. Qed.

Lemma axes_summands_last os es :
  axes_summands (map (fun _ => length os) (seq 0 (length es))) (os ++ es) = axis_sums (prod os) es.
Proof.
  induction es as [|d es IH]; auto. cbn [length]. rewrite <- cons_seq, <- seq_shift, map_cons, map_map.
  cbn [axes_summands axis_sums]. rewrite remove_nth_app, IH, prod_app. auto.
Qed.

(** A compiled contractor for one operand sums the labels the result does not have. *)
Lemma singleton_summands_ok sc this out size c : sized sc [this] out size ->
  singleton_contraction_new sc = Ok c ->
  singleton_summands (sgl_op c) (map size this) = axis_sums (prod (map size out)) (map size (firsts out this)).
Proof.
  intros HS E. destruct (singleton_plan sc this out size c HS E) as [Hm Ht].
  pose proof (proj1 (Hm _) eq_refl) as Hc. clear Hm.
  assert (Eo : singleton_op_new (sgl_method c) sc = Ok (sgl_op c)).
  { unfold singleton_contraction_new in E. apply bind_Ok in E as (s & _ & E). apply bind_Ok in E as (op & Eo & E).
    injection E as <-. exact Eo. }
  assert (Hnil : incl this out -> axis_sums (prod (map size out)) (map size (firsts out this)) = 0).
  { intros H. rewrite firsts_nil by auto. auto. }
  assert (Hlong : NoDup this -> ~ incl this out -> length out < length this).
  { intros Hn Hi. destruct (Nat.ltb_spec (length out) (length this)); auto. exfalso. apply Hi.
    intros x Hx. eapply (NoDup_length_incl (l := out) (l' := this)); eauto using out_NoDup, out_incl. }
  pose proof (out_NoDup _ _ _ _ HS) as No. pose proof (out_incl _ _ _ _ HS) as Io.
  destruct (sgl_method c); cbn [singleton_case singleton_op_new] in *.
  - injection Eo as <-. cbn [singleton_summands]. rewrite Hnil; auto. rewrite Hc. apply incl_refl.
  - apply bind_Ok in Eo as (p & _ & Eo). injection Eo as <-. cbn [singleton_summands]. rewrite Hnil; auto.
    destruct Hc as (_ & Hp & _). intros x. apply Permutation_in, Permutation_sym. auto.
  - apply bind_Ok in Eo as (s & Es & Eo). injection Eo as <-. destruct Hc as (Hn & summed & Hne & Et).
    rewrite (summation_new_ok sc this out size HS) in Es.
    2:{ rewrite Et, app_length. destruct summed; [contradiction|]. simpl. lia. }
    injection Es as <-. cbn [singleton_summands adjusted_axis_list].
    rewrite Et at 1 2. rewrite app_length. replace (length out + length summed - length out) with (length summed) by lia.
    rewrite <- (map_length size summed), map_app, <- (map_length size out), axes_summands_last.
    do 2 f_equal. rewrite Et. rewrite Et in Hn. clear -Hn. rewrite firsts_distinct by auto. rewrite filter_app.
    apply NoDup_app_elim in Hn as (H1 & H2 & H3).
    assert (E1 : filter (fun c => negb (mem c out)) out = []).
    { assert (H : forall l, incl l out -> filter (fun c => negb (mem c out)) l = []).
      { induction l as [|x l IH]; intros Hl; auto. cbn [filter].
        rewrite (proj2 (mem_In x out)) by (apply Hl; left; auto). cbn [negb]. apply IH. intros y Hy. apply Hl. right; auto. }
      apply H, incl_refl. }
    rewrite E1. cbn [app].
    assert (H : forall l, (forall x, In x l -> ~ In x out) -> filter (fun c => negb (mem c out)) l = l).
    { induction l as [|x l IH]; intros Hl; auto. cbn [filter].
      rewrite (proj2 (mem_false x out)) by (apply Hl; left; auto). cbn [negb]. f_equal. apply IH. intros y Hy. apply Hl. right; auto. }
    symmetry. apply H. intros x Hx Ho. eapply H3; eauto.
  - apply bind_Ok in Eo as (p & _ & Eo). injection Eo as <-. cbn [singleton_summands]. rewrite Hnil; auto. apply Hc.
  - apply bind_Ok in Eo as (ps & Es & Eo). injection Eo as <-. destruct Hc as (Hn & Hi & _).
    destruct (perm_and_sum_new_ok sc this out size HS Hn (Hlong Hn Hi)) as (axes & Ep & HF).
    rewrite Ep in Es. injection Es as <-. cbn [fst snd singleton_summands adjusted_axis_list].
    assert (Ea : map (fun k => nth k (map size this) 0) axes = map size (out ++ filter (fun c => negb (mem c out)) this)).
    { clear -HF. induction HF as [|o k os ks H HF IH]; auto. cbn [map]. rewrite IH. f_equal.
      apply position_nth_error in H. apply nth_error_nth. rewrite nth_error_map, H. reflexivity. }
    rewrite Ea, map_app. rewrite firsts_distinct by auto.
    rewrite <- axes_summands_last, !map_length. do 3 f_equal.
    pose proof (filter_not_in_perm out this No Hn Io) as Hp. apply Permutation_length in Hp.
    rewrite app_length in Hp. lia.
  - apply bind_Ok in Eo as (ds & Es & Eo). injection Eo as <-. destruct Hc as (_ & Hi).
    unfold diag_and_sum_new, diagonalization_new in Es. rewrite (sc_op _ _ _ _ HS), (sc_out _ _ _ _ HS) in Es.
    cbn [length Nat.eqb rassert rbind] in Es. unfold index in Es. cbn [nth_error unwrap rbind] in Es.
    pose proof (diag_mapping_firsts this out) as Hd. destruct (diag_mapping out this) as [adj m]. cbn [fst] in Hd. subst adj.
    rewrite (sizes_ok sc [this] out size) in Es; auto.
    2:{ simpl. rewrite app_nil_r. intros x Hx. apply in_app_iff in Hx as [Hx|Hx]; auto. apply firsts_In in Hx. tauto. }
    cbn [rbind diag_output_shape] in Es. apply bind_Ok in Es as (n & En & Es). apply bind_Ok in Es as (s & Ess & Es).
    injection Es as <-. cbn [fst snd singleton_summands diag_output_shape].
    rewrite map_length, app_length in En. rewrite usub_ok in En by lia. injection En as <-.
    unfold summation_from_sizes in Ess. destruct (Nat.leb _ _); cbn [rassert rbind] in Ess; [|discriminate].
    injection Ess as <-. cbn [adjusted_axis_list].
    replace (length out + length (firsts out this) - length out) with (length (firsts out this)) by lia.
    rewrite map_app, <- axes_summands_last, !map_length. auto.
Qed.

Lemma own_summands_intro size this used kept : NoDup kept ->
  (forall c, In c kept <-> In c this /\ In c used) ->
  axis_sums (prod (map size kept)) (map size (firsts kept this)) = own_summands size this used.
Proof.
  intros Hn Hk. unfold own_summands. f_equal.
  - apply prod_same; auto; [apply NoDup_filter, NoDup_nodup|]. intros c. rewrite Hk, filter_In, nodup_In, existsb_mem, mem_In. tauto.
  - f_equal. apply firsts_ext. intros c Hc. rewrite Hk. tauto.
Qed.

Section Step.
Variables (h : hash_order) (size : char -> nat).
Hypothesis Hh : hash_ok h.

Lemma simplification_summands_ok k this other out orig ops o s :
  sized orig ops o size -> incl this (concat ops) ->
  simplification_from h k this other out orig = Ok s ->
  simplification_summands s (map size this) = own_summands size this (other ++ out).
Proof.
  intros HS Hi E.
  destruct (simplification_plan_ok h Hh k this other out orig ops o size s HS Hi E) as (Hn & Hk & Hs).
  rewrite <- (own_summands_intro size this (other ++ out) (new_labels s this) Hn Hk).
  destruct s as [s|]; cbn [new_labels simplification_summands] in *.
  2:{ rewrite firsts_nil by apply incl_refl. auto. }
  revert E. unfold simplification_from. cbv zeta.
  set (desired := filter _ (distinct this)). set (new := h (0 :: k) desired).
  destruct (subset h (1 :: k) orig [this] new) as [ssc| |] eqn:Es; try discriminate. cbn [unwrap_res rbind].
  destruct (singleton_contraction_new ssc) as [c| |] eqn:Ec; try discriminate. cbn [rbind]. intros E.
  assert (Enew : simpl_new_indices s = new /\ simpl_op s = sgl_op c).
  { destruct (sgl_method c); try discriminate; apply bind_Ok in E as (str & _ & E); injection E as <-; auto. }
  destruct Enew as [Enew Eop]. rewrite Enew, Eop in *.
  destruct (subset_ok h (1 :: k) orig ops o size [this] new Hh HS) as (ssc' & Es' & HSs).
  { simpl. rewrite app_nil_r. auto. }
  { split; auto. simpl. rewrite app_nil_r. intros x Hx. apply Hk in Hx. tauto. }
  assert (ssc' = ssc) by congruence. subst ssc'.
  apply (singleton_summands_ok ssc this new size c HSs Ec).
Qed.

Lemma tg_new_products sc lhs rhs out t : sized sc [lhs; rhs] out size -> simplified lhs rhs out ->
  (forall c, In c lhs -> In c rhs -> ~ In c out) -> tg_new sc = Ok t ->
  tfp_products (tg_fixed t) = pair_products size lhs rhs out.
Proof.
  intros HS [Hl Hr Ho Hi Ul Ur] Hns. unfold tg_new.
  rewrite (sc_ops2 sc lhs rhs out size HS), ?(sc_out2 sc lhs rhs out size HS).
  cbn [length Nat.eqb rassert rbind]. unfold index. cbn [nth_error unwrap rbind].
  rewrite !(sizes2 sc lhs rhs out size HS) by (intros c Hc; apply in_or_app; auto). cbn [rbind].
  unfold tg_from_indices. set (C := summation_indices (sc_contraction sc)).
  assert (IC : forall c, In c C <-> (In c lhs \/ In c rhs) /\ ~ In c out) by (eapply sc_sum2; eauto).
  assert (NC : NoDup C) by (eapply sc_sum2_NoDup; eauto).
  assert (ICl : incl C lhs).
  { intros c Hc. apply IC in Hc as [[H|H] Hn]; auto. destruct (Ur c H); tauto. }
  assert (ICr : incl C rhs).
  { intros c Hc. apply IC in Hc as [[H|H] Hn]; auto. destruct (Ul c H); tauto. }
  destruct (find_ok C lhs) as (la & E1 & F1); auto.
  destruct (find_ok C rhs) as (ra & E2 & F2); auto.
  rewrite E1, E2. cbn [rbind]. destruct (find_outputs_in_inputs_unique out _) as [order| |]; cbn [rbind]; try discriminate.
  destruct (tg_from_axes_ok size lhs rhs C la ra order Hl Hr NC F1 F2) as (pl & pr & Et & _). rewrite Et.
  intros [= <-]. cbn [tg_fixed]. unfold tfp_products, tfp_for, pair_products.
  cbn [len_uncontracted_lhs len_uncontracted_rhs len_contracted_axes].
  set (U := filter (fun c => negb (mem c C)) lhs). set (V := filter (fun c => negb (mem c C)) rhs).
  assert (IU : forall c, In c U <-> In c lhs /\ In c out).
  { intros c. unfold U. rewrite filter_In, negb_true_iff, mem_false, IC. specialize (Ul c).
    destruct (in_dec N.eq_dec c out); tauto. }
  assert (IV : forall c, In c V <-> In c rhs /\ In c out).
  { intros c. unfold V. rewrite filter_In, negb_true_iff, mem_false, IC. specialize (Ur c).
    destruct (in_dec N.eq_dec c out); tauto. }
  replace (prod (map size out)) with (prod (map size (U ++ V))).
  2:{ apply prod_same; auto.
      - apply NoDup_app_intro; try (apply NoDup_filter; auto). intros c. rewrite IU, IV. specialize (Hns c). tauto.
      - intros c. rewrite in_app_iff, IU, IV. specialize (Hi c). rewrite in_app_iff in Hi. tauto. }
  rewrite map_app, prod_app.
  replace (prod (map size (filter _ (nodup N.eq_dec lhs)))) with (prod (map size C)); [lia|].
  apply prod_same; auto; [apply NoDup_filter, NoDup_nodup|].
  intros c. rewrite IC, filter_In, nodup_In, andb_true_iff, negb_true_iff, !existsb_mem, mem_In, mem_false.
  specialize (Ul c). specialize (Ur c). tauto.
Qed.

Lemma stacked_new_products sc lhs rhs out s : sized sc [lhs; rhs] out size -> simplified lhs rhs out ->
  stacked_new sc = Ok s ->
  nth 0 (st_intermediate_shape s) 0 * tfp_products (st_fixed s) = pair_products size lhs rhs out.
Proof.
  intros HS [Nl Nr No Hi Ul Ur]. unfold stacked_new.
  pose proof HS as (Ec & _ & _). rewrite Ec.
  cbn [contraction_of operand_indices output_indices length Nat.eqb rassert rbind].
  unfold index. cbn [nth_error unwrap rbind].
  rewrite !maybe_find_ok by auto. cbn [rbind].
  assert (Hout : forall c, In c out -> In c lhs \/ In c rhs) by (intros c Hc; apply in_app_iff, Hi; auto).
  set (S := filter (both lhs rhs) out). set (U := filter (only lhs rhs) out). set (V := filter (only rhs lhs) out).
  set (C := filter (fun c => negb (mem c out)) lhs).
  rewrite (stack_fold sc lhs rhs out size HS out) by auto. fold S U V. cbn [rbind].
  rewrite (contracted_fold sc lhs rhs out size HS out).
  2:{ intros [i c] Hic. apply in_combine_r in Hic. cbn [snd]. auto. }
  set (X := filter (fun ic => negb (mem (snd ic) out)) (combine (seq 0 (length lhs)) lhs)).
  assert (XC : map snd X = C).
  { unfold X, C. clear. generalize 0. induction lhs as [|c l IH]; intros k; auto.
    cbn [length seq combine filter snd]. destruct (negb (mem c out)); cbn [map snd]; rewrite IH; auto. }
  assert (XS : map (fun ic => size (snd ic)) X = map size C) by (rewrite <- XC, map_map; auto).
  rewrite XS. cbn [app rbind sa_lhs_stack_axes sa_rhs_stack_axes sa_stack_indices
    sa_lhs_outer_axes sa_lhs_outer_indices sa_rhs_outer_axes sa_rhs_outer_indices
    sa_lhs_uncontracted_shape sa_rhs_uncontracted_shape sa_lhs_stack_len sa_rhs_stack_len skipn].
  assert (IS : forall c, In c S <-> In c out /\ In c lhs /\ In c rhs).
  { intros c. unfold S, both. rewrite filter_In, andb_true_iff, !mem_In. tauto. }
  assert (IU : forall c, In c U <-> In c out /\ In c lhs /\ ~ In c rhs).
  { intros c. unfold U, only. rewrite filter_In, andb_true_iff, negb_true_iff, mem_In, mem_false. tauto. }
  assert (IV : forall c, In c V <-> In c out /\ In c rhs /\ ~ In c lhs).
  { intros c. unfold V, only. rewrite filter_In, andb_true_iff, negb_true_iff, mem_In, mem_false. tauto. }
  assert (IC : forall c, In c C <-> In c lhs /\ ~ In c out).
  { intros c. unfold C. rewrite filter_In, negb_true_iff, mem_false. tauto. }
  rewrite Nat.mul_1_l, Nat.eqb_refl. cbn [rassert rbind].
  rewrite (sizes2 sc lhs rhs out size HS U) by (intros c Hc; apply IU in Hc; apply in_or_app; tauto).
  rewrite (sizes2 sc lhs rhs out size HS V) by (intros c Hc; apply IV in Hc; apply in_or_app; tauto). cbn [rbind].
  destruct (find_outputs_in_inputs_unique _ _); cbn [rbind]; try discriminate.
  rewrite (sizes2 sc lhs rhs out size HS (S ++ U ++ V)).
  2:{ intros c. rewrite !in_app_iff, IS, IU, IV. tauto. }
  cbn [rbind].
  destruct (tfp_from_shapes _ _ _) as [f| |] eqn:E; cbn [rbind]; try discriminate.
  intros [= <-].
  assert (Lx : length (map fst X) = length (map size C))
    by (rewrite !map_length, <- XC, map_length; auto).
  rewrite Lx, tfp_from_shapes_ok in E. injection E as <-.
  cbn [st_intermediate_shape st_fixed nth]. unfold tfp_products, tfp_for, pair_products.
  cbn [len_uncontracted_lhs len_uncontracted_rhs len_contracted_axes].
  replace (prod (map size out)) with (prod (map size (S ++ U ++ V))).
  2:{ apply prod_same; auto.
      - repeat apply NoDup_app_intro; try (apply NoDup_filter; auto); intros c; rewrite ?in_app_iff, ?IS, ?IU, ?IV; tauto.
      - intros c. rewrite !in_app_iff, IS, IU, IV. specialize (Hout c).
        destruct (in_dec N.eq_dec c lhs), (in_dec N.eq_dec c rhs); tauto. }
  rewrite !map_app, !prod_app.
  replace (prod (map size (filter _ (nodup N.eq_dec lhs)))) with (prod (map size C)); [lia|].
  apply prod_same; [apply NoDup_filter; auto|apply NoDup_filter, NoDup_nodup|].
  intros c. rewrite IC, filter_In, nodup_In, andb_true_iff, negb_true_iff, !existsb_mem, mem_In, mem_false.
  specialize (Ul c). tauto.
Qed.

Lemma pair_op_products sc lhs rhs out sm op : sized sc [lhs; rhs] out size -> simplified lhs rhs out ->
  pair_summary_new sc = Ok sm -> pair_op_new (pair_strategy sm) sc = Ok op ->
  op_products op (prod (map size out)) = pair_products size lhs rhs out.
Proof.
  intros HS Hs Esm Eo. pose proof (proj1 (pair_method_plan sc lhs rhs out size sm HS Hs Esm _) eq_refl) as Hc.
  assert (Hno : (forall c, In c lhs -> In c rhs -> In c out) -> prod (map size out) = pair_products size lhs rhs out).
  { intros H. unfold pair_products.
    assert (E : filter (fun c => existsb (N.eqb c) rhs && negb (existsb (N.eqb c) out)) (nodup N.eq_dec lhs) = []).
    { destruct (filter _ _) as [|c l] eqn:E; auto. assert (Hx : In c (c :: l)) by (left; auto). rewrite <- E in Hx.
      apply filter_In in Hx as [H1 H2]. rewrite nodup_In in H1.
      rewrite andb_true_iff, negb_true_iff, !existsb_mem, mem_In, mem_false in H2. exfalso. apply H2, H; tauto. }
    rewrite E. cbn. lia. }
  destruct (pair_strategy sm); cbn [pair_case pair_op_new] in *; try contradiction;
    apply bind_Ok in Eo as (x & Ex & Eo); injection Eo as <-; cbn [op_products].
  - apply Hno. intros c H _. destruct Hc as [Hp _]. apply (Permutation_in _ Hp). auto.
  - apply (tg_new_products sc lhs rhs out x HS Hs); auto. intros c H1 H2 H3. apply (proj2 (proj2 Hc)). eauto.
  - apply Hno. intros c. destruct Hc as [-> _]. intros [].
  - apply Hno. intros c _. destruct Hc as [-> _]. intros [].
  - apply (stacked_new_products sc lhs rhs out x HS Hs); auto.
Qed.

Lemma step_products k sc lhs rhs out p : sized sc [lhs; rhs] out size -> pair_contraction_new h k sc = Ok p ->
  op_products (pc_op p) (prod (map size out)) = pair_products size lhs rhs out
  /\ simplification_summands (pc_lhs_simplification p) (map size lhs) = own_summands size lhs (rhs ++ out)
  /\ simplification_summands (pc_rhs_simplification p) (map size rhs) = own_summands size rhs (lhs ++ out).
Proof.
  intros HS. unfold pair_contraction_new.
  rewrite (sc_ops2 sc lhs rhs out size HS), (sc_out2 sc lhs rhs out size HS).
  cbn [length Nat.eqb rassert rbind]. unfold index. cbn [nth_error unwrap rbind].
  assert (I1 : incl lhs (concat [lhs; rhs])) by (simpl; intros c Hc; apply in_or_app; auto).
  assert (I2 : incl rhs (concat [lhs; rhs])) by (simpl; rewrite app_nil_r; intros c Hc; apply in_or_app; auto).
  destruct (simplification_from h (0 :: k) lhs rhs out sc) as [ls| |] eqn:El; try discriminate. cbn [rbind].
  destruct (simplification_from h (1 :: k) rhs lhs out sc) as [rs| |] eqn:Er; try discriminate. cbn [rbind].
  fold (new_labels ls lhs) (new_labels rs rhs).
  pose proof (simplification_summands_ok _ _ _ _ _ _ _ _ HS I1 El) as F1.
  pose proof (simplification_summands_ok _ _ _ _ _ _ _ _ HS I2 Er) as F2.
  apply (simplification_plan_ok h Hh _ _ _ _ _ [lhs; rhs] out size) in El; auto.
  apply (simplification_plan_ok h Hh _ _ _ _ _ [lhs; rhs] out size) in Er; auto.
  set (l' := new_labels ls lhs) in *. set (r' := new_labels rs rhs) in *.
  pose proof El as (Nl & Il & _). pose proof Er as (Nr & Ir & _).
  pose proof HS as (_ & [Ho Hi] & _). simpl in Hi. rewrite app_nil_r in Hi.
  assert (Il' : forall c, In c l' <-> In c lhs /\ (In c rhs \/ In c out)) by (intros c; rewrite Il, in_app_iff; tauto).
  assert (Ir' : forall c, In c r' <-> In c rhs /\ (In c lhs \/ In c out)) by (intros c; rewrite Ir, in_app_iff; tauto).
  destruct (subset_ok h (2 :: k) sc [lhs; rhs] out size [l'; r'] out Hh HS) as (red & Es & HSr).
  { simpl. rewrite !app_nil_r. intros c Hc. apply in_app_iff in Hc. apply in_app_iff.
    rewrite Il', Ir' in Hc. tauto. }
  { split; auto. simpl. rewrite app_nil_r. intros c Hc. specialize (Hi c Hc).
    rewrite in_app_iff in Hi. apply in_app_iff. rewrite Il', Ir'. tauto. }
  rewrite Es. cbn [unwrap_res rbind].
  assert (Hs : simplified l' r' out).
  { split; auto.
    - intros c Hc. specialize (Hi c Hc). rewrite in_app_iff in *. rewrite Il', Ir'. tauto.
    - intros c. rewrite Il', Ir'. tauto.
    - intros c. rewrite Il', Ir'. tauto. }
  destruct (pair_summary_new red) as [s| |] eqn:Esm; try discriminate. cbn [rbind].
  destruct (pair_op_new (pair_strategy s) red) as [op| |] eqn:Eo; try discriminate. cbn [rbind].
  intros H. apply bind_Ok in H as (str & _ & H). injection H as <-.
  cbn [pc_lhs_simplification pc_rhs_simplification pc_op]. split; auto.
  rewrite (pair_op_products red l' r' out s op HSr Hs Esm Eo). unfold pair_products. f_equal.
  apply prod_same; try (apply NoDup_filter, NoDup_nodup).
  intros c. rewrite !filter_In, !nodup_In, !andb_true_iff, !negb_true_iff, !existsb_mem, !mem_In, !mem_false, Il', Ir'. tauto.
Qed.

End Step.
