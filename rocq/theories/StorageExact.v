(** Exactly how much storage calls with one operand, steps and [tensordot] hold. *)
From Verif Require Import Base BaseFacts NDArray Validation Optimizers Strategies Singleton Pair Path Api Spec
  ValidationFacts ValidationMain SumFacts ArrayFacts TensordotFacts DiagFacts SingletonFacts PairFacts StackedFacts
  PairMain PathFacts PathShape ReproFacts PlanFacts TensordotMain EinsumMain MisuseFacts HandFacts OverflowFacts LimitsFacts
  LimitsMain WorkFacts WorkMain CompileFacts ProgramFacts OrderCostFacts Storage StorageFacts StorageMain.
From Coq Require Import Lia Sorted.

(** ** The specification *)

(** Summing away the axes of lengths [lens], the first one first, of an owned array with [v] elements
    along the other axes: each new array is made beside the one it replaces. *)
Fixpoint owned_sums (v : nat) (lens : list nat) : nat :=
  match lens with
  | [] => v
  | _ :: lens' => Nat.max (v * prod lens + v * prod lens') (owned_sums v lens')
  end.

(** The same if the array is someone else's. *)
Definition borrowed_sums (v : nat) (lens : list nat) : nat :=
  match lens with [] => 0 | _ :: lens' => owned_sums v lens' end.

Definition repeats (this : list char) : bool := negb (Nat.eqb (length (nodup N.eq_dec this)) (length this)).

(** One operand with labels [this] of which those of [used] stay. [direct]: its diagonal can be taken in
    place. *)
Definition single_peak (direct : bool) (size : char -> nat) (this used : list char) : nat :=
  let n := prod (map size this) in
  let kept := prod (map size (filter (fun c => existsb (N.eqb c) used) (nodup N.eq_dec this))) in
  let summed := map size (firsts used this) in
  match repeats this, summed with
  | false, [] => n
  | false, _ => borrowed_sums kept summed
  | true, [] => n + kept
  | true, _ => if direct then borrowed_sums kept summed
               else kept * prod summed + Nat.max n (borrowed_sums kept summed)
  end.

(** Axes with lengths and steps are in row-major order without gaps. *)
Fixpoint row_major (axes : list (nat * Z)) : bool :=
  match axes with
  | [] => true
  | (d, s) :: rest => (Nat.eqb d 1 || Z.eqb s (Z.of_nat (prod (map fst rest)))) && row_major rest
  end.

(** The elements copied before an array can be read with its axes in this order. *)
Definition copy_of (axes : list (nat * Z)) : nat :=
  if existsb (fun ax => Nat.eqb (fst ax) 0) axes || row_major axes then 0 else prod (map fst axes).

(** The axes of [a] in the order [order]. *)
Definition axes_at {A} (a : arr A) (order : list nat) : list (nat * Z) :=
  map (fun k => (nth k (a_shape a) 0, nth k (a_strides a) 0%Z)) order.

(** The axes of [a], whose labels are [this], in the order [order]. *)
Definition axes_of {A} (a : arr A) (this order : list char) : list (nat * Z) :=
  axes_at a (map (fun c => match position c this with Some k => k | None => 0 end) order).

(** ** One operand *)

Lemma repeats_false this : repeats this = false <-> NoDup this.
Proof.
  unfold repeats. rewrite negb_false_iff, Nat.eqb_eq. split.
  - assert (H : forall l : list char, length (nodup N.eq_dec l) <= length l).
    { induction l as [|x l IH]; simpl; auto. destruct (in_dec N.eq_dec x l); simpl; lia. }
    induction this as [|c l IH]; intros E; [constructor|]. simpl in E. destruct (in_dec N.eq_dec c l) as [Hc|Hc].
    + specialize (H l). lia.
    + constructor; [auto|]. apply IH. simpl in E. lia.
  - intros H. rewrite nodup_fixed_point; auto.
Qed.

Lemma repeats_true this : repeats this = true <-> ~ NoDup this.
Proof. rewrite <- repeats_false. destruct (repeats this); split; congruence. Qed.

Lemma sums_storage_last os es :
  sums_storage (os ++ es) (map (fun _ => length os) (seq 0 (length es))) = owned_sums (prod os) es.
Proof.
  induction es as [|d es IH]; [cbn; rewrite app_nil_r; auto|]. cbn [length]. rewrite <- cons_seq, <- seq_shift, map_cons, map_map.
  cbn [sums_storage owned_sums]. rewrite remove_nth_app, IH, !prod_app. auto.
Qed.

Lemma summation_storage_last os es :
  summation_storage (os ++ es) (map (fun _ => length os) (seq 0 (length es))) = borrowed_sums (prod os) es.
Proof.
  destruct es as [|d es]; auto. cbn [length]. rewrite <- cons_seq, <- seq_shift, map_cons, map_map.
  cbn [summation_storage borrowed_sums]. rewrite remove_nth_app, sums_storage_last. auto.
Qed.

Lemma nonempty_case {T U} (l : list T) (x y : U) d ds : l = d :: ds -> match l with [] => x | _ :: _ => y end = y.
Proof. intros ->. reflexivity. Qed.

Section Single.
Context {A : Type} {Sc : Scalar A}.

Lemma singleton_storage_ok sc this out size c (a : arr A) : sized sc [this] out size ->
  singleton_contraction_new sc = Ok c -> a_shape a = map size this ->
  singleton_storage (sgl_op c) a = single_peak (diagonal_direct a) size this out.
Proof.
  intros HS E Sa. destruct (singleton_plan sc this out size c HS E) as [Hm Ht].
  pose proof (proj1 (Hm _) eq_refl) as Hc. clear Hm.
  assert (Eo : singleton_op_new (sgl_method c) sc = Ok (sgl_op c)).
  { unfold singleton_contraction_new in E. apply bind_Ok in E as (s & _ & E). apply bind_Ok in E as (op & Eo & E).
    injection E as <-. exact Eo. }
  pose proof (out_NoDup _ _ _ _ HS) as No. pose proof (out_incl _ _ _ _ HS) as Io.
  assert (Hlong : NoDup this -> ~ incl this out -> length out < length this).
  { intros Hn Hi. destruct (Nat.ltb_spec (length out) (length this)); auto. exfalso. apply Hi.
    intros x Hx. eapply (NoDup_length_incl (l := out) (l' := this)); eauto. }
  assert (Ek : prod (map size (filter (fun c => existsb (N.eqb c) out) (nodup N.eq_dec this))) = prod (map size out)).
  { apply prod_same; auto; [apply NoDup_filter, NoDup_nodup|]. intros x. rewrite filter_In, nodup_In, existsb_mem, mem_In.
    specialize (Io x). tauto. }
  assert (Ea : elements a = prod (map size this)) by (unfold elements; rewrite Sa; auto).
  unfold single_peak. cbv zeta. rewrite Ek.
  assert (Hne : ~ incl this out -> exists d ds, map size (firsts out this) = d :: ds).
  { intros Hi. destruct (firsts out this) as [|d ds] eqn:Ef; cbn [map]; eauto. exfalso. apply Hi. intros x Hx.
    destruct (in_dec N.eq_dec x out) as [|Hx']; auto. pose proof (proj2 (firsts_In this out x) (conj Hx Hx')) as H.
    rewrite Ef in H. contradiction. }
  destruct (sgl_method c); cbn [singleton_case singleton_op_new] in *.
  - injection Eo as <-. cbn [singleton_storage]. rewrite (proj2 (repeats_false this)) by (rewrite <- Hc; auto).
    rewrite firsts_nil by (rewrite Hc; apply incl_refl). exact Ea.
  - apply bind_Ok in Eo as (p & _ & Eo). injection Eo as <-. cbn [singleton_storage]. destruct Hc as (Hn & Hp & _).
    rewrite (proj2 (repeats_false this)) by auto.
    rewrite firsts_nil by (intros x; apply Permutation_in, Permutation_sym; auto). exact Ea.
  - apply bind_Ok in Eo as (s & Es & Eo). injection Eo as <-. destruct Hc as (Hn & summed & Hs & Et).
    rewrite (summation_new_ok sc this out size HS) in Es.
    2:{ rewrite Et, app_length. destruct summed; [contradiction|]. simpl. lia. }
    injection Es as <-. cbn [singleton_storage adjusted_axis_list]. rewrite Sa, (proj2 (repeats_false this)) by auto.
    assert (Ef : firsts out this = summed).
    { rewrite Et. rewrite Et in Hn. clear -Hn. rewrite firsts_distinct by auto. rewrite filter_app.
      apply NoDup_app_elim in Hn as (H1 & H2 & H3).
      assert (E1 : forall l, incl l out -> filter (fun c => negb (mem c out)) l = []).
      { induction l as [|x l IH]; intros Hl; auto. cbn [filter].
        rewrite (proj2 (mem_In x out)) by (apply Hl; left; auto). cbn [negb]. apply IH. intros y Hy. apply Hl. right; auto. }
      rewrite E1 by apply incl_refl. cbn [app].
      assert (H : forall l, (forall x, In x l -> ~ In x out) -> filter (fun c => negb (mem c out)) l = l).
      { induction l as [|x l IH]; intros Hl; auto. cbn [filter].
        rewrite (proj2 (mem_false x out)) by (apply Hl; left; auto). cbn [negb]. f_equal. apply IH. intros y Hy. apply Hl. right; auto. }
      apply H. intros x Hx Ho. eapply H3; eauto. }
    rewrite Ef. destruct summed as [|d ds]; [contradiction|]. cbn [map]. change (size d :: map size ds) with (map size (d :: ds)).
    rewrite Et at 1 2. rewrite app_length. replace (length out + length (d :: ds) - length out) with (length (d :: ds)) by lia.
    rewrite <- (map_length size (d :: ds)), map_app, <- (map_length size out), summation_storage_last. reflexivity.
  - apply bind_Ok in Eo as (d & Ed & Eo). injection Eo as <-. destruct Hc as (Hn & Hi).
    cbn [singleton_storage]. rewrite (proj2 (repeats_true this)) by auto. rewrite firsts_nil by auto. cbn [map].
    unfold diagonalization_new in Ed. rewrite (sc_op _ _ _ _ HS), (sc_out _ _ _ _ HS) in Ed.
    cbn [length Nat.eqb rassert rbind] in Ed. unfold index in Ed. cbn [nth_error unwrap rbind] in Ed.
    pose proof (diag_mapping_firsts this out) as Hd. destruct (diag_mapping out this) as [adj m]. cbn [fst] in Hd. subst adj.
    rewrite firsts_nil, app_nil_r in Ed by auto.
    rewrite (sizes_ok sc [this] out size) in Ed; auto. 2:{ simpl. rewrite app_nil_r. auto. }
    cbn [rbind] in Ed. injection Ed as <-. cbn [diag_output_shape]. rewrite Ea. reflexivity.
  - apply bind_Ok in Eo as (ps & Es & Eo). injection Eo as <-. destruct Hc as (Hn & Hi & _).
    destruct (perm_and_sum_new_ok sc this out size HS Hn (Hlong Hn Hi)) as (axes & Ep & HF).
    rewrite Ep in Es. injection Es as <-. cbn [fst snd singleton_storage adjusted_axis_list permuted a_shape].
    rewrite Sa, (proj2 (repeats_false this)) by auto.
    assert (Eax : map (fun k => nth k (map size this) 0) axes = map size (out ++ filter (fun c => negb (mem c out)) this)).
    { clear -HF. induction HF as [|o k os ks H HF IH]; auto. cbn [map]. rewrite IH. f_equal.
      apply position_nth_error in H. apply nth_error_nth. rewrite nth_error_map, H. reflexivity. }
    rewrite Eax, map_app. rewrite <- firsts_distinct by auto.
    destruct (Hne Hi) as (d & ds & Ed). rewrite (nonempty_case _ _ _ _ _ Ed).
    rewrite <- summation_storage_last, !map_length. do 3 f_equal.
    pose proof (filter_not_in_perm out this No Hn Io) as Hp. apply Permutation_length in Hp.
    rewrite app_length in Hp. rewrite firsts_distinct by auto. lia.
  - apply bind_Ok in Eo as (ds & Es & Eo). injection Eo as <-. destruct Hc as (Hn & Hi).
    rewrite (proj2 (repeats_true this)) by auto. destruct (Hne Hi) as (d0 & ds0 & Ed0). rewrite (nonempty_case _ _ _ _ _ Ed0).
    unfold diag_and_sum_new, diagonalization_new in Es. rewrite (sc_op _ _ _ _ HS), (sc_out _ _ _ _ HS) in Es.
    cbn [length Nat.eqb rassert rbind] in Es. unfold index in Es. cbn [nth_error unwrap rbind] in Es.
    pose proof (diag_mapping_firsts this out) as Hd. destruct (diag_mapping out this) as [adj m]. cbn [fst] in Hd. subst adj.
    rewrite (sizes_ok sc [this] out size) in Es; auto.
    2:{ simpl. rewrite app_nil_r. intros x Hx. apply in_app_iff in Hx as [Hx|Hx]; auto. apply firsts_In in Hx. tauto. }
    cbn [rbind diag_output_shape] in Es. apply bind_Ok in Es as (n & En & Es). apply bind_Ok in Es as (s & Ess & Es).
    injection Es as <-. cbn [fst snd singleton_storage diag_output_shape].
    rewrite map_length, app_length in En. rewrite usub_ok in En by lia. injection En as <-.
    unfold summation_from_sizes in Ess. destruct (Nat.leb _ _); cbn [rassert rbind] in Ess; [|discriminate].
    injection Ess as <-. cbn [adjusted_axis_list].
    replace (length out + length (firsts out this) - length out) with (length (firsts out this)) by lia.
    cbv zeta. rewrite map_app, <- summation_storage_last, !map_length, prod_app, Ea. reflexivity.
Qed.

Lemma single_peak_ext direct size this used used' : (forall c, In c this -> In c used <-> In c used') ->
  single_peak direct size this used = single_peak direct size this used'.
Proof.
  intros H. unfold single_peak. rewrite (firsts_ext this used used' H).
  replace (filter (fun c => existsb (N.eqb c) used) (nodup N.eq_dec this))
    with (filter (fun c => existsb (N.eqb c) used') (nodup N.eq_dec this)); auto.
  apply filter_ext_in. intros c Hc. apply nodup_In in Hc. rewrite !existsb_mem. apply eq_true_iff_eq.
  rewrite !mem_In. symmetry. apply H. auto.
Qed.

End Single.

(** ** Copies *)

Section Copies.
Context {A : Type}.

Lemma row_major_ok sh : forall strides, length sh = length strides ->
  layout_c_rev 1 (rev sh) (rev strides) = row_major (combine sh strides).
Proof.
  induction sh as [|d sh IH]; intros [|s strides] El; try discriminate El; auto. injection El as El.
  cbn [rev combine row_major]. rewrite layout_c_rev_app by (rewrite !rev_length; auto).
  rewrite IH by auto. rewrite prod_rev, Z.mul_1_l. cbn [layout_c_rev].
  assert (Ef : map fst (combine sh strides) = sh).
  { clear -El. revert strides El. induction sh as [|d sh IH]; intros [|s st] El; try discriminate El; auto.
    cbn. f_equal. apply IH. auto. }
  rewrite Ef, andb_comm. destruct (Nat.eqb d 1); cbn [orb]; auto.
  destruct (Z.eqb s _); auto.
Qed.

Lemma copied_axes (v : arr A) : length (a_shape v) = length (a_strides v) ->
  copied v = copy_of (combine (a_shape v) (a_strides v)).
Proof.
  intros El. unfold copied, copy_of, is_standard_layout, elements. rewrite (row_major_ok _ _ El).
  assert (Ef : map fst (combine (a_shape v) (a_strides v)) = a_shape v).
  { revert El. generalize (a_strides v). induction (a_shape v) as [|d sh IH]; intros [|s st] El; try discriminate El; auto.
    cbn. f_equal. apply IH. auto. }
  assert (Ee : is_empty_shape (a_shape v) = existsb (fun ax => Nat.eqb (fst ax) 0) (combine (a_shape v) (a_strides v))).
  { unfold is_empty_shape. rewrite <- Ef at 1. generalize (combine (a_shape v) (a_strides v)).
    induction l as [|x l IH]; auto. cbn [map existsb]. rewrite IH, Nat.eqb_sym. auto. }
  rewrite Ee, Ef. auto.
Qed.

Lemma copied_permuted (a : arr A) p : copied (permuted p a) = copy_of (axes_at a p).
Proof.
  rewrite copied_axes by (unfold permuted; cbn [a_shape a_strides]; rewrite !map_length; auto).
  f_equal. unfold permuted, axes_at. cbn [a_shape a_strides].
  induction p as [|k p IH]; auto. cbn. f_equal. auto.
Qed.

Lemma axes_of_positions (a : arr A) this order p : Forall2 (fun o k => position o this = Some k) order p ->
  axes_at a p = axes_of a this order.
Proof.
  intros H. unfold axes_of. f_equal. induction H as [|o k os ks H HF IH]; auto. cbn. rewrite H, IH. auto.
Qed.

End Copies.

(** ** Steps *)

(** The labels of [this] that are used later, once each. *)
Definition kept_labels (this used : list char) : list char :=
  filter (fun c => existsb (N.eqb c) used) (nodup N.eq_dec this).

(** What an operand of a step takes before the product, and what of it is left: nothing if it is used as
    it is. *)
Definition prepared_peak (direct : bool) (size : char -> nat) (this used : list char) : nat :=
  if settled this used then 0 else single_peak direct size this used.
Definition prepared_held (size : char -> nat) (this used : list char) : nat :=
  if settled this used then 0 else prod (map size (kept_labels this used)).

(** The labels of [this] outside [others]. *)
Definition besides (others this : list char) : list char := filter (fun c => negb (existsb (N.eqb c) others)) this.

Section Step.
Variables (h : hash_order) (size : char -> nat).
Hypothesis Hh : hash_ok h.
Context {A : Type} {Sc : Scalar A}.
Variable lay : backend A.
Hypothesis Hlay : backend_runs lay.

Lemma kept_labels_In c this used : In c (kept_labels this used) <-> In c this /\ In c used.
Proof. unfold kept_labels. rewrite filter_In, nodup_In, existsb_mem, mem_In. tauto. Qed.

Lemma kept_labels_NoDup this used : NoDup (kept_labels this used).
Proof. apply NoDup_filter, NoDup_nodup. Qed.

Lemma plan_kept s this used kept : simplification_plan s this used kept -> Permutation kept (kept_labels this used).
Proof.
  intros (H1 & H2 & _). apply NoDup_Permutation; auto using kept_labels_NoDup.
  intros c. rewrite H2, kept_labels_In. tauto.
Qed.

Lemma prepared_ok k this other out orig ops o s (a a' : arr A) :
  sized orig ops o size -> incl this (concat ops) ->
  simplification_from h k this other out orig = Ok s -> wf a -> a_shape a = map size this ->
  run_simplification lay s a = Ok a' ->
  simplification_storage s a = prepared_peak (diagonal_direct a) size this (other ++ out)
  /\ simplification_held s a' = prepared_held size this (other ++ out)
  /\ elements a' = prod (map size (kept_labels this (other ++ out))).
Proof.
  intros HS Hi E Wa Sa Hr.
  pose proof (simplification_plan_ok h Hh k this other out orig ops o size s HS Hi E) as Hp.
  pose proof (weight_settled _ _ _ _ Hp) as Hw.
  assert (Ee : elements a' = prod (map size (kept_labels this (other ++ out)))).
  { destruct (simplification_ok h size Hh lay Hlay k this other out orig ops o HS Hi) as (s' & E' & _ & _ & Hs).
    assert (s' = s) by congruence. subst s'.
    destruct (Hs a _ Wa (lrep_wf size a this Wa Sa)) as [[Ex _]|(_ & r & cs & Ex & _ & _ & G & (Sr & _) & _)];
      rewrite Ex in Hr; [discriminate|]. injection Hr as ->.
    unfold elements. rewrite Sr. apply prod_perm, Permutation_map. apply (plan_kept s). auto. }
  split; [|split; auto].
  - unfold prepared_peak. destruct s as [s|]; cbn [weight simplification_storage] in *.
    2:{ destruct (settled this (other ++ out)); auto; discriminate. }
    destruct (settled this (other ++ out)); [discriminate|].
    destruct Hp as (Hn & Hk & Hs). cbn [new_labels] in *.
    revert E. unfold simplification_from. cbv zeta.
    set (desired := filter _ (distinct this)). set (new := h (0 :: k) desired).
    destruct (subset h (1 :: k) orig [this] new) as [ssc| |] eqn:Es; try discriminate. cbn [unwrap_res rbind].
    destruct (singleton_contraction_new ssc) as [c| |] eqn:Ec; try discriminate. cbn [rbind]. intros E.
    assert (Enew : simpl_new_indices s = new /\ simpl_op s = sgl_op c).
    { destruct (sgl_method c); try discriminate; apply bind_Ok in E as (str & _ & E); injection E as <-; auto. }
    destruct Enew as [Enew Eop]. rewrite Enew in *. rewrite Eop.
    destruct (subset_ok h (1 :: k) orig ops o size [this] new Hh HS) as (ssc' & Es' & HSs).
    { simpl. rewrite app_nil_r. auto. }
    { split; auto. simpl. rewrite app_nil_r. intros x Hx. apply Hk in Hx. tauto. }
    assert (ssc' = ssc) by congruence. subst ssc'.
    rewrite (singleton_storage_ok ssc this new size c a HSs Ec Sa).
    apply single_peak_ext. intros x Hx. rewrite Hk. tauto.
  - unfold prepared_held. destruct s as [s|]; cbn [weight simplification_held] in *;
      destruct (settled this (other ++ out)); auto; discriminate.
Qed.

(** How a tensordot reads its operands. *)
Lemma tg_new_axes sc lhs rhs out t C : sized sc [lhs; rhs] out size -> simplified lhs rhs out ->
  StronglySorted N.lt C -> (forall c, In c C <-> In c lhs /\ In c rhs /\ ~ In c out) ->
  tg_new sc = Ok t ->
  Forall2 (fun o k => position o lhs = Some k) (besides C lhs ++ C) (tg_lhs_permutation t)
  /\ Forall2 (fun o k => position o rhs = Some k) (C ++ besides C rhs) (tg_rhs_permutation t).
Proof.
  intros HS [Hl Hr Ho Hi Ul Ur] SC HC. unfold tg_new.
  rewrite (sc_ops2 sc lhs rhs out size HS), ?(sc_out2 sc lhs rhs out size HS).
  cbn [length Nat.eqb rassert rbind]. unfold index. cbn [nth_error unwrap rbind].
  rewrite !(sizes2 sc lhs rhs out size HS) by (intros c Hc; apply in_or_app; auto). cbn [rbind].
  unfold tg_from_indices.
  assert (EC : summation_indices (sc_contraction sc) = C).
  { apply sorted_lt_unique; auto.
    - destruct HS as (-> & _). cbn [contraction_of summation_indices]. apply sort_chars_lt, NoDup_filter, distinct_NoDup.
    - intros c. rewrite (sc_sum2 sc lhs rhs out size HS), HC. specialize (Ul c). specialize (Ur c). tauto. }
  rewrite EC.
  destruct (find_ok C lhs) as (la & E1 & F1); auto. { intros c Hc. apply HC in Hc. tauto. }
  destruct (find_ok C rhs) as (ra & E2 & F2); auto. { intros c Hc. apply HC in Hc. tauto. }
  rewrite E1, E2. cbn [rbind]. destruct (find_outputs_in_inputs_unique out _) as [order| |]; cbn [rbind]; try discriminate.
  destruct (tg_from_axes_ok size lhs rhs C la ra order Hl Hr (sorted_lt_NoDup _ SC) F1 F2) as (pl & pr & Et & G1 & G2).
  rewrite Et. intros [= <-]. cbn [tg_lhs_permutation tg_rhs_permutation]. auto.
Qed.

(** The product of a step whose operands are used as they are. *)
Lemma settled_op k sc lhs rhs out p : sized sc [lhs; rhs] out size -> pair_contraction_new h k sc = Ok p ->
  settled lhs (rhs ++ out) = true -> settled rhs (lhs ++ out) = true ->
  simplified lhs rhs out /\ exists red, sized red [lhs; rhs] out size /\ pair_op_new (pc_method p) red = Ok (pc_op p).
Proof.
  intros HS E H1 H2. apply settled_true in H1 as [N1 I1]. apply settled_true in H2 as [N2 I2].
  assert (Hs : simplified lhs rhs out).
  { pose proof HS as (_ & [Ho Hi] & _). simpl in Hi. rewrite app_nil_r in Hi.
    split; auto; intros c Hc; apply in_app_iff; auto. }
  split; auto. revert E. unfold pair_contraction_new.
  rewrite (sc_ops2 sc lhs rhs out size HS), (sc_out2 sc lhs rhs out size HS).
  cbn [length Nat.eqb rassert rbind]. unfold index. cbn [nth_error unwrap rbind].
  rewrite (simplification_none h (0 :: k) lhs rhs out sc [lhs; rhs] out size) by
    (auto; try (simpl; rewrite app_nil_r; apply incl_appl, incl_refl); intros c Hc; apply in_app_iff; auto).
  rewrite (simplification_none h (1 :: k) rhs lhs out sc [lhs; rhs] out size) by
    (auto; try (simpl; rewrite app_nil_r; apply incl_appr, incl_refl); intros c Hc; apply in_app_iff; auto).
  cbn [rbind].
  destruct (subset h (2 :: k) sc [lhs; rhs] out) as [red| |] eqn:Es; try discriminate. cbn [unwrap_res rbind].
  destruct (subset_ok h (2 :: k) sc [lhs; rhs] out size [lhs; rhs] out Hh HS) as (red' & Es' & HSr).
  { apply incl_refl. } { apply HS. }
  assert (red' = red) by congruence. subst red'.
  intros H. apply bind_Ok in H as (s & _ & H). apply bind_Ok in H as (op & Eo & H). apply bind_Ok in H as (str & _ & H).
  injection H as <-. cbn [pc_method pc_op]. eauto.
Qed.

Lemma step_exact k sc lhs rhs out p (a b : arr A) : sized sc [lhs; rhs] out size ->
  pair_contraction_new h k sc = Ok p -> wf a -> wf b -> a_shape a = map size lhs -> a_shape b = map size rhs ->
  let l := kept_labels lhs (rhs ++ out) in
  let r := kept_labels rhs (lhs ++ out) in
  let elementwise := Permutation l out /\ Permutation r out in
  let stacked := exists c, In c l /\ In c r /\ In c out in
  uses (run_pair_contraction_s lay p a b) (run_pair_contraction lay p a b)
    (fun x m => exists product,
       m = mkStorage (elements x)
             (Nat.max (prepared_peak (diagonal_direct a) size lhs (rhs ++ out))
                (prepared_held size lhs (rhs ++ out)
                 + Nat.max (prepared_peak (diagonal_direct b) size rhs (lhs ++ out))
                     (prepared_held size rhs (lhs ++ out) + product)))
       /\ (elementwise \/ l = [] \/ r = [] -> product = elements x)
       /\ (stacked -> ~ elementwise -> product = prod (map size l) + prod (map size r) + 2 * elements x)
       /\ (l <> [] -> r <> [] -> ~ stacked ->
           2 * elements x <= product <= Nat.max (prod (map size l) + prod (map size r) + elements x) (2 * elements x))
       /\ (lhs <> [] -> rhs <> [] -> ~ stacked -> settled lhs (rhs ++ out) = true -> settled rhs (lhs ++ out) = true ->
           forall C, StronglySorted N.lt C -> (forall c, In c C <-> In c lhs /\ In c rhs /\ ~ In c out) ->
           product = Nat.max (copy_of (axes_of a lhs (besides C lhs ++ C)) + copy_of (axes_of b rhs (C ++ besides C rhs))
                              + elements x) (2 * elements x))).
Proof.
  intros HS Ep Wa Wb Sa Sb l r elementwise stacked.
  destruct (pair_plan_ok h Hh k sc lhs rhs out size p HS Ep) as (lk & rk & Pl & Pr & Hc & Ht & _).
  pose proof (plan_kept _ _ _ _ Pl) as Kl. pose proof (plan_kept _ _ _ _ Pr) as Kr. fold l in Kl. fold r in Kr.
  assert (Sims : exists ls rs, pc_lhs_simplification p = ls /\ pc_rhs_simplification p = rs
            /\ simplification_from h (0 :: k) lhs rhs out sc = Ok ls /\ simplification_from h (1 :: k) rhs lhs out sc = Ok rs).
  { pose proof Ep as H. unfold pair_contraction_new in H.
    rewrite (sc_ops2 sc lhs rhs out size HS), (sc_out2 sc lhs rhs out size HS) in H.
    cbn [length Nat.eqb rassert rbind] in H. unfold index in H. cbn [nth_error unwrap rbind] in H.
    apply bind_Ok in H as (ls & El & H). apply bind_Ok in H as (rs & Er & H).
    repeat match type of H with rbind _ _ = Ok _ => apply bind_Ok in H as (? & ? & H) end.
    injection H as <-. cbn [pc_lhs_simplification pc_rhs_simplification]. eauto 6. }
  destruct Sims as (ls & rs & El & Er & Fl & Fr).
  eapply uses_mono; [apply (run_pair_contraction_uses lay Hlay p a b (compiled_constructed h _ _ _ Ep))|].
  cbv beta. intros x m Hx (a' & b' & E1 & E2 & ->). rewrite El in *. rewrite Er in *.
  destruct (prepared_ok (0 :: k) lhs rhs out sc [lhs; rhs] out ls a a' HS) as (A1 & A2 & A3); auto.
  { simpl. rewrite app_nil_r. apply incl_appl, incl_refl. }
  destruct (prepared_ok (1 :: k) rhs lhs out sc [lhs; rhs] out rs b b' HS) as (B1 & B2 & B3); auto.
  { simpl. rewrite app_nil_r. apply incl_appr, incl_refl. }
  rewrite A1, A2, B1, B2. exists (pair_storage (pc_op p) a' b' x). split; [reflexivity|].
  fold l in A3. fold r in B3. rewrite <- A3, <- B3.
  assert (Hx' : run_pair lay (pc_op p) a' b' = Ok x).
  { unfold run_pair_contraction in Hx. rewrite El, E1 in Hx. cbn [rbind] in Hx. rewrite Er, E2 in Hx. exact Hx. }
  assert (Hel : elementwise <-> Permutation lk out /\ Permutation rk out).
  { unfold elementwise. split; intros [H1 H2]; split; eauto using Permutation_trans, Permutation_sym. }
  assert (Hst : stacked <-> exists c, In c lk /\ In c rk /\ In c out).
  { unfold stacked. split; intros (c & H1 & H2 & H3); exists c; split; eauto using Permutation_in, Permutation_sym. }
  assert (Hnil : forall u v : list char, Permutation u v -> u = [] <-> v = []).
  { intros u v H. split; intros ->; [apply Permutation_nil; auto|apply Permutation_nil, Permutation_sym; auto]. }
  pose proof (Hnil _ _ Kl) as Nl. pose proof (Hnil _ _ Kr) as Nr.
  assert (HE : elementwise -> lk <> [] -> stacked).
  { intros H H3. apply Hst. apply Hel in H as [H1 H2]. destruct lk as [|c lk]; [contradiction|]. exists c.
    assert (In c out) by (apply (Permutation_in _ H1); simpl; auto).
    split; [simpl; auto|]. split; auto. apply (Permutation_in _ (Permutation_sym H2)). auto. }
  assert (HO : stacked -> lk <> [] /\ rk <> []).
  { intros H. apply Hst in H as (c & H1 & H2 & _). split; intros ->; contradiction. }
  destruct (pc_op p) as [|? ?| |?| |?|?|t|?|?] eqn:Eop; cbn [pair_tag] in Ht; rewrite <- Ht in Hc; cbn [pair_case] in Hc; try contradiction;
    cbn [pair_storage]; cbn [run_pair] in Hx'; cbv zeta in Hc; try rewrite <- Hel in Hc; try rewrite <- Hst in Hc.
  - split; auto. split; [intros _ H; contradiction|]. split.
    + intros H1 H2 H3. exfalso. apply H3, HE; tauto.
    + intros H1 H2 H3 H4 H5. exfalso. apply H3, HE; auto.
      destruct Pl as (_ & _ & Pl). apply settled_true in H4.
      destruct ls as [s|]; [destruct Pl as [Pl _]; contradiction|]. congruence.
  - destruct Hc as [Hc1 Hc2]. split; auto. split; [intros H; apply HO in H; tauto|]. split.
    + intros H1 H2 H3. tauto.
    + intros H1 H2 H3 H4 H5. exfalso. destruct Pl as (_ & _ & Pl). apply settled_true in H4.
      destruct ls as [s|]; [destruct Pl as [Pl _]; contradiction|]. congruence.
  - destruct Hc as [Hc1 Hc2]. split; auto. split; [intros H; apply HO in H; tauto|]. split.
    + intros H1 H2 H3. tauto.
    + intros H1 H2 H3 H4 H5. exfalso. destruct Pr as (_ & _ & Pr). apply settled_true in H5.
      destruct rs as [s|]; [destruct Pr as [Pr _]; contradiction|]. congruence.
  - destruct Hc as (H1 & H2 & H3). split; [intros [H|[H|H]]; try tauto; exfalso; auto|].
    split; [intros H; contradiction|]. split; [intros _ _ _; apply (tg_storage_le lay); auto|].
    intros H4 H5 _ Sl Sr C SC HC.
    assert (Xl : ls = None).
    { destruct Pl as (_ & _ & Pl). apply settled_true in Sl. destruct ls; auto. destruct Pl as [Pl _]. contradiction. }
    assert (Xr : rs = None).
    { destruct Pr as (_ & _ & Pr). apply settled_true in Sr. destruct rs; auto. destruct Pr as [Pr _]. contradiction. }
    rewrite Xl in E1. rewrite Xr in E2. cbn [run_simplification] in E1, E2. injection E1 as <-. injection E2 as <-.
    destruct (settled_op k sc lhs rhs out p HS Ep Sl Sr) as (Hsm & red & HSr & Eo). rewrite <- Ht, Eop in Eo.
    cbn [pair_op_new] in Eo. apply bind_Ok in Eo as (t' & Et & Eo). injection Eo as ->.
    destruct (tg_new_axes red lhs rhs out t C HSr Hsm SC HC Et) as [G1 G2].
    unfold tg_storage. rewrite !copied_permuted, (axes_of_positions a lhs _ _ G1), (axes_of_positions b rhs _ _ G2). reflexivity.
  - destruct Hc as [H1 H2]. pose proof (HO H1) as [H3 H4]. split; [intros [H|[H|H]]; tauto|].
    split; auto. split; intros; contradiction.
Qed.

(** ** [tensordot] *)

Lemma tensordot_exact (a b : arr A) la ra :
  uses (tensordot_s lay a b la ra) (tensordot lay a b la ra)
    (fun x m => m = mkStorage (elements x)
       (Nat.max (copy_of (axes_at a (free_axes (length (a_shape a)) la ++ la))
                 + copy_of (axes_at b (ra ++ free_axes (length (a_shape b)) ra)) + elements x) (2 * elements x))).
Proof.
  unfold tensordot_s, tensordot. apply uses_after. intros u _. apply uses_after. intros n _. apply uses_after. intros t Et.
  eapply uses_mono; [apply (run_tg_takes lay Hlay)|]. cbv beta. intros x m _ ->.
  unfold tg_from_axes in Et.
  repeat match type of Et with rbind _ _ = Ok _ => apply bind_Ok in Et as (? & ? & Et) end.
  injection Et as <-. unfold tg_storage. cbn [tg_lhs_permutation tg_rhs_permutation]. rewrite !copied_permuted. reflexivity.
Qed.

End Step.

(** ** Calls with one operand *)

Section Calls.
Context {A : Type} {Sc : Scalar A}.
Variables (h : hash_order) (lay : backend A).
Hypothesis Hh : hash_ok h.
Hypothesis Hlay : backend_runs lay.
Variables (s : list char) (a : arr A) (this out : list char) (size : char -> nat).
Hypothesis Hc : call_ok s [a_shape a] [this] out size.

Lemma single_path_exact strategy k0 k1 k2 sc order : strategy = Naive \/ strategy = Reverse ->
  from_string_and_shapes h k0 s [a_shape a] = Ok sc ->
  generate_optimized_order h k1 sc strategy = Ok order ->
  uses (store p <- viewed (from_path h k2 order); contract_operands_s lay p [a])
    (do p <- from_path h k2 order; contract_operands lay p [a])
    (fun r m => m = mkStorage (elements r) (single_peak (diagonal_direct a) size this out)).
Proof.
  intros Hst E Eo.
  destruct (from_string_ok h k0 s _ _ _ _ Hh Hc) as (sc1 & Ex & HSx). assert (sc1 = sc) by congruence. subst sc1.
  assert (Eg : generate_optimized_order h k1 sc strategy = generate_path h k1 sc (order_of strategy 1)).
  { pose proof HSx as (Hcc & _).
    destruct Hst as [-> | ->]; unfold generate_optimized_order, naive_order, reverse_order; rewrite Hcc; reflexivity. }
  assert (Hpo : Permutation (order_of strategy 1) (seq 0 1)) by (destruct Hst as [-> | ->]; simpl; auto).
  destruct (generate_path_ok h k1 size Hh sc [this] out (order_of strategy 1) HSx) as
    [(sc2 & _ & E3 & HS3)|(? & ? & ? & ? & ? & Eo1 & ? & Htn & E3 & _)]; auto; [discriminate| |].
  2:{ exfalso. destruct Hst as [-> | ->]; cbn in H; injection H as ?; congruence. }
  rewrite Eg, E3 in Eo. injection Eo as <-.
  assert (Eth : map (fun i => nth i [this] []) (order_of strategy 1) = [this]) by (destruct Hst as [-> | ->]; reflexivity).
  rewrite Eth in HS3. cbn [from_path]. apply uses_after. intros p Hp.
  apply bind_Ok in Hp as (c & Ec & Hp). injection Hp as <-.
  cbn [contract_operands contract_operands_s path_steps path_order]. apply uses_after. intros ? [= <-].
  assert (Sa : a_shape a = map size this) by (destruct Hc as (_ & _ & Hs); inversion Hs; auto).
  eapply uses_mono; [apply (run_singleton_takes lay Hlay)|]. cbv beta. intros r m _ ->.
  rewrite (singleton_storage_ok sc2 this out size c a HS3 Ec Sa). reflexivity.
Qed.

Lemma single_einsum_exact : uses (einsum_s lay h s [a]) (einsum h lay s [a])
  (fun r m => m = mkStorage (elements r) (single_peak (diagonal_direct a) size this out)).
Proof.
  unfold einsum_s, einsum, einsum_sc, einsum_path_new, validate_and_size, get_operand_shapes. cbn [map].
  destruct (from_string_ok h [20] s _ _ _ _ Hh Hc) as (sc & E & HS).
  apply uses_after. intros sc' E'. assert (sc' = sc) by congruence. subst sc'.
  destruct (generate_optimized_order h [10; 21] sc Naive) as [order|e|] eqn:Eo; cbn [rbind]; try reflexivity.
  apply (single_path_exact Naive [20] [10; 21] [11; 21] sc order (or_introl eq_refl) E Eo).
Qed.

Lemma single_run_exact strategy : strategy = Naive \/ strategy = Reverse ->
  uses (compile_and_run_s lay h s [a] strategy) (compile_and_run h lay s [a] strategy)
    (fun r m => m = mkStorage (elements r) (single_peak (diagonal_direct a) size this out)).
Proof.
  intros Hst. unfold compile_and_run_s, compile_and_run, einsum_path_fn, validate_and_optimize_order, get_operand_shapes. cbn [map].
  match goal with |- context [from_string_and_shapes h ?k s _] => set (k0 := k) end.
  destruct (from_string_ok h k0 s _ _ _ _ Hh Hc) as (sc & E & HS). rewrite E. cbn [rbind].
  match goal with |- context [generate_optimized_order h ?k _ _] => set (k1 := k) end.
  destruct (generate_optimized_order h k1 sc strategy) as [order|e|] eqn:Eo; cbn [rbind]; try reflexivity.
  apply (single_path_exact strategy k0 k1 [23] sc order Hst E Eo).
Qed.

End Calls.
