(** Compiling a simplified pair always succeeds, and the chosen contractor is right. *)
From Verif Require Import Base BaseFacts NDArray Validation Strategies Singleton Pair Path Spec
  ValidationFacts SumFacts ArrayFacts TensordotFacts DiagFacts SingletonFacts PairFacts StackedFacts.
From Coq Require Import Lia.

Lemma filter_length_le {T} (f : T -> bool) l : length (filter f l) <= length l.
Proof. induction l as [|y l IH]; simpl; auto. destruct (f y); simpl; lia. Qed.

Lemma filter_length_all {T} (f : T -> bool) l :
  length (filter f l) = length l -> forall x, In x l -> f x = true.
Proof.
  induction l as [|y l IH]; simpl; intros H x Hx; [contradiction|].
  pose proof (filter_length_le f l).
  destruct (f y) eqn:E; simpl in H; [|lia].
  destruct Hx as [<-|Hx]; auto.
Qed.

Lemma filter_length_zero {T} (f : T -> bool) l :
  length (filter f l) = 0 -> forall x, In x l -> f x = false.
Proof.
  intros H x Hx. apply length_zero_iff_nil in H. destruct (f x) eqn:E; auto.
  assert (In x (filter f l)) by (apply filter_In; auto). rewrite H in H0. contradiction.
Qed.

Section New.
Variables (sc : sized_contraction) (lhs rhs out : list char) (size : char -> nat).
Hypothesis HS : sized sc [lhs; rhs] out size.

Lemma sc_ops2 : operand_indices (sc_contraction sc) = [lhs; rhs].
Proof. destruct HS as (-> & _). auto. Qed.

Lemma sc_out2 : output_indices (sc_contraction sc) = out.
Proof. destruct HS as (-> & _). auto. Qed.

Lemma sc_sum2 c : In c (summation_indices (sc_contraction sc)) <-> (In c lhs \/ In c rhs) /\ ~ In c out.
Proof.
  destruct HS as (-> & _). cbn [contraction_of summation_indices].
  rewrite sort_chars_In, filter_In, distinct_In, negb_true_iff, mem_false. simpl.
  rewrite app_nil_r, in_app_iff. tauto.
Qed.

Lemma sc_sum2_NoDup : NoDup (summation_indices (sc_contraction sc)).
Proof.
  destruct HS as (-> & _). cbn [contraction_of summation_indices].
  eapply Permutation_NoDup; [apply sort_chars_perm|]. apply NoDup_filter, distinct_NoDup.
Qed.

Lemma sizes2 L : incl L (lhs ++ rhs) -> mapM (size_of (sc_output_size sc)) L = Ok (map size L).
Proof. intros H. eapply sizes_ok; eauto. simpl. rewrite app_nil_r. auto. Qed.

Ltac start := rewrite ?sc_ops2, ?sc_out2; cbn [length Nat.eqb rassert rbind];
  unfold index; cbn [nth_error unwrap rbind].

Lemma chars_eqb_refl l : chars_eqb l l = true.
Proof. induction l; simpl; auto. rewrite N.eqb_refl. auto. Qed.

(** TensordotGeneral: no stack axes. *)
Lemma tg_compiles : simplified lhs rhs out -> (forall c, In c lhs -> In c rhs -> ~ In c out) ->
  let C := summation_indices (sc_contraction sc) in
  let U := filter (fun c => negb (mem c C)) lhs in let V := filter (fun c => negb (mem c C)) rhs in
  exists pl pr order,
    tg_new sc = Ok (mkTG pl pr (tfp_for (map size U) (map size C) (map size V)) order)
    /\ NoDup C /\ incl C lhs /\ incl C rhs /\ (forall c, In c U -> ~ In c V)
    /\ Forall2 (fun o k => position o lhs = Some k) (U ++ C) pl
    /\ Forall2 (fun o k => position o rhs = Some k) (C ++ V) pr
    /\ Permutation out (U ++ V) /\ Forall2 (fun o k => position o (U ++ V) = Some k) out order.
Proof.
  intros [Hl Hr Ho Hi Ul Ur] Hns C U V. unfold tg_new. start.
  rewrite !sizes2 by (intros c Hc; apply in_or_app; auto). cbn [rbind].
  unfold tg_from_indices. fold C.
  assert (IC : forall c, In c C <-> (In c lhs \/ In c rhs) /\ ~ In c out) by apply sc_sum2.
  assert (NC : NoDup C) by apply sc_sum2_NoDup.
  assert (ICl : incl C lhs).
  { intros c Hc. apply IC in Hc as [[H|H] Hn]; auto. destruct (Ur c H); tauto. }
  assert (ICr : incl C rhs).
  { intros c Hc. apply IC in Hc as [[H|H] Hn]; auto. destruct (Ul c H); tauto. }
  destruct (find_ok C lhs) as (la & E1 & F1); auto.
  destruct (find_ok C rhs) as (ra & E2 & F2); auto.
  rewrite E1, E2. cbn [rbind].
  assert (EU : filter (fun c => mem c out) lhs = U).
  { apply filter_ext_in. intros c Hc. destruct (mem c out) eqn:E, (mem c C) eqn:E'; auto.
    - apply mem_In in E, E'. apply IC in E'. tauto.
    - apply mem_false in E, E'. rewrite IC in E'. tauto. }
  assert (EV : filter (fun c => mem c out) rhs = V).
  { apply filter_ext_in. intros c Hc. destruct (mem c out) eqn:E, (mem c C) eqn:E'; auto.
    - apply mem_In in E, E'. apply IC in E'. tauto.
    - apply mem_false in E, E'. rewrite IC in E'. tauto. }
  rewrite EU, EV.
  assert (IU : forall c, In c U <-> In c lhs /\ In c out).
  { intros c. rewrite <- EU, filter_In, mem_In. tauto. }
  assert (IV : forall c, In c V <-> In c rhs /\ In c out).
  { intros c. rewrite <- EV, filter_In, mem_In. tauto. }
  assert (HUV : forall c, In c U -> ~ In c V).
  { intros c. rewrite IU, IV. specialize (Hns c). tauto. }
  assert (NUV : NoDup (U ++ V)).
  { apply NoDup_app_intro; auto; apply NoDup_filter; auto. }
  assert (PO : Permutation out (U ++ V)).
  { apply NoDup_Permutation; auto. intros c. rewrite in_app_iff, IU, IV.
    specialize (Hi c). rewrite in_app_iff in Hi. tauto. }
  destruct (find_ok out (U ++ V)) as (order & E3 & F3); auto.
  { intros c. apply Permutation_in; auto. }
  rewrite E3. cbn [rbind].
  destruct (tg_from_axes_ok size lhs rhs C la ra order Hl Hr NC F1 F2) as (pl & pr & Et & FL & FR).
  fold U V in Et, FL, FR. rewrite Et. exists pl, pr, order. auto 12.
Qed.

Context {A B : Type} {Sc : Scalar A} {Sb : Scalar B}.
Variable R : A -> B -> Prop.
Variable Z : A -> Prop.
Hypothesis HR : weak_relation R Z.
Hypothesis Hemp : no_empty_sums R Z size.
Variable lay : backend A.
Hypothesis Hlay : backend_runs lay.
Hypothesis SR : near_semiring B.

Lemma hadamard_general_ok :
  NoDup lhs -> NoDup rhs -> Permutation out lhs -> Permutation out rhs ->
  exists p, hadamard_general_new sc = Ok p
    /\ computes2 size R (run_hadamard_general lay (fst p) (snd p)) lhs rhs out.
Proof.
  intros Hl Hr Pl Pr. unfold hadamard_general_new. start.
  rewrite <- (Permutation_length Pl), <- (Permutation_length Pr), Nat.eqb_refl. cbn [rassert rbind].
  destruct (find_ok out lhs) as (pl & E1 & F1); auto.
  { intros c. apply Permutation_in; auto. }
  destruct (find_ok out rhs) as (pr & E2 & F2); auto.
  { intros c. apply Permutation_in; auto. }
  rewrite E1, E2. cbn [rbind]. eexists. split; [reflexivity|].
  apply (hadamard_general_computes size R Z HR); auto.
Qed.

Lemma hadamard_ok : NoDup lhs -> rhs = lhs -> out = lhs ->
  hadamard_new sc = Ok tt /\ computes2 size R (run_hadamard lay) lhs rhs out.
Proof.
  intros Hl Er Eo. unfold hadamard_new. start. rewrite Er, Eo, chars_eqb_refl. split; auto.
  apply (hadamard_computes size R Z HR); auto.
Qed.

Hypothesis Hfu : weak_fused R Z lay.

Lemma scalar_matrix_ok : lhs = [] -> NoDup rhs -> out = rhs ->
  scalar_matrix_new sc = Ok tt /\ computes2 size R (run_scalar_matrix lay) lhs rhs out.
Proof.
  intros El Hr Eo. unfold scalar_matrix_new. start. rewrite El, Eo, chars_eqb_refl. split; auto.
  apply (scalar_matrix_computes size R Z HR); auto.
Qed.

Lemma scalar_matrix_general_ok : lhs = [] -> NoDup rhs -> Permutation out rhs ->
  exists p, scalar_matrix_general_new sc = Ok p
    /\ computes2 size R (run_scalar_matrix_general lay p) lhs rhs out.
Proof.
  intros El Hr Po. unfold scalar_matrix_general_new. start. rewrite El. cbn [length Nat.eqb rassert rbind].
  rewrite <- (Permutation_length Po), Nat.eqb_refl. cbn [rassert rbind].
  destruct (find_ok out rhs) as (pr & E2 & F2); auto.
  { intros c. apply Permutation_in; auto. }
  exists pr. split; auto. apply (scalar_matrix_general_computes size R Z HR); auto.
Qed.

Lemma matrix_scalar_ok : rhs = [] -> NoDup lhs -> out = lhs ->
  matrix_scalar_new sc = Ok tt /\ computes2 size R (run_matrix_scalar lay) lhs rhs out.
Proof.
  intros El Hr Eo. unfold matrix_scalar_new. start. rewrite El, Eo, chars_eqb_refl. split; auto.
  apply (matrix_scalar_computes size R Z HR); auto.
Qed.

Lemma matrix_scalar_general_ok : rhs = [] -> NoDup lhs -> Permutation out lhs ->
  exists p, matrix_scalar_general_new sc = Ok p
    /\ computes2 size R (run_matrix_scalar_general lay p) lhs rhs out.
Proof.
  intros El Hr Po. unfold matrix_scalar_general_new. start. rewrite El. cbn [length Nat.eqb rassert rbind].
  rewrite <- (Permutation_length Po), Nat.eqb_refl. cbn [rassert rbind].
  destruct (find_ok out lhs) as (pr & E2 & F2); auto.
  { intros c. apply Permutation_in; auto. }
  exists pr. split; auto. apply (matrix_scalar_general_computes size R Z HR); auto.
Qed.

Lemma tfp_ok U C V : lhs = U ++ C -> rhs = C ++ V -> out = U ++ V ->
  NoDup lhs -> NoDup rhs ->
  exists t, tfp_new sc = Ok t /\ computes2 size R (run_tfp lay t) lhs rhs out.
Proof.
  intros El Er Eo Hl Hr. unfold tfp_new. start.
  assert (Hlen : length lhs + length rhs - length out = 2 * length C)
    by (rewrite El, Er, Eo, !app_length; lia).
  rewrite usub_ok by (rewrite El, Er, Eo, !app_length; lia). cbn [rbind].
  rewrite Hlen. replace (2 * length C) with (length C * 2) by lia.
  rewrite Nat.mod_mul, Nat.div_mul by lia. cbn [Nat.eqb rassert rbind].
  rewrite !sizes2 by (intros c Hc; apply in_or_app; auto). cbn [rbind].
  rewrite El, Er, !map_app, <- (map_length size C), tfp_from_shapes_ok.
  eexists. split; [reflexivity|]. rewrite Eo. apply (tfp_computes size R Z HR); auto; try (rewrite <- ?El, <- ?Er; auto).
  destruct HS as (_ & [Hn _] & _). rewrite Eo in Hn. apply NoDup_app_elim in Hn. tauto.
Qed.

Lemma tg_ok : simplified lhs rhs out -> (forall c, In c lhs -> In c rhs -> ~ In c out) ->
  exists t, tg_new sc = Ok t /\ computes2 size R (run_tg lay t) lhs rhs out.
Proof.
  intros Hs Hns. pose proof Hs as [Hl Hr _ _ _ _].
  destruct (tg_compiles Hs Hns) as (pl & pr & order & E & NC & Il & Ir & HUV & FL & FR & PO & FO).
  rewrite E. eexists. split; [reflexivity|].
  intros a b F G Ha Hb.
  edestruct (run_tg_rrep size R Z HR Hemp lay Hlay SR Hfu a b lhs rhs) as (r & Er & Hrr); eauto.
  eexists r, _. split; [exact Er|]. split; [|exact Hrr]. apply summed2_perm; [apply sc_sum2_NoDup|apply sc_sum2].
Qed.

(** ** The choice *)

Lemma pair_summary_ok : simplified lhs rhs out ->
  let lr := filter (fun c => mem c rhs) lhs in
  let st := filter (fun c => mem c out) lr in
  pair_summary_new sc = Ok (mkPairSummary (length st) (length lhs - length lr)
                              (length rhs - length lr) (length lr - length st)).
Proof.
  intros [Hl Hr Ho Hi Ul Ur] lr st. unfold pair_summary_new. start.
  unfold pair_summary_from_indices.
  rewrite !distinct_fixed by auto. rewrite !Nat.eqb_refl. cbn [rassert rbind]. fold lr. fold st.
  assert (H1 : length st <= length lr) by apply filter_length_le.
  assert (H2 : length lr <= length lhs) by apply filter_length_le.
  assert (H3 : length lr <= length rhs).
  { apply NoDup_incl_length; [apply NoDup_filter; auto|].
    intros c Hc. apply filter_In in Hc as [_ Hc]. apply mem_In; auto. }
  repeat (rewrite usub_ok by lia; cbn [rbind]).
  replace (length lhs - length st - (length lr - length st)) with (length lhs - length lr) by lia.
  replace (length rhs - length st - (length lr - length st)) with (length rhs - length lr) by lia.
  reflexivity.
Qed.

Theorem pair_op_ok : simplified lhs rhs out ->
  exists s op, pair_summary_new sc = Ok s /\ pair_op_new (pair_strategy s) sc = Ok op
    /\ computes2 size R (run_pair lay op) lhs rhs out.
Proof.
  intros Hs. pose proof Hs as [Hl Hr Ho Hi Ul Ur].
  pose proof (pair_summary_ok Hs) as Es. cbv zeta in Es.
  set (lr := filter (fun c => mem c rhs) lhs) in *. set (st := filter (fun c => mem c out) lr) in *.
  assert (Ilr : forall c, In c lr <-> In c lhs /\ In c rhs).
  { intros c. unfold lr. rewrite filter_In, mem_In. tauto. }
  assert (Nlr : NoDup lr) by (apply NoDup_filter; auto).
  assert (H1 : length st <= length lr) by apply filter_length_le.
  assert (H2 : length lr <= length lhs) by apply filter_length_le.
  assert (H3 : length lr <= length rhs).
  { apply NoDup_incl_length; auto. intros c Hc. apply Ilr in Hc. tauto. }
  rewrite Es.
  match goal with |- exists s op, Ok ?x = Ok s /\ _ => exists x end.
  unfold pair_strategy.
  cbn [num_contracted_axes num_lhs_outer_axes num_rhs_outer_axes num_stacked_axes].
  (* what zero counts mean *)
  assert (Zc : length lr - length st = 0 -> forall c, In c lhs -> In c rhs -> In c out).
  { intros H c Hc1 Hc2. apply mem_In. unfold st in *.
    apply (filter_length_all (fun c => mem c out) lr); [lia|]. apply Ilr; auto. }
  assert (Zl : length lhs - length lr = 0 -> forall c, In c lhs -> In c rhs).
  { intros H c Hc. apply mem_In. apply (filter_length_all (fun c => mem c rhs) lhs); auto.
    fold lr. lia. }
  assert (Zr : length rhs - length lr = 0 -> forall c, In c rhs -> In c lhs).
  { intros H c Hc. assert (Hp : incl rhs lr).
    { apply NoDup_length_incl; auto; [lia|]. intros d Hd. apply Ilr in Hd. tauto. }
    apply Hp, Ilr in Hc. tauto. }
  assert (Zs : length st = 0 -> forall c, In c lhs -> In c rhs -> ~ In c out).
  { intros H c Hc1 Hc2 Hc3. unfold st in H.
    assert (Hin : In c lr) by (apply Ilr; auto).
    pose proof (filter_length_zero (fun c => mem c out) lr H c Hin) as Hf.
    apply mem_false in Hf. auto. }
  assert (Ptg : length st = 0 -> exists op, pair_op_new MTensordotGeneral sc = Ok op
                  /\ computes2 size R (run_pair lay op) lhs rhs out).
  { intros H. destruct (tg_ok Hs (Zs H)) as (t & E & Ht). cbn [pair_op_new]. rewrite E.
    cbn [rbind]. eexists; split; [reflexivity|]. exact Ht. }
  assert (Pst : exists op, pair_op_new MStackedTensordotGeneral sc = Ok op
                  /\ computes2 size R (run_pair lay op) lhs rhs out).
  { destruct (stacked_ok size R Z HR Hemp lay Hlay Hfu SR sc lhs rhs out HS Hs) as (t & E & Ht). cbn [pair_op_new]. rewrite E.
    cbn [rbind]. eexists; split; [reflexivity|]. exact Ht. }
  destruct (length lr - length st) as [|nc] eqn:Ec.
  - specialize (Zc eq_refl).
    destruct (length lhs - length lr) as [|nl] eqn:El.
    + specialize (Zl eq_refl).
      destruct (length rhs - length lr) as [|nr] eqn:Er.
      * (* Hadamard *)
        specialize (Zr eq_refl).
        destruct hadamard_general_ok as (p & E & Hp); auto.
        { apply NoDup_Permutation; auto. intros c. specialize (Hi c). rewrite in_app_iff in Hi.
          specialize (Zc c). specialize (Zl c). specialize (Zr c). tauto. }
        { apply NoDup_Permutation; auto. intros c. specialize (Hi c). rewrite in_app_iff in Hi.
          specialize (Zc c). specialize (Zl c). specialize (Zr c). tauto. }
        cbn [pair_op_new]. rewrite E. cbn [rbind].
        eexists. split; [reflexivity|]. split; [reflexivity|]. exact Hp.
      * destruct (length st) as [|ns] eqn:En.
        -- (* scalar * matrix *)
           assert (El0 : lhs = []) by (apply length_zero_iff_nil; lia).
           destruct scalar_matrix_general_ok as (p & E & Hp); auto.
           { apply NoDup_Permutation; auto. intros c. specialize (Hi c). rewrite El0 in *.
             specialize (Ur c). simpl in *. tauto. }
           cbn [pair_op_new]. rewrite E. cbn [rbind].
           eexists. split; [reflexivity|]. split; [reflexivity|]. exact Hp.
        -- destruct Pst as (op & E & Hp). exists op. auto.
    + destruct (length rhs - length lr) as [|nr] eqn:Er; destruct (length st) as [|ns] eqn:En.
      * (* matrix * scalar *)
        assert (El0 : rhs = []) by (apply length_zero_iff_nil; lia).
        destruct matrix_scalar_general_ok as (p & E & Hp); auto.
        { apply NoDup_Permutation; auto. intros c. specialize (Hi c). rewrite El0 in *.
          specialize (Ul c). simpl in *. rewrite app_nil_r in Hi. tauto. }
        cbn [pair_op_new]. rewrite E. cbn [rbind].
        eexists. split; [reflexivity|]. split; [reflexivity|]. exact Hp.
      * destruct Pst as (op & E & Hp). exists op. auto.
      * destruct Ptg as (op & E & Hp); auto. exists op. auto.
      * destruct Pst as (op & E & Hp). exists op. auto.
  - destruct (length st) as [|ns] eqn:En.
    + destruct Ptg as (op & E & Hp); auto. exists op. auto.
    + destruct Pst as (op & E & Hp). exists op. auto.
Qed.

End New.

(** ** A whole pair step: simplify both operands, then combine them *)

Section Step.
Variables (h : hash_order) (size : char -> nat).
Hypothesis Hh : hash_ok h.
Context {A : Type} {Sc : Scalar A}.
Variable lay : backend A.
Hypothesis Hlay : backend_runs lay.

Definition new_labels (s : option simplification) (this : list char) : list char :=
  match s with Some s => simpl_new_indices s | None => this end.

Lemma blocked_ext (a : arr A) ix o o' : (forall c, In c ix -> In c o <-> In c o') ->
  blocked size a ix o -> blocked size a ix o'.
Proof.
  intros H (H1 & H2 & H3). split; auto. split; auto. intros (E1 & E2 & E3 & c & Hc & Hn).
  apply H3. split; auto. split; auto. split; auto. exists c. split; auto. rewrite H; auto.
Qed.

(** The simplification of an operand whose labels [used] are needed later. *)
Definition simplifies (s : option simplification) (this used : list char) : Prop :=
  forall (a : arr A) F, wf a -> lrep size a this F ->
    (run_simplification lay s a = Panic /\ blocked size a this used)
    \/ (~ blocked size a this used
        /\ exists r cs, run_simplification lay s a = Ok r
             /\ NoDup cs /\ (forall c, In c cs <-> In c this /\ ~ In c (new_labels s this))
             /\ lsum size r (new_labels s this) cs F).

Lemma simplification_ok k this other out orig ops o :
  sized orig ops o size -> incl this (concat ops) ->
  exists s, simplification_from h k this other out orig = Ok s
    /\ NoDup (new_labels s this)
    /\ (forall c, In c (new_labels s this) <-> In c this /\ (In c other \/ In c out))
    /\ simplifies s this (other ++ out).
Proof.
  intros HS Hi. unfold simplification_from.
  set (desired := filter _ (distinct this)). set (new := h (0 :: k) desired).
  assert (Pn : Permutation desired new) by apply Hh.
  assert (Nn : NoDup new).
  { eapply Permutation_NoDup; [exact Pn|]. apply NoDup_filter, distinct_NoDup. }
  assert (In_new : forall c, In c new <-> In c this /\ (In c other \/ In c out)).
  { intros c. assert (In c new <-> In c desired).
    { split; apply Permutation_in; auto. apply Permutation_sym; auto. }
    rewrite H. unfold desired. rewrite filter_In, mem_In, !distinct_In, in_app_iff, !distinct_In. tauto. }
  destruct (subset_ok h (1 :: k) orig ops o size [this] new Hh HS) as (ssc & Es & HSs).
  { simpl. rewrite app_nil_r. auto. }
  { split; auto. simpl. rewrite app_nil_r. intros c Hc. apply In_new in Hc. tauto. }
  rewrite Es. cbn [unwrap_res rbind].
  destruct (singleton_contraction_ok ssc this new size HSs lay Hlay) as (c & Ec & Hc & Hm).
  rewrite Ec. cbn [rbind].
  destruct (as_einsum_string_sized ssc [this] new size HSs) as (str & Estr); [discriminate|].
  rewrite Estr. cbn [rbind].
  assert (Hkeep : NoDup this /\ Permutation new this ->
    NoDup this /\ (forall c0, In c0 this <-> In c0 this /\ (In c0 other \/ In c0 out))).
  { intros [H1 H2]. split; auto. intros x. split; [|tauto].
    intros Hx. apply In_new. apply Permutation_sym in H2. eapply Permutation_in; eauto. }
  assert (Hsome : forall m, exists s,
    Ok (Some (mkSimpl m (sgl_op c) new str)) = Ok s
    /\ NoDup (new_labels s this)
    /\ (forall c, In c (new_labels s this) <-> In c this /\ (In c other \/ In c out))
    /\ simplifies s this (other ++ out)).
  { intros m. eexists. split; [reflexivity|]. cbn [new_labels simpl_new_indices].
    split; [auto|]. split; [auto|]. intros a F Hw Ha.
    assert (Hbl : forall x, In x this -> In x new <-> In x (other ++ out)).
    { intros x Hx. rewrite In_new, in_app_iff. tauto. }
    cbn [run_simplification simpl_op new_labels simpl_new_indices].
    destruct (Hc a F Hw Ha) as [[H1 H2]|[H2 (r & cs & Er & Pc & Hr)]].
    { left. split; auto. eapply blocked_ext; eauto. }
    right. split.
    { intros Hx. apply H2. eapply blocked_ext; [|exact Hx]. intros x Hx'. rewrite Hbl; auto. tauto. }
    exists r, cs. split; auto. split; [|split; auto].
    - eapply Permutation_NoDup; [apply Permutation_sym; exact Pc|]. apply NoDup_filter, distinct_NoDup.
    - intros x. rewrite <- (summed1_In this new x). split; apply Permutation_in; auto.
      apply Permutation_sym; auto. }
  assert (Hnone : sgl_method c = MIdentity \/ sgl_method c = MPermutation -> exists s,
    Ok None = Ok s
    /\ NoDup (new_labels s this)
    /\ (forall c, In c (new_labels s this) <-> In c this /\ (In c other \/ In c out))
    /\ simplifies s this (other ++ out)).
  { intros H. destruct (Hkeep (Hm H)) as [H1 H2]. eexists. split; [reflexivity|].
    cbn [new_labels]. split; [auto|]. split; [auto|]. intros a F Hw Ha.
    right. split; [intros [Hx _]; contradiction|].
    exists a, []. split; auto. split; [constructor|]. split; [simpl; tauto|].
    apply lrep_lsum. exact Ha. }
  destruct (sgl_method c); auto.
Qed.

Context {B : Type} {Sb : Scalar B}.
Variable R : A -> B -> Prop.
Variable Z : A -> Prop.
Hypothesis HR : weak_relation R Z.
Hypothesis Hemp : no_empty_sums R Z size.

Definition pair_computes (lhs rhs out : list char) (p : pair_contraction) : Prop :=
  forall (a b : arr A) F G, wf a -> wf b ->
    rrep size R a lhs F -> rrep size R b rhs G -> dep F lhs -> dep G rhs ->
    (run_pair_contraction lay p a b = Panic
     /\ (blocked size a lhs (rhs ++ out) \/ blocked size b rhs (lhs ++ out)))
    \/ (~ blocked size a lhs (rhs ++ out) /\ ~ blocked size b rhs (lhs ++ out)
        /\ exists r cs, run_pair_contraction lay p a b = Ok r
             /\ Permutation cs (summed2 lhs rhs out)
             /\ rrep size R r out (nested_sum size cs (fun e => smul (F e) (G e)))).

Hypothesis Hfu : weak_fused R Z lay.
Hypothesis SR : near_semiring B.

(** A simplified operand. *)
Lemma rrep_simplified (a : arr A) ls new cs F0 F :
  (forall c, In c cs <-> In c ls /\ ~ In c new) ->
  (forall e, in_range size ls e -> R (F0 e) (F e)) ->
  lsum size a new cs F0 -> rrep size R a new (nested_sum size cs F).
Proof.
  intros Hc Hr (G & Ha & HG & _). exists G. split; auto. intros e He.
  apply (sums_to_nested_weak R Z HR SR size Hemp cs F0 F e _ (HG e He)). intros e' H1 H2. apply Hr.
  apply (in_range_summed size ls ls new cs e e'); auto. intros c Hin. rewrite Hc.
  destruct (in_dec N.eq_dec c new); tauto.
Qed.

Hypothesis SM : summable B size.

Theorem pair_contraction_ok k sc lhs rhs out : sized sc [lhs; rhs] out size ->
  exists p, pair_contraction_new h k sc = Ok p /\ pair_computes lhs rhs out p.
Proof.
  intros HS. unfold pair_contraction_new. rewrite (sc_ops2 sc lhs rhs out size HS), (sc_out2 sc lhs rhs out size HS).
  cbn [length Nat.eqb rassert rbind]. unfold index. cbn [nth_error unwrap rbind].
  destruct (simplification_ok (0 :: k) lhs rhs out sc [lhs; rhs] out HS)
    as (ls & El & Nl & Il & Rl).
  { simpl. intros c Hc. apply in_or_app; auto. }
  destruct (simplification_ok (1 :: k) rhs lhs out sc [lhs; rhs] out HS)
    as (rs & Er & Nr & Ir & Rr).
  { simpl. rewrite app_nil_r. intros c Hc. apply in_or_app; auto. }
  rewrite El, Er. cbn [rbind]. fold (new_labels ls lhs) (new_labels rs rhs).
  set (l' := new_labels ls lhs) in *. set (r' := new_labels rs rhs) in *.
  pose proof HS as (_ & [Ho Hi] & _). simpl in Hi. rewrite app_nil_r in Hi.
  destruct (subset_ok h (2 :: k) sc [lhs; rhs] out size [l'; r'] out Hh HS) as (red & Es & HSr).
  { simpl. rewrite !app_nil_r. intros c Hc. apply in_app_iff in Hc. apply in_app_iff.
    rewrite Il, Ir in Hc. tauto. }
  { split; auto. simpl. rewrite app_nil_r. intros c Hc. specialize (Hi c Hc).
    rewrite in_app_iff in Hi. apply in_app_iff. rewrite Il, Ir. tauto. }
  rewrite Es. cbn [unwrap_res rbind].
  assert (Hs : simplified l' r' out).
  { split; auto.
    - intros c Hc. specialize (Hi c Hc). rewrite in_app_iff in *. rewrite Il, Ir. tauto.
    - intros c. rewrite Il, Ir. tauto.
    - intros c. rewrite Il, Ir. tauto. }
  destruct (pair_op_ok red l' r' out size HSr R Z HR Hemp lay Hlay SR Hfu Hs) as (sm & op & E1 & E2 & Hop).
  rewrite E1. cbn [rbind]. rewrite E2. cbn [rbind].
  destruct (as_einsum_string_sized red [l'; r'] out size HSr) as (str & Estr); [discriminate|].
  rewrite Estr. cbn [rbind]. eexists. split; [reflexivity|].
  intros a b F G Wa Wb (F0 & Ha & Rf) (G0 & Hb & Rg) Df Dg.
  pose proof (Rl a F0 Wa Ha) as Sl. pose proof (Rr b G0 Wb Hb) as Sr.
  fold l' in Sl. fold r' in Sr.
  unfold run_pair_contraction. cbn [pc_lhs_simplification pc_rhs_simplification pc_op].
  destruct Sl as [[Ea Da]|[Da (a' & ca & Ea & Na & Ica & Ha')]].
  { rewrite Ea. cbn [rbind]. auto. }
  rewrite Ea. cbn [rbind].
  destruct Sr as [[Eb Db]|[Db (b' & cb & Eb & Nb & Icb & Hb')]].
  { rewrite Eb. cbn [rbind]. auto. }
  rewrite Eb. cbn [rbind]. right. split; auto. split; auto.
  apply (rrep_simplified a' lhs l' ca F0 F Ica Rf) in Ha'.
  apply (rrep_simplified b' rhs r' cb G0 G Icb Rg) in Hb'.
  destruct (Hop a' b' _ _ Ha' Hb') as (r & cs & Er' & Pc & Hr). rewrite Er'.
  exists r, (cs ++ ca ++ cb).
  assert (Ncs : NoDup cs).
  { eapply Permutation_NoDup; [apply Permutation_sym; exact Pc|]. apply NoDup_filter, distinct_NoDup. }
  assert (Ics : forall c, In c cs <-> (In c l' \/ In c r') /\ ~ In c out).
  { intros c. rewrite <- (summed2_In l' r' out c). split; apply Permutation_in; auto.
    apply Permutation_sym; auto. }
  split; auto. split.
  - apply summed2_perm.
    + apply NoDup_app_intro; auto.
      * apply NoDup_app_intro; auto. intros c. rewrite Ica, Icb, Il, Ir. tauto.
      * intros c. rewrite in_app_iff, Ica, Icb, Ics, Il, Ir. tauto.
    + intros c. rewrite !in_app_iff, Ica, Icb, Ics, Il, Ir.
      destruct (in_dec N.eq_dec c lhs), (in_dec N.eq_dec c rhs), (in_dec N.eq_dec c out); tauto.
  - eapply rrep_ext; [|exact Hr]. intros e He.
    apply (nested_sum_distrib SM cs ca cb lhs rhs F G e Df Dg).
    + intros c. rewrite Ica, Il. tauto.
    + intros c. rewrite Icb, Ir. tauto.
Qed.

End Step.
