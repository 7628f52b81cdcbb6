(** Which contractor each step of a compiled path uses. *)
From Verif Require Import Base BaseFacts NDArray Validation Optimizers Strategies Singleton Pair Path Api Spec
  ParserFacts ValidationFacts SumFacts ArrayFacts SingletonFacts PairFacts PairMain PathFacts EinsumMain ReproFacts.
From Coq Require Import Lia.

(** ** What the methods are for *)

(** The method for one operand with labels [this] and result labels [out], a list without repetitions of
    labels of [this]. *)
Definition singleton_case (m : singleton_method) (this out : list char) : Prop :=
  match m with
  | MIdentity => out = this
  | MPermutation => NoDup this /\ Permutation out this /\ out <> this
  | MSummation => NoDup this /\ exists summed, summed <> [] /\ this = out ++ summed
  | MPermutationAndSummation =>
      NoDup this /\ ~ incl this out /\ ~ exists summed, this = out ++ summed
  | MDiagonalization => ~ NoDup this /\ incl this out
  | MDiagonalizationAndSummation => ~ NoDup this /\ ~ incl this out
  end.

(** The method for two operands with labels [lhs] and [rhs] without repetitions, where every label is
    used by the other operand or by the result. *)
Definition pair_case (m : pair_method) (lhs rhs out : list char) : Prop :=
  let elementwise := Permutation lhs out /\ Permutation rhs out in
  let stacked := exists c, In c lhs /\ In c rhs /\ In c out in
  match m with
  | MHadamardProductGeneral => elementwise
  | MScalarMatrixProductGeneral => lhs = [] /\ rhs <> []
  | MMatrixScalarProductGeneral => rhs = [] /\ lhs <> []
  | MTensordotGeneral => lhs <> [] /\ rhs <> [] /\ ~ stacked
  | MStackedTensordotGeneral => stacked /\ ~ elementwise
  | _ => False
  end.

(** The method a boxed contractor belongs to. *)
Definition singleton_tag (op : singleton_op) : singleton_method :=
  match op with
  | OpIdentity => MIdentity
  | OpPermutation _ => MPermutation
  | OpSummation _ => MSummation
  | OpDiagonalization _ => MDiagonalization
  | OpPermutationAndSummation _ _ => MPermutationAndSummation
  | OpDiagonalizationAndSummation _ _ => MDiagonalizationAndSummation
  end.
Definition pair_tag (op : pair_op) : pair_method :=
  match op with
  | OpHadamardProduct => MHadamardProduct
  | OpHadamardProductGeneral _ _ => MHadamardProductGeneral
  | OpScalarMatrixProduct => MScalarMatrixProduct
  | OpScalarMatrixProductGeneral _ => MScalarMatrixProductGeneral
  | OpMatrixScalarProduct => MMatrixScalarProduct
  | OpMatrixScalarProductGeneral _ => MMatrixScalarProductGeneral
  | OpTensordotFixedPosition _ => MTensordotFixedPosition
  | OpTensordotGeneral _ => MTensordotGeneral
  | OpBroadcastProductGeneral _ => MBroadcastProductGeneral
  | OpStackedTensordotGeneral _ => MStackedTensordotGeneral
  end.

Lemma singleton_op_tag m sc op : singleton_op_new m sc = Ok op -> singleton_tag op = m.
Proof.
  destruct m; cbn [singleton_op_new]; intros H;
    repeat match type of H with rbind ?x _ = _ => destruct x; cbn [rbind] in H; try discriminate H end;
    injection H as <-; reflexivity.
Qed.

Lemma pair_op_tag m sc op : pair_op_new m sc = Ok op -> pair_tag op = m.
Proof.
  destruct m; cbn [pair_op_new]; intros H;
    repeat match type of H with rbind ?x _ = _ => destruct x; cbn [rbind] in H; try discriminate H end;
    injection H as <-; reflexivity.
Qed.

(** ** The cases exclude each other *)

Lemma singleton_case_unique m m' this out : NoDup out -> incl out this ->
  singleton_case m this out -> singleton_case m' this out -> m = m'.
Proof.
  intros Hn Hi.
  assert (Id : out = this -> NoDup this) by (intros <-; auto).
  assert (Pi : forall summed, summed <> [] -> NoDup this -> this = out ++ summed -> ~ incl this out).
  { intros [|c s] Hs Ht E H; [congruence|]. rewrite E in Ht. apply NoDup_remove_2 in Ht. apply Ht.
    apply in_or_app. left. apply H. rewrite E. apply in_or_app. simpl; auto. }
  assert (Ii : out = this -> incl this out) by (intros <-; apply incl_refl).
  assert (Ip : Permutation out this -> incl this out).
  { intros P c Hc. eapply Permutation_in; [apply Permutation_sym; exact P|auto]. }
  destruct m, m'; cbn [singleton_case]; intros H H'; auto; exfalso; firstorder.
Qed.

Lemma pair_case_unique m m' lhs rhs out :
  (forall c, In c lhs -> In c rhs \/ In c out) -> (forall c, In c rhs -> In c lhs \/ In c out) ->
  pair_case m lhs rhs out -> pair_case m' lhs rhs out -> m = m'.
Proof.
  intros Ul Ur.
  assert (E0 : forall l : list char, Permutation [] l -> l = []) by (intros l; apply Permutation_nil).
  assert (Ee : Permutation lhs out -> Permutation rhs out -> lhs <> [] -> exists c, In c lhs /\ In c rhs /\ In c out).
  { intros P1 P2. destruct lhs as [|c l]; [congruence|]. intros _. exists c.
    assert (Hc : In c out) by (eapply Permutation_in; [exact P1|simpl; auto]).
    split; [simpl; auto|]. split; auto. eapply Permutation_in; [apply Permutation_sym; exact P2|auto]. }
  destruct m, m'; cbn [pair_case]; intros H H'; auto; try contradiction; exfalso.
  all: repeat match goal with H : _ /\ _ |- _ => destruct H | H : exists _, _ |- _ => destruct H end.
  all: subst; simpl in *; try contradiction; try tauto.
  all: try (match goal with H : Permutation [] ?o |- _ => apply Permutation_nil in H; subst end).
  all: try (match goal with H : Permutation ?o [] |- _ => apply Permutation_sym, Permutation_nil in H; subst end).
  all: try contradiction; try tauto.
  all: match goal with H : ~ (exists c, _) |- _ => apply H; eauto end.
Qed.

(** ** The choices *)

Lemma combine_prefix (out : list char) : forall rest,
  filter (fun oi => negb (N.eqb (fst oi) (snd oi))) (combine out (out ++ rest)) = [].
Proof.
  induction out as [|c o IH]; intros rest; simpl; auto. rewrite N.eqb_refl. simpl. auto.
Qed.

Lemma singleton_plan sc this out size c : sized sc [this] out size ->
  singleton_contraction_new sc = Ok c ->
  (forall m, sgl_method c = m <-> singleton_case m this out) /\ singleton_tag (sgl_op c) = sgl_method c.
Proof.
  intros HS E.
  assert (Ht : singleton_tag (sgl_op c) = sgl_method c).
  { revert E. unfold singleton_contraction_new. destruct (singleton_summary_new sc) as [s| |]; try discriminate.
    cbn [rbind]. destruct (singleton_op_new _ sc) as [op| |] eqn:Eo; try discriminate. cbn [rbind].
    intros [= <-]. cbn. eapply singleton_op_tag; eauto. }
  split; auto.
  pose proof (out_NoDup _ _ _ _ HS) as No. pose proof (out_incl _ _ _ _ HS) as Io.
  pose proof (out_length_le _ _ _ _ HS) as Hle. pose proof (distinct_length_le this) as Hd.
  assert (Hc : singleton_case (sgl_method c) this out).
  { revert E. unfold singleton_contraction_new, singleton_summary_new.
    rewrite (sc_op _ _ _ _ HS), (sc_out _ _ _ _ HS).
    cbn [length Nat.eqb rassert rbind]. unfold index. cbn [nth_error unwrap rbind].
    unfold singleton_summary_from_indices. rewrite usub_ok by auto. cbn [rbind].
    destruct (singleton_op_new _ sc) as [op| |]; try discriminate. cbn [rbind]. intros [= <-]. cbn [sgl_method].
    unfold singleton_strategy. cbn [num_summed_axes num_diagonalized_axes num_reordered_axes].
    assert (Hsum : length (distinct this) - length out = 0 -> incl this out).
    { intros H x Hx. apply (distinct_In x this) in Hx. revert x Hx. apply NoDup_length_incl; auto; [lia|].
      intros x Hx. apply distinct_In. auto. }
    assert (Hsum' : forall n, length (distinct this) - length out = S n -> ~ incl this out).
    { intros n H Hi. assert (length (distinct this) <= length out); [|lia].
      apply NoDup_incl_length; [apply distinct_NoDup|]. intros x Hx. apply Hi. apply distinct_In. auto. }
    destruct (length (filter (fun c => Nat.ltb 1 (count c this)) (distinct this))) as [|nd] eqn:End.
    - pose proof (proj1 (diagonalized_zero this) End) as Hn.
      rewrite (distinct_fixed this) in * by auto.
      destruct (length (filter (fun oi => negb (N.eqb (fst oi) (snd oi))) (combine out this))) as [|nr] eqn:Enr.
      + destruct (reordered_zero this out) as (rest & Er); [lia|auto|].
        destruct (length this - length out) as [|ns] eqn:Ens; cbn [singleton_case].
        * rewrite Er in Ens at 1. rewrite app_length in Ens. destruct rest; simpl in Ens; [|lia].
          rewrite app_nil_r in Er. auto.
        * split; auto. exists rest. split; auto. intros ->. rewrite app_nil_r in Er. rewrite Er in Ens. lia.
      + assert (Hno : ~ exists rest, this = out ++ rest).
        { intros (rest & Er). rewrite Er, combine_prefix in Enr. discriminate. }
        destruct (length this - length out) as [|ns] eqn:Ens; cbn [singleton_case].
        * split; auto. split.
          { apply NoDup_Permutation; auto. intros x. split; auto. apply Hsum. auto. }
          intros ->. apply Hno. exists []. rewrite app_nil_r. auto.
        * split; auto. split; auto. eapply Hsum'; eauto.
    - assert (Hn : ~ NoDup this).
      { intros H. apply (diagonalized_zero this) in H. congruence. }
      destruct (length (distinct this) - length out) as [|ns] eqn:Ens; cbn [singleton_case]; split; eauto. }
  intros m. split; [intros <-; auto|]. intros H. eapply singleton_case_unique; eauto.
Qed.

Lemma pair_method_plan sc lhs rhs out size s : sized sc [lhs; rhs] out size -> simplified lhs rhs out ->
  pair_summary_new sc = Ok s -> forall m, pair_strategy s = m <-> pair_case m lhs rhs out.
Proof.
  intros HS Hs E. pose proof Hs as [Hl Hr Ho Hi Ul Ur].
  rewrite (pair_summary_ok sc lhs rhs out size HS Hs) in E. injection E as <-.
  set (lr := filter (fun c => mem c rhs) lhs) in *. set (st := filter (fun c => mem c out) lr) in *.
  assert (Ilr : forall c, In c lr <-> In c lhs /\ In c rhs).
  { intros c. unfold lr. rewrite filter_In, mem_In. tauto. }
  assert (Ist : forall c, In c st <-> In c lhs /\ In c rhs /\ In c out).
  { intros c. unfold st. rewrite filter_In, mem_In, Ilr. tauto. }
  assert (Nlr : NoDup lr) by (apply NoDup_filter; auto).
  assert (H1 : length st <= length lr) by apply filter_length_le.
  assert (H2 : length lr <= length lhs) by apply filter_length_le.
  assert (H3 : length lr <= length rhs).
  { apply NoDup_incl_length; auto. intros c Hc. apply Ilr in Hc. tauto. }
  assert (Zc : length lr - length st = 0 -> forall c, In c lhs -> In c rhs -> In c out).
  { intros H c Hc1 Hc2. apply mem_In. unfold st in *.
    apply (filter_length_all (fun c => mem c out) lr); [lia|]. apply Ilr; auto. }
  assert (Zl : length lhs - length lr = 0 -> forall c, In c lhs -> In c rhs).
  { intros H c Hc. apply mem_In. apply (filter_length_all (fun c => mem c rhs) lhs); auto.
    fold lr. lia. }
  assert (Zr : length rhs - length lr = 0 -> forall c, In c rhs -> In c lhs).
  { intros H c Hc. assert (Hp : incl rhs lr).
    { apply NoDup_length_incl; auto; [lia|]. intros d Hd. apply Ilr in Hd. tauto. }
    apply Hp in Hc. apply Ilr in Hc. tauto. }
  assert (Zs : length st = 0 -> ~ exists c, In c lhs /\ In c rhs /\ In c out).
  { intros H (c & Hc). apply Ist in Hc. destruct st; [contradiction|discriminate]. }
  assert (Ns : forall n, length st = S n -> exists c, In c lhs /\ In c rhs /\ In c out).
  { intros n H. destruct st as [|c l]; [discriminate|]. exists c. apply Ist. simpl; auto. }
  assert (Nil : forall l : list char, length l = 0 -> l = []) by (intros [|]; simpl; congruence).
  assert (Same : (forall c, In c lhs <-> In c rhs) -> length lr = length lhs /\ length lr = length rhs).
  { intros H. split; apply Permutation_length, NoDup_Permutation; auto; intros c; rewrite Ilr; firstorder. }
  set (m0 := pair_strategy _).
  assert (Hc : pair_case m0 lhs rhs out).
  { unfold m0, pair_strategy.
    cbn [num_contracted_axes num_lhs_outer_axes num_rhs_outer_axes num_stacked_axes].
    assert (El : forall n, length lhs - length lr = S n -> lhs <> []) by (intros n Hn ->; simpl in Hn; lia).
    assert (Er : forall n, length rhs - length lr = S n -> rhs <> []) by (intros n Hn ->; simpl in Hn; lia).
    assert (Nel : ~ (length lr - length st = 0 /\ length lhs - length lr = 0 /\ length rhs - length lr = 0) ->
                  ~ (Permutation lhs out /\ Permutation rhs out)).
    { intros Hx [P1 P2]. apply Hx.
      assert (P3 : forall c, In c lhs <-> In c out)
        by (intros c; split; apply Permutation_in; auto; apply Permutation_sym; auto).
      assert (P4 : forall c, In c rhs <-> In c out)
        by (intros c; split; apply Permutation_in; auto; apply Permutation_sym; auto).
      destruct Same as [S1 S2]; [intros c; rewrite P3, P4; tauto|].
      assert (length st = length lr); [|lia].
      apply Permutation_length, NoDup_Permutation; auto; [apply NoDup_filter; auto|].
      intros c. rewrite Ist, Ilr. firstorder. }
    destruct (length lr - length st) as [|nc] eqn:Ec.
    - specialize (Zc eq_refl).
      destruct (length lhs - length lr) as [|nl] eqn:Enl.
      + specialize (Zl eq_refl). destruct (length rhs - length lr) as [|nr] eqn:Enr.
        * specialize (Zr eq_refl). cbn [pair_case].
          split; apply NoDup_Permutation; auto; intros c; split; auto; intros Hx;
            specialize (Hi c Hx); apply in_app_iff in Hi as [Hx'|Hx']; auto.
        * destruct (length st) as [|ns] eqn:Est; cbn [pair_case].
          { split; eauto. apply Nil. lia. }
          split; eauto. apply Nel. intros (_ & _ & H). discriminate H.
      + destruct (length rhs - length lr) as [|nr] eqn:Enr.
        * destruct (length st) as [|ns] eqn:Est; cbn [pair_case].
          { split; eauto. apply Nil. lia. }
          split; eauto. apply Nel. intros (_ & H & _). discriminate H.
        * destruct (length st) as [|ns] eqn:Est; cbn [pair_case]; split; eauto.
          apply Nel. intros (_ & H & _). discriminate H.
    - assert (Nlhs : lhs <> []) by (intros ->; simpl in *; lia).
      assert (Nrhs : rhs <> []) by (intros Hx; rewrite Hx in H3; simpl in H3; lia).
      destruct (length lhs - length lr), (length rhs - length lr), (length st) as [|ns] eqn:Est; cbn [pair_case];
        split; eauto; apply Nel; intros (H & _); discriminate H. }
  intros m. split; [intros <-; auto|]. intros H. apply (pair_case_unique m0 m lhs rhs out); auto.
Qed.

(** ** Compiled steps *)

(** The operand with labels [this] enters the pair step with labels [kept], [used] being the labels of
    the other operand and of the result. *)
Definition simplification_plan (s : option simplification) (this used kept : list char) : Prop :=
  NoDup kept /\ (forall c, In c kept <-> In c this /\ In c used)
  /\ match s with
     | None => kept = this
     | Some s =>
         ~ (NoDup this /\ incl this used)
         /\ simpl_new_indices s = kept
         /\ simpl_einsum_string s = this ++ arrow ++ kept
         /\ singleton_case (simpl_method s) this kept
         /\ singleton_tag (simpl_op s) = simpl_method s
     end.

Definition pair_plan (lhs rhs out : list char) (p : pair_contraction) : Prop :=
  exists lkept rkept,
    simplification_plan (pc_lhs_simplification p) lhs (rhs ++ out) lkept
    /\ simplification_plan (pc_rhs_simplification p) rhs (lhs ++ out) rkept
    /\ pair_case (pc_method p) lkept rkept out
    /\ pair_tag (pc_op p) = pc_method p
    /\ pc_string p = lkept ++ [c_comma] ++ rkept ++ arrow ++ out.

Definition path_plan (p : einsum_path) : Prop :=
  match path_order p, path_steps p with
  | Singleton sc, StepsSingleton c =>
      exists this, operand_indices (sc_contraction sc) = [this]
        /\ singleton_case (sgl_method c) this (output_indices (sc_contraction sc))
        /\ singleton_tag (sgl_op c) = sgl_method c
  | Pairs steps, StepsPairs l =>
      Forall2 (fun st c => exists lhs rhs,
        operand_indices (sc_contraction (ps_sc st)) = [lhs; rhs]
        /\ pair_plan lhs rhs (output_indices (sc_contraction (ps_sc st))) c) steps l
  | _, _ => False
  end.

Section Steps.
Variable h : hash_order.
Hypothesis Hh : hash_ok h.

Lemma simplification_plan_ok k this other out orig ops o size s :
  sized orig ops o size -> incl this (concat ops) ->
  simplification_from h k this other out orig = Ok s ->
  simplification_plan s this (other ++ out) (new_labels s this).
Proof.
  intros HS Hi E.
  destruct (@simplification_ok h size Hh unit unit_scalar plain_backend plain_backend_ok k this other out orig ops o HS Hi)
    as (s' & E' & Hn & Hin & _).
  assert (s' = s) by congruence. subst s'. clear E'.
  split; auto. split; [intros c; rewrite Hin, in_app_iff; tauto|].
  destruct s as [s|]; [|reflexivity]. cbn [new_labels] in *.
  split.
  { intros [H1 H2]. rewrite (simplification_none h k this other out orig ops o size) in E; auto; [discriminate|].
    intros c Hc. apply in_app_iff. apply H2. auto. }
  revert E. unfold simplification_from.
  set (desired := filter _ (distinct this)). set (new := h (0 :: k) desired).
  destruct (subset h (1 :: k) orig [this] new) as [ssc| |] eqn:Es; try discriminate. cbn [unwrap_res rbind].
  destruct (singleton_contraction_new ssc) as [c| |] eqn:Ec; try discriminate. cbn [rbind].
  assert (Hnew : forall m str x, Ok (Some (mkSimpl m (sgl_op c) new str)) = Ok (Some x) -> simpl_new_indices x = new).
  { intros m str x [= <-]. reflexivity. }
  intros E.
  assert (Enew : simpl_new_indices s = new).
  { destruct (sgl_method c); try discriminate;
      (destruct (as_einsum_string ssc) as [str| |]; [|discriminate|discriminate]); cbn [rbind] in E; eapply Hnew; eauto. }
  rewrite Enew in *.
  destruct (subset_ok h (1 :: k) orig ops o size [this] new Hh HS) as (ssc' & Es' & HSs).
  { simpl. rewrite app_nil_r. auto. }
  { split; auto. simpl. rewrite app_nil_r. intros x Hx. apply Hin in Hx. tauto. }
  assert (ssc' = ssc) by congruence. subst ssc'.
  destruct (singleton_plan ssc this new size c HSs Ec) as [Hm Ht].
  rewrite (as_einsum_string_ok ssc [this] new size HSs) in E by discriminate. cbn [rbind join] in E.
  split; auto.
  assert (E2 : s = mkSimpl (sgl_method c) (sgl_op c) new (join [this] ++ arrow ++ new)).
  { destruct (sgl_method c); try discriminate; injection E as <-; reflexivity. }
  rewrite E2. cbn [simpl_einsum_string simpl_method simpl_op]. split; [|split; auto; apply Hm; auto].
  cbn [join]. rewrite ?app_nil_r. reflexivity.
Qed.

Lemma pair_plan_ok k sc lhs rhs out size p : sized sc [lhs; rhs] out size ->
  pair_contraction_new h k sc = Ok p -> pair_plan lhs rhs out p.
Proof.
  intros HS. unfold pair_contraction_new.
  rewrite (sc_ops2 sc lhs rhs out size HS), (sc_out2 sc lhs rhs out size HS).
  cbn [length Nat.eqb rassert rbind]. unfold index. cbn [nth_error unwrap rbind].
  destruct (simplification_from h (0 :: k) lhs rhs out sc) as [ls| |] eqn:El; try discriminate. cbn [rbind].
  destruct (simplification_from h (1 :: k) rhs lhs out sc) as [rs| |] eqn:Er; try discriminate. cbn [rbind].
  fold (new_labels ls lhs) (new_labels rs rhs).
  apply (simplification_plan_ok _ _ _ _ _ [lhs; rhs] out size) in El; auto;
    [|simpl; rewrite app_nil_r; apply incl_appl, incl_refl].
  apply (simplification_plan_ok _ _ _ _ _ [lhs; rhs] out size) in Er; auto;
    [|simpl; rewrite app_nil_r; apply incl_appr, incl_refl].
  set (l' := new_labels ls lhs) in *. set (r' := new_labels rs rhs) in *.
  pose proof El as (Nl & Il & _). pose proof Er as (Nr & Ir & _).
  pose proof HS as (_ & [Ho Hi] & _). simpl in Hi. rewrite app_nil_r in Hi.
  assert (Il' : forall c, In c l' <-> In c lhs /\ (In c rhs \/ In c out)) by (intros c; rewrite Il, in_app_iff; tauto).
  assert (Ir' : forall c, In c r' <-> In c rhs /\ (In c lhs \/ In c out)) by (intros c; rewrite Ir, in_app_iff; tauto).
  destruct (subset_ok h (2 :: k) sc [lhs; rhs] out size [l'; r'] out Hh HS) as (red & Es & HSr).
  { simpl. rewrite !app_nil_r. intros c Hc. apply in_app_iff in Hc. apply in_app_iff.
    rewrite Il', Ir' in Hc. tauto. }
  { split; auto. simpl. rewrite app_nil_r. intros c Hc. specialize (Hi c Hc).
    rewrite in_app_iff in Hi. apply in_app_iff. rewrite Il', Ir'. tauto. }
  rewrite Es. cbn [unwrap_res rbind].
  assert (Hs : simplified l' r' out).
  { split; auto.
    - intros c Hc. specialize (Hi c Hc). rewrite in_app_iff in *. rewrite Il', Ir'. tauto.
    - intros c. rewrite Il', Ir'. tauto.
    - intros c. rewrite Il', Ir'. tauto. }
  destruct (pair_summary_new red) as [s| |] eqn:Esm; try discriminate. cbn [rbind].
  destruct (pair_op_new (pair_strategy s) red) as [op| |] eqn:Eo; try discriminate. cbn [rbind].
  rewrite (as_einsum_string_ok red [l'; r'] out size HSr) by discriminate. cbn [rbind].
  intros [= <-]. exists l', r'. cbn [pc_lhs_simplification pc_rhs_simplification pc_method pc_op pc_string].
  split; auto. split; auto. split; [apply (pair_method_plan red l' r' out size s HSr Hs Esm); auto|].
  split; [eapply pair_op_tag; eauto|]. cbn [join]. rewrite <- ?app_assoc, ?app_nil_r. reflexivity.
Qed.

Lemma chain_sized size out i L todo js lhs steps : chain size out i L todo js lhs steps ->
  Forall (fun st => exists l r o, sized (ps_sc st) [l; r] o size) steps.
Proof. induction 1; constructor; cbn [ps_sc]; eauto. Qed.

Lemma mapM_Forall2 {T U} (f : T -> res U) (P : T -> U -> Prop) l r :
  mapM f l = Ok r -> (forall x y, In x l -> f x = Ok y -> P x y) -> Forall2 P l r.
Proof.
  revert r. induction l as [|x l IH]; intros r; simpl.
  - intros [= <-]. auto.
  - destruct (f x) as [y| |] eqn:E; try discriminate. cbn [rbind].
    destruct (mapM f l) as [ys| |]; try discriminate. cbn [rbind]. intros [= <-] H. constructor; auto.
Qed.

Lemma generated_plan k k' sc ops out size ord p : sized sc ops out size -> ops <> [] ->
  Permutation ord (seq 0 (length ops)) ->
  (do order <- generate_path h k sc ord; from_path h k' order) = Ok p -> path_plan p.
Proof.
  intros HS Hne Hp E.
  destruct (generate_path_ok h k size Hh sc ops out ord HS Hne Hp)
    as [(sc' & Hl & Eg & HS')|(i0 & js & L & todo & steps & _ & _ & _ & Eg & Hch)]; rewrite Eg in E; cbn [rbind from_path] in E.
  - destruct (singleton_contraction_new sc') as [c| |] eqn:Ec; try discriminate. cbn [rbind] in E. injection E as <-.
    unfold path_plan. cbn [path_order path_steps].
    destruct ord as [|i [|? ?]]; cbn [map] in HS';
      try (apply Permutation_length in Hp; rewrite seq_length in Hp; simpl in Hp; lia).
    exists (nth i ops []). split; [apply (sc_op _ _ _ _ HS')|]. rewrite (sc_out _ _ _ _ HS').
    destruct (singleton_plan _ _ _ _ _ HS' Ec) as [Hm Ht]. split; auto. apply Hm; auto.
  - destruct (mapM _ _) as [l| |] eqn:Em in E; try discriminate. cbn [rbind] in E. injection E as <-.
    unfold path_plan. cbn [path_order path_steps].
    apply chain_sized in Hch. rewrite Forall_forall in Hch.
    apply mapM_Forall2 with (P := fun ist c => exists lhs rhs,
        operand_indices (sc_contraction (ps_sc (snd ist))) = [lhs; rhs]
        /\ pair_plan lhs rhs (output_indices (sc_contraction (ps_sc (snd ist)))) c) in Em.
    + clear - Em. generalize 0 as n, l, Em. clear. induction steps as [|st steps IH]; intros n l Em; inversion Em; subst; auto.
      constructor; [exact H1|]. eapply IH; eauto.
    + intros [i st] c Hin Ec. cbn [fst snd] in *. apply in_combine_r in Hin.
      destruct (Hch st Hin) as (lhs & rhs & o & HSs). exists lhs, rhs.
      rewrite (sc_ops2 _ _ _ _ _ HSs), (sc_out2 _ _ _ _ _ HSs). split; auto. eapply pair_plan_ok; eauto.
Qed.

Lemma call_plan {A} s (arrays : list (arr A)) ops out size strategy p :
  call_ok s (map (@a_shape A) arrays) ops out size ->
  einsum_path_fn h s arrays strategy = Ok p -> path_plan p.
Proof.
  intros Hc. unfold einsum_path_fn, validate_and_optimize_order, get_operand_shapes.
  destruct (from_string_ok h (7 :: [22]) s _ ops out size Hh Hc) as (sc & E & HS). rewrite E. cbn [rbind].
  assert (Hne : ops <> []).
  { destruct Hc as (Hm & _). eapply meaning_nonempty; eauto. }
  unfold generate_optimized_order, naive_order, reverse_order.
  assert (El : length (operand_indices (sc_contraction sc)) = length ops) by (destruct HS as (-> & _); auto).
  rewrite El. destruct strategy; try discriminate.
  - apply (generated_plan _ _ sc ops out size); auto.
  - apply (generated_plan _ _ sc ops out size); auto. apply Permutation_sym, Permutation_rev.
Qed.

(** The labels of every step are lower-case letters. *)
Definition step_lower (st : pair_step) : Prop :=
  Forall lower_run (operand_indices (sc_contraction (ps_sc st)))
  /\ lower_run (output_indices (sc_contraction (ps_sc st))).

Lemma chain_lower size out i L todo js lhs steps : chain size out i L todo js lhs steps ->
  lower_run out -> lower_run L -> Forall lower_run todo -> Forall step_lower steps.
Proof.
  induction 1 as [i L r j lhs sc HS|i L r rest j js lhs sc L' steps Hr HS HL' Hch IH]; intros Ho HL Ht;
    inversion Ht as [|? ? Hr' Hrest]; subst.
  - repeat constructor; cbn [ps_sc]; rewrite ?(sc_ops2 _ _ _ _ _ HS), ?(sc_out2 _ _ _ _ _ HS); auto.
  - assert (HLl : lower_run L').
    { apply Forall_forall. intros c Hc. apply HL' in Hc as [[H|H] _];
        [unfold lower_run in HL; rewrite Forall_forall in HL|unfold lower_run in Hr'; rewrite Forall_forall in Hr']; auto. }
    constructor; auto. split; cbn [ps_sc]; rewrite ?(sc_ops2 _ _ _ _ _ HS), ?(sc_out2 _ _ _ _ _ HS); auto.
Qed.

Definition path_lower (p : einsum_path) : Prop :=
  match path_order p with Singleton _ => True | Pairs steps => steps <> [] /\ Forall step_lower steps end.

Lemma generated_lower k k' sc ops out size ord p : sized sc ops out size -> ops <> [] ->
  Permutation ord (seq 0 (length ops)) -> Forall lower_run ops -> lower_run out ->
  (do order <- generate_path h k sc ord; from_path h k' order) = Ok p -> path_lower p.
Proof.
  intros HS Hne Hp Hl Ho E.
  destruct (generate_path_ok h k size Hh sc ops out ord HS Hne Hp)
    as [(sc' & Hlen & Eg & HS')|(i0 & js & L & todo & steps & Eord & Ep & Ht & Eg & Hch)];
    rewrite Eg in E; cbn [rbind from_path] in E.
  - destruct (singleton_contraction_new sc') as [c| |] eqn:Ec; try discriminate. cbn [rbind] in E. injection E as <-.
    exact I.
  - destruct (mapM _ _) as [l| |] eqn:Em in E; try discriminate. cbn [rbind] in E. injection E as <-.
    unfold path_lower. cbn [path_order]. split; [inversion Hch; discriminate|].
    assert (Hf : Forall lower_run (L :: todo)).
    { rewrite <- Ep. apply Forall_map. apply Forall_forall. intros i Hi.
      destruct (nth_in_or_default i ops []) as [Hin|Hd]; [rewrite Forall_forall in Hl; auto|rewrite Hd; constructor]. }
    inversion Hf; subst. eapply chain_lower; eauto.
Qed.

Lemma call_lower {A} s (arrays : list (arr A)) ops out size strategy p :
  call_ok s (map (@a_shape A) arrays) ops out size ->
  einsum_path_fn h s arrays strategy = Ok p -> path_lower p.
Proof.
  intros Hc. unfold einsum_path_fn, validate_and_optimize_order, get_operand_shapes.
  destruct (from_string_ok h (7 :: [22]) s _ ops out size Hh Hc) as (sc & E & HS). rewrite E. cbn [rbind].
  destruct Hc as (Hm & Hout & _).
  assert (Hne : ops <> []) by (eapply meaning_nonempty; eauto).
  pose proof (meaning_lower_out _ _ _ Hm Hout) as Ho.
  assert (Hl : Forall lower_run ops).
  { apply meaning_operands in Hm as [_ Hf]. eapply Forall_impl; [|exact Hf]. intros x [_ H]. exact H. }
  unfold generate_optimized_order, naive_order, reverse_order.
  assert (El : length (operand_indices (sc_contraction sc)) = length ops) by (destruct HS as (-> & _); auto).
  rewrite El. destruct strategy; try discriminate.
  - apply (generated_lower _ _ sc ops out size); auto.
  - apply (generated_lower _ _ sc ops out size); auto. apply Permutation_sym, Permutation_rev.
Qed.

End Steps.
