(** Bad scalars reach the result, so panicking at once and panicking at the end are the same. *)
From Verif Require Import Base BaseFacts NDArray Validation Optimizers Strategies Singleton Pair Path Api
  Spec ValidationFacts ValidationMain SumFacts ArrayFacts TensordotFacts DiagFacts SingletonFacts PairFacts
  StackedFacts PairMain PathFacts OrderFacts EinsumMain PropsValues Checked.
From Coq Require Import Lia.

(** No element is bad. *)
Definition clean {A} (bad : A -> bool) (a : arr A) : Prop :=
  forall idx x, in_bounds (a_shape a) idx = true -> a_get a idx = Ok x -> bad x = false.

(** One run is the other or panics. *)
Definition at_most {T} (x y : res T) : Prop := x = y \/ x = Panic.

Lemma at_most_refl {T} (x : res T) : at_most x x.
Proof. left; auto. Qed.

Lemma at_most_bind {T U} (x y : res T) (f g : T -> res U) :
  at_most x y -> (forall t, at_most (f t) (g t)) -> at_most (rbind x f) (rbind y g).
Proof. intros [-> | ->] H; [destruct y; cbn [rbind]; auto; left; auto|right; reflexivity]. Qed.

Lemma at_most_foldM {T U} (f g : U -> T -> res U) l u :
  (forall u t, at_most (f u t) (g u t)) -> at_most (foldM f l u) (foldM g l u).
Proof.
  intros H. revert u. induction l as [|t l IH]; intros u; [apply at_most_refl|]. cbn [foldM].
  apply at_most_bind; auto.
Qed.

Section Settle.
Context {A : Type} {S : Scalar A}.
Variable bad : A -> bool.
Variable lay : backend A.

Lemma settle_ok x r : settle bad x = Ok r <-> x = Ok r /\ (exists l, a_iter r = Ok l) /\ clean bad r.
Proof.
  unfold settle. split.
  - intros H. apply rbind_ok in H as (r' & -> & H). apply rbind_ok in H as (l & El & H).
    destruct (existsb bad l) eqn:Eb; [discriminate|]. injection H as ->. split; auto. split; eauto.
    intros idx y Hi Ey. unfold a_iter in El. apply mapM_inv in El.
    assert (Hl : exists z, In z l /\ a_get r idx = Ok z).
    { apply indices_In in Hi. clear -El Hi. induction El as [|i z l l' H El IH]; [contradiction|].
      destruct Hi as [->|Hi]; [exists z; simpl; auto|]. destruct (IH Hi) as (w & H1 & H2). exists w. simpl; auto. }
    destruct Hl as (z & Hz & Ez). rewrite Ey in Ez. injection Ez as <-.
    destruct (bad y) eqn:Ebad; auto. assert (existsb bad l = true) by (apply existsb_exists; eauto). congruence.
  - intros (-> & (l & El) & Hc). cbn [rbind]. rewrite El. cbn [rbind].
    destruct (existsb bad l) eqn:Eb; auto. exfalso. apply existsb_exists in Eb as (y & Hy & Eb).
    unfold a_iter in El. apply mapM_inv in El.
    assert (Hl : exists idx, In idx (indices (a_shape r)) /\ a_get r idx = Ok y).
    { clear -El Hy. induction El as [|i z l l' H El IH]; [contradiction|].
      destruct Hy as [->|Hy]; [exists i; simpl; auto|]. destruct (IH Hy) as (w & H1 & H2). exists w. simpl; auto. }
    destruct Hl as (idx & Hi & Ey). apply indices_In in Hi. rewrite (Hc idx y Hi Ey) in Eb. discriminate.
Qed.

Lemma wf_iter (a : arr A) : wf a -> exists l, a_iter a = Ok l.
Proof.
  intros Hw. apply wf_readable in Hw as [_ Hw]. unfold a_iter.
  assert (H : forall idx, In idx (indices (a_shape a)) -> exists x, a_get a idx = Ok x).
  { intros idx Hi. apply Hw. apply indices_In; auto. }
  revert H. generalize (indices (a_shape a)) as l. induction l as [|i l IH]; intros H; [exists []; auto|].
  destruct (H i) as (x & Ex); [simpl; auto|]. destruct IH as (l' & El); [intros j Hj; apply H; simpl; auto|].
  exists (x :: l'). cbn [mapM]. rewrite Ex. cbn [rbind]. rewrite El. reflexivity.
Qed.

Lemma settle_clean r : wf r -> clean bad r -> settle bad (Ok r) = Ok r.
Proof. intros H1 H2. apply settle_ok. split; auto. split; auto. apply wf_iter; auto. Qed.

(** Settling only adds panics. *)
Lemma settle_at_most x : at_most (settle bad x) x.
Proof.
  unfold settle. destruct x as [r| |]; cbn [rbind]; [|left; auto|left; auto].
  assert (H : forall l : list (list nat), mapM (a_get r) l = Panic \/ exists z, mapM (a_get r) l = Ok z).
  { induction l as [|i l IH]; [right; exists []; auto|]. cbn [mapM].
    destruct (a_get r i) as [z| e|] eqn:E; cbn [rbind]; auto.
    - destruct IH as [->|(w & ->)]; cbn [rbind]; eauto.
    - exfalso. unfold a_get in E. revert E.
      repeat match goal with
      | |- context [rbind ?x _] => destruct x eqn:?; cbn [rbind]
      | |- context [if ?b then _ else _] => destruct b
      | |- context [unwrap ?o] => destruct o; cbn [unwrap]
      end; discriminate. }
  unfold a_iter. destruct (H (indices (a_shape r))) as [->|(z & ->)]; cbn [rbind]; [right; auto|].
  destruct (existsb bad z); [right|left]; auto.
Qed.

Lemma run_simplification_at_most s t : at_most (run_simplification_k bad lay s t) (run_simplification lay s t).
Proof. destruct s; [apply settle_at_most|apply at_most_refl]. Qed.

Lemma run_pair_contraction_at_most p a b :
  at_most (run_pair_contraction_k bad lay p a b) (run_pair_contraction lay p a b).
Proof.
  unfold run_pair_contraction_k, run_pair_contraction.
  apply at_most_bind; [apply run_simplification_at_most|]. intros l.
  apply at_most_bind; [apply run_simplification_at_most|]. intros r. apply settle_at_most.
Qed.

Lemma run_step_at_most operands ints so : at_most (run_step_k bad lay operands ints so) (run_step lay operands ints so).
Proof.
  destruct so as [p st]. unfold run_step_k, run_step.
  apply at_most_bind; [apply at_most_refl|]. intros l. apply at_most_bind; [apply at_most_refl|]. intros r.
  apply at_most_bind; [apply run_pair_contraction_at_most|]. intros t. apply at_most_refl.
Qed.

Lemma contract_operands_at_most p operands :
  at_most (contract_operands_k bad lay p operands) (contract_operands lay p operands).
Proof.
  unfold contract_operands_k, contract_operands.
  destruct (path_steps p), (path_order p); try apply at_most_refl.
  - apply at_most_bind; [apply at_most_refl|]. intros t. apply settle_at_most.
  - apply at_most_bind; [|intros t; apply at_most_refl].
    apply at_most_foldM. intros u t. apply run_step_at_most.
Qed.

Lemma einsum_at_most h s operands : at_most (einsum_k bad lay h s operands) (einsum h lay s operands).
Proof.
  unfold einsum_k, einsum, einsum_sc. apply at_most_bind; [apply at_most_refl|]. intros sc.
  apply at_most_bind; [apply at_most_refl|]. intros p. apply contract_operands_at_most.
Qed.

Lemma compile_and_run_at_most h s operands strategy :
  at_most (compile_and_run_k bad lay h s operands strategy) (compile_and_run h lay s operands strategy).
Proof.
  unfold compile_and_run_k, compile_and_run. apply at_most_bind; [apply at_most_refl|]. intros p.
  apply contract_operands_at_most.
Qed.

(** A result of a checked run has been settled. *)
Lemma steps_clean operands l : forall ints ints', Forall (clean bad) ints ->
  foldM (run_step_k bad lay operands) l ints = Ok ints' -> Forall (clean bad) ints'.
Proof.
  induction l as [|[p st] l IH]; intros ints ints' Hi E; cbn [foldM] in E; [injection E as <-; auto|].
  apply rbind_ok in E as (i2 & E1 & E2). apply (IH _ _) in E2; auto.
  cbn [run_step_k] in E1. apply rbind_ok in E1 as (a & _ & E1). apply rbind_ok in E1 as (b & _ & E1).
  apply rbind_ok in E1 as (r & Er & E1). injection E1 as <-. apply Forall_app. split; auto. constructor; auto.
  unfold run_pair_contraction_k in Er. apply rbind_ok in Er as (x & _ & Er). apply rbind_ok in Er as (y & _ & Er).
  apply settle_ok in Er. tauto.
Qed.

Lemma contract_operands_clean p operands r : contract_operands_k bad lay p operands = Ok r -> clean bad r.
Proof.
  unfold contract_operands_k. destruct (path_steps p), (path_order p); try discriminate; intros E.
  - apply rbind_ok in E as (t & _ & E). apply settle_ok in E. tauto.
  - apply rbind_ok in E as (ints & E1 & E2). apply steps_clean in E1; auto.
    unfold pop_last in E2. destruct (nth_error ints (length ints - 1)) eqn:En; [|discriminate].
    injection E2 as ->. apply nth_error_In in En. rewrite Forall_forall in E1. auto.
Qed.

Lemma einsum_k_clean h s operands r : einsum_k bad lay h s operands = Ok r -> clean bad r.
Proof.
  unfold einsum_k. intros E. apply rbind_ok in E as (sc & _ & E). apply rbind_ok in E as (p & _ & E).
  eapply contract_operands_clean; eauto.
Qed.

Lemma compile_and_run_k_clean h s operands strategy r :
  compile_and_run_k bad lay h s operands strategy = Ok r -> clean bad r.
Proof.
  unfold compile_and_run_k. intros E. apply rbind_ok in E as (p & _ & E).
  eapply contract_operands_clean; eauto.
Qed.

End Settle.

(** ** Where no label is empty *)

Section Reach.
Variables (h : hash_order) (size : char -> nat).
Hypothesis Hh : hash_ok h.
Context {A : Type} {Sc : Scalar A}.
Variable bad : A -> bool.
Hypothesis bad_add : forall x y, bad x || bad y = true -> bad (sadd x y) = true.
Hypothesis bad_mul : forall x y, bad x || bad y = true -> bad (smul x y) = true.
Variable lay : backend A.
Hypothesis Hlay : backend_runs lay.
Hypothesis Hfu : @fused_relation A (option bool) taint_scalar (tainted bad) lay.
Hypothesis Hpos : forall c, 0 < size c.

Let HT := tainted_relation bad bad_add bad_mul.
Let HW := strong_weak (tainted bad) HT taint_semiring.
Let HE := strong_no_empty (B := option bool) (Sb := taint_scalar) (tainted bad) size.
Let HF := strong_weak_fused (tainted bad) lay HT taint_semiring Hfu.
Let SM := semiring_summable size taint_semiring.

(** What is tracked of an array's elements. *)
Definition taint_of (a : arr A) (l : list char) (e : env) : option bool :=
  Some (match a_get a (map e l) with Ok x => bad x | _ => false end).

Lemma taint_of_dep a l : dep (taint_of a l) l.
Proof. intros e e' H. unfold taint_of. rewrite (map_ext_in e e' l); auto. Qed.

Lemma taint_of_rrep a l : usable size a l -> rrep size (tainted bad) a l (taint_of a l).
Proof.
  intros [Wa Sa]. exists (fun e => elem a (map e l)). split; [apply lrep_wf; auto|].
  intros e He. unfold tainted, taint_of, elem. apply wf_readable in Wa as [_ Wa].
  destruct (Wa (map e l)) as (x & Ex); [rewrite Sa; apply in_bounds_map; auto|]. rewrite Ex. congruence.
Qed.

Lemma not_clean a l : usable size a l -> NoDup l -> ~ clean bad a ->
  exists e, (forall c, e c < size c) /\ taint_of a l e = Some true.
Proof.
  intros [Wa Sa] Hn Hc. apply wf_readable in Wa as [_ Wa].
  assert (H : exists idx x, in_bounds (a_shape a) idx = true /\ a_get a idx = Ok x /\ bad x = true).
  { destruct (existsb (fun idx => match a_get a idx with Ok x => bad x | _ => false end) (indices (a_shape a))) eqn:E.
    - apply existsb_exists in E as (idx & Hi & E). apply indices_In in Hi.
      destruct (a_get a idx) as [x| |] eqn:Ex; try discriminate. eauto 6.
    - exfalso. apply Hc. intros idx x Hi Ex. destruct (bad x) eqn:Eb; auto.
      assert (existsb (fun idx => match a_get a idx with Ok x => bad x | _ => false end) (indices (a_shape a)) = true).
      { apply existsb_exists. exists idx. split; [apply indices_In; auto|]. rewrite Ex. auto. }
      congruence. }
  destruct H as (idx & x & Hi & Ex & Eb). rewrite Sa in Hi.
  pose proof (in_bounds_length _ _ Hi) as Hl. rewrite map_length in Hl.
  exists (fun c => if mem c l then bind l idx c else 0).
  assert (Hm : map (fun c => if mem c l then bind l idx c else 0) l = idx).
  { transitivity (map (bind l idx) l); [|apply map_bind; auto].
    apply map_ext_in. intros c Hc'. apply mem_In in Hc'. rewrite Hc'. auto. }
  split.
  - intros c. destruct (mem c l) eqn:Em; [|apply Hpos]. apply mem_In in Em.
    assert (Hr : in_range size l (bind l idx)) by (apply in_bounds_map; rewrite map_bind; auto).
    apply Hr. auto.
  - unfold taint_of. rewrite Hm, Ex, Eb. reflexivity.
Qed.

Lemma clean_dec (a : arr A) : clean bad a \/ ~ clean bad a.
Proof.
  destruct (existsb (fun idx => match a_get a idx with Ok x => bad x | _ => false end) (indices (a_shape a))) eqn:E.
  - right. intros H. apply existsb_exists in E as (idx & Hi & E). apply indices_In in Hi.
    destruct (a_get a idx) as [x| |] eqn:Ex; try discriminate. rewrite (H idx x Hi Ex) in E. discriminate.
  - left. intros idx x Hi Ex. destruct (bad x) eqn:Eb; auto.
    assert (existsb (fun idx => match a_get a idx with Ok x => bad x | _ => false end) (indices (a_shape a)) = true).
    { apply existsb_exists. exists idx. split; [apply indices_In; auto|]. rewrite Ex. auto. }
    congruence.
Qed.

(** A bad term makes an element bad. *)
Lemma reaches r out cs (f : env -> option bool) e :
  rrep size (tainted bad) r out (@nested_sum _ taint_scalar size cs f) -> NoDup cs ->
  (forall x y, (forall c, x c = y c) -> f x = f y) -> (forall c, e c < size c) -> f e = Some true ->
  ~ clean bad r.
Proof.
  intros (F0 & (Sr & _ & Hg) & HR) Nc Hf He Ht Hc.
  assert (Hr : in_range size out e) by (intros c _; auto).
  specialize (HR e Hr). unfold tainted in HR.
  rewrite (taint_sum size cs f e e Hf Nc) in HR; auto.
  assert (Hb : bad (F0 e) = false).
  { apply (Hc (map e out)); [rewrite Sr; apply in_bounds_map; auto|]. apply Hg; auto. }
  rewrite HR in Hb; auto. discriminate.
Qed.

Lemma dep_pointwise {T} (f : env -> T) l : dep f l -> forall x y, (forall c, x c = y c) -> f x = f y.
Proof. intros H x y E. apply H. intros c _. apply E. Qed.

Lemma taint_mul x y : (x = Some true /\ y <> None) \/ (x <> None /\ y = Some true) ->
  @smul _ taint_scalar x y = Some true.
Proof. destruct x as [[]|], y as [[]|]; cbn; intros [[]|[]]; congruence. Qed.

(** ** One step *)

Definition step_checked (st : pair_step) (p : pair_contraction) : Prop :=
  forall l r o, sized (ps_sc st) [l; r] o size -> forall a b x, usable size a l -> usable size b r ->
    run_pair_contraction lay p a b = Ok x -> clean bad x -> run_pair_contraction_k bad lay p a b = Ok x.

Lemma pair_contraction_checked k sc lhs rhs out p : sized sc [lhs; rhs] out size ->
  pair_contraction_new h k sc = Ok p ->
  forall a b x, usable size a lhs -> usable size b rhs ->
    run_pair_contraction lay p a b = Ok x -> clean bad x -> run_pair_contraction_k bad lay p a b = Ok x.
Proof.
  intros HS Ep. unfold pair_contraction_new in Ep.
  rewrite (sc_ops2 sc lhs rhs out size HS), (sc_out2 sc lhs rhs out size HS) in Ep.
  cbn [length Nat.eqb rassert rbind] in Ep. unfold index in Ep. cbn [nth_error unwrap rbind] in Ep.
  destruct (simplification_ok h size Hh lay Hlay (0 :: k) lhs rhs out sc [lhs; rhs] out HS)
    as (ls & El & Nl & Il & Rl).
  { simpl. intros c Hc. apply in_or_app; auto. }
  destruct (simplification_ok h size Hh lay Hlay (1 :: k) rhs lhs out sc [lhs; rhs] out HS)
    as (rs & Er & Nr & Ir & Rr).
  { simpl. rewrite app_nil_r. intros c Hc. apply in_or_app; auto. }
  rewrite El, Er in Ep. cbn [rbind] in Ep. fold (new_labels ls lhs) (new_labels rs rhs) in Ep.
  set (l' := new_labels ls lhs) in *. set (r' := new_labels rs rhs) in *.
  pose proof HS as (_ & [Ho Hi] & _). simpl in Hi. rewrite app_nil_r in Hi.
  destruct (subset_ok h (2 :: k) sc [lhs; rhs] out size [l'; r'] out Hh HS) as (red & Es & HSr).
  { simpl. rewrite !app_nil_r. intros c Hc. apply in_app_iff in Hc. apply in_app_iff.
    rewrite Il, Ir in Hc. tauto. }
  { split; auto. simpl. rewrite app_nil_r. intros c Hc. specialize (Hi c Hc).
    rewrite in_app_iff in Hi. apply in_app_iff. rewrite Il, Ir. tauto. }
  rewrite Es in Ep. cbn [unwrap_res rbind] in Ep.
  assert (Hs : simplified l' r' out).
  { split; auto.
    - intros c Hc. specialize (Hi c Hc). rewrite in_app_iff in *. rewrite Il, Ir. tauto.
    - intros c. rewrite Il, Ir. tauto.
    - intros c. rewrite Il, Ir. tauto. }
  destruct (pair_op_ok red l' r' out size HSr (tainted bad) _ HW HE lay Hlay taint_semiring HF Hs)
    as (sm & op & E1 & E2 & Hop).
  rewrite E1 in Ep. cbn [rbind] in Ep. rewrite E2 in Ep. cbn [rbind] in Ep.
  destruct (as_einsum_string_sized red [l'; r'] out size HSr) as (str & Estr); [discriminate|].
  rewrite Estr in Ep. cbn [rbind] in Ep. injection Ep as <-.
  intros a b x [Wa Sa] [Wb Sb] E Hx. unfold run_pair_contraction_k, run_pair_contraction in *.
  cbn [pc_lhs_simplification pc_rhs_simplification pc_op] in *.
  apply rbind_ok in E as (a' & Ea & E). apply rbind_ok in E as (b' & Eb & E).
  assert (Ua : usable size a' l').
  { destruct (Rl a _ Wa (lrep_wf size a lhs Wa Sa)) as [[H _]|(_ & r & cs & H & _ & _ & (G & Hr & _))];
      rewrite Ea in H; [discriminate|injection H as <-].
    split; [eapply lrep_is_wf; [|exact Hr]; auto|]. destruct Hr; auto. }
  assert (Ub : usable size b' r').
  { destruct (Rr b _ Wb (lrep_wf size b rhs Wb Sb)) as [[H _]|(_ & r & cs & H & _ & _ & (G & Hr & _))];
      rewrite Eb in H; [discriminate|injection H as <-].
    split; [eapply lrep_is_wf; [|exact Hr]; auto|]. destruct Hr; auto. }
  destruct (Hop a' b' _ _ (taint_of_rrep a' l' Ua) (taint_of_rrep b' r' Ub)) as (x' & cs & E' & Pc & Hx').
  rewrite E in E'. injection E' as <-.
  assert (Ncs : NoDup cs).
  { eapply Permutation_NoDup; [apply Permutation_sym; exact Pc|]. apply NoDup_filter, distinct_NoDup. }
  assert (Df : forall y z, (forall c, y c = z c) ->
            @smul _ taint_scalar (taint_of a' l' y) (taint_of b' r' y) = @smul _ taint_scalar (taint_of a' l' z) (taint_of b' r' z)).
  { intros y z Hyz. f_equal; eapply dep_pointwise; eauto using taint_of_dep. }
  assert (Ca : clean bad a').
  { destruct (clean_dec a') as [H|H]; auto. exfalso. destruct (not_clean a' l' Ua Nl H) as (e & He & Ht).
    eapply (reaches x out cs _ e Hx' Ncs Df He); auto. apply taint_mul. left. split; [exact Ht|discriminate]. }
  assert (Cb : clean bad b').
  { destruct (clean_dec b') as [H|H]; auto. exfalso. destruct (not_clean b' r' Ub Nr H) as (e & He & Ht).
    eapply (reaches x out cs _ e Hx' Ncs Df He); auto. apply taint_mul. right. split; [discriminate|exact Ht]. }
  assert (Wx : wf x).
  { destruct Hx' as (F0 & H & _). eapply lrep_is_wf; [|exact H]. auto. }
  assert (Ka : run_simplification_k bad lay ls a = Ok a').
  { destruct ls as [s|]; [|exact Ea]. cbn [run_simplification_k run_simplification] in *. rewrite Ea.
    apply settle_clean; auto. apply Ua. }
  assert (Kb : run_simplification_k bad lay rs b = Ok b').
  { destruct rs as [s|]; [|exact Eb]. cbn [run_simplification_k run_simplification] in *. rewrite Eb.
    apply settle_clean; auto. apply Ub. }
  rewrite Ka, Kb. cbn [rbind]. rewrite E. apply settle_clean; auto.
Qed.

(** ** Many steps *)

Lemma compile_checked k out i pool steps : contracts size out i pool steps ->
  forall j pcs,
    mapM (fun ist => pair_contraction_new h (fst ist :: 9 :: k) (ps_sc (snd ist)))
      (combine (seq j (length steps)) steps) = Ok pcs ->
    Forall2 step_checked steps pcs.
Proof.
  assert (One : forall j sc l r o n1 n2 p, sized sc [l; r] o size ->
    pair_contraction_new h (j :: 9 :: k) sc = Ok p -> step_checked (mkPair sc n1 n2) p).
  { intros j sc l r o n1 n2 p HS E l' r' o' HS'. cbn [ps_sc] in HS'.
    destruct (sized_labels_unique size sc _ _ _ _ _ _ HS HS') as (<- & <- & <-).
    eapply pair_contraction_checked; eauto. }
  induction 1 as [i pool n1 l n2 r sc Hp HS|i pool n1 l n2 r rest sc o steps Hp HS HL Hch IH]; intros j pcs E;
    cbn [length seq combine mapM fst snd ps_sc] in E; apply rbind_ok in E as (p & Ep & E);
    apply rbind_ok in E as (ps & Eps & E); injection E as <-.
  - injection Eps as <-. constructor; [|constructor]. eapply One; eauto.
  - constructor; [eapply One; eauto|]. eapply IH; eauto.
Qed.

(** The arrays of the pool. *)
Definition taint_entry (q : (operand_number * list char) * arr A) : (operand_number * list char) * (arr A * (env -> option bool)) :=
  (fst q, (snd q, taint_of (snd q) (snd (fst q)))).

Definition member_ok (operands ints : list (arr A)) (q : (operand_number * list char) * arr A) : Prop :=
  fetch operands ints (fst (fst q)) = Ok (snd q) /\ usable size (snd q) (snd (fst q))
  /\ match fst (fst q) with Input _ => True | IntermediateResult _ => NoDup (snd (fst q)) end.

Lemma member_entry operands ints q : member_ok operands ints q ->
  entry_ok size (tainted bad) operands ints (taint_entry q).
Proof.
  destruct q as [[n l] a]. intros (H1 & H2 & H3). cbn [fst snd] in *.
  refine (conj H1 (conj (proj1 H2) (conj _ (conj _ H3)))); [apply taint_of_rrep; auto|apply taint_of_dep].
Qed.

Lemma member_more operands ints x q : member_ok operands ints q -> member_ok operands (ints ++ [x]) q.
Proof.
  destruct q as [[n l] a]. intros (H1 & H2 & H3). cbn [fst snd] in *.
  refine (conj _ (conj H2 H3)). cbn [fst snd].
  destruct n as [j|j]; auto. cbn [fetch] in *. unfold index in *.
  destruct (nth_error ints j) eqn:E; try discriminate. rewrite nth_error_app1, E; auto.
  apply nth_error_Some. congruence.
Qed.

Lemma product_tainted Q e : @entries_product A _ taint_scalar (map taint_entry Q) e <> None.
Proof.
  unfold entries_product. rewrite map_map. unfold product.
  induction Q as [|q Q IH]; [discriminate|]. cbn [map fold_right snd]. unfold taint_entry, taint_of in *. cbn [snd fst] in *.
  destruct (fold_right _ _ _) as [t|]; [discriminate|contradiction].
Qed.

Lemma contracts_checked out i pool steps : contracts size out i pool steps ->
  forall pcs, Forall2 (@step_right size _ _ Sc taint_scalar (tainted bad) lay) steps pcs -> Forall2 step_checked steps pcs ->
  forall operands ints Q ints' x, length ints = i -> map fst Q = pool -> Forall (member_ok operands ints) Q ->
    foldM (run_step lay operands) (combine pcs steps) ints = Ok (ints' ++ [x]) -> clean bad x ->
    foldM (run_step_k bad lay operands) (combine pcs steps) ints = Ok (ints' ++ [x]).
Proof.
  induction 1 as [i pool n1 l n2 r sc Hp HS|i pool n1 l n2 r rest sc o steps Hp HS HL Hch IH];
    intros pcs Hpc Hck operands ints Q ints' x Hi HQ Hok E Hx.
  - inversion Hpc as [|? pc ? pcs' Hr Hpc']; subst. inversion Hpc'; subst.
    inversion Hck as [|? ? ? ? Hk _]; subst. clear Hpc Hpc' Hck.
    assert (Hin : forall y, In y [(n1, l); (n2, r)] -> exists a, In (y, a) Q).
    { intros y Hy. apply (Permutation_in _ (Permutation_sym Hp)), in_map_iff in Hy as ([y' a] & <- & H). eauto. }
    destruct (Hin (n1, l)) as (a & Ia); [simpl; auto|]. destruct (Hin (n2, r)) as (b & Ib); [simpl; auto|].
    rewrite Forall_forall in Hok. destruct (Hok _ Ia) as (Fa & Ua & _). destruct (Hok _ Ib) as (Fb & Ub & _).
    cbn [fst snd] in *. cbn [combine foldM run_step run_step_k ps_lhs ps_rhs] in *. rewrite Fa, Fb in *. cbn [rbind] in *.
    apply rbind_ok in E as (u & E & Eu). injection Eu as ->. apply rbind_ok in E as (y & Ey & E). injection E as E.
    apply app_inj_tail in E as [-> ->].
    rewrite (Hk l r out HS a b x Ua Ub Ey Hx). reflexivity.
  - inversion Hpc as [|? pc ? pcs' Hr Hpc']; subst.
    inversion Hck as [|? ? ? ? Hk Hck']; subst. clear Hpc Hck.
    assert (Hsp : exists a b Q', Permutation Q (((n1, l), a) :: ((n2, r), b) :: Q') /\ map fst Q' = rest).
    { apply Permutation_sym, Permutation_map_inv in Hp as (Q' & E1 & Hp').
      destruct Q' as [|[y a] [|[z b] Q']]; try discriminate. cbn [map fst] in E1. injection E1 as -> -> ->.
      exists a, b, Q'. auto. }
    destruct Hsp as (a & b & Q' & HpQ & <-).
    pose proof (Permutation_Forall HpQ Hok) as Hok'.
    inversion Hok' as [|? ? Oa Hok1]; subst. inversion Hok1 as [|? ? Ob HokQ]; subst.
    pose proof Oa as (Fa & Ua & _). pose proof Ob as (Fb & Ub & _). cbn [fst snd] in Fa, Fb, Ua, Ub.
    pose proof (run_one size (tainted bad) lay operands ints n1 l n2 r sc o _ pc a b _ _ HS Hr eq_refl
                  (member_entry _ _ _ Oa) (member_entry _ _ _ Ob)) as Hone.
    cbv zeta in Hone.
    destruct Hone as [[E1 _]|[_ (res & cs & E1 & Nc & Ic & Wr & Hres)]].
    { cbn [combine foldM] in E. rewrite E1 in E. discriminate. }
    assert (No : NoDup o) by (destruct HS as (_ & [H _] & _); auto).
    assert (Ur : usable size res o).
    { split; auto. destruct Hres as (F0 & (H & _) & _). auto. }
    assert (HokN : Forall (member_ok operands (ints ++ [res])) (Q' ++ [((IntermediateResult (length ints), o), res)])).
    { apply Forall_app. split; [eapply Forall_impl; [|exact HokQ]; intros q; apply member_more|].
      constructor; [|constructor]. refine (conj _ (conj Ur No)). cbn [fst snd fetch].
      apply index_some. rewrite nth_error_app2, Nat.sub_diag by lia. reflexivity. }
    cbn [combine foldM] in E. rewrite E1 in E. cbn [rbind] in E.
    assert (Hlen : length (ints ++ [res]) = S (length ints)) by (rewrite app_length; simpl; lia).
    assert (Hfst : map fst (Q' ++ [((IntermediateResult (length ints), o), res)])
                   = map fst Q' ++ [(IntermediateResult (length ints), o)]) by (rewrite map_app; reflexivity).
    assert (Cr : clean bad res).
    { destruct (clean_dec res) as [H|H]; auto. exfalso.
      destruct (not_clean res o Ur No H) as (e & He & Ht).
      pose proof (run_contracts size (tainted bad) lay SM out (S (length ints)) _ steps Hch pcs' Hpc'
                operands (ints ++ [res]) (map taint_entry (Q' ++ [((IntermediateResult (length ints), o), res)])) Hlen) as Hrun.
      cbv zeta in Hrun. destruct Hrun as [[E2 _]|[_ (i2 & y & cs2 & E2 & Nc2 & Ic2 & Hy)]].
      { rewrite map_map. exact Hfst. }
      { apply Forall_forall. intros q Hq. apply in_map_iff in Hq as (q' & <- & Hq).
        apply member_entry. rewrite Forall_forall in HokN. auto. }
      { rewrite E2 in E. discriminate. }
      rewrite E2 in E. injection E as E. apply app_inj_tail in E as [_ ->].
      eapply (reaches x out cs2 _ e Hy Nc2); auto.
      - apply (dep_pointwise _ (entries_labels (map taint_entry (Q' ++ [((IntermediateResult (length ints), o), res)])))).
        eapply (entries_product_dep size (tainted bad) operands (ints ++ [res])).
        apply Forall_forall. intros q Hq. apply in_map_iff in Hq as (q' & <- & Hq).
        apply member_entry. rewrite Forall_forall in HokN. auto.
      - rewrite map_app. cbn [map].
        rewrite <- (entries_product_perm size SM _ _ e (Permutation_cons_append (map taint_entry Q') _)).
        change (@smul _ taint_scalar (taint_of res o e) (@entries_product A _ taint_scalar (map taint_entry Q') e) = Some true).
        apply taint_mul. left. split; [exact Ht|apply product_tainted]. }
    assert (E3 : run_step_k bad lay operands ints (pc, mkPair sc n1 n2) = Ok (ints ++ [res])).
    { cbn [run_step run_step_k ps_lhs ps_rhs] in *. rewrite Fa, Fb in *. cbn [rbind] in *.
      apply rbind_ok in E1 as (y & Ey & E1). injection E1 as E1. apply app_inj_tail in E1 as [_ ->].
      rewrite (Hk l r o HS a b res Ua Ub Ey Cr). reflexivity. }
    cbn [combine foldM]. rewrite E3. cbn [rbind].
    eapply IH; eauto.
Qed.

(** ** A whole order *)

Theorem valid_order_checked k ops out order p arrays x : NoDup out -> valid_order size ops out order ->
  from_path h k order = Ok p -> usables size arrays ops ->
  contract_operands lay p arrays = Ok x -> clean bad x -> contract_operands_k bad lay p arrays = Ok x.
Proof.
  intros Ho Hv E Hu Er Hx. destruct order as [sc|steps]; cbn [valid_order from_path] in *.
  - destruct Hv as (this & -> & HS). apply rbind_ok in E as (c & Ec & E). injection E as <-.
    inversion Hu as [|a ? ? ? [Wa Sa] Hu']; subst. inversion Hu'; subst.
    cbn [contract_operands contract_operands_k path_steps path_order] in *. unfold index in *.
    cbn [nth_error unwrap rbind] in *.
    destruct (singleton_contraction_ok sc this out size HS lay Hlay) as (c' & Ec' & Hc & _).
    rewrite Ec in Ec'. injection Ec' as <-.
    destruct (Hc a _ Wa (lrep_wf size a this Wa Sa)) as [[H _]|(_ & r & cs & H & _ & (G & Hr & _))];
      rewrite Er in H; [discriminate|injection H as <-].
    rewrite Er. apply settle_clean; auto. eapply lrep_is_wf; [|exact Hr]. auto.
  - apply rbind_ok in E as (pcs & Ec & E). injection E as <-.
    destruct (compile_contracts h size Hh (tainted bad) _ HW HE lay Hlay HF SM k out 0 (inputs ops) steps Hv 0)
      as (pcs' & Ec' & Hpc).
    rewrite Ec in Ec'. injection Ec' as <-.
    pose proof (compile_checked k out 0 (inputs ops) steps Hv 0 pcs Ec) as Hck.
    cbn [contract_operands contract_operands_k path_steps path_order] in *.
    apply rbind_ok in Er as (ints & Ei & Er).
    assert (El : exists i', ints = i' ++ [x]).
    { unfold pop_last in Er. destruct (nth_error ints (length ints - 1)) as [y|] eqn:En; [|discriminate].
      injection Er as <-. destruct ints as [|z ints] using rev_ind; [discriminate|]. clear IHints.
      rewrite app_length in En. cbn [length] in En. rewrite nth_error_app2 in En by lia.
      replace (length ints + 1 - 1 - length ints) with 0 in En by lia. injection En as ->. eauto. }
    destruct El as (i' & ->).
    rewrite (contracts_checked out 0 (inputs ops) steps Hv pcs Hpc Hck arrays []
               (combine (inputs ops) arrays) i' x eq_refl); auto.
    + assert (Hl : length (inputs ops) = length arrays).
      { unfold inputs. rewrite combine_length, map_length, seq_length. rewrite Nat.min_id.
        symmetry. clear -Hu. induction Hu; simpl; auto. }
      clear -Hl. revert Hl. generalize (inputs ops) as l. intros l. revert arrays.
      induction l as [|y l IH]; intros [|a arrays] H; simpl in *; try discriminate; f_equal; auto.
    + assert (G : forall j pre, length pre = j -> forall ops' rest, usables size rest ops' ->
         Forall (member_ok (pre ++ rest) []) (combine (combine (map Input (seq j (length ops'))) ops') rest)).
      { clear. intros j pre Hj ops' rest Hu. revert j pre Hj. induction Hu as [|a ix rest ops' Ua Hu IH]; intros j pre Hj.
        - constructor.
        - cbn [length seq map combine]. constructor.
          + refine (conj _ (conj Ua I)). cbn [fst snd fetch]. apply index_some.
            rewrite nth_error_app2, <- Hj, Nat.sub_diag by lia. reflexivity.
          + specialize (IH (S j) (pre ++ [a])). rewrite <- app_assoc in IH. apply IH. rewrite app_length. simpl. lia. }
      apply (G 0 [] eq_refl ops arrays Hu).
Qed.

(** ** Calls *)

Lemma einsum_checked s arrays ops out x :
  call_ok s (map (@a_shape A) arrays) ops out size -> Forall wf arrays ->
  einsum h lay s arrays = Ok x -> clean bad x -> einsum_k bad lay h s arrays = Ok x.
Proof.
  intros Hc Hw E Hx. unfold einsum_k, einsum, einsum_sc, validate_and_size, get_operand_shapes in *.
  destruct (from_string_ok h [20] s _ ops out size Hh Hc) as (sc & Es & HS).
  rewrite Es in *. cbn [rbind] in *. destruct Hc as (Hm & [Ho _] & Hs).
  assert (Hne : ops <> []) by (eapply meaning_nonempty; eauto).
  apply rbind_ok in E as (p & Ep & E). rewrite Ep. cbn [rbind].
  unfold einsum_path_new, generate_optimized_order, naive_order in Ep. apply rbind_ok in Ep as (order & Eo & Ep).
  pose proof HS as (Hcc & _). rewrite Hcc in Eo. cbn [contraction_of operand_indices] in Eo.
  assert (Hv : valid_order size ops out order).
  { eapply (generated_order_valid h _ size sc ops out _ order Hh HS Hne); [|exact Eo]. apply Permutation_refl. }
  apply (valid_order_checked _ ops out order p arrays x Ho Hv Ep); auto. apply usables_intro; auto.
Qed.

Lemma compile_and_run_checked s arrays ops out x strategy : strategy = Naive \/ strategy = Reverse ->
  call_ok s (map (@a_shape A) arrays) ops out size -> Forall wf arrays ->
  compile_and_run h lay s arrays strategy = Ok x -> clean bad x ->
  compile_and_run_k bad lay h s arrays strategy = Ok x.
Proof.
  intros Hst Hc Hw E Hx. unfold compile_and_run_k, compile_and_run in *.
  apply rbind_ok in E as (p & Ep & E). rewrite Ep. cbn [rbind].
  unfold einsum_path_fn, get_operand_shapes, validate_and_optimize_order in Ep.
  destruct (from_string_ok h [7; 22] s _ ops out size Hh Hc) as (sc & Es & HS).
  rewrite Es in *. cbn [rbind] in *. destruct Hc as (Hm & [Ho _] & Hs).
  assert (Hne : ops <> []) by (eapply meaning_nonempty; eauto).
  apply rbind_ok in Ep as (order & Eo & Ep).
  pose proof HS as (Hcc & _).
  assert (Hv : valid_order size ops out order).
  { destruct Hst as [-> | ->]; unfold generate_optimized_order, naive_order, reverse_order in Eo; rewrite Hcc in Eo;
      cbn [contraction_of operand_indices] in Eo;
      eapply (generated_order_valid h _ size sc ops out _ order Hh HS Hne); try exact Eo;
      [apply Permutation_refl|apply Permutation_sym, Permutation_rev]. }
  apply (valid_order_checked _ ops out order p arrays x Ho Hv Ep); auto. apply usables_intro; auto.
Qed.

End Reach.
