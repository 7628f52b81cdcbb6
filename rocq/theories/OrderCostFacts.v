(** The work of any contraction order, and which orders the limits change. *)
From Verif Require Import Base BaseFacts NDArray Validation Optimizers Strategies Singleton Pair Path
  Api Spec ValidationFacts SumFacts ArrayFacts PairMain PathFacts EinsumMain MisuseFacts HandFacts
  Overflow OverflowFacts Limits LimitsFacts LimitsMain Work WorkFacts WorkMain CompileFacts ProgramFacts.
From Coq Require Import Lia.

(** ** The specification *)

Definition step_products (st : pair_step) : nat :=
  match operand_indices (sc_contraction (ps_sc st)) with
  | [l; r] => pair_products (step_size st) l r (step_output st)
  | _ => 0
  end.

Definition step_summands (st : pair_step) : nat :=
  match operand_indices (sc_contraction (ps_sc st)) with
  | [l; r] => own_summands (step_size st) l (r ++ step_output st)
              + own_summands (step_size st) r (l ++ step_output st)
  | _ => 0
  end.

Definition order_products (steps : list pair_step) : nat := list_sum (map step_products steps).
Definition order_summands (steps : list pair_step) : nat := list_sum (map step_summands steps).

(** Every result is an array ndarray can make, under the limit [L]. *)
Definition step_results_fit (L : nat) (steps : list pair_step) : Prop :=
  Forall (fun st => nonzero_product (map (step_size st) (step_output st)) <= L) steps.

(** So is every operand of a step, under the limit [M] on computed products. *)
Definition step_operands_fit (M : nat) (steps : list pair_step) : Prop :=
  Forall (fun st => Forall (fun ix => nonzero_product (map (step_size st) ix) <= M)
                      (operand_indices (sc_contraction (ps_sc st)))) steps.

(** ** Compiling *)

Lemma compiled_normal h k sc p : hash_ok h -> pair_contraction_new h k sc = Ok p ->
  pair_contraction_new h k (normal sc) = Ok p
  /\ sized (normal sc) (operand_indices (sc_contraction sc)) (output_indices (sc_contraction sc))
       (default_size (sc_output_size sc)).
Proof.
  intros Hh E. destruct (pair_compiles_dec sc) as [[_ Hc]|Hn].
  2:{ rewrite (proj2 (pair_compiles_exact h k sc Hh) Hn) in E. discriminate. }
  split; [|apply (normal_sized sc _ Hc (complete_lengths sc Hc))].
  rewrite <- E. symmetry. apply pair_new_agree; auto. apply normal_agree.
Qed.

Lemma pair_new_agree_c M h k sc sc' : hash_ok h -> agree sc sc' ->
  pair_contraction_new_c M h k sc = pair_contraction_new_c M h k sc'.
Proof.
  intros Hh Ha. pose proof Ha as (Ho & Hu & _). unfold pair_contraction_new_c. rewrite <- Ho, <- Hu.
  destruct (operand_indices (sc_contraction sc)) as [|lhs [|rhs [|x ops]]] eqn:E; auto.
  cbn [length Nat.eqb rassert rbind]. unfold index. cbn [nth_error unwrap rbind].
  rewrite (simplification_from_agree h (0 :: k) lhs rhs _ sc sc' Ha).
  2:{ rewrite E. simpl. intros c Hc. apply in_or_app; auto. }
  rewrite (simplification_from_agree h (1 :: k) rhs lhs _ sc sc' Ha).
  2:{ rewrite E. simpl. rewrite app_nil_r. intros c Hc. apply in_or_app; auto. }
  destruct (simplification_from h (0 :: k) lhs rhs _ sc') as [ls|?|] eqn:El; cbn [rbind]; auto.
  destruct (simplification_from h (1 :: k) rhs lhs _ sc') as [rs|?|] eqn:Er; cbn [rbind]; auto.
  rewrite (subset_agree h (2 :: k) sc sc'); auto. rewrite E. simpl. rewrite !app_nil_r.
  apply incl_app.
  - destruct ls as [s|]; [apply incl_appl; eapply simplification_labels; eauto|apply incl_appl, incl_refl].
  - destruct rs as [s|]; [apply incl_appr; eapply simplification_labels; eauto|apply incl_appr, incl_refl].
Qed.

Lemma pair_new_checked M h k sc : hash_ok h ->
  Forall (fun ix => nonzero_product (map (default_size (sc_output_size sc)) ix) <= M)
    (operand_indices (sc_contraction sc)) ->
  pair_contraction_new_c M h k sc = pair_contraction_new h k sc.
Proof.
  intros Hh Hf. destruct (pair_compiles_dec sc) as [Hc|Hn].
  - destruct (proj1 (pair_compiles_exact h k sc Hh) Hc) as (p & E).
    destruct (compiled_normal h k sc p Hh E) as [E' HS].
    rewrite (pair_new_agree_c M h k sc (normal sc) Hh (normal_agree sc)).
    rewrite (pair_new_agree h k sc (normal sc) Hh (normal_agree sc)).
    destruct Hc as [Hl _].
    destruct (operand_indices (sc_contraction sc)) as [|l [|r [|x ops]]] eqn:Eo; try discriminate Hl.
    inversion Hf as [|? ? H1 Hf']; subst. inversion Hf' as [|? ? H2 _]; subst.
    apply (pair_contraction_checked M h k _ l r _ _ Hh HS); auto.
  - rewrite (proj2 (pair_compiles_exact h k sc Hh) Hn).
    destruct (pair_contraction_below M h k sc) as [E|E]; rewrite E; [reflexivity|].
    exact (proj2 (pair_compiles_exact h k sc Hh) Hn).
Qed.

Lemma orders_checked M h k steps : hash_ok h -> step_operands_fit M steps ->
  from_path_c M h k (Pairs steps) = from_path h k (Pairs steps).
Proof.
  intros Hh Hf. cbn [from_path_c from_path].
  rewrite (mapM_ext_in _ (fun ist => pair_contraction_new h (fst ist :: 9 :: k) (ps_sc (snd ist)))); [reflexivity|].
  intros [n st] Hi. apply in_combine_r in Hi. cbn [fst snd]. unfold step_operands_fit in Hf.
  rewrite Forall_forall in Hf. apply (pair_new_checked M h _ (ps_sc st) Hh). apply (Hf st Hi).
Qed.

(** ** Running *)

Section Run.
Context {A : Type} {Sc : Scalar A}.
Variables (h : hash_order) (lay : backend A).
Hypothesis Hh : hash_ok h.
Hypothesis Hlay : backend_runs lay.

Lemma steps_cost (operands : list (arr A)) : Forall wf operands -> forall steps pcs ints,
  Forall wf ints -> length pcs = length steps ->
  (forall i st p, nth_error steps i = Some st -> nth_error pcs i = Some p ->
     exists k, pair_contraction_new h k (ps_sc st) = Ok p) ->
  steps_fit (map (@a_shape A) operands) (map (@a_shape A) ints) steps ->
  costs (foldC (run_step_w lay operands) (combine pcs steps) ints)
    (foldM (run_step lay operands) (combine pcs steps) ints)
    (mkWork (order_products steps) (order_summands steps)).
Proof.
  intros Hw. induction steps as [|st steps IH]; intros pcs ints Hi Hl Hp Hf.
  - destruct pcs; [|discriminate Hl]. reflexivity.
  - destruct pcs as [|p pcs]; [discriminate Hl|]. injection Hl as Hl.
    destruct Hf as ((l & r & sl & sr & Eo & El & Er & Hs) & Hf).
    rewrite refers_map in El, Er.
    destruct (refers operands ints (ps_lhs st)) as [a|] eqn:Ea; [|discriminate].
    destruct (refers operands ints (ps_rhs st)) as [b|] eqn:Eb; [|discriminate].
    injection El as <-. injection Er as <-.
    inversion Hs as [|? ? ? ? Sa Hs' E1 E2]; subst. inversion Hs' as [|? ? ? ? Sb _ E1 E2]; subst.
    destruct (Hp 0 st p eq_refl eq_refl) as (k & Ek).
    assert (Wa : wf a) by (eapply refers_wf; [| |exact Ea]; auto).
    assert (Wb : wf b) by (eapply refers_wf; [| |exact Eb]; auto).
    destruct (compiled_normal h k _ p Hh Ek) as [En HS]. rewrite Eo in HS.
    fold (step_size st) (step_output st) in HS.
    pose proof (step_costs (step_size st) h Hh lay Hlay k _ l r _ p a b HS En (conj Wa Sa) (conj Wb Sb)) as Hc.
    cbn [combine foldC foldM]. eapply costs_eq; [apply costs_bind|].
    + unfold run_step_w, run_step. rewrite (fetch_refers _ _ _ _ Ea), (fetch_refers _ _ _ _ Eb).
      apply costs_after. intros ? [= <-]. apply costs_after. intros ? [= <-].
      apply (costs_before _ _ (fun x => Ok (ints ++ [x]))). exact Hc.
    + intros ints' E. unfold run_step in E. rewrite (fetch_refers _ _ _ _ Ea), (fetch_refers _ _ _ _ Eb) in E.
      cbn [rbind] in E. apply bind_Ok in E as (x & Hx & E). injection E as <-.
      destruct (LimitsMain.step_ends (step_size st) h Hh lay Hlay k _ l r _ p a b HS En Wa Wb Sa Sb) as [E|(y & E & Wy & Sy)];
        rewrite E in Hx; [discriminate|]. injection Hx as ->.
      apply (IH pcs (ints ++ [x])); auto.
      * apply Forall_app. auto.
      * intros i st' p' H1 H2. apply (Hp (Datatypes.S i) st' p' H1 H2).
      * rewrite map_app. cbn [map]. rewrite Sy. exact Hf.
    + unfold more, pair_work, order_products, order_summands. cbn [map list_sum fold_right products summands].
      unfold step_products at 2, step_summands at 2. rewrite Eo. reflexivity.
Qed.

Lemma orders_cost k steps p (arrays : list (arr A)) : from_path h k (Pairs steps) = Ok p -> Forall wf arrays ->
  steps_fit (map (@a_shape A) arrays) [] steps ->
  costs (contract_operands_w lay p arrays) (contract_operands lay p arrays)
    (mkWork (order_products steps) (order_summands steps)).
Proof.
  intros Ep Hw Hf. cbn [from_path] in Ep.
  destruct (mapM _ _) as [pcs|?|] eqn:Em; cbn [rbind] in Ep; try discriminate. injection Ep as <-.
  destruct (mapM_steps _ _ _ _ Em) as [H1 H2]. cbn [fst snd] in H2.
  unfold contract_operands, contract_operands_w. cbn [path_steps path_order].
  apply costs_before. apply steps_cost; auto.
  intros i st p E1 E2. specialize (H2 i st p E1 E2). eauto.
Qed.

(** ** Limits *)

Variable L : nat.

Lemma steps_limited (operands : list (arr A)) : Forall wf operands -> Forall (shape_fits L) operands ->
  forall steps pcs ints,
  Forall wf ints -> Forall (shape_fits L) ints -> length pcs = length steps ->
  (forall i st p, nth_error steps i = Some st -> nth_error pcs i = Some p ->
     exists k, pair_contraction_new h k (ps_sc st) = Ok p) ->
  steps_fit (map (@a_shape A) operands) (map (@a_shape A) ints) steps ->
  (step_results_fit L steps ->
     foldM (run_step_l L lay operands) (combine pcs steps) ints = foldM (run_step lay operands) (combine pcs steps) ints)
  /\ (~ step_results_fit L steps -> foldM (run_step_l L lay operands) (combine pcs steps) ints = Panic).
Proof.
  intros Hw Hwf. induction steps as [|st steps IH]; intros pcs ints Hi Hif Hl Hp Hf.
  - destruct pcs; [|discriminate Hl]. split; [reflexivity|]. intros H. exfalso. apply H. constructor.
  - destruct pcs as [|p pcs]; [discriminate Hl|]. injection Hl as Hl.
    destruct Hf as ((l & r & sl & sr & Eo & El & Er & Hs) & Hf).
    rewrite refers_map in El, Er.
    destruct (refers operands ints (ps_lhs st)) as [a|] eqn:Ea; [|discriminate].
    destruct (refers operands ints (ps_rhs st)) as [b|] eqn:Eb; [|discriminate].
    injection El as <-. injection Er as <-.
    inversion Hs as [|? ? ? ? Sa Hs' E1 E2]; subst. inversion Hs' as [|? ? ? ? Sb _ E1 E2]; subst.
    destruct (Hp 0 st p eq_refl eq_refl) as (k & Ek).
    assert (Wa : wf a) by (eapply refers_wf; [| |exact Ea]; auto).
    assert (Wb : wf b) by (eapply refers_wf; [| |exact Eb]; auto).
    assert (Fit : forall n x, refers operands ints n = Some x -> shape_fits L x).
    { intros n x E. rewrite Forall_forall in Hwf, Hif. destruct n; simpl in E; apply nth_error_In in E; auto. }
    destruct (compiled_normal h k _ p Hh Ek) as [En HS]. rewrite Eo in HS.
    fold (step_size st) (step_output st) in HS.
    cbn [combine foldM].
    assert (R : run_step lay operands ints (p, st) = do x <- run_pair_contraction lay p a b; Ok (ints ++ [x])).
    { unfold run_step. rewrite (fetch_refers _ _ _ _ Ea), (fetch_refers _ _ _ _ Eb). reflexivity. }
    assert (R' : run_step_l L lay operands ints (p, st) = do x <- run_pair_contraction_l L lay p a b; Ok (ints ++ [x])).
    { unfold run_step_l. rewrite (fetch_refers _ _ _ _ Ea), (fetch_refers _ _ _ _ Eb). reflexivity. }
    rewrite R, R'. clear R R'.
    rewrite (step_limited L (step_size st) h Hh lay Hlay k _ l r _ p a b HS En Wa Wb Sa Sb (Fit _ _ Ea) (Fit _ _ Eb)).
    destruct (LimitsMain.step_ends (step_size st) h Hh lay Hlay k _ l r _ p a b HS En Wa Wb Sa Sb) as [E|(x & E & Wx & Sx)];
      rewrite E; [split; intros _; reflexivity|].
    unfold limited, fits. cbn [rbind]. rewrite Sx.
    destruct (Nat.leb_spec (nonzero_product (map (step_size st) (step_output st))) L) as [Hx|Hx]; cbn [rbind].
    + destruct (IH pcs (ints ++ [x])) as [I1 I2]; auto.
      * apply Forall_app. auto.
      * apply Forall_app. split; auto. constructor; auto. unfold shape_fits. rewrite Sx. auto.
      * intros i st' p' H1 H2. apply (Hp (Datatypes.S i) st' p' H1 H2).
      * rewrite map_app. cbn [map]. rewrite Sx. exact Hf.
      * split; intros H.
        -- apply I1. inversion H; auto.
        -- apply I2. intros H'. apply H. constructor; auto.
    + split; auto. intros H. pose proof (Forall_inv H) as H6. cbv beta in H6. lia.
Qed.

Lemma orders_limited k steps p (arrays : list (arr A)) : from_path h k (Pairs steps) = Ok p -> Forall wf arrays ->
  Forall (shape_fits L) arrays -> steps_fit (map (@a_shape A) arrays) [] steps ->
  (step_results_fit L steps -> contract_operands_l L lay p arrays = contract_operands lay p arrays)
  /\ (~ step_results_fit L steps -> contract_operands_l L lay p arrays = Panic).
Proof.
  intros Ep Hw Hwf Hf. cbn [from_path] in Ep.
  destruct (mapM _ _) as [pcs|?|] eqn:Em; cbn [rbind] in Ep; try discriminate. injection Ep as <-.
  destruct (mapM_steps _ _ _ _ Em) as [H1 H2]. cbn [fst snd] in H2.
  unfold contract_operands, contract_operands_l. cbn [path_steps path_order].
  destruct (steps_limited arrays Hw Hwf steps pcs [] (Forall_nil _) (Forall_nil _) H1) as [I1 I2]; auto.
  { intros i st p E1 E2. specialize (H2 i st p E1 E2). eauto. }
  split; intros H; [rewrite I1|rewrite I2]; auto.
Qed.

End Run.
