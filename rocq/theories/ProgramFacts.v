(** A compiled order of pair steps as a straight-line program. *)
From Verif Require Import Base BaseFacts NDArray Validation Optimizers Strategies Singleton Pair Path
  Api Spec ValidationFacts SumFacts ArrayFacts PairMain PathFacts EinsumMain MisuseFacts HandFacts LimitsFacts
  CompileFacts AssignFacts.
From Coq Require Import Lia.

(** ** The specification *)

(** What an operand number refers to. *)
Definition refers {T} (operands results : list T) (n : operand_number) : option T :=
  match n with
  | Input i => nth_error operands i
  | IntermediateResult i => nth_error results i
  end.

(** The lengths a step records. *)
Definition step_size (st : pair_step) : char -> nat := default_size (sc_output_size (ps_sc st)).
Definition step_output (st : pair_step) : list char := output_indices (sc_contraction (ps_sc st)).

(** Every step finds two arrays of the lengths it records. A label may have different lengths in different
    steps, and arrays may be used several times or not at all. *)
Fixpoint steps_fit (shapes results : list (list nat)) (steps : list pair_step) : Prop :=
  match steps with
  | [] => True
  | st :: rest =>
      (exists l r sl sr, operand_indices (sc_contraction (ps_sc st)) = [l; r]
         /\ refers shapes results (ps_lhs st) = Some sl /\ refers shapes results (ps_rhs st) = Some sr
         /\ shapes_ok (step_size st) [l; r] [sl; sr])
      /\ steps_fit shapes (results ++ [map (step_size st) (step_output st)]) rest
  end.

(** [x] is how a step ends, given the operands and the results of the steps before. *)
Definition step_ends {A} {Sc : Scalar A} (operands results : list (arr A)) (st : pair_step) (x : res (arr A)) : Prop :=
  exists l r a b, operand_indices (sc_contraction (ps_sc st)) = [l; r]
    /\ refers operands results (ps_lhs st) = Some a /\ refers operands results (ps_rhs st) = Some b
    /\ outcome_is x (step_size st) [a; b] [l; r] (step_output st).

(** The number refers to nothing in step [i], for that many operands. *)
Definition dangling (operands i : nat) (n : operand_number) : Prop :=
  match n with
  | Input j => operands <= j
  | IntermediateResult j => i <= j
  end.

(** ** Running *)

Lemma step_size_lengths sc : complete sc -> lengths sc (default_size (sc_output_size sc)).
Proof. apply complete_lengths. Qed.

Section Run.
Context {A : Type} {Sc : Scalar A}.
Variables (h : hash_order) (lay : backend A).
Hypothesis SR : semiring A.
Hypothesis Hh : hash_ok h.
Hypothesis Hlay : backend_ok lay.

Lemma compiled_pair_outcome k sc p (a b : arr A) l r : pair_contraction_new h k sc = Ok p ->
  let size := default_size (sc_output_size sc) in
  operand_indices (sc_contraction sc) = [l; r] -> wf a -> wf b ->
  a_shape a = map size l -> a_shape b = map size r ->
  outcome_is (run_pair_contraction lay p a b) size [a; b] [l; r] (output_indices (sc_contraction sc)).
Proof.
  intros E size Eo Wa Wb Sa Sb.
  destruct (pair_compiles_dec sc) as [[_ Hc]|Hn].
  2:{ rewrite (proj2 (pair_compiles_exact h k sc Hh) Hn) in E. discriminate. }
  pose proof (normal_sized sc _ Hc (complete_lengths sc Hc)) as HS. rewrite Eo in HS. fold size in HS.
  rewrite (pair_new_agree h k sc (normal sc) Hh (normal_agree sc)) in E.
  destruct (pair_contraction_outcome SR h lay k (normal sc) a b l r _ size Hh Hlay HS Wa Wb Sa Sb) as (p' & E' & Hp).
  assert (p' = p) by congruence. subst p'. exact Hp.
Qed.

(** What [mapM] over numbered steps gives. *)
Lemma mapM_steps {T U} (f : nat * T -> res U) l : forall s us, mapM f (combine (seq s (length l)) l) = Ok us ->
  length us = length l /\ forall i x u, nth_error l i = Some x -> nth_error us i = Some u -> f (s + i, x) = Ok u.
Proof.
  induction l as [|y l IH]; simpl; intros s us E.
  - injection E as <-. split; auto. intros [|i] x u Hx; discriminate Hx.
  - destruct (f (s, y)) as [v|?|] eqn:Ev; simpl in E; try discriminate.
    destruct (mapM f (combine (seq (Datatypes.S s) (length l)) l)) as [vs|?|] eqn:Evs; simpl in E; try discriminate.
    injection E as <-. destruct (IH _ _ Evs) as [H1 H2]. split; [simpl; lia|].
    intros [|i] x u Hx Hu; simpl in Hx, Hu.
    + injection Hx as <-. injection Hu as <-. rewrite Nat.add_0_r. auto.
    + rewrite Nat.add_succ_r. apply (H2 i x u Hx Hu).
Qed.

Lemma refers_map {T U} (f : T -> U) ops ints n :
  refers (map f ops) (map f ints) n = option_map f (refers ops ints n).
Proof. destruct n; simpl; apply nth_error_map. Qed.

Lemma fetch_refers (ops ints : list (arr A)) n a : refers ops ints n = Some a -> fetch ops ints n = Ok a.
Proof. destruct n; simpl; unfold index; intros ->; reflexivity. Qed.

Lemma refers_wf (ops ints : list (arr A)) n a : Forall wf ops -> Forall wf ints -> refers ops ints n = Some a -> wf a.
Proof.
  intros H1 H2 E. rewrite Forall_forall in H1, H2. destruct n; simpl in E; apply nth_error_In in E; auto.
Qed.

(** The steps from some point on. *)
Lemma steps_run (operands : list (arr A)) : Forall wf operands -> forall steps pcs ints,
  Forall wf ints -> length pcs = length steps ->
  (forall i st p, nth_error steps i = Some st -> nth_error pcs i = Some p ->
     exists k, pair_contraction_new h k (ps_sc st) = Ok p) ->
  steps_fit (map (@a_shape A) operands) (map (@a_shape A) ints) steps ->
  exists rs,
    (forall i x, nth_error rs i = Some x ->
       exists st, nth_error steps i = Some st /\ step_ends operands (ints ++ firstn i rs) st (Ok x))
    /\ ((length rs = length steps /\ foldM (run_step lay operands) (combine pcs steps) ints = Ok (ints ++ rs))
        \/ (foldM (run_step lay operands) (combine pcs steps) ints = Panic
            /\ exists st, nth_error steps (length rs) = Some st /\ step_ends operands (ints ++ rs) st Panic)).
Proof.
  intros Hw. induction steps as [|st steps IH]; intros pcs ints Hi Hl Hp Hf.
  - exists []. split; [intros [|i] x; discriminate|]. left. rewrite app_nil_r.
    destruct pcs; [|discriminate Hl]. auto.
  - destruct pcs as [|p pcs]; [discriminate Hl|]. injection Hl as Hl.
    destruct Hf as ((l & r & sl & sr & Eo & El & Er & Hs) & Hf).
    rewrite refers_map in El, Er.
    destruct (refers operands ints (ps_lhs st)) as [a|] eqn:Ea; [|discriminate].
    destruct (refers operands ints (ps_rhs st)) as [b|] eqn:Eb; [|discriminate].
    injection El as <-. injection Er as <-.
    inversion Hs as [|? ? ? ? Sa Hs' E1 E2]; subst. inversion Hs' as [|? ? ? ? Sb _ E1 E2]; subst.
    destruct (Hp 0 st p eq_refl eq_refl) as (k & Ek).
    assert (Wa : wf a) by (eapply refers_wf; [| |exact Ea]; auto).
    assert (Wb : wf b) by (eapply refers_wf; [| |exact Eb]; auto).
    pose proof (compiled_pair_outcome k (ps_sc st) p a b l r Ek Eo Wa Wb Sa Sb) as Ho.
    fold (step_size st) (step_output st) in Ho.
    cbn [combine foldM]. unfold run_step at 1 3.
    rewrite (fetch_refers _ _ _ _ Ea), (fetch_refers _ _ _ _ Eb). cbn [rbind].
    assert (He : forall x, run_pair_contraction lay p a b = x -> step_ends operands ints st x).
    { intros x <-. exists l, r, a, b. auto. }
    destruct (run_pair_contraction lay p a b) as [x|m|] eqn:Ex.
    2:{ destruct Ho as [[H _]|(_ & x & H & _)]; discriminate H. }
    2:{ exists []. split; [intros [|i] y; discriminate|]. right. split; [reflexivity|].
        exists st. split; [reflexivity|]. rewrite app_nil_r. auto. }
    cbn [rbind].
    assert (Hx : holds x (map (step_size st) (step_output st)) (einsum_value (step_size st) [a; b] [l; r] (step_output st))).
    { destruct Ho as [[H _]|(_ & x' & H & Hx)]; [discriminate H|]. injection H as <-. auto. }
    destruct (IH pcs (ints ++ [x])) as (rs & R1 & R2); auto.
    { apply Forall_app. split; auto. constructor; auto. eapply holds_wf; eauto. }
    { intros i st' p' H1 H2. apply (Hp (Datatypes.S i) st' p' H1 H2). }
    { rewrite map_app. cbn [map]. rewrite (proj1 Hx). exact Hf. }
    exists (x :: rs). split.
    + intros [|i] y Hy; simpl in Hy.
      * injection Hy as <-. exists st. split; [reflexivity|]. simpl. rewrite app_nil_r. auto.
      * destruct (R1 i y Hy) as (st' & E' & H'). exists st'. split; auto. cbn [firstn].
        rewrite <- app_assoc in H'. exact H'.
    + rewrite <- app_assoc in R2. cbn [app length nth_error] in *. destruct R2 as [[R2 R3]|(R2 & st' & R3 & R4)].
      * left. split; [lia|auto].
      * right. split; auto. exists st'. auto.
Qed.

Lemma run_pair_contraction_ne p (a b : arr A) : no_err (run_pair_contraction lay p a b).
Proof.
  unfold run_pair_contraction, run_simplification. no_err_tac; auto using run_singleton_ne, run_pair_ne.
Qed.

(** Steps whose references dangle. *)
Lemma foldM_steps_length (operands : list (arr A)) sos : forall ints ints',
  foldM (run_step lay operands) sos ints = Ok ints' -> length ints' = length ints + length sos.
Proof.
  induction sos as [|[p st] sos IH]; simpl; intros ints ints' E.
  - injection E as <-. lia.
  - destruct (fetch operands ints (ps_lhs st)) as [a|?|]; simpl in E; try discriminate.
    destruct (fetch operands ints (ps_rhs st)) as [b|?|]; simpl in E; try discriminate.
    destruct (run_pair_contraction lay p a b) as [x|?|]; simpl in E; try discriminate.
    apply IH in E. rewrite app_length in E. simpl in E. lia.
Qed.

Lemma dangling_fetch (operands ints : list (arr A)) n : dangling (length operands) (length ints) n ->
  fetch operands ints n = Panic.
Proof.
  destruct n as [j|j]; simpl; intros H; unfold index; rewrite (proj2 (nth_error_None _ _) H); reflexivity.
Qed.

Lemma dangling_steps (operands : list (arr A)) steps : forall pcs ints i st, length pcs = length steps ->
  nth_error steps i = Some st ->
  dangling (length operands) (length ints + i) (ps_lhs st) \/ dangling (length operands) (length ints + i) (ps_rhs st) ->
  foldM (run_step lay operands) (combine pcs steps) ints = Panic.
Proof.
  induction steps as [|st' steps IH]; intros pcs ints i st Hl E Hd; [destruct i; discriminate|].
  destruct pcs as [|p pcs]; [discriminate Hl|]. injection Hl as Hl. cbn [combine foldM]. unfold run_step at 1.
  assert (Fe : forall n, no_err (fetch operands ints n)).
  { intros n m. destruct n; apply no_err_index. }
  destruct i as [|i]; simpl in E.
  - injection E as ->. rewrite Nat.add_0_r in Hd.
    destruct Hd as [Hd|Hd]; rewrite (dangling_fetch _ _ _ Hd).
    + reflexivity.
    + destruct (fetch operands ints (ps_lhs st)) eqn:E1; try reflexivity. exfalso. apply (Fe _ _ E1).
  - destruct (fetch operands ints (ps_lhs st')) as [a|m|] eqn:E1; [|exfalso; apply (Fe _ _ E1)|reflexivity].
    destruct (fetch operands ints (ps_rhs st')) as [b|m|] eqn:E2; [|exfalso; apply (Fe _ _ E2)|reflexivity].
    cbn [rbind].
    destruct (run_pair_contraction lay p a b) as [x|m|] eqn:E3;
      [|exfalso; eapply run_pair_contraction_ne; exact E3|reflexivity].
    cbn [rbind]. apply (IH pcs (ints ++ [x]) i st Hl E).
    rewrite app_length. cbn [length]. replace (length ints + 1 + i) with (length ints + Datatypes.S i) by lia. auto.
Qed.

End Run.
