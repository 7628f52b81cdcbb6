(** Compiled steps (C42): which contractor a step of a path uses, when an operand is simplified first,
    and what the strings stored in the path say. *)
From Verif Require Import Base NDArray Validation Optimizers Strategies Singleton Pair Path Api Spec BaseFacts ParserFacts
  ValidationMain SumFacts EinsumMain PlanFacts Examples.
From Coq Require Import Lia.
From Coq Require String.
Import String.StringSyntax.
Local Open Scope string_scope.
Local Open Scope list_scope.

(** [path_plan], [pair_plan], [simplification_plan], [pair_case] and [singleton_case] are the
    specification, in PlanFacts.v. *)
Theorem compiled_paths_follow_the_plan :
  forall (A : Type) h s (arrays : list (arr A)) strategy p, hash_ok h ->
    einsum_path_fn h s arrays strategy = Ok p -> path_plan p.
Proof.
  intros A h s arrays strategy p Hh E.
  destruct (accepted_dec h Hh s (map (@a_shape A) arrays)) as [(ops & out & size & Hc)|Hn].
  - eapply call_plan; eauto.
  - apply (path_rejects h Hh s arrays strategy) in Hn as (m & Em). congruence.
Qed.
Print Assumptions compiled_paths_follow_the_plan.

(** The cases exclude each other, so the plan determines each method. *)
Theorem plans_determine_the_methods :
  (forall m m' this out, NoDup out -> incl out this ->
     singleton_case m this out -> singleton_case m' this out -> m = m')
  /\ (forall m m' lhs rhs out,
       (forall c, In c lhs -> In c rhs \/ In c out) -> (forall c, In c rhs -> In c lhs \/ In c out) ->
       pair_case m lhs rhs out -> pair_case m' lhs rhs out -> m = m').
Proof. split; [exact singleton_case_unique|exact pair_case_unique]. Qed.
Print Assumptions plans_determine_the_methods.

(** What a path shows of itself: the methods, and the strings of the steps. *)
Definition shown (p : einsum_path) :=
  match path_steps p with
  | StepsSingleton c => (Some (sgl_method c), [])
  | StepsPairs l =>
      (None, map (fun c => (option_map simpl_method (pc_lhs_simplification c),
                            option_map simpl_method (pc_rhs_simplification c),
                            pc_method c, pc_string c)) l)
  end.
Definition shape_arr (sh : list nat) : arr Z := zarr sh (repeat 0%Z (prod sh)).

(** The cases of the documentation (contractors/mod.rs:131-133 and 247-258), and one more. *)
Example plan_cases :
  (do p <- einsum_path_fn id_hash (chars "iij->i") [shape_arr [2; 2; 3]] Naive; Ok (shown p))
    = Ok (Some MDiagonalizationAndSummation, [])
  /\ (do p <- einsum_path_fn id_hash (chars "ijk->kij") [shape_arr [2; 3; 4]] Naive; Ok (shown p))
    = Ok (Some MPermutation, [])
  /\ (do p <- einsum_path_fn id_hash (chars "ijk,kj->jk") [shape_arr [2; 3; 4]; shape_arr [4; 3]] Naive; Ok (shown p))
    = Ok (None, [(Some MPermutationAndSummation, None, MHadamardProductGeneral, chars "jk,kj->jk")])
  /\ (do p <- einsum_path_fn id_hash (chars "iij,jkk->ik") [shape_arr [2; 2; 3]; shape_arr [3; 4; 4]] Naive; Ok (shown p))
    = Ok (None, [(Some MDiagonalization, Some MDiagonalization, MTensordotGeneral, chars "ij,jk->ik")])
  /\ (do p <- einsum_path_fn id_hash (chars "bij,bjk,m->bik") [shape_arr [2; 3; 4]; shape_arr [2; 4; 5]; shape_arr [6]] Naive;
      Ok (shown p))
    = Ok (None, [(None, None, MStackedTensordotGeneral, chars "bij,bjk->ibk");
                 (None, Some MSummation, MMatrixScalarProductGeneral, chars "ibk,->bik")]).
Proof. repeat split; vm_compute; reflexivity. Qed.

(** The operands read off a string: the pieces between commas before the arrow. *)
Fixpoint before_arrow (s : list char) : list char :=
  match s with [] => [] | c :: s' => if N.eqb c 45 then [] else c :: before_arrow s' end.
Lemma before_arrow_app x y : ~ In 45%N x -> before_arrow (x ++ y) = x ++ before_arrow y.
Proof.
  induction x as [|c x IH]; intros H; simpl; auto. destruct (N.eqb_spec c 45) as [->|Hc].
  - exfalso. apply H. simpl. auto.
  - rewrite IH; auto. intros Hx. apply H. simpl. auto.
Qed.
Lemma lower_no_dash x : lower_run x -> ~ In 45%N x.
Proof. intros H Hi. unfold lower_run in H. rewrite Forall_forall in H. destruct (H _ Hi). lia. Qed.
Lemma tail_no_dash ops : Forall operand_run ops -> ~ In 45%N (tail ops).
Proof.
  induction 1 as [|op ops [_ Hl] Hf IH]; simpl; auto. intros [H|H]; [discriminate|].
  apply in_app_or in H as [H|H]; auto. apply (lower_no_dash op); auto.
Qed.
Lemma meaning_pieces s ops out : meaning s ops out -> split_on c_comma (before_arrow s) = ops.
Proof.
  intros Hm. pose proof (meaning_operands _ _ _ Hm) as [Hn Hf]. destruct ops as [|op ops]; [congruence|].
  inversion Hf as [|? ? [Ho Hl] Hf']; subst.
  assert (Hj : ~ In 45%N (op ++ tail ops)).
  { intros H. apply in_app_or in H as [H|H]; [exact (lower_no_dash op Hl H)|exact (tail_no_dash ops Hf' H)]. }
  assert (E : before_arrow s = op ++ tail ops).
  { destruct Hm as [Hg|[Hg _]]; inversion Hg; subst; rewrite join_cons.
    - rewrite before_arrow_app by auto. apply app_nil_r.
    - rewrite <- (app_nil_r (op ++ tail ops)) at 1. rewrite before_arrow_app by auto. apply app_nil_r. }
  rewrite E, split_on_app_nosep by (apply lower_no_comma; auto). rewrite split_tail, app_nil_r by auto. reflexivity.
Qed.

(** The string of a step says which contraction the step performs on its simplified operands, and it
    parses exactly when both of them keep a label. *)
Theorem step_strings_mean_the_step :
  forall (A : Type) h s (arrays : list (arr A)) strategy p l, hash_ok h ->
    einsum_path_fn h s arrays strategy = Ok p -> path_steps p = StepsPairs l ->
    exists steps, path_order p = Pairs steps /\ Forall2 (fun st c => exists lhs rhs lkept rkept,
      let out := output_indices (sc_contraction (ps_sc st)) in
      operand_indices (sc_contraction (ps_sc st)) = [lhs; rhs]
      /\ simplification_plan (pc_lhs_simplification c) lhs (rhs ++ out) lkept
      /\ simplification_plan (pc_rhs_simplification c) rhs (lhs ++ out) rkept
      /\ (lkept <> [] -> rkept <> [] -> meaning (pc_string c) [lkept; rkept] out)
      /\ ((exists ops o, meaning (pc_string c) ops o) <-> lkept <> [] /\ rkept <> [])) steps l.
Proof.
  intros A h s arrays strategy p l Hh E Es.
  destruct (accepted_dec h Hh s (map (@a_shape A) arrays)) as [(ops & out & size & Hc)|Hn].
  2:{ apply (path_rejects h Hh s arrays strategy) in Hn as (m & Em). congruence. }
  pose proof (call_plan h Hh _ _ _ _ _ _ _ Hc E) as Hp. pose proof (call_lower h Hh _ _ _ _ _ _ _ Hc E) as Hl.
  unfold path_plan in Hp. unfold path_lower in Hl. rewrite Es in Hp.
  destruct (path_order p) as [sc|steps]; [contradiction|]. destruct Hl as [_ Hl]. exists steps.
  split; auto. clear - Hp Hl.
  induction Hp as [|st c steps l (lhs & rhs & E & lk & rk & Pl & Pr & _ & _ & Hs) Hp IH]; [constructor|].
  inversion Hl as [|? ? [H1 H2] H3]; subst. constructor; auto. clear IH H3 Hl Hp.
  set (out := output_indices _) in *. exists lhs, rhs, lk, rk. cbv zeta. split; auto. split; auto. split; auto.
  rewrite E in H1. inversion H1 as [|? ? Hlr H4]; subst. inversion H4 as [|? ? Hrr _]; subst.
  assert (Lk : lower_run lk).
  { destruct Pl as (_ & H & _). apply Forall_forall. intros x Hx. apply H in Hx as [Hx _].
    unfold lower_run in Hlr. rewrite Forall_forall in Hlr. auto. }
  assert (Rk : lower_run rk).
  { destruct Pr as (_ & H & _). apply Forall_forall. intros x Hx. apply H in Hx as [Hx _].
    unfold lower_run in Hrr. rewrite Forall_forall in Hrr. auto. }
  assert (Hm : lk <> [] -> rk <> [] -> meaning (pc_string c) [lk; rk] out).
  { intros Nl Nr. left. rewrite Hs. change (lk ++ [c_comma] ++ rk ++ arrow ++ out) with (lk ++ (comma :: rk) ++ arrow ++ out).
    rewrite app_assoc. change (lk ++ comma :: rk) with (join [lk; rk]). apply grammar_explicit; auto; [discriminate|].
    repeat constructor; auto. }
  split; auto. split; [|intros []; eauto].
  intros (ops & o & Hx). pose proof (meaning_pieces _ _ _ Hx) as Ep. apply meaning_operands in Hx as [_ Hf].
  rewrite Hs in Ep. rewrite before_arrow_app in Ep by (apply lower_no_dash; auto).
  rewrite before_arrow_app in Ep by (intros [H|[]]; discriminate).
  rewrite before_arrow_app in Ep by (apply lower_no_dash; auto). simpl before_arrow in Ep. rewrite app_nil_r in Ep.
  rewrite split_on_app_nosep in Ep by (apply lower_no_comma; auto).
  change ([c_comma] ++ rk) with (c_comma :: rk) in Ep. simpl split_on in Ep.
  rewrite <- (app_nil_r rk), split_on_app_nosep in Ep by (apply lower_no_comma; auto).
  simpl in Ep. rewrite !app_nil_r in Ep. rewrite <- Ep in Hf.
  inversion Hf as [|? ? [Hy _] Hf']; subst. inversion Hf' as [|? ? [Hz _] _]; subst. auto.
Qed.
Print Assumptions step_strings_mean_the_step.

(** The string of a step need not parse: an operand that is summed away leaves no label. *)
Theorem step_strings_parse_refuted :
  ~ (forall h s (arrays : list (arr Z)) strategy p l c, hash_ok h ->
       einsum_path_fn h s arrays strategy = Ok p -> path_steps p = StepsPairs l -> In c l ->
       exists v, validate h [] (pc_string c) = Ok v).
Proof.
  intros H. set (arrays := [shape_arr [3]; shape_arr [6]]).
  destruct (einsum_path_fn id_hash (chars "i,m->i") arrays Naive) as [p| |] eqn:E;
    [|vm_compute in E; discriminate|vm_compute in E; discriminate].
  specialize (H id_hash (chars "i,m->i") arrays Naive p).
  vm_compute in E. injection E as <-. edestruct H as (v & Hv).
  - exact id_hash_ok'.
  - vm_compute. reflexivity.
  - reflexivity.
  - left. reflexivity.
  - vm_compute in Hv. discriminate.
Qed.
Print Assumptions step_strings_parse_refuted.

(** ** The summaries the methods are chosen from *)

(** [PairSummary::new] returns exactly for two operands in which, as in the result, no label occurs
    twice, and counts the labels of the four kinds. *)
Definition plain_pair (sc : sized_contraction) (lhs rhs : list char) : Prop :=
  operand_indices (sc_contraction sc) = [lhs; rhs]
  /\ NoDup lhs /\ NoDup rhs /\ NoDup (output_indices (sc_contraction sc)).

Lemma length_filter_split {T : Type} (f : T -> bool) l :
  length (filter f l) + length (filter (fun x => negb (f x)) l) = length l.
Proof. induction l as [|x l IH]; cbn [filter]; auto. destruct (f x); cbn [negb length]; lia. Qed.

Lemma filter_filter {T : Type} (f g : T -> bool) l :
  filter g (filter f l) = filter (fun x => f x && g x) l.
Proof.
  induction l as [|x l IH]; cbn [filter]; auto. destruct (f x); cbn [filter andb]; rewrite ?IH; auto.
Qed.

Lemma length_common (l m : list char) : NoDup l -> NoDup m ->
  length (filter (fun c => mem c m) l) = length (filter (fun c => mem c l) m).
Proof.
  intros Hl Hm. apply Nat.le_antisymm; apply NoDup_incl_length; try (apply NoDup_filter; auto);
    intros c Hc; apply filter_In in Hc as [Hc Hd]; apply filter_In; rewrite mem_In in *; auto.
Qed.

Theorem pair_summaries_count_the_labels : forall sc,
  (forall lhs rhs, plain_pair sc lhs rhs ->
     let out := output_indices (sc_contraction sc) in
     pair_summary_new sc
     = Ok (mkPairSummary (length (filter (fun c => mem c rhs && mem c out) lhs))
             (length (filter (fun c => negb (mem c rhs)) lhs))
             (length (filter (fun c => negb (mem c lhs)) rhs))
             (length (filter (fun c => mem c rhs && negb (mem c out)) lhs))))
  /\ ((forall lhs rhs, ~ plain_pair sc lhs rhs) -> pair_summary_new sc = Panic).
Proof.
  intros sc. split.
  - intros lhs rhs (Eo & Hl & Hr & Ho) out. subst out.
    unfold pair_summary_new. rewrite Eo. cbn [length Nat.eqb rassert rbind index nth_error unwrap].
    unfold pair_summary_from_indices. rewrite !distinct_fixed by auto. rewrite !Nat.eqb_refl.
    cbn [rassert rbind]. cbv zeta. set (out := output_indices (sc_contraction sc)).
    pose proof (length_filter_split (fun c => mem c rhs) lhs) as E1.
    pose proof (length_filter_split (fun c => mem c lhs) rhs) as E2.
    rewrite <- (length_common lhs rhs) in E2 by auto.
    pose proof (length_filter_split (fun c => mem c out) (filter (fun c => mem c rhs) lhs)) as E3.
    rewrite !filter_filter in E3.
    rewrite filter_filter.
    unfold usub.
    set (a := length (filter (fun c => mem c rhs && mem c out) lhs)) in *.
    set (b := length (filter (fun c => mem c rhs && negb (mem c out)) lhs)) in *.
    cbv beta in *.
    repeat (match goal with |- context [if ?x <=? ?y then Ok _ else _] =>
      replace (x <=? y) with true by (symmetry; apply Nat.leb_le; lia) end; cbn [rbind]).
    f_equal. f_equal; lia.
  - intros H. unfold pair_summary_new.
    destruct (operand_indices (sc_contraction sc)) as [|lhs [|rhs [|? ?]]] eqn:Eo; try reflexivity.
    cbn [length Nat.eqb rassert rbind index nth_error unwrap]. unfold pair_summary_from_indices.
    specialize (H lhs rhs). unfold plain_pair in H. rewrite Eo in H.
    destruct (Nat.eqb_spec (length lhs) (length (distinct lhs))) as [E1|E1]; [|reflexivity].
    destruct (Nat.eqb_spec (length rhs) (length (distinct rhs))) as [E2|E2]; [|reflexivity].
    destruct (Nat.eqb_spec (length (output_indices (sc_contraction sc)))
                (length (distinct (output_indices (sc_contraction sc))))) as [E3|E3]; [|reflexivity].
    symmetry in E1, E2, E3. apply distinct_length_eq in E1, E2, E3. exfalso. apply H. auto.
Qed.
Print Assumptions pair_summaries_count_the_labels.

(** [SingletonSummary::new] returns exactly for one operand with at least as many labels as the
    result. *)
Theorem singleton_summaries_count_the_labels : forall sc,
  (forall this, operand_indices (sc_contraction sc) = [this] ->
     let out := output_indices (sc_contraction sc) in
     length out <= length (nodup N.eq_dec this) ->
     exists reordered,
       singleton_summary_new sc
       = Ok (mkSingletonSummary (length (nodup N.eq_dec this) - length out)
               (length (filter (fun c => Nat.ltb 1 (count_occ N.eq_dec this c)) (nodup N.eq_dec this)))
               reordered)
       /\ (reordered = 0 <-> forall n c d, nth_error out n = Some c -> nth_error this n = Some d -> c = d))
  /\ ((forall this, operand_indices (sc_contraction sc) = [this] ->
         length (nodup N.eq_dec this) < length (output_indices (sc_contraction sc))) ->
      singleton_summary_new sc = Panic).
Proof.
  intros sc. split.
  - intros this Eo out Hle. unfold singleton_summary_new, singleton_summary_from_indices. rewrite Eo. cbn [length Nat.eqb rassert rbind index nth_error unwrap].
    fold out. unfold usub, distinct. change char_eq_dec with N.eq_dec.
    match goal with |- context [?x <=? ?y] => replace (x <=? y) with true by (symmetry; apply Nat.leb_le, Hle) end.
    cbn [rbind].
    eexists. split; [reflexivity|]. clearbody out. clear. revert this.
    induction out as [|c out IH]; intros [|d this]; cbn [combine filter length].
    + split; auto. intros _ [|n]; discriminate.
    + split; auto. intros _ [|n]; discriminate.
    + split; auto. intros _ [|n]; discriminate.
    + cbn [fst snd]. destruct (N.eqb_spec c d) as [->|Hn]; cbn [negb length].
      * rewrite IH. split.
        -- intros H [|n] x y; cbn [nth_error]; [congruence|apply H].
        -- intros H n. apply (H (S n)).
      * split; [discriminate|]. intros H. exfalso. apply Hn. apply (H 0); reflexivity.
  - intros H. unfold singleton_summary_new, singleton_summary_from_indices.
    destruct (operand_indices (sc_contraction sc)) as [|this [|? ?]]; try reflexivity.
    cbn [length Nat.eqb rassert rbind index nth_error unwrap]. specialize (H this eq_refl).
    unfold usub, distinct. change char_eq_dec with N.eq_dec.
    match goal with |- context [?x <=? ?y] => replace (x <=? y) with false by (symmetry; apply Nat.leb_gt, H) end.
    reflexivity.
Qed.
Print Assumptions singleton_summaries_count_the_labels.

(** A stacked label b, a label contracted, one private to each operand and kept; a diagonal with a sum
    and a permutation; three operands. *)
Example summaries_example :
  let sc ops out := mkSized (mkContraction ops out []) [] in
  pair_summary_new (sc [chars "bij"; chars "bjk"] (chars "bik")) = Ok (mkPairSummary 1 1 1 1)
  /\ pair_summary_new (sc [chars "bii"; chars "bi"] (chars "b")) = Panic
  /\ pair_summary_new (sc [chars "bi"; chars "bi"; chars "i"] (chars "b")) = Panic
  /\ singleton_summary_new (sc [chars "iijk"] (chars "ki")) = Ok (mkSingletonSummary 1 1 1)
  /\ singleton_summary_new (sc [chars "i"; chars "i"] (chars "i")) = Panic.
Proof. repeat split. Qed.
