(** Contractions assembled by hand: the fields of [Contraction] and [SizedContraction] are public. *)
From Verif Require Import Base BaseFacts NDArray Validation Optimizers Strategies Singleton Pair Path
  Api Spec ValidationFacts SumFacts ArrayFacts PathFacts EinsumMain.
From Coq Require Import Lia.

(** The entries for these labels. *)
Definition restrict (cs : list char) (m : output_size_map) : output_size_map :=
  filter (fun cn => mem (fst cn) cs) m.

(** The labels can be contracted and each of them has a length. *)
Definition complete (sc : sized_contraction) : Prop :=
  let ops := operand_indices (sc_contraction sc) in
  ops <> [] /\ output_ok ops (output_indices (sc_contraction sc))
  /\ forall c, In c (concat ops) -> lookup c (sc_output_size sc) <> None.

(** [size] has the lengths of the labels of the operands. *)
Definition lengths (sc : sized_contraction) (size : char -> nat) : Prop :=
  forall c, In c (concat (operand_indices (sc_contraction sc))) -> lookup c (sc_output_size sc) = Some (size c).

(** Two contractions that agree in all that matters: the labels, and the entries for them. *)
Definition agree (sc sc' : sized_contraction) : Prop :=
  let ops := operand_indices (sc_contraction sc) in
  ops = operand_indices (sc_contraction sc')
  /\ output_indices (sc_contraction sc) = output_indices (sc_contraction sc')
  /\ restrict (concat ops) (sc_output_size sc) = restrict (concat ops) (sc_output_size sc').

Lemma restrict_restrict cs cs' m : incl cs cs' -> restrict cs (restrict cs' m) = restrict cs m.
Proof.
  intros Hi. induction m as [|[c n] m IH]; simpl; auto.
  destruct (mem c cs) eqn:E.
  - assert (E' : mem c cs' = true) by (apply mem_In, Hi, mem_In; auto).
    rewrite E'. simpl. rewrite E, IH. auto.
  - destruct (mem c cs'); simpl; [rewrite E|]; auto.
Qed.

Lemma restrict_ext cs cs' m : (forall c, mem c cs = mem c cs') -> restrict cs m = restrict cs' m.
Proof. intros H. apply filter_ext. intros [c n]. apply H. Qed.

Lemma existsb_ext' {T} (f g : T -> bool) l : (forall x, In x l -> f x = g x) -> existsb f l = existsb g l.
Proof.
  induction l as [|x l IH]; simpl; intros H; auto. rewrite H, IH; auto.
Qed.

Lemma subset_agree h k sc sc' ops' out' : agree sc sc' ->
  incl (concat ops') (concat (operand_indices (sc_contraction sc))) ->
  subset h k sc ops' out' = subset h k sc' ops' out'.
Proof.
  intros (_ & _ & Hm) Hi. unfold subset.
  set (cs := concat (operand_indices (sc_contraction sc))) in *.
  assert (Hl : forall c, In c cs -> lookup c (sc_output_size sc) = lookup c (sc_output_size sc')).
  { intros c Hc. apply mem_In in Hc.
    pose proof (lookup_filter c cs (sc_output_size sc)) as H1.
    pose proof (lookup_filter c cs (sc_output_size sc')) as H2. rewrite Hc in H1, H2.
    rewrite <- H1, <- H2. f_equal. exact Hm. }
  rewrite (existsb_ext' _ (fun c => match lookup c (sc_output_size sc') with None => true | Some _ => false end)).
  2:{ intros c Hc. rewrite distinct_In in Hc. rewrite Hl; auto. }
  destruct (existsb _ _); auto.
  destruct (from_indices h k ops' out') as [con|?|]; cbn [rbind]; auto. do 2 f_equal.
  change (restrict (distinct (concat ops')) (sc_output_size sc)
          = restrict (distinct (concat ops')) (sc_output_size sc')).
  assert (Hi' : incl (distinct (concat ops')) cs) by (intros c Hc; rewrite distinct_In in Hc; apply Hi, Hc).
  rewrite <- (restrict_restrict _ cs (sc_output_size sc)) by exact Hi'.
  rewrite <- (restrict_restrict _ cs (sc_output_size sc')) by exact Hi'.
  f_equal. exact Hm.
Qed.

Lemma mapM_index_incl {T} (l : list T) ns l' : mapM (index l) ns = Ok l' -> incl l' l.
Proof.
  revert l'; induction ns as [|n ns IH]; simpl; intros l' E.
  - injection E as <-. intros x [].
  - destruct (index l n) as [y|?|] eqn:Ey; simpl in E; try discriminate.
    destruct (mapM (index l) ns) as [ys|?|]; simpl in E; try discriminate. injection E as <-.
    intros x [<-|Hx]; [|eapply IH; eauto].
    unfold index in Ey. destruct (nth_error l n) eqn:En; simpl in Ey; [|discriminate].
    injection Ey as <-. eapply nth_error_In; eauto.
Qed.

Lemma concat_incl {T} (l l' : list (list T)) : incl l l' -> incl (concat l) (concat l').
Proof.
  intros H x Hx. apply in_concat in Hx as (y & Hy & Hx). apply in_concat. exists y. auto.
Qed.

Lemma generate_path_agree h k sc sc' ord : agree sc sc' -> generate_path h k sc ord = generate_path h k sc' ord.
Proof.
  intros Ha. unfold generate_path.
  replace (generate_permuted_contraction h (5 :: k) sc' ord)
    with (generate_permuted_contraction h (5 :: k) sc ord); auto.
  pose proof Ha as (Ho & Hu & _). unfold generate_permuted_contraction. rewrite <- Ho, <- Hu.
  destruct (rassert _); cbn [rbind]; auto.
  destruct (mapM _ ord) as [new|?|] eqn:E; cbn [rbind]; auto. f_equal.
  apply subset_agree; auto. apply concat_incl. eapply mapM_index_incl; eauto.
Qed.

Lemma generate_optimized_agree h k sc sc' strategy : agree sc sc' ->
  generate_optimized_order h k sc strategy = generate_optimized_order h k sc' strategy.
Proof.
  intros Ha. pose proof Ha as (Ho & _).
  destruct strategy; simpl; auto; unfold naive_order, reverse_order; rewrite <- Ho;
    apply generate_path_agree; auto.
Qed.

(** The sized contraction [subset] makes of a complete one. *)
Definition normal (sc : sized_contraction) : sized_contraction :=
  let ops := operand_indices (sc_contraction sc) in
  mkSized (contraction_of ops (output_indices (sc_contraction sc)))
    (restrict (concat ops) (sc_output_size sc)).

Lemma normal_agree sc : agree sc (normal sc).
Proof.
  split; [reflexivity|]. split; [reflexivity|]. cbn [normal sc_output_size].
  symmetry. apply restrict_restrict. apply incl_refl.
Qed.

Lemma normal_sized sc size : complete sc -> lengths sc size ->
  sized (normal sc) (operand_indices (sc_contraction sc)) (output_indices (sc_contraction sc)) size.
Proof.
  intros (_ & Ho & _) Hl. split; [reflexivity|]. split; auto. intros c. cbn [normal sc_output_size].
  unfold restrict. rewrite lookup_filter.
  destruct (mem c (concat (operand_indices (sc_contraction sc)))) eqn:E; auto.
  apply Hl, mem_In; auto.
Qed.

Lemma complete_lengths sc : complete sc -> lengths sc (default_size (sc_output_size sc)).
Proof.
  intros (_ & _ & H) c Hc. unfold default_size. specialize (H c Hc).
  destruct (lookup c (sc_output_size sc)); congruence.
Qed.

Lemma ops_labels_dec (m : output_size_map) (cs : list char) :
  (forall c, In c cs -> lookup c m <> None) \/ (exists c, In c cs /\ lookup c m = None).
Proof.
  induction cs as [|c cs [IH|(d & Hd & E)]].
  - left. intros c [].
  - destruct (lookup c m) eqn:E.
    + left. intros d [<-|Hd]; auto. congruence.
    + right. exists c. simpl. auto.
  - right. exists d. simpl. auto.
Qed.

Lemma complete_dec sc : complete sc \/ ~ complete sc.
Proof.
  unfold complete. destruct (operand_indices (sc_contraction sc)) as [|ix ops] eqn:E; [right; tauto|].
  rewrite <- E. destruct (output_ok_dec (operand_indices (sc_contraction sc)) (output_indices (sc_contraction sc)))
    as [Ho|Ho]; [|right; tauto].
  destruct (ops_labels_dec (sc_output_size sc) (concat (operand_indices (sc_contraction sc)))) as [H|(c & Hc & Hn)].
  - left. split; [congruence|auto].
  - right. intros (_ & _ & H). apply (H c Hc Hn).
Qed.

Lemma concat_permutation {T} (l l' : list (list T)) : Permutation l l' -> Permutation (concat l) (concat l').
Proof.
  induction 1; simpl; auto.
  - apply Permutation_app_head; auto.
  - rewrite !app_assoc. apply Permutation_app_tail, Permutation_app_comm.
  - etransitivity; eauto.
Qed.

Lemma mapM_index_rev {T} (l : list T) : mapM (index l) (seq 0 (length l)) = Ok l
  /\ mapM (index l) (rev (seq 0 (length l))) = Ok (rev l).
Proof.
  assert (H : forall ns, Forall (fun n => n < length l) ns -> forall d,
            mapM (index l) ns = Ok (map (fun n => nth n l d) ns)).
  { induction 1 as [|n ns Hn Hf IH]; intros d; simpl; auto.
    unfold index at 1. rewrite (nth_error_nth' l d Hn). simpl. rewrite (IH d). reflexivity. }
  assert (Hs : Forall (fun n => n < length l) (seq 0 (length l))).
  { apply Forall_forall. intros n Hn. apply in_seq in Hn. lia. }
  destruct l as [|d l']; [split; reflexivity|]. set (l := d :: l') in *.
  assert (Hm : map (fun n => nth n l d) (seq 0 (length l)) = l).
  { apply nth_ext with (d := d) (d' := d); [rewrite map_length, seq_length; auto|].
    intros n Hn. rewrite map_length, seq_length in Hn.
    rewrite (nth_indep _ d ((fun n => nth n l d) 0)) by (rewrite map_length, seq_length; auto).
    rewrite (map_nth (fun n => nth n l d)). rewrite seq_nth; auto. }
  split; rewrite (H _) with (d := d); auto.
  - rewrite Hm. auto.
  - rewrite map_rev, Hm. auto.
  - apply Forall_rev; auto.
Qed.

(** A contraction that is not complete can not be compiled. *)
Lemma incomplete_panics h k sc strategy : hash_ok h -> ~ complete sc ->
  generate_optimized_order h k sc strategy = Panic.
Proof.
  intros Hh Hn.
  set (ops := operand_indices (sc_contraction sc)).
  assert (H : forall ord ops', length ord = length ops -> mapM (index ops) ord = Ok ops' ->
            Permutation ops' ops -> generate_path h k sc ord = Panic).
  { intros ord ops' Hl Em Hp. unfold generate_path, generate_permuted_contraction. fold ops.
    rewrite Hl, Nat.eqb_refl. cbn [rassert rbind]. rewrite Em. cbn [rbind].
    destruct (subset h (5 :: k) sc ops' (output_indices (sc_contraction sc))) as [sc'|m|] eqn:E;
      [|reflexivity|reflexivity].
    cbn [unwrap_res rbind]. pose proof (concat_permutation _ _ Hp) as Hc.
    assert (Hd : (forall c, In c (concat ops') -> lookup c (sc_output_size sc) <> None)
                 /\ output_ok ops' (output_indices (sc_contraction sc))).
    { destruct (output_ok_dec ops' (output_indices (sc_contraction sc))) as [Ho|Ho].
      - destruct (ops_labels_dec (sc_output_size sc) (concat ops')) as [Hk|(c & Hc' & Hk)]; auto.
        destruct (proj2 (subset_iff h (5 :: k) sc ops' (output_indices (sc_contraction sc)) Hh)) as (m & Em');
          [|congruence]. intros (Hx & _). apply (Hx c Hc' Hk).
      - destruct (proj2 (subset_iff h (5 :: k) sc ops' (output_indices (sc_contraction sc)) Hh)) as (m & Em');
          [|congruence]. tauto. }
    destruct (proj1 (subset_iff h (5 :: k) sc ops' (output_indices (sc_contraction sc)) Hh) Hd)
      as (sc2 & E2 & Hsc & _).
    assert (sc2 = sc') by congruence. subst sc2. rewrite Hsc. cbn [contraction_of operand_indices].
    assert (E0 : ops' = []).
    { destruct Hd as (Hk & Hnd & Hi). destruct ops' as [|ix ops']; auto. exfalso. apply Hn.
      split; [|split].
      - fold ops. intros E0. rewrite E0 in Hp. apply Permutation_sym, Permutation_nil in Hp. discriminate.
      - split; auto. fold ops. intros c Hc'. eapply Permutation_in; [exact Hc|]. auto.
      - fold ops. intros c Hc'. apply Hk. eapply Permutation_in; [apply Permutation_sym; exact Hc|]. auto. }
    subst ops'. reflexivity. }
  destruct (mapM_index_rev ops) as [M1 M2]. unfold generate_optimized_order.
  destruct strategy; auto.
  - eapply H; [unfold naive_order; fold ops; rewrite seq_length; auto|exact M1|auto].
  - eapply H; [unfold reverse_order; fold ops; rewrite rev_length, seq_length; auto|exact M2|].
    apply Permutation_sym, Permutation_rev.
Qed.
