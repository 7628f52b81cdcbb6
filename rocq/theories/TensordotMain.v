(** The function [tensordot] of lib.rs on all arguments. *)
From Verif Require Import Base BaseFacts NDArray Validation Singleton Pair Path Api Spec
  ValidationFacts SumFacts ArrayFacts TensordotFacts PairFacts PathFacts EinsumMain EinsumProps.
From Coq Require Import Lia.

Lemma other_axes_free n axes : other_axes n axes = free_axes n axes.
Proof. reflexivity. Qed.

Lemma free_axes_In n axes k : In k (free_axes n axes) <-> k < n /\ ~ In k axes.
Proof.
  unfold free_axes. rewrite filter_In, in_seq, negb_true_iff, <- not_true_iff_false, existsb_exists.
  split.
  - intros [H1 H2]. split; [lia|]. intros Hi. apply H2. exists k. split; auto. apply Nat.eqb_refl.
  - intros [H1 H2]. split; [lia|]. intros (x & Hx & E). apply Nat.eqb_eq in E. subst. auto.
Qed.

Lemma free_axes_perm n axes : axes_ok n axes -> Permutation (free_axes n axes ++ axes) (seq 0 n).
Proof.
  intros [Hn Hb]. rewrite Forall_forall in Hb. apply NoDup_Permutation.
  - apply NoDup_app_intro; auto.
    + apply NoDup_filter, seq_NoDup.
    + intros k Hk. apply free_axes_In in Hk. tauto.
  - apply seq_NoDup.
  - intros k. rewrite in_app_iff, free_axes_In, in_seq. split.
    + intros [H|H]; [lia|]. apply Hb in H. lia.
    + intros H. destruct (in_dec Nat.eq_dec k axes); auto. left. split; auto. lia.
Qed.

Lemma value_at_map axes (e : nat -> nat) k : In k axes -> value_at axes (map e axes) k = e k.
Proof.
  induction axes as [|x axes IH]; intros H; [contradiction|]. simpl.
  destruct (Nat.eqb_spec x k); [subst; auto|]. destruct H; [contradiction|auto].
Qed.

Lemma place_map n axes (e : nat -> nat) : Permutation axes (seq 0 n) ->
  place n axes (map e axes) = map e (seq 0 n).
Proof.
  intros Hp. unfold place. apply map_ext_in. intros k Hk. apply value_at_map.
  apply (Permutation_in _ (Permutation_sym Hp)); auto.
Qed.

Lemma value_at_app axes1 axes2 v1 v2 k : length v1 = length axes1 ->
  value_at (axes1 ++ axes2) (v1 ++ v2) k
  = if existsb (Nat.eqb k) axes1 then value_at axes1 v1 k else value_at axes2 v2 k.
Proof.
  revert v1. induction axes1 as [|x axes1 IH]; intros [|v v1] H; simpl in *; try discriminate; auto.
  rewrite (Nat.eqb_sym k x). destruct (Nat.eqb x k); simpl; auto.
Qed.

Lemma place_swap n ax1 ax2 v1 v2 : (forall k, In k ax1 -> ~ In k ax2) ->
  length v1 = length ax1 -> length v2 = length ax2 ->
  (forall k, k < n -> In k ax1 \/ In k ax2) ->
  place n (ax1 ++ ax2) (v1 ++ v2) = place n (ax2 ++ ax1) (v2 ++ v1).
Proof.
  intros Hd L1 L2 Hc. unfold place. apply map_ext_in. intros k Hk. apply in_seq in Hk.
  rewrite !value_at_app by auto.
  assert (M : forall l, existsb (Nat.eqb k) l = true <-> In k l).
  { intros l. rewrite existsb_exists. split.
    - intros (x & Hx & E). apply Nat.eqb_eq in E. subst; auto.
    - intros H. exists k. split; auto. apply Nat.eqb_refl. }
  destruct (existsb (Nat.eqb k) ax1) eqn:E1, (existsb (Nat.eqb k) ax2) eqn:E2; auto.
  - apply M in E1, E2. exfalso. eapply Hd; eauto.
  - exfalso. destruct (Hc k) as [H|H]; [lia| |]; apply M in H; congruence.
Qed.

Lemma place_in_bounds sh axes vals : Permutation axes (seq 0 (length sh)) ->
  in_bounds (axis_lengths sh axes) vals = true -> in_bounds sh (place (length sh) axes vals) = true.
Proof.
  intros Hp Hi.
  destruct (NoDup_index Nat.eq_dec axes vals (axes_NoDup _ _ Hp)) as (e & <-).
  { apply in_bounds_length in Hi. unfold axis_lengths in Hi. rewrite map_length in Hi. auto. }
  rewrite place_map by auto. rewrite <- in_bounds_permuted with (axes := axes); auto.
Qed.

(** What [tensordot] computes when only the products of the contracted lengths agree: the [t]th
    combination of left axes is paired with the [t]th combination of right axes, both in row-major
    order. *)
Definition paired_value {A : Type} {Sc : Scalar A} (a b : arr A) (la ra : list nat) (o : list nat) : A :=
  let fa := free_axes (length (a_shape a)) la in
  let fb := free_axes (length (a_shape b)) ra in
  let sl := axis_lengths (a_shape a) la in
  let sr := axis_lengths (a_shape b) ra in
  sum_n (prod sl) (fun t =>
    smul (elem a (place (length (a_shape a)) (fa ++ la) (firstn (length fa) o ++ unflat sl t)))
         (elem b (place (length (a_shape b)) (ra ++ fb) (unflat sr t ++ skipn (length fa) o)))).

Section Tensordot.
Context {A : Type} {Sc : Scalar A}.
Variable lay : backend A.
Hypothesis Hruns : backend_runs lay.

(** Permuting the axes of an array, at the level of positions. *)
Lemma permuted_place (a : arr A) sh f axes : holds a sh f -> Permutation axes (seq 0 (length sh)) ->
  exists r, permuted_axes a axes = Ok r
    /\ holds r (axis_lengths sh axes) (fun idx => f (place (length sh) axes idx)).
Proof.
  intros H Hp. destruct (permuted_holds a sh f axes H Hp) as (r & E & Hr). exists r. split; auto.
  apply Hr. intros e He. rewrite place_map; auto.
Qed.

(** The matrix product of the two operands when the contracted axes are [sl] on the left and [sr]
    on the right: only the products of their lengths have to agree. *)
Lemma run_tfp_general (lhs rhs : arr A) su sl sr sv f g :
  holds lhs (su ++ sl) f -> holds rhs (sr ++ sv) g -> prod sl = prod sr ->
  exists r w, run_tfp lay (mkTFP (prod su) (prod sv) (prod sl) (su ++ sv)) lhs rhs = Ok r
    /\ holds r (su ++ sv) w
    /\ forall idx, in_bounds (su ++ sv) idx = true ->
         dots_to (fused lay)
           (map (fun t => (f (firstn (length su) idx ++ unflat sl t), g (unflat sr t ++ skipn (length su) idx)))
              (seq 0 (prod sl))) (w idx).
Proof.
  intros Hl Hr Hp. unfold run_tfp.
  cbn [len_uncontracted_lhs len_uncontracted_rhs len_contracted_axes tfp_output_shape].
  destruct (as_matrix_holds lhs su sl f Hl) as (lv & -> & Hlv & Sl). cbn [rbind].
  destruct (as_matrix_holds rhs sr sv g Hr) as (rv & Em & Hrv & Sr).
  rewrite <- Hp in Em, Hrv, Sr. rewrite Em. cbn [rbind].
  destruct (dot_raw lay lv rv _ _ _ _ _ Hlv Sl Hrv Sr) as (d & -> & Hd & Sd). cbn [rbind].
  destruct (into_shape_standard d _ (su ++ sv) _ Hd Sd) as (r & -> & H & Hst & _).
  { rewrite prod_pair, prod_app. auto. }
  eexists r, _. split; auto. split; [exact H|].
  intros idx Hi. apply in_bounds_app_inv in Hi as (x & y & -> & Bx & By).
  pose proof (flat_lt _ _ Bx) as Lx. pose proof (flat_lt _ _ By) as Ly.
  unfold refold. rewrite flat_app by (apply in_bounds_length; auto).
  assert (E : unflat [prod su; prod sv] (flat su x * prod sv + flat sv y) = [flat su x; flat sv y]).
  { apply (flat_inj [prod su; prod sv]).
    - apply unflat_in_bounds. rewrite prod_pair. nia.
    - simpl. rewrite (proj2 (Nat.ltb_lt _ _) Lx), (proj2 (Nat.ltb_lt _ _) Ly). auto.
    - rewrite flat_unflat by (rewrite prod_pair; nia). simpl. lia. }
  rewrite E. cbn [dot_value].
  rewrite <- (in_bounds_length _ _ Bx), firstn_exact, skipn_exact.
  eapply eq_ind with (P := fun l => dots_to _ l _); [apply (add_products_ok Hruns)|].
  unfold dot_terms. apply map_ext. intros t. cbn [matrix_of].
  rewrite (unflat_flat _ _ Bx), (unflat_flat _ _ By). auto.
Qed.

(** The factors of the products of [paired_value]. *)
Definition paired_terms (a b : arr A) (la ra : list nat) (o : list nat) : list (A * A) :=
  let fa := free_axes (length (a_shape a)) la in
  let fb := free_axes (length (a_shape b)) ra in
  let sl := axis_lengths (a_shape a) la in
  let sr := axis_lengths (a_shape b) ra in
  map (fun t =>
    (elem a (place (length (a_shape a)) (fa ++ la) (firstn (length fa) o ++ unflat sl t)),
     elem b (place (length (a_shape b)) (ra ++ fb) (unflat sr t ++ skipn (length fa) o)))) (seq 0 (prod sl)).

Lemma mapM_index_axes sh axes : Forall (fun k => k < length sh) axes ->
  mapM (index sh) axes = Ok (axis_lengths sh axes).
Proof.
  intros H. rewrite Forall_forall in H. apply mapM_ok. intros k Hk. apply index_nth. auto.
Qed.

Lemma free_axes_bound n axes : Forall (fun k => k < n) (free_axes n axes).
Proof. apply Forall_forall. intros k Hk. apply free_axes_In in Hk. tauto. Qed.

Lemma axes_count n axes : axes_ok n axes -> length (free_axes n axes) + length axes = n.
Proof.
  intros H. apply free_axes_perm, Permutation_length in H. rewrite app_length, seq_length in H. auto.
Qed.

Definition td_for (a b : arr A) (la ra : list nat) : tensordot_general :=
  let fa := free_axes (length (a_shape a)) la in
  let fb := free_axes (length (a_shape b)) ra in
  mkTG (fa ++ la) (ra ++ fb)
    (mkTFP (prod (axis_lengths (a_shape a) fa)) (prod (axis_lengths (a_shape b) fb))
       (prod (axis_lengths (a_shape a) la)) (axis_lengths (a_shape a) fa ++ axis_lengths (a_shape b) fb))
    (seq 0 (length fa + length fb)).

(** Compilation succeeds exactly on these axis lists. *)
Lemma tensordot_compiles (a b : arr A) la ra :
  length la = length ra -> axes_ok (length (a_shape a)) la -> axes_ok (length (a_shape b)) ra ->
  tensordot lay a b la ra
  = if Nat.eqb (prod (axis_lengths (a_shape b) ra)) (prod (axis_lengths (a_shape a) la))
    then run_tg lay (td_for a b la ra) a b else Panic.
Proof.
  intros Hl Ha Hb. unfold tensordot.
  pose proof (axes_count _ _ Ha) as Ca. pose proof (axes_count _ _ Hb) as Cb.
  rewrite Hl, Nat.eqb_refl. cbn [rassert rbind]. rewrite usub_ok by lia. cbn [rbind].
  unfold tg_from_axes. destruct Ha as [Na Ba]. destruct Hb as [Nb Bb].
  rewrite Hl, Nat.eqb_refl. cbn [rassert rbind].
  rewrite !nodup_fixed_point by auto. rewrite Hl, !Nat.eqb_refl. cbn [rassert rbind].
  rewrite !mapM_index_axes; auto; try apply free_axes_bound. cbn [rbind].
  replace (length ra) with (length (axis_lengths (a_shape a) la))
    by (unfold axis_lengths; rewrite map_length; auto).
  rewrite !other_axes_free.
  rewrite tfp_from_shapes_split by (unfold axis_lengths; rewrite !map_length; auto).
  destruct (Nat.eqb _ _); auto. cbn [rbind].
  unfold td_for.
  replace (length (a_shape a) + length (a_shape b) - 2 * length (axis_lengths (a_shape a) la))
    with (length (free_axes (length (a_shape a)) la) + length (free_axes (length (a_shape b)) ra))
    by (unfold axis_lengths; rewrite map_length; lia).
  reflexivity.
Qed.

Lemma run_td (a b : arr A) la ra : wf a -> wf b ->
  length la = length ra -> axes_ok (length (a_shape a)) la -> axes_ok (length (a_shape b)) ra ->
  prod (axis_lengths (a_shape a) la) = prod (axis_lengths (a_shape b) ra) ->
  exists r w, run_tg lay (td_for a b la ra) a b = Ok r
    /\ holds r (axis_lengths (a_shape a) (free_axes (length (a_shape a)) la)
                ++ axis_lengths (a_shape b) (free_axes (length (a_shape b)) ra)) w
    /\ forall o, in_bounds (axis_lengths (a_shape a) (free_axes (length (a_shape a)) la)
                ++ axis_lengths (a_shape b) (free_axes (length (a_shape b)) ra)) o = true ->
         dots_to (fused lay) (paired_terms a b la ra o) (w o).
Proof.
  intros Wa Wb Hl Ha Hb Hp. unfold run_tg, td_for, permutation_view, permutation_contract.
  cbn [tg_lhs_permutation tg_rhs_permutation tg_fixed tg_output_permutation].
  set (fa := free_axes (length (a_shape a)) la). set (fb := free_axes (length (a_shape b)) ra).
  pose proof (free_axes_perm _ _ Ha) as Pa. pose proof (free_axes_perm _ _ Hb) as Pb.
  fold fa in Pa. fold fb in Pb.
  assert (Pb' : Permutation (ra ++ fb) (seq 0 (length (a_shape b)))).
  { eapply Permutation_trans; [apply Permutation_app_comm|auto]. }
  destruct (permuted_place a _ _ _ (wf_holds a Wa) Pa) as (l & -> & HL).
  destruct (permuted_place b _ _ _ (wf_holds b Wb) Pb') as (r & -> & HR). cbn [rbind].
  unfold axis_lengths in HL, HR. rewrite map_app in HL, HR.
  destruct (run_tfp_general l r _ _ _ _ _ _ HL HR Hp) as (d & w & E & Hd & Hw).
  unfold axis_lengths. rewrite E. cbn [rbind].
  set (sh := map (fun k => nth k (a_shape a) 0) fa ++ map (fun k => nth k (a_shape b) 0) fb) in *.
  assert (Lsh : length sh = length fa + length fb) by (unfold sh; rewrite app_length, !map_length; auto).
  rewrite <- Lsh.
  destruct (permuted_holds d sh _ (seq 0 (length sh)) Hd (Permutation_refl _)) as (v & -> & Hv).
  cbn [rbind]. rewrite map_nth_seq in Hv.
  destruct (to_owned_holds lay Hruns v sh w) as (r' & E' & Hr'); [apply Hv; auto|].
  exists r', w. split; auto. split; auto. intros o Ho. specialize (Hw o Ho).
  rewrite map_length in Hw. unfold paired_terms. fold fa fb. unfold axis_lengths. exact Hw.
Qed.

Lemma tensordot_panics (a b : arr A) la ra :
  ~ (length la = length ra /\ axes_ok (length (a_shape a)) la /\ axes_ok (length (a_shape b)) ra
     /\ prod (axis_lengths (a_shape a) la) = prod (axis_lengths (a_shape b) ra)) ->
  tensordot lay a b la ra = Panic.
Proof.
  intros H.
  destruct (Nat.eq_dec (length la) (length ra)) as [Hl|Hl].
  2:{ unfold tensordot. apply Nat.eqb_neq in Hl. rewrite Hl. reflexivity. }
  assert (D : forall n axes, axes_ok n axes \/ ~ NoDup axes \/ exists k, In k axes /\ n <= k).
  { intros n axes. unfold axes_ok. destruct (ListDec.NoDup_dec Nat.eq_dec axes); auto.
    destruct (Forall_dec (fun k => k < n) (fun k => lt_dec k n) axes) as [Hf|Hf]; auto.
    right; right. apply Exists_Forall_neg in Hf; [|intros x; lia]. apply Exists_exists in Hf as (k & Hk & Hn).
    exists k. split; auto. lia. }
  assert (Nd : forall axes, ~ NoDup axes -> Nat.eqb (length axes) (length (nodup Nat.eq_dec axes)) = false).
  { intros axes Hn. apply Nat.eqb_neq. intros E. apply Hn.
    apply (NoDup_incl_NoDup (l := nodup Nat.eq_dec axes)).
    - apply NoDup_nodup.
    - lia.
    - intros x Hx. apply nodup_In in Hx. auto. }
  assert (Mp : forall (sh : list nat) axes k, In k axes -> length sh <= k -> mapM (index sh) axes = Panic).
  { intros sh axes k Hk Hle. apply mapM_panic with (x := k); auto.
    - apply index_out; auto.
    - intros y m _. unfold index, unwrap. destruct (nth_error sh y); discriminate. }
  destruct (D (length (a_shape a)) la) as [Ha|Ha], (D (length (a_shape b)) ra) as [Hb|Hb].
  { rewrite tensordot_compiles by auto. destruct (Nat.eqb_spec (prod (axis_lengths (a_shape b) ra)) (prod (axis_lengths (a_shape a) la)));
      auto. exfalso. apply H. auto. }
  all: unfold tensordot; rewrite Hl, Nat.eqb_refl; cbn [rassert rbind];
    destruct (usub _ _) eqn:Eu; try reflexivity; [|unfold usub in Eu; destruct (_ <=? _); discriminate];
    cbn [rbind]; unfold tg_from_axes; rewrite Hl, Nat.eqb_refl; cbn [rassert rbind]; rewrite <- Hl.
  - destruct Ha as [Na Ba]. rewrite nodup_fixed_point, Nat.eqb_refl by auto. cbn [rassert rbind].
    rewrite Hl. destruct Hb as [Hb|(k & Hk & Hle)].
    + rewrite Nd by auto. reflexivity.
    + destruct (Nat.eqb (length ra) (length (nodup Nat.eq_dec ra))); [|reflexivity].
      cbn [rassert rbind]. rewrite mapM_index_axes by auto. cbn [rbind]. rewrite (Mp _ _ _ Hk Hle). reflexivity.
  - destruct Ha as [Ha|(k & Hk & Hle)].
    + rewrite Nd by auto. reflexivity.
    + destruct (Nat.eqb (length la) (length (nodup Nat.eq_dec la))); [|reflexivity]. cbn [rassert rbind].
      destruct (Nat.eqb (length la) (length (nodup Nat.eq_dec ra))); [|reflexivity]. cbn [rassert rbind].
      rewrite (Mp _ _ _ Hk Hle). reflexivity.
  - destruct Ha as [Ha|(k & Hk & Hle)].
    + rewrite Nd by auto. reflexivity.
    + destruct (Nat.eqb (length la) (length (nodup Nat.eq_dec la))); [|reflexivity]. cbn [rassert rbind].
      destruct (Nat.eqb (length la) (length (nodup Nat.eq_dec ra))); [|reflexivity]. cbn [rassert rbind].
      rewrite (Mp _ _ _ Hk Hle). reflexivity.
Qed.

Theorem tensordot_on_all_inputs (a b : arr A) la ra : wf a -> wf b ->
  (length la = length ra /\ axes_ok (length (a_shape a)) la /\ axes_ok (length (a_shape b)) ra
   /\ prod (axis_lengths (a_shape a) la) = prod (axis_lengths (a_shape b) ra)
   /\ exists r w, tensordot lay a b la ra = Ok r
      /\ holds r (axis_lengths (a_shape a) (free_axes (length (a_shape a)) la)
                ++ axis_lengths (a_shape b) (free_axes (length (a_shape b)) ra)) w
      /\ forall o, in_bounds (axis_lengths (a_shape a) (free_axes (length (a_shape a)) la)
                ++ axis_lengths (a_shape b) (free_axes (length (a_shape b)) ra)) o = true ->
           dots_to (fused lay) (paired_terms a b la ra o) (w o))
  \/ (~ (length la = length ra /\ axes_ok (length (a_shape a)) la /\ axes_ok (length (a_shape b)) ra
        /\ prod (axis_lengths (a_shape a) la) = prod (axis_lengths (a_shape b) ra))
      /\ tensordot lay a b la ra = Panic).
Proof.
  intros Wa Wb.
  assert (D : forall n axes, axes_ok n axes \/ ~ axes_ok n axes).
  { intros n axes. unfold axes_ok. destruct (ListDec.NoDup_dec Nat.eq_dec axes); [|tauto].
    destruct (Forall_dec (fun k => k < n) (fun k => lt_dec k n) axes); tauto. }
  destruct (Nat.eq_dec (length la) (length ra)), (D (length (a_shape a)) la), (D (length (a_shape b)) ra),
    (Nat.eq_dec (prod (axis_lengths (a_shape a) la)) (prod (axis_lengths (a_shape b) ra)));
    try (right; split; [tauto|apply tensordot_panics; tauto]).
  left. do 4 (split; [auto|]). rewrite tensordot_compiles by auto.
  rewrite (proj2 (Nat.eqb_eq _ _) (eq_sym e0)). apply run_td; auto.
Qed.

(** Described by related scalars. *)
Lemma elem_rel {B} {Sb : Scalar B} (R : A -> B -> Prop) (a : arr A) (a' : arr B) :
  scalar_relation R -> related_arrays R a a' -> forall idx, R (elem a idx) (elem a' idx).
Proof.
  intros HR [Es Hr] idx. destruct (in_bounds (a_shape a) idx) eqn:E.
  - destruct (Hr idx E) as (x & y & E1 & E2 & Hxy). unfold elem. rewrite E1, E2. auto.
  - unfold elem, a_get. rewrite <- Es, E. apply HR.
Qed.

Theorem tensordot_related {B} {Sb : Scalar B} (R : A -> B -> Prop) (HR : scalar_relation R) (SR : near_semiring B)
    (Hfu : fused_relation R lay) (a b : arr A) (a' b' : arr B) la ra : wf a -> wf b ->
  related_arrays R a a' -> related_arrays R b b' ->
  length la = length ra -> axes_ok (length (a_shape a)) la -> axes_ok (length (a_shape b)) ra ->
  prod (axis_lengths (a_shape a) la) = prod (axis_lengths (a_shape b) ra) ->
  exists r w, tensordot lay a b la ra = Ok r
    /\ holds r (axis_lengths (a_shape a) (free_axes (length (a_shape a)) la)
                ++ axis_lengths (a_shape b) (free_axes (length (a_shape b)) ra)) w
    /\ forall o, in_bounds (axis_lengths (a_shape a) (free_axes (length (a_shape a)) la)
                ++ axis_lengths (a_shape b) (free_axes (length (a_shape b)) ra)) o = true ->
         R (w o) (paired_value a' b' la ra o).
Proof.
  intros Wa Wb Ra Rb Hl Ha Hb He.
  destruct (tensordot_on_all_inputs a b la ra Wa Wb) as [(_ & _ & _ & _ & r & w & E & H & Hd)|[H _]].
  2:{ exfalso. apply H. auto. }
  exists r, w. split; auto. split; auto. intros o Ho. specialize (Hd o Ho).
  unfold paired_value. rewrite <- (proj1 Ra), <- (proj1 Rb).
  apply (dots_to_rel_n R HR lay Hfu SR _ _ _ _ _ _ Hd). intros i _. split; apply elem_rel; auto.
Qed.

Hypothesis SR : near_semiring A.
Hypothesis Hlay : backend_ok lay.

Theorem tensordot_pairs (a b : arr A) la ra : wf a -> wf b ->
  length la = length ra -> axes_ok (length (a_shape a)) la -> axes_ok (length (a_shape b)) ra ->
  prod (axis_lengths (a_shape a) la) = prod (axis_lengths (a_shape b) ra) ->
  exists r, tensordot lay a b la ra = Ok r
    /\ holds r (axis_lengths (a_shape a) (free_axes (length (a_shape a)) la)
                ++ axis_lengths (a_shape b) (free_axes (length (a_shape b)) ra))
               (paired_value a b la ra).
Proof.
  intros Wa Wb Hl Ha Hb He.
  assert (E2 : Forall2 (related_arrays eq) [a; b] [a; b]) by (apply eq_related; auto).
  inversion E2 as [|? ? ? ? Ra E2']; subst. inversion E2' as [|? ? ? ? Rb _]; subst.
  destruct (tensordot_related eq eq_relation SR (eq_fused lay Hlay) a b a b la ra) as (r & w & E & Hr & Hw); auto.
  exists r. split; auto. eapply ArrayFacts.holds_ext; [|exact Hr]. auto.
Qed.

(** When the contracted lengths agree one by one, it is the sum over all combinations. *)
Lemma paired_value_sum (a b : arr A) la ra o :
  length la = length ra -> axes_ok (length (a_shape a)) la -> axes_ok (length (a_shape b)) ra ->
  axis_lengths (a_shape a) la = axis_lengths (a_shape b) ra ->
  in_bounds (axis_lengths (a_shape a) (free_axes (length (a_shape a)) la)
             ++ axis_lengths (a_shape b) (free_axes (length (a_shape b)) ra)) o = true ->
  paired_value a b la ra o = tensordot_value a b la ra o.
Proof.
  intros Hl Ha Hb He Ho. unfold paired_value, tensordot_value. rewrite <- He.
  set (fa := free_axes _ la). set (fb := free_axes _ ra).
  rewrite (sum_idx_unflat SR (axis_lengths (a_shape a) la) (fun z =>
    smul (elem a (place (length (a_shape a)) (fa ++ la) (firstn (length fa) o ++ z)))
         (elem b (place (length (a_shape b)) (ra ++ fb) (z ++ skipn (length fa) o))))).
  change (@sum_over A Sc) with (@sum_idx A Sc). apply sum_idx_ext. intros z Hz.
  f_equal. f_equal. apply place_swap.
  - intros k Hk Hk'. apply free_axes_In in Hk'. tauto.
  - apply in_bounds_length in Hz. unfold axis_lengths in Hz. rewrite map_length in Hz. lia.
  - apply in_bounds_length in Ho. unfold axis_lengths in Ho. rewrite app_length, !map_length in Ho.
    fold fa fb in Ho. rewrite skipn_length. lia.
  - intros k Hk. unfold fb. rewrite free_axes_In. destruct (in_dec Nat.eq_dec k ra); auto.
Qed.

Theorem tensordot_ok (a b : arr A) la ra : wf a -> wf b ->
  length la = length ra -> axes_ok (length (a_shape a)) la -> axes_ok (length (a_shape b)) ra ->
  axis_lengths (a_shape a) la = axis_lengths (a_shape b) ra ->
  exists r, tensordot lay a b la ra = Ok r
    /\ holds r (axis_lengths (a_shape a) (free_axes (length (a_shape a)) la)
                ++ axis_lengths (a_shape b) (free_axes (length (a_shape b)) ra))
               (tensordot_value a b la ra).
Proof.
  intros Wa Wb Hl Ha Hb He.
  destruct (tensordot_pairs a b la ra) as (r & E & H); auto.
  { rewrite He. auto. }
  exists r. split; auto. eapply ArrayFacts.holds_ext; [|exact H]. intros o Ho. apply paired_value_sum; auto.
Qed.

(** ** tensordot and einsum *)

(** The labels of the listed axes. *)
Definition axis_labels (ix : list char) (axes : list nat) : list char := map (fun k => nth k ix 0%N) axes.

Lemma axis_labels_In ix axes c : Forall (fun k => k < length ix) axes ->
  In c (axis_labels ix axes) -> In c ix.
Proof.
  intros H Hi. apply in_map_iff in Hi as (k & <- & Hk). rewrite Forall_forall in H. apply nth_In. auto.
Qed.

Lemma axis_labels_all ix axes c : axes_ok (length ix) axes -> In c ix ->
  In c (axis_labels ix (free_axes (length ix) axes)) \/ In c (axis_labels ix axes).
Proof.
  intros Hok Hc. destruct (In_nth _ _ 0%N Hc) as (k & Hk & E).
  destruct (in_dec Nat.eq_dec k axes) as [Hi|Hi].
  - right. apply in_map_iff. eauto.
  - left. apply in_map_iff. exists k. split; auto. apply free_axes_In. auto.
Qed.

Lemma axis_labels_disjoint ix axes c : NoDup ix -> axes_ok (length ix) axes ->
  In c (axis_labels ix (free_axes (length ix) axes)) -> In c (axis_labels ix axes) -> False.
Proof.
  intros Hn [_ Hb] H1 H2. apply in_map_iff in H1 as (k & E & Hk). apply in_map_iff in H2 as (k' & E' & Hk').
  apply free_axes_In in Hk as [Hk Hni]. rewrite Forall_forall in Hb. apply Hb in Hk' as Hlt.
  rewrite NoDup_nth with (d := 0%N) in Hn. rewrite <- E' in E. apply Hn in E; auto. congruence.
Qed.

Lemma axis_labels_NoDup ix axes : NoDup ix -> axes_ok (length ix) axes -> NoDup (axis_labels ix axes).
Proof.
  intros Hn [Ha Hb]. rewrite Forall_forall in Hb. unfold axis_labels.
  rewrite NoDup_nth with (d := 0%N) in Hn.
  induction Ha as [|k axes Hk Ha IH]; simpl; constructor.
  - intros Hi. apply in_map_iff in Hi as (k' & E & Hk'). apply Hn in E; [congruence|apply Hb; simpl; auto|apply Hb; simpl; auto].
  - apply IH. intros x Hx. apply Hb. simpl; auto.
Qed.

Lemma place_labels ix axes (e : env) : Permutation axes (seq 0 (length ix)) ->
  place (length ix) axes (map e (axis_labels ix axes)) = map e ix.
Proof.
  intros Hp. unfold axis_labels. rewrite map_map, place_map by auto.
  rewrite <- (map_nth_seq ix 0%N) at 2. rewrite map_map. auto.
Qed.

Lemma tensordot_value_einsum (a b : arr A) u v la ra size o :
  let fa := free_axes (length u) la in
  let fb := free_axes (length v) ra in
  let out := axis_labels u fa ++ axis_labels v fb in
  a_shape a = map size u -> a_shape b = map size v -> NoDup u -> NoDup v -> NoDup out ->
  axes_ok (length u) la -> axes_ok (length v) ra -> axis_labels u la = axis_labels v ra ->
  in_bounds (map size out) o = true ->
  einsum_value size [a; b] [u; v] out o = tensordot_value a b la ra o.
Proof.
  intros fa fb out Sa Sb Nu Nv No Ha Hb He Ho.
  set (C := axis_labels u la) in *.
  assert (NC : NoDup C) by (apply axis_labels_NoDup; auto).
  assert (Du : forall c, In c (axis_labels u fa) -> ~ In c C).
  { intros c H1 H2. exact (axis_labels_disjoint u la c Nu Ha H1 H2). }
  assert (Dv : forall c, In c (axis_labels v fb) -> ~ In c C).
  { intros c H1 H2. rewrite He in H2. exact (axis_labels_disjoint v ra c Nv Hb H1 H2). }
  assert (HC : forall c, In c C <-> In c (concat [u; v]) /\ ~ In c out).
  { intros c. simpl. rewrite app_nil_r, in_app_iff. unfold out. rewrite in_app_iff. split.
    - intros Hc. split.
      + left. eapply axis_labels_In; [|exact Hc]. apply Ha.
      + intros [H|H]; [eapply Du|eapply Dv]; eauto.
    - intros [[H|H] Hn].
      + destruct (axis_labels_all u la c Ha H); auto. exfalso. apply Hn. auto.
      + destruct (axis_labels_all v ra c Hb H) as [H'|H']; [exfalso; apply Hn; auto|].
        rewrite He. auto. }
  unfold einsum_value.
  rewrite (nested_sum_perm SR size (summed_labels [u; v] out) C (concat [u; v])).
  2: apply term_dep.
  2: apply summed_labels_NoDup.
  2: apply Permutation_sym, summed_labels_perm; auto.
  rewrite nested_sum_idx. unfold tensordot_value.
  rewrite Sa, Sb, !map_length. fold fa fb. change (@sum_over A Sc) with (@sum_idx A Sc).
  assert (L : forall ix axes, Forall (fun k => k < length ix) axes ->
    axis_lengths (map size ix) axes = map size (axis_labels ix axes)).
  { intros ix axes Hb'. unfold axis_lengths, axis_labels. rewrite map_map. apply map_ext_in.
    intros k Hk. rewrite Forall_forall in Hb'. rewrite nth_indep with (d' := size 0%N) by (rewrite map_length; auto).
    apply map_nth. }
  rewrite L by apply Ha. fold C. apply sum_idx_ext. intros z Hz.
  unfold term, product. simpl.
  set (e := over C z (bind out o)).
  replace (smul (elem b (map e v)) sone) with (elem b (map e v)).
  2:{ symmetry. apply (mul_1_r SR). }
  assert (Lz : length z = length C) by (apply in_bounds_length in Hz; rewrite map_length in Hz; auto).
  assert (Ez : map e C = z) by (apply map_over; auto).
  assert (Eo : map e out = o).
  { unfold e. rewrite map_over_out by (intros c Hc; unfold out in Hc; apply in_app_or in Hc as [Hc|Hc]; auto).
    apply map_bind; auto. apply in_bounds_length in Ho. rewrite map_length in Ho. auto. }
  assert (Ex : firstn (length fa) o = map e (axis_labels u fa)).
  { rewrite <- Eo. unfold out. rewrite map_app.
    replace (length fa) with (length (map e (axis_labels u fa))) by (unfold axis_labels; rewrite !map_length; auto).
    apply firstn_exact. }
  assert (Ey : skipn (length fa) o = map e (axis_labels v fb)).
  { rewrite <- Eo. unfold out. rewrite map_app.
    replace (length fa) with (length (map e (axis_labels u fa))) by (unfold axis_labels; rewrite !map_length; auto).
    apply skipn_exact. }
  rewrite Ex, Ey. f_equal; f_equal.
  - rewrite <- (place_labels u (fa ++ la)) by (apply free_axes_perm; auto).
    unfold axis_labels at 1. rewrite map_app. fold (axis_labels u fa). fold (axis_labels u la). fold C.
    rewrite map_app, Ez. auto.
  - rewrite <- (place_labels v (fb ++ ra)) by (apply free_axes_perm; auto).
    unfold axis_labels at 1. rewrite map_app. fold (axis_labels v fb). fold (axis_labels v ra).
    rewrite map_app, <- He, Ez. auto.
Qed.

Lemma tensordot_einsum_same h lay' s (a b : arr A) u v la ra size :
  let out := axis_labels u (free_axes (length u) la) ++ axis_labels v (free_axes (length v) ra) in
  semiring A -> hash_ok h -> backend_ok lay' -> wf a -> wf b ->
  call_ok s [a_shape a; a_shape b] [u; v] out size -> NoDup u -> NoDup v ->
  axes_ok (length u) la -> axes_ok (length v) ra -> axis_labels u la = axis_labels v ra ->
  exists r r', tensordot lay a b la ra = Ok r /\ einsum h lay' s [a; b] = Ok r' /\ same_array r r'.
Proof.
  intros out SR1 Hh Hl' Wa Wb Hc Nu Nv Ha Hb He.
  destruct (einsum_correct SR1 h lay' s [a; b] [u; v] out size Hh Hl' Hc) as (r' & E' & Hr').
  { constructor; [auto|constructor; [auto|constructor]]. }
  { constructor; [auto|constructor; [auto|constructor]]. }
  destruct Hc as (_ & [No _] & Hs).
  inversion Hs as [|? ? ? ? Sa Hs']; subst. inversion Hs' as [|? ? ? ? Sb _]; subst.
  assert (L : forall ix axes, Forall (fun k => k < length ix) axes ->
    axis_lengths (map size ix) axes = map size (axis_labels ix axes)).
  { intros ix axes Hb'. unfold axis_lengths, axis_labels. rewrite map_map. apply map_ext_in.
    intros k Hk. rewrite Forall_forall in Hb'. rewrite nth_indep with (d' := size 0%N) by (rewrite map_length; auto).
    apply map_nth. }
  destruct (tensordot_ok a b la ra Wa Wb) as (r & E & Hr).
  - apply (f_equal (@length _)) in He. unfold axis_labels in He. rewrite !map_length in He. auto.
  - rewrite Sa, map_length; auto.
  - rewrite Sb, map_length; auto.
  - rewrite Sa, Sb, !L by (apply Ha || apply Hb). rewrite He. auto.
  - exists r, r'. split; auto. split; auto. rewrite Sa, Sb, !map_length, !L, <- map_app in Hr by apply free_axes_bound.
    apply same_array_holds with (1 := Hr). eapply ArrayFacts.holds_ext; [|exact Hr'].
    intros o Ho. apply tensordot_value_einsum; auto.
Qed.

End Tensordot.
