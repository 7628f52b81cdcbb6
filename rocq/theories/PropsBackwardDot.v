(** Backward error of [tensordot] (C79): a result computed with rounding is the exact result for slightly different
    terms and, if all axes of one operand are contracted, for a slightly different other operand. *)
From Verif Require Import Base BaseFacts NDArray Validation Optimizers Path Api Spec ParserFacts ValidationMain SumFacts
  ArrayFacts PathFacts EinsumMain EinsumProps RelationFacts AlgebraFacts TensordotMain AdjointFacts RoundFacts RangeFacts FloatFacts FloatMain BackwardFacts
  UniqueFacts Examples PropsRounding PropsFloat.
From Coq Require Import Lia QArith Qcanon Qcabs.
Local Open Scope list_scope.
Local Open Scope nat_scope.

(** How far a term may be moved, relative to itself, and what underflow may add. *)
Definition dot_moved {F} (eps : Qc) (a : arr F) (la : list nat) : Qc :=
  (grow eps (prod (axis_lengths (a_shape a) la)) - 1)%Qc.
Definition dot_underflow {F} (v : F -> option Qc) (eps eta : Qc) (a b : arr F) la ra o : Qc :=
  ((grow eta (prod (axis_lengths (a_shape a) la)) - 1)
   * (grow eps (prod (axis_lengths (a_shape a) la)) * tensordot_value (amap (padded_of v) a) (amap (padded_of v) b) la ra o))%Qc.

(** The term at [z] of the element at [o]. *)
Definition dot_term {F} (v : F -> option Qc) (a b : arr F) la ra o z : Qc :=
  let fa := free_axes (length (a_shape a)) la in
  let fb := free_axes (length (a_shape b)) ra in
  (elem (amap (value_of v) a) (place (length (a_shape a)) (fa ++ la) (firstn (length fa) o ++ z))
   * elem (amap (value_of v) b) (place (length (a_shape b)) (fb ++ ra) (skipn (length fa) o ++ z)))%Qc.

Lemma app_parts (o z p q : list nat) : length p = length o -> o ++ z = p ++ q -> p = o /\ q = z.
Proof.
  revert p; induction o as [|x o IH]; intros [|y p] L E; cbn in *; try discriminate; auto.
  injection E as <- E. injection L as L. destruct (IH p L E) as [-> ->]. auto.
Qed.

Section BackwardDot.
Context {F : Type} {Sf : Scalar F}.
Variables (v : F -> option Qc) (eps eta : Qc).
Hypothesis HF : rounding v eps eta.

Lemma sum_over_scale sh (d : Qc) (f : list nat -> Qc) : sum_over sh (fun z => d * f z)%Qc = (d * sum_over sh f)%Qc.
Proof.
  revert f; induction sh as [|n sh IH]; intros f; cbn [sum_over]; auto.
  induction n as [|n IHn]; cbn [sum_n]; [cbn; ring|]. rewrite IHn, IH. cbn. ring.
Qed.

Lemma sum_over_nonneg sh (f : list nat -> Qc) : (forall z, 0 <= f z)%Qc -> (0 <= sum_over sh f)%Qc.
Proof.
  revert f; induction sh as [|n sh IH]; intros f Hf; cbn [sum_over]; auto.
  induction n as [|n IHn]; cbn [sum_n]; [apply Qcle_refl|]. apply Qcle_0_plus; auto.
Qed.

Lemma spread_dot (a b : arr F) la ra o d :
  (tensordot_value (amap (value_of v) a) (amap (value_of v) b) la ra o
   + d * tensordot_value (amap (magnitude_of v) a) (amap (magnitude_of v) b) la ra o)%Qc
  = sum_over (axis_lengths (a_shape a) la) (fun z => dot_term v a b la ra o z * (1 + d * qsgn (dot_term v a b la ra o z)))%Qc.
Proof.
  unfold tensordot_value. cbn [amap a_shape]. rewrite <- sum_over_scale.
  change Qcplus with (@sadd Qc Qc_scalar) at 1. rewrite <- (sum_over_add Qc_semiring). apply sum_over_ext. intros z _.
  rewrite !elem_magnitude. unfold dot_term. cbv zeta. cbn [smul sadd Qc_scalar].
  match goal with |- (?x * ?y + d * (Qcabs ?x * Qcabs ?y))%Qc = _ => rewrite <- (Qcabs_Qcmult x y), <- (qsgn_abs (x * y)%Qc); ring end.
Qed.

Lemma dot_magnitude_nonneg (a b : arr F) la ra o : (0 <= tensordot_value (amap (magnitude_of v) a) (amap (magnitude_of v) b) la ra o)%Qc.
Proof. apply sum_over_nonneg. intros z. rewrite !elem_magnitude. apply Qcle_0_mult; apply Qcabs_nonneg. Qed.

Lemma dot_padded_nonneg (a b : arr F) la ra o : (0 <= tensordot_value (amap (padded_of v) a) (amap (padded_of v) b) la ra o)%Qc.
Proof.
  assert (H : forall (x : arr F) idx, (0 <= elem (amap (padded_of v) x) idx)%Qc).
  { intros x idx. unfold elem. rewrite a_get_amap. destruct (a_get x idx); cbn [rmap]; try apply Qcle_refl.
    unfold padded_of. apply Qcle_0_plus; [discriminate|apply Qcabs_nonneg]. }
  apply sum_over_nonneg. intros z. apply Qcle_0_mult; apply H.
Qed.

Lemma dot_moved_nonneg (a : arr F) la : (0 <= dot_moved eps a la)%Qc.
Proof. unfold dot_moved. apply -> Qcle_minus_iff. apply grow_ge, (rnd_eps _ _ _ HF). Qed.

Lemma dot_underflow_nonneg (a b : arr F) la ra o : (0 <= dot_underflow v eps eta a b la ra o)%Qc.
Proof.
  unfold dot_underflow. apply Qcle_0_mult; [|apply Qcle_0_mult].
  - apply -> Qcle_minus_iff. apply grow_ge, (rnd_eta _ _ _ HF).
  - apply grow_nonneg, (rnd_eps _ _ _ HF).
  - apply dot_padded_nonneg.
Qed.

(** How far the terms of the element at [o] are moved, each in the direction of its sign. *)
Definition dot_shift (a b : arr F) la ra (r : arr F) o : Qc :=
  part (dot_moved eps a la) (tensordot_value (amap (magnitude_of v) a) (amap (magnitude_of v) b) la ra o)
    (value_of v (elem r o)) (tensordot_value (amap (value_of v) a) (amap (value_of v) b) la ra o).

Lemma dot_shift_ok lay (a b : arr F) la ra r : backend_runs lay -> fused_rounds v eps eta lay -> wf a -> wf b ->
  length la = length ra -> axes_ok (length (a_shape a)) la -> axes_ok (length (a_shape b)) ra ->
  axis_lengths (a_shape a) la = axis_lengths (a_shape b) ra -> tensordot lay a b la ra = Ok r ->
  let kept := axis_lengths (a_shape a) (free_axes (length (a_shape a)) la)
              ++ axis_lengths (a_shape b) (free_axes (length (a_shape b)) ra) in
  a_shape r = kept
  /\ forall o, in_bounds kept o = true -> v (elem r o) <> None ->
     (Qcabs (dot_shift a b la ra r o) <= dot_moved eps a la)%Qc
     /\ (Qcabs (value_of v (elem r o)
                - sum_over (axis_lengths (a_shape a) la) (fun z => dot_term v a b la ra o z
                    * (1 + dot_shift a b la ra r o * qsgn (dot_term v a b la ra o z))))
         <= dot_underflow v eps eta a b la ra o)%Qc.
Proof.
  intros Hl Hfu Wa Wb Hn Ha Hb He E kept.
  destruct (tensordot_rounding_error F Sf v eps eta HF lay a b la ra Hl Hfu Wa Wb Hn Ha Hb He) as (r' & f & E' & Hr & Hcl).
  assert (r' = r) by congruence. subst r'. split; [apply Hr|]. intros o Ho Hv. specialize (Hcl o Ho).
  rewrite <- (holds_elem _ _ _ _ Hr Ho) in Hcl. destruct Hcl as [Hx|(q & Eq & Hq)]; [contradiction|].
  unfold dot_shift. assert (Ev : value_of v (elem r o) = q) by (unfold value_of; rewrite Eq; auto). rewrite Ev.
  rewrite <- spread_dot. apply spread; auto using dot_moved_nonneg, dot_underflow_nonneg, dot_magnitude_nonneg.
Qed.

End BackwardDot.

(** A computed element is the exact sum of terms each moved by a small factor. *)
Theorem tensordot_moves_terms :
  forall (F : Type) (Sf : Scalar F) (v : F -> option Qc) (eps eta : Qc), rounding v eps eta ->
  forall lay (a b : arr F) la ra r, backend_runs lay -> fused_rounds v eps eta lay -> wf a -> wf b ->
    length la = length ra -> axes_ok (length (a_shape a)) la -> axes_ok (length (a_shape b)) ra ->
    axis_lengths (a_shape a) la = axis_lengths (a_shape b) ra -> tensordot lay a b la ra = Ok r ->
    let fa := free_axes (length (a_shape a)) la in
    let fb := free_axes (length (a_shape b)) ra in
    forall o q, in_bounds (axis_lengths (a_shape a) fa ++ axis_lengths (a_shape b) fb) o = true -> v (elem r o) = Some q ->
    exists factor : list nat -> Qc,
      (forall z, Qcabs (factor z - 1) <= dot_moved eps a la)%Qc
      /\ (Qcabs (q - sum_over (axis_lengths (a_shape a) la) (fun z => dot_term v a b la ra o z * factor z))
          <= dot_underflow v eps eta a b la ra o)%Qc.
Proof.
  intros F Sf v eps eta HF lay a b la ra r Hl Hfu Wa Wb Hn Ha Hb He E fa fb o q Ho Hq.
  destruct (dot_shift_ok v eps eta HF lay a b la ra r Hl Hfu Wa Wb Hn Ha Hb He E) as [_ H].
  destruct (H o Ho) as [H1 H2]; [congruence|].
  exists (fun z => 1 + dot_shift v eps a b la ra r o * qsgn (dot_term v a b la ra o z))%Qc. split.
  - intros z. match goal with |- (Qcabs ?x <= _)%Qc => replace x with (dot_shift v eps a b la ra r o
      * qsgn (dot_term v a b la ra o z))%Qc by ring end.
    rewrite Qcabs_Qcmult, abs_qsgn, Qcmult_1_r. auto.
  - replace q with (value_of v (elem r o)) by (unfold value_of; rewrite Hq; auto). exact H2.
Qed.
Print Assumptions tensordot_moves_terms.

(** If all axes of the second operand are contracted, as in the product of a matrix with a vector, then the whole
    result is the exact one for a first operand whose elements are moved by a small factor each. *)
Theorem tensordot_is_backward_stable :
  forall (F : Type) (Sf : Scalar F) (v : F -> option Qc) (eps eta : Qc), rounding v eps eta ->
  forall lay (a b : arr F) la ra r, backend_runs lay -> fused_rounds v eps eta lay -> wf a -> wf b ->
    length la = length ra -> axes_ok (length (a_shape a)) la -> axes_ok (length (a_shape b)) ra ->
    axis_lengths (a_shape a) la = axis_lengths (a_shape b) ra -> tensordot lay a b la ra = Ok r ->
    length ra = length (a_shape b) ->
    let kept := axis_lengths (a_shape a) (free_axes (length (a_shape a)) la) in
    (forall o, in_bounds kept o = true -> v (elem r o) <> None) ->
    exists a' : arr Qc, wf a' /\ a_shape a' = a_shape a
      /\ (forall idx, in_bounds (a_shape a) idx = true ->
            Qcabs (elem a' idx - value_of v (elem a idx)) <= dot_moved eps a la * Qcabs (value_of v (elem a idx)))%Qc
      /\ (forall o, in_bounds kept o = true ->
            Qcabs (value_of v (elem r o) - tensordot_value a' (amap (value_of v) b) la ra o)
            <= dot_underflow v eps eta a b la ra o)%Qc.
Proof.
  intros F Sf v eps eta HF lay a b la ra r Hl Hfu Wa Wb Hn Ha Hb He E Hall kept Hv.
  assert (Efb : free_axes (length (a_shape b)) ra = []).
  { apply length_zero_iff_nil. pose proof (axes_count _ _ Hb). lia. }
  destruct (dot_shift_ok v eps eta HF lay a b la ra r Hl Hfu Wa Wb Hn Ha Hb He E) as [_ H]. rewrite Efb in H.
  change (axis_lengths (a_shape b) []) with (@nil nat) in H. rewrite app_nil_r in H. fold kept in H.
  set (fa := free_axes (length (a_shape a)) la) in *. set (d := dot_shift v eps a b la ra r) in *.
  set (T := dot_term v a b la ra).
  set (f := fun idx => let o := along idx fa in
    (value_of v (elem a idx) * (if in_bounds kept o then 1 + d o * qsgn (T o (along idx la)) else 1))%Qc).
  set (a' := mk_c (a_shape a) (map f (indices (a_shape a)))).
  assert (Ha' : holds a' (a_shape a) f) by apply holds_mk_c.
  exists a'. split; [eapply holds_wf; eauto|]. split; [reflexivity|]. split.
  - intros idx Hi. rewrite (holds_elem _ _ _ _ Ha' Hi). unfold f. cbv zeta.
    destruct (in_bounds kept (along idx fa)) eqn:Ei.
    + match goal with |- (Qcabs ?y <= _)%Qc => replace y with
        (d (along idx fa) * (qsgn (T (along idx fa) (along idx la)) * value_of v (elem a idx)))%Qc by ring end.
      rewrite !Qcabs_Qcmult, abs_qsgn, Qcmult_1_l. apply Qcmult_le_compat_r; [|apply Qcabs_nonneg].
      apply H; auto.
    + match goal with |- (Qcabs ?y <= _)%Qc => replace y with 0%Qc by ring end.
      apply Qcle_0_mult; [apply (dot_moved_nonneg v eps eta HF)|apply Qcabs_nonneg].
  - intros o Ho. destruct (H o Ho (Hv o Ho)) as [_ H2].
    replace (tensordot_value a' (amap (value_of v) b) la ra o)
      with (sum_over (axis_lengths (a_shape a) la) (fun z => T o z * (1 + d o * qsgn (T o z)))%Qc); [exact H2|].
    unfold tensordot_value. change (a_shape a') with (a_shape a). fold fa. apply sum_over_ext. intros z Hz.
    assert (Lo : length o = length fa).
    { apply in_bounds_length in Ho. unfold kept, axis_lengths in Ho. rewrite map_length in Ho. auto. }
    assert (Lz : length z = length la).
    { apply in_bounds_length in Hz. unfold axis_lengths in Hz. rewrite map_length in Hz. auto. }
    rewrite firstn_all2 by lia.
    pose proof (free_axes_perm _ _ Ha) as Hp. fold fa in Hp.
    assert (Lf : length (o ++ z) = length (a_shape a)).
    { rewrite app_length, Lo, Lz, <- app_length, (Permutation_length Hp), seq_length. auto. }
    set (idx := place (length (a_shape a)) (fa ++ la) (o ++ z)).
    assert (Hb' : in_bounds (a_shape a) idx = true).
    { apply place_in_bounds; auto. unfold axis_lengths. rewrite map_app. apply in_bounds_app; auto. }
    assert (Li : length idx = length (a_shape a)) by (unfold idx, place; rewrite map_length, seq_length; auto).
    assert (Eal : o ++ z = along idx fa ++ along idx la).
    { unfold along. rewrite <- map_app. apply (place_is (length (a_shape a)) (fa ++ la) (o ++ z) idx Hp Lf Li). reflexivity. }
    destruct (app_parts o z (along idx fa) (along idx la)) as [Eo Ez]; [unfold along; rewrite map_length; auto|auto|].
    rewrite (holds_elem _ _ _ _ Ha' Hb'). unfold f. cbv zeta. rewrite Eo, Ez, Ho.
    generalize (1 + d o * qsgn (T o z))%Qc. intros g. unfold T, dot_term. cbv zeta. fold fa.
    rewrite firstn_all2 by lia. fold idx.
    assert (Ev : elem (amap (value_of v) a) idx = value_of v (elem a idx)).
    { pose proof (wf_holds a Wa) as (_ & _ & Hg). unfold elem. rewrite a_get_amap, (Hg _ Hb'). reflexivity. }
    rewrite Ev. cbn [amap a_shape smul Qc_scalar]. ring.
Qed.
Print Assumptions tensordot_is_backward_stable.

(** The other way round: if all axes of the first operand are contracted, the second one is moved. *)
Theorem tensordot_is_backward_stable_on_the_right :
  forall (F : Type) (Sf : Scalar F) (v : F -> option Qc) (eps eta : Qc), rounding v eps eta ->
  forall lay (a b : arr F) la ra r, backend_runs lay -> fused_rounds v eps eta lay -> wf a -> wf b ->
    length la = length ra -> axes_ok (length (a_shape a)) la -> axes_ok (length (a_shape b)) ra ->
    axis_lengths (a_shape a) la = axis_lengths (a_shape b) ra -> tensordot lay a b la ra = Ok r ->
    length la = length (a_shape a) ->
    let kept := axis_lengths (a_shape b) (free_axes (length (a_shape b)) ra) in
    (forall o, in_bounds kept o = true -> v (elem r o) <> None) ->
    exists b' : arr Qc, wf b' /\ a_shape b' = a_shape b
      /\ (forall idx, in_bounds (a_shape b) idx = true ->
            Qcabs (elem b' idx - value_of v (elem b idx)) <= dot_moved eps a la * Qcabs (value_of v (elem b idx)))%Qc
      /\ (forall o, in_bounds kept o = true ->
            Qcabs (value_of v (elem r o) - tensordot_value (amap (value_of v) a) b' la ra o)
            <= dot_underflow v eps eta a b la ra o)%Qc.
Proof.
  intros F Sf v eps eta HF lay a b la ra r Hl Hfu Wa Wb Hn Ha Hb He E Hall kept Hv.
  assert (Efa : free_axes (length (a_shape a)) la = []).
  { apply length_zero_iff_nil. pose proof (axes_count _ _ Ha). lia. }
  destruct (dot_shift_ok v eps eta HF lay a b la ra r Hl Hfu Wa Wb Hn Ha Hb He E) as [_ H]. rewrite Efa in H.
  change (axis_lengths (a_shape a) []) with (@nil nat) in H. cbn [app] in H. fold kept in H.
  set (fb := free_axes (length (a_shape b)) ra) in *. set (d := dot_shift v eps a b la ra r) in *.
  set (T := dot_term v a b la ra).
  set (f := fun idx => let o := along idx fb in
    (value_of v (elem b idx) * (if in_bounds kept o then 1 + d o * qsgn (T o (along idx ra)) else 1))%Qc).
  set (b' := mk_c (a_shape b) (map f (indices (a_shape b)))).
  assert (Hb' : holds b' (a_shape b) f) by apply holds_mk_c.
  exists b'. split; [eapply holds_wf; eauto|]. split; [reflexivity|]. split.
  - intros idx Hi. rewrite (holds_elem _ _ _ _ Hb' Hi). unfold f. cbv zeta.
    destruct (in_bounds kept (along idx fb)) eqn:Ei.
    + match goal with |- (Qcabs ?y <= _)%Qc => replace y with
        (d (along idx fb) * (qsgn (T (along idx fb) (along idx ra)) * value_of v (elem b idx)))%Qc by ring end.
      rewrite !Qcabs_Qcmult, abs_qsgn, Qcmult_1_l. apply Qcmult_le_compat_r; [|apply Qcabs_nonneg].
      apply H; auto.
    + match goal with |- (Qcabs ?y <= _)%Qc => replace y with 0%Qc by ring end.
      apply Qcle_0_mult; [apply (dot_moved_nonneg v eps eta HF)|apply Qcabs_nonneg].
  - intros o Ho. destruct (H o Ho (Hv o Ho)) as [_ H2].
    replace (tensordot_value (amap (value_of v) a) b' la ra o)
      with (sum_over (axis_lengths (a_shape a) la) (fun z => T o z * (1 + d o * qsgn (T o z)))%Qc); [exact H2|].
    unfold tensordot_value. change (a_shape b') with (a_shape b). cbn [amap a_shape]. rewrite Efa. fold fb.
    apply sum_over_ext. intros z Hz. cbn [length firstn skipn app].
    assert (Lo : length o = length fb).
    { apply in_bounds_length in Ho. unfold kept, axis_lengths in Ho. rewrite map_length in Ho. auto. }
    assert (Lz : length z = length ra).
    { apply in_bounds_length in Hz. unfold axis_lengths in Hz. rewrite map_length in Hz. lia. }
    pose proof (free_axes_perm _ _ Hb) as Hp. fold fb in Hp.
    assert (Lf : length (o ++ z) = length (a_shape b)).
    { rewrite app_length, Lo, Lz, <- app_length, (Permutation_length Hp), seq_length. auto. }
    set (idx := place (length (a_shape b)) (fb ++ ra) (o ++ z)).
    assert (Hbi : in_bounds (a_shape b) idx = true).
    { apply place_in_bounds; auto. unfold axis_lengths. rewrite map_app. apply in_bounds_app; auto. rewrite He in Hz. auto. }
    assert (Li : length idx = length (a_shape b)) by (unfold idx, place; rewrite map_length, seq_length; auto).
    assert (Eal : o ++ z = along idx fb ++ along idx ra).
    { unfold along. rewrite <- map_app. apply (place_is (length (a_shape b)) (fb ++ ra) (o ++ z) idx Hp Lf Li). reflexivity. }
    destruct (app_parts o z (along idx fb) (along idx ra)) as [Eo Ez]; [unfold along; rewrite map_length; auto|auto|].
    rewrite (holds_elem _ _ _ _ Hb' Hbi). unfold f. cbv zeta. rewrite Eo, Ez, Ho.
    generalize (1 + d o * qsgn (T o z))%Qc. intros g. unfold T, dot_term. cbv zeta. rewrite Efa. fold fb.
    cbn [length firstn skipn app]. fold idx.
    assert (Ev : elem (amap (value_of v) b) idx = value_of v (elem b idx)).
    { pose proof (wf_holds b Wb) as (_ & _ & Hg). unfold elem. rewrite a_get_amap, (Hg _ Hbi). reflexivity. }
    rewrite Ev. cbn [amap a_shape smul Qc_scalar]. ring.
Qed.
Print Assumptions tensordot_is_backward_stable_on_the_right.

(** The same for IEEE floating-point numbers, whose sums, products and fused multiply-adds round to nearest. *)
Theorem float_tensordot_is_backward_stable :
  forall f (lay : backend (float f)) (a b : arr (float f)) la ra r, float_backend lay -> wf a -> wf b ->
    length la = length ra -> axes_ok (length (a_shape a)) la -> axes_ok (length (a_shape b)) ra ->
    axis_lengths (a_shape a) la = axis_lengths (a_shape b) ra -> tensordot lay a b la ra = Ok r ->
    length ra = length (a_shape b) ->
    let kept := axis_lengths (a_shape a) (free_axes (length (a_shape a)) la) in
    (forall o, in_bounds kept o = true -> f_value (elem r o) <> None) ->
    exists a' : arr Qc, wf a' /\ a_shape a' = a_shape a
      /\ (forall idx, in_bounds (a_shape a) idx = true ->
            Qcabs (elem a' idx - value_of f_value (elem a idx)) <= dot_moved (f_eps f) a la * Qcabs (value_of f_value (elem a idx)))%Qc
      /\ (forall o, in_bounds kept o = true ->
            Qcabs (value_of f_value (elem r o) - tensordot_value a' (amap (value_of f_value) b) la ra o)
            <= dot_underflow f_value (f_eps f) (f_eta f) a b la ra o)%Qc.
Proof.
  intros f lay a b la ra r Hl Wa Wb Hn Ha Hb He E Hall kept Hv.
  apply (tensordot_is_backward_stable (float f) (float_scalar f) f_value (f_eps f) (f_eta f) (float_rounding f) lay a b la ra r); auto.
  - apply Hl.
  - apply float_fused_rounds; auto.
Qed.
Print Assumptions float_tensordot_is_backward_stable.

(** The matrix and the vector of [backward_case]: the exact products are 37 and 45, the computed ones 32 and 40. *)
Example backward_dot_case :
  let m := carr [2; 3] [1; 3; 1; 5; 5; -5]%Z in
  let x := carr [3] [9; 7; 7]%Z in
  @rounding _ cut_scalar cut_value eighth 0
  /\ @fused_rounds _ cut_scalar cut_value eighth 0 (@plain_backend _ cut_scalar)
  /\ wf m /\ wf x /\ axes_ok 2 [1] /\ axes_ok 1 [0] /\ axis_lengths [2; 3] [1] = axis_lengths [3] [0]
  /\ (exists r, @tensordot _ (@plain_backend _ cut_scalar) m x [1] [0] = Ok r
        /\ map (@elem _ cut_scalar r) (indices [2]) = [Some 32%Z; Some 40%Z])
  /\ (exists r, @tensordot _ (@plain_backend _ cut_scalar) x (carr [3; 2] [1; 5; 3; 5; 1; -5]%Z) [0] [0] = Ok r
        /\ map (@elem _ cut_scalar r) (indices [2]) = [Some 32%Z; Some 40%Z])
  /\ dot_moved eighth m [1] = Q2Qc (217 # 512)
  /\ map (tensordot_value (amap (value_of cut_value) m) (amap (value_of cut_value) x) [1] [0]) (indices [2])
     = [z2q 37; z2q 45].
Proof.
  cbv zeta. split; [apply cut_rounding|]. split; [left; reflexivity|].
  split; [apply wf_b_ok; reflexivity|]. split; [apply wf_b_ok; reflexivity|].
  split; [split; repeat constructor; simpl; tauto|]. split; [split; repeat constructor; simpl; tauto|]. split; [reflexivity|].
  split; [eexists; split; vm_compute; reflexivity|]. split; [eexists; split; vm_compute; reflexivity|].
  split; [apply Qc_is_canon; vm_compute; reflexivity|]. vm_compute indices. cbn [map]. f_equal.
Qed.

(** Three significant bits: 9 is rounded to 8, so 3 * 3 + 1 * 2 gives 10. *)
Example float_backward_dot_case :
  let m := farr tiny [1; 2] [3; 1]%Z in
  let x := farr tiny [2] [3; 2]%Z in
  float_backend (plain_backend (A := float tiny)) /\ wf m /\ wf x
  /\ axes_ok 2 [1] /\ axes_ok 1 [0] /\ axis_lengths [1; 2] [1] = axis_lengths [2] [0]
  /\ (do r <- tensordot (plain_backend (A := float tiny)) m x [1] [0];
      do l <- a_iter r; Ok (map f_value l)) = Ok [Some (of_Z 10)].
Proof.
  cbv zeta. split; [apply float_plain_backend_ok|].
  split; [apply wf_b_ok; reflexivity|]. split; [apply wf_b_ok; reflexivity|].
  split; [split; repeat constructor; simpl; tauto|]. split; [split; repeat constructor; simpl; tauto|]. split; [reflexivity|].
  vm_compute. reflexivity.
Qed.

(** If both operands keep an axis, the result need not be the exact product of any two operands, however far they
    may be moved: a computed outer product need not have rank one. *)
Theorem backward_stability_of_all_tensordots_refuted :
  ~ (forall (F : Type) (Sf : Scalar F) (v : F -> option Qc) (eps : Qc), rounding v eps 0 ->
     forall lay (a b : arr F) la ra r, backend_runs lay -> fused_rounds v eps 0 lay -> wf a -> wf b ->
       length la = length ra -> axes_ok (length (a_shape a)) la -> axes_ok (length (a_shape b)) ra ->
       axis_lengths (a_shape a) la = axis_lengths (a_shape b) ra -> tensordot lay a b la ra = Ok r ->
       let kept := axis_lengths (a_shape a) (free_axes (length (a_shape a)) la)
                   ++ axis_lengths (a_shape b) (free_axes (length (a_shape b)) ra) in
       (forall o, in_bounds kept o = true -> v (elem r o) <> None) ->
       exists a' b' : arr Qc, a_shape a' = a_shape a /\ a_shape b' = a_shape b
         /\ forall o, in_bounds kept o = true -> value_of v (elem r o) = tensordot_value a' b' la ra o).
Proof.
  intros H.
  specialize (H (option Z) cut_scalar cut_value eighth cut_rounding (@plain_backend _ cut_scalar)
    (carr [2] [3; 5]%Z) (carr [2] [7; 9]%Z) [] [] (carr [2; 2] [20; 26; 32; 44]%Z)).
  destruct H as (x' & y' & Ex & Ey & H).
  - apply plain_backend_ok.
  - left. reflexivity.
  - apply wf_b_ok. reflexivity.
  - apply wf_b_ok. reflexivity.
  - reflexivity.
  - split; constructor.
  - split; constructor.
  - reflexivity.
  - vm_compute. reflexivity.
  - intros o Ho. assert (Hin : In o (indices [2; 2])) by (apply indices_In; exact Ho).
    vm_compute in Hin. repeat destruct Hin as [<-|Hin]; try contradiction; vm_compute; discriminate.
  - pose proof (H [0; 0] eq_refl) as H1. pose proof (H [0; 1] eq_refl) as H2.
    pose proof (H [1; 0] eq_refl) as H3. pose proof (H [1; 1] eq_refl) as H4.
    assert (K : forall i j, @tensordot_value Qc Qc_scalar x' y' [] [] [i; j] = (elem x' [i] * elem y' [j])%Qc).
    { intros i j. unfold tensordot_value. rewrite Ex, Ey. reflexivity. }
    rewrite K in H1, H2, H3, H4. clear K H.
    revert H1 H2 H3 H4. generalize (elem x' [0]) (elem x' [1]) (elem y' [0]) (elem y' [1]). intros a b c d H1 H2 H3 H4.
    assert (E : (z2q 20 * z2q 44 = z2q 26 * z2q 32)%Qc).
    { transitivity ((a * c) * (b * d))%Qc; [rewrite <- H1, <- H4; reflexivity|].
      transitivity ((a * d) * (b * c))%Qc; [ring|rewrite <- H2, <- H3; reflexivity]. }
    rewrite <- !z2q_mul in E. apply z2q_inj in E. discriminate.
Qed.
Print Assumptions backward_stability_of_all_tensordots_refuted.
