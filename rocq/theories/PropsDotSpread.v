(** How far results of [tensordot] can differ (C82): between runs and ways of naming the axes, between precisions, from
    the corresponding [einsum], and if the operands were rounded first. *)
From Verif Require Import Base BaseFacts NDArray Validation Optimizers Path Api Spec ParserFacts ValidationMain SumFacts
  ArrayFacts PathFacts EinsumMain EinsumProps RelationFacts AlgebraFacts TensordotMain RoundFacts RangeFacts FloatFacts FloatMain BackwardFacts
  AdjointFacts UniqueFacts DotAlgebra Examples PropsTensordot PropsRounding PropsFloat PropsBackward PropsBackwardDot PropsSpread PropsDotAlgebra.
From Coq Require Import Lia QArith Qcanon Qcabs.
From Coq Require String.
Import String.StringSyntax.
Local Open Scope string_scope.
Local Open Scope list_scope.
Local Open Scope nat_scope.

(** ** Rounded operands *)

Lemma sum_over_moves sh (c : Qc) (f g m : list nat -> Qc) :
  (forall z, Qcabs (g z - f z) <= c * m z)%Qc -> (Qcabs (sum_over sh g - sum_over sh f) <= c * sum_over sh m)%Qc.
Proof.
  revert f g m. induction sh as [|n sh IH]; intros f g m H; cbn [sum_over]; auto.
  induction n as [|n IHn]; cbn [sum_n].
  - cbn. replace (0 - 0)%Qc with 0%Qc by ring. rewrite abs_zero, Qcmult_0_r. apply Qcle_refl.
  - cbn [sadd Qc_scalar].
    match goal with |- (Qcabs (?a + ?b - (?a' + ?b')) <= c * (?s + ?t))%Qc =>
      replace (a + b - (a' + b'))%Qc with ((a - a') + (b - b'))%Qc by ring;
      replace (c * (s + t))%Qc with (c * s + c * t)%Qc by ring end.
    eapply Qcle_trans; [apply Qcabs_triangle|]. apply Qcplus_le_compat; auto.
Qed.

(** A relative error of [d] in the operands' elements moves the tensor dot product by at most ((1 + d) ^ 2 - 1) times that
    of the absolute values. *)
Theorem rounded_operands_move_the_dot :
  forall d (a b a' b' : arr Qc) la ra o, (0 <= d)%Qc -> near_array d a a' -> near_array d b b' ->
    wf a -> wf b -> wf a' -> wf b' ->
    (Qcabs (tensordot_value a' b' la ra o - tensordot_value a b la ra o)
     <= (grow d 2 - 1) * tensordot_value (amap Qcabs a) (amap Qcabs b) la ra o)%Qc.
Proof.
  intros d a b a' b' la ra o Hd Na Nb Wa Wb Wa' Wb'. unfold tensordot_value. cbn [amap a_shape].
  rewrite (proj1 Na), (proj1 Nb). apply sum_over_moves. intros z. fold (amap Qcabs a) (amap Qcabs b). rewrite !elem_abs.
  cbn [smul Qc_scalar]. replace (grow d 2) with ((1 + d) * (1 + d))%Qc by (cbn [grow]; ring).
  assert (H1 : (0 <= 1 + d - 1)%Qc) by (replace (1 + d - 1)%Qc with d by ring; auto).
  apply product_moves; auto; [|replace (1 + d - 1)%Qc with d by ring]; apply near_elem; auto.
Qed.
Print Assumptions rounded_operands_move_the_dot.

(** The vectors of [rounded_operands_case]. *)
Example rounded_dot_case :
  let q l := mk_c [2] (map z2q l) in
  near_array (Q2Qc (1 # 7)) (q [9; 7]%Z) (q [8; 8]%Z) /\ near_array (Q2Qc (1 # 7)) (q [3; 1]%Z) (q [3; 1]%Z)
  /\ tensordot_value (q [9; 7]%Z) (q [3; 1]%Z) [0] [0] [] = z2q 34 /\ tensordot_value (q [8; 8]%Z) (q [3; 1]%Z) [0] [0] [] = z2q 32.
Proof.
  cbv zeta.
  assert (H : forall x y : arr Qc, a_shape x = [2] -> a_shape y = [2] ->
    (forall i, In i (indices [2]) -> Qcabs (elem y i - elem x i) <= Q2Qc (1 # 7) * Qcabs (elem x i))%Qc -> near_array (Q2Qc (1 # 7)) x y).
  { intros x y Ex Ey Hi. split; [congruence|]. intros i Hb. apply Hi. apply indices_In. rewrite Ex in Hb. exact Hb. }
  split; [|split; [|split; apply Qc_is_canon; vm_compute; reflexivity]].
  - apply H; auto. intros i Hin. vm_compute in Hin. repeat destruct Hin as [<-|Hin]; try contradiction; apply Qle_bool_imp_le; vm_compute; reflexivity.
  - apply H; auto. intros i Hin. vm_compute in Hin. repeat destruct Hin as [<-|Hin]; try contradiction; apply Qle_bool_imp_le; vm_compute; reflexivity.
Qed.

(** ** Two runs *)

(** The error bound of [tensordot_rounding_error]. *)
Definition dot_bound {F} (v : F -> option Qc) (eps eta : Qc) (a b : arr F) la ra o : Qc :=
  (dot_moved eps a la * tensordot_value (amap (magnitude_of v) a) (amap (magnitude_of v) b) la ra o
   + dot_underflow v eps eta a b la ra o)%Qc.

Lemma dot_within {F} {Sf : Scalar F} v eps eta lay (a b : arr F) la ra r o q :
  rounding v eps eta -> backend_runs lay -> fused_rounds v eps eta lay -> wf a -> wf b -> axes_fit a b la ra ->
  tensordot lay a b la ra = Ok r -> in_bounds (dot_shape a b la ra) o = true -> v (elem r o) = Some q ->
  (Qcabs (q - tensordot_value (amap (value_of v) a) (amap (value_of v) b) la ra o) <= dot_bound v eps eta a b la ra o)%Qc.
Proof.
  intros HF Hl Hfu Wa Wb (Hn & Ha & Hb & He) E Ho Hq.
  destruct (tensordot_rounding_error F Sf v eps eta HF lay a b la ra) as (r' & f & E' & Hr & H); auto.
  assert (r' = r) by congruence. subst r'. rewrite (holds_elem _ _ _ _ Hr Ho) in Hq.
  destruct (H o Ho) as [Hx|(q' & Eq & Hb')]; [congruence|]. assert (q' = q) by congruence. subst q'. exact Hb'.
Qed.

Lemma magnitudes_of {F} (v : F -> option Qc) (a : arr F) : amap Qcabs (amap (value_of v) a) = amap (magnitude_of v) a.
Proof. unfold amap. cbn. rewrite map_map. reflexivity. Qed.

(** In two arithmetics, for operands that differ by rounding. *)
Theorem dots_in_two_precisions_differ_by_at_most :
  forall (F G : Type) (Sf : Scalar F) (Sg : Scalar G) (v : F -> option Qc) (w : G -> option Qc) (eps eta eps' eta' d : Qc),
    rounding v eps eta -> rounding w eps' eta' -> (0 <= d)%Qc ->
  forall lay lay' (a b : arr F) (a' b' : arr G) la ra r r',
    backend_runs lay -> fused_rounds v eps eta lay -> backend_runs lay' -> fused_rounds w eps' eta' lay' ->
    wf a -> wf b -> wf a' -> wf b' -> axes_fit a b la ra ->
    near_array d (amap (value_of v) a) (amap (value_of w) a') -> near_array d (amap (value_of v) b) (amap (value_of w) b') ->
    tensordot lay a b la ra = Ok r -> tensordot lay' a' b' la ra = Ok r' ->
    forall o q q', in_bounds (dot_shape a b la ra) o = true -> v (elem r o) = Some q -> w (elem r' o) = Some q' ->
    (Qcabs (q - q') <= dot_bound v eps eta a b la ra o + dot_bound w eps' eta' a' b' la ra o
       + (grow d 2 - 1) * tensordot_value (amap (magnitude_of v) a) (amap (magnitude_of v) b) la ra o)%Qc.
Proof.
  intros F G Sf Sg v w eps eta eps' eta' d HF HG Hd lay lay' a b a' b' la ra r r' Hl Hfu Hl' Hfu' Wa Wb Wa' Wb' Hfit Na Nb E E'
    o q q' Ho Hq Hq'.
  pose proof (dot_within v eps eta lay a b la ra r o q HF Hl Hfu Wa Wb Hfit E Ho Hq) as B1.
  assert (Sa : a_shape a' = a_shape a) by apply Na. assert (Sb : a_shape b' = a_shape b) by apply Nb.
  assert (Hfit' : axes_fit a' b' la ra) by (unfold axes_fit in *; rewrite Sa, Sb; auto).
  assert (Ho' : in_bounds (dot_shape a' b' la ra) o = true) by (unfold dot_shape in *; rewrite Sa, Sb; auto).
  pose proof (dot_within w eps' eta' lay' a' b' la ra r' o q' HG Hl' Hfu' Wa' Wb' Hfit' E' Ho' Hq') as B2.
  pose proof (rounded_operands_move_the_dot d _ _ _ _ la ra o Hd Na Nb (wf_amap _ _ Wa) (wf_amap _ _ Wb) (wf_amap _ _ Wa') (wf_amap _ _ Wb')) as B3.
  rewrite !magnitudes_of in B3. revert B1 B2 B3.
  generalize (tensordot_value (amap (value_of v) a) (amap (value_of v) b) la ra o)
    (tensordot_value (amap (value_of w) a') (amap (value_of w) b') la ra o).
  intros x y B1 B2 B3. replace (q - q')%Qc with ((q - x) + (- (q' - y) + - (y - x)))%Qc by ring.
  rewrite <- Qcplus_assoc. eapply Qcle_trans; [apply Qcabs_triangle|]. apply Qcplus_le_compat; auto.
  eapply Qcle_trans; [apply Qcabs_triangle|]. rewrite !Qcabs_opp. apply Qcplus_le_compat; auto.
Qed.
Print Assumptions dots_in_two_precisions_differ_by_at_most.

(** The exact tensor dot product does not depend on the order of the pairs. *)
Lemma dot_of_permuted_pairs (a b : arr Qc) la ra la' ra' o : wf a -> wf b -> axes_fit a b la ra -> length la' = length ra' ->
  Permutation (combine la ra) (combine la' ra') -> in_bounds (dot_shape a b la ra) o = true ->
  axes_fit a b la' ra' /\ dot_shape a b la' ra' = dot_shape a b la ra /\ tensordot_value a b la' ra' o = tensordot_value a b la ra o.
Proof.
  intros Wa Wb Hfit Hn' Hp Ho. pose proof Hfit as (Hn & Ha & Hb & He).
  assert (Pl : Permutation la la') by (rewrite <- (map_fst_combine la ra), <- (map_fst_combine la' ra') by auto; apply Permutation_map; auto).
  assert (Pr : Permutation ra ra') by (rewrite <- (map_snd_combine la ra), <- (map_snd_combine la' ra') by auto; apply Permutation_map; auto).
  assert (Fit' : axes_fit a b la' ra').
  { destruct Ha as [A1 A2], Hb as [B1 B2]. split; auto.
    split; [split; [exact (Permutation_NoDup Pl A1)|eapply Permutation_Forall; eauto]|].
    split; [split; [exact (Permutation_NoDup Pr B1)|eapply Permutation_Forall; eauto]|].
    unfold axis_lengths in *. apply map_pairs; auto. intros p Hi.
    apply (proj1 (map_pairs (fun k => nth k (a_shape a) 0) (fun k => nth k (a_shape b) 0) la ra Hn) He).
    apply (Permutation_in _ (Permutation_sym Hp)). auto. }
  assert (Hs : dot_shape a b la' ra' = dot_shape a b la ra).
  { unfold dot_shape. rewrite (free_axes_same _ la la'), (free_axes_same _ ra ra'); auto;
      intros k; split; apply Permutation_in; auto using Permutation_sym. }
  split; auto. split; auto.
  pose proof (plain_backend_ok (A := Qc)) as PB.
  destruct (tensordot_ignores_the_order_of_pairs Qc _ Qc_semiring _ _ a b la ra la' ra' PB PB Wa Wb Hfit Hn' Hp) as (r & r' & E & E' & Hsame).
  destruct (tensordot_is_correct Qc _ Qc_semiring _ a b la ra PB) as (x & Ex & Hx); auto.
  destruct Fit' as (_ & Ha' & Hb' & He').
  destruct (tensordot_is_correct Qc _ Qc_semiring _ a b la' ra' PB) as (y & Ey & Hy); auto.
  assert (x = r) by congruence. assert (y = r') by congruence. subst x y.
  rewrite <- (holds_elem _ _ _ _ Hx Ho). rewrite <- (holds_elem _ _ _ _ Hy) by (fold (dot_shape a b la' ra'); rewrite Hs; auto).
  unfold elem. rewrite (same_get r r' o Hsame). auto.
Qed.

Lemma prod_axis_lengths_perm sh l l' : Permutation l l' -> prod (axis_lengths sh l) = prod (axis_lengths sh l').
Proof. intros H. unfold axis_lengths. induction H; cbn in *; auto; try congruence; lia. Qed.

(** In one arithmetic, with the pairs of axes named in any order and operands that lie in memory in any way. *)
Theorem dots_differ_by_at_most :
  forall (F : Type) (Sf : Scalar F) (v : F -> option Qc) (eps eta : Qc), rounding v eps eta ->
  forall lay lay' (a b a' b' : arr F) la ra la' ra' r r',
    backend_runs lay -> fused_rounds v eps eta lay -> backend_runs lay' -> fused_rounds v eps eta lay' ->
    wf a -> wf b -> wf a' -> wf b' -> axes_fit a b la ra -> same_array a a' -> same_array b b' ->
    length la' = length ra' -> Permutation (combine la ra) (combine la' ra') ->
    tensordot lay a b la ra = Ok r -> tensordot lay' a' b' la' ra' = Ok r' ->
    forall o q q', in_bounds (dot_shape a b la ra) o = true -> v (elem r o) = Some q -> v (elem r' o) = Some q' ->
    (Qcabs (q - q') <= (1 + 1) * dot_bound v eps eta a b la ra o)%Qc.
Proof.
  intros F Sf v eps eta HF lay lay' a b a' b' la ra la' ra' r r' Hl Hfu Hl' Hfu' Wa Wb Wa' Wb' Hfit Sa Sb Hn' Hp E E' o q q' Ho Hq Hq'.
  pose proof (dot_within v eps eta lay a b la ra r o q HF Hl Hfu Wa Wb Hfit E Ho Hq) as B1.
  assert (P : forall g : F -> Qc, axes_fit (amap g a) (amap g b) la' ra' /\ dot_shape (amap g a) (amap g b) la' ra' = dot_shape (amap g a) (amap g b) la ra
    /\ tensordot_value (amap g a) (amap g b) la' ra' o = tensordot_value (amap g a) (amap g b) la ra o).
  { intros g. apply dot_of_permuted_pairs; auto using wf_amap. }
  assert (V : forall g : F -> Qc, tensordot_value (amap g a') (amap g b') la' ra' o = tensordot_value (amap g a) (amap g b) la ra o).
  { intros g. destruct (P g) as (_ & _ & <-). unfold tensordot_value. cbn [amap a_shape]. rewrite (proj1 Sa), (proj1 Sb).
    apply sum_over_ext. intros z _. fold (amap g a) (amap g b) (amap g a') (amap g b'). unfold elem.
    rewrite !a_get_amap, !(same_get a a'), !(same_get b b') by auto. reflexivity. }
  destruct (P (value_of v)) as (Fit' & Sh' & _).
  assert (Fit2 : axes_fit a' b' la' ra') by (unfold axes_fit in *; cbn [amap a_shape] in Fit'; rewrite <- (proj1 Sa), <- (proj1 Sb); auto).
  assert (Ho' : in_bounds (dot_shape a' b' la' ra') o = true).
  { unfold dot_shape in *. cbn [amap a_shape] in Sh'. rewrite <- (proj1 Sa), <- (proj1 Sb), Sh'. auto. }
  pose proof (dot_within v eps eta lay' a' b' la' ra' r' o q' HF Hl' Hfu' Wa' Wb' Fit2 E' Ho' Hq') as B2.
  assert (Pl : Permutation la' la).
  { destruct Hfit as [Hn _]. rewrite <- (map_fst_combine la ra), <- (map_fst_combine la' ra') by auto.
    apply Permutation_map, Permutation_sym; auto. }
  assert (Eb : dot_bound v eps eta a' b' la' ra' o = dot_bound v eps eta a b la ra o).
  { unfold dot_bound, dot_underflow, dot_moved. rewrite !V, <- (proj1 Sa), (prod_axis_lengths_perm (a_shape a) la' la) by auto. reflexivity. }
  rewrite Eb, V in B2. revert B1 B2.
  generalize (tensordot_value (amap (value_of v) a) (amap (value_of v) b) la ra o) (dot_bound v eps eta a b la ra o).
  intros x e B1 B2. replace (q - q')%Qc with ((q - x) + - (q' - x))%Qc by ring. replace ((1 + 1) * e)%Qc with (e + e)%Qc by ring.
  eapply Qcle_trans; [apply Qcabs_triangle|]. rewrite Qcabs_opp. apply Qcplus_le_compat; auto.
Qed.
Print Assumptions dots_differ_by_at_most.

(** The matrix product as a [tensordot] and as an [einsum] are no further apart than the sum of their error bounds; the
    same goes for every other [tensordot]. *)
Theorem dot_and_einsum_differ_by_at_most :
  forall (F : Type) (Sf : Scalar F) (v : F -> option Qc) (eps eta : Qc), rounding v eps eta ->
  forall h lay lay' s (a b : arr F) x y la ra size r r',
    let out := axis_labels x (free_axes (length x) la) ++ axis_labels y (free_axes (length y) ra) in
    hash_ok h -> backend_runs lay -> fused_rounds v eps eta lay -> backend_runs lay' -> fused_rounds v eps eta lay' ->
    wf a -> wf b -> call_ok s [a_shape a; a_shape b] [x; y] out size -> NoDup x -> NoDup y ->
    axes_ok (length x) la -> axes_ok (length y) ra -> axis_labels x la = axis_labels y ra ->
    tensordot lay a b la ra = Ok r -> returned_by h lay' s [a; b] r' ->
    forall o q q', in_bounds (map size out) o = true -> v (elem r o) = Some q -> v (elem r' o) = Some q' ->
    (Qcabs (q - q') <= dot_bound v eps eta a b la ra o + error_bound v eps eta size [a; b] [x; y] out o)%Qc.
Proof.
  intros F Sf v eps eta HF h lay lay' s a b x y la ra size r r' out Hh Hl Hfu Hl' Hfu' Wa Wb Hc Nx Ny Ha Hb He E Hr' o q q' Ho Hq Hq'.
  pose proof Hc as (_ & [No _] & Hs). inversion Hs as [|? ? ? ? Sa Hs']; subst. inversion Hs' as [|? ? ? ? Sb _]; subst.
  assert (La : length (a_shape a) = length x) by (rewrite Sa, map_length; auto).
  assert (Lb : length (a_shape b) = length y) by (rewrite Sb, map_length; auto).
  assert (Fit : axes_fit a b la ra).
  { split; [apply (f_equal (@length _)) in He; unfold axis_labels in He; rewrite !map_length in He; auto|].
    rewrite La, Lb. split; auto. split; auto. rewrite Sa, Sb, !lengths_of_labels by (apply Ha || apply Hb). rewrite He. auto. }
  assert (Sh : dot_shape a b la ra = map size out).
  { unfold dot_shape, out. rewrite La, Lb, Sa, Sb, !lengths_of_labels by apply free_axes_bound. rewrite map_app. auto. }
  pose proof (dot_within v eps eta lay a b la ra r o q HF Hl Hfu Wa Wb Fit E ltac:(rewrite Sh; exact Ho) Hq) as B1.
  pose proof (returned_within v eps eta h lay' s [a; b] [x; y] out size r' o q' HF Hh Hl' Hfu' Hc
    ltac:(constructor; [exact Wa|constructor; [exact Wb|constructor]]) Hr' Ho Hq') as B2.
  unfold values in B2. cbn [map] in B2.
  pose proof (tensordot_value_einsum Qc_semiring (amap (value_of v) a) (amap (value_of v) b) x y la ra size o Sa Sb Nx Ny No Ha Hb He Ho) as Ev.
  cbv zeta in Ev. fold out in Ev. rewrite Ev in B2. revert B1 B2.
  generalize (tensordot_value (amap (value_of v) a) (amap (value_of v) b) la ra o).
  intros t B1 B2. replace (q - q')%Qc with ((q - t) + - (q' - t))%Qc by ring.
  eapply Qcle_trans; [apply Qcabs_triangle|]. rewrite Qcabs_opp. apply Qcplus_le_compat; auto.
Qed.
Print Assumptions dot_and_einsum_differ_by_at_most.

(** ** Floating-point numbers *)

Theorem float_dots_in_two_precisions_differ_by_at_most :
  forall f g (d : Qc) (lay : backend (float f)) (lay' : backend (float g)) a b a' b' la ra r r', (0 <= d)%Qc ->
    float_backend lay -> float_backend lay' -> wf a -> wf b -> wf a' -> wf b' -> axes_fit a b la ra ->
    near_array d (amap (value_of f_value) a) (amap (value_of f_value) a') ->
    near_array d (amap (value_of f_value) b) (amap (value_of f_value) b') ->
    tensordot lay a b la ra = Ok r -> tensordot lay' a' b' la ra = Ok r' ->
    forall o q q', in_bounds (dot_shape a b la ra) o = true -> f_value (elem r o) = Some q -> f_value (elem r' o) = Some q' ->
    (Qcabs (q - q') <= dot_bound f_value (f_eps f) (f_eta f) a b la ra o + dot_bound f_value (f_eps g) (f_eta g) a' b' la ra o
       + (grow d 2 - 1) * tensordot_value (amap (magnitude_of f_value) a) (amap (magnitude_of f_value) b) la ra o)%Qc.
Proof.
  intros f g d lay lay' a b a' b' la ra r r' Hd Hl Hl'. intros.
  apply (dots_in_two_precisions_differ_by_at_most (float f) (float g) (float_scalar f) (float_scalar g) f_value f_value
    (f_eps f) (f_eta f) (f_eps g) (f_eta g) d (float_rounding f) (float_rounding g) Hd lay lay' a b a' b' la ra r r');
    auto; try apply float_fused_rounds; auto; try apply Hl; apply Hl'.
Qed.
Print Assumptions float_dots_in_two_precisions_differ_by_at_most.

(** [float_precisions_case] as a product with ones. *)
Example float_dots_in_two_precisions_case :
  let x f := farr f [4] [8; 1; 1; -10]%Z in
  let y f := farr f [4] [1; 1; 1; 1]%Z in
  float_backend (plain_backend (A := float tiny)) /\ float_backend (plain_backend (A := float f64))
  /\ wf (x tiny) /\ wf (y tiny) /\ wf (x f64) /\ wf (y f64) /\ axes_fit (x tiny) (y tiny) [0] [0]
  /\ near_array 0 (amap (value_of f_value) (x tiny)) (amap (value_of f_value) (x f64))
  /\ near_array 0 (amap (value_of f_value) (y tiny)) (amap (value_of f_value) (y f64))
  /\ (do r <- tensordot (plain_backend (A := float tiny)) (x tiny) (y tiny) [0] [0];
      do l <- a_iter r; Ok (map (@proj1_sig _ _) l)) = Ok [proj1_sig (f_of tiny (-2) 0)]
  /\ (do r <- tensordot (plain_backend (A := float f64)) (x f64) (y f64) [0] [0];
      do l <- a_iter r; Ok (map (@proj1_sig _ _) l)) = Ok [proj1_sig (f_of f64 0 0)].
Proof.
  cbv zeta. split; [apply float_plain_backend_ok|]. split; [apply float_plain_backend_ok|].
  do 4 (split; [apply wf_b_ok; reflexivity|]).
  split; [split; [reflexivity|split; [axes_tac|split; [axes_tac|reflexivity]]]|].
  split; [|split; [|split; vm_compute; reflexivity]];
  (split; [reflexivity|]; intros idx Hi; assert (Hin : In idx (indices [4])) by (apply indices_In; exact Hi);
    vm_compute in Hin; repeat destruct Hin as [<-|Hin]; try contradiction; apply Qle_bool_imp_le; vm_compute; reflexivity).
Qed.

Theorem float_dots_differ_by_at_most :
  forall f (lay lay' : backend (float f)) a b a' b' la ra la' ra' r r', float_backend lay -> float_backend lay' ->
    wf a -> wf b -> wf a' -> wf b' -> axes_fit a b la ra -> same_array a a' -> same_array b b' ->
    length la' = length ra' -> Permutation (combine la ra) (combine la' ra') ->
    tensordot lay a b la ra = Ok r -> tensordot lay' a' b' la' ra' = Ok r' ->
    forall o q q', in_bounds (dot_shape a b la ra) o = true -> f_value (elem r o) = Some q -> f_value (elem r' o) = Some q' ->
    (Qcabs (q - q') <= (1 + 1) * dot_bound f_value (f_eps f) (f_eta f) a b la ra o)%Qc.
Proof.
  intros f lay lay' a b a' b' la ra la' ra' r r' Hl Hl'. intros.
  apply (dots_differ_by_at_most (float f) (float_scalar f) f_value (f_eps f) (f_eta f) (float_rounding f)
    lay lay' a b a' b' la ra la' ra' r r'); auto; try apply float_fused_rounds; auto; try apply Hl; apply Hl'.
Qed.
Print Assumptions float_dots_differ_by_at_most.

(** With three significant bits: 8 - 8 + 1 + 1 is 2, but 8 + 1 - 8 + 1 is 1. *)
Example float_dots_case :
  let x := farr tiny [2; 2] [8; -8; 1; 1]%Z in
  let y := farr tiny [2; 2] [1; 1; 1; 1]%Z in
  float_backend (plain_backend (A := float tiny)) /\ wf x /\ wf y /\ axes_fit x y [0; 1] [0; 1] /\ same_array x x /\ same_array y y
  /\ Permutation (combine [0; 1] [0; 1]) (combine [1; 0] [1; 0])
  /\ (do r <- tensordot (plain_backend (A := float tiny)) x y [0; 1] [0; 1];
      do l <- a_iter r; Ok (map (@proj1_sig _ _) l)) = Ok [proj1_sig (f_of tiny 2 0)]
  /\ (do r <- tensordot (plain_backend (A := float tiny)) x y [1; 0] [1; 0];
      do l <- a_iter r; Ok (map (@proj1_sig _ _) l)) = Ok [proj1_sig (f_of tiny 1 0)].
Proof.
  cbv zeta. split; [apply float_plain_backend_ok|]. do 2 (split; [apply wf_b_ok; reflexivity|]).
  split; [split; [reflexivity|split; [axes_tac|split; [axes_tac|reflexivity]]]|].
  split; [split; reflexivity|]. split; [split; reflexivity|]. split; [apply perm_swap|]. split; vm_compute; reflexivity.
Qed.

Theorem float_dot_and_einsum_differ_by_at_most :
  forall f h (lay lay' : backend (float f)) s a b x y la ra size r r',
    let out := axis_labels x (free_axes (length x) la) ++ axis_labels y (free_axes (length y) ra) in
    hash_ok h -> float_backend lay -> float_backend lay' ->
    wf a -> wf b -> call_ok s [a_shape a; a_shape b] [x; y] out size -> NoDup x -> NoDup y ->
    axes_ok (length x) la -> axes_ok (length y) ra -> axis_labels x la = axis_labels y ra ->
    tensordot lay a b la ra = Ok r -> returned_by h lay' s [a; b] r' ->
    forall o q q', in_bounds (map size out) o = true -> f_value (elem r o) = Some q -> f_value (elem r' o) = Some q' ->
    (Qcabs (q - q') <= dot_bound f_value (f_eps f) (f_eta f) a b la ra o
       + error_bound f_value (f_eps f) (f_eta f) size [a; b] [x; y] out o)%Qc.
Proof.
  intros f h lay lay' s a b x y la ra size r r' out Hh Hl Hl'. intros.
  apply (dot_and_einsum_differ_by_at_most (float f) (float_scalar f) f_value (f_eps f) (f_eta f) (float_rounding f)
    h lay lay' s a b x y la ra size r r'); auto; try apply float_fused_rounds; auto; try apply Hl; apply Hl'.
Qed.
Print Assumptions float_dot_and_einsum_differ_by_at_most.

(** The same operands: with the axes named in the second order [tensordot] gives 1, and [einsum] 2. *)
Example float_dot_and_einsum_case :
  let x := farr tiny [2; 2] [8; -8; 1; 1]%Z in
  let y := farr tiny [2; 2] [1; 1; 1; 1]%Z in
  call_ok (chars "ij,ij->") [a_shape x; a_shape y] [chars "ij"; chars "ij"] [] (size_fn (combine (chars "ij") [2; 2]))
  /\ axes_ok 2 [1; 0] /\ axis_labels (chars "ij") (free_axes 2 [1; 0]) = []
  /\ (do r <- tensordot (plain_backend (A := float tiny)) x y [1; 0] [1; 0];
      do l <- a_iter r; Ok (map (@proj1_sig _ _) l)) = Ok [proj1_sig (f_of tiny 1 0)]
  /\ (do r <- einsum id_hash (plain_backend (A := float tiny)) (chars "ij,ij->") [x; y];
      do l <- a_iter r; Ok (map (@proj1_sig _ _) l)) = Ok [proj1_sig (f_of tiny 2 0)].
Proof.
  cbv zeta. split; [apply check_call_ok; check_call_tac|]. split; [axes_tac|]. split; [reflexivity|].
  split; vm_compute; reflexivity.
Qed.
