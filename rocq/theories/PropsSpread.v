(** How far results can differ (C80): between runs, between precisions, and if the operands were rounded first. *)
From Verif Require Import Base BaseFacts NDArray Validation Optimizers Path Api Spec ParserFacts ValidationMain SumFacts
  ArrayFacts PathFacts EinsumMain EinsumProps RelationFacts AlgebraFacts TensordotMain RoundFacts RangeFacts FloatFacts FloatMain BackwardFacts
  Examples PropsRounding PropsFloat PropsBackward PropsBackwardDot.
From Coq Require Import Lia QArith Qcanon Qcabs.
From Coq Require String.
Import String.StringSyntax.
Local Open Scope string_scope.
Local Open Scope list_scope.
Local Open Scope nat_scope.

(** ** Rounded operands *)

(** Each element of [b] is that of [a] up to a relative error of [d]. *)
Definition near_array (d : Qc) (a b : arr Qc) : Prop :=
  a_shape b = a_shape a
  /\ forall idx, in_bounds (a_shape a) idx = true -> (Qcabs (elem b idx - elem a idx) <= d * Qcabs (elem a idx))%Qc.

Lemma abs_zero : Qcabs 0%Qc = 0%Qc.
Proof. apply Qc_is_canon; reflexivity. Qed.

Lemma near_elem d a b idx : (0 <= d)%Qc -> near_array d a b -> wf a -> wf b ->
  (Qcabs (elem b idx - elem a idx) <= d * Qcabs (elem a idx))%Qc.
Proof.
  intros Hd [Hs H] Wa Wb. destruct (in_bounds (a_shape a) idx) eqn:E; auto.
  assert (Z : forall x : arr Qc, a_shape x = a_shape a -> elem x idx = 0%Qc).
  { intros x Ex. unfold elem, a_get. rewrite Ex, E. reflexivity. }
  rewrite !Z by auto. replace (0 - 0)%Qc with 0%Qc by ring. rewrite abs_zero, Qcmult_0_r. apply Qcle_refl.
Qed.

(** An error of [d] in one factor and of [g - 1] in the other. *)
Lemma product_moves (d g x x' p p' : Qc) : (0 <= d)%Qc -> (0 <= g - 1)%Qc ->
  (Qcabs (x' - x) <= d * Qcabs x)%Qc -> (Qcabs (p' - p) <= (g - 1) * Qcabs p)%Qc ->
  (Qcabs (x' * p' - x * p) <= ((1 + d) * g - 1) * (Qcabs x * Qcabs p))%Qc.
Proof.
  intros Hd Hg Hx Hp.
  assert (Hx' : (Qcabs x' <= (1 + d) * Qcabs x)%Qc).
  { replace x' with (x + (x' - x))%Qc by ring. eapply Qcle_trans; [apply Qcabs_triangle|].
    replace ((1 + d) * Qcabs x)%Qc with (Qcabs x + d * Qcabs x)%Qc by ring. apply Qcplus_le_compat; auto. apply Qcle_refl. }
  replace (x' * p' - x * p)%Qc with (x' * (p' - p) + (x' - x) * p)%Qc by ring.
  eapply Qcle_trans; [apply Qcabs_triangle|]. rewrite !Qcabs_Qcmult.
  replace (((1 + d) * g - 1) * (Qcabs x * Qcabs p))%Qc
    with (((1 + d) * Qcabs x) * ((g - 1) * Qcabs p) + (d * Qcabs x) * Qcabs p)%Qc by ring.
  apply Qcplus_le_compat; [|apply Qcmult_le_compat_r; auto; apply Qcabs_nonneg].
  eapply Qcle_trans; [apply Qcmult_le_compat_r; [exact Hx'|apply Qcabs_nonneg]|].
  rewrite !(Qcmult_comm ((1 + d) * Qcabs x)). apply Qcmult_le_compat_r; auto.
  apply Qcle_0_mult; [|apply Qcabs_nonneg]. apply Qcle_0_plus; auto. discriminate.
Qed.

Lemma nested_sum_moves size cs (c : Qc) (f g m : env -> Qc) e :
  (forall e, Qcabs (g e - f e) <= c * m e)%Qc ->
  (Qcabs (nested_sum size cs g e - nested_sum size cs f e) <= c * nested_sum size cs m e)%Qc.
Proof.
  intros H. revert e. induction cs as [|x cs IH]; intros e; cbn [nested_sum]; auto.
  generalize (size x). intros n. induction n as [|n IHn]; cbn [sum_n].
  - cbn. replace (0 - 0)%Qc with 0%Qc by ring. rewrite abs_zero, Qcmult_0_r. apply Qcle_refl.
  - cbn [sadd Qc_scalar].
    match goal with |- (Qcabs (?a + ?b - (?a' + ?b')) <= c * (?s + ?t))%Qc =>
      replace (a + b - (a' + b'))%Qc with ((a - a') + (b - b'))%Qc by ring;
      replace (c * (s + t))%Qc with (c * s + c * t)%Qc by ring end.
    eapply Qcle_trans; [apply Qcabs_triangle|]. apply Qcplus_le_compat; auto.
Qed.

(** The arrays of the absolute values. *)
Definition magnitudes (arrays : list (arr Qc)) : list (arr Qc) := map (amap Qcabs) arrays.

Lemma elem_abs (a : arr Qc) idx : elem (amap Qcabs a) idx = Qcabs (elem a idx).
Proof. unfold elem. rewrite a_get_amap. destruct (a_get a idx); simpl; auto; symmetry; apply abs_zero. Qed.

Lemma term_moves d (arrays arrays' : list (arr Qc)) ops e : (0 <= d)%Qc -> Forall2 (near_array d) arrays arrays' ->
  Forall wf arrays -> Forall wf arrays' ->
  (Qcabs (term arrays' ops e - term arrays ops e) <= (grow d (length ops) - 1) * term (magnitudes arrays) ops e)%Qc
  /\ term (magnitudes arrays) ops e = Qcabs (term arrays ops e).
Proof.
  intros Hd H. revert ops.
  assert (B : forall ops : list (list char), (Qcabs (1 - 1) <= (grow d (length ops) - 1) * 1)%Qc
    /\ 1%Qc = Qcabs 1).
  { intros ops. assert (Q : Qcabs 1 = 1%Qc) by (apply Qc_is_canon; reflexivity). rewrite Q. split; auto.
    replace (1 - 1)%Qc with 0%Qc by ring. rewrite abs_zero, Qcmult_1_r. apply grow_minus; auto. }
  induction H as [|a b arrays arrays' Hab H IH]; intros ops W W'; [destruct ops; apply B|].
  destruct ops as [|ix ops]; [apply B|].
  inversion W; inversion W'; subst. destruct (IH ops) as [I1 I2]; auto.
  unfold term, product, magnitudes in *. cbn [map combine fold_right fst snd length grow] in *.
  set (p' := fold_right smul sone (map _ (combine arrays' ops))) in *.
  set (p := fold_right smul sone (map _ (combine arrays ops))) in *.
  set (m := fold_right smul sone _) in *. rewrite elem_abs, I2. rewrite I2 in I1. cbn [smul Qc_scalar].
  split; [|symmetry; apply Qcabs_Qcmult]. apply product_moves; auto; [apply grow_minus; auto|apply near_elem; auto].
Qed.

(** The exact Einstein sum of [n] operands that were first rounded, with relative errors of [d], is within
    ((1 + d) ^ n - 1) times the Einstein sum of the absolute values of that of the operands. *)
Theorem rounded_operands_move_the_sum :
  forall d size (arrays arrays' : list (arr Qc)) ops out o, (0 <= d)%Qc -> Forall2 (near_array d) arrays arrays' ->
    Forall wf arrays -> Forall wf arrays' ->
    (Qcabs (einsum_value size arrays' ops out o - einsum_value size arrays ops out o)
     <= (grow d (length ops) - 1) * einsum_value size (magnitudes arrays) ops out o)%Qc.
Proof. intros. apply nested_sum_moves. intros e. apply term_moves; auto. Qed.
Print Assumptions rounded_operands_move_the_sum.

(** 9 and 7 are rounded to 8, which moves 7 by a seventh of itself; 3 * 9 + 3 * 7 and 3 * 8 + 3 * 8 are both 48. *)
Example rounded_operands_case :
  let q l := mk_c [2] (map z2q l) in
  Forall2 (near_array (Q2Qc (1 # 7))) [q [3; 3]; q [9; 7]]%Z [q [3; 3]; q [8; 8]]%Z
  /\ Forall wf [q [3; 3]; q [9; 7]]%Z /\ Forall wf [q [3; 3]; q [8; 8]]%Z
  /\ einsum_value (size_fn (combine (chars "i") [2])) [q [3; 3]; q [9; 7]]%Z [chars "i"; chars "i"] [] [] = z2q 48.
Proof.
  cbv zeta. split; [|split; [apply wfs_b_ok; reflexivity|split; [apply wfs_b_ok; reflexivity|]]].
  - repeat constructor; intros idx Hi; assert (Hin : In idx (indices [2])) by (apply indices_In; exact Hi);
      vm_compute in Hin; repeat destruct Hin as [<-|Hin]; try contradiction; apply Qle_bool_imp_le; vm_compute; reflexivity.
  - apply Qc_is_canon. vm_compute. reflexivity.
Qed.

(** ** Two runs *)

(** What C40 allows an element to be wrong by. *)
Definition error_bound {F} (v : F -> option Qc) (eps eta : Qc) size (arrays : list (arr F)) ops out o : Qc :=
  (moved eps size ops out * einsum_value size (map (amap (magnitude_of v)) arrays) ops out o
   + underflow v eps eta size arrays ops out o)%Qc.

Lemma returned_within {F} {Sf : Scalar F} v eps eta h lay s (arrays : list (arr F)) ops out size r o q :
  rounding v eps eta -> hash_ok h -> backend_runs lay -> fused_rounds v eps eta lay ->
  call_ok s (map (@a_shape F) arrays) ops out size -> Forall wf arrays -> returned_by h lay s arrays r ->
  in_bounds (map size out) o = true -> v (elem r o) = Some q ->
  (Qcabs (q - einsum_value size (values v arrays) ops out o) <= error_bound v eps eta size arrays ops out o)%Qc.
Proof.
  intros HF Hh Hl Hfu Hc Hw Hr Ho Hq. destruct (returned_close v eps eta HF h lay s arrays ops out size r Hh Hl Hfu Hc Hw Hr) as [_ H].
  destruct (H o Ho) as [Hn|(q' & Eq & Hb)]; [congruence|]. assert (q' = q) by congruence. subst q'. exact Hb.
Qed.

(** Two runs of a call, in two arithmetics and for operands that differ by rounding, are no further apart than their
    error bounds and what the rounding of the operands moves together. *)
Theorem precisions_differ_by_at_most :
  forall (F G : Type) (Sf : Scalar F) (Sg : Scalar G) (v : F -> option Qc) (w : G -> option Qc) (eps eta eps' eta' d : Qc),
    rounding v eps eta -> rounding w eps' eta' -> (0 <= d)%Qc ->
  forall h h' lay lay' s (arrays : list (arr F)) (arrays' : list (arr G)) ops out size r r',
    hash_ok h -> backend_runs lay -> fused_rounds v eps eta lay ->
    hash_ok h' -> backend_runs lay' -> fused_rounds w eps' eta' lay' ->
    call_ok s (map (@a_shape F) arrays) ops out size -> Forall wf arrays -> Forall wf arrays' ->
    Forall2 (near_array d) (values v arrays) (values w arrays') ->
    returned_by h lay s arrays r -> returned_by h' lay' s arrays' r' ->
    forall o q q', in_bounds (map size out) o = true -> v (elem r o) = Some q -> w (elem r' o) = Some q' ->
    (Qcabs (q - q') <= error_bound v eps eta size arrays ops out o + error_bound w eps' eta' size arrays' ops out o
       + (grow d (length ops) - 1) * einsum_value size (map (amap (magnitude_of v)) arrays) ops out o)%Qc.
Proof.
  intros F G Sf Sg v w eps eta eps' eta' d HF HG Hd h h' lay lay' s arrays arrays' ops out size r r'
    Hh Hl Hfu Hh' Hl' Hfu' Hc Hw Hw' Hn Hr Hr' o q q' Ho Hq Hq'.
  assert (Es : map (@a_shape G) arrays' = map (@a_shape F) arrays).
  { clear - Hn. unfold values in Hn. revert arrays' Hn. induction arrays as [|a l IH]; intros [|b l'] H; inversion H; subst; auto.
    cbn [map]. f_equal; auto. destruct H3 as [H3 _]. exact H3. }
  pose proof (returned_within v eps eta h lay s arrays ops out size r o q HF Hh Hl Hfu Hc Hw Hr Ho Hq) as B1.
  rewrite <- Es in Hc.
  pose proof (returned_within w eps' eta' h' lay' s arrays' ops out size r' o q' HG Hh' Hl' Hfu' Hc Hw' Hr' Ho Hq') as B2.
  assert (Wv : forall H (u : H -> option Qc) l, Forall wf l -> Forall wf (values u l)).
  { intros H u l Hl0. apply Forall_map. eapply Forall_impl; [|exact Hl0]. intros a Ha. apply wf_amap. auto. }
  pose proof (rounded_operands_move_the_sum d size (values v arrays) (values w arrays') ops out o Hd Hn (Wv _ _ _ Hw) (Wv _ _ _ Hw')) as B3.
  assert (Em : magnitudes (values v arrays) = map (amap (magnitude_of v)) arrays).
  { unfold magnitudes, values. rewrite map_map. apply map_ext. intros a. unfold amap. cbn. rewrite map_map. reflexivity. }
  rewrite Em in B3. revert B1 B2 B3.
  generalize (einsum_value size (values v arrays) ops out o) (einsum_value size (values w arrays') ops out o).
  intros x y B1 B2 B3. replace (q - q')%Qc with ((q - x) + (- (q' - y) + - (y - x)))%Qc by ring.
  rewrite <- Qcplus_assoc. eapply Qcle_trans; [apply Qcabs_triangle|]. apply Qcplus_le_compat; auto.
  eapply Qcle_trans; [apply Qcabs_triangle|]. rewrite !Qcabs_opp. apply Qcplus_le_compat; auto.
Qed.
Print Assumptions precisions_differ_by_at_most.

Lemma same_get {F} (a b : arr F) idx : same_array a b -> a_get a idx = a_get b idx.
Proof.
  intros [Hs H]. destruct (in_bounds (a_shape a) idx) eqn:E; auto. unfold a_get. rewrite <- Hs, E. reflexivity.
Qed.

(** Two runs of a call in one arithmetic, however their operands lie in memory, whichever way their sums are ordered and
    whichever strategy compiled them, are no further apart than twice the error bound. *)
Theorem runs_differ_by_at_most :
  forall (F : Type) (Sf : Scalar F) (v : F -> option Qc) (eps eta : Qc), rounding v eps eta ->
  forall h h' lay lay' s (arrays arrays' : list (arr F)) ops out size r r',
    hash_ok h -> backend_runs lay -> fused_rounds v eps eta lay ->
    hash_ok h' -> backend_runs lay' -> fused_rounds v eps eta lay' ->
    call_ok s (map (@a_shape F) arrays) ops out size -> Forall wf arrays -> Forall wf arrays' ->
    Forall2 same_array arrays arrays' ->
    returned_by h lay s arrays r -> returned_by h' lay' s arrays' r' ->
    forall o q q', in_bounds (map size out) o = true -> v (elem r o) = Some q -> v (elem r' o) = Some q' ->
    (Qcabs (q - q') <= (1 + 1) * error_bound v eps eta size arrays ops out o)%Qc.
Proof.
  intros F Sf v eps eta HF h h' lay lay' s arrays arrays' ops out size r r'
    Hh Hl Hfu Hh' Hl' Hfu' Hc Hw Hw' Hs Hr Hr' o q q' Ho Hq Hq'.
  assert (Ee : forall (g : F -> Qc), Forall2 (fun a b => forall idx, elem a idx = elem b idx)
    (map (amap g) arrays) (map (amap g) arrays')).
  { intros g. clear - Hs. induction Hs as [|a b l l' [Hsh H] Hs IH]; cbn [map]; constructor; auto.
    intros idx. unfold elem. rewrite !a_get_amap. rewrite (same_get a b); auto. split; auto. }
  assert (Ev : forall g : F -> Qc, einsum_value size (map (amap g) arrays') ops out o = einsum_value size (map (amap g) arrays) ops out o).
  { intros g. symmetry. apply (einsum_value_rel eq eq_relation). auto. }
  assert (Eb : error_bound v eps eta size arrays' ops out o = error_bound v eps eta size arrays ops out o).
  { unfold error_bound, underflow. rewrite !Ev. reflexivity. }
  assert (Hn : Forall2 (near_array 0) (values v arrays) (values v arrays')).
  { specialize (Ee (value_of v)). unfold values. clear - Hs Ee.
    induction Hs as [|a b l l' [Hsh _] Hs IH]; cbn [map] in *; inversion Ee; subst; constructor; auto.
    split; [symmetry; exact Hsh|]. intros idx _. rewrite H2. replace (elem (amap (value_of v) b) idx - elem (amap (value_of v) b) idx)%Qc
      with 0%Qc by ring. rewrite abs_zero, Qcmult_0_l. apply Qcle_refl. }
  pose proof (precisions_differ_by_at_most F F Sf Sf v v eps eta eps eta 0%Qc HF HF (Qcle_refl _) h h' lay lay' s arrays arrays'
    ops out size r r' Hh Hl Hfu Hh' Hl' Hfu' Hc Hw Hw' Hn Hr Hr' o q q' Ho Hq Hq') as H.
  rewrite Eb in H. eapply Qcle_trans; [exact H|].
  assert (G : grow 0 (length ops) = 1%Qc) by (generalize (length ops); intros n; induction n as [|n IH]; cbn [grow]; [auto|rewrite IH; ring]).
  rewrite G. match goal with |- (?x <= ?y)%Qc => replace x with y by ring; apply Qcle_refl end.
Qed.
Print Assumptions runs_differ_by_at_most.

(** (3 * 5) * 7 is rounded to 104, but (7 * 5) * 3 to 96; the bound allows either to be 27.89 away from 105. *)
Example runs_differ_case :
  let l := [carr [1] [3%Z]; carr [1] [5%Z]; carr [1] [7%Z]] in
  let ops := [chars "i"; chars "i"; chars "i"] in
  let size := size_fn (combine (chars "i") [1]) in
  let ret z := exists r, @returned_by _ cut_scalar id_hash (@plain_backend _ cut_scalar) (chars "i,i,i->i") l r
                 /\ cut_value (@elem _ cut_scalar r [0]) = Some (z2q z) in
  @rounding _ cut_scalar cut_value eighth 0
  /\ @fused_rounds _ cut_scalar cut_value eighth 0 (@plain_backend _ cut_scalar)
  /\ call_ok (chars "i,i,i->i") (map (@a_shape (option Z)) l) ops (chars "i") size
  /\ Forall wf l /\ Forall2 same_array l l /\ ret 104%Z /\ ret 96%Z
  /\ error_bound cut_value eighth 0 size l ops (chars "i") [0] = Q2Qc (1785 # 64).
Proof.
  cbv zeta. split; [apply cut_rounding|]. split; [left; reflexivity|].
  split; [apply check_call_ok; check_call_tac|]. split; [apply wfs_b_ok; reflexivity|].
  split; [repeat (constructor; [split; reflexivity|]); constructor|]. split; [|split].
  - eexists. split; [right; exists Naive; eexists; split; [left; reflexivity|split; vm_compute; reflexivity]|reflexivity].
  - eexists. split; [right; exists Reverse; eexists; split; [right; reflexivity|split; vm_compute; reflexivity]|reflexivity].
  - apply Qc_is_canon. vm_compute. reflexivity.
Qed.

(** ** Floating-point numbers *)

(** For instance in f32 and in f64, for operands of f64 and the nearest numbers of f32. *)
Theorem float_precisions_differ_by_at_most :
  forall f g (d : Qc) h h' (lay : backend (float f)) (lay' : backend (float g)) s arrays arrays' ops out size r r', (0 <= d)%Qc ->
    hash_ok h -> float_backend lay -> hash_ok h' -> float_backend lay' ->
    call_ok s (map (@a_shape (float f)) arrays) ops out size -> Forall wf arrays -> Forall wf arrays' ->
    Forall2 (near_array d) (values f_value arrays) (values f_value arrays') ->
    returned_by h lay s arrays r -> returned_by h' lay' s arrays' r' ->
    forall o q q', in_bounds (map size out) o = true -> f_value (elem r o) = Some q -> f_value (elem r' o) = Some q' ->
    (Qcabs (q - q') <= error_bound f_value (f_eps f) (f_eta f) size arrays ops out o
       + error_bound f_value (f_eps g) (f_eta g) size arrays' ops out o
       + (grow d (length ops) - 1) * einsum_value size (map (amap (magnitude_of f_value)) arrays) ops out o)%Qc.
Proof.
  intros f g d h h' lay lay' s arrays arrays' ops out size r r' Hd Hh Hl Hh' Hl'. intros.
  apply (precisions_differ_by_at_most (float f) (float g) (float_scalar f) (float_scalar g) f_value f_value
    (f_eps f) (f_eta f) (f_eps g) (f_eta g) d (float_rounding f) (float_rounding g) Hd h h' lay lay' s arrays arrays' ops out size r r');
    auto; try apply float_fused_rounds; auto; try apply Hl; apply Hl'.
Qed.
Print Assumptions float_precisions_differ_by_at_most.

Theorem float_runs_differ_by_at_most :
  forall f h h' (lay lay' : backend (float f)) s arrays arrays' ops out size r r',
    hash_ok h -> float_backend lay -> hash_ok h' -> float_backend lay' ->
    call_ok s (map (@a_shape (float f)) arrays) ops out size -> Forall wf arrays -> Forall wf arrays' ->
    Forall2 same_array arrays arrays' ->
    returned_by h lay s arrays r -> returned_by h' lay' s arrays' r' ->
    forall o q q', in_bounds (map size out) o = true -> f_value (elem r o) = Some q -> f_value (elem r' o) = Some q' ->
    (Qcabs (q - q') <= (1 + 1) * error_bound f_value (f_eps f) (f_eta f) size arrays ops out o)%Qc.
Proof.
  intros f h h' lay lay' s arrays arrays' ops out size r r' Hh Hl Hh' Hl' Hc Hw Hw' Hs Hr Hr'. intros.
  apply (runs_differ_by_at_most (float f) (float_scalar f) f_value (f_eps f) (f_eta f) (float_rounding f) h h' lay lay' s arrays arrays'
    ops out size r r'); auto; try apply float_fused_rounds; auto; try apply Hl; apply Hl'.
Qed.
Print Assumptions float_runs_differ_by_at_most.

(** The sum of 8, 1, 1 and -10 with three significant bits is -2, and exactly 0 in f64. *)
Example float_precisions_case :
  let l f := [farr f [4] [8; 1; 1; -10]%Z] in
  float_backend (plain_backend (A := float tiny)) /\ float_backend (plain_backend (A := float f64))
  /\ call_ok (chars "i->") (map (@a_shape (float tiny)) (l tiny)) [chars "i"] [] (size_fn (combine (chars "i") [4]))
  /\ Forall wf (l tiny) /\ Forall wf (l f64)
  /\ Forall2 (near_array 0) (values f_value (l tiny)) (values f_value (l f64))
  /\ (do r <- einsum id_hash (plain_backend (A := float tiny)) (chars "i->") (l tiny);
      do x <- a_iter r; Ok (map (@proj1_sig _ _) x)) = Ok [proj1_sig (f_of tiny (-2) 0)]
  /\ (do r <- einsum id_hash (plain_backend (A := float f64)) (chars "i->") (l f64);
      do x <- a_iter r; Ok (map (@proj1_sig _ _) x)) = Ok [proj1_sig (f_of f64 0 0)].
Proof.
  cbv zeta. split; [apply float_plain_backend_ok|]. split; [apply float_plain_backend_ok|].
  split; [apply check_call_ok; check_call_tac|]. split; [apply wfs_b_ok; reflexivity|]. split; [apply wfs_b_ok; reflexivity|].
  split; [|split; vm_compute; reflexivity].
  repeat constructor; intros idx Hi; assert (Hin : In idx (indices [4])) by (apply indices_In; exact Hi);
    vm_compute in Hin; repeat destruct Hin as [<-|Hin]; try contradiction; apply Qle_bool_imp_le; vm_compute; reflexivity.
Qed.

(** ** Cancellation *)

(** The bounds are relative to the absolute values. No bound is relative to the exact result: of four numbers of f64
    whose sum is zero the computed sum can be -2. *)
Theorem relative_error_of_all_calls_refuted :
  ~ (exists K : Qc, forall h (lay : backend (float f64)) s arrays ops out size r, hash_ok h -> float_backend lay ->
       call_ok s (map (@a_shape (float f64)) arrays) ops out size -> Forall wf arrays -> returned_by h lay s arrays r ->
       forall o q, in_bounds (map size out) o = true -> f_value (elem r o) = Some q ->
       (Qcabs (q - einsum_value size (values f_value arrays) ops out o)
        <= K * Qcabs (einsum_value size (values f_value arrays) ops out o))%Qc).
Proof.
  intros [K H].
  set (l := [farr f64 [4] [9007199254740992; 1; 1; -9007199254740994]%Z]).
  set (size := size_fn (combine (chars "i") [4])).
  destruct (einsum id_hash (plain_backend (A := float f64)) (chars "i->") l) as [r| |] eqn:E.
  2,3: exfalso; assert (X : (do r <- einsum id_hash (plain_backend (A := float f64)) (chars "i->") l; Ok tt) = Ok tt)
    by (vm_compute; reflexivity); rewrite E in X; discriminate X.
  assert (X : (do r <- einsum id_hash (plain_backend (A := float f64)) (chars "i->") l; Ok (proj1_sig (elem r [])))
                = Ok (proj1_sig (f_of f64 (-2) 0))) by (vm_compute; reflexivity).
  rewrite E in X. cbn [rbind] in X. assert (X' : proj1_sig (elem r []) = proj1_sig (f_of f64 (-2) 0)) by congruence. clear X.
  apply (f_equal sf_value) in X'. rename X' into X.
  change (f_value (elem r []) = f_value (f_of f64 (-2) 0)) in X.
  assert (Y : exists q, f_value (f_of f64 (-2) 0) = Some q /\ Qcabs (q - 0) <> 0%Qc) by
    (eexists; split; [reflexivity|discriminate]).
  destruct Y as (q & Eq & Hq). rewrite Eq in X.
  specialize (H id_hash (plain_backend (A := float f64)) (chars "i->") l [chars "i"] [] size r id_hash_ok' (float_plain_backend_ok f64)).
  assert (Z : einsum_value size (values f_value l) [chars "i"] [] [] = 0%Qc) by (apply Qc_is_canon; vm_compute; reflexivity).
  specialize (H (ltac:(apply check_call_ok; check_call_tac)) (ltac:(apply wfs_b_ok; reflexivity)) (or_introl E) [] _ eq_refl X).
  rewrite Z, abs_zero, Qcmult_0_r in H. apply Hq. apply Qcle_antisym; auto. apply Qcabs_nonneg.
Qed.
Print Assumptions relative_error_of_all_calls_refuted.
