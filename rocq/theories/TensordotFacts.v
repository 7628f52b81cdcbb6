(** Matrix product, reshaping, and TensordotFixedPosition at the level of positions. *)
From Verif Require Import Base BaseFacts NDArray Validation Singleton Pair Spec SumFacts ArrayFacts.
From Coq Require Import Lia.

(** ** Reshaping between groups of axes *)

Lemma unflat_app s1 s2 i j :
  i < prod s1 -> j < prod s2 -> unflat (s1 ++ s2) (i * prod s2 + j) = unflat s1 i ++ unflat s2 j.
Proof.
  intros Hi Hj. pose proof (unflat_in_bounds _ _ Hi) as B1. pose proof (unflat_in_bounds _ _ Hj) as B2.
  apply (flat_inj (s1 ++ s2)).
  - apply unflat_in_bounds. rewrite prod_app. nia.
  - apply in_bounds_app; auto.
  - rewrite flat_unflat by (rewrite prod_app; nia).
    rewrite flat_app by (apply in_bounds_length; auto).
    rewrite !flat_unflat; auto.
Qed.

Lemma prod_pair m k : prod [m; k] = m * k.
Proof. simpl. lia. Qed.

Section Matrix.
Context {A : Type} {S : Scalar A}.

(** The matrix with rows indexed by [s1] and columns by [s2]. *)
Definition matrix_of (s1 s2 : list nat) (f : list nat -> A) (ij : list nat) : A :=
  match ij with
  | [i; j] => f (unflat s1 i ++ unflat s2 j)
  | _ => szero
  end.

Lemma refold_matrix s1 s2 f idx :
  in_bounds [prod s1; prod s2] idx = true ->
  refold (s1 ++ s2) [prod s1; prod s2] f idx = matrix_of s1 s2 f idx.
Proof.
  destruct idx as [|i [|j [|? ?]]]; simpl; try discriminate.
  - rewrite andb_false_r. discriminate.
  - intros H. apply andb_true_iff in H as [Hi Hj]. rewrite andb_true_r in Hj.
    apply Nat.ltb_lt in Hi, Hj. unfold refold. f_equal.
    rewrite <- unflat_app by auto. f_equal. simpl. lia.
  - rewrite !andb_false_r. discriminate.
Qed.

Lemma as_matrix_holds (a : arr A) s1 s2 f :
  holds a (s1 ++ s2) f ->
  exists r, as_matrix (prod s1) (prod s2) a = Ok r
    /\ holds r [prod s1; prod s2] (matrix_of s1 s2 f)
    /\ a_strides r = default_strides [prod s1; prod s2].
Proof.
  intros H. unfold as_matrix.
  assert (Hp : prod [prod s1; prod s2] = prod (s1 ++ s2)) by (rewrite prod_pair, prod_app; auto).
  destruct (is_standard_layout a) eqn:Hs.
  - destruct (into_shape_standard a (s1 ++ s2) [prod s1; prod s2] f H Hs Hp) as (r & E & Hr & Hst & _).
    exists r. split; auto. split; auto. eapply holds_ext; [|exact Hr].
    intros idx Hi. apply refold_matrix; auto.
  - rewrite (holds_iter _ _ _ H). simpl. rewrite from_shape_vec_ok by auto.
    eexists. split; [reflexivity|]. split; auto.
    eapply holds_ext; [|apply holds_reshape_copy; auto].
    intros idx Hi. apply refold_matrix; auto.
Qed.

(** The factors of the products added up for one element of a matrix product. *)
Definition dot_terms (k : nat) (f g : list nat -> A) (i j : nat) : list (A * A) :=
  map (fun x => (f [i; x], g [x; j])) (seq 0 k).

Variable lay : backend A.

Lemma dot_elem_ok (a b : arr A) m k n f g i j :
  holds a [m; k] f -> holds b [k; n] g -> i < m -> j < n ->
  dot_elem lay a b k i j = Ok (add_products lay a b [i; j] (dot_terms k f g i j)).
Proof.
  intros (_ & _ & Ha) (_ & _ & Hb) Hi Hj. unfold dot_elem.
  rewrite (mapM_ok _ (fun x => (f [i; x], g [x; j]))); [reflexivity|].
  intros x Hx. apply in_seq in Hx. rewrite Ha, Hb.
  - reflexivity.
  - simpl. rewrite (proj2 (Nat.ltb_lt x k)), (proj2 (Nat.ltb_lt j n) Hj) by lia. auto.
  - simpl. rewrite (proj2 (Nat.ltb_lt x k)), (proj2 (Nat.ltb_lt i m) Hi) by lia. auto.
Qed.

Hypothesis Hlay : backend_runs lay.

Definition dot_value (a b : arr A) (k : nat) (f g : list nat -> A) (ij : list nat) : A :=
  match ij with
  | [i; j] => add_products lay a b [i; j] (dot_terms k f g i j)
  | _ => szero
  end.

Lemma indices_2 m n ij : In ij (indices [m; n]) -> exists i j, ij = [i; j] /\ i < m /\ j < n.
Proof.
  rewrite indices_In. destruct ij as [|i [|j [|? ?]]]; simpl; try discriminate.
  - rewrite andb_false_r. discriminate.
  - rewrite andb_true_r, andb_true_iff, !Nat.ltb_lt. intros []. eauto.
  - rewrite !andb_false_r. discriminate.
Qed.

Lemma default_strides_2 m k : nth 0 (default_strides [m; k]) 0%Z = 1%Z -> m <> 0 /\ k = 1.
Proof.
  unfold default_strides. destruct (is_empty_shape [m; k]) eqn:E.
  - simpl. discriminate.
  - apply is_empty_false in E. rewrite prod_pair in E. simpl. lia.
Qed.

Lemma dot_raw (a b : arr A) m k n f g :
  holds a [m; k] f -> a_strides a = default_strides [m; k] ->
  holds b [k; n] g -> a_strides b = default_strides [k; n] ->
  exists r, dot lay a b = Ok r /\ holds r [m; n] (dot_value a b k f g) /\ is_standard_layout r = true.
Proof.
  intros Ha Sa Hb Sb. unfold dot.
  assert (Ea : a_shape a = [m; k]) by apply Ha. assert (Eb : a_shape b = [k; n]) by apply Hb.
  rewrite Ea, Eb, Nat.eqb_refl, Sa, Sb.
  destruct (Z.eqb (nth 0 (default_strides [m; k]) 0%Z) 1 && Z.eqb (nth 0 (default_strides [k; n]) 0%Z) 1)
    eqn:Ecm.
  - (* column-major: only a column vector *)
    apply andb_true_iff in Ecm as [C1 C2]. apply Z.eqb_eq in C1, C2.
    assert (k = 1 /\ n = 1 /\ m <> 0) as (-> & -> & Hm).
    { apply default_strides_2 in C1 as [Hm ->]. apply default_strides_2 in C2 as [_ ->]. auto. }
    rewrite (mapM_ok _ (fun ji => match ji with
                                  | [j; i] => dot_value a b 1 f g [i; j]
                                  | _ => szero end)).
    2:{ intros ji Hji. apply indices_2 in Hji as (j & i & -> & Hj & Hi).
        rewrite (dot_elem_ok a b m 1 1 f g) by auto. reflexivity. }
    cbn [rbind]. eexists; split; [reflexivity|].
    assert (Hst : fortran_strides [m; 1] = [1; Z.of_nat m]%Z).
    { unfold fortran_strides. destruct (is_empty_shape [m; 1]) eqn:E.
      - apply is_empty_prod in E. simpl in E. lia.
      - simpl. repeat f_equal; lia. }
    rewrite Hst. split; [split; [reflexivity|split; [reflexivity|]]|].
    + intros ij Hi. assert (Hin := proj2 (indices_In [m; 1] ij) Hi).
      apply indices_2 in Hin as (i & j & -> & Hi' & Hj'). assert (j = 0) by lia. subst j.
      unfold a_get. cbn [a_shape]. rewrite Hi. cbn [a_data a_off a_strides dot_off].
      replace (0 + (Z.of_nat i * 1 + (Z.of_nat 0 * Z.of_nat m + 0)))%Z with (Z.of_nat i) by lia.
      rewrite znth_nat.
      assert (Hf : flat [1; m] [0; i] = i) by (simpl; lia).
      rewrite <- Hf at 1.
      rewrite nth_error_indices; [reflexivity|].
      simpl. rewrite (proj2 (Nat.ltb_lt i m) Hi'). auto.
    + unfold is_standard_layout. simpl.
      destruct (Nat.eqb_spec m 1); [apply orb_true_r|]. apply orb_true_r.
  - rewrite (mapM_ok _ (dot_value a b k f g)).
    2:{ intros ij Hij. apply indices_2 in Hij as (i & j & -> & Hi & Hj).
        rewrite (dot_elem_ok a b m k n f g) by auto. reflexivity. }
    cbn [rbind]. eexists; split; [reflexivity|].
    split; [apply holds_mk_c|apply default_standard].
Qed.

(** ** TensordotFixedPosition *)

Definition tfp_for (su sc sv : list nat) : tensordot_fixed :=
  mkTFP (prod su) (prod sv) (prod sc) (su ++ sv).

(** The factors of the products added up for the element at [idx], the first [length su] axes of
    which come from the left operand. *)
Definition tfp_terms (su sc : list nat) (f g : list nat -> A) (idx : list nat) : list (A * A) :=
  let x := firstn (length su) idx in
  let y := skipn (length su) idx in
  map (fun n => (f (x ++ unflat sc n), g (unflat sc n ++ y))) (seq 0 (prod sc)).

Lemma run_tfp_holds (lhs rhs : arr A) su sc sv f g :
  holds lhs (su ++ sc) f -> holds rhs (sc ++ sv) g ->
  exists r v, run_tfp lay (tfp_for su sc sv) lhs rhs = Ok r
    /\ holds r (su ++ sv) v
    /\ (forall idx, in_bounds (su ++ sv) idx = true -> dots_to (fused lay) (tfp_terms su sc f g idx) (v idx))
    /\ a_strides r = default_strides (su ++ sv).
Proof.
  intros Hl Hr. unfold run_tfp, tfp_for.
  cbn [len_uncontracted_lhs len_uncontracted_rhs len_contracted_axes tfp_output_shape].
  destruct (as_matrix_holds lhs su sc f Hl) as (lv & -> & Hlv & Sl).
  destruct (as_matrix_holds rhs sc sv g Hr) as (rv & -> & Hrv & Sr). cbn [rbind].
  destruct (dot_raw lv rv _ _ _ _ _ Hlv Sl Hrv Sr) as (d & -> & Hd & Sd). cbn [rbind].
  destruct (into_shape_standard d _ (su ++ sv) _ Hd Sd) as (r & -> & H & Hst & _).
  { rewrite prod_pair, prod_app. auto. }
  eexists r, _. split; auto. split; [exact H|]. split; auto.
  intros idx Hi. apply in_bounds_app_inv in Hi as (x & y & -> & Bx & By).
  pose proof (flat_lt _ _ Bx) as Lx. pose proof (flat_lt _ _ By) as Ly.
  unfold refold. rewrite flat_app by (apply in_bounds_length; auto).
  assert (E : unflat [prod su; prod sv] (flat su x * prod sv + flat sv y) = [flat su x; flat sv y]).
  { apply (flat_inj [prod su; prod sv]).
    - apply unflat_in_bounds. rewrite prod_pair. nia.
    - simpl. rewrite (proj2 (Nat.ltb_lt _ _) Lx), (proj2 (Nat.ltb_lt _ _) Ly). auto.
    - rewrite flat_unflat by (rewrite prod_pair; nia). simpl. lia. }
  rewrite E. cbn [dot_value].
  unfold tfp_terms. rewrite <- (in_bounds_length _ _ Bx).
  rewrite firstn_app, firstn_all, Nat.sub_diag, app_nil_r, skipn_app, skipn_all, Nat.sub_diag.
  simpl. eapply eq_ind with (P := fun l => dots_to _ l _); [apply (add_products_ok Hlay)|].
  unfold dot_terms. apply map_ext. intros n. cbn [matrix_of].
  rewrite (unflat_flat _ _ Bx), (unflat_flat _ _ By). auto.
Qed.

(** The compiled lengths. *)
Lemma tfp_from_shapes_fold_l (lim : nat) n num : forall l axis u c sh,
  usub n num = Ok lim ->
  foldM (fun st ad =>
      let '(u, c, sh) := st in
      let '(axis, d) := ad in
      do lim <- usub n num;
      if Nat.ltb axis lim then Ok (u * d, c, sh ++ [d]) else Ok (u, c * d, sh))
      (combine (seq axis (length l)) l) (u, c, sh)
  = Ok (u * prod (firstn (lim - axis) l), c * prod (skipn (lim - axis) l), sh ++ firstn (lim - axis) l).
Proof.
  intros l axis u c sh Hu. rewrite Hu. cbn [rbind]. clear Hu. revert axis u c sh.
  induction l as [|d l IH]; intros axis u c sh.
  - simpl. rewrite firstn_nil, skipn_nil, app_nil_r. simpl. rewrite ?Nat.mul_1_r; reflexivity.
  - cbn [length seq combine foldM].
    destruct (Nat.ltb_spec axis lim).
    + cbn [rbind]. rewrite IH by auto.
      replace (lim - axis) with (Datatypes.S (lim - Datatypes.S axis)) by lia.
      cbn [firstn skipn]. rewrite prod_cons, <- app_assoc. simpl. rewrite ?Nat.mul_assoc; reflexivity.
    + cbn [rbind]. rewrite IH by auto.
      replace (lim - axis) with 0 by lia. replace (lim - Datatypes.S axis) with 0 by lia.
      cbn [firstn skipn]. rewrite prod_cons. rewrite ?Nat.mul_assoc; reflexivity.
Qed.

Lemma tfp_from_shapes_fold_r num : forall l axis u c sh,
  fold_left (fun st ad =>
      let '(u, c, sh) := st in
      let '(axis, d) := ad in
      if Nat.ltb axis num then (u, c * d, sh) else (u * d, c, sh ++ [d]))
      (combine (seq axis (length l)) l) (u, c, sh)
  = (u * prod (skipn (num - axis) l), c * prod (firstn (num - axis) l), sh ++ skipn (num - axis) l).
Proof.
  induction l as [|d l IH]; intros axis u c sh.
  - simpl. rewrite firstn_nil, skipn_nil, app_nil_r. simpl. rewrite ?Nat.mul_1_r; reflexivity.
  - cbn [length seq combine fold_left].
    destruct (Nat.ltb_spec axis num).
    + rewrite IH. replace (num - axis) with (Datatypes.S (num - Datatypes.S axis)) by lia.
      cbn [firstn skipn]. rewrite prod_cons. rewrite ?Nat.mul_assoc; reflexivity.
    + rewrite IH. replace (num - axis) with 0 by lia. replace (num - Datatypes.S axis) with 0 by lia.
      cbn [firstn skipn]. rewrite prod_cons, <- app_assoc. simpl. rewrite ?Nat.mul_assoc; reflexivity.
Qed.

End Matrix.

(** The element is related to the sum of the products in any semiring. *)
Section Related.
Context {A B : Type} {Sa : Scalar A} {Sb : Scalar B} (R : A -> B -> Prop).
Variable Z : A -> Prop.
Hypothesis HR : weak_relation R Z.
Variable lay : backend A.
Hypothesis Hfu : weak_fused R Z lay.
Hypothesis SR : near_semiring B.

Lemma tfp_terms_rel su sc (f g : list nat -> A) (p q : list nat -> B) x y v :
  (forall x, Z x -> R x szero) \/ 0 < prod sc -> in_bounds su x = true ->
  (forall z, in_bounds sc z = true -> R (f (x ++ z)) (p z) /\ R (g (z ++ y)) (q z)) ->
  dots_to (fused lay) (tfp_terms su sc f g (x ++ y)) v -> R v (sum_idx sc (fun z => smul (p z) (q z))).
Proof.
  intros Hz Hx H. unfold tfp_terms. rewrite <- (in_bounds_length _ _ Hx).
  rewrite firstn_app, firstn_all, Nat.sub_diag, app_nil_r, skipn_app, skipn_all, Nat.sub_diag.
  intros Hv. rewrite <- (sum_idx_unflat SR). apply (dots_to_weak_n R Z HR SR lay Hfu _ _ _ (fun i => p (unflat sc i)) (fun i => q (unflat sc i)) _ Hz Hv). intros i Hi.
  apply H. apply unflat_in_bounds; auto.
Qed.

End Related.

Lemma firstn_exact {T} (a b : list T) : firstn (length a) (a ++ b) = a.
Proof. rewrite firstn_app, firstn_all, Nat.sub_diag. apply app_nil_r. Qed.

Lemma skipn_exact {T} (a b : list T) : skipn (length a) (a ++ b) = b.
Proof. rewrite skipn_app, skipn_all, Nat.sub_diag. reflexivity. Qed.

Lemma tfp_from_shapes_split su sc sc' sv :
  length sc = length sc' ->
  tfp_from_shapes (su ++ sc) (sc' ++ sv) (length sc)
  = if Nat.eqb (prod sc') (prod sc) then Ok (mkTFP (prod su) (prod sv) (prod sc) (su ++ sv)) else Panic.
Proof.
  intros Hl. unfold tfp_from_shapes.
  assert (Hu : usub (length (su ++ sc)) (length sc) = Ok (length su)).
  { rewrite usub_ok by (rewrite app_length; lia). f_equal. rewrite app_length. lia. }
  rewrite (tfp_from_shapes_fold_l (length su)) by auto. cbn [rbind].
  rewrite tfp_from_shapes_fold_r. rewrite !Nat.sub_0_r.
  rewrite !firstn_exact, !skipn_exact, Hl, !firstn_exact, !skipn_exact. cbn [app].
  rewrite !Nat.mul_1_l. destruct (Nat.eqb (prod sc') (prod sc)); auto.
Qed.

Lemma tfp_from_shapes_ok su sc sv :
  tfp_from_shapes (su ++ sc) (sc ++ sv) (length sc) = Ok (tfp_for su sc sv).
Proof. rewrite tfp_from_shapes_split by auto. rewrite Nat.eqb_refl. auto. Qed.
