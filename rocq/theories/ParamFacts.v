(** Runs over two scalar types in step (C60, C62). *)
From Verif Require Import Base BaseFacts NDArray Validation Optimizers Strategies Singleton Pair Path Api Spec.
From Coq Require Import Lia.

(** Both return related values, or both fail in the same way. *)
Definition outcomes {T U : Type} (P : T -> U -> Prop) (x : res T) (y : res U) : Prop :=
  match x, y with
  | Ok t, Ok u => P t u
  | Err m, Err m' => m = m'
  | Panic, Panic => True
  | _, _ => False
  end.

(** The same view of two buffers with related elements. *)
Definition alike {A B : Type} (R : A -> B -> Prop) (a : arr A) (b : arr B) : Prop :=
  a_off a = a_off b /\ a_shape a = a_shape b /\ a_strides a = a_strides b /\ Forall2 R (a_data a) (a_data b).

(** All about an array but its elements. *)
Definition frame {A : Type} (a : arr A) : arr unit := amap (fun _ => tt) a.

(** Two backends choose the same layouts. *)
Definition arranges_alike {A B : Type} (R : A -> B -> Prop) (lay : backend A) (lay' : backend B) : Prop :=
  forall op ins ins' a a', map frame ins = map frame ins' -> alike R a a' ->
    alike R (lay op ins a) (lay' op ins' a').

(** Their sums of related terms are related. *)
Definition sums_alike {A B : Type} (R : A -> B -> Prop) (lay : backend A) (lay' : backend B) : Prop :=
  forall ax a a' idx l l', alike R a a' -> Forall2 R l l' ->
    R (add_up lay ax a idx l) (add_up lay' ax a' idx l').

(** Their sums of products are related by [R3] if the first factors are by [R1] and the second by [R2]. *)
Definition products_alike {A B : Type} (R1 R2 R3 : A -> B -> Prop) (lay : backend A) (lay' : backend B) : Prop :=
  forall a a' b b' idx l l', alike R1 a a' -> alike R2 b b' ->
    Forall2 (fun p q => R1 (fst p) (fst q) /\ R2 (snd p) (snd q)) l l' ->
    R3 (add_products lay a b idx l) (add_products lay' a' b' idx l').

Definition muls_alike {A B : Type} {Sa : Scalar A} {Sb : Scalar B} (R1 R2 R3 : A -> B -> Prop) : Prop :=
  forall x x' y y', R1 x x' -> R2 y y' -> R3 (smul x y) (smul x' y').

Section Arrays.
Context {A B : Type} {Sa : Scalar A} {Sb : Scalar B}.
Variable R : A -> B -> Prop.

(** *** Control *)

Lemma outcomes_bind {T U T' U'} (P : T -> U -> Prop) (Q : T' -> U' -> Prop) x y f g :
  outcomes P x y -> (forall t u, P t u -> outcomes Q (f t) (g u)) -> outcomes Q (rbind x f) (rbind y g).
Proof. destruct x, y; simpl; try tauto. auto. Qed.

Lemma outcomes_same {T U V} (P : T -> U -> Prop) (x : res V) f g :
  (forall v, outcomes P (f v) (g v)) -> outcomes P (rbind x f) (rbind x g).
Proof. destruct x; simpl; auto. Qed.

Lemma outcomes_mapM {I T U} (P : T -> U -> Prop) f g (l : list I) :
  (forall i, outcomes P (f i) (g i)) -> outcomes (Forall2 P) (mapM f l) (mapM g l).
Proof.
  intros H. induction l as [|i l IH]; simpl; [constructor|].
  eapply outcomes_bind; [apply H|]. intros t u Htu. eapply outcomes_bind; [exact IH|]. intros ts us Hs. simpl. auto.
Qed.

Lemma outcomes_foldM {I T U} (P : T -> U -> Prop) f g (l : list I) :
  (forall t u i, P t u -> outcomes P (f t i) (g u i)) -> forall t u, P t u -> outcomes P (foldM f l t) (foldM g l u).
Proof.
  intros H. induction l as [|i l IH]; simpl; intros t u Htu; auto.
  eapply outcomes_bind; [apply H; exact Htu|]. intros; apply IH; auto.
Qed.

Lemma outcomes_index {T U} (P : T -> U -> Prop) l l' i : Forall2 P l l' -> outcomes P (index l i) (index l' i).
Proof.
  intros H. revert i; induction H; intros [|i]; simpl; auto; try exact I. apply IHForall2.
Qed.

Lemma outcomes_unwrap {T U} (P : T -> U -> Prop) l l' i : Forall2 P l l' ->
  outcomes P (unwrap (nth_error l i)) (unwrap (nth_error l' i)).
Proof. apply outcomes_index. Qed.

Lemma Forall2_firstn {T U} (P : T -> U -> Prop) l l' n : Forall2 P l l' -> Forall2 P (firstn n l) (firstn n l').
Proof. intros H. revert n; induction H; intros [|n]; simpl; auto. Qed.

Lemma Forall2_skipn {T U} (P : T -> U -> Prop) l l' n : Forall2 P l l' -> Forall2 P (skipn n l) (skipn n l').
Proof. intros H. revert n; induction H; intros [|n]; simpl; auto. Qed.

Lemma Forall2_set_nth {T U} (P : T -> U -> Prop) l l' n x y : Forall2 P l l' -> P x y ->
  Forall2 P (set_nth n x l) (set_nth n y l').
Proof. intros H Hx. revert n; induction H; intros [|n]; simpl; auto. Qed.

Lemma Forall2_length_eq {T U} (P : T -> U -> Prop) l l' : Forall2 P l l' -> length l = length l'.
Proof. induction 1; simpl; auto. Qed.

Lemma Forall2_repeat {T U} (P : T -> U -> Prop) x y n : P x y -> Forall2 P (repeat x n) (repeat y n).
Proof. intros H. induction n; simpl; auto. Qed.

Lemma Forall2_map_both {T U T' U'} (P : T -> U -> Prop) (Q : T' -> U' -> Prop) f g l l' :
  Forall2 P l l' -> (forall x y, P x y -> Q (f x) (g y)) -> Forall2 Q (map f l) (map g l').
Proof. intros H HQ. induction H; simpl; auto. Qed.

(** *** Arrays *)

Lemma alike_mk off sh st (l : list A) (l' : list B) : Forall2 R l l' -> alike R (mkArr l off sh st) (mkArr l' off sh st).
Proof. repeat split; auto. Qed.

Lemma alike_shape (a : arr A) (b : arr B) : alike R a b -> a_shape a = a_shape b.
Proof. intros H; apply H. Qed.

Lemma get_alike a b idx : alike R a b -> outcomes R (a_get a idx) (a_get b idx).
Proof.
  intros (H1 & H2 & H3 & H4). unfold a_get. rewrite H1, H2, H3. destruct (in_bounds _ _); simpl; auto.
  unfold znth. destruct (_ <? 0)%Z; simpl; auto. apply outcomes_unwrap; auto.
Qed.

Lemma iter_alike a b : alike R a b -> outcomes (Forall2 R) (a_iter a) (a_iter b).
Proof.
  intros H. unfold a_iter. rewrite (alike_shape a b H). apply outcomes_mapM. intros. apply get_alike; auto.
Qed.

Lemma from_shape_vec_alike sh l l' : Forall2 R l l' -> outcomes (alike R) (from_shape_vec sh l) (from_shape_vec sh l').
Proof.
  intros H. unfold from_shape_vec. rewrite (Forall2_length_eq R l l' H).
  destruct (Nat.eqb _ _); simpl; auto. apply alike_mk; auto.
Qed.

Lemma view_from_shape_alike sh st l l' : Forall2 R l l' ->
  outcomes (alike R) (view_from_shape sh st l) (view_from_shape sh st l').
Proof.
  intros H. unfold view_from_shape. rewrite (Forall2_length_eq R l l' H).
  destruct (is_empty_shape sh); repeat (destruct (_ : bool)); simpl; auto; apply alike_mk; auto.
Qed.

Lemma standard_layout_alike a b : alike R a b -> is_standard_layout a = is_standard_layout b.
Proof. intros (H1 & H2 & H3 & H4). unfold is_standard_layout. rewrite H2, H3. auto. Qed.

Lemma slice_alike a b : alike R a b ->
  match as_slice_memory_order a, as_slice_memory_order b with
  | Some l, Some l' => Forall2 R l l'
  | None, None => True
  | _, _ => False
  end.
Proof.
  intros (H1 & H2 & H3 & H4). unfold as_slice_memory_order, is_contiguous. rewrite H1, H2, H3.
  destruct (_ || _); auto. apply Forall2_firstn, Forall2_skipn; auto.
Qed.

Lemma permuted_alike a b axes : alike R a b -> outcomes (alike R) (permuted_axes a axes) (permuted_axes b axes).
Proof.
  intros (H1 & H2 & H3 & H4). unfold permuted_axes. rewrite H1, H2, H3. destruct (_ && _); simpl; auto.
  apply alike_mk; auto.
Qed.

Lemma index_axis_alike a b ax i : alike R a b -> outcomes (alike R) (index_axis a ax i) (index_axis b ax i).
Proof.
  intros (H1 & H2 & H3 & H4). unfold index_axis. rewrite H1, H2, H3. apply outcomes_same; intros d.
  apply outcomes_same; intros s. destruct (Nat.ltb _ _); simpl; auto. apply alike_mk; auto.
Qed.

Lemma outer_iter_alike a b : alike R a b -> outcomes (Forall2 (alike R)) (outer_iter a) (outer_iter b).
Proof.
  intros H. unfold outer_iter. rewrite (alike_shape a b H). apply outcomes_same; intros n.
  apply outcomes_mapM. intros. apply index_axis_alike; auto.
Qed.

Lemma into_shape_alike a b sh : alike R a b -> outcomes (alike R) (into_shape a sh) (into_shape b sh).
Proof.
  intros (H1 & H2 & H3 & H4). unfold into_shape, is_standard_layout. cbn [a_shape a_strides]. rewrite H1, H2, H3.
  destruct (Nat.eqb _ _); simpl; auto. destruct (_ || _); simpl; [apply alike_mk; auto|].
  destruct (Nat.ltb _ _ && _); simpl; auto. apply alike_mk; auto.
Qed.

Lemma insert_axis_alike a b i : alike R a b -> outcomes (alike R) (insert_axis a i) (insert_axis b i).
Proof.
  intros (H1 & H2 & H3 & H4). unfold insert_axis. rewrite H1, H2, H3. destruct (Nat.leb _ _); simpl; auto.
  apply alike_mk; auto.
Qed.

Lemma broadcast_alike a b sh : alike R a b -> outcomes (alike R) (broadcast a sh) (broadcast b sh).
Proof.
  intros (H1 & H2 & H3 & H4). unfold broadcast. rewrite H1, H2, H3. destruct (upcast_rev _ _ _); simpl; auto.
  apply alike_mk; auto.
Qed.

Lemma first_alike a b : alike R a b ->
  outcomes (fun o o' => match o, o' with Some x, Some y => R x y | None, None => True | _, _ => False end) (first a) (first b).
Proof.
  intros H. unfold first. rewrite (alike_shape a b H). destruct (is_empty_shape _); simpl; auto.
  eapply outcomes_bind; [apply get_alike; exact H|]. simpl. auto.
Qed.

Lemma set_alike a b idx x y : alike R a b -> R x y -> outcomes (alike R) (a_set a idx x) (a_set b idx y).
Proof.
  intros (H1 & H2 & H3 & H4) Hx. unfold a_set. rewrite H1, H2, H3, (Forall2_length_eq R _ _ H4).
  repeat (destruct (_ : bool)); simpl; auto. apply alike_mk, Forall2_set_nth; auto.
Qed.

Lemma assign_alike a b c d : alike R a b -> alike R c d -> outcomes (alike R) (assign a c) (assign b d).
Proof.
  intros Ha Hc. unfold assign. rewrite (alike_shape a b Ha), (alike_shape c d Hc).
  eapply outcomes_bind with (P := alike R); [destruct (list_nat_eqb _ _); [exact Hc|apply broadcast_alike; auto]|].
  intros s s' Hs. apply outcomes_foldM; auto. intros t u i Htu.
  eapply outcomes_bind; [apply get_alike; exact Hs|]. intros. apply set_alike; auto.
Qed.

Lemma frame_alike a b : alike R a b -> frame a = frame b.
Proof.
  intros (H1 & H2 & H3 & H4). unfold frame, amap. rewrite H1, H2, H3. f_equal.
  induction H4; simpl; auto. f_equal; auto.
Qed.

Lemma frames_alike l l' : Forall2 (alike R) l l' -> map frame l = map frame l'.
Proof. induction 1; simpl; auto. f_equal; auto. apply frame_alike; auto. Qed.

Lemma as_matrix_alike n m a b : alike R a b -> outcomes (alike R) (as_matrix n m a) (as_matrix n m b).
Proof.
  intros H. unfold as_matrix. rewrite (standard_layout_alike a b H). destruct (is_standard_layout b).
  - apply into_shape_alike; auto.
  - eapply outcomes_bind; [apply iter_alike; exact H|]. intros. apply from_shape_vec_alike; auto.
Qed.

(** *** One operand *)

Variables (lay : backend A) (lay' : backend B).
Hypothesis HA : arranges_alike R lay lay'.

Lemma to_owned_alike a b : alike R a b -> outcomes (alike R) (to_owned lay a) (to_owned lay' b).
Proof.
  intros H. unfold to_owned. eapply outcomes_bind; [apply iter_alike; exact H|]. intros l l' Hl. simpl.
  apply HA; [cbn [map]; f_equal; apply frame_alike; auto|]. rewrite (alike_shape a b H). apply alike_mk; auto.
Qed.

Lemma into_owned_alike a b : alike R a b -> outcomes (alike R) (into_owned lay a) (into_owned lay' b).
Proof.
  intros H. unfold into_owned. eapply outcomes_bind; [apply iter_alike; exact H|]. intros l l' Hl. simpl.
  apply HA; [cbn [map]; f_equal; apply frame_alike; auto|]. rewrite (alike_shape a b H). apply alike_mk; auto.
Qed.

Lemma permutation_contract_alike p a b : alike R a b ->
  outcomes (alike R) (permutation_contract lay p a) (permutation_contract lay' p b).
Proof.
  intros H. eapply outcomes_bind; [apply permuted_alike; exact H|]. intros. apply to_owned_alike; auto.
Qed.

Hypothesis HS : sums_alike R lay lay'.

Lemma sum_axis_alike a b ax : alike R a b -> outcomes (alike R) (sum_axis lay a ax) (sum_axis lay' b ax).
Proof.
  intros H. unfold sum_axis. rewrite (alike_shape a b H). apply outcomes_same; intros n.
  eapply outcomes_bind.
  - apply outcomes_mapM with (P := R). intros idx. eapply outcomes_bind.
    + apply outcomes_mapM with (P := R). intros i. apply get_alike; auto.
    + intros l l' Hl. simpl. apply HS; auto.
  - intros l l' Hl. simpl. apply HA; [cbn [map]; f_equal; apply frame_alike; auto|]. apply alike_mk; auto.
Qed.

Lemma summation_alike s a b : alike R a b -> outcomes (alike R) (summation_contract lay s a) (summation_contract lay' s b).
Proof.
  intros H. unfold summation_contract. apply outcomes_same; intros ax.
  eapply outcomes_bind; [apply sum_axis_alike; exact H|]. apply outcomes_foldM. intros. apply sum_axis_alike; auto.
Qed.

Lemma diag_view_alike d a b : alike R a b -> outcomes (alike R) (diagonalization_view d a) (diagonalization_view d b).
Proof.
  intros H. unfold diagonalization_view. pose proof H as (_ & _ & E & _). rewrite E. apply outcomes_same; intros st.
  pose proof (slice_alike a b H) as Hs. destruct (as_slice_memory_order a), (as_slice_memory_order b); simpl; try tauto.
  apply view_from_shape_alike; auto.
Qed.

Lemma diag_contract_alike d a b : alike R a b ->
  outcomes (alike R) (diagonalization_contract lay d a) (diagonalization_contract lay' d b).
Proof.
  intros H. unfold diagonalization_contract. eapply outcomes_bind; [apply iter_alike; exact H|]. intros l l' Hl.
  rewrite (alike_shape a b H). eapply outcomes_bind; [apply from_shape_vec_alike; exact Hl|]. intros c c' Hc.
  eapply outcomes_bind; [apply diag_view_alike; exact Hc|]. intros. apply into_owned_alike; auto.
Qed.

Lemma diag_and_sum_alike d s a b : alike R a b ->
  outcomes (alike R) (diag_and_sum_contract lay d s a) (diag_and_sum_contract lay' d s b).
Proof.
  intros H. unfold diag_and_sum_contract. pose proof H as (_ & _ & E & _). rewrite E.
  pose proof (slice_alike a b H) as Hs.
  assert (Es : match as_slice_memory_order a with Some _ => true | None => false end
               = match as_slice_memory_order b with Some _ => true | None => false end)
    by (destruct (as_slice_memory_order a), (as_slice_memory_order b); tauto).
  rewrite Es. eapply outcomes_bind with (P := alike R); [|intros; apply summation_alike; auto].
  destruct (_ && _); [apply diag_view_alike|apply diag_contract_alike]; auto.
Qed.

Lemma run_singleton_alike op a b : alike R a b -> outcomes (alike R) (run_singleton lay op a) (run_singleton lay' op b).
Proof.
  intros H. destruct op; cbn [run_singleton].
  - apply to_owned_alike; auto.
  - apply permutation_contract_alike; auto.
  - apply summation_alike; auto.
  - apply diag_contract_alike; auto.
  - eapply outcomes_bind; [apply permuted_alike; exact H|]. intros. apply summation_alike; auto.
  - apply diag_and_sum_alike; auto.
Qed.

Lemma run_simplification_alike s a b : alike R a b ->
  outcomes (alike R) (run_simplification lay s a) (run_simplification lay' s b).
Proof. intros H. destruct s as [s|]; simpl; auto. apply run_singleton_alike; auto. Qed.

Lemma shapes_alike (ops : list (arr A)) (ops' : list (arr B)) : map frame ops = map frame ops' ->
  get_operand_shapes ops = get_operand_shapes ops'.
Proof.
  unfold get_operand_shapes. revert ops'. induction ops as [|a ops IH]; intros [|b ops'] H; try discriminate; auto.
  cbn [map] in *. assert (Ha : frame a = frame b) by congruence. f_equal; [exact (f_equal (@a_shape unit) Ha)|].
  apply IH. congruence.
Qed.

End Arrays.

(** *** Two operands *)

Section Pairs.
Context {A B : Type} {Sa : Scalar A} {Sb : Scalar B}.
Variables (R1 R2 R3 : A -> B -> Prop) (lay : backend A) (lay' : backend B).
Hypothesis HA : arranges_alike R3 lay lay'.
Hypothesis HP : products_alike R1 R2 R3 lay lay'.
Hypothesis HM : muls_alike R1 R2 R3.
Hypothesis HM' : muls_alike R2 R1 R3.
Hypothesis HZ : R3 szero szero.

Lemma broadcast_with_alike a b c d : alike R1 a b -> alike R2 c d ->
  outcomes (fun p q => alike R1 (fst p) (fst q) /\ alike R2 (snd p) (snd q)) (broadcast_with a c) (broadcast_with b d).
Proof.
  intros Ha Hc. unfold broadcast_with. rewrite (alike_shape R1 a b Ha), (alike_shape R2 c d Hc).
  destruct (co_broadcast_rev _ _) as [rsh|]; simpl; auto.
  eapply outcomes_bind with (P := alike R1); [destruct (list_nat_eqb _ _); [exact Ha|apply broadcast_alike; auto]|].
  intros a' b' H1. eapply outcomes_bind with (P := alike R2); [destruct (list_nat_eqb _ _); [exact Hc|apply broadcast_alike; auto]|].
  intros c' d' H2. simpl. auto.
Qed.

Lemma mapv_alike (Q : A -> B -> Prop) f g a b : (forall x y, Q x y -> R3 (f x) (g y)) -> alike Q a b ->
  outcomes (alike R3) (mapv lay f a) (mapv lay' g b).
Proof.
  intros Hf H. unfold mapv. eapply outcomes_bind; [apply iter_alike; exact H|]. intros l l' Hl. simpl.
  apply HA; [cbn [map]; f_equal; apply (frame_alike Q); auto|]. rewrite (alike_shape Q a b H). apply alike_mk. eapply Forall2_map_both; eauto.
Qed.

Lemma mul_arrays_alike a b c d : alike R1 a b -> alike R2 c d ->
  outcomes (alike R3) (mul_arrays lay a c) (mul_arrays lay' b d).
Proof.
  intros Ha Hc. unfold mul_arrays. rewrite (alike_shape R1 a b Ha), (alike_shape R2 c d Hc).
  eapply outcomes_bind with (P := fun p q => alike R1 (fst p) (fst q) /\ alike R2 (snd p) (snd q)).
  { destruct (list_nat_eqb _ _); [simpl; auto|apply broadcast_with_alike; auto]. }
  intros [a' c'] [b' d'] [H1 H2]. cbn [fst snd] in *. rewrite (alike_shape R1 a' b' H1).
  eapply outcomes_bind.
  - apply outcomes_mapM with (P := R3). intros idx. eapply outcomes_bind; [apply get_alike; exact H1|]. intros x x' Hx.
    eapply outcomes_bind; [apply get_alike; exact H2|]. intros y y' Hy. simpl. apply HM; auto.
  - intros l l' Hl. simpl. apply HA; [cbn [map]; f_equal; [|f_equal]; eapply frame_alike; eauto|]. apply alike_mk; auto.
Qed.

Lemma dot_elem_alike a b c d k i j : alike R1 a b -> alike R2 c d ->
  outcomes R3 (dot_elem lay a c k i j) (dot_elem lay' b d k i j).
Proof.
  intros Ha Hc. unfold dot_elem. eapply outcomes_bind.
  - apply outcomes_mapM with (P := fun p q => R1 (fst p) (fst q) /\ R2 (snd p) (snd q)). intros x.
    eapply outcomes_bind; [apply get_alike; exact Ha|]. intros p p' Hp.
    eapply outcomes_bind; [apply get_alike; exact Hc|]. intros q q' Hq. simpl. auto.
  - intros l l' Hl. simpl. apply HP; auto.
Qed.

Lemma dot_alike a b c d : alike R1 a b -> alike R2 c d -> outcomes (alike R3) (dot lay a c) (dot lay' b d).
Proof.
  intros Ha Hc. unfold dot. pose proof Ha as (_ & E1 & E2 & _). pose proof Hc as (_ & E3 & E4 & _).
  rewrite E1, E2, E3, E4.
  destruct (a_shape b) as [|m [|k [|]]]; simpl; auto. destruct (a_shape d) as [|k2 [|n [|]]]; simpl; auto.
  destruct (Nat.eqb k k2); simpl; auto. destruct (_ && _);
  (eapply outcomes_bind; [apply outcomes_mapM with (P := R3); intros [|i [|j [|]]]; simpl; auto; apply dot_elem_alike; auto
                         |intros l l' Hl; simpl; apply alike_mk; auto]).
Qed.

Lemma run_tfp_alike t a b c d : alike R1 a b -> alike R2 c d -> outcomes (alike R3) (run_tfp lay t a c) (run_tfp lay' t b d).
Proof.
  intros Ha Hc. unfold run_tfp. eapply outcomes_bind; [apply as_matrix_alike; exact Ha|]. intros l l' Hl.
  eapply outcomes_bind; [apply as_matrix_alike; exact Hc|]. intros r r' Hr.
  eapply outcomes_bind; [apply dot_alike; [exact Hl|exact Hr]|]. intros. apply into_shape_alike; auto.
Qed.

Lemma run_tg_alike t a b c d : alike R1 a b -> alike R2 c d -> outcomes (alike R3) (run_tg lay t a c) (run_tg lay' t b d).
Proof.
  intros Ha Hc. unfold run_tg. eapply outcomes_bind; [apply permuted_alike; exact Ha|]. intros l l' Hl.
  eapply outcomes_bind; [apply permuted_alike; exact Hc|]. intros r r' Hr.
  eapply outcomes_bind; [apply run_tfp_alike; [exact Hl|exact Hr]|]. intros. apply permutation_contract_alike; auto.
Qed.

Lemma run_hadamard_general_alike p q a b c d : alike R1 a b -> alike R2 c d ->
  outcomes (alike R3) (run_hadamard_general lay p q a c) (run_hadamard_general lay' p q b d).
Proof.
  intros Ha Hc. unfold run_hadamard_general. eapply outcomes_bind; [apply permuted_alike; exact Ha|]. intros l l' Hl.
  eapply outcomes_bind; [apply permuted_alike; exact Hc|]. intros r r' Hr. apply mul_arrays_alike; auto.
Qed.

Lemma run_scalar_alike a b c d : alike R1 a b -> alike R2 c d ->
  outcomes (alike R3) (run_scalar_matrix lay a c) (run_scalar_matrix lay' b d).
Proof.
  intros Ha Hc. unfold run_scalar_matrix. eapply outcomes_bind; [apply first_alike; exact Ha|].
  intros [x|] [y|] Hx; simpl; try tauto. apply mapv_alike with (Q := R2); auto.
Qed.

Lemma run_scalar_alike' a b c d : alike R1 a b -> alike R2 c d ->
  outcomes (alike R3) (run_matrix_scalar lay a c) (run_matrix_scalar lay' b d).
Proof.
  intros Ha Hc. unfold run_matrix_scalar. eapply outcomes_bind; [apply first_alike; exact Hc|].
  intros [x|] [y|] Hx; simpl; try tauto. apply mapv_alike with (Q := R1); auto.
Qed.

Lemma run_broadcast_alike p a b c d : alike R1 a b -> alike R2 c d ->
  outcomes (alike R3) (run_broadcast lay p a c) (run_broadcast lay' p b d).
Proof.
  intros Ha Hc. unfold run_broadcast. eapply outcomes_bind; [apply permuted_alike; exact Ha|]. intros l l' Hl.
  eapply outcomes_bind; [apply permuted_alike; exact Hc|]. intros r r' Hr.
  eapply outcomes_bind; [apply outcomes_foldM with (P := alike R1); [intros; apply insert_axis_alike; auto|exact Hl]|]. intros l1 l1' Hl1.
  eapply outcomes_bind; [apply outcomes_foldM with (P := alike R2); [intros; apply insert_axis_alike; auto|exact Hr]|]. intros r1 r1' Hr1.
  eapply outcomes_bind; [apply broadcast_alike; exact Hl1|]. intros l2 l2' Hl2.
  eapply outcomes_bind; [apply broadcast_alike; exact Hr1|]. intros r2 r2' Hr2. apply mul_arrays_alike; auto.
Qed.

Lemma stacked_iteration_alike t ls ls' rs rs' buf buf' i : Forall2 (alike R1) ls ls' -> Forall2 (alike R2) rs rs' ->
  alike R3 buf buf' -> outcomes (alike R3) (stacked_iteration lay t ls rs buf i) (stacked_iteration lay' t ls' rs' buf' i).
Proof.
  intros Hl Hr Hb. unfold stacked_iteration. eapply outcomes_bind; [apply index_axis_alike; exact Hb|]. intros o o' Ho.
  eapply outcomes_bind; [apply outcomes_index; exact Hl|]. intros l l' H1.
  eapply outcomes_bind; [apply outcomes_index; exact Hr|]. intros r r' H2.
  unfold contract_and_assign_pair. eapply outcomes_bind with (P := alike R3).
  - eapply outcomes_bind; [apply run_tfp_alike; [exact H1|exact H2]|]. intros. apply assign_alike; auto.
  - intros u u' Hu. simpl. destruct Hb as (-> & -> & -> & _). apply alike_mk. apply Hu.
Qed.

Lemma run_stacked_alike s a b c d : alike R1 a b -> alike R2 c d ->
  outcomes (alike R3) (run_stacked lay s a c) (run_stacked lay' s b d).
Proof.
  intros Ha Hc. unfold run_stacked. eapply outcomes_bind; [apply permuted_alike; exact Ha|]. intros l l' Hl.
  eapply outcomes_bind; [apply iter_alike; exact Hl|]. intros ll ll' Hll.
  eapply outcomes_bind; [apply from_shape_vec_alike; exact Hll|]. intros lr lr' Hlr.
  eapply outcomes_bind; [apply permuted_alike; exact Hc|]. intros r r' Hr.
  eapply outcomes_bind; [apply iter_alike; exact Hr|]. intros rl rl' Hrl.
  eapply outcomes_bind; [apply from_shape_vec_alike; exact Hrl|]. intros rr rr' Hrr.
  eapply outcomes_bind; [apply outer_iter_alike; exact Hlr|]. intros lsubs lsubs' Hls.
  eapply outcomes_bind; [apply outer_iter_alike; exact Hrr|]. intros rsubs rsubs' Hrs.
  assert (Hz : alike R3 (zeros (st_intermediate_shape s)) (zeros (st_intermediate_shape s))).
  { apply alike_mk, Forall2_repeat, HZ. }
  rewrite (alike_shape R3 _ _ Hz). apply outcomes_same; intros n.
  eapply outcomes_bind with (P := alike R3).
  - apply outcomes_foldM; auto. intros. apply stacked_iteration_alike; auto.
  - intros buf buf' Hb. eapply outcomes_bind; [apply into_shape_alike; exact Hb|]. intros.
    apply permutation_contract_alike; auto.
Qed.

Lemma run_pair_alike op a b c d : alike R1 a b -> alike R2 c d -> outcomes (alike R3) (run_pair lay op a c) (run_pair lay' op b d).
Proof.
  intros Ha Hc. destruct op; cbn [run_pair].
  - apply mul_arrays_alike; auto.
  - apply run_hadamard_general_alike; auto.
  - apply run_scalar_alike; auto.
  - eapply outcomes_bind; [apply permuted_alike; exact Hc|]. intros. apply run_scalar_alike; auto.
  - apply run_scalar_alike'; auto.
  - eapply outcomes_bind; [apply permuted_alike; exact Ha|]. intros. apply run_scalar_alike'; auto.
  - apply run_tfp_alike; auto.
  - apply run_tg_alike; auto.
  - apply run_broadcast_alike; auto.
  - apply run_stacked_alike; auto.
Qed.

Hypothesis HA1 : arranges_alike R1 lay lay'.
Hypothesis HA2 : arranges_alike R2 lay lay'.
Hypothesis HS1 : sums_alike R1 lay lay'.
Hypothesis HS2 : sums_alike R2 lay lay'.

Lemma run_pair_contraction_alike p a b c d : alike R1 a b -> alike R2 c d ->
  outcomes (alike R3) (run_pair_contraction lay p a c) (run_pair_contraction lay' p b d).
Proof.
  intros Ha Hc. unfold run_pair_contraction.
  eapply outcomes_bind; [apply (run_simplification_alike R1 lay lay' HA1 HS1); exact Ha|]. intros l l' Hl.
  eapply outcomes_bind; [apply (run_simplification_alike R2 lay lay' HA2 HS2); exact Hc|]. intros. apply run_pair_alike; auto.
Qed.

Lemma tensordot_alike a b c d la ra : alike R1 a b -> alike R2 c d ->
  outcomes (alike R3) (tensordot lay a c la ra) (tensordot lay' b d la ra).
Proof.
  intros Ha Hc. unfold tensordot. rewrite (alike_shape R1 a b Ha), (alike_shape R2 c d Hc).
  apply outcomes_same; intros _. apply outcomes_same; intros n. apply outcomes_same; intros t. apply run_tg_alike; auto.
Qed.

End Pairs.

(** *** Paths *)

(** Each operand has a grade, by which its elements are related. *)
Inductive graded {A B G : Type} (R : G -> A -> B -> Prop) : list G -> list (arr A) -> list (arr B) -> Prop :=
| graded_nil : graded R [] [] []
| graded_cons : forall g gs a l b l', alike (R g) a b -> graded R gs l l' -> graded R (g :: gs) (a :: l) (b :: l').

(** The grade of what a path returns, if a product has grade [op g h]. *)
Definition fetch_grade {G : Type} (gs ints : list G) (n : operand_number) : res G :=
  match n with
  | Input pos => index gs pos
  | IntermediateResult pos => index ints pos
  end.
Definition step_grade {G : Type} (op : G -> G -> G) (gs ints : list G) (st : pair_step) : res (list G) :=
  do g <- fetch_grade gs ints (ps_lhs st);
  do g' <- fetch_grade gs ints (ps_rhs st);
  Ok (ints ++ [op g g']).
Definition order_grade {G : Type} (op : G -> G -> G) (order : contraction_order) (gs : list G) : res G :=
  match order with
  | Singleton _ => index gs 0
  | Pairs steps => do ints <- foldM (step_grade op gs) steps []; unwrap (pop_last ints)
  end.

Section Graded.
Context {A B : Type} {Sa : Scalar A} {Sb : Scalar B} {G : Type}.
Variables (op : G -> G -> G) (R : G -> A -> B -> Prop) (lay : backend A) (lay' : backend B).

(** The two runs do the same, and grades are respected. *)
Record grades_alike : Prop := {
  grades_arrange : forall g, arranges_alike (R g) lay lay';
  grades_sum : forall g, sums_alike (R g) lay lay';
  grades_products : forall g h, products_alike (R g) (R h) (R (op g h)) lay lay';
  grades_mul : forall g h, muls_alike (R g) (R h) (R (op g h));
  grades_mul' : forall g h, muls_alike (R h) (R g) (R (op g h));
  grades_zero : forall g, R g szero szero
}.
Hypothesis HG : grades_alike.

Lemma graded_index gs l l' i : graded R gs l l' ->
  outcomes (fun a b => exists g, index gs i = Ok g /\ alike (R g) a b) (index l i) (index l' i).
Proof.
  intros H. revert i. induction H; intros [|i]; simpl; auto; try exact I.
  - exists g. auto.
  - apply IHgraded.
Qed.

Lemma graded_app gs l l' gs1 l1 l1' : graded R gs l l' -> graded R gs1 l1 l1' ->
  graded R (gs ++ gs1) (l ++ l1) (l' ++ l1').
Proof. intros H H1. induction H; simpl; auto. constructor; auto. Qed.

Lemma graded_lengths gs l l' : graded R gs l l' -> length gs = length l /\ length l = length l'.
Proof. induction 1; simpl; auto. destruct IHgraded; split; congruence. Qed.

Lemma graded_frames gs l l' : graded R gs l l' -> map frame l = map frame l'.
Proof. induction 1; simpl; auto. f_equal; auto. apply (frame_alike (R g)); auto. Qed.

Lemma run_step_graded gs ops ops' gi ints ints' pc st : graded R gs ops ops' -> graded R gi ints ints' ->
  outcomes (fun l l' => exists gl, step_grade op gs gi st = Ok gl /\ graded R gl l l')
    (run_step lay ops ints (pc, st)) (run_step lay' ops' ints' (pc, st)).
Proof.
  intros Ho Hi.
  assert (HF : forall n, outcomes (fun a b => exists g, fetch_grade gs gi n = Ok g /\ alike (R g) a b)
                           (fetch ops ints n) (fetch ops' ints' n)).
  { intros [n|n]; apply graded_index; auto. }
  unfold run_step. eapply outcomes_bind; [apply HF|]. intros l l' (g & Eg & Hl).
  eapply outcomes_bind; [apply HF|]. intros r r' (g' & Eg' & Hr).
  eapply outcomes_bind.
  - apply (run_pair_contraction_alike (R g) (R g') (R (op g g'))); try apply HG; [exact Hl|exact Hr].
  - intros x x' Hx. simpl. exists (gi ++ [op g g']). split.
    + unfold step_grade. rewrite Eg. cbn [rbind]. rewrite Eg'. reflexivity.
    + apply graded_app; auto. repeat constructor; apply Hx.
Qed.

Lemma run_steps_graded gs ops ops' : graded R gs ops ops' ->
  forall steps order, length steps = length order -> forall gi ints ints', graded R gi ints ints' ->
  outcomes (fun l l' => exists gl, foldM (step_grade op gs) order gi = Ok gl /\ graded R gl l l')
    (foldM (run_step lay ops) (combine steps order) ints) (foldM (run_step lay' ops') (combine steps order) ints').
Proof.
  intros Ho. induction steps as [|pc steps IH]; intros [|st order] E gi ints ints' Hi; try discriminate; cbn [combine foldM].
  - simpl. eauto.
  - eapply outcomes_bind; [apply run_step_graded; eauto|]. intros l l' (gl & Eg & Hl). rewrite Eg. cbn [rbind].
    apply IH; auto.
Qed.

(** The steps of a path are as many as those of its order. *)
Definition path_matches (p : einsum_path) : Prop :=
  match path_steps p, path_order p with
  | StepsPairs steps, Pairs order => length steps = length order
  | _, _ => True
  end.

Lemma contract_operands_graded p gs ops ops' : path_matches p -> graded R gs ops ops' ->
  outcomes (fun r r' => exists g, order_grade op (path_order p) gs = Ok g /\ alike (R g) r r')
    (contract_operands lay p ops) (contract_operands lay' p ops').
Proof.
  intros Hp Ho. unfold contract_operands. unfold path_matches in Hp.
  destruct (path_steps p) as [c|steps], (path_order p) as [sc|order]; try exact I.
  - eapply outcomes_bind; [apply graded_index; exact Ho|]. intros a b (g & Eg & Hab).
    pose proof (run_singleton_alike (R g) lay lay' (grades_arrange HG g) (grades_sum HG g) (sgl_op c) a b Hab) as H.
    destruct (run_singleton lay (sgl_op c) a), (run_singleton lay' (sgl_op c) b); simpl in *; auto. exists g. auto.
  - eapply outcomes_bind; [apply run_steps_graded; eauto; constructor|].
    intros l l' (gl & Eg & Hl). unfold order_grade. rewrite Eg. cbn [rbind].
    pose proof (graded_lengths _ _ _ Hl) as [E1 E2]. unfold pop_last. rewrite E1, <- E2.
    apply (graded_index gl l l' (length l - 1)). auto.
Qed.

End Graded.

Section Uniform.
Context {A B : Type} {Sa : Scalar A} {Sb : Scalar B}.
Variables (R : A -> B -> Prop) (lay : backend A) (lay' : backend B).

(** One relation for all arrays. *)
Record backends_alike : Prop := {
  alike_zero : R szero szero;
  alike_mul : muls_alike R R R;
  alike_arrange : arranges_alike R lay lay';
  alike_add_up : sums_alike R lay lay';
  alike_add_products : products_alike R R R lay lay'
}.
Hypothesis HL : backends_alike.

Lemma run_step_alike ops ops' ints ints' st : Forall2 (alike R) ops ops' -> Forall2 (alike R) ints ints' ->
  outcomes (Forall2 (alike R)) (run_step lay ops ints st) (run_step lay' ops' ints' st).
Proof.
  intros Ho Hi. destruct st as [st os].
  assert (HF : forall n, outcomes (alike R) (fetch ops ints n) (fetch ops' ints' n)).
  { intros [n|n]; apply outcomes_index; auto. }
  unfold run_step. eapply outcomes_bind; [apply HF|]. intros l l' Hl. eapply outcomes_bind; [apply HF|]. intros r r' Hr.
  eapply outcomes_bind; [apply (run_pair_contraction_alike R R R); try apply HL; [exact Hl|exact Hr]|].
  intros. simpl. apply Forall2_app; auto.
Qed.

Lemma contract_operands_alike p ops ops' : Forall2 (alike R) ops ops' ->
  outcomes (alike R) (contract_operands lay p ops) (contract_operands lay' p ops').
Proof.
  intros Ho. unfold contract_operands. destruct (path_steps p), (path_order p); try exact I.
  - eapply outcomes_bind; [apply outcomes_index; exact Ho|]. intros. apply run_singleton_alike; auto; apply HL.
  - eapply outcomes_bind.
    + apply outcomes_foldM with (P := Forall2 (alike R)); [intros; apply run_step_alike; auto|constructor].
    + intros ints ints' Hi. unfold pop_last. rewrite (Forall2_length_eq _ _ _ Hi). apply outcomes_unwrap; auto.
Qed.

Lemma einsum_sc_alike h sc ops ops' : Forall2 (alike R) ops ops' ->
  outcomes (alike R) (einsum_sc h lay sc ops) (einsum_sc h lay' sc ops').
Proof. intros Ho. unfold einsum_sc. apply outcomes_same; intros p. apply contract_operands_alike; auto. Qed.

Lemma einsum_alike h s ops ops' : Forall2 (alike R) ops ops' ->
  outcomes (alike R) (einsum h lay s ops) (einsum h lay' s ops').
Proof.
  intros Ho. unfold einsum, validate_and_size. rewrite (shapes_alike ops ops' (frames_alike R _ _ Ho)).
  apply outcomes_same; intros sc. apply einsum_sc_alike; auto.
Qed.

End Uniform.
