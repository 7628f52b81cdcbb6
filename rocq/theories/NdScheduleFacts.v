(** ndarray's own choices are among those the theorems allow (C72). *)
From Verif Require Import Base BaseFacts NDArray Spec SumFacts ArrayFacts ParamFacts Schedule GradeFacts DiagFacts DiagAnyFacts
  DiagMemFacts NdSchedule.
From Coq Require Import Lia.

(** ** Sums *)

Section Sums.
Context {A : Type} {Sc : Scalar A}.

Lemma sums_fold l : forall l0 x, sums_to l0 x -> sums_to (l0 ++ l) (fold_left sadd l x).
Proof.
  induction l as [|y l IH]; intros l0 x H; simpl; [rewrite app_nil_r; auto|].
  change (y :: l) with ([y] ++ l). rewrite app_assoc. apply IH. apply sums_add; [auto|constructor].
Qed.

Lemma add_each_ok ls ps : Forall2 sums_to ls ps -> forall xs : list A, length xs = length ps ->
  exists ls', Forall2 sums_to ls' (add_each ps xs) /\ Permutation (concat ls ++ xs) (concat ls').
Proof.
  induction 1 as [|l p ls ps H Hs IH]; intros [|x xs] E; try discriminate; simpl.
  - exists []. split; [constructor|auto].
  - destruct (IH xs) as (ls' & H1 & H2); [simpl in E; lia|]. exists ((l ++ [x]) :: ls'). split.
    + constructor; auto. apply sums_add; [auto|constructor].
    + simpl. rewrite <- !app_assoc. apply Permutation_app_head. simpl. rewrite <- H2.
      apply Permutation_sym, Permutation_middle.
Qed.

Lemma add_each_length ps : forall xs : list A, length (add_each ps xs) = length ps.
Proof. induction ps as [|p ps IH]; intros [|x xs]; simpl; auto. Qed.

Lemma eights_ok n : forall ls ps (xs : list A), Forall2 sums_to ls ps -> length ps = 8 -> 8 * n <= length xs ->
  exists ls' qs rest, eights n ps xs = (qs, rest) /\ Forall2 sums_to ls' qs /\ length qs = 8
    /\ Permutation (concat ls ++ xs) (concat ls' ++ rest).
Proof.
  induction n as [|n IH]; intros ls ps xs H Hp Hx.
  - exists ls, ps, xs. auto.
  - destruct (add_each_ok ls ps H (firstn 8 xs)) as (l1 & H1 & H2); [rewrite firstn_length; lia|].
    destruct (IH l1 (add_each ps (firstn 8 xs)) (skipn 8 xs) H1) as (ls' & qs & rest & E & H3 & H4 & H5).
    + rewrite add_each_length. auto.
    + rewrite skipn_length. lia.
    + exists ls', qs, rest. split; [exact E|]. split; [auto|]. split; [auto|].
      rewrite <- (firstn_skipn 8 xs) at 1. rewrite app_assoc, H2. exact H5.
Qed.

Lemma interleaved (l0 l1 l2 l3 l4 l5 l6 l7 : list A) :
  Permutation (((([] ++ (l0 ++ l4)) ++ (l1 ++ l5)) ++ (l2 ++ l6)) ++ (l3 ++ l7))
    (concat [l0; l1; l2; l3; l4; l5; l6; l7]).
Proof.
  simpl. rewrite app_nil_r, <- !app_assoc. apply Permutation_app_head.
  rewrite (Permutation_app_swap_app l4 l1). apply Permutation_app_head.
  rewrite (app_assoc l4 l5), (Permutation_app_swap_app (l4 ++ l5) l2). apply Permutation_app_head.
  rewrite (app_assoc (l4 ++ l5) l6), (Permutation_app_swap_app ((l4 ++ l5) ++ l6) l3). apply Permutation_app_head.
  rewrite <- !app_assoc. auto.
Qed.

Lemma unrolled_fold_ok (xs : list A) : sums_to xs (unrolled_fold xs).
Proof.
  unfold unrolled_fold.
  destruct (eights_ok (length xs / 8) (repeat [] 8) (repeat szero 8) xs) as (ls & qs & rest & E & H1 & H2 & H3).
  - repeat constructor.
  - reflexivity.
  - apply Nat.mul_div_le. lia.
  - rewrite E. do 8 (destruct qs as [|? qs]; [discriminate|]). destruct qs; [|discriminate].
    do 8 (match goal with H : Forall2 sums_to _ (_ :: _) |- _ => inversion H; clear H; subst end).
    match goal with H : Forall2 sums_to _ [] |- _ => inversion H; clear H; subst end.
    eapply sums_permuted; [apply Permutation_sym; exact H3|]. apply sums_fold.
    eapply sums_permuted; [apply interleaved|]. repeat (apply sums_add; auto using sums_zero).
Qed.

Lemma lane_sum_ok stride (xs : list A) : sums_to xs (lane_sum stride xs).
Proof.
  unfold lane_sum. destruct (list_Z_eqb _ _); [apply unrolled_fold_ok|].
  change xs with ([] ++ ([] ++ xs)) at 1. apply sums_add; [constructor|]. apply sums_fold. constructor.
Qed.

Lemma axis_sum_ok ax strides (xs : list A) : sums_to xs (axis_sum ax strides xs).
Proof.
  unfold axis_sum. destruct (Nat.eqb _ _); [apply lane_sum_ok|]. change xs with ([] ++ xs) at 1.
  apply sums_fold. constructor.
Qed.

Variable fma : A -> A -> A -> A.

Lemma dots_fold l : forall l0 x, dots_to fma l0 x ->
  dots_to fma (l0 ++ l) (fold_left (fun s p => sadd s (smul (fst p) (snd p))) l x).
Proof.
  induction l as [|[a b] l IH]; intros l0 x H; simpl; [rewrite app_nil_r; auto|].
  change ((a, b) :: l) with ([(a, b)] ++ l). rewrite app_assoc. apply IH. apply dots_add; [auto|constructor].
Qed.

Lemma general_product_ok l : dots_to fma l (general_product l).
Proof.
  unfold general_product. change l with ([] ++ l) at 1. apply dots_add; [apply dots_zero_zero|]. apply dots_scaled.
  change l with ([] ++ l) at 1. apply dots_fold. constructor.
Qed.

Lemma kernel_ok use_fma l : dots_to fma l (kernel fma use_fma l).
Proof.
  unfold kernel. destruct use_fma.
  - assert (G : forall l l0 x, dots_to fma l0 x ->
              dots_to fma (l0 ++ l) (fold_left (fun s p => fma (fst p) (snd p) s) l x)).
    { clear l. induction l as [|[a b] l IH]; intros l0 x H; simpl; [rewrite app_nil_r; auto|].
      eapply dots_permuted; [apply Permutation_middle|].
      change ((a, b) :: l0 ++ l) with (((a, b) :: l0) ++ l). apply IH. constructor. auto. }
    change l with ([] ++ l) at 1. apply G. constructor.
  - change l with ([] ++ l) at 1. apply dots_fold. constructor.
Qed.

Lemma later_blocks_ok n kc use_fma : forall l0 c l, length l <= n -> dots_to fma l0 c ->
  dots_to fma (l0 ++ l) (later_blocks fma n (S kc) use_fma c l).
Proof.
  induction n as [|n IH]; intros l0 c l Hn H.
  - destruct l; [|simpl in Hn; lia]. simpl. rewrite app_nil_r. auto.
  - destruct l as [|p l]; [simpl; rewrite app_nil_r; auto|]. cbn [later_blocks].
    rewrite <- (firstn_skipn (S kc) (p :: l)) at 1. rewrite app_assoc. apply IH.
    + cbn [skipn]. rewrite skipn_length. simpl in Hn. lia.
    + destruct use_fma.
      * eapply dots_permuted; [apply Permutation_app_comm|]. apply dots_fused_one; auto. apply kernel_ok.
      * apply dots_add; auto. apply dots_scaled, kernel_ok.
Qed.

Lemma gemm_product_ok kc use_fma l : dots_to fma l (gemm_product fma kc use_fma l).
Proof.
  unfold gemm_product. destruct l as [|p l]; [constructor|].
  rewrite <- (firstn_skipn (S kc) (p :: l)) at 1. apply later_blocks_ok.
  - rewrite skipn_length. lia.
  - apply dots_scaled, kernel_ok.
Qed.

Lemma matrix_sum_ok m l : dots_to fma l (matrix_sum m fma l).
Proof. destruct m; [apply general_product_ok|apply gemm_product_ok]. Qed.

(** ** Evaluating the expressions *)

Section Eval.
Context {V : Type}.
Variable env : V -> A.
Notation ev := (eval fma env).
Notation ES := (expr_scalar V).

Lemma eval_fold l : forall e, ev (fold_left (@sadd _ ES) l e) = fold_left sadd (map ev l) (ev e).
Proof. induction l as [|x l IH]; intros e; simpl; auto. rewrite IH. reflexivity. Qed.

Lemma eval_add_each ps : forall xs, map ev (@add_each _ ES ps xs) = add_each (map ev ps) (map ev xs).
Proof. induction ps as [|p ps IH]; intros [|x xs]; simpl; auto. rewrite IH. reflexivity. Qed.

Lemma eval_eights n : forall ps xs, let (qs, rest) := @eights _ ES n ps xs in
  eights n (map ev ps) (map ev xs) = (map ev qs, map ev rest).
Proof.
  induction n as [|n IH]; intros ps xs; cbn [eights]; auto.
  rewrite skipn_map, firstn_map, <- eval_add_each. apply IH.
Qed.

Lemma eval_unrolled xs : ev (@unrolled_fold _ ES xs) = unrolled_fold (map ev xs).
Proof.
  unfold unrolled_fold. rewrite map_length. pose proof (eval_eights (length xs / 8) (repeat Zero 8) xs) as H.
  change (map ev (repeat Zero 8)) with (repeat (szero : A) 8) in H.
  change (repeat (@szero _ ES) 8) with (repeat (@Zero V) 8).
  destruct (eights (length xs / 8) (repeat Zero 8) xs) as [qs rest].
  rewrite H. do 9 (destruct qs as [|? qs]; [try reflexivity|]); [|reflexivity].
  cbn [map]. rewrite eval_fold. reflexivity.
Qed.

Lemma eval_axis_sum ax strides xs : ev (@axis_sum _ ES ax strides xs) = axis_sum ax strides (map ev xs).
Proof.
  unfold axis_sum, lane_sum. rewrite map_length. destruct (Nat.eqb _ _); [|apply eval_fold].
  destruct (list_Z_eqb _ _); [apply eval_unrolled|]. cbn [eval sadd expr_scalar]. rewrite eval_fold. reflexivity.
Qed.

Definition ev2 (p : expr V * expr V) : A * A := (ev (fst p), ev (snd p)).

Lemma eval_dot_fold l : forall e,
  ev (fold_left (fun s p => @sadd _ ES s (@smul _ ES (fst p) (snd p))) l e)
  = fold_left (fun s p => sadd s (smul (fst p) (snd p))) (map ev2 l) (ev e).
Proof. induction l as [|x l IH]; intros e; simpl; auto. rewrite IH. reflexivity. Qed.

Lemma eval_kernel use_fma l : ev (@kernel _ ES Fused use_fma l) = kernel fma use_fma (map ev2 l).
Proof.
  unfold kernel. destruct use_fma; [|apply eval_dot_fold].
  assert (G : forall e, ev (fold_left (fun s p => Fused (fst p) (snd p) s) l e)
                        = fold_left (fun s p => fma (fst p) (snd p) s) (map ev2 l) (ev e)).
  { induction l as [|x l IH]; intros e; simpl; auto. rewrite IH. reflexivity. }
  apply G.
Qed.

Lemma eval_later n kc use_fma : forall c l,
  ev (@later_blocks _ ES Fused n kc use_fma c l) = later_blocks fma n kc use_fma (ev c) (map ev2 l).
Proof.
  induction n as [|n IH]; intros c l; [reflexivity|]. destruct l as [|p l]; [reflexivity|].
  cbn [later_blocks map]. rewrite IH. change (ev2 p :: map ev2 l) with (map ev2 (p :: l)).
  rewrite firstn_map, skipn_map, <- eval_kernel. destruct use_fma; reflexivity.
Qed.

Lemma eval_matrix_sum m l : ev (@matrix_sum _ ES m Fused l) = matrix_sum m fma (map ev2 l).
Proof.
  destruct m as [|kc use_fma]; cbn [matrix_sum].
  - unfold general_product. cbn [eval sadd smul sone szero expr_scalar]. f_equal. f_equal. apply eval_dot_fold.
  - unfold gemm_product. destruct l as [|p l]; [reflexivity|]. cbn [map]. rewrite eval_later.
    change (ev2 p :: map ev2 l) with (map ev2 (p :: l)). rewrite firstn_map, skipn_map, map_length, <- eval_kernel.
    reflexivity.
Qed.

End Eval.

End Sums.

(** ** Memory orders *)

Lemma unmoved_follows {A} {Sc : Scalar A} (a : arr A) :
  amap (fun p => nth p (a_data a) szero) (unmoved (frame a)) = a.
Proof.
  unfold unmoved, frame, amap. cbn [a_data a_off a_shape a_strides]. rewrite map_length.
  assert (E : map (fun p => nth p (a_data a) szero) (seq 0 (length (a_data a))) = a_data a).
  { induction (a_data a) as [|x l IH]; auto. cbn [length seq map nth]. f_equal. rewrite <- seq_shift, map_map. exact IH. }
  rewrite E. destruct a; auto.
Qed.

Lemma zposition_nth l : NoDup l -> forall k, k < length l -> zposition (nth k l 0%Z) l = k.
Proof.
  induction 1 as [|x l Hx Hn IH]; intros k Hk; simpl in Hk; [lia|]. destruct k as [|k]; simpl.
  - rewrite Z.eqb_refl. auto.
  - rewrite IH by lia. destruct (Z.eqb_spec x (nth k l 0%Z)) as [E|E]; auto.
    exfalso. apply Hx. rewrite E. apply nth_In. lia.
Qed.

Lemma nodup_same {T} (dec : forall x y : T, {x = y} + {x <> y}) l : length (nodup dec l) = length l -> NoDup l.
Proof.
  induction l as [|x l IH]; simpl; intros E; [constructor|].
  assert (Hle : length (nodup dec l) <= length l).
  { apply NoDup_incl_length; [apply NoDup_nodup|]. intros y Hy. apply nodup_In in Hy. auto. }
  destruct (in_dec dec x l) as [H|H]; [lia|]. constructor; auto.
Qed.

(** What following [with_strides] amounts to. *)
Lemma with_strides_follows {A} {Sc : Scalar A} st (a : arr A) :
  let r := amap (fun p => nth p (a_data a) szero) (with_strides st (frame a)) in
  a_shape r = a_shape a
  /\ (length (a_strides a) = length (a_shape a) -> length (a_strides r) = length (a_shape a))
  /\ forall idx, in_bounds (a_shape a) idx = true -> a_get r idx = a_get a idx.
Proof.
  unfold with_strides. cbn [frame amap a_shape a_off a_strides a_data]. rewrite (map_length _ (a_data a)).
  set (ix := indices (a_shape a)).
  set (new := map (fun idx => dot_off idx st) ix). set (old := map (fun idx => (a_off a + dot_off idx (a_strides a))%Z) ix).
  destruct (_ && _ && _ && _)%bool eqn:E; [|rewrite unmoved_follows; auto].
  apply andb_prop in E as [E E4]. apply andb_prop in E as [E E3]. apply andb_prop in E as [E1 E2].
  apply Nat.eqb_eq in E1, E3. apply nodup_same in E3. rewrite forallb_forall in E2, E4.
  cbn [amap a_shape a_strides]. split; [auto|]. split; [auto|]. intros idx Hi.
  unfold a_get. cbn [amap a_shape a_strides a_data a_off]. rewrite Hi, Z.add_0_l. f_equal.
  assert (Hin : In idx ix) by (apply indices_In; auto).
  destruct (In_nth ix idx [] Hin) as (k & Hk & Ek).
  assert (Enew : nth k new 0%Z = dot_off idx st).
  { unfold new. rewrite (nth_indep _ 0%Z ((fun idx => dot_off idx st) [])) by (rewrite map_length; auto).
    rewrite (map_nth (fun idx => dot_off idx st)), Ek. auto. }
  assert (Eold : nth k old 0%Z = (a_off a + dot_off idx (a_strides a))%Z).
  { unfold old. set (g := fun idx => (a_off a + dot_off idx (a_strides a))%Z).
    rewrite (nth_indep _ 0%Z (g [])) by (rewrite map_length; auto).
    rewrite (map_nth g), Ek. auto. }
  assert (B1 : (0 <= dot_off idx st < Z.of_nat (prod (a_shape a)))%Z).
  { specialize (E2 (dot_off idx st)). rewrite <- Enew in E2.
    assert (H : In (nth k new 0%Z) new) by (apply nth_In; unfold new; rewrite map_length; auto).
    specialize (E2 H). apply andb_prop in E2 as [B C]. rewrite Enew in *. lia. }
  assert (B2 : (0 <= a_off a + dot_off idx (a_strides a) < Z.of_nat (length (a_data a)))%Z).
  { rewrite <- Eold. assert (H : In (nth k old 0%Z) old) by (apply nth_In; unfold old; rewrite map_length; auto).
    specialize (E4 _ H). apply andb_prop in E4 as [B C]. lia. }
  unfold znth. rewrite (proj2 (Z.ltb_ge _ _)) by lia. rewrite (proj2 (Z.ltb_ge _ _)) by lia.
  rewrite !nth_error_map. set (p := Z.to_nat (dot_off idx st)).
  assert (Hp : nth_error (seq 0 (prod (a_shape a))) p = Some p).
  { rewrite (nth_error_nth' _ 0) by (rewrite seq_length; lia). rewrite seq_nth by lia. auto. }
  rewrite Hp. cbn [option_map]. unfold p. rewrite Z2Nat.id by lia. rewrite <- Enew.
  rewrite zposition_nth by (auto; unfold new; rewrite map_length; auto). rewrite Eold.
  symmetry. apply nth_error_nth'. lia.
Qed.

Lemma nd_arrange_ok {A} {Sc : Scalar A} m fma op ins (a : arr A) :
  let r := follow (nd_schedule m) fma op ins a in
  a_shape r = a_shape a
  /\ (length (a_strides a) = length (a_shape a) -> length (a_strides r) = length (a_shape a))
  /\ forall idx, in_bounds (a_shape a) idx = true -> a_get r idx = a_get a idx.
Proof.
  cbn [follow arrange nd_schedule sc_arrange]. set (ins' := map frame ins). clearbody ins'. unfold nd_arrange.
  assert (U : forall x, x = a -> a_shape x = a_shape a
     /\ (length (a_strides a) = length (a_shape a) -> length (a_strides x) = length (a_shape a))
     /\ forall idx, in_bounds (a_shape a) idx = true -> a_get x idx = a_get a idx) by (intros x ->; auto).
  assert (C : forall t, let r := amap (fun p => nth p (a_data a) szero) (copied t (frame a)) in
     a_shape r = a_shape a
     /\ (length (a_strides a) = length (a_shape a) -> length (a_strides r) = length (a_shape a))
     /\ forall idx, in_bounds (a_shape a) idx = true -> a_get r idx = a_get a idx).
  { intros t. unfold copied. destruct (is_contiguous t); [apply with_strides_follows|apply U, unmoved_follows]. }
  assert (K : forall ts, let r := amap (fun p => nth p (a_data a) szero) (collected ts (frame a)) in
     a_shape r = a_shape a
     /\ (length (a_strides a) = length (a_shape a) -> length (a_strides r) = length (a_shape a))
     /\ forall idx, in_bounds (a_shape a) idx = true -> a_get r idx = a_get a idx).
  { intros ts. unfold collected. destruct (prefers_f ts); [apply with_strides_follows|apply U, unmoved_follows]. }
  destruct op as [| | | |ax]; destruct ins' as [|t1 [|t2 [|t3 ts]]]; auto using unmoved_follows.
  destruct (Nat.eqb _ _); auto using unmoved_follows.
Qed.

(** ** The whole schedule *)

Lemma map_nth_all {A} (l : list A) d : map (fun p => nth p l d) (seq 0 (length l)) = l.
Proof.
  induction l as [|x l IH]; auto. cbn [length seq map nth]. f_equal. rewrite <- seq_shift, map_map. exact IH.
Qed.

Lemma nd_sums {A} {Sc : Scalar A} m fma ax (a : arr A) idx l :
  add_up (follow (nd_schedule m) fma) ax a idx l = axis_sum ax (a_strides a) l.
Proof.
  cbn [follow add_up nd_schedule sc_sum]. rewrite eval_axis_sum. f_equal. rewrite map_map. cbn [eval]. apply map_nth_all.
Qed.

Lemma nd_products {A} {Sc : Scalar A} m fma (a b : arr A) idx l :
  add_products (follow (nd_schedule m) fma) a b idx l = matrix_sum m fma l.
Proof.
  cbn [follow add_products nd_schedule sc_dot]. rewrite eval_matrix_sum. f_equal. rewrite map_map.
  etransitivity; [|apply (map_nth_all l (szero, szero))]. apply map_ext. intros k. unfold ev2. cbn [fst snd eval].
  destruct (nth k l (szero, szero)); auto.
Qed.

Lemma nd_runs {A} {Sc : Scalar A} m fma : backend_runs (follow (nd_schedule m) fma).
Proof.
  constructor.
  - intros op ins a. apply nd_arrange_ok.
  - intros ax a idx l. rewrite nd_sums. apply axis_sum_ok.
  - intros a b idx l. rewrite nd_products. cbn [fused follow]. apply matrix_sum_ok.
Qed.
