(** [tensordot] over scalars without an absorbing zero (C49) and over floating-point numbers (C52). *)
From Verif Require Import Base BaseFacts NDArray Validation Optimizers Path Api Spec ParserFacts ValidationMain SumFacts
  ArrayFacts EinsumMain EinsumProps RelationFacts TensordotMain RoundFacts RangeFacts FloatFacts FloatMain TensordotRange
  Examples PropsValues PropsNear PropsRounding PropsFloat.
From Coq Require Import Lia ZArith QArith Qcanon Qcabs SpecFloat.
From Coq Require String.
Import String.StringSyntax.
Local Open Scope string_scope.
Local Open Scope list_scope.
Local Open Scope nat_scope.

(** ** Relations that need not hold of zero *)

(** Elements are related to the tensor dot product of the related operands; if an axis that is summed over is
    empty, they are zeros. *)
Theorem tensordot_relations_without_zero :
  forall (A B : Type) (Sa : Scalar A) (Sb : Scalar B) (R : A -> B -> Prop) (Z : A -> Prop),
  weak_relation R Z -> near_semiring B ->
  forall lay (a b : arr A) (a' b' : arr B) la ra, backend_runs lay -> weak_fused R Z lay -> wf a -> wf b ->
    related_arrays R a a' -> related_arrays R b b' ->
    length la = length ra -> axes_ok (length (a_shape a)) la -> axes_ok (length (a_shape b)) ra ->
    axis_lengths (a_shape a) la = axis_lengths (a_shape b) ra ->
    let kept := axis_lengths (a_shape a) (free_axes (length (a_shape a)) la)
                ++ axis_lengths (a_shape b) (free_axes (length (a_shape b)) ra) in
    exists r f, tensordot lay a b la ra = Ok r /\ holds r kept f
      /\ forall o, in_bounds kept o = true ->
           if Nat.eqb (prod (axis_lengths (a_shape a) la)) 0 then Z (f o) else R (f o) (tensordot_value a' b' la ra o).
Proof.
  intros A B Sa Sb R Z HR SR lay a b a' b' la ra Hl Hf Wa Wb Ra Rb Hn Ha Hb He kept.
  destruct (tensordot_related_weak R Z HR SR lay Hl Hf a b a' b' la ra) as (r & w & E & Hr & Hw); auto.
  { rewrite He. auto. }
  exists r, w. split; auto. split; auto. intros o Ho. specialize (Hw o Ho).
  destruct (Nat.eqb _ 0); auto. destruct Ra as [Ea _], Rb as [Eb _].
  rewrite <- (paired_value_sum SR); auto; rewrite <- ?Ea, <- ?Eb; auto.
Qed.
Print Assumptions tensordot_relations_without_zero.

(** ** Overflow *)

(** If sums and products overflow only from [big] on and the operands represent numbers, then an element
    represents a number, within the bound of C40, whenever the largest value the roundings can make of the tensor
    dot product of one plus the absolute values is below [big]. *)
Theorem tensordot_does_not_overflow :
  forall (F : Type) (Sf : Scalar F) (v : F -> option Qc) (eps eta big : Qc),
    rounding v eps eta -> overflow_from v eps eta big ->
  forall lay (a b : arr F) la ra, backend_runs lay -> fused_fits v eps eta big lay -> wf a -> wf b ->
    all_elements (fun x => v x <> None) a -> all_elements (fun x => v x <> None) b ->
    length la = length ra -> axes_ok (length (a_shape a)) la -> axes_ok (length (a_shape b)) ra ->
    axis_lengths (a_shape a) la = axis_lengths (a_shape b) ra ->
    let kept := axis_lengths (a_shape a) (free_axes (length (a_shape a)) la)
                ++ axis_lengths (a_shape b) (free_axes (length (a_shape b)) ra) in
    exists r f, tensordot lay a b la ra = Ok r /\ holds r kept f
      /\ forall o, in_bounds kept o = true ->
           (grow eps (2 + prod (axis_lengths (a_shape a) la))
            * (grow eta (2 + prod (axis_lengths (a_shape a) la))
               * tensordot_value (amap (padded_of v) a) (amap (padded_of v) b) la ra o) < big)%Qc ->
           v (f o) <> None /\ close_dot v eps eta a b la ra o (f o).
Proof.
  intros F Sf v eps eta big HF HB lay a b la ra Hl Hfu Wa Wb Pa Pb Hn Ha Hb He kept.
  destruct (tensordot_rounding_error F Sf v eps eta HF lay a b la ra) as (r & f & E & Hr & Hc); auto.
  { apply fits_rounds with big; auto. }
  assert (Hz : Forall2 (related_arrays (kept_below v eps eta big)) [a; b] (map (amap (lift v)) [a; b])).
  { apply (related_amap_on _ (fun x => v x <> None)); auto. intros x Hx. apply kept_lift; auto. }
  inversion Hz as [|? ? ? ? Ra Hz']; subst. inversion Hz' as [|? ? ? ? Rb _]; subst.
  destruct (tensordot_related_weak (kept_below v eps eta big) (is_zero v) (kept_weak v eps eta big HF HB) tracked_semiring
              lay Hl (kept_fused_fits v eps eta big HF HB lay Hfu) a b _ _ la ra Wa Wb Ra Rb Hn Ha Hb)
    as (r' & f' & E' & Hr' & Hk).
  { rewrite He. auto. }
  exists r, f. split; auto. split; auto. intros o Ho Hlt. split; [|apply Hc; auto].
  assert (r' = r) by congruence. subst r'.
  assert (f' o = f o).
  { destruct Hr as (_ & _ & H1), Hr' as (_ & _ & H2). specialize (H1 o Ho). specialize (H2 o Ho). congruence. }
  specialize (Hk o Ho). rewrite H in Hk. destruct (Nat.eqb _ 0).
  - unfold is_zero in Hk. congruence.
  - apply (kept_represents_dot v eps eta big HF a b la ra o); auto.
Qed.
Print Assumptions tensordot_does_not_overflow.

Theorem float_tensordot_does_not_overflow :
  forall f (lay : backend (float f)) (a b : arr (float f)) la ra, float_backend lay -> wf a -> wf b ->
    all_elements (fun x => f_value x <> None) a -> all_elements (fun x => f_value x <> None) b ->
    length la = length ra -> axes_ok (length (a_shape a)) la -> axes_ok (length (a_shape b)) ra ->
    axis_lengths (a_shape a) la = axis_lengths (a_shape b) ra ->
    let kept := axis_lengths (a_shape a) (free_axes (length (a_shape a)) la)
                ++ axis_lengths (a_shape b) (free_axes (length (a_shape b)) ra) in
    exists r g, tensordot lay a b la ra = Ok r /\ holds r kept g
      /\ forall o, in_bounds kept o = true ->
           (grow (f_eps f) (2 + prod (axis_lengths (a_shape a) la))
            * (grow (f_eta f) (2 + prod (axis_lengths (a_shape a) la))
               * tensordot_value (amap (padded_of f_value) a) (amap (padded_of f_value) b) la ra o) < pow2 (f_emax f))%Qc ->
           f_value (g o) <> None /\ close_dot f_value (f_eps f) (f_eta f) a b la ra o (g o).
Proof.
  intros f lay a b la ra Hl. intros.
  apply (tensordot_does_not_overflow (float f) (float_scalar f) f_value (f_eps f) (f_eta f) (f_big f) (float_rounding f)
           (float_overflow f)); auto.
  - apply Hl.
  - apply float_fused_fits; auto.
Qed.
Print Assumptions float_tensordot_does_not_overflow.

(** ** Integers *)

(** If sums and products of integers up to [top] are exact and the operands stand for integers, an element
    stands for the exact tensor dot product whenever that of the absolute values, each taken to be at least one, is
    at most [top]. *)
Theorem tensordot_exact_on_integers :
  forall (F : Type) (Sf : Scalar F) (stands : F -> Z -> Prop) (top : Z), exact_to stands top ->
  forall lay (a b : arr F) (a' b' : arr Z) la ra, backend_runs lay -> fused_exact stands top lay -> wf a -> wf b ->
    related_arrays stands a a' -> related_arrays stands b b' ->
    length la = length ra -> axes_ok (length (a_shape a)) la -> axes_ok (length (a_shape b)) ra ->
    axis_lengths (a_shape a) la = axis_lengths (a_shape b) ra ->
    let kept := axis_lengths (a_shape a) (free_axes (length (a_shape a)) la)
                ++ axis_lengths (a_shape b) (free_axes (length (a_shape b)) ra) in
    exists r f, tensordot lay a b la ra = Ok r /\ holds r kept f
      /\ forall o, in_bounds kept o = true ->
           (tensordot_value (amap (fun z => Z.max 1 (Z.abs z)) a') (amap (fun z => Z.max 1 (Z.abs z)) b') la ra o <= top)%Z ->
           stands (f o) (tensordot_value a' b' la ra o).
Proof.
  intros F Sf stands top HE lay a b a' b' la ra Hl Hfu Wa Wb Ra Rb Hn Ha Hb He kept.
  pose proof (proj1 Ra) as Ea. pose proof (proj1 Rb) as Eb.
  assert (Hz : Forall2 (related_arrays (stands_below stands top)) [a; b] (map (amap with_bound) [a'; b'])).
  { apply stands_arrays. auto. }
  inversion Hz as [|? ? ? ? Sa Hz']; subst. inversion Hz' as [|? ? ? ? Sb _]; subst.
  destruct (tensordot_related_weak _ _ (stands_weak stands top HE) pair_semiring lay Hl (stands_fused stands top HE lay Hfu)
              a b _ _ la ra Wa Wb Sa Sb Hn Ha Hb) as (r & f & E & Hr & Hk).
  { rewrite He. auto. }
  exists r, f. split; auto. split; auto. intros o Ho Hlt. specialize (Hk o Ho).
  assert (V : forall x y : arr Z, a_shape x = a_shape a' -> a_shape y = a_shape b' ->
    @paired_value _ ints_scalar x y la ra o = tensordot_value x y la ra o).
  { intros x y Ex Ey. apply (@paired_value_sum _ ints_scalar ints_semiring); rewrite ?Ex, ?Ey, <- ?Ea, <- ?Eb; auto. }
  destruct (Nat.eqb_spec (prod (axis_lengths (a_shape a) la)) 0) as [E0|E0].
  - rewrite <- (V a' b') by auto. unfold paired_value. rewrite <- Ea, E0. exact Hk.
  - rewrite with_bound_paired in Hk. destruct Hk as (_ & _ & H). cbn [fst snd] in H.
    rewrite !V in H by auto. auto.
Qed.
Print Assumptions tensordot_exact_on_integers.

Theorem float_tensordot_exact_on_integers :
  forall f (lay : backend (float f)) (a b : arr (float f)) (a' b' : arr Z) la ra, float_backend lay -> wf a -> wf b ->
    related_arrays f_stands a a' -> related_arrays f_stands b b' ->
    length la = length ra -> axes_ok (length (a_shape a)) la -> axes_ok (length (a_shape b)) ra ->
    axis_lengths (a_shape a) la = axis_lengths (a_shape b) ra ->
    let kept := axis_lengths (a_shape a) (free_axes (length (a_shape a)) la)
                ++ axis_lengths (a_shape b) (free_axes (length (a_shape b)) ra) in
    exists r g, tensordot lay a b la ra = Ok r /\ holds r kept g
      /\ forall o, in_bounds kept o = true ->
           (tensordot_value (amap (fun z => Z.max 1 (Z.abs z)) a') (amap (fun z => Z.max 1 (Z.abs z)) b') la ra o
            <= 2 ^ f_prec f)%Z ->
           f_stands (g o) (tensordot_value a' b' la ra o).
Proof.
  intros f lay a b a' b' la ra Hl. intros.
  apply (tensordot_exact_on_integers (float f) (float_scalar f) f_stands (2 ^ f_prec f) (float_exact f)); auto.
  - apply Hl.
  - apply float_fused_exact; auto.
Qed.
Print Assumptions float_tensordot_exact_on_integers.

(** ** Cases *)

(** Two matrices over f64, contracted along the rows of the first and the columns of the second. *)
Example float_tensordot_case :
  let a' := zarr [2; 2] [3; -4; 0; 1000003]%Z in
  let b' := zarr [2; 2] [5; 7; 1; -2]%Z in
  let a := farr f64 [2; 2] [3; -4; 0; 1000003]%Z in
  let b := farr f64 [2; 2] [5; 7; 1; -2]%Z in
  float_backend (float_fma_backend f64) /\ wf a /\ wf b
  /\ related_arrays f_stands a a' /\ related_arrays f_stands b b'
  /\ axes_ok 2 [0] /\ axes_ok 2 [1] /\ axis_lengths (a_shape a) [0] = axis_lengths (a_shape b) [1]
  /\ (forall o, In o (indices [2; 2]) ->
        (tensordot_value (amap (fun z => Z.max 1 (Z.abs z)) a') (amap (fun z => Z.max 1 (Z.abs z)) b') [0%nat] [1%nat] o <= 2 ^ 53)%Z)
  /\ (do r <- tensordot (float_fma_backend f64) a b [0] [1]; do l <- a_iter r; Ok (map (@proj1_sig _ _) l))
     = Ok (map (fun z => proj1_sig (f_of f64 z 0)) [15; 3; 7000001; -2000010]%Z)
  /\ map (tensordot_value a' b' [0] [1]) (indices [2; 2]) = [15; 3; 7000001; -2000010]%Z.
Proof.
  split; [apply float_fma_backend_ok|]. split; [apply wf_b_ok; reflexivity|]. split; [apply wf_b_ok; reflexivity|].
  split; [apply farr_stands; try (apply wf_b_ok; reflexivity); repeat constructor; vm_compute; discriminate|].
  split; [apply farr_stands; try (apply wf_b_ok; reflexivity); repeat constructor; vm_compute; discriminate|].
  split; [split; [repeat constructor; simpl; tauto|repeat constructor; simpl; lia]|].
  split; [split; [repeat constructor; simpl; tauto|repeat constructor; simpl; lia]|].
  split; [reflexivity|].
  split; [intros o Ho; cbn in Ho; destruct Ho as [<-|[<-|[<-|[<-|[]]]]]; vm_compute; discriminate|].
  split; vm_compute; reflexivity.
Qed.

(** A case of the bound: sixteen is not reached. *)
Example float_tensordot_fits_case :
  let a := farr tiny [1] [1]%Z in
  let b := farr tiny [1] [-2]%Z in
  wf a /\ wf b
  /\ all_elements (fun x => f_value x <> None) a /\ all_elements (fun x => f_value x <> None) b
  /\ axes_ok 1 [0%nat] /\ axis_lengths (a_shape a) [0%nat] = axis_lengths (a_shape b) [0%nat]
  /\ (grow (f_eps tiny) (2 + prod (axis_lengths (a_shape a) [0%nat]))
      * (grow (f_eta tiny) (2 + prod (axis_lengths (a_shape a) [0%nat]))
         * tensordot_value (amap (padded_of f_value) a) (amap (padded_of f_value) b) [0%nat] [0%nat] []) < pow2 (f_emax tiny))%Qc
  /\ (do r <- tensordot (plain_backend (A := float tiny)) a b [0%nat] [0%nat]; do l <- a_iter r; Ok (map f_value l))
     = Ok [Some (of_Z (-2))].
Proof.
  split; [apply wf_b_ok; reflexivity|]. split; [apply wf_b_ok; reflexivity|].
  split; [apply farr_elements; repeat constructor; discriminate|].
  split; [apply farr_elements; repeat constructor; discriminate|].
  split; [split; [repeat constructor; simpl; tauto|repeat constructor; simpl; lia]|].
  split; [reflexivity|]. split; [vm_compute; reflexivity|].
  vm_compute. f_equal. f_equal. f_equal. apply Qc_is_canon. reflexivity.
Qed.

(** Not-a-number: zero does not absorb, and the tensor dot product is still exact. *)
Example near_tensordot_case :
  let a := narr [2; 2] [Some 1; None; Some 2; Some 3]%Z in
  let b := narr [2] [Some 0; Some 4]%Z in
  wf a /\ wf b /\ axes_ok 2 [1] /\ axes_ok 1 [0] /\ axis_lengths (a_shape a) [1] = axis_lengths (a_shape b) [0]
  /\ @near_semiring (option Z) nan_scalar
  /\ (do r <- tensordot (@plain_backend _ nan_scalar) a b [1] [0]; a_iter r) = Ok [None; Some 12]%Z
  /\ map (@tensordot_value _ nan_scalar a b [1] [0]) (indices [2]) = [None; Some 12]%Z.
Proof.
  split; [apply wf_b_ok; reflexivity|]. split; [apply wf_b_ok; reflexivity|].
  split; [split; [repeat constructor; simpl; tauto|repeat constructor; simpl; lia]|].
  split; [split; [repeat constructor; simpl; tauto|repeat constructor; simpl; lia]|].
  split; [reflexivity|]. split; [apply nan_near|]. split; vm_compute; reflexivity.
Qed.
