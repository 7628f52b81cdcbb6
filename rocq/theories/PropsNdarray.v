(** ndarray's own choices (C72): they are among those the theorems allow, and with them more can be said
    of arithmetic without laws, such as that of floating-point numbers. *)
From Verif Require Import Base BaseFacts NDArray Validation Singleton Pair Path Api Spec ParserFacts ValidationMain SumFacts
  ArrayFacts TensordotFacts TensordotMain EinsumMain EinsumProps RelationFacts ParamFacts Schedule GradeFacts
  DiagFacts DiagAnyFacts DiagMemFacts NdSchedule NdScheduleFacts NdLayoutFacts FloatFacts FloatMain Examples PropsEinsum PropsData PropsFloat.
From Coq Require Import Lia ZArith SpecFloat.
From Coq Require String.
Import String.StringSyntax.
Local Open Scope string_scope.
Local Open Scope list_scope.
Local Open Scope nat_scope.

(** The layouts and sums of ndarray 0.15, multiplying matrices by [m]. *)
Definition ndarray {A : Type} {Sc : Scalar A} (m : multiplier) (fma : A -> A -> A -> A) : backend A :=
  follow (nd_schedule m) fma.

(** Whatever the scalars, ndarray's choices meet the assumption of every theorem about backends. *)
Theorem ndarray_is_a_backend :
  forall m, schedule_ok (nd_schedule m) /\ adds_every_term (nd_schedule m)
    /\ (forall (A : Type) (Sc : Scalar A) fma, backend_runs (ndarray m fma))
    /\ (forall (A : Type) (Sc : Scalar A) fma, (forall a b c, fma a b c = sadd (smul a b) c) -> backend_ok (ndarray m fma))
    /\ forall f, float_backend (ndarray (A := float f) m f_fma).
Proof.
  intros m. split; [intros A Sc fma; apply nd_runs|]. split; [intros A Sc fma; apply nd_runs|].
  split; [intros A Sc fma; apply nd_runs|]. split.
  - intros A Sc fma H. constructor; [apply nd_runs|auto].
  - intros f. split; [apply nd_runs|right; reflexivity].
Qed.
Print Assumptions ndarray_is_a_backend.

(** So a call over exact scalars is correct with them. *)
Theorem einsum_outcome_on_ndarray :
  forall (A : Type) (Sc : Scalar A), semiring A ->
  forall m h s arrays ops out size, hash_ok h ->
    call_ok s (map (@a_shape A) arrays) ops out size -> Forall wf arrays ->
    outcome_is (einsum h (ndarray m (fun a b c => sadd (smul a b) c)) s arrays) size arrays ops out.
Proof.
  intros A Sc SR m h s arrays ops out size Hh Hc Hw. apply einsum_outcome_on_every_well_formed_call; auto.
  apply (ndarray_is_a_backend m). auto.
Qed.
Print Assumptions einsum_outcome_on_ndarray.

(** ** Layouts *)

(** A copy of a contiguous array has its strides; other copies are as they were made, row-major. *)
Theorem copies_keep_the_layout :
  forall (A : Type) (Sc : Scalar A) m fma op (t a : arr A), op = LToOwned \/ op = LIntoOwned \/ op = LMapv ->
    wf t -> wf a -> a_shape a = a_shape t -> ~ In 0 (a_shape t) ->
    (is_contiguous t = true -> a_strides (ndarray m fma op [t] a) = a_strides t)
    /\ (is_contiguous t = false -> ndarray m fma op [t] a = a).
Proof.
  intros A Sc m fma op t a Hop Wt Wa Es Hz.
  assert (E : ndarray m fma op [t] a = amap (fun p => nth p (a_data a) szero) (copied (frame t) (frame a)))
    by (destruct Hop as [->|[->| ->]]; reflexivity).
  rewrite E. unfold copied. change (is_contiguous (frame t)) with (is_contiguous t). split; intros Hc; rewrite Hc.
  - cbn [amap a_strides]. change (a_strides (frame t)) with (a_strides t). apply with_strides_taken; auto.
    + rewrite Es. apply Wt.
    + rewrite Es. intros q Hq. apply place_index; auto. apply Wt.
  - apply unmoved_follows.
Qed.
Print Assumptions copies_keep_the_layout.

(** The result of an element-wise product is column-major if both factors are, row-major if both are. *)
Theorem products_keep_the_layout :
  forall (A : Type) (Sc : Scalar A) m fma (t1 t2 a : arr A),
    wf a -> a_shape t1 = a_shape a -> a_shape t2 = a_shape a -> 2 <= length (a_shape a) -> ~ In 0 (a_shape a) -> ~ In 1 (a_shape a) ->
    (a_strides t1 = fortran_strides (a_shape a) -> a_strides t2 = fortran_strides (a_shape a) ->
     a_strides (ndarray m fma LMul [t1; t2] a) = fortran_strides (a_shape a))
    /\ (a_strides t1 = default_strides (a_shape a) -> a_strides t2 = default_strides (a_shape a) ->
        ndarray m fma LMul [t1; t2] a = a).
Proof.
  intros A Sc m fma t1 t2 a Wa E1 E2 Hn H0 H1.
  assert (Es : list_nat_eqb (a_shape t1) (a_shape t2) = true) by (apply list_nat_eqb_eq; congruence).
  assert (E : ndarray m fma LMul [t1; t2] a
              = amap (fun p => nth p (a_data a) szero) (collected [frame t1; frame t2] (frame a))).
  { transitivity (amap (fun p => nth p (a_data a) szero) (collected (factors (frame t1) (frame t2)) (frame a))); [reflexivity|].
    unfold factors.
    change (a_shape (frame t1)) with (a_shape t1). change (a_shape (frame t2)) with (a_shape t2). rewrite Es. reflexivity. }
  assert (Ef : fortran_strides (a_shape a) = f_strides 1 (a_shape a)).
  { unfold fortran_strides. rewrite (proj2 (is_empty_In (a_shape a))); auto. intros d Hd ->. auto. }
  rewrite E. unfold collected, prefers_f. cbn [forallb fold_right]. split; intros S1 S2.
  - rewrite !fortran_flags; cbn [frame amap a_shape a_strides]; rewrite ?E1, ?E2; try rewrite <- Ef; auto.
    cbn [fst snd andb negb orb amap a_strides]. rewrite fortran_taken; auto.
  - assert (F : forall t : arr A, a_shape t = a_shape a -> a_strides t = default_strides (a_shape a) ->
                is_standard_layout (frame t) = true).
    { intros t Et St. unfold frame, amap. rewrite Et, St. apply default_standard. }
    unfold layout_flags at 1 2. rewrite !F by auto.
    destruct (_ || _)%bool, (_ || _)%bool; cbn [fst snd andb negb orb]; apply unmoved_follows.
Qed.
Print Assumptions products_keep_the_layout.

(** A sum along an axis is row-major, however the array is stored, as long as the axes are longer than one
    and no two have the same stride or the stride zero (as a broadcast axis does). *)
Theorem sums_are_row_major :
  forall (A : Type) (Sc : Scalar A) m fma ax (t a : arr A),
    ax < length (a_strides t) -> length (a_strides t) = length (a_shape t) -> ~ In 1 (a_shape t) ->
    ~ In 0%Z (a_strides t) -> NoDup (map Z.abs (a_strides t)) ->
    ndarray m fma (LSumAxis ax) [t] a = a.
Proof.
  intros A Sc m fma ax t a Hax El H1 H0 Hn.
  transitivity (amap (fun p => nth p (a_data a) szero)
    (if Nat.eqb ax (min_stride_axis (a_strides t))
     then collected [mkArr (map (fun _ => tt) (a_data t)) (a_off t) (remove_nth ax (a_shape t)) (remove_nth ax (a_strides t))] (frame a)
     else unmoved (frame a))); [reflexivity|].
  destruct (Nat.eqb_spec ax (min_stride_axis (a_strides t))) as [E|E]; [|apply unmoved_follows].
  assert (Hne : a_strides t <> []) by (intros E'; rewrite E' in Hax; simpl in Hax; lia).
  destruct (min_stride_axis_ok (a_strides t) Hne) as (_ & M & _). rewrite <- E in M.
  assert (Big : forall z, In z (remove_nth ax (a_strides t)) -> z <> 1%Z).
  { intros z Hz ->. destruct (nth_split (a_strides t) 0%Z Hax) as (l1 & l2 & Es & Hl).
    assert (Er : remove_nth ax (a_strides t) = l1 ++ l2) by (rewrite Es at 1; rewrite <- Hl; apply remove_nth_app).
    rewrite Er in Hz. set (s := nth ax (a_strides t) 0%Z) in *.
    rewrite Es in Hn. rewrite map_app in Hn. cbn [map] in Hn. apply NoDup_remove_2 in Hn. rewrite <- map_app in Hn.
    assert (Hs : s <> 0%Z) by (intros E0; apply H0; rewrite Es, E0; apply in_or_app; simpl; auto).
    assert (Hin : In 1%Z (a_strides t)) by (rewrite Es; apply in_app_or in Hz; apply in_or_app; simpl; tauto).
    destruct (In_nth _ _ 0%Z Hin) as (k & Hk & Ek). specialize (M k Hk). rewrite Ek in M.
    apply Hn. apply in_map_iff. exists 1%Z. split; auto. lia. }
  assert (Hsh : ~ In 1 (remove_nth ax (a_shape t))).
  { assert (Hax' : ax < length (a_shape t)) by lia. destruct (nth_split (a_shape t) 0 Hax') as (l1 & l2 & Es & Hl).
    assert (Er : remove_nth ax (a_shape t) = l1 ++ l2) by (rewrite Es at 1; rewrite <- Hl; apply remove_nth_app).
    rewrite Er. intros Hi. apply H1. rewrite Es. apply in_app_or in Hi. apply in_or_app. simpl; tauto. }
  assert (Elr : length (remove_nth ax (a_strides t)) = length (remove_nth ax (a_shape t))).
  { clear - El. revert ax. generalize dependent (a_shape t).
    induction (a_strides t) as [|z l IH]; intros [|d sh] E ax; try discriminate; destruct ax; simpl in *; auto. }
  unfold collected.
  replace (prefers_f _) with false; [apply unmoved_follows|]. symmetry.
  set (st := remove_nth ax (a_strides t)) in *. set (sh := remove_nth ax (a_shape t)) in *.
  unfold prefers_f. cbn [forallb fold_right]. unfold layout_flags. cbn [a_shape a_strides a_data a_off].
  destruct (is_standard_layout _) eqn:Est; [destruct (_ || _)%bool; reflexivity|].
  destruct (Nat.ltb_spec 1 (length sh)) as [Hl|Hl]; [|reflexivity].
  destruct (is_standard_layout (mkArr _ _ (rev sh) (rev st))) eqn:Ert.
  - exfalso. unfold is_standard_layout in Est, Ert. cbn [a_shape a_strides] in Est, Ert. rewrite !rev_involutive in Ert.
    apply orb_false_iff in Est as [Est _].
    apply orb_prop in Ert as [Ert|Ert].
    + unfold is_empty_shape in Est, Ert. apply existsb_exists in Ert as (d & Hd & Ed). apply in_rev in Hd.
      assert (existsb (Nat.eqb 0) sh = true) by (apply existsb_exists; eauto). congruence.
    + destruct sh as [|d sh']; [simpl in Hl; lia|]. destruct st as [|z st']; [discriminate|]. cbn [layout_c_rev] in Ert.
      destruct (Nat.eqb_spec d 1) as [->|Hd]; [apply Hsh; simpl; auto|].
      destruct (Z.eqb_spec z 1) as [->|Hz]; [|discriminate]. apply (Big 1%Z); simpl; auto.
  - destruct (Z.eqb_spec (nth 0 st 0%Z) 1) as [Ez|Ez].
    + exfalso. apply (Big (nth 0 st 0%Z)); auto. apply nth_In. lia.
    + destruct (Z.eqb_spec (nth (length sh - 1) st 0%Z) 1) as [Ez'|Ez']; [|reflexivity].
      exfalso. apply (Big (nth (length sh - 1) st 0%Z)); auto. apply nth_In. lia.
Qed.
Print Assumptions sums_are_row_major.

(** Three axes stored by columns, summed along each. *)
Example sum_layout_case :
  let fma := fun a b c : Z => sadd (smul a b) c in
  let t := mkArr (map Z.of_nat (seq 0 24)) 0%Z [2; 3; 4] [1; 2; 6]%Z in
  (length (a_strides t) = length (a_shape t) /\ ~ In 1 (a_shape t) /\ ~ In 0%Z (a_strides t) /\ NoDup (map Z.abs (a_strides t)))
  /\ map (fun ax => do r <- sum_axis (ndarray General fma) t ax; Ok (a_strides r)) [0; 1; 2] = [Ok [4; 1]; Ok [4; 1]; Ok [3; 1]]%Z.
Proof.
  cbv zeta. split; [|reflexivity]. split; [reflexivity|]. split; [simpl; intuition discriminate|].
  split; [simpl; intuition discriminate|]. repeat constructor; simpl; intuition discriminate.
Qed.

(** ** Sums *)

(** How a sum along an axis is added up: in eight interleaved sums along the axis of smallest stride (the
    last of them) if that stride is one, otherwise from the left. *)
Theorem sums_add_in_order :
  forall (A : Type) (Sc : Scalar A) m fma ax (a : arr A) idx xs, ax < length (a_strides a) -> xs <> [] ->
    let st k := Z.abs (nth k (a_strides a) 0%Z) in
    let fastest := (forall k, k < length (a_strides a) -> (st ax <= st k)%Z)
                   /\ (forall k, ax < k < length (a_strides a) -> (st ax < st k)%Z) in
    let sum := add_up (ndarray m fma) ax a idx xs in
    let eighth i := fold_left sadd (map (fun k => nth (8 * k + i) xs szero) (seq 0 (length xs / 8))) szero in
    (~ fastest -> sum = fold_left sadd xs szero)
    /\ (fastest -> nth ax (a_strides a) 0%Z <> 1%Z -> sum = sadd szero (fold_left sadd xs szero))
    /\ (fastest -> nth ax (a_strides a) 0%Z = 1%Z ->
        sum = fold_left sadd (skipn (8 * (length xs / 8)) xs)
                (sadd (sadd (sadd (sadd szero (sadd (eighth 0) (eighth 4))) (sadd (eighth 1) (eighth 5)))
                   (sadd (eighth 2) (eighth 6))) (sadd (eighth 3) (eighth 7)))).
Proof.
  intros A Sc m fma ax a idx xs Hax Hxs st fastest sum eighth'. unfold sum, ndarray. rewrite nd_sums.
  assert (Hne : a_strides a <> []) by (intros E; rewrite E in Hax; simpl in Hax; lia).
  destruct (min_stride_axis_ok (a_strides a) Hne) as (M1 & M2 & M3).
  assert (U : fastest -> ax = min_stride_axis (a_strides a)).
  { intros [F1 F2]. unfold st in F1, F2. destruct (Nat.lt_trichotomy ax (min_stride_axis (a_strides a))) as [L|[E|L]]; auto.
    - specialize (F2 _ (conj L M1)). specialize (M2 ax Hax). lia.
    - specialize (M3 _ (conj L Hax)). specialize (F1 _ M1). lia. }
  assert (L1 : default_strides [length xs] = [1%Z]).
  { unfold default_strides, is_empty_shape. destruct xs; [congruence|reflexivity]. }
  unfold axis_sum. split; [|split].
  - intros Hn. destruct (Nat.eqb_spec ax (min_stride_axis (a_strides a))) as [->|]; auto. exfalso. apply Hn. split; auto.
  - intros F Hs. rewrite (proj2 (Nat.eqb_eq _ _) (U F)). unfold lane_sum. rewrite L1. simpl.
    rewrite (proj2 (Z.eqb_neq _ _) Hs). auto.
  - intros F Hs. rewrite (proj2 (Nat.eqb_eq _ _) (U F)). unfold lane_sum. rewrite L1, Hs. simpl list_Z_eqb. cbv iota.
    apply unrolled_is.
Qed.
Print Assumptions sums_add_in_order.

(** How the products of a matrix multiplication are added up: by ndarray one after the other, by
    matrixmultiply in blocks, of which only the last may be short. *)
Theorem multipliers_add_in_order :
  forall (A : Type) (Sc : Scalar A) (fma : A -> A -> A -> A) (l : list (A * A)),
    matrix_sum General fma l
    = sadd (smul szero szero) (smul sone (fold_left (fun s p => sadd s (smul (fst p) (snd p))) l szero))
    /\ forall kc fused,
       let block b := fold_left (fun s p => if fused : bool then fma (fst p) (snd p) s else sadd s (smul (fst p) (snd p))) b szero in
       (l = [] -> matrix_sum (Gemm kc fused) fma l = szero)
       /\ forall first rest, l = concat (first :: rest) ->
          Forall (fun b => length b = S kc) (removelast (first :: rest)) ->
          Forall (fun b => b <> [] /\ length b <= S kc) (first :: rest) ->
          matrix_sum (Gemm kc fused) fma l
          = fold_left (fun c b => if fused then fma sone (block b) c else sadd c (smul sone (block b))) rest
              (smul sone (block first)).
Proof.
  intros A Sc fma l. split; [reflexivity|]. intros kc u block. split; [intros ->; reflexivity|].
  intros first rest -> Hf Hb. apply (gemm_is fma u kc first rest Hf Hb).
Qed.
Print Assumptions multipliers_add_in_order.

Example order_case :
  let xs := map Z.of_nat (seq 0 19) in
  let a := zarr [2; 19] (repeat 0%Z 38) in
  let l := map (fun k => (k, 1%Z)) xs in
  let bs := [firstn 8 l; firstn 8 (skipn 8 l); skipn 16 l] in
  (forall k, k < 2 -> (Z.abs 1 <= Z.abs (nth k (a_strides a) 0))%Z) /\ nth 1 (a_strides a) 0%Z = 1%Z
  /\ add_up (ndarray General (fun a b c => a * b + c)%Z) 1 a [0] xs = 171%Z
  /\ l = concat bs /\ Forall (fun b => length b = 8) (removelast bs) /\ Forall (fun b => b <> [] /\ length b <= 8) bs
  /\ matrix_sum (Gemm 7 true) (fun a b c => a * b + c)%Z l = 171%Z.
Proof.
  cbv zeta. split.
  { intros k Hk. destruct k as [|[|k]]; simpl; lia. }
  split; [reflexivity|]. split; [reflexivity|]. split; [reflexivity|].
  split; [repeat constructor|]. split; [|reflexivity].
  repeat constructor; try (simpl; lia); discriminate.
Qed.

(** With any scalars at all, an element of a tensor dot product is the sum of its products in row-major
    order of the summed axes, added up the way the multiplier does. *)
Theorem tensordot_adds_in_order :
  forall (A : Type) (Sc : Scalar A) m fma (a b : arr A) la ra, wf a -> wf b ->
    length la = length ra -> axes_ok (length (a_shape a)) la -> axes_ok (length (a_shape b)) ra ->
    axis_lengths (a_shape a) la = axis_lengths (a_shape b) ra ->
    let fa := free_axes (length (a_shape a)) la in
    let fb := free_axes (length (a_shape b)) ra in
    exists r, tensordot (ndarray m fma) a b la ra = Ok r
      /\ holds r (axis_lengths (a_shape a) fa ++ axis_lengths (a_shape b) fb) (fun o =>
           matrix_sum m fma (map (fun z =>
             (elem a (place (length (a_shape a)) (fa ++ la) (firstn (length fa) o ++ z)),
              elem b (place (length (a_shape b)) (fb ++ ra) (skipn (length fa) o ++ z))))
             (indices (axis_lengths (a_shape a) la)))).
Proof.
  intros A Sc m fma a b la ra Wa Wb Hl Ha Hb He fa fb.
  destruct (tensordot_exact (ndarray m fma) (nd_runs m fma) (matrix_sum m fma) (nd_products m fma) a b la ra Wa Wb Hl Ha Hb)
    as (r & w & E & Hr & Hw).
  { rewrite He. auto. }
  exists r. split; auto. eapply ArrayFacts.holds_ext; [|exact Hr]. intros o Ho. rewrite (Hw o Ho). f_equal.
  unfold paired_terms. fold fa fb. rewrite <- He, <- map_unflat, map_map. apply map_ext_in. intros t Ht. apply in_seq in Ht.
  f_equal. f_equal. apply place_swap.
  - intros k Hk Hk'. apply free_axes_In in Hk'. tauto.
  - assert (Hz : in_bounds (axis_lengths (a_shape a) la) (unflat (axis_lengths (a_shape a) la) t) = true)
      by (apply unflat_in_bounds; lia).
    apply in_bounds_length in Hz. unfold axis_lengths in Hz |- *. rewrite map_length in Hz. lia.
  - apply in_bounds_length in Ho. unfold axis_lengths in Ho. rewrite app_length, !map_length in Ho.
    fold fa fb in Ho. rewrite skipn_length. lia.
  - intros k Hk. unfold fb. rewrite free_axes_In. destruct (in_dec Nat.eq_dec k ra); auto.
Qed.
Print Assumptions tensordot_adds_in_order.

(** So equal operands give the same result to the last bit, however they are stored. *)
Theorem tensordot_ignores_layout :
  forall (A : Type) (Sc : Scalar A) m fma (a b a' b' : arr A) la ra,
    wf a -> wf b -> wf a' -> wf b' -> same_array a a' -> same_array b b' ->
    same_outcome (tensordot (ndarray m fma) a b la ra) (tensordot (ndarray m fma) a' b' la ra).
Proof.
  intros A Sc m fma a b a' b' la ra Wa Wb Wa' Wb' Sa Sb.
  assert (Ea : forall idx, elem a idx = elem a' idx).
  { intros idx. destruct Sa as [Es Sa]. unfold elem. destruct (in_bounds (a_shape a) idx) eqn:Bi.
    - rewrite (Sa idx Bi). auto.
    - unfold a_get. rewrite <- Es, Bi. auto. }
  assert (Eb : forall idx, elem b idx = elem b' idx).
  { intros idx. destruct Sb as [Es Sb]. unfold elem. destruct (in_bounds (a_shape b) idx) eqn:Bi.
    - rewrite (Sb idx Bi). auto.
    - unfold a_get. rewrite <- Es, Bi. auto. }
  destruct Sa as [Esa Sa]. destruct Sb as [Esb Sb].
  destruct (tensordot_on_all_inputs (ndarray m fma) (nd_runs m fma) a b la ra Wa Wb) as [(H1 & H2 & H3 & H4 & _)|[Hn E]].
  - destruct (tensordot_exact (ndarray m fma) (nd_runs m fma) (matrix_sum m fma) (nd_products m fma) a b la ra Wa Wb H1 H2 H3 H4)
      as (r & w & -> & Hr & Hw).
    rewrite Esa in H2, H4. rewrite Esb in H3, H4.
    destruct (tensordot_exact (ndarray m fma) (nd_runs m fma) (matrix_sum m fma) (nd_products m fma) a' b' la ra Wa' Wb' H1 H2 H3 H4)
      as (r' & w' & -> & Hr' & Hw').
    rewrite Esa, Esb in Hr, Hw. simpl. split; [transitivity (a_shape r'); [|reflexivity]; rewrite (proj1 Hr), (proj1 Hr'); auto|].
    intros idx Hi. rewrite (proj1 Hr) in Hi.
    rewrite (proj2 (proj2 Hr) idx Hi), (proj2 (proj2 Hr') idx Hi). f_equal. rewrite (Hw idx Hi), (Hw' idx Hi). f_equal.
    unfold paired_terms. rewrite Esa, Esb. apply map_ext. intros t. rewrite Ea, Eb. auto.
  - rewrite E. destruct (tensordot_on_all_inputs (ndarray m fma) (nd_runs m fma) a' b' la ra Wa' Wb') as [(H1 & H2 & H3 & H4 & _)|[_ E']].
    + exfalso. apply Hn. rewrite Esa, Esb. auto.
    + rewrite E'. simpl. auto.
Qed.
Print Assumptions tensordot_ignores_layout.

(** ** What does depend on the layout *)

(** A one and fifteen halves of its last place. *)
Definition last_places (i : nat) : float f64 := if Nat.eqb i 0 then f_of f64 1 0 else f_of f64 1 (-53).

(** One after the other: sixteen contiguous numbers. *)
Definition dense : arr (float f64) := mkArr (map last_places (seq 0 16)) 0 [16] [1%Z].

(** Two apart: the same numbers with sevens between them. *)
Definition sparse : arr (float f64) :=
  mkArr (flat_map (fun i => [last_places i; f_of f64 7 0]) (seq 0 16)) 0 [16] [2%Z].

(** [einsum] is not like that: ndarray adds a lane in eight sums if it is contiguous and in one if it is
    not, so equal operands can give results that differ. *)
Theorem einsum_ignores_layout_refuted :
  ~ (forall m h s (arrays arrays' : list (arr (float f64))) r r', hash_ok h ->
       Forall wf arrays -> Forall wf arrays' -> Forall2 same_array arrays arrays' ->
       einsum h (ndarray m f_fma) s arrays = Ok r -> einsum h (ndarray m f_fma) s arrays' = Ok r' ->
       same_array r r').
Proof.
  intros C. set (lay := ndarray (A := float f64) General f_fma).
  assert (V : forall a z, (do r <- einsum id_hash lay (chars "i->") [a]; do l <- a_iter r; Ok (map (@proj1_sig _ _) l)) = Ok [z] ->
              exists r x, einsum id_hash lay (chars "i->") [a] = Ok r /\ a_iter r = Ok [x] /\ proj1_sig x = z).
  { intros a z H. destruct (einsum _ _ _ _) as [r| |]; cbn [rbind] in H; try discriminate.
    destruct (a_iter r) as [l| |] eqn:El; cbn [rbind] in H; try discriminate. injection H as H.
    destruct l as [|x [|y l]]; try discriminate. injection H as H. exists r, x. auto. }
  destruct (V dense (S754_finite false 4503599627370503 (-52))) as (r & x & Er & Ex & Vx); [vm_compute; reflexivity|].
  destruct (V sparse (S754_finite false 4503599627370496 (-52))) as (r' & x' & Er' & Ex' & Vx'); [vm_compute; reflexivity|].
  assert (Hsame : same_array dense sparse).
  { split; [reflexivity|]. intros idx Hi. assert (H : In idx (indices [16])) by (apply indices_In; auto). clear Hi.
    simpl in H. repeat (destruct H as [<-|H]; [reflexivity|]). contradiction. }
  destruct (C General id_hash (chars "i->") [dense] [sparse] r r') as [Es Hg]; auto.
  - apply id_hash_ok.
  - constructor; [|constructor]. apply wf_b_ok. reflexivity.
  - constructor; [|constructor]. apply wf_b_ok. reflexivity.
  - assert (E : a_iter r = a_iter r').
    { unfold a_iter. rewrite <- Es. apply mapM_ext. intros idx Hi. apply Hg, indices_In; auto. }
    rewrite Ex, Ex' in E. injection E as ->. rewrite Vx in Vx'. discriminate.
Qed.
Print Assumptions einsum_ignores_layout_refuted.

(** Both are within the bound of [PropsFloat.v], being sums of the same numbers; with exact scalars there
    is no difference. *)
Example same_exact_sums :
  let a := zarr [16] (map Z.of_nat (seq 0 16)) in
  let b := mkArr (flat_map (fun i => [Z.of_nat i; 7%Z]) (seq 0 16)) 0%Z [16] [2%Z] in
  call_ok (chars "i->") [[16]] [chars "i"] [] (size_fn (combine (chars "i") [16])) /\ wf a /\ wf b
  /\ (do r <- einsum id_hash (ndarray General (fun a b c => sadd (smul a b) c)) (chars "i->") [a]; a_iter r) = Ok [120%Z]
  /\ (do r <- einsum id_hash (ndarray General (fun a b c => sadd (smul a b) c)) (chars "i->") [b]; a_iter r) = Ok [120%Z].
Proof.
  cbv zeta. split; [apply check_call_ok; check_call_tac|]. split; [apply wf_b_ok; reflexivity|].
  split; [apply wf_b_ok; reflexivity|]. split; reflexivity.
Qed.

(** A matrix product with [ndarray]'s loop and with fused blocks of two. *)
Example ndarray_case :
  let a := zarr [2; 3] [1; 2; 3; 4; 5; 6]%Z in
  let b := zarr [3; 2] [1; 0; -1; 2; 3; 1]%Z in
  let fma := fun a b c : Z => sadd (smul a b) c in
  call_ok (chars "ij,jk->ik") [[2; 3]; [3; 2]] [chars "ij"; chars "jk"] (chars "ik") (size_fn (combine (chars "ijk") [2; 3; 2]))
  /\ Forall wf [a; b]
  /\ (do r <- einsum id_hash (ndarray General fma) (chars "ij,jk->ik") [a; b]; a_iter r) = Ok [8; 7; 17; 16]%Z
  /\ (do r <- einsum id_hash (ndarray (Gemm 1 true) fma) (chars "ij,jk->ik") [a; b]; a_iter r) = Ok [8; 7; 17; 16]%Z.
Proof.
  cbv zeta. split; [apply check_call_ok; check_call_tac|]. split; [apply wfs_b_ok; reflexivity|]. split; reflexivity.
Qed.

(** A copy of a transposed matrix is transposed too, one of every other column is row-major; the product
    of two transposed matrices is transposed. *)
Example layout_case :
  let fma := fun a b c : Z => sadd (smul a b) c in
  let a := zarr [2; 3] [1; 2; 3; 4; 5; 6]%Z in
  let t := mkArr [1; 4; 2; 5; 3; 6]%Z 0%Z [2; 3] [1; 2]%Z in
  let u := mkArr [1; 0; 2; 0; 3; 0; 4; 0; 5; 0; 6; 0]%Z 0%Z [2; 3] [6; 2]%Z in
  wf t /\ wf u /\ wf a /\ is_contiguous t = true /\ is_contiguous u = false
  /\ ndarray General fma LToOwned [t] a = t /\ ndarray General fma LToOwned [u] a = a
  /\ a_strides t = fortran_strides [2; 3] /\ ndarray General fma LMul [t; t] a = t.
Proof.
  cbv zeta. split; [apply wf_b_ok; reflexivity|]. split; [apply wf_b_ok; reflexivity|].
  split; [apply wf_b_ok; reflexivity|]. repeat split.
Qed.

(** Rounded products whose sum depends on the order of addition: the same for both layouts of an
    operand, but not for both multipliers. *)
Example tensordot_order_case :
  let big := f_of f64 1 53 in
  let one := f_of f64 1 0 in
  let a := mkArr [big; one; one; one; one; one; one; one] 0%Z [2; 4] [4; 1]%Z in
  let a' := mkArr [big; one; one; one; one; one; one; one] 0%Z [2; 4] [1; 2]%Z in
  let b := mkArr [one; one; one; one] 0%Z [4] [1%Z] in
  let run m x := do r <- tensordot (ndarray m f_fma) x b [1] [0]; do l <- a_iter r; Ok (map (@proj1_sig _ _) l) in
  let numbers l := Ok (map (fun z => proj1_sig (f_of f64 z 0)) l) in
  wf a /\ wf a' /\ wf b /\ same_array a a' /\ axes_ok 2 [1] /\ axes_ok 1 [0]
  /\ run General a = numbers [2 ^ 53; 4]%Z /\ run General a' = numbers [2 ^ 53; 4]%Z
  /\ run (Gemm 1 false) a = numbers [2 ^ 53 + 2; 4]%Z /\ run (Gemm 1 false) a' = numbers [2 ^ 53 + 2; 4]%Z.
Proof.
  cbv zeta. split; [apply wf_b_ok; reflexivity|]. split; [apply wf_b_ok; reflexivity|]. split; [apply wf_b_ok; reflexivity|].
  split.
  { split; [reflexivity|]. intros idx Hi. apply indices_In in Hi. simpl in Hi.
    repeat (destruct Hi as [<-|Hi]; [reflexivity|]). contradiction. }
  split; [split; repeat constructor; simpl; lia|]. split; [split; repeat constructor; simpl; lia|].
  split; [vm_compute; reflexivity|]. split; [vm_compute; reflexivity|]. split; vm_compute; reflexivity.
Qed.
