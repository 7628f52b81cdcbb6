(** Tensor dot products of tensor dot products (C84): what they compute, how far rounding moves them, and how far two ways
    of nesting them can differ. *)
From Verif Require Import Base BaseFacts NDArray Validation Optimizers Path Api Spec ParserFacts ValidationMain SumFacts
  ArrayFacts PathFacts EinsumMain EinsumProps RelationFacts AlgebraFacts TensordotMain RoundFacts RangeFacts FloatFacts FloatMain BackwardFacts
  AdjointFacts UniqueFacts DotAlgebra Examples PropsTensordot PropsRounding PropsFloat PropsBackward PropsBackwardDot PropsSpread PropsDotAlgebra.
From Coq Require Import Lia QArith Qcanon Qcabs.
Local Open Scope list_scope.
Local Open Scope nat_scope.

(** ** Nested calls *)

(** A caller's expression: an array, or a call of [tensordot] with its two operands and its axes [lib.rs:269-294]. *)
Inductive dots (A : Type) : Type :=
| Given (a : arr A)
| Dot (x y : dots A) (la ra : list nat).
Arguments Given {A} a.
Arguments Dot {A} x y la ra.

(** Evaluating the expression, innermost calls first [lib.rs:269-294]. *)
Fixpoint run_dots {A} {Sc : Scalar A} (lay : backend A) (t : dots A) : res (arr A) :=
  match t with
  | Given a => Ok a
  | Dot x y la ra => do a <- run_dots lay x; do b <- run_dots lay y; tensordot lay a b la ra
  end.

(** The arrays of an expression, changed element by element. *)
Fixpoint dots_map {A B} (f : A -> B) (t : dots A) : dots B :=
  match t with Given a => Given (amap f a) | Dot x y la ra => Dot (dots_map f x) (dots_map f y) la ra end.

(** ** What they should compute *)

(** The array of exact tensor dot products [lib.rs:229-268]. *)
Fixpoint exact_dots {A} {Sc : Scalar A} (t : dots A) : arr A :=
  match t with
  | Given a => a
  | Dot x y la ra =>
      array_of (dot_shape (exact_dots x) (exact_dots y) la ra) (tensordot_value (exact_dots x) (exact_dots y) la ra)
  end.

(** The lengths of the axes of the result [lib.rs:285]. *)
Fixpoint dots_shape {A} (t : dots A) : list nat :=
  match t with
  | Given a => a_shape a
  | Dot x y la ra =>
      axis_lengths (dots_shape x) (free_axes (length (dots_shape x)) la)
      ++ axis_lengths (dots_shape y) (free_axes (length (dots_shape y)) ra)
  end.

(** Every call names as many axes of either operand, existing, different, and of the same lengths [lib.rs:229-268]. *)
Fixpoint dots_fit {A} (t : dots A) : Prop :=
  match t with
  | Given a => wf a
  | Dot x y la ra =>
      dots_fit x /\ dots_fit y /\ length la = length ra
      /\ axes_ok (length (dots_shape x)) la /\ axes_ok (length (dots_shape y)) ra
      /\ axis_lengths (dots_shape x) la = axis_lengths (dots_shape y) ra
  end.

(** The number of arrays, and the number of products of elements that an element of the result adds up if everything is
    multiplied out [lib.rs:229-268]. *)
Fixpoint dots_arrays {A} (t : dots A) : nat :=
  match t with Given _ => 1 | Dot x y _ _ => dots_arrays x + dots_arrays y end.
Fixpoint dots_terms {A} (t : dots A) : nat :=
  match t with Given _ => 1 | Dot x y la _ => prod (axis_lengths (dots_shape x) la) * (dots_terms x * dots_terms y) end.

Lemma dots_shape_map {A B} (f : A -> B) t : dots_shape (dots_map f t) = dots_shape t.
Proof. induction t as [a|x IHx y IHy la ra]; cbn [dots_map dots_shape]; auto. rewrite IHx, IHy. auto. Qed.

Lemma exact_shape {A} {Sc : Scalar A} (t : dots A) : a_shape (exact_dots t) = dots_shape t.
Proof.
  induction t as [a|x IHx y IHy la ra]; cbn [exact_dots dots_shape]; auto. rewrite array_of_shape. unfold dot_shape. rewrite IHx, IHy. auto.
Qed.

Lemma exact_fit {A} {Sc : Scalar A} (x y : dots A) la ra : dots_fit (Dot x y la ra) -> axes_fit (exact_dots x) (exact_dots y) la ra.
Proof. cbn [dots_fit]. intros (_ & _ & H). unfold axes_fit. rewrite !exact_shape. exact H. Qed.

Lemma dots_fit_map {A B} (f : A -> B) t : dots_fit t -> dots_fit (dots_map f t).
Proof.
  induction t as [a|x IHx y IHy la ra]; cbn [dots_map dots_fit]; [apply wf_amap|]. rewrite !dots_shape_map. intuition.
Qed.

(** The elements are described by those of any scalars that the arithmetic is related to. *)
Lemma run_dots_related {A B} {Sc : Scalar A} {Sb : Scalar B} (R : A -> B -> Prop) (f : A -> B) lay t :
  scalar_relation R -> semiring B -> backend_runs lay -> fused_relation R lay -> (forall x, R x (f x)) -> dots_fit t ->
  exists r, run_dots lay t = Ok r /\ wf r /\ a_shape r = dots_shape t /\ related_arrays R r (exact_dots (dots_map f t)).
Proof.
  intros HR SR Hl Hfu Hf. induction t as [a|x IHx y IHy la ra]; intros Hfit.
  { exists a. cbn. split; auto. split; auto. split; auto. apply related_amap; auto. }
  pose proof Hfit as (Fx & Fy & Hn & Ha & Hb & He). destruct (IHx Fx) as (a & Ea & Wa & Sa & Ra). destruct (IHy Fy) as (b & Eb & Wb & Sb' & Rb).
  destruct (tensordot_related lay Hl R HR SR Hfu a b _ _ la ra Wa Wb Ra Rb) as (r & w & E & Hr & Hw); rewrite ?Sa, ?Sb'; auto.
  { rewrite He. auto. }
  rewrite Sa, Sb' in Hr, Hw. exists r. cbn [run_dots]. rewrite Ea, Eb. cbn [rbind]. split; auto.
  split; [eapply holds_wf; eauto|]. split; [apply Hr|].
  assert (Es : a_shape (exact_dots (dots_map f (Dot x y la ra))) = dots_shape (Dot x y la ra)) by (rewrite exact_shape, dots_shape_map; auto).
  split; [rewrite Es; apply Hr|]. intros o Ho. rewrite (proj1 Hr) in Ho.
  exists (w o), (tensordot_value (exact_dots (dots_map f x)) (exact_dots (dots_map f y)) la ra o).
  split; [apply Hr; auto|].
  pose proof (exact_fit (dots_map f x) (dots_map f y) la ra (dots_fit_map f _ Hfit)) as (_ & Ha' & Hb' & He').
  assert (Ho' : in_bounds (dot_shape (exact_dots (dots_map f x)) (exact_dots (dots_map f y)) la ra) o = true).
  { unfold dot_shape. rewrite !exact_shape, !dots_shape_map. exact Ho. }
  split; [cbn [dots_map exact_dots]; apply (holds_mk_c (dot_shape _ _ la ra) (tensordot_value _ _ la ra)); auto|].
  rewrite <- (paired_value_sum SR) by auto. apply Hw. exact Ho.
Qed.

Lemma dots_map_id {A} (t : dots A) : dots_map (fun x => x) t = t.
Proof.
  induction t as [a|x IHx y IHy la ra]; cbn [dots_map]; [|congruence]. destruct a. unfold amap. cbn. rewrite map_id. reflexivity.
Qed.

(** In arithmetic with the usual laws nested calls compute the nested tensor dot products. *)
Theorem nested_dots_compute :
  forall (A : Type) (Sc : Scalar A), semiring A ->
  forall lay t, backend_ok lay -> dots_fit t ->
    exists r, run_dots lay t = Ok r /\ holds r (dots_shape t) (elem (exact_dots t)).
Proof.
  intros A Sc SR lay t Hl Ht.
  destruct (run_dots_related eq (fun x => x) lay t eq_relation SR) as (r & E & W & Sr & Hr); auto.
  { apply eq_fused; auto. }
  rewrite dots_map_id in Hr. exists r. split; auto. apply wf_readable in W as [Wl _]. split; auto. split; [congruence|].
  intros o Ho. rewrite <- Sr in Ho. destruct (proj2 Hr o Ho) as (x & y & E1 & E2 & <-). unfold elem. rewrite E2. exact E1.
Qed.
Print Assumptions nested_dots_compute.

(** A chain of three, with the operands of [associates_case]. *)
Example nested_dots_case :
  let t := Dot (Dot (Given (zarr [2; 2] [1; 2; 3; 4]%Z)) (Given (zarr [2; 2; 3] [1; 0; 2; -1; 3; 1; 0; 0; 1; 4; 5; -2]%Z)) [1] [1])
               (Given (zarr [3] [2; 1; -1]%Z)) [2] [0] in
  dots_fit t /\ dots_shape t = [2; 2] /\ (dots_arrays t, dots_terms t) = (3, 6)
  /\ (do r <- run_dots c_backend t; a_iter r) = Ok [0; 29; 0; 57]%Z /\ a_iter (exact_dots t) = Ok [0; 29; 0; 57]%Z.
Proof.
  cbv zeta. split; [|split; [|split; [|split]]]; try (vm_compute; reflexivity). cbn [dots_fit].
  split; [split; [apply wf_b_ok; reflexivity|split; [apply wf_b_ok; reflexivity|]]|split; [apply wf_b_ok; reflexivity|]];
    (split; [reflexivity|split; [axes_tac|split; [axes_tac|reflexivity]]]).
Qed.

(** ** Rounding *)

Lemma sum_over_rel {A B} {Sa : Scalar A} {Sb : Scalar B} (R : A -> B -> Prop) (HR : scalar_relation R) sh f g :
  (forall z, R (f z) (g z)) -> R (sum_over sh f) (sum_over sh g).
Proof.
  revert f g. induction sh as [|n sh IH]; intros f g H; cbn [sum_over]; auto. apply (sum_n_rel R HR). auto.
Qed.

Lemma elem_array_of {A} {Sc : Scalar A} sh f i : elem (array_of sh f) i = if in_bounds sh i then f i else szero.
Proof.
  destruct (in_bounds sh i) eqn:E; [apply array_of_elem; auto|]. unfold elem, a_get. rewrite array_of_shape, E. auto.
Qed.

Lemma exact_rel {A B C} {Sa : Scalar A} {Sb : Scalar B} (R : A -> B -> Prop) (f : C -> A) (g : C -> B) t i :
  scalar_relation R -> (forall x, R (f x) (g x)) -> R (elem (exact_dots (dots_map f t)) i) (elem (exact_dots (dots_map g t)) i).
Proof.
  intros HR Hfg. revert i. induction t as [a|x IHx y IHy la ra]; intros i; cbn [dots_map exact_dots].
  - unfold elem. rewrite !a_get_amap. destruct (a_get a i); cbn [rmap]; auto; apply HR.
  - rewrite !elem_array_of. unfold dot_shape, tensordot_value. rewrite !exact_shape, !dots_shape_map.
    destruct (in_bounds _ i); [|apply HR]. apply sum_over_rel; auto. intros z. apply HR; auto.
Qed.

Lemma bounded_mul d c d' c' x y : bounded d c x -> bounded d' c' y -> bounded (d + d') (c * c') (@smul _ tracked_scalar x y).
Proof.
  intros [H1 H2] [H3 H4]. destruct x as [[[? ?] ?] [dx cx]], y as [[[? ?] ?] [dy cy]]. cbn [fst snd] in *. split; cbn.
  - destruct dx, dy; auto. lia.
  - nia.
Qed.

Lemma bounded_sum_over d c sh f : (forall z, bounded d c (f z)) -> bounded d (prod sh * c) (@sum_over _ tracked_scalar sh f).
Proof.
  revert f. induction sh as [|n sh IH]; intros f H; cbn [sum_over].
  - replace (prod [] * c) with c by (cbn; lia). auto.
  - rewrite prod_cons, <- Nat.mul_assoc. apply bounded_sum_n. auto.
Qed.

Section Nested.
Context {F : Type} {Sf : Scalar F}.
Variables (v : F -> option Qc) (eps eta : Qc).

Lemma exact_bounded (t : dots F) i : bounded (dots_arrays t) (dots_terms t) (@elem _ tracked_scalar (@exact_dots _ tracked_scalar (dots_map (lift v) t)) i).
Proof.
  revert i. induction t as [a|x IHx y IHy la ra]; intros i; cbn [dots_map exact_dots dots_arrays dots_terms].
  - unfold elem. rewrite a_get_amap. destruct (a_get a i); cbn [rmap]; split; cbn; auto.
  - rewrite (elem_array_of (Sc := tracked_scalar)). destruct (in_bounds _ i); [|split; cbn; auto; lia].
    unfold tensordot_value. rewrite !exact_shape, !dots_shape_map. apply bounded_sum_over. intros z. apply bounded_mul; auto.
Qed.

Lemma exact_lifted (t : dots F) i :
  fst (@elem _ tracked_scalar (@exact_dots _ tracked_scalar (dots_map (lift v) t)) i)
  = (elem (exact_dots (dots_map (value_of v) t)) i, elem (exact_dots (dots_map (magnitude_of v) t)) i,
     elem (exact_dots (dots_map (padded_of v) t)) i).
Proof.
  assert (H : forall (p : Qc * Qc * Qc -> Qc) (g : F -> Qc),
    (forall x, p (fst (lift v x)) = g x) ->
    @scalar_relation tracked Qc tracked_scalar Qc_scalar (fun b y => p (fst b) = y) ->
    p (fst (@elem _ tracked_scalar (@exact_dots _ tracked_scalar (dots_map (lift v) t)) i)) = elem (exact_dots (dots_map g t)) i).
  { intros p g Hg HR. apply (@exact_rel tracked Qc F tracked_scalar Qc_scalar (fun b y => p (fst b) = y)); auto. }
  rewrite <- (H (fun p => fst (fst p)) (value_of v)), <- (H (fun p => snd (fst p)) (magnitude_of v)), <- (H snd (padded_of v));
    auto; try (constructor; intros; subst; reflexivity).
  destruct (fst _) as [[? ?] ?]. reflexivity.
Qed.

(** With [k] arrays and [n] products in an element: ((1 + eps) ^ (k + n - 2) - 1) times the expression of the absolute
    values, plus a term for underflow. *)
Definition dots_bound (t : dots F) o : Qc :=
  let n := dots_arrays t + dots_terms t - 2 in
  ((grow eps n - 1) * elem (exact_dots (dots_map (magnitude_of v) t)) o
   + (grow eta n - 1) * (grow eps n * elem (exact_dots (dots_map (padded_of v) t)) o))%Qc.

End Nested.

(** Nested calls return, and each element is no further from the exact one than [dots_bound]. *)
Theorem nested_dots_rounding_error :
  forall (F : Type) (Sf : Scalar F) (v : F -> option Qc) (eps eta : Qc), rounding v eps eta ->
  forall lay t, backend_runs lay -> fused_rounds v eps eta lay -> dots_fit t ->
    exists r g, run_dots lay t = Ok r /\ holds r (dots_shape t) g
      /\ forall o, in_bounds (dots_shape t) o = true ->
           v (g o) = None
           \/ exists q, v (g o) = Some q
                /\ (Qcabs (q - elem (exact_dots (dots_map (value_of v) t)) o) <= dots_bound v eps eta t o)%Qc.
Proof.
  intros F Sf v eps eta HF lay t Hl Hfu Ht.
  destruct (@run_dots_related F tracked Sf tracked_scalar _ (lift v) lay t (tracks_relation v eps eta HF) tracked_semiring Hl
    (tracks_fused_rounds v eps eta HF lay Hfu) (tracks_lift v eps eta) Ht) as (r & E & W & Sr & Hr).
  exists r, (elem r). split; auto. split.
  { apply wf_readable in W as [Wl Wg]. split; auto. split; [congruence|]. intros o Ho. rewrite <- Sr in Ho.
    destruct (Wg o Ho) as (x & Ex). unfold elem. rewrite Ex. auto. }
  intros o Ho. rewrite <- Sr in Ho. destruct (proj2 Hr o Ho) as (x & y & E1 & E2 & Hxy).
  assert (Ex : elem r o = x) by (unfold elem; rewrite E1; auto). rewrite Ex.
  assert (Ey : @elem _ tracked_scalar (@exact_dots _ tracked_scalar (dots_map (lift v) t)) o = y) by (unfold elem; rewrite E2; auto).
  destruct Hxy as [H|(q & Eq & H)]; [left; auto|right]. exists q. split; auto.
  pose proof (exact_lifted v t o) as Hv. pose proof (exact_bounded v t o) as Hbd. rewrite Ey in Hv, Hbd. unfold dots_bound.
  destruct (approx_within _ _ _ _ H) as [(-> & Eb)|(y' & m & b' & d & c & Eb & Hw)]; rewrite Eb in *.
  - unfold nothing in *; cbn [fst] in Hv. injection Hv as <- <- <-. replace (Qcabs (0 - 0)) with 0%Qc by (apply Qc_is_canon; reflexivity).
    rewrite !Qcmult_0_r, Qcplus_0_r. apply Qcle_refl.
  - cbn [fst] in Hv. injection Hv as <- <- <-. destruct Hbd as [H1 H2]. cbn [fst snd] in H1, H2.
    apply (within_mono eps eta (rnd_eps _ _ _ HF) (rnd_eta _ _ _ HF) (d + c - 1) (dots_arrays t + dots_terms t - 2)) in Hw; [|lia].
    apply Hw.
Qed.
Print Assumptions nested_dots_rounding_error.

Ltac dots_tac := cbn [dots_fit]; repeat match goal with
  | |- wf _ => apply wf_b_ok; reflexivity
  | |- axes_ok _ _ => axes_tac
  | |- _ = _ => reflexivity
  | |- _ /\ _ => split end.

(** With three significant bits: (3 1) times the matrix (1 2; 1 1) is (4 7), and 4 + 7 is rounded to 12. *)
Example nested_rounding_case :
  let x := Given (farr tiny [2] [3; 1]%Z) in
  let y := Given (farr tiny [2; 2] [1; 2; 1; 1]%Z) in
  let z := Given (farr tiny [2] [1; 1]%Z) in
  let t := Dot (Dot x y [0] [0]) z [0] [0] in
  rounding (F := float tiny) f_value (f_eps tiny) (f_eta tiny) /\ dots_fit t /\ (dots_arrays t, dots_terms t) = (3, 4)
  /\ (do r <- run_dots (plain_backend (A := float tiny)) t;
      do l <- a_iter r; Ok (map (@proj1_sig _ _) l)) = Ok [proj1_sig (f_of tiny 12 0)]
  /\ elem (exact_dots (dots_map (value_of f_value) t)) [] = z2q 11.
Proof.
  cbv zeta. split; [apply float_rounding|]. split; [dots_tac|]. split; [reflexivity|]. split; [vm_compute; reflexivity|].
  apply Qc_is_canon. vm_compute. reflexivity.
Qed.

(** ** Two ways of nesting *)

(** Two expressions for the same exact value. *)
Theorem nested_dots_differ_by_at_most :
  forall (F : Type) (Sf : Scalar F) (v : F -> option Qc) (eps eta : Qc), rounding v eps eta ->
  forall lay lay' t t' r r',
    backend_runs lay -> fused_rounds v eps eta lay -> backend_runs lay' -> fused_rounds v eps eta lay' -> dots_fit t -> dots_fit t' ->
    dots_shape t = dots_shape t' -> run_dots lay t = Ok r -> run_dots lay' t' = Ok r' ->
    forall o q q', in_bounds (dots_shape t) o = true ->
      elem (exact_dots (dots_map (value_of v) t)) o = elem (exact_dots (dots_map (value_of v) t')) o ->
      v (elem r o) = Some q -> v (elem r' o) = Some q' ->
    (Qcabs (q - q') <= dots_bound v eps eta t o + dots_bound v eps eta t' o)%Qc.
Proof.
  intros F Sf v eps eta HF lay lay' t t' r r' Hl Hfu Hl' Hfu' Ht Ht' Es E E' o q q' Ho Ev Hq Hq'.
  assert (B : forall lay t r q, backend_runs lay -> fused_rounds v eps eta lay -> dots_fit t -> run_dots lay t = Ok r ->
    in_bounds (dots_shape t) o = true -> v (elem r o) = Some q ->
    (Qcabs (q - elem (exact_dots (dots_map (value_of v) t)) o) <= dots_bound v eps eta t o)%Qc).
  { clear - HF. intros lay t r q Hl Hfu Ht E Ho Hq.
    destruct (nested_dots_rounding_error F Sf v eps eta HF lay t Hl Hfu Ht) as (x & g & Ex & Hg & Hb).
    assert (x = r) by congruence. subst x. rewrite (holds_elem _ _ _ _ Hg Ho) in Hq.
    destruct (Hb o Ho) as [Hn|(p & Ep & Hp)]; [congruence|]. assert (p = q) by congruence. subst p. exact Hp. }
  pose proof (B lay t r q Hl Hfu Ht E Ho Hq) as B1. rewrite Es in Ho. pose proof (B lay' t' r' q' Hl' Hfu' Ht' E' Ho Hq') as B2.
  rewrite <- Ev in B2. revert B1 B2. generalize (elem (exact_dots (dots_map (value_of v) t)) o).
  intros x B1 B2. replace (q - q')%Qc with ((q - x) + - (q' - x))%Qc by ring.
  eapply Qcle_trans; [apply Qcabs_triangle|]. rewrite Qcabs_opp. apply Qcplus_le_compat; auto.
Qed.
Print Assumptions nested_dots_differ_by_at_most.

(** The matrix times (1 1) is (3 2), and 3 * 3 + 2 is rounded to 10, because 9 is rounded to 8. *)
Example nested_differ_case :
  let x := Given (farr tiny [2] [3; 1]%Z) in
  let y := Given (farr tiny [2; 2] [1; 2; 1; 1]%Z) in
  let z := Given (farr tiny [2] [1; 1]%Z) in
  let t := Dot (Dot x y [0] [0]) z [0] [0] in
  let t' := Dot x (Dot y z [1] [0]) [0] [0] in
  dots_fit t /\ dots_fit t' /\ dots_shape t = dots_shape t'
  /\ (do r <- run_dots (plain_backend (A := float tiny)) t;
      do l <- a_iter r; Ok (map (@proj1_sig _ _) l)) = Ok [proj1_sig (f_of tiny 12 0)]
  /\ (do r <- run_dots (plain_backend (A := float tiny)) t';
      do l <- a_iter r; Ok (map (@proj1_sig _ _) l)) = Ok [proj1_sig (f_of tiny 10 0)]
  /\ elem (exact_dots (dots_map (value_of f_value) t)) [] = elem (exact_dots (dots_map (value_of f_value) t')) [].
Proof.
  cbv zeta. split; [dots_tac|]. split; [dots_tac|]. split; [reflexivity|]. do 2 (split; [vm_compute; reflexivity|]).
  apply Qc_is_canon. vm_compute. reflexivity.
Qed.

Lemma exact_wf {A} {Sc : Scalar A} (t : dots A) : dots_fit t -> wf (exact_dots t).
Proof. destruct t; cbn [dots_fit exact_dots]; auto. intros _. apply array_of_wf. Qed.

(** The two ways of nesting three expressions have the same exact value. *)
Lemma exact_associates {A} {Sc : Scalar A} (SR : semiring A) (x y z : dots A) la ra lb rc lb' ra' :
  dots_fit (Dot (Dot x y la ra) z lb' rc) -> dots_fit (Dot x (Dot y z lb rc) la ra') ->
  come_from (origins (length (dots_shape x)) (length (dots_shape y)) la ra) lb' (map inr lb) ->
  come_from (origins (length (dots_shape y)) (length (dots_shape z)) lb rc) ra' (map inl ra) ->
  same_array (exact_dots (Dot (Dot x y la ra) z lb' rc)) (exact_dots (Dot x (Dot y z lb rc) la ra')).
Proof.
  intros Hl Hr C1 C2. set (X := exact_dots x). set (Y := exact_dots y). set (Z := exact_dots z).
  set (L := Dot (Dot (Given X) (Given Y) la ra) (Given Z) lb' rc). set (R := Dot (Given X) (Dot (Given Y) (Given Z) lb rc) la ra').
  pose proof Hl as (Hxy & Fz & Hl'). pose proof Hr as (Fx & Hyz & Hr'). pose proof Hxy as (_ & Fy & Hxy'). pose proof Hyz as (_ & _ & Hyz').
  assert (SX : a_shape X = dots_shape x) by apply exact_shape. assert (SY : a_shape Y = dots_shape y) by apply exact_shape.
  assert (SZ : a_shape Z = dots_shape z) by apply exact_shape.
  assert (FL : dots_fit L).
  { cbn [L dots_fit dots_shape]. rewrite SX, SY, SZ. cbn [dots_shape] in Hl'. repeat split; try apply exact_wf; auto; try apply Hxy'; apply Hl'. }
  assert (FR : dots_fit R).
  { cbn [R dots_fit dots_shape]. rewrite SX, SY, SZ. cbn [dots_shape] in Hr'. repeat split; try apply exact_wf; auto; try apply Hyz'; apply Hr'. }
  pose proof (plain_backend_ok (A := A)) as PB.
  destruct (nested_dots_compute A Sc SR plain_backend L PB FL) as (p & Ep & Hp).
  destruct (nested_dots_compute A Sc SR plain_backend R PB FR) as (p' & Ep' & Hp').
  change (exact_dots (Dot (Dot x y la ra) z lb' rc)) with (exact_dots L). change (exact_dots (Dot x (Dot y z lb rc) la ra')) with (exact_dots R).
  cbn [run_dots L R rbind] in Ep, Ep'. 
  destruct (tensordot plain_backend X Y la ra) as [ab| |] eqn:Eab; cbn [rbind] in Ep; try discriminate.
  destruct (tensordot plain_backend Y Z lb rc) as [bc| |] eqn:Ebc; cbn [rbind] in Ep'; try discriminate.
  destruct (tensordot_associates A Sc SR plain_backend X Y Z ab bc la ra lb rc lb' ra' PB) as (q & q' & Eq & Eq' & Hs);
    try (apply exact_wf; auto); auto; try (unfold axes_fit; rewrite ?SX, ?SY, ?SZ; auto; fail); try (rewrite ?SX, ?SY, ?SZ; auto; fail).
  { intros k Hk Hi. assert (Ho : In (@inl nat nat k) (origins (length (dots_shape y)) (length (dots_shape z)) lb rc)).
    { assert (Hs : In (Some (@inl nat nat k)) (map Some (map inl ra))) by (do 2 apply in_map; auto).
      unfold come_from in C2. rewrite <- C2 in Hs. apply in_map_iff in Hs as (j & Ej & _). eapply nth_error_In; eauto. }
    unfold origins in Ho. apply in_app_iff in Ho as [Ho|Ho]; apply in_map_iff in Ho as (j & Ej & Hj); [|discriminate].
    injection Ej as ->. unfold free_axes in Hj. apply filter_In in Hj as [_ Hj]. apply existsb_axes in Hi. rewrite Hi in Hj. discriminate. }
  assert (q = p) by congruence. assert (q' = p') by congruence. subst q q'.
  assert (HL : same_array p (exact_dots L)).
  { apply same_array_holds with (1 := Hp). rewrite <- (exact_shape _). apply wf_holds, exact_wf. auto. }
  assert (HR : same_array p' (exact_dots R)).
  { apply same_array_holds with (1 := Hp'). rewrite <- (exact_shape _). apply wf_holds, exact_wf. auto. }
  split; [rewrite <- (proj1 HL), <- (proj1 HR); apply Hs|]. intros i Hi.
  rewrite <- (same_get _ _ i HL), <- (same_get _ _ i HR). apply (same_get _ _ i Hs).
Qed.

(** The two ways of nesting three expressions differ by at most twice the bound, which is the same for both. *)
Theorem ways_of_nesting_differ_by_at_most :
  forall (F : Type) (Sf : Scalar F) (v : F -> option Qc) (eps eta : Qc), rounding v eps eta ->
  forall lay lay' (x y z : dots F) la ra lb rc lb' ra' r r',
    let left := Dot (Dot x y la ra) z lb' rc in
    let right := Dot x (Dot y z lb rc) la ra' in
    backend_runs lay -> fused_rounds v eps eta lay -> backend_runs lay' -> fused_rounds v eps eta lay' -> dots_fit left -> dots_fit right ->
    come_from (origins (length (dots_shape x)) (length (dots_shape y)) la ra) lb' (map inr lb) ->
    come_from (origins (length (dots_shape y)) (length (dots_shape z)) lb rc) ra' (map inl ra) ->
    run_dots lay left = Ok r -> run_dots lay' right = Ok r' ->
    dots_shape left = dots_shape right
    /\ forall o q q', in_bounds (dots_shape left) o = true -> v (elem r o) = Some q -> v (elem r' o) = Some q' ->
       (Qcabs (q - q') <= (1 + 1) * dots_bound v eps eta left o)%Qc.
Proof.
  intros F Sf v eps eta HF lay lay' x y z la ra lb rc lb' ra' r r' left right Hl Hfu Hl' Hfu' FL FR C1 C2 E E'.
  assert (S : forall g : F -> Qc, same_array (exact_dots (dots_map g left)) (exact_dots (dots_map g right))).
  { intros g. apply (exact_associates Qc_semiring (dots_map g x) (dots_map g y) (dots_map g z));
      [apply (dots_fit_map g left FL)|apply (dots_fit_map g right FR)| |]; rewrite !dots_shape_map; auto. }
  assert (Es : dots_shape left = dots_shape right).
  { pose proof (proj1 (S (value_of v))) as H. rewrite !exact_shape, !dots_shape_map in H. exact H. }
  split; auto. intros o q q' Ho Hq Hq'.
  assert (Ee : forall g : F -> Qc, elem (exact_dots (dots_map g right)) o = elem (exact_dots (dots_map g left)) o).
  { intros g. unfold elem. rewrite (same_get _ _ o (S g)). auto. }
  assert (Eb : dots_bound v eps eta right o = dots_bound v eps eta left o).
  { assert (Ek : dots_arrays right + dots_terms right - 2 = dots_arrays left + dots_terms left - 2).
    { destruct FL as (_ & _ & _ & _ & _ & H1). destruct FR as (_ & (_ & _ & _ & _ & _ & H2) & _).
      unfold left, right. cbn [dots_arrays dots_terms]. rewrite H1, H2. f_equal. lia. }
    unfold dots_bound. rewrite Ek, !Ee. reflexivity. }
  pose proof (nested_dots_differ_by_at_most F Sf v eps eta HF lay lay' left right r r' Hl Hfu Hl' Hfu' FL FR Es E E' o q q' Ho
    (eq_sym (Ee (value_of v))) Hq Hq') as B.
  rewrite Eb in B. replace ((1 + 1) * dots_bound v eps eta left o)%Qc with (dots_bound v eps eta left o + dots_bound v eps eta left o)%Qc by ring.
  exact B.
Qed.
Print Assumptions ways_of_nesting_differ_by_at_most.

(** The axes of [nested_differ_case]: the second axis of the matrix is the only one of its product with the row, and the
    first is the only one of its product with the column. *)
Example ways_of_nesting_case :
  come_from (origins 1 2 [0] [0]) [0] (map inr [1]) /\ come_from (origins 2 1 [1] [0]) [0] (map inl [0]).
Proof. split; reflexivity. Qed.

(** ** Floating-point numbers *)

Theorem float_nested_dots_error :
  forall f (lay : backend (float f)) t, float_backend lay -> dots_fit t ->
    exists r g, run_dots lay t = Ok r /\ holds r (dots_shape t) g
      /\ forall o, in_bounds (dots_shape t) o = true ->
           f_value (g o) = None
           \/ exists q, f_value (g o) = Some q
                /\ (Qcabs (q - elem (exact_dots (dots_map (value_of f_value) t)) o) <= dots_bound f_value (f_eps f) (f_eta f) t o)%Qc.
Proof.
  intros f lay t Hl Ht. apply (nested_dots_rounding_error (float f) (float_scalar f) f_value (f_eps f) (f_eta f) (float_rounding f)); auto.
  - apply Hl.
  - apply float_fused_rounds; auto.
Qed.
Print Assumptions float_nested_dots_error.

Theorem float_ways_of_nesting_differ_by_at_most :
  forall f (lay lay' : backend (float f)) (x y z : dots (float f)) la ra lb rc lb' ra' r r',
    let left := Dot (Dot x y la ra) z lb' rc in
    let right := Dot x (Dot y z lb rc) la ra' in
    float_backend lay -> float_backend lay' -> dots_fit left -> dots_fit right ->
    come_from (origins (length (dots_shape x)) (length (dots_shape y)) la ra) lb' (map inr lb) ->
    come_from (origins (length (dots_shape y)) (length (dots_shape z)) lb rc) ra' (map inl ra) ->
    run_dots lay left = Ok r -> run_dots lay' right = Ok r' ->
    dots_shape left = dots_shape right
    /\ forall o q q', in_bounds (dots_shape left) o = true -> f_value (elem r o) = Some q -> f_value (elem r' o) = Some q' ->
       (Qcabs (q - q') <= (1 + 1) * dots_bound f_value (f_eps f) (f_eta f) left o)%Qc.
Proof.
  intros f lay lay' x y z la ra lb rc lb' ra' r r' left right Hl Hl'. intros.
  apply (ways_of_nesting_differ_by_at_most (float f) (float_scalar f) f_value (f_eps f) (f_eta f) (float_rounding f)
    lay lay' x y z la ra lb rc lb' ra' r r'); auto; try apply float_fused_rounds; auto; try apply Hl; apply Hl'.
Qed.
Print Assumptions float_ways_of_nesting_differ_by_at_most.

(** In double precision (3 1), (1 2; 1 1) and (1 1) give 11 both ways. *)
Example float_nested_case :
  let x := Given (farr f64 [2] [3; 1]%Z) in
  let y := Given (farr f64 [2; 2] [1; 2; 1; 1]%Z) in
  let z := Given (farr f64 [2] [1; 1]%Z) in
  let t := Dot (Dot x y [0] [0]) z [0] [0] in
  let t' := Dot x (Dot y z [1] [0]) [0] [0] in
  float_backend (plain_backend (A := float f64)) /\ dots_fit t /\ dots_fit t'
  /\ (do r <- run_dots (plain_backend (A := float f64)) t;
      do l <- a_iter r; Ok (map (@proj1_sig _ _) l)) = Ok [proj1_sig (f_of f64 11 0)]
  /\ (do r <- run_dots (plain_backend (A := float f64)) t';
      do l <- a_iter r; Ok (map (@proj1_sig _ _) l)) = Ok [proj1_sig (f_of f64 11 0)].
Proof.
  cbv zeta. split; [apply float_plain_backend_ok|]. split; [dots_tac|]. split; [dots_tac|]. split; vm_compute; reflexivity.
Qed.
