(** Floating-point numbers as scalars. *)
From Verif Require Import Base BaseFacts NDArray Spec SumFacts ArrayFacts RelationFacts RoundFacts RangeFacts FloatFacts.
From Coq Require Import Lia ZArith QArith Qcanon Qcabs SpecFloat.
Local Open Scope list_scope.
Local Open Scope Z_scope.

(** A binary interchange format: [f_prec] significant bits, numbers below [2 ^ f_emax]. *)
Record format : Type := mkFormat { f_prec : Z; f_emax : Z; f_prec_ok : 0 < f_prec; f_emax_ok : f_prec < f_emax }.

(** The formats of the types f64 and f32. *)
Definition f64 : format := mkFormat 53 1024 eq_refl eq_refl.
Definition f32 : format := mkFormat 24 128 eq_refl eq_refl.

(** The numbers of a format. *)
Definition float (f : format) : Type := { x : spec_float | valid_binary (f_prec f) (f_emax f) x = true }.

Definition f_value {f} (x : float f) : option Qc := sf_value (proj1_sig x).

Definition f_zero f : float f := exist _ (S754_zero false) eq_refl.
Definition f_one f : float f := exist _ (SFone (f_prec f) (f_emax f)) (proj1 (one_rounds _ _ (f_prec_ok f) (f_emax_ok f))).
Definition f_add {f} (x y : float f) : float f :=
  exist _ (SFadd (f_prec f) (f_emax f) (proj1_sig x) (proj1_sig y))
    (valid_add _ _ (f_prec_ok f) (f_emax_ok f) _ _ (proj2_sig x) (proj2_sig y)).
Definition f_mul {f} (x y : float f) : float f :=
  exist _ (SFmul (f_prec f) (f_emax f) (proj1_sig x) (proj1_sig y))
    (valid_mul _ _ (f_prec_ok f) (f_emax_ok f) _ _ (proj2_sig x) (proj2_sig y)).
Definition f_fma {f} (x y z : float f) : float f :=
  exist _ (SFfma (f_prec f) (f_emax f) (proj1_sig x) (proj1_sig y) (proj1_sig z))
    (valid_fma _ _ (f_prec_ok f) (f_emax_ok f) _ _ _ (proj2_sig x) (proj2_sig y) (proj2_sig z)).

Global Instance float_scalar f : Scalar (float f) := {| szero := f_zero f; sone := f_one f; sadd := f_add; smul := f_mul |}.

(** Half the distance between one and the next number, half the smallest positive number, and the first
    power of two that is too large. *)
Definition f_eps (f : format) : Qc := pow2 (- f_prec f).
Definition f_eta (f : format) : Qc := pow2 (2 - f_emax f - f_prec f).
Definition f_big (f : format) : Qc := pow2 (f_emax f).

Lemma f_eta_ok f : f_eta f = eta (f_prec f) (f_emax f).
Proof. unfold f_eta, eta, SpecFloat.emin. f_equal. lia. Qed.

(** A number of a format rounds a rational number: what that gives. *)
Definition f_rounds {f} (x : float f) (t : Qc) : Prop := rounds_to (f_prec f) (f_emax f) (proj1_sig x) t.

Lemma f_add_rounds f (x y : float f) p q : f_value x = Some p -> f_value y = Some q -> f_rounds (f_add x y) (p + q).
Proof. intros Ex Ey. apply (add_rounds _ _ (f_prec_ok f) (f_emax_ok f)); auto; apply proj2_sig. Qed.
Lemma f_mul_rounds f (x y : float f) p q : f_value x = Some p -> f_value y = Some q -> f_rounds (f_mul x y) (p * q).
Proof. intros Ex Ey. apply (mul_rounds _ _ (f_prec_ok f) (f_emax_ok f)); auto; apply proj2_sig. Qed.
Lemma f_fma_rounds f (x y z : float f) p q r : f_value x = Some p -> f_value y = Some q -> f_value z = Some r ->
  f_rounds (f_fma x y z) (p * q + r).
Proof. intros Ex Ey Ez. apply (fma_rounds _ _ (f_prec_ok f) (f_emax_ok f)); auto; apply proj2_sig. Qed.

Lemma f_one_value f : f_value (f_one f) = Some 1%Qc.
Proof. apply (one_value _ _ (f_prec_ok f) (f_emax_ok f)). Qed.

Local Open Scope Qc_scope.

Lemma rounds_error {f} (x : float f) t : f_rounds x t ->
  f_value x = None \/ exists s, f_value x = Some s /\ Qcabs (s - t) <= f_eps f * Qcabs t + f_eta f.
Proof.
  intros (_ & (w & _ & Hw & [E|[E _]]) & _); [right; exists w; split; auto|left; exact E]. rewrite f_eta_ok. exact Hw.
Qed.

(** Representable numbers are left alone. *)
Lemma rounds_exact {f} (x c : float f) t : f_rounds x t -> f_value c = Some t -> f_value x = Some t.
Proof. intros (_ & _ & H) Ec. apply (H (proj1_sig c)); auto. apply proj2_sig. Qed.

Lemma rounds_fits {f} (x : float f) t : f_rounds x t -> (1 + f_eps f) * Qcabs t + f_eta f < f_big f -> f_value x <> None.
Proof.
  intros (_ & (w & _ & Hw & [E|[E Hb]]) & _) Hl; [unfold f_value; rewrite E; discriminate|]. exfalso.
  apply (Qclt_not_le _ _ Hl). eapply Qcle_trans; [exact Hb|]. rewrite <- f_eta_ok in Hw.
  replace w with ((w - t) + t) by ring. eapply Qcle_trans; [apply Qcabs_triangle|].
  replace ((1 + f_eps f) * Qcabs t + f_eta f) with (f_eps f * Qcabs t + f_eta f + Qcabs t) by ring.
  apply Qcplus_le_compat; [exact Hw|apply Qcle_refl].
Qed.

Lemma f_power f k : (0 <= k < f_emax f)%Z -> exists c : float f, f_value c = Some (pow2 k).
Proof.
  intros Hk. destruct (power_valid _ _ (f_prec_ok f) (f_emax_ok f) k Hk) as (c & Vc & Ec).
  exists (exist _ c Vc). exact Ec.
Qed.

(** ** The hypotheses of the rounding theorems *)

Lemma float_rounding f : @rounding (float f) (float_scalar f) f_value (f_eps f) (f_eta f).
Proof.
  constructor.
  - apply pow2_nonneg.
  - apply pow2_nonneg.
  - reflexivity.
  - apply f_one_value.
  - intros x y Ex Ey. right. destruct (f_power f 1) as (c & Ec).
    { pose proof (f_prec_ok f). pose proof (f_emax_ok f). lia. }
    apply (rounds_exact _ c); [apply f_add_rounds; auto|]. rewrite Ec. reflexivity.
  - intros x y H. split; [apply (add_none (f_prec f) (f_emax f))|apply (mul_none (f_prec f) (f_emax f))]; exact H.
  - intros x y p q Ex Ey. pose proof (f_add_rounds f x y p q Ex Ey) as H.
    destruct (rounds_error _ _ H) as [E|(s & Es & Hs)]; [left; exact E|right]. exists s. split; [exact Es|].
    split; [exact Hs|]. split; intros ->; rewrite ?Qcplus_0_l, ?Qcplus_0_r in H.
    + apply some_inj. rewrite <- (rounds_exact _ y _ H Ey). symmetry. exact Es.
    + apply some_inj. rewrite <- (rounds_exact _ x _ H Ex). symmetry. exact Es.
  - intros x y p q Ex Ey. pose proof (f_mul_rounds f x y p q Ex Ey) as H.
    destruct (rounds_error _ _ H) as [E|(s & Es & Hs)]; [left; exact E|right]. exists s. split; [exact Es|].
    split; [exact Hs|]. split; [intros E0|split; intros ->; rewrite ?Qcmult_1_l, ?Qcmult_1_r in H].
    + rewrite E0 in H. apply some_inj. rewrite <- (rounds_exact _ (f_zero f) _ H eq_refl). symmetry. exact Es.
    + apply some_inj. rewrite <- (rounds_exact _ y _ H Ey). symmetry. exact Es.
    + apply some_inj. rewrite <- (rounds_exact _ x _ H Ex). symmetry. exact Es.
Qed.

Lemma float_fma_rounding f : fused_rounding (@f_value f) (f_eps f) (f_eta f) f_fma.
Proof.
  constructor.
  - intros x y z H. apply (fma_none (f_prec f) (f_emax f)). exact H.
  - intros x y z p q r Ex Ey Ez. pose proof (f_fma_rounds f x y z p q r Ex Ey Ez) as H.
    destruct (rounds_error _ _ H) as [E|(s & Es & Hs)]; [left; exact E|right]. exists s. split; [exact Es|].
    split; [exact Hs|]. split; [intros E0|split; [intros -> -> |split; [intros -> -> |intros E1 ->]]].
    + rewrite E0, Qcplus_0_l in H. apply some_inj. rewrite <- (rounds_exact _ z _ H Ez). symmetry. exact Es.
    + rewrite Qcplus_0_r, Qcmult_1_l in H. apply some_inj. rewrite <- (rounds_exact _ y _ H Ey). symmetry. exact Es.
    + rewrite Qcplus_0_r, Qcmult_1_r in H. apply some_inj. rewrite <- (rounds_exact _ x _ H Ex). symmetry. exact Es.
    + rewrite E1 in H. destruct (f_power f 1) as (c & Ec).
      { pose proof (f_prec_ok f). pose proof (f_emax_ok f). lia. }
      apply some_inj. rewrite <- Es. apply (rounds_exact _ c); auto.
Qed.

Lemma pow2_lt a b : (a < b)%Z -> pow2 a < pow2 b.
Proof.
  intros H. apply Qcnot_le_lt. intros L. assert (L' : pow2 (a + 1) <= pow2 a).
  { eapply Qcle_trans; [apply pow2_mono|exact L]. lia. }
  rewrite Z.add_comm, pow2_add in L'. change (pow2 1) with (1 + 1) in L'.
  assert (P := pow2_pos a). apply (Qclt_not_le _ _ P).
  apply (Qcplus_le_compat _ _ (- pow2 a) (- pow2 a)) in L'; [|apply Qcle_refl].
  replace ((1 + 1) * pow2 a + - pow2 a) with (pow2 a) in L' by ring.
  replace (pow2 a + - pow2 a) with 0 in L' by ring. exact L'.
Qed.

Lemma float_overflow f : @overflow_from (float f) (float_scalar f) f_value (f_eps f) (f_eta f) (f_big f).
Proof.
  constructor.
  - apply pow2_lt. pose proof (f_prec_ok f). pose proof (f_emax_ok f). lia.
  - intros x y p q Ex Ey Hl. apply rounds_fits with (p + q); auto. apply f_add_rounds; auto.
  - intros x y p q Ex Ey Hl. apply rounds_fits with (p * q); auto. apply f_mul_rounds; auto.
Qed.

Lemma float_fma_overflow f : fused_overflow_from (@f_value f) (f_eps f) (f_eta f) (f_big f) f_fma.
Proof.
  intros x y z p q r Ex Ey Ez Hl. apply rounds_fits with (p * q + r); auto. apply f_fma_rounds; auto.
Qed.

(** ** Integers *)

(** Integers up to [2 ^ f_prec] are representable. *)
Lemma integer_valid prec emax z : (0 < prec < emax)%Z -> (Z.abs z <= 2 ^ prec)%Z ->
  exists c, valid_binary prec emax c = true /\ sf_value c = Some (of_Z z).
Proof.
  intros Hp Hz. destruct (Z.eq_dec z 0) as [->|Hn].
  { exists (S754_zero false). split; [reflexivity|]. cbn. rewrite of_Z_0. reflexivity. }
  set (s := (z <? 0)%Z). assert (Hs : cond_Zopp s (Z.abs z) = z) by (unfold s, cond_Zopp; destruct (z <? 0)%Z eqn:E; lia).
  destruct (Z.abs z) as [|m|m] eqn:Em; try lia.
  destruct (Z.eq_dec (Zpos m) (2 ^ prec)) as [Eq|Nq].
  - assert (H0 : (0 < 2 ^ (prec - 1))%Z) by (apply Z.pow_pos_nonneg; lia).
    destruct (2 ^ (prec - 1))%Z as [|k|k] eqn:Ek; try lia.
    exists (S754_finite s k 1). split.
    + cbn [valid_binary]. unfold SpecFloat.bounded, canonical_mantissa. apply andb_true_iff.
      split; [|apply Z.leb_le; lia]. apply Zeq_is_eq_bool.
      rewrite (digits_unique k prec) by (rewrite <- ?Ek; split || idtac; try lia; apply Z.pow_lt_mono_r; lia).
      unfold SpecFloat.fexp, SpecFloat.emin. lia.
    + cbn [sf_value]. f_equal. rewrite <- Hs at 1. rewrite !of_Z_cond, <- Qcmult_assoc. f_equal.
      rewrite pow2_Z, <- of_Z_mul by lia. f_equal. rewrite Eq, <- Ek. rewrite <- Z.pow_add_r by lia. f_equal. lia.
  - pose proof (digits_bounds m) as Hd. set (d := Zpos (digits2_pos m)) in *.
    assert (Hdp : (d <= prec)%Z).
    { destruct (Z.le_gt_cases d prec) as [L|L]; auto. exfalso.
      assert (2 ^ prec <= 2 ^ (d - 1))%Z by (apply Z.pow_le_mono_r; lia). lia. }
    set (e := Z.max (d - prec) (3 - emax - prec)).
    assert (He : (e <= 0)%Z) by lia.
    assert (H0 : (0 < Zpos m * 2 ^ (- e))%Z) by (apply Z.mul_pos_pos; [lia|apply Z.pow_pos_nonneg; lia]).
    destruct (Zpos m * 2 ^ (- e))%Z as [|k|k] eqn:Ek; try lia.
    assert (Dk : Zpos (digits2_pos k) = (d + - e)%Z) by (apply (digits_shift m (- e)); [lia|auto]).
    exists (S754_finite s k e). split.
    + cbn [valid_binary]. unfold SpecFloat.bounded, canonical_mantissa. apply andb_true_iff.
      split; [|apply Z.leb_le; lia]. apply Zeq_is_eq_bool. rewrite Dk.
      unfold SpecFloat.fexp, SpecFloat.emin. replace (d + - e + e)%Z with d by lia. reflexivity.
    + cbn [sf_value]. f_equal. rewrite <- Hs. rewrite !of_Z_cond, <- Qcmult_assoc. f_equal.
      rewrite <- Ek, of_Z_mul, <- pow2_Z, <- Qcmult_assoc, <- pow2_add by lia.
      replace (- e + e)%Z with 0%Z by lia. change (pow2 0) with 1. apply Qcmult_1_r.
Qed.

(** A number of a format stands for an integer. *)
Definition f_stands {f} (x : float f) (z : Z) : Prop := f_value x = Some (of_Z z).

Lemma f_integer f z : (Z.abs z <= 2 ^ f_prec f)%Z -> exists c : float f, f_stands c z.
Proof.
  intros Hz. destruct (integer_valid (f_prec f) (f_emax f) z) as (c & Vc & Ec); auto.
  { split; [apply f_prec_ok|apply f_emax_ok]. }
  exists (exist _ c Vc). exact Ec.
Qed.

Lemma float_exact f : @exact_to (float f) (float_scalar f) f_stands (2 ^ f_prec f).
Proof.
  constructor.
  - apply Z.pow_nonneg. lia.
  - unfold f_stands. rewrite of_Z_0. reflexivity.
  - unfold f_stands. rewrite of_Z_1. apply f_one_value.
  - intros x y a b Hx Hy Hl. destruct (f_integer f _ Hl) as (c & Hc). apply (rounds_exact _ c); auto.
    rewrite of_Z_add. apply f_add_rounds; auto.
  - intros x y a b Hx Hy Hl. destruct (f_integer f _ Hl) as (c & Hc). apply (rounds_exact _ c); auto.
    rewrite of_Z_mul. apply f_mul_rounds; auto.
Qed.

Lemma float_fma_exact f : fused_exact_to (@f_stands f) (2 ^ f_prec f) f_fma.
Proof.
  intros x y z a b c Hx Hy Hz Hl. destruct (f_integer f _ Hl) as (w & Hw). apply (rounds_exact _ w); auto.
  rewrite of_Z_add, of_Z_mul. apply f_fma_rounds; auto.
Qed.

(** The number nearest to an integer times a power of two. *)
Definition f_of f (z e : Z) : float f :=
  exist _ (binary_normalize (f_prec f) (f_emax f) z e false)
    (proj1 (normalize_rounds _ _ (f_prec_ok f) (f_emax_ok f) z e false)).

Lemma f_of_rounds f z e : f_rounds (f_of f z e) (of_Z z * pow2 e).
Proof. apply (normalize_rounds _ _ (f_prec_ok f) (f_emax_ok f)). Qed.

Lemma f_of_stands f z : (Z.abs z <= 2 ^ f_prec f)%Z -> f_stands (f_of f z 0) z.
Proof.
  intros Hz. destruct (f_integer f _ Hz) as (w & Hw). apply (rounds_exact _ w); auto.
  replace (of_Z z) with (of_Z z * pow2 0) by (change (pow2 0) with 1; ring). apply f_of_rounds.
Qed.

(** How a backend multiplies and adds floating-point numbers: with two roundings or with one. *)
Definition float_backend {f} (lay : backend (float f)) : Prop :=
  backend_runs lay
  /\ ((forall x y z, fused lay x y z = f_add (f_mul x y) z) \/ (forall x y z, fused lay x y z = f_fma x y z)).

Lemma float_fused_rounds f (lay : backend (float f)) : float_backend lay ->
  fused_rounds f_value (f_eps f) (f_eta f) lay.
Proof.
  intros [_ [H|H]]; [left; exact H|right]. constructor.
  - intros x y z. rewrite H. apply (fma_absorb _ _ _ _ (float_fma_rounding f)).
  - intros x y z. rewrite H. apply (fma_value _ _ _ _ (float_fma_rounding f)).
Qed.

Lemma float_fused_fits f (lay : backend (float f)) : float_backend lay ->
  fused_fits f_value (f_eps f) (f_eta f) (f_big f) lay.
Proof.
  intros Hl. destruct (float_fused_rounds f lay Hl) as [H|H]; [left; exact H|]. destruct Hl as [_ [Hl|Hl]]; [left; exact Hl|].
  right. split; [exact H|]. intros x y z. rewrite Hl. apply float_fma_overflow.
Qed.

Lemma float_fused_exact f (lay : backend (float f)) : float_backend lay -> fused_exact f_stands (2 ^ f_prec f) lay.
Proof.
  intros [_ [H|H]]; [left; exact H|right]. intros x y z. rewrite H. apply float_fma_exact.
Qed.
