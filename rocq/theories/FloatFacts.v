(** Binary floating-point numbers: the rounding of the standard library's [SpecFloat], which follows
    IEEE 754, stays within half a unit in the last place and leaves representable numbers alone. *)
From Coq Require Import List Lia ZArith QArith Qpower Qcanon Qcabs SpecFloat.
From Verif Require Import Base.
Import ListNotations.
Local Open Scope Z_scope.

(** ** Digits *)

Lemma digits_bounds m : 2 ^ (Zpos (digits2_pos m) - 1) <= Zpos m < 2 ^ Zpos (digits2_pos m).
Proof.
  induction m as [m IH|m IH|]; cbn [digits2_pos]; [| |cbn; lia];
    rewrite Pos2Z.inj_succ; replace (Z.succ (Zpos (digits2_pos m)) - 1) with (Zpos (digits2_pos m)) by lia;
    rewrite Z.pow_succ_r by lia;
    replace (Zpos (digits2_pos m)) with (Z.succ (Zpos (digits2_pos m) - 1)) at 1 by lia;
    rewrite Z.pow_succ_r by lia; lia.
Qed.

Lemma digits_unique m d : 0 < d -> 2 ^ (d - 1) <= Zpos m < 2 ^ d -> Zpos (digits2_pos m) = d.
Proof.
  intros Hd H. pose proof (digits_bounds m) as Hm. set (k := Zpos (digits2_pos m)) in *.
  assert (0 < k) by (unfold k; lia).
  destruct (Z.lt_trichotomy k d) as [Hk|[Hk|Hk]]; auto; exfalso.
  - assert (2 ^ k <= 2 ^ (d - 1)) by (apply Z.pow_le_mono_r; lia). lia.
  - assert (2 ^ d <= 2 ^ (k - 1)) by (apply Z.pow_le_mono_r; lia). lia.
Qed.

Lemma digits_shift m n : 0 <= n ->
  forall m', Zpos m' = Zpos m * 2 ^ n -> Zpos (digits2_pos m') = Zpos (digits2_pos m) + n.
Proof.
  intros Hn m' E. apply digits_unique; [lia|]. rewrite E. pose proof (digits_bounds m) as H.
  replace (Zpos (digits2_pos m) + n - 1) with (Zpos (digits2_pos m) - 1 + n) by lia.
  rewrite !Z.pow_add_r by lia. assert (0 < 2 ^ n) by (apply Z.pow_pos_nonneg; lia). nia.
Qed.

(** ** Shifting right *)

Lemma iter_pos_nat {A} (f : A -> A) p : forall x, SpecFloat.iter_pos f p x = Nat.iter (Pos.to_nat p) f x.
Proof.
  assert (add : forall a b x, Nat.iter (a + b) f x = Nat.iter a f (Nat.iter b f x)).
  { induction a as [|a IH]; intros; simpl; [reflexivity|]. now rewrite IH. }
  assert (comm : forall a x, Nat.iter a f (f x) = f (Nat.iter a f x)).
  { induction a as [|a IH]; intros; simpl; [reflexivity|]. now rewrite IH. }
  induction p as [p IH|p IH|]; intros x; cbn [SpecFloat.iter_pos].
  - rewrite !IH, Pos2Nat.inj_xI. replace (S (2 * Pos.to_nat p)) with (S (Pos.to_nat p + Pos.to_nat p))%nat by lia.
    change (Nat.iter (S (Pos.to_nat p + Pos.to_nat p)) f x) with (f (Nat.iter (Pos.to_nat p + Pos.to_nat p) f x)).
    rewrite add, !comm. reflexivity.
  - rewrite !IH, Pos2Nat.inj_xO. replace (2 * Pos.to_nat p)%nat with (Pos.to_nat p + Pos.to_nat p)%nat by lia.
    rewrite add. reflexivity.
  - reflexivity.
Qed.

(** What [n] steps of [shr_1] make of [m]: the quotient by 2 ^ n, and from the remainder whether it
    reaches one half, and whether it is anything else. *)
Definition shifted (m : Z) (n : nat) (x : shr_record) : Prop :=
  exists rem, m = shr_m x * 2 ^ Z.of_nat n + rem /\ 0 <= rem < 2 ^ Z.of_nat n /\ 0 <= shr_m x
    /\ match shr_r x, shr_s x with
       | false, false => rem = 0
       | false, true => 0 < 2 * rem < 2 ^ Z.of_nat n
       | true, false => 2 * rem = 2 ^ Z.of_nat n
       | true, true => 2 ^ Z.of_nat n < 2 * rem
       end.

Lemma shr_1_shifted m n x : shifted m n x -> shifted m (S n) (shr_1 x).
Proof.
  destruct x as [q r s]. unfold shifted. cbn [shr_m shr_r shr_s]. intros (rem & E & Hr & Hq & H).
  rewrite Nat2Z.inj_succ, Z.pow_succ_r by lia. set (p := 2 ^ Z.of_nat n) in *.
  unfold shr_1. destruct q as [|[q|q|]|q]; try (exfalso; lia); cbn [shr_m shr_r shr_s].
  - exists rem. destruct r, s; cbn [orb]; lia.
  - exists (p + rem). rewrite Pos2Z.inj_xI in E. destruct r, s; cbn [orb]; repeat split; nia.
  - exists rem. rewrite Pos2Z.inj_xO in E. destruct r, s; cbn [orb]; repeat split; nia.
  - exists (p + rem). destruct r, s; cbn [orb]; repeat split; lia.
Qed.

Lemma shr_shifted m n : 0 <= m -> shifted m n (Nat.iter n shr_1 (Build_shr_record m false false)).
Proof.
  intros Hm. induction n as [|n IH]; [|apply shr_1_shifted; exact IH].
  exists 0. cbn. lia.
Qed.

(** Rounding to nearest: off by at most one half, and not at all if nothing was cut off. *)
Lemma nearest_shifted m n x : shifted m n x ->
  let q := round_nearest_even (shr_m x) (loc_of_shr_record x) in
  Z.abs (2 * (q * 2 ^ Z.of_nat n - m)) <= 2 ^ Z.of_nat n
  /\ shr_m x <= q <= shr_m x + 1
  /\ (forall k, m = k * 2 ^ Z.of_nat n -> q = k /\ shr_m x = k)
  /\ (Z.abs (2 * (q * 2 ^ Z.of_nat n - m)) = 2 ^ Z.of_nat n -> Z.even q = true).
Proof.
  destruct x as [d r s]. unfold shifted. cbn [shr_m shr_r shr_s]. intros (rem & E & Hr & Hq & H).
  set (p := 2 ^ Z.of_nat n) in *.
  assert (K : forall k, m = k * p -> d = k).
  { intros k Ek. assert (p * (k - d) = rem) by lia.
    assert (k - d = 0); [|lia]. nia. }
  cbv zeta. destruct r, s; cbn [loc_of_shr_record round_nearest_even].
  - replace (2 * ((d + 1) * p - m)) with (2 * (p - rem)) by lia. split; [lia|split; [lia|split; [|lia]]].
    intros k Ek. assert (rem = 0) by (apply K in Ek as Ed; subst d; lia). lia.
  - assert (R : rem <> 0) by lia. destruct (Z.even d) eqn:Ev.
    + replace (2 * (d * p - m)) with (- (2 * rem)) by lia. split; [lia|split; [lia|split; [|auto]]].
      intros k Ek. apply K in Ek as Ed. subst d. lia.
    + replace (2 * ((d + 1) * p - m)) with (2 * (p - rem)) by lia. split; [lia|split; [lia|split]].
      * intros k Ek. apply K in Ek as Ed. subst d. lia.
      * intros _. rewrite Z.even_add, Ev. reflexivity.
  - replace (2 * (d * p - m)) with (- (2 * rem)) by lia. split; [lia|split; [lia|split; [|lia]]].
    intros k Ek. apply K in Ek as Ed. lia.
  - replace (2 * (d * p - m)) with (- (2 * rem)) by lia. split; [lia|split; [lia|split; [|lia]]].
    intros k Ek. apply K in Ek as Ed. lia.
Qed.

(** ** Powers of two *)

Local Open Scope Qc_scope.

Definition pow2 (e : Z) : Qc := Q2Qc (2 ^ e).
Definition of_Z (z : Z) : Qc := Q2Qc (inject_Z z).

Lemma pow2_add a b : pow2 (a + b) = pow2 a * pow2 b.
Proof.
  apply Qc_is_canon. change (Qred (2 ^ (a + b)) == Qred (Qred (2 ^ a) * Qred (2 ^ b)))%Q.
  rewrite !Qred_correct. apply Qpower_plus. discriminate.
Qed.
Lemma pow2_pos e : 0 < pow2 e.
Proof.
  change (0 < Qred (2 ^ e))%Q. rewrite Qred_correct.
  assert (H : (0 <= 2 ^ e)%Q) by (apply Qpower_pos; discriminate).
  apply Qle_lteq in H as [H|H]; auto. exfalso. symmetry in H. revert H. apply Qpower_not_0. discriminate.
Qed.
Lemma pow2_nonneg e : 0 <= pow2 e.
Proof. apply Qclt_le_weak. apply pow2_pos. Qed.
Lemma pow2_nonzero e : pow2 e <> 0.
Proof. intros H. pose proof (pow2_pos e) as P. rewrite H in P. discriminate. Qed.
Lemma pow2_Z n : (0 <= n)%Z -> pow2 n = of_Z (2 ^ n).
Proof.
  intros Hn. apply Qc_is_canon. change (Qred (2 ^ n) == Qred (inject_Z (2 ^ n)))%Q.
  rewrite !Qred_correct. rewrite Zpower_Qpower by auto. reflexivity.
Qed.

Lemma of_Z_add a b : of_Z (a + b) = of_Z a + of_Z b.
Proof.
  apply Qc_is_canon. change (Qred (inject_Z (a + b)) == Qred (Qred (inject_Z a) + Qred (inject_Z b)))%Q.
  rewrite !Qred_correct, inject_Z_plus. reflexivity.
Qed.
Lemma of_Z_mul a b : of_Z (a * b) = of_Z a * of_Z b.
Proof.
  apply Qc_is_canon. change (Qred (inject_Z (a * b)) == Qred (Qred (inject_Z a) * Qred (inject_Z b)))%Q.
  rewrite !Qred_correct, inject_Z_mult. reflexivity.
Qed.
Lemma of_Z_opp a : of_Z (- a) = - of_Z a.
Proof.
  apply Qc_is_canon. change (Qred (inject_Z (- a)) == Qred (- Qred (inject_Z a)))%Q.
  rewrite !Qred_correct, inject_Z_opp. reflexivity.
Qed.
Lemma of_Z_sub a b : of_Z (a - b) = of_Z a - of_Z b.
Proof. unfold Z.sub, Qcminus. rewrite of_Z_add, of_Z_opp. reflexivity. Qed.
Lemma of_Z_mono a b : (a <= b)%Z -> of_Z a <= of_Z b.
Proof. intros H. change (Qred (inject_Z a) <= Qred (inject_Z b))%Q. rewrite !Qred_correct, <- Zle_Qle. exact H. Qed.
Lemma of_Z_le_inv a b : of_Z a <= of_Z b -> (a <= b)%Z.
Proof.
  intros H. change (Qred (inject_Z a) <= Qred (inject_Z b))%Q in H. rewrite !Qred_correct, <- Zle_Qle in H. exact H.
Qed.
Lemma of_Z_inj a b : of_Z a = of_Z b -> a = b.
Proof.
  intros H. apply (f_equal this) in H. change (Qred (inject_Z a) = Qred (inject_Z b)) in H.
  assert (H' : (inject_Z a == inject_Z b)%Q) by (rewrite <- (Qred_correct (inject_Z a)), H; apply Qred_correct).
  apply -> inject_Z_injective. exact H'.
Qed.
Lemma of_Z_abs a : Qcabs (of_Z a) = of_Z (Z.abs a).
Proof.
  destruct (Z.le_ge_cases 0 a) as [H|H].
  - rewrite Z.abs_eq by auto. apply Qcabs_pos. apply (of_Z_mono 0 a). auto.
  - rewrite Z.abs_neq by auto. rewrite of_Z_opp. apply Qcabs_neg. apply (of_Z_mono a 0). auto.
Qed.
Lemma of_Z_0 : of_Z 0 = 0.
Proof. apply Qc_is_canon. reflexivity. Qed.
Lemma of_Z_1 : of_Z 1 = 1.
Proof. apply Qc_is_canon. reflexivity. Qed.

Lemma pow2_mono a b : (a <= b)%Z -> pow2 a <= pow2 b.
Proof.
  intros H. replace b with (b - a + a)%Z by lia. rewrite pow2_add.
  apply Qcle_trans with (1 * pow2 a); [rewrite Qcmult_1_l; apply Qcle_refl|].
  apply Qcmult_le_compat_r; [|apply pow2_nonneg]. rewrite pow2_Z by lia. rewrite <- of_Z_1. apply of_Z_mono.
  assert (0 < 2 ^ (b - a))%Z by (apply Z.pow_pos_nonneg; lia). lia.
Qed.

Definition signed (s : bool) : Qc := if s then - (1) else 1.

Lemma of_Z_cond s z : of_Z (cond_Zopp s z) = signed s * of_Z z.
Proof. destruct s; unfold signed, cond_Zopp; [rewrite of_Z_opp|]; ring. Qed.
Lemma signed_abs s q : Qcabs (signed s * q) = Qcabs q.
Proof.
  rewrite Qcabs_Qcmult. replace (Qcabs (signed s)) with 1; [ring|].
  destruct s; apply Qc_is_canon; reflexivity.
Qed.

(** ** Rounding *)

Section Round.
Variables prec emax : Z.
Hypothesis Hprec : (0 < prec)%Z.
Hypothesis Hemax : (prec < emax)%Z.

(** The rational number a floating-point number stands for; the infinities and not-a-number stand for
    none. *)
Definition sf_value (x : spec_float) : option Qc :=
  match x with
  | S754_zero _ => Some 0
  | S754_finite s m e => Some (of_Z (cond_Zopp s (Zpos m)) * pow2 e)
  | _ => None
  end.

Local Notation fexp := (fexp prec emax).
Local Notation emin := (emin prec emax).
Local Notation digits m := (Zpos (digits2_pos m)).

Lemma aligned m e m' e' : (e <= e')%Z -> of_Z (Zpos m) * pow2 e = of_Z (Zpos m') * pow2 e' ->
    (Zpos m = Zpos m' * 2 ^ (e' - e))%Z.
Proof.
  intros Hl H. apply of_Z_inj. rewrite of_Z_mul, <- pow2_Z by lia.
  replace e' with (e' - e + e)%Z in H by lia. rewrite pow2_add, Qcmult_assoc in H.
  apply (f_equal (fun q => q * / pow2 e)) in H. rewrite <- !Qcmult_assoc in H.
  rewrite Qcmult_inv_r in H by apply pow2_nonzero. rewrite !Qcmult_1_r in H.
  exact H.
Qed.

Lemma same_digits m e m' e' : of_Z (Zpos m) * pow2 e = of_Z (Zpos m') * pow2 e' ->
  (digits m + e = digits m' + e')%Z.
Proof.
  intros H. destruct (Z.le_ge_cases e e') as [L|L].
  - apply aligned in H; auto. rewrite (digits_shift m' (e' - e) ltac:(lia) m H). lia.
  - symmetry in H. apply aligned in H; auto. rewrite (digits_shift m (e - e') ltac:(lia) m' H). lia.
Qed.

Lemma shr_fexp_nat m e : (0 <= m)%Z -> (e <= fexp (Zdigits2 m + e))%Z ->
  shr_fexp prec emax m e loc_Exact
  = (Nat.iter (Z.to_nat (fexp (Zdigits2 m + e) - e)) shr_1 (Build_shr_record m false false), fexp (Zdigits2 m + e)).
Proof.
  intros Hm Hn. unfold shr_fexp, shr. cbn [shr_record_of_loc].
  destruct (fexp (Zdigits2 m + e) - e)%Z as [|p|p] eqn:E; try lia.
  - cbn. f_equal. lia.
  - rewrite iter_pos_nat. f_equal. lia.
Qed.

(** The result [x] of rounding m * 2 ^ e: the multiple of the unit in the last place nearest to it. *)
Lemma round_aux s m e : (e <= fexp (digits m + e))%Z ->
  let x := binary_round_aux prec emax s (Zpos m) e loc_Exact in
  let e' := fexp (digits m + e) in
  valid_binary prec emax x = true
  /\ (exists q, (0 <= q <= 2 ^ prec)%Z
       /\ (Z.abs (2 * (q * 2 ^ (e' - e) - Zpos m)) <= 2 ^ (e' - e))%Z
       /\ (Z.abs (2 * (q * 2 ^ (e' - e) - Zpos m)) = 2 ^ (e' - e) -> Z.even q = true)%Z
       /\ ((x = S754_infinity s /\ pow2 emax <= of_Z q * pow2 e')
           \/ sf_value x = Some (of_Z (cond_Zopp s q) * pow2 e')))
  /\ (forall mc ec, bounded prec emax mc ec = true -> of_Z (Zpos m) * pow2 e = of_Z (Zpos mc) * pow2 ec ->
      x = S754_finite s mc ec).
Proof.
  intros He. cbv zeta. unfold binary_round_aux. rewrite shr_fexp_nat by (auto; lia).
  cbn [Zdigits2]. set (e' := fexp (digits m + e)) in *.
  set (n := Z.to_nat (e' - e)). set (x1 := Nat.iter n shr_1 _).
  assert (Hx1 : shifted (Zpos m) n x1) by (apply shr_shifted; lia).
  pose proof (nearest_shifted _ _ _ Hx1) as Hq. cbv zeta in Hq.
  set (q := round_nearest_even (shr_m x1) (loc_of_shr_record x1)) in *.
  assert (En : Z.of_nat n = (e' - e)%Z) by (unfold n; lia). rewrite En in Hq.
  destruct Hq as (Hq1 & Hq2 & Hq3 & Hq4).
  pose proof (digits_bounds m) as Hm. set (d := digits m) in *. assert (Hd : (0 < d)%Z) by (unfold d; lia).
  destruct Hx1 as (rem & Ex1 & Hrem & Hx1 & _). rewrite En in Ex1, Hrem.
  assert (He' : (e' = Z.max (d + e - prec) emin)%Z) by reflexivity.
  set (P := (2 ^ (e' - e))%Z) in *. assert (HP : (0 < P)%Z) by (apply Z.pow_pos_nonneg; lia).
  (* the quotient has at most [prec] digits *)
  assert (Hlt : (shr_m x1 < 2 ^ prec)%Z).
  { assert (2 ^ d <= 2 ^ prec * P)%Z.
    { unfold P. rewrite <- Z.pow_add_r by lia. apply Z.pow_le_mono_r; lia. }
    apply (Z.mul_lt_mono_pos_r P); lia. }
  assert (Hqp : (0 <= q <= 2 ^ prec)%Z) by lia.
  (* and exactly [prec] above the subnormal range *)
  assert (Hge : (emin < e' -> 2 ^ (prec - 1) <= q)%Z).
  { intros Hn. assert (Hd' : (d - 1 = prec - 1 + (e' - e))%Z) by lia.
    assert (2 ^ (prec - 1) * P <= Zpos m)%Z.
    { unfold P. rewrite <- Z.pow_add_r by lia. rewrite <- Hd'. lia. }
    assert (2 ^ (prec - 1) < shr_m x1 + 1)%Z; [|lia]. apply (Z.mul_lt_mono_pos_r P); lia. }
  assert (Hmin : (emin <= e')%Z) by lia.
  assert (Hz : forall k, shr_m (Nat.iter k shr_1 (Build_shr_record 0 false false)) = 0%Z).
  { intros k. enough (H : exists r s, Nat.iter k shr_1 (Build_shr_record 0 false false) = Build_shr_record 0 r s)
      by (destruct H as (r & t & ->); reflexivity).
    induction k as [|k (r & t & IH)]; [eexists _, _; reflexivity|].
    change (Nat.iter (S k) shr_1 (Build_shr_record 0 false false))
      with (shr_1 (Nat.iter k shr_1 (Build_shr_record 0 false false))). rewrite IH. eexists _, _. reflexivity. }
  (* the second normalization *)
  assert (Hsecond : exists x2 e2, shr_fexp prec emax q e' loc_Exact = (x2, e2)
    /\ ((q = 0 /\ shr_m x2 = 0)%Z
        \/ exists m2, shr_m x2 = Zpos m2 /\ fexp (digits m2 + e2) = e2
             /\ of_Z (Zpos m2) * pow2 e2 = of_Z q * pow2 e' /\ (q < 2 ^ prec -> Zpos m2 = q /\ e2 = e')%Z)).
  { destruct q as [|m1|m1] eqn:Eq; [| |lia].
    - unfold shr_fexp, shr. cbn [shr_record_of_loc Zdigits2]. destruct (fexp (0 + e') - e')%Z as [|p|p].
      + eexists _, _. split; [reflexivity|]. left. auto.
      + eexists _, _. split; [reflexivity|]. left. rewrite iter_pos_nat. split; auto.
      + eexists _, _. split; [reflexivity|]. left. auto.
    - pose proof (digits_bounds m1) as Hm1. set (d1 := digits m1) in *.
      destruct (Z.eq_dec (Zpos m1) (2 ^ prec)) as [Em1|Nm1].
      + assert (Ed1 : (d1 = prec + 1)%Z).
        { apply digits_unique; [lia|]. replace (prec + 1 - 1)%Z with prec by lia. rewrite Em1.
          rewrite Z.pow_add_r by lia. lia. }
        assert (Ef : fexp (d1 + e') = (e' + 1)%Z) by (unfold SpecFloat.fexp; lia).
        rewrite shr_fexp_nat by (cbn [Zdigits2]; fold d1; lia). cbn [Zdigits2]. fold d1. rewrite Ef.
        replace (Z.to_nat (e' + 1 - e')) with 1%nat by lia. eexists _, _. split; [reflexivity|]. right.
        assert (E2 : (2 ^ prec = 2 * 2 ^ (prec - 1))%Z).
        { replace prec with (Z.succ (prec - 1)) at 1 by lia. apply Z.pow_succ_r. lia. }
        assert (H0 : (0 < 2 ^ (prec - 1))%Z) by (apply Z.pow_pos_nonneg; lia).
        destruct (2 ^ (prec - 1))%Z as [|p2|p2] eqn:Ep2; try lia.
        exists p2. change (Nat.iter 1 shr_1 ?x) with (shr_1 x).
        assert (m1 = xO p2) as -> by lia. split; [reflexivity|]. split; [|split].
        * assert (Ed2 : digits p2 = prec).
          { apply digits_unique; [lia|]. rewrite Ep2. lia. }
          rewrite Ed2. unfold SpecFloat.fexp. lia.
        * rewrite Pos2Z.inj_xO, of_Z_mul, pow2_add. change (pow2 1) with (of_Z 2). ring.
        * intros; lia.
      + assert (Ef : fexp (d1 + e') = e').
        { assert (d1 <= prec)%Z.
          { assert (2 ^ (d1 - 1) < 2 ^ prec)%Z as H%Z.pow_lt_mono_r_iff by lia; lia. }
          destruct (Z.eq_dec e' emin) as [Ee|Ne]; [unfold SpecFloat.fexp; lia|].
          assert (d1 = prec)%Z; [|unfold SpecFloat.fexp; lia].
          assert (2 ^ (prec - 1) < 2 ^ d1)%Z as H1%Z.pow_lt_mono_r_iff by lia; lia. }
        rewrite shr_fexp_nat by (cbn [Zdigits2]; fold d1; lia). cbn [Zdigits2]. fold d1. rewrite Ef.
        replace (Z.to_nat (e' - e')) with 0%nat by lia. eexists _, _. split; [reflexivity|]. right.
        exists m1. split; [reflexivity|]. split; [exact Ef|]. split; [reflexivity|]. intros; split; lia. }
  destruct Hsecond as (x2 & e2 & -> & Hx2).
  split; [|split].
  - destruct Hx2 as [[_ ->]|(m2 & -> & Hf & _)]; [reflexivity|].
    destruct (e2 <=? emax - prec)%Z eqn:El; [|reflexivity]. cbn [valid_binary]. unfold bounded, canonical_mantissa.
    rewrite Hf, El, andb_true_r. apply Zeq_is_eq_bool. reflexivity.
  - exists q. split; [exact Hqp|]. split; [exact Hq1|]. split; [exact Hq4|].
    destruct Hx2 as [[Eq ->]|(m2 & -> & Hf & Hv & _)].
    + right. cbn [sf_value]. rewrite Eq. f_equal. destruct s; cbn [cond_Zopp Z.opp]; rewrite of_Z_0; ring.
    + destruct (e2 <=? emax - prec)%Z eqn:El; [right|left; split; [reflexivity|]].
      2: { apply Z.leb_gt in El. rewrite <- Hv. pose proof (digits_bounds m2) as Hm2.
        assert (Hd2 : digits m2 = prec) by (unfold SpecFloat.fexp in Hf; unfold SpecFloat.emin in *; lia).
        rewrite Hd2 in Hm2. replace emax with (prec - 1 + (emax - prec + 1))%Z by lia. rewrite pow2_add.
        apply Qcle_trans with (of_Z (Zpos m2) * pow2 (emax - prec + 1)).
        - apply Qcmult_le_compat_r; [|apply pow2_nonneg]. rewrite pow2_Z by lia. apply of_Z_mono. lia.
        - rewrite !(Qcmult_comm (of_Z _)). apply Qcmult_le_compat_r; [apply pow2_mono; lia|].
          rewrite <- of_Z_0. apply of_Z_mono. lia. }
      cbn [sf_value]. f_equal.
      rewrite !of_Z_cond, <- !Qcmult_assoc, Hv. reflexivity.
  - intros mc ec Hb Hv. unfold bounded, canonical_mantissa in Hb. apply andb_true_iff in Hb as [Hb1 Hb2].
    apply Zeq_bool_eq in Hb1. pose proof (same_digits _ _ _ _ Hv) as Hdig. fold d in Hdig.
    assert (Ee : e' = ec) by (unfold e'; rewrite Hdig; exact Hb1).
    assert (Em : (Zpos m = Zpos mc * P)%Z) by (unfold P; rewrite Ee; apply aligned; [lia|auto]).
    destruct (Hq3 _ Em) as [Eq Ex].
    destruct Hx2 as [[H _]|(m2 & -> & _ & _ & Hs)]; [lia|].
    destruct (Hs ltac:(lia)) as [Hm2 Ee2]. rewrite Ee2, Ee, Hb2. f_equal. lia.
Qed.

Definition eps : Qc := pow2 (- prec).
Definition eta : Qc := pow2 (emin - 1).

(** The position of the first binary digit of [t]. *)
Definition leading (t : Qc) (k : Z) : Prop := pow2 (k - 1) <= Qcabs t /\ Qcabs t < pow2 k.

(** [w] is the multiple of [t]'s unit in the last place nearest to [t], the even one of two. *)
Definition nearest_even (t w : Qc) : Prop :=
  (t = 0 /\ w = 0)
  \/ exists k q, leading t k /\ (Z.abs q <= 2 ^ prec)%Z /\ w = of_Z q * pow2 (fexp k)
       /\ Qcabs (w - t) <= pow2 (fexp k - 1) /\ (Qcabs (w - t) = pow2 (fexp k - 1) -> Z.even q = true).

(** [x] is what becomes of the exact number [t]: the number [w] nearest to it, within half a unit in the
    last place, or an infinity if [w] is out of range. *)
Definition rounds_to (x : spec_float) (t : Qc) : Prop :=
  valid_binary prec emax x = true
  /\ (exists w, nearest_even t w /\ Qcabs (w - t) <= eps * Qcabs t + eta
       /\ (sf_value x = Some w \/ (sf_value x = None /\ pow2 emax <= Qcabs w)))
  /\ (forall c, valid_binary prec emax c = true -> sf_value c = Some t -> sf_value x = Some t).

Lemma some_inj {A} (a b : A) : Some a = Some b -> a = b.
Proof. congruence. Qed.

Lemma positive_value m e : 0 < of_Z (Zpos m) * pow2 e.
Proof.
  rewrite <- (Qcmult_0_l (pow2 e)). apply Qcmult_lt_compat_r; [apply pow2_pos|].
  apply Qcnot_le_lt. rewrite <- of_Z_0. intros L%of_Z_le_inv. lia.
Qed.

Lemma finite_value s m e s' m' e' :
  of_Z (cond_Zopp s (Zpos m)) * pow2 e = of_Z (cond_Zopp s' (Zpos m')) * pow2 e' ->
  s = s' /\ of_Z (Zpos m) * pow2 e = of_Z (Zpos m') * pow2 e'.
Proof.
  intros H. rewrite !of_Z_cond, <- !Qcmult_assoc in H.
  pose proof (positive_value m e) as P1. pose proof (positive_value m' e') as P2.
  set (a := of_Z (Zpos m) * pow2 e) in *. set (b := of_Z (Zpos m') * pow2 e') in *. clearbody a b.
  assert (X : a + b <> 0).
  { intros X. apply (Qclt_not_le _ _ P1). rewrite <- X, <- (Qcplus_0_r a) at 1.
    apply Qcplus_le_compat; [apply Qcle_refl|apply Qclt_le_weak; auto]. }
  destruct s, s'; unfold signed in H.
  - split; auto. transitivity (- (- (1) * a)); [ring|]. rewrite H. ring.
  - exfalso. apply X. transitivity (a + 1 * b); [ring|]. rewrite <- H. ring.
  - exfalso. apply X. transitivity (1 * a + b); [ring|]. rewrite H. ring.
  - split; auto. rewrite !Qcmult_1_l in H. exact H.
Qed.

Lemma rounds_distance q P m e : (0 <= P)%Z ->
  Qcabs (of_Z q * pow2 (P + e) - of_Z (Zpos m) * pow2 e) = of_Z (Z.abs (2 * (q * 2 ^ P - Zpos m))) * pow2 (e - 1).
Proof.
  intros HP. rewrite (pow2_add P e), (pow2_Z P HP).
  replace (of_Z q * (of_Z (2 ^ P) * pow2 e) - of_Z (Zpos m) * pow2 e)
    with (of_Z (2 * (q * 2 ^ P - Zpos m)) * pow2 (e - 1)).
  - rewrite Qcabs_Qcmult, of_Z_abs, (Qcabs_pos (pow2 (e - 1))) by apply pow2_nonneg. reflexivity.
  - replace e with (1 + (e - 1))%Z at 2 3 by lia. rewrite pow2_add.
    change (pow2 1) with (of_Z 2). rewrite of_Z_mul, of_Z_sub, of_Z_mul. ring.
Qed.

Lemma mul_pow2_inj a b e : of_Z a * pow2 e = of_Z b * pow2 e -> a = b.
Proof.
  intros H. apply of_Z_inj. apply (f_equal (fun q => q * / pow2 e)) in H. rewrite <- !Qcmult_assoc in H.
  rewrite Qcmult_inv_r in H by apply pow2_nonzero. rewrite !Qcmult_1_r in H. exact H.
Qed.

Lemma leading_digits s m e : leading (of_Z (cond_Zopp s (Zpos m)) * pow2 e) (digits m + e).
Proof.
  unfold leading. rewrite of_Z_cond, <- Qcmult_assoc, signed_abs.
  rewrite Qcabs_pos by (apply Qclt_le_weak; apply positive_value).
  pose proof (digits_bounds m) as Hm. split.
  - replace (digits m + e - 1)%Z with (digits m - 1 + e)%Z by lia. rewrite pow2_add, pow2_Z by lia.
    apply Qcmult_le_compat_r; [|apply pow2_nonneg]. apply of_Z_mono. apply Hm.
  - rewrite pow2_add, (pow2_Z (digits m)) by lia. apply Qcmult_lt_compat_r; [apply pow2_pos|].
    apply Qcnot_le_lt. intros L%of_Z_le_inv. lia.
Qed.

Lemma rounds_near q P m e : (Z.abs (2 * (q * 2 ^ P - Zpos m)) <= 2 ^ P)%Z -> (0 <= P)%Z ->
  Qcabs (of_Z q * pow2 (P + e) - of_Z (Zpos m) * pow2 e) <= pow2 (P + e - 1).
Proof.
  intros H HP. rewrite (pow2_add P e), (pow2_Z P HP).
  replace (of_Z q * (of_Z (2 ^ P) * pow2 e) - of_Z (Zpos m) * pow2 e)
    with (of_Z (2 * (q * 2 ^ P - Zpos m)) * pow2 (e - 1)).
  - rewrite Qcabs_Qcmult, of_Z_abs, (Qcabs_pos (pow2 (e - 1))) by apply pow2_nonneg.
    replace (P + e - 1)%Z with (P + (e - 1))%Z by lia. rewrite pow2_add, (pow2_Z P HP).
    apply Qcmult_le_compat_r; [|apply pow2_nonneg]. apply of_Z_mono. exact H.
  - replace e with (1 + (e - 1))%Z at 2 3 by lia. rewrite pow2_add.
    change (pow2 1) with (of_Z 2). rewrite of_Z_mul, of_Z_sub, of_Z_mul. ring.
Qed.

Lemma round_aux_rounds s m e : (e <= fexp (digits m + e))%Z ->
  rounds_to (binary_round_aux prec emax s (Zpos m) e loc_Exact) (of_Z (cond_Zopp s (Zpos m)) * pow2 e).
Proof.
  intros He. destruct (round_aux s m e He) as (Hv & (q & Hq & Hd & Hev & Hx) & Hex). cbv zeta in *.
  set (x := binary_round_aux _ _ _ _ _ _) in *. set (e' := fexp (digits m + e)) in *.
  split; [exact Hv|split].
  - exists (of_Z (cond_Zopp s q) * pow2 e'). split; [|split].
    + right. exists (digits m + e)%Z, (cond_Zopp s q). split; [apply leading_digits|].
      split; [destruct s; cbn [cond_Zopp]; lia|]. split; [reflexivity|]. fold e'.
      replace (of_Z (cond_Zopp s q) * pow2 e' - of_Z (cond_Zopp s (Zpos m)) * pow2 e)
        with (signed s * (of_Z q * pow2 (e' - e + e) - of_Z (Zpos m) * pow2 e))
        by (replace (e' - e + e)%Z with e' by lia; rewrite !of_Z_cond; ring).
      rewrite signed_abs, rounds_distance by lia.
      assert (Eu : pow2 (e' - 1) = of_Z (2 ^ (e' - e)) * pow2 (e - 1))
        by (rewrite <- pow2_Z, <- pow2_add by lia; f_equal; lia).
      rewrite Eu. split.
      * apply Qcmult_le_compat_r; [|apply pow2_nonneg]. apply of_Z_mono. exact Hd.
      * intros E%mul_pow2_inj. apply Hev in E. destruct s; cbn [cond_Zopp]; [rewrite Z.even_opp|]; exact E.
    + rewrite !of_Z_cond. replace (signed s * of_Z q * pow2 e' - signed s * of_Z (Zpos m) * pow2 e)
        with (signed s * (of_Z q * pow2 e' - of_Z (Zpos m) * pow2 e)) by ring.
      rewrite <- (Qcmult_assoc (signed s)), !signed_abs.
      pose proof (rounds_near q (e' - e) m e Hd ltac:(lia)) as H. replace (e' - e + e)%Z with e' in H by lia.
      eapply Qcle_trans; [exact H|]. rewrite (Qcabs_pos (of_Z (Zpos m) * pow2 e))
        by (apply Qclt_le_weak; apply positive_value).
      destruct (Z.max_spec (digits m + e - prec) emin) as [[_ E]|[_ E]].
      * assert (e' = emin) as -> by (unfold e', SpecFloat.fexp; exact E).
        rewrite <- (Qcplus_0_l (pow2 (emin - 1))). apply Qcplus_le_compat; [|apply Qcle_refl].
        rewrite <- (Qcmult_0_l (of_Z (Zpos m) * pow2 e)). apply Qcmult_le_compat_r; [apply pow2_nonneg|].
        apply Qclt_le_weak. apply positive_value.
      * assert (Ee : e' = (digits m + e - prec)%Z) by (unfold e', SpecFloat.fexp; exact E).
        rewrite <- (Qcplus_0_r (pow2 (e' - 1))). apply Qcplus_le_compat; [|apply pow2_nonneg].
        rewrite Ee. replace (digits m + e - prec - 1)%Z with (- prec + (digits m - 1 + e))%Z by lia.
        rewrite !pow2_add. unfold eps. rewrite !(Qcmult_comm (pow2 (- prec))).
        apply Qcmult_le_compat_r; [|apply pow2_nonneg]. apply Qcmult_le_compat_r; [|apply pow2_nonneg].
        rewrite pow2_Z by lia. apply of_Z_mono. apply digits_bounds.
    + destruct Hx as [[-> Hbig]|Hx]; [right|left; exact Hx]. split; [reflexivity|].
      rewrite of_Z_cond, <- Qcmult_assoc, signed_abs. eapply Qcle_trans; [exact Hbig|apply Qcle_Qcabs].
  - intros c Hc Ec. destruct c as [t| | |t mc ec]; try discriminate.
    + exfalso. cbn [sf_value] in Ec. apply some_inj in Ec. symmetry in Ec. apply Qcmult_integral in Ec as [Ec|Ec].
      * rewrite <- of_Z_0 in Ec. apply of_Z_inj in Ec. destruct s; discriminate.
      * apply (pow2_nonzero _ Ec).
    + cbn [sf_value] in Ec. apply some_inj in Ec. apply finite_value in Ec as Ec'. destruct Ec' as [-> Ec'].
      rewrite (Hex mc ec); auto. cbn [sf_value]. rewrite Ec. reflexivity.
Qed.

Lemma shl_align_value m e e' : let '(mz, ez) := shl_align m e e' in
  (ez <= e)%Z /\ (ez <= e' \/ ez = e)%Z /\ (e' <= e -> ez = e')%Z
  /\ Zpos mz = (Zpos m * 2 ^ (e - ez))%Z /\ of_Z (Zpos mz) * pow2 ez = of_Z (Zpos m) * pow2 e.
Proof.
  assert (V : forall mz ez, (ez <= e)%Z -> Zpos mz = (Zpos m * 2 ^ (e - ez))%Z ->
    of_Z (Zpos mz) * pow2 ez = of_Z (Zpos m) * pow2 e).
  { intros mz ez Hz ->. rewrite of_Z_mul, <- pow2_Z, <- Qcmult_assoc, <- pow2_add by lia. f_equal. f_equal. lia. }
  unfold shl_align. destruct (e' - e)%Z as [|d|d] eqn:E.
  - assert (e' = e) by lia. subst e'. rewrite Z.sub_diag. repeat split; try lia.
  - rewrite Z.sub_diag. repeat split; try lia.
  - assert (Es : Zpos (shift_pos d m) = (Zpos m * 2 ^ (e - e'))%Z).
    { rewrite shift_pos_correct. replace (e - e')%Z with (Zpos d) by lia.
      change (Z.pow_pos 2 d) with (2 ^ Zpos d)%Z. lia. }
    repeat split; try lia. apply V; auto; lia.
Qed.

Lemma round_rounds s m e : rounds_to (binary_round prec emax s m e) (of_Z (cond_Zopp s (Zpos m)) * pow2 e).
Proof.
  unfold binary_round. pose proof (shl_align_value m e (fexp (digits m + e))) as H.
  destruct (shl_align m e (fexp (digits m + e))) as [mz ez]. destruct H as (H1 & H2 & H3 & H4 & H5).
  assert (Ed : (digits mz + ez = digits m + e)%Z) by (apply same_digits; auto).
  replace (of_Z (cond_Zopp s (Zpos m)) * pow2 e) with (of_Z (cond_Zopp s (Zpos mz)) * pow2 ez)
    by (rewrite !of_Z_cond, <- !Qcmult_assoc, H5; reflexivity).
  apply round_aux_rounds. rewrite Ed. lia.
Qed.

Lemma zero_rounds s : rounds_to (S754_zero s) 0.
Proof.
  split; [reflexivity|split].
  - exists 0. split; [left; auto|]. split; [|left; reflexivity]. replace (Qcabs (0 - 0)) with 0 by (apply Qc_is_canon; reflexivity).
    replace (Qcabs 0) with 0 by (apply Qc_is_canon; reflexivity). rewrite Qcmult_0_r, Qcplus_0_l. apply pow2_nonneg.
  - intros. reflexivity.
Qed.

Lemma normalize_rounds z e s : rounds_to (binary_normalize prec emax z e s) (of_Z z * pow2 e).
Proof.
  destruct z as [|m|m]; cbn [binary_normalize].
  - rewrite of_Z_0, Qcmult_0_l. apply zero_rounds.
  - apply (round_rounds false m e).
  - apply (round_rounds true m e).
Qed.

(** Products of canonical numbers need no left shift. *)
Lemma product_aligned mx ex my ey : bounded prec emax mx ex = true -> bounded prec emax my ey = true ->
  (ex + ey <= fexp (digits (mx * my) + (ex + ey)))%Z.
Proof.
  unfold bounded, canonical_mantissa. intros [Hx _]%andb_true_iff [Hy _]%andb_true_iff.
  apply Zeq_bool_eq in Hx, Hy. unfold SpecFloat.fexp in *.
  pose proof (digits_bounds mx) as Bx. pose proof (digits_bounds my) as By. pose proof (digits_bounds (mx * my)) as Bz.
  assert (G : forall d, (0 <= d)%Z -> (2 ^ d <= Zpos (mx * my))%Z -> (d < digits (mx * my))%Z).
  { intros d Hd Hl. apply (Z.pow_lt_mono_r_iff 2); lia. }
  assert (0 < 2 ^ (digits mx - 1))%Z by (apply Z.pow_pos_nonneg; lia).
  assert (0 < 2 ^ (digits my - 1))%Z by (apply Z.pow_pos_nonneg; lia).
  assert (digits mx - 1 < digits (mx * my))%Z by (apply G; [lia|]; rewrite Pos2Z.inj_mul; nia).
  assert (digits my - 1 < digits (mx * my))%Z by (apply G; [lia|]; rewrite Pos2Z.inj_mul; nia).
  unfold SpecFloat.emin in *. lia.
Qed.

(** ** The operations *)

(** A fused multiply-add: the product is added before anything is rounded. Only products of finite
    numbers need care; zeros, infinities and not-a-number multiply exactly. *)
Definition SFfma (x y z : spec_float) : spec_float :=
  match x, y with
  | S754_finite sx mx ex, S754_finite sy my ey =>
      match z with
      | S754_zero _ => binary_round prec emax (xorb sx sy) (mx * my) (ex + ey)
      | _ => SFadd prec emax (S754_finite (xorb sx sy) (mx * my) (ex + ey)) z
      end
  | _, _ => SFadd prec emax (SFmul prec emax x y) z
  end.

Lemma of_Z_xorb sx sy mx my : of_Z (cond_Zopp (xorb sx sy) (Zpos (mx * my)))
  = of_Z (cond_Zopp sx (Zpos mx)) * of_Z (cond_Zopp sy (Zpos my)).
Proof.
  rewrite !of_Z_cond, Pos2Z.inj_mul, of_Z_mul. destruct sx, sy; unfold signed; cbn [xorb]; ring.
Qed.

Lemma mul_rounds x y p q : valid_binary prec emax x = true -> valid_binary prec emax y = true ->
  sf_value x = Some p -> sf_value y = Some q -> rounds_to (SFmul prec emax x y) (p * q).
Proof.
  intros Vx Vy. destruct x as [sx|sx| |sx mx ex], y as [sy|sy| |sy my ey]; try discriminate;
    intros Ep Eq; apply some_inj in Ep, Eq; subst p q; cbn [SFmul];
    rewrite ?Qcmult_0_l, ?Qcmult_0_r; try apply zero_rounds.
  replace (of_Z (cond_Zopp sx (Zpos mx)) * pow2 ex * (of_Z (cond_Zopp sy (Zpos my)) * pow2 ey))
    with (of_Z (cond_Zopp (xorb sx sy) (Zpos (mx * my))) * pow2 (ex + ey))
    by (rewrite of_Z_xorb, pow2_add; ring).
  apply round_aux_rounds. apply product_aligned; auto.
Qed.

Lemma align_sum sx mx ex sy my ey s :
  rounds_to (binary_normalize prec emax
    (cond_Zopp sx (Zpos (fst (shl_align mx ex (Z.min ex ey)))) + cond_Zopp sy (Zpos (fst (shl_align my ey (Z.min ex ey)))))
    (Z.min ex ey) s)
    (of_Z (cond_Zopp sx (Zpos mx)) * pow2 ex + of_Z (cond_Zopp sy (Zpos my)) * pow2 ey).
Proof.
  pose proof (shl_align_value mx ex (Z.min ex ey)) as Hx. pose proof (shl_align_value my ey (Z.min ex ey)) as Hy.
  destruct (shl_align mx ex (Z.min ex ey)) as [ax zx]. destruct (shl_align my ey (Z.min ex ey)) as [ay zy].
  destruct Hx as (_ & _ & Zx & _ & Hx). destruct Hy as (_ & _ & Zy & _ & Hy).
  rewrite (Zx ltac:(lia)) in Hx. rewrite (Zy ltac:(lia)) in Hy. cbn [fst].
  replace (of_Z (cond_Zopp sx (Zpos mx)) * pow2 ex + of_Z (cond_Zopp sy (Zpos my)) * pow2 ey)
    with (of_Z (cond_Zopp sx (Zpos ax) + cond_Zopp sy (Zpos ay)) * pow2 (Z.min ex ey)).
  - apply normalize_rounds.
  - rewrite of_Z_add, !of_Z_cond, Qcmult_plus_distr_l, <- !Qcmult_assoc, Hx, Hy. reflexivity.
Qed.

Lemma canonical_bounds m e : bounded prec emax m e = true ->
  fexp (digits m + e) = e /\ (Zpos m < 2 ^ prec)%Z /\ (emin <= e)%Z /\ (e <= emax - prec)%Z.
Proof.
  unfold bounded, canonical_mantissa. intros [H1 H2]%andb_true_iff. apply Zeq_bool_eq in H1. apply Z.leb_le in H2.
  pose proof (digits_bounds m) as Hm.
  assert (2 ^ digits m <= 2 ^ prec)%Z by (apply Z.pow_le_mono_r; unfold SpecFloat.fexp in H1; lia).
  repeat split; auto; [lia|unfold SpecFloat.fexp in H1; lia].
Qed.

Lemma itself_nearest x p : valid_binary prec emax x = true -> sf_value x = Some p -> nearest_even p p.
Proof.
  intros V E. destruct x as [s|s| |s m e]; try discriminate; apply some_inj in E; subst p; [left; auto|].
  right. destruct (canonical_bounds m e V) as (Hf & Hm & _). exists (digits m + e)%Z, (cond_Zopp s (Zpos m)).
  rewrite Hf. split; [apply leading_digits|]. split; [destruct s; cbn [cond_Zopp]; lia|]. split; [reflexivity|].
  replace (of_Z (cond_Zopp s (Zpos m)) * pow2 e - of_Z (cond_Zopp s (Zpos m)) * pow2 e) with 0 by ring.
  replace (Qcabs 0) with 0 by (apply Qc_is_canon; reflexivity). split; [apply pow2_nonneg|].
  intros H. exfalso. apply (pow2_nonzero (e - 1)). auto.
Qed.

Lemma itself_rounds x p : valid_binary prec emax x = true -> sf_value x = Some p -> rounds_to x p.
Proof.
  intros V E. split; [exact V|split; [|auto]]. exists p. split; [apply (itself_nearest x); auto|]. split; [|left; exact E].
  replace (p - p) with 0 by ring. replace (Qcabs 0) with 0 by (apply Qc_is_canon; reflexivity).
  rewrite <- (Qcplus_0_l 0). apply Qcplus_le_compat; [|apply pow2_nonneg].
  rewrite <- (Qcmult_0_l (Qcabs p)). apply Qcmult_le_compat_r; [apply pow2_nonneg|apply Qcabs_nonneg].
Qed.

Lemma add_rounds x y p q : valid_binary prec emax x = true -> valid_binary prec emax y = true ->
  sf_value x = Some p -> sf_value y = Some q -> rounds_to (SFadd prec emax x y) (p + q).
Proof.
  intros Vx Vy Ex Ey. destruct x as [sx|sx| |sx mx ex], y as [sy|sy| |sy my ey]; try discriminate; cbn [SFadd].
  - apply some_inj in Ex, Ey. subst. rewrite Qcplus_0_l. destruct (Bool.eqb sx sy); apply zero_rounds.
  - apply some_inj in Ex. subst p. rewrite Qcplus_0_l. apply itself_rounds; auto.
  - apply some_inj in Ey. subst q. rewrite Qcplus_0_r. apply itself_rounds; auto.
  - apply some_inj in Ex, Ey. subst. apply align_sum.
Qed.

Lemma fma_rounds x y z p q r : valid_binary prec emax x = true -> valid_binary prec emax y = true ->
  valid_binary prec emax z = true -> sf_value x = Some p -> sf_value y = Some q -> sf_value z = Some r ->
  rounds_to (SFfma x y z) (p * q + r).
Proof.
  intros Vx Vy Vz Ex Ey Ez.
  assert (Z0 : p = 0 \/ q = 0 -> forall s, rounds_to (SFadd prec emax (S754_zero s) z) (p * q + r)).
  { intros H s. replace (p * q) with 0 by (destruct H as [-> | ->]; ring). apply add_rounds; auto. }
  destruct x as [sx|sx| |sx mx ex], y as [sy|sy| |sy my ey]; try discriminate; cbn [SFfma SFmul];
    try (apply Z0; apply some_inj in Ex, Ey; subst; auto; fail).
  apply some_inj in Ex, Ey.
  assert (Epq : p * q = of_Z (cond_Zopp (xorb sx sy) (Zpos (mx * my))) * pow2 (ex + ey))
    by (subst; rewrite of_Z_xorb, pow2_add; ring).
  rewrite Epq. destruct z as [sz|sz| |sz mz ez]; try discriminate; apply some_inj in Ez; subst r.
  - rewrite Qcplus_0_r. apply round_rounds.
  - cbn [SFadd]. apply align_sum.
Qed.

(** Infinities and not-a-number never come back. *)
Lemma add_none x y : sf_value x = None \/ sf_value y = None ->
  sf_value (SFadd prec emax x y) = None /\ valid_binary prec emax (SFadd prec emax x y) = true.
Proof.
  destruct x as [sx|sx| |sx mx ex], y as [sy|sy| |sy my ey]; intros [H|H]; try discriminate; cbn [SFadd];
    try destruct (Bool.eqb sx sy); split; reflexivity.
Qed.
Lemma mul_none x y : sf_value x = None \/ sf_value y = None ->
  sf_value (SFmul prec emax x y) = None /\ valid_binary prec emax (SFmul prec emax x y) = true.
Proof.
  destruct x as [sx|sx| |sx mx ex], y as [sy|sy| |sy my ey]; intros [H|H]; try discriminate; split; reflexivity.
Qed.
Lemma fma_none x y z : sf_value x = None \/ sf_value y = None \/ sf_value z = None ->
  sf_value (SFfma x y z) = None /\ valid_binary prec emax (SFfma x y z) = true.
Proof.
  intros H. assert (C : sf_value (SFmul prec emax x y) = None \/ sf_value z = None ->
    SFfma x y z = SFadd prec emax (SFmul prec emax x y) z -> sf_value (SFfma x y z) = None
      /\ valid_binary prec emax (SFfma x y z) = true) by (intros C ->; apply add_none; exact C).
  destruct x as [sx|sx| |sx mx ex]; try (apply C; [|reflexivity]; destruct H as [H|[H|H]]; auto;
    left; apply mul_none; auto; fail).
  destruct y as [sy|sy| |sy my ey]; try (apply C; [|reflexivity]; destruct H as [H|[H|H]]; auto;
    left; apply mul_none; auto; fail).
  destruct H as [H|[H|H]]; try discriminate. destruct z as [sz|sz| |sz mz ez]; try discriminate; split; reflexivity.
Qed.

Lemma valid_add x y : valid_binary prec emax x = true -> valid_binary prec emax y = true ->
  valid_binary prec emax (SFadd prec emax x y) = true.
Proof.
  intros Vx Vy. destruct (sf_value x) as [p|] eqn:Ex; [|apply add_none; auto].
  destruct (sf_value y) as [q|] eqn:Ey; [|apply add_none; auto]. apply (add_rounds x y p q); auto.
Qed.
Lemma valid_mul x y : valid_binary prec emax x = true -> valid_binary prec emax y = true ->
  valid_binary prec emax (SFmul prec emax x y) = true.
Proof.
  intros Vx Vy. destruct (sf_value x) as [p|] eqn:Ex; [|apply mul_none; auto].
  destruct (sf_value y) as [q|] eqn:Ey; [|apply mul_none; auto]. apply (mul_rounds x y p q); auto.
Qed.
Lemma valid_fma x y z : valid_binary prec emax x = true -> valid_binary prec emax y = true ->
  valid_binary prec emax z = true -> valid_binary prec emax (SFfma x y z) = true.
Proof.
  intros Vx Vy Vz. destruct (sf_value x) as [p|] eqn:Ex; [|apply fma_none; auto].
  destruct (sf_value y) as [q|] eqn:Ey; [|apply fma_none; auto].
  destruct (sf_value z) as [r|] eqn:Ez; [|apply fma_none; auto]. apply (fma_rounds x y z p q r); auto.
Qed.

(** ** Small powers of two are representable *)

Lemma power_valid k : (0 <= k < emax)%Z ->
  exists c, valid_binary prec emax c = true /\ sf_value c = Some (pow2 k).
Proof.
  intros Hk. assert (H0 : (0 < 2 ^ (prec - 1))%Z) by (apply Z.pow_pos_nonneg; lia).
  destruct (2 ^ (prec - 1))%Z as [|m|m] eqn:Em; try lia.
  exists (S754_finite false m (k + 1 - prec)). split.
  - cbn [valid_binary]. unfold bounded, canonical_mantissa. apply andb_true_iff. split; [|apply Z.leb_le; lia].
    apply Zeq_is_eq_bool. assert (digits m = prec) as ->.
    { apply digits_unique; [lia|]. rewrite <- Em. split; [lia|]. apply Z.pow_lt_mono_r; lia. }
    unfold SpecFloat.fexp, SpecFloat.emin. lia.
  - cbn [sf_value cond_Zopp]. rewrite <- Em, <- pow2_Z, <- pow2_add by lia. f_equal. f_equal. lia.
Qed.

Lemma one_rounds : rounds_to (SFone prec emax) 1.
Proof.
  replace 1 with (of_Z 1 * pow2 0) by (apply Qc_is_canon; reflexivity). apply (round_rounds false 1 0).
Qed.
Lemma one_value : sf_value (SFone prec emax) = Some 1.
Proof.
  destruct one_rounds as (_ & _ & H). destruct (power_valid 0) as (c & Vc & Ec); [lia|].
  apply (H c Vc). rewrite Ec. reflexivity.
Qed.

End Round.
