(** Rounding to nearest, ties to even: the nearest number is unique and optimal, rounding is monotone, and
    it commutes with multiplication by powers of two where no digits are lost (C62). *)
From Verif Require Import Base BaseFacts FloatFacts FloatMain.
From Coq Require Import Lia ZArith QArith Qcanon Qcabs Lqa SpecFloat.
Local Open Scope list_scope.
Local Open Scope Qc_scope.

(** ** Linear arithmetic on canonical rationals *)

Lemma this_plus a b : (this (a + b) == this a + this b)%Q.
Proof. apply Qred_correct. Qed.
Lemma this_opp a : (this (- a) == - this a)%Q.
Proof. apply Qred_correct. Qed.
Lemma this_minus a b : (this (a - b) == this a - this b)%Q.
Proof. unfold Qcminus. rewrite this_plus, this_opp. reflexivity. Qed.

Lemma qc_eq_le (a b : Qc) : a <= b -> b <= a -> a = b.
Proof. apply Qcle_antisym. Qed.

Lemma eq_this (a b : Qc) : a = b -> (this a == this b)%Q.
Proof. intros ->. reflexivity. Qed.

Ltac qc_push := repeat match goal with
  | H : context [this (?a + ?b)] |- _ => rewrite (this_plus a b) in H
  | H : context [this (?a - ?b)] |- _ => rewrite (this_minus a b) in H
  | H : context [this (- ?a)] |- _ => rewrite (this_opp a) in H
  | |- context [this (?a + ?b)] => rewrite (this_plus a b)
  | |- context [this (?a - ?b)] => rewrite (this_minus a b)
  | |- context [this (- ?a)] => rewrite (this_opp a)
  end.

Ltac qc_lra :=
  repeat match goal with
  | H : @eq Qc _ _ |- _ => apply eq_this in H
  | |- @eq Qc _ _ => apply qc_eq_le
  end;
  unfold Qcle, Qclt in *; qc_push; change (this 0) with 0%Q in *; lra.

Lemma abs_cases a : (0 <= a /\ Qcabs a = a) \/ (a <= 0 /\ Qcabs a = - a).
Proof.
  destruct (Qclt_le_dec a 0) as [H|H].
  - right. split; [apply Qclt_le_weak; auto|]. apply Qcabs_neg. apply Qclt_le_weak; auto.
  - left. split; auto. apply Qcabs_pos; auto.
Qed.

Lemma pow2_double e : pow2 e = pow2 (e - 1) + pow2 (e - 1).
Proof.
  replace e with (1 + (e - 1))%Z at 1 by lia. rewrite pow2_add. change (pow2 1) with (1 + 1). ring.
Qed.

(** ** Nearest multiples *)

Definition near (e q : Z) (t : Qc) : Prop :=
  Qcabs (of_Z q * pow2 e - t) <= pow2 (e - 1) /\ (Qcabs (of_Z q * pow2 e - t) = pow2 (e - 1) -> Z.even q = true).

Lemma of_Z_pow2_le a b e : (a <= b)%Z -> of_Z a * pow2 e <= of_Z b * pow2 e.
Proof. intros H. apply Qcmult_le_compat_r; [apply of_Z_mono; auto|apply pow2_nonneg]. Qed.

Lemma of_Z_succ_pow2 q e : of_Z (q + 1) * pow2 e = of_Z q * pow2 e + pow2 e.
Proof. rewrite of_Z_add, of_Z_1. ring. Qed.

Lemma near_unique_lt e q q' t : (q < q')%Z -> near e q t -> near e q' t -> False.
Proof.
  intros Hl [H1 E1] [H2 E2].
  assert (L : of_Z (q + 1) * pow2 e <= of_Z q' * pow2 e) by (apply of_Z_pow2_le; lia).
  rewrite of_Z_succ_pow2 in L. rewrite (pow2_double e) in L at 2. pose proof (pow2_pos (e - 1)) as P.
  set (a := of_Z q * pow2 e) in *. set (b := of_Z q' * pow2 e) in *. set (u := pow2 (e - 1)) in *.
  destruct (abs_cases (a - t)) as [[C1 A1]|[C1 A1]], (abs_cases (b - t)) as [[C2 A2]|[C2 A2]];
    rewrite A1, A2 in *; try qc_lra.
  assert (Eab : b = a + (u + u)) by qc_lra.
  assert (X : of_Z (q + 1) * pow2 e = of_Z q' * pow2 e)
    by (rewrite of_Z_succ_pow2; fold a b; rewrite (pow2_double e); fold u; rewrite Eab; reflexivity).
  apply mul_pow2_inj in X. subst q'.
  assert (Z.even q = true) as Ev by (apply E1; qc_lra).
  assert (Z.even (q + 1) = true) as Ev' by (apply E2; qc_lra).
  rewrite Z.even_add, Ev in Ev'. discriminate.
Qed.

Lemma near_unique e q q' t : near e q t -> near e q' t -> q = q'.
Proof.
  intros H H'. destruct (Z.lt_trichotomy q q') as [L|[L|L]]; auto; exfalso; eapply near_unique_lt; eauto.
Qed.

(** The nearest multiple is at least as near as the others. *)
Lemma near_best e q j t : near e q t -> Qcabs (of_Z q * pow2 e - t) <= Qcabs (of_Z j * pow2 e - t).
Proof.
  intros [H _]. destruct (Z.lt_trichotomy q j) as [L|[->|L]]; [|apply Qcle_refl|].
  - assert (L' : of_Z (q + 1) * pow2 e <= of_Z j * pow2 e) by (apply of_Z_pow2_le; lia).
    rewrite of_Z_succ_pow2 in L'. rewrite (pow2_double e) in L' at 2.
    set (a := of_Z q * pow2 e) in *. set (b := of_Z j * pow2 e) in *. set (u := pow2 (e - 1)) in *.
    destruct (abs_cases (a - t)) as [[C1 A1]|[C1 A1]], (abs_cases (b - t)) as [[C2 A2]|[C2 A2]];
      rewrite A1, A2 in *; qc_lra.
  - assert (L' : of_Z (j + 1) * pow2 e <= of_Z q * pow2 e) by (apply of_Z_pow2_le; lia).
    rewrite of_Z_succ_pow2 in L'. rewrite (pow2_double e) in L' at 2.
    set (a := of_Z q * pow2 e) in *. set (b := of_Z j * pow2 e) in *. set (u := pow2 (e - 1)) in *.
    destruct (abs_cases (a - t)) as [[C1 A1]|[C1 A1]], (abs_cases (b - t)) as [[C2 A2]|[C2 A2]];
      rewrite A1, A2 in *; qc_lra.
Qed.

Lemma pow2_lt_inv a b : pow2 a < pow2 b -> (a < b)%Z.
Proof.
  intros H. destruct (Z.lt_ge_cases a b) as [L|L]; auto. exfalso. apply (Qclt_not_le _ _ H). apply pow2_mono. auto.
Qed.

Lemma leading_unique t k k' : leading t k -> leading t k' -> k = k'.
Proof.
  intros [H1 H2] [H3 H4].
  assert (k - 1 < k')%Z by (apply pow2_lt_inv; eapply Qcle_lt_trans; eauto).
  assert (k' - 1 < k)%Z by (apply pow2_lt_inv; eapply Qcle_lt_trans; eauto). lia.
Qed.

Lemma leading_nonzero t k : leading t k -> t <> 0.
Proof.
  intros [H _] ->. replace (Qcabs 0) with 0 in H by (apply Qc_is_canon; reflexivity).
  apply (Qclt_not_le _ _ (pow2_pos (k - 1))). exact H.
Qed.

Lemma leading_scale t k c : leading t k -> leading (pow2 c * t) (c + k).
Proof.
  intros [H1 H2]. unfold leading. rewrite Qcabs_Qcmult, (Qcabs_pos (pow2 c)) by apply pow2_nonneg.
  replace (c + k - 1)%Z with (c + (k - 1))%Z by lia. rewrite !pow2_add, !(Qcmult_comm (pow2 c)). split.
  - apply Qcmult_le_compat_r; auto. apply pow2_nonneg.
  - apply Qcmult_lt_compat_r; auto. apply pow2_pos.
Qed.

Lemma near_scale e q t c : near e q t -> near (c + e) q (pow2 c * t).
Proof.
  intros [H1 H2]. unfold near.
  replace (of_Z q * pow2 (c + e) - pow2 c * t) with (pow2 c * (of_Z q * pow2 e - t)) by (rewrite pow2_add; ring).
  rewrite Qcabs_Qcmult, (Qcabs_pos (pow2 c)) by apply pow2_nonneg.
  replace (c + e - 1)%Z with (c + (e - 1))%Z by lia. rewrite pow2_add. split.
  - rewrite !(Qcmult_comm (pow2 c)). apply Qcmult_le_compat_r; auto. apply pow2_nonneg.
  - intros E. apply H2. apply (f_equal (fun q => / pow2 c * q)) in E.
    rewrite !Qcmult_assoc, (Qcmult_comm (/ _)), Qcmult_inv_r, !Qcmult_1_l in E by apply pow2_nonzero. exact E.
Qed.

Definition multiple (g : Z) (t : Qc) : Prop := exists j, t = of_Z j * pow2 g.

Lemma multiple_0 g : multiple g 0.
Proof. exists 0%Z. rewrite of_Z_0. ring. Qed.
Lemma multiple_add g t u : multiple g t -> multiple g u -> multiple g (t + u).
Proof. intros (i & ->) (j & ->). exists (i + j)%Z. rewrite of_Z_add. ring. Qed.
Lemma multiple_mul g h t u : multiple g t -> multiple h u -> multiple (g + h) (t * u).
Proof. intros (i & ->) (j & ->). exists (i * j)%Z. rewrite of_Z_mul, pow2_add. ring. Qed.
Lemma multiple_weaken g h t : (h <= g)%Z -> multiple g t -> multiple h t.
Proof.
  intros H (j & ->). exists (j * 2 ^ (g - h))%Z. rewrite of_Z_mul, <- pow2_Z, <- Qcmult_assoc, <- pow2_add by lia.
  f_equal. f_equal. lia.
Qed.
Lemma multiple_scale g c t : multiple g t -> multiple (c + g) (pow2 c * t).
Proof. intros (j & ->). exists j. rewrite pow2_add. ring. Qed.

Section Format.
Variables prec emax : Z.
Hypothesis Hprec : (0 < prec)%Z.
Hypothesis Hemax : (prec < emax)%Z.
Local Notation fexp := (fexp prec emax).
Local Notation emin := (emin prec emax).
Local Notation nearest_even := (nearest_even prec emax).

(** Numbers of the format, were there no largest one. *)
Definition point (v : Qc) : Prop := exists j ec, (Z.abs j <= 2 ^ prec)%Z /\ (emin <= ec)%Z /\ v = of_Z j * pow2 ec.

Lemma fexp_cases k : (fexp k = k - prec /\ emin <= k - prec)%Z \/ (fexp k = emin /\ k - prec <= emin)%Z.
Proof. unfold SpecFloat.fexp. lia. Qed.

Lemma nearest_point t w : nearest_even t w -> point w.
Proof.
  intros [[-> ->]|(k & q & _ & Hq & -> & _)].
  - exists 0%Z, emin. split; [apply Z.pow_nonneg; lia|]. split; [lia|]. rewrite of_Z_0. ring.
  - exists q, (fexp k). split; auto. split; auto. destruct (fexp_cases k); lia.
Qed.

Lemma nearest_unique t w w' : nearest_even t w -> nearest_even t w' -> w = w'.
Proof.
  intros [[-> ->]|(k & q & Hk & _ & -> & H)] [[E ->]|(k' & q' & Hk' & _ & -> & H')]; auto.
  - exfalso. apply (leading_nonzero _ _ Hk'). auto.
  - exfalso. apply (leading_nonzero _ _ Hk). auto.
  - rewrite <- (leading_unique _ _ _ Hk Hk') in *. rewrite (near_unique _ _ _ _ H H'). auto.
Qed.

(** Nothing of the format is nearer. *)
Lemma nearest_best t w v : nearest_even t w -> point v -> Qcabs (w - t) <= Qcabs (v - t).
Proof.
  intros [[-> ->]|(k & q & Hk & _ & -> & H)] (j & ec & Hj & He & ->).
  - replace (0 - 0) with 0 by ring. replace (Qcabs 0) with 0 by (apply Qc_is_canon; reflexivity). apply Qcabs_nonneg.
  - destruct (Z.le_gt_cases (fexp k) ec) as [L|L].
    + destruct (multiple_weaken ec (fexp k) (of_Z j * pow2 ec) L) as (i & ->); [exists j; auto|]. apply near_best. auto.
    + destruct (fexp_cases k) as [[Ef Hf]|[Ef Hf]]; [|lia].
      (* the power of two below t lies between *)
      assert (Hv : Qcabs (of_Z j * pow2 ec) <= pow2 (k - 1)).
      { rewrite Qcabs_Qcmult, of_Z_abs, (Qcabs_pos (pow2 ec)) by apply pow2_nonneg.
        apply Qcle_trans with (of_Z (2 ^ prec) * pow2 ec); [apply of_Z_pow2_le; auto|].
        rewrite <- pow2_Z, <- pow2_add by lia. apply pow2_mono. lia. }
      destruct Hk as [Hk _].
      assert (B : forall s, of_Z (cond_Zopp s (2 ^ (prec - 1))) * pow2 (fexp k) = signed s * pow2 (k - 1)).
      { intros s. rewrite of_Z_cond, <- pow2_Z, <- Qcmult_assoc, <- pow2_add by lia. f_equal. f_equal. lia. }
      pose proof (near_best _ _ (cond_Zopp false (2 ^ (prec - 1))) _ H) as N1. rewrite B in N1.
      pose proof (near_best _ _ (cond_Zopp true (2 ^ (prec - 1))) _ H) as N2. rewrite B in N2.
      unfold signed in N1, N2. rewrite Qcmult_1_l in N1. replace (- (1) * pow2 (k - 1)) with (- pow2 (k - 1)) in N2 by ring.
      pose proof (pow2_nonneg (k - 1)) as P.
      set (v := of_Z j * pow2 ec) in *. set (w := of_Z q * pow2 (fexp k)) in *. set (b := pow2 (k - 1)) in *. clearbody v w b.
      destruct (abs_cases t) as [[C0 A0]|[C0 A0]], (abs_cases v) as [[C3 A3]|[C3 A3]], (abs_cases (v - t)) as [[C1 A1]|[C1 A1]];
        rewrite A0, A1, A3 in *;
        (destruct (abs_cases (b - t)) as [[C2 A2]|[C2 A2]], (abs_cases (- b - t)) as [[C4 A4]|[C4 A4]]; rewrite A2, A4 in *; qc_lra).
Qed.

Lemma nearest_exact t w : nearest_even t w -> point t -> w = t.
Proof.
  intros H Hp. pose proof (nearest_best t w t H Hp) as L. replace (t - t) with 0 in L by ring.
  replace (Qcabs 0) with 0 in L by (apply Qc_is_canon; reflexivity).
  destruct (abs_cases (w - t)) as [[C A]|[C A]]; rewrite A in L; qc_lra.
Qed.

(** Rounding is monotone. *)
Lemma nearest_mono t u w v : nearest_even t w -> nearest_even u v -> t <= u -> w <= v.
Proof.
  intros Hw Hv Htu. destruct (Qclt_le_dec v w) as [L|L]; auto.
  pose proof (nearest_best t w v Hw (nearest_point _ _ Hv)) as B1.
  pose proof (nearest_best u v w Hv (nearest_point _ _ Hw)) as B2.
  assert (E : t = u).
  { destruct (abs_cases (w - t)) as [[C1 A1]|[C1 A1]], (abs_cases (v - t)) as [[C2 A2]|[C2 A2]],
      (abs_cases (v - u)) as [[C3 A3]|[C3 A3]], (abs_cases (w - u)) as [[C4 A4]|[C4 A4]];
      rewrite A1, A2, A3, A4 in *; qc_lra. }
  subst u. rewrite (nearest_unique _ _ _ Hw Hv). apply Qcle_refl.
Qed.

(** Multiples of a representable unit are rounded to multiples of it. *)
Lemma small_multiple_point g t : (emin <= g)%Z -> multiple g t -> Qcabs t <= pow2 (prec + g) -> point t.
Proof.
  intros Hg (j & ->) Hl. exists j, g. split; [|auto]. rewrite Qcabs_Qcmult, of_Z_abs, (Qcabs_pos (pow2 g)) in Hl by apply pow2_nonneg.
  rewrite pow2_add, (pow2_Z prec) in Hl by lia. apply of_Z_le_inv. apply Qcmult_lt_0_le_reg_r with (pow2 g); auto. apply pow2_pos.
Qed.

Lemma nearest_multiple g t w : nearest_even t w -> (emin <= g)%Z -> multiple g t -> multiple g w.
Proof.
  intros Hw Hg Ht. pose proof Hw as [[_ ->]|(k & q & Hk & _ & -> & _)]; [apply multiple_0|].
  destruct (Z.le_gt_cases g (fexp k)) as [L|L]; [apply multiple_weaken with (fexp k); auto; exists q; auto|].
  rewrite (nearest_exact t _ Hw); auto. apply (small_multiple_point g); auto.
  destruct Hk as [_ Hk]. apply Qclt_le_weak in Hk. eapply Qcle_trans; [exact Hk|]. apply pow2_mono.
  destruct (fexp_cases k); lia.
Qed.

(** Where no digits are lost, rounding commutes with multiplication by powers of two. *)
Lemma low_digits_exact t k c : leading t k -> (k - prec <= emin)%Z -> multiple emin t -> multiple emin (pow2 c * t) ->
  point t /\ point (pow2 c * t).
Proof.
  intros [_ Hk] Hl Ht Ht'.
  assert (Hp : Qcabs t <= pow2 (prec + emin)).
  { apply Qclt_le_weak in Hk. eapply Qcle_trans; [exact Hk|]. apply pow2_mono. lia. }
  split; [apply (small_multiple_point emin); auto; lia|].
  assert (A : Qcabs (pow2 c * t) = pow2 c * Qcabs t)
    by (rewrite Qcabs_Qcmult, (Qcabs_pos (pow2 c)) by apply pow2_nonneg; auto).
  destruct (Z.le_ge_cases 0 c) as [Hc|Hc].
  - apply (small_multiple_point (c + emin)); [lia|apply multiple_scale; auto|].
    rewrite A. replace (prec + (c + emin))%Z with (c + (prec + emin))%Z by lia. rewrite pow2_add, !(Qcmult_comm (pow2 c)).
    apply Qcmult_le_compat_r; auto. apply pow2_nonneg.
  - apply (small_multiple_point emin); [lia|auto|]. rewrite A. eapply Qcle_trans; [|exact Hp].
    apply Qcle_trans with (pow2 0 * Qcabs t).
    + apply Qcmult_le_compat_r; [apply pow2_mono; auto|apply Qcabs_nonneg].
    + change (pow2 0) with 1. rewrite Qcmult_1_l. apply Qcle_refl.
Qed.

Lemma nearest_scale t c w w' : nearest_even t w -> nearest_even (pow2 c * t) w' ->
  multiple emin t -> multiple emin (pow2 c * t) -> w' = pow2 c * w.
Proof.
  intros Hw Hw' Ht Ht'.
  pose proof Hw as [[Et Ew]|(k & q & Hk & _ & Ew & H)].
  - assert (E0 : pow2 c * t = 0) by (rewrite Et; ring). rewrite Ew. rewrite E0 in Hw'.
    rewrite (nearest_unique 0 w' 0 Hw' (or_introl (conj eq_refl eq_refl))). ring.
  - pose proof (leading_scale t k c Hk) as Hk'.
    destruct (Z.le_gt_cases (k - prec) emin) as [L|L].
    { destruct (low_digits_exact t k c Hk L Ht Ht') as [P1 P2].
      rewrite (nearest_exact _ _ Hw P1), (nearest_exact _ _ Hw' P2). auto. }
    assert (Et : t = pow2 (- c) * (pow2 c * t)).
    { rewrite Qcmult_assoc, <- pow2_add. replace (- c + c)%Z with 0%Z by lia. change (pow2 0) with 1. ring. }
    destruct (Z.le_gt_cases (c + k - prec) emin) as [L'|L'].
    { destruct (low_digits_exact (pow2 c * t) (c + k) (- c) Hk' L' Ht') as [P1 P2]; [rewrite <- Et; auto|].
      rewrite <- Et in P2. rewrite (nearest_exact _ _ Hw P2), (nearest_exact _ _ Hw' P1). auto. }
    pose proof Hw' as [[E0 _]|(k' & q' & Hk'' & _ & Ew' & H')].
    { exfalso. apply (leading_nonzero _ _ Hk'). auto. }
    rewrite <- (leading_unique _ _ _ Hk' Hk'') in *.
    assert (Ef : fexp (c + k) = (c + fexp k)%Z) by (destruct (fexp_cases k), (fexp_cases (c + k)); lia).
    rewrite Ew, Ew'. rewrite Ew in H. rewrite Ew', Ef in H'. rewrite Ef.
    rewrite <- (near_unique _ _ _ _ (near_scale _ _ _ c H) H'). rewrite pow2_add. ring.
Qed.

(** The numbers of a format are below [2 ^ emax]. *)
Lemma valid_below x p : valid_binary prec emax x = true -> sf_value x = Some p -> Qcabs p < pow2 emax.
Proof.
  intros V E. destruct x as [s|s| |s m e]; try discriminate; apply some_inj in E; subst p.
  - replace (Qcabs 0) with 0 by (apply Qc_is_canon; reflexivity). apply pow2_pos.
  - destruct (canonical_bounds prec emax Hprec m e V) as (_ & Hm & _ & He).
    rewrite of_Z_cond, <- Qcmult_assoc, signed_abs, Qcabs_pos by (apply Qclt_le_weak; apply positive_value).
    apply Qclt_le_trans with (of_Z (2 ^ prec) * pow2 e).
    + apply Qcmult_lt_compat_r; [apply pow2_pos|]. apply Qcnot_le_lt. intros L%of_Z_le_inv. lia.
    + rewrite <- pow2_Z, <- pow2_add by lia. apply pow2_mono. lia.
Qed.

End Format.
