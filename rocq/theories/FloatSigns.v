(** Floating-point arithmetic and signs (C62). *)
From Verif Require Import Base BaseFacts NDArray FloatFacts FloatMain.
From Coq Require Import Lia Bool ZArith SpecFloat.
Local Open Scope Z_scope.

(** The same number: zeros are not told apart. *)
Definition same_up_to_sign_of_zero (x y : spec_float) : Prop := x = y \/ exists s s', x = S754_zero s /\ y = S754_zero s'.

Lemma same_up_to_sign_of_zero_refl x : same_up_to_sign_of_zero x x.
Proof. left. auto. Qed.
Lemma same_up_to_sign_of_zero_trans x y z : same_up_to_sign_of_zero x y -> same_up_to_sign_of_zero y z -> same_up_to_sign_of_zero x z.
Proof.
  intros [->|(s & s' & -> & ->)]; auto. intros [<-|(t & t' & Et & ->)]; right; eauto.
Qed.
Lemma same_up_to_sign_of_zero_sym x y : same_up_to_sign_of_zero x y -> same_up_to_sign_of_zero y x.
Proof. intros [->|(s & s' & -> & ->)]; unfold same_up_to_sign_of_zero; eauto. Qed.

(** The sign changed if [b]. *)
Definition flip (b : bool) (x : spec_float) : spec_float := if b then SFopp x else x.

Lemma flip_same b x y : same_up_to_sign_of_zero x y -> same_up_to_sign_of_zero (flip b x) (flip b y).
Proof. intros [->|(s & s' & -> & ->)]; [left; auto|]. right. destruct b; cbn [flip SFopp]; eauto. Qed.

Lemma zero_sign_add p e x x' y y' : same_up_to_sign_of_zero x x' -> same_up_to_sign_of_zero y y' ->
  same_up_to_sign_of_zero (SFadd p e x y) (SFadd p e x' y').
Proof.
  intros [->|(s & s' & -> & ->)] [->|(t & t' & -> & ->)].
  - left; auto.
  - destruct x' as [u|u| |u m k]; cbn [SFadd]; try (left; reflexivity).
    right. destruct u, t, t'; do 2 eexists; split; reflexivity.
  - destruct y' as [u|u| |u m k]; cbn [SFadd]; try (left; reflexivity).
    right. destruct u, s, s'; do 2 eexists; split; reflexivity.
  - right. cbn [SFadd]. destruct s, s', t, t'; do 2 eexists; split; reflexivity.
Qed.

Lemma zero_sign_mul p e x x' y y' : same_up_to_sign_of_zero x x' -> same_up_to_sign_of_zero y y' ->
  same_up_to_sign_of_zero (SFmul p e x y) (SFmul p e x' y').
Proof.
  intros [->|(s & s' & -> & ->)] [->|(t & t' & -> & ->)].
  - left; auto.
  - destruct x' as [u|u| |u m k]; cbn [SFmul]; try (left; reflexivity); right; eauto.
  - destruct y' as [u|u| |u m k]; cbn [SFmul]; try (left; reflexivity); right; eauto.
  - right. cbn [SFmul]. eauto.
Qed.

Lemma zero_sign_fma p e x x' y y' z z' : same_up_to_sign_of_zero x x' -> same_up_to_sign_of_zero y y' ->
  same_up_to_sign_of_zero z z' -> same_up_to_sign_of_zero (SFfma p e x y z) (SFfma p e x' y' z').
Proof.
  intros Hx Hy Hz.
  assert (G : same_up_to_sign_of_zero (SFadd p e (SFmul p e x y) z) (SFadd p e (SFmul p e x' y') z'))
    by (apply zero_sign_add; auto using zero_sign_mul).
  unfold SFfma. destruct Hx as [->|(s & s' & -> & ->)]; [|exact G].
  destruct x' as [u|u| |u m k]; try exact G.
  destruct Hy as [->|(t & t' & -> & ->)]; [|exact G].
  destruct y' as [v|v| |v n l]; try exact G.
  destruct Hz as [->|(r & r' & -> & ->)]; left; reflexivity.
Qed.


Section Flip.
Variables prec emax : Z.

Lemma flip_valid b x : valid_binary prec emax (flip b x) = valid_binary prec emax x.
Proof. destruct b, x; auto. Qed.

Lemma cond_opp_neg s z : cond_Zopp (negb s) z = - cond_Zopp s z.
Proof. destruct s; simpl; lia. Qed.

Lemma round_aux_opp s m e l : binary_round_aux prec emax (negb s) m e l = SFopp (binary_round_aux prec emax s m e l).
Proof.
  unfold binary_round_aux. destruct (shr_fexp prec emax m e l) as [x e1].
  destruct (shr_fexp prec emax _ e1 loc_Exact) as [x2 e2]. destruct (shr_m x2); auto. destruct (e2 <=? emax - prec); auto.
Qed.

Lemma round_opp s m e : binary_round prec emax (negb s) m e = SFopp (binary_round prec emax s m e).
Proof. unfold binary_round. destruct (shl_align m e _) as [mz ez]. apply round_aux_opp. Qed.

Lemma normalize_opp z e s s' : same_up_to_sign_of_zero (binary_normalize prec emax (- z) e s) (SFopp (binary_normalize prec emax z e s')).
Proof.
  destruct z as [|m|m]; cbn [Z.opp binary_normalize].
  - right. eexists _, _. split; reflexivity.
  - left. exact (round_opp false m e).
  - left. exact (round_opp true m e).
Qed.

Lemma add_opp x y : same_up_to_sign_of_zero (SFadd prec emax (SFopp x) (SFopp y)) (SFopp (SFadd prec emax x y)).
Proof.
  destruct x as [sx|sx| |sx mx ex], y as [sy|sy| |sy my ey]; cbn [SFopp SFadd]; try (left; reflexivity).
  - right. destruct sx, sy; eexists _, _; split; reflexivity.
  - destruct sx, sy; left; reflexivity.
  - rewrite !cond_opp_neg, <- Z.opp_add_distr. apply normalize_opp.
Qed.

Lemma mul_opp x y : SFmul prec emax (SFopp x) y = SFopp (SFmul prec emax x y).
Proof.
  destruct x as [sx|sx| |sx mx ex], y as [sy|sy| |sy my ey]; cbn [SFopp SFmul]; auto;
    try (destruct sx, sy; reflexivity).
  rewrite <- negb_xorb_l. apply round_aux_opp.
Qed.

Lemma mul_opp_r x y : SFmul prec emax x (SFopp y) = SFopp (SFmul prec emax x y).
Proof.
  destruct x as [sx|sx| |sx mx ex], y as [sy|sy| |sy my ey]; cbn [SFopp SFmul]; auto;
    try (destruct sx, sy; reflexivity).
  rewrite <- negb_xorb_r. apply round_aux_opp.
Qed.

Lemma flip_add b x y : same_up_to_sign_of_zero (SFadd prec emax (flip b x) (flip b y)) (flip b (SFadd prec emax x y)).
Proof. destruct b; [apply add_opp|left; reflexivity]. Qed.

Lemma opp_opp x : SFopp (SFopp x) = x.
Proof. destruct x; cbn [SFopp]; rewrite ?negb_involutive; auto. Qed.

Lemma flip_mul b c x y : SFmul prec emax (flip b x) (flip c y) = flip (xorb b c) (SFmul prec emax x y).
Proof.
  destruct b, c; cbn [flip xorb]; rewrite ?mul_opp, ?mul_opp_r, ?opp_opp; auto.
Qed.

Lemma flip_fma b c x y z :
  same_up_to_sign_of_zero (SFfma prec emax (flip b x) (flip c y) (flip (xorb b c) z)) (flip (xorb b c) (SFfma prec emax x y z)).
Proof.
  assert (G : forall x y, same_up_to_sign_of_zero (SFadd prec emax (SFmul prec emax (flip b x) (flip c y)) (flip (xorb b c) z))
                (flip (xorb b c) (SFadd prec emax (SFmul prec emax x y) z))).
  { intros. rewrite flip_mul. apply flip_add. }
  assert (E : forall sx mx ex sy my ey, flip b (S754_finite sx mx ex) = S754_finite (xorb b sx) mx ex
             /\ flip c (S754_finite sy my ey) = S754_finite (xorb c sy) my ey).
  { intros. split; [destruct b|destruct c]; cbn [flip SFopp xorb]; auto; try destruct sx; try destruct sy; auto. }
  destruct x as [sx|sx| |sx mx ex].
  - specialize (G (S754_zero sx) y). destruct b; exact G.
  - specialize (G (S754_infinity sx) y). destruct b; exact G.
  - specialize (G S754_nan y). destruct b; exact G.
  - destruct y as [sy|sy| |sy my ey].
    1: specialize (G (S754_finite sx mx ex) (S754_zero sy)); destruct b, c; exact G.
    1: specialize (G (S754_finite sx mx ex) (S754_infinity sy)); destruct b, c; exact G.
    1: specialize (G (S754_finite sx mx ex) S754_nan); destruct b, c; exact G.
    destruct (E sx mx ex sy my ey) as [-> ->].
    assert (Ex : forall m e, S754_finite (xorb (xorb b sx) (xorb c sy)) m e = flip (xorb b c) (S754_finite (xorb sx sy) m e)).
    { intros. destruct b, c, sx, sy; reflexivity. }
    destruct z as [sz|sz| |sz mz ez].
    + replace (flip (xorb b c) (S754_zero sz)) with (S754_zero (xorb (xorb b c) sz)) by (destruct b, c, sz; reflexivity).
      cbn [SFfma]. left. destruct b, c, sx, sy; cbn [xorb flip negb]; auto; try (symmetry; apply (round_opp true)); try apply (round_opp false).
      all: try (rewrite <- (round_opp true); reflexivity); try (rewrite <- (round_opp false); reflexivity).
    + destruct b, c, sx, sy; left; reflexivity.
    + destruct b, c, sx, sy; left; reflexivity.
    + replace (flip (xorb b c) (S754_finite sz mz ez)) with (S754_finite (xorb (xorb b c) sz) mz ez) by (destruct b, c, sz; reflexivity).
      cbn [SFfma]. rewrite Ex.
      replace (S754_finite (xorb (xorb b c) sz) mz ez) with (flip (xorb b c) (S754_finite sz mz ez)) by (destruct b, c, sz; reflexivity).
      apply flip_add.
Qed.

(** ** Signs *)

(** Not a number, zero, or of the sign [s] (negative if true). *)
Definition has_sign (s : bool) (x : spec_float) : Prop :=
  match x with S754_zero _ | S754_nan => True | S754_infinity t | S754_finite t _ _ => t = s end.

Lemma round_aux_sign s m e l : has_sign s (binary_round_aux prec emax s m e l).
Proof.
  unfold binary_round_aux. destruct (shr_fexp prec emax m e l) as [x e1].
  destruct (shr_fexp prec emax _ e1 loc_Exact) as [x2 e2]. destruct (shr_m x2); simpl; auto.
  destruct (e2 <=? emax - prec); simpl; auto.
Qed.

Lemma round_sign s m e : has_sign s (binary_round prec emax s m e).
Proof. unfold binary_round. destruct (shl_align m e _) as [mz ez]. apply round_aux_sign. Qed.

Lemma add_sign s x y : has_sign s x -> has_sign s y -> has_sign s (SFadd prec emax x y).
Proof.
  destruct x as [sx|sx| |sx mx ex], y as [sy|sy| |sy my ey]; cbn [has_sign SFadd]; intros; subst; auto.
  - destruct (Bool.eqb sx sy); exact I.
  - rewrite eqb_reflx. reflexivity.
  - set (a := fst _). set (b := fst (shl_align my ey _)).
    destruct s; cbn [cond_Zopp]; apply round_sign.
Qed.

Lemma mul_sign s t x y : has_sign s x -> has_sign t y -> has_sign (xorb s t) (SFmul prec emax x y).
Proof.
  destruct x as [sx|sx| |sx mx ex], y as [sy|sy| |sy my ey]; cbn [has_sign SFmul]; intros; subst; auto.
  apply round_aux_sign.
Qed.

Lemma fma_sign s t x y z : has_sign s x -> has_sign t y -> has_sign (xorb s t) z ->
  has_sign (xorb s t) (SFfma prec emax x y z).
Proof.
  intros Hx Hy Hz.
  assert (G : has_sign (xorb s t) (SFadd prec emax (SFmul prec emax x y) z)) by (apply add_sign; auto using mul_sign).
  destruct x as [sx|sx| |sx mx ex]; try exact G.
  destruct y as [sy|sy| |sy my ey]; try exact G.
  cbn [has_sign] in Hx, Hy. subst. unfold SFfma. destruct z as [sz|sz| |sz mz ez]; try (apply add_sign; [reflexivity|exact Hz]).
  apply round_sign.
Qed.

End Flip.
