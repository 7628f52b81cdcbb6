(** Single products of floating-point numbers: adding nothing and multiplying by one changes no number,
    except for the sign of a zero. Used by C77. *)
From Verif Require Import Base BaseFacts NDArray Schedule NdSchedule FloatFacts FloatSigns FloatMain.
From Coq Require Import Lia ZArith SpecFloat QArith Qcanon.
Local Open Scope Z_scope.

Section Single.
Variables prec emax : Z.
Hypothesis Hprec : 0 < prec.
Hypothesis Hemax : prec < emax.

(** A zero loses its sign. *)
Definition unsigned_zero (x : spec_float) : spec_float := match x with S754_zero _ => S754_zero false | _ => x end.

Lemma unsigned_zero_same x : same_up_to_sign_of_zero (unsigned_zero x) x.
Proof. destruct x; try (left; reflexivity). right. do 2 eexists. split; reflexivity. Qed.

Lemma zero_plus x : SFadd prec emax (S754_zero false) x = unsigned_zero x.
Proof. destruct x as [[]|[]| |]; reflexivity. Qed.
Lemma plus_zero x : SFadd prec emax x (S754_zero false) = unsigned_zero x.
Proof. destruct x as [[]|[]| |]; reflexivity. Qed.

(** Two numbers of the format with the same value other than zero are the same. *)
Lemma finite_unique s m e y : bounded prec emax m e = true -> valid_binary prec emax y = true ->
  sf_value y = sf_value (S754_finite s m e) -> y = S754_finite s m e.
Proof.
  intros B V E. destruct y as [t|t| |t m' e']; try discriminate; cbn [sf_value] in E.
  - exfalso. apply some_inj in E. pose proof (positive_value m e) as P.
    rewrite of_Z_cond, <- Qcmult_assoc in E. set (a := (of_Z (Zpos m) * pow2 e)%Qc) in *. clearbody a.
    assert (a = 0%Qc) as ->; [|exact (Qclt_not_le _ _ P (Qcle_refl _))].
    destruct s; unfold signed in E; [|rewrite Qcmult_1_l in E; auto].
    transitivity (- (- (1) * a))%Qc; [ring|]. rewrite <- E. ring.
  - apply some_inj in E. apply finite_value in E as [-> E]. pose proof (same_digits _ _ _ _ E) as Hd.
    cbn [valid_binary] in V.
    destruct (canonical_bounds prec emax Hprec _ _ B) as (F1 & _). destruct (canonical_bounds prec emax Hprec _ _ V) as (F2 & _).
    assert (Ee : e' = e) by congruence. subst e'. apply aligned in E; [|lia]. rewrite Z.sub_diag, Z.mul_1_r in E.
    congruence.
Qed.

Lemma one_times x : valid_binary prec emax x = true -> SFmul prec emax (SFone prec emax) x = x.
Proof.
  intros V. pose proof (one_value prec emax Hprec Hemax) as H1. pose proof (proj1 (one_rounds prec emax Hprec Hemax)) as V1.
  assert (P1 : exists m e, SFone prec emax = S754_finite false m e).
  { pose proof (round_sign prec emax false 1 0) as Hs. change (binary_round prec emax false 1 0) with (SFone prec emax) in Hs.
    destruct (SFone prec emax) as [s|s| |s m e]; try discriminate H1. cbn in Hs. subst s. eauto. }
  destruct x as [s|s| |s m e].
  - destruct P1 as (m & e & ->). destruct s; reflexivity.
  - destruct P1 as (m & e & ->). destruct s; reflexivity.
  - destruct P1 as (m & e & ->). reflexivity.
  - apply finite_unique; auto.
    + apply valid_mul; auto.
    + pose proof (mul_rounds prec emax Hprec Hemax _ _ _ _ V1 V H1 eq_refl) as (_ & _ & H).
      rewrite (H _ V); [|cbn [sf_value]; rewrite Qcmult_1_l; reflexivity].
      cbn [sf_value]. rewrite Qcmult_1_l. reflexivity.
Qed.

Lemma fma_of_zero x y : valid_binary prec emax x = true -> valid_binary prec emax y = true ->
  same_up_to_sign_of_zero (SFfma prec emax x y (S754_zero false)) (SFmul prec emax x y).
Proof.
  intros Vx Vy.
  assert (G : same_up_to_sign_of_zero (SFadd prec emax (SFmul prec emax x y) (S754_zero false)) (SFmul prec emax x y))
    by (rewrite plus_zero; apply unsigned_zero_same).
  destruct x as [sx|sx| |sx mx ex]; try exact G. destruct y as [sy|sy| |sy my ey]; try exact G.
  left. cbn [SFfma SFmul]. unfold binary_round.
  pose proof (product_aligned prec emax Hemax mx ex my ey Vx Vy) as Ha. unfold shl_align.
  destruct (SpecFloat.fexp prec emax (Zpos (digits2_pos (mx * my)) + (ex + ey)) - (ex + ey)) eqn:E; try reflexivity. lia.
Qed.
End Single.

(** A product of one pair, however matrices are multiplied. *)
Lemma single_product f m (x y : float f) :
  same_up_to_sign_of_zero (proj1_sig (matrix_sum m f_fma [(x, y)])) (proj1_sig (f_mul x y)).
Proof.
  destruct m as [|kc [|]]; cbn -[SFadd SFmul SFone SFfma].
  - rewrite (one_times _ _ (f_prec_ok f) (f_emax_ok f)).
    + change (SFmul (f_prec f) (f_emax f) (S754_zero false) (S754_zero false)) with (S754_zero false).
      rewrite !zero_plus. eapply same_up_to_sign_of_zero_trans; apply unsigned_zero_same.
    + apply (valid_add _ _ (f_prec_ok f) (f_emax_ok f)); [reflexivity|].
      apply (valid_mul _ _ (f_prec_ok f) (f_emax_ok f)); apply proj2_sig.
  - destruct kc; cbn -[SFadd SFmul SFone SFfma]; (rewrite (one_times _ _ (f_prec_ok f) (f_emax_ok f));
      [apply fma_of_zero; try apply f_prec_ok; try apply f_emax_ok; apply proj2_sig|
       apply (valid_fma _ _ (f_prec_ok f) (f_emax_ok f)); try apply proj2_sig; reflexivity]).
  - destruct kc; cbn -[SFadd SFmul SFone SFfma]; (rewrite (one_times _ _ (f_prec_ok f) (f_emax_ok f));
      [rewrite zero_plus; apply unsigned_zero_same|
       apply (valid_add _ _ (f_prec_ok f) (f_emax_ok f)); [reflexivity|];
       apply (valid_mul _ _ (f_prec_ok f) (f_emax_ok f)); apply proj2_sig]).
Qed.

(** ndarray's own product and one without fused multiply-adds give a positive zero for either zero. *)
Lemma single_product_unfused f m (x y : float f) : (forall kc, m <> Gemm kc true) ->
  proj1_sig (matrix_sum m f_fma [(x, y)]) = unsigned_zero (proj1_sig (f_mul x y)).
Proof.
  intros Hm. destruct m as [|kc [|]]; [| exfalso; eapply Hm; reflexivity|]; cbn -[SFadd SFmul SFone SFfma].
  - rewrite (one_times _ _ (f_prec_ok f) (f_emax_ok f)).
    + change (SFmul (f_prec f) (f_emax f) (S754_zero false) (S754_zero false)) with (S754_zero false).
      rewrite !zero_plus. destruct (SFmul _ _ _ _); reflexivity.
    + apply (valid_add _ _ (f_prec_ok f) (f_emax_ok f)); [reflexivity|].
      apply (valid_mul _ _ (f_prec_ok f) (f_emax_ok f)); apply proj2_sig.
  - destruct kc; cbn -[SFadd SFmul SFone SFfma]; (rewrite (one_times _ _ (f_prec_ok f) (f_emax_ok f));
      [apply zero_plus|
       apply (valid_add _ _ (f_prec_ok f) (f_emax_ok f)); [reflexivity|];
       apply (valid_mul _ _ (f_prec_ok f) (f_emax_ok f)); apply proj2_sig]).
Qed.
