(** Arithmetic that rounds and overflows only past a threshold: when every scalar of a run is certain
    to represent a number. *)
From Verif Require Import Base BaseFacts NDArray Validation Optimizers Path Api Spec
  ParserFacts ValidationMain SumFacts ArrayFacts PathFacts EinsumMain RelationFacts TensordotMain RoundFacts.
From Coq Require Import Lia Lqa QArith Qcanon Qcabs.
Local Open Scope list_scope.
Local Open Scope nat_scope.
Local Open Scope Qc_scope.

(** A sum or product that stays below [big], rounding included, represents a number. *)
Record overflow_from {F : Type} {Sf : Scalar F} (v : F -> option Qc) (eps eta big : Qc) : Prop := {
  ovf_eta : eta < big;
  ovf_add : forall x y p q, v x = Some p -> v y = Some q ->
    (1 + eps) * Qcabs (p + q) + eta < big -> v (sadd x y) <> None;
  ovf_mul : forall x y p q, v x = Some p -> v y = Some q ->
    (1 + eps) * Qcabs (p * q) + eta < big -> v (smul x y) <> None
}.

(** The same for a fused multiply-add. *)
Definition fused_overflow_from {F : Type} (v : F -> option Qc) (eps eta big : Qc) (fma : F -> F -> F -> F) : Prop :=
  forall x y z p q r, v x = Some p -> v y = Some q -> v z = Some r ->
    (1 + eps) * Qcabs (p * q + r) + eta < big -> v (fma x y z) <> None.

Section Overflow.
Context {F : Type} {Sf : Scalar F}.
Variables (v : F -> option Qc) (eps eta big : Qc).
Hypothesis HF : rounding v eps eta.
Hypothesis HB : overflow_from v eps eta big.

Let He : 0 <= eps := rnd_eps _ _ _ HF.
Let Ht : 0 <= eta := rnd_eta _ _ _ HF.

(** The largest absolute value after [n] roundings of something bounded by [b]. *)
Definition top (n : nat) (b : Qc) : Qc := grow eps n * (grow eta n * b).

Lemma top_nonneg n b : 0 <= b -> 0 <= top n b.
Proof. intros Hb. unfold top. repeat apply Qcle_0_mult; auto; apply grow_nonneg; auto. Qed.

Lemma top_mono n n' b b' : (n <= n')%nat -> 0 <= b -> b <= b' -> top n b <= top n' b'.
Proof.
  intros Hn Hb Hb'. unfold top. apply Qcle_mult.
  - apply grow_nonneg; auto.
  - apply Qcle_0_mult; auto. apply grow_nonneg; auto.
  - apply grow_mono; auto.
  - apply Qcle_mult; auto; [apply grow_nonneg; auto|apply grow_mono; auto].
Qed.

Lemma top_plus n b b' : top n (b + b') = top n b + top n b'.
Proof. unfold top. ring. Qed.

Lemma top_mult n n' b b' : top (n + n') (b * b') = top n b * top n' b'.
Proof. unfold top. rewrite !grow_add. ring. Qed.

Lemma top_step n b w : 1 <= b -> Qcabs w <= top n b -> (1 + eps) * Qcabs w + eta <= top (S n) b.
Proof.
  intros Hb Hw. assert (He' : 0 <= 1 + eps) by (apply Qcle_0_plus; auto; discriminate).
  assert (Hb' : 0 <= b) by (apply Qcle_trans with 1; auto; discriminate).
  apply Qcle_trans with ((1 + eps) * top n b + eta * ((1 + eps) * top n b)).
  - apply Qcplus_le_compat; [apply Qcle_mult; auto; [apply Qcabs_nonneg|apply Qcle_refl]|].
    rewrite <- (Qcmult_1_r eta) at 1. apply Qcle_mult; auto; try discriminate; try apply Qcle_refl.
    unfold top. change ((1 + eps) * (grow eps n * (grow eta n * b))) with ((1 + eps) * (grow eps n * (grow eta n * b))).
    replace ((1 + eps) * (grow eps n * (grow eta n * b))) with (grow eps (S n) * (grow eta n * b)) by (cbn [grow]; ring).
    replace 1 with (1 * (1 * 1)) by ring. apply Qcle_mult; try discriminate; [apply grow_ge; auto|].
    apply Qcle_mult; try discriminate; auto. apply grow_ge; auto.
  - unfold top. cbn [grow].
    replace ((1 + eps) * grow eps n * ((1 + eta) * grow eta n * b))
      with ((1 + eps) * (grow eps n * (grow eta n * b)) + eta * ((1 + eps) * (grow eps n * (grow eta n * b)))) by ring.
    apply Qcle_refl.
Qed.

Lemma within_top n q y m b : within eps eta n q y m b -> Qcabs q <= top n b.
Proof.
  intros H. destruct (within_pos _ _ _ _ _ _ _ H) as [Hm Hb].
  eapply Qcle_trans; [apply (within_abs eps eta _ _ _ _ _ H)|]. destruct H as (_ & Hmb & _).
  unfold reach, top. apply Qcle_mult.
  - apply grow_nonneg; auto.
  - apply Qcle_0_plus; auto. apply Qcle_0_mult; auto. apply grow_minus; auto.
  - apply Qcle_refl.
  - replace (grow eta n * b) with (b + (grow eta n - 1) * b) by ring.
    apply Qcplus_le_compat; auto. apply Qcle_refl.
Qed.

(** What is tracked of a scalar, and that the scalar is within it unless that is too large. *)
Definition kept_below (x : F) (t : tracked) : Prop :=
  exists y m b d c, t = ((y, m, b), (Some d, S c)) /\ 1 <= b
    /\ (top (d + S c) b < big -> exists q, v x = Some q /\ approx eps eta q t).

Lemma approx_top q y m b d c : approx eps eta q ((y, m, b), (Some d, S c)) -> Qcabs q <= top (d + c) b.
Proof.
  intros H. destruct (approx_within eps eta _ _ H) as [(_ & E)|(y' & m' & b' & d' & c' & E & Hw)]; [discriminate|].
  injection E as <- <- <- <- <-. eapply Qcle_trans; [apply (within_top _ _ _ _ _ Hw)|].
  destruct (within_pos _ _ _ _ _ _ _ Hw) as [_ Hb]. apply top_mono; auto; [lia|apply Qcle_refl].
Qed.

Lemma approx_not_nothing q y m b d c : approx eps eta q ((y, m, b), (Some d, S c)) ->
  ((y, m, b), (Some d, S c)) <> nothing.
Proof. discriminate. Qed.

Lemma kept_add x t y t' : kept_below x t -> kept_below y t' -> kept_below (sadd x y) (@sadd _ tracked_scalar t t').
Proof.
  intros (y1 & m1 & b1 & d1 & c1 & -> & B1 & H1) (y2 & m2 & b2 & d2 & c2 & -> & B2 & H2).
  assert (P1 : 0 <= b1) by (apply Qcle_trans with 1; auto; discriminate).
  assert (P2 : 0 <= b2) by (apply Qcle_trans with 1; auto; discriminate).
  exists (y1 + y2), (m1 + m2), (b1 + b2), (Nat.max d1 d2), (c1 + S c2)%nat. split; [reflexivity|].
  assert (Hb : 1 <= b1 + b2).
  { rewrite <- (Qcplus_0_r 1). apply Qcplus_le_compat; auto. }
  split; [exact Hb|]. intros Hl.
  destruct H1 as (p & Ep & Ap).
  { eapply Qcle_lt_trans; [|exact Hl]. apply top_mono; auto; [lia|].
    rewrite <- (Qcplus_0_r b1) at 1. apply Qcplus_le_compat; auto. apply Qcle_refl. }
  destruct H2 as (q & Eq & Aq).
  { eapply Qcle_lt_trans; [|exact Hl]. apply top_mono; auto; [lia|].
    rewrite <- (Qcplus_0_l b2) at 1. apply Qcplus_le_compat; auto. apply Qcle_refl. }
  assert (Hn : v (sadd x y) <> None).
  { apply (ovf_add _ _ _ _ HB x y p q); auto. eapply Qcle_lt_trans; [|exact Hl].
    eapply Qcle_trans; [apply (top_step (Nat.max d1 d2 + c1 + c2) (b1 + b2)); auto|].
    - eapply Qcle_trans; [apply Qcabs_triangle|]. rewrite top_plus. apply Qcplus_le_compat.
      + eapply Qcle_trans; [apply (approx_top _ _ _ _ _ _ Ap)|]. apply top_mono; auto; [lia|apply Qcle_refl].
      + eapply Qcle_trans; [apply (approx_top _ _ _ _ _ _ Aq)|]. apply top_mono; auto; [lia|apply Qcle_refl].
    - apply top_mono; [lia| |apply Qcle_refl]. apply Qcle_0_plus; auto. }
  destruct (tracks_relation v eps eta HF) as [_ _ Hadd _].
  destruct (Hadd x _ y _ (or_intror (ex_intro _ p (conj Ep Ap))) (or_intror (ex_intro _ q (conj Eq Aq)))) as [E|(s & Es & As)].
  - contradiction.
  - exists s. split; [exact Es|exact As].
Qed.

Lemma kept_mul x t y t' : kept_below x t -> kept_below y t' -> kept_below (smul x y) (@smul _ tracked_scalar t t').
Proof.
  intros (y1 & m1 & b1 & d1 & c1 & -> & B1 & H1) (y2 & m2 & b2 & d2 & c2 & -> & B2 & H2).
  assert (P1 : 0 <= b1) by (apply Qcle_trans with 1; auto; discriminate).
  assert (P2 : 0 <= b2) by (apply Qcle_trans with 1; auto; discriminate).
  exists (y1 * y2), (m1 * m2), (b1 * b2), (d1 + d2)%nat, (c2 + c1 * S c2)%nat. split; [reflexivity|].
  assert (Hb : 1 <= b1 * b2).
  { replace 1 with (1 * 1) by ring. apply Qcle_mult; auto; discriminate. }
  split; [exact Hb|]. intros Hl.
  destruct H1 as (p & Ep & Ap).
  { eapply Qcle_lt_trans; [|exact Hl]. apply top_mono; auto; [nia|].
    rewrite <- (Qcmult_1_r b1) at 1. apply Qcle_mult; auto; try discriminate. apply Qcle_refl. }
  destruct H2 as (q & Eq & Aq).
  { eapply Qcle_lt_trans; [|exact Hl]. apply top_mono; auto; [nia|].
    rewrite <- (Qcmult_1_l b2) at 1. apply Qcle_mult; auto; try discriminate. apply Qcle_refl. }
  assert (Hn : v (smul x y) <> None).
  { apply (ovf_mul _ _ _ _ HB x y p q); auto. eapply Qcle_lt_trans; [|exact Hl].
    eapply Qcle_trans; [apply (top_step ((d1 + c1) + (d2 + c2)) (b1 * b2)); auto|].
    - rewrite Qcabs_Qcmult, top_mult. apply Qcle_mult; try apply Qcabs_nonneg;
        eapply approx_top; eauto.
    - apply top_mono; [nia| |apply Qcle_refl]. apply Qcle_0_mult; auto. }
  destruct (tracks_relation v eps eta HF) as [_ _ _ Hmul].
  destruct (Hmul x _ y _ (or_intror (ex_intro _ p (conj Ep Ap))) (or_intror (ex_intro _ q (conj Eq Aq)))) as [E|(s & Es & As)].
  - contradiction.
  - exists s. split; [exact Es|exact As].
Qed.

Definition is_zero (x : F) : Prop := v x = Some 0.

Lemma Qcabs_0 : Qcabs 0 = 0.
Proof. apply Qc_is_canon; reflexivity. Qed.

Lemma zero_fits : (1 + eps) * Qcabs 0 + eta < big.
Proof. rewrite Qcabs_0, Qcmult_0_r, Qcplus_0_l. apply (ovf_eta _ _ _ _ HB). Qed.

Lemma add_is_zero x y : is_zero x -> is_zero y -> is_zero (sadd x y).
Proof.
  intros Hx Hy. destruct (rnd_add _ _ _ HF x y 0 0 Hx Hy) as [E|(s & Es & _ & Zs & _)].
  - exfalso. revert E. apply (ovf_add _ _ _ _ HB x y 0 0); auto. apply zero_fits.
  - unfold is_zero. rewrite Es, Zs; auto.
Qed.

Lemma mul_is_zero x y p : is_zero y -> v x = Some p -> is_zero (smul x y).
Proof.
  intros Hy Ex. destruct (rnd_mul _ _ _ HF x y p 0 Ex Hy) as [E|(s & Es & _ & Zs & _)].
  - exfalso. revert E. apply (ovf_mul _ _ _ _ HB x y p 0); auto. rewrite Qcmult_0_r. apply zero_fits.
  - unfold is_zero. rewrite Es, Zs; auto. apply Qcmult_0_r.
Qed.

Lemma kept_weak : @weak_relation F tracked Sf tracked_scalar kept_below is_zero.
Proof.
  constructor.
  - exists 1, 1, 1, O, O. split; [reflexivity|]. split; [apply Qcle_refl|]. intros _. exists 1.
    split; [apply (rnd_one _ _ _ HF)|]. cbn. auto.
  - apply kept_add.
  - apply kept_mul.
  - apply (rnd_zero _ _ _ HF).
  - apply mul_is_zero with 0; apply (rnd_zero _ _ _ HF).
  - apply add_is_zero.
  - intros x Hx. apply mul_is_zero with 1; auto. apply (rnd_one _ _ _ HF).
  - intros x t z (y1 & m1 & b1 & d1 & c1 & -> & B1 & H1) Hz.
    assert (P1 : 0 <= b1) by (apply Qcle_trans with 1; auto; discriminate).
    split; exists y1, m1, b1, d1, c1; (split; [reflexivity|]); (split; [exact B1|]); intros Hl;
      destruct (H1 Hl) as (p & Ep & Ap); pose proof (approx_top _ _ _ _ _ _ Ap) as Hp;
      (assert (Hfit : (1 + eps) * Qcabs p + eta < big)
        by (eapply Qcle_lt_trans; [apply (top_step _ _ _ B1 Hp)|]; eapply Qcle_lt_trans; [|exact Hl];
            apply top_mono; auto; [lia|apply Qcle_refl])).
    + destruct (rnd_add _ _ _ HF x z p 0 Ep Hz) as [E|(s & Es & _ & _ & Zs)].
      * exfalso. revert E. apply (ovf_add _ _ _ _ HB x z p 0); auto. rewrite Qcplus_0_r. exact Hfit.
      * exists p. split; [rewrite Es, Zs; auto|exact Ap].
    + destruct (rnd_add _ _ _ HF z x 0 p Hz Ep) as [E|(s & Es & _ & Zs & _)].
      * exfalso. revert E. apply (ovf_add _ _ _ _ HB z x 0 p); auto. rewrite Qcplus_0_l. exact Hfit.
      * exists p. split; [rewrite Es, Zs; auto|exact Ap].
Qed.

(** Multiplying and adding separately. *)
Lemma plain_weak_fused {A B} {Sa : Scalar A} {Sb : Scalar B} (R : A -> B -> Prop) Z lay :
  weak_relation R Z -> (forall x y z, fused lay x y z = sadd (smul x y) z) -> weak_fused R Z lay.
Proof.
  intros HR E. constructor.
  - intros x x' y y' z z' Hx Hy Hz. rewrite E. apply HR; auto. apply HR; auto.
  - intros x x' y y' z Hx Hy Hz. rewrite E. apply (weak_add_zero _ _ HR (smul x y) (smul x' y') z); auto. apply HR; auto.
  - intros x y y' Hx Hy. rewrite E. apply (weak_add_zero _ _ HR y y' (smul sone x)); auto. apply HR; auto.
  - intros x y Hx Hy. rewrite E. apply HR; auto. apply HR; auto.
Qed.

Lemma kept_fused lay : fused_rounding v eps eta (fused lay) -> fused_overflow_from v eps eta big (fused lay) ->
  @weak_fused F tracked Sf tracked_scalar kept_below is_zero lay.
Proof.
  intros HM HO. constructor.
  - intros x t y t' z t''
      (y1 & m1 & b1 & d1 & c1 & -> & B1 & H1) (y2 & m2 & b2 & d2 & c2 & -> & B2 & H2)
      (y3 & m3 & b3 & d3 & c3 & -> & B3 & H3).
    assert (P1 : 0 <= b1) by (apply Qcle_trans with 1; auto; discriminate).
    assert (P2 : 0 <= b2) by (apply Qcle_trans with 1; auto; discriminate).
    assert (P3 : 0 <= b3) by (apply Qcle_trans with 1; auto; discriminate).
    assert (P12 : 0 <= b1 * b2) by (apply Qcle_0_mult; auto).
    exists (y1 * y2 + y3), (m1 * m2 + m3), (b1 * b2 + b3), (Nat.max (d1 + d2) d3), (c2 + c1 * S c2 + S c3)%nat.
    split; [reflexivity|].
    assert (Hb : 1 <= b1 * b2 + b3).
    { rewrite <- (Qcplus_0_l 1). apply Qcplus_le_compat; auto. }
    assert (M1 : b1 * b2 <= b1 * b2 + b3).
    { rewrite <- (Qcplus_0_r (b1 * b2)) at 1. apply Qcplus_le_compat; auto. apply Qcle_refl. }
    split; [exact Hb|]. intros Hl.
    destruct H1 as (p & Ep & Ap).
    { eapply Qcle_lt_trans; [|exact Hl]. apply top_mono; auto; [nia|]. eapply Qcle_trans; [|exact M1].
      rewrite <- (Qcmult_1_r b1) at 1. apply Qcle_mult; auto; try discriminate. apply Qcle_refl. }
    destruct H2 as (q & Eq & Aq).
    { eapply Qcle_lt_trans; [|exact Hl]. apply top_mono; auto; [nia|]. eapply Qcle_trans; [|exact M1].
      rewrite <- (Qcmult_1_l b2) at 1. apply Qcle_mult; auto; try discriminate. apply Qcle_refl. }
    destruct H3 as (r & Er & Ar).
    { eapply Qcle_lt_trans; [|exact Hl]. apply top_mono; auto; [lia|].
      rewrite <- (Qcplus_0_l b3) at 1. apply Qcplus_le_compat; auto. apply Qcle_refl. }
    assert (Hn : v (fused lay x y z) <> None).
    { apply (HO x y z p q r); auto. eapply Qcle_lt_trans; [|exact Hl].
      eapply Qcle_trans; [apply (top_step (Nat.max (d1 + d2) d3 + c1 + c2 + c3) (b1 * b2 + b3)); auto|].
      - eapply Qcle_trans; [apply Qcabs_triangle|]. rewrite top_plus. apply Qcplus_le_compat.
        + apply Qcle_trans with (top ((d1 + c1) + (d2 + c2)) (b1 * b2)).
          * rewrite Qcabs_Qcmult, top_mult. apply Qcle_mult; try apply Qcabs_nonneg; eapply approx_top; eauto.
          * apply top_mono; auto; [lia|apply Qcle_refl].
        + eapply Qcle_trans; [apply (approx_top _ _ _ _ _ _ Ar)|]. apply top_mono; auto; [lia|apply Qcle_refl].
      - apply top_mono; [nia| |apply Qcle_refl]. apply Qcle_0_plus; auto. }
    destruct (tracks_fused v eps eta HF lay HM x _ y _ z _ (or_intror (ex_intro _ p (conj Ep Ap)))
                (or_intror (ex_intro _ q (conj Eq Aq))) (or_intror (ex_intro _ r (conj Er Ar)))) as [E|(s & Es & As)].
    + contradiction.
    + exists s. split; [exact Es|exact As].
  - intros x t y t' z (y1 & m1 & b1 & d1 & c1 & -> & B1 & H1) (y2 & m2 & b2 & d2 & c2 & -> & B2 & H2) Hz.
    assert (P1 : 0 <= b1) by (apply Qcle_trans with 1; auto; discriminate).
    assert (P2 : 0 <= b2) by (apply Qcle_trans with 1; auto; discriminate).
    exists (y1 * y2), (m1 * m2), (b1 * b2), (d1 + d2)%nat, (c2 + c1 * S c2)%nat. split; [reflexivity|].
    assert (Hb : 1 <= b1 * b2).
    { replace 1 with (1 * 1) by ring. apply Qcle_mult; auto; discriminate. }
    split; [exact Hb|]. intros Hl.
    destruct H1 as (p & Ep & Ap).
    { eapply Qcle_lt_trans; [|exact Hl]. apply top_mono; auto; [nia|].
      rewrite <- (Qcmult_1_r b1) at 1. apply Qcle_mult; auto; try discriminate. apply Qcle_refl. }
    destruct H2 as (q & Eq & Aq).
    { eapply Qcle_lt_trans; [|exact Hl]. apply top_mono; auto; [nia|].
      rewrite <- (Qcmult_1_l b2) at 1. apply Qcle_mult; auto; try discriminate. apply Qcle_refl. }
    assert (Hn : v (fused lay x y z) <> None).
    { apply (HO x y z p q 0); auto. rewrite Qcplus_0_r. eapply Qcle_lt_trans; [|exact Hl].
      eapply Qcle_trans; [apply (top_step ((d1 + c1) + (d2 + c2)) (b1 * b2)); auto|].
      - rewrite Qcabs_Qcmult, top_mult. apply Qcle_mult; try apply Qcabs_nonneg; eapply approx_top; eauto.
      - apply top_mono; [nia| |apply Qcle_refl]. apply Qcle_0_mult; auto. }
    destruct (tracks_fused v eps eta HF lay HM x _ y _ z nothing (or_intror (ex_intro _ p (conj Ep Ap)))
                (or_intror (ex_intro _ q (conj Eq Aq)))) as [E|(s & Es & As)].
    + right. exists 0. split; [exact Hz|]. cbn. auto.
    + contradiction.
    + exists s. split; [exact Es|]. rewrite (SRadd_comm tracked_semiring) in As.
      change nothing with (@szero _ tracked_scalar) in As. rewrite (SRadd_0_l tracked_semiring) in As. exact As.
  - intros x y t Hx (y1 & m1 & b1 & d1 & c1 & -> & B1 & H1).
    exists y1, m1, b1, d1, c1. split; [reflexivity|]. split; [exact B1|]. intros Hl.
    destruct (H1 Hl) as (p & Ep & Ap). exists p. split; [|exact Ap].
    assert (P1 : 0 <= b1) by (apply Qcle_trans with 1; auto; discriminate).
    destruct (fma_value _ _ _ _ HM sone x y 1 0 p (rnd_one _ _ _ HF) Hx Ep) as [E|(s & Es & _ & Zs & _)].
    + exfalso. revert E. apply (HO sone x y 1 0 p); auto; [apply (rnd_one _ _ _ HF)|].
      rewrite Qcmult_0_r, Qcplus_0_l. eapply Qcle_lt_trans; [apply (top_step _ _ _ B1 (approx_top _ _ _ _ _ _ Ap))|].
      eapply Qcle_lt_trans; [|exact Hl]. apply top_mono; auto; [lia|apply Qcle_refl].
    + rewrite Es, Zs; auto.
  - intros x y Hx Hy.
    destruct (fma_value _ _ _ _ HM sone x y 1 0 0 (rnd_one _ _ _ HF) Hx Hy) as [E|(s & Es & _ & Zs & _)].
    + exfalso. revert E. apply (HO sone x y 1 0 0); auto; [apply (rnd_one _ _ _ HF)|].
      rewrite Qcmult_0_r, Qcplus_0_l. apply zero_fits.
    + unfold is_zero. rewrite Es, Zs; auto.
Qed.

(** The fused multiply-add of a backend, if it uses one, rounds once or twice and overflows late. *)
Definition fused_fits (lay : backend F) : Prop :=
  (forall x y z, fused lay x y z = sadd (smul x y) z)
  \/ (fused_rounding v eps eta (fused lay) /\ fused_overflow_from v eps eta big (fused lay)).

Lemma kept_fused_fits lay : fused_fits lay -> @weak_fused F tracked Sf tracked_scalar kept_below is_zero lay.
Proof. intros [H|[H1 H2]]; [apply plain_weak_fused; auto; apply kept_weak|apply kept_fused; auto]. Qed.

Lemma fits_rounds lay : fused_fits lay -> fused_rounds v eps eta lay.
Proof. intros [H|[H1 H2]]; [left|right]; auto. Qed.

Lemma kept_lift x : v x <> None -> kept_below x (lift v x).
Proof.
  intros H. unfold lift. exists (value_of v x), (magnitude_of v x), (padded_of v x), 1%nat, O. split; [reflexivity|]. split.
  - unfold padded_of. rewrite <- (Qcplus_0_r 1) at 1. apply Qcplus_le_compat; [apply Qcle_refl|]. apply Qcabs_nonneg.
  - intros _. destruct (tracks_lift v eps eta x) as [E|E]; [contradiction|exact E].
Qed.

(** An element of the result represents a number if the bound is below the threshold. *)
Lemma kept_represents size (arrays : list (arr F)) ops out o x :
  kept_below x (@einsum_value _ tracked_scalar size (map (amap (lift v)) arrays) ops out o) ->
  top (length ops + prod (map size (summed_labels ops out)))
    (einsum_value size (map (amap (padded_of v)) arrays) ops out o) < big ->
  v x <> None.
Proof.
  intros (y & m & b & d & c & E & B & H) Hl.
  pose proof (lifted_value v size arrays ops out o) as Hv. pose proof (lifted_bounded v size arrays ops out o) as Hb.
  rewrite E in *. cbn [fst snd] in Hv. injection Hv as Hy Hm Hbb. destruct Hb as [H1 H2]. cbn [fst snd] in H1, H2.
  destruct H as (q & Eq & _); [|congruence].
  eapply Qcle_lt_trans; [|exact Hl]. rewrite <- Hbb. apply top_mono; auto; [lia| |apply Qcle_refl].
  apply Qcle_trans with 1; auto; discriminate.
Qed.

End Overflow.

Lemma related_amap_on {A B} (R : A -> B -> Prop) (P : A -> Prop) (f : A -> B) (l : list (arr A)) :
  (forall x, P x -> R x (f x)) -> Forall wf l -> Forall (all_elements P) l ->
  Forall2 (related_arrays R) l (map (amap f) l).
Proof.
  intros Hf Hw Hp. induction Hw as [|a l Ha Hw IH]; [constructor|]. inversion Hp as [|? ? H1 H2]; subst.
  constructor; auto. split; auto. intros idx Hi. apply wf_readable in Ha as [_ Ha].
  destruct (Ha idx Hi) as (x & Ex). exists x, (f x). split; auto. split; [rewrite a_get_amap, Ex; auto|].
  apply Hf. apply (H1 idx x). exact Ex.
Qed.

(** ** Integers *)

Local Open Scope Z_scope.

Definition ints_scalar : Scalar Z := {| szero := 0; sone := 1; sadd := Z.add; smul := Z.mul |}.
Lemma ints_semiring : @semiring Z ints_scalar.
Proof. constructor; intros; cbv [szero sone sadd smul ints_scalar]; ring. Qed.

(** Some scalars stand for integers, and sums and products of these of absolute value at most [top] are
    exact. *)
Record exact_to {F : Type} {Sf : Scalar F} (stands : F -> Z -> Prop) (top : Z) : Prop := {
  ex_top : 0 <= top;
  ex_zero : stands szero 0;
  ex_one : stands sone 1;
  ex_add : forall x y a b, stands x a -> stands y b -> Z.abs (a + b) <= top -> stands (sadd x y) (a + b);
  ex_mul : forall x y a b, stands x a -> stands y b -> Z.abs (a * b) <= top -> stands (smul x y) (a * b)
}.

(** The same for a fused multiply-add. *)
Definition fused_exact_to {F : Type} (stands : F -> Z -> Prop) (top : Z) (fma : F -> F -> F -> F) : Prop :=
  forall x y z a b c, stands x a -> stands y b -> stands z c -> Z.abs (a * b + c) <= top ->
    stands (fma x y z) (a * b + c).

Section Exact.
Context {F : Type} {Sf : Scalar F}.
Variables (stands : F -> Z -> Prop) (limit : Z).
Hypothesis HE : exact_to stands limit.

Definition pair_scalar : Scalar (Z * Z) := prod_scalar ints_scalar ints_scalar.
Lemma pair_semiring : @semiring (Z * Z) pair_scalar.
Proof. apply prod_semiring; apply ints_semiring. Qed.

(** An integer and a bound on it; the scalar stands for the integer unless the bound is too large. *)
Definition stands_below (x : F) (p : Z * Z) : Prop :=
  1 <= snd p /\ Z.abs (fst p) <= snd p /\ (snd p <= limit -> stands x (fst p)).

Definition stands_zero (x : F) : Prop := stands x 0.

Lemma stands_weak : @weak_relation F (Z * Z) Sf pair_scalar stands_below stands_zero.
Proof.
  pose proof (ex_top _ _ HE) as H0.
  constructor.
  - split; [reflexivity|]. split; [reflexivity|]. intros _. apply (ex_one _ _ HE).
  - intros x [a b] y [a' b'] (B1 & A1 & H1) (B2 & A2 & H2). unfold stands_below in *. cbn in *.
    split; [lia|]. split; [lia|]. intros Hl. apply (ex_add _ _ HE); [apply H1| apply H2|]; lia.
  - intros x [a b] y [a' b'] (B1 & A1 & H1) (B2 & A2 & H2). unfold stands_below in *. cbn in *.
    rewrite Z.abs_mul. split; [nia|]. split; [nia|]. intros Hl.
    apply (ex_mul _ _ HE); [apply H1| apply H2|rewrite Z.abs_mul]; nia.
  - apply (ex_zero _ _ HE).
  - apply (ex_mul _ _ HE _ _ 0 0); try apply (ex_zero _ _ HE). cbn. lia.
  - intros x y Hx Hy. apply (ex_add _ _ HE _ _ 0 0); auto.
  - intros x Hx. apply (ex_mul _ _ HE _ _ 1 0); auto. apply (ex_one _ _ HE).
  - intros x [a b] z (B1 & A1 & H1) Hz. unfold stands_below in *. cbn in *.
    split; (split; [lia|]); (split; [lia|]); intros Hl.
    + rewrite <- (Z.add_0_r a). apply (ex_add _ _ HE); auto. rewrite Z.add_0_r. lia.
    + rewrite <- (Z.add_0_l a). apply (ex_add _ _ HE); auto. rewrite Z.add_0_l. lia.
Qed.

Definition fused_exact (lay : backend F) : Prop :=
  (forall x y z, fused lay x y z = sadd (smul x y) z) \/ fused_exact_to stands limit (fused lay).

Lemma stands_fused lay : fused_exact lay -> @weak_fused F (Z * Z) Sf pair_scalar stands_below stands_zero lay.
Proof.
  pose proof (ex_top _ _ HE) as H0.
  intros [H|H]; [apply plain_weak_fused; auto; apply stands_weak|]. constructor.
  - intros x [a b] y [a' b'] z [a'' b''] (B1 & A1 & H1) (B2 & A2 & H2) (B3 & A3 & H3).
    unfold stands_below in *. cbn in *.
    assert (Ab : Z.abs (a * a' + a'') <= b * b' + b'') by (pose proof (Z.abs_mul a a'); nia).
    split; [nia|]. split; [exact Ab|]. intros Hl. apply H; [apply H1|apply H2|apply H3|]; nia.
  - intros x [a b] y [a' b'] z (B1 & A1 & H1) (B2 & A2 & H2) Hz.
    unfold stands_below in *. cbn in *.
    assert (Ab : Z.abs (a * a') <= b * b') by (pose proof (Z.abs_mul a a'); nia).
    split; [nia|]. split; [exact Ab|]. intros Hl. rewrite <- (Z.add_0_r (a * a')).
    apply H; [apply H1|apply H2|apply Hz|]; nia.
  - intros x y [a b] Hx (B1 & A1 & H1). unfold stands_below in *. cbn in *.
    split; [lia|]. split; [lia|]. intros Hl. replace a with (1 * 0 + a) by ring.
    apply H; auto; [apply (ex_one _ _ HE)|lia].
  - intros x y Hx Hy. apply (H sone x y 1 0 0); auto; try apply (ex_one _ _ HE).
Qed.

Definition with_bound (z : Z) : Z * Z := (z, Z.max 1 (Z.abs z)).

Lemma stands_arrays (arrays : list (arr F)) ints : Forall2 (related_arrays stands) arrays ints ->
  Forall2 (related_arrays stands_below) arrays (map (amap with_bound) ints).
Proof.
  intros H. induction H as [|a b l l' [Hs Hab] H IH]; cbn [map]; constructor; auto.
  split; [exact Hs|]. intros idx Hi. destruct (Hab idx Hi) as (x & z & Ex & Ez & Hz).
  exists x, (with_bound z). split; auto. split; [rewrite a_get_amap, Ez; reflexivity|].
  unfold stands_below, with_bound. cbn [fst snd]. split; [lia|]. split; [lia|]. auto.
Qed.

Lemma with_bound_value size (ints : list (arr Z)) ops out o :
  @einsum_value _ pair_scalar size (map (amap with_bound) ints) ops out o
  = (@einsum_value _ ints_scalar size ints ops out o,
     @einsum_value _ ints_scalar size (map (amap (fun z => Z.max 1 (Z.abs z))) ints) ops out o).
Proof.
  assert (G1 : fst (@einsum_value _ pair_scalar size (map (amap with_bound) ints) ops out o)
               = @einsum_value _ ints_scalar size ints ops out o).
  { apply (@einsum_value_rel _ _ pair_scalar ints_scalar (fun p z => fst p = z)).
    - constructor; try reflexivity; intros; subst; reflexivity.
    - induction ints as [|a l IH]; cbn [map]; constructor; auto. intros idx. unfold elem. rewrite a_get_amap.
      destruct (a_get a idx); reflexivity. }
  assert (G2 : snd (@einsum_value _ pair_scalar size (map (amap with_bound) ints) ops out o)
               = @einsum_value _ ints_scalar size (map (amap (fun z => Z.max 1 (Z.abs z))) ints) ops out o).
  { apply (@einsum_value_rel _ _ pair_scalar ints_scalar (fun p z => snd p = z)).
    - constructor; try reflexivity; intros; subst; reflexivity.
    - clear G1. induction ints as [|a l IH]; cbn [map]; constructor; auto. intros idx. unfold elem. rewrite !a_get_amap.
      destruct (a_get a idx); reflexivity. }
  rewrite <- G1, <- G2. destruct (einsum_value _ _ _ _ _). reflexivity.
Qed.

End Exact.
