(** Arithmetic that rounds: how far a computed Einstein sum is from the exact one. *)
From Verif Require Import Base BaseFacts NDArray Validation Optimizers Path Api Spec
  ParserFacts ValidationMain SumFacts ArrayFacts PathFacts EinsumMain RelationFacts TensordotMain.
From Coq Require Import Lia Lqa QArith Qcanon Qcabs.
Local Open Scope list_scope.
Local Open Scope nat_scope.

(** ** Rational numbers *)

Global Instance Qc_scalar : Scalar Qc := {| szero := 0%Qc; sone := 1%Qc; sadd := Qcplus; smul := Qcmult |}.
Lemma Qc_semiring : semiring Qc.
Proof. constructor; intros; cbv [szero sone sadd smul Qc_scalar]; ring. Qed.

Local Open Scope Qc_scope.

Lemma Qcle_mult a b c d : 0 <= a -> 0 <= c -> a <= b -> c <= d -> a * c <= b * d.
Proof.
  intros Ha Hc H1 H2. apply Qcle_trans with (b * c); [apply Qcmult_le_compat_r; auto|].
  rewrite !(Qcmult_comm b). apply Qcmult_le_compat_r; auto. apply Qcle_trans with a; auto.
Qed.

Lemma Qcle_0_mult a b : 0 <= a -> 0 <= b -> 0 <= a * b.
Proof. intros Ha Hb. replace 0 with (0 * 0) by ring. apply Qcle_mult; auto; apply Qcle_refl. Qed.

Lemma Qcle_0_plus a b : 0 <= a -> 0 <= b -> 0 <= a + b.
Proof. intros Ha Hb. replace 0 with (0 + 0) by ring. apply Qcplus_le_compat; auto. Qed.

Section Growth.
Variable eps : Qc.
Hypothesis Heps : 0 <= eps.

(** [(1 + eps)^n]. *)
Fixpoint grow (n : nat) : Qc := match n with O => 1 | S n => (1 + eps) * grow n end.

Lemma grow_ge n : 1 <= grow n.
Proof.
  induction n as [|n IH]; cbn [grow]; [apply Qcle_refl|].
  replace 1 with (1 * 1) at 1 by ring. apply Qcle_mult; auto; try discriminate.
  rewrite <- (Qcplus_0_r 1) at 1. apply Qcplus_le_compat; auto. apply Qcle_refl.
Qed.

Lemma grow_nonneg n : 0 <= grow n.
Proof. apply Qcle_trans with 1; [discriminate|apply grow_ge]. Qed.

Lemma grow_add a b : grow (a + b) = grow a * grow b.
Proof. induction a as [|a IH]; cbn [grow Nat.add]; [ring|]. rewrite IH. ring. Qed.

Lemma grow_mono a b : (a <= b)%nat -> grow a <= grow b.
Proof.
  intros H. replace b with (b - a + a)%nat by lia. rewrite grow_add.
  rewrite <- (Qcmult_1_l (grow a)) at 1. apply Qcle_mult; try discriminate; try apply Qcle_refl.
  - apply grow_nonneg.
  - apply grow_ge.
Qed.

End Growth.

Section Bounds.
Variables eps eta : Qc.
Hypothesis Heps : 0 <= eps.
Hypothesis Heta : 0 <= eta.

(** [q] approximates [y], a sum of terms whose absolute values add up to [m], up to [n] roundings each
    with a relative error [eps] and an absolute error [eta]. What a factor gets wrong by [eta] the other
    factors of its term may enlarge: [b] is the sum of the products of one plus the absolute values. *)
Definition within (n : nat) (q y m b : Qc) : Prop :=
  Qcabs y <= m /\ m <= b /\ 1 <= b
  /\ Qcabs (q - y) <= (grow eps n - 1) * m + (grow eta n - 1) * (grow eps n * b).

(** A bound on the absolute value, from the same four quantities. *)
Definition reach (n : nat) (m b : Qc) : Qc := grow eps n * (m + (grow eta n - 1) * b).

Lemma grow_minus e n : 0 <= e -> 0 <= grow e n - 1.
Proof.
  intros He. replace 0 with (1 + - (1)) by ring. unfold Qcminus.
  apply Qcplus_le_compat; [apply grow_ge; auto|apply Qcle_refl].
Qed.

Lemma within_pos n q y m b : within n q y m b -> 0 <= m /\ 0 <= b.
Proof.
  intros (H & H1 & _). assert (0 <= m) by (eapply Qcle_trans; [apply Qcabs_nonneg|exact H]).
  split; auto. eapply Qcle_trans; eauto.
Qed.

Lemma within_reach n q y m b : within n q y m b -> Qcabs (q - y) <= reach n m b - m.
Proof.
  intros (_ & _ & _ & H). eapply Qcle_trans; [exact H|]. unfold reach.
  replace (grow eps n * (m + (grow eta n - 1) * b) - m)
    with ((grow eps n - 1) * m + (grow eta n - 1) * (grow eps n * b)) by ring. apply Qcle_refl.
Qed.

Lemma within_intro n q y m b : Qcabs y <= m -> m <= b -> 1 <= b ->
  Qcabs (q - y) <= reach n m b - m -> within n q y m b.
Proof.
  intros H1 H2 H3 H. split; auto. split; auto. split; auto. eapply Qcle_trans; [exact H|]. unfold reach.
  replace (grow eps n * (m + (grow eta n - 1) * b) - m)
    with ((grow eps n - 1) * m + (grow eta n - 1) * (grow eps n * b)) by ring. apply Qcle_refl.
Qed.

Lemma reach_mono n n' m b : (n <= n')%nat -> 0 <= m -> 0 <= b -> reach n m b <= reach n' m b.
Proof.
  intros Hn Hm Hb. unfold reach. apply Qcle_mult; try apply grow_nonneg; auto.
  - apply Qcle_0_plus; auto. apply Qcle_0_mult; auto. apply grow_minus; auto.
  - apply grow_mono; auto.
  - apply Qcplus_le_compat; [apply Qcle_refl|]. apply Qcmult_le_compat_r; auto.
    apply Qcplus_le_compat; [apply grow_mono; auto|apply Qcle_refl].
Qed.

Lemma reach_nonneg n m b : 0 <= m -> 0 <= b -> 0 <= reach n m b.
Proof.
  intros Hm Hb. unfold reach. apply Qcle_0_mult; [apply grow_nonneg; auto|].
  apply Qcle_0_plus; auto. apply Qcle_0_mult; auto. apply grow_minus; auto.
Qed.

Lemma reach_plus n m b m' b' : reach n (m + m') (b + b') = reach n m b + reach n m' b'.
Proof. unfold reach. ring. Qed.

(** One more rounding. *)
Lemma reach_step n m b : 0 <= m -> 1 <= b -> (1 + eps) * reach n m b + eta <= reach (S n) m b.
Proof.
  intros Hm Hb. unfold reach. cbn [grow].
  replace ((1 + eps) * grow eps n * (m + ((1 + eta) * grow eta n - 1) * b))
    with ((1 + eps) * (grow eps n * (m + (grow eta n - 1) * b)) + eta * (((1 + eps) * grow eps n) * (grow eta n * b)))
    by ring.
  apply Qcplus_le_compat; [apply Qcle_refl|].
  rewrite <- (Qcmult_1_r eta) at 1. apply Qcle_mult; auto; try apply Qcle_refl; try discriminate.
  change ((1 + eps) * grow eps n) with (grow eps (S n)).
  replace 1 with (1 * (1 * 1)) by ring.
  apply Qcle_mult; try discriminate; [apply grow_ge; auto|].
  apply Qcle_mult; try discriminate; auto. apply grow_ge; auto.
Qed.

Lemma reach_mult n1 n2 m1 b1 m2 b2 : 0 <= m1 -> m1 <= b1 -> 0 <= m2 -> m2 <= b2 ->
  reach n1 m1 b1 * reach n2 m2 b2 <= reach (n1 + n2) (m1 * m2) (b1 * b2).
Proof.
  intros H1 H2 H3 H4. unfold reach. rewrite !grow_add.
  set (g1 := grow eps n1). set (g2 := grow eps n2).
  assert (K1 : 0 <= grow eta n1 - 1) by (apply grow_minus; auto).
  assert (K2 : 0 <= grow eta n2 - 1) by (apply grow_minus; auto).
  set (k1 := grow eta n1 - 1) in *. set (k2 := grow eta n2 - 1) in *.
  assert (0 <= b1) by (apply Qcle_trans with m1; auto). assert (0 <= b2) by (apply Qcle_trans with m2; auto).
  replace (g1 * (m1 + k1 * b1) * (g2 * (m2 + k2 * b2)))
    with ((g1 * g2) * (m1 * m2 + (k1 * (b1 * m2) + k2 * (m1 * b2) + k1 * k2 * (b1 * b2)))) by ring.
  replace (grow eta n1 * grow eta n2 - 1) with (k1 + k2 + k1 * k2) by (unfold k1, k2; ring).
  clearbody k1 k2. apply Qcle_mult.
  - apply Qcle_0_mult; apply grow_nonneg; auto.
  - repeat first [apply Qcle_0_plus|apply Qcle_0_mult]; auto.
  - apply Qcle_refl.
  - apply Qcplus_le_compat; [apply Qcle_refl|].
    replace ((k1 + k2 + k1 * k2) * (b1 * b2)) with (k1 * (b1 * b2) + k2 * (b1 * b2) + k1 * k2 * (b1 * b2)) by ring.
    repeat apply Qcplus_le_compat; try apply Qcle_refl.
    + apply Qcle_mult; auto; try apply Qcle_refl; try apply Qcle_0_mult; auto.
      apply Qcle_mult; auto; apply Qcle_refl.
    + apply Qcle_mult; auto; try apply Qcle_refl; try apply Qcle_0_mult; auto.
      apply Qcle_mult; auto; apply Qcle_refl.
Qed.

Lemma within_mono n n' q y m b : (n <= n')%nat -> within n q y m b -> within n' q y m b.
Proof.
  intros Hn H. destruct (within_pos _ _ _ _ _ H) as [Hm Hb]. pose proof (within_reach _ _ _ _ _ H) as Hr.
  destruct H as (H1 & H2 & H3 & _). apply within_intro; auto.
  eapply Qcle_trans; [exact Hr|]. apply Qcplus_le_compat; [apply reach_mono; auto|apply Qcle_refl].
Qed.

Lemma within_exact q : within 0 q q (Qcabs q) (1 + Qcabs q).
Proof.
  pose proof (Qcabs_nonneg q) as Hq. split; [apply Qcle_refl|]. split; [|split].
  - rewrite <- (Qcplus_0_l (Qcabs q)) at 1. apply Qcplus_le_compat; [discriminate|apply Qcle_refl].
  - rewrite <- (Qcplus_0_r 1) at 1. apply Qcplus_le_compat; [apply Qcle_refl|auto].
  - replace (q - q) with 0 by ring. cbn [grow].
    replace ((1 - 1) * Qcabs q + (1 - 1) * (1 * (1 + Qcabs q))) with 0 by ring. discriminate.
Qed.

Lemma within_one : within 0 1 1 1 1.
Proof.
  split; [discriminate|]. split; [discriminate|]. split; [discriminate|]. cbn [grow].
  replace (1 - 1) with 0 by ring. replace (0 * 1 + 0 * (1 * 1)) with 0 by ring. discriminate.
Qed.

Lemma within_abs n q y m b : within n q y m b -> Qcabs q <= reach n m b.
Proof.
  intros H. pose proof (within_reach _ _ _ _ _ H) as Hr. destruct H as [H1 _].
  replace q with (y + (q - y)) by ring.
  eapply Qcle_trans; [apply Qcabs_triangle|].
  replace (reach n m b) with (m + (reach n m b - m)) by ring. apply Qcplus_le_compat; auto.
Qed.

(** From an exact operation on approximations to a rounded one. *)
Lemma within_round n q x y m b : Qcabs y <= m -> m <= b -> 1 <= b -> Qcabs x <= reach n m b ->
  Qcabs (x - y) <= reach n m b - m -> Qcabs (q - x) <= eps * Qcabs x + eta -> within (S n) q y m b.
Proof.
  intros H1 H2 H3 Hx Hy Hq. assert (0 <= m) by (eapply Qcle_trans; [apply Qcabs_nonneg|exact H1]).
  apply within_intro; auto.
  replace (q - y) with ((q - x) + (x - y)) by ring.
  eapply Qcle_trans; [apply Qcabs_triangle|].
  apply Qcle_trans with ((eps * reach n m b + eta) + (reach n m b - m)).
  - apply Qcplus_le_compat; auto. eapply Qcle_trans; [exact Hq|].
    apply Qcplus_le_compat; [|apply Qcle_refl].
    apply Qcle_mult; auto; try apply Qcle_refl; apply Qcabs_nonneg.
  - replace ((eps * reach n m b + eta) + (reach n m b - m)) with (((1 + eps) * reach n m b + eta) + - m) by ring.
    apply Qcplus_le_compat; [apply reach_step; auto|apply Qcle_refl].
Qed.

Lemma within_add n1 n2 n q1 y1 m1 b1 q2 y2 m2 b2 q :
  within n1 q1 y1 m1 b1 -> within n2 q2 y2 m2 b2 -> (n1 < n)%nat -> (n2 < n)%nat ->
  Qcabs (q - (q1 + q2)) <= eps * Qcabs (q1 + q2) + eta -> within n q (y1 + y2) (m1 + m2) (b1 + b2).
Proof.
  intros H1 H2 L1 L2 Hq.
  apply (within_mono n1 (pred n)) in H1; [|lia]. apply (within_mono n2 (pred n)) in H2; [|lia].
  destruct n as [|n]; [lia|]. cbn [pred] in *.
  pose proof (within_abs _ _ _ _ _ H1) as A1. pose proof (within_abs _ _ _ _ _ H2) as A2.
  pose proof (within_reach _ _ _ _ _ H1) as R1. pose proof (within_reach _ _ _ _ _ H2) as R2.
  destruct (within_pos _ _ _ _ _ H1) as [P1 P1']. destruct (within_pos _ _ _ _ _ H2) as [P2 P2'].
  destruct H1 as (Y1 & M1 & B1 & _), H2 as (Y2 & M2 & B2 & _).
  apply within_round with (q1 + q2); auto.
  - eapply Qcle_trans; [apply Qcabs_triangle|]. apply Qcplus_le_compat; auto.
  - apply Qcplus_le_compat; auto.
  - rewrite <- (Qcplus_0_r 1). apply Qcplus_le_compat; auto.
  - rewrite reach_plus. eapply Qcle_trans; [apply Qcabs_triangle|]. apply Qcplus_le_compat; auto.
  - rewrite reach_plus. replace (q1 + q2 - (y1 + y2)) with ((q1 - y1) + (q2 - y2)) by ring.
    eapply Qcle_trans; [apply Qcabs_triangle|].
    replace (reach n m1 b1 + reach n m2 b2 - (m1 + m2))
      with ((reach n m1 b1 - m1) + (reach n m2 b2 - m2)) by ring.
    apply Qcplus_le_compat; auto.
Qed.

Lemma within_mul n1 n2 n q1 y1 m1 b1 q2 y2 m2 b2 q :
  within n1 q1 y1 m1 b1 -> within n2 q2 y2 m2 b2 -> (n1 + n2 < n)%nat ->
  Qcabs (q - q1 * q2) <= eps * Qcabs (q1 * q2) + eta -> within n q (y1 * y2) (m1 * m2) (b1 * b2).
Proof.
  intros H1 H2 Hn Hq.
  apply within_mono with (S (n1 + n2)); [lia|]. clear Hn n.
  pose proof (within_abs _ _ _ _ _ H1) as A1. pose proof (within_abs _ _ _ _ _ H2) as A2.
  pose proof (within_reach _ _ _ _ _ H1) as R1. pose proof (within_reach _ _ _ _ _ H2) as R2.
  destruct (within_pos _ _ _ _ _ H1) as [P1 P1']. destruct (within_pos _ _ _ _ _ H2) as [P2 P2'].
  destruct H1 as (Y1 & M1 & B1 & _), H2 as (Y2 & M2 & B2 & _).
  apply within_round with (q1 * q2); auto.
  - rewrite Qcabs_Qcmult. apply Qcle_mult; auto; apply Qcabs_nonneg.
  - apply Qcle_mult; auto.
  - replace 1 with (1 * 1) by ring. apply Qcle_mult; auto; discriminate.
  - rewrite Qcabs_Qcmult. eapply Qcle_trans; [|apply reach_mult; auto].
    apply Qcle_mult; auto; apply Qcabs_nonneg.
  - replace (q1 * q2 - y1 * y2) with ((q1 - y1) * q2 + y1 * (q2 - y2)) by ring.
    eapply Qcle_trans; [apply Qcabs_triangle|]. rewrite !Qcabs_Qcmult.
    apply Qcle_trans with ((reach n1 m1 b1 - m1) * reach n2 m2 b2 + m1 * (reach n2 m2 b2 - m2)).
    + apply Qcplus_le_compat; apply Qcle_mult; auto; apply Qcabs_nonneg.
    + replace ((reach n1 m1 b1 - m1) * reach n2 m2 b2 + m1 * (reach n2 m2 b2 - m2))
        with (reach n1 m1 b1 * reach n2 m2 b2 + - (m1 * m2)) by ring.
      apply Qcplus_le_compat; [apply reach_mult; auto|apply Qcle_refl].
Qed.

End Bounds.

(** ** Semirings that count *)

Definition prod_scalar {A B} (Sa : Scalar A) (Sb : Scalar B) : Scalar (A * B) := {|
  szero := (szero, szero);
  sone := (sone, sone);
  sadd := fun x y => (sadd (fst x) (fst y), sadd (snd x) (snd y));
  smul := fun x y => (smul (fst x) (fst y), smul (snd x) (snd y))
|}.

Lemma prod_semiring {A B} (Sa : Scalar A) (Sb : Scalar B) :
  semiring A -> semiring B -> @semiring (A * B) (prod_scalar Sa Sb).
Proof.
  intros Ha Hb.
  constructor; intros; repeat match goal with x : (A * B)%type |- _ => destruct x end;
    cbn [szero sone sadd smul prod_scalar fst snd]; f_equal.
  all: first [apply (SRadd_0_l Ha)|apply (SRadd_0_l Hb)|apply (SRadd_comm Ha)|apply (SRadd_comm Hb)
    |apply (SRadd_assoc Ha)|apply (SRadd_assoc Hb)|apply (SRmul_1_l Ha)|apply (SRmul_1_l Hb)
    |apply (SRmul_0_l Ha)|apply (SRmul_0_l Hb)|apply (SRmul_comm Ha)|apply (SRmul_comm Hb)
    |apply (SRmul_assoc Ha)|apply (SRmul_assoc Hb)|apply (SRdistr_l Ha)|apply (SRdistr_l Hb)].
Qed.

(** Counting terms. *)
Definition nat_scalar : Scalar nat := {| szero := O; sone := 1%nat; sadd := Nat.add; smul := Nat.mul |}.
Lemma nat_semiring : @semiring nat nat_scalar.
Proof. constructor; intros; cbv [szero sone sadd smul nat_scalar]; ring. Qed.

(** The largest number of factors of a term; [None] if there is no term. *)
Definition deg_scalar : Scalar (option nat) := {|
  szero := None;
  sone := Some O;
  sadd := fun x y => match x, y with
                     | None, _ => y
                     | _, None => x
                     | Some a, Some b => Some (Nat.max a b)
                     end;
  smul := fun x y => match x, y with Some a, Some b => Some (a + b)%nat | _, _ => None end
|}.
Lemma deg_semiring : @semiring (option nat) deg_scalar.
Proof.
  constructor; intros; repeat match goal with x : option nat |- _ => destruct x end;
    cbn [szero sone sadd smul deg_scalar]; f_equal; lia.
Qed.

(** The exact value, the sum of the absolute values of the terms, the sum of the products of one plus
    the absolute values, the largest number of factors and the number of terms. *)
Definition tracked : Type := (Qc * Qc * Qc) * (option nat * nat).
Definition tracked_scalar : Scalar tracked :=
  prod_scalar (prod_scalar (prod_scalar Qc_scalar Qc_scalar) Qc_scalar) (prod_scalar deg_scalar nat_scalar).
Lemma tracked_semiring : @semiring tracked tracked_scalar.
Proof.
  repeat apply prod_semiring; auto using Qc_semiring, deg_semiring, nat_semiring.
Qed.

(** ** Rounding arithmetic *)

(** Scalars that represent rational numbers, some of them (infinities, not-a-number) none. Every
    sum and product is the exact one up to a relative error of [eps] and an absolute error of [eta]
    (underflow), or represents nothing. Adding zero, multiplying by zero and multiplying by one are
    exact, as is one plus one. *)
Record rounding {F : Type} {Sf : Scalar F} (v : F -> option Qc) (eps eta : Qc) : Prop := {
  rnd_eps : 0 <= eps;
  rnd_eta : 0 <= eta;
  rnd_zero : v szero = Some 0;
  rnd_one : v sone = Some 1;
  rnd_two : forall x y, v x = Some 1 -> v y = Some 1 -> v (sadd x y) = None \/ v (sadd x y) = Some (1 + 1);
  rnd_absorb : forall x y, v x = None \/ v y = None -> v (sadd x y) = None /\ v (smul x y) = None;
  rnd_add : forall x y p q, v x = Some p -> v y = Some q ->
    v (sadd x y) = None
    \/ exists s, v (sadd x y) = Some s /\ Qcabs (s - (p + q)) <= eps * Qcabs (p + q) + eta
         /\ (p = 0 -> s = q) /\ (q = 0 -> s = p);
  rnd_mul : forall x y p q, v x = Some p -> v y = Some q ->
    v (smul x y) = None
    \/ exists s, v (smul x y) = Some s /\ Qcabs (s - p * q) <= eps * Qcabs (p * q) + eta
         /\ (p * q = 0 -> s = 0) /\ (p = 1 -> s = q) /\ (q = 1 -> s = p)
}.

(** A fused multiply-add with one rounding. It is exact when the product or the summand is zero and
    the other representable, and for one times one plus one. *)
Record fused_rounding {F : Type} (v : F -> option Qc) (eps eta : Qc) (fma : F -> F -> F -> F) : Prop := {
  fma_absorb : forall x y z, v x = None \/ v y = None \/ v z = None -> v (fma x y z) = None;
  fma_value : forall x y z p q r, v x = Some p -> v y = Some q -> v z = Some r ->
    v (fma x y z) = None
    \/ exists s, v (fma x y z) = Some s /\ Qcabs (s - (p * q + r)) <= eps * Qcabs (p * q + r) + eta
         /\ (p * q = 0 -> s = r) /\ (r = 0 -> p = 1 -> s = q) /\ (r = 0 -> q = 1 -> s = p)
         /\ (p * q = 1 -> r = 1 -> s = 1 + 1)
}.

Section Rounding.
Context {F : Type} {Sf : Scalar F}.
Variables (v : F -> option Qc) (eps eta : Qc).
Hypothesis HF : rounding v eps eta.

Definition approx (q : Qc) (b : tracked) : Prop :=
  match b with
  | ((y, m, b), (None, O)) => q = 0 /\ y = 0 /\ m = 0 /\ b = 0
  | ((y, m, b), (Some O, S O)) => q = 1 /\ y = 1 /\ m = 1 /\ b = 1
  | ((y, m, b), (Some d, S c)) => within eps eta (d + c - 1) q y m b
  | _ => False
  end.

Definition tracks (x : F) (b : tracked) : Prop :=
  v x = None \/ exists q, v x = Some q /\ approx q b.

(** The tracked zero. *)
Definition nothing : tracked := ((0, 0, 0), (None, O)).

(** The shape of a tracked value: nothing, exactly one, or anything else. *)
Lemma approx_cases q t : approx q t ->
  (q = 0 /\ t = nothing)
  \/ (q = 1 /\ t = ((1, 1, 1), (Some O, 1%nat)))
  \/ exists y m b d c, t = ((y, m, b), (Some d, S c)) /\ (1 <= d + c)%nat /\ within eps eta (d + c - 1) q y m b.
Proof.
  destruct t as [[[y m] b] [[[|d]|] [|[|c]]]]; cbn [approx]; try contradiction.
  - intros (-> & -> & -> & ->). auto.
  - intros H. right. right. exists y, m, b, O, (S c). split; auto. split; auto. lia.
  - intros H. right. right. exists y, m, b, (S d), O. split; auto. split; auto. lia.
  - intros H. right. right. exists y, m, b, (S d), (S c). split; auto. split; auto. lia.
  - intros (-> & -> & -> & ->). auto.
Qed.

Lemma approx_intro q y m b d c : (1 <= d + c)%nat -> within eps eta (d + c - 1) q y m b ->
  approx q ((y, m, b), (Some d, S c)).
Proof. destruct d as [|d], c as [|c]; cbn [approx Nat.add]; auto. lia. Qed.

(** Anything but nothing is within its bound. *)
Lemma approx_within q t : approx q t ->
  (q = 0 /\ t = nothing)
  \/ exists y m b d c, t = ((y, m, b), (Some d, S c)) /\ within eps eta (d + c - 1) q y m b.
Proof.
  intros H. destruct (approx_cases q t H) as [H0|[(-> & ->)|(y & m & b & d & c & -> & _ & Hw)]]; auto.
  - right. exists 1, 1, 1, O, O. split; auto. apply within_one.
  - right. exists y, m, b, d, c. auto.
Qed.

(** What approximates nothing is zero. *)
Lemma approx_nothing q : approx q nothing -> q = 0.
Proof. intros (H & _). exact H. Qed.

(** One rounded addition. *)
Lemma approx_add p q s t t' : approx p t -> approx q t' ->
  Qcabs (s - (p + q)) <= eps * Qcabs (p + q) + eta ->
  (t = nothing -> s = q) -> (t' = nothing -> s = p) ->
  (p = 1 -> q = 1 -> s = 1 + 1) ->
  approx s (@sadd _ tracked_scalar t t').
Proof.
  intros Hp Hq Hs Zp Zq Ho. pose proof (rnd_eps _ _ _ HF) as He. pose proof (rnd_eta _ _ _ HF) as Ht.
  destruct (approx_cases p t Hp) as [(-> & ->)|Hp']; [|destruct (approx_cases q t' Hq) as [(-> & ->)|Hq']].
  - rewrite (Zp eq_refl). replace (@sadd _ tracked_scalar nothing t') with t'; auto.
    symmetry. apply (SRadd_0_l tracked_semiring).
  - rewrite (Zq eq_refl). replace (@sadd _ tracked_scalar t nothing) with t; auto.
    rewrite (SRadd_comm tracked_semiring). symmetry. apply (SRadd_0_l tracked_semiring).
  - destruct Hp' as [(-> & ->)|(y1 & m1 & b1 & d1 & c1 & -> & L1 & W1)];
      destruct Hq' as [(-> & ->)|(y2 & m2 & b2 & d2 & c2 & -> & L2 & W2)].
    * rewrite (Ho eq_refl eq_refl). cbn.
      split; [discriminate|]. split; [discriminate|]. split; [discriminate|].
      replace (1 + 1 - (1 + 1)) with 0 by ring.
      replace ((1 - 1) * (1 + 1) + (1 - 1) * (1 * (1 + 1))) with 0 by ring. discriminate.
    * cbn [sadd tracked_scalar prod_scalar fst snd Qc_scalar deg_scalar nat_scalar].
      cbn [Nat.add]. apply approx_intro; [lia|].
      apply (within_add eps eta He Ht 0 (d2 + c2 - 1) _ 1 1 1 1 q y2 m2 b2); auto; try lia. apply within_one.
    * cbn [sadd tracked_scalar prod_scalar fst snd Qc_scalar deg_scalar nat_scalar].
      replace (S c1 + 1)%nat with (S (S c1)) by lia. apply approx_intro; [lia|].
      apply (within_add eps eta He Ht (d1 + c1 - 1) 0 _ p y1 m1 b1 1 1 1 1); auto; try lia. apply within_one.
    * cbn [sadd tracked_scalar prod_scalar fst snd Qc_scalar deg_scalar nat_scalar].
      cbn [Nat.add]. apply approx_intro; [lia|].
      apply (within_add eps eta He Ht (d1 + c1 - 1) (d2 + c2 - 1) _ p y1 m1 b1 q y2 m2 b2); auto; lia.
Qed.

(** One rounded multiplication. *)
Lemma approx_mul p q s t t' : approx p t -> approx q t' ->
  Qcabs (s - p * q) <= eps * Qcabs (p * q) + eta -> (p * q = 0 -> s = 0) -> (p = 1 -> s = q) -> (q = 1 -> s = p) ->
  approx s (@smul _ tracked_scalar t t').
Proof.
  intros Hp Hq Hs Oz Op Oq. pose proof (rnd_eps _ _ _ HF) as He. pose proof (rnd_eta _ _ _ HF) as Ht.
  destruct (approx_cases p t Hp) as [(-> & ->)|Hp']; [|destruct (approx_cases q t' Hq) as [(-> & ->)|Hq']].
  - replace (@smul _ tracked_scalar nothing t') with nothing.
    2:{ symmetry. apply (SRmul_0_l tracked_semiring). }
    cbn. rewrite Oz by ring. auto.
  - replace (@smul _ tracked_scalar t nothing) with nothing.
    2:{ rewrite (SRmul_comm tracked_semiring). symmetry. apply (SRmul_0_l tracked_semiring). }
    cbn. rewrite Oz by ring. auto.
  - destruct Hp' as [(-> & ->)|(y1 & m1 & b1 & d1 & c1 & -> & L1 & W1)].
    { rewrite (Op eq_refl). replace (@smul _ tracked_scalar (1, 1, 1, (Some 0%nat, 1%nat)) t') with t'; auto.
      symmetry. apply (SRmul_1_l tracked_semiring). }
    destruct Hq' as [(-> & ->)|(y2 & m2 & b2 & d2 & c2 & -> & L2 & W2)].
    { rewrite (Oq eq_refl).
      replace (@smul _ tracked_scalar (y1, m1, b1, (Some d1, S c1)) (1, 1, 1, (Some 0%nat, 1%nat)))
        with ((y1, m1, b1), (Some d1, S c1)); auto.
      rewrite (SRmul_comm tracked_semiring). symmetry. apply (SRmul_1_l tracked_semiring). }
    cbn [smul tracked_scalar prod_scalar fst snd Qc_scalar deg_scalar nat_scalar].
    replace (S c1 * S c2)%nat with (S (c2 + c1 * S c2)) by lia. apply approx_intro; [nia|].
    apply (within_mul eps eta He Ht (d1 + c1 - 1) (d2 + c2 - 1) _ p y1 m1 b1 q y2 m2 b2); auto. nia.
Qed.

Lemma tracks_relation : @scalar_relation F tracked Sf tracked_scalar tracks.
Proof.
  constructor.
  - right. exists 0. split; [apply (rnd_zero _ _ _ HF)|]. cbn. auto.
  - right. exists 1. split; [apply (rnd_one _ _ _ HF)|]. cbn. auto.
  - intros x b y b' [Hx|(p & Ex & Hp)] [Hy|(q & Ey & Hq)];
      try (left; apply (rnd_absorb _ _ _ HF); auto; fail).
    destruct (rnd_add _ _ _ HF x y p q Ex Ey) as [H|(s & Es & Hs & Zp & Zq)]; [left; auto|].
    destruct (Qc_eq_dec p 1) as [E1|E1].
    + destruct (Qc_eq_dec q 1) as [E2|E2].
      * subst p q. destruct (rnd_two _ _ _ HF x y Ex Ey) as [H|H]; [left; auto|].
        right. exists s. split; auto. rewrite Es in H. injection H as H.
        apply (approx_add 1 1); auto; intros ->; [apply Zp|apply Zq]; apply approx_nothing; auto.
      * right. exists s. split; auto. apply (approx_add p q); auto; try contradiction;
          intros ->; [apply Zp|apply Zq]; apply approx_nothing; auto.
    + right. exists s. split; auto. apply (approx_add p q); auto; try contradiction;
        intros ->; [apply Zp|apply Zq]; apply approx_nothing; auto.
  - intros x b y b' [Hx|(p & Ex & Hp)] [Hy|(q & Ey & Hq)];
      try (left; apply (rnd_absorb _ _ _ HF); auto; fail).
    destruct (rnd_mul _ _ _ HF x y p q Ex Ey) as [H|(s & Es & Hs & Oz & Op & Oq)]; [left; auto|].
    right. exists s. split; auto. apply (approx_mul p q); auto.
Qed.

(** A rounded fused multiply-add is no further from the exact value than a rounded product followed
    by a rounded sum may be. *)
Lemma tracks_fused lay : fused_rounding v eps eta (fused lay) -> @fused_relation F tracked tracked_scalar tracks lay.
Proof.
  intros HM x b y b' z b'' [Hx|(p & Ex & Hp)] [Hy|(q & Ey & Hq)] [Hz|(r & Ez & Hr)];
    try (left; apply (fma_absorb _ _ _ _ HM); auto; fail).
  destruct (fma_value _ _ _ _ HM x y z p q r Ex Ey Ez) as [H|(s & Es & Hs & Z0 & Z1 & Z2 & Ho)]; [left; auto|].
  right. exists s. split; auto.
  assert (Hpq : approx (p * q) (@smul _ tracked_scalar b b')).
  { apply (approx_mul p q); auto.
    - replace (p * q - p * q) with 0 by ring. replace (Qcabs 0) with 0 by (apply Qc_is_canon; reflexivity).
      apply Qcle_0_plus; [|apply (rnd_eta _ _ _ HF)].
      apply Qcle_0_mult; [apply (rnd_eps _ _ _ HF)|apply Qcabs_nonneg].
    - intros ->. ring.
    - intros ->. ring. }
  destruct (approx_cases r b'' Hr) as [(-> & ->)|Hr'].
  - replace (@sadd _ tracked_scalar (smul b b') nothing) with (@smul _ tracked_scalar b b').
    2:{ rewrite (SRadd_comm tracked_semiring). symmetry. apply (SRadd_0_l tracked_semiring). }
    apply (approx_mul p q); auto. rewrite Qcplus_0_r in Hs. exact Hs.
  - apply (approx_add (p * q) r); auto.
    + intros E. rewrite E in Hpq. apply Z0. apply approx_nothing; auto.
    + intros E. exfalso. destruct Hr' as [[_ H]|(? & ? & ? & ? & ? & H & _)]; unfold nothing in *; congruence.
Qed.

(** The fused multiply-add of a backend, if it uses one, rounds once or twice. *)
Definition fused_rounds (lay : backend F) : Prop :=
  (forall x y z, fused lay x y z = sadd (smul x y) z) \/ fused_rounding v eps eta (fused lay).

Lemma tracks_fused_rounds lay : fused_rounds lay -> @fused_relation F tracked tracked_scalar tracks lay.
Proof.
  intros [H|H]; [|apply tracks_fused; auto]. intros x x' y y' z z' Hx Hy Hz. rewrite H.
  apply tracks_relation; auto. apply tracks_relation; auto.
Qed.

(** ** Bounding the numbers of factors and of terms *)

Definition bounded (d c : nat) (b : tracked) : Prop :=
  (match fst (snd b) with Some d' => d' <= d | None => True end /\ snd (snd b) <= c)%nat.

Lemma bounded_term (arrays : list (arr tracked)) ops e :
  (forall a, In a arrays -> forall idx, bounded 1 1 (@elem _ tracked_scalar a idx)) ->
  bounded (length ops) 1 (@term _ tracked_scalar arrays ops e).
Proof.
  unfold term, product. revert ops. induction arrays as [|a arrays IH]; intros [|ix ops] H;
    try (unfold bounded; cbn; split; lia).
  cbn [combine map fold_right fst snd length].
  pose proof (H a (or_introl eq_refl) (map e ix)) as [H1 H2].
  destruct (IH ops) as [H3 H4]; [intros b Hb; apply H; simpl; auto|].
  destruct (elem a (map e ix)) as [[[? ?] ?] [d c]].
  destruct (fold_right smul sone _) as [[? ?] [d' c']]. cbn [fst snd] in *. split.
  - cbn. destruct d, d'; auto. lia.
  - cbn. nia.
Qed.

Lemma bounded_sum_n d c n (f : nat -> tracked) : (forall i, bounded d c (f i)) ->
  bounded d (n * c) (@sum_n _ tracked_scalar n f).
Proof.
  intros H. induction n as [|n IH]; [unfold bounded; cbn; split; auto; lia|]. cbn [sum_n].
  specialize (H n). destruct H as [H1 H2], IH as [H3 H4].
  destruct (f n) as [[? ?] [d1 c1]], (sum_n n f) as [[? ?] [d2 c2]]. cbn [fst snd] in *. split.
  - cbn. destruct d1, d2; auto. lia.
  - cbn. lia.
Qed.

Lemma bounded_nested d c size cs (f : env -> tracked) e : (forall e, bounded d c (f e)) ->
  bounded d (prod (map size cs) * c) (@nested_sum _ tracked_scalar size cs f e).
Proof.
  intros H. revert e. induction cs as [|x cs IH]; intros e.
  - cbn [map nested_sum]. replace (prod [] * c)%nat with c by (cbn; lia). auto.
  - cbn [map nested_sum]. rewrite prod_cons, <- Nat.mul_assoc. apply bounded_sum_n. auto.
Qed.

(** ** The error of an Einstein sum *)

(** What a scalar represents, and its absolute value; zero if it represents nothing. *)
Definition value_of (x : F) : Qc := match v x with Some q => q | None => 0 end.
Definition magnitude_of (x : F) : Qc := Qcabs (value_of x).
Definition padded_of (x : F) : Qc := 1 + magnitude_of x.

Definition lift (x : F) : tracked := ((value_of x, magnitude_of x, padded_of x), (Some 1%nat, 1%nat)).

Lemma tracks_lift x : tracks x (lift x).
Proof.
  unfold tracks, lift, padded_of, magnitude_of, value_of. destruct (v x) as [q|]; auto. right. exists q. split; auto.
  apply within_exact.
Qed.

Lemma lifted_value size (arrays : list (arr F)) ops out o :
  fst (@einsum_value _ tracked_scalar size (map (amap lift) arrays) ops out o)
  = (einsum_value size (map (amap value_of) arrays) ops out o,
     einsum_value size (map (amap magnitude_of) arrays) ops out o,
     einsum_value size (map (amap padded_of) arrays) ops out o).
Proof.
  assert (H : forall (p : Qc * Qc * Qc -> Qc) (g : F -> Qc),
    (forall x, p (fst (lift x)) = g x) ->
    @scalar_relation tracked Qc tracked_scalar Qc_scalar (fun b y => p (fst b) = y) ->
    p (fst (@einsum_value _ tracked_scalar size (map (amap lift) arrays) ops out o))
    = einsum_value size (map (amap g) arrays) ops out o).
  { intros p g Hg HR.
    apply (@einsum_value_rel tracked Qc tracked_scalar Qc_scalar (fun b y => p (fst b) = y) HR).
    induction arrays as [|a l IH]; cbn [map]; constructor; auto.
    intros idx. unfold elem. rewrite !a_get_amap. destruct (a_get a idx); cbn [rmap]; auto; apply HR. }
  rewrite <- (H (fun p => fst (fst p)) value_of), <- (H (fun p => snd (fst p)) magnitude_of), <- (H snd padded_of);
    auto; try (constructor; intros; subst; reflexivity).
  destruct (fst _) as [[? ?] ?]. reflexivity.
Qed.

Lemma lifted_bounded size (arrays : list (arr F)) ops out o :
  bounded (length ops) (prod (map size (summed_labels ops out)))
    (@einsum_value _ tracked_scalar size (map (amap lift) arrays) ops out o).
Proof.
  unfold einsum_value. rewrite <- (Nat.mul_1_r (prod _)). apply bounded_nested. intros e.
  apply bounded_term. intros a Ha idx. apply in_map_iff in Ha as (a' & <- & _).
  unfold elem. rewrite a_get_amap. destruct (a_get a' idx); cbn [rmap]; split; cbn; auto.
Qed.

(** [x] approximates the element at [o] of the exact Einstein sum of what the operands represent. *)
Definition close (size : char -> nat) (arrays : list (arr F)) (ops : list (list char)) (out : list char)
    (o : list nat) (x : F) : Prop :=
  v x = None
  \/ exists q, v x = Some q
       /\ Qcabs (q - einsum_value size (map (amap value_of) arrays) ops out o)
          <= (grow eps (length ops + prod (map size (summed_labels ops out)) - 2) - 1)
             * einsum_value size (map (amap magnitude_of) arrays) ops out o
             + (grow eta (length ops + prod (map size (summed_labels ops out)) - 2) - 1)
               * (grow eps (length ops + prod (map size (summed_labels ops out)) - 2)
                  * einsum_value size (map (amap padded_of) arrays) ops out o).

Lemma close_ok size arrays ops out o x :
  tracks x (@einsum_value _ tracked_scalar size (map (amap lift) arrays) ops out o) ->
  close size arrays ops out o x.
Proof.
  intros [H|(q & E & H)]; [left; auto|right]. exists q. split; auto.
  pose proof (lifted_value size arrays ops out o) as Hv. pose proof (lifted_bounded size arrays ops out o) as Hb.
  destruct (approx_within _ _ H) as [(-> & Eb)|(y & m & b' & d & c & Eb & Hw)]; rewrite Eb in *.
  - unfold nothing in *; cbn [fst] in Hv. injection Hv as <- <- <-. replace (Qcabs (0 - 0)) with 0 by (apply Qc_is_canon; reflexivity).
    rewrite !Qcmult_0_r, Qcplus_0_r. apply Qcle_refl.
  - unfold nothing in *; cbn [fst] in Hv. injection Hv as <- <- <-. destruct Hb as [H1 H2]. cbn [fst snd] in H1, H2.
    apply (within_mono eps eta (rnd_eps _ _ _ HF) (rnd_eta _ _ _ HF) (d + c - 1)
             (length ops + prod (map size (summed_labels ops out)) - 2)) in Hw; [|lia].
    apply Hw.
Qed.

Lemma outcome_close x size (arrays : list (arr F)) ops out :
  @outcome_related F tracked tracked_scalar tracks x size arrays (map (amap lift) arrays) ops out ->
  (x = Panic /\ blocked_in size (combine arrays ops) out)
  \/ (~ blocked_in size (combine arrays ops) out
      /\ exists r f, x = Ok r /\ holds r (map size out) f
           /\ forall o, in_bounds (map size out) o = true -> close size arrays ops out o (f o)).
Proof.
  intros [H|[Hb (r & f & E & Hr & H)]]; [left; auto|right]. split; auto. exists r, f. split; auto. split; auto.
  intros o Ho. apply close_ok. auto.
Qed.

(** ** The error of a tensordot *)

Lemma paired_value_rel {A B} {Sa : Scalar A} {Sb : Scalar B} (R : A -> B -> Prop) (HR : scalar_relation R)
    (a b : arr A) (a' b' : arr B) la ra o : a_shape a = a_shape a' -> a_shape b = a_shape b' ->
  (forall idx, R (elem a idx) (elem a' idx)) -> (forall idx, R (elem b idx) (elem b' idx)) ->
  R (paired_value a b la ra o) (paired_value a' b' la ra o).
Proof.
  intros Ea Eb Ha Hb. unfold paired_value. rewrite <- Ea, <- Eb. apply (sum_n_rel R HR). intros t _. apply HR; auto.
Qed.

Lemma lifted_paired (a b : arr F) la ra o :
  fst (@paired_value _ tracked_scalar (amap lift a) (amap lift b) la ra o)
  = (paired_value (amap value_of a) (amap value_of b) la ra o,
     paired_value (amap magnitude_of a) (amap magnitude_of b) la ra o,
     paired_value (amap padded_of a) (amap padded_of b) la ra o).
Proof.
  assert (H : forall (p : Qc * Qc * Qc -> Qc) (g : F -> Qc),
    (forall x, p (fst (lift x)) = g x) ->
    @scalar_relation tracked Qc tracked_scalar Qc_scalar (fun b y => p (fst b) = y) ->
    p (fst (@paired_value _ tracked_scalar (amap lift a) (amap lift b) la ra o))
    = paired_value (amap g a) (amap g b) la ra o).
  { intros p g Hg HR.
    assert (Hx : forall (x : arr F) idx, p (fst (@elem _ tracked_scalar (amap lift x) idx)) = elem (amap g x) idx).
    { intros x idx. unfold elem. rewrite !a_get_amap. destruct (a_get x idx); cbn [rmap]; auto; apply HR. }
    apply (@paired_value_rel tracked Qc tracked_scalar Qc_scalar (fun b y => p (fst b) = y) HR); auto. }
  rewrite <- (H (fun p => fst (fst p)) value_of), <- (H (fun p => snd (fst p)) magnitude_of), <- (H snd padded_of);
    auto; try (constructor; intros; subst; reflexivity).
  destruct (fst _) as [[? ?] ?]. reflexivity.
Qed.

Lemma lifted_paired_bounded (a b : arr F) la ra o :
  bounded 2 (prod (axis_lengths (a_shape a) la))
    (@paired_value _ tracked_scalar (amap lift a) (amap lift b) la ra o).
Proof.
  unfold paired_value. cbn [amap a_shape]. rewrite <- (Nat.mul_1_r (prod _)) at 1. apply bounded_sum_n. intros i.
  assert (H : forall (x : arr F) idx, bounded 1 1 (@elem _ tracked_scalar (amap lift x) idx)).
  { intros x idx. unfold elem. rewrite a_get_amap. destruct (a_get x idx); cbn [rmap]; split; cbn; auto. }
  destruct (H a (place (length (a_shape a)) (free_axes (length (a_shape a)) la ++ la)
                   (firstn (length (free_axes (length (a_shape a)) la)) o ++ unflat (axis_lengths (a_shape a) la) i)))
    as [H1 H2].
  destruct (H b (place (length (a_shape b)) (ra ++ free_axes (length (a_shape b)) ra)
                   (unflat (axis_lengths (a_shape b) ra) i ++ skipn (length (free_axes (length (a_shape a)) la)) o)))
    as [H3 H4].
  unfold amap in *.
  destruct (elem _ (place (length (a_shape a)) _ _)) as [[? ?] [d1 c1]].
  destruct (elem _ (place (length (a_shape b)) _ _)) as [[? ?] [d2 c2]]. cbn [fst snd] in *. split.
  - cbn. destruct d1, d2; auto. lia.
  - cbn. nia.
Qed.

(** [x] approximates the element at [o] of the exact tensor dot product of what the operands
    represent. *)
Definition close_dot (a b : arr F) (la ra o : list nat) (x : F) : Prop :=
  v x = None
  \/ exists q, v x = Some q
       /\ Qcabs (q - tensordot_value (amap value_of a) (amap value_of b) la ra o)
          <= (grow eps (prod (axis_lengths (a_shape a) la)) - 1)
             * tensordot_value (amap magnitude_of a) (amap magnitude_of b) la ra o
             + (grow eta (prod (axis_lengths (a_shape a) la)) - 1)
               * (grow eps (prod (axis_lengths (a_shape a) la))
                  * tensordot_value (amap padded_of a) (amap padded_of b) la ra o).

Lemma close_dot_ok (a b : arr F) la ra o x :
  length la = length ra -> axes_ok (length (a_shape a)) la -> axes_ok (length (a_shape b)) ra ->
  axis_lengths (a_shape a) la = axis_lengths (a_shape b) ra ->
  in_bounds (axis_lengths (a_shape a) (free_axes (length (a_shape a)) la)
             ++ axis_lengths (a_shape b) (free_axes (length (a_shape b)) ra)) o = true ->
  tracks x (@paired_value _ tracked_scalar (amap lift a) (amap lift b) la ra o) ->
  close_dot a b la ra o x.
Proof.
  intros Hl Ha Hb He Ho [H|(q & E & H)]; [left; auto|right]. exists q. split; auto.
  pose proof (lifted_paired a b la ra o) as Hv. pose proof (lifted_paired_bounded a b la ra o) as Hbd.
  rewrite <- !(paired_value_sum Qc_semiring) by auto.
  destruct (approx_within _ _ H) as [(-> & Eb)|(y & m & b' & d & c & Eb & Hw)]; rewrite Eb in *.
  - unfold nothing in *; cbn [fst] in Hv. injection Hv as <- <- <-. replace (Qcabs (0 - 0)) with 0 by (apply Qc_is_canon; reflexivity).
    rewrite !Qcmult_0_r, Qcplus_0_r. apply Qcle_refl.
  - unfold nothing in *; cbn [fst] in Hv. injection Hv as <- <- <-. destruct Hbd as [H1 H2]. cbn [fst snd] in H1, H2.
    apply (within_mono eps eta (rnd_eps _ _ _ HF) (rnd_eta _ _ _ HF) (d + c - 1) (prod (axis_lengths (a_shape a) la))) in Hw; [|lia].
    apply Hw.
Qed.

End Rounding.
