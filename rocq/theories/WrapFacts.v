(** Wrap-around integers (C33). *)
From Verif Require Import Base BaseFacts NDArray Validation Path Api Spec SumFacts ArrayFacts
  EinsumMain EinsumProps AlgebraFacts Examples.
From Coq Require Import Lia Eqdep_dec.
Local Open Scope Z_scope.

(** [norm] reduces integers modulo [m] to one representative of each class: the low bits of an
    unsigned or a two's complement register. *)
Definition wraps (m : Z) (norm : Z -> Z) : Prop :=
  (forall z, exists k, norm z = z + k * m)
  /\ (forall z k, norm (z + k * m) = norm z).

Definition unsigned_wrap (w : Z) (z : Z) : Z := z mod 2 ^ w.
Definition signed_wrap (w : Z) (z : Z) : Z := (z + 2 ^ (w - 1)) mod 2 ^ w - 2 ^ (w - 1).

Lemma unsigned_wraps w : 0 <= w -> wraps (2 ^ w) (unsigned_wrap w).
Proof.
  intros Hw. assert (0 < 2 ^ w) by (apply Z.pow_pos_nonneg; lia). unfold unsigned_wrap. split.
  - intros z. exists (- (z / 2 ^ w)). rewrite Z.mod_eq by lia. ring.
  - intros z k. apply Z.mod_add. lia.
Qed.

Lemma signed_wraps w : 0 < w -> wraps (2 ^ w) (signed_wrap w).
Proof.
  intros Hw. assert (0 < 2 ^ w) by (apply Z.pow_pos_nonneg; lia). unfold signed_wrap. split.
  - intros z. exists (- ((z + 2 ^ (w - 1)) / 2 ^ w)). rewrite Z.mod_eq by lia. ring.
  - intros z k. replace (z + k * 2 ^ w + 2 ^ (w - 1)) with (z + 2 ^ (w - 1) + k * 2 ^ w) by ring.
    rewrite Z.mod_add by lia. auto.
Qed.

(** The machine integers: representatives, with arithmetic that wraps. *)
Definition wint (norm : Z -> Z) : Type := { z : Z | norm z = z }.

Section Wrap.
Variables (m : Z) (norm : Z -> Z).
Hypothesis Hn : wraps m norm.

Lemma norm_idem z : norm (norm z) = norm z.
Proof. destruct Hn as [H1 H2]. destruct (H1 z) as (k & E). rewrite E at 1. apply H2. Qed.

Definition wrap (z : Z) : wint norm := exist _ (norm z) (norm_idem z).
Definition val (x : wint norm) : Z := proj1_sig x.

Definition wint_scalar : Scalar (wint norm) := {|
  szero := wrap 0;
  sone := wrap 1;
  sadd := fun x y => wrap (val x + val y);
  smul := fun x y => wrap (val x * val y)
|}.

Lemma val_inj x y : val x = val y -> x = y.
Proof.
  destruct x as [x Hx], y as [y Hy]. simpl. intros ->. f_equal. apply UIP_dec, Z.eq_dec.
Qed.

Lemma val_norm x : val x = norm (val x).
Proof. destruct x; simpl; auto. Qed.

Lemma norm_add_l a b : norm (norm a + b) = norm (a + b).
Proof.
  destruct Hn as [H1 H2]. destruct (H1 a) as (k & ->).
  replace (a + k * m + b) with (a + b + k * m) by ring. apply H2.
Qed.
Lemma norm_add_r a b : norm (a + norm b) = norm (a + b).
Proof. rewrite Z.add_comm, norm_add_l, Z.add_comm. auto. Qed.
Lemma norm_mul_l a b : norm (norm a * b) = norm (a * b).
Proof.
  destruct Hn as [H1 H2]. destruct (H1 a) as (k & ->).
  replace ((a + k * m) * b) with (a * b + (k * b) * m) by ring. apply H2.
Qed.
Lemma norm_mul_r a b : norm (a * norm b) = norm (a * b).
Proof. rewrite Z.mul_comm, norm_mul_l, Z.mul_comm. auto. Qed.

Lemma wint_semiring : @semiring (wint norm) wint_scalar.
Proof.
  constructor; intros; apply val_inj; cbn [szero sone sadd smul wint_scalar val wrap proj1_sig];
    fold val; repeat rewrite ?norm_add_l, ?norm_add_r, ?norm_mul_l, ?norm_mul_r.
  - change (norm (val n) = val n). symmetry. apply val_norm.
  - f_equal; ring.
  - f_equal; ring.
  - rewrite Z.mul_1_l. symmetry. apply val_norm.
  - rewrite Z.mul_0_l. auto.
  - f_equal; ring.
  - f_equal; ring.
  - f_equal; ring.
Qed.

(** A machine integer represents an exact one. *)
Definition represents (x : wint norm) (z : Z) : Prop := val x = norm z.

Lemma represents_sum n (f : nat -> wint norm) (g : nat -> Z) :
  (forall i, represents (f i) (g i)) ->
  represents (@sum_n _ wint_scalar n f) (sum_n n g).
Proof.
  intros H. unfold represents. induction n as [|n IH]; auto.
  cbn [sum_n sadd wint_scalar Z_scalar val wrap proj1_sig]. fold val.
  rewrite IH, (H n), norm_add_l, norm_add_r. auto.
Qed.

Lemma represents_nested size cs (f : env -> wint norm) (g : env -> Z) e :
  (forall e, represents (f e) (g e)) ->
  represents (@nested_sum _ wint_scalar size cs f e) (nested_sum size cs g e).
Proof.
  intros H. revert e. induction cs as [|c cs IH]; intros e; simpl; auto.
  apply represents_sum. auto.
Qed.

Lemma represents_elem (a : arr (wint norm)) idx :
  represents (@elem _ wint_scalar a idx) (elem (amap val a) idx).
Proof.
  unfold elem, a_get, represents. cbn [amap a_shape a_data a_off a_strides].
  destruct (in_bounds (a_shape a) idx); [|reflexivity].
  unfold znth. destruct (_ <? 0); [reflexivity|]. rewrite nth_error_map.
  destruct (nth_error (a_data a) _); cbn [option_map unwrap]; [apply val_norm|reflexivity].
Qed.

Lemma represents_term (arrays : list (arr (wint norm))) ops e :
  represents (@term _ wint_scalar arrays ops e) (term (map (amap val) arrays) ops e).
Proof.
  unfold term. revert ops. induction arrays as [|a arrays IH]; intros [|ix ops]; try reflexivity.
  cbn [map combine]. unfold product in *. cbn [map fold_right fst snd].
  unfold represents in *. cbn [smul wint_scalar Z_scalar val wrap proj1_sig]. fold val.
  rewrite IH, (represents_elem a), norm_mul_l, norm_mul_r. auto.
Qed.

Lemma wrapped_value h (lay : backend (wint norm)) s arrays ops out size :
  hash_ok h -> @backend_ok _ wint_scalar lay ->
  call_ok s (map (@a_shape _) arrays) ops out size -> Forall wf arrays -> no_empty_diagonal size ops ->
  exists r, @einsum _ wint_scalar h lay s arrays = Ok r /\ a_shape r = map size out
    /\ forall o, in_bounds (map size out) o = true ->
         exists x, a_get r o = Ok x
           /\ proj1_sig x = norm (einsum_value size (map (amap (@proj1_sig _ _)) arrays) ops out o).
Proof.
  intros Hh Hl Hc Hw Hd.
  destruct (@einsum_correct _ wint_scalar wint_semiring h lay s arrays ops out size Hh Hl Hc Hw Hd)
    as (r & E & (H1 & H2 & H3)).
  exists r. split; auto. split; auto. intros o Ho. eexists. split; [apply H3; auto|].
  apply (represents_nested size). intros e. apply represents_term.
Qed.

End Wrap.

Lemma registers_wrap :
  (forall w, 0 <= w -> wraps (2 ^ w) (unsigned_wrap w))
  /\ (forall w, 0 < w -> wraps (2 ^ w) (signed_wrap w))
  /\ (forall w z, 0 <= w -> 0 <= unsigned_wrap w z < 2 ^ w)
  /\ (forall w z, 0 < w -> - 2 ^ (w - 1) <= signed_wrap w z < 2 ^ (w - 1)).
Proof.
  split; [exact unsigned_wraps|]. split; [exact signed_wraps|]. split.
  - intros w z Hw. apply Z.mod_pos_bound. apply Z.pow_pos_nonneg; lia.
  - intros w z Hw. unfold signed_wrap.
    assert (H : 2 ^ w = 2 * 2 ^ (w - 1)) by (rewrite <- Z.pow_succ_r by lia; f_equal; lia).
    assert (0 < 2 ^ w) by (apply Z.pow_pos_nonneg; lia).
    pose proof (Z.mod_pos_bound (z + 2 ^ (w - 1)) (2 ^ w)). lia.
Qed.
