(** What rounding arithmetic keeps of signs, factors and order (C62). *)
From Verif Require Import Base BaseFacts NDArray Validation Optimizers Strategies Path Api Spec SumFacts ArrayFacts
  ValidationMain RelationFacts RoundFacts OrderFacts EinsumMain FloatFacts FloatMain FloatSigns FloatRound ParamFacts Schedule GradeFacts
  Examples PropsValues PropsFloat PropsData.
From Coq Require Import Lia Bool ZArith QArith Qcanon Qcabs SpecFloat.
From Coq Require String.
Import String.StringSyntax.
Local Open Scope string_scope.
Local Open Scope list_scope.
Local Open Scope nat_scope.

(** ** Graded relations *)

(** Let the elements of each operand be related to those of another by a relation that depends on a grade
    of the operand. If sums keep grades and products combine them, so do calls: the elements of the two
    results are related by the relation of all the operands' grades together. Each product of the result
    has one factor from every operand, whatever the order of contraction. *)
Theorem graded_elements_give_graded_results :
  forall (A B G : Type) (Sa : Scalar A) (Sb : Scalar B) (op : G -> G -> G) (e : G) (R : G -> A -> B -> Prop) fma fma',
    grade_monoid op e -> respects_grades op e R fma fma' ->
  forall sch h, adds_every_term sch -> hash_ok h ->
    (forall gs arrays arrays', graded R gs arrays arrays' ->
      (forall s, outcomes (alike (R (total op e gs))) (einsum h (follow sch fma) s arrays) (einsum h (follow sch fma') s arrays'))
      /\ (forall s strategy, outcomes (alike (R (total op e gs))) (compile_and_run h (follow sch fma) s arrays strategy)
                               (compile_and_run h (follow sch fma') s arrays' strategy))
      /\ (forall size ops out order k, valid_order size ops out order -> length arrays = length ops ->
            outcomes (alike (R (total op e gs)))
              (do p <- from_path h k order; contract_operands (follow sch fma) p arrays)
              (do p <- from_path h k order; contract_operands (follow sch fma') p arrays')))
    /\ forall g1 g2 a a' b b' la ra, alike (R g1) a a' -> alike (R g2) b b' ->
         outcomes (alike (R (op g1 g2))) (tensordot (follow sch fma) a b la ra) (tensordot (follow sch fma') a' b' la ra).
Proof.
  intros A B G Sa Sb op e R fma fma' HG HR sch h Hs Hh. split.
  - intros gs arrays arrays' Ha. split; [|split].
    + intros s. apply einsum_graded; auto.
    + intros s strategy. apply compile_and_run_graded; auto.
    + intros size ops out order k Hv Hl. eapply valid_order_graded; eauto.
  - intros g1 g2 a a' b b' la ra Ha Hb.
    pose proof (follow_grades op e R fma fma' HG HR sch Hs) as HF.
    apply (tensordot_alike (R g1) (R g2) (R (op g1 g2))); auto.
    all: try apply HF.
Qed.
Print Assumptions graded_elements_give_graded_results.

(** ** Signs *)

Lemma xorb_monoid : grade_monoid xorb false.
Proof. constructor; intros; repeat match goal with b : bool |- _ => destruct b end; reflexivity. Qed.

(** The sign changed if [b]. *)
Definition f_flip {f} (b : bool) (x : float f) : float f :=
  exist _ (flip b (proj1_sig x)) (eq_trans (flip_valid (f_prec f) (f_emax f) b (proj1_sig x)) (proj2_sig x)).

(** Whether an odd number of them is true. *)
Definition parity (bs : list bool) : bool := fold_right xorb false bs.

Definition flip_operands {f} (bs : list bool) (arrays : list (arr (float f))) : list (arr (float f)) :=
  map (fun p => amap (f_flip (fst p)) (snd p)) (combine bs arrays).

Lemma graded_map {A B G} (R : G -> A -> B -> Prop) (f : G -> A -> B) gs arrays : length gs = length arrays ->
  (forall g x, R g x (f g x)) -> graded R gs arrays (map (fun p => amap (f (fst p)) (snd p)) (combine gs arrays)).
Proof.
  intros El H. revert arrays El. induction gs as [|g gs IH]; intros [|a l] El; try discriminate; cbn [combine map]; constructor.
  - split; [reflexivity|]. split; [reflexivity|]. split; [reflexivity|]. cbn [a_data amap fst snd].
    induction (a_data a); cbn [map]; constructor; auto.
  - apply IH. simpl in El. lia.
Qed.

(** The relation of the results, moved to the first of them. *)
Lemma outcomes_moved {A B C} (R : A -> B -> Prop) (Q : C -> B -> Prop) (g : A -> C) x y :
  (forall a b, R a b -> Q (g a) b) -> outcomes (alike R) x y -> outcomes (alike Q) (rmap (amap g) x) y.
Proof.
  intros H. destruct x, y; simpl; auto. intros (H1 & H2 & H3 & H4). split; [|split; [|split]]; auto.
  unfold amap. cbn [a_data]. induction H4; cbn [map]; constructor; auto.
Qed.

(** Changing the signs of all the elements of some operands changes nothing but the sign of the result:
    by rounding, overflow and the order of the additions nothing is gained or lost, in any format. Zeros
    of either sign count as equal. *)
Theorem negated_operands_negate_the_result :
  forall f sch h, adds_every_term sch -> hash_ok h ->
    (forall bs (arrays : list (arr (float f))), length bs = length arrays ->
      (forall s, outcomes (alike equal_numbers) (rmap (amap (f_flip (parity bs))) (einsum h (follow sch f_fma) s arrays))
                   (einsum h (follow sch f_fma) s (flip_operands bs arrays)))
      /\ (forall s strategy,
            outcomes (alike equal_numbers) (rmap (amap (f_flip (parity bs))) (compile_and_run h (follow sch f_fma) s arrays strategy))
              (compile_and_run h (follow sch f_fma) s (flip_operands bs arrays) strategy)))
    /\ forall b1 b2 (a b : arr (float f)) la ra,
         outcomes (alike equal_numbers) (rmap (amap (f_flip (xorb b1 b2))) (tensordot (follow sch f_fma) a b la ra))
           (tensordot (follow sch f_fma) (amap (f_flip b1) a) (amap (f_flip b2) b) la ra).
Proof.
  intros f sch h Hs Hh.
  set (R := fun b (x y : float f) => equal_numbers (f_flip b x) y).
  assert (HR : respects_grades xorb false R f_fma f_fma).
  { unfold R, equal_numbers, f_flip. constructor; cbn [proj1_sig szero sone sadd smul float_scalar f_zero f_one f_add f_mul f_fma].
    - intros []; right; cbn [flip SFopp]; eauto.
    - left. reflexivity.
    - intros g x x' y y' Hx Hy. eapply same_up_to_sign_of_zero_trans; [apply same_up_to_sign_of_zero_sym, flip_add|].
      apply zero_sign_add; auto.
    - intros g h' x x' y y' Hx Hy. rewrite <- flip_mul. apply zero_sign_mul; auto.
    - intros g h' x x' y y' z z' Hx Hy Hz. eapply same_up_to_sign_of_zero_trans; [apply same_up_to_sign_of_zero_sym, flip_fma|].
      apply zero_sign_fma; auto. }
  destruct (graded_elements_give_graded_results _ _ _ _ _ xorb false R f_fma f_fma xorb_monoid HR sch h Hs Hh) as [H1 H2].
  split.
  - intros bs arrays El. destruct (H1 bs arrays (flip_operands bs arrays)) as (G1 & G2 & _).
    { apply graded_map; auto. intros b x. left. reflexivity. }
    split; [intros s|intros s strategy]; (eapply outcomes_moved; [|solve [apply G1|apply G2]]); auto.
  - intros b1 b2 a b la ra. eapply outcomes_moved; [|apply (H2 b1 b2)]; auto.
    + split; [reflexivity|]. split; [reflexivity|]. split; [reflexivity|]. cbn [a_data amap].
      induction (a_data a); cbn [map]; constructor; auto. left. reflexivity.
    + split; [reflexivity|]. split; [reflexivity|]. split; [reflexivity|]. cbn [a_data amap].
      induction (a_data b); cbn [map]; constructor; auto. left. reflexivity.
Qed.
Print Assumptions negated_operands_negate_the_result.

(** Not a number, zero, or of the sign [s]. *)
Definition f_sign {f} (s : bool) (x : float f) : Prop := has_sign s (proj1_sig x).

Lemma alike_Forall {A} (P : A -> Prop) (a : arr A) : alike (fun x y => x = y /\ P x) a a <-> Forall P (a_data a).
Proof.
  split.
  - intros (_ & _ & _ & H). revert H. generalize (a_data a) at 1 3. intros l. revert l.
    induction (a_data a) as [|x l IH]; intros l' H; inversion H as [|? ? ? ? [E H1] H2]; subst; constructor; auto.
  - intros H. repeat split; auto. induction H; constructor; auto.
Qed.

Lemma graded_Forall {A G} (P : G -> A -> Prop) gs (arrays : list (arr A)) :
  Forall2 (fun g a => Forall (P g) (a_data a)) gs arrays -> graded (fun g x y => x = y /\ P g x) gs arrays arrays.
Proof. induction 1; constructor; auto. apply alike_Forall. auto. Qed.

(** A property of the elements. *)
Definition result_elements {A} (P : A -> Prop) (x : res (arr A)) : Prop :=
  forall r, x = Ok r -> Forall P (a_data r).

Lemma outcomes_elements {A} (P : A -> Prop) x : outcomes (alike (fun a b => a = b /\ P a)) x x -> result_elements P x.
Proof. intros H r ->. simpl in H. apply alike_Forall. exact H. Qed.

(** If the elements of each operand share a sign, those of the result have the product of the signs,
    unless they are zero or not a number. *)
Theorem signs_multiply :
  forall f sch h, adds_every_term sch -> hash_ok h ->
    (forall ss (arrays : list (arr (float f))), Forall2 (fun s a => Forall (f_sign s) (a_data a)) ss arrays ->
      (forall s, result_elements (f_sign (parity ss)) (einsum h (follow sch f_fma) s arrays))
      /\ (forall s strategy, result_elements (f_sign (parity ss)) (compile_and_run h (follow sch f_fma) s arrays strategy)))
    /\ forall s1 s2 (a b : arr (float f)) la ra, Forall (f_sign s1) (a_data a) -> Forall (f_sign s2) (a_data b) ->
         result_elements (f_sign (xorb s1 s2)) (tensordot (follow sch f_fma) a b la ra).
Proof.
  intros f sch h Hs Hh.
  set (R := fun s (x y : float f) => x = y /\ f_sign s x).
  assert (HR : respects_grades xorb false R f_fma f_fma).
  { unfold R, f_sign. constructor; cbn [proj1_sig szero sone sadd smul float_scalar f_zero f_one f_add f_mul f_fma].
    - intros s. split; [reflexivity|exact I].
    - split; [reflexivity|]. apply (round_sign (f_prec f) (f_emax f) false).
    - intros s x x' y y' [-> Hx] [-> Hy]. split; [reflexivity|]. apply add_sign; auto.
    - intros s t x x' y y' [-> Hx] [-> Hy]. split; [reflexivity|]. apply mul_sign; auto.
    - intros s t x x' y y' z z' [-> Hx] [-> Hy] [-> Hz]. split; [reflexivity|]. apply fma_sign; auto. }
  destruct (graded_elements_give_graded_results _ _ _ _ _ xorb false R f_fma f_fma xorb_monoid HR sch h Hs Hh) as [H1 H2].
  split.
  - intros ss arrays Hss. apply graded_Forall in Hss. destruct (H1 ss arrays arrays Hss) as (G1 & G2 & _).
    split; [intros s|intros s strategy]; apply outcomes_elements; [apply G1|apply G2].
  - intros s1 s2 a b la ra Ha Hb. apply outcomes_elements. apply (H2 s1 s2); apply alike_Forall; auto.
Qed.
Print Assumptions signs_multiply.

(** ** Powers of two *)

Local Open Scope Qc_scope.

(** The exponent of the smallest positive number of a format. *)
Definition f_emin (f : format) : Z := 3 - f_emax f - f_prec f.

Lemma rounds_nearest {f} (x : float f) t p : f_rounds x t -> f_value x = Some p -> nearest_even (f_prec f) (f_emax f) t p.
Proof.
  intros (_ & (w & Hw & _ & [E|[E _]]) & _) Ep.
  - unfold f_value in Ep. rewrite E in Ep. apply some_inj in Ep. subst. exact Hw.
  - unfold f_value in Ep. rewrite E in Ep. discriminate.
Qed.

Lemma add_finite f (x y : float f) p : f_value (f_add x y) = Some p -> f_value x <> None /\ f_value y <> None.
Proof.
  intros E. split; intros N; (destruct (add_none (f_prec f) (f_emax f) (proj1_sig x) (proj1_sig y)) as [H _]; [auto|]);
    unfold f_value in *; cbn [f_add proj1_sig] in E; congruence.
Qed.
Lemma mul_finite f (x y : float f) p : f_value (f_mul x y) = Some p -> f_value x <> None /\ f_value y <> None.
Proof.
  intros E. split; intros N; (destruct (mul_none (f_prec f) (f_emax f) (proj1_sig x) (proj1_sig y)) as [H _]; [auto|]);
    unfold f_value in *; cbn [f_mul proj1_sig] in E; congruence.
Qed.
Lemma fma_finite f (x y z : float f) p : f_value (f_fma x y z) = Some p ->
  f_value x <> None /\ f_value y <> None /\ f_value z <> None.
Proof.
  intros E. repeat split; intros N;
    (destruct (fma_none (f_prec f) (f_emax f) (proj1_sig x) (proj1_sig y) (proj1_sig z)) as [H _]; [auto|]);
    unfold f_value in *; cbn [f_fma proj1_sig] in E; congruence.
Qed.

Ltac finite x p E := destruct (f_value x) as [p|] eqn:E; [|congruence].

(** [x'] is [2 ^ c] times [x], where [x] is a multiple of [2 ^ -n] and [x'] one of [2 ^ -n']. *)
Definition times_power {f} (g : nat * nat * Z) (x x' : float f) : Prop :=
  let '(n, n', c) := g in
  exists p, f_value x = Some p /\ f_value x' = Some (pow2 c * p)
    /\ multiple (- Z.of_nat n) p /\ multiple (- Z.of_nat n') (pow2 c * p).

Definition add_grades (g h : nat * nat * Z) : nat * nat * Z :=
  let '(n, n', c) := g in let '(m, m', d) := h in ((n + m)%nat, (n' + m')%nat, (c + d)%Z).

Lemma add_grades_monoid : grade_monoid add_grades (0%nat, 0%nat, 0%Z).
Proof.
  constructor.
  - intros [[a b] c] [[a' b'] c'] [[a'' b''] c'']. cbn. f_equal; [f_equal|]; lia.
  - intros [[a b] c] [[a' b'] c']. cbn. f_equal; [f_equal|]; lia.
  - intros [[a b] c]. cbn. f_equal; [f_equal|]; lia.
Qed.

(** What is known of two elements of results. *)
Definition scaled {f} (g : nat * nat * Z) (x x' : float f) : Prop :=
  let '(n, n', c) := g in
  (f_emin f <= - Z.of_nat n)%Z -> (f_emin f <= - Z.of_nat n')%Z ->
  forall p p', f_value x = Some p -> f_value x' = Some p' ->
    multiple (- Z.of_nat n) p /\ multiple (- Z.of_nat n') p' /\ p' = pow2 c * p.

Lemma emin_ok f : SpecFloat.emin (f_prec f) (f_emax f) = f_emin f.
Proof. unfold SpecFloat.emin, f_emin. lia. Qed.

(** One operation, on both sides. *)
Lemma scaled_step f (x x' : float f) t t' n n' c : f_rounds x t -> f_rounds x' t' ->
  (f_emin f <= - Z.of_nat n)%Z -> (f_emin f <= - Z.of_nat n')%Z ->
  multiple (- Z.of_nat n) t -> multiple (- Z.of_nat n') t' -> t' = pow2 c * t ->
  forall p p', f_value x = Some p -> f_value x' = Some p' ->
    multiple (- Z.of_nat n) p /\ multiple (- Z.of_nat n') p' /\ p' = pow2 c * p.
Proof.
  intros Hx Hx' Hn Hn' Ht Ht' -> p p' Ep Ep'. rewrite <- emin_ok in *.
  pose proof (rounds_nearest _ _ _ Hx Ep) as N. pose proof (rounds_nearest _ _ _ Hx' Ep') as N'.
  pose proof (f_prec_ok f). pose proof (f_emax_ok f).
  split; [|split].
  - apply (nearest_multiple (f_prec f) (f_emax f)) with (t := t); auto.
  - apply (nearest_multiple (f_prec f) (f_emax f)) with (t := pow2 c * t); auto.
  - apply (nearest_scale (f_prec f) (f_emax f)) with (t := t); auto.
    + apply (multiple_weaken (- Z.of_nat n)); auto.
    + apply (multiple_weaken (- Z.of_nat n')); auto.
Qed.

Lemma scaled_respected f : respects_grades add_grades (0%nat, 0%nat, 0%Z) (@scaled f) f_fma f_fma.
Proof.
  constructor.
  - intros [[n n'] c] _ _ p p' Ep Ep'. apply some_inj in Ep, Ep'. subst. split; [apply multiple_0|]. split; [apply multiple_0|]. ring.
  - intros _ _ p p' Ep Ep'. change (f_value (f_one f) = Some p) in Ep. change (f_value (f_one f) = Some p') in Ep'.
    rewrite f_one_value in *. apply some_inj in Ep, Ep'. subst.
    assert (M : multiple (- Z.of_nat 0) 1) by (exists 1%Z; apply Qc_is_canon; reflexivity).
    split; [exact M|]. split; [exact M|]. change (pow2 0) with 1. ring.
  - intros [[n n'] c] x x' y y' Hx Hy Hn Hn' p p' Ep Ep'. cbn [sadd float_scalar] in *.
    destruct (add_finite _ _ _ _ Ep) as [F1 F2]. destruct (add_finite _ _ _ _ Ep') as [F3 F4].
    finite x px Ex. finite y py Ey. finite x' px' Ex'. finite y' py' Ey'.
    destruct (Hx Hn Hn' px px' Ex Ex') as (Mx & Mx' & Rx). destruct (Hy Hn Hn' py py' Ey Ey') as (My & My' & Ry).
    eapply (scaled_step f (f_add x y) (f_add x' y') (px + py) (px' + py')); eauto using f_add_rounds, multiple_add.
    subst. ring.
  - intros [[n n'] c] [[m m'] d] x x' y y' Hx Hy Hn Hn' p p' Ep Ep'. cbn [smul float_scalar] in *.
    destruct (mul_finite _ _ _ _ Ep) as [F1 F2]. destruct (mul_finite _ _ _ _ Ep') as [F3 F4].
    finite x px Ex. finite y py Ey. finite x' px' Ex'. finite y' py' Ey'.
    destruct (Hx ltac:(lia) ltac:(lia) px px' Ex Ex') as (Mx & Mx' & Rx).
    destruct (Hy ltac:(lia) ltac:(lia) py py' Ey Ey') as (My & My' & Ry).
    assert (En : (- Z.of_nat (n + m) = - Z.of_nat n + - Z.of_nat m)%Z) by lia.
    assert (En' : (- Z.of_nat (n' + m') = - Z.of_nat n' + - Z.of_nat m')%Z) by lia.
    eapply (scaled_step f (f_mul x y) (f_mul x' y') (px * py) (px' * py')); eauto using f_mul_rounds.
    + rewrite En. apply multiple_mul; auto.
    + rewrite En'. apply multiple_mul; auto.
    + subst. rewrite pow2_add. ring.
  - intros [[n n'] c] [[m m'] d] x x' y y' z z' Hx Hy Hz Hn Hn' p p' Ep Ep'.
    destruct (fma_finite _ _ _ _ _ Ep) as (F1 & F2 & F5). destruct (fma_finite _ _ _ _ _ Ep') as (F3 & F4 & F6).
    finite x px Ex. finite y py Ey. finite z pz Ez. finite x' px' Ex'. finite y' py' Ey'. finite z' pz' Ez'.
    destruct (Hx ltac:(lia) ltac:(lia) px px' Ex Ex') as (Mx & Mx' & Rx).
    destruct (Hy ltac:(lia) ltac:(lia) py py' Ey Ey') as (My & My' & Ry).
    destruct (Hz Hn Hn' pz pz' Ez Ez') as (Mz & Mz' & Rz).
    assert (En : (- Z.of_nat (n + m) = - Z.of_nat n + - Z.of_nat m)%Z) by lia.
    assert (En' : (- Z.of_nat (n' + m') = - Z.of_nat n' + - Z.of_nat m')%Z) by lia.
    eapply (scaled_step f (f_fma x y z) (f_fma x' y' z') (px * py + pz) (px' * py' + pz')); eauto using f_fma_rounds.
    + apply multiple_add; auto. rewrite En. apply multiple_mul; auto.
    + apply multiple_add; auto. rewrite En'. apply multiple_mul; auto.
    + subst. rewrite pow2_add. ring.
Qed.

Definition all_of (gs : list (nat * nat * Z)) : nat * nat * Z := fold_right add_grades (0%nat, 0%nat, 0%Z) gs.

(** Multiplying operands by powers of two multiplies the result by their product and changes none of its
    digits, provided that no product can fall below the smallest positive number (the elements of operand
    k are multiples of [2 ^ -n] before and of [2 ^ -n'] after, and the sums of all n and of all n' are in
    the format's range) and wherever neither result overflowed. *)
Theorem powers_of_two_pass_through :
  forall f sch h, adds_every_term sch -> hash_ok h ->
    (forall gs (arrays arrays' : list (arr (float f))) n n' c, graded times_power gs arrays arrays' ->
      all_of gs = (n, n', c) -> (f_emin f <= - Z.of_nat n)%Z -> (f_emin f <= - Z.of_nat n')%Z ->
      let by_power (x x' : float f) := forall p p', f_value x = Some p -> f_value x' = Some p' -> p' = pow2 c * p in
      (forall s, outcomes (alike by_power) (einsum h (follow sch f_fma) s arrays) (einsum h (follow sch f_fma) s arrays'))
      /\ (forall s strategy, outcomes (alike by_power) (compile_and_run h (follow sch f_fma) s arrays strategy)
                               (compile_and_run h (follow sch f_fma) s arrays' strategy)))
    /\ forall g1 g2 (a a' b b' : arr (float f)) la ra n n' c, alike (times_power g1) a a' -> alike (times_power g2) b b' ->
         add_grades g1 g2 = (n, n', c) -> (f_emin f <= - Z.of_nat n)%Z -> (f_emin f <= - Z.of_nat n')%Z ->
         outcomes (alike (fun x x' : float f => forall p p', f_value x = Some p -> f_value x' = Some p' -> p' = pow2 c * p))
           (tensordot (follow sch f_fma) a b la ra) (tensordot (follow sch f_fma) a' b' la ra).
Proof.
  intros f sch h Hs Hh.
  destruct (graded_elements_give_graded_results _ _ _ _ _ _ _ (@scaled f) f_fma f_fma add_grades_monoid (scaled_respected f)
              sch h Hs Hh) as [H1 H2].
  assert (HS : forall g (x x' : float f), times_power g x x' -> scaled g x x').
  { intros [[n n'] c] x x' (p & E & E' & M & M') _ _ q q' Eq Eq'. rewrite E in Eq. rewrite E' in Eq'.
    apply some_inj in Eq, Eq'. subst. auto. }
  assert (HA : forall g a a', alike (@times_power f g) a a' -> alike (scaled g) a a').
  { intros g a a' (E1 & E2 & E3 & E4). repeat split; auto. induction E4; constructor; auto. }
  assert (HO : forall n n' c x y, (f_emin f <= - Z.of_nat n)%Z -> (f_emin f <= - Z.of_nat n')%Z ->
    outcomes (alike (@scaled f (n, n', c))) x y ->
    outcomes (alike (fun x x' : float f => forall p p', f_value x = Some p -> f_value x' = Some p' -> p' = pow2 c * p)) x y).
  { intros n n' c x y Hn Hn'. destruct x as [r| |], y as [r'| |]; simpl; auto.
    intros (E1 & E2 & E3 & E4). repeat split; auto. induction E4 as [|u u' l l' Hu]; constructor; auto.
    intros p p' Ep Ep'. apply (Hu Hn Hn' p p' Ep Ep'). }
  split.
  - intros gs arrays arrays' n n' c Hg Eg Hn Hn'. assert (Hg' : graded scaled gs arrays arrays').
    { clear - Hg HA. induction Hg; constructor; auto. }
    destruct (H1 gs arrays arrays' Hg') as (G1 & G2 & _). unfold all_of in Eg. unfold total in *. rewrite Eg in *.
    split; [intros s; apply (HO n n'); auto|intros s strategy; apply (HO n n'); auto].
  - intros g1 g2 a a' b b' la ra n n' c Ha Hb Eg Hn Hn'. apply (HO n n'); auto. rewrite <- Eg. apply H2; auto.
Qed.
Print Assumptions powers_of_two_pass_through.

(** ** Order *)

Lemma rounds_zero f : nearest_even (f_prec f) (f_emax f) 0 0.
Proof. left. auto. Qed.

Lemma rounds_mono {f} (x y : float f) t u p q : f_rounds x t -> f_rounds y u -> t <= u ->
  f_value x = Some p -> f_value y = Some q -> p <= q.
Proof.
  intros Hx Hy Htu Ep Eq. pose proof (f_prec_ok f). pose proof (f_emax_ok f).
  apply (nearest_mono (f_prec f) (f_emax f)) with (t := t) (u := u); eauto using rounds_nearest.
Qed.

(** If the larger number is finite, so is the smaller one. *)
Lemma rounds_below {f} (x y : float f) t u q : f_rounds x t -> f_rounds y u -> 0 <= t -> t <= u -> f_value y = Some q ->
  exists p, f_value x = Some p /\ 0 <= p /\ p <= q.
Proof.
  intros Hx Hy H0 Htu Eq. pose proof (f_prec_ok f) as Hp. pose proof (f_emax_ok f) as He.
  destruct Hx as (_ & (w & Hw & _ & Ex) & _). pose proof (rounds_nearest y u q Hy Eq) as Hq.
  assert (L : w <= q) by (apply (nearest_mono (f_prec f) (f_emax f)) with (t := t) (u := u); auto).
  assert (L0 : 0 <= w) by (apply (nearest_mono (f_prec f) (f_emax f)) with (t := 0) (u := t); auto; apply rounds_zero).
  destruct Ex as [Ex|[_ Ex]]; [exists w; auto|]. exfalso. rewrite Qcabs_pos in Ex by auto.
  apply (Qclt_not_le (Qcabs q) (pow2 (f_emax f))).
  - apply (valid_below (f_prec f) (f_emax f) Hp (proj1_sig y)); auto. apply proj2_sig.
  - eapply Qcle_trans; [exact Ex|]. eapply Qcle_trans; [exact L|]. apply Qcle_Qcabs.
Qed.

(** [y] is infinite or not a number, or both are finite and [0 <= x <= y]. *)
Definition below {f} (x y : float f) : Prop := forall q, f_value y = Some q -> exists p, f_value x = Some p /\ 0 <= p /\ p <= q.

Lemma Qc_mul_le p q p' q' : 0 <= p -> p <= q -> 0 <= p' -> p' <= q' -> p * p' <= q * q'.
Proof.
  intros H1 H2 H3 H4. apply Qcle_trans with (q * p').
  - apply Qcmult_le_compat_r; auto.
  - rewrite !(Qcmult_comm q). apply Qcmult_le_compat_r; auto. apply Qcle_trans with p; auto.
Qed.
Lemma Qc_mul_nonneg p q : 0 <= p -> 0 <= q -> 0 <= p * q.
Proof. intros H1 H2. rewrite <- (Qcmult_0_l q). apply Qcmult_le_compat_r; auto. Qed.
Lemma Qc_add_nonneg p q : 0 <= p -> 0 <= q -> 0 <= p + q.
Proof. intros H1 H2. rewrite <- (Qcplus_0_l 0). apply Qcplus_le_compat; auto. Qed.

(** If non-negative operands are made smaller, no element of the result becomes larger, and none that was
    finite becomes infinite or not a number; whatever the order of the additions, as long as it is the
    same for both. *)
Theorem smaller_operands_give_smaller_results :
  forall f sch h,
    (forall (arrays arrays' : list (arr (float f))), Forall2 (alike below) arrays arrays' ->
      (forall s, outcomes (alike below) (einsum h (follow sch f_fma) s arrays) (einsum h (follow sch f_fma) s arrays'))
      /\ (forall s strategy, outcomes (alike below) (compile_and_run h (follow sch f_fma) s arrays strategy)
                               (compile_and_run h (follow sch f_fma) s arrays' strategy)))
    /\ forall (a a' b b' : arr (float f)) la ra, alike below a a' -> alike below b b' ->
         outcomes (alike below) (tensordot (follow sch f_fma) a b la ra) (tensordot (follow sch f_fma) a' b' la ra).
Proof.
  intros f sch h.
  assert (HR : respected (@below f) f_fma f_fma).
  { constructor.
    - intros q Eq. exists q. apply some_inj in Eq as E. subst. repeat split; auto; apply Qcle_refl.
    - intros q Eq. exists q. split; auto. change (f_value (f_one f) = Some q) in Eq. rewrite f_one_value in Eq.
      apply some_inj in Eq. subst. split; [discriminate|apply Qcle_refl].
    - intros x y x' y' Hx Hy q Eq. cbn [sadd float_scalar] in *. destruct (add_finite _ _ _ _ Eq) as [F1 F2].
      finite y q1 E1. finite y' q2 E2. destruct (Hx q1 E1) as (p1 & P1 & P2 & P3). destruct (Hy q2 E2) as (p2 & P4 & P5 & P6).
      apply (rounds_below _ (f_add y y') (p1 + p2) (q1 + q2)); auto using f_add_rounds, Qc_add_nonneg.
      apply Qcplus_le_compat; auto.
    - intros x y x' y' Hx Hy q Eq. cbn [smul float_scalar] in *. destruct (mul_finite _ _ _ _ Eq) as [F1 F2].
      finite y q1 E1. finite y' q2 E2. destruct (Hx q1 E1) as (p1 & P1 & P2 & P3). destruct (Hy q2 E2) as (p2 & P4 & P5 & P6).
      apply (rounds_below _ (f_mul y y') (p1 * p2) (q1 * q2)); auto using f_mul_rounds, Qc_mul_nonneg, Qc_mul_le.
    - intros x y x' y' x'' y'' Hx Hy Hz q Eq. destruct (fma_finite _ _ _ _ _ Eq) as (F1 & F2 & F3).
      finite y q1 E1. finite y' q2 E2. finite y'' q3 E3. destruct (Hx q1 E1) as (p1 & P1 & P2 & P3).
      destruct (Hy q2 E2) as (p2 & P4 & P5 & P6). destruct (Hz q3 E3) as (p3 & P7 & P8 & P9).
      apply (rounds_below _ (f_fma y y' y'') (p1 * p2 + p3) (q1 * q2 + q3));
        auto using f_fma_rounds, Qc_add_nonneg, Qc_mul_nonneg.
      apply Qcplus_le_compat; auto using Qc_mul_le. }
  split.
  - intros arrays arrays' Ha.
    destruct (related_elements_give_related_results _ _ _ _ _ f_fma f_fma HR sch h arrays arrays' Ha) as (H1 & H2 & _ & _). auto.
  - intros a a' b b' la ra Ha Hb.
    destruct (related_elements_give_related_results _ _ _ _ _ f_fma f_fma HR sch h [a; b] [a'; b']) as (_ & _ & _ & H4); auto.
Qed.
Print Assumptions smaller_operands_give_smaller_results.

(** The part of an operand: fixed and not negative, varying, or anything. *)
Inductive part : Type := Fixed | Varying | Anything.
Definition join (g h : part) : part :=
  match g, h with Fixed, k => k | k, Fixed => k | _, _ => Anything end.

Lemma join_monoid : grade_monoid join Fixed.
Proof. constructor; intros; repeat match goal with g : part |- _ => destruct g end; reflexivity. Qed.

(** Infinite, not a number, or not negative. *)
Definition not_negative {f} (x : float f) : Prop := forall p, f_value x = Some p -> 0 <= p.

(** Where both are finite, [x <= y]. *)
Definition at_most {f} (x y : float f) : Prop := forall p q, f_value x = Some p -> f_value y = Some q -> p <= q.

Definition ordered {f} (g : part) (x y : float f) : Prop :=
  match g with Fixed => x = y /\ not_negative x | Varying => at_most x y | Anything => True end.

Lemma rounds_not_negative {f} (x : float f) t : f_rounds x t -> 0 <= t -> not_negative x.
Proof.
  intros Hx Ht p Ep. pose proof (f_prec_ok f). pose proof (f_emax_ok f).
  apply (nearest_mono (f_prec f) (f_emax f)) with (t := 0) (u := t); eauto using rounds_nearest, rounds_zero.
Qed.

Lemma ordered_respected f : respects_grades join Fixed (@ordered f) f_fma f_fma.
Proof.
  constructor.
  - intros [| |]; cbn [ordered]; auto.
    + split; auto. intros p Ep. apply some_inj in Ep. subst. apply Qcle_refl.
    + intros p q Ep Eq. rewrite Ep in Eq. apply some_inj in Eq. subst. apply Qcle_refl.
  - split; auto. intros p Ep. change (f_value (f_one f) = Some p) in Ep. rewrite f_one_value in Ep. apply some_inj in Ep. subst. discriminate.
  - intros [| |] x x' y y' Hx Hy; cbn [ordered sadd float_scalar] in *; auto.
    + destruct Hx as [<- Hx], Hy as [<- Hy]. split; auto. intros p Ep. destruct (add_finite _ _ _ _ Ep) as [F1 F2].
      finite x q1 E1. finite y q2 E2. apply (rounds_not_negative (f_add x y) (q1 + q2)); auto using f_add_rounds, Qc_add_nonneg.
    + intros p q Ep Eq. destruct (add_finite _ _ _ _ Ep) as [F1 F2]. destruct (add_finite _ _ _ _ Eq) as [F3 F4].
      finite x p1 E1. finite y p2 E2. finite x' q1 E3. finite y' q2 E4.
      apply (rounds_mono (f_add x y) (f_add x' y') (p1 + p2) (q1 + q2)); auto using f_add_rounds.
      apply Qcplus_le_compat; auto.
  - intros g h x x' y y' Hx Hy. cbn [smul float_scalar].
    assert (V : forall x x' y : float f, at_most x x' -> not_negative y -> at_most (f_mul x y) (f_mul x' y)
                /\ at_most (f_mul y x) (f_mul y x')).
    { clear. intros x x' y Hx Hy. split; intros p q Ep Eq; destruct (mul_finite _ _ _ _ Ep) as [F1 F2];
        destruct (mul_finite _ _ _ _ Eq) as [F3 F4]; finite x p1 E1; finite y p2 E2; finite x' q1 E3.
      - apply (rounds_mono (f_mul x y) (f_mul x' y) (p1 * p2) (q1 * p2)); auto using f_mul_rounds.
        apply Qcmult_le_compat_r; auto.
      - apply (rounds_mono (f_mul y x) (f_mul y x') (p2 * p1) (p2 * q1)); auto using f_mul_rounds.
        rewrite !(Qcmult_comm p2). apply Qcmult_le_compat_r; auto. }
    destruct g, h; cbn [ordered join] in *; auto.
    + destruct Hx as [<- Hx], Hy as [<- Hy]. split; auto. intros p Ep. destruct (mul_finite _ _ _ _ Ep) as [F1 F2].
      finite x q1 E1. finite y q2 E2. apply (rounds_not_negative (f_mul x y) (q1 * q2)); auto using f_mul_rounds, Qc_mul_nonneg.
    + destruct Hx as [<- Hx]. apply V; auto.
    + destruct Hy as [<- Hy]. apply V; auto.
  - intros g h x x' y y' z z' Hx Hy Hz.
    assert (V : forall x x' y y' z z' : float f,
                (forall p1 q1 p2 q2, f_value x = Some p1 -> f_value x' = Some q1 -> f_value y = Some p2 -> f_value y' = Some q2 ->
                   p1 * p2 <= q1 * q2) -> at_most z z' -> at_most (f_fma x y z) (f_fma x' y' z')).
    { clear. intros x x' y y' z z' Hxy Hz p q Ep Eq. destruct (fma_finite _ _ _ _ _ Ep) as (F1 & F2 & F3).
      destruct (fma_finite _ _ _ _ _ Eq) as (F4 & F5 & F6).
      finite x p1 E1. finite y p2 E2. finite z p3 E3. finite x' q1 E4. finite y' q2 E5. finite z' q3 E6.
      apply (rounds_mono (f_fma x y z) (f_fma x' y' z') (p1 * p2 + p3) (q1 * q2 + q3)); auto using f_fma_rounds.
      apply Qcplus_le_compat; auto. }
    destruct g, h; cbn [ordered join] in *; auto.
    + destruct Hx as [<- Hx], Hy as [<- Hy], Hz as [<- Hz]. split; auto. intros p Ep.
      destruct (fma_finite _ _ _ _ _ Ep) as (F1 & F2 & F3). finite x q1 E1. finite y q2 E2. finite z q3 E3.
      apply (rounds_not_negative (f_fma x y z) (q1 * q2 + q3)); auto using f_fma_rounds, Qc_mul_nonneg, Qc_add_nonneg.
    + destruct Hx as [<- Hx]. apply V; auto. intros p1 q1 p2 q2 E1 E2 E3 E4. assert (p1 = q1) by congruence. subst.
      rewrite !(Qcmult_comm q1). apply Qcmult_le_compat_r; auto.
    + destruct Hy as [<- Hy]. apply V; auto. intros p1 q1 p2 q2 E1 E2 E3 E4. assert (p2 = q2) by congruence. subst.
      apply Qcmult_le_compat_r; auto.
Qed.

Lemma total_fixed n : total join Fixed (repeat Fixed n) = Fixed.
Proof. induction n; auto. Qed.

Lemma graded_fixed f (l : list (arr (float f))) : Forall (fun a => Forall not_negative (a_data a)) l ->
  graded ordered (repeat Fixed (length l)) l l.
Proof.
  induction 1; cbn [length repeat]; constructor; auto.
  apply (alike_Forall not_negative). auto.
Qed.

(** A call is monotone in each operand by itself, whose elements may have any sign, if the others' are not
    negative. *)
Theorem calls_are_monotone_in_each_operand :
  forall f sch h, adds_every_term sch -> hash_ok h ->
    (forall (l1 l2 : list (arr (float f))) a a',
      Forall (fun b => Forall not_negative (a_data b)) (l1 ++ l2) -> alike at_most a a' ->
      (forall s, outcomes (alike at_most) (einsum h (follow sch f_fma) s (l1 ++ a :: l2)) (einsum h (follow sch f_fma) s (l1 ++ a' :: l2)))
      /\ (forall s strategy, outcomes (alike at_most) (compile_and_run h (follow sch f_fma) s (l1 ++ a :: l2) strategy)
                               (compile_and_run h (follow sch f_fma) s (l1 ++ a' :: l2) strategy)))
    /\ forall (a a' b : arr (float f)) la ra, Forall not_negative (a_data b) -> alike at_most a a' ->
         outcomes (alike at_most) (tensordot (follow sch f_fma) a b la ra) (tensordot (follow sch f_fma) a' b la ra)
         /\ outcomes (alike at_most) (tensordot (follow sch f_fma) b a la ra) (tensordot (follow sch f_fma) b a' la ra).
Proof.
  intros f sch h Hs Hh.
  destruct (graded_elements_give_graded_results _ _ _ _ _ _ _ (@ordered f) f_fma f_fma join_monoid (ordered_respected f)
              sch h Hs Hh) as [H1 H2].
  split.
  - intros l1 l2 a a' HF Ha. apply Forall_app in HF as [F1 F2].
    destruct (H1 (repeat Fixed (length l1) ++ Varying :: repeat Fixed (length l2)) (l1 ++ a :: l2) (l1 ++ a' :: l2)) as (G1 & G2 & _).
    { apply graded_app; [apply graded_fixed; auto|]. constructor; [exact Ha|]. apply graded_fixed; auto. }
    rewrite (total_app _ _ join_monoid) in G1, G2. cbn [total fold_right] in G1, G2.
    change (fold_right join Fixed (repeat Fixed (length l2))) with (total join Fixed (repeat Fixed (length l2))) in G1, G2.
    rewrite !total_fixed in G1, G2. split; [exact G1|exact G2].
  - intros a a' b la ra Hb Ha. apply (alike_Forall not_negative) in Hb. split.
    + apply (H2 Varying Fixed a a' b b la ra Ha Hb).
    + apply (H2 Fixed Varying b b a a' la ra Hb Ha).
Qed.
Print Assumptions calls_are_monotone_in_each_operand.

(** ** Infinities and not-a-number *)

(** An element that is finite has only finite factors, and then is within the bound of C52: to trust a
    result it is enough to look at it. *)
Theorem finite_results_have_finite_factors :
  forall f h (lay : backend (float f)) s arrays ops out size r, hash_ok h -> float_backend lay ->
    call_ok s (map (@a_shape (float f)) arrays) ops out size -> Forall wf arrays ->
    (einsum h lay s arrays = Ok r
     \/ exists strategy, (strategy = Naive \/ strategy = Reverse)
          /\ (do p <- einsum_path_fn h s arrays strategy; contract_operands lay p arrays) = Ok r) ->
    forall o x w, in_bounds (map size out) o = true -> a_get r o = Ok x -> f_value x = Some w ->
      (forall e a ix, selects size ops out o e -> operand_of arrays ops a ix -> f_value (elem a (map e ix)) <> None)
      /\ close f_value (f_eps f) (f_eta f) size arrays ops out o x.
Proof.
  intros f h lay s arrays ops out size r Hh Hl Hc Hw Hr o x w Ho Ex Ew.
  set (bad := fun y : float f => match f_value y with None => true | Some _ => false end).
  assert (Hbad : forall y : float f, bad y = true <-> f_value y = None).
  { intros y. unfold bad. destruct (f_value y); split; congruence. }
  assert (Hadd : forall y z : float f, bad y || bad z = true -> bad (f_add y z) = true).
  { intros y z H. apply Hbad. apply orb_true_iff in H. rewrite !Hbad in H. apply (add_none (f_prec f) (f_emax f)). exact H. }
  assert (Hmul : forall y z : float f, bad y || bad z = true -> bad (f_mul y z) = true).
  { intros y z H. apply Hbad. apply orb_true_iff in H. rewrite !Hbad in H. apply (mul_none (f_prec f) (f_emax f)). exact H. }
  assert (Hfma : forall y z u : float f, bad y || bad z || bad u = true -> bad (fused lay y z u) = true).
  { intros y z u H. destruct Hl as [_ [E|E]]; rewrite E.
    - apply Hadd. apply orb_true_iff in H as [H|H]; apply orb_true_iff; [left; apply Hmul; auto|auto].
    - apply Hbad. rewrite !orb_true_iff, !Hbad in H. apply (fma_none (f_prec f) (f_emax f)). tauto. }
  split.
  - intros e a ix He Hop Hn.
    destruct (bad_values_are_not_lost (float f) (float_scalar f) bad Hadd Hmul h lay s arrays ops out size r Hh (proj1 Hl)
                Hfma Hc Hw Hr o e a ix He Hop) as (x' & Ex' & Hx'); [apply Hbad; auto|].
    apply Hbad in Hx'. congruence.
  - destruct (float_einsum_error f h lay s arrays ops out size Hh Hl Hc Hw) as [G1 G2]. cbv zeta in *.
    assert (K : forall y, y = Ok r ->
      (y = Panic /\ blocked_in size (combine arrays ops) out)
      \/ (~ blocked_in size (combine arrays ops) out
          /\ exists r g, y = Ok r /\ holds r (map size out) g
               /\ forall o, in_bounds (map size out) o = true -> close f_value (f_eps f) (f_eta f) size arrays ops out o (g o)) ->
      close f_value (f_eps f) (f_eta f) size arrays ops out o x).
    { intros y -> [[E _]|[_ (r' & g & E & (_ & _ & Hg) & Hcl)]]; [discriminate|]. injection E as <-.
      specialize (Hg o Ho). rewrite Ex in Hg. injection Hg as ->. apply Hcl. auto. }
    destruct Hr as [E|(st & Hst & E)]; [apply (K _ E); auto|apply (K _ E); auto].
Qed.
Print Assumptions finite_results_have_finite_factors.

(** ** Cases *)

Lemma backwards_adds_every_term : adds_every_term backwards.
Proof. intros T St fma. apply backwards_runs. Qed.

Local Open Scope nat_scope.
Local Open Scope list_scope.

(** Numbers [z * 2 ^ e] of a format. *)
Definition parr f (sh : list nat) (l : list Z) (e : Z) : arr (float f) := amap (fun z => f_of f z e) (zarr sh l).

(** Three bits: 5 * 3 + 2 rounds to 16 and overflows; its negative does so too. *)
Example negated_case :
  let a := farr tiny [2; 2] [1; -3; 5; 2]%Z in
  let b := farr tiny [2] [3; 1]%Z in
  let run x := do r <- einsum id_hash (follow backwards f_fma) (chars "ij,j->i") x; do l <- a_iter r; Ok (map (@proj1_sig _ _) l) in
  adds_every_term backwards /\ length [true; false] = length [a; b]
  /\ run [a; b] = Ok [S754_zero false; S754_infinity false]
  /\ run (flip_operands [true; false] [a; b]) = Ok [S754_zero false; S754_infinity true]
  /\ (do r <- tensordot (follow backwards f_fma) a b [1] [0]; do l <- a_iter r; Ok (map (@proj1_sig _ _) l))
     = Ok [S754_zero false; S754_infinity false].
Proof. split; [apply backwards_adds_every_term|]. repeat split; vm_compute; reflexivity. Qed.

(** Positive times negative elements. *)
Example signs_case :
  let a := farr tiny [2; 2] [1; 3; 0; 2]%Z in
  let b := farr tiny [2] [-3; -1]%Z in
  Forall2 (fun s (a : arr (float tiny)) => Forall (f_sign s) (a_data a)) [false; true] [a; b]
  /\ (do r <- einsum id_hash (follow backwards f_fma) (chars "ij,j->i") [a; b]; do l <- a_iter r; Ok (map (@proj1_sig _ _) l))
     = Ok (map (fun z => proj1_sig (f_of tiny z 0)) [-6; -2]%Z).
Proof.
  split.
  - repeat constructor.
  - vm_compute. reflexivity.
Qed.

(** A quarter of the elements 1, -3, 5 and 2, twice the elements 3 and 1: half of the results. *)
Example powers_case :
  let a := farr tiny [2; 2] [1; -3; 1; 2]%Z in
  let a' := parr tiny [2; 2] [1; -3; 1; 2]%Z (-2) in
  let b := farr tiny [2] [3; 1]%Z in
  let b' := parr tiny [2] [3; 1]%Z 1 in
  let gs := [(0, 2, (-2)%Z); (0, 0, 1%Z)] in
  graded times_power gs [a; b] [a'; b'] /\ all_of gs = (0, 2, (-1)%Z)
  /\ (f_emin tiny <= - Z.of_nat 0)%Z /\ (f_emin tiny <= - Z.of_nat 2)%Z
  /\ (do r <- einsum id_hash (follow backwards f_fma) (chars "ij,j->i") [a; b]; do l <- a_iter r; Ok (map (@proj1_sig _ _) l))
     = Ok (map (fun z => proj1_sig (f_of tiny z 0)) [0; 5]%Z)
  /\ (do r <- einsum id_hash (follow backwards f_fma) (chars "ij,j->i") [a'; b']; do l <- a_iter r; Ok (map (@proj1_sig _ _) l))
     = Ok (map (fun z => proj1_sig (f_of tiny z (-1))) [0; 5]%Z).
Proof.
  assert (T : forall z n n' c, f_value (f_of tiny z 0) = Some (of_Z z) -> f_value (f_of tiny z c) = Some (pow2 c * of_Z z)%Qc ->
    multiple (- Z.of_nat n) (of_Z z) -> multiple (- Z.of_nat n') (pow2 c * of_Z z) ->
    times_power (n, n', c) (f_of tiny z 0) (f_of tiny z c)).
  { intros z n n' c H1 H2 H3 H4. exists (of_Z z). auto. }
  split; [|split; [reflexivity|split; [discriminate|split; [discriminate|split]]]].
  - assert (M : forall z, multiple (- Z.of_nat 0) (of_Z z)).
    { intros z. exists z. change (pow2 (- Z.of_nat 0)) with 1%Qc. ring. }
    assert (M2 : forall z, multiple (- Z.of_nat 2) (pow2 (-2) * of_Z z)).
    { intros z. exists z. change (- Z.of_nat 2)%Z with (-2)%Z. ring. }
    assert (M1 : forall z, multiple (- Z.of_nat 0) (pow2 1 * of_Z z)).
    { intros z. exists (2 * z)%Z. rewrite of_Z_mul. change (pow2 (- Z.of_nat 0)) with 1%Qc. change (pow2 1) with (of_Z 2). ring. }
    constructor; [|constructor; [|constructor]].
    + repeat split. cbn [a_data farr parr amap zarr mk_c map]. repeat constructor; apply T; auto;
        vm_compute; f_equal; apply Qc_is_canon; reflexivity.
    + repeat split. cbn [a_data farr parr amap zarr mk_c map]. repeat constructor; apply T; auto;
        vm_compute; f_equal; apply Qc_is_canon; reflexivity.
  - vm_compute. reflexivity.
  - vm_compute. reflexivity.
Qed.

Lemma value_of_tiny z : (Z.abs z <= 8)%Z -> f_value (f_of tiny z 0) = Some (of_Z z).
Proof. intros H. apply f_of_stands. exact H. Qed.

(** 1 * 3 + 2 * 1 is at most 2 * 3 + 3 * 1, and stays so when 9 is rounded to 8. *)
Example smaller_case :
  let a := farr tiny [2] [1; 2]%Z in
  let a' := farr tiny [2] [2; 3]%Z in
  let b := farr tiny [2] [3; 1]%Z in
  Forall2 (alike below) [a; b] [a'; b]
  /\ (do r <- einsum id_hash (follow backwards f_fma) (chars "j,j->") [a; b]; do l <- a_iter r; Ok (map (@proj1_sig _ _) l))
     = Ok (map (fun z => proj1_sig (f_of tiny z 0)) [5]%Z)
  /\ (do r <- einsum id_hash (follow backwards f_fma) (chars "j,j->") [a'; b]; do l <- a_iter r; Ok (map (@proj1_sig _ _) l))
     = Ok (map (fun z => proj1_sig (f_of tiny z 0)) [8]%Z).
Proof.
  assert (B : forall z z', (0 <= z <= z')%Z -> (z' <= 8)%Z -> below (f_of tiny z 0) (f_of tiny z' 0)).
  { intros z z' H H' q Eq. rewrite value_of_tiny in Eq by lia. apply some_inj in Eq. subst. exists (of_Z z).
    split; [apply value_of_tiny; lia|]. split; [rewrite <- of_Z_0|]; apply of_Z_mono; lia. }
  split; [|split; vm_compute; reflexivity].
  constructor; [|constructor; [|constructor]]; repeat split; cbn [a_data farr amap zarr mk_c map]; repeat constructor; apply B; lia.
Qed.

(** An operand with negative elements. *)
Example monotone_case :
  let a := farr tiny [2] [-3; 2]%Z in
  let a' := farr tiny [2] [-2; 2]%Z in
  let b := farr tiny [2] [3; 1]%Z in
  Forall (fun b : arr (float tiny) => Forall not_negative (a_data b)) ([] ++ [b]) /\ alike at_most a a'
  /\ (do r <- einsum id_hash (follow backwards f_fma) (chars "j,j->") [a; b]; do l <- a_iter r; Ok (map (@proj1_sig _ _) l))
     = Ok (map (fun z => proj1_sig (f_of tiny z 0)) [-7]%Z)
  /\ (do r <- einsum id_hash (follow backwards f_fma) (chars "j,j->") [a'; b]; do l <- a_iter r; Ok (map (@proj1_sig _ _) l))
     = Ok (map (fun z => proj1_sig (f_of tiny z 0)) [-4]%Z).
Proof.
  assert (B : forall z z', (-8 <= z <= z')%Z -> (z' <= 8)%Z -> at_most (f_of tiny z 0) (f_of tiny z' 0)).
  { intros z z' H H' p q Ep Eq. rewrite value_of_tiny in Ep, Eq by lia. apply some_inj in Ep, Eq. subst. apply of_Z_mono; lia. }
  split; [|split; [|split; vm_compute; reflexivity]].
  - constructor; [|constructor]. cbn [a_data farr amap zarr mk_c map]. repeat constructor; intros p Ep;
      rewrite value_of_tiny in Ep by lia; apply some_inj in Ep; subst; rewrite <- of_Z_0; apply of_Z_mono; lia.
  - repeat split; cbn [a_data farr amap zarr mk_c map]; repeat constructor; apply B; lia.
Qed.

(** A case of finite elements beside infinite ones: 3 * 5 + 1 * 2 overflows, 1 * 5 + 1 * 2 does not. *)
Example finite_case :
  let a := farr tiny [2; 2] [3; 1; 1; 1]%Z in
  let b := farr tiny [2] [5; 2]%Z in
  let size := size_fn (combine (chars "ij") [2; 2]) in
  float_backend (float_fma_backend tiny)
  /\ call_ok (chars "ij,j->i") (map (@a_shape (float tiny)) [a; b]) [chars "ij"; chars "j"] (chars "i") size
  /\ Forall wf [a; b]
  /\ (do r <- einsum id_hash (float_fma_backend tiny) (chars "ij,j->i") [a; b]; do l <- a_iter r; Ok (map (@proj1_sig _ _) l))
     = Ok [S754_infinity false; proj1_sig (f_of tiny 7 0)].
Proof.
  split; [apply float_fma_backend_ok|]. split; [apply check_call_ok; check_call_tac|].
  split; [apply wfs_b_ok; reflexivity|]. vm_compute. reflexivity.
Qed.

Lemma Forall2_head {T U} (P : T -> U -> Prop) x y l l' : Forall2 P (x :: l) (y :: l') -> P x y.
Proof. intros H. inversion H; subst; auto. Qed.

(** Without the condition on the range digits are lost: a sixteenth times one half is zero, and an eighth
    times one half is a sixteenth. *)
Theorem powers_of_two_pass_through_refuted :
  ~ (forall f sch h, adds_every_term sch -> hash_ok h ->
      forall cs (arrays arrays' : list (arr (float f))),
        graded (fun c x x' => exists p, f_value x = Some p /\ f_value x' = Some (pow2 c * p)%Qc) cs arrays arrays' ->
        forall s, outcomes (alike (fun x x' : float f => forall p p', f_value x = Some p -> f_value x' = Some p' ->
                              p' = pow2 (fold_right Z.add 0%Z cs) * p)%Qc)
                    (einsum h (follow sch f_fma) s arrays) (einsum h (follow sch f_fma) s arrays')).
Proof.
  intros H.
  specialize (H tiny backwards id_hash backwards_adds_every_term id_hash_ok' [1%Z; 0%Z]
                [parr tiny [1] [1]%Z (-4); parr tiny [1] [1]%Z (-1)] [parr tiny [1] [1]%Z (-3); parr tiny [1] [1]%Z (-1)]).
  assert (G : outcomes (alike (fun x x' : float tiny => forall p p', f_value x = Some p -> f_value x' = Some p' ->
                              p' = pow2 (fold_right Z.add 0%Z [1%Z; 0%Z]) * p)%Qc)
                    (einsum id_hash (follow backwards f_fma) (chars "i,i->i") [parr tiny [1] [1]%Z (-4); parr tiny [1] [1]%Z (-1)])
                    (einsum id_hash (follow backwards f_fma) (chars "i,i->i") [parr tiny [1] [1]%Z (-3); parr tiny [1] [1]%Z (-1)])).
  { apply H. constructor; [|constructor; [|constructor]]; repeat split; cbn [a_data parr amap zarr mk_c map]; repeat constructor.
    - exists (pow2 (-4)). split; vm_compute; f_equal; apply Qc_is_canon; reflexivity.
    - exists (pow2 (-1)). split; vm_compute; f_equal; apply Qc_is_canon; reflexivity. }
  clear H.
  assert (E1 : (do r <- einsum id_hash (follow backwards f_fma) (chars "i,i->i") [parr tiny [1] [1]%Z (-4); parr tiny [1] [1]%Z (-1)];
                Ok (map (@proj1_sig _ _) (a_data r))) = Ok [S754_zero false]) by (vm_compute; reflexivity).
  assert (E2 : (do r <- einsum id_hash (follow backwards f_fma) (chars "i,i->i") [parr tiny [1] [1]%Z (-3); parr tiny [1] [1]%Z (-1)];
                Ok (map (@proj1_sig _ _) (a_data r))) = Ok [proj1_sig (f_of tiny 1 (-4))]) by (vm_compute; reflexivity).
  destruct (einsum _ _ _ _) as [r|?|]; try discriminate E1.
  destruct (einsum _ _ _ _) as [r'|?|]; try discriminate E2.
  destruct G as (_ & _ & _ & G). cbn [rbind] in E1, E2.
  assert (F1 : map (@proj1_sig _ _) (a_data r) = [S754_zero false]) by congruence.
  assert (F2 : map (@proj1_sig _ _) (a_data r') = [proj1_sig (f_of tiny 1 (-4))]) by congruence. clear E1 E2.
  destruct (a_data r) as [|x l]; [discriminate F1|]. destruct (a_data r') as [|x' l']; [discriminate F2|].
  pose proof (Forall2_head _ _ _ _ _ G) as G1. cbv beta in G1.
  assert (X1 : proj1_sig x = S754_zero false) by (cbn [map] in F1; congruence).
  assert (X2 : proj1_sig x' = proj1_sig (f_of tiny 1 (-4))) by (cbn [map] in F2; congruence).
  unfold f_value in G1. rewrite X1, X2 in G1.
  specialize (G1 _ _ eq_refl eq_refl). apply (f_equal this) in G1. vm_compute in G1. discriminate.
Qed.
Print Assumptions powers_of_two_pass_through_refuted.
