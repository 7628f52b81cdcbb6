(** Dual numbers and complex numbers as scalars. *)
From Verif Require Import Base BaseFacts NDArray Validation Optimizers Path Api Spec SumFacts ArrayFacts EinsumMain EinsumProps
  RelationFacts AdjointFacts.
From Coq Require Import Lia.

(** ** The specification *)

Section Def.
Context {A : Type} {Sc : Scalar A}.

(** A value with its derivative: [v + d t] with [t * t = 0]. *)
Definition dual : Type := (A * A)%type.
Definition dual_scalar : Scalar dual := {|
  szero := (szero, szero);
  sone := (sone, szero);
  sadd := fun x y => (sadd (fst x) (fst y), sadd (snd x) (snd y));
  smul := fun x y => (smul (fst x) (fst y), sadd (smul (fst x) (snd y)) (smul (snd x) (fst y)))
|}.

(** [l] with [x] in place of its [k]th element. *)
Definition replaced {T} (k : nat) (x : T) (l : list T) : list T := firstn k l ++ x :: skipn (S k) l.

(** The derivative of an Einstein sum at [values] in the direction [slopes]: in turn, each operand is replaced
    by its slope. *)
Definition derivative (size : char -> nat) (values slopes : list (arr A)) (ops : list (list char)) (out : list char)
    (o : list nat) : A :=
  sum_n (length values) (fun k => einsum_value size (replaced k (nth k slopes (mkArr [] 0%Z [] [])) values) ops out o).

(** [x] is [v + d t] up to a multiple of [t * t]. *)
Definition expands (t x : A) (vd : dual) : Prop :=
  exists q, x = sadd (sadd (fst vd) (smul t (snd vd))) (smul (smul t t) q).

End Def.
Arguments dual : clear implicits.

(** ** Dual numbers are a semiring *)

Section Dual.
Context {A : Type} {Sc : Scalar A}.
Hypothesis SR : semiring A.
Definition A_laws : semi_ring_theory szero sone sadd smul (@eq A) := SR.
Add Ring A_ring : A_laws.

Lemma dual_semiring : @semiring (dual A) dual_scalar.
Proof.
  constructor; intros; repeat match goal with x : dual A |- _ => destruct x end; simpl; f_equal; ring.
Qed.

Lemma expands_relation t : @scalar_relation A (dual A) Sc dual_scalar (expands t).
Proof.
  constructor; unfold expands; simpl.
  - exists szero. ring.
  - exists szero. ring.
  - intros x [v d] y [v' d'] [q ->] [q' ->]. simpl. exists (sadd q q'). ring.
  - intros x [v d] y [v' d'] [q ->] [q' ->]. simpl.
    exists (sadd (sadd (smul d d') (sadd (smul v q') (smul q v')))
             (sadd (smul t (sadd (smul d q') (smul q d'))) (smul (smul t t) (smul q q')))). ring.
Qed.

(** ** Parts of an Einstein sum over dual numbers *)

Lemma dual_sum_n n (f : nat -> dual A) :
  @sum_n (dual A) dual_scalar n f = (sum_n n (fun i => fst (f i)), sum_n n (fun i => snd (f i))).
Proof. induction n as [|n IH]; simpl; auto. rewrite IH. auto. Qed.

Lemma dual_nested size cs (f : env -> dual A) : forall e,
  @nested_sum (dual A) dual_scalar size cs f e
  = (nested_sum size cs (fun e => fst (f e)) e, nested_sum size cs (fun e => snd (f e)) e).
Proof.
  induction cs as [|c cs IH]; intros e; simpl; [destruct (f e); auto|].
  rewrite dual_sum_n. f_equal; apply sum_n_ext; intros i _; rewrite IH; auto.
Qed.

Lemma nested_sum_sum_n size cs n (f : nat -> env -> A) : forall e,
  nested_sum size cs (fun e => sum_n n (fun k => f k e)) e = sum_n n (fun k => nested_sum size cs (f k) e).
Proof.
  induction n as [|n IH]; intros e; simpl.
  - apply (nested_sum_zero SR).
  - rewrite (nested_sum_add SR). rewrite IH. auto.
Qed.

Lemma replaced_0 {T} (x y : T) l : replaced 0 x (y :: l) = x :: l.
Proof. reflexivity. Qed.
Lemma replaced_S {T} k (x y : T) l : replaced (S k) x (y :: l) = y :: replaced k x l.
Proof. reflexivity. Qed.

Lemma sum_n_first n (f : nat -> A) : sum_n (S n) f = sadd (f 0) (sum_n n (fun i => f (S i))).
Proof.
  induction n as [|n IH]; [simpl; ring|].
  change (sum_n (S (S n)) f) with (sadd (sum_n (S n) f) (f (S n))). rewrite IH. simpl. ring.
Qed.

(** The product rule. *)
Lemma dual_product (l : list (dual A)) :
  @product (dual A) dual_scalar l
  = (product (map fst l), sum_n (length l) (fun k => product (replaced k (nth k (map snd l) szero) (map fst l)))).
Proof.
  induction l as [|[v d] l IH]; [reflexivity|].
  change (@product _ dual_scalar ((v, d) :: l)) with (@smul _ dual_scalar (v, d) (@product _ dual_scalar l)).
  rewrite IH. cbn [length]. rewrite sum_n_first. cbn [smul dual_scalar fst snd map]. f_equal.
  rewrite replaced_0.
  rewrite (sum_n_ext _ (fun i => product (replaced (S i) (nth (S i) (d :: map snd l) szero) (v :: map fst l)))
             (fun i => smul v (product (replaced i (nth i (map snd l) szero) (map fst l))))).
  - rewrite (sum_n_mul_l SR) by (left; apply SR).
    cbn [nth]. change (product (d :: map fst l)) with (smul d (product (map fst l))). ring.
  - intros i _. rewrite replaced_S. reflexivity.
Qed.

Lemma elem_amap {B} {Sb : Scalar B} (f : A -> B) (a : arr A) idx : f szero = szero -> elem (amap f a) idx = f (elem a idx).
Proof.
  intros Hz. unfold elem, a_get, amap. cbn [a_shape a_strides a_off a_data].
  destruct (in_bounds (a_shape a) idx); auto. unfold znth.
  destruct (Z.ltb _ 0); simpl; auto. rewrite nth_error_map. destruct (nth_error _ _); simpl; auto.
Qed.
End Dual.

Section Value.
Context {A : Type} {Sc : Scalar A}.
Hypothesis SR : semiring A.

Lemma combine_replaced {T U} k (x : T) : forall (l : list T) (l' : list U) (d : U), k < length l -> length l = length l' ->
  combine (replaced k x l) l' = replaced k (x, nth k l' d) (combine l l').
Proof.
  induction k as [|k IH]; intros [|y l] [|z l'] d Hk Hl; cbn in Hk, Hl; try lia.
  - reflexivity.
  - rewrite replaced_S. cbn [combine nth]. rewrite replaced_S. f_equal. apply IH; lia.
Qed.

Lemma map_replaced {T U} (f : T -> U) k x l : map f (replaced k x l) = replaced k (f x) (map f l).
Proof. unfold replaced. rewrite map_app. cbn [map]. rewrite firstn_map, skipn_map. auto. Qed.

Lemma dual_term (arrays : list (arr (dual A))) ops e : length arrays = length ops ->
  @term (dual A) dual_scalar arrays ops e
  = (term (map (amap fst) arrays) ops e,
     sum_n (length arrays) (fun k =>
       term (replaced k (nth k (map (amap snd) arrays) (mkArr [] 0%Z [] [])) (map (amap fst) arrays)) ops e)).
Proof.
  intros Hl. unfold term. rewrite (dual_product SR). rewrite !map_map, map_length, combine_length, <- Hl, Nat.min_id.
  assert (Ef : forall g : dual A -> A, g (@szero _ dual_scalar) = szero -> forall (l : list (arr (dual A))) ops,
    map (fun x => g (@elem (dual A) dual_scalar (fst x) (map e (snd x)))) (combine l ops)
    = map (fun ai => elem (fst ai) (map e (snd ai))) (combine (map (amap g) l) ops)).
  { intros g Hg l. induction l as [|a l IH]; intros [|ix ops']; cbn; auto. f_equal; auto.
    symmetry. apply (@elem_amap (dual A) dual_scalar A Sc g a). auto. }
  rewrite (Ef fst) by auto. f_equal. apply sum_n_ext. intros k Hk.
  rewrite (combine_replaced k _ (map (amap fst) arrays) ops []) by (rewrite map_length; assumption).
  rewrite map_replaced. cbn [fst snd]. f_equal. f_equal.
  rewrite (Ef snd) by auto.
  rewrite (nth_indep _ szero ((fun ai => elem (fst ai) (map e (snd ai))) (mkArr [] 0%Z [] [], [])))
    by (rewrite map_length, combine_length, map_length; rewrite <- Hl, Nat.min_id; assumption).
  rewrite (map_nth (fun ai : arr A * list char => elem (fst ai) (map e (snd ai)))).
  rewrite combine_nth by (rewrite map_length; auto). reflexivity.
Qed.

Lemma dual_value size (arrays : list (arr (dual A))) ops out o : length arrays = length ops ->
  @einsum_value (dual A) dual_scalar size arrays ops out o
  = (einsum_value size (map (amap fst) arrays) ops out o,
     derivative size (map (amap fst) arrays) (map (amap snd) arrays) ops out o).
Proof.
  intros Hl. unfold einsum_value at 1. rewrite (dual_nested (Sc := Sc)).
  unfold derivative, einsum_value. rewrite map_length. f_equal.
  - apply nested_sum_ext_all. intros e'. rewrite dual_term by auto. auto.
  - rewrite <- (nested_sum_sum_n SR). apply nested_sum_ext_all. intros e'. rewrite dual_term by auto. auto.
Qed.

Lemma dual_sum_over sh : forall f : list nat -> dual A,
  @sum_over (dual A) dual_scalar sh f = (sum_over sh (fun z => fst (f z)), sum_over sh (fun z => snd (f z))).
Proof.
  induction sh as [|d sh IH]; intros f; simpl; [destruct (f []); auto|].
  rewrite (dual_sum_n (Sc := Sc)). f_equal; apply sum_n_ext; intros i _; rewrite IH; auto.
Qed.

Lemma dual_tensordot_value (a b : arr (dual A)) la ra o :
  @tensordot_value (dual A) dual_scalar a b la ra o
  = (tensordot_value (amap fst a) (amap fst b) la ra o,
     sadd (tensordot_value (amap fst a) (amap snd b) la ra o) (tensordot_value (amap snd a) (amap fst b) la ra o)).
Proof.
  unfold tensordot_value. rewrite dual_sum_over.
  assert (Ef : forall x i, @elem (dual A) dual_scalar x i = (elem (amap fst x) i, elem (amap snd x) i)).
  { intros x i. rewrite (surjective_pairing (@elem (dual A) dual_scalar x i)).
    f_equal; symmetry; [apply (@elem_amap (dual A) dual_scalar A Sc fst)|apply (@elem_amap (dual A) dual_scalar A Sc snd)]; auto. }
  rewrite <- (AdjointFacts.sum_over_add SR). cbn [amap a_shape]. f_equal.
  - apply AdjointFacts.sum_over_ext. intros z _. rewrite !Ef. auto.
  - apply AdjointFacts.sum_over_ext. intros z _. rewrite !Ef. auto.
Qed.
End Value.

(** ** Complex numbers over a ring *)

Section Complex.
Context {A : Type} {Sc : Scalar A}.
Variable sneg : A -> A.

(** Real and imaginary part. *)
Definition complex_scalar : Scalar (A * A) := {|
  szero := (szero, szero);
  sone := (sone, szero);
  sadd := fun x y => (sadd (fst x) (fst y), sadd (snd x) (snd y));
  smul := fun x y => (sadd (smul (fst x) (fst y)) (sneg (smul (snd x) (snd y))),
                      sadd (smul (fst x) (snd y)) (smul (snd x) (fst y)))
|}.
Definition conjugate (x : A * A) : A * A := (fst x, sneg (snd x)).

Hypothesis RT : ring_theory szero sone sadd smul (fun x y => sadd x (sneg y)) sneg (@eq A).
Add Ring A_ring : RT.

Lemma complex_semiring : @semiring (A * A) complex_scalar.
Proof.
  constructor; intros; repeat match goal with x : (A * A)%type |- _ => destruct x end; simpl; f_equal; ring.
Qed.

Lemma conjugate_homomorphism : @homomorphism (A * A) (A * A) complex_scalar complex_scalar conjugate.
Proof.
  unfold homomorphism, conjugate. repeat split; intros; repeat match goal with x : (A * A)%type |- _ => destruct x end; simpl;
    f_equal; ring.
Qed.

Lemma real_homomorphism : @homomorphism A (A * A) Sc complex_scalar (fun x => (x, szero)).
Proof. unfold homomorphism. repeat split; intros; simpl; f_equal; ring. Qed.
End Complex.
