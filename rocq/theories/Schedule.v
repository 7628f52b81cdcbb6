(** Backends that choose layouts and orders of summation without looking at the elements (C60). *)
From Verif Require Import Base BaseFacts NDArray Validation Optimizers Strategies Path Api Spec RelationFacts EinsumMain ParamFacts.
From Coq Require Import Lia.

(** Arithmetic expressions in variables, as written before any simplification. *)
Inductive expr (V : Type) : Type :=
| Var (v : V)
| Zero
| One
| Plus (e1 e2 : expr V)
| Times (e1 e2 : expr V)
| Fused (e1 e2 e3 : expr V).
Arguments Var {V}.
Arguments Zero {V}.
Arguments One {V}.
Arguments Plus {V}.
Arguments Times {V}.
Arguments Fused {V}.

Fixpoint eval {A V : Type} {Sc : Scalar A} (fma : A -> A -> A -> A) (env : V -> A) (e : expr V) : A :=
  match e with
  | Var v => env v
  | Zero => szero
  | One => sone
  | Plus e1 e2 => sadd (eval fma env e1) (eval fma env e2)
  | Times e1 e2 => smul (eval fma env e1) (eval fma env e2)
  | Fused e1 e2 e3 => fma (eval fma env e1) (eval fma env e2) (eval fma env e3)
  end.

(** Expressions are scalars whose operations do nothing but write themselves down. *)
Definition expr_scalar (V : Type) : Scalar (expr V) :=
  {| szero := Zero; sone := One; sadd := Plus; smul := Times |}.

(** What a backend may choose, seeing no element. [sc_arrange]: the new array, each place of its
    buffer holding the place in the old buffer its element comes from. [sc_sum]: the sum of as many
    terms as there are, whose variables are the numbers of the terms. [sc_dot]: the same for a sum of
    products; the variables are the numbers of the pairs and which factor is meant. *)
Record schedule : Type := mkSchedule {
  sc_arrange : layout_op -> list (arr unit) -> arr unit -> arr nat;
  sc_sum : nat -> arr unit -> list nat -> nat -> expr nat;
  sc_dot : arr unit -> arr unit -> list nat -> nat -> expr (nat * bool)
}.

(** The backend that follows a schedule, with the given fused multiply-add. *)
Definition follow {A : Type} {Sc : Scalar A} (sch : schedule) (fma : A -> A -> A -> A) : backend A :=
  mkBackend
    (fun op ins a => amap (fun p => nth p (a_data a) szero) (sc_arrange sch op (map frame ins) (frame a)))
    (fun ax a idx l => eval fma (fun p => nth p l szero) (sc_sum sch ax (frame a) idx (length l)))
    fma
    (fun a b idx l =>
       eval fma (fun p : nat * bool => let (k, left) := p in
                 let q := nth k l (szero, szero) in if left then fst q else snd q)
         (sc_dot sch (frame a) (frame b) idx (length l))).

(** The element at a place of the buffer of an operand. *)
Definition element {A : Type} {Sc : Scalar A} (arrays : list (arr A)) (v : nat * nat) : A :=
  match nth_error arrays (fst v) with
  | Some a => nth (snd v) (a_data a) szero
  | None => szero
  end.

(** A relation that the constants and operations respect. *)
Record respected {A B : Type} {Sa : Scalar A} {Sb : Scalar B} (R : A -> B -> Prop)
    (fma : A -> A -> A -> A) (fma' : B -> B -> B -> B) : Prop := {
  re_zero : R szero szero;
  re_one : R sone sone;
  re_add : forall x x' y y', R x x' -> R y y' -> R (sadd x y) (sadd x' y');
  re_mul : forall x x' y y', R x x' -> R y y' -> R (smul x y) (smul x' y');
  re_fma : forall x x' y y' z z', R x x' -> R y y' -> R z z' -> R (fma x y z) (fma' x' y' z')
}.

Lemma nth_alike {A B} {Sa : Scalar A} {Sb : Scalar B} (R : A -> B -> Prop) l l' p : R szero szero -> Forall2 R l l' ->
  R (nth p l szero) (nth p l' szero).
Proof. intros H0 H. revert p. induction H; intros [|p]; simpl; auto. Qed.

Lemma follow_arranges {A B} {Sa : Scalar A} {Sb : Scalar B} (R : A -> B -> Prop) sch fma fma' : R szero szero ->
  arranges_alike R (follow sch fma) (follow sch fma').
Proof.
  intros H0 op ins ins' a a' Hi Ha. cbn [arrange follow]. rewrite Hi, (frame_alike _ _ _ Ha).
  repeat split; auto. cbn [amap a_data]. induction (a_data (sc_arrange _ _ _ _)); simpl; constructor; auto.
  apply nth_alike; auto. apply Ha.
Qed.

Section Follow.
Context {A B : Type} {Sa : Scalar A} {Sb : Scalar B}.
Variables (R : A -> B -> Prop) (fma : A -> A -> A -> A) (fma' : B -> B -> B -> B).
Hypothesis HR : respected R fma fma'.

Lemma eval_alike {V} (env : V -> A) (env' : V -> B) e : (forall v, R (env v) (env' v)) ->
  R (eval fma env e) (eval fma' env' e).
Proof. intros H. induction e; simpl; auto; apply HR; auto. Qed.

Lemma follow_alike sch : backends_alike R (follow sch fma) (follow sch fma').
Proof.
  constructor.
  - apply HR.
  - exact (re_mul _ _ _ HR).
  - apply follow_arranges. apply HR.
  - intros ax a a' idx l l' Ha Hl. cbn [add_up follow]. rewrite (frame_alike _ _ _ Ha), (Forall2_length_eq _ _ _ Hl).
    apply eval_alike. intros p. apply nth_alike; auto. apply HR.
  - intros a a' b b' idx l l' Ha Hb Hl. cbn [add_products follow].
    rewrite (frame_alike _ _ _ Ha), (frame_alike _ _ _ Hb), (Forall2_length_eq _ _ _ Hl).
    apply eval_alike. intros [p left].
    assert (H : forall p, R (fst (nth p l (szero, szero))) (fst (nth p l' (szero, szero)))
                          /\ R (snd (nth p l (szero, szero))) (snd (nth p l' (szero, szero)))).
    { clear p. induction Hl; intros [|p]; cbn [nth fst snd]; auto; split; apply HR. }
    destruct left; apply H.
Qed.

End Follow.

(** ** Evaluating expressions *)

Lemma eval_respected {A V} {Sc : Scalar A} (fma : A -> A -> A -> A) (env : V -> A) :
  @respected _ _ (expr_scalar V) Sc (fun e x => eval fma env e = x) Fused fma.
Proof. constructor; simpl; auto; intros; subst; auto. Qed.

Lemma alike_amap {A B} (f : A -> B) (a : arr A) (b : arr B) : alike (fun x y => f x = y) a b <-> b = amap f a.
Proof.
  split.
  - destruct a as [d o s t], b as [d' o' s' t']. intros (H1 & H2 & H3 & H4). cbn in *. subst. unfold amap. cbn. f_equal.
    induction H4; simpl; congruence.
  - intros ->. repeat split. cbn [amap a_data]. induction (a_data a); simpl; constructor; auto.
Qed.

Lemma outcomes_rmap {A B} (f : A -> B) (x : res (arr A)) (y : res (arr B)) :
  outcomes (alike (fun x y => f x = y)) x y -> y = rmap (amap f) x.
Proof.
  destruct x, y; simpl; try tauto; intros H.
  - apply alike_amap in H. congruence.
  - congruence.
Qed.

(** The variables of arrays with the given frames. *)
Definition variables (k : nat) (a : arr unit) : arr (expr (nat * nat)) :=
  mkArr (map (fun p => Var (k, p)) (seq 0 (length (a_data a)))) (a_off a) (a_shape a) (a_strides a).

Fixpoint all_variables (k : nat) (frames : list (arr unit)) : list (arr (expr (nat * nat))) :=
  match frames with
  | [] => []
  | a :: frames => variables k a :: all_variables (S k) frames
  end.

Lemma variables_alike {A} {Sc : Scalar A} fma (env : nat * nat -> A) k (a : arr A) :
  (forall p, env (k, p) = nth p (a_data a) szero) ->
  alike (fun e x => eval fma env e = x) (variables k (frame a)) a.
Proof.
  intros H. unfold variables. repeat split. cbn [a_data frame amap]. rewrite map_length.
  assert (G : forall l d, (forall p, p < length l -> env (k, d + p) = nth p l szero) ->
            Forall2 (fun e x => eval fma env e = x) (map (fun p => Var (k, p)) (seq d (length l))) l).
  { clear H. induction l as [|x l IH]; intros d H; simpl; constructor.
    - simpl. rewrite <- (Nat.add_0_r d). apply (H 0). simpl. lia.
    - apply IH. intros p Hp. rewrite Nat.add_succ_comm. apply (H (S p)). simpl. lia. }
  apply G. intros p _. apply H.
Qed.

Lemma all_variables_alike {A} {Sc : Scalar A} fma (arrays : list (arr A)) : forall k (env : nat * nat -> A),
  (forall i p, env (k + i, p) = element arrays (i, p)) ->
  Forall2 (alike (fun e x => eval fma env e = x)) (all_variables k (map frame arrays)) arrays.
Proof.
  induction arrays as [|a arrays IH]; intros k env H; simpl; constructor.
  - apply variables_alike. intros p. rewrite <- (Nat.add_0_r k). apply (H 0 p).
  - apply IH. intros i p. rewrite Nat.add_succ_comm. rewrite (H (S i) p). reflexivity.
Qed.

Lemma symbolic {A} {Sc : Scalar A} fma (arrays : list (arr A)) :
  Forall2 (alike (fun e x => eval fma (element arrays) e = x)) (all_variables 0 (map frame arrays)) arrays.
Proof. apply all_variables_alike. auto. Qed.
