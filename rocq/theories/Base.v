(** Shared vocabulary of the model: outcomes, labels, scalars, oracles.

    Source: oracleofnj/einsum at the pinned commit, /repo. Every definition that models
    source code cites file:lines. This file has no proofs. *)
From Coq Require Export List Arith NArith ZArith Bool Permutation.
From Coq Require Export Ring_theory.
From Coq Require Import String.
Export ListNotations.

(** ** Outcomes

    [Ok] is normal return, [Err m] is [Result::Err(m)] with the crate's own message, and
    [Panic] is any Rust panic: a failed [assert!], [unwrap] of [None] or [Err], an
    out-of-range index, [usize] underflow, an explicit [panic!()], or a panic documented
    for the ndarray call being made [lib.rs:202-207]. *)
Inductive res (T : Type) : Type :=
| Ok (t : T)
| Err (m : string)
| Panic.
Arguments Ok {T} t.
Arguments Err {T} m.
Arguments Panic {T}.

(** Rust's [?] operator and sequencing [validation.rs:76]. *)
Definition rbind {T U : Type} (x : res T) (k : T -> res U) : res U :=
  match x with
  | Ok t => k t
  | Err m => Err m
  | Panic => Panic
  end.

Declare Scope res_scope.
Delimit Scope res_scope with res.
Notation "'do' x <- e ; k" := (rbind e (fun x => k))
  (at level 200, x pattern, e at level 100, k at level 200, right associativity) : res_scope.
Open Scope res_scope.

(** [Option::unwrap] [contractors/mod.rs:487]. *)
Definition unwrap {T : Type} (o : option T) : res T :=
  match o with Some t => Ok t | None => Panic end.

(** [Result::unwrap]: an [Err] becomes a panic [contractors/mod.rs:220,304]. *)
Definition unwrap_res {T : Type} (r : res T) : res T :=
  match r with Ok t => Ok t | Err _ => Panic | Panic => Panic end.

(** [assert!(b)] [pair_contractors.rs:322-326]. *)
Definition rassert (b : bool) : res unit := if b then Ok tt else Panic.

(** Slice indexing [v[i]] [contractors/mod.rs:354-378]. *)
Definition index {T : Type} (l : list T) (i : nat) : res T := unwrap (nth_error l i).

(** [usize] subtraction. Debug builds panic on underflow; release builds wrap. The theorems
    show the underflow case is never reached on validated input
    [singleton_contractors.rs:149-151]. *)

Definition usub (a b : nat) : res nat := if b <=? a then Ok (a - b) else Panic.

(** An operation applied to each element in order, the first failure ending the loop: the
    [map(..).collect()] of /repo whose closures can panic, for example pair_contractors.rs:58-79. *)

Fixpoint mapM {T U : Type} (f : T -> res U) (l : list T) : res (list U) :=
  match l with
  | [] => Ok []
  | x :: l' => do y <- f x; do ys <- mapM f l'; Ok (y :: ys)
  end.

(** A loop that updates a state: the [for] loops and [fold]s of /repo, for example
    singleton_contractors.rs:161-171, contractors/mod.rs:474-486. *)
Fixpoint foldM {T U : Type} (f : U -> T -> res U) (l : list T) (u : U) : res U :=
  match l with
  | [] => Ok u
  | x :: l' => do u' <- f u x; foldM f l' u'
  end.

(** ** Labels: Rust [char], a Unicode code point. *)

(** A label [validation.rs:37-41]. *)

Definition char := N.

(** [==] on [char], for example pair_contractors.rs:62. *)
Definition char_eq_dec : forall a b : char, {a = b} + {a <> b} := N.eq_dec.

(** [contains], used for [HashMap::get(..).is_some()], [HashSet::contains] and
    [iter().position(..).is_some()] [validation.rs:240-249]. *)
Definition mem (c : char) (l : list char) : bool := existsb (N.eqb c) l.

(** [l.iter().position(|&x| x == c)]: index of the first occurrence
    [pair_contractors.rs:62,282,292,888]. *)
Fixpoint position (c : char) (l : list char) : option nat :=
  match l with
  | [] => None
  | x :: l' => if N.eqb x c then Some 0 else option_map S (position c l')
  end.

(** The set of elements of a list, as held by a HashSet, or the key set of a HashMap built
    from the list: one copy of each. The order here carries no meaning; every place where
    Rust iterates over such a set passes this list through the hash-order oracle
    [pair_contractors.rs:323-326]. *)
Definition distinct (l : list char) : list char := nodup char_eq_dec l.

(** Occurrence counts: [*m.entry(c).or_insert(0) += 1] over a list. *)
Definition count (c : char) (l : list char) : nat := count_occ char_eq_dec l c.

(** [Vec<char>::sort()]. The vectors sorted by the crate have distinct elements, so the
    sorted vector does not depend on the algorithm [validation.rs:100,145]. *)

Fixpoint insert_char (c : char) (l : list char) : list char :=
  match l with
  | [] => [c]
  | x :: l' => if N.leb c x then c :: l else x :: insert_char c l'
  end.

(** [unique_indices.sort()], [summation_indices.sort()] [validation.rs:100,145]. *)
Definition sort_chars (l : list char) : list char := fold_right insert_char [] l.

(** ** Hash iteration order

    [h k l] is the order in which the HashSet/HashMap instance identified by the key [k],
    whose elements are [l], iterates. Each instance in the program gets its own key, because
    Rust seeds every instance differently [optimizers.rs:92-106]. *)

Definition key := list nat.

(** The iteration orders of a run, one for each place where /repo iterates over a HashSet or
    HashMap [validation.rs:90-100,139-145, optimizers.rs:92-106, contractors/mod.rs:204-216]. *)
Definition hash_order := key -> list char -> list char.

(** All that is assumed about hash iteration: it visits each element once
    [optimizers.rs:92-106]. *)
Definition hash_ok (h : hash_order) : Prop := forall k l, Permutation l (h k l).

(** ** Scalars: the part of [ndarray::LinalgScalar] the crate uses. *)

(** The scalars [lib.rs:202]. *)
Class Scalar (A : Type) := {
  szero : A;
  sone : A;
  sadd : A -> A -> A;
  smul : A -> A -> A
}.

(** The laws assumed by theorems about sums of products: a commutative semiring, in the
    words of Coq's standard library [lib.rs:202]. *)
Definition semiring (A : Type) {S : Scalar A} : Prop :=
  semi_ring_theory szero sone sadd smul (@eq A).

(** The same laws without [0 * x = 0], which fails for example of not-a-number [lib.rs:202]. *)
Record near_semiring (A : Type) {S : Scalar A} : Prop := mkNear {
  ns_add_0_l : forall x : A, sadd szero x = x;
  ns_add_comm : forall x y : A, sadd x y = sadd y x;
  ns_add_assoc : forall x y z : A, sadd x (sadd y z) = sadd (sadd x y) z;
  ns_mul_1_l : forall x : A, smul sone x = x;
  ns_mul_comm : forall x y : A, smul x y = smul y x;
  ns_mul_assoc : forall x y z : A, smul x (smul y z) = smul (smul x y) z;
  ns_distr_l : forall x y z : A, smul (sadd x y) z = sadd (smul x z) (smul y z);
  ns_zero_zero : smul szero szero = (szero : A)
}.
Arguments ns_add_0_l {A S} _.
Arguments ns_add_comm {A S} _.
Arguments ns_add_assoc {A S} _.
Arguments ns_mul_1_l {A S} _.
Arguments ns_mul_comm {A S} _.
Arguments ns_mul_assoc {A S} _.
Arguments ns_distr_l {A S} _.
Arguments ns_zero_zero {A S} _.

(** Products with zero do not matter in sums over labels of these lengths: zero absorbs, or no sum is
    empty [lib.rs:202]. *)
Record summable (A : Type) {S : Scalar A} (size : char -> nat) : Prop := mkSummable {
  summable_near : near_semiring A;
  summable_zero : (forall x : A, smul szero x = szero) \/ (forall c, 0 < size c)
}.
Arguments summable_near {A S size} _.
Arguments summable_zero {A S size} _.

Lemma semiring_near {A} {S : Scalar A} : semiring A -> near_semiring A.
Proof. intros []. constructor; auto. Qed.

Lemma semiring_summable {A} {S : Scalar A} size : semiring A -> summable A size.
Proof. intros H. constructor; [apply semiring_near; auto|]. left. apply H. Qed.

Coercion semiring_near : semiring >-> near_semiring.
Coercion summable_near : summable >-> near_semiring.
