(** The specification, independent of the code: what an einsum string means, when a call is
    well formed, and the value of an Einstein sum. Only the record [arr], its element read
    [a_get] and (for C08) ndarray's [is_contiguous] are shared with the model; nothing here
    uses a model function of the crate. *)
From Verif Require Import Base NDArray.
From Coq Require Import Sorted.

(** ** Strings *)

Definition lower (c : char) : Prop := (97 <= c /\ c <= 122)%N.
Definition lower_run (l : list char) : Prop := Forall lower l.
Definition operand_run (l : list char) : Prop := l <> [] /\ lower_run l.

Definition comma : char := 44%N.
Definition arrow : list char := [45%N; 62%N].

(** Comma separated list. *)
Fixpoint join (l : list (list char)) : list char :=
  match l with
  | [] => []
  | [x] => x
  | x :: l' => x ++ comma :: join l'
  end.

(** The grammar: one or more non-empty operands, then optionally "->" and the output. *)
Inductive grammar : list char -> list (list char) -> option (list char) -> Prop :=
| grammar_implicit : forall ops,
    ops <> [] -> Forall operand_run ops -> grammar (join ops) ops None
| grammar_explicit : forall ops out,
    ops <> [] -> Forall operand_run ops -> lower_run out ->
    grammar (join ops ++ arrow ++ out) ops (Some out).

(** The output labels meant by a string without "->": those occurring once, alphabetically. *)
Definition implicit_output (ops : list (list char)) (out : list char) : Prop :=
  StronglySorted N.lt out
  /\ forall c, In c out <-> count_occ N.eq_dec (concat ops) c = 1.

(** The operand labels and output labels a string means. *)
Definition meaning (s : list char) (ops : list (list char)) (out : list char) : Prop :=
  grammar s ops (Some out) \/ (grammar s ops None /\ implicit_output ops out).

(** ** Well-formed calls *)

(** The output names each label at most once, and only labels of the operands. *)
Definition output_ok (ops : list (list char)) (out : list char) : Prop :=
  NoDup out /\ incl out (concat ops).

(** [size] gives each label a length and each operand has the shape its labels require. *)
Definition shapes_ok (size : char -> nat) (ops : list (list char)) (shapes : list (list nat))
  : Prop :=
  Forall2 (fun ix sh => sh = map size ix) ops shapes.

(** A call with these labels and sizes is well formed. *)
Definition call_ok (s : list char) (shapes : list (list nat))
    (ops : list (list char)) (out : list char) (size : char -> nat) : Prop :=
  meaning s ops out /\ output_ok ops out /\ shapes_ok size ops shapes.

Definition accepted (s : list char) (shapes : list (list nat)) : Prop :=
  exists ops out size, call_ok s shapes ops out size.

(** No operand both repeats a label and has an empty axis (C08). *)
Definition no_empty_diagonal (size : char -> nat) (ops : list (list char)) : Prop :=
  Forall (fun ix => NoDup ix \/ Forall (fun c => size c <> 0) ix) ops.

(** ** Arrays *)

(** A view all of whose elements lie in its buffer. Every ndarray array or view is one. *)
Definition wf {A : Type} (a : arr A) : Prop :=
  length (a_strides a) = length (a_shape a)
  /\ forall idx, in_bounds (a_shape a) idx = true ->
       (0 <= a_off a + dot_off idx (a_strides a) < Z.of_nat (length (a_data a)))%Z.

(** The element at a position; [szero] outside the array. *)
Definition elem {A : Type} {S : Scalar A} (a : arr A) (idx : list nat) : A :=
  match a_get a idx with Ok x => x | _ => szero end.

(** [a] has shape [sh] and holds [f idx] at every position [idx]. *)
Definition holds {A : Type} (a : arr A) (sh : list nat) (f : list nat -> A) : Prop :=
  a_shape a = sh
  /\ length (a_strides a) = length sh
  /\ forall idx, in_bounds sh idx = true -> a_get a idx = Ok (f idx).

(** Two arrays with the same shape and the same elements. *)
Definition same_array {A : Type} (a b : arr A) : Prop :=
  a_shape a = a_shape b
  /\ forall idx, in_bounds (a_shape a) idx = true -> a_get a idx = a_get b idx.

(** Two runs end the same way: equal arrays, or both [Err], or both panic. *)
Definition same_outcome {A : Type} (x y : res (arr A)) : Prop :=
  match x, y with
  | Ok a, Ok b => same_array a b
  | Err _, Err _ => True
  | Panic, Panic => True
  | _, _ => False
  end.

(** The call panics on the operand [a] with labels [ix], [others] being the labels used by the
    other operands and the output: some label repeats, some axis is empty, and it is not the
    case that [a] is contiguous with positive strides, has only axes of length 0 or 1, and has
    a label used nowhere else (C08). *)
Definition blocked {A : Type} (size : char -> nat) (a : arr A) (ix others : list char) : Prop :=
  ~ NoDup ix
  /\ (exists c, In c ix /\ size c = 0)
  /\ ~ (is_contiguous a = true /\ Forall (fun s => 0 < s)%Z (a_strides a)
        /\ (forall c, In c ix -> size c <= 1) /\ exists c, In c ix /\ ~ In c others).

(** One of the operands, given with their labels, is such an operand. *)
Definition blocked_in {A : Type} (size : char -> nat) (z : list (arr A * list char))
    (out : list char) : Prop :=
  exists before a ix after, z = before ++ (a, ix) :: after
    /\ blocked size a ix (concat (map snd (before ++ after)) ++ out).

(** The product of the axis lengths that are not zero. ndarray keeps it at most [isize::MAX] for
    every array and view. *)
Definition nonzero_product (sh : list nat) : nat :=
  fold_right Nat.mul 1 (filter (fun d => negb (Nat.eqb d 0)) sh).

(** ** Einstein sums *)

(** A value for every label. *)
Definition env := char -> nat.
Definition upd (e : env) (c : char) (i : nat) : env := fun d => if N.eqb d c then i else e d.

(** The assignment that gives the [n]th label of [cs] the [n]th number of [idx]. *)
Fixpoint bind (cs : list char) (idx : list nat) : env :=
  match cs, idx with
  | c :: cs', i :: idx' => upd (bind cs' idx') c i
  | _, _ => fun _ => 0
  end.

Section Sums.
Context {A : Type} {S : Scalar A}.

(** [f 0 + ... + f (n-1)]. *)
Fixpoint sum_n (n : nat) (f : nat -> A) : A :=
  match n with
  | O => szero
  | Datatypes.S m => sadd (sum_n m f) (f m)
  end.

(** One nested loop per label, the first label outermost. *)
Fixpoint nested_sum (size : char -> nat) (cs : list char) (f : env -> A) (e : env) : A :=
  match cs with
  | [] => f e
  | c :: cs' => sum_n (size c) (fun i => nested_sum size cs' f (upd e c i))
  end.

(** Product of a list of factors. *)
Definition product (l : list A) : A := fold_right smul sone l.

(** The product of the operands' elements selected by an assignment of the labels. *)
Definition term (arrays : list (arr A)) (ops : list (list char)) (e : env) : A :=
  product (map (fun ai => elem (fst ai) (map e (snd ai))) (combine arrays ops)).

(** The labels summed over: those of the operands that are not in the output. *)
Definition summed_labels (ops : list (list char)) (out : list char) : list char :=
  filter (fun c => negb (existsb (N.eqb c) out)) (nodup N.eq_dec (concat ops)).

(** The element of the Einstein sum at position [o]. *)
Definition einsum_value (size : char -> nat) (arrays : list (arr A)) (ops : list (list char))
    (out : list char) (o : list nat) : A :=
  nested_sum size (summed_labels ops out) (term arrays ops) (bind out o).

(** How a well-formed call ends: it panics if one of the operands is [blocked], and otherwise
    returns an array of the output's shape holding the Einstein sum. *)
Definition outcome_is (x : res (arr A)) (size : char -> nat) (arrays : list (arr A))
    (ops : list (list char)) (out : list char) : Prop :=
  (x = Panic /\ blocked_in size (combine arrays ops) out)
  \/ (~ blocked_in size (combine arrays ops) out
      /\ exists r, x = Ok r /\ holds r (map size out) (einsum_value size arrays ops out)).

End Sums.

(** ** Two scalar types *)

(** [R] relates the constants of two scalar types, and sums and products of related scalars:
    for example "is mapped to" for a homomorphism, or "lies in" for intervals. *)
Record scalar_relation {A B : Type} {Sa : Scalar A} {Sb : Scalar B} (R : A -> B -> Prop) : Prop := {
  rel_zero : R szero szero;
  rel_one : R sone sone;
  rel_add : forall x x' y y', R x x' -> R y y' -> R (sadd x y) (sadd x' y');
  rel_mul : forall x x' y y', R x x' -> R y y' -> R (smul x y) (smul x' y')
}.

(** [R] also relates a fused multiply-add to a multiplication followed by an addition. *)
Definition fused_relation {A B : Type} {Sb : Scalar B} (R : A -> B -> Prop) (lay : backend A) : Prop :=
  forall x x' y y' z z', R x x' -> R y y' -> R z z' ->
    R (fused lay x y z) (sadd (smul x' y') z').

(** The same for a relation [R] that need not hold of zero: [Z] holds of the zeros a sum may start from
    or have added to it, and adding them to a related scalar leaves it related. *)
Record weak_relation {A B : Type} {Sa : Scalar A} {Sb : Scalar B} (R : A -> B -> Prop) (Z : A -> Prop) : Prop := {
  weak_one : R sone sone;
  weak_add : forall x x' y y', R x x' -> R y y' -> R (sadd x y) (sadd x' y');
  weak_mul : forall x x' y y', R x x' -> R y y' -> R (smul x y) (smul x' y');
  weak_zero : Z szero;
  weak_zero_zero : Z (smul szero szero);
  weak_zero_add : forall x y, Z x -> Z y -> Z (sadd x y);
  weak_zero_scaled : forall x, Z x -> Z (smul sone x);
  weak_add_zero : forall x x' z, R x x' -> Z z -> R (sadd x z) x' /\ R (sadd z x) x'
}.
Record weak_fused {A B : Type} {Sa : Scalar A} {Sb : Scalar B} (R : A -> B -> Prop) (Z : A -> Prop)
    (lay : backend A) : Prop := {
  weak_fused_add : fused_relation R lay;
  weak_fused_zero : forall x x' y y' z, R x x' -> R y y' -> Z z -> R (fused lay x y z) (smul x' y');
  weak_fused_one : forall x y y', Z x -> R y y' -> R (fused lay sone x y) y';
  weak_fused_zeros : forall x y, Z x -> Z y -> Z (fused lay sone x y)
}.

(** Sums of no terms are related to zero, or there are none. *)
Definition no_empty_sums {A B : Type} {Sb : Scalar B} (R : A -> B -> Prop) (Z : A -> Prop) (size : char -> nat) : Prop :=
  (forall x, Z x -> R x szero) \/ (forall c, 0 < size c).

(** Applying a function to every stored element. *)
Definition amap {A B} (f : A -> B) (a : arr A) : arr B :=
  mkArr (map f (a_data a)) (a_off a) (a_shape a) (a_strides a).

(** Arrays of the same shape with related elements. *)
Definition related_arrays {A B : Type} (R : A -> B -> Prop) (a : arr A) (b : arr B) : Prop :=
  a_shape a = a_shape b
  /\ forall idx, in_bounds (a_shape a) idx = true ->
       exists x y, a_get a idx = Ok x /\ a_get b idx = Ok y /\ R x y.

(** How a well-formed call ends, described by operands [arrays'] of another scalar type: as
    [outcome_is], with elements related to the Einstein sum of [arrays']. *)
Definition outcome_related {A B : Type} {Sb : Scalar B} (R : A -> B -> Prop) (x : res (arr A))
    (size : char -> nat) (arrays : list (arr A)) (arrays' : list (arr B)) (ops : list (list char))
    (out : list char) : Prop :=
  (x = Panic /\ blocked_in size (combine arrays ops) out)
  \/ (~ blocked_in size (combine arrays ops) out
      /\ exists r f, x = Ok r /\ holds r (map size out) f
           /\ forall o, in_bounds (map size out) o = true ->
                R (f o) (einsum_value size arrays' ops out o)).

(** How a well-formed call ends for any scalars: as [outcome_is], whatever the elements. *)
Definition ends {A : Type} (x : res (arr A)) (size : char -> nat) (arrays : list (arr A))
    (ops : list (list char)) (out : list char) : Prop :=
  (x = Panic /\ blocked_in size (combine arrays ops) out)
  \/ (~ blocked_in size (combine arrays ops) out
      /\ exists r, x = Ok r /\ wf r /\ a_shape r = map size out).

(** ** tensordot *)

(** The axes of an array of this rank that are not listed, in order. *)
Definition free_axes (rank : nat) (axes : list nat) : list nat :=
  filter (fun k => negb (existsb (Nat.eqb k) axes)) (seq 0 rank).

(** A list of distinct existing axes. *)
Definition axes_ok (rank : nat) (axes : list nat) : Prop :=
  NoDup axes /\ Forall (fun k => k < rank) axes.

Definition axis_lengths (sh axes : list nat) : list nat := map (fun k => nth k sh 0) axes.

(** The position whose coordinate along the [n]th listed axis is the [n]th listed value. *)
Fixpoint value_at (axes vals : list nat) (k : nat) : nat :=
  match axes, vals with
  | x :: axes', v :: vals' => if Nat.eqb x k then v else value_at axes' vals' k
  | _, _ => 0
  end.
Definition place (rank : nat) (axes vals : list nat) : list nat :=
  map (value_at axes vals) (seq 0 rank).

Section TensordotSpec.
Context {A : Type} {S : Scalar A}.

(** Sum over all multi-indices of a shape. *)
Fixpoint sum_over (sh : list nat) (f : list nat -> A) : A :=
  match sh with
  | [] => f []
  | d :: sh' => sum_n d (fun i => sum_over sh' (fun z => f (i :: z)))
  end.

(** The tensor dot product at position [o]: [fa] and [fb] are the axes kept, [la] and [ra] those
    summed over. *)
Definition tensordot_value (a b : arr A) (la ra : list nat) (o : list nat) : A :=
  let fa := free_axes (length (a_shape a)) la in
  let fb := free_axes (length (a_shape b)) ra in
  let x := firstn (length fa) o in
  let y := skipn (length fa) o in
  sum_over (axis_lengths (a_shape a) la) (fun z =>
    smul (elem a (place (length (a_shape a)) (fa ++ la) (x ++ z)))
         (elem b (place (length (a_shape b)) (fb ++ ra) (y ++ z)))).

End TensordotSpec.
