(** What ndarray 0.15 and the matrixmultiply crate choose: the memory order of new arrays and the order
    in which they add up. One [schedule] among those the theorems allow; nothing is assumed of ndarray
    because of this file. ndarray's source is not part of /repo: each definition names the function it
    follows and, in brackets, the places in /repo that reach it. No proofs in this file. *)
From Verif Require Import Base NDArray ParamFacts Schedule.
Local Open Scope Z_scope.

Set Implicit Arguments.

(** ** Sums *)

Section Sums.
Context {A : Type} {Sc : Scalar A}.

(** Adding one element to each of several sums, as in the loop of [numeric_util::unrolled_fold]
    [singleton_contractors.rs:166,168]. *)
Fixpoint add_each (ps xs : list A) : list A :=
  match ps, xs with
  | p :: ps', x :: xs' => sadd p x :: add_each ps' xs'
  | _, _ => ps
  end.

(** The loop of [unrolled_fold]: [n] times eight elements, added to eight sums; what is left of the
    elements is returned as well [singleton_contractors.rs:166,168]. *)
Fixpoint eights (n : nat) (ps xs : list A) : list A * list A :=
  match n with
  | O => (ps, xs)
  | Datatypes.S n' => eights n' (add_each ps (firstn 8 xs)) (skipn 8 xs)
  end.

(** [numeric_util::unrolled_fold(xs, zero, add)] [singleton_contractors.rs:166,168]. *)
Definition unrolled_fold (xs : list A) : A :=
  match eights (length xs / 8)%nat (repeat szero 8) xs with
  | ([p0; p1; p2; p3; p4; p5; p6; p7], rest) =>
      fold_left sadd rest
        (sadd (sadd (sadd (sadd szero (sadd p0 p4)) (sadd p1 p5)) (sadd p2 p6)) (sadd p3 p7))
  | _ => szero
  end.

(** [lane.sum()] for a lane with this stride: unrolled if the lane is a slice, otherwise one row that
    is folded from the left and added to zero [singleton_contractors.rs:166,168]. *)
Definition lane_sum (stride : Z) (xs : list A) : A :=
  if list_Z_eqb [stride] (default_strides [length xs]) then unrolled_fold xs
  else sadd szero (fold_left sadd xs szero).

(** [Dimension::min_stride_axis]: the axis of smallest stride, the last one if there are several
    [singleton_contractors.rs:166,168]. *)
Fixpoint min_stride_from (n : nat) (best : nat) (strides : list Z) : nat :=
  match n with
  | O => best
  | Datatypes.S n' =>
      min_stride_from n' (if Z.abs (nth n' strides 0) <? Z.abs (nth best strides 0) then n' else best) strides
  end.

(** The same, from the last axis down to the first [singleton_contractors.rs:166,168]. *)
Definition min_stride_axis (strides : list Z) : nat :=
  min_stride_from (length strides - 1) (length strides - 1) strides.

(** [sum_axis(Axis(ax))] at one position: the sum of a lane if its axis has the smallest stride,
    otherwise the sub-arrays are added to zeros one after the other [singleton_contractors.rs:166,168]. *)
Definition axis_sum (ax : nat) (strides : list Z) (xs : list A) : A :=
  if Nat.eqb ax (min_stride_axis strides) then lane_sum (nth ax strides 0) xs
  else fold_left sadd xs szero.

(** ** Matrix products *)

Variable fma : A -> A -> A -> A.

(** One element of [mat_mul_general]: [c * beta + alpha * (0..k).fold(zero, |s, x| s + a * b)], [c]
    being filled with [beta], which is zero [pair_contractors.rs:223]. *)
Definition general_product (l : list (A * A)) : A :=
  sadd (smul szero szero) (smul sone (fold_left (fun s p => sadd s (smul (fst p) (snd p))) l szero)).

(** The kernels of matrixmultiply: the products of a block are added to zero one after the other, by
    fused multiply-adds if the processor has them [pair_contractors.rs:223]. *)
Definition kernel (use_fma : bool) (l : list (A * A)) : A :=
  fold_left (fun s p => if use_fma then fma (fst p) (snd p) s else sadd s (smul (fst p) (snd p))) l szero.

(** The blocks after the first: [c += alpha * ab] [pair_contractors.rs:223]. *)
Fixpoint later_blocks (n kc : nat) (use_fma : bool) (c : A) (l : list (A * A)) : A :=
  match n, l with
  | O, _ => c
  | _, [] => c
  | Datatypes.S n', _ =>
      let ab := kernel use_fma (firstn kc l) in
      later_blocks n' kc use_fma (if use_fma then fma sone ab c else sadd c (smul sone ab)) (skipn kc l)
  end.

(** [matrixmultiply::gemm] with [alpha] one and [beta] zero: the summed dimension is cut into blocks
    of [kc], the first giving [c = alpha * ab]. The last block takes whatever is left
    [pair_contractors.rs:223]. *)
Definition gemm_product (kc : nat) (use_fma : bool) (l : list (A * A)) : A :=
  match l with
  | [] => szero
  | _ => later_blocks (length l) (Datatypes.S kc) use_fma (smul sone (kernel use_fma (firstn (Datatypes.S kc) l)))
           (skipn (Datatypes.S kc) l)
  end.

End Sums.

(** How matrices are multiplied: by ndarray itself, or, for f32 and f64, by matrixmultiply with blocks
    of [kc + 1] and with or without fused multiply-adds [pair_contractors.rs:223]. *)
Inductive multiplier := General | Gemm (kc : nat) (use_fma : bool).

(** One element of a matrix product [pair_contractors.rs:223]. *)
Definition matrix_sum {A : Type} {Sc : Scalar A} (m : multiplier) (fma : A -> A -> A -> A) (l : list (A * A)) : A :=
  match m with
  | General => general_product l
  | Gemm kc use_fma => gemm_product fma kc use_fma l
  end.

(** ** Memory orders *)

(** The index of the first occurrence in a list of offsets [singleton_contractors.rs:61]. *)
Fixpoint zposition (z : Z) (l : list Z) : nat :=
  match l with
  | [] => O
  | x :: l' => if Z.eqb x z then O else Datatypes.S (zposition z l')
  end.

(** An array as it is, each place of the buffer taken from the same place [singleton_contractors.rs:61]. *)
Definition unmoved (a : arr unit) : arr nat :=
  mkArr (seq 0 (length (a_data a))) (a_off a) (a_shape a) (a_strides a).

(** A new buffer in which the elements of [a] have the strides [st]. If the strides do not put the
    elements into one buffer without gaps, the array stays as it is; this does not happen for the
    strides used below [singleton_contractors.rs:61, pair_contractors.rs:437]. *)
Definition with_strides (st : list Z) (a : arr unit) : arr nat :=
  let n := prod (a_shape a) in
  let new := map (fun idx => dot_off idx st) (indices (a_shape a)) in
  let old := map (fun idx => a_off a + dot_off idx (a_strides a)) (indices (a_shape a)) in
  if Nat.eqb (length st) (length (a_shape a))
     && forallb (fun z => (0 <=? z) && (z <? Z.of_nat n)) new
     && Nat.eqb (length (nodup Z.eq_dec new)) (length new)
     && forallb (fun z => (0 <=? z) && (z <? Z.of_nat (length (a_data a)))) old
  then mkArr (map (fun p => Z.to_nat (nth (zposition (Z.of_nat p) new) old 0)) (seq 0 n)) 0 (a_shape a) st
  else unmoved a.

(** [to_owned], [into_owned], [mapv]: the strides of a contiguous array are kept, other arrays are
    copied in row-major order [singleton_contractors.rs:61,262, pair_contractors.rs:536,635]. *)
Definition copied (t a : arr unit) : arr nat :=
  if is_contiguous t then with_strides (a_strides t) a else unmoved a.

(** [ArrayBase::layout_impl]: whether the array is row-major, whether it is column-major, and which of
    the two it tends to ([Layout::tendency]) [pair_contractors.rs:437]. *)
Definition layout_flags (t : arr unit) : bool * bool * Z :=
  let n := length (a_shape t) in
  if is_standard_layout t then
    if Nat.leb n 1 || Nat.leb (length (filter (Nat.ltb 1) (a_shape t))) 1 then (true, true, 0)
    else (true, false, 1)
  else if Nat.ltb 1 n then
    if is_standard_layout (mkArr (a_data t) (a_off t) (rev (a_shape t)) (rev (a_strides t))) then (false, true, -1)
    else if Z.eqb (nth 0 (a_strides t) 0) 1 then (false, false, -1)
    else if Z.eqb (nth (n - 1) (a_strides t) 0) 1 then (false, false, 1)
    else (false, false, 0)
  else (false, false, 0).

(** [Zip::prefer_f] for arrays taken together [pair_contractors.rs:437]. *)
Definition prefers_f (ts : list (arr unit)) : bool :=
  let c := forallb (fun t => fst (fst (layout_flags t))) ts in
  let f := forallb (fun t => snd (fst (layout_flags t))) ts in
  let tendency := fold_right (fun t z => snd (layout_flags t) + z) 0 ts in
  negb c && (f || (tendency <? 0)).

(** [Zip::map_collect] [pair_contractors.rs:437, singleton_contractors.rs:166]. *)
Definition collected (ts : list (arr unit)) (a : arr unit) : arr nat :=
  if prefers_f ts then with_strides (fortran_strides (a_shape a)) a else unmoved a.

(** The two factors of [&a * &b] over their common shape [pair_contractors.rs:437]. *)
Definition factors (a b : arr unit) : list (arr unit) :=
  if list_nat_eqb (a_shape a) (a_shape b) then [a; b]
  else match broadcast_with a b with
       | Ok (a', b') => [a'; b']
       | _ => [a; b]
       end.

(** The memory order of each new array
    [singleton_contractors.rs:61,166,168,262, pair_contractors.rs:437,536,635]. *)
Definition nd_arrange (op : layout_op) (ins : list (arr unit)) (a : arr unit) : arr nat :=
  match op, ins with
  | (LToOwned | LIntoOwned | LMapv), [t] => copied t a
  | LMul, [t1; t2] => collected (factors t1 t2) a
  | LSumAxis ax, [t] =>
      if Nat.eqb ax (min_stride_axis (a_strides t))
      then collected [mkArr (a_data t) (a_off t) (remove_nth ax (a_shape t)) (remove_nth ax (a_strides t))] a
      else unmoved a
  | _, _ => unmoved a
  end.

(** All of it as a schedule: the sums are written down as expressions
    [singleton_contractors.rs:61,166,168,262, pair_contractors.rs:223,437,536,635]. *)
Definition nd_schedule (m : multiplier) : schedule :=
  mkSchedule nd_arrange
    (fun ax a _ n => @axis_sum _ (expr_scalar nat) ax (a_strides a) (map Var (seq 0 n)))
    (fun _ _ _ n => @matrix_sum _ (expr_scalar (nat * bool)) m Fused
                      (map (fun k => (Var (k, true), Var (k, false))) (seq 0 n))).
