(** Model of the part of ndarray 0.15 that the crate calls.

    An array or view is a strided window onto a buffer, exactly the data of [ArrayBase]
    (pointer, dim, strides). ndarray's source is not part of /repo; each definition states
    the documented behaviour it stands for and, in brackets, the places in /repo that call
    it. This file has no proofs. *)
From Verif Require Import Base.
Local Open Scope Z_scope.

Set Implicit Arguments.

(** ** Arrays and views

    [a_data] is the allocation the view points into, [a_off] the element offset of its
    first element ([ptr]), [a_shape] the axis lengths and [a_strides] the signed element
    strides. Owned arrays and views are not distinguished: nothing the crate computes
    depends on ownership [lib.rs:202]. *)
Record arr (A : Type) : Type := mkArr {
  a_data : list A;
  a_off : Z;
  a_shape : list nat;
  a_strides : list Z
}.

(** Product of a list of lengths ([Dimension::size]) [pair_contractors.rs:154-171]. *)
Definition prod (l : list nat) : nat := fold_right Nat.mul 1%nat l.

(** Element offset of a multi-index relative to the first element
    [singleton_contractors.rs:236-244]. *)
Fixpoint dot_off (idx : list nat) (strides : list Z) : Z :=
  match idx, strides with
  | i :: idx', s :: strides' => Z.of_nat i * s + dot_off idx' strides'
  | _, _ => 0
  end.

(** A multi-index addresses an element: same rank, each coordinate below its axis length
    [singleton_contractors.rs:236-244]. *)
Fixpoint in_bounds (sh idx : list nat) : bool :=
  match sh, idx with
  | [], [] => true
  | d :: sh', i :: idx' => Nat.ltb i d && in_bounds sh' idx'
  | _, _ => false
  end.

(** Reading the buffer at a signed position [singleton_contractors.rs:243-244]. *)
Definition znth {A : Type} (l : list A) (z : Z) : option A :=
  if z <? 0 then None else nth_error l (Z.to_nat z).

(** [a[idx]]: panics outside the shape. A position outside the buffer would be undefined
    behaviour in Rust; it is a [Panic] here, so theorems that exclude [Panic] also exclude it
    [pair_contractors.rs:535,634]. *)
Definition a_get {A : Type} (a : arr A) (idx : list nat) : res A :=
  if in_bounds (a_shape a) idx
  then unwrap (znth (a_data a) (a_off a + dot_off idx (a_strides a)))
  else Panic.

(** All multi-indices of a shape in logical (row-major) order: the order of [iter()]
    [pair_contractors.rs:437]. *)
Fixpoint indices (sh : list nat) : list (list nat) :=
  match sh with
  | [] => [[]]
  | d :: sh' => flat_map (fun i => map (cons i) (indices sh')) (seq 0 d)
  end.

(** [a.iter().cloned().collect()] [singleton_contractors.rs:61,262]. *)
Definition a_iter {A : Type} (a : arr A) : res (list A) :=
  mapM (a_get a) (indices (a_shape a)).

(** ** Layouts *)

(** Row-major strides of a shape without empty axes [pair_contractors.rs:195-225]. *)
Fixpoint c_strides (sh : list nat) : list Z :=
  match sh with
  | [] => []
  | _ :: sh' => Z.of_nat (prod sh') :: c_strides sh'
  end.

(** Column-major strides, [acc] being the product of the axes already passed
    [pair_contractors.rs:223]. *)

Fixpoint f_strides (acc : nat) (sh : list nat) : list Z :=
  match sh with
  | [] => []
  | d :: sh' => Z.of_nat acc :: f_strides (acc * d) sh'
  end.

(** Some axis has length zero ([is_empty()]), which decides what [first()] returns
    [pair_contractors.rs:535,634]. *)
Definition is_empty_shape (sh : list nat) : bool := existsb (Nat.eqb 0) sh.

(** [Dimension::default_strides]: all zero if some axis is empty [pair_contractors.rs:195-225]. *)
Definition default_strides (sh : list nat) : list Z :=
  if is_empty_shape sh then map (fun _ => 0) sh else c_strides sh.

(** [Dimension::fortran_strides]: all zero if some axis is empty [pair_contractors.rs:223]. *)
Definition fortran_strides (sh : list nat) : list Z :=
  if is_empty_shape sh then map (fun _ => 0) sh else f_strides 1 sh.

(** The array a freshly allocated row-major buffer becomes [pair_contractors.rs:195-225]. *)
Definition mk_c {A : Type} (sh : list nat) (l : list A) : arr A :=
  mkArr l 0 sh (default_strides sh).

(** [is_layout_c] scans the axes from the last to the first, skipping axes of length 1
    [pair_contractors.rs:195,209]. *)
Fixpoint layout_c_rev (contig : Z) (dims : list nat) (strides : list Z) : bool :=
  match dims, strides with
  | d :: dims', s :: strides' =>
      if Nat.eqb d 1 then layout_c_rev contig dims' strides'
      else if Z.eqb s contig then layout_c_rev (contig * Z.of_nat d) dims' strides'
      else false
  | _, _ => true
  end.

(** [ArrayBase::is_standard_layout] [pair_contractors.rs:195,209]. *)
Definition is_standard_layout {A : Type} (a : arr A) : bool :=
  is_empty_shape (a_shape a)
  || layout_c_rev 1 (rev (a_shape a)) (rev (a_strides a)).

(** [_fastest_varying_stride_order]: axis numbers stably sorted by absolute stride
    [singleton_contractors.rs:243-244]. *)

Fixpoint insert_by (key : nat -> Z) (i : nat) (l : list nat) : list nat :=
  match l with
  | [] => [i]
  | j :: l' => if key i <=? key j then i :: l else j :: insert_by key i l'
  end.

(** The axes from the one of smallest stride on, as [as_slice_memory_order]
    and [from_shape] need them [singleton_contractors.rs:243-244]. *)
Definition stride_order (strides : list Z) : list nat :=
  fold_right (insert_by (fun i => Z.abs (nth i strides 0))) []
    (seq 0 (length strides)).

(** The loop of [Dimension::is_contiguous]: in stride order each axis of length other than 1
    has as stride the product of the lengths before it [singleton_contractors.rs:243]. *)

Fixpoint contiguous_from (c : Z) (dims : list nat) (strides : list Z) (order : list nat) : bool :=
  match order with
  | [] => true
  | i :: order' =>
      let d := nth i dims 0%nat in
      if negb (Nat.eqb d 1) && negb (Z.eqb (nth i strides 0) c) then false
      else contiguous_from (c * Z.of_nat d) dims strides order'
  end.

(** [==] on strides, by which [is_contiguous] recognizes the default layout
    [singleton_contractors.rs:243]. *)
Fixpoint list_Z_eqb (a b : list Z) : bool :=
  match a, b with
  | [], [] => true
  | x :: a', y :: b' => Z.eqb x y && list_Z_eqb a' b'
  | _, _ => false
  end.

(** [ArrayBase::is_contiguous]. Later 0.15 releases also accept negative strides here; both
    callers in the crate additionally require every stride to be positive, so the two
    readings agree wherever the crate uses the answer [singleton_contractors.rs:243]. *)
Definition is_contiguous {A : Type} (a : arr A) : bool :=
  list_Z_eqb (a_strides a) (default_strides (a_shape a))
  || (negb (Nat.eqb (length (a_shape a)) 1)
      && contiguous_from 1 (a_shape a) (a_strides a) (stride_order (a_strides a))).

(** [as_slice_memory_order]: the [len()] elements starting at the first element
    [singleton_contractors.rs:243,362]. *)
Definition as_slice_memory_order {A : Type} (a : arr A) : option (list A) :=
  if is_contiguous a
  then Some (firstn (prod (a_shape a)) (skipn (Z.to_nat (a_off a)) (a_data a)))
  else None.

(** ** Constructors *)

(** [Array::from_shape_vec(shape, v).unwrap()], row-major
    [singleton_contractors.rs:261, pair_contractors.rs:200,214,974,980]. *)
Definition from_shape_vec {A : Type} (sh : list nat) (v : list A) : res (arr A) :=
  if Nat.eqb (length v) (prod sh) then Ok (mk_c sh v) else Panic.

(** [Array::zeros(shape)] [pair_contractors.rs:985]. *)
Definition zeros {A : Type} {S : Scalar A} (sh : list nat) : arr A :=
  mk_c sh (repeat szero (prod sh)).

(** Largest offset reachable from the first element: [sum (d-1)*|s|]
    [singleton_contractors.rs:244]. *)
Fixpoint max_abs_offset (dims : list nat) (strides : list Z) : Z :=
  match dims, strides with
  | d :: dims', s :: strides' =>
      Z.of_nat (Nat.pred d) * Z.abs s + max_abs_offset dims' strides'
  | _, _ => 0
  end.

(** [dim_stride_overlap]: in order of increasing stride, an axis of length at least 2 must
    have a stride larger than the largest offset reachable through the previous ones
    [singleton_contractors.rs:244]. *)

Fixpoint overlap_from (prev : Z) (dims : list nat) (strides : list Z) (order : list nat) : bool :=
  match order with
  | [] => false
  | i :: order' =>
      let d := nth i dims 0%nat in
      let s := Z.abs (nth i strides 0) in
      match d with
      | O => false
      | 1%nat => overlap_from prev dims strides order'
      | _ =>
          if s <=? prev then true
          else overlap_from (prev + (Z.of_nat d - 1) * s) dims strides order'
      end
  end.

(** The check [from_shape] makes that no two positions share an element
    [singleton_contractors.rs:244]. *)
Definition dim_stride_overlap (dims : list nat) (strides : list Z) : bool :=
  overlap_from 0 dims strides (stride_order strides).

(** [ArrayView::from_shape(shape.strides(strides), data).unwrap()] with ndarray's
    [can_index_slice] checks [singleton_contractors.rs:244]. The isize-overflow check is
    omitted (sizes are unbounded here). *)
Definition view_from_shape {A : Type} (sh : list nat) (strides : list Z) (data : list A)
  : res (arr A) :=
  let m := max_abs_offset sh strides in
  let len := Z.of_nat (length data) in
  if is_empty_shape sh
  then if len <? m then Panic else Ok (mkArr data 0 sh strides)
  else if len <=? m then Panic
  else if dim_stride_overlap sh strides then Panic
  else Ok (mkArr data 0 sh strides).

(** ** Views *)

(** The shape or index without an axis [singleton_contractors.rs:166]. *)

Fixpoint remove_nth {T : Type} (n : nat) (l : list T) : list T :=
  match l, n with
  | [], _ => []
  | _ :: l', O => l'
  | x :: l', S n' => x :: remove_nth n' l'
  end.

(** The index or shape with one more axis ([insert_axis]) [pair_contractors.rs:776-781]. *)
Fixpoint insert_nth {T : Type} (n : nat) (x : T) (l : list T) : list T :=
  match n, l with
  | O, _ => x :: l
  | S n', y :: l' => y :: insert_nth n' x l'
  | S _, [] => [x]
  end.

(** [permuted_axes(axes)]: every axis must be listed exactly once, otherwise panic
    [singleton_contractors.rs:110,122]. *)
Definition permuted_axes {A : Type} (a : arr A) (axes : list nat) : res (arr A) :=
  let n := length (a_shape a) in
  if Nat.eqb (length axes) n
     && forallb (fun k => Nat.ltb k n) axes
     && forallb (fun k => Nat.eqb (count_occ Nat.eq_dec axes k) 1) (seq 0 n)
  then Ok (mkArr (a_data a) (a_off a)
             (map (fun k => nth k (a_shape a) 0%nat) axes)
             (map (fun k => nth k (a_strides a) 0) axes))
  else Panic.

(** [index_axis(Axis(ax), i)] [singleton_contractors.rs:166]. *)
Definition index_axis {A : Type} (a : arr A) (ax i : nat) : res (arr A) :=
  do d <- index (a_shape a) ax;
  do s <- index (a_strides a) ax;
  if Nat.ltb i d
  then Ok (mkArr (a_data a) (a_off a + Z.of_nat i * s)
             (remove_nth ax (a_shape a)) (remove_nth ax (a_strides a)))
  else Panic.

(** [outer_iter()]: the subviews along axis 0, in order; needs at least one axis
    [pair_contractors.rs:986-990]. *)
Definition outer_iter {A : Type} (a : arr A) : res (list (arr A)) :=
  do n <- index (a_shape a) 0;
  mapM (fun i => index_axis a 0 i) (seq 0 n).

(** [into_shape(shape).unwrap()]: row-major input is reread row-major, column-major input is
    reread column-major, anything else is an error (0.15 behaviour)
    [pair_contractors.rs:196,210,224,997]. *)
Definition into_shape {A : Type} (a : arr A) (sh : list nat) : res (arr A) :=
  if Nat.eqb (prod sh) (prod (a_shape a)) then
    if is_standard_layout a then Ok (mkArr (a_data a) (a_off a) sh (default_strides sh))
    else if Nat.ltb 1 (length (a_shape a))
            && is_standard_layout
                 (mkArr (a_data a) (a_off a) (rev (a_shape a)) (rev (a_strides a)))
    then Ok (mkArr (a_data a) (a_off a) sh (fortran_strides sh))
    else Panic
  else Panic.

(** [insert_axis(Axis(i))]: a new axis of length 1 before axis [i] [pair_contractors.rs:777,780]. *)
Definition insert_axis {A : Type} (a : arr A) (i : nat) : res (arr A) :=
  if Nat.leb i (length (a_shape a))
  then Ok (mkArr (a_data a) (a_off a) (insert_nth i 1%nat (a_shape a)) (insert_nth i 1 (a_strides a)))
  else Panic.

(** Strides of a broadcast view, axes matched from the last one; [None] if not broadcastable
    [pair_contractors.rs:783-784]. *)
Fixpoint upcast_rev (to from : list nat) (strides : list Z) : option (list Z) :=
  match from, strides, to with
  | [], _, _ => Some (map (fun _ => 0) to)
  | er :: from', es :: strides', dr :: to' =>
      match upcast_rev to' from' strides' with
      | Some rest =>
          if Nat.eqb dr er then Some (es :: rest)
          else if Nat.eqb er 1 then Some (0 :: rest) else None
      | None => None
      end
  | _, _, _ => None
  end.

(** [broadcast(shape).unwrap()] [pair_contractors.rs:783,784]. *)
Definition broadcast {A : Type} (a : arr A) (sh : list nat) : res (arr A) :=
  match upcast_rev (rev sh) (rev (a_shape a)) (rev (a_strides a)) with
  | Some st => Ok (mkArr (a_data a) (a_off a) sh (rev st))
  | None => Panic
  end.

(** ** Operations that allocate

    ndarray may choose the memory order of a new array (it keeps the order of a contiguous
    input, or the order its inputs prefer), and the order in which it adds up the terms of a
    sum (it unrolls loops over contiguous lanes, and the matrixmultiply crate sums in blocks).
    In a matrix product of f32 or f64 the matrixmultiply crate may also use the processor's fused
    multiply-add. A [backend] is a choice of all of these. [arrange]: given the operation, the
    inputs and the row-major result, the array actually produced. [add_up]: given the summed axis,
    the input, the position in the result and the terms, the sum actually computed. [fused]: the
    fused multiply-add, [fused a b c] for [a * b + c]. [add_products]: given the matrices, the
    position in their product and the pairs of factors, the sum of products actually computed
    [pair_contractors.rs:223]. *)

Inductive layout_op := LToOwned | LIntoOwned | LMapv | LMul | LSumAxis (ax : nat).

(** What ndarray may choose: the memory order of a new array, and the order in which sums are
    added up [pair_contractors.rs:223, singleton_contractors.rs:166,168]. *)
Record backend (A : Type) := mkBackend {
  arrange :> layout_op -> list (arr A) -> arr A -> arr A;
  add_up : nat -> arr A -> list nat -> list A -> A;
  fused : A -> A -> A -> A;
  add_products : arr A -> arr A -> list nat -> list (A * A) -> A
}.
Arguments mkBackend {A}.
Arguments arrange {A}.
Arguments add_up {A}.
Arguments fused {A}.
Arguments add_products {A}.

(** [sums_to l x]: [x] results from adding up the elements of [l], each once, and any number of
    zeros, in any order and association. Partial sums may be multiplied by one and [0 * 0] may
    be added [singleton_contractors.rs:166,168]. *)
Inductive sums_to {A : Type} {S : Scalar A} : list A -> A -> Prop :=
| sums_zero : sums_to [] szero
| sums_zero_zero : sums_to [] (smul szero szero)
| sums_elem : forall x, sums_to [x] x
| sums_add : forall l l' x y, sums_to l x -> sums_to l' y -> sums_to (l ++ l') (sadd x y)
| sums_scaled : forall l x, sums_to l x -> sums_to l (smul sone x)
| sums_permuted : forall l l' x, Permutation l l' -> sums_to l x -> sums_to l' x.

(** [dots_to fma l x]: [x] results from adding up the products of the pairs in [l], each once, and
    any number of zeros, in any order and association. A product may be added to a partial sum by
    the fused multiply-add [fma], and so may a partial sum times one. Partial sums may be
    multiplied by one and [0 * 0] may be added, as [alpha * sum] and [beta * c] are in ndarray's
    matrix product [pair_contractors.rs:223]. *)
Inductive dots_to {A : Type} {S : Scalar A} (fma : A -> A -> A -> A) : list (A * A) -> A -> Prop :=
| dots_zero : dots_to fma [] szero
| dots_zero_zero : dots_to fma [] (smul szero szero)
| dots_mul : forall a b, dots_to fma [(a, b)] (smul a b)
| dots_add : forall l l' x y, dots_to fma l x -> dots_to fma l' y -> dots_to fma (l ++ l') (sadd x y)
| dots_fused : forall a b l x, dots_to fma l x -> dots_to fma ((a, b) :: l) (fma a b x)
| dots_fused_one : forall l l' x y, dots_to fma l x -> dots_to fma l' y ->
    dots_to fma (l ++ l') (fma sone x y)
| dots_scaled : forall l x, dots_to fma l x -> dots_to fma l (smul sone x)
| dots_permuted : forall l l' x, Permutation l l' -> dots_to fma l x -> dots_to fma l' x.

(** All that is assumed of a backend over scalars without laws. Arranging an array keeps its shape,
    the rank of its strides and its elements; adding up terms gives a sum of the terms; a sum of
    products is a sum of the products, some of them perhaps added by [fused], whatever that
    computes [pair_contractors.rs:223]. *)
Record backend_runs {A : Type} {S : Scalar A} (lay : backend A) : Prop := {
  arrange_ok : forall op ins a,
    a_shape (lay op ins a) = a_shape a
    /\ (length (a_strides a) = length (a_shape a) ->
        length (a_strides (lay op ins a)) = length (a_shape a))
    /\ forall idx, in_bounds (a_shape a) idx = true ->
         a_get (lay op ins a) idx = a_get a idx;
  add_up_ok : forall ax a idx l, sums_to l (add_up lay ax a idx l);
  add_products_ok : forall a b idx l, dots_to (fused lay) l (add_products lay a b idx l)
}.

(** A backend whose fused multiply-add, if it uses one, is a multiplication followed by an
    addition. Over exact scalars there is no other [pair_contractors.rs:223]. *)
Record backend_ok {A : Type} {S : Scalar A} (lay : backend A) : Prop := {
  ok_runs :> backend_runs lay;
  fused_exact : forall a b c, fused lay a b c = sadd (smul a b) c
}.
#[global] Hint Resolve ok_runs : core.

Section Alloc.
Context {A : Type} {S : Scalar A}.
Variable lay : backend A.

(** [to_owned()] [singleton_contractors.rs:61,123]. *)
Definition to_owned (a : arr A) : res (arr A) :=
  do l <- a_iter a; Ok (lay LToOwned [a] (mk_c (a_shape a) l)).

(** [into_owned()] on a view [singleton_contractors.rs:262]. *)
Definition into_owned (a : arr A) : res (arr A) :=
  do l <- a_iter a; Ok (lay LIntoOwned [a] (mk_c (a_shape a) l)).

(** [mapv(f)] [pair_contractors.rs:536,635]. *)
Definition mapv (f : A -> A) (a : arr A) : res (arr A) :=
  do l <- a_iter a; Ok (lay LMapv [a] (mk_c (a_shape a) (map f l))).

(** [first()]: the element at the all-zero index, [None] if the array is empty
    [pair_contractors.rs:535,634]. *)

Definition first (a : arr A) : res (option A) :=
  if is_empty_shape (a_shape a) then Ok None
  else do x <- a_get a (map (fun _ => 0%nat) (a_shape a)); Ok (Some x).

(** [==] on shapes, by which ndarray tells whether to broadcast
    [pair_contractors.rs:437, contractors/mod.rs:121]. *)
Fixpoint list_nat_eqb (a b : list nat) : bool :=
  match a, b with
  | [], [] => true
  | x :: a', y :: b' => Nat.eqb x y && list_nat_eqb a' b'
  | _, _ => false
  end.

(** The common shape two arrays are broadcast to ([co_broadcast]), axes matched from the last
    one: unequal lengths are allowed if one of them is 1 [pair_contractors.rs:437]. *)
Fixpoint co_broadcast_rev (s1 s2 : list nat) : option (list nat) :=
  match s1, s2 with
  | [], _ => Some s2
  | _, [] => Some s1
  | x :: s1', y :: s2' =>
      match co_broadcast_rev s1' s2' with
      | Some rest =>
          if Nat.eqb x y then Some (x :: rest)
          else if Nat.eqb x 1 then Some (y :: rest)
          else if Nat.eqb y 1 then Some (x :: rest) else None
      | None => None
      end
  end.

(** [broadcast_with]: the two views over the common shape [pair_contractors.rs:437]. *)
Definition broadcast_with (a b : arr A) : res (arr A * arr A) :=
  match co_broadcast_rev (rev (a_shape a)) (rev (a_shape b)) with
  | Some rsh =>
      let sh := rev rsh in
      do a' <- (if list_nat_eqb sh (a_shape a) then Ok a else broadcast a sh);
      do b' <- (if list_nat_eqb sh (a_shape b) then Ok b else broadcast b sh);
      Ok (a', b')
  | None => Panic
  end.

(** [&a * &b]: elementwise over the common shape, each factor pair in the order left, right;
    shapes that cannot be broadcast together panic [pair_contractors.rs:437]. *)
Definition mul_arrays (a b : arr A) : res (arr A) :=
  do (a', b') <- (if list_nat_eqb (a_shape a) (a_shape b) then Ok (a, b) else broadcast_with a b);
  do l <- mapM (fun idx => do x <- a_get a' idx; do y <- a_get b' idx; Ok (smul x y))
            (indices (a_shape a'));
  Ok (lay LMul [a; b] (mk_c (a_shape a') l)).

(** [sum_axis(Axis(ax))]: at each position the sum of the elements along the axis
    [singleton_contractors.rs:166,168]. *)
Definition sum_axis (a : arr A) (ax : nat) : res (arr A) :=
  do n <- index (a_shape a) ax;
  let rest := remove_nth ax (a_shape a) in
  do l <- mapM (fun idx =>
             do xs <- mapM (fun i => a_get a (insert_nth ax i idx)) (seq 0 n);
             Ok (add_up lay ax a idx xs))
           (indices rest);
  Ok (lay (LSumAxis ax) [a] (mk_c rest l)).

(** One element of a matrix product. ndarray's generic [mat_mul_general] computes
    [beta * c + alpha * sum] with [alpha = one], [beta = zero] and [c] filled with zero; for
    f32 and f64 the matrixmultiply crate adds up in blocks, with fused multiply-add where the
    processor has it. Each is a sum of the products in the sense of [dots_to]
    [pair_contractors.rs:223]. *)
Definition dot_elem (a b : arr A) (k i j : nat) : res A :=
  do l <- mapM (fun x => do p <- a_get a [i; x]; do q <- a_get b [x; j]; Ok (p, q)) (seq 0 k);
  Ok (add_products lay a b [i; j] l).

(** [a.dot(&b)] for two matrices. The result is column-major when both inputs have unit
    stride along axis 0 (ndarray's rule), row-major otherwise [pair_contractors.rs:223]. *)
Definition dot (a b : arr A) : res (arr A) :=
  match a_shape a, a_shape b with
  | [m; k], [k2; n] =>
      if Nat.eqb k k2 then
        let column_major := Z.eqb (nth 0 (a_strides a) 0) 1 && Z.eqb (nth 0 (a_strides b) 0) 1 in
        if column_major
        then do l <- mapM (fun ji => match ji with
                                      | [j; i] => dot_elem a b k i j
                                      | _ => Panic end) (indices [n; m]);
             Ok (mkArr l 0 [m; n] (fortran_strides [m; n]))
        else do l <- mapM (fun ij => match ij with
                                      | [i; j] => dot_elem a b k i j
                                      | _ => Panic end) (indices [m; n]);
             Ok (mk_c [m; n] l)
      else Panic
  | _, _ => Panic
  end.

(** ** Mutation *)

(** Overwriting an element of the buffer [contractors/mod.rs:121]. *)
Fixpoint set_nth {T : Type} (n : nat) (x : T) (l : list T) : list T :=
  match l, n with
  | [], _ => []
  | _ :: l', O => x :: l'
  | y :: l', Datatypes.S n' => y :: set_nth n' x l'
  end.

(** Writing one element through a mutable view: the view with the updated buffer
    [contractors/mod.rs:121]. *)
Definition a_set (a : arr A) (idx : list nat) (x : A) : res (arr A) :=
  if in_bounds (a_shape a) idx then
    let o := a_off a + dot_off idx (a_strides a) in
    if (0 <=? o) && (o <? Z.of_nat (length (a_data a)))
    then Ok (mkArr (set_nth (Z.to_nat o) x (a_data a)) (a_off a) (a_shape a) (a_strides a))
    else Panic
  else Panic.

(** [dst.assign(&src)]: [src] is broadcast to the shape of [dst] if the shapes differ, and the
    result is the mutable view with the updated buffer [contractors/mod.rs:121]. *)
Definition assign (dst src : arr A) : res (arr A) :=
  do src' <- (if list_nat_eqb (a_shape dst) (a_shape src) then Ok src
              else broadcast src (a_shape dst));
  foldM (fun d idx => do x <- a_get src' idx; a_set d idx x) (indices (a_shape dst)) dst.

End Alloc.
