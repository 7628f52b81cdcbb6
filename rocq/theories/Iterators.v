(** Model of /repo/src/iterators.rs. No proofs in this file. The whole file is commented out in the
    crate: the model says what the code would do if it were compiled. *)
From Verif Require Import Base NDArray.

(** iterators.rs:15-24 [struct MultiAxisIterator]. [underlying] is a view, so it is never written. *)
Record multi_axis_iterator (A : Type) : Type := mkIterator {
  carrying : bool;
  it_ndim : nat;
  renumbered_axes : list nat;
  it_shape : list nat;
  positions : list nat;
  underlying : arr A
}.
Arguments mkIterator {A}.
Arguments carrying {A}.
Arguments it_ndim {A}.
Arguments renumbered_axes {A}.
Arguments it_shape {A}.
Arguments positions {A}.
Arguments underlying {A}.

(** iterators.rs:33: the axis [v] in a view from which the axes [before] have been removed. The
    subtraction is of [usize]. *)
Definition renumbered (before : list nat) (v : nat) : res nat :=
  usub v (length (filter (fun x => Nat.ltb x v) before)).

(** iterators.rs:30-34: the closure applied to each axis with its number. *)
Fixpoint renumber (before axes : list nat) : res (list nat) :=
  match axes with
  | [] => Ok []
  | v :: axes' =>
      do r <- renumbered before v;
      do rs <- renumber (before ++ [v]) axes';
      Ok (r :: rs)
  end.

(** iterators.rs:27-63 [MultiAxisIterator::new]. *)
Definition iterator_new {A : Type} (base : arr A) (axes : list nat) : res (multi_axis_iterator A) :=
  do renumbered <- renumber [] axes;
  do shape <- mapM (index (a_shape base)) axes;
  Ok (mkIterator false (length axes) renumbered shape (map (fun _ => 0) shape) base).

(** iterators.rs:72-74: one axis removed after the other. *)
Definition subview {A : Type} (base : arr A) (axes pos : list nat) : res (arr A) :=
  foldM (fun view (p : nat * nat) => index_axis view (fst p) (snd p)) (combine axes pos) base.

(** iterators.rs:76-85: the loop over the axes [todo]; the new positions and the flag [carrying].
    [self.shape[axis] - 1] is a subtraction of [usize]. *)
Fixpoint step (todo shape pos : list nat) : res (list nat * bool) :=
  match todo with
  | [] => Ok (pos, true)
  | axis :: todo' =>
      do p <- index pos axis;
      do d <- index shape axis;
      do last <- usub d 1;
      if Nat.eqb p last then step todo' shape (set_nth axis 0 pos)
      else Ok (set_nth axis (p + 1) pos, false)
  end.

(** iterators.rs:69-90 [next]: the item and the iterator afterwards. *)
Definition next {A : Type} (it : multi_axis_iterator A) : res (option (arr A) * multi_axis_iterator A) :=
  if carrying it then Ok (None, it)
  else
    do view <- subview (underlying it) (renumbered_axes it) (positions it);
    do s <- step (map (fun i => it_ndim it - i - 1) (seq 0 (it_ndim it))) (it_shape it) (positions it);
    Ok (Some view, mkIterator (snd s) (it_ndim it) (renumbered_axes it) (it_shape it) (fst s) (underlying it)).

(** The items of the first [n] calls of [next] [iterators.rs:69-90]. *)
Fixpoint items {A : Type} (n : nat) (it : multi_axis_iterator A) : res (list (option (arr A))) :=
  match n with
  | O => Ok []
  | S n' =>
      do r <- next it;
      do rest <- items n' (snd r);
      Ok (fst r :: rest)
  end.
