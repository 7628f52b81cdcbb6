(** The disabled iterator over several axes of an array (C71): what it would visit, and in which order. *)
From Verif Require Import Base BaseFacts NDArray Validation Optimizers Path Api Spec ParserFacts ValidationMain SumFacts
  MismatchFacts PathFacts ArrayFacts EinsumMain EinsumProps PathShape TensordotMain Iterators IteratorsFacts Examples.
From Coq Require Import Lia.
From Coq Require String.
Import String.StringSyntax.
Local Open Scope string_scope.
Local Open Scope list_scope.

(** The number of a position in row-major order. *)
Fixpoint row_number (lengths pos : list nat) : nat :=
  match lengths, pos with
  | _ :: lengths', p :: pos' => p * fold_right Nat.mul 1 lengths' + row_number lengths' pos'
  | _, _ => 0
  end.

Lemma row_number_flat L pos : row_number L pos = flat L pos.
Proof. revert pos. induction L as [|d L IH]; intros [|p pos]; simpl; auto. Qed.

(** Distinct axes of non-zero length: every call of [next] succeeds. The positions along the axes are
    visited in row-major order, each exactly once, and after them the iterator stays exhausted. The item
    for a position is a view into the array that has the other axes. Its elements are the array's
    at that position. *)
Theorem multi_axis_iterator_visits_every_position :
  forall (A : Type) (Sc : Scalar A) (base : arr A) axes,
    let rank := length (a_shape base) in
    let lengths := axis_lengths (a_shape base) axes in
    let others := free_axes rank axes in
    wf base -> axes_ok rank axes -> Forall (fun d => d <> 0) lengths ->
    exists it (view : list nat -> arr A),
      iterator_new base axes = Ok it
      /\ (forall n, exists l, items n it = Ok l /\ length l = n
            /\ (forall k, k < n -> k < prod lengths ->
                  exists pos, in_bounds lengths pos = true /\ row_number lengths pos = k
                    /\ nth_error l k = Some (Some (view pos)))
            /\ (forall k, k < n -> prod lengths <= k -> nth_error l k = Some None))
      /\ (forall pos, in_bounds lengths pos = true -> row_number lengths pos < prod lengths
            /\ a_data (view pos) = a_data base
            /\ holds (view pos) (axis_lengths (a_shape base) others)
                 (fun y => elem base (place rank (others ++ axes) (y ++ pos)))).
Proof.
  intros A Sc base axes rank lengths others Hw Ha Hz.
  destruct (iterator_items base axes) as (it & Ei & Hi); auto; [apply Hw| |].
  { intros k Hk. rewrite Forall_forall in Hz. apply Hz. apply in_map_iff. eauto. }
  exists it, (view_at base axes). split; [exact Ei|]. split.
  - intros n. eexists. split; [apply Hi|]. fold lengths.
    assert (Ll : length (map (fun pos => Some (view_at base axes pos)) (firstn n (indices lengths)))
                 = Nat.min n (prod lengths)).
    { rewrite map_length, firstn_length, indices_length. auto. }
    split; [|split].
    + rewrite app_length, Ll, repeat_length. lia.
    + intros k Hk Hk'. exists (unflat lengths k).
      split; [apply unflat_in_bounds; auto|]. split; [rewrite row_number_flat; apply flat_unflat; auto|].
      rewrite nth_error_app1 by (rewrite Ll; lia). apply (map_nth_error (fun pos => Some (view_at base axes pos))).
      rewrite firstn_nth_error, (proj2 (Nat.ltb_lt _ _) Hk). unfold unflat. apply nth_error_nth'. rewrite indices_length. auto.
    + intros k Hk Hk'. rewrite nth_error_app2 by (rewrite Ll; lia). apply nth_error_repeat. rewrite Ll. lia.
  - intros pos Hp. rewrite row_number_flat. split; [apply flat_lt; auto|]. split; [reflexivity|].
    apply view_at_holds; auto. apply wf_holds; auto.
Qed.
Print Assumptions multi_axis_iterator_visits_every_position.

(** The 2x3x4 array over its axes 2 and 0, in this order: eight items, each of length 3. *)
Example visits_nonvacuous :
  let base := zarr [2; 3; 4] (map Z.of_nat (seq 0 24)) in
  wf base /\ axes_ok 3 [2; 0] /\ Forall (fun d => d <> 0) (axis_lengths (a_shape base) [2; 0])
  /\ (do it <- iterator_new base [2; 0];
      do l <- items 10 it;
      mapM (fun v => match v with Some v => do e <- a_iter v; Ok (Some e) | None => Ok None end) l)
     = Ok (map Some [[0; 4; 8]; [12; 16; 20]; [1; 5; 9]; [13; 17; 21]; [2; 6; 10]; [14; 18; 22]; [3; 7; 11];
                     [15; 19; 23]]%Z ++ [None; None]).
Proof.
  split; [apply wf_b_ok; reflexivity|]. split; [|split; [|reflexivity]].
  - split; repeat constructor; simpl; intuition lia.
  - cbn. repeat constructor; discriminate.
Qed.

(** With an axis of length zero there is nothing to visit, but the first call of [next] panics. *)
Theorem multi_axis_iterator_panics_on_empty_axes :
  forall (A : Type) (base : arr A) axes,
    wf base -> axes_ok (length (a_shape base)) axes -> In 0 (axis_lengths (a_shape base) axes) ->
    exists it, iterator_new base axes = Ok it /\ next it = Panic.
Proof.
  intros A base axes Hw Ha Hz. apply iterator_empty; auto; [apply Hw|].
  apply in_map_iff in Hz as (k & E & Hk). eauto.
Qed.
Print Assumptions multi_axis_iterator_panics_on_empty_axes.

Example empty_axes_nonvacuous :
  let base := zarr [2; 0] [] in
  wf base /\ axes_ok 2 [1] /\ In 0 (axis_lengths (a_shape base) [1]).
Proof.
  split; [apply wf_b_ok; reflexivity|]. split; [|simpl; auto]. split; repeat constructor; simpl; intuition lia.
Qed.

(** The claim that the iterator visits exactly the positions along its axes, empty axes included, is false. *)
Theorem multi_axis_iterator_visits_no_empty_axes_refuted :
  ~ (forall (base : arr Z) axes, wf base -> axes_ok (length (a_shape base)) axes ->
       exists it l, iterator_new base axes = Ok it
         /\ items (prod (axis_lengths (a_shape base) axes) + 1) it = Ok (l ++ [None])).
Proof.
  intros H. destruct (H (zarr [2; 0] []) [1]) as (it & l & E1 & E2).
  - apply empty_axes_nonvacuous.
  - apply empty_axes_nonvacuous.
  - destruct (multi_axis_iterator_panics_on_empty_axes Z (zarr [2; 0] []) [1]) as (it' & E1' & E2');
      try apply empty_axes_nonvacuous.
    rewrite E1 in E1'. injection E1' as <-. cbn [axis_lengths map nth zarr mk_c a_shape prod fold_right Nat.mul plus items] in E2.
    rewrite E2' in E2. discriminate.
Qed.
Print Assumptions multi_axis_iterator_visits_no_empty_axes_refuted.

(** An axis that the array does not have is refused, whatever the other axes are. *)
Theorem multi_axis_iterator_refuses_missing_axes :
  forall (A : Type) (base : arr A) axes k,
    In k axes -> length (a_shape base) <= k -> iterator_new base axes = Panic.
Proof. exact @iterator_no_axis. Qed.
Print Assumptions multi_axis_iterator_refuses_missing_axes.

Example missing_axes_nonvacuous : In 2 [0; 2] /\ length (a_shape (zarr [2; 3] [1; 2; 3; 4; 5; 6]%Z)) <= 2.
Proof. simpl. auto. Qed.

(** A repeated axis is not refused: the second mention removes another axis. *)
Theorem multi_axis_iterator_refuses_repeated_axes_refuted :
  ~ (forall (base : arr Z) axes it, wf base -> ~ NoDup axes -> Forall (fun k => k < length (a_shape base)) axes ->
       iterator_new base axes = Ok it -> next it = Panic).
Proof.
  intros H.
  assert (E : next (mkIterator false 2 [0; 0] [2; 2] [0; 0] (zarr [2; 2] [1; 2; 3; 4]%Z)) = Panic).
  { apply (H (zarr [2; 2] [1; 2; 3; 4]%Z) [0; 0]).
    - apply wf_b_ok. reflexivity.
    - intros N. inversion N as [|? ? N1 N2]. apply N1. simpl. auto.
    - repeat constructor.
    - reflexivity. }
  vm_compute in E. discriminate E.
Qed.
Print Assumptions multi_axis_iterator_refuses_repeated_axes_refuted.

(** Adding up the items, one after the other, is the Einstein sum that drops the labels of the axes:
    the result of [einsum] on every string that says so. *)
Theorem adding_up_the_items_is_einsum :
  forall (A : Type) (Sc : Scalar A) h (lay : backend A) s (t : arr A) u axes size,
    let out := axis_labels u (free_axes (length u) axes) in
    let lengths := axis_lengths (a_shape t) axes in
    semiring A -> hash_ok h -> backend_ok lay -> wf t ->
    call_ok s [a_shape t] [u] out size -> NoDup u ->
    axes_ok (length u) axes -> Forall (fun d => d <> 0) lengths ->
    exists it views r,
      iterator_new t axes = Ok it /\ items (prod lengths) it = Ok (map Some views)
      /\ einsum h lay s [t] = Ok r
      /\ a_shape r = axis_lengths (a_shape t) (free_axes (length u) axes)
      /\ forall y, in_bounds (a_shape r) y = true ->
           elem r y = fold_left (fun x v => sadd x (elem v y)) views szero.
Proof.
  intros A Sc h lay s t u axes size out lengths SR Hh Hl Hw Hc Nu Ha Hz.
  destruct (einsum_correct SR h lay s [t] [u] out size Hh Hl Hc) as (r & Er & Hr).
  { constructor; auto. }
  { constructor; auto. }
  assert (St : a_shape t = map size u).
  { destruct Hc as (_ & _ & Hs). inversion Hs; auto. }
  assert (Lt : length (a_shape t) = length u) by (rewrite St; apply map_length).
  assert (So : map size out = axis_lengths (a_shape t) (free_axes (length u) axes)).
  { unfold out, axis_labels, axis_lengths. rewrite map_map, St. apply map_ext_in. intros k Hk.
    apply free_axes_In in Hk. rewrite nth_indep with (d' := size 0%N) by (rewrite map_length; tauto).
    symmetry. apply map_nth. }
  destruct (iterator_items t axes) as (it & Ei & Hi); auto; [apply Hw|rewrite Lt; auto| |].
  { intros k Hk. rewrite Forall_forall in Hz. apply Hz. apply in_map_iff. eauto. }
  exists it, (map (view_at t axes) (indices lengths)), r. split; [exact Ei|]. split.
  { rewrite Hi. fold lengths. rewrite Nat.sub_diag, firstn_all2 by (rewrite indices_length; lia).
    simpl. rewrite app_nil_r, map_map. auto. }
  split; [exact Er|]. destruct (Hr) as (R1 & _). split; [congruence|].
  intros y Hy. rewrite R1 in Hy. rewrite (holds_elem _ _ _ _ Hr Hy).
  unfold out. rewrite (axes_value_einsum SR t u axes size y St Nu Ha Hy). fold lengths.
  rewrite <- (fold_sum_over (semiring_near SR)).
  assert (E : forall pos, In pos (indices lengths) ->
    elem (view_at t axes pos) y = elem t (place (length u) (free_axes (length u) axes ++ axes) (y ++ pos))).
  { intros pos Hp. apply indices_In in Hp.
    pose proof (view_at_holds t _ _ axes pos (wf_holds t Hw)) as H. rewrite Lt in H.
    rewrite (holds_elem _ _ _ _ (H Ha Hp)); auto. rewrite <- So. auto. }
  revert E. generalize (szero (A := A)) as z. induction (indices lengths) as [|p l IH]; intros z E; [reflexivity|].
  simpl. rewrite (E p) by (left; auto). apply IH. intros; apply E; right; auto.
Qed.
Print Assumptions adding_up_the_items_is_einsum.

(** [ijk->j] of the 2x3x4 array, with the axes of [k] and [i] in this order. *)
Example adding_up_nonvacuous :
  let t := zarr [2; 3; 4] (map Z.of_nat (seq 0 24)) in
  let size := size_fn (combine (chars "ijk") [2; 3; 4]) in
  wf t /\ call_ok (chars "ijk->j") [a_shape t] [chars "ijk"] (axis_labels (chars "ijk") (free_axes 3 [2; 0])) size
  /\ NoDup (chars "ijk") /\ axes_ok 3 [2; 0] /\ Forall (fun d => d <> 0) (axis_lengths (a_shape t) [2; 0])
  /\ (do r <- einsum id_hash c_backend (chars "ijk->j") [t]; a_iter r) = Ok [60; 92; 124]%Z.
Proof.
  split; [apply wf_b_ok; reflexivity|]. split; [apply check_call_ok; check_call_tac|].
  split; [apply nodup_b_ok; reflexivity|]. split; [|split; [|vm_compute; reflexivity]].
  - split; repeat constructor; simpl; intuition lia.
  - cbn. repeat constructor; discriminate.
Qed.
