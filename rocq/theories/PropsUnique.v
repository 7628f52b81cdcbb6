(** C68: [einsum] is the only function that is linear in each operand and does on unit arrays what the string
    says. *)
From Verif Require Import Base BaseFacts NDArray Validation Optimizers Strategies Singleton Pair Path
  Api Spec ValidationFacts SumFacts ArrayFacts EinsumMain EinsumProps AlgebraFacts ParserFacts TensordotMain
  UniqueFacts Examples.
From Coq Require Import Lia.
From Coq Require String.
Import String.StringSyntax.
Local Open Scope string_scope.
Local Open Scope list_scope.

(** If each operand is one at one position and zero elsewhere, an element of the result is one if its position
    and theirs give every label a single value, and zero otherwise. *)
Theorem unit_operands :
  forall (A : Type) (Sc : Scalar A), semiring A ->
  forall h lay s (us : list (arr A)) ps ops out size, hash_ok h -> backend_ok lay ->
    call_ok s (map (@a_shape A) us) ops out size -> Forall wf us -> Forall2 unit_at us ps ->
    exists r, einsum h lay s us = Ok r /\ a_shape r = map size out
      /\ forall o, in_bounds (a_shape r) o = true ->
           (positions_match ops out ps o -> elem r o = sone) /\ (~ positions_match ops out ps o -> elem r o = szero).
Proof. intros A Sc. exact unit_call. Qed.
Print Assumptions unit_operands.

(** This and linearity (C24) determine the result: no definition of Einstein sums is needed to say what
    [einsum] computes. *)
Theorem einsum_is_determined_by_unit_operands :
  forall (A : Type) (Sc : Scalar A), semiring A ->
  forall h lay s (xs : list (arr A)) ops out size r (T : list (arr A) -> list nat -> A), hash_ok h -> backend_ok lay ->
    call_ok s (map (@a_shape A) xs) ops out size -> Forall wf xs -> einsum h lay s xs = Ok r ->
    (forall o, in_bounds (map size out) o = true -> linear_in_each (map (@a_shape A) xs) (fun ys => T ys o)) ->
    (forall us ps o, Forall wf us -> map (@a_shape A) us = map (@a_shape A) xs -> Forall2 unit_at us ps ->
       in_bounds (map size out) o = true ->
       (positions_match ops out ps o -> T us o = sone) /\ (~ positions_match ops out ps o -> T us o = szero)) ->
    forall o, in_bounds (a_shape r) o = true -> elem r o = T xs o.
Proof. intros A Sc. exact unique_call. Qed.
Print Assumptions einsum_is_determined_by_unit_operands.

(** Of tensordot the same holds. The position [o] of the result has to consist of the coordinates of [p] and
    [q] along the free axes, and those along the contracted axes have to agree. *)
Definition dot_match (sa sb la ra p q o : list nat) : Prop :=
  o = along p (free_axes (length sa) la) ++ along q (free_axes (length sb) ra) /\ along p la = along q ra.

Lemma dot_match_iff sa sb la ra p q o :
  in_bounds (axis_lengths sa (free_axes (length sa) la) ++ axis_lengths sb (free_axes (length sb) ra)) o = true ->
  (dot_match sa sb la ra p q o <->
   o ++ along p la = along p (free_axes (length sa) la) ++ along q (free_axes (length sb) ra) ++ along q ra).
Proof.
  intros Ho. unfold dot_match. split.
  - intros [-> ->]. rewrite <- app_assoc. auto.
  - intros E. rewrite app_assoc in E. apply app_eq_parts in E; auto.
    apply in_bounds_length in Ho. rewrite Ho. unfold axis_lengths, along. rewrite !app_length, !map_length. auto.
Qed.

Theorem unit_operands_of_tensordot :
  forall (A : Type) (Sc : Scalar A), semiring A ->
  forall lay (a b : arr A) la ra p q, backend_ok lay -> wf a -> wf b -> unit_at a p -> unit_at b q ->
    axes_ok (length (a_shape a)) la -> axes_ok (length (a_shape b)) ra ->
    axis_lengths (a_shape a) la = axis_lengths (a_shape b) ra ->
    exists r, tensordot lay a b la ra = Ok r
      /\ a_shape r = axis_lengths (a_shape a) (free_axes (length (a_shape a)) la)
                     ++ axis_lengths (a_shape b) (free_axes (length (a_shape b)) ra)
      /\ forall o, in_bounds (a_shape r) o = true ->
           (dot_match (a_shape a) (a_shape b) la ra p q o -> elem r o = sone)
           /\ (~ dot_match (a_shape a) (a_shape b) la ra p q o -> elem r o = szero).
Proof.
  intros A Sc SR lay a b la ra p q Hl Wa Wb Ua Ub Oa Ob El.
  destruct (unit_tensordot SR la ra lay a b p q) as (r & E & Sr & Hr); auto.
  exists r. split; auto. split; auto. intros o Ho. rewrite (Hr o Ho). rewrite Sr in Ho.
  rewrite (dot_match_iff _ _ la ra p q o Ho). destruct (list_eq_dec Nat.eq_dec _ _); split; intros; tauto.
Qed.
Print Assumptions unit_operands_of_tensordot.

Theorem tensordot_is_determined_by_unit_operands :
  forall (A : Type) (Sc : Scalar A), semiring A ->
  forall lay (a b r : arr A) la ra (T : arr A -> arr A -> list nat -> A), backend_ok lay -> wf a -> wf b ->
    axes_ok (length (a_shape a)) la -> axes_ok (length (a_shape b)) ra ->
    axis_lengths (a_shape a) la = axis_lengths (a_shape b) ra -> tensordot lay a b la ra = Ok r ->
    (forall o, in_bounds (a_shape r) o = true ->
       linear_in_each [a_shape a; a_shape b] (of_two (fun x y => T x y o))) ->
    (forall u v p q o, wf u -> wf v -> a_shape u = a_shape a -> a_shape v = a_shape b -> unit_at u p -> unit_at v q ->
       in_bounds (a_shape r) o = true ->
       (dot_match (a_shape a) (a_shape b) la ra p q o -> T u v o = sone)
       /\ (~ dot_match (a_shape a) (a_shape b) la ra p q o -> T u v o = szero)) ->
    forall o, in_bounds (a_shape r) o = true -> elem r o = T a b o.
Proof.
  intros A Sc SR lay a b r la ra T Hl Wa Wb Oa Ob El E LT HU.
  assert (LA : length la = length ra).
  { apply (f_equal (@length nat)) in El. unfold axis_lengths in El. rewrite !map_length in El. auto. }
  destruct (tensordot_ok lay Hl (semiring_near SR) Hl a b la ra) as (r' & E' & Sr & _); auto.
  assert (r' = r) by congruence. subst r'.
  apply (unique_tensordot SR la ra lay a b r T); auto.
  intros u v p q o Wu Wv Su Sv Uu Uv Ho. destruct (HU u v p q o) as [H1 H2]; auto. rewrite Sr in Ho.
  rewrite (dot_match_iff _ _ la ra p q o Ho) in H1, H2. destruct (list_eq_dec Nat.eq_dec _ _); auto.
Qed.
Print Assumptions tensordot_is_determined_by_unit_operands.

(** A unit matrix entry and a unit vector entry: the result is one where the labels match. *)
Example units_case :
  let u := zarr [2; 3] [0; 0; 0; 0; 0; 1]%Z in
  let v := zarr [3] [0; 0; 1]%Z in
  let w := zarr [3] [0; 1; 0]%Z in
  call_ok (chars "ij,j->i") [[2; 3]; [3]] [chars "ij"; chars "j"] (chars "i") (size_fn (combine (chars "ij") [2; 3]))
  /\ Forall2 unit_at [u; v] [[1; 2]; [2]] /\ Forall2 unit_at [u; w] [[1; 2]; [1]]
  /\ positions_match [chars "ij"; chars "j"] (chars "i") [[1; 2]; [2]] [1]
  /\ ~ positions_match [chars "ij"; chars "j"] (chars "i") [[1; 2]; [1]] [1]
  /\ (do r <- einsum id_hash c_backend (chars "ij,j->i") [u; v]; a_iter r) = Ok [0; 1]%Z
  /\ (do r <- einsum id_hash c_backend (chars "ij,j->i") [u; w]; a_iter r) = Ok [0; 0]%Z
  /\ dot_match [2; 3] [3] [1] [0] [1; 2] [2] [1]
  /\ (do r <- tensordot c_backend u v [1] [0]; a_iter r) = Ok [0; 1]%Z.
Proof.
  intros u v w.
  assert (U : forall sh l p, in_bounds sh p = true ->
    Forall (fun i => elem (zarr sh l) i = if list_eq_dec Nat.eq_dec i p then 1%Z else 0%Z) (indices sh) ->
    unit_at (zarr sh l) p).
  { intros sh l p Hp Hf. split; auto. intros i Hi. rewrite Forall_forall in Hf. apply Hf, indices_complete. auto. }
  split; [apply check_call_ok; check_call_tac|].
  split; [constructor; [|constructor; [|constructor]]; apply U; auto; repeat constructor|].
  split; [constructor; [|constructor; [|constructor]]; apply U; auto; repeat constructor|].
  split; [exists (bind (chars "ij") [1; 2]); auto|].
  split; [intros (e & He & _); cbn in He; congruence|].
  do 2 (split; [reflexivity|]). split; [split; reflexivity|reflexivity].
Qed.

(** The trace is the function that adds the two diagonal elements: it is linear, and it does on unit matrices
    what the string says. *)
Example trace_is_determined :
  let T := fun (ys : list (arr Z)) (o : list nat) =>
    match ys with [a] => Z.add (elem a [0; 0]) (elem a [1; 1]) | _ => 0%Z end in
  forall o : list nat, linear_in_each [[2; 2]] (fun ys => T ys o)
  /\ forall us ps, map (@a_shape Z) us = [[2; 2]] -> Forall2 unit_at us ps ->
       (positions_match [chars "ii"] [] ps [] -> T us [] = 1%Z) /\ (~ positions_match [chars "ii"] [] ps [] -> T us [] = 0%Z).
Proof.
  intros T o. split.
  - intros pre post x y z c d _ _ _ _ Hsh Sx Sy Hz.
    destruct pre as [|? [|]]; cbn [app map] in Hsh; try discriminate.
    injection Hsh as Sz Sp. destruct post; [|discriminate]. cbn. rewrite Sz in Hz.
    rewrite (Hz [0; 0]), (Hz [1; 1]) by reflexivity. cbn. ring.
  - intros us ps Hs Hu. destruct us as [|u [|]]; try discriminate. cbn [map] in Hs. injection Hs as Su.
    inversion Hu as [|? p ? ? [Bp Up] Hu1]; subst. inversion Hu1; subst. rewrite Su in Bp, Up. cbn [T].
    rewrite (Up [0; 0]), (Up [1; 1]) by reflexivity. apply indices_complete in Bp. cbn in Bp.
    destruct Bp as [<-|[<-|[<-|[<-|[]]]]]; split; intros H; try reflexivity; exfalso.
    + apply H. exists (fun _ => 0). auto.
    + destruct H as (e & He & _). cbn in He. congruence.
    + destruct H as (e & He & _). cbn in He. congruence.
    + apply H. exists (fun _ => 1). auto.
Qed.
