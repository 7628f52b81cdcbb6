(** Scalars whose zero does not absorb (C49). Floating-point numbers with a not-a-number, or numbers
    with a mark for "missing", satisfy [0 * x = 0] for some [x] only. The steps of a path multiply sums
    they have already formed, which is right for such scalars as long as no sum is empty. *)
From Verif Require Import Base BaseFacts NDArray Validation Optimizers Path Api Spec ParserFacts ValidationMain SumFacts
  ArrayFacts PathFacts EinsumMain EinsumProps OrderFacts RelationFacts TensordotMain Examples PropsOrder PropsValues.
From Coq Require Import Lia ZArith.
From Coq Require String.
Import String.StringSyntax.
Local Open Scope string_scope.
Local Open Scope list_scope.

(** No sum is empty. *)
Definition no_empty_sum (size : char -> nat) (ops : list (list char)) (out : list char) : Prop :=
  forall c, In c (summed_labels ops out) -> 0 < size c.

(** Lengths for the labels no operand has. *)
Definition padded (size : char -> nat) (ops : list (list char)) (c : char) : nat :=
  if mem c (concat ops) then size c else 1.

Lemma padded_in size ops c : In c (concat ops) -> padded size ops c = size c.
Proof. intros H. unfold padded. rewrite (proj2 (mem_In c _) H). auto. Qed.

Lemma padded_map size ops l : incl l (concat ops) -> map (padded size ops) l = map size l.
Proof. intros H. apply map_ext_in. intros c Hc. apply padded_in; auto. Qed.

Lemma padded_shapes size ops shapes : shapes_ok size ops shapes -> shapes_ok (padded size ops) ops shapes.
Proof.
  intros H. assert (Hi : Forall (fun ix => incl ix (concat ops)) ops).
  { apply Forall_forall. intros ix Hx c Hc. apply in_concat. eauto. }
  unfold shapes_ok in *. revert Hi. generalize (padded_map size ops) as Hp. generalize (padded size ops) as size'.
  generalize (concat ops) as all.
  induction H as [|ix sh ops shapes E H IH]; intros all size' Hp Hi; constructor; inversion Hi; subst; auto.
  - symmetry. apply Hp; auto.
  - apply (IH all); auto.
Qed.

Lemma padded_value {B} {Sb : Scalar B} size (arrays : list (arr B)) ops out o :
  einsum_value (padded size ops) arrays ops out o = einsum_value size arrays ops out o.
Proof.
  apply nested_sum_size. intros c Hc. apply padded_in. apply summed_labels_In in Hc. tauto.
Qed.

Lemma padded_blocked {A} size (arrays : list (arr A)) ops out :
  blocked_in (padded size ops) (combine arrays ops) out <-> blocked_in size (combine arrays ops) out.
Proof.
  assert (G : forall p1 (a : arr A) ix p2, combine arrays ops = p1 ++ (a, ix) :: p2 -> incl ix (concat ops)).
  { intros p1 a ix p2 E c Hc. apply in_concat. exists ix. split; auto.
    assert (H : In (a, ix) (combine arrays ops)) by (rewrite E; apply in_elt). eapply in_combine_r; eauto. }
  assert (K : forall (a : arr A) ix others, incl ix (concat ops) ->
    blocked (padded size ops) a ix others <-> blocked size a ix others).
  { intros a ix others Hi. unfold blocked.
    assert (P : forall c, In c ix -> padded size ops c = size c) by (intros c Hc; apply padded_in; auto).
    split; (intros (H1 & (c & Hc & H0) & H2); split; [exact H1|]; split;
      [exists c; rewrite P in * by auto; auto|]; intros (Ha & Hb & Hd & He); apply H2; split; [exact Ha|]; split; [exact Hb|];
      split; [|exact He]; intros d Hd'; specialize (Hd d Hd'); rewrite P in * by auto; auto). }
  split; intros (p1 & a & ix & p2 & E & H); exists p1, a, ix, p2; (split; [exact E|]);
    apply (K a ix _ (G _ _ _ _ E)); exact H.
Qed.

Lemma padded_outcome {A B} {Sb : Scalar B} (R : A -> B -> Prop) x size (arrays : list (arr A)) (arrays' : list (arr B)) ops out :
  incl out (concat ops) -> outcome_related R x (padded size ops) arrays arrays' ops out ->
  outcome_related R x size arrays arrays' ops out.
Proof.
  intros Hi [[E H]|[H (r & f & E & Hr & Hv)]]; [left|right]; rewrite padded_blocked in H; split; auto.
  rewrite padded_map in Hr, Hv by auto. exists r, f. split; auto. split; auto.
  intros o Ho. rewrite <- (padded_value size). auto.
Qed.

(** If an axis of the result has length zero, it has no elements to describe. *)
Lemma no_elements {A B} {Sa : Scalar A} {Sb : Scalar B} (R : A -> B -> Prop) x size (arrays : list (arr A)) (arrays' : list (arr B)) ops out c :
  In c out -> size c = 0 -> ends x size arrays ops out -> outcome_related R x size arrays arrays' ops out.
Proof.
  intros Hc H0 [[E H]|[H (r & E & Wr & Sr)]]; [left; auto|right]. split; auto.
  assert (No : forall o, in_bounds (map size out) o = false).
  { clear - Hc H0. induction out as [|d out IH]; intros [|i o]; simpl in *; auto; try contradiction.
    destruct Hc as [->|Hc]; [rewrite H0; reflexivity|]. rewrite IH by auto. apply andb_false_r. }
  exists r, (elem r). split; auto. split; [rewrite <- Sr; apply wf_holds; auto|]. intros o Ho. rewrite No in Ho. discriminate.
Qed.

(** ** Relations *)

(** As [einsum_respects_relations], for a relation that need not hold of zero. *)
Theorem relations_without_zero :
  forall (A B : Type) (Sa : Scalar A) (Sb : Scalar B) (R : A -> B -> Prop) (Z : A -> Prop),
  weak_relation R Z -> near_semiring B ->
  forall h lay s arrays arrays' ops out size, hash_ok h -> backend_runs lay -> weak_fused R Z lay ->
    call_ok s (map (@a_shape A) arrays) ops out size -> no_empty_sum size ops out -> Forall wf arrays ->
    Forall2 (related_arrays R) arrays arrays' ->
    outcome_related R (einsum h lay s arrays) size arrays arrays' ops out
    /\ forall strategy, strategy = Naive \/ strategy = Reverse ->
       outcome_related R (do p <- einsum_path_fn h s arrays strategy; contract_operands lay p arrays)
         size arrays arrays' ops out.
Proof.
  intros A B Sa Sb R Z HR NS h lay s arrays arrays' ops out size Hh Hl Hf Hc Hn Hw Hz.
  pose proof Hc as (Hm & [Hnd Hin] & Hs).
  destruct (existsb (fun c => size c =? 0) out) eqn:Ex.
  - apply existsb_exists in Ex as (c & Hc1 & Hc2). apply Nat.eqb_eq in Hc2. split.
    + apply (no_elements R _ _ _ _ _ _ c); auto. apply einsum_ends; auto.
    + intros st Hst. apply (no_elements R _ _ _ _ _ _ c); auto. apply compile_and_run_ends; auto.
  - assert (Hpos : forall c, 0 < padded size ops c).
    { intros c. unfold padded. destruct (mem c (concat ops)) eqn:Em; [|lia].
      apply mem_In in Em. destruct (in_dec N.eq_dec c out) as [Ho|Ho].
      - destruct (Nat.eq_dec (size c) 0) as [H0|H0]; [|lia]. exfalso.
        assert (E : existsb (fun c => size c =? 0) out = true)
          by (apply existsb_exists; exists c; split; auto; apply Nat.eqb_eq; auto).
        congruence.
      - apply Hn. apply summed_labels_In. auto. }
    assert (SM : summable B (padded size ops)) by (constructor; auto).
    assert (He : no_empty_sums R Z (padded size ops)) by (right; exact Hpos).
    assert (Hc' : call_ok s (map (@a_shape A) arrays) ops out (padded size ops))
      by (split; [|split; [split|apply padded_shapes]]; auto).
    split.
    + apply padded_outcome; auto. apply (einsum_related_weak R Z HR h lay Hh Hl Hf _ He SM); auto.
    + intros st Hst. apply padded_outcome; auto.
      apply (compile_and_run_related_weak R Z HR h lay Hh Hl Hf _ He SM); auto.
Qed.
Print Assumptions relations_without_zero.

(** As [einsum_respects_relations] and [valid_orders_respect_relations], where zero need not absorb. *)
Theorem relations_without_absorbing_zero :
  forall (A B : Type) (Sa : Scalar A) (Sb : Scalar B) (R : A -> B -> Prop),
  scalar_relation R -> near_semiring B ->
  forall h lay s arrays arrays' ops out size, hash_ok h -> backend_runs lay -> fused_relation R lay ->
    call_ok s (map (@a_shape A) arrays) ops out size -> no_empty_sum size ops out -> Forall wf arrays ->
    Forall2 (related_arrays R) arrays arrays' ->
    outcome_related R (einsum h lay s arrays) size arrays arrays' ops out
    /\ forall strategy, strategy = Naive \/ strategy = Reverse ->
       outcome_related R (do p <- einsum_path_fn h s arrays strategy; contract_operands lay p arrays)
         size arrays arrays' ops out.
Proof.
  intros A B Sa Sb R HR NS h lay s arrays arrays' ops out size Hh Hl Hf.
  apply (relations_without_zero A B Sa Sb R _ (strong_weak R HR NS) NS h lay); auto.
  apply strong_weak_fused; auto.
Qed.
Print Assumptions relations_without_absorbing_zero.

(** ** The Einstein sum *)

Theorem einstein_sum_without_absorbing_zero :
  forall (A : Type) (Sc : Scalar A), near_semiring A ->
  forall h lay s arrays ops out size, hash_ok h -> backend_ok lay ->
    call_ok s (map (@a_shape A) arrays) ops out size -> no_empty_sum size ops out -> Forall wf arrays ->
    outcome_is (einsum h lay s arrays) size arrays ops out
    /\ forall strategy, strategy = Naive \/ strategy = Reverse ->
       outcome_is (do p <- einsum_path_fn h s arrays strategy; contract_operands lay p arrays) size arrays ops out.
Proof.
  intros A Sc NS h lay s arrays ops out size Hh Hl Hc Hn Hw.
  destruct (relations_without_absorbing_zero A A Sc Sc eq eq_relation NS h lay s arrays arrays ops out size Hh Hl
              (eq_fused lay Hl) Hc Hn Hw (eq_related arrays Hw)) as [H1 H2].
  split; [apply related_outcome; auto|]. intros st Hst. apply related_outcome; auto.
Qed.
Print Assumptions einstein_sum_without_absorbing_zero.

Lemma nan_near : @near_semiring (option Z) nan_scalar.
Proof.
  constructor; intros; repeat match goal with x : option Z |- _ => destruct x end; cbv [szero sone sadd smul nan_scalar]; try reflexivity; f_equal; ring.
Qed.

(** Three matrices, one with a not-a-number and one with a row of zeros. *)
Example near_case :
  let a := narr [2; 2] [Some 1; None; Some 2; Some 3]%Z in
  let b := narr [2; 2] [Some 0; Some 0; Some 5; Some 7]%Z in
  let c := narr [2] [Some 1; Some (-1)]%Z in
  let size := size_fn (combine (chars "ijk") [2; 2; 2]) in
  call_ok (chars "ij,jk,k->i") (map (@a_shape (option Z)) [a; b; c]) [chars "ij"; chars "jk"; chars "k"] (chars "i") size
  /\ no_empty_sum size [chars "ij"; chars "jk"; chars "k"] (chars "i")
  /\ Forall wf [a; b; c]
  /\ ~ @semiring (option Z) nan_scalar
  /\ (do r <- @einsum _ nan_scalar id_hash (@plain_backend _ nan_scalar) (chars "ij,jk,k->i") [a; b; c]; a_iter r)
     = Ok [None; Some (-6)]%Z
  /\ map (@einsum_value _ nan_scalar size [a; b; c] [chars "ij"; chars "jk"; chars "k"] (chars "i")) [[0]; [1]]
     = [None; Some (-6)]%Z.
Proof.
  split; [apply check_call_ok; check_call_tac|].
  split; [intros c Hc; vm_compute in Hc; destruct Hc as [<-|[<-|[]]]; vm_compute; lia|].
  split; [apply wfs_b_ok; reflexivity|].
  split; [intros H; pose proof (SRmul_0_l H None) as E; discriminate E|].
  split; vm_compute; reflexivity.
Qed.

(** An empty sum is zero, and the product with it need not be. *)
Theorem einstein_sum_without_absorbing_zero_refuted :
  ~ (forall (A : Type) (Sc : Scalar A), near_semiring A ->
     forall h lay s arrays ops out size, hash_ok h -> backend_ok lay ->
       call_ok s (map (@a_shape A) arrays) ops out size -> Forall wf arrays ->
       outcome_is (einsum h lay s arrays) size arrays ops out).
Proof.
  intros H.
  destruct (H (option Z) nan_scalar nan_near id_hash (@plain_backend _ nan_scalar)
              (chars "i,k->k") [narr [0] []; narr [2] [None; Some 3%Z]] [chars "i"; chars "k"] (chars "k")
              (size_fn (combine (chars "ik") [0; 2]))) as [[E _]|[_ (r & E & Hr)]].
  - exact id_hash_ok'.
  - apply (@plain_backend_ok _ nan_scalar).
  - apply check_call_ok; check_call_tac.
  - apply wfs_b_ok; reflexivity.
  - vm_compute in E. discriminate.
  - destruct Hr as (_ & _ & Hr). specialize (Hr [0] eq_refl). vm_compute in E. injection E as <-.
    vm_compute in Hr. discriminate.
Qed.
Print Assumptions einstein_sum_without_absorbing_zero_refuted.

(** ** Where not-a-numbers come from *)

(** Whether a term has a bad factor. *)
Definition any_scalar : Scalar bool := {| szero := false; sone := false; sadd := orb; smul := orb |}.
Lemma any_near : @near_semiring bool any_scalar.
Proof. constructor; intros; repeat match goal with x : bool |- _ => destruct x end; reflexivity. Qed.

Lemma any_sum size cs (f : env -> bool) e : @nested_sum _ any_scalar size cs f e = true ->
  exists e', (forall c, ~ In c cs -> e' c = e c) /\ (forall c, In c cs -> e' c < size c) /\ f e' = true.
Proof.
  revert e. induction cs as [|c cs IH]; intros e H; cbn [nested_sum] in H.
  - exists e. split; auto. split; auto. intros c [].
  - assert (G : exists i, i < size c /\ @nested_sum _ any_scalar size cs f (upd e c i) = true).
    { revert H. generalize (size c) as n. induction n as [|n IHn]; intros H; [discriminate|]. cbn [sum_n] in H.
      apply orb_true_iff in H as [H|H]; [destruct (IHn H) as (i & Hi & Hx); exists i; split; auto; lia|].
      exists n. split; auto. }
    destruct G as (i & Hi & Hx). apply IH in Hx as (e' & H1 & H2 & H3). exists e'.
    destruct (in_dec N.eq_dec c cs) as [Hc|Hc].
    + split; [intros d Hd|split; [|exact H3]].
      * rewrite H1 by (intros Hd'; apply Hd; simpl; auto). apply upd_other. intros ->. apply Hd; simpl; auto.
      * intros d [<-|Hd]; auto.
    + split; [intros d Hd|split; [|exact H3]].
      * rewrite H1 by (intros Hd'; apply Hd; simpl; auto). apply upd_other. intros ->. apply Hd; simpl; auto.
      * intros d [<-|Hd]; auto. rewrite H1, upd_same by auto. exact Hi.
Qed.

Lemma any_term {F} {Sf : Scalar F} (bad : F -> bool) (arrays : list (arr F)) ops e :
  @term _ any_scalar (map (amap bad) arrays) ops e = true ->
  exists a ix, In (a, ix) (combine arrays ops) /\ bad (elem a (map e ix)) = true.
Proof.
  unfold term, product. revert ops. induction arrays as [|a arrays IH]; intros [|ix ops]; cbn; try discriminate.
  intros H. apply orb_true_iff in H as [H|H].
  - exists a, ix. split; auto. unfold elem in H |- *. rewrite a_get_amap in H.
    destruct (a_get a (map e ix)); cbn [rmap] in H; auto; discriminate.
  - destruct (IH ops H) as (b & jx & Hi & Hb). exists b, jx. auto.
Qed.

(** If a sum, a product or a fused multiply-add is bad only where one of its operands is, and no sum is
    empty, an element of the result is bad only where one of its factors is. *)
Theorem bad_values_come_from_factors :
  forall (F : Type) (Sf : Scalar F) (bad : F -> bool),
    bad szero = false -> bad sone = false ->
    (forall x y, bad (sadd x y) = true -> bad x || bad y = true) ->
    (forall x y, bad (smul x y) = true -> bad x || bad y = true) ->
  forall h lay s arrays ops out size r, hash_ok h -> backend_runs lay ->
    (forall x y z, bad (fused lay x y z) = true -> bad x || bad y || bad z = true) ->
    call_ok s (map (@a_shape F) arrays) ops out size -> no_empty_sum size ops out -> Forall wf arrays ->
    (einsum h lay s arrays = Ok r
     \/ exists strategy, (strategy = Naive \/ strategy = Reverse)
          /\ (do p <- einsum_path_fn h s arrays strategy; contract_operands lay p arrays) = Ok r) ->
    forall o x, in_bounds (map size out) o = true -> a_get r o = Ok x -> bad x = true ->
      exists e a ix, selects size ops out o e /\ operand_of arrays ops a ix /\ bad (elem a (map e ix)) = true.
Proof.
  intros F Sf bad Hz H1 Ha Hm h lay s arrays ops out size r Hh Hl Hfu Hc Hn Hw Hr o x Ho Ex Hx.
  pose proof Hc as (_ & [Hnd Hin] & Hs). set (R := fun (x : F) (b : bool) => bad x = true -> b = true).
  assert (HR : @scalar_relation F bool Sf any_scalar R).
  { unfold R. constructor; cbn; try congruence.
    - intros u b v b' Hu Hv H. apply Ha in H. apply orb_true_iff in H. apply orb_true_iff. tauto.
    - intros u b v b' Hu Hv H. apply Hm in H. apply orb_true_iff in H. apply orb_true_iff. tauto. }
  assert (Hf : @fused_relation F bool any_scalar R lay).
  { intros u b v b' w b'' Hu Hv Hw' H. unfold R in *. apply Hfu in H. cbn.
    rewrite !orb_true_iff in *. tauto. }
  assert (Hrel : Forall2 (related_arrays R) arrays (map (amap bad) arrays)).
  { apply relateds_amap; auto. intros u H. exact H. }
  destruct (relations_without_absorbing_zero F bool Sf any_scalar R HR any_near h lay s arrays _ ops out size Hh Hl Hf Hc
              Hn Hw Hrel) as [G1 G2].
  assert (G : exists y, y = Ok r /\ outcome_related (Sb := any_scalar) R y size arrays (map (amap bad) arrays) ops out).
  { destruct Hr as [E|(st & Hst & E)]; eexists; (split; [exact E|]); auto. }
  destruct G as (y & -> & [[E _]|[_ (r' & f & E & (_ & _ & Hg) & Hv)]]); [discriminate|]. injection E as <-.
  specialize (Hv o Ho). rewrite Hg in Ex by auto. injection Ex as Ex. rewrite Ex in Hv. specialize (Hv Hx).
  unfold einsum_value in Hv. apply any_sum in Hv as (e & He1 & He2 & He3).
  apply any_term in He3 as (a & ix & Hi & Hb). exists e, a, ix.
  assert (Eo : map e out = o).
  { assert (Hl' : length o = length out) by (apply in_bounds_length in Ho; rewrite map_length in Ho; auto).
    transitivity (map (bind out o) out); [|apply map_bind; auto]. apply map_ext_in. intros c Hc'. apply He1. intros H.
    apply summed_labels_In in H. tauto. }
  split; [|split; [apply operand_of_combine; auto|exact Hb]].
  split; auto. intros c Hc'. destruct (in_dec N.eq_dec c out) as [H|H].
  - apply (proj1 (in_bounds_map size e out)); auto. rewrite Eo. exact Ho.
  - apply He2. apply summed_labels_In. auto.
Qed.
Print Assumptions bad_values_come_from_factors.

(** For scalars where a result is bad exactly where an operand is, both directions. *)
Theorem bad_values_are_exactly_those_with_bad_factors :
  forall (F : Type) (Sf : Scalar F) (bad : F -> bool),
    bad szero = false -> bad sone = false ->
    (forall x y, bad (sadd x y) = bad x || bad y) -> (forall x y, bad (smul x y) = bad x || bad y) ->
  forall h lay s arrays ops out size r, hash_ok h -> backend_runs lay ->
    (forall x y z, bad (fused lay x y z) = bad x || bad y || bad z) ->
    call_ok s (map (@a_shape F) arrays) ops out size -> no_empty_sum size ops out -> Forall wf arrays ->
    (einsum h lay s arrays = Ok r
     \/ exists strategy, (strategy = Naive \/ strategy = Reverse)
          /\ (do p <- einsum_path_fn h s arrays strategy; contract_operands lay p arrays) = Ok r) ->
    forall o x, in_bounds (map size out) o = true -> a_get r o = Ok x ->
      (bad x = true
       <-> exists e a ix, selects size ops out o e /\ operand_of arrays ops a ix /\ bad (elem a (map e ix)) = true).
Proof.
  intros F Sf bad Hz H1 Ha Hm h lay s arrays ops out size r Hh Hl Hfu Hc Hn Hw Hr o x Ho Ex. split.
  - intros Hx. apply (bad_values_come_from_factors F Sf bad) with (h := h) (lay := lay) (s := s) (r := r) (x := x); auto.
    + intros u v H. rewrite <- Ha. exact H.
    + intros u v H. rewrite <- Hm. exact H.
    + intros u v w H. rewrite <- Hfu. exact H.
  - intros (e & a & ix & He & Hop & Hb).
    destruct (bad_values_are_not_lost F Sf bad) with (h := h) (lay := lay) (s := s) (arrays := arrays) (ops := ops)
      (out := out) (size := size) (r := r) (o := o) (e := e) (a := a) (ix := ix) as (x' & Ex' & Hx'); auto.
    + intros u v H. rewrite Ha. exact H.
    + intros u v H. rewrite Hm. exact H.
    + intros u v w H. rewrite Hfu. exact H.
    + congruence.
Qed.
Print Assumptions bad_values_are_exactly_those_with_bad_factors.

(** The not-a-number of [near_case] is a factor of the first element and not of the second. *)
Example bad_case :
  let a := narr [2; 2] [Some 1; None; Some 2; Some 3]%Z in
  let b := narr [2; 2] [Some 0; Some 0; Some 5; Some 7]%Z in
  let size := size_fn (combine (chars "ijk") [2; 2; 2]) in
  call_ok (chars "ij,jk->ik") (map (@a_shape (option Z)) [a; b]) [chars "ij"; chars "jk"] (chars "ik") size
  /\ no_empty_sum size [chars "ij"; chars "jk"] (chars "ik") /\ Forall wf [a; b]
  /\ (forall x y z, is_nan (fused (@plain_backend _ nan_scalar) x y z) = is_nan x || is_nan y || is_nan z)
  /\ selects size [chars "ij"; chars "jk"] (chars "ik") [0; 1] (bind (chars "ikj") [0; 1; 1])
  /\ is_nan (@elem _ nan_scalar a (map (bind (chars "ikj") [0; 1; 1]) (chars "ij"))) = true
  /\ (do r <- @einsum _ nan_scalar id_hash (@plain_backend _ nan_scalar) (chars "ij,jk->ik") [a; b]; a_iter r)
     = Ok [None; None; Some 15; Some 21]%Z.
Proof.
  split; [apply check_call_ok; check_call_tac|].
  split; [intros c Hc; vm_compute in Hc; destruct Hc as [<-|[]]; vm_compute; lia|].
  split; [apply wfs_b_ok; reflexivity|]. split; [intros [] [] []; reflexivity|].
  split; [|split; vm_compute; reflexivity].
  split; [reflexivity|]. intros c Hc. cbn in Hc. destruct Hc as [<-|[<-|[<-|[<-|[]]]]]; vm_compute; lia.
Qed.

(** ** Contraction orders *)

(** As [valid_orders_compute_the_einstein_sum], where zero need not absorb. *)
Theorem valid_orders_without_absorbing_zero :
  forall (A : Type) (Sc : Scalar A), near_semiring A ->
  forall h k lay size ops out order, hash_ok h -> backend_ok lay -> valid_order size ops out order ->
    (forall c, 0 < size c) ->
    exists p, from_path h k order = Ok p
      /\ forall arrays, Forall (@wf A) arrays -> shapes_ok size ops (map (@a_shape A) arrays) ->
         exists r, contract_operands lay p arrays = Ok r
           /\ holds r (map size out) (einsum_value size arrays ops out).
Proof.
  intros A Sc NS h k lay size ops out order Hh Hl Hv Hp.
  destruct (valid_order_runs h size Hh eq _ (eq_weak NS) (eq_no_empty size) lay Hl
              (eq_weak_fused lay NS Hl) (mkSummable A Sc size NS (or_intror Hp)) k ops out
              order (valid_order_NoDup _ _ _ _ Hv) Hv) as (p & E & Hr).
  exists p. split; [exact E|]. intros arrays Hw Hs.
  destruct (Hr arrays arrays) as [[_ H]|[_ (r & f & Er & Hf & Hv')]].
  - apply usables_intro; auto.
  - apply eq_related; auto.
  - exfalso. revert H. apply (no_empty_order_not_blocked size arrays ops out order); auto.
    apply Forall_forall. intros ix _. right. apply Forall_forall. intros c _. specialize (Hp c). lia.
  - exists r. split; [exact Er|]. destruct Hf as (H1 & H2 & H3).
    split; [exact H1|]. split; [exact H2|]. intros o Ho. rewrite <- Hv'; auto.
Qed.
Print Assumptions valid_orders_without_absorbing_zero.
