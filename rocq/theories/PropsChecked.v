(** Integers whose arithmetic panics on overflow, as in a build with overflow checks (C61). *)
From Verif Require Import Base BaseFacts NDArray Validation Optimizers Strategies Singleton Pair Path Api
  Spec ParserFacts ValidationMain SumFacts ArrayFacts PathFacts OrderFacts EinsumMain EinsumProps RelationFacts
  TensordotMain RangeFacts Examples PropsOrder PropsValues PropsNear PropsRelation PropsFloat Checked CheckedFacts.
From Coq Require Import Lia ZArith.
From Coq Require String.
Import String.StringSyntax.
Local Open Scope string_scope.
Local Open Scope list_scope.

(** ** Panicking at once and panicking at the end *)

(** Checks only add panics, and no result has a bad element. On all inputs, for every arithmetic. *)
Theorem overflow_checks_only_add_panics :
  forall (A : Type) (Sc : Scalar A) (bad : A -> bool) (lay : backend A) h,
  let same_or_panic x_k x := (x_k = x \/ x_k = Panic) /\ forall r, x_k = Ok r -> clean bad r in
  (forall s arrays, same_or_panic (einsum_k bad lay h s arrays) (einsum h lay s arrays))
  /\ (forall s arrays strategy, same_or_panic (compile_and_run_k bad lay h s arrays strategy)
        (do p <- einsum_path_fn h s arrays strategy; contract_operands lay p arrays))
  /\ (forall p arrays, same_or_panic (contract_operands_k bad lay p arrays) (contract_operands lay p arrays))
  /\ (forall a b la ra, same_or_panic (tensordot_k bad lay a b la ra) (tensordot lay a b la ra)).
Proof.
  intros A Sc bad lay h same_or_panic. unfold same_or_panic. repeat split.
  - apply einsum_at_most.
  - intros r. apply einsum_k_clean.
  - apply compile_and_run_at_most.
  - intros r. apply compile_and_run_k_clean.
  - apply contract_operands_at_most.
  - intros r. apply contract_operands_clean.
  - apply settle_at_most.
  - intros r E. apply settle_ok in E. tauto.
Qed.
Print Assumptions overflow_checks_only_add_panics.

(** No label of the operands has length zero. *)
Definition no_empty_label (size : char -> nat) (ops : list (list char)) : Prop :=
  forall c, In c (concat ops) -> 0 < size c.

Lemma padded_pos size ops : no_empty_label size ops -> forall c, 0 < padded size ops c.
Proof.
  intros H c. unfold padded. destruct (mem c (concat ops)) eqn:E; [|lia]. apply mem_In in E. auto.
Qed.

Lemma padded_call s shapes ops out size : call_ok s shapes ops out size -> call_ok s shapes ops out (padded size ops).
Proof. intros (H1 & H2 & H3). split; auto. split; auto. apply padded_shapes; auto. Qed.

Lemma no_label_no_sum size ops out : no_empty_label size ops -> no_empty_sum size ops out.
Proof. intros H c Hc. apply summed_labels_In in Hc. apply H. tauto. Qed.

Lemma no_label_not_blocked {A} size (arrays : list (arr A)) ops out : no_empty_label size ops ->
  ~ blocked_in size (combine arrays ops) out.
Proof.
  intros H (p1 & a & ix & p2 & E & _ & (c & Hc & H0) & _).
  assert (Hi : In (a, ix) (combine arrays ops)) by (rewrite E; apply in_elt). apply in_combine_r in Hi.
  assert (0 < size c) by (apply H; apply in_concat; eauto). lia.
Qed.

(** If a bad factor makes a product bad and a bad summand a sum, and no label has length zero, then a bad
    scalar computed anywhere in a run is in an element of the result: stopping at the first one and
    looking at the result are the same. *)
Theorem bad_scalars_are_never_lost :
  forall (A : Type) (Sc : Scalar A) (bad : A -> bool),
  (forall x y, bad x || bad y = true -> bad (sadd x y) = true) ->
  (forall x y, bad x || bad y = true -> bad (smul x y) = true) ->
  forall (lay : backend A), backend_runs lay ->
  (forall x y z, bad x || bad y || bad z = true -> bad (fused lay x y z) = true) ->
  forall h s arrays ops out size, hash_ok h ->
    call_ok s (map (@a_shape A) arrays) ops out size -> no_empty_label size ops -> Forall wf arrays ->
    (forall r, einsum_k bad lay h s arrays = Ok r <-> einsum h lay s arrays = Ok r /\ clean bad r)
    /\ forall strategy, strategy = Naive \/ strategy = Reverse ->
       forall r, compile_and_run_k bad lay h s arrays strategy = Ok r
         <-> (do p <- einsum_path_fn h s arrays strategy; contract_operands lay p arrays) = Ok r /\ clean bad r.
Proof.
  intros A Sc bad Ha Hm lay Hl Hf h s arrays ops out size Hh Hc Hn Hw.
  assert (Hfu : @fused_relation A (option bool) taint_scalar (tainted bad) lay).
  { intros x x' y y' z z' Hx Hy Hz H. apply Hf. unfold tainted in *.
    destruct x' as [[]|], y' as [[]|], z' as [[]|]; cbn in H; try discriminate;
      repeat match goal with H : Some true = Some true -> ?b = true |- _ => specialize (H eq_refl); rewrite H end;
      rewrite ?orb_true_r; reflexivity. }
  split.
  - intros r. split.
    + intros E. split; [|eapply einsum_k_clean; eauto].
      destruct (einsum_at_most bad lay h s arrays) as [H|H]; rewrite E in H; [congruence|discriminate].
    + intros [E Hr]. eapply (einsum_checked h (padded size ops) Hh bad Ha Hm lay Hl Hfu); eauto.
      * apply padded_pos; auto.
      * apply padded_call; eauto.
  - intros st Hst r. split.
    + intros E. split; [|eapply compile_and_run_k_clean; eauto].
      destruct (compile_and_run_at_most bad lay h s arrays st) as [H|H]; rewrite E in H; [|discriminate].
      unfold compile_and_run in H. congruence.
    + intros [E Hr]. eapply (compile_and_run_checked h (padded size ops) Hh bad Ha Hm lay Hl Hfu); eauto.
      * apply padded_pos; auto.
      * apply padded_call; eauto.
Qed.
Print Assumptions bad_scalars_are_never_lost.

(** The same for every valid order of pair steps. *)
Theorem bad_scalars_are_never_lost_in_valid_orders :
  forall (A : Type) (Sc : Scalar A) (bad : A -> bool),
  (forall x y, bad x || bad y = true -> bad (sadd x y) = true) ->
  (forall x y, bad x || bad y = true -> bad (smul x y) = true) ->
  forall (lay : backend A), backend_runs lay ->
  (forall x y z, bad x || bad y || bad z = true -> bad (fused lay x y z) = true) ->
  forall h k size ops out order p arrays, hash_ok h -> (forall c, 0 < size c) ->
    valid_order size ops out order -> from_path h k order = Ok p ->
    Forall wf arrays -> shapes_ok size ops (map (@a_shape A) arrays) ->
    forall r, contract_operands_k bad lay p arrays = Ok r <-> contract_operands lay p arrays = Ok r /\ clean bad r.
Proof.
  intros A Sc bad Ha Hm lay Hl Hf h k size ops out order p arrays Hh Hpos Hv Ep Hw Hs r.
  assert (Hfu : @fused_relation A (option bool) taint_scalar (tainted bad) lay).
  { intros x x' y y' z z' Hx Hy Hz H. apply Hf. unfold tainted in *.
    destruct x' as [[]|], y' as [[]|], z' as [[]|]; cbn in H; try discriminate;
      repeat match goal with H : Some true = Some true -> ?b = true |- _ => specialize (H eq_refl); rewrite H end;
      rewrite ?orb_true_r; reflexivity. }
  split.
  - intros E. split; [|eapply contract_operands_clean; eauto].
    destruct (contract_operands_at_most bad lay p arrays) as [H|H]; rewrite E in H; [congruence|discriminate].
  - intros [E Hr]. eapply (valid_order_checked h size Hh bad Ha Hm lay Hl Hfu Hpos k ops out order p); eauto.
    + eapply valid_order_NoDup; eauto.
    + apply usables_intro; auto.
Qed.
Print Assumptions bad_scalars_are_never_lost_in_valid_orders.

(** ** Integers from [lo] to [hi] *)

Section Range.
Local Open Scope Z_scope.

(** Operands held by machine integers. *)
Definition machine (ints : list (arr Z)) : list (arr (option Z)) := map (amap Some) ints.

Definition in_interval (lo hi z : Z) : Prop := lo <= z <= hi.

(** Integers have no fused multiply-add. *)
Definition no_fused {A} {Sc : Scalar A} (lay : backend A) : Prop :=
  forall x y z, fused lay x y z = sadd (smul x y) z.

(** A scalar of a run: an operation overflowed, or it is an integer in range. *)
Definition counts (lo hi : Z) (x : option Z) (z : Z) : Prop := x = None \/ (x = Some z /\ in_interval lo hi z).

Lemma fit_cases lo hi z : (fit lo hi z = Some z /\ in_interval lo hi z) \/ (fit lo hi z = None /\ ~ in_interval lo hi z).
Proof.
  unfold fit, in_interval. destruct (Z.leb_spec lo z), (Z.leb_spec z hi); cbn [andb]; [left|right|right|right]; split; auto; lia.
Qed.

Lemma counts_relation lo hi : in_interval lo hi 0 -> in_interval lo hi 1 ->
  @scalar_relation (option Z) Z (checked_scalar lo hi) ints_scalar (counts lo hi).
Proof.
  intros H0 H1. constructor.
  - right. auto.
  - right. auto.
  - intros x a y b [->|[-> Ha]] [->|[-> Hb]]; cbn; try (left; reflexivity).
    destruct (fit_cases lo hi (a + b)) as [[-> H]|[-> _]]; [right; auto|left; auto].
  - intros x a y b [->|[-> Ha]] [->|[-> Hb]]; cbn; try (left; reflexivity).
    destruct (fit_cases lo hi (a * b)) as [[-> H]|[-> _]]; [right; auto|left; auto].
Qed.

Lemma no_fused_relation {A B} {Sa : Scalar A} {Sb : Scalar B} (R : A -> B -> Prop) lay :
  scalar_relation R -> no_fused lay -> fused_relation R lay.
Proof. intros HR H x x' y y' z z' Hx Hy Hz. rewrite H. apply HR; auto. apply HR; auto. Qed.

Lemma machine_shapes ints : map (@a_shape (option Z)) (machine ints) = map (@a_shape Z) ints.
Proof. unfold machine. rewrite map_map. reflexivity. Qed.

Lemma wf_machine ints : Forall wf ints -> Forall wf (machine ints).
Proof. apply wfs_amap. Qed.

Lemma machine_related (R : option Z -> Z -> Prop) (P : Z -> Prop) ints : Forall wf ints -> Forall (all_elements P) ints ->
  (forall z, P z -> R (Some z) z) -> Forall2 (related_arrays R) (machine ints) ints.
Proof.
  intros Hw Hp HR. unfold machine. induction Hw as [|a l Wa Hw IH]; inversion Hp; subst; cbn [map]; constructor; auto.
  split; [reflexivity|]. intros idx Hi. change (a_shape (amap Some a)) with (a_shape a) in Hi.
  apply wf_readable in Wa as [_ Wa]. destruct (Wa idx Hi) as (z & Ez). exists (Some z), z.
  split; [rewrite a_get_amap, Ez; reflexivity|]. split; auto. apply HR. eauto.
Qed.

Lemma clean_result lo hi (r : arr (option Z)) sh f (v : list nat -> Z) : clean overflowed r -> holds r sh f ->
  (forall o, in_bounds sh o = true -> counts lo hi (f o) (v o)) ->
  holds r sh (fun o => Some (v o)) /\ forall o, in_bounds sh o = true -> in_interval lo hi (v o).
Proof.
  intros Hc (H1 & H2 & H3) Hv.
  assert (G : forall o, in_bounds sh o = true -> f o = Some (v o) /\ in_interval lo hi (v o)).
  { intros o Ho. destruct (Hv o Ho) as [E|E]; auto. exfalso.
    assert (Hb : overflowed (f o) = false) by (apply (Hc o); [rewrite H1; auto|apply H3; auto]).
    rewrite E in Hb. discriminate. }
  split; [|intros o Ho; apply G; auto]. split; auto. split; auto. intros o Ho. rewrite H3 by auto.
  f_equal. apply G; auto.
Qed.

(** ** A returned result is exact *)

(** For every range of integers with zero and one, every backend and every order of the additions: if a
    call with overflow checks returns, it returns the Einstein sum over the unbounded integers, which is
    then in range. *)
Theorem checked_results_are_exact :
  forall lo hi, in_interval lo hi 0 -> in_interval lo hi 1 ->
  forall h (lay : backend (option Z)) s ints ops out size, hash_ok h ->
    @backend_runs _ (checked_scalar lo hi) lay -> @no_fused _ (checked_scalar lo hi) lay ->
    call_ok s (map (@a_shape Z) ints) ops out size -> Forall wf ints ->
    Forall (all_elements (in_interval lo hi)) ints ->
    let exact (x : res (arr (option Z))) := forall r, x = Ok r ->
      holds r (map size out) (fun o => Some (@einsum_value _ ints_scalar size ints ops out o))
      /\ forall o, in_bounds (map size out) o = true ->
           in_interval lo hi (@einsum_value _ ints_scalar size ints ops out o) in
    exact (@einsum_k _ (checked_scalar lo hi) overflowed lay h s (machine ints))
    /\ forall strategy, strategy = Naive \/ strategy = Reverse ->
       exact (@compile_and_run_k _ (checked_scalar lo hi) overflowed lay h s (machine ints) strategy).
Proof.
  intros lo hi H0 H1 h lay s ints ops out size Hh Hl Hf Hc Hw Hi exact.
  pose proof (counts_relation lo hi H0 H1) as HR.
  assert (Hz : Forall2 (related_arrays (counts lo hi)) (machine ints) ints).
  { apply (machine_related _ (in_interval lo hi)); auto. intros z Hz. right. auto. }
  assert (Hfr : @fused_relation _ _ ints_scalar (counts lo hi) lay) by (apply (no_fused_relation (Sa := checked_scalar lo hi)); auto).
  assert (G : forall x y, at_most x y -> (forall r, x = Ok r -> clean overflowed r) ->
    @outcome_related _ _ ints_scalar (counts lo hi) y size (machine ints) ints ops out -> exact x).
  { intros x y Hxy Hx Hy r E. destruct Hxy as [Exy|Exy]; [|congruence].
    destruct Hy as [[H _]|[_ (r' & f & E' & Hr & Hv)]]; [congruence|].
    assert (r' = r) as -> by congruence.
    apply (clean_result lo hi r (map size out) f); auto. }
  rewrite <- machine_shapes in Hc. split.
  - eapply (G _ (@einsum _ (checked_scalar lo hi) h lay s (machine ints))).
    + apply einsum_at_most.
    + intros r. apply einsum_k_clean.
    + apply (einsum_related (counts lo hi) HR ints_semiring h lay Hh Hl Hfr); auto. apply wf_machine; auto.
  - intros st Hst. eapply (G _ (@compile_and_run _ (checked_scalar lo hi) h lay s (machine ints) st)).
    + apply compile_and_run_at_most.
    + intros r. apply compile_and_run_k_clean.
    + apply (compile_and_run_related (counts lo hi) HR ints_semiring h lay Hh Hl Hfr); auto. apply wf_machine; auto.
Qed.
Print Assumptions checked_results_are_exact.

(** The same for [tensordot]. *)
Theorem checked_tensordot_is_exact :
  forall lo hi, in_interval lo hi 0 -> in_interval lo hi 1 ->
  forall (lay : backend (option Z)) (a b : arr Z) la ra r,
    @backend_runs _ (checked_scalar lo hi) lay -> @no_fused _ (checked_scalar lo hi) lay -> wf a -> wf b ->
    all_elements (in_interval lo hi) a -> all_elements (in_interval lo hi) b ->
    length la = length ra -> axes_ok (length (a_shape a)) la -> axes_ok (length (a_shape b)) ra ->
    axis_lengths (a_shape a) la = axis_lengths (a_shape b) ra ->
    let kept := axis_lengths (a_shape a) (free_axes (length (a_shape a)) la)
                ++ axis_lengths (a_shape b) (free_axes (length (a_shape b)) ra) in
    tensordot_k overflowed lay (amap Some a) (amap Some b) la ra = Ok r ->
    holds r kept (fun o => Some (@tensordot_value _ ints_scalar a b la ra o))
    /\ forall o, in_bounds kept o = true -> in_interval lo hi (@tensordot_value _ ints_scalar a b la ra o).
Proof.
  intros lo hi H0 H1 lay a b la ra r Hl Hf Wa Wb Ia Ib Hn Ha Hb He kept E.
  pose proof (counts_relation lo hi H0 H1) as HR.
  assert (Hz : Forall2 (related_arrays (counts lo hi)) (machine [a; b]) [a; b]).
  { apply (machine_related _ (in_interval lo hi)); auto. intros z Hz. right. auto. }
  inversion Hz as [|? ? ? ? Ra Hz']; subst. inversion Hz' as [|? ? ? ? Rb _]; subst.
  assert (Wab : Forall wf (machine [a; b])) by (apply wf_machine; auto).
  inversion Wab as [|? ? Wa' Wab']; subst. inversion Wab' as [|? ? Wb' _]; subst.
  unfold tensordot_k in E. apply settle_ok in E as (E & _ & Hc).
  destruct (tensordot_respects_relations _ _ (checked_scalar lo hi) ints_scalar (counts lo hi) HR ints_semiring
              lay (amap Some a) (amap Some b) a b la ra Hl (no_fused_relation _ _ HR Hf) Wa' Wb' Ra Rb Hn Ha Hb He)
    as (r' & f & E' & Hr & Hv).
  rewrite E in E'. injection E' as <-.
  apply (clean_result lo hi r kept f); auto.
Qed.
Print Assumptions checked_tensordot_is_exact.

(** ** When a call is certain to return *)

(** An integer held by the machine, non-negative if negative ones may not fit. *)
Definition stands_machine (lo top : Z) (x : option Z) (z : Z) : Prop := x = Some z /\ (lo <= - top \/ 0 <= z).

Lemma stands_machine_exact lo hi top : lo <= 0 -> 0 <= top <= hi ->
  @exact_to _ (checked_scalar lo hi) (stands_machine lo top) top.
Proof.
  intros Hlo Ht. constructor.
  - lia.
  - split; [reflexivity|lia].
  - split; [reflexivity|lia].
  - intros x y a b [-> Ha] [-> Hb] H. cbn.
    destruct (fit_cases lo hi (a + b)) as [[-> _]|[_ Hn]]; [split; auto; lia|unfold in_interval in Hn; lia].
  - intros x y a b [-> Ha] [-> Hb] H. cbn.
    destruct (fit_cases lo hi (a * b)) as [[-> _]|[_ Hn]].
    + split; auto. destruct Ha, Hb; auto. right. nia.
    + unfold in_interval in Hn. exfalso. apply Hn. assert (lo <= - top \/ 0 <= a * b) by (destruct Ha, Hb; auto; right; nia). lia.
Qed.

(** No label has length zero, the operands are non-negative or negative integers up to [- top] fit, and
    no Einstein sum of the absolute values, each taken to be at least one, exceeds [top]: then a call with
    overflow checks returns. *)
Theorem checked_calls_return :
  forall lo hi top, lo <= 0 -> 0 <= top <= hi ->
  forall h (lay : backend (option Z)) s ints ops out size, hash_ok h ->
    @backend_runs _ (checked_scalar lo hi) lay -> @no_fused _ (checked_scalar lo hi) lay ->
    call_ok s (map (@a_shape Z) ints) ops out size -> no_empty_label size ops -> Forall wf ints ->
    lo <= - top \/ Forall (all_elements (fun z => 0 <= z)) ints ->
    (forall o, in_bounds (map size out) o = true ->
       @einsum_value _ ints_scalar size (map (amap (fun z => Z.max 1 (Z.abs z))) ints) ops out o <= top) ->
    let returns x := exists r, x = Ok r
      /\ holds r (map size out) (fun o => Some (@einsum_value _ ints_scalar size ints ops out o)) in
    returns (@einsum_k _ (checked_scalar lo hi) overflowed lay h s (machine ints))
    /\ forall strategy, strategy = Naive \/ strategy = Reverse ->
       returns (@compile_and_run_k _ (checked_scalar lo hi) overflowed lay h s (machine ints) strategy).
Proof.
  intros lo hi top Hlo Ht h lay s ints ops out size Hh Hl Hf Hc Hn Hw Hneg Hb returns.
  assert (Hz : Forall2 (related_arrays (stands_machine lo top)) (machine ints) ints).
  { apply (machine_related _ (fun z => lo <= - top \/ 0 <= z)); auto.
    - destruct Hneg as [H|H]; [apply Forall_forall; intros a _ idx z _; auto|].
      eapply Forall_impl; [|exact H]. intros a Ha idx z Ez. right. eapply Ha; eauto.
    - intros z Hz. split; auto. }
  pose proof (wf_machine ints Hw) as Hwm. rewrite <- machine_shapes in Hc.
  destruct (einsum_exact_on_integers _ (checked_scalar lo hi) (stands_machine lo top) top
              (stands_machine_exact lo hi top Hlo Ht) h lay s (machine ints) ints ops out size Hh Hl
              (or_introl Hf) Hc (no_label_no_sum size ops out Hn) Hwm Hz) as [K1 K2].
  destruct (bad_scalars_are_never_lost _ (checked_scalar lo hi) overflowed) with (lay := lay) (h := h) (s := s)
    (arrays := machine ints) (ops := ops) (out := out) (size := size) as [L1 L2]; auto.
  { intros [x|] [y|]; cbn; auto; discriminate. }
  { intros [x|] [y|]; cbn; auto; discriminate. }
  { intros x y z H. rewrite Hf. destruct x, y, z; cbn in *; try discriminate; auto.
    - match goal with |- overflowed (match ?t with _ => _ end) = _ => destruct t; reflexivity end. }
  assert (G : forall r f, holds r (map size out) f ->
    (forall o, in_bounds (map size out) o = true ->
       @einsum_value _ ints_scalar size (map (amap (fun z => Z.max 1 (Z.abs z))) ints) ops out o <= top ->
       stands_machine lo top (f o) (@einsum_value _ ints_scalar size ints ops out o)) ->
    clean overflowed r /\ holds r (map size out) (fun o => Some (@einsum_value _ ints_scalar size ints ops out o))).
  { intros r f (H1 & H2 & H3) Hv. split.
    - intros idx x Hi Ex. rewrite H1 in Hi. rewrite H3 in Ex by auto. injection Ex as <-.
      destruct (Hv idx Hi (Hb idx Hi)) as [-> _]. reflexivity.
    - split; auto. split; auto. intros o Ho. rewrite H3 by auto. f_equal. apply Hv; auto. }
  split.
  - destruct K1 as [[_ K]|[_ (r & f & E & Hr & Hv)]]; [exfalso; eapply no_label_not_blocked; eauto|].
    destruct (G r f Hr Hv) as [Hcl Hh']. exists r. split; auto. apply L1. auto.
  - intros st Hst. destruct (K2 st Hst) as [[_ K]|[_ (r & f & E & Hr & Hv)]]; [exfalso; eapply no_label_not_blocked; eauto|].
    destruct (G r f Hr Hv) as [Hcl Hh']. exists r. split; auto. apply (L2 st Hst). auto.
Qed.
Print Assumptions checked_calls_return.

(** Integers that are at least one: a call returns exactly if the elements of the result fit. *)
Theorem checked_positive_integers :
  forall lo hi, lo <= 0 -> 1 <= hi ->
  forall h (lay : backend (option Z)) s ints ops out size, hash_ok h ->
    @backend_runs _ (checked_scalar lo hi) lay -> @no_fused _ (checked_scalar lo hi) lay ->
    call_ok s (map (@a_shape Z) ints) ops out size -> no_empty_label size ops -> Forall wf ints ->
    Forall (all_elements (fun z => 1 <= z <= hi)) ints ->
    let fits := forall o, in_bounds (map size out) o = true ->
      @einsum_value _ ints_scalar size ints ops out o <= hi in
    ((exists r, @einsum_k _ (checked_scalar lo hi) overflowed lay h s (machine ints) = Ok r) <-> fits)
    /\ forall strategy, strategy = Naive \/ strategy = Reverse ->
       ((exists r, @compile_and_run_k _ (checked_scalar lo hi) overflowed lay h s (machine ints) strategy = Ok r) <-> fits).
Proof.
  intros lo hi Hlo Hhi h lay s ints ops out size Hh Hl Hf Hc Hn Hw Hp fits.
  assert (Hin : Forall (all_elements (in_interval lo hi)) ints).
  { eapply Forall_impl; [|exact Hp]. intros a Ha idx z Ez. specialize (Ha idx z Ez). cbv beta in Ha. unfold in_interval. lia. }
  assert (Hnn : Forall (all_elements (fun z => 0 <= z)) ints).
  { eapply Forall_impl; [|exact Hp]. intros a Ha idx z Ez. specialize (Ha idx z Ez). cbv beta in Ha. lia. }
  assert (Hsame : forall o, in_bounds (map size out) o = true ->
    @einsum_value _ ints_scalar size (map (amap (fun z => Z.max 1 (Z.abs z))) ints) ops out o
    = @einsum_value _ ints_scalar size ints ops out o).
  { intros o Ho. symmetry. destruct Hc as (_ & [Hnd Hincl] & Hs).
    pose proof (in_bounds_length _ _ Ho) as Hlen. rewrite map_length in Hlen.
    unfold einsum_value. apply nested_sum_ext. intros e Heq He.
    assert (Hr : forall c, In c (concat ops) -> (e c < size c)%nat).
    { intros c Hcc. destruct (in_dec N.eq_dec c out) as [Hi|Hi].
      - rewrite Heq by (rewrite summed_labels_In; tauto).
        assert (Hb : in_range size out (bind out o)) by (apply in_bounds_map; rewrite map_bind; auto). apply Hb; auto.
      - apply He. apply summed_labels_In. auto. }
    unfold term, product. f_equal. clear -Hs Hp Hw Hr. revert ops Hs Hr.
    induction Hw as [|a l Wa Hw IH]; intros [|ix ops] Hs Hr; inversion Hs; subst; auto.
    inversion Hp as [|? ? Ha Hp']; subst. cbn [map combine fst snd]. f_equal.
    - apply wf_readable in Wa as [_ Wa]. destruct (Wa (map e ix)) as (z & Ez).
      { match goal with H : _ = map size ix |- _ => rewrite H end. apply in_bounds_map. intros c Hc. apply Hr.
        simpl. apply in_or_app; auto. }
      unfold elem. rewrite a_get_amap, Ez. cbn. specialize (Ha _ _ Ez). cbv beta in Ha. lia.
    - apply IH; auto. intros c Hc. apply Hr. simpl. apply in_or_app; auto. }
  destruct (checked_results_are_exact lo hi ltac:(split; lia) ltac:(split; lia) h lay s ints ops out size Hh Hl Hf Hc Hw Hin)
    as [E1 E2].
  assert (Hret : fits -> forall o, in_bounds (map size out) o = true ->
       @einsum_value _ ints_scalar size (map (amap (fun z => Z.max 1 (Z.abs z))) ints) ops out o <= hi).
  { intros H o Ho. rewrite Hsame by auto. auto. }
  split; [split|intros st Hst; split].
  - intros (r & E) o Ho. destruct (E1 r E) as [_ H]. apply H; auto.
  - intros H. destruct (checked_calls_return lo hi hi Hlo ltac:(lia) h lay s ints ops out size Hh Hl Hf Hc Hn Hw
                          (or_intror Hnn) (Hret H)) as [(r & E & _) _]. eauto.
  - intros (r & E) o Ho. destruct (E2 st Hst r E) as [_ H]. apply H; auto.
  - intros H. destruct (checked_calls_return lo hi hi Hlo ltac:(lia) h lay s ints ops out size Hh Hl Hf Hc Hn Hw
                          (or_intror Hnn) (Hret H)) as [_ K]. destruct (K st Hst) as (r & E & _). eauto.
Qed.
Print Assumptions checked_positive_integers.

End Range.

(** ** Machine integers *)

(** [i8] to [i128] and [u8] to [u128]: what the two theorems say for each width. *)
Theorem checked_signed_and_unsigned :
  forall w, (1 < w)%Z ->
  forall h (lay : backend (option Z)) s ints ops out size, hash_ok h ->
    call_ok s (map (@a_shape Z) ints) ops out size -> no_empty_label size ops -> Forall wf ints ->
    let bounded top := forall o, in_bounds (map size out) o = true ->
      (@einsum_value _ ints_scalar size (map (amap (fun z => Z.max 1 (Z.abs z))) ints) ops out o <= top)%Z in
    let exact (x : res (arr (option Z))) := exists r, x = Ok r
      /\ holds r (map size out) (fun o => Some (@einsum_value _ ints_scalar size ints ops out o)) in
    (@backend_runs _ (signed_checked w) lay -> @no_fused _ (signed_checked w) lay ->
       bounded (2 ^ (w - 1) - 1)%Z -> exact (@einsum_k _ (signed_checked w) overflowed lay h s (machine ints)))
    /\ (@backend_runs _ (unsigned_checked w) lay -> @no_fused _ (unsigned_checked w) lay ->
       Forall (all_elements (fun z => (0 <= z)%Z)) ints ->
       bounded (2 ^ w - 1)%Z -> exact (@einsum_k _ (unsigned_checked w) overflowed lay h s (machine ints))).
Proof.
  intros w Hw h lay s ints ops out size Hh Hc Hn Hwf bounded exact.
  assert (P1 : (2 <= 2 ^ (w - 1))%Z) by (change 2%Z with (2 ^ 1)%Z at 1; apply Z.pow_le_mono_r; lia).
  assert (P2 : (2 <= 2 ^ w)%Z) by (change 2%Z with (2 ^ 1)%Z at 1; apply Z.pow_le_mono_r; lia).
  split.
  - intros Hl Hf Hb. destruct (checked_calls_return (- 2 ^ (w - 1)) (2 ^ (w - 1) - 1) (2 ^ (w - 1) - 1) ltac:(lia) ltac:(lia)
      h lay s ints ops out size Hh Hl Hf Hc Hn Hwf ltac:(left; lia) Hb) as [K _]. exact K.
  - intros Hl Hf Hp Hb. destruct (checked_calls_return 0 (2 ^ w - 1) (2 ^ w - 1) ltac:(lia) ltac:(lia)
      h lay s ints ops out size Hh Hl Hf Hc Hn Hwf (or_intror Hp) Hb) as [K _]. exact K.
Qed.
Print Assumptions checked_signed_and_unsigned.

(** ** Cases *)

Definition i8_backend : backend (option Z) := @plain_backend _ (signed_checked 8).
Lemma i8_backend_ok : @backend_runs _ (signed_checked 8) i8_backend /\ @no_fused _ (signed_checked 8) i8_backend.
Proof. split; [apply plain_backend_ok|intros x y z; reflexivity]. Qed.

Lemma zarr_elements (P : Z -> Prop) sh l : Forall P l -> all_elements P (zarr sh l).
Proof.
  intros H idx z Ez. unfold a_get in Ez. destruct (in_bounds _ _); [|discriminate]. rewrite Forall_forall in H. apply H.
  destruct (znth _ _) as [w|] eqn:En; [|discriminate]. injection Ez as <-.
  unfold znth in En. destruct (_ <? _)%Z; [discriminate|]. eapply nth_error_In. exact En.
Qed.

(** A product of two matrices over [i8] that fits, and one that does not. *)
Example checked_case :
  let a := zarr [2; 2] [3; 4; 1; 2]%Z in
  let b := zarr [2; 2] [5; 7; 1; 2]%Z in
  let c := zarr [2; 2] [5; 7; 30; 2]%Z in
  let size := size_fn (combine (chars "ijk") [2; 2; 2]) in
  let ops := [chars "ij"; chars "jk"] in
  @backend_runs _ (signed_checked 8) i8_backend /\ @no_fused _ (signed_checked 8) i8_backend
  /\ call_ok (chars "ij,jk->ik") (map (@a_shape Z) [a; b]) ops (chars "ik") size
  /\ no_empty_label size ops /\ Forall wf [a; b; c]
  /\ Forall (all_elements (fun z => (1 <= z <= 127)%Z)) [a; b; c]
  /\ (forall o, In o (indices [2; 2]) -> (@einsum_value _ ints_scalar size [a; b] ops (chars "ik") o <= 127)%Z)
  /\ (do r <- @einsum_k _ (signed_checked 8) overflowed i8_backend id_hash (chars "ij,jk->ik") (machine [a; b]); a_iter r)
     = Ok (map Some [19; 29; 7; 11]%Z)
  /\ @einsum_k _ (signed_checked 8) overflowed i8_backend id_hash (chars "ij,jk->ik") (machine [a; c]) = Panic.
Proof.
  cbv zeta. split; [apply i8_backend_ok|]. split; [apply i8_backend_ok|].
  split; [apply check_call_ok; check_call_tac|]. split; [|split; [|split; [|split; [|split]]]].
  - intros c Hc. vm_compute in Hc. repeat (destruct Hc as [<-|Hc]; [vm_compute; lia|]). contradiction.
  - apply wfs_b_ok. reflexivity.
  - repeat (constructor; [apply zarr_elements; repeat (constructor; [lia|]); constructor|]). constructor.
  - intros o Ho. vm_compute in Ho. repeat (destruct Ho as [<-|Ho]; [vm_compute; discriminate|]). contradiction.
  - vm_compute. reflexivity.
  - vm_compute. reflexivity.
Qed.

(** It is not enough that the elements of the result fit: an intermediate result may not. *)
Theorem checked_calls_return_refuted :
  ~ (forall h (lay : backend (option Z)) s ints ops out size, hash_ok h ->
       @backend_runs _ (signed_checked 8) lay -> @no_fused _ (signed_checked 8) lay ->
       call_ok s (map (@a_shape Z) ints) ops out size -> no_empty_label size ops -> Forall wf ints ->
       Forall (all_elements (in_interval (-128) 127)) ints ->
       (forall o, in_bounds (map size out) o = true ->
          in_interval (-128) 127 (@einsum_value _ ints_scalar size ints ops out o)) ->
       exists r, @einsum_k _ (signed_checked 8) overflowed lay h s (machine ints) = Ok r).
Proof.
  intros H. specialize (H id_hash i8_backend (chars "i,i,i->i")
    [zarr [1] [100]%Z; zarr [1] [100]%Z; zarr [1] [0]%Z] [chars "i"; chars "i"; chars "i"] (chars "i")
    (size_fn (combine (chars "i") [1])) id_hash_ok (proj1 i8_backend_ok) (proj2 i8_backend_ok)).
  destruct H as (r & E).
  - apply check_call_ok; check_call_tac.
  - intros c Hc. vm_compute in Hc. repeat (destruct Hc as [<-|Hc]; [vm_compute; lia|]). contradiction.
  - apply wfs_b_ok. reflexivity.
  - unfold in_interval. repeat (constructor; [apply zarr_elements; repeat (constructor; [lia|]); constructor|]). constructor.
  - intros o Ho. apply indices_complete in Ho. vm_compute in Ho.
    repeat (destruct Ho as [<-|Ho]; [unfold in_interval; vm_compute; split; discriminate|]). contradiction.
  - vm_compute in E. discriminate.
Qed.
Print Assumptions checked_calls_return_refuted.

(** Nor do the two strategies overflow together. *)
Theorem strategies_overflow_alike_refuted :
  ~ (forall h (lay : backend (option Z)) s ints ops out size, hash_ok h ->
       @backend_runs _ (signed_checked 8) lay -> @no_fused _ (signed_checked 8) lay ->
       call_ok s (map (@a_shape Z) ints) ops out size -> no_empty_label size ops -> Forall wf ints ->
       Forall (all_elements (in_interval (-128) 127)) ints ->
       (exists r, @compile_and_run_k _ (signed_checked 8) overflowed lay h s (machine ints) Naive = Ok r) ->
       exists r, @compile_and_run_k _ (signed_checked 8) overflowed lay h s (machine ints) Reverse = Ok r).
Proof.
  intros H. specialize (H id_hash i8_backend (chars "i,i,i->i")
    [zarr [1] [0]%Z; zarr [1] [100]%Z; zarr [1] [100]%Z] [chars "i"; chars "i"; chars "i"] (chars "i")
    (size_fn (combine (chars "i") [1])) id_hash_ok (proj1 i8_backend_ok) (proj2 i8_backend_ok)).
  destruct H as (r & E).
  - apply check_call_ok; check_call_tac.
  - intros c Hc. vm_compute in Hc. repeat (destruct Hc as [<-|Hc]; [vm_compute; lia|]). contradiction.
  - apply wfs_b_ok. reflexivity.
  - unfold in_interval. repeat (constructor; [apply zarr_elements; repeat (constructor; [lia|]); constructor|]). constructor.
  - eexists. vm_compute. reflexivity.
  - vm_compute in E. discriminate.
Qed.
Print Assumptions strategies_overflow_alike_refuted.

(** With a label of length zero a bad intermediate result may not reach the result, which is empty. *)
Theorem bad_scalars_are_never_lost_refuted :
  ~ (forall h (lay : backend (option Z)) s ints ops out size, hash_ok h ->
       @backend_runs _ (signed_checked 8) lay -> @no_fused _ (signed_checked 8) lay ->
       call_ok s (map (@a_shape Z) ints) ops out size -> Forall wf ints ->
       forall r, @einsum_k _ (signed_checked 8) overflowed lay h s (machine ints) = Ok r
         <-> @einsum _ (signed_checked 8) h lay s (machine ints) = Ok r /\ clean overflowed r).
Proof.
  intros H. destruct (@einsum _ (signed_checked 8) id_hash i8_backend (chars "i,i,j->ij")
    (machine [zarr [1] [100]%Z; zarr [1] [100]%Z; zarr [0] []])) as [r| |] eqn:E; try (vm_compute in E; discriminate).
  specialize (H id_hash i8_backend (chars "i,i,j->ij")
    [zarr [1] [100]%Z; zarr [1] [100]%Z; zarr [0] []] [chars "i"; chars "i"; chars "j"] (chars "ij")
    (size_fn (combine (chars "ij") [1; 0])) id_hash_ok (proj1 i8_backend_ok) (proj2 i8_backend_ok)).
  specialize (H ltac:(apply check_call_ok; check_call_tac) ltac:(apply wfs_b_ok; reflexivity) r).
  destruct H as [_ H].
  assert (K : @einsum_k _ (signed_checked 8) overflowed i8_backend id_hash (chars "i,i,j->ij")
    (machine [zarr [1] [100]%Z; zarr [1] [100]%Z; zarr [0] []]) = Ok r).
  { apply H. split; [exact E|]. vm_compute in E. injection E as <-.
    intros idx x Hi. apply indices_complete in Hi. contradiction. }
  vm_compute in K. discriminate.
Qed.
Print Assumptions bad_scalars_are_never_lost_refuted.

(** [tensordot] with checks. *)
Example checked_tensordot_case :
  let a := zarr [2; 2] [3; 4; -1; 2]%Z in
  let b := zarr [2] [20; 7]%Z in
  let c := zarr [2] [30; 10]%Z in
  (do r <- tensordot_k overflowed i8_backend (amap Some a) (amap Some b) [1] [0]; a_iter r) = Ok [Some 88; Some (-6)]%Z
  /\ tensordot_k overflowed i8_backend (amap Some a) (amap Some c) [1] [0] = Panic.
Proof. vm_compute. auto. Qed.
