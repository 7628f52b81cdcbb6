(** [tensordot] over scalars related only away from zero, and over scalars that overflow. *)
From Verif Require Import Base BaseFacts NDArray Validation Api Spec SumFacts ArrayFacts TensordotFacts TensordotMain EinsumMain
  RelationFacts RoundFacts RangeFacts.
From Coq Require Import Lia QArith Qcanon Qcabs.
Local Open Scope list_scope.
Local Open Scope nat_scope.

Section Weak.
Context {A B : Type} {Sa : Scalar A} {Sb : Scalar B}.
Variables (R : A -> B -> Prop) (Z : A -> Prop).
Hypothesis HR : weak_relation R Z.
Hypothesis SR : near_semiring B.
Variable lay : backend A.
Hypothesis Hl : backend_runs lay.
Hypothesis Hfu : weak_fused R Z lay.

Lemma elem_rel_in (a : arr A) (a' : arr B) idx : related_arrays R a a' -> in_bounds (a_shape a) idx = true ->
  R (elem a idx) (elem a' idx).
Proof. intros [Es Hr] E. destruct (Hr idx E) as (x & y & E1 & E2 & Hxy). unfold elem. rewrite E1, E2. auto. Qed.

Lemma tensordot_related_weak (a b : arr A) (a' b' : arr B) la ra : wf a -> wf b ->
  related_arrays R a a' -> related_arrays R b b' ->
  length la = length ra -> axes_ok (length (a_shape a)) la -> axes_ok (length (a_shape b)) ra ->
  prod (axis_lengths (a_shape a) la) = prod (axis_lengths (a_shape b) ra) ->
  exists r w, tensordot lay a b la ra = Ok r
    /\ holds r (axis_lengths (a_shape a) (free_axes (length (a_shape a)) la)
                ++ axis_lengths (a_shape b) (free_axes (length (a_shape b)) ra)) w
    /\ forall o, in_bounds (axis_lengths (a_shape a) (free_axes (length (a_shape a)) la)
                ++ axis_lengths (a_shape b) (free_axes (length (a_shape b)) ra)) o = true ->
         if Nat.eqb (prod (axis_lengths (a_shape a) la)) 0 then Z (w o) else R (w o) (paired_value a' b' la ra o).
Proof.
  intros Wa Wb Ra Rb Hn Ha Hb He.
  destruct (tensordot_on_all_inputs lay Hl a b la ra Wa Wb) as [(_ & _ & _ & _ & r & w & E & H & Hd)|[H _]].
  2:{ exfalso. apply H. auto. }
  exists r, w. split; auto. split; auto. intros o Ho. specialize (Hd o Ho). unfold paired_terms in Hd.
  destruct (Nat.eqb_spec (prod (axis_lengths (a_shape a) la)) 0) as [E0|E0].
  - rewrite E0 in Hd. cbn [seq map] in Hd.
    apply (dots_to_weak R Z HR SR lay Hfu [] (w o) Hd []); auto.
  - unfold paired_value. rewrite <- (proj1 Ra), <- (proj1 Rb).
    eapply (dots_to_weak_n R Z HR SR lay Hfu); [right; lia|exact Hd|].
    intros i Hi. apply in_bounds_app_inv in Ho as (x & y & -> & Bx & By).
    assert (Lx : length x = length (free_axes (length (a_shape a)) la)).
    { apply in_bounds_length in Bx. unfold axis_lengths in Bx. rewrite map_length in Bx. auto. }
    rewrite <- Lx, firstn_exact, skipn_exact. split; apply elem_rel_in; auto; apply place_in_bounds.
    + apply free_axes_perm; auto.
    + unfold axis_lengths. rewrite map_app. apply in_bounds_app; auto. apply unflat_in_bounds. auto.
    + eapply Permutation_trans; [apply Permutation_app_comm|apply free_axes_perm; auto].
    + unfold axis_lengths. rewrite map_app. apply in_bounds_app; auto. apply unflat_in_bounds.
      change (i < prod (axis_lengths (a_shape b) ra)). lia.
Qed.
End Weak.

(** ** Overflow *)

Section Overflow.
Local Open Scope Qc_scope.
Context {F : Type} {Sf : Scalar F}.
Variables (v : F -> option Qc) (eps eta big : Qc).
Hypothesis HF : rounding v eps eta.
Hypothesis HB : overflow_from v eps eta big.

Lemma kept_represents_dot (a b : arr F) la ra o x :
  length la = length ra -> axes_ok (length (a_shape a)) la -> axes_ok (length (a_shape b)) ra ->
  axis_lengths (a_shape a) la = axis_lengths (a_shape b) ra ->
  in_bounds (axis_lengths (a_shape a) (free_axes (length (a_shape a)) la)
             ++ axis_lengths (a_shape b) (free_axes (length (a_shape b)) ra)) o = true ->
  kept_below v eps eta big x (@paired_value _ tracked_scalar (amap (lift v) a) (amap (lift v) b) la ra o) ->
  grow eps (2 + prod (axis_lengths (a_shape a) la))
  * (grow eta (2 + prod (axis_lengths (a_shape a) la))
     * tensordot_value (amap (padded_of v) a) (amap (padded_of v) b) la ra o) < big ->
  v x <> None.
Proof.
  intros Hl Ha Hb He Ho (y & m & t & d & c & E & B & H) Hlt.
  pose proof (lifted_paired v a b la ra o) as Hv. pose proof (lifted_paired_bounded v a b la ra o) as Hbd.
  rewrite E in *. cbn [fst snd] in Hv. injection Hv as Hy Hm Hbb. destruct Hbd as [H1 H2]. cbn [fst snd] in H1, H2.
  destruct H as (q & Eq & _); [|congruence].
  rewrite <- (paired_value_sum Qc_semiring) in Hlt by auto.
  eapply Qcle_lt_trans; [|exact Hlt]. rewrite <- Hbb.
  apply (top_mono v eps eta HF (d + S c) (2 + prod (axis_lengths (a_shape a) la)));
    [lia| |apply Qcle_refl].
  apply Qcle_trans with 1; auto; discriminate.
Qed.
End Overflow.

Section Exact.
Lemma with_bound_paired (a b : arr Z) la ra o :
  @paired_value _ pair_scalar (amap with_bound a) (amap with_bound b) la ra o
  = (@paired_value _ ints_scalar a b la ra o,
     @paired_value _ ints_scalar (amap (fun z => Z.max 1 (Z.abs z)) a) (amap (fun z => Z.max 1 (Z.abs z)) b) la ra o).
Proof.
  assert (Ee : forall (g : Z * Z -> Z) (k : Z -> Z) (x : arr Z) idx, (forall z, g (with_bound z) = k z) -> g (0, 0)%Z = 0%Z ->
    g (@elem _ pair_scalar (amap with_bound x) idx) = @elem _ ints_scalar (amap k x) idx).
  { intros g k x idx Hg H0. unfold elem. rewrite !a_get_amap. destruct (a_get x idx); cbn [rmap]; auto. }
  rewrite (surjective_pairing (@paired_value _ pair_scalar _ _ la ra o)). f_equal.
  - apply (@paired_value_rel _ _ pair_scalar ints_scalar (fun p z => fst p = z)); auto.
    + constructor; try reflexivity; intros; subst; reflexivity.
    + intros idx. unfold elem. rewrite a_get_amap. destruct (a_get a idx); reflexivity.
    + intros idx. unfold elem. rewrite a_get_amap. destruct (a_get b idx); reflexivity.
  - apply (@paired_value_rel _ _ pair_scalar ints_scalar (fun p z => snd p = z)); auto.
    constructor; try reflexivity; intros; subst; reflexivity.
Qed.
End Exact.
