(** Addresses of the diagonal view. *)
From Verif Require Import Base BaseFacts NDArray Validation Singleton Spec SumFacts ArrayFacts DiagFacts Overflow.
From Coq Require Import Lia.

Local Open Scope Z_scope.

Section Inj.
Variable size : char -> nat.

Definition digits (w : char -> Z) (T : list axis) : Prop :=
  forall x, In x T -> 0 <= w (lab x) < dim size x.

Lemma chain_multiple w T : forall c, chain size c T -> digits w T -> exists q, wtotal w T = c * q.
Proof.
  unfold wtotal, zsum. induction T as [|x T IH]; intros c Hch Hd; cbn [map fold_right].
  - exists 0. lia.
  - destruct Hch as [Hx Hch]. destruct (IH _ Hch) as (q & Eq); [intros y Hy; apply Hd; simpl; auto|].
    rewrite Eq. specialize (Hd x (or_introl eq_refl)). destruct Hx as [Hx|Hx].
    + exists q. rewrite Hx in *. replace (w (lab x)) with 0 by lia. lia.
    + rewrite Hx. exists (w (lab x) + dim size x * q). lia.
Qed.

(** Distinct digits give distinct addresses. *)
Lemma chain_injective w w' T : forall c, 0 < c -> chain size c T -> digits w T -> digits w' T ->
  wtotal w T = wtotal w' T -> forall x, In x T -> w (lab x) = w' (lab x).
Proof.
  induction T as [|y T IH]; intros c Hc Hch Hd Hd' E x Hx; [destruct Hx|].
  destruct Hch as [Hy Hch].
  assert (D := Hd y (or_introl eq_refl)). assert (D' := Hd' y (or_introl eq_refl)).
  assert (Dt : digits w T) by (intros z Hz; apply Hd; simpl; auto).
  assert (Dt' : digits w' T) by (intros z Hz; apply Hd'; simpl; auto).
  assert (E1 : w (lab y) * str y + wtotal w T = w' (lab y) * str y + wtotal w' T) by exact E.
  destruct (chain_multiple w T _ Hch Dt) as (q & Eq).
  destruct (chain_multiple w' T _ Hch Dt') as (q' & Eq').
  assert (Ey : w (lab y) = w' (lab y)).
  { destruct Hy as [Hy|Hy]; [lia|]. rewrite Hy, Eq, Eq' in E1.
    assert (E2 : w (lab y) + dim size y * q = w' (lab y) + dim size y * q').
    { apply (Z.mul_reg_l _ _ c); [lia|]. lia. }
    assert (q = q') by nia. subst. lia. }
  assert (Et : wtotal w T = wtotal w' T) by (rewrite Ey in E1; lia).
  destruct Hx as [->|Hx]; auto.
  apply (IH (c * dim size y)); auto. nia.
Qed.

End Inj.

Section View.
Context {A : Type}.
Variables (size : char -> nat) (t : arr A) (this L : list char) (mapping : list nat).
Hypothesis Hwf : wf t.
Hypothesis Hsh : a_shape t = map size this.
Hypothesis Hne : forall c, In c this -> size c <> 0%nat.
Hypothesis Hct : is_contiguous t = true.
Hypothesis Hpos : Forall (fun s => 0 < s) (a_strides t).
Hypothesis HL : NoDup L.
Hypothesis HLthis : forall c, In c L <-> In c this.
Hypothesis HF : Forall2 (fun c p => position c L = Some p) this mapping.

Lemma strides_length : length (a_strides t) = length this.
Proof. destruct Hwf as [H _]. rewrite H, Hsh. apply map_length. Qed.

(** The view the code builds, field by field. *)
Lemma view_fields (v : arr A) : diagonalization_view (mkDiag mapping (map size L)) t = Ok v ->
  v = mkArr (firstn (prod (a_shape t)) (skipn (Z.to_nat (a_off t)) (a_data t))) 0 (map size L)
            (map (label_stride (combine this (a_strides t))) L).
Proof.
  unfold diagonalization_view. cbn [input_to_output_mapping diag_output_shape]. rewrite map_map.
  rewrite (add_strides_ok mapping L HL this (a_strides t) 0 (fun _ => 0) mapping); auto.
  2: symmetry; apply strides_length.
  cbn [rbind]. unfold as_slice_memory_order. rewrite Hct. cbn [unwrap rbind].
  unfold view_from_shape. rewrite is_empty_labels by (intros c Hc; apply Hne, HLthis; auto).
  destruct (Z.leb _ _); [discriminate|]. destruct (dim_stride_overlap _ _); [discriminate|].
  intros E. injection E as <-. f_equal.
Qed.

(** Reading the view at some label values reads the operand at those values. *)
Lemma view_address e :
  dot_off (map e L) (map (label_stride (combine this (a_strides t))) L)
  = dot_off (map e this) (a_strides t).
Proof.
  rewrite dot_off_labels. rewrite dot_off_wtotal by (symmetry; apply strides_length).
  apply wtotal_labels; auto.
  intros x Hx. apply HLthis. rewrite <- (labels_combine this (a_strides t)) by (symmetry; apply strides_length).
  apply in_map; auto.
Qed.

Lemma address_facts :
  0 <= a_off t
  /\ a_off t + Z.of_nat (prod (a_shape t)) <= Z.of_nat (length (a_data t))
  /\ (forall e, in_range size this e ->
       0 <= dot_off (map e this) (a_strides t) < Z.of_nat (prod (a_shape t)))
  /\ (forall e e', in_range size this e -> in_range size this e' ->
       dot_off (map e this) (a_strides t) = dot_off (map e' this) (a_strides t) ->
       forall c, In c this -> e c = e' c).
Proof.
  pose proof strides_length as Hl.
  destruct (is_contiguous_chain size t this) as (T & HT & Hch); auto.
  set (T0 := combine this (a_strides t)) in *.
  assert (Hlab0 : map lab T0 = this) by (apply labels_combine; auto).
  assert (Hp0 : positive T0).
  { apply Forall_forall. intros [c s] Hx. apply in_combine_r in Hx.
    rewrite Forall_forall in Hpos. apply Hpos. auto. }
  assert (Hlab : forall x, In x T0 -> In (lab x) this).
  { intros x Hx. rewrite <- Hlab0. apply in_map; auto. }
  assert (Htot : total size T0 = Z.of_nat (prod (map size this)) - 1).
  { rewrite (total_perm size T0 T) by (apply Permutation_sym; auto).
    pose proof (chain_total _ _ _ Hch).
    rewrite (volume_perm _ T T0) in H by auto.
    unfold T0 in H at 1. rewrite volume_prod in H by auto. lia. }
  assert (Hr : forall e, in_range size this e ->
    0 <= a_off t + dot_off (map e this) (a_strides t) < Z.of_nat (length (a_data t))).
  { intros e He. apply Hwf. rewrite Hsh. apply in_bounds_map; auto. }
  rewrite Hsh.
  split.
  { specialize (Hr (fun _ => 0%nat)). rewrite dot_off_wtotal in Hr by auto.
    replace (wtotal _ _) with 0 in Hr.
    - assert (H : in_range size this (fun _ => 0%nat)) by (intros c Hc; apply Hne in Hc; lia).
      specialize (Hr H). lia.
    - unfold wtotal. generalize (combine this (a_strides t)) as TT. clear.
      induction TT; simpl; auto. }
  split.
  { specialize (Hr (fun c => size c - 1)%nat). rewrite dot_off_wtotal in Hr by auto. fold T0 in Hr.
    replace (wtotal _ T0) with (total size T0) in Hr.
    - assert (in_range size this (fun c => size c - 1)%nat) by (intros c Hc; apply Hne in Hc; lia).
      specialize (Hr H). lia.
    - unfold total, wtotal. f_equal. apply map_ext_in. intros x Hx. unfold reach, dim.
      assert (size (lab x) <> 0)%nat; [|f_equal; lia]. auto. }
  split.
  - intros e He. rewrite dot_off_wtotal by auto. fold T0.
    pose proof (wtotal_bounds size (fun c => Z.of_nat (e c)) T0 Hp0).
    assert (forall x, In x T0 -> 0 <= Z.of_nat (e (lab x)) <= dim size x - 1).
    { intros x Hx. specialize (He _ (Hlab x Hx)). unfold dim. lia. }
    specialize (H H0). lia.
  - intros e e' He He' E c Hc. rewrite !dot_off_wtotal in E by auto. fold T0 in E.
    rewrite <- !(wtotal_perm _ T T0 HT) in E.
    assert (HlT : forall x, In x T -> In (lab x) this) by (intros x Hx; apply Hlab; eapply Permutation_in; eauto).
    assert (Hc' : In c (map lab T)).
    { eapply Permutation_in; [apply Permutation_map, Permutation_sym, HT|]. rewrite Hlab0. auto. }
    apply in_map_iff in Hc' as (x & <- & Hx).
    assert (Z.of_nat (e (lab x)) = Z.of_nat (e' (lab x))); [|lia].
    refine (chain_injective size (fun c => Z.of_nat (e c)) (fun c => Z.of_nat (e' c)) T 1 _ Hch _ _ E x Hx).
    + lia.
    + intros y Hy. specialize (He _ (HlT y Hy)). unfold dim. lia.
    + intros y Hy. specialize (He' _ (HlT y Hy)). unfold dim. lia.
Qed.

(** A label whose axes have at least two elements has a small stride in the view. *)
Lemma stride_bound c : In c this -> (2 <= size c)%nat ->
  label_stride (combine this (a_strides t)) c < Z.of_nat (prod (a_shape t)).
Proof.
  intros Hc Hs. destruct address_facts as (_ & _ & Hb & _).
  specialize (Hb (fun d => if N.eqb d c then 1%nat else 0%nat)).
  assert (Hr : in_range size this (fun d => if N.eqb d c then 1%nat else 0%nat)).
  { intros d Hd. destruct (N.eqb_spec d c); [subst; lia|]. apply Hne in Hd. lia. }
  specialize (Hb Hr). replace (label_stride (combine this (a_strides t)) c)
    with (dot_off (map (fun d => if N.eqb d c then 1%nat else 0%nat) this) (a_strides t)); [exact (proj2 Hb)|].
  rewrite dot_off_wtotal by (symmetry; apply strides_length).
  generalize (combine this (a_strides t)) as T. clear.
  induction T as [|x T IH]; auto. rewrite label_stride_step.
  unfold wtotal, zsum in *. cbn [map fold_right]. rewrite IH.
  destruct (N.eqb (lab x) c); lia.
Qed.

End View.

(** The running sums of strides stay below their final values. *)
Lemma add_strides_checked M mapping L : NoDup L ->
  forall this strides k g m',
    length this = length strides ->
    Forall (fun s => 0 < s) strides ->
    Forall2 (fun c p => position c L = Some p) this m' ->
    (forall j, (j < length m')%nat -> nth_error mapping (k + j) = nth_error m' j) ->
    (forall c, In c this -> g c + label_stride (combine this strides) c <= M) ->
    foldM (add_stride_c M mapping) (combine (seq k (length strides)) strides) (map g L)
    = foldM (add_stride mapping) (combine (seq k (length strides)) strides) (map g L).
Proof.
  intros HL. induction this as [|c this IH]; intros [|s strides] k g m' Hl Hs HF Hm HM;
    simpl in Hl; try discriminate; auto.
  inversion Hs as [|? ? Hs1 Hs2]; subst. inversion HF as [|? p ? m1 Hp HF']; subst.
  cbn [length seq combine foldM]. unfold add_stride at 1, add_stride_c at 1.
  rewrite rassert_true by (apply Z.ltb_lt; auto). cbn [rbind].
  assert (E0 := Hm 0%nat). rewrite Nat.add_0_r in E0. simpl in E0.
  rewrite (index_some mapping k p) by (apply E0; lia). cbn [rbind].
  pose proof (position_nth_error _ _ _ Hp) as Hnth.
  rewrite (index_some (map g L) p (g c)) by (rewrite nth_error_map, Hnth; auto). cbn [rbind].
  assert (Hpos : positive (combine this strides)).
  { apply Forall_forall. intros [d z] Hx. apply in_combine_r in Hx. rewrite Forall_forall in Hs2.
    apply Hs2; auto. }
  rewrite rassert_true.
  2:{ apply Z.leb_le. pose proof (label_stride_nonneg _ c Hpos).
      specialize (HM c (or_introl eq_refl)). cbn [combine] in HM. rewrite label_stride_cons in HM. lia. }
  cbn [rbind]. rewrite (set_nth_map g L c p) by auto.
  apply (IH strides (S k) _ m1); auto.
  - intros j Hj. specialize (Hm (S j)). simpl in Hm. rewrite Nat.add_succ_r in Hm. simpl. apply Hm. lia.
  - intros d Hd. specialize (HM d (or_intror Hd)). cbn [combine] in HM. rewrite label_stride_step in HM.
    unfold lab, str in HM. cbn [fst snd] in HM.
    destruct (N.eqb_spec d c), (N.eqb_spec c d); subst; try congruence; lia.
Qed.
