(** Facts about the strided-array model. *)
From Verif Require Import Base BaseFacts NDArray Spec SumFacts.
From Coq Require Import Lia.

(** ** Shapes and multi-indices *)

Lemma prod_cons d sh : prod (d :: sh) = d * prod sh.
Proof. reflexivity. Qed.

Lemma prod_app a b : prod (a ++ b) = prod a * prod b.
Proof. induction a as [|d a IH]; simpl; [lia|]. unfold prod in *; simpl. rewrite IH. lia. Qed.

Lemma in_bounds_length sh idx : in_bounds sh idx = true -> length idx = length sh.
Proof.
  revert idx; induction sh as [|d sh IH]; intros [|i idx]; simpl; try discriminate; auto.
  intros H. apply andb_true_iff in H as [_ H]. f_equal; auto.
Qed.

Lemma in_bounds_nth sh idx :
  in_bounds sh idx = true <->
  length idx = length sh /\ forall n, n < length sh -> nth n idx 0 < nth n sh 0.
Proof.
  revert idx; induction sh as [|d sh IH]; intros [|i idx]; simpl.
  - split; auto. intros _. split; auto. intros n H; lia.
  - split; [discriminate|]. intros [H _]; discriminate.
  - split; [discriminate|]. intros [H _]; discriminate.
  - rewrite andb_true_iff, Nat.ltb_lt, IH. split.
    + intros (H1 & H2 & H3). split; [lia|]. intros [|n] Hn; auto. apply H3; lia.
    + intros (H1 & H2). split; [apply (H2 0); lia|]. split; [lia|].
      intros n Hn. apply (H2 (S n)); lia.
Qed.

Lemma in_bounds_map size e cs :
  in_bounds (map size cs) (map e cs) = true <-> in_range size cs e.
Proof.
  unfold in_range. induction cs as [|c cs IH]; simpl.
  - split; auto. intros _ c [].
  - rewrite andb_true_iff, Nat.ltb_lt, IH. split.
    + intros [H1 H2] d [->|Hd]; auto.
    + intros H; split; auto.
Qed.

Lemma in_bounds_app sh1 sh2 i1 i2 :
  in_bounds sh1 i1 = true -> in_bounds sh2 i2 = true -> in_bounds (sh1 ++ sh2) (i1 ++ i2) = true.
Proof.
  revert i1; induction sh1 as [|d sh1 IH]; intros [|i i1]; simpl; try discriminate; auto.
  rewrite !andb_true_iff. intros [H1 H2] H3; split; auto.
Qed.

Lemma in_bounds_app_inv sh1 sh2 idx :
  in_bounds (sh1 ++ sh2) idx = true ->
  exists i1 i2, idx = i1 ++ i2 /\ in_bounds sh1 i1 = true /\ in_bounds sh2 i2 = true.
Proof.
  revert idx; induction sh1 as [|d sh1 IH]; intros idx H; simpl in *.
  - exists [], idx. auto.
  - destruct idx as [|i idx]; [discriminate|]. apply andb_true_iff in H as [H1 H2].
    destruct (IH _ H2) as (i1 & i2 & -> & H3 & H4).
    exists (i :: i1), i2. simpl. rewrite H1, H3. auto.
Qed.

Lemma indices_In sh idx : In idx (indices sh) <-> in_bounds sh idx = true.
Proof.
  revert idx; induction sh as [|d sh IH]; intros idx; simpl.
  - destruct idx; split; auto; intros; try discriminate. destruct H; [discriminate|contradiction].
  - rewrite in_flat_map. split.
    + intros (i & Hi & H). apply in_map_iff in H as (x & <- & Hx). simpl.
      apply in_seq in Hi. apply IH in Hx. rewrite Hx, andb_true_r. apply Nat.ltb_lt. lia.
    + destruct idx as [|i idx]; [discriminate|]. intros H. apply andb_true_iff in H as [H1 H2].
      apply Nat.ltb_lt in H1. exists i. split; [apply in_seq; lia|].
      apply in_map. apply IH; auto.
Qed.

Lemma flat_map_const_length {T U} (f : T -> list U) l n :
  (forall x, In x l -> length (f x) = n) -> length (flat_map f l) = length l * n.
Proof.
  induction l as [|x l IH]; simpl; intros H; auto. rewrite app_length, H, IH; auto.
Qed.

Lemma indices_length sh : length (indices sh) = prod sh.
Proof.
  induction sh as [|d sh IH]; simpl; auto.
  rewrite (flat_map_const_length _ _ (prod sh)).
  - rewrite seq_length. reflexivity.
  - intros. rewrite map_length. auto.
Qed.

(** Row-major position of a multi-index. *)
Fixpoint flat (sh idx : list nat) : nat :=
  match sh, idx with
  | d :: sh', i :: idx' => i * prod sh' + flat sh' idx'
  | _, _ => 0
  end.

Lemma flat_lt sh idx : in_bounds sh idx = true -> flat sh idx < prod sh.
Proof.
  revert idx; induction sh as [|d sh IH]; intros [|i idx]; simpl; try discriminate; auto.
  intros H. apply andb_true_iff in H as [H1 H2]. apply Nat.ltb_lt in H1.
  specialize (IH _ H2). change (prod (d :: sh)) with (d * prod sh).
  assert (i * prod sh + prod sh <= d * prod sh) by nia. lia.
Qed.

Lemma flat_app sh1 sh2 i1 i2 :
  length i1 = length sh1 ->
  flat (sh1 ++ sh2) (i1 ++ i2) = flat sh1 i1 * prod sh2 + flat sh2 i2.
Proof.
  revert i1; induction sh1 as [|d sh1 IH]; intros [|i i1] Hl; simpl in *; try discriminate; auto.
  rewrite IH by lia. rewrite prod_app. lia.
Qed.

Lemma map_flat_indices sh : map (flat sh) (indices sh) = seq 0 (prod sh).
Proof.
  induction sh as [|d sh IH]; simpl; auto.
  change (prod (d :: sh)) with (d * prod sh).
  assert (H : forall n k, map (flat (d :: sh)) (flat_map (fun i => map (cons i) (indices sh)) (seq k n))
              = seq (k * prod sh) (n * prod sh)); [|apply (H d 0)].
  induction n as [|n IHn]; intros k; simpl; auto.
  rewrite map_app, map_map, IHn. simpl.
  rewrite seq_app. f_equal.
  - rewrite <- (map_map (flat sh) (fun x => k * prod sh + x)), IH.
    generalize (k * prod sh) as m. intros m.
    replace (seq m (prod sh)) with (seq (m + 0) (prod sh)) by (f_equal; lia).
    generalize 0 as z. clear. generalize (prod sh) as p.
    induction p as [|p IHp]; intros z; simpl; auto.
    f_equal. rewrite IHp. f_equal. lia.
  - f_equal. lia.
Qed.

(** The multi-index at a row-major position. *)
Definition unflat (sh : list nat) (n : nat) : list nat := nth n (indices sh) [].

Lemma unflat_in_bounds sh n : n < prod sh -> in_bounds sh (unflat sh n) = true.
Proof. intros H. apply indices_In. apply nth_In. rewrite indices_length. auto. Qed.

Lemma flat_unflat sh n : n < prod sh -> flat sh (unflat sh n) = n.
Proof.
  intros H. unfold unflat. rewrite <- (map_nth (flat sh)), map_flat_indices.
  rewrite (nth_indep _ _ 0) by (rewrite seq_length; auto).
  rewrite seq_nth; auto.
Qed.

Lemma flat_inj sh i1 i2 : in_bounds sh i1 = true -> in_bounds sh i2 = true ->
  flat sh i1 = flat sh i2 -> i1 = i2.
Proof.
  revert i1 i2; induction sh as [|d sh IH]; intros [|a i1] [|b i2]; simpl; try discriminate; auto.
  rewrite !andb_true_iff. intros [_ H1] [_ H2] E.
  pose proof (flat_lt _ _ H1). pose proof (flat_lt _ _ H2).
  assert (a = b) by nia. subst. f_equal. apply IH; auto. lia.
Qed.

Lemma unflat_flat sh idx : in_bounds sh idx = true -> unflat sh (flat sh idx) = idx.
Proof.
  intros H. pose proof (flat_lt _ _ H). apply (flat_inj sh); auto.
  - apply unflat_in_bounds; auto.
  - apply flat_unflat; auto.
Qed.

Lemma is_empty_prod sh : is_empty_shape sh = true <-> prod sh = 0.
Proof.
  unfold is_empty_shape. induction sh as [|d sh IH]; simpl; [split; discriminate|].
  rewrite orb_true_iff, IH. change (fold_right Nat.mul 1 sh) with (prod sh). split.
  - intros [H|H]; [destruct d; [auto|discriminate]|].
    rewrite H. apply Nat.mul_0_r.
  - intros H. destruct d; auto. right. change (prod (Datatypes.S d :: sh)) with (Datatypes.S d * prod sh) in H. nia.
Qed.

Lemma is_empty_false sh : is_empty_shape sh = false <-> prod sh <> 0.
Proof.
  rewrite <- is_empty_prod. destruct (is_empty_shape sh); split; intros; congruence.
Qed.

Lemma in_bounds_nonempty sh idx : in_bounds sh idx = true -> prod sh <> 0.
Proof. intros H. apply flat_lt in H. lia. Qed.

Lemma is_empty_In sh : is_empty_shape sh = false <-> (forall d, In d sh -> d <> 0).
Proof.
  unfold is_empty_shape. rewrite <- not_true_iff_false, existsb_exists. split.
  - intros H d Hd E. apply H. exists d. subst. auto.
  - intros H (d & Hd & E). apply Nat.eqb_eq in E. subst. apply (H 0); auto.
Qed.

Lemma c_strides_length sh : length (c_strides sh) = length sh.
Proof. induction sh; simpl; auto. Qed.

Lemma default_strides_length sh : length (default_strides sh) = length sh.
Proof.
  unfold default_strides. destruct (is_empty_shape sh); [apply map_length|apply c_strides_length].
Qed.

Lemma dot_off_c sh idx : length idx = length sh -> dot_off idx (c_strides sh) = Z.of_nat (flat sh idx).
Proof.
  revert idx; induction sh as [|d sh IH]; intros [|i idx] H; simpl in *; try discriminate; auto.
  rewrite IH by lia. lia.
Qed.

Lemma dot_off_default sh idx :
  in_bounds sh idx = true -> dot_off idx (default_strides sh) = Z.of_nat (flat sh idx).
Proof.
  intros H. unfold default_strides.
  rewrite (proj2 (is_empty_false sh)) by (eapply in_bounds_nonempty; eauto).
  apply dot_off_c. apply in_bounds_length; auto.
Qed.

Lemma znth_nat {A} (l : list A) n : znth l (Z.of_nat n) = nth_error l n.
Proof.
  unfold znth. destruct (Z.ltb_spec (Z.of_nat n) 0); [lia|]. rewrite Nat2Z.id. auto.
Qed.

Lemma znth_Some {A} (l : list A) z x : znth l z = Some x -> (0 <= z < Z.of_nat (length l))%Z.
Proof.
  unfold znth. destruct (Z.ltb_spec z 0); [discriminate|]. intros E.
  assert (Z.to_nat z < length l) by (apply nth_error_Some; congruence). lia.
Qed.

Lemma znth_in {A} (l : list A) z : (0 <= z < Z.of_nat (length l))%Z -> exists x, znth l z = Some x.
Proof.
  intros H. unfold znth. destruct (Z.ltb_spec z 0); [lia|].
  destruct (nth_error l (Z.to_nat z)) eqn:E; eauto.
  apply nth_error_None in E. lia.
Qed.

(** ** holds and wf *)

Section Holds.
Context {A : Type}.

Lemma wf_readable (a : arr A) :
  wf a <-> length (a_strides a) = length (a_shape a)
           /\ forall idx, in_bounds (a_shape a) idx = true -> exists x, a_get a idx = Ok x.
Proof.
  unfold wf, a_get. split; intros [H1 H2]; split; auto; intros idx Hi; specialize (H2 idx Hi).
  - rewrite Hi. destruct (znth_in _ _ H2) as (x & ->). simpl. eauto.
  - rewrite Hi in H2. destruct H2 as (x & H2).
    destruct (znth (a_data a) (a_off a + dot_off idx (a_strides a))) eqn:E; [|discriminate].
    apply znth_Some in E. auto.
Qed.

Lemma holds_wf (a : arr A) sh f : holds a sh f -> wf a.
Proof.
  intros (H1 & H2 & H3). apply wf_readable. rewrite H1. split; eauto.
Qed.

Lemma holds_ext (a : arr A) sh f g :
  (forall idx, in_bounds sh idx = true -> f idx = g idx) -> holds a sh f -> holds a sh g.
Proof.
  intros H (H1 & H2 & H3). split; [|split]; auto. intros idx Hi. rewrite H3, H by auto. auto.
Qed.

Lemma wf_holds {S : Scalar A} (a : arr A) : wf a -> holds a (a_shape a) (elem a).
Proof.
  intros H. apply wf_readable in H as [H1 H2]. split; [|split]; auto.
  intros idx Hi. destruct (H2 idx Hi) as (x & E). unfold elem. rewrite E. auto.
Qed.

Lemma holds_iter (a : arr A) sh f : holds a sh f -> a_iter a = Ok (map f (indices sh)).
Proof.
  intros (H1 & H2 & H3). unfold a_iter. rewrite H1. apply mapM_ok.
  intros idx Hi. apply H3. apply indices_In; auto.
Qed.

Lemma nth_error_indices sh f idx :
  in_bounds sh idx = true -> nth_error (map f (indices sh)) (flat sh idx) = Some (f idx : A).
Proof.
  intros H. rewrite nth_error_map.
  pose proof (flat_lt _ _ H) as Hl. rewrite <- indices_length in Hl.
  rewrite (nth_error_nth' _ [] Hl). simpl. f_equal. f_equal.
  apply (unflat_flat sh idx H).
Qed.

Lemma get_default (l : list A) off sh idx :
  in_bounds sh idx = true ->
  a_get (mkArr l off sh (default_strides sh)) idx = unwrap (znth l (off + Z.of_nat (flat sh idx))).
Proof.
  intros H. unfold a_get. simpl. rewrite H, dot_off_default by auto. auto.
Qed.

Lemma holds_mk_c sh (f : list nat -> A) : holds (mk_c sh (map f (indices sh))) sh f.
Proof.
  split; [|split]; auto; simpl.
  - apply default_strides_length.
  - intros idx Hi. unfold mk_c. rewrite get_default by auto. simpl.
    rewrite znth_nat, nth_error_indices by auto. auto.
Qed.

Lemma holds_lay {Sc : Scalar A} (lay : backend A) op ins (a : arr A) sh f :
  backend_runs lay -> holds a sh f -> holds (lay op ins a) sh f.
Proof.
  intros Hl (H1 & H2 & H3). destruct (arrange_ok Hl op ins a) as (L1 & L2 & L3).
  split; [|split].
  - congruence.
  - rewrite L2; congruence.
  - intros idx Hi. rewrite L3 by congruence. auto.
Qed.

Lemma holds_mk_c_lay {Sc : Scalar A} (lay : backend A) op ins sh (f : list nat -> A) :
  backend_runs lay -> holds (lay op ins (mk_c sh (map f (indices sh)))) sh f.
Proof. intros H. apply holds_lay; auto. apply holds_mk_c. Qed.

Lemma from_shape_vec_ok sh sh' (f : list nat -> A) :
  prod sh = prod sh' ->
  from_shape_vec sh' (map f (indices sh)) = Ok (mk_c sh' (map f (indices sh))).
Proof.
  intros H. unfold from_shape_vec. rewrite map_length, indices_length, H, Nat.eqb_refl. auto.
Qed.

(** Reshaping in row-major order. *)
Definition refold (sh sh' : list nat) (f : list nat -> A) (idx : list nat) : A :=
  f (unflat sh (flat sh' idx)).

Lemma map_unflat sh : map (unflat sh) (seq 0 (prod sh)) = indices sh.
Proof.
  rewrite <- map_flat_indices, map_map. rewrite <- (map_id (indices sh)) at 2.
  apply map_ext_in. intros idx Hi. apply unflat_flat, indices_In; auto.
Qed.

Lemma map_refold sh sh' (f : list nat -> A) :
  prod sh = prod sh' -> map f (indices sh) = map (refold sh sh' f) (indices sh').
Proof.
  intros H. unfold refold. rewrite <- (map_map (flat sh') (fun n => f (unflat sh n))).
  rewrite map_flat_indices, <- H. rewrite <- (map_map (unflat sh) f), map_unflat. auto.
Qed.

Lemma holds_reshape_copy sh sh' (f : list nat -> A) :
  prod sh = prod sh' -> holds (mk_c sh' (map f (indices sh))) sh' (refold sh sh' f).
Proof. intros H. rewrite (map_refold sh sh') by auto. apply holds_mk_c. Qed.

(** ** Standard layout *)

(** Axes of length other than 1 have their row-major stride. *)
Lemma layout_c_rev_app c d1 s1 d2 s2 :
  length d1 = length s1 ->
  layout_c_rev c (d1 ++ d2) (s1 ++ s2)
  = layout_c_rev c d1 s1 && layout_c_rev (c * Z.of_nat (prod d1)) d2 s2.
Proof.
  revert c s1; induction d1 as [|d d1 IH]; intros c [|s s1] H; simpl in *; try discriminate.
  - rewrite Z.mul_1_r. auto.
  - destruct (Nat.eqb_spec d 1).
    + subst. rewrite IH by lia. do 2 f_equal. change (prod (1 :: d1)) with (1 * prod d1). lia.
    + destruct (Z.eqb s c); auto. rewrite IH by lia. do 2 f_equal.
      change (prod (d :: d1)) with (d * prod d1). lia.
Qed.

Lemma prod_rev l : prod (rev l) = prod l.
Proof.
  induction l as [|d l IH]; simpl; auto. rewrite prod_app, IH.
  rewrite !prod_cons. change (prod []) with 1. lia.
Qed.

Lemma layout_c_dot sh : forall strides idx,
  length strides = length sh ->
  layout_c_rev 1 (rev sh) (rev strides) = true ->
  in_bounds sh idx = true ->
  dot_off idx strides = Z.of_nat (flat sh idx).
Proof.
  induction sh as [|d sh IH]; intros [|s strides] [|i idx] Hl Hs Hb; simpl in *; try discriminate; auto.
  rewrite layout_c_rev_app in Hs by (rewrite !rev_length; lia).
  apply andb_true_iff in Hs as [Hs1 Hs2]. apply andb_true_iff in Hb as [Hb1 Hb2].
  apply Nat.ltb_lt in Hb1.
  rewrite (IH strides idx) by (auto; lia).
  rewrite prod_rev, Z.mul_1_l in Hs2. cbn [layout_c_rev] in Hs2.
  destruct (Nat.eqb_spec d 1).
  - assert (i = 0) by lia. subst. lia.
  - destruct (Z.eqb_spec s (Z.of_nat (prod sh))); [|discriminate].
    subst. lia.
Qed.

Lemma standard_get (a : arr A) idx :
  length (a_strides a) = length (a_shape a) ->
  is_standard_layout a = true -> in_bounds (a_shape a) idx = true ->
  a_get a idx = unwrap (znth (a_data a) (a_off a + Z.of_nat (flat (a_shape a) idx))).
Proof.
  intros Hl Hs Hb. unfold a_get. rewrite Hb.
  unfold is_standard_layout in Hs. apply orb_true_iff in Hs as [Hs|Hs].
  - apply is_empty_prod in Hs. apply in_bounds_nonempty in Hb. congruence.
  - rewrite (layout_c_dot (a_shape a)); auto.
Qed.

Lemma c_strides_standard sh : layout_c_rev 1 (rev sh) (rev (c_strides sh)) = true.
Proof.
  induction sh as [|d sh IH]; simpl; auto.
  rewrite layout_c_rev_app by (rewrite !rev_length, c_strides_length; auto).
  rewrite IH, prod_rev, Z.mul_1_l. cbn [layout_c_rev andb]. rewrite Z.eqb_refl.
  destruct (Nat.eqb d 1); auto.
Qed.

Lemma default_standard (l : list A) off sh :
  is_standard_layout (mkArr l off sh (default_strides sh)) = true.
Proof.
  unfold is_standard_layout, default_strides. simpl.
  destruct (is_empty_shape sh); auto. simpl. apply c_strides_standard.
Qed.

Lemma into_shape_standard (a : arr A) sh sh' f :
  holds a sh f -> is_standard_layout a = true -> prod sh' = prod sh ->
  exists r, into_shape a sh' = Ok r /\ holds r sh' (refold sh sh' f)
            /\ a_strides r = default_strides sh' /\ a_data r = a_data a /\ a_off r = a_off a.
Proof.
  intros (H1 & H2 & H3) Hs Hp. unfold into_shape. rewrite H1, Hp, Nat.eqb_refl, Hs.
  eexists. split; [reflexivity|]. split; [|auto].
  split; [|split]; simpl; auto.
  - apply default_strides_length.
  - intros idx Hi. rewrite get_default by auto.
    pose proof (flat_lt _ _ Hi) as Hlt. rewrite Hp in Hlt.
    unfold refold. rewrite <- H3 by (apply unflat_in_bounds; auto).
    rewrite standard_get; try congruence.
    + rewrite H1, flat_unflat by auto. auto.
    + rewrite H1. apply unflat_in_bounds; auto.
Qed.

End Holds.

(** ** Permuting axes *)

Lemma NoDup_index {T} (dec : forall x y : T, {x = y} + {x <> y}) (l : list T) (v : list nat) :
  NoDup l -> length v = length l -> exists e, map e l = v.
Proof.
  revert v; induction l as [|x l IH]; intros [|i v] Hn Hl; simpl in *; try discriminate.
  - exists (fun _ => 0). auto.
  - inversion Hn; subst. destruct (IH v) as (e & E); auto.
    exists (fun y => if dec y x then i else e y).
    destruct (dec x x); [|congruence]. f_equal. rewrite <- E.
    apply map_ext_in. intros y Hy. destruct (dec y x); congruence.
Qed.

Definition zsum (l : list Z) : Z := fold_right Z.add 0%Z l.

Lemma zsum_perm l l' : Permutation l l' -> zsum l = zsum l'.
Proof. unfold zsum. induction 1; simpl; lia. Qed.

Lemma dot_off_zsum {T} (e : T -> nat) (s : T -> Z) l :
  dot_off (map e l) (map s l) = zsum (map (fun x => (Z.of_nat (e x) * s x)%Z) l).
Proof. induction l; simpl; auto. rewrite IHl. auto. Qed.

Lemma map_nth_seq {T} (l : list T) d : map (fun k => nth k l d) (seq 0 (length l)) = l.
Proof.
  induction l as [|x l IH]; simpl; auto. f_equal. rewrite <- seq_shift, map_map. auto.
Qed.

Lemma valid_axes n axes :
  Nat.eqb (length axes) n && forallb (fun k => Nat.ltb k n) axes
    && forallb (fun k => Nat.eqb (count_occ Nat.eq_dec axes k) 1) (seq 0 n) = true
  <-> Permutation axes (seq 0 n).
Proof.
  rewrite !andb_true_iff, Nat.eqb_eq, !forallb_forall. split.
  - intros [[H1 H2] H3]. apply NoDup_Permutation.
    + apply (NoDup_count_occ Nat.eq_dec). intros k.
      destruct (in_dec Nat.eq_dec k axes) as [Hi|Hi].
      * apply H2 in Hi. apply Nat.ltb_lt in Hi.
        specialize (H3 k). rewrite Nat.eqb_eq in H3. rewrite H3; auto. apply in_seq; lia.
      * apply (count_occ_not_In Nat.eq_dec) in Hi. lia.
    + apply seq_NoDup.
    + intros k. rewrite in_seq. split.
      * intros Hi. apply H2, Nat.ltb_lt in Hi. lia.
      * intros Hk. specialize (H3 k). rewrite Nat.eqb_eq in H3.
        apply (count_occ_In Nat.eq_dec). rewrite H3; [lia|]. apply in_seq; lia.
  - intros Hp. split; [split|].
    + rewrite (Permutation_length Hp). apply seq_length.
    + intros k Hk. apply Nat.ltb_lt. apply (Permutation_in _ Hp), in_seq in Hk. lia.
    + intros k Hk. apply Nat.eqb_eq.
      assert (Hn : NoDup axes).
      { eapply Permutation_NoDup; [apply Permutation_sym, Hp|apply seq_NoDup]. }
      apply (Permutation_in _ (Permutation_sym Hp)) in Hk.
      pose proof (proj1 (count_occ_In Nat.eq_dec axes k) Hk).
      pose proof (proj1 (NoDup_count_occ Nat.eq_dec axes) Hn k). lia.
Qed.

(** Element access through permuted axes, with axis numbers as labels. *)
Lemma in_bounds_permuted sh axes (e : nat -> nat) :
  Permutation axes (seq 0 (length sh)) ->
  in_bounds (map (fun k => nth k sh 0) axes) (map e axes)
  = in_bounds sh (map e (seq 0 (length sh))).
Proof.
  intros Hp. apply eq_true_iff_eq.
  replace (in_bounds sh (map e (seq 0 (length sh))))
    with (in_bounds (map (fun k => nth k sh 0) (seq 0 (length sh))) (map e (seq 0 (length sh))))
    by (rewrite map_nth_seq; auto).
  assert (H : forall l, in_bounds (map (fun k => nth k sh 0) l) (map e l) = true
                        <-> forall k, In k l -> e k < nth k sh 0).
  { induction l as [|k l IH]; simpl.
    - split; auto. intros _ k [].
    - rewrite andb_true_iff, Nat.ltb_lt, IH. split.
      + intros [H1 H2] x [<-|Hx]; auto.
      + intros Hx. split; auto. }
  rewrite !H. split; intros Hx k Hk; apply Hx.
  - apply (Permutation_in _ (Permutation_sym Hp)); auto.
  - apply (Permutation_in _ Hp); auto.
Qed.

Lemma permuted_get {A} (a : arr A) axes :
  Permutation axes (seq 0 (length (a_shape a))) ->
  length (a_strides a) = length (a_shape a) ->
  exists r, permuted_axes a axes = Ok r
    /\ a_shape r = map (fun k => nth k (a_shape a) 0) axes
    /\ length (a_strides r) = length axes
    /\ forall e : nat -> nat, a_get r (map e axes) = a_get a (map e (seq 0 (length (a_shape a)))).
Proof.
  intros Hp Hl. unfold permuted_axes. rewrite (proj2 (valid_axes _ _) Hp).
  eexists. split; [reflexivity|]. simpl. split; auto. split; [rewrite !map_length; auto|].
  intros e. unfold a_get. simpl. rewrite in_bounds_permuted by auto.
  destruct (in_bounds (a_shape a) _); auto.
  do 3 f_equal. rewrite dot_off_zsum.
  rewrite (zsum_perm _ (map (fun k => (Z.of_nat (e k) * nth k (a_strides a) 0)%Z)
                          (seq 0 (length (a_shape a))))).
  - rewrite <- dot_off_zsum. f_equal. rewrite <- Hl. apply map_nth_seq.
  - apply Permutation_map. auto.
Qed.

Lemma permuted_invalid {A} (a : arr A) axes :
  ~ Permutation axes (seq 0 (length (a_shape a))) -> permuted_axes a axes = Panic.
Proof.
  intros H. unfold permuted_axes. rewrite <- valid_axes in H.
  destruct (_ && _); [congruence|auto].
Qed.

Lemma axes_NoDup axes n : Permutation axes (seq 0 n) -> NoDup axes.
Proof. intros H. eapply Permutation_NoDup; [apply Permutation_sym, H|apply seq_NoDup]. Qed.

(** The same with positions: [g] reads the permuted index, [f] the original one. *)
Lemma permuted_holds {A} (a : arr A) sh f axes :
  holds a sh f -> Permutation axes (seq 0 (length sh)) ->
  exists r, permuted_axes a axes = Ok r /\
    (forall g, (forall e : nat -> nat,
                  in_bounds sh (map e (seq 0 (length sh))) = true ->
                  g (map e axes) = f (map e (seq 0 (length sh)))) ->
               holds r (map (fun k => nth k sh 0) axes) g).
Proof.
  intros (H1 & H2 & H3) Hp. subst sh.
  destruct (permuted_get a axes Hp H2) as (r & E & Hs & Hl & He).
  exists r. split; auto. intros g Hg. split; auto. split; [rewrite map_length; auto|].
  intros idx Hi.
  destruct (NoDup_index Nat.eq_dec axes idx (axes_NoDup _ _ Hp)) as (e & <-).
  { apply in_bounds_length in Hi. rewrite map_length in Hi. auto. }
  rewrite in_bounds_permuted in Hi by auto.
  rewrite He, H3, Hg by auto. auto.
Qed.

(** ** Allocating operations *)

Section Alloc.
Context {A : Type} {S : Scalar A}.
Variable lay : backend A.
Hypothesis Hlay : backend_runs lay.

Lemma to_owned_holds (a : arr A) sh f :
  holds a sh f -> exists r, to_owned lay a = Ok r /\ holds r sh f.
Proof.
  intros H. unfold to_owned. rewrite (holds_iter _ _ _ H). simpl.
  eexists; split; [reflexivity|]. destruct H as (-> & _). apply holds_mk_c_lay; auto.
Qed.

Lemma into_owned_holds (a : arr A) sh f :
  holds a sh f -> exists r, into_owned lay a = Ok r /\ holds r sh f.
Proof.
  intros H. unfold into_owned. rewrite (holds_iter _ _ _ H). simpl.
  eexists; split; [reflexivity|]. destruct H as (-> & _). apply holds_mk_c_lay; auto.
Qed.

Lemma mapv_holds (a : arr A) sh f g :
  holds a sh f -> exists r, mapv lay g a = Ok r /\ holds r sh (fun idx => g (f idx)).
Proof.
  intros H. unfold mapv. rewrite (holds_iter _ _ _ H). simpl.
  eexists; split; [reflexivity|]. destruct H as (-> & _). rewrite map_map.
  apply (holds_mk_c_lay lay LMapv [a] sh (fun idx => g (f idx))); auto.
Qed.

Lemma list_nat_eqb_eq a b : list_nat_eqb a b = true <-> a = b.
Proof.
  revert b; induction a as [|x a IH]; intros [|y b]; simpl; split; try discriminate; auto.
  - rewrite andb_true_iff, Nat.eqb_eq, IH. intros [-> ->]; auto.
  - intros E; injection E as -> ->. rewrite Nat.eqb_refl. apply IH. auto.
Qed.

Lemma mul_arrays_holds (a b : arr A) sh f g :
  holds a sh f -> holds b sh g ->
  exists r, mul_arrays lay a b = Ok r /\ holds r sh (fun idx => smul (f idx) (g idx)).
Proof.
  intros (H1 & H2 & H3) (G1 & G2 & G3). unfold mul_arrays. rewrite H1, G1.
  rewrite (proj2 (list_nat_eqb_eq sh sh) eq_refl). cbn [rbind]. rewrite H1.
  rewrite (mapM_ok _ (fun idx => smul (f idx) (g idx))).
  - simpl. eexists; split; [reflexivity|].
    apply (holds_mk_c_lay lay LMul [a; b] sh (fun idx => smul (f idx) (g idx))); auto.
  - intros idx Hi. apply indices_In in Hi. rewrite H3, G3 by auto. auto.
Qed.

Lemma remove_nth_app {T} (l1 : list T) x l2 : remove_nth (length l1) (l1 ++ x :: l2) = l1 ++ l2.
Proof. induction l1; simpl; congruence. Qed.

Lemma insert_nth_app {T} (l1 : list T) x l2 : insert_nth (length l1) x (l1 ++ l2) = l1 ++ x :: l2.
Proof. induction l1; simpl; [destruct l2; auto|congruence]. Qed.

Lemma sum_axis_holds (a : arr A) s1 d s2 f :
  holds a (s1 ++ d :: s2) f ->
  exists r g, sum_axis lay a (length s1) = Ok r /\ holds r (s1 ++ s2) g
    /\ forall idx, sums_to (map (fun i => f (insert_nth (length s1) i idx)) (seq 0 d)) (g idx).
Proof.
  intros (H1 & H2 & H3). unfold sum_axis. rewrite H1.
  rewrite (index_nth _ _ 0) by (rewrite app_length; simpl; lia).
  rewrite app_nth2, Nat.sub_diag by lia. simpl. rewrite remove_nth_app.
  set (g := fun idx => add_up lay (length s1) a idx
                         (map (fun i => f (insert_nth (length s1) i idx)) (seq 0 d))).
  rewrite (mapM_ok _ g).
  - simpl. exists (lay (LSumAxis (length s1)) [a] (mk_c (s1 ++ s2) (map g (indices (s1 ++ s2))))), g.
    split; [reflexivity|]. split; [apply holds_mk_c_lay; auto|]. intros idx. apply (add_up_ok Hlay).
  - intros idx Hi. apply indices_In in Hi.
    rewrite (mapM_ok _ (fun i => f (insert_nth (length s1) i idx))); [reflexivity|].
    intros i Hd. apply in_seq in Hd. apply H3.
    apply in_bounds_app_inv in Hi as (i1 & i2 & -> & B1 & B2).
    rewrite <- (in_bounds_length _ _ B1), insert_nth_app.
    apply in_bounds_app; auto. simpl. rewrite B2, andb_true_r. apply Nat.ltb_lt. lia.
Qed.

Lemma first_holds (a : arr A) f : holds a [] f -> first a = Ok (Some (f [])).
Proof.
  intros (H1 & H2 & H3). unfold first. rewrite H1. simpl. rewrite H3 by auto. auto.
Qed.

Lemma index_axis_holds (a : arr A) d sh f i :
  holds a (d :: sh) f -> i < d ->
  exists r, index_axis a 0 i = Ok r /\ holds r sh (fun idx => f (i :: idx))
            /\ a_data r = a_data a
            /\ a_off r = (a_off a + Z.of_nat i * nth 0 (a_strides a) 0)%Z
            /\ a_strides r = tl (a_strides a).
Proof.
  intros (H1 & H2 & H3) Hi. destruct a as [data off shape strides]; simpl in *. subst shape.
  destruct strides as [|s strides]; simpl in *; [discriminate|].
  unfold index_axis. simpl. unfold index. simpl.
  rewrite (proj2 (Nat.ltb_lt i d) Hi). eexists; split; [reflexivity|]. simpl.
  repeat split; auto; simpl; try lia.
  intros idx Hb. rewrite <- H3; [|simpl; rewrite Hb; rewrite (proj2 (Nat.ltb_lt i d) Hi); auto].
  unfold a_get. simpl. rewrite Hb, (proj2 (Nat.ltb_lt i d) Hi). simpl.
  do 2 f_equal. lia.
Qed.

End Alloc.

(** ** Sums over all multi-indices of a shape *)

Section SumIdx.
Context {A : Type} {S : Scalar A}.

Fixpoint sum_idx (sh : list nat) (f : list nat -> A) : A :=
  match sh with
  | [] => f []
  | d :: sh' => sum_n d (fun i => sum_idx sh' (fun z => f (i :: z)))
  end.

Lemma sum_idx_ext sh f g :
  (forall z, in_bounds sh z = true -> f z = g z) -> sum_idx sh f = sum_idx sh g.
Proof.
  revert f g; induction sh as [|d sh IH]; simpl; intros f g H; auto.
  apply sum_n_ext. intros i Hi. apply IH. intros z Hz. apply H. simpl.
  rewrite Hz, (proj2 (Nat.ltb_lt i d) Hi). auto.
Qed.

(** Overriding the labels [cs] of an assignment. *)
Fixpoint over (cs : list char) (z : list nat) (e : env) : env :=
  match cs, z with
  | c :: cs', i :: z' => over cs' z' (upd e c i)
  | _, _ => e
  end.

Lemma nested_sum_idx size cs (F : env -> A) e :
  nested_sum size cs F e = sum_idx (map size cs) (fun z => F (over cs z e)).
Proof.
  revert e; induction cs as [|c cs IH]; simpl; intros e; auto.
  apply sum_n_ext. intros i _. apply IH.
Qed.

Lemma over_out cs z e c : ~ In c cs -> over cs z e c = e c.
Proof.
  revert z e; induction cs as [|d cs IH]; intros [|i z] e H; simpl in *; auto.
  rewrite IH by tauto. apply upd_other. intros ->; tauto.
Qed.

Lemma map_over cs z e : NoDup cs -> length z = length cs -> map (over cs z e) cs = z.
Proof.
  revert z e; induction cs as [|c cs IH]; intros [|i z] e Hn Hl; simpl in *; try discriminate; auto.
  inversion Hn; subst. f_equal.
  - rewrite over_out by auto. apply upd_same.
  - apply IH; auto.
Qed.

Lemma map_over_out cs z e ds : (forall c, In c ds -> ~ In c cs) -> map (over cs z e) ds = map e ds.
Proof. intros H. apply map_ext_in. intros c Hc. apply over_out. auto. Qed.

Hypothesis SR : near_semiring A.

Lemma sum_idx_unflat sh f : sum_n (prod sh) (fun n => f (unflat sh n)) = sum_idx sh f.
Proof.
  revert f; induction sh as [|d sh IH]; intros f.
  - simpl. unfold unflat. simpl. rewrite (ns_add_0_l SR). auto.
  - simpl sum_idx. change (prod (d :: sh)) with (d * prod sh).
    rewrite (sum_n_mult SR). apply sum_n_ext. intros i Hi.
    rewrite <- (IH (fun z => f (i :: z))). apply sum_n_ext. intros j Hj. f_equal.
    apply (flat_inj (d :: sh)).
    + apply unflat_in_bounds. change (prod (d :: sh)) with (d * prod sh).
      assert (i * prod sh + prod sh <= d * prod sh) by nia. lia.
    + simpl. rewrite unflat_in_bounds, (proj2 (Nat.ltb_lt i d) Hi) by auto. auto.
    + rewrite flat_unflat.
      * simpl. rewrite flat_unflat by auto. auto.
      * change (prod (d :: sh)) with (d * prod sh).
        assert (i * prod sh + prod sh <= d * prod sh) by nia. lia.
Qed.

End SumIdx.

(** ** Arrays with labelled axes *)

Definition lrep {A} (size : char -> nat) (a : arr A) (ls : list char) (F : env -> A) : Prop :=
  a_shape a = map size ls
  /\ length (a_strides a) = length ls
  /\ forall e, in_range size ls e -> a_get a (map e ls) = Ok (F e).

Section Labels.
Context {A : Type} {S : Scalar A}.
Variable size : char -> nat.

Lemma lrep_holds (a : arr A) ls F :
  NoDup ls -> lrep size a ls F -> holds a (map size ls) (fun idx => F (bind ls idx)).
Proof.
  intros Hn (H1 & H2 & H3). split; [|split]; auto; [rewrite map_length; auto|].
  intros idx Hi. pose proof (in_bounds_length _ _ Hi) as Hl. rewrite map_length in Hl.
  rewrite <- (map_bind ls idx Hn Hl) at 1. apply H3.
  apply in_bounds_map. rewrite map_bind; auto.
Qed.

Lemma holds_lrep (a : arr A) ls f :
  holds a (map size ls) f -> lrep size a ls (fun e => f (map e ls)).
Proof.
  intros (H1 & H2 & H3). split; [|split]; auto; [rewrite map_length in H2; auto|].
  intros e He. apply H3. apply in_bounds_map; auto.
Qed.

Lemma lrep_ext (a : arr A) ls F G :
  (forall e, in_range size ls e -> F e = G e) -> lrep size a ls F -> lrep size a ls G.
Proof.
  intros H (H1 & H2 & H3). split; [|split]; auto. intros e He. rewrite H3, H; auto.
Qed.

Lemma bind_map_eq e ls (F : env -> A) : dep F ls -> F (bind ls (map e ls)) = F e.
Proof. intros H. apply H. apply bind_map. Qed.

Lemma lrep_of_holds (a : arr A) ls F :
  dep F ls -> holds a (map size ls) (fun idx => F (bind ls idx)) -> lrep size a ls F.
Proof.
  intros Hd H. apply holds_lrep in H. eapply lrep_ext; [|exact H].
  intros e _. simpl. apply bind_map_eq; auto.
Qed.

Lemma lrep_wf (a : arr A) ls : wf a -> a_shape a = map size ls ->
  lrep size a ls (fun e => elem a (map e ls)).
Proof.
  intros H E. apply holds_lrep. rewrite <- E. apply wf_holds; auto.
Qed.

Lemma elem_dep (a : arr A) ls : dep (fun e => elem a (map e ls)) ls.
Proof. intros e e' H. f_equal. apply map_ext_in; auto. Qed.

(** Positions of labels. *)
Lemma Forall2_In_r {T U} (R : T -> U -> Prop) l l' y :
  Forall2 R l l' -> In y l' -> exists x, In x l /\ R x y.
Proof.
  induction 1 as [|x z l l' HR HF IH]; intros Hi; [contradiction|].
  destruct Hi as [->|Hi]; [exists x; simpl; auto|].
  destruct (IH Hi) as (w & ? & ?). exists w; simpl; auto.
Qed.

Lemma Forall2_len {T U} (R : T -> U -> Prop) l l' : Forall2 R l l' -> length l = length l'.
Proof. induction 1; simpl; auto. Qed.

Lemma positions_perm ls ls' axes :
  NoDup ls -> Permutation ls' ls ->
  Forall2 (fun o k => position o ls = Some k) ls' axes ->
  Permutation axes (seq 0 (length ls)).
Proof.
  intros Hn Hp HF.
  assert (Hn' : NoDup ls') by (eapply Permutation_NoDup; [apply Permutation_sym|]; eauto).
  pose proof (Forall2_len _ _ _ HF) as Hlen.
  apply NoDup_Permutation_bis.
  - clear Hp Hlen Hn. induction HF as [|x y l l' HR HF IH]; constructor.
    + inversion Hn'; subst. intros Hi.
      destruct (Forall2_In_r _ _ _ _ HF Hi) as (o & Ho & E).
      apply position_nth in E as [_ E]. apply position_nth in HR as [_ HR].
      specialize (E x). specialize (HR x). congruence.
    + apply IH. inversion Hn'; auto.
  - rewrite seq_length, <- Hlen, (Permutation_length Hp). auto.
  - intros k Hk. destruct (Forall2_In_r _ _ _ _ HF Hk) as (o & _ & E).
    apply position_nth in E as [E _]. apply in_seq. lia.
Qed.

(** Reordering labelled axes. *)
Lemma permuted_lrep (a : arr A) ls ls' F axes :
  lrep size a ls F -> NoDup ls -> Permutation ls' ls ->
  Forall2 (fun o k => position o ls = Some k) ls' axes ->
  exists r, permuted_axes a axes = Ok r /\ lrep size r ls' F.
Proof.
  intros (H1 & H2 & H3) Hn Hp HF.
  pose proof (positions_perm _ _ _ Hn Hp HF) as Hax.
  assert (Hlen : length (a_shape a) = length ls) by (rewrite H1, map_length; auto).
  destruct (permuted_get a axes) as (r & E & Hs & Hl & He).
  { rewrite Hlen; auto. }
  { congruence. }
  exists r. split; auto.
  assert (Hmap : forall (B : Type) (g : char -> B), map (fun k => g (nth k ls 0%N)) axes = map g ls').
  { intros B g. clear - HF. induction HF; simpl; auto.
    f_equal; auto. apply position_nth in H as [_ H]. rewrite H. auto. }
  split; [|split].
  - rewrite Hs, H1, <- Hmap. apply map_ext_in. intros k Hk.
    apply (Permutation_in _ Hax), in_seq in Hk.
    rewrite (nth_indep _ _ (size 0%N)) by (rewrite map_length; lia). apply map_nth.
  - rewrite Hl. rewrite (Permutation_length Hax), seq_length. symmetry. apply Permutation_length; auto.
  - intros e Hr. rewrite <- Hmap, He, Hlen.
    rewrite <- (map_map (fun k => nth k ls 0%N) e), map_nth_seq. apply H3.
    eapply in_range_incl; [|exact Hr]. intros c. apply Permutation_in, Permutation_sym; auto.
Qed.

End Labels.
