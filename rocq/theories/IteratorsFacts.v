(** Facts about the iterator over several axes. *)
From Verif Require Import Base BaseFacts NDArray Spec SumFacts MismatchFacts PathFacts ArrayFacts EinsumMain EinsumProps TensordotMain Iterators.
From Coq Require Import Lia.

(** ** Renumbered axes *)

Lemma mem_axes k l : existsb (Nat.eqb k) l = true <-> In k l.
Proof.
  rewrite existsb_exists. split.
  - intros (x & Hx & E). apply Nat.eqb_eq in E. subst; auto.
  - intros H. exists k. split; auto. apply Nat.eqb_refl.
Qed.

Lemma not_mem_axes k l : negb (existsb (Nat.eqb k) l) = true <-> ~ In k l.
Proof. rewrite negb_true_iff, <- not_true_iff_false, mem_axes. tauto. Qed.

Lemma free_below before v : NoDup before ->
  length (filter (fun k => negb (existsb (Nat.eqb k) before)) (seq 0 v))
  + length (filter (fun x => Nat.ltb x v) before) = v.
Proof.
  intros Hn. rewrite <- app_length.
  rewrite (Permutation_length (l' := seq 0 v)); [apply seq_length|].
  apply NoDup_Permutation.
  - apply NoDup_app_intro; try (apply NoDup_filter; auto using seq_NoDup).
    intros k H1 H2. apply filter_In in H1 as [_ H1]. apply filter_In in H2 as [H2 _].
    apply not_mem_axes in H1. contradiction.
  - apply seq_NoDup.
  - intros k. rewrite in_app_iff, !filter_In, in_seq, not_mem_axes, Nat.ltb_lt. split; [lia|].
    intros H. destruct (in_dec Nat.eq_dec k before); [right|left]; split; auto; lia.
Qed.

(** The place of an axis among the axes that are left. *)
Lemma free_split n before v : NoDup (before ++ [v]) -> v < n ->
  exists P Q, free_axes n before = P ++ v :: Q /\ free_axes n (before ++ [v]) = P ++ Q
    /\ renumbered before v = Ok (length P).
Proof.
  intros Hn Hv.
  assert (Hv' : ~ In v before).
  { intros H. apply (NoDup_remove_2 before [] v Hn). rewrite app_nil_r. auto. }
  assert (Hb : NoDup before).
  { apply NoDup_remove_1 in Hn. rewrite app_nil_r in Hn. auto. }
  set (ok := fun k => negb (existsb (Nat.eqb k) before)).
  exists (filter ok (seq 0 v)), (filter ok (seq (S v) (n - S v))).
  assert (E : seq 0 n = seq 0 v ++ v :: seq (S v) (n - S v)).
  { replace n with (v + S (n - S v)) at 1 by lia. rewrite seq_app. auto. }
  assert (Ok' : forall k, k <> v -> negb (existsb (Nat.eqb k) (before ++ [v])) = ok k).
  { intros k Hk. unfold ok. rewrite existsb_app. simpl.
    destruct (Nat.eqb_spec k v); [contradiction|]. simpl. rewrite orb_false_r. auto. }
  unfold free_axes. rewrite !E, !filter_app. simpl.
  assert (Ev : ok v = true) by (apply not_mem_axes; auto).
  repeat split.
  - unfold ok in Ev. rewrite Ev. auto.
  - rewrite existsb_app. simpl. rewrite Nat.eqb_refl, orb_true_r. simpl. f_equal.
    + apply filter_ext_in. intros k Hk. apply in_seq in Hk. apply Ok'. lia.
    + apply filter_ext_in. intros k Hk. apply in_seq in Hk. apply Ok'. lia.
  - unfold renumbered. pose proof (free_below before v Hb) as H. fold ok in H.
    rewrite usub_ok by lia. f_equal. lia.
Qed.

Lemma renumber_ok n axes : forall before, NoDup (before ++ axes) -> Forall (fun k => k < n) axes ->
  exists rs, renumber before axes = Ok rs /\ length rs = length axes.
Proof.
  induction axes as [|v axes IH]; intros before Hn Hb; simpl.
  - eexists. split; reflexivity.
  - inversion Hb; subst.
    assert (Hn1 : NoDup ((before ++ [v]) ++ axes)) by (rewrite <- app_assoc; auto).
    destruct (free_split n before v) as (P & Q & _ & _ & ->); auto.
    { eapply NoDup_app_remove_r; eauto. }
    destruct (IH _ Hn1 H2) as (rs & -> & El). simpl. eexists. split; [reflexivity|]. simpl. auto.
Qed.

(** ** Subviews *)

(** The view at the positions [pos] of the axes [axes]. *)
Definition view_at {A} (base : arr A) (axes pos : list nat) : arr A :=
  let F := free_axes (length (a_shape base)) axes in
  mkArr (a_data base) (a_off base + dot_off pos (map (fun k => nth k (a_strides base) 0%Z) axes))
    (map (fun k => nth k (a_shape base) 0) F) (map (fun k => nth k (a_strides base) 0%Z) F).

Lemma index_mid {T} (P : list T) x Q : index (P ++ x :: Q) (length P) = Ok x.
Proof. apply index_some. rewrite nth_error_app2, Nat.sub_diag by lia. auto. Qed.

(** The view of the axes [F] from the element at [off]. *)
Definition seen {A} (base : arr A) (off : Z) (F : list nat) : arr A :=
  mkArr (a_data base) off (map (fun k => nth k (a_shape base) 0) F) (map (fun k => nth k (a_strides base) 0%Z) F).

Lemma index_seen {A} (base : arr A) off P v Q p : Nat.ltb p (nth v (a_shape base) 0) = true ->
  index_axis (seen base off (P ++ v :: Q)) (length P) p
  = Ok (seen base (off + Z.of_nat p * nth v (a_strides base) 0%Z) (P ++ Q)).
Proof.
  intros H. unfold index_axis, seen. cbn [a_shape a_strides a_data a_off]. rewrite !map_app. cbn [map].
  rewrite <- (map_length (fun k => nth k (a_shape base) 0) P) at 1. rewrite index_mid. cbn [rbind].
  rewrite <- (map_length (fun k => nth k (a_strides base) 0%Z) P) at 1. rewrite index_mid. cbn [rbind].
  rewrite H. do 2 f_equal.
  - rewrite <- (map_length (fun k => nth k (a_shape base) 0) P). apply remove_nth_app.
  - rewrite <- (map_length (fun k => nth k (a_strides base) 0%Z) P). apply remove_nth_app.
Qed.

Lemma subview_from {A} (base : arr A) n axes : forall before off rs pos,
  NoDup (before ++ axes) -> Forall (fun k => k < n) axes -> renumber before axes = Ok rs ->
  in_bounds (axis_lengths (a_shape base) axes) pos = true ->
  subview (seen base off (free_axes n before)) rs pos
  = Ok (seen base (off + dot_off pos (map (fun k => nth k (a_strides base) 0%Z) axes))%Z (free_axes n (before ++ axes))).
Proof.
  induction axes as [|v axes IH]; intros before off rs pos Hn Hb Er Hp.
  - simpl in *. injection Er as <-. destruct pos; [|discriminate]. unfold subview. simpl. rewrite app_nil_r, Z.add_0_r. auto.
  - inversion Hb as [|? ? Hv Hb']; subst.
    assert (Hn1 : NoDup ((before ++ [v]) ++ axes)) by (rewrite <- app_assoc; auto).
    destruct (free_split n before v) as (P & Q & E1 & E2 & E3); auto.
    { eapply NoDup_app_remove_r; eauto. }
    simpl in Er. rewrite E3 in Er. cbn [rbind] in Er.
    apply rbind_ok in Er as (rs' & Er & E). injection E as <-.
    destruct pos as [|p pos]; [discriminate|].
    simpl in Hp. apply andb_true_iff in Hp as [Hp1 Hp2].
    unfold subview. cbn [combine foldM fst snd].
    rewrite E1, (index_seen _ _ _ _ _ _ Hp1). cbn [rbind]. rewrite <- E2.
    specialize (IH (before ++ [v]) (off + Z.of_nat p * nth v (a_strides base) 0%Z)%Z rs' pos Hn1 Hb' Er Hp2).
    unfold subview in IH. etransitivity; [exact IH|].
    rewrite <- app_assoc. cbn [app map dot_off]. do 2 f_equal. lia.
Qed.

Lemma free_axes_none n : free_axes n [] = seq 0 n.
Proof.
  unfold free_axes. simpl. induction (seq 0 n); simpl; auto. f_equal; auto.
Qed.

Lemma subview_ok {A} (base : arr A) axes rs pos :
  length (a_strides base) = length (a_shape base) ->
  axes_ok (length (a_shape base)) axes -> renumber [] axes = Ok rs ->
  in_bounds (axis_lengths (a_shape base) axes) pos = true ->
  subview base rs pos = Ok (view_at base axes pos).
Proof.
  intros Hs [Hn Hb] Er Hp.
  pose proof (subview_from base _ axes [] (a_off base) rs pos Hn Hb Er Hp) as H. unfold seen in H.
  rewrite free_axes_none, map_nth_seq in H. rewrite <- Hs, map_nth_seq, Hs in H.
  destruct base; exact H.
Qed.

(** The elements of the view are those of the array at the positions of the axes. *)
Lemma view_at_holds {A} (base : arr A) sh f axes pos :
  holds base sh f -> axes_ok (length sh) axes ->
  in_bounds (axis_lengths sh axes) pos = true ->
  holds (view_at base axes pos) (axis_lengths sh (free_axes (length sh) axes))
    (fun y => f (place (length sh) (free_axes (length sh) axes ++ axes) (y ++ pos))).
Proof.
  intros H Ha Hp. pose proof (free_axes_perm _ _ Ha) as Hperm.
  destruct (permuted_place base sh f _ H Hperm) as (r & Er & Hr).
  destruct H as (H1 & H2 & H3). unfold permuted_axes in Er. rewrite H1 in Er.
  rewrite (proj2 (valid_axes _ _) Hperm) in Er. injection Er as <-.
  destruct Hr as (R1 & R2 & R3). simpl in R1, R2.
  unfold view_at. rewrite H1. split; [reflexivity|]. split.
  { simpl. unfold axis_lengths. rewrite !map_length. auto. }
  intros y Hy. unfold axis_lengths in R3. rewrite map_app in R3.
  specialize (R3 (y ++ pos) (in_bounds_app _ _ _ _ Hy Hp)). rewrite <- R3.
  unfold a_get. cbn [a_shape a_strides a_data a_off].
  fold (axis_lengths sh (free_axes (length sh) axes)). rewrite Hy.
  rewrite map_app. fold (axis_lengths sh (free_axes (length sh) axes)) (axis_lengths sh axes).
    rewrite (in_bounds_app _ _ _ _ Hy Hp), dot_off_app'.
  - do 2 f_equal. lia.
  - apply in_bounds_length in Hy. unfold axis_lengths in Hy. rewrite map_length in *. auto.
Qed.

(** ** The positions *)

Lemma step_below todo rest d sh p ps :
  step (map S todo ++ rest) (d :: sh) (p :: ps)
  = do r <- step todo sh ps; if snd r then step rest (d :: sh) (p :: fst r) else Ok (p :: fst r, false).
Proof.
  revert ps. induction todo as [|k todo IH]; intros ps; [reflexivity|].
  cbn [map app step]. unfold index. cbn [nth_error].
  destruct (nth_error ps k) as [q|]; [|reflexivity]. cbn [unwrap rbind].
  destruct (nth_error sh k) as [m|]; [|reflexivity]. cbn [unwrap rbind].
  destruct (usub m 1) as [l| |]; [|reflexivity|reflexivity]. cbn [rbind].
  destruct (Nat.eqb q l); [|reflexivity].
  cbn [set_nth]. apply IH.
Qed.

Lemma backwards n : map (fun i => n - i - 1) (seq 0 n) = rev (seq 0 n).
Proof.
  induction n as [|n IH]; auto.
  replace (rev (seq 0 (S n))) with (n :: rev (seq 0 n)) by (rewrite seq_S, rev_app_distr; reflexivity).
  rewrite <- IH. cbn [seq map]. f_equal; [lia|].
  rewrite <- seq_shift, map_map. apply map_ext_in. intros i Hi. apply in_seq in Hi. lia.
Qed.

(** One step goes to the next position in row-major order, or back to the first one. *)
Lemma step_next sh : forall pos, in_bounds sh pos = true ->
  step (rev (seq 0 (length sh))) sh pos
  = if Nat.ltb (S (flat sh pos)) (prod sh) then Ok (unflat sh (S (flat sh pos)), false)
    else Ok (map (fun _ => 0) sh, true).
Proof.
  induction sh as [|d sh IH]; intros [|p ps] H; simpl in H; try discriminate; [reflexivity|].
  apply andb_true_iff in H as [H1 H2]. apply Nat.ltb_lt in H1.
  cbn [length seq]. rewrite <- seq_shift. cbn [rev]. rewrite <- map_rev.
  rewrite step_below, (IH _ H2). pose proof (flat_lt _ _ H2) as Hf.
  change (prod (d :: sh)) with (d * prod sh). cbn [flat map].
  destruct (Nat.ltb_spec (S (flat sh ps)) (prod sh)) as [L|L].
  - cbn [rbind fst snd].
    rewrite (proj2 (Nat.ltb_lt _ _)) by nia. do 2 f_equal.
    apply (flat_inj (d :: sh)).
    + simpl. rewrite unflat_in_bounds, andb_true_r by auto. apply Nat.ltb_lt; auto.
    + apply unflat_in_bounds. change (prod (d :: sh)) with (d * prod sh). nia.
    + rewrite flat_unflat by (change (prod (d :: sh)) with (d * prod sh); nia).
      cbn [flat]. rewrite flat_unflat by auto. lia.
  - cbn [rbind fst snd step]. unfold index. cbn [nth_error unwrap rbind].
    rewrite usub_ok by lia. cbn [rbind]. cbn [set_nth].
    destruct (Nat.eqb_spec p (d - 1)) as [E|E].
    + destruct (Nat.ltb_spec (S (p * prod sh + flat sh ps)) (d * prod sh)) as [L'|L']; [exfalso; nia|].
      reflexivity.
    + rewrite (proj2 (Nat.ltb_lt _ _)) by nia. do 2 f_equal.
      assert (Z : in_bounds sh (map (fun _ => 0) sh) = true /\ flat sh (map (fun _ => 0) sh) = 0).
      { clear -H2. revert ps H2. induction sh as [|m sh IH]; intros [|q ps] H; simpl in *; try discriminate; auto.
        apply andb_true_iff in H as [A B]. apply Nat.ltb_lt in A. destruct (IH _ B) as [-> ->].
        rewrite (proj2 (Nat.ltb_lt 0 m)) by lia. auto. }
      destruct Z as [Z1 Z2].
      apply (flat_inj (d :: sh)).
      * simpl. rewrite Z1, andb_true_r. apply Nat.ltb_lt. lia.
      * apply unflat_in_bounds. change (prod (d :: sh)) with (d * prod sh). nia.
      * rewrite flat_unflat by (change (prod (d :: sh)) with (d * prod sh); nia).
        cbn [flat]. rewrite Z2. nia.
Qed.

(** ** The items *)

Lemma skipn_here {T} k : forall (l : list T) d, k < length l -> skipn k l = nth k l d :: skipn (S k) l.
Proof.
  induction k as [|k IH]; intros [|x l] d H; simpl in *; try lia; auto. apply IH. lia.
Qed.

Section Items.
Context {A : Type}.
Variable base : arr A.
Variables axes rs : list nat.
Hypothesis Hs : length (a_strides base) = length (a_shape base).
Hypothesis Ha : axes_ok (length (a_shape base)) axes.
Hypothesis Hr : renumber [] axes = Ok rs.
Notation L := (axis_lengths (a_shape base) axes).

Lemma L_length : length L = length axes.
Proof. unfold axis_lengths. apply map_length. Qed.

Lemma next_ok pos : in_bounds L pos = true ->
  next (mkIterator false (length axes) rs L pos base)
  = Ok (Some (view_at base axes pos),
        if Nat.ltb (S (flat L pos)) (prod L)
        then mkIterator false (length axes) rs L (unflat L (S (flat L pos))) base
        else mkIterator true (length axes) rs L (map (fun _ => 0) L) base).
Proof.
  intros H. unfold next. cbn [carrying underlying renumbered_axes positions it_ndim it_shape].
  rewrite (subview_ok base axes rs pos Hs Ha Hr H). cbn [rbind].
  rewrite backwards, <- L_length, (step_next L pos H).
  destruct (Nat.ltb _ _); reflexivity.
Qed.

Lemma items_done n (it : multi_axis_iterator A) : carrying it = true -> items n it = Ok (repeat None n).
Proof.
  intros H. induction n as [|n IH]; simpl; auto. unfold next. rewrite H. cbn [rbind fst snd].
  rewrite IH. reflexivity.
Qed.

Lemma items_from n : forall k, k < prod L ->
  items n (mkIterator false (length axes) rs L (unflat L k) base)
  = Ok (map (fun pos => Some (view_at base axes pos)) (firstn n (skipn k (indices L)))
        ++ repeat None (n - (prod L - k))).
Proof.
  induction n as [|n IH]; intros k Hk; [reflexivity|].
  cbn [items]. rewrite next_ok by (apply unflat_in_bounds; auto). cbn [rbind fst snd].
  rewrite flat_unflat by auto.
  assert (E : skipn k (indices L) = unflat L k :: skipn (S k) (indices L)).
  { unfold unflat. apply skipn_here. rewrite indices_length. auto. }
  rewrite E. cbn [firstn map app].
  destruct (Nat.ltb_spec (S k) (prod L)) as [H|H].
  - rewrite (IH _ H). cbn [rbind]. do 4 f_equal. lia.
  - rewrite items_done by reflexivity. cbn [rbind].
    rewrite skipn_all2 by (rewrite indices_length; lia). rewrite firstn_nil. cbn [map app].
    do 3 f_equal. lia.
Qed.

End Items.

Lemma iterator_items {A} (base : arr A) axes :
  length (a_strides base) = length (a_shape base) -> axes_ok (length (a_shape base)) axes ->
  (forall k, In k axes -> nth k (a_shape base) 0 <> 0) ->
  exists it, iterator_new base axes = Ok it
    /\ forall n, items n it
       = Ok (map (fun pos => Some (view_at base axes pos))
               (firstn n (indices (axis_lengths (a_shape base) axes)))
             ++ repeat None (n - prod (axis_lengths (a_shape base) axes))).
Proof.
  intros Hs Ha Hz. destruct (renumber_ok (length (a_shape base)) axes [] (proj1 Ha) (proj2 Ha)) as (rs & Er & _).
  unfold iterator_new. rewrite Er. cbn [rbind]. rewrite mapM_index_axes by apply Ha. cbn [rbind].
  eexists. split; [reflexivity|]. intros n.
  set (L := axis_lengths (a_shape base) axes).
  assert (Hp : prod L <> 0).
  { unfold L. clear -Hz. induction axes as [|k axes IH]; simpl; auto.
    change (fold_right Nat.mul 1 (axis_lengths (a_shape base) axes)) with (prod (axis_lengths (a_shape base) axes)).
    specialize (Hz k (or_introl eq_refl)) as H.
    assert (prod (axis_lengths (a_shape base) axes) <> 0) by (apply IH; intros; apply Hz; simpl; auto).
    change (nth k (a_shape base) 0 * prod (axis_lengths (a_shape base) axes) <> 0). nia. }
  assert (E : map (fun _ => 0) L = unflat L 0).
  { clear -Hp. induction L as [|d L IH]; auto. change (prod (d :: L)) with (d * prod L) in Hp.
    unfold unflat. destruct d; [lia|]. simpl. rewrite app_nth1 by (rewrite map_length, indices_length; lia).
    rewrite (nth_indep _ [] (0 :: [])) by (rewrite map_length, indices_length; lia).
    rewrite map_nth. f_equal. apply IH. lia. }
  rewrite E. pose proof (items_from base axes rs Hs Ha Er n 0) as H. fold L in H.
  rewrite H by lia. cbn [skipn]. rewrite Nat.sub_0_r. reflexivity.
Qed.

(** An axis of length zero: there is no view to take. *)
Lemma index_seen_out {A} (base : arr A) off P v Q p : Nat.ltb p (nth v (a_shape base) 0) = false ->
  index_axis (seen base off (P ++ v :: Q)) (length P) p = Panic.
Proof.
  intros H. unfold index_axis, seen. cbn [a_shape a_strides a_data a_off]. rewrite !map_app. cbn [map].
  rewrite <- (map_length (fun k => nth k (a_shape base) 0) P) at 1. rewrite index_mid. cbn [rbind].
  rewrite <- (map_length (fun k => nth k (a_strides base) 0%Z) P) at 1. rewrite index_mid. cbn [rbind].
  rewrite H. auto.
Qed.

Lemma subview_empty {A} (base : arr A) n axes : forall before off rs,
  NoDup (before ++ axes) -> Forall (fun k => k < n) axes -> renumber before axes = Ok rs ->
  (exists k, In k axes /\ nth k (a_shape base) 0 = 0) ->
  subview (seen base off (free_axes n before)) rs (map (fun _ => 0) axes) = Panic.
Proof.
  induction axes as [|v axes IH]; intros before off rs Hn Hb Er Hz.
  - destruct Hz as (k & [] & _).
  - inversion Hb as [|? ? Hv Hb']; subst.
    assert (Hn1 : NoDup ((before ++ [v]) ++ axes)) by (rewrite <- app_assoc; auto).
    destruct (free_split n before v) as (P & Q & E1 & E2 & E3); auto.
    { eapply NoDup_app_remove_r; eauto. }
    simpl in Er. rewrite E3 in Er. cbn [rbind] in Er.
    apply rbind_ok in Er as (rs' & Er & E). injection E as <-.
    unfold subview. cbn [map combine foldM fst snd]. rewrite E1.
    destruct (Nat.ltb 0 (nth v (a_shape base) 0)) eqn:E0.
    + rewrite (index_seen _ _ _ _ _ _ E0). cbn [rbind]. rewrite <- E2.
      apply (IH _ _ _ Hn1 Hb' Er). destruct Hz as (k & [->|Hk] & Ek); [|eauto].
      rewrite Ek in E0. discriminate.
    + rewrite (index_seen_out _ _ _ _ _ _ E0). reflexivity.
Qed.

Lemma iterator_empty {A} (base : arr A) axes :
  length (a_strides base) = length (a_shape base) -> axes_ok (length (a_shape base)) axes ->
  (exists k, In k axes /\ nth k (a_shape base) 0 = 0) ->
  exists it, iterator_new base axes = Ok it /\ next it = Panic.
Proof.
  intros Hs Ha Hz. destruct (renumber_ok (length (a_shape base)) axes [] (proj1 Ha) (proj2 Ha)) as (rs & Er & _).
  unfold iterator_new. rewrite Er. cbn [rbind]. rewrite mapM_index_axes by apply Ha. cbn [rbind].
  eexists. split; [reflexivity|]. unfold next.
  cbn [carrying underlying renumbered_axes positions it_ndim it_shape].
  pose proof (subview_empty base _ axes [] (a_off base) rs (proj1 Ha) (proj2 Ha) Er Hz) as H.
  unfold seen in H. rewrite free_axes_none, map_nth_seq in H. rewrite <- Hs, map_nth_seq in H.
  unfold axis_lengths. rewrite map_map. destruct base as [data off sh st]. cbn [a_shape a_strides a_data a_off] in *.
  rewrite H. reflexivity.
Qed.

(** An axis the array does not have. *)
Lemma iterator_no_axis {A} (base : arr A) axes k : In k axes -> length (a_shape base) <= k ->
  iterator_new base axes = Panic.
Proof.
  intros Hk Hl. unfold iterator_new. destruct (renumber [] axes) as [rs| |] eqn:Er; [|exfalso|reflexivity]; cbn [rbind].
  - replace (mapM (index (a_shape base)) axes) with (@Panic (list nat)); [reflexivity|].
    clear -Hk Hl. induction axes as [|v axes IH]; [destruct Hk|]. cbn [mapM].
    destruct (Nat.lt_ge_cases v (length (a_shape base))) as [H|H].
    + rewrite (index_nth _ _ 0 H). cbn [rbind]. rewrite <- IH; [reflexivity|].
      destruct Hk as [->|Hk]; auto. lia.
    + rewrite index_out by auto. reflexivity.
  - clear -Er. revert Er. generalize (@nil nat) as before. induction axes as [|v axes IH]; intros before Er; [discriminate|].
    cbn [renumber] in Er. unfold renumbered, usub in Er. destruct (_ <=? _); [|discriminate]. cbn [rbind] in Er.
    destruct (renumber (before ++ [v]) axes) as [rs|m'|] eqn:E; try discriminate.
    cbn [rbind] in Er. injection Er as ->. exact (IH _ E).
Qed.

(** ** Adding up *)

Section Adding.
Context {A : Type} {Sc : Scalar A}.

Lemma fold_sum_n (f : nat -> A) n : fold_left (fun x k => sadd x (f k)) (seq 0 n) szero = sum_n n f.
Proof.
  induction n as [|n IH]; [reflexivity|]. rewrite seq_S, fold_left_app. cbn [fold_left plus]. rewrite IH. reflexivity.
Qed.

Lemma fold_sum_over (SR : near_semiring A) sh (f : list nat -> A) :
  fold_left (fun x p => sadd x (f p)) (indices sh) szero = sum_over sh f.
Proof.
  change (sum_over sh f) with (sum_idx sh f). rewrite <- (sum_idx_unflat SR), <- fold_sum_n, <- map_unflat.
  generalize (seq 0 (prod sh)) as l. generalize (szero (A := A)) as z. intros z l. revert z.
  induction l as [|k l IH]; intros z; simpl; auto.
Qed.

(** The sum over some axes is an einsum. *)
Lemma axes_value_einsum (SR : semiring A) (a : arr A) u axes size o :
  a_shape a = map size u -> NoDup u -> axes_ok (length u) axes ->
  in_bounds (map size (axis_labels u (free_axes (length u) axes))) o = true ->
  einsum_value size [a] [u] (axis_labels u (free_axes (length u) axes)) o
  = sum_over (axis_lengths (a_shape a) axes)
      (fun z => elem a (place (length u) (free_axes (length u) axes ++ axes) (o ++ z))).
Proof.
  intros Sa Nu Ha Ho. set (fa := free_axes (length u) axes) in *. set (out := axis_labels u fa) in *.
  set (C := axis_labels u axes).
  assert (NC : NoDup C) by (apply axis_labels_NoDup; auto).
  assert (Du : forall c, In c out -> ~ In c C).
  { intros c H1 H2. exact (axis_labels_disjoint u axes c Nu Ha H1 H2). }
  assert (No : NoDup out).
  { apply axis_labels_NoDup; auto. split; [apply NoDup_filter, seq_NoDup|apply free_axes_bound]. }
  assert (HC : forall c, In c C <-> In c (concat [u]) /\ ~ In c out).
  { intros c. simpl. rewrite app_nil_r. split.
    - intros Hc. split; [eapply axis_labels_In; [|exact Hc]; apply Ha|]. intros H. eapply Du; eauto.
    - intros [H Hn]. destruct (axis_labels_all u axes c Ha H); auto. contradiction. }
  unfold einsum_value.
  rewrite (nested_sum_perm (semiring_near SR) size (summed_labels [u] out) C (concat [u])).
  2: apply term_dep.
  2: apply summed_labels_NoDup.
  2: apply Permutation_sym, summed_labels_perm; auto.
  rewrite nested_sum_idx, Sa. change (@sum_over A Sc) with (@sum_idx A Sc).
  replace (axis_lengths (map size u) axes) with (map size C).
  2:{ unfold axis_lengths, C, axis_labels. rewrite map_map. apply map_ext_in.
    intros k Hk. destruct Ha as [_ Hb]. rewrite Forall_forall in Hb.
    rewrite nth_indep with (d' := size 0%N) by (rewrite map_length; auto). symmetry. apply map_nth. }
  apply sum_idx_ext. intros z Hz. unfold term, product. simpl.
  set (e := over C z (bind out o)).
  rewrite (mul_1_r SR).
  assert (Lz : length z = length C) by (apply in_bounds_length in Hz; rewrite map_length in Hz; auto).
  assert (Ez : map e C = z) by (apply map_over; auto).
  assert (Eo : map e out = o).
  { unfold e. rewrite map_over_out by auto.
    apply map_bind; auto. apply in_bounds_length in Ho. rewrite map_length in Ho. auto. }
  f_equal. rewrite <- (place_labels u (fa ++ axes)) by (apply free_axes_perm; auto).
  unfold axis_labels at 1. rewrite map_app. fold (axis_labels u fa). fold (axis_labels u axes). fold out. fold C.
  rewrite map_app, Ez, Eo. auto.
Qed.

End Adding.
