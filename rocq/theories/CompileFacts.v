(** Which hand-made contraction orders [EinsumPath::from_path] compiles. *)
From Verif Require Import Base BaseFacts NDArray Validation Optimizers Strategies Singleton Pair Path
  Api Spec ValidationFacts SumFacts ArrayFacts SingletonFacts PairMain PathFacts EinsumMain MisuseFacts HandFacts LimitsFacts
  Examples.
From Coq Require Import Lia.

(** ** The specification *)

(** A contraction of one operand: the output has no more labels than the operand has different ones. If the
    labels of the operand differ, those of the output must occur among them, and no length is needed. If
    one is repeated, every label of both needs a length, and the output may have labels of its own. *)
Definition singleton_compiles (sc : sized_contraction) : Prop :=
  exists this, operand_indices (sc_contraction sc) = [this]
    /\ let out := output_indices (sc_contraction sc) in
       length out <= length (distinct this)
       /\ (NoDup this -> incl out this)
       /\ (~ NoDup this -> forall c, In c (this ++ out) -> lookup c (sc_output_size sc) <> None).

(** A contraction of a pair. *)
Definition pair_compiles (sc : sized_contraction) : Prop :=
  length (operand_indices (sc_contraction sc)) = 2 /\ complete sc.

(** An order. *)
Definition order_compiles (order : contraction_order) : Prop :=
  match order with
  | Singleton sc => singleton_compiles sc
  | Pairs steps => Forall (fun st => pair_compiles (ps_sc st)) steps
  end.

(** ** One operand *)

Lemma size_of_mapM m cs :
  ((forall c, In c cs -> lookup c m <> None) -> mapM (size_of m) cs = Ok (map (default_size m) cs))
  /\ (~ (forall c, In c cs -> lookup c m <> None) -> mapM (size_of m) cs = Panic).
Proof.
  split.
  - intros H. apply mapM_ok. intros c Hc. unfold size_of, default_size.
    specialize (H c Hc). destruct (lookup c m); [reflexivity|congruence].
  - intros H. destruct (ops_labels_dec m cs) as [H'|(c & Hc & E)]; [tauto|].
    apply mapM_panic with (x := c); auto.
    + unfold size_of. rewrite E. reflexivity.
    + intros y msg _. apply size_of_ne.
Qed.

Lemma positions_mapM cs l :
  (incl cs l -> exists axes, mapM (fun o => unwrap (position o l)) cs = Ok axes)
  /\ (~ incl cs l -> mapM (fun o => unwrap (position o l)) cs = Panic).
Proof.
  induction cs as [|c cs [IH1 IH2]]; split; intros H; simpl.
  - eauto.
  - exfalso. apply H. intros c [].
  - assert (Hc : In c l) by (apply H; simpl; auto).
    destruct (position c l) eqn:E; [|apply position_None in E; contradiction]. simpl.
    destruct IH1 as (axes & Ea); [intros d Hd; apply H; simpl; auto|]. rewrite Ea. simpl. eauto.
  - destruct (position c l) eqn:E; auto. apply position_Some_In in E. simpl.
    rewrite IH2; auto. intros Hi. apply H. intros d [<-|Hd]; auto.
Qed.

Lemma incl_dec (cs l : list char) : incl cs l \/ ~ incl cs l.
Proof.
  induction cs as [|c cs [IH|IH]].
  - left. intros c [].
  - destruct (in_dec N.eq_dec c l) as [H|H].
    + left. intros d [<-|Hd]; auto.
    + right. intros Hi. apply H, Hi. simpl. auto.
  - right. intros Hi. apply IH. intros d Hd. apply Hi. simpl. auto.
Qed.

Lemma adjusted_labels this out ex (m : output_size_map) :
  (forall c, In c ex <-> In c this /\ ~ In c out) ->
  (forall c, In c (out ++ ex) -> lookup c m <> None) <-> (forall c, In c (this ++ out) -> lookup c m <> None).
Proof.
  intros H. split; intros Hl c Hc; apply Hl; rewrite in_app_iff in *; rewrite H in *; [|tauto].
  destruct (in_dec N.eq_dec c out); tauto.
Qed.

Lemma diagonalization_new_exact sc this : operand_indices (sc_contraction sc) = [this] ->
  let out := output_indices (sc_contraction sc) in
  exists ex m, (forall c, In c ex <-> In c this /\ ~ In c out)
    /\ ((forall c, In c (this ++ out) -> lookup c (sc_output_size sc) <> None) ->
        diagonalization_new sc = Ok (mkDiag m (map (default_size (sc_output_size sc)) (out ++ ex))))
    /\ (~ (forall c, In c (this ++ out) -> lookup c (sc_output_size sc) <> None) ->
        diagonalization_new sc = Panic).
Proof.
  intros E out. destruct (diag_mapping_ok this out) as (ex & m & Em & _ & Hex & _).
  exists ex, m. split; auto. unfold diagonalization_new. rewrite E. cbn [length Nat.eqb rassert rbind].
  unfold index. cbn [nth_error unwrap rbind]. fold out. rewrite Em.
  destruct (size_of_mapM (sc_output_size sc) (out ++ ex)) as [H1 H2].
  rewrite (adjusted_labels this out ex _ Hex) in H1, H2. split; intros H.
  - rewrite H1 by auto. reflexivity.
  - rewrite H2 by auto. reflexivity.
Qed.

Lemma singleton_new_exact sc this : operand_indices (sc_contraction sc) = [this] ->
  let out := output_indices (sc_contraction sc) in
  let good := length out <= length (distinct this)
    /\ (NoDup this -> incl out this)
    /\ (~ NoDup this -> forall c, In c (this ++ out) -> lookup c (sc_output_size sc) <> None) in
  (good -> exists c, singleton_contraction_new sc = Ok c)
  /\ (~ good -> singleton_contraction_new sc = Panic).
Proof.
  intros E out good. unfold singleton_contraction_new, singleton_summary_new.
  rewrite E. cbn [length Nat.eqb rassert rbind]. unfold index. cbn [nth_error unwrap rbind]. fold out.
  unfold singleton_summary_from_indices.
  destruct (le_gt_dec (length out) (length (distinct this))) as [Hle|Hgt].
  2:{ unfold usub. rewrite (proj2 (Nat.leb_gt _ _)) by lia. cbn [rbind]. split; auto.
      intros (H & _). exfalso. lia. }
  rewrite usub_ok by auto. cbn [rbind]. unfold singleton_strategy.
  cbn [num_summed_axes num_diagonalized_axes num_reordered_axes].
  destruct (length (filter (fun c => Nat.ltb 1 (count c this)) (distinct this))) as [|nd] eqn:End.
  - apply diagonalized_zero in End. rewrite distinct_fixed in Hle |- * by auto.
    assert (Hg : good <-> incl out this).
    { unfold good. rewrite distinct_fixed by auto. tauto. }
    rewrite Hg. clear Hg good.
    assert (Hsum : length out < length this -> exists s, summation_new sc = Ok s).
    { intros Hl. unfold summation_new. rewrite E. fold out. unfold index. cbn [nth_error unwrap rbind].
      rewrite usub_ok by lia. cbn [rbind]. unfold summation_from_sizes.
      rewrite rassert_true by (apply Nat.leb_le; lia). cbn [rbind]. eauto. }
    assert (Hpre : length (filter (fun oi => negb (N.eqb (fst oi) (snd oi))) (combine out this)) = 0 -> incl out this).
    { intros H. destruct (reordered_zero this out Hle H) as (rest & ->). intros c Hc. apply in_or_app. auto. }
    destruct (positions_mapM out this) as [P1 P2].
    destruct (length this - length out) as [|ns] eqn:Ens;
      destruct (length (filter (fun oi => negb (N.eqb (fst oi) (snd oi))) (combine out this))) as [|nr] eqn:Enr;
      cbn [singleton_op_new].
    + cbn [rbind]. split; [eauto|]. intros H. elim H. auto.
    + unfold permutation_new. rewrite E. fold out. cbn [length Nat.eqb rassert rbind]. unfold index.
      cbn [nth_error unwrap rbind]. rewrite (proj2 (Nat.eqb_eq _ _)) by lia. cbn [rassert rbind]. split; intros H.
      * destruct (P1 H) as (axes & ->). cbn [rbind]. eauto.
      * rewrite (P2 H). reflexivity.
    + destruct Hsum as (s & ->); [lia|]. cbn [rbind]. split; [eauto|]. intros H. elim H. auto.
    + unfold perm_and_sum_new. rewrite E. fold out. unfold index. cbn [nth_error unwrap rbind]. split; intros H.
      * destruct (P1 H) as (axes & ->). cbn [rbind]. destruct Hsum as (s & ->); [lia|]. cbn [rbind]. eauto.
      * rewrite (P2 H). reflexivity.
  - assert (Hn : ~ NoDup this) by (intros Hn; apply diagonalized_zero in Hn; congruence).
    assert (Hg : good <-> forall c, In c (this ++ out) -> lookup c (sc_output_size sc) <> None).
    { unfold good. tauto. }
    rewrite Hg. clear Hg good.
    destruct (diagonalization_new_exact sc this E) as (ex & m & Hex & D1 & D2). fold out in Hex, D1, D2.
    destruct (length (distinct this) - length out) as [|ns] eqn:Ens; cbn [singleton_op_new].
    + split; intros H; [rewrite (D1 H)|rewrite (D2 H)]; cbn [rbind]; eauto.
    + unfold diag_and_sum_new. fold out. split; intros H; [rewrite (D1 H)|rewrite (D2 H); reflexivity].
      cbn [rbind diag_output_shape]. rewrite map_length, app_length, usub_ok by lia. cbn [rbind].
      assert (Hl : 1 <= length ex).
      { destruct ex as [|c ex]; simpl; [|lia]. exfalso.
        assert (Hi : incl (distinct this) out).
        { intros c Hc. rewrite distinct_In in Hc. destruct (in_dec N.eq_dec c out); auto.
          exfalso. apply (proj2 (Hex c)). auto. }
        apply NoDup_incl_length in Hi; [lia|apply distinct_NoDup]. }
      unfold summation_from_sizes. rewrite rassert_true by (apply Nat.leb_le; lia). cbn [rbind]. eauto.
Qed.

Lemma singleton_compiles_exact sc :
  (singleton_compiles sc -> exists c, singleton_contraction_new sc = Ok c)
  /\ (~ singleton_compiles sc -> singleton_contraction_new sc = Panic).
Proof.
  split.
  - intros (this & E & H). apply (singleton_new_exact sc this E). exact H.
  - intros Hn. destruct (operand_indices (sc_contraction sc)) as [|this [|b ops]] eqn:E.
    1,3: unfold singleton_contraction_new, singleton_summary_new; rewrite E; reflexivity.
    apply (singleton_new_exact sc this E). intros H. apply Hn. exists this. auto.
Qed.

(** ** Pairs *)

Lemma simplification_from_agree h k this other output sc sc' : agree sc sc' ->
  incl this (concat (operand_indices (sc_contraction sc))) ->
  simplification_from h k this other output sc = simplification_from h k this other output sc'.
Proof.
  intros Ha Hi. unfold simplification_from. rewrite (subset_agree h (1 :: k) sc sc' [this]); auto.
  simpl. rewrite app_nil_r. auto.
Qed.

Lemma simplification_labels h k this other output sc s : hash_ok h ->
  simplification_from h k this other output sc = Ok (Some s) -> incl (simpl_new_indices s) this.
Proof.
  intros Hh E. unfold simplification_from in E.
  apply bind_Ok in E as (ssc & _ & E). apply bind_Ok in E as (c & _ & E).
  assert (E' : simpl_new_indices s = h (0 :: k)
            (filter (fun c => mem c (distinct (distinct other ++ distinct output))) (distinct this))).
  { destruct (sgl_method c); try discriminate E;
      apply bind_Ok in E as (str & _ & E); injection E as <-; reflexivity. }
  rewrite E'. intros d Hd. apply (Permutation_in _ (Permutation_sym (Hh _ _))) in Hd.
  apply filter_In in Hd as [Hd _]. rewrite distinct_In in Hd. auto.
Qed.

Lemma pair_new_agree h k sc sc' : hash_ok h -> agree sc sc' ->
  pair_contraction_new h k sc = pair_contraction_new h k sc'.
Proof.
  intros Hh Ha. pose proof Ha as (Ho & Hu & _). unfold pair_contraction_new. rewrite <- Ho, <- Hu.
  destruct (operand_indices (sc_contraction sc)) as [|lhs [|rhs [|x ops]]] eqn:E; auto.
  cbn [length Nat.eqb rassert rbind]. unfold index. cbn [nth_error unwrap rbind].
  rewrite (simplification_from_agree h (0 :: k) lhs rhs _ sc sc' Ha).
  2:{ rewrite E. simpl. intros c Hc. apply in_or_app; auto. }
  rewrite (simplification_from_agree h (1 :: k) rhs lhs _ sc sc' Ha).
  2:{ rewrite E. simpl. rewrite app_nil_r. intros c Hc. apply in_or_app; auto. }
  destruct (simplification_from h (0 :: k) lhs rhs _ sc') as [ls|?|] eqn:El; cbn [rbind]; auto.
  destruct (simplification_from h (1 :: k) rhs lhs _ sc') as [rs|?|] eqn:Er; cbn [rbind]; auto.
  rewrite (subset_agree h (2 :: k) sc sc'); auto. rewrite E. simpl. rewrite !app_nil_r.
  apply incl_app.
  - destruct ls as [s|]; [apply incl_appl; eapply simplification_labels; eauto|apply incl_appl, incl_refl].
  - destruct rs as [s|]; [apply incl_appr; eapply simplification_labels; eauto|apply incl_appr, incl_refl].
Qed.

Lemma simplification_missing h k this other output sc : hash_ok h ->
  ~ (forall c, In c this -> lookup c (sc_output_size sc) <> None) ->
  simplification_from h k this other output sc = Panic.
Proof.
  intros Hh Hn. unfold simplification_from.
  destruct (proj2 (subset_iff h (1 :: k) sc [this]
              (h (0 :: k) (filter (fun c => mem c (distinct (distinct other ++ distinct output))) (distinct this))) Hh))
    as (m & ->); [|reflexivity].
  simpl. rewrite app_nil_r. tauto.
Qed.

Lemma pair_compiles_exact h k sc : hash_ok h ->
  (pair_compiles sc -> exists p, pair_contraction_new h k sc = Ok p)
  /\ (~ pair_compiles sc -> pair_contraction_new h k sc = Panic).
Proof.
  intros Hh. split.
  - intros [Hl Hc]. pose proof (normal_sized sc _ Hc (complete_lengths sc Hc)) as HS.
    rewrite (pair_new_agree h k sc (normal sc) Hh (normal_agree sc)).
    destruct (operand_indices (sc_contraction sc)) as [|lhs [|rhs [|x ops]]]; try discriminate Hl.
    set (size := default_size (sc_output_size sc)) in *.
    destruct (pair_contraction_ok h size Hh c_backend c_backend_ok eq _ (eq_weak Z_semiring) (eq_no_empty size)
                (eq_weak_fused c_backend Z_semiring c_backend_ok) Z_semiring (semiring_summable size Z_semiring)
                k (normal sc) lhs rhs _ HS) as (p & E & _). eauto.
  - intros Hn. unfold pair_compiles, complete in Hn. unfold pair_contraction_new.
    destruct (operand_indices (sc_contraction sc)) as [|lhs [|rhs [|x ops]]]; try reflexivity.
    cbn [length Nat.eqb rassert rbind]. unfold index. cbn [nth_error unwrap rbind].
    set (out := output_indices (sc_contraction sc)) in *.
    pose proof (simplification_from_ne h (0 :: k) lhs rhs out sc) as Nl.
    pose proof (simplification_from_ne h (1 :: k) rhs lhs out sc) as Nr.
    destruct (ops_labels_dec (sc_output_size sc) lhs) as [Hl|(c & Hc & Em)].
    2:{ rewrite simplification_missing; auto. intros H. apply (H c Hc Em). }
    destruct (simplification_from h (0 :: k) lhs rhs out sc) as [ls|m|] eqn:El; [|elim (Nl m); auto|reflexivity].
    cbn [rbind].
    destruct (ops_labels_dec (sc_output_size sc) rhs) as [Hr|(c & Hc & Em)].
    2:{ rewrite simplification_missing; auto. intros H. apply (H c Hc Em). }
    destruct (simplification_from h (1 :: k) rhs lhs out sc) as [rs|m|] eqn:Er; [|elim (Nr m); auto|reflexivity].
    cbn [rbind].
    assert (Hno : ~ output_ok [lhs; rhs] out).
    { intros Ho. apply Hn. split; [reflexivity|]. split; [discriminate|]. split; auto.
      simpl. rewrite app_nil_r. intros c Hc. apply in_app_iff in Hc as [Hc|Hc]; auto. }
    match goal with |- context [subset ?h ?k ?sc ?l ?o] =>
      destruct (proj2 (subset_iff h k sc l o Hh)) as (m & ->); [|reflexivity] end.
    intros (_ & Hd & Hi). apply Hno. split; auto. intros c Hc. specialize (Hi c Hc).
    simpl in Hi |- *. rewrite app_nil_r in Hi |- *. apply in_app_iff in Hi. apply in_or_app.
    destruct Hi as [Hi|Hi]; [left|right].
    + destruct ls as [s|]; auto. eapply simplification_labels; eauto.
    + destruct rs as [s|]; auto. eapply simplification_labels; eauto.
Qed.

Lemma pair_compiles_dec sc : pair_compiles sc \/ ~ pair_compiles sc.
Proof.
  unfold pair_compiles. destruct (Nat.eq_dec (length (operand_indices (sc_contraction sc))) 2);
    [|right; tauto]. destruct (complete_dec sc); tauto.
Qed.

Lemma Forall_dec_neg {T} (P : T -> Prop) l : (forall x, P x \/ ~ P x) ->
  Forall P l \/ exists n x, nth_error l n = Some x /\ ~ P x.
Proof.
  intros Hd. induction l as [|x l [IH|(n & y & E & Hn)]]; [left; auto| |right; exists (Datatypes.S n), y; auto].
  destruct (Hd x) as [H|H]; [left; auto|right; exists 0, x; auto].
Qed.

Lemma combine_seq_nth {T} (l : list T) : forall s n x, nth_error l n = Some x ->
  In (s + n, x) (combine (seq s (length l)) l).
Proof.
  induction l as [|y l IH]; intros s n x; [destruct n; discriminate|].
  destruct n as [|n]; simpl; intros E.
  - injection E as ->. left. f_equal. lia.
  - right. replace (s + Datatypes.S n) with (Datatypes.S s + n) by lia. apply IH. auto.
Qed.

Lemma mapM_all_ok {T U} (f : T -> res U) l : (forall x, In x l -> exists y, f x = Ok y) ->
  exists ys, mapM f l = Ok ys.
Proof.
  induction l as [|x l IH]; simpl; intros H; [eauto|].
  destruct (H x) as (y & ->); auto. simpl. destruct IH as (ys & ->); auto. simpl. eauto.
Qed.
