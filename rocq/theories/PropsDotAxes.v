(** The axes of the operands of [tensordot] (C83): permuting them, and the axes named in the call with them, permutes the
    axes of the result and changes no bit of its elements. Nor does swapping the operands, if multiplication is commutative. *)
From Verif Require Import Base BaseFacts NDArray Validation Optimizers Singleton Pair Path Api Spec ParserFacts ValidationMain SumFacts
  ArrayFacts PathFacts EinsumMain EinsumProps AlgebraFacts TensordotMain AdjointFacts UniqueFacts Schedule NdSchedule NdScheduleFacts
  NdLayoutFacts TwinFacts FloatFacts FloatMain DotAlgebra Examples PropsTensordot PropsFloat PropsNdarray
  PropsExact PropsReduce PropsWriting PropsDotAlgebra.
From Coq Require Import Lia ZArith.
Local Open Scope list_scope.
Local Open Scope nat_scope.

(** The index into the axes [axes] of an array whose axis [k] is at position [at_axis k] [lib.rs:285]. *)
Definition along (at_axis : nat -> nat) (axes : list nat) : list nat := map at_axis axes.

Lemma permuted_ok {A} {Sc : Scalar A} (a a' : arr A) pa : wf a -> permuted_axes a pa = Ok a' ->
  Permutation pa (seq 0 (length (a_shape a))) /\ wf a' /\ a_shape a' = map (fun k => nth k (a_shape a) 0) pa
  /\ forall e : nat -> nat, a_get a' (map e pa) = a_get a (map e (seq 0 (length (a_shape a)))).
Proof.
  intros Wa E.
  assert (Hp : Permutation pa (seq 0 (length (a_shape a)))).
  { unfold permuted_axes in E. destruct (_ && _) eqn:V; [apply valid_axes in V; auto|discriminate]. }
  split; auto.
  destruct (permuted_get a pa Hp) as (r & E' & Hs & Hl & He); [apply Wa|]. assert (r = a') by congruence. subst r.
  split; [|auto].
  destruct (permuted_holds a (a_shape a) (elem a) pa (wf_holds a Wa) Hp) as (r & E'' & Hh). assert (r = a') by congruence. subst r.
  eapply holds_wf. apply (Hh (elem a')). intros e _. unfold elem. rewrite He. reflexivity.
Qed.

Lemma app_inv_length {T} (l l' m m' : list T) : l ++ m = l' ++ m' -> length l = length l' -> l = l' /\ m = m'.
Proof.
  revert l'; induction l as [|x l IH]; intros [|y l'] E L; cbn in *; try discriminate; auto.
  injection E as <- E. injection L as L. destruct (IH l' E L) as [-> ->]. auto.
Qed.

Section Permuted.
Context {A : Type} {Sc : Scalar A}.

(** An operand's element, with its axes permuted. *)
Lemma permuted_elem (a a' : arr A) pa ax vals ax' : wf a -> permuted_axes a pa = Ok a' ->
  Permutation ax' (seq 0 (length (a_shape a))) ->
  elem a' (place (length (a_shape a')) ax' (map (fun k => value_at ax vals (nth k pa 0)) ax')) = elem a (place (length (a_shape a)) ax vals).
Proof.
  intros Wa E Hax. destruct (permuted_ok a a' pa Wa E) as (Hp & _ & Hs & He).
  assert (L : length pa = length (a_shape a)) by (rewrite (Permutation_length Hp), seq_length; auto).
  rewrite Hs, map_length, L, place_map by auto.
  replace (map (fun k => value_at ax vals (nth k pa 0)) (seq 0 (length (a_shape a)))) with (map (value_at ax vals) pa).
  - unfold elem. rewrite He. reflexivity.
  - rewrite <- (map_nth_seq pa 0) at 1. rewrite map_map, L. reflexivity.
Qed.

(** The axes kept and the axes summed over, before and after. *)
Lemma permuted_axes_of n pa la la' : Permutation pa (seq 0 n) -> axes_ok n la -> Forall (fun k => k < n) la' ->
  la = map (fun k => nth k pa 0) la' ->
  axes_ok n la' /\ forall k, In k (free_axes n la') -> In (nth k pa 0) (free_axes n la).
Proof.
  intros Hp [Nl Bl] Hb E. assert (L : length pa = n) by (rewrite (Permutation_length Hp), seq_length; auto).
  assert (Np : NoDup pa) by (eapply axes_NoDup; eauto). split.
  - split; auto. rewrite E in Nl. apply NoDup_map_inv in Nl. auto.
  - intros k Hk. apply free_axes_In in Hk as [Hk Hn]. apply free_axes_In. split.
    + assert (In (nth k pa 0) (seq 0 n)) as H by (apply (Permutation_in _ Hp), nth_In; lia). apply in_seq in H. lia.
    + rewrite E. intros H. apply in_map_iff in H as (k0 & E0 & H0). apply Hn. rewrite Forall_forall in Hb. specialize (Hb _ H0).
      assert (k0 = k) by (apply (proj1 (NoDup_nth pa 0) Np); auto; lia). subst; auto.
Qed.

(** The values of the index at the permuted axes: [i] at the axes kept, [z] at the others. *)
Lemma permuted_values n pa la la' (i : nat -> nat) z : Permutation pa (seq 0 n) -> axes_ok n la -> Forall (fun k => k < n) la' ->
  la = map (fun k => nth k pa 0) la' -> length z = length la ->
  let fa := free_axes n la in let fa' := free_axes n la' in
  map (fun k => value_at (fa ++ la) (along i fa ++ z) (nth k pa 0)) (fa' ++ la') = along (fun k => i (nth k pa 0)) fa' ++ z.
Proof.
  intros Hp Ha Hb E Lz fa fa'. destruct (permuted_axes_of n pa la la' Hp Ha Hb E) as [Ha' Hf].
  assert (Nf : NoDup (fa ++ la)) by (eapply axes_NoDup; apply free_axes_perm; auto).
  pose proof (map_value_at (fa ++ la) (along i fa ++ z) Nf) as M. unfold along in *.
  rewrite !app_length, map_length in M. specialize (M ltac:(lia)). rewrite map_app in M.
  apply app_inv_length in M as [M1 M2]; [|rewrite !map_length; auto].
  rewrite map_app. f_equal.
  - apply map_ext_in. intros k Hk. specialize (Hf k Hk). fold fa in Hf.
    exact (proj1 map_ext_in_iff M1 _ Hf).
  - transitivity (map (value_at (fa ++ la) (map i fa ++ z)) la); [|exact M2].
    transitivity (map (value_at (fa ++ la) (map i fa ++ z)) (map (fun k => nth k pa 0) la')); [rewrite map_map; reflexivity|].
    rewrite <- E. reflexivity.
Qed.

Lemma permuted_operand (a a' : arr A) pa la la' (i : nat -> nat) z : wf a -> permuted_axes a pa = Ok a' ->
  axes_ok (length (a_shape a)) la -> Forall (fun k => k < length (a_shape a)) la' ->
  la = map (fun k => nth k pa 0) la' -> length z = length la ->
  let n := length (a_shape a) in let n' := length (a_shape a') in
  elem a' (place n' (free_axes n' la' ++ la') (along (fun k => i (nth k pa 0)) (free_axes n' la') ++ z))
  = elem a (place n (free_axes n la ++ la) (along i (free_axes n la) ++ z)).
Proof.
  intros Wa E Ha Hb El Lz n n'. destruct (permuted_ok a a' pa Wa E) as (Hp & _ & Hs & _).
  assert (En : n' = n) by (unfold n', n; rewrite Hs, map_length, (Permutation_length Hp), seq_length; auto). rewrite En.
  destruct (permuted_axes_of n pa la la' Hp Ha Hb El) as [Ha' _].
  rewrite <- (permuted_values n pa la la' i z Hp Ha Hb El Lz). rewrite <- En at 1. apply (permuted_elem a a' pa); auto. apply free_axes_perm; auto.
Qed.

Lemma permuted_lengths (a a' : arr A) pa la la' : wf a -> permuted_axes a pa = Ok a' -> Forall (fun k => k < length (a_shape a)) la' ->
  la = map (fun k => nth k pa 0) la' -> axis_lengths (a_shape a') la' = axis_lengths (a_shape a) la.
Proof.
  intros Wa E Hb ->. destruct (permuted_ok a a' pa Wa E) as (Hp & _ & Hs & _).
  assert (L : length pa = length (a_shape a)) by (rewrite (Permutation_length Hp), seq_length; auto).
  unfold axis_lengths. rewrite map_map. apply map_ext_in. intros k Hk. rewrite Forall_forall in Hb. specialize (Hb _ Hk).
  rewrite Hs. rewrite nth_indep with (d' := nth 0 (a_shape a) 0) by (rewrite map_length; lia).
  apply (map_nth (fun k => nth k (a_shape a) 0)).
Qed.

Lemma along_in_bounds sh axes i : Forall (fun k => k < length sh) axes -> in_bounds sh (map i (seq 0 (length sh))) = true ->
  in_bounds (axis_lengths sh axes) (along i axes) = true.
Proof.
  intros Hb Hi. unfold axis_lengths, along. induction Hb as [|k axes Hk Hb IH]; cbn [map in_bounds]; auto.
  rewrite IH, andb_true_r. apply Nat.ltb_lt. rewrite <- (map_nth_seq sh 0) in Hi at 1.
  assert (G : forall l, in_bounds (map (fun k => nth k sh 0) l) (map i l) = true -> In k l -> i k < nth k sh 0).
  { intros l. induction l as [|x l IHl]; cbn [map in_bounds In]; [tauto|]. intros H [->|H'];
      apply andb_true_iff in H as [H1 H2]; [apply Nat.ltb_lt; auto|auto]. }
  apply (G _ Hi). apply in_seq. lia.
Qed.
End Permuted.

(** The two calls [lib.rs:269-294]: [a'] and [b'] are [a] and [b] with permuted axes, and axis [k] of [a'] is axis [nth k pa 0] of [a]. *)
Definition permuted_call {A} (a b a' b' : arr A) pa pb la ra la' ra' : Prop :=
  permuted_axes a pa = Ok a' /\ permuted_axes b pb = Ok b'
  /\ Forall (fun k => k < length (a_shape a)) la' /\ Forall (fun k => k < length (a_shape b)) ra'
  /\ la = map (fun k => nth k pa 0) la' /\ ra = map (fun k => nth k pb 0) ra'.

(** Where the elements of the second result are found in the first [lib.rs:285]. *)
Definition permuted_result {A} (a b : arr A) pa pb la ra la' ra' (r r' : arr A) : Prop :=
  let n := length (a_shape a) in let m := length (a_shape b) in
  forall i j, in_bounds (a_shape a) (map i (seq 0 n)) = true -> in_bounds (a_shape b) (map j (seq 0 m)) = true ->
    exists x, a_get r (along i (free_axes n la) ++ along j (free_axes m ra)) = Ok x
      /\ a_get r' (along (fun k => i (nth k pa 0)) (free_axes n la') ++ along (fun k => j (nth k pb 0)) (free_axes m ra')) = Ok x.

Lemma permuted_fit {A} {Sc : Scalar A} (a b a' b' : arr A) pa pb la ra la' ra' : wf a -> wf b -> axes_fit a b la ra ->
  permuted_call a b a' b' pa pb la ra la' ra' ->
  wf a' /\ wf b' /\ axes_fit a' b' la' ra' /\ length (a_shape a') = length (a_shape a) /\ length (a_shape b') = length (a_shape b).
Proof.
  intros Wa Wb (Hn & Ha & Hb & He) (Ea & Eb & Fa & Fb & El & Er).
  destruct (permuted_ok a a' pa Wa Ea) as (Hp & Wa' & Hs & _). destruct (permuted_ok b b' pb Wb Eb) as (Hq & Wb' & Ht & _).
  assert (La : length (a_shape a') = length (a_shape a)) by (rewrite Hs, map_length, (Permutation_length Hp), seq_length; auto).
  assert (Lb : length (a_shape b') = length (a_shape b)) by (rewrite Ht, map_length, (Permutation_length Hq), seq_length; auto).
  split; auto. split; auto. split; [|auto]. split; [apply (f_equal (@length _)) in El, Er; rewrite map_length in El, Er; lia|].
  rewrite La, Lb. split; [eapply permuted_axes_of; eauto|]. split; [eapply permuted_axes_of; eauto|].
  rewrite (permuted_lengths a a' pa la la'), (permuted_lengths b b' pb ra ra') by auto. auto.
Qed.

Lemma along_length i axes : length (along i axes) = length axes.
Proof. apply map_length. Qed.

(** In the bounds of the result. *)
Lemma permuted_bounds {A} {Sc : Scalar A} (a b a' b' : arr A) pa pb la ra la' ra' i j : wf a -> wf b -> axes_fit a b la ra ->
  permuted_call a b a' b' pa pb la ra la' ra' ->
  let n := length (a_shape a) in let m := length (a_shape b) in
  in_bounds (a_shape a) (map i (seq 0 n)) = true -> in_bounds (a_shape b) (map j (seq 0 m)) = true ->
  in_bounds (dot_shape a b la ra) (along i (free_axes n la) ++ along j (free_axes m ra)) = true
  /\ in_bounds (dot_shape a' b' la' ra')
       (along (fun k => i (nth k pa 0)) (free_axes n la') ++ along (fun k => j (nth k pb 0)) (free_axes m ra')) = true.
Proof.
  intros Wa Wb Hfit Hc n m Hi Hj. destruct (permuted_fit a b a' b' pa pb la ra la' ra' Wa Wb Hfit Hc) as (Wa' & Wb' & Hfit' & La & Lb).
  destruct Hc as (Ea & Eb & Fa & Fb & El & Er).
  unfold dot_shape. rewrite La, Lb. fold n m. split; apply in_bounds_app; try (apply along_in_bounds; auto; apply free_axes_bound).
  - assert (B : Forall (fun k => k < length (a_shape a)) (free_axes n la')) by apply free_axes_bound.
    rewrite (permuted_lengths a a' pa (map (fun k => nth k pa 0) (free_axes n la')) (free_axes n la')) by auto.
    replace (along (fun k => i (nth k pa 0)) (free_axes n la')) with (along i (map (fun k => nth k pa 0) (free_axes n la')))
      by (unfold along; rewrite map_map; auto).
    apply along_in_bounds; auto. apply Forall_map. rewrite Forall_forall in *. intros k Hk. specialize (B k Hk).
    destruct (permuted_ok a a' pa Wa Ea) as (Hp & _).
    assert (H : In (nth k pa 0) (seq 0 (length (a_shape a)))).
    { apply (Permutation_in _ Hp), nth_In. rewrite (Permutation_length Hp), seq_length. auto. }
    apply in_seq in H. lia.
  - assert (B : Forall (fun k => k < length (a_shape b)) (free_axes m ra')) by apply free_axes_bound.
    rewrite (permuted_lengths b b' pb (map (fun k => nth k pb 0) (free_axes m ra')) (free_axes m ra')) by auto.
    replace (along (fun k => j (nth k pb 0)) (free_axes m ra')) with (along j (map (fun k => nth k pb 0) (free_axes m ra')))
      by (unfold along; rewrite map_map; auto).
    apply along_in_bounds; auto. apply Forall_map. rewrite Forall_forall in *. intros k Hk. specialize (B k Hk).
    destruct (permuted_ok b b' pb Wb Eb) as (Hp & _).
    assert (H : In (nth k pb 0) (seq 0 (length (a_shape b)))).
    { apply (Permutation_in _ Hp), nth_In. rewrite (Permutation_length Hp), seq_length. auto. }
    apply in_seq in H. lia.
Qed.

Lemma split_app (p q : list nat) n : length p = n -> firstn n (p ++ q) = p /\ skipn n (p ++ q) = q.
Proof. intros <-. rewrite firstn_app, skipn_app, firstn_all, skipn_all, Nat.sub_diag, firstn_O, skipn_O, app_nil_r. auto. Qed.

(** The factors of an element are the same pairs of numbers, in the same order. *)
Lemma permuted_terms {A} {Sc : Scalar A} (a b a' b' : arr A) pa pb la ra la' ra' i j : wf a -> wf b -> axes_fit a b la ra ->
  permuted_call a b a' b' pa pb la ra la' ra' ->
  let n := length (a_shape a) in let m := length (a_shape b) in
  paired_terms a' b' la' ra' (along (fun k => i (nth k pa 0)) (free_axes n la') ++ along (fun k => j (nth k pb 0)) (free_axes m ra'))
  = paired_terms a b la ra (along i (free_axes n la) ++ along j (free_axes m ra)).
Proof.
  intros Wa Wb Hfit Hc n m. destruct (permuted_fit a b a' b' pa pb la ra la' ra' Wa Wb Hfit Hc) as (Wa' & Wb' & Hfit' & La & Lb).
  destruct Hc as (Ea & Eb & Fa & Fb & El & Er). destruct Hfit as (Hn & Ha & Hb & He). destruct Hfit' as (Hn' & Ha' & Hb' & He').
  unfold paired_terms.
  rewrite (permuted_lengths a a' pa la la'), (permuted_lengths b b' pb ra ra') by auto. rewrite <- He.
  apply map_ext_in. intros t Ht. apply in_seq in Ht.
  assert (Lz : length (unflat (axis_lengths (a_shape a) la) t) = length la).
  { pose proof (unflat_in_bounds (axis_lengths (a_shape a) la) t ltac:(lia)) as H. apply in_bounds_length in H. rewrite H. apply map_length. }
  set (z := unflat (axis_lengths (a_shape a) la) t) in *. clearbody z.
  assert (Ll : length la = length la') by (apply (f_equal (@length _)) in El; rewrite map_length in El; auto).
  assert (Dj : forall q axes, (forall k, In k (free_axes q axes) -> ~ In k axes)) by (intros q axes k Hk; apply free_axes_In in Hk; tauto).
  assert (Sw : forall q axes y, length z = length axes -> length y = length (free_axes q axes) ->
     place q (axes ++ free_axes q axes) (z ++ y) = place q (free_axes q axes ++ axes) (y ++ z)).
  { intros q axes y H1 H2. apply place_swap; auto.
    - intros k Hk Hf. exact (Dj _ _ _ Hf Hk).
    - intros k Hk. rewrite free_axes_In. destruct (in_dec Nat.eq_dec k axes); auto. }
  rewrite La, Lb. fold n m.
  rewrite (proj1 (split_app (along (fun k => i (nth k pa 0)) (free_axes n la')) _ _ (along_length _ _))).
  rewrite (proj2 (split_app (along (fun k => i (nth k pa 0)) (free_axes n la')) _ _ (along_length _ _))).
  rewrite (proj1 (split_app (along i (free_axes n la)) _ _ (along_length _ _))).
  rewrite (proj2 (split_app (along i (free_axes n la)) _ _ (along_length _ _))).
  rewrite !Sw by (rewrite ?along_length; auto; lia). f_equal.
  - pose proof (permuted_operand a a' pa la la' i z Wa Ea Ha Fa El Lz) as H. cbv zeta in H. rewrite La in H. exact H.
  - pose proof (permuted_operand b b' pb ra ra' j z Wb Eb Hb Fb Er ltac:(lia)) as H. cbv zeta in H. rewrite Lb in H. exact H.
Qed.

(** Whatever the scalars and however a matrix product adds up its products, not a bit changes. *)
Theorem tensordot_of_permuted_operands :
  forall (A : Type) (Sc : Scalar A) (lay lay' : backend A) add (a b a' b' : arr A) pa pb la ra la' ra',
    backend_runs lay -> backend_runs lay' ->
    (forall a b idx l, add_products lay a b idx l = add l) -> (forall a b idx l, add_products lay' a b idx l = add l) ->
    wf a -> wf b -> axes_fit a b la ra -> permuted_call a b a' b' pa pb la ra la' ra' ->
    exists r r', tensordot lay a b la ra = Ok r /\ tensordot lay' a' b' la' ra' = Ok r'
      /\ permuted_result a b pa pb la ra la' ra' r r'.
Proof.
  intros A Sc lay lay' add a b a' b' pa pb la ra la' ra' Hl Hl' Had Had' Wa Wb Hfit Hc.
  destruct (permuted_fit a b a' b' pa pb la ra la' ra' Wa Wb Hfit Hc) as (Wa' & Wb' & Hfit' & La & Lb).
  pose proof Hfit as (Hn & Ha & Hb & He). pose proof Hfit' as (Hn' & Ha' & Hb' & He').
  destruct (tensordot_exact lay Hl add Had a b la ra) as (r & w & E & Hr & Hw); auto; [congruence|].
  destruct (tensordot_exact lay' Hl' add Had' a' b' la' ra') as (r' & w' & E' & Hr' & Hw'); auto; [congruence|].
  exists r, r'. split; auto. split; auto. intros i j Hi Hj.
  destruct (permuted_bounds a b a' b' pa pb la ra la' ra' i j Wa Wb Hfit Hc Hi Hj) as [B B'].
  destruct Hr as (_ & _ & Hg), Hr' as (_ & _ & Hg').
  eexists. split; [apply Hg; exact B|]. rewrite Hg' by exact B'. rewrite Hw by exact B. rewrite Hw' by exact B'.
  do 2 f_equal. apply (permuted_terms a b a' b'); auto.
Qed.
Print Assumptions tensordot_of_permuted_operands.

(** On ndarray, as NdSchedule.v reads it. *)
Theorem tensordot_of_permuted_operands_on_ndarray :
  forall (A : Type) (Sc : Scalar A) m fma (a b a' b' : arr A) pa pb la ra la' ra',
    wf a -> wf b -> axes_fit a b la ra -> permuted_call a b a' b' pa pb la ra la' ra' ->
    exists r r', tensordot (ndarray m fma) a b la ra = Ok r /\ tensordot (ndarray m fma) a' b' la' ra' = Ok r'
      /\ permuted_result a b pa pb la ra la' ra' r r'.
Proof.
  intros A Sc m fma a b a' b' pa pb la ra la' ra'. intros.
  eapply (tensordot_of_permuted_operands A Sc (ndarray m fma) (ndarray m fma) (matrix_sum m fma)); eauto using nd_runs, nd_products.
Qed.
Print Assumptions tensordot_of_permuted_operands_on_ndarray.

(** In arithmetic with the laws of addition and multiplication by zero, also if the two sums are ordered differently. *)
Theorem tensordot_of_permuted_operands_in_any_order :
  forall (A : Type) (Sc : Scalar A), near_semiring A ->
  forall (lay lay' : backend A) (a b a' b' : arr A) pa pb la ra la' ra', backend_ok lay -> backend_ok lay' ->
    wf a -> wf b -> axes_fit a b la ra -> permuted_call a b a' b' pa pb la ra la' ra' ->
    exists r r', tensordot lay a b la ra = Ok r /\ tensordot lay' a' b' la' ra' = Ok r'
      /\ permuted_result a b pa pb la ra la' ra' r r'.
Proof.
  intros A Sc NS lay lay' a b a' b' pa pb la ra la' ra' Hl Hl' Wa Wb Hfit Hc.
  destruct (permuted_fit a b a' b' pa pb la ra la' ra' Wa Wb Hfit Hc) as (Wa' & Wb' & Hfit' & La & Lb).
  pose proof Hfit as (Hn & Ha & Hb & He). pose proof Hfit' as (Hn' & Ha' & Hb' & He').
  destruct (tensordot_is_correct A Sc NS lay a b la ra) as (r & E & Hr); auto.
  destruct (tensordot_is_correct A Sc NS lay' a' b' la' ra') as (r' & E' & Hr'); auto.
  exists r, r'. split; auto. split; auto. intros i j Hi Hj.
  destruct (permuted_bounds a b a' b' pa pb la ra la' ra' i j Wa Wb Hfit Hc Hi Hj) as [B B'].
  destruct Hr as (_ & _ & Hg), Hr' as (_ & _ & Hg').
  eexists. split; [apply Hg; exact B|]. rewrite Hg' by exact B'. f_equal.
  rewrite <- !(paired_value_sum NS) by auto.
  pose proof (permuted_terms a b a' b' pa pb la ra la' ra' i j Wa Wb Hfit Hc) as T. cbv zeta in T.
  assert (P : prod (axis_lengths (a_shape a') la') = prod (axis_lengths (a_shape a) la)).
  { apply (f_equal (@length _)) in T. unfold paired_terms in T. rewrite !map_length, !seq_length in T. auto. }
  unfold paired_terms in T. unfold TensordotMain.paired_value. rewrite P in *. apply sum_n_ext. intros t Ht.
  pose proof (proj1 map_ext_in_iff T t) as X. cbv beta in X.
  assert (It : In t (seq 0 (prod (axis_lengths (a_shape a) la)))) by (apply in_seq; lia). specialize (X It).
  injection X as X1 X2. f_equal; auto.
Qed.
Print Assumptions tensordot_of_permuted_operands_in_any_order.

(** A 2x3 matrix transposed, and a 3x2x2 array with its last axis first. *)
Example permuted_operands_case :
  let a := zarr [2; 3] [1; 2; 3; 4; 5; 6]%Z in
  let b := zarr [3; 2; 2] [1; 0; 2; -1; 3; 1; 0; 0; 1; 4; 5; -2]%Z in
  wf a /\ wf b /\ axes_fit a b [1] [0]
  /\ exists a' b', permuted_call a b a' b' [1; 0] [2; 0; 1] [1] [0] [0] [1]
     /\ a_shape a' = [3; 2] /\ a_shape b' = [2; 3; 2]
     /\ (do r <- tensordot c_backend a b [1] [0]; a_iter r) = Ok [10; 14; 17; -7; 25; 29; 38; -16]%Z
     /\ (do r <- tensordot c_backend a' b' [0] [1]; a_iter r) = Ok [10; 17; 14; -7; 25; 38; 29; -16]%Z.
Proof.
  cbv zeta. split; [apply wf_b_ok; reflexivity|]. split; [apply wf_b_ok; reflexivity|].
  split; [split; [reflexivity|split; [axes_tac|split; [axes_tac|reflexivity]]]|].
  eexists _, _. split; [split; [reflexivity|]; split; [reflexivity|]; repeat (split; [repeat constructor|]); reflexivity|].
  repeat (split; [vm_compute; reflexivity|]). vm_compute. reflexivity.
Qed.

(** ** Swapped operands *)

(** Also swapping the operands changes no bit, if swapping the factors of the products changes no sum of theirs. *)
Theorem tensordot_of_swapped_operands_to_the_last_bit :
  forall (A : Type) (Sc : Scalar A) (lay lay' : backend A) add (a b : arr A) la ra,
    backend_runs lay -> backend_runs lay' ->
    (forall a b idx l, add_products lay a b idx l = add l) -> (forall a b idx l, add_products lay' a b idx l = add l) ->
    (forall l, add (map (fun p => (snd p, fst p)) l) = add l) -> wf a -> wf b -> axes_fit a b la ra ->
    exists r r', tensordot lay a b la ra = Ok r /\ tensordot lay' b a ra la = Ok r'
      /\ a_shape r = dot_shape a b la ra /\ a_shape r' = dot_shape b a ra la
      /\ forall x y, in_bounds (axis_lengths (a_shape a) (free_axes (length (a_shape a)) la)) x = true ->
           in_bounds (axis_lengths (a_shape b) (free_axes (length (a_shape b)) ra)) y = true ->
           a_get r' (y ++ x) = a_get r (x ++ y).
Proof.
  intros A Sc lay lay' add a b la ra Hl Hl' Had Had' Hsw Wa Wb (Hn & Ha & Hb & He).
  destruct (tensordot_exact lay Hl add Had a b la ra) as (r & w & E & Hr & Hw); auto; [congruence|].
  destruct (tensordot_exact lay' Hl' add Had' b a ra la) as (r' & w' & E' & Hr' & Hw'); auto; [congruence|].
  exists r, r'. split; auto. split; auto. split; [apply Hr|]. split; [apply Hr'|]. intros x y Hx Hy.
  destruct Hr as (_ & _ & Hr), Hr' as (_ & _ & Hr').
  assert (B : in_bounds (dot_shape a b la ra) (x ++ y) = true) by (apply in_bounds_app; auto).
  assert (B' : in_bounds (dot_shape b a ra la) (y ++ x) = true) by (apply in_bounds_app; auto).
  rewrite Hr by exact B. rewrite Hr' by exact B'. rewrite Hw by exact B. rewrite Hw' by exact B'. f_equal.
  rewrite <- Hsw. f_equal. unfold paired_terms. rewrite map_map. rewrite <- He.
  apply in_bounds_length in Hx, Hy. unfold axis_lengths in Hx, Hy. rewrite map_length in Hx, Hy.
  destruct (split_app x y _ Hx) as [-> ->], (split_app y x _ Hy) as [-> ->].
  apply map_ext_in. intros t Ht. apply in_seq in Ht. cbn [fst snd].
  assert (Lz : length (unflat (axis_lengths (a_shape a) la) t) = length la).
  { pose proof (unflat_in_bounds (axis_lengths (a_shape a) la) t ltac:(lia)) as H. apply in_bounds_length in H. rewrite H. apply map_length. }
  set (z := unflat (axis_lengths (a_shape a) la) t) in *. clearbody z.
  assert (Sw : forall q axes v, length z = length axes -> length v = length (free_axes q axes) ->
     place q (axes ++ free_axes q axes) (z ++ v) = place q (free_axes q axes ++ axes) (v ++ z)).
  { intros q axes v H1 H2. apply place_swap; auto.
    - intros k Hk Hf. apply free_axes_In in Hf. tauto.
    - intros k Hk. rewrite free_axes_In. destruct (in_dec Nat.eq_dec k axes); auto. }
  rewrite !Sw by (auto; lia). reflexivity.
Qed.
Print Assumptions tensordot_of_swapped_operands_to_the_last_bit.

(** So it is with IEEE floating-point numbers on ndarray, as NdSchedule.v reads it. *)
Theorem float_tensordot_of_swapped_operands :
  forall f m (a b : arr (float f)) la ra, wf a -> wf b -> axes_fit a b la ra ->
    exists r r', tensordot (ndarray m f_fma) a b la ra = Ok r /\ tensordot (ndarray m f_fma) b a ra la = Ok r'
      /\ forall x y, in_bounds (axis_lengths (a_shape a) (free_axes (length (a_shape a)) la)) x = true ->
           in_bounds (axis_lengths (a_shape b) (free_axes (length (a_shape b)) ra)) y = true ->
           a_get r' (y ++ x) = a_get r (x ++ y).
Proof.
  intros f m a b la ra Wa Wb Hfit.
  assert (Hsw : forall l, matrix_sum m (@f_fma f) (map (fun p => (snd p, fst p)) l) = matrix_sum m f_fma l).
  { intros l. apply matrix_sum_swapped; [apply f_mul_comm|apply f_fma_comm]. }
  destruct (tensordot_of_swapped_operands_to_the_last_bit (float f) (float_scalar f) (ndarray m f_fma) (ndarray m f_fma) (matrix_sum m f_fma) a b la ra)
    as (r & r' & E & E' & _ & _ & H); auto; try apply nd_runs; try (intros; apply nd_products).
  exists r, r'. auto.
Qed.
Print Assumptions float_tensordot_of_swapped_operands.

(** Three significant bits: 8 - 8 + 1 + 1 and 8 + 1 - 8 + 1 are 2 and 1 in either order of the operands. *)
Example swapped_floats_case :
  let x := farr tiny [2; 4] [8; -8; 1; 1; 8; 1; -8; 1]%Z in
  let y := farr tiny [4] [1; 1; 1; 1]%Z in
  wf x /\ wf y /\ axes_fit x y [1] [0]
  /\ (do r <- tensordot (ndarray General f_fma) x y [1] [0]; do l <- a_iter r; Ok (map (@proj1_sig _ _) l))
     = Ok [proj1_sig (f_of tiny 2 0); proj1_sig (f_of tiny 1 0)]
  /\ (do r <- tensordot (ndarray General f_fma) y x [0] [1]; do l <- a_iter r; Ok (map (@proj1_sig _ _) l))
     = Ok [proj1_sig (f_of tiny 2 0); proj1_sig (f_of tiny 1 0)].
Proof.
  cbv zeta. do 2 (split; [apply wf_b_ok; reflexivity|]).
  split; [split; [reflexivity|split; [axes_tac|split; [axes_tac|reflexivity]]]|].
  split; vm_compute; reflexivity.
Qed.
