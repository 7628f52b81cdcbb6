(** Operands of ones, of zeros, and identity matrices (C59). *)
From Verif Require Import Base BaseFacts NDArray Validation Optimizers Strategies Singleton Pair Path
  Api Spec ValidationFacts SumFacts ArrayFacts SingletonFacts PairFacts PairMain PathFacts EinsumMain
  EinsumProps AlgebraFacts StagedFacts LoopFacts.
From Coq Require Import Lia.

Section Units.
Context {A : Type} {Sc : Scalar A}.
Hypothesis SR : semiring A.
Let SR' : semi_ring_theory szero sone sadd smul (@eq A) := SR.
Add Ring Aring : SR'.
Let NS : near_semiring A := semiring_near SR.

(** *** Ones *)

(** The labels of [out] that occur in [ops]. *)
Definition out_of (ops : list (list char)) (out : list char) : list char :=
  filter (fun c => existsb (N.eqb c) (concat ops)) out.

Lemma out_of_In ops out c : In c (out_of ops out) <-> In c out /\ In c (concat ops).
Proof. unfold out_of. rewrite filter_In. fold (mem c (concat ops)). rewrite mem_In. tauto. Qed.

Lemma ones_value size (pre post : list (arr A)) (x : arr A) pops ix qops out (e : env) :
  length pre = length pops -> NoDup out -> incl ix (concat (pops ++ qops) ++ out) ->
  (forall i, in_bounds (map size ix) i = true -> elem x i = sone) ->
  in_bounds (map size out) (map e out) = true ->
  einsum_value size (pre ++ x :: post) (pops ++ ix :: qops) out (map e out)
  = einsum_value size (pre ++ post) (pops ++ qops) (out_of (pops ++ qops) out) (map e (out_of (pops ++ qops) out)).
Proof.
  intros Hl No Hi Hx Ho.
  rewrite (einsum_value_ext_in size (pre ++ x :: post) (pops ++ ix :: qops) out _ (term (pre ++ post) (pops ++ qops))); auto.
  - unfold einsum_value. set (ops := pops ++ qops) in *.
    rewrite (nested_sum_perm NS size (summed_labels (pops ++ ix :: qops) out) (summed_labels ops (out_of ops out)) (concat ops)).
    + apply (nested_sum_agree size _ (concat ops)); [apply term_dep|]. intros c Hc Hs.
      assert (Hco : In c (out_of ops out)).
      { destruct (in_dec N.eq_dec c (out_of ops out)); auto. exfalso. apply Hs, summed_labels_In. auto. }
      rewrite (bind_map e _ c Hco). apply bind_map. apply out_of_In in Hco. tauto.
    + apply term_dep.
    + apply summed_labels_NoDup.
    + apply NoDup_Permutation; try apply summed_labels_NoDup. intros c. rewrite !summed_labels_In, out_of_In.
      specialize (Hi c). unfold ops in *. rewrite !concat_app in *. cbn [concat]. rewrite !in_app_iff in *. tauto.
  - intros e' He'. rewrite !(term_app SR), term_cons by auto. rewrite Hx; [ring|].
    apply in_bounds_range. eapply in_range_incl; [|exact He']. rewrite concat_app. simpl. apply incl_appr, incl_appl, incl_refl.
Qed.

Lemma ones_call h h' lay lay' s s' (pre post : list (arr A)) (x : arr A) pops ix qops out size :
  hash_ok h -> hash_ok h' -> backend_ok lay -> backend_ok lay' -> length pre = length pops ->
  call_ok s (map (@a_shape A) (pre ++ x :: post)) (pops ++ ix :: qops) out size ->
  Forall wf (pre ++ x :: post) -> no_empty_diagonal size (pops ++ ix :: qops) ->
  incl ix (concat (pops ++ qops) ++ out) ->
  (forall i, in_bounds (a_shape x) i = true -> elem x i = sone) ->
  grammar s' (pops ++ qops) (Some (out_of (pops ++ qops) out)) ->
  exists r r', einsum h lay s (pre ++ x :: post) = Ok r /\ einsum h' lay' s' (pre ++ post) = Ok r'
    /\ a_shape r = map size out
    /\ forall e : env, in_bounds (a_shape r) (map e out) = true ->
         elem r (map e out) = elem r' (map e (out_of (pops ++ qops) out)).
Proof.
  intros Hh Hh' Hl Hl' Hlen Hc Hw Hn Hi Hx G. pose proof Hc as (_ & [No Io] & Hs).
  rewrite map_app in Hs. cbn [map] in Hs. apply shapes_ok_app in Hs as [Hs1 Hs2]; [|rewrite map_length; auto].
  inversion Hs2 as [|? ? ? ? Sx Hs3]; subst. rewrite Sx in Hx.
  assert (Hw' : Forall wf (pre ++ post)).
  { apply Forall_app in Hw as [W1 W2]. inversion W2; subst. apply Forall_app; auto. }
  assert (Hn' : no_empty_diagonal size (pops ++ qops)).
  { unfold no_empty_diagonal in *. apply Forall_app in Hn as [W1 W2]. inversion W2; subst. apply Forall_app; auto. }
  assert (Hc' : call_ok s' (map (@a_shape A) (pre ++ post)) (pops ++ qops) (out_of (pops ++ qops) out) size).
  { apply explicit_call_ok; auto.
    - split; [apply NoDup_filter; auto|]. intros c Hc'. apply out_of_In in Hc'. tauto.
    - rewrite map_app. apply shapes_ok_app; [rewrite map_length; auto|]. auto. }
  destruct (einsum_correct SR h lay s _ _ out size Hh Hl Hc Hw Hn) as (r & E & Hr).
  destruct (einsum_correct SR h' lay' s' _ _ _ _ Hh' Hl' Hc' Hw' Hn') as (r' & E' & Hr').
  exists r, r'. split; auto. split; auto. pose proof Hr as (Sr & _). split; auto. intros e He. rewrite Sr in He.
  rewrite (holds_elem _ _ _ _ Hr) by auto. rewrite (holds_elem _ _ _ _ Hr').
  - apply ones_value; auto.
  - apply in_bounds_map in He. apply in_bounds_map. intros c Hc''. apply He. apply out_of_In in Hc''. tauto.
Qed.

(** *** Zeros *)

Lemma zeros_call h lay s (pre post : list (arr A)) (x r : arr A) :
  hash_ok h -> backend_ok lay -> Forall wf (pre ++ x :: post) ->
  (forall i, in_bounds (a_shape x) i = true -> elem x i = szero) ->
  einsum h lay s (pre ++ x :: post) = Ok r ->
  forall o, in_bounds (a_shape r) o = true -> elem r o = szero.
Proof.
  intros Hh Hl Hw Hx E o Ho.
  destruct (einsum_ok_inv SR h lay Hh Hl s _ r Hw E) as (ops & out & size & Hc & _ & Hr).
  pose proof Hc as (_ & [No _] & Hs). pose proof Hr as (Sr & _). rewrite Sr in Ho.
  destruct (linear_value size pre post x ops Hs) as (pops & ix & qops & -> & Hlen & Sx). rewrite Sx in Hx.
  rewrite (holds_elem _ _ _ _ Hr) by auto.
  rewrite (einsum_value_ext_in size _ _ out o (fun _ => szero)); auto; [apply (nested_sum_zero NS)|].
  intros e He. rewrite (term_app SR), term_cons by auto. rewrite Hx; [ring|].
  apply in_bounds_range. eapply in_range_incl; [|exact He]. rewrite concat_app. simpl. apply incl_appr, incl_appl, incl_refl.
Qed.

(** *** Identity matrices *)

(** [c] replaced by [d]. *)
Definition replace (c d x : char) : char := if N.eqb x c then d else x.

Lemma replace_In c d cs x : c <> d -> (In x (map (replace c d) cs) <-> (In x cs /\ x <> c) \/ (x = d /\ In c cs)).
Proof.
  intros Hcd. rewrite in_map_iff. split.
  - intros (y & <- & Hy). unfold replace. destruct (N.eqb_spec y c); subst; auto.
  - intros [[H1 H2]|[-> H]].
    + exists x. unfold replace. destruct (N.eqb_spec x c); [congruence|auto].
    + exists c. unfold replace. rewrite N.eqb_refl. auto.
Qed.

Lemma term_replace c d (arrays : list (arr A)) ops e :
  term arrays (map (map (replace c d)) ops) e = term arrays ops (upd e c (e d)).
Proof.
  unfold term. f_equal. revert ops; induction arrays as [|a arrays IH]; intros [|ix ops]; simpl; auto.
  f_equal; auto. f_equal. rewrite map_map. apply map_ext. intros x. unfold replace, upd. destruct (N.eqb x c); auto.
Qed.

Lemma identity_value size (pre post : list (arr A)) (x : arr A) pops c d qops out o :
  length pre = length pops -> NoDup out -> c <> d -> size c = size d -> ~ In c out -> In c (concat (pops ++ qops)) ->
  (forall i j, i < size c -> j < size c -> elem x [i; j] = if Nat.eqb i j then sone else szero) ->
  in_bounds (map size out) o = true ->
  einsum_value size (pre ++ x :: post) (pops ++ [c; d] :: qops) out o
  = einsum_value size (pre ++ post) (map (map (replace c d)) (pops ++ qops)) out o.
Proof.
  intros Hl No Hcd Hsz Hco Hc Hx Ho. set (ops := pops ++ qops) in *. set (ops1 := pops ++ [c; d] :: qops).
  set (sl := summed_labels ops1 out). set (rest := filter (fun y => negb (N.eqb y c)) sl).
  assert (Lab : forall y, In y (concat ops1) <-> In y (concat ops) \/ y = c \/ y = d).
  { intros y. unfold ops1, ops. rewrite !concat_app. cbn [concat]. rewrite !in_app_iff. simpl. intuition. }
  assert (Lab' : forall y, In y (concat (map (map (replace c d)) ops)) <-> (In y (concat ops) /\ y <> c) \/ y = d).
  { intros y. rewrite concat_map_map, replace_In by auto. tauto. }
  assert (Hrest : forall y, In y rest <-> In y (concat ops1) /\ ~ In y out /\ y <> c).
  { intros y. unfold rest. rewrite filter_In, negb_true_iff, N.eqb_neq. unfold sl. rewrite summed_labels_In. tauto. }
  assert (Nrest : NoDup rest) by (apply NoDup_filter, summed_labels_NoDup).
  assert (Hp : Permutation sl (rest ++ [c])).
  { apply NoDup_Permutation; [apply summed_labels_NoDup| |].
    - apply NoDup_app_intro; auto; [constructor; auto; constructor|]. intros y Hy [<-|[]]. apply Hrest in Hy. tauto.
    - intros y. rewrite in_app_iff, Hrest. unfold sl. rewrite summed_labels_In. simpl.
      destruct (N.eq_dec c y) as [<-|]; [rewrite Lab; tauto|]. intuition. }
  assert (Hp' : Permutation rest (summed_labels (map (map (replace c d)) ops) out)).
  { apply NoDup_Permutation; auto; [apply summed_labels_NoDup|]. intros y. rewrite Hrest, summed_labels_In, Lab, Lab'.
    destruct (N.eq_dec y d) as [->|]; [|tauto]. intuition. }
  unfold einsum_value. fold sl.
  rewrite (nested_sum_perm NS size sl (rest ++ [c]) (concat ops1)); auto; [|apply term_dep|apply summed_labels_NoDup].
  rewrite nested_sum_app.
  rewrite (nested_sum_perm NS size (summed_labels (map (map (replace c d)) ops) out) rest
             (concat (map (map (replace c d)) ops)));
    [|apply term_dep|apply summed_labels_NoDup|apply Permutation_sym; auto].
  apply nested_sum_ext. intros e Ha Hr. cbn [nested_sum].
  assert (Hed : e d < size c).
  { rewrite Hsz. destruct (in_dec N.eq_dec d out) as [Hdo|Hdo].
    - rewrite Ha by (rewrite Hrest; tauto). apply in_range_bind with (cs := out); auto.
    - apply Hr. apply Hrest. rewrite Lab. auto. }
  rewrite (sum_one NS _ (e d)); auto.
  - unfold ops1. rewrite (term_app SR), term_cons by auto. cbn [map]. rewrite upd_same, (upd_other e c _ d) by auto.
    rewrite Hx, Nat.eqb_refl by auto. rewrite term_replace. unfold ops. rewrite (term_app SR) by auto. ring.
  - intros i Hi Hne. unfold ops1. rewrite (term_app SR), term_cons by auto. cbn [map]. rewrite upd_same, (upd_other e c _ d) by auto.
    rewrite Hx by auto. destruct (Nat.eqb_spec i (e d)); [congruence|]. ring.
Qed.

Lemma identity_call h h' lay lay' s s' (pre post : list (arr A)) (x : arr A) pops c d qops out size :
  hash_ok h -> hash_ok h' -> backend_ok lay -> backend_ok lay' -> length pre = length pops ->
  call_ok s (map (@a_shape A) (pre ++ x :: post)) (pops ++ [c; d] :: qops) out size ->
  Forall wf (pre ++ x :: post) ->
  c <> d -> size c = size d -> ~ In c out -> In c (concat (pops ++ qops)) ->
  no_empty_diagonal size (map (map (replace c d)) (pops ++ qops)) ->
  (forall i j, i < size c -> j < size c -> elem x [i; j] = if Nat.eqb i j then sone else szero) ->
  grammar s' (map (map (replace c d)) (pops ++ qops)) (Some out) ->
  exists r r', einsum h lay s (pre ++ x :: post) = Ok r /\ einsum h' lay' s' (pre ++ post) = Ok r' /\ same_array r r'.
Proof.
  intros Hh Hh' Hl Hl' Hlen Hc Hw Hcd Hsz Hco Hcin Hn' Hx G. pose proof Hc as (_ & [No Io] & Hs).
  rewrite map_app in Hs. cbn [map] in Hs. apply shapes_ok_app in Hs as [Hs1 Hs2]; [|rewrite map_length; auto].
  inversion Hs2 as [|? ? ? ? Sx Hs3]; subst.
  assert (Hsr : forall y, size (replace c d y) = size y) by (intros y; unfold replace; destruct (N.eqb_spec y c); subst; auto).
  assert (Hn0 : no_empty_diagonal size (pops ++ qops)).
  { unfold no_empty_diagonal in *. apply Forall_map in Hn'. eapply Forall_impl; [|exact Hn']. intros ix [H|H].
    - left. eapply NoDup_map_inv; eauto.
    - right. rewrite Forall_forall in *. intros y Hy. rewrite <- Hsr. apply H, in_map. auto. }
  assert (Hn : no_empty_diagonal size (pops ++ [c; d] :: qops)).
  { unfold no_empty_diagonal in *. apply Forall_app in Hn0 as [W1 W2]. apply Forall_app. split; auto. constructor; auto.
    left. constructor; [simpl; intuition|]. constructor; auto. constructor. }
  assert (Hw' : Forall wf (pre ++ post)).
  { apply Forall_app in Hw as [W1 W2]. inversion W2; subst. apply Forall_app; auto. }
  assert (Hc' : call_ok s' (map (@a_shape A) (pre ++ post)) (map (map (replace c d)) (pops ++ qops)) out size).
  { apply explicit_call_ok; auto.
    - split; auto. intros y Hy. rewrite concat_map_map, replace_In by auto. specialize (Io y Hy).
      rewrite concat_app in Io. cbn [concat] in Io. rewrite !in_app_iff in Io. simpl in Io.
      assert (y <> c) by (intros ->; auto). rewrite concat_app, in_app_iff. rewrite concat_app, in_app_iff in Hcin.
      destruct Io as [H1|[[H1|[H1|[]]]|H1]]; [tauto|congruence|right; split; [auto|apply in_or_app; auto]|tauto].
    - assert (H0 : shapes_ok size (pops ++ qops) (map (@a_shape A) (pre ++ post))).
      { rewrite map_app. apply shapes_ok_app; [rewrite map_length; auto|]. auto. }
      revert H0. generalize (pops ++ qops), (map (@a_shape A) (pre ++ post)). intros l l' H0. induction H0; simpl; constructor; auto.
      rewrite map_map. subst. apply map_ext. intros y. symmetry. apply Hsr. }
  destruct (einsum_correct SR h lay s _ _ out size Hh Hl Hc Hw Hn) as (r & E & Hr).
  destruct (einsum_correct SR h' lay' s' _ _ _ _ Hh' Hl' Hc' Hw' Hn') as (r' & E' & Hr').
  exists r, r'. split; auto. split; auto. eapply same_array_holds; [|exact Hr']. eapply holds_ext_in; [|exact Hr].
  intros o Ho. apply identity_value; auto.
Qed.

End Units.
