(** Staged evaluation (C34) and pure rearrangements (C16). *)
From Verif Require Import Base BaseFacts NDArray Validation Optimizers Strategies Singleton Pair Path
  Api Spec ValidationFacts SumFacts ArrayFacts SingletonFacts PairFacts PairMain PathFacts EinsumMain
  EinsumProps AlgebraFacts.
From Coq Require Import Lia.

Lemma combine_app {T U} (l1 l2 : list T) (m1 m2 : list U) : length l1 = length m1 ->
  combine (l1 ++ l2) (m1 ++ m2) = combine l1 m1 ++ combine l2 m2.
Proof.
  revert m1; induction l1 as [|x l1 IH]; intros [|y m1] H; simpl in *; try discriminate; auto.
  rewrite IH; auto.
Qed.

Lemma map_eq_In {T U} (f g : T -> U) l x : map f l = map g l -> In x l -> f x = g x.
Proof.
  induction l as [|y l IH]; simpl; intros E H; [contradiction|].
  injection E as E1 E2. destruct H as [->|H]; auto.
Qed.

Section Staged.
Context {A : Type} {Sc : Scalar A}.

Lemma blocked_in_app size (z1 z2 : list (arr A * list char)) out :
  blocked_in size (z1 ++ z2) out
  <-> blocked_in size z1 (concat (map snd z2) ++ out) \/ blocked_in size z2 (concat (map snd z1) ++ out).
Proof.
  revert out; induction z1 as [|[a ix] z1 IH]; intros out.
  - simpl. split; [auto|]. intros [(p1 & ? & ? & ? & E & _)|H]; auto. destruct p1; discriminate.
  - cbn [app]. rewrite !blocked_in_cons, IH. cbn [map snd concat].
    assert (E1 : blocked size a ix (concat (map snd (z1 ++ z2)) ++ out)
                 <-> blocked size a ix (concat (map snd z1) ++ concat (map snd z2) ++ out)).
    { rewrite map_app, concat_app, <- app_assoc. tauto. }
    assert (E2 : blocked_in size z1 (concat (map snd z2) ++ ix ++ out)
                 <-> blocked_in size z1 (ix ++ concat (map snd z2) ++ out)).
    { split; apply blocked_in_ext; intros c _; rewrite !in_app_iff; tauto. }
    assert (E3 : blocked_in size z2 (concat (map snd z1) ++ ix ++ out)
                 <-> blocked_in size z2 ((ix ++ concat (map snd z1)) ++ out)).
    { split; apply blocked_in_ext; intros c _; rewrite !in_app_iff; tauto. }
    rewrite E1, E2, E3. tauto.
Qed.

Hypothesis SR : semiring A.
Let SR' : semi_ring_theory szero sone sadd smul (@eq A) := SR.
Add Ring Aring : SR'.

(** The labels kept after the first stage. *)
Definition kept (ops1 ops2 : list (list char)) (out mid : list char) : Prop :=
  NoDup mid
  /\ forall c, In c mid <-> In c (concat ops1) /\ (In c (concat ops2) \/ In c out).

Lemma staged_value size (a1 a2 : list (arr A)) (t : arr A) ops1 ops2 out mid o :
  kept ops1 ops2 out mid -> NoDup out -> length a1 = length ops1 ->
  in_bounds (map size out) o = true ->
  holds t (map size mid) (einsum_value size a1 ops1 mid) ->
  einsum_value size (t :: a2) (mid :: ops2) out o
  = einsum_value size (a1 ++ a2) (ops1 ++ ops2) out o.
Proof.
  intros [Nm Im] No Hl Ho Ht.
  set (S1 := summed_labels ops1 mid). set (S2 := summed_labels (mid :: ops2) out).
  rewrite (einsum_value_ext_in size (t :: a2) (mid :: ops2) out o
             (nested_sum size S1 (fun e => smul (term a1 ops1 e) (term a2 ops2 e)))); auto.
  - fold S2. rewrite <- nested_sum_app. unfold einsum_value.
    rewrite (nested_sum_perm SR size (S2 ++ S1) (summed_labels (ops1 ++ ops2) out)
               (concat ops1 ++ concat ops2)).
    + apply nested_sum_ext_all. intros e. rewrite (term_app SR) by auto. auto.
    + intros e e' Ha. f_equal; apply term_dep; intros c Hc; apply Ha, in_or_app; auto.
    + apply NoDup_app_intro.
      * apply summed_labels_NoDup.
      * apply summed_labels_NoDup.
      * intros c H1 H2. unfold S1 in H2. unfold S2 in H1. rewrite summed_labels_In in H1, H2.
        simpl in H1. rewrite in_app_iff in H1. rewrite Im in *. tauto.
    + apply summed_labels_perm.
      * apply NoDup_app_intro.
        -- apply summed_labels_NoDup.
        -- apply summed_labels_NoDup.
        -- intros c H1 H2. unfold S1 in H2. unfold S2 in H1. rewrite summed_labels_In in H1, H2.
           simpl in H1. rewrite in_app_iff in H1. rewrite Im in *. tauto.
      * intros c. unfold S1, S2. rewrite in_app_iff, !summed_labels_In, concat_app. simpl.
        rewrite !in_app_iff, Im. destruct (in_dec N.eq_dec c (concat ops2)), (in_dec N.eq_dec c out); tauto.
  - intros e He. rewrite term_cons.
    rewrite (nested_sum_mul_r (semiring_summable size SR) S1 (concat ops2)).
    + f_equal. rewrite (holds_elem _ _ _ _ Ht).
      * unfold einsum_value. apply nested_sum_agree with (ds := concat ops1); [apply term_dep|].
        intros c Hc Hn. apply bind_map. destruct (in_dec N.eq_dec c mid) as [|Hm]; auto.
        exfalso. apply Hn. apply summed_labels_In. auto.
      * apply in_bounds_range. eapply in_range_incl; [|exact He]. simpl. apply incl_appl, incl_refl.
    + apply term_dep.
    + intros c Hc Hc'. apply summed_labels_In in Hc. rewrite Im in Hc. tauto.
Qed.

Lemma kept_output ops1 ops2 out mid : kept ops1 ops2 out mid -> output_ok ops1 mid.
Proof. intros [H1 H2]. split; auto. intros c Hc. apply H2 in Hc. tauto. Qed.

Lemma staged_outcome h1 h2 h3 lay1 lay2 lay3 s s1 s2 (a1 a2 : list (arr A)) ops1 ops2 out mid :
  hash_ok h1 -> hash_ok h2 -> hash_ok h3 -> backend_ok lay1 -> backend_ok lay2 -> backend_ok lay3 ->
  Forall wf a1 -> Forall wf a2 ->
  length a1 = length ops1 -> kept ops1 ops2 out mid ->
  grammar s (ops1 ++ ops2) (Some out) -> grammar s1 ops1 (Some mid) ->
  grammar s2 (mid :: ops2) (Some out) ->
  (accepted s (map (@a_shape A) (a1 ++ a2)) ->
   same_outcome (do t <- einsum h1 lay1 s1 a1; einsum h2 lay2 s2 (t :: a2)) (einsum h3 lay3 s (a1 ++ a2)))
  /\ (forall r, (do t <- einsum h1 lay1 s1 a1; einsum h2 lay2 s2 (t :: a2)) = Ok r ->
      exists r', einsum h3 lay3 s (a1 ++ a2) = Ok r' /\ same_array r r').
Proof.
  intros H1 H2 H3 L1 L2 L3 W1 W2 Hl Hk G G1 G2.
  assert (First : accepted s (map (@a_shape A) (a1 ++ a2)) ->
     same_outcome (do t <- einsum h1 lay1 s1 a1; einsum h2 lay2 s2 (t :: a2)) (einsum h3 lay3 s (a1 ++ a2))).
  { intros (ops0 & out0 & size & Hc). destruct (explicit_meaning _ _ _ _ _ G (proj1 Hc)) as [-> ->].
    pose proof Hc as (_ & [No Io] & Hs). rewrite map_app in Hs.
    apply shapes_ok_app in Hs as [Hs1 Hs2]; [|rewrite map_length; auto].
    assert (Hl2 : length a2 = length ops2).
    { apply shapes_ok_len in Hs2. rewrite map_length in Hs2. auto. }
    assert (Hc1 : call_ok s1 (map (@a_shape A) a1) ops1 mid size).
    { apply explicit_call_ok; auto. eapply kept_output; eauto. }
    pose proof (einsum_outcome SR h3 lay3 H3 L3 s _ _ _ size Hc (proj2 (Forall_app _ _ _) (conj W1 W2))) as Hw.
    pose proof (einsum_outcome SR h1 lay1 H1 L1 s1 _ _ _ size Hc1 W1) as Ho1.
    unfold outcome_is in Hw. rewrite combine_app in Hw by auto.
    assert (Hb : blocked_in size (combine a1 ops1 ++ combine a2 ops2) out
                 <-> blocked_in size (combine a1 ops1) mid \/ blocked_in size (combine a2 ops2) (mid ++ out)).
    { rewrite blocked_in_app, !snd_combine by auto. destruct Hk as [Nm Im].
      assert (E1 : blocked_in size (combine a1 ops1) (concat ops2 ++ out) <-> blocked_in size (combine a1 ops1) mid).
      { split; apply blocked_in_ext; intros c Hc'; rewrite snd_combine in Hc' by auto;
          rewrite in_app_iff, Im; tauto. }
      assert (E2 : blocked_in size (combine a2 ops2) (concat ops1 ++ out)
                   <-> blocked_in size (combine a2 ops2) (mid ++ out)).
      { split; apply blocked_in_ext; intros c Hc'; rewrite snd_combine in Hc' by auto;
          rewrite !in_app_iff, Im; tauto. }
      rewrite E1, E2. tauto. }
    destruct Ho1 as [[E1 B1]|[B1 (t & E1 & Ht)]].
    - rewrite E1. simpl. destruct Hw as [[Ew Bw]|[Bw (r & Ew & Hr)]]; rewrite Ew; simpl; auto.
      apply Bw, Hb. auto.
    - rewrite E1. cbn [rbind].
      assert (Wt : wf t) by (eapply holds_wf; exact Ht).
      assert (Hc2 : call_ok s2 (map (@a_shape A) (t :: a2)) (mid :: ops2) out size).
      { apply explicit_call_ok; auto.
        - split; auto. intros c Hc'. specialize (Io c Hc'). rewrite concat_app, in_app_iff in Io.
          simpl. rewrite in_app_iff. destruct Hk as [_ Im]. rewrite Im. tauto.
        - constructor; auto. apply Ht. }
      pose proof (einsum_outcome SR h2 lay2 H2 L2 s2 _ _ _ size Hc2 (Forall_cons _ Wt W2)) as Ho2.
      unfold outcome_is in Ho2. cbn [combine] in Ho2. rewrite blocked_in_cons in Ho2.
      assert (Nb : ~ blocked size t mid (concat (map snd (combine a2 ops2)) ++ out))
        by (intros (Hn & _); apply Hn, Hk).
      destruct Ho2 as [[E2 B2]|[B2 (r2 & E2 & Hr2)]]; rewrite E2;
      destruct Hw as [[Ew Bw]|[Bw (r & Ew & Hr)]]; rewrite Ew; simpl; auto; try tauto.
      eapply same_array_holds; [|exact Hr]. eapply holds_ext_in; [|exact Hr2].
      intros o Hoo. apply staged_value; auto. }
  split; auto. intros r E.
  assert (Hacc : accepted s (map (@a_shape A) (a1 ++ a2))).
  { apply rbind_ok in E as (t & E1 & E2).
    destruct (einsum_ok_inv SR h1 lay1 H1 L1 s1 a1 t W1 E1) as (o1 & m1 & size1 & (M1 & _ & Hs1) & _ & Ht).
    destruct (explicit_meaning _ _ _ _ _ G1 M1) as [-> ->].
    assert (Wt : wf t) by (eapply holds_wf; exact Ht).
    destruct (einsum_ok_inv SR h2 lay2 H2 L2 s2 (t :: a2) r (Forall_cons _ Wt W2) E2)
      as (o2 & out2 & size2 & (M2 & [No Io] & Hs2) & _ & _).
    destruct (explicit_meaning _ _ _ _ _ G2 M2) as [-> ->].
    inversion Hs2 as [|? ? ? ? Et Hs2']; subst.
    exists (ops1 ++ ops2), out, (fun c => if mem c (concat ops1) then size1 c else size2 c).
    apply explicit_call_ok; auto.
    - split; auto. intros c Hc. specialize (Io c Hc). simpl in Io. rewrite in_app_iff in Io.
      rewrite concat_app, in_app_iff. destruct Io as [Io|Io]; auto. apply Hk in Io. tauto.
    - rewrite map_app. apply shapes_ok_app; [rewrite map_length; auto|]. split.
      + apply (shapes_ok_ext size1); [exact Hs1|]. intros c Hc. apply mem_In in Hc. rewrite Hc. auto.
      + apply (shapes_ok_ext size2); [exact Hs2'|]. intros c Hc. destruct (mem c (concat ops1)) eqn:Em; auto.
        apply mem_In in Em. assert (Hm : In c mid) by (apply Hk; auto).
        destruct Ht as (Ht & _). rewrite Et in Ht. apply (map_eq_In size2 size1 mid c Ht Hm). }
  specialize (First Hacc). rewrite E in First.
  destruct (einsum h3 lay3 s (a1 ++ a2)) as [r'|m|]; simpl in First; try contradiction. eauto.
Qed.

End Staged.

(** ** C16 *)

Section Rearrange.
Context {A : Type} {Sc : Scalar A}.

Lemma rearrangement h lay s ix out size (a : arr A) : hash_ok h -> backend_runs lay ->
  call_ok s [a_shape a] [ix] out size -> wf a -> incl ix out ->
  NoDup ix \/ Forall (fun c => size c <> 0) ix ->
  exists r, einsum h lay s [a] = Ok r
    /\ a_shape r = map size out
    /\ forall o, in_bounds (map size out) o = true ->
         a_get r o = a_get a (map (bind out o) ix).
Proof.
  intros Hh Hlay Hc Hw Hi Hn. pose proof Hc as (Hm & [No Io] & Hs).
  assert (Sa : a_shape a = map size ix) by (inversion Hs; auto).
  unfold einsum, validate_and_size, get_operand_shapes. cbn [map].
  destruct (from_string_ok h [20] s _ [ix] out size Hh Hc) as (sc & E & HS). rewrite E. cbn [rbind].
  unfold einsum_sc, einsum_path_new, generate_optimized_order, naive_order.
  pose proof HS as (Hsc & _). rewrite Hsc. cbn [contraction_of operand_indices length seq].
  destruct (generate_path_ok h (10 :: [21]) size Hh sc [ix] out [0] HS) as
    [(sc' & _ & Eg & HS')|(i0 & js & L & todo & steps & _ & Ep & Ht & _)]; try discriminate.
  - apply Permutation_refl.
  - rewrite Eg. cbn [rbind from_path]. cbn [map nth] in HS'.
    destruct (singleton_contraction_ok sc' ix out size HS' lay Hlay) as (c & Ec & Hcc & _).
    rewrite Ec. cbn [rbind contract_operands path_steps path_order]. unfold index. cbn [nth_error unwrap rbind].
    destruct (Hcc a (fun e => elem a (map e ix)) Hw (lrep_wf size a ix Hw Sa)) as
      [[_ (Hd & (x & Hx & H0) & _)]|[_ (r & cs & Er & Pc & Hr)]].
    + exfalso. destruct Hn as [Hn|Hn]; auto. rewrite Forall_forall in Hn. eapply Hn; eauto.
    + exists r. split; auto.
      assert (cs = []).
      { destruct cs as [|x cs]; auto. exfalso.
        assert (Hx : In x (summed1 ix out)) by (eapply Permutation_in; [exact Pc|simpl; auto]).
        apply summed1_In in Hx as [H1 H2]. apply H2, Hi; auto. }
      subst cs. destruct Hr as (G & Hr & _ & HG). apply (lrep_holds size r out _ No) in Hr as (H1 & H2 & H3). split; auto.
      intros o Ho. rewrite H3, HG by auto.
      assert (Hb : in_bounds (a_shape a) (map (bind out o) ix) = true).
      { rewrite Sa. apply in_bounds_range. eapply in_range_incl; [exact Hi|]. apply in_range_bind; auto. }
      apply wf_holds in Hw as (_ & _ & Hg). rewrite Hg by auto. reflexivity.
  - destruct todo; [congruence|discriminate].
Qed.

End Rearrange.
