(** The adjoint of an Einstein sum in one operand (C57). *)
From Verif Require Import Base BaseFacts NDArray Validation Optimizers Strategies Singleton Pair Path
  Api Spec ValidationFacts SumFacts ArrayFacts SingletonFacts PairFacts PairMain PathFacts EinsumMain
  EinsumProps AlgebraFacts StagedFacts.
From Coq Require Import Lia.

Section Adjoint.
Context {A : Type} {Sc : Scalar A}.
Hypothesis SR : semiring A.
Let SR' : semi_ring_theory szero sone sadd smul (@eq A) := SR.
Add Ring Aring : SR'.

Lemma sum_over_ext sh (f g : list nat -> A) :
  (forall o, in_bounds sh o = true -> f o = g o) -> sum_over sh f = sum_over sh g.
Proof.
  revert f g; induction sh as [|n sh IH]; intros f g H; cbn [sum_over]; [apply H; auto|].
  apply sum_n_ext. intros i Hi. apply IH. intros o Ho. apply H. cbn [in_bounds].
  apply andb_true_iff. split; [apply Nat.ltb_lt|]; auto.
Qed.

Lemma sum_over_add sh (f g : list nat -> A) :
  sum_over sh (fun o => sadd (f o) (g o)) = sadd (sum_over sh f) (sum_over sh g).
Proof.
  revert f g; induction sh as [|n sh IH]; intros f g; cbn [sum_over]; auto.
  rewrite <- (sum_n_add (semiring_near SR)). apply sum_n_ext. intros. apply IH.
Qed.

(** A sum over positions is a sum over the labels of the axes. *)
Lemma sum_over_labels size cs : NoDup cs -> forall (f : list nat -> A) e,
  sum_over (map size cs) f = nested_sum size cs (fun e => f (map e cs)) e.
Proof.
  induction 1 as [|c cs Hc Hn IH]; intros f e; cbn [map sum_over nested_sum]; auto.
  apply sum_n_ext. intros i _. rewrite (IH _ (upd e c i)). apply nested_sum_ext. intros e' Ha _.
  rewrite Ha by auto. rewrite upd_same. auto.
Qed.

(** The sum of an array times the result is a sum over all labels. *)
Lemma paired_value size (arrays : list (arr A)) ops out (g : list nat -> A) e0 :
  NoDup out ->
  sum_over (map size out) (fun o => smul (g o) (einsum_value size arrays ops out o))
  = nested_sum size (out ++ summed_labels ops out) (fun e => smul (g (map e out)) (term arrays ops e)) e0.
Proof.
  intros Hn. rewrite (sum_over_labels size out Hn _ e0), nested_sum_app. apply nested_sum_ext_all.
  intros e. symmetry. etransitivity.
  - apply (nested_sum_mul_l (semiring_summable size SR) (summed_labels ops out) out (term arrays ops)
             (fun e => g (map e out))).
    + intros e1 e2 Ha. f_equal. apply map_ext_in. auto.
    + intros c Hc. apply summed_labels_In in Hc. tauto.
  - f_equal. unfold einsum_value. apply nested_sum_agree with (ds := concat ops); [apply term_dep|].
    intros c Hc Hs. symmetry. apply bind_map. destruct (in_dec N.eq_dec c out); auto.
    exfalso. apply Hs, summed_labels_In. auto.
Qed.

Lemma adjoint_value size (pre post : list (arr A)) (x z : arr A) pops ix qops out :
  length pre = length pops -> NoDup ix -> NoDup out -> incl out (concat (pops ++ ix :: qops)) ->
  incl ix (concat (pops ++ out :: qops)) ->
  sum_over (map size out) (fun o => smul (elem z o) (einsum_value size (pre ++ x :: post) (pops ++ ix :: qops) out o))
  = sum_over (map size ix) (fun i => smul (elem x i) (einsum_value size (pre ++ z :: post) (pops ++ out :: qops) ix i)).
Proof.
  intros Hl Ni No Io Ii. rewrite !(paired_value _ _ _ _ _ (fun _ => 0)) by auto.
  set (F := fun e => smul (smul (elem z (map e out)) (elem x (map e ix))) (smul (term pre pops e) (term post qops e))).
  set (ds := concat (pops ++ ix :: qops) ++ out).
  transitivity (nested_sum size (out ++ summed_labels (pops ++ ix :: qops) out) F (fun _ => 0)).
  { apply nested_sum_ext_all. intros e. rewrite term_app, term_cons by auto. unfold F. ring. }
  transitivity (nested_sum size (ix ++ summed_labels (pops ++ out :: qops) ix) F (fun _ => 0)).
  2:{ apply nested_sum_ext_all. intros e. rewrite (term_app SR), term_cons by auto. unfold F. ring. }
  apply (nested_sum_perm (semiring_near SR) size _ _ ds).
  - intros e e' Ha. unfold F, ds in *. rewrite concat_app in Ha. simpl in Ha.
    rewrite (map_ext_in e e' out), (map_ext_in e e' ix), (term_dep pre pops e e'), (term_dep post qops e e'); auto;
      intros c Hc; apply Ha; rewrite !in_app_iff; tauto.
  - apply NoDup_app_intro; auto; [apply summed_labels_NoDup|]. intros c H1 H2. apply summed_labels_In in H2. tauto.
  - apply NoDup_Permutation.
    + apply NoDup_app_intro; auto; [apply summed_labels_NoDup|]. intros c H1 H2. apply summed_labels_In in H2. tauto.
    + apply NoDup_app_intro; auto; [apply summed_labels_NoDup|]. intros c H1 H2. apply summed_labels_In in H2. tauto.
    + intros c. specialize (Io c). specialize (Ii c). rewrite !in_app_iff, !summed_labels_In.
      rewrite concat_app in *. cbn [concat] in *. rewrite concat_app. cbn [concat]. rewrite !in_app_iff in *.
      destruct (in_dec N.eq_dec c out), (in_dec N.eq_dec c ix); tauto.
Qed.

Lemma adjoint_call h h' lay lay' s s' (pre post : list (arr A)) (x z r : arr A) pops ix qops out :
  hash_ok h -> hash_ok h' -> backend_ok lay -> backend_ok lay' ->
  Forall wf (pre ++ post) -> wf x -> wf z -> length pre = length pops ->
  NoDup ix -> incl ix (concat (pops ++ qops) ++ out) ->
  grammar s (pops ++ ix :: qops) (Some out) -> grammar s' (pops ++ out :: qops) (Some ix) ->
  einsum h lay s (pre ++ x :: post) = Ok r -> a_shape z = a_shape r ->
  exists g, einsum h' lay' s' (pre ++ z :: post) = Ok g /\ a_shape g = a_shape x
    /\ sum_over (a_shape r) (fun o => smul (elem z o) (elem r o))
       = sum_over (a_shape x) (fun i => smul (elem x i) (elem g i)).
Proof.
  intros H1 H2 L1 L2 Hw Wx Wz Hl Ni Ii G G' E Sz.
  assert (Wmid : forall w, wf w -> Forall wf (pre ++ w :: post)).
  { intros w Ww. apply Forall_app in Hw as [P1 P2]. apply Forall_app. auto. }
  destruct (einsum_ok_inv SR h lay H1 L1 s _ r (Wmid x Wx) E) as (ops0 & out0 & size & Hc & Hb & Hr).
  destruct (explicit_meaning _ _ _ _ _ G (proj1 Hc)) as [-> ->].
  pose proof Hc as (_ & [No Io] & Hs). pose proof Hr as (Sr & _). rewrite Sr in Sz.
  rewrite map_app in Hs. cbn [map] in Hs. apply shapes_ok_app in Hs as [Hs1 Hs2]; [|rewrite map_length; auto].
  inversion Hs2 as [|? ? ? ? Sx Hs3]; subst.
  assert (Ii' : incl ix (concat (pops ++ out :: qops))).
  { intros c Hc'. specialize (Ii c Hc'). rewrite concat_app in *. cbn [concat]. rewrite !in_app_iff in *. tauto. }
  assert (Hc' : call_ok s' (map (@a_shape A) (pre ++ z :: post)) (pops ++ out :: qops) ix size).
  { apply explicit_call_ok; auto; [split; auto|]. rewrite map_app. apply shapes_ok_app; [rewrite map_length; auto|].
    split; auto. constructor; auto. }
  destruct (einsum_outcome SR h' lay' H2 L2 s' _ _ _ size Hc' (Wmid z Wz)) as [[_ B]|[_ (g & Eg & Hg)]].
  - exfalso. apply Hb. revert B. rewrite !combine_app by auto. cbn [combine].
    assert (Hl2 : length post = length qops) by (apply shapes_ok_len in Hs3; rewrite map_length in Hs3; auto).
    rewrite !blocked_in_app, !blocked_in_cons. cbn [map snd concat]. rewrite !snd_combine by auto.
    intros [B|[B|B]].
    + left. revert B. apply blocked_in_ext. intros c _. rewrite !in_app_iff. tauto.
    + destruct B as (B & _). tauto.
    + right. right. revert B. apply blocked_in_ext. intros c _. rewrite !in_app_iff. tauto.
  - exists g. split; auto. pose proof Hg as (Sg & _). split; [congruence|]. rewrite Sr, Sx.
    etransitivity; [|etransitivity; [apply (adjoint_value size pre post x z pops ix qops out); auto|]].
    + apply sum_over_ext. intros o Ho. rewrite (holds_elem _ _ _ _ Hr) by auto. auto.
    + apply sum_over_ext. intros o Ho. rewrite (holds_elem _ _ _ _ Hg) by auto. auto.
Qed.

Lemma gradient_call (x dx x' z r r' g : arr A) :
  sum_over (a_shape r) (fun o => smul (elem z o) (elem r o)) = sum_over (a_shape x) (fun i => smul (elem x i) (elem g i)) ->
  sum_over (a_shape r') (fun o => smul (elem z o) (elem r' o)) = sum_over (a_shape x') (fun i => smul (elem x' i) (elem g i)) ->
  a_shape x' = a_shape x -> (forall i, in_bounds (a_shape x) i = true -> elem x' i = sadd (elem x i) (elem dx i)) ->
  sum_over (a_shape r') (fun o => smul (elem z o) (elem r' o))
  = sadd (sum_over (a_shape r) (fun o => smul (elem z o) (elem r o)))
         (sum_over (a_shape x) (fun i => smul (elem dx i) (elem g i))).
Proof.
  intros E E' Sx Hx. rewrite E, E', Sx. rewrite <- sum_over_add. apply sum_over_ext. intros i Hi. rewrite Hx by auto. ring.
Qed.

End Adjoint.
