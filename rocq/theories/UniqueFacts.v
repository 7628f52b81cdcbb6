(** Operands that are one at one position and zero elsewhere, and the functions that agree with [einsum] on
    them (C68). *)
From Verif Require Import Base BaseFacts NDArray Validation Optimizers Strategies Singleton Pair Path
  Api Spec ValidationFacts SumFacts ArrayFacts SingletonFacts PairFacts PairMain PathFacts EinsumMain
  EinsumProps AlgebraFacts StagedFacts LoopFacts AdjointFacts TensordotMain.
From Coq Require Import Lia.

(** [u] is one at position [p] and zero at every other position. *)
Definition unit_at {A : Type} {Sc : Scalar A} (u : arr A) (p : list nat) : Prop :=
  in_bounds (a_shape u) p = true
  /\ forall i, in_bounds (a_shape u) i = true -> elem u i = if list_eq_dec Nat.eq_dec i p then sone else szero.

(** The positions [ps] of the operands and [o] of the result give every label one value. *)
Definition positions_match (ops : list (list char)) (out : list char) (ps : list (list nat)) (o : list nat) : Prop :=
  exists e : env, map (map e) ops = ps /\ map e out = o.

(** [T], a value for each list of arrays of the given shapes, is linear in each of them. *)
Definition linear_in_each {A : Type} {Sc : Scalar A} (shapes : list (list nat)) (T : list (arr A) -> A) : Prop :=
  forall pre post (x y z : arr A) c d,
    Forall wf (pre ++ post) -> wf x -> wf y -> wf z ->
    map (@a_shape A) (pre ++ z :: post) = shapes -> a_shape x = a_shape z -> a_shape y = a_shape z ->
    (forall i, in_bounds (a_shape z) i = true -> elem z i = sadd (smul c (elem x i)) (smul d (elem y i))) ->
    T (pre ++ z :: post) = sadd (smul c (T (pre ++ x :: post))) (smul d (T (pre ++ y :: post))).

Section Unique.
Context {A : Type} {Sc : Scalar A}.
Hypothesis SR : semiring A.
Let SR' : semi_ring_theory szero sone sadd smul (@eq A) := SR.
Add Ring Aring : SR'.
Let NS : near_semiring A := semiring_near SR.

(** *** Unit operands *)

(** [es] on [cs], [e] elsewhere. *)
Definition override (e es : env) (cs : list char) : env := fun c => if existsb (N.eqb c) cs then es c else e c.

Lemma override_in e es cs c : In c cs -> override e es cs c = es c.
Proof. intros H. unfold override. fold (mem c cs). apply mem_In in H. rewrite H. auto. Qed.

Lemma override_out e es cs c : ~ In c cs -> override e es cs c = e c.
Proof.
  intros H. unfold override. fold (mem c cs). destruct (mem c cs) eqn:E; auto. apply mem_In in E. tauto.
Qed.

(** A nested sum with one term that is not zero. *)
Lemma nested_sum_one size cs : NoDup cs -> forall ds (f : env -> A) e es,
  dep f ds -> in_range size cs es ->
  (forall e', (forall c, ~ In c cs -> e' c = e c) -> (exists c, In c cs /\ e' c <> es c) -> f e' = szero) ->
  nested_sum size cs f e = f (override e es cs).
Proof.
  induction 1 as [|c cs Hc Hn IH]; intros ds f e es Hd Hr Hf; cbn [nested_sum].
  - apply Hd. intros c _. rewrite override_out; auto.
  - rewrite (sum_one NS _ (es c)).
    + rewrite (IH ds f (upd e c (es c)) es); auto.
      * apply Hd. intros x _. destruct (in_dec N.eq_dec x cs) as [Hx|Hx].
        -- rewrite !override_in; simpl; auto.
        -- rewrite (override_out _ _ cs) by auto. destruct (N.eq_dec x c) as [->|Hxc].
           ++ rewrite upd_same, override_in; simpl; auto.
           ++ rewrite upd_other, override_out; simpl; auto. intros [?|?]; auto.
      * intros x Hx. apply Hr. simpl. auto.
      * intros e' Ha (x & Hx & Hne). apply Hf.
        -- intros y Hy. rewrite Ha by (simpl in Hy; tauto). rewrite upd_other; auto. simpl in Hy. intros ->. tauto.
        -- exists x. simpl. auto.
    + apply Hr. simpl. auto.
    + intros i Hi Hne. rewrite (nested_sum_ext size cs f (fun _ => szero)).
      * apply (nested_sum_zero NS).
      * intros e' Ha _. apply Hf.
        -- intros y Hy. rewrite Ha by (simpl in Hy; tauto). rewrite upd_other; auto. simpl in Hy. intros ->. tauto.
        -- exists c. split; simpl; auto. rewrite Ha, upd_same; auto.
Qed.

(** The term of an assignment is one if it gives every operand its position, and zero otherwise. *)
Lemma unit_term size us ps : Forall2 unit_at us ps -> forall ops,
  shapes_ok size ops (map (@a_shape A) us) -> forall e, in_range size (concat ops) e ->
  term us ops e = if list_eq_dec (list_eq_dec Nat.eq_dec) (map (map e) ops) ps then sone else szero.
Proof.
  induction 1 as [|u p us ps Hu Hus IH]; intros ops Hs e He.
  - inversion Hs; subst. destruct (list_eq_dec _ _ _) as [|F]; auto. exfalso. apply F. auto.
  - cbn [map] in Hs. inversion Hs as [|ix y ops' l Su Hs']; subst. rewrite term_cons.
    assert (He1 : in_range size ix e) by (intros c Hc; apply He; simpl; apply in_app_iff; auto).
    assert (He2 : in_range size (concat ops') e) by (intros c Hc; apply He; simpl; apply in_app_iff; auto).
    rewrite (IH ops' Hs' e He2). destruct Hu as [_ Hu].
    rewrite Hu by (rewrite Su; apply in_bounds_range; auto). cbn [map].
    destruct (list_eq_dec Nat.eq_dec (map e ix) p) as [E|E], (list_eq_dec _ (map (map e) ops') ps) as [E'|E'],
      (list_eq_dec _ (map e ix :: map (map e) ops') (p :: ps)) as [E2|E2]; try congruence; ring.
Qed.

Lemma positions_in_range size us ps : Forall2 unit_at us ps -> forall ops (e : env),
  shapes_ok size ops (map (@a_shape A) us) -> map (map e) ops = ps -> in_range size (concat ops) e.
Proof.
  induction 1 as [|u p us ps Hu Hus IH]; intros ops e Hs Hp; cbn [map] in Hs; inversion Hs as [|ix y ops' l Su Hs']; subst.
  - intros c [].
  - cbn [map] in Hp. injection Hp as Hp1 Hp2. cbn [concat]. intros c Hc. apply in_app_iff in Hc as [Hc|Hc].
    + destruct Hu as [Hu _]. rewrite Su, <- Hp1 in Hu. eapply in_bounds_map in Hu; eauto.
    + eapply IH; eauto.
Qed.

Lemma positions_agree (ops : list (list char)) (e e' : env) :
  map (map e) ops = map (map e') ops <-> agree (concat ops) e e'.
Proof.
  split.
  - induction ops as [|ix ops IH]; cbn [map concat]; intros E c Hc; [destruct Hc|]. injection E as E1 E2.
    apply in_app_iff in Hc as [Hc|Hc]; [|apply (IH E2 c Hc)]. clear - E1 Hc.
    induction ix as [|d ix IH]; [destruct Hc|]. cbn [map] in E1. injection E1 as E1 E2.
    destruct Hc as [->|Hc]; auto.
  - intros Ha. apply map_ext_in. intros ix Hix. apply map_ext_in. intros c Hc. apply Ha.
    apply in_concat. eauto.
Qed.

Lemma unit_value size us ps ops out o : Forall2 unit_at us ps -> output_ok ops out ->
  shapes_ok size ops (map (@a_shape A) us) -> in_bounds (map size out) o = true ->
  (positions_match ops out ps o -> einsum_value size us ops out o = sone)
  /\ (~ positions_match ops out ps o -> einsum_value size us ops out o = szero).
Proof.
  intros Hu [No Io] Hs Ho.
  assert (Lo : length o = length out) by (apply in_bounds_length in Ho; rewrite map_length in Ho; auto).
  set (F := fun e : env => if list_eq_dec (list_eq_dec Nat.eq_dec) (map (map e) ops) ps then @sone A Sc else szero).
  assert (V : einsum_value size us ops out o = nested_sum size (summed_labels ops out) F (bind out o)).
  { apply (einsum_value_ext_in size us ops out o F No Ho). intros e He. apply (unit_term size); auto. }
  rewrite V. split.
  - intros (e & He & Hout). pose proof (positions_in_range size us ps Hu ops e Hs He) as Hr.
    assert (DF : dep F (concat ops)).
    { intros e1 e2 Ha. unfold F. apply positions_agree in Ha. rewrite Ha. auto. }
    rewrite (nested_sum_one size _ (summed_labels_NoDup ops out) (concat ops) F (bind out o) e DF).
    + unfold F. destruct (list_eq_dec _ _ ps) as [_|H]; auto. exfalso. apply H. rewrite <- He.
      apply positions_agree. intros c Hc.
      destruct (in_dec N.eq_dec c (summed_labels ops out)) as [Hi|Hi]; [rewrite override_in; auto|].
      rewrite override_out by auto. rewrite <- Hout. apply bind_map.
      destruct (in_dec N.eq_dec c out); auto. exfalso. apply Hi, summed_labels_In. auto.
    + intros c Hc. apply Hr. apply summed_labels_In in Hc. tauto.
    + intros e' Ha (c & Hc & Hne). unfold F. destruct (list_eq_dec _ _ ps) as [H|_]; auto. exfalso. apply Hne.
      apply summed_labels_In in Hc as [Hc _]. rewrite <- He in H. apply positions_agree in H. auto.
  - intros Hno. rewrite (nested_sum_ext size _ F (fun _ => szero)); [apply (nested_sum_zero NS)|].
    intros e Ha _. unfold F. destruct (list_eq_dec _ _ ps) as [H|]; auto. exfalso. apply Hno. exists e. split; auto.
    transitivity (map (bind out o) out); [|apply map_bind; auto]. apply map_ext_in. intros c Hc. apply Ha.
    intros Hc'. apply summed_labels_In in Hc'. tauto.
Qed.

(** The assignment is found by reading the positions. *)
Lemma positions_match_dec (ops : list (list char)) out ps o :
  positions_match ops out ps o \/ ~ positions_match ops out ps o.
Proof.
  set (e := bind (concat ops ++ out) (concat ps ++ o)).
  destruct (list_eq_dec (list_eq_dec Nat.eq_dec) (map (map e) ops) ps) as [E1|E1];
    [destruct (list_eq_dec Nat.eq_dec (map e out) o) as [E2|E2]; [left; exists e; auto|]|];
    right; intros (e' & <- & <-);
    assert (Ha : agree (concat ops ++ out) e e')
      by (unfold e; rewrite <- concat_map, <- map_app; apply bind_map).
  - apply E2. apply map_ext_in. intros c Hc. apply Ha, in_app_iff. auto.
  - apply E1. apply positions_agree. intros c Hc. apply Ha, in_app_iff. auto.
Qed.

(** An operand with a position has no empty axis. *)
Lemma units_not_empty size us ps ops : Forall2 unit_at us ps -> shapes_ok size ops (map (@a_shape A) us) ->
  no_empty_diagonal size ops.
Proof.
  intros H. revert ops. induction H as [|u p us ps Hu Hus IH]; intros ops Hs; cbn [map] in Hs;
    inversion Hs as [|ix y ops' l Su Hs']; subst; constructor.
  - right. destruct Hu as [Hu _]. rewrite Su in Hu. clear - Hu. revert p Hu.
    induction ix as [|c ix IH]; intros [|i p] Hu; cbn [map in_bounds] in Hu; try discriminate; constructor.
    + apply andb_true_iff in Hu as [Hu _]. apply Nat.ltb_lt in Hu. lia.
    + apply andb_true_iff in Hu as [_ Hu]. eauto.
  - apply IH; auto.
Qed.

Lemma unit_call h lay s us ps ops out size : hash_ok h -> backend_ok lay ->
  call_ok s (map (@a_shape A) us) ops out size -> Forall wf us -> Forall2 unit_at us ps ->
  exists r, einsum h lay s us = Ok r /\ a_shape r = map size out
    /\ forall o, in_bounds (a_shape r) o = true ->
         (positions_match ops out ps o -> elem r o = sone) /\ (~ positions_match ops out ps o -> elem r o = szero).
Proof.
  intros Hh Hl Hc Hw Hu. pose proof Hc as (_ & Ho & Hs).
  destruct (einsum_correct SR h lay s us ops out size Hh Hl Hc Hw) as (r & E & Hr); [eapply units_not_empty; eauto|].
  exists r. split; auto. pose proof Hr as (Sr & _). split; auto. intros o Hoo. rewrite Sr in Hoo.
  rewrite (holds_elem _ _ _ _ Hr) by auto. eapply unit_value; eauto.
Qed.

(** *** Linear functions *)

Lemma value_linear size ops out o : output_ok ops out -> in_bounds (map size out) o = true ->
  forall shapes, shapes_ok size ops shapes -> linear_in_each shapes (fun xs => einsum_value size xs ops out o).
Proof.
  intros [No _] Ho shapes Hs pre post x y z c d Hw Wx Wy Wz Hsh Sx Sy Hz. rewrite <- Hsh in Hs.
  destruct (linear_value size pre post z ops Hs) as (pops & ix & qops & -> & Hlen & Sz).
  rewrite (einsum_value_ext_in size (pre ++ z :: post) _ out o
             (fun e => sadd (smul c (term (pre ++ x :: post) (pops ++ ix :: qops) e))
                            (smul d (term (pre ++ y :: post) (pops ++ ix :: qops) e)))); auto.
  - rewrite (nested_sum_add NS), !(nested_sum_scale (semiring_summable _ SR)). auto.
  - intros e He. rewrite !(term_app SR), !term_cons by auto. rewrite Hz.
    + ring.
    + rewrite Sz. apply in_bounds_range. eapply in_range_incl; [|exact He].
      rewrite concat_app. simpl. apply incl_appr, incl_appl, incl_refl.
Qed.

Section Two.
Variables (shapes : list (list nat)) (T T' : list (arr A) -> A).
Hypothesis LT : linear_in_each shapes T.
Hypothesis LT' : linear_in_each shapes T'.

(** The array that holds [f]. *)
Definition array_of (sh : list nat) (f : list nat -> A) : arr A := mk_c sh (map f (indices sh)).

Lemma array_of_shape sh f : a_shape (array_of sh f) = sh.
Proof. apply (holds_mk_c sh f). Qed.

Lemma array_of_elem sh f i : in_bounds sh i = true -> elem (array_of sh f) i = f i.
Proof. intros Hi. apply (holds_elem _ _ _ _ (holds_mk_c sh f)). auto. Qed.

Lemma array_of_wf sh f : wf (array_of sh f).
Proof. eapply holds_wf. apply (holds_mk_c sh f). Qed.

(** [f] at the positions in [l], zero elsewhere. *)
Definition only (l : list (list nat)) (f : list nat -> A) (i : list nat) : A :=
  if in_dec (list_eq_dec Nat.eq_dec) i l then f i else szero.

(** If two linear functions agree when an operand is a unit array, they agree for all arrays in its place. *)
Lemma agree_in_one pre post (x : arr A) : Forall wf (pre ++ post) -> wf x ->
  map (@a_shape A) (pre ++ x :: post) = shapes ->
  (forall u p, wf u -> a_shape u = a_shape x -> unit_at u p -> T (pre ++ u :: post) = T' (pre ++ u :: post)) ->
  T (pre ++ x :: post) = T' (pre ++ x :: post).
Proof.
  intros Hw Wx Hsh HU. set (sh := a_shape x) in *.
  assert (Hshape : forall w : arr A, a_shape w = sh -> map (@a_shape A) (pre ++ w :: post) = shapes).
  { intros w Ew. rewrite <- Hsh, !map_app. cbn [map]. rewrite Ew. auto. }
  assert (L : forall l, NoDup l -> (forall i, In i l -> in_bounds sh i = true) ->
     T (pre ++ array_of sh (only l (elem x)) :: post) = T' (pre ++ array_of sh (only l (elem x)) :: post)).
  { induction 1 as [|p l Hp Hn IH]; intros Hl.
    - set (z := array_of sh (only [] (elem x))).
      assert (Hz : forall i, in_bounds (a_shape z) i = true ->
                elem z i = sadd (smul szero (elem z i)) (smul szero (elem z i))).
      { intros i Hi. unfold z in *. rewrite array_of_shape in Hi. rewrite array_of_elem by auto. unfold only. simpl. ring. }
      assert (Wz : wf z) by apply array_of_wf. assert (Sz : a_shape z = sh) by apply array_of_shape.
      rewrite (LT pre post z z z szero szero), (LT' pre post z z z szero szero); auto. ring.
    - set (z := array_of sh (only (p :: l) (elem x))). set (y := array_of sh (only l (elem x))) in *.
      set (u := array_of sh (fun i => if list_eq_dec Nat.eq_dec i p then sone else szero)).
      assert (Su : a_shape u = sh) by apply array_of_shape. assert (Sy : a_shape y = sh) by apply array_of_shape.
      assert (Sz : a_shape z = sh) by apply array_of_shape.
      assert (Hz : forall i, in_bounds (a_shape z) i = true ->
                elem z i = sadd (smul (elem x p) (elem u i)) (smul sone (elem y i))).
      { intros i Hi. rewrite Sz in Hi. unfold z, u, y. rewrite !array_of_elem by auto. unfold only.
        destruct (list_eq_dec Nat.eq_dec i p) as [->|Hne].
        - destruct (in_dec _ p (p :: l)) as [_|F]; [|exfalso; apply F; simpl; auto].
          destruct (in_dec _ p l) as [F|_]; [tauto|]. ring.
        - destruct (in_dec _ i (p :: l)) as [[F|F]|F], (in_dec _ i l) as [F'|F']; try congruence; try tauto; try ring.
          exfalso. apply F. simpl. auto. }
      rewrite (LT pre post u y z (elem x p) sone), (LT' pre post u y z (elem x p) sone);
        try (apply array_of_wf); try congruence; auto.
      rewrite (HU u p); [|apply array_of_wf|auto|].
      + rewrite IH; auto. intros i Hi. apply Hl. simpl. auto.
      + split; [rewrite Su; apply Hl; simpl; auto|]. intros i Hi. rewrite Su in Hi. unfold u. apply array_of_elem. auto. }
  set (z := array_of sh (only (indices sh) (elem x))).
  assert (Sz : a_shape z = sh) by apply array_of_shape.
  assert (Hz : forall i, in_bounds (a_shape x) i = true ->
            elem x i = sadd (smul sone (elem z i)) (smul szero (elem z i))).
  { intros i Hi. unfold z. rewrite array_of_elem by auto. unfold only.
    destruct (in_dec _ i (indices sh)) as [_|F]; [ring|]. exfalso. apply F, indices_In. auto. }
  rewrite (LT pre post z z x sone szero), (LT' pre post z z x sone szero); auto; try (apply array_of_wf); try congruence.
  unfold z. rewrite L; auto.
  - apply (NoDup_map_inv (flat sh)). rewrite map_flat_indices. apply seq_NoDup.
  - intros i Hi. apply indices_In. auto.
Qed.

Lemma agree_on_all : (forall us ps, Forall wf us -> map (@a_shape A) us = shapes -> Forall2 unit_at us ps -> T us = T' us) ->
  forall xs, Forall wf xs -> map (@a_shape A) xs = shapes -> T xs = T' xs.
Proof.
  intros HU. assert (L : forall pre us ps, Forall wf (pre ++ us) -> map (@a_shape A) (pre ++ us) = shapes ->
    Forall2 unit_at us ps -> T (pre ++ us) = T' (pre ++ us)).
  { induction pre as [|x pre IH] using rev_ind; intros us ps Hw Hsh Hu.
    - eapply HU; eauto.
    - rewrite <- app_assoc in *. cbn [app] in *. apply Forall_app in Hw as [W1 W2]. inversion W2 as [|? ? Wx Wus].
      apply agree_in_one; auto; [apply Forall_app; auto|].
      intros u p Wu Su Hup. apply (IH (u :: us) (p :: ps)).
      + apply Forall_app. split; auto.
      + rewrite <- Hsh, !map_app. cbn [map]. rewrite Su. auto.
      + constructor; auto. }
  intros xs Hw Hsh. rewrite <- (app_nil_r xs) in *. apply (L xs [] []); auto.
Qed.
End Two.

Lemma unique_call h lay s xs ops out size r (T : list (arr A) -> list nat -> A) : hash_ok h -> backend_ok lay ->
  call_ok s (map (@a_shape A) xs) ops out size -> Forall wf xs -> einsum h lay s xs = Ok r ->
  (forall o, in_bounds (map size out) o = true -> linear_in_each (map (@a_shape A) xs) (fun ys => T ys o)) ->
  (forall us ps o, Forall wf us -> map (@a_shape A) us = map (@a_shape A) xs -> Forall2 unit_at us ps ->
     in_bounds (map size out) o = true ->
     (positions_match ops out ps o -> T us o = sone) /\ (~ positions_match ops out ps o -> T us o = szero)) ->
  forall o, in_bounds (a_shape r) o = true -> elem r o = T xs o.
Proof.
  intros Hh Hl Hc Hw E LT HU o Ho. pose proof Hc as (_ & Hout & Hs).
  pose proof (ok_value SR h lay s xs ops out size r Hh Hl Hw Hc E) as Hr. pose proof Hr as (Sr & _). rewrite Sr in Ho.
  rewrite (holds_elem _ _ _ _ Hr) by auto.
  apply (agree_on_all (map (@a_shape A) xs) (fun ys => einsum_value size ys ops out o) (fun ys => T ys o)); auto.
  - apply value_linear; auto.
  - intros us ps Wu Su Hu. destruct (HU us ps o Wu Su Hu Ho) as [T1 T2].
    destruct (unit_value size us ps ops out o) as [V1 V2]; auto; [rewrite Su; auto|].
    assert (D : positions_match ops out ps o \/ ~ positions_match ops out ps o) by apply positions_match_dec.
    destruct D as [D|D]; [rewrite V1, T1|rewrite V2, T2]; auto.
Qed.

(** *** Tensordot *)

Lemma sum_over_zero sh (f : list nat -> A) : (forall o, in_bounds sh o = true -> f o = szero) -> sum_over sh f = szero.
Proof.
  revert f; induction sh as [|n sh IH]; intros f H; cbn [sum_over]; [apply H; auto|].
  apply (sum_n_zero_ext NS). intros i Hi. apply IH. intros o Ho. apply H. cbn [in_bounds].
  apply andb_true_iff. split; [apply Nat.ltb_lt|]; auto.
Qed.

Lemma sum_over_one sh k : in_bounds sh k = true -> forall f : list nat -> A,
  (forall o, in_bounds sh o = true -> o <> k -> f o = szero) -> sum_over sh f = f k.
Proof.
  revert k; induction sh as [|n sh IH]; intros [|i k] Hk f Hf; cbn [in_bounds] in Hk; try discriminate; cbn [sum_over]; auto.
  apply andb_true_iff in Hk as [Hi Hk]. apply Nat.ltb_lt in Hi. rewrite (sum_one NS _ i); auto.
  - apply (IH k Hk (fun z => f (i :: z))). intros o Ho Hne. apply Hf; [|congruence]. cbn [in_bounds]. apply andb_true_iff. split; auto. apply Nat.ltb_lt. auto.
  - intros j Hj Hne. apply sum_over_zero. intros o Ho. apply Hf; [|congruence].
    cbn [in_bounds]. apply andb_true_iff. split; auto. apply Nat.ltb_lt. auto.
Qed.

(** The coordinates of a position along some axes. *)
Definition along (p : list nat) (axes : list nat) : list nat := map (fun k => nth k p 0) axes.

Lemma place_is n axes vals p : Permutation axes (seq 0 n) -> length vals = n -> length p = n ->
  (place n axes vals = p <-> vals = along p axes).
Proof.
  intros Hp Hv Hl. split.
  - intros <-. assert (Hn : NoDup axes) by (eapply Permutation_NoDup; [apply Permutation_sym; exact Hp|apply seq_NoDup]).
    assert (La : length axes = n) by (apply Permutation_length in Hp; rewrite seq_length in Hp; auto).
    unfold along. transitivity (map (value_at axes vals) axes).
    + clear Hp. rewrite <- La in Hv. clear La Hl n. revert vals Hv.
      induction Hn as [|a axes Ha Hn IH]; intros [|v vals] Hv; try discriminate; auto.
      cbn [map value_at]. rewrite Nat.eqb_refl. f_equal. rewrite (IH vals) at 1 by (simpl in Hv; lia).
      apply map_ext_in. intros k Hk. destruct (Nat.eqb_spec a k); auto. subst. tauto.
    + apply map_ext_in. intros k Hk. assert (Hk' : k < n).
      { eapply Permutation_in in Hk; [|exact Hp]. apply in_seq in Hk. lia. }
      unfold place. rewrite nth_indep with (d' := value_at axes vals 0) by (rewrite map_length, seq_length; auto).
      rewrite map_nth, seq_nth by auto. auto.
  - intros ->. unfold along. rewrite place_map by auto. rewrite <- Hl. apply nth_ext with (d := 0) (d' := 0).
    + rewrite map_length, seq_length. auto.
    + intros i Hi. rewrite map_length, seq_length in Hi.
      rewrite nth_indep with (d' := nth 0 p 0) by (rewrite map_length, seq_length; auto).
      rewrite (map_nth (fun k => nth k p 0)), seq_nth by auto. auto.
Qed.

Lemma app_eq_parts {T} (a b c d : list T) : a ++ b = c ++ d -> length a = length c -> a = c /\ b = d.
Proof.
  revert c; induction a as [|x a IH]; intros [|y c] E L; try discriminate; auto. cbn [app] in E. injection E as E1 E2.
  destruct (IH c E2) as [-> ->]; auto. subst. auto.
Qed.

Lemma in_bounds_along sh p axes : in_bounds sh p = true -> Forall (fun k => k < length sh) axes ->
  in_bounds (axis_lengths sh axes) (along p axes) = true.
Proof.
  intros Hp. induction 1 as [|k axes Hk _ IH]; auto. cbn [axis_lengths along map in_bounds].
  apply andb_true_iff. split; auto. apply Nat.ltb_lt. clear IH axes. revert p k Hp Hk.
  induction sh as [|n sh IH]; intros [|i p] k Hp Hk; cbn [length in_bounds] in *; try lia; try discriminate.
  apply andb_true_iff in Hp as [Hi Hp]. apply Nat.ltb_lt in Hi. destruct k as [|k]; cbn [nth]; auto.
  apply IH; auto. lia.
Qed.

Section TensordotUnits.
Variables (la ra : list nat).

Lemma unit_tensordot_value (a b : arr A) p q o : unit_at a p -> unit_at b q ->
  axes_ok (length (a_shape a)) la -> axes_ok (length (a_shape b)) ra ->
  axis_lengths (a_shape a) la = axis_lengths (a_shape b) ra ->
  let fa := free_axes (length (a_shape a)) la in
  let fb := free_axes (length (a_shape b)) ra in
  in_bounds (axis_lengths (a_shape a) fa ++ axis_lengths (a_shape b) fb) o = true ->
  tensordot_value a b la ra o
  = if list_eq_dec Nat.eq_dec (o ++ along p la) (along p fa ++ along q fb ++ along q ra) then sone else szero.
Proof.
  intros [Pa Ha] [Qb Hb] Oa Ob El fa fb Ho. unfold tensordot_value. fold fa fb.
  pose proof (free_axes_perm _ _ Oa) as PA. pose proof (free_axes_perm _ _ Ob) as PB. fold fa in PA. fold fb in PB.
  pose proof (axes_count _ _ Oa) as CA. pose proof (axes_count _ _ Ob) as CB. fold fa in CA. fold fb in CB.
  pose proof (in_bounds_length _ _ Pa) as Lp. pose proof (in_bounds_length _ _ Qb) as Lq.
  apply in_bounds_app_inv in Ho as (x & y & -> & Hx & Hy).
  pose proof (in_bounds_length _ _ Hx) as Lx. pose proof (in_bounds_length _ _ Hy) as Ly.
  unfold axis_lengths in Lx, Ly. rewrite map_length in Lx, Ly.
  rewrite <- Lx, firstn_app, skipn_app, firstn_all, skipn_all, Nat.sub_diag, firstn_O, skipn_O, app_nil_r, app_nil_l.
  assert (LA : length la = length ra).
  { apply (f_equal (@length nat)) in El. unfold axis_lengths in El. rewrite !map_length in El. auto. }
  assert (V : forall z, in_bounds (axis_lengths (a_shape a) la) z = true ->
     smul (elem a (place (length (a_shape a)) (fa ++ la) (x ++ z)))
          (elem b (place (length (a_shape b)) (fb ++ ra) (y ++ z)))
     = if list_eq_dec Nat.eq_dec ((x ++ z) ++ y ++ z) (along p (fa ++ la) ++ along q (fb ++ ra)) then sone else szero).
  { intros z Hz. pose proof (in_bounds_length _ _ Hz) as Lz. unfold axis_lengths in Lz. rewrite map_length in Lz.
    rewrite Ha, Hb.
    - assert (Xz : length (x ++ z) = length (a_shape a)) by (rewrite app_length; lia).
      assert (Yz : length (y ++ z) = length (a_shape b)) by (rewrite app_length; lia).
      pose proof (place_is _ _ _ p PA Xz Lp) as [A1 A2]. pose proof (place_is _ _ _ q PB Yz Lq) as [B1 B2].
      assert (Lal : length (x ++ z) = length (along p (fa ++ la))).
      { unfold along. rewrite map_length, !app_length. lia. }
      destruct (list_eq_dec _ (place _ (fa ++ la) _) p) as [E1|E1], (list_eq_dec _ (place _ (fb ++ ra) _) q) as [E2|E2],
        (list_eq_dec _ ((x ++ z) ++ y ++ z) _) as [E3|E3]; try ring; exfalso.
      + apply E3. rewrite (A1 E1), (B1 E2). auto.
      + apply app_eq_parts in E3 as [_ E3]; auto.
      + apply app_eq_parts in E3 as [E3 _]; auto.
      + apply app_eq_parts in E3 as [E3 _]; auto.
    - apply place_in_bounds; auto. unfold axis_lengths in *. rewrite map_app. apply in_bounds_app; auto. rewrite <- El. auto.
    - apply place_in_bounds; auto. unfold axis_lengths in *. rewrite map_app. apply in_bounds_app; auto. }
  rewrite (sum_over_ext _ _ _ V). unfold along. rewrite !map_app. fold (along p fa) (along p la) (along q fb) (along q ra).
  assert (LX : length x = length (along p fa)) by (unfold along; rewrite map_length; auto).
  assert (LY : length y = length (along q fb)) by (unfold along; rewrite map_length; auto).
  assert (LZ : length (along p la) = length (along q ra)) by (unfold along; rewrite !map_length; auto).
  destruct (list_eq_dec Nat.eq_dec ((x ++ y) ++ along p la) (along p fa ++ along q fb ++ along q ra)) as [E|E].
  - rewrite <- app_assoc in E. apply app_eq_parts in E as [-> E]; auto. apply app_eq_parts in E as [-> E]; auto.
    rewrite (sum_over_one _ (along p la)).
    + destruct (list_eq_dec _ _ _) as [_|F]; auto. exfalso. apply F. rewrite E. auto.
    + apply in_bounds_along; auto. apply Oa.
    + intros z Hz Hne. destruct (list_eq_dec _ _ _) as [F|_]; auto. exfalso. apply Hne.
      apply app_eq_parts in F as [F _].
      * apply app_inv_head in F. auto.
      * rewrite !app_length. apply in_bounds_length in Hz. rewrite Hz. unfold axis_lengths, along. rewrite !map_length. auto.
  - apply sum_over_zero. intros z Hz. destruct (list_eq_dec _ _ _) as [F|_]; auto. exfalso. apply E.
    pose proof (in_bounds_length _ _ Hz) as Lz. unfold axis_lengths in Lz. rewrite map_length in Lz.
    assert (LZ' : length z = length (along p la)) by (unfold along; rewrite map_length; auto).
    apply app_eq_parts in F as [F1 F2]; [|rewrite !app_length; lia].
    apply app_eq_parts in F1 as [-> ->]; auto. apply app_eq_parts in F2 as [-> F2]; auto.
    rewrite F2, <- app_assoc. auto.
Qed.

Lemma unit_tensordot lay (a b : arr A) p q : backend_ok lay -> wf a -> wf b -> unit_at a p -> unit_at b q ->
  axes_ok (length (a_shape a)) la -> axes_ok (length (a_shape b)) ra ->
  axis_lengths (a_shape a) la = axis_lengths (a_shape b) ra ->
  let fa := free_axes (length (a_shape a)) la in
  let fb := free_axes (length (a_shape b)) ra in
  exists r, tensordot lay a b la ra = Ok r /\ a_shape r = axis_lengths (a_shape a) fa ++ axis_lengths (a_shape b) fb
    /\ forall o, in_bounds (a_shape r) o = true ->
         elem r o = if list_eq_dec Nat.eq_dec (o ++ along p la) (along p fa ++ along q fb ++ along q ra) then sone else szero.
Proof.
  intros Hl Wa Wb Ua Ub Oa Ob El fa fb.
  assert (LA : length la = length ra).
  { apply (f_equal (@length nat)) in El. unfold axis_lengths in El. rewrite !map_length in El. auto. }
  destruct (tensordot_ok lay Hl NS Hl a b la ra) as (r & E & Hr); auto.
  exists r. split; auto. pose proof Hr as (Sr & _). split; auto. intros o Ho. rewrite Sr in Ho.
  rewrite (holds_elem _ _ _ _ Hr) by auto. apply unit_tensordot_value; auto.
Qed.

(** A function of two arrays as one of a list. *)
Definition of_two (T : arr A -> arr A -> A) (xs : list (arr A)) : A :=
  match xs with [a; b] => T a b | _ => szero end.

Lemma tensordot_linear sa sb o : axes_ok (length sa) la -> axes_ok (length sb) ra ->
  axis_lengths sa la = axis_lengths sb ra ->
  in_bounds (axis_lengths sa (free_axes (length sa) la) ++ axis_lengths sb (free_axes (length sb) ra)) o = true ->
  linear_in_each [sa; sb] (of_two (fun a b => tensordot_value a b la ra o)).
Proof.
  intros Oa Ob El Ho pre post x y z c d Hw Wx Wy Wz Hsh Sx Sy Hz.
  pose proof (free_axes_perm _ _ Oa) as PA. pose proof (free_axes_perm _ _ Ob) as PB.
  set (fa := free_axes (length sa) la) in *. set (fb := free_axes (length sb) ra) in *.
  apply in_bounds_app_inv in Ho as (u & v & -> & Hu & Hv).
  pose proof (in_bounds_length _ _ Hu) as Lu. unfold axis_lengths in Lu. rewrite map_length in Lu.
  assert (Bound : forall t, in_bounds (axis_lengths sa la) t = true ->
     in_bounds sa (place (length sa) (fa ++ la) (u ++ t)) = true
     /\ in_bounds sb (place (length sb) (fb ++ ra) (v ++ t)) = true).
  { intros t Ht. split; apply place_in_bounds; auto; unfold axis_lengths in *; rewrite map_app; apply in_bounds_app; auto.
    rewrite <- El. auto. }
  assert (Cut : firstn (length fa) (u ++ v) = u /\ skipn (length fa) (u ++ v) = v).
  { rewrite <- Lu, firstn_app, skipn_app, firstn_all, skipn_all, Nat.sub_diag, firstn_O, skipn_O, app_nil_r. auto. }
  destruct Cut as [C1 C2].
  assert (Scale : forall sh k (f : list nat -> A), smul k (sum_over sh f) = sum_over sh (fun t => smul k (f t))).
  { induction sh as [|n sh IH]; intros k f; cbn [sum_over]; auto.
    rewrite <- (sum_n_mul_l NS) by (left; apply (SRmul_0_l SR)). apply sum_n_ext. intros. apply IH. }
  destruct pre as [|p0 [|p1 pre]]; [destruct post as [|q [|]]|destruct post|]; cbn [app map] in Hsh; try discriminate.
  - injection Hsh as Za Qb. cbn [app of_two]. unfold tensordot_value. rewrite Sx, Sy, Za, Qb. fold fa fb. rewrite C1, C2.
    rewrite !Scale, <- (sum_over_add SR). apply sum_over_ext. intros t Ht. rewrite Hz by (rewrite Za; apply Bound; auto). ring.
  - injection Hsh as Pa Zb. cbn [app of_two]. unfold tensordot_value. rewrite Sx, Sy, Zb, Pa. fold fa fb. rewrite C1, C2.
    rewrite !Scale, <- (sum_over_add SR). apply sum_over_ext. intros t Ht. rewrite Hz by (rewrite Zb; apply Bound; auto). ring.
  - destruct pre; discriminate.
Qed.

Lemma unique_tensordot lay (a b r : arr A) (T : arr A -> arr A -> list nat -> A) : backend_ok lay -> wf a -> wf b ->
  axes_ok (length (a_shape a)) la -> axes_ok (length (a_shape b)) ra ->
  axis_lengths (a_shape a) la = axis_lengths (a_shape b) ra -> tensordot lay a b la ra = Ok r ->
  let fa := free_axes (length (a_shape a)) la in
  let fb := free_axes (length (a_shape b)) ra in
  (forall o, in_bounds (a_shape r) o = true ->
     linear_in_each [a_shape a; a_shape b] (of_two (fun x y => T x y o))) ->
  (forall u v p q o, wf u -> wf v -> a_shape u = a_shape a -> a_shape v = a_shape b -> unit_at u p -> unit_at v q ->
     in_bounds (a_shape r) o = true ->
     T u v o = if list_eq_dec Nat.eq_dec (o ++ along p la) (along p fa ++ along q fb ++ along q ra) then sone else szero) ->
  forall o, in_bounds (a_shape r) o = true -> elem r o = T a b o.
Proof.
  intros Hl Wa Wb Oa Ob El E fa fb LT HU o Ho.
  assert (LA : length la = length ra).
  { apply (f_equal (@length nat)) in El. unfold axis_lengths in El. rewrite !map_length in El. auto. }
  destruct (tensordot_ok lay Hl NS Hl a b la ra) as (r' & E' & Hr); auto. assert (r' = r) by congruence. subst r'.
  pose proof Hr as (Sr & _). rewrite (holds_elem _ _ _ _ Hr) by (rewrite <- Sr; auto). specialize (LT o Ho).
  change (of_two (fun x y => tensordot_value x y la ra o) [a; b] = of_two (fun x y => T x y o) [a; b]).
  apply (agree_on_all [a_shape a; a_shape b]); auto.
  - apply tensordot_linear; auto. rewrite <- Sr. auto.
  - intros us ps Wu Su Hu. destruct us as [|u [|v [|]]]; try discriminate. cbn [map] in Su. injection Su as Su Sv.
    inversion Hu as [|? p ? ? Up Hu1]; subst. inversion Hu1 as [|? q ? ? Uq Hu2]; subst. inversion Wu as [|? ? W1 W2]; subst.
    inversion W2; subst. cbn [of_two]. rewrite (HU u v p q o); auto.
    rewrite (unit_tensordot_value u v p q o); try rewrite Su; try rewrite Sv; auto. rewrite <- Sr. auto.
Qed.
End TensordotUnits.

End Unique.
