(** How much arithmetic a call does. *)
From Verif Require Import Base BaseFacts NDArray Validation Optimizers Strategies Singleton Pair Path Api Spec
  ValidationFacts ValidationMain SumFacts ArrayFacts TensordotFacts DiagFacts SingletonFacts PairFacts StackedFacts
  PairMain PathFacts PathShape PlanFacts TensordotMain EinsumMain OverflowFacts LimitsFacts LimitsMain Work WorkFacts.
From Coq Require Import Lia.

(** ** The counts *)

(** The labels that range when the [m]th operand is multiplied in: of the labels of the operands up to and
    including it, those that it shares with the operands before it, those of a later operand, and those of
    the output. *)
Definition step_labels (ops : list (list char)) (out : list char) (m : nat) : list char :=
  filter (fun c => existsb (N.eqb c) (concat (firstn m ops)) && existsb (N.eqb c) (nth m ops [])
                   || existsb (N.eqb c) (concat (skipn (S m) ops) ++ out))
    (nodup N.eq_dec (concat (firstn (S m) ops))).

Definition total_products (size : char -> nat) (ops : list (list char)) (out : list char) : nat :=
  list_sum (map (fun m => prod (map size (step_labels ops out m))) (seq 1 (length ops - 1))).

(** The labels of the operands other than the [j]th, and of the output. *)
Definition elsewhere (ops : list (list char)) (out : list char) (j : nat) : list char :=
  concat (firstn j ops) ++ concat (skipn (S j) ops) ++ out.

(** Each operand is summed, by itself, over the labels that are nowhere else. *)
Definition total_summands (size : char -> nat) (ops : list (list char)) (out : list char) : nat :=
  list_sum (map (fun j => own_summands size (nth j ops []) (elsewhere ops out j)) (seq 0 (length ops))).

Definition call_work (size : char -> nat) (ops : list (list char)) (out : list char) : work :=
  mkWork (total_products size ops out) (total_summands size ops out).

Lemma step_labels_In ops out m c : In c (step_labels ops out m) <->
  In c (concat (firstn (S m) ops))
  /\ ((In c (concat (firstn m ops)) /\ In c (nth m ops [])) \/ In c (concat (skipn (S m) ops)) \/ In c out).
Proof.
  unfold step_labels. rewrite filter_In, nodup_In, orb_true_iff, andb_true_iff, !existsb_mem, !mem_In, in_app_iff. tauto.
Qed.

Lemma step_labels_NoDup ops out m : NoDup (step_labels ops out m).
Proof. apply NoDup_filter, NoDup_nodup. Qed.

Lemma own_summands_ext size this used used' : (forall c, In c this -> In c used <-> In c used') ->
  own_summands size this used = own_summands size this used'.
Proof.
  intros H. unfold own_summands. f_equal.
  - do 2 f_equal. apply filter_ext_in. intros c Hc. rewrite nodup_In in Hc. rewrite !existsb_mem.
    destruct (mem c used) eqn:E1, (mem c used') eqn:E2; auto; rewrite ?mem_In, ?mem_false in *; specialize (H c Hc); tauto.
  - f_equal. apply firsts_ext. auto.
Qed.

Lemma own_summands_none size this used : incl this used -> own_summands size this used = 0.
Proof. intros H. unfold own_summands. rewrite firsts_nil by auto. auto. Qed.

Lemma list_sum_seq f a n : list_sum (map f (seq a (S n))) = f a + list_sum (map f (seq (S a) n)).
Proof. reflexivity. Qed.

Lemma list_sum_shift f g a b n : (forall i, i < n -> f (a + i) = g (b + i)) ->
  list_sum (map f (seq a n)) = list_sum (map g (seq b n)).
Proof.
  revert a b; induction n as [|n IH]; intros a b H; auto. rewrite !list_sum_seq.
  rewrite (IH (S a) (S b)).
  - specialize (H 0). rewrite !Nat.add_0_r in H. rewrite H by lia. auto.
  - intros i Hi. specialize (H (S i)). rewrite !Nat.add_succ_r in H. apply H. lia.
Qed.

(** ** A chain of steps *)

Lemma split_at {T} (l : list (list T)) m c : m < length l ->
  In c (concat l) <-> In c (concat (firstn m l)) \/ In c (nth m l []) \/ In c (concat (skipn (S m) l)).
Proof.
  revert m; induction l as [|x l IH]; intros [|m] H; cbn [length] in H; try lia.
  - cbn [firstn nth skipn concat]. rewrite in_app_iff. simpl. tauto.
  - cbn [firstn nth concat]. change (skipn (S (S m)) (x :: l)) with (skipn (S m) l).
    rewrite !in_app_iff, (IH m) by lia. tauto.
Qed.

Lemma firstn_S_In {T} (l : list (list T)) m c : m < length l ->
  In c (concat (firstn (S m) l)) <-> In c (concat (firstn m l)) \/ In c (nth m l []).
Proof.
  revert m; induction l as [|x l IH]; intros [|m] H; cbn [length] in H; try lia.
  - cbn [firstn nth concat]. rewrite in_app_iff. simpl. tauto.
  - change (firstn (S (S m)) (x :: l)) with (x :: firstn (S m) l). cbn [firstn nth concat].
    rewrite !in_app_iff, (IH m) by lia. tauto.
Qed.

Section Main.
Variables (size : char -> nat).

Lemma last_products L0 r out : NoDup out -> incl out (L0 ++ r) ->
  total_products size [L0; r] out = pair_products size L0 r out.
Proof.
  intros Ho Hi. unfold total_products. cbn [length Nat.sub seq map list_sum fold_right]. rewrite Nat.add_0_r.
  unfold pair_products. rewrite <- prod_app, <- map_app. apply prod_same.
  - apply step_labels_NoDup.
  - apply NoDup_app_intro; auto; [apply NoDup_filter, NoDup_nodup|]. intros c H1 H2.
    apply filter_In in H2 as [_ H2]. rewrite andb_true_iff, negb_true_iff, !existsb_mem, mem_false in H2. tauto.
  - intros c. rewrite step_labels_In, in_app_iff, filter_In, nodup_In, andb_true_iff, negb_true_iff, !existsb_mem, mem_In, mem_false.
    cbn [firstn skipn nth concat]. rewrite !app_nil_r, !in_app_iff. simpl.
    specialize (Hi c). rewrite in_app_iff in Hi. destruct (in_dec N.eq_dec c out); tauto.
Qed.

Lemma more_products L0 r rest L' out : NoDup L' ->
  (forall c, In c L' <-> (In c L0 \/ In c r) /\ (In c (concat rest) \/ In c out)) ->
  total_products size (L0 :: r :: rest) out = pair_products size L0 r L' + total_products size (L' :: rest) out.
Proof.
  intros Ho HL. unfold total_products. cbn [length]. rewrite !Nat.sub_succ, !Nat.sub_0_r, list_sum_seq. f_equal.
  - unfold pair_products. rewrite <- prod_app, <- map_app. apply prod_same.
    + apply step_labels_NoDup.
    + apply NoDup_app_intro; auto; [apply NoDup_filter, NoDup_nodup|]. intros c H1 H2.
      apply filter_In in H2 as [_ H2]. rewrite andb_true_iff, negb_true_iff, !existsb_mem, mem_false in H2. tauto.
    + intros c. rewrite step_labels_In, in_app_iff, filter_In, nodup_In, andb_true_iff, negb_true_iff, !existsb_mem, mem_In, mem_false.
      rewrite HL. cbn [firstn skipn nth concat]. rewrite !app_nil_r, !in_app_iff. simpl.
      destruct (in_dec N.eq_dec c out), (in_dec N.eq_dec c (concat rest)); tauto.
  - apply list_sum_shift. intros m Hm. apply prod_same; try apply step_labels_NoDup.
    change (2 + m) with (S (S m)). change (1 + m) with (S m). intros c. rewrite !step_labels_In. cbn [nth].
    change (skipn (S (S (S m))) (L0 :: r :: rest)) with (skipn (S m) rest).
    change (skipn (S (S m)) (L' :: rest)) with (skipn (S m) rest).
    change (firstn (S (S (S m))) (L0 :: r :: rest)) with (L0 :: r :: firstn (S m) rest).
    change (firstn (S (S m)) (L0 :: r :: rest)) with (L0 :: r :: firstn m rest).
    change (firstn (S (S m)) (L' :: rest)) with (L' :: firstn (S m) rest).
    change (firstn (S m) (L' :: rest)) with (L' :: firstn m rest). cbn [concat].
    rewrite !in_app_iff, HL, (firstn_S_In rest m c Hm), (split_at rest m c Hm). tauto.
Qed.

Lemma last_summands L0 r out :
  total_summands size [L0; r] out = own_summands size L0 (r ++ out) + own_summands size r (L0 ++ out).
Proof.
  unfold total_summands, elsewhere. cbn [length seq map list_sum fold_right nth firstn skipn concat app].
  rewrite !app_nil_r. lia.
Qed.

Lemma more_summands L0 r rest L' out :
  (forall c, In c L' <-> (In c L0 \/ In c r) /\ (In c (concat rest) \/ In c out)) ->
  total_summands size (L0 :: r :: rest) out
  = own_summands size L0 (r ++ L') + own_summands size r (L0 ++ L') + total_summands size (L' :: rest) out.
Proof.
  intros HL. unfold total_summands. cbn [length]. rewrite !list_sum_seq. rewrite Nat.add_assoc.
  assert (E0 : own_summands size (nth 0 (L' :: rest) []) (elsewhere (L' :: rest) out 0) = 0).
  { apply own_summands_none. intros c. cbn [nth]. unfold elsewhere. cbn [firstn skipn concat app].
    rewrite HL, in_app_iff. tauto. }
  rewrite E0. cbn [Nat.add]. f_equal; [f_equal|].
  - apply own_summands_ext. cbn [nth]. intros c Hc. unfold elsewhere. cbn [firstn skipn concat app].
    rewrite !in_app_iff, HL. tauto.
  - apply own_summands_ext. cbn [nth]. intros c Hc. unfold elsewhere. cbn [firstn skipn concat app].
    rewrite !in_app_iff, HL. simpl. tauto.
  - apply list_sum_shift. intros m Hm. change (2 + m) with (S (S m)). change (1 + m) with (S m). cbn [nth].
    apply own_summands_ext. intros c Hc. unfold elsewhere.
    change (skipn (S (S (S m))) (L0 :: r :: rest)) with (skipn (S m) rest).
    change (skipn (S (S m)) (L' :: rest)) with (skipn (S m) rest).
    change (firstn (S (S m)) (L0 :: r :: rest)) with (L0 :: r :: firstn m rest).
    change (firstn (S m) (L' :: rest)) with (L' :: firstn m rest). cbn [concat].
    rewrite !in_app_iff, HL, (split_at rest m c Hm). tauto.
Qed.

Variables (h : hash_order).
Hypothesis Hh : hash_ok h.
Context {A : Type} {Sc : Scalar A}.
Variable lay : backend A.
Hypothesis Hlay : backend_runs lay.

Definition pair_work (lhs rhs out : list char) : work :=
  mkWork (pair_products size lhs rhs out) (own_summands size lhs (rhs ++ out) + own_summands size rhs (lhs ++ out)).

Lemma step_costs k sc lhs rhs out p (a b : arr A) : sized sc [lhs; rhs] out size ->
  pair_contraction_new h k sc = Ok p -> usable size a lhs -> usable size b rhs ->
  costs (run_pair_contraction_w lay p a b) (run_pair_contraction lay p a b) (pair_work lhs rhs out).
Proof.
  intros HS Ep [Wa Sa] [Wb Sb].
  eapply costs_eq; [apply (run_pair_contraction_costs lay Hlay p a b (prod (map size out)))|].
  - intros x Hx. destruct (step_ends size h Hh lay Hlay k sc lhs rhs out p a b HS Ep Wa Wb Sa Sb) as [E|(y & E & _ & Sy)];
      rewrite E in Hx; [discriminate|]. injection Hx as <-. rewrite Sy. auto.
  - rewrite Sa, Sb. destruct (step_products h size Hh k sc lhs rhs out p HS Ep) as (-> & -> & ->). reflexivity.
Qed.

Lemma chain_costs out i L0 todo js lhs steps : chain size out i L0 todo js lhs steps ->
  forall pcs, Forall2 (fun st p => exists k, pair_contraction_new h k (ps_sc st) = Ok p) steps pcs ->
  forall operands ints bs a,
    length ints = i -> fetch operands ints lhs = Ok a -> usable size a L0 ->
    Forall2 (fun j b => index operands j = Ok b) js bs -> Forall2 (usable size) bs todo ->
    costs (foldC (run_step_w lay operands) (combine pcs steps) ints)
      (foldM (run_step lay operands) (combine pcs steps) ints) (call_work size (L0 :: todo) out).
Proof.
  assert (One : forall sc l r o p operands ints lhs j a b,
    sized sc [l; r] o size -> (exists k, pair_contraction_new h k sc = Ok p) ->
    usable size a l -> usable size b r -> fetch operands ints lhs = Ok a -> index operands j = Ok b ->
    costs (run_step_w lay operands ints (p, mkPair sc lhs (Input j)))
      (run_step lay operands ints (p, mkPair sc lhs (Input j))) (pair_work l r o)
    /\ forall ints', run_step lay operands ints (p, mkPair sc lhs (Input j)) = Ok ints' ->
         exists x, ints' = ints ++ [x] /\ usable size x o).
  { intros sc l r o p operands ints lhs' j a b HS (k & Ep) Ua Ub Ea Eb.
    pose proof (step_costs k sc l r o p a b HS Ep Ua Ub) as Hw. destruct Ua as [Wa Sa]. destruct Ub as [Wb Sb].
    cbn [run_step run_step_w ps_lhs ps_rhs fetch]. rewrite Ea, Eb. split.
    - apply costs_after. intros ? [= <-]. apply costs_after. intros ? [= <-].
      apply (costs_before _ _ (fun x => Ok (ints ++ [x]))). exact Hw.
    - cbn [rbind]. intros ints' H. apply bind_Ok in H as (x & Hx & H). injection H as <-. exists x. split; auto.
      destruct (step_ends size h Hh lay Hlay k sc l r o p a b HS Ep Wa Wb Sa Sb) as [E|(y & E & Wy & Sy)];
        rewrite E in Hx; [discriminate|]. injection Hx as <-. split; auto. }
  induction 1 as [i L0 r n lhs sc HS|i L0 r rest n js lhs sc L' steps Hne HS HL Hch IH];
    intros pcs Hp operands ints bs a Hi Hf Ua Hb Hu.
  - inversion Hp as [|? p ? pcs' Hr Hp']; subst. inversion Hp'; subst.
    inversion Hb as [|? b ? bs' Eb Hb']; subst. inversion Hb'; subst.
    inversion Hu as [|? ? ? ? Ub Hu']; subst. cbn [ps_sc] in Hr. cbn [combine foldM foldC].
    destruct (One sc L0 r out p operands ints lhs n a b HS Hr Ua Ub Hf Eb) as [Hw _].
    eapply costs_eq; [apply costs_bind; [exact Hw|intros; apply (costs_free (Ok _))]|].
    pose proof HS as (_ & [Ho Hi'] & _). cbn [concat] in Hi'. rewrite app_nil_r in Hi'.
    unfold call_work. rewrite last_products, last_summands by auto.
    unfold more, pair_work, no_work. cbn [products summands]. rewrite !Nat.add_0_r. reflexivity.
  - inversion Hp as [|? p ? pcs' Hr Hp']; subst.
    inversion Hb as [|? b ? bs' Eb Hb']; subst.
    inversion Hu as [|? ? ? ? Ub Hu']; subst. cbn [ps_sc] in Hr. cbn [combine foldM foldC].
    destruct (One sc L0 r L' p operands ints lhs n a b HS Hr Ua Ub Hf Eb) as [Hw Hx].
    eapply costs_eq; [apply costs_bind; [exact Hw|]|].
    + intros ints' Ei. destruct (Hx ints' Ei) as (x & -> & Ux).
      apply (IH pcs' Hp' operands (ints ++ [x]) bs' x); auto.
      { rewrite app_length. simpl. lia. }
      { cbn [fetch]. apply index_some. rewrite nth_error_app2, Nat.sub_diag by lia. reflexivity. }
    + pose proof HS as (_ & [Ho _] & _). unfold call_work, more, pair_work. cbn [products summands].
      rewrite (more_products L0 r rest L' out Ho HL), (more_summands L0 r rest L' out HL). reflexivity.
Qed.

Let one_scalar : Scalar unit := {| szero := tt; sone := tt; sadd := fun _ _ => tt; smul := fun _ _ => tt |}.
Let one_semiring : @semiring unit one_scalar.
Proof. split; intros; repeat match goal with x : unit |- _ => destruct x end; reflexivity. Qed.
Let anything (x : A) (y : unit) : Prop := True.
Let anything_ok : @scalar_relation A unit Sc one_scalar anything.
Proof. split; intros; exact I. Qed.
Let anything_fused : @fused_relation A unit one_scalar anything lay.
Proof. intros x x' y y' z z' _ _ _. exact I. Qed.

Lemma singleton_costs sc this out c (a : arr A) : sized sc [this] out size ->
  singleton_contraction_new sc = Ok c -> usable size a this ->
  costs (run_singleton_w lay (sgl_op c) a) (run_singleton lay (sgl_op c) a) (call_work size [this] out).
Proof.
  intros HS Ec [_ Sa]. eapply costs_eq; [apply (run_singleton_costs lay Hlay)|].
  rewrite Sa, (singleton_summands_ok sc this out size c HS Ec). unfold call_work, total_products, total_summands, elsewhere.
  cbn [length Nat.sub seq map list_sum fold_right nth firstn skipn concat app]. rewrite Nat.add_0_r. f_equal.
  destruct HS as (_ & [Ho Hi] & _). simpl in Hi. rewrite app_nil_r in Hi.
  apply own_summands_intro; auto. intros x. split; [|tauto]. intros Hx. split; auto.
Qed.

Section Path.
Variables (s : list char) (arrays : list (arr A)) (ops : list (list char)) (out : list char).
Hypothesis Hc : call_ok s (map (@a_shape A) arrays) ops out size.
Hypothesis Hw : Forall wf arrays.

Lemma path_costs strategy k0 k1 k2 sc order : strategy = Naive \/ strategy = Reverse ->
  from_string_and_shapes h k0 s (map (@a_shape A) arrays) = Ok sc ->
  generate_optimized_order h k1 sc strategy = Ok order ->
  costs (count p <- uncounted (from_path h k2 order); contract_operands_w lay p arrays)
    (do p <- from_path h k2 order; contract_operands lay p arrays) (call_work size (taken strategy ops) out).
Proof.
  intros Hst E Eo.
  assert (Hu : usables size arrays ops). { apply usables_intro; auto. apply Hc. }
  destruct (chosen_order h Hh k0 k1 s _ ops out size sc strategy Hc Hst E)
    as [(sc' & Hl & E2 & H1 & H2)|(i0 & js & steps & Hl & Eor & Hp & E2 & Hch)].
  - clear H1 H2. rewrite Eo in E2. injection E2 as ->. cbn [from_path].
    destruct ops as [|this [|? ?]]; try discriminate.
    assert (Et : taken strategy [this] = [this]) by (destruct Hst as [-> | ->]; reflexivity). rewrite Et.
    inversion Hu as [|a ? rest ? Ua Hu']; subst. inversion Hu'; subst.
    apply costs_after. intros p Hp. apply bind_Ok in Hp as (c & Ec & Hp). injection Hp as <-.
    cbn [contract_operands contract_operands_w path_steps path_order].
    apply costs_after. intros ? [= <-]. apply (singleton_costs sc' this out); auto.
    destruct (from_string_ok h k0 s _ _ _ _ Hh Hc) as (sc1 & Ex & HSx).
    assert (sc1 = sc) by congruence. subst sc1.
    assert (Hpo : Permutation (order_of strategy 1) (seq 0 1)).
    { destruct Hst as [-> | ->]; simpl; auto. }
    assert (Eg : generate_optimized_order h k1 sc strategy = generate_path h k1 sc (order_of strategy 1)).
    { pose proof HSx as (Hcc & _).
      destruct Hst as [-> | ->]; unfold generate_optimized_order, naive_order, reverse_order;
        rewrite Hcc; reflexivity. }
    destruct (generate_path_ok h k1 size Hh sc [this] out (order_of strategy 1) HSx) as
      [(sc2 & _ & E3 & HS3)|(? & ? & ? & ? & ? & Eo1 & ? & Htn & E3 & _)]; auto; [discriminate| |].
    + rewrite Eg, E3 in Eo. injection Eo as <-.
      assert (Eops : map (fun i => nth i [this] []) (order_of strategy 1) = [this])
        by (destruct Hst as [-> | ->]; reflexivity).
      rewrite Eops in HS3. auto.
    + rewrite Eg, E3 in Eo. discriminate.
  - rewrite Eo in E2. injection E2 as ->.
    set (d := mkArr [] 0 [] [] : arr A).
    assert (Hla : length arrays = length ops) by (clear -Hu; induction Hu; simpl; auto).
    assert (Hn : forall j, j < length ops -> index arrays j = Ok (nth j arrays d)
                   /\ usable size (nth j arrays d) (nth j ops [])).
    { intros j Hj. split.
      - apply index_some. apply nth_error_nth'. lia.
      - unfold usables in Hu. clear -Hu Hj. revert j Hj.
        induction Hu; intros [|j] Hj; simpl in *; try lia; auto. apply IHHu. lia. }
    assert (Hj : forall j, In j (i0 :: js) -> j < length ops).
    { intros j Hj. apply (Permutation_in _ Hp) in Hj. apply in_seq in Hj. lia. }
    rewrite <- (taken_nth strategy ops Hst), <- Eor. cbn [map].
    cbn [from_path]. apply costs_after. intros p Ep. apply bind_Ok in Ep as (pcs & Ec & Ep). injection Ep as <-.
    assert (Hpcs : Forall2 (fun st p => exists k, pair_contraction_new h k (ps_sc st) = Ok p) steps pcs).
    { assert (Hg : forall n pcs, mapM (fun ist => pair_contraction_new h (fst ist :: 9 :: k2) (ps_sc (snd ist)))
                     (combine (seq n (length steps)) steps) = Ok pcs ->
                   Forall2 (fun st p => exists k, pair_contraction_new h k (ps_sc st) = Ok p) steps pcs);
        [|apply (Hg 0); exact Ec].
      clear. induction steps as [|st steps IH]; intros n pcs Ec.
      - injection Ec as <-. constructor.
      - cbn [length seq combine mapM fst snd] in Ec. apply bind_Ok in Ec as (p & E1 & Ec).
        apply bind_Ok in Ec as (ps & E2 & Ec). injection Ec as <-. constructor; eauto. }
    cbn [contract_operands contract_operands_w path_steps path_order].
    apply costs_before.
    apply (chain_costs _ _ _ _ _ _ _ Hch pcs Hpcs arrays [] (map (fun j => nth j arrays d) js) (nth i0 arrays d)); auto.
    + cbn [fetch]. apply Hn. apply Hj. simpl; auto.
    + apply Hn. apply Hj. simpl; auto.
    + assert (Hj' : forall j, In j js -> j < length ops) by (intros; apply Hj; simpl; auto).
      clear -Hj' Hn. induction js; simpl; constructor; auto. { apply Hn. apply Hj'. simpl; auto. }
      apply IHjs. intros; apply Hj'; simpl; auto.
    + assert (Hj' : forall j, In j js -> j < length ops) by (intros; apply Hj; simpl; auto).
      clear -Hj' Hn. induction js; simpl; constructor; auto. { apply Hn. apply Hj'. simpl; auto. }
      apply IHjs. intros; apply Hj'; simpl; auto.
Qed.

Lemma einsum_costs : costs (einsum_w lay h s arrays) (einsum h lay s arrays) (call_work size ops out).
Proof.
  unfold einsum_w, einsum, einsum_sc, einsum_path_new, validate_and_size, get_operand_shapes.
  destruct (from_string_ok h [20] s _ _ _ _ Hh Hc) as (sc & E & HS).
  apply costs_after. intros sc' E'. assert (sc' = sc) by congruence. subst sc'.
  destruct (generate_optimized_order h [10; 21] sc Naive) as [order|e|] eqn:Eo; cbn [rbind]; try reflexivity.
  apply (path_costs Naive [20] [10; 21] [11; 21] sc order (or_introl eq_refl) E Eo).
Qed.

Lemma compile_and_run_costs strategy : strategy = Naive \/ strategy = Reverse ->
  costs (compile_and_run_w lay h s arrays strategy) (compile_and_run h lay s arrays strategy)
    (call_work size (taken strategy ops) out).
Proof.
  intros Hst. unfold compile_and_run_w, compile_and_run, einsum_path_fn, validate_and_optimize_order, get_operand_shapes.
  match goal with |- context [from_string_and_shapes h ?k s _] => set (k0 := k) end.
  destruct (from_string_ok h k0 s _ _ _ _ Hh Hc) as (sc & E & HS). rewrite E. cbn [rbind].
  match goal with |- context [generate_optimized_order h ?k _ _] => set (k1 := k) end.
  destruct (generate_optimized_order h k1 sc strategy) as [order|e|] eqn:Eo; cbn [rbind]; try reflexivity.
  apply (path_costs strategy k0 k1 [23] sc order Hst E Eo).
Qed.

End Path.

(** ** [tensordot] *)

Lemma tensordot_costs (a b : arr A) la ra :
  costs (tensordot_w lay a b la ra) (tensordot lay a b la ra)
    (mkWork (prod (axis_lengths (a_shape a) (free_axes (length (a_shape a)) la))
             * prod (axis_lengths (a_shape a) la)
             * prod (axis_lengths (a_shape b) (free_axes (length (a_shape b)) ra))) 0).
Proof.
  unfold tensordot_w, tensordot. apply costs_after. intros _ _. apply costs_after. intros n _. apply costs_after.
  intros t Ht. eapply costs_eq; [apply (run_tg_costs lay)|]. f_equal.
  unfold tg_from_axes in Ht.
  destruct (Nat.eqb_spec (length la) (length ra)) as [E0|]; cbn [rassert rbind] in Ht; [|discriminate].
  destruct (Nat.eqb _ _); cbn [rassert rbind] in Ht; [|discriminate].
  destruct (Nat.eqb _ _); cbn [rassert rbind] in Ht; [|discriminate].
  apply bind_Ok in Ht as (lb & E3 & Ht). apply bind_Ok in Ht as (rf & E4 & Ht).
  apply bind_Ok in Ht as (lf & E5 & Ht). apply bind_Ok in Ht as (rb & E6 & Ht).
  apply bind_Ok in Ht as (f & E7 & Ht).
  injection Ht as <-. cbn [tg_fixed].
  apply mapM_index_Ok in E3 as [_ E3]. apply mapM_index_Ok in E4 as [_ E4].
  apply mapM_index_Ok in E5 as [_ E5]. apply mapM_index_Ok in E6 as [_ E6].
  rewrite !other_axes_free in *.
  assert (Lb : length la = length lb) by (rewrite E3; unfold axis_lengths; rewrite map_length; auto).
  rewrite Lb in E7. rewrite tfp_from_shapes_split in E7.
  2:{ rewrite E4. unfold axis_lengths. rewrite map_length. lia. }
  destruct (Nat.eqb _ _); [|discriminate]. injection E7 as <-. unfold tfp_products.
  cbn [len_uncontracted_lhs len_uncontracted_rhs len_contracted_axes]. subst. unfold axis_lengths. reflexivity.
Qed.

End Main.
