(** Which calls the limit on the size of an array changes. *)
From Verif Require Import Base BaseFacts NDArray Validation Optimizers Strategies Singleton Pair Path Api Spec
  ValidationFacts ValidationMain SumFacts ArrayFacts TensordotFacts DiagFacts SingletonFacts PairFacts StackedFacts
  PairMain PathFacts PathShape TensordotMain EinsumMain Overflow OverflowFacts Limits LimitsFacts.
From Coq Require Import Lia.

(** The labels of the product of the first [m] operands once every label is summed that neither a
    later operand nor the output has. *)
Definition kept (ops : list (list char)) (out : list char) (m : nat) : list char :=
  filter (fun c => existsb (N.eqb c) (concat (skipn m ops) ++ out)) (nodup N.eq_dec (concat (firstn m ops))).

(** Each of these products is within the limit [L]. *)
Definition products_fit (L : nat) (size : char -> nat) (ops : list (list char)) (out : list char) : Prop :=
  forall m, 2 <= m <= length ops -> nonzero_product (map size (kept ops out m)) <= L.

Lemma kept_In ops out m c : In c (kept ops out m) <->
  In c (concat (firstn m ops)) /\ (In c (concat (skipn m ops)) \/ In c out).
Proof.
  unfold kept. rewrite filter_In, nodup_In. change (existsb (N.eqb c) ?l) with (mem c l).
  rewrite mem_In, in_app_iff. tauto.
Qed.

Lemma kept_NoDup ops out m : NoDup (kept ops out m).
Proof. apply NoDup_filter, NoDup_nodup. Qed.

Lemma nzp_same (size : char -> nat) l l' : NoDup l -> NoDup l' -> (forall c, In c l <-> In c l') ->
  nonzero_product (map size l) = nonzero_product (map size l').
Proof. intros. apply nzp_perm, Permutation_map, NoDup_Permutation; auto. Qed.

Section Main.
Variables (L : nat) (size : char -> nat).

(** The results of the steps are within the limit. *)
Definition results_fit (steps : list pair_step) : Prop :=
  Forall (fun st => nonzero_product (map size (step_output st)) <= L) steps.

Lemma chain_kept out i L0 todo js lhs steps : chain size out i L0 todo js lhs steps ->
  results_fit steps <-> products_fit L size (L0 :: todo) out.
Proof.
  induction 1 as [i L0 r n lhs sc HS|i L0 r rest n js lhs sc L' steps Hne HS HL Hch IH].
  - pose proof HS as (Ec & [Ho Hi] & _).
    assert (E : nonzero_product (map size (kept [L0; r] out 2)) = nonzero_product (map size out)).
    { apply nzp_same; auto; [apply kept_NoDup|]. intros c. rewrite kept_In. cbn [firstn skipn concat app].
      rewrite app_nil_r. specialize (Hi c). cbn [concat] in Hi. rewrite app_nil_r in Hi. split; [intros [_ [[]|H]]; auto|auto]. }
    unfold results_fit, products_fit. split.
    + intros H m Hm. cbn [length] in Hm. replace m with 2 by lia. rewrite E. inversion H; subst.
      unfold step_output in H2. cbn [ps_sc] in H2. rewrite Ec in H2. exact H2.
    + intros H. constructor; auto. unfold step_output. cbn [ps_sc]. rewrite Ec. cbn [contraction_of output_indices].
      rewrite <- E. apply H. cbn [length]. lia.
  - pose proof HS as (Ec & [Ho Hi] & _).
    assert (E1 : nonzero_product (map size (kept (L0 :: r :: rest) out 2)) = nonzero_product (map size L')).
    { apply nzp_same; auto; [apply kept_NoDup|]. intros c. rewrite kept_In, HL.
      cbn [firstn skipn concat app]. rewrite app_nil_r, in_app_iff. tauto. }
    assert (E2 : forall m, nonzero_product (map size (kept (L0 :: r :: rest) out (S (S m))))
                           = nonzero_product (map size (kept (L' :: rest) out (S m)))).
    { intros m. apply nzp_same; try apply kept_NoDup. intros c. rewrite !kept_In. cbn [firstn skipn concat].
      rewrite !in_app_iff, HL.
      assert (Hr : In c (concat rest) <-> In c (concat (firstn m rest)) \/ In c (concat (skipn m rest))).
      { rewrite <- (firstn_skipn m rest) at 1. rewrite concat_app, in_app_iff. tauto. }
      rewrite Hr. tauto. }
    assert (Eo : step_output (mkPair sc lhs (Input n)) = L').
    { unfold step_output. cbn [ps_sc]. rewrite Ec. auto. }
    unfold results_fit, products_fit in *. split.
    + intros H m Hm. pose proof (Forall_inv H) as H2. pose proof (Forall_inv_tail H) as H3. cbv beta in H2.
      rewrite Eo in H2. cbn [length] in Hm.
      destruct m as [|[|m]]; try lia. destruct m as [|m]; [rewrite E1; auto|].
      rewrite E2. apply (proj1 IH); auto. cbn [length]. lia.
    + intros H. constructor.
      * rewrite Eo, <- E1. apply H. cbn [length]. lia.
      * apply IH. intros m Hm. cbn [length] in Hm. destruct m as [|m]; [lia|].
        rewrite <- E2. apply H. cbn [length]. lia.
Qed.

Variables (h : hash_order).
Hypothesis Hh : hash_ok h.
Context {A : Type} {Sc : Scalar A}.
Variable lay : backend A.
Hypothesis Hlay : backend_runs lay.

Let one_scalar : Scalar unit := {| szero := tt; sone := tt; sadd := fun _ _ => tt; smul := fun _ _ => tt |}.
Let one_semiring : @semiring unit one_scalar.
Proof. split; intros; repeat match goal with x : unit |- _ => destruct x end; reflexivity. Qed.
Let anything (x : A) (y : unit) : Prop := True.
Let anything_ok : @scalar_relation A unit Sc one_scalar anything.
Proof. split; intros; exact I. Qed.
Let anything_fused : @fused_relation A unit one_scalar anything lay.
Proof. intros x x' y y' z z' _ _ _. exact I. Qed.

Lemma step_ends k sc lhs rhs out p (a b : arr A) : sized sc [lhs; rhs] out size ->
  pair_contraction_new h k sc = Ok p -> wf a -> wf b -> a_shape a = map size lhs -> a_shape b = map size rhs ->
  run_pair_contraction lay p a b = Panic
  \/ exists x, run_pair_contraction lay p a b = Ok x /\ wf x /\ a_shape x = map size out.
Proof.
  intros HS Ep Wa Wb Sa Sb0.
  destruct (pair_contraction_ok h size Hh lay Hlay anything _ (strong_weak anything anything_ok one_semiring) (strong_no_empty anything size)
              (strong_weak_fused anything lay anything_ok one_semiring anything_fused) one_semiring
              (semiring_summable size one_semiring) k sc lhs rhs out HS) as (p' & Ep' & Hp).
  rewrite Ep in Ep'. injection Ep' as <-.
  assert (Hrep : forall (t : arr A) ls, wf t -> a_shape t = map size ls ->
            rrep size anything t ls (fun _ => tt)).
  { intros t ls Wt St. exists (fun e => elem t (map e ls)). split; [apply lrep_wf; auto|]. intros; exact I. }
  destruct (Hp a b (fun _ => tt) (fun _ => tt) Wa Wb (Hrep a lhs Wa Sa) (Hrep b rhs Wb Sb0)) as
    [[E _]|(_ & _ & x & cs & E & _ & Hx)]; auto.
  { intros e e' _. auto. } { intros e e' _. auto. }
  right. exists x. destruct Hx as (F0 & Hx & _). pose proof HS as (_ & [Ho _] & _).
  split; auto. split; [eapply lrep_is_wf; eauto|]. pose proof (lrep_holds size x out F0 Ho Hx) as (E1 & _). auto.
Qed.

Lemma step_limited k sc lhs rhs out p (a b : arr A) : sized sc [lhs; rhs] out size ->
  pair_contraction_new h k sc = Ok p -> wf a -> wf b -> a_shape a = map size lhs -> a_shape b = map size rhs ->
  shape_fits L a -> shape_fits L b ->
  run_pair_contraction_l L lay p a b = limited L (run_pair_contraction lay p a b).
Proof.
  intros HS Ep Wa Wb Sa Sb0 Fa Fb.
  destruct (step_ends k sc lhs rhs out p a b HS Ep Wa Wb Sa Sb0) as [E|(x & E & _ & _)]; rewrite E.
  - destruct (run_pair_contraction_below L lay p a b) as [H|H]; rewrite H; auto; rewrite E; auto.
  - apply run_pair_contraction_limited; auto. unfold shape_fits in *.
    apply (pair_contraction_bounded L h size Hh k sc lhs rhs out p); auto; congruence.
Qed.

Lemma chain_limited out i L0 todo js lhs steps : chain size out i L0 todo js lhs steps ->
  forall pcs, Forall2 (fun st p => exists k, pair_contraction_new h k (ps_sc st) = Ok p) steps pcs ->
  forall operands ints bs a,
    length ints = i -> fetch operands ints lhs = Ok a -> usable size a L0 -> shape_fits L a ->
    Forall2 (fun j b => index operands j = Ok b) js bs -> Forall2 (usable size) bs todo ->
    Forall (shape_fits L) bs ->
    (results_fit steps ->
       foldM (run_step_l L lay operands) (combine pcs steps) ints
       = foldM (run_step lay operands) (combine pcs steps) ints)
    /\ (~ results_fit steps -> foldM (run_step_l L lay operands) (combine pcs steps) ints = Panic).
Proof.
  assert (One : forall sc l r o p operands ints lhs j a b,
    sized sc [l; r] o size -> (exists k, pair_contraction_new h k sc = Ok p) ->
    usable size a l -> usable size b r -> shape_fits L a -> shape_fits L b ->
    fetch operands ints lhs = Ok a -> index operands j = Ok b ->
    (run_step lay operands ints (p, mkPair sc lhs (Input j)) = Panic
     /\ run_step_l L lay operands ints (p, mkPair sc lhs (Input j)) = Panic)
    \/ exists x, run_step lay operands ints (p, mkPair sc lhs (Input j)) = Ok (ints ++ [x])
         /\ usable size x o
         /\ (nonzero_product (map size o) <= L -> run_step_l L lay operands ints (p, mkPair sc lhs (Input j)) = Ok (ints ++ [x]))
         /\ (~ nonzero_product (map size o) <= L -> run_step_l L lay operands ints (p, mkPair sc lhs (Input j)) = Panic)).
  { intros sc l r o p operands ints lhs' j a b HS (k & Ep) [Wa Sa] [Wb Sb0] Fa Fb Ea Eb.
    cbn [run_step run_step_l ps_lhs ps_rhs fetch]. rewrite Ea, Eb. cbn [rbind].
    rewrite (step_limited k sc l r o p a b HS Ep Wa Wb Sa Sb0 Fa Fb).
    destruct (step_ends k sc l r o p a b HS Ep Wa Wb Sa Sb0) as [E|(x & E & Wx & Sx)]; rewrite E; cbn [rbind]; [left; auto|].
    right. exists x. split; auto. split; [split; auto|]. unfold limited. cbn [rbind]. unfold fits. rewrite Sx.
    split; intros H.
    - rewrite (proj2 (Nat.leb_le _ _) H). auto.
    - destruct (Nat.leb_spec (nonzero_product (map size o)) L); [contradiction|auto]. }
  induction 1 as [i L0 r n lhs sc HS|i L0 r rest n js lhs sc L' steps Hne HS HL Hch IH];
    intros pcs Hp operands ints bs a Hi Hf Ua Fa Hb Hu Hbf.
  - inversion Hp as [|? p ? pcs' Hr Hp']; subst. inversion Hp'; subst.
    inversion Hb as [|? b ? bs' Eb Hb']; subst. inversion Hb'; subst.
    inversion Hu as [|? ? ? ? Ub Hu']; subst. inversion Hbf; subst.
    assert (Eo : step_output (mkPair sc lhs (Input n)) = out).
    { unfold step_output. cbn [ps_sc]. destruct HS as (-> & _). auto. }
    cbn [ps_sc] in Hr. cbn [combine foldM].
    destruct (One sc L0 r out p operands ints lhs n a b HS Hr Ua Ub Fa H1 Hf Eb) as [[E1 E2]|(x & E & Ux & H3 & H4)].
    { rewrite E1, E2. auto. }
    rewrite E. cbn [rbind]. split; intros H.
    + pose proof (Forall_inv H) as H6. cbv beta in H6. rewrite Eo in H6. rewrite (H3 H6). auto.
    + rewrite H4; auto. intros Hx. apply H. constructor; auto. rewrite Eo. auto.
  - inversion Hp as [|? p ? pcs' Hr Hp']; subst.
    inversion Hb as [|? b ? bs' Eb Hb']; subst.
    inversion Hu as [|? ? ? ? Ub Hu']; subst. inversion Hbf; subst.
    assert (Eo : step_output (mkPair sc lhs (Input n)) = L').
    { unfold step_output. cbn [ps_sc]. destruct HS as (-> & _). auto. }
    cbn [ps_sc] in Hr. cbn [combine foldM].
    destruct (One sc L0 r L' p operands ints lhs n a b HS Hr Ua Ub Fa H1 Hf Eb) as [[E1 E2]|(x & E & Ux & H3 & H4)].
    { rewrite E1, E2. auto. }
    rewrite E. cbn [rbind].
    destruct (le_dec (nonzero_product (map size L')) L) as [Hx|Hx].
    + destruct (IH pcs' Hp' operands (ints ++ [x]) bs' x) as [I1 I2]; auto.
      { rewrite app_length. simpl. lia. }
      { cbn [fetch]. apply index_some. rewrite nth_error_app2, Nat.sub_diag by lia. reflexivity. }
      { unfold shape_fits. destruct Ux as [_ ->]. auto. }
      rewrite (H3 Hx). cbn [rbind]. split; intros H.
      * apply I1. inversion H; auto.
      * apply I2. intros H'. apply H. constructor; auto. rewrite Eo. auto.
    + rewrite (H4 Hx). cbn [rbind]. split; auto. intros H. pose proof (Forall_inv H) as H6. cbv beta in H6.
      rewrite Eo in H6. contradiction.
Qed.

(** The operands in the order in which a strategy takes them. *)
Definition taken {T} (strategy : optimization_method) (l : list T) : list T :=
  match strategy with Reverse => rev l | _ => l end.

Lemma taken_nth strategy (ops : list (list char)) : strategy = Naive \/ strategy = Reverse ->
  map (fun i => nth i ops []) (order_of strategy (length ops)) = taken strategy ops.
Proof.
  intros [-> | ->]; cbn [order_of taken]; [apply map_nth_seq|]. rewrite map_rev, map_nth_seq. auto.
Qed.

Section Path.
Variables (s : list char) (arrays : list (arr A)) (ops : list (list char)) (out : list char).
Hypothesis Hc : call_ok s (map (@a_shape A) arrays) ops out size.
Hypothesis Hw : Forall wf arrays.
Hypothesis Hfit : Forall (shape_fits L) arrays.

Lemma operands_fit : Forall (fun ix => nonzero_product (map size ix) <= L) ops.
Proof.
  destruct Hc as (_ & _ & Hs). unfold shapes_ok in Hs.
  clear -Hs Hfit. revert ops Hs. induction Hfit as [|a arrays Ha Hf IH]; intros ops Hs; inversion Hs; subst; constructor; auto.
  unfold shape_fits in Ha. congruence.
Qed.

Lemma path_limited strategy M k0 k1 k2 sc order : strategy = Naive \/ strategy = Reverse -> L <= M ->
  from_string_and_shapes h k0 s (map (@a_shape A) arrays) = Ok sc ->
  generate_optimized_order h k1 sc strategy = Ok order ->
  let run := do p <- from_path h k2 order; contract_operands lay p arrays in
  let run_l := do p <- from_path_c M h k2 order; contract_operands_l L lay p arrays in
  (products_fit L size (taken strategy ops) out -> run_l = run)
  /\ (~ products_fit L size (taken strategy ops) out -> run_l = Panic).
Proof.
  intros Hst HM E Eo run run_l. unfold run, run_l. clear run run_l.
  assert (Hu : usables size arrays ops). { apply usables_intro; auto. apply Hc. }
  pose proof operands_fit as Hof.
  destruct (chosen_order h Hh k0 k1 s _ ops out size sc strategy Hc Hst E)
    as [(sc' & Hl & E2 & H1 & H2)|(i0 & js & steps & Hl & Eor & Hp & E2 & Hch)].
  - assert (Hpf : products_fit L size (taken strategy ops) out).
    { intros m Hm. destruct Hst as [-> | ->]; cbn [taken] in Hm; rewrite ?rev_length in Hm; lia. }
    split; [intros _|contradiction]. clear H1 H2. rewrite Eo in E2. injection E2 as ->. cbn [from_path from_path_c].
    destruct (singleton_contraction_new sc') as [c| |] eqn:Es; cbn [rbind]; auto.
    cbn [contract_operands contract_operands_l path_steps path_order].
    destruct ops as [|this [|? ?]]; try discriminate.
    inversion Hu as [|a ? rest ? Ua Hu']; subst. inversion Hu'; subst.
    unfold index. cbn [nth_error unwrap rbind].
    inversion Hfit; subst. inversion Hof; subst.
    apply (run_singleton_same L lay Hlay); auto.
    assert (HS : sized sc' [this] out size).
    { destruct (from_string_ok h k0 s _ _ _ _ Hh Hc) as (sc1 & Ex & HSx).
      assert (sc1 = sc) by congruence. subst sc1.
      assert (Hpo : Permutation (order_of strategy 1) (seq 0 1)).
      { destruct Hst as [-> | ->]; simpl; auto. }
      assert (Eg : generate_optimized_order h k1 sc strategy = generate_path h k1 sc (order_of strategy 1)).
      { pose proof HSx as (Hcc & _).
        destruct Hst as [-> | ->]; unfold generate_optimized_order, naive_order, reverse_order;
          rewrite Hcc; reflexivity. }
      destruct (generate_path_ok h k1 size Hh sc [this] out (order_of strategy 1) HSx) as
        [(sc2 & _ & E3 & HS3)|(? & ? & ? & ? & ? & Eo1 & ? & Htn & E3 & _)]; auto; [discriminate| |].
      - rewrite Eg, E3 in Eo. injection Eo as <-.
        assert (Eops : map (fun i => nth i [this] []) (order_of strategy 1) = [this])
          by (destruct Hst as [-> | ->]; reflexivity).
        rewrite Eops in HS3. auto.
      - rewrite Eg, E3 in Eo. discriminate. }
    apply (singleton_contraction_fits L sc' this out size c); auto.
  - rewrite Eo in E2. injection E2 as ->.
    set (d := mkArr [] 0 [] [] : arr A).
    assert (Hla : length arrays = length ops) by (clear -Hu; induction Hu; simpl; auto).
    assert (Hn : forall j, j < length ops -> index arrays j = Ok (nth j arrays d)
                   /\ usable size (nth j arrays d) (nth j ops []) /\ shape_fits L (nth j arrays d)).
    { intros j Hj. split; [|split].
      - apply index_some. apply nth_error_nth'. lia.
      - unfold usables in Hu. clear -Hu Hj. revert j Hj.
        induction Hu; intros [|j] Hj; simpl in *; try lia; auto. apply IHHu. lia.
      - rewrite Forall_forall in Hfit. apply Hfit. apply nth_In. lia. }
    assert (Hj : forall j, In j (i0 :: js) -> j < length ops).
    { intros j Hj. apply (Permutation_in _ Hp) in Hj. apply in_seq in Hj. lia. }
    assert (Et : products_fit L size (nth i0 ops [] :: map (fun i => nth i ops []) js) out
                 <-> products_fit L size (taken strategy ops) out).
    { rewrite <- (taken_nth strategy ops Hst), <- Eor. cbn [map]. tauto. }
    rewrite <- Et, <- (chain_kept _ _ _ _ _ _ _ Hch). clear Et.
    assert (Hcomp : exists pcs, from_path h k2 (Pairs steps) = Ok (mkPath (Pairs steps) (StepsPairs pcs))
       /\ Forall2 (fun st p => exists k, pair_contraction_new h k (ps_sc st) = Ok p) steps pcs).
    { destruct (compile_chain h size Hh anything _ (strong_weak anything anything_ok one_semiring)
                  (strong_no_empty anything size) lay Hlay (strong_weak_fused anything lay anything_ok one_semiring anything_fused)
                  (semiring_summable size one_semiring) k2 _ _ _ _ _ _ _ Hch 0) as (pcs & Ec & _).
      exists pcs. cbn [from_path]. rewrite Ec. split; auto.
      assert (Hg : forall n pcs, mapM (fun ist => pair_contraction_new h (fst ist :: 9 :: k2) (ps_sc (snd ist)))
                     (combine (seq n (length steps)) steps) = Ok pcs ->
                   Forall2 (fun st p => exists k, pair_contraction_new h k (ps_sc st) = Ok p) steps pcs);
        [|apply (Hg 0); exact Ec].
      clear. induction steps as [|st steps IH]; intros n pcs Ec.
      - injection Ec as <-. constructor.
      - cbn [length seq combine mapM fst snd] in Ec. apply bind_Ok in Ec as (p & E1 & Ec).
        apply bind_Ok in Ec as (ps & E2 & Ec). injection Ec as <-. constructor; eauto. }
    destruct Hcomp as (pcs & Ec & Hpcs). rewrite Ec. cbn [rbind].
    assert (Hrun : (results_fit steps ->
       foldM (run_step_l L lay arrays) (combine pcs steps) []
       = foldM (run_step lay arrays) (combine pcs steps) [])
       /\ (~ results_fit steps -> foldM (run_step_l L lay arrays) (combine pcs steps) [] = Panic)).
    { apply (chain_limited _ _ _ _ _ _ _ Hch pcs Hpcs arrays [] (map (fun j => nth j arrays d) js) (nth i0 arrays d)); auto.
      - cbn [fetch]. apply Hn. apply Hj. simpl; auto.
      - apply Hn. apply Hj. simpl; auto.
      - apply Hn. apply Hj. simpl; auto.
      - assert (Hj' : forall j, In j js -> j < length ops) by (intros; apply Hj; simpl; auto).
        clear -Hj' Hn. induction js; simpl; constructor; auto. { apply Hn. apply Hj'. simpl; auto. }
        apply IHjs. intros; apply Hj'; simpl; auto.
      - assert (Hj' : forall j, In j js -> j < length ops) by (intros; apply Hj; simpl; auto).
        clear -Hj' Hn. induction js; simpl; constructor; auto. { apply Hn. apply Hj'. simpl; auto. }
        apply IHjs. intros; apply Hj'; simpl; auto.
      - apply Forall_forall. intros x Hx. apply in_map_iff in Hx as (j & <- & Hx). apply Hn. apply Hj. simpl; auto. }
    destruct Hrun as [R1 R2]. split; intros H.
    + rewrite (from_path_checked M h k2 s _ ops out size sc strategy (Pairs steps) k0 k1 Hh Hc Hst E Eo).
      * rewrite Ec. cbn [rbind contract_operands contract_operands_l path_steps path_order]. rewrite (R1 H). auto.
      * intros steps' [= <-].
        assert (Hs : Forall (step_fits L size) steps).
        { assert (H0 : nonzero_product (map size (nth i0 ops [])) <= L).
          { rewrite Forall_forall in Hof. apply Hof. apply nth_In. apply Hj. simpl; auto. }
          assert (Ht : Forall (fun ix => nonzero_product (map size ix) <= L) (map (fun i => nth i ops []) js)).
          { apply Forall_forall. intros x Hx. apply in_map_iff in Hx as (j & <- & Hx). rewrite Forall_forall in Hof.
            apply Hof. apply nth_In. apply Hj. simpl; auto. }
          clear -Hch H H0 Ht. revert H H0 Ht.
          induction Hch as [i L0 r n lhs sc HS|i L0 r rest n js lhs sc L' steps Hne HS HL Hch IH]; intros H H0 Ht;
            inversion Ht; subst; constructor.
          - unfold step_fits. cbn [ps_sc]. rewrite (sc_ops2 _ _ _ _ _ HS). auto.
          - constructor.
          - unfold step_fits. cbn [ps_sc]. rewrite (sc_ops2 _ _ _ _ _ HS). auto.
          - inversion H; subst. apply IH; auto. unfold step_output in H5. cbn [ps_sc] in H5.
            rewrite (sc_out2 _ _ _ _ _ HS) in H5. auto. }
        eapply Forall_impl; [|exact Hs]. intros st Hst'. eapply Forall_impl; [|exact Hst']. cbv beta. intros; lia.
    + destruct (from_path_below M h k2 (Pairs steps)) as [Hb|Hb]; rewrite Hb; auto.
      rewrite Ec. cbn [rbind contract_operands_l path_steps path_order]. rewrite (R2 H). auto.
Qed.

Lemma einsum_limited M : L <= M ->
  (products_fit L size ops out -> einsum_l L lay M h s arrays = einsum h lay s arrays)
  /\ (~ products_fit L size ops out -> einsum_l L lay M h s arrays = Panic).
Proof.
  intros HM. unfold einsum_l, einsum, einsum_sc, einsum_path_new, einsum_path_new_c, validate_and_size, get_operand_shapes.
  destruct (from_string_ok h [20] s _ _ _ _ Hh Hc) as (sc & E & HS). rewrite E. cbn [rbind].
  destruct (chosen_order h Hh [20] [10; 21] s _ ops out size sc Naive Hc (or_introl eq_refl) E)
    as [(sc' & _ & E2 & _)|(i0 & js & steps & _ & _ & _ & E2 & _)]; rewrite E2; cbn [rbind];
    apply (path_limited Naive M [20] [10; 21] [11; 21] sc _ (or_introl eq_refl) HM E E2).
Qed.

Lemma compile_and_run_limited M strategy : strategy = Naive \/ strategy = Reverse -> L <= M ->
  (products_fit L size (taken strategy ops) out ->
     compile_and_run_l L lay M h s arrays strategy = compile_and_run h lay s arrays strategy)
  /\ (~ products_fit L size (taken strategy ops) out -> compile_and_run_l L lay M h s arrays strategy = Panic).
Proof.
  intros Hst HM. unfold compile_and_run_l, compile_and_run, einsum_path_fn_c, einsum_path_fn,
    validate_and_optimize_order, get_operand_shapes.
  match goal with |- context [from_string_and_shapes h ?k s _] => set (k0 := k) end.
  destruct (from_string_ok h k0 s _ _ _ _ Hh Hc) as (sc & E & HS). rewrite E. cbn [rbind].
  match goal with |- context [generate_optimized_order h ?k _ _] => set (k1 := k) end.
  destruct (chosen_order h Hh k0 k1 s _ ops out size sc strategy Hc Hst E)
    as [(sc' & _ & E2 & _)|(i0 & js & steps & _ & _ & _ & E2 & _)]; rewrite E2; cbn [rbind];
    apply (path_limited strategy M k0 k1 [23] sc _ Hst HM E E2).
Qed.

End Path.
End Main.
