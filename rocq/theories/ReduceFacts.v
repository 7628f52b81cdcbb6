(** What a singleton step computes, term by term and in order, with scalars that satisfy no laws, and what
    follows for paths whose operands are reduced before they are multiplied. *)
From Verif Require Import Base BaseFacts NDArray Validation Optimizers Strategies Singleton Pair Path Api Spec
  ParserFacts ValidationFacts ValidationMain SumFacts ArrayFacts TensordotFacts TensordotMain DiagFacts SingletonFacts PairFacts
  StackedFacts PairMain PathFacts EinsumMain ReproFacts NdLayoutFacts TwinFacts ExactFacts ExactSpec.
From Coq Require Import Lia.

Lemma seen_first_ext this : forall o o', (forall c, In c this -> In c o <-> In c o') -> seen_first this o = seen_first this o'.
Proof.
  induction this as [|c l IH]; intros o o' H; [reflexivity|]. cbn [seen_first].
  destruct (in_dec N.eq_dec c o) as [I|I], (in_dec N.eq_dec c o') as [I'|I'].
  - apply IH. intros d Hd. apply H. simpl; auto.
  - exfalso. apply I'. apply H; simpl; auto.
  - exfalso. apply I. apply H; simpl; auto.
  - f_equal. apply IH. intros d Hd. simpl. rewrite (H d); [tauto|simpl; auto].
Qed.

Lemma seen_first_In this : forall out c, In c (seen_first this out) <-> In c this /\ ~ In c out.
Proof.
  induction this as [|d l IH]; intros out c; cbn [seen_first]; [simpl; tauto|].
  destruct (in_dec N.eq_dec d out) as [I|I].
  - rewrite IH. simpl. split; [tauto|]. intros [[->|H] Hn]; tauto.
  - simpl. rewrite IH. simpl. split.
    + intros [->|H]; tauto.
    + intros [[->|H] Hn]; [tauto|]. destruct (N.eq_dec d c); tauto.
Qed.

Lemma seen_first_none this out : incl this out -> seen_first this out = [].
Proof.
  intros H. destruct (seen_first this out) as [|c l] eqn:E; auto. exfalso.
  assert (Hc : In c (seen_first this out)) by (rewrite E; simpl; auto). apply seen_first_In in Hc as [H1 H2]. auto.
Qed.

Lemma seen_first_filter this : forall out, NoDup this -> seen_first this out = filter (fun c => negb (mem c out)) this.
Proof.
  induction this as [|c l IH]; intros out Hn; [reflexivity|]. inversion Hn as [|? ? Hc Hl]; subst.
  cbn [seen_first filter]. destruct (in_dec N.eq_dec c out) as [I|I].
  - rewrite (proj2 (mem_In c out) I). cbn [negb]. auto.
  - rewrite (proj2 (mem_false c out) I). cbn [negb]. f_equal. rewrite <- IH by auto. apply seen_first_ext.
    intros d Hd. simpl. split; auto. intros [->|H]; tauto.
Qed.

Lemma seen_first_rest out rest : NoDup (out ++ rest) -> seen_first (out ++ rest) out = rest.
Proof.
  intros Hn. assert (H : forall l o, incl l o -> seen_first (l ++ rest) o = seen_first rest o).
  { induction l as [|c l IH]; intros o Hi; [reflexivity|]. cbn [app seen_first].
    destruct (in_dec N.eq_dec c o) as [I|I]; [|exfalso; apply I, Hi; simpl; auto]. apply IH. intros d Hd. apply Hi. simpl; auto. }
  rewrite H by (intros c; auto). assert (Hd : forall c, In c rest -> ~ In c out).
  { intros c Hr Ho. eapply NoDup_app_disjoint; eauto. }
  apply NoDup_app_remove_l in Hn. clear H. revert out Hd. induction Hn as [|c rest Hc Hn IH]; intros out Hd; [reflexivity|].
  cbn [seen_first]. destruct (in_dec N.eq_dec c out) as [I|I]; [exfalso; apply (Hd c); simpl; auto|]. f_equal. apply IH.
  intros d Hr [->|Ho]; [contradiction|]. apply (Hd d); simpl; auto.
Qed.

Lemma diag_mapping_seen input : forall adj, fst (diag_mapping adj input) = adj ++ seen_first input adj.
Proof.
  induction input as [|c input IH]; intros adj; [simpl; rewrite app_nil_r; auto|]. simpl.
  destruct (position c adj) as [p|] eqn:E.
  - apply position_Some_In in E. destruct (in_dec N.eq_dec c adj); [|contradiction].
    specialize (IH adj). destruct (diag_mapping adj input). auto.
  - apply position_None in E. destruct (in_dec N.eq_dec c adj); [contradiction|].
    specialize (IH (adj ++ [c])). destruct (diag_mapping (adj ++ [c]) input). cbn [fst] in *. rewrite IH, <- app_assoc. simpl.
    do 2 f_equal. apply seen_first_ext. intros d _. rewrite in_app_iff. simpl. tauto.
Qed.

Section Reduce.
Context {A : Type} {Sc : Scalar A}.
Variable lay : backend A.
Hypothesis Hlay : backend_runs lay.
Variable way : list A -> A -> Prop.
Hypothesis Hway : forall ax a idx l, way l (add_up lay ax a idx l).
Variable size : char -> nat.

Lemma axis_sums_app cs cs' F G V : axis_sums way size cs F G -> axis_sums way size cs' G V ->
  axis_sums way size (cs ++ cs') F V.
Proof. induction 1; intros H'; [exact H'|]. cbn [app]. econstructor; eauto. Qed.

(** ** Sums *)

Lemma sum_axis_exact (a : arr A) pre c post F :
  NoDup (pre ++ c :: post) -> lrep size a (pre ++ c :: post) F ->
  exists r, sum_axis lay a (length pre) = Ok r
    /\ lrep size r (pre ++ post)
         (fun e => add_up lay (length pre) a (map e (pre ++ post)) (map (fun i => F (upd e c i)) (seq 0 (size c)))).
Proof.
  intros Hn Hl. pose proof (lrep_holds size a _ F Hn Hl) as Hh. rewrite map_app in Hh. cbn [map] in Hh.
  destruct Hh as (H1 & H2 & H3). unfold sum_axis. rewrite H1.
  assert (El : length pre = length (map size pre)) by (rewrite map_length; auto).
  rewrite El. rewrite (index_nth _ _ 0) by (rewrite app_length; simpl; lia).
  rewrite app_nth2, Nat.sub_diag by lia. cbn [rbind nth]. rewrite remove_nth_app, <- map_app.
  set (g := fun idx => add_up lay (length (map size pre)) a idx
                         (map (fun i => F (bind (pre ++ c :: post) (insert_nth (length (map size pre)) i idx))) (seq 0 (size c)))).
  rewrite (mapM_ok _ g).
  - cbn [rbind]. eexists. split; [reflexivity|].
    pose proof (holds_mk_c_lay lay (LSumAxis (length (map size pre))) [a] (map size (pre ++ post)) g Hlay) as Hh.
    apply holds_lrep in Hh. eapply lrep_ext; [|exact Hh]. intros e He. cbn beta. unfold g.
    f_equal. apply map_ext_in. intros i Hi. apply in_seq in Hi.
    assert (Hc : ~ In c (pre ++ post)) by (apply NoDup_remove_2; auto).
    assert (Ei : insert_nth (length (map size pre)) i (map e (pre ++ post)) = map (upd e c i) (pre ++ c :: post)).
    { rewrite map_length, !map_app, <- (map_length e pre), insert_nth_app. cbn [map].
      rewrite upd_same. f_equal; [|f_equal]; apply map_ext_in; intros d Hd; symmetry;
        apply upd_other; intros ->; apply Hc, in_or_app; auto. }
    rewrite Ei. eapply lrep_bind; eauto.
    intros d Hd. unfold upd. destruct (N.eqb_spec d c); [subst; lia|].
    apply He. apply in_app_iff in Hd as [Hd|[Hd|Hd]]; apply in_or_app; auto. congruence.
  - intros idx Hi. apply indices_In in Hi.
    rewrite (mapM_ok _ (fun i => F (bind (pre ++ c :: post) (insert_nth (length (map size pre)) i idx)))); [reflexivity|].
    intros i Hd. apply in_seq in Hd. apply H3.
    rewrite map_app in Hi. apply in_bounds_app_inv in Hi as (i1 & i2 & -> & B1 & B2).
    rewrite <- (in_bounds_length _ _ B1), insert_nth_app.
    apply in_bounds_app; auto. simpl. rewrite B2, andb_true_r. apply Nat.ltb_lt. lia.
Qed.

Lemma sum_axes_exact : forall summed (a : arr A) out F, NoDup (out ++ summed) -> lrep size a (out ++ summed) F ->
  exists r V, foldM (fun r ax => sum_axis lay r ax) (map (fun _ => length out) summed) a = Ok r
    /\ lrep size r out V /\ axis_sums way size summed F V.
Proof.
  induction summed as [|c summed IH]; intros a out F Hn H.
  - exists a, F. rewrite app_nil_r in H. split; auto. split; auto. constructor.
  - destruct (sum_axis_exact a out c summed F Hn H) as (r & E & Hr). cbn [map foldM]. rewrite E. cbn [rbind].
    destruct (IH r out _ (NoDup_remove_1 _ _ _ Hn) Hr) as (r' & V & E' & Hr' & HV).
    exists r', V. split; auto. split; auto. econstructor; [|exact HV]. intros e. cbn beta. apply Hway.
Qed.

Lemma summation_exact (a : arr A) out summed F orig : NoDup (out ++ summed) -> summed <> [] ->
  lrep size a (out ++ summed) F ->
  exists r V, summation_contract lay (mkSummation orig (map (fun _ => length out) (seq 0 (length summed)))) a = Ok r
    /\ lrep size r out V /\ axis_sums way size summed F V.
Proof.
  intros Hn Hne H. destruct summed as [|c summed]; [contradiction|].
  destruct (sum_axes_exact (c :: summed) a out F Hn H) as (r & V & E & Hr). exists r, V. split; auto.
  unfold summation_contract. cbn [adjusted_axis_list length seq map skipn].
  unfold index. cbn [nth_error unwrap rbind]. rewrite <- seq_shift, map_map. rewrite <- E. cbn [map foldM].
  replace (map (fun _ => length out) (seq 0 (length summed))) with (map (fun _ => length out) summed); [reflexivity|].
  clear. induction summed as [|d s IH]; auto. cbn [map length seq]. rewrite IH, <- seq_shift, map_map. reflexivity.
Qed.

(** ** Every singleton contractor *)

Section One.
Variables (sc : sized_contraction) (this out : list char).
Hypothesis HS : sized sc [this] out size.

Let Ho : NoDup out := out_NoDup sc this out size HS.
Let Hi : incl out this := out_incl sc this out size HS.

Lemma one_op : operand_indices (sc_contraction sc) = [this].
Proof. clear Ho Hi. destruct HS as (-> & _). reflexivity. Qed.

Lemma one_out : output_indices (sc_contraction sc) = out.
Proof. clear Ho Hi. destruct HS as (-> & _). reflexivity. Qed.

Lemma diag_new_seen d : diagonalization_new sc = Ok d ->
  exists m, d = mkDiag m (map size (out ++ seen_first this out))
    /\ NoDup (out ++ seen_first this out)
    /\ Forall2 (fun c p => position c (out ++ seen_first this out) = Some p) this m.
Proof.
  intros E. unfold diagonalization_new in E. rewrite one_op, one_out in E. cbn [length Nat.eqb rassert rbind] in E.
  unfold index in E. cbn [nth_error unwrap rbind] in E.
  destruct (diag_mapping_ok this out) as (ex & m & Em & H1 & H2 & H3).
  pose proof (diag_mapping_seen this out) as Es. rewrite Em in Es. cbn [fst] in Es. apply app_inv_head in Es. subst ex.
  rewrite Em in E. rewrite (sizes_ok sc [this] out size) in E; auto.
  - cbn [rbind] in E. injection E as <-. exists m. auto.
  - simpl. rewrite app_nil_r. intros c Hc. apply in_app_iff in Hc as [Hc|Hc]; auto. apply H2 in Hc. tauto.
Qed.

Lemma kept_or_seen c : In c (out ++ seen_first this out) <-> In c this.
Proof. rewrite in_app_iff, seen_first_In. specialize (Hi c). destruct (in_dec N.eq_dec c out); tauto. Qed.

(** The diagonal, if there is one. *)
Lemma diag_contract_exact (a : arr A) F d r : wf a -> lrep size a this F -> diagonalization_new sc = Ok d ->
  diagonalization_contract lay d a = Ok r -> lrep size r (out ++ seen_first this out) F.
Proof.
  intros Hw Ha Ed Er. destruct (diag_new_seen d Ed) as (m & -> & Hn & Hm).
  destruct (size_dec this size) as [Hne|He].
  - destruct (diagonalization_contract_lrep this size lay Hlay a F (out ++ seen_first this out) m) as (r' & Er' & Hr); auto using kept_or_seen.
    congruence.
  - rewrite (diagonalization_contract_empty sc this out size HS lay a F) in Er by auto. discriminate.
Qed.

Lemma diag_and_sum_exact (a : arr A) F d s r : wf a -> lrep size a this F -> (exists c, In c this /\ ~ In c out) ->
  diag_and_sum_new sc = Ok (d, s) -> diag_and_sum_contract lay d s a = Ok r ->
  exists V, lrep size r out V /\ axis_sums way size (seen_first this out) F V.
Proof.
  intros Hw Ha Hc Ed Er. unfold diag_and_sum_new in Ed. apply rbind_ok in Ed as (d' & Ed & E). rewrite one_out in E.
  destruct (diag_new_seen d' Ed) as (m & Em & Hn & Hm). subst d'. cbn [diag_output_shape] in E.
  assert (Hne : seen_first this out <> []).
  { destruct Hc as (c & H). apply seen_first_In in H. intros E0. rewrite E0 in H. contradiction. }
  rewrite map_length, app_length, usub_ok in E by lia. cbn [rbind] in E. unfold summation_from_sizes in E.
  replace (length out + length (seen_first this out) - length out) with (length (seen_first this out)) in E by lia.
  rewrite rassert_true in E by (apply Nat.leb_le; destruct (seen_first this out); [contradiction|simpl; lia]).
  cbn [rbind] in E. injection E as <- <-.
  unfold diag_and_sum_contract in Er. apply rbind_ok in Er as (v & Ev & Er).
  assert (Hv : lrep size v (out ++ seen_first this out) F).
  { destruct (_ && _)%bool eqn:Eb in Ev.
    - apply andb_true_iff in Eb as [E1 E2].
      assert (Hct : is_contiguous a = true) by (unfold as_slice_memory_order in E1; destruct (is_contiguous a); auto).
      assert (Hpos : Forall (fun s => 0 < s)%Z (a_strides a)).
      { apply Forall_forall. rewrite forallb_forall in E2. intros s Hs. apply Z.ltb_lt; auto. }
      destruct (size_dec this size) as [Hz|He].
      + destruct (diagonalization_view_lrep size a this (out ++ seen_first this out) m F) as (v' & Ev' & Hv); auto using kept_or_seen.
        congruence.
      + destruct (diagonalization_view_empty this size a F (out ++ seen_first this out) m) as [[E' _]|[_ (v' & E' & Hv)]];
          auto using kept_or_seen; congruence.
    - eapply diag_contract_exact; eauto. }
  destruct (summation_exact v out (seen_first this out) F (seq (length out) (length (seen_first this out))) Hn Hne Hv)
    as (r' & V & Er' & Hr & HV).
  exists V. assert (r' = r) by congruence. subst r'. auto.
Qed.

Theorem singleton_exact (a : arr A) F c r : wf a -> lrep size a this F ->
  singleton_contraction_new sc = Ok c -> run_singleton lay (sgl_op c) a = Ok r ->
  exists V, lrep size r out V /\ axis_sums way size (seen_first this out) F V.
Proof.
  intros Hw Ha Ec Er. unfold singleton_contraction_new, singleton_summary_new in Ec.
  rewrite one_op, one_out in Ec. cbn [length Nat.eqb rassert rbind] in Ec. unfold index in Ec. cbn [nth_error unwrap rbind] in Ec.
  unfold singleton_summary_from_indices in Ec. pose proof (out_length_le sc this out size HS) as Hle.
  rewrite usub_ok in Ec by auto. cbn [rbind] in Ec. unfold singleton_strategy in Ec.
  cbn [num_summed_axes num_diagonalized_axes num_reordered_axes] in Ec.
  assert (Hkept : NoDup this -> length (distinct this) - length out = 0 -> Permutation out this).
  { intros Hn E. rewrite distinct_fixed in * by auto. apply NoDup_Permutation_bis; auto. lia. }
  destruct (length (filter (fun c => Nat.ltb 1 (count c this)) (distinct this))) as [|nd] eqn:End.
  - pose proof (proj1 (diagonalized_zero this) End) as Hn.
    assert (Hno : length (distinct this) - length out = 0 -> seen_first this out = []).
    { intros E. apply seen_first_none. intros x Hx. apply (Permutation_in (l := this)); auto. apply Permutation_sym; auto. }
    destruct (length (distinct this) - length out) as [|ns] eqn:Ens.
    + destruct (length (filter (fun oi => negb (N.eqb (fst oi) (snd oi))) (combine out this))) as [|nr] eqn:Enr.
      * destruct (reordered_zero this out) as (rest & Et); [rewrite distinct_fixed in Hle by auto; auto|auto|].
        cbn [singleton_op_new rbind] in Ec. injection Ec as <-. cbn [sgl_op run_singleton] in Er.
        exists F. rewrite Hno by auto. split; [|constructor].
        assert (rest = []).
        { apply length_zero_iff_nil. rewrite distinct_fixed in Ens by auto. rewrite Et, app_length in Ens. lia. }
        subst rest. rewrite app_nil_r in Et.
        destruct (to_owned_lrep size lay a out F) as (r' & E' & Hr'); auto. { rewrite <- Et. auto. }
        congruence.
      * cbn [singleton_op_new] in Ec.
        destruct (permutation_new_ok sc this out size HS) as (axes & E & Hp & HF); auto.
        { rewrite distinct_fixed in * by auto. lia. }
        rewrite E in Ec. cbn [rbind] in Ec. injection Ec as <-. cbn [sgl_op run_singleton] in Er.
        exists F. rewrite Hno by auto. split; [|constructor]. unfold permutation_contract in Er.
        destruct (permuted_lrep size a this out F axes) as (v & Ev & Hv); auto.
        rewrite Ev in Er. cbn [rbind] in Er.
        destruct (to_owned_lrep size lay v out F) as (r' & Er' & Hr'); auto. congruence.
    + rewrite distinct_fixed in Ens, Hle by auto.
      assert (Hl : length out < length this) by lia.
      destruct (length (filter (fun oi => negb (N.eqb (fst oi) (snd oi))) (combine out this))) as [|nr] eqn:Enr.
      * cbn [singleton_op_new] in Ec. rewrite (summation_new_ok sc this out size HS) in Ec by auto.
        cbn [rbind] in Ec. injection Ec as <-. cbn [sgl_op run_singleton] in Er.
        destruct (reordered_zero this out) as (rest & Et); [lia|auto|].
        assert (Hrest : length this - length out = length rest) by (rewrite Et, app_length; lia).
        rewrite Hrest in Er. rewrite Et in Ha. pose proof Hn as Hn'. rewrite Et in Hn'.
        destruct (summation_exact a out rest F (seq (length out) (length rest)) Hn') as (r' & V & Er' & Hr & HV); auto.
        { intros ->. simpl in Hrest. lia. }
        exists V. assert (r' = r) by congruence. subst r'. split; auto.
        replace (seen_first this out) with rest; auto.
        rewrite Et. symmetry. apply seen_first_rest; auto.
      * cbn [singleton_op_new] in Ec. destruct (perm_and_sum_new_ok sc this out size HS) as (axes & E & HF); auto.
        rewrite E in Ec. cbn [rbind fst snd] in Ec. injection Ec as <-. cbn [sgl_op run_singleton] in Er. unfold permutation_view in Er.
        rewrite <- (seen_first_filter this out Hn) in HF. set (rest := seen_first this out) in *.
        assert (Hp : Permutation (out ++ rest) this).
        { unfold rest. rewrite seen_first_filter by auto. apply filter_not_in_perm; auto. }
        destruct (permuted_lrep size a this (out ++ rest) F axes) as (v & Ev & Hv); auto.
        rewrite Ev in Er. cbn [rbind] in Er.
        assert (Hrest : length this - length out = length rest).
        { rewrite <- (Permutation_length Hp), app_length. lia. }
        rewrite Hrest in Er.
        destruct (summation_exact v out rest F (seq (length out) (length rest))) as (r' & V & Er' & Hr & HV); auto.
        { eapply Permutation_NoDup; [apply Permutation_sym|]; eauto. }
        { intros E0. rewrite E0 in Hrest. simpl in Hrest. lia. }
        exists V. assert (r' = r) by congruence. subst r'. auto.
  - destruct (length (distinct this) - length out) as [|ns] eqn:Ens.
    + cbn [singleton_op_new] in Ec. apply rbind_ok in Ec as (op & Eop & Ec). apply rbind_ok in Eop as (d & Ed & Eop).
      injection Eop as <-. injection Ec as <-. cbn [sgl_op run_singleton] in Er.
      pose proof (diag_contract_exact a F d r Hw Ha Ed Er) as Hr.
      assert (Hno : seen_first this out = []).
      { apply seen_first_none. intros x Hx. destruct (in_dec N.eq_dec x out) as [|Hx']; auto. exfalso.
        assert (Hs : summed1 this out = []) by (apply (no_summed_nil sc this out size HS); lia).
        assert (Hin : In x (summed1 this out)) by (apply summed1_In; auto). rewrite Hs in Hin. contradiction. }
      rewrite Hno in *. rewrite app_nil_r in Hr. exists F. split; auto. constructor.
    + cbn [singleton_op_new] in Ec. apply rbind_ok in Ec as (op & Eop & Ec). apply rbind_ok in Eop as ((d & s) & Ed & Eop).
      cbn [fst snd] in Eop. injection Eop as <-. injection Ec as <-. cbn [sgl_op run_singleton] in Er.
      eapply diag_and_sum_exact; eauto. apply some_summed. lia.
Qed.

(** One label is summed: the array whose axis is added up, and the order of its axes. *)
Lemma one_sum_exact (a : arr A) F x c : NoDup this -> seen_first this out = [x] -> lrep size a this F ->
  singleton_contraction_new sc = Ok c ->
  exists v axes r, run_singleton lay (sgl_op c) a = Ok r
    /\ a_strides v = map (fun k => nth k (a_strides a) 0%Z) axes /\ Permutation axes (seq 0 (length this))
    /\ position x this = Some (nth (length out) axes 0)
    /\ lrep size r out (fun e => add_up lay (length out) v (map e out) (map (fun i => F (upd e x i)) (seq 0 (size x)))).
Proof.
  intros Hn Ex Ha Ec. unfold singleton_contraction_new, singleton_summary_new in Ec.
  rewrite one_op, one_out in Ec. cbn [length Nat.eqb rassert rbind] in Ec. unfold index in Ec. cbn [nth_error unwrap rbind] in Ec.
  unfold singleton_summary_from_indices in Ec. pose proof (out_length_le sc this out size HS) as Hle.
  rewrite usub_ok in Ec by auto. cbn [rbind] in Ec. unfold singleton_strategy in Ec.
  cbn [num_summed_axes num_diagonalized_axes num_reordered_axes] in Ec.
  rewrite (proj2 (diagonalized_zero this) Hn) in Ec.
  assert (Hp : Permutation (out ++ [x]) this).
  { rewrite <- Ex, seen_first_filter by auto. apply filter_not_in_perm; auto. }
  assert (Hlen : length this = S (length out)) by (rewrite <- (Permutation_length Hp), app_length; simpl; lia).
  rewrite distinct_fixed in Ec by auto. replace (length this - length out) with 1 in Ec by lia.
  assert (Nx : NoDup (out ++ [x])) by (eapply Permutation_NoDup; [apply Permutation_sym|]; eauto).
  assert (Run : forall v, lrep size v (out ++ [x]) F ->
    exists r, summation_contract lay (mkSummation (seq (length out) 1) (map (fun _ => length out) (seq 0 1))) v = Ok r
      /\ lrep size r out (fun e => add_up lay (length out) v (map e out) (map (fun i => F (upd e x i)) (seq 0 (size x))))).
  { intros v Hv. destruct (sum_axis_exact v out x [] F Nx Hv) as (r & E & Hr). exists r. split.
    - unfold summation_contract. cbn [adjusted_axis_list seq map skipn foldM]. unfold index. cbn [nth_error unwrap rbind].
      rewrite E. reflexivity.
    - rewrite app_nil_r in Hr. exact Hr. }
  destruct (length (filter (fun oi => negb (N.eqb (fst oi) (snd oi))) (combine out this))) as [|nr] eqn:Enr.
  - cbn [singleton_op_new] in Ec. rewrite (summation_new_ok sc this out size HS) in Ec by lia.
    replace (length this - length out) with 1 in Ec by lia.
    cbn [rbind] in Ec. injection Ec as <-. cbn [sgl_op run_singleton].
    destruct (reordered_zero this out) as (rest & Et); [lia|auto|].
    assert (rest = [x]).
    { rewrite <- Ex, Et. symmetry. apply seen_first_rest. rewrite <- Et. auto. }
    subst rest. pose proof Ha as (_ & Hst & _). rewrite Et in Ha. destruct (Run a Ha) as (r & E & Hr).
    exists a, (seq 0 (length this)), r. split; auto. split; [|split; [auto|split; auto]].
    + rewrite <- Hst. symmetry. apply map_nth_seq.
    + rewrite seq_nth by lia. rewrite Et. apply position_app_new.
      rewrite <- (app_nil_r [x]) in Nx. apply NoDup_remove_2 in Nx. rewrite app_nil_r in Nx. auto.
  - cbn [singleton_op_new] in Ec. destruct (perm_and_sum_new_ok sc this out size HS) as (axes & E & HF); auto; [lia|].
    rewrite E in Ec. replace (length this - length out) with 1 in Ec by lia.
    cbn [rbind fst snd] in Ec. injection Ec as <-. cbn [sgl_op run_singleton]. unfold permutation_view.
    rewrite <- (seen_first_filter this out Hn), Ex in HF.
    destruct (permuted_lrep size a this (out ++ [x]) F axes) as (v & Ev & Hv); auto.
    destruct (Run v Hv) as (r & Er & Hr). exists v, axes, r. rewrite Ev. cbn [rbind]. split; auto. split; [|split; [|split; auto]].
    + unfold permuted_axes in Ev. destruct (_ && _)%bool in Ev; [|discriminate]. injection Ev as <-. reflexivity.
    + apply (positions_perm _ _ _ Hn Hp HF).
    + apply Forall2_app_inv_l in HF as (l1 & l2 & H1 & H2 & ->). pose proof (Forall2_len _ _ _ H1) as El.
      inversion H2 as [|? y ? ? Hy Hy']; subst. inversion Hy'; subst. rewrite app_nth2 by lia. rewrite El, Nat.sub_diag. exact Hy.
Qed.

End One.

(** ** Pair steps *)

Variable h : hash_order.
Hypothesis Hh : hash_ok h.

Lemma simplification_exact k this other out orig ops o s : sized orig ops o size -> incl this (concat ops) ->
  simplification_from h k this other out orig = Ok s ->
  NoDup (new_labels s this)
  /\ (forall c, In c (new_labels s this) <-> In c this /\ (In c other \/ In c out))
  /\ forall a r F, wf a -> lrep size a this F -> run_simplification lay s a = Ok r ->
       exists G, reduces way size this (other ++ out) F (new_labels s this) G /\ lrep size r (new_labels s this) G.
Proof.
  intros HS Hinc E.
  destruct (simplification_ok h size Hh lay Hlay k this other out orig ops o HS Hinc) as (s' & E' & Hn & HIn & _).
  assert (s' = s) by congruence. subst s'. split; auto. split; auto. intros a r F Hw Ha Er.
  assert (Hsame : NoDup this -> incl this (other ++ out) -> new_labels s this = this).
  { intros Hnt Hall. rewrite (simplification_none h k this other out orig ops o size) in E; auto.
    - injection E as <-. reflexivity.
    - intros c Hc. apply in_app_iff. auto. }
  assert (HIn' : forall c, In c (new_labels s this) <-> In c this /\ In c (other ++ out)).
  { intros c. rewrite HIn, in_app_iff. tauto. }
  assert (Hex : seen_first this (new_labels s this) = seen_first this (other ++ out)).
  { apply seen_first_ext. intros c Hc. rewrite HIn'. tauto. }
  cut (exists G, axis_sums way size (seen_first this (new_labels s this)) F G /\ lrep size r (new_labels s this) G).
  { intros (G & HG & Hr). exists G. rewrite Hex in HG. split; [split; [auto|split; [apply HIn'|auto]]|auto]. }
  clear Hsame HIn' Hex. unfold simplification_from in E.
  set (desired := filter _ (distinct this)) in E. set (new := h (0 :: k) desired) in E.
  assert (Pn : Permutation desired new) by apply Hh.
  assert (Nn : NoDup new).
  { eapply Permutation_NoDup; [exact Pn|]. apply NoDup_filter, distinct_NoDup. }
  assert (In_new : forall c, In c new <-> In c this /\ (In c other \/ In c out)).
  { intros c. assert (In c new <-> In c desired).
    { split; apply Permutation_in; auto. apply Permutation_sym; auto. }
    rewrite H. unfold desired. rewrite filter_In, mem_In, !distinct_In, in_app_iff, !distinct_In. tauto. }
  destruct (subset_ok h (1 :: k) orig ops o size [this] new Hh HS) as (ssc & Es & HSs).
  { simpl. rewrite app_nil_r. auto. }
  { split; auto. simpl. rewrite app_nil_r. intros c Hc. apply In_new in Hc. tauto. }
  rewrite Es in E. cbn [unwrap_res rbind] in E. apply rbind_ok in E as (c & Ec & E).
  destruct (as_einsum_string_sized ssc [this] new size HSs) as (str & Estr); [discriminate|].
  rewrite Estr in E. cbn [rbind] in E.
  destruct (singleton_contraction_ok ssc this new size HSs lay Hlay) as (c' & Ec' & _ & Hm).
  assert (c' = c) by congruence. subst c'.
  assert (Some' : forall m, Ok (Some (mkSimpl m (sgl_op c) new str)) = Ok s ->
    exists G, axis_sums way size (seen_first this (new_labels s this)) F G /\ lrep size r (new_labels s this) G).
  { intros m Em. injection Em as <-. cbn [run_simplification simpl_op new_labels simpl_new_indices] in *.
    destruct (singleton_exact ssc this new HSs a F c r Hw Ha Ec Er) as (V & H1 & H2). exists V. auto. }
  assert (None' : sgl_method c = MIdentity \/ sgl_method c = MPermutation -> Ok None = Ok s ->
    exists G, axis_sums way size (seen_first this (new_labels s this)) F G /\ lrep size r (new_labels s this) G).
  { intros _ Em. injection Em as <-. cbn [run_simplification new_labels] in *. injection Er as <-.
    exists F. split; auto. rewrite seen_first_none; [constructor|]. intros x Hx; auto. }
  destruct (sgl_method c); eauto.
Qed.

Variable add : list (A * A) -> A.
Hypothesis Hadd : forall a b idx l, add_products lay a b idx l = add l.

Lemma pair_step_exact k sc lhs rhs out p a b r F G : sized sc [lhs; rhs] out size ->
  pair_contraction_new h k sc = Ok p -> run_pair_contraction lay p a b = Ok r ->
  wf a -> wf b -> lrep size a lhs F -> lrep size b rhs G ->
  exists L1 F1 L2 G2, reduces way size lhs (rhs ++ out) F L1 F1 /\ reduces way size rhs (lhs ++ out) G L2 G2
    /\ lrep size r out (pair_value add size L1 L2 out F1 G2).
Proof.
  intros HS Ep Er Wa Wb Ha Hb. pose proof HS as (_ & [Ho Hi] & _). simpl in Hi. rewrite app_nil_r in Hi.
  unfold pair_contraction_new in Ep. rewrite (sc_ops2 sc lhs rhs out size HS), (sc_out2 sc lhs rhs out size HS) in Ep.
  cbn [length Nat.eqb rassert rbind] in Ep. unfold index in Ep. cbn [nth_error unwrap rbind] in Ep.
  assert (I1 : incl lhs (concat [lhs; rhs])) by (simpl; intros c Hc; apply in_or_app; auto).
  assert (I2 : incl rhs (concat [lhs; rhs])) by (simpl; rewrite app_nil_r; intros c Hc; apply in_or_app; auto).
  apply rbind_ok in Ep as (ls & El & Ep). apply rbind_ok in Ep as (rs & Es & Ep).
  destruct (simplification_exact _ lhs rhs out sc _ out ls HS I1 El) as (N1 & In1 & R1).
  destruct (simplification_exact _ rhs lhs out sc _ out rs HS I2 Es) as (N2 & In2 & R2).
  change (match ls with Some s => simpl_new_indices s | None => lhs end) with (new_labels ls lhs) in Ep.
  change (match rs with Some s => simpl_new_indices s | None => rhs end) with (new_labels rs rhs) in Ep.
  assert (Iout : incl out (new_labels ls lhs ++ new_labels rs rhs)).
  { intros c Hc. specialize (Hi c Hc). rewrite in_app_iff in *. rewrite In1, In2. tauto. }
  destruct (subset_ok h (2 :: k) sc [lhs; rhs] out size [new_labels ls lhs; new_labels rs rhs] out Hh HS) as (red & Ed & HSr).
  { simpl. rewrite !app_nil_r. intros c Hc. rewrite in_app_iff in *. rewrite In1, In2 in Hc. tauto. }
  { split; auto. simpl. rewrite app_nil_r. auto. }
  rewrite Ed in Ep. cbn [unwrap_res rbind] in Ep.
  assert (Hs : simplified (new_labels ls lhs) (new_labels rs rhs) out).
  { split; auto; intros c Hc; [apply In1 in Hc|apply In2 in Hc]; rewrite ?In1, ?In2; tauto. }
  destruct (pair_op_exact lay Hlay add Hadd size red _ _ out HSr Hs) as (sm & op & E1 & E2 & Hop).
  rewrite E1 in Ep. cbn [rbind] in Ep. rewrite E2 in Ep. cbn [rbind] in Ep.
  apply rbind_ok in Ep as (str & Estr & Ep). injection Ep as <-.
  unfold run_pair_contraction in Er. cbn [pc_lhs_simplification pc_rhs_simplification pc_op] in Er.
  apply rbind_ok in Er as (a' & Ea & Er). apply rbind_ok in Er as (b' & Eb & Er).
  destruct (R1 a a' F Wa Ha Ea) as (F1 & HF & La). destruct (R2 b b' G Wb Hb Eb) as (G2 & HG & Lb).
  destruct (Hop a' b' F1 G2 La Lb) as (r' & Er' & Hr).
  exists (new_labels ls lhs), F1, (new_labels rs rhs), G2. split; auto. split; auto. congruence.
Qed.

(** ** Whole paths *)

(** The value of combining an array with labels [L] with others one after the other, the factors of each
    product being reduced first. *)
Inductive calls_value (out : list char) : list char -> (env -> A) -> list (list char * (env -> A)) -> (env -> A) -> Prop :=
| one_call : forall L F r G L1 F1 L2 G2, reduces way size L (r ++ out) F L1 F1 -> reduces way size r (L ++ out) G L2 G2 ->
    calls_value out L F [(r, G)] (pair_value add size L1 L2 out F1 G2)
| more_calls : forall L F r G rest L' L1 F1 L2 G2 V, rest <> [] -> NoDup L' ->
    (forall c, In c L' <-> (In c L \/ In c r) /\ (In c (concat (map fst rest)) \/ In c out)) ->
    reduces way size L (r ++ L') F L1 F1 -> reduces way size r (L ++ L') G L2 G2 ->
    calls_value out L' (pair_value add size L1 L2 L' F1 G2) rest V ->
    calls_value out L F ((r, G) :: rest) V.

Lemma chain_calls k out i L todo js lhs steps : chain size out i L todo js lhs steps ->
  forall j pcs operands ints a F bs Gs all,
    mapM (fun ist => pair_contraction_new h (fst ist :: 9 :: k) (ps_sc (snd ist)))
      (combine (seq j (length steps)) steps) = Ok pcs ->
    length ints = i -> fetch operands ints lhs = Ok a -> wf a -> lrep size a L F ->
    Forall2 (fun j b => index operands j = Ok b) js bs -> Forall wf bs ->
    Forall2 (fun b rG => lrep size b (fst rG) (snd rG)) bs (combine todo Gs) -> length Gs = length todo ->
    foldM (run_step lay operands) (combine pcs steps) ints = Ok all ->
    exists ints' r V, all = ints' ++ [r] /\ calls_value out L F (combine todo Gs) V /\ lrep size r out V.
Proof.
  induction 1 as [i L r n lhs sc HS|i L r rest n js lhs sc L' steps Hne HS HL Hch IH];
    intros j pcs operands ints a F bs Gs all Ec Hi Hf Wa Ha Hb Hwb Hg Hlen Eall.
  - cbn [length seq combine mapM fst snd ps_sc] in Ec. apply rbind_ok in Ec as (p & Ep & Ec). injection Ec as <-.
    destruct Gs as [|G [|? ?]]; try discriminate.
    inversion Hb as [|? b ? bs' Eb Hb']; subst. inversion Hb'; subst. inversion Hwb as [|? ? Wb _]; subst. cbn [combine] in Hg.
    inversion Hg as [|? ? ? ? Lb _]; subst. cbn [fst snd] in Lb.
    cbn [combine foldM run_step ps_lhs ps_rhs] in Eall. rewrite Hf in Eall. cbn [rbind fetch] in Eall.
    rewrite Eb in Eall. cbn [rbind] in Eall. apply rbind_ok in Eall as (ints1 & E1 & Eall). injection Eall as <-.
    apply rbind_ok in E1 as (x & Ex & E1). injection E1 as <-.
    destruct (pair_step_exact _ sc L r out p a b x F G HS Ep Ex Wa Wb Ha Lb) as (L1 & F1 & L2 & G2 & H1 & H2 & Hx).
    exists ints, x, (pair_value add size L1 L2 out F1 G2). split; auto. split; auto. econstructor; eauto.
  - cbn [length seq combine mapM fst snd ps_sc] in Ec. apply rbind_ok in Ec as (p & Ep & Ec).
    apply rbind_ok in Ec as (pcs' & Ec' & Ec). injection Ec as <-.
    destruct Gs as [|G Gs]; try discriminate. injection Hlen as Hlen.
    inversion Hb as [|? b ? bs' Eb Hb']; subst. inversion Hwb as [|? ? Wb Hwb']; subst. cbn [combine] in Hg.
    inversion Hg as [|? ? ? ? Lb Hg']; subst. cbn [fst snd] in Lb.
    cbn [combine foldM run_step ps_lhs ps_rhs] in Eall. rewrite Hf in Eall. cbn [rbind fetch] in Eall.
    rewrite Eb in Eall. cbn [rbind] in Eall. apply rbind_ok in Eall as (ints1 & E1 & Eall).
    apply rbind_ok in E1 as (x & Ex & E1). injection E1 as <-.
    destruct (pair_step_exact _ sc L r L' p a b x F G HS Ep Ex Wa Wb Ha Lb) as (L1 & F1 & L2 & G2 & H1 & H2 & Hx).
    assert (NL' : NoDup L') by (destruct HS as (_ & [H _] & _); auto).
    destruct (IH (S j) pcs' operands (ints ++ [x]) x (pair_value add size L1 L2 L' F1 G2) bs' Gs all)
      as (ints' & y & V & Ey & HV & Hy); auto.
    { rewrite app_length. simpl. lia. }
    { cbn [fetch]. apply index_some. rewrite nth_error_app2, Nat.sub_diag by lia. reflexivity. }
    { eapply lrep_is_wf; eauto. }
    exists ints', y, V. split; auto. split; auto.
    assert (Hfst : map fst (combine rest Gs) = rest).
    { clear -Hlen. revert Gs Hlen. induction rest as [|q rest IHr]; intros [|g Gs] Hlen; simpl in *; try discriminate; f_equal; auto. }
    cbn [combine]. eapply more_calls; [| |intros c; rewrite Hfst; apply HL|exact H1|exact H2|exact HV]; auto.
    intros E. rewrite E in Hfst. simpl in Hfst. congruence.
Qed.

Theorem path_calls k k' sc ops out ord i0 js order p arrays r : sized sc ops out size -> 2 <= length ops ->
  Permutation ord (seq 0 (length ops)) -> ord = i0 :: js ->
  generate_path h k sc ord = Ok order -> from_path h k' order = Ok p ->
  Forall wf arrays -> shapes_ok size ops (map (@a_shape A) arrays) ->
  contract_operands lay p arrays = Ok r ->
  exists V, calls_value out (fst (operand_at ops arrays i0)) (snd (operand_at ops arrays i0)) (map (operand_at ops arrays) js) V
    /\ lrep size r out V.
Proof.
  intros HS H2 Hp Eo Eorder Epath Hw Hsh Er. assert (Hne : ops <> []) by (intros ->; simpl in H2; lia).
  destruct (generate_path_ok h k size Hh sc ops out ord HS Hne Hp) as
    [(sc' & Hl & _)|(i0' & js' & L & todo & steps & Eo' & Ep & Htd & Eg & Hch)]; [lia|].
  rewrite Eo in Eo'. injection Eo' as <- <-.
  assert (order = Pairs steps) by congruence. subst order. cbn [from_path] in Epath.
  apply rbind_ok in Epath as (pcs & Ec & Epath). injection Epath as <-.
  cbn [contract_operands path_steps path_order] in Er. apply rbind_ok in Er as (ints & Ei & Er).
  assert (Htodo : todo = map (fun i => nth i ops []) js) by (rewrite Eo in Ep; simpl in Ep; congruence).
  assert (HL : L = nth i0 ops []) by (rewrite Eo in Ep; simpl in Ep; congruence).
  assert (Hin : forall i, In i ord -> i < length ops).
  { intros i Hi. apply (Permutation_in _ Hp), in_seq in Hi. lia. }
  assert (Hat : forall i, i < length ops -> exists a, nth_error arrays i = Some a /\ wf a /\ a_shape a = map size (nth i ops [])).
  { clear - Hw Hsh. revert ops Hsh. induction Hw as [|a arrays Wa Hw IH]; intros ops Hsh i Hi; inversion Hsh as [|? ix ? ops' Es Hsh']; subst;
      simpl in *; [lia|]. destruct i as [|i]; [exists a; auto|]. apply IH; auto. lia. }
  assert (Hrep : forall i, i < length ops -> exists a, index arrays i = Ok a /\ wf a
            /\ lrep size a (fst (operand_at ops arrays i)) (snd (operand_at ops arrays i))).
  { intros i Hi. destruct (Hat i Hi) as (a & Ea & Wa & Sa). exists a. split; [apply index_some; auto|]. split; auto.
    unfold operand_at. rewrite Ea. cbn [fst snd]. apply lrep_wf; auto. }
  assert (Hjs : forall i, In i js -> i < length ops) by (intros i Hi; apply Hin; rewrite Eo; simpl; auto).
  destruct (Hrep i0) as (a & Ea & Wa & La). { apply Hin. rewrite Eo. simpl; auto. }
  assert (Hb : exists bs, Forall2 (fun j b => index arrays j = Ok b) js bs /\ Forall wf bs
            /\ Forall2 (fun b rG => lrep size b (fst rG) (snd rG)) bs (map (operand_at ops arrays) js)).
  { clear - Hrep Hjs. induction js as [|j js IH]; [exists []; simpl; auto|].
    destruct IH as (bs & H1 & Hx & H2); [intros; apply Hjs; simpl; auto|].
    destruct (Hrep j) as (b & Eb & Wb & Lb); [apply Hjs; simpl; auto|]. exists (b :: bs). simpl. auto. }
  destruct Hb as (bs & Hb1 & Hbw & Hb2).
  assert (Hc : map (operand_at ops arrays) js = combine todo (map (fun i => snd (operand_at ops arrays i)) js)).
  { rewrite Htodo. clear. induction js as [|j js IH]; auto. simpl. f_equal. auto. }
  rewrite Hc in Hb2.
  destruct (chain_calls k' out 0 L todo js (Input i0) steps Hch 0 pcs arrays [] a (snd (operand_at ops arrays i0)) bs
    (map (fun i => snd (operand_at ops arrays i)) js) ints) as (ints' & r' & V & Eall & HV & Hr); auto.
  { rewrite HL. exact La. }
  { rewrite Htodo, !map_length. auto. }
  assert (Epop : unwrap (pop_last (ints' ++ [r'])) = Ok r').
  { unfold pop_last. rewrite app_length. simpl. rewrite Nat.add_sub, nth_error_app2, Nat.sub_diag by lia. auto. }
  subst ints. rewrite Epop in Er. injection Er as <-.
  exists V. split; auto. rewrite Hc. cbn [operand_at fst]. rewrite <- HL. exact HV.
Qed.

End Reduce.
