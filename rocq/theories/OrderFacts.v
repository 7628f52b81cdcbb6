(** Running any valid order of pair steps, not only the ones [generate_path] produces. *)
From Verif Require Import Base BaseFacts NDArray Validation Optimizers Strategies Singleton Pair Path
  Spec ValidationFacts SumFacts ArrayFacts TensordotFacts DiagFacts SingletonFacts PairFacts
  StackedFacts PairMain PathFacts.
From Coq Require Import Lia.

(** ** Valid orders *)

(** [contracts size out i pool steps]: the steps turn the arrays of [pool], each given as where it
    is found and its labels, into one array with labels [out]. A step takes two arrays from the
    pool, in either order and at any place, and puts back its result, which is the intermediate
    result [i]. The result of a step may drop a label only if no other array of the pool has it
    and [out] does not have it either. *)
Inductive contracts (size : char -> nat) (out : list char)
  : nat -> list (operand_number * list char) -> list pair_step -> Prop :=
| contracts_last : forall i pool n1 l n2 r sc,
    Permutation pool [(n1, l); (n2, r)] ->
    sized sc [l; r] out size ->
    contracts size out i pool [mkPair sc n1 n2]
| contracts_step : forall i pool n1 l n2 r rest sc o steps,
    Permutation pool ((n1, l) :: (n2, r) :: rest) ->
    sized sc [l; r] o size ->
    (forall c, In c l \/ In c r -> In c (concat (map snd rest)) \/ In c out -> In c o) ->
    contracts size out (S i) (rest ++ [(IntermediateResult i, o)]) steps ->
    contracts size out i pool (mkPair sc n1 n2 :: steps).

(** The operands of a call, as a pool. *)
Definition inputs (ops : list (list char)) : list (operand_number * list char) :=
  combine (map Input (seq 0 (length ops))) ops.

(** A valid order for operands with labels [ops] and a result with labels [out]. *)
Definition valid_order (size : char -> nat) (ops : list (list char)) (out : list char)
    (order : contraction_order) : Prop :=
  match order with
  | Singleton sc => exists ix, ops = [ix] /\ sized sc [ix] out size
  | Pairs steps => contracts size out 0 (inputs ops) steps
  end.

(** One side of a step is an operand whose diagonal ndarray refuses to build. *)
Definition side_blocked {A} (size : char -> nat) (arrays : list (arr A)) (n : operand_number)
    (ix other o : list char) : Prop :=
  exists j a, n = Input j /\ nth_error arrays j = Some a /\ blocked size a ix (other ++ o).

Definition order_blocked {A} (size : char -> nat) (arrays : list (arr A)) (order : contraction_order) : Prop :=
  match order with
  | Singleton sc => exists a ix, nth_error arrays 0 = Some a
      /\ operand_indices (sc_contraction sc) = [ix]
      /\ blocked size a ix (output_indices (sc_contraction sc))
  | Pairs steps => exists st l r, In st steps
      /\ operand_indices (sc_contraction (ps_sc st)) = [l; r]
      /\ let o := output_indices (sc_contraction (ps_sc st)) in
         side_blocked size arrays (ps_lhs st) l r o \/ side_blocked size arrays (ps_rhs st) r l o
  end.

(** ** Generated orders are valid *)

Lemma chain_contracts size out i L todo js lhs steps : chain size out i L todo js lhs steps ->
  forall pool, Permutation pool ((lhs, L) :: combine (map Input js) todo) ->
  contracts size out i pool steps.
Proof.
  induction 1 as [i L r j lhs sc HS|i L r rest j js lhs sc L' steps Hne HS HL Hch IH]; intros pool Hp.
  - eapply contracts_last; [exact Hp|exact HS].
  - cbn [map combine] in Hp.
    assert (Hlen : length js = length rest) by (clear -Hch; induction Hch; simpl; auto).
    assert (Hs : map snd (combine (map Input js) rest) = rest).
    { clear -Hlen. revert rest Hlen. induction js; intros [|x rest] H; simpl in *; try discriminate; f_equal; auto. }
    eapply contracts_step; [exact Hp|exact HS| |].
    + intros c Hc1 Hc2. rewrite Hs in Hc2. apply HL. auto.
    + apply IH. apply Permutation_sym, Permutation_cons_append.
Qed.

Lemma generated_order_valid h k size sc ops out ord order : hash_ok h -> sized sc ops out size -> ops <> [] ->
  Permutation ord (seq 0 (length ops)) -> generate_path h k sc ord = Ok order ->
  valid_order size ops out order.
Proof.
  intros Hh HS Hne Hp E.
  destruct (generate_path_ok h k size Hh sc ops out ord HS Hne Hp) as
    [(sc' & Hl & E' & HS')|(i0 & js & L & todo & steps & Eo & Ep & Ht & E' & Hch)];
    rewrite E' in E; injection E as <-.
  - destruct ops as [|this [|? ?]]; try discriminate. cbn [length seq] in Hp.
    assert (ord = [0]) as ->.
    { apply Permutation_length_1_inv in Hp || (apply Permutation_sym, Permutation_length_1_inv in Hp); auto. }
    exists this. auto.
  - cbn [valid_order]. eapply chain_contracts; [exact Hch|]. unfold inputs.
    assert (Htodo : todo = map (fun i => nth i ops []) js) by (rewrite Eo in Ep; simpl in Ep; congruence).
    assert (HL : L = nth i0 ops []) by (rewrite Eo in Ep; simpl in Ep; congruence).
    assert (E1 : (Input i0, L) :: combine (map Input js) todo
                 = map (fun i => (Input i, nth i ops [])) ord).
    { rewrite Eo, HL, Htodo. cbn [map]. rewrite combine_map. reflexivity. }
    rewrite E1. rewrite <- (map_nth_seq ops []) at 2. rewrite combine_map.
    apply Permutation_map, Permutation_sym. exact Hp.
Qed.

(** ** Running a valid order *)

Section Run.
Variables (h : hash_order) (size : char -> nat).
Hypothesis Hh : hash_ok h.
Context {A B : Type} {Sc : Scalar A} {Sb : Scalar B}.
Variable R : A -> B -> Prop.
Variable Z : A -> Prop.
Hypothesis HR : weak_relation R Z.
Hypothesis Hemp : no_empty_sums R Z size.
Variable lay : backend A.
Hypothesis Hlay : backend_runs lay.
Hypothesis Hfu : weak_fused R Z lay.
Hypothesis SR : summable B size.

Lemma compile_contracts k out i pool steps : contracts size out i pool steps ->
  forall j, exists pcs,
    mapM (fun ist => pair_contraction_new h (fst ist :: 9 :: k) (ps_sc (snd ist)))
      (combine (seq j (length steps)) steps) = Ok pcs
    /\ Forall2 (step_right size R lay) steps pcs.
Proof.
  assert (One : forall j sc l r o lhs n, sized sc [l; r] o size ->
    exists p, pair_contraction_new h (j :: 9 :: k) sc = Ok p /\ step_right size R lay (mkPair sc lhs n) p).
  { intros j sc l r o lhs' n HS.
    destruct (pair_contraction_ok h size Hh lay Hlay R Z HR Hemp Hfu SR SR (j :: 9 :: k) sc l r o HS) as (p & E & Hp).
    exists p. split; auto. intros l' r' o' HS'. cbn [ps_sc] in HS'.
    destruct (sized_labels_unique size _ _ _ _ _ _ _ HS HS') as (-> & -> & ->). auto. }
  induction 1 as [i pool n1 l n2 r sc Hp HS|i pool n1 l n2 r rest sc o steps Hp HS HL Hch IH]; intros j.
  - destruct (One j sc l r out n1 n2 HS) as (p & E & Hpc).
    cbn [length seq combine mapM fst snd ps_sc]. rewrite E. cbn [rbind].
    eexists. split; [reflexivity|]. auto.
  - destruct (One j sc l r o n1 n2 HS) as (p & E & Hpc).
    destruct (IH (S j)) as (pcs & E2 & Hpcs).
    cbn [length seq combine mapM fst snd ps_sc]. rewrite E. cbn [rbind]. rewrite E2. cbn [rbind].
    eexists. split; [reflexivity|]. auto.
Qed.

(** An array of the pool, with where it is found, its labels, and what it holds. *)
Definition entry : Type := (operand_number * list char) * (arr A * (env -> B)).
Definition entry_ok (operands ints : list (arr A)) (q : entry) : Prop :=
  let '((n, l), (a, F)) := q in
  fetch operands ints n = Ok a /\ wf a /\ rrep size R a l F /\ dep F l
  /\ match n with Input _ => True | IntermediateResult _ => NoDup l end.

Definition entries_product (Q : list entry) (e : env) : B :=
  product (map (fun q => snd (snd q) e) Q).
Definition entries_labels (Q : list entry) : list char := concat (map (fun q => snd (fst q)) Q).

Lemma entries_product_perm Q Q' e : Permutation Q Q' -> entries_product Q e = entries_product Q' e.
Proof. intros H. apply (product_perm SR). apply Permutation_map; auto. Qed.

Lemma entries_labels_perm Q Q' c : Permutation Q Q' -> In c (entries_labels Q) <-> In c (entries_labels Q').
Proof.
  intros H. unfold entries_labels. rewrite !in_concat.
  split; intros (x & H1 & H2); exists x; split; auto; eapply Permutation_in; try exact H1;
    apply Permutation_map; auto. apply Permutation_sym; auto.
Qed.

Lemma entries_product_dep operands ints Q : Forall (entry_ok operands ints) Q ->
  dep (entries_product Q) (entries_labels Q).
Proof.
  induction 1 as [|[[n l] [a F]] Q (H1 & H2 & H3 & H4 & H5) HQ IH]; intros e e' He; [reflexivity|].
  unfold entries_product in *. cbn [map snd product fold_right]. f_equal.
  - apply H4. intros c Hc. apply He. unfold entries_labels. simpl. apply in_or_app; auto.
  - apply IH. intros c Hc. apply He. unfold entries_labels. simpl. apply in_or_app; auto.
Qed.

Lemma entry_ok_more operands ints x q : entry_ok operands ints q -> entry_ok operands (ints ++ [x]) q.
Proof.
  destruct q as [[n l] [a F]]. intros (H1 & H2 & H3 & H4 & H5).
  refine (conj _ (conj H2 (conj H3 (conj H4 H5)))).
  destruct n as [j|j]; auto. cbn [fetch] in *. unfold index in *.
  destruct (nth_error ints j) eqn:E; try discriminate. rewrite nth_error_app1, E; auto.
  apply nth_error_Some. congruence.
Qed.

Lemma pool_split (Q : list entry) x y rest : Permutation (map fst Q) (x :: y :: rest) ->
  exists p q Q', Permutation Q ((x, p) :: (y, q) :: Q') /\ map fst Q' = rest.
Proof.
  intros H. apply Permutation_sym, Permutation_map_inv in H as (Q' & E & Hp).
  destruct Q' as [|[x' p] [|[y' q] Q']]; try discriminate. cbn [map fst] in E. injection E as -> -> ->.
  exists p, q, Q'. auto.
Qed.

(** Running one step. *)
Lemma run_one operands ints n1 l n2 r sc o p pc a b F G :
  sized sc [l; r] o size -> step_right size R lay (mkPair sc n1 n2) pc ->
  p = mkPair sc n1 n2 ->
  entry_ok operands ints ((n1, l), (a, F)) -> entry_ok operands ints ((n2, r), (b, G)) ->
  let sb := side_blocked size operands n1 l r o \/ side_blocked size operands n2 r l o in
  (run_step lay operands ints (pc, p) = Panic /\ sb)
  \/ (~ sb /\ exists res cs, run_step lay operands ints (pc, p) = Ok (ints ++ [res])
       /\ NoDup cs /\ (forall c, In c cs <-> (In c l \/ In c r) /\ ~ In c o)
       /\ wf res /\ rrep size R res o (nested_sum size cs (fun e => smul (F e) (G e)))).
Proof.
  intros HS Hr -> (Fa & Wa & Ra & Da & Na) (Fb & Wb & Rb & Db & Nb) sb.
  unfold run_step. cbn [ps_lhs ps_rhs]. rewrite Fa, Fb. cbn [rbind].
  pose proof (Hr l r o HS a b F G Wa Wb Ra Rb Da Db) as Ho.
  assert (H1 : blocked size a l (r ++ o) <-> side_blocked size operands n1 l r o).
  { unfold side_blocked. destruct n1 as [j|j].
    - cbn [fetch] in Fa. unfold index in Fa. destruct (nth_error operands j) eqn:E; try discriminate.
      injection Fa as ->. split; [intros H; exists j, a; auto|].
      intros (j' & a' & E1 & E2 & H). injection E1 as ->. congruence.
    - split; [intros [H _]; contradiction|]. intros (j' & a' & E1 & _). discriminate. }
  assert (H2 : blocked size b r (l ++ o) <-> side_blocked size operands n2 r l o).
  { unfold side_blocked. destruct n2 as [j|j].
    - cbn [fetch] in Fb. unfold index in Fb. destruct (nth_error operands j) eqn:E; try discriminate.
      injection Fb as ->. split; [intros H; exists j, b; auto|].
      intros (j' & a' & E1 & E2 & H). injection E1 as ->. congruence.
    - split; [intros [H _]; contradiction|]. intros (j' & a' & E1 & _). discriminate. }
  destruct Ho as [[Er Hd]|[Hd1 [Hd2 (res & cs & Er & Pc & Hres)]]].
  - left. rewrite Er. split; auto. unfold sb. rewrite <- H1, <- H2. exact Hd.
  - right. split; [unfold sb; rewrite <- H1, <- H2; tauto|]. rewrite Er. cbn [rbind].
    exists res, cs. split; [reflexivity|]. split; [|split; [|split]].
    + eapply Permutation_NoDup; [apply Permutation_sym; exact Pc|]. apply NoDup_filter, distinct_NoDup.
    + intros c. rewrite <- summed2_In. split; apply Permutation_in; auto. apply Permutation_sym; auto.
    + destruct Hres as (F0 & Hres & _). destruct HS as (_ & [No _] & _).
      apply (lrep_is_wf size res o F0 No Hres).
    + exact Hres.
Qed.

Lemma run_contracts out i pool steps : contracts size out i pool steps ->
  forall pcs, Forall2 (step_right size R lay) steps pcs ->
  forall operands ints Q, length ints = i -> map fst Q = pool -> Forall (entry_ok operands ints) Q ->
    let run := foldM (run_step lay operands) (combine pcs steps) ints in
    (run = Panic /\ order_blocked size operands (Pairs steps))
    \/ (~ order_blocked size operands (Pairs steps)
        /\ exists ints' r cs, run = Ok (ints' ++ [r])
             /\ NoDup cs /\ (forall c, In c cs <-> In c (entries_labels Q) /\ ~ In c out)
             /\ rrep size R r out (nested_sum size cs (entries_product Q))).
Proof.
  assert (Ops : forall sc l r o, sized sc [l; r] o size ->
    operand_indices (sc_contraction sc) = [l; r] /\ output_indices (sc_contraction sc) = o).
  { intros sc l r o (E & _). rewrite E. auto. }
  induction 1 as [i pool n1 l n2 r sc Hp HS|i pool n1 l n2 r rest sc o steps Hp HS HL Hch IH];
    intros pcs Hpc operands ints Q Hi HQ Hok run; unfold run; clear run.
  - inversion Hpc as [|? pc ? pcs' Hr Hpc']; subst. inversion Hpc'; subst. clear Hpc Hpc'.
    destruct (pool_split _ _ _ _ Hp) as ([a F] & [b G] & Q' & HpQ & E). destruct Q'; [|discriminate].
    pose proof (Permutation_Forall HpQ Hok) as Hok'.
    inversion Hok' as [|? ? Oa Hok1]; subst. inversion Hok1 as [|? ? Ob _]; subst.
    destruct (Ops _ _ _ _ HS) as [Eo1 Eo2].
    assert (Hbl : order_blocked size operands (Pairs [mkPair sc n1 n2])
      <-> side_blocked size operands n1 l r out \/ side_blocked size operands n2 r l out).
    { cbn [order_blocked]. split.
      - intros (st & l' & r' & [<-|[]] & E1 & H). cbn [ps_sc ps_lhs ps_rhs] in *.
        rewrite Eo1 in E1. injection E1 as <- <-. rewrite Eo2 in H. exact H.
      - intros H. exists (mkPair sc n1 n2), l, r. cbn [ps_sc ps_lhs ps_rhs]. rewrite Eo2. simpl. auto. }
    cbn [combine foldM].
    destruct (run_one operands ints n1 l n2 r sc out _ pc a b F G HS Hr eq_refl Oa Ob)
      as [[Er Hb]|[Hb (res & cs & Er & Nc & Ic & Wr & Hres)]]; rewrite Er; cbn [rbind].
    { left. split; auto. apply Hbl; auto. }
    right. split; [rewrite Hbl; auto|]. exists ints, res, cs. split; [reflexivity|]. split; auto. split.
    + intros c. rewrite Ic, (entries_labels_perm _ _ c HpQ). unfold entries_labels. simpl.
      rewrite app_nil_r, in_app_iff. tauto.
    + eapply rrep_ext; [|exact Hres]. intros e He. apply nested_sum_ext_all. intros e'.
      rewrite (entries_product_perm _ _ e' HpQ). unfold entries_product, product. simpl. rewrite (mul_1_r SR). auto.
  - inversion Hpc as [|? pc ? pcs' Hr Hpc']; subst. clear Hpc.
    destruct (pool_split _ _ _ _ Hp) as ([a F] & [b G] & Q' & HpQ & E).
    pose proof (Permutation_Forall HpQ Hok) as Hok'.
    inversion Hok' as [|? ? Oa Hok1]; subst. inversion Hok1 as [|? ? Ob HokQ]; subst.
    destruct (Ops _ _ _ _ HS) as [Eo1 Eo2].
    assert (Hbl : order_blocked size operands (Pairs (mkPair sc n1 n2 :: steps))
      <-> (side_blocked size operands n1 l r o \/ side_blocked size operands n2 r l o)
          \/ order_blocked size operands (Pairs steps)).
    { cbn [order_blocked]. split.
      - intros (st & l' & r' & [<-|Hin] & E1 & H).
        + left. cbn [ps_sc ps_lhs ps_rhs] in *.
          rewrite Eo1 in E1. injection E1 as <- <-. rewrite Eo2 in H. exact H.
        + right. exists st, l', r'. auto.
      - intros [H|(st & l' & r' & Hin & E1 & H)].
        + exists (mkPair sc n1 n2), l, r. cbn [ps_sc ps_lhs ps_rhs]. rewrite Eo2. simpl. auto.
        + exists st, l', r'. simpl. auto. }
    cbn [combine foldM].
    destruct (run_one operands ints n1 l n2 r sc o _ pc a b F G HS Hr eq_refl Oa Ob)
      as [[Er Hb]|[Hb (res & cs & Er & Nc & Ic & Wr & Hres)]]; rewrite Er; cbn [rbind].
    { left. split; auto. apply Hbl; auto. }
    set (F' := nested_sum size cs (fun e => smul (F e) (G e))) in *.
    destruct Oa as (_ & _ & _ & Da & _). destruct Ob as (_ & _ & _ & Db & _).
    assert (No : NoDup o) by (destruct HS as (_ & [H _] & _); auto).
    assert (Io : forall c, In c o -> In c l \/ In c r).
    { destruct HS as (_ & [_ H] & _). intros c Hc. specialize (H c Hc). simpl in H.
      rewrite app_nil_r, in_app_iff in H. auto. }
    assert (DF' : dep F' o).
    { unfold F'. eapply dep_incl; [|apply (nested_sum_dep size cs (l ++ r))].
      - intros c Hc. apply filter_In in Hc as [Hc Hn]. apply negb_true_iff, mem_false in Hn.
        rewrite Ic in Hn. apply in_app_iff in Hc. destruct (in_dec N.eq_dec c o); tauto.
      - intros e e' Hag. f_equal.
        + apply Da. intros c Hc. apply Hag, in_or_app; auto.
        + apply Db. intros c Hc. apply Hag, in_or_app; auto. }
    assert (Hrest : forall c, In c (concat (map snd (map fst Q'))) <-> In c (entries_labels Q')).
    { intros c. unfold entries_labels. rewrite map_map. tauto. }
    unshelve epose proof (IH pcs' Hpc' operands (ints ++ [res])
       (Q' ++ [((IntermediateResult (length ints), o), (res, F'))]) _ _ _) as Ho'.
    { rewrite app_length. simpl. lia. }
    { rewrite map_app. reflexivity. }
    { apply Forall_app. split.
      - eapply Forall_impl; [|exact HokQ]. intros q. apply entry_ok_more.
      - constructor; [|constructor]. cbn [entry_ok fetch]. refine (conj _ (conj Wr (conj Hres (conj DF' No)))).
        apply index_some. rewrite nth_error_app2, Nat.sub_diag by lia. reflexivity. }
    assert (El : forall c, In c (entries_labels (Q' ++ [((IntermediateResult (length ints), o), (res, F'))]))
                 <-> In c (entries_labels Q') \/ In c o).
    { intros c. unfold entries_labels. rewrite map_app, concat_app, in_app_iff. simpl. rewrite app_nil_r. tauto. }
    destruct Ho' as [[Ef Hd]|[Hd (ints' & rf & cs' & Ef & Ncs' & Ics' & Hrf)]].
    { left. split; auto. apply Hbl. auto. }
    right. split; [rewrite Hbl; tauto|]. exists ints', rf, (cs' ++ cs). split; [exact Ef|]. split; [|split].
    + apply NoDup_app_intro; auto. intros c Hc1 Hc2. rewrite Ics', El in Hc1. rewrite Ic in Hc2.
      destruct Hc1 as [[H|H] _]; [|tauto]. apply Hc2, HL; [tauto|]. left. apply Hrest; auto.
    + intros c. rewrite in_app_iff, Ic, Ics', El, (entries_labels_perm _ _ c HpQ).
      assert (E3 : In c (entries_labels (((n1, l), (a, F)) :: ((n2, r), (b, G)) :: Q'))
                   <-> In c l \/ In c r \/ In c (entries_labels Q')).
      { unfold entries_labels. simpl. rewrite !in_app_iff. tauto. }
      rewrite E3. specialize (HL c). specialize (Io c). destruct (in_dec N.eq_dec c o); tauto.
    + eapply rrep_ext; [|exact Hrf]. intros e He. rewrite nested_sum_app.
      apply nested_sum_ext_all. intros e'.
      assert (E4 : forall e, entries_product (Q' ++ [((IntermediateResult (length ints), o), (res, F'))]) e
                   = smul (F' e) (entries_product Q' e)).
      { intros e0. rewrite <- (entries_product_perm _ _ e0 (Permutation_cons_append Q' _)). reflexivity. }
      rewrite E4. unfold F'. rewrite <- (nested_sum_mul_r SR cs (entries_labels Q')).
      * apply nested_sum_ext_all. intros e2. rewrite (entries_product_perm _ _ e2 HpQ).
        change (entries_product (((n1, l), (a, F)) :: ((n2, r), (b, G)) :: Q') e2)
          with (smul (F e2) (smul (G e2) (entries_product Q' e2))). symmetry. apply (ns_mul_assoc SR).
      * eapply entries_product_dep. exact HokQ.
      * intros c. rewrite Ic. intros [Hc Hn] Hq. apply Hn, HL; auto. left. apply Hrest; auto.
Qed.

(** ** The whole order *)

Definition runs_order (p : einsum_path) (order : contraction_order) (ops : list (list char)) (out : list char) : Prop :=
  forall arrays arrays', usables size arrays ops -> Forall2 (related_arrays R) arrays arrays' ->
    (contract_operands lay p arrays = Panic /\ order_blocked size arrays order)
    \/ (~ order_blocked size arrays order
        /\ exists r f, contract_operands lay p arrays = Ok r
             /\ holds r (map size out) f
             /\ forall o, in_bounds (map size out) o = true ->
                  R (f o) (einsum_value size arrays' ops out o)).

Lemma nth_error_self {T} (l : list T) d : forall i, i < length l -> nth_error l i = Some (nth i l d).
Proof. induction l as [|x l IH]; intros [|i] H; simpl in *; try lia; auto. apply IH. lia. Qed.

Lemma Forall2_impl_in {T U} (P Q : T -> U -> Prop) l l' :
  (forall x y, P x y -> Q x y) -> Forall2 P l l' -> Forall2 Q l l'.
Proof. intros H. induction 1; constructor; auto. Qed.

(** The pool a call starts with. *)
Definition start (arrays : list (arr A)) (arrays' : list (arr B)) (ops : list (list char)) (j : nat) : list entry :=
  combine (combine (map Input (seq j (length ops))) ops)
          (combine arrays (map (fun zi e => elem (fst zi) (map e (snd zi))) (combine arrays' ops))).

Lemma start_ok operands arrays arrays' ops j : usables size arrays ops -> Forall2 (related_arrays R) arrays arrays' ->
  (forall i a, nth_error arrays i = Some a -> nth_error operands (j + i) = Some a) ->
  Forall (entry_ok operands []) (start arrays arrays' ops j)
  /\ map fst (start arrays arrays' ops j) = combine (map Input (seq j (length ops))) ops
  /\ entries_labels (start arrays arrays' ops j) = concat ops
  /\ forall e, entries_product (start arrays arrays' ops j) e = term arrays' ops e.
Proof.
  intros Hu. revert arrays' j. induction Hu as [|a ix arrays ops Ua Hu IH]; intros arrays' j Hz Hn.
  - inversion Hz; subst. repeat split; constructor.
  - inversion Hz as [|? z ? zs Rz Hz']; subst.
    destruct (IH zs (S j) Hz') as (H1 & H2 & H3 & H4).
    { intros i a0 Hi. replace (S j + i) with (j + S i) by lia. apply Hn. exact Hi. }
    unfold start in *. cbn [length seq map combine fst snd]. cbn [length seq map combine fst snd] in *.
    repeat split.
    + constructor; auto. cbn [entry_ok fetch]. pose proof Ua as [Wa Sa]. refine (conj _ (conj Wa (conj _ (conj _ I)))).
      * apply index_some. specialize (Hn 0 a eq_refl). rewrite Nat.add_0_r in Hn. exact Hn.
      * apply usable_rrep; auto.
      * apply elem_dep.
    + f_equal. exact H2.
    + unfold entries_labels in *. cbn [map fst snd concat]. f_equal. exact H3.
    + intros e. rewrite term_cons. unfold entries_product in *. cbn [map fst snd product fold_right].
      f_equal. apply H4.
Qed.

Theorem valid_order_runs k ops out order : NoDup out -> valid_order size ops out order ->
  exists p, from_path h k order = Ok p /\ runs_order p order ops out.
Proof.
  intros Ho Hv. destruct order as [sc|steps]; cbn [valid_order] in Hv.
  - destruct Hv as (this & -> & HS).
    destruct (singleton_contraction_ok sc this out size HS lay Hlay) as (c & Ec & Hc & _).
    eexists. cbn [from_path]. rewrite Ec. cbn [rbind]. split; [reflexivity|].
    intros arrays arrays' Hu Hz. inversion Hu as [|a ? ? ? Ua Hu']; subst. inversion Hu'; subst.
    inversion Hz as [|? z ? ? Rz Hz']; subst. inversion Hz'; subst. pose proof Ua as [Wa Sa].
    cbn [contract_operands path_steps path_order]. unfold index. cbn [nth_error unwrap rbind].
    pose proof (Hc a (fun e => elem a (map e this)) Wa (lrep_wf size a this Wa Sa)) as Hc1.
    assert (Hbl : order_blocked size [a] (Singleton sc) <-> blocked size a this out).
    { cbn [order_blocked nth_error]. pose proof HS as (E & _). rewrite E.
      cbn [contraction_of operand_indices output_indices]. split.
      - intros (a' & ix & E1 & E2 & H). congruence.
      - intros H. exists a, this. auto. }
    destruct Hc1 as [[Er Hd]|[Hd (r & cs & Er & Pc & Hr)]]; [left; split; auto; apply Hbl; auto|].
    right. split; [rewrite Hbl; auto|].
    assert (Hr' : rrep size R r out (nested_sum size cs (fun e => elem z (map e this)))).
    { destruct Rz as [Es Hr0]. eapply (rrep_simplified size R Z HR Hemp SR r this out cs); [| |exact Hr].
      - intros x. rewrite <- (summed1_In this out x). split; apply Permutation_in; auto.
        apply Permutation_sym; auto.
      - intros e He. destruct (Hr0 (map e this)) as (x & y & E1 & E2 & Hxy).
        + rewrite Sa. apply in_bounds_map; auto.
        + unfold elem. rewrite E1, E2. auto. }
    destruct (holds_of_rrep size R SR r [this] out [z] cs (fun e => elem z (map e this))) as (f & Hf & Rf); auto.
    4:{ exists r, f. auto. }
    + eapply Permutation_NoDup; [apply Permutation_sym; exact Pc|]. apply NoDup_filter, distinct_NoDup.
    + intros x. simpl. rewrite app_nil_r, <- (summed1_In this out x). split; apply Permutation_in; auto.
      apply Permutation_sym; auto.
    + intros e. unfold term, product. simpl. symmetry. apply (mul_1_r SR).
  - destruct (compile_contracts k out 0 (inputs ops) steps Hv 0) as (pcs & Ec & Hpcs).
    eexists. cbn [from_path]. rewrite Ec. cbn [rbind]. split; [reflexivity|].
    intros arrays arrays' Hu Hz. cbn [contract_operands path_steps path_order].
    destruct (start_ok arrays arrays arrays' ops 0 Hu Hz) as (S1 & S2 & S3 & S4); [auto|].
    destruct (run_contracts out 0 (inputs ops) steps Hv pcs Hpcs arrays [] (start arrays arrays' ops 0)
                eq_refl S2 S1) as [[Er Hd]|[Hd (ints & r & cs & Er & Nc & Ic & Hr)]].
    { left. rewrite Er. auto. }
    right. split; [exact Hd|]. rewrite Er. cbn [rbind].
    assert (Epop : unwrap (pop_last (ints ++ [r])) = Ok r).
    { unfold pop_last. rewrite app_length. simpl.
      rewrite nth_error_app2 by lia. replace (length ints + 1 - 1 - length ints) with 0 by lia. reflexivity. }
    destruct (holds_of_rrep size R SR r ops out arrays' cs (entries_product (start arrays arrays' ops 0)))
      as (f & Hf & Rf); auto.
    + intros c. rewrite Ic, S3. tauto.
    + exists r, f. auto.
Qed.

End Run.

(** ** Trees *)

(** Which array is combined with which. *)
Inductive tree := Leaf (j : nat) | Node (l r : tree).
Fixpoint leaves (t : tree) : list nat :=
  match t with Leaf j => [j] | Node l r => leaves l ++ leaves r end.

(** The tree an operand number stands for, given the trees of the intermediate results. *)
Definition tree_at (ints : list tree) (n : operand_number) : tree :=
  match n with Input j => Leaf j | IntermediateResult i => nth i ints (Leaf 0) end.

(** The trees of all intermediate results. *)
Fixpoint step_trees (ints : list tree) (steps : list pair_step) : list tree :=
  match steps with
  | [] => ints
  | st :: steps' => step_trees (ints ++ [Node (tree_at ints (ps_lhs st)) (tree_at ints (ps_rhs st))]) steps'
  end.

(** The tree of the last result. *)
Definition follows (steps : list pair_step) (t : tree) : Prop :=
  last (step_trees [] steps) (Leaf 0) = t.

Lemma step_trees_app ints s1 s2 : step_trees ints (s1 ++ s2) = step_trees (step_trees ints s1) s2.
Proof. revert ints; induction s1 as [|x s1 IH]; intros ints; simpl; auto. Qed.

Section Trees.
Variables (h : hash_order) (size : char -> nat) (sc0 : sized_contraction)
  (ops : list (list char)) (out : list char).
Hypothesis Hh : hash_ok h.
Hypothesis HS0 : sized sc0 ops out size.

Definition leaf_entries (js : list nat) : list (operand_number * list char) :=
  map (fun j => (Input j, nth j ops [])) js.
Definition pool_labels (pool : list (operand_number * list char)) : list char := concat (map snd pool).

Lemma pool_labels_app p q : pool_labels (p ++ q) = pool_labels p ++ pool_labels q.
Proof. unfold pool_labels. rewrite map_app, concat_app. auto. Qed.

Lemma leaf_labels_incl js : incl (pool_labels (leaf_entries js)) (concat ops).
Proof.
  intros c. unfold pool_labels, leaf_entries. rewrite map_map, in_concat. cbn [snd].
  intros (x & Hx & Hc). apply in_map_iff in Hx as (j & <- & _). apply in_concat.
  destruct (Nat.lt_ge_cases j (length ops)) as [Hj|Hj].
  - exists (nth j ops []). split; auto. apply nth_In; auto.
  - rewrite nth_overflow in Hc by auto. contradiction.
Qed.

(** The labels a step keeps when only those needed later are kept. *)
Definition kept (l r needed : list char) : list char :=
  filter (fun c => mem c needed) (nodup N.eq_dec (l ++ r)).
Lemma kept_In l r needed c : In c (kept l r needed) <-> (In c l \/ In c r) /\ In c needed.
Proof. unfold kept. rewrite filter_In, nodup_In, in_app_iff, mem_In. tauto. Qed.
Lemma kept_NoDup l r needed : NoDup (kept l r needed).
Proof. apply NoDup_filter, NoDup_nodup. Qed.

Lemma step_exists l r o : incl l (concat ops) -> incl r (concat ops) -> NoDup o -> incl o (l ++ r) ->
  exists sc, sized sc [l; r] o size.
Proof.
  intros Hl Hr No Io.
  destruct (subset_ok h [] sc0 ops out size [l; r] o Hh HS0) as (sc & _ & HS).
  - simpl. rewrite app_nil_r. apply incl_app; auto.
  - split; auto. simpl. rewrite app_nil_r. auto.
  - exists sc. exact HS.
Qed.

Lemma contracts_perm i pool pool' steps : Permutation pool pool' ->
  contracts size out i pool' steps -> contracts size out i pool steps.
Proof.
  intros Hp H. inversion H; subst.
  - eapply contracts_last; [eapply Permutation_trans; eauto|auto].
  - eapply contracts_step; [eapply Permutation_trans; eauto|eauto|eauto|eauto].
Qed.

(** [n] is found among [k] intermediate results, or is an operand. *)
Definition before (k : nat) (n : operand_number) : Prop :=
  match n with Input _ => True | IntermediateResult i => i < k end.
Lemma tree_at_app ints ints' n : before (length ints) n -> tree_at (ints ++ ints') n = tree_at ints n.
Proof. destruct n; simpl; auto. intros H. apply app_nth1; auto. Qed.
Lemma before_le k k' n : before k n -> k <= k' -> before k' n.
Proof. destruct n; simpl; auto. lia. Qed.

(** Contracting the operands of a tree. *)
Lemma tree_steps t : forall ints rest, incl (pool_labels rest) (concat ops) ->
  exists n o steps more,
    (forall steps2, contracts size out (length ints + length steps) ((n, o) :: rest) steps2 ->
       contracts size out (length ints) (leaf_entries (leaves t) ++ rest) (steps ++ steps2))
    /\ step_trees ints steps = ints ++ more /\ length more = length steps
    /\ before (length ints + length steps) n /\ tree_at (ints ++ more) n = t
    /\ incl o (pool_labels (leaf_entries (leaves t)))
    /\ (forall c, In c (pool_labels (leaf_entries (leaves t))) ->
          In c (pool_labels rest) \/ In c out -> In c o).
Proof.
  induction t as [j|l IHl r IHr]; intros ints rest Hrest.
  - exists (Input j), (nth j ops []), [], []. cbn [leaves leaf_entries map app length step_trees].
    rewrite Nat.add_0_r, app_nil_r. unfold pool_labels at 1 2. cbn [map snd concat]. rewrite app_nil_r.
    repeat split; auto. apply incl_refl.
  - destruct (IHl ints (leaf_entries (leaves r) ++ rest)) as (n1 & o1 & s1 & m1 & C1 & T1 & L1 & B1 & A1 & I1 & K1).
    { rewrite pool_labels_app. apply incl_app; auto. apply leaf_labels_incl. }
    assert (Io1 : incl o1 (concat ops)) by (eapply incl_tran; [exact I1|apply leaf_labels_incl]).
    destruct (IHr (ints ++ m1) ((n1, o1) :: rest)) as (n2 & o2 & s2 & m2 & C2 & T2 & L2 & B2 & A2 & I2 & K2).
    { unfold pool_labels. cbn [map snd concat]. apply incl_app; auto. }
    assert (Io2 : incl o2 (concat ops)) by (eapply incl_tran; [exact I2|apply leaf_labels_incl]).
    rewrite app_length, L1 in C2, B2.
    set (o := kept o1 o2 (pool_labels rest ++ out)).
    destruct (step_exists o1 o2 o Io1 Io2) as (sc & HS).
    { apply kept_NoDup. }
    { intros c Hc. apply kept_In in Hc as [Hc _]. apply in_app_iff. exact Hc. }
    exists (IntermediateResult (length ints + length s1 + length s2)), o,
      (s1 ++ s2 ++ [mkPair sc n1 n2]), (m1 ++ m2 ++ [Node l r]).
    assert (A1' : tree_at ((ints ++ m1) ++ m2) n1 = l).
    { rewrite tree_at_app; auto. rewrite app_length, L1. exact B1. }
    assert (Ip : forall c, In c (pool_labels (leaf_entries (leaves (Node l r))))
                 <-> In c (pool_labels (leaf_entries (leaves l))) \/ In c (pool_labels (leaf_entries (leaves r)))).
    { intros c. cbn [leaves]. unfold leaf_entries. rewrite map_app. fold (leaf_entries (leaves l)).
      fold (leaf_entries (leaves r)). rewrite pool_labels_app, in_app_iff. tauto. }
    repeat split.
    + intros steps2 H2. rewrite <- !app_assoc. cbn [app leaves]. unfold leaf_entries. rewrite map_app.
      fold (leaf_entries (leaves l)). fold (leaf_entries (leaves r)). rewrite <- app_assoc.
      apply C1. eapply contracts_perm; [|apply C2].
      { apply Permutation_middle. }
      apply (contracts_step size out _ _ n1 o1 n2 o2 rest sc o).
      * apply perm_swap.
      * exact HS.
      * intros c Hc Hn. apply kept_In. split; auto. apply in_app_iff. exact Hn.
      * eapply contracts_perm; [apply Permutation_sym, Permutation_cons_append|].
        rewrite !app_length in H2. cbn [length] in H2.
        replace (S (length ints + length s1 + length s2)) with (length ints + (length s1 + (length s2 + 1))) by lia.
        exact H2.
    + rewrite !step_trees_app, T1, T2. cbn [step_trees ps_lhs ps_rhs]. rewrite A1', A2, !app_assoc. reflexivity.
    + rewrite !app_length, L1, L2. reflexivity.
    + rewrite !app_length. cbn [before length]. lia.
    + cbn [tree_at]. rewrite app_assoc, app_assoc, app_nth2; rewrite !app_length, L1, L2; [|lia].
      replace (length ints + length s1 + length s2 - (length ints + length s1 + length s2)) with 0 by lia.
      reflexivity.
    + intros c Hc. apply Ip. apply kept_In in Hc as [[Hc|Hc] _]; auto.
    + intros c Hc Hn. apply kept_In. split; [|apply in_app_iff; exact Hn].
      apply Ip in Hc as [Hc|Hc].
      * left. apply K1; auto. rewrite pool_labels_app, in_app_iff. tauto.
      * right. apply K2; auto. unfold pool_labels. cbn [map snd concat]. rewrite in_app_iff.
        unfold pool_labels in Hn. tauto.
Qed.

Lemma tree_order l r : Permutation (leaves (Node l r)) (seq 0 (length ops)) ->
  exists steps, valid_order size ops out (Pairs steps) /\ follows steps (Node l r).
Proof.
  intros Hp. pose proof HS0 as (_ & [No Io] & _).
  destruct (tree_steps l [] (leaf_entries (leaves r) ++ [])) as (n1 & o1 & s1 & m1 & C1 & T1 & L1 & B1 & A1 & I1 & K1).
  { rewrite app_nil_r. apply leaf_labels_incl. }
  assert (Io1 : incl o1 (concat ops)) by (eapply incl_tran; [exact I1|apply leaf_labels_incl]).
  destruct (tree_steps r m1 ((n1, o1) :: [])) as (n2 & o2 & s2 & m2 & C2 & T2 & L2 & B2 & A2 & I2 & K2).
  { unfold pool_labels. cbn [map snd concat]. rewrite app_nil_r. auto. }
  assert (Io2 : incl o2 (concat ops)) by (eapply incl_tran; [exact I2|apply leaf_labels_incl]).
  assert (Hpool : Permutation (inputs ops) (leaf_entries (leaves l) ++ leaf_entries (leaves r) ++ [])).
  { rewrite app_nil_r. unfold leaf_entries. rewrite <- map_app. unfold inputs.
    rewrite <- (map_nth_seq ops []) at 2. rewrite combine_map.
    apply Permutation_map, Permutation_sym. exact Hp. }
  destruct (step_exists o1 o2 out Io1 Io2 No) as (sc & HS).
  { intros c Hc. apply in_app_iff. assert (Hc' := Io c Hc).
    assert (Hl : In c (pool_labels (leaf_entries (leaves l))) \/ In c (pool_labels (leaf_entries (leaves r)))).
    { rewrite <- in_app_iff, <- pool_labels_app, <- (app_nil_r (leaf_entries (leaves r))).
      unfold pool_labels. apply in_concat in Hc' as (x & Hx & Hcx). apply in_concat. exists x. split; auto.
      eapply Permutation_in; [apply Permutation_map, Hpool|].
      unfold inputs. rewrite <- (map_nth_seq ops []) at 2. rewrite combine_map, map_map. cbn [snd].
      rewrite map_nth_seq. exact Hx. }
    destruct Hl as [Hl|Hl]; [left; apply K1|right; apply K2]; auto. }
  rewrite L1 in C2, B2. cbn [length] in C1, B1. rewrite Nat.add_0_l in C1, B1.
  exists (s1 ++ s2 ++ [mkPair sc n1 n2]). split.
  - cbn [valid_order]. eapply contracts_perm; [exact Hpool|]. apply C1.
    eapply contracts_perm; [apply Permutation_middle|]. apply C2.
    eapply contracts_last; [apply perm_swap|exact HS].
  - unfold follows. rewrite !step_trees_app, T1. cbn [app]. rewrite T2. cbn [step_trees ps_lhs ps_rhs].
    rewrite last_last. f_equal; auto. rewrite tree_at_app; auto. rewrite L1. exact B1.
Qed.

End Trees.
