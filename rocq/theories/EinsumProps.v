(** Consequences of the outcome theorem: C02, C03, C07-C12, C20, C28 and the algebraic laws. *)
From Verif Require Import Base BaseFacts NDArray Validation Optimizers Strategies Singleton Pair Path
  Api Spec ValidationFacts SumFacts ArrayFacts SingletonFacts PairFacts PairMain PathFacts EinsumMain.
From Coq Require Import Lia.

Lemma same_outcome_refl {A} (x : res (arr A)) : same_outcome x x.
Proof. destruct x; simpl; auto. split; auto. Qed.

Lemma same_array_sym {A} (a b : arr A) : same_array a b -> same_array b a.
Proof. intros [H1 H2]. split; auto. intros idx Hi. symmetry. apply H2. rewrite H1. auto. Qed.

Lemma same_array_trans {A} (a b c : arr A) : same_array a b -> same_array b c -> same_array a c.
Proof.
  intros [H1 H2] [H3 H4]. split; [congruence|]. intros idx Hi. rewrite H2, H4; auto.
  rewrite <- H1. auto.
Qed.

Lemma same_outcome_sym {A} (x y : res (arr A)) : same_outcome x y -> same_outcome y x.
Proof. destruct x, y; simpl; auto. apply same_array_sym. Qed.

Lemma same_outcome_trans {A} (x y z : res (arr A)) :
  same_outcome x y -> same_outcome y z -> same_outcome x z.
Proof. destruct x, y, z; simpl; auto; try tauto. apply same_array_trans. Qed.

(** Equal shapes and elements give equal Einstein sums. *)
Lemma same_array_elem {A} {Sc : Scalar A} (a b : arr A) idx : same_array a b -> elem a idx = elem b idx.
Proof.
  intros [H1 H2]. unfold elem. destruct (in_bounds (a_shape a) idx) eqn:E.
  - rewrite H2; auto.
  - unfold a_get. rewrite <- H1, E. auto.
Qed.

Lemma same_arrays_term {A} {Sc : Scalar A} (arrays arrays' : list (arr A)) ops e :
  Forall2 same_array arrays arrays' -> term arrays ops e = term arrays' ops e.
Proof.
  intros H. unfold term. revert ops. induction H as [|a b l l' Hab H IH]; intros [|ix ops]; simpl; auto.
  unfold product in *. simpl. rewrite IH. f_equal. apply same_array_elem; auto.
Qed.

Lemma einsum_value_ext {A} {Sc : Scalar A} size (arrays arrays' : list (arr A)) ops out o :
  (forall e, term arrays ops e = term arrays' ops e) ->
  einsum_value size arrays ops out o = einsum_value size arrays' ops out o.
Proof. intros H. apply nested_sum_ext_all. auto. Qed.

Lemma same_shapes {A} (arrays arrays' : list (arr A)) :
  Forall2 same_array arrays arrays' -> map (@a_shape A) arrays = map (@a_shape A) arrays'.
Proof. induction 1 as [|a b l l' [H1 _] H IH]; simpl; congruence. Qed.

Lemma holds_ext {A} (a : arr A) sh f g : (forall idx, f idx = g idx) -> holds a sh f -> holds a sh g.
Proof. intros H (H1 & H2 & H3). split; auto. split; auto. intros idx Hi. rewrite <- H. auto. Qed.

Lemma holds_elem {A} {Sc : Scalar A} (a : arr A) sh f idx :
  holds a sh f -> in_bounds sh idx = true -> elem a idx = f idx.
Proof. intros (H1 & H2 & H3) Hi. unfold elem. rewrite H3; auto. Qed.

(** The labels and the lengths of the labels are determined by the call. *)
Lemma meaning_unique s ops out ops' out' : meaning s ops out -> meaning s ops' out' ->
  ops = ops' /\ out = out'.
Proof.
  intros [H|[H Hi]] [H'|[H' Hi']]; destruct (ParserFacts.grammar_unique _ _ _ _ _ H H') as [-> E];
    try discriminate E.
  - injection E as ->. auto.
  - split; auto. destruct Hi as [S1 I1], Hi' as [S2 I2]. apply sorted_lt_unique; auto.
    intros c. rewrite I1, I2. tauto.
Qed.

Lemma shapes_ok_nth size ops shapes i ix sh : shapes_ok size ops shapes ->
  nth_error ops i = Some ix -> nth_error shapes i = Some sh -> sh = map size ix.
Proof.
  intros H. revert i. induction H as [|x y l l' Hxy H IH]; intros [|i]; simpl; intros H1 H2; try discriminate.
  - congruence.
  - eauto.
Qed.

(** Without any law of the scalars: the shape of a result, and which calls end how. *)
Section Free.
Context {A : Type} {Sc : Scalar A}.

Lemma result_shape_ok h lay s arrays ops out r : hash_ok h -> backend_runs lay -> Forall wf arrays ->
  meaning s ops out -> einsum h lay s arrays = Ok r ->
  length (a_shape r) = length out
  /\ forall n c i j ix a, nth_error out n = Some c ->
       nth_error ops i = Some ix -> nth_error arrays i = Some a -> nth_error ix j = Some c ->
       nth_error (a_shape r) n = nth_error (a_shape a) j.
Proof.
  intros Hh Hlay Hw Hm E.
  destruct (einsum_ok_shape h lay Hh Hlay s arrays r Hw E) as (ops' & out' & size & (Hm' & _ & Hs) & _ & _ & Hr).
  destruct (meaning_unique _ _ _ _ _ Hm Hm') as [<- <-].
  split; [rewrite Hr, map_length; auto|].
  intros n c i j ix a Hn Hi Ha Hj.
  assert (Ha' : a_shape a = map size ix).
  { eapply shapes_ok_nth; eauto. erewrite map_nth_error; eauto. }
  rewrite Hr, Ha'. erewrite !map_nth_error; eauto.
Qed.

Lemma einsum_accepts h lay s arrays : hash_ok h -> backend_runs lay -> Forall wf arrays ->
  ((forall m, einsum h lay s arrays <> Err m) <-> accepted s (map (@a_shape A) arrays))
  /\ (~ accepted s (map (@a_shape A) arrays) -> exists m, einsum h lay s arrays = Err m).
Proof.
  intros Hh Hlay Hw. split.
  - split.
    + intros H. destruct (accepted_dec h Hh s (map (@a_shape A) arrays)) as [|Hn]; auto.
      apply (einsum_rejects h lay Hh) in Hn as (m & E). congruence.
    + intros (ops & out & size & Hc) m.
      destruct (einsum_ends h lay Hh Hlay s arrays ops out size Hc Hw) as [[E _]|[_ (r & E & _)]];
        congruence.
  - apply einsum_rejects; auto.
Qed.

Lemma no_panics h lay s arrays ops out size : hash_ok h -> backend_runs lay ->
  call_ok s (map (@a_shape A) arrays) ops out size -> Forall wf arrays ->
  no_empty_diagonal size ops ->
  (exists r, einsum h lay s arrays = Ok r)
  /\ (forall strategy, strategy = Naive \/ strategy = Reverse ->
        exists p r, einsum_path_fn h s arrays strategy = Ok p /\ contract_operands lay p arrays = Ok r)
  /\ (exists sc r, validate_and_size h s arrays = Ok sc /\ einsum_sc h lay sc arrays = Ok r).
Proof.
  intros Hh Hlay Hc Hw Hn.
  pose proof (no_empty_not_blocked size arrays ops out Hn) as Hb.
  destruct (einsum_ends h lay Hh Hlay s arrays ops out size Hc Hw) as [[_ H]|[_ (r & E & _)]]; [contradiction|].
  split; [eauto|]. split.
  - intros st Hst. unfold einsum_path_fn, get_operand_shapes.
    destruct (path_ends h lay Hh Hlay s _ ops out size st Hc Hst [22] [23]) as (o & p & E1 & E2 & Hp).
    rewrite E1. cbn [rbind]. exists p.
    destruct (Hp arrays Hw eq_refl) as [[_ H]|[_ (r' & E' & _)]]; [contradiction|]. eauto.
  - unfold einsum in E. apply rbind_ok in E as (sc & E1 & E2). eauto.
Qed.

Lemma blocked_calls_panic h lay s arrays ops out size : hash_ok h -> backend_runs lay ->
  call_ok s (map (@a_shape A) arrays) ops out size -> Forall wf arrays ->
  (einsum h lay s arrays = Panic <-> blocked_in size (combine arrays ops) out).
Proof.
  intros Hh Hlay Hc Hw.
  destruct (einsum_ends h lay Hh Hlay s arrays ops out size Hc Hw) as [[E H]|[H (r & E & _)]];
    split; intros; auto; try congruence; contradiction.
Qed.

Lemma combine_nth_error_split {T U} (l : list T) (l' : list U) i x y :
  nth_error l i = Some x -> nth_error l' i = Some y ->
  exists p1 p2, combine l l' = p1 ++ (x, y) :: p2.
Proof.
  intros H1 H2. apply in_split. revert l' i H1 H2.
  induction l as [|a l IH]; intros [|b l'] [|i]; simpl; intros H1 H2; try discriminate.
  - left. congruence.
  - right. eauto.
Qed.

Lemma empty_repeated_panics h lay s arrays ops out size i a ix : hash_ok h -> backend_runs lay ->
  call_ok s (map (@a_shape A) arrays) ops out size -> Forall wf arrays ->
  nth_error arrays i = Some a -> nth_error ops i = Some ix ->
  ~ NoDup ix -> In 0 (a_shape a) -> Exists (fun st => st <= 0)%Z (a_strides a) ->
  einsum h lay s arrays = Panic.
Proof.
  intros Hh Hlay Hc Hw Ha Hi Hn H0 Hst. eapply blocked_calls_panic; eauto.
  destruct (combine_nth_error_split _ _ _ _ _ Ha Hi) as (p1 & p2 & E).
  exists p1, a, ix, p2. split; auto. split; auto. destruct Hc as (_ & _ & Hs).
  assert (Ha' : a_shape a = map size ix).
  { eapply shapes_ok_nth; eauto. erewrite map_nth_error; eauto. }
  split.
  - rewrite Ha' in H0. apply in_map_iff in H0 as (c & Hc1 & Hc2). eauto.
  - intros (_ & Hp & _). apply Exists_exists in Hst as (st & Hst & Hle).
    rewrite Forall_forall in Hp. specialize (Hp st Hst). lia.
Qed.

End Free.

Section Props.
Context {A : Type} {Sc : Scalar A}.
Hypothesis SR : semiring A.

Lemma einsum_correct h lay s arrays ops out size : hash_ok h -> backend_ok lay ->
  call_ok s (map (@a_shape A) arrays) ops out size -> Forall wf arrays ->
  no_empty_diagonal size ops ->
  exists r, einsum h lay s arrays = Ok r
    /\ holds r (map size out) (einsum_value size arrays ops out).
Proof.
  intros Hh Hlay Hc Hw Hn.
  destruct (einsum_outcome SR h lay Hh Hlay s arrays ops out size Hc Hw) as [[_ H]|[_ H]]; auto.
  exfalso. eapply no_empty_not_blocked; eauto.
Qed.

Lemma both_outcomes h1 h2 lay1 lay2 s arrays : hash_ok h1 -> hash_ok h2 -> backend_ok lay1 ->
  backend_ok lay2 -> Forall wf arrays ->
  same_outcome (einsum h1 lay1 s arrays) (einsum h2 lay2 s arrays).
Proof.
  intros H1 H2 L1 L2 Hw.
  destruct (accepted_dec h1 H1 s (map (@a_shape A) arrays)) as [(ops & out & size & Hc)|Hn].
  - eapply outcome_same; eapply einsum_outcome; eauto.
  - destruct (einsum_rejects h1 lay1 H1 s arrays Hn) as (m1 & ->).
    destruct (einsum_rejects h2 lay2 H2 s arrays Hn) as (m2 & ->). simpl; auto.
Qed.

Lemma layouts_agree h1 h2 lay1 lay2 s arrays1 arrays2 r1 r2 : hash_ok h1 -> hash_ok h2 ->
  backend_ok lay1 -> backend_ok lay2 -> Forall wf arrays1 -> Forall wf arrays2 ->
  Forall2 same_array arrays1 arrays2 ->
  einsum h1 lay1 s arrays1 = Ok r1 -> einsum h2 lay2 s arrays2 = Ok r2 -> same_array r1 r2.
Proof.
  intros H1 H2 L1 L2 W1 W2 Hs E1 E2.
  destruct (einsum_ok_inv SR h1 lay1 H1 L1 s arrays1 r1 W1 E1) as (ops & out & size & Hc & _ & Hr1).
  assert (Hc2 : call_ok s (map (@a_shape A) arrays2) ops out size)
    by (rewrite <- (same_shapes arrays1 arrays2) by auto; auto).
  destruct (einsum_outcome SR h2 lay2 H2 L2 s arrays2 ops out size Hc2 W2) as [[E _]|[_ (r & E & Hr2)]];
    [congruence|].
  assert (r = r2) by congruence. subst r. eapply same_array_holds; [exact Hr1|].
  eapply holds_ext; [|exact Hr2]. intros o. apply einsum_value_ext. intros e.
  symmetry. apply same_arrays_term; auto.
Qed.

Lemma layouts_agree_outcome h1 h2 lay1 lay2 s arrays1 arrays2 : hash_ok h1 -> hash_ok h2 ->
  backend_ok lay1 -> backend_ok lay2 -> Forall wf arrays1 -> Forall wf arrays2 ->
  Forall2 same_array arrays1 arrays2 ->
  (forall ops out size, call_ok s (map (@a_shape A) arrays1) ops out size -> no_empty_diagonal size ops) ->
  same_outcome (einsum h1 lay1 s arrays1) (einsum h2 lay2 s arrays2).
Proof.
  intros H1 H2 L1 L2 W1 W2 Hs Hn.
  assert (Esh := same_shapes arrays1 arrays2 Hs).
  destruct (accepted_dec h1 H1 s (map (@a_shape A) arrays1)) as [(ops & out & size & Hc)|Hna].
  - pose proof (Hn ops out size Hc) as Hd.
    destruct (einsum_correct h1 lay1 s arrays1 ops out size H1 L1 Hc W1 Hd) as (r1 & E1 & _).
    assert (Hc2 : call_ok s (map (@a_shape A) arrays2) ops out size) by (rewrite <- Esh; auto).
    destruct (einsum_correct h2 lay2 s arrays2 ops out size H2 L2 Hc2 W2 Hd) as (r2 & E2 & _).
    pose proof (layouts_agree h1 h2 lay1 lay2 s arrays1 arrays2 r1 r2 H1 H2 L1 L2 W1 W2 Hs E1 E2).
    rewrite E1, E2. auto.
  - destruct (einsum_rejects h1 lay1 H1 s arrays1 Hna) as (m1 & ->).
    rewrite Esh in Hna. destruct (einsum_rejects h2 lay2 H2 s arrays2 Hna) as (m2 & ->). simpl; auto.
Qed.

Lemma strategies_agree h h' lay lay' s arrays strategy : hash_ok h -> hash_ok h' ->
  backend_ok lay -> backend_ok lay' -> Forall wf arrays -> strategy = Naive \/ strategy = Reverse ->
  same_outcome (compile_and_run h lay s arrays strategy) (einsum h' lay' s arrays).
Proof.
  intros H1 H2 L1 L2 Hw Hst.
  destruct (accepted_dec h H1 s (map (@a_shape A) arrays)) as [(ops & out & size & Hc)|Hn].
  - eapply outcome_same; [apply compile_and_run_outcome|apply einsum_outcome]; eauto.
  - unfold compile_and_run. destruct (path_rejects h H1 s arrays strategy Hn) as (m1 & ->).
    destruct (einsum_rejects h' lay' H2 s arrays Hn) as (m2 & ->). simpl; auto.
Qed.

Lemma path_reusable h h' lay lay' s arrays0 arrays strategy : hash_ok h -> hash_ok h' ->
  backend_ok lay -> backend_ok lay' -> Forall wf arrays ->
  map (@a_shape A) arrays0 = map (@a_shape A) arrays ->
  einsum_path_fn h s arrays0 strategy = einsum_path_fn h s arrays strategy
  /\ forall p, einsum_path_fn h s arrays0 strategy = Ok p ->
       same_outcome (contract_operands lay p arrays) (einsum h' lay' s arrays).
Proof.
  intros H1 H2 L1 L2 Hw Hsh.
  assert (E : einsum_path_fn h s arrays0 strategy = einsum_path_fn h s arrays strategy).
  { unfold einsum_path_fn, get_operand_shapes. rewrite Hsh. auto. }
  split; auto. intros p Ep. rewrite E in Ep.
  destruct (accepted_dec h H1 s (map (@a_shape A) arrays)) as [(ops & out & size & Hc)|Hn].
  - assert (Hst : strategy = Naive \/ strategy = Reverse).
    { destruct strategy; auto; exfalso; unfold einsum_path_fn, validate_and_optimize_order in Ep;
        apply rbind_ok in Ep as (o & Eo & _); apply rbind_ok in Eo as (sc & _ & Eo); discriminate. }
    pose proof (strategies_agree h h' lay lay' s arrays strategy H1 H2 L1 L2 Hw Hst) as Hs.
    unfold compile_and_run in Hs. rewrite Ep in Hs. exact Hs.
  - destruct (path_rejects h H1 s arrays strategy Hn) as (m1 & E1). congruence.
Qed.

(** C28 *)
Lemma empty_sum_zero h lay s arrays ops out size r c : hash_ok h -> backend_ok lay ->
  call_ok s (map (@a_shape A) arrays) ops out size -> Forall wf arrays ->
  In c (concat ops) -> ~ In c out -> size c = 0 -> einsum h lay s arrays = Ok r ->
  forall o, in_bounds (a_shape r) o = true -> a_get r o = Ok szero.
Proof.
  intros Hh Hlay Hc Hw Hi Hn H0 E o Ho.
  destruct (einsum_outcome SR h lay Hh Hlay s arrays ops out size Hc Hw) as [[E' _]|[_ (r' & E' & (Hr1 & Hr2 & Hr3))]];
    [congruence|].
  assert (r' = r) by congruence. subst r'. rewrite Hr3 by (rewrite <- Hr1; auto). f_equal.
  unfold einsum_value. apply (nested_sum_empty SR size _ _ _ c); auto. apply summed_labels_In; auto.
Qed.

(** C20: contracting with a subset *)
Lemma subset_sized h k k' s shapes sc ops' out' sc' size : hash_ok h ->
  from_string_and_shapes h k s shapes = Ok sc ->
  subset h k' sc ops' out' = Ok sc' ->
  (forall c, In c (concat ops') -> lookup c (sc_output_size sc) = Some (size c)) ->
  sized sc' ops' out' size.
Proof.
  intros Hh E Es Hsz.
  destruct (subset_iff h k' sc ops' out' Hh) as [H1 H2].
  assert (Hk : forall c, In c (concat ops') -> lookup c (sc_output_size sc) <> None)
    by (intros c Hc; rewrite Hsz by auto; discriminate).
  destruct (output_ok_dec ops' out') as [Ho|Ho].
  - destruct (H1 (conj Hk Ho)) as (sc2 & E2 & Hc & Hl).
    assert (sc2 = sc') by congruence. subst sc2. split; auto. split; auto.
    intros c. rewrite Hl. destruct (mem c (concat ops')) eqn:Em; auto.
    apply Hsz, mem_In; auto.
  - destruct H2 as (m & Em); [tauto|congruence].
Qed.

Lemma subset_value h k k' lay s shapes sc ops' out' sc' size arrays : hash_ok h -> backend_ok lay ->
  from_string_and_shapes h k s shapes = Ok sc ->
  subset h k' sc ops' out' = Ok sc' -> ops' <> [] ->
  (forall c, In c (concat ops') -> lookup c (sc_output_size sc) = Some (size c)) ->
  Forall wf arrays -> shapes_ok size ops' (map (@a_shape A) arrays) ->
  outcome_is (einsum_sc h lay sc' arrays) size arrays ops' out'.
Proof.
  intros Hh Hlay E Es Hne Hsz Hw Hsh. eapply einsum_sc_outcome; eauto.
  eapply subset_sized; eauto.
Qed.

End Props.

(** Witnesses of the refuted statements. *)
Lemma default_strides_empty sh : In 0 sh -> Exists (fun st => st <= 0)%Z (default_strides sh).
Proof.
  intros H. unfold default_strides.
  assert (E : is_empty_shape sh = true) by (apply existsb_exists; exists 0; auto).
  rewrite E. destruct sh as [|d sh]; [contradiction|]. simpl. left. lia.
Qed.
