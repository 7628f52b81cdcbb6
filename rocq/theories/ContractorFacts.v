(** What the constructors of the contractors accept. *)
From Verif Require Import Base BaseFacts NDArray Validation Strategies Singleton Pair Path Spec
  ValidationFacts SumFacts ArrayFacts TensordotFacts DiagFacts SingletonFacts PairFacts StackedFacts
  PairMain PathFacts EinsumMain MisuseFacts TensordotMain UnusedFacts.
From Coq Require Import Lia.

(** ** Inversion *)

Lemma rassert_inv b u : rassert b = Ok u -> b = true.
Proof. destruct b; [auto|discriminate]. Qed.

Lemma chars_eqb_eq a : forall b, chars_eqb a b = true -> a = b.
Proof.
  induction a as [|x a IH]; intros [|y b]; simpl; try discriminate; auto.
  intros H. apply andb_true_iff in H as [H1 H2]. apply N.eqb_eq in H1. f_equal; auto.
Qed.

Lemma position_once c l p : position c l = Some p -> position c (skipn (p + 1) l) = None ->
  count_occ N.eq_dec l c = 1.
Proof.
  revert p; induction l as [|x l IH]; intros p; simpl; [discriminate|].
  destruct (N.eqb_spec x c) as [->|Hx].
  - intros [= <-] H. cbn [skipn Nat.add] in H. rewrite (proj1 (count_occ_not_In N.eq_dec l c)).
    + destruct (N.eq_dec c c); congruence.
    + apply position_None; auto.
  - destruct (position c l) as [q|] eqn:E; simpl; [|discriminate]. intros [= <-] H.
    destruct (N.eq_dec x c); [contradiction|]. apply (IH q); auto.
Qed.

Lemma maybe_find_inv out input l : maybe_find_outputs_in_inputs_unique out input = Ok l ->
  l = map (fun o => position o input) out
  /\ forall c, In c out -> count_occ N.eq_dec input c <= 1.
Proof.
  intros H. apply mapM_inv in H. induction H as [|c y out l H HF IH]; simpl; [split; [auto|contradiction]|].
  destruct IH as [-> IH].
  assert (Hc : y = position c input /\ count_occ N.eq_dec input c <= 1).
  { destruct (position c input) as [p|] eqn:E.
    - apply rbind_ok in H as (u & Ha & H). injection H as <-. split; auto.
      apply rassert_inv in Ha. destruct (position c (skipn (p + 1) input)) eqn:E2; [discriminate|].
      rewrite (position_once c input p); auto.
    - injection H as <-. split; auto. apply position_None in E. rewrite (proj1 (count_occ_not_In N.eq_dec _ _)); auto. }
  destruct Hc as [-> Hc]. split; auto. intros d [<-|Hd]; auto.
Qed.

Lemma find_inv out input l : find_outputs_in_inputs_unique out input = Ok l ->
  incl out input /\ forall c, In c out -> count_occ N.eq_dec input c <= 1.
Proof.
  intros H. apply rbind_ok in H as (m & Hm & H). apply maybe_find_inv in Hm as [-> Hm]. split; auto.
  intros c Hc. apply mapM_inv in H. clear Hm. remember (map _ out) as l' eqn:E. revert out E c Hc.
  induction H as [|y z l' l H HF IH]; intros [|d out] E c Hc; simpl in *; try discriminate; [contradiction|].
  injection E as -> ->. destruct Hc as [<-|Hc]; [|eapply IH; eauto].
  destruct (position d input) eqn:Ep; [|discriminate]. eapply position_Some_In; eauto.
Qed.

Lemma permuted_axes_inv {A} (a : arr A) axes r : permuted_axes a axes = Ok r ->
  length axes = length (a_shape a) /\ NoDup axes.
Proof.
  unfold permuted_axes. destruct (_ && _) eqn:E; [|discriminate]. intros _.
  apply andb_true_iff in E as [E E3]. apply andb_true_iff in E as [E1 E2]. apply Nat.eqb_eq in E1.
  split; auto. apply (NoDup_count_occ Nat.eq_dec). intros k.
  destruct (in_dec Nat.eq_dec k axes) as [Hk|Hk].
  - rewrite forallb_forall in E2, E3. pose proof (E2 k Hk) as Hlt. apply Nat.ltb_lt in Hlt.
    assert (Hs : In k (seq 0 (length (a_shape a)))) by (apply in_seq; lia).
    apply E3, Nat.eqb_eq in Hs. lia.
  - rewrite (proj1 (count_occ_not_In Nat.eq_dec _ _)); auto.
Qed.

Lemma count_occ_filter (f : char -> bool) l c :
  count_occ N.eq_dec (filter f l) c = if f c then count_occ N.eq_dec l c else 0.
Proof.
  induction l as [|x l IH]; simpl; [destruct (f c); auto|].
  destruct (f x) eqn:E; simpl; destruct (N.eq_dec x c) as [->|Hx]; rewrite ?IH, ?E; auto.
Qed.

(** Two lists of which the first is longer, without repetitions and drawn from the second. *)
Lemma filling {T} (l l' : list T) : NoDup l -> incl l l' -> length l' <= length l -> Permutation l l'.
Proof. intros. apply NoDup_Permutation_bis; auto. Qed.

Lemma filter_split_length {T} (f : T -> bool) l :
  length l = length (filter f l) + length (filter (fun x => negb (f x)) l).
Proof. induction l as [|x l IH]; simpl; auto. destruct (f x); simpl; lia. Qed.

(** ** Pairs *)

Section Pair.
Variables (sc : sized_contraction) (lhs rhs out : list char) (size : char -> nat).
Hypothesis HS : sized sc [lhs; rhs] out size.

Let No : NoDup out. Proof. destruct HS as (_ & [H _] & _). auto. Qed.
Let Io : incl out (lhs ++ rhs).
Proof. destruct HS as (_ & [_ H] & _). simpl in H. rewrite app_nil_r in H. auto. Qed.

Ltac start H := rewrite ?(sc_ops2 sc lhs rhs out size HS), ?(sc_out2 sc lhs rhs out size HS) in H;
  cbn [length Nat.eqb rassert rbind] in H; unfold index in H; cbn [nth_error unwrap rbind] in H.

Lemma hadamard_inv u : hadamard_new sc = Ok u -> rhs = lhs /\ out = lhs.
Proof.
  unfold hadamard_new. intros H. start H. apply rbind_ok in H as (? & H1 & H2).
  apply rassert_inv, chars_eqb_eq in H1, H2. auto.
Qed.

Lemma hadamard_general_inv p : hadamard_general_new sc = Ok p ->
  Permutation out lhs /\ Permutation out rhs.
Proof.
  unfold hadamard_general_new. intros H. start H.
  apply rbind_ok in H as (? & H1 & H). apply rbind_ok in H as (? & H2 & H).
  apply rbind_ok in H as (pl & H3 & H). apply rbind_ok in H as (pr & H4 & _).
  apply rassert_inv, Nat.eqb_eq in H1, H2. apply find_inv in H3 as [H3 _], H4 as [H4 _].
  split; apply filling; auto; lia.
Qed.

Lemma scalar_matrix_inv u : scalar_matrix_new sc = Ok u -> lhs = [] /\ out = rhs.
Proof.
  unfold scalar_matrix_new. intros H. start H. apply rbind_ok in H as (? & H1 & H2).
  apply rassert_inv in H1, H2. apply Nat.eqb_eq, length_zero_iff_nil in H1. apply chars_eqb_eq in H2. auto.
Qed.

Lemma scalar_matrix_general_inv p : scalar_matrix_general_new sc = Ok p -> lhs = [] /\ Permutation out rhs.
Proof.
  unfold scalar_matrix_general_new. intros H. start H.
  apply rbind_ok in H as (? & H1 & H). apply rbind_ok in H as (? & H2 & H).
  apply rassert_inv, Nat.eqb_eq in H1, H2. apply length_zero_iff_nil in H1. apply find_inv in H as [H _].
  split; auto. apply filling; auto; lia.
Qed.

Lemma matrix_scalar_inv u : matrix_scalar_new sc = Ok u -> rhs = [] /\ out = lhs.
Proof.
  unfold matrix_scalar_new. intros H. start H. apply rbind_ok in H as (? & H1 & H2).
  apply rassert_inv in H1, H2. apply Nat.eqb_eq, length_zero_iff_nil in H1. apply chars_eqb_eq in H2. auto.
Qed.

Lemma matrix_scalar_general_inv p : matrix_scalar_general_new sc = Ok p -> rhs = [] /\ Permutation out lhs.
Proof.
  unfold matrix_scalar_general_new. intros H. start H.
  apply rbind_ok in H as (? & H1 & H). apply rbind_ok in H as (? & H2 & H).
  apply rassert_inv, Nat.eqb_eq in H1, H2. apply length_zero_iff_nil in H1. apply find_inv in H as [H _].
  split; auto. apply filling; auto; lia.
Qed.

Lemma tg_inv t : tg_new sc = Ok t ->
  simplified lhs rhs out /\ forall c, In c lhs -> In c rhs -> ~ In c out.
Proof.
  unfold tg_new. intros H. start H.
  apply rbind_ok in H as (? & _ & H). apply rbind_ok in H as (? & _ & H). unfold tg_from_indices in H.
  apply rbind_ok in H as (la & H1 & H). apply rbind_ok in H as (ra & H2 & H).
  apply rbind_ok in H as (order & H3 & _).
  apply find_inv in H1 as [I1 C1], H2 as [I2 C2], H3 as [I3 C3].
  assert (IC : forall c, In c (summation_indices (sc_contraction sc)) <-> (In c lhs \/ In c rhs) /\ ~ In c out)
    by apply (sc_sum2 sc lhs rhs out size HS).
  assert (C3' : forall c, In c out -> count_occ N.eq_dec lhs c + count_occ N.eq_dec rhs c <= 1).
  { intros c Hc. specialize (C3 c Hc). rewrite count_occ_app, !count_occ_filter in C3.
    rewrite (proj2 (mem_In c out) Hc) in C3. auto. }
  split.
  - constructor; auto.
    + apply (NoDup_count_occ N.eq_dec). intros c. destruct (in_dec N.eq_dec c out) as [Hc|Hc].
      * specialize (C3' c Hc). lia.
      * destruct (in_dec N.eq_dec c lhs) as [Hl|Hl]; [apply C1, IC; auto|].
        rewrite (proj1 (count_occ_not_In N.eq_dec _ _)); auto.
    + apply (NoDup_count_occ N.eq_dec). intros c. destruct (in_dec N.eq_dec c out) as [Hc|Hc].
      * specialize (C3' c Hc). lia.
      * destruct (in_dec N.eq_dec c rhs) as [Hl|Hl]; [apply C2, IC; auto|].
        rewrite (proj1 (count_occ_not_In N.eq_dec _ _)); auto.
    + intros c Hc. destruct (in_dec N.eq_dec c out) as [Ho|Ho]; auto. left. apply I2, IC. auto.
    + intros c Hc. destruct (in_dec N.eq_dec c out) as [Ho|Ho]; auto. left. apply I1, IC. auto.
  - intros c Hl Hr Ho. specialize (C3' c Ho).
    apply (count_occ_In N.eq_dec) in Hl, Hr. lia.
Qed.

(** A permutation that lists the axes of the labels found in the output covers the operand. *)
Lemma somes_cover l : length (somes (map (fun o => position o l) out)) = length l -> NoDup l /\ incl l out.
Proof.
  intros H. assert (P : Permutation (filter (fun c => mem c l) out) l).
  { apply filling.
    - apply NoDup_filter; auto.
    - intros c Hc. apply filter_In in Hc as [_ Hc]. apply mem_In; auto.
    - rewrite (Forall2_len _ _ _ (somes_positions l out)). lia. }
  split.
  - eapply Permutation_NoDup; [exact P|]. apply NoDup_filter; auto.
  - intros c Hc. apply (Permutation_in c (Permutation_sym P)) in Hc. apply filter_In in Hc. tauto.
Qed.

Lemma broadcast_inv {A} {Sc : Scalar A} lay b (x y : arr A) r :
  broadcast_new sc = Ok b -> run_broadcast lay b x y = Ok r ->
  length (a_shape x) = length lhs -> length (a_shape y) = length rhs ->
  NoDup lhs /\ NoDup rhs /\ incl (lhs ++ rhs) out.
Proof.
  unfold broadcast_new. intros H Hr Lx Ly. start H.
  apply rbind_ok in H as (ml & H1 & H). apply rbind_ok in H as (mr & H2 & H).
  apply rbind_ok in H as (sz & _ & H). injection H as <-.
  apply maybe_find_inv in H1 as [-> _], H2 as [-> _].
  unfold run_broadcast, permutation_view in Hr. cbn [bp_lhs_permutation bp_rhs_permutation] in Hr.
  apply rbind_ok in Hr as (l0 & E1 & Hr). apply rbind_ok in Hr as (r0 & E2 & _).
  apply permuted_axes_inv in E1 as [E1 _], E2 as [E2 _]. rewrite Lx in E1. rewrite Ly in E2.
  apply somes_cover in E1 as [N1 I1], E2 as [N2 I2]. split; auto. split; auto. apply incl_app; auto.
Qed.

Lemma contracted_inv l : forall st r,
  foldM (contracted_step (sc_output_size sc) rhs out) l st = Ok r ->
  forall ic, In ic l -> In (snd ic) rhs \/ In (snd ic) out.
Proof.
  induction l as [|[i c] l IH]; intros [[la ra] sh] r H ic; simpl; [contradiction|].
  cbn [foldM] in H. apply rbind_ok in H as (st' & H1 & H). intros [<-|Hic]; [|eapply IH; eauto].
  unfold contracted_step in H1. cbn [snd]. destruct (position c out) eqn:E.
  - right. eapply position_Some_In; eauto.
  - left. apply rbind_ok in H1 as (rp & H1 & _). destruct (position c rhs) eqn:E2; [|discriminate].
    eapply position_Some_In; eauto.
Qed.

Lemma combine_seq_snd {T} (l : list T) : forall k, map snd (combine (seq k (length l)) l) = l.
Proof. induction l as [|x l IH]; intros k; simpl; auto. rewrite IH. auto. Qed.

Lemma stacked_inv {A} {Sc : Scalar A} lay s (x y : arr A) r :
  stacked_new sc = Ok s -> run_stacked lay s x y = Ok r ->
  length (a_shape x) = length lhs -> length (a_shape y) = length rhs -> simplified lhs rhs out.
Proof.
  unfold stacked_new. intros H Hr Lx Ly. start H.
  apply rbind_ok in H as (ml & H1 & H). apply rbind_ok in H as (mr & H2 & H).
  apply maybe_find_inv in H1 as [-> C1], H2 as [-> C2].
  assert (Hout : forall c, In c out -> In c lhs \/ In c rhs) by (intros c Hc; apply in_app_iff, Io; auto).
  rewrite (stack_fold sc lhs rhs out size HS out) in H by auto.
  set (S := filter (both lhs rhs) out) in *. set (U := filter (only lhs rhs) out) in *.
  set (V := filter (only rhs lhs) out) in *. set (C := filter (fun c => negb (mem c out)) lhs).
  cbn [rbind] in H. apply rbind_ok in H as ([[lca rca] csh] & H3 & H).
  assert (I1 : forall c, In c lhs -> In c rhs \/ In c out).
  { intros c Hc. rewrite <- (combine_seq_snd lhs 0) in Hc. apply in_map_iff in Hc as (ic & <- & Hi).
    apply (contracted_inv _ _ _ H3 ic); auto. }
  rewrite (contracted_fold sc lhs rhs out size HS out) in H3.
  2:{ intros [i c] Hic. apply in_combine_r in Hic. cbn [snd]. auto. }
  set (X := filter (fun ic => negb (mem (snd ic) out)) (combine (seq 0 (length lhs)) lhs)) in *.
  assert (XC : map snd X = C).
  { unfold X, C. clear. generalize 0. induction lhs as [|c l IH]; intros k; auto.
    cbn [length seq combine filter snd]. destruct (negb (mem c out)); cbn [map snd]; rewrite IH; auto. }
  assert (XR : map (fun ic => pos rhs (snd ic)) X = map (pos rhs) C) by (rewrite <- XC, map_map; auto).
  rewrite XR in H3. cbn [app] in H3. injection H3 as <- <- <-.
  cbn [app sa_lhs_stack_axes sa_rhs_stack_axes sa_stack_indices
    sa_lhs_outer_axes sa_lhs_outer_indices sa_rhs_outer_axes sa_rhs_outer_indices
    sa_lhs_uncontracted_shape sa_rhs_uncontracted_shape sa_lhs_stack_len sa_rhs_stack_len] in H.
  apply rbind_ok in H as (? & _ & H). apply rbind_ok in H as (? & _ & H). apply rbind_ok in H as (? & _ & H).
  apply rbind_ok in H as (? & _ & H). apply rbind_ok in H as (? & _ & H). apply rbind_ok in H as (? & _ & H).
  injection H as <-.
  unfold run_stacked, permutation_view in Hr. cbn [st_lhs_permutation st_rhs_permutation] in Hr.
  apply rbind_ok in Hr as (pl & E1 & Hr). apply rbind_ok in Hr as (? & _ & Hr). apply rbind_ok in Hr as (? & _ & Hr).
  apply rbind_ok in Hr as (pr & E2 & _).
  apply permuted_axes_inv in E1 as [E1 _], E2 as [E2 N2]. rewrite Lx in E1. rewrite Ly in E2.
  assert (IS : forall c, In c S <-> In c out /\ In c lhs /\ In c rhs).
  { intros c. unfold S, both. rewrite filter_In, andb_true_iff, !mem_In. tauto. }
  assert (IV : forall c, In c V <-> In c out /\ In c rhs /\ ~ In c lhs).
  { intros c. unfold V, only. rewrite filter_In, andb_true_iff, negb_true_iff, mem_In, mem_false. tauto. }
  assert (IC : forall c, In c C <-> In c lhs /\ ~ In c out).
  { intros c. unfold C. rewrite filter_In, negb_true_iff, mem_false. tauto. }
  rewrite <- !map_app in N2, E2. apply NoDup_map_inv in N2. rewrite map_length in E2.
  assert (P2 : Permutation (S ++ C ++ V) rhs).
  { apply filling; auto; [|lia]. intros c. rewrite !in_app_iff, IS, IV, IC. intros [Hc|[Hc|Hc]]; try tauto.
    destruct (I1 c); tauto. }
  assert (NC : NoDup C).
  { apply NoDup_app_elim in N2 as (_ & N2 & _). apply NoDup_app_elim in N2. tauto. }
  constructor; auto.
  - apply (NoDup_count_occ N.eq_dec). intros c. destruct (in_dec N.eq_dec c out) as [Hc|Hc]; auto.
    destruct (in_dec N.eq_dec c lhs) as [Hl|Hl].
    + apply (NoDup_count_occ N.eq_dec) with (x := c) in NC. unfold C in NC. rewrite count_occ_filter in NC.
      rewrite (proj2 (mem_false c out) Hc) in NC. auto.
    + rewrite (proj1 (count_occ_not_In N.eq_dec _ _)); auto.
  - eapply Permutation_NoDup; eauto.
  - intros c Hc. apply (Permutation_in c (Permutation_sym P2)) in Hc.
    rewrite !in_app_iff, IS, IV, IC in Hc. tauto.
Qed.

End Pair.

(** ** TensordotFixedPosition *)

(** How many axes it contracts, and when it is built: the labels are not compared. *)
Definition fixed_count (lhs rhs out : list char) : nat := (length lhs + length rhs - length out) / 2.

Definition fixed_accepts (size : char -> nat) (lhs rhs out : list char) : Prop :=
  let n := fixed_count lhs rhs out in
  length out <= length lhs + length rhs
  /\ Nat.modulo (length lhs + length rhs - length out) 2 = 0
  /\ (lhs = [] \/ n <= length lhs)
  /\ prod (skipn (length lhs - n) (map size lhs)) = prod (firstn n (map size rhs)).

Lemma tfp_from_shapes_exact sl sr n : sl = [] \/ n <= length sl ->
  tfp_from_shapes sl sr n
  = if Nat.eqb (prod (firstn n sr)) (prod (skipn (length sl - n) sl))
    then Ok (mkTFP (prod (firstn (length sl - n) sl)) (prod (skipn n sr)) (prod (skipn (length sl - n) sl))
               (firstn (length sl - n) sl ++ skipn n sr))
    else Panic.
Proof.
  intros [->|Hn]; unfold tfp_from_shapes.
  - cbn [length seq combine foldM rbind]. rewrite tfp_from_shapes_fold_r. rewrite !Nat.sub_0_r.
    cbn [Nat.sub firstn skipn app]. rewrite !Nat.mul_1_l.
    change (prod []) with 1. destruct (Nat.eqb (prod (firstn n sr)) 1); auto.
  - rewrite (tfp_from_shapes_fold_l (length sl - n)) by (apply usub_ok; auto). cbn [rbind].
    rewrite tfp_from_shapes_fold_r, !Nat.sub_0_r, !Nat.mul_1_l. cbn [app].
    destruct (Nat.eqb _ _); auto.
Qed.

Lemma tfp_new_exact sc lhs rhs out size : sized sc [lhs; rhs] out size ->
  (fixed_accepts size lhs rhs out ->
     let n := fixed_count lhs rhs out in
     let k := length lhs - n in
     tfp_new sc = Ok (mkTFP (prod (firstn k (map size lhs))) (prod (skipn n (map size rhs)))
                        (prod (skipn k (map size lhs))) (firstn k (map size lhs) ++ skipn n (map size rhs))))
  /\ (~ fixed_accepts size lhs rhs out -> tfp_new sc = Panic).
Proof.
  intros HS. unfold tfp_new, fixed_accepts, fixed_count.
  rewrite (sc_ops2 sc lhs rhs out size HS), (sc_out2 sc lhs rhs out size HS).
  cbn [length Nat.eqb rassert rbind]. unfold index. cbn [nth_error unwrap rbind].
  rewrite !(sizes2 sc lhs rhs out size HS) by (intros c Hc; apply in_or_app; auto). cbn [rbind].
  set (n := (length lhs + length rhs - length out) / 2). split.
  - intros (H1 & H2 & H3 & H4). rewrite usub_ok by auto. cbn [rbind]. rewrite H2. cbn [Nat.eqb rassert rbind].
    fold n. rewrite tfp_from_shapes_exact, map_length, H4, Nat.eqb_refl; auto.
    destruct H3 as [->|H3]; auto. rewrite map_length. auto.
  - intros H. unfold usub. destruct (Nat.leb_spec (length out) (length lhs + length rhs)); auto. cbn [rbind].
    destruct (Nat.eqb_spec ((length lhs + length rhs - length out) mod 2) 0); auto. cbn [rassert rbind]. fold n.
    destruct (le_lt_dec n (length lhs)) as [Hn|Hn].
    + rewrite tfp_from_shapes_exact, map_length by (rewrite map_length; auto).
      destruct (Nat.eqb_spec (prod (firstn n (map size rhs))) (prod (skipn (length lhs - n) (map size lhs)))); auto.
      exfalso. apply H. auto.
    + destruct lhs as [|c l].
      * rewrite tfp_from_shapes_exact by auto. cbn [map length Nat.sub skipn] in *.
        destruct (Nat.eqb_spec (prod (firstn n (map size rhs))) (prod [])); auto. exfalso. apply H. auto.
      * unfold tfp_from_shapes. cbn [map length seq combine foldM] in *.
        unfold usub at 1. rewrite map_length, (proj2 (Nat.leb_gt _ _)) by auto. reflexivity.
Qed.

Section Fixed.
Context {A : Type} {Sc : Scalar A}.

(** The product of the operands as matrices, their last and first [n] axes counted off in step. *)
Definition fixed_value (n : nat) (a b : arr A) (o : list nat) : A :=
  let k := length (a_shape a) - n in
  sum_n (prod (skipn k (a_shape a))) (fun t =>
    smul (elem a (firstn k o ++ unflat (skipn k (a_shape a)) t))
         (elem b (unflat (firstn n (a_shape b)) t ++ skipn k o))).

Lemma run_tfp_exact lay (a b : arr A) n : semiring A -> backend_ok lay -> wf a -> wf b ->
  let k := length (a_shape a) - n in
  prod (skipn k (a_shape a)) = prod (firstn n (a_shape b)) ->
  exists r, run_tfp lay (mkTFP (prod (firstn k (a_shape a))) (prod (skipn n (a_shape b)))
                           (prod (skipn k (a_shape a))) (firstn k (a_shape a) ++ skipn n (a_shape b))) a b = Ok r
    /\ holds r (firstn k (a_shape a) ++ skipn n (a_shape b)) (fixed_value n a b).
Proof.
  intros SR Hlay Wa Wb k Hp.
  pose proof (wf_holds a Wa) as Ha. pose proof (wf_holds b Wb) as Hb.
  rewrite <- (firstn_skipn k (a_shape a)) in Ha. rewrite <- (firstn_skipn n (a_shape b)) in Hb.
  destruct (run_tfp_general lay Hlay a b _ _ _ _ _ _ Ha Hb Hp) as (r & w & E & Hr & Hw).
  exists r. split; auto. eapply ArrayFacts.holds_ext; [|exact Hr]. intros o Ho. specialize (Hw o Ho).
  unfold fixed_value. fold k.
  assert (Hk : length (firstn k (a_shape a)) = k) by (apply firstn_length_le; unfold k; lia).
  rewrite Hk in Hw.
  apply (dots_to_rel_n eq eq_relation lay (eq_fused lay Hlay) SR _
    (fun t => elem a (firstn k o ++ unflat (skipn k (a_shape a)) t))
    (fun t => elem b (unflat (firstn n (a_shape b)) t ++ skipn k o)) _ _ _ Hw). auto.
Qed.

End Fixed.
