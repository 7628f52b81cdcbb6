(** The singleton contractors compute Einstein sums of one operand. *)
From Verif Require Import Base BaseFacts NDArray Validation Strategies Singleton Path Spec
  ValidationFacts SumFacts ArrayFacts DiagFacts.
From Coq Require Import Lia.

(** ** Labelled arrays *)

Section Lrep.
Context {A : Type} {Sc : Scalar A}.
Variable size : char -> nat.

(** On a labelled array, [F] only matters through the labels. *)
Lemma lrep_bind (a : arr A) ls F e :
  NoDup ls -> lrep size a ls F -> in_range size ls e -> F (bind ls (map e ls)) = F e.
Proof.
  intros Hn (_ & _ & H) He.
  assert (E : map (bind ls (map e ls)) ls = map e ls) by (apply map_bind; auto; apply map_length).
  assert (H1 : a_get a (map (bind ls (map e ls)) ls) = Ok (F (bind ls (map e ls)))).
  { apply H. apply in_bounds_map. rewrite E. apply in_bounds_map; auto. }
  rewrite E, H in H1 by auto. congruence.
Qed.

Lemma lrep_transport (a r : arr A) ls F :
  NoDup ls -> lrep size a ls F ->
  holds r (map size ls) (fun idx => F (bind ls idx)) -> lrep size r ls F.
Proof.
  intros Hn H Hr. apply holds_lrep in Hr. eapply lrep_ext; [|exact Hr].
  intros e He. simpl. eapply lrep_bind; eauto.
Qed.

Lemma holds_is_wf (a : arr A) sh f : holds a sh f -> wf a.
Proof.
  intros (H1 & H2 & H3). apply wf_readable. rewrite H1. split; auto.
  intros idx Hi. eauto.
Qed.

Lemma lrep_is_wf (a : arr A) ls F : NoDup ls -> lrep size a ls F -> wf a.
Proof. intros Hn H. eapply holds_is_wf. apply (lrep_holds size a ls F); auto. Qed.

(** The array holds, at each position, a sum of the terms of [nested_sum size cs F]; when no label
    is summed, the one term itself. *)
Definition lsum (a : arr A) (ls cs : list char) (F : env -> A) : Prop :=
  exists G, lrep size a ls G
    /\ (forall e, in_range size ls e -> sums_to (terms size cs F e) (G e))
    /\ (cs = [] -> forall e, G e = F e).

Lemma lrep_lsum (a : arr A) ls F : lrep size a ls F -> lsum a ls [] F.
Proof. intros H. exists F. split; auto. split; auto. intros e _. constructor. Qed.

Lemma sum_axis_lsum lay (a : arr A) pre c post cs F :
  backend_runs lay -> NoDup (pre ++ c :: post) -> lsum a (pre ++ c :: post) cs F ->
  exists r, sum_axis lay a (length pre) = Ok r /\ lsum r (pre ++ post) (c :: cs) F.
Proof.
  intros Hlay Hn (G & H & HG & _). pose proof (lrep_holds size a _ G Hn H) as Hh.
  rewrite map_app in Hh. cbn [map] in Hh.
  destruct (sum_axis_holds lay Hlay a (map size pre) (size c) (map size post) _ Hh)
    as (r & g & E & Hr & Hg).
  rewrite map_length in E. exists r. split; auto.
  rewrite <- map_app in Hr. apply holds_lrep in Hr. eexists. split; [exact Hr|].
  split; [|discriminate]. intros e He. cbn beta. assert (Hc : ~ In c (pre ++ post)) by (apply NoDup_remove_2; auto).
  assert (Hu : forall i, i < size c -> in_range size (pre ++ c :: post) (upd e c i)).
  { intros i Hi d Hd. unfold upd. destruct (N.eqb_spec d c); [subst; auto|].
    apply He. apply in_app_iff in Hd as [Hd|[Hd|Hd]]; apply in_or_app; auto. congruence. }
  apply sums_to_terms with (g := G); [|intros i Hi; apply HG, Hu; auto].
  specialize (Hg (map e (pre ++ post))).
  erewrite map_ext_in; [exact Hg|]. intros i Hi. apply in_seq in Hi. cbn beta.
  assert (Ei : insert_nth (length (map size pre)) i (map e (pre ++ post))
               = map (upd e c i) (pre ++ c :: post)).
  { rewrite map_length, !map_app, <- (map_length e pre), insert_nth_app. cbn [map].
    rewrite upd_same. f_equal; [|f_equal]; apply map_ext_in; intros d Hd; symmetry;
      apply upd_other; intros ->; apply Hc, in_or_app; auto. }
  rewrite Ei. symmetry. eapply lrep_bind; eauto. apply Hu. lia.
Qed.

Lemma sum_axes_lsum lay F : backend_runs lay -> forall summed (a : arr A) out cs,
  NoDup (out ++ summed) -> lsum a (out ++ summed) cs F ->
  exists r, foldM (fun r ax => sum_axis lay r ax) (map (fun _ => length out) summed) a = Ok r
            /\ lsum r out (rev summed ++ cs) F.
Proof.
  intros Hlay. induction summed as [|c summed IH]; intros a out cs Hn H.
  - exists a. rewrite app_nil_r in H. auto.
  - destruct (sum_axis_lsum lay a out c summed cs F) as (r & E & Hr); auto.
    cbn [map foldM]. rewrite E. cbn [rbind].
    destruct (IH r out (c :: cs)) as (r' & E' & Hr''); auto.
    { apply NoDup_remove_1 in Hn. auto. }
    exists r'. split; auto. cbn [rev]. rewrite <- app_assoc. auto.
Qed.

(** Summing the trailing axes. *)
Lemma summation_lsum lay (a : arr A) out summed F orig :
  backend_runs lay -> NoDup (out ++ summed) -> summed <> [] -> lrep size a (out ++ summed) F ->
  exists r, summation_contract lay (mkSummation orig (map (fun _ => length out) (seq 0 (length summed)))) a = Ok r
            /\ lsum r out (rev summed) F.
Proof.
  intros Hlay Hn Hne H. destruct summed as [|c summed]; [contradiction|].
  destruct (sum_axes_lsum lay F Hlay (c :: summed) a out []) as (r & E & Hr); auto using lrep_lsum.
  rewrite app_nil_r in Hr.
  exists r. split; auto. unfold summation_contract. cbn [adjusted_axis_list length seq map skipn].
  unfold index. cbn [nth_error unwrap rbind]. rewrite <- seq_shift, map_map.
  rewrite <- E. cbn [map foldM].
  replace (map (fun _ => length out) (seq 0 (length summed))) with (map (fun _ => length out) summed).
  - reflexivity.
  - clear. induction summed as [|d s IH]; auto. cbn [map length seq].
    rewrite IH, <- seq_shift, map_map. reflexivity.
Qed.

(** Copying. *)
Lemma to_owned_lrep lay (a : arr A) ls F : backend_runs lay -> NoDup ls -> lrep size a ls F ->
  exists r, to_owned lay a = Ok r /\ lrep size r ls F.
Proof.
  intros Hlay Hn H. destruct (to_owned_holds lay Hlay a _ _ (lrep_holds size a ls F Hn H)) as (r & E & Hr).
  exists r. split; auto. eapply lrep_transport; eauto.
Qed.

Lemma into_owned_lrep lay (a : arr A) ls F : backend_runs lay -> NoDup ls -> lrep size a ls F ->
  exists r, into_owned lay a = Ok r /\ lrep size r ls F.
Proof.
  intros Hlay Hn H. destruct (into_owned_holds lay Hlay a _ _ (lrep_holds size a ls F Hn H)) as (r & E & Hr).
  exists r. split; auto. eapply lrep_transport; eauto.
Qed.

End Lrep.

(** ** Positions *)

Lemma positions_ok L input : incl L input ->
  exists axes, mapM (fun o => unwrap (position o input)) L = Ok axes
               /\ Forall2 (fun o k => position o input = Some k) L axes.
Proof.
  induction L as [|c L IH]; intros Hi.
  - exists []. auto.
  - destruct IH as (axes & E & HF); [intros d Hd; apply Hi; simpl; auto|].
    destruct (position_In c input) as (n & En); [apply Hi; simpl; auto|].
    exists (n :: axes). cbn [mapM]. rewrite En. cbn [unwrap rbind]. rewrite E. auto.
Qed.

Lemma combine_seq_nth {T} (l : list T) : forall k i x,
  In (i, x) (combine (seq k (length l)) l) -> k <= i /\ nth_error l (i - k) = Some x.
Proof.
  induction l as [|y l IH]; intros k i x H; cbn [length seq combine] in H; [contradiction|].
  destruct H as [H|H].
  - injection H as <- <-. rewrite Nat.sub_diag. auto.
  - apply IH in H as [H1 H2]. split; [lia|].
    replace (i - k) with (Datatypes.S (i - Datatypes.S k)) by lia. auto.
Qed.

Lemma filter_positions (P : char -> bool) input : NoDup input ->
  Forall2 (fun o k => position o input = Some k) (filter P input)
    (map fst (filter (fun ic => P (snd ic)) (combine (seq 0 (length input)) input))).
Proof.
  intros Hn.
  assert (Hall : forall i x, In (i, x) (combine (seq 0 (length input)) input) ->
                   position x input = Some i).
  { intros i x Hi. apply combine_seq_nth in Hi as [_ Hi]. rewrite Nat.sub_0_r in Hi.
    assert (Hlt : i < length input) by (apply nth_error_Some; congruence).
    rewrite (nth_error_nth' input x Hlt) in Hi. injection Hi as Hi.
    rewrite <- Hi at 1. apply position_nth_NoDup; auto. }
  assert (Hs : map snd (combine (seq 0 (length input)) input) = input).
  { generalize 0. clear. induction input as [|c l IH]; intros k; simpl; f_equal; auto. }
  rewrite <- Hs at 1. revert Hall. generalize (combine (seq 0 (length input)) input).
  intros l Hall. clear Hs. induction l as [|[i x] l IH]; simpl; auto.
  destruct (P x); simpl; [constructor|]; try (apply IH; intros; apply Hall; simpl; auto).
  apply Hall. simpl; auto.
Qed.

Lemma filter_not_in_perm out this : NoDup out -> NoDup this -> incl out this ->
  Permutation (out ++ filter (fun c => negb (mem c out)) this) this.
Proof.
  intros Ho Ht Hi. apply NoDup_Permutation.
  - apply NoDup_app_intro; auto.
    + apply NoDup_filter; auto.
    + intros c Hc. rewrite filter_In. intros [_ H]. apply negb_true_iff, mem_false in H. auto.
  - auto.
  - intros c. rewrite in_app_iff, filter_In, negb_true_iff, mem_false. split.
    + intros [H|[H _]]; auto.
    + intros H. destruct (in_dec N.eq_dec c out); auto.
Qed.

Lemma position_app_l c l l' n : position c l = Some n -> position c (l ++ l') = Some n.
Proof.
  revert n; induction l as [|x l IH]; simpl; intros n H; [discriminate|].
  destruct (N.eqb x c); auto. destruct (position c l); simpl in *; [|discriminate].
  rewrite (IH n0); auto.
Qed.

Lemma position_app_new c l l' : ~ In c l -> position c (l ++ c :: l') = Some (length l).
Proof.
  induction l as [|x l IH]; simpl; intros H.
  - rewrite N.eqb_refl. auto.
  - destruct (N.eqb_spec x c); [subst; tauto|]. rewrite IH by tauto. auto.
Qed.

Lemma diag_mapping_ok input : forall adj,
  exists ex m, diag_mapping adj input = (adj ++ ex, m)
    /\ (NoDup adj -> NoDup (adj ++ ex))
    /\ (forall c, In c ex <-> In c input /\ ~ In c adj)
    /\ Forall2 (fun c p => position c (adj ++ ex) = Some p) input m.
Proof.
  induction input as [|c input IH]; intros adj.
  - exists [], []. rewrite app_nil_r. simpl. intuition.
  - simpl. destruct (position c adj) as [p|] eqn:E.
    + destruct (IH adj) as (ex & m & E1 & H1 & H2 & H3). rewrite E1.
      exists ex, (p :: m). split; auto. split; auto. split.
      * intros d. rewrite H2. apply position_Some_In in E. split; [tauto|].
        intros [[->|H] Hn]; tauto.
      * constructor; auto. apply position_app_l; auto.
    + apply position_None in E.
      destruct (IH (adj ++ [c])) as (ex & m & E1 & H1 & H2 & H3). rewrite E1.
      exists (c :: ex), (length adj :: m). rewrite <- app_assoc in *. simpl in *.
      split; [auto|]. split; [|split].
      * intros Hn. apply H1. apply NoDup_app_intro; auto.
        { repeat constructor; auto. }
        { intros d Hd [->|[]]; auto. }
      * intros d. rewrite H2, in_app_iff. simpl. split.
        { intros [->|[H Hn]]; [auto|]. tauto. }
        { intros [[->|H] Hn]; [auto|].
          destruct (N.eq_dec c d) as [->|]; [auto|]. right. split; auto. tauto. }
      * constructor; auto. apply position_app_new; auto.
Qed.

(** Sizes of labels. *)
Lemma size_of_ok sc ops out size c :
  sized sc ops out size -> In c (concat ops) -> size_of (sc_output_size sc) c = Ok (size c).
Proof.
  intros (_ & _ & H) Hc. unfold size_of. rewrite (H c), (proj2 (mem_In _ _) Hc). auto.
Qed.

Lemma sizes_ok sc ops out size L :
  sized sc ops out size -> incl L (concat ops) ->
  mapM (size_of (sc_output_size sc)) L = Ok (map size L).
Proof.
  intros H Hi. apply mapM_ok. intros c Hc. eapply size_of_ok; eauto.
Qed.

(** ** Constructors *)

Section New.
Variables (sc : sized_contraction) (this out : list char) (size : char -> nat).
Hypothesis HS : sized sc [this] out size.

Lemma sc_op : operand_indices (sc_contraction sc) = [this].
Proof. destruct HS as (-> & _). auto. Qed.

Lemma sc_out : output_indices (sc_contraction sc) = out.
Proof. destruct HS as (-> & _). auto. Qed.

Lemma out_NoDup : NoDup out.
Proof. destruct HS as (_ & [H _] & _). auto. Qed.

Lemma out_incl : incl out this.
Proof. destruct HS as (_ & [_ H] & _). simpl in H. rewrite app_nil_r in H. auto. Qed.

Lemma permutation_new_ok : NoDup this -> length out = length this ->
  exists axes, permutation_new sc = Ok axes
    /\ Permutation out this
    /\ Forall2 (fun o k => position o this = Some k) out axes.
Proof.
  intros Hn Hl. unfold permutation_new. rewrite sc_op, sc_out. cbn [length Nat.eqb rassert rbind].
  unfold index. cbn [nth_error unwrap rbind].
  rewrite Hl, Nat.eqb_refl. cbn [rassert rbind].
  destruct (positions_ok out this out_incl) as (axes & E & HF).
  exists axes. split; auto. split; auto.
  apply NoDup_Permutation_bis; auto using out_NoDup, out_incl. lia.
Qed.

Lemma summation_new_ok : length out < length this ->
  summation_new sc
  = Ok (mkSummation (seq (length out) (length this - length out))
          (map (fun _ => length out) (seq 0 (length this - length out)))).
Proof.
  intros Hl. unfold summation_new. rewrite sc_op, sc_out. unfold index. cbn [nth_error unwrap rbind].
  rewrite usub_ok by lia. cbn [rbind]. unfold summation_from_sizes.
  rewrite rassert_true by (apply Nat.leb_le; lia). auto.
Qed.

Lemma perm_and_sum_new_ok : NoDup this -> length out < length this ->
  exists axes, perm_and_sum_new sc
    = Ok (axes, mkSummation (seq (length out) (length this - length out))
                  (map (fun _ => length out) (seq 0 (length this - length out))))
    /\ Forall2 (fun o k => position o this = Some k)
         (out ++ filter (fun c => negb (mem c out)) this) axes.
Proof.
  intros Hn Hl. unfold perm_and_sum_new. rewrite summation_new_ok by auto.
  rewrite sc_op, sc_out. unfold index. cbn [nth_error unwrap rbind].
  destruct (positions_ok out this out_incl) as (axes & E & HF). rewrite E. cbn [rbind].
  eexists. split; [reflexivity|]. apply Forall2_app; auto.
  rewrite (filter_ext _ (fun ic => negb (mem (snd ic) out))).
  - apply (filter_positions (fun c => negb (mem c out)) this Hn).
  - intros [i c]. cbn [snd]. destruct (position c out) eqn:Ep.
    + apply position_Some_In, mem_In in Ep. rewrite Ep. auto.
    + apply position_None, mem_false in Ep. rewrite Ep. auto.
Qed.

Lemma diagonalization_new_ok :
  exists ex m, diagonalization_new sc = Ok (mkDiag m (map size (out ++ ex)))
    /\ NoDup (out ++ ex)
    /\ (forall c, In c ex <-> In c this /\ ~ In c out)
    /\ Forall2 (fun c p => position c (out ++ ex) = Some p) this m.
Proof.
  unfold diagonalization_new. rewrite sc_op, sc_out. cbn [length Nat.eqb rassert rbind].
  unfold index. cbn [nth_error unwrap rbind].
  destruct (diag_mapping_ok this out) as (ex & m & E & H1 & H2 & H3). rewrite E.
  exists ex, m. rewrite (sizes_ok sc [this] out size); auto.
  - split; auto. split; auto. apply H1. apply out_NoDup.
  - simpl. rewrite app_nil_r. intros c Hc. apply in_app_iff in Hc as [Hc|Hc].
    + apply out_incl; auto.
    + apply H2 in Hc. tauto.
Qed.

Lemma diag_and_sum_new_ok : (exists c, In c this /\ ~ In c out) ->
  exists ex m, ex <> []
    /\ diag_and_sum_new sc
       = Ok (mkDiag m (map size (out ++ ex)),
             mkSummation (seq (length out) (length ex)) (map (fun _ => length out) (seq 0 (length ex))))
    /\ NoDup (out ++ ex)
    /\ (forall c, In c ex <-> In c this /\ ~ In c out)
    /\ Forall2 (fun c p => position c (out ++ ex) = Some p) this m.
Proof.
  intros (c & Hc). destruct diagonalization_new_ok as (ex & m & E & H1 & H2 & H3).
  exists ex, m. assert (Hex : ex <> []) by (intros ->; apply H2 in Hc; auto).
  split; auto. split; auto.
  unfold diag_and_sum_new. rewrite E, sc_out. cbn [rbind diag_output_shape].
  rewrite map_length, app_length. rewrite usub_ok by lia. cbn [rbind].
  unfold summation_from_sizes. replace (length out + length ex - length out) with (length ex) by lia.
  destruct ex; [contradiction|]. auto.
Qed.

(** ** Execution *)

Context {A : Type} {Sc : Scalar A}.
Variable lay : backend A.
Hypothesis Hlay : backend_runs lay.

(** A fresh row-major copy is contiguous with positive strides. *)
Lemma cloned_lrep (a : arr A) F :
  wf a -> lrep size a this F -> (forall c, In c this -> size c <> 0) ->
  exists l cl, a_iter a = Ok l /\ from_shape_vec (a_shape a) l = Ok cl /\ lrep size cl this F
    /\ is_contiguous cl = true /\ Forall (fun s => 0 < s)%Z (a_strides cl).
Proof.
  intros Hw (H1 & H2 & H3) Hne. pose proof (wf_holds a Hw) as Hh. rewrite H1 in *.
  rewrite (holds_iter _ _ _ Hh). do 2 eexists. split; [reflexivity|].
  rewrite from_shape_vec_ok by auto. split; [reflexivity|].
  pose proof (holds_mk_c (map size this) (elem a)) as Hc.
  split; [|split].
  - apply holds_lrep in Hc. eapply lrep_ext; [|exact Hc].
    intros e He. cbn beta. unfold elem. rewrite H3; auto.
  - unfold is_contiguous, mk_c. cbn [a_strides a_shape].
    rewrite (proj2 (list_Z_eqb_eq _ _) eq_refl). auto.
  - unfold mk_c, default_strides. cbn [a_strides]. rewrite is_empty_labels by auto.
    clear - Hne. induction this as [|c l IH]; cbn [map c_strides]; constructor.
    + assert (prod (map size l) <> 0); [|lia].
      assert (Hl : forall c, In c l -> size c <> 0) by (intros; apply Hne; simpl; auto).
      pose proof (is_empty_labels size l Hl) as He.
      intros H0. apply is_empty_prod in H0. congruence.
    + apply IH. intros; apply Hne; simpl; auto.
Qed.

Lemma diagonalization_contract_lrep (a : arr A) F L m :
  wf a -> lrep size a this F -> (forall c, In c this -> size c <> 0) ->
  NoDup L -> (forall c, In c L <-> In c this) ->
  Forall2 (fun c p => position c L = Some p) this m ->
  exists r, diagonalization_contract lay (mkDiag m (map size L)) a = Ok r /\ lrep size r L F.
Proof.
  intros Hw H Hne HL HLt HF. unfold diagonalization_contract.
  destruct (cloned_lrep a F Hw H Hne) as (l & cl & E1 & E2 & Hcl & Hct & Hpos).
  rewrite E1. cbn [rbind]. rewrite E2. cbn [rbind].
  destruct (diagonalization_view_lrep size cl this L m F) as (v & E3 & Hv); auto.
  rewrite E3. cbn [rbind]. apply into_owned_lrep; auto.
Qed.

Lemma diag_and_sum_contract_lrep (a : arr A) F ex m orig :
  wf a -> lrep size a this F -> (forall c, In c this -> size c <> 0) ->
  ex <> [] -> NoDup (out ++ ex) -> (forall c, In c ex <-> In c this /\ ~ In c out) ->
  Forall2 (fun c p => position c (out ++ ex) = Some p) this m ->
  exists r, diag_and_sum_contract lay (mkDiag m (map size (out ++ ex)))
              (mkSummation orig (map (fun _ => length out) (seq 0 (length ex)))) a = Ok r
            /\ lsum size r out (rev ex) F.
Proof.
  intros Hw H Hne Hex Hn Hin HF.
  assert (HL : forall c, In c (out ++ ex) <-> In c this).
  { intros c. rewrite in_app_iff, Hin. pose proof (out_incl c).
    destruct (in_dec N.eq_dec c out); tauto. }
  unfold diag_and_sum_contract.
  assert (Hv : exists v, (if match as_slice_memory_order a with Some _ => true | None => false end
      && forallb (fun st => Z.ltb 0 st) (a_strides a)
    then diagonalization_view (mkDiag m (map size (out ++ ex))) a
    else diagonalization_contract lay (mkDiag m (map size (out ++ ex))) a) = Ok v
    /\ lrep size v (out ++ ex) F).
  { destruct (_ && _) eqn:E.
    - apply andb_true_iff in E as [E1 E2].
      apply (diagonalization_view_lrep size a this (out ++ ex) m F); auto.
      + unfold as_slice_memory_order in E1. destruct (is_contiguous a); auto.
      + apply Forall_forall. rewrite forallb_forall in E2. intros s Hs. apply Z.ltb_lt; auto.
    - apply diagonalization_contract_lrep; auto. }
  destruct Hv as (v & -> & Hv). cbn [rbind]. apply summation_lsum; auto.
Qed.

(** The labels that are summed. *)
Definition summed1 : list char := filter (fun c => negb (mem c out)) (distinct this).

Lemma summed1_In c : In c summed1 <-> In c this /\ ~ In c out.
Proof. unfold summed1. rewrite filter_In, distinct_In, negb_true_iff, mem_false. tauto. Qed.

Lemma summed1_perm ex : NoDup ex -> (forall c, In c ex <-> In c this /\ ~ In c out) ->
  Permutation ex summed1.
Proof.
  intros Hn H. apply NoDup_Permutation; auto.
  - apply NoDup_filter, distinct_NoDup.
  - intros c. rewrite H, summed1_In. tauto.
Qed.

Lemma reordered_zero : length out <= length this ->
  length (filter (fun oi => negb (N.eqb (fst oi) (snd oi))) (combine out this)) = 0 ->
  exists rest, this = out ++ rest.
Proof.
  clear HS. revert this. induction out as [|c o IH]; intros t Hl H.
  - exists t. auto.
  - destruct t as [|d t]; simpl in *; [lia|].
    destruct (N.eqb_spec c d); simpl in H; [|lia]. subst.
    destruct (IH t) as (rest & ->); auto; [lia|]. exists rest. auto.
Qed.

Lemma diagonalized_zero :
  length (filter (fun c => Nat.ltb 1 (count c this)) (distinct this)) = 0 <-> NoDup this.
Proof.
  rewrite length_zero_iff_nil, count_NoDup. split.
  - intros H c. destruct (Nat.ltb 1 (count c this)) eqn:E; [|apply Nat.ltb_ge in E; auto].
    assert (Hc : In c (filter (fun c => Nat.ltb 1 (count c this)) (distinct this))).
    { apply filter_In. split; auto. apply distinct_In, count_In. apply Nat.ltb_lt in E. lia. }
    rewrite H in Hc. contradiction.
  - intros H. destruct (filter _ _) as [|c l] eqn:E; auto.
    assert (Hc : In c (c :: l)) by (simpl; auto). rewrite <- E in Hc.
    apply filter_In in Hc as [_ Hc]. apply Nat.ltb_lt in Hc. specialize (H c). lia.
Qed.

(** What the chosen contractor does: the right sums, or a panic on exactly the [blocked]
    operands. *)
Definition singleton_computes (op : singleton_op) : Prop :=
  forall (a : arr A) F, wf a -> lrep size a this F ->
    (run_singleton lay op a = Panic /\ blocked size a this out)
    \/ (~ blocked size a this out
        /\ exists r cs, run_singleton lay op a = Ok r
             /\ Permutation cs summed1 /\ lsum size r out cs F).

Lemma size_dec : (forall c, In c this -> size c <> 0) \/ exists c, In c this /\ size c = 0.
Proof.
  clear HS. induction this as [|c l IH]; [left; simpl; tauto|].
  destruct (Nat.eq_dec (size c) 0); [right; exists c; simpl; auto|].
  destruct IH as [IH|(d & H1 & H2)]; [left|right; exists d; simpl; auto].
  intros d [<-|Hd]; auto.
Qed.

Lemma empty_shape_labels l : (exists c, In c l /\ size c = 0) -> is_empty_shape (map size l) = true.
Proof.
  intros (c & Hc & H0). unfold is_empty_shape. apply existsb_exists. exists 0. split; auto.
  rewrite <- H0. apply in_map; auto.
Qed.

(** Copying an empty array gives zero strides, which the diagonal rejects. *)
Lemma diagonalization_contract_empty (a : arr A) F d :
  wf a -> lrep size a this F -> (exists c, In c this /\ size c = 0) ->
  diagonalization_contract lay d a = Panic.
Proof.
  intros Hw (H1 & H2 & H3) He. unfold diagonalization_contract.
  pose proof (wf_holds a Hw) as Hh. rewrite H1 in *. rewrite (holds_iter _ _ _ Hh). cbn [rbind].
  rewrite from_shape_vec_ok by auto. cbn [rbind]. unfold diagonalization_view, mk_c.
  cbn [a_strides a_shape]. unfold default_strides. rewrite empty_shape_labels by auto.
  destruct He as (c & Hc & _). destruct this as [|c0 l]; [contradiction|]. reflexivity.
Qed.

Lemma lrep_empty (v : arr A) L F : a_shape v = map size L -> length (a_strides v) = length L ->
  (exists c, In c L /\ size c = 0) -> lrep size v L F.
Proof.
  intros H1 H2 (c & Hc & H0). split; auto. split; auto. intros e He. specialize (He c Hc). lia.
Qed.

Lemma max_offset_label_strides T L : (forall c, In c L -> 0 <= label_stride T c)%Z ->
  (0 <= max_abs_offset (map size L) (map (label_stride T) L))%Z
  /\ ((forall c, In c L -> 0 < label_stride T c)%Z ->
      (max_abs_offset (map size L) (map (label_stride T) L) = 0%Z <-> forall c, In c L -> size c <= 1)).
Proof.
  clear HS. induction L as [|c L IH]; intros H; cbn [map max_abs_offset].
  - split; [lia|]. split; auto. intros _ c [].
  - destruct IH as [I1 I2]; [intros d Hd; apply H; simpl; auto|].
    assert (Hc : (0 <= label_stride T c)%Z) by (apply H; simpl; auto).
    rewrite Z.abs_eq by auto. split; [nia|].
    intros Hpos. assert (Hcp : (0 < label_stride T c)%Z) by (apply Hpos; simpl; auto).
    destruct I2 as [I2 I3]; [intros d Hd; apply Hpos; simpl; auto|].
    split.
    + intros E d [<-|Hd].
      * assert (Z.of_nat (Nat.pred (size c)) = 0%Z) by nia. lia.
      * apply I2; auto. nia.
    + intros E. rewrite I3 by (intros d Hd; apply E; simpl; auto).
      assert (size c <= 1) by (apply E; simpl; auto). replace (Nat.pred (size c)) with 0 by lia. lia.
Qed.

Lemma positive_combine t strides : Forall (fun s => 0 < s)%Z strides -> positive (combine t strides).
Proof.
  clear HS. intros H. revert t. induction H as [|s strides Hs H IH]; intros [|c t]; simpl; constructor; auto.
  apply IH.
Qed.

(** Viewing the diagonal of an empty array with positive strides succeeds when no axis is
    longer than one, and panics otherwise. *)
Lemma diagonalization_view_empty (a : arr A) F L m :
  lrep size a this F -> (exists c, In c this /\ size c = 0) ->
  is_contiguous a = true -> Forall (fun s => 0 < s)%Z (a_strides a) ->
  NoDup L -> (forall c, In c L <-> In c this) ->
  Forall2 (fun c p => position c L = Some p) this m ->
  (diagonalization_view (mkDiag m (map size L)) a = Panic /\ ~ (forall c, In c this -> size c <= 1))
  \/ ((forall c, In c this -> size c <= 1)
      /\ exists v, diagonalization_view (mkDiag m (map size L)) a = Ok v /\ lrep size v L F).
Proof.
  intros (H1 & H2 & H3) He Hct Hpos HL HLt HF.
  assert (HeL : exists c, In c L /\ size c = 0).
  { destruct He as (c & Hc & H0). exists c. split; auto. apply HLt; auto. }
  unfold diagonalization_view. cbn [input_to_output_mapping diag_output_shape]. rewrite map_map.
  rewrite (add_strides_ok m L HL this (a_strides a) 0 (fun _ => 0%Z) m) by auto.
  cbn [rbind]. unfold as_slice_memory_order. rewrite Hct. cbn [unwrap rbind].
  set (T := combine this (a_strides a)).
  assert (PT : positive T) by (apply positive_combine; auto).
  rewrite (map_ext (fun c => 0 + label_stride T c)%Z (label_stride T)) by (intros; lia).
  unfold view_from_shape. rewrite empty_shape_labels by auto.
  rewrite firstn_length, H1.
  replace (prod (map size this)) with 0
    by (symmetry; apply is_empty_prod; apply empty_shape_labels; auto).
  cbn [Nat.min].
  assert (Hlab : map lab T = this) by (apply labels_combine; auto).
  destruct (max_offset_label_strides T L) as [Hm0 Hm1].
  { intros c Hc. apply label_stride_nonneg; auto. }
  destruct Hm1 as [Hm1 Hm2].
  { intros c Hc. apply label_stride_in; auto. rewrite Hlab. apply HLt; auto. }
  destruct (Z.ltb_spec (Z.of_nat 0) (max_abs_offset (map size L) (map (label_stride T) L))) as [Hlt|Hlt].
  - left. split; auto. intros Hs. rewrite Hm2 in Hlt; [lia|]. intros c Hc. apply Hs, HLt; auto.
  - right. split.
    + intros c Hc. apply Hm1; [lia|]. apply HLt; auto.
    + eexists. split; [reflexivity|]. apply lrep_empty; auto. cbn [a_strides]. rewrite map_length. auto.
Qed.

Lemma diag_and_sum_empty (a : arr A) F ex m orig :
  ~ NoDup this -> wf a -> lrep size a this F -> (exists c, In c this /\ size c = 0) ->
  ex <> [] -> NoDup (out ++ ex) -> (forall c, In c ex <-> In c this /\ ~ In c out) ->
  Forall2 (fun c p => position c (out ++ ex) = Some p) this m ->
  let op := diag_and_sum_contract lay (mkDiag m (map size (out ++ ex)))
              (mkSummation orig (map (fun _ => length out) (seq 0 (length ex)))) a in
  (op = Panic /\ blocked size a this out)
  \/ (~ blocked size a this out /\ exists r, op = Ok r /\ lsum size r out (rev ex) F).
Proof.
  intros Hnd Hw H He Hex Hn Hin HF op.
  assert (HL : forall c, In c (out ++ ex) <-> In c this).
  { intros c. rewrite in_app_iff, Hin. pose proof (out_incl c).
    destruct (in_dec N.eq_dec c out); tauto. }
  unfold op, diag_and_sum_contract.
  destruct (_ && _) eqn:E.
  - apply andb_true_iff in E as [E1 E2].
    assert (Hpos : Forall (fun s => 0 < s)%Z (a_strides a)).
    { apply Forall_forall. rewrite forallb_forall in E2. intros s Hs. apply Z.ltb_lt; auto. }
    assert (Hct : is_contiguous a = true).
    { unfold as_slice_memory_order in E1. destruct (is_contiguous a); auto. }
    destruct (diagonalization_view_empty a F (out ++ ex) m) as [[-> Hs]|[Hs (v & -> & Hv)]]; auto.
    + left. split; auto. split; auto. split; auto. tauto.
    + right. split; [|cbn [rbind]; apply summation_lsum; auto].
      intros (_ & _ & Hb). apply Hb. split; auto. split; auto. split; auto.
      destruct ex as [|c ex]; [contradiction|]. exists c. apply Hin. simpl; auto.
  - rewrite (diagonalization_contract_empty a F) by auto. left. split; auto. split; auto. split; auto.
    intros (Hct & Hpos & _). unfold as_slice_memory_order in E. rewrite Hct in E. cbn [andb] in E.
    assert (forallb (fun st => Z.ltb 0 st) (a_strides a) = true); [|congruence].
    apply forallb_forall. rewrite Forall_forall in Hpos. intros s Hs. apply Z.ltb_lt; auto.
Qed.

Lemma no_summed_nil : length (distinct this) = length out -> summed1 = [].
Proof.
  intros H. destruct summed1 as [|c l] eqn:E; auto. exfalso.
  assert (Hc : In c summed1) by (rewrite E; simpl; auto). apply summed1_In in Hc as [H1 H2].
  assert (Hn : NoDup (c :: out)) by (constructor; auto using out_NoDup).
  assert (Hi : incl (c :: out) this) by (intros d [->|Hd]; auto; apply out_incl; auto).
  apply incl_length_NoDup in Hi; auto. simpl in Hi. lia.
Qed.

Lemma some_summed : length out < length (distinct this) -> exists c, In c this /\ ~ In c out.
Proof.
  intros H. destruct summed1 as [|c l] eqn:E.
  - exfalso. assert (Hi : incl (distinct this) out).
    { intros c Hc. apply (distinct_In c this) in Hc. destruct (in_dec N.eq_dec c out) as [|Hn]; auto.
      assert (Hs : In c summed1) by (apply summed1_In; auto). rewrite E in Hs. contradiction. }
    apply NoDup_incl_length in Hi; [lia|]. apply distinct_NoDup.
  - exists c. apply summed1_In. rewrite E. simpl; auto.
Qed.

Lemma out_length_le : length out <= length (distinct this).
Proof. apply incl_length_NoDup; auto using out_NoDup, out_incl. Qed.

Theorem singleton_contraction_ok :
  exists c, singleton_contraction_new sc = Ok c
    /\ singleton_computes (sgl_op c)
    /\ (sgl_method c = MIdentity \/ sgl_method c = MPermutation -> NoDup this /\ Permutation out this).
Proof.
  unfold singleton_contraction_new, singleton_summary_new.
  rewrite sc_op, sc_out. cbn [length Nat.eqb rassert rbind]. unfold index. cbn [nth_error unwrap rbind].
  unfold singleton_summary_from_indices. pose proof out_length_le as Hle.
  rewrite usub_ok by auto. cbn [rbind]. unfold singleton_strategy.
  cbn [num_summed_axes num_diagonalized_axes num_reordered_axes].
  pose proof (distinct_length_le this) as Hd.
  destruct (length (filter (fun c => Nat.ltb 1 (count c this)) (distinct this))) as [|nd] eqn:End.
  - (* no diagonal *)
    pose proof (proj1 diagonalized_zero End) as Hn.
    rewrite distinct_fixed in * by auto.
    destruct (length this - length out) as [|ns] eqn:Ens.
    + assert (Hl : length out = length this) by lia.
      assert (Es : summed1 = []) by (apply no_summed_nil; rewrite distinct_fixed by auto; lia).
      destruct (length (filter (fun oi => negb (N.eqb (fst oi) (snd oi))) (combine out this))) as [|nr] eqn:Enr.
      * (* identity *)
        destruct (reordered_zero) as (rest & Er); [lia|auto|].
        assert (rest = []).
        { destruct rest; auto. rewrite Er, app_length in Hl. simpl in Hl. lia. }
        subst rest. rewrite app_nil_r in Er. cbn [singleton_op_new rbind].
        eexists. split; [reflexivity|]. split.
        -- intros a F Hw H. right. split; [intros [Hx _]; contradiction|]. cbn [sgl_op run_singleton]. rewrite Er in H.
           destruct (to_owned_lrep size lay a out F) as (r & E & Hr); auto using out_NoDup.
           exists r, []. rewrite Es. auto using lrep_lsum.
        -- intros _. split; auto. rewrite <- Er. auto.
      * (* permutation *)
        cbn [singleton_op_new]. destruct permutation_new_ok as (axes & E & Hp & HF); auto.
        rewrite E. cbn [rbind]. eexists. split; [reflexivity|]. split; [|auto].
        intros a F Hw H. right. split; [intros [Hx _]; contradiction|]. cbn [sgl_op run_singleton]. unfold permutation_contract.
        destruct (permuted_lrep size a this out F axes) as (v & Ev & Hv); auto.
        rewrite Ev. cbn [rbind].
        destruct (to_owned_lrep size lay v out F) as (r & Er & Hr); auto using out_NoDup.
        exists r, []. rewrite Es. auto using lrep_lsum.
    + assert (Hl : length out < length this) by lia.
      destruct (length (filter (fun oi => negb (N.eqb (fst oi) (snd oi))) (combine out this))) as [|nr] eqn:Enr.
      * (* summation *)
        cbn [singleton_op_new]. rewrite summation_new_ok by auto. cbn [rbind].
        eexists. split; [reflexivity|]. split; [|intros [H|H]; discriminate H].
        intros a F Hw H. right. split; [intros [Hx _]; contradiction|]. cbn [sgl_op run_singleton].
        destruct (reordered_zero) as (rest & Er); [lia|auto|].
        assert (Hrest : length this - length out = length rest) by (rewrite Er, app_length; lia).
        rewrite Hrest. rewrite Er in H. pose proof Hn as Hn'. rewrite Er in Hn'.
        destruct (summation_lsum size lay a out rest F (seq (length out) (length rest)))
          as (r & Ers & Hr); auto.
        { intros ->. simpl in Hrest. lia. }
        exists r, (rev rest). split; auto. split; auto.
        apply Permutation_trans with rest; [apply Permutation_sym, Permutation_rev|].
        apply summed1_perm.
        { apply NoDup_app_remove_l in Hn'. auto. }
        { intros c. rewrite Er, in_app_iff. split.
          - intros Hc. split; auto. intros Ho.
            clear - Hn' Hc Ho. induction out as [|d o IH]; [contradiction|].
            simpl in Hn'. inversion Hn'; subst. destruct Ho as [->|Ho]; auto.
            apply H1, in_or_app; auto.
          - tauto. }
      * (* permutation and summation *)
        cbn [singleton_op_new]. destruct perm_and_sum_new_ok as (axes & E & HF); auto.
        rewrite E. cbn [rbind fst snd].
        eexists. split; [reflexivity|]. split; [|intros [H|H]; discriminate H].
        intros a F Hw H. right. split; [intros [Hx _]; contradiction|]. cbn [sgl_op run_singleton]. unfold permutation_view.
        set (rest := filter (fun c => negb (mem c out)) this) in *.
        assert (Hp : Permutation (out ++ rest) this).
        { apply filter_not_in_perm; auto using out_NoDup, out_incl. }
        destruct (permuted_lrep size a this (out ++ rest) F axes) as (v & Ev & Hv); auto.
        rewrite Ev. cbn [rbind].
        assert (Hrest : length this - length out = length rest).
        { rewrite <- (Permutation_length Hp), app_length. lia. }
        rewrite Hrest.
        destruct (summation_lsum size lay v out rest F (seq (length out) (length rest)))
          as (r & Ers & Hr); auto.
        { eapply Permutation_NoDup; [apply Permutation_sym|]; eauto. }
        { intros E0. rewrite E0 in Hrest. simpl in Hrest. lia. }
        exists r, (rev rest). split; auto. split; auto.
        apply Permutation_trans with rest; [apply Permutation_sym, Permutation_rev|].
        unfold summed1. rewrite distinct_fixed by auto. auto.
  - (* diagonal *)
    assert (Hn : ~ NoDup this) by (intros Hn; apply diagonalized_zero in Hn; congruence).
    assert (Hmeth : forall x y, (x = MDiagonalization \/ x = MDiagonalizationAndSummation) ->
              (y : Prop) -> (x = MIdentity \/ x = MPermutation -> y)) by (intros; auto).
    destruct (length (distinct this) - length out) as [|ns] eqn:Ens.
    + (* diagonalization *)
      cbn [singleton_op_new].
      destruct diagonalization_new_ok as (ex & m & E & H1 & H2 & H3).
      rewrite E. cbn [rbind]. eexists. split; [reflexivity|].
      split; [|intros [H|H]; discriminate H].
      assert (Es : summed1 = []) by (apply no_summed_nil; lia).
      intros a F Hw H. cbn [sgl_op run_singleton].
      destruct size_dec as [Hne|He].
      2:{ rewrite (diagonalization_contract_empty a F) by auto. left. split; auto. split; auto. split; auto.
          intros (_ & _ & _ & c & Hc). apply summed1_In in Hc. rewrite Es in Hc. contradiction. }
      right. split; [intros [_ [(c & Hc1 & Hc2) _]]; eapply Hne; eauto|].
      assert (Hex : ex = []).
      { destruct ex as [|c ex]; auto. assert (Hc : In c summed1) by (apply summed1_In, H2; simpl; auto).
        rewrite Es in Hc. contradiction. }
      subst ex. rewrite app_nil_r in *.
      destruct (diagonalization_contract_lrep a F out m) as (r & Er & Hr); auto.
      { intros c. split; [apply out_incl|]. intros Hc.
        destruct (in_dec N.eq_dec c out); auto. exfalso. apply (H2 c). auto. }
      exists r, []. rewrite Es. auto using lrep_lsum.
    + (* diagonalization and summation *)
      cbn [singleton_op_new].
      destruct diag_and_sum_new_ok as (ex & m & Hex & E & H1 & H2 & H3).
      { apply some_summed. lia. }
      rewrite E. cbn [rbind fst snd]. eexists. split; [reflexivity|].
      split; [|intros [H|H]; discriminate H].
      assert (Hp : Permutation (rev ex) summed1).
      { apply Permutation_trans with ex; [apply Permutation_sym, Permutation_rev|].
        apply summed1_perm; auto. apply NoDup_app_remove_l in H1. auto. }
      intros a F Hw H. cbn [sgl_op run_singleton].
      destruct size_dec as [Hne|He].
      2:{ destruct (diag_and_sum_empty a F ex m (seq (length out) (length ex))) as [H4|[H4 (r & H5 & Hr)]]; auto.
          right. split; auto. exists r, (rev ex). auto. }
      right. split; [intros [_ [(c & Hc1 & Hc2) _]]; eapply Hne; eauto|].
      destruct (diag_and_sum_contract_lrep a F ex m (seq (length out) (length ex)))
        as (r & Er & Hr); auto.
      exists r, (rev ex). auto.
Qed.

End New.
