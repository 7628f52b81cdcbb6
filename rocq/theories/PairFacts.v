(** The pair contractors compute Einstein sums of two operands. *)
From Verif Require Import Base BaseFacts NDArray Validation Strategies Singleton Pair Path Spec
  ValidationFacts SumFacts ArrayFacts TensordotFacts DiagFacts SingletonFacts.
From Coq Require Import Lia.

(** ** Finding labels *)

Lemma maybe_find_ok out input : NoDup input ->
  maybe_find_outputs_in_inputs_unique out input = Ok (map (fun o => position o input) out).
Proof.
  intros Hn. unfold maybe_find_outputs_in_inputs_unique. apply mapM_ok. intros o _.
  destruct (position o input) as [p|] eqn:E; auto.
  rewrite rassert_true; auto.
  destruct (position o (skipn (p + 1) input)) as [q|] eqn:Eq; auto. exfalso.
  apply position_nth_error in E. apply position_nth_error in Eq.
  rewrite nth_error_skipn' in Eq.
  assert (p = p + 1 + q); [|lia].
  apply (proj1 (NoDup_nth_error input) Hn); [apply nth_error_Some; congruence|congruence].
Qed.

Lemma mapM_unwrap_positions out input : incl out input ->
  exists axes, mapM unwrap (map (fun o => position o input) out) = Ok axes
               /\ Forall2 (fun o k => position o input = Some k) out axes.
Proof.
  intros Hi. destruct (positions_ok out input Hi) as (axes & E & HF). exists axes. split; auto.
  rewrite mapM_map. exact E.
Qed.

Lemma find_ok out input : NoDup input -> incl out input ->
  exists axes, find_outputs_in_inputs_unique out input = Ok axes
               /\ Forall2 (fun o k => position o input = Some k) out axes.
Proof.
  intros Hn Hi. unfold find_outputs_in_inputs_unique. rewrite maybe_find_ok by auto.
  cbn [rbind]. apply mapM_unwrap_positions; auto.
Qed.

(** Axes that are not listed. *)
Lemma filter_fst_combine {T} (Q : nat -> bool) (l : list T) : forall k,
  map fst (filter (fun ic => Q (fst ic)) (combine (seq k (length l)) l))
  = filter Q (seq k (length l)).
Proof.
  induction l as [|x l IH]; intros k; cbn [length seq combine filter map]; auto.
  cbn [fst]. destruct (Q k); cbn [map fst]; rewrite IH; auto.
Qed.

Lemma other_axes_positions lhs C axes : NoDup lhs ->
  Forall2 (fun o k => position o lhs = Some k) C axes ->
  Forall2 (fun o k => position o lhs = Some k)
    (filter (fun c => negb (mem c C)) lhs) (other_axes (length lhs) axes).
Proof.
  intros Hn HF. pose proof (filter_positions (fun c => negb (mem c C)) lhs Hn) as H.
  replace (other_axes (length lhs) axes)
    with (map fst (filter (fun ic => negb (mem (snd ic) C)) (combine (seq 0 (length lhs)) lhs))); auto.
  unfold other_axes. rewrite <- (filter_fst_combine _ lhs 0). f_equal.
  apply filter_ext_in. intros [i c] Hi. cbn [fst snd]. f_equal.
  apply combine_seq_nth in Hi as [_ Hi]. rewrite Nat.sub_0_r in Hi.
  assert (Hp : position c lhs = Some i).
  { assert (Hlt : i < length lhs) by (apply nth_error_Some; congruence).
    rewrite (nth_error_nth' lhs c Hlt) in Hi. injection Hi as Hi.
    rewrite <- Hi at 1. apply position_nth_NoDup; auto. }
  clear - HF Hp. induction HF as [|o k C axes H HF IH]; auto. cbn [mem existsb].
  change (existsb (N.eqb c) C) with (mem c C). rewrite IH. f_equal.
  destruct (N.eqb_spec c o), (Nat.eqb_spec i k); auto; try congruence. subst.
  exfalso. apply position_nth_error in Hp. apply position_nth_error in H. congruence.
Qed.

Lemma index_shape (size : char -> nat) ls L axes :
  Forall2 (fun o k => position o ls = Some k) L axes ->
  mapM (index (map size ls)) axes = Ok (map size L).
Proof.
  induction 1 as [|o k L axes H HF IH]; auto. cbn [mapM map].
  apply position_nth_error in H.
  rewrite (index_some (map size ls) k (size o)) by (rewrite nth_error_map, H; auto).
  cbn [rbind]. rewrite IH. auto.
Qed.

(** ** Pairs whose operands have been simplified *)

(** Each operand names a label at most once, and every label is in the other operand or in the
    output. *)
Record simplified (lhs rhs out : list char) : Prop := {
  smp_lhs : NoDup lhs;
  smp_rhs : NoDup rhs;
  smp_out : NoDup out;
  smp_incl : incl out (lhs ++ rhs);
  smp_lhs_used : forall c, In c lhs -> In c rhs \/ In c out;
  smp_rhs_used : forall c, In c rhs -> In c lhs \/ In c out
}.

Definition summed2 (lhs rhs out : list char) : list char :=
  filter (fun c => negb (mem c out)) (distinct (lhs ++ rhs)).

Lemma summed2_In lhs rhs out c : In c (summed2 lhs rhs out) <-> (In c lhs \/ In c rhs) /\ ~ In c out.
Proof.
  unfold summed2. rewrite filter_In, distinct_In, in_app_iff, negb_true_iff, mem_false. tauto.
Qed.

Lemma summed2_perm lhs rhs out cs : NoDup cs ->
  (forall c, In c cs <-> (In c lhs \/ In c rhs) /\ ~ In c out) ->
  Permutation cs (summed2 lhs rhs out).
Proof.
  intros Hn H. apply NoDup_Permutation; auto.
  - apply NoDup_filter, distinct_NoDup.
  - intros c. rewrite H, summed2_In. tauto.
Qed.

(** The arrays hold scalars of a type [A] without laws. What they compute is described by the
    values of a semiring [B] that are related to them. *)
Section Pairs.
Context {A B : Type} {Sc : Scalar A} {Sb : Scalar B}.
Variable size : char -> nat.
Variable R : A -> B -> Prop.
Variable Z : A -> Prop.
Hypothesis HR : weak_relation R Z.
Hypothesis Hemp : no_empty_sums R Z size.
Variable lay : backend A.
Hypothesis Hlay : backend_runs lay.
Hypothesis SR : near_semiring B.

(** [a], with axes labelled [ls], holds elements related to [F]. *)
Definition rrep (a : arr A) (ls : list char) (F : env -> B) : Prop :=
  exists F0, lrep size a ls F0 /\ forall e, in_range size ls e -> R (F0 e) (F e).

Lemma rrep_ext (a : arr A) ls F G :
  (forall e, in_range size ls e -> F e = G e) -> rrep a ls F -> rrep a ls G.
Proof. intros H (F0 & H1 & H2). exists F0. split; auto. intros e He. rewrite <- H; auto. Qed.

(** What running [f] on two arrays labelled [lhs] and [rhs] does. *)
Definition computes2 (f : arr A -> arr A -> res (arr A)) (lhs rhs out : list char) : Prop :=
  forall (a b : arr A) F G, rrep a lhs F -> rrep b rhs G ->
    exists r cs, f a b = Ok r
      /\ Permutation cs (summed2 lhs rhs out)
      /\ rrep r out (nested_sum size cs (fun e => smul (F e) (G e))).

(** In range of the output and of the summed labels. *)
Lemma in_range_summed lhs rhs out cs e e' : (forall c, In c lhs \/ In c rhs -> In c cs \/ In c out) ->
  in_range size out e -> (forall c, ~ In c cs -> e' c = e c) -> in_range size cs e' ->
  in_range size lhs e' /\ in_range size rhs e'.
Proof.
  intros H He H1 H2. assert (Hb : forall c, In c lhs \/ In c rhs -> e' c < size c).
  { intros c Hc. destruct (in_dec N.eq_dec c cs) as [Hi|Hi]; auto. rewrite H1 by auto.
    apply He. destruct (H c Hc); tauto. }
  split; intros c Hc; apply Hb; auto.
Qed.

(** Contractors that multiply in the order left, right and add in the order of the sum. *)
Lemma computes2_exact f lhs rhs out :
  (forall (a b : arr A) F G, lrep size a lhs F -> lrep size b rhs G ->
    exists r cs, f a b = Ok r
      /\ Permutation cs (summed2 lhs rhs out)
      /\ lrep size r out (nested_sum size cs (fun e => smul (F e) (G e)))) ->
  computes2 f lhs rhs out.
Proof.
  intros H a b F G (F0 & Ha & Fr) (G0 & Hb & Gr). destruct (H a b F0 G0 Ha Hb) as (r & cs & E & Pc & Hr).
  exists r, cs. split; auto. split; auto. eexists. split; [exact Hr|].
  intros e He. apply (nested_sum_weak R Z HR SR size Hemp). intros e' H1 H2.
  destruct (in_range_summed lhs rhs out cs e e') as [R1 R2]; auto; [|apply HR; auto].
  intros c Hc. destruct (in_dec N.eq_dec c out); auto. left.
  apply (Permutation_in c (Permutation_sym Pc)), summed2_In; auto.
Qed.

Lemma permutation_contract_lrep (a : arr A) ls ls' F axes :
  lrep size a ls F -> NoDup ls -> Permutation ls' ls ->
  Forall2 (fun o k => position o ls = Some k) ls' axes ->
  exists r, permutation_contract lay axes a = Ok r /\ lrep size r ls' F.
Proof.
  intros H Hn Hp HF. unfold permutation_contract.
  destruct (permuted_lrep size a ls ls' F axes) as (v & E & Hv); auto.
  rewrite E. cbn [rbind]. apply to_owned_lrep; auto.
  eapply Permutation_NoDup; [apply Permutation_sym|]; eauto.
Qed.

Lemma mul_lrep (a b : arr A) ls F G :
  NoDup ls -> lrep size a ls F -> lrep size b ls G ->
  exists r, mul_arrays lay a b = Ok r /\ lrep size r ls (fun e => smul (F e) (G e)).
Proof.
  intros Hn Ha Hb.
  destruct (mul_arrays_holds lay Hlay a b (map size ls) _ _ (lrep_holds size a ls F Hn Ha)
              (lrep_holds size b ls G Hn Hb)) as (r & E & Hr).
  exists r. split; auto. apply holds_lrep in Hr. eapply lrep_ext; [|exact Hr].
  intros e He. cbn beta. rewrite (lrep_bind size a ls F), (lrep_bind size b ls G); auto.
Qed.

Lemma permuted_rrep (a : arr A) ls ls' F axes :
  rrep a ls F -> NoDup ls -> Permutation ls' ls ->
  Forall2 (fun o k => position o ls = Some k) ls' axes ->
  exists r, permuted_axes a axes = Ok r /\ rrep r ls' F.
Proof.
  intros (F0 & Ha & Fr) Hn Hp HF. destruct (permuted_lrep size a ls ls' F0 axes) as (r & E & Hr); auto.
  exists r. split; auto. exists F0. split; auto. intros e He. apply Fr.
  eapply in_range_incl; [|exact He]. intros c. apply Permutation_in, Permutation_sym; auto.
Qed.

Lemma permutation_contract_rrep (a : arr A) ls ls' F axes :
  rrep a ls F -> NoDup ls -> Permutation ls' ls ->
  Forall2 (fun o k => position o ls = Some k) ls' axes ->
  exists r, permutation_contract lay axes a = Ok r /\ rrep r ls' F.
Proof.
  intros (F0 & Ha & Fr) Hn Hp HF.
  destruct (permutation_contract_lrep a ls ls' F0 axes) as (r & E & Hr); auto.
  exists r. split; auto. exists F0. split; auto. intros e He. apply Fr.
  eapply in_range_incl; [|exact He]. intros c. apply Permutation_in, Permutation_sym; auto.
Qed.

(** HadamardProduct and HadamardProductGeneral *)
Lemma hadamard_computes ls : NoDup ls -> computes2 (run_hadamard lay) ls ls ls.
Proof.
  intros Hn. apply computes2_exact. intros a b F G Ha Hb. destruct (mul_lrep a b ls F G) as (r & E & Hr); auto.
  exists r, []. split; auto. split; auto.
  apply summed2_perm; [constructor|]. intros c. simpl. tauto.
Qed.

Lemma hadamard_general_computes lhs rhs out pl pr :
  NoDup lhs -> NoDup rhs -> Permutation out lhs -> Permutation out rhs ->
  Forall2 (fun o k => position o lhs = Some k) out pl ->
  Forall2 (fun o k => position o rhs = Some k) out pr ->
  computes2 (run_hadamard_general lay pl pr) lhs rhs out.
Proof.
  intros Hl Hr Pl Pr Fl Fr. apply computes2_exact. intros a b F G Ha Hb. unfold run_hadamard_general, permutation_view.
  destruct (permuted_lrep size a lhs out F pl) as (l & El & Hpl); auto.
  destruct (permuted_lrep size b rhs out G pr) as (r & Er & Hpr); auto.
  rewrite El, Er. cbn [rbind].
  assert (Hn : NoDup out) by (eapply Permutation_NoDup; [apply Permutation_sym|]; eauto).
  destruct (mul_lrep l r out F G) as (x & E & Hx); auto.
  exists x, []. split; auto. split; auto.
  apply summed2_perm; [constructor|]. intros c. split; [contradiction|].
  intros [[H|H] Hc]; exfalso; apply Hc.
  - apply (Permutation_in c (Permutation_sym Pl)); auto.
  - apply (Permutation_in c (Permutation_sym Pr)); auto.
Qed.

(** ScalarMatrixProduct, MatrixScalarProduct and their general forms *)
Lemma first_lrep (a : arr A) F e : lrep size a [] F -> first a = Ok (Some (F e)).
Proof.
  intros H. rewrite (first_holds a (fun _ => F e)); auto.
  destruct H as (H1 & H2 & H3). split; [|split]; auto.
  intros [|? ?] Hi; simpl in Hi; [|discriminate]. apply (H3 e). intros c [].
Qed.

Lemma scalar_any (a : arr A) F e e' : lrep size a [] F -> F e = F e'.
Proof.
  intros H. pose proof (first_lrep a F e H) as E1. pose proof (first_lrep a F e' H) as E2. congruence.
Qed.

Lemma mapv_lrep (f : A -> A) (a : arr A) ls F : NoDup ls -> lrep size a ls F ->
  exists r, mapv lay f a = Ok r /\ lrep size r ls (fun e => f (F e)).
Proof.
  intros Hn Ha.
  destruct (mapv_holds lay Hlay a (map size ls) _ f (lrep_holds size a ls F Hn Ha)) as (r & E & Hr).
  exists r. split; auto. apply holds_lrep in Hr. eapply lrep_ext; [|exact Hr].
  intros e He. cbn beta. rewrite (lrep_bind size a ls F); auto.
Qed.

Lemma scalar_matrix_computes ls : NoDup ls -> computes2 (run_scalar_matrix lay) [] ls ls.
Proof.
  intros Hn a b F G (F0 & Ha & Fr) (G0 & Hb & Gr). unfold run_scalar_matrix.
  rewrite (first_lrep a F0 (fun _ => 0) Ha). cbn [rbind unwrap].
  destruct (mapv_lrep (fun x => smul x (F0 (fun _ => 0))) b ls G0) as (r & E & Hr); auto.
  exists r, []. split; auto. split.
  - apply summed2_perm; [constructor|]. intros c. simpl. tauto.
  - eexists. split; [exact Hr|]. intros e He. cbn [nested_sum].
    rewrite (scalar_any a F0 (fun _ => 0) e Ha), (ns_mul_comm SR). apply HR; auto. apply Fr. intros c [].
Qed.

Lemma scalar_matrix_general_computes rhs out pr :
  NoDup rhs -> Permutation out rhs ->
  Forall2 (fun o k => position o rhs = Some k) out pr ->
  computes2 (run_scalar_matrix_general lay pr) [] rhs out.
Proof.
  intros Hn Hp HF a b F G Ha (G0 & Hb & Gr). unfold run_scalar_matrix_general, permutation_view.
  destruct (permuted_lrep size b rhs out G0 pr) as (v & Ev & Hv); auto.
  rewrite Ev. cbn [rbind].
  assert (Ho : NoDup out) by (eapply Permutation_NoDup; [apply Permutation_sym|]; eauto).
  destruct (scalar_matrix_computes out Ho a v F G Ha) as (r & cs & E & Hcs & Hr).
  { exists G0. split; auto. intros e He. apply Gr. eapply in_range_incl; [|exact He].
    intros c. apply Permutation_in, Permutation_sym; auto. }
  exists r, cs. split; auto. split; auto.
  eapply Permutation_trans; [exact Hcs|]. apply summed2_perm.
  - apply NoDup_filter, distinct_NoDup.
  - intros c. rewrite summed2_In. split.
    + intros [[[]|H] H']. contradiction.
    + intros [[[]|H] H']. exfalso. apply H', (Permutation_in c (Permutation_sym Hp)); auto.
Qed.

Lemma matrix_scalar_computes ls : NoDup ls -> computes2 (run_matrix_scalar lay) ls [] ls.
Proof.
  intros Hn. apply computes2_exact. intros a b F G Ha Hb. unfold run_matrix_scalar.
  rewrite (first_lrep b G (fun _ => 0) Hb). cbn [rbind unwrap].
  destruct (mapv_lrep (fun x => smul x (G (fun _ => 0))) a ls F) as (r & E & Hr); auto.
  exists r, []. split; auto. split.
  - apply summed2_perm; [constructor|]. intros c. simpl. tauto.
  - eapply lrep_ext; [|exact Hr]. intros e _. cbn [nested_sum].
    rewrite (scalar_any b G e (fun _ => 0) Hb). auto.
Qed.

Lemma matrix_scalar_general_computes lhs out pl :
  NoDup lhs -> Permutation out lhs ->
  Forall2 (fun o k => position o lhs = Some k) out pl ->
  computes2 (run_matrix_scalar_general lay pl) lhs [] out.
Proof.
  intros Hn Hp HF a b F G (F0 & Ha & Fr) Hb. unfold run_matrix_scalar_general, permutation_view.
  destruct (permuted_lrep size a lhs out F0 pl) as (v & Ev & Hv); auto.
  rewrite Ev. cbn [rbind].
  assert (Ho : NoDup out) by (eapply Permutation_NoDup; [apply Permutation_sym|]; eauto).
  destruct (matrix_scalar_computes out Ho v b F G) as (r & cs & E & Hcs & Hr); auto.
  { exists F0. split; auto. intros e He. apply Fr. eapply in_range_incl; [|exact He].
    intros c. apply Permutation_in, Permutation_sym; auto. }
  exists r, cs. split; auto. split; auto.
  eapply Permutation_trans; [exact Hcs|]. apply summed2_perm.
  - apply NoDup_filter, distinct_NoDup.
  - intros c. rewrite summed2_In. split.
    + intros [[H|[]] H']. contradiction.
    + intros [[H|[]] H']. exfalso. apply H', (Permutation_in c (Permutation_sym Hp)); auto.
Qed.

(** ** TensordotFixedPosition *)

(** Sum over the contracted labels, read from the positions. *)
Lemma contract_value (a b : arr A) Pl Ql Pr Qr C F0 G0 (F G : env -> B) e :
  NoDup (Pl ++ C ++ Ql) -> NoDup (Pr ++ C ++ Qr) ->
  lrep size a (Pl ++ C ++ Ql) F0 -> lrep size b (Pr ++ C ++ Qr) G0 ->
  (forall e, in_range size (Pl ++ C ++ Ql) e -> R (F0 e) (F e)) ->
  (forall e, in_range size (Pr ++ C ++ Qr) e -> R (G0 e) (G e)) ->
  in_range size (Pl ++ Ql ++ Pr ++ Qr) e ->
  forall z, in_bounds (map size C) z = true ->
    R (F0 (bind (Pl ++ C ++ Ql) (map e Pl ++ z ++ map e Ql))) (F (over C z e))
    /\ R (G0 (bind (Pr ++ C ++ Qr) (map e Pr ++ z ++ map e Qr))) (G (over C z e)).
Proof.
  intros Hl Hr Ha Hb Fr Gr He z Hz.
  pose proof (in_bounds_length _ _ Hz) as Hlen. rewrite map_length in Hlen.
  assert (HC : NoDup C) by (apply NoDup_app_remove_l, NoDup_app_remove_r in Hl; auto).
  assert (Hrange : forall P Q, NoDup (P ++ C ++ Q) -> in_range size (P ++ Q) e ->
            in_range size (P ++ C ++ Q) (over C z e)
            /\ map (over C z e) (P ++ C ++ Q) = map e P ++ z ++ map e Q).
  { intros P Q Hn He'.
    assert (Em : map (over C z e) (P ++ C ++ Q) = map e P ++ z ++ map e Q).
    { apply NoDup_app_elim in Hn as (_ & Hn2 & Hd1). apply NoDup_app_elim in Hn2 as (_ & _ & Hd2).
      rewrite !map_app, map_over by auto. f_equal; [|f_equal]; apply map_over_out.
      - intros c Hc Hc'. apply (Hd1 c Hc). apply in_or_app; auto.
      - intros c Hc Hc'. apply (Hd2 c Hc' Hc). }
    split; auto. apply in_bounds_map. rewrite Em, !map_app.
    apply in_bounds_app; [|apply in_bounds_app]; auto; apply in_bounds_map;
      eapply in_range_incl; try exact He'; intros c Hc; apply in_or_app; auto. }
  destruct (Hrange Pl Ql Hl) as [R1 E1].
  { eapply in_range_incl; [|exact He]. intros c. rewrite !in_app_iff. tauto. }
  destruct (Hrange Pr Qr Hr) as [R2 E2].
  { eapply in_range_incl; [|exact He]. intros c. rewrite !in_app_iff. tauto. }
  rewrite <- E1, <- E2. rewrite (lrep_bind size a _ F0), (lrep_bind size b _ G0); auto.
Qed.

Hypothesis Hfu : weak_fused R Z lay.

Lemma run_tfp_rrep (a b : arr A) U C V F G :
  NoDup (U ++ C) -> NoDup (C ++ V) -> rrep a (U ++ C) F -> rrep b (C ++ V) G ->
  exists r, run_tfp lay (tfp_for (map size U) (map size C) (map size V)) a b = Ok r
    /\ rrep r (U ++ V) (nested_sum size C (fun e => smul (F e) (G e))).
Proof.
  intros Hl Hr (F0 & Ha & Fr) (G0 & Hb & Gr).
  pose proof (lrep_holds size a _ F0 Hl Ha) as Ha'. pose proof (lrep_holds size b _ G0 Hr Hb) as Hb'.
  rewrite map_app in Ha', Hb'.
  destruct (run_tfp_holds lay Hlay a b _ _ _ _ _ Ha' Hb') as (r & v & E & H & Hs & _).
  exists r. split; auto. rewrite <- map_app in H. apply holds_lrep in H.
  eexists. split; [exact H|]. intros e He. cbn beta. rewrite nested_sum_idx.
  specialize (Hs (map e (U ++ V))). rewrite <- map_app, in_bounds_map in Hs. specialize (Hs He).
  rewrite map_app in *.
  eapply (tfp_terms_rel R Z HR lay Hfu SR) with (p := fun z => F (over C z e)) (q := fun z => G (over C z e)); [eapply no_empty_prod; eauto| | |exact Hs].
  { apply in_bounds_map. eapply in_range_incl; [|exact He]. intros c Hc. apply in_or_app; auto. }
  intros z Hz. pose proof (contract_value a b U [] [] V C F0 G0 F G e) as Hv. cbn [app map] in Hv.
  rewrite app_nil_r in Hv. specialize (Hv Hl Hr Ha Hb Fr Gr He z Hz).
  rewrite app_nil_r in Hv. exact Hv.
Qed.

Lemma tfp_computes U C V :
  NoDup (U ++ C) -> NoDup (C ++ V) -> (forall c, In c U -> ~ In c V) ->
  computes2 (run_tfp lay (tfp_for (map size U) (map size C) (map size V))) (U ++ C) (C ++ V) (U ++ V).
Proof.
  intros Hl Hr Hd a b F G Ha Hb. destruct (run_tfp_rrep a b U C V F G) as (r & E & H); auto.
  exists r, C. split; auto. split; auto. apply NoDup_app_elim in Hl as (_ & HC & D1).
  apply NoDup_app_elim in Hr as (_ & _ & D2).
  apply summed2_perm; auto. intros c. rewrite !in_app_iff. split.
  - intros Hc. split; auto. intros [Hu|Hv]; [apply (D1 c Hu Hc)|apply (D2 c Hc Hv)].
  - intros [[[H0|H0]|[H0|H0]] Hn]; auto; exfalso; apply Hn; auto.
Qed.

(** ** TensordotGeneral *)

Lemma tg_from_axes_ok lhs rhs C la ra order :
  NoDup lhs -> NoDup rhs -> NoDup C ->
  Forall2 (fun o k => position o lhs = Some k) C la ->
  Forall2 (fun o k => position o rhs = Some k) C ra ->
  let U := filter (fun c => negb (mem c C)) lhs in
  let V := filter (fun c => negb (mem c C)) rhs in
  exists pl pr,
    tg_from_axes (map size lhs) (map size rhs) la ra order
    = Ok (mkTG pl pr (tfp_for (map size U) (map size C) (map size V)) order)
    /\ Forall2 (fun o k => position o lhs = Some k) (U ++ C) pl
    /\ Forall2 (fun o k => position o rhs = Some k) (C ++ V) pr.
Proof.
  intros Hl Hr HC Fl Fr U V.
  assert (Hnd : forall ls axes, Forall2 (fun o k => position o ls = Some k) C axes -> NoDup axes).
  { intros ls axes HF. clear - HC HF. induction HF as [|o k C axes H HF IH]; constructor.
    - intros Hi. destruct (Forall2_In_r _ _ _ _ HF Hi) as (o' & Ho' & E).
      apply position_nth_error in H. apply position_nth_error in E. inversion HC; subst.
      congruence.
    - apply IH. inversion HC; auto. }
  pose proof (Forall2_len _ _ _ Fl) as Ll. pose proof (Forall2_len _ _ _ Fr) as Lr.
  unfold tg_from_axes. rewrite !map_length.
  rewrite (nodup_fixed_point Nat.eq_dec (Hnd _ _ Fl)), (nodup_fixed_point Nat.eq_dec (Hnd _ _ Fr)).
  rewrite <- Ll, <- Lr, Nat.eqb_refl. cbn [rassert rbind].
  pose proof (other_axes_positions lhs C la Hl Fl) as Ol.
  pose proof (other_axes_positions rhs C ra Hr Fr) as Or.
  rewrite (index_shape size lhs C la), (index_shape size rhs C ra) by auto. cbn [rbind].
  rewrite (index_shape size lhs _ _ Ol), (index_shape size rhs _ _ Or). cbn [rbind].
  rewrite <- (map_length size C). rewrite tfp_from_shapes_ok. cbn [rbind].
  do 2 eexists. split; [reflexivity|]. split; apply Forall2_app; auto.
Qed.

Lemma filter_rest_perm C ls : NoDup C -> NoDup ls -> incl C ls ->
  Permutation (C ++ filter (fun c => negb (mem c C)) ls) ls.
Proof. intros. apply filter_not_in_perm; auto. Qed.

Lemma run_tg_rrep (a b : arr A) lhs rhs C pl pr order out F G :
  let U := filter (fun c => negb (mem c C)) lhs in
  let V := filter (fun c => negb (mem c C)) rhs in
  NoDup lhs -> NoDup rhs -> NoDup C -> incl C lhs -> incl C rhs ->
  (forall c, In c U -> ~ In c V) ->
  Forall2 (fun o k => position o lhs = Some k) (U ++ C) pl ->
  Forall2 (fun o k => position o rhs = Some k) (C ++ V) pr ->
  Permutation out (U ++ V) ->
  Forall2 (fun o k => position o (U ++ V) = Some k) out order ->
  rrep a lhs F -> rrep b rhs G ->
  exists r, run_tg lay (mkTG pl pr (tfp_for (map size U) (map size C) (map size V)) order) a b = Ok r
    /\ rrep r out (nested_sum size C (fun e => smul (F e) (G e))).
Proof.
  intros U V Hl Hr HC Il Ir Hd Fl Fr Hp Fo Ha Hb.
  unfold run_tg, permutation_view. cbn [tg_lhs_permutation tg_rhs_permutation tg_fixed tg_output_permutation].
  assert (PL : Permutation (U ++ C) lhs).
  { eapply Permutation_trans; [apply Permutation_app_comm|]. apply filter_rest_perm; auto. }
  assert (PR : Permutation (C ++ V) rhs) by (apply filter_rest_perm; auto).
  assert (NL : NoDup (U ++ C)) by (eapply Permutation_NoDup; [apply Permutation_sym|]; eauto).
  assert (NR : NoDup (C ++ V)) by (eapply Permutation_NoDup; [apply Permutation_sym|]; eauto).
  assert (NO : NoDup (U ++ V)).
  { apply NoDup_app_intro; auto.
    - apply NoDup_app_remove_r in NL; auto.
    - apply NoDup_app_remove_l in NR; auto. }
  destruct (permuted_rrep a lhs (U ++ C) F pl) as (l & El & Hpl); auto.
  destruct (permuted_rrep b rhs (C ++ V) G pr) as (r & Er & Hpr); auto.
  rewrite El, Er. cbn [rbind].
  destruct (run_tfp_rrep l r U C V F G) as (d & Ed & Hdd); auto.
  rewrite Ed. cbn [rbind]. apply permutation_contract_rrep with (ls := U ++ V); auto.
Qed.

End Pairs.
