(** The contractors the strategies do not choose: BroadcastProductGeneral, the special cases
    of the pair contractors, and DiagonalizationAndSummation used for every singleton. *)
From Verif Require Import Base BaseFacts NDArray Validation Strategies Singleton Pair Path Spec
  ValidationFacts SumFacts ArrayFacts TensordotFacts DiagFacts SingletonFacts PairFacts StackedFacts
  PairMain PathFacts EinsumMain.
From Coq Require Import Lia.

(** ** BroadcastProductGeneral *)

(** A list indexed by distinct labels is a function of the labels. *)
Lemma by_label {T} (L : list char) (l : list T) (d : T) : NoDup L -> length l = length L ->
  exists f : char -> T, l = map f L.
Proof.
  intros Hn Hl. set (f := fun c => match position c L with Some n => nth n l d | None => d end).
  exists f. apply nth_ext with (d := d) (d' := f 0%N); [rewrite map_length; auto|]. intros n Hlt.
  rewrite map_nth. unfold f. rewrite position_nth_NoDup by (auto; lia). auto.
Qed.

Lemma insert_nth_mid {T} (P Q : list T) x : insert_nth (length P) x (P ++ Q) = P ++ x :: Q.
Proof. induction P as [|y P IH]; simpl; auto. rewrite IH. auto. Qed.

(** Where the labels [Q] not in [lhs] stand, counted from [n]. *)
Definition nones_from (n : nat) (l : list (option nat)) : list nat :=
  map fst (filter (fun io => match snd io with None => true | Some _ => false end)
             (combine (seq n (length l)) l)).

Lemma insertions_ok {A} (lhs : list char) (sz : char -> nat) (st : char -> Z) Q :
  forall P (a : arr A),
  let sz' c := if mem c lhs then sz c else 1 in
  let st' c := if mem c lhs then st c else 1%Z in
  a_shape a = map sz' P ++ map sz (filter (fun c => mem c lhs) Q) ->
  a_strides a = map st' P ++ map st (filter (fun c => mem c lhs) Q) ->
  foldM (fun t i => insert_axis t i)
    (nones_from (length P) (map (fun o => position o lhs) Q)) a
  = Ok (mkArr (a_data a) (a_off a) (map sz' (P ++ Q)) (map st' (P ++ Q))).
Proof.
  induction Q as [|c Q IH]; intros P a sz' st' H1 H2.
  - cbn. destruct a as [d o s t]. cbn [a_shape a_strides a_data a_off] in *. simpl in H1, H2.
    rewrite app_nil_r in *. subst. auto.
  - assert (Esz : sz' c = if mem c lhs then sz c else 1) by reflexivity.
    assert (Est : st' c = if mem c lhs then st c else 1%Z) by reflexivity.
    specialize (IH (P ++ [c])). cbv zeta in IH. fold sz' st' in IH.
    rewrite app_length in IH. cbn [length] in IH.
    rewrite <- !app_assoc in IH. cbn [app] in IH.
    unfold nones_from in *. cbn [map length seq combine filter snd].
    pose proof (position_mem c lhs) as Hm. cbn [filter] in H1, H2.
    destruct (position c lhs) as [p|] eqn:Ep; rewrite <- Hm in H1, H2; cbn iota in H1, H2.
    + replace (S (length P)) with (length P + 1) by lia.
      apply IH.
      * rewrite H1, map_app, <- app_assoc. cbn [map app]. rewrite Esz, <- Hm. auto.
      * rewrite H2, map_app, <- app_assoc. cbn [map app]. rewrite Est, <- Hm. auto.
    + cbn [map fst foldM]. unfold insert_axis at 1.
      rewrite H1, (proj2 (Nat.leb_le _ _)) by (rewrite app_length, map_length; lia). cbn [rbind].
      replace (S (length P)) with (length P + 1) by lia.
      rewrite (IH (mkArr (a_data a) (a_off a) (insert_nth (length P) 1 (map sz' P ++ map sz (filter (fun c => mem c lhs) Q)))
                 (insert_nth (length P) 1%Z (a_strides a)))); cbn [a_data a_off a_shape a_strides]; auto.
      * replace (length P) with (length (map sz' P)) by apply map_length.
        rewrite insert_nth_mid, map_app, <- app_assoc. cbn [map app]. rewrite Esz, <- Hm. auto.
      * rewrite H2. replace (length P) with (length (map st' P)) by apply map_length.
        rewrite insert_nth_mid, map_app, <- app_assoc. cbn [map app]. rewrite Est, <- Hm. auto.
Qed.

Lemma upcast_labels (size sz : char -> nat) (st : char -> Z) l :
  (forall c, In c l -> sz c = size c \/ sz c = 1) ->
  upcast_rev (map size l) (map sz l) (map st l)
  = Some (map (fun c => if Nat.eqb (size c) (sz c) then st c else 0%Z) l).
Proof.
  induction l as [|c l IH]; intros H; simpl; auto. rewrite IH by (intros; apply H; simpl; auto).
  destruct (Nat.eqb_spec (size c) (sz c)) as [E|E]; auto.
  destruct (H c) as [E'|E']; simpl; auto; [congruence|]. rewrite E'. auto.
Qed.

Lemma broadcast_labels {A} (size sz : char -> nat) (st : char -> Z) l (a : arr A) :
  (forall c, In c l -> sz c = size c \/ sz c = 1) ->
  a_shape a = map sz l -> a_strides a = map st l ->
  broadcast a (map size l)
  = Ok (mkArr (a_data a) (a_off a) (map size l)
          (map (fun c => if Nat.eqb (size c) (sz c) then st c else 0%Z) l)).
Proof.
  intros H H1 H2. unfold broadcast. rewrite H1, H2, <- !map_rev.
  rewrite upcast_labels by (intros c Hc; apply H; apply in_rev; auto).
  rewrite <- map_rev, rev_involutive. auto.
Qed.

Lemma dot_off_stretch lhs (size : char -> nat) (st : char -> Z) e out :
  in_range size out e ->
  dot_off (map e out)
    (map (fun c => if Nat.eqb (size c) (if mem c lhs then size c else 1)
                   then (if mem c lhs then st c else 1%Z) else 0%Z) out)
  = dot_off (map e (filter (fun c => mem c lhs) out)) (map st (filter (fun c => mem c lhs) out)).
Proof.
  induction out as [|c out IH]; intros He; auto. cbn [map dot_off filter].
  rewrite IH by (intros d Hd; apply He; simpl; auto).
  destruct (mem c lhs) eqn:E.
  - rewrite Nat.eqb_refl. auto.
  - destruct (Nat.eqb_spec (size c) 1) as [E1|E1]; [|lia].
    assert (e c < size c) by (apply He; simpl; auto).
    replace (e c) with 0 by lia. lia.
Qed.

Lemma somes_positions lhs out :
  Forall2 (fun o k => position o lhs = Some k) (filter (fun c => mem c lhs) out)
    (somes (map (fun o => position o lhs) out)).
Proof.
  induction out as [|c out IH]; [constructor|]. cbn [map filter]. unfold somes in *. cbn [flat_map].
  rewrite <- (position_mem c lhs). destruct (position c lhs) eqn:E; auto. constructor; auto.
Qed.

(** Permuting, inserting axes and broadcasting relabels the array with the output's labels. *)
Lemma stretch_lrep {A} (size : char -> nat) (a : arr A) lhs out F :
  NoDup lhs -> NoDup out -> incl lhs out -> lrep size a lhs F ->
  exists v w r,
    permutation_view (somes (map (fun o => position o lhs) out)) a = Ok v
    /\ foldM (fun t i => insert_axis t i) (nones (map (fun o => position o lhs) out)) v = Ok w
    /\ broadcast w (map size out) = Ok r
    /\ lrep size r out F.
Proof.
  intros Hl Ho Hi Ha. set (L := filter (fun c => mem c lhs) out).
  assert (NL : NoDup L) by (apply NoDup_filter; auto).
  assert (PL : Permutation L lhs).
  { apply NoDup_Permutation; auto. intros c. unfold L. rewrite filter_In, mem_In. specialize (Hi c). tauto. }
  destruct (permuted_lrep size a lhs L F (somes (map (fun o => position o lhs) out)) Ha Hl PL)
    as (v & Ev & Hv1 & Hv2 & Hv3). { apply somes_positions. }
  destruct (by_label L (a_strides v) 0%Z NL Hv2) as (st & Est).
  exists v. eexists. eexists. split; [exact Ev|].
  split; [|split].
  - apply (insertions_ok lhs size st out [] v); cbn [map app]; auto.
  - rewrite broadcast_labels with (sz := fun c => if mem c lhs then size c else 1)
      (st := fun c => if mem c lhs then st c else 1%Z); [reflexivity| |reflexivity|reflexivity].
    intros c _. destruct (mem c lhs); auto.
  - split; [|split]; cbn [a_shape a_strides a_data a_off]; auto.
    + rewrite map_length. auto.
    + intros e He. rewrite <- (Hv3 e).
      2:{ intros c Hc. apply He. unfold L in Hc. apply filter_In in Hc. tauto. }
      unfold a_get. cbn [a_shape a_strides a_data a_off].
      rewrite dot_off_stretch by auto. fold L. rewrite <- Est, Hv1.
      rewrite !in_bounds_map'; auto.
      intros c Hc. apply He. unfold L in Hc. apply filter_In in Hc. tauto.
Qed.

Section Broadcast.
Variables (sc : sized_contraction) (lhs rhs out : list char) (size : char -> nat).
Hypothesis HS : sized sc [lhs; rhs] out size.
Context {A : Type} {Sc : Scalar A}.
Variable lay : backend A.
Hypothesis Hlay : backend_runs lay.

(** Nothing is summed: every label is in the output. *)
Lemma computes2_exact_eq f lhs' rhs' out' :
  (forall (a b : arr A) F G, lrep size a lhs' F -> lrep size b rhs' G ->
    exists r cs, f a b = Ok r
      /\ Permutation cs (summed2 lhs' rhs' out')
      /\ lrep size r out' (nested_sum size cs (fun e => smul (F e) (G e)))) ->
  computes2 size eq f lhs' rhs' out'.
Proof.
  intros H a b F G (F0 & Ha & Fr) (G0 & Hb & Gr). destruct (H a b F0 G0 Ha Hb) as (r & cs & E & Pc & Hr).
  exists r, cs. split; auto. split; auto. eexists. split; [exact Hr|].
  intros e He. apply (nested_sum_rel eq eq_relation). intros e' H1 H2.
  destruct (in_range_summed size lhs' rhs' out' cs e e') as [R1 R2]; auto; [|f_equal; auto].
  intros c Hc. destruct (in_dec N.eq_dec c out'); auto. left.
  apply (Permutation_in c (Permutation_sym Pc)), summed2_In; auto.
Qed.

Lemma broadcast_ok : NoDup lhs -> NoDup rhs -> incl (lhs ++ rhs) out ->
  exists b, broadcast_new sc = Ok b /\ computes2 size eq (run_broadcast lay b) lhs rhs out.
Proof.
  intros Hl Hr Hi. unfold broadcast_new. rewrite (sc_ops2 sc lhs rhs out size HS), (sc_out2 sc lhs rhs out size HS).
  cbn [length Nat.eqb rassert rbind]. unfold index. cbn [nth_error unwrap rbind].
  rewrite !maybe_find_ok by auto. cbn [rbind].
  pose proof HS as (_ & [Ho Hio] & _). simpl in Hio. rewrite app_nil_r in Hio.
  rewrite (sizes2 sc lhs rhs out size HS) by auto. cbn [rbind].
  eexists. split; [reflexivity|]. apply computes2_exact_eq.
  intros a b F G Ha Hb. unfold run_broadcast.
  cbn [bp_lhs_permutation bp_rhs_permutation bp_lhs_insertions bp_rhs_insertions bp_output_sizes].
  destruct (stretch_lrep size a lhs out F) as (v & w & r & E1 & E2 & E3 & Hr1); auto.
  { intros c Hc. apply Hi, in_or_app; auto. }
  destruct (stretch_lrep size b rhs out G) as (v' & w' & r' & E1' & E2' & E3' & Hr2); auto.
  { intros c Hc. apply Hi, in_or_app; auto. }
  rewrite E1, E1'. cbn [rbind]. rewrite E2, E2'. cbn [rbind]. rewrite E3, E3'. cbn [rbind].
  destruct (mul_lrep size lay Hlay r r' out F G) as (x & Ex & Hx); auto.
  exists x, []. split; [exact Ex|]. split; [|exact Hx].
  apply summed2_perm; [constructor|]. intros c. specialize (Hi c). rewrite in_app_iff in Hi. simpl. tauto.
Qed.

End Broadcast.

(** ** In terms of the specification *)

Section Spec.
Variable size : char -> nat.
Context {A : Type} {Sc : Scalar A}.
Variable lay : backend A.
Hypothesis Hlay : backend_runs lay.
Hypothesis SR : semiring A.

Lemma lsum_nested (r : arr A) out cs F : lsum size r out cs F -> lrep size r out (nested_sum size cs F).
Proof.
  intros (G & Hr & HG & _). eapply lrep_ext; [|exact Hr]. intros e He. 
  apply (sums_to_nested_rel eq eq_relation SR size cs F F e _ (HG e He)). auto.
Qed.

Lemma holds_of_lrep (r : arr A) ops out (arrays : list (arr A)) cs F : NoDup out ->
  NoDup cs -> (forall c, In c cs <-> In c (concat ops) /\ ~ In c out) ->
  (forall e, F e = term arrays ops e) ->
  lrep size r out (nested_sum size cs F) ->
  holds r (map size out) (einsum_value size arrays ops out).
Proof.
  intros Ho Nc Ic HF Hr.
  destruct (holds_of_rrep size eq (semiring_summable size SR) r ops out arrays cs F) as (f & Hf & Ef); auto.
  - eexists. split; [exact Hr|]. auto.
  - eapply ArrayFacts.holds_ext; [|exact Hf]. auto.
Qed.

Lemma lrep_eq (a : arr A) ls F : lrep size a ls F -> rrep size eq a ls F.
Proof. intros H. exists F. auto. Qed.

Lemma computes2_holds f lhs rhs out (a b : arr A) : NoDup out ->
  computes2 size eq f lhs rhs out ->
  wf a -> wf b -> a_shape a = map size lhs -> a_shape b = map size rhs ->
  exists r, f a b = Ok r /\ holds r (map size out) (einsum_value size [a; b] [lhs; rhs] out).
Proof.
  intros Ho Hf Wa Wb Sa Sb.
  destruct (Hf a b _ _ (lrep_eq _ _ _ (lrep_wf size a lhs Wa Sa)) (lrep_eq _ _ _ (lrep_wf size b rhs Wb Sb)))
    as (r & cs & E & Pc & Hr).
  exists r. split; auto.
  destruct (holds_of_rrep size eq (semiring_summable size SR) r [lhs; rhs] out [a; b] cs
              (fun e => smul (elem a (map e lhs)) (elem b (map e rhs))) Ho) as (g & Hg & Eg); [| | |exact Hr|].
  - eapply Permutation_NoDup; [apply Permutation_sym; exact Pc|]. apply NoDup_filter, distinct_NoDup.
  - intros c. simpl. rewrite app_nil_r, in_app_iff, <- summed2_In.
    split; apply Permutation_in; auto. apply Permutation_sym; auto.
  - intros e. unfold term, product. simpl. rewrite (SRmul_comm SR (elem b _)), (SRmul_1_l SR). auto.
  - eapply ArrayFacts.holds_ext; [|exact Hg]. auto.
Qed.

(** DiagonalizationAndSummation on an operand without empty axes. *)
Lemma diag_and_sum_general sc this out : sized sc [this] out size ->
  (exists c, In c this /\ ~ In c out) ->
  exists d s, diag_and_sum_new sc = Ok (d, s)
    /\ forall a : arr A, wf a -> a_shape a = map size this -> (forall c, In c this -> size c <> 0) ->
       exists r, diag_and_sum_contract lay d s a = Ok r
         /\ holds r (map size out) (einsum_value size [a] [this] out).
Proof.
  intros HS Hc. destruct (diag_and_sum_new_ok sc this out size HS Hc) as (ex & m & Hex & E & Hn & Hin & HF).
  do 2 eexists. split; [exact E|]. intros a Wa Sa Hz.
  destruct (diag_and_sum_contract_lrep sc this out size HS lay Hlay a _ ex m (seq (length out) (length ex))
     Wa (lrep_wf size a this Wa Sa) Hz Hex Hn Hin HF) as (r & Er & Hr).
  exists r. split; auto.
  pose proof (NoDup_app_elim out ex Hn) as (Ho & He & _).
  eapply (holds_of_lrep r [this] out [a] (rev ex)); [auto| | | |].
  4:{ eapply lsum_nested; eauto. }
  - apply NoDup_rev. auto.
  - intros c. rewrite <- in_rev, Hin. simpl. rewrite app_nil_r. tauto.
  - intros e. unfold term, product. simpl. rewrite (SRmul_comm SR), (SRmul_1_l SR). auto.
Qed.

Lemma diag_and_sum_nothing_summed sc this out : sized sc [this] out size ->
  incl this out -> diag_and_sum_new sc = Panic.
Proof.
  intros HS Hi. unfold diag_and_sum_new.
  destruct (diagonalization_new_ok sc this out size HS) as (ex & m & E & H1 & H2 & H3).
  rewrite E. cbn [rbind diag_output_shape].
  assert (ex = []). { destruct ex as [|c ex]; auto. exfalso. destruct (proj1 (H2 c)) as [Hc Hn]; simpl; auto. }
  subst ex. rewrite app_nil_r, map_length. rewrite (sc_out sc this out size HS).
  rewrite usub_ok by auto. cbn [rbind]. rewrite Nat.sub_diag. auto.
Qed.

End Spec.
