(** Checked and unbounded products agree when the arrays of a step have a representable size. *)
From Verif Require Import Base BaseFacts NDArray Validation Optimizers Strategies Singleton Pair Path Api Spec
  ValidationFacts SumFacts ArrayFacts TensordotFacts DiagFacts SingletonFacts PairFacts StackedFacts
  PairMain PathFacts PathShape TensordotMain Overflow.
From Coq Require Import Lia.

(** ** The product of the lengths that are not zero *)

Lemma nzp_cons d sh : nonzero_product (d :: sh) = (if Nat.eqb d 0 then 1 else d) * nonzero_product sh.
Proof. unfold nonzero_product. simpl. destruct (Nat.eqb d 0); simpl; lia. Qed.

Lemma nzp_pos sh : 1 <= nonzero_product sh.
Proof.
  induction sh as [|d sh IH]; [cbn; auto|]. rewrite nzp_cons. destruct (Nat.eqb_spec d 0); nia.
Qed.

Lemma nzp_app a b : nonzero_product (a ++ b) = nonzero_product a * nonzero_product b.
Proof.
  induction a as [|d a IH]; [change (nonzero_product []) with 1; cbn [app]; lia|]. cbn [app]. rewrite !nzp_cons, IH. lia.
Qed.

Lemma nzp_perm a b : Permutation a b -> nonzero_product a = nonzero_product b.
Proof. induction 1; rewrite ?nzp_cons; auto; lia. Qed.

Lemma nzp_incl (size : char -> nat) L : forall ls, NoDup L -> incl L ls ->
  nonzero_product (map size L) <= nonzero_product (map size ls).
Proof.
  induction L as [|c L IH]; intros ls Hn Hi; [apply nzp_pos|].
  inversion Hn; subst. destruct (in_split c ls) as (l1 & l2 & ->). { apply Hi. simpl; auto. }
  rewrite map_app. cbn [map]. rewrite nzp_app, !nzp_cons.
  assert (Hle : nonzero_product (map size L) <= nonzero_product (map size (l1 ++ l2))).
  { apply IH; auto. intros x Hx. assert (In x (l1 ++ c :: l2)) by (apply Hi; simpl; auto).
    rewrite in_app_iff in *. simpl in *. destruct H as [?|[->|?]]; auto. contradiction. }
  rewrite map_app, nzp_app in Hle. nia.
Qed.

(** A number at most the product of some of the lengths, times one more length. *)
Lemma nzp_step u d pre post :
  u <= nonzero_product pre -> u * d <= nonzero_product (pre ++ d :: post)
                              /\ u * d <= nonzero_product (pre ++ [d])
                              /\ u <= nonzero_product (pre ++ [d]).
Proof.
  intros H. rewrite !nzp_app, !nzp_cons. pose proof (nzp_pos post). pose proof (nzp_pos pre).
  change (nonzero_product []) with 1. set (p := nonzero_product pre) in *. set (q := nonzero_product post) in *.
  destruct (Nat.eqb_spec d 0) as [->|Hd]; [nia|].
  assert (u * d <= p * d) by (apply Nat.mul_le_mono_r; auto).
  assert (p * d <= p * d * q) by nia. nia.
Qed.

Lemma mapM_ext_in {T U} (f g : T -> res U) l : (forall x, In x l -> f x = g x) -> mapM f l = mapM g l.
Proof.
  induction l as [|x l IH]; intros H; simpl; auto. rewrite H by (simpl; auto).
  rewrite IH by (intros; apply H; simpl; auto). auto.
Qed.

Section Facts.
Variable M : nat.

Lemma umul_ok x y : x * y <= M -> umul M x y = Ok (x * y).
Proof. intros H. unfold umul. rewrite (proj2 (Nat.leb_le _ _) H). auto. Qed.

(** ** TensordotFixedPosition *)

Lemma lhs_loop n nc l : forall pre u c sh,
  u <= nonzero_product pre -> c <= nonzero_product pre ->
  nonzero_product (pre ++ map snd l) <= M ->
  foldM (fun st (ad : nat * nat) =>
      let '(u, c, sh) := st in
      let '(axis, d) := ad in
      do lim <- usub n nc;
      if Nat.ltb axis lim then do u' <- umul M u d; Ok (u', c, sh ++ [d])
      else do c' <- umul M c d; Ok (u, c', sh)) l (u, c, sh)
  = foldM (fun st (ad : nat * nat) =>
      let '(u, c, sh) := st in
      let '(axis, d) := ad in
      do lim <- usub n nc;
      if Nat.ltb axis lim then Ok (u * d, c, sh ++ [d]) else Ok (u, c * d, sh)) l (u, c, sh).
Proof.
  induction l as [|[i d] l IH]; intros pre u c sh Hu Hc Hm; auto. cbn [map snd] in Hm. cbn [foldM].
  destruct (usub n nc) as [lim|e|] eqn:El; cbn [rbind]; auto.
  destruct (nzp_step u d pre (map snd l) Hu) as (U1 & U2 & U3).
  destruct (nzp_step c d pre (map snd l) Hc) as (C1 & C2 & C3).
  replace (pre ++ d :: map snd l) with ((pre ++ [d]) ++ map snd l) in * by (rewrite <- app_assoc; auto).
  destruct (Nat.ltb i lim); rewrite umul_ok by lia; cbn [rbind]; apply (IH (pre ++ [d])); auto.
Qed.

Lemma foldM_fold_left {T U} (f : U -> T -> U) l : forall u, foldM (fun u x => Ok (f u x)) l u = Ok (fold_left f l u).
Proof. induction l as [|x l IH]; intros u; simpl; auto. Qed.

Lemma rhs_loop nc l : forall pre u c sh,
  u <= nonzero_product pre -> c <= nonzero_product pre ->
  nonzero_product (pre ++ map snd l) <= M ->
  foldM (fun st (ad : nat * nat) =>
      let '(u, c, sh) := st in
      let '(axis, d) := ad in
      if Nat.ltb axis nc then do c' <- umul M c d; Ok (u, c', sh)
      else do u' <- umul M u d; Ok (u', c, sh ++ [d])) l (u, c, sh)
  = Ok (fold_left (fun st (ad : nat * nat) =>
      let '(u, c, sh) := st in
      let '(axis, d) := ad in
      if Nat.ltb axis nc then (u, c * d, sh) else (u * d, c, sh ++ [d])) l (u, c, sh)).
Proof.
  induction l as [|[i d] l IH]; intros pre u c sh Hu Hc Hm; auto. cbn [map snd] in Hm. cbn [foldM fold_left].
  destruct (nzp_step u d pre (map snd l) Hu) as (U1 & U2 & U3).
  destruct (nzp_step c d pre (map snd l) Hc) as (C1 & C2 & C3).
  replace (pre ++ d :: map snd l) with ((pre ++ [d]) ++ map snd l) in * by (rewrite <- app_assoc; auto).
  destruct (Nat.ltb i nc); rewrite umul_ok by lia; cbn [rbind]; apply (IH (pre ++ [d])); auto.
Qed.

Lemma map_snd_combine (sh : list nat) : map snd (combine (seq 0 (length sh)) sh) = sh.
Proof.
  generalize 0. induction sh as [|d sh IH]; intros n; simpl; auto. rewrite IH. auto.
Qed.

Lemma tfp_checked l r n : nonzero_product l <= M -> nonzero_product r <= M ->
  tfp_from_shapes_c M l r n = tfp_from_shapes l r n.
Proof.
  intros Hl Hr. unfold tfp_from_shapes_c, tfp_from_shapes.
  rewrite (lhs_loop (length l) n _ []) by (cbn [app]; rewrite ?map_snd_combine; auto).
  destruct (foldM _ _ (1, 1, [])) as [[[u c] sh]|e|]; cbn [rbind]; auto.
  rewrite (rhs_loop n _ []) by (cbn [app]; rewrite ?map_snd_combine; auto).
  cbn [rbind]. destruct (fold_left _ _ _) as [[? ?] ?]. auto.
Qed.

Lemma tfp_new_checked sc lhs rhs out size : sized sc [lhs; rhs] out size ->
  nonzero_product (map size lhs) <= M -> nonzero_product (map size rhs) <= M ->
  tfp_new_c M sc = tfp_new sc.
Proof.
  intros HS Hl Hr. unfold tfp_new_c, tfp_new.
  rewrite (sc_ops2 sc lhs rhs out size HS). cbn [length Nat.eqb rassert rbind]. unfold index. cbn [nth_error unwrap rbind].
  rewrite !(sizes2 sc lhs rhs out size HS) by (intros c Hc; apply in_or_app; auto).
  destruct (usub _ _); cbn [rbind]; auto. destruct (rassert _); cbn [rbind]; auto.
  apply tfp_checked; auto.
Qed.

(** ** TensordotGeneral *)

Lemma axis_lengths_all sh : axis_lengths sh (seq 0 (length sh)) = sh.
Proof.
  unfold axis_lengths. apply nth_ext with (d := 0) (d' := 0); [rewrite map_length, seq_length; auto|].
  intros n Hn. rewrite map_length, seq_length in Hn.
  rewrite (nth_indep _ 0 (nth 0 sh 0)) by (rewrite map_length, seq_length; auto).
  rewrite (map_nth (fun k => nth k sh 0)). rewrite seq_nth by auto. auto.
Qed.

Lemma mapM_index_Ok sh axes l : mapM (index sh) axes = Ok l ->
  Forall (fun k => k < length sh) axes /\ l = axis_lengths sh axes.
Proof.
  revert l; induction axes as [|k axes IH]; simpl; intros l H; [injection H as <-; auto|].
  unfold index in H at 1. destruct (nth_error sh k) as [d|] eqn:E; [|discriminate].
  cbn [unwrap rbind] in H. destruct (mapM (index sh) axes) as [l'|e|]; try discriminate.
  injection H as <-. destruct (IH l' eq_refl) as [H1 ->]. split.
  - constructor; auto. apply nth_error_Some. congruence.
  - f_equal. apply nth_error_nth with (d := 0) in E. auto.
Qed.

Lemma axes_product sh axes axes' : Permutation (axes ++ axes') (seq 0 (length sh)) ->
  nonzero_product (axis_lengths sh axes ++ axis_lengths sh axes') = nonzero_product sh.
Proof.
  intros H. transitivity (nonzero_product (axis_lengths sh (seq 0 (length sh)))); [|rewrite axis_lengths_all; auto].
  unfold axis_lengths. rewrite <- map_app. apply nzp_perm. apply Permutation_map. auto.
Qed.

Lemma nodup_length_NoDup (l : list nat) : length l = length (nodup Nat.eq_dec l) -> NoDup l.
Proof.
  intros H. eapply NoDup_incl_NoDup with (l := nodup Nat.eq_dec l).
  - apply NoDup_nodup.
  - lia.
  - intros x. apply nodup_In.
Qed.

Lemma tg_axes_checked l r la ra order : nonzero_product l <= M -> nonzero_product r <= M ->
  tg_from_axes_c M l r la ra order = tg_from_axes l r la ra order.
Proof.
  intros Hl Hr. unfold tg_from_axes_c, tg_from_axes.
  destruct (Nat.eqb_spec (length la) (length ra)) as [E0|]; cbn [rassert rbind]; auto.
  destruct (Nat.eqb_spec (length la) (length (nodup Nat.eq_dec la))) as [E1|]; cbn [rassert rbind]; auto.
  destruct (Nat.eqb_spec (length la) (length (nodup Nat.eq_dec ra))) as [E2|]; cbn [rassert rbind]; auto.
  destruct (mapM (index l) la) as [lb| |] eqn:E3; cbn [rbind]; auto.
  destruct (mapM (index r) ra) as [rf| |] eqn:E4; cbn [rbind]; auto.
  destruct (mapM (index l) (other_axes _ _)) as [lf| |] eqn:E5; cbn [rbind]; auto.
  destruct (mapM (index r) (other_axes _ _)) as [rb| |] eqn:E6; cbn [rbind]; auto.
  apply mapM_index_Ok in E3 as [B1 ->]. apply mapM_index_Ok in E4 as [B2 ->].
  apply mapM_index_Ok in E5 as [_ ->]. apply mapM_index_Ok in E6 as [_ ->].
  rewrite tfp_checked; auto; rewrite axes_product; auto.
  - apply free_axes_perm. split; auto. apply nodup_length_NoDup. auto.
  - eapply Permutation_trans; [apply Permutation_app_comm|]. apply free_axes_perm. split; auto.
    apply nodup_length_NoDup. lia.
Qed.

Lemma tg_new_checked sc lhs rhs out size : sized sc [lhs; rhs] out size ->
  nonzero_product (map size lhs) <= M -> nonzero_product (map size rhs) <= M ->
  tg_new_c M sc = tg_new sc.
Proof.
  intros HS Hl Hr. unfold tg_new_c, tg_new.
  rewrite (sc_ops2 sc lhs rhs out size HS). cbn [length Nat.eqb rassert rbind]. unfold index. cbn [nth_error unwrap rbind].
  rewrite !(sizes2 sc lhs rhs out size HS) by (intros c Hc; apply in_or_app; auto). cbn [rbind].
  unfold tg_from_indices_c, tg_from_indices.
  destruct (find_outputs_in_inputs_unique _ lhs); cbn [rbind]; auto.
  destruct (find_outputs_in_inputs_unique _ rhs); cbn [rbind]; auto.
  destruct (find_outputs_in_inputs_unique _ _); cbn [rbind]; auto.
  apply tg_axes_checked; auto.
Qed.

(** ** StackedTensordotGeneral *)

Section Stacked.
Variables (sc : sized_contraction) (lhs rhs out : list char) (size : char -> nat).
Hypothesis HS : sized sc [lhs; rhs] out size.
Hypothesis Hs : simplified lhs rhs out.
Hypothesis Hl : nonzero_product (map size lhs) <= M.
Hypothesis Hr : nonzero_product (map size rhs) <= M.

Lemma stack_loop o : forall (pre : list char) a,
  (forall c, In c o -> In c lhs \/ In c rhs) ->
  NoDup (pre ++ filter (both lhs rhs) o) -> incl pre lhs ->
  sa_lhs_stack_len a <= nonzero_product (map size pre) ->
  sa_rhs_stack_len a <= nonzero_product (map size pre) ->
  let xs := combine (combine (map (fun o => position o lhs) o) (map (fun o => position o rhs) o)) o in
  foldM (stack_step_c M (sc_output_size sc)) xs a = foldM (stack_step (sc_output_size sc)) xs a.
Proof.
  induction o as [|c o IH]; intros pre a Hin Hn Hi H1 H2; auto.
  cbn [map combine foldM]. cbn [filter] in Hn. unfold both in Hn at 1.
  rewrite <- (position_mem c lhs), <- (position_mem c rhs) in Hn.
  destruct (position c lhs) as [lp|] eqn:El, (position c rhs) as [rp|] eqn:Er; cbn [andb] in Hn;
    cbn [stack_step_c stack_step];
    try (destruct (size_of _ c) as [d| |]; cbn [rbind]; auto;
         apply (IH pre); auto; intros x Hx; apply Hin; simpl; auto).
  - rewrite (size_of_pair sc lhs rhs out size HS) by (apply Hin; simpl; auto). cbn [rbind].
    destruct (nzp_step _ (size c) (map size pre) [] H1) as (U1 & U2 & U3).
    destruct (nzp_step _ (size c) (map size pre) [] H2) as (C1 & C2 & C3).
    assert (Hb : nonzero_product (map size (pre ++ [c])) <= M).
    { eapply Nat.le_trans; [|exact Hl]. apply nzp_incl.
      - apply NoDup_app_elim in Hn as (Hn & Hn' & Hd). inversion Hn'; subst.
        apply NoDup_app_intro; auto; [repeat constructor; simpl; tauto|].
        intros x Hx [<-|[]]. apply (Hd c); simpl; auto.
      - intros x Hx. apply in_app_iff in Hx as [Hx|[<-|[]]]; auto.
        apply position_Some_In in El. auto. }
    rewrite map_app in Hb. cbn [map] in Hb.
    rewrite !umul_ok by lia. cbn [rbind].
    apply (IH (pre ++ [c])); cbn [sa_lhs_stack_len sa_rhs_stack_len]; auto.
    + intros x Hx. apply Hin; simpl; auto.
    + rewrite <- app_assoc. exact Hn.
    + intros x Hx. apply in_app_iff in Hx as [Hx|[<-|[]]]; auto. apply position_Some_In in El. auto.
    + rewrite map_app. auto.
    + rewrite map_app. auto.
  - auto.
Qed.

Lemma stacked_new_checked : stacked_new_c M sc = stacked_new sc.
Proof.
  destruct Hs as [Nl Nr No Hi Ul Ur]. unfold stacked_new_c, stacked_new.
  pose proof HS as (Ec & _ & _). rewrite Ec.
  cbn [contraction_of operand_indices output_indices length Nat.eqb rassert rbind].
  unfold index. cbn [nth_error unwrap rbind].
  rewrite !maybe_find_ok by auto. cbn [rbind].
  assert (Hout : forall c, In c out -> In c lhs \/ In c rhs) by (intros c Hc; apply in_app_iff, Hi; auto).
  rewrite (stack_loop out []); auto; [|apply NoDup_filter; auto|intros x []].
  set (U := filter (only lhs rhs) out). set (V := filter (only rhs lhs) out).
  set (C := filter (fun c => negb (mem c out)) lhs).
  rewrite (stack_fold sc lhs rhs out size HS out) by auto. fold U V.
  cbn [rbind].
  rewrite (contracted_fold sc lhs rhs out size HS out).
  2:{ intros [i c] Hic. apply in_combine_r in Hic. cbn [snd]. auto. }
  set (X := filter (fun ic => negb (mem (snd ic) out)) (combine (seq 0 (length lhs)) lhs)).
  assert (XC : map snd X = C).
  { unfold X, C. clear. generalize 0. induction lhs as [|c l IH]; intros k; auto.
    cbn [length seq combine filter snd]. destruct (negb (mem c out)); cbn [map snd]; rewrite IH; auto. }
  assert (XS : map (fun ic => size (snd ic)) X = map size C) by (rewrite <- XC, map_map; auto).
  rewrite XS. cbn [app rbind sa_lhs_stack_axes sa_rhs_stack_axes sa_stack_indices
    sa_lhs_outer_axes sa_lhs_outer_indices sa_rhs_outer_axes sa_rhs_outer_indices
    sa_lhs_uncontracted_shape sa_rhs_uncontracted_shape sa_lhs_stack_len sa_rhs_stack_len skipn].
  destruct (rassert _); cbn [rbind]; auto.
  destruct (mapM _ U); cbn [rbind]; auto. destruct (mapM _ V); cbn [rbind]; auto.
  destruct (find_outputs_in_inputs_unique _ _); cbn [rbind]; auto.
  destruct (mapM _ _); cbn [rbind]; auto.
  assert (IU : forall c, In c U <-> In c out /\ In c lhs /\ ~ In c rhs).
  { intros c. unfold U, only. rewrite filter_In, andb_true_iff, negb_true_iff, mem_In, mem_false. tauto. }
  assert (IV : forall c, In c V <-> In c out /\ In c rhs /\ ~ In c lhs).
  { intros c. unfold V, only. rewrite filter_In, andb_true_iff, negb_true_iff, mem_In, mem_false. tauto. }
  assert (IC : forall c, In c C <-> In c lhs /\ ~ In c out).
  { intros c. unfold C. rewrite filter_In, negb_true_iff, mem_false. tauto. }
  assert (NU : NoDup U) by (apply NoDup_filter; auto).
  assert (NV : NoDup V) by (apply NoDup_filter; auto).
  assert (NC : NoDup C) by (apply NoDup_filter; auto).
  rewrite tfp_checked; auto; rewrite <- map_app.
  - eapply Nat.le_trans; [|exact Hl]. apply nzp_incl.
    + apply NoDup_app_intro; auto. intros c. rewrite IU, IC. tauto.
    + intros c. rewrite in_app_iff, IU, IC. tauto.
  - eapply Nat.le_trans; [|exact Hr]. apply nzp_incl.
    + apply NoDup_app_intro; auto. intros c. rewrite IV, IC. tauto.
    + intros c. rewrite in_app_iff, IV, IC. specialize (Ul c). tauto.
Qed.

End Stacked.

(** ** A step, a path, tensordot *)

Lemma pair_op_checked m sc lhs rhs out size : sized sc [lhs; rhs] out size -> simplified lhs rhs out ->
  nonzero_product (map size lhs) <= M -> nonzero_product (map size rhs) <= M ->
  pair_op_new_c M m sc = pair_op_new m sc.
Proof.
  intros HS Hs Hl Hr. destruct m; auto; cbn [pair_op_new_c pair_op_new].
  - rewrite (tfp_new_checked sc lhs rhs out size); auto.
  - rewrite (tg_new_checked sc lhs rhs out size); auto.
  - rewrite (stacked_new_checked sc lhs rhs out size); auto.
Qed.

Lemma pair_contraction_checked h k sc lhs rhs out size : hash_ok h -> sized sc [lhs; rhs] out size ->
  nonzero_product (map size lhs) <= M -> nonzero_product (map size rhs) <= M ->
  pair_contraction_new_c M h k sc = pair_contraction_new h k sc.
Proof.
  intros Hh HS Hl Hr. unfold pair_contraction_new_c, pair_contraction_new.
  rewrite (sc_ops2 sc lhs rhs out size HS), (sc_out2 sc lhs rhs out size HS).
  cbn [length Nat.eqb rassert rbind]. unfold index. cbn [nth_error unwrap rbind].
  pose proof (@plain_backend_ok unit unit_scalar) as Hlay.
  destruct (simplification_ok h size Hh (Sc := unit_scalar) _ Hlay (0 :: k) lhs rhs out sc [lhs; rhs] out HS)
    as (ls & El & Nl & Il & _).
  { simpl. intros c Hc. apply in_or_app; auto. }
  destruct (simplification_ok h size Hh (Sc := unit_scalar) _ Hlay (1 :: k) rhs lhs out sc [lhs; rhs] out HS)
    as (rs & Er & Nr & Ir & _).
  { simpl. rewrite app_nil_r. intros c Hc. apply in_or_app; auto. }
  rewrite El, Er. cbn [rbind]. fold (new_labels ls lhs) (new_labels rs rhs).
  set (l' := new_labels ls lhs) in *. set (r' := new_labels rs rhs) in *.
  pose proof HS as (_ & [Ho Hi] & _). simpl in Hi. rewrite app_nil_r in Hi.
  destruct (subset_ok h (2 :: k) sc [lhs; rhs] out size [l'; r'] out Hh HS) as (red & Es & HSr).
  { simpl. rewrite !app_nil_r. intros c Hc. apply in_app_iff in Hc. apply in_app_iff.
    rewrite Il, Ir in Hc. tauto. }
  { split; auto. simpl. rewrite app_nil_r. intros c Hc. specialize (Hi c Hc).
    rewrite in_app_iff in Hi. apply in_app_iff. rewrite Il, Ir. tauto. }
  rewrite Es. cbn [unwrap_res rbind].
  assert (Hs : simplified l' r' out).
  { split; auto.
    - intros c Hc. specialize (Hi c Hc). rewrite in_app_iff in *. rewrite Il, Ir. tauto.
    - intros c. rewrite Il, Ir. tauto.
    - intros c. rewrite Il, Ir. tauto. }
  destruct (pair_summary_new red) as [sm| |]; cbn [rbind]; auto.
  rewrite (pair_op_checked _ red l' r' out size); auto.
  - eapply Nat.le_trans; [|exact Hl]. apply nzp_incl; auto. intros c. rewrite Il. tauto.
  - eapply Nat.le_trans; [|exact Hr]. apply nzp_incl; auto. intros c. rewrite Ir. tauto.
Qed.

(** Both operands of a compiled step have a representable size. *)
Definition step_fits (size : char -> nat) (st : pair_step) : Prop :=
  Forall (fun ix => nonzero_product (map size ix) <= M) (operand_indices (sc_contraction (ps_sc st))).

Lemma chain_sized size out i L todo js lhs steps : chain size out i L todo js lhs steps ->
  Forall (fun st => exists l r o, sized (ps_sc st) [l; r] o size) steps.
Proof. induction 1; constructor; cbn [ps_sc]; eauto. Qed.

Lemma from_path_checked h k s shapes ops out size sc strategy order k0 k1 :
  hash_ok h -> call_ok s shapes ops out size -> strategy = Naive \/ strategy = Reverse ->
  from_string_and_shapes h k0 s shapes = Ok sc ->
  generate_optimized_order h k1 sc strategy = Ok order ->
  (forall steps, order = Pairs steps -> Forall (step_fits size) steps) ->
  from_path_c M h k order = from_path h k order.
Proof.
  intros Hh Hc Hst E Eo Hf. destruct order as [sc'|steps]; [reflexivity|]. cbn [from_path_c from_path].
  specialize (Hf steps eq_refl).
  destruct (chosen_order h Hh k0 k1 s shapes ops out size sc strategy Hc Hst E)
    as [(sc' & Hl & E2 & H1 & H2)|(i0 & js & steps' & Hl & Eor & Hp & E2 & Hch)]; [congruence|].
  rewrite Eo in E2. injection E2 as <-. apply chain_sized in Hch.
  rewrite (mapM_ext_in _ (fun ist => pair_contraction_new h (fst ist :: 9 :: k) (ps_sc (snd ist)))); [reflexivity|].
  intros [n st] Hi. apply in_combine_r in Hi. cbn [fst snd].
  rewrite Forall_forall in Hf, Hch. destruct (Hch st Hi) as (l & r & o & HS). specialize (Hf st Hi).
  unfold step_fits in Hf. rewrite (sc_ops2 _ l r o size HS) in Hf. inversion Hf; subst. inversion H2; subst.
  apply (pair_contraction_checked h _ _ l r o size); auto.
Qed.

Lemma tensordot_checked {A} {Sc : Scalar A} lay (a b : arr A) la ra :
  nonzero_product (a_shape a) <= M -> nonzero_product (a_shape b) <= M ->
  tensordot_c M lay a b la ra = tensordot lay a b la ra.
Proof.
  intros Ha Hb. unfold tensordot_c, tensordot.
  destruct (rassert _); cbn [rbind]; auto. destruct (usub _ _); cbn [rbind]; auto.
  rewrite tg_axes_checked; auto.
Qed.

End Facts.
