(** What a pair step computes, term by term and in order, with scalars that satisfy no laws. *)
From Verif Require Import Base BaseFacts NDArray Validation Optimizers Strategies Singleton Pair Path Api Spec
  ParserFacts ValidationFacts ValidationMain SumFacts ArrayFacts TensordotFacts TensordotMain SingletonFacts PairFacts StackedFacts
  PairMain PathFacts EinsumMain ReproFacts NdLayoutFacts TwinFacts.
From Coq Require Import Lia Sorted.

(** The order in which the labels of both operands that the output lacks are summed: if some label is one
    of both operands and the output, the order they have in the first operand, otherwise alphabetical. *)
Definition sum_labels (lhs rhs out : list char) : list char :=
  if existsb (fun c => mem c rhs && mem c out) lhs then filter (fun c => negb (mem c out)) lhs
  else sort_chars (filter (fun c => negb (mem c out)) (distinct (lhs ++ rhs))).

Section Exact.
Context {A : Type} {Sc : Scalar A}.
Variable lay : backend A.
Hypothesis Hlay : backend_runs lay.
Variable add : list (A * A) -> A.
Hypothesis Hadd : forall a b idx l, add_products lay a b idx l = add l.
Variable size : char -> nat.

(** The factors of the products for one element, the labels [cs] running through all their values. *)
Definition factors_of (cs : list char) (F G : env -> A) (e : env) : list (A * A) :=
  map (fun z => (F (over cs z e), G (over cs z e))) (indices (map size cs)).

(** The value of a pair step: one product if the operands and the output have the same labels or one operand
    is a scalar, otherwise the sum that a matrix product makes of the products. *)
Definition pair_value (lhs rhs out : list char) (F G : env -> A) (e : env) : A :=
  if forallb (fun c => mem c lhs && mem c rhs && mem c out) (lhs ++ rhs) then smul (F e) (G e)
  else match lhs, rhs with
       | [], _ => smul (G e) (F e)
       | _, [] => smul (F e) (G e)
       | _, _ => add (factors_of (sum_labels lhs rhs out) F G e)
       end.

Lemma tfp_exact (a b : arr A) U C V F G :
  NoDup (U ++ C) -> NoDup (C ++ V) -> lrep size a (U ++ C) F -> lrep size b (C ++ V) G ->
  exists r, run_tfp lay (tfp_for (map size U) (map size C) (map size V)) a b = Ok r
    /\ lrep size r (U ++ V) (fun e => add (factors_of C F G e)).
Proof.
  intros Hl Hr Ha Hb.
  pose proof (lrep_holds size a _ F Hl Ha) as Ha'. pose proof (lrep_holds size b _ G Hr Hb) as Hb'.
  rewrite map_app in Ha', Hb'.
  destruct (run_tfp_exact lay add Hadd a b _ _ _ _ _ _ Ha' Hb' eq_refl) as (r & w & E & H & Hw).
  exists r. split; [exact E|]. rewrite <- map_app in H. apply holds_lrep in H.
  eapply lrep_ext; [|exact H]. intros e He. cbn beta.
  rewrite Hw by (rewrite <- map_app; apply in_bounds_map; auto). f_equal.
  unfold factors_of. rewrite <- map_unflat, map_map. apply map_ext_in. intros n Hn. apply in_seq in Hn.
  assert (Hz : in_bounds (map size C) (unflat (map size C) n) = true) by (apply unflat_in_bounds; lia).
  pose proof (contract_value size eq a b U [] [] V C F G F G e) as Hv. cbn [app map] in Hv.
  rewrite app_nil_r in Hv.
  destruct (Hv Hl Hr Ha Hb (fun _ _ => eq_refl) (fun _ _ => eq_refl) He _ Hz) as [E1 E2]. rewrite app_nil_r in E1.
  rewrite map_app, map_length, <- (map_length e U), firstn_exact, skipn_exact. rewrite E1, E2. auto.
Qed.

Lemma tg_exact (a b : arr A) lhs rhs C pl pr order out F G :
  let U := filter (fun c => negb (mem c C)) lhs in
  let V := filter (fun c => negb (mem c C)) rhs in
  NoDup lhs -> NoDup rhs -> NoDup C -> incl C lhs -> incl C rhs ->
  (forall c, In c U -> ~ In c V) ->
  Forall2 (fun o k => position o lhs = Some k) (U ++ C) pl ->
  Forall2 (fun o k => position o rhs = Some k) (C ++ V) pr ->
  Permutation out (U ++ V) ->
  Forall2 (fun o k => position o (U ++ V) = Some k) out order ->
  lrep size a lhs F -> lrep size b rhs G ->
  exists r, run_tg lay (mkTG pl pr (tfp_for (map size U) (map size C) (map size V)) order) a b = Ok r
    /\ lrep size r out (fun e => add (factors_of C F G e)).
Proof.
  intros U V Hl Hr HC Il Ir Hd Fl Fr Hp Fo Ha Hb.
  unfold run_tg, permutation_view. cbn [tg_lhs_permutation tg_rhs_permutation tg_fixed tg_output_permutation].
  assert (PL : Permutation (U ++ C) lhs).
  { eapply Permutation_trans; [apply Permutation_app_comm|]. apply filter_rest_perm; auto. }
  assert (PR : Permutation (C ++ V) rhs) by (apply filter_rest_perm; auto).
  assert (NL : NoDup (U ++ C)) by (eapply Permutation_NoDup; [apply Permutation_sym|]; eauto).
  assert (NR : NoDup (C ++ V)) by (eapply Permutation_NoDup; [apply Permutation_sym|]; eauto).
  assert (NO : NoDup (U ++ V)).
  { apply NoDup_app_intro; auto.
    - apply NoDup_app_remove_r in NL; auto.
    - apply NoDup_app_remove_l in NR; auto. }
  destruct (permuted_lrep size a lhs (U ++ C) F pl) as (l & El & Hpl); auto.
  destruct (permuted_lrep size b rhs (C ++ V) G pr) as (r & Er & Hpr); auto.
  rewrite El, Er. cbn [rbind].
  destruct (tfp_exact l r U C V F G) as (d & Ed & Hdd); auto.
  rewrite Ed. cbn [rbind]. apply permutation_contract_lrep with (ls := U ++ V); auto.
Qed.

Lemma stacked_exact (a b : arr A) lhs rhs S U C V pl pr order out F0 G0 :
  NoDup lhs -> NoDup rhs -> NoDup (S ++ U ++ V) ->
  Permutation (S ++ U ++ C) lhs -> Permutation (S ++ C ++ V) rhs ->
  Forall2 (fun o k => position o lhs = Some k) (S ++ U ++ C) pl ->
  Forall2 (fun o k => position o rhs = Some k) (S ++ C ++ V) pr ->
  Permutation out (S ++ U ++ V) ->
  Forall2 (fun o k => position o (S ++ U ++ V) = Some k) out order ->
  lrep size a lhs F0 -> lrep size b rhs G0 ->
  exists r, run_stacked lay
      (mkST pl pr ([prod (map size S)] ++ map size U ++ map size C)
         ([prod (map size S)] ++ map size C ++ map size V)
         ([prod (map size S)] ++ map size U ++ map size V)
         (tfp_for (map size U) (map size C) (map size V))
         (map size (S ++ U ++ V)) order) a b = Ok r
    /\ lrep size r out (fun e => add (factors_of C F0 G0 e)).
Proof.
  intros Hl Hr Hn Pl Pr Fl Fr Po Fo Ha Hb.
  assert (NL : NoDup (S ++ U ++ C)) by (eapply Permutation_NoDup; [apply Permutation_sym|]; eauto).
  assert (NR : NoDup (S ++ C ++ V)) by (eapply Permutation_NoDup; [apply Permutation_sym|]; eauto).
  unfold run_stacked, permutation_view.
  cbn [st_lhs_permutation st_rhs_permutation st_lhs_output_shape st_rhs_output_shape
    st_intermediate_shape st_fixed st_output_shape st_output_permutation].
  destruct (permuted_lrep size a lhs (S ++ U ++ C) F0 pl) as (l & El & Hpl); auto.
  destruct (permuted_lrep size b rhs (S ++ C ++ V) G0 pr) as (r & Er & Hpr); auto.
  rewrite El, Er. cbn [rbind].
  pose proof (lrep_holds size l _ F0 NL Hpl) as HLh. pose proof (lrep_holds size r _ G0 NR Hpr) as HRh.
  rewrite !map_app in HLh, HRh.
  set (ss := map size S) in *. set (su := map size U) in *.
  set (sc := map size C) in *. set (sv := map size V) in *.
  set (f := fun idx => F0 (bind (S ++ U ++ C) idx)) in *.
  set (g := fun idx => G0 (bind (S ++ C ++ V) idx)) in *.
  rewrite (holds_iter _ _ _ HLh), (holds_iter _ _ _ HRh). cbn [rbind].
  rewrite !from_shape_vec_ok
    by (cbn [app]; rewrite prod_cons, !prod_app, ?Nat.mul_assoc; reflexivity).
  cbn [rbind app].
  assert (HL2 : holds (mk_c (prod ss :: su ++ sc) (map f (indices (ss ++ su ++ sc))))
                  (prod ss :: su ++ sc) (refold (ss ++ su ++ sc) (prod ss :: su ++ sc) f)).
  { apply holds_reshape_copy. rewrite prod_cons, !prod_app, ?Nat.mul_assoc; reflexivity. }
  assert (HR2 : holds (mk_c (prod ss :: sc ++ sv) (map g (indices (ss ++ sc ++ sv))))
                  (prod ss :: sc ++ sv) (refold (ss ++ sc ++ sv) (prod ss :: sc ++ sv) g)).
  { apply holds_reshape_copy. rewrite prod_cons, !prod_app, ?Nat.mul_assoc; reflexivity. }
  destruct (outer_iter_holds _ _ _ _ HL2) as (lsubs & ELs & LLs & HLs).
  destruct (outer_iter_holds _ _ _ _ HR2) as (rsubs & ERs & LRs & HRs).
  rewrite ELs, ERs. cbn [rbind]. unfold zeros, mk_c at 1. cbn [a_shape].
  unfold index at 1. cbn [nth_error unwrap rbind].
  set (val := fun (k : nat) (idx : list nat) =>
    add (tfp_terms su sc (fun y => f (unflat ss k ++ y)) (fun y => g (unflat ss k ++ y)) idx)).
  assert (Hval : forall k, k < prod ss -> exists l r x, nth_error lsubs k = Some l
     /\ nth_error rsubs k = Some r
     /\ run_tfp lay (tfp_for su sc sv) l r = Ok x /\ holds x (su ++ sv) (val k)).
  { intros k Hk. destruct (HLs k Hk) as (lk & E1 & H1). destruct (HRs k Hk) as (rk & E2 & H2).
    assert (H1' : holds lk (su ++ sc) (fun y => f (unflat ss k ++ y))).
    { eapply ArrayFacts.holds_ext; [|exact H1]. intros idx Hi. apply refold_collapse; auto. }
    assert (H2' : holds rk (sc ++ sv) (fun y => g (unflat ss k ++ y))).
    { eapply ArrayFacts.holds_ext; [|exact H2]. intros idx Hi. apply refold_collapse; auto. }
    destruct (run_tfp_exact lay add Hadd lk rk su sc sc sv _ _ H1' H2' eq_refl) as (x & v & Ex & Hx & Hs).
    exists lk, rk, x. split; auto. split; auto. split; [exact Ex|].
    eapply ArrayFacts.holds_ext; [|exact Hx]. intros idx Hi. rewrite Hs by auto. reflexivity. }
  destruct (buffer_loop lay (tfp_for su sc sv) lsubs rsubs (prod ss) (su ++ sv) val)
    with (m := prod ss) (k := 0) (data := repeat (szero (A := A)) (prod (prod ss :: su ++ sv)))
    as (data' & Eb & Hbuf); auto.
  { rewrite repeat_length, prod_cons. auto. }
  { apply zeros_holds. }
  change (mk_c (prod ss :: su ++ sv) (repeat (szero (A := A)) (prod (prod ss :: su ++ sv))))
    with (buffer (prod ss) (su ++ sv) (repeat (szero (A := A)) (prod (prod ss :: su ++ sv)))).
  rewrite Eb. cbn [rbind].
  destruct (into_shape_standard _ _ (map size (S ++ U ++ V)) _ Hbuf) as (rs & Ers & Hrs & _).
  { apply default_standard. }
  { rewrite prod_cons, !map_app, !prod_app, ?Nat.mul_assoc. reflexivity. }
  rewrite Ers. cbn [rbind].
  apply (permutation_contract_lrep size lay Hlay) with (ls := S ++ U ++ V); auto.
  apply holds_lrep in Hrs. eapply lrep_ext; [|exact Hrs].
  intros e He. cbn beta. rewrite !map_app. fold ss su sv.
  assert (Re : forall L, incl L (S ++ U ++ V) -> in_bounds (map size L) (map e L) = true).
  { intros L HL'. apply in_bounds_map. eapply in_range_incl; eauto. }
  rewrite refold_expand.
  2:{ apply Re. intros c Hc. apply in_or_app; auto. }
  2:{ unfold su, sv. rewrite <- !map_app. apply Re. intros c Hc. apply in_or_app; auto. }
  assert (BS : in_bounds ss (map e S) = true) by (apply Re; intros c Hc; apply in_or_app; auto).
  pose proof (flat_lt _ _ BS) as Hlt.
  cbn [partial_value]. destruct (Nat.ltb_spec (flat ss (map e S)) (prod ss)); [|lia].
  unfold val. rewrite (unflat_flat _ _ BS). f_equal.
  unfold tfp_terms, factors_of. fold sc. rewrite <- map_unflat, map_map. apply map_ext_in. intros n Hn'. apply in_seq in Hn'.
  assert (Hz : in_bounds sc (unflat sc n) = true) by (apply unflat_in_bounds; lia).
  pose proof (contract_value size eq l r (S ++ U) [] S V C F0 G0 F0 G0 e) as Hv.
  cbn [map] in Hv. rewrite !app_nil_r, <- !app_assoc in Hv.
  unshelve epose proof (Hv _ _ _ _ _ _ _ (unflat sc n) Hz) as [E1 E2]; auto.
  - eapply in_range_incl; [|exact He]. intros c. cbn [app]. rewrite !in_app_iff. tauto.
  - rewrite map_app, <- app_assoc, app_nil_r in E1. unfold su. rewrite map_length.
    rewrite <- (map_length e U), firstn_exact, skipn_exact. unfold f, g. rewrite E1, E2. auto.
Qed.

(** ** The choice *)

Lemma pair_op_exact sc lhs rhs out : sized sc [lhs; rhs] out size -> simplified lhs rhs out ->
  exists s op, pair_summary_new sc = Ok s /\ pair_op_new (pair_strategy s) sc = Ok op
    /\ forall a b F G, lrep size a lhs F -> lrep size b rhs G ->
         exists r, run_pair lay op a b = Ok r /\ lrep size r out (pair_value lhs rhs out F G).
Proof.
  intros HS Hs. pose proof Hs as [Hl Hr Ho Hi Ul Ur].
  pose proof (pair_summary_ok sc lhs rhs out size HS Hs) as Es. cbv zeta in Es.
  set (lr := filter (fun c => mem c rhs) lhs) in *. set (st := filter (fun c => mem c out) lr) in *.
  assert (Ilr : forall c, In c lr <-> In c lhs /\ In c rhs).
  { intros c. unfold lr. rewrite filter_In, mem_In. tauto. }
  assert (Nlr : NoDup lr) by (apply NoDup_filter; auto).
  assert (H1 : length st <= length lr) by apply filter_length_le.
  assert (H2 : length lr <= length lhs) by apply filter_length_le.
  assert (H3 : length lr <= length rhs).
  { apply NoDup_incl_length; auto. intros c Hc. apply Ilr in Hc. tauto. }
  rewrite Es.
  match goal with |- exists s op, Ok ?x = Ok s /\ _ => exists x end.
  unfold pair_strategy.
  cbn [num_contracted_axes num_lhs_outer_axes num_rhs_outer_axes num_stacked_axes].
  assert (Zc : length lr - length st = 0 -> forall c, In c lhs -> In c rhs -> In c out).
  { intros H c Hc1 Hc2. apply mem_In. unfold st in *.
    apply (filter_length_all (fun c => mem c out) lr); [lia|]. apply Ilr; auto. }
  assert (Zl : length lhs - length lr = 0 -> forall c, In c lhs -> In c rhs).
  { intros H c Hc. apply mem_In. apply (filter_length_all (fun c => mem c rhs) lhs); auto.
    fold lr. lia. }
  assert (Zr : length rhs - length lr = 0 -> forall c, In c rhs -> In c lhs).
  { intros H c Hc. assert (Hp : incl rhs lr).
    { apply NoDup_length_incl; auto; [lia|]. intros d Hd. apply Ilr in Hd. tauto. }
    apply Hp, Ilr in Hc. tauto. }
  assert (Zs : length st = 0 -> forall c, In c lhs -> In c rhs -> ~ In c out).
  { intros H c Hc1 Hc2 Hc3. unfold st in H.
    assert (Hin : In c lr) by (apply Ilr; auto).
    pose proof (filter_length_zero (fun c => mem c out) lr H c Hin) as Hf.
    apply mem_false in Hf. auto. }
  (* the converse: what the first test of [pair_value] says of the counts *)
  assert (Same : forallb (fun c => mem c lhs && mem c rhs && mem c out) (lhs ++ rhs) = true ->
            length lr - length st = 0 /\ length lhs - length lr = 0 /\ length rhs - length lr = 0).
  { intros Hb. rewrite forallb_forall in Hb.
    assert (Hb' : forall c, In c lhs \/ In c rhs -> In c lhs /\ In c rhs /\ In c out).
    { intros c Hc. specialize (Hb c). rewrite in_app_iff, !andb_true_iff, !mem_In in Hb. tauto. }
    assert (incl lr st).
    { intros c Hc. unfold st. apply filter_In. split; auto. apply mem_In. apply Ilr in Hc. apply Hb'. tauto. }
    assert (incl lhs lr). { intros c Hc. apply Ilr. split; auto. apply Hb'. auto. }
    assert (incl rhs lr). { intros c Hc. apply Ilr. split; auto. apply Hb'. auto. }
    pose proof (NoDup_incl_length Nlr H). pose proof (NoDup_incl_length Hl H0). pose proof (NoDup_incl_length Hr H4). lia. }
  assert (Some0 : existsb (fun c => mem c rhs && mem c out) lhs = negb (length st =? 0)).
  { destruct (existsb _ _) eqn:E.
    - apply existsb_exists in E as (c & Hc & E). apply andb_true_iff in E as [E1 E2]. apply mem_In in E1, E2.
      destruct (Nat.eqb_spec (length st) 0); auto. exfalso. eapply Zs; eauto.
    - destruct (Nat.eqb_spec (length st) 0) as [H|H]; auto. exfalso.
      destruct st as [|c st'] eqn:Est; [apply H; auto|].
      assert (Hc : In c (c :: st')) by (simpl; auto). rewrite <- Est in Hc. unfold st in Hc.
      apply filter_In in Hc as [Hc1 Hc2]. apply Ilr in Hc1 as [Hc1 Hc3].
      assert (existsb (fun c => mem c rhs && mem c out) lhs = true); [|congruence].
      apply existsb_exists. exists c. split; auto. apply andb_true_iff. split; auto. apply mem_In; auto. }
  (* when neither operand is a scalar and the labels are not all the same *)
  assert (General : forall C, lhs <> [] -> rhs <> [] ->
            (length lr - length st = 0 -> length lhs - length lr = 0 -> length rhs - length lr = 0 -> False) ->
            sum_labels lhs rhs out = C -> forall F G e, pair_value lhs rhs out F G e = add (factors_of C F G e)).
  { intros C Nl Nr Hns <- F G e. unfold pair_value.
    destruct (forallb _ _) eqn:E. { exfalso. destruct (Same eq_refl) as (S1 & S2 & S3). auto. }
    destruct lhs; [congruence|]. destruct rhs; [congruence|]. auto. }
  assert (Ptg : length st = 0 -> lhs <> [] -> rhs <> [] ->
            (length lr - length st = 0 -> length lhs - length lr = 0 -> length rhs - length lr = 0 -> False) ->
            exists op, pair_op_new MTensordotGeneral sc = Ok op
            /\ forall a b F G, lrep size a lhs F -> lrep size b rhs G ->
                 exists r, run_pair lay op a b = Ok r /\ lrep size r out (pair_value lhs rhs out F G)).
  { intros H Nl Nr Hns. destruct (tg_compiles sc lhs rhs out size HS Hs (Zs H))
      as (pl & pr & order & E & NC & Il & Ir & HUV & FL & FR & PO & FO).
    cbn [pair_op_new]. rewrite E. cbn [rbind]. eexists; split; [reflexivity|].
    intros a b F G Ha Hb. cbn [run_pair].
    edestruct (tg_exact a b lhs rhs) as (r & Er & Hrr); eauto.
    exists r. split; [exact Er|]. eapply lrep_ext; [|exact Hrr]. intros e He. symmetry. apply General; auto.
    unfold sum_labels. rewrite Some0, H. cbn [negb Nat.eqb]. destruct HS as (-> & _).
    cbn [contraction_of summation_indices concat]. rewrite app_nil_r. auto. }
  assert (Pst : length st <> 0 ->
            (length lr - length st = 0 -> length lhs - length lr = 0 -> length rhs - length lr = 0 -> False) ->
            exists op, pair_op_new MStackedTensordotGeneral sc = Ok op
            /\ forall a b F G, lrep size a lhs F -> lrep size b rhs G ->
                 exists r, run_pair lay op a b = Ok r /\ lrep size r out (pair_value lhs rhs out F G)).
  { intros H Hns. destruct (stacked_compiles size sc lhs rhs out HS Hs)
      as (pl & pr & order & E & NO & PL & PR & FL & FR & PO & FO & NC & IC).
    cbn [pair_op_new]. rewrite E. cbn [rbind]. eexists; split; [reflexivity|].
    intros a b F G Ha Hb. cbn [run_pair].
    edestruct (stacked_exact a b lhs rhs) as (r & Er & Hrr); eauto.
    exists r. split; [exact Er|]. eapply lrep_ext; [|exact Hrr]. intros e He. symmetry. apply General; auto.
    - intros ->. simpl in *. lia.
    - intros ->. simpl in *. lia.
    - unfold sum_labels. rewrite Some0. destruct (Nat.eqb_spec (length st) 0); [congruence|]. auto. }
  assert (Nel : forall n, length lhs - length lr = S n -> lhs <> []) by (intros n H ->; simpl in *; lia).
  assert (Ner : forall n, length rhs - length lr = S n -> rhs <> []) by (intros n H ->; simpl in *; lia).
  destruct (length lr - length st) as [|nc] eqn:Ec.
  - specialize (Zc eq_refl).
    destruct (length lhs - length lr) as [|nl] eqn:El.
    + specialize (Zl eq_refl).
      destruct (length rhs - length lr) as [|nr] eqn:Er.
      * (* Hadamard *)
        specialize (Zr eq_refl).
        assert (Hall : forall c, In c lhs \/ In c rhs -> In c lhs /\ In c rhs /\ In c out).
        { intros c [Hc|Hc]; auto 6. }
        assert (Pl : Permutation out lhs).
        { apply NoDup_Permutation; auto. intros c. specialize (Hi c). rewrite in_app_iff in Hi. specialize (Hall c). tauto. }
        assert (Pr : Permutation out rhs).
        { apply NoDup_Permutation; auto. intros c. specialize (Hi c). rewrite in_app_iff in Hi. specialize (Hall c). tauto. }
        destruct (find_ok out lhs) as (pl & E1 & F1); auto. { intros c. apply Permutation_in; auto. }
        destruct (find_ok out rhs) as (pr & E2 & F2); auto. { intros c. apply Permutation_in; auto. }
        cbn [pair_op_new]. unfold hadamard_general_new. rewrite (sc_ops2 sc lhs rhs out size HS), (sc_out2 sc lhs rhs out size HS).
        cbn [length Nat.eqb rassert rbind]. unfold index. cbn [nth_error unwrap rbind].
        rewrite <- (Permutation_length Pl), <- (Permutation_length Pr), Nat.eqb_refl. cbn [rassert rbind].
        rewrite E1, E2. cbn [rbind]. eexists. split; [reflexivity|]. split; [reflexivity|].
        intros a b F G Ha Hb. cbn [run_pair]. unfold run_hadamard_general, permutation_view. cbn [fst snd].
        destruct (permuted_lrep size a lhs out F pl) as (l & El' & Hpl); auto.
        destruct (permuted_lrep size b rhs out G pr) as (r & Er' & Hpr); auto.
        rewrite El', Er'. cbn [rbind].
        destruct (mul_lrep size lay Hlay l r out F G) as (x & E & Hx); auto.
        exists x. split; [exact E|]. eapply lrep_ext; [|exact Hx]. intros e He. unfold pair_value.
        destruct (forallb _ _) eqn:Hb'; auto. exfalso.
        assert (forallb (fun c => mem c lhs && mem c rhs && mem c out) (lhs ++ rhs) = true); [|congruence].
        apply forallb_forall. intros c Hc. rewrite in_app_iff in Hc. rewrite !andb_true_iff, !mem_In. specialize (Hall c Hc). tauto.
      * destruct (length st) as [|ns] eqn:En.
        -- (* scalar * matrix *)
           assert (El0 : lhs = []) by (apply length_zero_iff_nil; lia).
           assert (Pr : Permutation out rhs).
           { apply NoDup_Permutation; auto. intros c. specialize (Hi c). rewrite El0 in *. specialize (Ur c). simpl in *. tauto. }
           destruct (find_ok out rhs) as (pr & E2 & F2); auto. { intros c. apply Permutation_in; auto. }
           cbn [pair_op_new]. unfold scalar_matrix_general_new. rewrite (sc_ops2 sc lhs rhs out size HS), (sc_out2 sc lhs rhs out size HS).
           cbn [length Nat.eqb rassert rbind]. unfold index. cbn [nth_error unwrap rbind].
           rewrite El0. cbn [length Nat.eqb rassert rbind]. rewrite <- (Permutation_length Pr), Nat.eqb_refl. cbn [rassert rbind]. rewrite E2. cbn [rbind].
           eexists. split; [reflexivity|]. split; [reflexivity|].
           intros a b F G Ha Hb. cbn [run_pair]. unfold run_scalar_matrix_general, permutation_view.
           destruct (permuted_lrep size b rhs out G pr) as (r & Er' & Hpr); auto. rewrite Er'. cbn [rbind].
           unfold run_scalar_matrix. rewrite (first_lrep size a F (fun _ => 0) Ha). cbn [rbind unwrap].
           destruct (mapv_lrep size lay Hlay (fun x => smul x (F (fun _ => 0))) r out G) as (x & E & Hx); auto.
           exists x. split; [exact E|]. eapply lrep_ext; [|exact Hx]. intros e He. cbn beta.
           rewrite (scalar_any size a F (fun _ => 0) e Ha). unfold pair_value. cbn [app].
           destruct rhs as [|c rhs']; [simpl in Er; discriminate|]. cbn [forallb mem existsb andb]. auto.
        -- destruct Pst as (op & E & Hp); [lia|lia|]. exists op. auto.
    + destruct (length rhs - length lr) as [|nr] eqn:Er; destruct (length st) as [|ns] eqn:En.
      * (* matrix * scalar *)
        assert (Er0 : rhs = []) by (apply length_zero_iff_nil; lia).
        assert (Pl : Permutation out lhs).
        { apply NoDup_Permutation; auto. intros c. specialize (Hi c). rewrite Er0 in *.
          specialize (Ul c). simpl in *. rewrite app_nil_r in Hi. tauto. }
        destruct (find_ok out lhs) as (pl & E2 & F2); auto. { intros c. apply Permutation_in; auto. }
        cbn [pair_op_new]. unfold matrix_scalar_general_new. rewrite (sc_ops2 sc lhs rhs out size HS), (sc_out2 sc lhs rhs out size HS).
        cbn [length Nat.eqb rassert rbind]. unfold index. cbn [nth_error unwrap rbind].
        rewrite Er0. cbn [length Nat.eqb rassert rbind]. rewrite <- (Permutation_length Pl), Nat.eqb_refl. cbn [rassert rbind]. rewrite E2. cbn [rbind].
        eexists. split; [reflexivity|]. split; [reflexivity|].
        intros a b F G Ha Hb. cbn [run_pair]. unfold run_matrix_scalar_general, permutation_view.
        destruct (permuted_lrep size a lhs out F pl) as (r & Er' & Hpr); auto. rewrite Er'. cbn [rbind].
        unfold run_matrix_scalar. rewrite (first_lrep size b G (fun _ => 0) Hb). cbn [rbind unwrap].
        destruct (mapv_lrep size lay Hlay (fun x => smul x (G (fun _ => 0))) r out F) as (x & E & Hx); auto.
        exists x. split; [exact E|]. eapply lrep_ext; [|exact Hx]. intros e He. cbn beta.
        rewrite (scalar_any size b G (fun _ => 0) e Hb). unfold pair_value.
        destruct lhs as [|c lhs']; [simpl in El; discriminate|]. clear. match goal with |- context [if ?b then _ else _] => destruct b end; auto.
      * destruct Pst as (op & E & Hp); [lia|lia|]. exists op. auto.
      * destruct Ptg as (op & E & Hp); [auto|eapply Nel; reflexivity|eapply Ner; reflexivity|lia|]. exists op. auto.
      * destruct Pst as (op & E & Hp); [lia|lia|]. exists op. auto.
  - assert (lr <> []) by (intros H; rewrite H in *; simpl in *; lia).
    assert (lhs <> []). { intros ->. simpl in *. congruence. }
    assert (rhs <> []). { intros ->. simpl in *. lia. }
    destruct (length st) as [|ns] eqn:En.
    + destruct Ptg as (op & E & Hp); [auto|auto|auto|lia|]. exists op. auto.
    + destruct Pst as (op & E & Hp); [lia|lia|]. exists op. auto.
Qed.

(** ** Whole steps and whole paths that sum no label of one operand alone *)

Variable h : hash_order.
Hypothesis Hh : hash_ok h.

Lemma pair_contraction_exact k sc lhs rhs out : sized sc [lhs; rhs] out size -> NoDup lhs -> NoDup rhs ->
  (forall c, In c lhs -> In c rhs \/ In c out) -> (forall c, In c rhs -> In c lhs \/ In c out) ->
  exists p, pair_contraction_new h k sc = Ok p
    /\ forall a b F G, lrep size a lhs F -> lrep size b rhs G ->
         exists r, run_pair_contraction lay p a b = Ok r /\ lrep size r out (pair_value lhs rhs out F G).
Proof.
  intros HS Hl Hr Ul Ur. pose proof HS as (_ & [Ho Hi] & _). simpl in Hi. rewrite app_nil_r in Hi.
  unfold pair_contraction_new. rewrite (sc_ops2 sc lhs rhs out size HS), (sc_out2 sc lhs rhs out size HS).
  cbn [length Nat.eqb rassert rbind]. unfold index. cbn [nth_error unwrap rbind].
  assert (I1 : incl lhs (concat [lhs; rhs])) by (simpl; intros c Hc; apply in_or_app; auto).
  assert (I2 : incl rhs (concat [lhs; rhs])) by (simpl; rewrite app_nil_r; intros c Hc; apply in_or_app; auto).
  rewrite (simplification_none h _ lhs rhs out sc [lhs; rhs] out size) by auto.
  rewrite (simplification_none h _ rhs lhs out sc [lhs; rhs] out size) by auto.
  cbn [rbind].
  destruct (subset_ok h (2 :: k) sc [lhs; rhs] out size [lhs; rhs] out Hh HS) as (red & Es & HSr).
  { intros c; auto. }
  { split; auto. simpl. rewrite app_nil_r. auto. }
  rewrite Es. cbn [unwrap_res rbind].
  assert (Hs : simplified lhs rhs out) by (split; auto).
  destruct (pair_op_exact red lhs rhs out HSr Hs) as (sm & op & E1 & E2 & Hop).
  rewrite E1. cbn [rbind]. rewrite E2. cbn [rbind].
  destruct (as_einsum_string_sized red [lhs; rhs] out size HSr) as (str & Estr); [discriminate|].
  rewrite Estr. cbn [rbind]. eexists. split; [reflexivity|].
  intros a b F G Ha Hb. unfold run_pair_contraction.
  cbn [pc_lhs_simplification pc_rhs_simplification pc_op run_simplification rbind]. auto.
Qed.

(** The value of combining an array with labels [L] with others one after the other. The labels of the results
    in between are those still needed, in an order that is left open. *)
Inductive steps_value (out : list char) : list char -> (env -> A) -> list (list char * (env -> A)) -> (env -> A) -> Prop :=
| one_step : forall L F r G, steps_value out L F [(r, G)] (pair_value L r out F G)
| more_steps : forall L F r G rest L' V, rest <> [] -> NoDup L' ->
    (forall c, In c L' <-> (In c L \/ In c r) /\ (In c (concat (map fst rest)) \/ In c out)) ->
    steps_value out L' (pair_value L r L' F G) rest V ->
    steps_value out L F ((r, G) :: rest) V.

Lemma chain_exact k out i L todo js lhs steps : chain size out i L todo js lhs steps -> all_shared (L :: todo) out ->
  forall j, exists pcs,
    mapM (fun ist => pair_contraction_new h (fst ist :: 9 :: k) (ps_sc (snd ist)))
      (combine (seq j (length steps)) steps) = Ok pcs
    /\ forall operands ints a F bs Gs, length ints = i -> fetch operands ints lhs = Ok a -> lrep size a L F ->
         Forall2 (fun j b => index operands j = Ok b) js bs ->
         Forall2 (fun b rG => lrep size b (fst rG) (snd rG)) bs (combine todo Gs) -> length Gs = length todo ->
         exists ints' r V, foldM (run_step lay operands) (combine pcs steps) ints = Ok (ints ++ ints' ++ [r])
           /\ steps_value out L F (combine todo Gs) V /\ lrep size r out V.
Proof.
  induction 1 as [i L r n lhs sc HS|i L r rest n js lhs sc L' steps Hne HS HL Hch IH]; intros Has j;
    pose proof Has as [Hn Hs];
    inversion Hn as [|? ? NL Hn']; subst; inversion Hn' as [|? ? Nr Hn'']; subst.
  - destruct (pair_contraction_exact (j :: 9 :: k) sc L r out HS NL Nr) as (p & Ep & Hp).
    { intros c Hc. destruct (Hs [] L [r] c eq_refl Hc) as [H|H]; auto. simpl in H. rewrite app_nil_r in H. auto. }
    { intros c Hc. destruct (Hs [L] r [] c eq_refl Hc) as [H|H]; auto. simpl in H. rewrite app_nil_r in H. auto. }
    cbn [length seq combine mapM fst snd ps_sc]. rewrite Ep. cbn [rbind].
    eexists. split; [reflexivity|].
    intros operands ints a F bs Gs Hi Hf Ha Hb Hg Hlen.
    destruct Gs as [|G [|? ?]]; try discriminate.
    inversion Hb as [|? b ? bs' Eb Hb']; subst. inversion Hb'; subst. cbn [combine] in Hg.
    inversion Hg as [|? ? ? ? Lb _]; subst. cbn [fst snd] in Lb.
    cbn [combine foldM run_step ps_lhs ps_rhs]. rewrite Hf. cbn [rbind fetch]. rewrite Eb. cbn [rbind].
    destruct (Hp a b F G Ha Lb) as (x & Ex & Hx). rewrite Ex. cbn [rbind].
    exists [], x, (pair_value L r out F G). split; [reflexivity|]. split; [constructor|exact Hx].
  - assert (H1 : forall c, In c L -> In c r \/ In c (concat rest) \/ In c out).
    { intros c Hc. destruct (Hs [] L (r :: rest) c eq_refl Hc) as [H|H]; auto. simpl in H. apply in_app_iff in H. tauto. }
    assert (H2 : forall c, In c r -> In c L \/ In c (concat rest) \/ In c out).
    { intros c Hc. destruct (Hs [L] r rest c eq_refl Hc) as [H|H]; auto. simpl in H. apply in_app_iff in H. tauto. }
    assert (NL' : NoDup L') by (destruct HS as (_ & [H _] & _); auto).
    destruct (pair_contraction_exact (j :: 9 :: k) sc L r L' HS NL Nr) as (p & Ep & Hp).
    { intros c Hc. specialize (H1 c Hc). rewrite HL. tauto. }
    { intros c Hc. specialize (H2 c Hc). rewrite HL. tauto. }
    unshelve epose proof (IH _ (S j)) as (pcs & Ec & Hrun).
    { split.
      * constructor; auto.
      * intros before this after c E Hc. destruct before as [|x before].
        { injection E as <- <-. apply HL in Hc. simpl. tauto. }
        injection E as <- Er. cbn [app concat]. rewrite in_app_iff.
        destruct (Hs (L :: r :: before) this after c) as [H|H]; auto.
        { cbn [app]. rewrite <- Er. auto. }
        cbn [app concat] in H. rewrite !in_app_iff in H. rewrite HL.
        assert (Hcr : In c (concat rest)).
        { rewrite Er. apply in_concat. exists this. split; auto. apply in_or_app. simpl; auto. }
        tauto. }
    cbn [length seq combine mapM fst snd ps_sc]. rewrite Ep. cbn [rbind]. rewrite Ec. cbn [rbind].
    eexists. split; [reflexivity|].
    intros operands ints a F bs Gs Hi Hf Ha Hb Hg Hlen.
    destruct Gs as [|G Gs]; try discriminate. injection Hlen as Hlen.
    inversion Hb as [|? b ? bs' Eb Hb']; subst. cbn [combine] in Hg.
    inversion Hg as [|? ? ? ? Lb Hg']; subst. cbn [fst snd] in Lb.
    cbn [combine foldM run_step ps_lhs ps_rhs]. rewrite Hf. cbn [rbind fetch]. rewrite Eb. cbn [rbind].
    destruct (Hp a b F G Ha Lb) as (x & Ex & Hx). rewrite Ex. cbn [rbind].
    destruct (Hrun operands (ints ++ [x]) x (pair_value L r L' F G) bs' Gs) as (ints' & y & V & Ey & HV & Hy); auto.
    { rewrite app_length. simpl. lia. }
    { cbn [fetch]. apply index_some. rewrite nth_error_app2, Nat.sub_diag by lia. reflexivity. }
    rewrite Ey. exists (x :: ints'), y, V. split; [rewrite <- app_assoc; reflexivity|]. split; auto.
    assert (Hfst : map fst (combine rest Gs) = rest).
    { clear -Hlen. revert Gs Hlen. induction rest as [|q rest IHr]; intros [|g Gs] Hlen; simpl in *; try discriminate; f_equal; auto. }
    eapply more_steps; [| |intros c; rewrite Hfst; apply HL|exact HV]; auto.
    intros E. rewrite E in Hfst. simpl in Hfst. congruence.
Qed.

Lemma shared_perm ops out ord : all_shared ops out -> Permutation ord (seq 0 (length ops)) ->
  all_shared (map (fun i => nth i ops []) ord) out.
Proof.
  intros [Hn Hs] Hp.
  assert (Pm : Permutation ops (map (fun i => nth i ops []) ord)).
  { rewrite <- (map_nth_seq ops []) at 1. apply Permutation_map, Permutation_sym. auto. }
  split; [eapply Permutation_Forall; eauto|].
  intros before this after c E Hc. rewrite E in Pm.
  assert (Ht : In this ops). { eapply Permutation_in; [apply Permutation_sym; exact Pm|]. apply in_or_app. simpl; auto. }
  apply in_split in Ht as (b0 & a0 & E0). destruct (Hs b0 this a0 c E0 Hc) as [H|H]; auto. left.
  rewrite E0 in Pm. apply Permutation_app_inv in Pm.
  apply in_concat in H as (x & Hx & Hcx). apply in_concat. exists x. split; auto. eapply Permutation_in; eauto.
Qed.

(** The labels and the elements of the operand in position [i]. *)
Definition operand_at (ops : list (list char)) (arrays : list (arr A)) (i : nat) : list char * (env -> A) :=
  (nth i ops [], fun e => match nth_error arrays i with Some a => elem a (map e (nth i ops [])) | None => szero end).

Theorem path_exact k k' sc ops out ord i0 js : sized sc ops out size -> all_shared ops out -> 2 <= length ops ->
  Permutation ord (seq 0 (length ops)) -> ord = i0 :: js ->
  exists order p, generate_path h k sc ord = Ok order /\ from_path h k' order = Ok p
    /\ forall arrays, Forall wf arrays -> shapes_ok size ops (map (@a_shape A) arrays) ->
         exists r V, contract_operands lay p arrays = Ok r
           /\ steps_value out (fst (operand_at ops arrays i0)) (snd (operand_at ops arrays i0)) (map (operand_at ops arrays) js) V
           /\ lrep size r out V.
Proof.
  intros HS Hs H2 Hp Eo. assert (Hne : ops <> []) by (intros ->; simpl in H2; lia).
  destruct (generate_path_ok h k size Hh sc ops out ord HS Hne Hp) as
    [(sc' & Hl & _)|(i0' & js' & L & todo & steps & Eo' & Ep & Htd & Eg & Hch)]; [lia|].
  rewrite Eo in Eo'. injection Eo' as <- <-.
  pose proof (shared_perm ops out ord Hs Hp) as Hs'. rewrite Ep in Hs'.
  destruct (chain_exact k' out 0 L todo js (Input i0) steps Hch Hs' 0) as (pcs & Ec & Hrun).
  eexists _, _. split; [exact Eg|]. cbn [from_path]. rewrite Ec. cbn [rbind]. split; [reflexivity|].
  intros arrays Hw Hsh. cbn [contract_operands path_steps path_order].
  assert (Htodo : todo = map (fun i => nth i ops []) js) by (rewrite Eo in Ep; simpl in Ep; congruence).
  assert (HL : L = nth i0 ops []) by (rewrite Eo in Ep; simpl in Ep; congruence).
  assert (Hin : forall i, In i ord -> i < length ops).
  { intros i Hi. apply (Permutation_in _ Hp), in_seq in Hi. lia. }
  assert (Hat : forall i, i < length ops -> exists a, nth_error arrays i = Some a /\ wf a /\ a_shape a = map size (nth i ops [])).
  { clear - Hw Hsh. revert ops Hsh. induction Hw as [|a arrays Wa Hw IH]; intros ops Hsh i Hi; inversion Hsh as [|? ix ? ops' Es Hsh']; subst;
      simpl in *; [lia|]. destruct i as [|i]; [exists a; auto|]. apply IH; auto. lia. }
  assert (Hrep : forall i, i < length ops -> exists a, index arrays i = Ok a
            /\ lrep size a (fst (operand_at ops arrays i)) (snd (operand_at ops arrays i))).
  { intros i Hi. destruct (Hat i Hi) as (a & Ea & Wa & Sa). exists a. split; [apply index_some; auto|].
    unfold operand_at. rewrite Ea. cbn [fst snd]. apply lrep_wf; auto. }
  assert (Hjs : forall i, In i js -> i < length ops) by (intros i Hi; apply Hin; rewrite Eo; simpl; auto).
  destruct (Hrep i0) as (a & Ea & La). { apply Hin. rewrite Eo. simpl; auto. }
  assert (Hb : exists bs, Forall2 (fun j b => index arrays j = Ok b) js bs
            /\ Forall2 (fun b rG => lrep size b (fst rG) (snd rG)) bs (map (operand_at ops arrays) js)).
  { clear - Hrep Hjs. induction js as [|j js IH]; [exists []; simpl; auto|].
    destruct IH as (bs & H1 & H2); [intros; apply Hjs; simpl; auto|].
    destruct (Hrep j) as (b & Eb & Lb); [apply Hjs; simpl; auto|]. exists (b :: bs). simpl. auto. }
  destruct Hb as (bs & Hb1 & Hb2).
  assert (Hc : map (operand_at ops arrays) js = combine todo (map (fun i => snd (operand_at ops arrays i)) js)).
  { rewrite Htodo. clear. induction js as [|j js IH]; auto. simpl. f_equal. auto. }
  rewrite Hc in Hb2.
  destruct (Hrun arrays [] a (snd (operand_at ops arrays i0)) bs (map (fun i => snd (operand_at ops arrays i)) js))
    as (ints' & r & V & Er & HV & Hr); auto.
  { rewrite HL. exact La. }
  { rewrite Htodo, !map_length. auto. }
  rewrite Er. cbn [rbind app].
  assert (Epop : unwrap (pop_last (ints' ++ [r])) = Ok r).
  { unfold pop_last. rewrite app_length. simpl. rewrite Nat.add_sub, nth_error_app2, Nat.sub_diag by lia. auto. }
  exists r, V. split; [exact Epop|]. split; auto. rewrite Hc. cbn [operand_at fst]. rewrite <- HL. exact HV.
Qed.

End Exact.
