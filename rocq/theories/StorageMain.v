(** How much storage an order holds, in terms of the labels of its steps. *)
From Verif Require Import Base BaseFacts NDArray Validation Optimizers Strategies Singleton Pair Path Api Spec
  ValidationFacts ValidationMain SumFacts ArrayFacts TensordotFacts DiagFacts SingletonFacts PairFacts StackedFacts
  PairMain PathFacts PathShape PlanFacts TensordotMain EinsumMain MisuseFacts HandFacts OverflowFacts LimitsFacts
  LimitsMain WorkFacts WorkMain CompileFacts ProgramFacts OrderCostFacts Storage StorageFacts.
From Coq Require Import Lia.

(** ** The specification *)

(** Every label of [this] occurs in it once, and in [used]. *)
Definition settled (this used : list char) : bool :=
  Nat.eqb (length (nodup N.eq_dec this)) (length this) && forallb (fun c => existsb (N.eqb c) used) this.

(** What an operand of a step may take besides the array itself: one copy, or three if it must be
    simplified first. An axis of length zero counts as one. *)
Definition operand_storage (size : char -> nat) (this used : list char) : nat :=
  (if settled this used then 1 else 3) * nonzero_product (map size this).

(** A step may take the storage of its operands and twice its result. *)
Definition pair_storage_bound (size : char -> nat) (lhs rhs out : list char) : nat :=
  operand_storage size lhs (rhs ++ out) + operand_storage size rhs (lhs ++ out) + 2 * prod (map size out).

Definition step_storage_bound (st : pair_step) : nat :=
  match operand_indices (sc_contraction (ps_sc st)) with
  | [l; r] => pair_storage_bound (step_size st) l r (step_output st)
  | _ => 0
  end.

Definition step_result (st : pair_step) : nat := prod (map (step_size st) (step_output st)).

(** All results of an order. *)
Definition order_results (steps : list pair_step) : nat := list_sum (map step_result steps).

(** Every step runs beside the results of all steps before it. *)
Fixpoint order_storage (steps : list pair_step) : nat :=
  match steps with
  | [] => 0
  | st :: rest => Nat.max (step_storage_bound st) (step_result st + order_storage rest)
  end.

(** ** Compiled steps *)

Lemma settled_true this used : settled this used = true <-> NoDup this /\ incl this used.
Proof.
  unfold settled. rewrite andb_true_iff, forallb_forall, Nat.eqb_eq. split; intros [H1 H2]; split.
  - assert (H : forall l : list char, length (nodup N.eq_dec l) <= length l).
    { induction l as [|x l IH]; simpl; auto. destruct (in_dec N.eq_dec x l); simpl; lia. }
    clear H2. induction this as [|c l IH]; [constructor|]. simpl in H1. destruct (in_dec N.eq_dec c l) as [Hc|Hc].
    + specialize (H l). lia.
    + constructor; [auto|]. apply IH. simpl in H1. lia.
  - intros c Hc. specialize (H2 c Hc). rewrite existsb_mem in H2. apply mem_In. auto.
  - rewrite nodup_fixed_point; auto.
  - intros c Hc. rewrite existsb_mem. apply mem_In. auto.
Qed.

Lemma weight_settled s this used kept : simplification_plan s this used kept ->
  weight s = if settled this used then 1 else 3.
Proof.
  intros (Hn & Hk & Hs). destruct (settled this used) eqn:E.
  - apply settled_true in E. destruct s; auto. destruct Hs as [Hs _]. contradiction.
  - destruct s as [s|]; auto. subst kept. exfalso.
    assert (T : settled this used = true); [|congruence]. apply settled_true. split; auto. intros c Hc. apply Hk. auto.
Qed.

Section Step.
Variables (h : hash_order) (size : char -> nat).
Hypothesis Hh : hash_ok h.

Lemma compiled_constructed k sc p : pair_contraction_new h k sc = Ok p -> constructed (pc_op p).
Proof.
  unfold pair_contraction_new. intros H.
  repeat match type of H with rbind _ _ = Ok _ => apply bind_Ok in H as (? & ? & H) end.
  injection H as <-. cbn [pc_op].
  match goal with Ho : pair_op_new ?m ?s = Ok ?op |- constructed ?op => destruct m; cbn [pair_op_new] in Ho;
    apply bind_Ok in Ho as (y & Hy & Ho); injection Ho as <-; try exact I end.
  cbn [constructed]. eauto.
Qed.

Context {A : Type} {Sc : Scalar A}.
Variable lay : backend A.
Hypothesis Hlay : backend_runs lay.

Lemma compiled_step_storage k sc lhs rhs out p (a b : arr A) : sized sc [lhs; rhs] out size ->
  pair_contraction_new h k sc = Ok p -> wf a -> wf b -> a_shape a = map size lhs -> a_shape b = map size rhs ->
  uses (run_pair_contraction_s lay p a b) (run_pair_contraction lay p a b)
    (fun x m => a_shape x = map size out /\ wf x /\ held m = prod (map size out)
       /\ prod (map size out) <= peak m <= pair_storage_bound size lhs rhs out).
Proof.
  intros HS Ep Wa Wb Sa Sb.
  destruct (pair_plan_ok h Hh k sc lhs rhs out size p HS Ep) as (lk & rk & Pl & Pr & _).
  assert (HN : forall N, nonzero_product (map size lhs) <= N -> nonzero_product (map size rhs) <= N -> contraction_bounded N p).
  { intros N H1 H2. apply (pair_contraction_bounded N h size Hh k sc lhs rhs out); auto. }
  assert (Fl : simplification_fits (nonzero_product (map size lhs)) (pc_lhs_simplification p)
               /\ simplification_fits (nonzero_product (map size rhs)) (pc_rhs_simplification p)).
  { clear HN. revert Ep. unfold pair_contraction_new.
    rewrite (sc_ops2 sc lhs rhs out size HS), (sc_out2 sc lhs rhs out size HS).
    cbn [length Nat.eqb rassert rbind]. unfold index. cbn [nth_error unwrap rbind]. intros H.
    apply bind_Ok in H as (ls & El & H). apply bind_Ok in H as (rs & Er & H).
    repeat match type of H with rbind _ _ = Ok _ => apply bind_Ok in H as (? & ? & H) end.
    injection H as <-. cbn [pc_lhs_simplification pc_rhs_simplification].
    split; [eapply (simplification_from_fits _ h size Hh) with (this := lhs)|
            eapply (simplification_from_fits _ h size Hh) with (this := rhs)]; eauto;
      simpl; rewrite ?app_nil_r; intros c Hc; apply in_or_app; auto. }
  destruct Fl as [Fl Fr].
  assert (Ha : nonzero_product (a_shape a) <= nonzero_product (map size lhs)) by (rewrite Sa; auto).
  assert (Hb : nonzero_product (a_shape b) <= nonzero_product (map size rhs)) by (rewrite Sb; auto).
  eapply uses_mono; [apply (step_storage lay Hlay p a b _ _ (compiled_constructed _ _ _ Ep) Ha Hb Fl Fr)|].
  cbv beta. intros x m Hx (H1 & H2 & H3).
  destruct (LimitsMain.step_ends size h Hh lay Hlay k sc lhs rhs out p a b HS Ep Wa Wb Sa Sb) as [E|(y & E & Wy & Sy)];
    rewrite E in Hx; [discriminate|]. injection Hx as ->.
  assert (Ex : elements x = prod (map size out)) by (unfold elements; rewrite Sy; auto).
  rewrite Ex in *. rewrite (weight_settled _ _ _ _ Pl), (weight_settled _ _ _ _ Pr) in H3.
  unfold pair_storage_bound, operand_storage. auto.
Qed.

(** Operands that need no simplification. *)
Lemma settled_step_storage k sc lhs rhs out p (a b : arr A) : sized sc [lhs; rhs] out size ->
  pair_contraction_new h k sc = Ok p ->
  NoDup lhs -> incl lhs (rhs ++ out) -> NoDup rhs -> incl rhs (lhs ++ out) ->
  let elementwise := Permutation lhs out /\ Permutation rhs out in
  let stacked := exists c, In c lhs /\ In c rhs /\ In c out in
  uses (run_pair_contraction_s lay p a b) (run_pair_contraction lay p a b)
    (fun x m =>
       (elementwise \/ lhs = [] \/ rhs = [] -> peak m = elements x)
       /\ (stacked -> ~ elementwise -> peak m = elements a + elements b + 2 * elements x)
       /\ (lhs <> [] -> rhs <> [] -> ~ stacked ->
           2 * elements x <= peak m <= Nat.max (elements a + elements b + elements x) (2 * elements x))).
Proof.
  intros HS Ep Nl Il Nr Ir elementwise stacked.
  destruct (pair_plan_ok h Hh k sc lhs rhs out size p HS Ep) as (lk & rk & Pl & Pr & Hc & Ht & _).
  assert (Sl : pc_lhs_simplification p = None /\ lk = lhs).
  { destruct Pl as (_ & _ & Pl). destruct (pc_lhs_simplification p); [destruct Pl as [Pl _]; tauto|auto]. }
  assert (Sr : pc_rhs_simplification p = None /\ rk = rhs).
  { destruct Pr as (_ & _ & Pr). destruct (pc_rhs_simplification p); [destruct Pr as [Pr _]; tauto|auto]. }
  destruct Sl as [Sl ->], Sr as [Sr ->].
  eapply uses_mono; [apply (run_pair_contraction_uses lay Hlay p a b (compiled_constructed _ _ _ Ep))|].
  cbv beta. intros x m Hx (l' & r' & E1 & E2 & ->). rewrite Sl in *. rewrite Sr in *.
  cbn [run_simplification] in E1, E2. injection E1 as <-. injection E2 as <-.
  cbn [peak simplification_storage simplification_held]. rewrite !Nat.add_0_l, !Nat.max_0_l.
  unfold run_pair_contraction in Hx. rewrite Sl, Sr in Hx. cbn [run_simplification rbind] in Hx.
  assert (HE : elementwise -> lhs <> [] -> stacked).
  { intros [H1 H2] H3. destruct lhs as [|c l]; [contradiction|]. exists c.
    assert (In c out) by (apply (Permutation_in _ H1); simpl; auto).
    split; [simpl; auto|]. split; auto. apply (Permutation_in _ (Permutation_sym H2)). auto. }
  assert (HO : stacked -> lhs <> [] /\ rhs <> []).
  { intros (c & H1 & H2 & _). split; intros ->; contradiction. }
  destruct (pc_op p) as [|? ?| |?| |?|?|t|?|?] eqn:Eop; cbn [pair_tag] in Ht; rewrite <- Ht in Hc; cbn [pair_case] in Hc; try contradiction;
    cbn [pair_storage]; cbn [run_pair] in Hx.
  - split; auto. split; [intros _ H; exfalso; apply H; exact Hc|]. intros H1 H2 H3. exfalso. auto.
  - destruct Hc as [Hc _]. split; auto. split; [intros H; apply HO in H; tauto|]. intros H1 H2 H3. contradiction.
  - destruct Hc as [Hc _]. split; auto. split; [intros H; apply HO in H; tauto|]. intros H1 H2 H3. contradiction.
  - destruct Hc as (H1 & H2 & H3). split; [intros [H|[H|H]]; try contradiction; exfalso; apply H3; apply HE; auto|].
    split; [intros H; contradiction|]. intros _ _ _. apply (tg_storage_le lay); auto.
  - destruct Hc as [H1 H2]. pose proof (HO H1) as [H3 H4]. split; [intros [H|[H|H]]; contradiction|].
    split; auto. intros _ _ H. contradiction.
Qed.

End Step.

(** ** Orders *)

Section Orders.
Context {A : Type} {Sc : Scalar A}.
Variables (h : hash_order) (lay : backend A).
Hypothesis Hh : hash_ok h.
Hypothesis Hlay : backend_runs lay.

Lemma steps_storage (operands : list (arr A)) : Forall wf operands -> forall steps pcs ints,
  Forall wf ints -> length pcs = length steps ->
  (forall i st p, nth_error steps i = Some st -> nth_error pcs i = Some p ->
     exists k, pair_contraction_new h k (ps_sc st) = Ok p) ->
  steps_fit (map (@a_shape A) operands) (map (@a_shape A) ints) steps ->
  uses (foldS (run_step_s lay operands) (combine pcs steps) ints)
    (foldM (run_step lay operands) (combine pcs steps) ints)
    (fun _ m => held m = order_results steps /\ held m <= peak m <= order_storage steps).
Proof.
  intros Hw. induction steps as [|st steps IH]; intros pcs ints Hi Hl Hp Hf.
  - destruct pcs; [|discriminate Hl]. exists no_storage. split; [reflexivity|]. cbn. lia.
  - destruct pcs as [|p pcs]; [discriminate Hl|]. injection Hl as Hl.
    destruct Hf as ((l & r & sl & sr & Eo & El & Er & Hs) & Hf).
    rewrite refers_map in El, Er.
    destruct (refers operands ints (ps_lhs st)) as [a|] eqn:Ea; [|discriminate].
    destruct (refers operands ints (ps_rhs st)) as [b|] eqn:Eb; [|discriminate].
    injection El as <-. injection Er as <-.
    inversion Hs as [|? ? ? ? Sa Hs' E1 E2]; subst. inversion Hs' as [|? ? ? ? Sb _ E1 E2]; subst.
    destruct (Hp 0 st p eq_refl eq_refl) as (k & Ek).
    assert (Wa : wf a) by (eapply refers_wf; [| |exact Ea]; auto).
    assert (Wb : wf b) by (eapply refers_wf; [| |exact Eb]; auto).
    destruct (compiled_normal h k _ p Hh Ek) as [En HS]. rewrite Eo in HS.
    fold (step_size st) (step_output st) in HS. revert Hf. intros Hf.
    cbn [combine foldS foldM].
    apply (uses_bind _ _ _ _ (fun ints' m => exists x, ints' = ints ++ [x] /\ a_shape x = map (step_size st) (step_output st)
             /\ wf x /\ held m = step_result st /\ held m <= peak m <= step_storage_bound st)).
    + unfold run_step_s, run_step. rewrite (fetch_refers _ _ _ _ Ea), (fetch_refers _ _ _ _ Eb).
      apply uses_after. intros ? [= <-]. apply uses_after. intros ? [= <-].
      eapply uses_bind.
      * exact (compiled_step_storage h (step_size st) Hh lay Hlay k _ l r _ p a b HS En Wa Wb Sa Sb).
      * cbv beta. intros x m _ (H1 & H2 & H3 & H4). apply uses_viewed. intros ints' [= <-].
        exists x. split; [auto|]. split; [auto|]. split; [auto|]. rewrite beside_after. cbn [held peak].
        unfold step_result, step_storage_bound. rewrite Eo. lia.
    + intros ints' m _ (x & -> & Sx & Wx & H1 & H2).
      eapply uses_mono.
      * apply (IH pcs (ints ++ [x])); auto.
        -- apply Forall_app. auto.
        -- intros i st' p' H3 H4. apply (Hp (Datatypes.S i) st' p' H3 H4).
        -- rewrite map_app. cbn [map]. rewrite Sx. exact Hf.
      * cbv beta. intros y m' _ (H3 & H4). unfold beside, order_results in *. cbn [held peak map list_sum fold_right order_storage].
        unfold list_sum in *. lia.
Qed.

Lemma orders_storage k steps p (arrays : list (arr A)) : from_path h k (Pairs steps) = Ok p -> Forall wf arrays ->
  steps_fit (map (@a_shape A) arrays) [] steps ->
  uses (contract_operands_s lay p arrays) (contract_operands lay p arrays)
    (fun r m => held m = elements r /\ order_results steps <= peak m <= order_storage steps).
Proof.
  intros Ep Hw Hf. cbn [from_path] in Ep.
  destruct (mapM _ _) as [pcs|?|] eqn:Em; cbn [rbind] in Ep; try discriminate. injection Ep as <-.
  destruct (mapM_steps _ _ _ _ Em) as [H1 H2]. cbn [fst snd] in H2.
  unfold contract_operands, contract_operands_s. cbn [path_steps path_order].
  eapply uses_returned.
  - eapply uses_bind; [apply steps_storage; auto|].
    + intros i st p E1 E2. specialize (H2 i st p E1 E2). eauto.
    + cbv beta. intros ints m _ (H3 & H4). apply uses_viewed. intros r _.
      instantiate (1 := fun _ m => order_results steps <= peak m <= order_storage steps). cbv beta.
      rewrite beside_after. cbn [peak]. lia.
  - cbv beta. intros r m _ H. cbn [held peak]. auto.
Qed.

End Orders.

(** ** Calls *)

(** The elements of the products of the first [2], [3], ... operands, once every label is summed that
    neither a later operand nor the output has ([kept], LimitsMain.v). *)
Definition intermediates (total : list nat -> nat) (size : char -> nat) (ops : list (list char)) (out : list char) : nat :=
  list_sum (map (fun m => total (map size (kept ops out m))) (seq 2 (length ops - 1))).

Lemma prod_kept_same (size : char -> nat) l l' : NoDup l -> NoDup l' -> (forall c, In c l <-> In c l') ->
  prod (map size l) = prod (map size l') /\ nonzero_product (map size l) = nonzero_product (map size l').
Proof. intros H1 H2 H3. split; [apply prod_same|apply nzp_same]; auto. Qed.

Section Chain.
Variable size : char -> nat.

Lemma last_intermediates total L0 r out :
  (forall l l' : list char, NoDup l -> NoDup l' -> (forall c, In c l <-> In c l') -> total (map size l) = total (map size l')) ->
  NoDup out -> incl out (L0 ++ r) -> intermediates total size [L0; r] out = total (map size out).
Proof.
  intros Ht Ho Hi. unfold intermediates. cbn [length Nat.sub seq map list_sum fold_right]. rewrite Nat.add_0_r.
  apply Ht; auto; [apply kept_NoDup|]. intros c. rewrite kept_In. cbn [firstn skipn concat app].
  rewrite app_nil_r. specialize (Hi c). split; [intros [_ [[]|H]]; auto|auto].
Qed.

Lemma more_intermediates total L0 r rest L' out :
  (forall l l' : list char, NoDup l -> NoDup l' -> (forall c, In c l <-> In c l') -> total (map size l) = total (map size l')) ->
  NoDup L' -> rest <> [] ->
  (forall c, In c L' <-> (In c L0 \/ In c r) /\ (In c (concat rest) \/ In c out)) ->
  intermediates total size (L0 :: r :: rest) out = total (map size L') + intermediates total size (L' :: rest) out.
Proof.
  intros Ht Ho Hne HL. unfold intermediates. cbn [length]. rewrite !Nat.sub_succ, !Nat.sub_0_r, list_sum_seq. f_equal.
  - apply Ht; auto; [apply kept_NoDup|]. intros c. rewrite kept_In, HL. cbn [firstn skipn concat].
    rewrite app_nil_r, in_app_iff. tauto.
  - apply list_sum_shift. intros m Hm. apply Ht; try apply kept_NoDup. intros c. rewrite !kept_In.
    change (3 + m) with (S (S (S m))). change (2 + m) with (S (S m)). cbn [firstn skipn concat].
    rewrite !in_app_iff, HL.
    assert (Hr : In c (concat rest) <-> In c (concat (firstn (S m) rest)) \/ In c (concat (skipn (S m) rest))).
    { rewrite <- (firstn_skipn (S m) rest) at 1. rewrite concat_app, in_app_iff. tauto. }
    cbn [firstn skipn] in Hr. rewrite Hr. destruct rest as [|x rest]; [contradiction|]. cbn [concat app]. rewrite ?in_app_iff. tauto.
Qed.

Definition operands_total (ops : list (list char)) : nat :=
  list_sum (map (fun ix => nonzero_product (map size ix)) ops).

Lemma operand_storage_le this used : operand_storage size this used <= 3 * nonzero_product (map size this).
Proof. unfold operand_storage. destruct (settled this used); lia. Qed.

Lemma operand_storage_settled this used : NoDup this -> incl this used ->
  operand_storage size this used = nonzero_product (map size this).
Proof. intros H1 H2. unfold operand_storage. rewrite (proj2 (settled_true this used) (conj H1 H2)). lia. Qed.

Lemma step_size_sized sc n1 n2 l r o c : sized sc [l; r] o size -> In c (l ++ r) ->
  step_size (mkPair sc n1 n2) c = size c.
Proof.
  intros (_ & _ & H) Hc. unfold step_size, default_size. cbn [ps_sc]. rewrite H. simpl. rewrite app_nil_r.
  rewrite (proj2 (mem_In _ _) Hc). auto.
Qed.

Lemma sized_step_storage sc n1 n2 l r o : sized sc [l; r] o size ->
  step_storage_bound (mkPair sc n1 n2) = pair_storage_bound size l r o
  /\ step_result (mkPair sc n1 n2) = prod (map size o).
Proof.
  intros HS. assert (HZ : forall c, In c (l ++ r) -> step_size (mkPair sc n1 n2) c = size c).
  { intros c Hc. eapply step_size_sized; eauto. }
  pose proof HS as (Ec & [Hn Hi] & _). cbn [concat] in Hi. rewrite app_nil_r in Hi.
  unfold step_storage_bound, step_result, step_output. cbn [ps_sc]. rewrite Ec.
  cbn [contraction_of operand_indices output_indices].
  assert (El : map (step_size (mkPair sc n1 n2)) l = map size l) by (apply map_ext_in; intros c Hc; apply HZ, in_or_app; auto).
  assert (Er : map (step_size (mkPair sc n1 n2)) r = map size r) by (apply map_ext_in; intros c Hc; apply HZ, in_or_app; auto).
  assert (Eo : map (step_size (mkPair sc n1 n2)) o = map size o) by (apply map_ext_in; intros c Hc; apply HZ; auto).
  unfold pair_storage_bound, operand_storage. rewrite El, Er, Eo. auto.
Qed.

Lemma chain_storage out i L0 todo js lhs steps : chain size out i L0 todo js lhs steps ->
  order_results steps = intermediates prod size (L0 :: todo) out
  /\ order_storage steps <= operand_storage size L0 (concat todo ++ out) + 3 * operands_total todo
                            + 2 * intermediates nonzero_product size (L0 :: todo) out.
Proof.
  assert (T1 : forall l l' : list char, NoDup l -> NoDup l' -> (forall c, In c l <-> In c l') -> prod (map size l) = prod (map size l'))
    by (intros; apply prod_same; auto).
  assert (T2 : forall l l' : list char, NoDup l -> NoDup l' -> (forall c, In c l <-> In c l') ->
            nonzero_product (map size l) = nonzero_product (map size l')) by (intros; apply nzp_same; auto).
  induction 1 as [i L0 r n lhs sc HS|i L0 r rest n js lhs sc L' steps Hne HS HL Hch IH].
  - destruct (sized_step_storage sc lhs (Input n) L0 r out HS) as [E1 E2].
    pose proof HS as (_ & [Ho Hi] & _). cbn [concat] in Hi. rewrite app_nil_r in Hi.
    rewrite !last_intermediates by auto. unfold order_results, operands_total.
    cbn [map list_sum fold_right order_storage concat]. rewrite E1, E2, app_nil_r.
    unfold pair_storage_bound. pose proof (operand_storage_le r (L0 ++ out)). pose proof (prod_le_nzp (map size out)). lia.
  - destruct (sized_step_storage sc lhs (Input n) L0 r L' HS) as [E1 E2].
    pose proof HS as (_ & [Ho Hi] & _). destruct IH as [IH1 IH2].
    rewrite !(more_intermediates _ L0 r rest L' out) by auto. unfold order_results, operands_total in *.
    cbn [map list_sum fold_right order_storage concat] in *. rewrite E1, E2. split; [unfold list_sum in *; lia|].
    rewrite operand_storage_settled in IH2; auto.
    2:{ intros c Hc. apply HL in Hc. apply in_app_iff. tauto. }
    assert (E3 : operand_storage size L0 (r ++ L') = operand_storage size L0 ((r ++ concat rest) ++ out)).
    { unfold operand_storage. replace (settled L0 (r ++ L')) with (settled L0 ((r ++ concat rest) ++ out)); auto.
      apply eq_true_iff_eq. rewrite !settled_true. split; intros [H1 H2]; split; auto; intros c Hc; specialize (H2 c Hc);
        rewrite !in_app_iff in *; rewrite HL in *; tauto. }
    unfold pair_storage_bound. rewrite E3. pose proof (operand_storage_le r (L0 ++ L')). pose proof (prod_le_nzp (map size L')).
    unfold list_sum in *. apply Nat.max_lub; lia.
Qed.

End Chain.

Section Calls.
Context {A : Type} {Sc : Scalar A}.
Variables (h : hash_order) (lay : backend A).
Hypothesis Hh : hash_ok h.
Hypothesis Hlay : backend_runs lay.

Lemma single_storage size sc this out c (a : arr A) : sized sc [this] out size ->
  singleton_contraction_new sc = Ok c -> a_shape a = map size this ->
  uses (run_singleton_s lay (sgl_op c) a) (run_singleton lay (sgl_op c) a)
    (fun r m => held m = elements r /\ peak m <= operand_storage size this out
       /\ (settled this out = true -> peak m = elements a)).
Proof.
  intros HS Ec Sa. eapply uses_mono; [apply (run_singleton_takes lay Hlay)|].
  cbv beta. intros r m Hr ->. cbn [held peak].
  destruct (singleton_plan sc this out size c HS Ec) as [Hm Ht].
  assert (Hf : singleton_fits (nonzero_product (map size this)) (sgl_op c)).
  { apply (singleton_contraction_fits _ sc this out size c HS); auto. }
  assert (Hn : nonzero_product (a_shape a) <= nonzero_product (map size this)) by (rewrite Sa; auto).
  destruct (singleton_bound lay Hlay _ _ _ _ Hn Hf Hr) as [_ B].
  split; [auto|].
  assert (Hs : settled this out = true -> singleton_storage (sgl_op c) a = elements a).
  { intros Hs. apply settled_true in Hs as [N1 I1].
    pose proof (out_NoDup _ _ _ _ HS) as No. pose proof (out_incl _ _ _ _ HS) as Io.
    pose proof (proj1 (Hm _) eq_refl) as Hc.
    destruct (sgl_op c); cbn [singleton_tag] in Ht; rewrite <- Ht in Hc; cbn [singleton_case] in Hc; cbn [singleton_storage]; auto.
    - destruct Hc as (_ & summed & Hne & ->). destruct summed as [|x summed]; [contradiction|]. exfalso.
      apply NoDup_app_elim in N1 as (_ & _ & N3). apply (N3 x); [|simpl; auto]. apply I1. apply in_or_app. simpl; auto.
    - destruct Hc as [Hc _]. contradiction.
    - destruct Hc as (_ & Hc & _). contradiction.
    - destruct Hc as (Hc & _). contradiction. }
  split; auto. unfold operand_storage. destruct (settled this out) eqn:Es; [|lia].
  rewrite Hs by auto. pose proof (elements_nzp a). lia.
Qed.

Lemma taken_total size strategy ops : strategy = Naive \/ strategy = Reverse ->
  operands_total size (taken strategy ops) = operands_total size ops.
Proof.
  intros Hst. unfold operands_total.
  assert (P : Permutation (taken strategy ops) ops).
  { destruct Hst as [-> | ->]; cbn [taken]; auto. apply Permutation_sym, Permutation_rev. }
  apply (Permutation_map (fun ix => nonzero_product (map size ix))) in P.
  unfold list_sum. induction P; simpl; lia.
Qed.

Section Path.
Variables (s : list char) (arrays : list (arr A)) (ops : list (list char)) (out : list char) (size : char -> nat).
Hypothesis Hc : call_ok s (map (@a_shape A) arrays) ops out size.
Hypothesis Hw : Forall wf arrays.

Definition call_storage strategy : arr A -> storage -> Prop := fun r m =>
  held m = elements r
  /\ intermediates prod size (taken strategy ops) out <= peak m
  /\ peak m <= 3 * operands_total size ops + 2 * intermediates nonzero_product size (taken strategy ops) out
  /\ (forall this, ops = [this] -> peak m <= operand_storage size this out
        /\ (settled this out = true -> peak m = prod (map size this))).

Lemma path_storage strategy k0 k1 k2 sc order : strategy = Naive \/ strategy = Reverse ->
  from_string_and_shapes h k0 s (map (@a_shape A) arrays) = Ok sc ->
  generate_optimized_order h k1 sc strategy = Ok order ->
  uses (store p <- viewed (from_path h k2 order); contract_operands_s lay p arrays)
    (do p <- from_path h k2 order; contract_operands lay p arrays) (call_storage strategy).
Proof.
  intros Hst E Eo.
  assert (Hu : usables size arrays ops). { apply usables_intro; auto. apply Hc. }
  pose proof (taken_total size strategy ops Hst) as Et.
  destruct (chosen_order h Hh k0 k1 s _ ops out size sc strategy Hc Hst E)
    as [(sc' & Hl & E2 & H1 & H2)|(i0 & js & steps & Hl & Eor & Hp & E2 & Hch)].
  - clear H1 H2. rewrite Eo in E2. injection E2 as ->. cbn [from_path].
    destruct ops as [|this [|? ?]] eqn:Eops; try discriminate.
    apply uses_after. intros p Hp. apply bind_Ok in Hp as (c & Ec & Hp). injection Hp as <-.
    cbn [contract_operands contract_operands_s path_steps path_order].
    inversion Hu as [|a ? rest ? Ua Hu']; subst. inversion Hu'; subst.
    apply uses_after. intros ? [= <-].
    assert (HS : sized sc' [this] out size).
    { destruct (from_string_ok h k0 s _ _ _ _ Hh Hc) as (sc1 & Ex & HSx).
      assert (sc1 = sc) by congruence. subst sc1.
      assert (Hpo : Permutation (order_of strategy 1) (seq 0 1)).
      { destruct Hst as [-> | ->]; simpl; auto. }
      assert (Eg : generate_optimized_order h k1 sc strategy = generate_path h k1 sc (order_of strategy 1)).
      { pose proof HSx as (Hcc & _).
        destruct Hst as [-> | ->]; unfold generate_optimized_order, naive_order, reverse_order;
          rewrite Hcc; reflexivity. }
      destruct (generate_path_ok h k1 size Hh sc [this] out (order_of strategy 1) HSx) as
        [(sc2 & _ & E3 & HS3)|(? & ? & ? & ? & ? & Eo1 & ? & Htn & E3 & _)]; auto; [discriminate| |].
      - rewrite Eg, E3 in Eo. injection Eo as <-.
        assert (Eth : map (fun i => nth i [this] []) (order_of strategy 1) = [this])
          by (destruct Hst as [-> | ->]; reflexivity).
        rewrite Eth in HS3. auto.
      - rewrite Eg, E3 in Eo. discriminate. }
    destruct Ua as [_ Sa].
    eapply uses_mono; [apply (single_storage size sc' this out c a HS Ec Sa)|].
    cbv beta. intros r m _ (H1 & H2 & H3). split; [auto|].
    assert (E0 : forall f, intermediates f size (taken strategy [this]) out = 0).
    { intros f. unfold intermediates. destruct Hst as [-> | ->]; reflexivity. }
    rewrite Eops, !E0. split; [lia|]. pose proof (operand_storage_le size this out). unfold operands_total. cbn [map list_sum fold_right].
    split; [lia|]. intros this' [= <-]. split; auto. intros Hs. rewrite (H3 Hs). unfold elements. congruence.
  - rewrite Eo in E2. injection E2 as ->.
    apply uses_after. intros p Ep.
    assert (Hfit : steps_fit (map (@a_shape A) arrays) [] steps).
    { assert (Hch' : forall i L0 todo js lhs steps, chain size out i L0 todo js lhs steps -> forall results,
                length results = i -> refers (map (@a_shape A) arrays) results lhs = Some (map size L0) ->
                Forall2 (fun j ix => nth_error (map (@a_shape A) arrays) j = Some (map size ix)) js todo ->
                steps_fit (map (@a_shape A) arrays) results steps).
      { clear. 
        assert (Fit : forall sc n1 n2 l r o, sized sc [l; r] o size ->
           shapes_ok (step_size (mkPair sc n1 n2)) [l; r] [map size l; map size r]
           /\ map (step_size (mkPair sc n1 n2)) (step_output (mkPair sc n1 n2)) = map size o
           /\ operand_indices (sc_contraction sc) = [l; r]).
        { intros sc n1 n2 l r o HS. assert (HZ : forall c, In c (l ++ r) -> step_size (mkPair sc n1 n2) c = size c).
          { intros c Hc. eapply step_size_sized; eauto. }
          unfold step_output. cbn [ps_sc].
          pose proof HS as (Ec & [Hn Hi] & _). rewrite Ec. cbn [contraction_of operand_indices output_indices].
          split; [|split; [|reflexivity]].
          - repeat constructor; symmetry; apply map_ext_in; intros c Hc; apply HZ; apply in_or_app; auto.
          - apply map_ext_in. intros c Hc. apply HZ. simpl in Hi. rewrite app_nil_r in Hi. auto. }
        induction 1 as [i L0 r n lhs sc HS|i L0 r rest n js lhs sc L' steps Hne HS HL Hch IH]; intros results Hi Hl Hf;
          inversion Hf as [|? ? ? ? Hr Hf' E1 E2]; subst;
          destruct (Fit sc lhs (Input n) L0 r _ HS) as (F1 & F2 & F3); cbn [steps_fit ps_sc ps_lhs ps_rhs];
          (split; [exists L0, r, (map size L0), (map size r); auto|]); auto.
        rewrite F2. apply IH; auto.
        - rewrite app_length. simpl. lia.
        - cbn [refers]. rewrite nth_error_app2, Nat.sub_diag by lia. reflexivity. }
      assert (Hn : forall j, In j (i0 :: js) -> nth_error (map (@a_shape A) arrays) j = Some (map size (nth j ops []))).
      { intros j Hj. apply (Permutation_in _ Hp) in Hj. apply in_seq in Hj. destruct Hc as (_ & _ & Hs).
        clear -Hs Hj. destruct Hj as [_ Hj]. cbn in Hj. revert j Hj. unfold shapes_ok in Hs.
        induction Hs as [|ix sh ixs shs Es Hs IH]; intros [|j] Hj; simpl in *; try lia; auto; [congruence|]. apply IH. lia. }
      apply (Hch' _ _ _ _ _ _ Hch []); auto.
      - cbn [refers]. apply Hn. simpl; auto.
      - assert (Hn' : forall j, In j js -> nth_error (map (@a_shape A) arrays) j = Some (map size (nth j ops []))) by (intros; apply Hn; simpl; auto).
        clear -Hn'. induction js as [|j js IH]; simpl; constructor; auto. { apply Hn'. simpl; auto. }
        apply IH. intros; apply Hn'; simpl; auto. }
    eapply uses_mono; [apply (orders_storage h lay Hh Hlay k2 steps p arrays Ep Hw Hfit)|].
    cbv beta. intros r m _ (H1 & H2 & H3). split; [auto|].
    destruct (chain_storage size out 0 _ _ _ _ _ Hch) as [C1 C2].
    assert (Etk : nth i0 ops [] :: map (fun i => nth i ops []) js = taken strategy ops).
    { rewrite <- (taken_nth strategy ops Hst), <- Eor. reflexivity. }
    rewrite Etk in C1, C2. rewrite <- Etk in Et. unfold operands_total in Et, C2 at 1. cbn [map list_sum fold_right] in Et.
    match type of C2 with context [operand_storage size ?x ?y] => pose proof (operand_storage_le size x y) end.
    unfold operands_total in *. unfold list_sum in *. split; [lia|]. split; [lia|].
    intros this ->. simpl in Hl. lia.
Qed.

Lemma einsum_storage : uses (einsum_s lay h s arrays) (einsum h lay s arrays) (call_storage Naive).
Proof.
  unfold einsum_s, einsum, einsum_sc, einsum_path_new, validate_and_size, get_operand_shapes.
  destruct (from_string_ok h [20] s _ _ _ _ Hh Hc) as (sc & E & HS).
  apply uses_after. intros sc' E'. assert (sc' = sc) by congruence. subst sc'.
  destruct (generate_optimized_order h [10; 21] sc Naive) as [order|e|] eqn:Eo; cbn [rbind]; try reflexivity.
  apply (path_storage Naive [20] [10; 21] [11; 21] sc order (or_introl eq_refl) E Eo).
Qed.

Lemma compile_and_run_storage strategy : strategy = Naive \/ strategy = Reverse ->
  uses (compile_and_run_s lay h s arrays strategy) (compile_and_run h lay s arrays strategy) (call_storage strategy).
Proof.
  intros Hst. unfold compile_and_run_s, compile_and_run, einsum_path_fn, validate_and_optimize_order, get_operand_shapes.
  match goal with |- context [from_string_and_shapes h ?k s _] => set (k0 := k) end.
  destruct (from_string_ok h k0 s _ _ _ _ Hh Hc) as (sc & E & HS). rewrite E. cbn [rbind].
  match goal with |- context [generate_optimized_order h ?k _ _] => set (k1 := k) end.
  destruct (generate_optimized_order h k1 sc strategy) as [order|e|] eqn:Eo; cbn [rbind]; try reflexivity.
  apply (path_storage strategy k0 k1 [23] sc order Hst E Eo).
Qed.

End Path.
End Calls.
