(** The contractors that rearrange their operands, given operands of other shapes. *)
From Verif Require Import Base BaseFacts NDArray Validation Singleton Pair Spec ArrayFacts SumFacts EinsumProps
  TensordotFacts TensordotMain StackedFacts MismatchFacts DiagAnyFacts.
From Coq Require Import Lia.

Section General.
Context {A : Type} {Sc : Scalar A}.
Variable lay : backend A.
Hypothesis Hlay : backend_runs lay.

(** The [i]th element, in row-major order, of the array whose axes are those of [a] in the order [p]. *)
Definition nth_permuted (a : arr A) (p : list nat) (i : nat) : A :=
  elem a (place (length (a_shape a)) p (unflat (axis_lengths (a_shape a) p) i)).

Lemma permutation_or p n : Permutation p (seq 0 n) \/ ~ Permutation p (seq 0 n).
Proof.
  destruct (Nat.eq_dec (length p) n) as [Hl|Hl].
  2:{ right. intros H. apply Hl. apply Permutation_length in H. rewrite seq_length in H. auto. }
  destruct (ListDec.NoDup_dec Nat.eq_dec p) as [Hn|Hn].
  2:{ right. intros H. apply Hn. eapply Permutation_NoDup; [apply Permutation_sym; eauto|apply seq_NoDup]. }
  destruct (Forall_dec (fun x => x < n) (fun x => lt_dec x n) p) as [Hf|Hf].
  2:{ right. intros H. apply Hf, Forall_forall. intros x Hx. apply (Permutation_in _ H), in_seq in Hx. lia. }
  left. apply NoDup_Permutation_bis; auto; [rewrite seq_length; lia|].
  intros x Hx. rewrite Forall_forall in Hf. apply in_seq. specialize (Hf x Hx). lia.
Qed.

(** Permutation::view_singleton takes the arrays whose axes it lists. *)
Lemma view_any p (a : arr A) : wf a ->
  (Permutation p (seq 0 (length (a_shape a))) -> exists v, permutation_view p a = Ok v
     /\ holds v (axis_lengths (a_shape a) p) (fun idx => elem a (place (length (a_shape a)) p idx)))
  /\ (~ Permutation p (seq 0 (length (a_shape a))) -> permutation_view p a = Panic).
Proof.
  intros Wa. pose proof (wf_holds a Wa) as H. unfold permutation_view. split; intros Hn.
  - destruct (permuted_place a (a_shape a) (elem a) p H Hn) as (v & E & Hv). eauto.
  - apply permuted_invalid. auto.
Qed.

Lemma copy_any p (a : arr A) : wf a ->
  (Permutation p (seq 0 (length (a_shape a))) -> exists r, permutation_contract lay p a = Ok r
     /\ holds r (axis_lengths (a_shape a) p) (fun idx => elem a (place (length (a_shape a)) p idx)))
  /\ (~ Permutation p (seq 0 (length (a_shape a))) -> permutation_contract lay p a = Panic).
Proof.
  intros Wa. split; intros H.
  - apply (permutation_any lay Hlay p a _ H Wa). auto.
  - unfold permutation_contract. rewrite permuted_invalid; auto.
Qed.

Lemma common_self s : common s s s.
Proof. induction s; constructor; auto. Qed.

(** HadamardProductGeneral. *)
Lemma hadamard_general_any pl pr (a b : arr A) : wf a -> wf b ->
  let n := length (a_shape a) in let n' := length (a_shape b) in
  let sa := axis_lengths (a_shape a) pl in let sb := axis_lengths (a_shape b) pr in
  let ranks := Permutation pl (seq 0 n) /\ Permutation pr (seq 0 n') in
  (ranks -> forall sh, common (rev sa) (rev sb) (rev sh) ->
     exists r, run_hadamard_general lay pl pr a b = Ok r
       /\ holds r sh (fun idx => smul (elem a (place n pl (source sa idx))) (elem b (place n' pr (source sb idx)))))
  /\ (~ ranks \/ (forall sh, ~ common (rev sa) (rev sb) (rev sh)) -> run_hadamard_general lay pl pr a b = Panic).
Proof.
  intros Wa Wb n n' sa sb ranks. unfold run_hadamard_general.
  destruct (view_any pl a Wa) as [A1 A2]. destruct (view_any pr b Wb) as [B1 B2].
  destruct (permutation_or pl n) as [Ea|Ea].
  2:{ rewrite (A2 Ea). split; [unfold ranks; tauto|auto]. }
  destruct (A1 Ea) as (v & -> & Hv). cbn [rbind].
  destruct (permutation_or pr n') as [Eb|Eb].
  2:{ rewrite (B2 Eb). split; [unfold ranks; tauto|auto]. }
  destruct (B1 Eb) as (w & -> & Hw). cbn [rbind].
  destruct (hadamard_any lay Hlay v w (holds_wf _ _ _ Hv) (holds_wf _ _ _ Hw)) as [H1 H2].
  pose proof Hv as (Sv & _). pose proof Hw as (Sw & _). rewrite Sv, Sw in H1, H2. fold sa sb in H1, H2, Hv, Hw.
  split.
  - intros _ sh Hc. destruct (H1 sh Hc) as (r & E & Hr). exists r. split; auto.
    eapply ArrayFacts.holds_ext; [|exact Hr]. intros idx Hi. cbv beta.
    assert (Hr' : in_bounds (rev sh) (rev idx) = true) by (rewrite in_bounds_rev; auto).
    rewrite (holds_elem _ _ _ _ Hv), (holds_elem _ _ _ _ Hw); auto;
      rewrite <- in_bounds_rev; unfold source; rewrite rev_involutive.
    + eapply source_rev_bounds; [apply common_sym; exact Hc|auto].
    + eapply source_rev_bounds; [exact Hc|auto].
  - intros [H|H]; [exfalso; apply H; unfold ranks; auto|auto].
Qed.

(** ScalarMatrixProductGeneral and MatrixScalarProductGeneral. *)
Lemma scalar_matrix_general_any p (a b : arr A) : wf a -> wf b ->
  let n := length (a_shape b) in
  let fine := ~ In 0 (a_shape a) /\ Permutation p (seq 0 n) in
  (fine -> exists r, run_scalar_matrix_general lay p a b = Ok r
     /\ holds r (axis_lengths (a_shape b) p) (fun idx => smul (elem b (place n p idx)) (first_elem a)))
  /\ (~ fine -> run_scalar_matrix_general lay p a b = Panic).
Proof.
  intros Wa Wb n fine. unfold run_scalar_matrix_general.
  destruct (view_any p b Wb) as [B1 B2].
  destruct (permutation_or p n) as [Eb|Eb].
  2:{ rewrite (B2 Eb). split; [unfold fine; tauto|auto]. }
  destruct (B1 Eb) as (w & -> & Hw). cbn [rbind].
  destruct (scalar_matrix_any lay Hlay a w Wa (holds_wf _ _ _ Hw)) as [H1 H2]. split.
  - intros [Hz _]. destruct (H1 Hz) as (r & E & Hr). exists r. split; auto.
    pose proof Hw as (Sw & _). rewrite Sw in Hr. eapply ArrayFacts.holds_ext; [|exact Hr].
    intros idx Hi. cbv beta. rewrite (holds_elem _ _ _ _ Hw); auto.
  - intros Hf. apply H2. destruct (in_dec Nat.eq_dec 0 (a_shape a)); auto. exfalso. apply Hf. split; auto.
Qed.

Lemma matrix_scalar_general_any p (a b : arr A) : wf a -> wf b ->
  let n := length (a_shape a) in
  let fine := Permutation p (seq 0 n) /\ ~ In 0 (a_shape b) in
  (fine -> exists r, run_matrix_scalar_general lay p a b = Ok r
     /\ holds r (axis_lengths (a_shape a) p) (fun idx => smul (elem a (place n p idx)) (first_elem b)))
  /\ (~ fine -> run_matrix_scalar_general lay p a b = Panic).
Proof.
  intros Wa Wb n fine. destruct (scalar_matrix_general_any p b a Wb Wa) as [H1 H2].
  split; intros H; [apply H1; unfold fine in H; tauto|apply H2; intros [? ?]; apply H; split; auto].
Qed.

(** ** Matrix products *)

Lemma prod_permuted sh p n : Permutation p (seq 0 n) -> length sh = n -> prod (axis_lengths sh p) = prod sh.
Proof.
  intros Hp <-. transitivity (prod (axis_lengths sh (seq 0 (length sh)))).
  - unfold axis_lengths, prod. induction Hp; simpl; lia.
  - unfold axis_lengths. f_equal. clear. induction sh as [|d sh IH]; simpl; auto. f_equal.
    rewrite <- seq_shift, map_map. auto.
Qed.

Lemma product_entry_ext k n (f f' g g' : nat -> A) m i : i < m * n ->
  (forall j, j < m * k -> f j = f' j) -> (forall j, j < k * n -> g j = g' j) ->
  product_entry k n f g i = product_entry k n f' g' i.
Proof.
  intros Hi Hf Hg. unfold product_entry. apply sum_n_ext. intros x Hx.
  assert (Hn : n <> 0) by (intros ->; lia).
  assert (H1 : i / n < m) by (apply Nat.div_lt_upper_bound; lia).
  assert (H2 : i mod n < n) by (apply Nat.mod_upper_bound; auto).
  rewrite Hf, Hg; auto; nia.
Qed.

Lemma nth_view (a v : arr A) p n i : length (a_shape a) = n ->
  holds v (axis_lengths (a_shape a) p) (fun idx => elem a (place n p idx)) ->
  i < prod (axis_lengths (a_shape a) p) -> nth_elem v i = nth_permuted a p i.
Proof.
  intros Hn Hv Hi. unfold nth_elem, nth_permuted. pose proof Hv as (-> & _).
  rewrite (holds_elem _ _ _ _ Hv); [rewrite Hn; auto|]. apply unflat_in_bounds. auto.
Qed.

(** TensordotGeneral. *)
Lemma tg_any (SR : near_semiring A) (Hok : backend_ok lay) (t : tensordot_general) (a b : arr A) : wf a -> wf b ->
  let u := len_uncontracted_lhs (tg_fixed t) in let v := len_uncontracted_rhs (tg_fixed t) in
  let k := len_contracted_axes (tg_fixed t) in let sh := tfp_output_shape (tg_fixed t) in
  let fine := Permutation (tg_lhs_permutation t) (seq 0 (length (a_shape a)))
    /\ Permutation (tg_rhs_permutation t) (seq 0 (length (a_shape b)))
    /\ Permutation (tg_output_permutation t) (seq 0 (length sh))
    /\ u * k = prod (a_shape a) /\ k * v = prod (a_shape b) /\ u * v = prod sh in
  (fine -> exists r, run_tg lay t a b = Ok r
     /\ holds r (axis_lengths sh (tg_output_permutation t)) (fun idx =>
          product_entry k v (nth_permuted a (tg_lhs_permutation t)) (nth_permuted b (tg_rhs_permutation t))
            (flat sh (place (length sh) (tg_output_permutation t) idx))))
  /\ (~ fine -> run_tg lay t a b = Panic).
Proof.
  intros Wa Wb u v k sh fine. unfold run_tg.
  destruct (view_any (tg_lhs_permutation t) a Wa) as [A1 A2]. destruct (view_any (tg_rhs_permutation t) b Wb) as [B1 B2].
  set (n := length (a_shape a)) in *. set (n' := length (a_shape b)) in *.
  destruct (permutation_or (tg_lhs_permutation t) n) as [Pl|Pl].
  2:{ rewrite (A2 Pl). split; [unfold fine; tauto|auto]. }
  destruct (A1 Pl) as (x & -> & Hx). cbn [rbind].
  destruct (permutation_or (tg_rhs_permutation t) n') as [Pr|Pr].
  2:{ rewrite (B2 Pr). split; [unfold fine; tauto|auto]. }
  destruct (B1 Pr) as (y & -> & Hy). cbn [rbind].
  destruct (tfp_any lay Hlay SR Hok (tg_fixed t) x y (holds_wf _ _ _ Hx) (holds_wf _ _ _ Hy)) as [T1 T2].
  pose proof Hx as (Sx & _). pose proof Hy as (Sy & _). rewrite Sx, Sy in T1, T2.
  rewrite (prod_permuted _ _ n Pl eq_refl), (prod_permuted _ _ n' Pr eq_refl) in T1, T2.
  fold u v k sh in T1, T2.
  assert (D : (u * k = prod (a_shape a) /\ k * v = prod (a_shape b) /\ u * v = prod sh)
     \/ ~ (u * k = prod (a_shape a) /\ k * v = prod (a_shape b) /\ u * v = prod sh)) by lia.
  destruct D as [D|D].
  2:{ rewrite (T2 D). split; [unfold fine; tauto|auto]. }
  destruct (T1 D) as (d & -> & Hd). cbn [rbind].
  destruct (copy_any (tg_output_permutation t) d (holds_wf _ _ _ Hd)) as [P1 P2].
  pose proof Hd as (Sd & _). rewrite Sd in P1, P2. split.
  - intros (_ & _ & Lo & _). destruct (P1 Lo) as (r & -> & Hr). exists r. split; auto.
    eapply ArrayFacts.holds_ext; [|exact Hr]. intros idx Hi. cbv beta.
    assert (Hb : in_bounds sh (place (length sh) (tg_output_permutation t) idx) = true).
    { apply place_in_bounds; auto. }
    rewrite (holds_elem _ _ _ _ Hd Hb). unfold matrix_product_value. fold k v sh.
    apply product_entry_ext with (m := u).
    + destruct D as (_ & _ & ->). apply flat_lt. auto.
    + intros j Hj. symmetry. symmetry. eapply nth_view; eauto. rewrite (prod_permuted _ _ n Pl eq_refl). lia.
    + intros j Hj. eapply nth_view; eauto. rewrite (prod_permuted _ _ n' Pr eq_refl). lia.
  - intros Hf. apply P2. intros Lo. apply Hf. unfold fine. tauto.
Qed.

(** ** Stacks of matrix products *)

Lemma from_shape_vec_no sh sh' (f : list nat -> A) : prod sh <> prod sh' ->
  from_shape_vec sh' (map f (indices sh)) = Panic.
Proof.
  intros H. unfold from_shape_vec. rewrite map_length, indices_length. apply Nat.eqb_neq in H. rewrite H. auto.
Qed.

(** StackedTensordotGeneral: [q] products of [u] by [k] and [k] by [v] matrices. *)
Lemma stacked_any (SR : near_semiring A) (Hok : backend_ok lay) pl pr po q us cs vs out (a b : arr A) : wf a -> wf b ->
  let s := mkST pl pr (q :: us ++ cs) (q :: cs ++ vs) (q :: us ++ vs) (tfp_for us cs vs) out po in
  let u := prod us in let k := prod cs in let v := prod vs in
  let fine := Permutation pl (seq 0 (length (a_shape a))) /\ Permutation pr (seq 0 (length (a_shape b)))
    /\ Permutation po (seq 0 (length out))
    /\ q * (u * k) = prod (a_shape a) /\ q * (k * v) = prod (a_shape b) /\ q * (u * v) = prod out in
  (fine -> exists r, run_stacked lay s a b = Ok r
     /\ holds r (axis_lengths out po) (fun idx =>
          let i := flat out (place (length out) po idx) in
          product_entry k v (fun x => nth_permuted a pl (i / (u * v) * (u * k) + x))
            (fun x => nth_permuted b pr (i / (u * v) * (k * v) + x)) (i mod (u * v))))
  /\ (~ fine -> run_stacked lay s a b = Panic).
Proof.
  intros Wa Wb s u k v fine. unfold run_stacked, s.
  cbn [st_lhs_permutation st_rhs_permutation st_lhs_output_shape st_rhs_output_shape
    st_intermediate_shape st_fixed st_output_shape st_output_permutation].
  destruct (view_any pl a Wa) as [A1 A2]. destruct (view_any pr b Wb) as [B1 B2].
  set (n := length (a_shape a)) in *. set (n' := length (a_shape b)) in *.
  destruct (permutation_or pl n) as [Pl|Pl].
  2:{ rewrite (A2 Pl). split; [unfold fine; tauto|auto]. }
  destruct (A1 Pl) as (x & -> & Hx). cbn [rbind]. rewrite (holds_iter _ _ _ Hx). cbn [rbind].
  destruct (Nat.eq_dec (prod (a_shape a)) (q * (u * k))) as [Fa|Fa].
  2:{ rewrite from_shape_vec_no by (rewrite (prod_permuted _ _ n Pl eq_refl), prod_cons, prod_app; auto). split; [unfold fine; intros (_ & _ & _ & H & _); congruence|auto]. }
  rewrite from_shape_vec_ok by (rewrite (prod_permuted _ _ n Pl eq_refl), prod_cons, prod_app; auto). cbn [rbind].
  destruct (permutation_or pr n') as [Pr|Pr].
  2:{ rewrite (B2 Pr). split; [unfold fine; tauto|auto]. }
  destruct (B1 Pr) as (y & -> & Hy). cbn [rbind]. rewrite (holds_iter _ _ _ Hy). cbn [rbind].
  destruct (Nat.eq_dec (prod (a_shape b)) (q * (k * v))) as [Fb|Fb].
  2:{ rewrite from_shape_vec_no by (rewrite (prod_permuted _ _ n' Pr eq_refl), prod_cons, prod_app; auto).
      split; [unfold fine; intros (_ & _ & _ & _ & H & _); congruence|auto]. }
  rewrite from_shape_vec_ok by (rewrite (prod_permuted _ _ n' Pr eq_refl), prod_cons, prod_app; auto). cbn [rbind].
  set (sa := axis_lengths (a_shape a) pl) in *. set (sb := axis_lengths (a_shape b) pr) in *.
  set (f := fun idx => elem a (place n pl idx)) in *. set (g := fun idx => elem b (place n' pr idx)) in *.
  assert (Pa : prod sa = q * (u * k)) by (unfold sa; rewrite (prod_permuted _ _ n Pl eq_refl); auto).
  assert (Pb : prod sb = q * (k * v)) by (unfold sb; rewrite (prod_permuted _ _ n' Pr eq_refl); auto).
  assert (HL2 : holds (mk_c (q :: us ++ cs) (map f (indices sa))) (q :: us ++ cs) (refold sa (q :: us ++ cs) f)).
  { apply holds_reshape_copy. rewrite prod_cons, prod_app. auto. }
  assert (HR2 : holds (mk_c (q :: cs ++ vs) (map g (indices sb))) (q :: cs ++ vs) (refold sb (q :: cs ++ vs) g)).
  { apply holds_reshape_copy. rewrite prod_cons, prod_app. auto. }
  destruct (outer_iter_holds _ _ _ _ HL2) as (lsubs & ELs & LLs & HLs).
  destruct (outer_iter_holds _ _ _ _ HR2) as (rsubs & ERs & LRs & HRs).
  rewrite ELs, ERs. cbn [rbind].
  assert (Ei : index (a_shape (zeros (A := A) (q :: us ++ vs))) 0 = Ok q) by reflexivity. rewrite Ei. cbn [rbind].
  set (val := fun (j : nat) (idx : list nat) =>
    product_entry k v (fun x => nth_permuted a pl (j * (u * k) + x)) (fun x => nth_permuted b pr (j * (k * v) + x))
      (flat (us ++ vs) idx)).
  assert (Hval : forall j, j < q -> exists l r x, nth_error lsubs j = Some l
     /\ nth_error rsubs j = Some r
     /\ run_tfp lay (tfp_for us cs vs) l r = Ok x /\ holds x (us ++ vs) (val j)).
  { intros j Hj. destruct (HLs j Hj) as (lk & E1 & H1). destruct (HRs j Hj) as (rk & E2 & H2).
    destruct (tfp_any lay Hlay SR Hok (tfp_for us cs vs) lk rk (holds_wf _ _ _ H1) (holds_wf _ _ _ H2)) as [T1 _].
    destruct T1 as (z & Ez & Hz).
    { pose proof H1 as (-> & _). pose proof H2 as (-> & _). unfold tfp_for.
      cbn [len_uncontracted_lhs len_uncontracted_rhs len_contracted_axes tfp_output_shape]. rewrite !prod_app. auto. }
    exists lk, rk, z. split; auto. split; auto. split; auto.
    unfold tfp_for in Hz. cbn [len_uncontracted_lhs len_uncontracted_rhs len_contracted_axes tfp_output_shape] in Hz.
    eapply ArrayFacts.holds_ext; [|exact Hz]. intros idx Hi. unfold matrix_product_value, val.
    cbn [len_uncontracted_lhs len_uncontracted_rhs len_contracted_axes tfp_output_shape]. fold k v.
    apply product_entry_ext with (m := u).
    - unfold u, v. rewrite <- prod_app. apply flat_lt. auto.
    - intros i Hi'. unfold nth_elem. pose proof H1 as (-> & _).
      assert (Bi : in_bounds (us ++ cs) (unflat (us ++ cs) i) = true)
        by (apply unflat_in_bounds; rewrite prod_app; auto).
      rewrite (holds_elem _ _ _ _ H1 Bi). unfold refold, nth_permuted, f. fold sa.
      cbn [flat]. rewrite flat_unflat, prod_app by (rewrite prod_app; auto). auto.
    - intros i Hi'. unfold nth_elem. pose proof H2 as (-> & _).
      assert (Bi : in_bounds (cs ++ vs) (unflat (cs ++ vs) i) = true)
        by (apply unflat_in_bounds; rewrite prod_app; auto).
      rewrite (holds_elem _ _ _ _ H2 Bi). unfold refold, nth_permuted, g. fold sb.
      cbn [flat]. rewrite flat_unflat, prod_app by (rewrite prod_app; auto). auto. }
  destruct (buffer_loop lay (tfp_for us cs vs) lsubs rsubs q (us ++ vs) val Hval)
    with (m := q) (k := 0) (data := repeat (szero (A := A)) (prod (q :: us ++ vs)))
    as (data' & Eb' & Hbuf); auto.
  { rewrite repeat_length, prod_cons. auto. }
  { apply zeros_holds. }
  change (zeros (A := A) (q :: us ++ vs)) with (buffer q (us ++ vs) (repeat (szero (A := A)) (prod (q :: us ++ vs)))).
  rewrite Eb'. cbn [rbind].
  destruct (Nat.eq_dec (prod out) (q * (u * v))) as [Fo|Fo].
  2:{ split; [unfold fine; intros (_ & _ & _ & _ & _ & H); congruence|]. intros _. unfold into_shape.
      assert (Es : a_shape (buffer q (us ++ vs) data') = q :: us ++ vs) by reflexivity.
      rewrite Es, prod_cons, prod_app. destruct (Nat.eqb_spec (prod out) (q * (prod us * prod vs))); [|auto].
      exfalso. apply Fo. auto. }
  destruct (into_shape_standard _ _ out _ Hbuf) as (rs & Ers & Hrs & _).
  { apply default_standard. }
  { rewrite prod_cons, prod_app. auto. }
  rewrite Ers. cbn [rbind].
  destruct (copy_any po rs (holds_wf _ _ _ Hrs)) as [P1 P2].
  pose proof Hrs as (Sr & _). rewrite Sr in P1, P2. split.
  - intros (_ & _ & Lo & _). destruct (P1 Lo) as (r & -> & Hr). exists r. split; auto.
    eapply ArrayFacts.holds_ext; [|exact Hr]. intros idx Hi. cbv beta zeta.
    assert (Hb : in_bounds out (place (length out) po idx) = true).
    { apply place_in_bounds; auto. }
    rewrite (holds_elem _ _ _ _ Hrs Hb). set (i := flat out (place (length out) po idx)).
    assert (Hlt : i < q * (u * v)) by (rewrite <- Fo; apply flat_lt; auto).
    unfold refold. fold i. 
    assert (Hw : u * v <> 0) by nia.
    assert (H1 : i / (u * v) < q) by (apply Nat.div_lt_upper_bound; nia).
    assert (H2 : i mod (u * v) < prod (us ++ vs)) by (rewrite prod_app; apply Nat.mod_upper_bound; auto).
    assert (E : unflat (q :: us ++ vs) i = i / (u * v) :: unflat (us ++ vs) (i mod (u * v))).
    { apply (flat_inj (q :: us ++ vs)).
      - apply unflat_in_bounds. rewrite prod_cons, prod_app. auto.
      - cbn [in_bounds]. rewrite (proj2 (Nat.ltb_lt _ _) H1), unflat_in_bounds; auto.
      - rewrite flat_unflat by (rewrite prod_cons, prod_app; auto). cbn [flat]. rewrite flat_unflat by auto.
        rewrite prod_app. fold u v. pose proof (Nat.div_mod i (u * v) Hw). lia. }
    rewrite E. cbn [partial_value]. rewrite (proj2 (Nat.ltb_lt _ _) H1). unfold val.
    rewrite flat_unflat by auto. auto.
  - intros Hf. apply P2. intros Lo. apply Hf. unfold fine. repeat split; auto; lia.
Qed.

(** PermutationAndSummation. *)
Lemma perm_and_sum_any (SR : near_semiring A) p start num s (a : arr A) : wf a ->
  summation_from_sizes start num = Ok s ->
  let n := length (a_shape a) in let sh := axis_lengths (a_shape a) p in
  let fine := Permutation p (seq 0 n) /\ start + num <= n in
  (fine -> exists r, run_singleton lay (OpPermutationAndSummation p s) a = Ok r
     /\ holds r (firstn start sh ++ skipn (start + num) sh) (fun idx =>
          sum_idx (firstn num (skipn start sh)) (fun z =>
            elem a (place n p (firstn start idx ++ z ++ skipn start idx)))))
  /\ (~ fine -> run_singleton lay (OpPermutationAndSummation p s) a = Panic).
Proof.
  intros Wa Hs n sh fine. cbn [run_singleton]. destruct (view_any p a Wa) as [V1 V2].
  destruct (permutation_or p n) as [Hp|Hp].
  2:{ rewrite (V2 Hp). split; [unfold fine; tauto|auto]. }
  destruct (V1 Hp) as (v & -> & Hv). cbn [rbind].
  assert (Ln : length sh = n).
  { unfold sh, axis_lengths. rewrite map_length. apply Permutation_length in Hp. rewrite seq_length in Hp. auto. }
  destruct (le_lt_dec (start + num) n) as [Hl|Hl].
  - split; [intros _|intros Hf; exfalso; apply Hf; split; auto].
    apply (sum_of_holds lay Hlay SR start num s v sh (fun idx => elem a (place n p idx))); auto. rewrite Ln. auto.
  - split; [unfold fine; lia|]. intros _.
    destruct (summation_any lay Hlay SR start num s v Hs (holds_wf _ _ _ Hv)) as [_ S2]. apply S2.
    pose proof Hv as (-> & _). fold sh. lia.
Qed.

End General.

(** ** The fields of a StackedTensordotGeneral *)

Lemma mapM_snoc {T U} (f : T -> res U) l x r y : mapM f l = Ok r -> f x = Ok y -> mapM f (l ++ [x]) = Ok (r ++ [y]).
Proof. intros H1 H2. rewrite mapM_app, H1. cbn. rewrite H2. auto. Qed.

Definition stack_consistent (m : output_size_map) (a : stack_acc) : Prop :=
  mapM (size_of m) (sa_lhs_outer_indices a) = Ok (sa_lhs_uncontracted_shape a)
  /\ mapM (size_of m) (sa_rhs_outer_indices a) = Ok (sa_rhs_uncontracted_shape a)
  /\ exists ss, mapM (size_of m) (sa_stack_indices a) = Ok ss /\ prod ss = sa_lhs_stack_len a.

Lemma stack_steps m l : forall a a', stack_consistent m a -> foldM (stack_step m) l a = Ok a' -> stack_consistent m a'.
Proof.
  induction l as [|[[x y] c] l IH]; intros a a' Ha H; cbn [foldM] in H; [injection H as <-; auto|].
  apply rbind_ok in H as (a1 & H1 & H). apply (IH a1); auto. clear IH H.
  destruct Ha as (A1 & A2 & ss & A3 & A4). unfold stack_step in H1.
  destruct x as [lp|], y as [rp|]; try discriminate; apply rbind_ok in H1 as (d & Ed & H1); injection H1 as <-;
    unfold stack_consistent; cbn; repeat split; auto using mapM_snoc; try (exists ss; split; auto; fail).
  exists (ss ++ [d]). split; [apply mapM_snoc; auto|]. rewrite prod_app, A4. cbn. lia.
Qed.

Lemma contracted_steps m rhs out l : forall a a', length (fst (fst a)) = length (snd a) ->
  foldM (contracted_step m rhs out) l a = Ok a' -> length (fst (fst a')) = length (snd a').
Proof.
  induction l as [|[i c] l IH]; intros [[la ra] sh] a' Ha H; cbn [foldM] in H; [injection H as <-; auto|].
  apply rbind_ok in H as (a1 & H1 & H). apply (IH a1); auto. unfold contracted_step in H1.
  destruct (position c out); [injection H1 as <-; auto|].
  apply rbind_ok in H1 as (rp & _ & H1). apply rbind_ok in H1 as (d & _ & H1). injection H1 as <-.
  cbn in *. rewrite !app_length. simpl. auto.
Qed.

Lemma stacked_form sc s : stacked_new sc = Ok s -> exists q us cs vs,
  s = mkST (st_lhs_permutation s) (st_rhs_permutation s) (q :: us ++ cs) (q :: cs ++ vs) (q :: us ++ vs)
        (tfp_for us cs vs) (st_output_shape s) (st_output_permutation s)
  /\ prod (st_output_shape s) = q * (prod us * prod vs).
Proof.
  unfold stacked_new. intros H. apply rbind_ok in H as (_ & _ & H). apply rbind_ok in H as (lhs & _ & H).
  apply rbind_ok in H as (rhs & _ & H). apply rbind_ok in H as (ml & _ & H). apply rbind_ok in H as (mr & _ & H).
  apply rbind_ok in H as (a & Ea & H). apply rbind_ok in H as ([[lca rca] csh] & Ec & H).
  apply stack_steps in Ea as (A1 & A2 & ss & A3 & A4).
  2:{ unfold stack_consistent. cbn. repeat split; auto. exists []. auto. }
  apply contracted_steps in Ec; [|auto]. cbn [fst snd] in Ec.
  apply rbind_ok in H as (e & Eq & H). rewrite A1, A2 in H. cbn [rbind] in H.
  apply rbind_ok in H as (order & _ & H). rewrite !mapM_app, A1, A2, A3 in H. cbn [rbind app skipn] in H.
  rewrite Ec, tfp_from_shapes_ok in H. cbn [rbind] in H.
  assert (Eq' : sa_lhs_stack_len a = sa_rhs_stack_len a).
  { destruct (Nat.eqb_spec (sa_lhs_stack_len a) (sa_rhs_stack_len a)); auto. discriminate. }
  injection H as <-. exists (sa_lhs_stack_len a), (sa_lhs_uncontracted_shape a), csh, (sa_rhs_uncontracted_shape a).
  cbn [st_lhs_permutation st_rhs_permutation st_output_shape st_output_permutation]. rewrite <- Eq'. split; auto.
  rewrite !prod_app, A4. auto.
Qed.
