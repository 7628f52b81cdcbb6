(** DiagonalizationAndSummation on a contiguous operand of any shape: it reads the operand's memory. *)
From Verif Require Import Base BaseFacts NDArray Validation Singleton Spec SumFacts ArrayFacts DiagFacts MismatchFacts
  EinsumProps DiagAnyFacts.
From Coq Require Import Lia ZArith.
Local Open Scope Z_scope.

(** The element of a contiguous array that is stored [q] places after its first one. *)
Definition at_place {A} {Sc : Scalar A} (a : arr A) (q : Z) : A :=
  match find (fun idx => Z.eqb (dot_off idx (a_strides a)) q) (indices (a_shape a)) with
  | Some idx => elem a idx
  | None => szero
  end.

(** How far from the first element of an array with these strides the diagonal looks at [o]. *)
Definition reach (st : list Z) (mapping o : list nat) : Z :=
  dot_off (map (fun j => nth j o 0%nat) (firstn (length st) mapping)) st.
Definition reach_strides (st : list Z) (mapping : list nat) (n : nat) : list Z :=
  map (fun j => reach st mapping (unit_at n j)) (seq 0 n).

(** ** Every place is taken *)

Lemma places_taken T : forall q, descending 1 T -> NoDup (map ax_out T) -> 0 <= q < vol T ->
  exists w : nat -> nat, (forall x, In x T -> (w (ax_out x) < ax_len x)%nat)
    /\ weigh (fun m => Z.of_nat (w m)) T = q.
Proof.
  induction T as [|x T IH]; intros q Hd Hn Hq.
  - unfold vol in Hq. simpl in Hq. exists (fun _ => 0%nat). split; [intros x []|]. unfold weigh, zsum. simpl. lia.
  - destruct Hd as [Hx Hd]. inversion Hn as [|? ? Hn1 Hn2]; subst. rewrite vol_cons in Hq.
    assert (Hv : 0 < vol T) by nia.
    assert (H : exists i q', (i < ax_len x)%nat /\ 0 <= q' < vol T /\ q = Z.of_nat i * ax_stride x + q').
    { destruct Hx as [Hx|Hx].
      - exists 0%nat, q. rewrite Hx in *. lia.
      - rewrite Z.mul_1_l in Hx. exists (Z.to_nat (q / vol T)), (q mod vol T).
        pose proof (Z.div_mod q (vol T) ltac:(lia)). pose proof (Z.mod_pos_bound q (vol T) Hv).
        assert (0 <= q / vol T) by (apply Z.div_pos; lia).
        assert (q / vol T < Z.of_nat (ax_len x)) by (apply Z.div_lt_upper_bound; lia).
        rewrite Z2Nat.id by auto. rewrite Hx. split; [lia|]. split; [lia|]. lia. }
    destruct H as (i & q' & Hi & Hq' & ->). destruct (IH q' Hd Hn2 Hq') as (w & W1 & W2).
    exists (fun m => if Nat.eqb m (ax_out x) then i else w m). split.
    + intros y [<-|Hy]; [rewrite Nat.eqb_refl; auto|]. destruct (Nat.eqb_spec (ax_out y) (ax_out x)) as [E|E]; auto.
      exfalso. apply Hn1. rewrite <- E. apply in_map. auto.
    + rewrite weigh_cons, Nat.eqb_refl. f_equal. rewrite <- W2. apply weigh_ext. intros y Hy.
      destruct (Nat.eqb_spec (ax_out y) (ax_out x)) as [E|E]; auto.
      exfalso. apply Hn1. rewrite <- E. apply in_map. auto.
Qed.

Lemma axes_of_outs ms : forall sh st, length ms = length sh -> length st = length sh -> map ax_out (axes_of ms sh st) = ms.
Proof.
  induction ms as [|m ms IH]; intros [|n sh] [|s st] H1 H2; simpl in *; try discriminate; auto.
  f_equal. apply IH; lia.
Qed.

Lemma axes_of_bounds ms (w : nat -> nat) : forall sh st, length ms = length sh -> length st = length sh ->
  (forall x, In x (axes_of ms sh st) -> (w (ax_out x) < ax_len x)%nat) -> in_bounds sh (map w ms) = true.
Proof.
  induction ms as [|m ms IH]; intros [|n sh] [|s st] H1 H2 H; simpl in *; try discriminate; auto.
  apply andb_true_iff. split.
  - apply Nat.ltb_lt. apply (H (m, n, s)). auto.
  - apply (IH sh st); auto.
Qed.

Lemma place_index {A} (a : arr A) q : length (a_strides a) = length (a_shape a) -> ~ In 0%nat (a_shape a) ->
  is_contiguous a = true -> 0 <= q < Z.of_nat (prod (a_shape a)) ->
  exists idx, in_bounds (a_shape a) idx = true /\ dot_off idx (a_strides a) = q.
Proof.
  intros Ls Hz Hc Hq. set (sh := a_shape a) in *. set (ms := seq 0 (length sh)).
  assert (Hl : length ms = length sh) by apply seq_length.
  destruct (contiguous_axes a ms Hl Ls Hz Hc) as (T & HT & Hd). fold sh in HT.
  destruct (places_taken T q Hd) as (w & W1 & W2).
  - eapply Permutation_NoDup; [apply Permutation_map, Permutation_sym; exact HT|].
    rewrite axes_of_outs by auto. apply seq_NoDup.
  - rewrite (vol_perm _ _ HT), axes_of_vol by auto. auto.
  - exists (map w ms). split.
    + apply (axes_of_bounds ms w sh (a_strides a)); auto. intros x Hx. apply W1.
      eapply Permutation_in; [apply Permutation_sym; exact HT|auto].
    + rewrite (axes_of_offset ms w sh) by auto. rewrite <- (weigh_perm _ _ _ HT). auto.
Qed.

Section Mem.
Context {A : Type} {Sc : Scalar A}.
Variable lay : backend A.
Hypothesis Hlay : backend_runs lay.

(** What the memory holds. *)
Lemma memory_slice (a : arr A) : wf a -> is_contiguous a = true -> ~ In 0%nat (a_shape a) ->
  let dat := firstn (prod (a_shape a)) (skipn (Z.to_nat (a_off a)) (a_data a)) in
  length dat = prod (a_shape a)
  /\ forall q, 0 <= q < Z.of_nat (prod (a_shape a)) -> znth dat q = Some (at_place a q).
Proof.
  intros Wa Hc Hz dat. pose proof (wf_holds a Wa) as (_ & Ls & Hget).
  assert (Hp : (0 < prod (a_shape a))%nat).
  { assert (prod (a_shape a) <> 0%nat) by (apply is_empty_false, is_empty_In; intros y Hy ->; auto). lia. }
  assert (Hread : forall idx, in_bounds (a_shape a) idx = true ->
    znth (a_data a) (a_off a + dot_off idx (a_strides a)) = Some (elem a idx)).
  { intros idx Hi. specialize (Hget idx Hi). unfold a_get in Hget. rewrite Hi in Hget.
    destruct (znth _ _); simpl in Hget; congruence. }
  destruct (place_index a 0 Ls Hz Hc ltac:(lia)) as (i0 & B0 & E0).
  destruct (place_index a (Z.of_nat (prod (a_shape a)) - 1) Ls Hz Hc ltac:(lia)) as (i1 & B1 & E1).
  pose proof (Hread _ B0) as R0. apply znth_Some in R0. rewrite E0 in R0.
  pose proof (Hread _ B1) as R1. apply znth_Some in R1. rewrite E1 in R1.
  split; [unfold dat; rewrite firstn_length, skipn_length; lia|].
  intros q Hq. unfold dat. rewrite znth_slice by lia.
  destruct (place_index a q Ls Hz Hc Hq) as (idx & B & E). unfold at_place.
  destruct (find (fun i => Z.eqb (dot_off i (a_strides a)) q) (indices (a_shape a))) as [i|] eqn:F.
  - apply find_some in F as [Hi Eq]. apply Z.eqb_eq in Eq. rewrite <- Eq. apply Hread. apply indices_In. auto.
  - exfalso. apply indices_In in B. pose proof (find_none _ _ F idx B) as N. cbv beta in N.
    apply Z.eqb_neq in N. auto.
Qed.

Lemma sum_into_first' ms : forall st j, sum_into ms st j = sum_into (firstn (length st) ms) st j.
Proof.
  induction ms as [|m ms IH]; intros [|s st] j; simpl; auto. f_equal. auto.
Qed.

Lemma reach_strides_ok st mapping n : Forall (fun p => (p < n)%nat) mapping ->
  map (sum_into mapping st) (seq 0 n) = reach_strides st mapping n.
Proof.
  intros Hm. unfold reach_strides. apply map_ext. intros j. rewrite sum_into_first', sum_into_one. unfold reach.
  f_equal. apply map_ext_in. intros p Hp.
  rewrite nth_unit_at; auto. rewrite Forall_forall in Hm. apply Hm.
  rewrite <- (firstn_skipn (length st) mapping). apply in_or_app. auto.
Qed.

Lemma reach_offset st mapping o : Forall (fun p => (p < length o)%nat) mapping ->
  dot_off o (reach_strides st mapping (length o)) = reach st mapping o.
Proof.
  intros Hm. rewrite <- reach_strides_ok by auto.
  rewrite (map_ext _ (sum_into (firstn (length st) mapping) st)) by (intros; apply sum_into_first').
  rewrite dot_off_grouped; auto.
  rewrite Forall_forall in *. intros p Hp. apply Hm. rewrite <- (firstn_skipn (length st) mapping). apply in_or_app. auto.
Qed.

Lemma dot_off_mono st : Forall (fun s => 0 < s) st -> forall x y, Forall2 le x y -> dot_off x st <= dot_off y st.
Proof.
  intros Hp x y H. revert st Hp. induction H as [|i j x y Hij H IH]; intros [|s st] Hp; simpl; try lia.
  inversion Hp; subst. specialize (IH st H3). nia.
Qed.

Lemma dot_off_nonneg st : Forall (fun s => 0 < s) st -> forall x, 0 <= dot_off x st.
Proof.
  induction 1 as [|s st Hs Hp IH]; intros [|i x]; simpl; try lia. specialize (IH x). nia.
Qed.

Lemma reach_le st mapping osh o : Forall (fun s => 0 < s) st -> in_bounds osh o = true ->
  reach st mapping o <= reach st mapping (map Nat.pred osh).
Proof.
  intros Hp Ho. unfold reach. apply dot_off_mono; auto.
  generalize (firstn (length st) mapping). induction l as [|j l IH]; simpl; constructor; auto.
  apply in_bounds_pred. auto.
Qed.

(** The view of a contiguous operand. *)
Lemma memory_view_any (d : diagonalization) (a : arr A) : wf a ->
  let mapping := input_to_output_mapping d in let out := diag_output_shape d in let sh := a_shape a in
  Forall (fun p => (p < length out)%nat) mapping ->
  is_contiguous a = true -> Forall (fun s => 0 < s) (a_strides a) ->
  let last := reach (a_strides a) mapping (map Nat.pred out) in
  let fine := (length sh <= length mapping)%nat
    /\ (In 0%nat out -> last <= Z.of_nat (prod sh))
    /\ (~ In 0%nat out -> last < Z.of_nat (prod sh)
          /\ dim_stride_overlap out (reach_strides (a_strides a) mapping (length out)) = false) in
  (fine -> exists r, diagonalization_view d a = Ok r
     /\ holds r out (fun o => at_place a (reach (a_strides a) mapping o)))
  /\ (~ fine -> diagonalization_view d a = Panic).
Proof.
  intros Wa mapping out sh Hm Hc Hp last fine.
  pose proof (wf_holds a Wa) as (_ & Ls & _). fold sh in Ls.
  unfold diagonalization_view. fold mapping out.
  assert (Ez : map (fun _ => 0) out = map (fun _ => 0) (seq 0 (length out))).
  { generalize 0%nat. clear. induction out as [|x l IH]; intros z; simpl; auto. f_equal. auto. }
  rewrite Ez. clear Ez.
  destruct (add_strides_any mapping (length out) Hm (a_strides a) 0%nat (fun _ => 0) Hp) as [S1 S2].
  cbn [skipn Nat.add] in S1, S2. rewrite Ls in S1, S2. rewrite Ls.
  destruct (le_lt_dec (length sh) (length mapping)) as [Hl|Hl].
  2:{ rewrite S2 by lia. split; [unfold fine; lia|auto]. }
  rewrite S1 by auto. cbn [rbind].
  rewrite (map_ext (fun j => 0 + sum_into mapping (a_strides a) j) (sum_into mapping (a_strides a))) by auto.
  rewrite reach_strides_ok by auto.
  set (st := reach_strides (a_strides a) mapping (length out)) in *.
  unfold as_slice_memory_order. rewrite Hc. cbn [unwrap rbind]. fold sh.
  set (dat := firstn (prod sh) (skipn (Z.to_nat (a_off a)) (a_data a))).
  assert (Hst : Forall (fun s => 0 <= s) st).
  { unfold st, reach_strides. apply Forall_forall. intros s Hs. apply in_map_iff in Hs as (j & <- & _).
    apply dot_off_nonneg; auto. }
  assert (Emax : max_abs_offset out st = last).
  { rewrite max_abs_offset_pred by auto. unfold st. rewrite <- (map_length Nat.pred out).
    apply reach_offset. rewrite map_length. auto. }
  assert (Hlast : 0 <= last) by (apply dot_off_nonneg; auto).
  assert (Hdat : Z.of_nat (length dat) = Z.of_nat (prod sh)
            /\ forall q, 0 <= q < Z.of_nat (prod sh) -> znth dat q = Some (at_place a q)).
  { destruct (in_dec Nat.eq_dec 0%nat sh) as [Hz|Hz].
    - assert (E0 : prod sh = 0%nat) by (apply is_empty_prod; unfold is_empty_shape; apply existsb_exists; exists 0%nat; auto).
      unfold dat. rewrite E0. split; [reflexivity|]. intros q Hq. lia.
    - destruct (memory_slice a Wa Hc Hz) as [M1 M2]. split; [|exact M2]. f_equal. exact M1. }
  destruct Hdat as [Elen Hdat].
  assert (Hres : last < Z.of_nat (prod sh) \/ In 0%nat out ->
    exists r, Ok (mkArr dat 0 out st) = Ok r /\ holds r out (fun o => at_place a (reach (a_strides a) mapping o))).
  { intros Hlt. eexists. split; [reflexivity|]. split; [auto|].
    split; [cbn [a_strides]; unfold st, reach_strides; rewrite map_length, seq_length; auto|].
    intros o Ho. unfold a_get. cbn [a_shape a_data a_off a_strides]. rewrite Ho.
    assert (Hlo : length o = length out) by (apply in_bounds_length; auto).
    unfold st. rewrite <- Hlo, reach_offset by (rewrite Hlo; auto). rewrite Z.add_0_l.
    rewrite Hdat; [reflexivity|]. split; [apply dot_off_nonneg; auto|].
    destruct Hlt as [Hlt|Hz0].
    - eapply Z.le_lt_trans; [|exact Hlt]. unfold last. apply reach_le; auto.
    - exfalso. apply in_bounds_nonempty in Ho. apply Ho. apply is_empty_prod.
      unfold is_empty_shape. apply existsb_exists. exists 0%nat. auto. }
  unfold view_from_shape. rewrite Emax, Elen.
  destruct (in_dec Nat.eq_dec 0%nat out) as [Ho|Ho].
  - assert (Eo : is_empty_shape out = true) by (unfold is_empty_shape; apply existsb_exists; exists 0%nat; auto).
    rewrite Eo. destruct (Z.ltb_spec (Z.of_nat (prod sh)) last).
    + split; [|auto]. intros (_ & H1 & _). specialize (H1 Ho). lia.
    + split; [intros _; auto|]. intros Hf. exfalso. apply Hf. unfold fine. repeat split; auto; tauto.
  - assert (Eo : is_empty_shape out = false) by (apply is_empty_In; intros x Hx ->; auto).
    rewrite Eo. destruct (Z.leb_spec (Z.of_nat (prod sh)) last).
    + split; [|auto]. intros (_ & _ & H1). specialize (H1 Ho). lia.
    + destruct (dim_stride_overlap out st) eqn:Eov.
      * split; [|auto]. intros (_ & _ & H1). destruct (H1 Ho) as [_ H2]. discriminate.
      * split; [intros _; apply Hres; left; lia|]. intros Hf. exfalso. apply Hf. unfold fine.
        repeat split; auto; tauto.
Qed.

Lemma diag_and_sum_contiguous (SR : near_semiring A) (d : diagonalization) start num s (a : arr A) : wf a ->
  let mapping := input_to_output_mapping d in let out := diag_output_shape d in let sh := a_shape a in
  Forall (fun p => (p < length out)%nat) mapping ->
  is_contiguous a = true -> Forall (fun s => 0 < s) (a_strides a) ->
  summation_from_sizes start num = Ok s -> (start + num <= length out)%nat ->
  let last := reach (a_strides a) mapping (map Nat.pred out) in
  let fine := (length sh <= length mapping)%nat
    /\ (In 0%nat out -> last <= Z.of_nat (prod sh))
    /\ (~ In 0%nat out -> last < Z.of_nat (prod sh)
          /\ dim_stride_overlap out (reach_strides (a_strides a) mapping (length out)) = false) in
  (fine -> exists r, diag_and_sum_contract lay d s a = Ok r
    /\ holds r (firstn start out ++ skipn (start + num) out) (fun idx =>
         sum_idx (firstn num (skipn start out)) (fun z =>
           at_place a (reach (a_strides a) mapping (firstn start idx ++ z ++ skipn start idx)))))
  /\ (~ fine -> diag_and_sum_contract lay d s a = Panic).
Proof.
  intros Wa mapping out sh Hm Hc Hp Hs Hn last fine. unfold diag_and_sum_contract.
  assert (Es : as_slice_memory_order a = Some (firstn (prod sh) (skipn (Z.to_nat (a_off a)) (a_data a)))).
  { unfold as_slice_memory_order. rewrite Hc. reflexivity. }
  assert (Ef : forallb (fun st => Z.ltb 0 st) (a_strides a) = true).
  { apply forallb_forall. intros x Hx. apply Z.ltb_lt. rewrite Forall_forall in Hp. auto. }
  rewrite Es, Ef. cbn [andb].
  destruct (memory_view_any d a Wa Hm Hc Hp) as [C1 C2]. split; intros Hf.
  - destruct (C1 Hf) as (v & -> & Hv). cbn [rbind]. eapply (sum_of_holds lay Hlay SR) in Hv; eauto.
  - rewrite (C2 Hf). auto.
Qed.

End Mem.
