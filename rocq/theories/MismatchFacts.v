(** The contractors on operands of shapes they were not compiled for. *)
From Verif Require Import Base BaseFacts NDArray Validation Singleton Pair Spec SumFacts ArrayFacts TensordotFacts
  TensordotMain.
From Coq Require Import Lia.

(** ** Broadcasting *)

(** The common shape of two shapes, all read from the last axis to the first: axes have the same
    length, or one of them has length 1 and is repeated; missing axes are repeated. *)
Inductive common : list nat -> list nat -> list nat -> Prop :=
| common_left : forall s, common [] s s
| common_right : forall s, common s [] s
| common_same : forall n s t u, common s t u -> common (n :: s) (n :: t) (n :: u)
| common_one_left : forall n s t u, common s t u -> common (1 :: s) (n :: t) (n :: u)
| common_one_right : forall n s t u, common s t u -> common (n :: s) (1 :: t) (n :: u).

(** The position in an array of shape [sh] of the element repeated at a position of the common
    shape, again read from the last axis. *)
Fixpoint source_rev (sh idx : list nat) : list nat :=
  match sh, idx with
  | n :: sh', i :: idx' => (if Nat.eqb n 1 then 0 else i) :: source_rev sh' idx'
  | _, _ => []
  end.
Definition source (sh idx : list nat) : list nat := rev (source_rev (rev sh) (rev idx)).

Lemma common_sym s t u : common s t u -> common t s u.
Proof. induction 1; constructor; auto. Qed.

Lemma common_fun s t u : common s t u -> forall u', common s t u' -> u = u'.
Proof.
  induction 1; intros u' H'; inversion H'; subst; auto; f_equal; auto.
Qed.

Lemma co_broadcast_ok s t u : co_broadcast_rev s t = Some u <-> common s t u.
Proof.
  split.
  - revert t u. induction s as [|x s IH]; intros t u; cbn [co_broadcast_rev].
    + intros [= <-]. constructor.
    + destruct t as [|y t]; [intros [= <-]; constructor|].
      destruct (co_broadcast_rev s t) as [rest|] eqn:E; [|discriminate]. specialize (IH t rest E).
      destruct (Nat.eqb_spec x y); [subst; intros [= <-]; constructor; auto|].
      destruct (Nat.eqb_spec x 1); [subst; intros [= <-]; constructor; auto|].
      destruct (Nat.eqb_spec y 1); [subst; intros [= <-]; constructor; auto|discriminate].
  - induction 1 as [s|s|n s t u H IH|n s t u H IH|n s t u H IH]; cbn [co_broadcast_rev].
    + auto.
    + destruct s; auto.
    + rewrite IH, Nat.eqb_refl. auto.
    + rewrite IH. destruct (Nat.eqb_spec 1 n); [subst; auto|]. rewrite Nat.eqb_refl. auto.
    + rewrite IH. destruct (Nat.eqb_spec n 1); [subst; auto|]. rewrite Nat.eqb_refl. auto.
Qed.

Lemma dot_off_app' i1 i2 s1 s2 : length i1 = length s1 ->
  dot_off (i1 ++ i2) (s1 ++ s2) = (dot_off i1 s1 + dot_off i2 s2)%Z.
Proof.
  revert s1. induction i1 as [|i i1 IH]; intros [|s s1] H; simpl in *; try discriminate; auto.
  rewrite IH by lia. lia.
Qed.

Lemma dot_off_rev idx st : length idx = length st -> dot_off (rev idx) (rev st) = dot_off idx st.
Proof.
  revert st. induction idx as [|i idx IH]; intros [|s st] H; simpl in *; try discriminate; auto.
  rewrite dot_off_app' by (rewrite !rev_length; lia). rewrite IH by lia. simpl. lia.
Qed.

Lemma in_bounds_rev sh idx : in_bounds (rev sh) (rev idx) = in_bounds sh idx.
Proof.
  assert (H : forall sh idx, in_bounds sh idx = true -> in_bounds (rev sh) (rev idx) = true).
  { clear. induction sh as [|d sh IH]; intros [|i idx] H; simpl in *; try discriminate; auto.
    apply andb_true_iff in H as [H1 H2]. apply in_bounds_app; auto. simpl. rewrite H1. auto. }
  destruct (in_bounds sh idx) eqn:E; [auto|].
  destruct (in_bounds (rev sh) (rev idx)) eqn:E2; auto. apply H in E2. rewrite !rev_involutive in E2. congruence.
Qed.

(** The position meant lies in the array. *)
Lemma source_rev_bounds s t u : common s t u -> forall idx, in_bounds u idx = true ->
  in_bounds s (source_rev s idx) = true.
Proof.
  induction 1 as [s|s|n s t u H IH|n s t u H IH|n s t u H IH]; intros idx Hi.
  - auto.
  - revert idx Hi. induction s as [|n s IH]; intros [|i idx] Hi; simpl in *; try discriminate; auto.
    apply andb_true_iff in Hi as [H1 H2]. rewrite IH by auto.
    destruct (Nat.eqb_spec n 1); [subst; auto|]. rewrite H1. auto.
  - destruct idx as [|i idx]; [discriminate|]. cbn [in_bounds source_rev] in *.
    apply andb_true_iff in Hi as [H1 H2]. rewrite IH by auto.
    destruct (Nat.eqb_spec n 1); [subst; auto|]. rewrite H1. auto.
  - destruct idx as [|i idx]; [discriminate|]. cbn [in_bounds source_rev] in *.
    apply andb_true_iff in Hi as [H1 H2]. rewrite IH by auto. auto.
  - destruct idx as [|i idx]; [discriminate|]. cbn [in_bounds source_rev] in *.
    apply andb_true_iff in Hi as [H1 H2]. rewrite IH by auto.
    destruct (Nat.eqb_spec n 1); [subst; auto|]. rewrite H1. auto.
Qed.

Lemma source_rev_same s idx : in_bounds s idx = true -> source_rev s idx = idx.
Proof.
  revert idx. induction s as [|n s IH]; intros [|i idx] H; simpl in *; try discriminate; auto.
  apply andb_true_iff in H as [H1 H2]. rewrite IH by auto. destruct (Nat.eqb_spec n 1); auto.
  subst. apply Nat.ltb_lt in H1. f_equal. lia.
Qed.

Lemma upcast_ok s t u : common s t u -> forall st, length st = length s ->
  exists st', upcast_rev u s st = Some st' /\ length st' = length u
    /\ forall idx, in_bounds u idx = true -> dot_off idx st' = dot_off (source_rev s idx) st.
Proof.
  induction 1 as [s|s|n s t u H IH|n s t u H IH|n s t u H IH]; intros st Hl.
  - eexists. split; [destruct s; reflexivity|]. split; [apply map_length|]. intros idx Hi.
    revert idx Hi. induction s as [|n s IH]; intros [|i idx] Hi; simpl in *; try discriminate; auto.
    apply andb_true_iff in Hi as [_ Hi]. rewrite IH by auto. lia.
  - revert st Hl. induction s as [|n s IH]; intros [|x st] Hl; simpl in Hl; try discriminate.
    { exists []. split; auto. split; auto. intros [|i idx] Hi; [auto|discriminate]. }
    destruct (IH st ltac:(lia)) as (st' & E & Hl' & Hd). cbn [upcast_rev]. rewrite E, Nat.eqb_refl.
    exists (x :: st'). split; auto. split; [simpl; lia|]. intros [|i idx] Hi; cbn [in_bounds] in Hi; [discriminate|].
    apply andb_true_iff in Hi as [H1 H2]. cbn [source_rev dot_off]. rewrite Hd by auto.
    destruct (Nat.eqb_spec n 1); auto. subst. apply Nat.ltb_lt in H1. replace i with 0 by lia. auto.
  - destruct st as [|x st]; [discriminate|]. simpl in Hl. destruct (IH st ltac:(lia)) as (st' & E & Hl' & Hd).
    cbn [upcast_rev]. rewrite E, Nat.eqb_refl.
    exists (x :: st'). split; auto. split; [simpl; lia|]. intros [|i idx] Hi; cbn [in_bounds] in Hi; [discriminate|].
    apply andb_true_iff in Hi as [H1 H2]. cbn [source_rev dot_off]. rewrite Hd by auto.
    destruct (Nat.eqb_spec n 1); auto. subst. apply Nat.ltb_lt in H1. replace i with 0 by lia. auto.
  - destruct st as [|x st]; [discriminate|]. simpl in Hl. destruct (IH st ltac:(lia)) as (st' & E & Hl' & Hd).
    cbn [upcast_rev]. rewrite E. destruct (Nat.eqb_spec n 1) as [->|Hn].
    + exists (x :: st'). split; auto. split; [simpl; lia|]. intros [|i idx] Hi; cbn [in_bounds] in Hi; [discriminate|].
      apply andb_true_iff in Hi as [H1 H2]. cbn [source_rev dot_off]. rewrite Hd by auto.
      apply Nat.ltb_lt in H1. replace i with 0 by lia. auto.
    + rewrite Nat.eqb_refl. exists (0%Z :: st'). split; auto. split; [simpl; lia|].
      intros [|i idx] Hi; cbn [in_bounds] in Hi; [discriminate|].
      apply andb_true_iff in Hi as [H1 H2]. cbn [source_rev dot_off]. rewrite Hd by auto. cbn [Nat.eqb]. lia.
  - destruct st as [|x st]; [discriminate|]. simpl in Hl. destruct (IH st ltac:(lia)) as (st' & E & Hl' & Hd).
    cbn [upcast_rev]. rewrite E, Nat.eqb_refl.
    exists (x :: st'). split; auto. split; [simpl; lia|]. intros [|i idx] Hi; cbn [in_bounds] in Hi; [discriminate|].
    apply andb_true_iff in Hi as [H1 H2]. cbn [source_rev dot_off]. rewrite Hd by auto.
    destruct (Nat.eqb_spec n 1); auto. subst. apply Nat.ltb_lt in H1. replace i with 0 by lia. auto.
Qed.

Section Any.
Context {A : Type} {Sc : Scalar A}.
Variable lay : backend A.
Hypothesis Hlay : backend_runs lay.

Lemma source_same (a : arr A) idx : in_bounds (a_shape a) idx = true -> source (a_shape a) idx = idx.
Proof.
  intros H. unfold source. rewrite source_rev_same by (rewrite in_bounds_rev; auto). apply rev_involutive.
Qed.

(** A broadcast view. *)
Lemma broadcast_holds (a : arr A) t sh : wf a -> common (rev (a_shape a)) t (rev sh) ->
  exists r, broadcast a sh = Ok r /\ holds r sh (fun idx => elem a (source (a_shape a) idx)).
Proof.
  intros Wa Hc. unfold broadcast. pose proof (wf_holds a Wa) as (_ & Hl & He).
  destruct (upcast_ok _ _ _ Hc (rev (a_strides a))) as (st & E & Hls & Hd).
  { rewrite !rev_length. auto. }
  rewrite E. eexists. split; [reflexivity|]. split; [auto|]. split; [cbn [a_strides]; rewrite !rev_length in *; auto|].
  intros idx Hi. rewrite <- He.
  - unfold a_get. cbn [a_shape a_data a_off a_strides]. rewrite Hi.
    assert (Hr : in_bounds (rev sh) (rev idx) = true) by (rewrite in_bounds_rev; auto).
    pose proof (source_rev_bounds _ _ _ Hc _ Hr) as Hb.
    assert (Hb' : in_bounds (a_shape a) (source (a_shape a) idx) = true).
    { rewrite <- in_bounds_rev. unfold source. rewrite rev_involutive. auto. }
    rewrite Hb'. do 3 f_equal.
    rewrite <- (dot_off_rev idx (rev st)), rev_involutive.
    2:{ pose proof (in_bounds_length _ _ Hi). rewrite !rev_length in *. lia. }
    rewrite Hd by auto. unfold source.
    rewrite <- (dot_off_rev (source_rev (rev (a_shape a)) (rev idx)) (rev (a_strides a))), rev_involutive; auto.
    apply in_bounds_length in Hb. rewrite Hb, !rev_length. auto.
  - rewrite <- in_bounds_rev. unfold source. rewrite rev_involutive. eapply source_rev_bounds; eauto.
    rewrite in_bounds_rev. auto.
Qed.

(** HadamardProduct multiplies the broadcast operands. *)
Lemma hadamard_any (a b : arr A) : wf a -> wf b ->
  (forall sh, common (rev (a_shape a)) (rev (a_shape b)) (rev sh) ->
     exists r, run_hadamard lay a b = Ok r
       /\ holds r sh (fun idx => smul (elem a (source (a_shape a) idx)) (elem b (source (a_shape b) idx))))
  /\ ((forall sh, ~ common (rev (a_shape a)) (rev (a_shape b)) (rev sh)) -> run_hadamard lay a b = Panic).
Proof.
  intros Wa Wb. unfold run_hadamard, mul_arrays. split.
  - intros sh Hc.
    assert (Hv : exists a' b', (if list_nat_eqb (a_shape a) (a_shape b) then Ok (a, b) else broadcast_with a b) = Ok (a', b')
       /\ holds a' sh (fun idx => elem a (source (a_shape a) idx)) /\ holds b' sh (fun idx => elem b (source (a_shape b) idx))).
    { assert (Own : forall c : arr A, wf c -> sh = a_shape c -> holds c sh (fun idx => elem c (source (a_shape c) idx))).
      { intros c Wc ->. eapply holds_ext; [|apply wf_holds; auto]. intros idx Hi. cbv beta. rewrite source_same; auto. }
      destruct (list_nat_eqb (a_shape a) (a_shape b)) eqn:E.
      - apply list_nat_eqb_eq in E. exists a, b. split; auto.
        assert (Es : sh = a_shape a).
        { rewrite <- E in Hc. assert (Hs : common (rev (a_shape a)) (rev (a_shape a)) (rev (a_shape a))).
          { generalize (rev (a_shape a)). induction l; constructor; auto. }
          rewrite <- (rev_involutive sh), (common_fun _ _ _ Hc _ Hs), rev_involutive. auto. }
        split; apply Own; auto. congruence.
      - unfold broadcast_with. rewrite (proj2 (co_broadcast_ok _ _ _) Hc), rev_involutive.
        destruct (broadcast_holds a _ sh Wa Hc) as (x & Ex & Hx).
        destruct (broadcast_holds b _ sh Wb (common_sym _ _ _ Hc)) as (y & Ey & Hy).
        destruct (list_nat_eqb sh (a_shape a)) eqn:E1; [apply list_nat_eqb_eq in E1|];
          (destruct (list_nat_eqb sh (a_shape b)) eqn:E2; [apply list_nat_eqb_eq in E2|]);
          rewrite ?Ex, ?Ey; cbn [rbind]; eexists _, _; split; eauto. }
    destruct Hv as (a' & b' & E & Ha & Hb). rewrite E. cbn [rbind].
    destruct Ha as (Sa & _ & Ha). destruct Hb as (Sb & _ & Hb). rewrite Sa.
    rewrite (mapM_ok _ (fun idx => smul (elem a (source (a_shape a) idx)) (elem b (source (a_shape b) idx)))).
    + cbn [rbind]. eexists. split; [reflexivity|]. apply (holds_mk_c_lay lay LMul [a; b] sh
        (fun idx => smul (elem a (source (a_shape a) idx)) (elem b (source (a_shape b) idx)))); auto.
    + intros idx Hi. apply indices_In in Hi. rewrite Ha, Hb by auto. auto.
  - intros Hn. destruct (list_nat_eqb (a_shape a) (a_shape b)) eqn:E.
    + exfalso. apply list_nat_eqb_eq in E. apply (Hn (a_shape a)). rewrite <- E.
      generalize (rev (a_shape a)). induction l; constructor; auto.
    + unfold broadcast_with. destruct (co_broadcast_rev (rev (a_shape a)) (rev (a_shape b))) as [u|] eqn:Eu; auto.
      apply co_broadcast_ok in Eu. exfalso. apply (Hn (rev u)). rewrite rev_involutive. auto.
Qed.

(** ** Products with a number *)

Definition first_elem (a : arr A) : A := elem a (map (fun _ => 0) (a_shape a)).

Lemma first_any (a : arr A) : wf a ->
  (~ In 0 (a_shape a) -> first a = Ok (Some (first_elem a))) /\ (In 0 (a_shape a) -> first a = Ok None).
Proof.
  intros Wa. pose proof (wf_holds a Wa) as (_ & _ & He). unfold first. split; intros H.
  - destruct (is_empty_shape (a_shape a)) eqn:E.
    + exfalso. apply H. unfold is_empty_shape in E. apply existsb_exists in E as (x & Hx & Ex).
      apply Nat.eqb_eq in Ex. subst. auto.
    + rewrite He; auto. clear -H. induction (a_shape a) as [|n l IH]; simpl in *; auto.
      rewrite IH by tauto. destruct n; [tauto|auto].
  - assert (E : is_empty_shape (a_shape a) = true).
    { unfold is_empty_shape. apply existsb_exists. exists 0. auto. }
    rewrite E. auto.
Qed.

Lemma scalar_matrix_any (a b : arr A) : wf a -> wf b ->
  (~ In 0 (a_shape a) -> exists r, run_scalar_matrix lay a b = Ok r
     /\ holds r (a_shape b) (fun idx => smul (elem b idx) (first_elem a)))
  /\ (In 0 (a_shape a) -> run_scalar_matrix lay a b = Panic).
Proof.
  intros Wa Wb. destruct (first_any a Wa) as [H1 H2]. unfold run_scalar_matrix. split; intros H.
  - rewrite (H1 H). cbn [rbind unwrap].
    destruct (mapv_holds lay Hlay b (a_shape b) (elem b) (fun x => smul x (first_elem a)) (wf_holds b Wb)) as (r & E & Hr).
    eauto.
  - rewrite (H2 H). auto.
Qed.

Lemma matrix_scalar_any (a b : arr A) : wf a -> wf b ->
  (~ In 0 (a_shape b) -> exists r, run_matrix_scalar lay a b = Ok r
     /\ holds r (a_shape a) (fun idx => smul (elem a idx) (first_elem b)))
  /\ (In 0 (a_shape b) -> run_matrix_scalar lay a b = Panic).
Proof. intros Wa Wb. apply (scalar_matrix_any b a Wb Wa). Qed.

(** ** Matrix products *)

(** The [n]th element in row-major order. *)
Definition nth_elem (a : arr A) (n : nat) : A := elem a (unflat (a_shape a) n).

Lemma as_matrix_any (a : arr A) m k : wf a ->
  (m * k = prod (a_shape a) -> exists r, as_matrix m k a = Ok r
     /\ holds r [m; k] (fun ij => nth_elem a (flat [m; k] ij)) /\ a_strides r = default_strides [m; k])
  /\ (m * k <> prod (a_shape a) -> as_matrix m k a = Panic).
Proof.
  intros Wa. pose proof (wf_holds a Wa) as H. unfold as_matrix. split; intros Hp.
  - assert (Hp' : prod [m; k] = prod (a_shape a)) by (rewrite prod_pair; auto).
    destruct (is_standard_layout a) eqn:Hs.
    + destruct (into_shape_standard a (a_shape a) [m; k] (elem a) H Hs Hp') as (r & E & Hr & Hst & _). eauto.
    + rewrite (holds_iter _ _ _ H). simpl rbind. rewrite from_shape_vec_ok by auto.
      eexists. split; [reflexivity|]. split; auto. apply (holds_reshape_copy (a_shape a) [m; k] (elem a)). auto.
  - destruct (is_standard_layout a).
    + unfold into_shape. rewrite prod_pair. apply Nat.eqb_neq in Hp. rewrite Hp. auto.
    + rewrite (holds_iter _ _ _ H). cbn [rbind]. unfold from_shape_vec.
      rewrite map_length, indices_length, prod_pair. apply Nat.eqb_neq in Hp. rewrite Nat.eqb_sym, Hp. auto.
Qed.

(** Element [i] of the product of an [m] by [k] and a [k] by [n] matrix, all in row-major order. *)
Definition product_entry (k n : nat) (f g : nat -> A) (i : nat) : A :=
  sum_n k (fun x => smul (f (i / n * k + x)) (g (x * n + i mod n))).

(** The element of TensordotFixedPosition's result at [o]. *)
Definition matrix_product_value (t : tensordot_fixed) (a b : arr A) (o : list nat) : A :=
  product_entry (len_contracted_axes t) (len_uncontracted_rhs t) (nth_elem a) (nth_elem b)
    (flat (tfp_output_shape t) o).

Lemma tfp_any (SR : near_semiring A) (Hok : backend_ok lay) (t : tensordot_fixed) (a b : arr A) : wf a -> wf b ->
  let fine := len_uncontracted_lhs t * len_contracted_axes t = prod (a_shape a)
    /\ len_contracted_axes t * len_uncontracted_rhs t = prod (a_shape b)
    /\ len_uncontracted_lhs t * len_uncontracted_rhs t = prod (tfp_output_shape t) in
  (fine -> exists r, run_tfp lay t a b = Ok r /\ holds r (tfp_output_shape t) (matrix_product_value t a b))
  /\ (~ fine -> run_tfp lay t a b = Panic).
Proof.
  intros Wa Wb fine. destruct t as [m n k sh]. unfold fine, matrix_product_value, product_entry, run_tfp. clear fine.
  cbn [len_uncontracted_lhs len_uncontracted_rhs len_contracted_axes tfp_output_shape].
  destruct (as_matrix_any a m k Wa) as [A1 A2]. destruct (as_matrix_any b k n Wb) as [B1 B2].
  destruct (Nat.eq_dec (m * k) (prod (a_shape a))) as [Ea|Ea].
  2:{ rewrite (A2 Ea). split; [tauto|auto]. }
  destruct (A1 Ea) as (lv & -> & Hl & Sl). cbn [rbind].
  destruct (Nat.eq_dec (k * n) (prod (a_shape b))) as [Eb|Eb].
  2:{ rewrite (B2 Eb). split; [tauto|auto]. }
  destruct (B1 Eb) as (rv & -> & Hr & Sr). cbn [rbind].
  destruct (dot_raw lay lv rv _ _ _ _ _ Hl Sl Hr Sr) as (d & -> & Hd & Sd). cbn [rbind].
  destruct (Nat.eq_dec (m * n) (prod sh)) as [Ec|Ec].
  2:{ split; [tauto|]. intros _. unfold into_shape. destruct Hd as (-> & _). rewrite prod_pair.
      destruct (Nat.eqb_spec (prod sh) (m * n)); [lia|auto]. }
  split; [intros _|intros H; exfalso; apply H; auto].
  destruct (into_shape_standard d [m; n] sh _ Hd Sd) as (r & -> & H & _). { rewrite prod_pair. lia. }
  exists r. split; auto. eapply holds_ext; [|exact H]. intros o Ho. cbv beta. unfold refold.
  pose proof (flat_lt _ _ Ho) as Hlt. rewrite <- Ec in Hlt. set (f := flat sh o) in *.
  assert (Hn : n <> 0) by (intros ->; lia).
  assert (E : unflat [m; n] f = [f / n; f mod n]).
  { assert (H1 : f / n < m) by (apply Nat.div_lt_upper_bound; lia).
    assert (H2 : f mod n < n) by (apply Nat.mod_upper_bound; auto).
    apply (flat_inj [m; n]).
    - apply unflat_in_bounds. rewrite prod_pair. auto.
    - simpl. rewrite (proj2 (Nat.ltb_lt _ _) H1), (proj2 (Nat.ltb_lt _ _) H2). auto.
    - rewrite flat_unflat by (rewrite prod_pair; auto). simpl. pose proof (Nat.div_mod f n Hn). lia. }
  rewrite E. cbn [dot_value].
  pose proof (add_products_ok Hlay lv rv [f / n; f mod n]
    (dot_terms k (fun ij => nth_elem a (flat [m; k] ij)) (fun ij => nth_elem b (flat [k; n] ij)) (f / n) (f mod n))) as Hs.
  unfold dot_terms in Hs at 1.
  symmetry. 
  pose proof (dots_to_rel_n eq eq_relation lay (eq_fused lay Hok) SR k
    (fun x => nth_elem a (flat [m; k] [f / n; x])) (fun x => nth_elem b (flat [k; n] [x; f mod n]))
    (fun x => nth_elem a (f / n * k + x)) (fun x => nth_elem b (x * n + f mod n)) _ Hs) as Hfin.
  symmetry. apply Hfin. intros i Hi. split; f_equal; simpl; lia.
Qed.

(** ** Rearranging *)

Lemma permutation_any p (a : arr A) n : Permutation p (seq 0 n) -> wf a ->
  (length (a_shape a) = n -> exists r, permutation_contract lay p a = Ok r
     /\ holds r (axis_lengths (a_shape a) p) (fun idx => elem a (place n p idx)))
  /\ (length (a_shape a) <> n -> permutation_contract lay p a = Panic).
Proof.
  intros Hp Wa. pose proof (wf_holds a Wa) as H. unfold permutation_contract, permutation_view. split; intros Hn.
  - subst n. destruct (permuted_place a (a_shape a) (elem a) p H Hp) as (v & E & Hv). rewrite E. cbn [rbind].
    destruct (to_owned_holds lay Hlay v _ _ Hv) as (r & Er & Hr). eauto.
  - unfold permuted_axes. pose proof (Permutation_length Hp) as Hl. rewrite seq_length in Hl.
    destruct (Nat.eqb_spec (length p) (length (a_shape a))); [lia|]. auto.
Qed.

(** ** Summing *)

Lemma skipn_add {T} n k (l : list T) : skipn (n + k) l = skipn k (skipn n l).
Proof. revert l. induction n as [|n IH]; intros [|x l]; simpl; auto. rewrite skipn_nil. auto. Qed.

Lemma sum_idx_swap (SR : near_semiring A) ds n (f : list nat -> nat -> A) :
  sum_idx ds (fun z => sum_n n (f z)) = sum_n n (fun i => sum_idx ds (fun z => f z i)).
Proof.
  revert f. induction ds as [|d ds IH]; intros f; simpl; auto.
  rewrite (sum_n_ext d _ (fun j => sum_n n (fun i => sum_idx ds (fun z => f (j :: z) i)))).
  2:{ intros j _. apply (IH (fun z => f (j :: z))). }
  apply (sum_n_swap SR).
Qed.

Lemma sums_any (SR : near_semiring A) ds : forall s1 s2 (a : arr A) f, holds a (s1 ++ ds ++ s2) f ->
  exists r, foldM (fun r ax => sum_axis lay r ax) (map (fun _ => length s1) ds) a = Ok r
    /\ holds r (s1 ++ s2) (fun idx => sum_idx ds (fun z =>
         f (firstn (length s1) idx ++ z ++ skipn (length s1) idx))).
Proof.
  induction ds as [|d ds IH]; intros s1 s2 a f H.
  - exists a. split; auto. eapply holds_ext; [|exact H]. intros idx _. simpl. rewrite firstn_skipn. auto.
  - destruct (sum_axis_holds lay Hlay a s1 d (ds ++ s2) f H) as (r & g & E & Hr & Hg).
    cbn [map foldM]. rewrite E. cbn [rbind].
    assert (Hr' : holds r (s1 ++ ds ++ s2) (fun idx => sum_n d (fun i => f (insert_nth (length s1) i idx)))).
    { eapply holds_ext; [|exact Hr]. intros idx _.
      apply (sums_to_rel_n eq eq_relation SR d _ (fun i => f (insert_nth (length s1) i idx)) _ (Hg idx)). auto. }
    destruct (IH s1 s2 r _ Hr') as (r' & E' & Hr''). exists r'. split; auto.
    eapply holds_ext; [|exact Hr'']. intros idx Hi. cbv beta.
    apply in_bounds_app_inv in Hi as (x & y & -> & Bx & By). rewrite <- (in_bounds_length _ _ Bx).
    rewrite firstn_exact, skipn_exact. cbn [sum_idx].
    rewrite <- (sum_idx_swap SR ds d (fun z i => f (x ++ (i :: z) ++ y))).
    apply sum_idx_ext. intros z _. apply sum_n_ext. intros i _. rewrite insert_nth_app. auto.
Qed.

Lemma sums_panic start num : forall a : arr A, wf a -> 1 <= num -> length (a_shape a) < start + num ->
  foldM (fun r ax => sum_axis lay r ax) (map (fun _ => start) (seq 0 num)) a = Panic.
Proof.
  assert (E : forall k, map (fun _ : nat => start) (seq 0 k) = repeat start k).
  { intros k. generalize 0. induction k as [|k IH]; intros z; simpl; auto. f_equal. auto. }
  rewrite E. clear E. induction num as [|num IH]; intros a Wa H1 Hl; [lia|]. cbn [repeat foldM].
  destruct (le_lt_dec (length (a_shape a)) start) as [Hs|Hs].
  - unfold sum_axis. unfold index at 1. rewrite (proj2 (nth_error_None _ _)) by auto. auto.
  - pose proof (wf_holds a Wa) as H.
    destruct (nth_split (a_shape a) 0 Hs) as (s1 & s2 & Es & Ls). rewrite Es in H.
    destruct (sum_axis_holds lay Hlay a s1 _ s2 _ H) as (r & g & Er & Hr & _). rewrite Ls in Er. rewrite Er. cbn [rbind].
    apply IH.
    + eapply holds_wf; eauto.
    + rewrite Es, app_length in Hs, Hl. simpl in Hs, Hl. lia.
    + destruct Hr as (-> & _). rewrite Es in Hl. rewrite app_length in *. simpl in Hl. lia.
Qed.

Lemma summation_any (SR : near_semiring A) start num s (a : arr A) : summation_from_sizes start num = Ok s -> wf a ->
  (start + num <= length (a_shape a) -> exists r, summation_contract lay s a = Ok r
     /\ holds r (firstn start (a_shape a) ++ skipn (start + num) (a_shape a))
          (fun idx => sum_idx (firstn num (skipn start (a_shape a))) (fun z =>
             elem a (firstn start idx ++ z ++ skipn start idx))))
  /\ (length (a_shape a) < start + num -> summation_contract lay s a = Panic).
Proof.
  unfold summation_from_sizes. intros Es Wa. destruct (Nat.leb_spec 1 num) as [H1|H1]; [|discriminate].
  cbn [rassert rbind] in Es. injection Es as <-.
  assert (E : summation_contract lay (mkSummation (seq start num) (map (fun _ => start) (seq 0 num))) a
              = foldM (fun r ax => sum_axis lay r ax) (map (fun _ => start) (seq 0 num)) a).
  { unfold summation_contract. cbn [adjusted_axis_list]. destruct num as [|num]; [lia|]. cbn [seq map skipn].
    unfold index. cbn [nth_error unwrap rbind foldM]. auto. }
  rewrite E. split; intros Hl.
  - set (s1 := firstn start (a_shape a)). set (ds := firstn num (skipn start (a_shape a))).
    set (s2 := skipn (start + num) (a_shape a)).
    assert (Esh : a_shape a = s1 ++ ds ++ s2).
    { unfold s1, ds, s2. rewrite skipn_add, firstn_skipn, firstn_skipn. auto. }
    assert (L1 : length s1 = start) by (unfold s1; rewrite firstn_length; lia).
    assert (L2 : length ds = num) by (unfold ds; rewrite firstn_length, skipn_length; lia).
    pose proof (wf_holds a Wa) as H. rewrite Esh in H.
    destruct (sums_any SR ds s1 s2 a _ H) as (r & Er & Hr). exists r. split.
    + rewrite <- Er, L1. f_equal. rewrite <- L2. clear. generalize 0. induction ds as [|d ds IH]; intros z; simpl; auto.
      f_equal. auto.
    + rewrite L1 in Hr. exact Hr.
  - apply sums_panic; auto.
Qed.

End Any.
