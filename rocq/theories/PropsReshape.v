(** Reshaping (C85): which elements [into_shape] reads, and that the crate only applies it to arrays in row-major order. *)
From Verif Require Import Base BaseFacts NDArray Validation Singleton Pair Optimizers Path Api Spec SumFacts ArrayFacts PathFacts
  EinsumMain EinsumProps TensordotFacts StackedFacts MismatchFacts GeneralFacts LimitsFacts Examples PropsTensordot.
From Coq Require Import Lia.
Local Open Scope list_scope.
Local Open Scope nat_scope.

(** ** Orders in memory *)

(** The elements lie in memory in the order of their indices, the last index changing fastest [pair_contractors.rs:195,209]. *)
Definition row_major {A} (a : arr A) : Prop :=
  forall idx, in_bounds (a_shape a) idx = true -> dot_off idx (a_strides a) = Z.of_nat (flat (a_shape a) idx).

(** The first index changes fastest [pair_contractors.rs:224,998]. *)
Definition column_major {A} (a : arr A) : Prop :=
  forall idx, in_bounds (a_shape a) idx = true -> dot_off idx (a_strides a) = Z.of_nat (flat (rev (a_shape a)) (rev idx)).

Lemma zeros_in_bounds sh : Forall (fun d => d <> 0) sh -> in_bounds sh (map (fun _ => 0) sh) = true.
Proof. induction 1 as [|d sh Hd H IH]; cbn; auto. destruct d; [contradiction|]. auto. Qed.

Lemma flat_zeros sh : flat sh (map (fun _ => 0) sh) = 0.
Proof. induction sh as [|d sh IH]; cbn; auto. Qed.

Lemma layout_c_iff sh : Forall (fun d => d <> 0) sh -> forall strides, length strides = length sh ->
  layout_c_rev 1 (rev sh) (rev strides) = true
  <-> forall idx, in_bounds sh idx = true -> dot_off idx strides = Z.of_nat (flat sh idx).
Proof.
  intros Hz strides Hl. split; [intros H idx Hi; apply layout_c_dot; auto|]. revert strides Hl.
  induction Hz as [|d sh Hd Hz IH]; intros [|s strides] Hl H; try discriminate; auto. cbn [length] in Hl. cbn [rev].
  assert (H0 : forall idx, in_bounds sh idx = true -> dot_off idx strides = Z.of_nat (flat sh idx)).
  { intros idx Hi. specialize (H (0 :: idx)). cbn [in_bounds dot_off flat] in H. rewrite Hi in H.
    destruct d; [contradiction|]. specialize (H eq_refl). lia. }
  rewrite layout_c_rev_app by (rewrite !rev_length; lia). rewrite (IH strides) by (auto; lia). rewrite prod_rev, Z.mul_1_l.
  cbn [andb layout_c_rev]. destruct (Nat.eqb_spec d 1); auto.
  specialize (H (1 :: map (fun _ => 0) sh)). cbn [in_bounds dot_off flat] in H.
  rewrite zeros_in_bounds, (H0 _ (zeros_in_bounds sh Hz)), flat_zeros in H by auto.
  destruct (Z.eqb_spec s (Z.of_nat (prod sh))) as [|Hne]; auto. exfalso. apply Hne.
  assert (Hlt : Nat.ltb 1 d && true = true) by (destruct d as [|[|d]]; auto; lia). specialize (H Hlt). lia.
Qed.

Lemma nonempty_axes sh : is_empty_shape sh = false -> Forall (fun d => d <> 0) sh.
Proof.
  unfold is_empty_shape. induction sh as [|d sh IH]; cbn [existsb]; intros H; constructor; apply orb_false_iff in H as [H1 H2]; auto.
  intros ->. discriminate.
Qed.

Lemma empty_no_index sh idx : is_empty_shape sh = true -> in_bounds sh idx = false.
Proof. intros H. destruct (in_bounds sh idx) eqn:E; auto. apply is_empty_prod in H. apply in_bounds_nonempty in E. congruence. Qed.

(** [is_standard_layout] says exactly whether the elements lie in row-major order. *)
Theorem standard_layout_is_row_major :
  forall (A : Type) (a : arr A), wf a -> (is_standard_layout a = true <-> row_major a).
Proof.
  intros A a Wa. apply wf_readable in Wa as [Wl _]. unfold is_standard_layout, row_major.
  destruct (is_empty_shape (a_shape a)) eqn:E; cbn [orb].
  - split; auto. intros _ idx Hi. rewrite empty_no_index in Hi by auto. discriminate.
  - apply layout_c_iff; auto. apply nonempty_axes. auto.
Qed.
Print Assumptions standard_layout_is_row_major.

(** Rows of a matrix with a gap after each are not in row-major order; a single row is. *)
Example standard_layout_case :
  let m d := mkArr [1; 2; 3; 4; 5; 6]%Z 0 [d; 2] [3; 1]%Z in
  wf (m 2) /\ wf (m 1) /\ is_standard_layout (m 2) = false /\ is_standard_layout (m 1) = true.
Proof. cbv zeta. split; [apply wf_b_ok; reflexivity|]. split; [apply wf_b_ok; reflexivity|]. split; reflexivity. Qed.

Lemma column_major_standard {A} (a : arr A) : wf a -> is_empty_shape (a_shape a) = false ->
  (is_standard_layout (mkArr (a_data a) (a_off a) (rev (a_shape a)) (rev (a_strides a))) = true <-> column_major a).
Proof.
  intros Wa He. apply wf_readable in Wa as [Wl _]. pose proof (nonempty_axes _ He) as Hz.
  assert (Hz' : Forall (fun d => d <> 0) (rev (a_shape a))) by (apply Forall_rev; auto).
  unfold is_standard_layout, column_major. cbn [a_shape a_strides].
  assert (He' : is_empty_shape (rev (a_shape a)) = false).
  { destruct (is_empty_shape (rev (a_shape a))) eqn:E; auto. apply is_empty_prod in E. rewrite prod_rev in E. apply is_empty_prod in E. congruence. }
  rewrite He'. cbn [orb]. rewrite (layout_c_iff _ Hz') by (rewrite !rev_length; auto). split.
  - intros H idx Hi. rewrite <- H by (rewrite in_bounds_rev; auto). symmetry. apply dot_off_rev. apply in_bounds_length in Hi. congruence.
  - intros H idx Hi. rewrite <- (rev_involutive idx) in Hi |- *. rewrite in_bounds_rev in Hi. rewrite dot_off_rev.
    + apply H. auto.
    + apply in_bounds_length in Hi. congruence.
Qed.

Lemma dot_off_f sh : forall acc idx, length idx = length sh ->
  dot_off idx (f_strides acc sh) = (Z.of_nat acc * Z.of_nat (flat (rev sh) (rev idx)))%Z.
Proof.
  induction sh as [|d sh IH]; intros acc [|i idx] H; try discriminate; cbn [f_strides dot_off rev]; [cbn; lia|]. cbn [length] in H.
  rewrite IH by lia. rewrite flat_app by (rewrite !rev_length; lia). rewrite prod_cons. cbn [flat]. change (prod []) with 1. lia.
Qed.

(** ** What [into_shape] reads *)

(** A row-major array is read in row-major order, a column-major one in column-major order; the call fails for any other,
    and if the numbers of elements differ. *)
Theorem reshaping_reads_memory_in_order :
  forall (A : Type) (Sc : Scalar A) (a : arr A) sh, wf a ->
    (prod sh <> prod (a_shape a) -> into_shape a sh = Panic)
    /\ (prod sh = prod (a_shape a) -> row_major a ->
        exists r, into_shape a sh = Ok r /\ row_major r
          /\ holds r sh (fun idx => elem a (unflat (a_shape a) (flat sh idx))))
    /\ (prod sh = prod (a_shape a) -> ~ row_major a -> column_major a ->
        exists r, into_shape a sh = Ok r /\ column_major r
          /\ holds r sh (fun idx => elem a (rev (unflat (rev (a_shape a)) (flat (rev sh) (rev idx))))))
    /\ (~ row_major a -> ~ column_major a -> into_shape a sh = Panic).
Proof.
  intros A Sc a sh Wa. pose proof (standard_layout_is_row_major A a Wa) as SR. pose proof Wa as W. apply wf_readable in W as [Wl Wg].
  assert (NE : ~ row_major a -> is_empty_shape (a_shape a) = false).
  { intros H. destruct (is_empty_shape (a_shape a)) eqn:E; auto. exfalso. apply H. intros idx Hi. rewrite empty_no_index in Hi by auto. discriminate. }
  split; [intros H; unfold into_shape; apply Nat.eqb_neq in H; rewrite H; auto|]. split; [|split].
  - intros Hp Hr. apply SR in Hr. destruct (into_shape_standard a (a_shape a) sh (elem a) (wf_holds a Wa) Hr Hp) as (r & E & Hh & Hs & _).
    exists r. split; auto. split; auto. intros idx Hi. destruct Hh as (-> & _) in Hi |- *. rewrite Hs. apply dot_off_default. auto.
  - intros Hp Hr Hc. specialize (NE Hr). pose proof (proj2 (column_major_standard a Wa NE) Hc) as Cs.
    assert (Sf : is_standard_layout a = false) by (destruct (is_standard_layout a); auto; exfalso; apply Hr, SR; auto).
    assert (Hrank : Nat.ltb 1 (length (a_shape a)) = true).
    { apply Nat.ltb_lt. destruct (a_shape a) as [|d [|d' s]] eqn:E; cbn; try lia; exfalso; apply Hr; intros idx Hi;
        specialize (Hc idx); rewrite E in *; specialize (Hc Hi); [destruct idx|destruct idx as [|i [|j idx]]]; cbn in *; auto;
        try discriminate; rewrite ?andb_false_r in Hi; discriminate. }
    assert (Hne : is_empty_shape sh = false).
    { destruct (is_empty_shape sh) eqn:E; auto. apply is_empty_prod in E. rewrite Hp in E. apply is_empty_prod in E. congruence. }
    unfold into_shape. rewrite Hp, Nat.eqb_refl, Sf, Hrank, Cs. cbn [andb]. eexists. split; [reflexivity|].
    assert (Hm : forall idx, in_bounds sh idx = true -> dot_off idx (fortran_strides sh) = Z.of_nat (flat (rev sh) (rev idx))).
    { intros idx Hi. unfold fortran_strides. rewrite Hne, dot_off_f by (apply in_bounds_length; auto). lia. }
    split; [exact Hm|]. split; [reflexivity|]. split.
    { cbn. unfold fortran_strides. rewrite Hne. clear. generalize 1. induction sh as [|d sh IH]; intros n; cbn; auto. }
    intros idx Hi. unfold a_get at 1. cbn [a_shape a_data a_off a_strides]. rewrite Hi, Hm by auto.
    set (p := flat (rev sh) (rev idx)).
    assert (Lp : p < prod (rev (a_shape a))).
    { rewrite prod_rev, <- Hp, <- prod_rev. apply flat_lt. rewrite in_bounds_rev. auto. }
    assert (Bj : in_bounds (a_shape a) (rev (unflat (rev (a_shape a)) p)) = true).
    { rewrite <- (rev_involutive (a_shape a)) at 1. rewrite in_bounds_rev. apply unflat_in_bounds. auto. }
    destruct (Wg _ Bj) as (x & Ex). unfold elem. rewrite Ex. rewrite <- Ex. unfold a_get. rewrite Bj, (Hc _ Bj), rev_involutive, flat_unflat by auto. reflexivity.
  - intros Hr Hc. specialize (NE Hr). unfold into_shape.
    assert (Sf : is_standard_layout a = false) by (destruct (is_standard_layout a); auto; exfalso; apply Hr, SR; auto).
    assert (Cf : is_standard_layout (mkArr (a_data a) (a_off a) (rev (a_shape a)) (rev (a_strides a))) = false).
    { destruct (is_standard_layout (mkArr _ _ (rev _) _)) eqn:E; auto. exfalso. apply Hc, column_major_standard; auto. }
    rewrite Sf, Cf, andb_false_r. destruct (Nat.eqb _ _); auto.
Qed.
Print Assumptions reshaping_reads_memory_in_order.

(** The rows 1 2 3 and 4 5 6, in row-major order, in column-major order, and with every second element skipped. *)
Example reshaping_case :
  let c := mkArr [1; 2; 3; 4; 5; 6]%Z 0 [2; 3] [3; 1]%Z in
  let f := mkArr [1; 4; 2; 5; 3; 6]%Z 0 [2; 3] [1; 2]%Z in
  let g := mkArr [1; 0; 2; 0; 3; 0; 4; 0; 5; 0; 6; 0]%Z 0 [2; 3] [6; 2]%Z in
  wf c /\ wf f /\ wf g /\ a_iter c = a_iter f /\ a_iter c = a_iter g
  /\ (do r <- into_shape c [3; 2]; a_iter r) = Ok [1; 2; 3; 4; 5; 6]%Z
  /\ (do r <- into_shape f [3; 2]; a_iter r) = Ok [1; 5; 4; 3; 2; 6]%Z
  /\ into_shape g [3; 2] = Panic /\ into_shape c [4] = Panic.
Proof.
  cbv zeta. do 3 (split; [apply wf_b_ok; reflexivity|]). repeat split; reflexivity.
Qed.

(** ** The crate's calls *)

Section Careful.
Context {A : Type} {Sc : Scalar A}.
Variable lay : backend A.

(** [into_shape(shape).unwrap()] for arrays in row-major order only: any other panics [pair_contractors.rs:197,211,224,998]. *)
Definition into_shape_careful (a : arr A) (sh : list nat) : res (arr A) :=
  if is_standard_layout a then into_shape a sh else Panic.

(** As [as_matrix], with [into_shape_careful] [pair_contractors.rs:195-206,209-220]. *)
Definition as_matrix_careful (rows cols : nat) (t : arr A) : res (arr A) :=
  if is_standard_layout t then into_shape_careful t [rows; cols]
  else do l <- a_iter t; from_shape_vec [rows; cols] l.

(** As [run_tfp], with [into_shape_careful] [pair_contractors.rs:184-226]. *)
Definition run_tfp_careful (t : tensordot_fixed) (lhs rhs : arr A) : res (arr A) :=
  do lv <- as_matrix_careful (len_uncontracted_lhs t) (len_contracted_axes t) lhs;
  do rv <- as_matrix_careful (len_contracted_axes t) (len_uncontracted_rhs t) rhs;
  do d <- dot lay lv rv;
  into_shape_careful d (tfp_output_shape t).

(** As [run_tg], with [into_shape_careful] [pair_contractors.rs:379-396]. *)
Definition run_tg_careful (t : tensordot_general) (lhs rhs : arr A) : res (arr A) :=
  do pl <- permutation_view (tg_lhs_permutation t) lhs;
  do pr <- permutation_view (tg_rhs_permutation t) rhs;
  do d <- run_tfp_careful (tg_fixed t) pl pr;
  permutation_contract lay (tg_output_permutation t) d.

(** As [stacked_iteration], with [into_shape_careful] [pair_contractors.rs:988-996]. *)
Definition stacked_iteration_careful (t : tensordot_fixed) (lsubs rsubs : list (arr A)) (buf : arr A) (i : nat) : res (arr A) :=
  do out <- index_axis buf 0 i;
  do l <- index lsubs i;
  do r <- index rsubs i;
  do out' <- contract_and_assign_pair (run_tfp_careful t) l r out;
  Ok (mkArr (a_data out') (a_off buf) (a_shape buf) (a_strides buf)).

(** As [run_stacked], with [into_shape_careful] [pair_contractors.rs:963-1002]. *)
Definition run_stacked_careful (s : stacked_tensordot) (lhs rhs : arr A) : res (arr A) :=
  do pl <- permutation_view (st_lhs_permutation s) lhs;
  do ll <- a_iter pl;
  do lr <- from_shape_vec (st_lhs_output_shape s) ll;
  do pr <- permutation_view (st_rhs_permutation s) rhs;
  do rl <- a_iter pr;
  do rr <- from_shape_vec (st_rhs_output_shape s) rl;
  let buf := zeros (st_intermediate_shape s) in
  do lsubs <- outer_iter lr;
  do rsubs <- outer_iter rr;
  do n <- index (a_shape buf) 0;
  do buf' <- foldM (stacked_iteration_careful (st_fixed s) lsubs rsubs) (seq 0 n) buf;
  do reshaped <- into_shape_careful buf' (st_output_shape s);
  permutation_contract lay (st_output_permutation s) reshaped.

(** As [run_pair], with [into_shape_careful] [pair_contractors.rs:183-227,339-352,957-1003]. *)
Definition run_pair_careful (op : pair_op) (lhs rhs : arr A) : res (arr A) :=
  match op with
  | OpTensordotFixedPosition t => run_tfp_careful t lhs rhs
  | OpTensordotGeneral t => run_tg_careful t lhs rhs
  | OpStackedTensordotGeneral s => run_stacked_careful s lhs rhs
  | _ => run_pair lay op lhs rhs
  end.

Lemma as_matrix_same rows cols t : as_matrix_careful rows cols t = as_matrix rows cols t.
Proof. unfold as_matrix_careful, as_matrix, into_shape_careful. destruct (is_standard_layout t); auto. Qed.

Lemma run_tfp_same t a b : wf a -> wf b -> run_tfp_careful t a b = run_tfp lay t a b.
Proof.
  intros Wa Wb. unfold run_tfp_careful, run_tfp. rewrite !as_matrix_same.
  set (m := len_uncontracted_lhs t). set (k := len_contracted_axes t). set (n := len_uncontracted_rhs t).
  destruct (as_matrix_any a m k Wa) as [A1 A2]. destruct (as_matrix_any b k n Wb) as [B1 B2].
  destruct (Nat.eq_dec (m * k) (prod (a_shape a))) as [Ea|Ea]; [|rewrite (A2 Ea); auto].
  destruct (A1 Ea) as (lv & -> & Hl & Sl). cbn [rbind].
  destruct (Nat.eq_dec (k * n) (prod (a_shape b))) as [Eb|Eb]; [|rewrite (B2 Eb); auto].
  destruct (B1 Eb) as (rv & -> & Hr & Sr). cbn [rbind].
  destruct (dot_raw lay lv rv _ _ _ _ _ Hl Sl Hr Sr) as (d & -> & Hd & Sd). cbn [rbind].
  unfold into_shape_careful. rewrite Sd. reflexivity.
Qed.

(** The views that the contractors pass on are well-formed. *)
Lemma permutation_view_wf p (a r : arr A) : wf a -> permutation_view p a = Ok r -> wf r.
Proof.
  intros Wa E. destruct (view_any p a Wa) as [H1 H2].
  destruct (permutation_or p (length (a_shape a))) as [Hp|Hp]; [|rewrite (H2 Hp) in E; discriminate].
  destruct (H1 Hp) as (v & Ev & Hv). assert (v = r) by congruence. subst v. eapply holds_wf; eauto.
Qed.

Lemma run_tg_same t a b : wf a -> wf b -> run_tg_careful t a b = run_tg lay t a b.
Proof.
  intros Wa Wb. unfold run_tg_careful, run_tg.
  destruct (permutation_view (tg_lhs_permutation t) a) as [pl| |] eqn:E1; cbn [rbind]; auto.
  destruct (permutation_view (tg_rhs_permutation t) b) as [pr| |] eqn:E2; cbn [rbind]; auto.
  rewrite run_tfp_same; eauto using permutation_view_wf.
Qed.

Lemma from_shape_vec_wf sh (l : list A) r : from_shape_vec sh l = Ok r -> wf r.
Proof.
  unfold from_shape_vec. destruct (Nat.eqb_spec (length l) (prod sh)) as [E|]; [|discriminate]. intros [= <-].
  unfold wf, mk_c. cbn [a_strides a_shape a_off a_data]. split; [apply default_strides_length|]. intros idx Hi.
  rewrite dot_off_default by auto. pose proof (flat_lt _ _ Hi). lia.
Qed.

Lemma outer_iter_wf (a : arr A) l : wf a -> outer_iter a = Ok l -> Forall wf l.
Proof.
  intros Wa E. destruct (a_shape a) as [|d sh] eqn:Es.
  { unfold outer_iter in E. rewrite Es in E. discriminate. }
  pose proof (wf_holds a Wa) as H. rewrite Es in H. destruct (outer_iter_holds a d sh _ H) as (l' & E' & Hl & Hn).
  assert (l' = l) by congruence. subst l'. apply Forall_forall. intros x Hx. apply In_nth_error in Hx as (i & Hi).
  assert (Hd : i < d) by (rewrite <- Hl; apply nth_error_Some; congruence).
  destruct (Hn i Hd) as (y & Ey & Hy). assert (x = y) by congruence. subst y. eapply holds_wf; eauto.
Qed.

Lemma iteration_same t lsubs rsubs buf i : Forall wf lsubs -> Forall wf rsubs ->
  stacked_iteration_careful t lsubs rsubs buf i = stacked_iteration lay t lsubs rsubs buf i.
Proof.
  intros Wl Wr. unfold stacked_iteration_careful, stacked_iteration.
  destruct (index_axis buf 0 i) as [out| |]; cbn [rbind]; auto.
  destruct (index lsubs i) as [l| |] eqn:El; cbn [rbind]; auto. destruct (index rsubs i) as [r| |] eqn:Er; cbn [rbind]; auto.
  assert (H : forall (s : list (arr A)) x, Forall wf s -> index s i = Ok x -> wf x).
  { intros s x Hs Hx. unfold index in Hx. destruct (nth_error s i) eqn:E; [|discriminate]. injection Hx as <-.
    rewrite Forall_forall in Hs. apply Hs. eapply nth_error_In; eauto. }
  unfold contract_and_assign_pair. rewrite run_tfp_same; eauto.
Qed.

Lemma iterations_strides t lsubs rsubs l : forall buf r, foldM (stacked_iteration lay t lsubs rsubs) l buf = Ok r ->
  a_shape r = a_shape buf /\ a_strides r = a_strides buf.
Proof.
  induction l as [|i l IH]; intros buf r H; cbn [foldM] in H; [injection H as <-; auto|].
  destruct (stacked_iteration lay t lsubs rsubs buf i) as [b| |] eqn:E; cbn [rbind] in H; try discriminate.
  destruct (IH b r H) as [-> ->]. unfold stacked_iteration in E.
  repeat (apply bind_Ok in E as (? & _ & E)). injection E as <-. auto.
Qed.

Lemma run_stacked_same s a b : run_stacked_careful s a b = run_stacked lay s a b.
Proof.
  unfold run_stacked_careful, run_stacked.
  destruct (permutation_view (st_lhs_permutation s) a) as [pl| |]; cbn [rbind]; auto.
  destruct (a_iter pl) as [ll| |]; cbn [rbind]; auto.
  destruct (from_shape_vec (st_lhs_output_shape s) ll) as [lr| |] eqn:E1; cbn [rbind]; auto. apply from_shape_vec_wf in E1.
  destruct (permutation_view (st_rhs_permutation s) b) as [pr| |]; cbn [rbind]; auto.
  destruct (a_iter pr) as [rl| |]; cbn [rbind]; auto.
  destruct (from_shape_vec (st_rhs_output_shape s) rl) as [rr| |] eqn:E2; cbn [rbind]; auto. apply from_shape_vec_wf in E2.
  destruct (outer_iter lr) as [ls| |] eqn:E3; cbn [rbind]; auto. apply outer_iter_wf in E3; auto.
  destruct (outer_iter rr) as [rs| |] eqn:E4; cbn [rbind]; auto. apply outer_iter_wf in E4; auto.
  set (buf := zeros (st_intermediate_shape s)).
  destruct (index (a_shape buf) 0) as [n| |]; cbn [rbind]; auto.
  assert (Ef : forall l x, foldM (stacked_iteration_careful (st_fixed s) ls rs) l x = foldM (stacked_iteration lay (st_fixed s) ls rs) l x).
  { induction l as [|i l IH]; intros x; cbn [foldM]; auto. rewrite iteration_same by auto.
    destruct (stacked_iteration lay (st_fixed s) ls rs x i); cbn [rbind]; auto. }
  rewrite Ef. destruct (foldM _ _ buf) as [buf'| |] eqn:E5; cbn [rbind]; auto.
  apply iterations_strides in E5 as [E6 E7]. unfold into_shape_careful.
  assert (St : is_standard_layout buf' = true); [|rewrite St; auto].
  unfold is_standard_layout. rewrite E6, E7. apply (default_standard (a_data buf) 0 (st_intermediate_shape s)).
Qed.

End Careful.

(** Whichever contractor, whatever it was built from: an array that is not in row-major order is never reshaped. So no
    result depends on how [into_shape] reads such arrays, and no call fails because it does not. *)
Theorem only_row_major_arrays_are_reshaped :
  forall (A : Type) (Sc : Scalar A) (lay : backend A) op (a b : arr A), wf a -> wf b ->
    run_pair_careful lay op a b = run_pair lay op a b.
Proof.
  intros A Sc lay op a b Wa Wb. destruct op; cbn [run_pair_careful run_pair]; auto using run_tfp_same, run_tg_same, run_stacked_same.
Qed.
Print Assumptions only_row_major_arrays_are_reshaped.

(** A product of which the left operand is passed in column-major order and the right one with gaps. *)
Example reshaped_case :
  let f := mkArr [1; 4; 2; 5; 3; 6]%Z 0 [2; 3] [1; 2]%Z in
  let g := mkArr [1; 0; 2; 0; 3; 0; 4; 0; 5; 0; 6; 0]%Z 0 [3; 2] [4; 2]%Z in
  let op := OpTensordotFixedPosition (mkTFP 2 2 3 [2; 2]) in
  wf f /\ wf g /\ is_standard_layout f = false /\ is_standard_layout g = false
  /\ (do r <- run_pair c_backend op f g; a_iter r) = Ok [22; 28; 49; 64]%Z
  /\ (do r <- run_pair_careful c_backend op f g; a_iter r) = Ok [22; 28; 49; 64]%Z.
Proof.
  cbv zeta. do 2 (split; [apply wf_b_ok; reflexivity|]). repeat split; vm_compute; reflexivity.
Qed.
