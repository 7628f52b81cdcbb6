(** Staged evaluation in rounding arithmetic (C87): calls on some of the operands first, then on the result and the others. *)
From Verif Require Import Base BaseFacts NDArray Validation Optimizers Path Api Spec ParserFacts ValidationFacts ValidationMain SumFacts
  ArrayFacts SingletonFacts PairFacts PairMain PathFacts EinsumMain EinsumProps RelationFacts AlgebraFacts StagedFacts TensordotMain
  RoundFacts RangeFacts FloatFacts FloatMain WorkFacts BackwardFacts AdjointFacts UniqueFacts DotAlgebra Examples PropsTensordot PropsRounding
  PropsFloat PropsBackward PropsBackwardDot PropsSpread PropsDotAlgebra PropsDotNest PropsChain.
From Coq Require Import Lia QArith Qcanon Qcabs.
From Coq Require String.
Import String.StringSyntax.
Local Open Scope string_scope.
Local Open Scope list_scope.
Local Open Scope nat_scope.

(** The roundings of both stages [lib.rs:221-227]: with [mid] the labels of the first result. *)
Definition staged_roundings (size : char -> nat) (ops1 ops2 : list (list char)) (out mid : list char) : nat :=
  (length ops1 + prod (map size (summed_labels ops1 mid)) - 2)
  + S (length ops2) + prod (map size (summed_labels (mid :: ops2) out)) - 2.

(** What staged evaluation approximates: the Einstein sum of all operands. *)
Definition staged_estimate {F} (v : F -> option Qc) (size : char -> nat) (a1 a2 : list (arr F)) ops1 ops2 (out mid : list char) : estimate :=
  let sums g := array_of (map size out) (einsum_value size (map (amap g) (a1 ++ a2)) (ops1 ++ ops2) out) in
  mkEstimate (staged_roundings size ops1 ops2 out mid) (sums (value_of v)) (sums (magnitude_of v)) (sums (padded_of v)).

Lemma approximates_ext {F} {Sf : Scalar F} (v : F -> option Qc) eps eta a t u :
  es_roundings t = es_roundings u -> same_array (es_value t) (es_value u) -> same_array (es_size t) (es_size u) ->
  same_array (es_padded t) (es_padded u) -> approximates v eps eta a t -> approximates v eps eta a u.
Proof.
  intros E0 E1 E2 E3 (S1 & S2 & S3 & H). unfold approximates. rewrite <- E0, <- (proj1 E1), <- (proj1 E2), <- (proj1 E3).
  do 3 (split; [assumption|]). intros i Hi. specialize (H i Hi). unfold elem in *. rewrite (same_get _ _ i E1), (same_get _ _ i E2), (same_get _ _ i E3) in H.
  exact H.
Qed.

Lemma list_sum_given {F} (v : F -> option Qc) l : list_sum (map es_roundings (map (as_given v) l)) = 0.
Proof. induction l; cbn; auto. Qed.

(** Both stages return unless the single call would panic; the elements are then within the roundings of both stages of
    the Einstein sum of all operands. *)
Theorem staged_rounding_error :
  forall (F : Type) (Sf : Scalar F) (v : F -> option Qc) (eps eta : Qc), rounding v eps eta ->
  forall h1 h2 lay1 lay2 s s1 s2 (a1 a2 : list (arr F)) ops1 ops2 out mid size,
    hash_ok h1 -> hash_ok h2 -> backend_runs lay1 -> backend_runs lay2 -> fused_rounds v eps eta lay1 -> fused_rounds v eps eta lay2 ->
    Forall wf a1 -> Forall wf a2 -> length a1 = length ops1 ->
    NoDup mid /\ (forall c, In c mid <-> In c (concat ops1) /\ (In c (concat ops2) \/ In c out)) ->
    grammar s (ops1 ++ ops2) (Some out) -> grammar s1 ops1 (Some mid) -> grammar s2 (mid :: ops2) (Some out) ->
    call_ok s (map (@a_shape F) (a1 ++ a2)) (ops1 ++ ops2) out size ->
    let x := do t <- einsum h1 lay1 s1 a1; einsum h2 lay2 s2 (t :: a2) in
    (x = Panic /\ blocked_in size (combine (a1 ++ a2) (ops1 ++ ops2)) out)
    \/ (~ blocked_in size (combine (a1 ++ a2) (ops1 ++ ops2)) out
        /\ exists r, x = Ok r /\ wf r /\ approximates v eps eta r (staged_estimate v size a1 a2 ops1 ops2 out mid)).
Proof.
  intros F Sf v eps eta HF h1 h2 lay1 lay2 s s1 s2 a1 a2 ops1 ops2 out mid size H1 H2 L1 L2 Fu1 Fu2 W1 W2 Hl Hk G G1 G2 Hc x.
  pose proof Hc as (_ & [No Io] & Hs). rewrite map_app in Hs. apply shapes_ok_app in Hs as [Hs1 Hs2]; [|rewrite map_length; auto].
  assert (Hl2 : length a2 = length ops2) by (apply shapes_ok_len in Hs2; rewrite map_length in Hs2; auto).
  assert (Hc1 : call_ok s1 (map (@a_shape F) a1) ops1 mid size) by (apply explicit_call_ok; auto; eapply kept_output; exact Hk).
  assert (Hb : blocked_in size (combine (a1 ++ a2) (ops1 ++ ops2)) out
               <-> blocked_in size (combine a1 ops1) mid \/ blocked_in size (combine a2 ops2) (mid ++ out)).
  { rewrite combine_app, blocked_in_app, !snd_combine by auto. destruct Hk as [Nm Im].
    assert (E1 : blocked_in size (combine a1 ops1) (concat ops2 ++ out) <-> blocked_in size (combine a1 ops1) mid).
    { split; apply blocked_in_ext; intros c Hc'; rewrite snd_combine in Hc' by auto; rewrite in_app_iff, Im; tauto. }
    assert (E2 : blocked_in size (combine a2 ops2) (concat ops1 ++ out) <-> blocked_in size (combine a2 ops2) (mid ++ out)).
    { split; apply blocked_in_ext; intros c Hc'; rewrite snd_combine in Hc' by auto; rewrite !in_app_iff, Im; tauto. }
    rewrite E1, E2. tauto. }
  assert (Ag : forall l, Forall wf l -> Forall2 (approximates v eps eta) l (map (as_given v) l)).
  { clear. intros l W. induction W; cbn [map]; constructor; auto. apply arrays_approximate_themselves. auto. }
  destruct (proj1 (einsum_of_approximations F Sf v eps eta HF h1 lay1 s1 a1 (map (as_given v) a1) ops1 mid size H1 L1 Fu1 Hc1 W1 (Ag a1 W1)))
    as [[E1 B1]|[B1 (t & E1 & Wt & At)]].
  { left. unfold x. rewrite E1. split; auto. apply Hb. auto. }
  set (T := estimated_sum size (map (as_given v) a1) ops1 mid) in *.
  assert (St : a_shape t = map size mid) by (destruct At as (At & _); rewrite <- At; apply array_of_shape).
  assert (Hc2 : call_ok s2 (map (@a_shape F) (t :: a2)) (mid :: ops2) out size).
  { apply explicit_call_ok; auto.
    - split; auto. intros c Hc'. specialize (Io c Hc'). rewrite concat_app, in_app_iff in Io.
      simpl. rewrite in_app_iff. destruct Hk as [_ Im]. rewrite Im. tauto.
    - constructor; auto. }
  destruct (proj1 (einsum_of_approximations F Sf v eps eta HF h2 lay2 s2 (t :: a2) (T :: map (as_given v) a2) (mid :: ops2) out size H2 L2 Fu2 Hc2
    (Forall_cons _ Wt W2) (Forall2_cons _ _ At (Ag a2 W2)))) as [[E2 B2]|[B2 (r & E2 & Wr & Ar)]].
  all: cbn [combine] in B2; rewrite blocked_in_cons in B2.
  all: assert (Nb : ~ blocked size t mid (concat (map snd (combine a2 ops2)) ++ out)) by (intros (Hn & _); apply Hn, Hk).
  - left. unfold x. rewrite E1. cbn [rbind]. split; auto. apply Hb. tauto.
  - right. split; [rewrite Hb; tauto|]. exists r. unfold x. rewrite E1. cbn [rbind]. split; auto. split; auto.
    revert Ar. apply approximates_ext.
    { unfold estimated_sum, staged_estimate, staged_roundings, T. cbn [es_roundings map length].
      unfold estimated_sum. cbn [list_sum fold_right es_roundings].
      change (fold_right Nat.add 0) with list_sum. rewrite !list_sum_given. lia. }
    all: unfold estimated_sum, staged_estimate; cbn [es_value es_size es_padded map].
    all: apply same_array_holds with (1 := holds_mk_c (map size out) _).
    all: eapply holds_ext_in; [|apply (holds_mk_c (map size out))].
    all: intros o Ho; symmetry; rewrite map_app.
    all: rewrite <- (staged_value Qc_semiring size _ _ _ ops1 ops2 out mid o Hk No) by (rewrite ?map_length; eauto using holds_mk_c).
    all: unfold T, estimated_sum; cbn [es_value es_size es_padded]; rewrite !map_map; reflexivity.
Qed.
Print Assumptions staged_rounding_error.

(** With three significant bits, the operands of [einsum_chain_case]: in two calls the result is 12, and the two calls
    round four times, where one call for all three operands rounds five times. *)
Example staged_rounding_case :
  let a := farr tiny [2] [3; 1]%Z in
  let b := farr tiny [2; 2] [3; 1; 1; 2]%Z in
  let c := farr tiny [2] [1; 1]%Z in
  let size := size_fn (combine (chars "ij") [2; 2]) in
  (NoDup (chars "j") /\ forall x, In x (chars "j") <-> In x (concat [chars "i"; chars "ij"]) /\ (In x (concat [chars "j"]) \/ In x []))
  /\ grammar (chars "i,ij,j->") ([chars "i"; chars "ij"] ++ [chars "j"]) (Some [])
  /\ grammar (chars "i,ij->j") [chars "i"; chars "ij"] (Some (chars "j"))
  /\ grammar (chars "j,j->") (chars "j" :: [chars "j"]) (Some [])
  /\ call_ok (chars "i,ij,j->") (map (@a_shape (float tiny)) ([a; b] ++ [c])) ([chars "i"; chars "ij"] ++ [chars "j"]) [] size
  /\ Forall wf [a; b; c]
  /\ staged_roundings size [chars "i"; chars "ij"] [chars "j"] [] (chars "j") = 4
  /\ roundings size ([chars "i"; chars "ij"] ++ [chars "j"]) [] = 5
  /\ (do t <- einsum id_hash (plain_backend (A := float tiny)) (chars "i,ij->j") [a; b];
      do r <- einsum id_hash (plain_backend (A := float tiny)) (chars "j,j->") [t; c];
      do l <- a_iter r; Ok (map (@proj1_sig _ _) l)) = Ok [proj1_sig (f_of tiny 12 0)].
Proof.
  cbv zeta. split; [split; [apply nodup_b_ok; reflexivity|]|].
  { intros x. simpl. intuition; subst; try discriminate; auto. }
  do 3 (split; [apply parse_iff; reflexivity|]). split; [apply check_call_ok; check_call_tac|].
  split; [repeat (constructor; [apply wf_b_ok; reflexivity|]); constructor|].
  do 2 (split; [reflexivity|]). vm_compute. reflexivity.
Qed.

(** ** Compared with one call *)

(** Staging sums fewer terms: unless a summed label has length zero, both stages together round no more often than the
    single call. *)
Theorem staging_rounds_no_more :
  forall size ops1 ops2 out mid, ops1 <> [] ->
    NoDup mid /\ (forall c, In c mid <-> In c (concat ops1) /\ (In c (concat ops2) \/ In c out)) ->
    (forall c, In c (summed_labels (ops1 ++ ops2) out) -> size c <> 0) ->
    staged_roundings size ops1 ops2 out mid <= roundings size (ops1 ++ ops2) out.
Proof.
  intros size ops1 ops2 out mid Hne [Nm Im] Hz.
  assert (P : Permutation (summed_labels (mid :: ops2) out ++ summed_labels ops1 mid) (summed_labels (ops1 ++ ops2) out)).
  { apply summed_labels_perm.
    - apply NoDup_app_intro; [apply summed_labels_NoDup|apply summed_labels_NoDup|].
      intros c H1 H2. rewrite summed_labels_In in H1, H2. simpl in H1. rewrite in_app_iff in H1. rewrite Im in *. tauto.
    - intros c. rewrite in_app_iff, !summed_labels_In, concat_app. simpl.
      rewrite !in_app_iff, Im. destruct (in_dec N.eq_dec c (concat ops2)), (in_dec N.eq_dec c out); tauto. }
  pose proof (prod_perm _ _ (Permutation_map size P)) as E. rewrite map_app, prod_app in E.
  assert (Hp : prod (map size (summed_labels (ops1 ++ ops2) out)) <> 0).
  { clear - Hz. induction (summed_labels (ops1 ++ ops2) out) as [|c l IH]; cbn [map]; [cbn; lia|]. rewrite prod_cons.
    assert (size c <> 0) by (apply Hz; left; auto). assert (prod (map size l) <> 0) by (apply IH; intros; apply Hz; right; auto). nia. }
  unfold staged_roundings, roundings. rewrite app_length, <- E in *. destruct ops1 as [|x ops1]; [congruence|]. cbn [length].
  set (p := prod (map size (summed_labels (mid :: ops2) out))) in *. set (q := prod (map size (summed_labels (x :: ops1) mid))) in *.
  clearbody p q. assert (p <> 0 /\ q <> 0) by nia. assert (p + q <= p * q + 1) by nia. lia.
Qed.
Print Assumptions staging_rounds_no_more.

Example staging_rounds_case :
  let size := size_fn (combine (chars "ij") [2; 2]) in
  [chars "i"; chars "ij"] <> [] /\ forall c, In c (summed_labels ([chars "i"; chars "ij"] ++ [chars "j"]) []) -> size c <> 0.
Proof. split; [discriminate|]. intros c Hc. vm_compute in Hc. destruct Hc as [<-|[<-|[]]]; vm_compute; lia. Qed.

Lemma moved_by_mono eps eta n n' m b : (0 <= eps)%Qc -> (0 <= eta)%Qc -> n <= n' -> (0 <= m)%Qc -> (0 <= b)%Qc ->
  (moved_by eps eta n m b <= moved_by eps eta n' m b)%Qc.
Proof.
  intros He Ht Hn Hm Hb. unfold moved_by.
  assert (M : forall e, (0 <= e)%Qc -> (grow e n - 1 <= grow e n' - 1)%Qc).
  { intros e H. unfold Qcminus. apply Qcplus_le_compat; [apply grow_mono; auto|apply Qcle_refl]. }
  apply Qcplus_le_compat; [apply Qcmult_le_compat_r; auto|].
  apply Qcle_mult; auto using grow_minus.
  - apply Qcle_0_mult; auto. apply grow_nonneg; auto.
  - apply Qcmult_le_compat_r; auto. apply grow_mono; auto.
Qed.

(** The results of both stages and of the single call are no further apart than their bounds together; and than twice the
    bound of the single call unless a summed label has length zero. *)
Theorem staged_and_single_differ_by_at_most :
  forall (F : Type) (Sf : Scalar F) (v : F -> option Qc) (eps eta : Qc), rounding v eps eta ->
  forall h1 h2 h3 lay1 lay2 lay3 s s1 s2 (a1 a2 : list (arr F)) ops1 ops2 out mid size r r',
    hash_ok h1 -> hash_ok h2 -> hash_ok h3 -> backend_runs lay1 -> backend_runs lay2 -> backend_runs lay3 ->
    fused_rounds v eps eta lay1 -> fused_rounds v eps eta lay2 -> fused_rounds v eps eta lay3 ->
    Forall wf a1 -> Forall wf a2 -> length a1 = length ops1 ->
    NoDup mid /\ (forall c, In c mid <-> In c (concat ops1) /\ (In c (concat ops2) \/ In c out)) ->
    grammar s (ops1 ++ ops2) (Some out) -> grammar s1 ops1 (Some mid) -> grammar s2 (mid :: ops2) (Some out) ->
    call_ok s (map (@a_shape F) (a1 ++ a2)) (ops1 ++ ops2) out size ->
    (do t <- einsum h1 lay1 s1 a1; einsum h2 lay2 s2 (t :: a2)) = Ok r -> returned_by h3 lay3 s (a1 ++ a2) r' ->
    forall o q q', in_bounds (map size out) o = true -> v (elem r o) = Some q -> v (elem r' o) = Some q' ->
    let sums g := einsum_value size (map (amap g) (a1 ++ a2)) (ops1 ++ ops2) out o in
    (Qcabs (q - q') <= moved_by eps eta (staged_roundings size ops1 ops2 out mid) (sums (magnitude_of v)) (sums (padded_of v))
                       + error_bound v eps eta size (a1 ++ a2) (ops1 ++ ops2) out o)%Qc
    /\ ((forall c, In c (summed_labels (ops1 ++ ops2) out) -> size c <> 0) ->
        (Qcabs (q - q') <= (1 + 1) * error_bound v eps eta size (a1 ++ a2) (ops1 ++ ops2) out o)%Qc).
Proof.
  intros F Sf v eps eta HF h1 h2 h3 lay1 lay2 lay3 s s1 s2 a1 a2 ops1 ops2 out mid size r r' H1 H2 H3 L1 L2 L3 Fu1 Fu2 Fu3 W1 W2 Hl Hk
    G G1 G2 Hc E Hr o q q' Ho Hq Hq' sums.
  pose proof (returned_within v eps eta h3 lay3 s (a1 ++ a2) _ out size r' o q' HF H3 L3 Fu3 Hc (proj2 (Forall_app _ _ _) (conj W1 W2)) Hr Ho Hq') as B2.
  destruct (staged_rounding_error F Sf v eps eta HF h1 h2 lay1 lay2 s s1 s2 a1 a2 ops1 ops2 out mid size H1 H2 L1 L2 Fu1 Fu2 W1 W2 Hl Hk G G1 G2 Hc)
    as [[Ep _]|[_ (x & Ex & _ & Sx & _ & _ & Hx)]]; [rewrite E in Ep; discriminate|].
  rewrite E in Ex. injection Ex as <-. unfold staged_estimate in Sx, Hx. cbn [es_value es_size es_padded es_roundings] in Sx, Hx.
  rewrite array_of_shape in Sx. rewrite <- Sx in Hx. specialize (Hx o Ho). cbv zeta in Hx. rewrite !array_of_elem in Hx by auto.
  destruct Hx as [(O1 & O2 & _) [Hn|(p & Ep & Hp)]]; [congruence|]. assert (p = q) by congruence. subst p.
  change (einsum_value size (map (amap (value_of v)) (a1 ++ a2)) (ops1 ++ ops2) out o) with (sums (value_of v)) in *.
  unfold values in B2. change (einsum_value size (map (amap (value_of v)) (a1 ++ a2)) (ops1 ++ ops2) out o) with (sums (value_of v)) in B2.
  change (einsum_value size (map (amap (magnitude_of v)) (a1 ++ a2)) (ops1 ++ ops2) out o) with (sums (magnitude_of v)) in *.
  change (einsum_value size (map (amap (padded_of v)) (a1 ++ a2)) (ops1 ++ ops2) out o) with (sums (padded_of v)) in *.
  assert (D : (Qcabs (q - q') <= moved_by eps eta (staged_roundings size ops1 ops2 out mid) (sums (magnitude_of v)) (sums (padded_of v))
                       + error_bound v eps eta size (a1 ++ a2) (ops1 ++ ops2) out o)%Qc).
  { replace (q - q')%Qc with ((q - sums (value_of v)) + - (q' - sums (value_of v)))%Qc by ring.
    eapply Qcle_trans; [apply Qcabs_triangle|]. rewrite Qcabs_opp. apply Qcplus_le_compat; auto. }
  split; [exact D|]. intros Hz. eapply Qcle_trans; [exact D|].
  replace ((1 + 1) * error_bound v eps eta size (a1 ++ a2) (ops1 ++ ops2) out o)%Qc
    with (error_bound v eps eta size (a1 ++ a2) (ops1 ++ ops2) out o + error_bound v eps eta size (a1 ++ a2) (ops1 ++ ops2) out o)%Qc by ring.
  apply Qcplus_le_compat; [|apply Qcle_refl].
  assert (Pm : (0 <= sums (magnitude_of v))%Qc) by (eapply Qcle_trans; [apply Qcabs_nonneg|exact O1]).
  change (error_bound v eps eta size (a1 ++ a2) (ops1 ++ ops2) out o)
    with (moved_by eps eta (roundings size (ops1 ++ ops2) out) (sums (magnitude_of v)) (sums (padded_of v))).
  apply moved_by_mono; auto; [apply (rnd_eps _ _ _ HF)|apply (rnd_eta _ _ _ HF)| |eapply Qcle_trans; eauto].
  apply staging_rounds_no_more; auto. inversion G1; auto.
Qed.
Print Assumptions staged_and_single_differ_by_at_most.

(** With the other strategy the one call for the operands of [staged_rounding_case] returns 16. *)
Example staged_and_single_case :
  let a := farr tiny [2] [3; 1]%Z in
  let b := farr tiny [2; 2] [3; 1; 1; 2]%Z in
  let c := farr tiny [2] [1; 1]%Z in
  (do p <- einsum_path_fn id_hash (chars "i,ij,j->") [a; b; c] Reverse;
   do r <- contract_operands (plain_backend (A := float tiny)) p [a; b; c];
   do l <- a_iter r; Ok (map (@proj1_sig _ _) l)) = Ok [proj1_sig (f_of tiny 16 0)].
Proof. vm_compute. reflexivity. Qed.

(** ** Floating-point numbers *)

Theorem float_staged_rounding_error :
  forall f h1 h2 (lay1 lay2 : backend (float f)) s s1 s2 (a1 a2 : list (arr (float f))) ops1 ops2 out mid size,
    hash_ok h1 -> hash_ok h2 -> float_backend lay1 -> float_backend lay2 ->
    Forall wf a1 -> Forall wf a2 -> length a1 = length ops1 ->
    NoDup mid /\ (forall c, In c mid <-> In c (concat ops1) /\ (In c (concat ops2) \/ In c out)) ->
    grammar s (ops1 ++ ops2) (Some out) -> grammar s1 ops1 (Some mid) -> grammar s2 (mid :: ops2) (Some out) ->
    call_ok s (map (@a_shape (float f)) (a1 ++ a2)) (ops1 ++ ops2) out size ->
    let x := do t <- einsum h1 lay1 s1 a1; einsum h2 lay2 s2 (t :: a2) in
    (x = Panic /\ blocked_in size (combine (a1 ++ a2) (ops1 ++ ops2)) out)
    \/ (~ blocked_in size (combine (a1 ++ a2) (ops1 ++ ops2)) out
        /\ exists r, x = Ok r /\ wf r
             /\ approximates f_value (f_eps f) (f_eta f) r (staged_estimate f_value size a1 a2 ops1 ops2 out mid)).
Proof.
  intros f h1 h2 lay1 lay2 s s1 s2 a1 a2 ops1 ops2 out mid size H1 H2 L1 L2. intros.
  apply (staged_rounding_error (float f) (float_scalar f) f_value (f_eps f) (f_eta f) (float_rounding f)
    h1 h2 lay1 lay2 s s1 s2 a1 a2 ops1 ops2 out mid size); auto; try apply float_fused_rounds; auto; try apply L1; apply L2.
Qed.
Print Assumptions float_staged_rounding_error.

Theorem float_staged_and_single_differ_by_at_most :
  forall f h1 h2 h3 (lay1 lay2 lay3 : backend (float f)) s s1 s2 (a1 a2 : list (arr (float f))) ops1 ops2 out mid size r r',
    hash_ok h1 -> hash_ok h2 -> hash_ok h3 -> float_backend lay1 -> float_backend lay2 -> float_backend lay3 ->
    Forall wf a1 -> Forall wf a2 -> length a1 = length ops1 ->
    NoDup mid /\ (forall c, In c mid <-> In c (concat ops1) /\ (In c (concat ops2) \/ In c out)) ->
    grammar s (ops1 ++ ops2) (Some out) -> grammar s1 ops1 (Some mid) -> grammar s2 (mid :: ops2) (Some out) ->
    call_ok s (map (@a_shape (float f)) (a1 ++ a2)) (ops1 ++ ops2) out size ->
    (do t <- einsum h1 lay1 s1 a1; einsum h2 lay2 s2 (t :: a2)) = Ok r -> returned_by h3 lay3 s (a1 ++ a2) r' ->
    (forall c, In c (summed_labels (ops1 ++ ops2) out) -> size c <> 0) ->
    forall o q q', in_bounds (map size out) o = true -> f_value (elem r o) = Some q -> f_value (elem r' o) = Some q' ->
    (Qcabs (q - q') <= (1 + 1) * error_bound f_value (f_eps f) (f_eta f) size (a1 ++ a2) (ops1 ++ ops2) out o)%Qc.
Proof.
  intros f h1 h2 h3 lay1 lay2 lay3 s s1 s2 a1 a2 ops1 ops2 out mid size r r' H1 H2 H3 L1 L2 L3 W1 W2 Hl Hk G G1 G2 Hc E Hr Hz o q q' Ho Hq Hq'.
  apply (staged_and_single_differ_by_at_most (float f) (float_scalar f) f_value (f_eps f) (f_eta f) (float_rounding f)
    h1 h2 h3 lay1 lay2 lay3 s s1 s2 a1 a2 ops1 ops2 out mid size r r'); auto; try apply float_fused_rounds; auto; try apply L1; try apply L2; apply L3.
Qed.
Print Assumptions float_staged_and_single_differ_by_at_most.
