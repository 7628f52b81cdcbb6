(** Following storage changes no result; the most that each contractor holds. *)
From Verif Require Import Base BaseFacts NDArray Validation Optimizers Strategies Singleton Pair Path Api Spec
  ValidationFacts SumFacts ArrayFacts TensordotFacts DiagFacts SingletonFacts PairFacts StackedFacts
  PairMain PathFacts PathShape TensordotMain OverflowFacts LimitsFacts GeneralFacts Storage.
From Coq Require Import Lia.

(** The run [xs] that follows its storage ends like [x], and if it ends with a value then [P] holds of
    the value and of the storage. *)
Definition uses {T} (xs : stored T) (x : res T) (P : T -> storage -> Prop) : Prop :=
  match x with
  | Ok t => exists m, xs = Ok (t, m) /\ P t m
  | Err e => xs = Err e
  | Panic => xs = Panic
  end.

Lemma uses_mono {T} (xs : stored T) x (P Q : T -> storage -> Prop) :
  uses xs x P -> (forall t m, x = Ok t -> P t m -> Q t m) -> uses xs x Q.
Proof.
  unfold uses. destruct x as [t|e|]; auto. intros (m & E & H) HQ. exists m. auto.
Qed.

Lemma uses_viewed {T} (x : res T) (P : T -> storage -> Prop) : (forall t, x = Ok t -> P t no_storage) -> uses (viewed x) x P.
Proof. unfold uses, viewed. destruct x as [t|e|]; cbn [rbind]; auto. intros H. eauto. Qed.

Lemma uses_bind {T U} (xs : stored T) x (fs : T -> stored U) f P (Q : U -> storage -> Prop) :
  uses xs x P -> (forall t m, x = Ok t -> P t m -> uses (fs t) (f t) (fun u m' => Q u (beside m m'))) ->
  uses (sbind xs fs) (rbind x f) Q.
Proof.
  unfold uses at 1. destruct x as [t|e|]; cbn [rbind]; unfold sbind.
  - intros (m & -> & H) Hf. specialize (Hf t m eq_refl H). cbn [rbind]. unfold uses in *.
    destruct (f t) as [u|e|]; [|rewrite Hf; reflexivity|rewrite Hf; reflexivity].
    destruct Hf as (m' & -> & Hq). cbn [rbind]. eauto.
  - intros -> _. reflexivity.
  - intros -> _. reflexivity.
Qed.

Lemma beside_none m : beside no_storage m = m.
Proof. destruct m as [a b]. unfold beside. cbn [held peak no_storage]. reflexivity. Qed.

Lemma beside_after m : beside m no_storage = mkStorage (held m) (Nat.max (peak m) (held m)).
Proof. unfold beside. cbn [held peak no_storage]. rewrite !Nat.add_0_r. reflexivity. Qed.

Lemma uses_after {T U} (x : res T) (fs : T -> stored U) f (Q : U -> storage -> Prop) :
  (forall t, x = Ok t -> uses (fs t) (f t) Q) -> uses (sbind (viewed x) fs) (rbind x f) Q.
Proof.
  intros H. apply (uses_bind _ _ _ _ (fun _ m => m = no_storage)).
  - apply uses_viewed. auto.
  - intros t m E ->. eapply uses_mono; [apply H; auto|]. intros u m' _ Hq. rewrite beside_none. auto.
Qed.

Section Run.
Context {A : Type} {Sc : Scalar A}.
Variable lay : backend A.
Hypothesis Hlay : backend_runs lay.

Lemma uses_made (x : res (arr A)) : uses (made x) x (fun r m => m = mkStorage (elements r) (elements r)).
Proof. unfold uses, made. destruct x; cbn [rbind]; eauto. Qed.

Lemma uses_returned (xs : stored (arr A)) x P (Q : arr A -> storage -> Prop) : uses xs x P ->
  (forall r m, x = Ok r -> P r m -> Q r (mkStorage (elements r) (peak m))) -> uses (returned xs) x Q.
Proof.
  unfold uses, returned. destruct x as [r|e|].
  - intros (m & -> & H) HQ. cbn [rbind]. eauto.
  - intros -> _. reflexivity.
  - intros -> _. reflexivity.
Qed.

Lemma uses_dropped {T} (xs : stored T) x P (Q : T -> storage -> Prop) : uses xs x P ->
  (forall r m, x = Ok r -> P r m -> Q r (mkStorage 0 (peak m))) -> uses (dropped xs) x Q.
Proof.
  unfold uses, dropped. destruct x as [r|e|].
  - intros (m & -> & H) HQ. cbn [rbind]. eauto.
  - intros -> _. reflexivity.
  - intros -> _. reflexivity.
Qed.

(** A run that returns an owned array and holds at most [F] elements meanwhile. *)
Definition takes (xs : stored (arr A)) (x : res (arr A)) (F : arr A -> nat) : Prop :=
  uses xs x (fun r m => m = mkStorage (elements r) (F r)).

Lemma takes_eq xs x F G : takes xs x F -> (forall r, x = Ok r -> F r = G r) -> takes xs x G.
Proof. intros H E. eapply uses_mono; [exact H|]. cbv beta. intros r m Er ->. rewrite E; auto. Qed.

Lemma takes_after {T} (x : res T) fs f F : (forall t, x = Ok t -> takes (fs t) (f t) F) ->
  takes (sbind (viewed x) fs) (rbind x f) F.
Proof. apply uses_after. Qed.

Lemma takes_made x : takes (made x) x elements.
Proof. apply uses_made. Qed.

(** ** Lengths *)

Lemma a_iter_elements (a : arr A) l : a_iter a = Ok l -> length l = elements a.
Proof. unfold a_iter. intros H. apply mapM_length in H. rewrite H. apply indices_length. Qed.

Lemma from_shape_vec_elements sh (l : list A) r : from_shape_vec sh l = Ok r -> elements r = length l /\ elements r = prod sh.
Proof.
  unfold from_shape_vec. destruct (Nat.eqb_spec (length l) (prod sh)); [|discriminate]. intros [= <-].
  unfold elements, mk_c. cbn [a_shape]. auto.
Qed.

Lemma into_shape_elements (a r : arr A) sh : into_shape a sh = Ok r -> elements r = elements a.
Proof.
  intros H. unfold elements. pose proof (into_shape_shape _ _ _ H) as E. rewrite E.
  unfold into_shape in H. destruct (Nat.eqb_spec (prod sh) (prod (a_shape a))); [auto|discriminate].
Qed.

(** The view that [permuted_axes] makes. *)
Definition permuted (p : list nat) (t : arr A) : arr A :=
  mkArr (a_data t) (a_off t) (map (fun k => nth k (a_shape t) 0) p) (map (fun k => nth k (a_strides t) 0%Z) p).

Lemma permuted_view p (t v : arr A) : permuted_axes t p = Ok v -> v = permuted p t.
Proof. unfold permuted_axes. destruct (_ && _ && _); [|discriminate]. intros [= <-]. reflexivity. Qed.

Lemma permuted_elements p (t v : arr A) : permuted_axes t p = Ok v -> elements v = elements t.
Proof.
  intros H. pose proof (permuted_view _ _ _ H) as ->. unfold permuted_axes in H.
  destruct (Nat.eqb_spec (length p) (length (a_shape t))) as [E1|]; [|discriminate].
  destruct (forallb (fun k => Nat.ltb k _) p) eqn:E2; [|discriminate].
  destruct (forallb _ (seq 0 _)) eqn:E3; [|discriminate]. clear H.
  unfold elements, permuted. cbn [a_shape].
  rewrite forallb_forall in E2, E3.
  assert (P : Permutation p (seq 0 (length (a_shape t)))).
  { apply NoDup_Permutation_bis.
    - apply (NoDup_count_occ Nat.eq_dec). intros k.
      destruct (in_dec Nat.eq_dec k p) as [Hk|Hk].
      + specialize (E2 k Hk). apply Nat.ltb_lt in E2. specialize (E3 k).
        rewrite in_seq in E3. specialize (E3 ltac:(lia)). apply Nat.eqb_eq in E3. lia.
      + apply (count_occ_not_In Nat.eq_dec) in Hk. lia.
    - rewrite seq_length. lia.
    - intros k Hk. apply in_seq. specialize (E2 k Hk). apply Nat.ltb_lt in E2. lia. }
  apply (Permutation_map (fun k => nth k (a_shape t) 0)) in P.
  assert (prod_perm : forall a b, Permutation a b -> prod a = prod b).
  { induction 1; rewrite ?prod_cons; lia. }
  rewrite (prod_perm _ _ P).
  assert (H : map (fun k => nth k (a_shape t) 0) (seq 0 (length (a_shape t))) = a_shape t).
  { generalize (a_shape t). clear. induction l as [|d sh IH]; auto.
    cbn [length seq map nth]. rewrite <- seq_shift, map_map. f_equal. exact IH. }
  rewrite H. reflexivity.
Qed.

Lemma to_owned_elements (a r : arr A) : to_owned lay a = Ok r -> elements r = elements a.
Proof. intros H. unfold elements. rewrite (to_owned_shape lay Hlay _ _ H). auto. Qed.

(** ** One operand *)

(** The most held while an array of shape [sh] is summed over [axes], one after another, from the moment
    it is owned. *)
Fixpoint sums_storage (sh axes : list nat) : nat :=
  match axes with
  | [] => prod sh
  | ax :: axes' => Nat.max (prod sh + prod (remove_nth ax sh)) (sums_storage (remove_nth ax sh) axes')
  end.

Lemma sums_s_takes axes : forall r : arr A,
  takes (sums_s lay r axes) (foldM (fun r ax => sum_axis lay r ax) axes r) (fun _ => sums_storage (a_shape r) axes).
Proof.
  induction axes as [|ax axes IH]; intros r.
  - exists (mkStorage (elements r) (elements r)). split; reflexivity.
  - cbn [sums_s foldM sums_storage]. destruct (sum_axis lay r ax) as [r'|e|] eqn:E; cbn [rbind]; try reflexivity.
    specialize (IH r'). unfold takes, uses in *.
    destruct (foldM _ axes r') as [x|e|]; [|rewrite IH; reflexivity|rewrite IH; reflexivity].
    destruct IH as (m & -> & ->). cbn [rbind]. eexists. split; [reflexivity|]. cbn [held peak].
    unfold elements at 2 3. rewrite (sum_axis_shape lay Hlay _ _ _ E). reflexivity.
Qed.

(** Summing the axes [axes] of an array of shape [sh] that is not owned. *)
Definition summation_storage (sh axes : list nat) : nat :=
  match axes with [] => 0 | ax :: axes' => sums_storage (remove_nth ax sh) axes' end.

Lemma summation_takes s (t : arr A) : takes (summation_contract_s lay s t) (summation_contract lay s t)
  (fun _ => summation_storage (a_shape t) (adjusted_axis_list s)).
Proof.
  unfold summation_contract_s, summation_contract. destruct (adjusted_axis_list s) as [|ax axes]; [reflexivity|].
  apply takes_after. intros ? [= <-]. apply takes_after. intros r0 E. cbn [skipn summation_storage].
  rewrite <- (sum_axis_shape lay Hlay _ _ _ E). apply sums_s_takes.
Qed.

Lemma permutation_takes p (t : arr A) : takes (permutation_contract_s lay p t) (permutation_contract lay p t) (fun _ => elements t).
Proof.
  unfold permutation_contract_s, permutation_contract. apply takes_after. intros v Hv.
  eapply takes_eq; [apply takes_made|]. intros r Hr. cbv beta.
  rewrite (to_owned_elements _ _ Hr). apply (permuted_elements _ _ _ Hv).
Qed.

Lemma permutation_contract_elements p (t x : arr A) : permutation_contract lay p t = Ok x -> elements x = elements t.
Proof.
  unfold permutation_contract. intros H. apply bind_Ok in H as (v & Hv & H).
  rewrite (to_owned_elements _ _ H). apply (permuted_elements _ _ _ Hv).
Qed.

Lemma diagonalization_takes d (t : arr A) : takes (diagonalization_contract_s lay d t) (diagonalization_contract lay d t)
  (fun _ => elements t + prod (diag_output_shape d)).
Proof.
  unfold diagonalization_contract_s, diagonalization_contract.
  eapply uses_returned.
  - apply uses_after. intros l Hl. eapply uses_bind; [apply uses_made|]. cbv beta. intros c m Hc ->.
    apply uses_after. intros v Hv. eapply uses_mono; [apply uses_made|]. cbv beta. intros r m Hr ->.
    instantiate (1 := fun _ m => peak m = elements t + prod (diag_output_shape d)).
    cbv beta. unfold beside. cbn [held peak].
    assert (Er : elements r = prod (diag_output_shape d)).
    { unfold elements. rewrite <- (diagonal_view_shape _ _ _ Hv).
      unfold into_owned in Hr. apply bind_Ok in Hr as (l' & _ & Hr). injection Hr as <-.
      rewrite (arranged lay Hlay). reflexivity. }
    destruct (from_shape_vec_elements _ _ _ Hc) as [_ Ec]. fold (elements t) in Ec. lia.
  - cbv beta. intros r m _ ->. reflexivity.
Qed.

(** The diagonal of such an array is taken without copying. *)
Definition diagonal_direct (t : arr A) : bool :=
  match as_slice_memory_order t with Some _ => true | None => false end
  && forallb (fun st => Z.ltb 0 st) (a_strides t).

(** The most that a contractor for one operand holds. *)
Definition singleton_storage (op : singleton_op) (t : arr A) : nat :=
  match op with
  | OpIdentity => elements t
  | OpPermutation p => elements t
  | OpSummation s => summation_storage (a_shape t) (adjusted_axis_list s)
  | OpDiagonalization d => elements t + prod (diag_output_shape d)
  | OpPermutationAndSummation p s => summation_storage (a_shape (permuted p t)) (adjusted_axis_list s)
  | OpDiagonalizationAndSummation d s =>
      let summing := summation_storage (diag_output_shape d) (adjusted_axis_list s) in
      if diagonal_direct t then summing
      else prod (diag_output_shape d) + Nat.max (elements t) summing
  end.

Lemma run_singleton_takes op (t : arr A) :
  takes (run_singleton_s lay op t) (run_singleton lay op t) (fun _ => singleton_storage op t).
Proof.
  destruct op; cbn [run_singleton_s run_singleton singleton_storage].
  - eapply takes_eq; [apply takes_made|]. intros r Hr. cbv beta. apply to_owned_elements. auto.
  - apply permutation_takes.
  - apply summation_takes.
  - apply diagonalization_takes.
  - apply takes_after. intros v Hv. rewrite (permuted_view _ _ _ Hv). apply summation_takes.
  - unfold diag_and_sum_contract_s, diag_and_sum_contract. cbv zeta. fold (diagonal_direct t).
    destruct (diagonal_direct t).
    + apply (uses_returned _ _ (fun _ m => peak m = summation_storage (diag_output_shape d) (adjusted_axis_list s))).
      * apply uses_after. intros v Hv. rewrite <- (diagonal_view_shape _ _ _ Hv).
        eapply uses_mono; [apply summation_takes|]. cbv beta. intros r m _ ->. reflexivity.
      * cbv beta. intros r m _ ->. reflexivity.
    + eapply uses_returned.
      * eapply uses_bind; [apply diagonalization_takes|]. cbv beta. intros v m Hv ->.
        eapply uses_mono; [apply summation_takes|]. cbv beta. intros r m _ ->.
        instantiate (1 := fun _ m => peak m = prod (diag_output_shape d) + Nat.max (elements t) (summation_storage (diag_output_shape d) (adjusted_axis_list s))).
        cbv beta. unfold beside. cbn [held peak].
        unfold elements at 2. rewrite (diagonal_contract_shape lay Hlay _ _ _ Hv). lia.
      * cbv beta. intros r m _ ->. reflexivity.
Qed.

(** ** Two operands *)

(** The elements copied to bring an operand into standard layout. *)
Definition copied (t : arr A) : nat := if is_standard_layout t then 0 else elements t.

Lemma as_matrix_uses rows cols (t : arr A) : uses (as_matrix_s rows cols t) (as_matrix rows cols t)
  (fun _ m => m = mkStorage (copied t) (copied t)).
Proof.
  unfold as_matrix_s, as_matrix, copied. destruct (is_standard_layout t).
  - apply uses_viewed. reflexivity.
  - apply uses_after. intros l Hl. eapply uses_mono; [apply uses_made|]. cbv beta. intros r m Hr ->.
    destruct (from_shape_vec_elements _ _ _ Hr) as [E _]. rewrite E, (a_iter_elements _ _ Hl). reflexivity.
Qed.

Lemma run_tfp_takes t (l r : arr A) :
  takes (run_tfp_s lay t l r) (run_tfp lay t l r) (fun x => copied l + copied r + elements x).
Proof.
  unfold run_tfp_s, run_tfp. eapply uses_returned.
  - eapply uses_bind; [apply as_matrix_uses|]. cbv beta. intros lv m _ ->.
    eapply uses_bind; [apply as_matrix_uses|]. cbv beta. intros rv m _ ->.
    eapply uses_bind; [apply uses_made|]. cbv beta. intros d m _ ->.
    apply uses_viewed. intros x Hx. instantiate (1 := fun x m => peak m = copied l + copied r + elements x). cbv beta.
    unfold beside, no_storage. cbn [held peak]. rewrite (into_shape_elements _ _ _ Hx). lia.
  - cbv beta. intros x m _ ->. reflexivity.
Qed.

Definition tg_storage (t : tensordot_general) (l r x : arr A) : nat :=
  Nat.max (copied (permuted (tg_lhs_permutation t) l) + copied (permuted (tg_rhs_permutation t) r) + elements x)
    (2 * elements x).

Lemma run_tg_takes t (l r : arr A) : takes (run_tg_s lay t l r) (run_tg lay t l r) (tg_storage t l r).
Proof.
  unfold run_tg_s, run_tg. eapply uses_returned.
  - apply uses_after. intros pl Hl. apply uses_after. intros pr Hr.
    rewrite (permuted_view _ _ _ Hl), (permuted_view _ _ _ Hr).
    eapply uses_bind; [apply run_tfp_takes|]. cbv beta. intros d m _ ->.
    eapply uses_mono; [apply permutation_takes|]. cbv beta. intros x m Hx ->.
    instantiate (1 := fun x m => peak m = tg_storage t l r x). cbv beta.
    unfold beside, tg_storage. cbn [held peak]. rewrite (permutation_contract_elements _ _ _ Hx). lia.
  - cbv beta. intros x m _ ->. reflexivity.
Qed.

(** The parts of a row-major array along its first axis are row-major. *)
Lemma outer_standard (a : arr A) l i s : a_strides a = default_strides (a_shape a) ->
  outer_iter a = Ok l -> nth_error l i = Some s -> is_standard_layout s = true.
Proof.
  intros Es H Hi. unfold outer_iter in H. apply bind_Ok in H as (n & En & H).
  assert (Hs : exists j, index_axis a 0 j = Ok s).
  { clear -H Hi. revert l i H Hi. generalize 0 at 2. induction n as [|n IH]; intros k l i H Hi; cbn [seq mapM] in H.
    - injection H as <-. destruct i; discriminate.
    - apply bind_Ok in H as (x & Hx & H). apply bind_Ok in H as (xs & Hxs & H). injection H as <-.
      destruct i as [|i]; cbn [nth_error] in Hi; [injection Hi as <-; eauto|]. eapply IH; eauto. }
  destruct Hs as (j & Hs). unfold index_axis in Hs. apply bind_Ok in Hs as (d & Ed & Hs).
  apply bind_Ok in Hs as (st & Est & Hs). destruct (Nat.ltb_spec j d) as [Hj|]; [|discriminate]. injection Hs as <-.
  destruct (a_shape a) as [|d0 sh] eqn:Esh; [discriminate|]. injection Ed as ->.
  unfold is_standard_layout. cbn [a_shape a_strides remove_nth].
  rewrite Es. unfold default_strides. destruct d as [|d]; [lia|].
  assert (Ee : is_empty_shape (S d :: sh) = is_empty_shape sh) by reflexivity.
  rewrite Ee. destruct (is_empty_shape sh); [reflexivity|]. cbn [orb c_strides remove_nth].
  apply c_strides_standard.
Qed.

Lemma index_nth {T} (l : list T) i x : index l i = Ok x -> nth_error l i = Some x.
Proof. unfold index. destruct (nth_error l i); [intros [= <-]; auto|discriminate]. Qed.

Lemma stacked_takes sc s (l r : arr A) : stacked_new sc = Ok s ->
  takes (run_stacked_s lay s l r) (run_stacked lay s l r) (fun x => elements l + elements r + 2 * elements x).
Proof.
  intros Es. apply stacked_form in Es as (q & us & cs & vs & Es & Ep).
  unfold run_stacked_s, run_stacked. eapply uses_returned.
  - apply uses_after. intros pl Hpl. apply uses_after. intros ll Hll.
    eapply uses_bind; [apply uses_made|]. cbv beta. intros lr m Hlr ->.
    apply uses_after. intros pr Hpr. apply uses_after. intros rl Hrl.
    eapply uses_bind; [apply uses_made|]. cbv beta. intros rr m Hrr ->. cbv zeta.
    assert (Elr : elements lr = elements l).
    { destruct (from_shape_vec_elements _ _ _ Hlr) as [E _]. rewrite E, (a_iter_elements _ _ Hll). apply (permuted_elements _ _ _ Hpl). }
    assert (Err : elements rr = elements r).
    { destruct (from_shape_vec_elements _ _ _ Hrr) as [E _]. rewrite E, (a_iter_elements _ _ Hrl). apply (permuted_elements _ _ _ Hpr). }
    assert (St : forall sh v x, from_shape_vec sh v = Ok x -> @a_strides A x = default_strides (a_shape x)).
    { unfold from_shape_vec. intros sh v x. destruct (Nat.eqb _ _); [intros [= <-]; reflexivity|discriminate]. }
    pose proof (St _ _ _ Hlr) as Sl. pose proof (St _ _ _ Hrr) as Sr. clear St.
    match goal with |- uses (sbind (made _) ?fs) ?y _ =>
      pose (f := fun buf : arr A =>
        do lsubs <- outer_iter lr; do rsubs <- outer_iter rr; do n <- index (a_shape buf) 0;
        do buf' <- foldM (stacked_iteration lay (st_fixed s) lsubs rsubs) (seq 0 n) buf;
        do reshaped <- into_shape buf' (st_output_shape s);
        permutation_contract lay (st_output_permutation s) reshaped);
      change y with (f (zeros (st_intermediate_shape s)))
    end.
    eapply (uses_bind (made (Ok _)) (Ok _) _ f); [apply uses_made|].
    cbv beta. intros buf m [= <-] ->. unfold f. clear f.
    apply uses_after. intros lsubs Hls. apply uses_after. intros rsubs Hrs. apply uses_after. intros n Hn.
    set (buf := zeros (st_intermediate_shape s)) in *.
    assert (Eb : elements buf = q * (prod us * prod vs)).
    { unfold elements, buf, zeros, mk_c. cbn [a_shape]. rewrite Es. cbn [st_intermediate_shape]. rewrite prod_cons, prod_app. reflexivity. }
    assert (En : n = q).
    { unfold buf, zeros, mk_c in Hn. cbn [a_shape] in Hn. rewrite Es in Hn. cbn [st_intermediate_shape] in Hn. injection Hn as <-. auto. }
    subst n.
    assert (It : forall b i, uses (stacked_iteration_s lay (st_fixed s) lsubs rsubs b i)
                   (stacked_iteration lay (st_fixed s) lsubs rsubs b i)
                   (fun b' m => a_shape b' = a_shape b /\ m = mkStorage 0 (prod us * prod vs))).
    { intros b i. unfold stacked_iteration_s, stacked_iteration. eapply uses_dropped.
      - apply uses_after. intros o _. apply uses_after. intros li Hli. apply uses_after. intros ri Hri.
        apply index_nth in Hli, Hri.
        apply (uses_bind _ _ _ _ (fun _ m => held m <= prod us * prod vs /\ peak m = prod us * prod vs)).
        + eapply uses_bind; [apply run_tfp_takes|]. cbv beta. intros x m Hx ->.
          apply uses_viewed. intros o' _. rewrite beside_after. cbn [held peak].
          unfold copied. rewrite (outer_standard _ _ _ _ Sl Hls Hli), (outer_standard _ _ _ _ Sr Hrs Hri).
          assert (Ex : elements x = prod us * prod vs).
          { unfold elements. rewrite (run_tfp_shape lay _ _ _ _ Hx), Es. cbn [st_fixed tfp_for tfp_output_shape]. apply prod_app. }
          rewrite Ex. lia.
        + intros o' m _ Hm. apply uses_viewed. intros b' [= <-].
          instantiate (1 := fun b' m => a_shape b' = a_shape b /\ peak m = prod us * prod vs). cbv beta.
          rewrite beside_after. cbn [a_shape peak]. split; auto. lia.
      - cbv beta. intros b' m _ [H1 ->]. auto. }
    assert (Fo : forall is b, uses (foldS (stacked_iteration_s lay (st_fixed s) lsubs rsubs) is b)
                   (foldM (stacked_iteration lay (st_fixed s) lsubs rsubs) is b)
                   (fun b' m => a_shape b' = a_shape b /\ held m = 0 /\ peak m <= length is * (prod us * prod vs))).
    { induction is as [|i is IH]; intros b; cbn [foldS foldM].
      - exists no_storage. split; auto.
      - eapply uses_bind; [apply It|]. cbv beta. intros b1 m1 _ [H1 ->].
        eapply uses_mono; [apply IH|]. cbv beta. intros b2 m2 _ (H2 & H3 & H4).
        split; [congruence|]. unfold beside. cbn [held peak length]. lia. }
    eapply uses_bind; [apply Fo|]. cbv beta. intros buf' m _ (H1 & H2 & H3). rewrite seq_length in H3.
    apply uses_after. intros rs Hrsh. eapply uses_mono; [apply permutation_takes|]. cbv beta. intros x m' Hx ->.
    instantiate (1 := fun x m => peak m = elements l + elements r + 2 * elements x). cbv beta.
    apply permutation_contract_elements in Hx. apply into_shape_elements in Hrsh.
    assert (Eb' : elements buf' = elements buf) by (unfold elements; rewrite H1; auto).
    unfold beside. cbn [held peak]. rewrite Elr, Err, H2. lia.
  - cbv beta. intros x m _ ->. reflexivity.
Qed.

(** The most that a contractor for two operands holds, [x] being its result. *)
Definition pair_storage (op : pair_op) (l r x : arr A) : nat :=
  match op with
  | OpTensordotFixedPosition _ => copied l + copied r + elements x
  | OpTensordotGeneral t => tg_storage t l r x
  | OpStackedTensordotGeneral _ => elements l + elements r + 2 * elements x
  | _ => elements x
  end.

(** A stacked tensordot comes from its constructor. *)
Definition constructed (op : pair_op) : Prop :=
  match op with OpStackedTensordotGeneral s => exists sc, stacked_new sc = Ok s | _ => True end.

Lemma run_pair_takes op (l r : arr A) : constructed op ->
  takes (run_pair_s lay op l r) (run_pair lay op l r) (pair_storage op l r).
Proof.
  intros Hc. destruct op; cbn [run_pair_s run_pair pair_storage].
  - apply takes_made.
  - do 2 (apply takes_after; intros ? _). apply takes_made.
  - do 2 (apply takes_after; intros ? _). apply takes_made.
  - do 3 (apply takes_after; intros ? _). apply takes_made.
  - do 2 (apply takes_after; intros ? _). apply takes_made.
  - do 3 (apply takes_after; intros ? _). apply takes_made.
  - apply run_tfp_takes.
  - apply run_tg_takes.
  - do 6 (apply takes_after; intros ? _). apply takes_made.
  - destruct Hc as (sc & Hc). apply (stacked_takes sc). auto.
Qed.

(** ** Steps *)

Definition simplification_storage (s : option simplification) (t : arr A) : nat :=
  match s with Some s => singleton_storage (simpl_op s) t | None => 0 end.

(** The simplified operand, if it is a new array. *)
Definition simplification_held (s : option simplification) (t' : arr A) : nat :=
  match s with Some _ => elements t' | None => 0 end.

Lemma run_simplification_uses s (t : arr A) : uses (run_simplification_s lay s t) (run_simplification lay s t)
  (fun t' m => m = mkStorage (simplification_held s t') (simplification_storage s t)).
Proof.
  destruct s as [s|]; cbn [run_simplification_s run_simplification].
  - apply run_singleton_takes.
  - eexists. split; reflexivity.
Qed.

Lemma run_pair_contraction_uses p (l r : arr A) : constructed (pc_op p) ->
  uses (run_pair_contraction_s lay p l r) (run_pair_contraction lay p l r)
    (fun x m => exists l' r',
       run_simplification lay (pc_lhs_simplification p) l = Ok l'
       /\ run_simplification lay (pc_rhs_simplification p) r = Ok r'
       /\ m = mkStorage (elements x)
                (Nat.max (simplification_storage (pc_lhs_simplification p) l)
                   (simplification_held (pc_lhs_simplification p) l'
                    + Nat.max (simplification_storage (pc_rhs_simplification p) r)
                        (simplification_held (pc_rhs_simplification p) r' + pair_storage (pc_op p) l' r' x)))).
Proof.
  intros Hc. unfold run_pair_contraction_s, run_pair_contraction.
  eapply uses_returned.
  - eapply uses_bind; [apply run_simplification_uses|]. cbv beta. intros l' m Hl ->.
    eapply uses_bind; [apply run_simplification_uses|]. cbv beta. intros r' m Hr ->.
    eapply uses_mono; [apply run_pair_takes; auto|]. cbv beta. intros x m Hx ->.
    instantiate (1 := fun x m => exists l' r',
       run_simplification lay (pc_lhs_simplification p) l = Ok l'
       /\ run_simplification lay (pc_rhs_simplification p) r = Ok r'
       /\ peak m = Nat.max (simplification_storage (pc_lhs_simplification p) l)
                   (simplification_held (pc_lhs_simplification p) l'
                    + Nat.max (simplification_storage (pc_rhs_simplification p) r)
                        (simplification_held (pc_rhs_simplification p) r' + pair_storage (pc_op p) l' r' x))).
    exists l', r'. split; [auto|]. split; [auto|]. reflexivity.
  - cbv beta. intros x m _ (l' & r' & H1 & H2 & ->). eauto.
Qed.

(** ** Bounds *)

Lemma remove_nth_nzp n sh : nonzero_product (remove_nth n sh) <= nonzero_product sh.
Proof. apply remove_nth_fits. Qed.

Lemma sums_storage_bound axes : forall sh, sums_storage sh axes <= 2 * nonzero_product sh.
Proof.
  induction axes as [|ax axes IH]; intros sh; cbn [sums_storage].
  - pose proof (prod_le_nzp sh). lia.
  - specialize (IH (remove_nth ax sh)). pose proof (remove_nth_nzp ax sh).
    pose proof (prod_le_nzp sh). pose proof (prod_le_nzp (remove_nth ax sh)). lia.
Qed.

Lemma summation_storage_bound sh axes : summation_storage sh axes <= 2 * nonzero_product sh.
Proof.
  destruct axes as [|ax axes]; cbn [summation_storage]; [lia|].
  pose proof (sums_storage_bound axes (remove_nth ax sh)). pose proof (remove_nth_nzp ax sh). lia.
Qed.

Lemma elements_nzp (a : arr A) : elements a <= nonzero_product (a_shape a).
Proof. apply prod_le_nzp. Qed.

Lemma summation_contract_nzp s (t x : arr A) : summation_contract lay s t = Ok x ->
  nonzero_product (a_shape x) <= nonzero_product (a_shape t).
Proof.
  unfold summation_contract. intros H. apply bind_Ok in H as (ax & _ & H). apply bind_Ok in H as (r0 & E & H).
  assert (Hf : forall axes (r y : arr A), foldM (fun r ax => sum_axis lay r ax) axes r = Ok y ->
            nonzero_product (a_shape y) <= nonzero_product (a_shape r)).
  { induction axes as [|ax' axes IH]; intros r y Hy; cbn [foldM] in Hy; [injection Hy as <-; auto|].
    apply bind_Ok in Hy as (r1 & E1 & Hy). apply IH in Hy. rewrite (sum_axis_shape lay Hlay _ _ _ E1) in Hy.
    pose proof (remove_nth_nzp ax' (a_shape r)). lia. }
  apply Hf in H. rewrite (sum_axis_shape lay Hlay _ _ _ E) in H. pose proof (remove_nth_nzp ax (a_shape t)). lia.
Qed.

Section Bound.
Variable N : nat.

Lemma singleton_bound op (t x : arr A) : nonzero_product (a_shape t) <= N -> singleton_fits N op ->
  run_singleton lay op t = Ok x -> elements x <= N /\ singleton_storage op t <= 3 * N.
Proof.
  intros Ht Ho Hx. pose proof (elements_nzp t) as Et. pose proof (elements_nzp x) as Ex.
  destruct op; cbn [run_singleton singleton_storage singleton_fits] in *.
  - apply to_owned_elements in Hx. lia.
  - apply permutation_contract_elements in Hx. lia.
  - apply summation_contract_nzp in Hx.
    pose proof (summation_storage_bound (a_shape t) (adjusted_axis_list s)). lia.
  - unfold elements in Ex. rewrite (diagonal_contract_shape lay Hlay _ _ _ Hx) in Ex.
    unfold elements at 1. rewrite (diagonal_contract_shape lay Hlay _ _ _ Hx).
    pose proof (prod_le_nzp (diag_output_shape d)). lia.
  - apply bind_Ok in Hx as (v & Hv & Hx). unfold permutation_view in Hv.
    pose proof (permuted_fits _ _ _ Hv) as E. rewrite (permuted_view _ _ _ Hv) in *.
    apply summation_contract_nzp in Hx.
    pose proof (summation_storage_bound (a_shape (permuted p t)) (adjusted_axis_list s)). lia.
  - unfold diag_and_sum_contract in Hx. cbv zeta in Hx. apply bind_Ok in Hx as (v & Hv & Hx).
    apply summation_contract_nzp in Hx.
    assert (E : a_shape v = diag_output_shape d).
    { destruct (_ && _); [apply (diagonal_view_shape _ _ _ Hv)|apply (diagonal_contract_shape lay Hlay _ _ _ Hv)]. }
    rewrite E in Hx. cbv zeta.
    pose proof (summation_storage_bound (diag_output_shape d) (adjusted_axis_list s)).
    pose proof (prod_le_nzp (diag_output_shape d)).
    destruct (diagonal_direct t); lia.
Qed.

(** What one operand of a step takes: its simplification and the simplified operand, or nothing but the
    operand if there is nothing to simplify. *)
Definition weight (s : option simplification) : nat := match s with Some _ => 3 | None => 1 end.

Lemma simplification_bound s (t t' : arr A) : nonzero_product (a_shape t) <= N -> simplification_fits N s ->
  run_simplification lay s t = Ok t' ->
  simplification_storage s t <= weight s * N
  /\ simplification_held s t' + elements t' <= weight s * N
  /\ simplification_held s t' <= weight s * N.
Proof.
  intros Ht Hs E. destruct s as [s|]; cbn [run_simplification simplification_storage simplification_held weight simplification_fits] in *.
  - destruct (singleton_bound _ _ _ Ht Hs E). lia.
  - injection E as <-. pose proof (elements_nzp t). lia.
Qed.

End Bound.

Lemma copied_le (t : arr A) : copied t <= elements t.
Proof. unfold copied. destruct (is_standard_layout t); lia. Qed.

Lemma tg_storage_le t (l r x : arr A) : run_tg lay t l r = Ok x ->
  2 * elements x <= tg_storage t l r x <= Nat.max (elements l + elements r + elements x) (2 * elements x).
Proof.
  intros H. unfold run_tg in H. apply bind_Ok in H as (pl & Hl & H). apply bind_Ok in H as (pr & Hr & H).
  unfold permutation_view in Hl, Hr. unfold tg_storage.
  pose proof (copied_le (permuted (tg_lhs_permutation t) l)). pose proof (copied_le (permuted (tg_rhs_permutation t) r)).
  rewrite <- (permuted_view _ _ _ Hl), (permuted_elements _ _ _ Hl) in H0.
  rewrite <- (permuted_view _ _ _ Hr), (permuted_elements _ _ _ Hr) in H1.
  rewrite <- (permuted_view _ _ _ Hl), <- (permuted_view _ _ _ Hr). lia.
Qed.

Lemma pair_storage_le op (l r x : arr A) : run_pair lay op l r = Ok x ->
  pair_storage op l r x <= elements l + elements r + 2 * elements x.
Proof.
  intros H. pose proof (copied_le l). pose proof (copied_le r).
  destruct op; cbn [pair_storage run_pair] in *; try lia.
  apply tg_storage_le in H. lia.
Qed.

(** A step holds its result, and meanwhile at most this. *)
Lemma step_storage p (l r : arr A) N M : constructed (pc_op p) ->
  nonzero_product (a_shape l) <= N -> nonzero_product (a_shape r) <= M ->
  simplification_fits N (pc_lhs_simplification p) -> simplification_fits M (pc_rhs_simplification p) ->
  uses (run_pair_contraction_s lay p l r) (run_pair_contraction lay p l r)
    (fun x m => held m = elements x
       /\ elements x <= peak m
       /\ peak m <= weight (pc_lhs_simplification p) * N + weight (pc_rhs_simplification p) * M + 2 * elements x).
Proof.
  intros Hc Hl Hr Fl Fr. eapply uses_mono; [apply run_pair_contraction_uses; auto|].
  cbv beta. intros x m Hx (l' & r' & El & Er & ->). cbn [held peak].
  unfold run_pair_contraction in Hx. rewrite El in Hx. cbn [rbind] in Hx. rewrite Er in Hx. cbn [rbind] in Hx.
  pose proof (pair_storage_le _ _ _ _ Hx) as Hp.
  destruct (simplification_bound N _ _ _ Hl Fl El) as (B1 & B2 & B3).
  destruct (simplification_bound M _ _ _ Hr Fr Er) as (B4 & B5 & B6).
  assert (Hx' : elements x <= pair_storage (pc_op p) l' r' x).
  { destruct (pc_op p); cbn [pair_storage]; unfold tg_storage; lia. }
  split; [auto|]. split; lia.
Qed.

(** [tensordot] *)
Lemma tensordot_uses (l r : arr A) la ra : uses (tensordot_s lay l r la ra) (tensordot lay l r la ra)
  (fun x m => held m = elements x /\ 2 * elements x <= peak m
              /\ peak m <= elements l + elements r + 2 * elements x).
Proof.
  unfold tensordot_s, tensordot. apply uses_after. intros u _. apply uses_after. intros n _. apply uses_after. intros t _.
  eapply uses_mono; [apply run_tg_takes|]. cbv beta. intros x m Hx ->. cbn [held peak].
  pose proof (pair_storage_le (OpTensordotGeneral t) _ _ _ Hx) as Hp. cbn [pair_storage] in Hp.
  unfold tg_storage in *. lia.
Qed.

End Run.
