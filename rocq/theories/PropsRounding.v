(** Rounding error (C40): over floating-point scalars the sums and products of a run are rounded, in
    an order that depends on the hash seed and on ndarray, and some of them may be fused. However they
    fall, the result stays within a bound of the exact Einstein sum. *)
From Verif Require Import Base NDArray Validation Optimizers Path Api Spec ParserFacts ValidationMain SumFacts
  ArrayFacts EinsumMain EinsumProps RelationFacts TensordotMain RoundFacts Examples.
From Coq Require Import Lia QArith Qcanon Qcabs.
From Coq Require String.
Import String.StringSyntax.
Local Open Scope string_scope.
Local Open Scope list_scope.
Local Open Scope nat_scope.

(** A run ends as it does over exact scalars, and each element is [close] to the exact one: with [n]
    operands and [t] summed index combinations its error is at most ((1 + eps) ^ (n + t - 2) - 1) times
    the Einstein sum of the operands' absolute values, where every operation has a relative error of at
    most [eps]. If products or sums may also underflow, by at most [eta] each, then the error may be
    larger by ((1 + eta) ^ (n + t - 2) - 1) * (1 + eps) ^ (n + t - 2) times the Einstein sum of one plus
    the absolute values. *)
Theorem einsum_rounding_error :
  forall (F : Type) (Sf : Scalar F) (v : F -> option Qc) (eps eta : Qc), rounding v eps eta ->
  forall h lay s arrays ops out size, hash_ok h -> backend_runs lay -> fused_rounds v eps eta lay ->
    call_ok s (map (@a_shape F) arrays) ops out size -> Forall wf arrays ->
    let result_close x :=
      (x = Panic /\ blocked_in size (combine arrays ops) out)
      \/ (~ blocked_in size (combine arrays ops) out
          /\ exists r f, x = Ok r /\ holds r (map size out) f
               /\ forall o, in_bounds (map size out) o = true -> close v eps eta size arrays ops out o (f o)) in
    result_close (einsum h lay s arrays)
    /\ forall strategy, strategy = Naive \/ strategy = Reverse ->
       result_close (do p <- einsum_path_fn h s arrays strategy; contract_operands lay p arrays).
Proof.
  intros F Sf v eps eta HF h lay s arrays ops out size Hh Hl Hfu Hc Hw result_close.
  apply (tracks_fused_rounds v eps eta HF) in Hfu.
  assert (Hz : Forall2 (related_arrays (tracks v eps eta)) arrays (map (amap (lift v)) arrays)).
  { apply relateds_amap; auto. intros x. apply tracks_lift; auto. }
  split.
  - apply outcome_close; auto.
    apply (@einsum_related _ _ _ tracked_scalar _ (tracks_relation v eps eta HF) tracked_semiring h lay Hh Hl); auto.
  - intros strategy Hst. apply outcome_close; auto.
    apply (@compile_and_run_related _ _ _ tracked_scalar _ (tracks_relation v eps eta HF) tracked_semiring h lay Hh Hl); auto.
Qed.
Print Assumptions einsum_rounding_error.

(** ** Non-negative operands *)

Lemma magnitudes_of_nonneg {F : Type} (v : F -> option Qc) (arrays : list (arr F)) :
  Forall (all_elements (fun x => (0 <= value_of v x)%Qc)) arrays ->
  Forall2 (fun a b => forall idx, elem a idx = elem b idx)
    (map (amap (magnitude_of v)) arrays) (map (amap (value_of v)) arrays).
Proof.
  intros Hp. induction Hp as [|a arrays Ha Hp IH]; simpl; constructor; auto.
  intros idx. unfold elem. rewrite !a_get_amap. destruct (a_get a idx) as [x| |] eqn:Ex; simpl; auto.
  apply Qcabs_pos. apply (Ha idx). exact Ex.
Qed.

Lemma padded_of_nonneg {F : Type} (v : F -> option Qc) (arrays : list (arr F)) :
  Forall (all_elements (fun x => (0 <= value_of v x)%Qc)) arrays ->
  Forall2 (fun a b => forall idx, elem a idx = elem b idx)
    (map (amap (padded_of v)) arrays) (map (amap (fun x => 1 + value_of v x)%Qc) arrays).
Proof.
  intros Hp. induction Hp as [|a arrays Ha Hp IH]; simpl; constructor; auto.
  intros idx. unfold elem. rewrite !a_get_amap. destruct (a_get a idx) as [x| |] eqn:Ex; simpl; auto.
  unfold padded_of, magnitude_of. f_equal. apply Qcabs_pos. apply (Ha idx). exact Ex.
Qed.

(** With no negative element nothing cancels, so without underflow the error is relative to the
    result. *)
Theorem einsum_relative_error :
  forall (F : Type) (Sf : Scalar F) (v : F -> option Qc) (eps eta : Qc), rounding v eps eta ->
  forall h lay s arrays ops out size r, hash_ok h -> backend_runs lay -> fused_rounds v eps eta lay ->
    call_ok s (map (@a_shape F) arrays) ops out size -> Forall wf arrays ->
    Forall (all_elements (fun x => (0 <= value_of v x)%Qc)) arrays ->
    einsum h lay s arrays = Ok r ->
    forall o, in_bounds (map size out) o = true ->
    exists x, a_get r o = Ok x
      /\ (v x = None
          \/ exists q, v x = Some q
             /\ (Qcabs (q - einsum_value size (map (amap (value_of v)) arrays) ops out o)
                 <= (grow eps (length ops + prod (map size (summed_labels ops out)) - 2) - 1)
                    * einsum_value size (map (amap (value_of v)) arrays) ops out o
                    + (grow eta (length ops + prod (map size (summed_labels ops out)) - 2) - 1)
                      * (grow eps (length ops + prod (map size (summed_labels ops out)) - 2)
                         * einsum_value size (map (amap (fun x => 1 + value_of v x)) arrays) ops out o))%Qc).
Proof.
  intros F Sf v eps eta HF h lay s arrays ops out size r Hh Hl Hfu Hc Hw Hp E o Ho.
  destruct (einsum_rounding_error F Sf v eps eta HF h lay s arrays ops out size Hh Hl Hfu Hc Hw) as [[[H _]|[_ H]] _];
    [congruence|].
  destruct H as (r' & f & E' & (_ & _ & Hr) & Hcl). assert (r' = r) by congruence. subst r'.
  exists (f o). split; [auto|]. destruct (Hcl o Ho) as [H|(q & Hq & H)]; [left; auto|right; exists q; split; auto].
  assert (Em : einsum_value size (map (amap (magnitude_of v)) arrays) ops out o
               = einsum_value size (map (amap (value_of v)) arrays) ops out o).
  { apply (einsum_value_rel eq eq_relation). apply magnitudes_of_nonneg; auto. }
  assert (Ep : einsum_value size (map (amap (padded_of v)) arrays) ops out o
               = einsum_value size (map (amap (fun x => 1 + value_of v x)%Qc) arrays) ops out o).
  { apply (einsum_value_rel eq eq_relation). apply padded_of_nonneg; auto. }
  rewrite Em, Ep in H. exact H.
Qed.
Print Assumptions einsum_relative_error.

(** ** tensordot *)

(** With [t] combinations of contracted positions the error of an element is at most
    ((1 + eps) ^ t - 1) times the tensor dot product of the operands' absolute values, plus a similar
    term for underflow. *)
Theorem tensordot_rounding_error :
  forall (F : Type) (Sf : Scalar F) (v : F -> option Qc) (eps eta : Qc), rounding v eps eta ->
  forall lay (a b : arr F) la ra, backend_runs lay -> fused_rounds v eps eta lay -> wf a -> wf b ->
    length la = length ra -> axes_ok (length (a_shape a)) la -> axes_ok (length (a_shape b)) ra ->
    axis_lengths (a_shape a) la = axis_lengths (a_shape b) ra ->
    let kept := axis_lengths (a_shape a) (free_axes (length (a_shape a)) la)
                ++ axis_lengths (a_shape b) (free_axes (length (a_shape b)) ra) in
    exists r f, tensordot lay a b la ra = Ok r /\ holds r kept f
      /\ forall o, in_bounds kept o = true -> close_dot v eps eta a b la ra o (f o).
Proof.
  intros F Sf v eps eta HF lay a b la ra Hl Hfu Wa Wb Hn Ha Hb He kept.
  apply (tracks_fused_rounds v eps eta HF) in Hfu.
  destruct (@tensordot_related _ _ lay Hl _ tracked_scalar _ (tracks_relation v eps eta HF) tracked_semiring Hfu
              a b (amap (lift v) a) (amap (lift v) b) la ra) as (r & w & E & Hr & Hw); auto.
  { apply related_amap; auto. intros x. apply tracks_lift; auto. }
  { apply related_amap; auto. intros x. apply tracks_lift; auto. }
  { rewrite He. auto. }
  exists r, w. split; auto. split; auto. intros o Ho. apply close_dot_ok; auto.
Qed.
Print Assumptions tensordot_rounding_error.

(** ** A case: four-bit mantissas *)

(** Integers cut to their four leading bits; from 1024 on they are too large. Products by one and sums
    with zero are left as they are. *)
Definition cut (z : Z) : option Z :=
  if (Z.abs z <? 16)%Z then Some z
  else if (1024 <=? Z.abs z)%Z then None
  else let p := (2 ^ (Z.log2 (Z.abs z) - 3))%Z in Some (Z.sgn z * (Z.abs z / p * p))%Z.

Definition cut_add (x y : option Z) : option Z :=
  match x, y with
  | Some a, Some b => if (a =? 0)%Z then y else if (b =? 0)%Z then x else cut (a + b)
  | _, _ => None
  end.
Definition cut_mul (x y : option Z) : option Z :=
  match x, y with
  | Some a, Some b => if (a =? 1)%Z then y else if (b =? 1)%Z then x else cut (a * b)
  | _, _ => None
  end.
Definition cut_scalar : Scalar (option Z) := {|
  szero := Some 0%Z; sone := Some 1%Z; sadd := cut_add; smul := cut_mul
|}.

Definition z2q (z : Z) : Qc := Q2Qc (inject_Z z).
Definition cut_value (x : option Z) : option Qc := option_map z2q x.
Definition eighth : Qc := Q2Qc (1 # 8).

Lemma z2q_add a b : z2q (a + b) = (z2q a + z2q b)%Qc.
Proof.
  apply Qc_is_canon. change (Qred (inject_Z (a + b)) == Qred (Qred (inject_Z a) + Qred (inject_Z b)))%Q.
  rewrite !Qred_correct, inject_Z_plus. reflexivity.
Qed.
Lemma z2q_mul a b : z2q (a * b) = (z2q a * z2q b)%Qc.
Proof.
  apply Qc_is_canon. change (Qred (inject_Z (a * b)) == Qred (Qred (inject_Z a) * Qred (inject_Z b)))%Q.
  rewrite !Qred_correct, inject_Z_mult. reflexivity.
Qed.
Lemma z2q_opp a : z2q (- a) = (- z2q a)%Qc.
Proof.
  apply Qc_is_canon. change (Qred (inject_Z (- a)) == Qred (- Qred (inject_Z a)))%Q.
  rewrite !Qred_correct, inject_Z_opp. reflexivity.
Qed.
Lemma z2q_le a b : (a <= b)%Z -> (z2q a <= z2q b)%Qc.
Proof. intros H. change (Qred (inject_Z a) <= Qred (inject_Z b))%Q. rewrite !Qred_correct. rewrite <- Zle_Qle. auto. Qed.
Lemma z2q_inj a b : z2q a = z2q b -> a = b.
Proof.
  intros H. apply (f_equal this) in H. change (Qred (inject_Z a) = Qred (inject_Z b)) in H.
  assert (H' : (inject_Z a == inject_Z b)%Q) by (rewrite <- (Qred_correct (inject_Z a)), H; apply Qred_correct).
  apply -> inject_Z_injective. exact H'.
Qed.
Lemma z2q_abs a : Qcabs (z2q a) = z2q (Z.abs a).
Proof.
  destruct (Z.le_ge_cases 0 a) as [H|H].
  - rewrite Z.abs_eq by auto. apply Qcabs_pos. apply (z2q_le 0 a). auto.
  - rewrite Z.abs_neq by auto. rewrite z2q_opp. apply Qcabs_neg. apply (z2q_le a 0). auto.
Qed.

Lemma cut_error z w : cut z = Some w -> (8 * Z.abs (w - z) <= Z.abs z)%Z.
Proof.
  unfold cut. destruct (Z.abs z <? 16)%Z eqn:E1; [intros [= <-]; lia|].
  destruct (1024 <=? Z.abs z)%Z; [discriminate|]. intros [= <-]. apply Z.ltb_ge in E1.
  set (n := Z.abs z) in *. set (k := (Z.log2 n - 3)%Z).
  assert (Hk : (0 <= k)%Z).
  { unfold k. assert (Z.log2 16 <= Z.log2 n)%Z by (apply Z.log2_le_mono; lia).
    change (Z.log2 16) with 4%Z in *. lia. }
  assert (Hp : (0 < 2 ^ k)%Z) by (apply Z.pow_pos_nonneg; lia).
  assert (H8 : (8 * 2 ^ k <= n)%Z).
  { replace (8 * 2 ^ k)%Z with (2 ^ Z.log2 n)%Z; [apply Z.log2_spec; lia|].
    replace (Z.log2 n) with (3 + k)%Z by (unfold k; lia). rewrite Z.pow_add_r by lia. reflexivity. }
  pose proof (Z.div_mod n (2 ^ k)) as Hd. pose proof (Z.mod_pos_bound n (2 ^ k) Hp) as Hm.
  assert (Hz : (z = Z.sgn z * n)%Z) by (unfold n; rewrite Z.mul_comm; symmetry; apply Z.abs_sgn).
  replace (n / 2 ^ k * 2 ^ k)%Z with (n - n mod 2 ^ k)%Z by (specialize (Hd ltac:(lia)); lia).
  replace (Z.sgn z * (n - n mod 2 ^ k) - z)%Z with (- (Z.sgn z * (n mod 2 ^ k)))%Z by lia.
  rewrite Z.abs_opp, Z.abs_mul. assert (Z.abs (Z.sgn z) <= 1)%Z by (destruct z; simpl; lia). nia.
Qed.

Lemma cut_close z w : cut z = Some w -> (Qcabs (z2q w - z2q z) <= eighth * Qcabs (z2q z))%Qc.
Proof.
  intros H. apply cut_error in H. unfold Qcminus. rewrite <- z2q_opp, <- z2q_add, !z2q_abs.
  replace (z2q (Z.abs (w + - z))) with (eighth * z2q (8 * Z.abs (w + - z)))%Qc.
  - rewrite !(Qcmult_comm eighth). apply Qcmult_le_compat_r; [apply z2q_le; auto|].
    unfold Qcle. simpl. unfold Qle. simpl. lia.
  - rewrite z2q_mul, Qcmult_assoc. replace (eighth * z2q 8)%Qc with 1%Qc by (apply Qc_is_canon; reflexivity).
    apply Qcmult_1_l.
Qed.

Lemma close_exact q e : (0 <= e)%Qc -> (Qcabs (q - q) <= e * Qcabs q)%Qc.
Proof.
  intros H. replace (q - q)%Qc with 0%Qc by ring.
  replace (Qcabs 0) with 0%Qc by (apply Qc_is_canon; reflexivity).
  rewrite <- (Qcmult_0_l (Qcabs q)) at 1. apply Qcmult_le_compat_r; auto. apply Qcabs_nonneg.
Qed.

Lemma cut_rounding : @rounding _ cut_scalar cut_value eighth 0.
Proof.
  assert (He : (0 <= eighth)%Qc) by (unfold Qcle, Qle; simpl; lia).
  assert (E0 : z2q 0 = 0%Qc) by (apply Qc_is_canon; reflexivity).
  assert (E1 : z2q 1 = 1%Qc) by (apply Qc_is_canon; reflexivity).
  constructor.
  - exact He.
  - apply Qcle_refl.
  - simpl. congruence.
  - simpl. congruence.
  - intros [a|] [b|]; simpl; try discriminate. rewrite <- !E1. intros Ha Hb.
    assert (z2q a = z2q 1) as ->%z2q_inj by congruence. assert (z2q b = z2q 1) as ->%z2q_inj by congruence.
    right. simpl. f_equal; try (apply Qc_is_canon; reflexivity).
  - intros [a|] [b|] [H|H]; simpl in *; try discriminate; auto.
  - intros [a|] [b|] p q; simpl; try discriminate. intros [= <-] [= <-].
    destruct (a =? 0)%Z eqn:Ea; [|destruct (b =? 0)%Z eqn:Eb].
    + apply Z.eqb_eq in Ea as ->. right. exists (z2q b). split; auto. rewrite E0, Qcplus_0_l.
      rewrite Qcplus_0_r. split; [apply close_exact; exact He|]. split; intros H; congruence.
    + apply Z.eqb_eq in Eb as ->. right. exists (z2q a). split; auto. rewrite E0, Qcplus_0_r.
      rewrite Qcplus_0_r. split; [apply close_exact; exact He|]. split; intros H; congruence.
    + apply Z.eqb_neq in Ea, Eb. destruct (cut (a + b)) as [w|] eqn:E; [right|left; auto].
      exists (z2q w). split; auto. rewrite <- z2q_add. rewrite Qcplus_0_r. split; [apply cut_close; auto|].
      split; intros H; exfalso; rewrite <- E0 in H; apply z2q_inj in H; auto.
  - intros [a|] [b|] p q; simpl; try discriminate. intros [= <-] [= <-].
    destruct (a =? 1)%Z eqn:Ea; [|destruct (b =? 1)%Z eqn:Eb].
    + apply Z.eqb_eq in Ea as ->. right. exists (z2q b). split; auto. rewrite E1, Qcmult_1_l.
      rewrite Qcplus_0_r. split; [apply close_exact; exact He|]. split; [auto|]. split; intros H; congruence.
    + apply Z.eqb_eq in Eb as ->. right. exists (z2q a). split; auto. rewrite E1, Qcmult_1_r.
      rewrite Qcplus_0_r. split; [apply close_exact; exact He|]. split; [auto|]. split; intros H; congruence.
    + apply Z.eqb_neq in Ea, Eb. destruct (cut (a * b)) as [w|] eqn:E; [right|left; auto].
      exists (z2q w). split; auto. rewrite <- z2q_mul. rewrite Qcplus_0_r. split; [apply cut_close; auto|].
      split; [|split; intros H; exfalso; rewrite <- E1 in H; apply z2q_inj in H; auto].
      rewrite <- E0. intros H. apply z2q_inj in H. rewrite H in E. injection E as <-. reflexivity.
Qed.

(** A fused multiply-add that cuts once, and a backend whose matrix products use it. *)
Definition cut_fma (x y z : option Z) : option Z :=
  match x, y, z with
  | Some a, Some b, Some c =>
      if (a * b =? 0)%Z then z
      else if (c =? 0)%Z && (a =? 1)%Z then y
      else if (c =? 0)%Z && (b =? 1)%Z then x
      else cut (a * b + c)
  | _, _, _ => None
  end.
Definition fma_backend : backend (option Z) := mkBackend (fun _ _ a => a)
  (fun _ _ _ l => @in_order _ cut_scalar l)
  cut_fma
  (fun _ _ _ l => fold_left (fun acc p => cut_fma (fst p) (snd p) acc) l (Some 0%Z)).

Lemma fma_backend_runs : @backend_runs _ cut_scalar fma_backend.
Proof.
  constructor; simpl; auto.
  - intros _ _ _ l. apply in_order_ok.
  - intros _ _ _ l.
    assert (H : forall l' x, @dots_to _ cut_scalar cut_fma l' x ->
      @dots_to _ cut_scalar cut_fma (l' ++ l) (fold_left (fun acc p => cut_fma (fst p) (snd p) acc) l x)).
    { induction l as [|[p q] l IH]; intros l' x Hx; simpl; [rewrite app_nil_r; auto|].
      replace (l' ++ (p, q) :: l) with ((l' ++ [(p, q)]) ++ l) by (rewrite <- app_assoc; auto).
      apply IH. apply (@dots_permuted _ cut_scalar) with ((p, q) :: l'); [|apply (@dots_fused _ cut_scalar); auto].
      apply Permutation_cons_append. }
    apply (H [] (Some 0%Z)). apply (@dots_zero _ cut_scalar).
Qed.

Lemma cut_fma_rounding : fused_rounding cut_value eighth 0 cut_fma.
Proof.
  assert (He : (0 <= eighth)%Qc) by (unfold Qcle, Qle; simpl; lia).
  assert (E0 : 0%Qc = z2q 0) by (apply Qc_is_canon; reflexivity).
  assert (E1 : 1%Qc = z2q 1) by (apply Qc_is_canon; reflexivity).
  constructor.
  - intros [a|] [b|] [c|] [H|[H|H]]; simpl in *; try discriminate; auto.
  - intros [a|] [b|] [c|] p q r; simpl; try discriminate. intros [= <-] [= <-] [= <-].
    rewrite <- !z2q_mul, <- !z2q_add, E0, E1, <- !z2q_add.
    assert (K : forall w, (cut (a * b + c) = Some w \/ w = (a * b + c)%Z) ->
      (a * b = 0 -> w = c)%Z -> (c = 0 -> a = 1 -> w = b)%Z -> (c = 0 -> b = 1 -> w = a)%Z ->
      (a * b = 1 -> c = 1 -> w = 2)%Z ->
      cut_value (Some w) = None \/ exists s, cut_value (Some w) = Some s
        /\ (Qcabs (s - z2q (a * b + c)) <= eighth * Qcabs (z2q (a * b + c)) + z2q 0)%Qc
        /\ (z2q (a * b) = z2q 0 -> s = z2q c) /\ (z2q c = z2q 0 -> z2q a = z2q 1 -> s = z2q b)
        /\ (z2q c = z2q 0 -> z2q b = z2q 1 -> s = z2q a)
        /\ (z2q (a * b) = z2q 1 -> z2q c = z2q 1 -> s = z2q (1 + 1))).
    { intros w Hw H1 H2 H3 H4. right. exists (z2q w). split; [reflexivity|].
      split; [rewrite <- E0, Qcplus_0_r; destruct Hw as [Hw| ->]; [apply cut_close; auto|apply close_exact; exact He]|].
      split; [|split; [|split]]; intros; repeat match goal with H : z2q _ = z2q _ |- _ => apply z2q_inj in H end;
        f_equal; auto. }
    destruct (a * b =? 0)%Z eqn:Eab; [|destruct ((c =? 0) && (a =? 1))%Z eqn:E2;
      [|destruct ((c =? 0) && (b =? 1))%Z eqn:E3]].
    + apply Z.eqb_eq in Eab. apply K; [right|..]; intros; nia.
    + apply andb_true_iff in E2 as [->%Z.eqb_eq ->%Z.eqb_eq]. apply Z.eqb_neq in Eab.
      apply K; [right|..]; intros; lia.
    + apply andb_true_iff in E3 as [->%Z.eqb_eq ->%Z.eqb_eq]. apply Z.eqb_neq in Eab.
      apply K; [right|..]; intros; lia.
    + apply Z.eqb_neq in Eab. destruct (cut (a * b + c)) as [w|] eqn:E; [|left; reflexivity].
      apply K; auto.
      * intros; contradiction.
      * intros -> ->. discriminate.
      * intros -> ->. discriminate.
      * intros H1 ->. rewrite H1 in E. injection E as <-. reflexivity.
Qed.

Definition carr (sh : list nat) (l : list Z) : arr (option Z) := mk_c sh (map Some l).

(** The exact sums are 37 and 45. *)
Example rounding_case :
  call_ok (chars "ij,j->i") (map (@a_shape (option Z)) [carr [2; 3] [1; 3; 1; 5; 5; -5]%Z; carr [3] [9; 7; 7]%Z])
    [chars "ij"; chars "j"] (chars "i") (size_fn (combine (chars "ij") [2; 3]))
  /\ Forall wf [carr [2; 3] [1; 3; 1; 5; 5; -5]%Z; carr [3] [9; 7; 7]%Z]
  /\ (do r <- @einsum _ cut_scalar id_hash (@plain_backend _ cut_scalar) (chars "ij,j->i")
                [carr [2; 3] [1; 3; 1; 5; 5; -5]%Z; carr [3] [9; 7; 7]%Z]; a_iter r)
     = Ok [Some 32%Z; Some 40%Z].
Proof. split; [apply check_call_ok; check_call_tac|split; [apply wfs_b_ok; reflexivity|vm_compute; reflexivity]]. Qed.

(** The same call with the fused multiply-add, and the corresponding [tensordot]: the first element
    adds up through 9, 30 and 37 cut to 36, the second through 44, 79 cut to 72, and 37 cut to 36. *)
Example fused_rounding_case :
  @fused_rounds _ cut_scalar cut_value eighth 0 fma_backend
  /\ (do r <- @einsum _ cut_scalar id_hash fma_backend (chars "ij,j->i")
                [carr [2; 3] [1; 3; 1; 5; 5; -5]%Z; carr [3] [9; 7; 7]%Z]; a_iter r)
     = Ok [Some 36%Z; Some 36%Z]
  /\ (do r <- tensordot fma_backend (carr [2; 3] [1; 3; 1; 5; 5; -5]%Z) (carr [3] [9; 7; 7]%Z) [1] [0]; a_iter r)
     = Ok [Some 36%Z; Some 36%Z].
Proof. split; [right; exact cut_fma_rounding|split; vm_compute; reflexivity]. Qed.

(** ** A case with underflow *)

(** Sixteenths, cut to four leading bits: a product drops what lies below a sixteenth. *)
Definition tiny_mul (x y : option Z) : option Z :=
  match x, y with
  | Some a, Some b => if (a =? 16)%Z then y else if (b =? 16)%Z then x else cut (Z.quot (a * b) 16)
  | _, _ => None
  end.
Definition tiny_scalar : Scalar (option Z) := {|
  szero := Some 0%Z; sone := Some 16%Z; sadd := cut_add; smul := tiny_mul
|}.

Definition sixteenth : Qc := Q2Qc (1 # 16).
Definition tiny_value (x : option Z) : option Qc := option_map (fun z => z2q z * sixteenth)%Qc x.

Lemma sixteenth_inj a b : (z2q a * sixteenth = z2q b * sixteenth)%Qc -> a = b.
Proof.
  intros H. apply z2q_inj. apply (f_equal (fun q => q * z2q 16)%Qc) in H.
  rewrite <- !Qcmult_assoc in H. replace (sixteenth * z2q 16)%Qc with 1%Qc in H by (apply Qc_is_canon; reflexivity).
  rewrite !Qcmult_1_r in H. exact H.
Qed.

Lemma tiny_error z w : cut (Z.quot z 16) = Some w -> (8 * Z.abs (16 * w - z) <= Z.abs z + 128)%Z.
Proof.
  intros H. apply cut_error in H.
  pose proof (Z.quot_rem z 16 ltac:(lia)) as Hz. pose proof (Z.rem_bound_abs z 16 ltac:(lia)) as Hr.
  set (t := Z.quot z 16) in *. set (r := Z.rem z 16) in *.
  assert (16 * Z.abs t <= Z.abs z)%Z.
  { destruct (Z.le_ge_cases 0 z) as [P|P].
    - assert (0 <= t)%Z by (apply Z.quot_pos; lia). assert (0 <= r)%Z by (apply Z.rem_nonneg; lia). lia.
    - assert (r <= 0)%Z by (apply Z.rem_nonpos; lia).
      assert (t <= 0)%Z.
      { unfold t. rewrite <- (Z.opp_involutive z) at 1. rewrite Z.quot_opp_l by lia.
        assert (0 <= Z.quot (- z) 16)%Z by (apply Z.quot_pos; lia). lia. }
      lia. }
  lia.
Qed.

Lemma tiny_close a b w : cut (Z.quot (a * b) 16) = Some w ->
  (Qcabs (z2q w * sixteenth - z2q a * sixteenth * (z2q b * sixteenth))
   <= eighth * Qcabs (z2q a * sixteenth * (z2q b * sixteenth)) + sixteenth)%Qc.
Proof.
  intros H. apply tiny_error in H. set (u := Q2Qc (1 # 2048)).
  assert (Eu : Qcabs u = u) by (apply Qc_is_canon; reflexivity).
  replace (z2q w * sixteenth - z2q a * sixteenth * (z2q b * sixteenth))%Qc
    with (z2q (8 * (16 * w - a * b)) * u)%Qc.
  - replace (z2q a * sixteenth * (z2q b * sixteenth))%Qc with (z2q (a * b) * (z2q 8 * u))%Qc.
    + rewrite !Qcabs_Qcmult, Eu, !z2q_abs.
      replace (eighth * (z2q (Z.abs (a * b)) * (z2q (Z.abs 8) * u)) + sixteenth)%Qc
        with (z2q (Z.abs (a * b) + 128) * u)%Qc.
      * apply Qcmult_le_compat_r; [apply z2q_le; lia|discriminate].
      * rewrite z2q_add. replace sixteenth with (z2q 128 * u)%Qc by (apply Qc_is_canon; reflexivity).
        rewrite Qcmult_plus_distr_l. f_equal. change (Z.abs 8) with 8%Z.
        replace (eighth * (z2q (Z.abs (a * b)) * (z2q 8 * u)))%Qc with (z2q (Z.abs (a * b)) * u * (eighth * z2q 8))%Qc by ring.
        replace (eighth * z2q 8)%Qc with 1%Qc by (apply Qc_is_canon; reflexivity). ring.
    + rewrite z2q_mul. replace (z2q 8 * u)%Qc with (sixteenth * sixteenth)%Qc by (apply Qc_is_canon; reflexivity). ring.
  - replace (8 * (16 * w - a * b))%Z with (128 * w + - 8 * (a * b))%Z by lia.
    rewrite z2q_add, !z2q_mul.
    replace (z2q w * sixteenth)%Qc with (z2q w * (z2q 128 * u))%Qc
      by (f_equal; apply Qc_is_canon; reflexivity).
    replace (z2q a * sixteenth * (z2q b * sixteenth))%Qc with (z2q a * z2q b * (z2q 8 * u))%Qc.
    + replace (z2q (-8)) with (- z2q 8)%Qc by (apply Qc_is_canon; reflexivity). ring.
    + replace (z2q 8 * u)%Qc with (sixteenth * sixteenth)%Qc by (apply Qc_is_canon; reflexivity). ring.
Qed.

Lemma close_padded q e t : (0 <= e)%Qc -> (0 <= t)%Qc -> (Qcabs (q - q) <= e * Qcabs q + t)%Qc.
Proof.
  intros He Ht. rewrite <- (Qcplus_0_r (Qcabs (q - q))). apply Qcplus_le_compat; auto. apply close_exact; auto.
Qed.

Lemma tiny_rounding : @rounding _ tiny_scalar tiny_value eighth sixteenth.
Proof.
  assert (He : (0 <= eighth)%Qc) by (unfold Qcle, Qle; simpl; lia).
  assert (Ht : (0 <= sixteenth)%Qc) by (unfold Qcle, Qle; simpl; lia).
  assert (E0 : (z2q 0 * sixteenth = 0)%Qc) by (apply Qc_is_canon; reflexivity).
  assert (E1 : (z2q 16 * sixteenth = 1)%Qc) by (apply Qc_is_canon; reflexivity).
  constructor.
  - exact He.
  - exact Ht.
  - simpl. congruence.
  - simpl. congruence.
  - intros [a|] [b|]; simpl; try discriminate. rewrite <- !E1. intros Ha Hb.
    assert (z2q a * sixteenth = z2q 16 * sixteenth)%Qc as ->%sixteenth_inj by congruence.
    assert (z2q b * sixteenth = z2q 16 * sixteenth)%Qc as ->%sixteenth_inj by congruence.
    right. simpl. f_equal; try (apply Qc_is_canon; reflexivity).
  - intros [a|] [b|] [H|H]; simpl in *; try discriminate; auto.
  - intros [a|] [b|] p q; simpl; try discriminate. intros [= <-] [= <-].
    destruct (a =? 0)%Z eqn:Ea; [|destruct (b =? 0)%Z eqn:Eb].
    + apply Z.eqb_eq in Ea as ->. right. exists (z2q b * sixteenth)%Qc. split; auto. rewrite E0, Qcplus_0_l.
      split; [apply close_padded; auto|]. split; intros H; congruence.
    + apply Z.eqb_eq in Eb as ->. right. exists (z2q a * sixteenth)%Qc. split; auto. rewrite E0, Qcplus_0_r.
      split; [apply close_padded; auto|]. split; intros H; congruence.
    + apply Z.eqb_neq in Ea, Eb. destruct (cut (a + b)) as [w|] eqn:E; [right|left; auto].
      exists (z2q w * sixteenth)%Qc. split; auto. split.
      * rewrite <- Qcmult_plus_distr_l, <- z2q_add.
        replace (z2q w * sixteenth - z2q (a + b) * sixteenth)%Qc with ((z2q w - z2q (a + b)) * sixteenth)%Qc by ring.
        rewrite !Qcabs_Qcmult. replace (Qcabs sixteenth) with sixteenth by (apply Qc_is_canon; reflexivity).
        rewrite <- (Qcplus_0_r (Qcabs _ * sixteenth)). apply Qcplus_le_compat; auto.
        rewrite Qcmult_assoc. apply Qcmult_le_compat_r; auto. apply cut_close; auto.
      * split; intros H; exfalso; rewrite <- E0 in H; apply sixteenth_inj in H; auto.
  - intros [a|] [b|] p q; simpl; try discriminate. intros [= <-] [= <-].
    destruct (a =? 16)%Z eqn:Ea; [|destruct (b =? 16)%Z eqn:Eb].
    + apply Z.eqb_eq in Ea as ->. right. exists (z2q b * sixteenth)%Qc. split; auto. rewrite E1, Qcmult_1_l.
      split; [apply close_padded; auto|]. split; [auto|]. split; intros H; congruence.
    + apply Z.eqb_eq in Eb as ->. right. exists (z2q a * sixteenth)%Qc. split; auto. rewrite E1, Qcmult_1_r.
      split; [apply close_padded; auto|]. split; [auto|]. split; intros H; congruence.
    + apply Z.eqb_neq in Ea, Eb. destruct (cut (Z.quot (a * b) 16)) as [w|] eqn:E; [right|left; auto].
      exists (z2q w * sixteenth)%Qc. split; auto. split; [apply tiny_close; auto|].
      split; [|split; intros H; exfalso; rewrite <- E1 in H; apply sixteenth_inj in H; auto].
      intros H. assert (Hab : (a * b = 0)%Z).
      { apply Qcmult_integral in H as [H|H]; rewrite <- E0 in H; apply sixteenth_inj in H; subst; lia. }
      rewrite Hab in E. injection E as <-. exact E0.
Qed.

(** Three sixteenths times five sixteenths, 15/256, is lost: the first element is exactly 15/256 + 9/8 +
    1/16, and comes out as 19/16 cut to 18/16. *)
Example underflow_case :
  call_ok (chars "ij,j->i") (map (@a_shape (option Z)) [carr [2; 3] [3; 9; 1; 4; 0; 0]%Z; carr [3] [5; 32; 16]%Z])
    [chars "ij"; chars "j"] (chars "i") (size_fn (combine (chars "ij") [2; 3]))
  /\ Forall wf [carr [2; 3] [3; 9; 1; 4; 0; 0]%Z; carr [3] [5; 32; 16]%Z]
  /\ @fused_rounds _ tiny_scalar tiny_value eighth sixteenth (@plain_backend _ tiny_scalar)
  /\ (do r <- @einsum _ tiny_scalar id_hash (@plain_backend _ tiny_scalar) (chars "ij,j->i")
                [carr [2; 3] [3; 9; 1; 4; 0; 0]%Z; carr [3] [5; 32; 16]%Z]; a_iter r)
     = Ok [Some 18%Z; Some 1%Z].
Proof.
  split; [apply check_call_ok; check_call_tac|]. split; [apply wfs_b_ok; reflexivity|].
  split; [left; intros; reflexivity|vm_compute; reflexivity].
Qed.
