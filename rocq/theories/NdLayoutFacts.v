(** What follows from ndarray's own choices: copies keep the strides they are said to keep, and the
    products of a tensordot are added in one order. *)
From Verif Require Import Base BaseFacts NDArray Validation Singleton Pair Path Api Spec SumFacts ArrayFacts TensordotFacts
  TensordotMain ParamFacts Schedule NdSchedule NdScheduleFacts.
From Coq Require Import Lia Permutation.

(** Strides that reach every place of a buffer of the right size are taken. *)
Lemma with_strides_taken {A} {Sc : Scalar A} st (a : arr A) : wf a -> length st = length (a_shape a) ->
  (forall q, (0 <= q < Z.of_nat (prod (a_shape a)))%Z ->
     exists idx, in_bounds (a_shape a) idx = true /\ dot_off idx st = q) ->
  a_strides (with_strides st (frame a)) = st /\ a_off (with_strides st (frame a)) = 0%Z.
Proof.
  intros [_ Wa] Hl Hq. unfold with_strides. cbn [frame amap a_shape a_off a_strides a_data].
  rewrite (map_length _ (a_data a)). set (new := map (fun idx => dot_off idx st) (indices (a_shape a))).
  set (all := map Z.of_nat (seq 0 (prod (a_shape a)))).
  assert (Na : NoDup all).
  { unfold all. apply FinFun.Injective_map_NoDup; [intros x y; lia|apply seq_NoDup]. }
  assert (Ll : length new = length all).
  { unfold new, all. rewrite !map_length, seq_length, <- map_unflat, map_length, seq_length. auto. }
  assert (I : incl all new).
  { intros q Hin. apply in_map_iff in Hin as (k & <- & Hk). apply in_seq in Hk.
    destruct (Hq (Z.of_nat k)) as (idx & B & E); [lia|]. apply in_map_iff. exists idx. split; auto. apply indices_In; auto. }
  assert (I' : incl new all) by (apply NoDup_length_incl; auto; lia).
  assert (Nn : NoDup new) by (apply (NoDup_incl_NoDup (l := all)); auto; lia).
  rewrite (proj2 (Nat.eqb_eq _ _) Hl), (nodup_fixed_point Z.eq_dec Nn), Nat.eqb_refl.
  rewrite (proj2 (forallb_forall _ new)).
  2:{ intros z Hz. apply I', in_map_iff in Hz as (k & <- & Hk). apply in_seq in Hk.
      apply andb_true_intro. split; [apply Z.leb_le|apply Z.ltb_lt]; lia. }
  rewrite (proj2 (forallb_forall _ _)); [cbn; auto|].
  intros z Hz. apply in_map_iff in Hz as (idx & <- & Hi). apply indices_In in Hi. specialize (Wa idx Hi).
  apply andb_true_intro. split; [apply Z.leb_le|apply Z.ltb_lt]; lia.
Qed.

(** Column-major strides do so. *)
Lemma f_strides_length sh : forall acc, length (f_strides acc sh) = length sh.
Proof. induction sh; simpl; auto. Qed.

Lemma f_strides_reach sh : forall acc q, q < prod sh ->
  exists idx, in_bounds sh idx = true /\ dot_off idx (f_strides acc sh) = Z.of_nat (acc * q).
Proof.
  induction sh as [|d sh IH]; intros acc q Hq.
  - exists []. change (prod []) with 1 in Hq. split; auto. simpl. lia.
  - change (prod (d :: sh)) with (d * prod sh) in Hq. assert (Hd : d <> 0) by nia.
    destruct (IH (acc * d) (q / d)) as (idx & B & E).
    { apply Nat.div_lt_upper_bound; lia. }
    exists (q mod d :: idx). pose proof (Nat.mod_upper_bound q d Hd). split.
    + cbn [in_bounds]. rewrite B, (proj2 (Nat.ltb_lt _ _)) by auto. auto.
    + cbn [f_strides dot_off]. rewrite E. pose proof (Nat.div_mod q d Hd). nia.
Qed.

Lemma fortran_taken {A} {Sc : Scalar A} (a : arr A) : wf a -> ~ In 0 (a_shape a) ->
  a_strides (with_strides (fortran_strides (a_shape a)) (frame a)) = f_strides 1 (a_shape a).
Proof.
  intros Wa Hz. unfold fortran_strides.
  assert (E : is_empty_shape (a_shape a) = false).
  { unfold is_empty_shape. destruct (existsb _ _) eqn:E; auto. apply existsb_exists in E as (x & Hx & Ex).
    apply Nat.eqb_eq in Ex. subst x. contradiction. }
  rewrite E. apply with_strides_taken; auto; [apply f_strides_length|].
  intros q Hq. destruct (f_strides_reach (a_shape a) 1 (Z.to_nat q)) as (idx & B & Ei); [lia|].
  exists idx. split; auto. rewrite Ei. lia.
Qed.

Lemma f_strides_rev sh : forall acc, layout_c_rev (Z.of_nat acc) sh (f_strides acc sh) = true.
Proof.
  induction sh as [|d sh IH]; intros acc; auto. cbn [f_strides layout_c_rev].
  destruct (Nat.eqb_spec d 1) as [->|Hd].
  - rewrite Nat.mul_1_r. apply IH.
  - rewrite Z.eqb_refl, <- Nat2Z.inj_mul. apply IH.
Qed.

Lemma f_strides_last sh d : forall acc, f_strides acc (sh ++ [d]) = f_strides acc sh ++ [Z.of_nat (acc * prod sh)].
Proof.
  induction sh as [|e sh IH]; intros acc.
  - simpl. rewrite Nat.mul_1_r. auto.
  - cbn [app f_strides]. rewrite IH. change (prod (e :: sh)) with (e * prod sh). rewrite Nat.mul_assoc. auto.
Qed.

(** How column-major arrays are classified. *)
Lemma fortran_flags (t : arr unit) : a_strides t = f_strides 1 (a_shape t) -> 2 <= length (a_shape t) ->
  ~ In 0 (a_shape t) -> ~ In 1 (a_shape t) -> layout_flags t = (false, true, (-1)%Z).
Proof.
  intros Hs Hn H0 H1. unfold layout_flags.
  assert (E : is_empty_shape (a_shape t) = false).
  { unfold is_empty_shape. destruct (existsb _ _) eqn:E; auto. apply existsb_exists in E as (x & Hx & Ex).
    apply Nat.eqb_eq in Ex. subst x. contradiction. }
  assert (E' : is_empty_shape (rev (a_shape t)) = false).
  { unfold is_empty_shape. destruct (existsb _ _) eqn:Ee; auto. apply existsb_exists in Ee as (x & Hx & Ex).
    apply Nat.eqb_eq in Ex. subst x. apply in_rev in Hx. contradiction. }
  assert (Hst : is_standard_layout t = false).
  { unfold is_standard_layout. rewrite E, Hs. destruct (a_shape t) as [|x sh] using rev_ind; [simpl in Hn; lia|].
    rewrite f_strides_last, !rev_app_distr. cbn [rev app layout_c_rev orb].
    assert (x <> 1) by (intros ->; apply H1, in_or_app; right; left; auto).
    rewrite (proj2 (Nat.eqb_neq x 1)) by auto. rewrite app_length in Hn. simpl in Hn.
    destruct sh as [|e sh]; [simpl in Hn; lia|].
    assert (He : 2 <= e).
    { destruct e as [|[|e]]; [exfalso; apply H0; left; auto|exfalso; apply H1; left; auto|lia]. }
    assert (Hp : prod sh <> 0).
    { apply is_empty_false, is_empty_In. intros y Hy ->. apply H0, in_or_app. left. right. auto. }
    destruct (Z.eqb_spec (Z.of_nat (1 * prod (e :: sh))) 1) as [Eq|]; auto.
    exfalso. change (prod (e :: sh)) with (e * prod sh) in Eq. nia. }
  rewrite Hst, (proj2 (Nat.ltb_lt 1 (length (a_shape t)))) by lia.
  unfold is_standard_layout. cbn [a_shape a_strides]. rewrite !rev_involutive, E', Hs.
  change 1%Z with (Z.of_nat 1). rewrite f_strides_rev. auto.
Qed.

(** ** Tensordot with a sum that depends on nothing but the products *)
Section Exact.
Context {A : Type} {Sc : Scalar A}.
Variable lay : backend A.
Hypothesis Hruns : backend_runs lay.
Variable F : list (A * A) -> A.
Hypothesis HF : forall a b idx l, add_products lay a b idx l = F l.

Lemma run_tfp_exact (lhs rhs : arr A) su sl sr sv f g :
  holds lhs (su ++ sl) f -> holds rhs (sr ++ sv) g -> prod sl = prod sr ->
  exists r w, run_tfp lay (mkTFP (prod su) (prod sv) (prod sl) (su ++ sv)) lhs rhs = Ok r
    /\ holds r (su ++ sv) w
    /\ forall idx, in_bounds (su ++ sv) idx = true ->
         w idx = F (map (fun t => (f (firstn (length su) idx ++ unflat sl t), g (unflat sr t ++ skipn (length su) idx)))
              (seq 0 (prod sl))).
Proof.
  intros Hl Hr Hp. unfold run_tfp.
  cbn [len_uncontracted_lhs len_uncontracted_rhs len_contracted_axes tfp_output_shape].
  destruct (as_matrix_holds lhs su sl f Hl) as (lv & -> & Hlv & Sl). cbn [rbind].
  destruct (as_matrix_holds rhs sr sv g Hr) as (rv & Em & Hrv & Sr).
  rewrite <- Hp in Em, Hrv, Sr. rewrite Em. cbn [rbind].
  destruct (dot_raw lay lv rv _ _ _ _ _ Hlv Sl Hrv Sr) as (d & -> & Hd & Sd). cbn [rbind].
  destruct (into_shape_standard d _ (su ++ sv) _ Hd Sd) as (r & -> & H & Hst & _).
  { rewrite prod_pair, prod_app. auto. }
  eexists r, _. split; auto. split; [exact H|].
  intros idx Hi. apply in_bounds_app_inv in Hi as (x & y & -> & Bx & By).
  pose proof (flat_lt _ _ Bx) as Lx. pose proof (flat_lt _ _ By) as Ly.
  unfold refold. rewrite flat_app by (apply in_bounds_length; auto).
  assert (E : unflat [prod su; prod sv] (flat su x * prod sv + flat sv y) = [flat su x; flat sv y]).
  { apply (flat_inj [prod su; prod sv]).
    - apply unflat_in_bounds. rewrite prod_pair. nia.
    - simpl. rewrite (proj2 (Nat.ltb_lt _ _) Lx), (proj2 (Nat.ltb_lt _ _) Ly). auto.
    - rewrite flat_unflat by (rewrite prod_pair; nia). simpl. lia. }
  rewrite E. cbn [dot_value].
  rewrite <- (in_bounds_length _ _ Bx), firstn_exact, skipn_exact, HF. f_equal.
  unfold dot_terms. apply map_ext. intros t. cbn [matrix_of].
  rewrite (unflat_flat _ _ Bx), (unflat_flat _ _ By). auto.
Qed.

Lemma tensordot_exact (a b : arr A) la ra : wf a -> wf b ->
  length la = length ra -> axes_ok (length (a_shape a)) la -> axes_ok (length (a_shape b)) ra ->
  prod (axis_lengths (a_shape a) la) = prod (axis_lengths (a_shape b) ra) ->
  exists r w, tensordot lay a b la ra = Ok r
    /\ holds r (axis_lengths (a_shape a) (free_axes (length (a_shape a)) la)
                ++ axis_lengths (a_shape b) (free_axes (length (a_shape b)) ra)) w
    /\ forall o, in_bounds (axis_lengths (a_shape a) (free_axes (length (a_shape a)) la)
                ++ axis_lengths (a_shape b) (free_axes (length (a_shape b)) ra)) o = true ->
         w o = F (paired_terms a b la ra o).
Proof.
  intros Wa Wb Hl Ha Hb Hp. rewrite tensordot_compiles by auto. rewrite (proj2 (Nat.eqb_eq _ _) (eq_sym Hp)).
  unfold run_tg, td_for, permutation_view, permutation_contract.
  cbn [tg_lhs_permutation tg_rhs_permutation tg_fixed tg_output_permutation].
  set (fa := free_axes (length (a_shape a)) la). set (fb := free_axes (length (a_shape b)) ra).
  pose proof (free_axes_perm _ _ Ha) as Pa. pose proof (free_axes_perm _ _ Hb) as Pb.
  fold fa in Pa. fold fb in Pb.
  assert (Pb' : Permutation (ra ++ fb) (seq 0 (length (a_shape b)))).
  { eapply Permutation_trans; [apply Permutation_app_comm|auto]. }
  destruct (permuted_place a _ _ _ (wf_holds a Wa) Pa) as (l & -> & HL).
  destruct (permuted_place b _ _ _ (wf_holds b Wb) Pb') as (r & -> & HR). cbn [rbind].
  unfold axis_lengths in HL, HR. rewrite map_app in HL, HR.
  destruct (run_tfp_exact l r _ _ _ _ _ _ HL HR Hp) as (d & w & E & Hd & Hw).
  unfold axis_lengths. rewrite E. cbn [rbind].
  set (sh := map (fun k => nth k (a_shape a) 0) fa ++ map (fun k => nth k (a_shape b) 0) fb) in *.
  assert (Lsh : length sh = length fa + length fb) by (unfold sh; rewrite app_length, !map_length; auto).
  rewrite <- Lsh.
  destruct (permuted_holds d sh _ (seq 0 (length sh)) Hd (Permutation_refl _)) as (v & -> & Hv).
  cbn [rbind]. rewrite map_nth_seq in Hv.
  destruct (to_owned_holds lay Hruns v sh w) as (r' & E' & Hr'); [apply Hv; auto|].
  exists r', w. split; auto. split; auto. intros o Ho. specialize (Hw o Ho).
  rewrite map_length in Hw. unfold paired_terms. fold fa fb. unfold axis_lengths. exact Hw.
Qed.

End Exact.

(** ** The orders of addition, written out *)
Section Orders.
Context {A : Type} {Sc : Scalar A}.

Lemma add_each_nth (ps : list A) : forall xs i, length xs = length ps -> i < length ps ->
  nth i (add_each ps xs) szero = sadd (nth i ps szero) (nth i xs szero).
Proof.
  induction ps as [|p ps IH]; intros [|x xs] i Hl Hi; simpl in *; try lia.
  destruct i; auto. apply IH; lia.
Qed.

Lemma eights_nth n : forall (ps xs : list A) i, length ps = 8 -> 8 * n <= length xs -> i < 8 ->
  length (fst (eights n ps xs)) = 8
  /\ nth i (fst (eights n ps xs)) szero
     = fold_left sadd (map (fun k => nth (8 * k + i) xs szero) (seq 0 n)) (nth i ps szero)
  /\ snd (eights n ps xs) = skipn (8 * n) xs.
Proof.
  induction n as [|n IH]; intros ps xs i Hp Hx Hi; [split; auto|].
  cbn [eights].
  assert (Lf : length (firstn 8 xs) = 8) by (rewrite firstn_length; lia).
  destruct (IH (add_each ps (firstn 8 xs)) (skipn 8 xs) i) as (H1 & H2 & H3).
  { rewrite add_each_length. auto. }
  { rewrite skipn_length. lia. }
  { auto. }
  split; auto. rewrite H2, H3. split.
  - cbn [seq map fold_left]. rewrite add_each_nth by lia. rewrite Nat.mul_0_r, Nat.add_0_l.
    assert (E : nth i (firstn 8 xs) szero = nth i xs szero).
    { rewrite <- (firstn_skipn 8 xs) at 2. rewrite app_nth1 by lia. auto. }
    rewrite E. rewrite <- seq_shift, map_map. f_equal. apply map_ext. intros k.
    rewrite <- (firstn_skipn 8 xs) at 2. rewrite app_nth2 by lia. f_equal. lia.
  - replace (8 * S n) with (8 + 8 * n) by lia. rewrite <- (firstn_skipn 8 xs) at 2.
    rewrite skipn_app, Lf. rewrite (skipn_all2 (firstn 8 xs)) by lia. cbn [app]. f_equal. lia.
Qed.

(** The [i]-th of the eight sums. *)
Definition eighth (xs : list A) (i : nat) : A :=
  fold_left sadd (map (fun k => nth (8 * k + i) xs szero) (seq 0 (length xs / 8))) szero.

Lemma unrolled_is (xs : list A) :
  unrolled_fold xs
  = fold_left sadd (skipn (8 * (length xs / 8)) xs)
      (sadd (sadd (sadd (sadd szero (sadd (eighth xs 0) (eighth xs 4))) (sadd (eighth xs 1) (eighth xs 5)))
         (sadd (eighth xs 2) (eighth xs 6))) (sadd (eighth xs 3) (eighth xs 7))).
Proof.
  unfold unrolled_fold.
  pose proof (eights_nth (length xs / 8) (repeat szero 8) xs) as H.
  assert (G : forall i, i < 8 -> nth i (fst (eights (length xs / 8) (repeat szero 8) xs)) szero = eighth xs i).
  { intros i Hi. destruct (H i) as (_ & H2 & _); auto.
    - apply Nat.mul_div_le. lia.
    - rewrite H2. unfold eighth. f_equal. do 8 (destruct i as [|i]; [reflexivity|]). lia. }
  destruct (H 0) as (H1 & _ & H3); auto; [apply Nat.mul_div_le; lia|lia|].
  destruct (eights (length xs / 8) (repeat szero 8) xs) as [ps rest]. cbn [fst snd] in *. subst rest.
  do 8 (destruct ps as [|? ps]; [simpl in H1; lia|]). destruct ps; [|simpl in H1; lia].
  pose proof (G 0). pose proof (G 1). pose proof (G 2). pose proof (G 3).
  pose proof (G 4). pose proof (G 5). pose proof (G 6). pose proof (G 7).
  cbn [nth] in *. repeat match goal with K : _ -> _ = eighth _ _ |- _ => rewrite <- K by lia; clear K end. auto.
Qed.

Lemma min_stride_from_ok strides n : forall best, n <= best < length strides ->
  (forall k, best < k < length strides -> (Z.abs (nth best strides 0) < Z.abs (nth k strides 0))%Z) ->
  (forall k, n <= k < best -> (Z.abs (nth best strides 0) <= Z.abs (nth k strides 0))%Z) ->
  let r := min_stride_from n best strides in
  r < length strides
  /\ (forall k, k < length strides -> (Z.abs (nth r strides 0) <= Z.abs (nth k strides 0))%Z)
  /\ (forall k, r < k < length strides -> (Z.abs (nth r strides 0) < Z.abs (nth k strides 0))%Z).
Proof.
  induction n as [|n IH]; intros best Hb H1 H2; cbn [min_stride_from].
  - split; [lia|]. split; [|auto]. intros k Hk.
    destruct (Nat.lt_trichotomy k best) as [L|[->|L]]; [apply H2; lia|lia|specialize (H1 k); lia].
  - destruct (Z.ltb_spec (Z.abs (nth n strides 0%Z)) (Z.abs (nth best strides 0%Z))) as [L|L].
    + apply IH; [lia| |lia]. intros k Hk.
      destruct (Nat.lt_trichotomy k best) as [M|[->|M]]; [specialize (H2 k); lia|lia|specialize (H1 k); lia].
    + apply IH; [lia|auto|]. intros k Hk. destruct (Nat.eq_dec k n) as [->|]; [lia|apply H2; lia].
Qed.

Lemma min_stride_axis_ok strides : strides <> [] ->
  min_stride_axis strides < length strides
  /\ (forall k, k < length strides -> (Z.abs (nth (min_stride_axis strides) strides 0) <= Z.abs (nth k strides 0))%Z)
  /\ (forall k, min_stride_axis strides < k < length strides ->
        (Z.abs (nth (min_stride_axis strides) strides 0) < Z.abs (nth k strides 0))%Z).
Proof.
  intros H. assert (length strides <> 0) by (destruct strides; simpl; congruence).
  unfold min_stride_axis. apply min_stride_from_ok; [lia|intros k Hk; lia|].
  intros k Hk. lia.
Qed.

Variable fma : A -> A -> A -> A.

Lemma later_blocks_is use_fma kc : forall rest n c,
  length (concat rest) <= n -> Forall (fun b => length b = S kc) (removelast rest) ->
  Forall (fun b => b <> [] /\ length b <= S kc) rest ->
  later_blocks fma n (S kc) use_fma c (concat rest)
  = fold_left (fun c b => if use_fma then fma sone (kernel fma use_fma b) c else sadd c (smul sone (kernel fma use_fma b))) rest c.
Proof.
  induction rest as [|b rest IH]; intros n c Hn Hf Hb; [destruct n; auto|].
  cbn [concat] in *. rewrite app_length in Hn. apply Forall_inv in Hb as Hb1. apply Forall_inv_tail in Hb as Hb2.
  destruct Hb1 as [Hne Hle]. destruct b as [|x b]; [congruence|]. destruct n as [|n]; [simpl in Hn; lia|].
  cbn [later_blocks app]. change (x :: b ++ concat rest) with ((x :: b) ++ concat rest).
  assert (E : firstn (S kc) ((x :: b) ++ concat rest) = x :: b /\ skipn (S kc) ((x :: b) ++ concat rest) = concat rest).
  { destruct rest as [|b' rest].
    - cbn [concat]. rewrite app_nil_r. rewrite firstn_all2, skipn_all2 by auto. auto.
    - assert (El : length (x :: b) = S kc) by (apply (Forall_inv Hf)).
      rewrite <- El. rewrite firstn_app, skipn_app, Nat.sub_diag, firstn_all, skipn_all.
      rewrite firstn_O, app_nil_r. auto. }
  destruct E as [-> ->]. cbn [fold_left]. apply IH; auto.
  - simpl in Hn. lia.
  - destruct rest; [constructor|]. apply (Forall_inv_tail Hf).
Qed.

Lemma gemm_is use_fma kc first rest :
  Forall (fun b => length b = S kc) (removelast (first :: rest)) ->
  Forall (fun b => b <> [] /\ length b <= S kc) (first :: rest) ->
  gemm_product fma kc use_fma (concat (first :: rest))
  = fold_left (fun c b => if use_fma then fma sone (kernel fma use_fma b) c else sadd c (smul sone (kernel fma use_fma b))) rest
      (smul sone (kernel fma use_fma first)).
Proof.
  intros Hf Hb. apply Forall_inv in Hb as Hb1. apply Forall_inv_tail in Hb as Hb2. destruct Hb1 as [Hne Hle].
  unfold gemm_product. cbn [concat]. destruct first as [|x b]; [congruence|]. cbn [app].
  change (x :: b ++ concat rest) with ((x :: b) ++ concat rest).
  assert (E : firstn (S kc) ((x :: b) ++ concat rest) = x :: b /\ skipn (S kc) ((x :: b) ++ concat rest) = concat rest).
  { destruct rest as [|b' rest].
    - cbn [concat]. rewrite app_nil_r. rewrite firstn_all2, skipn_all2 by auto. auto.
    - assert (El : length (x :: b) = S kc) by (apply (Forall_inv Hf)).
      rewrite <- El. rewrite firstn_app, skipn_app, Nat.sub_diag, firstn_all, skipn_all.
      rewrite firstn_O, app_nil_r. auto. }
  destruct E as [-> ->]. apply later_blocks_is; auto.
  - rewrite app_length. simpl. lia.
  - destruct rest; [constructor|]. apply (Forall_inv_tail Hf).
Qed.

End Orders.
