(** Diagonal views of operands of other shapes. *)
From Verif Require Import Base BaseFacts NDArray Validation Singleton Spec ArrayFacts SingletonFacts EinsumProps DiagFacts MismatchFacts.
From Coq Require Import Lia.
Local Open Scope Z_scope.

(** What the axes [ms] with the strides [sts] add to axis [j]. *)
Fixpoint sum_into (ms : list nat) (sts : list Z) (j : nat) : Z :=
  match ms, sts with
  | m :: ms', s :: sts' => (if Nat.eqb m j then s else 0) + sum_into ms' sts' j
  | _, _ => 0
  end.

Lemma sum_into_nonneg ms : forall sts j, Forall (fun s => 0 < s) sts -> 0 <= sum_into ms sts j.
Proof.
  induction ms as [|m ms IH]; intros [|s sts] j H; simpl; try lia.
  inversion H; subst. specialize (IH sts j H3). destruct (Nat.eqb m j); lia.
Qed.

Lemma set_nth_seq p (x : Z) (g : nat -> Z) n : (p < n)%nat -> forall k,
  set_nth p x (map g (seq k n)) = map (fun j => if Nat.eqb (k + p) j then x else g j) (seq k n).
Proof.
  revert p. induction n as [|n IH]; intros p Hp k; [lia|]. destruct p as [|p]; cbn [seq map set_nth].
  - rewrite Nat.add_0_r, Nat.eqb_refl. f_equal. apply map_ext_in. intros j Hj. apply in_seq in Hj.
    destruct (Nat.eqb_spec k j); [lia|auto].
  - destruct (Nat.eqb_spec (k + S p) k); [lia|]. f_equal. rewrite IH by lia. apply map_ext. intros j.
    rewrite Nat.add_succ_r. auto.
Qed.

(** Adding up the strides. *)
Lemma add_strides_any mapping n : Forall (fun p => (p < n)%nat) mapping ->
  forall sts k g, Forall (fun s => 0 < s) sts ->
  ((k + length sts <= length mapping)%nat ->
   foldM (add_stride mapping) (combine (seq k (length sts)) sts) (map g (seq 0 n))
   = Ok (map (fun j => g j + sum_into (skipn k mapping) sts j) (seq 0 n)))
  /\ ((length mapping < k + length sts)%nat ->
      (k <= length mapping)%nat ->
      foldM (add_stride mapping) (combine (seq k (length sts)) sts) (map g (seq 0 n)) = Panic).
Proof.
  intros Hm. induction sts as [|s sts IH]; intros k g Hs.
  - split; intros H; [|simpl in H; lia]. simpl. f_equal. apply map_ext. intros j.
    destruct (skipn k mapping); simpl; lia.
  - inversion Hs as [|? ? H1 H2]; subst. cbn [length seq combine foldM].
    assert (Es : add_stride mapping (map g (seq 0 n)) (k, s) = (do pos <- index mapping k; do old <- index (map g (seq 0 n)) pos;
      Ok (set_nth pos (old + s) (map g (seq 0 n))))).
    { unfold add_stride. rewrite (proj2 (Z.ltb_lt 0 s) H1). auto. }
    rewrite Es. clear Es.
    destruct (le_lt_dec (length mapping) k) as [Hk|Hk].
    + split; intros H; [simpl in H; lia|]. intros _. rewrite index_out by auto. auto.
    + destruct (nth_error mapping k) as [p|] eqn:Ep; [|apply nth_error_None in Ep; lia].
      assert (Hp : (p < n)%nat) by (rewrite Forall_forall in Hm; apply Hm; eapply nth_error_In; eauto).
      assert (Ei : index mapping k = Ok p) by (unfold index; rewrite Ep; auto).
      assert (Eo : index (map g (seq 0 n)) p = Ok (g p)).
      { unfold index. rewrite nth_error_map, (nth_error_nth' _ 0%nat) by (rewrite seq_length; auto).
        rewrite seq_nth by auto. auto. }
      rewrite Ei. cbn [rbind]. rewrite Eo. cbn [rbind]. rewrite set_nth_seq by auto. cbn [Nat.add].
      destruct (IH (S k) (fun j => if Nat.eqb p j then g p + s else g j) H2) as [I1 I2].
      split; intros H.
      * rewrite I1 by lia. f_equal. apply map_ext. intros j.
        assert (Esk : skipn k mapping = p :: skipn (S k) mapping).
        { clear - Ep. revert mapping Ep. induction k as [|k IH]; intros [|x l] E; simpl in *; try discriminate; [congruence|auto]. }
        rewrite Esk. cbn [sum_into]. destruct (Nat.eqb_spec p j); [subst|]; lia.
      * intros _. apply I2; lia.
Qed.

(** The offset of a position does not depend on how the strides are grouped. *)
Lemma dot_off_zero o L : dot_off o (map (fun _ : nat => 0) L) = 0.
Proof. revert o. induction L as [|x L IH]; intros [|i o]; simpl; auto. rewrite IH. lia. Qed.

Lemma dot_off_add f g : forall L o, dot_off o (map (fun j : nat => f j + g j) L) = dot_off o (map f L) + dot_off o (map g L).
Proof. induction L as [|x L IH]; intros [|i o]; simpl; auto. rewrite IH. lia. Qed.

Lemma dot_off_single p s : forall o k, (k <= p < k + length o)%nat ->
  dot_off o (map (fun j => if Nat.eqb p j then s else 0) (seq k (length o))) = Z.of_nat (nth (p - k) o 0%nat) * s.
Proof.
  induction o as [|i o IH]; intros k Hp; simpl in Hp; [lia|]. cbn [length seq map dot_off].
  destruct (Nat.eqb_spec p k) as [->|Hn].
  - rewrite Nat.sub_diag. cbn [nth].
    assert (E : map (fun j => if Nat.eqb k j then s else 0) (seq (S k) (length o)) = map (fun _ => 0) (seq (S k) (length o))).
    { apply map_ext_in. intros j Hj. apply in_seq in Hj. destruct (Nat.eqb_spec k j); [lia|auto]. }
    rewrite E, dot_off_zero. lia.
  - rewrite IH by lia. replace (p - k)%nat with (S (p - S k)) by lia. cbn [nth]. lia.
Qed.

Lemma dot_off_grouped ms : forall sts o, Forall (fun p => (p < length o)%nat) ms ->
  dot_off o (map (sum_into ms sts) (seq 0 (length o))) = dot_off (map (fun j => nth j o 0%nat) ms) sts.
Proof.
  induction ms as [|m ms IH]; intros sts o H.
  - exact (dot_off_zero o _).
  - inversion H as [|? ? H1 H2]; subst. destruct sts as [|s sts].
    + exact (dot_off_zero o _).
    + cbn [map dot_off sum_into]. rewrite (dot_off_add (fun j => if Nat.eqb m j then s else 0)), IH by auto.
      rewrite dot_off_single by lia. rewrite Nat.sub_0_r. auto.
Qed.

Lemma max_abs_offset_pred dims : forall strides, Forall (fun s => 0 <= s) strides ->
  max_abs_offset dims strides = dot_off (map Nat.pred dims) strides.
Proof.
  induction dims as [|d dims IH]; intros [|s strides] H; simpl; auto.
  inversion H; subst. rewrite IH by auto. rewrite Z.abs_eq by auto. auto.
Qed.

(** The row-major number, in an array of shape [sh], of the element the diagonal shows at [o]. *)
Definition seen (sh mapping o : list nat) : nat := flat sh (map (fun j => nth j o 0%nat) (firstn (length sh) mapping)).

(** The strides of the diagonal view of a row-major array. *)
Definition unit_at (n j : nat) : list nat := map (fun i => if Nat.eqb i j then 1%nat else 0%nat) (seq 0 n).
Definition seen_strides (sh mapping : list nat) (n : nat) : list Z :=
  map (fun j => Z.of_nat (seen sh mapping (unit_at n j))) (seq 0 n).

Lemma sum_into_first sh : forall mapping j,
  sum_into mapping (c_strides sh) j = sum_into (firstn (length sh) mapping) (c_strides sh) j.
Proof.
  induction sh as [|d sh IH]; intros mapping j; simpl.
  - destruct mapping; auto.
  - destruct mapping as [|m mapping]; simpl; auto. f_equal. auto.
Qed.

Lemma sum_into_one ms : forall st i,
  sum_into ms st i = dot_off (map (fun m => if Nat.eqb m i then 1%nat else 0%nat) ms) st.
Proof.
  induction ms as [|m ms IH]; intros [|s st] i; simpl; auto. rewrite IH. destruct (Nat.eqb m i); lia.
Qed.

Lemma nth_unit_at n j p : (p < n)%nat -> nth p (unit_at n j) 0%nat = if Nat.eqb p j then 1%nat else 0%nat.
Proof.
  intros Hp. unfold unit_at. rewrite (nth_indep _ _ (if Nat.eqb 0 j then 1%nat else 0%nat)) by (rewrite map_length, seq_length; auto).
  rewrite (map_nth (fun i => if Nat.eqb i j then 1%nat else 0%nat)), seq_nth by auto. auto.
Qed.

Lemma seen_strides_ok sh mapping n : Forall (fun p => (p < n)%nat) mapping -> (length sh <= length mapping)%nat ->
  map (sum_into mapping (c_strides sh)) (seq 0 n) = seen_strides sh mapping n.
Proof.
  intros Hm Hl. unfold seen_strides. apply map_ext. intros j. rewrite sum_into_first, sum_into_one. unfold seen.
  rewrite dot_off_c by (rewrite map_length, firstn_length; lia). do 2 f_equal. apply map_ext_in. intros p Hp.
  rewrite nth_unit_at; auto. rewrite Forall_forall in Hm. apply Hm.
  rewrite <- (firstn_skipn (length sh) mapping). apply in_or_app. auto.
Qed.

Lemma seen_offset sh mapping o : Forall (fun p => (p < length o)%nat) mapping -> (length sh <= length mapping)%nat ->
  dot_off o (seen_strides sh mapping (length o)) = Z.of_nat (seen sh mapping o).
Proof.
  intros Hm Hl. rewrite <- seen_strides_ok by auto.
  rewrite (map_ext _ (sum_into (firstn (length sh) mapping) (c_strides sh))) by (intros; apply sum_into_first).
  rewrite dot_off_grouped.
  - unfold seen. apply dot_off_c. rewrite map_length, firstn_length. lia.
  - rewrite Forall_forall in *. intros p Hp. apply Hm. rewrite <- (firstn_skipn (length sh) mapping). apply in_or_app. auto.
Qed.

Lemma seen_strides_length sh mapping n : length (seen_strides sh mapping n) = n.
Proof. unfold seen_strides. rewrite map_length, seq_length. auto. Qed.

Lemma flat_le sh : forall x y, Forall2 le x y -> length y = length sh -> (flat sh x <= flat sh y)%nat.
Proof.
  induction sh as [|d sh IH]; intros x y H Hl; destruct H; simpl in *; try discriminate; auto.
  specialize (IH _ _ H0 ltac:(lia)). nia.
Qed.

Lemma in_bounds_pred osh o : in_bounds osh o = true -> forall j, (nth j o 0 <= nth j (map Nat.pred osh) 0)%nat.
Proof.
  revert o. induction osh as [|d osh IH]; intros [|i o] H j; simpl in H; try discriminate; [destruct j; auto|].
  apply andb_true_iff in H as [H1 H2]. apply Nat.ltb_lt in H1. destruct j as [|j]; cbn [map nth]; [lia|]. apply IH; auto.
Qed.

Lemma seen_le sh mapping osh o : (length sh <= length mapping)%nat -> in_bounds osh o = true ->
  (seen sh mapping o <= seen sh mapping (map Nat.pred osh))%nat.
Proof.
  intros Hl Hb. unfold seen. apply flat_le.
  - induction (firstn (length sh) mapping); simpl; constructor; auto. apply in_bounds_pred; auto.
  - rewrite map_length, firstn_length. lia.
Qed.

(** ** Operands at least as long along every axis *)

(** An axis of the operand: the output axis it is on, its length and its stride. *)
Definition source_axis := (nat * nat * Z)%type.
Definition ax_out (x : source_axis) : nat := fst (fst x).
Definition ax_len (x : source_axis) : nat := snd (fst x).
Definition ax_stride (x : source_axis) : Z := snd x.

Definition vol (T : list source_axis) : Z := fold_right Z.mul 1 (map (fun x => Z.of_nat (ax_len x)) T).
Definition weigh (w : nat -> Z) (T : list source_axis) : Z := zsum (map (fun x => w (ax_out x) * ax_stride x) T).
Definition along (j : nat) (m : nat) : Z := if Nat.eqb m j then 1 else 0.

(** Each stride is the product of the lengths after it. *)
Fixpoint descending (c : Z) (T : list source_axis) : Prop :=
  match T with
  | [] => True
  | x :: T' => (ax_len x = 1%nat \/ ax_stride x = c * vol T') /\ descending c T'
  end.

Lemma weigh_cons w x T : weigh w (x :: T) = w (ax_out x) * ax_stride x + weigh w T.
Proof. reflexivity. Qed.

Lemma vol_cons x T : vol (x :: T) = Z.of_nat (ax_len x) * vol T.
Proof. reflexivity. Qed.

Lemma vol_perm T T' : Permutation T T' -> vol T = vol T'.
Proof. unfold vol. induction 1; cbn [map fold_right]; lia. Qed.

Lemma weigh_perm w T T' : Permutation T T' -> weigh w T = weigh w T'.
Proof. intros H. apply zsum_perm, Permutation_map; auto. Qed.

Lemma weigh_ext w w' T : (forall x, In x T -> w (ax_out x) = w' (ax_out x)) -> weigh w T = weigh w' T.
Proof. intros H. unfold weigh. f_equal. apply map_ext_in. intros x Hx. rewrite H; auto. Qed.

Lemma descending_snoc x T : forall c, descending c (T ++ [x]) <->
  descending (c * Z.of_nat (ax_len x)) T /\ (ax_len x = 1%nat \/ ax_stride x = c).
Proof.
  induction T as [|y T IH]; intros c; cbn [app descending].
  - change (vol []) with 1. rewrite Z.mul_1_r. tauto.
  - rewrite IH. assert (E : c * vol (T ++ [x]) = c * Z.of_nat (ax_len x) * vol T); [|rewrite E; tauto].
    rewrite (vol_perm (T ++ [x]) (x :: T)) by (apply Permutation_sym, Permutation_cons_append). rewrite vol_cons. lia.
Qed.

Lemma weigh_bound v T : descending 1 T -> (forall x, In x T -> 0 < ax_stride x) ->
  (forall x, In x T -> 0 <= v (ax_out x) < Z.of_nat (ax_len x)) -> 0 <= weigh v T < vol T.
Proof.
  induction T as [|x T IH]; intros Hd Hp Hv; [unfold weigh, vol, zsum; simpl; lia|].
  rewrite weigh_cons, vol_cons. destruct Hd as [Hx Hd].
  assert (IH' : 0 <= weigh v T < vol T) by (apply IH; auto; intros y Hy; [apply Hp|apply Hv]; simpl; auto).
  specialize (Hv x (or_introl eq_refl)). specialize (Hp x (or_introl eq_refl)).
  destruct Hx as [Hx|Hx]; [assert (v (ax_out x) = 0) as -> by lia; rewrite Hx; lia|].
  rewrite Hx. nia.
Qed.

Lemma along_nonneg j T : (forall x, In x T -> 0 < ax_stride x) -> 0 <= weigh (along j) T.
Proof.
  induction T as [|x T IH]; intros H; [unfold weigh, zsum; simpl; lia|]. rewrite weigh_cons.
  assert (0 <= weigh (along j) T) by (apply IH; intros; apply H; simpl; auto).
  specialize (H x (or_introl eq_refl)). unfold along at 1. destruct (Nat.eqb (ax_out x) j); lia.
Qed.

(** The reach of the output axes whose strides do not exceed that of [j] is smaller than it. *)
Lemma dominates (w : nat -> nat) j (L : nat -> bool) T : descending 1 T ->
  (forall x, In x T -> 0 < ax_stride x) -> (forall x, In x T -> (w (ax_out x) < ax_len x)%nat) ->
  (1 <= w j)%nat -> (exists x, In x T /\ ax_out x = j) -> L j = false ->
  (forall j', L j' = true -> weigh (along j') T <= weigh (along j) T) ->
  weigh (fun m => if L m then Z.of_nat (w m) else 0) T < weigh (along j) T.
Proof.
  induction T as [|x T IH]; intros Hd Hp Hw Hj Hin HL Hle; [destruct Hin as (? & [] & _)|].
  destruct Hd as [Hx Hd].
  assert (Hp' : forall y, In y T -> 0 < ax_stride y) by (intros; apply Hp; simpl; auto).
  assert (Hw' : forall y, In y T -> (w (ax_out y) < ax_len y)%nat) by (intros; apply Hw; simpl; auto).
  assert (B1 : weigh (fun m => if L m then Z.of_nat (w m) else 0) T < vol T).
  { apply weigh_bound; auto. intros y Hy. specialize (Hw' y Hy). destruct (L (ax_out y)); lia. }
  assert (B2 : weigh (along j) T < vol T).
  { apply weigh_bound; auto. intros y Hy. specialize (Hw' y Hy). unfold along.
    destruct (Nat.eqb_spec (ax_out y) j); [subst j|]; lia. }
  pose proof (along_nonneg j T Hp') as B3. rewrite !weigh_cons.
  specialize (Hw x (or_introl eq_refl)). specialize (Hp x (or_introl eq_refl)).
  destruct (Nat.eq_dec (ax_out x) j) as [E|E].
  - assert (E1 : along j (ax_out x) = 1) by (unfold along; rewrite E, Nat.eqb_refl; auto).
    rewrite E, HL in *. rewrite <- E in E1 at 1. rewrite E in E1. rewrite E1.
    destruct Hx as [Hx|Hx]; [lia|]. lia.
  - assert (E1 : along j (ax_out x) = 0) by (unfold along; destruct (Nat.eqb_spec (ax_out x) j); [contradiction|auto]).
    rewrite E1.
    assert (Rec : weigh (fun m => if L m then Z.of_nat (w m) else 0) T < weigh (along j) T).
    { apply IH; auto.
      - destruct Hin as (y & [->|Hy] & Ey); [contradiction|eauto].
      - intros j' Hj'. specialize (Hle j' Hj'). rewrite !weigh_cons, E1 in Hle. unfold along at 1 in Hle.
        destruct (Nat.eqb (ax_out x) j'); lia. }
    destruct (L (ax_out x)) eqn:EL; [|lia].
    destruct Hx as [Hx|Hx]; [assert (w (ax_out x) = 0%nat) as -> by lia; lia|].
    exfalso. specialize (Hle _ EL). rewrite !weigh_cons, E1 in Hle. unfold along at 1 in Hle.
    rewrite Nat.eqb_refl in Hle. pose proof (along_nonneg (ax_out x) T Hp'). lia.
Qed.

(** *** The axes of a contiguous array *)

Fixpoint axes_of (ms sh : list nat) (st : list Z) : list source_axis :=
  match ms, sh, st with
  | m :: ms', n :: sh', s :: st' => (m, n, s) :: axes_of ms' sh' st'
  | _, _, _ => []
  end.

Lemma axes_of_nth ms : forall sh st, length ms = length sh -> length st = length sh ->
  axes_of ms sh st = map (fun i => (nth i ms 0%nat, nth i sh 0%nat, nth i st 0)) (seq 0 (length sh)).
Proof.
  induction ms as [|m ms IH]; intros [|n sh] [|s st] H1 H2; simpl in *; try discriminate; auto.
  f_equal. rewrite <- seq_shift, map_map. apply IH; lia.
Qed.

Lemma axes_of_sum_into ms : forall sh st j, length ms = length sh -> length st = length sh ->
  sum_into ms st j = weigh (along j) (axes_of ms sh st).
Proof.
  induction ms as [|m ms IH]; intros [|n sh] [|s st] j H1 H2; simpl in *; try discriminate; auto.
  rewrite weigh_cons, <- IH by lia. unfold along. cbn. destruct (Nat.eqb m j); lia.
Qed.

Lemma axes_of_offset ms (w : nat -> nat) : forall sh st, length ms = length sh -> length st = length sh ->
  dot_off (map w ms) st = weigh (fun m => Z.of_nat (w m)) (axes_of ms sh st).
Proof.
  induction ms as [|m ms IH]; intros [|n sh] [|s st] H1 H2; simpl in *; try discriminate; auto.
  rewrite weigh_cons, <- IH by lia. cbn. lia.
Qed.

Lemma axes_of_vol ms : forall sh st, length ms = length sh -> length st = length sh ->
  vol (axes_of ms sh st) = Z.of_nat (prod sh).
Proof.
  induction ms as [|m ms IH]; intros [|n sh] [|s st] H1 H2; cbn [axes_of length] in *; try discriminate; auto.
  rewrite vol_cons, IH by lia. cbn [ax_len fst snd]. rewrite prod_cons. lia.
Qed.

Lemma axes_of_In ms : forall sh st x, In x (axes_of ms sh st) -> In (ax_out x) ms /\ In (ax_stride x) st.
Proof.
  induction ms as [|m ms IH]; intros [|n sh] [|s st] x; simpl; try tauto.
  intros [<-|H]; [cbn; auto|]. apply IH in H. tauto.
Qed.

Lemma axes_of_all ms : forall sh st m, length ms = length sh -> length st = length sh -> In m ms ->
  exists x, In x (axes_of ms sh st) /\ ax_out x = m.
Proof.
  induction ms as [|m ms IH]; intros [|n sh] [|s st] m' H1 H2; simpl in *; try tauto; try discriminate.
  intros [->|H]; [eexists; split; [left; reflexivity|reflexivity]|].
  destruct (IH sh st m') as (x & Hx & E); auto. exists x. auto.
Qed.

Lemma axes_of_Forall2 (P : nat -> nat -> Prop) ms : forall sh st x, Forall2 P sh ms ->
  In x (axes_of ms sh st) -> P (ax_len x) (ax_out x).
Proof.
  induction ms as [|m ms IH]; intros [|n sh] [|s st] x H; simpl; try tauto. inversion H; subst.
  intros [<-|Hx]; [cbn; auto|]. eapply IH; eauto.
Qed.

Lemma c_strides_descending ms : forall sh, length ms = length sh -> descending 1 (axes_of ms sh (c_strides sh)).
Proof.
  induction ms as [|m ms IH]; intros [|n sh] H; cbn [length c_strides axes_of descending] in *; try discriminate; auto.
  split; [|apply IH; lia]. right. cbn [ax_stride snd]. rewrite axes_of_vol by (try rewrite c_strides_length; lia). lia.
Qed.

Lemma contiguous_descending ms sh st order : forall c, contiguous_from c sh st order = true ->
  descending c (rev (map (fun i => (nth i ms 0%nat, nth i sh 0%nat, nth i st 0)) order)).
Proof.
  induction order as [|i order IH]; intros c H; cbn [map rev]; [exact I|]. cbn [contiguous_from] in H.
  apply descending_snoc. cbn [ax_len ax_stride fst snd].
  destruct (negb (Nat.eqb (nth i sh 0%nat) 1) && negb (Z.eqb (nth i st 0) c)) eqn:E; [discriminate|].
  split; [apply IH; auto|].
  apply andb_false_iff in E as [E|E]; apply negb_false_iff in E; [left; apply Nat.eqb_eq|right; apply Z.eqb_eq]; auto.
Qed.

Lemma contiguous_axes {A} (t : arr A) ms : length ms = length (a_shape t) -> length (a_strides t) = length (a_shape t) ->
  ~ In 0%nat (a_shape t) -> is_contiguous t = true ->
  exists T, Permutation T (axes_of ms (a_shape t) (a_strides t)) /\ descending 1 T.
Proof.
  intros Hm Hs Hz H. unfold is_contiguous in H. apply orb_true_iff in H as [H|H].
  - apply list_Z_eqb_eq in H. exists (axes_of ms (a_shape t) (a_strides t)). split; [apply Permutation_refl|].
    rewrite H. unfold default_strides. rewrite (proj2 (is_empty_In (a_shape t))) by (intros d Hd ->; auto).
    apply c_strides_descending. auto.
  - apply andb_true_iff in H as [_ H]. pose proof (stride_order_perm (a_strides t)) as Hp.
    exists (rev (map (fun i => (nth i ms 0%nat, nth i (a_shape t) 0%nat, nth i (a_strides t) 0)) (stride_order (a_strides t)))).
    split.
    + rewrite axes_of_nth by auto. eapply Permutation_trans; [apply Permutation_sym, Permutation_rev|].
      apply Permutation_map. rewrite <- Hs. auto.
    + apply contiguous_descending. auto.
Qed.

Section Diag.
Context {A : Type} {Sc : Scalar A}.
Variable lay : backend A.
Hypothesis Hlay : backend_runs lay.

(** The diagonal view of a row-major copy. *)
Lemma clone_view_any (d : diagonalization) (a : arr A) :
  let mapping := input_to_output_mapping d in let out := diag_output_shape d in let sh := a_shape a in
  Forall (fun p => (p < length out)%nat) mapping ->
  let last := seen sh mapping (map Nat.pred out) in
  let fine := ~ In 0%nat sh /\ (length sh <= length mapping)%nat
    /\ (In 0%nat out -> (last <= prod sh)%nat)
    /\ (~ In 0%nat out -> (last < prod sh)%nat /\ dim_stride_overlap out (seen_strides sh mapping (length out)) = false) in
  (fine -> exists r, diagonalization_view d (mk_c sh (map (elem a) (indices sh))) = Ok r
     /\ holds r out (fun o => nth_elem a (seen sh mapping o)))
  /\ (~ fine -> diagonalization_view d (mk_c sh (map (elem a) (indices sh))) = Panic).
Proof.
  intros mapping out sh Hm last fine.
  unfold diagonalization_view. fold mapping out. cbn [mk_c a_strides].
  assert (Ez : map (fun _ => 0) out = map (fun _ => 0) (seq 0 (length out))).
  { generalize 0%nat. clear. induction out as [|x l IH]; intros z; simpl; auto. f_equal. auto. }
  rewrite Ez. clear Ez.
  destruct (in_dec Nat.eq_dec 0%nat sh) as [Hz|Hz].
  { split; [unfold fine; tauto|]. intros _.
    assert (He : is_empty_shape sh = true) by (unfold is_empty_shape; apply existsb_exists; exists 0%nat; auto).
    unfold default_strides. rewrite He. destruct sh as [|d0 sh']; [destruct Hz|]. reflexivity. }
  assert (He : is_empty_shape sh = false).
  { apply is_empty_In. intros x Hx ->. auto. }
  assert (Est : default_strides sh = c_strides sh) by (unfold default_strides; rewrite He; auto).
  rewrite Est.
  assert (Hpos : Forall (fun s => 0 < s) (c_strides sh)).
  { clear - Hz. induction sh as [|x sh' IH]; simpl; constructor.
    - assert (prod sh' <> 0%nat); [|lia]. apply is_empty_false, is_empty_In. intros y Hy ->. simpl in Hz. auto.
    - apply IH. simpl in Hz. auto. }
  destruct (add_strides_any mapping (length out) Hm (c_strides sh) 0%nat (fun _ => 0) Hpos) as [S1 S2].
  rewrite c_strides_length in S1, S2. cbn [skipn Nat.add] in S1, S2. rewrite c_strides_length.
  destruct (le_lt_dec (length sh) (length mapping)) as [Hl|Hl].
  2:{ rewrite S2 by lia. split; [unfold fine; lia|auto]. }
  rewrite S1 by auto. cbn [rbind].
  rewrite (map_ext (fun j => 0 + sum_into mapping (c_strides sh) j) (sum_into mapping (c_strides sh))) by auto.
  rewrite seen_strides_ok by auto.
  set (st := seen_strides sh mapping (length out)) in *.
  assert (Esl : as_slice_memory_order (mk_c sh (map (elem a) (indices sh))) = Some (map (elem a) (indices sh))).
  { unfold as_slice_memory_order, is_contiguous. cbn [mk_c a_strides a_shape a_off a_data].
    rewrite (proj2 (list_Z_eqb_eq _ _) eq_refl). cbn [orb Z.to_nat skipn].
    rewrite firstn_all2; auto. rewrite map_length, indices_length. auto. }
  assert (Esl' : as_slice_memory_order (mkArr (map (elem a) (indices sh)) 0 sh (c_strides sh)) = Some (map (elem a) (indices sh))).
  { rewrite <- Est. exact Esl. }
  unfold mk_c. rewrite Est, Esl'. cbn [unwrap rbind].
  assert (Hst : Forall (fun s => 0 <= s) st).
  { unfold st, seen_strides. apply Forall_forall. intros s Hs. apply in_map_iff in Hs as (j & <- & _). lia. }
  assert (Emax : max_abs_offset out st = Z.of_nat last).
  { rewrite max_abs_offset_pred by auto. unfold st. rewrite <- (map_length Nat.pred out).
    apply seen_offset; [rewrite map_length|]; auto. }
  assert (Elen : Z.of_nat (length (map (elem a) (indices sh))) = Z.of_nat (prod sh)) by (rewrite map_length, indices_length; auto).
  assert (Hres : (last < prod sh)%nat \/ In 0%nat out ->
    exists r, Ok (mkArr (map (elem a) (indices sh)) 0 out st) = Ok r
      /\ holds r out (fun o => nth_elem a (seen sh mapping o))).
  { intros Hlt. eexists. split; [reflexivity|]. split; [auto|]. split; [apply seen_strides_length|].
    intros o Ho. unfold a_get. cbn [a_shape a_data a_off a_strides]. rewrite Ho.
    assert (Hlo : length o = length out) by (apply in_bounds_length; auto).
    unfold st. rewrite <- Hlo, seen_offset by (try rewrite Hlo; auto). rewrite Z.add_0_l, znth_nat, nth_error_map.
    assert (Hlt' : (seen sh mapping o < prod sh)%nat).
    { destruct Hlt as [Hlt|Hz0].
      - eapply Nat.le_lt_trans; [|exact Hlt]. unfold last. apply seen_le; auto.
      - exfalso. apply in_bounds_nonempty in Ho. apply Ho. apply is_empty_prod.
        unfold is_empty_shape. apply existsb_exists. exists 0%nat. auto. }
    rewrite (nth_error_nth' _ []) by (rewrite indices_length; auto). reflexivity. }
  unfold view_from_shape. rewrite Emax, Elen.
  destruct (in_dec Nat.eq_dec 0%nat out) as [Ho|Ho].
  - assert (Eo : is_empty_shape out = true) by (unfold is_empty_shape; apply existsb_exists; exists 0%nat; auto).
    rewrite Eo. destruct (Z.ltb_spec (Z.of_nat (prod sh)) (Z.of_nat last)).
    + split; [|auto]. intros (_ & _ & H1 & _). specialize (H1 Ho). lia.
    + split; [intros _; auto|]. intros Hf. exfalso. apply Hf. unfold fine. repeat split; auto; try tauto. intros _. lia.
  - assert (Eo : is_empty_shape out = false) by (apply is_empty_In; intros x Hx ->; auto).
    rewrite Eo. destruct (Z.leb_spec (Z.of_nat (prod sh)) (Z.of_nat last)).
    + split; [|auto]. intros (_ & _ & _ & H1). specialize (H1 Ho). lia.
    + destruct (dim_stride_overlap out st) eqn:Eov.
      * split; [|auto]. intros (_ & _ & _ & H1). destruct (H1 Ho) as [_ H2]. discriminate.
      * split; [intros _; apply Hres; left; lia|]. intros Hf. exfalso. apply Hf. unfold fine.
        repeat split; auto; try tauto. lia.
Qed.

(** Diagonalization. *)
Lemma diagonal_any (d : diagonalization) (a : arr A) : wf a ->
  let mapping := input_to_output_mapping d in let out := diag_output_shape d in let sh := a_shape a in
  Forall (fun p => (p < length out)%nat) mapping ->
  let last := seen sh mapping (map Nat.pred out) in
  let fine := ~ In 0%nat sh /\ (length sh <= length mapping)%nat
    /\ (In 0%nat out -> (last <= prod sh)%nat)
    /\ (~ In 0%nat out -> (last < prod sh)%nat /\ dim_stride_overlap out (seen_strides sh mapping (length out)) = false) in
  (fine -> exists r, diagonalization_contract lay d a = Ok r
     /\ holds r out (fun o => nth_elem a (seen sh mapping o)))
  /\ (~ fine -> diagonalization_contract lay d a = Panic).
Proof.
  intros Wa mapping out sh Hm last fine. unfold diagonalization_contract.
  pose proof (wf_holds a Wa) as Ha. rewrite (holds_iter _ _ _ Ha). cbn [rbind]. fold sh.
  rewrite from_shape_vec_ok by auto. cbn [rbind]. destruct (clone_view_any d a Hm) as [C1 C2].
  split; intros Hf.
  - destruct (C1 Hf) as (v & E & Hv). fold sh in E. rewrite E. cbn [rbind].
    apply (into_owned_holds lay Hlay). auto.
  - specialize (C2 Hf). fold sh in C2. rewrite C2. auto.
Qed.

(** The memory of an array in row-major order. *)
Lemma row_major_slice (a : arr A) : wf a -> a_strides a = default_strides (a_shape a) -> ~ In 0%nat (a_shape a) ->
  as_slice_memory_order a = Some (map (elem a) (indices (a_shape a))).
Proof.
  intros Wa Es Hz. unfold as_slice_memory_order, is_contiguous. rewrite (proj2 (list_Z_eqb_eq _ _) Es). cbn [orb].
  f_equal. pose proof (wf_holds a Wa) as (_ & _ & Hget).
  assert (Ec : a_strides a = c_strides (a_shape a)).
  { rewrite Es. unfold default_strides. rewrite (proj2 (is_empty_In (a_shape a))) by (intros y Hy ->; auto). auto. }
  assert (Hread : forall i, (i < prod (a_shape a))%nat ->
    znth (a_data a) (a_off a + Z.of_nat i) = Some (elem a (unflat (a_shape a) i))).
  { intros i Hi. pose proof (unflat_in_bounds (a_shape a) i Hi) as Hb. specialize (Hget _ Hb). unfold a_get in Hget.
    rewrite Hb, Ec, dot_off_c, flat_unflat in Hget by (auto; apply in_bounds_length; auto).
    destruct (znth _ _); simpl in Hget; congruence. }
  assert (Hp : prod (a_shape a) <> 0%nat) by (apply is_empty_false, is_empty_In; intros y Hy ->; auto).
  assert (Ho : 0 <= a_off a).
  { pose proof (Hread 0%nat ltac:(lia)) as H. apply znth_Some in H. lia. }
  assert (Hl : a_off a + Z.of_nat (prod (a_shape a)) <= Z.of_nat (length (a_data a))).
  { pose proof (Hread (Nat.pred (prod (a_shape a))) ltac:(lia)) as H. apply znth_Some in H. lia. }
  apply (nth_ext _ _ szero szero).
  - rewrite firstn_length, skipn_length, map_length, indices_length. lia.
  - intros i Hi. rewrite firstn_length, skipn_length in Hi.
    assert (Hi' : (i < prod (a_shape a))%nat) by lia.
    rewrite (nth_indep (map _ _) _ (elem a [])) by (rewrite map_length, indices_length; auto). rewrite map_nth.
    apply nth_error_nth. rewrite <- znth_nat, znth_slice by lia. apply Hread. auto.
Qed.

(** An operand at least as long along every axis is not refused: its leading part is used. *)
Lemma no_overlap_longer T out : descending 1 T -> (forall x, In x T -> 0 < ax_stride x) ->
  (forall x, In x T -> (Nat.pred (nth (ax_out x) out 0) < ax_len x)%nat) ->
  (forall j, (j < length out)%nat -> exists x, In x T /\ ax_out x = j) ->
  (forall x, In x T -> (ax_out x < length out)%nat) -> ~ In 0%nat out ->
  dim_stride_overlap out (map (fun j => weigh (along j) T) (seq 0 (length out))) = false.
Proof.
  intros Hd Hp Hle Hall Hm Ho. unfold dim_stride_overlap.
  set (st := map (fun j => weigh (along j) T) (seq 0 (length out))).
  pose proof (stride_order_perm st) as Hperm.
  assert (Hlen : length st = length out) by (unfold st; rewrite map_length, seq_length; auto). rewrite Hlen in Hperm.
  assert (Hbound : forall i, In i (stride_order st) -> (i < length out)%nat).
  { intros i Hi. apply (Permutation_in _ Hperm), in_seq in Hi. lia. }
  assert (Habs : forall i, (i < length out)%nat -> Z.abs (nth i st 0) = weigh (along i) T).
  { intros i Hi. unfold st.
    rewrite (nth_indep _ _ (weigh (along 0) T)) by (rewrite map_length, seq_length; auto).
    rewrite (map_nth (fun j => weigh (along j) T)), seq_nth by auto. apply Z.abs_eq, along_nonneg; auto. }
  assert (Hnd : NoDup (stride_order st)).
  { eapply Permutation_NoDup; [apply Permutation_sym, Hperm|apply seq_NoDup]. }
  assert (Hnz : forall i, (i < length out)%nat -> (1 <= nth i out 0)%nat).
  { intros i Hi. assert (Hin : In (nth i out 0%nat) out) by (apply nth_In; auto).
    destruct (nth i out 0%nat); [tauto|lia]. }
  apply overlap_from_false.
  - intros i Hi. apply Hnz. auto.
  - intros v i r E Hdi.
    assert (Hiv : In i (stride_order st)) by (rewrite E; apply in_or_app; simpl; auto).
    assert (Hvv : forall j, In j v -> In j (stride_order st)) by (intros; rewrite E; apply in_or_app; auto).
    rewrite Habs by auto. rewrite Z.add_0_l.
    assert (Hni : ~ In i v).
    { rewrite E in Hnd. apply NoDup_remove_2 in Hnd. intros H. apply Hnd, in_or_app. auto. }
    assert (Hndv : NoDup v).
    { rewrite E in Hnd. clear - Hnd. induction v as [|x v IH]; [constructor|]. simpl in Hnd. inversion Hnd; subst.
      constructor; auto. intros H. apply H1. apply in_or_app. auto. }
    pose (w := fun m => Nat.pred (nth m out 0%nat)).
    pose (L := fun m => if in_dec Nat.eq_dec m v then true else false).
    assert (Esum : zsum (map (fun j => (Z.of_nat (nth j out 0%nat) - 1) * Z.abs (nth j st 0)) v)
      = weigh (fun m => if L m then Z.of_nat (w m) else 0) T).
    { transitivity (zsum (map (fun j => Z.of_nat (w j) * weigh (along j) T) v)).
      - f_equal. apply map_ext_in. intros j Hj. rewrite Habs by auto. specialize (Hnz j (Hbound _ (Hvv _ Hj))).
        unfold w. f_equal. lia.
      - unfold L. clear - Hndv. induction T as [|x T IH].
        + unfold weigh, zsum. cbn [map fold_right]. clear. induction v as [|y v IH]; cbn [map fold_right]; lia.
        + rewrite weigh_cons, <- IH. clear IH.
          assert (Eq : zsum (map (fun j => Z.of_nat (w j) * weigh (along j) (x :: T)) v)
             = zsum (map (fun j => if Nat.eqb (ax_out x) j then Z.of_nat (w j) * ax_stride x else 0) v)
               + zsum (map (fun j => Z.of_nat (w j) * weigh (along j) T) v)).
          { clear. induction v as [|y v IH]; auto. unfold zsum in *. cbn [map fold_right]. rewrite IH.
            rewrite weigh_cons. unfold along at 1. destruct (Nat.eqb (ax_out x) y); lia. }
          rewrite Eq. f_equal. clear Eq. generalize (ax_out x) as m, (ax_stride x) as s0. intros m s0.
          induction Hndv as [|y v Hx Hv IH]; [simpl; lia|].
          unfold zsum in *. cbn [map fold_right]. rewrite IH. clear IH.
          destruct (Nat.eqb_spec m y) as [->|Hn].
          * destruct (in_dec Nat.eq_dec y v); [tauto|]. destruct (in_dec Nat.eq_dec y (y :: v)) as [|H]; [lia|].
            exfalso. apply H. simpl. auto.
          * destruct (in_dec Nat.eq_dec m v) as [H|H]; destruct (in_dec Nat.eq_dec m (y :: v)) as [H'|H']; try lia.
            -- exfalso. apply H'. simpl. auto.
            -- exfalso. destruct H'; [congruence|auto]. }
    rewrite Esum. apply dominates; auto.
    + unfold w. lia.
    + unfold L. destruct (in_dec Nat.eq_dec i v); tauto.
    + intros j' Hj'. unfold L in Hj'. destruct (in_dec Nat.eq_dec j' v) as [Hj|]; [|discriminate].
      rewrite <- !Habs by auto.
      pose proof (sort_by_sorted (fun i => Z.abs (nth i st 0)) (seq 0 (length st))) as Hsort.
      change (fold_right _ _ _) with (stride_order st) in Hsort.
      rewrite E in Hsort. clear - Hsort Hj.
      induction v as [|a v IH]; [contradiction|]. simpl in Hsort.
      inversion Hsort; subst. destruct Hj as [->|Hj]; auto.
      rewrite Forall_forall in H2. apply H2. apply in_or_app; simpl; auto.
Qed.

Lemma view_longer (d : diagonalization) (a : arr A) : wf a ->
  let mapping := input_to_output_mapping d in let out := diag_output_shape d in let sh := a_shape a in
  Forall (fun p => (p < length out)%nat) mapping -> (forall j, (j < length out)%nat -> In j mapping) ->
  Forall2 (fun n m => (nth m out 0 <= n)%nat) sh mapping -> ~ In 0%nat sh ->
  is_contiguous a = true -> Forall (fun s => 0 < s) (a_strides a) ->
  exists v, diagonalization_view d a = Ok v
     /\ holds v out (fun o => elem a (map (fun m => nth m o 0%nat) mapping)).
Proof.
  intros Wa mapping out sh Hm Hall Hle Hz Hc Hp.
  assert (Hl : length mapping = length sh) by (clear - Hle; induction Hle; simpl; auto).
  pose proof (wf_holds a Wa) as (_ & Ls & Hget). fold sh in Ls, Hget.
  destruct (contiguous_axes a mapping Hl Ls Hz Hc) as (T & HT & Hd). fold sh in HT.
  set (T0 := axes_of mapping sh (a_strides a)) in *.
  assert (HpT : forall x, In x T -> 0 < ax_stride x).
  { intros x Hx. apply (Permutation_in _ HT), axes_of_In in Hx as [_ Hx]. rewrite Forall_forall in Hp. auto. }
  assert (HmT : forall x, In x T -> (ax_out x < length out)%nat).
  { intros x Hx. apply (Permutation_in _ HT), axes_of_In in Hx as [Hx _]. rewrite Forall_forall in Hm. auto. }
  assert (HlT : forall x, In x T -> (Nat.pred (nth (ax_out x) out 0) < ax_len x)%nat).
  { intros x Hx. apply (Permutation_in _ HT) in Hx.
    apply (axes_of_Forall2 (fun n m => (Nat.pred (nth m out 0) < n)%nat)) in Hx; auto.
    clear - Hle Hz. induction Hle as [|n m sh ms H1 H2 IH]; constructor; [|apply IH; simpl in Hz; tauto].
    assert (n <> 0)%nat by (intros ->; simpl in Hz; tauto). lia. }
  assert (HaT : forall j, (j < length out)%nat -> exists x, In x T /\ ax_out x = j).
  { intros j Hj. destruct (axes_of_all mapping sh (a_strides a) j Hl Ls (Hall j Hj)) as (x & Hx & E).
    exists x. split; auto. eapply Permutation_in; [apply Permutation_sym; exact HT|auto]. }
  unfold diagonalization_view. fold mapping out.
  assert (Ez : map (fun _ => 0) out = map (fun _ => 0) (seq 0 (length out))).
  { generalize 0%nat. clear. induction out as [|x l IH]; intros z; simpl; auto. f_equal. auto. }
  rewrite Ez. clear Ez.
  destruct (add_strides_any mapping (length out) Hm (a_strides a) 0%nat (fun _ => 0) Hp) as [S1 _].
  cbn [skipn Nat.add] in S1. rewrite S1 by lia. cbn [rbind].
  set (st := map (fun j => 0 + sum_into mapping (a_strides a) j) (seq 0 (length out))).
  assert (Est : st = map (fun j => weigh (along j) T) (seq 0 (length out))).
  { unfold st. apply map_ext. intros j. rewrite Z.add_0_l, (axes_of_sum_into mapping sh) by auto.
    apply weigh_perm, Permutation_sym. auto. }
  unfold as_slice_memory_order. rewrite Hc. cbn [unwrap rbind]. fold sh.
  set (dat := firstn (prod sh) (skipn (Z.to_nat (a_off a)) (a_data a))).
  assert (Evol : vol T = Z.of_nat (prod sh)).
  { rewrite (vol_perm _ _ HT). apply axes_of_vol; auto. }
  assert (Hwb : forall w : nat -> nat, (forall m, (w m <= Nat.pred (nth m out 0))%nat) ->
    in_bounds sh (map w mapping) = true /\ 0 <= dot_off (map w mapping) (a_strides a) < Z.of_nat (prod sh)).
  { intros w Hw. split.
    - clear - Hle Hz Hw. induction Hle as [|n m sh ms H1 H2 IH]; simpl; auto.
      rewrite IH by (simpl in Hz; tauto). rewrite andb_true_r. apply Nat.ltb_lt. specialize (Hw m).
      assert (n <> 0)%nat by (intros ->; simpl in Hz; tauto). lia.
    - rewrite (axes_of_offset mapping w sh) by auto. rewrite <- (weigh_perm _ _ _ HT), <- Evol.
      apply weigh_bound; auto. intros x Hx. specialize (HlT x Hx). specialize (Hw (ax_out x)). lia. }
  assert (Hread : forall idx, in_bounds sh idx = true ->
    znth (a_data a) (a_off a + dot_off idx (a_strides a)) = Some (elem a idx)).
  { intros idx Hi. specialize (Hget idx Hi). unfold a_get in Hget. fold sh in Hget. rewrite Hi in Hget.
    destruct (znth _ _); simpl in Hget; congruence. }
  assert (Hoff : 0 <= a_off a /\ (a_off a + Z.of_nat (prod sh) <= Z.of_nat (length (a_data a)))).
  { split.
    - destruct (Hwb (fun _ => 0%nat)) as [Hb _]; [intros; lia|]. apply Hread, znth_Some in Hb.
      rewrite (axes_of_offset mapping (fun _ => 0%nat) sh) in Hb by auto.
      assert (E0 : weigh (fun _ => Z.of_nat 0) (axes_of mapping sh (a_strides a)) = 0).
      { clear. induction (axes_of mapping sh (a_strides a)); [reflexivity|]. rewrite weigh_cons. lia. }
      rewrite E0 in Hb. lia.
    - (* the last element *)
      assert (Hb : in_bounds sh (map Nat.pred sh) = true).
      { clear - Hz. induction sh as [|n sh IH]; simpl; auto. rewrite IH by (simpl in Hz; tauto).
        rewrite andb_true_r. apply Nat.ltb_lt. assert (n <> 0)%nat by (intros ->; simpl in Hz; tauto). lia. }
      apply Hread, znth_Some in Hb.
      assert (Ed : dot_off (map Nat.pred sh) (a_strides a)
        = zsum (map (fun x => Z.of_nat (Nat.pred (ax_len x)) * ax_stride x) T0)).
      { unfold T0. clear - Hl Ls. generalize dependent (a_strides a). generalize dependent sh.
        induction mapping as [|m ms IH]; intros [|n sh] Hl [|s st] Ls; simpl in *; try discriminate; auto.
        rewrite (IH sh ltac:(lia) st ltac:(lia)). unfold zsum. cbn [fold_right ax_len ax_stride fst snd]. lia. }
      rewrite Ed in Hb. rewrite <- (zsum_perm _ _ (Permutation_map (fun x => Z.of_nat (Nat.pred (ax_len x)) * ax_stride x) HT)) in Hb.
      assert (Et : zsum (map (fun x => Z.of_nat (Nat.pred (ax_len x)) * ax_stride x) T) = vol T - 1).
      { clear - Hd HlT. induction T as [|x T IH]; [reflexivity|]. destruct Hd as [Hx Hd].
        rewrite vol_cons. unfold zsum in *. cbn [map fold_right]. rewrite IH by (auto; intros; apply HlT; simpl; auto).
        specialize (HlT x (or_introl eq_refl)).
        destruct Hx as [Hx|Hx]; [rewrite Hx; cbn [Nat.pred]; lia|]. rewrite Hx.
        replace (Z.of_nat (ax_len x)) with (Z.of_nat (Nat.pred (ax_len x)) + 1) by lia. lia. }
      lia. }
  assert (Ldat : Z.of_nat (length dat) = Z.of_nat (prod sh)).
  { unfold dat. rewrite firstn_length, skipn_length. lia. }
  assert (Hst : Forall (fun s => 0 <= s) st).
  { rewrite Est. apply Forall_forall. intros s Hs. apply in_map_iff in Hs as (j & <- & _). apply along_nonneg; auto. }
  assert (Hgrp : forall o, length o = length out ->
    dot_off o st = dot_off (map (fun m => nth m o 0%nat) mapping) (a_strides a)).
  { intros o Ho. unfold st. rewrite <- Ho.
    rewrite (map_ext _ (sum_into mapping (a_strides a))) by (intros; lia).
    apply dot_off_grouped. rewrite Ho. auto. }
  assert (Emax : 0 <= max_abs_offset out st < Z.of_nat (prod sh)).
  { rewrite max_abs_offset_pred by auto. rewrite Hgrp by (rewrite map_length; auto). apply Hwb.
    intros m. change 0%nat with (Nat.pred 0) at 1. rewrite map_nth. auto. }
  assert (Hv : holds (mkArr dat 0 out st) out (fun o => elem a (map (fun m => nth m o 0%nat) mapping))).
  { split; [auto|]. split; [cbn [a_strides]; unfold st; rewrite map_length, seq_length; auto|].
    intros o Ho. unfold a_get. cbn [a_shape a_data a_off a_strides]. rewrite Ho.
    rewrite Hgrp by (apply in_bounds_length; auto). rewrite Z.add_0_l.
    destruct (Hwb (fun m => nth m o 0%nat)) as [Hb Hr].
    { intros m. pose proof (in_bounds_pred out o Ho m) as H. change 0%nat with (Nat.pred 0) in H at 2.
      rewrite map_nth in H. auto. }
    unfold dat. rewrite znth_slice by lia. rewrite (Hread _ Hb). auto. }
  unfold view_from_shape. rewrite Ldat.
  destruct (in_dec Nat.eq_dec 0%nat out) as [Ho|Ho].
  - assert (Eo : is_empty_shape out = true) by (unfold is_empty_shape; apply existsb_exists; exists 0%nat; auto).
    rewrite Eo. destruct (Z.ltb_spec (Z.of_nat (prod sh)) (max_abs_offset out st)); [lia|]. eauto.
  - assert (Eo : is_empty_shape out = false) by (apply is_empty_In; intros x Hx ->; auto).
    rewrite Eo. destruct (Z.leb_spec (Z.of_nat (prod sh)) (max_abs_offset out st)); [lia|].
    assert (Eov : dim_stride_overlap out st = false) by (rewrite Est; apply no_overlap_longer; auto).
    rewrite Eov. eauto.
Qed.

Lemma diagonal_longer (d : diagonalization) (a : arr A) : wf a ->
  let mapping := input_to_output_mapping d in let out := diag_output_shape d in let sh := a_shape a in
  Forall (fun p => (p < length out)%nat) mapping -> (forall j, (j < length out)%nat -> In j mapping) ->
  Forall2 (fun n m => (nth m out 0 <= n)%nat) sh mapping -> ~ In 0%nat sh ->
  exists r, diagonalization_contract lay d a = Ok r
     /\ holds r out (fun o => elem a (map (fun m => nth m o 0%nat) mapping)).
Proof.
  intros Wa mapping out sh Hm Hall Hle Hz. unfold diagonalization_contract.
  pose proof (wf_holds a Wa) as Ha. rewrite (holds_iter _ _ _ Ha). cbn [rbind]. fold sh.
  rewrite from_shape_vec_ok by auto. cbn [rbind].
  pose proof (holds_reshape_copy sh sh (elem a) eq_refl) as Hc. 
  destruct (view_longer d (mk_c sh (map (elem a) (indices sh))) (holds_wf _ _ _ Hc)) as (v & E & Hv); auto.
  - unfold is_contiguous. cbn [mk_c a_strides a_shape]. rewrite (proj2 (list_Z_eqb_eq _ _) eq_refl). auto.
  - cbn [mk_c a_strides]. unfold default_strides. rewrite (proj2 (is_empty_In sh)) by (intros y Hy ->; auto).
    clear - Hz. induction sh as [|x sh' IH]; simpl; constructor.
    + assert (prod sh' <> 0%nat); [|lia]. apply is_empty_false, is_empty_In. intros y Hy ->. simpl in Hz. auto.
    + apply IH. simpl in Hz. auto.
  - fold mapping out in E, Hv. rewrite E. cbn [rbind].
    destruct (into_owned_holds lay Hlay v _ _ Hv) as (r & Er & Hr). exists r. split; auto.
    eapply ArrayFacts.holds_ext; [|exact Hr]. intros o Ho. cbv beta.
    assert (Hb : in_bounds sh (map (fun m => nth m o 0%nat) mapping) = true).
    { clear - Hle Hz Ho. induction Hle as [|n m sh ms H1 H2 IH]; simpl; auto.
      rewrite IH by (simpl in Hz; tauto). rewrite andb_true_r. apply Nat.ltb_lt.
      pose proof (in_bounds_pred out o Ho m) as H. change 0%nat with (Nat.pred 0) in H at 2. rewrite map_nth in H.
      assert (n <> 0)%nat by (intros ->; simpl in Hz; tauto). lia. }
    rewrite (holds_elem _ _ _ _ Hc Hb). unfold refold. rewrite unflat_flat; auto.
Qed.

Lemma sum_of_holds (SR : near_semiring A) start num s (v : arr A) out f : holds v out f ->
  summation_from_sizes start num = Ok s -> (start + num <= length out)%nat ->
  exists r, summation_contract lay s v = Ok r
    /\ holds r (firstn start out ++ skipn (start + num) out) (fun idx =>
         sum_idx (firstn num (skipn start out)) (fun z => f (firstn start idx ++ z ++ skipn start idx))).
Proof.
  intros Hv Hs Hn. destruct (summation_any lay Hlay SR start num s v Hs (holds_wf _ _ _ Hv)) as [S1 _].
  pose proof Hv as (Sv & _). rewrite Sv in S1. destruct (S1 Hn) as (r & Er & Hr). exists r. split; auto.
  eapply ArrayFacts.holds_ext; [|exact Hr]. intros idx Hi. apply sum_idx_ext. intros z Hz.
  apply (holds_elem _ _ _ _ Hv). apply in_bounds_app_inv in Hi as (x & y & -> & Bx & By).
  assert (Lx : length x = start) by (rewrite (in_bounds_length _ _ Bx), firstn_length; lia).
  rewrite firstn_app, skipn_app, Lx, Nat.sub_diag, firstn_all2, skipn_all2 by lia. cbn [firstn skipn app].
  rewrite app_nil_r. rewrite <- (firstn_skipn start out) at 1. apply in_bounds_app; auto.
  rewrite <- (firstn_skipn num (skipn start out)). apply in_bounds_app; auto.
  rewrite skipn_add in By. auto.
Qed.

(** DiagonalizationAndSummation uses the operand's memory when it can; for such operands it makes
    no difference. *)
Lemma diag_and_sum_longer (SR : near_semiring A) (d : diagonalization) start num s (a : arr A) : wf a ->
  let mapping := input_to_output_mapping d in let out := diag_output_shape d in let sh := a_shape a in
  Forall (fun p => (p < length out)%nat) mapping -> (forall j, (j < length out)%nat -> In j mapping) ->
  Forall2 (fun n m => (nth m out 0 <= n)%nat) sh mapping -> ~ In 0%nat sh ->
  summation_from_sizes start num = Ok s -> (start + num <= length out)%nat ->
  exists r, diag_and_sum_contract lay d s a = Ok r
    /\ holds r (firstn start out ++ skipn (start + num) out) (fun idx =>
         sum_idx (firstn num (skipn start out)) (fun z =>
           elem a (map (fun m => nth m (firstn start idx ++ z ++ skipn start idx) 0%nat) mapping))).
Proof.
  intros Wa mapping out sh Hm Hall Hle Hz Hs Hn. unfold diag_and_sum_contract.
  match goal with |- context [if ?b then _ else _] => destruct b eqn:E end.
  - apply andb_true_iff in E as [E1 E2].
    assert (Hc : is_contiguous a = true) by (unfold as_slice_memory_order in E1; destruct (is_contiguous a); auto).
    assert (Hp : Forall (fun s => 0 < s) (a_strides a)).
    { apply Forall_forall. intros x Hx. rewrite forallb_forall in E2. apply Z.ltb_lt. auto. }
    destruct (view_longer d a Wa) as (v & -> & Hv); auto. cbn [rbind]. eapply sum_of_holds in Hv; eauto.
  - destruct (diagonal_longer d a Wa) as (v & -> & Hv); auto. cbn [rbind]. eapply sum_of_holds in Hv; eauto.
Qed.

(** A row-major operand, and any operand whose memory is not used. *)
Lemma diag_and_sum_any (SR : near_semiring A) (d : diagonalization) start num s (a : arr A) : wf a ->
  let mapping := input_to_output_mapping d in let out := diag_output_shape d in let sh := a_shape a in
  Forall (fun p => (p < length out)%nat) mapping ->
  a_strides a = default_strides sh \/ is_contiguous a = false \/ Exists (fun s => s <= 0) (a_strides a) ->
  summation_from_sizes start num = Ok s -> (start + num <= length out)%nat ->
  let last := seen sh mapping (map Nat.pred out) in
  let fine := ~ In 0%nat sh /\ (length sh <= length mapping)%nat
    /\ (In 0%nat out -> (last <= prod sh)%nat)
    /\ (~ In 0%nat out -> (last < prod sh)%nat /\ dim_stride_overlap out (seen_strides sh mapping (length out)) = false) in
  (fine -> exists r, diag_and_sum_contract lay d s a = Ok r
    /\ holds r (firstn start out ++ skipn (start + num) out) (fun idx =>
         sum_idx (firstn num (skipn start out)) (fun z =>
           nth_elem a (seen sh mapping (firstn start idx ++ z ++ skipn start idx)))))
  /\ (~ fine -> diag_and_sum_contract lay d s a = Panic).
Proof.
  intros Wa mapping out sh Hm Hlay' Hs Hn last fine. unfold diag_and_sum_contract.
  match goal with |- context [if ?b then _ else _] => destruct b eqn:E end.
  - apply andb_true_iff in E as [E1 E2].
    assert (Hc : is_contiguous a = true) by (unfold as_slice_memory_order in E1; destruct (is_contiguous a); auto).
    assert (Hp : Forall (fun s => 0 < s) (a_strides a)).
    { apply Forall_forall. intros x Hx. rewrite forallb_forall in E2. apply Z.ltb_lt. auto. }
    destruct Hlay' as [Es|[Hc'|He]]; [|congruence|].
    2:{ exfalso. apply Exists_exists in He as (x & Hx & H0). rewrite Forall_forall in Hp. specialize (Hp x Hx). lia. }
    assert (Hz : ~ In 0%nat sh).
    { intros Hz. rewrite Es in Hp. unfold default_strides in Hp.
      assert (Ee : is_empty_shape sh = true) by (unfold is_empty_shape; apply existsb_exists; exists 0%nat; auto).
      rewrite Ee in Hp. destruct sh as [|n sh']; [destruct Hz|]. inversion Hp; subst. lia. }
    assert (Ev : diagonalization_view d a = diagonalization_view d (mk_c sh (map (elem a) (indices sh)))).
    { unfold diagonalization_view. cbn [mk_c a_strides]. rewrite (row_major_slice a Wa Es Hz). fold sh. rewrite Es.
      rewrite (row_major_slice (mk_c sh (map (elem a) (indices sh)))); auto.
      - cbn [mk_c a_shape]. match goal with |- ?x = ?y => assert (Em : map (elem a) (indices sh) = map (elem (mk_c sh (map (elem a) (indices sh)))) (indices sh)) end.
        { apply map_ext_in. intros idx Hi. symmetry. apply indices_In in Hi. pose proof (holds_reshape_copy sh sh (elem a) eq_refl) as Hcp. rewrite (holds_elem _ _ _ _ Hcp Hi). unfold refold. rewrite unflat_flat; auto. }
        rewrite <- Em. auto.
      - apply holds_wf with (1 := holds_reshape_copy sh sh (elem a) eq_refl). }
    rewrite Ev. destruct (clone_view_any d a Hm) as [C1 C2]. fold sh in C1, C2.
    split; intros Hf.
    + destruct (C1 Hf) as (v & -> & Hv). cbn [rbind]. eapply sum_of_holds in Hv; eauto.
    + rewrite (C2 Hf). auto.
  - destruct (diagonal_any d a Wa Hm) as [C1 C2]. split; intros Hf.
    + destruct (C1 Hf) as (v & -> & Hv). cbn [rbind]. eapply sum_of_holds in Hv; eauto.
    + rewrite (C2 Hf). auto.
Qed.

End Diag.

(** ** The mapping of a Diagonalization *)

Lemma diagonal_mapping sc d : diagonalization_new sc = Ok d ->
  Forall (fun p => (p < length (diag_output_shape d))%nat) (input_to_output_mapping d)
  /\ (forall input, operand_indices (sc_contraction sc) = [input] ->
      incl (output_indices (sc_contraction sc)) input -> NoDup (output_indices (sc_contraction sc)) ->
      forall j, (j < length (diag_output_shape d))%nat -> In j (input_to_output_mapping d)).
Proof.
  unfold diagonalization_new. intros H. apply rbind_ok in H as (_ & _ & H). apply rbind_ok in H as (input & Ei & H).
  destruct (diag_mapping_ok input (output_indices (sc_contraction sc))) as (ex & m & E & H1 & H2 & H3).
  rewrite E in H. apply rbind_ok in H as (shape & Es & H). injection H as <-.
  cbn [input_to_output_mapping diag_output_shape]. rewrite (mapM_length _ _ _ Es).
  set (adj := output_indices (sc_contraction sc) ++ ex) in *. split.
  - clear - H3. induction H3 as [|c p input m Hp H3 IH]; constructor; auto.
    apply (position_nth _ _ _ Hp).
  - intros input' Ei' Hi Hn j Hj. rewrite Ei' in Ei. injection Ei as ->.
    assert (Hc : In (nth j adj 0%N) input).
    { assert (Ha : In (nth j adj 0%N) adj) by (apply nth_In; auto). unfold adj in Ha at 2.
      apply in_app_or in Ha as [Ha|Ha]; [auto|apply H2; auto]. }
    clear - Hc H3 H1 Hn Hj. induction H3 as [|c p input m Hp H3 IH]; [destruct Hc|].
    destruct Hc as [->|Hc]; [left|right; auto]. rewrite position_nth_NoDup in Hp by auto. congruence.
Qed.
