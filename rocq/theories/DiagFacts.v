(** The diagonal view: strides, bounds and ndarray's overlap check. *)
From Verif Require Import Base BaseFacts NDArray Validation Singleton Spec SumFacts ArrayFacts.
From Coq Require Import Lia Sorted.

Local Open Scope Z_scope.

(** ** Axes as (label, stride) pairs *)

Section Axes.
Variable size : char -> nat.

Definition axis := (char * Z)%type.
Definition lab (x : axis) : char := fst x.
Definition str (x : axis) : Z := snd x.
Definition dim (x : axis) : Z := Z.of_nat (size (lab x)).

(** Reach of an axis: (length - 1) * stride. *)
Definition reach (x : axis) : Z := (dim x - 1) * str x.
Definition total (T : list axis) : Z := zsum (map reach T).
Definition volume (T : list axis) : Z := fold_right Z.mul 1 (map dim T).

(** Sum of the strides of the axes carrying label [c]. *)
Definition label_stride (T : list axis) (c : char) : Z :=
  zsum (map str (filter (fun x => N.eqb (lab x) c) T)).

(** Contiguous in this order, innermost axis first. *)
Fixpoint chain (c : Z) (T : list axis) : Prop :=
  match T with
  | [] => True
  | x :: T' => (dim x = 1 \/ str x = c) /\ chain (c * dim x) T'
  end.

Definition positive (T : list axis) : Prop := Forall (fun x => 0 < str x) T.
Definition nonempty (T : list axis) : Prop := Forall (fun x => 1 <= dim x) T.

Lemma zsum_app a b : zsum (a ++ b) = zsum a + zsum b.
Proof. unfold zsum. induction a; simpl; lia. Qed.

Lemma total_app a b : total (a ++ b) = total a + total b.
Proof. unfold total. rewrite map_app. apply zsum_app. Qed.

Lemma volume_app a b : volume (a ++ b) = volume a * volume b.
Proof. unfold volume. rewrite map_app. induction (map dim a); cbn [app fold_right]; lia. Qed.

Lemma volume_pos T : nonempty T -> 1 <= volume T.
Proof.
  induction 1 as [|x T Hx HT IH]; unfold volume in *; cbn [map fold_right]; [lia|]. nia.
Qed.

Lemma chain_app c a b : chain c (a ++ b) <-> chain c a /\ chain (c * volume a) b.
Proof.
  revert c; induction a as [|x a IH]; intros c; cbn [app chain].
  - unfold volume. simpl. rewrite Z.mul_1_r. tauto.
  - rewrite IH. unfold volume. cbn [map fold_right]. rewrite Z.mul_assoc. tauto.
Qed.

Lemma chain_total c T : chain c T -> c + total T = c * volume T.
Proof.
  revert c; induction T as [|x T IH]; intros c; cbn [chain].
  - unfold total, volume. simpl. lia.
  - intros [H1 H2]. specialize (IH _ H2).
    change (total (x :: T)) with ((dim x - 1) * str x + total T).
    change (volume (x :: T)) with (dim x * volume T).
    destruct H1 as [H1|H1].
    + rewrite H1 in IH |- *. lia.
    + rewrite H1. lia.
Qed.

Lemma total_nonneg T : positive T -> nonempty T -> 0 <= total T.
Proof.
  unfold total, zsum. induction T as [|x T IH]; cbn [map fold_right]; intros Hp Hn; [lia|].
  inversion Hp; inversion Hn; subst. unfold reach at 1. specialize (IH H2 H6). nia.
Qed.

Lemma label_stride_app a b c : label_stride (a ++ b) c = label_stride a c + label_stride b c.
Proof. unfold label_stride. rewrite filter_app, map_app. apply zsum_app. Qed.

Lemma label_stride_cons c s T : label_stride ((c, s) :: T) c = s + label_stride T c.
Proof. unfold label_stride. cbn [filter lab fst]. rewrite N.eqb_refl. reflexivity. Qed.

Lemma label_stride_nonneg T c : positive T -> 0 <= label_stride T c.
Proof.
  unfold label_stride, zsum. induction 1 as [|x T Hx HT IH]; cbn [filter]; [simpl; lia|]. cbv beta in Hx.
  destruct (N.eqb (lab x) c); cbn [map fold_right]; lia.
Qed.

Lemma label_stride_notin T c : ~ In c (map lab T) -> label_stride T c = 0.
Proof.
  unfold label_stride. induction T as [|x T IH]; cbn [map filter]; intros H; auto.
  destruct (N.eqb_spec (lab x) c) as [E|E]; [exfalso; apply H; simpl; auto|].
  apply IH. intros Hi. apply H. simpl; auto.
Qed.

Lemma label_stride_in T c : positive T -> In c (map lab T) -> 0 < label_stride T c.
Proof.
  intros Hp. induction Hp as [|x T Hx HT IH]; cbn [map]; [intros []|].
  intros Hi. cbv beta in Hx. pose proof (label_stride_nonneg T c HT) as H0.
  unfold label_stride in *. cbn [filter].
  destruct (N.eqb_spec (lab x) c) as [E|E].
  - cbn [map]. unfold zsum in *. cbn [fold_right]. lia.
  - destruct Hi as [Hi|Hi]; [congruence|auto].
Qed.

Lemma label_stride_perm T T' c : Permutation T T' -> label_stride T c = label_stride T' c.
Proof.
  intros H. unfold label_stride. apply zsum_perm. apply Permutation_map.
  induction H; cbn [filter]; auto.
  - destruct (N.eqb (lab x) c); auto.
  - destruct (N.eqb (lab x) c), (N.eqb (lab y) c); auto. apply perm_swap.
  - eapply Permutation_trans; eauto.
Qed.

Lemma total_perm T T' : Permutation T T' -> total T = total T'.
Proof. intros H. apply zsum_perm, Permutation_map; auto. Qed.

Lemma Forall_perm {X} (P : X -> Prop) l l' : Permutation l l' -> Forall P l -> Forall P l'.
Proof.
  intros Hp H. rewrite Forall_forall in *. intros x Hx. apply H.
  eapply Permutation_in; [apply Permutation_sym|]; eauto.
Qed.

(** Total reach of the axes whose label is in [L]. *)
Definition total_in (L : list char) (T : list axis) : Z :=
  total (filter (fun x => mem (lab x) L) T).

Lemma total_in_le L T : positive T -> nonempty T -> total_in L T <= total T.
Proof.
  unfold total_in, total, zsum. induction T as [|x T IH]; cbn [filter map fold_right]; intros Hp Hn; [lia|].
  inversion Hp; inversion Hn; subst. specialize (IH H2 H6).
  assert (0 <= reach x) by (unfold reach; nia).
  destruct (mem (lab x) L); cbn [map fold_right]; lia.
Qed.

Lemma total_in_app L a b : total_in L (a ++ b) = total_in L a + total_in L b.
Proof. unfold total_in. rewrite filter_app. apply total_app. Qed.

Lemma total_in_notin L T : (forall x, In x T -> ~ In (lab x) L) -> total_in L T = 0.
Proof.
  unfold total_in. induction T as [|x T IH]; cbn [filter]; intros H; auto.
  rewrite (proj2 (mem_false (lab x) L)) by (apply H; simpl; auto).
  apply IH. intros y Hy. apply H; simpl; auto.
Qed.

Lemma total_in_flat L T : (forall x, In x T -> In (lab x) L -> dim x = 1) -> total_in L T = 0.
Proof.
  unfold total_in, total, zsum. induction T as [|x T IH]; cbn [filter]; intros H; auto.
  assert (E : fold_right Z.add 0 (map reach (filter (fun x => mem (lab x) L) T)) = 0).
  { apply IH. intros y Hy. apply H; simpl; auto. }
  destruct (mem (lab x) L) eqn:Em; auto. cbn [map fold_right]. rewrite E.
  unfold reach. rewrite H; [lia|simpl; auto|apply mem_In; auto].
Qed.

Lemma total_in_nil T : total_in [] T = 0.
Proof. apply total_in_notin. auto. Qed.

Lemma total_in_cons c L T : ~ In c L ->
  total_in (c :: L) T = (Z.of_nat (size c) - 1) * label_stride T c + total_in L T.
Proof.
  intros Hc. unfold total_in, total, label_stride, zsum.
  induction T as [|x T IH]; cbn [filter map fold_right]; [lia|].
  change (mem (lab x) (c :: L)) with (N.eqb (lab x) c || mem (lab x) L).
  destruct (N.eqb_spec (lab x) c) as [E|E].
  - cbn [orb]. rewrite (proj2 (mem_false (lab x) L)) by congruence.
    cbn [map fold_right]. rewrite IH. unfold reach at 1, dim. rewrite E. lia.
  - cbn [orb]. destruct (mem (lab x) L); cbn [map fold_right]; rewrite IH; lia.
Qed.

Lemma total_in_sum L T : NoDup L ->
  total_in L T = zsum (map (fun c => (Z.of_nat (size c) - 1) * label_stride T c) L).
Proof.
  induction 1 as [|c L Hc HL IH]; [apply total_in_nil|].
  rewrite total_in_cons by auto. unfold zsum in *. cbn [map fold_right]. lia.
Qed.

Lemma total_in_all L T : (forall x, In x T -> In (lab x) L) -> total_in L T = total T.
Proof.
  intros H. unfold total_in. f_equal. induction T as [|x T IH]; cbn [filter]; auto.
  rewrite (proj2 (mem_In (lab x) L)) by (apply H; simpl; auto). f_equal.
  apply IH. intros y Hy. apply H; simpl; auto.
Qed.

Lemma last_occurrence (T : list axis) c : In c (map lab T) ->
  exists T1 s T2, T = T1 ++ (c, s) :: T2 /\ ~ In c (map lab T2).
Proof.
  induction T as [|x T IH]; cbn [map]; [intros []|]. intros Hi.
  destruct (in_dec char_eq_dec c (map lab T)) as [H|H].
  - destruct (IH H) as (T1 & s & T2 & -> & H2). exists (x :: T1), s, T2. auto.
  - destruct Hi as [Hi|Hi]; [|contradiction]. destruct x as [d s]. unfold lab in Hi. simpl in Hi. subst d.
    exists [], s, T. auto.
Qed.

(** The key fact: the reach of the labels whose stride does not exceed that of [c] is smaller
    than the stride of [c]. *)
Lemma stride_dominates T c L :
  chain 1 T -> positive T -> nonempty T ->
  In c (map lab T) -> (2 <= size c)%nat -> ~ In c L ->
  (forall c', In c' L -> label_stride T c' <= label_stride T c) ->
  total_in L T < label_stride T c.
Proof.
  intros Hch Hp Hn Hc Hd HcL HL.
  destruct (last_occurrence T c Hc) as (T1 & s & T2 & -> & H2).
  unfold positive, nonempty in Hp, Hn.
  apply Forall_app in Hp as [P1 P2]. apply Forall_app in Hn as [N1 N2].
  inversion P2 as [|? ? Ps P3]; subst. inversion N2 as [|? ? Ns N3]; subst.
  apply chain_app in Hch as [C1 C2]. cbn [chain] in C2. destruct C2 as [C2 C3].
  pose proof (chain_total _ _ C1) as Ht. pose proof (volume_pos T1 N1) as Hv.
  assert (Hs : s = volume T1).
  { destruct C2 as [C2|C2]; [unfold dim in C2; cbn [lab fst] in C2; lia|]. cbn [str snd] in C2. lia. }
  assert (Hstride : label_stride (T1 ++ (c, s) :: T2) c = label_stride T1 c + s).
  { rewrite label_stride_app, label_stride_cons, (label_stride_notin T2) by auto. lia. }
  pose proof (label_stride_nonneg T1 c P1) as H0.
  assert (Hle : label_stride T1 c <= total T1).
  { transitivity ((Z.of_nat (size c) - 1) * label_stride T1 c); [nia|].
    transitivity (total_in [c] T1); [|apply total_in_le; auto].
    rewrite total_in_cons by (intros []). rewrite total_in_nil. lia. }
  assert (HT2 : forall x, In x T2 -> In (lab x) L -> dim x = 1).
  { intros x Hx HxL. destruct (Z.eq_dec (dim x) 1) as [E|E]; auto. exfalso.
    specialize (HL _ HxL). rewrite Hstride in HL.
    apply in_split in Hx as (U & V & ->). destruct x as [c' s']. cbn [lab fst] in *.
    apply chain_app in C3 as [C3 C4]. cbn [chain str snd] in C4. destruct C4 as [[C4|C4] _]; [contradiction|].
    apply Forall_app in N3 as [N3 N4]. pose proof (volume_pos U N3) as HvU.
    assert (Hlow : s' <= label_stride (T1 ++ (c, s) :: U ++ (c', s') :: V) c').
    { rewrite label_stride_app, app_comm_cons, label_stride_app.
      apply Forall_app in P3 as [P3 P4]. inversion P4 as [|? ? Ps' P5]; subst.
      pose proof (label_stride_nonneg T1 c' P1).
      assert (PU : positive ((c, volume T1) :: U)) by (constructor; auto).
      pose proof (label_stride_nonneg _ c' PU).
      pose proof (label_stride_nonneg V c' P5).
      rewrite (label_stride_cons c'). lia. }
    assert (Hbig : 2 * volume T1 <= s').
    { rewrite C4. unfold dim. cbn [lab fst].
      assert (2 * volume T1 <= volume T1 * Z.of_nat (size c)) by nia.
      assert (0 <= volume T1 * Z.of_nat (size c)) by nia. nia. }
    lia. }
  rewrite Hstride. rewrite total_in_app.
  rewrite (total_in_flat L ((c, s) :: T2)).
  - pose proof (total_in_le L T1 P1 N1). lia.
  - intros x [<-|Hx]; auto. intros Hx. contradiction.
Qed.

(** Weighted sums over labels and over axes. *)
Definition wtotal (w : char -> Z) (T : list axis) : Z := zsum (map (fun x => w (lab x) * str x) T).

Lemma wtotal_perm w T T' : Permutation T T' -> wtotal w T = wtotal w T'.
Proof. intros H. apply zsum_perm, Permutation_map; auto. Qed.

Lemma label_stride_step x T c :
  label_stride (x :: T) c = (if N.eqb (lab x) c then str x else 0) + label_stride T c.
Proof. unfold label_stride. cbn [filter]. destruct (N.eqb (lab x) c); auto. Qed.

Lemma wtotal_labels w L T : NoDup L -> (forall x, In x T -> In (lab x) L) ->
  zsum (map (fun c => w c * label_stride T c) L) = wtotal w T.
Proof.
  intros HL. induction T as [|x T IH]; intros H.
  - unfold wtotal, label_stride. cbn [filter map]. clear. induction L as [|c L IH]; auto.
    unfold zsum in *. cbn [map fold_right] in *. rewrite IH. lia.
  - unfold wtotal in *. cbn [map]. change (zsum (w (lab x) * str x :: ?l)) with (w (lab x) * str x + zsum l).
    rewrite <- IH by (intros y Hy; apply H; simpl; auto).
    assert (Hx : In (lab x) L) by (apply H; simpl; auto). clear IH H.
    assert (E : forall L, NoDup L ->
      zsum (map (fun c => w c * label_stride (x :: T) c) L)
      = (if mem (lab x) L then w (lab x) * str x else 0) + zsum (map (fun c => w c * label_stride T c) L)).
    { clear. induction 1 as [|c L Hc HL IH]; [reflexivity|].
      cbn [map]. change (zsum (?a :: ?l)) with (a + zsum l). rewrite IH.
      rewrite label_stride_step.
      change (mem (lab x) (c :: L)) with (N.eqb (lab x) c || mem (lab x) L).
      destruct (N.eqb_spec (lab x) c) as [E|E]; cbn [orb]; [|lia].
      rewrite E. rewrite (proj2 (mem_false c L)) by auto. lia. }
    rewrite E by auto. rewrite (proj2 (mem_In _ _) Hx). auto.
Qed.

Lemma wtotal_bounds w T : positive T -> (forall x, In x T -> 0 <= w (lab x) <= dim x - 1) ->
  0 <= wtotal w T <= total T.
Proof.
  unfold wtotal, total, zsum. induction 1 as [|x T Hx HT IH]; cbn [map fold_right]; intros H; [lia|].
  cbv beta in Hx. assert (Hw := H x (or_introl eq_refl)).
  assert (0 <= fold_right Z.add 0 (map (fun x => w (lab x) * str x) T)
          <= fold_right Z.add 0 (map reach T)) by (apply IH; intros y Hy; apply H; simpl; auto).
  change (reach x) with ((dim x - 1) * str x). nia.
Qed.

Lemma dot_off_wtotal (e : char -> nat) this strides :
  length this = length strides ->
  dot_off (map e this) strides = wtotal (fun c => Z.of_nat (e c)) (combine this strides).
Proof.
  revert strides; induction this as [|c this IH]; intros [|s strides] H; simpl in *; try discriminate; auto.
  rewrite IH by lia. reflexivity.
Qed.

Lemma dot_off_labels (e : char -> nat) (S : char -> Z) L :
  dot_off (map e L) (map S L) = zsum (map (fun c => Z.of_nat (e c) * S c) L).
Proof. apply dot_off_zsum. Qed.

Lemma volume_prod this strides : length this = length strides ->
  volume (combine this strides) = Z.of_nat (prod (map size this)).
Proof.
  revert strides; induction this as [|c this IH]; intros [|s strides] H; simpl in *; try discriminate; auto.
  change (volume ((c, s) :: combine this strides)) with (Z.of_nat (size c) * volume (combine this strides)).
  rewrite IH by lia. change (prod (size c :: map size this)) with (size c * prod (map size this))%nat. lia.
Qed.

Lemma volume_perm T T' : Permutation T T' -> volume T = volume T'.
Proof. unfold volume. induction 1; cbn [map fold_right]; lia. Qed.

Lemma labels_combine this (strides : list Z) : length this = length strides ->
  map lab (combine this strides) = this.
Proof.
  revert strides; induction this as [|c this IH]; intros [|s strides] H; simpl in *; try discriminate; auto.
  f_equal. apply IH. lia.
Qed.

(** ** Contiguous arrays are chains *)

Lemma c_strides_chain this :
  chain 1 (rev (combine this (c_strides (map size this)))).
Proof.
  induction this as [|c this IH]; simpl; auto.
  apply chain_app. split; auto. cbn [chain]. split; auto. right. cbn [str snd].
  rewrite (volume_perm _ (combine this (c_strides (map size this)))) by (apply Permutation_sym, Permutation_rev).
  rewrite volume_prod by (rewrite c_strides_length, map_length; auto). lia.
Qed.

Lemma contiguous_chain this strides order : forall c,
  Forall (fun i => i < length this)%nat order ->
  contiguous_from c (map size this) strides order = true ->
  chain c (map (fun i => (nth i this 0%N, nth i strides 0)) order).
Proof.
  induction order as [|i order IH]; intros c Hf H; simpl in *; auto.
  inversion Hf; subst.
  assert (Ed : nth i (map size this) 0%nat = size (nth i this 0%N)).
  { rewrite (nth_indep _ _ (size 0%N)) by (rewrite map_length; auto). apply map_nth. }
  rewrite Ed in H.
  destruct (negb (Nat.eqb (size (nth i this 0%N)) 1) && negb (Z.eqb (nth i strides 0) c)) eqn:E;
    [discriminate|].
  split; [|apply IH; auto].
  apply andb_false_iff in E as [E|E]; apply negb_false_iff in E.
  - left. unfold dim, lab. cbn [fst]. apply Nat.eqb_eq in E. lia.
  - right. apply Z.eqb_eq in E. auto.
Qed.

Lemma list_Z_eqb_eq a b : list_Z_eqb a b = true <-> a = b.
Proof.
  revert b; induction a as [|x a IH]; intros [|y b]; simpl; split; try discriminate; auto.
  - rewrite andb_true_iff, Z.eqb_eq, IH. intros [-> ->]; auto.
  - intros E; injection E as -> ->. rewrite Z.eqb_refl. apply IH. auto.
Qed.

Lemma insert_by_perm key i l : Permutation (insert_by key i l) (i :: l).
Proof.
  induction l as [|j l IH]; simpl; auto. destruct (Z.leb (key i) (key j)); auto.
  eapply Permutation_trans; [apply perm_skip, IH|]. apply perm_swap.
Qed.

Lemma sort_by_perm key l : Permutation (fold_right (insert_by key) [] l) l.
Proof.
  induction l as [|i l IH]; simpl; auto.
  eapply Permutation_trans; [apply insert_by_perm|]. apply perm_skip; auto.
Qed.

Lemma insert_by_sorted key i l :
  StronglySorted (fun a b => key a <= key b) l ->
  StronglySorted (fun a b => key a <= key b) (insert_by key i l).
Proof.
  induction 1 as [|j l Hs IH Hf]; simpl.
  - repeat constructor.
  - destruct (Z.leb_spec (key i) (key j)).
    + constructor; [constructor; auto|]. constructor; auto.
      eapply Forall_impl; [|exact Hf]. simpl. intros; lia.
    + constructor; auto. eapply Forall_perm; [apply Permutation_sym, insert_by_perm|].
      constructor; auto. lia.
Qed.

Lemma sort_by_sorted key l :
  StronglySorted (fun a b => key a <= key b) (fold_right (insert_by key) [] l).
Proof. induction l; simpl; [constructor|apply insert_by_sorted; auto]. Qed.

Lemma stride_order_perm strides : Permutation (stride_order strides) (seq 0 (length strides)).
Proof. apply sort_by_perm. Qed.

Lemma combine_nth_seq (this : list char) strides : length this = length strides ->
  map (fun i => (nth i this 0%N, nth i strides 0)) (seq 0 (length this)) = combine this strides.
Proof.
  revert strides; induction this as [|c this IH]; intros [|s strides] H; simpl in *; try discriminate; auto.
  f_equal. rewrite <- seq_shift, map_map. apply IH. lia.
Qed.

Lemma is_contiguous_chain {A} (t : arr A) this :
  a_shape t = map size this -> length (a_strides t) = length this ->
  (forall c, In c this -> size c <> 0%nat) ->
  is_contiguous t = true ->
  exists T, Permutation T (combine this (a_strides t)) /\ chain 1 T.
Proof.
  intros Hs Hl Hne H. unfold is_contiguous in H. apply orb_true_iff in H as [H|H].
  - apply list_Z_eqb_eq in H. rewrite H, Hs.
    unfold default_strides. rewrite (proj2 (is_empty_In (map size this))).
    + exists (rev (combine this (c_strides (map size this)))). split.
      * apply Permutation_sym, Permutation_rev.
      * apply c_strides_chain.
    + intros d Hd. apply in_map_iff in Hd as (c & <- & Hc). auto.
  - apply andb_true_iff in H as [_ H]. rewrite Hs in H.
    pose proof (stride_order_perm (a_strides t)) as Hp.
    exists (map (fun i => (nth i this 0%N, nth i (a_strides t) 0)) (stride_order (a_strides t))).
    split.
    + rewrite <- combine_nth_seq by auto. apply Permutation_map. rewrite <- Hl. auto.
    + apply contiguous_chain; auto. apply Forall_forall. intros i Hi.
      apply (Permutation_in _ Hp), in_seq in Hi. lia.
Qed.

(** ** The strides of the view *)

Lemma set_nth_map {B} (g : char -> B) L c p x :
  NoDup L -> position c L = Some p ->
  set_nth p x (map g L) = map (fun d => if N.eqb d c then x else g d) L.
Proof.
  revert p; induction L as [|d L IH]; intros p Hn Hp; simpl in *; [discriminate|].
  inversion Hn; subst.
  destruct (N.eqb_spec d c) as [->|E].
  - injection Hp as <-. simpl. f_equal. apply map_ext_in. intros d Hd.
    destruct (N.eqb_spec d c); [subst; contradiction|auto].
  - destruct (position c L) as [q|] eqn:Eq; simpl in Hp; [|discriminate].
    injection Hp as <-. simpl. f_equal. auto.
Qed.

Lemma add_strides_ok mapping L : NoDup L ->
  forall this strides k g m',
    length this = length strides ->
    Forall (fun s => 0 < s) strides ->
    Forall2 (fun c p => position c L = Some p) this m' ->
    (forall j, (j < length m')%nat -> nth_error mapping (k + j) = nth_error m' j) ->
    foldM (add_stride mapping) (combine (seq k (length strides)) strides) (map g L)
    = Ok (map (fun c => g c + label_stride (combine this strides) c) L).
Proof.
  intros HL. induction this as [|c this IH]; intros [|s strides] k g m' Hl Hs HF Hm;
    simpl in Hl; try discriminate.
  - simpl. f_equal. apply map_ext. intros c. unfold label_stride. simpl. lia.
  - inversion Hs as [|? ? Hs1 Hs2]; subst. inversion HF as [|? p ? m1 Hp HF']; subst.
    cbn [length seq combine foldM]. unfold add_stride at 1.
    rewrite rassert_true by (apply Z.ltb_lt; auto). cbn [rbind].
    assert (E0 := Hm 0%nat). rewrite Nat.add_0_r in E0. simpl in E0.
    rewrite (index_some mapping k p) by (apply E0; lia). cbn [rbind].
    pose proof (position_nth_error _ _ _ Hp) as Hnth.
    rewrite (index_some (map g L) p (g c)) by (rewrite nth_error_map, Hnth; auto). cbn [rbind].
    rewrite (set_nth_map g L c p) by auto.
    rewrite (IH strides (S k) _ m1); auto.
    + f_equal. apply map_ext_in. intros d Hd. rewrite label_stride_step.
      unfold lab, str. cbn [fst snd].
      destruct (N.eqb_spec d c), (N.eqb_spec c d); subst; try congruence; lia.
    + intros j Hj. specialize (Hm (S j)). simpl in Hm. rewrite Nat.add_succ_r in Hm. simpl. apply Hm. lia.
Qed.

(** ** ndarray's checks *)

Lemma NoDup_nth_inj {B C} (g : B -> C) l :
  (forall a b, In a l -> In b l -> g a = g b -> a = b) -> NoDup l -> NoDup (map g l).
Proof.
  intros Hi Hn. induction Hn as [|x l Hx Hn IH]; simpl; constructor.
  - rewrite in_map_iff. intros (y & E & Hy). apply Hx.
    rewrite <- (Hi y x); simpl; auto.
  - apply IH. intros a b Ha Hb. apply Hi; simpl; auto.
Qed.


Lemma overlap_from_false dims strides : forall order prev,
  (forall i, In i order -> (1 <= nth i dims 0)%nat) ->
  (forall v i r, order = v ++ i :: r -> (2 <= nth i dims 0)%nat ->
     prev + zsum (map (fun j => (Z.of_nat (nth j dims 0%nat) - 1) * Z.abs (nth j strides 0)) v)
     < Z.abs (nth i strides 0)) ->
  overlap_from prev dims strides order = false.
Proof.
  induction order as [|i order IH]; intros prev H1 H2; [reflexivity|].
  cbn [overlap_from].
  assert (Hd : (1 <= nth i dims 0)%nat) by (apply H1; simpl; auto).
  destruct (nth i dims 0%nat) as [|[|d]] eqn:Ed; [lia| |].
  - apply IH; [intros; apply H1; simpl; auto|].
    intros v j r -> Hj. specialize (H2 (i :: v) j r eq_refl Hj). cbn [map] in H2.
    rewrite Ed in H2. unfold zsum in *. cbn [fold_right] in H2. lia.
  - assert (H0 := H2 [] i order eq_refl). rewrite Ed in H0. cbn [map zsum fold_right] in H0.
    destruct (Z.leb_spec (Z.abs (nth i strides 0)) prev); [unfold zsum in H0; simpl in H0; lia|].
    apply IH; [intros; apply H1; simpl; auto|].
    intros v j r -> Hj. specialize (H2 (i :: v) j r eq_refl Hj). cbn [map] in H2.
    rewrite Ed in H2. unfold zsum in *. cbn [fold_right] in H2. lia.
Qed.

Lemma max_abs_offset_labels (Sf : char -> Z) L :
  (forall c, In c L -> size c <> 0%nat /\ 0 <= Sf c) ->
  max_abs_offset (map size L) (map Sf L) = zsum (map (fun c => (Z.of_nat (size c) - 1) * Sf c) L).
Proof.
  induction L as [|c L IH]; intros H; [reflexivity|].
  cbn [map max_abs_offset]. rewrite IH by (intros; apply H; simpl; auto).
  destruct (H c (or_introl eq_refl)). unfold zsum. cbn [fold_right].
  rewrite Z.abs_eq by auto. f_equal. f_equal. lia.
Qed.

Lemma nth_map_label {B} (g : char -> B) L i d : (i < length L)%nat ->
  nth i (map g L) d = g (nth i L 0%N).
Proof.
  intros H. rewrite (nth_indep _ _ (g 0%N)) by (rewrite map_length; auto). apply map_nth.
Qed.

Lemma no_overlap T L :
  chain 1 T -> positive T -> nonempty T -> NoDup L ->
  (forall c, In c L <-> In c (map lab T)) ->
  dim_stride_overlap (map size L) (map (label_stride T) L) = false.
Proof.
  intros Hch Hp Hn HL HLT. unfold dim_stride_overlap.
  set (st := map (label_stride T) L).
  pose proof (stride_order_perm st) as Hperm.
  assert (Hlen : length st = length L) by apply map_length.
  assert (Hbound : forall i, In i (stride_order st) -> (i < length L)%nat).
  { intros i Hi. apply (Permutation_in _ Hperm), in_seq in Hi. lia. }
  assert (Hnz : forall i, (i < length L)%nat -> (1 <= size (nth i L 0%N))%nat).
  { intros i Hi. assert (Hin : In (nth i L 0%N) L) by (apply nth_In; auto).
    apply HLT, in_map_iff in Hin as (x & <- & Hx).
    unfold nonempty in Hn. rewrite Forall_forall in Hn. specialize (Hn x Hx). unfold dim in Hn. lia. }
  assert (Habs : forall i, (i < length L)%nat -> Z.abs (nth i st 0) = label_stride T (nth i L 0%N)).
  { intros i Hi. unfold st. rewrite nth_map_label by auto. apply Z.abs_eq, label_stride_nonneg; auto. }
  assert (Hnd : NoDup (stride_order st)).
  { eapply Permutation_NoDup; [apply Permutation_sym, Hperm|apply seq_NoDup]. }
  apply overlap_from_false.
  - intros i Hi. rewrite nth_map_label by auto. auto.
  - intros v i r E Hd.
    assert (Hiv : In i (stride_order st)) by (rewrite E; apply in_or_app; simpl; auto).
    assert (Hvv : forall j, In j v -> In j (stride_order st)) by (intros; rewrite E; apply in_or_app; auto).
    rewrite nth_map_label in Hd by auto.
    rewrite Habs by auto. rewrite Z.add_0_l.
    set (V := map (fun j => nth j L 0%N) v).
    assert (HVnd : NoDup V).
    { unfold V. apply NoDup_nth_inj.
      - intros a b Ha Hb Eab. apply (proj1 (NoDup_nth L 0%N) HL); auto.
      - rewrite E in Hnd. clear - Hnd. induction v as [|a v IH]; [constructor|].
        simpl in Hnd. inversion Hnd; subst. constructor; auto.
        intros Hi. apply H1. apply in_or_app; auto. }
    replace (zsum _) with (total_in V T).
    + apply stride_dominates; auto.
      * apply HLT. apply nth_In; auto.
      * unfold V. rewrite in_map_iff. intros (j & Ej & Hj).
        assert (j = i) by (apply (proj1 (NoDup_nth L 0%N) HL); auto). subst j.
        rewrite E in Hnd. apply NoDup_remove_2 in Hnd. apply Hnd, in_or_app; auto.
      * intros c' Hc'. apply in_map_iff in Hc' as (j & <- & Hj).
        rewrite <- !Habs by auto.
        pose proof (sort_by_sorted (fun i => Z.abs (nth i st 0)) (seq 0 (length st))) as Hsort.
        change (fold_right _ _ _) with (stride_order st) in Hsort.
        rewrite E in Hsort. clear - Hsort Hj.
        induction v as [|a v IH]; [contradiction|]. simpl in Hsort.
        inversion Hsort; subst. destruct Hj as [->|Hj]; auto.
        rewrite Forall_forall in H2. apply H2. apply in_or_app; simpl; auto.
    + rewrite total_in_sum by auto. unfold V. rewrite map_map. f_equal.
      apply map_ext_in. intros j Hj. rewrite Habs, nth_map_label by auto. auto.
Qed.

End Axes.

(** ** The view *)

Lemma is_empty_labels (size : char -> nat) L :
  (forall c, In c L -> size c <> 0%nat) -> is_empty_shape (map size L) = false.
Proof.
  intros H. apply is_empty_In. intros d Hd. apply in_map_iff in Hd as (c & <- & Hc). auto.
Qed.

Lemma in_bounds_map' (size : char -> nat) L e : in_range size L e ->
  in_bounds (map size L) (map e L) = true.
Proof. apply in_bounds_map. Qed.

Lemma nth_error_firstn_lt {A} (l : list A) n k : (k < n)%nat -> nth_error (firstn n l) k = nth_error l k.
Proof.
  revert n k; induction l as [|x l IH]; intros [|n] [|k] H; simpl; auto; try lia. apply IH. lia.
Qed.

Lemma nth_error_skipn' {A} (l : list A) n k : nth_error (skipn n l) k = nth_error l (n + k).
Proof.
  revert n; induction l as [|x l IH]; intros [|n]; simpl; auto. destruct k; auto.
Qed.

Lemma znth_slice {A} (l : list A) o n z :
  0 <= o -> (0 <= z < Z.of_nat n) ->
  znth (firstn n (skipn (Z.to_nat o) l)) z = znth l (o + z).
Proof.
  intros Ho Hz. unfold znth.
  destruct (Z.ltb_spec z 0); [lia|]. destruct (Z.ltb_spec (o + z) 0); [lia|].
  rewrite nth_error_firstn_lt by lia. rewrite nth_error_skipn'.
  f_equal. lia.
Qed.

Theorem diagonalization_view_lrep {A} {Sc : Scalar A} (size : char -> nat) (t : arr A) this L mapping F :
  lrep size t this F ->
  (forall c, In c this -> size c <> 0%nat) ->
  is_contiguous t = true -> Forall (fun s => 0 < s) (a_strides t) ->
  NoDup L -> (forall c, In c L <-> In c this) ->
  Forall2 (fun c p => position c L = Some p) this mapping ->
  exists v, diagonalization_view (mkDiag mapping (map size L)) t = Ok v /\ lrep size v L F.
Proof.
  intros (Hsh & Hstl & Hget) Hne Hct Hpos HL HLthis HF.
  destruct (is_contiguous_chain size t this) as (T & HT & Hch); auto.
  set (T0 := combine this (a_strides t)) in *.
  assert (Hlab0 : map lab T0 = this) by (apply labels_combine; auto).
  assert (Hlab : forall c, In c L <-> In c (map lab T)).
  { intros c. rewrite HLthis. rewrite <- Hlab0 at 1.
    split; apply Permutation_in; apply Permutation_map; auto. apply Permutation_sym; auto. }
  assert (Hp0 : positive T0).
  { apply Forall_forall. intros [c s] Hx. apply in_combine_r in Hx.
    rewrite Forall_forall in Hpos. apply Hpos. auto. }
  assert (Hn0 : nonempty size T0).
  { apply Forall_forall. intros [c s] Hx. apply in_combine_l in Hx. apply Hne in Hx.
    unfold dim, lab. simpl. lia. }
  assert (HpT : positive T) by (eapply Forall_perm; [apply Permutation_sym|]; eauto).
  assert (HnT : nonempty size T) by (eapply Forall_perm; [apply Permutation_sym|]; eauto).
  assert (HlsT : forall c, label_stride T0 c = label_stride T c).
  { intros c. apply label_stride_perm. apply Permutation_sym; auto. }
  assert (HneL : forall c, In c L -> size c <> 0%nat) by (intros c Hc; apply Hne, HLthis; auto).
  assert (Htot : total size T0 = Z.of_nat (prod (map size this)) - 1).
  { rewrite (total_perm size T0 T) by (apply Permutation_sym; auto).
    pose proof (chain_total _ _ _ Hch).
    rewrite (volume_perm _ T T0) in H by auto.
    unfold T0 in H at 1. rewrite volume_prod in H by auto. lia. }
  set (st := map (label_stride T0) L).
  set (V := prod (map size this)).
  set (dat := firstn V (skipn (Z.to_nat (a_off t)) (a_data t))).
  (* reads of [t] *)
  assert (Hread : forall e, in_range size this e ->
            znth (a_data t) (a_off t + dot_off (map e this) (a_strides t)) = Some (F e)).
  { intros e He. specialize (Hget e He). unfold a_get in Hget.
    rewrite Hsh, in_bounds_map' in Hget by auto.
    destruct (znth _ _); simpl in Hget; congruence. }
  assert (Hoff : 0 <= a_off t).
  { assert (E := Hread (fun _ => 0%nat)). apply znth_Some in E.
    - rewrite dot_off_wtotal in E by auto.
      replace (wtotal _ _) with 0 in E; [lia|].
      unfold wtotal. symmetry. generalize (combine this (a_strides t)) as TT. clear.
      induction TT; simpl; auto.
    - intros c Hc. apply Hne in Hc. lia. }
  assert (Hmax : a_off t + total size T0 < Z.of_nat (length (a_data t))).
  { assert (E := Hread (fun c => size c - 1)%nat). apply znth_Some in E.
    - rewrite dot_off_wtotal in E by auto. fold T0 in E.
      replace (wtotal _ T0) with (total size T0) in E; [lia|].
      unfold total, wtotal. f_equal. apply map_ext_in. intros x Hx. unfold reach, dim.
      assert (size (lab x) <> 0)%nat; [|f_equal; lia].
      apply Hne. rewrite <- Hlab0. apply in_map; auto.
    - intros c Hc. apply Hne in Hc. lia. }
  assert (HVpos : 1 <= Z.of_nat V).
  { unfold V. rewrite <- (volume_prod size this (a_strides t)) by auto. apply volume_pos; auto. }
  assert (Hlen : length dat = V).
  { unfold dat. apply firstn_length_le. rewrite skipn_length. fold V in Htot. lia. }
  assert (Hin0 : forall x, In x T0 -> In (lab x) L).
  { intros x Hx. apply HLthis. rewrite <- Hlab0. apply in_map; auto. }
  exists (mkArr dat 0 (map size L) st). split.
  - unfold diagonalization_view. cbn [input_to_output_mapping diag_output_shape].
    rewrite map_map.
    rewrite (add_strides_ok mapping L HL this (a_strides t) 0 (fun _ => 0) mapping); auto.
    cbn [rbind]. fold T0.
    unfold as_slice_memory_order. rewrite Hct. cbn [unwrap rbind]. rewrite Hsh. fold V. fold dat.
    assert (Est : map (fun c => 0 + label_stride T0 c) L = st) by (apply map_ext; intros; lia).
    rewrite Est. unfold view_from_shape. rewrite is_empty_labels by auto.
    assert (Emax : max_abs_offset (map size L) st = Z.of_nat V - 1).
    { unfold st. rewrite max_abs_offset_labels.
      - rewrite <- total_in_sum by auto. rewrite total_in_all by auto. auto.
      - intros c Hc. split; auto. apply label_stride_nonneg; auto. }
    rewrite Emax, Hlen.
    destruct (Z.leb_spec (Z.of_nat V) (Z.of_nat V - 1)); [lia|].
    replace st with (map (label_stride T) L) by (unfold st; apply map_ext; intros; auto).
    rewrite no_overlap; auto.
  - split; [reflexivity|]. split; [apply map_length|]. intros e He. cbn [a_shape a_strides a_data a_off].
    assert (He' : in_range size this e) by (intros c Hc; apply He, HLthis; auto).
    unfold a_get. cbn [a_shape a_strides a_data a_off]. rewrite in_bounds_map' by auto.
    unfold st. rewrite dot_off_labels.
    rewrite wtotal_labels by auto. rewrite Z.add_0_l.
    unfold T0. rewrite <- dot_off_wtotal by auto. unfold dat.
    assert (Hb : 0 <= dot_off (map e this) (a_strides t) <= total size T0).
    { rewrite dot_off_wtotal by auto. apply wtotal_bounds; auto.
      intros x Hx. assert (In (lab x) this) by (rewrite <- Hlab0; apply in_map; auto).
      specialize (He' _ H). unfold dim. lia. }
    rewrite znth_slice by (auto; fold V in Htot; lia).
    rewrite Hread by auto. reflexivity.
Qed.
