(** Einstein sums in blocks, and with two labels merged into one (C58). *)
From Verif Require Import Base BaseFacts NDArray Validation Optimizers Strategies Singleton Pair Path
  Api Spec ValidationFacts SumFacts ArrayFacts SingletonFacts PairFacts PairMain PathFacts EinsumMain
  EinsumProps AlgebraFacts StagedFacts.
From Coq Require Import Lia.

(** The labels [ix] without [d]. *)
Definition drop_label (d : char) (ix : list char) : list char := filter (fun x => negb (N.eqb x d)) ix.

Section Blocks.
Context {A : Type} {Sc : Scalar A}.

(** [b] is the part of [a] in which the label [c], of length [len] in [b], starts at [off]. *)
Definition part (size : char -> nat) (c : char) (off len : nat) (ix : list char) (a b : arr A) : Prop :=
  a_shape b = map (upd size c len) ix
  /\ forall e : env, in_bounds (a_shape b) (map e ix) = true ->
       elem b (map e ix) = elem a (map (upd e c (off + e c)) ix).

(** [b] is [a] with the labels [c] and [d] merged into [c], whose values count through those of [c]
    and, faster, those of [d]. *)
Definition merged (size : char -> nat) (c d : char) (ix : list char) (a b : arr A) : Prop :=
  a_shape b = map (upd size c (size c * size d)) (drop_label d ix)
  /\ forall e : env, in_bounds (a_shape a) (map e ix) = true ->
       elem b (map (upd e c (e c * size d + e d)) (drop_label d ix)) = elem a (map e ix).

(** [b] read at an assignment is [a] read at the assignment changed by [T]. *)
Definition reads (size : char -> nat) (T : env -> env) (ix' ix : list char) (b a : arr A) : Prop :=
  forall e, in_range size ix' e -> elem b (map e ix') = elem a (map (T e) ix).

Lemma term_reads size T bs ops' arrays ops e :
  Forall2 (fun p q => reads size T (snd p) (snd q) (fst p) (fst q)) (combine bs ops') (combine arrays ops) ->
  length bs = length ops' -> in_range size (concat ops') e -> term bs ops' e = term arrays ops (T e).
Proof.
  revert ops' arrays ops; induction bs as [|b bs IH]; intros [|ix' ops'] arrays ops H Hl He; simpl in *; try discriminate.
  - inversion H; subst. unfold term. destruct arrays, ops; simpl in *; auto; discriminate.
  - destruct arrays as [|a arrays]; [inversion H|].
    destruct ops as [|ix ops]; [inversion H|]. simpl in *. inversion H; subst. rewrite !term_cons.
    cbn [fst snd] in *. f_equal.
    + apply H3. eapply in_range_incl; [|exact He]. apply incl_appl, incl_refl.
    + apply IH; auto. eapply in_range_incl; [|exact He]. apply incl_appr, incl_refl.
Qed.

Hypothesis SR : semiring A.
Let NS : near_semiring A := semiring_near SR.

Lemma nested_sum_shift size cs ds c (f : nat -> nat) (F : env -> A) : ~ In c cs -> dep F ds -> forall e,
  nested_sum size cs (fun e => F (upd e c (f (e c)))) e = nested_sum size cs F (upd e c (f (e c))).
Proof.
  intros Hc Hd. induction cs as [|d cs IH]; intros e; cbn [nested_sum]; auto.
  apply sum_n_ext. intros i _. rewrite IH by (intros H; apply Hc; right; auto).
  apply (nested_sum_agree size cs ds); auto. intros x _ _. unfold upd.
  destruct (N.eqb_spec x c), (N.eqb_spec x d), (N.eqb_spec c d); subst; auto; exfalso; apply Hc; left; auto.
Qed.

(** *** Parts *)

Lemma part_reads size c off len ix a b : part size c off len ix a b ->
  reads (upd size c len) (fun e => upd e c (off + e c)) ix ix b a.
Proof. intros [H1 H2] e He. apply H2. rewrite H1. apply in_bounds_range; auto. Qed.

Lemma parts_reads size c off len ops : forall (arrays bs : list (arr A)),
  length arrays = length ops -> length bs = length ops ->
  Forall2 (fun p b => part size c off len (snd p) (fst p) b) (combine arrays ops) bs ->
  Forall2 (fun p q => reads (upd size c len) (fun e => upd e c (off + e c)) (snd p) (snd q) (fst p) (fst q))
    (combine bs ops) (combine arrays ops).
Proof.
  induction ops as [|ix ops IH]; intros [|a arrays] [|b bs] H1 H2 H; simpl in *; try discriminate; auto.
  inversion H; subst. constructor; auto. cbn [fst snd]. apply part_reads. auto.
Qed.

Lemma parts_shapes size c off len ops : forall (arrays bs : list (arr A)),
  length arrays = length ops ->
  Forall2 (fun p b => part size c off len (snd p) (fst p) b) (combine arrays ops) bs ->
  shapes_ok (upd size c len) ops (map (@a_shape A) bs).
Proof.
  induction ops as [|ix ops IH]; intros [|a arrays] bs H1 H; simpl in *; try discriminate; inversion H as [|? ? ? ? HP]; subst; constructor.
  - apply HP.
  - eapply IH; eauto.
Qed.

(** A value of the output label [c]. *)
Lemma part_value_kept size c off len (arrays bs : list (arr A)) ops out (e : env) :
  length arrays = length ops -> length bs = length ops -> NoDup out -> In c out ->
  Forall2 (fun p b => part size c off len (snd p) (fst p) b) (combine arrays ops) bs ->
  in_bounds (map (upd size c len) out) (map e out) = true ->
  einsum_value (upd size c len) bs ops out (map e out)
  = einsum_value size arrays ops out (map (upd e c (off + e c)) out).
Proof.
  intros H1 H2 Hn Hc HP Ho.
  rewrite (einsum_value_ext_in (upd size c len) bs ops out _ (fun e => term arrays ops (upd e c (off + e c)))); auto.
  2:{ intros e' He'. apply (term_reads (upd size c len) (fun e => upd e c (off + e c))); auto. apply parts_reads; auto. }
  unfold einsum_value. set (sl := summed_labels ops out).
  assert (Hsl : ~ In c sl) by (intros H; apply summed_labels_In in H; tauto).
  rewrite (nested_sum_size _ size sl) by (intros d Hd; apply upd_other; intros ->; auto).
  rewrite (nested_sum_shift size sl (concat ops)) by (auto; apply term_dep).
  apply (nested_sum_agree size sl (concat ops)); [apply term_dep|]. intros d Hd Hs.
  assert (Hdo : In d out) by (destruct (in_dec N.eq_dec d out); auto; exfalso; apply Hs, summed_labels_In; auto).
  rewrite (bind_map (upd e c (off + e c)) out d Hdo). unfold upd at 1 2. rewrite (bind_map e out c Hc).
  destruct (N.eqb_spec d c); auto. apply bind_map; auto.
Qed.

(** One block of a sum over [c]. *)
Lemma part_value_summed size c off len (arrays bs : list (arr A)) ops out o :
  length arrays = length ops -> length bs = length ops -> NoDup out -> In c (concat ops) -> ~ In c out ->
  Forall2 (fun p b => part size c off len (snd p) (fst p) b) (combine arrays ops) bs ->
  in_bounds (map size out) o = true ->
  einsum_value (upd size c len) bs ops out o
  = sum_n len (fun i => nested_sum size (filter (fun d => negb (N.eqb d c)) (summed_labels ops out))
                          (term arrays ops) (upd (bind out o) c (off + i))).
Proof.
  intros H1 H2 Hn Hi Hc HP Ho. set (sl := summed_labels ops out). set (rest := filter (fun d => negb (N.eqb d c)) sl).
  assert (Hp : Permutation sl (c :: rest)).
  { apply NoDup_Permutation.
    - apply summed_labels_NoDup.
    - constructor; [unfold rest; rewrite filter_In, N.eqb_refl; simpl; intros [_ ?]; discriminate|].
      apply NoDup_filter, summed_labels_NoDup.
    - intros d. unfold rest. simpl. rewrite filter_In, negb_true_iff, N.eqb_neq. unfold sl.
      rewrite summed_labels_In. destruct (N.eq_dec c d) as [<-|]; [tauto|]. intuition. }
  assert (Hr : ~ In c rest) by (unfold rest; rewrite filter_In, N.eqb_refl; simpl; intros [_ ?]; discriminate).
  assert (Ho' : in_bounds (map (upd size c len) out) o = true).
  { rewrite <- Ho. f_equal. apply map_ext_in. intros d Hd. apply upd_other. intros ->; auto. }
  rewrite (einsum_value_ext_in (upd size c len) bs ops out _ (fun e => term arrays ops (upd e c (off + e c)))); auto.
  2:{ intros e' He'. apply (term_reads (upd size c len) (fun e => upd e c (off + e c))); auto. apply parts_reads; auto. }
  fold sl. rewrite (nested_sum_perm NS (upd size c len) sl (c :: rest) (c :: concat ops)); auto.
  - cbn [nested_sum]. rewrite upd_same. apply sum_n_ext. intros i _.
    rewrite (nested_sum_size _ size rest) by (intros d Hd; apply upd_other; intros ->; auto).
    rewrite (nested_sum_shift size rest (concat ops)) by (auto; apply term_dep).
    rewrite upd_same. apply (nested_sum_agree size rest (concat ops)); [apply term_dep|].
    intros d _ _. unfold upd. destruct (N.eqb d c); auto.
  - intros e e' Ha. apply term_dep. intros d Hd. unfold upd. destruct (N.eqb_spec d c); [|apply Ha; right; auto].
    f_equal. apply Ha. left; auto.
  - apply summed_labels_NoDup.
Qed.

Lemma whole_value size c (arrays : list (arr A)) ops out o : In c (concat ops) -> ~ In c out ->
  einsum_value size arrays ops out o
  = sum_n (size c) (fun i => nested_sum size (filter (fun d => negb (N.eqb d c)) (summed_labels ops out))
                               (term arrays ops) (upd (bind out o) c i)).
Proof.
  intros Hi Hc. unfold einsum_value. set (sl := summed_labels ops out). set (rest := filter (fun d => negb (N.eqb d c)) sl).
  assert (Hp : Permutation sl (c :: rest)).
  { apply NoDup_Permutation.
    - apply summed_labels_NoDup.
    - constructor; [unfold rest; rewrite filter_In, N.eqb_refl; simpl; intros [_ ?]; discriminate|].
      apply NoDup_filter, summed_labels_NoDup.
    - intros d. unfold rest. simpl. rewrite filter_In, negb_true_iff, N.eqb_neq. unfold sl.
      rewrite summed_labels_In. destruct (N.eq_dec c d) as [<-|]; [tauto|]. intuition. }
  apply (nested_sum_perm NS size sl (c :: rest) (concat ops)); auto; [apply term_dep|apply summed_labels_NoDup].
Qed.

Lemma sum_n_blocks (lens : list nat) (f : nat -> A) :
  sum_n (list_sum lens) f
  = sum_n (length lens) (fun k => sum_n (nth k lens 0) (fun i => f (list_sum (firstn k lens) + i))).
Proof.
  induction lens as [|n lens IH] using rev_ind; auto.
  replace (list_sum (lens ++ [n])) with (list_sum lens + n)
    by (rewrite list_sum_app; simpl; lia).
  rewrite (sum_n_plus NS), app_length. simpl length. rewrite Nat.add_1_r. cbn [sum_n]. f_equal.
  - rewrite IH. apply sum_n_ext. intros k Hk. rewrite app_nth1 by auto. rewrite firstn_app.
    replace (k - length lens) with 0 by lia. rewrite app_nil_r. auto.
  - rewrite app_nth2, Nat.sub_diag, firstn_app, Nat.sub_diag, firstn_all, app_nil_r by auto. auto.
Qed.

Lemma out_shape_same (size : char -> nat) c len out : ~ In c out -> map (upd size c len) out = map size out.
Proof. intros H. apply map_ext_in. intros d Hd. apply upd_other. intros ->; auto. Qed.

Lemma combine_Forall2_length {T U V} (P : T * U -> V -> Prop) (l : list T) (m : list U) (n : list V) :
  length l = length m -> Forall2 P (combine l m) n -> length n = length m.
Proof. intros H F. apply Forall2_len in F. rewrite combine_length in F. lia. Qed.

Lemma kept_block h h' lay lay' s (arrays bs : list (arr A)) ops out size c off len :
  hash_ok h -> hash_ok h' -> backend_ok lay -> backend_ok lay' ->
  call_ok s (map (@a_shape A) arrays) ops out size -> Forall wf arrays -> Forall wf bs ->
  In c out -> off + len <= size c ->
  Forall2 (fun p b => part size c off len (snd p) (fst p) b) (combine arrays ops) bs ->
  no_empty_diagonal (upd size c len) ops ->
  exists r r', einsum h lay s arrays = Ok r /\ einsum h' lay' s bs = Ok r' /\ part size c off len out r r'.
Proof.
  intros Hh Hh' Hl Hl' Hc Hw Hw' Hi Hoff HP Hn. pose proof Hc as (Hm & [No Io] & Hs).
  assert (Hla : length arrays = length ops) by (apply shapes_ok_len in Hs; rewrite map_length in Hs; auto).
  assert (Hlb : length bs = length ops) by (eapply combine_Forall2_length; [|exact HP]; auto).
  assert (Hc' : call_ok s (map (@a_shape A) bs) ops out (upd size c len)).
  { split; [auto|]. split; [split; auto|]. eapply parts_shapes; [exact Hla|exact HP]. }
  assert (Hn0 : no_empty_diagonal size ops).
  { unfold no_empty_diagonal in *. eapply Forall_impl; [|exact Hn]. intros ix [H|H]; auto. right.
    eapply Forall_impl; [|exact H]. intros d Hd. unfold upd in Hd. destruct (N.eqb_spec d c); subst; auto. lia. }
  destruct (einsum_correct SR h lay s arrays ops out size Hh Hl Hc Hw Hn0) as (r & E & Hr).
  destruct (einsum_correct SR h' lay' s bs ops out (upd size c len) Hh' Hl' Hc' Hw' Hn) as (r' & E' & Hr').
  exists r, r'. split; auto. split; auto. split; [apply Hr'|]. intros e He. pose proof Hr' as (Sr & _). rewrite Sr in He.
  rewrite (holds_elem _ _ _ _ Hr') by auto. rewrite (holds_elem _ _ _ _ Hr).
  - apply part_value_kept; auto.
  - apply in_bounds_map. apply in_bounds_map in He. intros d Hd. specialize (He d Hd). unfold upd in *.
    destruct (N.eqb_spec d c); subst; auto. lia.
Qed.

Lemma summed_blocks h lay s (arrays : list (arr A)) ops out size c r (lens : list nat) (bs : nat -> list (arr A)) (rs : nat -> arr A) :
  hash_ok h -> backend_ok lay ->
  call_ok s (map (@a_shape A) arrays) ops out size -> Forall wf arrays ->
  In c (concat ops) -> ~ In c out -> list_sum lens = size c ->
  einsum h lay s arrays = Ok r ->
  (forall k, k < length lens -> Forall wf (bs k)
     /\ Forall2 (fun p b => part size c (list_sum (firstn k lens)) (nth k lens 0) (snd p) (fst p) b) (combine arrays ops) (bs k)
     /\ exists h' lay', hash_ok h' /\ backend_ok lay' /\ einsum h' lay' s (bs k) = Ok (rs k)) ->
  (forall k, k < length lens -> a_shape (rs k) = a_shape r)
  /\ forall o, in_bounds (a_shape r) o = true -> elem r o = sum_n (length lens) (fun k => elem (rs k) o).
Proof.
  intros Hh Hl Hc Hw Hi Ho Hlens E HB. pose proof Hc as (Hm & [No Io] & Hs).
  assert (Hla : length arrays = length ops) by (apply shapes_ok_len in Hs; rewrite map_length in Hs; auto).
  pose proof (ok_value SR h lay s arrays ops out size r Hh Hl Hw Hc E) as Hr.
  assert (HB' : forall k, k < length lens ->
    holds (rs k) (map size out) (einsum_value (upd size c (nth k lens 0)) (bs k) ops out)).
  { intros k Hk. destruct (HB k Hk) as (W & HP & h' & lay' & Hh' & Hl' & E').
    rewrite <- (out_shape_same size c (nth k lens 0) out Ho).
    apply (ok_value SR h' lay' s); auto. split; [auto|]. split; [split; auto|]. eapply parts_shapes; [exact Hla|exact HP]. }
  pose proof Hr as (Sr & _). split.
  - intros k Hk. rewrite Sr. apply (HB' k Hk).
  - intros o Hoo. rewrite Sr in Hoo. rewrite (holds_elem _ _ _ _ Hr) by auto.
    rewrite (whole_value size c) by auto. rewrite <- Hlens, sum_n_blocks. apply sum_n_ext. intros k Hk.
    rewrite (holds_elem _ _ _ _ (HB' k Hk)) by auto. destruct (HB k Hk) as (W & HP & _).
    symmetry. apply part_value_summed; auto. eapply combine_Forall2_length; [|exact HP]; auto.
Qed.

(** *** Merged labels *)

Lemma drop_label_In d ix x : In x (drop_label d ix) <-> In x ix /\ x <> d.
Proof. unfold drop_label. rewrite filter_In, negb_true_iff, N.eqb_neq. tauto. Qed.

Lemma drop_label_concat d ops x : In x (concat (map (drop_label d) ops)) <-> In x (concat ops) /\ x <> d.
Proof.
  induction ops as [|ix ops IH]; simpl; [tauto|]. rewrite !in_app_iff, drop_label_In, IH. tauto.
Qed.

Definition unmerge (nd : nat) (c d : char) (e : env) : env := upd (upd e d (e c mod nd)) c (e c / nd).

Lemma nested_sum_moved size cs ds (T : env -> env) (F : env -> A) :
  (forall e x i y, In x cs -> In y ds -> T (upd e x i) y = upd (T e) x i y) -> dep F ds -> forall e,
  nested_sum size cs (fun e => F (T e)) e = nested_sum size cs F (T e).
Proof.
  intros HT Hd. induction cs as [|x cs IH]; intros e; cbn [nested_sum]; auto.
  apply sum_n_ext. intros i _. rewrite IH by (intros; apply HT; auto; right; auto).
  apply (nested_sum_agree size cs ds); auto. intros y Hy _. apply HT; auto. left; auto.
Qed.

Lemma unmerge_moves nd c d e x i y : x <> c -> x <> d ->
  unmerge nd c d (upd e x i) y = upd (unmerge nd c d e) x i y.
Proof.
  intros H1 H2. unfold unmerge, upd. destruct (N.eqb_spec c x), (N.eqb_spec y c), (N.eqb_spec y d), (N.eqb_spec y x); subst; congruence.
Qed.

Lemma merged_reads size c d ix a b : c <> d -> (In c ix <-> In d ix) -> a_shape a = map size ix -> merged size c d ix a b ->
  reads (upd size c (size c * size d)) (unmerge (size d) c d) (drop_label d ix) ix b a.
Proof.
  intros Hcd Hi Sa [H1 H2] e He.  rewrite <- H2.
  - f_equal. apply map_ext_in. intros x Hx. unfold unmerge, upd. rewrite N.eqb_refl.
    destruct (N.eqb_spec d c); [congruence|]. rewrite N.eqb_refl. destruct (N.eqb_spec x c) as [->|].
    + assert (Hb := He c Hx). rewrite upd_same in Hb.
      assert (size d <> 0) by (intros E; rewrite E in Hb; lia).
      rewrite (Nat.div_mod (e c) (size d)) at 1 by auto. lia.
    + apply drop_label_In in Hx as [_ Hx]. destruct (N.eqb_spec x d); congruence.
  - rewrite Sa. apply in_bounds_map. intros x Hx. unfold unmerge, upd.
    destruct (N.eqb_spec x c) as [->|Hxc]; [|destruct (N.eqb_spec x d) as [->|Hxd]].
    + assert (Hb := He c (proj2 (drop_label_In d ix c) (conj Hx Hcd))). rewrite upd_same in Hb.
      apply Nat.div_lt_upper_bound; [intros E; rewrite E in Hb; lia|lia].
    + assert (Hb := He c (proj2 (drop_label_In d ix c) (conj (proj2 Hi Hx) Hcd))). rewrite upd_same in Hb.
      apply Nat.mod_upper_bound. intros E; rewrite E in Hb; lia.
    + assert (Hb := He x (proj2 (drop_label_In d ix x) (conj Hx Hxd))). rewrite upd_other in Hb by auto. auto.
Qed.

Lemma all_merged_reads size c d ops : c <> d -> forall (arrays bs : list (arr A)),
  Forall (fun ix => In c ix <-> In d ix) ops -> shapes_ok size ops (map (@a_shape A) arrays) ->
  length arrays = length ops -> length bs = length ops ->
  Forall2 (fun p b => merged size c d (snd p) (fst p) b) (combine arrays ops) bs ->
  Forall2 (fun p q => reads (upd size c (size c * size d)) (unmerge (size d) c d) (snd p) (snd q) (fst p) (fst q))
    (combine bs (map (drop_label d) ops)) (combine arrays ops).
Proof.
  intros Hcd. induction ops as [|ix ops IH]; intros [|a arrays] [|b bs] HF HS H1 H2 H; simpl in *; try discriminate; auto.
  inversion H; inversion HF; inversion HS; subst. constructor; auto. cbn [fst snd]. apply merged_reads; auto.
Qed.

Lemma merged_shapes size c d ops : forall (arrays bs : list (arr A)),
  length arrays = length ops ->
  Forall2 (fun p b => merged size c d (snd p) (fst p) b) (combine arrays ops) bs ->
  shapes_ok (upd size c (size c * size d)) (map (drop_label d) ops) (map (@a_shape A) bs).
Proof.
  induction ops as [|ix ops IH]; intros [|a arrays] bs H1 H; simpl in *; try discriminate; inversion H as [|? ? ? ? HP]; subst; constructor.
  - apply HP.
  - eapply IH; eauto.
Qed.

Lemma merged_value size c d (arrays bs : list (arr A)) ops out (e : env) :
  c <> d -> Forall (fun ix => In c ix <-> In d ix) ops -> (In c out <-> In d out) -> In c (concat ops) ->
  shapes_ok size ops (map (@a_shape A) arrays) -> length bs = length ops -> NoDup out ->
  Forall2 (fun p b => merged size c d (snd p) (fst p) b) (combine arrays ops) bs ->
  in_bounds (map size out) (map e out) = true ->
  einsum_value (upd size c (size c * size d)) bs (map (drop_label d) ops) (drop_label d out)
    (map (upd e c (e c * size d + e d)) (drop_label d out))
  = einsum_value size arrays ops out (map e out).
Proof.
  intros Hcd HF Hout Hcin HS H2 Hn HP Ho.
  assert (H1 : length arrays = length ops) by (apply shapes_ok_len in HS; rewrite map_length in HS; auto).
  set (size' := upd size c (size c * size d)). set (ops' := map (drop_label d) ops). set (out' := drop_label d out).
  set (e' := upd e c (e c * size d + e d)). set (T := unmerge (size d) c d).
  assert (Hdin : In d (concat ops)).
  { apply in_concat in Hcin as (ix & Hx & Hc). apply in_concat. exists ix. split; auto.
    rewrite Forall_forall in HF. apply HF; auto. }
  assert (Hn' : NoDup out') by (apply NoDup_filter; auto).
  apply in_bounds_map in Ho.
  assert (Ho' : in_bounds (map size' out') (map e' out') = true).
  { apply in_bounds_map. intros x Hx. apply drop_label_In in Hx as [Hx Hxd]. unfold size', e', upd.
    destruct (N.eqb_spec x c) as [->|]; [|apply Ho; auto].
    pose proof (Ho c Hx). pose proof (Ho d (proj1 Hout Hx)). nia. }
  rewrite (einsum_value_ext_in size' bs ops' out' _ (fun e => term arrays ops (T e))); auto.
  2:{ intros e1 He1. apply (term_reads size' T); auto.
      - apply all_merged_reads; auto.
      - unfold ops'. rewrite map_length. auto. }
  assert (Lab : forall x, In x (concat ops') <-> In x (concat ops) /\ x <> d) by apply drop_label_concat.
  assert (HT : dep (fun e => term arrays ops (T e)) (c :: concat ops)).
  { intros e1 e2 Ha. apply term_dep. intros x Hx. unfold T, unmerge, upd.
    rewrite (Ha c) by (left; auto). destruct (N.eqb x c); auto. destruct (N.eqb x d); auto. apply Ha. right; auto. }
  set (sl := summed_labels ops out). set (sl' := summed_labels ops' out').
  destruct (in_dec N.eq_dec c out) as [Hc|Hc].
  - assert (Hdo : In d out) by (apply Hout; auto).
    assert (Hp : Permutation sl' sl).
    { apply NoDup_Permutation; try apply summed_labels_NoDup. intros x. unfold sl, sl'. rewrite !summed_labels_In, Lab.
      unfold out'. rewrite drop_label_In. destruct (N.eq_dec x d) as [->|]; tauto. }
    assert (Hsl : ~ In c sl /\ ~ In d sl) by (unfold sl; rewrite !summed_labels_In; tauto).
    rewrite (nested_sum_perm NS size' sl' sl (c :: concat ops)); auto; [|apply summed_labels_NoDup].
    rewrite (nested_sum_size _ size sl) by (intros x Hx; apply upd_other; intros ->; tauto).
    rewrite (nested_sum_moved size sl (concat ops)).
    + unfold einsum_value. fold sl. apply (nested_sum_agree size sl (concat ops)); [apply term_dep|]. intros x Hx Hs.
      assert (Hxo : In x out) by (destruct (in_dec N.eq_dec x out); auto; exfalso; apply Hs, summed_labels_In; auto).
      rewrite (bind_map e out x Hxo).
      assert (Hc' : In c out') by (apply drop_label_In; auto).
      unfold T, unmerge, upd. rewrite (bind_map e' out' c Hc'). unfold e' at 1 2, upd. rewrite N.eqb_refl.
      pose proof (Ho d Hdo).
      destruct (N.eqb_spec x c) as [->|]; [|destruct (N.eqb_spec x d) as [->|]].
      * rewrite Nat.div_add_l, Nat.div_small by lia. lia.
      * rewrite Nat.add_comm, Nat.mod_add, Nat.mod_small by lia. auto.
      * rewrite (bind_map e' out' x) by (apply drop_label_In; auto). unfold e', upd.
        destruct (N.eqb_spec x c); congruence.
    + intros e1 x i y Hx _. apply unmerge_moves; intros ->; tauto.
    + apply term_dep.
  - assert (Hdo : ~ In d out) by (rewrite <- Hout; auto).
    set (rest := filter (fun x => negb (N.eqb x c)) (drop_label d sl)).
    assert (Hrest : forall x, In x rest <-> In x (concat ops) /\ ~ In x out /\ x <> c /\ x <> d).
    { intros x. unfold rest. rewrite filter_In, drop_label_In, negb_true_iff, N.eqb_neq. unfold sl. rewrite summed_labels_In. tauto. }
    assert (Nrest : NoDup rest) by (apply NoDup_filter, NoDup_filter, summed_labels_NoDup).
    assert (Hp' : Permutation sl' (c :: rest)).
    { apply NoDup_Permutation; [apply summed_labels_NoDup| |].
      - constructor; auto. rewrite Hrest. tauto.
      - intros x. unfold sl'. rewrite summed_labels_In, Lab. unfold out'. rewrite drop_label_In. simpl. rewrite Hrest.
        destruct (N.eq_dec c x) as [<-|]; [tauto|]. intuition. }
    assert (Hp : Permutation sl (c :: d :: rest)).
    { apply NoDup_Permutation; [apply summed_labels_NoDup| |].
      - constructor; [simpl; rewrite Hrest; intuition|]. constructor; auto. rewrite Hrest. tauto.
      - intros x. unfold sl. rewrite summed_labels_In. simpl. rewrite Hrest.
        destruct (N.eq_dec c x) as [<-|]; [tauto|]. destruct (N.eq_dec d x) as [<-|]; [tauto|]. intuition. }
    rewrite (nested_sum_perm NS size' sl' (c :: rest) (c :: concat ops)); auto; [|apply summed_labels_NoDup].
    unfold einsum_value. fold sl.
    rewrite (nested_sum_perm NS size sl (c :: d :: rest) (concat ops)); auto; [|apply term_dep|apply summed_labels_NoDup].
    cbn [nested_sum]. unfold size' at 1. rewrite upd_same, (sum_n_mult NS). apply sum_n_ext. intros p Hp1. apply sum_n_ext. intros q Hq.
    rewrite (nested_sum_size _ size rest) by (intros x Hx; apply upd_other; intros ->; apply Hrest in Hx; tauto).
    rewrite (nested_sum_moved size rest (concat ops)).
    + apply (nested_sum_agree size rest (concat ops)); [apply term_dep|]. intros x Hx Hs.
      unfold T, unmerge. rewrite !upd_same. unfold upd.
      destruct (N.eqb_spec x c) as [->|]; [|destruct (N.eqb_spec x d) as [->|]].
      * destruct (N.eqb_spec c d); [congruence|]. rewrite Nat.div_add_l, Nat.div_small by lia. lia.
      * rewrite Nat.add_comm, Nat.mod_add, Nat.mod_small by lia. auto.
      * assert (Hxo : In x out) by (destruct (in_dec N.eq_dec x out); auto; exfalso; apply Hs, Hrest; auto).
        rewrite (bind_map e out x Hxo), (bind_map e' out' x) by (apply drop_label_In; auto). unfold e', upd.
        destruct (N.eqb_spec x c); congruence.
    + intros e1 x i y Hx _. apply Hrest in Hx. apply unmerge_moves; tauto.
    + apply term_dep.
Qed.

Lemma merged_call h h' lay lay' s s' (arrays bs : list (arr A)) ops out size c d :
  hash_ok h -> hash_ok h' -> backend_ok lay -> backend_ok lay' ->
  call_ok s (map (@a_shape A) arrays) ops out size -> Forall wf arrays -> Forall wf bs ->
  no_empty_diagonal size ops ->
  c <> d -> Forall (fun ix => In c ix <-> In d ix) ops -> (In c out <-> In d out) -> In c (concat ops) ->
  grammar s' (map (drop_label d) ops) (Some (drop_label d out)) ->
  Forall2 (fun p b => merged size c d (snd p) (fst p) b) (combine arrays ops) bs ->
  exists r r', einsum h lay s arrays = Ok r /\ einsum h' lay' s' bs = Ok r' /\ merged size c d out r r'.
Proof.
  intros Hh Hh' Hl Hl' Hc Hw Hw' Hn Hcd HF Hout Hcin G HP. pose proof Hc as (Hm & [No Io] & Hs).
  assert (Hla : length arrays = length ops) by (apply shapes_ok_len in Hs; rewrite map_length in Hs; auto).
  assert (Hlb : length bs = length ops) by (eapply combine_Forall2_length; [|exact HP]; auto).
  assert (Hc' : call_ok s' (map (@a_shape A) bs) (map (drop_label d) ops) (drop_label d out) (upd size c (size c * size d))).
  { apply explicit_call_ok; auto.
    - split; [apply NoDup_filter; auto|]. intros x Hx. apply drop_label_In in Hx as [Hx Hd]. apply drop_label_concat. auto.
    - eapply merged_shapes; [exact Hla|exact HP]. }
  assert (Hn' : no_empty_diagonal (upd size c (size c * size d)) (map (drop_label d) ops)).
  { unfold no_empty_diagonal in *. apply Forall_map. rewrite Forall_forall in *. intros ix Hix.
    destruct (Hn ix Hix) as [H|H]; [left; apply NoDup_filter; auto|]. right. rewrite Forall_forall in *.
    intros x Hx. apply drop_label_In in Hx as [Hx Hd]. unfold upd. destruct (N.eqb_spec x c) as [->|]; auto.
    pose proof (H c Hx). pose proof (H d (proj1 (HF ix Hix) Hx)). nia. }
  destruct (einsum_correct SR h lay s arrays ops out size Hh Hl Hc Hw Hn) as (r & E & Hr).
  destruct (einsum_correct SR h' lay' s' bs _ _ _ Hh' Hl' Hc' Hw' Hn') as (r' & E' & Hr').
  exists r, r'. split; auto. split; auto. split; [apply Hr'|]. intros e He. pose proof Hr as (Sr & _). rewrite Sr in He.
  rewrite (holds_elem _ _ _ _ Hr) by auto.  rewrite (holds_elem _ _ _ _ Hr').
  - apply merged_value; auto.
  - apply in_bounds_map in He. apply in_bounds_map. intros x Hx. apply drop_label_In in Hx as [Hx Hxd]. unfold upd.
    destruct (N.eqb_spec x c) as [->|]; [|apply He; auto].
    pose proof (He c Hx). pose proof (He d (proj1 Hout Hx)). nia.
Qed.

End Blocks.
