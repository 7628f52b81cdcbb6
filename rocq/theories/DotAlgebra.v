(** Labels for the axes of tensor dot products (for C81). *)
From Verif Require Import Base BaseFacts NDArray Validation Path Api Spec ParserFacts ValidationMain SumFacts ArrayFacts PathFacts
  EinsumMain EinsumProps AlgebraFacts StagedFacts TensordotMain.
From Coq Require Import Lia.
Local Open Scope list_scope.
Local Open Scope nat_scope.

(** ** Codes: axis [k] of the operand number [t] of three *)

(** A name for an axis in the proofs; any injective function would do. *)
Definition code (t k : nat) : char := N.of_nat (3 * k + t).

Lemma code_inj t k t' k' : t < 3 -> t' < 3 -> code t k = code t' k' -> t = t' /\ k = k'.
Proof. unfold code. intros H H' E. apply Nat2N.inj in E. lia. Qed.

(** The lengths of the axes, by code. *)
Definition code_size (sa sb sc : list nat) (c : char) : nat :=
  let n := N.to_nat c in nth (n / 3) (match n mod 3 with 0 => sa | 1 => sb | _ => sc end) 0.

Lemma code_div t k : t < 3 -> (3 * k + t) / 3 = k.
Proof. intros H. symmetry. apply (Nat.div_unique _ 3 k t); lia. Qed.
Lemma code_mod t k : t < 3 -> (3 * k + t) mod 3 = t.
Proof. intros H. symmetry. apply (Nat.mod_unique _ 3 k t); lia. Qed.

Lemma size_code_0 sa sb sc k : code_size sa sb sc (code 0 k) = nth k sa 0.
Proof. unfold code_size, code. rewrite Nat2N.id, code_div, code_mod by lia. reflexivity. Qed.
Lemma size_code_1 sa sb sc k : code_size sa sb sc (code 1 k) = nth k sb 0.
Proof. unfold code_size, code. rewrite Nat2N.id, code_div, code_mod by lia. reflexivity. Qed.
Lemma size_code_2 sa sb sc k : code_size sa sb sc (code 2 k) = nth k sc 0.
Proof. unfold code_size, code. rewrite Nat2N.id, code_div, code_mod by lia. reflexivity. Qed.

Lemma NoDup_code t l : t < 3 -> NoDup l -> NoDup (map (code t) l).
Proof.
  intros Ht H. induction H as [|x l Hx H IH]; cbn [map]; constructor; auto.
  intros Hi. apply in_map_iff in Hi as (y & E & Hy). apply code_inj in E as [_ ->]; auto.
Qed.

Lemma In_code t l c : In c (map (code t) l) <-> exists k, In k l /\ c = code t k.
Proof. rewrite in_map_iff. split; intros (k & H1 & H2); exists k; auto. Qed.

Lemma filter_code_1 l m : filter (fun c => negb (existsb (N.eqb c) (map (code 1) l))) (map (code 1) m)
  = map (code 1) (filter (fun k => negb (existsb (Nat.eqb k) l)) m).
Proof.
  assert (E : forall k, existsb (N.eqb (code 1 k)) (map (code 1) l) = existsb (Nat.eqb k) l).
  { intros k. induction l as [|x l IH]; cbn [map existsb]; auto. rewrite IH. f_equal.
    destruct (Nat.eqb_spec k x) as [->|Hn]; [apply N.eqb_refl|]. apply N.eqb_neq. intros H. apply code_inj in H; lia. }
  induction m as [|k m IH]; cbn [map filter]; auto. rewrite E. destruct (existsb (Nat.eqb k) l); cbn [negb map]; rewrite IH; auto.
Qed.

Lemma filter_code_other t l m : t < 3 -> t <> 1 ->
  filter (fun c => negb (existsb (N.eqb c) (map (code 1) l))) (map (code t) m) = map (code t) m.
Proof.
  intros Ht Hn.
  assert (E : forall k, existsb (N.eqb (code t k)) (map (code 1) l) = false).
  { intros k. induction l as [|x l IH]; cbn [map existsb]; auto. rewrite IH, orb_false_r.
    apply N.eqb_neq. intros H. apply code_inj in H; lia. }
  induction m as [|k m IH]; cbn [map filter]; auto. rewrite E. cbn [negb]. rewrite IH. auto.
Qed.

(** ** Labels: the listed axes have those of operand 1, the others their own *)

(** The names of an operand's axes in the Einstein sum that a call of [tensordot] computes [lib.rs:229-268]. *)
Definition relabel (t : nat) (axes names : list nat) (k : nat) : char :=
  if existsb (Nat.eqb k) axes then code 1 (value_at axes names k) else code t k.
Definition labels (t rank : nat) (axes names : list nat) : list char := map (relabel t axes names) (seq 0 rank).

Lemma existsb_axes k axes : existsb (Nat.eqb k) axes = true <-> In k axes.
Proof. rewrite existsb_exists. split; [intros (x & H & E); apply Nat.eqb_eq in E; subst; auto|intros H; exists k; rewrite Nat.eqb_refl; auto]. Qed.

Lemma map_value_at axes names : NoDup axes -> length axes = length names -> map (value_at axes names) axes = names.
Proof.
  intros H. revert names. induction H as [|x l Hx H IH]; intros [|n names] L; cbn in L; try discriminate; auto.
  cbn [map value_at]. rewrite Nat.eqb_refl. f_equal. transitivity (map (value_at l names) l); [|apply IH; lia]. apply map_ext_in.
  intros k Hk. destruct (Nat.eqb_spec x k) as [->|_]; [contradiction|auto].
Qed.

Lemma nth_labels t rank axes names k : k < rank -> nth k (labels t rank axes names) 0%N = relabel t axes names k.
Proof.
  intros H. unfold labels. rewrite nth_indep with (d' := relabel t axes names 0) by (rewrite map_length, seq_length; auto).
  rewrite map_nth, seq_nth; auto.
Qed.

Lemma labels_length t rank axes names : length (labels t rank axes names) = rank.
Proof. unfold labels. rewrite map_length, seq_length. auto. Qed.

Lemma labels_axes t rank axes names : axes_ok rank axes -> length axes = length names ->
  axis_labels (labels t rank axes names) axes = map (code 1) names.
Proof.
  intros [Hn Hb] L. transitivity (map (code 1) (map (value_at axes names) axes)); [|rewrite map_value_at; auto].
  unfold axis_labels. rewrite map_map. apply map_ext_in.
  intros k Hk. rewrite Forall_forall in Hb. rewrite nth_labels by auto. unfold relabel.
  apply existsb_axes in Hk. rewrite Hk. auto.
Qed.

Lemma labels_free t rank axes names : axis_labels (labels t rank axes names) (free_axes rank axes) = map (code t) (free_axes rank axes).
Proof.
  unfold axis_labels. apply map_ext_in. intros k Hk. apply free_axes_In in Hk as [Hk Hn]. rewrite nth_labels by auto.
  unfold relabel. destruct (existsb (Nat.eqb k) axes) eqn:E; auto. apply existsb_axes in E. contradiction.
Qed.

Lemma labels_In t rank axes names c : axes_ok rank axes -> length axes = length names ->
  In c (labels t rank axes names) <-> In c (map (code t) (free_axes rank axes)) \/ In c (map (code 1) names).
Proof.
  intros Ok L. rewrite <- (labels_axes t rank axes names Ok L), <- (labels_free t rank axes names).
  pose proof (labels_length t rank axes names) as Len. split.
  - intros Hc. pose proof (axis_labels_all (labels t rank axes names) axes c) as H.
    rewrite Len in H. apply H; auto.
  - intros [H|H]; [apply (axis_labels_In _ (free_axes rank axes))|apply (axis_labels_In _ axes)]; auto; rewrite Len;
      [apply free_axes_bound|apply Ok].
Qed.

Lemma labels_NoDup t rank axes names : t < 3 -> t <> 1 -> axes_ok rank axes -> length axes = length names -> NoDup names ->
  NoDup (labels t rank axes names).
Proof.
  intros Ht Ht1 Ok L Hn.
  apply (Permutation_NoDup (l := map (relabel t axes names) (free_axes rank axes ++ axes))).
  - apply Permutation_map, free_axes_perm. auto.
  - assert (E : map (relabel t axes names) (free_axes rank axes ++ axes) = map (code t) (free_axes rank axes) ++ map (code 1) names).
    { rewrite <- (labels_free t rank axes names), <- (labels_axes t rank axes names Ok L), map_app. unfold axis_labels.
      f_equal; apply map_ext_in; intros k Hk; rewrite nth_labels; auto.
      - apply free_axes_In in Hk. tauto.
      - destruct Ok as [_ Hb]. rewrite Forall_forall in Hb. auto. }
    rewrite E. apply NoDup_app_intro.
    + apply NoDup_code; auto. apply NoDup_filter, seq_NoDup.
    + apply NoDup_code; auto.
    + intros c H1 H2. apply In_code in H1 as (k & _ & ->). apply In_code in H2 as (k' & _ & H2). apply code_inj in H2; lia.
Qed.

Lemma labels_shape t (size : char -> nat) sh sb axes names : axes_ok (length sh) axes -> length axes = length names ->
  (forall k, size (code t k) = nth k sh 0) -> (forall k, size (code 1 k) = nth k sb 0) ->
  axis_lengths sh axes = axis_lengths sb names -> sh = map size (labels t (length sh) axes names).
Proof.
  intros Ok L St S1 E. unfold labels. rewrite map_map. rewrite <- (map_nth_seq sh 0) at 1. apply map_ext_in.
  intros k Hk. unfold relabel. destruct (existsb (Nat.eqb k) axes) eqn:Ex; [|rewrite St; auto].
  rewrite S1. apply existsb_axes in Ex. unfold axis_lengths in E. assert (E' : map (fun k => nth k sh 0) axes = map (fun k => nth k sb 0) (map (value_at axes names) axes)) by
    (rewrite map_value_at; auto; apply Ok).
  rewrite map_map in E'. apply (map_eq_In _ _ _ _ E' Ex).
Qed.

(** The free axes of a labelled array. *)
Lemma free_labels (ix : list char) axes : NoDup ix -> Forall (fun k => k < length ix) axes ->
  axis_labels ix (free_axes (length ix) axes) = filter (fun c => negb (existsb (N.eqb c) (axis_labels ix axes))) ix.
Proof.
  intros Hn Hb.
  transitivity (filter (fun c => negb (existsb (N.eqb c) (axis_labels ix axes))) (map (fun k => nth k ix 0%N) (seq 0 (length ix))));
    [|rewrite map_nth_seq; auto].
  unfold free_axes, axis_labels at 1.
  assert (G : forall l, Forall (fun k => k < length ix) l ->
    map (fun k => nth k ix 0%N) (filter (fun k => negb (existsb (Nat.eqb k) axes)) l)
    = filter (fun c => negb (existsb (N.eqb c) (axis_labels ix axes))) (map (fun k => nth k ix 0%N) l)).
  { intros l Hl. induction Hl as [|k l Hk Hl IH]; cbn [map filter]; auto.
    assert (E : existsb (N.eqb (nth k ix 0%N)) (axis_labels ix axes) = existsb (Nat.eqb k) axes).
    { clear IH. unfold axis_labels. induction Hb as [|x axes Hx Hb IH]; cbn [map existsb]; auto. rewrite IH. f_equal.
      destruct (Nat.eqb_spec k x) as [->|Hne]; [apply N.eqb_refl|]. apply N.eqb_neq. intros E. apply Hne.
      rewrite NoDup_nth with (d := 0%N) in Hn. apply Hn; auto. }
    rewrite E. destruct (existsb (Nat.eqb k) axes); cbn [negb map]; rewrite IH; auto. }
  apply G. apply Forall_forall. intros k Hk. apply in_seq in Hk. lia.
Qed.

Section DotAlgebra.
Context {A : Type} {Sc : Scalar A}.
Hypothesis SR : semiring A.

Lemma lengths_of_labels (size : char -> nat) ix axes : Forall (fun k => k < length ix) axes ->
  axis_lengths (map size ix) axes = map size (axis_labels ix axes).
Proof.
  intros Hb. unfold axis_lengths, axis_labels. rewrite map_map. apply map_ext_in.
  intros k Hk. rewrite Forall_forall in Hb. rewrite nth_indep with (d' := size 0%N) by (rewrite map_length; auto).
  apply map_nth.
Qed.

(** A tensor dot product as an Einstein sum. *)
Lemma dot_as_einsum lay (a b : arr A) u v la ra size : backend_ok lay -> wf a -> wf b ->
  let out := axis_labels u (free_axes (length u) la) ++ axis_labels v (free_axes (length v) ra) in
  a_shape a = map size u -> a_shape b = map size v -> NoDup u -> NoDup v -> NoDup out ->
  axes_ok (length u) la -> axes_ok (length v) ra -> axis_labels u la = axis_labels v ra ->
  exists r, tensordot lay a b la ra = Ok r /\ holds r (map size out) (einsum_value size [a; b] [u; v] out).
Proof.
  intros Hl Wa Wb out Sa Sb Nu Nv No Ha Hb He.
  destruct (tensordot_ok lay (ok_runs Hl) SR Hl a b la ra Wa Wb) as (r & E & Hr).
  - apply (f_equal (@length _)) in He. unfold axis_labels in He. rewrite !map_length in He. auto.
  - rewrite Sa, map_length; auto.
  - rewrite Sb, map_length; auto.
  - rewrite Sa, Sb, !lengths_of_labels by (apply Ha || apply Hb). rewrite He. auto.
  - exists r. split; auto. rewrite Sa, Sb, !map_length, !lengths_of_labels, <- map_app in Hr by apply free_axes_bound.
    eapply ArrayFacts.holds_ext; [|exact Hr]. intros o Ho. symmetry. apply (tensordot_value_einsum SR); auto.
Qed.

End DotAlgebra.
