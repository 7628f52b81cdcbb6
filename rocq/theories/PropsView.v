(** The strided view used to extract a diagonal (C35), and the sums of strides it needs (C37). *)
From Verif Require Import Base BaseFacts NDArray Validation Optimizers Strategies Singleton Pair Path Api Spec ParserFacts
  SumFacts ArrayFacts ValidationMain ValidationFacts DiagFacts SingletonFacts Overflow ViewFacts Examples.
From Coq Require Import Lia.
From Coq Require String.
Import String.StringSyntax.
Local Open Scope string_scope.
Local Open Scope list_scope.

(** The address of a position, in elements from the start of the operand's buffer. *)
Definition address {A : Type} (a : arr A) (idx : list nat) : Z :=
  (a_off a + dot_off idx (a_strides a))%Z.

Lemma contiguous_slice {A : Type} (t : arr A) : as_slice_memory_order t <> None -> is_contiguous t = true.
Proof. unfold as_slice_memory_order. destruct (is_contiguous t); auto. Qed.

(** Any label values for a shape come from an environment. *)
Lemma bounds_env (size : char -> nat) L idx : NoDup L -> in_bounds (map size L) idx = true ->
  exists e, idx = map e L /\ in_range size L e.
Proof.
  revert idx. induction L as [|c L IH]; intros [|i idx] HL H; simpl in H; try discriminate.
  - exists (fun _ => 0). split; auto. intros d [].
  - apply andb_true_iff in H as [H1 H2]. apply Nat.ltb_lt in H1. inversion HL; subst.
    destruct (IH idx H4 H2) as (e & -> & He).
    exists (fun d => if N.eqb d c then i else e d). simpl. rewrite N.eqb_refl. split.
    + f_equal. apply map_ext_in. intros d Hd. destruct (N.eqb_spec d c); auto. subst. contradiction.
    + intros d [->|Hd]; [rewrite N.eqb_refl; auto|].
      destruct (N.eqb_spec d c); [subst; contradiction|]. apply He; auto.
Qed.

(** The view exists (every check of ndarray passes); it is a view of exactly the operand's
    elements; each of its positions has the address of an element of the operand, the one at
    the same label values; distinct positions have distinct addresses. *)
Theorem diagonal_views_stay_inside :
  forall (A : Type) (Sc : Scalar A) sc this out size (t : arr A),
    sized sc [this] out size -> wf t -> a_shape t = map size this ->
    (forall c, In c this -> size c <> 0) ->
    as_slice_memory_order t <> None -> Forall (fun s => 0 < s)%Z (a_strides t) ->
    exists d v labels,
      diagonalization_new sc = Ok d /\ diagonalization_view d t = Ok v
      /\ a_data v = firstn (prod (a_shape t)) (skipn (Z.to_nat (a_off t)) (a_data t))
      /\ length (a_data v) = prod (a_shape t)
      /\ wf v
      /\ NoDup labels /\ (forall c, In c labels <-> In c this) /\ firstn (length out) labels = out
      /\ a_shape v = map size labels
      /\ (forall value : char -> nat, (forall c, In c this -> value c < size c) ->
            (a_off t + address v (map value labels))%Z = address t (map value this)
            /\ elem v (map value labels) = elem t (map value this))
      /\ (forall idx idx', in_bounds (a_shape v) idx = true -> in_bounds (a_shape v) idx' = true ->
            address v idx = address v idx' -> idx = idx').
Proof.
  intros A Sc sc this out size t HS Wt Ht Hne Hc Hpos. apply contiguous_slice in Hc.
  destruct (diagonalization_new_ok sc this out size HS) as (ex & m & E & Hn & Hex & HF).
  pose proof HS as (_ & [Ho Ho'] & _).
  assert (HL : forall c, In c (out ++ ex) <-> In c this).
  { intros c. rewrite in_app_iff, Hex. split.
    - intros [H|H]; [|tauto]. apply Ho' in H. simpl in H. rewrite app_nil_r in H. auto.
    - intros H. destruct (in_dec char_eq_dec c out); tauto. }
  destruct (diagonalization_view_lrep size t this (out ++ ex) m _ (lrep_wf size t this Wt Ht) Hne Hc Hpos Hn HL HF)
    as (v & Ev & Hv).
  pose proof (view_fields size t this (out ++ ex) m Wt Ht Hne Hc Hpos Hn HL HF v Ev) as Fv.
  destruct (address_facts size t this Wt Ht Hne Hc Hpos) as (Ho1 & Hlen & Hb & Hinj).
  assert (Hl : length (firstn (prod (a_shape t)) (skipn (Z.to_nat (a_off t)) (a_data t))) = prod (a_shape t)).
  { apply firstn_length_le. rewrite skipn_length. lia. }
  exists (mkDiag m (map size (out ++ ex))), v, (out ++ ex).
  split; [exact E|]. split; [exact Ev|].
  split; [rewrite Fv; reflexivity|].
  split; [rewrite Fv; exact Hl|].
  assert (Hoff : a_off v = 0%Z) by (rewrite Fv; reflexivity).
  assert (Hst : a_strides v = map (label_stride (combine this (a_strides t))) (out ++ ex)) by (rewrite Fv; reflexivity).
  assert (Hshv : a_shape v = map size (out ++ ex)) by (rewrite Fv; reflexivity).
  assert (Hadd : forall e, address v (map e (out ++ ex)) = dot_off (map e this) (a_strides t)).
  { intros e. unfold address. rewrite Hoff, Hst, Z.add_0_l. apply (view_address size t this (out ++ ex) Wt Ht Hn HL). }
  assert (Hran : forall e, in_range size (out ++ ex) e -> in_range size this e).
  { intros e He c Hx. apply He. apply HL. auto. }
  split.
  { split.
    - rewrite Hst, Hshv, !map_length. reflexivity.
    - intros idx Hi. rewrite Hshv in Hi. destruct (bounds_env size _ idx Hn Hi) as (e & -> & He).
      change (0 <= address v (map e (out ++ ex)) < Z.of_nat (length (a_data v)))%Z.
      rewrite Hadd. replace (length (a_data v)) with (prod (a_shape t)) by (rewrite Fv; symmetry; exact Hl).
      apply Hb. auto. }
  split; [exact Hn|]. split; [exact HL|].
  split. { rewrite firstn_app, Nat.sub_diag, firstn_all. simpl. apply app_nil_r. }
  split; [exact Hshv|]. split.
  - intros e He. rewrite Hadd. split; [reflexivity|].
    destruct Hv as (_ & _ & Hv). unfold elem at 1. rewrite Hv; [reflexivity|].
    intros c Hx. apply He. apply HL; auto.
  - intros idx idx' Hi Hi' Ea. rewrite Hshv in Hi, Hi'.
    destruct (bounds_env size _ idx Hn Hi) as (e & -> & He).
    destruct (bounds_env size _ idx' Hn Hi') as (e' & -> & He').
    rewrite !Hadd in Ea. apply map_ext_in. intros c Hx.
    apply (Hinj e e'); auto. apply HL. auto.
Qed.
Print Assumptions diagonal_views_stay_inside.

(** "iji->ji" on an operand in column-major order that starts two elements into its buffer. *)
Example diagonal_view_example :
  let t := mkArr [9; 9; 1; 2; 3; 4; 5; 6; 7; 8; 9]%Z 2 [2; 2; 2] [1; 2; 4]%Z in
  exists sc d, from_string_and_shapes id_hash [] (chars "iji->ji") [[2; 2; 2]] = Ok sc
    /\ as_slice_memory_order t <> None
    /\ diagonalization_new sc = Ok d
    /\ diagonalization_view d t = Ok (mkArr [1; 2; 3; 4; 5; 6; 7; 8]%Z 0 [2; 2] [2; 5]%Z).
Proof.
  do 2 eexists. split; [vm_compute; reflexivity|]. split; [discriminate|].
  split; vm_compute; reflexivity.
Qed.

(** The same on the inside: an operand that is not contiguous is copied first, so it is viewed
    in row-major order whatever its strides. *)
Theorem diagonal_of_any_layout :
  forall (A : Type) (Sc : Scalar A) lay sc this out size (t : arr A),
    backend_runs lay -> sized sc [this] out size -> wf t -> a_shape t = map size this ->
    (forall c, In c this -> size c <> 0) ->
    exists d r labels, diagonalization_new sc = Ok d /\ diagonalization_contract lay d t = Ok r
      /\ NoDup labels /\ (forall c, In c labels <-> In c this) /\ firstn (length out) labels = out
      /\ a_shape r = map size labels
      /\ (forall value : char -> nat, (forall c, In c this -> value c < size c) ->
            elem r (map value labels) = elem t (map value this)).
Proof.
  intros A Sc lay sc this out size t Hlay HS Wt Ht Hne.
  destruct (diagonalization_new_ok sc this out size HS) as (ex & m & E & Hn & Hex & HF).
  pose proof HS as (_ & [Ho Ho'] & _).
  assert (HL : forall c, In c (out ++ ex) <-> In c this).
  { intros c. rewrite in_app_iff, Hex. split.
    - intros [H|H]; [|tauto]. apply Ho' in H. simpl in H. rewrite app_nil_r in H. auto.
    - intros H. destruct (in_dec char_eq_dec c out); tauto. }
  destruct (diagonalization_contract_lrep this size lay Hlay t _ (out ++ ex) m Wt
     (lrep_wf size t this Wt Ht) Hne Hn HL HF) as (r & Er & Hr).
  exists (mkDiag m (map size (out ++ ex))), r, (out ++ ex).
  split; [exact E|]. split; [exact Er|]. split; [exact Hn|]. split; [exact HL|].
  split. { rewrite firstn_app, Nat.sub_diag, firstn_all. simpl. apply app_nil_r. }
  destruct Hr as (Hs & _ & Hr). split; [exact Hs|].
  intros e He. unfold elem at 1. rewrite Hr; [reflexivity|]. intros c Hx. apply He. apply HL; auto.
Qed.
Print Assumptions diagonal_of_any_layout.

(** A transposed slice with a gap, not contiguous. *)
Example diagonal_of_any_layout_example :
  let t := mkArr [1; 2; 0; 3; 4; 0]%Z 0 [2; 2] [3; 1]%Z in
  as_slice_memory_order t = None
  /\ (do sc <- from_string_and_shapes id_hash [] (chars "ii->i") [[2; 2]];
      do d <- diagonalization_new sc; do r <- diagonalization_contract c_backend d t; a_iter r)
     = Ok [1; 4]%Z.
Proof. split; vm_compute; reflexivity. Qed.

(** With an empty axis the copy has zero strides and the assertion at
    singleton_contractors.rs:237 fails. *)
Theorem empty_diagonal_panics :
  forall (A : Type) (Sc : Scalar A) lay d sc this out size (t : arr A),
    sized sc [this] out size -> wf t -> a_shape t = map size this -> In 0 (a_shape t) ->
    diagonalization_contract lay d t = Panic.
Proof.
  intros A Sc lay d sc this out size t HS Wt Ht H0. rewrite Ht in H0. apply in_map_iff in H0 as (c & Ec & Hc).
  apply (diagonalization_contract_empty sc this out size HS lay t _ d Wt (lrep_wf size t this Wt Ht)).
  exists c. auto.
Qed.
Print Assumptions empty_diagonal_panics.

Example empty_diagonal_example :
  (do sc <- from_string_and_shapes id_hash [] (chars "ii->i") [[0; 0]];
   do d <- diagonalization_new sc; diagonalization_contract c_backend d (zarr [0; 0] [])) = Panic.
Proof. vm_compute. reflexivity. Qed.

(** ** C37: the sums of strides *)

(** The sum of the strides of the axes labelled [c]. *)
Definition summed_stride (labels : list char) (strides : list Z) (c : char) : Z :=
  fold_right Z.add 0%Z
    (map snd (filter (fun x => N.eqb (fst x) c) (combine labels strides))).

Definition usize_largest : Z := 18446744073709551615%Z.
Definition isize_largest : Z := 9223372036854775807%Z.

(** The additions at singleton_contractors.rs:238 do not overflow, if they do not for the
    labels of length one. *)
Theorem stride_sums_do_not_overflow :
  forall (A : Type) sc this out size (t : arr A),
    sized sc [this] out size -> wf t -> a_shape t = map size this ->
    (forall c, In c this -> size c <> 0) ->
    as_slice_memory_order t <> None -> Forall (fun s => 0 < s)%Z (a_strides t) ->
    (Z.of_nat (prod (a_shape t)) <= isize_largest)%Z ->
    (forall c, In c this -> size c = 1 -> (summed_stride this (a_strides t) c <= usize_largest)%Z) ->
    exists d, diagonalization_new sc = Ok d
      /\ diagonalization_view_c usize_largest d t = diagonalization_view d t.
Proof.
  intros A sc this out size t HS Wt Ht Hne Hc Hpos Hp H1. apply contiguous_slice in Hc.
  destruct (diagonalization_new_ok sc this out size HS) as (ex & m & E & Hn & Hex & HF).
  exists (mkDiag m (map size (out ++ ex))). split; [exact E|].
  unfold diagonalization_view_c, diagonalization_view.
  cbn [input_to_output_mapping diag_output_shape]. rewrite map_map.
  rewrite (add_strides_checked usize_largest m (out ++ ex) Hn this (a_strides t) 0 (fun _ => 0%Z) m); auto.
  - symmetry. apply (strides_length size); auto.
  - intros c Hx. rewrite Z.add_0_l.
    destruct (Nat.eq_dec (size c) 1) as [E1|E1]; [exact (H1 c Hx E1)|].
    pose proof (Hne c Hx).
    assert (Hb : (label_stride (combine this (a_strides t)) c < Z.of_nat (prod (a_shape t)))%Z).
    { apply (stride_bound size t this Wt Ht Hne Hc Hpos c Hx). lia. }
    unfold usize_largest, isize_largest in *. lia.
Qed.
Print Assumptions stride_sums_do_not_overflow.

(** In particular with at most two axes of length one per label. *)
Theorem stride_sums_of_two :
  forall (A : Type) sc this out size (t : arr A),
    sized sc [this] out size -> wf t -> a_shape t = map size this ->
    (forall c, In c this -> size c <> 0) ->
    as_slice_memory_order t <> None ->
    Forall (fun s => 0 < s <= isize_largest)%Z (a_strides t) ->
    (Z.of_nat (prod (a_shape t)) <= isize_largest)%Z ->
    (forall c, In c this -> size c = 1 -> count_occ char_eq_dec this c <= 2) ->
    exists d, diagonalization_new sc = Ok d
      /\ diagonalization_view_c usize_largest d t = diagonalization_view d t.
Proof.
  intros A sc this out size t HS Wt Ht Hne Hc Hpos Hp H1.
  apply (stride_sums_do_not_overflow A sc this out size t); auto.
  { eapply Forall_impl; [|exact Hpos]. cbv beta. intros; lia. }
  intros c Hx E1. specialize (H1 c Hx E1).
  assert (Hb : forall ls ss, Forall (fun s => 0 < s <= isize_largest)%Z ss ->
    (summed_stride ls ss c <= Z.of_nat (count_occ char_eq_dec ls c) * isize_largest)%Z).
  { clear. unfold summed_stride. induction ls as [|d ls IH]; intros [|s ss] Hs;
      cbn [combine filter map fold_right count_occ]; unfold isize_largest in *; [lia|lia|lia|].
    inversion Hs; subst. specialize (IH ss H2). cbn [fst snd].
    destruct (N.eqb_spec d c), (char_eq_dec d c); try congruence; cbn [map fold_right snd]; lia. }
  specialize (Hb this (a_strides t) Hpos). unfold isize_largest, usize_largest in *. lia.
Qed.
Print Assumptions stride_sums_of_two.

Example stride_sums_example :
  exists sc d, from_string_and_shapes id_hash [] (chars "iij->j") [[2; 2; 3]] = Ok sc
    /\ diagonalization_new sc = Ok d
    /\ diagonalization_view_c usize_largest d (zarr [2; 2; 3] [1; 2; 3; 4; 5; 6; 7; 8; 9; 10; 11; 12]%Z)
       = Ok (mkArr [1; 2; 3; 4; 5; 6; 7; 8; 9; 10; 11; 12]%Z 0 [3; 2] [1; 9]%Z).
Proof.
  do 2 eexists. split; [vm_compute; reflexivity|]. split; [vm_compute; reflexivity|].
  vm_compute; reflexivity.
Qed.

(** But the stride of an axis of length one is arbitrary: a one-element view with three equal
    labels and the largest strides overflows, so a build with overflow checks panics on
    "iii->i" where the sum of strides is never used. *)
Theorem stride_sums_do_not_overflow_refuted :
  exists sc size (t : arr Z) d v, sized sc [chars "iii"] (chars "i") size
    /\ wf t /\ a_shape t = map size (chars "iii") /\ (forall c, In c (chars "iii") -> size c <> 0)
    /\ as_slice_memory_order t <> None
    /\ Forall (fun s => 0 < s <= isize_largest)%Z (a_strides t)
    /\ diagonalization_new sc = Ok d /\ diagonalization_view d t = Ok v
    /\ diagonalization_view_c usize_largest d t = Panic.
Proof.
  assert (Hc : call_ok (chars "iii->i") [[1; 1; 1]] [chars "iii"] (chars "i") (size_fn [(105%N, 1)])).
  { apply check_call_ok. check_call_tac. }
  destruct (from_string_ok id_hash [] _ _ _ _ _ id_hash_ok' Hc) as (sc & E & HS).
  vm_compute in E. injection E as <-.
  do 5 eexists. split; [exact HS|].
  split; [exact (wf_b_ok (mkArr [7]%Z 0 [1; 1; 1] [isize_largest; isize_largest; isize_largest]) eq_refl)|].
  split; [reflexivity|]. split; [intros c Hx; cbn in Hx; intuition (subst; discriminate)|].
  split; [discriminate|]. split; [repeat constructor; discriminate|].
  split; [vm_compute; reflexivity|]. split; [vm_compute; reflexivity|]. vm_compute; reflexivity.
Qed.
Print Assumptions stride_sums_do_not_overflow_refuted.
