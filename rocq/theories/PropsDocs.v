(** The equalities that the documentation asserts, to the last bit and for all operands (C78): sums along an axis,
    transposes, diagonals, traces and products of matrices against ndarray's own methods. *)
From Verif Require Import Base BaseFacts NDArray Validation Optimizers Strategies Singleton Pair Path Api Spec ParserFacts
  ValidationFacts ValidationMain SumFacts ArrayFacts AlgebraFacts DiagFacts SingletonFacts TensordotFacts PairFacts PathFacts EinsumMain EinsumProps
  ParamFacts GradeFacts Schedule NdSchedule NdScheduleFacts NdLayoutFacts BenchFacts ExactFacts ReduceFacts FloatFacts FloatMain Examples
  PropsLaws PropsFloat PropsNdarray PropsExact PropsReduce PropsWriting PropsBench.
From Coq Require Import Lia ZArith SpecFloat.
From Coq Require String.
Import String.StringSyntax.
Local Open Scope string_scope.
Local Open Scope list_scope.
Local Open Scope nat_scope.

(** [a.diag()] of a matrix, a view [lib.rs:55,75]. *)
Definition diag {A : Type} (a : arr A) : arr A :=
  mkArr (a_data a) (a_off a) [fold_right Nat.min (nth 0 (a_shape a) 0) (a_shape a)] [fold_right Z.add 0%Z (a_strides a)].

(** [v.sum()] of a vector, by the same code as the sum of a lane [lib.rs:55]. *)
Definition vector_sum {A : Type} {Sc : Scalar A} (v : arr A) : res A :=
  do xs <- a_iter v; Ok (lane_sum (nth 0 (a_strides v) 0%Z) xs).

(** The strings of the examples are calls for operands of any lengths. *)
Lemma any_lengths s shapes ones ops out size size1 : call_ok s ones ops out size1 ->
  shapes_ok size ops shapes -> call_ok s shapes ops out size.
Proof. intros (H1 & H2 & _) H. split; auto. Qed.

(** ** Sums along the last axis *)

(** [einsum("ij->i", &[&a])] and [a.sum_axis(Axis(1))] [lib.rs:90-98]: not only the same array but the same
    computation, whatever ndarray does. *)
Theorem documented_axis_sum :
  forall (A : Type) (Sc : Scalar A) (lay : backend A) h s (a : arr A) out x size,
    hash_ok h -> call_ok s [a_shape a] [out ++ [x]] out size -> NoDup (out ++ [x]) ->
    einsum h lay s [a] = sum_axis lay a (length out).
Proof.
  intros A Sc lay h s a out x size Hh Hc Hn.
  destruct (single_call lay h s a _ out size Hh Hc) as (sc & c & HS & Ec & ->).
  pose proof (out_length_le sc _ out size HS) as Hle.
  unfold singleton_contraction_new, singleton_summary_new in Ec.
  rewrite (one_op size sc (out ++ [x]) out HS), (one_out size sc (out ++ [x]) out HS) in Ec. cbn [length Nat.eqb rassert rbind] in Ec.
  unfold index in Ec. cbn [nth_error unwrap rbind] in Ec.
  unfold singleton_summary_from_indices in Ec. rewrite usub_ok in Ec by auto. cbn [rbind] in Ec. unfold singleton_strategy in Ec.
  cbn [num_summed_axes num_diagonalized_axes num_reordered_axes] in Ec.
  rewrite (proj2 (diagonalized_zero _) Hn), distinct_fixed in Ec by auto. rewrite app_length in Ec. cbn [length] in Ec.
  replace (length out + 1 - length out) with 1 in Ec by lia.
  match type of Ec with context [length (filter ?f ?l)] => assert (E0 : length (filter f l) = 0) end.
  { clear. induction out as [|c o IH]; auto. cbn [app combine filter fst snd]. rewrite N.eqb_refl. exact IH. }
  rewrite E0 in Ec. cbn [singleton_op_new] in Ec. rewrite (summation_new_ok sc _ out size HS) in Ec by (rewrite app_length; simpl; lia).
  rewrite app_length in Ec. cbn [length] in Ec. replace (length out + 1 - length out) with 1 in Ec by lia.
  cbn [rbind] in Ec. injection Ec as <-. cbn [sgl_op run_singleton]. unfold summation_contract.
  cbn [adjusted_axis_list seq map skipn foldM]. unfold index. cbn [nth_error unwrap rbind].
  destruct (sum_axis lay a (length out)); reflexivity.
Qed.
Print Assumptions documented_axis_sum.

(** On a slice, stored with gaps and backwards: both end the same way, in the same bits. *)
Example axis_sum_case :
  let a := mkArr (map (fun z => f_of f64 z 0) [1; 2; 3; 4; 5; 6; 7; 8]%Z) 3%Z [2; 2] [4; -2]%Z in
  call_ok (chars "ij->i") [a_shape a] [chars "i" ++ [106%N]] (chars "i") (size_fn (combine (chars "ij") [2; 2])) /\ wf a
  /\ run64 "ij->i" [a] = Ok (map (fun z => proj1_sig (f_of f64 z 0)) [6; 14]%Z).
Proof.
  cbv zeta. split; [apply check_call_ok; check_call_tac|]. split; [apply wf_b_ok; reflexivity|]. vm_compute. reflexivity.
Qed.

(** ** Transposes and diagonals *)

(** [einsum("ji", &[&c])], [einsum("ij->ji", &[&c])] and [c.t()] [lib.rs:113-125]. *)
Theorem documented_transpose :
  forall (A : Type) (Sc : Scalar A) (lay : backend A) h (a : arr A) m n,
    hash_ok h -> backend_runs lay -> wf a -> a_shape a = [m; n] ->
    exists r r' t, einsum h lay (chars "ji") [a] = Ok r /\ einsum h lay (chars "ij->ji") [a] = Ok r' /\ transposed a = Ok t
      /\ same_array r t /\ same_array r' t.
Proof.
  intros A Sc lay h a m n Hh Hl Wa Sa.
  destruct (transposed_2 a m n Wa Sa) as (t & Et & St & _ & Gt).
  assert (G : forall i j, i < m -> j < n -> a_get t [j; i] = a_get a [i; j]).
  { intros i j Hi Hj. rewrite Gt by (simpl; rewrite (proj2 (Nat.ltb_lt _ _) Hi), (proj2 (Nat.ltb_lt _ _) Hj); auto).
    destruct (wf_holds a Wa) as (_ & _ & Ga). rewrite Ga; auto. rewrite Sa. simpl.
    rewrite (proj2 (Nat.ltb_lt _ _) Hi), (proj2 (Nat.ltb_lt _ _) Hj); auto. }
  destruct (rearrangement_is_exact A Sc h lay (chars "ji") (chars "ji") (chars "ij") (size_fn (combine (chars "ij") [n; m])) a)
    as (r & Er & Sr & Gr); auto.
  { apply any_lengths with (ones := [[1; 1]]) (size1 := size_fn (combine (chars "ij") [1; 1]));
      [apply check_call_ok; check_call_tac|]. rewrite Sa. repeat constructor. }
  { intros x Hx. simpl in *. tauto. }
  { left. repeat constructor; simpl; intuition discriminate. }
  destruct (rearrangement_is_exact A Sc h lay (chars "ij->ji") (chars "ij") (chars "ji") (size_fn (combine (chars "ij") [m; n])) a)
    as (r' & Er' & Sr' & Gr'); auto.
  { apply any_lengths with (ones := [[1; 1]]) (size1 := size_fn (combine (chars "ij") [1; 1]));
      [apply check_call_ok; check_call_tac|]. rewrite Sa. repeat constructor. }
  { intros x Hx. simpl in *. tauto. }
  { left. repeat constructor; simpl; intuition discriminate. }
  change (a_shape r = [n; m]) in Sr. change (a_shape r' = [n; m]) in Sr'.
  exists r, r', t. split; auto. split; auto. split; auto.
  split; (split; [congruence|]); intros idx Hi; [rewrite Sr in Hi|rewrite Sr' in Hi];
    pose proof (proj2 (indices_In [n; m] idx) Hi) as Hin; apply indices_2 in Hin as (j & i & -> & Hj & Hi').
  - rewrite (Gr [j; i] Hi), (G i j Hi' Hj). reflexivity.
  - rewrite (Gr' [j; i] Hi), (G i j Hi' Hj). reflexivity.
Qed.
Print Assumptions documented_transpose.

(** The elements of [a.diag()]. *)
Lemma diag_holds {A} {Sc : Scalar A} (a : arr A) n : wf a -> a_shape a = [n; n] ->
  holds (diag a) [n] (fun o => elem a (o ++ o)).
Proof.
  intros Wa Sa. pose proof (wf_holds a Wa) as (_ & Ls & Ga). rewrite Sa in Ls, Ga.
  unfold diag. rewrite Sa. cbn [nth fold_right]. rewrite !Nat.min_id.
  split; [reflexivity|]. split; [reflexivity|]. intros o Ho.
  destruct o as [|i [|? ?]]; [discriminate| |simpl in Ho; rewrite andb_false_r in Ho; discriminate].
  assert (Hi : in_bounds [n; n] [i; i] = true) by (simpl in *; rewrite andb_true_r in Ho; rewrite Ho; auto).
  cbn [app]. rewrite <- (Ga [i; i] Hi). unfold a_get. cbn [a_shape a_data a_off a_strides]. rewrite Ho, Sa, Hi. do 2 f_equal.
  destruct (a_strides a) as [|s0 [|s1 [|? ?]]]; try discriminate Ls. simpl. lia.
Qed.

(** [einsum("ii->i", &[&a])] and [a.diag()] [lib.rs:69-76]. *)
Theorem documented_diagonal :
  forall (A : Type) (Sc : Scalar A) (lay : backend A) h (a : arr A) n,
    hash_ok h -> backend_runs lay -> wf a -> a_shape a = [n; n] -> n <> 0 ->
    exists r, einsum h lay (chars "ii->i") [a] = Ok r /\ same_array r (diag a).
Proof.
  intros A Sc lay h a n Hh Hl Wa Sa Hn.
  destruct (rearrangement_is_exact A Sc h lay (chars "ii->i") (chars "ii") (chars "i") (size_fn (combine (chars "i") [n])) a)
    as (r & Er & Sr & Gr); auto.
  { apply any_lengths with (ones := [[1; 1]]) (size1 := size_fn (combine (chars "i") [1]));
      [apply check_call_ok; check_call_tac|]. rewrite Sa. repeat constructor. }
  { intros x Hx. simpl in *. tauto. }
  { right. repeat constructor; exact Hn. }
  change (a_shape r = [n]) in Sr. pose proof (diag_holds a n Wa Sa) as (Sd & _ & Gd).
  exists r. split; auto. split; [congruence|]. intros idx Hi. rewrite Sr in Hi. rewrite (Gr idx Hi), (Gd idx Hi).
  destruct idx as [|i [|? ?]]; [discriminate| |simpl in Hi; rewrite andb_false_r in Hi; discriminate].
  destruct (wf_holds a Wa) as (_ & _ & Ga). rewrite Sa in Ga.
  assert (Hi' : in_bounds [n; n] [i; i] = true) by (simpl in *; rewrite andb_true_r in Hi; rewrite Hi; auto).
  exact (Ga [i; i] Hi').
Qed.
Print Assumptions documented_diagonal.

(** ** Products of matrices *)

(** [einsum("ij,jk->ik", &[&c, &d])], the same through a path, and [c.dot(&d)] [lib.rs:140-143,156-165], if a matrix
    product does not add up by the layout of its operands. *)
Theorem documented_product :
  forall (A : Type) (Sc : Scalar A) (lay : backend A) add h (a b : arr A) m k n,
    hash_ok h -> backend_runs lay -> (forall x y idx l, add_products lay x y idx l = add l) ->
    wf a -> wf b -> a_shape a = [m; k] -> a_shape b = [k; n] ->
    exists r p r' t, einsum h lay (chars "ij,jk->ik") [a; b] = Ok r
      /\ einsum_path_fn h (chars "ij,jk->ik") [a; b] Naive = Ok p /\ contract_operands lay p [a; b] = Ok r'
      /\ dot lay a b = Ok t /\ same_array r t /\ same_array r' t.
Proof.
  intros A Sc lay add h a b m k n Hh Hl Hadd Wa Wb Sa Sb.
  set (size := size_fn (combine (chars "ijk") [m; k; n])).
  assert (Hc : call_ok (chars "ij,jk->ik") (map (@a_shape A) [a; b]) [chars "ij"; chars "jk"] (chars "ik") size).
  { apply any_lengths with (ones := [[1; 1]; [1; 1]]) (size1 := size_fn (combine (chars "ijk") [1; 1; 1]));
      [apply check_call_ok; check_call_tac|]. cbn [map]. rewrite Sa, Sb. repeat constructor. }
  pose proof (wf_holds a Wa) as Hhc. pose proof (wf_holds b Wb) as Hhd. rewrite Sa in Hhc. rewrite Sb in Hhd.
  destruct (dot_any lay a b m k n _ _ Hhc Hhd) as (t & Et & Ht).
  assert (Hval : forall V, product_is add size (chars "ij") (chars "jk") (chars "ik")
      (fun e => elem a (map e (chars "ij"))) (fun e => elem b (map e (chars "jk"))) V ->
      forall r, holds r (map size (chars "ik")) (fun o => V (bind (chars "ik") o)) -> same_array r t).
  { intros V (_ & _ & _ & HV) r Hr. apply same_array_holds with (1 := Hr). change (map size (chars "ik")) with [m; n].
    eapply holds_ext_in; [|exact Ht]. intros o Ho. pose proof (proj2 (indices_In [m; n] o) Ho) as Hin.
    apply indices_2 in Hin as (i & l & -> & Hi & Hk). cbn [dot_value]. rewrite Hadd.
    rewrite (HV) with (cs := chars "j").
    - reflexivity.
    - intros H. destruct (H 106%N) as [[H1 _] _]. simpl in H1. intuition discriminate.
    - discriminate.
    - discriminate.
    - split; [|split].
      + intros x. simpl. intuition congruence.
      + intros (x & H1 & H2 & H3). exfalso. simpl in *. intuition congruence.
      + intros _. repeat constructor. }
  assert (Nd : forall x y : char, x <> y -> NoDup [x; y]) by (intros; repeat constructor; simpl; intuition congruence).
  destruct (product_of_two_is_exact A Sc lay add h (chars "ij,jk->ik") a b (chars "ij") (chars "jk") (chars "ik") size)
    as (r & V & Er & HV & Hr); auto; try (apply Nd; discriminate); try (intros x Hx; simpl in *; tauto).
  destruct (path_of_call h Hh _ _ _ _ _ Hc) as (p & Ep).
  exists r, p.
  destruct (paths_hold_their_products A Sc lay add h (chars "ij,jk->ik") Naive p [a; b] [a; b] [chars "ij"; chars "jk"] (chars "ik") size
    (chars "ij", a) [(chars "jk", b)]) as (r' & V' & Er' & HV' & Hr'); auto; try discriminate.
  { split; [repeat constructor; simpl; intuition discriminate|]. intros before this after x E Hin. destruct before as [|y [|z before]].
    - injection E as <- <-. simpl in *. tauto.
    - injection E as <- <- <-. simpl in *. tauto.
    - injection E as _ _ E. destruct before; discriminate. }
  cbn [labelled fst snd map] in HV'.
  inversion HV' as [? ? ? ? ? H|? ? ? ? ? ? ? ? Hne]; subst; [|congruence].
  exists r', t. split; auto. split; auto. split; auto. split; auto. split; eauto.
Qed.
Print Assumptions documented_product.

(** ** Traces *)

(** What [einsum("ii", &[&a])] runs. *)
Lemma trace_runs {A} {Sc : Scalar A} (lay : backend A) h (a : arr A) n : hash_ok h -> a_shape a = [n; n] ->
  einsum h lay (chars "ii") [a] = diag_and_sum_contract lay (mkDiag [0; 0] [n]) (mkSummation [0] [0]) a.
Proof.
  intros Hh Sa. set (size := size_fn (combine (chars "i") [n])).
  destruct (single_call lay h (chars "ii") a (chars "ii") [] size Hh) as (sc & c & HS & Ec & ->).
  { apply any_lengths with (ones := [[1; 1]]) (size1 := size_fn (combine (chars "i") [1]));
      [apply check_call_ok; check_call_tac|]. rewrite Sa. repeat constructor. }
  assert (Ed : diagonalization_new sc = Ok (mkDiag [0; 0] [n])).
  { unfold diagonalization_new. rewrite (one_op size sc _ _ HS), (one_out size sc _ _ HS). cbn [length Nat.eqb rassert rbind].
    unfold index. cbn [nth_error unwrap rbind]. change (diag_mapping [] (chars "ii")) with (chars "i", [0; 0]). cbv iota.
    rewrite (sizes_ok sc [chars "ii"] [] size (chars "i") HS) by (intros x Hx; simpl in *; tauto). reflexivity. }
  unfold singleton_contraction_new, singleton_summary_new in Ec.
  rewrite (one_op size sc _ _ HS), (one_out size sc _ _ HS) in Ec. cbn [length Nat.eqb rassert rbind] in Ec.
  unfold index in Ec. cbn [nth_error unwrap rbind] in Ec.
  change (singleton_summary_from_indices (chars "ii") []) with (Ok (mkSingletonSummary 1 1 0)) in Ec.
  cbn [rbind singleton_strategy num_summed_axes num_diagonalized_axes num_reordered_axes singleton_op_new] in Ec.
  unfold diag_and_sum_new in Ec. rewrite Ed, (one_out size sc _ _ HS) in Ec. cbn in Ec. injection Ec as <-. reflexivity.
Qed.

Lemma indices_1 n : indices [n] = map (fun i => [i]) (seq 0 n).
Proof. cbn [indices map]. induction (seq 0 n) as [|i l IH]; cbn; [|f_equal]; auto. Qed.

(** The diagonal, summed as a lane of some stride. *)
Definition trace_by {A : Type} {Sc : Scalar A} (stride : Z) (a : arr A) (n : nat) : A :=
  lane_sum stride (map (fun i => elem a [i; i]) (seq 0 n)).

Lemma trace_of_view {A} {Sc : Scalar A} m (fma : A -> A -> A -> A) (a v : arr A) n st : a_strides v = [st] ->
  lrep (size_fn (combine (chars "i") [n])) v (chars "i") (fun e => elem a (map e (chars "ii"))) ->
  exists r, summation_contract (ndarray m fma) (mkSummation [0] [0]) v = Ok r /\ holds r [] (fun _ => trace_by st a n).
Proof.
  intros Hst Hv. unfold summation_contract. cbn [adjusted_axis_list skipn foldM]. unfold index. cbn [nth_error unwrap rbind].
  destruct (sum_axis_exact (ndarray m fma) (nd_runs m fma) (size_fn (combine (chars "i") [n])) v [] 105%N [] _
    ltac:(repeat constructor; simpl; tauto) Hv) as (r & Er & Hr).
  change (length (@nil char)) with 0 in Er. rewrite Er. exists r. split; [reflexivity|]. apply lrep_holds in Hr; [|constructor]. eapply holds_ext_in; [|exact Hr].
  intros o Ho. cbn beta. unfold ndarray. rewrite nd_sums, Hst. reflexivity.
Qed.

(** An array with gaps is copied in order. *)
Lemma copy_in_order {A} {Sc : Scalar A} m (fma : A -> A -> A -> A) (t x : arr A) : is_contiguous t = false ->
  ndarray m fma LIntoOwned [t] x = x.
Proof.
  intros Hc. change (amap (fun p => nth p (a_data x) szero) (copied (frame t) (frame x)) = x). unfold copied.
  change (is_contiguous (frame t)) with (is_contiguous t). rewrite Hc. apply unmoved_follows.
Qed.

(** A trace on ndarray: one number after the other along a matrix without gaps, and otherwise, since the diagonal is
    copied into a new vector, in eight parts. *)
Theorem trace_on_ndarray :
  forall (A : Type) (Sc : Scalar A) m fma h (a : arr A) n, hash_ok h -> wf a -> a_shape a = [n; n] -> n <> 0 ->
    let gapless := is_contiguous a = true /\ Forall (fun s => 0 < s)%Z (a_strides a) in
    let xs := map (fun i => elem a [i; i]) (seq 0 n) in
    exists r, einsum h (ndarray m fma) (chars "ii") [a] = Ok r /\ a_shape r = []
      /\ (gapless -> a_get r [] = Ok (sadd szero (fold_left sadd xs szero)))
      /\ (~ gapless -> a_get r [] = Ok (eight_sums xs)).
Proof.
  intros A Sc m fma h a n Hh Wa Sa Hn gapless xs. rewrite (trace_runs _ h a n Hh Sa).
  set (size := size_fn (combine (chars "i") [n])).
  assert (Hl : lrep size a (chars "ii") (fun e => elem a (map e (chars "ii")))) by (apply lrep_wf; auto).
  assert (Ls : length (a_strides a) = 2) by (destruct Wa as [H _]; rewrite Sa in H; exact H).
  destruct (a_strides a) as [|s0 [|s1 [|? ?]]] eqn:Es; try discriminate Ls. clear Ls.
  assert (Hne : forall c, In c (chars "ii") -> size c <> 0) by (intros c Hc; simpl in Hc; destruct Hc as [<-|[<-|[]]]; exact Hn).
  assert (HL : forall c, In c (chars "i") <-> In c (chars "ii")) by (intros c; simpl; tauto).
  assert (HF : Forall2 (fun c p => position c (chars "i") = Some p) (chars "ii") [0; 0]) by (repeat constructor).
  assert (NL : NoDup (chars "i")) by (repeat constructor; simpl; tauto).
  assert (L1 : default_strides [length xs] = [1%Z]).
  { unfold default_strides, is_empty_shape, xs. rewrite map_length, seq_length. destruct n; [congruence|reflexivity]. }
  assert (Strides : forall (t v : arr A) u0 u1, a_strides t = [u0; u1] -> diagonalization_view (mkDiag [0; 0] [n]) t = Ok v -> a_strides v = [(u0 + u1)%Z]).
  { intros t v u0 u1 Et Ev. unfold diagonalization_view in Ev. rewrite Et in Ev. cbn [length seq combine input_to_output_mapping diag_output_shape map foldM add_stride] in Ev.
    destruct (0 <? u0)%Z; [|discriminate]. cbn in Ev. destruct (0 <? u1)%Z; [|discriminate]. cbn in Ev.
    destruct (as_slice_memory_order t); [|discriminate]. cbn [unwrap rbind] in Ev. unfold view_from_shape in Ev.
    destruct (is_empty_shape [n]).
    - destruct (_ <? _)%Z in Ev; [discriminate|]. injection Ev as <-. reflexivity.
    - destruct (_ <=? _)%Z in Ev; [discriminate|]. destruct (dim_stride_overlap _ _); [discriminate|]. injection Ev as <-. reflexivity. }
  assert (Hd : {gapless} + {~ gapless}).
  { unfold gapless. destruct (is_contiguous a); [|right; intros [? _]; discriminate].
    destruct (Forall_dec (fun s => 0 < s)%Z (fun s => Z_lt_dec 0 s) [s0; s1]) as [F|F]; [left; auto|right; tauto]. }
  unfold diag_and_sum_contract. destruct Hd as [[G1 G2]|G].
  - assert (Eb : (match as_slice_memory_order a with Some _ => true | None => false end && forallb (fun st => Z.ltb 0 st) (a_strides a))%bool = true).
    { unfold as_slice_memory_order. rewrite G1, Es. simpl. inversion G2 as [|? ? P0 G3]; subst. inversion G3 as [|? ? P1 _]; subst.
      rewrite (proj2 (Z.ltb_lt _ _) P0), (proj2 (Z.ltb_lt _ _) P1). auto. }
    rewrite Eb. rewrite <- Es in G2.
    destruct (diagonalization_view_lrep size a (chars "ii") (chars "i") [0; 0] _ Hl Hne G1 G2 NL HL HF) as (v & Ev & Hv).
    change (map size (chars "i")) with [n] in Ev. rewrite Ev. cbn [rbind].
    destruct (trace_of_view m fma a v n _ (Strides a v s0 s1 Es Ev) Hv) as (r & -> & Hr & _ & Gr).
    exists r. split; auto. split; auto. split; [|intros G; exfalso; apply G; unfold gapless; rewrite <- Es; auto].
    intros _. rewrite (Gr []) by auto. unfold trace_by. fold xs. unfold lane_sum. rewrite L1. cbn [list_Z_eqb].
    rewrite Es in G2. inversion G2 as [|? ? P0 G3]; subst. inversion G3 as [|? ? P1 _]; subst.
    rewrite (proj2 (Z.eqb_neq (s0 + s1) 1)) by lia. reflexivity.
  - assert (Eb : (match as_slice_memory_order a with Some _ => true | None => false end && forallb (fun st => Z.ltb 0 st) (a_strides a))%bool = false).
    { apply Bool.not_true_iff_false. intros H. apply andb_true_iff in H as [E1 E2]. apply G. split.
      - unfold as_slice_memory_order in E1. destruct (is_contiguous a); auto.
      - rewrite <- Es. apply Forall_forall. rewrite forallb_forall in E2. intros s Hs. apply Z.ltb_lt; auto. }
    rewrite Eb. unfold diagonalization_contract.
    destruct (cloned_lrep (chars "ii") size a _ Wa Hl Hne) as (l & cl & E1 & E2 & Hcl & Hct & Hpos).
    rewrite E1. cbn [rbind]. rewrite E2. cbn [rbind].
    destruct (diagonalization_view_lrep size cl (chars "ii") (chars "i") [0; 0] _ Hcl Hne Hct Hpos NL HL HF) as (v & Ev & Hv).
    change (map size (chars "i")) with [n] in Ev. rewrite Ev. cbn [rbind].
    assert (Ecl : a_strides cl = [Z.of_nat n; 1]%Z).
    { unfold from_shape_vec in E2. rewrite Sa in E2. destruct (Nat.eqb _ _) in E2; [|discriminate]. injection E2 as <-.
      unfold mk_c, default_strides. cbn [a_strides]. destruct (is_empty_shape [n; n]) eqn:Ee; [apply is_empty_prod in Ee; rewrite prod_pair in Ee; nia|].
      cbn [c_strides map]. f_equal. cbn. lia. }
    pose proof (Strides cl v _ _ Ecl Ev) as Hst.
    assert (Lv : a_shape v = [n]) by apply Hv.
    pose proof (lrep_holds size v _ _ NL Hv) as Hhv. change (map size (chars "i")) with [n] in Hhv.
    destruct (into_owned_lrep size (ndarray m fma) v (chars "i") _ (nd_runs m fma) NL Hv) as (w & Ew & Hw). rewrite Ew. cbn [rbind].
    assert (Hsw : a_strides w = [1%Z]).
    { unfold into_owned in Ew. rewrite (holds_iter _ _ _ Hhv) in Ew. cbn [rbind] in Ew.
      rewrite Lv, copy_in_order in Ew.
      2:{ unfold is_contiguous. rewrite Lv, Hst. cbn [length Nat.eqb negb andb]. rewrite orb_false_r.
          unfold default_strides. destruct n as [|n']; [congruence|]. cbn [is_empty_shape existsb orb Nat.eqb c_strides list_Z_eqb].
          rewrite (proj2 (Z.eqb_neq _ _)) by (cbn; lia). reflexivity. }
      injection Ew as <-. unfold mk_c, default_strides. cbn [a_strides]. destruct n as [|n']; [congruence|]. reflexivity. }
    destruct (trace_of_view m fma a w n _ Hsw Hw) as (r & -> & Hr & _ & Gr).
    exists r. split; auto. split; auto. split; [intros G'; contradiction|].
    intros _. rewrite (Gr []) by auto. unfold trace_by. fold xs. unfold lane_sum. rewrite L1. cbn [list_Z_eqb Z.eqb andb]. f_equal.
    apply unrolled_is.
Qed.
Print Assumptions trace_on_ndarray.

(** [einsum("ii", &[&a])] and [a.diag().sum()] [lib.rs:49-56], of a matrix without gaps. *)
Theorem documented_trace :
  forall (A : Type) (Sc : Scalar A) m fma h (a : arr A) n, hash_ok h -> wf a -> a_shape a = [n; n] -> n <> 0 ->
    is_contiguous a = true -> Forall (fun s => 0 < s)%Z (a_strides a) ->
    exists r x, einsum h (ndarray m fma) (chars "ii") [a] = Ok r /\ vector_sum (diag a) = Ok x /\ a_shape r = [] /\ a_get r [] = Ok x.
Proof.
  intros A Sc m fma h a n Hh Wa Sa Hn Hc Hpos.
  destruct (trace_on_ndarray A Sc m fma h a n Hh Wa Sa Hn) as (r & Er & Sr & G & _).
  exists r. eexists. split; auto. split.
  - unfold vector_sum. rewrite (holds_iter _ _ _ (diag_holds a n Wa Sa)). cbn [rbind]. reflexivity.
  - split; auto. rewrite (G (conj Hc Hpos)), indices_1, map_map. cbn [app]. f_equal.
    assert (Ls : length (a_strides a) = 2) by (destruct Wa as [H _]; rewrite Sa in H; exact H).
    unfold diag. cbn [a_strides nth]. destruct (a_strides a) as [|s0 [|s1 [|? ?]]] eqn:Es; try discriminate Ls.
    inversion Hpos as [|? ? P0 G3]; subst. inversion G3 as [|? ? P1 _]; subst.
    unfold lane_sum, default_strides. rewrite map_length, seq_length. destruct n as [|n']; [congruence|]. cbn [is_empty_shape existsb orb Nat.eqb c_strides prod list_Z_eqb fold_right].
    rewrite (proj2 (Z.eqb_neq (s0 + (s1 + 0)) (Z.of_nat 1))) by lia. reflexivity.
Qed.
Print Assumptions documented_trace.

(** The trace of a slice: every second column of a matrix, with [2^53; 1; 0; 0; -2^53; 0; 0; 0] on the diagonal. *)
Definition every_second_column : arr (float f64) :=
  mkArr (map (fun k => match k with 0 => f_of f64 1 53 | 18 => f_of f64 1 0 | 72 => f_of f64 (-1) 53 | _ => f_zero f64 end) (seq 0 128))
    0%Z [8; 8] [16; 2]%Z.

(** The documented equality is false for it: [einsum] finds the one that [a.diag().sum()] loses. *)
Theorem documented_trace_of_slices_refuted :
  ~ (forall m h (a : arr (float f64)) n, hash_ok h -> wf a -> a_shape a = [n; n] -> n <> 0 ->
      exists r x, einsum h (ndarray m f_fma) (chars "ii") [a] = Ok r /\ vector_sum (diag a) = Ok x /\ a_get r [] = Ok x).
Proof.
  intros H. destruct (H General id_hash every_second_column 8) as (r & x & Er & Ex & Gr).
  - apply id_hash_ok.
  - apply wf_b_ok. vm_compute. reflexivity.
  - reflexivity.
  - discriminate.
  - assert (E1 : (do r <- einsum id_hash (ndarray General f_fma) (chars "ii") [every_second_column]; do x <- a_get r []; Ok (proj1_sig x))
      = Ok (proj1_sig (f_of f64 1 0))) by (vm_compute; reflexivity).
    assert (E2 : (do x <- vector_sum (diag every_second_column); Ok (proj1_sig x)) = Ok (S754_zero false)) by (vm_compute; reflexivity).
    rewrite Er in E1. cbn [rbind] in E1. rewrite Gr in E1. cbn [rbind] in E1. rewrite Ex in E2. cbn [rbind] in E2.
    rewrite E2 in E1. vm_compute in E1. discriminate.
Qed.
Print Assumptions documented_trace_of_slices_refuted.

(** The matrices of the documentation [lib.rs:29-36,49-165], as 64-bit floating-point numbers. *)
Example documented_case :
  let range n := map (fun k => f_of f64 (Z.of_nat k) 0) (seq 0 n) in
  let a := mkArr (range 25) 0%Z [5; 5] [5; 1]%Z in
  let c := mkArr (range 6) 0%Z [2; 3] [3; 1]%Z in
  let d := mkArr (range 12) 0%Z [3; 4] [4; 1]%Z in
  let ok l := Ok (map (fun z => proj1_sig (f_of f64 z 0)) l) in
  (wf a /\ wf c /\ wf d /\ is_contiguous a = true /\ Forall (fun s => 0 < s)%Z (a_strides a))
  /\ run64 "ii" [a] = ok [60]%Z /\ run64 "ii->i" [a] = ok [0; 6; 12; 18; 24]%Z /\ run64 "ij->i" [a] = ok [10; 35; 60; 85; 110]%Z
  /\ run64 "ji" [c] = ok [0; 3; 1; 4; 2; 5]%Z /\ run64 "ij->ji" [c] = ok [0; 3; 1; 4; 2; 5]%Z
  /\ run64 "ij,jk->ik" [c; d] = ok [20; 23; 26; 29; 56; 68; 80; 92]%Z.
Proof.
  cbv zeta. split; [|repeat split; vm_compute; reflexivity].
  do 3 (split; [apply wf_b_ok; reflexivity|]). split; [reflexivity|]. repeat constructor; lia.
Qed.
