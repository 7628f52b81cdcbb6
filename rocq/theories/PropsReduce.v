(** Exact values of all calls (C75): what a call computes in arithmetic without laws, also if its operands
    repeat labels or have labels to themselves that are summed. *)
From Verif Require Import Base BaseFacts NDArray Validation Optimizers Singleton Pair Path Api Spec ParserFacts
  ValidationFacts ValidationMain SumFacts ArrayFacts PairFacts PathFacts TensordotMain EinsumMain EinsumProps ReproFacts
  Schedule NdSchedule NdScheduleFacts NdLayoutFacts TwinFacts ExactFacts ExactSpec ReduceFacts FloatFacts FloatMain Examples
  PropsFloat PropsNdarray PropsExact.
From Coq Require Import Lia ZArith SpecFloat Sorted.
From Coq Require String.
Import String.StringSyntax.
Local Open Scope string_scope.
Local Open Scope list_scope.
Local Open Scope nat_scope.

(** ** The specification *)

(** One product after the other, each factor being reduced first to the labels that the other factor or the
    result has. *)
Inductive reduced_products_are {A : Type} {Sc : Scalar A} (way : list A -> A -> Prop) (add : list (A * A) -> A)
    (size : char -> nat) (out : list char)
  : list char -> (env -> A) -> list (list char * (env -> A)) -> (env -> A) -> Prop :=
| last_reduced : forall L F r G L1 F1 L2 G2 V,
    reduces way size L (r ++ out) F L1 F1 -> reduces way size r (L ++ out) G L2 G2 ->
    product_is add size L1 L2 out F1 G2 V -> reduced_products_are way add size out L F [(r, G)] V
| next_reduced : forall L F r G L' L1 F1 L2 G2 V' rest V, rest <> [] -> NoDup L' ->
    (forall c, In c L' <-> (In c L \/ In c r) /\ ((exists p, In p rest /\ In c (fst p)) \/ In c out)) ->
    reduces way size L (r ++ L') F L1 F1 -> reduces way size r (L ++ L') G L2 G2 ->
    product_is add size L1 L2 L' F1 G2 V' -> reduced_products_are way add size out L' V' rest V ->
    reduced_products_are way add size out L F ((r, G) :: rest) V.

(** The sum in eight interleaved parts: every eighth element from the left, the parts in pairs, and what is
    left at the end one by one. *)
Definition eight_sums {A : Type} {Sc : Scalar A} (xs : list A) : A :=
  let part i := fold_left sadd (map (fun k => nth (8 * k + i) xs szero) (seq 0 (length xs / 8))) szero in
  fold_left sadd (skipn (8 * (length xs / 8)) xs)
    (sadd (sadd (sadd (sadd szero (sadd (part 0) (part 4))) (sadd (part 1) (part 5)))
       (sadd (part 2) (part 6))) (sadd (part 3) (part 7))).

(** The three ways in which ndarray sums along an axis. *)
Definition nd_way {A : Type} {Sc : Scalar A} (xs : list A) (x : A) : Prop :=
  x = fold_left sadd xs szero \/ x = sadd szero (fold_left sadd xs szero) \/ x = eight_sums xs.

(** ** The theorems *)

Lemma reduced_product {A} {Sc : Scalar A} way (add : list (A * A) -> A) size L r out F G L1 F1 L2 G2 :
  incl out (L ++ r) -> reduces way size L (r ++ out) F L1 F1 -> reduces way size r (L ++ out) G L2 G2 ->
  product_is add size L1 L2 out F1 G2 (pair_value add size L1 L2 out F1 G2).
Proof.
  intros Hi (N1 & I1 & _ & _) (N2 & I2 & _ & _). apply product_value; auto.
  - intros c Hc. specialize (Hi c Hc). rewrite in_app_iff in *. rewrite I1, I2, !in_app_iff. tauto.
  - intros c Hc. apply I1 in Hc. rewrite I2. rewrite in_app_iff in *. tauto.
  - intros c Hc. apply I2 in Hc. rewrite I1. rewrite in_app_iff in *. tauto.
Qed.

Lemma calls_are {A} {Sc : Scalar A} way (add : list (A * A) -> A) size out L F todo V :
  calls_value way size add out L F todo V -> incl out (concat (L :: map fst todo)) ->
  reduced_products_are way add size out L F todo V.
Proof.
  induction 1 as [L F r G L1 F1 L2 G2 H1 H2|L F r G rest L' L1 F1 L2 G2 V Hne NL' HL H1 H2 Hv IH]; cbn [map fst concat]; intros Ho.
  - eapply last_reduced; [exact H1|exact H2|]. eapply reduced_product; [|exact H1|exact H2]. rewrite app_nil_r in Ho. auto.
  - eapply next_reduced; [exact Hne|exact NL'| |exact H1|exact H2| |apply IH].
    + intros c. rewrite HL. rewrite in_concat.
      assert (Hx : (exists x, In x (map fst rest) /\ In c x) <-> exists p, In p rest /\ In c (fst p)).
      { split.
        - intros (x & Hx & Hc). apply in_map_iff in Hx as (p & <- & Hp). eauto.
        - intros (p & Hp & Hc). exists (fst p). split; auto. apply in_map; auto. }
      rewrite Hx. tauto.
    + eapply reduced_product; [|exact H1|exact H2]. intros c Hc. apply HL in Hc. apply in_app_iff. tauto.
    + intros c Hc. specialize (Ho c Hc). cbn [concat] in *. rewrite !in_app_iff in *. rewrite HL. tauto.
Qed.

Lemma path_reduced {A} {Sc : Scalar A} (lay : backend A) (way : list A -> A -> Prop) add h k k' sc ops out size ord order p first rest (arrays : list (arr A)) r :
  hash_ok h -> backend_runs lay -> (forall ax a idx l, way l (add_up lay ax a idx l)) ->
  (forall a b idx l, add_products lay a b idx l = add l) ->
  sized sc ops out size -> Permutation ord (seq 0 (length ops)) ->
  Forall wf arrays -> shapes_ok size ops (map (@a_shape A) arrays) ->
  map (operand_at ops arrays) ord = map labelled (first :: rest) -> rest <> [] ->
  generate_path h k sc ord = Ok order -> from_path h k' order = Ok p -> contract_operands lay p arrays = Ok r ->
  exists V, reduced_products_are way add size out (fst (labelled first)) (snd (labelled first)) (map labelled rest) V
    /\ holds r (map size out) (fun o => V (bind out o)).
Proof.
  intros Hh Hl Hway Hadd HS Hp Hw Hsh Em Hr Eo Ep Er. pose proof HS as (_ & [No Io] & _).
  destruct ord as [|i0 js]; [discriminate|]. cbn [map] in Em. pose proof (f_equal (hd (labelled first)) Em) as E0. apply (f_equal (@tl _)) in Em. cbn [hd tl] in E0, Em.
  pose proof (f_equal fst E0) as E1. cbn [operand_at labelled fst] in E1.
  assert (H2 : 2 <= length ops).
  { apply Permutation_length in Hp. rewrite seq_length in Hp. rewrite <- Hp. destruct js; [destruct rest; [congruence|discriminate]|simpl; lia]. }
  destruct (path_calls lay Hl way Hway size h Hh add Hadd k k' sc ops out (i0 :: js) i0 js order p arrays r HS H2 Hp eq_refl Eo Ep Hw Hsh Er)
    as (V & HV & Hres).
  exists V. split.
  - rewrite Em, E0 in HV. apply calls_are; [exact HV|].
    replace (fst (labelled first) :: map fst (map labelled rest)) with (map (fun i => nth i ops []) (i0 :: js)).
    2:{ cbn [map]. rewrite E1, <- Em, map_map. reflexivity. }
    intros c Hc. apply Io in Hc. apply in_concat in Hc as (x & Hx & Hc). apply in_concat. exists x. split; auto.
    eapply Permutation_in; [|exact Hx]. rewrite <- (map_nth_seq ops []) at 1. apply Permutation_map, Permutation_sym. auto.
  - apply (lrep_holds size r out V No Hres).
Qed.

(** A call with two operands or more. *)
Theorem einsum_is_exact :
  forall (A : Type) (Sc : Scalar A) (lay : backend A) (way : list A -> A -> Prop) add h s (arrays : list (arr A)) ops out size first rest r,
    hash_ok h -> backend_runs lay -> (forall ax a idx l, way l (add_up lay ax a idx l)) ->
    (forall a b idx l, add_products lay a b idx l = add l) ->
    call_ok s (map (@a_shape A) arrays) ops out size -> Forall wf arrays ->
    combine ops arrays = first :: rest -> rest <> [] -> einsum h lay s arrays = Ok r ->
    exists V, reduced_products_are way add size out (fst (labelled first)) (snd (labelled first)) (map labelled rest) V
      /\ holds r (map size out) (fun o => V (bind out o)).
Proof.
  intros A Sc lay way add h s arrays ops out size first rest r Hh Hl Hway Hadd Hc Hw Hz Hr Er.
  unfold einsum, validate_and_size, get_operand_shapes in Er.
  destruct (from_string_ok h [20] s _ ops out size Hh Hc) as (sc & E & HS). rewrite E in Er. cbn [rbind] in Er.
  unfold einsum_sc, einsum_path_new, generate_optimized_order, naive_order in Er.
  assert (El : length (operand_indices (sc_contraction sc)) = length ops) by (destruct HS as (-> & _); auto).
  rewrite El in Er. pose proof Hc as (_ & _ & Hsh).
  assert (Ela : length ops = length arrays).
  { rewrite <- (map_length (@a_shape A) arrays). eapply Forall2_len; exact Hsh. }
  apply rbind_ok in Er as (p & Ep & Er). apply rbind_ok in Ep as (order & Eo & Ep).
  eapply path_reduced; eauto. rewrite operands_at by auto. rewrite Hz. auto.
Qed.
Print Assumptions einsum_is_exact.

(** A path compiled once, from operands of the same shapes; a reversed path starts with the last operand. *)
Theorem paths_are_exact :
  forall (A : Type) (Sc : Scalar A) (lay : backend A) (way : list A -> A -> Prop) add h s strategy p (compiled arrays : list (arr A)) ops out size first rest r,
    hash_ok h -> backend_runs lay -> (forall ax a idx l, way l (add_up lay ax a idx l)) ->
    (forall a b idx l, add_products lay a b idx l = add l) ->
    einsum_path_fn h s compiled strategy = Ok p -> map (@a_shape A) compiled = map (@a_shape A) arrays ->
    call_ok s (map (@a_shape A) arrays) ops out size -> Forall wf arrays ->
    (strategy = Naive /\ combine ops arrays = first :: rest \/ strategy = Reverse /\ rev (combine ops arrays) = first :: rest) ->
    rest <> [] -> contract_operands lay p arrays = Ok r ->
    exists V, reduced_products_are way add size out (fst (labelled first)) (snd (labelled first)) (map labelled rest) V
      /\ holds r (map size out) (fun o => V (bind out o)).
Proof.
  intros A Sc lay way add h s strategy p compiled arrays ops out size first rest r Hh Hl Hway Hadd Epath Esh Hc Hw Hz Hr Er.
  unfold einsum_path_fn, validate_and_optimize_order, get_operand_shapes in Epath. rewrite Esh in Epath.
  destruct (from_string_ok h (7 :: [22]) s _ ops out size Hh Hc) as (sc & Esc & HS). rewrite Esc in Epath. cbn [rbind] in Epath.
  unfold generate_optimized_order, naive_order, reverse_order in Epath.
  assert (El : length (operand_indices (sc_contraction sc)) = length ops) by (destruct HS as (-> & _); auto).
  rewrite El in Epath. pose proof Hc as (_ & _ & Hsh).
  assert (Ela : length ops = length arrays).
  { rewrite <- (map_length (@a_shape A) arrays). eapply Forall2_len; exact Hsh. }
  destruct Hz as [[-> Hz]|[-> Hz]]; apply rbind_ok in Epath as (order & Eo & Ep).
  - eapply path_reduced with (ord := seq 0 (length ops)); eauto. rewrite operands_at by auto. rewrite Hz. auto.
  - eapply path_reduced with (ord := rev (seq 0 (length ops))); eauto.
    { apply Permutation_sym, Permutation_rev. }
    { rewrite map_rev, operands_at by auto. rewrite <- map_rev, Hz. auto. }
Qed.
Print Assumptions paths_are_exact.

(** The step a call with one operand consists of. *)
Lemma single_call {A} {Sc : Scalar A} (lay : backend A) h s (a : arr A) this out size :
  hash_ok h -> call_ok s [a_shape a] [this] out size ->
  exists sc c, sized sc [this] out size /\ singleton_contraction_new sc = Ok c
    /\ einsum h lay s [a] = run_singleton lay (sgl_op c) a.
Proof.
  intros Hh Hc. unfold einsum, validate_and_size, get_operand_shapes. cbn [map].
  destruct (from_string_ok h [20] s _ [this] out size Hh Hc) as (sc & E & HS). rewrite E. cbn [rbind].
  unfold einsum_sc, einsum_path_new, generate_optimized_order, naive_order.
  assert (El : length (operand_indices (sc_contraction sc)) = 1) by (destruct HS as (-> & _); auto).
  rewrite El. cbn [seq].
  destruct (generate_path_ok h (10 :: [21]) size Hh sc [this] out [0] HS ltac:(discriminate) (Permutation_refl _)) as
    [(sc' & Hl & Eg & HS')|(i0' & js' & L & todo & steps & Eo' & Ep & Htd & _)].
  2:{ cbn [map] in Ep. injection Ep as _ <-. congruence. }
  cbn [map nth] in HS'. rewrite Eg. cbn [rbind from_path].
  destruct (SingletonFacts.singleton_contraction_ok sc' this out size HS' (plain_backend (A := A)) plain_backend_ok) as (c & Ec & _).
  exists sc', c. split; auto. split; auto. rewrite Ec. reflexivity.
Qed.

(** A call with one operand: the labels that are summed are summed in the order in which they are met. *)
Theorem sum_of_one_is_exact :
  forall (A : Type) (Sc : Scalar A) (lay : backend A) (way : list A -> A -> Prop) h s (a : arr A) this out size r,
    hash_ok h -> backend_runs lay -> (forall ax a idx l, way l (add_up lay ax a idx l)) ->
    call_ok s [a_shape a] [this] out size -> wf a -> einsum h lay s [a] = Ok r ->
    exists V, axis_sums way size (seen_first this out) (fun e => elem a (map e this)) V
      /\ holds r (map size out) (fun o => V (bind out o)).
Proof.
  intros A Sc lay way h s a this out size r Hh Hl Hway Hc Hw Er.
  destruct (single_call lay h s a this out size Hh Hc) as (sc & c & HS & Ec & E). rewrite E in Er.
  destruct Hc as (_ & [No _] & Hsh). inversion Hsh as [|? ? ? ? Es _]; subst.
  destruct (singleton_exact lay Hl way Hway size sc this out HS a (fun e => elem a (map e this)) c r) as (V & Hr & HV); auto.
  { apply lrep_wf; auto. }
  exists V. split; auto. apply (lrep_holds size r out V No Hr).
Qed.
Print Assumptions sum_of_one_is_exact.

(** Nothing is left open if the terms along an axis are always added up in the same way. *)
Fixpoint summed_by {A : Type} (sum : list A -> A) (size : char -> nat) (cs : list char) (F : env -> A) (e : env) : A :=
  match cs with
  | [] => F e
  | c :: cs' => summed_by sum size cs' (fun e => sum (map (fun i => F (upd e c i)) (seq 0 (size c)))) e
  end.

Lemma axis_sums_fixed {A} (sum : list A -> A) size cs F V : axis_sums (fun l x => x = sum l) size cs F V ->
  forall F', (forall e, F e = F' e) -> forall e, V e = summed_by sum size cs F' e.
Proof.
  induction 1 as [F|c cs F G V HG HV IH]; intros F' HF e; [apply HF|]. cbn [summed_by]. apply IH.
  intros e'. rewrite HG. f_equal. apply map_ext. auto.
Qed.

Theorem sum_of_one_is_fixed :
  forall (A : Type) (Sc : Scalar A) (lay : backend A) sum h s (a : arr A) this out size r,
    hash_ok h -> backend_runs lay -> (forall ax a idx l, add_up lay ax a idx l = sum l) ->
    call_ok s [a_shape a] [this] out size -> wf a -> einsum h lay s [a] = Ok r ->
    holds r (map size out) (fun o => summed_by sum size (seen_first this out) (fun e => elem a (map e this)) (bind out o)).
Proof.
  intros A Sc lay sum h s a this out size r Hh Hl Hsum Hc Hw Er.
  destruct (sum_of_one_is_exact A Sc lay (fun l x => x = sum l) h s a this out size r Hh Hl Hsum Hc Hw Er) as (V & HV & H1 & H2 & H3).
  split; auto. split; auto. intros o Ho. rewrite H3 by auto. f_equal. apply (axis_sums_fixed sum size _ _ V HV). auto.
Qed.
Print Assumptions sum_of_one_is_fixed.

(** Three labels, one of them twice: [k] is met first, then [i]; the order shows in the result. *)
Example order_of_sums_case :
  let sum := fold_left (fun x y : Z => x + y * y)%Z in
  let a := zarr [2; 2; 2; 2] (map Z.of_nat (seq 0 16)) in
  let odd : Scalar Z := {| szero := 0%Z; sone := 1%Z; sadd := fun x y => (x + y * y)%Z; smul := Z.mul |} in
  let size := size_fn (combine (chars "ijk") [2; 2; 2]) in
  call_ok (chars "kiji->j") [[2; 2; 2; 2]] [chars "kiji"] (chars "j") size
  /\ seen_first (chars "kiji") (chars "j") = chars "ki"
  /\ map (fun o => summed_by (fun l => sum l 0%Z) size (chars "ki") (fun e => elem a (map e (chars "kiji"))) (bind (chars "j") o)) [[0]; [1]]
     = [41732; 85892]%Z
  /\ map (fun o => summed_by (fun l => sum l 0%Z) size (chars "ik") (fun e => elem a (map e (chars "kiji"))) (bind (chars "j") o)) [[0]; [1]]
     = [54914; 108434]%Z
  /\ (do r <- @einsum Z odd id_hash plain_backend (chars "kiji->j") [a]; @a_iter Z r) = Ok [41732; 85892]%Z.
Proof. cbv zeta. split; [apply check_call_ok; check_call_tac|]. repeat split; vm_compute; reflexivity. Qed.

Lemma nd_adds {A} {Sc : Scalar A} m (fma : A -> A -> A -> A) ax (a : arr A) idx l : nd_way l (add_up (ndarray m fma) ax a idx l).
Proof.
  unfold ndarray. rewrite nd_sums. unfold axis_sum, lane_sum, nd_way. destruct (Nat.eqb _ _); auto.
  destruct (list_Z_eqb _ _); auto. right. right. apply unrolled_is.
Qed.

(** Every call on ndarray. *)
Theorem einsum_is_exact_on_ndarray :
  forall (A : Type) (Sc : Scalar A) m fma h s (arrays : list (arr A)) ops out size r,
    hash_ok h -> call_ok s (map (@a_shape A) arrays) ops out size -> Forall wf arrays ->
    einsum h (ndarray m fma) s arrays = Ok r ->
    exists V, holds r (map size out) (fun o => V (bind out o))
      /\ match combine ops arrays with
         | [] => False
         | [(this, a)] => axis_sums nd_way size (seen_first this out) (fun e => elem a (map e this)) V
         | first :: rest => reduced_products_are nd_way (matrix_sum m fma) size out
                              (fst (labelled first)) (snd (labelled first)) (map labelled rest) V
         end.
Proof.
  intros A Sc m fma h s arrays ops out size r Hh Hc Hw Er.
  assert (Ela : length ops = length arrays).
  { rewrite <- (map_length (@a_shape A) arrays). destruct Hc as (_ & _ & Hsh). eapply Forall2_len; exact Hsh. }
  destruct (combine ops arrays) as [|first [|second rest]] eqn:Ez.
  - exfalso. destruct ops as [|o ops]; destruct arrays; try discriminate.
    destruct Hc as (H & _). apply meaning_nonempty in H. congruence.
  - destruct ops as [|this [|? ?]]; destruct arrays as [|a [|? ?]]; try discriminate. injection Ez as <-.
    inversion Hw; subst. cbn [map] in Hc.
    destruct (sum_of_one_is_exact A Sc (ndarray m fma) nd_way h s a this out size r) as (V & HV & Hr); auto; [apply nd_runs|apply nd_adds|].
    exists V. auto.
  - destruct (einsum_is_exact A Sc (ndarray m fma) nd_way (matrix_sum m fma) h s arrays ops out size first (second :: rest) r)
      as (V & H1 & H2); auto; [apply nd_runs|apply nd_adds|apply nd_products|discriminate|].
    exists V. destruct first. auto.
Qed.
Print Assumptions einsum_is_exact_on_ndarray.

(** The sum over one label of an operand on ndarray, to the last bit. It depends on how the operand is stored:
    in eight parts if no axis has a smaller stride and the stride is one, otherwise from the left. *)
Theorem sum_of_one_label_on_ndarray :
  forall (A : Type) (Sc : Scalar A) m fma h s (a : arr A) this out size x n,
    hash_ok h -> call_ok s [a_shape a] [this] out size -> wf a -> NoDup this ->
    nth_error this n = Some x -> ~ In x out -> (forall c, In c this -> c <> x -> In c out) -> size x <> 0 ->
    let stride k := nth k (a_strides a) 0%Z in
    let fastest := forall k, k < length (a_strides a) -> (Z.abs (stride n) <= Z.abs (stride k))%Z in
    exists r, einsum h (ndarray m fma) s [a] = Ok r /\ a_shape r = map size out
      /\ forall e, (forall c, In c out -> e c < size c) ->
           let xs := map (fun i => elem a (map (upd e x i) this)) (seq 0 (size x)) in
           (~ fastest -> a_get r (map e out) = Ok (fold_left sadd xs szero))
           /\ (fastest -> stride n <> 1%Z -> a_get r (map e out) = Ok (sadd szero (fold_left sadd xs szero)))
           /\ (fastest -> stride n = 1%Z -> a_get r (map e out) = Ok (eight_sums xs)).
Proof.
  intros A Sc m fma h s a this out size x n Hh Hc Hw Hn Hx Hxo Hall Hsz stride fastest.
  destruct (single_call (ndarray m fma) h s a this out size Hh Hc) as (sc & c & HS & Ec & E). rewrite E.
  pose proof Hc as (_ & [No Io] & Hsh). inversion Hsh as [|? ? ? ? Es _]; subst. simpl in Io. rewrite app_nil_r in Io.
  assert (Hseen : seen_first this out = [x]).
  { assert (P : Permutation (seen_first this out) [x]); [|apply Permutation_length_1_inv; apply Permutation_sym; auto].
    apply NoDup_Permutation.
    - rewrite seen_first_filter by auto. apply NoDup_filter. auto.
    - repeat constructor; simpl; tauto.
    - intros d. rewrite seen_first_In. simpl. split.
      + intros [H1 H2]. left. destruct (N.eq_dec x d); auto. exfalso. apply H2, Hall; auto.
      + intros [<-|[]]. split; auto. eapply nth_error_In; eauto. }
  destruct (one_sum_exact (ndarray m fma) (nd_runs m fma) size sc this out HS a (fun e => elem a (map e this)) x c)
    as (v & axes & r & Er & Hst & Pax & Hpos & Hr); auto.
  { apply lrep_wf; auto. }
  pose proof Hr as (Sr & _ & Gr). exists r. split; auto. split; auto. intros e He. rewrite (Gr e He). cbn beta.
  assert (Elen : length (a_strides a) = length this) by (rewrite <- (map_length size this), <- Es; apply Hw).
  assert (Hlt : length this = S (length out)).
  { assert (P : Permutation (out ++ seen_first this out) this).
    { rewrite seen_first_filter by auto. apply SingletonFacts.filter_not_in_perm; auto. }
    rewrite <- (Permutation_length P), Hseen, app_length. simpl. lia. }
  assert (Lax : length axes = length this) by (rewrite (Permutation_length Pax), seq_length; auto).
  assert (Hnax : nth (length out) axes 0 = n).
  { apply position_nth_error in Hpos. apply (NoDup_nth_error this); auto.
    - apply nth_error_Some. congruence.
    - congruence. }
  assert (Lv : length (a_strides v) = length this) by (rewrite Hst, map_length; auto).
  assert (Sv : forall k, k < length this -> nth k (a_strides v) 0%Z = stride (nth k axes 0)).
  { intros k Hk. rewrite Hst. rewrite (nth_indep _ _ (stride 0)) by (rewrite map_length; lia). apply (map_nth stride). }
  set (xs := map (fun i => elem a (map (upd e x i) this)) (seq 0 (size x))).
  destruct (sums_add_in_order A Sc m fma (length out) v (map e out) xs) as (H1 & H2 & H3).
  { lia. }
  { unfold xs. destruct (size x); [congruence|discriminate]. }
  cbv zeta in H1, H2, H3.
  assert (Ef : fastest <-> ((forall k, k < length (a_strides v) -> (Z.abs (nth (length out) (a_strides v) 0) <= Z.abs (nth k (a_strides v) 0))%Z)
     /\ (forall k, length out < k < length (a_strides v) -> (Z.abs (nth (length out) (a_strides v) 0) < Z.abs (nth k (a_strides v) 0))%Z))).
  { split.
    - intros F. split; [|intros k Hk; lia]. intros k Hk. rewrite !Sv, Hnax by lia. apply F.
      assert (Hin : In (nth k axes 0) axes) by (apply nth_In; lia). apply (Permutation_in _ Pax), in_seq in Hin. lia.
    - intros [F _] k Hk. assert (Hin : In k axes).
      { apply (Permutation_in (l := seq 0 (length this))); [apply Permutation_sym; auto|]. apply in_seq. lia. }
      destruct (In_nth axes k 0 Hin) as (j & Hj & Ej). specialize (F j). rewrite !Sv, Hnax, Ej in F by lia. apply F. lia. }
  split; [|split].
  - intros F. f_equal. apply H1. rewrite <- Ef. auto.
  - intros F Hs. f_equal. apply H2; [apply Ef; auto|]. rewrite Sv, Hnax by lia. auto.
  - intros F Hs. f_equal. apply H3; [apply Ef; auto|]. rewrite Sv, Hnax by lia. auto.
Qed.
Print Assumptions sum_of_one_label_on_ndarray.

(** [2^53] and fifteen ones, in two rows: summed in eight parts the ones are not lost. The same rows stored by
    columns are summed from the left, and they are. *)
Example sum_by_storage_case :
  let row := f_of f64 1 53 :: repeat (f_of f64 1 0) 15 in
  let by_rows := mkArr (row ++ row) 0%Z [2; 16] [16; 1]%Z in
  let by_columns := mkArr (flat_map (fun x => [x; x]) row) 0%Z [2; 16] [1; 2]%Z in
  let run a := do r <- einsum id_hash (ndarray General f_fma) (chars "ij->i") [a]; do l <- a_iter r; Ok (map (@proj1_sig _ _) l) in
  (call_ok (chars "ij->i") [[2; 16]] [chars "ij"] (chars "i") (size_fn (combine (chars "ij") [2; 16]))
   /\ wf by_rows /\ wf by_columns /\ nth_error (chars "ij") 1 = Some 106%N)
  /\ a_iter by_rows = a_iter by_columns
  /\ run by_rows = Ok (repeat (S754_finite false 4503599627370503 1) 2)
  /\ run by_columns = Ok (repeat (S754_finite false 4503599627370496 1) 2)
  /\ proj1_sig (eight_sums row) = S754_finite false 4503599627370503 1
  /\ proj1_sig (fold_left sadd row szero) = S754_finite false 4503599627370496 1.
Proof.
  cbv zeta. split; [|repeat split; vm_compute; reflexivity].
  split; [apply check_call_ok; check_call_tac|]. split; [apply wf_b_ok; reflexivity|]. split; [apply wf_b_ok; reflexivity|]. reflexivity.
Qed.

(** Both labels that only the first operand has are summed before the product, [i] along the diagonal, and then [l]. *)
Example reduced_case :
  let a := zarr [2; 2; 3; 2] (map Z.of_nat (seq 0 24)) in
  let b := zarr [3; 2] [1; 2; 3; 4; 5; 6]%Z in
  let size := size_fn (combine (chars "ijkl") [2; 3; 2; 2]) in
  let F := fun e => elem a (map e (chars "iijl")) in
  let G := fun e => elem b (map e (chars "jk")) in
  let sum := fun l => fold_left Z.add l 0%Z in
  let F1 := fun e => sum (map (fun i => F (upd e 105%N i)) [0; 1]) in
  let F2 := fun e => sum (map (fun i => F1 (upd e 108%N i)) [0; 1]) in
  let V := fun e => matrix_sum General (fun x y z => sadd (smul x y) z) (loops size (chars "j") (fun e => (F2 e, G e)) e) in
  call_ok (chars "iijl,jk->k") [[2; 2; 3; 2]; [3; 2]] [chars "iijl"; chars "jk"] (chars "k") size
  /\ reduces (fun l x => x = sum l) size (chars "iijl") (chars "jk" ++ chars "k") F (chars "j") F2
  /\ reduces (fun l x => x = sum l) size (chars "jk") (chars "iijl" ++ chars "k") G (chars "jk") G
  /\ loop_order (chars "j") (chars "jk") (chars "k") (chars "j")
  /\ map (fun o => V (bind (chars "k") o)) [[0]; [1]] = [446; 584]%Z
  /\ (do r <- einsum id_hash (ndarray General (fun x y z => sadd (smul x y) z)) (chars "iijl,jk->k") [a; b]; a_iter r) = Ok [446; 584]%Z.
Proof.
  cbv zeta. split; [apply check_call_ok; check_call_tac|]. split; [|split; [|split; [|split; vm_compute; reflexivity]]].
  - split; [repeat constructor; simpl; tauto|]. split; [intros c; simpl; intuition congruence|]. split.
    + intros H. exfalso. inversion H as [|? ? Hx _]; subst. apply Hx. simpl; auto.
    + change (seen_first (chars "iijl") (chars "jk" ++ chars "k")) with [105%N; 108%N].
      eapply sum_over; [intros e; reflexivity|]. eapply sum_over; [intros e; reflexivity|]. apply no_sums.
  - split; [repeat constructor; simpl; intuition discriminate|]. split; [intros c; simpl; intuition congruence|]. split; [reflexivity|].
    change (seen_first (chars "jk") (chars "iijl" ++ chars "k")) with (@nil char). apply no_sums.
  - split; [|split].
    + intros c. simpl. intuition congruence.
    + intros (c & H1 & H2 & H3). exfalso. simpl in *. intuition congruence.
    + intros _. repeat constructor.
Qed.
