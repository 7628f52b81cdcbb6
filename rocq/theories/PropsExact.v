(** Exact values (C74): what a call computes in arithmetic without laws, such as that of floating-point
    numbers. If no operand repeats a label or has one to itself that is summed, every element of the result
    is an explicit expression, in which the order of every sum is fixed. *)
From Verif Require Import Base BaseFacts NDArray Validation Optimizers Singleton Pair Path Api Spec ParserFacts
  ValidationFacts ValidationMain SumFacts ArrayFacts PairFacts PathFacts TensordotMain EinsumMain EinsumProps ReproFacts
  Schedule NdSchedule NdScheduleFacts NdLayoutFacts TwinFacts ExactFacts FloatFacts FloatMain Examples PropsFloat PropsNdarray.
From Coq Require Import Lia ZArith SpecFloat Sorted.
From Coq Require String.
Import String.StringSyntax.
Local Open Scope string_scope.
Local Open Scope list_scope.
Local Open Scope nat_scope.

(** ** The specification *)

(** The factors met by one loop per label, the first label outermost. *)
Fixpoint loops {T : Type} (size : char -> nat) (cs : list char) (f : env -> T) (e : env) : list T :=
  match cs with
  | [] => [f e]
  | c :: cs' => flat_map (fun i => loops size cs' f (upd e c i)) (seq 0 (size c))
  end.

(** The loops over the summed labels are in the order of the first operand if a label of the output is one
    of both operands, and otherwise in alphabetical order. *)
Definition loop_order (lhs rhs out cs : list char) : Prop :=
  (forall c, In c cs <-> In c lhs /\ In c rhs /\ ~ In c out)
  /\ ((exists c, In c lhs /\ In c rhs /\ In c out) -> exists f, cs = filter f lhs)
  /\ (~ (exists c, In c lhs /\ In c rhs /\ In c out) -> StronglySorted N.lt cs).

Definition same_labels (lhs rhs out : list char) : Prop :=
  forall c, (In c lhs <-> In c out) /\ (In c rhs <-> In c out).

(** [V] is what a product of arrays with labels [lhs] and [rhs] and elements [F] and [G] holds, if [add]
    is how a matrix product adds up its products. *)
Definition product_is {A : Type} {Sc : Scalar A} (add : list (A * A) -> A) (size : char -> nat)
    (lhs rhs out : list char) (F G V : env -> A) : Prop :=
  (same_labels lhs rhs out -> forall e, V e = smul (F e) (G e))
  /\ (~ same_labels lhs rhs out -> lhs = [] -> forall e, V e = smul (G e) (F e))
  /\ (~ same_labels lhs rhs out -> rhs = [] -> forall e, V e = smul (F e) (G e))
  /\ (~ same_labels lhs rhs out -> lhs <> [] -> rhs <> [] -> forall cs, loop_order lhs rhs out cs ->
      forall e, V e = add (loops size cs (fun e => (F e, G e)) e)).

(** One product after the other. A product in between keeps the labels needed later, in any order. *)
Inductive products_are {A : Type} {Sc : Scalar A} (add : list (A * A) -> A) (size : char -> nat) (out : list char)
  : list char -> (env -> A) -> list (list char * (env -> A)) -> (env -> A) -> Prop :=
| last_product : forall L F r G V, product_is add size L r out F G V -> products_are add size out L F [(r, G)] V
| next_product : forall L F r G L' V' rest V, rest <> [] -> NoDup L' ->
    (forall c, In c L' <-> (In c L \/ In c r) /\ ((exists p, In p rest /\ In c (fst p)) \/ In c out)) ->
    product_is add size L r L' F G V' -> products_are add size out L' V' rest V ->
    products_are add size out L F ((r, G) :: rest) V.

(** The labels of an operand and its elements. *)
Definition labelled {A : Type} {Sc : Scalar A} (p : list char * arr A) : list char * (env -> A) :=
  (fst p, fun e => elem (snd p) (map e (fst p))).

(** ** The theorems *)

Lemma loops_are {T} size cs (f : env -> T) e : loops size cs f e = map (fun z => f (over cs z e)) (indices (map size cs)).
Proof.
  revert e. induction cs as [|c cs IH]; intros e; [reflexivity|]. cbn [loops map indices].
  induction (seq 0 (size c)) as [|i l IHl]; [reflexivity|]. cbn [flat_map]. rewrite map_app, IHl, IH, map_map. reflexivity.
Qed.

Lemma same_labels_b lhs rhs out : incl out (lhs ++ rhs) ->
  forallb (fun c => mem c lhs && mem c rhs && mem c out) (lhs ++ rhs) = true <-> same_labels lhs rhs out.
Proof.
  intros Hi. rewrite forallb_forall. unfold same_labels. split; intros H c.
  - specialize (H c). specialize (Hi c). rewrite in_app_iff in *. rewrite !andb_true_iff, !mem_In in H. tauto.
  - intros Hc. specialize (H c). rewrite in_app_iff in Hc. rewrite !andb_true_iff, !mem_In. tauto.
Qed.

Lemma loop_order_is lhs rhs out cs : NoDup lhs ->
  (forall c, In c lhs -> In c rhs \/ In c out) -> (forall c, In c rhs -> In c lhs \/ In c out) ->
  loop_order lhs rhs out cs -> cs = sum_labels lhs rhs out.
Proof.
  intros Hl Ul Ur (Hc & Hs & Ho). unfold sum_labels. destruct (existsb _ _) eqn:E.
  - apply existsb_exists in E as (c & Hcl & E). apply andb_true_iff in E as [E1 E2]. apply mem_In in E1, E2.
    destruct Hs as (f & ->); [exists c; auto|]. apply filter_ext_in. intros d Hd.
    specialize (Hc d). rewrite filter_In in Hc. specialize (Ul d Hd).
    destruct (f d) eqn:Ef; destruct (mem d out) eqn:Em; auto; exfalso.
    + apply mem_In in Em. tauto.
    + apply mem_false in Em. assert (true = true) by auto. intuition congruence.
  - apply sorted_lt_unique.
    + apply Ho. intros (c & H1 & H2 & H3).
      assert (existsb (fun c => mem c rhs && mem c out) lhs = true); [|congruence].
      apply existsb_exists. exists c. split; auto. apply andb_true_iff. rewrite !mem_In. auto.
    + apply sort_chars_lt, NoDup_filter, distinct_NoDup.
    + intros c. rewrite sort_chars_In, filter_In, distinct_In, in_app_iff, negb_true_iff, mem_false, Hc.
      specialize (Ul c). specialize (Ur c). tauto.
Qed.

Lemma product_value {A} {Sc : Scalar A} (add : list (A * A) -> A) size lhs rhs out F G :
  NoDup lhs -> incl out (lhs ++ rhs) ->
  (forall c, In c lhs -> In c rhs \/ In c out) -> (forall c, In c rhs -> In c lhs \/ In c out) ->
  product_is add size lhs rhs out F G (pair_value add size lhs rhs out F G).
Proof.
  intros Hl Hi Ul Ur. pose proof (same_labels_b lhs rhs out Hi) as Hs.
  assert (Hn : ~ same_labels lhs rhs out -> forallb (fun c => mem c lhs && mem c rhs && mem c out) (lhs ++ rhs) = false).
  { intros H. destruct (forallb _ _); auto. exfalso. apply H, Hs. auto. }
  unfold product_is, pair_value. split; [|split; [|split]].
  - intros H e. apply Hs in H. rewrite H. auto.
  - intros H E e. rewrite (Hn H). rewrite E. auto.
  - intros H E e. rewrite (Hn H). rewrite E. destruct lhs; auto. exfalso. apply H. subst rhs. clear - Hi. intros c. specialize (Hi c). simpl in *. tauto.
  - intros H El Er cs Hcs e. rewrite (Hn H). destruct lhs as [|x lhs]; [congruence|]. destruct rhs as [|y rhs]; [congruence|].
    rewrite loops_are. unfold factors_of. rewrite (loop_order_is _ _ _ cs Hl Ul Ur Hcs). auto.
Qed.

Lemma products_value {A} {Sc : Scalar A} (add : list (A * A) -> A) size out L F todo V :
  steps_value add size out L F todo V -> all_shared (L :: map fst todo) out ->
  incl out (concat (L :: map fst todo)) -> products_are add size out L F todo V.
Proof.
  induction 1 as [L F r G|L F r G rest L' V Hne NL' HL Hv IH]; cbn [map fst]; intros [Hn Hs] Ho.
  - constructor. inversion Hn as [|? ? NL _]; subst. apply product_value; auto.
    + simpl in Ho. rewrite app_nil_r in Ho. auto.
    + intros c Hc. destruct (Hs [] L [r] c eq_refl Hc) as [H|H]; auto. simpl in H. rewrite app_nil_r in H. auto.
    + intros c Hc. destruct (Hs [L] r [] c eq_refl Hc) as [H|H]; auto. simpl in H. rewrite app_nil_r in H. auto.
  - inversion Hn as [|? ? NL Hn']; subst. inversion Hn' as [|? ? Nr Hn'']; subst. cbn [map fst] in *.
    assert (H1 : forall c, In c L -> In c r \/ In c (concat (map fst rest)) \/ In c out).
    { intros c Hc. destruct (Hs [] L (r :: map fst rest) c eq_refl Hc) as [H|H]; auto. simpl in H. apply in_app_iff in H. tauto. }
    assert (H2 : forall c, In c r -> In c L \/ In c (concat (map fst rest)) \/ In c out).
    { intros c Hc. destruct (Hs [L] r (map fst rest) c eq_refl Hc) as [H|H]; auto. simpl in H. apply in_app_iff in H. tauto. }
    eapply next_product; [exact Hne|exact NL'| |apply product_value|apply IH]; auto.
    + intros c. rewrite HL. rewrite in_concat.
      assert (Hx : (exists x, In x (map fst rest) /\ In c x) <-> exists p, In p rest /\ In c (fst p)).
      { split.
        - intros (x & Hx & Hc). apply in_map_iff in Hx as (p & <- & Hp). eauto.
        - intros (p & Hp & Hc). exists (fst p). split; auto. apply in_map; auto. }
      rewrite Hx. tauto.
    + intros c Hc. apply HL in Hc. apply in_app_iff. tauto.
    + intros c Hc. specialize (H1 c Hc). rewrite HL. tauto.
    + intros c Hc. specialize (H2 c Hc). rewrite HL. tauto.
    + split; [constructor; auto|].
      intros before this after c E Hc. destruct before as [|x before].
      { injection E as <- <-. apply HL in Hc. simpl. tauto. }
      injection E as <- Er. cbn [app concat]. rewrite in_app_iff.
      destruct (Hs (L :: r :: before) this after c) as [H|H]; auto.
      { cbn [app]. rewrite <- Er. auto. }
      cbn [app concat] in H. rewrite !in_app_iff in H. rewrite HL.
      assert (Hcr : In c (concat (map fst rest))).
      { rewrite Er. apply in_concat. exists this. split; auto. apply in_or_app. simpl; auto. }
      tauto.
    + intros c Hc. specialize (Ho c Hc). cbn [concat] in *. rewrite !in_app_iff in *. rewrite HL. tauto.
Qed.

Lemma operands_at {A} {Sc : Scalar A} ops (arrays : list (arr A)) : length ops = length arrays ->
  map (operand_at ops arrays) (seq 0 (length ops)) = map labelled (combine ops arrays).
Proof.
  revert arrays. induction ops as [|o ops IH]; intros [|a arrays] El; try discriminate; [reflexivity|].
  cbn [length seq map combine]. f_equal. rewrite <- seq_shift, map_map. injection El as El. apply (IH arrays El).
Qed.

(** A compiled path holds its products, the operands taken in the order of the path. *)
Lemma path_products {A} {Sc : Scalar A} (lay : backend A) add h k k' sc ops out size ord first rest (arrays : list (arr A)) :
  hash_ok h -> backend_runs lay -> (forall a b idx l, add_products lay a b idx l = add l) ->
  sized sc ops out size -> all_shared ops out -> Permutation ord (seq 0 (length ops)) ->
  Forall wf arrays -> shapes_ok size ops (map (@a_shape A) arrays) ->
  map (operand_at ops arrays) ord = map labelled (first :: rest) -> rest <> [] ->
  exists order p r V, generate_path h k sc ord = Ok order /\ from_path h k' order = Ok p
    /\ contract_operands lay p arrays = Ok r
    /\ products_are add size out (fst (labelled first)) (snd (labelled first)) (map labelled rest) V
    /\ holds r (map size out) (fun o => V (bind out o)).
Proof.
  intros Hh Hl Hadd HS Hs Hp Hw Hsh Em Hr. pose proof HS as (_ & [No Io] & _).
  destruct ord as [|i0 js]; [discriminate|]. cbn [map] in Em. pose proof (f_equal (hd (labelled first)) Em) as E0. apply (f_equal (@tl _)) in Em. cbn [hd tl] in E0, Em.
  pose proof (f_equal fst E0) as E1. cbn [operand_at labelled fst] in E1.
  assert (H2 : 2 <= length ops).
  { apply Permutation_length in Hp. rewrite seq_length in Hp. rewrite <- Hp. destruct js; [destruct rest; [congruence|discriminate]|simpl; lia]. }
  destruct (path_exact lay Hl add Hadd size h Hh k k' sc ops out (i0 :: js) i0 js HS Hs H2 Hp eq_refl)
    as (order & p & Eo & Ep & Hrun).
  destruct (Hrun arrays Hw Hsh) as (r & V & Er & HV & Hres).
  exists order, p, r, V. split; auto. split; auto. split; auto. split.
  - rewrite Em, E0 in HV. apply products_value; [exact HV| |].
    + pose proof (shared_perm ops out (i0 :: js) Hs Hp) as Hs'. cbn [map] in Hs'. rewrite E1 in Hs'.
      replace (map fst (map labelled rest)) with (map (fun i => nth i ops []) js); [exact Hs'|].
      rewrite <- Em, map_map. reflexivity.
    + replace (fst (labelled first) :: map fst (map labelled rest)) with (map (fun i => nth i ops []) (i0 :: js)).
      2:{ cbn [map]. rewrite E1, <- Em, map_map. reflexivity. }
      intros c Hc. apply Io in Hc. apply in_concat in Hc as (x & Hx & Hc). apply in_concat. exists x. split; auto.
      eapply Permutation_in; [|exact Hx]. rewrite <- (map_nth_seq ops []) at 1. apply Permutation_map, Permutation_sym. auto.
  - apply (lrep_holds size r out V No Hres).
Qed.

(** A call with two operands or more. *)
Theorem einsum_holds_its_products :
  forall (A : Type) (Sc : Scalar A) (lay : backend A) add h s (arrays : list (arr A)) ops out size first rest,
    hash_ok h -> backend_runs lay -> (forall a b idx l, add_products lay a b idx l = add l) ->
    call_ok s (map (@a_shape A) arrays) ops out size -> Forall wf arrays -> all_shared ops out ->
    combine ops arrays = first :: rest -> rest <> [] ->
    exists r V, einsum h lay s arrays = Ok r
      /\ products_are add size out (fst (labelled first)) (snd (labelled first)) (map labelled rest) V
      /\ holds r (map size out) (fun o => V (bind out o)).
Proof.
  intros A Sc lay add h s arrays ops out size first rest Hh Hl Hadd Hc Hw Hs Hz Hr.
  unfold einsum, validate_and_size, get_operand_shapes.
  destruct (from_string_ok h [20] s _ ops out size Hh Hc) as (sc & -> & HS). cbn [rbind].
  unfold einsum_sc, einsum_path_new, generate_optimized_order, naive_order.
  assert (El : length (operand_indices (sc_contraction sc)) = length ops) by (destruct HS as (-> & _); auto).
  rewrite El. pose proof Hc as (_ & _ & Hsh).
  assert (Ela : length ops = length arrays).
  { rewrite <- (map_length (@a_shape A) arrays). eapply Forall2_len; exact Hsh. }
  destruct (path_products lay add h (10 :: [21]) (11 :: [21]) sc ops out size (seq 0 (length ops)) first rest arrays)
    as (order & p & r & V & Eo & Ep & Er & H); auto.
  { rewrite operands_at by auto. rewrite Hz. auto. }
  rewrite Eo. cbn [rbind]. rewrite Ep. cbn [rbind]. exists r, V. split; auto.
Qed.
Print Assumptions einsum_holds_its_products.

(** A path compiled once, from operands of the same shapes; a reversed path starts with the last operand. *)
Theorem paths_hold_their_products :
  forall (A : Type) (Sc : Scalar A) (lay : backend A) add h s strategy p (compiled arrays : list (arr A)) ops out size first rest,
    hash_ok h -> backend_runs lay -> (forall a b idx l, add_products lay a b idx l = add l) ->
    einsum_path_fn h s compiled strategy = Ok p -> map (@a_shape A) compiled = map (@a_shape A) arrays ->
    call_ok s (map (@a_shape A) arrays) ops out size -> Forall wf arrays -> all_shared ops out ->
    (strategy = Naive /\ combine ops arrays = first :: rest \/ strategy = Reverse /\ rev (combine ops arrays) = first :: rest) ->
    rest <> [] ->
    exists r V, contract_operands lay p arrays = Ok r
      /\ products_are add size out (fst (labelled first)) (snd (labelled first)) (map labelled rest) V
      /\ holds r (map size out) (fun o => V (bind out o)).
Proof.
  intros A Sc lay add h s strategy p compiled arrays ops out size first rest Hh Hl Hadd Epath Esh Hc Hw Hs Hz Hr.
  unfold einsum_path_fn, validate_and_optimize_order, get_operand_shapes in Epath. rewrite Esh in Epath.
  destruct (from_string_ok h (7 :: [22]) s _ ops out size Hh Hc) as (sc & Esc & HS). rewrite Esc in Epath. cbn [rbind] in Epath.
  unfold generate_optimized_order, naive_order, reverse_order in Epath.
  assert (El : length (operand_indices (sc_contraction sc)) = length ops) by (destruct HS as (-> & _); auto).
  rewrite El in Epath. pose proof Hc as (_ & _ & Hsh).
  assert (Ela : length ops = length arrays).
  { rewrite <- (map_length (@a_shape A) arrays). eapply Forall2_len; exact Hsh. }
  destruct Hz as [[-> Hz]|[-> Hz]].
  - destruct (path_products lay add h (8 :: [22]) [23] sc ops out size (seq 0 (length ops)) first rest arrays)
      as (order & p' & r & V & Eo & Ep & Er & H); auto.
    { rewrite operands_at by auto. rewrite Hz. auto. }
    rewrite Eo in Epath. cbn [rbind] in Epath. assert (p' = p) by congruence. subst p'. exists r, V. auto.
  - destruct (path_products lay add h (8 :: [22]) [23] sc ops out size (rev (seq 0 (length ops))) first rest arrays)
      as (order & p' & r & V & Eo & Ep & Er & H); auto.
    { apply Permutation_sym, Permutation_rev. }
    { rewrite map_rev, operands_at by auto. rewrite <- map_rev, Hz. auto. }
    rewrite Eo in Epath. cbn [rbind] in Epath. assert (p' = p) by congruence. subst p'. exists r, V. auto.
Qed.
Print Assumptions paths_hold_their_products.

(** Two operands: nothing is left open. *)
Theorem product_of_two_is_exact :
  forall (A : Type) (Sc : Scalar A) (lay : backend A) add h s (a b : arr A) lhs rhs out size,
    hash_ok h -> backend_runs lay -> (forall a b idx l, add_products lay a b idx l = add l) ->
    call_ok s [a_shape a; a_shape b] [lhs; rhs] out size -> wf a -> wf b -> NoDup lhs -> NoDup rhs ->
    (forall c, In c lhs -> In c rhs \/ In c out) -> (forall c, In c rhs -> In c lhs \/ In c out) ->
    exists r V, einsum h lay s [a; b] = Ok r
      /\ product_is add size lhs rhs out (fun e => elem a (map e lhs)) (fun e => elem b (map e rhs)) V
      /\ holds r (map size out) (fun o => V (bind out o)).
Proof.
  intros A Sc lay add h s a b lhs rhs out size Hh Hl Hadd Hc Wa Wb Nl Nr Ul Ur.
  destruct (einsum_holds_its_products A Sc lay add h s [a; b] [lhs; rhs] out size (lhs, a) [(rhs, b)])
    as (r & V & Er & HV & Hr); auto; [|discriminate|].
  { split; auto. intros before this after c E Hin. destruct before as [|x [|y before]].
    - injection E as <- <-. simpl. rewrite app_nil_r. auto.
    - injection E as <- <- <-. simpl. rewrite app_nil_r. auto.
    - injection E as _ _ E. destruct before; discriminate. }
  exists r, V. split; auto. split; auto. cbn [labelled fst snd map] in HV.
  inversion HV as [? ? ? ? ? H|? ? ? ? ? ? ? ? Hne]; subst; [exact H|congruence].
Qed.
Print Assumptions product_of_two_is_exact.

(** A product of matrices on ndarray, to the last bit: the multiplier's sum of the products in order. *)
Theorem matrix_product_on_ndarray :
  forall (A : Type) (Sc : Scalar A) m fma h (a b : arr A) n k p, hash_ok h -> wf a -> wf b ->
    a_shape a = [n; k] -> a_shape b = [k; p] ->
    exists r, einsum h (ndarray m fma) (chars "ij,jk->ik") [a; b] = Ok r
      /\ a_shape r = [n; p]
      /\ forall i l, i < n -> l < p ->
           a_get r [i; l] = Ok (matrix_sum m fma (map (fun j => (elem a [i; j], elem b [j; l])) (seq 0 k))).
Proof.
  intros A Sc m fma h a b n k p Hh Wa Wb Sa Sb.
  set (size := size_fn (combine (chars "ijk") [n; k; p])).
  destruct (product_of_two_is_exact A Sc (ndarray m fma) (matrix_sum m fma) h (chars "ij,jk->ik") a b
    (chars "ij") (chars "jk") (chars "ik") size Hh (nd_runs m fma) (nd_products m fma)) as (r & V & Er & HV & Hs & Hst & Hr);
    auto; try (repeat constructor; simpl; intuition discriminate); try (intros c Hc; simpl in *; tauto).
  { rewrite Sa, Sb. assert (H : call_ok (chars "ij,jk->ik") [[1; 1]; [1; 1]] [chars "ij"; chars "jk"] (chars "ik")
      (size_fn (combine (chars "ijk") [1; 1; 1]))) by (apply check_call_ok; check_call_tac).
    destruct H as (H1 & H2 & _). split; [exact H1|]. split; [exact H2|]. repeat constructor. }
  exists r. split; auto. split; [exact Hs|]. intros i l Hi Hl'. rewrite Hr.
  2:{ change (in_bounds [n; p] [i; l] = true). cbn [in_bounds]. rewrite (proj2 (Nat.ltb_lt _ _) Hi), (proj2 (Nat.ltb_lt _ _) Hl'). auto. }
  f_equal. destruct HV as (_ & _ & _ & HV). rewrite (HV) with (cs := chars "j").
  - reflexivity.
  - intros H. destruct (H 106%N) as [[H1 _] _]. simpl in H1. intuition discriminate.
  - discriminate.
  - discriminate.
  - split; [|split].
    + intros c. simpl. intuition congruence.
    + intros (c & H1 & H2 & H3). exfalso. simpl in *. intuition congruence.
    + intros _. repeat constructor.
Qed.
Print Assumptions matrix_product_on_ndarray.

(** Four products whose sum depends on their order: [2^53 + 1 - 2^53 + 1]. *)
Definition four : list (float f64) := [f_of f64 1 53; f_of f64 1 0; f_of f64 (-1) 53; f_of f64 1 0].

(** A double sum runs over its labels in alphabetical order, but if the output has a label of both operands, in
    the order of the first operand. So an axis of length one changes the result. *)
Example order_of_labels_case :
  let ones := repeat (f_of f64 1 0) 4 in
  let run s sh := do r <- einsum id_hash (ndarray General f_fma) (chars s) [mkArr four 0%Z sh (default_strides sh); mkArr ones 0%Z sh (default_strides sh)];
                  do l <- a_iter r; Ok (map (@proj1_sig _ _) l) in
  (call_ok (chars "ji,ji->") [[2; 2]; [2; 2]] [chars "ji"; chars "ji"] [] (size_fn (combine (chars "ij") [2; 2]))
   /\ loop_order (chars "ji") (chars "ji") [] (chars "ij") /\ ~ same_labels (chars "ji") (chars "ji") [])
  /\ (call_ok (chars "bji,bji->b") [[1; 2; 2]; [1; 2; 2]] [chars "bji"; chars "bji"] (chars "b") (size_fn (combine (chars "bij") [1; 2; 2]))
      /\ loop_order (chars "bji") (chars "bji") (chars "b") (chars "ji") /\ ~ same_labels (chars "bji") (chars "bji") (chars "b"))
  /\ run "ji,ji->" [2; 2] = Ok [S754_finite false 4503599627370496 (-51)]
  /\ run "bji,bji->b" [1; 2; 2] = Ok [S754_finite false 4503599627370496 (-52)].
Proof.
  cbv zeta. split; [|split; [|split]].
  - split; [apply check_call_ok; check_call_tac|]. split.
    + split; [|split].
      * intros c. simpl. intuition congruence.
      * intros (c & _ & _ & []).
      * intros _. repeat constructor.
    + intros H. destruct (H 105%N) as [[H1 _] _]. simpl in H1. tauto.
  - split; [apply check_call_ok; check_call_tac|]. split.
    + split; [|split].
      * intros c. simpl. intuition congruence.
      * intros _. exists (fun c => negb (N.eqb c 98)). reflexivity.
      * intros H. exfalso. apply H. exists 98%N. simpl. auto.
    + intros H. destruct (H 105%N) as [[H1 _] _]. simpl in H1. intuition discriminate.
  - vm_compute. reflexivity.
  - vm_compute. reflexivity.
Qed.

(** Three operands: the product of the first two, over [j], times the third, over [k]. *)
Example three_products_case :
  let a := zarr [2; 2] [1; 2; 3; 4]%Z in
  let ops := [chars "ij"; chars "jk"; chars "kl"] in
  let size := size_fn (combine (chars "ijkl") [2; 2; 2; 2]) in
  let add := matrix_sum (Gemm 7 true) (fun x y z : Z => sadd (smul x y) z) in
  call_ok (chars "ij,jk,kl->il") [[2; 2]; [2; 2]; [2; 2]] ops (chars "il") size
  /\ all_shared ops (chars "il") /\ combine ops [a; a; a] = (chars "ij", a) :: [(chars "jk", a); (chars "kl", a)]
  /\ loop_order (chars "ij") (chars "jk") (chars "ik") (chars "j") /\ loop_order (chars "ik") (chars "kl") (chars "il") (chars "k")
  /\ let G r := fun e => elem a (map e (chars r)) in
     let V := fun e => add (loops size (chars "j") (fun e => (G "ij" e, G "jk" e)) e) in
     let W := fun e => add (loops size (chars "k") (fun e => (V e, G "kl" e)) e) in
     map (fun o => W (bind (chars "il") o)) [[0; 0]; [0; 1]; [1; 0]; [1; 1]] = [37; 54; 81; 118]%Z
     /\ (do r <- einsum id_hash (ndarray (Gemm 7 true) (fun x y z => sadd (smul x y) z)) (chars "ij,jk,kl->il") [a; a; a]; a_iter r)
        = Ok [37; 54; 81; 118]%Z.
Proof.
  cbv zeta. split; [apply check_call_ok; check_call_tac|]. split; [|split; [reflexivity|split; [|split]]].
  - split; [repeat constructor; simpl; intuition discriminate|].
    intros before this after c E Hc. destruct before as [|x [|y [|z before]]].
    + injection E as <- <-. simpl in Hc |- *. tauto.
    + injection E as <- <- <-. simpl in Hc |- *. tauto.
    + injection E as <- <- <- <-. simpl in Hc |- *. tauto.
    + injection E as _ _ _ E. destruct before; discriminate.
  - split; [|split].
    + intros c. simpl. intuition congruence.
    + intros (c & H1 & H2 & H3). exfalso. simpl in *. intuition congruence.
    + intros _. repeat constructor.
  - split; [|split].
    + intros c. simpl. intuition congruence.
    + intros (c & H1 & H2 & H3). exfalso. simpl in *. intuition congruence.
    + intros _. repeat constructor.
  - split; vm_compute; reflexivity.
Qed.
