(** Contraction orders (C45): [EinsumPath::from_path] takes any order, and every valid one computes the
    Einstein sum, whatever tree it follows. *)
From Verif Require Import Base BaseFacts NDArray Validation Optimizers Strategies Singleton Pair Path Api Spec
  ParserFacts ValidationFacts ValidationMain SumFacts PathFacts EinsumMain OrderFacts Examples.
From Coq Require Import Lia.
From Coq Require String.
Import String.StringSyntax.
Local Open Scope string_scope.
Local Open Scope list_scope.

(** [valid_order], [contracts], [order_blocked], [tree] and [follows] are the specification, in
    OrderFacts.v. *)

Lemma valid_order_NoDup size ops out order : valid_order size ops out order -> NoDup out.
Proof.
  destruct order as [sc|steps]; simpl.
  - intros (ix & _ & (_ & [H _] & _)). exact H.
  - induction 1 as [? ? ? ? ? ? ? ? (_ & [H _] & _)|]; auto.
Qed.

(** ** Running a valid order *)

Theorem valid_orders_compute_the_einstein_sum :
  forall (A : Type) (Sc : Scalar A), semiring A ->
  forall h k lay size ops out order, hash_ok h -> backend_ok lay -> valid_order size ops out order ->
    exists p, from_path h k order = Ok p
      /\ forall arrays, Forall (@wf A) arrays -> shapes_ok size ops (map (@a_shape A) arrays) ->
         (contract_operands lay p arrays = Panic /\ order_blocked size arrays order)
         \/ (~ order_blocked size arrays order
             /\ exists r, contract_operands lay p arrays = Ok r
                  /\ holds r (map size out) (einsum_value size arrays ops out)).
Proof.
  intros A Sc SR h k lay size ops out order Hh Hl Hv.
  destruct (valid_order_runs h size Hh eq _ (eq_weak SR) (eq_no_empty size) lay Hl
              (eq_weak_fused lay SR Hl) (semiring_summable size SR) k ops out order
              (valid_order_NoDup _ _ _ _ Hv) Hv) as (p & E & Hr).
  exists p. split; [exact E|]. intros arrays Hw Hs.
  destruct (Hr arrays arrays) as [H|[Hb (r & f & Er & Hf & Hv')]].
  - apply usables_intro; auto.
  - apply eq_related; auto.
  - left. exact H.
  - right. split; [exact Hb|]. exists r. split; [exact Er|]. destruct Hf as (H1 & H2 & H3).
    split; [exact H1|]. split; [exact H2|]. intros o Ho. rewrite <- Hv'; auto.
Qed.
Print Assumptions valid_orders_compute_the_einstein_sum.

(** Along any relation between scalars, as in C39. *)
Theorem valid_orders_respect_relations :
  forall (A B : Type) (Sa : Scalar A) (Sb : Scalar B) (R : A -> B -> Prop),
  scalar_relation R -> semiring B ->
  forall h k lay size ops out order, hash_ok h -> backend_runs lay -> fused_relation R lay ->
    valid_order size ops out order ->
    exists p, from_path h k order = Ok p
      /\ forall arrays arrays', Forall (@wf A) arrays -> shapes_ok size ops (map (@a_shape A) arrays) ->
         Forall2 (related_arrays R) arrays arrays' ->
         (contract_operands lay p arrays = Panic /\ order_blocked size arrays order)
         \/ (~ order_blocked size arrays order
             /\ exists r f, contract_operands lay p arrays = Ok r /\ holds r (map size out) f
                  /\ forall o, in_bounds (map size out) o = true ->
                       R (f o) (einsum_value size arrays' ops out o)).
Proof.
  intros A B Sa Sb R HR SR h k lay size ops out order Hh Hl Hf Hv.
  destruct (valid_order_runs h size Hh R _ (strong_weak R HR SR) (strong_no_empty R size) lay Hl
              (strong_weak_fused R lay HR SR Hf) (semiring_summable size SR) k ops out order
              (valid_order_NoDup _ _ _ _ Hv) Hv) as (p & E & Hr).
  exists p. split; [exact E|]. intros arrays arrays' Hw Hs Hz. apply Hr; auto. apply usables_intro; auto.
Qed.
Print Assumptions valid_orders_respect_relations.

(** ** Any two valid orders agree *)

Lemma contracts_inputs size out i pool steps : contracts size out i pool steps ->
  forall st l r j, In st steps -> operand_indices (sc_contraction (ps_sc st)) = [l; r] ->
    (ps_lhs st = Input j -> In (Input j, l) pool) /\ (ps_rhs st = Input j -> In (Input j, r) pool).
Proof.
  induction 1 as [i pool n1 l n2 r sc Hp (E & _)|i pool n1 l n2 r rest sc o steps Hp (E & _) HL Hch IH];
    intros st l' r' j Hi E'.
  - destruct Hi as [<-|[]]. cbn [ps_sc ps_lhs ps_rhs] in *. rewrite E in E'. injection E' as <- <-.
    apply Permutation_sym in Hp.
    split; intros ->; eapply Permutation_in; try exact Hp; simpl; auto.
  - apply Permutation_sym in Hp. destruct Hi as [<-|Hi].
    + cbn [ps_sc ps_lhs ps_rhs] in *. rewrite E in E'. injection E' as <- <-.
      split; intros ->; eapply Permutation_in; try exact Hp; simpl; auto.
    + destruct (IH st l' r' j Hi E') as [H1 H2].
      assert (Hin : forall x, In (Input j, x) (rest ++ [(IntermediateResult i, o)]) -> In (Input j, x) pool).
      { intros x Hx. apply in_app_iff in Hx as [Hx|[Hx|[]]]; [|discriminate].
        eapply Permutation_in; [exact Hp|]. simpl; auto. }
      split; intros H; apply Hin; auto.
Qed.

Lemma no_empty_order_not_blocked {A} size (arrays : list (arr A)) ops out order :
  valid_order size ops out order -> no_empty_diagonal size ops -> ~ order_blocked size arrays order.
Proof.
  intros Hv Hn. unfold no_empty_diagonal in Hn. rewrite Forall_forall in Hn.
  assert (No : forall (a : arr A) ix others, In ix ops -> ~ blocked size a ix others).
  { intros a ix others Hi (H1 & (c & Hc & H0) & _). destruct (Hn ix Hi) as [H|H]; auto.
    rewrite Forall_forall in H. eapply H; eauto. }
  destruct order as [sc|steps]; cbn [valid_order order_blocked] in *.
  - destruct Hv as (ix & -> & (E & _)). intros (a & ix' & _ & E' & H). rewrite E in E'. injection E' as <-.
    eapply No; [|exact H]. simpl; auto.
  - intros (st & l & r & Hi & E & H).
    assert (Hin : forall j x, In (Input j, x) (inputs ops) -> In x ops).
    { intros j x Hx. unfold inputs in Hx. apply in_combine_r in Hx. exact Hx. }
    destruct H as [(j & a & En & _ & Hb)|(j & a & En & _ & Hb)];
      destruct (contracts_inputs _ _ _ _ _ Hv st l r j Hi E) as [H1 H2];
      (eapply No; [|exact Hb]; eauto).
Qed.

Theorem valid_orders_agree :
  forall (A : Type) (Sc : Scalar A), semiring A ->
  forall h h' k k' lay lay' size ops out order order' arrays, hash_ok h -> hash_ok h' ->
    backend_ok lay -> backend_ok lay' ->
    valid_order size ops out order -> valid_order size ops out order' -> no_empty_diagonal size ops ->
    Forall (@wf A) arrays -> shapes_ok size ops (map (@a_shape A) arrays) ->
    exists p p' r r', from_path h k order = Ok p /\ from_path h' k' order' = Ok p'
      /\ contract_operands lay p arrays = Ok r /\ contract_operands lay' p' arrays = Ok r'
      /\ same_array r r'.
Proof.
  intros A Sc SR h h' k k' lay lay' size ops out order order' arrays Hh Hh' Hl Hl' Hv Hv' Hn Hw Hs.
  destruct (valid_orders_compute_the_einstein_sum A Sc SR h k lay size ops out order Hh Hl Hv) as (p & E & Hr).
  destruct (valid_orders_compute_the_einstein_sum A Sc SR h' k' lay' size ops out order' Hh' Hl' Hv') as (p' & E' & Hr').
  pose proof (no_empty_order_not_blocked size arrays ops out order Hv Hn) as N1.
  pose proof (no_empty_order_not_blocked size arrays ops out order' Hv' Hn) as N2.
  destruct (Hr arrays Hw Hs) as [[_ H]|[_ (r & Er & Hh1)]]; [contradiction|].
  destruct (Hr' arrays Hw Hs) as [[_ H]|[_ (r' & Er' & Hh2)]]; [contradiction|].
  exists p, p', r, r'. repeat (split; [assumption|]). eapply same_array_holds; eauto.
Qed.
Print Assumptions valid_orders_agree.

(** ** Generated orders are valid *)

Theorem generated_orders_are_valid :
  forall h k s shapes strategy ops out size order, hash_ok h -> call_ok s shapes ops out size ->
    validate_and_optimize_order h k s shapes strategy = Ok order -> valid_order size ops out order.
Proof.
  intros h k s shapes strategy ops out size order Hh Hc E. unfold validate_and_optimize_order in E.
  destruct (from_string_ok h (7 :: k) s _ ops out size Hh Hc) as (sc & Es & HS).
  rewrite Es in E. cbn [rbind] in E. destruct Hc as (Hm & _ & _).
  assert (Hne : ops <> []) by (eapply meaning_nonempty; eauto). pose proof HS as (Hcc & _).
  unfold generate_optimized_order, naive_order, reverse_order in E. rewrite Hcc in E.
  cbn [contraction_of operand_indices] in E.
  destruct strategy; try discriminate.
  - apply (generated_order_valid h (8 :: k) size sc ops out (seq 0 (length ops)) order); auto.
  - apply (generated_order_valid h (8 :: k) size sc ops out (rev (seq 0 (length ops))) order); auto.
    apply Permutation_sym, Permutation_rev.
Qed.
Print Assumptions generated_orders_are_valid.

(** ** Every tree has a valid order *)

Theorem every_tree_has_a_valid_order :
  forall s shapes ops out size l r, call_ok s shapes ops out size ->
    Permutation (leaves (Node l r)) (seq 0 (length ops)) ->
    exists steps, valid_order size ops out (Pairs steps) /\ follows steps (Node l r).
Proof.
  intros s shapes ops out size l r Hc Hp.
  destruct (from_string_ok id_hash [] s _ ops out size id_hash_ok' Hc) as (sc & _ & HS).
  eapply tree_order; eauto. apply id_hash_ok'.
Qed.
Print Assumptions every_tree_has_a_valid_order.

(** ** A concrete order: [(a b) (c d)], keeping a label longer than necessary *)

Lemma sized_of_call s shapes sc ops out size : from_string_and_shapes id_hash [] s shapes = Ok sc ->
  call_ok s shapes ops out size -> sized sc ops out size.
Proof.
  intros E Hc. destruct (from_string_ok id_hash [] s shapes ops out size id_hash_ok' Hc) as (sc' & E' & HS).
  congruence.
Qed.

Lemma kept_by_check l r later out o :
  forallb (fun c => negb (mem c (later ++ out)) || mem c o) (l ++ r) = true ->
  forall c, In c l \/ In c r -> In c later \/ In c out -> In c o.
Proof.
  rewrite forallb_forall. intros H c H1 H2. rewrite <- in_app_iff in H1, H2. apply H in H1.
  rewrite (proj2 (mem_In _ _) H2) in H1. simpl in H1. apply mem_In. exact H1.
Qed.

Definition a_step (s : String.string) (shapes : list (list nat)) (n1 n2 : operand_number) : res pair_step :=
  do sc <- from_string_and_shapes id_hash [] (chars s) shapes; Ok (mkPair sc n1 n2).

(** "ij,jk,kl,lm->im" with i, j, k, l, m of lengths 2, 3, 2, 2, 3. The first step keeps [j], which no
    later step needs; the last one sums over it. *)
Definition balanced : res contraction_order :=
  do s1 <- a_step "kl,lm->mk" [[2; 2]; [2; 3]] (Input 2) (Input 3);
  do s2 <- a_step "jk,ij->kij" [[3; 2]; [2; 3]] (Input 1) (Input 0);
  do s3 <- a_step "kij,mk->im" [[2; 2; 3]; [3; 2]] (IntermediateResult 1) (IntermediateResult 0);
  Ok (Pairs [s1; s2; s3]).
Definition balanced_sizes : char -> nat := size_fn [(105%N, 2); (106%N, 3); (107%N, 2); (108%N, 2); (109%N, 3)].
Definition balanced_ops : list (list char) := map chars ["ij"; "jk"; "kl"; "lm"].

Example balanced_is_valid :
  exists order, balanced = Ok order /\ valid_order balanced_sizes balanced_ops (chars "im") order
    /\ match order with
       | Pairs steps => follows steps (Node (Node (Leaf 1) (Leaf 0)) (Node (Leaf 2) (Leaf 3)))
       | _ => False
       end.
Proof.
  unfold balanced, a_step.
  destruct (from_string_and_shapes id_hash [] (chars "kl,lm->mk") [[2; 2]; [2; 3]]) as [sc1|?|] eqn:E1;
    [|vm_compute in E1; discriminate|vm_compute in E1; discriminate].
  destruct (from_string_and_shapes id_hash [] (chars "jk,ij->kij") [[3; 2]; [2; 3]]) as [sc2|?|] eqn:E2;
    [|vm_compute in E2; discriminate|vm_compute in E2; discriminate].
  destruct (from_string_and_shapes id_hash [] (chars "kij,mk->im") [[2; 2; 3]; [3; 2]]) as [sc3|?|] eqn:E3;
    [|vm_compute in E3; discriminate|vm_compute in E3; discriminate].
  cbn [rbind]. eexists. split; [reflexivity|]. split; [|reflexivity].
  apply (sized_of_call _ _ _ [chars "kl"; chars "lm"] (chars "mk") balanced_sizes) in E1;
    [|apply check_call_ok; check_call_tac].
  apply (sized_of_call _ _ _ [chars "jk"; chars "ij"] (chars "kij") balanced_sizes) in E2;
    [|apply check_call_ok; check_call_tac].
  apply (sized_of_call _ _ _ [chars "kij"; chars "mk"] (chars "im") balanced_sizes) in E3;
    [|apply check_call_ok; check_call_tac].
  cbn [valid_order].
  apply (contracts_step _ _ _ _ (Input 2) (chars "kl") (Input 3) (chars "lm")
           [(Input 0, chars "ij"); (Input 1, chars "jk")] sc1 (chars "mk")); auto.
  { change (Permutation ([(Input 0, chars "ij"); (Input 1, chars "jk")] ++ [(Input 2, chars "kl"); (Input 3, chars "lm")])
      ([(Input 2, chars "kl"); (Input 3, chars "lm")] ++ [(Input 0, chars "ij"); (Input 1, chars "jk")])).
    apply Permutation_app_comm. }
  { apply kept_by_check. reflexivity. }
  apply (contracts_step _ _ _ _ (Input 1) (chars "jk") (Input 0) (chars "ij")
           [(IntermediateResult 0, chars "mk")] sc2 (chars "kij")); auto.
  { apply perm_swap. }
  { apply kept_by_check. reflexivity. }
  eapply contracts_last; [|exact E3]. apply perm_swap.
Qed.

(** Running it gives what [einsum] gives. *)
Example balanced_runs :
  let arrays := [zarr [2; 3] [1; 2; 3; 4; 5; 6]%Z; zarr [3; 2] [1; -1; 0; 2; 3; 1]%Z;
                 zarr [2; 2] [2; 5; 1; 3]%Z; zarr [2; 3] [1; 0; 2; -1; 4; 1]%Z] in
  (do order <- balanced; do p <- from_path id_hash [] order;
   do r <- contract_operands c_backend p arrays; a_iter r)
  = (do r <- einsum id_hash c_backend (chars "ij,jk,kl,lm->im") arrays; a_iter r)
  /\ (do r <- einsum id_hash c_backend (chars "ij,jk,kl,lm->im") arrays; a_iter r)
     = Ok [-42; 272; 120; -90; 584; 258]%Z.
Proof. split; vm_compute; reflexivity. Qed.

(** ** Orders are not checked *)

(** Nothing refuses an order that drops a label too early: every step below is a well-formed
    contraction, the path compiles and runs, and the result has the right shape. "i,i,i->" is
    computed as the product of the sums "i,i->" and "i->". *)
Theorem orders_are_checked_refuted :
  ~ (forall size ops out steps p (arrays : list (arr Z)) r,
       Forall (fun st => exists l r o, sized (ps_sc st) [l; r] o size) steps ->
       from_path id_hash [] (Pairs steps) = Ok p ->
       Forall wf arrays -> shapes_ok size ops (map (@a_shape Z) arrays) ->
       contract_operands c_backend p arrays = Ok r -> a_shape r = map size out ->
       holds r (map size out) (einsum_value size arrays ops out)).
Proof.
  intros H.
  destruct (from_string_and_shapes id_hash [] (chars "i,i->") [[2]; [2]]) as [sc1|?|] eqn:E1;
    [|vm_compute in E1; discriminate|vm_compute in E1; discriminate].
  set (size := size_fn [(105%N, 2)]).
  assert (HS1 : sized sc1 [chars "i"; chars "i"] [] size).
  { apply (sized_of_call _ _ _ _ _ _ E1). apply check_call_ok. check_call_tac. }
  destruct (subset id_hash [] sc1 [[]; chars "i"] []) as [sc2|?|] eqn:E2;
    [|vm_compute in E1; injection E1 as <-; vm_compute in E2; discriminate
     |vm_compute in E1; injection E1 as <-; vm_compute in E2; discriminate].
  assert (HS2 : sized sc2 [[]; chars "i"] [] size).
  { destruct (subset_ok id_hash [] sc1 _ _ size [[]; chars "i"] [] id_hash_ok' HS1) as (sc2' & E & HS).
    - simpl. intros c Hc. simpl in *. tauto.
    - split; [constructor|]. intros c [].
    - congruence. }
  set (steps := [mkPair sc1 (Input 0) (Input 1); mkPair sc2 (IntermediateResult 0) (Input 2)]).
  set (arrays := [zarr [2] [1; 2]%Z; zarr [2] [3; 4]%Z; zarr [2] [5; 6]%Z]).
  destruct (from_path id_hash [] (Pairs steps)) as [p|?|] eqn:Ep;
    [|vm_compute in E1; injection E1 as <-; vm_compute in E2; injection E2 as <-; vm_compute in Ep; discriminate
     |vm_compute in E1; injection E1 as <-; vm_compute in E2; injection E2 as <-; vm_compute in Ep; discriminate].
  assert (Er : match contract_operands c_backend p arrays with
               | Ok r => a_shape r = [] /\ a_get r [] = Ok 121%Z | _ => False end).
  { vm_compute in E1; injection E1 as <-; vm_compute in E2; injection E2 as <-.
    vm_compute in Ep; injection Ep as <-. vm_compute. auto. }
  destruct (contract_operands c_backend p arrays) as [r|?|] eqn:Ec; try contradiction.
  destruct Er as [Es Eg].
  specialize (H size (map chars ["i"; "i"; "i"]) [] steps p arrays r).
  destruct H as (_ & _ & H); auto.
  - repeat constructor; [exists (chars "i"), (chars "i"), []|exists [], (chars "i"), []]; assumption.
  - apply wfs_b_ok. reflexivity.
  - repeat constructor.
  - specialize (H [] eq_refl). rewrite Eg in H. vm_compute in H. discriminate.
Qed.
Print Assumptions orders_are_checked_refuted.
