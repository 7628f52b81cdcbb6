(** Contractions assembled by hand (C46). The fields of [Contraction] and [SizedContraction] are
    public, so [contract_operands] can be given contractions that no string denotes. *)
From Verif Require Import Base BaseFacts NDArray Validation Optimizers Strategies Singleton Pair Path Api Spec
  ParserFacts ValidationFacts ValidationMain SumFacts PathFacts EinsumMain HandFacts CompileFacts Examples.
From Coq Require Import Lia.
From Coq Require String.
Import String.StringSyntax.
Local Open Scope string_scope.
Local Open Scope list_scope.

(** [complete], [lengths] and [agree] are the specification, in HandFacts.v. *)

(** ** Only the labels and their lengths matter *)

(** The summation labels recorded and the lengths of other labels are ignored, whatever the operands. *)
Theorem only_labels_and_lengths_matter :
  forall h sc sc', agree sc sc' ->
    (forall k strategy, generate_optimized_order h k sc strategy = generate_optimized_order h k sc' strategy)
    /\ (forall k, einsum_path_new h k sc = einsum_path_new h k sc')
    /\ (forall (A : Type) (Sc : Scalar A) lay (arrays : list (arr A)),
          einsum_sc h lay sc arrays = einsum_sc h lay sc' arrays).
Proof.
  intros h sc sc' Ha.
  assert (H : forall k, einsum_path_new h k sc = einsum_path_new h k sc').
  { intros k. unfold einsum_path_new. rewrite (generate_optimized_agree h _ sc sc' Naive Ha). auto. }
  split; [|split]; auto.
  - intros k strategy. apply generate_optimized_agree; auto.
  - intros A Sc lay arrays. unfold einsum_sc. rewrite H. auto.
Qed.
Print Assumptions only_labels_and_lengths_matter.

Example agree_case :
  agree (mkSized (mkContraction [[105]; [106; 105]]%N [106]%N [120]%N) [(105%N, 2); (120%N, 7); (106%N, 3)])
        (mkSized (mkContraction [[105]; [106; 105]]%N [106]%N [105]%N) [(105%N, 2); (106%N, 3)]).
Proof. repeat split. Qed.

(** ** What can be compiled *)

Theorem complete_contractions_compile_exactly :
  forall h sc, hash_ok h ->
    (complete sc ->
       (forall k k' strategy, strategy = Naive \/ strategy = Reverse ->
          exists order p, generate_optimized_order h k sc strategy = Ok order /\ from_path h k' order = Ok p)
       /\ forall k, exists p, einsum_path_new h k sc = Ok p)
    /\ (~ complete sc ->
       (forall k strategy, generate_optimized_order h k sc strategy = Panic)
       /\ (forall k, einsum_path_new h k sc = Panic)
       /\ forall (A : Type) (Sc : Scalar A) lay (arrays : list (arr A)), einsum_sc h lay sc arrays = Panic).
Proof.
  intros h sc Hh. split.
  - intros Hc. pose proof (normal_sized sc _ Hc (complete_lengths sc Hc)) as HS.
    assert (H : forall k k' strategy, strategy = Naive \/ strategy = Reverse ->
              exists order p, generate_optimized_order h k sc strategy = Ok order /\ from_path h k' order = Ok p).
    { intros k k' strategy Hst.
      rewrite (generate_optimized_agree h k sc (normal sc) strategy (normal_agree sc)).
      assert (Ho : exists ord, Permutation ord (seq 0 (length (operand_indices (sc_contraction sc))))
                /\ generate_optimized_order h k (normal sc) strategy = generate_path h k (normal sc) ord).
      { destruct Hst as [-> | ->]; eexists; (split; [|reflexivity]); auto.
        apply Permutation_sym, Permutation_rev. }
      destruct Ho as (ord & Po & ->).
      destruct (generated_path_computes h _ Hh eq _ (eq_weak Z_semiring) (eq_no_empty _) c_backend c_backend_ok
                  (eq_weak_fused c_backend Z_semiring c_backend_ok) (semiring_summable _ Z_semiring) k k' (normal sc) _ _ ord HS (proj1 Hc) Po)
        as (order & p & E1 & E2 & _). eauto. }
    split; auto. intros k. unfold einsum_path_new.
    destruct (H (10 :: k) (11 :: k) Naive) as (order & p & E1 & E2); auto.
    rewrite E1. cbn [rbind]. eauto.
  - intros Hn.
    assert (H : forall k strategy, generate_optimized_order h k sc strategy = Panic).
    { intros k strategy. apply incomplete_panics; auto. }
    assert (H' : forall k, einsum_path_new h k sc = Panic).
    { intros k. unfold einsum_path_new. rewrite H. auto. }
    split; [auto|]. split; [auto|]. intros A Sc lay arrays. unfold einsum_sc. rewrite H'. auto.
Qed.
Print Assumptions complete_contractions_compile_exactly.

(** ** What they compute *)

(** For operands of the recorded lengths, the Einstein sum; [blocked_in] as for strings (C08). Labels may
    be any characters and operands may have no labels. *)
Theorem hand_built_contractions_compute :
  forall (A : Type) (Sc : Scalar A), semiring A ->
  forall h lay sc size (arrays : list (arr A)), hash_ok h -> backend_ok lay ->
    complete sc -> lengths sc size -> Forall wf arrays ->
    let ops := operand_indices (sc_contraction sc) in
    let out := output_indices (sc_contraction sc) in
    shapes_ok size ops (map (@a_shape A) arrays) ->
    outcome_is (einsum_sc h lay sc arrays) size arrays ops out
    /\ forall k k' strategy, strategy = Naive \/ strategy = Reverse ->
         outcome_is (do order <- generate_optimized_order h k sc strategy;
                     do p <- from_path h k' order; contract_operands lay p arrays) size arrays ops out.
Proof.
  intros A Sc SR h lay sc size arrays Hh Hl Hc Hz Hw ops out Hs.
  pose proof (normal_sized sc size Hc Hz) as HS. fold ops out in HS.
  pose proof (normal_agree sc) as Ha. split.
  - destruct (only_labels_and_lengths_matter h sc _ Ha) as (_ & _ & E). rewrite E.
    apply einsum_sc_outcome; auto. apply Hc.
  - intros k k' strategy Hst. rewrite (generate_optimized_agree h k sc _ strategy Ha).
    assert (Ho : exists ord, Permutation ord (seq 0 (length ops))
              /\ generate_optimized_order h k (normal sc) strategy = generate_path h k (normal sc) ord).
    { destruct Hst as [-> | ->]; eexists; (split; [|reflexivity]); auto.
      apply Permutation_sym, Permutation_rev. }
    destruct Ho as (ord & Po & ->).
    destruct (generated_path_computes h size Hh eq _ (eq_weak SR) (eq_no_empty size) lay Hl
                (eq_weak_fused lay SR Hl) (semiring_summable size SR) k k' (normal sc)
                ops out ord HS (proj1 Hc) Po) as (order & p & E1 & E2 & Hp).
    rewrite E1. cbn [rbind]. rewrite E2. cbn [rbind]. apply related_outcome.
    destruct (Hp arrays arrays) as [H|H]; [apply usables_intro; auto|apply eq_related; auto|left|right]; auto.
Qed.
Print Assumptions hand_built_contractions_compute.

(** An operand without axes, and labels that no string can have: U+03B1 and a comma. *)
Definition greek_contraction : sized_contraction :=
  mkSized (mkContraction [[]; [945; 44]; [44; 945]]%N [945]%N []) [(945%N, 2); (33%N, 9); (44%N, 3)].
Definition greek_size (c : char) : nat := if N.eqb c 945 then 2 else 3.
Definition greek_arrays : list (arr Z) :=
  [zarr [] [10]%Z; zarr [2; 3] [1; 2; 3; 4; 5; 6]%Z; zarr [3; 2] [1; 0; 2; -1; 3; 1]%Z].

Example greek_case :
  complete greek_contraction /\ lengths greek_contraction greek_size
  /\ shapes_ok greek_size (operand_indices (sc_contraction greek_contraction)) (map (@a_shape Z) greek_arrays)
  /\ Forall wf greek_arrays
  /\ (do r <- einsum_sc rev_hash c_backend greek_contraction greek_arrays; a_iter r) = Ok [140; 10]%Z.
Proof.
  split; [|split; [|split; [|split]]].
  - split; [discriminate|]. split.
    + split; [repeat constructor; simpl; tauto|]. intros c [<-|[]]. simpl. auto.
    + intros c Hc. simpl in Hc. repeat (destruct Hc as [<-|Hc]; [vm_compute; discriminate|]). destruct Hc.
  - intros c Hc. simpl in Hc. repeat (destruct Hc as [<-|Hc]; [vm_compute; reflexivity|]). destruct Hc.
  - repeat constructor.
  - apply wfs_b_ok; reflexivity.
  - vm_compute. reflexivity.
Qed.

Example incomplete_case :
  let sc := mkSized (mkContraction [[105]; [106]]%N [106]%N [105]%N) [(105%N, 2)] in
  ~ complete sc /\ einsum_sc rev_hash c_backend sc [zarr [2] [1; 2]%Z; zarr [3] [1; 2; 3]%Z] = Panic.
Proof.
  split; [|vm_compute; reflexivity]. intros (_ & _ & H). apply (H 106%N); [simpl; auto|reflexivity].
Qed.

(** ** [SizedContraction::from_contraction_and_operands] *)

(** For any contraction whatever and any operands: rejected exactly if no lengths fit. Otherwise running the
    result panics if the labels can not be contracted, and ends like a call with these labels if they can. *)
Theorem contraction_and_operands_outcome :
  forall (A : Type) (Sc : Scalar A), semiring A ->
  forall h lay c (arrays : list (arr A)), hash_ok h -> backend_ok lay -> Forall wf arrays ->
    let ops := operand_indices c in
    let out := output_indices c in
    let shapes := map (@a_shape A) arrays in
    match sized_from_contraction c shapes with
    | Ok sc => exists size, shapes_ok size ops shapes
        /\ (ops <> [] /\ output_ok ops out -> outcome_is (einsum_sc h lay sc arrays) size arrays ops out)
        /\ (~ (ops <> [] /\ output_ok ops out) -> einsum_sc h lay sc arrays = Panic)
    | Err _ => forall size, ~ shapes_ok size ops shapes
    | Panic => False
    end.
Proof.
  intros A Sc SR h lay c arrays Hh Hl Hw ops out shapes.
  assert (Hf : forall size, shapes_ok size ops shapes -> exists sc, sized_from_contraction c shapes = Ok sc
            /\ sc_contraction sc = c /\ lengths sc size).
  { intros size Hs. unfold sized_from_contraction.
    destruct (output_size_ok size ops out shapes Hs) as (m & E & Hm).
    assert (E' : output_size_from c shapes = Ok m) by exact E.
    rewrite E'. cbn [rbind]. eexists. split; [reflexivity|]. split; [reflexivity|].
    intros d Hd. cbn [sc_contraction sc_output_size] in *. fold ops in Hd. rewrite Hm.
    rewrite (proj2 (mem_In _ _) Hd). auto. }
  destruct (sized_from_contraction c shapes) as [sc|m|] eqn:E.
  - unfold sized_from_contraction in E. destruct (output_size_from c shapes) as [m|?|] eqn:Em; try discriminate.
    injection E as <-. pose proof (output_size_inv _ _ _ Em) as Hs. fold ops in Hs.
    exists (default_size m). split; auto. destruct (Hf _ Hs) as (sc & E & Hc & Hz). injection E as <-.
    split.
    + intros (Hne & Ho).
      apply (hand_built_contractions_compute A Sc SR h lay (mkSized c m) (default_size m) arrays); auto.
      split; auto. split; auto. intros d Hd. rewrite (Hz d Hd). discriminate.
    + intros Hn. apply (complete_contractions_compile_exactly h (mkSized c m) Hh).
      intros (H1 & H2 & _). apply Hn. auto.
  - intros size Hs. destruct (Hf size Hs) as (sc & E' & _). discriminate.
  - unfold sized_from_contraction in E. destruct (output_size_from c shapes) eqn:Em; try discriminate.
    eapply output_size_no_panic; eauto.
Qed.
Print Assumptions contraction_and_operands_outcome.

(** A contraction that [from_contraction_and_operands] accepts should be one that can be run; its output
    labels are not checked. *)
Theorem accepted_contractions_run_refuted :
  ~ (forall h (c : contraction) (arrays : list (arr Z)) sc, hash_ok h -> Forall wf arrays ->
       Forall (@NoDup char) (operand_indices c) ->
       sized_from_contraction c (map (@a_shape Z) arrays) = Ok sc ->
       einsum_sc h c_backend sc arrays <> Panic).
Proof.
  intros H.
  apply (H id_hash (mkContraction [[105]]%N [106]%N []) [zarr [2] [1; 2]%Z]
           (mkSized (mkContraction [[105]]%N [106]%N []) [(105%N, 2)])).
  - apply id_hash_ok'.
  - apply wfs_b_ok; reflexivity.
  - repeat constructor; simpl; tauto.
  - reflexivity.
  - vm_compute. reflexivity.
Qed.
Print Assumptions accepted_contractions_run_refuted.

(** The string of a contraction that can be run should denote it; with other labels than letters it may
    denote another one. Here the string is "i,j->". *)
Theorem strings_of_hand_built_contractions_refuted :
  ~ (forall h sc s, hash_ok h -> complete sc -> as_einsum_string sc = Ok s ->
       validate h [] s = Ok (sc_contraction sc)).
Proof.
  intros H.
  specialize (H id_hash (mkSized (mkContraction [[105; 44; 106]]%N [] [44; 105; 106]%N) [(105%N, 2); (44%N, 2); (106%N, 2)])
                (chars "i,j->") id_hash_ok').
  assert (Hc : complete (mkSized (mkContraction [[105; 44; 106]]%N [] [44; 105; 106]%N) [(105%N, 2); (44%N, 2); (106%N, 2)])).
  { split; [discriminate|]. split.
    - split; [constructor|]. intros c [].
    - intros c Hc. simpl in Hc. repeat (destruct Hc as [<-|Hc]; [vm_compute; discriminate|]). destruct Hc. }
  specialize (H Hc eq_refl). vm_compute in H. discriminate.
Qed.
Print Assumptions strings_of_hand_built_contractions_refuted.

(** ** [EinsumPath::from_path] *)

(** Which orders compile, whatever their fields; [order_compiles] is the specification, in CompileFacts.v.
    The operand numbers of the steps and the recorded summation labels play no part. All others panic. *)
Theorem orders_compile_exactly :
  forall h k order, hash_ok h ->
    (order_compiles order -> exists p, from_path h k order = Ok p /\ path_order p = order)
    /\ (~ order_compiles order -> from_path h k order = Panic).
Proof.
  intros h k order Hh. destruct order as [sc|steps]; cbn [order_compiles from_path].
  - destruct (singleton_compiles_exact sc) as [H1 H2]. split; intros H.
    + destruct (H1 H) as (c & ->). cbn [rbind]. eexists. split; reflexivity.
    + rewrite (H2 H). reflexivity.
  - split; intros H.
    + destruct (mapM_all_ok (fun ist => pair_contraction_new h (fst ist :: 9 :: k) (ps_sc (snd ist)))
                  (combine (seq 0 (length steps)) steps)) as (l & ->).
      * intros [n st] Hin. apply in_combine_r in Hin. rewrite Forall_forall in H.
        apply (pair_compiles_exact h _ (ps_sc st) Hh). auto.
      * cbn [rbind]. eexists. split; reflexivity.
    + destruct (Forall_dec_neg (fun st => pair_compiles (ps_sc st)) steps) as [Hf|(n & st & E & Hn)];
        [intros st; apply pair_compiles_dec|contradiction|].
      rewrite (mapM_panic _ _ (0 + n, st)); [reflexivity|apply combine_seq_nth; auto| |].
      * apply (pair_compiles_exact h _ (ps_sc st) Hh). auto.
      * intros y m _. apply MisuseFacts.pair_contraction_new_ne.
Qed.
Print Assumptions orders_compile_exactly.

(** A transposition for which no length is recorded compiles and runs; a diagonal for which none is recorded
    does not compile, nor does a step with one missing. An order without steps compiles. *)
Definition transpose_order : contraction_order := Singleton (mkSized (mkContraction [[105; 106]]%N [106; 105]%N []) []).

Example compiled_orders_case :
  order_compiles transpose_order
  /\ (do p <- from_path rev_hash [] transpose_order;
      do r <- contract_operands c_backend p [zarr [2; 3] [1; 2; 3; 4; 5; 6]%Z]; a_iter r) = Ok [1; 4; 2; 5; 3; 6]%Z
  /\ from_path rev_hash [] (Singleton (mkSized (mkContraction [[105; 105]]%N [105]%N []) [])) = Panic
  /\ from_path rev_hash []
       (Pairs [mkPair (mkSized (mkContraction [[105]; [105]]%N []%N [105]%N) [(105%N, 2)]) (Input 0) (Input 1);
               mkPair (mkSized (mkContraction [[]; [106]]%N [106]%N []) [(105%N, 2)]) (Input 0) (Input 1)]) = Panic
  /\ order_compiles (Pairs []).
Proof.
  split; [|split; [|split; [|split]]]; try (vm_compute; reflexivity); [|constructor].
  exists [105; 106]%N. split; [reflexivity|].
  assert (Hn : NoDup [105; 106]%N) by (constructor; [intros [H|[]]; discriminate|constructor; [intros []|constructor]]).
  split; [vm_compute; auto|]. split; [|tauto]. intros _ c Hc. simpl in *. tauto.
Qed.

(** An order that compiles should run on operands of the recorded lengths; here the output repeats a
    label. *)
Theorem compiled_orders_run_refuted :
  ~ (forall h order sc p (a : arr Z), hash_ok h -> wf a -> order = Singleton sc ->
       from_path h [] order = Ok p ->
       (forall ix, operand_indices (sc_contraction sc) = [ix] ->
          map (fun c => lookup c (sc_output_size sc)) ix = map Some (a_shape a)) ->
       contract_operands c_backend p [a] <> Panic).
Proof.
  intros H.
  set (sc := mkSized (mkContraction [[105; 106]]%N [106; 106]%N []) [(105%N, 2); (106%N, 2)]).
  destruct (from_path id_hash [] (Singleton sc)) as [p|?|] eqn:E; try discriminate.
  apply (H id_hash (Singleton sc) sc p (zarr [2; 2] [1; 2; 3; 4]%Z)); auto.
  - apply id_hash_ok'.
  - apply wf_b_ok; reflexivity.
  - intros ix Ei. injection Ei as <-. reflexivity.
  - injection E as <-. vm_compute. reflexivity.
Qed.
Print Assumptions compiled_orders_run_refuted.
