(** What the contractors' constructors accept (C44): a contractor given a contraction it is not
    documented for should panic rather than compute something else. *)
From Verif Require Import Base BaseFacts NDArray Validation Optimizers Strategies Singleton Pair Path Api Spec ParserFacts
  ValidationMain ValidationFacts SumFacts ArrayFacts PairFacts PairMain SingletonFacts EinsumMain MisuseFacts UnusedFacts
  ContractorFacts PropsUnused Examples.
From Coq Require Import Lia.
From Coq Require String.
Import String.StringSyntax.
Local Open Scope string_scope.
Local Open Scope list_scope.

(** ** Pairs *)

(** Every pair contractor but TensordotFixedPosition panics on every contraction it is not
    documented for, when it is built or whenever it is run. Nothing is assumed of the scalars. *)
Theorem undocumented_pairs_panic :
  forall (A : Type) (Sc : Scalar A) lay m sc lhs rhs out size,
    sized sc [lhs; rhs] out size -> m <> MTensordotFixedPosition -> ~ documented m lhs rhs out ->
    pair_op_new m sc = Panic
    \/ exists op, pair_op_new m sc = Ok op
         /\ forall a b : arr A, length (a_shape a) = length lhs -> length (a_shape b) = length rhs ->
            run_pair lay op a b = Panic.
Proof.
  intros A Sc lay m sc lhs rhs out size HS Hm Hd.
  assert (No : NoDup out) by (destruct HS as (_ & [H _] & _); auto).
  assert (K : forall op (a b : arr A) r, pair_op_new m sc = Ok op -> run_pair lay op a b = Ok r ->
    length (a_shape a) = length lhs -> length (a_shape b) = length rhs -> documented m lhs rhs out).
  { intros op a b r E Er La Lb. destruct m; cbn [pair_op_new] in E; apply rbind_ok in E as (p & E & Eo);
      injection Eo as <-; cbn [run_pair] in Er.
    - apply (hadamard_inv sc lhs rhs out size HS) in E as [-> ->]. constructor; auto.
    - apply (hadamard_general_inv sc lhs rhs out size HS) in E as [H1 H2]. constructor; auto. eapply Permutation_NoDup; eauto.
    - contradiction.
    - apply (tg_inv sc lhs rhs out size HS) in E as [H1 H2]. constructor; auto.
    - apply (scalar_matrix_inv sc lhs rhs out size HS) in E as [-> ->]. constructor; auto.
    - apply (scalar_matrix_general_inv sc lhs rhs out size HS) in E as [-> H]. constructor; auto. eapply Permutation_NoDup; eauto.
    - apply (matrix_scalar_inv sc lhs rhs out size HS) in E as [-> ->]. constructor; auto.
    - apply (matrix_scalar_general_inv sc lhs rhs out size HS) in E as [-> H]. constructor; auto. eapply Permutation_NoDup; eauto.
    - destruct (broadcast_inv sc lhs rhs out size HS lay p a b r E Er La Lb) as (H1 & H2 & H3). constructor; auto.
    - constructor. exact (stacked_inv sc lhs rhs out size HS lay p a b r E Er La Lb). }
  destruct (pair_op_new m sc) as [op|e|] eqn:E; [right|exfalso; apply (pair_op_new_ne m sc e); auto|left; auto].
  exists op. split; auto. intros a b La Lb. destruct (run_pair lay op a b) as [r|e|] eqn:Er; auto.
  - exfalso. apply Hd. eapply K; eauto.
  - exfalso. apply (run_pair_ne lay op a b e). auto.
Qed.
Print Assumptions undocumented_pairs_panic.

(** TensordotGeneral refuses "ij,jk->ijk" when it is built; BroadcastProductGeneral accepts
    "ij,jk->ik" and fails when run. *)
Example undocumented_case :
  ~ documented MTensordotGeneral (chars "ij") (chars "jk") (chars "ijk")
  /\ ~ documented MBroadcastProductGeneral (chars "ij") (chars "jk") (chars "ik")
  /\ run_method MTensordotGeneral (chars "ij,jk->ijk") (zarr [2; 2] [1; 2; 3; 4]%Z) (zarr [2; 2] [1; 2; 3; 4]%Z) = Panic
  /\ run_method MBroadcastProductGeneral (chars "ij,jk->ik") (zarr [2; 2] [1; 2; 3; 4]%Z) (zarr [2; 2] [1; 2; 3; 4]%Z) = Panic
  /\ exists sc op, from_string_and_shapes id_hash [] (chars "ij,jk->ik") [[2; 2]; [2; 2]] = Ok sc
       /\ pair_op_new MBroadcastProductGeneral sc = Ok op.
Proof.
  split; [|split; [|split; [|split]]].
  - intros H. inversion H; subst.
    match goal with Hx : forall x, In x _ -> In x _ -> ~ In x _ |- _ => apply (Hx 106%N); cbn; tauto end.
  - intros H. inversion H; subst.
    match goal with Hx : incl _ _ |- _ => specialize (Hx 106%N); cbn in Hx; intuition discriminate end.
  - vm_compute. reflexivity.
  - vm_compute. reflexivity.
  - do 2 eexists. split; vm_compute; reflexivity.
Qed.

(** TensordotFixedPosition compares only the numbers of labels and two products of lengths. It
    multiplies its operands as matrices, whatever the labels. *)
Theorem fixed_position_exactly :
  forall (A : Type) (Sc : Scalar A) lay sc lhs rhs out size, semiring A -> backend_ok lay ->
    sized sc [lhs; rhs] out size ->
    (~ fixed_accepts size lhs rhs out -> pair_op_new MTensordotFixedPosition sc = Panic)
    /\ (fixed_accepts size lhs rhs out ->
        exists op, pair_op_new MTensordotFixedPosition sc = Ok op
          /\ forall a b : arr A, wf a -> wf b -> a_shape a = map size lhs -> a_shape b = map size rhs ->
             let n := fixed_count lhs rhs out in
             exists r, run_pair lay op a b = Ok r
               /\ holds r (firstn (length lhs - n) (map size lhs) ++ skipn n (map size rhs)) (fixed_value n a b)).
Proof.
  intros A Sc lay sc lhs rhs out size SR Hlay HS.
  destruct (tfp_new_exact sc lhs rhs out size HS) as [H1 H2]. cbn [pair_op_new]. split.
  - intros H. rewrite H2 by auto. reflexivity.
  - intros H. rewrite H1 by auto. cbn [rbind]. eexists. split; [reflexivity|]. intros a b Wa Wb Sa Sb.
    cbn [run_pair]. destruct H as (_ & _ & _ & H). set (n := fixed_count lhs rhs out) in *.
    pose proof (run_tfp_exact lay a b n SR Hlay Wa Wb) as Hr. rewrite Sa, Sb, map_length in Hr. apply Hr; auto.
Qed.
Print Assumptions fixed_position_exactly.

Lemma documented_fixed lhs rhs out : documented MTensordotFixedPosition lhs rhs out ->
  exists u c v, lhs = u ++ c /\ rhs = c ++ v /\ out = u ++ v.
Proof. intros H. inversion H as [| | | | | |u c v| | |]; subst. exists u, c, v. auto. Qed.

(** So it does not refuse what it cannot compute: "ij,kl->il" is taken for "ij,jl->il", without the
    separate sums over j and k ("TODO: Add an assert! that they have the same indices"
    [pair_contractors.rs:123]). *)
Theorem fixed_position_refuses_refuted :
  ~ (forall sc lhs rhs out size, sized sc [lhs; rhs] out size ->
       ~ documented MTensordotFixedPosition lhs rhs out ->
       pair_op_new MTensordotFixedPosition sc = Panic
       \/ exists op, pair_op_new MTensordotFixedPosition sc = Ok op
            /\ forall a b : arr Z, length (a_shape a) = length lhs -> length (a_shape b) = length rhs ->
               run_pair c_backend op a b = Panic).
Proof.
  intros H.
  assert (Hc : call_ok (chars "ij,kl->il") [[2; 2]; [2; 2]] [chars "ij"; chars "kl"] (chars "il") (fun _ => 2))
    by (apply check_call_ok; check_call_tac).
  destruct (from_string_ok id_hash [] _ _ _ _ _ id_hash_ok' Hc) as (sc & Es & HS).
  assert (Hd : ~ documented MTensordotFixedPosition (chars "ij") (chars "kl") (chars "il")).
  { intros Hd. apply documented_fixed in Hd as (u & c & v & E1 & E2 & E3).
    assert (Hx : forall x, In x c -> False).
    { intros x Hx. assert (H1 : In x (chars "ij")) by (rewrite E1; apply in_or_app; auto).
      assert (H2 : In x (chars "kl")) by (rewrite E2; apply in_or_app; auto).
      cbn in H1, H2. intuition congruence. }
    destruct c as [|x c]; [|apply (Hx x); simpl; auto].
    apply (f_equal (@length _)) in E1, E2, E3. rewrite app_length in E1, E2, E3. cbn in E1, E2, E3. lia. }
  assert (Ec : exists op r, pair_op_new MTensordotFixedPosition sc = Ok op
    /\ run_pair c_backend op (zarr [2; 2] [1; 2; 3; 4]%Z) (zarr [2; 2] [1; 2; 3; 4]%Z) = Ok r).
  { vm_compute in Es. injection Es as <-. do 2 eexists. split; vm_compute; reflexivity. }
  destruct Ec as (op & r & Eo & Er).
  destruct (H sc _ _ _ _ HS Hd) as [E|(op' & E & Hp)]; rewrite Eo in E; [discriminate|]. injection E as <-.
  rewrite Hp in Er by reflexivity. discriminate.
Qed.
Print Assumptions fixed_position_refuses_refuted.

(** The wrong result beside the right one. *)
Example fixed_position_case :
  run_method MTensordotFixedPosition (chars "ij,kl->il") (zarr [2; 2] [1; 2; 3; 4]%Z) (zarr [2; 2] [1; 2; 3; 4]%Z)
    = Ok (zarr [2; 2] [7; 10; 15; 22]%Z)
  /\ (do r <- einsum id_hash c_backend (chars "ij,kl->il") [zarr [2; 2] [1; 2; 3; 4]%Z; zarr [2; 2] [1; 2; 3; 4]%Z]; a_iter r)
     = Ok [12; 18; 28; 42]%Z
  /\ fixed_accepts (fun _ => 2) (chars "ij") (chars "kl") (chars "il").
Proof.
  split; [vm_compute; reflexivity|]. split; [vm_compute; reflexivity|].
  split; [cbn; lia|]. split; [reflexivity|]. split; [right; cbn; lia|reflexivity].
Qed.

(** ** Single operands *)

(** The labels for which a contractor of one operand is documented [singleton_contractors.rs:32-34,
    65-67, 127-129, 174-181, 266-268, 319-325]. *)
Inductive documented1 : singleton_method -> list char -> list char -> Prop :=
| doc_identity : forall l, NoDup l -> documented1 MIdentity l l
| doc_permutation : forall this out, Permutation out this -> documented1 MPermutation this out
| doc_summation : forall out summed, NoDup (out ++ summed) -> summed <> [] ->
    documented1 MSummation (out ++ summed) out
| doc_diagonalization : forall this out, incl this out -> documented1 MDiagonalization this out
| doc_perm_and_sum : forall this out, NoDup this -> length out < length this ->
    documented1 MPermutationAndSummation this out
| doc_diag_and_sum : forall this out c, In c this -> ~ In c out ->
    documented1 MDiagonalizationAndSummation this out.

(** Diagonals need axes that are not empty. *)
Definition takes_diagonal (m : singleton_method) : bool :=
  match m with MDiagonalization | MDiagonalizationAndSummation => true | _ => false end.

Theorem singleton_contractors_are_correct :
  forall (A : Type) (Sc : Scalar A) lay m sc this out size, semiring A -> backend_ok lay ->
    sized sc [this] out size -> documented1 m this out ->
    (takes_diagonal m = true -> forall c, In c this -> size c <> 0) ->
    exists op, singleton_op_new m sc = Ok op
      /\ forall a : arr A, wf a -> a_shape a = map size this ->
         exists r, run_singleton lay op a = Ok r
           /\ holds r (map size out) (einsum_value size [a] [this] out).
Proof.
  intros A Sc lay m sc this out size SR Hlay HS Hd Hz.
  pose proof (out_NoDup sc this out size HS) as No. pose proof (out_incl sc this out size HS) as Io.
  assert (K : forall (a r : arr A) ex, NoDup ex -> (forall c, In c ex <-> In c this /\ ~ In c out) ->
    lsum size r out ex (fun e => elem a (map e this)) ->
    holds r (map size out) (einsum_value size [a] [this] out)).
  { intros a r ex Ne Hin Hr. apply (holds_of_lrep size SR r [this] out [a] ex (fun e => elem a (map e this)) No Ne).
    - intros c. rewrite Hin. simpl. rewrite app_nil_r. tauto.
    - intros e. unfold term, product. simpl. rewrite (SRmul_comm SR), (SRmul_1_l SR). auto.
    - apply (lsum_nested size SR). exact Hr. }
  assert (K0 : forall (a r : arr A), incl this out -> lrep size r out (fun e => elem a (map e this)) ->
    holds r (map size out) (einsum_value size [a] [this] out)).
  { intros a r Hi Hr. apply (K a r []); [constructor| |apply lrep_lsum; auto].
    intros c. simpl. specialize (Hi c). tauto. }
  destruct Hd as [l Hl|this out Hp|out summed Hn Hs|this out Hi|this out Hn Hlt|this out c H1 H2]; cbn [singleton_op_new].
  - eexists. split; [reflexivity|]. intros a Wa Sa. cbn [run_singleton].
    destruct (to_owned_lrep size lay a l _ Hlay Hl (lrep_wf size a l Wa Sa)) as (r & E & Hr).
    exists r. split; [exact E|]. apply K0; auto using incl_refl.
  - assert (Nt : NoDup this) by (eapply Permutation_NoDup; eauto).
    destruct (permutation_new_ok sc this out size HS Nt (Permutation_length Hp)) as (axes & E & _ & HF).
    rewrite E. cbn [rbind]. eexists. split; [reflexivity|]. intros a Wa Sa. cbn [run_singleton]. unfold permutation_contract.
    destruct (permuted_lrep size a this out _ axes (lrep_wf size a this Wa Sa)) as (v & -> & Hv); auto. cbn [rbind].
    destruct (to_owned_lrep size lay v out _ Hlay No Hv) as (r & Er & Hr).
    exists r. split; [exact Er|]. apply K0; auto. intros c. apply Permutation_in, Permutation_sym; auto.
  - assert (Hlt : length out < length (out ++ summed)).
    { rewrite app_length. destruct summed; [contradiction|simpl; lia]. }
    rewrite (summation_new_ok sc (out ++ summed) out size HS Hlt). cbn [rbind].
    replace (length (out ++ summed) - length out) with (length summed) by (rewrite app_length; lia).
    eexists. split; [reflexivity|]. intros a Wa Sa. cbn [run_singleton].
    destruct (summation_lsum size lay a out summed _ (seq (length out) (length summed)) Hlay Hn Hs
                (lrep_wf size a _ Wa Sa)) as (r & Er & Hr); auto.
    apply NoDup_app_elim in Hn as (_ & Ns & Hdis).
    exists r. split; auto. apply (K a r (rev summed)); auto; [apply NoDup_rev; auto|].
    intros d. rewrite <- in_rev, in_app_iff. specialize (Hdis d). tauto.
  - destruct (diagonalization_new_ok sc this out size HS) as (ex & mp & E & H1 & H2 & H3).
    assert (ex = []) as ->. { destruct ex as [|c ex]; auto. exfalso. destruct (proj1 (H2 c)); simpl; auto. }
    rewrite app_nil_r in *. rewrite E. cbn [rbind]. eexists. split; [reflexivity|]. intros a Wa Sa. cbn [run_singleton].
    destruct (diagonalization_contract_lrep this size lay Hlay a _ out mp Wa (lrep_wf size a this Wa Sa)) as (r & Er & Hr); auto.
    { intros c. split; [apply Io|apply Hi]. }
    exists r. split; [exact Er|]. apply K0; auto.
  - destruct (perm_and_sum_new_ok sc this out size HS Hn Hlt) as (axes & E & HF). rewrite E. cbn [rbind fst snd].
    eexists. split; [reflexivity|]. intros a Wa Sa. cbn [run_singleton]. unfold permutation_view.
    set (rest := filter (fun c => negb (mem c out)) this) in *.
    assert (Hp : Permutation (out ++ rest) this) by (apply filter_not_in_perm; auto).
    destruct (permuted_lrep size a this (out ++ rest) _ axes (lrep_wf size a this Wa Sa)) as (v & -> & Hv); auto. cbn [rbind].
    assert (Hrest : length this - length out = length rest)
      by (rewrite <- (Permutation_length Hp), app_length; lia).
    rewrite Hrest.
    assert (Nr : NoDup (out ++ rest)) by (eapply Permutation_NoDup; [apply Permutation_sym|]; eauto).
    destruct (summation_lsum size lay v out rest (fun e => elem a (map e this)) (seq (length out) (length rest)) Hlay Nr) as (r & Er & Hr); auto.
    { intros E0. rewrite E0 in Hrest. simpl in Hrest. lia. }
    exists r. split; auto. apply (K a r (rev rest)); auto; [apply NoDup_rev, NoDup_filter; auto|].
    intros d. rewrite <- in_rev. unfold rest. rewrite filter_In, negb_true_iff, mem_false. tauto.
  - destruct (diag_and_sum_general size lay Hlay SR sc this out HS) as (d & s & E & H); [eauto|].
    rewrite E. cbn [rbind fst snd]. eexists. split; [reflexivity|]. intros a Wa Sa. cbn [run_singleton].
    apply H; auto.
Qed.
Print Assumptions singleton_contractors_are_correct.

Definition run_method1 (m : singleton_method) (s : list char) (a : arr Z) : res (arr Z) :=
  do sc <- from_string_and_shapes id_hash [] s [a_shape a];
  do op <- singleton_op_new m sc; run_singleton c_backend op a.

Example singleton_contractors_case :
  run_method1 MPermutation (chars "ij->ji") (zarr [2; 2] [1; 2; 3; 4]%Z) = Ok (zarr [2; 2] [1; 3; 2; 4]%Z)
  /\ run_method1 MSummation (chars "ij->i") (zarr [2; 2] [1; 2; 3; 4]%Z) = Ok (zarr [2] [3; 7]%Z)
  /\ run_method1 MDiagonalization (chars "ii->i") (zarr [2; 2] [1; 2; 3; 4]%Z) = Ok (zarr [2] [1; 4]%Z)
  /\ run_method1 MPermutationAndSummation (chars "ij->j") (zarr [2; 2] [1; 2; 3; 4]%Z) = Ok (zarr [2] [4; 6]%Z)
  /\ documented1 MDiagonalization (chars "ii") (chars "i").
Proof. do 4 (split; [vm_compute; reflexivity|]). constructor. intros c. cbn. tauto. Qed.

(** Permutation and DiagonalizationAndSummation refuse everything else. *)
Theorem undocumented_singletons_panic :
  forall m sc this out size, sized sc [this] out size ->
    m = MPermutation \/ m = MDiagonalizationAndSummation -> ~ documented1 m this out ->
    singleton_op_new m sc = Panic.
Proof.
  intros m sc this out size HS Hm Hd.
  pose proof (out_NoDup sc this out size HS) as No. pose proof (out_incl sc this out size HS) as Io.
  destruct Hm as [-> | ->].
  - cbn [singleton_op_new]. unfold permutation_new.
    rewrite (sc_op sc this out size HS), (sc_out sc this out size HS). cbn [length Nat.eqb rassert rbind].
    unfold index. cbn [nth_error unwrap rbind].
    destruct (Nat.eqb_spec (length this) (length out)) as [El|El]; [|reflexivity].
    exfalso. apply Hd. constructor. apply filling; auto. lia.
  - apply (nothing_to_sum_panics sc this out size HS). intros c Hc.
    destruct (in_dec N.eq_dec c out); auto. exfalso. apply Hd. econstructor; eauto.
Qed.
Print Assumptions undocumented_singletons_panic.

Example undocumented_singleton_case :
  ~ documented1 MPermutation (chars "ij") (chars "i")
  /\ run_method1 MPermutation (chars "ij->i") (zarr [2; 2] [1; 2; 3; 4]%Z) = Panic.
Proof.
  split; [|vm_compute; reflexivity]. intros H. inversion H as [|? ? Hp| | | |]; subst.
  apply Permutation_length in Hp. discriminate.
Qed.

Lemma documented_summation this out : documented1 MSummation this out -> exists s, this = out ++ s.
Proof. intros H. inversion H as [| |? s| | |]; subst. exists s. auto. Qed.

(** The other four accept contractions they are not for and compute something else: here the
    operand itself for its transpose, row sums for column sums, the operand for its row sums, and
    the sum of all elements of a matrix for its trace. *)
Theorem singleton_constructors_refuse_refuted :
  Forall (fun ms => let '(m, s, this, out) := (ms : singleton_method * list char * list char * list char) in
    ~ documented1 m this out
    /\ exists (a : arr Z) r l l', wf a /\ run_method1 m s a = Ok r /\ a_iter r = Ok l
         /\ (do w <- einsum id_hash c_backend s [a]; a_iter w) = Ok l' /\ l <> l')
  [ (MIdentity, chars "ij->ji", chars "ij", chars "ji");
    (MSummation, chars "ij->j", chars "ij", chars "j");
    (MDiagonalization, chars "ij->i", chars "ij", chars "i");
    (MPermutationAndSummation, chars "ii->", chars "ii", []) ].
Proof.
  Ltac wrong_result := exists (zarr [2; 2] [1; 2; 3; 4]%Z); do 3 eexists; split; [apply wf_b_ok; reflexivity|];
    do 3 (split; [vm_compute; reflexivity|]); discriminate.
  constructor; [|constructor; [|constructor; [|constructor; [|constructor]]]]; (split; [|wrong_result]).
  - intros H. inversion H.
  - intros H. apply documented_summation in H as (s & H). discriminate.
  - intros H. inversion H as [| | |? ? Hi| |]; subst. specialize (Hi 106%N). cbn in Hi. intuition discriminate.
  - intros H. inversion H as [| | | |? ? Hn|]; subst. inversion Hn as [|? ? Hx]; subst. apply Hx. cbn. auto.
Qed.
Print Assumptions singleton_constructors_refuse_refuted.

(** ** The number of operands *)

(** No constructor for two operands, and of those for one operand neither Permutation, Diagonalization nor
    DiagonalizationAndSummation, accepts a contraction with another number of operands. The contractions
    that choose among them do not either. *)
Theorem constructors_count_operands :
  forall sc, let n := length (operand_indices (sc_contraction sc)) in
    (n <> 2 -> (forall m, pair_op_new m sc = Panic) /\ (forall h k, pair_contraction_new h k sc = Panic))
    /\ (n <> 1 -> singleton_op_new MPermutation sc = Panic /\ singleton_op_new MDiagonalization sc = Panic
          /\ singleton_op_new MDiagonalizationAndSummation sc = Panic
          /\ singleton_contraction_new sc = Panic).
Proof.
  intros sc n. split; intros Hn.
  - assert (E : Nat.eqb n 2 = false) by (apply Nat.eqb_neq; auto). subst n. split.
    + intros m. destruct m; cbn [pair_op_new];
        unfold hadamard_new, hadamard_general_new, scalar_matrix_new, scalar_matrix_general_new, matrix_scalar_new,
          matrix_scalar_general_new, tfp_new, tg_new, stacked_new, broadcast_new; cbv zeta; rewrite E; reflexivity.
    + intros h k. unfold pair_contraction_new. cbv zeta. rewrite E. reflexivity.
  - assert (E : Nat.eqb n 1 = false) by (apply Nat.eqb_neq; auto). subst n. cbn [singleton_op_new].
    unfold permutation_new, diag_and_sum_new, diagonalization_new, singleton_contraction_new, singleton_summary_new.
    cbv zeta. rewrite E. repeat split; reflexivity.
Qed.
Print Assumptions constructors_count_operands.

(** Identity, Summation and PermutationAndSummation do not count: the last two look at the first operand. *)
Theorem all_constructors_count_operands_refuted :
  ~ (forall m sc, length (operand_indices (sc_contraction sc)) <> 1 -> singleton_op_new m sc = Panic).
Proof.
  intros H. specialize (H MSummation (mkSized (mkContraction [chars "ij"; chars "j"] (chars "i") (chars "j")) [])).
  cbn in H. specialize (H ltac:(discriminate)). discriminate.
Qed.
Print Assumptions all_constructors_count_operands_refuted.

Example count_case :
  let sc := mkSized (mkContraction [chars "ij"; chars "j"] (chars "i") (chars "j")) [] in
  singleton_op_new MIdentity sc = Ok OpIdentity
  /\ (exists s, singleton_op_new MSummation sc = Ok (OpSummation s))
  /\ (exists p s, singleton_op_new MPermutationAndSummation sc = Ok (OpPermutationAndSummation p s))
  /\ singleton_op_new MPermutation sc = Panic.
Proof. cbv zeta. repeat split; try (eexists; vm_compute; reflexivity). do 2 eexists. vm_compute. reflexivity. Qed.
