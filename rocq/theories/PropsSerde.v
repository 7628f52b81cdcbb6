(** Storing contractions, orders and paths with serde, and reading them back (C48). *)
From Verif Require Import Base BaseFacts NDArray Validation Optimizers Strategies Singleton Pair Path Api Spec
  ValidationFacts PathFacts OrderFacts Serde SerdeFacts HandFacts PropsOrder PropsHand Examples.
From Coq Require Import Lia.
From Coq Require String.
Import String.StringSyntax.
Local Open Scope string_scope.
Local Open Scope list_scope.

(** [presents], [reads_back], [same_sized], [same_order] and [same_path] are the specification, in
    SerdeFacts.v. *)

(** ** Reading back *)

Theorem stored_values_are_read_back :
  (reads_back ser_contraction de_contraction
   /\ reads_back ser_operand_number de_operand_number /\ reads_back ser_operand_pair de_operand_pair
   /\ reads_back ser_optimization de_optimization)
  /\ (reads_back ser_singleton_method de_singleton_method /\ reads_back ser_pair_method de_pair_method
      /\ reads_back ser_singleton_summary de_singleton_summary /\ reads_back ser_pair_summary de_pair_summary)
  /\ (reads_back ser_permutation de_permutation /\ reads_back ser_summation de_summation
      /\ reads_back ser_diagonalization de_diagonalization /\ reads_back ser_perm_and_sum de_perm_and_sum
      /\ reads_back ser_diag_and_sum de_diag_and_sum)
  /\ (reads_back ser_tfp de_tfp /\ reads_back ser_tg de_tg
      /\ reads_back ser_hadamard_general de_hadamard_general
      /\ reads_back ser_scalar_general de_scalar_general /\ reads_back ser_matrix_general de_matrix_general
      /\ reads_back ser_broadcast de_broadcast /\ reads_back ser_stacked de_stacked
      /\ forall name, reads_back (ser_empty name) de_empty)
  /\ (forall h k, hash_ok h ->
        (forall sc v, presents (ser_sized h k sc) v -> exists sc', de_sized v = Some sc' /\ same_sized sc' sc)
        /\ (forall p v, presents (ser_pair h k p) v -> exists p', de_pair v = Some p' /\ same_step p' p)
        /\ (forall o v, presents (ser_order h k o) v -> exists o', de_order v = Some o' /\ same_order o' o)).
Proof.
  split; [|split; [|split; [|split]]].
  - repeat split; [apply contraction_back|apply operand_number_back|apply operand_pair_back|apply optimization_back].
  - repeat split; [apply singleton_method_back|apply pair_method_back|apply singleton_summary_back|apply pair_summary_back].
  - repeat split; [apply permutation_back|apply summation_back|apply diagonalization_back|apply perm_and_sum_back
                  |apply diag_and_sum_back].
  - split; [apply tfp_back|]. split; [apply tg_back|]. split; [apply hadamard_general_back|].
    split; [apply scalar_general_back|]. split; [apply matrix_general_back|]. split; [apply broadcast_back|].
    split; [apply stacked_back|]. apply empty_back.
  - intros h k Hh. split; [|split]; intros x v Hv.
    + apply (sized_back h k x v Hh Hv).
    + apply (pair_back h k x v Hh Hv).
    + apply (order_back h k x v Hh Hv).
Qed.
Print Assumptions stored_values_are_read_back.

(** A struct as a map with its fields exchanged, one of them by its number, and a label as a string. *)
Definition presented_sized : input :=
  IMap [(INum 1, IMap [(IStr [106%N], INum 3); (IChar 105%N, INum 2)]);
        (IStr (chars "contraction"), ISeq [ISeq [ISeq [IChar 105%N; IStr [106%N]]]; ISeq [IChar 106%N]; ISeq [IChar 105%N]])].
Definition stored_sized : sized_contraction :=
  mkSized (mkContraction [[105; 106]]%N [106]%N [105]%N) [(105%N, 2); (106%N, 3)].

Example presented_case : presents (ser_sized rev_hash [] stored_sized) presented_sized.
Proof.
  unfold ser_sized, ser_struct, presented_sized. simpl.
  eapply pr_struct_map; [simpl; apply perm_swap|].
  constructor; [|constructor; [|constructor]]; simpl.
  - split; auto. eapply pr_map; [apply Permutation_refl|]. unfold ser_char, ser_num.
    repeat constructor.
  - split; auto. apply pr_struct_seq. unfold ser_vec, ser_char. simpl. repeat constructor.
Qed.

Example presented_case_read :
  de_sized presented_sized = Some (mkSized (mkContraction [[105; 106]]%N [106]%N [105]%N) [(105%N, 2); (106%N, 3)]).
Proof. reflexivity. Qed.

(** ** What was read runs like what was stored *)

(** With any hash maps on the reading side: [einsum_sc] and everything compiled from a stored
    contraction or a stored order, on any operands. *)
Theorem stored_contractions_run_the_same :
  forall hw kw, hash_ok hw ->
    (forall sc v, presents (ser_sized hw kw sc) v ->
       exists sc', de_sized v = Some sc'
         /\ (forall h k strategy,
               same_res same_order (generate_optimized_order h k sc' strategy) (generate_optimized_order h k sc strategy))
         /\ forall (A : Type) (Sc : Scalar A) h lay (arrays : list (arr A)),
              einsum_sc h lay sc' arrays = einsum_sc h lay sc arrays)
    /\ (forall o v, presents (ser_order hw kw o) v ->
       exists o', de_order v = Some o'
         /\ (forall h k, same_res same_path (from_path h k o') (from_path h k o))
         /\ forall (A : Type) (Sc : Scalar A) h k lay (arrays : list (arr A)),
              (do p <- from_path h k o'; contract_operands lay p arrays)
              = (do p <- from_path h k o; contract_operands lay p arrays)).
Proof.
  intros hw kw Hw. split.
  - intros sc v Hv. destruct (sized_back hw kw sc v Hw Hv) as (sc' & E & Hs). exists sc'.
    split; [auto|]. split.
    + intros. apply optimized_same; auto.
    + intros. apply einsum_sc_same; auto.
  - intros o v Hv. destruct (order_back hw kw o v Hw Hv) as (o' & E & Ho). exists o'.
    split; [auto|]. split.
    + intros. apply from_path_same; auto.
    + intros A Sc h k lay arrays. apply same_res_eq.
      eapply same_res_bind; [apply from_path_same, Ho|].
      intros p q Hpq. apply same_res_eq, contract_same; auto.
Qed.
Print Assumptions stored_contractions_run_the_same.

(** A compiled path can only be stored. The order in what was stored can be read and compiled again, by
    another program with other hash maps, and then computes the Einstein sum. *)
Theorem stored_paths_can_be_compiled_again :
  forall (A : Type) (Sc : Scalar A), semiring A ->
  forall hw kw s arrays0 strategy ops out size p v, hash_ok hw ->
    call_ok s (map (@a_shape A) arrays0) ops out size ->
    einsum_path_fn hw s arrays0 strategy = Ok p -> presents (ser_path hw kw p) v ->
    exists vo vs order, fields path_fields v = Some [vo; vs] /\ de_order vo = Some order
      /\ same_order order (path_order p)
      /\ forall h k lay, hash_ok h -> backend_ok lay ->
         exists p', from_path h k order = Ok p'
         /\ forall arrays, Forall (@wf A) arrays -> shapes_ok size ops (map (@a_shape A) arrays) ->
            (contract_operands lay p' arrays = Panic /\ order_blocked size arrays (path_order p))
            \/ (~ order_blocked size arrays (path_order p)
                /\ exists r, contract_operands lay p' arrays = Ok r
                     /\ holds r (map size out) (einsum_value size arrays ops out)).
Proof.
  intros A Sc SR hw kw s arrays0 strategy ops out size p v Hw Hc Ep Hv.
  unfold einsum_path_fn in Ep.
  destruct (validate_and_optimize_order hw [22] s (get_operand_shapes arrays0) strategy) as [o|?|] eqn:Eo;
    try discriminate. cbn [rbind] in Ep.
  assert (Hpo : path_order p = o).
  { unfold from_path in Ep. destruct o as [sc|steps].
    - destruct (singleton_contraction_new sc); cbn [rbind] in Ep; try discriminate. injection Ep as <-. auto.
    - destruct (mapM _ _) in Ep; cbn [rbind] in Ep; try discriminate. injection Ep as <-. auto. }
  assert (Hvo : valid_order size ops out o) by (eapply generated_orders_are_valid; eauto).
  unfold ser_path in Hv.
  destruct (fields_ok path_fields [ser_order hw kw (path_order p); ser_steps (path_steps p)] "EinsumPath" v)
    as (vs & E & HF); [names_distinct|reflexivity|exact Hv|].
  inversion HF as [|? vo ? l1 H1 H2]; subst. inversion H2 as [|? vst ? l2 H3 H4]; subst. inversion H4; subst.
  destruct (order_back hw kw (path_order p) vo Hw H1) as (o' & E' & Ho).
  exists vo, vst, o'. split; [auto|]. split; [auto|]. split; [auto|].
  intros h k lay Hh Hl.
  destruct (valid_orders_compute_the_einstein_sum A Sc SR h k lay size ops out o' Hh Hl) as (p' & Ep' & Hr).
  { eapply valid_order_same; eauto. }
  exists p'. split; [auto|]. intros arrays Ha Hs.
  destruct (Hr arrays Ha Hs) as [[H5 H6]|[H5 H6]]; [left|right]; split; auto;
    [apply (order_blocked_same size arrays _ _ Ho); auto
    |intros H7; apply H5; apply (order_blocked_same size arrays _ _ Ho); auto].
Qed.
Print Assumptions stored_paths_can_be_compiled_again.

Example stored_path_case :
  exists p, einsum_path_fn id_hash (chars "ij,jk->ik")
              [zarr [2; 2] [1; 2; 3; 4]%Z; zarr [2; 1] [5; 6]%Z] Reverse = Ok p
    /\ ser_path id_hash [] p =
       let v := fun s l => DVariant (chars s) l in
       let seq := fun l => DSeq (map DChar l) in
       DStruct (chars "EinsumPath")
         [(chars "contraction_order",
            v "ContractionOrder" 1 (chars "Pairs") (Some (DSeq
              [DStruct (chars "Pair")
                [(chars "sized_contraction", DStruct (chars "SizedContraction")
                   [(chars "contraction", DStruct (chars "Contraction")
                       [(chars "operand_indices", DSeq [seq (chars "jk"); seq (chars "ij")]);
                        (chars "output_indices", seq (chars "ik")); (chars "summation_indices", seq (chars "j"))]);
                    (chars "output_size", DMap [(DChar 107%N, DNum 1); (DChar 106%N, DNum 2); (DChar 105%N, DNum 2)])]);
                 (chars "operand_nums", DStruct (chars "OperandNumPair")
                   [(chars "lhs", v "OperandNumber" 0 (chars "Input") (Some (DNum 1)));
                    (chars "rhs", v "OperandNumber" 0 (chars "Input") (Some (DNum 0)))])]])));
          (chars "steps",
            v "EinsumPathSteps" 1 (chars "PairContractions") (Some (DSeq
              [DStruct (chars "PairContraction")
                [(chars "lhs_simplification", DOption None); (chars "rhs_simplification", DOption None);
                 (chars "method", v "PairMethod" 3 (chars "TensordotGeneral") None);
                 (chars "simplified_einsum_string", DStr (chars "jk,ij->ik"))]])))].
Proof. eexists. split; [vm_compute; reflexivity|]. vm_compute. reflexivity. Qed.

(** What is stored depends on the hash maps of the program that stores it. *)
Theorem stored_text_is_reproducible_refuted :
  ~ (forall h h' k sc, hash_ok h -> hash_ok h' -> ser_sized h k sc = ser_sized h' k sc).
Proof.
  intros H. specialize (H id_hash rev_hash [] stored_sized id_hash_ok' rev_hash_ok'). vm_compute in H. discriminate.
Qed.
Print Assumptions stored_text_is_reproducible_refuted.

(** ** What is accepted when reading *)

(** The order of fields does not matter. A repeated length replaces the one before. *)
Theorem fields_are_read_in_any_order :
  (forall l l', Permutation l l' ->
     de_contraction (IMap l) = de_contraction (IMap l') /\ de_sized (IMap l) = de_sized (IMap l')
     /\ de_operand_pair (IMap l) = de_operand_pair (IMap l') /\ de_pair (IMap l) = de_pair (IMap l'))
  /\ (forall l es, mapO de_entry l = Some es ->
      exists m, de_map (IMap l) = Some m /\ forall c, lookup c m = lookup c (rev es)).
Proof.
  split.
  - intros l l' HP. unfold de_contraction, de_sized, de_operand_pair, de_pair.
    rewrite !(fields_perm _ l l' HP). auto.
  - intros l es E. cbn [de_map]. rewrite E. eexists. split; [reflexivity|].
    intros c. rewrite lookup_inserted, app_nil_r. auto.
Qed.
Print Assumptions fields_are_read_in_any_order.

(** Fields that are not known are ignored; a missing or a repeated field is an error. *)
Theorem every_field_is_given_once :
  forall names l vs, fields names (IMap l) = Some vs ->
    length vs = length names
    /\ forall i, i < length names ->
       exists kv, In kv l /\ field_number names (fst kv) = Some (Some i) /\ nth_error vs i = Some (snd kv)
         /\ length (filter (fun kv => match field_number names (fst kv) with
                                      | Some (Some j) => Nat.eqb i j | _ => false end) l) = 1.
Proof.
  intros names l vs E. cbn [fields] in E.
  destruct (mapO _ l) as [es|] eqn:Ee; [|discriminate].
  assert (Hes : Forall2 (fun kv e => field_number names (fst kv) = Some (fst e) /\ snd kv = snd e) l es).
  { clear - Ee. revert es Ee. induction l as [|kv l IH]; simpl; intros es E.
    - injection E as <-. constructor.
    - destruct (field_number names (fst kv)) as [i|] eqn:Ei; [|discriminate].
      destruct (mapO _ l) as [es'|]; [|discriminate]. injection E as <-. constructor; auto. }
  assert (G : forall s n vs, mapO (field_value es) (seq s n) = Some vs ->
            length vs = n /\ forall i, i < n -> exists x, nth_error vs i = Some x /\ field_value es (s + i) = Some x).
  { clear. intros s n; revert s; induction n as [|n IH]; simpl; intros s vs E.
    - injection E as <-. split; auto. intros i Hi. lia.
    - destruct (field_value es s) as [x|] eqn:Ex; [|discriminate].
      destruct (mapO _ _) as [vs'|] eqn:Ev; [|discriminate]. injection E as <-.
      destruct (IH _ _ Ev) as [H1 H2]. split; [simpl; auto|]. intros [|i] Hi.
      + exists x. rewrite Nat.add_0_r. auto.
      + destruct (H2 i) as (y & Hy & Hy'); [lia|]. exists y. rewrite Nat.add_succ_r. auto. }
  destruct (G 0 (length names) vs E) as [H1 H2]. split; auto.
  intros i Hi. destruct (H2 i Hi) as (x & Hx & Hf). simpl in Hf. unfold field_value in Hf.
  destruct (filter _ es) as [|e [|e' es']] eqn:Efl; try discriminate. injection Hf as <-.
  assert (Hin : In e es /\ fst e = Some i).
  { assert (K : In e (e :: [])) by (simpl; auto). rewrite <- Efl in K. apply filter_In in K as [K1 K2].
    split; auto. destruct (fst e) as [j|]; [|discriminate]. apply Nat.eqb_eq in K2. congruence. }
  assert (Hl : exists kv, In kv l /\ field_number names (fst kv) = Some (fst e) /\ snd kv = snd e).
  { clear - Hes Hin. destruct Hin as [Hin _]. induction Hes as [|kv e0 l es [K1 K2] HF IH]; [contradiction|].
    destruct Hin as [<-|Hin]; [exists kv; simpl; auto|]. destruct (IH Hin) as (kv' & L1 & L2). exists kv'. simpl; auto. }
  destruct Hl as (kv & L1 & L2 & L3). exists kv. destruct Hin as [_ Hin]. rewrite L2, Hin, L3.
  repeat split; auto.
  replace 1 with (length [e]) by auto. rewrite <- Efl. clear - Hes.
  induction Hes as [|kv e0 l es [K1 K2] HF IH]; simpl; auto. rewrite K1.
  destruct (fst e0) as [j|]; auto. destruct (Nat.eqb i j); simpl; auto.
Qed.
Print Assumptions every_field_is_given_once.

Example unknown_field_case :
  let c := ISeq [IChar 105%N] in
  let f := fun s => IStr (chars s) in
  de_contraction (IMap [(f "output_indices", c); (f "more", INum 4); (f "summation_indices", ISeq []);
                        (f "operand_indices", ISeq [c])])
  = Some (mkContraction [[105]]%N [105]%N [])
  /\ de_contraction (IMap [(f "output_indices", c); (f "operand_indices", ISeq [c])]) = None
  /\ de_contraction (IMap [(f "output_indices", c); (f "output_indices", c); (f "summation_indices", ISeq []);
                           (f "operand_indices", ISeq [c])]) = None
  /\ de_map (IMap [(IChar 105%N, INum 2); (IChar 105%N, INum 3)]) = Some [(105%N, 3)].
Proof. repeat split. Qed.

(** A contraction that can be read should be one that can be run; reading checks nothing. *)
Theorem reading_validates_refuted :
  ~ (forall v sc, de_sized v = Some sc ->
       exists h (arrays : list (arr Z)), hash_ok h /\ einsum_sc h c_backend sc arrays <> Panic).
Proof.
  intros H.
  destruct (H (ISeq [ISeq [ISeq []; ISeq []; ISeq []]; IMap []])
              (mkSized (mkContraction [] [] []) []) eq_refl) as (h & arrays & Hh & Hn).
  apply Hn. apply (complete_contractions_compile_exactly h (mkSized (mkContraction [] [] []) []) Hh).
  intros [K _]. apply K. auto.
Qed.
Print Assumptions reading_validates_refuted.
