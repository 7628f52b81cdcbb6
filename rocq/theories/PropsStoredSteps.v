(** What is stored of the steps of a path, read by a program that knows only the declarations (C89).

    Nothing in the crate reads the steps: contractors/mod.rs derives only [Serialize]. The readers here are
    those that [derive(Deserialize)] would give for the same declarations without the skipped fields. *)
From Verif Require Import Base BaseFacts NDArray Validation Optimizers Strategies Singleton Pair Path Api Spec
  Serde SerdeFacts Examples.
From Coq Require Import Lia.
From Coq Require String.
Import String.StringSyntax.
Local Open Scope string_scope.
Local Open Scope list_scope.

(** ** Specification *)

(** A simplification without its contractor [contractors/mod.rs:185-192]. *)
Record simplification_said := SimplSaid {
  said_method : singleton_method; said_new_indices : list char; said_einsum_string : list char }.

(** A pair contraction without its contractor [contractors/mod.rs:264-272]. *)
Record pair_said := PairSaid {
  said_lhs : option simplification_said; said_rhs : option simplification_said;
  said_pair_method : pair_method; said_simplified : list char }.

(** The steps without their contractors [contractors/mod.rs:402-413]. *)
Inductive steps_said :=
| SaidSingleton (m : singleton_method)
| SaidPairs (l : list pair_said).

(** Leaving out the contractors [contractors/mod.rs:187-188,268-269]. *)
Definition simplification_without_op (s : simplification) : simplification_said :=
  SimplSaid (simpl_method s) (simpl_new_indices s) (simpl_einsum_string s).
(** Leaving out the contractor of a pair [contractors/mod.rs:268-269]. *)
Definition pair_without_op (p : pair_contraction) : pair_said :=
  PairSaid (option_map simplification_without_op (pc_lhs_simplification p))
    (option_map simplification_without_op (pc_rhs_simplification p)) (pc_method p) (pc_string p).
(** Leaving out all contractors [contractors/mod.rs:402-413]. *)
Definition steps_without_ops (s : einsum_path_steps) : steps_said :=
  match s with
  | StepsSingleton c => SaidSingleton (sgl_method c)
  | StepsPairs l => SaidPairs (map pair_without_op l)
  end.

(** Reading a [String] [contractors/mod.rs:191]. *)
Definition read_string (v : input) : option (list char) := match v with IStr s => Some s | _ => None end.
(** Reading an [Option] [contractors/mod.rs:266-267]. *)
Definition read_option {T : Type} (f : input -> option T) (v : input) : option (option T) :=
  match v with
  | IOption None => Some None
  | IOption (Some w) => match f w with Some x => Some (Some x) | None => None end
  | _ => None
  end.
(** Reading a [SimplificationMethodAndOutput] [contractors/mod.rs:185-192]. *)
Definition read_simplification (v : input) : option simplification_said :=
  match fields ["method"; "new_indices"; "einsum_string"] v with
  | Some [a; b; c] =>
      match de_singleton_method a, de_vec de_char b, read_string c with
      | Some m, Some i, Some s => Some (SimplSaid m i s)
      | _, _, _ => None
      end
  | _ => None
  end.
(** Reading a [PairContraction] [contractors/mod.rs:264-272]. *)
Definition read_pair (v : input) : option pair_said :=
  match fields ["lhs_simplification"; "rhs_simplification"; "method"; "simplified_einsum_string"] v with
  | Some [a; b; c; d] =>
      match read_option read_simplification a, read_option read_simplification b, de_pair_method c,
            read_string d with
      | Some l, Some r, Some m, Some s => Some (PairSaid l r m s)
      | _, _, _, _ => None
      end
  | _ => None
  end.
(** Reading an [EinsumPathSteps] [contractors/mod.rs:402-413]. *)
Definition read_steps (v : input) : option steps_said :=
  match variant ["SingletonContraction"; "PairContractions"] v with
  | Some (0, Some c) =>
      match fields ["method"] c with
      | Some [a] => match de_singleton_method a with Some m => Some (SaidSingleton m) | None => None end
      | _ => None
      end
  | Some (1, Some c) => match de_vec read_pair c with Some l => Some (SaidPairs l) | None => None end
  | _ => None
  end.

(** ** Facts *)

(** A value is read as [say] of it. *)
Definition reads_as {T U : Type} (ser : T -> data) (say : T -> U) (de : input -> option U) : Prop :=
  forall x v, presents (ser x) v -> de v = Some (say x).

Lemma option_as {T U} (ser : T -> data) (say : T -> U) de :
  reads_as ser say de -> reads_as (ser_option ser) (option_map say) (read_option de).
Proof.
  intros Hb [x|] v H; inversion H as [| | | | |d w Hw| | | | | | | |]; subst; simpl; auto.
  rewrite (Hb x) by auto. auto.
Qed.

Lemma vec_as {T U} (ser : T -> data) (say : T -> U) de :
  reads_as ser say de -> reads_as (ser_vec ser) (map say) (de_vec de).
Proof.
  intros Hb x v H. inversion H as [| | | | | |l l' HF| | | | | | |]; subst. cbn [de_vec]. clear H.
  revert l' HF. induction x as [|y x IH]; simpl; intros l' HF; inversion HF; subst; auto.
  simpl. rewrite (Hb y) by auto. rewrite IH; auto.
Qed.

Lemma string_as s v : presents (ser_string s) v -> read_string v = Some s.
Proof. intros H. inversion H; subst; auto. Qed.

Lemma simplification_as : reads_as ser_simplification simplification_without_op read_simplification.
Proof.
  intros [m op i s] v H. unfold ser_simplification in H. unfold read_simplification. cbn in H.
  destruct (fields_ok ["method"; "new_indices"; "einsum_string"]
              [ser_singleton_method m; ser_vec ser_char i; ser_string s]
              "SimplificationMethodAndOutput" v) as (vs & E & HF); [names_distinct|reflexivity|exact H|].
  rewrite E. repeat match goal with K : Forall2 presents (_ :: _) _ |- _ => inversion K; clear K; subst end.
  match goal with K : Forall2 presents [] _ |- _ => inversion K; clear K; subst end.
  rewrite (singleton_method_back m), (chars_vec_back i), (string_as s); auto.
Qed.

Lemma pair_as : reads_as ser_pair_contraction pair_without_op read_pair.
Proof.
  intros [l r m op s] v H. unfold ser_pair_contraction in H. unfold read_pair. cbn in H.
  destruct (fields_ok ["lhs_simplification"; "rhs_simplification"; "method"; "simplified_einsum_string"]
              [ser_option ser_simplification l; ser_option ser_simplification r; ser_pair_method m; ser_string s]
              "PairContraction" v) as (vs & E & HF); [names_distinct|reflexivity|exact H|].
  rewrite E. repeat match goal with K : Forall2 presents (_ :: _) _ |- _ => inversion K; clear K; subst end.
  match goal with K : Forall2 presents [] _ |- _ => inversion K; clear K; subst end.
  rewrite (option_as _ _ _ simplification_as l), (option_as _ _ _ simplification_as r),
    (pair_method_back m), (string_as s); auto.
Qed.

(** ** The steps *)

Theorem stored_steps_are_read :
  forall s v, presents (ser_steps s) v -> read_steps v = Some (steps_without_ops s).
Proof.
  intros [c|l] v H; unfold read_steps; simpl in H.
  - open_variant H ["SingletonContraction"; "PairContractions"] d E Hd. rewrite E.
    destruct c as [m op]. unfold ser_singleton_contraction in Hd. cbn in Hd.
    destruct (fields_ok ["method"] [ser_singleton_method m] "SingletonContraction" d) as (vs & E' & HF);
      [names_distinct|reflexivity|exact Hd|].
    rewrite E'. inversion HF as [|? ? ? ? H1 H2]; subst. inversion H2; subst.
    rewrite (singleton_method_back m); auto.
  - open_variant H ["SingletonContraction"; "PairContractions"] d E Hd. rewrite E.
    rewrite (vec_as _ _ _ pair_as l d Hd). auto.
Qed.
Print Assumptions stored_steps_are_read.

(** What is stored for the steps is no more than this: steps that differ only in their contractors are
    stored alike, and others are stored differently. *)
Theorem stored_steps_say_the_methods_and_no_more :
  forall s s', ser_steps s = ser_steps s' <-> steps_without_ops s = steps_without_ops s'.
Proof.
  assert (HS : forall a b, simplification_without_op a = simplification_without_op b ->
                 ser_simplification a = ser_simplification b).
  { intros [m o i t] [m' o' i' t'] H. injection H as -> -> ->. auto. }
  assert (HO : forall a b, option_map simplification_without_op a = option_map simplification_without_op b ->
                 ser_option ser_simplification a = ser_option ser_simplification b).
  { intros [a|] [b|] H; try discriminate; auto. injection H as H1 H2 H3. unfold ser_option. cbn [option_map].
    rewrite (HS a b); auto. unfold simplification_without_op. congruence. }
  assert (HP : forall a b, pair_without_op a = pair_without_op b -> ser_pair_contraction a = ser_pair_contraction b).
  { intros a b H. unfold pair_without_op in H. injection H as H1 H2 H3 H4.
    unfold ser_pair_contraction. rewrite (HO _ _ H1), (HO _ _ H2), H3, H4. auto. }
  (* every written value is presented by some input *)
  assert (HV : forall s, exists v, presents (ser_steps s) v).
  { assert (HU : forall e n i, exists v, presents (ser_unit e n i) v).
    { intros. eexists. unfold ser_unit, ser_variant. simpl. apply pr_unit_name. }
    assert (HL : forall l : list char, exists v, presents (ser_vec ser_char l) v).
    { intros l. exists (ISeq (map IChar l)). apply pr_seq. induction l; simpl; constructor; auto. constructor. }
    assert (H1 : forall a, exists v, presents (ser_simplification a) v).
    { intros [m o i t]. destruct (HU "SingletonMethod" singleton_method_names
        match m with MIdentity => 0 | MPermutation => 1 | MSummation => 2 | MDiagonalization => 3
                   | MPermutationAndSummation => 4 | MDiagonalizationAndSummation => 5 end) as (v1 & K1).
      destruct (HL i) as (v2 & K2). exists (ISeq [v1; v2; IStr t]). apply pr_struct_seq. simpl.
      repeat constructor; auto. }
    assert (H2 : forall a, exists v, presents (ser_option ser_simplification a) v).
    { intros [a|]; [|eexists; constructor]. destruct (H1 a) as (v & K). eexists. constructor. eauto. }
    assert (H3 : forall a, exists v, presents (ser_pair_contraction a) v).
    { intros [l r m o t]. destruct (H2 l) as (v1 & K1). destruct (H2 r) as (v2 & K2).
      assert (exists v, presents (ser_pair_method m) v) as (v3 & K3) by (unfold ser_pair_method; apply HU).
      exists (ISeq [v1; v2; v3; IStr t]). apply pr_struct_seq. simpl. repeat constructor; auto. }
    intros [c|l].
    - assert (exists v, presents (ser_singleton_method (sgl_method c)) v) as (v & K)
        by (unfold ser_singleton_method; apply HU).
      eexists. simpl. unfold ser_variant. apply pr_variant_name. apply (pr_struct_seq _ _ [v]). simpl.
      repeat constructor; auto.
    - assert (exists vs, Forall2 presents (map ser_pair_contraction l) vs) as (vs & K).
      { induction l as [|a l (vs & IH)]; [exists []; constructor|]. destruct (H3 a) as (v & K).
        exists (v :: vs). simpl. constructor; auto. }
      eexists. simpl. unfold ser_variant. apply pr_variant_name. apply (pr_seq _ vs). auto. }
  intros s s'. split; intros H.
  - destruct (HV s) as (v & K). assert (K' : presents (ser_steps s') v) by (rewrite <- H; auto).
    apply stored_steps_are_read in K, K'. congruence.
  - destruct s as [c|l], s' as [c'|l']; try discriminate; simpl in H.
    + injection H as H. simpl. unfold ser_singleton_contraction. rewrite H. auto.
    + injection H as H. simpl. f_equal. f_equal. unfold ser_vec. f_equal.
      revert l' H. induction l as [|a l IH]; intros [|b l'] H; try discriminate; auto.
      simpl in H. injection H as H1 H2 H3 H4 H5. simpl. f_equal; auto.
      apply HP. unfold pair_without_op. congruence.
Qed.
Print Assumptions stored_steps_say_the_methods_and_no_more.

(** A path that was stored, and the order in what was stored compiled again: the steps are those that were
    stored. *)
Theorem stored_steps_are_those_of_the_stored_order :
  forall h k hw kw o p v, hash_ok hw -> from_path h k o = Ok p -> presents (ser_path hw kw p) v ->
    exists vo vs o' p', fields ["contraction_order"; "steps"] v = Some [vo; vs]
      /\ de_order vo = Some o' /\ from_path h k o' = Ok p'
      /\ read_steps vs = Some (steps_without_ops (path_steps p'))
      /\ path_steps p' = path_steps p.
Proof.
  intros h k hw kw o p v Hw Ep Hv.
  assert (Hpo : path_order p = o).
  { unfold from_path in Ep. destruct o as [sc|steps].
    - destruct (singleton_contraction_new sc); cbn [rbind] in Ep; try discriminate. injection Ep as <-. auto.
    - destruct (mapM _ _) in Ep; cbn [rbind] in Ep; try discriminate. injection Ep as <-. auto. }
  unfold ser_path in Hv.
  destruct (fields_ok ["contraction_order"; "steps"] [ser_order hw kw (path_order p); ser_steps (path_steps p)]
              "EinsumPath" v) as (vs & E & HF); [names_distinct|reflexivity|exact Hv|].
  inversion HF as [|? vo ? l1 H1 H2]; subst. inversion H2 as [|? vst ? l2 H3 H4]; subst. inversion H4; subst.
  destruct (order_back hw kw (path_order p) vo Hw H1) as (o' & E' & Ho).
  pose proof (from_path_same h k o' (path_order p) Ho) as HS. rewrite Ep in HS.
  destruct (from_path h k o') as [p'|?|] eqn:E2; simpl in HS; try contradiction.
  destruct HS as (_ & HS).
  exists vo, vst, o', p'. split; [auto|]. split; [auto|]. split; [auto|]. split; [|auto].
  rewrite HS. apply stored_steps_are_read; auto.
Qed.
Print Assumptions stored_steps_are_those_of_the_stored_order.

(** A step that sums an operand first, and a step of one operand. *)
Definition pair_path : res einsum_path :=
  einsum_path_fn id_hash (chars "iij,jk->ik") [zarr [2; 2; 1] [1; 2; 3; 4]%Z; zarr [1; 2] [5; 6]%Z] Naive.
Definition single_path : res einsum_path :=
  einsum_path_fn id_hash (chars "iij->j") [zarr [2; 2; 1] [1; 2; 3; 4]%Z] Naive.

Example stored_steps_case :
  (do p <- pair_path; Ok (steps_without_ops (path_steps p)))
  = Ok (SaidPairs [PairSaid (Some (SimplSaid MDiagonalization (chars "ij") (chars "iij->ij"))) None
                     MTensordotGeneral (chars "ij,jk->ik")])
  /\ (do p <- single_path; Ok (steps_without_ops (path_steps p)))
     = Ok (SaidSingleton MDiagonalizationAndSummation).
Proof. split; vm_compute; reflexivity. Qed.

(** The single step, named by its number, with the method by its name. *)
Example stored_single_case :
  (exists p, single_path = Ok p
     /\ presents (ser_steps (path_steps p))
          (IVariant (inr 0) (Some (IMap [(INum 0, IVariant (inl (chars "DiagonalizationAndSummation")) None)]))))
  /\ read_steps (IVariant (inr 0) (Some (IMap [(INum 0, IVariant (inl (chars "DiagonalizationAndSummation")) None)])))
     = Some (SaidSingleton MDiagonalizationAndSummation).
Proof.
  split; [|reflexivity].
  eexists. split; [vm_compute; reflexivity|]. cbn. unfold ser_variant. apply pr_variant_number.
  unfold ser_singleton_contraction, ser_struct. simpl.
  eapply pr_struct_map; [simpl; apply Permutation_refl|].
  constructor; [|constructor]. simpl. split; auto. apply pr_unit_name.
Qed.
