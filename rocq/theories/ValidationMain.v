(** Assembly of the validation theorems stated in PropsValidation.v. *)
From Verif Require Import Base NDArray Validation Optimizers Path Api Spec
  BaseFacts ParserFacts ValidationFacts.
From Coq Require String.
From Coq Require Import Sorted Lia.
Import String.StringSyntax.
Local Open Scope string_scope.
Local Open Scope list_scope.

Lemma accepts_exactly h k s shapes : hash_ok h ->
  ((exists sc, from_string_and_shapes h k s shapes = Ok sc) <-> accepted s shapes)
  /\ ((exists m, from_string_and_shapes h k s shapes = Err m) <-> ~ accepted s shapes)
  /\ from_string_and_shapes h k s shapes <> Panic.
Proof.
  intros H. destruct (from_string_accepted h k s shapes H). split; [|split]; auto.
  apply from_string_no_panic; auto.
Qed.

Lemma id_hash_ok : hash_ok (fun _ l => l).
Proof. intros k l. apply Permutation_refl. Qed.

Lemma rev_hash_ok : hash_ok (fun _ l => rev l).
Proof. intros k l. apply Permutation_rev. Qed.

Lemma accepted_example : accepted (chars "ij,jk->ik") [[2; 3]; [3; 4]].
Proof.
  apply (from_string_accepted (fun _ l => l) [] _ _ id_hash_ok). eexists. reflexivity.
Qed.

Lemma not_accepted_example : ~ accepted (chars "ij,jk->ik") [[2; 3]; [5; 4]].
Proof.
  apply (from_string_accepted (fun _ l => l) [] _ _ id_hash_ok). eexists. reflexivity.
Qed.

Lemma join_chars ops : Forall operand_run ops -> Forall (fun c => lower c \/ c = comma \/ In c arrow) (join ops).
Proof.
  induction 1 as [|x l Hx Hl IH]; [constructor|].
  rewrite join_cons. apply Forall_app. split.
  - destruct Hx as [_ Hx]. eapply Forall_impl; [|exact Hx]. auto.
  - clear IH Hx. induction Hl as [|y l Hy Hl IH]; simpl; constructor; auto.
    apply Forall_app. split; auto.
    destruct Hy as [_ Hy]. eapply Forall_impl; [|exact Hy]. auto.
Qed.

Lemma grammar_chars s ops out : grammar s ops out ->
  Forall (fun c => lower c \/ c = comma \/ In c arrow) s.
Proof.
  destruct 1 as [ops _ H|ops out _ H Ho].
  - apply join_chars; auto.
  - apply Forall_app. split; [apply join_chars; auto|]. apply Forall_app. split.
    + apply Forall_forall. auto.
    + eapply Forall_impl; [|exact Ho]. auto.
Qed.

Lemma grammar_examples :
  grammar (chars "ij,jk->ik") [chars "ij"; chars "jk"] (Some (chars "ik"))
  /\ grammar (chars "ij,jk") [chars "ij"; chars "jk"] None
  /\ grammar (chars "ii->") [chars "ii"] (Some []).
Proof. split; [|split]; apply parse_iff; reflexivity. Qed.

Lemma rejected_examples :
  map (fun s => parse_einsum_string (chars s))
      ["" ; "->"; "ij,"; ",ij"; "ij,,jk"; "IJ"; "i j"; "ij->k->l"; "ij-"; "ij>"; "ij->k,l"; "ij->k "]
  = repeat None 12.
Proof. reflexivity. Qed.

Lemma implicit_meaning s ops out :
  grammar s ops None -> implicit_output ops out -> meaning s ops out.
Proof. right; auto. Qed.

Lemma implicit_labels h k s ops : hash_ok h -> grammar s ops None ->
  exists c, validate h k s = Ok c
    /\ operand_indices c = ops
    /\ StronglySorted N.lt (output_indices c)
    /\ forall l, In l (output_indices c) <-> count_occ N.eq_dec (concat ops) l = 1.
Proof.
  intros Hh Hg. exists (contraction_of ops (implicit_out ops)).
  destruct (implicit_out_spec ops) as [H1 H2].
  split; [|split; [|split]]; auto.
  apply validate_ok; auto.
  - apply implicit_meaning; auto. apply implicit_out_spec.
  - apply implicit_output_ok.
Qed.

Lemma implicit_explicit_validate h s ops out k :
  hash_ok h -> grammar s ops None -> implicit_output ops out ->
  validate h k s = validate h k (join ops ++ arrow ++ out).
Proof.
  intros Hh Hg Hi. assert (Hm : meaning s ops out) by (apply implicit_meaning; auto).
  rewrite (implicit_out_unique _ _ Hi) in Hm |- *. clear Hi.
  pose proof (implicit_output_ok ops) as Ho.
  rewrite (validate_ok h k s ops (implicit_out ops)) by auto.
  rewrite (validate_ok h k _ ops (implicit_out ops)); auto.
  eapply explicit_meaning; eauto.
Qed.

Lemma implicit_explicit h s ops out : hash_ok h -> grammar s ops None -> implicit_output ops out ->
  (forall k, validate h k s = validate h k (join ops ++ arrow ++ out))
  /\ (forall k shapes, from_string_and_shapes h k s shapes
                       = from_string_and_shapes h k (join ops ++ arrow ++ out) shapes)
  /\ (forall (A : Type) (S : Scalar A) (lay : backend A) operands,
        einsum h lay s operands = einsum h lay (join ops ++ arrow ++ out) operands)
  /\ (forall (A : Type) (operands : list (arr A)) strategy,
        einsum_path_fn h s operands strategy
        = einsum_path_fn h (join ops ++ arrow ++ out) operands strategy).
Proof.
  intros Hh Hg Hi.
  assert (H1 : forall k, validate h k s = validate h k (join ops ++ arrow ++ out)).
  { intros k. apply implicit_explicit_validate; auto. }
  assert (H2 : forall k shapes, from_string_and_shapes h k s shapes
                       = from_string_and_shapes h k (join ops ++ arrow ++ out) shapes).
  { intros k shapes. unfold from_string_and_shapes. rewrite H1. auto. }
  split; [|split; [|split]]; auto.
  - intros. unfold einsum, validate_and_size. rewrite H2. auto.
  - intros. unfold einsum_path_fn, validate_and_optimize_order. rewrite H2. auto.
Qed.

Lemma implicit_example :
  grammar (chars "ki,ij") [chars "ki"; chars "ij"] None
  /\ implicit_output [chars "ki"; chars "ij"] (chars "jk").
Proof. split; [apply parse_iff; reflexivity|]. apply (implicit_out_spec [chars "ki"; chars "ij"]). Qed.

Lemma validated_labels h k s c : hash_ok h -> validate h k s = Ok c ->
  meaning s (operand_indices c) (output_indices c)
  /\ StronglySorted N.lt (summation_indices c)
  /\ forall l, In l (summation_indices c)
               <-> In l (concat (operand_indices c)) /\ ~ In l (output_indices c).
Proof.
  intros Hh H. apply validate_inv in H as (ops & out & Hm & Ho & ->); auto.
  split; auto. apply (summation_spec ops out).
Qed.

Lemma strategies_unsupported h (A : Type) s (operands : list (arr A)) strategy : hash_ok h ->
  (strategy = Greedy \/ strategy = Optimal \/ strategy = Branch ->
   accepted s (map (@a_shape A) operands) ->
   einsum_path_fn h s operands strategy = Panic)
  /\ (~ accepted s (map (@a_shape A) operands) ->
      exists m, einsum_path_fn h s operands strategy = Err m).
Proof.
  intros Hh. destruct (from_string_accepted h [7; 22] s (map (@a_shape A) operands) Hh) as [H1 H2].
  unfold einsum_path_fn, validate_and_optimize_order, get_operand_shapes. split.
  - intros Hs Ha. apply H1 in Ha as (sc & ->). simpl. destruct Hs as [->|[->| ->]]; reflexivity.
  - intros Ha. apply H2 in Ha as (m & ->). exists m. reflexivity.
Qed.

Lemma sized_from_same h1 h2 k1 k2 s1 s2 shapes :
  validate h1 k1 s1 = validate h2 k2 s2 ->
  from_string_and_shapes h1 k1 s1 shapes = from_string_and_shapes h2 k2 s2 shapes.
Proof. intros H. unfold from_string_and_shapes. rewrite H. auto. Qed.

Lemma round_trip h k s shapes sc : hash_ok h -> from_string_and_shapes h k s shapes = Ok sc ->
  exists s',
    as_einsum_string sc = Ok s'
    /\ grammar s' (operand_indices (sc_contraction sc)) (Some (output_indices (sc_contraction sc)))
    /\ (forall h' k', hash_ok h' -> validate h' k' s' = Ok (sc_contraction sc))
    /\ (forall h' k', hash_ok h' -> from_string_and_shapes h' k' s' shapes = Ok sc).
Proof.
  intros Hh E. destruct (from_string_inv _ _ _ _ _ Hh E) as (ops & out & size & (Hm & Ho & Hs) & Hz).
  destruct (meaning_operands _ _ _ Hm) as [Hne Hops].
  exists (join ops ++ arrow ++ out). split; [eapply as_einsum_string_ok; eauto|].
  assert (Hc : sc_contraction sc = contraction_of ops out) by apply Hz.
  assert (Hv : forall h' k', hash_ok h' ->
                 validate h' k' (join ops ++ arrow ++ out) = Ok (sc_contraction sc)).
  { intros h' k' Hh'. rewrite Hc. apply validate_ok; auto. eapply explicit_meaning; eauto. }
  split; [|split]; auto.
  - rewrite Hc. simpl. constructor; auto. eapply meaning_lower_out; eauto.
  - intros h' k' Hh'. rewrite <- E. apply sized_from_same.
    rewrite Hv by auto. rewrite Hc. symmetry. apply validate_ok; auto.
Qed.

Lemma subset_exactly h k sc ops' out' : hash_ok h ->
  ((forall c, In c (concat ops') -> lookup c (sc_output_size sc) <> None)
   /\ output_ok ops' out' ->
   exists sc', subset h k sc ops' out' = Ok sc'
     /\ operand_indices (sc_contraction sc') = ops'
     /\ output_indices (sc_contraction sc') = out'
     /\ (StronglySorted N.lt (summation_indices (sc_contraction sc'))
         /\ forall c, In c (summation_indices (sc_contraction sc'))
                      <-> In c (concat ops') /\ ~ In c out')
     /\ forall c, (In c (concat ops') -> lookup c (sc_output_size sc') = lookup c (sc_output_size sc))
                  /\ (~ In c (concat ops') -> lookup c (sc_output_size sc') = None))
  /\ (~ ((forall c, In c (concat ops') -> lookup c (sc_output_size sc) <> None)
         /\ output_ok ops' out') ->
      exists m, subset h k sc ops' out' = Err m).
Proof.
  intros Hh. destruct (subset_iff h k sc ops' out' Hh) as [H1 H2]. split; auto.
  intros H. destruct (H1 H) as (sc' & E & Hc & Hl). exists sc'. rewrite Hc.
  split; auto. split; auto. split; auto. split; [apply summation_spec|].
  intros c. rewrite Hl. split; intros Hi.
  - rewrite (proj2 (mem_In _ _) Hi). auto.
  - rewrite (proj2 (mem_false _ _) Hi). auto.
Qed.

Lemma subset_example :
  match from_string_and_shapes (fun _ l => l) [] (chars "ij,jk->ik") [[2; 3]; [3; 4]] with
  | Ok sc => (forall c, In c (concat [chars "kk"; chars "j"]) -> lookup c (sc_output_size sc) <> None)
             /\ output_ok [chars "kk"; chars "j"] (chars "jk")
  | _ => False
  end.
Proof.
  simpl. split.
  - intros c [<-|[<-|[<-|[]]]]; discriminate.
  - destruct (output_ok_dec [chars "kk"; chars "j"] (chars "jk")) as [H|H]; auto.
    exfalso. apply H. split.
    + repeat constructor; simpl; intuition discriminate.
    + intros c Hc. simpl in *. intuition.
Qed.

Lemma shapes_ok_nth size ops shapes i ix sh :
  shapes_ok size ops shapes -> nth_error ops i = Some ix -> nth_error shapes i = Some sh ->
  sh = map size ix.
Proof.
  intros H. revert i; induction H as [|a b l l' E HF IH]; intros [|i] H1 H2; simpl in *; try discriminate.
  - congruence.
  - eauto.
Qed.

Lemma lengths_of_labels h k s shapes sc : hash_ok h -> from_string_and_shapes h k s shapes = Ok sc ->
  (forall c, lookup c (sc_output_size sc) <> None
             <-> In c (concat (operand_indices (sc_contraction sc))))
  /\ (length shapes = length (operand_indices (sc_contraction sc))
      /\ forall i j ix sh c, nth_error (operand_indices (sc_contraction sc)) i = Some ix ->
           nth_error shapes i = Some sh -> nth_error ix j = Some c ->
           nth_error sh j = lookup c (sc_output_size sc))
  /\ (forall i ix sh, nth_error (operand_indices (sc_contraction sc)) i = Some ix ->
        nth_error shapes i = Some sh -> length sh = length ix).
Proof.
  intros Hh E. destruct (from_string_inv _ _ _ _ _ Hh E) as (ops & out & size & (Hm & Ho & Hs) & Hz).
  destruct Hz as (Hc & _ & Hl). rewrite Hc. simpl. split; [|split; [split|]].
  - intros c. rewrite Hl. rewrite <- mem_In. destruct (mem c (concat ops)); split; congruence.
  - symmetry. eapply shapes_ok_length; eauto.
  - intros i j ix sh c H1 H2 H3. rewrite (shapes_ok_nth _ _ _ _ _ _ Hs H1 H2).
    rewrite nth_error_map, H3, Hl. simpl.
    rewrite (proj2 (mem_In c (concat ops))); auto.
    apply in_concat. exists ix. split; eapply nth_error_In; eauto.
  - intros i ix sh H1 H2. rewrite (shapes_ok_nth _ _ _ _ _ _ Hs H1 H2). apply map_length.
Qed.

Lemma error_determined h1 h2 k1 k2 s shapes : hash_ok h1 -> hash_ok h2 ->
  (forall ops out, grammar s ops (Some out) -> NoDup out \/ incl out (concat ops)) ->
  from_string_and_shapes h1 k1 s shapes = from_string_and_shapes h2 k2 s shapes.
Proof.
  intros H1 H2 H. apply sized_from_same. apply validate_error_determined; auto.
  intros ops out [Hm|[Hm Hi]]; [eauto|]. right.
  rewrite (implicit_out_unique _ _ Hi). apply implicit_output_ok.
Qed.

Lemma error_not_determined :
  exists h1 h2 s shapes m1 m2, hash_ok h1 /\ hash_ok h2 /\ m1 <> m2
    /\ from_string_and_shapes h1 [] s shapes = Err m1
    /\ from_string_and_shapes h2 [] s shapes = Err m2.
Proof.
  exists (fun _ l => l), (fun _ l => rev l), (chars "i->iij"), [[2]], msg_dup, msg_unknown.
  split; [exact id_hash_ok|]. split; [exact rev_hash_ok|]. split; [discriminate|].
  split; reflexivity.
Qed.
