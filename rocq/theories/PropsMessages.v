(** The error messages: which message a rejected call gets (C38), and exactly when it depends on
    hash iteration order (C27, strengthened). *)
From Verif Require Import Base NDArray Validation Optimizers Path Api Spec
  BaseFacts ParserFacts ValidationFacts ValidationMain MessageFacts.
From Coq Require String.
From Coq Require Import Lia.
Import String.StringSyntax.
Local Open Scope string_scope.
Local Open Scope list_scope.

(** ** C38 *)

(** The operands' axes can be given label lengths. *)
Definition lengths_agree (ops : list (list char)) (shapes : list (list nat)) : Prop :=
  exists size, shapes_ok size ops shapes.

(** [reports s shapes m]: the message [m] describes a defect of the call. Defects are looked for
    in the order grammar, output, number of operands, then operand by operand; a label that is
    both repeated in the output and unknown counts as repeated. *)
Inductive reports (s : list char) (shapes : list (list nat)) : String.string -> Prop :=
| rep_grammar : (forall ops out, ~ grammar s ops out) -> reports s shapes "Invalid string"
| rep_duplicate : forall ops out c, grammar s ops (Some out) ->
    1 < count_occ N.eq_dec out c ->
    reports s shapes "Requested output has duplicate index"
| rep_unknown : forall ops out c, grammar s ops (Some out) ->
    count_occ N.eq_dec out c = 1 -> ~ In c (concat ops) ->
    reports s shapes "Requested output contains an index not found in inputs"
| rep_count : forall ops out, meaning s ops out -> output_ok ops out ->
    length ops <> length shapes ->
    reports s shapes "number of operands in contraction does not match number of operands supplied"
| rep_rank : forall ops out i ix sh, meaning s ops out -> output_ok ops out ->
    length ops = length shapes -> nth_error ops i = Some ix -> nth_error shapes i = Some sh ->
    lengths_agree (firstn i ops) (firstn i shapes) -> length ix <> length sh ->
    reports s shapes "number of indices in one or more operands does not match dimensions of operand"
| rep_size : forall ops out i ix sh, meaning s ops out -> output_ok ops out ->
    length ops = length shapes -> nth_error ops i = Some ix -> nth_error shapes i = Some sh ->
    lengths_agree (firstn i ops) (firstn i shapes) -> length ix = length sh ->
    ~ lengths_agree (firstn (S i) ops) (firstn (S i) shapes) ->
    reports s shapes "repeated index with different size".

(** A message always describes a defect the call has. *)
Theorem messages_describe_the_defect :
  forall h k s shapes m, hash_ok h -> from_string_and_shapes h k s shapes = Err m ->
    reports s shapes m.
Proof.
  intros h k s shapes m Hh E. unfold from_string_and_shapes in E.
  destruct (meaning_dec s) as [(ops & out & Hm)|Hn].
  - rewrite (validate_meaning h k s ops out Hh Hm) in E.
    destruct (output_ok_dec ops out) as [Ho|Ho].
    + rewrite (from_indices_ok h k ops out Hh Ho) in E. cbn [rbind] in E.
      unfold sized_from_contraction in E.
      destruct (output_size_from (contraction_of ops out) shapes) as [sz|m'|] eqn:Es;
        cbn [rbind] in E; try discriminate.
      injection E as <-. apply sizes_messages in Es. cbn [operand_indices contraction_of] in Es.
      destruct Es as [[-> Hl]|(Hl & i & ix & sh & H1 & H2 & Hc & [[-> Hr]|(-> & Hr & Hx)])].
      * eapply rep_count; eauto.
      * eapply rep_rank; eauto.
      * eapply rep_size; eauto.
    + assert (Hg : grammar s ops (Some out)).
      { destruct Hm as [Hm|[Hm Hi]]; [exact Hm|]. exfalso. apply Ho.
        rewrite (implicit_out_unique _ _ Hi). apply implicit_output_ok. }
      destruct (from_indices h k ops out) as [c|m'|] eqn:Ef; cbn [rbind] in E; try discriminate.
      { exfalso. destruct (from_indices_err h k ops out Hh Ho) as [[Ex _]|[Ex _]]; congruence. }
      injection E as <-. apply from_indices_messages in Ef as (c & _ & [[-> Hc]|(-> & Hc & Hn)]); [| |exact Hh].
      * eapply rep_duplicate; eauto.
      * eapply rep_unknown; eauto.
  - rewrite validate_no_meaning in E by exact Hn. cbn [rbind] in E. injection E as <-.
    apply rep_grammar. intros ops o Hg. apply (Hn ops (meant_output ops o)).
    apply meaning_grammar. eauto.
Qed.
Print Assumptions messages_describe_the_defect.

(** Every message that describes a defect is returned for some iteration order. *)
Theorem described_messages_occur :
  forall s shapes m, reports s shapes m ->
    exists h, hash_ok h /\ forall k, from_string_and_shapes h k s shapes = Err m.
Proof.
  intros s shapes m H.
  assert (Hsz : forall ops out m', meaning s ops out -> output_ok ops out ->
    output_size_from (contraction_of ops out) shapes = Err m' ->
    exists h, hash_ok h /\ forall k, from_string_and_shapes h k s shapes = Err m').
  { intros ops out m' Hm Ho E. exists (fun _ l => l). split; [exact id_hash_ok|]. intros k.
    unfold from_string_and_shapes. rewrite (validate_ok _ k s ops out id_hash_ok Hm Ho). cbn [rbind].
    unfold sized_from_contraction. rewrite E. reflexivity. }
  destruct H as [Hg|ops out c Hg Hc|ops out c Hg Hc Hn|ops out Hm Ho Hl
                |ops out i ix sh Hm Ho Hl H1 H2 Ha Hr|ops out i ix sh Hm Ho Hl H1 H2 Ha Hr Hn].
  - exists (fun _ l => l). split; [exact id_hash_ok|]. intros k. unfold from_string_and_shapes.
    rewrite validate_no_meaning; [reflexivity|].
    intros ops out Hm. apply meaning_grammar in Hm as (o & Hm & _). exact (Hg _ _ Hm).
  - exists (first_hash c). split; [apply first_hash_ok|]. intros k. unfold from_string_and_shapes.
    rewrite (validate_meaning _ k s ops out (first_hash_ok c) (or_introl Hg)).
    rewrite (dup_reachable c k ops out Hc). reflexivity.
  - exists (first_hash c). split; [apply first_hash_ok|]. intros k. unfold from_string_and_shapes.
    rewrite (validate_meaning _ k s ops out (first_hash_ok c) (or_introl Hg)).
    rewrite (unknown_reachable c k ops out Hc Hn). reflexivity.
  - apply (Hsz ops out); auto. apply count_message. exact Hl.
  - apply (Hsz ops out); auto. eapply rank_message; eauto.
  - apply (Hsz ops out); auto. eapply size_message; eauto.
Qed.
Print Assumptions described_messages_occur.

(** So a call is rejected exactly when it has a defect. *)
Theorem rejected_exactly_with_defect :
  forall s shapes, (exists m, reports s shapes m) <-> ~ accepted s shapes.
Proof.
  intros s shapes. split.
  - intros (m & H) Ha. destruct (described_messages_occur s shapes m H) as (h & Hh & E).
    destruct (proj2 (proj1 (from_string_accepted h [] s shapes Hh)) Ha) as (sc & E').
    rewrite E in E'. discriminate.
  - intros Ha. destruct (proj2 (proj2 (from_string_accepted _ [] s shapes id_hash_ok)) Ha) as (m & E).
    exists m. exact (messages_describe_the_defect _ _ _ _ _ id_hash_ok E).
Qed.
Print Assumptions rejected_exactly_with_defect.

(** One call for each message, and one with two messages. *)
Example message_cases :
  map (fun call => from_string_and_shapes (fun _ l => l) [] (chars (fst call)) (snd call))
    [("ij,", [[2; 3]]); ("ij->ii", [[2; 3]]); ("ij->k", [[2; 3]]); ("ij,jk", [[2; 3]]);
     ("ij,jk", [[2; 3]; [4]]); ("ij,jk", [[2; 3]; [4; 3]]); ("i->jj", [[2]]);
     ("ii,j", [[2; 3]; [2; 2]])]
  = [Err "Invalid string"; Err "Requested output has duplicate index";
     Err "Requested output contains an index not found in inputs";
     Err "number of operands in contraction does not match number of operands supplied";
     Err "number of indices in one or more operands does not match dimensions of operand";
     Err "repeated index with different size"; Err "Requested output has duplicate index";
     Err "repeated index with different size"].
Proof. vm_compute. reflexivity. Qed.

(** The public entry points pass the message on. *)
Theorem einsum_messages :
  forall (A : Type) (Sc : Scalar A) h lay s (operands : list (arr A)) m, hash_ok h ->
    from_string_and_shapes h [20] s (map (@a_shape A) operands) = Err m ->
    einsum h lay s operands = Err m /\ reports s (map (@a_shape A) operands) m.
Proof.
  intros A Sc h lay s operands m Hh E. split.
  - unfold einsum, validate_and_size, get_operand_shapes. rewrite E. reflexivity.
  - exact (messages_describe_the_defect _ _ _ _ _ Hh E).
Qed.
Print Assumptions einsum_messages.

(** ** subset *)

Inductive subset_reports (sc : sized_contraction) (ops : list (list char)) (out : list char)
  : String.string -> Prop :=
| srep_size : forall c, In c (concat ops) -> lookup c (sc_output_size sc) = None ->
    subset_reports sc ops out "Character found in new_operand_indices but not in self.output_size"
| srep_duplicate : forall c, (forall d, In d (concat ops) -> lookup d (sc_output_size sc) <> None) ->
    1 < count_occ N.eq_dec out c ->
    subset_reports sc ops out "Requested output has duplicate index"
| srep_unknown : forall c, (forall d, In d (concat ops) -> lookup d (sc_output_size sc) <> None) ->
    count_occ N.eq_dec out c = 1 -> ~ In c (concat ops) ->
    subset_reports sc ops out "Requested output contains an index not found in inputs".

Lemma subset_known sc (all : list char) :
  existsb (fun c => match lookup c (sc_output_size sc) with None => true | Some _ => false end) all = false
  <-> forall c, In c all -> lookup c (sc_output_size sc) <> None.
Proof.
  induction all as [|c all IH]; cbn [existsb In].
  - split; [intros _ c []|reflexivity].
  - rewrite orb_false_iff, IH. split.
    + intros [H1 H2] d [<-|Hd]; [|exact (H2 d Hd)]. intros E. rewrite E in H1. discriminate.
    + intros H. split; [|intros d Hd; apply H; auto].
      specialize (H c (or_introl eq_refl)). destruct (lookup c (sc_output_size sc)); [reflexivity|congruence].
Qed.

Theorem subset_messages :
  forall sc ops out m,
    (forall h k, hash_ok h -> subset h k sc ops out = Err m -> subset_reports sc ops out m)
    /\ (subset_reports sc ops out m ->
        exists h, hash_ok h /\ forall k, subset h k sc ops out = Err m).
Proof.
  intros sc ops out m. split.
  - intros h k Hh E. unfold subset in E.
    destruct (existsb _ _) eqn:Ex.
    + injection E as <-. apply existsb_exists in Ex as (c & Hc & Hx).
      apply (srep_size _ _ _ c); [apply distinct_In; exact Hc|].
      destruct (lookup c (sc_output_size sc)); [discriminate|reflexivity].
    + assert (Hk : forall d, In d (concat ops) -> lookup d (sc_output_size sc) <> None).
      { intros d Hd. apply (proj1 (subset_known sc _) Ex). apply distinct_In. exact Hd. }
      destruct (from_indices h k ops out) as [c|m'|] eqn:Ef; cbn [rbind] in E; try discriminate.
      injection E as <-. apply from_indices_messages in Ef as (c & _ & [[-> Hc]|(-> & Hc & Hn)]); [| |exact Hh].
      * eapply srep_duplicate; eauto.
      * eapply srep_unknown; eauto.
  - assert (Hk : (forall d, In d (concat ops) -> lookup d (sc_output_size sc) <> None) ->
      existsb (fun c => match lookup c (sc_output_size sc) with None => true | Some _ => false end)
        (distinct (concat ops)) = false).
    { intros H. apply subset_known. intros c Hc. apply H, distinct_In. exact Hc. }
    intros [c Hc Hl|c H Hc|c H Hc Hn].
    + exists (fun _ l => l). split; [exact id_hash_ok|]. intros k. unfold subset.
      rewrite (proj2 (existsb_exists _ _)); [reflexivity|].
      exists c. split; [apply distinct_In; exact Hc|]. rewrite Hl. reflexivity.
    + exists (first_hash c). split; [apply first_hash_ok|]. intros k. unfold subset.
      rewrite (Hk H). rewrite (dup_reachable c k ops out Hc). reflexivity.
    + exists (first_hash c). split; [apply first_hash_ok|]. intros k. unfold subset.
      rewrite (Hk H). rewrite (unknown_reachable c k ops out Hc Hn). reflexivity.
Qed.
Print Assumptions subset_messages.

Example subset_message_cases :
  match from_string_and_shapes (fun _ l => l) [] (chars "ij,jk->ik") [[2; 3]; [3; 4]] with
  | Ok sc => [subset (fun _ l => l) [] sc [chars "ijx"] (chars "ii");
              subset (fun _ l => l) [] sc [chars "ij"] (chars "ii");
              subset (fun _ l => l) [] sc [chars "ij"] (chars "k")]
  | _ => []
  end
  = [Err "Character found in new_operand_indices but not in self.output_size";
     Err "Requested output has duplicate index";
     Err "Requested output contains an index not found in inputs"].
Proof. vm_compute. reflexivity. Qed.

(** ** C27, exactly *)

(** The outcome depends on iteration order exactly when the output both repeats some label and
    names once a label that no operand has. *)
Theorem message_varies_exactly :
  forall s shapes,
    (exists h1 h2 k1 k2, hash_ok h1 /\ hash_ok h2
       /\ from_string_and_shapes h1 k1 s shapes <> from_string_and_shapes h2 k2 s shapes)
    <-> exists ops out c d, grammar s ops (Some out)
          /\ 1 < count_occ N.eq_dec out c
          /\ count_occ N.eq_dec out d = 1 /\ ~ In d (concat ops).
Proof.
  intros s shapes. split.
  - intros (h1 & h2 & k1 & k2 & H1 & H2 & Hne).
    destruct (meaning_dec s) as [(ops & out & Hm)|Hn].
    2:{ exfalso. apply Hne. unfold from_string_and_shapes. rewrite !validate_no_meaning by exact Hn. reflexivity. }
    destruct (output_ok_dec ops out) as [Ho|Ho].
    { exfalso. apply Hne. unfold from_string_and_shapes.
      rewrite (validate_ok h1 k1 s ops out H1 Hm Ho), (validate_ok h2 k2 s ops out H2 Hm Ho). reflexivity. }
    assert (Hg : grammar s ops (Some out)).
    { destruct Hm as [Hm|[Hm Hi]]; [exact Hm|]. exfalso. apply Ho.
      rewrite (implicit_out_unique _ _ Hi). apply implicit_output_ok. }
    unfold from_string_and_shapes in Hne.
    rewrite (validate_meaning h1 k1 s ops out H1 Hm), (validate_meaning h2 k2 s ops out H2 Hm) in Hne.
    assert (Hx : forall h k, hash_ok h -> exists m, from_indices h k ops out = Err m).
    { intros h k Hh. destruct (from_indices_err h k ops out Hh Ho) as [[E _]|[E _]]; eauto. }
    destruct (Hx h1 k1 H1) as (m1 & E1). destruct (Hx h2 k2 H2) as (m2 & E2).
    rewrite E1, E2 in Hne. cbn [rbind] in Hne.
    destruct (from_indices_messages _ _ _ _ _ H1 E1) as (c1 & _ & [[-> Hc1]|(-> & Hc1 & Hn1)]);
      destruct (from_indices_messages _ _ _ _ _ H2 E2) as (c2 & _ & [[-> Hc2]|(-> & Hc2 & Hn2)]);
      try (exfalso; apply Hne; reflexivity).
    + exists ops, out, c1, c2. auto.
    + exists ops, out, c2, c1. auto.
  - intros (ops & out & c & d & Hg & Hc & Hd & Hn).
    exists (first_hash c), (first_hash d), [], []. split; [apply first_hash_ok|].
    split; [apply first_hash_ok|]. unfold from_string_and_shapes.
    rewrite (validate_meaning _ [] s ops out (first_hash_ok c) (or_introl Hg)).
    rewrite (validate_meaning _ [] s ops out (first_hash_ok d) (or_introl Hg)).
    rewrite (dup_reachable c [] ops out Hc), (unknown_reachable d [] ops out Hd Hn). discriminate.
Qed.
Print Assumptions message_varies_exactly.

Example message_varies_case :
  grammar (chars "i->iij") [chars "i"] (Some (chars "iij"))
  /\ 1 < count_occ N.eq_dec (chars "iij") 105%N
  /\ count_occ N.eq_dec (chars "iij") 106%N = 1 /\ ~ In 106%N (concat [chars "i"]).
Proof.
  split; [apply parse_iff; reflexivity|]. split; [vm_compute; auto|]. split; [reflexivity|].
  cbn. intuition discriminate.
Qed.
