(** Theorems about strings, validation and sizes: C03 (validation), C04, C05, C06, C14, C19,
    C20 (validation), C21, C27. Each theorem is closed by a lemma proved elsewhere and is
    followed by a concrete case that meets its hypotheses. *)
From Verif Require Import Base NDArray Validation Optimizers Path Api Spec
  BaseFacts ParserFacts ValidationFacts ValidationMain Regex RegexFacts.
From Coq Require String.
From Coq Require Import Sorted.
Import String.StringSyntax.
Local Open Scope string_scope.
Local Open Scope list_scope.

(** ** C03: acceptance *)

(** Validation accepts exactly the well-formed calls, rejects the others with [Err], and never
    panics. *)
Theorem validation_accepts_exactly_well_formed_calls :
  forall h k s shapes, hash_ok h ->
    ((exists sc, from_string_and_shapes h k s shapes = Ok sc) <-> accepted s shapes)
    /\ ((exists m, from_string_and_shapes h k s shapes = Err m) <-> ~ accepted s shapes)
    /\ from_string_and_shapes h k s shapes <> Panic.
Proof. exact accepts_exactly. Qed.
Print Assumptions validation_accepts_exactly_well_formed_calls.

Example accepted_case : accepted (chars "ij,jk->ik") [[2; 3]; [3; 4]].
Proof. exact accepted_example. Qed.
Example not_accepted_case : ~ accepted (chars "ij,jk->ik") [[2; 3]; [5; 4]].
Proof. exact not_accepted_example. Qed.
Example identity_hash_ok : hash_ok (fun _ l => l).
Proof. exact id_hash_ok. Qed.
Example reverse_hash_ok : hash_ok (fun _ l => rev l).
Proof. exact rev_hash_ok. Qed.

(** ** C04: the parser *)

Theorem parser_recognises_grammar :
  forall s ops out, parse_einsum_string s = Some (mkParse ops out) <-> grammar s ops out.
Proof. exact parse_iff. Qed.
Print Assumptions parser_recognises_grammar.

(** The parser returns what the code's regular expression captures, whichever match a regular
    expression engine prefers: there is only one. *)
Theorem parser_is_the_regular_expression :
  exists r, read_pattern einsum_pattern = Some r
  /\ (forall s, (exists p, parse_einsum_string s = Some p) <-> (exists g, finds r s g))
  /\ (forall s g, finds r s g ->
        exists first more,
          group_named (chars "first_operand") g = Some first
          /\ group_named (chars "more_operands") g = Some more
          /\ parse_einsum_string s
             = Some (mkParse (first :: skipn 1 (split_on comma more)) (group_named (chars "output") g)))
  /\ (forall s g g', finds r s g -> finds r s g' -> g = g').
Proof.
  exists einsum_re. split; [exact pattern_read|]. split; [|split; [|exact match_unique]].
  - intros s. split.
    + intros [p H]. unfold parse_einsum_string in H. destruct (captures s) as [[[f m] o]|] eqn:E; [|discriminate].
      apply captures_regex in E as (g & Hg & _). eauto.
    + intros [g Hg]. apply einsum_groups in Hg as (op & ops & out & Hg & _). apply parse_complete in Hg. eauto.
  - intros s g Hg. pose proof Hg as Hg'. apply einsum_groups in Hg' as (op & ops & out & Hp & ->).
    destruct (the_groups_named op (tail ops) out) as (E1 & E2 & E3).
    exists op, (tail ops). split; [exact E1|]. split; [exact E2|]. rewrite E3.
    unfold parse_einsum_string. rewrite (captures_grammar _ _ _ _ Hp). reflexivity.
Qed.
Print Assumptions parser_is_the_regular_expression.

Example regex_case : exists r, read_pattern einsum_pattern = Some r
  /\ finds r (chars "ij,jk,kl->il")
       [(chars "output", chars "il"); (chars "more_operands", chars ",jk,kl"); (chars "first_operand", chars "ij")].
Proof.
  exists einsum_re. split; [exact pattern_read|].
  apply einsum_groups. exists (chars "ij"), [chars "jk"; chars "kl"], (Some (chars "il")).
  split; [apply parse_iff; reflexivity|reflexivity].
Qed.

Theorem parser_rejects_everything_else :
  forall s, parse_einsum_string s = None <-> forall ops out, ~ grammar s ops out.
Proof. exact parse_none. Qed.
Print Assumptions parser_rejects_everything_else.

Theorem grammar_is_unambiguous :
  forall s ops out ops' out', grammar s ops out -> grammar s ops' out' -> ops = ops' /\ out = out'.
Proof. exact grammar_unique. Qed.
Print Assumptions grammar_is_unambiguous.

(** Consequences in terms of characters: every character of an accepted string is a-z, a comma,
    or part of the arrow; so a string with a space, an upper case letter or any other character
    is rejected. *)
Theorem accepted_characters :
  forall s ops out, grammar s ops out ->
    Forall (fun c => lower c \/ c = comma \/ In c arrow) s.
Proof. exact grammar_chars. Qed.
Print Assumptions accepted_characters.

Example grammar_case :
  grammar (chars "ij,jk->ik") [chars "ij"; chars "jk"] (Some (chars "ik"))
  /\ grammar (chars "ij,jk") [chars "ij"; chars "jk"] None
  /\ grammar (chars "ii->") [chars "ii"] (Some []).
Proof. exact grammar_examples. Qed.
Example rejected_cases :
  map (fun s => parse_einsum_string (chars s))
      ["" ; "->"; "ij,"; ",ij"; "ij,,jk"; "IJ"; "i j"; "ij->k->l"; "ij-"; "ij>"; "ij->k,l"; "ij->k "]
  = repeat None 12.
Proof. exact rejected_examples. Qed.

(** ** C05: implicit output *)

(** Without an arrow the output is the labels occurring once, in increasing order ... *)
Theorem implicit_output_labels :
  forall h k s ops, hash_ok h -> grammar s ops None ->
    exists c, validate h k s = Ok c
      /\ operand_indices c = ops
      /\ StronglySorted N.lt (output_indices c)
      /\ forall l, In l (output_indices c) <-> count_occ N.eq_dec (concat ops) l = 1.
Proof. exact implicit_labels. Qed.
Print Assumptions implicit_output_labels.

(** ... and validation of the explicit string gives literally the same contraction, so every
    entry point behaves identically on the two strings. *)
Theorem implicit_is_explicit :
  forall h s ops out, hash_ok h -> grammar s ops None -> implicit_output ops out ->
    (forall k, validate h k s = validate h k (join ops ++ arrow ++ out))
    /\ (forall k shapes, from_string_and_shapes h k s shapes
                         = from_string_and_shapes h k (join ops ++ arrow ++ out) shapes)
    /\ (forall (A : Type) (S : Scalar A) (lay : backend A) operands,
          einsum h lay s operands = einsum h lay (join ops ++ arrow ++ out) operands)
    /\ (forall (A : Type) (operands : list (arr A)) strategy,
          einsum_path_fn h s operands strategy
          = einsum_path_fn h (join ops ++ arrow ++ out) operands strategy).
Proof. exact implicit_explicit. Qed.
Print Assumptions implicit_is_explicit.

Example implicit_case :
  grammar (chars "ki,ij") [chars "ki"; chars "ij"] None
  /\ implicit_output [chars "ki"; chars "ij"] (chars "jk").
Proof. exact implicit_example. Qed.

(** ** C06: summation labels *)

Theorem summation_labels :
  forall h k s c, hash_ok h -> validate h k s = Ok c ->
    meaning s (operand_indices c) (output_indices c)
    /\ StronglySorted N.lt (summation_indices c)
    /\ forall l, In l (summation_indices c)
                 <-> In l (concat (operand_indices c)) /\ ~ In l (output_indices c).
Proof. exact validated_labels. Qed.
Print Assumptions summation_labels.

Example summation_case :
  validate (fun _ l => rev l) [] (chars "zb,ba->a")
  = Ok (mkContraction [chars "zb"; chars "ba"] (chars "a") (chars "bz")).
Proof. reflexivity. Qed.

(** ** C14: unsupported strategies *)

Theorem unsupported_strategies :
  forall h (A : Type) s (operands : list (arr A)) strategy, hash_ok h ->
    (strategy = Greedy \/ strategy = Optimal \/ strategy = Branch ->
     accepted s (map (@a_shape A) operands) ->
     einsum_path_fn h s operands strategy = Panic)
    /\ (~ accepted s (map (@a_shape A) operands) ->
        exists m, einsum_path_fn h s operands strategy = Err m).
Proof. exact strategies_unsupported. Qed.
Print Assumptions unsupported_strategies.

Example unsupported_case :
  accepted (chars "ij,jk->ik")
    (map (@a_shape nat) [mkArr [1; 2; 3; 4; 5; 6] 0%Z [2; 3] [3; 1]%Z;
                         mkArr [1; 2; 3; 4; 5; 6; 7; 8; 9; 1; 2; 3] 0%Z [3; 4] [4; 1]%Z]).
Proof. exact accepted_example. Qed.

(** ** C19: as_einsum_string *)

Theorem as_einsum_string_round_trip :
  forall h k s shapes sc, hash_ok h -> from_string_and_shapes h k s shapes = Ok sc ->
    exists s',
      as_einsum_string sc = Ok s'
      (* explicit form of the same labels *)
      /\ grammar s' (operand_indices (sc_contraction sc)) (Some (output_indices (sc_contraction sc)))
      (* validates to the same contraction under any hash order, and sizes to the same contraction *)
      /\ (forall h' k', hash_ok h' -> validate h' k' s' = Ok (sc_contraction sc))
      /\ (forall h' k', hash_ok h' -> from_string_and_shapes h' k' s' shapes = Ok sc).
Proof. exact round_trip. Qed.
Print Assumptions as_einsum_string_round_trip.

Example round_trip_case :
  match from_string_and_shapes (fun _ l => l) [] (chars "ij,jk") [[2; 3]; [3; 4]] with
  | Ok sc => as_einsum_string sc = Ok (chars "ij,jk->ik")
  | _ => False
  end.
Proof. reflexivity. Qed.

(** ** C20: subset *)

Theorem subset_succeeds_exactly :
  forall h k sc ops' out', hash_ok h ->
    ((forall c, In c (concat ops') -> lookup c (sc_output_size sc) <> None)
     /\ output_ok ops' out' ->
     exists sc', subset h k sc ops' out' = Ok sc'
       /\ operand_indices (sc_contraction sc') = ops'
       /\ output_indices (sc_contraction sc') = out'
       /\ (StronglySorted N.lt (summation_indices (sc_contraction sc'))
           /\ forall c, In c (summation_indices (sc_contraction sc'))
                        <-> In c (concat ops') /\ ~ In c out')
       /\ forall c, (In c (concat ops') -> lookup c (sc_output_size sc') = lookup c (sc_output_size sc))
                    /\ (~ In c (concat ops') -> lookup c (sc_output_size sc') = None))
    /\ (~ ((forall c, In c (concat ops') -> lookup c (sc_output_size sc) <> None)
           /\ output_ok ops' out') ->
        exists m, subset h k sc ops' out' = Err m).
Proof. exact subset_exactly. Qed.
Print Assumptions subset_succeeds_exactly.

Example subset_case :
  match from_string_and_shapes (fun _ l => l) [] (chars "ij,jk->ik") [[2; 3]; [3; 4]] with
  | Ok sc => (forall c, In c (concat [chars "kk"; chars "j"]) -> lookup c (sc_output_size sc) <> None)
             /\ output_ok [chars "kk"; chars "j"] (chars "jk")
  | _ => False
  end.
Proof. exact subset_example. Qed.

(** ** C21: label lengths *)

Theorem label_lengths :
  forall h k s shapes sc, hash_ok h -> from_string_and_shapes h k s shapes = Ok sc ->
    (forall c, lookup c (sc_output_size sc) <> None
               <-> In c (concat (operand_indices (sc_contraction sc))))
    /\ (length shapes = length (operand_indices (sc_contraction sc))
        /\ forall i j ix sh c, nth_error (operand_indices (sc_contraction sc)) i = Some ix ->
             nth_error shapes i = Some sh -> nth_error ix j = Some c ->
             nth_error sh j = lookup c (sc_output_size sc))
    /\ (forall i ix sh, nth_error (operand_indices (sc_contraction sc)) i = Some ix ->
          nth_error shapes i = Some sh -> length sh = length ix).
Proof. exact lengths_of_labels. Qed.
Print Assumptions label_lengths.

Example label_lengths_case :
  exists sc, from_string_and_shapes (fun _ l => l) [] (chars "iij,jk->ik") [[2; 2; 3]; [3; 4]] = Ok sc.
Proof. eexists. reflexivity. Qed.

(** ** C27: error messages *)

(** The message is determined unless the output both repeats a label and names an unknown one. *)
Theorem error_message_determined_otherwise :
  forall h1 h2 k1 k2 s shapes, hash_ok h1 -> hash_ok h2 ->
    (forall ops out, grammar s ops (Some out) -> NoDup out \/ incl out (concat ops)) ->
    from_string_and_shapes h1 k1 s shapes = from_string_and_shapes h2 k2 s shapes.
Proof. exact error_determined. Qed.
Print Assumptions error_message_determined_otherwise.

(** The full property is false: two iteration orders, two messages for the same input. *)
Theorem error_message_determined_refuted :
  exists h1 h2 s shapes m1 m2, hash_ok h1 /\ hash_ok h2 /\ m1 <> m2
    /\ from_string_and_shapes h1 [] s shapes = Err m1
    /\ from_string_and_shapes h2 [] s shapes = Err m2.
Proof. exact error_not_determined. Qed.
Print Assumptions error_message_determined_refuted.
