(** The scanner of [Validation.v] computes what the regular expression captures. *)
From Verif Require Import Base BaseFacts NDArray Validation Regex Spec ParserFacts.
From Coq Require Import Lia.
From Coq Require String.
Import String.StringSyntax.
Local Open Scope string_scope.
Local Open Scope list_scope.

Definition letter : regex := RClass 97%N 122%N.
Definition operands_re : regex := RSeq (RLit 44%N) (RSeq (RPlus letter) REmpty).
Definition output_re : regex :=
  RSeq (RLit 45%N) (RSeq (RLit 62%N) (RSeq (RGroup (chars "output") (RSeq (RStar letter) REmpty)) REmpty)).
Definition einsum_re : regex :=
  RSeq RStart
    (RSeq (RGroup (chars "first_operand") (RSeq (RPlus letter) REmpty))
      (RSeq (RGroup (chars "more_operands") (RSeq (RStar operands_re) REmpty))
        (RSeq (ROpt output_re) (RSeq REnd REmpty)))).

Lemma pattern_read : read_pattern einsum_pattern = Some einsum_re.
Proof. vm_compute. reflexivity. Qed.

(** ** Inversion *)

Lemma inv_seq r1 r2 pre w post g g' : matches (RSeq r1 r2) pre w post g g' ->
  exists w1 w2 g1, w = w1 ++ w2 /\ matches r1 pre w1 (w2 ++ post) g g1 /\ matches r2 (pre ++ w1) w2 post g1 g'.
Proof. inversion 1; subst. eauto 10. Qed.

Lemma inv_empty pre w post g g' : matches REmpty pre w post g g' -> w = [] /\ g' = g.
Proof. inversion 1; auto. Qed.

Lemma inv_seq_empty r pre w post g g' : matches (RSeq r REmpty) pre w post g g' -> matches r pre w post g g'.
Proof.
  intros H. apply inv_seq in H as (w1 & w2 & g1 & -> & H1 & H2). apply inv_empty in H2 as [-> ->].
  rewrite app_nil_r. exact H1.
Qed.

Lemma to_seq_empty r pre w post g g' : matches r pre w post g g' -> matches (RSeq r REmpty) pre w post g g'.
Proof. intros H. rewrite <- (app_nil_r w). econstructor; [exact H|constructor]. Qed.

Lemma inv_lit c pre w post g g' : matches (RLit c) pre w post g g' -> w = [c] /\ g' = g.
Proof. inversion 1; auto. Qed.

Lemma inv_group name r pre w post g g' : matches (RGroup name r) pre w post g g' ->
  exists g1, g' = (name, w) :: g1 /\ matches r pre w post g g1.
Proof. inversion 1; subst. eauto. Qed.

(** ** Runs of letters *)

Lemma inv_letter pre w post g g' : matches letter pre w post g g' -> exists c, w = [c] /\ lower c /\ g' = g.
Proof. inversion 1; subst. eexists. split; [reflexivity|]. split; auto. split; auto. Qed.

Lemma star_letters pre w post g g' : matches (RStar letter) pre w post g g' <-> lower_run w /\ g' = g.
Proof.
  split.
  - intros H. remember (RStar letter) as r eqn:Er. induction H; try discriminate.
    + split; auto. constructor.
    + injection Er as ->. destruct (IHmatches2 eq_refl) as [Hw ->].
      apply inv_letter in H as (c & -> & Hc & ->). split; auto. constructor; auto.
  - intros [Hw ->]. revert pre. induction Hw as [|c w Hc Hw IH]; intros pre; [constructor|].
    change (c :: w) with ([c] ++ w). econstructor; [|apply IH]. destruct Hc. constructor; auto.
Qed.

Lemma plus_letters pre w post g g' : matches (RPlus letter) pre w post g g' <-> operand_run w /\ g' = g.
Proof.
  split.
  - inversion 1; subst. match goal with H : matches letter _ _ _ _ _ |- _ => apply inv_letter in H as (c & -> & Hc & ->) end.
    match goal with H : matches (RStar letter) _ _ _ _ _ |- _ => apply star_letters in H as [Hw ->] end.
    split; auto. split; [discriminate|]. constructor; auto.
  - intros [[Hn Hw] ->]. destruct w as [|c w]; [congruence|]. inversion Hw as [|? ? Hc Hr]; subst.
    change (c :: w) with ([c] ++ w). econstructor; [|apply star_letters; auto]. destruct Hc. constructor; auto.
Qed.

Lemma one_operand pre w post g g' :
  matches operands_re pre w post g g' <-> exists op, w = comma :: op /\ operand_run op /\ g' = g.
Proof.
  split.
  - intros H. apply inv_seq in H as (w1 & w2 & g1 & -> & H1 & H2). apply inv_lit in H1 as [-> ->].
    apply inv_seq_empty in H2. apply plus_letters in H2 as [H2 ->]. exists w2. auto.
  - intros (op & -> & Hop & ->). change (comma :: op) with ([44%N] ++ op).
    econstructor; [constructor|]. apply to_seq_empty. apply plus_letters. auto.
Qed.

Lemma more_operands pre w post g g' :
  matches (RStar operands_re) pre w post g g' <-> exists ops, w = tail ops /\ Forall operand_run ops /\ g' = g.
Proof.
  split.
  - intros H. remember (RStar operands_re) as r eqn:Er. induction H; try discriminate.
    + exists []. auto.
    + injection Er as ->. destruct (IHmatches2 eq_refl) as (ops & -> & Ho & ->).
      apply one_operand in H as (op & -> & Hop & ->). exists (op :: ops). auto.
  - intros (ops & -> & Ho & ->). revert pre. induction Ho as [|op ops Hop Ho IH]; intros pre; [constructor|].
    change (tail (op :: ops)) with ((comma :: op) ++ tail ops). econstructor; [|apply IH].
    apply one_operand. eauto.
Qed.

Lemma output_group pre w post g g' :
  matches output_re pre w post g g' <-> exists out, w = arrow ++ out /\ lower_run out /\ g' = (chars "output", out) :: g.
Proof.
  split.
  - intros H. apply inv_seq in H as (w1 & w2 & g1 & -> & H1 & H2). apply inv_lit in H1 as [-> ->].
    apply inv_seq in H2 as (w3 & w4 & g2 & -> & H1 & H2). apply inv_lit in H1 as [-> ->].
    apply inv_seq_empty in H2. apply inv_group in H2 as (g3 & -> & H2). apply inv_seq_empty in H2.
    apply star_letters in H2 as [H2 ->]. exists w4. auto.
  - intros (out & -> & Ho & ->). change (arrow ++ out) with ([45%N] ++ [62%N] ++ out).
    econstructor; [constructor|]. econstructor; [constructor|]. apply to_seq_empty. constructor.
    apply to_seq_empty. apply star_letters. auto.
Qed.

(** ** The whole pattern *)

Definition the_groups (op more : list char) (out : option (list char)) : groups :=
  match out with Some o => [(chars "output", o)] | None => [] end
  ++ [(chars "more_operands", more); (chars "first_operand", op)].

Lemma einsum_matches s g : finds einsum_re s g <->
  exists op ops out, operand_run op /\ Forall operand_run ops
    /\ match out with Some o => lower_run o | None => True end
    /\ s = op ++ tail ops ++ match out with Some o => arrow ++ o | None => [] end
    /\ g = the_groups op (tail ops) out.
Proof.
  split.
  - intros (pre & w & post & -> & H).
    apply inv_seq in H as (w1 & w2 & g1 & -> & H1 & H). inversion H1; subst. clear H1. cbn [app] in *.
    apply inv_seq in H as (w3 & w4 & g2 & -> & H1 & H). apply inv_group in H1 as (g3 & -> & H1).
    apply inv_seq_empty in H1. apply plus_letters in H1 as [Hop ->].
    apply inv_seq in H as (w5 & w6 & g4 & -> & H1 & H). apply inv_group in H1 as (g5 & -> & H1).
    apply inv_seq_empty in H1. apply more_operands in H1 as (ops & -> & Ho & ->).
    apply inv_seq in H as (w7 & w8 & g6 & -> & H1 & H). apply inv_seq_empty in H. inversion H; subst. clear H.
    exists w3, ops. inversion H1; subst.
    + exists None. cbn. rewrite !app_nil_r. auto.
    + match goal with H : matches output_re _ _ _ _ _ |- _ => apply output_group in H as (out & -> & Hout & ->) end.
      exists (Some out). cbn [the_groups app]. rewrite !app_nil_r. auto.
  - intros (op & ops & out & Hop & Ho & Hout & -> & ->). exists [], (op ++ tail ops ++ match out with Some o => arrow ++ o | None => [] end), [].
    split; [rewrite app_nil_r; auto|].
    change (op ++ tail ops ++ match out with Some o => arrow ++ o | None => [] end)
      with ([] ++ op ++ tail ops ++ match out with Some o => arrow ++ o | None => [] end).
    econstructor; [constructor|]. econstructor; [constructor; apply to_seq_empty, plus_letters; auto|].
    econstructor; [constructor; apply to_seq_empty, more_operands; eauto|].
    rewrite <- (app_nil_r (match out with Some o => arrow ++ o | None => [] end)).
    econstructor; [|apply to_seq_empty; constructor].
    destruct out as [o|]; [|apply m_opt_none]. apply m_opt_some. apply output_group. eauto.
Qed.

(** A whole match is a string of the grammar. *)
Lemma einsum_groups s g : finds einsum_re s g <->
  exists op ops out, grammar s (op :: ops) out /\ g = the_groups op (tail ops) out.
Proof.
  rewrite einsum_matches. split.
  - intros (op & ops & out & Hop & Ho & Hout & -> & ->). exists op, ops, out. split; auto. destruct out as [o|].
    + rewrite app_assoc, <- join_cons. constructor; auto. discriminate.
    + rewrite app_nil_r, <- join_cons. constructor; auto. discriminate.
  - intros (op & ops & out & Hg & ->). exists op, ops, out. inversion Hg as [? _ Ho|? o _ Ho Hout]; subst.
    + inversion Ho; subst. rewrite join_cons, app_nil_r. auto 6.
    + inversion Ho; subst. rewrite join_cons, <- app_assoc. auto 6.
Qed.

Lemma the_groups_named op more out :
  group_named (chars "first_operand") (the_groups op more out) = Some op
  /\ group_named (chars "more_operands") (the_groups op more out) = Some more
  /\ group_named (chars "output") (the_groups op more out) = out.
Proof. destruct out as [o|]; auto. Qed.

Lemma captures_grammar s op ops out : grammar s (op :: ops) out -> captures s = Some (op, tail ops, out).
Proof.
  intros Hg. pose proof (grammar_operands _ _ _ Hg) as [_ Ho]. inversion Ho as [|? ? Hf Ho']; subst.
  inversion Hg as [? _ _|? o _ _ Hout]; subst.
  - rewrite join_cons. replace (op ++ tail ops) with (op ++ tail ops ++ []) by (rewrite app_nil_r; auto).
    rewrite captures_complete; simpl; auto.
  - rewrite join_cons, <- app_assoc, captures_complete; auto; [|apply arrow_head_ok].
    change (arrow ++ o) with (45%N :: 62%N :: o). simpl.
    replace o with (o ++ []) at 1 by apply app_nil_r. rewrite scan_lower_app; auto. simpl; auto.
Qed.

(** [captures] returns the three groups of the match, which is the only one. *)
Lemma captures_regex s f m out :
  captures s = Some (f, m, out)
  <-> exists g, finds einsum_re s g
        /\ group_named (chars "first_operand") g = Some f
        /\ group_named (chars "more_operands") g = Some m
        /\ group_named (chars "output") g = out.
Proof.
  split.
  - intros H. assert (Hp : parse_einsum_string s = Some (mkParse (f :: skipn 1 (split_on c_comma m)) out)).
    { unfold parse_einsum_string. rewrite H. reflexivity. }
    apply parse_iff in Hp. set (ops := skipn 1 (split_on c_comma m)) in *.
    exists (the_groups f (tail ops) out). split; [apply einsum_groups; eauto|].
    destruct (the_groups_named f (tail ops) out) as (E1 & E2 & E3). split; auto. split; auto.
    rewrite E2. apply captures_grammar in Hp. congruence.
  - intros (g & Hg & E1 & E2 & E3). apply einsum_groups in Hg as (op & ops & out' & Hg & ->).
    destruct (the_groups_named op (tail ops) out') as (F1 & F2 & F3).
    apply captures_grammar in Hg. congruence.
Qed.

Lemma match_unique s g g' : finds einsum_re s g -> finds einsum_re s g' -> g = g'.
Proof.
  intros H H'. apply einsum_groups in H as (op & ops & out & H & ->), H' as (op' & ops' & out' & H' & ->).
  destruct (grammar_unique _ _ _ _ _ H H') as [E ->]. injection E as -> ->. reflexivity.
Qed.
