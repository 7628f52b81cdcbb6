(** The parser recognises exactly the grammar of [Spec.v]. *)
From Verif Require Import Base BaseFacts Validation NDArray Spec.
From Coq Require Import Lia Sorted.

Lemma is_lower_spec c : is_lower c = true <-> lower c.
Proof.
  unfold is_lower, lower. rewrite andb_true_iff, !N.leb_le. tauto.
Qed.

Lemma is_lower_false c : is_lower c = false <-> ~ lower c.
Proof. rewrite <- is_lower_spec. destruct (is_lower c); split; intros; congruence || tauto. Qed.

(** [s] does not start with a letter a-z. *)
Definition no_lower_head (s : list char) : Prop :=
  match s with [] => True | c :: _ => ~ lower c end.

Lemma scan_lower_app m r : lower_run m -> no_lower_head r -> scan_lower (m ++ r) = (m, r).
Proof.
  induction m as [|c m IH]; simpl; intros Hm Hr.
  - destruct r as [|c r]; simpl; auto. simpl in Hr. apply is_lower_false in Hr. rewrite Hr; auto.
  - inversion Hm; subst. rewrite (proj2 (is_lower_spec c)) by auto. rewrite IH by auto. auto.
Qed.

Lemma scan_lower_spec s m r :
  scan_lower s = (m, r) -> s = m ++ r /\ lower_run m /\ no_lower_head r.
Proof.
  revert m r; induction s as [|c s IH]; simpl; intros m r H.
  - injection H as <- <-. repeat split; constructor.
  - destruct (is_lower c) eqn:E.
    + destruct (scan_lower s) as [m' r'] eqn:Es. injection H as <- <-.
      destruct (IH _ _ eq_refl) as (-> & ? & ?).
      repeat split; auto. constructor; auto. apply is_lower_spec; auto.
    + injection H as <- <-. repeat split; [constructor|]. simpl. apply is_lower_false; auto.
Qed.

(** "," op "," op ... *)
Definition tail (ops : list (list char)) : list char := flat_map (fun op => comma :: op) ops.

Lemma join_cons op ops : join (op :: ops) = op ++ tail ops.
Proof.
  revert op; induction ops as [|op2 ops IH]; intros op.
  - simpl. rewrite app_nil_r; auto.
  - change (join (op :: op2 :: ops)) with (op ++ comma :: join (op2 :: ops)).
    rewrite IH. reflexivity.
Qed.

Definition no_comma_lower_head (s : list char) : Prop :=
  match s with
  | [] => True
  | c :: s' => ~ lower c /\ (c = comma -> no_lower_head s')
  end.

Lemma comma_not_lower : is_lower c_comma = false.
Proof. reflexivity. Qed.

Lemma scan_more_run p r : lower_run p ->
  scan_more (p ++ r) = (p ++ fst (scan_more r), snd (scan_more r)).
Proof.
  induction p as [|c p IH]; simpl; intros H.
  - destruct (scan_more r); auto.
  - inversion H; subst. rewrite (proj2 (is_lower_spec c)) by auto. simpl.
    rewrite IH by auto. reflexivity.
Qed.

Lemma scan_more_stop r : no_comma_lower_head r -> scan_more r = ([], r).
Proof.
  destruct r as [|c r]; simpl; auto. intros [H1 H2].
  apply is_lower_false in H1. rewrite H1. simpl.
  destruct (N.eqb c c_comma) eqn:E; simpl; auto.
  apply N.eqb_eq in E. specialize (H2 E). destruct r as [|d r]; auto.
  simpl in H2. apply is_lower_false in H2. rewrite H2. reflexivity.
Qed.

Lemma scan_more_tail ops r :
  Forall operand_run ops -> no_comma_lower_head r -> scan_more (tail ops ++ r) = (tail ops, r).
Proof.
  induction 1 as [|op ops [Hne Hl] Hf IH]; intros Hr.
  - simpl. apply scan_more_stop; auto.
  - simpl tail. simpl app. destruct op as [|d op]; [congruence|].
    inversion Hl; subst.
    change (((comma :: d :: op) ++ tail ops) ++ r) with (comma :: ((d :: op) ++ tail ops) ++ r).
    rewrite <- app_assoc.
    change (scan_more (comma :: (d :: op) ++ tail ops ++ r))
      with (if is_lower comma || (N.eqb comma c_comma && is_lower d)
            then let '(m, r0) := scan_more ((d :: op) ++ tail ops ++ r) in (comma :: m, r0)
            else ([], comma :: (d :: op) ++ tail ops ++ r)).
    rewrite (proj2 (is_lower_spec d)) by auto.
    rewrite scan_more_run by (constructor; auto). rewrite IH by auto. simpl. reflexivity.
Qed.

Lemma scan_more_spec s m r :
  scan_more s = (m, r) ->
  s = m ++ r /\
  exists p ops, m = p ++ tail ops /\ lower_run p /\ Forall operand_run ops
    /\ (no_lower_head s -> p = []) /\ (match s with c :: _ => lower c | [] => False end -> p <> []).
Proof.
  revert m r; induction s as [|c s IH]; simpl; intros m r H.
  - injection H as <- <-. split; auto. exists [], []. repeat split; auto; try constructor;
    try contradiction.
  - destruct (is_lower c) eqn:E; simpl in H.
    + destruct (scan_more s) as [m' r'] eqn:Es. injection H as <- <-.
      destruct (IH _ _ eq_refl) as (-> & p & ops & -> & Hp & Ho & _ & _).
      split; [reflexivity|]. exists (c :: p), ops. apply is_lower_spec in E.
      repeat split; auto; try discriminate; try tauto. constructor; auto.
    + apply is_lower_false in E.
      destruct (N.eqb c c_comma) eqn:Ec; simpl in H.
      * apply N.eqb_eq in Ec. subst c. destruct s as [|d s'].
        { injection H as <- <-. split; auto. exists [], []. repeat split; auto; try constructor;
          try (intros Hx; apply E in Hx; contradiction). }
        destruct (is_lower d) eqn:Ed.
        -- destruct (scan_more (d :: s')) as [m' r'] eqn:Es. injection H as <- <-.
           destruct (IH _ _ eq_refl) as (Hs & p & ops & -> & Hp & Ho & _ & Hne).
           apply is_lower_spec in Ed. specialize (Hne Ed).
           split; [rewrite Hs; reflexivity|].
           exists [], (p :: ops).
           split; [reflexivity|]. split; [constructor|].
           split; [constructor; auto; split; auto|]. split; auto.
        -- injection H as <- <-. split; auto. exists [], []. repeat split; auto; try constructor;
          try (intros Hx; apply E in Hx; contradiction).
      * injection H as <- <-. split; auto. exists [], []. repeat split; auto; try constructor;
          try (intros Hx; apply E in Hx; contradiction).
Qed.

Lemma split_on_app_nosep sep x s :
  ~ In sep x ->
  split_on sep (x ++ s) =
  match split_on sep s with p :: ps => (x ++ p) :: ps | [] => [x] end.
Proof.
  induction x as [|c x IH]; simpl; intros H.
  - destruct (split_on sep s) eqn:E; auto.
    exfalso. destruct s; simpl in E; [discriminate|].
    destruct (N.eqb c sep); [discriminate|]. destruct (split_on sep s); discriminate.
  - destruct (N.eqb c sep) eqn:E; [apply N.eqb_eq in E; tauto|].
    rewrite IH by tauto. destruct (split_on sep s); reflexivity.
Qed.

Lemma lower_no_comma x : lower_run x -> ~ In comma x.
Proof.
  intros H Hi. unfold lower_run in H. rewrite Forall_forall in H. specialize (H _ Hi).
  unfold lower, comma in H. lia.
Qed.

Lemma split_tail ops :
  Forall operand_run ops -> split_on c_comma (tail ops) = [] :: ops.
Proof.
  induction 1 as [|op ops [_ Hl] Hf IH]; simpl; auto.
  rewrite split_on_app_nosep by (apply lower_no_comma; auto).
  rewrite IH. rewrite app_nil_r. reflexivity.
Qed.

Lemma tail_head_ok ops r : no_comma_lower_head r -> no_lower_head (tail ops ++ r).
Proof.
  destruct ops; simpl.
  - destruct r; simpl; tauto.
  - intros _. unfold lower, comma. lia.
Qed.

Lemma captures_complete op ops rest :
  operand_run op -> Forall operand_run ops -> no_comma_lower_head rest ->
  captures (op ++ tail ops ++ rest) =
  match rest with
  | [] => Some (op, tail ops, None)
  | a :: b :: rest3 =>
      if N.eqb a c_minus && N.eqb b c_gt then
        let '(output, rest4) := scan_lower rest3 in
        match rest4 with [] => Some (op, tail ops, Some output) | _ => None end
      else None
  | _ => None
  end.
Proof.
  intros [Hne Hl] Ho Hr. unfold captures.
  rewrite scan_lower_app; auto; [|apply tail_head_ok; auto].
  rewrite scan_more_tail by auto. destruct op; [congruence|]. reflexivity.
Qed.

Lemma arrow_head_ok out : no_comma_lower_head (arrow ++ out).
Proof. simpl. unfold lower, comma. split; [lia|]. intros H; discriminate. Qed.

Lemma parse_complete s ops out :
  grammar s ops out -> parse_einsum_string s = Some (mkParse ops out).
Proof.
  intros H. destruct H as [ops Hne Ho | ops out Hne Ho Hout].
  - destruct ops as [|op ops]; [congruence|]. inversion Ho; subst.
    rewrite join_cons. unfold parse_einsum_string.
    rewrite <- (app_nil_r (tail ops)).
    rewrite captures_complete; auto; simpl; auto. rewrite split_tail by auto. reflexivity.
  - destruct ops as [|op ops]; [congruence|]. inversion Ho; subst.
    rewrite join_cons. rewrite <- app_assoc. unfold parse_einsum_string.
    rewrite captures_complete; auto; [|apply arrow_head_ok].
    change (arrow ++ out) with (45%N :: 62%N :: out). simpl.
    replace out with (out ++ []) at 1 by apply app_nil_r.
    rewrite scan_lower_app; auto; [|simpl; auto]. rewrite split_tail by auto. reflexivity.
Qed.

Lemma parse_sound s p :
  parse_einsum_string s = Some p -> grammar s (p_operand_indices p) (p_output_indices p).
Proof.
  unfold parse_einsum_string, captures.
  destruct (scan_lower s) as [op rest1] eqn:E1.
  apply scan_lower_spec in E1 as (-> & Hop & Hh).
  destruct op as [|c op]; [discriminate|].
  destruct (scan_more rest1) as [more rest2] eqn:E2.
  apply scan_more_spec in E2 as (-> & q & ops & -> & Hq & Ho & Hq0 & _).
  rewrite (Hq0 Hh) in *. simpl app in Hh. simpl app.
  assert (Hrun : operand_run (c :: op)) by (split; [discriminate|auto]).
  destruct rest2 as [|a [|b rest3]]; try discriminate.
  - intros H. injection H as <-. simpl p_operand_indices. simpl p_output_indices.
    simpl. rewrite split_tail by auto. simpl. rewrite app_nil_r.
    change (c :: op ++ tail ops) with ((c :: op) ++ tail ops). rewrite <- join_cons.
    constructor; [discriminate|]. constructor; auto.
  - destruct (N.eqb a c_minus && N.eqb b c_gt) eqn:E; [|discriminate].
    apply andb_true_iff in E as [Ea Eb]. apply N.eqb_eq in Ea, Eb. subst a b.
    destruct (scan_lower rest3) as [output rest4] eqn:E3.
    apply scan_lower_spec in E3 as (-> & Hout & _).
    destruct rest4; [|discriminate].
    intros H. injection H as <-. simpl. rewrite split_tail by auto. simpl. rewrite app_nil_r.
    change (c :: op ++ tail ops ++ c_minus :: c_gt :: output)
      with ((c :: op) ++ tail ops ++ arrow ++ output).
    rewrite app_assoc. rewrite <- join_cons.
    constructor; auto; discriminate.
Qed.

Theorem parse_iff s ops out :
  parse_einsum_string s = Some (mkParse ops out) <-> grammar s ops out.
Proof.
  split; intros H.
  - apply parse_sound in H. auto.
  - apply parse_complete; auto.
Qed.

Lemma grammar_unique s ops out ops' out' :
  grammar s ops out -> grammar s ops' out' -> ops = ops' /\ out = out'.
Proof.
  intros H1 H2. apply parse_complete in H1, H2. rewrite H1 in H2. injection H2; auto.
Qed.

Lemma parse_none s : parse_einsum_string s = None <-> forall ops out, ~ grammar s ops out.
Proof.
  split.
  - intros H ops out G. apply parse_complete in G. congruence.
  - intros H. destruct (parse_einsum_string s) as [p|] eqn:E; auto.
    apply parse_sound in E. exfalso. eapply H; eauto.
Qed.

(** Every character of a well-formed string is a letter a-z, a comma, or part of an arrow. *)
Lemma grammar_operands s ops out : grammar s ops out -> ops <> [] /\ Forall operand_run ops.
Proof. destruct 1; auto. Qed.

Lemma meaning_unique s ops out ops' out' :
  meaning s ops out -> meaning s ops' out' -> ops = ops' /\ out = out'.
Proof.
  intros [H|[H Hi]] [H'|[H' Hi']].
  - destruct (grammar_unique _ _ _ _ _ H H') as [-> E]. injection E; auto.
  - destruct (grammar_unique _ _ _ _ _ H H') as [-> E]. discriminate.
  - destruct (grammar_unique _ _ _ _ _ H H') as [-> E]. discriminate.
  - destruct (grammar_unique _ _ _ _ _ H H') as [-> E]. split; auto.
    destruct Hi as [S1 I1], Hi' as [S2 I2]. apply sorted_lt_unique; auto.
    intros c. rewrite I1, I2. tauto.
Qed.

Lemma meaning_operands s ops out : meaning s ops out -> ops <> [] /\ Forall operand_run ops.
Proof. intros [H|[H _]]; eapply grammar_operands; eauto. Qed.
