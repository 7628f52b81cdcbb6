(** The structure of a contraction order: which operands each step uses, which labels it keeps,
    and how large its result is. *)
From Verif Require Import Base BaseFacts NDArray Validation Optimizers Spec ValidationFacts SumFacts
  ArrayFacts PathFacts.
From Coq Require Import Lia.

(** The two operand numbers a step refers to, and the labels of its inputs and its result. *)
Definition step_uses (st : pair_step) : list operand_number := [ps_lhs st; ps_rhs st].
Definition step_inputs (st : pair_step) : list (list char) :=
  operand_indices (sc_contraction (ps_sc st)).
Definition step_output (st : pair_step) : list char := output_indices (sc_contraction (ps_sc st)).
Definition step_summed (st : pair_step) : list char := summation_indices (sc_contraction (ps_sc st)).

(** The labels of the array an operand number refers to. *)
Definition labels_of (ops : list (list char)) (steps : list pair_step) (n : operand_number) : list char :=
  match n with
  | Input j => nth j ops []
  | IntermediateResult i => match nth_error steps i with Some st => step_output st | None => [] end
  end.

(** The input operand [n] is not referred to by any of the steps. *)
Definition unused (n : nat) (steps : list pair_step) : Prop :=
  forall st, In st steps -> ~ In (Input n) (step_uses st).

(** The labels of the input operands combined by the steps. *)
Definition combined_labels (ops : list (list char)) (steps : list pair_step) : list char :=
  nodup N.eq_dec (flat_map (fun n => match n with Input j => nth j ops [] | _ => [] end)
                    (flat_map step_uses steps)).

Definition size_product (size : char -> nat) (cs : list char) : nat :=
  fold_right Nat.mul 1 (map size cs).

Section Chain.
Variables (size : char -> nat) (out : list char).

Lemma sized_fields sc l r o : sized sc [l; r] o size ->
  operand_indices (sc_contraction sc) = [l; r] /\ output_indices (sc_contraction sc) = o
  /\ NoDup o /\ incl o (l ++ r)
  /\ forall c, In c (summation_indices (sc_contraction sc)) <-> (In c l \/ In c r) /\ ~ In c o.
Proof.
  intros HS. pose proof HS as (Hc & [Hn Hi] & _).
  split; [rewrite Hc; reflexivity|]. split; [rewrite Hc; reflexivity|]. split; auto.
  split; [intros c H; apply Hi in H; simpl in H; rewrite app_nil_r in H; auto|].
  intros c. exact (PairMain.sc_sum2 _ _ _ _ _ HS c).
Qed.

Lemma chain_lengths i L todo js lhs steps : chain size out i L todo js lhs steps ->
  length steps = length todo /\ length js = length todo.
Proof. induction 1; simpl; lia. Qed.

Lemma chain_nth i L todo js lhs steps : chain size out i L todo js lhs steps ->
  forall k st, nth_error steps k = Some st ->
  exists r j Lk O, nth_error todo k = Some r /\ nth_error js k = Some j
    /\ ps_rhs st = Input j
    /\ ((k = 0 /\ ps_lhs st = lhs /\ Lk = L)
        \/ exists k' st', k = S k' /\ ps_lhs st = IntermediateResult (i + k')
             /\ nth_error steps k' = Some st' /\ Lk = step_output st')
    /\ sized (ps_sc st) [Lk; r] O size
    /\ ((S k = length todo /\ O = out)
        \/ (S k < length todo
            /\ forall c, In c O <-> (In c Lk \/ In c r) /\ (In c (concat (skipn (S k) todo)) \/ In c out))).
Proof.
  induction 1 as [i L r j lhs sc HS|i L r rest j js lhs sc L' steps Hne HS HL Hch IH]; intros k st Hk.
  - destruct k as [|[|k]]; try discriminate. injection Hk as <-.
    exists r, j, L, out. simpl. repeat split; auto; apply HS.
  - destruct k as [|k].
    + injection Hk as <-. exists r, j, L, L'. simpl. repeat (split; [auto|]). right.
      split; [destruct rest; simpl in *; [congruence|lia]|]. auto.
    + simpl in Hk. destruct (IH k st Hk) as (r' & j' & Lk & O & H1 & H2 & H3 & H4 & H5 & H6).
      exists r', j', Lk, O. simpl. split; auto. split; auto. split; auto. split.
      * right. destruct H4 as [(-> & E & ->)|(k' & st' & -> & E & Hn & ->)].
        -- exists 0, (mkPair sc lhs (Input j)). rewrite Nat.add_0_r. simpl. repeat (split; auto).
           unfold step_output. simpl. destruct HS as (Hc & _). rewrite Hc. auto.
        -- exists (S k'), st'. replace (i + S k') with (S i + k') by lia. simpl. auto.
      * split; auto. destruct H6 as [[H6 ?]|[H6 ?]]; [left|right]; (split; [lia|auto]).
Qed.

Lemma chain_never_summed i L todo js lhs steps : chain size out i L todo js lhs steps ->
  forall c, In c out \/ (~ In c L /\ ~ In c (concat todo)) ->
  forall st, In st steps -> ~ In c (step_summed st).
Proof.
  induction 1 as [i L r j lhs sc HS|i L r rest j js lhs sc L' steps Hne HS HL Hch IH];
    intros c Hc st Hst; unfold step_summed; destruct (sized_fields _ _ _ _ HS) as (_ & _ & _ & _ & HI).
  - destruct Hst as [<-|[]]. simpl. rewrite HI. simpl in Hc. rewrite app_nil_r in Hc. tauto.
  - rewrite concat_cons, in_app_iff in Hc. destruct Hst as [<-|Hst].
    + simpl. rewrite HI, HL. tauto.
    + apply (IH c); auto. rewrite HL. tauto.
Qed.

Lemma chain_summed_once i L todo js lhs steps : chain size out i L todo js lhs steps ->
  forall c, In c L \/ In c (concat todo) -> ~ In c out ->
  exists k, (exists st, nth_error steps k = Some st /\ In c (step_summed st))
    /\ forall k' st', nth_error steps k' = Some st' -> In c (step_summed st') -> k' = k.
Proof.
  induction 1 as [i L r j lhs sc HS|i L r rest j js lhs sc L' steps Hne HS HL Hch IH];
    intros c Hc Ho; unfold step_summed; destruct (sized_fields _ _ _ _ HS) as (_ & _ & _ & _ & HI).
  - exists 0. split.
    + eexists. split; [reflexivity|]. simpl. rewrite HI. simpl in Hc. rewrite app_nil_r in Hc. auto.
    + intros [|[|k]] st E; auto; discriminate.
  - rewrite concat_cons, in_app_iff in Hc.
    destruct (in_dec N.eq_dec c (concat rest)) as [Hr|Hr].
    + destruct (IH c) as (k & (st & E & Hs) & Hu); auto.
      exists (S k). split; [exists st; auto|].
      intros [|k'] st' E' Hs'.
      * injection E' as <-. simpl in Hs'. rewrite HI, HL in Hs'. tauto.
      * f_equal. apply (Hu k' st'); auto.
    + exists 0. split.
      * eexists. split; [reflexivity|]. simpl. rewrite HI, HL. tauto.
      * intros [|k'] st' E' Hs'; auto. exfalso.
        apply (chain_never_summed _ _ _ _ _ _ Hch c) with (st := st'); auto.
        -- right. rewrite HL. tauto.
        -- simpl in E'. eapply nth_error_In; eauto.
Qed.

(** The labels of a step's result are labels of the operands combined so far. *)
Lemma chain_output_incl i L todo js lhs steps : chain size out i L todo js lhs steps ->
  forall k st, nth_error steps k = Some st ->
  NoDup (step_output st) /\ incl (step_output st) (L ++ concat (firstn (S k) todo)).
Proof.
  induction 1 as [i L r j lhs sc HS|i L r rest j js lhs sc L' steps Hne HS HL Hch IH];
    intros k st Hk; unfold step_output; destruct (sized_fields _ _ _ _ HS) as (_ & HO & HN & HI & _).
  - destruct k as [|[|k]]; try discriminate. injection Hk as <-. simpl. rewrite HO, app_nil_r. auto.
  - destruct k as [|k].
    + injection Hk as <-. simpl. rewrite HO, app_nil_r. auto.
    + simpl in Hk. destruct (IH k st Hk) as [H1 H2]. split; auto.
      intros c Hc. apply H2 in Hc. rewrite in_app_iff in Hc. rewrite HL in Hc.
      rewrite firstn_cons, concat_cons, !in_app_iff. tauto.
Qed.

End Chain.

(** ** From the chain to operand numbers *)

Lemma perm_nth_seq {T} (l : list T) d ord : Permutation ord (seq 0 (length l)) ->
  Permutation (map (fun i => nth i l d) ord) l.
Proof.
  intros H. eapply Permutation_trans; [apply Permutation_map, H|].
  rewrite map_nth_seq. apply Permutation_refl.
Qed.

Lemma nth_error_map_nth {T} (l : list T) d js k j :
  nth_error js k = Some j -> nth_error (map (fun i => nth i l d) js) k = Some (nth j l d).
Proof. intros H. apply map_nth_error with (f := fun i => nth i l d) in H. auto. Qed.

Lemma flat_map_nth_error {T U} (f : T -> list U) (l : list T) x :
  In x (flat_map f l) <-> exists k y, nth_error l k = Some y /\ In x (f y).
Proof.
  rewrite in_flat_map. split.
  - intros (y & H1 & H2). apply In_nth_error in H1 as (k & H1). eauto.
  - intros (k & y & H1 & H2). apply nth_error_In in H1. eauto.
Qed.

Lemma firstn_nth_error {T} (l : list T) n k : nth_error (firstn n l) k = if k <? n then nth_error l k else None.
Proof.
  revert n k; induction l as [|x l IH]; intros [|n] [|k]; simpl; auto.
  - destruct (S k <? S n); auto.
  - rewrite IH. change (S k <? S n) with (k <? n). auto.
Qed.

Section Order.
Variables (size : char -> nat) (ops : list (list char)) (out : list char).
Variables (i0 : nat) (js : list nat) (steps : list pair_step).
Let get i := nth i ops [].
Hypothesis Hperm : Permutation (i0 :: js) (seq 0 (length ops)).
Hypothesis Hch : chain size out 0 (get i0) (map get js) js (Input i0) steps.

Lemma order_lengths : length steps = length js /\ S (length js) = length ops.
Proof.
  destruct (chain_lengths _ _ _ _ _ _ _ _ Hch) as [H _]. rewrite map_length in H. split; auto.
  apply Permutation_length in Hperm. simpl in Hperm. rewrite seq_length in Hperm. auto.
Qed.

(** Exactly which operand numbers each step has. *)
Lemma order_numbers k st : nth_error steps k = Some st ->
  exists j, nth_error js k = Some j /\ ps_rhs st = Input j
    /\ ps_lhs st = match k with 0 => Input i0 | S k' => IntermediateResult k' end.
Proof.
  intros Hk. destruct (chain_nth _ _ _ _ _ _ _ _ Hch k st Hk) as (r & j & Lk & O & _ & H2 & H3 & H4 & _).
  exists j. split; auto. split; auto.
  destruct H4 as [(-> & E & _)|(k' & st' & -> & E & _)]; auto.
Qed.

Lemma uses_perm : Permutation (flat_map step_uses steps)
  (map Input (seq 0 (length ops)) ++ map IntermediateResult (seq 0 (length ops - 2))).
Proof.
  destruct order_lengths as [Hl1 Hl2].
  assert (E : flat_map step_uses steps
    = flat_map (fun kj => [match fst kj with 0 => Input i0 | S k' => IntermediateResult k' end; Input (snd kj)])
        (combine (seq 0 (length js)) js)).
  { assert (G : forall l n js', length l = length js' ->
      (forall k st, nth_error l k = Some st -> exists j, nth_error js' k = Some j /\ ps_rhs st = Input j
        /\ ps_lhs st = match n + k with 0 => Input i0 | S k' => IntermediateResult k' end) ->
      flat_map step_uses l = flat_map (fun kj => [match fst kj with 0 => Input i0 | S k' => IntermediateResult k' end; Input (snd kj)])
        (combine (seq n (length js')) js')).
    { induction l as [|st l IH]; intros n js' Hl H; destruct js' as [|j js']; try discriminate; auto.
      destruct (H 0 st eq_refl) as (j' & E1 & E2 & E3). injection E1 as <-. rewrite Nat.add_0_r in E3.
      cbn [flat_map length seq combine fst snd]. unfold step_uses at 1. rewrite E2, E3.
      cbn [app]. do 2 f_equal. apply IH; [simpl in Hl; lia|]. intros k st' Hk.
      destruct (H (S k) st' Hk) as (j' & F1 & F2 & F3). exists j'. split; auto. split; auto.
      rewrite F3. replace (n + S k) with (S n + k) by lia. auto. }
    apply (G steps 0 js); auto. intros k st Hk. simpl. apply order_numbers; auto. }
  rewrite E. clear E.
  assert (Hjs : js = [] \/ exists j js', js = j :: js') by (destruct js; eauto).
  assert (P : Permutation (map Input (i0 :: js)) (map Input (seq 0 (length ops)))) by (apply Permutation_map, Hperm).
  destruct js as [|j js'].
  { simpl in Hl2. assert (steps = []) by (destruct steps; auto; discriminate). inversion Hch. }
  cbn [length seq combine flat_map fst snd app].
  assert (G : forall l n, Permutation
     (flat_map (fun kj => [match fst kj with 0 => Input i0 | S k' => IntermediateResult k' end; Input (snd kj)])
        (combine (seq (S n) (length l)) l))
     (map Input l ++ map IntermediateResult (seq n (length l)))).
  { induction l as [|x l IH]; intros n; simpl; auto.
    eapply Permutation_trans; [|apply (Permutation_middle (Input x :: map Input l))]. simpl.
    constructor. constructor. apply IH. }
  eapply Permutation_trans; [constructor; constructor; apply G|].
  replace (length ops - 2) with (length js') by (simpl in Hl2; lia).
  change (Input i0 :: Input j :: map Input js' ++ map IntermediateResult (seq 0 (length js')))
    with (map Input (i0 :: j :: js') ++ map IntermediateResult (seq 0 (length js'))).
  apply Permutation_app_tail. exact P.
Qed.

Lemma first_step k : k < length steps ->
  exists st, In st (firstn (S k) steps) /\ In (Input i0) (step_uses st).
Proof.
  intros Hk. destruct (nth_error steps 0) as [st|] eqn:E.
  2:{ apply nth_error_None in E. lia. }
  exists st. split.
  - apply nth_error_In with (n := 0). rewrite firstn_nth_error. auto.
  - destruct (order_numbers 0 st E) as (j & _ & _ & El). left. auto.
Qed.

Lemma unused_iff k n : n < length ops -> k < length steps ->
  unused n (firstn (S k) steps) <-> In n (skipn (S k) js).
Proof.
  intros Hn Hk. destruct order_lengths as [Hl1 Hl2].
  assert (Hnd : NoDup (i0 :: js)).
  { eapply Permutation_NoDup; [apply Permutation_sym, Hperm|]. apply seq_NoDup. }
  assert (Hin : In n (i0 :: js)).
  { eapply Permutation_in; [apply Permutation_sym, Hperm|]. apply in_seq. lia. }
  assert (Hsplit : js = firstn (S k) js ++ skipn (S k) js) by (symmetry; apply firstn_skipn).
  unfold unused. split.
  - intros H. destruct Hin as [<-|Hin].
    + exfalso. destruct (first_step k Hk) as (st & H1 & H2). apply (H st); auto.
    + rewrite Hsplit in Hin. apply in_app_iff in Hin as [Hin|]; auto. exfalso.
      apply In_nth_error in Hin as (k' & E'). rewrite firstn_nth_error in E'.
      destruct (k' <? S k) eqn:El; [|discriminate]. apply Nat.ltb_lt in El.
      destruct (nth_error steps k') as [st|] eqn:Est.
      2:{ apply nth_error_None in Est. lia. }
      destruct (order_numbers k' st Est) as (j & E1 & E2 & _).
      apply (H st).
      * apply nth_error_In with (n := k'). rewrite firstn_nth_error.
        replace (k' <? S k) with true by (symmetry; apply Nat.ltb_lt; auto). auto.
      * right; left. rewrite E2. f_equal. congruence.
  - intros H st Hst Hu. apply In_nth_error in Hst as (k' & E'). rewrite firstn_nth_error in E'.
    destruct (k' <? S k) eqn:El; [|discriminate]. apply Nat.ltb_lt in El.
    destruct (order_numbers k' st E') as (j & E1 & E2 & E3).
    inversion Hnd as [|? ? Hni Hnj]; subst.
    destruct Hu as [Hu|[Hu|[]]].
    + rewrite E3 in Hu. destruct k'; [|discriminate]. injection Hu as ->.
      apply Hni. rewrite Hsplit. apply in_or_app; auto.
    + rewrite E2 in Hu. injection Hu as ->.
      assert (Hf : In n (firstn (S k) js)).
      { apply nth_error_In with (n := k'). rewrite firstn_nth_error.
        replace (k' <? S k) with true by (symmetry; apply Nat.ltb_lt; auto). auto. }
      rewrite Hsplit in Hnj. exact (NoDup_app_disjoint _ _ n Hnj Hf H).
Qed.

(** The labels each step has, in terms of operand numbers. *)
Lemma order_labels k st : nth_error steps k = Some st ->
  step_inputs st = map (labels_of ops steps) (step_uses st)
  /\ NoDup (step_output st)
  /\ (S k = length steps -> step_output st = out)
  /\ (S k < length steps -> forall c,
        In c (step_output st) <->
        (In c (labels_of ops steps (ps_lhs st)) \/ In c (labels_of ops steps (ps_rhs st)))
        /\ (In c out \/ exists n, n < length ops /\ unused n (firstn (S k) steps) /\ In c (nth n ops []))).
Proof.
  intros Hk. destruct order_lengths as [Hl1 Hl2].
  destruct (chain_nth _ _ _ _ _ _ _ _ Hch k st Hk) as (r & j & Lk & O & H1 & H2 & H3 & H4 & H5 & H6).
  destruct (sized_fields _ _ _ _ _ H5) as (F1 & F2 & F3 & _).
  assert (Hkl : k < length steps) by (apply nth_error_Some; congruence).
  assert (Er : r = get j).
  { pose proof (nth_error_map_nth ops [] js k j H2) as H2'. fold get in H2'. unfold get in *. congruence. }
  assert (El : Lk = labels_of ops steps (ps_lhs st)).
  { destruct H4 as [(-> & E & ->)|(k' & st' & -> & E & Hn & ->)]; rewrite E; auto.
    simpl. rewrite Hn. auto. }
  assert (Er' : r = labels_of ops steps (ps_rhs st)) by (rewrite H3; auto).
  rewrite map_length in H6.
  split; [unfold step_inputs, step_uses; rewrite F1; simpl; congruence|].
  unfold step_output. rewrite F2. split; auto. split.
  - intros Hlast. destruct H6 as [[_ ->]|[H6 _]]; auto. lia.
  - intros Hlast c. destruct H6 as [[H6 _]|[_ H6]]; [lia|]. rewrite H6, <- El, <- Er'.
    assert (X : In c (concat (skipn (S k) (map get js))) <->
      exists n, n < length ops /\ unused n (firstn (S k) steps) /\ In c (nth n ops [])).
    { rewrite skipn_map, in_concat. split.
      - intros (x & Hx & Hc). apply in_map_iff in Hx as (n & <- & Hn).
        assert (Hlt : n < length ops).
        { assert (Hi : In n (i0 :: js)).
          { right. rewrite <- (firstn_skipn (S k) js). apply in_or_app; auto. }
          apply (Permutation_in _ Hperm), in_seq in Hi. lia. }
        exists n. split; auto. split; auto. apply unused_iff; auto.
      - intros (n & Hlt & Hu & Hc). exists (get n). split; auto. apply in_map.
        apply unused_iff in Hu; auto. }
    rewrite X. tauto.
Qed.

Lemma order_summed_once c : In c (concat ops) -> ~ In c out ->
  exists k, (exists st, nth_error steps k = Some st /\ In c (step_summed st))
    /\ forall k' st', nth_error steps k' = Some st' -> In c (step_summed st') -> k' = k.
Proof.
  intros Hc Ho. apply (chain_summed_once _ _ _ _ _ _ _ _ Hch); auto.
  apply in_concat in Hc as (x & Hx & Hc).
  apply (Permutation_in _ (Permutation_sym (perm_nth_seq ops [] _ Hperm))) in Hx.
  destruct Hx as [<-|Hx]; auto. right. apply in_concat. eauto.
Qed.

Lemma order_outputs_kept c st : In c out -> In st steps -> ~ In c (step_summed st).
Proof. intros Hc Hst. eapply chain_never_summed; eauto. Qed.

Lemma combined_iff k c : k < length steps ->
  In c (combined_labels ops (firstn (S k) steps)) <-> In c (get i0 ++ concat (firstn (S k) (map get js))).
Proof.
  intros Hk. destruct order_lengths as [Hl1 Hl2]. unfold combined_labels. rewrite nodup_In, in_flat_map.
  rewrite in_app_iff, firstn_map, in_concat. split.
  - intros (n & Hn & Hc). rewrite flat_map_nth_error in Hn. destruct Hn as (k' & st & E & Hu).
    rewrite firstn_nth_error in E. destruct (k' <? S k) eqn:El; [|discriminate]. apply Nat.ltb_lt in El.
    destruct (order_numbers k' st E) as (j & E1 & E2 & E3).
    destruct Hu as [<-|[<-|[]]].
    + rewrite E3 in Hc. destruct k'; [auto|contradiction].
    + rewrite E2 in Hc. right. exists (get j). split; auto. apply in_map.
      apply nth_error_In with (n := k'). rewrite firstn_nth_error.
      replace (k' <? S k) with true by (symmetry; apply Nat.ltb_lt; auto). auto.
  - intros [Hc|(x & Hx & Hc)].
    + exists (Input i0). split; auto. destruct (first_step k Hk) as (st & H1 & H2).
      apply in_flat_map. eauto.
    + apply in_map_iff in Hx as (n & <- & Hn). apply In_nth_error in Hn as (k' & E').
      rewrite firstn_nth_error in E'.
      destruct (k' <? S k) eqn:El; [|discriminate]. apply Nat.ltb_lt in El.
      destruct (nth_error steps k') as [st|] eqn:Est.
      2:{ apply nth_error_None in Est. lia. }
      destruct (order_numbers k' st Est) as (j & E1 & E2 & _).
      exists (Input n). split; auto. rewrite flat_map_nth_error. exists k', st. rewrite firstn_nth_error.
      replace (k' <? S k) with true by (symmetry; apply Nat.ltb_lt; auto). split; auto.
      right; left. rewrite E2. f_equal. congruence.
Qed.

Lemma size_product_incl (f : char -> nat) l m : NoDup l -> incl l m -> Forall (fun c => f c <> 0) m ->
  size_product f l <= size_product f m.
Proof.
  unfold size_product. revert m. induction l as [|c l IH]; intros m Hn Hi Hz.
  - simpl. clear Hi. induction Hz; simpl; auto. nia.
  - inversion Hn; subst.
    assert (Hc : In c m) by (apply Hi; left; auto).
    apply in_split in Hc as (m1 & m2 & ->).
    assert (Hle : size_product f l <= size_product f (m1 ++ m2)).
    { apply IH; auto.
      - intros d Hd. assert (In d (m1 ++ c :: m2)) by (apply Hi; right; auto).
        apply in_app_iff in H. apply in_app_iff. destruct H as [|[->|]]; auto. contradiction.
      - rewrite Forall_app in *. destruct Hz as [Hz1 Hz2]. inversion Hz2; auto. }
    unfold size_product in Hle. rewrite map_app, fold_right_app in Hle |- *.
    simpl. assert (G : forall x l0, fold_right Nat.mul x l0 = x * fold_right Nat.mul 1 l0).
    { intros x l0. induction l0; simpl; [lia|]. rewrite IHl0. lia. }
    rewrite (G (f c * _)). rewrite (G (fold_right _ _ _)) in Hle. nia.
Qed.

Lemma order_result_size k st : nth_error steps k = Some st ->
  size_product size (step_output st)
    <= size_product (fun c => Nat.max 1 (size c)) (combined_labels ops (firstn (S k) steps)).
Proof.
  intros Hk. assert (Hkl : k < length steps) by (apply nth_error_Some; congruence).
  destruct (chain_output_incl _ _ _ _ _ _ _ _ Hch k st Hk) as [Hn Hi].
  eapply Nat.le_trans with (size_product (fun c => Nat.max 1 (size c)) (step_output st)).
  - unfold size_product. clear. induction (step_output st); cbn [map fold_right]; auto.
    apply Nat.mul_le_mono; auto. lia.
  - apply size_product_incl; auto.
    + intros c Hc. apply combined_iff; auto.
    + apply Forall_forall. intros c _. lia.
Qed.

End Order.

(** ** The order chosen for a validated contraction *)

(** The input operands referred to, in the order of the steps. *)
Definition inputs_used (steps : list pair_step) : list nat :=
  flat_map (fun n => match n with Input j => [j] | _ => [] end) (flat_map step_uses steps).

Definition order_of (strategy : optimization_method) (n : nat) : list nat :=
  match strategy with Naive => seq 0 n | _ => rev (seq 0 n) end.

Lemma chain_inputs size out i L todo js lhs steps : chain size out i L todo js lhs steps ->
  inputs_used steps = (match lhs with Input j => [j] | _ => [] end) ++ js.
Proof.
  unfold inputs_used.
  induction 1 as [i L r j lhs sc HS|i L r rest j js lhs sc L' steps Hne HS HL Hch IH];
    cbn [flat_map step_uses ps_lhs ps_rhs app].
  - destruct lhs; reflexivity.
  - rewrite IH. destruct lhs; reflexivity.
Qed.

Section Chosen.
Variables (h : hash_order).
Hypothesis Hh : hash_ok h.

Lemma chosen_order k0 k s shapes ops out size sc strategy :
  call_ok s shapes ops out size -> strategy = Naive \/ strategy = Reverse ->
  from_string_and_shapes h k0 s shapes = Ok sc ->
  (exists sc', length ops = 1 /\ generate_optimized_order h k sc strategy = Ok (Singleton sc')
     /\ operand_indices (sc_contraction sc') = ops /\ output_indices (sc_contraction sc') = out)
  \/ (exists i0 js steps, 2 <= length ops
       /\ i0 :: js = order_of strategy (length ops)
       /\ Permutation (i0 :: js) (seq 0 (length ops))
       /\ generate_optimized_order h k sc strategy = Ok (Pairs steps)
       /\ chain size out 0 (nth i0 ops []) (map (fun i => nth i ops []) js) js (Input i0) steps).
Proof.
  intros Hc Hst E. destruct (from_string_ok h k0 s shapes ops out size Hh Hc) as (sc1 & E1 & HS).
  assert (sc1 = sc) by congruence. subst sc1. clear E1.
  assert (Hne : ops <> []).
  { destruct Hc as ([Hm|[Hm _]] & _); inversion Hm; auto. }
  assert (Hp : Permutation (order_of strategy (length ops)) (seq 0 (length ops))).
  { destruct Hst as [-> | ->]; simpl; auto. apply Permutation_sym, Permutation_rev. }
  assert (Eg : generate_optimized_order h k sc strategy = generate_path h k sc (order_of strategy (length ops))).
  { pose proof HS as (Hcc & _).
    destruct Hst as [-> | ->]; unfold generate_optimized_order, naive_order, reverse_order;
      rewrite Hcc; reflexivity. }
  rewrite Eg.
  destruct (generate_path_ok h k size Hh sc ops out (order_of strategy (length ops)) HS Hne Hp)
    as [(sc' & Hl & E2 & HS')|(i0 & js & L & todo & steps & Eo & Epo & Htn & E2 & Hch)].
  - left. exists sc'. split; auto. split; auto. destruct HS' as (Hcc & _).
    assert (Eops : map (fun i => nth i ops []) (order_of strategy (length ops)) = ops).
    { rewrite Hl. destruct ops as [|x [|y ops']]; try discriminate.
      destruct Hst as [-> | ->]; reflexivity. }
    rewrite Eops in Hcc. rewrite Hcc. auto.
  - right. exists i0, js, steps. rewrite Eo in Epo. cbn [map] in Epo. injection Epo as <- <-.
    split.
    { apply Permutation_length in Hp. rewrite Eo, seq_length in Hp. cbn [length] in Hp.
      destruct js; [simpl in Htn; congruence|simpl in Hp; lia]. }
    split; auto. rewrite Eo in Hp. auto.
Qed.

Lemma path_structure_ok k0 k s shapes ops out size sc strategy :
  call_ok s shapes ops out size -> strategy = Naive \/ strategy = Reverse ->
  from_string_and_shapes h k0 s shapes = Ok sc ->
  (length ops = 1 ->
     exists sc', generate_optimized_order h k sc strategy = Ok (Singleton sc')
       /\ operand_indices (sc_contraction sc') = ops /\ output_indices (sc_contraction sc') = out)
  /\ (2 <= length ops ->
     exists steps, generate_optimized_order h k sc strategy = Ok (Pairs steps)
       /\ length steps = length ops - 1
       /\ Permutation (flat_map step_uses steps)
            (map Input (seq 0 (length ops)) ++ map IntermediateResult (seq 0 (length ops - 2)))
       /\ (forall i st j, nth_error steps i = Some st -> In (IntermediateResult j) (step_uses st) -> j < i)
       /\ inputs_used steps = order_of strategy (length ops)).
Proof.
  intros Hc Hst E.
  destruct (chosen_order k0 k s shapes ops out size sc strategy Hc Hst E)
    as [(sc' & Hl & E2 & H1 & H2)|(i0 & js & steps & Hl & Eo & Hp & E2 & Hch)].
  - split; [eauto|lia].
  - split; [lia|]. intros _. exists steps. split; auto.
    destruct (order_lengths size ops out i0 js steps Hp Hch) as [L1 L2].
    split; [lia|]. split; [eapply uses_perm; eauto|]. split.
    + intros i st j Hi Hj. destruct (order_numbers size ops out i0 js steps Hch i st Hi) as (j' & _ & E3 & E4).
      destruct Hj as [Hj|[Hj|[]]]; [|congruence]. rewrite E4 in Hj. destruct i; [discriminate|].
      injection Hj as ->. lia.
    + rewrite <- Eo. eapply chain_inputs in Hch. exact Hch.
Qed.

Lemma path_labels_ok k0 k s shapes ops out size sc strategy steps :
  call_ok s shapes ops out size -> strategy = Naive \/ strategy = Reverse ->
  from_string_and_shapes h k0 s shapes = Ok sc ->
  generate_optimized_order h k sc strategy = Ok (Pairs steps) ->
  forall k st, nth_error steps k = Some st ->
  step_inputs st = map (labels_of ops steps) (step_uses st)
  /\ NoDup (step_output st)
  /\ (S k = length steps -> step_output st = out)
  /\ (S k < length steps -> forall c,
        In c (step_output st) <->
        (In c (labels_of ops steps (ps_lhs st)) \/ In c (labels_of ops steps (ps_rhs st)))
        /\ (In c out \/ exists n, n < length ops /\ unused n (firstn (S k) steps) /\ In c (nth n ops []))).
Proof.
  intros Hc Hst E Eg.
  destruct (chosen_order k0 k s shapes ops out size sc strategy Hc Hst E)
    as [(sc' & Hl & E2 & H1 & H2)|(i0 & js & steps' & Hl & Eo & Hp & E2 & Hch)]; [congruence|].
  assert (steps' = steps) by congruence. subst steps'.
  exact (order_labels size ops out i0 js steps Hp Hch).
Qed.

Lemma path_sums_once k0 k s shapes ops out size sc strategy steps :
  call_ok s shapes ops out size -> strategy = Naive \/ strategy = Reverse ->
  from_string_and_shapes h k0 s shapes = Ok sc ->
  generate_optimized_order h k sc strategy = Ok (Pairs steps) ->
  (forall c, In c (concat ops) -> ~ In c out ->
     exists k, (exists st, nth_error steps k = Some st /\ In c (step_summed st))
       /\ forall k' st', nth_error steps k' = Some st' -> In c (step_summed st') -> k' = k)
  /\ (forall c st, In c out -> In st steps -> ~ In c (step_summed st)).
Proof.
  intros Hc Hst E Eg.
  destruct (chosen_order k0 k s shapes ops out size sc strategy Hc Hst E)
    as [(sc' & Hl & E2 & H1 & H2)|(i0 & js & steps' & Hl & Eo & Hp & E2 & Hch)]; [congruence|].
  assert (steps' = steps) by congruence. subst steps'. split.
  - intros c. exact (order_summed_once size ops out i0 js steps Hp Hch c).
  - intros c st. exact (order_outputs_kept size ops out i0 js steps Hch c st).
Qed.

Lemma path_sizes_ok k0 k s shapes ops out size sc strategy steps :
  call_ok s shapes ops out size -> strategy = Naive \/ strategy = Reverse ->
  from_string_and_shapes h k0 s shapes = Ok sc ->
  generate_optimized_order h k sc strategy = Ok (Pairs steps) ->
  forall k st, nth_error steps k = Some st ->
  NoDup (step_output st)
  /\ size_product size (step_output st)
     <= size_product (fun c => Nat.max 1 (size c)) (combined_labels ops (firstn (S k) steps)).
Proof.
  intros Hc Hst E Eg k' st Hk.
  destruct (chosen_order k0 k s shapes ops out size sc strategy Hc Hst E)
    as [(sc' & Hl & E2 & H1 & H2)|(i0 & js & steps' & Hl & Eo & Hp & E2 & Hch)]; [congruence|].
  assert (steps' = steps) by congruence. subst steps'. split.
  - eapply order_labels in Hk; eauto. tauto.
  - eapply order_result_size; eauto.
Qed.

Lemma size_product_positive size cs : Forall (fun c => size c <> 0) cs ->
  size_product (fun c => Nat.max 1 (size c)) cs = size_product size cs.
Proof.
  unfold size_product. induction 1; cbn [map fold_right]; auto. rewrite IHForall.
  f_equal. lia.
Qed.

Lemma combined_labels_incl ops steps : incl (combined_labels ops steps) (concat ops).
Proof.
  intros c H. unfold combined_labels in H. apply nodup_In, in_flat_map in H as (n & _ & H).
  destruct n as [j|]; [|contradiction]. apply in_concat. exists (nth j ops []). split; auto.
  apply nth_In. destruct (Nat.lt_ge_cases j (length ops)); auto. rewrite nth_overflow in H; auto.
  contradiction.
Qed.

End Chosen.
