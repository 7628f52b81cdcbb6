(** Which message each rejected call gets. *)
From Verif Require Import Base NDArray Validation Spec BaseFacts ParserFacts ValidationFacts.
From Coq Require String.
From Coq Require Import Lia.
Import String.StringSyntax.
Local Open Scope string_scope.
Local Open Scope list_scope.

(** ** The output check *)

Lemma check_output_err inputs output order m : check_output inputs output order = Err m ->
  exists c, In c order
    /\ ((m = "Requested output has duplicate index" /\ 1 < count c output)
        \/ (m = "Requested output contains an index not found in inputs"
            /\ count c output <= 1 /\ ~ In c inputs)).
Proof.
  induction order as [|c order IH]; cbn [check_output]; [discriminate|].
  destruct (Nat.ltb_spec 1 (count c output)) as [H|H].
  - intros E. injection E as <-. exists c. split; [simpl; auto|]. left. auto.
  - destruct (mem c inputs) eqn:Em; cbn [negb].
    + intros E. destruct (IH E) as (d & Hd & Hx). exists d. split; [simpl; auto|auto].
    + intros E. injection E as <-. exists c. split; [simpl; auto|]. right. split; [reflexivity|].
      split; [lia|]. apply mem_false. auto.
Qed.

Lemma from_indices_messages h k ops out m : hash_ok h -> from_indices h k ops out = Err m ->
  exists c, In c out
    /\ ((m = "Requested output has duplicate index" /\ 1 < count_occ N.eq_dec out c)
        \/ (m = "Requested output contains an index not found in inputs"
            /\ count_occ N.eq_dec out c = 1 /\ ~ In c (concat ops))).
Proof.
  intros Hh. unfold from_indices.
  destruct (check_output (concat ops) out (h (0 :: k) (distinct out))) as [[]|m'|] eqn:E;
    cbn [rbind]; try discriminate.
  intros H. injection H as <-. apply check_output_err in E as (c & Hc & Hx).
  rewrite hash_In, distinct_In in Hc by auto. exists c. split; [exact Hc|].
  destruct Hx as [Hx|(-> & H1 & H2)]; [left; exact Hx|].
  right. split; [reflexivity|]. split; [|exact H2].
  change (count c out) with (count_occ N.eq_dec out c) in H1.
  apply (count_occ_In N.eq_dec) in Hc. lia.
Qed.

(** An iteration order that visits [c] first. *)
Definition first_hash (c : char) : hash_order := fun _ l =>
  filter (N.eqb c) l ++ filter (fun d => negb (N.eqb c d)) l.

Lemma first_hash_ok c : hash_ok (first_hash c).
Proof.
  intros k l. unfold first_hash. induction l as [|d l IH]; [constructor|]. cbn [filter].
  destruct (N.eqb c d); cbn [negb].
  - cbn [app]. constructor. exact IH.
  - apply Permutation_cons_app. exact IH.
Qed.

Lemma first_hash_head c k l : In c l -> exists l', first_hash c k l = c :: l'.
Proof.
  intros H. unfold first_hash.
  assert (Hf : In c (filter (N.eqb c) l)) by (apply filter_In; split; auto; apply N.eqb_refl).
  assert (Ha : forall d, In d (filter (N.eqb c) l) -> d = c).
  { intros d Hd. apply filter_In in Hd as [_ Hd]. apply N.eqb_eq in Hd. auto. }
  destruct (filter (N.eqb c) l) as [|d l']; [destruct Hf|].
  rewrite (Ha d) by (simpl; auto). eexists. reflexivity.
Qed.

Lemma dup_reachable (c : char) k (ops : list (list char)) (out : list char) : 1 < count_occ N.eq_dec out c ->
  from_indices (first_hash c) k ops out = Err "Requested output has duplicate index".
Proof.
  intros H. unfold from_indices.
  assert (Hc : In c (distinct out)) by (apply distinct_In, (count_occ_In N.eq_dec); lia).
  destruct (first_hash_head c (0 :: k) _ Hc) as (l & E). rewrite E. cbv zeta. cbn [check_output].
  change (count c out) with (count_occ N.eq_dec out c).
  destruct (Nat.ltb_spec 1 (count_occ N.eq_dec out c)); [reflexivity|lia].
Qed.

Lemma unknown_reachable (c : char) k (ops : list (list char)) (out : list char) : count_occ N.eq_dec out c = 1 -> ~ In c (concat ops) ->
  from_indices (first_hash c) k ops out
  = Err "Requested output contains an index not found in inputs".
Proof.
  intros H Hn. unfold from_indices.
  assert (Hc : In c (distinct out)) by (apply distinct_In, (count_occ_In N.eq_dec); lia).
  destruct (first_hash_head c (0 :: k) _ Hc) as (l & E). rewrite E. cbv zeta. cbn [check_output].
  change (count c out) with (count_occ N.eq_dec out c).
  destruct (Nat.ltb_spec 1 (count_occ N.eq_dec out c)); [lia|].
  rewrite (proj2 (mem_false _ _) Hn). reflexivity.
Qed.

(** ** The sizes *)

Definition consistent (ops : list (list char)) (shapes : list (list nat)) : Prop :=
  exists size, shapes_ok size ops shapes.

Lemma foldM_app {T U} (f : U -> T -> res U) l1 l2 : forall u,
  foldM f (l1 ++ l2) u = do v <- foldM f l1 u; foldM f l2 v.
Proof.
  induction l1 as [|x l1 IH]; intros u; cbn [app foldM]; [reflexivity|].
  destruct (f u x); cbn [rbind]; auto.
Qed.

Lemma foldM_err {T U} (f : U -> T -> res U) l m : forall u, foldM f l u = Err m ->
  exists l1 x l2 v, l = l1 ++ x :: l2 /\ foldM f l1 u = Ok v /\ f v x = Err m.
Proof.
  induction l as [|x l IH]; intros u; cbn [foldM]; [discriminate|].
  destruct (f u x) as [v|m'|] eqn:E; cbn [rbind]; try discriminate.
  - intros H. destruct (IH v H) as (l1 & y & l2 & w & -> & H1 & H2).
    exists (x :: l1), y, l2, w. split; [reflexivity|]. cbn [foldM]. rewrite E. auto.
  - intros H. injection H as <-. exists [], x, l, u. auto.
Qed.

Lemma add_axes_outcome l : forall m,
  (exists m', foldM add_axis l m = Ok m') \/ foldM add_axis l m = Err "repeated index with different size".
Proof.
  induction l as [|[c n] l IH]; intros m; cbn [foldM]; [eauto|].
  unfold add_axis at 1 3. destruct (lookup c m) as [e|]; cbn [rbind]; auto.
  destruct (Nat.eqb e n); cbn [rbind]; auto.
Qed.

Lemma combine_prefix {T U} (a : list T) (b : list U) l1 x l2 : length a = length b ->
  combine a b = l1 ++ x :: l2 ->
  nth_error a (length l1) = Some (fst x) /\ nth_error b (length l1) = Some (snd x)
  /\ combine (firstn (length l1) a) (firstn (length l1) b) = l1
  /\ combine (firstn (S (length l1)) a) (firstn (S (length l1)) b) = l1 ++ [x].
Proof.
  revert b l1; induction a as [|y a IH]; intros [|z b] l1 Hl E; try discriminate.
  { destruct l1; discriminate. }
  destruct l1 as [|w l1]; cbn [combine app] in E.
  - injection E as <- _. cbn. auto.
  - injection E as <- E. injection Hl as Hl. destruct (IH b l1 Hl E) as (H1 & H2 & H3 & H4).
    cbn [length nth_error]. split; [auto|]. split; [auto|].
    cbn [firstn combine app]. cbn [firstn] in H3, H4. rewrite H3. split; [reflexivity|].
    destruct a as [|y' a]; [destruct l1; discriminate|].
    destruct b as [|z' b]; [discriminate|]. cbn [combine] in H4 |- *. rewrite H4. reflexivity.
Qed.

Lemma combine_at {T U} (a : list T) (b : list U) i x y :
  nth_error a i = Some x -> nth_error b i = Some y ->
  combine a b = combine (firstn i a) (firstn i b) ++ (x, y) :: combine (skipn (S i) a) (skipn (S i) b).
Proof.
  revert b i; induction a as [|u a IH]; intros [|v b] [|i] H1 H2; try discriminate.
  - injection H1 as ->. injection H2 as ->. reflexivity.
  - cbn [combine firstn app skipn]. f_equal. apply (IH b i); auto.
Qed.

Lemma firstn_same {T U} (a : list T) (b : list U) i : length a = length b ->
  length (firstn i a) = length (firstn i b).
Proof. intros H. rewrite !firstn_length, H. reflexivity. Qed.

Lemma consistent_run ops shapes : length ops = length shapes ->
  (consistent ops shapes <-> exists m, foldM add_operand (combine ops shapes) [] = Ok m).
Proof.
  intros Hl. split.
  - intros (size & Hs). destruct (add_operands_ok size ops shapes [] [] Hs) as (m & E & _); [intros c; reflexivity|].
    eauto.
  - intros (m & E). destruct (add_operands_inv ops shapes [] m Hl E) as [_ H]. exists (default_size m). auto.
Qed.

Lemma sizes_messages c shapes m : output_size_from c shapes = Err m ->
  (m = "number of operands in contraction does not match number of operands supplied"
   /\ length (operand_indices c) <> length shapes)
  \/ (length (operand_indices c) = length shapes
      /\ exists i ix sh, nth_error (operand_indices c) i = Some ix /\ nth_error shapes i = Some sh
        /\ consistent (firstn i (operand_indices c)) (firstn i shapes)
        /\ ((m = "number of indices in one or more operands does not match dimensions of operand"
             /\ length ix <> length sh)
            \/ (m = "repeated index with different size" /\ length ix = length sh
                /\ ~ consistent (firstn (S i) (operand_indices c)) (firstn (S i) shapes)))).
Proof.
  unfold output_size_from. destruct (Nat.eqb_spec (length (operand_indices c)) (length shapes)) as [Hl|Hl].
  - intros E. right. split; [exact Hl|].
    destruct (foldM_err _ _ _ _ E) as (l1 & [ix sh] & l2 & v & Ec & E1 & E2).
    destruct (combine_prefix _ _ _ _ _ Hl Ec) as (H1 & H2 & H3 & H4).
    exists (length l1), ix, sh. split; [exact H1|]. split; [exact H2|].
    split.
    { apply consistent_run; [apply firstn_same; auto|]. rewrite H3. eauto. }
    unfold add_operand in E2. destruct (Nat.eqb_spec (length ix) (length sh)) as [Hr|Hr].
    + right. destruct (add_axes_outcome (combine ix sh) v) as [(m' & E')|E']; [congruence|].
      split; [congruence|]. split; [exact Hr|].
      intros Hc. apply consistent_run in Hc as (w & Ew); [|apply firstn_same; auto].
      rewrite H4, foldM_app, E1 in Ew. cbn [rbind foldM] in Ew. unfold add_operand in Ew.
      rewrite (proj2 (Nat.eqb_eq _ _) Hr), E' in Ew. discriminate.
    + left. split; [injection E2 as <-; reflexivity|exact Hr].
  - intros E. left. split; [injection E as <-; reflexivity|exact Hl].
Qed.

Lemma count_message c shapes : length (operand_indices c) <> length shapes ->
  output_size_from c shapes
  = Err "number of operands in contraction does not match number of operands supplied".
Proof.
  intros H. unfold output_size_from. rewrite (proj2 (Nat.eqb_neq _ _) H). reflexivity.
Qed.

Lemma rank_message c shapes i ix sh : length (operand_indices c) = length shapes ->
  nth_error (operand_indices c) i = Some ix -> nth_error shapes i = Some sh ->
  consistent (firstn i (operand_indices c)) (firstn i shapes) -> length ix <> length sh ->
  output_size_from c shapes
  = Err "number of indices in one or more operands does not match dimensions of operand".
Proof.
  intros Hl H1 H2 Hc Hr. unfold output_size_from. rewrite (proj2 (Nat.eqb_eq _ _) Hl).
  rewrite (combine_at _ _ _ _ _ H1 H2), foldM_app.
  apply consistent_run in Hc as (m & E); [|apply firstn_same; auto]. rewrite E. cbn [rbind foldM].
  unfold add_operand at 1. rewrite (proj2 (Nat.eqb_neq _ _) Hr). reflexivity.
Qed.

Lemma size_message c shapes i ix sh : length (operand_indices c) = length shapes ->
  nth_error (operand_indices c) i = Some ix -> nth_error shapes i = Some sh ->
  consistent (firstn i (operand_indices c)) (firstn i shapes) -> length ix = length sh ->
  ~ consistent (firstn (S i) (operand_indices c)) (firstn (S i) shapes) ->
  output_size_from c shapes = Err "repeated index with different size".
Proof.
  intros Hl H1 H2 Hc Hr Hn. unfold output_size_from. rewrite (proj2 (Nat.eqb_eq _ _) Hl).
  pose proof (combine_at _ _ _ _ _ H1 H2) as Ec.
  assert (Hi : length (combine (firstn i (operand_indices c)) (firstn i shapes)) = i).
  { rewrite combine_length, !firstn_length.
    assert (i < length (operand_indices c)) by (apply nth_error_Some; congruence). lia. }
  destruct (combine_prefix _ _ _ _ _ Hl Ec) as (_ & _ & _ & H4). rewrite Hi in H4.
  rewrite Ec, foldM_app.
  apply consistent_run in Hc as (m & E); [|apply firstn_same; auto]. rewrite E. cbn [rbind foldM].
  unfold add_operand at 1. rewrite (proj2 (Nat.eqb_eq _ _) Hr).
  destruct (add_axes_outcome (combine ix sh) m) as [(m' & E')|E']; rewrite E'; [|reflexivity].
  exfalso. apply Hn. apply consistent_run; [apply firstn_same; auto|].
  exists m'. rewrite H4, foldM_app, E. cbn [rbind foldM]. unfold add_operand.
  rewrite (proj2 (Nat.eqb_eq _ _) Hr), E'. reflexivity.
Qed.
