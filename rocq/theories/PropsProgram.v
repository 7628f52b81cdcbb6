(** Contraction orders as straight-line programs (C55). [EinsumPath::from_path] and [contract_operands] take
    any list of pair steps: results may be used several times or dropped, and a label may have a different
    length in every step. *)
From Verif Require Import Base BaseFacts NDArray Validation Optimizers Strategies Singleton Pair Path
  Api Spec ValidationFacts SumFacts ArrayFacts PairMain PathFacts EinsumMain EinsumProps MisuseFacts HandFacts OrderFacts
  CompileFacts ProgramFacts AlgebraFacts Examples.
From Coq Require Import Lia Ring.
From Coq Require String.
Import String.StringSyntax.
Local Open Scope string_scope.
Local Open Scope list_scope.

(** [refers], [steps_fit], [step_ends] and [dangling] are the specification, in ProgramFacts.v. *)

(** ** Each step is an Einstein sum of its own *)

(** The steps run one after another. Each computes the Einstein sum of the two arrays it refers to, in its
    own labels and lengths. The last result is returned; or a step is blocked (C08), and the run panics. *)
Theorem orders_run_step_by_step :
  forall (A : Type) (Sc : Scalar A), semiring A ->
  forall h k lay steps p (arrays : list (arr A)), hash_ok h -> backend_ok lay ->
    from_path h k (Pairs steps) = Ok p -> Forall wf arrays -> steps <> [] ->
    steps_fit (map (@a_shape A) arrays) [] steps ->
    exists rs,
      (forall i x, nth_error rs i = Some x ->
         exists st, nth_error steps i = Some st /\ step_ends arrays (firstn i rs) st (Ok x))
      /\ ((length rs = length steps
           /\ exists x, contract_operands lay p arrays = Ok x /\ nth_error rs (length steps - 1) = Some x)
          \/ (contract_operands lay p arrays = Panic
              /\ exists st, nth_error steps (length rs) = Some st /\ step_ends arrays rs st Panic)).
Proof.
  intros A Sc SR h k lay steps p arrays Hh Hl Ep Hw Hne Hf. cbn [from_path] in Ep.
  destruct (mapM _ _) as [pcs|?|] eqn:Em; cbn [rbind] in Ep; try discriminate. injection Ep as <-.
  destruct (mapM_steps _ _ _ _ Em) as [H1 H2]. cbn [fst snd] in H2.
  unfold contract_operands. cbn [path_steps path_order].
  destruct (steps_run h lay SR Hh Hl arrays Hw steps pcs [] (Forall_nil _) H1) as (rs & R1 & R2); auto.
  { intros i st p E1 E2. specialize (H2 i st p E1 E2). eauto. }
  exists rs. split; [exact R1|]. cbn [app] in R2.
  destruct R2 as [[R2 R3]|(R2 & R3)]; [left|right].
  - split; auto. rewrite R3. cbn [rbind]. unfold pop_last. rewrite R2.
    destruct (nth_error rs (length steps - 1)) as [x|] eqn:E; [exists x; auto|].
    apply nth_error_None in E. destruct steps; [congruence|simpl in *; lia].
  - rewrite R2. auto.
Qed.
Print Assumptions orders_run_step_by_step.

(** ** What does not run *)

(** An order without steps panics, and so does one with a step that refers to an operand that is not
    there or to the result of itself or a later step; whatever the operands. *)
Theorem dangling_orders_panic :
  forall (A : Type) (Sc : Scalar A) h k lay steps p (arrays : list (arr A)),
    from_path h k (Pairs steps) = Ok p ->
    steps = []
    \/ (exists i st, nth_error steps i = Some st
          /\ (dangling (length arrays) i (ps_lhs st) \/ dangling (length arrays) i (ps_rhs st))) ->
    contract_operands lay p arrays = Panic.
Proof.
  intros A Sc h k lay steps p arrays Ep Hd. cbn [from_path] in Ep.
  destruct (mapM _ _) as [pcs|?|] eqn:Em; cbn [rbind] in Ep; try discriminate. injection Ep as <-.
  destruct (mapM_steps _ _ _ _ Em) as [H1 _].
  unfold contract_operands. cbn [path_steps path_order]. destruct Hd as [->|(i & st & E & Hd)].
  - destruct pcs; [|discriminate H1]. reflexivity.
  - rewrite (dangling_steps lay arrays steps pcs [] i st H1 E Hd). reflexivity.
Qed.
Print Assumptions dangling_orders_panic.

(** ** The orders of C45 *)

Lemma pool_fits size out shapes i pool steps : contracts size out i pool steps -> forall results,
  length results = i ->
  (forall n l, In (n, l) pool -> refers shapes results n = Some (map size l)) ->
  steps_fit shapes results steps.
Proof.
  assert (Sz : forall sc l r o c, sized sc [l; r] o size -> In c (l ++ r) -> default_size (sc_output_size sc) c = size c).
  { intros sc l r o c (_ & _ & H) Hc. unfold default_size. rewrite H. simpl. rewrite app_nil_r.
    rewrite (proj2 (mem_In _ _) Hc). auto. }
  assert (Fit : forall sc n1 n2 l r o, sized sc [l; r] o size ->
     shapes_ok (step_size (mkPair sc n1 n2)) [l; r] [map size l; map size r]
     /\ map (step_size (mkPair sc n1 n2)) (step_output (mkPair sc n1 n2)) = map size o
     /\ operand_indices (sc_contraction sc) = [l; r]).
  { intros sc n1 n2 l r o HS. unfold step_size, step_output. cbn [ps_sc].
    pose proof HS as (Ec & [Hn Hi] & _). rewrite Ec. cbn [contraction_of operand_indices output_indices].
    split; [|split; [|reflexivity]].
    - repeat constructor; symmetry; apply map_ext_in; intros c Hc; eapply Sz; eauto; apply in_or_app; auto.
    - apply map_ext_in. intros c Hc. eapply Sz; eauto. simpl in Hi. rewrite app_nil_r in Hi. auto. }
  induction 1 as [i pool n1 l n2 r sc Hp HS|i pool n1 l n2 r rest sc o steps Hp HS HL Hch IH]; intros results Hi Hr;
    destruct (Fit sc n1 n2 l r _ HS) as (F1 & F2 & F3); cbn [steps_fit ps_sc ps_lhs ps_rhs];
    (split; [exists l, r, (map size l), (map size r); split; [exact F3|]; split;
             [apply Hr; eapply Permutation_in; [apply Permutation_sym; exact Hp|simpl; auto]|];
             split; [apply Hr; eapply Permutation_in; [apply Permutation_sym; exact Hp|simpl; auto]|exact F1]|]).
  - exact I.
  - apply IH; [rewrite app_length; simpl; lia|]. rewrite F2. intros n l' Hin. apply in_app_iff in Hin.
    destruct Hin as [Hin|[E|[]]].
    + assert (E : refers shapes results n = Some (map size l')).
      { apply Hr. eapply Permutation_in; [apply Permutation_sym; exact Hp|]. simpl. auto. }
      destruct n as [j|j]; simpl in *; auto. rewrite nth_error_app1; auto.
      apply nth_error_Some. congruence.
    + injection E as <- <-. simpl. rewrite nth_error_app2 by lia. rewrite Hi, Nat.sub_diag. reflexivity.
Qed.

(** The valid orders are among those of which [orders_run_step_by_step] speaks. *)
Theorem valid_orders_fit :
  forall size ops out steps shapes, valid_order size ops out (Pairs steps) -> shapes_ok size ops shapes ->
    steps <> [] /\ steps_fit shapes [] steps.
Proof.
  intros size ops out steps shapes Hv Hs. cbn [valid_order] in Hv. split; [inversion Hv; discriminate|].
  eapply pool_fits; [exact Hv|reflexivity|]. intros n l Hin. unfold inputs in Hin.
  apply In_nth_error in Hin as (m & Hm).
  assert (H : forall (l1 : list operand_number) (l2 : list (list char)) m n l,
            nth_error (combine l1 l2) m = Some (n, l) -> nth_error l1 m = Some n /\ nth_error l2 m = Some l).
  { induction l1 as [|x l1 IH]; intros [|y l2] [|m'] n' l' E; simpl in *; try discriminate; auto.
    injection E as <- <-. auto. }
  apply H in Hm as [H1 H2]. rewrite nth_error_map in H1.
  destruct (nth_error (seq 0 (length ops)) m) as [j|] eqn:E; [|discriminate]. injection H1 as <-.
  assert (Hj : j = m).
  { assert (Hlt : m < length ops) by (apply nth_error_Some; congruence).
    rewrite (nth_error_nth' _ 0) in E by (rewrite seq_length; auto). rewrite seq_nth in E by auto. simpl in E. congruence. }
  subst j. simpl. clear -Hs H2. revert m H2. unfold shapes_ok in Hs.
  induction Hs as [|ix sh ixs shs E Hs IH]; intros [|m] H2; simpl in *; try discriminate; auto.
  injection H2 as ->. congruence.
Qed.
Print Assumptions valid_orders_fit.

(** ** Repeated squaring *)

(** [2^n]-fold matrix powers take [n] steps, each the square of the result before. *)
Definition square (d : nat) : sized_contraction :=
  mkSized (mkContraction [chars "ij"; chars "jk"] (chars "ik") (chars "j"))
    [(105%N, d); (106%N, d); (107%N, d)].

Definition squarings (d n : nat) : list pair_step :=
  mkPair (square d) (Input 0) (Input 0)
  :: map (fun i => mkPair (square d) (IntermediateResult i) (IntermediateResult i)) (seq 0 n).

(** The elements of the [n]th power of a [d] by [d] matrix. *)
Fixpoint matrix_power {A} {Sc : Scalar A} (d : nat) (m : nat -> nat -> A) (n : nat) (i j : nat) : A :=
  match n with
  | 0 => if Nat.eqb i j then sone else szero
  | Datatypes.S n' => sum_n d (fun k => smul (m i k) (matrix_power d m n' k j))
  end.

Section Powers.
Context {A : Type} {Sc : Scalar A}.
Hypothesis SR : semiring A.
Let SR' : semi_ring_theory szero sone sadd smul (@eq A) := SR.
Add Ring Aring : SR'.

Lemma sum_n_pick n i (f : nat -> A) : i < n ->
  sum_n n (fun k => smul (if Nat.eqb i k then sone else szero) (f k)) = f i.
Proof.
  intros Hi. induction n as [|n IH]; [lia|]. simpl. destruct (Nat.eqb_spec i n) as [->|Hn].
  - rewrite sum_n_zero_ext; [ring|exact SR|]. intros k Hk. destruct (Nat.eqb_spec n k); [lia|ring].
  - rewrite IH by lia. ring.
Qed.

Lemma matrix_power_add d (m : nat -> nat -> A) a b i j : i < d ->
  sum_n d (fun k => smul (matrix_power d m a i k) (matrix_power d m b k j)) = matrix_power d m (a + b) i j.
Proof.
  revert i. induction a as [|a IH]; intros i Hi; simpl.
  - apply (sum_n_pick d i (fun k => matrix_power d m b k j) Hi).
  - transitivity (sum_n d (fun k => sum_n d (fun l => smul (m i l) (smul (matrix_power d m a l k) (matrix_power d m b k j))))).
    { apply sum_n_ext. intros k Hk.
      transitivity (smul (matrix_power d m b k j) (sum_n d (fun l => smul (m i l) (matrix_power d m a l k)))); [ring|].
      rewrite <- (sum_n_mul_l SR) by (left; intros; ring). apply sum_n_ext. intros l Hl. ring. }
    rewrite (sum_n_swap SR). apply sum_n_ext. intros l Hl. rewrite <- (IH l Hl).
    rewrite <- (sum_n_mul_l SR) by (left; intros; ring). reflexivity.
Qed.

End Powers.

Lemma square_nth d n i st : nth_error (squarings d n) i = Some st ->
  st = mkPair (square d) (match i with 0 => Input 0 | Datatypes.S i' => IntermediateResult i' end)
         (match i with 0 => Input 0 | Datatypes.S i' => IntermediateResult i' end) /\ i <= n.
Proof.
  destruct i as [|i]; simpl; intros E; [injection E as <-; split; [reflexivity|lia]|].
  rewrite nth_error_map in E. destruct (nth_error (seq 0 n) i) as [j|] eqn:Ej; [|discriminate]. injection E as <-.
  assert (Hlt : i < n) by (rewrite <- (seq_length n 0); apply nth_error_Some; congruence).
  rewrite (nth_error_nth' _ 0) in Ej by (rewrite seq_length; auto).
  rewrite seq_nth in Ej by auto. assert (j = i) by (simpl in Ej; congruence). subst. split; [reflexivity|lia].
Qed.

Lemma square_complete d : complete (square d).
Proof.
  split; [discriminate|]. split.
  - split; [apply nodup_b_ok; reflexivity|]. intros c Hc. simpl in *. tauto.
  - intros c Hc. simpl in Hc. repeat (destruct Hc as [<-|Hc]; [discriminate|]). destruct Hc.
Qed.

Lemma squarings_fit d n shapes : nth_error shapes 0 = Some [d; d] -> steps_fit shapes [] (squarings d n).
Proof.
  intros Hs. unfold squarings. cbn [steps_fit]. split.
  - exists (chars "ij"), (chars "jk"), [d; d], [d; d]. cbn [ps_sc ps_lhs ps_rhs refers]. split; [reflexivity|].
    split; auto. split; auto. repeat constructor.
  - cbn [app]. change (map _ _) with [d; d] at 1.
    assert (H : forall m s, s <= m + s -> steps_fit shapes (repeat [d; d] (Datatypes.S s))
              (map (fun i => mkPair (square d) (IntermediateResult i) (IntermediateResult i)) (seq s m))).
    { induction m as [|m IH]; intros s _; cbn [seq map steps_fit]; auto. split.
      - exists (chars "ij"), (chars "jk"), [d; d], [d; d]. cbn [ps_sc ps_lhs ps_rhs refers].
        split; [reflexivity|].
        assert (E : nth_error (repeat [d; d] (Datatypes.S s)) s = Some [d; d]).
        { rewrite (nth_error_nth' _ [d; d]) by (rewrite repeat_length; lia). f_equal. apply nth_repeat. }
        split; auto. split; auto. repeat constructor.
      - change (map (step_size _) _) with [d; d]. rewrite <- repeat_cons. apply IH. lia. }
    apply (H n 0). lia.
Qed.

Theorem squarings_compute_powers :
  forall (A : Type) (Sc : Scalar A), semiring A ->
  forall h k lay d n (m : arr A), hash_ok h -> backend_ok lay -> wf m -> a_shape m = [d; d] ->
    exists p r, from_path h k (Pairs (squarings d n)) = Ok p /\ contract_operands lay p [m] = Ok r
      /\ holds r [d; d] (fun o => matrix_power d (fun i j => elem m [i; j]) (2 ^ Datatypes.S n) (nth 0 o 0) (nth 1 o 0)).
Proof.
  intros A Sc SR h k lay d n m Hh Hl Wm Sm.
  assert (Hcomp : exists p, from_path h k (Pairs (squarings d n)) = Ok p).
  { cbn [from_path].
    destruct (mapM_all_ok (fun ist => pair_contraction_new h (fst ist :: 9 :: k) (ps_sc (snd ist)))
                (combine (seq 0 (length (squarings d n))) (squarings d n))) as (l & ->).
    - intros [i st] Hin. apply in_combine_r, In_nth_error in Hin as (j & Hj). apply square_nth in Hj as [-> _].
      cbn [fst snd ps_sc]. apply (pair_compiles_exact h _ (square d) Hh). split; [reflexivity|apply square_complete].
    - cbn [rbind]. eauto. }
  destruct Hcomp as (p & Ep). exists p.
  destruct (orders_run_step_by_step A Sc SR h k lay (squarings d n) p [m] Hh Hl Ep) as (rs & R1 & R2);
    [constructor; auto|discriminate|apply squarings_fit; simpl; congruence|].
  set (el := fun i j => elem m [i; j]).
  assert (Hstep : forall results i st x, nth_error (squarings d n) i = Some st -> step_ends [m] results st x ->
            exists a r, refers [m] results (ps_lhs st) = Some a /\ x = Ok r
              /\ holds r [d; d] (fun o => sum_n d (fun k => smul (elem a [nth 0 o 0; k]) (elem a [k; nth 1 o 0])))).
  { intros results i st x Hst (l & r & a & b & Eo & Ea & Eb & Ho). apply square_nth in Hst as [-> _].
    cbn [ps_sc ps_lhs ps_rhs square sc_contraction operand_indices] in *. injection Eo as <- <-.
    assert (b = a) by congruence. subst b. exists a. destruct Ho as [[_ Hb]|(_ & y & -> & Hy)].
    - destruct Hb as (pre & a' & ix & post & Ez & Hn & _). exfalso. apply Hn.
      assert (Hin : In ix [chars "ij"; chars "jk"]).
      { change [chars "ij"; chars "jk"] with (map snd (combine [a; a] [chars "ij"; chars "jk"])).
        rewrite Ez, map_app. apply in_or_app. right. left. reflexivity. }
      destruct Hin as [<-|[<-|[]]]; apply nodup_b_ok; reflexivity.
    - exists y. split; [auto|]. split; [reflexivity|].
      change (map (step_size _) (step_output _)) with [d; d] in Hy.
      eapply AlgebraFacts.holds_ext_in; [|exact Hy]. intros o Ho.
      repeat (destruct o as [|? o]; simpl in Ho; rewrite ?andb_false_r in Ho; try discriminate).
      unfold einsum_value, term, product. simpl. cbv [upd N.eqb Pos.eqb].
      change (step_size _ 106%N) with d. apply sum_n_ext. intros j _.
      rewrite (mul_1_r SR). reflexivity. }
  assert (Hpow : forall i x, nth_error rs i = Some x ->
            holds x [d; d] (fun o => matrix_power d el (2 ^ Datatypes.S i) (nth 0 o 0) (nth 1 o 0))).
  { induction i as [|i IH]; intros x Hx; destruct (R1 _ x Hx) as (st & Hst & He);
      destruct (Hstep _ _ _ _ Hst He) as (a & r & Ea & Er & Hr); injection Er as <-;
      apply square_nth in Hst as [-> _]; cbn [ps_lhs refers] in Ea.
    - simpl in Ea. injection Ea as <-.
      eapply AlgebraFacts.holds_ext_in; [|exact Hr]. intros o Ho.
      destruct o as [|i [|j [|? ?]]]; simpl in Ho; rewrite ?andb_false_r in Ho; try discriminate.
      apply andb_true_iff in Ho as [Hi Hj]. rewrite andb_true_r in Hj. apply Nat.ltb_lt in Hi, Hj.
      cbn [nth]. change (2 ^ 1) with (1 + 1). rewrite <- (matrix_power_add SR) by auto.
      assert (E1 : forall i j, j < d -> matrix_power d el 1 i j = el i j).
      { intros i' j' Hj'. simpl.
        rewrite <- (sum_n_pick SR d j' (fun k => el i' k) Hj'). apply sum_n_ext. intros k' Hk'.
        rewrite (Nat.eqb_sym k' j'). apply (ns_mul_comm SR). }
      apply sum_n_ext. intros k' Hk'. rewrite !E1 by auto. reflexivity.
    - assert (Hi : i < Datatypes.S i) by lia.
      assert (Eai : nth_error rs i = Some a).
      { rewrite <- Ea. symmetry. clear - rs. generalize (Nat.lt_succ_diag_r i). generalize (Datatypes.S i). intros s Hi.
        revert rs s Hi. induction i as [|i IH]; intros [|y rs] [|s] Hi; simpl; auto; try lia. apply IH. lia. }
      specialize (IH a Eai). eapply AlgebraFacts.holds_ext_in; [|exact Hr]. intros o Ho.
      destruct o as [|i' [|j' [|? ?]]]; simpl in Ho; rewrite ?andb_false_r in Ho; try discriminate.
      apply andb_true_iff in Ho as [Hi' Hj']. rewrite andb_true_r in Hj'.
      cbn [nth]. replace (2 ^ Datatypes.S (Datatypes.S i)) with (2 ^ Datatypes.S i + 2 ^ Datatypes.S i) by (simpl; lia).
      apply Nat.ltb_lt in Hi'. rewrite <- (matrix_power_add SR) by auto.
      apply sum_n_ext. intros k' Hk'.
      rewrite !(holds_elem _ _ _ _ IH); [reflexivity| |]; simpl;
        rewrite ?andb_true_r, ?andb_true_iff, ?Nat.ltb_lt; rewrite ?Nat.ltb_lt in Hj'; auto. }
  destruct R2 as [[R2 (x & Ex & Hx)]|(_ & st & Hst & He)].
  - exists x. split; auto. split; auto.
    replace (Datatypes.S n) with (Datatypes.S (length (squarings d n) - 1))
      by (unfold squarings; simpl; rewrite map_length, seq_length; lia).
    apply Hpow. exact Hx.
  - destruct (Hstep _ _ _ _ Hst He) as (a & r & _ & Er & _). discriminate.
Qed.
Print Assumptions squarings_compute_powers.

(** The eighth power of the Fibonacci matrix, in three steps. *)
Example squarings_case :
  (do p <- from_path rev_hash [] (Pairs (squarings 2 2));
   do r <- contract_operands c_backend p [zarr [2; 2] [1; 1; 1; 0]%Z]; a_iter r) = Ok [34; 21; 21; 13]%Z.
Proof. vm_compute. reflexivity. Qed.

(** A result used twice, another one dropped, and a label of length 2 in one step and 3 in the next. *)
Definition reuse_steps : list pair_step :=
  let sc c := mkSized c [(105%N, 2); (106%N, 3)] in
  let sc' c := mkSized c [(105%N, 3); (106%N, 3)] in
  [mkPair (sc (mkContraction [chars "i"; chars "j"] (chars "ij") [])) (Input 0) (Input 1);
   mkPair (sc (mkContraction [chars "ij"; chars "i"] (chars "j") [])) (IntermediateResult 0) (Input 0);
   mkPair (sc' (mkContraction [chars "i"; chars "j"] (chars "ij") [])) (Input 1) (Input 1);
   mkPair (sc' (mkContraction [chars "i"; chars "i"] (chars "i") [])) (IntermediateResult 1) (IntermediateResult 1)].

Example reuse_case :
  steps_fit [[2]; [3]] [] reuse_steps
  /\ (do p <- from_path rev_hash [] (Pairs reuse_steps);
      do r <- contract_operands c_backend p [zarr [2] [1; 2]%Z; zarr [3] [1; 0; -1]%Z]; a_iter r) = Ok [25; 0; 25]%Z.
Proof.
  split; [|vm_compute; reflexivity].
  cbn [reuse_steps steps_fit].
  repeat (split; [do 4 eexists; split; [reflexivity|]; split; [vm_compute; reflexivity|];
                  split; [vm_compute; reflexivity|]; repeat constructor|]). exact I.
Qed.

Example dangling_case :
  exists p, from_path rev_hash []
    (Pairs [mkPair (mkSized (mkContraction [chars "i"; chars "i"] [] []) [(105%N, 2)]) (Input 0) (IntermediateResult 0)]) = Ok p
    /\ contract_operands c_backend p [zarr [2] [1; 2]%Z] = Panic.
Proof. eexists. split; [vm_compute; reflexivity|]. vm_compute. reflexivity. Qed.

(** The lengths a compiled step records should be checked when it runs; they are not (C51): here a label of
    recorded length 3 meets operands of length 2. *)
Theorem steps_check_lengths_refuted :
  ~ (forall h k steps p (arrays : list (arr Z)), hash_ok h -> from_path h k (Pairs steps) = Ok p -> Forall wf arrays ->
       ~ steps_fit (map (@a_shape Z) arrays) [] steps -> contract_operands c_backend p arrays = Panic).
Proof.
  intros H.
  set (steps := [mkPair (mkSized (mkContraction [chars "i"; chars "i"] (chars "i") []) [(105%N, 3)]) (Input 0) (Input 0)]).
  destruct (from_path id_hash [] (Pairs steps)) as [p|?|] eqn:E; [|vm_compute in E; discriminate E|vm_compute in E; discriminate E].
  assert (Hp : contract_operands c_backend p [zarr [2] [1; 2]%Z] = Panic).
  { apply (H id_hash [] steps p); auto.
    - apply id_hash_ok'.
    - apply wfs_b_ok; reflexivity.
    - intros ((l & r & sl & sr & E1 & E2 & E3 & Hs) & _). injection E1 as <- <-. injection E2 as <-.
      inversion Hs as [|? ? ? ? Hx _]. vm_compute in Hx. discriminate Hx. }
  vm_compute in E. injection E as <-. vm_compute in Hp. discriminate Hp.
Qed.
Print Assumptions steps_check_lengths_refuted.
