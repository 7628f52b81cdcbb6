(** Relations that depend on an operand's grade, along a whole call (C62). *)
From Verif Require Import Base BaseFacts NDArray Validation Optimizers Strategies Singleton Pair Path Api Spec ParserFacts ValidationMain ValidationFacts
  RelationFacts PathFacts OrderFacts EinsumMain AlgebraFacts ParamFacts Schedule RoundFacts.
From Coq Require Import Lia Permutation.

(** Grades that can be combined in any order. *)
Record grade_monoid {G : Type} (op : G -> G -> G) (e : G) : Prop := {
  grade_assoc : forall a b c, op a (op b c) = op (op a b) c;
  grade_comm : forall a b, op a b = op b a;
  grade_unit : forall a, op a e = a
}.

(** The constants and operations respect the grades: sums keep the grade of their terms, products combine
    those of their factors, one has the neutral grade and zero has every grade. *)
Record respects_grades {A B G : Type} {Sa : Scalar A} {Sb : Scalar B} (op : G -> G -> G) (e : G)
    (R : G -> A -> B -> Prop) (fma : A -> A -> A -> A) (fma' : B -> B -> B -> B) : Prop := {
  rg_zero : forall g, R g szero szero;
  rg_one : R e sone sone;
  rg_add : forall g x x' y y', R g x x' -> R g y y' -> R g (sadd x y) (sadd x' y');
  rg_mul : forall g h x x' y y', R g x x' -> R h y y' -> R (op g h) (smul x y) (smul x' y');
  rg_fma : forall g h x x' y y' z z', R g x x' -> R h y y' -> R (op g h) z z' ->
    R (op g h) (fma x y z) (fma' x' y' z')
}.

(** Whatever the scalars, a schedule's sums contain every term once. *)
Definition adds_every_term (sch : schedule) : Prop :=
  forall (T : Type) (St : Scalar T) fma, backend_runs (@follow T St sch fma).

(** ** Grades along an order *)

Lemma map_fst_combine {T U} (l : list T) (l' : list U) : length l = length l' -> map fst (combine l l') = l.
Proof. revert l'. induction l; intros [|u l'] E; try discriminate; simpl; auto. f_equal; auto. Qed.

Section Order.
Context {G : Type}.
Variables (op : G -> G -> G) (e : G).
Hypothesis HG : grade_monoid op e.

Definition total (gs : list G) : G := fold_right op e gs.

Lemma total_perm l l' : Permutation l l' -> total l = total l'.
Proof.
  induction 1; simpl; auto; try congruence.
  rewrite !(grade_assoc _ _ HG). f_equal. apply (grade_comm _ _ HG).
Qed.

Lemma total_app l l' : total (l ++ l') = op (total l) (total l').
Proof.
  induction l; simpl.
  - rewrite (grade_comm _ _ HG), (grade_unit _ _ HG). auto.
  - rewrite IHl. apply (grade_assoc _ _ HG).
Qed.

Definition grade_or (gs ints : list G) (n : operand_number) : G :=
  match fetch_grade gs ints n with Ok g => g | _ => e end.

Definition earlier (i : nat) (n : operand_number) : Prop :=
  match n with Input _ => True | IntermediateResult k => k < i end.

Lemma grade_or_app gs ints ints' n : earlier (length ints) n -> grade_or gs (ints ++ ints') n = grade_or gs ints n.
Proof.
  destruct n as [k|k]; simpl; auto. intros H. unfold grade_or. cbn [fetch_grade]. unfold index. rewrite nth_error_app1; auto.
Qed.

Lemma contracts_grade size out gs i pool steps : contracts size out i pool steps -> forall ints gl,
  length ints = i -> Forall (fun p => earlier i (fst p)) pool -> foldM (step_grade op gs) steps ints = Ok gl ->
  unwrap (pop_last gl) = Ok (total (map (fun p => grade_or gs ints (fst p)) pool)).
Proof.
  induction 1 as [i pool n1 l n2 r sc Hp HS|i pool n1 l n2 r rest sc o steps Hp HS Hk Hc IH]; intros ints gl Hi He E.
  - cbn [foldM] in E. apply rbind_ok in E as (gl' & E1 & E2). injection E2 as <-.
    unfold step_grade in E1. cbn [ps_lhs ps_rhs] in E1.
    apply rbind_ok in E1 as (g & Eg & E1). apply rbind_ok in E1 as (g' & Eg' & E1). injection E1 as <-.
    unfold pop_last. rewrite app_length, nth_error_app2 by (cbn [length]; lia). cbn [length].
    replace (length ints + 1 - 1 - length ints) with 0 by lia. cbn [nth_error unwrap].
    rewrite (total_perm _ _ (Permutation_map _ Hp)). cbn [map fst total fold_right]. unfold grade_or. rewrite Eg, Eg'.
    rewrite (grade_unit _ _ HG). auto.
  - cbn [foldM] in E. apply rbind_ok in E as (ints' & E1 & E2).
    unfold step_grade in E1. cbn [ps_lhs ps_rhs] in E1.
    apply rbind_ok in E1 as (g & Eg & E1). apply rbind_ok in E1 as (g' & Eg' & E1). injection E1 as <-.
    assert (He' : Forall (fun p => earlier i (fst p)) ((n1, l) :: (n2, r) :: rest)).
    { rewrite Forall_forall in *. intros x Hx. apply He. eapply Permutation_in; [apply Permutation_sym; exact Hp|auto]. }
    inversion_clear He' as [|? ? _ He2]. inversion_clear He2 as [|? ? _ He3].
    rewrite (IH (ints ++ [op g g']) gl); auto.
    + f_equal. rewrite (total_perm _ _ (Permutation_map _ Hp)), map_app, total_app. cbn [map fst].
      cbn [total fold_right]. fold (total (map (fun p => grade_or gs ints (fst p)) rest)).
      rewrite (grade_unit _ _ HG).
      assert (E3 : grade_or gs (ints ++ [op g g']) (IntermediateResult i) = op g g').
      { unfold grade_or. cbn [fetch_grade]. unfold index. rewrite nth_error_app2 by lia. rewrite Hi, Nat.sub_diag. auto. }
      rewrite E3. replace (grade_or gs ints n1) with g by (unfold grade_or; rewrite Eg; auto).
      replace (grade_or gs ints n2) with g' by (unfold grade_or; rewrite Eg'; auto).
      rewrite (grade_assoc _ _ HG g g'), (grade_comm _ _ HG (op g g')). f_equal. f_equal.
      apply map_ext_in. intros p Hpp. apply grade_or_app. rewrite Forall_forall in He3. rewrite Hi. apply He3. auto.
    + rewrite app_length. simpl. lia.
    + apply Forall_app. split; [|repeat constructor; simpl; lia].
      eapply Forall_impl; [|exact He3]. intros [[k|k] ls]; simpl; auto.
Qed.

Lemma valid_order_grade size ops out order gs g : valid_order size ops out order -> length gs = length ops ->
  order_grade op order gs = Ok g -> g = total gs.
Proof.
  intros Hv Hl E. destruct order as [sc|steps]; cbn [order_grade valid_order] in *.
  - destruct Hv as (ix & -> & _). destruct gs as [|a [|]]; try discriminate. injection E as <-.
    cbn [total fold_right]. symmetry. apply (grade_unit _ _ HG).
  - apply rbind_ok in E as (gl & E1 & E2).
    rewrite (contracts_grade size out gs 0 (inputs ops) steps Hv [] gl) in E2; auto.
    + injection E2 as <-. f_equal. unfold inputs.
      transitivity (map (fun n => grade_or gs [] n) (map fst (combine (map Input (seq 0 (length ops))) ops))).
      { rewrite map_map. auto. }
      rewrite (map_fst_combine (map Input (seq 0 (length ops))) ops) by (rewrite map_length, seq_length; auto).
      rewrite map_map, <- Hl. clear. unfold grade_or. cbn [fetch_grade].
      induction gs as [|g gs IH]; auto. cbn [length seq map]. f_equal.
      rewrite <- seq_shift, map_map. exact IH.
    + unfold inputs. apply Forall_forall. intros [n ls] Hp. apply in_combine_l in Hp.
      apply in_map_iff in Hp as (k & <- & _). exact I.
Qed.

End Order.

(** ** Schedules *)

Section Pairs.
Context {A B G : Type} {Sa : Scalar A} {Sb : Scalar B}.
Variables (op : G -> G -> G) (e : G) (R : G -> A -> B -> Prop) (fma : A -> A -> A -> A) (fma' : B -> B -> B -> B).
Hypothesis HG : grade_monoid op e.
Hypothesis HR : respects_grades op e R fma fma'.

(** Scalars in pairs, to follow both runs at once. *)
Let Sp : Scalar (A * B) := prod_scalar Sa Sb.
Let fma2 (x y z : A * B) : A * B := (fma (fst x) (fst y) (fst z), fma' (snd x) (snd y) (snd z)).
Let R2 (g : G) (p : A * B) : Prop := R g (fst p) (snd p).

Lemma unit_left a : op e a = a.
Proof. rewrite (grade_comm _ _ HG). apply (grade_unit _ _ HG). Qed.

Lemma sums_graded g l p : @sums_to _ Sp l p -> Forall (R2 g) l -> R2 g p.
Proof.
  induction 1; intros HF; unfold R2 in *.
  - apply HR.
  - cbn [smul Sp prod_scalar fst snd]. rewrite <- (grade_unit _ _ HG g). apply HR; apply HR.
  - inversion HF; auto.
  - apply Forall_app in HF as [H1 H2]. cbn [sadd Sp prod_scalar fst snd]. apply HR; auto.
  - cbn [smul sone Sp prod_scalar fst snd]. rewrite <- (unit_left g). apply HR; auto. apply HR.
  - apply IHsums_to. eapply Permutation_Forall; [apply Permutation_sym; eauto|auto].
Qed.

Lemma dots_graded g h l p : @dots_to _ Sp fma2 l p -> Forall (fun q => R2 g (fst q) /\ R2 h (snd q)) l -> R2 (op g h) p.
Proof.
  induction 1; intros HF; unfold R2 in *.
  - apply HR.
  - cbn [smul Sp prod_scalar fst snd]. apply HR; apply HR.
  - inversion HF as [|? ? [H1 H2] _]; subst. cbn [smul Sp prod_scalar fst snd] in *. apply HR; auto.
  - apply Forall_app in HF as [H1 H2]. cbn [sadd Sp prod_scalar fst snd]. apply HR; auto.
  - inversion HF as [|? ? [H1 H2] HF']; subst. unfold fma2. cbn [fst snd] in *. apply HR; auto.
  - apply Forall_app in HF as [H1 H2]. unfold fma2. cbn [sone Sp prod_scalar fst snd].
    rewrite <- (unit_left (op g h)). apply HR; auto; [apply HR|]. rewrite unit_left. auto.
  - cbn [smul sone Sp prod_scalar fst snd]. rewrite <- (unit_left (op g h)). apply HR; auto. apply HR.
  - apply IHdots_to. eapply Permutation_Forall; [apply Permutation_sym; eauto|auto].
Qed.

Lemma eval_pair {V} (env : V -> A * B) x :
  @eval _ _ Sp fma2 env x = (eval fma (fun v => fst (env v)) x, eval fma' (fun v => snd (env v)) x).
Proof. induction x; simpl; auto; try (destruct (env v); auto); rewrite ?IHx1, ?IHx2, ?IHx3; auto. Qed.

Definition paired (a : arr A) (b : arr B) : arr (A * B) :=
  mkArr (combine (a_data a) (a_data b)) (a_off a) (a_shape a) (a_strides a).

Lemma frame_paired Q a b : alike Q a b -> frame (paired a b) = frame a.
Proof.
  intros (_ & _ & _ & H). unfold frame, paired, amap. cbn. f_equal. induction H; simpl; auto. f_equal; auto.
Qed.

Lemma combine_Forall2 {T U} (Q : T -> U -> Prop) l l' : Forall2 Q l l' -> Forall (fun p => Q (fst p) (snd p)) (combine l l').
Proof. induction 1; simpl; auto. Qed.

Lemma nth_paired l l' p : length l = length l' ->
  nth p (combine l l') (szero, szero) = (nth p l szero, nth p l' szero) :> A * B.
Proof. intros E. apply combine_nth; auto. Qed.

Lemma eval_ext {T V} {St : Scalar T} f (env env' : V -> T) x : (forall v, env v = env' v) -> eval f env x = eval f env' x.
Proof. intros H. induction x; simpl; congruence. Qed.

Lemma follow_grades sch : adds_every_term sch -> grades_alike op R (follow sch fma) (follow sch fma').
Proof.
  intros Hs. pose proof (Hs (A * B)%type Sp fma2) as HB. constructor.
  - intros g. apply follow_arranges. apply HR.
  - intros g ax a a' idx l l' Ha Hl.
    pose proof (add_up_ok HB ax (paired a a') idx (combine l l')) as H.
    apply (sums_graded g) in H; [|apply combine_Forall2; auto].
    unfold R2 in H. cbn [follow add_up] in *. rewrite (frame_paired _ _ _ Ha) in H.
    pose proof (Forall2_length_eq _ _ _ Hl) as El.
    rewrite eval_pair in H. cbn [fst snd] in H. rewrite combine_length, <- El, Nat.min_id in H.
    rewrite <- (frame_alike _ _ _ Ha), <- El.
    erewrite eval_ext, (eval_ext fma') ; [exact H| |]; intros v;
      change (@szero (A * B) Sp) with (@szero A Sa, @szero B Sb); cbv beta; rewrite (nth_paired l l' v El); auto.
  - intros g h a a' b b' idx l l' Ha Hb Hl.
    pose proof (Forall2_length_eq _ _ _ Hl) as El.
    set (zip := map (fun pq : (A * A) * (B * B) => ((fst (fst pq), fst (snd pq)), (snd (fst pq), snd (snd pq)))) (combine l l')).
    pose proof (add_products_ok HB (paired a a') (paired b b') idx zip) as H.
    apply (dots_graded g h) in H.
    2: { unfold zip. clear - Hl. induction Hl as [|? ? ? ? [H1 H2]]; cbn [combine map]; constructor; auto. }
    unfold R2 in H. cbn [follow add_products] in *. rewrite (frame_paired _ _ _ Ha), (frame_paired _ _ _ Hb) in H.
    rewrite eval_pair in H. cbn [fst snd] in H. unfold zip in H. rewrite map_length, combine_length, <- El, Nat.min_id in H.
    rewrite <- (frame_alike _ _ _ Ha), <- (frame_alike _ _ _ Hb), <- El.
    assert (En : forall k, nth k zip ((szero, szero), (szero, szero))
              = ((fst (nth k l (szero, szero)), fst (nth k l' (szero, szero))),
                 (snd (nth k l (szero, szero)), snd (nth k l' (szero, szero)))) :> (A * B) * (A * B)).
    { intros k. unfold zip. clear - El. revert l' k El.
      induction l as [|x l IH]; intros [|y l'] [|k] El; try discriminate; cbn [combine map nth fst snd]; auto. }
    fold zip in H.
    erewrite eval_ext, (eval_ext fma'); [exact H| |]; intros [k left];
      change (@szero (A * B) Sp) with (@szero A Sa, @szero B Sb); cbv beta iota zeta; rewrite En; destruct left; auto.
  - intros g h x x' y y' Hx Hy. apply HR; auto.
  - intros g h x x' y y' Hx Hy. rewrite (grade_comm _ _ HG). apply HR; auto.
  - apply HR.
Qed.

(** ** Calls *)

Lemma from_path_matches h k order p : from_path h k order = Ok p -> path_order p = order /\ path_matches p.
Proof.
  destruct order as [sc|steps]; cbn [from_path]; intros E; apply rbind_ok in E as (x & Ex & E); injection E as <-;
    (split; [reflexivity|]); unfold path_matches; cbn [path_steps path_order]; auto.
  apply mapM_length in Ex. rewrite Ex, combine_length, seq_length. lia.
Qed.

Variables (sch : schedule) (h : hash_order).
Hypothesis Hs : adds_every_term sch.
Hypothesis Hh : hash_ok h.

Lemma valid_order_graded size ops out order k gs arrays arrays' : valid_order size ops out order ->
  length arrays = length ops -> graded R gs arrays arrays' ->
  outcomes (alike (R (total op e gs)))
    (do p <- from_path h k order; contract_operands (follow sch fma) p arrays)
    (do p <- from_path h k order; contract_operands (follow sch fma') p arrays').
Proof.
  intros Hv El Hg. destruct (from_path h k order) as [p|m|] eqn:Ep; cbn [rbind outcomes]; auto.
  apply from_path_matches in Ep as [Eo Hp].
  pose proof (contract_operands_graded op R _ _ (follow_grades sch Hs) p gs arrays arrays' Hp Hg) as H.
  destruct (contract_operands (follow sch fma) p arrays), (contract_operands (follow sch fma') p arrays'); simpl in *; auto.
  destruct H as (g & Eg & H). rewrite Eo in Eg.
  rewrite <- (valid_order_grade op e HG size ops out order gs g Hv); auto.
  destruct (graded_lengths R gs arrays arrays' Hg). congruence.
Qed.

Lemma einsum_graded s gs arrays arrays' : graded R gs arrays arrays' ->
  outcomes (alike (R (total op e gs))) (einsum h (follow sch fma) s arrays) (einsum h (follow sch fma') s arrays').
Proof.
  intros Hg. unfold einsum, validate_and_size. rewrite <- (shapes_alike arrays arrays' (graded_frames R _ _ _ Hg)).
  unfold get_operand_shapes.
  destruct (accepted_dec h Hh s (map (@a_shape A) arrays)) as [(ops & out & size & Hc)|Hn].
  - destruct (from_string_ok h [20] s _ ops out size Hh Hc) as (sc & Es & HS). rewrite Es. cbn [rbind].
    pose proof Hc as (Hm & [Ho _] & Hsh). assert (Hne : ops <> []) by (eapply meaning_nonempty; eauto).
    unfold einsum_sc, einsum_path_new, generate_optimized_order, naive_order.
    pose proof HS as (Hcc & _). rewrite Hcc. cbn [contraction_of operand_indices].
    destruct (generate_path h _ sc _) as [order|m|] eqn:Eo; cbn [rbind outcomes]; auto.
    apply (valid_order_graded size ops out); auto.
    + eapply (generated_order_valid h _ size sc ops out _ order Hh HS Hne); [|exact Eo]. apply Permutation_refl.
    + apply shapes_ok_len in Hsh. rewrite map_length in Hsh. auto.
  - destruct (accepts_exactly h [20] s (map (@a_shape A) arrays) Hh) as (_ & H2 & _).
    apply H2 in Hn as (m & Em). rewrite Em. simpl. auto.
Qed.

Lemma compile_and_run_graded s gs arrays arrays' strategy : graded R gs arrays arrays' ->
  outcomes (alike (R (total op e gs))) (compile_and_run h (follow sch fma) s arrays strategy)
    (compile_and_run h (follow sch fma') s arrays' strategy).
Proof.
  intros Hg. unfold compile_and_run, einsum_path_fn. rewrite <- (shapes_alike arrays arrays' (graded_frames R _ _ _ Hg)).
  unfold get_operand_shapes, validate_and_optimize_order.
  destruct (accepted_dec h Hh s (map (@a_shape A) arrays)) as [(ops & out & size & Hc)|Hn].
  - destruct (from_string_ok h [7; 22] s _ ops out size Hh Hc) as (sc & Es & HS). rewrite Es. cbn [rbind].
    pose proof Hc as (Hm & [Ho _] & Hsh). assert (Hne : ops <> []) by (eapply meaning_nonempty; eauto).
    pose proof HS as (Hcc & _).
    destruct (generate_optimized_order h _ sc strategy) as [order|m|] eqn:Eo; cbn [rbind outcomes]; auto.
    apply (valid_order_graded size ops out); auto.
    + unfold generate_optimized_order, naive_order, reverse_order in Eo. rewrite Hcc in Eo.
      cbn [contraction_of operand_indices] in Eo.
      destruct strategy; try discriminate;
        eapply (generated_order_valid h _ size sc ops out _ order Hh HS Hne); try exact Eo;
        [apply Permutation_refl|apply Permutation_sym, Permutation_rev].
    + apply shapes_ok_len in Hsh. rewrite map_length in Hsh. auto.
  - destruct (accepts_exactly h [7; 22] s (map (@a_shape A) arrays) Hh) as (_ & H2 & _).
    apply H2 in Hn as (m & Em). rewrite Em. simpl. auto.
Qed.

End Pairs.
