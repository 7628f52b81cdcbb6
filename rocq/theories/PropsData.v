(** What a call does with the elements of its operands (C60). Nothing is assumed of the scalars. *)
From Verif Require Import Base BaseFacts NDArray Validation Optimizers Strategies Path Api Spec SumFacts ArrayFacts
  ValidationMain RelationFacts EinsumMain FloatFacts FloatMain FloatSigns ParamFacts Schedule Examples PropsValues PropsNear.
From Coq Require Import Lia SpecFloat Permutation.
From Coq Require String.
Import String.StringSyntax.
Local Open Scope string_scope.
Local Open Scope list_scope.

(** Operands laid out alike whose elements are related have outcomes laid out alike whose elements are
    related, or fail alike. *)
Theorem related_elements_give_related_results :
  forall (A B : Type) (Sa : Scalar A) (Sb : Scalar B) (R : A -> B -> Prop) fma fma', respected R fma fma' ->
  forall sch h arrays arrays', Forall2 (alike R) arrays arrays' ->
    (forall s, outcomes (alike R) (einsum h (follow sch fma) s arrays) (einsum h (follow sch fma') s arrays'))
    /\ (forall s strategy, outcomes (alike R) (compile_and_run h (follow sch fma) s arrays strategy)
                             (compile_and_run h (follow sch fma') s arrays' strategy))
    /\ (forall p, outcomes (alike R) (contract_operands (follow sch fma) p arrays)
                    (contract_operands (follow sch fma') p arrays'))
    /\ forall a b a' b' la ra, arrays = [a; b] -> arrays' = [a'; b'] ->
         outcomes (alike R) (tensordot (follow sch fma) a b la ra) (tensordot (follow sch fma') a' b' la ra).
Proof.
  intros A B Sa Sb R fma fma' HR sch h arrays arrays' Ha.
  pose proof (follow_alike R fma fma' HR sch) as HL.
  split; [intros s; apply einsum_alike; auto|]. split; [|split].
  - intros s strategy. unfold compile_and_run, einsum_path_fn. rewrite (shapes_alike arrays arrays' (frames_alike R _ _ Ha)).
    apply outcomes_same; intros p. apply contract_operands_alike; auto.
  - intros p. apply contract_operands_alike; auto.
  - intros a b a' b' la ra -> ->. inversion Ha as [|? ? ? ? H1 H2]; subst. inversion H2; subst.
    apply (tensordot_alike R R R); auto; apply HL.
Qed.
Print Assumptions related_elements_give_related_results.

Lemma any_respected {A B} {Sa : Scalar A} {Sb : Scalar B} fma fma' :
  respected (fun (_ : A) (_ : B) => True) fma fma'.
Proof. constructor; auto. Qed.

Lemma frame_any {A B} (a : arr A) (b : arr B) : frame a = frame b <-> alike (fun _ _ => True) a b.
Proof.
  split.
  - destruct a as [d o s t], b as [d' o' s' t']. unfold frame, amap. cbn. intros E. injection E as E -> -> ->.
    repeat split; auto. cbn. revert d' E. induction d; intros [|y d'] E; try discriminate; constructor; auto.
    apply IHd. injection E as E. auto.
  - apply frame_alike.
Qed.

Lemma frames_any {A B} (l : list (arr A)) (l' : list (arr B)) : map frame l = map frame l' ->
  Forall2 (alike (fun _ _ => True)) l l'.
Proof.
  revert l'. induction l as [|a l IH]; intros [|b l'] E; try discriminate; constructor; cbn [map] in E.
  - apply frame_any. congruence.
  - apply IH. congruence.
Qed.

Lemma outcomes_frame {A B} (x : res (arr A)) (y : res (arr B)) :
  outcomes (alike (fun _ _ => True)) x y -> rmap frame x = rmap frame y.
Proof.
  destruct x, y; simpl; try tauto; try congruence. intros H. f_equal. apply frame_any. auto.
Qed.

(** Whether a call returns, its message or panic if it does not, and the offset, shape, strides and
    length of what it returns depend on no element, nor on the type of the elements. *)
Theorem outcome_does_not_depend_on_the_elements :
  forall (A B : Type) (Sa : Scalar A) (Sb : Scalar B) fma fma' sch h (arrays : list (arr A)) (arrays' : list (arr B)),
    map frame arrays = map frame arrays' ->
    (forall s, rmap frame (einsum h (follow sch fma) s arrays) = rmap frame (einsum h (follow sch fma') s arrays'))
    /\ (forall s strategy, rmap frame (compile_and_run h (follow sch fma) s arrays strategy)
                           = rmap frame (compile_and_run h (follow sch fma') s arrays' strategy))
    /\ (forall p, rmap frame (contract_operands (follow sch fma) p arrays)
                  = rmap frame (contract_operands (follow sch fma') p arrays'))
    /\ forall a b a' b' la ra, arrays = [a; b] -> arrays' = [a'; b'] ->
         rmap frame (tensordot (follow sch fma) a b la ra) = rmap frame (tensordot (follow sch fma') a' b' la ra).
Proof.
  intros A B Sa Sb fma fma' sch h arrays arrays' E.
  destruct (related_elements_give_related_results A B Sa Sb _ fma fma' (any_respected fma fma') sch h arrays arrays'
              (frames_any _ _ E)) as (H1 & H2 & H3 & H4).
  split; [intros; apply outcomes_frame; auto|]. split; [intros; apply outcomes_frame; auto|].
  split; [intros; apply outcomes_frame; auto|]. intros. apply outcomes_frame. auto.
Qed.
Print Assumptions outcome_does_not_depend_on_the_elements.

(** For each string, list of layouts, hash order and schedule there is one array of expressions that
    a call evaluates, whatever the elements of its operands and their type. The variable [(k, p)] stands
    for the element at place [p] of the buffer of operand [k]. *)
Theorem each_element_is_a_fixed_expression :
  forall sch h (frames : list (arr unit)),
    (forall s, exists r : res (arr (expr (nat * nat))),
       forall (A : Type) (Sc : Scalar A) fma (arrays : list (arr A)), map frame arrays = frames ->
         einsum h (follow sch fma) s arrays = rmap (amap (eval fma (element arrays))) r)
    /\ (forall s strategy, exists r : res (arr (expr (nat * nat))),
       forall (A : Type) (Sc : Scalar A) fma (arrays : list (arr A)), map frame arrays = frames ->
         compile_and_run h (follow sch fma) s arrays strategy = rmap (amap (eval fma (element arrays))) r)
    /\ (forall p, exists r : res (arr (expr (nat * nat))),
       forall (A : Type) (Sc : Scalar A) fma (arrays : list (arr A)), map frame arrays = frames ->
         contract_operands (follow sch fma) p arrays = rmap (amap (eval fma (element arrays))) r)
    /\ forall la ra, exists r : res (arr (expr (nat * nat))),
       forall (A : Type) (Sc : Scalar A) fma (a b : arr A), map frame [a; b] = frames ->
         tensordot (follow sch fma) a b la ra = rmap (amap (eval fma (element [a; b]))) r.
Proof.
  intros sch h frames.
  assert (G : forall (A : Type) (Sc : Scalar A) fma (arrays : list (arr A)), map frame arrays = frames ->
    let V := all_variables 0 frames in let E := @follow _ (expr_scalar (nat * nat)) sch Fused in
    let R := alike (fun e x => eval fma (element arrays) e = x) in
    (forall s, outcomes R (@einsum _ (expr_scalar _) h E s V) (einsum h (follow sch fma) s arrays))
    /\ (forall s strategy, outcomes R (@compile_and_run _ (expr_scalar _) h E s V strategy)
                             (compile_and_run h (follow sch fma) s arrays strategy))
    /\ (forall p, outcomes R (@contract_operands _ (expr_scalar _) E p V) (contract_operands (follow sch fma) p arrays))
    /\ forall a b a' b' la ra, V = [a'; b'] -> arrays = [a; b] ->
         outcomes R (tensordot E a' b' la ra) (tensordot (follow sch fma) a b la ra)).
  { intros A Sc fma arrays <- V E R.
    destruct (@related_elements_give_related_results _ _ (expr_scalar _) Sc _ Fused fma
                (eval_respected fma (element arrays)) sch h _ _ (symbolic fma arrays)) as (H1 & H2 & H3 & H4).
    repeat split; auto. }
  split; [|split; [|split]].
  - intros s. eexists. intros A Sc fma arrays HF. apply outcomes_rmap. apply (G A Sc fma arrays HF).
  - intros s strategy. eexists. intros A Sc fma arrays HF. apply outcomes_rmap. apply (G A Sc fma arrays HF).
  - intros p. eexists. intros A Sc fma arrays HF. apply outcomes_rmap. apply (G A Sc fma arrays HF).
  - intros la ra. destruct frames as [|f1 [|f2 [|f3 fs]]].
    + exists Panic. intros A Sc fma a b HF. discriminate.
    + exists Panic. intros A Sc fma a b HF. discriminate.
    + eexists. intros A Sc fma a b HF. apply outcomes_rmap.
      apply (proj2 (proj2 (proj2 (G A Sc fma [a; b] HF))) a b (variables 0 f1) (variables 1 f2)); reflexivity.
    + exists Panic. intros A Sc fma a b HF. discriminate.
Qed.
Print Assumptions each_element_is_a_fixed_expression.

(** ** Which elements an expression mentions *)

Fixpoint mentions (v : nat * nat) (e : expr (nat * nat)) : bool :=
  match e with
  | Var w => (fst v =? fst w) && (snd v =? snd w)
  | Zero | One => false
  | Plus e1 e2 | Times e1 e2 => mentions v e1 || mentions v e2
  | Fused e1 e2 e3 => mentions v e1 || mentions v e2 || mentions v e3
  end.

(** The place of an element in the buffer. *)
Definition place_of {A} (a : arr A) (idx : list nat) : nat := Z.to_nat (a_off a + dot_off idx (a_strides a)).

(** A schedule whose sums are sums, of every type of scalars. *)
Definition schedule_ok (sch : schedule) : Prop :=
  forall (A : Type) (Sc : Scalar A) fma, backend_runs (follow sch fma).

(** The expressions a call evaluates. *)
Definition expressions_of (sch : schedule) (h : hash_order) (s : list char) (frames : list (arr unit)) :
    res (arr (expr (nat * nat))) :=
  @einsum _ (expr_scalar _) h (@follow _ (expr_scalar _) sch Fused) s (all_variables 0 frames).

Definition path_expressions_of (sch : schedule) (h : hash_order) (s : list char) (frames : list (arr unit))
    (strategy : optimization_method) : res (arr (expr (nat * nat))) :=
  @compile_and_run _ (expr_scalar _) h (@follow _ (expr_scalar _) sch Fused) s (all_variables 0 frames) strategy.

Lemma expressions_evaluate {A} {Sc : Scalar A} sch h s fma (arrays : list (arr A)) :
  einsum h (follow sch fma) s arrays
    = rmap (amap (eval fma (element arrays))) (expressions_of sch h s (map frame arrays))
  /\ forall strategy, compile_and_run h (follow sch fma) s arrays strategy
    = rmap (amap (eval fma (element arrays))) (path_expressions_of sch h s (map frame arrays) strategy).
Proof.
  destruct (@related_elements_give_related_results _ _ (expr_scalar _) Sc _ Fused fma
              (eval_respected fma (element arrays)) sch h _ _ (symbolic fma arrays)) as (H1 & H2 & _).
  split; [|intros strategy]; apply outcomes_rmap; [apply H1|apply H2].
Qed.

Lemma variables_get k a idx : wf a -> in_bounds (a_shape a) idx = true ->
  a_get (variables k a) idx = Ok (Var (k, place_of a idx)).
Proof.
  intros [_ Hw] Hi. specialize (Hw idx Hi). unfold a_get, variables. cbn [a_shape a_data a_off a_strides].
  rewrite Hi. unfold znth. destruct (Z.ltb_spec (a_off a + dot_off idx (a_strides a)) 0); [lia|].
  unfold place_of. set (z := (a_off a + dot_off idx (a_strides a))%Z) in *.
  rewrite nth_error_map. rewrite (nth_error_nth' _ 0) by (rewrite seq_length; lia).
  rewrite seq_nth by lia. reflexivity.
Qed.

Lemma all_variables_nth frames : forall d k,
  nth_error (all_variables d frames) k
  = match nth_error frames k with Some a => Some (variables (d + k) a) | None => None end.
Proof.
  induction frames as [|a frames IH]; intros d [|k]; cbn [all_variables nth_error]; auto.
  - rewrite Nat.add_0_r. auto.
  - rewrite IH. rewrite Nat.add_succ_comm. auto.
Qed.

Lemma all_variables_shapes frames d : map (@a_shape _) (all_variables d frames) = map (@a_shape _) frames.
Proof. revert d. induction frames as [|a frames IH]; intros d; simpl; f_equal; auto. Qed.

Lemma all_variables_wf frames d : Forall wf frames -> Forall wf (all_variables d frames).
Proof.
  intros H. revert d. induction H as [|a frames [H1 H2] H IH]; intros d; simpl; constructor; auto.
  split; auto. intros idx Hi. cbn [variables a_off a_strides a_data]. rewrite map_length, seq_length. auto.
Qed.

Lemma factor_in_bounds {A} (arrays : list (arr A)) ops size e k a ix :
  shapes_ok size ops (map (@a_shape A) arrays) -> (forall c, In c (concat ops) -> e c < size c) ->
  nth_error arrays k = Some a -> nth_error ops k = Some ix -> in_bounds (a_shape a) (map e ix) = true.
Proof.
  intros Hs He Ea Eix. pose proof (selected_in_bounds arrays ops size e Hs He) as H. rewrite Forall_forall in H.
  apply (H (a, ix)). apply operand_of_combine. exists k. auto.
Qed.

(** The expression of an element mentions those elements of the operands that are factors of the
    element, and no others, provided no sum is empty. *)
Theorem expressions_mention_exactly_the_factors :
  forall sch h s (frames : list (arr unit)) ops out size r, schedule_ok sch -> hash_ok h ->
    call_ok s (map (@a_shape unit) frames) ops out size -> no_empty_sum size ops out -> Forall wf frames ->
    (expressions_of sch h s frames = Ok r
     \/ exists strategy, (strategy = Naive \/ strategy = Reverse) /\ path_expressions_of sch h s frames strategy = Ok r) ->
    forall o, in_bounds (map size out) o = true ->
    exists x, a_get r o = Ok x
      /\ forall k p, mentions (k, p) x = true
           <-> exists e a ix, selects size ops out o e /\ nth_error frames k = Some a /\ nth_error ops k = Some ix
                              /\ p = place_of a (map e ix).
Proof.
  intros sch h s frames ops out size r HS Hh Hc Hn Hw Hr o Ho.
  set (V := all_variables 0 frames).
  assert (Hc' : call_ok s (map (@a_shape _) V) ops out size) by (unfold V; rewrite all_variables_shapes; exact Hc).
  assert (Hw' : Forall wf V) by (apply all_variables_wf; auto).
  assert (Hr' : @einsum _ (expr_scalar _) h (@follow _ (expr_scalar _) sch Fused) s V = Ok r
     \/ exists strategy, (strategy = Naive \/ strategy = Reverse)
          /\ (do p <- einsum_path_fn h s V strategy;
              @contract_operands _ (expr_scalar _) (@follow _ (expr_scalar _) sch Fused) p V) = Ok r) by exact Hr.
  assert (Hx : exists x, a_get r o = Ok x).
  { destruct (@results_related _ _ (expr_scalar _) unit_scalar (fun _ _ => True) ltac:(constructor; auto) unit_semiring
                h (@follow _ (expr_scalar _) sch Fused) s V (map (amap (fun _ => tt)) V) ops out size r o)
      as (x & Ex & _); eauto.
    - intros ? ? ? ? ? ? _ _ _. exact I.
    - apply relateds_amap; auto. }
  destruct Hx as (x & Ex). exists x. split; auto. intros k p.
  pose proof (bad_values_are_exactly_those_with_bad_factors (expr (nat * nat)) (expr_scalar _) (mentions (k, p))
    eq_refl eq_refl (fun _ _ => eq_refl) (fun _ _ => eq_refl) h (@follow _ (expr_scalar _) sch Fused) s V ops out size r
    Hh (HS _ _ Fused) (fun _ _ _ => eq_refl) Hc' Hn Hw' Hr' o x Ho Ex) as B.
  assert (F : forall i a ix e, selects size ops out o e -> nth_error frames i = Some a -> nth_error ops i = Some ix ->
              @elem _ (expr_scalar _) (variables i a) (map e ix) = Var (i, place_of a (map e ix))).
  { intros i a ix e [_ He] Ea Eix. unfold elem. rewrite variables_get; auto.
    - rewrite Forall_forall in Hw. apply Hw. eapply nth_error_In; eauto.
    - destruct Hc as (_ & _ & HsO). eapply (factor_in_bounds frames ops size e i); eauto. }
  rewrite B. split.
  - intros (e & a & ix & He & (i & Ea & Eix) & Hm). unfold V in Ea. rewrite all_variables_nth in Ea.
    destruct (nth_error frames i) as [b|] eqn:Eb; [|discriminate]. injection Ea as <-. cbn [Nat.add] in Hm.
    rewrite (F i b ix e He Eb Eix) in Hm. cbn [mentions fst snd] in Hm. apply andb_true_iff in Hm as [H1 H2].
    apply Nat.eqb_eq in H1, H2. subst. eauto 8.
  - intros (e & a & ix & He & Ea & Eix & ->). exists e, (variables k a), ix. split; auto. split.
    + exists k. split; auto. unfold V. rewrite all_variables_nth, Ea. auto.
    + rewrite (F k a ix e He Ea Eix). cbn [mentions fst snd]. rewrite !Nat.eqb_refl. auto.
Qed.
Print Assumptions expressions_mention_exactly_the_factors.

Lemma eval_agrees {A} {Sc : Scalar A} (fma : A -> A -> A -> A) (env env' : nat * nat -> A) e :
  (forall k p, mentions (k, p) e = true -> env (k, p) = env' (k, p)) -> eval fma env e = eval fma env' e.
Proof.
  induction e as [[k p]| | |e1 IH1 e2 IH2|e1 IH1 e2 IH2|e1 IH1 e2 IH2 e3 IH3]; cbn [eval mentions]; intros H; auto.
  - apply H. cbn [fst snd]. rewrite !Nat.eqb_refl. auto.
  - f_equal; [apply IH1|apply IH2]; intros k p Hm; apply H; rewrite Hm, ?orb_true_r; auto.
  - f_equal; [apply IH1|apply IH2]; intros k p Hm; apply H; rewrite Hm, ?orb_true_r; auto.
  - f_equal; [apply IH1|apply IH2|apply IH3]; intros k p Hm; apply H; rewrite Hm, ?orb_true_r; auto.
Qed.

Lemma element_elem {A} {Sc : Scalar A} (arrays : list (arr A)) k a idx : nth_error arrays k = Some a -> wf a ->
  in_bounds (a_shape a) idx = true -> element arrays (k, place_of a idx) = elem a idx.
Proof.
  intros Ek Hw Hi. unfold element, elem. cbn [fst snd]. rewrite Ek. unfold a_get, place_of. rewrite Hi.
  destruct Hw as [_ Hw]. specialize (Hw idx Hi). unfold znth.
  destruct (Z.ltb_spec (a_off a + dot_off idx (a_strides a)) 0); [lia|].
  rewrite (nth_error_nth' _ szero) by lia. reflexivity.
Qed.

(** So changing elements that are no factors of an element of the result does not change that element:
    not by a bit, whatever the scalars are. *)
Theorem other_elements_do_not_matter :
  forall (A : Type) (Sc : Scalar A) fma sch h s (arrays arrays' : list (arr A)) ops out size r,
    schedule_ok sch -> hash_ok h ->
    call_ok s (map (@a_shape A) arrays) ops out size -> no_empty_sum size ops out -> Forall wf arrays ->
    map frame arrays' = map frame arrays ->
    forall run, (run = (fun l => einsum h (follow sch fma) s l)
                 \/ exists strategy, (strategy = Naive \/ strategy = Reverse)
                      /\ run = fun l => compile_and_run h (follow sch fma) s l strategy) ->
    run arrays = Ok r ->
    exists r', run arrays' = Ok r' /\ frame r' = frame r
      /\ forall o, in_bounds (map size out) o = true ->
          (forall e k a a' ix, selects size ops out o e -> nth_error ops k = Some ix ->
             nth_error arrays k = Some a -> nth_error arrays' k = Some a' -> elem a' (map e ix) = elem a (map e ix)) ->
          a_get r' o = a_get r o.
Proof.
  intros A Sc fma sch h s arrays arrays' ops out size r HS Hh Hc Hn Hw HF run Hrun E.
  assert (G : exists x, (forall l : list (arr A), map frame l = map frame arrays -> run l = rmap (amap (eval fma (element l))) x)
    /\ forall q, x = Ok q -> expressions_of sch h s (map frame arrays) = Ok q
         \/ exists strategy, (strategy = Naive \/ strategy = Reverse)
              /\ path_expressions_of sch h s (map frame arrays) strategy = Ok q).
  { destruct Hrun as [->|(st & Hst & ->)].
    - exists (expressions_of sch h s (map frame arrays)). split; auto. intros l El. rewrite <- El. apply expressions_evaluate.
    - exists (path_expressions_of sch h s (map frame arrays) st). split; eauto. intros l El. rewrite <- El. apply expressions_evaluate. }
  destruct G as (x & Hx & Hq). rewrite (Hx arrays eq_refl) in E. destruct x as [q|m|]; try discriminate.
  injection E as <-. exists (amap (eval fma (element arrays')) q). split; [rewrite (Hx arrays' HF); auto|]. split.
  { unfold frame, amap. cbn [a_data a_off a_shape a_strides]. rewrite !map_map. auto. }
  intros o Ho Hag.
  assert (Hfs : map (@a_shape unit) (map frame arrays) = map (@a_shape A) arrays) by (rewrite map_map; auto).
  destruct (expressions_mention_exactly_the_factors sch h s (map frame arrays) ops out size q) with (o := o)
    as (y & Ey & Hy); auto.
  { rewrite Hfs. auto. }
  { apply wfs_amap. auto. }
  rewrite !a_get_amap, Ey. cbn [rmap]. f_equal. apply eval_agrees. intros k p Hm.
  apply Hy in Hm as (e & fa & ix & He & Ea & Eix & ->).
  rewrite nth_error_map in Ea. destruct (nth_error arrays k) as [a|] eqn:Eka; [|discriminate]. injection Ea as <-.
  assert (Ea' : exists a', nth_error arrays' k = Some a' /\ frame a' = frame a).
  { apply (f_equal (fun l => nth_error l k)) in HF. rewrite !nth_error_map, Eka in HF. cbn [option_map] in HF.
    destruct (nth_error arrays' k) as [a'|]; [|discriminate]. exists a'. split; auto. apply some_inj in HF. exact HF. }
  destruct Ea' as (a' & Eka' & Efr).
  assert (Wa : wf a) by (rewrite Forall_forall in Hw; apply Hw; eapply nth_error_In; eauto).
  assert (Hi : in_bounds (a_shape a) (map e ix) = true).
  { destruct Hc as (_ & _ & HsO), He as [_ He]. eapply (factor_in_bounds arrays ops size e k); eauto. }
  pose proof Efr as Efr'. unfold frame, amap in Efr'. injection Efr' as Ed Eo Es Et.
  assert (Wa' : wf a').
  { destruct Wa as [W1 W2]. split; [rewrite Es, Et; auto|]. intros idx Hidx. rewrite Eo, Et.
    replace (length (a_data a')) with (length (a_data a))
      by (apply (f_equal (@length _)) in Ed; rewrite !map_length in Ed; auto).
    apply W2. rewrite <- Es. auto. }
  replace (place_of (frame a) (map e ix)) with (place_of a (map e ix)) by reflexivity.
  rewrite (element_elem arrays k a (map e ix)) by auto.
  replace (place_of a (map e ix)) with (place_of a' (map e ix)) by (unfold place_of; rewrite Eo, Et; auto).
  rewrite (element_elem arrays' k a' (map e ix)) by (auto; rewrite Es; auto).
  eapply Hag; eauto.
Qed.
Print Assumptions other_elements_do_not_matter.


(** A map that commutes with the constants and the operations as the machine rounds them, with no law
    of arithmetic, commutes with every call, down to the layout of the result. *)
Theorem maps_of_the_arithmetic_commute_with_calls :
  forall (A B : Type) (Sa : Scalar A) (Sb : Scalar B) (f : A -> B) fma fma', homomorphism f ->
  (forall x y z, f (fma x y z) = fma' (f x) (f y) (f z)) ->
  forall sch h (arrays : list (arr A)),
    (forall s, einsum h (follow sch fma') s (map (amap f) arrays) = rmap (amap f) (einsum h (follow sch fma) s arrays))
    /\ (forall s strategy, compile_and_run h (follow sch fma') s (map (amap f) arrays) strategy
                           = rmap (amap f) (compile_and_run h (follow sch fma) s arrays strategy))
    /\ forall a b la ra, tensordot (follow sch fma') (amap f a) (amap f b) la ra
                         = rmap (amap f) (tensordot (follow sch fma) a b la ra).
Proof.
  intros A B Sa Sb f fma fma' (F0 & F1 & F2 & F3) F4 sch h arrays.
  assert (HR : respected (fun x y => f x = y) fma fma').
  { constructor; auto; intros; subst; auto. }
  assert (HF : forall l : list (arr A), Forall2 (alike (fun x y => f x = y)) l (map (amap f) l)).
  { intros l. induction l; simpl; constructor; auto. apply alike_amap. auto. }
  pose proof (related_elements_give_related_results A B Sa Sb _ fma fma' HR sch h) as H.
  split; [|split].
  - intros s. apply outcomes_rmap. apply H, HF.
  - intros s strategy. apply outcomes_rmap. apply (H _ _ (HF arrays)).
  - intros a b la ra. apply outcomes_rmap. apply (H _ _ (HF [a; b])); auto.
Qed.
Print Assumptions maps_of_the_arithmetic_commute_with_calls.

(** ** Zeros of either sign *)

(** The same number, or two zeros. *)Definition equal_numbers {f} (x y : float f) : Prop := same_up_to_sign_of_zero (proj1_sig x) (proj1_sig y).

(** Changing the signs of zeros in the operands changes nothing but the signs of zeros in the result:
    in every format, with rounding, overflow, infinities and not-a-number, fused or not. *)
Theorem signs_of_zeros_reach_only_zeros :
  forall f sch h (arrays arrays' : list (arr (float f))), Forall2 (alike equal_numbers) arrays arrays' ->
    (forall s, outcomes (alike equal_numbers) (einsum h (follow sch f_fma) s arrays) (einsum h (follow sch f_fma) s arrays'))
    /\ (forall s strategy, outcomes (alike equal_numbers) (compile_and_run h (follow sch f_fma) s arrays strategy)
                             (compile_and_run h (follow sch f_fma) s arrays' strategy))
    /\ forall a b a' b' la ra, arrays = [a; b] -> arrays' = [a'; b'] ->
         outcomes (alike equal_numbers) (tensordot (follow sch f_fma) a b la ra) (tensordot (follow sch f_fma) a' b' la ra).
Proof.
  intros f sch h arrays arrays' Ha.
  assert (HR : respected (@equal_numbers f) f_fma f_fma).
  { constructor; try (left; reflexivity); unfold equal_numbers; intros.
    - apply zero_sign_add; auto.
    - apply zero_sign_mul; auto.
    - apply zero_sign_fma; auto. }
  destruct (related_elements_give_related_results _ _ _ _ _ f_fma f_fma HR sch h arrays arrays' Ha) as (H1 & H2 & _ & H4).
  auto.
Qed.
Print Assumptions signs_of_zeros_reach_only_zeros.

(** ** A case *)

(** Row-major arrays; sums from the last term to the first, matrix products by fused multiply-adds. *)
Definition backwards : schedule :=
  mkSchedule
    (fun _ _ a => mkArr (seq 0 (length (a_data a))) (a_off a) (a_shape a) (a_strides a))
    (fun _ _ _ n => fold_left (fun e p => Plus e (Var p)) (rev (seq 0 n)) Zero)
    (fun _ _ _ n => fold_right (fun p e => Fused (Var (p, true)) (Var (p, false)) e) Zero (seq 0 n)).

Lemma map_nth_seq {A} (l : list A) d : map (fun p => nth p l d) (seq 0 (length l)) = l.
Proof.
  induction l as [|x l IH]; auto. cbn [length seq map nth]. f_equal. rewrite <- seq_shift, map_map. exact IH.
Qed.

Lemma backwards_runs {A} {Sc : Scalar A} fma : backend_runs (follow backwards fma).
Proof.
  constructor.
  - intros op ins a. assert (E : follow backwards fma op ins a = a).
    { cbn [follow arrange backwards sc_arrange]. unfold frame, amap. cbn [a_data a_off a_shape a_strides].
      rewrite map_length, map_nth_seq. destruct a; auto. }
    rewrite E. auto.
  - intros ax a idx l. cbn [follow add_up backwards sc_sum].
    assert (G : forall ps e l1, sums_to l1 (eval fma (fun p => nth p l szero) e) ->
              sums_to (l1 ++ map (fun p => nth p l szero) ps)
                (eval fma (fun p => nth p l szero) (fold_left (fun e p => Plus e (Var p)) ps e))).
    { induction ps as [|p ps IH]; intros e l1 H; cbn [fold_left map]; [rewrite app_nil_r; auto|].
      replace (l1 ++ nth p l szero :: map (fun p => nth p l szero) ps)
        with ((l1 ++ [nth p l szero]) ++ map (fun p => nth p l szero) ps) by (rewrite <- app_assoc; auto).
      apply IH. cbn [eval]. apply sums_add; auto. constructor. }
    eapply sums_permuted; [|apply (G _ Zero []); constructor]. cbn [app].
    rewrite map_rev, map_nth_seq. apply Permutation_sym, Permutation_rev.
  - intros a b idx l. cbn [follow add_products backwards sc_dot fused].
    set (env := fun p : nat * bool => let (k, left) := p in
                 let q := nth k l (szero, szero) in if left then fst q else snd q).
    assert (G : forall ps, dots_to fma (map (fun p => nth p l (szero, szero)) ps)
              (eval fma env (fold_right (fun p e => Fused (Var (p, true)) (Var (p, false)) e) Zero ps))).
    { induction ps as [|p ps IH]; cbn [fold_right map eval]; [constructor|].
      replace (env (p, true)) with (fst (nth p l (szero, szero))) by reflexivity.
      replace (env (p, false)) with (snd (nth p l (szero, szero))) by reflexivity.
      destruct (nth p l (szero, szero)). apply dots_fused. auto. }
    specialize (G (seq 0 (length l))). rewrite map_nth_seq in G. exact G.
Qed.

(** The expressions of a product of a matrix and a vector, and of a sum. *)
Example expressions_case :
  (do r <- @einsum _ (expr_scalar _) id_hash (@follow _ (expr_scalar _) backwards Fused) (chars "ij,j->i")
             (all_variables 0 (map frame [zarr [2; 2] [1; 2; 3; 4]%Z; zarr [2] [5; 6]%Z])); a_iter r)
  = Ok [Fused (Var (0, 0)) (Var (1, 0)) (Fused (Var (0, 1)) (Var (1, 1)) Zero);
        Fused (Var (0, 2)) (Var (1, 0)) (Fused (Var (0, 3)) (Var (1, 1)) Zero)]
  /\ (do r <- @einsum _ (expr_scalar _) id_hash (@follow _ (expr_scalar _) backwards Fused) (chars "i->")
             (all_variables 0 (map frame [zarr [3] [1; 2; 3]%Z])); a_iter r)
     = Ok [Plus (Plus (Plus Zero (Var (0, 2))) (Var (0, 1))) (Var (0, 0))]
  /\ (do r <- einsum id_hash (follow backwards (fun a b c => a * b + c)%Z) (chars "ij,j->i")
             [zarr [2; 2] [1; 2; 3; 4]%Z; zarr [2] [5; 6]%Z]; a_iter r) = Ok [17; 39]%Z
  /\ map frame [zarr [2; 2] [1; 2; 3; 4]%Z; zarr [2] [5; 6]%Z]
     = map frame [zarr [2; 2] [0; 0; 7; 1]%Z; zarr [2] [9; 9]%Z].
Proof. repeat split. Qed.

(** The second of two components: a map of the arithmetic. *)
Example maps_case : @homomorphism (bool * bool) bool
    {| szero := (false, false); sone := (true, true);
       sadd := fun x y => (xorb (fst x) (fst y), orb (snd x) (snd y));
       smul := fun x y => (andb (fst x) (fst y), andb (snd x) (snd y)) |}
    {| szero := false; sone := true; sadd := orb; smul := andb |} snd.
Proof. repeat split. Qed.

(** Minus zero times plus zero, and plus zero times plus zero. *)
Definition zeros_of f (s : bool) : arr (float f) := mk_c [2] [exist _ (S754_zero s) eq_refl; f_one f].
Example zeros_case :
  Forall2 (alike equal_numbers) [zeros_of f64 true; zeros_of f64 false] [zeros_of f64 false; zeros_of f64 false]
  /\ (do r <- einsum id_hash (follow backwards f_fma) (chars "i,i->i") [zeros_of f64 true; zeros_of f64 false];
      do l <- a_iter r; Ok (map (@proj1_sig _ _) (firstn 1 l))) = Ok [S754_zero true]
  /\ (do r <- einsum id_hash (follow backwards f_fma) (chars "i,i->i") [zeros_of f64 false; zeros_of f64 false];
      do l <- a_iter r; Ok (map (@proj1_sig _ _) (firstn 1 l))) = Ok [S754_zero false].
Proof.
  split; [|split; vm_compute; reflexivity].
  assert (H : forall s s', alike equal_numbers (zeros_of f64 s) (zeros_of f64 s')).
  { intros s s'. split; [reflexivity|]. split; [reflexivity|]. split; [reflexivity|]. constructor.
    - right. exists s, s'. split; reflexivity.
    - constructor; [left; reflexivity|constructor]. }
  auto.
Qed.

(** A change to the first row of a matrix leaves the second row of a product as it was. *)
Example other_elements_case :
  let a := zarr [2; 2] [1; 2; 3; 4]%Z in
  let a' := zarr [2; 2] [7; 0; 3; 4]%Z in
  let b := zarr [2; 2] [5; 6; 7; 8]%Z in
  let size := size_fn (combine (chars "ijk") [2; 2; 2]) in
  schedule_ok backwards
  /\ call_ok (chars "ij,jk->ik") (map (@a_shape Z) [a; b]) [chars "ij"; chars "jk"] (chars "ik") size
  /\ no_empty_sum size [chars "ij"; chars "jk"] (chars "ik") /\ Forall wf [a; b]
  /\ map frame [a'; b] = map frame [a; b]
  /\ (do r <- einsum id_hash (follow backwards (fun a b c => a * b + c)%Z) (chars "ij,jk->ik") [a; b]; a_iter r)
     = Ok [19; 22; 43; 50]%Z
  /\ (do r <- einsum id_hash (follow backwards (fun a b c => a * b + c)%Z) (chars "ij,jk->ik") [a'; b]; a_iter r)
     = Ok [35; 42; 43; 50]%Z
  /\ (do r <- expressions_of backwards id_hash (chars "ij,jk->ik") (map frame [a; b]); a_get r [1; 0])
     = Ok (Fused (Var (0, 2)) (Var (1, 0)) (Fused (Var (0, 3)) (Var (1, 2)) Zero)).
Proof.
  cbv zeta. split; [intros A Sc fma; apply backwards_runs|]. split; [apply check_call_ok; check_call_tac|].
  split; [intros c Hc; cbn in Hc; destruct Hc as [<-|[]]; cbn; lia|]. split; [apply wfs_b_ok; reflexivity|].
  repeat split.
Qed.
