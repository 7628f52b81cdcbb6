(** Which contractors a call uses (C90): they follow from the string and the strategy. *)
From Verif Require Import Base BaseFacts NDArray Validation Optimizers Strategies Singleton Pair Path Api Spec
  ParserFacts ValidationFacts ValidationMain SumFacts SingletonFacts PairMain PathFacts EinsumMain PlanFacts OrderFacts Serde SerdeFacts
  PropsOrder PropsPlan PropsStoredSteps Examples.
From Coq Require Import Lia.
From Coq Require String.
Import String.StringSyntax.
Local Open Scope string_scope.
Local Open Scope list_scope.

(** ** Specification *)

(** The two methods that sum over axes, with and without moving the others to the front first. *)
Definition sums (m : singleton_method) : Prop := m = MSummation \/ m = MPermutationAndSummation.

(** Both operands are simplified or none, to the same labels in some order, in the same way but for axes that
    are moved before a sum. *)
Definition alike_simplification (a b : option simplification_said) : Prop :=
  match a, b with
  | None, None => True
  | Some x, Some y =>
      Permutation (said_new_indices x) (said_new_indices y)
      /\ (said_method x = said_method y \/ sums (said_method x) /\ sums (said_method y))
  | _, _ => False
  end.

(** The same contractor for the pair. *)
Definition alike_pair (a b : pair_said) : Prop :=
  alike_simplification (said_lhs a) (said_lhs b) /\ alike_simplification (said_rhs a) (said_rhs b)
  /\ said_pair_method a = said_pair_method b.

Definition alike_steps (a b : steps_said) : Prop :=
  match a, b with
  | SaidSingleton m, SaidSingleton m' => m = m'
  | SaidPairs l, SaidPairs l' => Forall2 alike_pair l l'
  | _, _ => False
  end.

(** ** Facts *)

Lemma simplification_alike s s' this this' used used' kept kept' :
  Permutation this this' -> Permutation used used' ->
  simplification_plan s this used kept -> simplification_plan s' this' used' kept' ->
  Permutation kept kept'
  /\ alike_simplification (option_map simplification_without_op s) (option_map simplification_without_op s').
Proof.
  intros Ht Hu (N & I & P) (N' & I' & P').
  assert (HK : Permutation kept kept').
  { apply NoDup_Permutation; auto. intros c. rewrite I, I'. split; intros [H1 H2].
    - split; [apply (Permutation_in c Ht)|apply (Permutation_in c Hu)]; auto.
    - split; [apply (Permutation_in c (Permutation_sym Ht))|apply (Permutation_in c (Permutation_sym Hu))]; auto. }
  split; auto.
  assert (HT : NoDup this /\ incl this used <-> NoDup this' /\ incl this' used').
  { split; intros [H1 H2]; (split; [first [apply (Permutation_NoDup Ht); assumption|apply (Permutation_NoDup (Permutation_sym Ht)); assumption]|]); intros c Hc.
    - apply (Permutation_in c Hu), H2, (Permutation_in c (Permutation_sym Ht)); auto.
    - apply (Permutation_in c (Permutation_sym Hu)), H2, (Permutation_in c Ht); auto. }
  assert (HNo : forall t u kk : list char, NoDup kk -> (forall c, In c kk <-> In c t /\ In c u) -> kk = t ->
                NoDup t /\ incl t u).
  { intros t u kk Hn Hi ->. split; auto. intros c Hc. apply Hi, Hc. }
  destruct s as [x|], s' as [y|]; simpl; auto.
  - destruct P as (Z & E & _ & C & _), P' as (Z' & E' & _ & C' & _). rewrite E, E'. split; auto.
    assert (HN : NoDup this <-> NoDup this').
    { split; apply Permutation_NoDup; auto. apply Permutation_sym; auto. }
    assert (HI : incl this kept <-> incl this' kept').
    { split; intros H c Hc.
      - apply (Permutation_in c HK), H, (Permutation_in c (Permutation_sym Ht)); auto.
      - apply (Permutation_in c (Permutation_sym HK)), H, (Permutation_in c Ht); auto. }
    assert (HZ : forall t u kk : list char, (forall c, In c kk <-> In c t /\ In c u) -> ~ (NoDup t /\ incl t u) ->
                 NoDup t -> ~ incl t kk).
    { intros t u kk Hi Hz Hn H. apply Hz. split; auto. intros c Hc. apply Hi, H, Hc. }
    assert (HM : forall m t u kk, NoDup kk -> (forall c, In c kk <-> In c t /\ In c u) -> ~ (NoDup t /\ incl t u) ->
                 singleton_case m t kk ->
                 (NoDup t /\ sums m) \/ (m = MDiagonalization /\ ~ NoDup t /\ incl t kk)
                 \/ (m = MDiagonalizationAndSummation /\ ~ NoDup t /\ ~ incl t kk)).
    { intros m t u kk Hk Hi Hz Hc. destruct m; simpl in Hc; auto.
      - exfalso. subst kk. apply (HZ t u t Hi Hz); auto. apply incl_refl.
      - exfalso. destruct Hc as (Hn & Hp & _). apply (HZ t u kk Hi Hz); auto. intros c Hin.
        apply (Permutation_in c (Permutation_sym Hp)), Hin.
      - left. destruct Hc. split; auto. left. auto.
      - left. destruct Hc. split; auto. right. auto. }
    destruct (HM _ _ _ _ N I Z C) as [[A1 A2]|[(A1 & A2 & A3)|(A1 & A2 & A3)]];
      destruct (HM _ _ _ _ N' I' Z' C') as [[B1 B2]|[(B1 & B2 & B3)|(B1 & B2 & B3)]]; try tauto; left; congruence.
  - destruct P as (Z & _). exfalso. apply Z, HT. apply (HNo this' used' kept' N' I' P').
  - destruct P' as (Z & _). exfalso. apply Z, HT. apply (HNo this used kept N I P).
Qed.

Lemma pair_case_perm m l r o l' r' o' : Permutation l l' -> Permutation r r' -> Permutation o o' ->
  pair_case m l r o -> pair_case m l' r' o'.
Proof.
  intros Hl Hr Ho.
  assert (HE : Permutation l o /\ Permutation r o <-> Permutation l' o' /\ Permutation r' o').
  { split; intros [H1 H2].
    - split; [rewrite <- Hl, <- Ho|rewrite <- Hr, <- Ho]; auto.
    - split; [rewrite Hl, Ho|rewrite Hr, Ho]; auto. }
  assert (HS : (exists c, In c l /\ In c r /\ In c o) <-> (exists c, In c l' /\ In c r' /\ In c o')).
  { split; intros (c & H1 & H2 & H3); exists c.
    - repeat split; [apply (Permutation_in c Hl)|apply (Permutation_in c Hr)|apply (Permutation_in c Ho)]; auto.
    - repeat split; [apply (Permutation_in c (Permutation_sym Hl))|apply (Permutation_in c (Permutation_sym Hr))
                    |apply (Permutation_in c (Permutation_sym Ho))]; auto. }
  assert (HN : forall a b : list char, Permutation a b -> (a = [] <-> b = [])).
  { intros a b Hp. split; intros ->; [apply Permutation_nil|apply Permutation_nil, Permutation_sym]; auto. }
  pose proof (HN l l' Hl). pose proof (HN r r' Hr).
  destruct m; cbn [pair_case]; tauto.
Qed.

Lemma pair_alike p p' l r o l' r' o' : Permutation l l' -> Permutation r r' -> Permutation o o' ->
  pair_plan l r o p -> pair_plan l' r' o' p' -> alike_pair (pair_without_op p) (pair_without_op p').
Proof.
  intros Hl Hr Ho (lk & rk & S1 & S2 & C & _) (lk' & rk' & S1' & S2' & C' & _).
  destruct (simplification_alike _ _ _ _ _ _ _ _ Hl (Permutation_app Hr Ho) S1 S1') as (K1 & A1).
  destruct (simplification_alike _ _ _ _ _ _ _ _ Hr (Permutation_app Hl Ho) S2 S2') as (K2 & A2).
  split; [exact A1|]. split; [exact A2|].
  apply (pair_case_perm _ _ _ _ _ _ _ K1 K2 Ho) in C. simpl.
  destruct S1' as (_ & I1 & _), S2' as (_ & I2 & _).
  eapply pair_case_unique; [| |exact C|exact C'].
  - intros c Hc. apply I1 in Hc as (H1 & H2). apply in_app_iff in H2 as [H2|H2]; auto.
    left. apply I2. split; auto. apply in_app_iff. auto.
  - intros c Hc. apply I2 in Hc as (H1 & H2). apply in_app_iff in H2 as [H2|H2]; auto.
    left. apply I1. split; auto. apply in_app_iff. auto.
Qed.

(** Steps on the same labels, in some order. *)
Definition permuted_step (a b : pair_step) : Prop :=
  exists l r o l' r' o',
    operand_indices (sc_contraction (ps_sc a)) = [l; r] /\ output_indices (sc_contraction (ps_sc a)) = o
    /\ operand_indices (sc_contraction (ps_sc b)) = [l'; r'] /\ output_indices (sc_contraction (ps_sc b)) = o'
    /\ Permutation l l' /\ Permutation r r' /\ Permutation o o'.

Lemma plans_alike p p' steps steps' : path_order p = Pairs steps -> path_order p' = Pairs steps' ->
  Forall2 permuted_step steps steps' -> path_plan p -> path_plan p' ->
  alike_steps (steps_without_ops (path_steps p)) (steps_without_ops (path_steps p')).
Proof.
  unfold path_plan. intros -> -> HF.
  destruct (path_steps p) as [?|cs]; [contradiction|]. destruct (path_steps p') as [?|cs']; [contradiction|].
  simpl. revert cs cs'. induction HF as [|a b la lb Hab _ IH]; intros cs cs' H1 H2; inversion H1; inversion H2; subst;
    simpl; constructor; auto.
  destruct Hab as (xl & xr & xo & yl & yr & yo & E1 & E2 & E3 & E4 & P1 & P2 & P3).
  match goal with K : exists lhs rhs, operand_indices (sc_contraction (ps_sc a)) = _ /\ _ |- _ =>
    destruct K as (zl & zr & K1 & K2) end.
  match goal with K : exists lhs rhs, operand_indices (sc_contraction (ps_sc b)) = _ /\ _ |- _ =>
    destruct K as (wl & wr & K3 & K4) end.
  rewrite E1 in K1. rewrite E3 in K3. injection K1 as <- <-. injection K3 as <- <-.
  rewrite E2 in K2. rewrite E4 in K4. exact (pair_alike _ _ _ _ _ _ _ _ P1 P2 P3 K2 K4).
Qed.

Lemma chains_alike size out i L todo js lhs steps : chain size out i L todo js lhs steps ->
  forall size' i' L' js' lhs' steps', Permutation L L' -> chain size' out i' L' todo js' lhs' steps' ->
  Forall2 permuted_step steps steps'.
Proof.
  induction 1 as [i L r j lhs sc HS|i L r rest j js lhs sc M steps Hne HS HM HC IH];
    intros size' i' L' js' lhs' steps' HL HC'; inversion HC' as [? ? ? ? ? ? HS'|? ? ? ? ? ? ? ? M' ? Hne' HS' HM' HC2]; subst;
    try congruence; cbn [ps_sc].
  - constructor; [|constructor]. exists L, r, out, L', r, out. cbn [ps_sc].
    rewrite (sc_ops2 _ _ _ _ _ HS), (sc_out2 _ _ _ _ _ HS), (sc_ops2 _ _ _ _ _ HS'), (sc_out2 _ _ _ _ _ HS').
    do 4 (split; [reflexivity|]). auto.
  - assert (HP : Permutation M M').
    { apply NoDup_Permutation; [apply HS|apply HS'|]. intros c. rewrite HM, HM'.
      split; intros [[H|H] H2]; split; auto; left;
        [apply (Permutation_in c HL)|apply (Permutation_in c (Permutation_sym HL))]; auto. }
    constructor; [|eapply IH; eauto].
    exists L, r, M, L', r, M'. cbn [ps_sc].
    rewrite (sc_ops2 _ _ _ _ _ HS), (sc_out2 _ _ _ _ _ HS), (sc_ops2 _ _ _ _ _ HS'), (sc_out2 _ _ _ _ _ HS').
    do 4 (split; [reflexivity|]). auto.
Qed.

Lemma from_path_order h k o p : from_path h k o = Ok p -> path_order p = o.
Proof.
  intros Ep. unfold from_path in Ep. destruct o as [sc|steps].
  - destruct (singleton_contraction_new sc); cbn [rbind] in Ep; try discriminate. injection Ep as <-. auto.
  - destruct (mapM _ _) in Ep; cbn [rbind] in Ep; try discriminate. injection Ep as <-. auto.
Qed.

(** The order a strategy takes the operands in. *)
Definition taken (strategy : optimization_method) (n : nat) : list nat :=
  match strategy with Reverse => rev (seq 0 n) | _ => seq 0 n end.

Lemma call_order {A} h s (arrays : list (arr A)) ops out size strategy p : hash_ok h ->
  call_ok s (map (@a_shape A) arrays) ops out size -> einsum_path_fn h s arrays strategy = Ok p ->
  (exists sc', length ops = 1 /\ path_order p = Singleton sc'
     /\ sized sc' (map (fun i => nth i ops []) (taken strategy (length ops))) out size)
  \/ (exists i0 js L todo steps, taken strategy (length ops) = i0 :: js
        /\ map (fun i => nth i ops []) (taken strategy (length ops)) = L :: todo
        /\ path_order p = Pairs steps /\ chain size out 0 L todo js (Input i0) steps).
Proof.
  intros Hh Hc. unfold einsum_path_fn, validate_and_optimize_order, get_operand_shapes.
  destruct (from_string_ok h (7 :: [22]) s _ ops out size Hh Hc) as (sc & E & HS). rewrite E. cbn [rbind].
  assert (Hne : ops <> []).
  { destruct Hc as (Hm & _). eapply meaning_nonempty; eauto. }
  assert (El : length (operand_indices (sc_contraction sc)) = length ops) by (destruct HS as (-> & _); auto).
  assert (HG : forall k ord, Permutation ord (seq 0 (length ops)) ->
    rbind (generate_path h k sc ord) (fun order => from_path h [23] order) = Ok p ->
    (exists sc', length ops = 1 /\ path_order p = Singleton sc'
       /\ sized sc' (map (fun i => nth i ops []) ord) out size)
    \/ (exists i0 js L todo steps, ord = i0 :: js /\ map (fun i => nth i ops []) ord = L :: todo
        /\ path_order p = Pairs steps /\ chain size out 0 L todo js (Input i0) steps)).
  { intros k ord Hp Ep.
    destruct (generate_path_ok h k size Hh sc ops out ord HS Hne Hp)
      as [(sc' & Hl & Eg & HS')|(i0 & js & L & todo & steps & E1 & E2 & _ & Eg & Hch)];
      rewrite Eg in Ep; cbn [rbind] in Ep; apply from_path_order in Ep.
    - left. exists sc'. auto.
    - right. exists i0, js, L, todo, steps. auto. }
  unfold generate_optimized_order, naive_order, reverse_order. rewrite El.
  destruct strategy; try discriminate; simpl taken; apply HG; auto.
  apply Permutation_sym, Permutation_rev.
Qed.

(** ** The methods follow from the string and the strategy *)

(** Two calls with the same string and strategy, on arrays of any shapes and types and with any hash maps:
    the same number of steps, each with the same contractor, after the same simplifications. *)
Theorem methods_follow_from_the_string :
  forall (A B : Type) h h' s (arrays : list (arr A)) (arrays' : list (arr B)) strategy p p',
    hash_ok h -> hash_ok h' ->
    einsum_path_fn h s arrays strategy = Ok p -> einsum_path_fn h' s arrays' strategy = Ok p' ->
    alike_steps (steps_without_ops (path_steps p)) (steps_without_ops (path_steps p')).
Proof.
  intros A B h h' s arrays arrays' strategy p p' Hh Hh' Ep Ep'.
  pose proof (compiled_paths_follow_the_plan A h s arrays strategy p Hh Ep) as P1.
  pose proof (compiled_paths_follow_the_plan B h' s arrays' strategy p' Hh' Ep') as P2.
  destruct (accepted_dec h Hh s (map (@a_shape A) arrays)) as [(ops & out & size & Hc)|Hn];
    [|apply (path_rejects h Hh s arrays strategy) in Hn as (m & Em); congruence].
  destruct (accepted_dec h' Hh' s (map (@a_shape B) arrays')) as [(ops' & out' & size' & Hc')|Hn];
    [|apply (path_rejects h' Hh' s arrays' strategy) in Hn as (m & Em); congruence].
  assert (ops' = ops /\ out' = out) as [-> ->].
  { destruct Hc as (Hm & _), Hc' as (Hm' & _). eapply meaning_unique; eauto. }
  destruct (call_order h s arrays ops out size strategy p Hh Hc Ep)
    as [(sc & Hl & Eo & HS)|(i0 & js & L & todo & steps & E1 & E2 & Eo & HC)];
    destruct (call_order h' s arrays' ops out size' strategy p' Hh' Hc' Ep')
    as [(sc' & Hl' & Eo' & HS')|(i0' & js' & L' & todo' & steps' & E1' & E2' & Eo' & HC')].
  - destruct ops as [|ix [|? ?]]; try discriminate.
    assert (E : map (fun i => nth i [ix] []) (taken strategy (length [ix])) = [ix]) by (destruct strategy; reflexivity).
    rewrite E in HS, HS'. unfold path_plan in P1, P2. rewrite Eo in P1. rewrite Eo' in P2.
    destruct (path_steps p) as [c|?]; [|contradiction]. destruct (path_steps p') as [c'|?]; [|contradiction]. simpl.
    destruct P1 as (this & T1 & C1 & _), P2 as (this' & T2 & C2 & _).
    rewrite (sc_op _ _ _ _ HS) in T1. rewrite (sc_op _ _ _ _ HS') in T2.
    injection T1 as <-. injection T2 as <-. rewrite (sc_out _ _ _ _ HS) in C1. rewrite (sc_out _ _ _ _ HS') in C2.
    destruct HS as (_ & [Hn Hi] & _). simpl in Hi. rewrite app_nil_r in Hi.
    eapply singleton_case_unique; eauto.
  - exfalso. destruct ops as [|ix [|? ?]]; try discriminate.
    assert (E : map (fun i => nth i [ix] []) (taken strategy (length [ix])) = [ix]) by (destruct strategy; reflexivity).
    rewrite E in E2'. injection E2' as <- <-. inversion HC'.
  - exfalso. destruct ops as [|ix [|? ?]]; try discriminate.
    assert (E : map (fun i => nth i [ix] []) (taken strategy (length [ix])) = [ix]) by (destruct strategy; reflexivity).
    rewrite E in E2. injection E2 as <- <-. inversion HC.
  - rewrite E2 in E2'. injection E2' as <- <-. apply (plans_alike p p' steps steps'); auto.
    exact (chains_alike _ _ _ _ _ _ _ _ HC _ _ _ _ _ _ (Permutation_refl _) HC').
Qed.
Print Assumptions methods_follow_from_the_string.

(** The label [m] is summed first, with or without moving the other axes, and the arrays have other
    lengths. *)
Definition some_call (h : hash_order) (n : nat) : res steps_said :=
  do p <- einsum_path_fn h (chars "ijm,jk->ik")
            [zarr [n; n; n] (repeat 1%Z (n * n * n)); zarr [n; n] (repeat 1%Z (n * n))] Naive;
  Ok (steps_without_ops (path_steps p)).

Example methods_case :
  some_call id_hash 2 = Ok (SaidPairs [PairSaid (Some (SimplSaid MSummation (chars "ij") (chars "ijm->ij"))) None
                                         MTensordotGeneral (chars "ij,jk->ik")])
  /\ some_call rev_hash 1 = Ok (SaidPairs [PairSaid (Some (SimplSaid MPermutationAndSummation (chars "ji")
                                         (chars "ijm->ji"))) None MTensordotGeneral (chars "ji,jk->ik")]).
Proof. split; vm_compute; reflexivity. Qed.

(** So the methods of simplifications are not determined exactly. *)
Theorem simplification_methods_are_reproducible_refuted :
  ~ (forall h h' s (arrays : list (arr Z)) strategy p p', hash_ok h -> hash_ok h' ->
       einsum_path_fn h s arrays strategy = Ok p -> einsum_path_fn h' s arrays strategy = Ok p' ->
       steps_without_ops (path_steps p) = steps_without_ops (path_steps p')).
Proof.
  intros H.
  assert (K : some_call id_hash 2 = some_call rev_hash 2).
  { unfold some_call.
    destruct (einsum_path_fn id_hash _ _ _) as [p| |] eqn:E1 in |- *; [|vm_compute in E1; discriminate..].
    destruct (einsum_path_fn rev_hash _ _ _) as [p'| |] eqn:E2 in |- *; [|vm_compute in E2; discriminate..].
    cbn [rbind]. rewrite (H _ _ _ _ _ _ _ id_hash_ok' rev_hash_ok' E1 E2). auto. }
  vm_compute in K. discriminate.
Qed.
Print Assumptions simplification_methods_are_reproducible_refuted.

(** ** Stored paths *)

Lemma contracts_sized size out i pool steps : contracts size out i pool steps ->
  Forall (fun st => exists l r o, sized (ps_sc st) [l; r] o size) steps.
Proof. induction 1; constructor; cbn [ps_sc]; eauto. Qed.

(** Any valid order, compiled by two programs. *)
Theorem valid_orders_use_the_same_methods :
  forall h h' k k' size ops out o p p', hash_ok h -> hash_ok h' -> valid_order size ops out o ->
    from_path h k o = Ok p -> from_path h' k' o = Ok p' ->
    alike_steps (steps_without_ops (path_steps p)) (steps_without_ops (path_steps p')).
Proof.
  intros h h' k k' size ops out o p p' Hh Hh' Hv Ep Ep'. destruct o as [sc|steps].
  - unfold from_path in Ep, Ep'. destruct (singleton_contraction_new sc); try discriminate.
    cbn [rbind] in Ep, Ep'. injection Ep as <-. injection Ep' as <-. simpl. auto.
  - pose proof (from_path_order _ _ _ _ Ep) as E1. pose proof (from_path_order _ _ _ _ Ep') as E2.
    simpl in Hv. apply contracts_sized in Hv.
    assert (HP : forall h k p, hash_ok h -> from_path h k (Pairs steps) = Ok p -> path_plan p).
    { clear - Hv. intros h k p Hh E. cbn [from_path] in E.
      destruct (mapM _ _) as [l| |] eqn:Em in E; try discriminate. cbn [rbind] in E. injection E as <-.
      unfold path_plan. cbn [path_order path_steps]. rewrite Forall_forall in Hv.
      apply mapM_Forall2 with (P := fun ist c => exists lhs rhs,
        operand_indices (sc_contraction (ps_sc (snd ist))) = [lhs; rhs]
        /\ pair_plan lhs rhs (output_indices (sc_contraction (ps_sc (snd ist)))) c) in Em.
      + clear - Em. generalize 0 as n, l, Em. clear. induction steps as [|st steps IH]; intros n l Em; inversion Em; subst; auto.
        constructor; [exact H1|]. eapply IH; eauto.
      + intros [i st] c Hin Ec. cbn [fst snd] in *. apply in_combine_r in Hin.
        destruct (Hv st Hin) as (lhs & rhs & oo & HSs). exists lhs, rhs.
        rewrite (sc_ops2 _ _ _ _ _ HSs), (sc_out2 _ _ _ _ _ HSs). split; auto. eapply pair_plan_ok; eauto. }
    apply (plans_alike p p' steps steps); eauto.
    clear - Hv. induction Hv as [|st steps (l & r & oo & HS) _ IH]; constructor; auto.
    exists l, r, oo, l, r, oo.
    rewrite (sc_ops2 _ _ _ _ _ HS), (sc_out2 _ _ _ _ _ HS). repeat split; auto.
Qed.
Print Assumptions valid_orders_use_the_same_methods.

(** A stored path, and its order compiled again by another program: every step is computed as was stored. *)
Theorem stored_methods_are_used_again :
  forall (A : Type) h hw kw s (arrays : list (arr A)) strategy p v, hash_ok h -> hash_ok hw ->
    einsum_path_fn h s arrays strategy = Ok p -> presents (ser_path hw kw p) v ->
    exists vo vs o' said, fields ["contraction_order"; "steps"] v = Some [vo; vs]
      /\ de_order vo = Some o' /\ read_steps vs = Some said
      /\ forall h' k' p', hash_ok h' -> from_path h' k' o' = Ok p' ->
         alike_steps said (steps_without_ops (path_steps p')).
Proof.
  intros A h hw kw s arrays strategy p v Hh Hw Ep Hv.
  destruct (accepted_dec h Hh s (map (@a_shape A) arrays)) as [(ops & out & size & Hc)|Hn];
    [|apply (path_rejects h Hh s arrays strategy) in Hn as (m & Em); congruence].
  unfold einsum_path_fn in Ep.
  destruct (validate_and_optimize_order h [22] s (get_operand_shapes arrays) strategy) as [o|?|] eqn:Eo;
    try discriminate. cbn [rbind] in Ep.
  assert (Hvo : valid_order size ops out o) by exact (generated_orders_are_valid h [22] s _ strategy ops out size o Hh Hc Eo).
  pose proof (from_path_order _ _ _ _ Ep) as E1.
  unfold ser_path in Hv.
  destruct (fields_ok ["contraction_order"; "steps"] [ser_order hw kw (path_order p); ser_steps (path_steps p)]
              "EinsumPath" v) as (vs & E & HF); [names_distinct|reflexivity|exact Hv|].
  inversion HF as [|? vo ? l1 H1 H2]; subst. inversion H2 as [|? vst ? l2 H3 H4]; subst. inversion H4; subst.
  destruct (order_back hw kw (path_order p) vo Hw H1) as (o' & E' & Ho).
  exists vo, vst, o', (steps_without_ops (path_steps p)).
  split; [auto|]. split; [auto|]. split; [apply stored_steps_are_read; auto|].
  intros h' k' p' Hh' Ep'.
  pose proof (from_path_same h' k' o' (path_order p) Ho) as HS. rewrite Ep' in HS.
  destruct (from_path h' k' (path_order p)) as [q|?|] eqn:E2; simpl in HS; try contradiction.
  destruct HS as (_ & ->).
  exact (valid_orders_use_the_same_methods h h' [23] k' size ops out _ p q Hh Hh' Hvo Ep E2).
Qed.
Print Assumptions stored_methods_are_used_again.

(** A call with an order to store. *)
Example stored_methods_case :
  exists p, einsum_path_fn id_hash (chars "ijm,jk->ik")
              [zarr [1; 2; 1] [1; 2]%Z; zarr [2; 1] [3; 4]%Z] Naive = Ok p
    /\ (do p' <- from_path rev_hash [5] (path_order p); Ok (steps_without_ops (path_steps p')))
       = Ok (SaidPairs [PairSaid (Some (SimplSaid MPermutationAndSummation (chars "ji")
                                         (chars "ijm->ji"))) None MTensordotGeneral (chars "ji,jk->ik")]).
Proof. eexists. split; [vm_compute; reflexivity|]. vm_compute. reflexivity. Qed.
