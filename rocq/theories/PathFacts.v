(** The order of pair steps that [generate_path] produces, and what running it computes. *)
From Verif Require Import Base BaseFacts NDArray Validation Optimizers Strategies Singleton Pair Path
  Spec ValidationFacts SumFacts ArrayFacts TensordotFacts DiagFacts SingletonFacts PairFacts
  StackedFacts PairMain.
From Coq Require Import Lia.

(** [chain out i L todo js lhs steps]: the steps that combine an array with labels [L], found
    at [lhs], with the inputs [js], whose labels are [todo], into one with labels [out]. The
    results of these steps are the intermediate results [i], [i+1], ... *)
Inductive chain (size : char -> nat) (out : list char)
  : nat -> list char -> list (list char) -> list nat -> operand_number -> list pair_step -> Prop :=
| chain_last : forall i L r j lhs sc,
    sized sc [L; r] out size ->
    chain size out i L [r] [j] lhs [mkPair sc lhs (Input j)]
| chain_step : forall i L r rest j js lhs sc L' steps,
    rest <> [] ->
    sized sc [L; r] L' size ->
    (forall c, In c L' <-> (In c L \/ In c r) /\ (In c (concat rest) \/ In c out)) ->
    chain size out (S i) L' rest js (IntermediateResult i) steps ->
    chain size out i L (r :: rest) (j :: js) lhs (mkPair sc lhs (Input j) :: steps).

Lemma summed_labels_In ops out c : In c (summed_labels ops out) <-> In c (concat ops) /\ ~ In c out.
Proof.
  unfold summed_labels. rewrite filter_In, nodup_In, negb_true_iff.
  change (existsb (N.eqb c) out) with (mem c out). rewrite mem_false. tauto.
Qed.

Lemma summed_labels_NoDup ops out : NoDup (summed_labels ops out).
Proof. apply NoDup_filter, NoDup_nodup. Qed.

Lemma summed_labels_perm ops out cs : NoDup cs ->
  (forall c, In c cs <-> In c (concat ops) /\ ~ In c out) -> Permutation cs (summed_labels ops out).
Proof.
  intros Hn H. apply NoDup_Permutation; auto; [apply summed_labels_NoDup|].
  intros c. rewrite summed_labels_In. auto.
Qed.

Lemma skipn_nth_error {T} (l : list T) n x rest :
  skipn n l = x :: rest -> nth_error l n = Some x /\ skipn (S n) l = rest.
Proof.
  revert n; induction l as [|y l IH]; intros [|n] H; simpl in *; try discriminate.
  - injection H as -> ->. auto.
  - apply IH in H. auto.
Qed.

Section Generate.
Variables (h : hash_order) (k : key) (size : char -> nat).
Hypothesis Hh : hash_ok h.

Definition lhs_number (ord : list nat) (i : nat) : operand_number :=
  match i with O => Input (nth 0 ord 0) | S i' => IntermediateResult i' end.

Lemma path_loop sc ops out ord : sized sc ops out size -> length ord = length ops ->
  forall todo i js L acc,
    skipn (S i) ops = todo -> skipn (S i) ord = js -> todo <> [] ->
    incl L (concat ops) -> (forall c, In c out -> In c L \/ In c (concat todo)) ->
    exists L' steps,
      foldM (path_iteration h k sc ord) (seq i (length todo)) (L, acc) = Ok (L', acc ++ steps)
      /\ chain size out i L todo js (lhs_number ord i) steps.
Proof.
  intros HS Hlen. pose proof HS as (Hc & [Ho Hio] & _).
  induction todo as [|r rest IH]; intros i js L acc Et Ej Hne HL Hout; [congruence|].
  destruct (skipn_nth_error _ _ _ _ Et) as [Enr Erest].
  assert (Hli : S i < length ops) by (apply nth_error_Some; congruence).
  destruct js as [|j js].
  { exfalso. assert (Hl : length (skipn (S i) ord) = 0) by (rewrite Ej; auto).
    rewrite skipn_length in Hl. lia. }
  destruct (skipn_nth_error _ _ _ _ Ej) as [Enj Ejs].
  assert (Hlr : length rest = length ops - S (S i)) by (rewrite <- Erest, skipn_length; auto).
  assert (Hr : incl r (concat ops)).
  { intros c Hc'. apply in_concat. exists r. split; auto. eapply nth_error_In; eauto. }
  assert (El : (if Nat.eqb i 0 then do t0 <- index ord i; Ok (Input t0)
                else Ok (IntermediateResult (i - 1))) = Ok (lhs_number ord i)).
  { destruct i; cbn [Nat.eqb lhs_number].
    - rewrite (index_nth ord 0 0) by lia. reflexivity.
    - repeat f_equal. lia. }
  cbn [length seq foldM]. unfold path_iteration at 1.
  rewrite Hc. cbn [contraction_of operand_indices output_indices].
  rewrite (index_some _ _ _ Enr). cbn [rbind].
  destruct rest as [|r2 rest].
  - (* last step *)
    cbn [length] in Hlr.
    replace (Nat.eqb (S i) (length ops - 1)) with true by (symmetry; apply Nat.eqb_eq; lia).
    unfold generate_sized_contraction_pair.
    destruct (subset_ok h (i :: 4 :: k) sc ops out size [L; r] out Hh HS) as (sc' & Es & HSs).
    { simpl. rewrite app_nil_r. apply incl_app; auto. }
    { split; auto. simpl. rewrite app_nil_r. intros c Hc'. apply Hout in Hc'. simpl in Hc'.
      rewrite app_nil_r in Hc'. apply in_or_app; auto. }
    rewrite Es. cbn [unwrap_res rbind]. rewrite (index_some _ _ _ Enj). cbn [rbind].
    rewrite El. cbn [rbind length seq foldM].
    eexists _, _. split; [reflexivity|].
    assert (js = []).
    { apply length_zero_iff_nil. rewrite <- Ejs, skipn_length. lia. }
    subst js. rewrite H. constructor; auto.
  - replace (Nat.eqb (S i) (length ops - 1)) with false
      by (symmetry; apply Nat.eqb_neq; cbn [length] in Hlr; lia).
    rewrite Erest.
    set (L' := h (i :: 3 :: k) _).
    assert (IL' : forall c, In c L' <-> (In c L \/ In c r) /\ (In c (concat (r2 :: rest)) \/ In c out)).
    { intros c. unfold L'. rewrite hash_In by auto.
      unfold get_existing_indices, get_remaining_indices.
      rewrite filter_In, mem_In, !distinct_In, !in_app_iff. tauto. }
    assert (NL' : NoDup L').
    { apply hash_NoDup; auto. apply NoDup_filter, distinct_NoDup. }
    unfold generate_sized_contraction_pair.
    destruct (subset_ok h (i :: 4 :: k) sc ops out size [L; r] L' Hh HS) as (sc' & Es & HSs).
    { simpl. rewrite app_nil_r. apply incl_app; auto. }
    { split; auto. simpl. rewrite app_nil_r. intros c Hc'. apply IL' in Hc'.
      apply in_or_app. tauto. }
    rewrite Es. cbn [unwrap_res rbind]. rewrite (index_some _ _ _ Enj). cbn [rbind].
    rewrite El. cbn [rbind].
    destruct (IH (S i) js L' (acc ++ [mkPair sc' (lhs_number ord i) (Input j)])) as (L2 & steps & E & Hch); auto.
    { discriminate. }
    { intros c Hc'. apply IL' in Hc' as [[H|H] _]; auto. }
    { intros c Hc'. destruct (in_dec N.eq_dec c (concat (r2 :: rest))); auto. left. apply IL'.
      apply Hout in Hc' as Hd. rewrite concat_cons, in_app_iff in Hd. tauto. }
    exists L2, (mkPair sc' (lhs_number ord i) (Input j) :: steps).
    split; [rewrite E, <- app_assoc; reflexivity|].
    eapply chain_step; eauto. discriminate.
Qed.

Lemma permuted_ok sc ops out ord k' : sized sc ops out size -> Permutation ord (seq 0 (length ops)) ->
  exists sc', generate_permuted_contraction h k' sc ord = Ok sc'
    /\ sized sc' (map (fun i => nth i ops []) ord) out size.
Proof.
  intros HS Hp. pose proof HS as (Hc & [Ho Hio] & _). unfold generate_permuted_contraction.
  rewrite Hc. cbn [contraction_of operand_indices output_indices].
  rewrite (Permutation_length Hp), seq_length, Nat.eqb_refl. cbn [rassert rbind].
  rewrite (mapM_ok _ (fun i => nth i ops [])).
  2:{ intros i Hi. apply index_nth. apply (Permutation_in _ Hp), in_seq in Hi. lia. }
  cbn [rbind].
  assert (Pc : Permutation (map (fun i => nth i ops []) ord) ops).
  { eapply Permutation_trans; [apply Permutation_map, Hp|].
    assert (E : map (fun i => nth i ops []) (seq 0 (length ops)) = ops); [|rewrite E; auto].
    apply nth_ext with (d := []) (d' := []).
    - rewrite map_length, seq_length. auto.
    - intros n Hn. rewrite map_length, seq_length in Hn.
      rewrite (nth_indep _ [] (nth 0 ops [])) by (rewrite map_length, seq_length; auto).
      change (nth 0 ops []) with ((fun i => nth i ops []) 0).
      rewrite map_nth, seq_nth by auto. auto. }
  assert (Hset : forall c, In c (concat (map (fun i => nth i ops []) ord)) <-> In c (concat ops)).
  { intros c. rewrite !in_concat. split; intros (x & H1 & H2); exists x; split; auto;
      eapply Permutation_in; try exact H1; auto. apply Permutation_sym; auto. }
  destruct (subset_ok h k' sc ops out size (map (fun i => nth i ops []) ord) out Hh HS) as (sc' & Es & HSs).
  { intros c. apply Hset. }
  { split; auto. intros c Hc'. apply Hset. auto. }
  rewrite Es. cbn [unwrap_res]. eauto.
Qed.

(** The result of [generate_path], in terms of the permuted operands. *)
Lemma generate_path_ok sc ops out ord : sized sc ops out size -> ops <> [] ->
  Permutation ord (seq 0 (length ops)) ->
  let pops := map (fun i => nth i ops []) ord in
  (exists sc', length ops = 1 /\ generate_path h k sc ord = Ok (Singleton sc') /\ sized sc' pops out size)
  \/ (exists i0 js L todo steps, ord = i0 :: js /\ pops = L :: todo /\ todo <> []
       /\ generate_path h k sc ord = Ok (Pairs steps)
       /\ chain size out 0 L todo js (Input i0) steps).
Proof.
  intros HS Hne Hp pops. unfold generate_path.
  destruct (permuted_ok sc ops out ord (5 :: k) HS Hp) as (sc' & E & HS'). fold pops in HS'.
  rewrite E. cbn [rbind]. pose proof HS' as (Hc & Ho & _). rewrite Hc.
  cbn [contraction_of operand_indices output_indices].
  assert (Hlo : length ord = length ops) by (rewrite (Permutation_length Hp), seq_length; auto).
  assert (Hlp : length pops = length ops) by (unfold pops; rewrite map_length; auto).
  destruct ord as [|i0 js].
  { destruct ops; [congruence|discriminate]. }
  cbn [map] in pops. set (L := nth i0 ops []) in *. set (todo := map (fun i => nth i ops []) js) in *.
  change pops with (L :: todo) in *.
  destruct todo as [|r [|r2 rest]] eqn:Et.
  - left. cbn [length]. exists sc'. simpl in Hlp. auto.
  - right. exists i0, js, L, [r]. cbn [length].
    rewrite (index_nth (L :: [r]) 0 []) by (simpl; lia). cbn [rbind].
    rewrite (index_nth (L :: [r]) 1 []) by (simpl; lia). cbn [rbind nth].
    unfold generate_sized_contraction_pair.
    destruct (subset_ok h (6 :: k) sc' _ out size [L; r] out Hh HS') as (psc & Es & HSs); auto.
    { apply incl_refl. }
    rewrite Es. cbn [unwrap_res rbind].
    destruct js as [|j [|j2 js]]; try discriminate.
    rewrite (index_nth (i0 :: [j]) 0 0) by (simpl; lia). cbn [rbind].
    rewrite (index_nth (i0 :: [j]) 1 0) by (simpl; lia). cbn [rbind nth].
    eexists. split; [reflexivity|]. split; [reflexivity|]. split; [discriminate|].
    split; [reflexivity|]. constructor; auto.
  - right. exists i0, js, L, (r :: r2 :: rest). cbn [length].
    rewrite (index_nth (L :: _) 0 []) by (simpl; lia). cbn [rbind nth].
    rewrite usub_ok by lia. cbn [rbind].
    destruct (path_loop sc' _ out (i0 :: js) HS') with (todo := r :: r2 :: rest) (i := 0) (js := js) (L := L)
      (acc := @nil pair_step) as (L' & steps & Ef & Hch); auto.
    { rewrite Hlp. auto. }
    { discriminate. }
    { intros c Hc'. simpl. apply in_or_app. auto. }
    { intros c Hc'. destruct Ho as [_ Ho]. apply Ho in Hc'.
      change (concat (L :: r :: r2 :: rest)) with (L ++ concat (r :: r2 :: rest)) in Hc'.
      apply in_app_iff in Hc'. auto. }
    replace (S (S (S (length rest))) - 1) with (length (r :: r2 :: rest)) by (simpl; lia).
    rewrite Ef. cbn [rbind snd app].
    exists steps. split; [reflexivity|]. split; [reflexivity|]. split; [discriminate|].
    split; [reflexivity|]. exact Hch.
Qed.

End Generate.

(** ** Terms *)

Section Terms.
Context {A : Type} {Sc : Scalar A}.

Lemma elem_dep (a : arr A) ix : dep (fun e => elem a (map e ix)) ix.
Proof. intros e e' H. f_equal. apply map_ext_in. auto. Qed.

Lemma term_dep (arrays : list (arr A)) ops : dep (term arrays ops) (concat ops).
Proof.
  revert ops; induction arrays as [|a arrays IH]; intros [|ix ops] e e' H; unfold term; simpl; auto.
  f_equal.
  - apply (elem_dep a ix). intros c Hc. apply H. simpl. apply in_or_app; auto.
  - apply IH. intros c Hc. apply H. simpl. apply in_or_app; auto.
Qed.

Lemma term_cons (a : arr A) arrays ix ops e :
  term (a :: arrays) (ix :: ops) e = smul (elem a (map e ix)) (term arrays ops e).
Proof. reflexivity. Qed.

Lemma map_nth_seq {T} (l : list T) d : map (fun i => nth i l d) (seq 0 (length l)) = l.
Proof.
  apply nth_ext with (d := d) (d' := d).
  - rewrite map_length, seq_length. auto.
  - intros n Hn. rewrite map_length, seq_length in Hn.
    rewrite (nth_indep _ d (nth 0 l d)) by (rewrite map_length, seq_length; auto).
    change (nth 0 l d) with ((fun i => nth i l d) 0).
    rewrite map_nth, seq_nth by auto. auto.
Qed.

Lemma combine_map {T U V} (f : T -> U) (g : T -> V) l :
  combine (map f l) (map g l) = map (fun x => (f x, g x)) l.
Proof. induction l; simpl; congruence. Qed.

Hypothesis SR : near_semiring A.

Lemma term_permuted (arrays : list (arr A)) ops ord d e : length arrays = length ops ->
  Permutation ord (seq 0 (length ops)) ->
  term (map (fun i => nth i arrays d) ord) (map (fun i => nth i ops []) ord) e = term arrays ops e.
Proof.
  intros Hl Hp. unfold term. apply (product_perm SR). rewrite combine_map, map_map.
  eapply Permutation_trans; [apply Permutation_map, Hp|].
  assert (E : combine arrays ops = map (fun x => (nth x arrays d, nth x ops [])) (seq 0 (length ops))).
  { rewrite <- combine_map. f_equal; [|symmetry; apply map_nth_seq].
    rewrite <- Hl. symmetry. apply map_nth_seq. }
  rewrite E, map_map. apply Permutation_refl.
Qed.

End Terms.

(** ** Running a chain *)

Section Run.
Variables (h : hash_order) (size : char -> nat).
Hypothesis Hh : hash_ok h.
Context {A B : Type} {Sc : Scalar A} {Sb : Scalar B}.
Variable R : A -> B -> Prop.
Variable Z : A -> Prop.
Hypothesis HR : weak_relation R Z.
Hypothesis Hemp : no_empty_sums R Z size.
Variable lay : backend A.
Hypothesis Hlay : backend_runs lay.
Hypothesis Hfu : weak_fused R Z lay.
Hypothesis SR : summable B size.

(** The compiled step computes what its labels say. *)
Definition step_right (st : pair_step) (p : pair_contraction) : Prop :=
  forall l r o, sized (ps_sc st) [l; r] o size -> pair_computes size lay R l r o p.

Lemma sized_labels_unique sc l r o l' r' o' :
  sized sc [l; r] o size -> sized sc [l'; r'] o' size -> l = l' /\ r = r' /\ o = o'.
Proof.
  intros (H1 & _) (H2 & _). rewrite H1 in H2. unfold contraction_of in H2.
  injection H2. auto.
Qed.

Lemma compile_chain k out i L todo js lhs steps : chain size out i L todo js lhs steps ->
  forall j, exists pcs,
    mapM (fun ist => pair_contraction_new h (fst ist :: 9 :: k) (ps_sc (snd ist)))
      (combine (seq j (length steps)) steps) = Ok pcs
    /\ Forall2 step_right steps pcs.
Proof.
  assert (One : forall j sc l r o lhs n, sized sc [l; r] o size ->
    exists p, pair_contraction_new h (j :: 9 :: k) sc = Ok p /\ step_right (mkPair sc lhs n) p).
  { intros j sc l r o lhs' n HS.
    destruct (pair_contraction_ok h size Hh lay Hlay R Z HR Hemp Hfu SR SR (j :: 9 :: k) sc l r o HS) as (p & E & Hp).
    exists p. split; auto. intros l' r' o' HS'. cbn [ps_sc] in HS'.
    destruct (sized_labels_unique _ _ _ _ _ _ _ HS HS') as (-> & -> & ->). auto. }
  induction 1 as [i L r n lhs sc HS|i L r rest n js lhs sc L' steps Hne HS HL Hch IH]; intros j.
  - destruct (One j sc L r out lhs (Input n) HS) as (p & E & Hp).
    cbn [length seq combine mapM fst snd ps_sc]. rewrite E. cbn [rbind].
    eexists. split; [reflexivity|]. auto.
  - destruct (One j sc L r L' lhs (Input n) HS) as (p & E & Hp).
    destruct (IH (S j)) as (pcs & E2 & Hpcs).
    cbn [length seq combine mapM fst snd ps_sc]. rewrite E. cbn [rbind]. rewrite E2. cbn [rbind].
    eexists. split; [reflexivity|]. auto.
Qed.

(** The operand [a] has the shape the labels [ix] require. *)
Definition usable (a : arr A) (ix : list char) : Prop := wf a /\ a_shape a = map size ix.

(** Its elements, described by an array of related scalars. *)
Lemma usable_rrep a a' ix : usable a ix -> related_arrays R a a' ->
  rrep size R a ix (fun e => elem a' (map e ix)).
Proof.
  intros [Wa Sa] [Es Hr]. exists (fun e => elem a (map e ix)). split; [apply lrep_wf; auto|].
  intros e He. destruct (Hr (map e ix)) as (x & y & E1 & E2 & Hxy).
  - rewrite Sa. apply in_bounds_map; auto.
  - unfold elem. rewrite E1, E2. auto.
Qed.

(** [blocked_in] for the first operand or a later one. *)
Lemma blocked_in_cons (a : arr A) ix z out : blocked_in size ((a, ix) :: z) out <->
  blocked size a ix (concat (map snd z) ++ out) \/ blocked_in size z (ix ++ out).
Proof.
  split.
  - intros (p1 & b & jx & p2 & E & Hb). destruct p1 as [|x p1]; simpl in E.
    + injection E as -> -> ->. left. exact Hb.
    + injection E as <- ->. right. exists p1, b, jx, p2. split; auto.
      eapply blocked_ext; [|exact Hb]. intros c _. cbn [app map snd concat].
      rewrite !in_app_iff. tauto.
  - intros [Hb|(p1 & b & jx & p2 & -> & Hb)].
    + exists [], a, ix, z. auto.
    + exists ((a, ix) :: p1), b, jx, p2. split; auto.
      eapply blocked_ext; [|exact Hb]. intros c _. cbn [app map snd concat].
      rewrite !in_app_iff. tauto.
Qed.

Lemma blocked_in_ext (z : list (arr A * list char)) o o' :
  (forall c, In c (concat (map snd z)) -> In c o <-> In c o') ->
  blocked_in size z o -> blocked_in size z o'.
Proof.
  intros H (p1 & b & jx & p2 & -> & Hb). exists p1, b, jx, p2. split; auto.
  eapply blocked_ext; [|exact Hb]. intros c Hc. rewrite !in_app_iff, H; [tauto|].
  rewrite map_app, concat_app. cbn [map snd concat]. rewrite !in_app_iff. auto.
Qed.

Lemma blocked_in_perm (z z' : list (arr A * list char)) o :
  Permutation z z' -> blocked_in size z o -> blocked_in size z' o.
Proof.
  intros Hp (p1 & b & jx & p2 & -> & Hb).
  assert (Hi : In (b, jx) z') by (eapply Permutation_in; [exact Hp|]; apply in_elt).
  apply in_split in Hi as (q1 & q2 & ->). exists q1, b, jx, q2. split; auto.
  apply Permutation_app_inv in Hp.
  eapply blocked_ext; [|exact Hb]. intros c _. rewrite !in_app_iff, !in_concat.
  split; (intros [(x & H1 & H2)|H]; [left; exists x; split; auto|auto]);
    eapply Permutation_in; try exact H1; apply Permutation_map; auto. apply Permutation_sym; auto.
Qed.

Lemma snd_combine (l : list (arr A)) (l' : list (list char)) :
  length l = length l' -> map snd (combine l l') = l'.
Proof. revert l'; induction l as [|a l IH]; intros [|x l'] H; simpl in *; try discriminate; f_equal; auto. Qed.

Lemma run_chain out i L todo js lhs steps : chain size out i L todo js lhs steps ->
  forall pcs, Forall2 step_right steps pcs ->
  forall operands ints bs bs' a F,
    length ints = i -> fetch operands ints lhs = Ok a ->
    wf a -> rrep size R a L F -> dep F L ->
    Forall2 (fun j b => index operands j = Ok b) js bs -> Forall2 usable bs todo ->
    Forall2 (related_arrays R) bs bs' ->
    let run := foldM (run_step lay operands) (combine pcs steps) ints in
    (run = Panic /\ blocked_in size (combine (a :: bs) (L :: todo)) out)
    \/ (~ blocked_in size (combine (a :: bs) (L :: todo)) out
        /\ exists ints' r cs, run = Ok (ints ++ ints' ++ [r])
             /\ NoDup cs /\ (forall c, In c cs <-> (In c L \/ In c (concat todo)) /\ ~ In c out)
             /\ rrep size R r out (nested_sum size cs (fun e => smul (F e) (term bs' todo e)))).
Proof.
  induction 1 as [i L r n lhs sc HS|i L r rest n js lhs sc L' steps Hne HS HL Hch IH];
    intros pcs Hp operands ints bs zs a F Hi Hf Wa Ha Df Hb Hu Hz run; unfold run; clear run.
  - inversion Hp as [|? p ? pcs' Hr Hp']; subst. inversion Hp'; subst. clear Hp Hp'.
    inversion Hb as [|? b ? bs' Eb Hb']; subst. inversion Hb'; subst. clear Hb Hb'.
    inversion Hu as [|? ? ? ? Ub Hu']; subst. clear Hu Hu'. pose proof Ub as [Wb _].
    inversion Hz as [|? z ? zs' Rz Hz']; subst. inversion Hz'; subst. clear Hz Hz'.
    cbn [combine foldM run_step ps_lhs ps_rhs]. rewrite Hf. cbn [rbind fetch]. rewrite Eb. cbn [rbind].
    pose proof (usable_rrep b z r Ub Rz) as Lb.
    pose proof (Hr L r out HS a b F _ Wa Wb Ha Lb Df (elem_dep z r)) as Ho.
    assert (Hbl : blocked_in size (combine [a; b] [L; r]) out
                  <-> blocked size a L (r ++ out) \/ blocked size b r (L ++ out)).
    { cbn [combine]. rewrite !blocked_in_cons. cbn [map snd concat]. rewrite app_nil_r.
      split; intros [H|H]; auto.
      - destruct H as [H|(p1 & ? & ? & ? & E & _)]; [right|destruct p1; discriminate].
        exact H. }
    destruct Ho as [[Er Hd]|[Hd1 [Hd2 (res & cs & Er & Pc & Hres)]]].
    { rewrite Er. cbn [rbind]. left. split; auto. apply Hbl; auto. }
    rewrite Er. cbn [rbind foldM]. right. split; [rewrite Hbl; tauto|].
    exists [], res, cs. split; [reflexivity|]. split; [|split].
    + eapply Permutation_NoDup; [apply Permutation_sym; exact Pc|]. apply NoDup_filter, distinct_NoDup.
    + intros c. simpl. rewrite app_nil_r, <- summed2_In. split; apply Permutation_in; auto.
      apply Permutation_sym; auto.
    + eapply rrep_ext; [|exact Hres]. intros e He. apply nested_sum_ext_all. intros e'.
      rewrite term_cons. unfold term. simpl. unfold product. simpl. rewrite (mul_1_r SR). auto.
  - inversion Hp as [|? p ? pcs' Hr Hp']; subst. clear Hp.
    inversion Hb as [|? b ? bs' Eb Hb']; subst. clear Hb.
    inversion Hu as [|? ? ? ? Ub Hu']; subst. clear Hu. pose proof Ub as [Wb _].
    inversion Hz as [|? z ? zs' Rz Hz']; subst. clear Hz.
    cbn [combine foldM run_step ps_lhs ps_rhs]. rewrite Hf. cbn [rbind fetch]. rewrite Eb. cbn [rbind].
    pose proof (usable_rrep b z r Ub Rz) as Lb.
    pose proof (Hr L r L' HS a b F _ Wa Wb Ha Lb Df (elem_dep z r)) as Ho.
    assert (Hlz : length bs' = length rest) by (eapply Forall2_len; eauto).
    assert (NL' : NoDup L') by (destruct HS as (_ & [H _] & _); auto).
    assert (Hbl : forall x : arr A, blocked_in size (combine (a :: b :: bs') (L :: r :: rest)) out
                  <-> (blocked size a L (r ++ L') \/ blocked size b r (L ++ L'))
                      \/ blocked_in size (combine (x :: bs') (L' :: rest)) out).
    { intros x. cbn [combine]. rewrite !blocked_in_cons. cbn [map snd concat].
      rewrite !snd_combine by auto.
      assert (HbL' : ~ blocked size x L' (concat rest ++ out)) by (intros [H _]; contradiction).
      assert (E1 : blocked size a L ((r ++ concat rest) ++ out) <-> blocked size a L (r ++ L')).
      { split; apply blocked_ext; intros c Hc; rewrite !in_app_iff, HL; tauto. }
      assert (E2 : blocked size b r (concat rest ++ L ++ out) <-> blocked size b r (L ++ L')).
      { split; apply blocked_ext; intros c Hc; rewrite !in_app_iff, HL; tauto. }
      assert (E3 : blocked_in size (combine bs' rest) (r ++ L ++ out)
                   <-> blocked_in size (combine bs' rest) (L' ++ out)).
      { split; apply blocked_in_ext; intros c Hc; rewrite snd_combine in Hc by auto;
          rewrite !in_app_iff, HL; tauto. }
      rewrite E1, E2, E3. tauto. }
    destruct Ho as [[Er Hd]|[Hd1 [Hd2 (res & cs & Er & Pc & Hres)]]].
    { rewrite Er. cbn [rbind]. left. split; auto. apply (Hbl a); auto. }
    rewrite Er. cbn [rbind].
    assert (Ncs : NoDup cs).
    { eapply Permutation_NoDup; [apply Permutation_sym; exact Pc|]. apply NoDup_filter, distinct_NoDup. }
    assert (Ics : forall c, In c cs <-> (In c L \/ In c r) /\ ~ In c L').
    { intros c. rewrite <- summed2_In. split; apply Permutation_in; auto. apply Permutation_sym; auto. }
    set (F' := nested_sum size cs (fun e => smul (F e) (elem z (map e r)))) in *.
    assert (DF' : dep F' L').
    { unfold F'. eapply dep_incl; [|apply (nested_sum_dep size cs (L ++ r))].
      - intros c Hc. apply filter_In in Hc as [Hc Hn]. apply negb_true_iff, mem_false in Hn.
        rewrite Ics in Hn. apply in_app_iff in Hc. destruct (in_dec N.eq_dec c L'); tauto.
      - intros e e' Hag. f_equal.
        + apply Df. intros c Hc. apply Hag, in_or_app; auto.
        + apply (elem_dep z r). intros c Hc. apply Hag, in_or_app; auto. }
    unshelve epose proof (IH pcs' Hp' operands (ints ++ [res]) bs' zs' res F' _ _ _ _ _ _ _ _) as Ho'; auto.
    { rewrite app_length. simpl. lia. }
    { cbn [fetch]. apply index_some. rewrite nth_error_app2, Nat.sub_diag by lia. reflexivity. }
    { destruct Hres as (F0 & Hres & _). apply (lrep_is_wf size res L' F0 NL' Hres). }
    destruct Ho' as [[Ef Hd]|[Hd (ints' & rf & cs' & Ef & Ncs' & Ics' & Hrf)]].
    { left. split; auto. apply (Hbl res). auto. }
    right. split; [rewrite (Hbl res); tauto|]. rewrite Ef. exists (res :: ints'), rf, (cs' ++ cs).
    split; [rewrite <- app_assoc; reflexivity|]. split; [|split].
    + apply NoDup_app_intro; auto. intros c. rewrite Ics, Ics', HL. tauto.
    + intros c. rewrite in_app_iff, Ics, Ics', HL, concat_cons, in_app_iff.
      destruct (in_dec N.eq_dec c L), (in_dec N.eq_dec c r), (in_dec N.eq_dec c (concat rest)),
        (in_dec N.eq_dec c out); tauto.
    + eapply rrep_ext; [|exact Hrf]. intros e He. rewrite nested_sum_app.
      apply nested_sum_ext_all. intros e'. unfold F'.
      rewrite <- (nested_sum_mul_r SR cs (concat rest)).
      * apply nested_sum_ext_all. intros e2. rewrite term_cons. symmetry. apply (ns_mul_assoc SR).
      * apply term_dep.
      * intros c. rewrite Ics, HL. tauto.
Qed.

(** ** The whole path *)

Definition usables (arrays : list (arr A)) (ops : list (list char)) : Prop := Forall2 usable arrays ops.

Lemma usables_intro arrays ops : Forall wf arrays -> shapes_ok size ops (map (@a_shape A) arrays) ->
  usables arrays ops.
Proof.
  unfold usables. revert ops; induction arrays as [|a arrays IH]; intros [|ix ops] Hw Hs;
    inversion Hs; subst; constructor.
  - inversion Hw; subst. split; auto.
  - inversion Hw; subst. auto.
Qed.

Lemma combine_nth_error {T U} (l : list T) (l' : list U) i x y :
  nth_error l i = Some x -> nth_error l' i = Some y -> nth_error (combine l l') i = Some (x, y).
Proof.
  revert l' i; induction l as [|a l IH]; intros [|b l'] [|i]; simpl; intros H1 H2; try discriminate.
  - congruence.
  - auto.
Qed.

Definition computes_einsum (p : einsum_path) (ops : list (list char)) (out : list char) : Prop :=
  forall arrays arrays', usables arrays ops -> Forall2 (related_arrays R) arrays arrays' ->
    (contract_operands lay p arrays = Panic /\ blocked_in size (combine arrays ops) out)
    \/ (~ blocked_in size (combine arrays ops) out
        /\ exists r f, contract_operands lay p arrays = Ok r
             /\ holds r (map size out) f
             /\ forall o, in_bounds (map size out) o = true ->
                  R (f o) (einsum_value size arrays' ops out o)).

Lemma holds_of_rrep (r : arr A) ops out (arrays' : list (arr B)) cs F : NoDup out ->
  NoDup cs -> (forall c, In c cs <-> In c (concat ops) /\ ~ In c out) ->
  (forall e, F e = term arrays' ops e) ->
  rrep size R r out (nested_sum size cs F) ->
  exists f, holds r (map size out) f
    /\ forall o, in_bounds (map size out) o = true -> R (f o) (einsum_value size arrays' ops out o).
Proof.
  intros Ho Nc Ic HF (F0 & Hr & HR0).
  exists (fun idx => F0 (bind out idx)). split; [apply lrep_holds; auto|].
  intros o Hb. pose proof (in_bounds_length _ _ Hb) as Hl. rewrite map_length in Hl.
  replace (einsum_value size arrays' ops out o) with (nested_sum size cs F (bind out o)).
  - apply HR0. apply in_bounds_map. rewrite map_bind; auto.
  - unfold einsum_value. rewrite (nested_sum_ext_all size cs F (term arrays' ops)) by auto.
    eapply (nested_sum_perm SR); [apply term_dep|auto|]. apply summed_labels_perm; auto.
Qed.

Theorem generated_path_computes k k' sc ops out ord : sized sc ops out size -> ops <> [] ->
  Permutation ord (seq 0 (length ops)) ->
  exists order p, generate_path h k sc ord = Ok order /\ from_path h k' order = Ok p
    /\ computes_einsum p ops out.
Proof.
  intros HS Hne Hp. pose proof HS as (_ & [Ho Hio] & _).
  destruct (generate_path_ok h k size Hh sc ops out ord HS Hne Hp) as
    [(sc' & Hl & E & HS')|(i0 & js & L & todo & steps & Eo & Ep & Ht & E & Hch)].
  - destruct ops as [|this [|? ?]]; try discriminate. cbn [length seq] in Hp.
    assert (ord = [0]).
    { apply Permutation_length_1_inv in Hp || (apply Permutation_sym, Permutation_length_1_inv in Hp); auto. }
    subst ord. cbn [map nth] in HS'.
    destruct (singleton_contraction_ok sc' this out size HS' lay Hlay) as (c & Ec & Hc & _).
    eexists _, _. split; [exact E|]. cbn [from_path]. rewrite Ec. cbn [rbind]. split; [reflexivity|].
    intros arrays arrays' Hu Hz. inversion Hu as [|a ? ? ? Ua Hu']; subst. inversion Hu'; subst.
    inversion Hz as [|? z ? ? Rz Hz']; subst. inversion Hz'; subst. pose proof Ua as [Wa Sa].
    cbn [contract_operands path_steps path_order]. unfold index. cbn [nth_error unwrap rbind].
    pose proof (Hc a (fun e => elem a (map e this)) Wa (lrep_wf size a this Wa Sa)) as Hc1.
    assert (Hbl : blocked_in size (combine [a] [this]) out <-> blocked size a this out).
    { cbn [combine]. rewrite blocked_in_cons. cbn [map snd concat app]. split; auto.
      intros [H|(p1 & ? & ? & ? & Hx & _)]; auto. destruct p1; discriminate. }
    destruct Hc1 as [[Er Hd]|[Hd (r & cs & Er & Pc & Hr)]]; [left; split; auto; apply Hbl; auto|].
    right. split; [rewrite Hbl; auto|].
    assert (Hr' : rrep size R r out (nested_sum size cs (fun e => elem z (map e this)))).
    { destruct Rz as [Es Hr0]. eapply (rrep_simplified size R Z HR Hemp SR r this out cs); [| |exact Hr].
      - intros x. rewrite <- (summed1_In this out x). split; apply Permutation_in; auto.
        apply Permutation_sym; auto.
      - intros e He. destruct (Hr0 (map e this)) as (x & y & E1 & E2 & Hxy).
        + rewrite Sa. apply in_bounds_map; auto.
        + unfold elem. rewrite E1, E2. auto. }
    destruct (holds_of_rrep r [this] out [z] cs (fun e => elem z (map e this))) as (f & Hf & Rf); auto.
    4:{ exists r, f. auto. }
    + eapply Permutation_NoDup; [apply Permutation_sym; exact Pc|]. apply NoDup_filter, distinct_NoDup.
    + intros x. simpl. rewrite app_nil_r, <- (summed1_In this out x). split; apply Permutation_in; auto.
      apply Permutation_sym; auto.
    + intros e. unfold term, product. simpl. symmetry. apply (mul_1_r SR).
  - destruct (compile_chain k' out 0 L todo js (Input i0) steps Hch 0) as (pcs & Ec & Hpcs).
    eexists _, _. split; [exact E|]. cbn [from_path]. rewrite Ec. cbn [rbind]. split; [reflexivity|].
    intros arrays arrays' Hu Hz. cbn [contract_operands path_steps path_order].
    assert (Hla : length arrays = length ops) by (clear -Hu; induction Hu; simpl; auto).
    assert (Hd : exists d : arr A, True).
    { destruct arrays as [|d ?]; [|eauto]. destruct ops; [congruence|discriminate]. }
    destruct Hd as [d _].
    assert (Hlz : length arrays' = length arrays) by (symmetry; eapply Forall2_len; eauto).
    assert (Hd : exists d' : arr B, True).
    { destruct arrays' as [|d' ?]; [|eauto]. destruct arrays; [destruct ops; [congruence|discriminate]|discriminate]. }
    destruct Hd as [d' _].
    assert (Hrel : forall i, i < length arrays -> related_arrays R (nth i arrays d) (nth i arrays' d')).
    { clear -Hz. induction Hz as [|a z arrays arrays' Ha Hz IH]; intros [|i] Hi; simpl in *; try lia; auto.
      apply IH. lia. }
    assert (Hin : forall i, In i ord -> i < length arrays).
    { intros i Hi. apply (Permutation_in _ Hp), in_seq in Hi. lia. }
    assert (Hus : forall i, i < length arrays -> usable (nth i arrays d) (nth i ops [])).
    { clear -Hu. intros i Hi. revert i Hi. induction Hu as [|a ix arrays ops Ha Hu IH]; intros [|i] Hi; simpl in *; try lia; auto.
      apply IH. lia. }
    assert (Htodo : todo = map (fun i => nth i ops []) js) by (rewrite Eo in Ep; simpl in Ep; congruence).
    assert (HL : L = nth i0 ops []) by (rewrite Eo in Ep; simpl in Ep; congruence).
    assert (Hi0 : i0 < length arrays). { apply Hin. rewrite Eo. simpl; auto. }
    destruct (Hus i0) as [Wa Sa]; auto.
    unshelve epose proof (run_chain out 0 L todo js (Input i0) steps Hch pcs Hpcs arrays []
                (map (fun i => nth i arrays d) js) (map (fun i => nth i arrays' d') js) (nth i0 arrays d)
                (fun e => elem (nth i0 arrays' d') (map e L)) _ _ _ _ _ _ _ _) as Ho'; auto.
    + cbn [fetch]. apply index_nth. apply Hin. rewrite Eo. simpl; auto.
    + rewrite HL. apply usable_rrep; auto.
    + apply elem_dep.
    + clear -Hin Eo. assert (H : forall i, In i js -> i < length arrays).
      { intros i Hi. apply Hin. rewrite Eo. simpl; auto. } clear -H.
      induction js as [|j js IH]; simpl; constructor.
      * apply index_nth. apply H. simpl; auto.
      * apply IH. intros i Hi. apply H. simpl; auto.
    + rewrite Htodo. assert (H : forall i, In i js -> i < length arrays).
      { intros i Hi. apply Hin. rewrite Eo. simpl; auto. } clear -H Hus.
      induction js as [|j js IH]; simpl; constructor.
      * apply Hus. apply H. simpl; auto.
      * apply IH. intros i Hi. apply H. simpl; auto.
    + assert (H : forall i, In i js -> i < length arrays).
      { intros i Hi. apply Hin. rewrite Eo. simpl; auto. } clear -H Hrel.
      induction js as [|j js IH]; simpl; constructor.
      * apply Hrel. apply H. simpl; auto.
      * apply IH. intros i Hi. apply H. simpl; auto.
    + assert (Hperm : Permutation (combine (nth i0 arrays d :: map (fun i => nth i arrays d) js) (L :: todo))
                        (combine arrays ops)).
      { assert (Hc : combine (nth i0 arrays d :: map (fun i => nth i arrays d) js) (L :: todo)
                       = map (fun i => (nth i arrays d, nth i ops [])) ord).
        { rewrite Eo, HL, Htodo. cbn [map combine]. f_equal. apply combine_map. }
        rewrite Hc. eapply Permutation_trans; [apply Permutation_map, Hp|].
        rewrite <- combine_map, map_nth_seq, <- Hla, map_nth_seq. apply Permutation_refl. }
      assert (Hbl : blocked_in size (combine (nth i0 arrays d :: map (fun i => nth i arrays d) js) (L :: todo)) out
                    <-> blocked_in size (combine arrays ops) out).
      { split; apply blocked_in_perm; auto. apply Permutation_sym; auto. }
      destruct Ho' as [[Er Hd]|[Hd (ints & r & cs & Er & Nc & Ic & Hr)]].
      { left. rewrite Er. split; auto. apply Hbl; auto. }
      right. split; [rewrite <- Hbl; auto|]. rewrite Er. cbn [rbind app].
      assert (Epop : unwrap (pop_last (ints ++ [r])) = Ok r).
      { unfold pop_last. rewrite app_length. simpl.
        rewrite nth_error_app2 by lia. replace (length ints + 1 - 1 - length ints) with 0 by lia. reflexivity. }
      assert (Hset : forall c, In c (concat (map (fun i => nth i ops []) ord)) <-> In c (concat ops)).
      { intros c. replace (concat ops) with (concat (map (fun i => nth i ops []) (seq 0 (length ops))))
          by (rewrite map_nth_seq; auto). rewrite !in_concat.
        split; intros (x & H1 & H2); exists x; split; auto;
          eapply Permutation_in; try exact H1; apply Permutation_map; auto. apply Permutation_sym; auto. }
      destruct (holds_of_rrep r ops out arrays' cs
        (fun e => smul (elem (nth i0 arrays' d') (map e L)) (term (map (fun i => nth i arrays' d') js) todo e)))
        as (f & Hf & Rf); auto.
      * intros c. rewrite <- Hset, Ep, concat_cons, in_app_iff. apply Ic.
      * intros e. cbn beta. rewrite <- (term_permuted SR arrays' ops ord d') by (auto; congruence).
        rewrite Eo. cbn [map]. rewrite term_cons, <- HL, <- Htodo. reflexivity.
      * exists r, f. auto.
Qed.

End Run.
