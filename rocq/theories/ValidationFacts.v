(** Facts about validation: acceptance, summation labels, label lengths, subset, round trip. *)
From Verif Require Import Base BaseFacts Validation NDArray Spec ParserFacts.
From Coq Require Import Lia Sorted.

(** ** from_indices *)

(** What [from_indices] produces on acceptable labels, without reference to hash order. *)
Definition contraction_of (ops : list (list char)) (out : list char) : contraction :=
  mkContraction ops out
    (sort_chars (filter (fun c => negb (mem c out)) (distinct (concat ops)))).

Lemma check_output_ok inputs output order :
  check_output inputs output order = Ok tt
  <-> Forall (fun c => count c output <= 1 /\ In c inputs) order.
Proof.
  induction order as [|c order IH]; simpl.
  - split; auto.
  - destruct (Nat.ltb 1 (count c output)) eqn:E1.
    + apply Nat.ltb_lt in E1. split; [discriminate|]. intros H. inversion H; subst. lia.
    + apply Nat.ltb_ge in E1.
      destruct (mem c inputs) eqn:E2; simpl.
      * apply mem_In in E2. rewrite IH. split; intros H; [constructor; auto|inversion H; auto].
      * apply mem_false in E2. split; [discriminate|]. intros H. inversion H; subst. tauto.
Qed.

Lemma check_output_cases inputs output order :
  check_output inputs output order = Ok tt
  \/ (check_output inputs output order = Err msg_dup
      /\ Exists (fun c => 1 < count c output) order)
  \/ (check_output inputs output order = Err msg_unknown
      /\ Exists (fun c => ~ In c inputs) order).
Proof.
  induction order as [|c order IH]; simpl; auto.
  destruct (Nat.ltb 1 (count c output)) eqn:E1.
  - apply Nat.ltb_lt in E1. right; left. split; auto.
  - destruct (mem c inputs) eqn:E2; simpl.
    + destruct IH as [H|[[H1 H2]|[H1 H2]]]; auto.
    + apply mem_false in E2. right; right; split; auto.
Qed.

Lemma output_ok_order h k ops out :
  hash_ok h ->
  (output_ok ops out
   <-> Forall (fun c => count c out <= 1 /\ In c (concat ops)) (h k (distinct out))).
Proof.
  intros Hh. rewrite Forall_forall. unfold output_ok. split.
  - intros [Hn Hi] c Hc. rewrite hash_In, distinct_In in Hc by auto.
    rewrite count_NoDup in Hn. auto.
  - intros H. split.
    + apply count_NoDup. intros c. destruct (in_dec char_eq_dec c out) as [Hi|Hi].
      * apply H. rewrite hash_In, distinct_In; auto.
      * apply count_nil in Hi. lia.
    + intros c Hc. apply H. rewrite hash_In, distinct_In; auto.
Qed.

Lemma filter_hash_sort h k (f : char -> bool) l :
  hash_ok h -> NoDup l -> sort_chars (filter f (h k l)) = sort_chars (filter f l).
Proof.
  intros Hh Hn. apply sort_chars_same.
  - apply NoDup_filter, hash_NoDup; auto.
  - apply NoDup_filter; auto.
  - intros c. rewrite !filter_In, hash_In by auto. tauto.
Qed.

Lemma from_indices_ok h k ops out :
  hash_ok h -> output_ok ops out -> from_indices h k ops out = Ok (contraction_of ops out).
Proof.
  intros Hh Ho. unfold from_indices.
  rewrite (output_ok_order h (0 :: k) ops out Hh) in Ho. apply check_output_ok in Ho.
  rewrite Ho. simpl. unfold contraction_of. do 2 f_equal.
  apply filter_hash_sort; auto. apply distinct_NoDup.
Qed.

Lemma from_indices_err h k ops out :
  hash_ok h -> ~ output_ok ops out ->
  (from_indices h k ops out = Err msg_dup /\ ~ NoDup out)
  \/ (from_indices h k ops out = Err msg_unknown /\ ~ incl out (concat ops)).
Proof.
  intros Hh Ho. unfold from_indices.
  rewrite (output_ok_order h (0 :: k) ops out Hh) in Ho. rewrite <- check_output_ok in Ho.
  destruct (check_output_cases (concat ops) out (h (0 :: k) (distinct out)))
    as [H|[[H He]|[H He]]]; [contradiction| |]; rewrite H; simpl.
  - left. split; auto. apply Exists_exists in He as (c & _ & Hc).
    rewrite count_NoDup. intros Hx. specialize (Hx c). lia.
  - right. split; auto. apply Exists_exists in He as (c & Hi & Hc).
    rewrite hash_In, distinct_In in Hi by auto. intros Hx. apply Hc, Hx; auto.
Qed.

Lemma output_ok_dec ops out : {output_ok ops out} + {~ output_ok ops out}.
Proof.
  unfold output_ok.
  destruct (ListDec.NoDup_dec char_eq_dec out) as [H1|H1]; [|right; tauto].
  destruct (ListDec.incl_dec char_eq_dec out (concat ops)) as [H2|H2]; [left; auto|right; tauto].
Qed.

(** ** from_parse *)

Definition implicit_out (ops : list (list char)) : list char :=
  sort_chars (filter (fun c => Nat.eqb (count c (concat ops)) 1) (distinct (concat ops))).

Lemma implicit_out_spec ops : implicit_output ops (implicit_out ops).
Proof.
  unfold implicit_output, implicit_out. split.
  - apply sort_chars_lt. apply NoDup_filter, distinct_NoDup.
  - intros c. rewrite sort_chars_In, filter_In, distinct_In, Nat.eqb_eq. unfold count, char_eq_dec.
    split; [tauto|]. intros H. split; auto. apply (count_occ_In N.eq_dec). lia.
Qed.

Lemma implicit_out_unique ops out : implicit_output ops out -> out = implicit_out ops.
Proof.
  intros [S1 I1]. destruct (implicit_out_spec ops) as [S2 I2].
  apply sorted_lt_unique; auto. intros c. rewrite I1, I2. tauto.
Qed.

Lemma implicit_output_ok ops : output_ok ops (implicit_out ops).
Proof.
  destruct (implicit_out_spec ops) as [S I]. split.
  - apply sorted_lt_NoDup; auto.
  - intros c Hc. apply I in Hc. apply (count_occ_In N.eq_dec). lia.
Qed.

Definition meant_output (ops : list (list char)) (out : option (list char)) : list char :=
  match out with Some o => o | None => implicit_out ops end.

Lemma from_parse_eq h k ops out :
  hash_ok h -> from_parse h k (mkParse ops out) = from_indices h k ops (meant_output ops out).
Proof.
  intros Hh. unfold from_parse. simpl. destruct out as [o|]; simpl; auto.
  f_equal. apply filter_hash_sort; auto. apply distinct_NoDup.
Qed.

Lemma meaning_grammar s ops out :
  meaning s ops out <-> exists o, grammar s ops o /\ out = meant_output ops o.
Proof.
  split.
  - intros [H|[H Hi]].
    + exists (Some out); auto.
    + exists None. split; auto. apply implicit_out_unique; auto.
  - intros ([o|] & H & ->); simpl.
    + left; auto.
    + right. split; auto. apply implicit_out_spec.
Qed.

Lemma validate_meaning h k s ops out :
  hash_ok h -> meaning s ops out -> validate h k s = from_indices h k ops out.
Proof.
  intros Hh H. apply meaning_grammar in H as (o & G & ->).
  unfold validate, contraction_new. rewrite (parse_complete _ _ _ G).
  apply from_parse_eq; auto.
Qed.

Lemma validate_no_meaning h k s :
  (forall ops out, ~ meaning s ops out) -> validate h k s = Err msg_invalid.
Proof.
  intros H. unfold validate, contraction_new.
  destruct (parse_einsum_string s) as [[ops o]|] eqn:E; auto.
  exfalso. apply parse_sound in E. apply (H ops (meant_output ops o)).
  apply meaning_grammar. exists o; auto.
Qed.

Lemma meaning_dec s : (exists ops out, meaning s ops out) \/ (forall ops out, ~ meaning s ops out).
Proof.
  destruct (parse_einsum_string s) as [[ops o]|] eqn:E.
  - left. apply parse_sound in E. exists ops, (meant_output ops o).
    apply meaning_grammar. exists o; auto.
  - right. intros ops out H. apply meaning_grammar in H as (o & G & _).
    apply (proj1 (parse_none s) E _ _ G).
Qed.

Lemma validate_ok h k s ops out :
  hash_ok h -> meaning s ops out -> output_ok ops out ->
  validate h k s = Ok (contraction_of ops out).
Proof.
  intros Hh Hm Ho. rewrite (validate_meaning h k s ops out) by auto. apply from_indices_ok; auto.
Qed.

Lemma validate_inv h k s c :
  hash_ok h -> validate h k s = Ok c ->
  exists ops out, meaning s ops out /\ output_ok ops out /\ c = contraction_of ops out.
Proof.
  intros Hh H. destruct (meaning_dec s) as [(ops & out & Hm)|Hn].
  - rewrite (validate_meaning h k s ops out) in H by auto.
    destruct (output_ok_dec ops out) as [Ho|Ho].
    + rewrite from_indices_ok in H by auto. injection H as <-. exists ops, out; auto.
    + destruct (from_indices_err h k ops out Hh Ho) as [[E _]|[E _]]; congruence.
  - rewrite validate_no_meaning in H by auto. discriminate.
Qed.

Lemma validate_no_panic h k s : hash_ok h -> validate h k s <> Panic.
Proof.
  intros Hh H. destruct (meaning_dec s) as [(ops & out & Hm)|Hn].
  - rewrite (validate_meaning h k s ops out) in H by auto.
    destruct (output_ok_dec ops out) as [Ho|Ho].
    + rewrite from_indices_ok in H by auto. discriminate.
    + destruct (from_indices_err h k ops out Hh Ho) as [[E _]|[E _]]; congruence.
  - rewrite validate_no_meaning in H by auto. discriminate.
Qed.

(** ** Label lengths *)

(** The map [m] gives exactly the labels in [cs] a length, as [size] does. *)
Definition sized_labels (m : output_size_map) (cs : list char) (size : char -> nat) : Prop :=
  forall c, lookup c m = if mem c cs then Some (size c) else None.

Definition default_size (m : output_size_map) (c : char) : nat :=
  match lookup c m with Some n => n | None => 0 end.

Lemma mem_app c l l' : mem c (l ++ l') = mem c l || mem c l'.
Proof. apply existsb_app. Qed.

Lemma sized_labels_ext m cs cs' size :
  (forall c, In c cs <-> In c cs') -> sized_labels m cs size -> sized_labels m cs' size.
Proof.
  intros H Hs c. rewrite Hs. destruct (mem c cs) eqn:E.
  - apply mem_In, H, mem_In in E. rewrite E; auto.
  - apply mem_false in E. rewrite H in E. apply mem_false in E. rewrite E; auto.
Qed.

Lemma add_axes_ok size ix : forall m cs,
  sized_labels m cs size ->
  exists m', foldM add_axis (combine ix (map size ix)) m = Ok m'
             /\ sized_labels m' (cs ++ ix) size.
Proof.
  induction ix as [|c ix IH]; intros m cs Hm; cbn [map combine foldM].
  - exists m. rewrite app_nil_r. auto.
  - assert (exists m1, add_axis m (c, size c) = Ok m1 /\ sized_labels m1 (cs ++ [c]) size)
      as (m1 & E & Hm1).
    { unfold add_axis. rewrite Hm. destruct (mem c cs) eqn:E.
      - rewrite Nat.eqb_refl. exists m. split; auto.
        eapply sized_labels_ext; [|exact Hm]. apply mem_In in E.
        intros d. rewrite in_app_iff. simpl. split; [auto|]. intros [|[->|[]]]; auto.
      - exists ((c, size c) :: m). split; auto. intros d. simpl.
        rewrite mem_app, Hm. simpl. rewrite orb_false_r.
        rewrite (N.eqb_sym d c).
        destruct (N.eqb c d) eqn:Ec; [|rewrite orb_false_r; auto].
        apply N.eqb_eq in Ec. subst d. rewrite orb_true_r. auto. }
    rewrite E. simpl. destruct (IH _ _ Hm1) as (m' & E' & Hm').
    exists m'. split; auto. rewrite <- app_assoc in Hm'. auto.
Qed.

Lemma add_operands_ok size ops shapes : forall m cs,
  shapes_ok size ops shapes -> sized_labels m cs size ->
  exists m', foldM add_operand (combine ops shapes) m = Ok m'
             /\ sized_labels m' (cs ++ concat ops) size.
Proof.
  intros m cs H; revert m cs. induction H as [|ix sh ops shapes -> H IH]; intros m cs Hm; simpl.
  - exists m. rewrite app_nil_r. auto.
  - rewrite map_length, Nat.eqb_refl.
    destruct (add_axes_ok size ix m cs Hm) as (m1 & E & Hm1). rewrite E. simpl.
    destruct (IH _ _ Hm1) as (m' & E' & Hm'). exists m'. split; auto.
    rewrite app_assoc. auto.
Qed.

Lemma shapes_ok_length size ops shapes : shapes_ok size ops shapes -> length ops = length shapes.
Proof. induction 1; simpl; auto. Qed.

Lemma output_size_ok size ops out shapes :
  shapes_ok size ops shapes ->
  exists m, output_size_from (contraction_of ops out) shapes = Ok m
            /\ sized_labels m (concat ops) size.
Proof.
  intros H. unfold output_size_from. simpl.
  rewrite (shapes_ok_length _ _ _ H), Nat.eqb_refl.
  destruct (add_operands_ok size ops shapes [] [] H) as (m & E & Hm); [intros c; auto|].
  exists m. auto.
Qed.

(** Entries are never changed once present. *)
Lemma add_axis_mono m cn m' : add_axis m cn = Ok m' ->
  (forall c n, lookup c m = Some n -> lookup c m' = Some n)
  /\ lookup (fst cn) m' = Some (snd cn).
Proof.
  destruct cn as [c n]. unfold add_axis. simpl. destruct (lookup c m) as [e|] eqn:E.
  - destruct (Nat.eqb e n) eqn:En; [|discriminate]. apply Nat.eqb_eq in En.
    intros H. injection H as <-. subst. auto.
  - intros H. injection H as <-. simpl. rewrite N.eqb_refl. split; auto.
    intros d k Hd. destruct (N.eqb c d) eqn:Ec; auto. apply N.eqb_eq in Ec. congruence.
Qed.

Lemma add_axes_mono l : forall m m', foldM add_axis l m = Ok m' ->
  (forall c n, lookup c m = Some n -> lookup c m' = Some n)
  /\ Forall (fun cn => lookup (fst cn) m' = Some (snd cn)) l.
Proof.
  induction l as [|cn l IH]; simpl; intros m m' H.
  - injection H as <-. auto.
  - apply rbind_ok in H as (m1 & H1 & H2). apply add_axis_mono in H1 as [H1 H1'].
    apply IH in H2 as [H2 H2']. split; auto.
Qed.

Lemma combine_sized m ix sh :
  length ix = length sh ->
  Forall (fun cn => lookup (fst cn) m = Some (snd cn)) (combine ix sh) ->
  sh = map (default_size m) ix.
Proof.
  revert sh; induction ix as [|c ix IH]; intros [|n sh] Hl H; simpl in *; try discriminate; auto.
  inversion H; subst. simpl in *. unfold default_size at 1. rewrite H2. f_equal. auto.
Qed.

Lemma add_operands_inv ops shapes : forall m m',
  length ops = length shapes ->
  foldM add_operand (combine ops shapes) m = Ok m' ->
  (forall c n, lookup c m = Some n -> lookup c m' = Some n)
  /\ shapes_ok (default_size m') ops shapes.
Proof.
  revert shapes; induction ops as [|ix ops IH]; intros [|sh shapes] m m' Hl H; simpl in *;
    try discriminate.
  - injection H as <-. split; auto. constructor.
  - apply rbind_ok in H as (m1 & H1 & H2).
    destruct (Nat.eqb (length ix) (length sh)) eqn:E; [|discriminate].
    apply Nat.eqb_eq in E. apply add_axes_mono in H1 as [H1 H1'].
    apply IH in H2 as [H2 H2']; [|lia]. split; auto.
    constructor; auto. apply combine_sized; auto.
    eapply Forall_impl; [|exact H1']. simpl. auto.
Qed.

Lemma output_size_inv c shapes m :
  output_size_from c shapes = Ok m -> shapes_ok (default_size m) (operand_indices c) shapes.
Proof.
  unfold output_size_from. destruct (Nat.eqb _ _) eqn:E; [|discriminate].
  apply Nat.eqb_eq in E. intros H. apply add_operands_inv in H as [_ H]; auto.
Qed.

Lemma output_size_no_panic c shapes : output_size_from c shapes <> Panic.
Proof.
  unfold output_size_from. destruct (Nat.eqb _ _); [|discriminate].
  assert (Ha : forall l m, foldM add_axis l m <> Panic).
  { induction l as [|cn l IH]; simpl; intros m; [discriminate|].
    destruct (add_axis m cn) eqn:E; simpl; auto; try discriminate.
    destruct cn as [d n]. unfold add_axis in E. destruct (lookup d m); [|discriminate].
    destruct (Nat.eqb n0 n); discriminate. }
  assert (forall l m, foldM add_operand l m <> Panic); [|auto].
  induction l as [|[ix sh] l IH]; simpl; intros m; [discriminate|].
  destruct (Nat.eqb (length ix) (length sh)); simpl; [|discriminate].
  destruct (foldM add_axis (combine ix sh) m) eqn:E; simpl; auto; try discriminate.
  exfalso. eapply Ha; eauto.
Qed.

(** ** Sized contractions *)

(** [sc] is the sized contraction for these labels and lengths. *)
Definition sized (sc : sized_contraction) (ops : list (list char)) (out : list char)
    (size : char -> nat) : Prop :=
  sc_contraction sc = contraction_of ops out
  /\ output_ok ops out
  /\ sized_labels (sc_output_size sc) (concat ops) size.

Lemma from_string_ok h k s shapes ops out size :
  hash_ok h -> call_ok s shapes ops out size ->
  exists sc, from_string_and_shapes h k s shapes = Ok sc /\ sized sc ops out size.
Proof.
  intros Hh (Hm & Ho & Hs). unfold from_string_and_shapes.
  rewrite (validate_ok h k s ops out) by auto. simpl.
  unfold sized_from_contraction.
  destruct (output_size_ok size ops out shapes Hs) as (m & E & Hm'). rewrite E. simpl.
  exists (mkSized (contraction_of ops out) m). split; auto. split; auto.
Qed.

Lemma shapes_ok_ext size size' ops shapes :
  shapes_ok size ops shapes -> (forall c, In c (concat ops) -> size c = size' c) ->
  shapes_ok size' ops shapes.
Proof.
  unfold shapes_ok. induction 1 as [|ix sh ops shapes -> H IH]; simpl; intros He; constructor.
  - apply map_ext_in. intros c Hc. apply He, in_app_iff; auto.
  - apply IH. intros c Hc. apply He, in_app_iff; auto.
Qed.

Lemma shapes_ok_size size size' ops shapes :
  shapes_ok size ops shapes -> shapes_ok size' ops shapes ->
  forall c, In c (concat ops) -> size c = size' c.
Proof.
  unfold shapes_ok. induction 1 as [|ix sh ops shapes -> H IH]; simpl; intros H2 c Hc; [contradiction|].
  inversion H2; subst. apply in_app_iff in Hc as [Hc|Hc]; auto.
  clear - Hc H4. induction ix as [|d ix IH]; simpl in *; [contradiction|].
  injection H4 as E1 E2. destruct Hc as [->|Hc]; auto.
Qed.

Lemma from_string_inv h k s shapes sc :
  hash_ok h -> from_string_and_shapes h k s shapes = Ok sc ->
  exists ops out size, call_ok s shapes ops out size /\ sized sc ops out size.
Proof.
  intros Hh H. pose proof H as H0. unfold from_string_and_shapes in H.
  apply rbind_ok in H as (c & Hv & H). apply validate_inv in Hv as (ops & out & Hm & Ho & ->); auto.
  unfold sized_from_contraction in H. apply rbind_ok in H as (m & Hs & H). injection H as <-.
  apply output_size_inv in Hs. simpl in Hs.
  exists ops, out, (default_size m). assert (Hc : call_ok s shapes ops out (default_size m)).
  { split; auto. }
  split; auto.
  destruct (from_string_ok h k s shapes ops out (default_size m) Hh Hc) as (sc' & E & Hsc).
  rewrite H0 in E. injection E as <-. auto.
Qed.

Lemma from_string_no_panic h k s shapes :
  hash_ok h -> from_string_and_shapes h k s shapes <> Panic.
Proof.
  intros Hh H. unfold from_string_and_shapes in H.
  destruct (validate h k s) as [c| |] eqn:E; simpl in H; try discriminate.
  - unfold sized_from_contraction in H.
    destruct (output_size_from c shapes) eqn:E2; simpl in H; try discriminate.
    eapply output_size_no_panic; eauto.
  - eapply validate_no_panic; eauto.
Qed.

Theorem from_string_accepted h k s shapes :
  hash_ok h ->
  ((exists sc, from_string_and_shapes h k s shapes = Ok sc) <-> accepted s shapes)
  /\ ((exists m, from_string_and_shapes h k s shapes = Err m) <-> ~ accepted s shapes).
Proof.
  intros Hh. unfold accepted.
  assert (H : (exists sc, from_string_and_shapes h k s shapes = Ok sc)
              <-> exists ops out size, call_ok s shapes ops out size).
  { split.
    - intros (sc & E). apply from_string_inv in E as (ops & out & size & Hc & _); eauto.
    - intros (ops & out & size & Hc).
      destruct (from_string_ok h k s shapes ops out size Hh Hc) as (sc & E & _); eauto. }
  split; auto. rewrite <- H. split.
  - intros (m & E) (sc & E'). congruence.
  - intros Hn. destruct (from_string_and_shapes h k s shapes) as [sc|m|] eqn:E; eauto.
    + exfalso; apply Hn; eauto.
    + exfalso. eapply from_string_no_panic; eauto.
Qed.

(** ** subset *)

Lemma lookup_filter c all m :
  lookup c (filter (fun cn : char * nat => mem (fst cn) all) m)
  = if mem c all then lookup c m else None.
Proof.
  induction m as [|[d n] m IH]; simpl.
  - destruct (mem c all); auto.
  - destruct (mem d all) eqn:E; simpl; rewrite IH.
    + destruct (N.eqb d c) eqn:Ec; auto. apply N.eqb_eq in Ec. subst. rewrite E; auto.
    + destruct (N.eqb d c) eqn:Ec; auto. apply N.eqb_eq in Ec. subst. rewrite E; auto.
Qed.

Lemma subset_known sc all :
  existsb (fun c => match lookup c (sc_output_size sc) with None => true | Some _ => false end) all
  = false <-> forall c, In c all -> lookup c (sc_output_size sc) <> None.
Proof.
  rewrite <- not_true_iff_false, existsb_exists. split.
  - intros H c Hc E. apply H. exists c. rewrite E; auto.
  - intros H (c & Hc & E). specialize (H c Hc). destruct (lookup c (sc_output_size sc)); congruence.
Qed.

Lemma mem_distinct c l : mem c (distinct l) = mem c l.
Proof.
  destruct (mem c l) eqn:E.
  - apply mem_In, distinct_In, mem_In; auto.
  - apply mem_false. rewrite distinct_In. apply mem_false; auto.
Qed.

Lemma subset_ok h k sc ops out size ops' out' :
  hash_ok h -> sized sc ops out size ->
  incl (concat ops') (concat ops) -> output_ok ops' out' ->
  exists sc', subset h k sc ops' out' = Ok sc' /\ sized sc' ops' out' size.
Proof.
  intros Hh (Hc & Ho & Hs) Hi Ho'. unfold subset.
  assert (E : existsb (fun c => match lookup c (sc_output_size sc) with
                                | None => true | Some _ => false end)
                (distinct (concat ops')) = false).
  { apply subset_known. intros c Hc'. rewrite distinct_In in Hc'. rewrite Hs.
    rewrite (proj2 (mem_In _ _) (Hi _ Hc')). discriminate. }
  rewrite E. rewrite from_indices_ok by auto. simpl.
  eexists. split; [reflexivity|]. split; [reflexivity|]. split; auto.
  intros c. simpl. rewrite lookup_filter, mem_distinct, Hs.
  destruct (mem c (concat ops')) eqn:E'; auto.
  apply mem_In, Hi, mem_In in E'. rewrite E'. auto.
Qed.

Theorem subset_iff h k sc ops' out' :
  hash_ok h ->
  ((forall c, In c (concat ops') -> lookup c (sc_output_size sc) <> None)
   /\ output_ok ops' out' ->
   exists sc', subset h k sc ops' out' = Ok sc'
     /\ sc_contraction sc' = contraction_of ops' out'
     /\ forall c, lookup c (sc_output_size sc')
                  = if mem c (concat ops') then lookup c (sc_output_size sc) else None)
  /\ (~ ((forall c, In c (concat ops') -> lookup c (sc_output_size sc) <> None)
         /\ output_ok ops' out') ->
      exists m, subset h k sc ops' out' = Err m).
Proof.
  intros Hh. unfold subset. split.
  - intros [H1 Ho].
    assert (E : existsb (fun c => match lookup c (sc_output_size sc) with
                                | None => true | Some _ => false end)
                (distinct (concat ops')) = false).
    { apply subset_known. intros c Hc. apply H1, distinct_In; auto. }
    rewrite E. rewrite from_indices_ok by auto. simpl.
    eexists. split; [reflexivity|]. split; [reflexivity|].
    intros c. simpl. rewrite lookup_filter, mem_distinct. reflexivity.
  - intros Hn. destruct (existsb _ _) eqn:E; [eauto|].
    assert (Ho : ~ output_ok ops' out').
    { intros Ho. apply Hn. split; auto. rewrite subset_known in E.
      intros c Hc. apply E, distinct_In; auto. }
    destruct (from_indices_err h k ops' out' Hh Ho) as [[-> _]|[-> _]]; simpl; eauto.
Qed.

(** ** Fields of the contraction *)

Lemma summation_spec ops out :
  StronglySorted N.lt (summation_indices (contraction_of ops out))
  /\ forall c, In c (summation_indices (contraction_of ops out))
               <-> In c (concat ops) /\ ~ In c out.
Proof.
  simpl. split.
  - apply sort_chars_lt, NoDup_filter, distinct_NoDup.
  - intros c. rewrite sort_chars_In, filter_In, distinct_In, negb_true_iff, mem_false. tauto.
Qed.

(** ** as_einsum_string *)

Lemma as_einsum_string_ok sc ops out size :
  sized sc ops out size -> ops <> [] ->
  as_einsum_string sc = Ok (join ops ++ arrow ++ out).
Proof.
  intros (Hc & _) Hn. unfold as_einsum_string. rewrite Hc. simpl.
  destruct ops as [|op ops]; [congruence|]. rewrite join_cons. rewrite <- app_assoc. reflexivity.
Qed.

Lemma as_einsum_string_sized sc ops out size :
  sized sc ops out size -> ops <> [] -> exists s, as_einsum_string sc = Ok s.
Proof. intros; eexists; eapply as_einsum_string_ok; eauto. Qed.

Lemma meaning_lower_out s ops out :
  meaning s ops out -> output_ok ops out -> lower_run out.
Proof.
  intros Hm [_ Hi]. apply meaning_operands in Hm as [_ Hf].
  apply Forall_forall. intros c Hc. apply Hi in Hc. apply in_concat in Hc as (x & Hx & Hc).
  rewrite Forall_forall in Hf. destruct (Hf _ Hx) as [_ Hl].
  unfold lower_run in Hl. rewrite Forall_forall in Hl. auto.
Qed.

Lemma explicit_meaning s ops out :
  meaning s ops out -> output_ok ops out -> meaning (join ops ++ arrow ++ out) ops out.
Proof.
  intros Hm Ho. left. pose proof (meaning_operands _ _ _ Hm) as [Hn Hf].
  constructor; auto. eapply meaning_lower_out; eauto.
Qed.

(** ** Which error *)

(** The error message for a meaningful string depends on hash order only if the output both
    repeats a label and names an unknown one. *)
Lemma validate_error_determined h1 h2 k1 k2 s :
  hash_ok h1 -> hash_ok h2 ->
  (forall ops out, meaning s ops out -> NoDup out \/ incl out (concat ops)) ->
  validate h1 k1 s = validate h2 k2 s.
Proof.
  intros H1 H2 Hd. destruct (meaning_dec s) as [(ops & out & Hm)|Hn].
  - rewrite (validate_meaning h1 k1 s ops out), (validate_meaning h2 k2 s ops out) by auto.
    destruct (output_ok_dec ops out) as [Ho|Ho].
    + rewrite !from_indices_ok by auto. auto.
    + destruct (from_indices_err h1 k1 ops out H1 Ho) as [[E1 N1]|[E1 N1]];
      destruct (from_indices_err h2 k2 ops out H2 Ho) as [[E2 N2]|[E2 N2]];
      rewrite E1, E2; auto; destruct (Hd _ _ Hm); tauto.
  - rewrite !validate_no_meaning by auto. auto.
Qed.
