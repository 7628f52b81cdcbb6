(** Reading back what was written with the derived implementations. *)
From Verif Require Import Base BaseFacts NDArray Validation Optimizers Strategies Singleton Pair Path
  Api Spec ValidationFacts MisuseFacts OverflowFacts ArrayFacts PathFacts OrderFacts HandFacts Serde.
From Coq Require Import Lia.
From Coq Require String.
Import String.StringSyntax.
Local Open Scope string_scope.
Local Open Scope list_scope.

(** ** What a format may do *)

(** A format may present a character as a string, reorder the entries of a map, present a struct as a
    map (in any order, with the names or the numbers of the fields as keys) or as a sequence, and
    present a variant by its name or by its number. *)
Inductive presents : data -> input -> Prop :=
| pr_num n : presents (DNum n) (INum n)
| pr_char c : presents (DChar c) (IChar c)
| pr_char_str c : presents (DChar c) (IStr [c])
| pr_str s : presents (DStr s) (IStr s)
| pr_none : presents (DOption None) (IOption None)
| pr_some d v : presents d v -> presents (DOption (Some d)) (IOption (Some v))
| pr_seq l l' : Forall2 presents l l' -> presents (DSeq l) (ISeq l')
| pr_map l l1 l' : Permutation l l1 ->
    Forall2 (fun d v => presents (fst d) (fst v) /\ presents (snd d) (snd v)) l1 l' ->
    presents (DMap l) (IMap l')
| pr_struct_map name fs fs1 l' : Permutation (combine (seq 0 (length fs)) fs) fs1 ->
    Forall2 (fun d v => (fst v = IStr (fst (snd d)) \/ fst v = INum (fst d)) /\ presents (snd (snd d)) (snd v)) fs1 l' ->
    presents (DStruct name fs) (IMap l')
| pr_struct_seq name fs l' : Forall2 presents (map snd fs) l' -> presents (DStruct name fs) (ISeq l')
| pr_unit_name enum i name : presents (DVariant enum i name None) (IVariant (inl name) None)
| pr_unit_number enum i name : presents (DVariant enum i name None) (IVariant (inr i) None)
| pr_variant_name enum i name d v : presents d v ->
    presents (DVariant enum i name (Some d)) (IVariant (inl name) (Some v))
| pr_variant_number enum i name d v : presents d v ->
    presents (DVariant enum i name (Some d)) (IVariant (inr i) (Some v)).

(** However it is presented, a value is read back as itself. *)
Definition reads_back {T : Type} (ser : T -> data) (de : input -> option T) : Prop :=
  forall x v, presents (ser x) v -> de v = Some x.

(** ** Reading sequences and maps *)

Lemma mapO_app {T U} (f : T -> option U) l1 l2 :
  mapO f (l1 ++ l2) = match mapO f l1, mapO f l2 with Some a, Some b => Some (a ++ b) | _, _ => None end.
Proof.
  induction l1 as [|x l1 IH]; simpl.
  - destruct (mapO f l2); auto.
  - rewrite IH. destruct (f x); auto. destruct (mapO f l1); auto. destruct (mapO f l2); auto.
Qed.

Lemma mapO_ext {T U} (f g : T -> option U) l : (forall x, In x l -> f x = g x) -> mapO f l = mapO g l.
Proof. induction l as [|x l IH]; simpl; intros H; auto. rewrite H, IH; auto. Qed.

Lemma mapO_perm {T U} (f : T -> option U) l l' : Permutation l l' ->
  match mapO f l, mapO f l' with
  | Some a, Some b => Permutation a b
  | None, None => True
  | _, _ => False
  end.
Proof.
  induction 1 as [|x l l' H IH|x y l|l1 l2 l3 _ IH1 _ IH2]; simpl; auto.
  - destruct (f x); auto. destruct (mapO f l), (mapO f l'); auto.
  - destruct (f x), (f y); auto; destruct (mapO f l); auto. apply perm_swap.
  - destruct (mapO f l1), (mapO f l2), (mapO f l3); auto; try contradiction.
    eapply Permutation_trans; eauto.
Qed.

Lemma filter_perm {T} (f : T -> bool) l l' : Permutation l l' -> Permutation (filter f l) (filter f l').
Proof.
  induction 1 as [|x l l' H IH|x y l|l1 l2 l3 _ IH1 _ IH2]; simpl; auto.
  - destruct (f x); auto.
  - destruct (f x), (f y); auto. apply perm_swap.
  - eapply Permutation_trans; eauto.
Qed.

Lemma field_value_perm e e' i : Permutation e e' -> field_value e i = field_value e' i.
Proof.
  intros H. unfold field_value.
  apply (filter_perm (fun e0 => match fst e0 with Some j => Nat.eqb i j | None => false end)) in H.
  destruct (filter _ e) as [|x [|y l]].
  - apply Permutation_nil in H. rewrite H. auto.
  - apply Permutation_length_1_inv in H. rewrite H. auto.
  - pose proof (Permutation_length H) as HL.
    destruct (filter _ e') as [|x' [|y' l']]; simpl in HL; auto; lia.
Qed.

Lemma fields_perm names l l' : Permutation l l' -> fields names (IMap l) = fields names (IMap l').
Proof.
  intros H. simpl.
  pose proof (mapO_perm (fun kv => match field_number names (fst kv) with
                                   | Some i => Some (i, snd kv) | None => None end) l l' H) as HP.
  destruct (mapO _ l) as [e|], (mapO _ l') as [e'|]; try contradiction; auto.
  apply mapO_ext. intros i _. apply field_value_perm; auto.
Qed.

(** ** Structs *)

Lemma chars_eqb_refl s : chars_eqb s s = true.
Proof. induction s as [|c s IH]; simpl; auto. rewrite N.eqb_refl. auto. Qed.

Lemma chars_eqb_eq s t : chars_eqb s t = true -> s = t.
Proof.
  revert t; induction s as [|c s IH]; destruct t as [|d t]; simpl; intros H; try discriminate; auto.
  apply andb_prop in H as [H1 H2]. apply N.eqb_eq in H1. apply IH in H2. congruence.
Qed.

Lemma find_unique {T} (f : T -> bool) l x : In x l -> f x = true -> (forall y, In y l -> f y = true -> y = x) ->
  find f l = Some x.
Proof.
  intros Hi Hf Hu. destruct (find f l) as [y|] eqn:E.
  - apply find_some in E as [H1 H2]. rewrite (Hu y); auto.
  - pose proof (find_none _ _ E x Hi). congruence.
Qed.

Lemma field_number_ok names i n k : NoDup (map chars names) -> nth_error names i = Some n ->
  k = IStr (chars n) \/ k = INum i -> field_number names k = Some (Some i).
Proof.
  intros Hn Hi [-> | ->]; simpl; f_equal.
  - apply find_unique.
    + apply in_seq. split; [lia|]. apply nth_error_Some. congruence.
    + rewrite Hi. apply chars_eqb_refl.
    + intros j Hj Ej. destruct (nth_error names j) as [n'|] eqn:En; [|discriminate].
      apply chars_eqb_eq in Ej. apply (proj1 (NoDup_nth_error (map chars names)) Hn).
      * rewrite map_length. apply in_seq in Hj. lia.
      * rewrite !nth_error_map, Hi, En. simpl. congruence.
  - assert (H : i < length names) by (apply nth_error_Some; congruence).
    apply Nat.ltb_lt in H. rewrite H. auto.
Qed.

(** The values of numbered entries in order. *)
Lemma field_values_in_order (vs : list input) : forall s,
  mapO (field_value (combine (map Some (seq s (length vs))) vs)) (seq s (length vs)) = Some vs.
Proof.
  intros s.
  assert (Hnone : forall (vs : list input) s i, i < s ->
    filter (fun e => match fst e with Some j => Nat.eqb i j | None => false end)
      (combine (map Some (seq s (length vs))) vs) = []).
  { clear. induction vs as [|v vs IH]; intros s i Hi; simpl; auto.
    rewrite (proj2 (Nat.eqb_neq i s)) by lia. apply IH. lia. }
  revert s. induction vs as [|v vs IH]; intros s; simpl; auto.
  unfold field_value at 1. simpl. rewrite Nat.eqb_refl, Hnone by lia. simpl.
  rewrite (mapO_ext _ (field_value (combine (map Some (seq (S s) (length vs))) vs))); [rewrite IH; auto|].
  intros i Hi. apply in_seq in Hi. unfold field_value. simpl.
  rewrite (proj2 (Nat.eqb_neq i s)) by lia. auto.
Qed.

Lemma nth_error_all {T} (l : list T) : mapO (nth_error l) (seq 0 (length l)) = Some l.
Proof.
  assert (H : forall (l : list T) p, mapO (nth_error (p ++ l)) (seq (length p) (length l)) = Some l).
  { clear. induction l as [|x l IH]; intros p; simpl; auto.
    rewrite nth_error_app2, Nat.sub_diag by lia. simpl.
    specialize (IH (p ++ [x])). rewrite app_length, Nat.add_comm, <- app_assoc in IH. simpl in IH.
    rewrite IH. auto. }
  apply (H l []).
Qed.

Lemma Forall2_combine_seq {T U} (P : nat * T -> U -> Prop) (Q : T -> U -> Prop) l l' s :
  Forall2 P (combine (seq s (length l)) l) l' -> (forall i x y, nth_error l i = Some x -> P (s + i, x) y -> Q x y) ->
  Forall2 Q l l'.
Proof.
  revert s l'. induction l as [|x l IH]; simpl; intros s l' H HQ; inversion H; subst; constructor.
  - apply (HQ 0); auto. rewrite Nat.add_0_r. auto.
  - apply (IH (S s)); auto. intros i u w Hi Hp. apply (HQ (S i)); auto. rewrite Nat.add_succ_r. auto.
Qed.

Lemma numbered_in_order names : forall l fs ns p, NoDup (map chars names) ->
  names = p ++ ns -> map fst fs = map chars ns ->
  Forall2 (fun d v => (fst v = IStr (fst (snd d)) \/ fst v = INum (fst d)) /\ presents (snd (snd d)) (snd v))
    (combine (seq (length p) (length fs)) fs) l ->
  mapO (fun kv : input * input => match field_number names (fst kv) with
          | Some i => Some (i, snd kv) | None => None end) l
  = Some (combine (map Some (seq (length p) (length (map snd l)))) (map snd l)).
Proof.
  induction l as [|[kk vv] l IH]; intros fs ns p Hn Hs Hf HF; simpl; auto.
  destruct fs as [|[fn fd] fs]; [inversion HF|]. cbn [length seq combine] in HF.
  destruct ns as [|n ns]; [discriminate|]. cbn [map fst] in Hf. injection Hf as -> Hf.
  assert (HF' := HF). inversion HF' as [|d0 v0 r1 r2 [HK _] HF1 Q1 Q2]. clear HF' Q1 Q2. cbn [fst snd] in HK.
  assert (Hx : nth_error names (length p) = Some n).
  { rewrite Hs, nth_error_app2, Nat.sub_diag by lia. auto. }
  rewrite (field_number_ok names (length p) n kk Hn Hx HK).
  specialize (IH fs ns (p ++ [n]) Hn). rewrite app_length, Nat.add_comm, <- app_assoc in IH.
  rewrite IH; auto.
Qed.

Lemma struct_inv name fs v : presents (DStruct name fs) v ->
  (exists fs1 l', v = IMap l' /\ Permutation (combine (seq 0 (length fs)) fs) fs1
     /\ Forall2 (fun d v => (fst v = IStr (fst (snd d)) \/ fst v = INum (fst d))
                            /\ presents (snd (snd d)) (snd v)) fs1 l')
  \/ exists l', v = ISeq l' /\ Forall2 presents (map snd fs) l'.
Proof. intros H. inversion H; subst; eauto 8. Qed.

Lemma fields_ok names ds name v : NoDup (map chars names) -> length ds = length names ->
  presents (ser_struct name (combine names ds)) v ->
  exists vs, fields names v = Some vs /\ Forall2 presents ds vs.
Proof.
  intros Hn HL H. unfold ser_struct in H.
  set (fs := map (fun nd => (chars (fst nd), snd nd)) (combine names ds)) in *.
  assert (Hf : fs = combine (map chars names) ds).
  { unfold fs. clear. revert ds. induction names as [|n names IH]; destruct ds as [|d ds]; simpl; auto.
    f_equal. auto. }
  assert (Hlen : length fs = length names).
  { rewrite Hf, combine_length, map_length. lia. }
  assert (Hsnd : map snd fs = ds).
  { rewrite Hf. clear - HL. revert ds HL. induction names as [|n names IH]; destruct ds as [|d ds]; simpl;
      intros; try lia; auto. f_equal. auto. }
  assert (Hfst : map fst fs = map chars names).
  { rewrite Hf. clear - HL. revert ds HL. induction names as [|n names IH]; destruct ds as [|d ds]; simpl;
      intros; try lia; auto. f_equal. auto. }
  destruct (struct_inv _ _ _ H) as [(fs1 & l' & -> & HP & HF)|(l' & -> & HF)].
  - destruct (Permutation_Forall2 (Permutation_sym HP) HF) as (l2 & HP2 & HF2).
    exists (map snd l2). rewrite (fields_perm names _ _ HP2).
    assert (Hl2 : length l2 = length names).
    { apply Forall2_len in HF2. rewrite combine_length, seq_length in HF2. lia. }
    split.
    + unfold fields.
      assert (E : mapO (fun kv : input * input => match field_number names (fst kv) with
                       | Some i => Some (i, snd kv) | None => None end) l2
                  = Some (combine (map Some (seq 0 (length (map snd l2)))) (map snd l2))).
      { apply (numbered_in_order names l2 fs names [] Hn); auto. }
      rewrite E. replace (length names) with (length (map snd l2)) by (rewrite map_length; auto).
      apply field_values_in_order.
    + rewrite <- Hsnd.
      assert (HQ : Forall2 (fun (d : list char * data) (v : input * input) => presents (snd d) (snd v)) fs l2).
      { eapply Forall2_combine_seq; [exact HF2|]. intros i x y _ [_ HQ]. exact HQ. }
      clear - HQ. induction HQ; simpl; auto.
  - exists l'. rewrite Hsnd in HF. split; auto. simpl.
    replace (length names) with (length l') by (apply Forall2_len in HF; lia).
    apply nth_error_all.
Qed.

(** ** Enums *)

Lemma variant_ok names enum i n c v : NoDup (map chars names) -> nth_error names i = Some n ->
  presents (ser_variant enum i n c) v ->
  exists c', variant names v = Some (i, c')
    /\ match c, c' with Some d, Some w => presents d w | None, None => True | _, _ => False end.
Proof.
  intros Hn Hi H. unfold ser_variant in H.
  assert (HF : field_number names (IStr (chars n)) = Some (Some i)) by (apply (field_number_ok names i n); auto).
  assert (HL : Nat.ltb i (length names) = true).
  { apply Nat.ltb_lt, nth_error_Some. congruence. }
  inversion H; subst; cbn [variant]; rewrite ?HF, ?HL; (eexists; split; [reflexivity|simpl; auto]).
Qed.

Lemma unit_ok names enum i v : NoDup (map chars names) -> i < length names ->
  presents (ser_unit enum names i) v -> de_unit names v = Some i.
Proof.
  intros Hn Hi H. unfold ser_unit in H.
  destruct (variant_ok names enum i (nth i names "") None v Hn) as (c' & E & Hc); auto.
  { apply nth_error_nth'. auto. }
  unfold de_unit. rewrite E. destruct c'; [contradiction|auto].
Qed.

(** ** std types *)

Lemma num_back : reads_back ser_num de_num.
Proof. intros x v H. inversion H; subst. auto. Qed.

Lemma char_back : reads_back ser_char de_char.
Proof. intros x v H. inversion H; subst; auto. Qed.

Lemma vec_back {T} (ser : T -> data) de : reads_back ser de -> reads_back (ser_vec ser) (de_vec de).
Proof.
  intros Hb x v H. inversion H as [| | | | | |l l' HF| | | | | | |]; subst. cbn [de_vec]. clear H.
  revert l' HF. induction x as [|y x IH]; simpl; intros l' HF; inversion HF; subst; auto.
  simpl. rewrite (Hb y) by auto. rewrite IH; auto.
Qed.

(** Lengths after inserting entries in order: the last entry for a label counts. *)
Lemma lookup_map_insert c m cn : lookup c (map_insert m cn) = if N.eqb (fst cn) c then Some (snd cn) else lookup c m.
Proof.
  destruct cn as [d n]. unfold map_insert. simpl. destruct (N.eqb_spec d c) as [->|Hd]; auto.
  induction m as [|[e p] m IH]; simpl; auto.
  destruct (N.eqb_spec e d) as [->|He]; simpl.
  - rewrite (proj2 (N.eqb_neq d c)); auto.
  - destruct (N.eqb e c); auto.
Qed.

Lemma lookup_app c m m' : lookup c (m ++ m') = match lookup c m with Some n => Some n | None => lookup c m' end.
Proof. induction m as [|[d n] m IH]; simpl; auto. destruct (N.eqb d c); auto. Qed.

Lemma lookup_inserted c es m : lookup c (fold_left map_insert es m) = lookup c (rev es ++ m).
Proof.
  revert m; induction es as [|[d n] es IH]; intros m; cbn [fold_left rev]; auto.
  rewrite IH, <- app_assoc, !lookup_app, lookup_map_insert.
  destruct (lookup c (rev es)); simpl; auto. destruct (N.eqb d c); auto.
Qed.

Lemma lookup_In c n m : lookup c m = Some n -> In (c, n) m.
Proof.
  induction m as [|[d p] m IH]; simpl; [discriminate|].
  destruct (N.eqb_spec d c) as [->|]; auto. intros [= ->]. auto.
Qed.

Lemma lookup_NoDup c n m : NoDup (map fst m) -> In (c, n) m -> lookup c m = Some n.
Proof.
  induction m as [|[d p] m IH]; simpl; [contradiction|]. intros HN Hi. inversion HN as [|? ? Hx HN']; subst.
  destruct Hi as [[= -> ->]|Hi]; [rewrite N.eqb_refl; auto|].
  destruct (N.eqb_spec d c) as [->|]; auto.
  exfalso. apply Hx. apply in_map_iff. exists (c, n). auto.
Qed.

Lemma lookup_perm c m m' : NoDup (map fst m) -> Permutation m m' -> lookup c m = lookup c m'.
Proof.
  intros HN HP.
  assert (HN' : NoDup (map fst m')) by (eapply Permutation_NoDup; [apply Permutation_map; eauto|auto]).
  destruct (lookup c m) as [n|] eqn:E.
  - symmetry. apply lookup_NoDup; auto. apply (Permutation_in _ HP), lookup_In; auto.
  - destruct (lookup c m') as [n|] eqn:E'; auto.
    apply lookup_In in E'. apply (Permutation_in _ (Permutation_sym HP)) in E'.
    rewrite (lookup_NoDup c n m) in E by auto. discriminate.
Qed.

(** The entries as written. *)
Definition entries (m : output_size_map) (cs : list char) : output_size_map :=
  flat_map (fun c => match lookup c m with Some n => [(c, n)] | None => [] end) cs.

Lemma entries_In m cs c n : In (c, n) (entries m cs) <-> In c cs /\ lookup c m = Some n.
Proof.
  unfold entries. rewrite in_flat_map. split.
  - intros (d & Hd & Hi). destruct (lookup d m) eqn:E; [|contradiction].
    destruct Hi as [[= <- <-]|[]]. auto.
  - intros [H1 H2]. exists c. rewrite H2. simpl. auto.
Qed.

Lemma entries_keys m cs : NoDup cs -> NoDup (map fst (entries m cs)).
Proof.
  induction 1 as [|c cs Hc HN IH]; simpl; [constructor|].
  rewrite map_app. destruct (lookup c m) as [n|] eqn:E; simpl; auto.
  constructor; auto. intros Hi. apply in_map_iff in Hi as ([d p] & Hd & Hi). simpl in Hd. subst.
  apply entries_In in Hi. tauto.
Qed.

Lemma map_back h k m v : hash_ok h -> presents (ser_map h k m) v ->
  exists m', de_map v = Some m' /\ forall c, lookup c m' = lookup c m.
Proof.
  intros Hh H. unfold ser_map in H.
  set (cs := h k (distinct (map fst m))) in *.
  assert (Hcs : NoDup cs).
  { eapply Permutation_NoDup; [apply Hh|]. apply NoDup_nodup. }
  assert (Ed : flat_map (fun c => match lookup c m with Some n => [(ser_char c, ser_num n)] | None => [] end) cs
               = map (fun cn => (ser_char (fst cn), ser_num (snd cn))) (entries m cs)).
  { clear. unfold entries. induction cs as [|c cs IH]; simpl; auto.
    rewrite map_app, <- IH. destruct (lookup c m); auto. }
  rewrite Ed in H. inversion H as [| | | | | | |l l1 l' HP HF| | | | | |]; subst.
  destruct (Permutation_Forall2 (Permutation_sym HP) HF) as (l2 & HP2 & HF2).
  assert (E2 : mapO de_entry l2 = Some (entries m cs)).
  { clear - HF2. revert l2 HF2. generalize (entries m cs) as es.
    induction es as [|[c n] es IH]; simpl; intros l2 HF; inversion HF as [|? [vk vn] ? l3 [H1 H2] HF']; subst; auto.
    simpl in *. unfold de_entry at 1. simpl.
    rewrite (char_back c vk H1), (num_back n vn H2), (IH l3); auto. }
  pose proof (mapO_perm de_entry l' l2 HP2) as HE. rewrite E2 in HE.
  cbn [de_map]. destruct (mapO de_entry l') as [es|]; [|contradiction].
  exists (fold_left map_insert es []). split; auto. intros c.
  rewrite lookup_inserted, app_nil_r.
  assert (HK : NoDup (map fst (entries m cs))) by (apply entries_keys; auto).
  assert (Hr : Permutation (entries m cs) (rev es)).
  { eapply Permutation_trans; [apply Permutation_sym, HE|]. apply Permutation_rev. }
  rewrite <- (lookup_perm c _ _ HK Hr).
  destruct (lookup c m) as [n|] eqn:E.
  - apply lookup_NoDup; auto. apply entries_In. split; auto.
    eapply Permutation_in; [apply Hh|]. apply nodup_In. apply in_map_iff. exists (c, n). split; auto.
    apply lookup_In; auto.
  - destruct (lookup c (entries m cs)) as [n|] eqn:E'; auto.
    apply lookup_In, entries_In in E' as [_ E']. congruence.
Qed.

(** ** Each type *)

Ltac names_distinct := repeat constructor; simpl; intuition discriminate.
Ltac open_struct H vs E HF :=
  match type of H with presents (ser_struct ?nm (combine ?names ?ds)) ?v =>
    destruct (fields_ok names ds nm v) as (vs & E & HF); [names_distinct|reflexivity|exact H|];
    rewrite E; clear E H;
    repeat match goal with K : Forall2 presents (_ :: _) _ |- _ => inversion K; clear K; subst end;
    match goal with K : Forall2 presents [] _ |- _ => inversion K; clear K; subst end
  end.
Ltac open_variant H names d E Hd :=
  match type of H with presents (ser_variant ?enum ?i ?n (Some ?c)) ?v =>
    destruct (variant_ok names enum i n (Some c) v) as ([d|] & E & Hd);
      [names_distinct|reflexivity|exact H| |contradiction]
  end.
Ltac read_with lem :=
  match goal with K : presents ?d ?v |- _ => rewrite (lem _ v K); clear K end.

Lemma chars_vec_back : reads_back (ser_vec ser_char) (de_vec de_char).
Proof. apply vec_back, char_back. Qed.
Lemma nums_back : reads_back (ser_vec ser_num) (de_vec de_num).
Proof. apply vec_back, num_back. Qed.

Lemma contraction_back : reads_back ser_contraction de_contraction.
Proof.
  intros [a b c] v H. unfold ser_contraction in H. unfold de_contraction. open_struct H vs E HF.
  read_with (vec_back _ _ chars_vec_back). rewrite (chars_vec_back b), (chars_vec_back c); auto.
Qed.

Lemma operand_number_back : reads_back ser_operand_number de_operand_number.
Proof.
  intros [n|n] v H; unfold de_operand_number; simpl in H.
  - open_variant H operand_number_names d E Hd.
    rewrite E, (num_back n d Hd). auto.
  - open_variant H operand_number_names d E Hd.
    rewrite E, (num_back n d Hd). auto.
Qed.

Lemma operand_pair_back : reads_back ser_operand_pair de_operand_pair.
Proof.
  intros [l r] v H. unfold ser_operand_pair in H. unfold de_operand_pair. simpl fst in H. simpl snd in H.
  open_struct H vs E HF. rewrite (operand_number_back l), (operand_number_back r); auto.
Qed.

Lemma optimization_back : reads_back ser_optimization de_optimization.
Proof.
  intros m v H. unfold ser_optimization in H. unfold de_optimization.
  rewrite (unit_ok optimization_names "OptimizationMethod" _ v) with (3 := H); [|names_distinct|].
  - destruct m; auto.
  - destruct m; simpl; lia.
Qed.

Lemma singleton_method_back : reads_back ser_singleton_method de_singleton_method.
Proof.
  intros m v H. unfold ser_singleton_method in H. unfold de_singleton_method.
  rewrite (unit_ok singleton_method_names "SingletonMethod" _ v) with (3 := H); [|names_distinct|].
  - destruct m; auto.
  - destruct m; simpl; lia.
Qed.

Lemma pair_method_back : reads_back ser_pair_method de_pair_method.
Proof.
  intros m v H. unfold ser_pair_method in H. unfold de_pair_method.
  rewrite (unit_ok pair_method_names "PairMethod" _ v) with (3 := H); [|names_distinct|].
  - destruct m; auto.
  - destruct m; simpl; lia.
Qed.

Lemma singleton_summary_back : reads_back ser_singleton_summary de_singleton_summary.
Proof.
  intros [a b c] v H. unfold ser_singleton_summary in H. unfold de_singleton_summary. open_struct H vs E HF.
  rewrite (num_back a), (num_back b), (num_back c); auto.
Qed.

Lemma pair_summary_back : reads_back ser_pair_summary de_pair_summary.
Proof.
  intros [a b c d] v H. unfold ser_pair_summary in H. unfold de_pair_summary. open_struct H vs E HF.
  rewrite (num_back a), (num_back b), (num_back c), (num_back d); auto.
Qed.

Lemma empty_back name : reads_back (ser_empty name) de_empty.
Proof.
  intros [] v H. unfold ser_empty in H. unfold de_empty.
  destruct (fields_ok [] [] name v) as (vs & E & HF); [constructor|reflexivity|exact H|].
  rewrite E. auto.
Qed.

Lemma permutation_back : reads_back ser_permutation de_permutation.
Proof.
  intros p v H. unfold ser_permutation in H. unfold de_permutation. open_struct H vs E HF.
  apply nums_back; auto.
Qed.

Lemma summation_back : reads_back ser_summation de_summation.
Proof.
  intros [a b] v H. unfold ser_summation in H. unfold de_summation. open_struct H vs E HF.
  rewrite (nums_back a), (nums_back b); auto.
Qed.

Lemma diagonalization_back : reads_back ser_diagonalization de_diagonalization.
Proof.
  intros [a b] v H. unfold ser_diagonalization in H. unfold de_diagonalization. open_struct H vs E HF.
  rewrite (nums_back a), (nums_back b); auto.
Qed.

Lemma perm_and_sum_back : reads_back ser_perm_and_sum de_perm_and_sum.
Proof.
  intros [p s] v H. unfold ser_perm_and_sum in H. unfold de_perm_and_sum. cbn [fst snd] in H.
  open_struct H vs E HF. rewrite (permutation_back p), (summation_back s); auto.
Qed.

Lemma diag_and_sum_back : reads_back ser_diag_and_sum de_diag_and_sum.
Proof.
  intros [d s] v H. unfold ser_diag_and_sum in H. unfold de_diag_and_sum. cbn [fst snd] in H.
  open_struct H vs E HF. rewrite (diagonalization_back d), (summation_back s); auto.
Qed.

Lemma tfp_back : reads_back ser_tfp de_tfp.
Proof.
  intros [a b c d] v H. unfold ser_tfp in H. unfold de_tfp. open_struct H vs E HF.
  rewrite (num_back a), (num_back b), (num_back c), (nums_back d); auto.
Qed.

Lemma tg_back : reads_back ser_tg de_tg.
Proof.
  intros [a b c d] v H. unfold ser_tg in H. unfold de_tg. open_struct H vs E HF.
  rewrite (permutation_back a), (permutation_back b), (tfp_back c), (permutation_back d); auto.
Qed.

Lemma hadamard_general_back : reads_back ser_hadamard_general de_hadamard_general.
Proof.
  intros [a b] v H. unfold ser_hadamard_general in H. unfold de_hadamard_general. cbn [fst snd] in H.
  open_struct H vs E HF. rewrite (permutation_back a), (permutation_back b) by auto.
  read_with (empty_back "HadamardProduct"). auto.
Qed.

Lemma scalar_general_back : reads_back ser_scalar_general de_scalar_general.
Proof.
  intros a v H. unfold ser_scalar_general in H. unfold de_scalar_general.
  open_struct H vs E HF. rewrite (permutation_back a) by auto.
  read_with (empty_back "ScalarMatrixProduct"). auto.
Qed.

Lemma matrix_general_back : reads_back ser_matrix_general de_matrix_general.
Proof.
  intros a v H. unfold ser_matrix_general in H. unfold de_matrix_general.
  open_struct H vs E HF. rewrite (permutation_back a) by auto.
  read_with (empty_back "MatrixScalarProduct"). auto.
Qed.

Lemma broadcast_back : reads_back ser_broadcast de_broadcast.
Proof.
  intros [a b c d e] v H. unfold ser_broadcast in H. unfold de_broadcast.
  open_struct H vs E HF.
  rewrite (permutation_back a), (permutation_back b), (nums_back c), (nums_back d), (nums_back e) by auto.
  read_with (empty_back "HadamardProduct"). auto.
Qed.

Lemma stacked_back : reads_back ser_stacked de_stacked.
Proof.
  intros [a b c d e f g i] v H. unfold ser_stacked in H. unfold de_stacked.
  open_struct H vs E HF.
  rewrite (permutation_back a), (permutation_back b), (nums_back c), (nums_back d), (nums_back e),
    (tfp_back f), (nums_back g), (permutation_back i); auto.
Qed.

(** ** Types with lengths *)

(** Equal up to the order of the entries of hash maps. *)
Definition same_sized (a b : sized_contraction) : Prop :=
  sc_contraction a = sc_contraction b /\ forall c, lookup c (sc_output_size a) = lookup c (sc_output_size b).
Definition same_step (a b : pair_step) : Prop :=
  same_sized (ps_sc a) (ps_sc b) /\ ps_lhs a = ps_lhs b /\ ps_rhs a = ps_rhs b.
Definition same_order (a b : contraction_order) : Prop :=
  match a, b with
  | Singleton s, Singleton s' => same_sized s s'
  | Pairs l, Pairs l' => Forall2 same_step l l'
  | _, _ => False
  end.

Lemma sized_back h k sc v : hash_ok h -> presents (ser_sized h k sc) v ->
  exists sc', de_sized v = Some sc' /\ same_sized sc' sc.
Proof.
  intros Hh H. destruct sc as [c m]. unfold ser_sized in H. unfold de_sized. cbn [sc_contraction sc_output_size] in H.
  open_struct H vs E HF. read_with contraction_back.
  match goal with K : presents (ser_map h k m) ?v |- _ => destruct (map_back h k m v Hh K) as (m' & E & Hm) end.
  rewrite E. eexists. split; [reflexivity|]. split; auto.
Qed.

Lemma pair_back h k p v : hash_ok h -> presents (ser_pair h k p) v ->
  exists p', de_pair v = Some p' /\ same_step p' p.
Proof.
  intros Hh H. destruct p as [sc l r]. unfold ser_pair in H. unfold de_pair. cbn [ps_sc ps_lhs ps_rhs] in H.
  open_struct H vs E HF. rewrite (operand_pair_back (l, r)) by auto.
  match goal with K : presents (ser_sized h k sc) ?v |- _ => destruct (sized_back h k sc v Hh K) as (sc' & E & Hs) end.
  rewrite E. eexists. split; [reflexivity|]. repeat split; apply Hs.
Qed.

Lemma order_back h k o v : hash_ok h -> presents (ser_order h k o) v ->
  exists o', de_order v = Some o' /\ same_order o' o.
Proof.
  intros Hh H. destruct o as [sc|steps]; unfold de_order; cbn [ser_order] in H.
  - open_variant H order_names d E Hd.
    destruct (sized_back h k sc d Hh Hd) as (sc' & E' & Hs). rewrite E, E'. simpl. eauto.
  - open_variant H order_names d E Hd.
    rewrite E. clear E H. unfold ser_vec in Hd. inversion Hd as [| | | | | |l l' HF| | | | | | |]; subst. clear Hd.
    assert (G : exists steps', mapO de_pair l' = Some steps' /\ Forall2 same_step steps' steps).
    { revert l' HF. generalize 0 as s. induction steps as [|p steps IH]; simpl; intros s l' HF.
      - inversion HF; subst. exists []. simpl. auto.
      - inversion HF as [|? w ? l2 H1 H2]; subst. simpl in H1.
        destruct (pair_back h (s :: k) p w Hh H1) as (p' & E1 & S1).
        destruct (IH (S s) l2 H2) as (steps' & E2 & S2).
        exists (p' :: steps'). simpl. rewrite E1, E2. split; auto. }
    destruct G as (steps' & E & HS). cbn [de_vec]. rewrite E. simpl. eauto.
Qed.

(** ** Contractions that differ in the order of their hash maps *)

Ltac same_step_tac :=
  match goal with |- rbind ?x _ = rbind ?x _ => destruct x; cbn [rbind]; [|reflexivity|reflexivity] end.

Lemma size_of_same a b c : same_sized a b -> size_of (sc_output_size a) c = size_of (sc_output_size b) c.
Proof. intros [_ H]. unfold size_of. rewrite H. auto. Qed.

Lemma mapM_size_same a b l : same_sized a b ->
  mapM (size_of (sc_output_size a)) l = mapM (size_of (sc_output_size b)) l.
Proof. intros H. apply mapM_ext. intros c _. apply size_of_same; auto. Qed.

Lemma singleton_op_same m a b : same_sized a b -> singleton_op_new m a = singleton_op_new m b.
Proof.
  intros H. pose proof H as [Hc _].
  assert (Hd : diagonalization_new a = diagonalization_new b).
  { unfold diagonalization_new. rewrite Hc. repeat same_step_tac.
    destruct (diag_mapping _ _). rewrite (mapM_size_same a b); auto. }
  destruct m; simpl; auto.
  - unfold permutation_new. rewrite Hc. auto.
  - unfold summation_new. rewrite Hc. auto.
  - rewrite Hd. auto.
  - unfold perm_and_sum_new, summation_new. rewrite Hc. auto.
  - unfold diag_and_sum_new. rewrite Hd, Hc. auto.
Qed.

Lemma singleton_new_same a b : same_sized a b -> singleton_contraction_new a = singleton_contraction_new b.
Proof.
  intros H. pose proof H as [Hc _]. unfold singleton_contraction_new, singleton_summary_new. rewrite Hc.
  repeat same_step_tac. rewrite (singleton_op_same _ a b); auto.
Qed.

Lemma foldM_same {T U} (f g : U -> T -> res U) l u : (forall u x, f u x = g u x) -> foldM f l u = foldM g l u.
Proof.
  intros H. revert u; induction l as [|x l IH]; simpl; intros u; auto.
  rewrite H. destruct (g u x); simpl; auto.
Qed.

Lemma stacked_same a b : same_sized a b -> stacked_new a = stacked_new b.
Proof.
  intros H. pose proof H as [Hc _]. unfold stacked_new. rewrite Hc.
  assert (H1 : forall st x, stack_step (sc_output_size a) st x = stack_step (sc_output_size b) st x).
  { intros st [[l r] c]. unfold stack_step. rewrite (size_of_same a b); auto. }
  assert (H2 : forall rhs out st x, contracted_step (sc_output_size a) rhs out st x
                                    = contracted_step (sc_output_size b) rhs out st x).
  { intros rhs out [[la ra] sh] [p c]. unfold contracted_step. rewrite (size_of_same a b); auto. }
  destruct (rassert _); cbn [rbind]; auto.
  destruct (index _ 0) as [lhs|?|]; cbn [rbind]; auto.
  destruct (index _ 1) as [rhs|?|]; cbn [rbind]; auto.
  destruct (maybe_find_outputs_in_inputs_unique _ lhs); cbn [rbind]; auto.
  destruct (maybe_find_outputs_in_inputs_unique _ rhs); cbn [rbind]; auto.
  rewrite (foldM_same _ _ _ _ H1). destruct (foldM (stack_step _) _ _) as [sa|?|]; cbn [rbind]; auto.
  rewrite (foldM_same _ _ _ _ (H2 rhs (output_indices (sc_contraction b)))).
  destruct (foldM (contracted_step _ _ _) _ _) as [[[? ?] ?]|?|]; cbn [rbind]; auto.
  rewrite !(mapM_size_same a b); auto.
Qed.

Lemma pair_op_same m a b : same_sized a b -> pair_op_new m a = pair_op_new m b.
Proof.
  intros H. pose proof H as [Hc _].
  assert (H1 : tfp_new a = tfp_new b).
  { unfold tfp_new. rewrite Hc. repeat same_step_tac. rewrite !(mapM_size_same a b) by auto. auto. }
  assert (H2 : tg_new a = tg_new b).
  { unfold tg_new. rewrite Hc. repeat same_step_tac. rewrite !(mapM_size_same a b) by auto. auto. }
  assert (H3 : broadcast_new a = broadcast_new b).
  { unfold broadcast_new. rewrite Hc. repeat same_step_tac. rewrite !(mapM_size_same a b) by auto. auto. }
  pose proof (stacked_same a b H) as H4.
  destruct m; simpl; rewrite ?H1, ?H2, ?H3, ?H4; auto;
    unfold hadamard_new, hadamard_general_new, scalar_matrix_new, scalar_matrix_general_new, matrix_scalar_new,
      matrix_scalar_general_new; rewrite Hc; auto.
Qed.

(** The same failure, or related values. *)
Definition same_res {T : Type} (R : T -> T -> Prop) (x y : res T) : Prop :=
  match x, y with
  | Ok a, Ok b => R a b
  | Err e, Err e' => e = e'
  | Panic, Panic => True
  | _, _ => False
  end.

Lemma same_res_bind {T U} (R : T -> T -> Prop) (Q : U -> U -> Prop) x y f g :
  same_res R x y -> (forall a b, R a b -> same_res Q (f a) (g b)) ->
  same_res Q (rbind x f) (rbind y g).
Proof. destruct x, y; simpl; intros H HF; auto; contradiction. Qed.

Lemma same_res_eq {T} (x y : res T) : same_res eq x y <-> x = y.
Proof. split; [destruct x, y; simpl; intros; subst; auto; contradiction|intros <-; destruct x; simpl; auto]. Qed.

Lemma same_res_refl {T} (R : T -> T -> Prop) x : (forall a, R a a) -> same_res R x x.
Proof. intros H. destruct x; simpl; auto. Qed.

Lemma same_sized_refl a : same_sized a a.
Proof. split; auto. Qed.

Lemma subset_same h k a b ops out : same_sized a b -> same_res same_sized (subset h k a ops out) (subset h k b ops out).
Proof.
  intros [Hc Hm]. unfold subset.
  rewrite (existsb_ext' (fun c => match lookup c (sc_output_size a) with None => true | Some _ => false end)
             (fun c => match lookup c (sc_output_size b) with None => true | Some _ => false end)).
  - destruct (existsb _ _); [simpl; auto|].
    destruct (from_indices h k ops out); simpl; auto. split; simpl; auto.
    intros c. rewrite !lookup_filter, Hm. auto.
  - intros c _. rewrite Hm. auto.
Qed.

Lemma unwrap_same {T} (R : T -> T -> Prop) x y : same_res R x y -> same_res R (unwrap_res x) (unwrap_res y).
Proof. destruct x, y; simpl; auto. Qed.

Lemma simplification_same h k this other out a b : same_sized a b ->
  simplification_from h k this other out a = simplification_from h k this other out b.
Proof.
  intros H. unfold simplification_from. apply same_res_eq.
  eapply same_res_bind; [apply unwrap_same, subset_same, H|].
  intros x y Hxy. apply same_res_eq. rewrite (singleton_new_same x y Hxy).
  destruct (singleton_contraction_new y) as [s|?|]; cbn [rbind]; auto.
  destruct Hxy as [Hc _]. unfold as_einsum_string. rewrite Hc. auto.
Qed.

Lemma pair_contraction_same h k a b : same_sized a b -> pair_contraction_new h k a = pair_contraction_new h k b.
Proof.
  intros H. pose proof H as [Hc _]. unfold pair_contraction_new. rewrite Hc.
  repeat same_step_tac.
  rewrite !(simplification_same h _ _ _ _ a b H).
  do 2 (destruct (simplification_from _ _ _ _ _ _); cbn [rbind]; auto).
  apply same_res_eq. eapply same_res_bind; [apply unwrap_same, subset_same, H|].
  intros x y Hxy. apply same_res_eq. pose proof Hxy as [Hc' _].
  unfold pair_summary_new, as_einsum_string. rewrite Hc'.
  same_step_tac. rewrite (pair_op_same _ x y Hxy). auto.
Qed.

(** Paths that differ in the order of hash maps in the order they keep. *)
Definition same_path (p q : einsum_path) : Prop :=
  same_order (path_order p) (path_order q) /\ path_steps p = path_steps q.

Lemma from_path_same h k a b : same_order a b -> same_res same_path (from_path h k a) (from_path h k b).
Proof.
  destruct a as [sa|la], b as [sb|lb]; simpl; intros H; try contradiction.
  - rewrite (singleton_new_same sa sb H). destruct (singleton_contraction_new sb); simpl; auto.
    split; auto.
  - assert (E : forall s,
              mapM (fun ist => pair_contraction_new h (fst ist :: 9 :: k) (ps_sc (snd ist)))
                (combine (seq s (length la)) la)
              = mapM (fun ist => pair_contraction_new h (fst ist :: 9 :: k) (ps_sc (snd ist)))
                  (combine (seq s (length lb)) lb)).
    { clear - H. induction H as [|x y la lb [Hs _] HF IH]; intros s; cbn [length seq combine mapM]; auto.
      cbn [fst snd]. rewrite (pair_contraction_same h _ _ _ Hs), IH. auto. }
    rewrite E. destruct (mapM _ _); simpl; auto. split; auto.
Qed.

Lemma contract_same {A} {Sc : Scalar A} (lay : backend A) p q operands : same_path p q ->
  contract_operands lay p operands = contract_operands lay q operands.
Proof.
  destruct p as [op sp], q as [oq sq]. intros [Ho Hs]. simpl in Ho, Hs. subst sq.
  unfold contract_operands. cbn [path_order path_steps].
  destruct op as [sa|la], oq as [sb|lb]; try contradiction; destruct sp as [s|steps]; auto.
  assert (E : forall steps ints, foldM (run_step lay operands) (combine steps la) ints
                                 = foldM (run_step lay operands) (combine steps lb) ints).
  { simpl in Ho. induction Ho as [|x y la lb (_ & Hl & Hr) HF IH]; intros [|st st'] ints; cbn [combine foldM]; auto.
    replace (run_step lay operands ints (st, x)) with (run_step lay operands ints (st, y))
      by (unfold run_step; rewrite Hl, Hr; auto).
    same_step_tac. auto. }
  rewrite E. auto.
Qed.

Lemma generate_path_same h k a b ord : same_sized a b -> same_res same_order (generate_path h k a ord) (generate_path h k b ord).
Proof.
  intros H. unfold generate_path.
  eapply (same_res_bind same_sized).
  { unfold generate_permuted_contraction. pose proof H as [Hc _]. rewrite Hc.
    destruct (rassert _); cbn [rbind]; simpl; auto.
    destruct (mapM _ _); cbn [rbind]; simpl; auto. apply unwrap_same, subset_same; auto. }
  intros x y Hxy. pose proof Hxy as [Hc _]. rewrite Hc.
  set (ops := operand_indices (sc_contraction y)).
  assert (Hp : forall k l r o, same_res same_sized (generate_sized_contraction_pair h k l r o x)
                                 (generate_sized_contraction_pair h k l r o y)).
  { intros. unfold generate_sized_contraction_pair. apply unwrap_same, subset_same; auto. }
  assert (Hgen : same_res same_order
    (do first <- index ops 0; do n <- usub (length ops) 1;
     do st <- foldM (path_iteration h k x ord) (seq 0 n) (first, []); Ok (Pairs (snd st)))
    (do first <- index ops 0; do n <- usub (length ops) 1;
     do st <- foldM (path_iteration h k y ord) (seq 0 n) (first, []); Ok (Pairs (snd st)))).
  { destruct (index ops 0) as [first|?|]; cbn [rbind]; simpl; auto.
    destruct (usub _ _) as [n|?|]; cbn [rbind]; simpl; auto.
    apply (same_res_bind (fun s t => fst s = fst t /\ Forall2 same_step (snd s) (snd t))).
    - generalize (seq 0 n) as l.
      assert (G : forall l o s t, Forall2 same_step s t ->
        same_res (fun s t => fst s = fst t /\ Forall2 same_step (snd s) (snd t))
          (foldM (path_iteration h k x ord) l (o, s)) (foldM (path_iteration h k y ord) l (o, t))).
      { induction l as [|i l IH]; intros o s t Hst; simpl; auto.
        apply (same_res_bind (fun s t => fst s = fst t /\ Forall2 same_step (snd s) (snd t))).
        - unfold path_iteration. rewrite Hc.
          destruct (index _ (S i)) as [rhs|?|]; cbn [rbind]; simpl; auto.
          eapply same_res_bind; [apply Hp|]. intros u w Huw.
          destruct (index ord (S i)) as [r|?|]; cbn [rbind]; simpl; auto.
          destruct (_ : res operand_number); cbn [rbind]; simpl; auto. split; auto.
          apply Forall2_app; auto. constructor; auto. repeat split; apply Huw.
        - intros [o1 s1] [o2 s2] [E1 E2]. simpl in E1, E2. subst. apply IH. auto. }
      intros l. apply G. constructor.
    - intros [o1 s1] [o2 s2] [E1 E2]. simpl in *. auto. }
  revert Hgen. destruct (length ops) as [|[|[|n]]] eqn:EL; intros Hgen; try exact Hgen; clear Hgen.
  - simpl. auto.
  - destruct (index ops 0) as [l|?|]; cbn [rbind]; simpl; auto.
    destruct (index ops 1) as [r|?|]; cbn [rbind]; simpl; auto.
    eapply same_res_bind; [apply Hp|]. intros u w Huw.
    destruct (index ord 0) as [t0|?|]; cbn [rbind]; simpl; auto.
    destruct (index ord 1) as [t1|?|]; cbn [rbind]; simpl; auto.
    constructor; [|constructor]. repeat split; apply Huw.
Qed.

Lemma optimized_same h k a b strategy : same_sized a b ->
  same_res same_order (generate_optimized_order h k a strategy) (generate_optimized_order h k b strategy).
Proof.
  intros H. pose proof H as [Hc _]. destruct strategy; simpl; auto;
    unfold naive_order, reverse_order; rewrite Hc; apply generate_path_same; auto.
Qed.

Lemma einsum_path_new_same h k a b : same_sized a b -> same_res same_path (einsum_path_new h k a) (einsum_path_new h k b).
Proof.
  intros H. unfold einsum_path_new. eapply same_res_bind; [apply optimized_same, H|].
  intros x y Hxy. apply from_path_same; auto.
Qed.

Lemma einsum_sc_same {A} {Sc : Scalar A} h (lay : backend A) a b operands : same_sized a b ->
  einsum_sc h lay a operands = einsum_sc h lay b operands.
Proof.
  intros H. unfold einsum_sc. apply same_res_eq. eapply same_res_bind; [apply einsum_path_new_same, H|].
  intros p q Hpq. apply same_res_eq. apply contract_same; auto.
Qed.

(** ** Validity of orders *)

Lemma sized_same a b ops out size : same_sized a b -> sized b ops out size -> sized a ops out size.
Proof.
  intros [Hc Hm] (H1 & H2 & H3). split; [|split]; auto.
  - rewrite Hc. auto.
  - intros c. rewrite Hm. auto.
Qed.

Lemma valid_order_same size ops out a b : same_order a b -> valid_order size ops out b -> valid_order size ops out a.
Proof.
  destruct a as [sa|la], b as [sb|lb]; simpl; intros H Hv; try contradiction.
  - destruct Hv as (ix & -> & HS). exists ix. split; auto. eapply sized_same; eauto.
  - revert la H. induction Hv as [i pool n1 l n2 r sc Hp HS|i pool n1 l n2 r rest sc o steps Hp HS HL Hch IH];
      intros la H.
    + inversion H as [|[sc' l' r'] ? ? ? (H1 & H2 & H3) H4]; subst. inversion H4; subst. simpl in *. subst.
      econstructor; eauto. eapply sized_same; eauto.
    + inversion H as [|[sc' l' r'] ? ? ? (H1 & H2 & H3) H4]; subst. simpl in *. subst.
      econstructor; eauto. eapply sized_same; eauto.
Qed.

Lemma order_blocked_same {A} size (arrays : list (arr A)) a b : same_order a b ->
  order_blocked size arrays a <-> order_blocked size arrays b.
Proof.
  destruct a as [sa|la], b as [sb|lb]; simpl; intros H; try contradiction.
  - destruct H as [Hc _]. rewrite Hc. tauto.
  - split.
    + intros (st & l & r & Hi & E & Hb).
      assert (G : exists st', In st' lb /\ same_step st st').
      { clear - H Hi. induction H as [|x y la lb Hxy HF IH]; [contradiction|].
        destruct Hi as [<-|Hi]; [exists y; simpl; auto|]. destruct (IH Hi) as (st' & H1 & H2). exists st'. simpl. auto. }
      destruct G as (st' & Hi' & ([Hc _] & Hl & Hr)). exists st', l, r.
      rewrite <- Hc, <- Hl, <- Hr. auto.
    + intros (st & l & r & Hi & E & Hb).
      assert (G : exists st', In st' la /\ same_step st' st).
      { clear - H Hi. induction H as [|x y la lb Hxy HF IH]; [contradiction|].
        destruct Hi as [<-|Hi]; [exists x; simpl; auto|]. destruct (IH Hi) as (st' & H1 & H2). exists st'. simpl. auto. }
      destruct G as (st' & Hi' & ([Hc _] & Hl & Hr)). exists st', l, r.
      rewrite Hc, Hl, Hr. auto.
Qed.
