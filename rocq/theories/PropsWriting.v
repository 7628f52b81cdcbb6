(** Ways of writing a product (C76): which renamings of labels, permutations of axes and exchanges of
    operands leave every bit of a result alone, in arithmetic without laws, and which do not. *)
From Verif Require Import Base BaseFacts NDArray Validation Optimizers Singleton Pair Path Api Spec ParserFacts
  ValidationFacts ValidationMain SumFacts ArrayFacts AlgebraFacts PairFacts PathFacts TensordotMain EinsumMain EinsumProps
  Schedule NdSchedule NdScheduleFacts NdLayoutFacts TwinFacts ExactFacts WritingFacts FloatFacts FloatMain Examples
  PropsFloat PropsNdarray PropsExact PropsReduce.
From Coq Require Import Lia ZArith SpecFloat Sorted.
From Coq Require Eqdep_dec.
From Coq Require String.
Import String.StringSyntax.
Local Open Scope string_scope.
Local Open Scope list_scope.
Local Open Scope nat_scope.

(** ** Both calls at once *)

Lemma elem_holds {A} {Sc : Scalar A} (r : arr A) size out V e : holds r (map size out) (fun o => V (bind out o)) ->
  elem r (map e out) = if in_bounds (map size out) (map e out) then V (bind out (map e out)) else szero.
Proof.
  intros (Hs & _ & Hr). unfold elem. destruct (in_bounds _ _) eqn:E; [rewrite Hr by auto; auto|].
  unfold a_get. rewrite Hs, E. auto.
Qed.

Lemma holds_elem {A} {Sc : Scalar A} (r : arr A) sh F : holds r sh F -> holds r sh (elem r).
Proof. intros (H1 & H2 & H3). split; auto. split; auto. intros o Ho. unfold elem. rewrite H3; auto. Qed.

(** Renamed labels and permuted axes, of the operands and of the result. *)
Theorem writing_does_not_show :
  forall (A : Type) (Sc : Scalar A) (lay lay' : backend A) add h h' s s' (f : char -> char) (a b a' b' : arr A)
      lhs rhs out lhs' rhs' out' size size',
    hash_ok h -> hash_ok h' -> backend_runs lay -> backend_runs lay' ->
    (forall a b idx l, add_products lay a b idx l = add l) -> (forall a b idx l, add_products lay' a b idx l = add l) ->
    call_ok s [a_shape a; a_shape b] [lhs; rhs] out size ->
    call_ok s' [a_shape a'; a_shape b'] [lhs'; rhs'] out' size' -> wf a -> wf b -> wf a' -> wf b' ->
    NoDup lhs -> NoDup rhs ->
    (forall c, In c lhs -> In c rhs \/ In c out) -> (forall c, In c rhs -> In c lhs \/ In c out) ->
    (forall c d, In c (lhs ++ rhs) -> In d (lhs ++ rhs) -> f c = f d -> c = d) ->
    (forall c, In c (lhs ++ rhs) -> size' (f c) = size c) ->
    rewritten f lhs a lhs' a' -> rewritten f rhs b rhs' b' -> Permutation (map f out) out' ->
    alike f lhs rhs out lhs' out' ->
    exists r r', einsum h lay s [a; b] = Ok r /\ einsum h' lay' s' [a'; b'] = Ok r' /\ rewritten f out r out' r'
      /\ holds r (map size out) (elem r) /\ holds r' (map size' out') (elem r').
Proof.
  intros A Sc lay lay' add h h' s s' f a b a' b' lhs rhs out lhs' rhs' out' size size' Hh Hh' Hl Hl' Had Had' Hc Hc' Wa Wb Wa' Wb'
    Nl Nr Ul Ur Hf Hsz Ra Rb Po Hal.
  destruct (product_of_two_is_exact A Sc lay add h s a b lhs rhs out size Hh Hl Had Hc Wa Wb Nl Nr Ul Ur) as (r & V & Er & HV & Hr).
  assert (Hi : incl out (lhs ++ rhs)).
  { destruct Hc as (_ & [_ Ho] & _). cbn [concat] in Ho. rewrite app_nil_r in Ho. exact Ho. }
  assert (Hfl : inj_on f lhs) by (eapply inj_on_incl; [|exact Hf]; apply incl_appl, incl_refl).
  assert (Hfr : inj_on f rhs) by (eapply inj_on_incl; [|exact Hf]; apply incl_appr, incl_refl).
  assert (Hno : NoDup out') by (destruct Hc' as (_ & [No _] & _); auto).
  assert (Ml : forall c, In c lhs' <-> In c (map f lhs)) by (intros c; split; apply Permutation_in; [apply Permutation_sym|]; apply Ra).
  assert (Mr : forall c, In c rhs' <-> In c (map f rhs)) by (intros c; split; apply Permutation_in; [apply Permutation_sym|]; apply Rb).
  assert (Mo : forall c, In c out' <-> In c (map f out)) by (intros c; split; apply Permutation_in; [apply Permutation_sym|]; apply Po).
  destruct (product_of_two_is_exact A Sc lay' add h' s' a' b' lhs' rhs' out' size' Hh' Hl' Had' Hc' Wa' Wb') as (r' & V' & Er' & HV' & Hr').
  { eapply Permutation_NoDup; [apply Ra|]. apply NoDup_map_inj; auto. }
  { eapply Permutation_NoDup; [apply Rb|]. apply NoDup_map_inj; auto. }
  { intros c H. apply Ml in H. apply in_map_iff in H as (d & <- & H). rewrite Mr, Mo. destruct (Ul d H); [left|right]; apply in_map; auto. }
  { intros c H. apply Mr in H. apply in_map_iff in H as (d & <- & H). rewrite Ml, Mo. destruct (Ur d H); [left|right]; apply in_map; auto. }
  exists r, r'. split; auto. split; auto. split; [split; auto|split; eapply holds_elem; eauto]. intros e.
  rewrite (elem_holds r' size' out' V' e Hr'), (elem_holds r size out V (fun c => e (f c)) Hr).
  assert (Hb : in_bounds (map size' out') (map e out') = in_bounds (map size out) (map (fun c => e (f c)) out)).
  { apply eq_true_iff_eq. rewrite in_bounds_map, in_bounds_map. unfold in_range. split; intros H c Hin.
    - rewrite <- Hsz by auto. apply H, Mo, in_map. auto.
    - apply Mo in Hin. apply in_map_iff in Hin as (d & <- & Hd). rewrite Hsz by auto. apply H. auto. }
  rewrite Hb. destruct (in_bounds (map size out) _); auto.
  eapply (values_rewritten add f size size' lhs rhs out lhs' rhs' out' a b a' b' V V'); eauto.
  intros c Hin. rewrite (bind_map e out') by (apply Mo, in_map; auto). rewrite (bind_map (fun c => e (f c)) out) by auto. reflexivity.
Qed.
Print Assumptions writing_does_not_show.

Lemma shapes_renamed (f : char -> char) (size size' : char -> nat) ls : map size ls = map size' (map f ls) -> forall c, In c ls -> size' (f c) = size c.
Proof. rewrite map_map. induction ls as [|x ls IH]; intros E c H; [contradiction|]. injection E as E1 E2. destruct H as [<-|H]; auto. Qed.

Lemma rewritten_same {A} {Sc : Scalar A} f (l : list char) (a : arr A) : rewritten f l a (map f l) a.
Proof. split; [apply Permutation_refl|]. intros e. rewrite map_map. reflexivity. Qed.

Lemma dropped_renamed f l out : inj_on f (l ++ out) -> dropped (map f l) (map f out) = map f (dropped l out).
Proof.
  unfold dropped. induction l as [|c l IH]; intros Hf; [reflexivity|]. cbn [map filter].
  rewrite IH by (eapply inj_on_incl; [|exact Hf]; apply incl_tl, incl_refl).
  assert (E : In (f c) (map f out) <-> In c out).
  { apply mem_renamed. eapply inj_on_incl; [|exact Hf]. intros d [<-|H]; simpl; auto using in_or_app. }
  destruct (in_dec N.eq_dec (f c) (map f out)), (in_dec N.eq_dec c out); try reflexivity; exfalso; tauto.
Qed.

(** ** Names *)

(** Other names for the labels of two operands: no bit changes if there is a label of both operands and the
    output, or if the summed labels keep their alphabetical order, as a single one does. *)
Theorem names_do_not_show :
  forall (A : Type) (Sc : Scalar A) (lay : backend A) add h h' s s' (f : char -> char) (a b : arr A) lhs rhs out size size',
    hash_ok h -> hash_ok h' -> backend_runs lay -> (forall a b idx l, add_products lay a b idx l = add l) ->
    call_ok s [a_shape a; a_shape b] [lhs; rhs] out size ->
    call_ok s' [a_shape a; a_shape b] [map f lhs; map f rhs] (map f out) size' -> wf a -> wf b ->
    NoDup lhs -> NoDup rhs ->
    (forall c, In c lhs -> In c rhs \/ In c out) -> (forall c, In c rhs -> In c lhs \/ In c out) ->
    (forall c d, In c (lhs ++ rhs) -> In d (lhs ++ rhs) -> f c = f d -> c = d) ->
    (batch lhs rhs out \/ (forall c d, In c lhs -> In d lhs -> ~ In c out -> ~ In d out -> (c < d)%N -> (f c < f d)%N)) ->
    exists r r', einsum h lay s [a; b] = Ok r /\ einsum h' lay s' [a; b] = Ok r'
      /\ a_shape r = a_shape r' /\ forall o, in_bounds (a_shape r) o = true -> a_get r o = a_get r' o.
Proof.
  intros A Sc lay add h h' s s' f a b lhs rhs out size size' Hh Hh' Hl Had Hc Hc' Wa Wb Nl Nr Ul Ur Hf Hal.
  assert (Hsz : forall c, In c (lhs ++ rhs) -> size' (f c) = size c).
  { destruct Hc as (_ & _ & Hs), Hc' as (_ & _ & Hs'). inversion Hs as [|? ? ? ? E1 Hs2]; subst. inversion Hs2 as [|? ? ? ? E2 _]; subst.
    inversion Hs' as [|? ? ? ? E3 Hs4]; subst. inversion Hs4 as [|? ? ? ? E4 _]; subst.
    intros c H. apply in_app_iff in H as [H|H]; eapply shapes_renamed; eauto; congruence. }
  assert (Hi : incl out (lhs ++ rhs)).
  { destruct Hc as (_ & [_ Ho] & _). cbn [concat] in Ho. rewrite app_nil_r in Ho. exact Ho. }
  destruct (writing_does_not_show A Sc lay lay add h h' s s' f a b a b lhs rhs out (map f lhs) (map f rhs) (map f out) size size')
    as (r & r' & Er & Er' & (_ & H) & (S1 & _ & H1) & (S2 & _ & H2)); auto using rewritten_same.
  { split; intros Hb.
    - apply dropped_renamed. eapply inj_on_incl; [|exact Hf]. clear - Hi. intros c H. apply in_app_iff in H as [H|H]; auto. apply in_or_app; auto.
    - destruct Hal as [Hal|Hal]; [contradiction|exact Hal]. }
  exists r, r'. split; auto. split; auto.
  assert (Es : map size' (map f out) = map size out).
  { rewrite map_map. apply map_ext_in. intros c Hin. apply Hsz. auto. }
  rewrite Es in *. split; [congruence|]. rewrite S1. intros o Ho. rewrite H1, H2 by auto. f_equal.
  assert (No : NoDup (map f out)) by (destruct Hc' as (_ & [No _] & _); auto).
  pose proof (in_bounds_length _ _ Ho) as Hlen. rewrite map_length in Hlen.
  rewrite <- (map_bind (map f out) o) at 2 by (rewrite ?map_length; auto). rewrite H.
  rewrite <- (map_map f (bind (map f out) o)), map_bind by (rewrite ?map_length; auto). reflexivity.
Qed.
Print Assumptions names_do_not_show.

(** The names of the labels of one operand never show: whatever the array library does, the two calls are the same. *)
Theorem names_of_one_do_not_show :
  forall (A : Type) (Sc : Scalar A) (lay : backend A) h h' s s' (f : char -> char) (a : arr A) this out size size',
    hash_ok h -> hash_ok h' ->
    call_ok s [a_shape a] [this] out size -> call_ok s' [a_shape a] [map f this] (map f out) size' ->
    (forall c d, In c this -> In d this -> f c = f d -> c = d) ->
    einsum h lay s [a] = einsum h' lay s' [a].
Proof.
  intros A Sc lay h h' s s' f a this out size size' Hh Hh' Hc Hc' Hf.
  destruct (single_call lay h s a this out size Hh Hc) as (sc & c & HS & Ec & ->).
  destruct (single_call lay h' s' a (map f this) (map f out) size' Hh' Hc') as (sc' & c' & HS' & Ec' & ->).
  assert (Hsz : forall c, In c this -> size' (f c) = size c).
  { destruct Hc as (_ & _ & Hs), Hc' as (_ & _ & Hs'). inversion Hs as [|? ? ? ? E1 _]; subst. inversion Hs' as [|? ? ? ? E2 _]; subst.
    apply shapes_renamed. congruence. }
  rewrite (contraction_renamed f sc sc' this out size size' HS HS' Hf Hsz) in Ec'. congruence.
Qed.
Print Assumptions names_of_one_do_not_show.

(** ** Axes *)

Lemma permuted_rewritten {A} {Sc : Scalar A} (a a' : arr A) p size (l : list char) : wf a -> a_shape a = map size l -> permuted_axes a p = Ok a' ->
  rewritten (fun c => c) l a (map (fun i => nth i l 0%N) p) a' /\ wf a' /\ a_shape a' = map size (map (fun i => nth i l 0%N) p).
Proof.
  intros Wa Es Ep.
  assert (Hp : Permutation p (seq 0 (length (a_shape a)))).
  { unfold permuted_axes in Ep. destruct (_ && _) eqn:E in Ep; [|discriminate]. apply valid_axes in E. exact E. }
  assert (El : length (a_shape a) = length l) by (rewrite Es; apply map_length).
  destruct (permuted_get a p Hp) as (r & E & Hs & Hst & Hg); [apply Wa|]. assert (r = a') by congruence. subst r.
  assert (Hel : forall e : env, a_get a' (map e (map (fun i => nth i l 0%N) p)) = a_get a (map e l)).
  { intros e. rewrite map_map, (Hg (fun i => e (nth i l 0%N))). f_equal.
    rewrite El, <- (map_map (fun i => nth i l 0%N) e), map_nth_seq. reflexivity. }
  assert (Hsh : a_shape a' = map size (map (fun i => nth i l 0%N) p)).
  { rewrite Hs, map_map. apply map_ext_in. intros i Hi.
    assert (Hlt : i < length l). { apply (Permutation_in _ Hp), in_seq in Hi. lia. }
    rewrite Es. rewrite (nth_indep _ 0 (size 0%N)) by (rewrite map_length; auto). apply map_nth. }
  split; [|split; auto].
  - split; [|intros e; unfold elem; rewrite Hel; auto]. rewrite map_id.
    rewrite <- (map_nth_seq l 0%N) at 1. rewrite <- El. apply Permutation_map, Permutation_sym. exact Hp.
  - assert (Np : NoDup p) by (eapply axes_NoDup; exact Hp).
    apply wf_readable. split; [rewrite Hst, Hs, map_length; auto|]. intros idx Hi.
    destruct (NoDup_index Nat.eq_dec p idx Np) as (e & <-).
    { apply in_bounds_length in Hi. rewrite Hs, map_length in Hi. auto. }
    rewrite Hg. pose proof (wf_holds a Wa) as (_ & _ & H). rewrite H; [eauto|].
    rewrite Hs in Hi. rewrite in_bounds_permuted in Hi by auto. exact Hi.
Qed.

(** The axes of the operands permuted, and their labels with them, and those of the result too: no bit changes
    unless there is a label of both operands and the output and the summed labels of the first operand change
    places. *)
Theorem axes_do_not_show :
  forall (A : Type) (Sc : Scalar A) (lay : backend A) add h h' s s' (a b a' b' : arr A) pa pb lhs rhs out out' size,
    hash_ok h -> hash_ok h' -> backend_runs lay -> (forall a b idx l, add_products lay a b idx l = add l) ->
    let lhs' := map (fun i => nth i lhs 0%N) pa in
    let rhs' := map (fun i => nth i rhs 0%N) pb in
    permuted_axes a pa = Ok a' -> permuted_axes b pb = Ok b' ->
    call_ok s [a_shape a; a_shape b] [lhs; rhs] out size ->
    call_ok s' [a_shape a'; a_shape b'] [lhs'; rhs'] out' size -> wf a -> wf b ->
    NoDup lhs -> NoDup rhs ->
    (forall c, In c lhs -> In c rhs \/ In c out) -> (forall c, In c rhs -> In c lhs \/ In c out) ->
    Permutation out out' -> (batch lhs rhs out -> dropped lhs' out' = dropped lhs out) ->
    exists r r', einsum h lay s [a; b] = Ok r /\ einsum h' lay s' [a'; b'] = Ok r'
      /\ forall e : env, elem r' (map e out') = elem r (map e out).
Proof.
  intros A Sc lay add h h' s s' a b a' b' pa pb lhs rhs out out' size Hh Hh' Hl Had lhs' rhs' Ea Eb Hc Hc' Wa Wb Nl Nr Ul Ur Po Hd.
  pose proof Hc as (_ & _ & Hs). inversion Hs as [|? ? ? ? E1 Hs2]; subst. inversion Hs2 as [|? ? ? ? E2 _]; subst.
  destruct (permuted_rewritten a a' pa size lhs Wa E1 Ea) as (Ra & Wa' & _).
  destruct (permuted_rewritten b b' pb size rhs Wb E2 Eb) as (Rb & Wb' & _).
  destruct (writing_does_not_show A Sc lay lay add h h' s s' (fun c => c) a b a' b' lhs rhs out lhs' rhs' out' size size)
    as (r & r' & Er & Er' & (_ & H) & _); auto.
  { rewrite map_id. auto. }
  { split; auto. intros Hb. rewrite map_id. auto. }
  exists r, r'. auto.
Qed.
Print Assumptions axes_do_not_show.

(** ** Order of the operands *)

(** Swapped operands: no bit changes if multiplication commutes, in sums of products too, unless there is a label
    of both operands and the output and the summed labels are in different orders in the two. *)
Theorem swapping_does_not_show :
  forall (A : Type) (Sc : Scalar A) (lay : backend A) add h h' s s' (a b : arr A) lhs rhs out size,
    hash_ok h -> hash_ok h' -> backend_runs lay -> (forall a b idx l, add_products lay a b idx l = add l) ->
    (forall x y : A, smul x y = smul y x) -> (forall l, add (map (fun p => (snd p, fst p)) l) = add l) ->
    call_ok s [a_shape a; a_shape b] [lhs; rhs] out size ->
    call_ok s' [a_shape b; a_shape a] [rhs; lhs] out size -> wf a -> wf b ->
    NoDup lhs -> NoDup rhs ->
    (forall c, In c lhs -> In c rhs \/ In c out) -> (forall c, In c rhs -> In c lhs \/ In c out) ->
    (batch lhs rhs out -> dropped lhs out = dropped rhs out) ->
    exists r r', einsum h lay s [a; b] = Ok r /\ einsum h' lay s' [b; a] = Ok r' /\ same_array r r'.
Proof.
  intros A Sc lay add h h' s s' a b lhs rhs out size Hh Hh' Hl Had Hm Hsw Hc Hc' Wa Wb Nl Nr Ul Ur Hd.
  destruct (product_of_two_is_exact A Sc lay add h s a b lhs rhs out size Hh Hl Had Hc Wa Wb Nl Nr Ul Ur) as (r & V & Er & HV & S1 & _ & Hr).
  destruct (product_of_two_is_exact A Sc lay add h' s' b a rhs lhs out size Hh' Hl Had Hc' Wb Wa Nr Nl Ur Ul) as (r' & V' & Er' & HV' & S2 & _ & Hr').
  exists r, r'. split; auto. split; auto. split; [congruence|]. rewrite S1. intros o Ho. rewrite Hr, Hr' by auto. f_equal.
  symmetry. eapply (values_swapped add size lhs rhs out); eauto.
Qed.
Print Assumptions swapping_does_not_show.

(** ** Floating-point numbers on ndarray *)

Lemma float_same f (x y : float f) : proj1_sig x = proj1_sig y -> x = y.
Proof.
  destruct x as [x Hx], y as [y Hy]. cbn [proj1_sig]. intros ->. f_equal.
  apply Eqdep_dec.UIP_dec. decide equality.
Qed.

Lemma SFmul_comm prec emax x y : SFmul prec emax x y = SFmul prec emax y x.
Proof.
  destruct x as [sx|sx| |sx mx ex], y as [sy|sy| |sy my ey]; cbn [SFmul]; rewrite ?(xorb_comm sx sy); auto.
  rewrite (Pos.mul_comm mx my), (Z.add_comm ex ey). reflexivity.
Qed.

Lemma f_mul_comm f (x y : float f) : f_mul x y = f_mul y x.
Proof. apply float_same. cbn [f_mul proj1_sig]. apply SFmul_comm. Qed.

Lemma f_fma_comm f (x y z : float f) : f_fma x y z = f_fma y x z.
Proof.
  apply float_same. cbn [f_fma proj1_sig]. destruct (proj1_sig x) as [sx|sx| |sx mx ex], (proj1_sig y) as [sy|sy| |sy my ey];
    cbn [SFfma]; rewrite 1?SFmul_comm; auto.
  rewrite (Pos.mul_comm mx my), (Z.add_comm ex ey), (xorb_comm sx sy). reflexivity.
Qed.

Lemma fold_swapped {A} (g : A -> A -> A -> A) (l : list (A * A)) s : (forall x y z, g x y z = g y x z) ->
  fold_left (fun s p => g (fst p) (snd p) s) (map (fun p => (snd p, fst p)) l) s = fold_left (fun s p => g (fst p) (snd p) s) l s.
Proof. intros Hg. revert s. induction l as [|p l IH]; intros s; [reflexivity|]. cbn [map fold_left fst snd]. rewrite (Hg (snd p)). apply IH. Qed.

Lemma kernel_swapped {A} {Sc : Scalar A} (fma : A -> A -> A -> A) u l : (forall x y : A, smul x y = smul y x) -> (forall x y z, fma x y z = fma y x z) ->
  kernel fma u (map (fun p => (snd p, fst p)) l) = kernel fma u l.
Proof.
  intros Hm Hf. unfold kernel. apply (fold_swapped (fun x y s => if u then fma x y s else sadd s (smul x y))).
  intros x y z. destruct u; [apply Hf|rewrite Hm; auto].
Qed.

Lemma blocks_swapped {A} {Sc : Scalar A} (fma : A -> A -> A -> A) u : (forall x y : A, smul x y = smul y x) -> (forall x y z, fma x y z = fma y x z) ->
  forall n kc c l, later_blocks fma n kc u c (map (fun p => (snd p, fst p)) l) = later_blocks fma n kc u c l.
Proof.
  intros Hm Hf. induction n as [|n IH]; intros kc c l; [reflexivity|]. destruct l as [|p l]; [reflexivity|].
  cbn [later_blocks]. change (map (fun p => (snd p, fst p)) (p :: l)) with (map (fun p : A * A => (snd p, fst p)) (p :: l)).
  cbn [map]. change ((snd p, fst p) :: map (fun p => (snd p, fst p)) l) with (map (fun p : A * A => (snd p, fst p)) (p :: l)).
  rewrite firstn_map, skipn_map, kernel_swapped, IH by auto. reflexivity.
Qed.

Lemma matrix_sum_swapped {A} {Sc : Scalar A} m (fma : A -> A -> A -> A) l : (forall x y : A, smul x y = smul y x) -> (forall x y z, fma x y z = fma y x z) ->
  matrix_sum m fma (map (fun p => (snd p, fst p)) l) = matrix_sum m fma l.
Proof.
  intros Hm Hf. destruct m as [|kc u]; cbn [matrix_sum].
  - unfold general_product. do 2 f_equal. apply (fold_swapped (fun x y s => sadd s (smul x y))). intros x y z. rewrite Hm. auto.
  - unfold gemm_product. destruct l as [|p l]; [reflexivity|]. cbn [map].
    change ((snd p, fst p) :: map (fun p => (snd p, fst p)) l) with (map (fun p : A * A => (snd p, fst p)) (p :: l)).
    rewrite map_length, firstn_map, skipn_map, kernel_swapped, blocks_swapped by auto. reflexivity.
Qed.

(** The product of the transposed matrices is the transposed product, to the last bit, with or without fused
    multiply-adds. *)
Theorem transposed_product_on_ndarray :
  forall f m h h' (a b a' b' : arr (float f)) n k p, hash_ok h -> hash_ok h' -> wf a -> wf b ->
    a_shape a = [n; k] -> a_shape b = [k; p] -> permuted_axes a [1; 0] = Ok a' -> permuted_axes b [1; 0] = Ok b' ->
    exists r r', einsum h (ndarray m f_fma) (chars "ij,jk->ik") [a; b] = Ok r
      /\ einsum h' (ndarray m f_fma) (chars "ij,jk->ik") [b'; a'] = Ok r'
      /\ a_shape r = [n; p] /\ a_shape r' = [p; n]
      /\ forall i l, i < n -> l < p -> a_get r' [l; i] = a_get r [i; l].
Proof.
  intros f m h h' a b a' b' n k p Hh Hh' Wa Wb Sa Sb Ea Eb.
  set (sz := fun n k : nat => size_fn [(105%N, n); (106%N, k)]).
  destruct (permuted_rewritten a a' [1; 0] (sz n k) (chars "ij") Wa Sa Ea) as ((_ & Ra) & Wa' & Sa').
  destruct (permuted_rewritten b b' [1; 0] (sz k p) (chars "ij") Wb Sb Eb) as ((_ & Rb) & Wb' & Sb').
  destruct (matrix_product_on_ndarray (float f) _ m f_fma h a b n k p Hh Wa Wb Sa Sb) as (r & Er & S & H).
  destruct (matrix_product_on_ndarray (float f) _ m f_fma h' b' a' p k n Hh' Wb' Wa' Sb' Sa') as (r' & Er' & S' & H').
  exists r, r'. do 4 (split; auto). intros i l Hi Hl. rewrite H, H' by auto. f_equal.
  rewrite <- (matrix_sum_swapped m f_fma) by (intros; first [apply f_mul_comm|apply f_fma_comm]). f_equal.
  rewrite map_map. apply map_ext. intros j. cbn [fst snd]. f_equal.
  - apply (Ra (bind (chars "ij") [i; j])).
  - apply (Rb (bind (chars "ij") [j; l])).
Qed.
Print Assumptions transposed_product_on_ndarray.

(** The operands of a product on ndarray can be swapped. *)
Theorem swapping_on_ndarray :
  forall f m h h' s s' (a b : arr (float f)) lhs rhs out size, hash_ok h -> hash_ok h' ->
    call_ok s [a_shape a; a_shape b] [lhs; rhs] out size -> call_ok s' [a_shape b; a_shape a] [rhs; lhs] out size ->
    wf a -> wf b -> NoDup lhs -> NoDup rhs ->
    (forall c, In c lhs -> In c rhs \/ In c out) -> (forall c, In c rhs -> In c lhs \/ In c out) ->
    (batch lhs rhs out -> dropped lhs out = dropped rhs out) ->
    exists r r', einsum h (ndarray m f_fma) s [a; b] = Ok r /\ einsum h' (ndarray m f_fma) s' [b; a] = Ok r' /\ same_array r r'.
Proof.
  intros f m h h' s s' a b lhs rhs out size Hh Hh' Hc Hc' Wa Wb Nl Nr Ul Ur Hd.
  eapply (swapping_does_not_show (float f) _ (ndarray m f_fma) (matrix_sum m f_fma)); eauto.
  - apply nd_runs.
  - apply nd_products.
  - apply f_mul_comm.
  - intros l. apply matrix_sum_swapped; [apply f_mul_comm|apply f_fma_comm].
Qed.
Print Assumptions swapping_on_ndarray.

(** ** What does show *)

Definition run64 (s : String.string) (arrays : list (arr (float f64))) : res (list spec_float) :=
  do r <- einsum id_hash (ndarray General f_fma) (chars s) arrays; do l <- a_iter r; Ok (map (@proj1_sig _ _) l).

Lemma different_results s s' (x y : list (arr (float f64))) : run64 s x <> run64 s' y ->
  ~ (exists r r', einsum id_hash (ndarray General f_fma) (chars s) x = Ok r /\ einsum id_hash (ndarray General f_fma) (chars s') y = Ok r'
     /\ same_array r r').
Proof.
  intros Hn (r & r' & E & E' & Hs & Hg). apply Hn. unfold run64. rewrite E, E'. cbn [rbind].
  replace (a_iter r') with (a_iter r); auto. unfold a_iter. rewrite <- Hs. apply BaseFacts.mapM_ext. intros o Ho. apply Hg. apply indices_In; auto.
Qed.

Definition one_axis (sh : list nat) (l : list (float f64)) : arr (float f64) := mkArr l 0%Z sh (default_strides sh).
Definition ones : list (float f64) := repeat (f_of f64 1 0) 4.

(** Renaming [i] and [j] into each other changes the sum of the products of two matrices. *)
Theorem names_never_show_refuted :
  ~ (forall h s s' (f : char -> char) (a b : arr (float f64)) lhs rhs out size size', hash_ok h ->
       call_ok s [a_shape a; a_shape b] [lhs; rhs] out size ->
       call_ok s' [a_shape a; a_shape b] [map f lhs; map f rhs] (map f out) size' -> wf a -> wf b ->
       NoDup lhs -> NoDup rhs ->
       (forall c, In c lhs -> In c rhs \/ In c out) -> (forall c, In c rhs -> In c lhs \/ In c out) ->
       (forall c d, In c (lhs ++ rhs) -> In d (lhs ++ rhs) -> f c = f d -> c = d) ->
       exists r r', einsum h (ndarray General f_fma) s [a; b] = Ok r /\ einsum h (ndarray General f_fma) s' [a; b] = Ok r'
         /\ same_array r r').
Proof.
  intros H. specialize (H id_hash (chars "ij,ij->") (chars "ji,ji->") (fun c => if N.eqb c 105 then 106%N else 105%N)
    (one_axis [2; 2] four) (one_axis [2; 2] ones) (chars "ij") (chars "ij") []
    (size_fn (combine (chars "ij") [2; 2])) (size_fn (combine (chars "ij") [2; 2])) id_hash_ok).
  apply (different_results "ij,ij->" "ji,ji->" [one_axis [2; 2] four; one_axis [2; 2] ones] [one_axis [2; 2] four; one_axis [2; 2] ones]);
    [vm_compute; discriminate|].
  apply H.
  - apply check_call_ok; check_call_tac.
  - apply check_call_ok; check_call_tac.
  - apply wf_b_ok. reflexivity.
  - apply wf_b_ok. reflexivity.
  - repeat constructor; simpl; intuition discriminate.
  - repeat constructor; simpl; intuition discriminate.
  - auto.
  - auto.
  - intros c d Hc Hd. simpl in Hc, Hd. intuition; subst; auto; discriminate.
Qed.
Print Assumptions names_never_show_refuted.

(** Permuting the axes of both operands changes the sum of the products of stacked matrices. *)
Theorem axes_never_show_refuted :
  ~ (forall h s s' (a b a' b' : arr (float f64)) pa pb lhs rhs out size, hash_ok h ->
       permuted_axes a pa = Ok a' -> permuted_axes b pb = Ok b' ->
       call_ok s [a_shape a; a_shape b] [lhs; rhs] out size ->
       call_ok s' [a_shape a'; a_shape b'] [map (fun i => nth i lhs 0%N) pa; map (fun i => nth i rhs 0%N) pb] out size -> wf a -> wf b ->
       NoDup lhs -> NoDup rhs ->
       (forall c, In c lhs -> In c rhs \/ In c out) -> (forall c, In c rhs -> In c lhs \/ In c out) ->
       exists r r', einsum h (ndarray General f_fma) s [a; b] = Ok r /\ einsum h (ndarray General f_fma) s' [a'; b'] = Ok r'
         /\ same_array r r').
Proof.
  intros H.
  set (a := one_axis [1; 2; 2] four) in *. set (b := one_axis [1; 2; 2] ones) in *.
  set (t := fun x : arr (float f64) => mkArr (a_data x) 0%Z [1; 2; 2] [4; 1; 2]%Z).
  specialize (H id_hash (chars "bij,bij->b") (chars "bji,bji->b") a b (t a) (t b) [0; 2; 1] [0; 2; 1]
    (chars "bij") (chars "bij") (chars "b") (size_fn (combine (chars "bij") [1; 2; 2])) id_hash_ok).
  apply (different_results "bij,bij->b" "bji,bji->b" [a; b] [t a; t b]); [vm_compute; discriminate|].
  apply H.
  - reflexivity.
  - reflexivity.
  - apply check_call_ok; check_call_tac.
  - apply check_call_ok; check_call_tac.
  - apply wf_b_ok. reflexivity.
  - apply wf_b_ok. reflexivity.
  - repeat constructor; simpl; intuition discriminate.
  - repeat constructor; simpl; intuition discriminate.
  - auto.
  - auto.
Qed.
Print Assumptions axes_never_show_refuted.

(** Swapping operands changes the sum of the products of stacked matrices with the stacked transposed ones. *)
Theorem swapping_never_shows_refuted :
  ~ (forall h s s' (a b : arr (float f64)) lhs rhs out size, hash_ok h ->
       call_ok s [a_shape a; a_shape b] [lhs; rhs] out size -> call_ok s' [a_shape b; a_shape a] [rhs; lhs] out size ->
       wf a -> wf b -> NoDup lhs -> NoDup rhs ->
       (forall c, In c lhs -> In c rhs \/ In c out) -> (forall c, In c rhs -> In c lhs \/ In c out) ->
       exists r r', einsum h (ndarray General f_fma) s [a; b] = Ok r /\ einsum h (ndarray General f_fma) s' [b; a] = Ok r'
         /\ same_array r r').
Proof.
  intros H.
  set (a := one_axis [1; 2; 2] four) in *. set (b := one_axis [1; 2; 2] ones) in *.
  specialize (H id_hash (chars "bij,bji->b") (chars "bji,bij->b") a b
    (chars "bij") (chars "bji") (chars "b") (size_fn (combine (chars "bij") [1; 2; 2])) id_hash_ok).
  apply (different_results "bij,bji->b" "bji,bij->b" [a; b] [b; a]); [vm_compute; discriminate|].
  apply H.
  - apply check_call_ok; check_call_tac.
  - apply check_call_ok; check_call_tac.
  - apply wf_b_ok. reflexivity.
  - apply wf_b_ok. reflexivity.
  - repeat constructor; simpl; intuition discriminate.
  - repeat constructor; simpl; intuition discriminate.
  - simpl. intuition.
  - simpl. intuition.
Qed.
Print Assumptions swapping_never_shows_refuted.

(** A renaming, a transposition and an exchange that do not show, though the order of the four terms would. *)
Example writing_case :
  let a := one_axis [2; 2] four in let b := one_axis [2; 2] ones in
  let a' := mkArr four 0%Z [2; 2] [1; 2]%Z in
  let f := fun c : char => if N.eqb c 105 then 97%N else if N.eqb c 106 then 122%N else c in
  (call_ok (chars "ij,ij->") [a_shape a; a_shape b] [chars "ij"; chars "ij"] [] (size_fn (combine (chars "ij") [2; 2]))
   /\ call_ok (chars "az,az->") [a_shape a; a_shape b] [map f (chars "ij"); map f (chars "ij")] (map f []) (size_fn (combine (chars "az") [2; 2]))
   /\ wf a /\ wf b
   /\ (forall c d, In c (chars "ij") -> In d (chars "ij") -> ~ In c [] -> ~ In d [] -> (c < d)%N -> (f c < f d)%N))
  /\ (permuted_axes a [1; 0] = Ok a' /\ map (fun i => nth i (chars "ij") 0%N) [1; 0] = chars "ji"
      /\ call_ok (chars "ji,ij->") [a_shape a'; a_shape b] [chars "ji"; chars "ij"] [] (size_fn (combine (chars "ij") [2; 2])))
  /\ run64 "ij,ij->" [a; b] = run64 "az,az->" [a; b] /\ run64 "ij,ij->" [a; b] = run64 "ji,ij->" [a'; b]
  /\ run64 "ij,ij->" [a; b] = run64 "ij,ij->" [b; a] /\ run64 "ij,ij->" [a; b] <> run64 "ji,ji->" [a; b].
Proof.
  cbv zeta. split; [|split; [|split; [|split; [|split]]]]; [| |vm_compute; reflexivity|vm_compute; reflexivity|vm_compute; reflexivity|vm_compute; discriminate].
  - split; [apply check_call_ok; check_call_tac|]. split; [apply check_call_ok; check_call_tac|].
    split; [apply wf_b_ok; reflexivity|]. split; [apply wf_b_ok; reflexivity|].
    intros c d Hc Hd _ _. simpl in Hc, Hd. intuition; subst; try reflexivity; discriminate.
  - split; [reflexivity|]. split; [reflexivity|]. apply check_call_ok; check_call_tac.
Qed.

(** One operand with a repeated and a summed label. *)
Example names_of_one_case :
  let a := zarr [2; 2; 3] (map Z.of_nat (seq 0 12)) in
  let f := fun c : char => (220 - c)%N in
  call_ok (chars "iij->i") [a_shape a] [chars "iij"] (chars "i") (size_fn (combine (chars "ij") [2; 3]))
  /\ call_ok (chars "ssr->s") [a_shape a] [map f (chars "iij")] (map f (chars "i")) (size_fn (combine (chars "sr") [2; 3]))
  /\ (forall c d, In c (chars "iij") -> In d (chars "iij") -> f c = f d -> c = d)
  /\ (do r <- einsum id_hash c_backend (chars "ssr->s") [a]; a_iter r) = Ok [3; 30]%Z.
Proof.
  cbv zeta. split; [apply check_call_ok; check_call_tac|]. split; [apply check_call_ok; check_call_tac|].
  split; [|vm_compute; reflexivity]. intros c d Hc Hd. simpl in Hc, Hd. intuition; subst; auto; discriminate.
Qed.

(** A label of both operands and the output, and the summed labels in the same order in both: the operands can be
    swapped. The product of the transposed matrices is the transposed product. *)
Example swapping_case :
  let a := one_axis [1; 2; 2] four in let b := one_axis [1; 2; 2] ones in
  let t := fun l => mkArr l 0%Z [2; 2] [1; 2]%Z in
  call_ok (chars "bij,ibj->b") [a_shape a; [2; 1; 2]] [chars "bij"; chars "ibj"] (chars "b") (size_fn (combine (chars "bij") [1; 2; 2]))
  /\ batch (chars "bij") (chars "ibj") (chars "b")
  /\ dropped (chars "bij") (chars "b") = chars "ij" /\ dropped (chars "ibj") (chars "b") = chars "ij"
  /\ run64 "bij,ibj->b" [a; one_axis [2; 1; 2] ones] = run64 "ibj,bij->b" [one_axis [2; 1; 2] ones; a]
  /\ permuted_axes (one_axis [2; 2] four) [1; 0] = Ok (t four)
  /\ run64 "ij,jk->ik" [one_axis [2; 2] four; one_axis [2; 2] ones]
     = run64 "ij,jk->ki" [t ones; t four].
Proof.
  cbv zeta. split; [apply check_call_ok; check_call_tac|]. split; [exists 98%N; simpl; auto|].
  do 3 (split; [vm_compute; reflexivity|]). split; [reflexivity|]. vm_compute. reflexivity.
Qed.
