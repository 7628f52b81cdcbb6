(** Values that arithmetic does not forget (C47): a not-a-number among the factors of a term always shows
    in the result, and an element all of whose terms have a zero factor is zero. No law of arithmetic is
    assumed, so both hold of floating-point numbers. *)
From Verif Require Import Base BaseFacts NDArray Validation Optimizers Path Api Spec ParserFacts ValidationMain SumFacts
  ArrayFacts PathFacts EinsumMain EinsumProps RelationFacts Examples.
From Coq Require Import Lia.
From Coq Require String.
Import String.StringSyntax.
Local Open Scope string_scope.
Local Open Scope list_scope.

(** [a] and [ix] are an operand and its labels. *)
Definition operand_of {A} (arrays : list (arr A)) (ops : list (list char)) (a : arr A) (ix : list char) : Prop :=
  exists i, nth_error arrays i = Some a /\ nth_error ops i = Some ix.

(** The assignments of positions to labels whose terms make up the element at [o]. *)
Definition selects (size : char -> nat) (ops : list (list char)) (out : list char) (o : list nat) (e : env) : Prop :=
  map e out = o /\ forall c, In c (concat ops) -> e c < size c.

Lemma operand_of_combine {A} (arrays : list (arr A)) ops a ix :
  operand_of arrays ops a ix <-> In (a, ix) (combine arrays ops).
Proof.
  split.
  - intros (i & H1 & H2). revert arrays ops H1 H2. induction i as [|i IH]; intros [|b arrays] [|jx ops]; simpl;
      try discriminate.
    + intros [= ->] [= ->]. auto.
    + intros H1 H2. right. apply IH; auto.
  - revert ops. induction arrays as [|b arrays IH]; intros [|jx ops]; simpl; try contradiction.
    intros [[= -> ->]|H]; [exists 0; auto|]. destruct (IH ops H) as (i & H1 & H2). exists (S i). auto.
Qed.

Lemma selected_in_bounds {A} (arrays : list (arr A)) ops size e : shapes_ok size ops (map (@a_shape A) arrays) ->
  (forall c, In c (concat ops) -> e c < size c) ->
  Forall (fun ai => in_bounds (a_shape (fst ai)) (map e (snd ai)) = true) (combine arrays ops).
Proof.
  revert ops. induction arrays as [|a arrays IH]; intros [|ix ops] Hs He; simpl; auto.
  inversion Hs as [|? ? ? ? E Hs']; subst. constructor.
  - cbn [fst snd]. rewrite E. apply in_bounds_map. intros c Hc. apply He. simpl. apply in_or_app; auto.
  - apply IH; auto. intros c Hc. apply He. simpl. apply in_or_app; auto.
Qed.

(** What a call and a compiled path return, described by a relation to a semiring. *)
Lemma results_related {A B} {Sa : Scalar A} {Sb : Scalar B} (R : A -> B -> Prop) :
  scalar_relation R -> semiring B ->
  forall h lay s arrays arrays' ops out size r o, hash_ok h -> backend_runs lay -> fused_relation R lay ->
    call_ok s (map (@a_shape A) arrays) ops out size -> Forall wf arrays ->
    Forall2 (related_arrays R) arrays arrays' ->
    (einsum h lay s arrays = Ok r
     \/ exists strategy, (strategy = Naive \/ strategy = Reverse)
          /\ (do p <- einsum_path_fn h s arrays strategy; contract_operands lay p arrays) = Ok r) ->
    in_bounds (map size out) o = true ->
    exists x, a_get r o = Ok x /\ R x (einsum_value size arrays' ops out o).
Proof.
  intros HR SR h lay s arrays arrays' ops out size r o Hh Hl Hf Hc Hw Hz Hr Ho.
  assert (H : exists x, x = Ok r /\ outcome_related R x size arrays arrays' ops out).
  { destruct Hr as [E|(st & Hst & E)]; eexists; (split; [exact E|]).
    - apply (einsum_related R HR SR h lay Hh Hl); auto.
    - apply (compile_and_run_related R HR SR h lay Hh Hl); auto. }
  destruct H as (x & -> & [[H _]|[_ (r' & f & E & (_ & _ & Hg) & Hx)]]); [discriminate|].
  injection E as <-. exists (f o). auto.
Qed.

(** ** Not-a-number *)

(** Whether there is a term, and whether a term has a bad factor. *)
Definition taint_scalar : Scalar (option bool) := {|
  szero := None;
  sone := Some false;
  sadd := fun x y => match x, y with
                     | None, _ => y
                     | _, None => x
                     | Some a, Some b => Some (a || b)
                     end;
  smul := fun x y => match x, y with Some a, Some b => Some (a || b) | _, _ => None end
|}.

Lemma taint_semiring : @semiring (option bool) taint_scalar.
Proof.
  constructor; intros; repeat match goal with x : option bool |- _ => destruct x as [[]|] end; reflexivity.
Qed.

Lemma taint_sum size cs (f : env -> option bool) e e' :
  (forall x y, (forall c, x c = y c) -> f x = f y) -> NoDup cs ->
  (forall c, In c cs -> e' c < size c) -> (forall c, ~ In c cs -> e' c = e c) ->
  f e' = Some true -> @nested_sum _ taint_scalar size cs f e = Some true.
Proof.
  intros Hf. revert e. induction cs as [|c cs IH]; intros e Hn Hs Ho Ht; cbn [nested_sum].
  - rewrite <- Ht. apply Hf. intros c. symmetry. apply Ho. auto.
  - inversion Hn as [|? ? Hc Hn']; subst.
    assert (Hi : @nested_sum _ taint_scalar size cs f (upd e c (e' c)) = Some true).
    { apply IH; auto; [intros d Hd; apply Hs; simpl; auto|].
      intros d Hd. unfold upd. destruct (N.eqb_spec d c); subst; auto. apply Ho. intros [->|H]; auto. }
    assert (Hlt : e' c < size c) by (apply Hs; simpl; auto). revert Hlt Hi. generalize (e' c) as i.
    generalize (size c) as n. clear. intros n i. induction n as [|n IH]; [lia|]. intros Hlt Hi. cbn [sum_n].
    destruct (Nat.eq_dec i n) as [->|Hne].
    + rewrite Hi. cbn. match goal with |- match ?x with _ => _ end = _ => destruct x as [[]|] end; reflexivity.
    + rewrite IH by (auto; lia). cbn. match goal with |- match ?x with _ => _ end = _ => destruct x as [[]|] end; reflexivity.
Qed.

Section Taint.
Context {F : Type} {Sf : Scalar F}.
Variable bad : F -> bool.
Hypothesis bad_add : forall x y, bad x || bad y = true -> bad (sadd x y) = true.
Hypothesis bad_mul : forall x y, bad x || bad y = true -> bad (smul x y) = true.

Definition tainted (x : F) (b : option bool) : Prop := b = Some true -> bad x = true.

Lemma tainted_relation : @scalar_relation F (option bool) Sf taint_scalar tainted.
Proof.
  unfold tainted. constructor; try discriminate.
  - intros x b y b' Hx Hy. destruct b as [[]|], b' as [[]|]; cbn; try discriminate; intros _; apply bad_add;
      first [rewrite Hx by reflexivity|rewrite Hy by reflexivity]; rewrite ?orb_true_r; reflexivity.
  - intros x b y b' Hx Hy. destruct b as [[]|], b' as [[]|]; cbn; try discriminate; intros _; apply bad_mul;
      first [rewrite Hx by reflexivity|rewrite Hy by reflexivity]; rewrite ?orb_true_r; reflexivity.
Qed.

Lemma tainted_term (arrays : list (arr F)) ops e a ix : Forall wf arrays ->
  Forall (fun ai => in_bounds (a_shape (fst ai)) (map e (snd ai)) = true) (combine arrays ops) ->
  In (a, ix) (combine arrays ops) -> bad (elem a (map e ix)) = true ->
  @term _ taint_scalar (map (amap (fun x => Some (bad x))) arrays) ops e = Some true.
Proof.
  intros Hw Hb Hi Hx. unfold term, product. revert ops Hb Hi.
  induction Hw as [|b arrays Wb Hw IH]; intros [|jx ops] Hb Hi; simpl in Hi; try contradiction.
  cbn [map combine fold_right fst snd]. cbn [combine] in Hb. inversion Hb as [|? ? Hjx Hb']; subst. cbn [fst snd] in Hjx.
  apply wf_readable in Wb as [_ Wb]. destruct (Wb _ Hjx) as (x & Ex).
  assert (E : @elem _ taint_scalar (amap (fun x => Some (bad x)) b) (map e jx) = Some (bad x)).
  { unfold elem. rewrite a_get_amap, Ex. reflexivity. }
  rewrite E. destruct Hi as [[= -> ->]|Hi].
  - unfold elem in Hx. rewrite Ex in Hx. rewrite Hx.
    assert (G : forall z, Forall (fun ai => in_bounds (a_shape (fst ai)) (map e (snd ai)) = true) z ->
                Forall (fun ai => wf (fst ai)) z ->
                exists t, fold_right (@smul _ taint_scalar) (@sone _ taint_scalar)
                  (map (fun ai => @elem _ taint_scalar (fst ai) (map e (snd ai)))
                     (map (fun ai => (amap (fun x => Some (bad x)) (fst ai), snd ai)) z)) = Some t).
    { clear. induction z as [|[c kx] z IHz]; intros H1 H2; [exists false; reflexivity|].
      inversion H1; inversion H2; subst. destruct IHz as [t Ht]; auto. cbn [map fold_right fst snd] in *. rewrite Ht.
      match goal with H : wf c |- _ => apply wf_readable in H as [_ H]; edestruct H as (y & Ey); eauto end.
      unfold elem. rewrite a_get_amap, Ey. cbn. eauto. }
    destruct (G (combine arrays ops)) as [t Ht]; auto.
    { apply Forall_forall. intros [c kx] Hc. apply in_combine_l in Hc. cbn. rewrite Forall_forall in Hw. auto. }
    assert (Em : forall (l : list (arr F)) (k : list (list char)), combine (map (amap (fun x => Some (bad x))) l) k
                = map (fun ai => (amap (fun x => Some (bad x)) (fst ai), snd ai)) (combine l k)).
    { clear. induction l as [|c l IH]; intros [|kx k]; simpl; auto. f_equal. auto. }
    rewrite Em, Ht. reflexivity.
  - rewrite (IH ops Hb' Hi). cbn. rewrite orb_true_r. reflexivity.
Qed.

End Taint.

(** If a scalar that spoils every sum and product it enters (like not-a-number) is a factor of some term
    of an element of the result, it spoils that element. *)
Theorem bad_values_are_not_lost :
  forall (F : Type) (Sf : Scalar F) (bad : F -> bool),
    (forall x y, bad x || bad y = true -> bad (sadd x y) = true) ->
    (forall x y, bad x || bad y = true -> bad (smul x y) = true) ->
  forall h lay s arrays ops out size r, hash_ok h -> backend_runs lay ->
    (forall x y z, bad x || bad y || bad z = true -> bad (fused lay x y z) = true) ->
    call_ok s (map (@a_shape F) arrays) ops out size -> Forall wf arrays ->
    (einsum h lay s arrays = Ok r
     \/ exists strategy, (strategy = Naive \/ strategy = Reverse)
          /\ (do p <- einsum_path_fn h s arrays strategy; contract_operands lay p arrays) = Ok r) ->
    forall o e a ix, selects size ops out o e -> operand_of arrays ops a ix ->
      bad (elem a (map e ix)) = true ->
      exists x, a_get r o = Ok x /\ bad x = true.
Proof.
  intros F Sf bad Ha Hm h lay s arrays ops out size r Hh Hl Hfu Hc Hw Hr o e a ix [Eo He] Hop Hb.
  pose proof Hc as (_ & [Hnd Hin] & Hs).
  assert (Ho : in_bounds (map size out) o = true).
  { rewrite <- Eo. apply in_bounds_map. intros c Hc'. apply He. apply Hin. auto. }
  destruct (results_related (Sb := taint_scalar) (tainted bad) (tainted_relation bad Ha Hm) taint_semiring
              h lay s arrays (map (amap (fun x => Some (bad x))) arrays) ops out size r o) as (x & Ex & Hx); auto.
  { intros x b y b' z b'' H1 H2 H3. unfold tainted in *.
    destruct b as [[]|], b' as [[]|], b'' as [[]|]; cbn; try discriminate; intros _; apply Hfu;
      first [rewrite H1 by reflexivity|rewrite H2 by reflexivity|rewrite H3 by reflexivity];
      rewrite ?orb_true_r; reflexivity. }
  { apply relateds_amap; auto. intros x H. injection H as H. exact H. }
  exists x. split; auto. apply Hx. unfold einsum_value.
  apply (taint_sum size _ _ _ (fun c => if in_dec N.eq_dec c (summed_labels ops out) then e c else bind out o c)).
  - intros e1 e2 H. apply (@term_dep _ taint_scalar). intros c _. auto.
  - apply summed_labels_NoDup.
  - intros c Hc'. destruct (in_dec _ _ _) as [_|H]; [|contradiction]. apply He. apply summed_labels_In in Hc'. tauto.
  - intros c Hc'. destruct (in_dec _ _ _) as [H|_]; [contradiction|auto].
  - rewrite <- (tainted_term bad arrays ops e a ix); auto.
    + apply (@term_dep _ taint_scalar). intros c Hc'. destruct (in_dec _ _ _) as [_|H]; auto.
      rewrite <- Eo. apply bind_map. destruct (in_dec N.eq_dec c out) as [H'|H']; auto. exfalso. apply H.
      apply summed_labels_In. auto.
    + apply (selected_in_bounds arrays ops size e); auto.
    + apply operand_of_combine; auto.
Qed.
Print Assumptions bad_values_are_not_lost.

(** ** Zeros *)

(** Whether a term may be other than zero. *)
Definition maybe_scalar : Scalar bool := {| szero := false; sone := true; sadd := orb; smul := andb |}.
Lemma maybe_semiring : @semiring bool maybe_scalar.
Proof. constructor; intros; repeat match goal with x : bool |- _ => destruct x end; reflexivity. Qed.

Lemma maybe_sum size cs (f : env -> bool) e :
  (forall e', (forall c, ~ In c cs -> e' c = e c) -> in_range size cs e' -> f e' = false) ->
  @nested_sum _ maybe_scalar size cs f e = false.
Proof.
  intros H. rewrite (@nested_sum_ext _ maybe_scalar size cs f (fun _ => @szero _ maybe_scalar) e) by auto.
  apply (@nested_sum_zero _ maybe_scalar maybe_semiring).
Qed.

Section Zeros.
Context {F : Type} {Sf : Scalar F}.
Variable null : F -> bool.
Hypothesis null_zero : null szero = true.
Hypothesis null_add : forall x y, null x = true -> null y = true -> null (sadd x y) = true.
Hypothesis null_mul : forall x y, null x || null y = true -> null (smul x y) = true.

Definition possibly (x : F) (b : bool) : Prop := b = false -> null x = true.

Lemma possibly_relation : @scalar_relation F bool Sf maybe_scalar possibly.
Proof.
  unfold possibly. constructor; auto; try discriminate.
  - intros x [] y []; cbn; try discriminate. auto.
  - intros x b y b' Hx Hy. destruct b, b'; cbn; try discriminate; intros _; apply null_mul;
      first [rewrite Hx by reflexivity|rewrite Hy by reflexivity]; rewrite ?orb_true_r; reflexivity.
Qed.

Lemma null_term (arrays : list (arr F)) ops e a ix :
  In (a, ix) (combine arrays ops) -> null (elem a (map e ix)) = true ->
  @term _ maybe_scalar (map (amap (fun x => negb (null x))) arrays) ops e = false.
Proof.
  intros Hi Hx. unfold term, product. revert ops Hi.
  induction arrays as [|b arrays IH]; intros [|jx ops] Hi; simpl in Hi; try contradiction.
  cbn [map combine fold_right fst snd]. destruct Hi as [[= -> ->]|Hi].
  - unfold elem in Hx |- *. rewrite a_get_amap. destruct (a_get a (map e ix)) as [x| |]; cbn [rmap]; auto.
    rewrite Hx. reflexivity.
  - rewrite (IH ops Hi). apply andb_false_r.
Qed.

End Zeros.

(** An element all of whose terms have a zero factor is zero. [null] holds of zero, and of scalars that
    spoil every sum and product they enter if products of these with zero are not zero: for
    floating-point numbers, of the two zeros, the infinities and not-a-number. *)
Theorem structural_zeros_stay_zero :
  forall (F : Type) (Sf : Scalar F) (null : F -> bool),
    null szero = true ->
    (forall x y, null x = true -> null y = true -> null (sadd x y) = true) ->
    (forall x y, null x || null y = true -> null (smul x y) = true) ->
  forall h lay s arrays ops out size r, hash_ok h -> backend_runs lay ->
    (forall x y z, null x || null y = true -> null z = true -> null (fused lay x y z) = true) ->
    call_ok s (map (@a_shape F) arrays) ops out size -> Forall wf arrays ->
    (einsum h lay s arrays = Ok r
     \/ exists strategy, (strategy = Naive \/ strategy = Reverse)
          /\ (do p <- einsum_path_fn h s arrays strategy; contract_operands lay p arrays) = Ok r) ->
    forall o, in_bounds (map size out) o = true ->
      (forall e, selects size ops out o e ->
         exists a ix, operand_of arrays ops a ix /\ null (elem a (map e ix)) = true) ->
      exists x, a_get r o = Ok x /\ null x = true.
Proof.
  intros F Sf null Hz Ha Hm h lay s arrays ops out size r Hh Hl Hfu Hc Hw Hr o Ho Hn.
  pose proof Hc as (_ & [Hnd Hin] & Hs).
  destruct (results_related (Sb := maybe_scalar) (possibly null) (possibly_relation null Hz Ha Hm) maybe_semiring
              h lay s arrays (map (amap (fun x => negb (null x))) arrays) ops out size r o) as (x & Ex & Hx); auto.
  { intros x b y b' z b'' H1 H2 H3. unfold possibly in *.
    destruct b, b', b''; cbn; try discriminate; intros _; apply Hfu; auto;
      first [rewrite H1 by reflexivity|rewrite H2 by reflexivity];
      rewrite ?orb_true_r; reflexivity. }
  { apply relateds_amap; auto. intros x H. apply negb_false_iff in H. exact H. }
  exists x. split; auto. apply Hx. unfold einsum_value. apply maybe_sum.
  intros e He Hr'. assert (Hl' : length o = length out) by (apply in_bounds_length in Ho; rewrite map_length in Ho; auto).
  assert (Eo : map e out = o).
  { transitivity (map (bind out o) out); [|apply map_bind; auto]. apply map_ext_in. intros c Hc'. apply He. intros H.
    apply summed_labels_In in H. tauto. }
  destruct (Hn e) as (a & ix & Hop & Hnull).
  - split; auto. intros c Hc'. destruct (in_dec N.eq_dec c out) as [H|H].
    + apply (proj1 (in_bounds_map size e out)); auto. rewrite Eo. exact Ho.
    + apply Hr'. apply summed_labels_In. auto.
  - apply (null_term null arrays ops e a ix); auto. apply operand_of_combine; auto.
Qed.
Print Assumptions structural_zeros_stay_zero.

(** ** Cases *)

(** Integers and a not-a-number. *)
Definition nan_scalar : Scalar (option Z) := {|
  szero := Some 0%Z; sone := Some 1%Z;
  sadd := fun x y => match x, y with Some a, Some b => Some (a + b)%Z | _, _ => None end;
  smul := fun x y => match x, y with Some a, Some b => Some (a * b)%Z | _, _ => None end
|}.
Definition is_nan (x : option Z) : bool := match x with None => true | Some _ => false end.
Definition is_null (x : option Z) : bool := match x with None => true | Some z => (z =? 0)%Z end.
Definition narr (sh : list nat) (l : list (option Z)) : arr (option Z) := mk_c sh l.

Lemma nan_add x y : is_nan (@sadd _ nan_scalar x y) = is_nan x || is_nan y.
Proof. destruct x, y; reflexivity. Qed.
Lemma nan_mul x y : is_nan (@smul _ nan_scalar x y) = is_nan x || is_nan y.
Proof. destruct x, y; reflexivity. Qed.

(** A not-a-number in the first row, times zeros. *)
Example nan_case :
  let a := narr [2; 2] [None; Some 1; Some 2; Some 3]%Z in
  let b := narr [2; 2] [Some 0; Some 0; Some 5; Some 7]%Z in
  call_ok (chars "ij,jk->ik") (map (@a_shape (option Z)) [a; b]) [chars "ij"; chars "jk"] (chars "ik")
    (size_fn (combine (chars "ijk") [2; 2; 2]))
  /\ Forall wf [a; b]
  /\ selects (size_fn (combine (chars "ijk") [2; 2; 2])) [chars "ij"; chars "jk"] (chars "ik") [0; 1]
       (bind (chars "ikj") [0; 1; 0])
  /\ operand_of [a; b] [chars "ij"; chars "jk"] a (chars "ij")
  /\ is_nan (@elem _ nan_scalar a (map (bind (chars "ikj") [0; 1; 0]) (chars "ij"))) = true
  /\ (do r <- @einsum _ nan_scalar id_hash (@plain_backend _ nan_scalar) (chars "ij,jk->ik") [a; b]; a_iter r)
     = Ok [None; None; Some 15; Some 21]%Z.
Proof.
  split; [apply check_call_ok; check_call_tac|]. split; [apply wfs_b_ok; reflexivity|].
  split; [|split; [exists 0; split; reflexivity|split; vm_compute; reflexivity]].
  split; [reflexivity|]. intros c Hc. cbn in Hc.
  destruct Hc as [<-|[<-|[<-|[<-|[]]]]]; vm_compute; lia.
Qed.

(** The product of two lower triangular matrices: each term of the element above the diagonal has a
    zero factor. *)
Example zero_case :
  let a := narr [2; 2] [Some 2; Some 0; Some 3; Some 4]%Z in
  let b := narr [2; 2] [Some 5; Some 0; Some 6; Some 7]%Z in
  call_ok (chars "ij,jk->ik") (map (@a_shape (option Z)) [a; b]) [chars "ij"; chars "jk"] (chars "ik")
    (size_fn (combine (chars "ijk") [2; 2; 2]))
  /\ Forall wf [a; b]
  /\ (forall e, selects (size_fn (combine (chars "ijk") [2; 2; 2])) [chars "ij"; chars "jk"] (chars "ik") [0; 1] e ->
       exists x ix, operand_of [a; b] [chars "ij"; chars "jk"] x ix
         /\ is_null (@elem _ nan_scalar x (map e ix)) = true)
  /\ (do r <- @einsum _ nan_scalar id_hash (@plain_backend _ nan_scalar) (chars "ij,jk->ik") [a; b]; a_iter r)
     = Ok [Some 10; Some 0; Some 39; Some 28]%Z.
Proof.
  split; [apply check_call_ok; check_call_tac|]. split; [apply wfs_b_ok; reflexivity|].
  split; [|vm_compute; reflexivity].
  intros e [E He]. change (map e (chars "ik")) with [e 105%N; e 107%N] in E. injection E as Ei Ek.
  specialize (He 106%N). assert (Hj : e 106%N < 2) by (apply He; cbn; auto).
  destruct (e 106%N) as [|[|]] eqn:Ej; [| |lia].
  - eexists _, (chars "jk"). split; [exists 1; split; reflexivity|].
    change (map e (chars "jk")) with [e 106%N; e 107%N]. rewrite Ej, Ek. reflexivity.
  - eexists _, (chars "ij"). split; [exists 0; split; reflexivity|].
    change (map e (chars "ij")) with [e 105%N; e 106%N]. rewrite Ej, Ei. reflexivity.
Qed.

(** ** The converse *)

(** A not-a-number need not come from one among the element's factors: the sum of no terms is zero, and a
    later step multiplies it with the other operands. The Einstein sum has no terms at all here. *)
Theorem bad_values_come_from_factors_refuted :
  ~ (forall (F : Type) (Sf : Scalar F) (bad : F -> bool),
       bad szero = false -> bad sone = false ->
       (forall x y, bad (sadd x y) = bad x || bad y) -> (forall x y, bad (smul x y) = bad x || bad y) ->
     forall h lay s arrays ops out size r, hash_ok h -> backend_ok lay ->
       call_ok s (map (@a_shape F) arrays) ops out size -> Forall wf arrays ->
       einsum h lay s arrays = Ok r ->
     forall o x, a_get r o = Ok x -> bad x = true ->
       exists e a ix, selects size ops out o e /\ operand_of arrays ops a ix /\ bad (elem a (map e ix)) = true).
Proof.
  intros H.
  destruct (H (option Z) nan_scalar is_nan eq_refl eq_refl nan_add nan_mul id_hash (@plain_backend _ nan_scalar)
              (chars "i,k->k") [narr [0] []; narr [2] [None; Some 3%Z]] [chars "i"; chars "k"] (chars "k")
              (size_fn (combine (chars "ik") [0; 2])) (mk_c [2] [None; Some 0%Z])) with (o := [0]) (x := @None Z)
    as (e & _ & _ & [_ He] & _); try reflexivity.
  - exact id_hash_ok'.
  - apply (@plain_backend_ok _ nan_scalar).
  - apply check_call_ok; check_call_tac.
  - apply wfs_b_ok; reflexivity.
  - specialize (He 105%N). assert (Hlt : e 105%N < 0) by (apply He; cbn; auto). lia.
Qed.
Print Assumptions bad_values_come_from_factors_refuted.
