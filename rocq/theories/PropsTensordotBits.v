(** Tensor dot products to the last bit (C77): when [tensordot] and [einsum] agree on every bit in arithmetic
    without laws, and what an outer product of floating-point numbers is. *)
From Verif Require Import Base BaseFacts NDArray Validation Optimizers Singleton Pair Path Api Spec ParserFacts
  ValidationFacts ValidationMain SumFacts ArrayFacts AlgebraFacts TensordotFacts PairFacts PathFacts TensordotMain EinsumMain EinsumProps
  Schedule NdSchedule NdScheduleFacts NdLayoutFacts TwinFacts ExactFacts WritingFacts FloatFacts FloatSigns FloatMain OuterFacts TestFacts Examples
  PropsFloat PropsNdarray PropsExact PropsReduce PropsWriting.
From Coq Require Import Lia ZArith SpecFloat Sorted.
From Coq Require String.
Import String.StringSyntax.
Local Open Scope string_scope.
Local Open Scope list_scope.
Local Open Scope nat_scope.

(** ** Both functions *)

Lemma lengths_labels (size : char -> nat) ix axes : Forall (fun k => k < length ix) axes ->
  axis_lengths (map size ix) axes = map size (axis_labels ix axes).
Proof.
  intros Hb. unfold axis_lengths, axis_labels. rewrite map_map. apply map_ext_in.
  intros k Hk. rewrite Forall_forall in Hb. rewrite nth_indep with (d' := size 0%N) by (rewrite map_length; auto).
  apply map_nth.
Qed.

(** The factors of an element are those of the loops over the labels of the summed axes. *)
Lemma paired_loops {A} {Sc : Scalar A} (a b : arr A) u v la ra size o :
  let fa := free_axes (length u) la in
  let fb := free_axes (length v) ra in
  let out := axis_labels u fa ++ axis_labels v fb in
  a_shape a = map size u -> a_shape b = map size v -> NoDup u -> NoDup v -> NoDup out ->
  axes_ok (length u) la -> axes_ok (length v) ra -> axis_labels u la = axis_labels v ra ->
  in_bounds (map size out) o = true ->
  paired_terms a b la ra o = loops size (axis_labels u la) (fun e => (elem a (map e u), elem b (map e v))) (bind out o).
Proof.
  intros fa fb out Sa Sb Nu Nv No Ha Hb He Ho.
  set (C := axis_labels u la) in *.
  assert (NC : NoDup C) by (apply axis_labels_NoDup; auto).
  assert (Du : forall c, In c (axis_labels u fa) -> ~ In c C).
  { intros c H1 H2. exact (axis_labels_disjoint u la c Nu Ha H1 H2). }
  assert (Dv : forall c, In c (axis_labels v fb) -> ~ In c C).
  { intros c H1 H2. rewrite He in H2. exact (axis_labels_disjoint v ra c Nv Hb H1 H2). }
  rewrite loops_are, <- map_unflat, map_map. unfold paired_terms. rewrite Sa, Sb, !map_length. fold fa fb.
  rewrite (lengths_labels size u la) by apply Ha. rewrite (lengths_labels size v ra) by apply Hb. rewrite <- He. fold C.
  apply map_ext_in. intros t Ht. apply in_seq in Ht.
  assert (Hz : in_bounds (map size C) (unflat (map size C) t) = true) by (apply unflat_in_bounds; lia).
  set (z := unflat (map size C) t) in *. clearbody z. set (e := over C z (bind out o)).
  assert (Lz : length z = length C) by (apply in_bounds_length in Hz; rewrite map_length in Hz; auto).
  assert (Ez : map e C = z) by (apply map_over; auto).
  assert (Eo : map e out = o).
  { unfold e. rewrite map_over_out by (intros c Hc; unfold out in Hc; apply in_app_or in Hc as [Hc|Hc]; auto).
    apply map_bind; auto. apply in_bounds_length in Ho. rewrite map_length in Ho. auto. }
  assert (Ex : firstn (length fa) o = map e (axis_labels u fa)).
  { rewrite <- Eo. unfold out. rewrite map_app.
    replace (length fa) with (length (map e (axis_labels u fa))) by (unfold axis_labels; rewrite !map_length; auto).
    apply firstn_exact. }
  assert (Ey : skipn (length fa) o = map e (axis_labels v fb)).
  { rewrite <- Eo. unfold out. rewrite map_app.
    replace (length fa) with (length (map e (axis_labels u fa))) by (unfold axis_labels; rewrite !map_length; auto).
    apply skipn_exact. }
  rewrite Ex, Ey. f_equal; f_equal.
  - rewrite <- (place_labels u (fa ++ la)) by (apply free_axes_perm; auto).
    unfold axis_labels at 2. rewrite map_app. fold (axis_labels u fa). fold (axis_labels u la). fold C.
    rewrite map_app, Ez. auto.
  - rewrite <- (place_labels v (ra ++ fb)).
    2:{ eapply Permutation_trans; [apply Permutation_app_comm|]. apply free_axes_perm; auto. }
    unfold axis_labels at 2. rewrite map_app. fold (axis_labels v fb). fold (axis_labels v ra).
    rewrite map_app, <- He, Ez. auto.
Qed.

(** Every operand of a string has a label. *)
Lemma call_operands_nonempty s shapes ops out size : call_ok s shapes ops out size -> Forall (fun l => l <> []) ops.
Proof.
  intros ([H|[H _]] & _); inversion H as [? ? Hf|? ? ? Hf]; subst; (eapply Forall_impl; [|exact Hf]); intros l [Hl _]; exact Hl.
Qed.

(** The two functions agree on every bit if the summed axes are listed in the alphabetical order of their labels,
    whatever the scalars and however a matrix product adds up its products. *)
Theorem tensordot_is_einsum_to_the_last_bit :
  forall (A : Type) (Sc : Scalar A) (lay lay' : backend A) add h s (a b : arr A) u v la ra size,
    let out := axis_labels u (free_axes (length u) la) ++ axis_labels v (free_axes (length v) ra) in
    hash_ok h -> backend_runs lay -> backend_runs lay' ->
    (forall a b idx l, add_products lay a b idx l = add l) -> (forall a b idx l, add_products lay' a b idx l = add l) ->
    wf a -> wf b -> call_ok s [a_shape a; a_shape b] [u; v] out size -> NoDup u -> NoDup v ->
    axes_ok (length u) la -> axes_ok (length v) ra -> axis_labels u la = axis_labels v ra ->
    StronglySorted N.lt (axis_labels u la) ->
    exists r r', tensordot lay a b la ra = Ok r /\ einsum h lay' s [a; b] = Ok r' /\ same_array r r'.
Proof.
  intros A Sc lay lay' add h s a b u v la ra size out Hh Hl Hl' Had Had' Wa Wb Hc Nu Nv Ha Hb He Hsort.
  pose proof (call_operands_nonempty _ _ _ _ _ Hc) as Hne. inversion Hne as [|? ? Eu Hne']; subst. inversion Hne' as [|? ? Ev _]; subst.
  assert (Du : forall c, In c (axis_labels u (free_axes (length u) la)) -> ~ In c (axis_labels u la)).
  { intros c H1 H2. exact (axis_labels_disjoint u la c Nu Ha H1 H2). }
  assert (Dv : forall c, In c (axis_labels v (free_axes (length v) ra)) -> ~ In c (axis_labels u la)).
  { intros c H1 H2. rewrite He in H2. exact (axis_labels_disjoint v ra c Nv Hb H1 H2). }
  assert (Iu : forall c, In c (axis_labels u la) -> In c u) by (intros c; apply axis_labels_In, Ha).
  assert (Iv : forall c, In c (axis_labels u la) -> In c v) by (intros c H; rewrite He in H; revert H; apply axis_labels_In, Hb).
  assert (Ju : forall c, In c u -> In c (axis_labels u (free_axes (length u) la)) \/ In c (axis_labels u la))
    by (intros c; apply axis_labels_all; auto).
  assert (Jv : forall c, In c v -> In c (axis_labels v (free_axes (length v) ra)) \/ In c (axis_labels u la))
    by (intros c H; rewrite He; revert H; apply axis_labels_all; auto).
  assert (No : NoDup out) by (destruct Hc as (_ & [No _] & _); auto).
  assert (Db : forall c, In c u -> In c v -> In c out -> False).
  { intros c H1 H2 H3.
    assert (N0 : forall x y : list char, NoDup (x ++ y) -> In c x -> In c y -> False).
    { intros x y. induction x as [|d x IH]; intros Hn Hx Hy; [destruct Hx|]. inversion Hn as [|? ? Hd Hn']; subst.
      destruct Hx as [<-|Hx]; [|auto]. apply Hd, in_or_app. auto. }
    assert (Hnc : ~ In c (axis_labels u la)) by (apply in_app_iff in H3 as [H3|H3]; auto).
    apply (N0 _ _ No); [destruct (Ju c H1)|destruct (Jv c H2)]; auto; contradiction. }
  destruct (product_of_two_is_exact A Sc lay' add h s a b u v out size Hh Hl' Had' Hc Wa Wb Nu Nv) as (r' & V & Er' & HV & Hr').
  { intros c H. destruct (Ju c H); auto. right. apply in_or_app. auto. }
  { intros c H. destruct (Jv c H); auto. right. apply in_or_app. auto. }
  destruct Hc as (_ & _ & Hs). inversion Hs as [|? ? ? ? Sa Hs']; subst. inversion Hs' as [|? ? ? ? Sb _]; subst.
  destruct (tensordot_exact lay Hl add Had a b la ra Wa Wb) as (r & w & Er & Hr & Hw).
  - apply (f_equal (@length _)) in He. unfold axis_labels in He. rewrite !map_length in He. auto.
  - rewrite Sa, map_length; auto.
  - rewrite Sb, map_length; auto.
  - rewrite Sa, Sb, !lengths_labels by (apply Ha || apply Hb). rewrite He. auto.
  - exists r, r'. split; auto. split; auto. rewrite Sa, Sb, !map_length, !lengths_labels, <- map_app in Hr, Hw by apply free_axes_bound.
    apply same_array_holds with (1 := Hr). eapply ArrayFacts.holds_ext; [|exact Hr'].
    intros o Ho. rewrite (Hw o Ho). rewrite (paired_loops a b u v la ra size o Sa Sb Nu Nv No Ha Hb He Ho). fold out.
    destruct HV as (_ & _ & _ & HV). apply (HV ltac:(clear - Eu Db; intros H;
      destruct u as [|c u]; [congruence|]; destruct (H c) as [H1 H2]; apply (Db c); simpl in *; tauto) Eu Ev (axis_labels u la)).
    split; [|split].
    + intros c. unfold out. rewrite in_app_iff. split.
      * intros H. split; auto. split; auto. intros [H'|H']; [eapply Du|eapply Dv]; eauto.
      * intros (H1 & H2 & H3). destruct (Ju c H1); auto. exfalso; auto.
    + intros (c & H1 & H2 & H3). exfalso. exact (Db c H1 H2 H3).
    + auto.
Qed.
Print Assumptions tensordot_is_einsum_to_the_last_bit.

(** On ndarray, whatever multiplies its matrices. *)
Theorem tensordot_is_einsum_on_ndarray :
  forall (A : Type) (Sc : Scalar A) m fma h s (a b : arr A) u v la ra size,
    let out := axis_labels u (free_axes (length u) la) ++ axis_labels v (free_axes (length v) ra) in
    hash_ok h -> wf a -> wf b -> call_ok s [a_shape a; a_shape b] [u; v] out size -> NoDup u -> NoDup v ->
    axes_ok (length u) la -> axes_ok (length v) ra -> axis_labels u la = axis_labels v ra ->
    StronglySorted N.lt (axis_labels u la) ->
    exists r r', tensordot (ndarray m fma) a b la ra = Ok r /\ einsum h (ndarray m fma) s [a; b] = Ok r' /\ same_array r r'.
Proof.
  intros A Sc m fma h s a b u v la ra size out Hh Wa Wb Hc. intros.
  eapply (tensordot_is_einsum_to_the_last_bit A Sc (ndarray m fma) (ndarray m fma) (matrix_sum m fma)); eauto using nd_runs, nd_products.
Qed.
Print Assumptions tensordot_is_einsum_on_ndarray.

(** ** Products without a sum *)

Lemma unsummed_product f m size lhs rhs out (F G V : env -> float f) :
  product_is (matrix_sum m f_fma) size lhs rhs out F G V -> incl out (lhs ++ rhs) -> (forall c, In c lhs \/ In c rhs -> In c out) ->
  forall e, same_up_to_sign_of_zero (proj1_sig (V e)) (proj1_sig (f_mul (F e) (G e))).
Proof.
  intros (H1 & H2 & H3 & H4) Hi Ho e.
  assert (Hd : same_labels lhs rhs out \/ ~ same_labels lhs rhs out).
  { rewrite <- (same_labels_b lhs rhs out Hi). destruct (forallb _ _); [left|right]; auto. }
  destruct Hd as [Hs|Hs].
  { rewrite (H1 Hs). left. reflexivity. }
  destruct lhs as [|x lhs].
  { rewrite (H2 Hs eq_refl). left. cbn [smul float_scalar]. rewrite f_mul_comm. reflexivity. }
  destruct rhs as [|y rhs].
  { rewrite (H3 Hs eq_refl). left. reflexivity. }
  rewrite (H4 Hs ltac:(discriminate) ltac:(discriminate) []).
  { cbn [loops]. apply single_product. }
  split; [|split].
  - intros c. split; [intros []|]. intros (Hl & _ & Hn). exfalso. auto.
  - intros _. exists (fun _ => false). assert (E : forall l : list char, [] = filter (fun _ => false) l) by (induction l; auto). apply E.
  - intros _. constructor.
Qed.

Lemma f_mul_same f (x x' y : float f) : same_up_to_sign_of_zero (proj1_sig x) (proj1_sig x') ->
  same_up_to_sign_of_zero (proj1_sig (f_mul x y)) (proj1_sig (f_mul x' y)).
Proof. intros H. apply zero_sign_mul; [exact H|left; reflexivity]. Qed.

Lemma unsummed_products f m size out L (F : env -> float f) todo V :
  products_are (matrix_sum m f_fma) size out L F todo V -> incl out (concat (L :: map fst todo)) ->
  (forall l c, In l (L :: map fst todo) -> In c l -> In c out) ->
  forall e x, same_up_to_sign_of_zero (proj1_sig (F e)) (proj1_sig x) ->
    same_up_to_sign_of_zero (proj1_sig (V e)) (proj1_sig (fold_left (fun y p => f_mul y (snd p e)) todo x)).
Proof.
  induction 1 as [L F r G V HV|L F r G L' V' rest V Hne NL' HL HV Hv IH]; cbn [map fst]; intros Hi Ho e x Hx; cbn [fold_left snd].
  - eapply same_up_to_sign_of_zero_trans; [|apply f_mul_same, Hx].
    eapply unsummed_product; [exact HV| |].
    + cbn [concat] in Hi. rewrite app_nil_r in Hi. exact Hi.
    + intros c [H|H]; [apply (Ho L)|apply (Ho r)]; simpl; auto.
  - apply IH.
    + intros c Hc. specialize (Hi c Hc). cbn [concat] in *. rewrite !in_app_iff in *. rewrite HL. clear - Hi Hc. tauto.
    + intros l c [<-|Hl] Hc; [|apply (Ho l); simpl; auto]. apply HL in Hc as [[Hc|Hc] _]; [apply (Ho L)|apply (Ho r)]; simpl; auto.
    + eapply same_up_to_sign_of_zero_trans; [|apply f_mul_same, Hx]. eapply unsummed_product; [exact HV| |].
      * intros c Hc. apply HL in Hc as [Hc _]. apply in_or_app, Hc.
      * intros c Hc. apply HL. split; [exact Hc|]. right. destruct Hc as [Hc|Hc]; [apply (Ho L)|apply (Ho r)]; simpl; auto.
Qed.

(** Outer products, broadcast products and elementwise products of floating-point numbers: every element is the product of
    elements of the operands from the left to the right, rounded after every factor, infinities and all, whatever multiplies
    the matrices; only the sign of a zero is open. *)
Theorem unsummed_products_are_products :
  forall (f : format) m h s (arrays : list (arr (float f))) ops out size first rest,
    hash_ok h -> call_ok s (map (@a_shape (float f)) arrays) ops out size -> Forall wf arrays -> Forall (@NoDup char) ops ->
    (forall l c, In l ops -> In c l -> In c out) -> combine ops arrays = first :: rest -> rest <> [] ->
    let factor o := fun p : list char * arr (float f) => elem (snd p) (map (bind out o) (fst p)) in
    exists r F, einsum h (ndarray m f_fma) s arrays = Ok r /\ holds r (map size out) F
      /\ forall o, in_bounds (map size out) o = true ->
           same_up_to_sign_of_zero (proj1_sig (F o)) (proj1_sig (fold_left f_mul (map (factor o) rest) (factor o first))).
Proof.
  intros f m h s arrays ops out size first rest Hh Hc Hw Hn Ho Hz Hr factor.
  assert (Hsh : all_shared ops out).
  { split; auto. intros before this after c -> Hin. right. apply (Ho this); auto. apply in_or_app. simpl; auto. }
  destruct (einsum_holds_its_products _ _ (ndarray m f_fma) (matrix_sum m f_fma) h s arrays ops out size first rest Hh
    (nd_runs m f_fma) (nd_products m f_fma) Hc Hw Hsh Hz Hr) as (r & V & Er & HV & Hres).
  exists r, (fun o => V (bind out o)). split; auto. split; auto. intros o _.
  assert (El : length ops = length arrays).
  { destruct Hc as (_ & _ & H). rewrite <- (map_length (@a_shape _) arrays). eapply Forall2_len; exact H. }
  assert (Eops : fst (labelled first) :: map fst (map labelled rest) = ops).
  { transitivity (map fst (map labelled (combine ops arrays))); [rewrite Hz; reflexivity|].
    rewrite map_map. clear - El. revert arrays El. induction ops as [|l ops IH]; intros [|a arrays] El; try discriminate; [reflexivity|].
    cbn [combine map labelled fst]. f_equal. apply IH. injection El; auto. }
  replace (fold_left f_mul (map (factor o) rest) (factor o first))
    with (fold_left (fun y p => f_mul y (snd p (bind out o))) (map labelled rest) (factor o first)).
  - eapply unsummed_products; [exact HV| | |left; reflexivity]; rewrite Eops; auto. destruct Hc as (_ & [_ Hi] & _). exact Hi.
  - generalize (factor o first). clear. induction rest as [|p rest IH]; intros x; [reflexivity|]. cbn [map fold_left labelled snd]. apply IH.
Qed.
Print Assumptions unsummed_products_are_products.

(** [tensordot] without summed axes likewise; and if nothing fuses a product with a sum, zeros are positive. *)
Theorem outer_tensordot_is_products :
  forall (f : format) m (a b : arr (float f)), wf a -> wf b ->
    exists r F, tensordot (ndarray m f_fma) a b [] [] = Ok r /\ holds r (a_shape a ++ a_shape b) F
      /\ forall x y, in_bounds (a_shape a) x = true -> in_bounds (a_shape b) y = true ->
           same_up_to_sign_of_zero (proj1_sig (F (x ++ y))) (proj1_sig (f_mul (elem a x) (elem b y)))
           /\ ((forall kc, m <> Gemm kc true) -> proj1_sig (F (x ++ y)) = unsigned_zero (proj1_sig (f_mul (elem a x) (elem b y)))).
Proof.
  intros f m a b Wa Wb.
  assert (Hok : forall n, axes_ok n []) by (intros n; split; constructor).
  assert (Hfree : forall n, free_axes n [] = seq 0 n).
  { intros n. unfold free_axes. cbn [existsb negb]. induction (seq 0 n) as [|k l IH]; [reflexivity|]. cbn [filter]. f_equal. exact IH. }
  assert (Hlen : forall sh, axis_lengths sh (seq 0 (length sh)) = sh) by (intros sh; apply map_nth_seq).
  destruct (tensordot_adds_in_order _ _ m f_fma a b [] [] Wa Wb eq_refl (Hok _) (Hok _) eq_refl) as (r & Er & Hr).
  rewrite !Hfree, !Hlen in Hr.
  eexists r, _. split; [exact Er|]. split; [exact Hr|]. intros x y Hx Hy. cbv beta.
  rewrite seq_length, !app_nil_r. cbn [axis_lengths map indices].
  pose proof (in_bounds_length _ _ Hx) as Lx. pose proof (in_bounds_length _ _ Hy) as Ly.
  rewrite <- Lx, firstn_exact, skipn_exact, !app_nil_r, Lx, !place_all by auto.
  split; [apply single_product|apply single_product_unfused].
Qed.
Print Assumptions outer_tensordot_is_products.

(** ** What does show *)

Definition dot64 (a b : arr (float f64)) (la ra : list nat) : res (list spec_float) :=
  do r <- tensordot (ndarray General f_fma) a b la ra; do l <- a_iter r; Ok (map (@proj1_sig _ _) l).

Lemma different_functions s (a b : arr (float f64)) la ra : dot64 a b la ra <> run64 s [a; b] ->
  ~ (exists r r', tensordot (ndarray General f_fma) a b la ra = Ok r /\ einsum id_hash (ndarray General f_fma) (chars s) [a; b] = Ok r'
     /\ same_array r r').
Proof.
  intros Hn (r & r' & E & E' & Hs & Hg). apply Hn. unfold dot64, run64. rewrite E, E'. cbn [rbind].
  replace (a_iter r') with (a_iter r); auto. unfold a_iter. rewrite <- Hs. apply BaseFacts.mapM_ext. intros o Ho. apply Hg. apply indices_In; auto.
Qed.

(** Not without the alphabetical order, so the documentation's equality of the two functions is not one of bits: the
    axes [1; 0] of two matrices. *)
Theorem tensordot_is_einsum_in_any_order_refuted :
  ~ (forall h s (a b : arr (float f64)) u v la ra size,
       let out := axis_labels u (free_axes (length u) la) ++ axis_labels v (free_axes (length v) ra) in
       hash_ok h -> wf a -> wf b -> call_ok s [a_shape a; a_shape b] [u; v] out size -> NoDup u -> NoDup v ->
       axes_ok (length u) la -> axes_ok (length v) ra -> axis_labels u la = axis_labels v ra ->
       exists r r', tensordot (ndarray General f_fma) a b la ra = Ok r /\ einsum h (ndarray General f_fma) s [a; b] = Ok r'
         /\ same_array r r').
Proof.
  intros H. specialize (H id_hash (chars "ij,ij->") (one_axis [2; 2] four) (one_axis [2; 2] ones) (chars "ij") (chars "ij") [1; 0] [1; 0]
    (size_fn (combine (chars "ij") [2; 2]))).
  apply (different_functions "ij,ij->" (one_axis [2; 2] four) (one_axis [2; 2] ones) [1; 0] [1; 0]); [vm_compute; discriminate|].
  apply H.
  - exact id_hash_ok.
  - apply wf_b_ok. reflexivity.
  - apply wf_b_ok. reflexivity.
  - apply check_call_ok; check_call_tac.
  - repeat constructor; simpl; intuition discriminate.
  - repeat constructor; simpl; intuition discriminate.
  - split; repeat constructor; simpl; intuition discriminate.
  - split; repeat constructor; simpl; intuition discriminate.
  - reflexivity.
Qed.
Print Assumptions tensordot_is_einsum_in_any_order_refuted.

(** The sign of a zero is lost by an outer product, though not by an elementwise one. *)
Theorem outer_products_keep_signs_refuted :
  ~ (forall h s (a b : arr (float f64)) lhs rhs out size,
       hash_ok h -> call_ok s [a_shape a; a_shape b] [lhs; rhs] out size -> wf a -> wf b -> NoDup lhs -> NoDup rhs ->
       (forall c, In c lhs \/ In c rhs -> In c out) ->
       exists r, einsum h (ndarray General f_fma) s [a; b] = Ok r /\ holds r (map size out) (fun o =>
         f_mul (elem a (map (bind out o) lhs)) (elem b (map (bind out o) rhs)))).
Proof.
  intros H. specialize (H id_hash (chars "i,j->ij") (one_axis [1] [f_zero f64]) (one_axis [1] [f_of f64 (-1) 0]) (chars "i") (chars "j") (chars "ij")
    (size_fn (combine (chars "ij") [1; 1]))).
  destruct H as (r & Er & _ & _ & Hr).
  - exact id_hash_ok.
  - apply check_call_ok; check_call_tac.
  - apply wf_b_ok. reflexivity.
  - apply wf_b_ok. reflexivity.
  - repeat constructor; simpl; intuition discriminate.
  - repeat constructor; simpl; intuition discriminate.
  - simpl. tauto.
  - specialize (Hr [0; 0] eq_refl).
    assert (E : (do r <- einsum id_hash (ndarray General f_fma) (chars "i,j->ij") [one_axis [1] [f_zero f64]; one_axis [1] [f_of f64 (-1) 0]];
                 do x <- a_get r [0; 0]; Ok (proj1_sig x)) = Ok (S754_zero false)) by (vm_compute; reflexivity).
    rewrite Er in E. cbn [rbind] in E. rewrite Hr in E. cbn [rbind] in E. vm_compute in E. discriminate.
Qed.
Print Assumptions outer_products_keep_signs_refuted.

(** Two axes listed in alphabetical order, not that of the second operand; and an outer product with a zero, an infinity,
    a number that is too small and one that is too large. *)
Example tensordot_bits_case :
  let a := one_axis [2; 2] four in let b := one_axis [2; 2] ones in
  let x := one_axis [3] [f_of f64 (-1) 0; f_of f64 1 1023; f_of f64 3 (-700)] in
  let y := one_axis [2] [f_zero f64; f_of f64 5 (-400)] in
  axis_labels (chars "ij") (free_axes 2 [0; 1]) ++ axis_labels (chars "ji") (free_axes 2 [1; 0]) = []
  /\ axis_labels (chars "ij") [0; 1] = axis_labels (chars "ji") [1; 0] /\ StronglySorted N.lt (axis_labels (chars "ij") [0; 1])
  /\ call_ok (chars "ij,ji->") [a_shape a; a_shape b] [chars "ij"; chars "ji"] [] (size_fn (combine (chars "ij") [2; 2]))
  /\ dot64 a b [0; 1] [1; 0] = run64 "ij,ji->" [a; b] /\ dot64 a b [1; 0] [0; 1] <> run64 "ij,ji->" [a; b]
  /\ call_ok (chars "i,j->ij") [a_shape x; a_shape y] [chars "i"; chars "j"] (chars "ij") (size_fn (combine (chars "ij") [3; 2]))
  /\ wf x /\ wf y
  /\ dot64 x y [] [] = run64 "i,j->ij" [x; y]
  /\ map (fun p => proj1_sig (f_mul (fst p) (snd p))) (list_prod (a_data x) (a_data y))
     <> map (fun p => unsigned_zero (proj1_sig (f_mul (fst p) (snd p)))) (list_prod (a_data x) (a_data y))
  /\ call_ok (chars "i,j,ij->ij") [a_shape x; a_shape y; [3; 2]] [chars "i"; chars "j"; chars "ij"] (chars "ij") (size_fn (combine (chars "ij") [3; 2]))
  /\ run64 "i,j->ij" [x; y] = Ok (map (fun p => unsigned_zero (proj1_sig (f_mul (fst p) (snd p)))) (list_prod (a_data x) (a_data y))).
Proof.
  cbv zeta. split; [reflexivity|]. split; [reflexivity|]. split; [repeat constructor|].
  split; [apply check_call_ok; check_call_tac|]. split; [vm_compute; reflexivity|]. split; [vm_compute; discriminate|].
  split; [apply check_call_ok; check_call_tac|]. split; [apply wf_b_ok; reflexivity|]. split; [apply wf_b_ok; reflexivity|].
  split; [vm_compute; reflexivity|]. split; [vm_compute; discriminate|]. split; [apply check_call_ok; check_call_tac|].
  vm_compute. reflexivity.
Qed.
