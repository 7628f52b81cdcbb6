(** ndarray's limit on the size of an array (C50). *)
From Verif Require Import Base BaseFacts NDArray Validation Optimizers Strategies Singleton Pair Path Api Spec ParserFacts
  ValidationFacts ValidationMain ArrayFacts TensordotMain EinsumMain Overflow OverflowFacts Examples PropsOverflow PropsTensordot PropsMisuse
  Limits LimitsFacts LimitsMain.
From Coq Require Import Lia.
From Coq Require String.
Import String.StringSyntax.
Local Open Scope string_scope.
Local Open Scope list_scope.

(** Limits.v repeats the execution with a panic wherever ndarray would refuse to make an array:
    where the product of the non-zero axis lengths exceeds [L], which is [isize::MAX]. The
    products the crate computes itself are checked against [M], which is [usize::MAX]. The
    theorems hold for all [L <= M].

    [kept ops out m] are the labels of the product of the first [m] operands after summing what no
    later operand and no output label needs; [products_fit] says that these products are within
    the limit. Nothing else matters: not the temporary matrices, not the reordered copies. *)

(** ** Calls *)

Theorem einsum_size_limit :
  forall (A : Type) (Sc : Scalar A) h lay, hash_ok h -> backend_runs lay ->
  forall L M, L <= M ->
  forall s (arrays : list (arr A)) ops out size,
    call_ok s (map (@a_shape A) arrays) ops out size -> Forall wf arrays ->
    Forall (fun a => nonzero_product (a_shape a) <= L) arrays ->
    (products_fit L size ops out -> einsum_l L lay M h s arrays = einsum h lay s arrays)
    /\ (~ products_fit L size ops out -> einsum_l L lay M h s arrays = Panic).
Proof. intros A Sc h lay Hh Hlay L M HM s arrays ops out size Hc Hw Hf. apply einsum_limited; auto. Qed.
Print Assumptions einsum_size_limit.

(** With a strategy, the operands are multiplied in the order of the strategy. *)
Theorem compiled_size_limit :
  forall (A : Type) (Sc : Scalar A) h lay, hash_ok h -> backend_runs lay ->
  forall L M, L <= M ->
  forall s (arrays : list (arr A)) ops out size,
    call_ok s (map (@a_shape A) arrays) ops out size -> Forall wf arrays ->
    Forall (fun a => nonzero_product (a_shape a) <= L) arrays ->
    (products_fit L size ops out ->
       compile_and_run_l L lay M h s arrays Naive = compile_and_run h lay s arrays Naive)
    /\ (~ products_fit L size ops out -> compile_and_run_l L lay M h s arrays Naive = Panic)
    /\ (products_fit L size (rev ops) out ->
       compile_and_run_l L lay M h s arrays Reverse = compile_and_run h lay s arrays Reverse)
    /\ (~ products_fit L size (rev ops) out -> compile_and_run_l L lay M h s arrays Reverse = Panic).
Proof.
  intros A Sc h lay Hh Hlay L M HM s arrays ops out size Hc Hw Hf.
  pose proof (compile_and_run_limited L size h Hh lay Hlay s arrays ops out Hc Hw Hf M Naive (or_introl eq_refl) HM) as H1.
  pose proof (compile_and_run_limited L size h Hh lay Hlay s arrays ops out Hc Hw Hf M Reverse (or_intror eq_refl) HM) as H2.
  cbn [taken] in H1, H2. tauto.
Qed.
Print Assumptions compiled_size_limit.

(** The chain of three matrices with shapes 2x3, 3x2 and 2x3: forwards its products have 4 and 6
    elements, so that the limit 6 is enough and with 5 an operand would not fit. *)
Example einsum_size_limit_example :
  let arrays := [zarr [2; 3] [1; 2; 3; 4; 5; 6]%Z; zarr [3; 2] [1; 0; 2; -1; 3; 1]%Z;
                 zarr [2; 3] [1; 2; 3; 4; 5; 6]%Z] in
  let size := size_fn [(105%N, 2); (106%N, 3); (107%N, 2); (108%N, 3)] in
  call_ok (chars "ij,jk,kl->il") (map (@a_shape Z) arrays)
    [chars "ij"; chars "jk"; chars "kl"] (chars "il") size
  /\ Forall (fun a => nonzero_product (a_shape a) <= 6) arrays
  /\ products_fit 6 size [chars "ij"; chars "jk"; chars "kl"] (chars "il")
  /\ einsum_l 6 c_backend 6 id_hash (chars "ij,jk,kl->il") arrays
     = Ok (zarr [2; 3] [18; 33; 48; 36; 69; 102]%Z).
Proof.
  cbv zeta. split; [|split; [|split]].
  - apply check_call_ok. check_call_tac.
  - repeat constructor.
  - intros m Hm. cbn [length] in Hm. destruct m as [|[|[|[|m]]]]; try lia; vm_compute; lia.
  - vm_compute. reflexivity.
Qed.

(** The outer product of two vectors of three elements has nine. *)
Example einsum_size_limit_exceeded :
  let arrays := [zarr [3] [1; 2; 3]%Z; zarr [3] [1; 2; 3]%Z] in
  let size := size_fn [(105%N, 3); (106%N, 3)] in
  call_ok (chars "i,j->ij") (map (@a_shape Z) arrays) [chars "i"; chars "j"] (chars "ij") size
  /\ Forall (fun a => nonzero_product (a_shape a) <= 8) arrays
  /\ ~ products_fit 8 size [chars "i"; chars "j"] (chars "ij")
  /\ einsum_l 8 c_backend 8 id_hash (chars "i,j->ij") arrays = Panic
  /\ einsum_l 9 c_backend 9 id_hash (chars "i,j->ij") arrays = Ok (zarr [3; 3] [1; 2; 3; 2; 4; 6; 3; 6; 9]%Z).
Proof.
  cbv zeta. split; [|split; [|split; [|split]]].
  - apply check_call_ok. check_call_tac.
  - repeat constructor.
  - intros H. specialize (H 2 ltac:(cbn [length]; lia)). vm_compute in H. lia.
  - vm_compute. reflexivity.
  - vm_compute. reflexivity.
Qed.

(** A bound that does not depend on the strategy: one axis for each label. *)
Lemma all_labels_fit L size ops out :
  nonzero_product (map size (nodup N.eq_dec (concat ops))) <= L -> products_fit L size ops out.
Proof.
  intros H m Hm. eapply Nat.le_trans; [|exact H]. apply nzp_incl; [apply kept_NoDup|].
  intros c Hc. apply kept_In in Hc as [Hc _]. apply nodup_In. rewrite <- (firstn_skipn m ops), concat_app.
  apply in_or_app. auto.
Qed.

Theorem size_limit_not_reached :
  forall (A : Type) (Sc : Scalar A) h lay, hash_ok h -> backend_runs lay ->
  forall L M, L <= M ->
  forall s (arrays : list (arr A)) ops out size strategy,
    call_ok s (map (@a_shape A) arrays) ops out size -> Forall wf arrays ->
    Forall (fun a => nonzero_product (a_shape a) <= L) arrays ->
    strategy = Naive \/ strategy = Reverse ->
    nonzero_product (map size (nodup N.eq_dec (concat ops))) <= L ->
    einsum_l L lay M h s arrays = einsum h lay s arrays
    /\ compile_and_run_l L lay M h s arrays strategy = compile_and_run h lay s arrays strategy.
Proof.
  intros A Sc h lay Hh Hlay L M HM s arrays ops out size strategy Hc Hw Hf Hst Hn. split.
  - apply (einsum_limited L size h Hh lay Hlay s arrays ops out Hc Hw Hf M HM). apply all_labels_fit. auto.
  - apply (compile_and_run_limited L size h Hh lay Hlay s arrays ops out Hc Hw Hf M strategy Hst HM).
    apply all_labels_fit. destruct Hst as [-> | ->]; cbn [taken]; auto.
    eapply Nat.le_trans; [|exact Hn]. apply Nat.eq_le_incl, nzp_same; try apply NoDup_nodup. intros c. rewrite !nodup_In, !in_concat. split; intros (l & Hl & Hx); exists l; split; auto.
    + apply in_rev. auto.
    + apply in_rev in Hl. auto.
Qed.
Print Assumptions size_limit_not_reached.

Example size_limit_not_reached_example :
  nonzero_product (map (size_fn [(105%N, 2); (106%N, 3); (107%N, 0)]) (nodup N.eq_dec (concat [chars "ij"; chars "jk"]))) = 6.
Proof. vm_compute. reflexivity. Qed.

(** ** Every call *)

(** Whatever the arguments, the limit only turns results into panics: a result is the result
    without the limit, and a call is rejected with the same message. *)
Theorem limit_only_adds_panics :
  forall (A : Type) (Sc : Scalar A) h lay L M s (arrays : list (arr A)),
    (einsum_l L lay M h s arrays = Panic \/ einsum_l L lay M h s arrays = einsum h lay s arrays)
    /\ forall e, einsum_l L lay M h s arrays = Err e <-> einsum h lay s arrays = Err e.
Proof.
  intros A Sc h lay L M s arrays. pose proof (einsum_below L lay M h s arrays) as Hb. split; [exact Hb|].
  intros e. split; intros E; [destruct Hb as [Hb|Hb]; congruence|].
  revert E. unfold einsum_l, einsum.
  destruct (validate_and_size h s arrays) as [sc|m|] eqn:Ev; cbn [rbind]; auto.
  intros E. exfalso. exact (proj2 (proj2 (running_never_errs A Sc h lay sc (mkPath (Pairs []) (StepsPairs [])) arrays e)) E).
Qed.
Print Assumptions limit_only_adds_panics.

(** What is returned is itself within the limit. *)
Theorem results_are_within_the_limit :
  forall (A : Type) (Sc : Scalar A) h lay, hash_ok h -> backend_runs lay ->
  forall L M, L <= M ->
  forall s (arrays : list (arr A)) r, Forall wf arrays ->
    Forall (fun a => nonzero_product (a_shape a) <= L) arrays ->
    einsum_l L lay M h s arrays = Ok r ->
    einsum h lay s arrays = Ok r /\ nonzero_product (a_shape r) <= L.
Proof.
  intros A Sc h lay Hh Hlay L M HM s arrays r Hw Hf E.
  assert (Ee : einsum h lay s arrays = Ok r).
  { destruct (einsum_below L lay M h s arrays) as [Hb|Hb]; congruence. }
  split; auto.
  destruct (einsum_ok_shape h lay Hh Hlay s arrays r Hw Ee) as (ops & out & size & Hc & _ & _ & Sr). rewrite Sr.
  pose proof Hc as (Hm & [Ho Hi] & Hs).
  assert (Hne : ops <> []) by (destruct Hm as [Hm|[Hm _]]; inversion Hm; auto).
  destruct (le_lt_dec 2 (length ops)) as [H2|H2].
  - destruct (le_dec (nonzero_product (map size (kept ops out (length ops)))) L) as [Hk|Hk].
    + rewrite (nzp_same size out (kept ops out (length ops))); auto; [apply kept_NoDup|].
      intros c. rewrite kept_In, firstn_all, skipn_all. specialize (Hi c). split; [auto|intros [_ [[]|H]]; auto].
    + destruct (einsum_limited L size h Hh lay Hlay s arrays ops out Hc Hw Hf M HM) as [_ Hp].
      rewrite Hp in E; [discriminate|]. intros Hx. apply Hk, Hx. lia.
  - destruct ops as [|u [|? ?]]; [congruence| |simpl in H2; lia].
    destruct arrays as [|a [|? ?]]; [inversion Hs| |inversion Hs as [|? ? ? ? ? Hx]; inversion Hx].
    inversion Hs as [|? ? ? ? Hsh]. inversion Hf as [|? ? Ha]. rewrite Hsh in Ha.
    eapply Nat.le_trans; [|exact Ha].
    apply nzp_incl; auto. intros c Hx. specialize (Hi c Hx). cbn [concat] in Hi. rewrite app_nil_r in Hi. auto.
Qed.
Print Assumptions results_are_within_the_limit.

Example results_are_within_the_limit_example :
  einsum_l 4 c_backend 4 id_hash (chars "ij->ji") [zarr [2; 2] [1; 2; 3; 4]%Z] = Ok (zarr [2; 2] [1; 3; 2; 4]%Z).
Proof. vm_compute. reflexivity. Qed.

(** ** tensordot *)

Theorem tensordot_size_limit :
  forall (A : Type) (Sc : Scalar A) lay L M (a b : arr A) la ra, backend_runs lay -> wf a -> wf b -> L <= M ->
    nonzero_product (a_shape a) <= L -> nonzero_product (a_shape b) <= L ->
    let result := axis_lengths (a_shape a) (free_axes (length (a_shape a)) la)
                  ++ axis_lengths (a_shape b) (free_axes (length (a_shape b)) ra) in
    (nonzero_product result <= L -> tensordot_l L lay M a b la ra = tensordot lay a b la ra)
    /\ (L < nonzero_product result -> tensordot_l L lay M a b la ra = Panic).
Proof.
  intros A Sc lay L M a b la ra Hlay Wa Wb HM Ha Hb result.
  destruct (tensordot_limited L lay Hlay M a b la ra HM Ha Hb) as [H1 H2].
  destruct (tensordot_on_all_inputs lay Hlay a b la ra Wa Wb) as [(_ & _ & _ & _ & x & w & E & Hr & _)|[_ E]].
  - rewrite (H1 x E), E. unfold limited, fits. cbn [rbind]. destruct Hr as (Sx & _). rewrite Sx. fold result.
    split; intros H; destruct (Nat.leb_spec (nonzero_product result) L); try lia; auto.
  - rewrite (H2 E), E. auto.
Qed.
Print Assumptions tensordot_size_limit.

Example tensordot_size_limit_example :
  let a := zarr [3; 2] [1; 2; 3; 4; 5; 6]%Z in
  tensordot_l 8 c_backend 8 a a [1] [1] = Panic
  /\ tensordot_l 9 c_backend 9 a a [1] [1] = Ok (zarr [3; 3] [5; 11; 17; 11; 25; 39; 17; 39; 61]%Z)
  /\ tensordot_l 6 c_backend 6 a a [0] [0] = Ok (zarr [2; 2] [35; 44; 44; 56]%Z).
Proof. repeat split; vm_compute; reflexivity. Qed.

(** ** What the limit makes false *)

Lemma vector_wf n : wf (mk_c [n] (map (fun _ => 1%Z) (indices [n]))).
Proof. eapply holds_wf, holds_mk_c. Qed.

Lemma empty_wf n : wf (mk_c [n; 0] ([] : list Z)).
Proof.
  assert (E : ([] : list Z) = map (fun _ => 1%Z) (indices [n; 0])).
  { symmetry. apply length_zero_iff_nil. rewrite map_length, indices_length. simpl. lia. }
  rewrite E. eapply holds_wf, holds_mk_c.
Qed.

Lemma nzp_square n : 1 <= n -> nonzero_product [n; n] = n * n.
Proof. intros H. unfold nonzero_product. destruct n; [lia|]. cbn [filter Nat.eqb negb fold_right]. lia. Qed.

Lemma big_length : exists n, 1 <= n /\ n <= isize_max /\ isize_max < n * n.
Proof.
  destruct isize_not_enough as (n & H1 & H2). exists n. split; [|split; [exact H1|]].
  - destruct (Nat.eq_dec n 0) as [->|Hn].
    + exfalso. rewrite Nat.mul_0_l in H2. exact (Nat.nlt_0_r _ H2).
    + apply Nat.neq_0_lt_0. exact Hn.
  - exact (Nat.le_lt_trans _ _ _ isize_le_usize H2).
Qed.

Lemma nzp_length n : 1 <= n -> nonzero_product [n] = n.
Proof. intros H. unfold nonzero_product. destruct n; [lia|]. cbn [filter Nat.eqb negb fold_right]. lia. Qed.

(** Well-formed calls on operands ndarray can represent need not return: "ia,jb->iajb" on two
    arrays of shape [2^33; 0] has no element to compute, and its result none to hold, but ndarray
    refuses the shape. Without the limit the call returns. *)
Theorem calls_on_representable_operands_return_refuted :
  exists s (arrays : list (arr Z)) ops out size,
    call_ok s (map (@a_shape Z) arrays) ops out size /\ Forall wf arrays
    /\ Forall (fun a => nonzero_product (a_shape a) <= isize_max) arrays
    /\ fold_right Nat.mul 1 (map size out) = 0
    /\ einsum_l isize_max c_backend usize_max id_hash s arrays = Panic
    /\ exists r, einsum id_hash c_backend s arrays = Ok r /\ wf r /\ a_shape r = map size out.
Proof.
  destruct big_length as (n & H1 & H2 & H3).
  set (size := fun c => if N.eqb c 105 || N.eqb c 106 then n else 0).
  exists (chars "ia,jb->iajb"), [mk_c [n; 0] []; mk_c [n; 0] []], [chars "ia"; chars "jb"], (chars "iajb"), size.
  assert (Hc : call_ok (chars "ia,jb->iajb") (map (@a_shape Z) [mk_c [n; 0] []; mk_c [n; 0] []])
    [chars "ia"; chars "jb"] (chars "iajb") size).
  { assert (H : call_ok (chars "ia,jb->iajb") [[2; 0]; [2; 0]] [chars "ia"; chars "jb"] (chars "iajb")
                  (size_fn [(105%N, 2); (106%N, 2); (97%N, 0); (98%N, 0)])) by (apply check_call_ok; check_call_tac).
    destruct H as (Hm & Ho & _). split; auto. split; auto. repeat constructor. }
  assert (Hw : Forall wf [mk_c [n; 0] ([] : list Z); mk_c [n; 0] []]) by (constructor; [apply empty_wf|constructor; [apply empty_wf|constructor]]).
  assert (Hf : Forall (fun a => nonzero_product (a_shape a) <= isize_max) [mk_c [n; 0] ([] : list Z); mk_c [n; 0] []]).
  { assert (E : nonzero_product [n; 0] <= isize_max).
    { unfold nonzero_product. destruct n; [lia|]. cbn [filter Nat.eqb negb fold_right]. lia. }
    constructor; [exact E|constructor; [exact E|constructor]]. }
  split; [exact Hc|]. split; [exact Hw|]. split; [exact Hf|]. split.
  { change (map size (chars "iajb")) with [n; 0; n; 0]. cbn [fold_right]. lia. }
  split.
  - apply (einsum_size_limit Z Z_scalar id_hash c_backend id_hash_ok' c_backend_ok isize_max usize_max
             isize_le_usize _ _ _ _ size Hc Hw Hf).
    intros H. specialize (H 2 ltac:(cbn [length]; lia)).
    change (map size (kept [chars "ia"; chars "jb"] (chars "iajb") 2)) with [n; 0; n; 0] in H.
    assert (E : nonzero_product [n; 0; n; 0] = n * n).
    { unfold nonzero_product. destruct n; [lia|]. cbn [filter Nat.eqb negb fold_right]. lia. }
    lia.
  - destruct (einsum_ends id_hash c_backend id_hash_ok' c_backend_ok _ _ _ _ size Hc Hw) as [[_ Hb]|[_ H]]; auto.
    exfalso. destruct Hb as (before & a & ix & after & E & Hn & _). apply Hn.
    assert (Hin : In (a, ix) (before ++ (a, ix) :: after)) by (apply in_or_app; simpl; auto).
    rewrite <- E in Hin. destruct Hin as [Hin|[Hin|[]]]; injection Hin as _ <-;
      repeat constructor; simpl; intuition discriminate.
Qed.
Print Assumptions calls_on_representable_operands_return_refuted.

(** The strategies need not agree on whether a call returns: "i,j,j->i" first multiplies the outer
    product of two vectors with Naive, and a dot product with Reverse. *)
Theorem strategies_return_alike_refuted :
  exists s (arrays : list (arr Z)) ops out size r,
    call_ok s (map (@a_shape Z) arrays) ops out size /\ Forall wf arrays
    /\ Forall (fun a => nonzero_product (a_shape a) <= isize_max) arrays
    /\ compile_and_run_l isize_max c_backend usize_max id_hash s arrays Naive = Panic
    /\ compile_and_run_l isize_max c_backend usize_max id_hash s arrays Reverse = Ok r.
Proof.
  destruct big_length as (n & H1 & H2 & H3).
  set (size := fun _ : char => n). set (v := mk_c [n] (map (fun _ => 1%Z) (indices [n]))).
  assert (Hc : call_ok (chars "i,j,j->i") (map (@a_shape Z) [v; v; v]) [chars "i"; chars "j"; chars "j"] (chars "i") size).
  { assert (H : call_ok (chars "i,j,j->i") [[2]; [2]; [2]] [chars "i"; chars "j"; chars "j"] (chars "i")
                  (size_fn [(105%N, 2); (106%N, 2)])) by (apply check_call_ok; check_call_tac).
    destruct H as (Hm & Ho & _). split; auto. split; auto. repeat constructor. }
  assert (Hw : Forall wf [v; v; v]) by (constructor; [apply vector_wf|constructor; [apply vector_wf|constructor; [apply vector_wf|constructor]]]).
  assert (Hf : Forall (fun a => nonzero_product (a_shape a) <= isize_max) [v; v; v]).
  { assert (E : nonzero_product (a_shape v) <= isize_max).
    { change (a_shape v) with [n]. rewrite nzp_length; auto. }
    constructor; [exact E|constructor; [exact E|constructor; [exact E|constructor]]]. }
  destruct (compiled_size_limit Z Z_scalar id_hash c_backend id_hash_ok' c_backend_ok isize_max usize_max
             isize_le_usize _ _ _ _ size Hc Hw Hf) as (_ & P & Q & _).
  destruct (compile_and_run_ends id_hash c_backend id_hash_ok' c_backend_ok _ _ _ _ size Reverse
              (or_intror eq_refl) Hc Hw) as [[_ Hb]|[_ (r & Er & _)]].
  { exfalso. destruct Hb as (before & a & ix & after & E & Hn & _). apply Hn.
    assert (Hin : In (a, ix) (before ++ (a, ix) :: after)) by (apply in_or_app; simpl; auto).
    rewrite <- E in Hin. destruct Hin as [Hin|[Hin|[Hin|[]]]]; injection Hin as _ <-;
      repeat constructor; simpl; intuition discriminate. }
  exists (chars "i,j,j->i"), [v; v; v], [chars "i"; chars "j"; chars "j"], (chars "i"), size, r.
  split; [exact Hc|]. split; [exact Hw|]. split; [exact Hf|]. split.
  - apply P. intros H. specialize (H 2 ltac:(cbn [length]; lia)).
    change (map size (kept [chars "i"; chars "j"; chars "j"] (chars "i") 2)) with [n; n] in H.
    rewrite nzp_square in H by auto. lia.
  - rewrite Q; auto. intros m Hm. cbn [rev app length] in Hm. destruct m as [|[|[|[|m]]]]; try lia.
    + change (nonzero_product (map size (kept (rev [chars "i"; chars "j"; chars "j"]) (chars "i") 2))) with 1. lia.
    + change (map size (kept (rev [chars "i"; chars "j"; chars "j"]) (chars "i") 3)) with [n].
      rewrite nzp_length; auto.
Qed.
Print Assumptions strategies_return_alike_refuted.
