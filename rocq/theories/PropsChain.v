(** Rounding through a series of calls (C86): operands that are themselves approximations, such as the results of other
    calls. *)
From Verif Require Import Base BaseFacts NDArray Validation Optimizers Path Api Spec ParserFacts ValidationMain SumFacts
  ArrayFacts PathFacts EinsumMain EinsumProps RelationFacts AlgebraFacts TensordotMain RoundFacts RangeFacts FloatFacts FloatMain BackwardFacts
  AdjointFacts UniqueFacts DotAlgebra Examples PropsTensordot PropsRounding PropsFloat PropsBackward PropsBackwardDot PropsSpread
  PropsDotAlgebra PropsDotNest.
From Coq Require Import Lia QArith Qcanon Qcabs.
From Coq Require String.
Import String.StringSyntax.
Local Open Scope string_scope.
Local Open Scope list_scope.
Local Open Scope nat_scope.

(** ** Approximations *)

(** What an array approximates: a number of roundings, the exact values, bounds on what they are sums of, and larger
    bounds for underflow. *)
Record estimate : Type := mkEstimate {
  es_roundings : nat;
  es_value : arr Qc;
  es_size : arr Qc;
  es_padded : arr Qc
}.

(** What [n] roundings can move a number of size [m], padded [b]; as in C40. *)
Definition moved_by (eps eta : Qc) (n : nat) (m b : Qc) : Qc :=
  ((grow eps n - 1) * m + (grow eta n - 1) * (grow eps n * b))%Qc.

Definition approximates {F} {Sf : Scalar F} (v : F -> option Qc) (eps eta : Qc) (a : arr F) (t : estimate) : Prop :=
  a_shape (es_value t) = a_shape a /\ a_shape (es_size t) = a_shape a /\ a_shape (es_padded t) = a_shape a
  /\ forall idx, in_bounds (a_shape a) idx = true ->
       let y := elem (es_value t) idx in
       let m := elem (es_size t) idx in
       let b := elem (es_padded t) idx in
       (Qcabs y <= m /\ m <= b /\ (b = 0 \/ 1 <= b))%Qc
       /\ (v (elem a idx) = None
           \/ exists q, v (elem a idx) = Some q /\ (Qcabs (q - y) <= moved_by eps eta (es_roundings t) m b)%Qc).

(** An array as such: no roundings yet. *)
Definition as_given {F} (v : F -> option Qc) (a : arr F) : estimate :=
  mkEstimate 0 (amap (value_of v) a) (amap (magnitude_of v) a) (amap (padded_of v) a).

(** The Einstein sum and the tensor dot product of what the operands approximate [lib.rs:209-227,269-294]. *)
Definition estimated_sum (size : char -> nat) (ts : list estimate) (ops : list (list char)) (out : list char) : estimate :=
  mkEstimate (list_sum (map es_roundings ts) + length ops + prod (map size (summed_labels ops out)) - 2)
    (array_of (map size out) (einsum_value size (map es_value ts) ops out))
    (array_of (map size out) (einsum_value size (map es_size ts) ops out))
    (array_of (map size out) (einsum_value size (map es_padded ts) ops out)).
Definition estimated_dot (t u : estimate) (la ra : list nat) : estimate :=
  mkEstimate (es_roundings t + es_roundings u + prod (axis_lengths (a_shape (es_value t)) la))
    (array_of (dot_shape (es_value t) (es_value u) la ra) (tensordot_value (es_value t) (es_value u) la ra))
    (array_of (dot_shape (es_value t) (es_value u) la ra) (tensordot_value (es_size t) (es_size u) la ra))
    (array_of (dot_shape (es_value t) (es_value u) la ra) (tensordot_value (es_padded t) (es_padded u) la ra)).

(** ** Tracked numbers *)

(** The tracked number that says the same. *)
Definition tag (n : nat) (y m b : Qc) : tracked :=
  if Qc_eq_dec b 0 then nothing else ((y, m, b), (Some (S n), 1)).
Definition tagged (t : estimate) : arr tracked :=
  array_of (a_shape (es_value t)) (fun i => tag (es_roundings t) (elem (es_value t) i) (elem (es_size t) i) (elem (es_padded t) i)).

(** Values are at most as large as their sizes, and these as the padded ones. *)
Definition ordered (t : tracked) : Prop :=
  let '(y, m, b) := fst t in (Qcabs y <= m /\ m <= b /\ (b = 0 \/ 1 <= b))%Qc.

Lemma one_le : (0 <= 1)%Qc. Proof. apply Qle_bool_imp_le. reflexivity. Qed.

Lemma ordered_closed : @closed_set tracked tracked_scalar ordered.
Proof.
  unfold ordered. split; [|split; [|split]]; cbn.
  - rewrite abs_zero. repeat split; auto using Qcle_refl.
  - replace (Qcabs 1) with 1%Qc by (symmetry; apply Qcabs_pos, one_le). repeat split; auto using Qcle_refl.
  - intros [[[y m] b] ?] [[[y' m'] b'] ?]. cbn. intros (H1 & H2 & H3) (H1' & H2' & H3').
    split; [eapply Qcle_trans; [apply Qcabs_triangle|]; apply Qcplus_le_compat; auto|].
    split; [apply Qcplus_le_compat; auto|].
    destruct H3 as [->|H3], H3' as [->|H3']; rewrite ?Qcplus_0_l, ?Qcplus_0_r; auto.
    right. rewrite <- (Qcplus_0_r 1). apply Qcplus_le_compat; auto. eapply Qcle_trans; [apply one_le|auto].
  - intros [[[y m] b] ?] [[[y' m'] b'] ?]. cbn. intros (H1 & H2 & H3) (H1' & H2' & H3').
    assert (P : (0 <= m)%Qc) by (eapply Qcle_trans; [apply Qcabs_nonneg|exact H1]).
    assert (P' : (0 <= m')%Qc) by (eapply Qcle_trans; [apply Qcabs_nonneg|exact H1']).
    split; [rewrite Qcabs_Qcmult; apply Qcle_mult; auto using Qcabs_nonneg|].
    split; [apply Qcle_mult; auto|].
    destruct H3 as [->|H3]; [left; apply Qcmult_0_l|]. destruct H3' as [->|H3']; [left; apply Qcmult_0_r|].
    right. rewrite <- (Qcmult_1_l 1). apply Qcle_mult; auto using one_le.
Qed.

Lemma tag_ordered n y m b : (Qcabs y <= m -> m <= b -> b = 0 \/ 1 <= b -> ordered (tag n y m b) /\ fst (tag n y m b) = (y, m, b))%Qc.
Proof.
  intros H1 H2 H3. unfold tag. destruct (Qc_eq_dec b 0) as [->|Hb]; [|split; auto; cbn; auto].
  assert (P : (0 <= m)%Qc) by (eapply Qcle_trans; [apply Qcabs_nonneg|exact H1]).
  assert (m = 0)%Qc by (apply Qcle_antisym; auto). subst m.
  assert (Ey : Qcabs y = 0%Qc) by (apply Qcle_antisym; auto using Qcabs_nonneg).
  assert (y = 0)%Qc.
  { apply Qcle_antisym; [rewrite <- Ey; apply Qcle_Qcabs|]. apply Qcopp_le_compat in H1. rewrite <- Ey in H1 at 1.
    pose proof (Qcle_Qcabs (- y)) as H. rewrite Qcabs_opp, Ey in H. apply Qcopp_le_compat in H. rewrite Qcopp_involutive in H.
    replace (- 0)%Qc with 0%Qc in H by ring. exact H. }
  subst y. split; [|reflexivity]. apply ordered_closed.
Qed.

Lemma elem_outside {A} {Sc : Scalar A} (a : arr A) i : in_bounds (a_shape a) i = false -> elem a i = szero.
Proof. intros H. unfold elem, a_get. rewrite H. auto. Qed.

Section Chain.
Context {F : Type} {Sf : Scalar F}.
Variables (v : F -> option Qc) (eps eta : Qc).
Hypothesis HF : rounding v eps eta.

Lemma tagged_elem a t : approximates v eps eta a t -> forall i,
  ordered (@elem _ tracked_scalar (tagged t) i)
  /\ fst (@elem _ tracked_scalar (tagged t) i) = (elem (es_value t) i, elem (es_size t) i, elem (es_padded t) i)
  /\ bounded (S (es_roundings t)) 1 (@elem _ tracked_scalar (tagged t) i).
Proof.
  intros (S1 & S2 & S3 & H) i. unfold tagged. rewrite (elem_array_of (Sc := tracked_scalar)), S1.
  destruct (in_bounds (a_shape a) i) eqn:E.
  - destruct (H i E) as [(H1 & H2 & H3) _]. destruct (tag_ordered (es_roundings t) _ _ _ H1 H2 H3) as [T1 T2].
    split; auto. split; auto. unfold tag. destruct (Qc_eq_dec _ _); split; cbn; auto.
  - split; [apply ordered_closed|]. rewrite !elem_outside by (rewrite ?S1, ?S2, ?S3; auto). split; [reflexivity|]. split; cbn; auto.
Qed.

Lemma tagged_tracks a t : wf a -> approximates v eps eta a t -> related_arrays (tracks v eps eta) a (tagged t).
Proof.
  intros Wa (S1 & S2 & S3 & H). split; [unfold tagged; rewrite array_of_shape; auto|]. intros i Hi.
  apply wf_readable in Wa as [_ Wg]. destruct (Wg i Hi) as (x & Ex). destruct (H i Hi) as [(H1 & H2 & H3) Hv].
  exists x. eexists. split; auto. split.
  { unfold tagged. rewrite S1. apply (holds_mk_c (a_shape a)). auto. }
  assert (Ee : elem a i = x) by (unfold elem; rewrite Ex; auto). rewrite Ee in Hv.
  destruct Hv as [Hv|(q & Eq & Hq)]; [left; auto|right]. exists q. split; auto.
  destruct (tag_ordered (es_roundings t) _ _ _ H1 H2 H3) as [_ T2]. unfold tag in *.
  destruct (Qc_eq_dec (elem (es_padded t) i) 0) as [E0|Hb].
  - unfold nothing in *. cbn [fst] in T2. injection T2 as E1 E2 E3. rewrite <- E1, <- E2, <- E3 in Hq. unfold moved_by in Hq.
    rewrite !Qcmult_0_r, Qcplus_0_r in Hq. replace (q - 0)%Qc with q in Hq by ring.
    assert (q = 0)%Qc; [|subst q; repeat split; auto].
    destruct (tag_ordered 0 q 0 0 Hq (Qcle_refl _) (or_introl eq_refl)) as [_ T]. unfold tag in T.
    destruct (Qc_eq_dec 0 0) as [_|Hn]; [|contradiction]. unfold nothing in T. cbn [fst] in T. congruence.
  - destruct H3 as [H3|H3]; [contradiction|]. cbn [approx]. replace (S (es_roundings t) + 0 - 1) with (es_roundings t) by lia.
    split; auto.
Qed.

(** A tracked array read back. *)
Lemma tracked_reads (x : F) (t : tracked) (n : nat) y m b :
  ordered t -> fst t = (y, m, b) -> tracks v eps eta x t -> (exists d c, bounded d c t /\ d + c - 2 <= n) ->
  (Qcabs y <= m /\ m <= b /\ (b = 0 \/ 1 <= b))%Qc
  /\ (v x = None \/ exists q, v x = Some q /\ (Qcabs (q - y) <= moved_by eps eta n m b)%Qc).
Proof.
  intros Ho Hf Ht (d & c & [B1 B2] & Hn). unfold ordered in Ho. rewrite Hf in Ho. split; auto.
  destruct Ht as [H|(q & Eq & H)]; [left; auto|right]. exists q. split; auto.
  destruct (approx_within _ _ _ _ H) as [(-> & Eb)|(y' & m' & b' & d' & c' & Eb & Hw)]; rewrite Eb in *.
  - unfold nothing in Hf; cbn [fst] in Hf. injection Hf as <- <- <-. unfold moved_by. replace (Qcabs (0 - 0)) with 0%Qc by (apply Qc_is_canon; reflexivity).
    rewrite !Qcmult_0_r, Qcplus_0_r. apply Qcle_refl.
  - cbn [fst] in Hf. injection Hf as <- <- <-. cbn [fst snd] in B1, B2.
    apply (within_mono eps eta (rnd_eps _ _ _ HF) (rnd_eta _ _ _ HF) (d' + c' - 1) n) in Hw; [|lia]. apply Hw.
Qed.

Lemma tagged_sum size (arrays : list (arr F)) ts ops out o : Forall2 (approximates v eps eta) arrays ts -> length arrays = length ops ->
  ordered (@einsum_value _ tracked_scalar size (map tagged ts) ops out o)
  /\ fst (@einsum_value _ tracked_scalar size (map tagged ts) ops out o)
     = (einsum_value size (map es_value ts) ops out o, einsum_value size (map es_size ts) ops out o, einsum_value size (map es_padded ts) ops out o)
  /\ bounded (list_sum (map es_roundings ts) + length ops) (prod (map size (summed_labels ops out)))
       (@einsum_value _ tracked_scalar size (map tagged ts) ops out o).
Proof.
  intros Ha Hl. split; [|split].
  - apply (@einsum_value_rel tracked unit tracked_scalar unit_scalar (fun x _ => ordered x) (closed_relation _ ordered_closed) size
      (map tagged ts) (map (amap (fun _ => tt)) (map tagged ts))).
    clear Hl. induction Ha as [|a t arrays ts Hat Ha IH]; cbn [map]; constructor; auto. intros i. apply (tagged_elem a t Hat).
  - assert (H : forall (p : Qc * Qc * Qc -> Qc) (g : estimate -> arr Qc),
      (forall a t, approximates v eps eta a t -> forall i, p (fst (@elem _ tracked_scalar (tagged t) i)) = elem (g t) i) ->
      @scalar_relation tracked Qc tracked_scalar Qc_scalar (fun b y => p (fst b) = y) ->
      p (fst (@einsum_value _ tracked_scalar size (map tagged ts) ops out o)) = einsum_value size (map g ts) ops out o).
    { intros p g Hg HR. apply (@einsum_value_rel tracked Qc tracked_scalar Qc_scalar (fun b y => p (fst b) = y) HR).
      clear Hl. induction Ha as [|a t arrays ts Hat Ha IH]; cbn [map]; constructor; eauto. }
    rewrite <- (H (fun p => fst (fst p)) es_value), <- (H (fun p => snd (fst p)) es_size), <- (H snd es_padded);
      try (constructor; intros; subst; reflexivity);
      try (intros a t Hat i; destruct (tagged_elem a t Hat i) as (_ & E & _); rewrite E; reflexivity).
    destruct (fst _) as [[? ?] ?]. reflexivity.
  - unfold einsum_value. rewrite <- (Nat.mul_1_r (prod _)). apply bounded_nested. intros e. unfold term, product.
    revert ops Hl. induction Ha as [|a t arrays ts Hat Ha IH]; intros [|ix ops] Hl; try discriminate; cbn [map combine fold_right fst snd length].
    { split; cbn; auto. }
    change (list_sum (es_roundings t :: map es_roundings ts)) with (es_roundings t + list_sum (map es_roundings ts)).
    replace (es_roundings t + list_sum (map es_roundings ts) + S (length ops))
      with (S (es_roundings t) + (list_sum (map es_roundings ts) + length ops)) by lia.
    apply (bounded_mul (S (es_roundings t)) 1 (list_sum (map es_roundings ts) + length ops) 1);
      [exact (proj2 (proj2 (tagged_elem a t Hat _)))|]. apply IH. cbn in Hl. lia.
Qed.

Lemma tagged_dot (a b : arr F) t u la ra o : approximates v eps eta a t -> approximates v eps eta b u ->
  ordered (@tensordot_value _ tracked_scalar (tagged t) (tagged u) la ra o)
  /\ fst (@tensordot_value _ tracked_scalar (tagged t) (tagged u) la ra o)
     = (tensordot_value (es_value t) (es_value u) la ra o, tensordot_value (es_size t) (es_size u) la ra o,
        tensordot_value (es_padded t) (es_padded u) la ra o)
  /\ bounded (S (es_roundings t) + S (es_roundings u)) (prod (axis_lengths (a_shape (es_value t)) la))
       (@tensordot_value _ tracked_scalar (tagged t) (tagged u) la ra o).
Proof.
  intros Ht Hu. pose proof (tagged_elem a t Ht) as Et. pose proof (tagged_elem b u Hu) as Eu.
  destruct Ht as (St1 & St2 & St3 & _), Hu as (Su1 & Su2 & Su3 & _).
  assert (S1 : a_shape (tagged t) = a_shape a) by (unfold tagged; rewrite array_of_shape; auto).
  assert (S2 : a_shape (tagged u) = a_shape b) by (unfold tagged; rewrite array_of_shape; auto).
  unfold tensordot_value. rewrite S1, S2, St1, Su1, St2, Su2, St3, Su3. split; [|split].
  - refine (@sum_over_rel tracked unit tracked_scalar unit_scalar (fun x _ => ordered x) (closed_relation _ ordered_closed) _ _ (fun _ => tt) _).
    intros z. apply ordered_closed; [apply Et|apply Eu].
  - match goal with |- fst ?x = (?y, ?m, ?p) => assert (H1 : fst (fst (fst x)) = y); [|assert (H2 : snd (fst (fst x)) = m); [|assert (H3 : snd (fst x) = p)]] end.
    4:{ match goal with |- fst ?x = _ => destruct x as [[[? ?] ?] ?] end. cbn [fst snd] in *. congruence. }
    + apply (@sum_over_rel tracked Qc tracked_scalar Qc_scalar (fun x y => fst (fst (fst x)) = y)); [constructor; intros; subst; reflexivity|].
      intros z. match goal with |- fst (fst (fst (smul (elem _ ?i) (elem _ ?j)))) = _ => destruct (Et i) as (_ & E1 & _), (Eu j) as (_ & E2 & _) end.
      cbn [smul tracked_scalar]. cbn. rewrite E1, E2. reflexivity.
    + apply (@sum_over_rel tracked Qc tracked_scalar Qc_scalar (fun x y => snd (fst (fst x)) = y)); [constructor; intros; subst; reflexivity|].
      intros z. match goal with |- snd (fst (fst (smul (elem _ ?i) (elem _ ?j)))) = _ => destruct (Et i) as (_ & E1 & _), (Eu j) as (_ & E2 & _) end.
      cbn [smul tracked_scalar]. cbn. rewrite E1, E2. reflexivity.
    + apply (@sum_over_rel tracked Qc tracked_scalar Qc_scalar (fun x y => snd (fst x) = y)); [constructor; intros; subst; reflexivity|].
      intros z. match goal with |- snd (fst (smul (elem _ ?i) (elem _ ?j))) = _ => destruct (Et i) as (_ & E1 & _), (Eu j) as (_ & E2 & _) end.
      cbn [smul tracked_scalar]. cbn. rewrite E1, E2. reflexivity.
  - rewrite <- (Nat.mul_1_r (prod _)). apply bounded_sum_over. intros z.
    apply (bounded_mul (S (es_roundings t)) 1 (S (es_roundings u)) 1); [apply Et|apply Eu].
Qed.

(** Arrays as given approximate themselves. *)
Lemma given_elem {B} {Sb : Scalar B} (g : F -> B) a i : wf a -> in_bounds (a_shape a) i = true -> elem (amap g a) i = g (elem a i).
Proof.
  intros Wa Hi. apply wf_readable in Wa as [_ Wg]. destruct (Wg i Hi) as (x & Ex). unfold elem. rewrite a_get_amap, Ex. reflexivity.
Qed.

Lemma outcome_approximates x size arrays ts ops out : length arrays = length ops -> Forall2 (approximates v eps eta) arrays ts ->
  @outcome_related F tracked tracked_scalar (tracks v eps eta) x size arrays (map tagged ts) ops out ->
  (x = Panic /\ blocked_in size (combine arrays ops) out)
  \/ (~ blocked_in size (combine arrays ops) out
      /\ exists r, x = Ok r /\ wf r /\ approximates v eps eta r (estimated_sum size ts ops out)).
Proof.
  intros Hl Ha [H|[Hb (r & f & E & Hr & H)]]; [left; auto|right]. split; auto. exists r. split; auto.
  split; [eapply holds_wf; eauto|]. pose proof (proj1 Hr) as Sr.
  unfold approximates, estimated_sum. cbn [es_value es_size es_padded es_roundings]. rewrite !array_of_shape.
  repeat (split; [congruence|]). intros o Ho. rewrite Sr in Ho. cbv zeta. rewrite !array_of_elem by auto.
  rewrite (holds_elem _ _ _ _ Hr Ho). destruct (tagged_sum size arrays ts ops out o Ha Hl) as (T1 & T2 & T3).
  apply (tracked_reads (f o) _ _ _ _ _ T1 T2 (H o Ho)). eexists _, _. split; [exact T3|]. lia.
Qed.

End Chain.

(** ** The theorems *)

(** An array that no operation has been applied to yet approximates itself with no error. *)
Theorem arrays_approximate_themselves :
  forall (F : Type) (Sf : Scalar F) (v : F -> option Qc) (eps eta : Qc) (a : arr F), wf a -> approximates v eps eta a (as_given v a).
Proof.
  intros F Sf v eps eta a Wa. unfold approximates, as_given. cbn [es_value es_size es_padded es_roundings].
  repeat (split; [reflexivity|]). intros i Hi. cbv zeta. rewrite !given_elem by auto. set (x := elem a i). clearbody x. split.
  - unfold padded_of, magnitude_of. split; [apply Qcle_refl|].
    assert (P : (0 <= Qcabs (value_of v x))%Qc) by apply Qcabs_nonneg.
    split; [|right]; [rewrite <- (Qcplus_0_l (Qcabs (value_of v x))) at 1|rewrite <- (Qcplus_0_r 1) at 1]; apply Qcplus_le_compat; auto using one_le, Qcle_refl.
  - destruct (v x) as [q|] eqn:E; [right|left; auto]. exists q. split; auto. unfold value_of. rewrite E. unfold moved_by.
    cbn [grow]. replace (Qcabs (q - q)) with 0%Qc; [|replace (q - q)%Qc with 0%Qc by ring; symmetry; apply abs_zero].
    match goal with |- (0 <= ?x)%Qc => replace x with 0%Qc by ring end. apply Qcle_refl.
Qed.
Print Assumptions arrays_approximate_themselves.

(** If the operands approximate some arrays, then the result approximates the Einstein sum of these. *)
Theorem einsum_of_approximations :
  forall (F : Type) (Sf : Scalar F) (v : F -> option Qc) (eps eta : Qc), rounding v eps eta ->
  forall h lay s arrays ts ops out size, hash_ok h -> backend_runs lay -> fused_rounds v eps eta lay ->
    call_ok s (map (@a_shape F) arrays) ops out size -> Forall wf arrays -> Forall2 (approximates v eps eta) arrays ts ->
    let result_approximates x :=
      (x = Panic /\ blocked_in size (combine arrays ops) out)
      \/ (~ blocked_in size (combine arrays ops) out
          /\ exists r, x = Ok r /\ wf r /\ approximates v eps eta r (estimated_sum size ts ops out)) in
    result_approximates (einsum h lay s arrays)
    /\ forall strategy, strategy = Naive \/ strategy = Reverse ->
       result_approximates (do p <- einsum_path_fn h s arrays strategy; contract_operands lay p arrays).
Proof.
  intros F Sf v eps eta HF h lay s arrays ts ops out size Hh Hl Hfu Hc Hw Ht result_approximates.
  apply (tracks_fused_rounds v eps eta HF) in Hfu.
  assert (Hz : Forall2 (related_arrays (tracks v eps eta)) arrays (map tagged ts)).
  { clear - Ht Hw. induction Ht as [|a t arrays ts Hat Ht IH]; cbn [map]; inversion Hw; constructor; auto. apply tagged_tracks; auto. }
  assert (Hn : length arrays = length ops).
  { destruct Hc as (_ & _ & Hs). apply Forall2_len in Hs. rewrite map_length in Hs. auto. }
  split.
  - apply (outcome_approximates v eps eta HF); auto.
    apply (@einsum_related _ _ _ tracked_scalar _ (tracks_relation v eps eta HF) tracked_semiring h lay Hh Hl); auto.
  - intros strategy Hst. apply (outcome_approximates v eps eta HF); auto.
    apply (@compile_and_run_related _ _ _ tracked_scalar _ (tracks_relation v eps eta HF) tracked_semiring h lay Hh Hl); auto.
Qed.
Print Assumptions einsum_of_approximations.

(** With three significant bits: 3 * 3 + 1 * 1 comes out as 8, because both 9 and 8 + 1 are rounded to 8, and the next call
    rounds 8 + 5 to 12. The exact value is 15. *)
Example einsum_chain_case :
  let a := farr tiny [2] [3; 1]%Z in
  let b := farr tiny [2; 2] [3; 1; 1; 2]%Z in
  let c := farr tiny [2] [1; 1]%Z in
  let size := size_fn (combine (chars "ij") [2; 2]) in
  let ts := [as_given f_value a; as_given f_value b] in
  let t := estimated_sum size ts [chars "i"; chars "ij"] (chars "j") in
  let u := estimated_sum size [t; as_given f_value c] [chars "j"; chars "j"] [] in
  call_ok (chars "i,ij->j") (map (@a_shape (float tiny)) [a; b]) [chars "i"; chars "ij"] (chars "j") size
  /\ call_ok (chars "j,j->") [[2]; [2]] [chars "j"; chars "j"] [] size
  /\ Forall wf [a; b; c] /\ Forall2 (approximates f_value (f_eps tiny) (f_eta tiny)) [a; b] ts
  /\ (es_roundings t, es_roundings u) = (2, 4)
  /\ (do r <- einsum id_hash (plain_backend (A := float tiny)) (chars "i,ij->j") [a; b];
      do l <- a_iter r; Ok (map (@proj1_sig _ _) l)) = Ok (map (fun z => proj1_sig (f_of tiny z 0)) [8; 5]%Z)
  /\ (do r <- einsum id_hash (plain_backend (A := float tiny)) (chars "i,ij->j") [a; b];
      do q <- einsum id_hash (plain_backend (A := float tiny)) (chars "j,j->") [r; c];
      do l <- a_iter q; Ok (map (@proj1_sig _ _) l)) = Ok [proj1_sig (f_of tiny 12 0)]
  /\ elem (es_value u) [] = z2q 15.
Proof.
  cbv zeta. split; [apply check_call_ok; check_call_tac|]. split; [apply check_call_ok; check_call_tac|].
  split; [repeat (constructor; [apply wf_b_ok; reflexivity|]); constructor|].
  split; [repeat (constructor; [apply arrays_approximate_themselves, wf_b_ok; reflexivity|]); constructor|].
  split; [reflexivity|]. do 2 (split; [vm_compute; reflexivity|]). apply Qc_is_canon. vm_compute. reflexivity.
Qed.

(** The same of tensordot. *)
Theorem tensordot_of_approximations :
  forall (F : Type) (Sf : Scalar F) (v : F -> option Qc) (eps eta : Qc), rounding v eps eta ->
  forall lay (a b : arr F) t u la ra, backend_runs lay -> fused_rounds v eps eta lay -> wf a -> wf b -> axes_fit a b la ra ->
    approximates v eps eta a t -> approximates v eps eta b u ->
    exists r, tensordot lay a b la ra = Ok r /\ wf r /\ approximates v eps eta r (estimated_dot t u la ra).
Proof.
  intros F Sf v eps eta HF lay a b t u la ra Hl Hfu Wa Wb (Hn & Ha & Hb & He) Ht Hu.
  apply (tracks_fused_rounds v eps eta HF) in Hfu.
  destruct (@tensordot_related _ _ lay Hl _ tracked_scalar _ (tracks_relation v eps eta HF) tracked_semiring Hfu
              a b (tagged t) (tagged u) la ra) as (r & w & E & Hr & Hw); auto using tagged_tracks.
  { rewrite He. auto. }
  pose proof (proj1 Ht) as St. pose proof (proj1 Hu) as Su.
  exists r. split; auto. split; [eapply holds_wf; eauto|]. pose proof (proj1 Hr) as Sr.
  unfold approximates, estimated_dot. cbn [es_value es_size es_padded es_roundings]. rewrite !array_of_shape. unfold dot_shape. rewrite St, Su.
  repeat (split; [congruence|]). intros o Ho. rewrite Sr in Ho. cbv zeta. rewrite !array_of_elem by auto.
  rewrite (holds_elem _ _ _ _ Hr Ho). destruct (tagged_dot v eps eta a b t u la ra o Ht Hu) as (T1 & T2 & T3).
  assert (S1 : a_shape (tagged t) = a_shape a) by (unfold tagged; rewrite array_of_shape; auto).
  assert (S2 : a_shape (tagged u) = a_shape b) by (unfold tagged; rewrite array_of_shape; auto).
  specialize (Hw o Ho). rewrite (paired_value_sum tracked_semiring) in Hw by (rewrite ?S1, ?S2; auto).
  apply (tracked_reads v eps eta HF (w o) _ _ _ _ _ T1 T2 Hw). eexists _, _. split; [exact T3|]. rewrite St. lia.
Qed.
Print Assumptions tensordot_of_approximations.

(** The same calls with tensordot. *)
Example tensordot_chain_case :
  let a := farr tiny [2] [3; 1]%Z in
  let b := farr tiny [2; 2] [3; 1; 1; 2]%Z in
  let c := farr tiny [2] [1; 1]%Z in
  let t := estimated_dot (as_given f_value a) (as_given f_value b) [0] [0] in
  wf a /\ wf b /\ axes_fit a b [0] [0] /\ (es_roundings t, es_roundings (estimated_dot t (as_given f_value c) [0] [0])) = (2, 4)
  /\ (do r <- tensordot (plain_backend (A := float tiny)) a b [0] [0];
      do q <- tensordot (plain_backend (A := float tiny)) r c [0] [0];
      do l <- a_iter q; Ok (map (@proj1_sig _ _) l)) = Ok [proj1_sig (f_of tiny 12 0)].
Proof.
  cbv zeta. do 2 (split; [apply wf_b_ok; reflexivity|]). split; [split; [reflexivity|split; [axes_tac|split; [axes_tac|reflexivity]]]|].
  split; [reflexivity|]. vm_compute. reflexivity.
Qed.

(** ** Nested tensordots again *)

(** The contracted positions of all calls, added up [lib.rs:269-294]. *)
Fixpoint dots_steps {A} (t : dots A) : nat :=
  match t with Given _ => 0 | Dot x y la _ => dots_steps x + dots_steps y + prod (axis_lengths (dots_shape x) la) end.

(** What nested calls approximate. *)
Definition dots_estimate {F} (v : F -> option Qc) (t : dots F) : estimate :=
  mkEstimate (dots_steps t) (exact_dots (dots_map (value_of v) t)) (exact_dots (dots_map (magnitude_of v) t))
    (exact_dots (dots_map (padded_of v) t)).

(** The roundings of nested calls add up: C84 counts the products in an element when everything is multiplied out, whose
    number is the product of the contracted lengths, but their sum is enough. *)
Theorem nested_dots_roundings_add_up :
  forall (F : Type) (Sf : Scalar F) (v : F -> option Qc) (eps eta : Qc), rounding v eps eta ->
  forall lay t, backend_runs lay -> fused_rounds v eps eta lay -> dots_fit t ->
    exists r, run_dots lay t = Ok r /\ wf r /\ a_shape r = dots_shape t /\ approximates v eps eta r (dots_estimate v t).
Proof.
  intros F Sf v eps eta HF lay t Hl Hfu. induction t as [a|x IHx y IHy la ra]; intros Hfit.
  { exists a. split; auto. split; auto. split; auto. apply (arrays_approximate_themselves F Sf v eps eta a Hfit). }
  pose proof Hfit as (Fx & Fy & Hax). destruct (IHx Fx) as (a & Ea & Wa & Sa & Ra). destruct (IHy Fy) as (b & Eb & Wb & Sb & Rb).
  destruct (tensordot_of_approximations F Sf v eps eta HF lay a b (dots_estimate v x) (dots_estimate v y) la ra Hl Hfu Wa Wb)
    as (r & E & Wr & Rr); auto.
  { unfold axes_fit. rewrite Sa, Sb. exact Hax. }
  assert (Ee : estimated_dot (dots_estimate v x) (dots_estimate v y) la ra = dots_estimate v (Dot x y la ra)).
  { unfold estimated_dot, dots_estimate. cbn [es_roundings es_value es_size es_padded dots_steps dots_map exact_dots].
    unfold dot_shape. rewrite !exact_shape, !dots_shape_map. reflexivity. }
  rewrite Ee in Rr. exists r. cbn [run_dots]. rewrite Ea, Eb. cbn [rbind]. split; auto. split; auto. split; auto.
  destruct Rr as (Sr & _). cbn [es_value dots_estimate] in Sr. rewrite exact_shape, dots_shape_map in Sr. auto.
Qed.
Print Assumptions nested_dots_roundings_add_up.

(** Products of a row, three two-by-two matrices and a column: eight roundings instead of the nineteen of C84. *)
Example nested_steps_case :
  let m := Given (farr tiny [2; 2] [1; 2; 1; 1]%Z) in
  let x := Given (farr tiny [2] [3; 1]%Z) in
  let t := Dot (Dot (Dot (Dot x m [0] [0]) m [0] [0]) m [0] [0]) x [0] [0] in
  dots_fit t /\ dots_steps t = 8 /\ dots_arrays t + dots_terms t - 2 = 19
  /\ (do r <- run_dots (plain_backend (A := float tiny)) t; do l <- a_iter r; Ok (map (@proj1_sig _ _) l)) = Ok [proj1_sig (f_of tiny 112 0)].
Proof.
  cbv zeta. split; [dots_tac|]. split; [reflexivity|]. split; [reflexivity|]. vm_compute. reflexivity.
Qed.

(** ** Floating-point numbers *)

Theorem float_einsum_of_approximations :
  forall f h (lay : backend (float f)) s arrays ts ops out size, hash_ok h -> float_backend lay ->
    call_ok s (map (@a_shape (float f)) arrays) ops out size -> Forall wf arrays ->
    Forall2 (approximates f_value (f_eps f) (f_eta f)) arrays ts ->
    let result_approximates x :=
      (x = Panic /\ blocked_in size (combine arrays ops) out)
      \/ (~ blocked_in size (combine arrays ops) out
          /\ exists r, x = Ok r /\ wf r /\ approximates f_value (f_eps f) (f_eta f) r (estimated_sum size ts ops out)) in
    result_approximates (einsum h lay s arrays)
    /\ forall strategy, strategy = Naive \/ strategy = Reverse ->
       result_approximates (do p <- einsum_path_fn h s arrays strategy; contract_operands lay p arrays).
Proof.
  intros f h lay s arrays ts ops out size Hh Hl Hc Hw Ht.
  apply (einsum_of_approximations (float f) (float_scalar f) f_value (f_eps f) (f_eta f) (float_rounding f)); auto.
  - apply Hl.
  - apply float_fused_rounds; auto.
Qed.
Print Assumptions float_einsum_of_approximations.

Theorem float_nested_dots_roundings_add_up :
  forall f (lay : backend (float f)) t, float_backend lay -> dots_fit t ->
    exists r, run_dots lay t = Ok r /\ wf r /\ a_shape r = dots_shape t
      /\ approximates f_value (f_eps f) (f_eta f) r (dots_estimate f_value t).
Proof.
  intros f lay t Hl Ht. apply (nested_dots_roundings_add_up (float f) (float_scalar f) f_value (f_eps f) (f_eta f) (float_rounding f)); auto.
  - apply Hl.
  - apply float_fused_rounds; auto.
Qed.
Print Assumptions float_nested_dots_roundings_add_up.
