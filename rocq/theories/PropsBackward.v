(** Backward error (C70): a result computed with rounding is the exact result for slightly different
    terms and, if some operand has every label, for a slightly different operand. *)
From Verif Require Import Base BaseFacts NDArray Validation Optimizers Path Api Spec ParserFacts ValidationMain SumFacts
  ArrayFacts PathFacts EinsumMain EinsumProps RelationFacts AlgebraFacts TensordotMain RoundFacts RangeFacts FloatFacts FloatMain BackwardFacts
  Examples PropsRounding PropsFloat.
From Coq Require Import Lia QArith Qcanon Qcabs.
From Coq Require String.
Import String.StringSyntax.
Local Open Scope string_scope.
Local Open Scope list_scope.
Local Open Scope nat_scope.

(** An array that [einsum], or a compiled path, returns. *)
Definition returned_by {F} {Sf : Scalar F} (h : hash_order) (lay : backend F) (s : list char) (arrays : list (arr F))
    (r : arr F) : Prop :=
  einsum h lay s arrays = Ok r
  \/ exists strategy p, (strategy = Naive \/ strategy = Reverse)
       /\ einsum_path_fn h s arrays strategy = Ok p /\ contract_operands lay p arrays = Ok r.

(** With [n] operands and [t] summed index combinations: how far a term may be moved, relative to
    itself, and what underflow may add. *)
Definition roundings (size : char -> nat) (ops : list (list char)) (out : list char) : nat :=
  length ops + prod (map size (summed_labels ops out)) - 2.
Definition moved (eps : Qc) (size : char -> nat) (ops : list (list char)) (out : list char) : Qc :=
  (grow eps (roundings size ops out) - 1)%Qc.
Definition underflow {F} (v : F -> option Qc) (eps eta : Qc) (size : char -> nat) (arrays : list (arr F)) ops out o : Qc :=
  ((grow eta (roundings size ops out) - 1)
   * (grow eps (roundings size ops out) * einsum_value size (map (amap (padded_of v)) arrays) ops out o))%Qc.

Section Backward.
Context {F : Type} {Sf : Scalar F}.
Variables (v : F -> option Qc) (eps eta : Qc).
Hypothesis HF : rounding v eps eta.

Lemma returned_close h lay s arrays ops out size r : hash_ok h -> backend_runs lay -> fused_rounds v eps eta lay ->
  call_ok s (map (@a_shape F) arrays) ops out size -> Forall wf arrays -> returned_by h lay s arrays r ->
  a_shape r = map size out
  /\ forall o, in_bounds (map size out) o = true -> close v eps eta size arrays ops out o (elem r o).
Proof.
  intros Hh Hl Hfu Hc Hw Hr.
  destruct (einsum_rounding_error F Sf v eps eta HF h lay s arrays ops out size Hh Hl Hfu Hc Hw) as [H1 H2].
  assert (H : exists r' f, Ok r = Ok r' /\ holds r' (map size out) f
               /\ forall o, in_bounds (map size out) o = true -> close v eps eta size arrays ops out o (f o)).
  { destruct Hr as [E|(strategy & p & Hst & E1 & E2)].
    - rewrite E in H1. destruct H1 as [[H _]|[_ H]]; [discriminate|auto].
    - specialize (H2 strategy Hst). rewrite E1 in H2. cbn [rbind] in H2. rewrite E2 in H2.
      destruct H2 as [[H _]|[_ H]]; [discriminate|auto]. }
  destruct H as (r' & f & [= <-] & Hh' & Hcl). split; [apply Hh'|].
  intros o Ho. rewrite (holds_elem _ _ _ _ Hh' Ho). auto.
Qed.

Lemma moved_nonneg size ops out : (0 <= moved eps size ops out)%Qc.
Proof. unfold moved. apply -> Qcle_minus_iff. apply grow_ge, (rnd_eps _ _ _ HF). Qed.

Lemma underflow_nonneg size arrays ops out o : (0 <= underflow v eps eta size arrays ops out o)%Qc.
Proof.
  unfold underflow. apply Qcle_0_mult; [|apply Qcle_0_mult].
  - apply -> Qcle_minus_iff. apply grow_ge, (rnd_eta _ _ _ HF).
  - apply grow_nonneg, (rnd_eps _ _ _ HF).
  - apply padded_nonneg.
Qed.

(** How far the terms of the element at [o] are moved, each in the direction of its sign. *)
Definition shift size (arrays : list (arr F)) ops out (r : arr F) o : Qc :=
  part (moved eps size ops out) (einsum_value size (map (amap (magnitude_of v)) arrays) ops out o)
    (value_of v (elem r o)) (einsum_value size (values v arrays) ops out o).

Lemma shift_ok h lay s arrays ops out size r : hash_ok h -> backend_runs lay -> fused_rounds v eps eta lay ->
  call_ok s (map (@a_shape F) arrays) ops out size -> Forall wf arrays -> returned_by h lay s arrays r ->
  forall o, in_bounds (map size out) o = true -> v (elem r o) <> None ->
  (Qcabs (shift size arrays ops out r o) <= moved eps size ops out)%Qc
  /\ (Qcabs (value_of v (elem r o)
             - nested_sum size (summed_labels ops out)
                 (fun e => term (values v arrays) ops e
                           * (1 + shift size arrays ops out r o * qsgn (term (values v arrays) ops e))) (bind out o))
      <= underflow v eps eta size arrays ops out o)%Qc.
Proof.
  intros Hh Hl Hfu Hc Hw Hr o Ho Hv.
  destruct (returned_close h lay s arrays ops out size r Hh Hl Hfu Hc Hw Hr) as [_ Hcl].
  destruct (Hcl o Ho) as [E|(q & Eq & Hq)]; [contradiction|]. unfold shift.
  assert (Ev : value_of v (elem r o) = q) by (unfold value_of; rewrite Eq; auto). rewrite Ev.
  rewrite <- spread_terms. apply spread; auto using moved_nonneg, underflow_nonneg, magnitude_nonneg.
Qed.

End Backward.

(** A computed element is the exact Einstein sum of terms each moved by a small factor. *)
Theorem einsum_moves_terms :
  forall (F : Type) (Sf : Scalar F) (v : F -> option Qc) (eps eta : Qc), rounding v eps eta ->
  forall h lay s arrays ops out size r, hash_ok h -> backend_runs lay -> fused_rounds v eps eta lay ->
    call_ok s (map (@a_shape F) arrays) ops out size -> Forall wf arrays -> returned_by h lay s arrays r ->
    forall o q, in_bounds (map size out) o = true -> v (elem r o) = Some q ->
    exists factor : env -> Qc,
      (forall e, Qcabs (factor e - 1) <= moved eps size ops out)%Qc
      /\ (Qcabs (q - nested_sum size (summed_labels ops out)
                       (fun e => term (values v arrays) ops e * factor e) (bind out o))
          <= underflow v eps eta size arrays ops out o)%Qc.
Proof.
  intros F Sf v eps eta HF h lay s arrays ops out size r Hh Hl Hfu Hc Hw Hr o q Ho Hq.
  destruct (shift_ok v eps eta HF h lay s arrays ops out size r Hh Hl Hfu Hc Hw Hr o Ho) as [H1 H2]; [congruence|].
  exists (fun e => 1 + shift v eps size arrays ops out r o * qsgn (term (values v arrays) ops e))%Qc. split.
  - intros e. match goal with |- (Qcabs ?x <= _)%Qc => replace x with (shift v eps size arrays ops out r o
      * qsgn (term (values v arrays) ops e))%Qc by ring end.
    rewrite Qcabs_Qcmult, abs_qsgn, Qcmult_1_r. auto.
  - replace q with (value_of v (elem r o)) by (unfold value_of; rewrite Hq; auto). exact H2.
Qed.
Print Assumptions einsum_moves_terms.

(** If an operand has every label, then the whole result is the exact Einstein sum of operands that
    differ only in that one, whose elements are moved by a small factor each. *)
Theorem einsum_is_backward_stable :
  forall (F : Type) (Sf : Scalar F) (v : F -> option Qc) (eps eta : Qc), rounding v eps eta ->
  forall h lay s pre x post pops ix qops out size r, hash_ok h -> backend_runs lay -> fused_rounds v eps eta lay ->
    let arrays := pre ++ x :: post in
    let ops := pops ++ ix :: qops in
    length pre = length pops -> incl (concat ops) ix ->
    call_ok s (map (@a_shape F) arrays) ops out size -> Forall wf arrays -> returned_by h lay s arrays r ->
    (forall o, in_bounds (map size out) o = true -> v (elem r o) <> None) ->
    exists x' : arr Qc, wf x' /\ a_shape x' = a_shape x
      /\ (forall idx, in_bounds (a_shape x) idx = true ->
            Qcabs (elem x' idx - value_of v (elem x idx)) <= moved eps size ops out * Qcabs (value_of v (elem x idx)))%Qc
      /\ (forall o, in_bounds (map size out) o = true ->
            Qcabs (value_of v (elem r o) - einsum_value size (values v pre ++ x' :: values v post) ops out o)
            <= underflow v eps eta size arrays ops out o)%Qc.
Proof.
  intros F Sf v eps eta HF h lay s pre x post pops ix qops out size r Hh Hl Hfu arrays ops Hlen Hix Hc Hw Hr Hv.
  set (T := term (values v arrays) ops). set (d := shift v eps size arrays ops out r).
  set (f := fun idx => let e := bind ix idx in
    (value_of v (elem x idx) * (if in_bounds (map size out) (map e out) then 1 + d (map e out) * qsgn (T e) else 1))%Qc).
  assert (Hx : wf x) by (rewrite Forall_forall in Hw; apply Hw; unfold arrays; apply in_or_app; simpl; auto).
  set (x' := mk_c (a_shape x) (map f (indices (a_shape x)))).
  assert (Hx' : holds x' (a_shape x) f) by apply holds_mk_c.
  assert (Hd : forall o, in_bounds (map size out) o = true -> (Qcabs (d o) <= moved eps size ops out)%Qc).
  { intros o Ho. apply (shift_ok v eps eta HF h lay s arrays ops out size r Hh Hl Hfu Hc Hw Hr o Ho). auto. }
  exists x'. split; [eapply holds_wf; eauto|]. split; [reflexivity|]. split.
  - intros idx Hi. rewrite (holds_elem _ _ _ _ Hx' Hi). unfold f. cbv zeta.
    destruct (in_bounds (map size out) (map (bind ix idx) out)) eqn:Ei.
    + match goal with |- (Qcabs ?y <= _)%Qc => replace y with
        (d (map (bind ix idx) out) * (qsgn (T (bind ix idx)) * value_of v (elem x idx)))%Qc by ring end.
      rewrite !Qcabs_Qcmult, abs_qsgn, Qcmult_1_l. apply Qcmult_le_compat_r; auto. apply Qcabs_nonneg.
    + match goal with |- (Qcabs ?y <= _)%Qc => replace y with 0%Qc by ring end.
      apply Qcle_0_mult; [apply (moved_nonneg v eps eta HF)|apply Qcabs_nonneg].
  - intros o Ho.
    destruct (shift_ok v eps eta HF h lay s arrays ops out size r Hh Hl Hfu Hc Hw Hr o Ho (Hv o Ho)) as [_ H].
    replace (einsum_value size (values v pre ++ x' :: values v post) ops out o)
      with (nested_sum size (summed_labels ops out) (fun e => T e * (1 + d o * qsgn (T e)))%Qc (bind out o)); [exact H|].
    unfold einsum_value. apply nested_sum_ext. intros e He1 He2. symmetry.
    assert (Hc' := Hc). destruct Hc' as (_ & [No Hio] & Hsh).
    assert (Eo : map e out = o).
    { rewrite <- (map_bind out o No) at 1.
      - apply map_ext_in. intros c Hco. rewrite He1; auto. rewrite summed_labels_In. tauto.
      - apply in_bounds_length in Ho. rewrite map_length in Ho. auto. }
    assert (Er : in_range size (concat ops) e).
    { intros c Hci. destruct (in_dec N.eq_dec c out) as [Hi|Hni].
      - rewrite He1 by (rewrite summed_labels_In; tauto). apply in_range_bind; auto.
      - apply He2. apply summed_labels_In. auto. }
    assert (Ex : a_shape x = map size ix).
    { destruct (linear_value size pre post x ops Hsh) as (pops' & ix' & qops' & Eops & Hl' & ->). f_equal.
      transitivity (nth (length pre) ops []).
      - rewrite Eops, Hl', app_nth2, Nat.sub_diag; auto.
      - unfold ops. rewrite Hlen, app_nth2, Nat.sub_diag; auto. }
    assert (Hb : in_bounds (a_shape x) (map e ix) = true).
    { rewrite Ex. apply in_bounds_range. eapply in_range_incl; [|exact Er]. unfold ops. rewrite concat_app.
      apply incl_appr, incl_appl, incl_refl. }
    assert (Hag : agree (concat ops) (bind ix (map e ix)) e).
    { intros c Hci. apply bind_map. auto. }
    assert (ET : T (bind ix (map e ix)) = T e) by (apply term_dep; auto).
    assert (Eo' : map (bind ix (map e ix)) out = o).
    { rewrite <- Eo. apply map_ext_in. intros c Hci. apply Hag. auto. }
    assert (Ev : elem (amap (value_of v) x) (map e ix) = value_of v (elem x (map e ix))).
    { pose proof (wf_holds x Hx) as (_ & _ & Hg). unfold elem. rewrite a_get_amap, (Hg _ Hb). reflexivity. }
    assert (Lp : length (values v pre) = length pops) by (unfold values; rewrite map_length; auto).
    assert (ETe : T e = (term (values v pre) pops e * (value_of v (elem x (map e ix)) * term (values v post) qops e))%Qc).
    { unfold T, arrays, ops, values. rewrite map_app. cbn [map]. 
      rewrite (term_app Qc_semiring) by (rewrite map_length; auto). rewrite term_cons, Ev. reflexivity. }
    unfold ops. rewrite (term_app Qc_semiring), term_cons by auto. rewrite (holds_elem _ _ _ _ Hx' Hb).
    unfold f. cbv zeta. rewrite ET, Eo', Ho.
    generalize (1 + d o * qsgn (T e))%Qc. intros g. rewrite ETe.
    change (@smul Qc Qc_scalar) with Qcmult. ring.
Qed.
Print Assumptions einsum_is_backward_stable.

(** The matrix and the vector of [rounding_case]: the matrix has every label, the exact products are 37 and
    45, the computed ones 32 and 40, and each term may be moved by (9/8)^3 - 1. *)
Example backward_case :
  let m := carr [2; 3] [1; 3; 1; 5; 5; -5]%Z in
  let x := carr [3] [9; 7; 7]%Z in
  let ops := [] ++ chars "ij" :: [chars "j"] in
  let size := size_fn (combine (chars "ij") [2; 3]) in
  @rounding _ cut_scalar cut_value eighth 0
  /\ @fused_rounds _ cut_scalar cut_value eighth 0 (@plain_backend _ cut_scalar)
  /\ call_ok (chars "ij,j->i") (map (@a_shape (option Z)) ([] ++ m :: [x])) ops (chars "i") size
  /\ Forall wf ([] ++ m :: [x]) /\ incl (concat ops) (chars "ij")
  /\ (exists r, @returned_by _ cut_scalar id_hash (@plain_backend _ cut_scalar) (chars "ij,j->i") ([] ++ m :: [x]) r
        /\ map (@elem _ cut_scalar r) (indices [2]) = [Some 32%Z; Some 40%Z])
  /\ moved eighth size ops (chars "i") = Q2Qc (217 # 512)
  /\ map (einsum_value size (values cut_value ([] ++ m :: [x])) ops (chars "i")) (indices [2]) = [z2q 37; z2q 45].
Proof.
  cbv zeta. split; [apply cut_rounding|]. split; [left; reflexivity|].
  split; [apply check_call_ok; check_call_tac|]. split; [apply wfs_b_ok; reflexivity|].
  split; [intros c; vm_compute; tauto|]. split; [|split].
  - eexists. split; [left; vm_compute; reflexivity|vm_compute; reflexivity].
  - apply Qc_is_canon. vm_compute. reflexivity.
  - vm_compute indices. cbn [map]. f_equal.
Qed.

(** ** Outer products *)

(** Without an operand that has every label the result need not be the exact Einstein sum of any operands,
    however far they may be moved: a computed outer product need not have rank one. *)
Theorem backward_stability_of_all_calls_refuted :
  ~ (forall (F : Type) (Sf : Scalar F) (v : F -> option Qc) (eps : Qc), rounding v eps 0 ->
     forall h lay s (x y : arr F) ix iy out size r, hash_ok h -> backend_runs lay -> fused_rounds v eps 0 lay ->
       call_ok s (map (@a_shape F) [x; y]) [ix; iy] out size -> Forall wf [x; y] -> returned_by h lay s [x; y] r ->
       (forall o, in_bounds (map size out) o = true -> v (elem r o) <> None) ->
       exists x' y' : arr Qc, a_shape x' = a_shape x /\ a_shape y' = a_shape y
         /\ forall o, in_bounds (map size out) o = true ->
              value_of v (elem r o) = einsum_value size [x'; y'] [ix; iy] out o).
Proof.
  intros H.
  specialize (H (option Z) cut_scalar cut_value eighth cut_rounding id_hash (@plain_backend _ cut_scalar) (chars "i,j->ij")
    (carr [2] [3; 5]%Z) (carr [2] [7; 9]%Z) (chars "i") (chars "j") (chars "ij")
    (size_fn (combine (chars "ij") [2; 2])) (carr [2; 2] [20; 26; 32; 44]%Z)).
  destruct H as (x' & y' & _ & _ & H).
  - apply id_hash_ok'.
  - apply plain_backend_ok.
  - left. reflexivity.
  - apply check_call_ok. check_call_tac.
  - apply wfs_b_ok. reflexivity.
  - left. vm_compute. reflexivity.
  - intros o Ho. assert (Hin : In o (indices [2; 2])) by (apply indices_In; exact Ho).
    vm_compute in Hin. repeat destruct Hin as [<-|Hin]; try contradiction; vm_compute; discriminate.
  - pose proof (H [0; 0] eq_refl) as H1. pose proof (H [0; 1] eq_refl) as H2.
    pose proof (H [1; 0] eq_refl) as H3. pose proof (H [1; 1] eq_refl) as H4.
    assert (K : forall i j, @einsum_value Qc Qc_scalar (size_fn (combine (chars "ij") [2; 2])) [x'; y'] [chars "i"; chars "j"]
      (chars "ij") [i; j] = (elem x' [i] * elem y' [j])%Qc).
    { intros i j. transitivity (elem x' [i] * (elem y' [j] * 1))%Qc; [reflexivity|ring]. }
    rewrite K in H1, H2, H3, H4. clear K H.
    revert H1 H2 H3 H4. generalize (elem x' [0]) (elem x' [1]) (elem y' [0]) (elem y' [1]). intros a b c d H1 H2 H3 H4.
    assert (E : (z2q 20 * z2q 44 = z2q 26 * z2q 32)%Qc).
    { transitivity ((a * c) * (b * d))%Qc; [rewrite <- H1, <- H4; reflexivity|].
      transitivity ((a * d) * (b * c))%Qc; [ring|rewrite <- H2, <- H3; reflexivity]. }
    rewrite <- !z2q_mul in E. apply z2q_inj in E. discriminate.
Qed.
Print Assumptions backward_stability_of_all_calls_refuted.

(** ** Floating-point numbers *)

(** The same for IEEE floating-point numbers, whose sums, products and fused multiply-adds round to
    nearest. *)
Theorem float_einsum_is_backward_stable :
  forall f h (lay : backend (float f)) s pre x post pops ix qops out size r, hash_ok h -> float_backend lay ->
    let arrays := pre ++ x :: post in
    let ops := pops ++ ix :: qops in
    length pre = length pops -> incl (concat ops) ix ->
    call_ok s (map (@a_shape (float f)) arrays) ops out size -> Forall wf arrays -> returned_by h lay s arrays r ->
    (forall o, in_bounds (map size out) o = true -> f_value (elem r o) <> None) ->
    exists x' : arr Qc, wf x' /\ a_shape x' = a_shape x
      /\ (forall idx, in_bounds (a_shape x) idx = true ->
            Qcabs (elem x' idx - value_of f_value (elem x idx))
            <= moved (f_eps f) size ops out * Qcabs (value_of f_value (elem x idx)))%Qc
      /\ (forall o, in_bounds (map size out) o = true ->
            Qcabs (value_of f_value (elem r o) - einsum_value size (values f_value pre ++ x' :: values f_value post) ops out o)
            <= underflow f_value (f_eps f) (f_eta f) size arrays ops out o)%Qc.
Proof.
  intros f h lay s pre x post pops ix qops out size r Hh Hl arrays ops Hlen Hix Hc Hw Hr Hv.
  apply (einsum_is_backward_stable (float f) (float_scalar f) f_value (f_eps f) (f_eta f) (float_rounding f) h lay s
    pre x post pops ix qops out size r); auto.
  - apply Hl.
  - apply float_fused_rounds; auto.
Qed.
Print Assumptions float_einsum_is_backward_stable.

(** Three significant bits: 9 is rounded to 8, so 3 * 3 + 1 * 2 gives 10. *)
Example float_backward_case :
  let m := farr tiny [1; 2] [3; 1]%Z in
  let x := farr tiny [2] [3; 2]%Z in
  let ops := [] ++ chars "ij" :: [chars "j"] in
  let size := size_fn (combine (chars "ij") [1; 2]) in
  float_backend (plain_backend (A := float tiny))
  /\ call_ok (chars "ij,j->i") (map (@a_shape (float tiny)) ([] ++ m :: [x])) ops (chars "i") size
  /\ Forall wf ([] ++ m :: [x]) /\ incl (concat ops) (chars "ij")
  /\ (do r <- einsum id_hash (plain_backend (A := float tiny)) (chars "ij,j->i") ([] ++ m :: [x]);
      do l <- a_iter r; Ok (map f_value l)) = Ok [Some (of_Z 10)].
Proof.
  cbv zeta. split; [apply float_plain_backend_ok|]. split; [apply check_call_ok; check_call_tac|].
  split; [apply wfs_b_ok; reflexivity|]. split; [intros c; vm_compute; tauto|].
  vm_compute. reflexivity.
Qed.
