(** Floating-point runs (C52). The binary floating-point numbers of the standard library's [SpecFloat],
    which follows IEEE 754, satisfy the hypotheses of the rounding theorems, and more can be said of
    them: when no element overflows, and when the result is exact. *)
From Verif Require Import Base BaseFacts NDArray Validation Optimizers Path Api Spec ParserFacts ValidationMain SumFacts
  ArrayFacts EinsumMain EinsumProps RelationFacts TensordotMain RoundFacts RangeFacts FloatFacts FloatMain Examples
  PropsNear PropsRounding.
From Coq Require Import Lia ZArith QArith Qcanon Qcabs SpecFloat.
From Coq Require String.
Import String.StringSyntax.
Local Open Scope string_scope.
Local Open Scope list_scope.
Local Open Scope nat_scope.

(** ** Rounding *)

(** The arithmetic of every binary format satisfies the hypotheses of the rounding theorems: [f_eps] is
    [2 ^ - prec] and [f_eta] is half the smallest positive number. *)
Theorem float_arithmetic_rounds :
  forall f, @rounding (float f) (float_scalar f) f_value (f_eps f) (f_eta f)
    /\ fused_rounding (@f_value f) (f_eps f) (f_eta f) f_fma.
Proof. intros f. split; [apply float_rounding|apply float_fma_rounding]. Qed.
Print Assumptions float_arithmetic_rounds.

(** The constants of f64 and f32. *)
Example float_constants :
  f_eps f64 = pow2 (-53) /\ f_eta f64 = pow2 (-1075) /\ f_big f64 = pow2 1024
  /\ f_eps f32 = pow2 (-24) /\ f_eta f32 = pow2 (-150) /\ f_big f32 = pow2 128.
Proof. repeat split. Qed.

(** So a run over floating-point numbers is within the bound of C40 of the exact Einstein sum, or is an
    infinity or not-a-number. *)
Theorem float_einsum_error :
  forall f h (lay : backend (float f)) s arrays ops out size, hash_ok h -> float_backend lay ->
    call_ok s (map (@a_shape (float f)) arrays) ops out size -> Forall wf arrays ->
    let result_close x :=
      (x = Panic /\ blocked_in size (combine arrays ops) out)
      \/ (~ blocked_in size (combine arrays ops) out
          /\ exists r g, x = Ok r /\ holds r (map size out) g
               /\ forall o, in_bounds (map size out) o = true ->
                    close f_value (f_eps f) (f_eta f) size arrays ops out o (g o)) in
    result_close (einsum h lay s arrays)
    /\ forall strategy, strategy = Naive \/ strategy = Reverse ->
       result_close (do p <- einsum_path_fn h s arrays strategy; contract_operands lay p arrays).
Proof.
  intros f h lay s arrays ops out size Hh Hl Hc Hw.
  apply (einsum_rounding_error (float f) (float_scalar f) f_value (f_eps f) (f_eta f) (float_rounding f)); auto.
  - apply Hl.
  - apply float_fused_rounds; auto.
Qed.
Print Assumptions float_einsum_error.

Theorem float_tensordot_error :
  forall f (lay : backend (float f)) (a b : arr (float f)) la ra, float_backend lay -> wf a -> wf b ->
    length la = length ra -> axes_ok (length (a_shape a)) la -> axes_ok (length (a_shape b)) ra ->
    axis_lengths (a_shape a) la = axis_lengths (a_shape b) ra ->
    let kept := axis_lengths (a_shape a) (free_axes (length (a_shape a)) la)
                ++ axis_lengths (a_shape b) (free_axes (length (a_shape b)) ra) in
    exists r g, tensordot lay a b la ra = Ok r /\ holds r kept g
      /\ forall o, in_bounds kept o = true -> close_dot f_value (f_eps f) (f_eta f) a b la ra o (g o).
Proof.
  intros f lay a b la ra Hl. intros.
  apply (tensordot_rounding_error (float f) (float_scalar f) f_value (f_eps f) (f_eta f) (float_rounding f)); auto.
  - apply Hl.
  - apply float_fused_rounds; auto.
Qed.
Print Assumptions float_tensordot_error.

(** ** Overflow *)

(** If sums and products overflow only from [big] on, the operands all represent numbers and no sum is
    empty, then an element represents a number, and so is within the bound, whenever the largest value
    the roundings can make of the Einstein sum of one plus the absolute values is below [big]. *)
Theorem einsum_does_not_overflow :
  forall (F : Type) (Sf : Scalar F) (v : F -> option Qc) (eps eta big : Qc),
    rounding v eps eta -> overflow_from v eps eta big ->
  forall h lay s arrays ops out size, hash_ok h -> backend_runs lay -> fused_fits v eps eta big lay ->
    call_ok s (map (@a_shape F) arrays) ops out size -> no_empty_sum size ops out -> Forall wf arrays ->
    Forall (all_elements (fun x => v x <> None)) arrays ->
    let result_fits x :=
      (x = Panic /\ blocked_in size (combine arrays ops) out)
      \/ (~ blocked_in size (combine arrays ops) out
          /\ exists r f, x = Ok r /\ holds r (map size out) f
               /\ forall o, in_bounds (map size out) o = true ->
                    (grow eps (length ops + prod (map size (summed_labels ops out)))
                     * (grow eta (length ops + prod (map size (summed_labels ops out)))
                        * einsum_value size (map (amap (padded_of v)) arrays) ops out o) < big)%Qc ->
                    v (f o) <> None /\ close v eps eta size arrays ops out o (f o)) in
    result_fits (einsum h lay s arrays)
    /\ forall strategy, strategy = Naive \/ strategy = Reverse ->
       result_fits (do p <- einsum_path_fn h s arrays strategy; contract_operands lay p arrays).
Proof.
  intros F Sf v eps eta big HF HB h lay s arrays ops out size Hh Hl Hfu Hc Hn Hw Hp result_fits.
  destruct (einsum_rounding_error F Sf v eps eta HF h lay s arrays ops out size Hh Hl
              (fits_rounds v eps eta big lay Hfu) Hc Hw) as [C1 C2].
  assert (Hz : Forall2 (related_arrays (kept_below v eps eta big)) arrays (map (amap (lift v)) arrays)).
  { apply (related_amap_on _ (fun x => v x <> None)); auto. intros x Hx. apply kept_lift; auto. }
  destruct (relations_without_zero F tracked Sf tracked_scalar _ _ (kept_weak v eps eta big HF HB) tracked_semiring
              h lay s arrays _ ops out size Hh Hl (kept_fused_fits v eps eta big HF HB lay Hfu) Hc Hn Hw Hz) as [K1 K2].
  assert (G : forall x,
    ((x = Panic /\ blocked_in size (combine arrays ops) out)
      \/ (~ blocked_in size (combine arrays ops) out
          /\ exists r f, x = Ok r /\ holds r (map size out) f
               /\ forall o, in_bounds (map size out) o = true -> close v eps eta size arrays ops out o (f o))) ->
    @outcome_related F tracked tracked_scalar (kept_below v eps eta big) x size arrays (map (amap (lift v)) arrays) ops out ->
    result_fits x).
  { intros x [Hx|[Hb (r & f & E & Hr & Hcl)]] Hk; [left; exact Hx|right]. split; [exact Hb|].
    exists r, f. split; [exact E|]. split; [exact Hr|]. intros o Ho Hlt. split; [|apply Hcl; auto].
    destruct Hk as [[Hx _]|[_ (r' & f' & E' & Hr' & Hk)]]; [congruence|].
    assert (r' = r) by congruence. subst r'.
    assert (f' o = f o).
    { destruct Hr as (_ & _ & H1), Hr' as (_ & _ & H2). specialize (H1 o Ho). specialize (H2 o Ho). congruence. }
    rewrite <- H. apply (kept_represents v eps eta big HF size arrays ops out o); auto. }
  split; [apply G; auto|]. intros st Hst. apply G; auto.
Qed.
Print Assumptions einsum_does_not_overflow.

(** For floating-point numbers [big] is [2 ^ emax]. *)
Theorem float_einsum_does_not_overflow :
  forall f h (lay : backend (float f)) s arrays ops out size, hash_ok h -> float_backend lay ->
    call_ok s (map (@a_shape (float f)) arrays) ops out size -> no_empty_sum size ops out -> Forall wf arrays ->
    Forall (all_elements (fun x => f_value x <> None)) arrays ->
    let result_fits x :=
      (x = Panic /\ blocked_in size (combine arrays ops) out)
      \/ (~ blocked_in size (combine arrays ops) out
          /\ exists r g, x = Ok r /\ holds r (map size out) g
               /\ forall o, in_bounds (map size out) o = true ->
                    (grow (f_eps f) (length ops + prod (map size (summed_labels ops out)))
                     * (grow (f_eta f) (length ops + prod (map size (summed_labels ops out)))
                        * einsum_value size (map (amap (padded_of f_value)) arrays) ops out o) < pow2 (f_emax f))%Qc ->
                    f_value (g o) <> None /\ close f_value (f_eps f) (f_eta f) size arrays ops out o (g o)) in
    result_fits (einsum h lay s arrays)
    /\ forall strategy, strategy = Naive \/ strategy = Reverse ->
       result_fits (do p <- einsum_path_fn h s arrays strategy; contract_operands lay p arrays).
Proof.
  intros f h lay s arrays ops out size Hh Hl Hc Hn Hw Hp.
  apply (einsum_does_not_overflow (float f) (float_scalar f) f_value (f_eps f) (f_eta f) (f_big f) (float_rounding f)
           (float_overflow f)); auto.
  - apply Hl.
  - apply float_fused_fits; auto.
Qed.
Print Assumptions float_einsum_does_not_overflow.

(** ** Integers *)

(** If sums and products of integers up to [top] are exact, the operands stand for integers and no sum is
    empty, then an element of the result stands for the exact Einstein sum whenever that of the absolute
    values, each taken to be at least one, is at most [top]. *)
Theorem einsum_exact_on_integers :
  forall (F : Type) (Sf : Scalar F) (stands : F -> Z -> Prop) (top : Z), exact_to stands top ->
  forall h lay s arrays ints ops out size, hash_ok h -> backend_runs lay -> fused_exact stands top lay ->
    call_ok s (map (@a_shape F) arrays) ops out size -> no_empty_sum size ops out -> Forall wf arrays ->
    Forall2 (related_arrays stands) arrays ints ->
    let result_exact x :=
      (x = Panic /\ blocked_in size (combine arrays ops) out)
      \/ (~ blocked_in size (combine arrays ops) out
          /\ exists r f, x = Ok r /\ holds r (map size out) f
               /\ forall o, in_bounds (map size out) o = true ->
                    (einsum_value size (map (amap (fun z => Z.max 1 (Z.abs z))) ints) ops out o <= top)%Z ->
                    stands (f o) (einsum_value size ints ops out o)) in
    result_exact (einsum h lay s arrays)
    /\ forall strategy, strategy = Naive \/ strategy = Reverse ->
       result_exact (do p <- einsum_path_fn h s arrays strategy; contract_operands lay p arrays).
Proof.
  intros F Sf stands top HE h lay s arrays ints ops out size Hh Hl Hfu Hc Hn Hw Hz result_exact.
  destruct (relations_without_zero F (Z * Z) Sf pair_scalar _ _ (stands_weak stands top HE) pair_semiring
              h lay s arrays _ ops out size Hh Hl (stands_fused stands top HE lay Hfu) Hc Hn Hw
              (stands_arrays stands top arrays ints Hz)) as [K1 K2].
  assert (G : forall x,
    @outcome_related F (Z * Z) pair_scalar (stands_below stands top) x size arrays (map (amap with_bound) ints) ops out ->
    result_exact x).
  { intros x [Hx|[Hb (r & f & E & Hr & Hk)]]; [left; exact Hx|right]. split; [exact Hb|].
    exists r, f. split; [exact E|]. split; [exact Hr|]. intros o Ho Hlt.
    destruct (Hk o Ho) as (_ & _ & H). rewrite with_bound_value in H. cbn [fst snd] in H. apply H. exact Hlt. }
  split; [apply G; auto|]. intros st Hst. apply G; auto.
Qed.
Print Assumptions einsum_exact_on_integers.

(** For floating-point numbers [top] is [2 ^ prec]. *)
Theorem float_einsum_exact_on_integers :
  forall f h (lay : backend (float f)) s arrays ints ops out size, hash_ok h -> float_backend lay ->
    call_ok s (map (@a_shape (float f)) arrays) ops out size -> no_empty_sum size ops out -> Forall wf arrays ->
    Forall2 (related_arrays f_stands) arrays ints ->
    let result_exact x :=
      (x = Panic /\ blocked_in size (combine arrays ops) out)
      \/ (~ blocked_in size (combine arrays ops) out
          /\ exists r g, x = Ok r /\ holds r (map size out) g
               /\ forall o, in_bounds (map size out) o = true ->
                    (einsum_value size (map (amap (fun z => Z.max 1 (Z.abs z))) ints) ops out o <= 2 ^ f_prec f)%Z ->
                    f_stands (g o) (einsum_value size ints ops out o)) in
    result_exact (einsum h lay s arrays)
    /\ forall strategy, strategy = Naive \/ strategy = Reverse ->
       result_exact (do p <- einsum_path_fn h s arrays strategy; contract_operands lay p arrays).
Proof.
  intros f h lay s arrays ints ops out size Hh Hl Hc Hn Hw Hz.
  apply (einsum_exact_on_integers (float f) (float_scalar f) f_stands (2 ^ f_prec f) (float_exact f)); auto.
  - apply Hl.
  - apply float_fused_exact; auto.
Qed.
Print Assumptions float_einsum_exact_on_integers.

(** ** Cases *)

(** The operands of the cases: integers of small absolute value. *)
Definition farr f (sh : list nat) (l : list Z) : arr (float f) := amap (fun z => f_of f z 0) (zarr sh l).

Lemma farr_elements f sh l (P : float f -> Prop) : Forall (fun z => P (f_of f z 0)) l -> all_elements P (farr f sh l).
Proof.
  intros H idx x Ex. unfold farr in Ex. rewrite a_get_amap in Ex.
  destruct (a_get (zarr sh l) idx) as [z| |] eqn:Ez; cbn [rmap] in Ex; try discriminate. injection Ex as <-.
  unfold a_get in Ez. destruct (in_bounds _ _); [|discriminate]. rewrite Forall_forall in H. apply H.
  destruct (znth _ _) as [w|] eqn:En; [|discriminate]. injection Ez as <-.
  unfold znth in En. destruct (_ <? _)%Z; [discriminate|]. eapply nth_error_In. exact En.
Qed.

Lemma farr_stands f sh l : wf (zarr sh l) -> Forall (fun z => (Z.abs z <= 2 ^ f_prec f)%Z) l ->
  related_arrays f_stands (farr f sh l) (zarr sh l).
Proof.
  intros Hw Hl. split; [reflexivity|]. intros idx Hi. change (a_shape (farr f sh l)) with (a_shape (zarr sh l)) in Hi.
  apply wf_readable in Hw as [_ Hw]. destruct (Hw idx Hi) as (z & Ez). exists (f_of f z 0), z.
  split; [unfold farr; rewrite a_get_amap, Ez; reflexivity|]. split; [exact Ez|]. apply f_of_stands.
  unfold a_get in Ez. rewrite Hi in Ez. rewrite Forall_forall in Hl. apply Hl.
  destruct (znth _ _) as [w|] eqn:En; [|discriminate]. injection Ez as <-.
  unfold znth in En. destruct (_ <? _)%Z; [discriminate|]. eapply nth_error_In. exact En.
Qed.

(** A backend whose matrix products use fused multiply-adds. *)
Definition float_fma_backend f : backend (float f) := mkBackend (fun _ _ a => a)
  (fun _ _ _ l => in_order l) f_fma (fun _ _ _ l => fold_left (fun acc p => f_fma (fst p) (snd p) acc) l szero).

Lemma float_fma_backend_ok f : float_backend (float_fma_backend f).
Proof.
  split; [|right; reflexivity]. constructor; simpl; auto.
  - intros _ _ _ l. apply in_order_ok.
  - intros _ _ _ l.
    assert (H : forall l' x, dots_to (@f_fma f) l' x ->
      dots_to (@f_fma f) (l' ++ l) (fold_left (fun acc p => f_fma (fst p) (snd p) acc) l x)).
    { induction l as [|[p q] l IH]; intros l' x Hx; simpl; [rewrite app_nil_r; auto|].
      replace (l' ++ (p, q) :: l) with ((l' ++ [(p, q)]) ++ l) by (rewrite <- app_assoc; auto).
      apply IH. apply dots_permuted with ((p, q) :: l'); [|apply dots_fused; auto].
      apply Permutation_cons_append. }
    exact (H [] szero (dots_zero f_fma)).
Qed.

Lemma float_plain_backend_ok f : float_backend (plain_backend (A := float f)).
Proof. split; [apply plain_backend_ok|left; reflexivity]. Qed.

(** The product of two integer matrices over f64, with fused multiply-adds. *)
Example float_case :
  let a := farr f64 [2; 2] [3; -4; 0; 1000003]%Z in
  let b := farr f64 [2; 2] [5; 7; 1; -2]%Z in
  let size := size_fn (combine (chars "ijk") [2; 2; 2]) in
  float_backend (float_fma_backend f64)
  /\ call_ok (chars "ij,jk->ik") (map (@a_shape (float f64)) [a; b]) [chars "ij"; chars "jk"] (chars "ik") size
  /\ no_empty_sum size [chars "ij"; chars "jk"] (chars "ik")
  /\ Forall wf [a; b]
  /\ Forall2 (related_arrays f_stands) [a; b] [zarr [2; 2] [3; -4; 0; 1000003]%Z; zarr [2; 2] [5; 7; 1; -2]%Z]
  /\ Forall (all_elements (fun x => f_value x <> None)) [a; b]
  /\ (do r <- einsum id_hash (float_fma_backend f64) (chars "ij,jk->ik") [a; b]; do l <- a_iter r; Ok (map (@proj1_sig _ _) l))
     = Ok (map (fun z => proj1_sig (f_of f64 z 0)) [11; 29; 1000003; -2000006]%Z).
Proof.
  split; [apply float_fma_backend_ok|]. split; [apply check_call_ok; check_call_tac|].
  split; [intros c Hc; vm_compute in Hc; destruct Hc as [<-|[]]; vm_compute; lia|].
  split; [apply wfs_b_ok; reflexivity|].
  split; [repeat constructor; apply farr_stands; try (apply wf_b_ok; reflexivity); repeat constructor; vm_compute; discriminate|].
  split; [repeat constructor; apply farr_elements; repeat constructor; discriminate|].
  vm_compute. reflexivity.
Qed.

(** Three significant bits, numbers below sixteen. *)
Definition tiny : format := mkFormat 3 4 eq_refl eq_refl.

(** A case of the bound: sixteen is not reached. *)
Example float_fits_case :
  let a := farr tiny [2] [1; -2]%Z in
  let size := size_fn (combine (chars "i") [2]) in
  call_ok (chars "i->") (map (@a_shape (float tiny)) [a]) [chars "i"] [] size
  /\ no_empty_sum size [chars "i"] []
  /\ Forall wf [a]
  /\ Forall (all_elements (fun x => f_value x <> None)) [a]
  /\ (grow (f_eps tiny) (length [chars "i"] + prod (map size (summed_labels [chars "i"] [])))
      * (grow (f_eta tiny) (length [chars "i"] + prod (map size (summed_labels [chars "i"] [])))
         * einsum_value size (map (amap (padded_of f_value)) [a]) [chars "i"] [] []) < pow2 (f_emax tiny))%Qc
  /\ (do r <- einsum id_hash (plain_backend (A := float tiny)) (chars "i->") [a]; do l <- a_iter r; Ok (map f_value l))
     = Ok [Some (of_Z (-1))].
Proof.
  split; [apply check_call_ok; check_call_tac|].
  split; [intros c Hc; vm_compute in Hc; destruct Hc as [<-|[]]; vm_compute; lia|].
  split; [apply wfs_b_ok; reflexivity|].
  split; [repeat constructor; apply farr_elements; repeat constructor; discriminate|].
  split; [vm_compute; reflexivity|].
  vm_compute. f_equal. f_equal. f_equal. apply Qc_is_canon. reflexivity.
Qed.

(** Without the bound, integers are not added exactly: eight plus one is eight. *)
Theorem float_einsum_exact_on_integers_refuted :
  ~ (forall f h (lay : backend (float f)) s arrays ints ops out size, hash_ok h -> float_backend lay ->
      call_ok s (map (@a_shape (float f)) arrays) ops out size -> no_empty_sum size ops out -> Forall wf arrays ->
      Forall2 (related_arrays f_stands) arrays ints ->
      forall r, einsum h lay s arrays = Ok r ->
      forall o x, in_bounds (map size out) o = true -> a_get r o = Ok x -> f_stands x (einsum_value size ints ops out o)).
Proof.
  intros H.
  specialize (H tiny id_hash plain_backend (chars "i->") [farr tiny [2] [8; 1]%Z] [zarr [2] [8; 1]%Z] [chars "i"] []
                (size_fn (combine (chars "i") [2]))).
  assert (K : (do r <- einsum id_hash plain_backend (chars "i->") [farr tiny [2] [8; 1]%Z];
               do x <- a_get r []; Ok (f_value x)) = Ok (Some (of_Z 8))).
  { vm_compute. reflexivity. }
  destruct (einsum id_hash plain_backend (chars "i->") [farr tiny [2] [8; 1]%Z]) as [r| |] eqn:E; [|discriminate K|discriminate K].
  cbn [rbind] in K. destruct (a_get r []) as [x| |] eqn:Ex; [|discriminate K|discriminate K].
  assert (Hx : f_value x = Some (of_Z 8)) by (cbn [rbind] in K; congruence). clear K.
  assert (G : f_stands x (einsum_value (size_fn (combine (chars "i") [2])) [zarr [2] [8; 1]%Z] [chars "i"] [] [])).
    { apply H with (r := r); auto.
      - exact id_hash_ok'.
      - apply float_plain_backend_ok.
      - apply check_call_ok; check_call_tac.
      - intros c Hc; vm_compute in Hc; destruct Hc as [<-|[]]; vm_compute; lia.
      - apply wfs_b_ok; reflexivity.
      - repeat constructor; apply farr_stands; try (apply wf_b_ok; reflexivity); repeat constructor; vm_compute; discriminate. }
  unfold f_stands in G. rewrite Hx in G. apply some_inj, of_Z_inj in G. vm_compute in G. discriminate.
Qed.
Print Assumptions float_einsum_exact_on_integers_refuted.

(** An empty sum does not excuse an overflow elsewhere: the product of two eights overflows, and times
    the empty sum it is not-a-number, though every bound is zero. *)
Theorem float_einsum_does_not_overflow_refuted :
  ~ (forall f h (lay : backend (float f)) s arrays ops out size, hash_ok h -> float_backend lay ->
      call_ok s (map (@a_shape (float f)) arrays) ops out size -> Forall wf arrays ->
      Forall (all_elements (fun x => f_value x <> None)) arrays ->
      forall r, einsum h lay s arrays = Ok r ->
      forall o x, in_bounds (map size out) o = true -> a_get r o = Ok x ->
        (grow (f_eps f) (length ops + prod (map size (summed_labels ops out)))
         * (grow (f_eta f) (length ops + prod (map size (summed_labels ops out)))
            * einsum_value size (map (amap (padded_of f_value)) arrays) ops out o) < pow2 (f_emax f))%Qc ->
        f_value x <> None).
Proof.
  intros H.
  specialize (H tiny id_hash plain_backend (chars "a,b,c->")
                [farr tiny [1] [8]%Z; farr tiny [1] [8]%Z; farr tiny [0] []%Z] [chars "a"; chars "b"; chars "c"] []
                (size_fn (combine (chars "abc") [1; 1; 0]))).
  assert (K : (do r <- einsum id_hash plain_backend (chars "a,b,c->")
                    [farr tiny [1] [8]%Z; farr tiny [1] [8]%Z; farr tiny [0] []%Z];
               do x <- a_get r []; Ok (f_value x)) = Ok None) by (vm_compute; reflexivity).
  destruct (einsum id_hash plain_backend (chars "a,b,c->") [farr tiny [1] [8]%Z; farr tiny [1] [8]%Z; farr tiny [0] []%Z])
    as [r| |] eqn:E; [|discriminate K|discriminate K].
  cbn [rbind] in K. destruct (a_get r []) as [x| |] eqn:Ex; [|discriminate K|discriminate K]. cbn [rbind] in K.
  assert (G : f_value x <> None).
    { apply H with (r := r) (o := []); auto.
      - exact id_hash_ok'.
      - apply float_plain_backend_ok.
      - apply check_call_ok; check_call_tac.
      - apply wfs_b_ok; reflexivity.
      - repeat constructor; apply farr_elements; repeat constructor; discriminate.
      - vm_compute. reflexivity. }
  apply G. congruence.
Qed.
Print Assumptions float_einsum_does_not_overflow_refuted.
