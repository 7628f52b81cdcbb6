(** Builds with and without overflow checks (C65). *)
From Verif Require Import Base BaseFacts NDArray Validation Optimizers Strategies Singleton Pair Path Api Spec
  ParserFacts ValidationFacts ValidationMain SumFacts PathFacts EinsumMain TensordotFacts TensordotMain Overflow OverflowFacts
  Builds BuildsFacts BuildsMain Examples.
From Coq Require Import Lia ZArith.
From Coq Require String.
Import String.StringSyntax.
Local Open Scope string_scope.
Local Open Scope list_scope.

(** Builds.v repeats the compilation over a [build]: [checked_build C M R] panics when a counter exceeds
    [C], a length [M], a vector [R] elements or a difference falls below zero; [wrapping_build C M R] goes on
    with the wrapped number (only a vector that is too long still panics); [ideal] has unbounded numbers. *)

(** ** With unbounded numbers it is the model *)

Theorem unbounded_build_is_the_model :
  forall (A : Type) (Sc : Scalar A) (lay : backend A) h,
    (forall s arrays, einsum_b ideal lay h s arrays = einsum h lay s arrays)
    /\ (forall s arrays strategy, compile_and_run_b ideal lay h s arrays strategy = compile_and_run h lay s arrays strategy)
    /\ (forall a b la ra, tensordot_b ideal lay a b la ra = tensordot lay a b la ra)
    /\ (forall k s shapes, from_string_and_shapes_b ideal h k s shapes = from_string_and_shapes h k s shapes)
    /\ (forall k order, from_path_b ideal h k order = from_path h k order).
Proof.
  intros A Sc lay h. split; [apply einsum_ideal|]. split; [apply compile_and_run_ideal|].
  split; [apply tensordot_ideal|]. split; [apply from_string_and_shapes_ideal|]. apply from_path_ideal.
Qed.
Print Assumptions unbounded_build_is_the_model.

(** ** Where the build with checks does not panic, all builds agree *)

Lemma run_below {T U} (x y : res T) (f : T -> res U) : below x y -> below (rbind x f) (rbind y f).
Proof. intros H. apply below_bind; auto. intros. apply below_refl. Qed.

Theorem checks_decide :
  forall C M R (A : Type) (Sc : Scalar A) (lay : backend A) h,
    (forall s arrays, einsum_b (checked_build C M R) lay h s arrays <> Panic ->
       einsum_b (wrapping_build C M R) lay h s arrays = einsum_b (checked_build C M R) lay h s arrays
       /\ einsum h lay s arrays = einsum_b (checked_build C M R) lay h s arrays)
    /\ (forall s arrays strategy, compile_and_run_b (checked_build C M R) lay h s arrays strategy <> Panic ->
       compile_and_run_b (wrapping_build C M R) lay h s arrays strategy
         = compile_and_run_b (checked_build C M R) lay h s arrays strategy
       /\ compile_and_run h lay s arrays strategy = compile_and_run_b (checked_build C M R) lay h s arrays strategy)
    /\ (forall a b la ra, tensordot_b (checked_build C M R) lay a b la ra <> Panic ->
       tensordot_b (wrapping_build C M R) lay a b la ra = tensordot_b (checked_build C M R) lay a b la ra
       /\ tensordot lay a b la ra = tensordot_b (checked_build C M R) lay a b la ra)
    /\ (forall k s shapes, from_string_and_shapes_b (checked_build C M R) h k s shapes <> Panic ->
       from_string_and_shapes_b (wrapping_build C M R) h k s shapes
         = from_string_and_shapes_b (checked_build C M R) h k s shapes
       /\ from_string_and_shapes h k s shapes = from_string_and_shapes_b (checked_build C M R) h k s shapes)
    /\ (forall k order, from_path_b (checked_build C M R) h k order <> Panic ->
       from_path_b (wrapping_build C M R) h k order = from_path_b (checked_build C M R) h k order
       /\ from_path h k order = from_path_b (checked_build C M R) h k order).
Proof.
  intros C M R A Sc lay h.
  pose proof (checked_below_wrapping C M R) as W. pose proof (checked_below_ideal C M R) as I.
  split; [|split; [|split; [|split]]]; intros.
  - rewrite <- einsum_ideal.
    split; (eapply below_not_panic; [|eassumption]; apply run_below, einsum_compile_below; assumption).
  - rewrite <- compile_and_run_ideal.
    split; (eapply below_not_panic; [|eassumption]; apply run_below, einsum_path_fn_below; assumption).
  - rewrite <- tensordot_ideal.
    split; (eapply below_not_panic; [|eassumption]; apply run_below, tensordot_compile_below; assumption).
  - rewrite <- from_string_and_shapes_ideal.
    split; (eapply below_not_panic; [|eassumption]; apply from_string_and_shapes_below; assumption).
  - rewrite <- (from_path_ideal h k order).
    split; (eapply below_not_panic; [|eassumption]; apply from_path_below; assumption).
Qed.
Print Assumptions checks_decide.

(** A small machine: counters up to 3, lengths up to 40, vectors of up to 12 numbers. *)
Example checks_case :
  einsum_b (checked_build 3 40 12) c_backend id_hash (chars "ij,jk")
    [zarr [2; 3] [1; 2; 3; 4; 5; 6]%Z; zarr [3; 2] [1; 0; 2; -1; 3; 1]%Z] <> Panic
  /\ tensordot_b (checked_build 3 40 12) c_backend (zarr [2; 3] [1; 2; 3; 4; 5; 6]%Z)
       (zarr [3; 2] [1; 0; 2; -1; 3; 1]%Z) [1] [0] <> Panic.
Proof. split; vm_compute; discriminate. Qed.

(** ** Calls that are not too large *)

(** No character of the string occurs more than [C] times, the string has at most [R] characters, and the
    products of axis lengths of the steps are at most [M]: then every build computes what the model does,
    or reports the same error. *)
Lemma compile_settled h k0 k1 k2 s shapes strategy : hash_ok h -> strategy = Naive \/ strategy = Reverse ->
  (do sc <- from_string_and_shapes h k0 s shapes;
   do order <- generate_optimized_order h k1 sc strategy; from_path h k2 order) <> Panic.
Proof.
  intros Hh Hst.
  destruct (accepts_exactly h k0 s shapes Hh) as (A1 & _ & A3).
  destruct (from_string_and_shapes h k0 s shapes) as [sc|e|] eqn:Es; cbn [rbind]; [|discriminate|congruence].
  destruct (proj1 A1) as (ops & out & size & Hc); [eauto|].
  destruct (from_string_ok h k0 s shapes ops out size Hh Hc) as (sc' & Es' & HS).
  rewrite Es in Es'. injection Es' as <-.
  assert (Hne : ops <> []) by (destruct Hc as (Hm & _); apply meaning_operands in Hm; tauto).
  assert (Ho : exists ord, Permutation ord (seq 0 (length ops))
             /\ generate_optimized_order h k1 sc strategy = generate_path h k1 sc ord).
  { pose proof HS as (Ec & _ & _).
    destruct Hst as [-> | ->]; cbn [generate_optimized_order]; unfold naive_order, reverse_order; rewrite Ec;
      eexists; (split; [|reflexivity]); auto. apply Permutation_sym, Permutation_rev. }
  destruct Ho as (ord & Po & ->).
  destruct (generated_path_computes h _ Hh eq _ (eq_weak Z_semiring) (eq_no_empty _) c_backend c_backend_ok
              (eq_weak_fused c_backend Z_semiring c_backend_ok) (semiring_summable _ Z_semiring) k1 k2 sc _ _ ord HS Hne Po)
    as (order & p & E1 & E2 & _).
  rewrite E1. cbn [rbind]. rewrite E2. discriminate.
Qed.

Section Sized.
Variables C M R : nat.

Lemma path_fn_shape b h s shapes strategy : einsum_path_fn_b b h s shapes strategy
  = do sc <- from_string_and_shapes_b b h [7; 22] s shapes;
    do order <- generate_optimized_order_b b h [8; 22] sc strategy; from_path_b b h [23] order.
Proof. unfold einsum_path_fn_b, validate_and_optimize_order_b. rewrite rbind_assoc. reflexivity. Qed.

Lemma path_fn_checked h s shapes strategy : hash_ok h -> countable C s -> length s <= R ->
  steps_representable M h [7; 22] [8; 22] s shapes strategy ->
  einsum_path_fn_b (checked_build C M R) h s shapes strategy = einsum_path_fn_b ideal h s shapes strategy.
Proof.
  intros Hh HC HR HM. rewrite path_fn_shape. rewrite compile_checked by auto.
  rewrite path_fn_shape, from_string_and_shapes_ideal. apply rbind_ext. intros sc.
  rewrite generate_optimized_order_ideal. apply rbind_ext. intros order. symmetry. apply from_path_ideal.
Qed.

Lemma path_fn_wrapping h s shapes strategy : hash_ok h -> countable C s -> length s <= R ->
  steps_representable M h [7; 22] [8; 22] s shapes strategy ->
  einsum_path_fn_b (wrapping_build C M R) h s shapes strategy = einsum_path_fn_b ideal h s shapes strategy.
Proof.
  intros Hh HC HR HM. rewrite <- path_fn_checked by auto.
  pose proof (checked_below_wrapping C M R) as W.
  assert (Hst : (strategy = Naive \/ strategy = Reverse)
                \/ forall b sc, generate_optimized_order_b b h [8; 22] sc strategy = Panic).
  { destruct strategy; auto. }
  destruct Hst as [Hst|Hst].
  - eapply below_not_panic; [apply einsum_path_fn_below; exact W|].
    rewrite path_fn_shape, compile_checked by auto. apply compile_settled; auto.
  - rewrite !path_fn_shape. pose proof (from_string_and_shapes_below _ _ W h [7; 22] s shapes) as Hb.
    rewrite from_string_checked in Hb by auto. destruct (accepts_exactly h [7; 22] s shapes Hh) as (_ & _ & A3).
    destruct Hb as [Hb|Hb]; [congruence|]. rewrite Hb. rewrite from_string_checked by auto.
    destruct (from_string_and_shapes h [7; 22] s shapes) as [sc|e|]; cbn [rbind]; [|reflexivity|reflexivity].
    rewrite !Hst. cbn [rbind]. reflexivity.
Qed.

Lemma einsum_shape b h s shapes : einsum_compile_b b h s shapes
  = do sc <- from_string_and_shapes_b b h [20] s shapes;
    do order <- generate_optimized_order_b b h [10; 21] sc Naive; from_path_b b h [11; 21] order.
Proof. reflexivity. Qed.

Lemma einsum_checked h s shapes : hash_ok h -> countable C s -> length s <= R ->
  steps_representable M h [20] [10; 21] s shapes Naive ->
  einsum_compile_b (checked_build C M R) h s shapes = einsum_compile_b ideal h s shapes
  /\ einsum_compile_b (wrapping_build C M R) h s shapes = einsum_compile_b ideal h s shapes.
Proof.
  intros Hh HC HR HM. assert (E : einsum_compile_b (checked_build C M R) h s shapes = einsum_compile_b ideal h s shapes).
  { rewrite einsum_shape. rewrite compile_checked by auto.
    rewrite einsum_shape, from_string_and_shapes_ideal. apply rbind_ext. intros sc.
    rewrite generate_optimized_order_ideal. apply rbind_ext. intros order. symmetry. apply from_path_ideal. }
  split; [exact E|]. rewrite <- E. eapply below_not_panic; [apply einsum_compile_below, checked_below_wrapping|].
  rewrite einsum_shape, compile_checked by auto. apply compile_settled; auto.
Qed.
End Sized.

Theorem builds_agree_on_sized_calls :
  forall C M R (A : Type) (Sc : Scalar A) (lay : backend A) h s (arrays : list (arr A)), hash_ok h ->
    (forall c, count_occ N.eq_dec s c <= C) -> length s <= R ->
    (steps_representable M h [20] [10; 21] s (map (@a_shape A) arrays) Naive ->
       einsum_b (checked_build C M R) lay h s arrays = einsum h lay s arrays
       /\ einsum_b (wrapping_build C M R) lay h s arrays = einsum h lay s arrays)
    /\ (forall strategy, steps_representable M h [7; 22] [8; 22] s (map (@a_shape A) arrays) strategy ->
       compile_and_run_b (checked_build C M R) lay h s arrays strategy = compile_and_run h lay s arrays strategy
       /\ compile_and_run_b (wrapping_build C M R) lay h s arrays strategy = compile_and_run h lay s arrays strategy).
Proof.
  intros C M R A Sc lay h s arrays Hh HC HR. change (countable C s) in HC. split.
  - intros HM. rewrite <- einsum_ideal. unfold einsum_b, get_operand_shapes.
    destruct (einsum_checked C M R h s _ Hh HC HR HM) as [-> ->]. auto.
  - intros strategy HM. rewrite <- compile_and_run_ideal. unfold compile_and_run_b, get_operand_shapes.
    rewrite path_fn_checked, path_fn_wrapping by auto. auto.
Qed.
Print Assumptions builds_agree_on_sized_calls.

(** The smallest bounds for this call: a label occurs twice, the products are at most 6. *)
Example sized_case :
  (forall c, count_occ N.eq_dec (chars "ij,jk->ik") c <= 2) /\ length (chars "ij,jk->ik") <= 9
  /\ steps_representable 6 id_hash [20] [10; 21] (chars "ij,jk->ik") [[2; 3]; [3; 2]] Naive.
Proof.
  split; [|split].
  - intros c. destruct (in_dec N.eq_dec c (chars "ij,jk->ik")) as [Hi|Hi].
    2:{ apply (count_occ_not_In N.eq_dec) in Hi. lia. }
    apply Nat.leb_le.
    assert (H : forallb (fun c => Nat.leb (count_occ N.eq_dec (chars "ij,jk->ik") c) 2) (chars "ij,jk->ik") = true)
      by (vm_compute; reflexivity).
    rewrite forallb_forall in H. apply (H c Hi).
  - vm_compute. lia.
  - intros ops out size sc steps (Hm & Ho & Hs) Es Eo. vm_compute in Es. injection Es as <-.
    vm_compute in Eo. injection Eo as <-.
    assert (E : ops = [[105; 106]; [106; 107]]%N).
    { destruct Hm as [Hm|[Hm _]].
      - assert (H : grammar (chars "ij,jk->ik") [[105; 106]; [106; 107]]%N (Some [105; 107]%N)).
        { apply parse_sound with (p := mkParse [[105; 106]; [106; 107]]%N (Some [105; 107]%N)). reflexivity. }
        destruct (grammar_unique _ _ _ _ _ Hm H). auto.
      - assert (H : grammar (chars "ij,jk->ik") [[105; 106]; [106; 107]]%N (Some [105; 107]%N)).
        { apply parse_sound with (p := mkParse [[105; 106]; [106; 107]]%N (Some [105; 107]%N)). reflexivity. }
        destruct (grammar_unique _ _ _ _ _ Hm H). auto. }
    subst ops. unfold shapes_ok in Hs. inversion Hs as [|? ? ? ? E1 Hs']; subst. inversion Hs' as [|? ? ? ? E2 _]; subst.
    cbn [map] in E1, E2. injection E1 as E1 E3. injection E2 as _ E2.
    constructor; [|constructor]. unfold step_fits. cbn [ps_sc sc_contraction operand_indices].
    constructor; [|constructor; [|constructor]]; cbn [map]; rewrite <- ?E1, <- ?E2, <- ?E3; vm_compute; lia.
Qed.

(** ** tensordot, whatever the axes *)

Lemma lhs_loop_Ok M n nc l : nc <= n -> forall pre u c sh,
  u <= nonzero_product pre -> c <= nonzero_product pre -> nonzero_product (pre ++ map snd l) <= M ->
  exists r, foldM (fun st (ad : nat * nat) =>
      let '(u, c, sh) := st in
      let '(axis, d) := ad in
      do lim <- usub n nc;
      if Nat.ltb axis lim then do u' <- umul M u d; Ok (u', c, sh ++ [d])
      else do c' <- umul M c d; Ok (u, c', sh)) l (u, c, sh) = Ok r.
Proof.
  intros Hn pre u c sh Hu Hc Hm. rewrite (lhs_loop M n nc l pre u c sh Hu Hc Hm).
  assert (E : usub n nc = Ok (n - nc)) by (unfold usub; rewrite (proj2 (Nat.leb_le _ _) Hn); auto).
  rewrite E. cbn [rbind]. clear. revert u c sh. induction l as [|[i d] l IH]; intros u c sh; cbn [foldM]; eauto.
  destruct (Nat.ltb i (n - nc)); cbn [rbind]; apply IH.
Qed.

Section Tensordot.
Variables C M R : nat.

Lemma tfp_wrapping l r n : n <= length l -> nonzero_product l <= M -> nonzero_product r <= M ->
  tfp_from_shapes_b (wrapping_build C M R) l r n = tfp_from_shapes l r n.
Proof.
  intros Hn Hl Hr. rewrite <- (tfp_checked M l r n) by auto.
  pose proof (checked_below_wrapping C M R) as (_ & Ws & Wm & _).
  unfold tfp_from_shapes_b, tfp_from_shapes_c.
  destruct (lhs_loop_Ok M (length l) n (combine (seq 0 (length l)) l) Hn [] 1 1 []) as ([[u c] sh] & E1).
  { auto. } { auto. } { cbn [app]. rewrite map_snd_combine. auto. }
  rewrite E1. cbn [rbind].
  match goal with |- rbind ?x _ = _ => assert (E2 : x = Ok (u, c, sh)) end.
  { rewrite <- E1. eapply below_not_panic; [|rewrite E1; discriminate].
    apply below_foldM. intros [[u0 c0] sh0] [axis d]. apply below_bind; [apply Ws|]. intros lim.
    destruct (Nat.ltb axis lim); (apply below_bind; [apply Wm|intros; apply below_refl]). }
  rewrite E2. cbn [rbind].
  pose proof (rhs_loop M n (combine (seq 0 (length r)) r) [] 1 1 sh) as E3.
  cbn [app] in E3. rewrite map_snd_combine in E3. specialize (E3 (le_n _) (le_n _) Hr).
  match type of E3 with _ = Ok ?y => set (res := y) in * end.
  rewrite E3. cbn [rbind].
  match goal with |- rbind ?x _ = _ => assert (E4 : x = Ok res) end.
  { rewrite <- E3. eapply below_not_panic; [|rewrite E3; discriminate].
    apply below_foldM. intros [[u0 c0] sh0] [axis d].
    destruct (Nat.ltb axis n); (apply below_bind; [apply Wm|intros; apply below_refl]). }
  rewrite E4. reflexivity.
Qed.

Lemma tg_axes_wrapping l r la ra order : nonzero_product l <= M -> nonzero_product r <= M ->
  tg_from_axes_b (wrapping_build C M R) l r la ra order = tg_from_axes l r la ra order.
Proof.
  intros Hl Hr. unfold tg_from_axes_b, tg_from_axes.
  destruct (Nat.eqb_spec (length la) (length ra)) as [E0|]; cbn [rassert rbind]; auto.
  destruct (Nat.eqb_spec (length la) (length (nodup Nat.eq_dec la))) as [E1|]; cbn [rassert rbind]; auto.
  destruct (Nat.eqb_spec (length la) (length (nodup Nat.eq_dec ra))) as [E2|]; cbn [rassert rbind]; auto.
  destruct (mapM (index l) la) as [lb| |] eqn:E3; cbn [rbind]; auto.
  destruct (mapM (index r) ra) as [rf| |] eqn:E4; cbn [rbind]; auto.
  destruct (mapM (index l) (other_axes _ _)) as [lf| |] eqn:E5; cbn [rbind]; auto.
  destruct (mapM (index r) (other_axes _ _)) as [rb| |] eqn:E6; cbn [rbind]; auto.
  apply mapM_index_Ok in E3 as [B1 ->]. apply mapM_index_Ok in E4 as [B2 ->].
  apply mapM_index_Ok in E5 as [_ ->]. apply mapM_index_Ok in E6 as [_ ->].
  rewrite tfp_wrapping; auto.
  - unfold axis_lengths. rewrite app_length, !map_length. lia.
  - rewrite axes_product; auto. apply free_axes_perm. split; auto. apply nodup_length_NoDup. auto.
  - rewrite axes_product; auto. eapply Permutation_trans; [apply Permutation_app_comm|].
    apply free_axes_perm. split; auto. apply nodup_length_NoDup. lia.
Qed.

Lemma tg_axes_same l r la ra order :
  tg_from_axes_b (checked_build C M R) l r la ra order = tg_from_axes_c M l r la ra order.
Proof. reflexivity. Qed.
End Tensordot.

(** The length of the result's axis list is computed before the axes are looked at. With more axes to
    contract than there are it falls below zero: a panic with checks, and without them the wrapped number
    is a vector length that no machine has. *)
Theorem builds_agree_on_tensordot :
  forall C M R (A : Type) (Sc : Scalar A) (lay : backend A) (a b : arr A) la ra,
    3 * R <= M -> length la <= R -> length (a_shape a) + length (a_shape b) <= R ->
    nonzero_product (a_shape a) <= M -> nonzero_product (a_shape b) <= M ->
    tensordot_b (checked_build C M R) lay a b la ra = tensordot lay a b la ra
    /\ tensordot_b (wrapping_build C M R) lay a b la ra = tensordot lay a b la ra.
Proof.
  intros C M R A Sc lay a b la ra H3 Hla Hr Ha Hb. unfold tensordot_b, tensordot_compile_b, tensordot.
  destruct (rassert _) as [u|e|]; cbn [rbind]; auto.
  cbn [b_sub b_room checked_build wrapping_build]. unfold usub.
  destruct (Nat.leb_spec (2 * length la) (length (a_shape a) + length (a_shape b))) as [H|H]; cbn [rbind].
  - rewrite (proj2 (Nat.leb_le _ R)) by lia. cbn [rbind].
    rewrite tg_axes_same, tg_axes_checked, tg_axes_wrapping by auto. auto.
  - rewrite (proj2 (Nat.leb_gt _ R)) by lia. auto.
Qed.
Print Assumptions builds_agree_on_tensordot.

(** Too many axes, in both builds of a small machine. *)
Example tensordot_case :
  let a := zarr [2; 3] [1; 2; 3; 4; 5; 6]%Z in
  tensordot_b (checked_build 3 36 12) c_backend a a [0; 1; 1] [0; 1; 1] = Panic
  /\ tensordot_b (wrapping_build 3 36 12) c_backend a a [0; 1; 1] [0; 1; 1] = Panic
  /\ exists r, tensordot_b (wrapping_build 3 36 12) c_backend a a [0; 1] [0; 1] = Ok r /\ a_data r = [91%Z].
Proof. split; [|split]; [vm_compute; reflexivity..|]. eexists. split; vm_compute; reflexivity. Qed.

(** ** Contractions made by hand *)

(** Both builds do not panic alike: "ii" to the output "jjj", which no string can ask for. With checks the
    number of summed labels, 1 - 3, panics; without them the contraction compiles and runs. *)
Definition stray : sized_contraction :=
  mkSized (mkContraction [[105%N; 105%N]] [106%N; 106%N; 106%N] []) [(105%N, 2); (106%N, 1)].

Lemma stray_builds C M R h k : 2 <= C -> 3 <= M -> 1 <= R ->
  from_path_b (checked_build C M R) h k (Singleton stray) = Panic
  /\ exists p, from_path_b (wrapping_build C M R) h k (Singleton stray) = Ok p
     /\ exists r, contract_operands c_backend p [zarr [2; 2] [1; 2; 3; 4]%Z] = Ok r /\ a_data r = [5%Z].
Proof.
  intros HC HM HR. cbn [from_path_b]. split.
  - unfold singleton_contraction_new_b, singleton_summary_b.
    change (index (operand_indices (sc_contraction stray)) 0) with (Ok (T := list char) [105%N; 105%N]).
    change (rassert _) with (Ok tt). cbn [rbind].
    rewrite counters_checked, counters_ideal.
    2:{ intros c. unfold count. cbn [count_occ]. destruct (char_eq_dec 105%N c); lia. }
    cbn [rbind b_sub checked_build]. reflexivity.
  - assert (E : singleton_contraction_new_b (wrapping_build C M R) stray
      = Ok (mkSC MDiagonalizationAndSummation
              (OpDiagonalizationAndSummation (mkDiag [3; 3] [1; 1; 1; 2]) (mkSummation [3] [3])))).
    { unfold singleton_contraction_new_b, singleton_summary_b.
      change (index (operand_indices (sc_contraction stray)) 0) with (Ok (T := list char) [105%N; 105%N]).
      change (rassert _) with (Ok tt). cbn [rbind].
      rewrite (below_not_panic (counters (checked_build C M R) [105%N; 105%N]) (counters (wrapping_build C M R) [105%N; 105%N])).
      2:{ apply counters_below, checked_below_wrapping. }
      2:{ rewrite counters_checked, counters_ideal; [discriminate|].
          intros c. unfold count. cbn [count_occ]. destruct (char_eq_dec 105%N c); lia. }
      rewrite counters_checked, counters_ideal.
      2:{ intros c. unfold count. cbn [count_occ]. destruct (char_eq_dec 105%N c); lia. }
      cbn [rbind b_sub wrapping_build].
      change (length (distinct [105%N; 105%N])) with 1.
      change (length (output_indices (sc_contraction stray))) with 3. cbn [Nat.leb].
      assert (En : exists n, 1 + (M + 1) - 3 = S n) by (exists (M - 2); lia). destruct En as (n & ->).
      cbn -[singleton_op_new_b].
      match goal with |- rbind ?x _ = _ => assert (E : x =
        Ok (OpDiagonalizationAndSummation (mkDiag [3; 3] [1; 1; 1; 2]) (mkSummation [3] [3]))) end; [|rewrite E; reflexivity].
      cbn [singleton_op_new_b]. unfold diag_and_sum_new_b.
      change (diagonalization_new stray) with (Ok (mkDiag [3; 3] [1; 1; 1; 2])). cbn [rbind].
      cbn [b_sub wrapping_build diag_output_shape].
      change (length (output_indices (sc_contraction stray))) with 3. cbn [length Nat.leb rbind].
      change (4 - 3) with 1. unfold summation_from_sizes_b. cbn [rassert Nat.leb rbind b_room].
      destruct R as [|R']; [lia|]. reflexivity. }
    rewrite E. cbn [rbind]. eexists. split; [reflexivity|]. eexists. split; vm_compute; reflexivity.
Qed.

Theorem builds_panic_alike_refuted :
  ~ (forall C M R h k order, hash_ok h -> 2 <= C -> 3 <= M -> 1 <= R ->
       from_path_b (checked_build C M R) h k order = Panic -> from_path_b (wrapping_build C M R) h k order = Panic).
Proof.
  intros H. destruct (stray_builds 2 3 1 id_hash []) as (E1 & p & E2 & _); auto.
  specialize (H 2 3 1 id_hash [] (Singleton stray) id_hash_ok'). rewrite E2 in H. discriminate H; auto.
Qed.
Print Assumptions builds_panic_alike_refuted.

(** ** Counters that wrap *)

(** One label, [n] times, and no output: a label that occurs once is kept, any other is summed. *)
Lemma run_meaning n : 0 < n -> parse_einsum_string (repeat 105%N n) = Some (mkParse [repeat 105%N n] None).
Proof.
  intros Hn. apply parse_complete.
  change (repeat 105%N n) with (join [repeat 105%N n]) at 1. constructor; [discriminate|].
  constructor; [|constructor]. split.
  - destruct n; [lia|discriminate].
  - apply Forall_forall. intros c Hc. apply repeat_spec in Hc as ->. split; vm_compute; discriminate.
Qed.

Lemma distinct_repeat c n : 0 < n -> distinct (repeat c n) = [c].
Proof.
  intros Hn. destruct n as [|n]; [lia|]. clear Hn. induction n as [|n IH]; [reflexivity|].
  change (repeat c (S (S n))) with (c :: repeat c (S n)). unfold distinct in *. cbn [nodup].
  destruct (in_dec char_eq_dec c (repeat c (S n))) as [_|H]; [exact IH|]. exfalso. apply H. simpl. auto.
Qed.

Lemma count_repeat c n : count c (repeat c n) = n.
Proof. unfold count. induction n as [|n IH]; simpl; auto. destruct (char_eq_dec c c); congruence. Qed.

Lemma run_counters b n : 0 < n ->
  counters b (repeat 105%N n) = do z <- b_count b n; Ok [(105%N, z)].
Proof.
  intros Hn. unfold counters. rewrite distinct_repeat by auto. cbn [mapM]. rewrite count_repeat.
  destruct (b_count b n); reflexivity.
Qed.

Lemma hash_one h k (c : char) : hash_ok h -> h k [c] = [c].
Proof. intros Hh. apply Permutation_length_1_inv. apply Hh. Qed.

Theorem long_runs_of_a_label :
  forall C M R h k n, hash_ok h -> 1 <= C ->
    (C < n -> validate_b (checked_build C M R) h k (repeat 105%N n) = Panic)
    /\ (n = 2 * (C + 1) + 1 ->
        (exists c, validate_b (wrapping_build C M R) h k (repeat 105%N n) = Ok c /\ output_indices c = [105%N])
        /\ exists c, validate h k (repeat 105%N n) = Ok c /\ output_indices c = []).
Proof.
  intros C M R h k n Hh HC1. split; [intros Hn|intros ->; split].
  - unfold validate_b. rewrite run_meaning by lia. unfold from_parse_b. cbn [p_output_indices p_operand_indices concat].
    rewrite app_nil_r, run_counters by lia. cbn [b_count checked_build].
    rewrite (proj2 (Nat.leb_gt _ _)) by lia. reflexivity.
  - set (n := 2 * (C + 1) + 1) in *. assert (Hn : 0 < n) by (unfold n; lia).
    unfold validate_b. rewrite run_meaning by auto.
    unfold from_parse_b. cbn [p_output_indices p_operand_indices concat]. rewrite app_nil_r, run_counters by auto.
    assert (E : forall m, m = 1 \/ m = n -> b_count (wrapping_build C M R) m = Ok 1%Z).
    { intros m Hm. cbn [b_count wrapping_build]. f_equal.
      replace (Z.of_nat m + Z.of_nat C + 1)%Z
        with (Z.of_nat C + 2 + (if Nat.eqb m 1 then 0 else 1) * (2 * (Z.of_nat C + 1)))%Z.
      2:{ destruct (Nat.eqb_spec m 1); unfold n in *; lia. }
      rewrite Z.mod_add by lia. rewrite Z.mod_small by lia. lia. }
    rewrite (E n) by auto. cbn [rbind]. rewrite distinct_repeat, hash_one by auto.
    change (sort_chars (filter (fun c => Z.eqb (counter [(105%N, 1%Z)] c) 1) [105%N])) with [105%N].
    unfold from_indices_b. cbn [concat]. rewrite app_nil_r, run_counters by auto. rewrite (E n) by auto. cbn [rbind].
    change (counters (wrapping_build C M R) [105%N]) with (counters (wrapping_build C M R) (repeat 105%N 1)).
    rewrite run_counters, (E 1) by auto. cbn [rbind].
    change (distinct [105%N]) with [105%N]. rewrite hash_one by auto. cbn [check_output_b].
    change (Z.ltb 1 (counter [(105%N, 1%Z)] 105%N)) with false. cbn iota.
    rewrite (proj2 (mem_In 105%N (repeat 105%N n))). 2:{ destruct n; [lia|]. simpl. auto. }
    cbn [negb rbind]. eexists. split; reflexivity.
  - set (n := 2 * (C + 1) + 1) in *. assert (Hn : 0 < n) by (unfold n; lia).
    unfold validate, contraction_new. rewrite run_meaning by auto.
    unfold from_parse. cbn [p_output_indices p_operand_indices concat]. rewrite app_nil_r.
    rewrite distinct_repeat, hash_one by auto. cbn [filter]. rewrite count_repeat.
    replace (Nat.eqb n 1) with false by (symmetry; apply Nat.eqb_neq; unfold n; lia).
    unfold from_indices. change (distinct (sort_chars [])) with (@nil char).
    assert (Eh : h (0 :: k) [] = []) by (apply Permutation_nil, Hh). rewrite Eh. cbn [check_output rbind].
    eexists. split; reflexivity.
Qed.
Print Assumptions long_runs_of_a_label.

(** So a build without checks can misread a string, though only one of more than 2^32 characters. *)
Theorem wrapping_reads_all_strings_refuted :
  ~ (forall C M R h k s, hash_ok h -> 1 <= C -> validate_b (wrapping_build C M R) h k s = validate h k s).
Proof.
  intros H. destruct (long_runs_of_a_label 1 0 0 id_hash [] 5 id_hash_ok' (le_n _)) as [_ H'].
  destruct (H' eq_refl) as ((c & E1 & O1) & c' & E2 & O2). rewrite H in E1 by auto using id_hash_ok'.
  congruence.
Qed.
Print Assumptions wrapping_reads_all_strings_refuted.

(** Counters of two bits: the fifth increment gives 1 again. *)
Example long_case :
  map (fun n => b_count (wrapping_build 1 9 9) n) [0; 1; 2; 3; 4; 5] = map Ok [0; 1; -2; -1; 0; 1]%Z.
Proof. reflexivity. Qed.
