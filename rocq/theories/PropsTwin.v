(** Memory orders (C73): ndarray is free to lay out every array it makes as it likes. Whatever it does, no
    element of a result changes, not even in arithmetic without laws: only the order in which sums are
    added up can show. *)
From Verif Require Import Base BaseFacts NDArray Validation Optimizers Singleton Pair Path Api Spec ParserFacts
  ValidationFacts ValidationMain SumFacts ArrayFacts PairFacts PathFacts TensordotMain EinsumMain EinsumProps Schedule NdSchedule
  NdScheduleFacts NdLayoutFacts TwinFacts FloatFacts FloatMain Examples PropsFloat PropsNdarray.
From Coq Require Import Lia ZArith SpecFloat.
From Coq Require String.
Import String.StringSyntax.
Local Open Scope string_scope.
Local Open Scope list_scope.
Local Open Scope nat_scope.

(** The same elements, wherever they are stored. *)
Definition same_operands {A : Type} (arrays arrays' : list (arr A)) : Prop :=
  Forall2 (fun a a' => wf a /\ wf a' /\ same_array a a') arrays arrays'.

Lemma same_operands_wf {A} (arrays arrays' : list (arr A)) : same_operands arrays arrays' ->
  Forall wf arrays /\ Forall wf arrays' /\ map (@a_shape A) arrays = map (@a_shape A) arrays'.
Proof.
  induction 1 as [|a a' l l' (Wa & Wa' & Es & _) H (IH1 & IH2 & IH3)]; simpl; auto.
  split; [auto|]. split; [auto|]. congruence.
Qed.

(** [adds_alike lay lay']: where the shapes are the same, [lay] and [lay'] add up the same way. They may
    choose any memory orders, and the operands may be stored in any. *)
Theorem memory_orders_do_not_show :
  forall (A : Type) (Sc : Scalar A) h lay lay' s (arrays arrays' : list (arr A)) r r',
    hash_ok h -> backend_runs lay -> backend_runs lay' -> adds_alike lay lay' ->
    same_operands arrays arrays' ->
    einsum h lay s arrays = Ok r -> einsum h lay' s arrays' = Ok r' -> same_array r r'.
Proof.
  intros A Sc h lay lay' s arrays arrays' r r' Hh Hl Hl' Ha Hs E E'.
  destruct (same_operands_wf _ _ Hs) as (Hw & Hw' & Esh).
  destruct (einsum_ok_shape h lay Hh Hl s arrays r Hw E) as (ops & out & size & Hc & _).
  unfold einsum, validate_and_size, get_operand_shapes in E, E'. rewrite <- Esh in E'.
  destruct (from_string_ok h [20] s _ ops out size Hh Hc) as (sc & Esc & HS). rewrite Esc in E, E'. cbn [rbind] in E, E'.
  unfold einsum_sc, einsum_path_new, generate_optimized_order in E, E'.
  apply rbind_ok in E as (p & Ep & E). rewrite Ep in E'. cbn [rbind] in E'. apply rbind_ok in Ep as (order & Eo & Ep).
  assert (El : length (operand_indices (sc_contraction sc)) = length ops) by (destruct HS as (-> & _); auto).
  unfold naive_order in Eo. rewrite El in Eo.
  pose proof Hc as (Hm & _ & Hsh).
  eapply (path_twins lay lay' Hl Hl' Ha h size Hh (10 :: [21]) (11 :: [21]) sc ops out (seq 0 (length ops)) order p arrays arrays'); eauto.
  eapply meaning_nonempty; eauto.
Qed.
Print Assumptions memory_orders_do_not_show.

(** On the same operands the two also fail together. *)
Theorem backends_that_add_alike_agree :
  forall (A : Type) (Sc : Scalar A) h lay lay' s (arrays : list (arr A)),
    hash_ok h -> backend_runs lay -> backend_runs lay' -> adds_alike lay lay' -> Forall wf arrays ->
    same_outcome (einsum h lay s arrays) (einsum h lay' s arrays).
Proof.
  intros A Sc h lay lay' s arrays Hh Hl Hl' Ha Hw.
  destruct (accepted_dec h Hh s (map (@a_shape A) arrays)) as [(ops & out & size & Hc)|Hn].
  - assert (Hs : same_operands arrays arrays).
    { clear - Hw. induction Hw; constructor; auto. split; auto. split; auto. split; auto. }
    destruct (einsum_ends h lay Hh Hl s arrays ops out size Hc Hw) as [[E Hb]|[Hb (r & E & _)]];
      destruct (einsum_ends h lay' Hh Hl' s arrays ops out size Hc Hw) as [[E' Hb']|[Hb' (r' & E' & _)]]; try contradiction.
    + rewrite E, E'. exact I.
    + rewrite E, E'. cbn [same_outcome]. eapply memory_orders_do_not_show; [exact Hh|exact Hl|exact Hl'| | | |]; eauto.
  - destruct (einsum_rejects h lay Hh s arrays Hn) as (m & ->).
    destruct (einsum_rejects h lay' Hh s arrays Hn) as (m' & ->). exact I.
Qed.
Print Assumptions backends_that_add_alike_agree.

(** The same of [tensordot], which fails for neither or for both of two such pairs of operands. *)
Theorem tensordot_hides_memory_orders :
  forall (A : Type) (Sc : Scalar A) lay lay' (a b a' b' : arr A) la ra,
    backend_runs lay -> backend_runs lay' -> adds_alike lay lay' -> same_operands [a; b] [a'; b'] ->
    same_outcome (tensordot lay a b la ra) (tensordot lay' a' b' la ra).
Proof.
  intros A Sc lay lay' a b a' b' la ra Hl Hl' Ha Hs.
  inversion Hs as [|? ? ? ? Ta Hs']; subst. inversion Hs' as [|? ? ? ? Tb _]; subst.
  pose proof Ta as (Wa & Wa' & Sa). pose proof Tb as (Wb & Wb' & Sb).
  destruct (tensordot_on_all_inputs lay Hl a b la ra Wa Wb) as [(H1 & H2 & H3 & H4 & r & _ & E & _)|[Hn E]];
    destruct (tensordot_on_all_inputs lay' Hl' a' b' la ra Wa' Wb') as [(H1' & H2' & H3' & H4' & r' & _ & E' & _)|[Hn' E']];
    rewrite E, E'.
  - cbn [same_outcome]. unfold tensordot in E, E'. rewrite <- (proj1 Sa), <- (proj1 Sb) in E'.
    apply rbind_ok in E as (u & Eu & E). rewrite Eu in E'. cbn [rbind] in E'.
    apply rbind_ok in E as (n & En & E). rewrite En in E'. cbn [rbind] in E'.
    apply rbind_ok in E as (t & Et & E). rewrite Et in E'. cbn [rbind] in E'.
    eapply (tg_alike lay lay' Hl Hl' Ha t a b a' b'); eauto.
  - exfalso. apply Hn'. rewrite <- (proj1 Sa), <- (proj1 Sb). auto.
  - exfalso. apply Hn. rewrite (proj1 Sa), (proj1 Sb). auto.
  - exact I.
Qed.
Print Assumptions tensordot_hides_memory_orders.

(** A path compiled once and run twice. *)
Theorem paths_hide_memory_orders :
  forall (A : Type) (Sc : Scalar A) h lay lay' s strategy p (first arrays arrays' : list (arr A)) r r',
    hash_ok h -> backend_runs lay -> backend_runs lay' -> adds_alike lay lay' ->
    strategy = Naive \/ strategy = Reverse -> einsum_path_fn h s first strategy = Ok p ->
    same_operands arrays arrays' -> map (@a_shape A) first = map (@a_shape A) arrays ->
    contract_operands lay p arrays = Ok r -> contract_operands lay' p arrays' = Ok r' -> same_array r r'.
Proof.
  intros A Sc h lay lay' s strategy p fst0 arrays arrays' r r' Hh Hl Hl' Ha Hst Ep Hs Esh E E'.
  unfold einsum_path_fn, validate_and_optimize_order, get_operand_shapes in Ep. rewrite Esh in Ep.
  destruct (accepted_dec h Hh s (map (@a_shape A) arrays)) as [(ops & out & size & Hc)|Hn].
  - destruct (from_string_ok h (7 :: [22]) s _ ops out size Hh Hc) as (sc & Esc & HS). rewrite Esc in Ep. cbn [rbind] in Ep.
    apply rbind_ok in Ep as (order & Eo & Ep). unfold generate_optimized_order in Eo.
    assert (El : length (operand_indices (sc_contraction sc)) = length ops) by (destruct HS as (-> & _); auto).
    pose proof Hc as (Hm & _ & Hsh). assert (Hne : ops <> []) by (eapply meaning_nonempty; eauto).
    unfold naive_order, reverse_order in Eo. rewrite El in Eo.
    destruct Hst as [-> | ->].
    + eapply (path_twins lay lay' Hl Hl' Ha h size Hh (8 :: [22]) [23] sc ops out (seq 0 (length ops)) order p arrays arrays'); eauto.
    + eapply (path_twins lay lay' Hl Hl' Ha h size Hh (8 :: [22]) [23] sc ops out (rev (seq 0 (length ops))) order p arrays arrays'); eauto.
      apply Permutation_sym, Permutation_rev.
  - exfalso. destruct (path_rejects h Hh s arrays strategy Hn) as (msg & Em).
    unfold einsum_path_fn, validate_and_optimize_order, get_operand_shapes in Em. congruence.
Qed.
Print Assumptions paths_hide_memory_orders.

(** ndarray adds up along an axis differently for different memory orders. But a call in which no operand
    repeats a label and every label of an operand is one of another operand or of the output (products
    of matrices, for one) is all matrix products, and gives the same result to the last bit. *)
Theorem products_ignore_layout_on_ndarray :
  forall (A : Type) (Sc : Scalar A) m fma h s (arrays arrays' : list (arr A)) ops out size,
    hash_ok h -> call_ok s (map (@a_shape A) arrays) ops out size -> 2 <= length ops -> all_shared ops out ->
    same_operands arrays arrays' ->
    exists r r', einsum h (ndarray m fma) s arrays = Ok r /\ einsum h (ndarray m fma) s arrays' = Ok r'
      /\ same_array r r'.
Proof.
  intros A Sc m fma h s arrays arrays' ops out size Hh Hc H2 Hsh Hs.
  destruct (same_operands_wf _ _ Hs) as (Hw & Hw' & Esh).
  assert (Hc' : call_ok s (map (@a_shape A) arrays') ops out size) by (rewrite <- Esh; auto).
  assert (Hb : forall l : list (arr A), ~ blocked_in size (combine l ops) out).
  { intros l (p1 & a & ix & p2 & E & Hbl & _). apply Hbl. destruct Hsh as [Hn _]. rewrite Forall_forall in Hn.
    apply Hn. apply (in_combine_r l ops a ix). rewrite E. apply in_or_app. simpl; auto. }
  destruct (einsum_ends h (ndarray m fma) Hh (nd_runs m fma) s arrays ops out size Hc Hw) as [[_ H]|[_ (r & E & _)]];
    [exfalso; eapply Hb; eauto|].
  destruct (einsum_ends h (ndarray m fma) Hh (nd_runs m fma) s arrays' ops out size Hc' Hw') as [[_ H]|[_ (r' & E' & _)]];
    [exfalso; eapply Hb; eauto|].
  exists r, r'. split; auto. split; auto.
  set (sum := fun (_ : nat) (_ : arr A) (_ : list nat) l => fold_left sadd l szero).
  set (lay := with_axis_sums (ndarray m fma) sum).
  assert (Hlay : backend_runs lay).
  { pose proof (nd_runs m fma) as H. constructor.
    - apply (arrange_ok H).
    - intros ax a idx l. unfold lay, with_axis_sums, sum. cbn [add_up]. apply (sums_fold l [] szero sums_zero).
    - apply (add_products_ok H). }
  assert (Same : forall l : list (arr A), map (@a_shape A) l = map (@a_shape A) arrays ->
                 einsum h lay s l = einsum h (ndarray m fma) s l).
  { intros l El. unfold einsum, validate_and_size, get_operand_shapes. rewrite El.
    destruct (from_string_ok h [20] s _ ops out size Hh Hc) as (sc & Esc & HS). rewrite Esc. cbn [rbind].
    unfold einsum_sc, einsum_path_new, generate_optimized_order, naive_order.
    assert (Eln : length (operand_indices (sc_contraction sc)) = length ops) by (destruct HS as (-> & _); auto).
    rewrite Eln. destruct (generate_path h (10 :: [21]) sc (seq 0 (length ops))) as [order| |] eqn:Eo; auto. cbn [rbind].
    destruct (from_path h (11 :: [21]) order) as [p| |] eqn:Ep; auto. cbn [rbind].
    eapply (path_sums h size Hh (ndarray m fma) sum (10 :: [21]) (11 :: [21]) sc ops out); eauto. }
  rewrite <- Same in E by auto. rewrite <- Same in E' by auto.
  eapply (memory_orders_do_not_show A Sc h lay lay s arrays arrays' r r'); auto.
  split; [reflexivity|]. intros a b a' b' idx l _ _. unfold lay, with_axis_sums. cbn [add_products].
  unfold ndarray. rewrite !nd_products. reflexivity.
Qed.
Print Assumptions products_ignore_layout_on_ndarray.

(** Three matrices whose product rounds, stored by rows and by columns. *)
Example layout_free_case :
  let big := f_of f64 1 53 in
  let one := f_of f64 1 0 in
  let a := mkArr [big; one; f_of f64 3 0; one] 0%Z [2; 2] [2; 1]%Z in
  let a' := mkArr [big; f_of f64 3 0; one; one] 0%Z [2; 2] [1; 2]%Z in
  let run x := do r <- einsum id_hash (ndarray General f_fma) (chars "ij,jk,kl->il") [x; a; x];
               do l <- a_iter r; Ok (map (@proj1_sig _ _) l) in
  let ops := [chars "ij"; chars "jk"; chars "kl"] in
  call_ok (chars "ij,jk,kl->il") [[2; 2]; [2; 2]; [2; 2]] ops (chars "il") (size_fn (combine (chars "ijkl") [2; 2; 2; 2]))
  /\ all_shared ops (chars "il") /\ same_operands [a; a; a] [a'; a; a']
  /\ run a = run a' /\ run a <> Panic.
Proof.
  cbv zeta. split; [apply check_call_ok; check_call_tac|]. split; [|split; [|split]].
  - split; [repeat constructor; simpl; intuition discriminate|].
    intros before this after c E Hc. destruct before as [|x [|y [|z before]]].
    + injection E as <- <-. simpl in Hc |- *. tauto.
    + injection E as <- <- <-. simpl in Hc |- *. tauto.
    + injection E as <- <- <- <-. simpl in Hc |- *. tauto.
    + injection E as _ _ _ E. destruct before; discriminate.
  - set (a := mkArr _ _ _ [2; 1]%Z). set (a' := mkArr _ _ _ [1; 2]%Z).
    assert (Wa : wf a) by (apply wf_b_ok; reflexivity). assert (Wa' : wf a') by (apply wf_b_ok; reflexivity).
    assert (Es : same_array a a').
    { split; [reflexivity|]. intros idx Hi. apply indices_In in Hi. simpl in Hi.
      repeat (destruct Hi as [<-|Hi]; [reflexivity|]). contradiction. }
    constructor; [auto|]. constructor; [split; [auto|]; split; [auto|]; split; auto|]. constructor; [auto|]. constructor.
  - vm_compute. reflexivity.
  - vm_compute. discriminate.
Qed.

(** A tensor dot product and a path, over integers, of a matrix stored by rows and by columns. *)
Example layout_free_tensordot :
  let a := zarr [2; 3] [1; 2; 3; 4; 5; 6]%Z in
  let t := mkArr [1; 4; 2; 5; 3; 6]%Z 0%Z [2; 3] [1; 2]%Z in
  let lay := ndarray (Gemm 7 true) (fun a b c => sadd (smul a b) c) in
  same_operands [a; a] [t; t]
  /\ (do r <- tensordot lay a a [1] [1]; a_iter r) = Ok [14; 32; 32; 77]%Z
  /\ (do r <- tensordot lay t t [1] [1]; a_iter r) = Ok [14; 32; 32; 77]%Z
  /\ (do p <- einsum_path_fn id_hash (chars "ij,kj->ik") [a; a] Reverse;
      do r <- contract_operands lay p [a; a]; do r' <- contract_operands lay p [t; t];
      do l <- a_iter r; do l' <- a_iter r'; Ok (l, l')) = Ok ([14; 32; 32; 77], [14; 32; 32; 77])%Z.
Proof.
  cbv zeta. split; [|split; [reflexivity|split; reflexivity]].
  set (a := zarr _ _). set (t := mkArr _ _ _ _).
  assert (T : wf a /\ wf t /\ same_array a t).
  { split; [apply wf_b_ok; reflexivity|]. split; [apply wf_b_ok; reflexivity|].
    split; [reflexivity|]. intros idx Hi. apply indices_In in Hi. simpl in Hi.
    repeat (destruct Hi as [<-|Hi]; [reflexivity|]). contradiction. }
  constructor; [auto|]. constructor; [auto|]. constructor.
Qed.

(** Two backends that choose memory orders by other rules. *)
Example adds_alike_case :
  let lay := mkBackend (fun _ _ a => a) (fun _ _ _ l => fold_left sadd l szero) (fun a b c => sadd (smul a b) c)
               (fun _ _ _ l => fold_left (fun s p => sadd s (smul (fst p) (snd p))) l szero) in
  let m := follow (A := Z) (nd_schedule General) (fun a b c => sadd (smul a b) c) in
  let lay' := mkBackend (arrange m) (add_up lay) (fused lay) (add_products lay) in
  let t := mkArr [1; 4; 2; 5; 3; 6]%Z 0%Z [2; 3] [1; 2]%Z in
  let a := zarr [2; 3] [1; 2; 3; 4; 5; 6]%Z in
  adds_alike lay lay' /\ lay LToOwned [t] a = a /\ lay' LToOwned [t] a = t.
Proof. cbv zeta. split; [split; reflexivity|]. split; reflexivity. Qed.
