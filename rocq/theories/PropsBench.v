(** The repository's benchmarks (C69). *)
From Verif Require Import Base BaseFacts NDArray Validation Optimizers Strategies Singleton Pair Path Api Spec ParserFacts
  ValidationFacts ValidationMain SumFacts ArrayFacts PathFacts EinsumMain EinsumProps AlgebraFacts TensordotFacts TensordotMain
  PlanFacts LoopFacts TestFacts Work WorkFacts WorkMain PropsWork PropsPlan BenchFacts Examples.
From Coq Require Import Lia Permutation.
From Coq Require String.
Import String.StringSyntax.
Local Open Scope string_scope.
Local Open Scope list_scope.

(** benches/bench.rs times calls of [einsum], runs of a path compiled once by [einsum_path] with
    [Naive], and, for some of them, the operation of ndarray they stand for. [timed_alike h lay s arrays e]:
    the three that are timed return equal arrays, [e] being what the builtin operation returns. *)
Definition timed_alike {A} {Sc : Scalar A} (h : hash_order) (lay : backend A) (s : list char) (arrays : list (arr A))
    (builtin : res (arr A)) : Prop :=
  exists e, builtin = Ok e
  /\ (exists r, einsum h lay s arrays = Ok r /\ same_array r e)
  /\ (exists p r, einsum_path_fn h s arrays Naive = Ok p /\ contract_operands lay p arrays = Ok r /\ same_array r e).

Lemma holds_same {A} (a b : arr A) sh f : holds a sh f -> holds b sh f -> same_array a b.
Proof.
  intros (Ea & _ & Ha) (Eb & _ & Hb). split; [congruence|]. rewrite Ea. intros idx Hi. rewrite Ha, Hb; auto.
Qed.

Lemma computes_timed {A} {Sc : Scalar A} (h : hash_order) (lay : backend A) s arrays b sh f :
  computes h lay s arrays sh f -> (exists e, b = Ok e /\ holds e sh f) -> timed_alike h lay s arrays b.
Proof.
  intros [(r & E & Hr) Hp] (e & Eb & He). exists e. split; auto. split; [exists r; eauto using holds_same|].
  destruct (Hp Naive (or_introl eq_refl)) as (p & r' & E1 & E2 & Hr'). exists p, r'. eauto using holds_same.
Qed.

(** The calls that are timed beside a builtin operation return what it returns: for all lengths, and not
    only for the lengths and the row-major operands of the benchmarks. *)
Theorem benchmarks_match_the_builtins :
  forall (A : Type) (Sc : Scalar A), semiring A ->
  forall h lay, hash_ok h -> backend_ok lay ->
  forall (m1 m2 : arr A), wf m1 -> wf m2 ->
    (* bench_multiply_{tiny, medium, large}, against m1.dot(&m2) *)
    (forall n m k, a_shape m1 = [n; m] -> a_shape m2 = [m; k] ->
       timed_alike h lay (chars "ij,jk->ik") [m1; m2] (dot lay m1 m2)) /\
    (* bench_hadamard_large, against &m1 * &m2 *)
    (forall n m, a_shape m1 = [n; m] -> a_shape m2 = [n; m] ->
       timed_alike h lay (chars "ij,ij->ij") [m1; m2] (mul_arrays lay m1 m2)) /\
    (* bench_hadamard_transpose_large, against &m1 * &m2.t() *)
    (forall n m, a_shape m1 = [n; m] -> a_shape m2 = [m; n] ->
       timed_alike h lay (chars "ij,ji->ij") [m1; m2] (do t <- transposed m2; mul_arrays lay m1 t)) /\
    (* bench_sum_huge, against m1.sum(), which adds up the elements in some order *)
    (forall n m x, a_shape m1 = [n; m] -> sums_to (map (elem m1) (indices [n; m])) x ->
       timed_alike h lay (chars "ij->") [m1] (Ok (mk_c [] [x]))).
Proof.
  intros A Sc SR h lay Hh Hlay m1 m2 W1 W2. repeat apply conj; intros.
  - apply computes_timed with (sh := [n; k]) (f := fun o => match o with
      | [i; j] => sum_n m (fun x => smul (elem m1 [i; x]) (elem m2 [x; j])) | _ => szero end).
    + row [chars "ij"; chars "jk"] (chars "ik") (chars "j") (size_fn (combine (chars "ijk") [n; m; k])).
    + apply dot_sums; auto.
  - pose proof (wf_holds m1 W1) as H1. pose proof (wf_holds m2 W2) as H2. rewrite H in H1. rewrite H0 in H2.
    apply computes_timed with (sh := [n; m]) (f := fun o => smul (elem m1 o) (elem m2 o)).
    + row [chars "ij"; chars "ij"] (chars "ij") (chars "") (size_fn (combine (chars "ij") [n; m])).
    + apply mul_arrays_holds; auto.
  - pose proof (wf_holds m1 W1) as H1. rewrite H in H1.
    destruct (transposed_2 m2 m n W2 H0) as (t & -> & Ht). cbn [rbind].
    apply computes_timed with (sh := [n; m])
      (f := fun o => smul (elem m1 o) (match o with [i; j] => elem m2 [j; i] | _ => szero end)).
    + row [chars "ij"; chars "ji"] (chars "ij") (chars "") (size_fn (combine (chars "ij") [n; m])).
    + apply mul_arrays_holds; auto.
  - apply (sums_all SR) in H0.
    apply computes_timed with (sh := []) (f := fun _ => x).
    + subst x. row [chars "ij"] (chars "") (chars "ij") (size_fn (combine (chars "ij") [n; m])).
    + exists (mk_c [] [x]). split; auto. apply (holds_mk_c [] (fun _ => x)).
Qed.
Print Assumptions benchmarks_match_the_builtins.

(** The outer products, which have no builtin operation. *)
Theorem benchmarks_of_outer_products :
  forall (A : Type) (Sc : Scalar A), semiring A ->
  forall h lay, hash_ok h -> backend_ok lay ->
  forall (m1 m2 : arr A), wf m1 -> wf m2 ->
    (* bench_outer_product_medium *)
    (forall n m, a_shape m1 = [n] -> a_shape m2 = [m] ->
       computes h lay (chars "i,j->ij") [m1; m2] [n; m]
         (fun o => match o with [i; j] => smul (elem m1 [i]) (elem m2 [j]) | _ => szero end)) /\
    (* bench_stacked_outer_product_medium *)
    (forall n m k, a_shape m1 = [n; m] -> a_shape m2 = [n; k] ->
       computes h lay (chars "ij,ik->ijk") [m1; m2] [n; m; k]
         (fun o => match o with [i; j; k] => smul (elem m1 [i; j]) (elem m2 [i; k]) | _ => szero end)) /\
    (* bench_double_outer_product_medium *)
    (forall ni nj nk nl, a_shape m1 = [ni; nj] -> a_shape m2 = [nk; nl] ->
       computes h lay (chars "ij,kl->lkij") [m1; m2] [nl; nk; ni; nj]
         (fun o => match o with [l; k; i; j] => smul (elem m1 [i; j]) (elem m2 [k; l]) | _ => szero end)) /\
    (* bench_stacked_double_outer_product_large *)
    (forall ni nj nk nl nm, a_shape m1 = [ni; nj; nk] -> a_shape m2 = [ni; nl; nm] ->
       computes h lay (chars "ijk,ilm->ijklm") [m1; m2] [ni; nj; nk; nl; nm]
         (fun o => match o with [i; j; k; l; m] => smul (elem m1 [i; j; k]) (elem m2 [i; l; m]) | _ => szero end)).
Proof.
  intros A Sc SR h lay Hh Hlay m1 m2 W1 W2. repeat apply conj; intros.
  - row [chars "i"; chars "j"] (chars "ij") (chars "") (size_fn (combine (chars "ij") [n; m])).
  - row [chars "ij"; chars "ik"] (chars "ijk") (chars "") (size_fn (combine (chars "ijk") [n; m; k])).
  - row [chars "ij"; chars "kl"] (chars "lkij") (chars "") (size_fn (combine (chars "ijkl") [ni; nj; nk; nl])).
  - row [chars "ijk"; chars "ilm"] (chars "ijklm") (chars "") (size_fn (combine (chars "ijklm") [ni; nj; nk; nl; nm])).
Qed.
Print Assumptions benchmarks_of_outer_products.

(** ** What is timed *)

Lemma path_of_call {A} h (Hh : hash_ok h) s (arrays : list (arr A)) ops out size :
  call_ok s (map (@a_shape A) arrays) ops out size -> exists p, einsum_path_fn h s arrays Naive = Ok p.
Proof.
  intros Hc. unfold einsum_path_fn, get_operand_shapes.
  destruct (path_ends h (@plain_backend unit unit_scalar) Hh plain_backend_ok s _ ops out size Naive Hc (or_introl eq_refl)
    [22] [23]) as (o & p & -> & E & _). eauto.
Qed.

(** The call compiles to one step, without simplifications, with the contractor [m]. *)
Definition uses (h : hash_order) {A} (s : list char) (arrays : list (arr A)) (m : pair_method) : Prop :=
  exists p, einsum_path_fn h s arrays Naive = Ok p /\ shown p = (None, [(None, None, m, s)]).

Ltac labels_row := let x := fresh "x" in intros x; vm_compute; tauto.
Ltac uses_row lhs rhs out size :=
  match goal with Hh : hash_ok ?h |- @uses ?h ?A ?s ?arrays ?m =>
    let Hc := fresh in let p := fresh "p" in let E := fresh "E" in let E1 := fresh in let E2 := fresh in let Hm := fresh in
    let E4 := fresh in let c := fresh "c" in let Es := fresh "Es" in let Hp := fresh "Hp" in
    assert (Hc : call_ok s (map (@a_shape A) arrays) [lhs; rhs] out size) by call_row;
    destruct (path_of_call h Hh s arrays _ _ _ Hc) as (p & E);
    exists p; split; [exact E|];
    destruct (two_operands_plan h Hh s arrays lhs rhs out size p Hc E) as (c & Es & Hp);
    apply unsimplified_plan in Hp as (E1 & E2 & Hm & E4);
    [|apply nodup_b_ok; reflexivity|apply nodup_b_ok; reflexivity|labels_row|labels_row];
    unfold shown; rewrite Es; cbn [map]; rewrite E1, E2, E4; cbn [option_map];
    replace (pc_method c) with m;
    [reflexivity|apply (pair_case_unique m (pc_method c) lhs rhs out); [labels_row|labels_row| |exact Hm]]
  end.
Ltac tensordot_row :=
  split; [discriminate|split; [discriminate|]];
  let c := fresh "c" in intros (c & ? & ? & ?); vm_compute in *; intuition congruence.
Ltac stacked_row c :=
  split; [exists c; vm_compute; tauto|]; let P := fresh in intros [P _]; apply Permutation_length in P; discriminate.

(** [HadamardProductGeneral], [TensordotGeneral] and [StackedTensordotGeneral] are what the benchmarks with
    two operands time, never the special cases for operands already in place, and nothing is simplified
    first. *)
Theorem benchmarks_use_these_contractors :
  forall (A : Type) h, hash_ok h ->
  forall (m1 m2 : arr A),
    (forall n m k, a_shape m1 = [n; m] -> a_shape m2 = [m; k] ->
       uses h (chars "ij,jk->ik") [m1; m2] MTensordotGeneral) /\
    (forall n m, a_shape m1 = [n; m] -> a_shape m2 = [n; m] ->
       uses h (chars "ij,ij->ij") [m1; m2] MHadamardProductGeneral) /\
    (forall n m, a_shape m1 = [n; m] -> a_shape m2 = [m; n] ->
       uses h (chars "ij,ji->ij") [m1; m2] MHadamardProductGeneral) /\
    (forall n m, a_shape m1 = [n] -> a_shape m2 = [m] ->
       uses h (chars "i,j->ij") [m1; m2] MTensordotGeneral) /\
    (forall n m k, a_shape m1 = [n; m] -> a_shape m2 = [n; k] ->
       uses h (chars "ij,ik->ijk") [m1; m2] MStackedTensordotGeneral) /\
    (forall ni nj nk nl, a_shape m1 = [ni; nj] -> a_shape m2 = [nk; nl] ->
       uses h (chars "ij,kl->lkij") [m1; m2] MTensordotGeneral) /\
    (forall ni nj nk nl nm, a_shape m1 = [ni; nj; nk] -> a_shape m2 = [ni; nl; nm] ->
       uses h (chars "ijk,ilm->ijklm") [m1; m2] MStackedTensordotGeneral) /\
    (forall n m, a_shape m1 = [n; m] ->
       exists p, einsum_path_fn h (chars "ij->") [m1] Naive = Ok p /\ shown p = (Some MSummation, [])).
Proof.
  intros A h Hh m1 m2. repeat apply conj; intros.
  - uses_row (chars "ij") (chars "jk") (chars "ik") (size_fn (combine (chars "ijk") [n; m; k])). tensordot_row.
  - uses_row (chars "ij") (chars "ij") (chars "ij") (size_fn (combine (chars "ij") [n; m])). split; apply Permutation_refl.
  - uses_row (chars "ij") (chars "ji") (chars "ij") (size_fn (combine (chars "ij") [n; m])).
    split; [apply Permutation_refl|apply perm_swap].
  - uses_row (chars "i") (chars "j") (chars "ij") (size_fn (combine (chars "ij") [n; m])). tensordot_row.
  - uses_row (chars "ij") (chars "ik") (chars "ijk") (size_fn (combine (chars "ijk") [n; m; k])). stacked_row 105%N.
  - uses_row (chars "ij") (chars "kl") (chars "lkij") (size_fn (combine (chars "ijkl") [ni; nj; nk; nl])). tensordot_row.
  - uses_row (chars "ijk") (chars "ilm") (chars "ijklm") (size_fn (combine (chars "ijklm") [ni; nj; nk; nl; nm])).
    stacked_row 105%N.
  - assert (Hc : call_ok (chars "ij->") (map (@a_shape A) [m1]) [chars "ij"] [] (size_fn (combine (chars "ij") [n; m])))
      by call_row.
    destruct (path_of_call h Hh _ _ _ _ _ Hc) as (p & E). exists p. split; auto.
    destruct (one_operand_plan h Hh _ _ _ _ _ p Hc E) as (c & Es & Hm). unfold shown. rewrite Es.
    replace (sgl_method c) with MSummation; auto. symmetry. apply Hm.
    split; [apply nodup_b_ok; reflexivity|]. exists (chars "ij"). split; [discriminate|reflexivity].
Qed.
Print Assumptions benchmarks_use_these_contractors.

(** The arithmetic that is timed. A matrix product by [einsum] takes the products of the builtin one, and
    so does a product of two arrays position by position; the sum of a matrix reads each element, and then
    once more a row of sums. *)
Theorem benchmarks_work :
  forall (A : Type) (Sc : Scalar A) h lay, hash_ok h -> backend_runs lay ->
  forall (m1 m2 : arr A), wf m1 -> wf m2 ->
  let works s arrays products summands :=
    einsum_w lay h s arrays = (do r <- einsum h lay s arrays; Ok (r, mkWork products summands))
    /\ compile_and_run_w lay h s arrays Naive
       = (do r <- compile_and_run h lay s arrays Naive; Ok (r, mkWork products summands)) in
    (forall n m k, a_shape m1 = [n; m] -> a_shape m2 = [m; k] ->
       works (chars "ij,jk->ik") [m1; m2] (n * m * k) 0
       /\ dot_w lay m1 m2 = (do r <- dot lay m1 m2; Ok (r, mkWork (n * m * k) 0))) /\
    (forall n m, a_shape m1 = [n; m] -> a_shape m2 = [n; m] ->
       works (chars "ij,ij->ij") [m1; m2] (n * m) 0
       /\ mul_arrays_w lay m1 m2 = (do r <- mul_arrays lay m1 m2; Ok (r, mkWork (n * m) 0))) /\
    (forall n m, a_shape m1 = [n; m] -> a_shape m2 = [m; n] ->
       works (chars "ij,ji->ij") [m1; m2] (n * m) 0) /\
    (forall n m, a_shape m1 = [n; m] ->
       works (chars "ij->") [m1] 0 (n * m + m)) /\
    (forall n m, a_shape m1 = [n] -> a_shape m2 = [m] ->
       works (chars "i,j->ij") [m1; m2] (n * m) 0) /\
    (forall n m k, a_shape m1 = [n; m] -> a_shape m2 = [n; k] ->
       works (chars "ij,ik->ijk") [m1; m2] (n * m * k) 0) /\
    (forall ni nj nk nl, a_shape m1 = [ni; nj] -> a_shape m2 = [nk; nl] ->
       works (chars "ij,kl->lkij") [m1; m2] (ni * nj * nk * nl) 0) /\
    (forall ni nj nk nl nm, a_shape m1 = [ni; nj; nk] -> a_shape m2 = [ni; nl; nm] ->
       works (chars "ijk,ilm->ijklm") [m1; m2] (ni * nj * nk * nl * nm) 0).
Proof.
  intros A Sc h lay Hh Hlay m1 m2 W1 W2 works.
  assert (Hw : forall s arrays ops out size products summands,
    call_ok s (map (@a_shape A) arrays) ops out size -> Forall wf arrays ->
    products = total_products size ops out -> summands = total_summands size ops out ->
    works s arrays products summands).
  { intros s arrays ops out size ? ? Hc HW -> ->. split; [apply einsum_work; auto|].
    apply (compiled_work A Sc h lay Hh Hlay s arrays ops out size Hc HW). }
  assert (W12 : Forall wf [m1; m2]) by auto. assert (W1' : Forall wf [m1]) by auto.
  repeat apply conj; intros.
  - split.
    + apply Hw with (ops := [chars "ij"; chars "jk"]) (out := chars "ik") (size := size_fn (combine (chars "ijk") [n; m; k]));
        auto; [call_row|cbn; ring].
    + pose proof (wf_holds m1 W1) as H1. pose proof (wf_holds m2 W2) as H2. rewrite H in H1. rewrite H0 in H2.
      destruct (dot_any lay m1 m2 n m k _ _ H1 H2) as (r & E & Hr & _). unfold dot_w. rewrite E. cbn [rbind].
      rewrite Hr, H. cbn [nth]. rewrite prod_pair. replace (n * k * m) with (n * m * k) by ring. auto.
  - split.
    + apply Hw with (ops := [chars "ij"; chars "ij"]) (out := chars "ij") (size := size_fn (combine (chars "ij") [n; m]));
        auto; [call_row|cbn; ring].
    + pose proof (wf_holds m1 W1) as H1. pose proof (wf_holds m2 W2) as H2. rewrite H in H1. rewrite H0 in H2.
      destruct (mul_arrays_holds lay Hlay m1 m2 [n; m] _ _ H1 H2) as (r & E & Hr & _). unfold mul_arrays_w. rewrite E. cbn [rbind].
      rewrite Hr, prod_pair. auto.
  - apply Hw with (ops := [chars "ij"; chars "ji"]) (out := chars "ij") (size := size_fn (combine (chars "ij") [n; m]));
      auto; [call_row|cbn; ring].
  - apply Hw with (ops := [chars "ij"]) (out := []) (size := size_fn (combine (chars "ij") [n; m]));
      auto; [call_row|cbn; ring].
  - apply Hw with (ops := [chars "i"; chars "j"]) (out := chars "ij") (size := size_fn (combine (chars "ij") [n; m]));
      auto; [call_row|cbn; ring].
  - apply Hw with (ops := [chars "ij"; chars "ik"]) (out := chars "ijk") (size := size_fn (combine (chars "ijk") [n; m; k]));
      auto; [call_row|cbn; ring].
  - apply Hw with (ops := [chars "ij"; chars "kl"]) (out := chars "lkij")
      (size := size_fn (combine (chars "ijkl") [ni; nj; nk; nl])); auto; [call_row|cbn; ring].
  - apply Hw with (ops := [chars "ijk"; chars "ilm"]) (out := chars "ijklm")
      (size := size_fn (combine (chars "ijklm") [ni; nj; nk; nl; nm])); auto; [call_row|cbn; ring].
Qed.
Print Assumptions benchmarks_work.

(** The operands of bench_multiply_tiny, with other elements and the second one stored by columns, and a
    matrix to sum. *)
Example bench_case :
  let m1 := zarr [3; 4] [1; 2; 3; 4; 5; 6; 7; 8; 9; 10; 11; 12]%Z in
  let m2 := mkArr [1; 0; 2; -1; 3; 1; 1; 1; 0; 0; 2; 5; 4; -2; 1; 0; 1; 1; 0; 6]%Z 0 [4; 5] [1; 4]%Z in
  wf m1 /\ wf m2
  /\ (do r <- dot c_backend m1 m2; a_iter r)
     = Ok [3; 12; 26; 3; 27; 11; 36; 54; 15; 59; 19; 60; 82; 27; 91]%Z
  /\ (do r <- einsum id_hash c_backend (chars "ij,jk->ik") [m1; m2]; a_iter r)
     = Ok [3; 12; 26; 3; 27; 11; 36; 54; 15; 59; 19; 60; 82; 27; 91]%Z
  /\ (do r <- einsum_w c_backend id_hash (chars "ij,jk->ik") [m1; m2]; Ok (snd r)) = Ok (mkWork 60 0)
  /\ sums_to (map (elem m1) (indices [3; 4])) 78%Z
  /\ einsum_w c_backend id_hash (chars "ij->") [m1] = Ok (zarr [] [78]%Z, mkWork 0 16).
Proof.
  cbv zeta. split; [apply wf_b_ok; reflexivity|]. split; [apply wf_b_ok; reflexivity|].
  split; [vm_compute; reflexivity|]. split; [vm_compute; reflexivity|]. split; [vm_compute; reflexivity|].
  split; [|vm_compute; reflexivity]. change 78%Z with (in_order (map (elem (zarr [3; 4] [1; 2; 3; 4; 5; 6; 7; 8; 9; 10; 11; 12]%Z)) (indices [3; 4]))).
  apply in_order_ok.
Qed.

(** The outer products of small operands. *)
Example bench_outer_case :
  let m1 := zarr [2; 2] [1; 2; 3; 4]%Z in
  let m2 := zarr [2; 2] [5; 6; 7; 8]%Z in
  (do r <- einsum id_hash c_backend (chars "ij,ik->ijk") [m1; m2]; a_iter r) = Ok [5; 6; 10; 12; 21; 24; 28; 32]%Z
  /\ (do r <- einsum rev_hash c_backend (chars "ij,kl->lkij") [m1; m2]; a_iter r)
     = Ok [5; 10; 15; 20; 7; 14; 21; 28; 6; 12; 18; 24; 8; 16; 24; 32]%Z.
Proof. cbv zeta. split; vm_compute; reflexivity. Qed.
