(** Named special cases (C36). *)
From Verif Require Import Base BaseFacts NDArray Validation Path Api Spec ValidationFacts SumFacts ArrayFacts
  EinsumMain EinsumProps AlgebraFacts StagedFacts Examples.
From Coq Require Import Lia.
From Coq Require String.
Import String.StringSyntax.
Local Open Scope string_scope.
Local Open Scope list_scope.

Section Cases.
Context {A : Type} {Sc : Scalar A}.
Hypothesis SR : semiring A.
Let SR' : semi_ring_theory szero sone sadd smul (@eq A) := SR.
Add Ring Aring : SR'.
Variables (h : hash_order) (lay : backend A).
Hypothesis Hh : hash_ok h.
Hypothesis Hlay : backend_ok lay.

Lemma special s (arrays : list (arr A)) ops out size sh f :
  call_ok s (map (@a_shape A) arrays) ops out size -> Forall wf arrays -> no_empty_diagonal size ops ->
  map size out = sh ->
  (forall o, in_bounds sh o = true -> einsum_value size arrays ops out o = f o) ->
  exists r, einsum h lay s arrays = Ok r /\ holds r sh f.
Proof.
  intros Hc Hw Hn <- Hf. destruct (einsum_correct SR h lay s arrays ops out size Hh Hlay Hc Hw Hn) as (r & E & Hr).
  exists r. split; auto. eapply holds_ext_in; eauto.
Qed.

Ltac call size :=
  match goal with |- call_ok ?s ?sh ?ops ?out _ =>
    split; [left; apply ParserFacts.parse_iff; reflexivity|
      split; [split; [apply nodup_b_ok; reflexivity|intros c Hc; simpl in *; tauto]
             |repeat (apply Forall2_cons; [vm_compute map; auto|]); apply Forall2_nil]]
  end.
Ltac value := unfold einsum_value, term, product; simpl; cbv [upd N.eqb Pos.eqb].
Ltac shape o Ho := repeat (destruct o as [|? o]; simpl in Ho; rewrite ?andb_false_r in Ho; try discriminate); clear Ho.
Ltac done_sum := intros; repeat (apply sum_n_ext; intros); ring.

Lemma trace (a : arr A) n : n <> 0 -> wf a -> a_shape a = [n; n] ->
  exists r, einsum h lay (chars "ii->") [a] = Ok r
    /\ holds r [] (fun _ => sum_n n (fun i => elem a [i; i])).
Proof.
  intros Hn W Sh. apply (special _ _ [chars "ii"] [] (fun _ => n)); auto.
  - call n.
  - constructor; auto. right. repeat constructor; auto.
  - intros o _. value. done_sum.
Qed.

Lemma diagonal (a : arr A) n : n <> 0 -> wf a -> a_shape a = [n; n] ->
  exists r, einsum h lay (chars "ii->i") [a] = Ok r
    /\ holds r [n] (fun o => elem a [nth 0 o 0; nth 0 o 0]).
Proof.
  intros Hn W Sh. apply (special _ _ [chars "ii"] (chars "i") (fun _ => n)); auto.
  - call n.
  - constructor; auto. right. repeat constructor; auto.
  - intros o Ho. shape o Ho. value. done_sum.
Qed.

Definition two (n m : nat) : char -> nat := size_fn (combine (chars "ij") [n; m]).

Lemma transpose (a : arr A) n m : wf a -> a_shape a = [n; m] ->
  exists r, einsum h lay (chars "ij->ji") [a] = Ok r
    /\ holds r [m; n] (fun o => elem a [nth 1 o 0; nth 0 o 0]).
Proof.
  intros W Sh. apply (special _ _ [chars "ij"] (chars "ji") (two n m)); auto.
  - call n.
  - constructor; auto. left. apply nodup_b_ok. reflexivity.
  - intros o Ho. shape o Ho. value. done_sum.
Qed.

Lemma row_sums (a : arr A) n m : wf a -> a_shape a = [n; m] ->
  exists r, einsum h lay (chars "ij->i") [a] = Ok r
    /\ holds r [n] (fun o => sum_n m (fun j => elem a [nth 0 o 0; j])).
Proof.
  intros W Sh. apply (special _ _ [chars "ij"] (chars "i") (two n m)); auto.
  - call n.
  - constructor; auto. left. apply nodup_b_ok. reflexivity.
  - intros o Ho. shape o Ho. value. done_sum.
Qed.

Definition three (n m k : nat) : char -> nat := size_fn (combine (chars "ijk") [n; m; k]).

Ltac distinct_ops := repeat (apply Forall_cons; [left; apply nodup_b_ok; reflexivity|]); apply Forall_nil.

Lemma matrix_product (a b : arr A) n m k : wf a -> wf b -> a_shape a = [n; m] -> a_shape b = [m; k] ->
  exists r, einsum h lay (chars "ij,jk->ik") [a; b] = Ok r
    /\ holds r [n; k] (fun o => sum_n m (fun j => smul (elem a [nth 0 o 0; j]) (elem b [j; nth 1 o 0]))).
Proof.
  intros W W' Sh Sh'. apply (special _ _ [chars "ij"; chars "jk"] (chars "ik") (three n m k)); auto.
  - call n.
  - distinct_ops.
  - intros o Ho. shape o Ho. value. done_sum.
Qed.

Lemma outer_product (a b : arr A) n m : wf a -> wf b -> a_shape a = [n] -> a_shape b = [m] ->
  exists r, einsum h lay (chars "i,j->ij") [a; b] = Ok r
    /\ holds r [n; m] (fun o => smul (elem a [nth 0 o 0]) (elem b [nth 1 o 0])).
Proof.
  intros W W' Sh Sh'. apply (special _ _ [chars "i"; chars "j"] (chars "ij") (two n m)); auto.
  - call n.
  - distinct_ops.
  - intros o Ho. shape o Ho. value. done_sum.
Qed.

Lemma elementwise_product (a b : arr A) n m : wf a -> wf b -> a_shape a = [n; m] -> a_shape b = [n; m] ->
  exists r, einsum h lay (chars "ij,ij->ij") [a; b] = Ok r
    /\ holds r [n; m] (fun o => smul (elem a o) (elem b o)).
Proof.
  intros W W' Sh Sh'. apply (special _ _ [chars "ij"; chars "ij"] (chars "ij") (two n m)); auto.
  - call n.
  - distinct_ops.
  - intros o Ho. shape o Ho. value. done_sum.
Qed.

Definition four (b n m k : nat) : char -> nat := size_fn (combine (chars "bijk") [b; n; m; k]).

Lemma batched_product (x y : arr A) b n m k : wf x -> wf y -> a_shape x = [b; n; m] -> a_shape y = [b; m; k] ->
  exists r, einsum h lay (chars "bij,bjk->bik") [x; y] = Ok r
    /\ holds r [b; n; k] (fun o => sum_n m (fun j =>
         smul (elem x [nth 0 o 0; nth 1 o 0; j]) (elem y [nth 0 o 0; j; nth 2 o 0]))).
Proof.
  intros W W' Sh Sh'. apply (special _ _ [chars "bij"; chars "bjk"] (chars "bik") (four b n m k)); auto.
  - call n.
  - distinct_ops.
  - intros o Ho. shape o Ho. value. done_sum.
Qed.

Lemma dot_product (a b : arr A) n : wf a -> wf b -> a_shape a = [n] -> a_shape b = [n] ->
  exists r, einsum h lay (chars "i,i->") [a; b] = Ok r
    /\ holds r [] (fun _ => sum_n n (fun i => smul (elem a [i]) (elem b [i]))).
Proof.
  intros W W' Sh Sh'. apply (special _ _ [chars "i"; chars "i"] [] (fun _ => n)); auto.
  - call n.
  - distinct_ops.
  - intros o _. value. done_sum.
Qed.

(** The implicit forms. *)
Lemma implicit_trace arrays : einsum h lay (chars "ii") arrays = einsum h lay (chars "ii->") arrays.
Proof.
  destruct (ValidationMain.implicit_explicit h (chars "ii") [chars "ii"] [] Hh) as (_ & _ & H & _); auto.
  - apply ParserFacts.parse_iff; reflexivity.
  - split; [constructor|]. intros c. change (concat [chars "ii"]) with [105; 105]%N. cbn [count_occ In].
    destruct (N.eq_dec 105 c); split; intros; try contradiction; lia.
Qed.

Lemma implicit_transpose arrays : einsum h lay (chars "ji") arrays = einsum h lay (chars "ji->ij") arrays.
Proof.
  destruct (ValidationMain.implicit_explicit h (chars "ji") [chars "ji"] (chars "ij") Hh) as (_ & _ & H & _); auto.
  - apply ParserFacts.parse_iff; reflexivity.
  - split; [repeat constructor|]. intros c. change (concat [chars "ji"]) with [106; 105]%N.
    change (chars "ij") with [105; 106]%N. cbn [count_occ In].
    destruct (N.eq_dec 106 c), (N.eq_dec 105 c); split; intros H; try tauto; try congruence; lia.
Qed.

Lemma transpose_implicit (a : arr A) n m : wf a -> a_shape a = [n; m] ->
  exists r, einsum h lay (chars "ji") [a] = Ok r
    /\ holds r [m; n] (fun o => elem a [nth 1 o 0; nth 0 o 0]).
Proof.
  intros W Sh. rewrite implicit_transpose.
  apply (special _ _ [chars "ji"] (chars "ij") (two m n)); auto.
  - call n.
  - distinct_ops.
  - intros o Ho. shape o Ho. value. done_sum.
Qed.

End Cases.

Lemma special_cases_hold (A : Type) (Sc : Scalar A) (SR : semiring A) h lay (Hh : hash_ok h) (Hlay : backend_ok lay)
  (a b : arr A) n m k p : wf a -> wf b ->
    (n <> 0 -> a_shape a = [n; n] ->
       (exists r, einsum h lay (chars "ii->") [a] = Ok r /\ holds r [] (fun _ => sum_n n (fun i => elem a [i; i])))
       /\ (exists r, einsum h lay (chars "ii") [a] = Ok r /\ holds r [] (fun _ => sum_n n (fun i => elem a [i; i])))) /\
    (n <> 0 -> a_shape a = [n; n] ->
       exists r, einsum h lay (chars "ii->i") [a] = Ok r /\ holds r [n] (fun o => elem a [nth 0 o 0; nth 0 o 0])) /\
    (a_shape a = [n; m] ->
       (exists r, einsum h lay (chars "ij->ji") [a] = Ok r /\ holds r [m; n] (fun o => elem a [nth 1 o 0; nth 0 o 0]))
       /\ (exists r, einsum h lay (chars "ji") [a] = Ok r /\ holds r [m; n] (fun o => elem a [nth 1 o 0; nth 0 o 0]))) /\
    (a_shape a = [n; m] ->
       exists r, einsum h lay (chars "ij->i") [a] = Ok r /\ holds r [n] (fun o => sum_n m (fun j => elem a [nth 0 o 0; j]))) /\
    (a_shape a = [n; m] -> a_shape b = [m; k] ->
       exists r, einsum h lay (chars "ij,jk->ik") [a; b] = Ok r /\ holds r [n; k]
         (fun o => sum_n m (fun j => smul (elem a [nth 0 o 0; j]) (elem b [j; nth 1 o 0])))) /\
    (a_shape a = [n] -> a_shape b = [m] ->
       exists r, einsum h lay (chars "i,j->ij") [a; b] = Ok r /\ holds r [n; m]
         (fun o => smul (elem a [nth 0 o 0]) (elem b [nth 1 o 0]))) /\
    (a_shape a = [n; m] -> a_shape b = [n; m] ->
       exists r, einsum h lay (chars "ij,ij->ij") [a; b] = Ok r /\ holds r [n; m] (fun o => smul (elem a o) (elem b o))) /\
    (a_shape a = [p; n; m] -> a_shape b = [p; m; k] ->
       exists r, einsum h lay (chars "bij,bjk->bik") [a; b] = Ok r /\ holds r [p; n; k]
         (fun o => sum_n m (fun j => smul (elem a [nth 0 o 0; nth 1 o 0; j])
                                          (elem b [nth 0 o 0; j; nth 2 o 0])))) /\
    (a_shape a = [n] -> a_shape b = [n] ->
       exists r, einsum h lay (chars "i,i->") [a; b] = Ok r /\ holds r []
         (fun _ => sum_n n (fun i => smul (elem a [i]) (elem b [i])))).
Proof.
  intros W W'. repeat apply conj; intros.
  - split; [|rewrite implicit_trace by auto]; apply trace; auto.
  - apply diagonal; auto.
  - split; [apply transpose|apply transpose_implicit]; auto.
  - apply row_sums; auto.
  - apply matrix_product; auto.
  - apply outer_product; auto.
  - apply elementwise_product; auto.
  - apply batched_product; auto.
  - apply dot_product; auto.
Qed.
