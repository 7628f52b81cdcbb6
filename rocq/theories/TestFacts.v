(** What it takes to prove one of the repository's tests for all operands (C56). *)
From Verif Require Import Base BaseFacts NDArray Validation Optimizers Path Api Spec ValidationFacts SumFacts ArrayFacts
  PathFacts EinsumMain EinsumProps AlgebraFacts TensordotFacts TensordotMain ParserFacts Examples.
From Coq Require Import Lia.
From Coq Require String.
Import String.StringSyntax.
Local Open Scope string_scope.
Local Open Scope list_scope.

Lemma filter_all {T} (l : list T) : filter (fun _ => true) l = l.
Proof. induction l as [|x l IH]; simpl; congruence. Qed.

Lemma axis_lengths_all sh : axis_lengths sh (seq 0 (length sh)) = sh.
Proof.
  unfold axis_lengths. apply nth_ext with (d := 0) (d' := 0); rewrite map_length, seq_length; auto.
  intros n Hn. rewrite (nth_indep _ 0 (nth 0 sh 0)) by (rewrite map_length, seq_length; auto).
  rewrite map_nth with (f := fun k => nth k sh 0), seq_nth by auto. auto.
Qed.

Lemma place_all n o : length o = n -> place n (seq 0 n) o = o.
Proof.
  intros <-. pose proof (axis_lengths_all o) as E. unfold axis_lengths in E. 
  transitivity (place (length o) (seq 0 (length o)) (map (fun k => nth k o 0) (seq 0 (length o)))); [rewrite E; auto|].
  rewrite place_map; auto.
Qed.

(** [einsum], and [einsum_path] followed by [contract_operands], return an array of shape [sh] with
    the elements [f]. *)
Definition computes {A} {Sc : Scalar A} (h : hash_order) (lay : backend A) (s : list char) (arrays : list (arr A))
    (sh : list nat) (f : list nat -> A) : Prop :=
  (exists r, einsum h lay s arrays = Ok r /\ holds r sh f)
  /\ forall strategy, In strategy [Naive; Reverse] ->
       exists p r, einsum_path_fn h s arrays strategy = Ok p /\ contract_operands lay p arrays = Ok r /\ holds r sh f.

Section Tests.
Context {A : Type} {Sc : Scalar A}.
Hypothesis SR : semiring A.
Variables (h : hash_order) (lay : backend A).
Hypothesis Hh : hash_ok h.
Hypothesis Hlay : backend_ok lay.

Lemma computes_value s (arrays : list (arr A)) ops out size f :
  call_ok s (map (@a_shape A) arrays) ops out size -> Forall wf arrays -> no_empty_diagonal size ops ->
  (forall o, in_bounds (map size out) o = true -> einsum_value size arrays ops out o = f o) ->
  computes h lay s arrays (map size out) f.
Proof.
  intros Hc Hw Hn Hf. split.
  - destruct (einsum_correct SR h lay s arrays ops out size Hh Hlay Hc Hw Hn) as (r & E & Hr).
    exists r. split; auto. eapply holds_ext_in; eauto.
  - intros strategy Hst.
    assert (Hst' : strategy = Naive \/ strategy = Reverse) by (destruct Hst as [<-|[<-|[]]]; auto).
    pose proof (compile_and_run_outcome SR h lay Hh Hlay s arrays ops out size strategy Hst' Hc Hw) as Ho.
    destruct Ho as [[_ H]|[_ (r & E & Hr)]]; [exfalso; eapply no_empty_not_blocked; eauto|].
    unfold compile_and_run in E. apply rbind_ok in E as (p & E1 & E2).
    exists p, r. split; auto. split; auto. eapply holds_ext_in; eauto.
Qed.

(** The sums may be written in any order. *)
Lemma computes_by_loops s (arrays : list (arr A)) sh f ops out size order :
  call_ok s (map (@a_shape A) arrays) ops out size -> Forall wf arrays -> no_empty_diagonal size ops ->
  Permutation order (summed_labels ops out) -> map size out = sh ->
  (forall o, in_bounds sh o = true -> nested_sum size order (term arrays ops) (bind out o) = f o) ->
  computes h lay s arrays sh f.
Proof.
  intros Hc Hw Hn Hp <- Hf. apply computes_value with (ops := ops); auto. intros o Ho. rewrite <- Hf by auto.
  unfold einsum_value. apply (nested_sum_perm (semiring_near SR) size _ _ (concat ops)); [apply term_dep| |].
  - apply NoDup_filter, NoDup_nodup.
  - apply Permutation_sym. auto.
Qed.

End Tests.

Ltac call_row :=
  split; [first [left; apply parse_iff; reflexivity
                |right; split; [apply parse_iff; reflexivity|split; [repeat constructor|]];
                 let c := fresh "c" in intros c; vm_compute concat; vm_compute chars; cbn [count_occ In];
                 repeat destruct (N.eq_dec _ c); split; intros; try lia; intuition congruence]|
    split; [split; [apply nodup_b_ok; reflexivity|let c := fresh "c" in intros c; vm_compute; tauto]
           |cbn [map]; repeat (apply Forall2_cons; [vm_compute map; assumption|]); apply Forall2_nil]].
Ltac empty_row :=
  repeat (apply Forall_cons; [first [left; apply nodup_b_ok; reflexivity
                                    |right; repeat (apply Forall_cons; [vm_compute; assumption|]); apply Forall_nil]|]);
  apply Forall_nil.
Ltac perm_row :=
  apply NoDup_Permutation; [apply nodup_b_ok; reflexivity|apply nodup_b_ok; reflexivity|
    let c := fresh "c" in intros c; vm_compute; tauto].
Ltac shape_row o Ho :=
  repeat (destruct o as [|? o]; simpl in Ho; rewrite ?andb_false_r in Ho; try discriminate); clear Ho.
Ltac value_row :=
  match goal with SR : semiring _ |- _ =>
    unfold term, product; simpl; cbv [upd N.eqb Pos.eqb]; repeat (apply sum_n_ext; intros);
    rewrite (mul_1_r (semiring_near SR)), ?(ns_mul_assoc (semiring_near SR)); reflexivity
  end.
Ltac row ops out order size :=
  match goal with SR : semiring _, Hh : hash_ok _, Hlay : backend_ok _ |- computes ?h ?lay _ _ _ _ =>
    apply (computes_by_loops SR h lay Hh Hlay _ _ _ _ ops out size order);
    [call_row | auto using Forall_cons, Forall_nil | empty_row | perm_row | reflexivity
    | let o := fresh "o" in let Ho := fresh "Ho" in intros o Ho; shape_row o Ho; value_row]
  end.
