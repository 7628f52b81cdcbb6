(** How much storage a run holds (C64). The counts are those of Storage.v: elements of arrays made by the
    library, from the moment an array is made until it goes out of scope. [uses xs x P] (StorageFacts.v):
    the run [xs] ends like [x], and if it ends with a value, [P] holds of the value and the storage. *)
From Verif Require Import Base BaseFacts NDArray Validation Optimizers Strategies Singleton Pair Path Api Spec
  ValidationFacts SumFacts ArrayFacts PairMain PathFacts PathShape EinsumMain HandFacts OrderFacts LimitsFacts LimitsMain
  WorkMain WorkFacts ProgramFacts OrderCostFacts Storage StorageFacts StorageMain Examples PropsEinsum PropsOrder PropsProgram.
From Coq Require Import Lia.
From Coq Require String.
Import String.StringSyntax.
Local Open Scope string_scope.
Local Open Scope list_scope.

(** ** One step *)

(** A compiled step ends holding its result, and meanwhile its result, the operands up to three times (once
    if they are [settled], StorageMain.v: no label repeated or to be summed beforehand), and its result
    again. *)
Theorem steps_hold_bounded_storage :
  forall (A : Type) (Sc : Scalar A) h k lay size sc lhs rhs out p (a b : arr A), hash_ok h -> backend_runs lay ->
    sized sc [lhs; rhs] out size -> pair_contraction_new h k sc = Ok p ->
    wf a -> wf b -> a_shape a = map size lhs -> a_shape b = map size rhs ->
    uses (run_pair_contraction_s lay p a b) (run_pair_contraction lay p a b)
      (fun x m => held m = elements x /\ elements x <= peak m <= pair_storage_bound size lhs rhs out).
Proof.
  intros A Sc h k lay size sc lhs rhs out p a b Hh Hl HS Ep Wa Wb Sa Sb.
  eapply uses_mono; [apply (compiled_step_storage h size Hh lay Hl k sc lhs rhs out p a b HS Ep Wa Wb Sa Sb)|].
  cbv beta. intros x m _ (H1 & _ & H2). unfold elements. rewrite H1. exact H2.
Qed.
Print Assumptions steps_hold_bounded_storage.

(** If both operands are settled: an elementwise product and a product with a scalar hold nothing but the
    result. If a label is in both operands and in the result, both operands are held as copies and the
    result twice, whatever the layout of the operands. All other products hold the result twice, or the
    result once and copies of the operands. *)
Theorem settled_steps_hold :
  forall (A : Type) (Sc : Scalar A) h k lay size sc lhs rhs out p (a b : arr A), hash_ok h -> backend_runs lay ->
    sized sc [lhs; rhs] out size -> pair_contraction_new h k sc = Ok p ->
    NoDup lhs -> incl lhs (rhs ++ out) -> NoDup rhs -> incl rhs (lhs ++ out) ->
    let elementwise := Permutation lhs out /\ Permutation rhs out in
    let stacked := exists c, In c lhs /\ In c rhs /\ In c out in
    uses (run_pair_contraction_s lay p a b) (run_pair_contraction lay p a b)
      (fun x m =>
         (elementwise \/ lhs = [] \/ rhs = [] -> peak m = elements x)
         /\ (stacked -> ~ elementwise -> peak m = elements a + elements b + 2 * elements x)
         /\ (lhs <> [] -> rhs <> [] -> ~ stacked ->
             2 * elements x <= peak m <= Nat.max (elements a + elements b + elements x) (2 * elements x))).
Proof.
  intros A Sc h k lay size sc lhs rhs out p a b Hh Hl HS Ep N1 I1 N2 I2.
  apply (settled_step_storage h size Hh lay Hl k sc lhs rhs out p a b HS Ep N1 I1 N2 I2).
Qed.
Print Assumptions settled_steps_hold.

(** The storage of a call and the elements of its result. *)
Definition storage_of (s : String.string) (arrays : list (arr Z)) : res (list Z * storage) :=
  do (r, m) <- einsum_s c_backend rev_hash (chars s) arrays; do l <- a_iter r; Ok (l, m).

Definition m22 : arr Z := zarr [2; 2] [1; 2; 3; 4]%Z.

(** An elementwise product; a matrix product, which holds its result twice; one with both operands
    transposed, which holds copies of them (4 + 4) and the result; a batch of matrix products. *)
Example steps_storage_case :
  storage_of "ij,ij->ij" [m22; m22] = Ok ([1; 4; 9; 16]%Z, mkStorage 4 4)
  /\ storage_of "ij,jk->ik" [m22; m22] = Ok ([7; 10; 15; 22]%Z, mkStorage 4 8)
  /\ storage_of "ji,kj->ik" [m22; m22] = Ok ([7; 15; 10; 22]%Z, mkStorage 4 12)
  /\ storage_of "bij,bjk->bik" [zarr [1; 2; 2] [1; 2; 3; 4]%Z; zarr [1; 2; 2] [1; 2; 3; 4]%Z]
     = Ok ([7; 10; 15; 22]%Z, mkStorage 4 (4 + 4 + 2 * 4)).
Proof. repeat split; vm_compute; reflexivity. Qed.

(** ** Orders *)

(** Any order of pair contractions (C63) keeps every result until the end: the peak is at least the results
    of all steps together, even if most of them are used only once, and at most [order_storage]. *)
Theorem orders_hold :
  forall (A : Type) (Sc : Scalar A) h k lay steps p (arrays : list (arr A)), hash_ok h -> backend_runs lay ->
    from_path h k (Pairs steps) = Ok p -> Forall wf arrays ->
    steps_fit (map (@a_shape A) arrays) [] steps ->
    uses (contract_operands_s lay p arrays) (contract_operands lay p arrays)
      (fun r m => held m = elements r /\ order_results steps <= peak m <= order_storage steps).
Proof. intros A Sc h k lay steps p arrays Hh Hl. apply orders_storage; auto. Qed.
Print Assumptions orders_hold.

(** Four squarings of a 2 by 2 matrix: five results of 4 elements, and while the last is made, its copy. *)
Example orders_hold_case :
  steps_fit [[2; 2]] [] (squarings 2 4)
  /\ order_results (squarings 2 4) = 20 /\ order_storage (squarings 2 4) = 16 + 4 + 4 + 2 * 4
  /\ (do p <- from_path rev_hash [] (Pairs (squarings 2 4)); do (r, m) <- contract_operands_s c_backend p [zarr [2; 2] [1; 1; 1; 0]%Z];
      do l <- a_iter r; Ok (l, m)) = Ok ([3524578; 2178309; 2178309; 1346269]%Z, mkStorage 4 24).
Proof. split; [apply squarings_fit; reflexivity|]. repeat split; vm_compute; reflexivity. Qed.

(** ** Calls *)

(** [intermediates] (StorageMain.v): the elements of the products of the first two, three, ... operands in
    the order taken, once every label is summed that neither a later operand nor the output has.
    [operands_total]: the elements of all operands. An axis of length zero counts as one in the upper
    bound. *)
Theorem calls_hold :
  forall (A : Type) (Sc : Scalar A) h lay s (arrays : list (arr A)) ops out size strategy,
    hash_ok h -> backend_runs lay -> call_ok s (map (@a_shape A) arrays) ops out size -> Forall wf arrays ->
    let bounds order := fun r m =>
      held m = elements r
      /\ intermediates prod size order out <= peak m
      /\ peak m <= 3 * operands_total size ops + 2 * intermediates nonzero_product size order out in
    uses (einsum_s lay h s arrays) (einsum h lay s arrays) (bounds ops)
    /\ (strategy = Naive -> uses (compile_and_run_s lay h s arrays strategy) (compile_and_run h lay s arrays strategy) (bounds ops))
    /\ (strategy = Reverse -> uses (compile_and_run_s lay h s arrays strategy) (compile_and_run h lay s arrays strategy) (bounds (rev ops))).
Proof.
  intros A Sc h lay s arrays ops out size strategy Hh Hl Hc Hw bounds.
  split; [|split; intros ->]; (eapply uses_mono; [first [apply (einsum_storage h lay Hh Hl s arrays ops out size Hc Hw)|
    apply (compile_and_run_storage h lay Hh Hl s arrays ops out size Hc Hw); auto]|]);
    cbv beta; intros r m _ (H1 & H2 & H3 & _); unfold bounds; auto.
Qed.
Print Assumptions calls_hold.

(** A call with one operand. If no label is repeated or left out, it holds nothing but the result. *)
Theorem single_operand_calls_hold :
  forall (A : Type) (Sc : Scalar A) h lay s (a : arr A) this out size, hash_ok h -> backend_runs lay ->
    call_ok s [a_shape a] [this] out size -> wf a ->
    uses (einsum_s lay h s [a]) (einsum h lay s [a])
      (fun r m => held m = elements r /\ peak m <= 3 * nonzero_product (a_shape a)
         /\ (NoDup this -> incl this out -> peak m = elements a)).
Proof.
  intros A Sc h lay s a this out size Hh Hl Hc Hw.
  assert (Sa : a_shape a = map size this).
  { destruct Hc as (_ & _ & Hs). inversion Hs; auto. }
  eapply uses_mono; [apply (einsum_storage h lay Hh Hl s [a] [this] out size Hc); auto|].
  cbv beta. intros r m _ (H1 & _ & _ & H4). destruct (H4 this eq_refl) as [H5 H6]. split; [auto|].
  rewrite Sa. split; [eapply Nat.le_trans; [exact H5|apply operand_storage_le]|].
  intros N I. unfold elements. rewrite Sa. apply H6. apply settled_true. auto.
Qed.
Print Assumptions single_operand_calls_hold.

(** [tensordot]: the result is held twice. *)
Theorem tensordot_holds :
  forall (A : Type) (Sc : Scalar A) lay (l r : arr A) la ra, backend_runs lay ->
    uses (tensordot_s lay l r la ra) (tensordot lay l r la ra)
      (fun x m => held m = elements x /\ 2 * elements x <= peak m /\ peak m <= elements l + elements r + 2 * elements x).
Proof. intros A Sc lay l r la ra Hl. apply (tensordot_uses lay Hl). Qed.
Print Assumptions tensordot_holds.

Example calls_hold_case :
  (exists size, call_ok (chars "ij,jk,kl->il") (map (@a_shape Z) [m22; m22; m22]) (map chars ["ij"; "jk"; "kl"]) (chars "il") size
     /\ intermediates prod size (map chars ["ij"; "jk"; "kl"]) (chars "il") = 4 + 4)
  /\ storage_of "ij,jk,kl->il" [m22; m22; m22] = Ok ([37; 54; 81; 118]%Z, mkStorage 4 12)
  /\ storage_of "ij->ji" [m22] = Ok ([1; 3; 2; 4]%Z, mkStorage 4 4)
  /\ storage_of "ii->i" [m22] = Ok ([1; 4]%Z, mkStorage 2 6)
  /\ storage_of "ij->" [m22] = Ok ([10]%Z, mkStorage 1 3)
  /\ (do (r, m) <- tensordot_s c_backend m22 m22 [0] [0]; do l <- a_iter r; Ok (l, m))
     = Ok ([10; 14; 14; 20]%Z, mkStorage 4 8).
Proof.
  split; [exists (fun _ => 2); split; [apply check_call_ok; check_call_tac|vm_compute; reflexivity]|].
  repeat split; vm_compute; reflexivity.
Qed.

(** ** Not bounded by the operands and the result *)

(** "i,j,i,i,...->ij": every product of the first operands is as large as the result, and is kept. *)
Definition wide_ops (n : nat) : list (list char) := chars "i" :: chars "j" :: repeat (chars "i") n.
Definition wide_string (n : nat) : list char := join (wide_ops n) ++ arrow ++ chars "ij".
Definition ones (d : nat) : arr Z := mk_c [d] (map (fun _ => 1%Z) (indices [d])).
Definition wide_arrays (n d : nat) : list (arr Z) := repeat (ones d) (S (S n)).

Lemma map_repeat {T U} (f : T -> U) x n : map f (repeat x n) = repeat (f x) n.
Proof. induction n; simpl; congruence. Qed.

Lemma list_sum_repeat x n : list_sum (repeat x n) = n * x.
Proof. induction n; simpl; auto. Qed.

Lemma wide_call n d : call_ok (wide_string n) (map (@a_shape Z) (wide_arrays n d)) (wide_ops n) (chars "ij") (fun _ => d).
Proof.
  assert (Hi : operand_run (chars "i")) by (split; [discriminate|constructor; [cbv; split; discriminate|constructor]]).
  assert (Hj : operand_run (chars "j")) by (split; [discriminate|constructor; [cbv; split; discriminate|constructor]]).
  split; [|split].
  - left. apply grammar_explicit; [discriminate| |].
    + constructor; auto. constructor; auto. apply Forall_forall. intros x Hx. apply repeat_spec in Hx. subst. auto.
    + repeat (constructor; [cbv; split; discriminate|]). constructor.
  - split; [apply nodup_b_ok; reflexivity|]. intros c Hc. unfold wide_ops. cbn [concat].
    rewrite app_assoc. apply in_or_app. left. exact Hc.
  - unfold wide_ops, wide_arrays. rewrite map_repeat. cbn [repeat].
    constructor; [reflexivity|]. constructor; [reflexivity|]. induction n; simpl; constructor; auto.
Qed.

Lemma wide_wf n d : Forall wf (wide_arrays n d).
Proof.
  apply Forall_forall. intros x Hx. apply repeat_spec in Hx. subst.
  eapply holds_wf, holds_mk_c.
Qed.

Lemma wide_intermediates n d : intermediates prod (fun _ => d) (wide_ops n) (chars "ij") = (n + 1) * (d * d).
Proof.
  unfold intermediates. replace (length (wide_ops n) - 1) with (n + 1) by (unfold wide_ops; cbn [length]; rewrite repeat_length; lia).
  assert (H : forall m, 2 <= m -> prod (map (fun _ : char => d) (kept (wide_ops n) (chars "ij") m)) = d * d).
  { intros m Hm. transitivity (prod (map (fun _ : char => d) (chars "ij"))); [|simpl; lia].
    apply prod_same; [apply kept_NoDup|apply nodup_b_ok; reflexivity|].
    intros c. rewrite kept_In. destruct m as [|[|m]]; try lia. unfold wide_ops. cbn [firstn skipn concat].
    split; [intros [_ [H|H]]; auto|]. 
    - clear -H. assert (Hr : forall k, In c (concat (skipn m (repeat (chars "i") k))) -> In c (chars "i")).
      { intros k Hk. apply in_concat in Hk as (x & Hx & Hk).
        assert (In x (repeat (chars "i") k)). { rewrite <- (firstn_skipn m). apply in_or_app. auto. }
        apply repeat_spec in H0. subst. auto. }
      apply Hr in H. destruct H as [<-|[]]. simpl. auto.
    - intros H. split; auto. rewrite app_assoc. apply in_or_app. left. exact H. }
  assert (E : forall k s, 2 <= s -> list_sum (map (fun m => prod (map (fun _ : char => d) (kept (wide_ops n) (chars "ij") m))) (seq s k)) = k * (d * d)).
  { induction k as [|k IH]; intros s Hs; [reflexivity|]. cbn [seq map list_sum fold_right]. rewrite (H s Hs).
    specialize (IH (S s) ltac:(lia)). unfold list_sum in IH. rewrite IH. lia. }
  apply E. lia.
Qed.

Theorem storage_is_linear_in_operands_and_result_refuted :
  ~ exists c, forall h lay s (arrays : list (arr Z)) r m, hash_ok h -> backend_ok lay ->
      accepted s (map (@a_shape Z) arrays) -> Forall wf arrays ->
      einsum_s lay h s arrays = Ok (r, m) ->
      peak m <= c * (list_sum (map elements arrays) + elements r).
Proof.
  intros (c & H). set (n := 2 * c). set (d := n + 2).
  pose proof (wide_call n d) as Hc. pose proof (wide_wf n d) as Hw.
  assert (Hne : no_empty_diagonal (fun _ => d) (wide_ops n)).
  { apply Forall_forall. intros x _. right. apply Forall_forall. intros y _. unfold d. lia. }
  destruct (einsum_computes_the_einstein_sum Z _ Z_semiring id_hash c_backend _ _ _ _ _ id_hash_ok' c_backend_ok Hc Hw Hne)
    as (r & Er & Hr).
  pose proof (calls_hold Z _ id_hash c_backend _ _ _ _ _ Naive id_hash_ok' c_backend_ok Hc Hw) as [Hu _].
  unfold uses in Hu. rewrite Er in Hu. destruct Hu as (m & Em & _ & Hp & _).
  rewrite wide_intermediates in Hp.
  specialize (H id_hash c_backend _ _ r m id_hash_ok' c_backend_ok (ex_intro _ _ (ex_intro _ _ (ex_intro _ _ Hc))) Hw Em).
  assert (Er2 : elements r = d * d). { unfold elements. rewrite (proj1 Hr). simpl. lia. }
  assert (Es : list_sum (map elements (wide_arrays n d)) = (n + 2) * d).
  { unfold wide_arrays. rewrite map_repeat. replace (elements (ones d)) with d by (unfold elements; simpl; lia).
    rewrite list_sum_repeat. lia. }
  rewrite Er2, Es in H. fold d in H. unfold n in Hp. nia.
Qed.
Print Assumptions storage_is_linear_in_operands_and_result_refuted.

(** The last step runs beside two results of 9 elements, copies its operands and holds its result twice. *)
Example wide_case : storage_of "i,j,i,i->ij" (wide_arrays 2 3) = Ok (repeat 1%Z 9, mkStorage 9 (2 * 9 + (9 + 3 + 2 * 9))).
Proof. vm_compute. reflexivity. Qed.
