(** How much arithmetic a call does (C53). *)
From Verif Require Import Base BaseFacts NDArray Validation Optimizers Strategies Singleton Pair Path Api Spec ParserFacts
  ValidationFacts ValidationMain ArrayFacts TensordotMain EinsumMain Overflow OverflowFacts Examples PropsOverflow PropsTensordot
  LimitsMain Work WorkFacts WorkMain.
From Coq Require Import Lia.
From Coq Require String.
Import String.StringSyntax.
Local Open Scope string_scope.
Local Open Scope list_scope.

(** Work.v repeats the execution and counts the products of two elements and the elements read by
    sums along an axis. The theorems say that the counting execution ends like the other one, and
    with which counts.

    [total_products size ops out]: the operands are multiplied from left to right; multiplying in
    the [m]th one takes a product for each value of the labels [step_labels ops out m]: of the
    labels so far, those that it shares with the operands before it, and those that a later operand
    or the output has.

    [total_summands size ops out]: each operand is first summed over the labels that no other
    operand and no output label is, in the order of their first occurrences: every axis takes as
    many elements as the operand's diagonal has left. *)

(** ** Calls *)

Theorem einsum_work :
  forall (A : Type) (Sc : Scalar A) h lay, hash_ok h -> backend_runs lay ->
  forall s (arrays : list (arr A)) ops out size,
    call_ok s (map (@a_shape A) arrays) ops out size -> Forall wf arrays ->
    einsum_w lay h s arrays
    = do r <- einsum h lay s arrays;
      Ok (r, mkWork (total_products size ops out) (total_summands size ops out)).
Proof. intros A Sc h lay Hh Hlay s arrays ops out size Hc Hw. apply (einsum_costs size h Hh lay Hlay); auto. Qed.
Print Assumptions einsum_work.

(** With a strategy, the operands are multiplied in the order of the strategy. *)
Theorem compiled_work :
  forall (A : Type) (Sc : Scalar A) h lay, hash_ok h -> backend_runs lay ->
  forall s (arrays : list (arr A)) ops out size,
    call_ok s (map (@a_shape A) arrays) ops out size -> Forall wf arrays ->
    compile_and_run_w lay h s arrays Naive
    = (do r <- compile_and_run h lay s arrays Naive;
       Ok (r, mkWork (total_products size ops out) (total_summands size ops out)))
    /\ compile_and_run_w lay h s arrays Reverse
    = (do r <- compile_and_run h lay s arrays Reverse;
       Ok (r, mkWork (total_products size (rev ops) out) (total_summands size (rev ops) out))).
Proof.
  intros A Sc h lay Hh Hlay s arrays ops out size Hc Hw.
  split; [apply (compile_and_run_costs size h Hh lay Hlay s arrays ops out Hc Hw Naive)
         |apply (compile_and_run_costs size h Hh lay Hlay s arrays ops out Hc Hw Reverse)]; auto.
Qed.
Print Assumptions compiled_work.

(** [tensordot] takes a product for each position of the result and each position along the
    contracted axes, for all operands and axes for which it returns. *)
Theorem tensordot_work :
  forall (A : Type) (Sc : Scalar A) lay (a b : arr A) la ra,
    let free := axis_lengths (a_shape a) (free_axes (length (a_shape a)) la) in
    let free' := axis_lengths (a_shape b) (free_axes (length (a_shape b)) ra) in
    tensordot_w lay a b la ra
    = do r <- tensordot lay a b la ra;
      Ok (r, mkWork (prod free * prod (axis_lengths (a_shape a) la) * prod free') 0).
Proof. intros A Sc lay a b la ra. apply tensordot_costs. Qed.
Print Assumptions tensordot_work.

(** A matrix of shape 2x3 with a private label to sum first, a matrix of shape 3x2, a vector: 2*3*2
    elements are read, then 2*3*2 and 2*2 products are taken. *)
Example einsum_work_example :
  let arrays := [zarr [2; 3; 2] [1; 2; 3; 4; 5; 6; 1; 2; 3; 4; 5; 6]%Z; zarr [3; 2] [1; 0; 2; -1; 3; 1]%Z; zarr [2] [5; 7]%Z] in
  let ops := [chars "ijx"; chars "jk"; chars "k"] in
  let size := size_fn [(105%N, 2); (106%N, 3); (107%N, 2); (120%N, 2)] in
  call_ok (chars "ijx,jk,k->i") (map (@a_shape Z) arrays) ops (chars "i") size
  /\ total_products size ops (chars "i") = 2 * 3 * 2 + 2 * 2
  /\ total_summands size ops (chars "i") = 2 * 3 * 2
  /\ einsum_w c_backend id_hash (chars "ijx,jk,k->i") arrays
     = Ok (zarr [2] [278; 278]%Z, mkWork 16 12).
Proof.
  cbv zeta. split; [|split; [|split]].
  - apply check_call_ok. check_call_tac.
  - vm_compute. reflexivity.
  - vm_compute. reflexivity.
  - vm_compute. reflexivity.
Qed.

(** The trace of a matrix and the sum of another: the diagonal has three elements, the other axes
    take six and three. *)
Example einsum_work_diagonal :
  let arrays := [zarr [3; 3] [1; 2; 3; 4; 5; 6; 7; 8; 9]%Z; zarr [2; 3] [1; 1; 1; 1; 1; 1]%Z] in
  let ops := [chars "ii"; chars "jk"] in
  let size := size_fn [(105%N, 3); (106%N, 2); (107%N, 3)] in
  call_ok (chars "ii,jk->") (map (@a_shape Z) arrays) ops [] size
  /\ total_products size ops [] = 1 /\ total_summands size ops [] = 3 + (6 + 3)
  /\ einsum_w c_backend id_hash (chars "ii,jk->") arrays = Ok (zarr [] [90]%Z, mkWork 1 12).
Proof.
  cbv zeta. split; [|split; [|split]].
  - apply check_call_ok. check_call_tac.
  - vm_compute. reflexivity.
  - vm_compute. reflexivity.
  - vm_compute. reflexivity.
Qed.

Example tensordot_work_example :
  tensordot_w c_backend (zarr [2; 3] [1; 2; 3; 4; 5; 6]%Z) (zarr [3; 2] [1; 0; 2; -1; 3; 1]%Z) [1] [0]
  = Ok (zarr [2; 2] [14; 1; 32; 1]%Z, mkWork (2 * 3 * 2) 0).
Proof. vm_compute. reflexivity. Qed.

(** ** Bounds *)

Lemma prod_pos l : (forall d, In d l -> 0 < d) -> 0 < prod l.
Proof.
  induction l as [|d l IH]; intros H; [cbn; lia|]. rewrite prod_cons. pose proof (H d (or_introl eq_refl)).
  assert (0 < prod l) by (apply IH; intros; apply H; right; auto). nia.
Qed.

Lemma prod_incl (size : char -> nat) l l' : NoDup l -> NoDup l' -> incl l l' ->
  (forall c, In c l' -> 0 < size c) -> prod (map size l) <= prod (map size l').
Proof.
  intros H1 H2 Hi Hs. set (rest := filter (fun c => negb (mem c l)) l').
  assert (E : prod (map size l') = prod (map size (l ++ rest))).
  { apply prod_same; auto.
    - apply NoDup_app_intro; auto; [apply NoDup_filter; auto|]. intros c Hc Hr. apply filter_In in Hr as [_ Hr].
      apply negb_true_iff, mem_false in Hr. auto.
    - intros c. unfold rest. rewrite in_app_iff, filter_In, negb_true_iff, mem_false. specialize (Hi c).
      destruct (in_dec N.eq_dec c l); tauto. }
  rewrite E, map_app, prod_app. assert (0 < prod (map size rest)); [|nia].
  apply prod_pos. intros d Hd. apply in_map_iff in Hd as (c & <- & Hc). apply filter_In in Hc as [Hc _]. auto.
Qed.

Lemma concat_In_part ops m (c : char) : In c (concat (firstn m ops)) -> In c (concat ops).
Proof.
  intros H. rewrite <- (firstn_skipn m ops), concat_app, in_app_iff. auto.
Qed.

Lemma list_sum_le (f : nat -> nat) b l : (forall x, In x l -> f x <= b) -> list_sum (map f l) <= length l * b.
Proof.
  induction l as [|x l IH]; intros H; [cbn; lia|]. cbn [map list_sum fold_right length].
  fold (list_sum (map f l)). specialize (H x (or_introl eq_refl)) as Hx.
  assert (list_sum (map f l) <= length l * b) by (apply IH; intros; apply H; right; auto). lia.
Qed.

Lemma list_sum_mono (f g : nat -> nat) l : (forall x, In x l -> f x <= g x) -> list_sum (map f l) <= list_sum (map g l).
Proof.
  induction l as [|x l IH]; intros H; [cbn; lia|]. cbn [map list_sum fold_right].
  fold (list_sum (map f l)) (list_sum (map g l)). specialize (H x (or_introl eq_refl)) as Hx.
  assert (list_sum (map f l) <= list_sum (map g l)) by (apply IH; intros; apply H; right; auto). lia.
Qed.

Lemma axis_sums_le v lens : (forall d, In d lens -> 0 < d) -> axis_sums v lens <= length lens * (v * prod lens).
Proof.
  induction lens as [|d lens IH]; intros H; [cbn; lia|]. cbn [axis_sums length].
  pose proof (H d (or_introl eq_refl)) as Hd.
  assert (axis_sums v lens <= length lens * (v * prod lens)) by (apply IH; intros; apply H; right; auto).
  rewrite prod_cons. set (p := prod lens) in *. set (n := length lens) in *.
  assert (n * (v * p) <= n * (v * (d * p))) by (apply Nat.mul_le_mono_l, Nat.mul_le_mono_l; nia). lia.
Qed.

Lemma prod_nodup_le (size : char -> nat) l : (forall c, In c l -> 0 < size c) ->
  prod (map size (nodup N.eq_dec l)) <= prod (map size l).
Proof.
  induction l as [|c l IH]; intros H; [cbn; lia|]. cbn [nodup map]. pose proof (H c (or_introl eq_refl)) as Hc.
  assert (prod (map size (nodup N.eq_dec l)) <= prod (map size l)) by (apply IH; intros; apply H; right; auto).
  destruct (in_dec N.eq_dec c l); cbn [map]; rewrite !prod_cons; nia.
Qed.

Lemma nodup_length_le (l : list char) : length (nodup N.eq_dec l) <= length l.
Proof. induction l as [|c l IH]; cbn; [lia|]. destruct (in_dec N.eq_dec c l); cbn; lia. Qed.

Lemma own_summands_le size this used : (forall c, In c this -> 0 < size c) ->
  own_summands size this used <= length this * prod (map size this).
Proof.
  intros H. unfold own_summands. eapply Nat.le_trans.
  { apply axis_sums_le. intros d Hd. apply in_map_iff in Hd as (c & <- & Hc). apply firsts_In in Hc. apply H. tauto. }
  rewrite map_length, <- prod_app, <- map_app. apply Nat.mul_le_mono.
  - eapply Nat.le_trans; [|apply nodup_length_le]. apply NoDup_incl_length; [apply firsts_NoDup|].
    intros c Hc. apply firsts_In in Hc. apply nodup_In. tauto.
  - eapply Nat.le_trans; [|apply prod_nodup_le; auto]. apply prod_incl.
    + apply NoDup_app_intro; [apply NoDup_filter, NoDup_nodup|apply firsts_NoDup|].
      intros c Hc Hf. apply filter_In in Hc as [_ Hc]. rewrite existsb_mem, mem_In in Hc. apply firsts_In in Hf. tauto.
    + apply NoDup_nodup.
    + intros c Hc. apply in_app_iff in Hc as [Hc|Hc]; [apply filter_In in Hc; tauto|]. apply firsts_In in Hc. apply nodup_In. tauto.
    + intros c Hc. apply nodup_In in Hc. auto.
Qed.

(** Without empty axes, a call takes no more products than the direct evaluation of the sum, which
    multiplies all operands together at every value of all labels; and each operand is read at most
    once for each of its axes. *)
Theorem work_bounded :
  forall size ops out, (forall c, In c (concat ops) -> 0 < size c) ->
    total_products size ops out <= (length ops - 1) * prod (map size (nodup N.eq_dec (concat ops)))
    /\ total_summands size ops out <= list_sum (map (fun ix => length ix * prod (map size ix)) ops).
Proof.
  intros size ops out Hs. split.
  - unfold total_products. rewrite <- (seq_length (length ops - 1) 1) at 2. apply list_sum_le. intros m _.
    apply prod_incl; [apply step_labels_NoDup|apply NoDup_nodup| |].
    + intros c Hc. apply step_labels_In in Hc as [Hc _]. apply nodup_In. eapply concat_In_part; eauto.
    + intros c Hc. apply nodup_In in Hc. auto.
  - unfold total_summands.
    replace (map (fun ix => length ix * prod (map size ix)) ops)
      with (map (fun j => length (nth j ops []) * prod (map size (nth j ops []))) (seq 0 (length ops)))
      by (rewrite <- (map_nth_seq ops []) at 2; rewrite map_map; auto).
    apply list_sum_mono. intros j Hj. apply in_seq in Hj. apply own_summands_le. intros c Hc. apply Hs.
    apply in_concat. exists (nth j ops []). split; auto. apply nth_In. lia.
Qed.
Print Assumptions work_bounded.

(** The three matrices of [einsum_work_example]: 16 products, where the direct evaluation takes 48. *)
Example work_bounded_example :
  let size := size_fn [(105%N, 2); (106%N, 3); (107%N, 2); (120%N, 2)] in
  let ops := [chars "ijx"; chars "jk"; chars "k"] in
  (forall c, In c (concat ops) -> 0 < size c)
  /\ total_products size ops (chars "i") = 16
  /\ (length ops - 1) * prod (map size (nodup N.eq_dec (concat ops))) = 48.
Proof.
  cbv zeta. split; [|split; vm_compute; reflexivity].
  intros c Hc. vm_compute in Hc. repeat destruct Hc as [<-|Hc]; try contradiction; vm_compute; lia.
Qed.

(** With an empty axis the direct evaluation has nothing to do, but the products before the operand
    with the empty axis are taken. *)
Theorem work_bounded_refuted :
  ~ (forall s (arrays : list (arr Z)) ops out size r w,
       call_ok s (map (@a_shape Z) arrays) ops out size -> Forall wf arrays ->
       einsum_w c_backend id_hash s arrays = Ok (r, w) ->
       products w <= (length ops - 1) * prod (map size (nodup N.eq_dec (concat ops)))).
Proof.
  intros H.
  specialize (H (chars "ij,jk,kl->il")
    [zarr [2; 2] [1; 2; 3; 4]%Z; zarr [2; 2] [1; 2; 3; 4]%Z; zarr [2; 0] []%Z]
    [chars "ij"; chars "jk"; chars "kl"] (chars "il") (size_fn [(105%N, 2); (106%N, 2); (107%N, 2); (108%N, 0)])
    (zarr [2; 0] []%Z) (mkWork 8 0)).
  assert (E : 8 <= 0); [|lia].
  eapply Nat.le_trans; [apply H|vm_compute; apply le_n].
  - apply check_call_ok. check_call_tac.
  - apply wfs_b_ok. vm_compute. reflexivity.
  - vm_compute. reflexivity.
Qed.
Print Assumptions work_bounded_refuted.

(** ** Strategies *)

Lemma list_sum_reversed : forall n (g : nat -> nat),
  list_sum (map (fun j => g (n - 1 - j)) (seq 0 n)) = list_sum (map g (seq 0 n)).
Proof.
  induction n as [|n IH]; intros g; auto.
  change (seq 0 (S n)) with (0 :: seq 1 n) at 2. rewrite seq_S, map_app, list_sum_app. cbn [Nat.add map].
  replace (S n - 1 - n) with 0 by lia.
  assert (E : list_sum (map g (seq 1 n)) = list_sum (map (fun j => g (S j)) (seq 0 n))).
  { rewrite <- seq_shift, map_map. auto. }
  change (list_sum (g 0 :: map g (seq 1 n))) with (g 0 + list_sum (map g (seq 1 n))).
  rewrite E, <- (IH (fun j => g (S j))).
  rewrite (map_ext_in (fun j => g (S n - 1 - j)) (fun j => g (S (n - 1 - j)))).
  - cbn [list_sum fold_right]. lia.
  - intros j Hj. apply in_seq in Hj. f_equal. lia.
Qed.

Lemma concat_nth (l : list (list char)) c : In c (concat l) <-> exists i, i < length l /\ In c (nth i l []).
Proof.
  rewrite in_concat. split.
  - intros (x & Hx & Hc). apply (In_nth _ _ []) in Hx as (i & Hi & <-). eauto.
  - intros (i & Hi & Hc). exists (nth i l []). split; auto. apply nth_In. auto.
Qed.

Lemma elsewhere_In ops out j c : j < length ops ->
  In c (elsewhere ops out j) <-> (exists i, i < length ops /\ i <> j /\ In c (nth i ops [])) \/ In c out.
Proof.
  intros Hj. unfold elsewhere. rewrite !in_app_iff, !concat_nth, firstn_length, skipn_length.
  rewrite Nat.min_l by lia. split.
  - intros [(i & Hi & H)|[(i & Hi & H)|H]]; auto; left.
    + exists i. split; [lia|]. split; [lia|]. rewrite <- (firstn_skipn j ops), app_nth1 by (rewrite firstn_length; lia). auto.
    + exists (S j + i). split; [lia|]. split; [lia|]. rewrite <- (firstn_skipn (S j) ops), app_nth2 by (rewrite firstn_length; lia).
      rewrite firstn_length, Nat.min_l by lia. replace (S j + i - S j) with i by lia. auto.
  - intros [(i & Hi & Hn & H)|H]; auto. destruct (Nat.lt_ge_cases i j) as [Hlt|Hge].
    + left. exists i. split; auto. rewrite <- (firstn_skipn j ops), app_nth1 in H by (rewrite firstn_length; lia). auto.
    + right. left. exists (i - S j). split; [lia|].
      rewrite <- (firstn_skipn (S j) ops), app_nth2 in H by (rewrite firstn_length; lia).
      rewrite firstn_length, Nat.min_l in H by lia. auto.
Qed.

(** The strategies read the same number of elements in sums, and take the same number of products
    if there are at most two operands. *)
Theorem strategies_sum_alike :
  forall size ops out, total_summands size (rev ops) out = total_summands size ops out
  /\ (length ops <= 2 -> total_products size (rev ops) out = total_products size ops out).
Proof.
  intros size ops out. split.
  - unfold total_summands. rewrite rev_length, <- list_sum_reversed. f_equal. apply map_ext_in.
    intros j Hj. apply in_seq in Hj. rewrite rev_nth by lia.
    replace (length ops - S (length ops - 1 - j)) with j by lia.
    apply own_summands_ext. intros c _. rewrite !elsewhere_In by (rewrite ?rev_length; lia). rewrite rev_length.
    split; intros [(i & Hi & Hn & H)|H]; auto; left; exists (length ops - S i); repeat split; try lia.
    + rewrite rev_nth in H by lia. auto.
    + rewrite rev_nth by lia. replace (length ops - S (length ops - S i)) with i by lia. auto.
  - intros H. destruct ops as [|a [|b [|? ?]]]; auto; [|cbn [length] in H; lia].
    unfold total_products. cbn [rev app length Nat.sub seq map list_sum fold_right]. rewrite !Nat.add_0_r.
    apply prod_same; try apply step_labels_NoDup. intros c. rewrite !step_labels_In.
    cbn [firstn skipn nth concat]. rewrite !app_nil_r, !in_app_iff. simpl. tauto.
Qed.
Print Assumptions strategies_sum_alike.

Example strategies_sum_alike_example :
  let size := size_fn [(105%N, 2); (106%N, 3); (107%N, 5)] in
  total_summands size [chars "ij"; chars "k"; chars "k"] [] = 6 + 3
  /\ total_summands size (rev [chars "ij"; chars "k"; chars "k"]) [] = 9.
Proof. split; vm_compute; reflexivity. Qed.

(** For a chain of three matrices, of all sizes, the strategies take these numbers of products. *)
Theorem matrix_chain_work :
  forall size, let i := size 105%N in let j := size 106%N in let k := size 107%N in let l := size 108%N in
    total_products size [chars "ij"; chars "jk"; chars "kl"] (chars "il") = i * j * k + i * k * l
    /\ total_products size (rev [chars "ij"; chars "jk"; chars "kl"]) (chars "il") = j * k * l + i * j * l.
Proof.
  intros size. cbv zeta. unfold total_products. cbn [rev app length Nat.sub seq map list_sum fold_right].
  repeat match goal with |- context [step_labels ?a ?b ?c] =>
    let v := eval vm_compute in (step_labels a b c) in change (step_labels a b c) with v end.
  cbn [map prod fold_right]. lia.
Qed.
Print Assumptions matrix_chain_work.

(** So neither strategy is always within a constant factor of the other. *)
Theorem strategies_work_alike_refuted :
  let chain := [chars "ij"; chars "jk"; chars "kl"] in
  ~ (exists n, forall size,
       total_products size (rev chain) (chars "il") <= n * total_products size chain (chars "il"))
  /\ ~ (exists n, forall size,
       total_products size chain (chars "il") <= n * total_products size (rev chain) (chars "il")).
Proof.
  cbv zeta. split; intros [n H].
  - specialize (H (size_fn [(105%N, 1); (106%N, 1 + 2 * n); (107%N, 1); (108%N, 1 + 2 * n)])).
    rewrite !(proj1 (matrix_chain_work _)), !(proj2 (matrix_chain_work _)) in H.
    unfold size_fn in H. cbn [find fst snd N.eqb Pos.eqb] in H. nia.
  - specialize (H (size_fn [(105%N, 1 + 2 * n); (106%N, 1); (107%N, 1 + 2 * n); (108%N, 1)])).
    rewrite !(proj1 (matrix_chain_work _)), !(proj2 (matrix_chain_work _)) in H.
    unfold size_fn in H. cbn [find fst snd N.eqb Pos.eqb] in H. nia.
Qed.
Print Assumptions strategies_work_alike_refuted.

(** The counted runs of a chain of shapes 1x3, 3x1 and 1x3, with either strategy. *)
Example strategies_work_example :
  let arrays := [zarr [1; 3] [1; 2; 3]%Z; zarr [3; 1] [1; 2; 3]%Z; zarr [1; 3] [1; 2; 3]%Z] in
  compile_and_run_w c_backend id_hash (chars "ij,jk,kl->il") arrays Naive
  = Ok (zarr [1; 3] [14; 28; 42]%Z, mkWork 6 0)
  /\ compile_and_run_w c_backend id_hash (chars "ij,jk,kl->il") arrays Reverse
  = Ok (zarr [1; 3] [14; 28; 42]%Z, mkWork 18 0).
Proof. split; vm_compute; reflexivity. Qed.
