(** Two runs of a call, over backends that add up alike but may lay arrays out differently, on operands
    with the same elements: every intermediate result has the same elements. *)
From Verif Require Import Base BaseFacts NDArray Validation Optimizers Strategies Singleton Pair Path Api
  Spec ParserFacts ValidationFacts ValidationMain SumFacts ArrayFacts TensordotFacts DiagFacts SingletonFacts PairFacts
  StackedFacts PairMain PathFacts MismatchFacts TensordotMain EinsumMain EinsumProps ReproFacts.
From Coq Require Import Lia.

(** The two add up the same terms in the same order wherever the shapes are the same. *)
Definition adds_alike {A : Type} (lay lay' : backend A) : Prop :=
  (forall ax a a' idx l, a_shape a = a_shape a' -> add_up lay ax a idx l = add_up lay' ax a' idx l)
  /\ forall a b a' b' idx l, a_shape a = a_shape a' -> a_shape b = a_shape b' ->
       add_products lay a b idx l = add_products lay' a' b' idx l.

Section Twin.
Context {A : Type} {Sc : Scalar A}.
Variables lay lay' : backend A.
Hypothesis Hlay : backend_runs lay.
Hypothesis Hlay' : backend_runs lay'.
Hypothesis Hadd : adds_alike lay lay'.

Definition twin (a a' : arr A) : Prop := wf a /\ wf a' /\ same_array a a'.

(** If both run to the end, the results have the same elements. *)
Definition alike2 (x y : res (arr A)) : Prop :=
  forall r r', x = Ok r -> y = Ok r' -> same_array r r'.

Definition twins2 (x y : res (arr A)) : Prop :=
  forall r r', x = Ok r -> y = Ok r' -> twin r r'.

Lemma twins_alike x y : twins2 x y -> alike2 x y.
Proof. intros H r r' E E'. apply (H r r' E E'). Qed.

Lemma twins_bind (P : arr A -> arr A -> Prop) (x y : res (arr A)) k k' :
  (forall r r', x = Ok r -> y = Ok r' -> P r r') ->
  (forall r r', P r r' -> alike2 (k r) (k' r')) -> alike2 (rbind x k) (rbind y k').
Proof.
  intros H1 H2 r r'. destruct x as [u| |]; try discriminate. destruct y as [v| |]; try discriminate.
  cbn [rbind]. apply H2. auto.
Qed.

Lemma twin_f (a a' : arr A) : twin a a' -> exists f, holds a (a_shape a') f /\ holds a' (a_shape a') f.
Proof.
  intros (W & W' & Es & Eg). exists (elem a').
  pose proof (wf_holds a' W') as H'. split; auto.
  pose proof (wf_holds a W) as (_ & H2 & _). rewrite <- Es. split; [auto|]. split; [auto|].
  intros idx Hi. rewrite Eg by auto. apply H'. rewrite <- Es. auto.
Qed.

Lemma twin_of (a a' : arr A) sh f : holds a sh f -> holds a' sh f -> twin a a'.
Proof.
  intros H H'. split; [eapply holds_wf; eauto|]. split; [eapply holds_wf; eauto|].
  eapply same_array_holds; eauto.
Qed.

Lemma same_iter (a a' : arr A) : same_array a a' -> a_iter a = a_iter a'.
Proof.
  intros [Es Eg]. unfold a_iter. rewrite <- Es. apply BaseFacts.mapM_ext.
  intros idx Hi. apply Eg. apply indices_In. auto.
Qed.

Lemma same_arranged op ins op' ins' (a : arr A) : same_array (lay op ins a) (lay' op' ins' a).
Proof.
  destruct (arrange_ok Hlay op ins a) as (S1 & _ & G1).
  destruct (arrange_ok Hlay' op' ins' a) as (S2 & _ & G2).
  split; [congruence|]. rewrite S1. intros idx Hi. rewrite G1, G2; auto.
Qed.

Lemma permuted_twin (a a' : arr A) p : twin a a' -> twins2 (permuted_axes a p) (permuted_axes a' p).
Proof.
  intros H r r' E E'. pose proof (twin_f _ _ H) as (f & Ha & Ha').
  assert (Hp : Permutation p (seq 0 (length (a_shape a')))).
  { unfold permuted_axes in E'. destruct (_ && _) eqn:Ev; [|discriminate]. apply valid_axes; auto. }
  destruct (permuted_place a _ f p Ha Hp) as (v & Ev & Hv).
  destruct (permuted_place a' _ f p Ha' Hp) as (v' & Ev' & Hv').
  rewrite Ev in E. rewrite Ev' in E'. injection E as <-. injection E' as <-. eapply twin_of; eauto.
Qed.

Lemma to_owned_alike (a a' : arr A) : same_array a a' -> alike2 (to_owned lay a) (to_owned lay' a').
Proof.
  intros H r r'. unfold to_owned. rewrite <- (same_iter a a' H), <- (proj1 H).
  destruct (a_iter a); try discriminate. cbn [rbind]. intros E E'. injection E as <-. injection E' as <-.
  apply same_arranged.
Qed.

Lemma into_owned_alike (a a' : arr A) : same_array a a' -> alike2 (into_owned lay a) (into_owned lay' a').
Proof.
  intros H r r'. unfold into_owned. rewrite <- (same_iter a a' H), <- (proj1 H).
  destruct (a_iter a); try discriminate. cbn [rbind]. intros E E'. injection E as <-. injection E' as <-.
  apply same_arranged.
Qed.

Lemma mapv_alike g (a a' : arr A) : same_array a a' -> alike2 (mapv lay g a) (mapv lay' g a').
Proof.
  intros H r r'. unfold mapv. rewrite <- (same_iter a a' H), <- (proj1 H).
  destruct (a_iter a); try discriminate. cbn [rbind]. intros E E'. injection E as <-. injection E' as <-.
  apply same_arranged.
Qed.

Lemma same_first (a a' : arr A) : same_array a a' -> first a = first a'.
Proof.
  intros [Es Eg]. unfold first. rewrite <- Es. destruct (is_empty_shape (a_shape a)) eqn:E; auto.
  rewrite Eg; auto.
  assert (Hn : ~ In 0 (a_shape a)) by (intros Hi; apply is_empty_In in Hi; congruence).
  clear - Hn. induction (a_shape a) as [|d sh IH]; auto. simpl. simpl in Hn.
  rewrite IH by tauto. rewrite andb_true_r. apply Nat.ltb_lt. destruct d; [exfalso; auto|lia].
Qed.

Lemma same_get (a a' : arr A) idx : same_array a a' -> a_get a idx = a_get a' idx.
Proof.
  intros [Es Eg]. destruct (in_bounds (a_shape a) idx) eqn:E; [auto|].
  unfold a_get. rewrite <- Es, E. auto.
Qed.

Lemma sum_axis_alike ax (a a' : arr A) : same_array a a' -> alike2 (sum_axis lay a ax) (sum_axis lay' a' ax).
Proof.
  intros H r r'. unfold sum_axis. rewrite <- (proj1 H).
  destruct (index (a_shape a) ax) as [n| |]; try discriminate. cbn [rbind].
  match goal with |- rbind ?x _ = _ -> rbind ?y _ = _ -> _ => assert (E : x = y) end.
  { apply BaseFacts.mapM_ext. intros idx _.
    rewrite (BaseFacts.mapM_ext _ (fun i => a_get a' (insert_nth ax i idx)))
      by (intros; apply same_get; auto).
    destruct (mapM _ _); auto. cbn [rbind]. f_equal. apply (proj1 Hadd). apply (proj1 H). }
  rewrite <- E. destruct (mapM _ _); try discriminate. cbn [rbind].
  intros F F'. injection F as <-. injection F' as <-. apply same_arranged.
Qed.

Lemma summation_alike s (a a' : arr A) : same_array a a' -> alike2 (summation_contract lay s a) (summation_contract lay' s a').
Proof.
  intros H. unfold summation_contract. destruct (index (adjusted_axis_list s) 0); try discriminate.
  cbn [rbind]. eapply twins_bind; [apply sum_axis_alike; auto|].
  generalize (skipn 1 (adjusted_axis_list s)). induction l as [|ax l IH]; intros r r' Hr.
  - intros x y E E'. injection E as <-. injection E' as <-. auto.
  - cbn [foldM]. eapply twins_bind; [apply sum_axis_alike; auto|]. auto.
Qed.

Lemma mul_alike a b a' b' : twin a a' -> twin b b' -> alike2 (mul_arrays lay a b) (mul_arrays lay' a' b').
Proof.
  intros Ha Hb r r' E E'.
  destruct (hadamard_any lay Hlay a b) as [H1 H2]; [apply Ha|apply Hb|].
  destruct (hadamard_any lay' Hlay' a' b') as [H1' _]; [apply Ha|apply Hb|].
  unfold run_hadamard in *.
  destruct (co_broadcast_rev (rev (a_shape a)) (rev (a_shape b))) as [u|] eqn:Eu.
  2:{ rewrite H2 in E; [discriminate|]. intros sh Hc. apply co_broadcast_ok in Hc. congruence. }
  apply co_broadcast_ok in Eu. rewrite <- (rev_involutive u) in Eu.
  pose proof Eu as Eu'.
  destruct Ha as (_ & _ & Ha), Hb as (_ & _ & Hb). rewrite (proj1 Ha), (proj1 Hb) in Eu'.
  destruct (H1 _ Eu) as (x & Ex & Hx). destruct (H1' _ Eu') as (y & Ey & Hy).
  rewrite Ex in E. rewrite Ey in E'. injection E as <-. injection E' as <-.
  eapply same_array_holds; [exact Hx|]. eapply ArrayFacts.holds_ext; [|exact Hy].
  intros idx _. cbv beta. rewrite (proj1 Ha), (proj1 Hb).
  rewrite (same_array_elem a a' _ Ha), (same_array_elem b b' _ Hb). auto.
Qed.

(** ** Matrix products *)

Lemma as_matrix_twin m k a a' : twin a a' -> forall v v', as_matrix m k a = Ok v -> as_matrix m k a' = Ok v' ->
  same_array v v' /\ a_strides v = a_strides v'.
Proof.
  intros (W & W' & Hs) v v' E E'.
  destruct (as_matrix_any a m k W) as [H1 H2]. destruct (as_matrix_any a' m k W') as [H1' _].
  destruct (Nat.eq_dec (m * k) (prod (a_shape a))) as [Hp|Hp]; [|rewrite H2 in E by auto; discriminate].
  destruct (H1 Hp) as (x & Ex & Hx & Sx). rewrite (proj1 Hs) in Hp. destruct (H1' Hp) as (y & Ey & Hy & Sy).
  rewrite Ex in E. rewrite Ey in E'. injection E as <-. injection E' as <-.
  split; [|congruence]. eapply same_array_holds; [exact Hx|].
  eapply ArrayFacts.holds_ext; [|exact Hy]. intros idx _. unfold nth_elem. cbv beta.
  rewrite (proj1 Hs). symmetry. apply same_array_elem. exact Hs.
Qed.

Lemma dot_same (a b a' b' : arr A) : same_array a a' -> same_array b b' -> a_strides a = a_strides a' ->
  a_strides b = a_strides b' -> dot lay a b = dot lay' a' b'.
Proof.
  intros Ha Hb Sa Sb. unfold dot. rewrite <- (proj1 Ha), <- (proj1 Hb), <- Sa, <- Sb.
  destruct (a_shape a) as [|m [|k [|]]] eqn:Ea; auto. destruct (a_shape b) as [|k2 [|n [|]]] eqn:Eb; auto.
  assert (Ee : forall i j, dot_elem lay a b k i j = dot_elem lay' a' b' k i j).
  { intros i j. unfold dot_elem.
    rewrite (BaseFacts.mapM_ext _ (fun x => do p <- a_get a' [i; x]; do q <- a_get b' [x; j]; Ok (p, q))).
    - destruct (mapM _ _); auto. cbn [rbind]. f_equal. apply (proj2 Hadd); [apply Ha|apply Hb].
    - intros x _. rewrite (same_get a a'), (same_get b b') by auto. auto. }
  destruct (Nat.eqb k k2); auto. destruct (_ && _).
  - rewrite (BaseFacts.mapM_ext _ (fun ji => match ji with [j; i] => dot_elem lay' a' b' k i j | _ => Panic end)); auto.
    intros [|j [|i [|]]] _; auto.
  - rewrite (BaseFacts.mapM_ext _ (fun ij => match ij with [i; j] => dot_elem lay' a' b' k i j | _ => Panic end)); auto.
    intros [|j [|i [|]]] _; auto.
Qed.

Lemma tfp_same t a b a' b' : twin a a' -> twin b b' ->
  forall r r', run_tfp lay t a b = Ok r -> run_tfp lay' t a' b' = Ok r' -> r = r'.
Proof.
  intros Ha Hb r r'. unfold run_tfp.
  destruct (as_matrix _ _ a) as [v| |] eqn:E1; try discriminate.
  destruct (as_matrix _ _ a') as [v'| |] eqn:E1'; try discriminate.
  destruct (as_matrix _ _ b) as [w| |] eqn:E2; try discriminate.
  destruct (as_matrix _ _ b') as [w'| |] eqn:E2'; try discriminate.
  cbn [rbind]. destruct (as_matrix_twin _ _ _ _ Ha _ _ E1 E1') as [S1 T1].
  destruct (as_matrix_twin _ _ _ _ Hb _ _ E2 E2') as [S2 T2].
  rewrite (dot_same v w v' w') by auto. congruence.
Qed.

Lemma permutation_contract_same p (a : arr A) : alike2 (permutation_contract lay p a) (permutation_contract lay' p a).
Proof.
  unfold permutation_contract. destruct (permuted_axes a p); cbn [rbind]; try (intros ? ?; discriminate).
  apply to_owned_alike. split; auto.
Qed.

Lemma tg_alike t a b a' b' : twin a a' -> twin b b' -> alike2 (run_tg lay t a b) (run_tg lay' t a' b').
Proof.
  intros Ha Hb. unfold run_tg, permutation_view.
  eapply twins_bind; [apply permuted_twin; exact Ha|]. intros l l' Hl.
  eapply twins_bind; [apply permuted_twin; exact Hb|]. intros r r' Hr.
  eapply twins_bind; [apply tfp_same; eauto|]. intros d d' ->. apply permutation_contract_same.
Qed.

Lemma sub_views_wf (a : arr A) i v : wf a -> index_axis a 0 i = Ok v -> wf v.
Proof.
  intros W E. destruct (a_shape a) as [|d sh] eqn:Es.
  { unfold index_axis in E. rewrite Es in E. discriminate. }
  assert (Hi : i < d).
  { unfold index_axis in E. rewrite Es in E. cbn [index nth_error unwrap rbind] in E.
    destruct (index (a_strides a) 0); try discriminate. cbn [rbind] in E.
    destruct (Nat.ltb_spec i d); [auto|discriminate]. }
  pose proof (wf_holds a W) as H. rewrite Es in H.
  destruct (index_axis_holds a d sh _ i H Hi) as (r & Er & Hr & _). rewrite Er in E. injection E as <-.
  eapply holds_wf; eauto.
Qed.

Lemma outer_wf (a : arr A) l : wf a -> outer_iter a = Ok l -> Forall wf l.
Proof.
  intros W. unfold outer_iter. destruct (index (a_shape a) 0) as [n| |]; try discriminate. cbn [rbind].
  intros E. apply mapM_inv in E. apply Forall_forall. intros v Hv.
  induction E as [|i w is ws Hi E IH]; [contradiction|]. destruct Hv as [->|Hv]; auto.
  eapply sub_views_wf; eauto.
Qed.

Lemma stacked_alike s a b a' b' : twin a a' -> twin b b' -> alike2 (run_stacked lay s a b) (run_stacked lay' s a' b').
Proof.
  intros Ha Hb. unfold run_stacked, permutation_view.
  eapply twins_bind; [apply permuted_twin; exact Ha|]. intros l l' Hl.
  rewrite <- (same_iter l l') by apply Hl. destruct (a_iter l) as [ll| |] eqn:El; try (intros ? ?; discriminate). cbn [rbind].
  assert (Wc : forall sh v (x y : arr A), wf y -> a_iter y = Ok v -> from_shape_vec sh v = Ok x -> wf x).
  { intros sh v x y Wy Ey E. unfold from_shape_vec in E.
    destruct (Nat.eqb_spec (length v) (prod sh)) as [Hv|]; [|discriminate].
    injection E as <-. rewrite (holds_iter _ _ _ (wf_holds y Wy)) in Ey. injection Ey as <-.
    rewrite map_length, indices_length in Hv. eapply holds_wf, holds_reshape_copy. auto. }
  destruct (from_shape_vec (st_lhs_output_shape s) ll) as [lr| |] eqn:Elr; try (intros ? ?; discriminate). cbn [rbind].
  eapply twins_bind; [apply permuted_twin; exact Hb|]. intros r r' Hr.
  rewrite <- (same_iter r r') by apply Hr. destruct (a_iter r) as [rl| |] eqn:Er; try (intros ? ?; discriminate). cbn [rbind].
  destruct (from_shape_vec (st_rhs_output_shape s) rl) as [rr| |] eqn:Err; try (intros ? ?; discriminate). cbn [rbind].
  destruct (outer_iter lr) as [lsubs| |] eqn:Els; try (intros ? ?; discriminate). cbn [rbind].
  destruct (outer_iter rr) as [rsubs| |] eqn:Ers; try (intros ? ?; discriminate). cbn [rbind].
  destruct (index _ 0) as [n| |]; try (intros ? ?; discriminate). cbn [rbind].
  apply (Wc _ _ _ l) in Elr; [|apply Hl|auto]. apply (Wc _ _ _ r) in Err; [|apply Hr|auto]. pose proof (outer_wf _ _ Elr Els) as Wl. pose proof (outer_wf _ _ Err Ers) as Wr.
  eapply (twins_bind (fun x y => x = y)).
  - generalize (zeros (st_intermediate_shape s)). generalize (seq 0 n).
    assert (Step : forall buf i x y, stacked_iteration lay (st_fixed s) lsubs rsubs buf i = Ok x ->
                     stacked_iteration lay' (st_fixed s) lsubs rsubs buf i = Ok y -> x = y).
    { intros buf i x y. unfold stacked_iteration, contract_and_assign_pair.
      destruct (index_axis buf 0 i) as [o| |]; try discriminate. cbn [rbind].
      destruct (index lsubs i) as [u| |] eqn:Eu; try discriminate. cbn [rbind].
      destruct (index rsubs i) as [v| |] eqn:Ev; try discriminate. cbn [rbind].
      assert (Wu : wf u). { rewrite Forall_forall in Wl. apply Wl. unfold index in Eu. destruct (nth_error lsubs i) eqn:Ex; [|discriminate]. injection Eu as <-. eapply nth_error_In; eauto. }
      assert (Wv : wf v). { rewrite Forall_forall in Wr. apply Wr. unfold index in Ev. destruct (nth_error rsubs i) eqn:Ex; [|discriminate]. injection Ev as <-. eapply nth_error_In; eauto. }
      destruct (run_tfp lay (st_fixed s) u v) as [d| |] eqn:Ed; try discriminate.
      destruct (run_tfp lay' (st_fixed s) u v) as [d'| |] eqn:Ed'; try discriminate.
      assert (Tu : forall w, wf w -> twin w w) by (intros w Hw; split; auto; split; auto; split; auto).
      rewrite (tfp_same _ _ _ _ _ (Tu u Wu) (Tu v Wv) _ _ Ed Ed'). cbn [rbind].
      destruct (assign o d'); try discriminate. cbn [rbind]. congruence. }
    induction l0 as [|i is IH]; intros buf x y.
    + cbn [foldM]. congruence.
    + cbn [foldM]. destruct (stacked_iteration lay _ _ _ buf i) as [u| |] eqn:Eu; try discriminate.
      destruct (stacked_iteration lay' _ _ _ buf i) as [v| |] eqn:Ev; try discriminate.
      cbn [rbind]. rewrite (Step _ _ _ _ Eu Ev). apply IH.
  - intros x y ->. destruct (into_shape y _); cbn [rbind]; try (intros ? ?; discriminate).
    apply permutation_contract_same.
Qed.

Lemma scalar_alike a b a' b' : same_array a a' -> same_array b b' ->
  alike2 (run_scalar_matrix lay a b) (run_scalar_matrix lay' a' b').
Proof.
  intros Ha Hb. unfold run_scalar_matrix. rewrite <- (same_first a a' Ha).
  destruct (first a) as [[x|]| |]; cbn [rbind unwrap]; try (intros ? ?; discriminate). apply mapv_alike. auto.
Qed.

Lemma scalar_alike_r a b a' b' : same_array a a' -> same_array b b' ->
  alike2 (run_matrix_scalar lay a b) (run_matrix_scalar lay' a' b').
Proof.
  intros Ha Hb. unfold run_matrix_scalar. rewrite <- (same_first b b' Hb).
  destruct (first b) as [[x|]| |]; cbn [rbind unwrap]; try (intros ? ?; discriminate). apply mapv_alike. auto.
Qed.

(** Every contractor but the one that is never chosen. *)
Lemma run_pair_alike op a b a' b' : (forall bp, op <> OpBroadcastProductGeneral bp) -> twin a a' -> twin b b' ->
  alike2 (run_pair lay op a b) (run_pair lay' op a' b').
Proof.
  intros Hop Ha Hb. destruct op; cbn [run_pair].
  - apply mul_alike; auto.
  - unfold run_hadamard_general, permutation_view.
    eapply twins_bind; [apply permuted_twin; exact Ha|]. intros l l' Hl.
    eapply twins_bind; [apply permuted_twin; exact Hb|]. intros r r' Hr. apply mul_alike; auto.
  - apply scalar_alike; [apply Ha|apply Hb].
  - unfold run_scalar_matrix_general, permutation_view.
    eapply twins_bind; [apply permuted_twin; exact Hb|]. intros r r' Hr. apply scalar_alike; [apply Ha|apply Hr].
  - apply scalar_alike_r; [apply Ha|apply Hb].
  - unfold run_matrix_scalar_general, permutation_view.
    eapply twins_bind; [apply permuted_twin; exact Ha|]. intros r r' Hr. apply scalar_alike_r; [apply Hr|apply Hb].
  - intros r r' E E'. rewrite (tfp_same _ _ _ _ _ Ha Hb _ _ E E'). split; auto.
  - apply tg_alike; auto.
  - exfalso. eapply Hop; eauto.
  - apply stacked_alike; auto.
Qed.

(** ** Contractors compiled from labels *)

Section Typed.
Variables (h : hash_order) (size : char -> nat).
Hypothesis Hh : hash_ok h.

(** Two arrays with the same elements, of the shape their labels ask for. *)
Definition fit2 (a a' : arr A) (ls : list char) : Prop := twin a a' /\ a_shape a = map size ls.

Lemma fit_lrep a a' ls : fit2 a a' ls -> exists F, lrep size a ls F /\ lrep size a' ls F.
Proof.
  intros [H Es]. destruct (twin_f _ _ H) as (f & Ha & Ha'). destruct H as (_ & _ & Hs).
  rewrite <- (proj1 Hs), Es in Ha, Ha'. eauto using holds_lrep.
Qed.

Lemma fit_intro a a' ls F F' : NoDup ls -> lrep size a ls F -> lrep size a' ls F' -> same_array a a' -> fit2 a a' ls.
Proof.
  intros Hn H H' Hs. split; [|apply H].
  split; [eapply holds_wf, lrep_holds; eauto|]. split; [eapply holds_wf, lrep_holds; eauto|auto].
Qed.

(** What DiagonalizationAndSummation sums. *)
Lemma diag_viewed (L : backend A) (HL : backend_runs L) sc this out ls m a v F : sized sc [this] out size -> wf a -> lrep size a this F ->
  NoDup ls -> (forall c, In c ls <-> In c this) -> Forall2 (fun c p => position c ls = Some p) this m ->
  (if match as_slice_memory_order a with Some _ => true | None => false end
      && forallb (fun st => Z.ltb 0 st) (a_strides a)
   then diagonalization_view (mkDiag m (map size ls)) a
   else diagonalization_contract L (mkDiag m (map size ls)) a) = Ok v -> lrep size v ls F.
Proof.
  intros HS Wa Ha Nl Il HF E.
  assert (Hd : (forall c, In c this -> size c <> 0) \/ exists c, In c this /\ size c = 0).
  { clear. induction this as [|c l [IH|(d & H1 & H2)]]; [left; contradiction| |right; exists d; simpl; auto].
    destruct (Nat.eq_dec (size c) 0) as [Hz|Hz]; [right; exists c; simpl; auto|].
    left. intros d [<-|Hd]; auto. }
  destruct (_ && _) eqn:Eb.
  - apply andb_true_iff in Eb as [E1 E2].
    assert (Hpos : Forall (fun s => 0 < s)%Z (a_strides a)).
    { apply Forall_forall. rewrite forallb_forall in E2. intros s Hs. apply Z.ltb_lt; auto. }
    assert (Hct : is_contiguous a = true).
    { unfold as_slice_memory_order in E1. destruct (is_contiguous a); auto. }
    destruct Hd as [Hd|Hd].
    + destruct (diagonalization_view_lrep size a this ls m F) as (w & Ew & Hw); auto. congruence.
    + destruct (diagonalization_view_empty this size a F ls m) as [[Ew _]|[_ (w & Ew & Hw)]]; auto; congruence.
  - destruct Hd as [Hd|Hd].
    + destruct (diagonalization_contract_lrep this size L HL a F ls m) as (w & Ew & Hw); auto. congruence.
    + rewrite (diagonalization_contract_empty sc this out size HS L a F) in E by auto. discriminate.
Qed.

Lemma lrep_same (a a' : arr A) ls F : NoDup ls -> lrep size a ls F -> lrep size a' ls F -> same_array a a'.
Proof. intros Hn H H'. eapply same_array_holds; eapply lrep_holds; eauto. Qed.

Lemma run_singleton_alike sc this out c a a' : sized sc [this] out size -> singleton_contraction_new sc = Ok c ->
  fit2 a a' this -> alike2 (run_singleton lay (sgl_op c) a) (run_singleton lay' (sgl_op c) a').
Proof.
  intros HS Ec Hf. pose proof Hf as [Ht Es]. pose proof Ht as (Wa & Wa' & Hs).
  assert (Hdiag : exists ex m, diagonalization_new sc = Ok (mkDiag m (map size (out ++ ex)))
     /\ NoDup (out ++ ex) /\ (forall c, In c (out ++ ex) <-> In c this)
     /\ Forall2 (fun c p => position c (out ++ ex) = Some p) this m).
  { destruct (diagonalization_new_ok sc this out size HS) as (ex & m & E & H1 & H2 & H3).
    exists ex, m. split; auto. split; auto. split; auto. intros x. rewrite in_app_iff, H2.
    destruct HS as (_ & [_ Hi] & _). simpl in Hi. rewrite app_nil_r in Hi. specialize (Hi x).
    destruct (in_dec N.eq_dec x out); tauto. }
  destruct (fit_lrep _ _ _ Hf) as (F & Ha & Ha').
  unfold singleton_contraction_new in Ec. apply rbind_ok in Ec as (sm & _ & Ec).
  apply rbind_ok in Ec as (op & Eop & Ec). injection Ec as <-. cbn [sgl_op].
  destruct (singleton_strategy sm); cbn [singleton_op_new] in Eop.
  - injection Eop as <-. apply to_owned_alike; auto.
  - apply rbind_ok in Eop as (p & _ & Eop). injection Eop as <-. cbn [run_singleton]. unfold permutation_contract.
    eapply twins_bind; [apply permuted_twin; exact Ht|]. intros r r' Hr. apply to_owned_alike. apply Hr.
  - apply rbind_ok in Eop as (p & _ & Eop). injection Eop as <-. cbn [run_singleton]. apply summation_alike; auto.
  - destruct Hdiag as (ex & m & Ed & Nl & Il & HF). rewrite Ed in Eop. injection Eop as <-. cbn [run_singleton].
    unfold diagonalization_contract. rewrite <- (same_iter a a' Hs), <- (proj1 Hs).
    destruct (a_iter a) as [l| |]; cbn [rbind]; try (intros ? ?; discriminate).
    destruct (from_shape_vec (a_shape a) l) as [cl| |]; cbn [rbind]; try (intros ? ?; discriminate).
    destruct (diagonalization_view _ cl) as [v| |]; cbn [rbind]; try (intros ? ?; discriminate).
    apply into_owned_alike. split; auto.
  - apply rbind_ok in Eop as (p & _ & Eop). injection Eop as <-. cbn [run_singleton]. unfold permutation_view.
    eapply twins_bind; [apply permuted_twin; exact Ht|]. intros r r' Hr. apply summation_alike. apply Hr.
  - destruct Hdiag as (ex & m & Ed & Nl & Il & HF). unfold diag_and_sum_new in Eop. rewrite Ed in Eop.
    cbn [rbind] in Eop. apply rbind_ok in Eop as (ds & Eds & Eop). injection Eop as <-.
    apply rbind_ok in Eds as (n & _ & Eds). apply rbind_ok in Eds as (su & _ & Eds). injection Eds as <-.
    cbn [fst snd run_singleton]. unfold diag_and_sum_contract.
    eapply twins_bind; [|intros r r' Hr; apply summation_alike; exact Hr].
    intros v v' Ev Ev'. eapply lrep_same; [exact Nl| |].
    + eapply (diag_viewed lay Hlay sc this out (out ++ ex) m a v F); eauto.
    + eapply (diag_viewed lay' Hlay' sc this out (out ++ ex) m a' v' F); eauto.
Qed.

Lemma simplification_fits k this other out orig ops o s a a' : sized orig ops o size -> incl this (concat ops) ->
  simplification_from h k this other out orig = Ok s -> fit2 a a' this ->
  forall r r', run_simplification lay s a = Ok r -> run_simplification lay' s a' = Ok r' ->
    fit2 r r' (new_labels s this).
Proof.
  intros HS Hi Es Hf r r' E E'.
  destruct (simplification_ok h size Hh lay Hlay k this other out orig ops o HS Hi) as (s1 & E1 & Nn & In_n & R1).
  destruct (simplification_ok h size Hh lay' Hlay' k this other out orig ops o HS Hi) as (s2 & E2 & _ & _ & R2).
  assert (s1 = s) by congruence. assert (s2 = s) by congruence. subst s1 s2.
  destruct (fit_lrep _ _ _ Hf) as (F & Ha & Ha'). pose proof Hf as [(Wa & Wa' & Hs) Esh].
  destruct (R1 a F Wa Ha) as [[Ex _]|[_ (x & cs & Ex & _ & _ & G & Hx & _)]]; [congruence|].
  destruct (R2 a' F Wa' Ha') as [[Ey _]|[_ (y & cs' & Ey & _ & _ & G' & Hy & _)]]; [congruence|].
  assert (x = r) by congruence. assert (y = r') by congruence. subst x y.
  eapply fit_intro; eauto.
  destruct s as [s|]; cbn [run_simplification] in E, E'.
  - unfold simplification_from in Es.
    set (desired := filter _ (distinct this)) in Es. set (new := h (0 :: k) desired) in Es.
    assert (Pn : Permutation desired new) by apply Hh.
    apply rbind_ok in Es as (ssc & Essc & Es).
    destruct (subset_ok h (1 :: k) orig ops o size [this] new Hh HS) as (ssc' & Es' & HSs).
    { simpl. rewrite app_nil_r. auto. }
    { split.
      - eapply Permutation_NoDup; [exact Pn|]. apply NoDup_filter, distinct_NoDup.
      - simpl. rewrite app_nil_r. intros c Hc. apply (Permutation_in _ (Permutation_sym Pn)) in Hc.
        unfold desired in Hc. apply filter_In in Hc as [Hc _]. rewrite distinct_In in Hc. auto. }
    rewrite Es' in Essc. cbn [unwrap_res] in Essc. injection Essc as <-.
    apply rbind_ok in Es as (c & Ec & Es).
    assert (Eop : simpl_op s = sgl_op c).
    { destruct (sgl_method c); try discriminate;
        apply rbind_ok in Es as (str & _ & Es); injection Es as <-; reflexivity. }
    rewrite Eop in E, E'. eapply (run_singleton_alike ssc' this new c a a'); eauto.
  - injection E as <-. injection E' as <-. auto.
Qed.

(** Every scalar is related to the one element of the trivial semiring. *)
Let anything (x : A) (y : unit) : Prop := True.
Lemma anything_ok : @weak_relation A unit Sc unit_scalar anything (fun _ => True).
Proof. split; intros; try split; exact I. Qed.
Lemma anything_fused (L : backend A) : @weak_fused A unit Sc unit_scalar anything (fun _ => True) L.
Proof. split; intros; try exact I. intros ? ? ? ? ? ? ? ? ?. exact I. Qed.
Lemma unit_summable : @summable unit unit_scalar size.
Proof. split; [apply semiring_near, unit_semiring|]. left. intros []. reflexivity. Qed.

Lemma pair_result (L : backend A) (HL : backend_runs L) k sc lhs rhs out p a b r : sized sc [lhs; rhs] out size ->
  pair_contraction_new h k sc = Ok p -> wf a -> wf b -> a_shape a = map size lhs -> a_shape b = map size rhs ->
  run_pair_contraction L p a b = Ok r -> exists F, lrep size r out F.
Proof.
  intros HS Ep Wa Wb Sa Sb E.
  destruct (pair_contraction_ok (Sb := unit_scalar) h size Hh L HL anything (fun _ => True) anything_ok (or_introl (fun _ _ => I))
    (anything_fused L) (summable_near unit_summable) unit_summable k sc lhs rhs out HS) as (p' & Ep' & Hp).
  assert (p' = p) by congruence. subst p'.
  assert (Ra : rrep size anything a lhs (fun _ => tt)).
  { exists (fun e => elem a (map e lhs)). split; [apply lrep_wf; auto|intros; exact I]. }
  assert (Rb : rrep size anything b rhs (fun _ => tt)).
  { exists (fun e => elem b (map e rhs)). split; [apply lrep_wf; auto|intros; exact I]. }
  destruct (Hp a b (fun _ => tt) (fun _ => tt) Wa Wb Ra Rb (fun _ _ _ => eq_refl) (fun _ _ _ => eq_refl))
    as [[Er _]|[_ [_ (x & cs & Ex & _ & G & HG & _)]]]; [congruence|].
  assert (x = r) by congruence. subst. eauto.
Qed.

Lemma pair_fits k sc lhs rhs out p a a' b b' : sized sc [lhs; rhs] out size -> pair_contraction_new h k sc = Ok p ->
  fit2 a a' lhs -> fit2 b b' rhs ->
  forall r r', run_pair_contraction lay p a b = Ok r -> run_pair_contraction lay' p a' b' = Ok r' ->
    fit2 r r' out.
Proof.
  intros HS Ep Ha Hb r r' E E'.
  assert (No : NoDup out) by (destruct HS as (_ & [H _] & _); auto).
  pose proof Ha as [(Wa & Wa' & Hsa) Sa]. pose proof Hb as [(Wb & Wb' & Hsb) Sb].
  destruct (pair_result lay Hlay k sc lhs rhs out p a b r) as (F & HF); auto.
  destruct (pair_result lay' Hlay' k sc lhs rhs out p a' b' r') as (F' & HF'); auto.
  { rewrite <- (proj1 Hsa). auto. }
  { rewrite <- (proj1 Hsb). auto. }
  eapply fit_intro; eauto. clear HF HF' F F'.
  unfold pair_contraction_new in Ep. rewrite (sc_ops2 sc lhs rhs out size HS), (sc_out2 sc lhs rhs out size HS) in Ep.
  cbn [length Nat.eqb rassert rbind] in Ep. unfold index in Ep. cbn [nth_error unwrap rbind] in Ep.
  apply rbind_ok in Ep as (ls & El & Ep). apply rbind_ok in Ep as (rs & Er & Ep).
  apply rbind_ok in Ep as (red & _ & Ep). apply rbind_ok in Ep as (sm & _ & Ep).
  apply rbind_ok in Ep as (op & Eop & Ep). apply rbind_ok in Ep as (str & _ & Ep). injection Ep as <-.
  unfold run_pair_contraction in E, E'. cbn [pc_lhs_simplification pc_rhs_simplification pc_op] in E, E'.
  apply rbind_ok in E as (l & E1 & E). apply rbind_ok in E as (m & E2 & E).
  apply rbind_ok in E' as (l' & E1' & E'). apply rbind_ok in E' as (m' & E2' & E').
  assert (Fl : fit2 l l' (new_labels ls lhs)).
  { eapply (simplification_fits (0 :: k) lhs rhs out sc [lhs; rhs] out ls a a'); eauto.
    simpl. intros c Hc. apply in_or_app; auto. }
  assert (Fm : fit2 m m' (new_labels rs rhs)).
  { eapply (simplification_fits (1 :: k) rhs lhs out sc [lhs; rhs] out rs b b'); eauto.
    simpl. rewrite app_nil_r. intros c Hc. apply in_or_app; auto. }
  eapply (run_pair_alike op l m l' m'); [|apply Fl|apply Fm|exact E|exact E'].
  intros bp ->. revert Eop. unfold pair_strategy.
  destruct (num_contracted_axes sm), (num_lhs_outer_axes sm), (num_rhs_outer_axes sm), (num_stacked_axes sm);
    cbn [pair_op_new]; intros Eop; apply rbind_ok in Eop as (? & _ & Eop); discriminate.
Qed.

Lemma chain_fits k out i L todo js lhs steps : chain size out i L todo js lhs steps ->
  forall j pcs, mapM (fun ist => pair_contraction_new h (fst ist :: 9 :: k) (ps_sc (snd ist)))
      (combine (seq j (length steps)) steps) = Ok pcs ->
  forall operands operands' ints ints' a a' bs bs',
    length ints = i -> length ints' = i ->
    fetch operands ints lhs = Ok a -> fetch operands' ints' lhs = Ok a' -> fit2 a a' L ->
    Forall2 (fun j b => index operands j = Ok b) js bs ->
    Forall2 (fun j b => index operands' j = Ok b) js bs' ->
    Forall2 (fun bb ls => fit2 (fst bb) (snd bb) ls) (combine bs bs') todo ->
    forall rs rs', foldM (run_step lay operands) (combine pcs steps) ints = Ok rs ->
      foldM (run_step lay' operands') (combine pcs steps) ints' = Ok rs' ->
      exists r r', pop_last rs = Some r /\ pop_last rs' = Some r' /\ fit2 r r' out.
Proof.
  assert (Last : forall (l : list (arr A)) x, pop_last (l ++ [x]) = Some x).
  { intros l x. unfold pop_last. rewrite app_length. simpl. rewrite Nat.add_sub, nth_error_app2, Nat.sub_diag by lia. auto. }
  induction 1 as [i L r n lhs sc HS|i L r rest n js lhs sc L' steps Hne HS HL Hch IH];
    intros j pcs Ec operands operands' ints ints' a a' bs bs' Li Li' Ea Ea' Ha Hb Hb' Hf rs rs' E E'.
  - cbn [length seq combine mapM fst snd ps_sc] in Ec. apply rbind_ok in Ec as (p & Ep & Ec).
    cbn [rbind] in Ec. injection Ec as <-.
    inversion Hb as [|? b ? bs0 Eb Hb0]; subst. inversion Hb0; subst.
    inversion Hb' as [|? b' ? bs0' Eb' Hb0']; subst. inversion Hb0'; subst.
    cbn [combine] in Hf. inversion Hf as [|? ? ? ? Fb _]; subst. cbn [fst snd] in Fb.
    cbn [combine foldM run_step ps_lhs ps_rhs] in E, E'. rewrite Ea in E. rewrite Ea' in E'.
    cbn [rbind fetch] in E, E'. rewrite Eb in E. rewrite Eb' in E'. cbn [rbind] in E, E'.
    apply rbind_ok in E as (x & Ex & E). apply rbind_ok in E' as (y & Ey & E').
    injection E as <-. injection E' as <-.
    apply rbind_ok in Ex as (r1 & Er1 & Ex). apply rbind_ok in Ey as (r2 & Er2 & Ey).
    injection Ex as <-. injection Ey as <-. exists r1, r2. rewrite !Last. split; auto. split; auto.
    eapply pair_fits; eauto.
  - cbn [length seq combine mapM fst snd ps_sc] in Ec. apply rbind_ok in Ec as (p & Ep & Ec).
    apply rbind_ok in Ec as (pcs' & Ec' & Ec). injection Ec as <-.
    inversion Hb as [|? b ? bs0 Eb Hb0]; subst. inversion Hb' as [|? b' ? bs0' Eb' Hb0']; subst.
    cbn [combine] in Hf. inversion Hf as [|? ? ? ? Fb Hf']; subst. cbn [fst snd] in Fb.
    cbn [combine foldM run_step ps_lhs ps_rhs] in E, E'. rewrite Ea in E. rewrite Ea' in E'.
    cbn [rbind fetch] in E, E'. rewrite Eb in E. rewrite Eb' in E'. cbn [rbind] in E, E'.
    apply rbind_ok in E as (x & Ex & E). apply rbind_ok in E' as (y & Ey & E').
    apply rbind_ok in Ex as (r1 & Er1 & Ex). apply rbind_ok in Ey as (r2 & Er2 & Ey).
    injection Ex as <-. injection Ey as <-.
    eapply (IH (S j) pcs' Ec' operands operands' (ints ++ [r1]) (ints' ++ [r2]) r1 r2 bs0 bs0'); eauto.
    + rewrite app_length. simpl. lia.
    + rewrite app_length. simpl. lia.
    + cbn [fetch]. apply index_some. rewrite nth_error_app2, Nat.sub_diag by lia. reflexivity.
    + cbn [fetch]. apply index_some. rewrite nth_error_app2 by lia. rewrite Li', Nat.sub_diag. reflexivity.
    + eapply pair_fits; eauto.
Qed.

(** ** Whole paths *)

Lemma fits_nth arrays arrays' ops : Forall2 twin arrays arrays' -> shapes_ok size ops (map (@a_shape A) arrays) ->
  forall i, i < length ops -> exists a a', index arrays i = Ok a /\ index arrays' i = Ok a' /\ fit2 a a' (nth i ops []).
Proof.
  intros H. revert ops. induction H as [|a a' l l' Ha Hl IH]; intros [|ix ops] Hs i Hi; simpl in *; try lia; inversion Hs as [|? ? ? ? Es Hs']; subst.
  destruct i as [|i].
  - exists a, a'. unfold index. cbn [nth_error unwrap nth]. split; auto. split; auto. split; auto.
  - apply (IH ops Hs' i). lia.
Qed.

Theorem path_twins k k' sc ops out ord order p arrays arrays' :
  sized sc ops out size -> ops <> [] -> Permutation ord (seq 0 (length ops)) ->
  generate_path h k sc ord = Ok order -> from_path h k' order = Ok p ->
  Forall2 twin arrays arrays' -> shapes_ok size ops (map (@a_shape A) arrays) ->
  alike2 (contract_operands lay p arrays) (contract_operands lay' p arrays').
Proof.
  intros HS Hne Hp Eg Ef Ht Hsh r r' E E'.
  pose proof (fits_nth arrays arrays' ops Ht Hsh) as Hn.
  destruct (generate_path_ok h k size Hh sc ops out ord HS Hne Hp) as
    [(sc' & Hl & Eg' & HS')|(i0 & js & L & todo & steps & Eo & Ep & Htd & Eg' & Hch)];
    rewrite Eg' in Eg; injection Eg as <-; cbn [from_path] in Ef.
  - destruct ops as [|this [|? ?]]; try discriminate. cbn [length seq] in Hp.
    assert (ord = [0]) by (apply Permutation_length_1_inv; apply Permutation_sym; auto). subst ord. cbn [map nth] in HS'.
    apply rbind_ok in Ef as (c & Ec & Ef). injection Ef as <-.
    cbn [contract_operands path_steps path_order] in E, E'.
    destruct (Hn 0) as (a & a' & Ea & Ea' & Ha); [simpl; lia|]. rewrite Ea in E. rewrite Ea' in E'. cbn [rbind] in E, E'.
    eapply (run_singleton_alike sc' this out c a a'); eauto.
  - apply rbind_ok in Ef as (pcs & Ec & Ef). injection Ef as <-.
    cbn [contract_operands path_steps path_order] in E, E'.
    apply rbind_ok in E as (rs & Er & E). apply rbind_ok in E' as (rs' & Er' & E').
    assert (Hin : forall i, In i ord -> i < length ops).
    { intros i Hi. apply (Permutation_in _ Hp), in_seq in Hi. lia. }
    destruct (Hn i0) as (a & a' & Ea & Ea' & Ha). { apply Hin. rewrite Eo. simpl; auto. }
    assert (HL : L = nth i0 ops []) by (rewrite Eo in Ep; simpl in Ep; congruence).
    assert (Htodo : todo = map (fun i => nth i ops []) js) by (rewrite Eo in Ep; simpl in Ep; congruence).
    assert (Hb : forall js, (forall i, In i js -> i < length ops) -> exists bs bs',
      Forall2 (fun j b => index arrays j = Ok b) js bs /\ Forall2 (fun j b => index arrays' j = Ok b) js bs'
      /\ Forall2 (fun bb ls => fit2 (fst bb) (snd bb) ls) (combine bs bs') (map (fun i => nth i ops []) js)).
    { clear - Hn. induction js as [|j js IH]; intros Hj.
      - exists [], []. simpl. auto.
      - destruct IH as (bs & bs' & H1 & H2 & H3); [intros; apply Hj; simpl; auto|].
        destruct (Hn j) as (b & b' & Eb & Eb' & Fb); [apply Hj; simpl; auto|].
        exists (b :: bs), (b' :: bs'). simpl. auto. }
    destruct (Hb js) as (bs & bs' & H1 & H2 & H3). { intros i Hi. apply Hin. rewrite Eo. simpl; auto. }
    rewrite <- Htodo in H3. rewrite <- HL in Ha.
    destruct (chain_fits k' out 0 L todo js (Input i0) steps Hch 0 pcs Ec arrays arrays' [] [] a a' bs bs'
                eq_refl eq_refl Ea Ea' Ha H1 H2 H3 rs rs' Er Er') as (x & x' & Ex & Ex' & Hx).
    rewrite Ex in E. rewrite Ex' in E'. injection E as <-. injection E' as <-. apply Hx.
Qed.

End Typed.
End Twin.

(** ** Calls that sum no axis by itself *)

(** The backend with other sums along axes. *)
Definition with_axis_sums {A : Type} (lay : backend A) (sum : nat -> arr A -> list nat -> list A -> A) : backend A :=
  mkBackend (arrange lay) sum (fused lay) (add_products lay).

Section Unsummed.
Context {A : Type} {Sc : Scalar A}.
Variables (h : hash_order) (size : char -> nat).
Hypothesis Hh : hash_ok h.

Lemma run_pair_sums lay sum op (a b : arr A) : run_pair (with_axis_sums lay sum) op a b = run_pair lay op a b.
Proof. destruct op; reflexivity. Qed.

Definition unsimplified (p : pair_contraction) : Prop :=
  pc_lhs_simplification p = None /\ pc_rhs_simplification p = None.

Lemma run_pair_contraction_sums lay sum p (a b : arr A) : unsimplified p ->
  run_pair_contraction (with_axis_sums lay sum) p a b = run_pair_contraction lay p a b.
Proof.
  intros [El Er]. unfold run_pair_contraction. rewrite El, Er. cbn [run_simplification rbind]. apply run_pair_sums.
Qed.

Lemma pair_unsimplified k sc lhs rhs out p : sized sc [lhs; rhs] out size -> NoDup lhs -> NoDup rhs ->
  (forall c, In c lhs -> In c rhs \/ In c out) -> (forall c, In c rhs -> In c lhs \/ In c out) ->
  pair_contraction_new h k sc = Ok p -> unsimplified p.
Proof.
  intros HS Hl Hr Ul Ur Ep. unfold pair_contraction_new in Ep.
  rewrite (sc_ops2 sc lhs rhs out size HS), (sc_out2 sc lhs rhs out size HS) in Ep.
  cbn [length Nat.eqb rassert rbind] in Ep. unfold index in Ep. cbn [nth_error unwrap rbind] in Ep.
  assert (I1 : incl lhs (concat [lhs; rhs])) by (simpl; intros c Hc; apply in_or_app; auto).
  assert (I2 : incl rhs (concat [lhs; rhs])) by (simpl; rewrite app_nil_r; intros c Hc; apply in_or_app; auto).
  rewrite (simplification_none h _ lhs rhs out sc [lhs; rhs] out size) in Ep by auto.
  rewrite (simplification_none h _ rhs lhs out sc [lhs; rhs] out size) in Ep by auto.
  cbn [rbind] in Ep. apply rbind_ok in Ep as (red & _ & Ep). apply rbind_ok in Ep as (sm & _ & Ep).
  apply rbind_ok in Ep as (op & _ & Ep). apply rbind_ok in Ep as (str & _ & Ep). injection Ep as <-. split; auto.
Qed.

(** No operand repeats a label, and every label of an operand is one of another operand or of the output. *)
Definition all_shared (ops : list (list char)) (out : list char) : Prop :=
  Forall (@NoDup char) ops
  /\ forall before this after c, ops = before ++ this :: after -> In c this ->
       In c (concat (before ++ after)) \/ In c out.

Lemma chain_unsimplified k out i L todo js lhs steps : chain size out i L todo js lhs steps ->
  all_shared (L :: todo) out ->
  forall j pcs, mapM (fun ist => pair_contraction_new h (fst ist :: 9 :: k) (ps_sc (snd ist)))
      (combine (seq j (length steps)) steps) = Ok pcs -> Forall unsimplified pcs.
Proof.
  induction 1 as [i L r n lhs sc HS|i L r rest n js lhs sc L' steps Hne HS HL Hch IH]; intros [Hn Hs] j pcs Ec;
    cbn [length seq combine mapM fst snd ps_sc] in Ec; apply rbind_ok in Ec as (p & Ep & Ec);
    inversion Hn as [|? ? NL Hn']; subst; inversion Hn' as [|? ? Nr Hn'']; subst.
  - cbn [rbind] in Ec. injection Ec as <-. constructor; auto.
    eapply (pair_unsimplified _ sc L r out p HS); eauto.
    + intros c Hc. destruct (Hs [] L [r] c eq_refl Hc) as [H|H]; auto. simpl in H. rewrite app_nil_r in H. auto.
    + intros c Hc. destruct (Hs [L] r [] c eq_refl Hc) as [H|H]; auto. simpl in H. rewrite app_nil_r in H. auto.
  - apply rbind_ok in Ec as (pcs' & Ec' & Ec). injection Ec as <-.
    assert (H1 : forall c, In c L -> In c r \/ In c (concat rest) \/ In c out).
    { intros c Hc. destruct (Hs [] L (r :: rest) c eq_refl Hc) as [H|H]; auto. simpl in H. apply in_app_iff in H. tauto. }
    assert (H2 : forall c, In c r -> In c L \/ In c (concat rest) \/ In c out).
    { intros c Hc. destruct (Hs [L] r rest c eq_refl Hc) as [H|H]; auto. simpl in H. apply in_app_iff in H. tauto. }
    constructor.
    + eapply (pair_unsimplified _ sc L r L' p HS); eauto.
      * intros c Hc. specialize (H1 c Hc). rewrite HL. tauto.
      * intros c Hc. specialize (H2 c Hc). rewrite HL. tauto.
    + eapply IH; [|exact Ec']. split.
      * constructor; auto. destruct HS as (_ & [H _] & _). auto.
      * intros before this after c E Hc. destruct before as [|x before].
        { injection E as <- <-. apply HL in Hc. simpl. tauto. }
        injection E as <- Er. cbn [app concat]. rewrite in_app_iff.
        destruct (Hs (L :: r :: before) this after c) as [H|H]; auto.
        { cbn [app]. rewrite <- Er. auto. }
        cbn [app concat] in H. rewrite !in_app_iff in H. rewrite HL.
        assert (Hcr : In c (concat rest)).
        { rewrite Er. apply in_concat. exists this. split; auto. apply in_or_app. simpl; auto. }
        tauto.
Qed.

Lemma steps_sums lay sum operands pcs steps : Forall unsimplified pcs -> forall ints,
  foldM (run_step (with_axis_sums lay sum) operands) (combine pcs steps) ints
  = foldM (run_step (A := A) lay operands) (combine pcs steps) ints.
Proof.
  intros H. revert steps. induction H as [|p pcs Hp H IH]; intros [|st steps] ints; auto.
  cbn [combine foldM]. unfold run_step at 1 3.
  destruct (fetch operands ints (ps_lhs st)); auto. cbn [rbind].
  destruct (fetch operands ints (ps_rhs st)); auto. cbn [rbind].
  rewrite run_pair_contraction_sums by auto. destruct (run_pair_contraction _ _ _ _); auto. cbn [rbind]. apply IH.
Qed.

Lemma path_sums lay sum k k' sc ops out ord order p (arrays : list (arr A)) :
  sized sc ops out size -> Permutation ord (seq 0 (length ops)) -> 2 <= length ops -> all_shared ops out ->
  generate_path h k sc ord = Ok order -> from_path h k' order = Ok p ->
  contract_operands (with_axis_sums lay sum) p arrays = contract_operands lay p arrays.
Proof.
  intros HS Hp H2 Hs Eg Ef. assert (Hne : ops <> []) by (intros ->; simpl in H2; lia).
  destruct (generate_path_ok h k size Hh sc ops out ord HS Hne Hp) as
    [(sc' & Hl & _)|(i0 & js & L & todo & steps & Eo & Ep & Htd & Eg' & Hch)]; [lia|].
  rewrite Eg' in Eg. injection Eg as <-. cbn [from_path] in Ef.
  apply rbind_ok in Ef as (pcs & Ec & Ef). injection Ef as <-.
  cbn [contract_operands path_steps path_order]. rewrite steps_sums; auto.
  eapply chain_unsimplified; [exact Hch| |exact Ec].
  rewrite <- Ep.
  assert (Pm : Permutation ops (map (fun i => nth i ops []) ord)).
  { rewrite <- (map_nth_seq ops []) at 1. apply Permutation_map, Permutation_sym. auto. }
  destruct Hs as [Hn Hs]. split; [eapply Permutation_Forall; eauto|].
  intros before this after c E Hc. rewrite E in Pm.
  assert (Ht : In this ops). { eapply Permutation_in; [apply Permutation_sym; exact Pm|]. apply in_or_app. simpl; auto. }
  apply in_split in Ht as (b0 & a0 & E0). destruct (Hs b0 this a0 c E0 Hc) as [H|H]; auto. left.
  rewrite E0 in Pm. apply Permutation_app_inv in Pm.
  apply in_concat in H as (x & Hx & Hcx). apply in_concat. exists x. split; auto. eapply Permutation_in; eauto.
Qed.

End Unsummed.
