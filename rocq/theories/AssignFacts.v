(** Contracting into a given view: what [assign] writes, and one contractor used by itself. *)
From Verif Require Import Base BaseFacts NDArray Validation Optimizers Strategies Singleton Pair Path Api Spec SumFacts
  ArrayFacts ValidationFacts ValidationMain SingletonFacts PairFacts StackedFacts PairMain PathFacts EinsumMain MismatchFacts.
From Coq Require Import Lia.

(** ** Views that are written through *)

(** The buffer position of an index. *)
Definition place {A : Type} (v : arr A) (idx : list nat) : nat :=
  Z.to_nat (a_off v + dot_off idx (a_strides v)).

(** A mutable view does not reach a place twice; ndarray makes no other mutable views. *)
Definition separate {A : Type} (v : arr A) : Prop :=
  forall idx idx', in_bounds (a_shape v) idx = true -> in_bounds (a_shape v) idx' = true ->
    dot_off idx (a_strides v) = dot_off idx' (a_strides v) -> idx = idx'.

(** The view with another buffer. *)
Definition rebuffered {A : Type} (v : arr A) (data : list A) : arr A :=
  mkArr data (a_off v) (a_shape v) (a_strides v).

(** [w] is [v] with [f idx] written at every index and nothing else changed. *)
Definition written {A : Type} (v w : arr A) (f : list nat -> A) : Prop :=
  a_off w = a_off v /\ a_strides w = a_strides v
  /\ length (a_data w) = length (a_data v)
  /\ holds w (a_shape v) f
  /\ forall n, (forall idx, in_bounds (a_shape v) idx = true -> place v idx <> n) ->
       nth_error (a_data w) n = nth_error (a_data v) n.

(** An array of shape [sh] can be repeated along the axes of a view of shape [sh']. *)
Definition repeats_to (sh sh' : list nat) : Prop := common (rev sh) (rev sh') (rev sh').

Lemma common_self s : common s s s.
Proof. induction s; constructor; auto. Qed.

Lemma upcast_common u s st st' : upcast_rev u s st = Some st' -> common s u u.
Proof.
  revert u st st'. induction s as [|n s IH]; intros u st st' H; [constructor|].
  destruct st as [|x st]; [destruct u; discriminate|]. destruct u as [|m u]; [discriminate|].
  cbn [upcast_rev] in H. destruct (upcast_rev u s st) as [rest|] eqn:E; [|discriminate]. apply IH in E.
  destruct (Nat.eqb_spec m n); [subst; constructor; auto|].
  destruct (Nat.eqb_spec n 1); [subst; constructor; auto|discriminate].
Qed.

Lemma source_bounds sh sh' idx : repeats_to sh sh' -> in_bounds sh' idx = true -> in_bounds sh (source sh idx) = true.
Proof.
  intros H Hi. rewrite <- in_bounds_rev. unfold source. rewrite rev_involutive. eapply source_rev_bounds; eauto.
  rewrite in_bounds_rev. auto.
Qed.

Section Assign.
Context {A : Type} {Sc : Scalar A}.

Lemma write_fold (src v : arr A) f : holds src (a_shape v) f -> wf v -> separate v ->
  forall l data, Forall (fun idx => in_bounds (a_shape v) idx = true) l -> length data = length (a_data v) ->
  exists data', foldM (fun d idx => do x <- a_get src idx; a_set d idx x) l (rebuffered v data)
                = Ok (rebuffered v data')
    /\ length data' = length data
    /\ (forall n, (forall idx, In idx l -> place v idx <> n) -> nth_error data' n = nth_error data n)
    /\ (forall idx, In idx l -> nth_error data' (place v idx) = Some (f idx)).
Proof.
  intros (H1 & H2 & H3) [_ Hw] Hs. induction l as [|idx l IH]; intros data Hl Hlen.
  - exists data. simpl. repeat split; auto. intros idx [].
  - inversion Hl as [|? ? Hi Hl']; subst. cbn [foldM]. rewrite H3 by auto. cbn [rbind].
    unfold a_set at 1. cbn [rebuffered a_shape a_off a_strides a_data].
    rewrite Hi. pose proof (Hw idx Hi) as Hp. rewrite <- Hlen in Hp.
    destruct (Z.leb_spec 0 (a_off v + dot_off idx (a_strides v))); [|lia].
    destruct (Z.ltb_spec (a_off v + dot_off idx (a_strides v)) (Z.of_nat (length data))); [|lia].
    cbn [andb rbind]. fold (place v idx). fold (rebuffered v (set_nth (place v idx) (f idx) data)).
    destruct (IH (set_nth (place v idx) (f idx) data)) as (data' & E & L & N1 & N2); auto.
    { rewrite set_nth_length. auto. }
    exists data'. rewrite set_nth_length in L. repeat split; auto.
    + intros n Hn. rewrite N1 by (intros; apply Hn; simpl; auto).
      apply nth_error_set_nth_other. apply Hn. simpl; auto.
    + intros idx' [<-|Hi']; auto.
      destruct (in_dec (list_eq_dec Nat.eq_dec) idx l) as [Hin|Hin]; auto.
      rewrite N1.
      * apply nth_error_set_nth_same. unfold place. lia.
      * intros idx' Hi' E'. apply Hin. replace idx with idx'; auto.
        rewrite Forall_forall in Hl'. specialize (Hl' idx' Hi'). apply Hs; auto.
        pose proof (Hw idx' Hl'). unfold place in E'. lia.
Qed.

(** [assign] on every view and every array. *)
Lemma assign_any (v src : arr A) : wf v -> separate v -> wf src ->
  (repeats_to (a_shape src) (a_shape v) ->
     exists w, assign v src = Ok w /\ written v w (fun idx => elem src (source (a_shape src) idx)))
  /\ (~ repeats_to (a_shape src) (a_shape v) -> assign v src = Panic).
Proof.
  intros Hv Hs Hw. unfold assign.
  assert (Run : forall src', holds src' (a_shape v) (fun idx => elem src (source (a_shape src) idx)) ->
    exists w, foldM (fun d idx => do x <- a_get src' idx; a_set d idx x) (indices (a_shape v)) v = Ok w
      /\ written v w (fun idx => elem src (source (a_shape src) idx))).
  { intros src' Hh. destruct (write_fold src' v _ Hh Hv Hs (indices (a_shape v)) (a_data v)) as (data' & E & L & N1 & N2); auto.
    { apply Forall_forall. intros idx Hi. apply indices_In. auto. }
    exists (rebuffered v data'). split; [destruct v; exact E|].
    split; [auto|]. split; [auto|]. split; [auto|]. destruct Hv as [Hvl Hv]. split.
    - split; [auto|]. split; [auto|]. intros idx Hi. unfold a_get. cbn [rebuffered a_shape a_off a_strides a_data].
      rewrite Hi. specialize (N2 idx (proj2 (indices_In _ _) Hi)). specialize (Hv idx Hi).
      replace (a_off v + dot_off idx (a_strides v))%Z with (Z.of_nat (place v idx)) by (unfold place; lia).
      rewrite znth_nat, N2. reflexivity.
    - intros n Hn. apply N1. intros idx Hi. apply Hn. apply indices_In. auto. }
  destruct (list_nat_eqb (a_shape v) (a_shape src)) eqn:E.
  - apply list_nat_eqb_eq in E. cbn [rbind]. split.
    + intros _. apply Run. rewrite E. eapply ArrayFacts.holds_ext; [|apply wf_holds; auto].
      intros idx Hi. cbn beta. rewrite source_same; auto.
    + intros H. exfalso. apply H. unfold repeats_to. rewrite E. apply common_self.
  - split.
    + intros H. destruct (broadcast_holds src _ (a_shape v) Hw H) as (r & Er & Hr). rewrite Er. cbn [rbind]. auto.
    + intros H. unfold broadcast. destruct (upcast_rev _ _ _) as [st|] eqn:Eu; [|reflexivity].
      exfalso. apply H. eapply upcast_common; eauto.
Qed.

(** A pair contraction by itself. *)
Lemma pair_contraction_outcome : semiring A -> forall h lay k sc (a b : arr A) lhs rhs out size,
  hash_ok h -> backend_ok lay -> sized sc [lhs; rhs] out size ->
  wf a -> wf b -> a_shape a = map size lhs -> a_shape b = map size rhs ->
  exists p, pair_contraction_new h k sc = Ok p
    /\ outcome_is (run_pair_contraction lay p a b) size [a; b] [lhs; rhs] out.
Proof.
  intros SR h lay k sc a b lhs rhs out size Hh Hlay HS Wa Wb Sa Sb.
  pose proof (SR : near_semiring A) as NS.
  destruct (pair_contraction_ok h size Hh lay Hlay eq _ (eq_weak NS) (eq_no_empty size) (eq_weak_fused lay NS Hlay)
    NS (semiring_summable size SR) k sc lhs rhs out HS) as (p & E & Hp).
  exists p. split; auto.
  assert (Hbl : blocked_in size (combine [a; b] [lhs; rhs]) out
                <-> blocked size a lhs (rhs ++ out) \/ blocked size b rhs (lhs ++ out)).
  { cbn [combine]. rewrite !blocked_in_cons. cbn [map snd concat app]. rewrite app_nil_r. split.
    - intros [H|[H|(p1 & ? & ? & ? & Hx & _)]]; auto. destruct p1; discriminate.
    - tauto. }
  destruct (Hp a b (fun e => elem a (map e lhs)) (fun e => elem b (map e rhs)) Wa Wb) as [[Er Hb]|(Nl & Nr & r & cs & Er & Pc & Hr)].
  { exists (fun e => elem a (map e lhs)). split; auto. apply lrep_wf; auto. }
  { exists (fun e => elem b (map e rhs)). split; auto. apply lrep_wf; auto. }
  { apply elem_dep. }
  { apply elem_dep. }
  - left. split; auto. apply Hbl. auto.
  - right. split; [rewrite Hbl; tauto|]. exists r. split; auto.
    assert (Hin : forall c, In c cs <-> In c (lhs ++ rhs) /\ ~ In c out).
    { intros c. rewrite in_app_iff, <- (summed2_In lhs rhs out c). split; apply Permutation_in; auto. apply Permutation_sym; auto. }
    pose proof HS as (_ & [No _] & _).
    destruct (holds_of_rrep size eq (semiring_summable size SR) r [lhs; rhs] out [a; b] cs (fun e => smul (elem a (map e lhs)) (elem b (map e rhs))))
      as (f & Hf & Rf); auto.
    + eapply Permutation_NoDup; [apply Permutation_sym; exact Pc|]. apply NoDup_filter, distinct_NoDup.
    + intros c. simpl. rewrite app_nil_r. auto.
    + intros e. unfold term, product. simpl. rewrite (mul_1_r NS). auto.
    + eapply ArrayFacts.holds_ext; [|exact Hf]. auto.
Qed.

End Assign.
