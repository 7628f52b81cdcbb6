(** BroadcastProductGeneral on operands of shapes it was not compiled for. *)
From Verif Require Import Base BaseFacts NDArray Validation Strategies Singleton Pair Path Spec
  ValidationFacts SumFacts ArrayFacts TensordotFacts DiagFacts SingletonFacts PairFacts StackedFacts
  PairMain PathFacts EinsumMain UnusedFacts TensordotMain MismatchFacts ContractorFacts AssignFacts EinsumProps GeneralFacts.
From Coq Require Import Lia.

(** An operand [a] can be stretched to an output with the labels [out] and these sizes when its axes
    carry the first of its labels [ls], these and no later ones are in the output, and each has the
    compiled length or length 1. *)
Definition stretches {A} (ls out : list char) (size : char -> nat) (a : arr A) : Prop :=
  let n := length (a_shape a) in
  n <= length ls /\ incl (firstn n ls) out /\ (forall c, In c (skipn n ls) -> ~ In c out)
  /\ Forall2 (fun c k => k = size c \/ k = 1) (firstn n ls) (a_shape a).

(** The position in an operand of shape [sh] that is repeated at [idx]: along each axis the coordinate
    of [idx] with the axis's label, and 0 along an axis of length 1. *)
Definition stretched_from (ls out : list char) (sh idx : list nat) : list nat :=
  map (fun ck => if Nat.eqb (snd ck) 1 then 0 else nth (match position (fst ck) out with Some j => j | None => 0 end) idx 0)
    (combine ls sh).

Lemma dot_off_stretch2 lhs (size sz : char -> nat) (st : char -> Z) e out :
  (forall c, In c out -> In c lhs -> sz c = size c \/ sz c = 1) -> in_range size out e ->
  dot_off (map e out)
    (map (fun c => if Nat.eqb (size c) (if mem c lhs then sz c else 1)
                   then (if mem c lhs then st c else 1%Z) else 0%Z) out)
  = dot_off (map (fun c => if Nat.eqb (sz c) 1 then 0 else e c) (filter (fun c => mem c lhs) out))
      (map st (filter (fun c => mem c lhs) out)).
Proof.
  induction out as [|c out IH]; intros Hs He; auto. cbn [map dot_off filter].
  rewrite IH by (try intros d Hd; try apply He; try apply Hs; simpl; auto).
  assert (e c < size c) by (apply He; simpl; auto).
  destruct (mem c lhs) eqn:E.
  - cbn [map dot_off]. f_equal. apply mem_In in E. destruct (Hs c ltac:(simpl; auto) E) as [Q|Q]; rewrite Q.
    + rewrite Nat.eqb_refl. destruct (Nat.eqb_spec (size c) 1); [|auto]. replace (e c) with 0 by lia. auto.
    + cbn [Nat.eqb]. destruct (Nat.eqb_spec (size c) 1); [|lia]. replace (e c) with 0 by lia. auto.
  - destruct (Nat.eqb_spec (size c) 1) as [E1|E1]; [|lia]. replace (e c) with 0 by lia. lia.
Qed.

Lemma stretch_insert {A} (sz : char -> nat) (a : arr A) lhs out F :
  NoDup lhs -> NoDup out -> incl lhs out -> lrep sz a lhs F ->
  exists v w st,
    permutation_view (somes (map (fun o => position o lhs) out)) a = Ok v
    /\ lrep sz v (filter (fun c => mem c lhs) out) F
    /\ foldM (fun t i => insert_axis t i) (nones (map (fun o => position o lhs) out)) v = Ok w
    /\ a_shape w = map (fun c => if mem c lhs then sz c else 1) out
    /\ a_strides w = map (fun c => if mem c lhs then st c else 1%Z) out
    /\ a_data w = a_data v /\ a_off w = a_off v
    /\ a_strides v = map st (filter (fun c => mem c lhs) out).
Proof.
  intros Hl Ho Hi Ha. set (L := filter (fun c => mem c lhs) out).
  assert (NL : NoDup L) by (apply NoDup_filter; auto).
  assert (PL : Permutation L lhs).
  { apply NoDup_Permutation; auto. intros c. unfold L. rewrite filter_In, mem_In. specialize (Hi c). tauto. }
  destruct (permuted_lrep sz a lhs L F (somes (map (fun o => position o lhs) out)) Ha Hl PL)
    as (v & Ev & Hv). { apply somes_positions. }
  pose proof Hv as (Hv1 & Hv2 & Hv3).
  destruct (by_label L (a_strides v) 0%Z NL Hv2) as (st & Est).
  exists v. eexists. exists st. split; [exact Ev|]. split; [exact Hv|].
  split; [apply (insertions_ok lhs sz st out [] v); cbn [map app]; auto|]. cbn [a_shape a_strides a_data a_off app].
  repeat split; auto.
Qed.

Lemma stretch_lrep2 {A} (size sz : char -> nat) (a : arr A) lhs out F :
  NoDup lhs -> NoDup out -> incl lhs out -> (forall c, In c lhs -> sz c = size c \/ sz c = 1) -> lrep sz a lhs F ->
  exists v w r,
    permutation_view (somes (map (fun o => position o lhs) out)) a = Ok v
    /\ foldM (fun t i => insert_axis t i) (nones (map (fun o => position o lhs) out)) v = Ok w
    /\ broadcast w (map size out) = Ok r
    /\ lrep size r out (fun e => F (fun c => if Nat.eqb (sz c) 1 then 0 else e c)).
Proof.
  intros Hl Ho Hi Hs Ha.
  destruct (stretch_insert sz a lhs out F Hl Ho Hi Ha) as (v & w & st & Ev & (Hv1 & Hv2 & Hv3) & Ew & W1 & W2 & W3 & W4 & Vs).
  exists v, w. eexists. split; [exact Ev|]. split; [exact Ew|]. split.
  - rewrite broadcast_labels with (sz := fun c => if mem c lhs then sz c else 1)
      (st := fun c => if mem c lhs then st c else 1%Z); [reflexivity| |auto|auto].
    intros c _. destruct (mem c lhs) eqn:E; auto. apply Hs, mem_In. auto.
  - split; [|split]; cbn [a_shape a_strides a_data a_off]; auto; [rewrite map_length; auto|].
    intros e He. set (e' := fun c => if Nat.eqb (sz c) 1 then 0 else e c).
    assert (He' : in_range sz (filter (fun c => mem c lhs) out) e').
    { intros c Hc. apply filter_In in Hc as [H1 H2]. apply mem_In in H2. unfold e'. specialize (He c H1).
      destruct (Nat.eqb_spec (sz c) 1); [lia|]. destruct (Hs c H2); lia. }
    rewrite <- (Hv3 e' He'). unfold a_get. cbn [a_shape a_strides a_data a_off].
    rewrite dot_off_stretch2 by auto. fold e'. rewrite Vs, Hv1, W3, W4. rewrite !in_bounds_map'; auto.
Qed.

(** ** When the positions are a permutation *)

Lemma somes_In l p : In p (somes l) <-> In (Some p) l.
Proof.
  unfold somes. rewrite in_flat_map. split.
  - intros ([q|] & H & Hp); [destruct Hp as [<-|[]]; auto|destruct Hp].
  - intros H. exists (Some p). simpl. auto.
Qed.

Lemma positions_In ls out p : In p (somes (map (fun o => position o ls) out)) <-> exists c, In c out /\ position c ls = Some p.
Proof.
  rewrite somes_In, in_map_iff. split; intros (c & H1 & H2); eauto.
Qed.

(** What [new] checks. *)
Lemma maybe_find_inv out ls l : maybe_find_outputs_in_inputs_unique out ls = Ok l ->
  l = map (fun o => position o ls) out
  /\ forall c p, In c out -> position c ls = Some p -> ~ In c (skipn (p + 1) ls).
Proof.
  unfold maybe_find_outputs_in_inputs_unique. revert l. induction out as [|o out IH]; intros l H; cbn [mapM] in H.
  - injection H as <-. split; [auto|]. intros c p [].
  - apply rbind_ok in H as (x & H1 & H). apply rbind_ok in H as (r & H2 & H). injection H as <-.
    destruct (IH r H2) as [-> I2]. cbn [map].
    destruct (position o ls) as [p|] eqn:E.
    + apply rbind_ok in H1 as (u & H1 & H3). injection H3 as <-. split; [auto|].
      intros c q [<-|Hc] Hq; [|eauto]. rewrite E in Hq. injection Hq as <-.
      destruct (position o (skipn (p + 1) ls)) eqn:E2; [discriminate|]. apply position_None. auto.
    + injection H1 as <-. split; [auto|]. intros c q [<-|Hc] Hq; [congruence|eauto].
Qed.

Lemma firstn_skipn_In {T} n (l : list T) x : In x l <-> In x (firstn n l) \/ In x (skipn n l).
Proof. rewrite <- (firstn_skipn n l) at 1. apply in_app_iff. Qed.

Lemma nth_error_skip {T} n (l : list T) k : nth_error (skipn n l) k = nth_error l (n + k).
Proof.
  revert l. induction n as [|n IH]; intros l; auto. destruct l as [|x l]; simpl; auto. destruct k; auto.
Qed.

Lemma position_firstn c ls n : ~ In c (skipn n ls) -> position c (firstn n ls) = position c ls.
Proof.
  intros H. destruct (position c (firstn n ls)) as [p|] eqn:E.
  - symmetry. rewrite <- (firstn_skipn n ls). apply position_app_l. auto.
  - symmetry. apply position_None. apply position_None in E. rewrite (firstn_skipn_In n). tauto.
Qed.

Lemma permutation_labels ls out n :
  (forall c p, In c out -> position c ls = Some p -> ~ In c (skipn (p + 1) ls)) ->
  Permutation (somes (map (fun o => position o ls) out)) (seq 0 n) ->
  n <= length ls /\ incl (firstn n ls) out /\ (forall c, In c (skipn n ls) -> ~ In c out) /\ NoDup (firstn n ls).
Proof.
  intros Hu HP.
  assert (Hk : forall k, k < n -> exists c, In c out /\ position c ls = Some k).
  { intros k Hk. apply positions_In. eapply Permutation_in; [apply Permutation_sym; exact HP|]. apply in_seq. lia. }
  assert (Hle : n <= length ls).
  { destruct n as [|m]; [lia|]. destruct (Hk m ltac:(lia)) as (c & _ & E). apply position_nth in E as [E _]. lia. }
  assert (Hat : forall k c, k < n -> nth_error ls k = Some c -> In c out /\ position c ls = Some k).
  { intros k c Hlt E. destruct (Hk k Hlt) as (c' & H1 & H2). pose proof (position_nth_error _ _ _ H2). 
    replace c with c' by congruence. auto. }
  assert (Hfirst : forall k c, nth_error (firstn n ls) k = Some c -> k < n /\ nth_error ls k = Some c).
  { intros k c E. assert (k < n).
    { assert (k < length (firstn n ls)) by (apply nth_error_Some; congruence). rewrite firstn_length in *. lia. }
    split; auto. rewrite <- (firstn_skipn n ls), nth_error_app1; auto. apply nth_error_Some. congruence. }
  split; [auto|]. split; [|split].
  - intros c Hc. apply In_nth_error in Hc as (k & Hc). apply Hfirst in Hc as [H1 H2]. apply (Hat k c); auto.
  - intros c Hc Ho. destruct (position_In c ls) as (p & E). { apply (firstn_skipn_In n). auto. }
    assert (Hp : p < n).
    { assert (In p (seq 0 n)) by (eapply Permutation_in; [exact HP|]; apply positions_In; eauto). apply in_seq in H. lia. }
    apply (Hu c p Ho E). apply (firstn_skipn_In (n - (p + 1)) (skipn (p + 1) ls)). right.
    replace (skipn (n - (p + 1)) (skipn (p + 1) ls)) with (skipn n ls); auto.
    clear - Hp Hle. revert n ls Hp Hle. induction p as [|p IH]; intros n ls Hp Hle.
    + destruct n as [|n]; [lia|]. destruct ls; [simpl in Hle; lia|]. simpl. rewrite Nat.sub_0_r. auto.
    + destruct n as [|n]; [lia|]. destruct ls; [simpl in Hle; lia|]. simpl. apply IH; simpl in *; lia.
  - apply NoDup_nth_error. intros i j Hi E.
    destruct (nth_error (firstn n ls) i) as [c|] eqn:Ei; [|apply nth_error_None in Ei; lia].
    symmetry in E. apply Hfirst in Ei as [I1 I2]. apply Hfirst in E as [J1 J2].
    apply Hat in I2 as [_ I2]; auto. apply Hat in J2 as [_ J2]; auto. congruence.
Qed.

Lemma common_labels (sz size : char -> nat) l : common (map sz l) (map size l) (map size l) ->
  forall c, In c l -> sz c = size c \/ sz c = 1.
Proof.
  induction l as [|x l IH]; intros H c Hc; [destruct Hc|]. cbn [map] in H.
  assert (Hx : (sz x = size x \/ sz x = 1) /\ common (map sz l) (map size l) (map size l)).
  { inversion H; subst; auto. }
  destruct Hx as [H1 H2]. destruct Hc as [<-|Hc]; auto.
Qed.

Lemma bind_position c j out : forall idx, position c out = Some j -> bind out idx c = nth j idx 0.
Proof.
  revert j. induction out as [|x out IH]; intros j idx H; [discriminate|]. cbn [position] in H.
  destruct idx as [|i idx]; [simpl; destruct j; auto|]. cbn [bind]. unfold upd.
  destruct (N.eqb_spec x c) as [->|Hne].
  - injection H as <-. rewrite N.eqb_refl. auto.
  - destruct (position c out) as [k|] eqn:E; [|discriminate]. injection H as <-.
    destruct (N.eqb_spec c x) as [->|_]; [congruence|]. cbn [nth]. apply IH. auto.
Qed.

Section BroadcastAny.
Context {A : Type} {Sc : Scalar A}.

(** One operand. *)
Lemma stretch_any ls out (size : char -> nat) (a : arr A) ml : wf a -> NoDup out ->
  maybe_find_outputs_in_inputs_unique out ls = Ok ml ->
  (stretches ls out size a -> exists v w r, permutation_view (somes ml) a = Ok v
     /\ foldM (fun t i => insert_axis t i) (nones ml) v = Ok w
     /\ broadcast w (map size out) = Ok r
     /\ holds r (map size out) (fun idx => elem a (stretched_from ls out (a_shape a) idx)))
  /\ (~ stretches ls out size a ->
        permutation_view (somes ml) a = Panic
        \/ exists v w, permutation_view (somes ml) a = Ok v
             /\ foldM (fun t i => insert_axis t i) (nones ml) v = Ok w
             /\ broadcast w (map size out) = Panic).
Proof.
  intros Wa No Hm. apply maybe_find_inv in Hm as [-> Hu]. set (n := length (a_shape a)).
  destruct (view_any (somes (map (fun o => position o ls) out)) a Wa) as [_ V2].
  destruct (permutation_or (somes (map (fun o => position o ls) out)) n) as [HP|HP].
  2:{ split; [|intros _; left; apply V2; auto].
      intros (H1 & H2 & H3 & _). exfalso. apply HP. fold n in H1, H2, H3.
      assert (Hu' : forall k, k < n -> forall c, nth_error ls k = Some c -> In c out /\ position c ls = Some k).
      { intros k Hk c E. assert (Hin : In c (firstn n ls)).
        { apply nth_error_In with (n := k). rewrite <- (firstn_skipn n ls), nth_error_app1 in E; auto.
          rewrite firstn_length. lia. }
        split; [auto|]. destruct (position_In c ls) as (p & Ep); [eapply nth_error_In; eauto|]. rewrite Ep. f_equal.
        destruct (Nat.eq_dec p k) as [->|Hne]; auto. exfalso. apply (Hu c p (H2 c Hin) Ep).
        assert (Hpk : p < k).
        { destruct (Nat.lt_ge_cases p k); auto. exfalso. 
          assert (Hf : position c (firstn (k + 1) ls) = Some p \/ position c (firstn (k + 1) ls) = None).
          { destruct (position c (firstn (k + 1) ls)) as [q|] eqn:Eq; auto. left.
            rewrite <- (firstn_skipn (k + 1) ls) in Ep. rewrite (position_app_l _ _ _ _ Eq) in Ep. auto. }
          assert (Hc' : In c (firstn (k + 1) ls)).
          { apply nth_error_In with (n := k). rewrite <- (firstn_skipn (k + 1) ls), nth_error_app1 in E; auto.
            rewrite firstn_length. assert (k < length ls) by (apply nth_error_Some; rewrite firstn_skipn in E; congruence). lia. }
          destruct Hf as [Hf|Hf].
          - apply position_nth in Hf as [Hf _]. rewrite firstn_length in Hf. lia.
          - apply position_None in Hf. auto. }
        apply nth_error_In with (n := k - (p + 1)). rewrite nth_error_skip.
        replace (p + 1 + (k - (p + 1))) with k by lia. auto. }
      apply NoDup_Permutation.
      - assert (Hsub : forall l, NoDup l -> NoDup (somes (map (fun o => position o ls) l))).
        { clear. induction 1 as [|o l Ho Hl IH]; [constructor|]. cbn [map]. unfold somes in *. cbn [flat_map].
          destruct (position o ls) as [p|] eqn:E; [|auto]. cbn [app]. constructor; auto.
          intros Hin. apply Ho. apply (positions_In ls l p) in Hin as (c & Hc & Ec).
          apply position_nth_error in E, Ec. congruence. }
        auto.
      - apply seq_NoDup.
      - intros p. rewrite positions_In, in_seq. split.
        + intros (c & Hc & Ep). destruct (Nat.lt_ge_cases p n); [lia|]. exfalso. apply (H3 c); auto.
          apply nth_error_In with (n := p - n). rewrite nth_error_skip. replace (n + (p - n)) with p by lia.
          apply position_nth_error. auto.
        + intros [_ Hp]. simpl in Hp. destruct (nth_error ls p) as [c|] eqn:E; [|apply nth_error_None in E; lia].
          exists c. apply Hu'; auto. }
  destruct (permutation_labels ls out n Hu HP) as (P1 & P2 & P3 & P4).
  set (L := firstn n ls) in *.
  assert (LL : length L = n) by (unfold L; rewrite firstn_length; lia).
  destruct (by_label L (a_shape a) 0 P4 ltac:(unfold n in LL; lia)) as (sz & Esz).
  assert (Epos : map (fun o => position o ls) out = map (fun o => position o L) out).
  { apply map_ext_in. intros c Hc. symmetry. apply position_firstn. intros H. apply (P3 c); auto. }
  rewrite Epos. clear Epos.
  pose proof (lrep_wf sz a L Wa Esz) as Hlr.
  assert (Hiff : stretches ls out size a <-> forall c, In c L -> sz c = size c \/ sz c = 1).
  { unfold stretches. fold n L. rewrite Esz. split.
    - intros (_ & _ & _ & HF). clear - HF. induction L as [|x L IH]; intros c Hc; [destruct Hc|].
      inversion HF; subst. destruct Hc as [<-|Hc]; auto.
    - intros H. repeat split; auto. clear - H. induction L as [|x L IH]; constructor; [apply H; simpl; auto|].
      apply IH. intros; apply H; simpl; auto. }
  split.
  - intros Hs. destruct (stretch_lrep2 size sz a L out _ P4 No P2 (proj1 Hiff Hs) Hlr) as (v & w & r & E1 & E2 & E3 & Hr).
    exists v, w, r. split; [auto|]. split; [auto|]. split; [auto|]. apply lrep_holds in Hr; auto.
    eapply ArrayFacts.holds_ext; [|exact Hr]. intros idx Hi. cbv beta. f_equal. unfold stretched_from.
    assert (Ec : combine ls (a_shape a) = combine L (a_shape a)).
    { unfold L. generalize (eq_refl n). unfold n at 2. generalize (a_shape a) n. clear.
      intros sh. revert ls. induction sh as [|k sh IH]; intros ls m Hm; simpl in Hm; subst m.
      - destruct ls; auto.
      - destruct ls as [|c ls]; auto. simpl. f_equal. auto. }
    rewrite Ec, Esz. clear Ec. 
    assert (Ec : combine L (map sz L) = map (fun c => (c, sz c)) L).
    { clear. induction L as [|x L IH]; simpl; auto. f_equal. auto. }
    rewrite Ec, map_map. cbn [fst snd]. apply map_ext_in. intros c Hc.
    destruct (Nat.eqb (sz c) 1); [auto|]. destruct (position_In c out (P2 c Hc)) as (j & Ej). rewrite Ej. apply bind_position. auto.
  - intros Hs. right.
    destruct (stretch_insert sz a L out _ P4 No P2 Hlr) as (v & w & st & Ev & _ & Ew & W1 & W2 & _).
    exists v, w. split; [auto|]. split; [auto|]. unfold broadcast.
    destruct (upcast_rev _ _ _) as [st'|] eqn:Eu; [|reflexivity]. exfalso. apply Hs, Hiff.
    apply upcast_common in Eu. rewrite W1, <- !map_rev in Eu. intros c Hc.
    destruct (common_labels _ _ _ Eu c) as [H|H]; [apply -> in_rev; apply P2; auto| |];
      rewrite (proj2 (mem_In c L) Hc) in H; auto.
Qed.

Lemma stretches_dec ls out size (a : arr A) : stretches ls out size a \/ ~ stretches ls out size a.
Proof.
  unfold stretches. set (n := length (a_shape a)).
  destruct (le_lt_dec n (length ls)); [|right; intros (H & _); lia].
  assert (D : forall l : list char, incl l out \/ ~ incl l out).
  { induction l0 as [|c l0 IH]; [left; intros x []|]. destruct (in_dec N.eq_dec c out).
    - destruct IH; [left; intros x [<-|H']; auto|right]. intros H'. apply H. intros x Hx. apply H'. simpl; auto.
    - right. intros H. apply n0. apply H. simpl; auto. }
  destruct (D (firstn n ls)); [|right; tauto].
  assert (D2 : forall l : list char, (forall c, In c l -> ~ In c out) \/ ~ (forall c, In c l -> ~ In c out)).
  { induction l0 as [|c l0 IH]; [left; intros x []|]. destruct (in_dec N.eq_dec c out).
    - right. intros H'. apply (H' c); simpl; auto.
    - destruct IH; [left; intros x [<-|H']; auto|right]. intros H'. apply H0. intros x Hx. apply H'. simpl; auto. }
  destruct (D2 (skipn n ls)); [|right; tauto].
  assert (D3 : forall l sh, Forall2 (fun c k => k = size c \/ k = 1) l sh \/ ~ Forall2 (fun c k => k = size c \/ k = 1) l sh).
  { induction l0 as [|c l0 IH]; intros [|k sh]; try (left; constructor; fail); try (right; intros H'; inversion H'; fail).
    destruct (IH sh); [|right; intros H'; inversion H'; auto].
    destruct (Nat.eq_dec k (size c)); [left; constructor; auto|].
    destruct (Nat.eq_dec k 1); [left; constructor; auto|]. right. intros H'. inversion H'; subst. tauto. }
  destruct (D3 (firstn n ls) (a_shape a)); [left; auto|right; tauto].
Qed.

Variable lay : backend A.
Hypothesis Hlay : backend_runs lay.

Lemma broadcast_any sc lhs rhs out size b (x y : arr A) : sized sc [lhs; rhs] out size ->
  broadcast_new sc = Ok b -> wf x -> wf y ->
  let fine := stretches lhs out size x /\ stretches rhs out size y in
  (fine -> exists r, run_broadcast lay b x y = Ok r
     /\ holds r (map size out) (fun idx => smul (elem x (stretched_from lhs out (a_shape x) idx))
                                                (elem y (stretched_from rhs out (a_shape y) idx))))
  /\ (~ fine -> run_broadcast lay b x y = Panic).
Proof.
  intros HS Hb Wx Wy fine. pose proof HS as (_ & [Ho Hio] & _). simpl in Hio. rewrite app_nil_r in Hio.
  unfold broadcast_new in Hb. rewrite (sc_ops2 sc lhs rhs out size HS), (sc_out2 sc lhs rhs out size HS) in Hb.
  cbn [length Nat.eqb rassert rbind] in Hb. unfold index in Hb. cbn [nth_error unwrap rbind] in Hb.
  apply rbind_ok in Hb as (ml & El & Hb). apply rbind_ok in Hb as (mr & Er & Hb).
  rewrite (sizes2 sc lhs rhs out size HS) in Hb by auto. cbn [rbind] in Hb. injection Hb as <-.
  destruct (stretch_any lhs out size x ml Wx Ho El) as [X1 X2].
  destruct (stretch_any rhs out size y mr Wy Ho Er) as [Y1 Y2].
  unfold run_broadcast. cbn [bp_lhs_permutation bp_rhs_permutation bp_lhs_insertions bp_rhs_insertions bp_output_sizes].
  destruct (stretches_dec lhs out size x) as [Hx|Hx].
  - destruct (X1 Hx) as (v & w & r & -> & E2 & E3 & Hr). cbn [rbind].
    destruct (stretches_dec rhs out size y) as [Hy|Hy].
    + destruct (Y1 Hy) as (v' & w' & r' & -> & E2' & E3' & Hr'). cbn [rbind].
      rewrite E2, E2'. cbn [rbind]. rewrite E3, E3'. cbn [rbind].
      split; [intros _|unfold fine; tauto]. apply mul_arrays_holds; auto.
    + split; [unfold fine; tauto|]. intros _. destruct (Y2 Hy) as [->|(v' & w' & -> & E2' & E3')]; [auto|].
      cbn [rbind]. rewrite E2, E2'. cbn [rbind]. rewrite E3, E3'. auto.
  - split; [unfold fine; tauto|]. intros _. destruct (X2 Hx) as [->|(v & w & -> & E2 & E3)]; [auto|]. cbn [rbind].
    destruct (stretches_dec rhs out size y) as [Hy|Hy].
    + destruct (Y1 Hy) as (v' & w' & r' & -> & E2' & E3' & Hr'). cbn [rbind].
      rewrite E2, E2'. cbn [rbind]. rewrite E3. auto.
    + destruct (Y2 Hy) as [->|(v' & w' & -> & E2' & E3')]; [auto|]. cbn [rbind].
      rewrite E2, E2'. cbn [rbind]. rewrite E3. auto.
Qed.

End BroadcastAny.
