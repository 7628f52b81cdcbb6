(** Two ways to write a product of two operands (C76): lemmas on the loops of both. *)
From Verif Require Import Base BaseFacts NDArray Spec SumFacts ArrayFacts AlgebraFacts ExactFacts PropsExact.
From Coq Require Import Lia Sorted.
Local Open Scope list_scope.
Local Open Scope nat_scope.

(** ** The specification *)

(** The labels of [l] that [out] lacks. *)
Definition dropped (l out : list char) : list char :=
  filter (fun c => if in_dec N.eq_dec c out then false else true) l.

(** A label of both operands and of the output. *)
Definition batch (lhs rhs out : list char) : Prop := exists c, In c lhs /\ In c rhs /\ In c out.

(** The array [a'] with labels [l'] is the array [a] with labels [l], whose labels [f] renames and whose axes
    are permuted. *)
Definition rewritten {A : Type} {Sc : Scalar A} (f : char -> char) (l : list char) (a : arr A)
    (l' : list char) (a' : arr A) : Prop :=
  Permutation (map f l) l' /\ forall e : env, elem a' (map e l') = elem a (map (fun c => e (f c)) l).

(** What must not change: with a label of both operands and the output, the order of the summed labels in
    the first operand; without one, their alphabetical order. *)
Definition alike (f : char -> char) (lhs rhs out lhs' out' : list char) : Prop :=
  (batch lhs rhs out -> dropped lhs' out' = map f (dropped lhs out))
  /\ (~ batch lhs rhs out -> forall c d, In c lhs -> In d lhs -> ~ In c out -> ~ In d out -> (c < d)%N -> (f c < f d)%N).

(** ** Lemmas *)

Lemma dropped_In c l out : In c (dropped l out) <-> In c l /\ ~ In c out.
Proof. unfold dropped. rewrite filter_In. destruct (in_dec N.eq_dec c out); intuition congruence. Qed.

Lemma batch_dec lhs rhs out : batch lhs rhs out \/ ~ batch lhs rhs out.
Proof.
  destruct (existsb (fun c => mem c rhs && mem c out) lhs) eqn:E.
  - left. apply existsb_exists in E as (c & Hc & E). apply andb_true_iff in E as [E1 E2].
    apply mem_In in E1, E2. exists c. auto.
  - right. intros (c & H1 & H2 & H3).
    assert (existsb (fun c => mem c rhs && mem c out) lhs = true); [|congruence].
    apply existsb_exists. exists c. split; auto. apply andb_true_iff. rewrite !mem_In. auto.
Qed.

Lemma same_labels_dec lhs rhs out : same_labels lhs rhs out \/ ~ same_labels lhs rhs out.
Proof.
  destruct (forallb (fun c => mem c rhs && mem c out) lhs && forallb (fun c => mem c lhs && mem c out) rhs
            && forallb (fun c => mem c lhs && mem c rhs) out) eqn:E.
  - left. apply andb_true_iff in E as [E E3]. apply andb_true_iff in E as [E1 E2].
    rewrite forallb_forall in E1, E2, E3. intros c.
    specialize (E1 c). specialize (E2 c). specialize (E3 c). rewrite andb_true_iff, !mem_In in *. tauto.
  - right. intros H. apply not_true_iff_false in E. apply E. rewrite !andb_true_iff. repeat split;
      apply forallb_forall; intros c Hc; destruct (H c) as [H1 H2]; apply andb_true_iff; rewrite !mem_In; tauto.
Qed.

Lemma loops_rewritten {T} (f : char -> char) size size' cs ls (g g' : env -> T) :
  inj_on f (cs ++ ls) -> (forall c, In c cs -> size' (f c) = size c) ->
  (forall e e' : env, (forall c, In c (cs ++ ls) -> e' (f c) = e c) -> g' e' = g e) ->
  forall e e' : env, (forall c, In c ls -> e' (f c) = e c) ->
    loops size' (map f cs) g' e' = loops size cs g e.
Proof.
  revert ls. induction cs as [|c cs IH]; intros ls Hf Hs Hg e e' He; cbn [map loops].
  - f_equal. apply Hg. auto.
  - rewrite Hs by (simpl; auto). induction (seq 0 (size c)) as [|i l IHl]; [reflexivity|]. cbn [flat_map]. f_equal; auto.
    apply (IH (c :: ls)).
    + eapply inj_on_incl; [|exact Hf]. intros d Hd. simpl. rewrite in_app_iff in *. simpl in Hd. tauto.
    + intros d Hd. apply Hs. simpl; auto.
    + intros e1 e1' H. apply Hg. intros d Hd. apply H. simpl in Hd. rewrite in_app_iff in *. simpl. tauto.
    + intros d Hd. unfold upd. destruct (N.eqb_spec d c) as [->|Hn].
      * rewrite N.eqb_refl. auto.
      * destruct (N.eqb_spec (f d) (f c)) as [E|_].
        -- exfalso. apply Hn. apply Hf; auto; simpl; rewrite ?in_app_iff; simpl in Hd; intuition congruence.
        -- apply He. simpl in Hd. destruct Hd; [congruence|auto].
Qed.

(** The loops a product has. *)
Lemma loops_exist lhs rhs out : NoDup lhs -> (forall c, In c lhs -> In c rhs \/ In c out) ->
  exists cs, loop_order lhs rhs out cs /\ (batch lhs rhs out -> cs = dropped lhs out).
Proof.
  intros Nl Ul. destruct (batch_dec lhs rhs out) as [H|H].
  - exists (dropped lhs out). split; auto. split; [|split].
    + intros c. rewrite dropped_In. specialize (Ul c). tauto.
    + intros _. eexists. reflexivity.
    + intros Hn. exfalso. auto.
  - exists (sort_chars (dropped lhs out)). split; [|tauto]. split; [|split].
    + intros c. rewrite sort_chars_In, dropped_In. specialize (Ul c). tauto.
    + intros Hb. exfalso. auto.
    + intros _. apply sort_chars_lt, NoDup_filter. auto.
Qed.

Lemma inj_mem f l d c : inj_on f (l ++ d) -> In c l -> In (f c) (map f d) -> In c d.
Proof.
  intros Hf Hc Hi. apply in_map_iff in Hi as (x & E & Hx).
  rewrite (Hf c x); auto using in_or_app.
Qed.

Lemma sorted_map (f : char -> char) cs : StronglySorted N.lt cs ->
  (forall c d, In c cs -> In d cs -> (c < d)%N -> (f c < f d)%N) -> StronglySorted N.lt (map f cs).
Proof.
  induction 1 as [|c cs H IH Hc]; intros Hf; cbn [map]; constructor.
  - apply IH. intros x y Hx Hy. apply Hf; simpl; auto.
  - rewrite Forall_forall in *. intros y Hy. apply in_map_iff in Hy as (x & <- & Hx). apply Hf; simpl; auto.
Qed.

Lemma loop_order_rewritten f lhs rhs out lhs' rhs' out' cs : 
  inj_on f (lhs ++ rhs) -> incl out (lhs ++ rhs) ->
  Permutation (map f lhs) lhs' -> Permutation (map f rhs) rhs' -> Permutation (map f out) out' ->
  alike f lhs rhs out lhs' out' -> loop_order lhs rhs out cs -> (batch lhs rhs out -> cs = dropped lhs out) ->
  loop_order lhs' rhs' out' (map f cs).
Proof.
  intros Hf Hi Pl Pr Po [A1 A2] (Hc & _ & Hs) Hd.
  assert (Ml : forall c, In c lhs' <-> In c (map f lhs)) by (intros c; split; apply Permutation_in; auto; apply Permutation_sym; auto).
  assert (Mr : forall c, In c rhs' <-> In c (map f rhs)) by (intros c; split; apply Permutation_in; auto; apply Permutation_sym; auto).
  assert (Mo : forall c, In c out' <-> In c (map f out)) by (intros c; split; apply Permutation_in; auto; apply Permutation_sym; auto).
  assert (Io : inj_on f (lhs ++ rhs ++ out)).
  { eapply inj_on_incl; [|exact Hf]. intros c. specialize (Hi c). rewrite !in_app_iff in *. tauto. }
  assert (Il : forall c, In c lhs -> (In (f c) rhs' -> In c rhs) /\ (In (f c) out' -> In c out)).
  { intros c H1. split; intros H2.
    - apply Mr in H2. eapply (inj_mem f lhs); eauto.
    - apply Mo in H2. eapply (inj_mem f lhs); eauto. eapply inj_on_incl; [|exact Io]. intros d. rewrite !in_app_iff. tauto. }
  assert (Hb : batch lhs' rhs' out' <-> batch lhs rhs out).
  { split; intros (c & H1 & H2 & H3).
    - apply Ml in H1. apply in_map_iff in H1 as (d & <- & H1). destruct (Il d H1). exists d. auto.
    - exists (f c). rewrite Ml, Mr, Mo. auto using in_map. }
  split; [|split].
  - intros c'. rewrite in_map_iff, Ml, Mr. split.
    + intros (c & <- & H). apply Hc in H as (H1 & H2 & H3). split; [auto using in_map|]. split; [auto using in_map|].
      intros H. apply H3. apply (Il c H1). auto.
    + intros (H1 & H2 & H3). apply in_map_iff in H1 as (c & <- & H1). exists c. split; auto. apply Hc. split; auto.
      split; [apply (Il c H1), Mr; auto|]. intros H. apply H3, Mo. apply in_map; auto.
  - intros H. apply Hb in H. rewrite (Hd H), <- (A1 H). eexists. reflexivity.
  - intros H. assert (Hn : ~ batch lhs rhs out) by (intros H'; apply H, Hb, H').
    apply sorted_map; [apply Hs; exact Hn|]. intros c d H1 H2. apply Hc in H1 as (H1 & _ & H3). apply Hc in H2 as (H2 & _ & H4). auto.
Qed.

(** The values of two products written alike. *)
Lemma values_rewritten {A} {Sc : Scalar A} (add : list (A * A) -> A) (f : char -> char) size size' lhs rhs out lhs' rhs' out'
    (a b a' b' : arr A) V V' :
  inj_on f (lhs ++ rhs) -> incl out (lhs ++ rhs) -> NoDup lhs ->
  (forall c, In c lhs -> In c rhs \/ In c out) -> (forall c, In c rhs -> In c lhs \/ In c out) ->
  (forall c, In c (lhs ++ rhs) -> size' (f c) = size c) ->
  rewritten f lhs a lhs' a' -> rewritten f rhs b rhs' b' -> Permutation (map f out) out' ->
  alike f lhs rhs out lhs' out' ->
  product_is add size lhs rhs out (fun e => elem a (map e lhs)) (fun e => elem b (map e rhs)) V ->
  product_is add size' lhs' rhs' out' (fun e => elem a' (map e lhs')) (fun e => elem b' (map e rhs')) V' ->
  forall e e' : env, (forall c, In c out -> e' (f c) = e c) -> V' e' = V e.
Proof.
  intros Hf Hi Nl Ul Ur Hsz (Pl & Ea) (Pr & Eb) Po Hal (H1 & H2 & H3 & H4) (H1' & H2' & H3' & H4') e e' He.
  assert (Ml : forall c, In c lhs' <-> In c (map f lhs)) by (intros c; split; apply Permutation_in; auto; apply Permutation_sym; auto).
  assert (Mr : forall c, In c rhs' <-> In c (map f rhs)) by (intros c; split; apply Permutation_in; auto; apply Permutation_sym; auto).
  assert (Mo : forall c, In c out' <-> In c (map f out)) by (intros c; split; apply Permutation_in; auto; apply Permutation_sym; auto).
  assert (Io : inj_on f (lhs ++ rhs ++ out)).
  { eapply inj_on_incl; [|exact Hf]. clear - Hi. intros c. specialize (Hi c). rewrite !in_app_iff in *. tauto. }
  assert (Hin : forall l l' c, (forall c, In c l' <-> In c (map f l)) -> incl l (lhs ++ rhs ++ out) ->
            In c (lhs ++ rhs ++ out) -> (In (f c) l' <-> In c l)).
  { intros l l' c M Hincl Hc. rewrite M. split; [|apply in_map]. intros H. apply in_map_iff in H as (d & E & Hd).
    rewrite (Io c d); auto. }
  assert (Hsame : same_labels lhs' rhs' out' <-> same_labels lhs rhs out).
  { assert (Jl : incl lhs (lhs ++ rhs ++ out)) by (intros c; rewrite !in_app_iff; auto).
    assert (Jr : incl rhs (lhs ++ rhs ++ out)) by (intros c; rewrite !in_app_iff; auto).
    assert (Jo : incl out (lhs ++ rhs ++ out)) by (intros c; rewrite !in_app_iff; auto).
    split; intros H c.
    - destruct (in_dec N.eq_dec c (lhs ++ rhs ++ out)) as [Hc|Hc].
      + destruct (H (f c)) as [K1 K2]. rewrite (Hin lhs lhs' c Ml Jl Hc) in K1. rewrite (Hin rhs rhs' c Mr Jr Hc) in K2.
        rewrite (Hin out out' c Mo Jo Hc) in K1, K2. split; [exact K1|exact K2].
      + rewrite !in_app_iff in Hc. clear - Hc. tauto.
    - rewrite Ml, Mr, Mo. rewrite !in_map_iff. split; split; intros (d & E & Hd); exists d; (split; [exact E|]); specialize (H d); clear - H Hd; tauto. }
  assert (Hnl : lhs' = [] <-> lhs = []).
  { split; intros E; rewrite E in Pl; [apply Permutation_sym, Permutation_nil, map_eq_nil in Pl|apply Permutation_nil in Pl]; auto. }
  assert (Hnr : rhs' = [] <-> rhs = []).
  { split; intros E; rewrite E in Pr; [apply Permutation_sym, Permutation_nil, map_eq_nil in Pr|apply Permutation_nil in Pr]; auto. }
  assert (HF : forall e e' : env, (forall c, In c lhs -> e' (f c) = e c) -> elem a' (map e' lhs') = elem a (map e lhs)).
  { intros x x' Hx. rewrite Ea. f_equal. apply map_ext_in. auto. }
  assert (HG : forall e e' : env, (forall c, In c rhs -> e' (f c) = e c) -> elem b' (map e' rhs') = elem b (map e rhs)).
  { intros x x' Hx. rewrite Eb. f_equal. apply map_ext_in. auto. }
  destruct (same_labels_dec lhs rhs out) as [Hs|Hs].
  { rewrite (H1' (proj2 Hsame Hs)), (H1 Hs). f_equal; [apply HF|apply HG]; intros c Hc; apply He; destruct (Hs c) as [K1 K2]; clear - K1 K2 Hc; tauto. }
  assert (Hs' : ~ same_labels lhs' rhs' out') by (intros H; apply Hs, Hsame, H).
  destruct (list_eq_dec N.eq_dec lhs []) as [El|El].
  { rewrite (H2' Hs' (proj2 Hnl El)), (H2 Hs El). f_equal; [apply HG|apply HF].
    - intros c Hc. apply He. destruct (Ur c Hc) as [H|H]; auto. rewrite El in H. contradiction.
    - intros c Hc. rewrite El in Hc. contradiction. }
  destruct (list_eq_dec N.eq_dec rhs []) as [Er|Er].
  { rewrite (H3' Hs' (proj2 Hnr Er)), (H3 Hs Er). f_equal; [apply HF|apply HG].
    - intros c Hc. apply He. destruct (Ul c Hc) as [H|H]; auto. rewrite Er in H. contradiction.
    - intros c Hc. rewrite Er in Hc. contradiction. }
  destruct (loops_exist lhs rhs out Nl Ul) as (cs & Hcs & Hb).
  pose proof (loop_order_rewritten f lhs rhs out lhs' rhs' out' cs Hf Hi Pl Pr Po Hal Hcs Hb) as Hcs'.
  rewrite (H4' Hs' (fun E => El (proj1 Hnl E)) (fun E => Er (proj1 Hnr E)) _ Hcs'), (H4 Hs El Er _ Hcs). f_equal.
  destruct Hcs as (Hc & _). apply (loops_rewritten f size size' cs out).
  - eapply inj_on_incl; [|exact Io]. clear - Hc. intros c. rewrite !in_app_iff, Hc. tauto.
  - intros c H. apply Hsz. apply Hc in H. rewrite in_app_iff. left. apply H.
  - intros x x' Hx. f_equal; [apply HF|apply HG]; intros c H; apply Hx; rewrite in_app_iff, Hc.
    + specialize (Ul c H). clear - Ul H. destruct (in_dec N.eq_dec c out); tauto.
    + specialize (Ur c H). clear - Ur H. destruct (in_dec N.eq_dec c out); tauto.
  - auto.
Qed.

(** The values of a product and of the product of the swapped operands. *)
Lemma values_swapped {A} {Sc : Scalar A} (add : list (A * A) -> A) size lhs rhs out (F G : env -> A) V V' :
  (forall x y, smul x y = smul y x) -> (forall l, add (map (fun p => (snd p, fst p)) l) = add l) ->
  NoDup lhs -> (forall c, In c lhs -> In c rhs \/ In c out) ->
  (batch lhs rhs out -> dropped lhs out = dropped rhs out) ->
  product_is add size lhs rhs out F G V -> product_is add size rhs lhs out G F V' ->
  forall e, V' e = V e.
Proof.
  intros Hm Ha Nl Ul Hd (H1 & H2 & H3 & H4) (H1' & H2' & H3' & H4') e.
  assert (Hsame : same_labels rhs lhs out <-> same_labels lhs rhs out) by (unfold same_labels; split; intros H c; specialize (H c); tauto).
  destruct (same_labels_dec lhs rhs out) as [Hs|Hs].
  { rewrite (H1' (proj2 Hsame Hs)), (H1 Hs). apply Hm. }
  assert (Hs' : ~ same_labels rhs lhs out) by (intros H; apply Hs, Hsame, H).
  destruct (list_eq_dec N.eq_dec lhs []) as [El|El].
  { rewrite (H3' Hs' El), (H2 Hs El). auto. }
  destruct (list_eq_dec N.eq_dec rhs []) as [Er|Er].
  { rewrite (H2' Hs' Er), (H3 Hs Er). auto. }
  destruct (loops_exist lhs rhs out Nl Ul) as (cs & Hcs & Hb).
  assert (Hcs' : loop_order rhs lhs out cs).
  { destruct Hcs as (Hc & _ & Hso). split; [|split].
    - intros c. rewrite Hc. tauto.
    - intros (c & K1 & K2 & K3). assert (B : batch lhs rhs out) by (exists c; auto).
      rewrite (Hb B), (Hd B). eexists. reflexivity.
    - intros Hn. apply Hso. intros (c & K1 & K2 & K3). apply Hn. exists c. auto. }
  rewrite (H4' Hs' Er El cs Hcs'), (H4 Hs El Er cs Hcs). rewrite <- Ha. f_equal.
  rewrite !loops_are, map_map. reflexivity.
Qed.

(** ** One operand *)

Lemma position_renamed f c l : inj_on f (c :: l) -> position (f c) (map f l) = position c l.
Proof.
  induction l as [|x l IH]; intros Hf; [reflexivity|]. cbn [map position].
  destruct (N.eqb_spec x c) as [->|Hn]; [rewrite N.eqb_refl; auto|].
  destruct (N.eqb_spec (f x) (f c)) as [E|_].
  - exfalso. apply Hn, Hf; simpl; auto.
  - rewrite IH; auto. eapply inj_on_incl; [|exact Hf]. intros y [<-|H]; simpl; auto.
Qed.

Lemma mem_renamed f c l : inj_on f (c :: l) -> In (f c) (map f l) <-> In c l.
Proof. intros Hf. split; [|apply in_map]. intros H. eapply inj_In; eauto using incl_refl. Qed.

Lemma distinct_renamed f l : inj_on f l -> distinct (map f l) = map f (distinct l).
Proof.
  unfold distinct. induction l as [|x l IH]; intros Hf; [reflexivity|]. cbn [map nodup].
  pose proof (mem_renamed f x l Hf) as H. rewrite IH by (eapply inj_on_incl; [|exact Hf]; apply incl_tl, incl_refl).
  destruct (in_dec char_eq_dec (f x) (map f l)), (in_dec char_eq_dec x l); try reflexivity; exfalso; tauto.
Qed.

Lemma count_renamed f c l : inj_on f (c :: l) -> count (f c) (map f l) = count c l.
Proof.
  unfold count. induction l as [|x l IH]; intros Hf; [reflexivity|]. cbn [map count_occ].
  rewrite IH by (eapply inj_on_incl; [|exact Hf]; intros y [<-|H]; simpl; auto).
  destruct (char_eq_dec (f x) (f c)) as [E|E], (char_eq_dec x c) as [E'|E']; auto; exfalso.
  - apply E', Hf; simpl; auto.
  - apply E. congruence.
Qed.

Lemma filter_length_map {T U} (g : T -> U) p q l : (forall x, In x l -> p (g x) = q x) ->
  length (filter p (map g l)) = length (filter q l).
Proof.
  induction l as [|x l IH]; intros H; [reflexivity|]. cbn [map filter]. rewrite H by (simpl; auto).
  destruct (q x); cbn [length]; rewrite IH; auto; intros; apply H; simpl; auto.
Qed.

Lemma combine_map {T U} (g : T -> U) l m : combine (map g l) (map g m) = map (fun p => (g (fst p), g (snd p))) (combine l m).
Proof. revert m. induction l as [|x l IH]; intros [|y m]; auto. cbn [map combine fst snd]. f_equal. auto. Qed.

Lemma summary_renamed f this out : inj_on f (this ++ out) ->
  Strategies.singleton_summary_from_indices (map f this) (map f out) = Strategies.singleton_summary_from_indices this out.
Proof.
  intros Hf. assert (Ht : inj_on f this) by (eapply inj_on_incl; [|exact Hf]; apply incl_appl, incl_refl).
  unfold Strategies.singleton_summary_from_indices. rewrite (distinct_renamed f this Ht), !map_length, combine_map.
  destruct (usub _ _) as [n| |]; cbn [rbind]; auto. do 2 f_equal; apply filter_length_map.
  - intros c Hc. rewrite distinct_In in Hc. f_equal. apply count_renamed.
    eapply inj_on_incl; [|exact Ht]. intros d [<-|H]; auto.
  - intros [x y] H. cbn [fst snd]. f_equal. pose proof (in_combine_l _ _ _ _ H). pose proof (in_combine_r _ _ _ _ H).
    destruct (N.eqb_spec x y) as [->|Hn]; [apply N.eqb_refl|]. apply N.eqb_neq. intros E. apply Hn, Hf; auto; apply in_or_app; auto.
Qed.

Lemma diag_mapping_renamed f input : forall adj, inj_on f (input ++ adj) ->
  Singleton.diag_mapping (map f adj) (map f input)
  = (map f (fst (Singleton.diag_mapping adj input)), snd (Singleton.diag_mapping adj input)).
Proof.
  induction input as [|c input IH]; intros adj Hf; [reflexivity|]. cbn [map Singleton.diag_mapping].
  rewrite position_renamed by (eapply inj_on_incl; [|exact Hf]; intros d [<-|H]; simpl; auto using in_or_app).
  destruct (position c adj) as [p|].
  - rewrite IH by (eapply inj_on_incl; [|exact Hf]; apply incl_tl, incl_refl).
    destruct (Singleton.diag_mapping adj input). reflexivity.
  - change (map f adj ++ [f c]) with (map f adj ++ map f [c]). rewrite <- map_app, IH.
    + destruct (Singleton.diag_mapping (adj ++ [c]) input). rewrite map_length. reflexivity.
    + eapply inj_on_incl; [|exact Hf]. intros d. simpl. rewrite !in_app_iff. simpl. tauto.
Qed.

Lemma mapM_map_ext {T U V} (g : T -> U) (p : U -> res V) (q : T -> res V) l : (forall x, In x l -> p (g x) = q x) ->
  mapM p (map g l) = mapM q l.
Proof.
  induction l as [|x l IH]; intros H; [reflexivity|]. cbn [map mapM]. rewrite H by (simpl; auto). rewrite IH; auto.
  intros y Hy. apply H. simpl; auto.
Qed.

Lemma diag_mapping_labels input : forall adj c, In c (fst (Singleton.diag_mapping adj input)) -> In c (input ++ adj).
Proof.
  induction input as [|x input IH]; intros adj c; [auto|]. cbn [Singleton.diag_mapping app]. destruct (position x adj).
  - specialize (IH adj c). destruct (Singleton.diag_mapping adj input). cbn [fst] in *. intros H. right. auto.
  - specialize (IH (adj ++ [x]) c). destruct (Singleton.diag_mapping (adj ++ [x]) input). cbn [fst] in *. intros H.
    specialize (IH H). simpl. rewrite !in_app_iff in *. simpl in IH. tauto.
Qed.

(** The contraction of one operand is compiled without regard to the names of its labels. *)
Lemma contraction_renamed f sc sc' this out size size' :
  ValidationFacts.sized sc [this] out size -> ValidationFacts.sized sc' [map f this] (map f out) size' ->
  inj_on f this -> (forall c, In c this -> size' (f c) = size c) ->
  Path.singleton_contraction_new sc' = Path.singleton_contraction_new sc.
Proof.
  intros (Ec & [_ Ho] & Hs) (Ec' & _ & Hs') Ht Hsz.
  cbn [concat] in Ho, Hs, Hs'. rewrite app_nil_r in Ho, Hs, Hs'.
  assert (Hf : inj_on f (this ++ out)).
  { eapply inj_on_incl; [|exact Ht]. intros c. rewrite in_app_iff. specialize (Ho c). tauto. }
  assert (Hsize : forall c, In c this -> Validation.size_of (Validation.sc_output_size sc') (f c) = Validation.size_of (Validation.sc_output_size sc) c).
  { intros c Hc. unfold Validation.size_of. rewrite (Hs c), (Hs' (f c)).
    rewrite (proj2 (mem_In c this) Hc), (proj2 (mem_In (f c) (map f this))) by (apply in_map; auto). rewrite Hsz; auto. }
  assert (Hd : Singleton.diagonalization_new sc' = Singleton.diagonalization_new sc).
  { unfold Singleton.diagonalization_new. rewrite Ec, Ec'. cbn [Validation.operand_indices Validation.output_indices ValidationFacts.contraction_of length index nth_error unwrap rbind Nat.eqb rassert].
    rewrite diag_mapping_renamed by auto. destruct (Singleton.diag_mapping out this) as [adj m] eqn:E. cbn [fst snd].
    erewrite mapM_map_ext; [reflexivity|]. intros c Hc. apply Hsize.
    pose proof (diag_mapping_labels this out c) as H. rewrite E in H. specialize (H Hc). apply in_app_iff in H as [H|H]; auto. }
  assert (Hsum : Singleton.summation_new sc' = Singleton.summation_new sc).
  { unfold Singleton.summation_new. rewrite Ec, Ec'. cbn [Validation.operand_indices Validation.output_indices ValidationFacts.contraction_of index nth_error unwrap rbind].
    rewrite !map_length. reflexivity. }
  assert (Hpos : mapM (fun o => unwrap (position o (map f this))) (map f out) = mapM (fun o => unwrap (position o this)) out).
  { apply mapM_map_ext. intros c Hc. f_equal. apply position_renamed. eapply inj_on_incl; [|exact Ht]. intros d [<-|H]; auto. }
  unfold Path.singleton_contraction_new, Strategies.singleton_summary_new. rewrite Ec, Ec'.
  cbn [Validation.operand_indices Validation.output_indices ValidationFacts.contraction_of length index nth_error unwrap rbind Nat.eqb rassert].
  rewrite summary_renamed by auto. destruct (Strategies.singleton_summary_from_indices this out) as [su| |]; cbn [rbind]; auto.
  replace (Path.singleton_op_new (Strategies.singleton_strategy su) sc') with (Path.singleton_op_new (Strategies.singleton_strategy su) sc); auto.
  destruct (Strategies.singleton_strategy su); cbn [Path.singleton_op_new]; rewrite ?Hsum, ?Hd; auto.
  - unfold Singleton.permutation_new. rewrite Ec, Ec'.
    cbn [Validation.operand_indices Validation.output_indices ValidationFacts.contraction_of length index nth_error unwrap rbind Nat.eqb rassert].
    rewrite !map_length, Hpos. reflexivity.
  - unfold Singleton.perm_and_sum_new. rewrite Ec, Ec', Hsum.
    cbn [Validation.operand_indices Validation.output_indices ValidationFacts.contraction_of length index nth_error unwrap rbind Nat.eqb rassert].
    rewrite Hpos, map_length. destruct (mapM _ out) as [front| |]; cbn [rbind]; auto. do 5 f_equal.
    assert (G : forall l n, incl l this ->
      map fst (filter (fun ic => match position (snd ic) out with None => true | Some _ => false end) (combine (seq n (length l)) l))
      = map fst (filter (fun ic => match position (snd ic) (map f out) with None => true | Some _ => false end) (combine (seq n (length l)) (map f l)))).
    { induction l as [|c l IH]; intros n Hl; [reflexivity|]. cbn [length seq combine map filter snd].
      rewrite position_renamed.
      - rewrite <- app_nil_l. destruct (position c out); cbn [map app]; rewrite IH; auto; intros d H; apply Hl; simpl; auto.
      - eapply inj_on_incl; [|exact Hf]. intros d [<-|H]; apply in_or_app; auto. left. apply Hl. simpl; auto. }
    rewrite G by apply incl_refl. reflexivity.
  - unfold Singleton.diag_and_sum_new. rewrite Hd, Ec, Ec'. cbn [Validation.output_indices ValidationFacts.contraction_of]. rewrite map_length. reflexivity.
Qed.
