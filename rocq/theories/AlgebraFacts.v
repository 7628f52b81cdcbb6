(** Laws of [einsum] derived from its outcome: C16, C22, C23, C24, C34. *)
From Verif Require Import Base BaseFacts NDArray Validation Optimizers Strategies Singleton Pair Path
  Api Spec ValidationFacts SumFacts ArrayFacts SingletonFacts PairFacts PairMain PathFacts EinsumMain
  EinsumProps.
From Coq Require Import Lia.

Lemma holds_ext_in {A} (a : arr A) sh f g :
  (forall idx, in_bounds sh idx = true -> f idx = g idx) -> holds a sh f -> holds a sh g.
Proof. intros H (H1 & H2 & H3). split; auto. split; auto. intros idx Hi. rewrite <- H; auto. Qed.

Lemma explicit_meaning s ops out ops' out' : grammar s ops (Some out) -> meaning s ops' out' ->
  ops' = ops /\ out' = out.
Proof. intros H H'. destruct (meaning_unique s ops out ops' out'); auto. left; auto. Qed.

Lemma explicit_call_ok s shapes ops out size : grammar s ops (Some out) ->
  output_ok ops out -> shapes_ok size ops shapes -> call_ok s shapes ops out size.
Proof. intros. split; [left|split]; auto. Qed.

Section Algebra.
Context {A : Type} {Sc : Scalar A}.
Hypothesis SR : semiring A.
Let SR' : semi_ring_theory szero sone sadd smul (@eq A) := SR.
Add Ring Aring : SR'.

(** Two explicit calls with corresponding labels and lengths. *)
Lemma outcome_transfer h h' lay lay' s s' (arrays arrays' : list (arr A)) ops ops' out out' :
  hash_ok h -> hash_ok h' -> backend_ok lay -> backend_ok lay' ->
  Forall wf arrays -> Forall wf arrays' ->
  grammar s ops (Some out) -> grammar s' ops' (Some out') ->
  (forall size, call_ok s (map (@a_shape A) arrays) ops out size ->
     exists size', call_ok s' (map (@a_shape A) arrays') ops' out' size'
       /\ (blocked_in size (combine arrays ops) out <-> blocked_in size' (combine arrays' ops') out')
       /\ map size out = map size' out'
       /\ forall o, in_bounds (map size out) o = true ->
            einsum_value size arrays ops out o = einsum_value size' arrays' ops' out' o) ->
  (accepted s' (map (@a_shape A) arrays') -> accepted s (map (@a_shape A) arrays)) ->
  same_outcome (einsum h lay s arrays) (einsum h' lay' s' arrays').
Proof.
  intros Hh Hh' Hl Hl' Hw Hw' G G' H1 H2.
  destruct (accepted_dec h Hh s (map (@a_shape A) arrays)) as [(ops0 & out0 & size & Hc)|Hn].
  - destruct (explicit_meaning _ _ _ _ _ G (proj1 Hc)) as [-> ->].
    destruct (H1 size Hc) as (size' & Hc' & Hb & Hs & Hv).
    destruct (einsum_outcome SR h lay Hh Hl s arrays ops out size Hc Hw) as [[E B]|[B (r & E & Hr)]];
    destruct (einsum_outcome SR h' lay' Hh' Hl' s' arrays' ops' out' size' Hc' Hw') as [[E' B']|[B' (r' & E' & Hr')]];
    rewrite E, E'; simpl; auto; try tauto.
    apply same_array_holds with (sh := map size out) (f := einsum_value size arrays ops out); auto.
    rewrite Hs in *. eapply holds_ext_in; [|exact Hr']. intros o Ho. symmetry. auto.
  - destruct (einsum_rejects h lay Hh s arrays Hn) as (m & ->).
    destruct (accepted_dec h' Hh' s' (map (@a_shape A) arrays')) as [Ha|Hn']; [exfalso; auto|].
    destruct (einsum_rejects h' lay' Hh' s' arrays' Hn') as (m' & ->). simpl; auto.
Qed.

(** ** C22 *)

Lemma shapes_ok_zip size (zs : list (arr A * list char)) :
  shapes_ok size (map snd zs) (map (@a_shape A) (map fst zs))
  <-> forall a ix, In (a, ix) zs -> a_shape a = map size ix.
Proof.
  split.
  - intros H. induction zs as [|[b jx] zs IH]; simpl in *; [tauto|]. inversion H; subst.
    intros a ix [E|Hi]; [injection E as <- <-; auto|auto].
  - induction zs as [|[b jx] zs IH]; simpl; intros H; constructor; auto.
    apply IH. intros a ix Hi. apply H; auto.
Qed.

Lemma combine_fst_snd {T U} (zs : list (T * U)) : combine (map fst zs) (map snd zs) = zs.
Proof. induction zs as [|[a b] zs IH]; simpl; congruence. Qed.

Lemma concat_perm (l l' : list (list char)) : Permutation l l' -> Permutation (concat l) (concat l').
Proof.
  induction 1; simpl; auto.
  - apply Permutation_app_head; auto.
  - rewrite !app_assoc. apply Permutation_app_tail. apply Permutation_app_comm.
  - eapply Permutation_trans; eauto.
Qed.

Lemma output_ok_perm ops ops' out : Permutation ops ops' -> output_ok ops out -> output_ok ops' out.
Proof.
  intros Hp [H1 H2]. split; auto. intros c Hc. eapply Permutation_in; [apply concat_perm; eauto|]. auto.
Qed.

Lemma einsum_value_perm size (zs zs' : list (arr A * list char)) out o : Permutation zs zs' ->
  einsum_value size (map fst zs) (map snd zs) out o = einsum_value size (map fst zs') (map snd zs') out o.
Proof.
  intros Hp. unfold einsum_value.
  rewrite (nested_sum_perm SR size (summed_labels (map snd zs) out) (summed_labels (map snd zs') out)
             (concat (map snd zs))).
  - apply nested_sum_ext_all. intros e. unfold term. rewrite !combine_fst_snd.
    apply (product_perm SR). apply Permutation_map; auto.
  - apply term_dep.
  - apply summed_labels_NoDup.
  - apply summed_labels_perm; [apply summed_labels_NoDup|].
    intros c. rewrite summed_labels_In. split; intros [H1 H2]; split; auto;
      (eapply Permutation_in; [|exact H1]); apply concat_perm, Permutation_map;
      auto using Permutation_sym.
Qed.

Lemma operand_order h h' lay lay' s s' (zs zs' : list (arr A * list char)) out :
  hash_ok h -> hash_ok h' -> backend_ok lay -> backend_ok lay' ->
  Forall wf (map fst zs) -> Permutation zs zs' ->
  grammar s (map snd zs) (Some out) -> grammar s' (map snd zs') (Some out) ->
  same_outcome (einsum h lay s (map fst zs)) (einsum h' lay' s' (map fst zs')).
Proof.
  intros Hh Hh' Hl Hl' Hw Hp G G'.
  assert (Hw' : Forall wf (map fst zs')).
  { apply Forall_forall. intros a Ha. rewrite Forall_forall in Hw. apply Hw.
    eapply Permutation_in; [|exact Ha]. apply Permutation_map, Permutation_sym; auto. }
  apply (outcome_transfer h h' lay lay' s s' _ _ (map snd zs) (map snd zs') out out); auto.
  - intros size (_ & Ho & Hs). exists size. split; [|split; [|split]]; auto.
    + apply explicit_call_ok; auto.
      * eapply output_ok_perm; [|exact Ho]. apply Permutation_map; auto.
      * apply shapes_ok_zip. intros a ix Hi. rewrite shapes_ok_zip in Hs. apply Hs.
        eapply Permutation_in; [apply Permutation_sym; exact Hp|auto].
    + rewrite !combine_fst_snd. split; apply blocked_in_perm; auto using Permutation_sym.
    + intros o _. apply einsum_value_perm; auto.
  - intros (ops0 & out0 & size & (Hm & Ho & Hs)).
    destruct (explicit_meaning _ _ _ _ _ G' Hm) as [-> ->].
    exists (map snd zs), out, size. apply explicit_call_ok; auto.
    + eapply output_ok_perm; [|exact Ho]. apply Permutation_map, Permutation_sym; auto.
    + apply shapes_ok_zip. intros a ix Hi. rewrite shapes_ok_zip in Hs. apply Hs.
      eapply Permutation_in; [exact Hp|auto].
Qed.

(** ** C23 *)

Definition inj_on (f : char -> char) (cs : list char) : Prop :=
  forall c d, In c cs -> In d cs -> f c = f d -> c = d.

Lemma inj_on_incl f cs ds : incl cs ds -> inj_on f ds -> inj_on f cs.
Proof. intros H Hf c d Hc Hd. apply Hf; auto. Qed.

Lemma inj_In f cs c d : inj_on f (c :: cs) -> incl d cs -> In (f c) (map f d) -> In c d.
Proof.
  intros Hf Hi H. apply in_map_iff in H as (x & E & Hx).
  rewrite (Hf c x); auto; simpl; auto.
Qed.

Lemma NoDup_map_inj f (l : list char) : inj_on f l -> NoDup l -> NoDup (map f l).
Proof.
  induction l as [|c l IH]; simpl; intros Hf Hn; [constructor|]. inversion Hn as [|? ? H1 H2]; subst.
  constructor.
  - intros H. apply H1. eapply inj_In; eauto using incl_refl.
  - apply IH; auto. eapply inj_on_incl; [|exact Hf]. apply incl_tl, incl_refl.
Qed.

Lemma nested_sum_rename (f : char -> char) size size' cs ds (F F' : env -> A) :
  dep F ds -> (forall e, F' e = F (fun c => e (f c))) -> inj_on f (cs ++ ds) ->
  (forall c, In c cs -> size' (f c) = size c) ->
  forall e e', (forall c, In c ds -> e c = e' (f c)) ->
  nested_sum size' (map f cs) F' e' = nested_sum size cs F e.
Proof.
  intros Hd HF. induction cs as [|c cs IH]; simpl; intros Hf Hs e e' He.
  - rewrite HF. apply Hd. intros c Hc. symmetry. auto.
  - rewrite Hs by auto. apply sum_n_ext. intros i _. apply IH.
    + eapply inj_on_incl; [|exact Hf]. apply incl_tl, incl_refl.
    + auto.
    + intros d Hdd. unfold upd. destruct (N.eqb_spec d c) as [->|Hn].
      * rewrite N.eqb_refl. auto.
      * destruct (N.eqb_spec (f d) (f c)) as [E|_]; auto.
        exfalso. apply Hn. apply Hf; auto; simpl; rewrite ?in_app_iff; auto.
Qed.

Lemma bind_rename f out o c : inj_on f (c :: out) -> bind (map f out) o (f c) = bind out o c.
Proof.
  revert o; induction out as [|d out IH]; intros [|i o] Hf; simpl; auto.
  unfold upd. destruct (N.eqb_spec c d) as [->|Hn].
  - rewrite N.eqb_refl. auto.
  - destruct (N.eqb_spec (f c) (f d)) as [E|_].
    + exfalso. apply Hn. apply Hf; simpl; auto.
    + apply IH. eapply inj_on_incl; [|exact Hf]. intros x [<-|Hx]; simpl; auto.
Qed.

Lemma term_rename f (arrays : list (arr A)) ops e :
  term arrays (map (map f) ops) e = term arrays ops (fun c => e (f c)).
Proof.
  revert ops; induction arrays as [|a arrays IH]; intros [|ix ops]; simpl; auto.
  rewrite !term_cons, IH, map_map. auto.
Qed.

Lemma concat_map_map (f : char -> char) (ops : list (list char)) : concat (map (map f) ops) = map f (concat ops).
Proof. induction ops; simpl; auto. rewrite map_app. congruence. Qed.

Lemma einsum_value_rename f size size' (arrays : list (arr A)) ops out o :
  inj_on f (concat ops ++ out) -> (forall c, In c (concat ops) -> size' (f c) = size c) ->
  einsum_value size' arrays (map (map f) ops) (map f out) o = einsum_value size arrays ops out o.
Proof.
  intros Hf Hs. unfold einsum_value.
  rewrite (nested_sum_perm SR size' _ (map f (summed_labels ops out)) (concat (map (map f) ops))).
  - apply nested_sum_rename with (ds := concat ops).
    + apply term_dep.
    + intros e. apply term_rename.
    + eapply inj_on_incl; [|exact Hf]. intros c Hc. rewrite in_app_iff, summed_labels_In in Hc.
      apply in_or_app. tauto.
    + intros c Hc. apply summed_labels_In in Hc. apply Hs. tauto.
    + intros c Hc. symmetry. apply bind_rename. eapply inj_on_incl; [|exact Hf].
      intros d [<-|Hd]; apply in_or_app; auto.
  - apply term_dep.
  - apply summed_labels_NoDup.
  - apply Permutation_sym, summed_labels_perm.
    + apply NoDup_map_inj; [|apply summed_labels_NoDup]. eapply inj_on_incl; [|exact Hf].
      intros c Hc. apply summed_labels_In in Hc. apply in_or_app. tauto.
    + intros c. rewrite concat_map_map, !in_map_iff. split.
      * intros (d & <- & Hd). apply summed_labels_In in Hd as [H1 H2]. split; [eauto|].
        intros (x & E & Hx). apply H2. rewrite <- (Hf x d); auto; apply in_or_app; auto.
      * intros [(d & <- & Hd) Hn]. exists d. split; auto. apply summed_labels_In. split; auto.
        intros Ho. apply Hn. eauto.
Qed.

Lemma NoDup_map_iff f (l : list char) : inj_on f l -> (NoDup (map f l) <-> NoDup l).
Proof. intros Hf. split; [apply NoDup_map_inv|apply NoDup_map_inj; auto]. Qed.

Lemma blocked_rename f size size' (a : arr A) ix others :
  inj_on f (ix ++ others) -> (forall c, In c ix -> size' (f c) = size c) ->
  (blocked size' a (map f ix) (map f others) <-> blocked size a ix others).
Proof.
  intros Hf Hs. unfold blocked.
  assert (Hi : inj_on f ix) by (eapply inj_on_incl; [|exact Hf]; apply incl_appl, incl_refl).
  rewrite (NoDup_map_iff f ix Hi).
  assert (E1 : (exists c, In c (map f ix) /\ size' c = 0) <-> (exists c, In c ix /\ size c = 0)).
  { split.
    - intros (c & Hc & H0). apply in_map_iff in Hc as (d & <- & Hd). exists d. rewrite Hs in H0; auto.
    - intros (c & Hc & H0). exists (f c). split; [apply in_map; auto|]. rewrite Hs; auto. }
  assert (E2 : (forall c, In c (map f ix) -> size' c <= 1) <-> (forall c, In c ix -> size c <= 1)).
  { split.
    - intros H c Hc. rewrite <- Hs by auto. apply H, in_map; auto.
    - intros H c Hc. apply in_map_iff in Hc as (d & <- & Hd). rewrite Hs; auto. }
  assert (E3 : (exists c, In c (map f ix) /\ ~ In c (map f others)) <-> (exists c, In c ix /\ ~ In c others)).
  { split.
    - intros (c & Hc & Hn). apply in_map_iff in Hc as (d & <- & Hd). exists d. split; auto.
      intros Ho. apply Hn, in_map; auto.
    - intros (c & Hc & Hn). exists (f c). split; [apply in_map; auto|]. intros Ho. apply Hn.
      apply in_map_iff in Ho as (x & E & Hx). rewrite (Hf c x); auto; apply in_or_app; auto. }
  rewrite E1, E2, E3. tauto.
Qed.

Definition rename_second (f : char -> char) (p : arr A * list char) : arr A * list char :=
  (fst p, map f (snd p)).

Lemma combine_rename f (arrays : list (arr A)) ops :
  combine arrays (map (map f) ops) = map (rename_second f) (combine arrays ops).
Proof. revert ops; induction arrays as [|a l IH]; intros [|x ops]; simpl; auto. rewrite IH; auto. Qed.

Lemma map_snd_rename f z : map snd (map (rename_second f) z) = map (map f) (map snd z).
Proof. induction z as [|p z IH]; simpl; congruence. Qed.

Lemma blocked_in_rename f size size' (z : list (arr A * list char)) out :
  inj_on f (concat (map snd z) ++ out) ->
  (forall c, In c (concat (map snd z)) -> size' (f c) = size c) ->
  (blocked_in size' (map (rename_second f) z) (map f out) <-> blocked_in size z out).
Proof.
  intros Hf Hs.
  assert (Sub : forall p1 (a : arr A) ix p2, z = p1 ++ (a, ix) :: p2 ->
    (blocked size' a (map f ix) (concat (map snd (map (rename_second f) (p1 ++ p2))) ++ map f out)
     <-> blocked size a ix (concat (map snd (p1 ++ p2)) ++ out))).
  { intros p1 a ix p2 ->. rewrite map_snd_rename, concat_map_map, <- map_app. apply blocked_rename.
    - eapply inj_on_incl; [|exact Hf]. intros c. rewrite !map_app, !concat_app. cbn [map snd concat].
      rewrite !in_app_iff. tauto.
    - intros c Hc. apply Hs. rewrite map_app, concat_app. cbn [map snd concat]. rewrite !in_app_iff. auto. }
  split.
  - intros (p1 & a & ix & p2 & E & Hb).
    apply map_eq_app in E as (q1 & q & E & E1 & E2). apply map_eq_cons in E2 as ([b jx] & q2 & -> & E2 & E3).
    unfold rename_second in E2. cbn [fst snd] in E2. injection E2 as <- <-.
    exists q1, b, jx, q2. split; auto. apply (Sub q1 b jx q2 E). rewrite map_app, E1, E3. exact Hb.
  - intros (p1 & a & ix & p2 & E & Hb).
    exists (map (rename_second f) p1), a, (map f ix), (map (rename_second f) p2). split.
    + rewrite E, map_app. reflexivity.
    + rewrite <- map_app. apply (Sub p1 a ix p2 E). exact Hb.
Qed.

Lemma shapes_ok_len size ops shapes : shapes_ok size ops shapes -> length ops = length shapes.
Proof. induction 1; simpl; auto. Qed.

Lemma shapes_ok_rename f size size' ops shapes :
  (forall c, In c (concat ops) -> size' (f c) = size c) ->
  (shapes_ok size' (map (map f) ops) shapes <-> shapes_ok size ops shapes).
Proof.
  revert shapes; induction ops as [|ix ops IH]; intros shapes Hs; simpl.
  - split; intros H; inversion H; constructor.
  - assert (E : map size' (map f ix) = map size ix).
    { rewrite map_map. apply map_ext_in. intros c Hc. apply Hs. simpl. apply in_or_app; auto. }
    assert (IH' := fun sh => IH sh (fun c Hc => Hs c (in_or_app _ _ _ (or_intror Hc)))).
    split; intros H; inversion H as [|? y ? l' E' H']; subst; constructor; try congruence; apply IH'; auto.
Qed.

(** A length for each renamed label. *)
Definition renamed_size (f : char -> char) (size : char -> nat) (cs : list char) (d : char) : nat :=
  match find (fun c => N.eqb (f c) d) cs with Some c => size c | None => 0 end.

Lemma renamed_size_ok f size cs c : inj_on f cs -> In c cs -> renamed_size f size cs (f c) = size c.
Proof.
  intros Hf Hc. unfold renamed_size. destruct (find _ cs) as [d|] eqn:E.
  - apply find_some in E as [Hd E]. apply N.eqb_eq in E. rewrite (Hf d c); auto.
  - apply (find_none _ _ E) in Hc. rewrite N.eqb_refl in Hc. discriminate.
Qed.

Lemma output_ok_rename f ops out : inj_on f (concat ops ++ out) ->
  (output_ok (map (map f) ops) (map f out) <-> output_ok ops out).
Proof.
  intros Hf. unfold output_ok. rewrite concat_map_map.
  assert (Hi : inj_on f out) by (eapply inj_on_incl; [|exact Hf]; apply incl_appr, incl_refl).
  rewrite (NoDup_map_iff f out Hi). split; intros [H1 H2]; split; auto.
  - intros c Hc. assert (Hm : In (f c) (map f (concat ops))) by (apply H2, in_map; auto).
    apply in_map_iff in Hm as (d & E & Hd). rewrite (Hf c d); auto; apply in_or_app; auto.
  - apply incl_map; auto.
Qed.

Lemma label_names h h' lay lay' s s' f (arrays : list (arr A)) ops out :
  hash_ok h -> hash_ok h' -> backend_ok lay -> backend_ok lay' -> Forall wf arrays ->
  inj_on f (concat ops ++ out) ->
  grammar s ops (Some out) -> grammar s' (map (map f) ops) (Some (map f out)) ->
  same_outcome (einsum h lay s arrays) (einsum h' lay' s' arrays).
Proof.
  intros Hh Hh' Hl Hl' Hw Hf G G'.
  assert (Hi : inj_on f (concat ops)) by (eapply inj_on_incl; [|exact Hf]; apply incl_appl, incl_refl).
  apply (outcome_transfer h h' lay lay' s s' _ _ ops (map (map f) ops) out (map f out)); auto.
  - intros size (_ & Ho & Hs). set (size' := renamed_size f size (concat ops)).
    assert (E : forall c, In c (concat ops) -> size' (f c) = size c)
      by (intros c Hc; apply renamed_size_ok; auto).
    exists size'. split; [|split; [|split]].
    + apply explicit_call_ok; auto; [apply output_ok_rename; auto|apply (shapes_ok_rename f size); auto].
    + rewrite combine_rename. symmetry.
      assert (Es : map snd (combine arrays ops) = ops).
      { apply snd_combine. apply shapes_ok_len in Hs. rewrite map_length in Hs. auto. }
      apply blocked_in_rename; rewrite Es; auto.
    + rewrite map_map. apply map_ext_in. intros c Hc. symmetry. apply E. apply Ho; auto.
    + intros o _. symmetry. apply einsum_value_rename; auto.
  - intros (ops0 & out0 & size' & (Hm & Ho & Hs)).
    destruct (explicit_meaning _ _ _ _ _ G' Hm) as [-> ->].
    exists ops, out, (fun c => size' (f c)). apply explicit_call_ok; auto.
    + apply (output_ok_rename f); auto.
    + apply (shapes_ok_rename f (fun c => size' (f c)) size'); auto.
Qed.

(** ** C24 *)

Lemma shapes_ok_app size ops1 ops2 (l1 l2 : list (list nat)) : length ops1 = length l1 ->
  (shapes_ok size (ops1 ++ ops2) (l1 ++ l2) <-> shapes_ok size ops1 l1 /\ shapes_ok size ops2 l2).
Proof.
  revert l1; induction ops1 as [|x ops1 IH]; intros [|y l1] H; simpl in *; try discriminate.
  - split; [intros; split; [constructor|auto]|tauto].
  - injection H as H. split.
    + intros Hs. inversion Hs; subst. apply IH in H5 as [H6 H7]; auto. split; auto. constructor; auto.
    + intros [H1 H2]. inversion H1; subst. constructor; auto. apply IH; auto.
Qed.

Lemma term_app (arrays1 arrays2 : list (arr A)) ops1 ops2 e : length arrays1 = length ops1 ->
  term (arrays1 ++ arrays2) (ops1 ++ ops2) e = smul (term arrays1 ops1 e) (term arrays2 ops2 e).
Proof.
  revert ops1; induction arrays1 as [|a l IH]; intros [|x ops1] H; simpl in *; try discriminate.
  - unfold term at 2. cbn. ring.
  - rewrite !term_cons, IH by auto. ring.
Qed.

Lemma in_bounds_range size ix e : in_range size ix e -> in_bounds (map size ix) (map e ix) = true.
Proof. intros. apply in_bounds_map; auto. Qed.

(** What both laws need: the terms of the three calls are related, at every assignment. *)
Lemma linear_value size (pre post : list (arr A)) (x : arr A) ops :
  shapes_ok size ops (map (@a_shape A) (pre ++ x :: post)) ->
  exists pops ix qops, ops = pops ++ ix :: qops /\ length pre = length pops
    /\ a_shape x = map size ix.
Proof.
  intros Hs. unfold shapes_ok in Hs. rewrite map_app in Hs. simpl in Hs.
  apply Forall2_app_inv_r in Hs as (pops & rest & H1 & H2 & ->).
  inversion H2 as [|ix y qops l E H3]; subst. exists pops, ix, qops. split; auto. split; auto.
  apply Forall2_len in H1. rewrite map_length in H1. auto.
Qed.

Lemma ok_value h lay s (arrays : list (arr A)) ops out size r : hash_ok h -> backend_ok lay ->
  Forall wf arrays -> call_ok s (map (@a_shape A) arrays) ops out size -> einsum h lay s arrays = Ok r ->
  holds r (map size out) (einsum_value size arrays ops out).
Proof.
  intros Hh Hl Hw Hc E.
  destruct (einsum_outcome SR h lay Hh Hl s arrays ops out size Hc Hw) as [[E' _]|[_ (r' & E' & Hr)]]; congruence.
Qed.

Lemma in_range_bind size cs o : in_bounds (map size cs) o = true -> NoDup cs -> in_range size cs (bind cs o).
Proof.
  intros H Hn. apply in_bounds_map. rewrite map_bind; auto.
  apply in_bounds_length in H. rewrite map_length in H. auto.
Qed.

(** The assignments a nested sum visits are in range on every label. *)
Lemma einsum_value_ext_in size (arrays : list (arr A)) ops out o (F : env -> A) :
  NoDup out -> in_bounds (map size out) o = true ->
  (forall e, in_range size (concat ops) e -> term arrays ops e = F e) ->
  einsum_value size arrays ops out o = nested_sum size (summed_labels ops out) F (bind out o).
Proof.
  intros Hn Ho H. apply nested_sum_ext. intros e' H1 H2. apply H. intros c Hc.
  destruct (in_dec N.eq_dec c out) as [Hi|Hni].
  - rewrite H1. + apply in_range_bind; auto. + rewrite summed_labels_In. tauto.
  - apply H2. apply summed_labels_In. auto.
Qed.

Lemma additive h lay s (pre post : list (arr A)) (x y z : arr A) rx ry rz :
  hash_ok h -> backend_ok lay -> Forall wf (pre ++ post) -> wf x -> wf y -> wf z ->
  a_shape x = a_shape z -> a_shape y = a_shape z ->
  (forall idx, in_bounds (a_shape z) idx = true -> elem z idx = sadd (elem x idx) (elem y idx)) ->
  einsum h lay s (pre ++ x :: post) = Ok rx -> einsum h lay s (pre ++ y :: post) = Ok ry ->
  einsum h lay s (pre ++ z :: post) = Ok rz ->
  a_shape rx = a_shape rz /\ a_shape ry = a_shape rz
  /\ forall o, in_bounds (a_shape rz) o = true -> elem rz o = sadd (elem rx o) (elem ry o).
Proof.
  intros Hh Hl Hw Wx Wy Wz Sx Sy Hz Ex Ey Ez.
  assert (Wmid : forall w, wf w -> Forall wf (pre ++ w :: post)).
  { intros w Ww. apply Forall_app in Hw as [H1 H2]. apply Forall_app. auto. }
  destruct (einsum_ok_inv SR h lay Hh Hl s _ rz (Wmid z Wz) Ez) as (ops & out & size & Hc & _ & Hr).
  assert (Esh : forall w, a_shape w = a_shape z ->
     map (@a_shape A) (pre ++ w :: post) = map (@a_shape A) (pre ++ z :: post)).
  { intros w E. rewrite !map_app. simpl. rewrite E. auto. }
  assert (Hx := ok_value h lay s _ ops out size rx Hh Hl (Wmid x Wx)).
  rewrite (Esh x Sx) in Hx. specialize (Hx Hc Ex).
  assert (Hy := ok_value h lay s _ ops out size ry Hh Hl (Wmid y Wy)).
  rewrite (Esh y Sy) in Hy. specialize (Hy Hc Ey).
  pose proof Hc as (_ & [Ho _] & Hs).
  destruct (linear_value size pre post z ops Hs) as (pops & ix & qops & -> & Hlen & Sz).
  pose proof Hx as (X1 & _). pose proof Hy as (Y1 & _). pose proof Hr as (Z1 & _).
  split; [congruence|]. split; [congruence|]. intros o Hoo. rewrite Z1 in Hoo.
  rewrite (holds_elem _ _ _ _ Hx), (holds_elem _ _ _ _ Hy), (holds_elem _ _ _ _ Hr) by auto.
  rewrite (einsum_value_ext_in size (pre ++ z :: post) _ out o
             (fun e => sadd (term (pre ++ x :: post) (pops ++ ix :: qops) e)
                            (term (pre ++ y :: post) (pops ++ ix :: qops) e))); auto.
  - apply (nested_sum_add SR).
  - intros e He. rewrite !term_app, !term_cons by auto. rewrite Hz.
    + ring.
    + rewrite Sz. apply in_bounds_range. eapply in_range_incl; [|exact He].
      rewrite concat_app. simpl. apply incl_appr, incl_appl, incl_refl.
Qed.

Lemma homogeneous h lay s (pre post : list (arr A)) (x z : arr A) k rx rz :
  hash_ok h -> backend_ok lay -> Forall wf (pre ++ post) -> wf x -> wf z ->
  a_shape x = a_shape z ->
  (forall idx, in_bounds (a_shape z) idx = true -> elem z idx = smul k (elem x idx)) ->
  einsum h lay s (pre ++ x :: post) = Ok rx -> einsum h lay s (pre ++ z :: post) = Ok rz ->
  a_shape rx = a_shape rz
  /\ forall o, in_bounds (a_shape rz) o = true -> elem rz o = smul k (elem rx o).
Proof.
  intros Hh Hl Hw Wx Wz Sx Hz Ex Ez.
  assert (Wmid : forall w, wf w -> Forall wf (pre ++ w :: post)).
  { intros w Ww. apply Forall_app in Hw as [H1 H2]. apply Forall_app. auto. }
  destruct (einsum_ok_inv SR h lay Hh Hl s _ rz (Wmid z Wz) Ez) as (ops & out & size & Hc & _ & Hr).
  assert (Esh : map (@a_shape A) (pre ++ x :: post) = map (@a_shape A) (pre ++ z :: post)).
  { rewrite !map_app. simpl. rewrite Sx. auto. }
  assert (Hx := ok_value h lay s _ ops out size rx Hh Hl (Wmid x Wx)).
  rewrite Esh in Hx. specialize (Hx Hc Ex).
  pose proof Hc as (_ & [Ho _] & Hs).
  destruct (linear_value size pre post z ops Hs) as (pops & ix & qops & -> & Hlen & Sz).
  pose proof Hx as (X1 & _). pose proof Hr as (Z1 & _).
  split; [congruence|]. intros o Hoo. rewrite Z1 in Hoo.
  rewrite (holds_elem _ _ _ _ Hx), (holds_elem _ _ _ _ Hr) by auto.
  rewrite (einsum_value_ext_in size (pre ++ z :: post) _ out o
             (fun e => smul k (term (pre ++ x :: post) (pops ++ ix :: qops) e))); auto.
  - apply (nested_sum_scale (semiring_summable _ SR)).
  - intros e He. rewrite !term_app, !term_cons by auto. rewrite Hz.
    + ring.
    + rewrite Sz. apply in_bounds_range. eapply in_range_incl; [|exact He].
      rewrite concat_app. simpl. apply incl_appr, incl_appl, incl_refl.
Qed.

End Algebra.
