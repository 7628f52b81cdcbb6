(** Facts about the shared vocabulary. *)
From Verif Require Import Base.
From Coq Require Import Lia Sorted.

(** ** Monad *)

Lemma rbind_ok {T U} (x : res T) (k : T -> res U) u :
  rbind x k = Ok u -> exists t, x = Ok t /\ k t = Ok u.
Proof. destruct x; simpl; intros; try discriminate; eauto. Qed.

Lemma rbind_assoc {T U V} (x : res T) (f : T -> res U) (g : U -> res V) :
  rbind (rbind x f) g = rbind x (fun t => rbind (f t) g).
Proof. destruct x; reflexivity. Qed.

Lemma rassert_true b : b = true -> rassert b = Ok tt.
Proof. intros ->; reflexivity. Qed.

Lemma rassert_false b : b = false -> rassert b = Panic.
Proof. intros ->; reflexivity. Qed.

Lemma usub_ok a b : b <= a -> usub a b = Ok (a - b).
Proof. intros H; unfold usub; apply Nat.leb_le in H; rewrite H; reflexivity. Qed.

Lemma index_nth {T} (l : list T) i d : i < length l -> index l i = Ok (nth i l d).
Proof.
  intros H; unfold index; rewrite (nth_error_nth' l d H); reflexivity.
Qed.

Lemma index_some {T} (l : list T) i x : nth_error l i = Some x -> index l i = Ok x.
Proof. intros H; unfold index; rewrite H; reflexivity. Qed.

Lemma index_out {T} (l : list T) i : length l <= i -> index l i = Panic.
Proof. intros H; unfold index; apply nth_error_None in H; rewrite H; reflexivity. Qed.

Lemma mapM_ok {T U} (f : T -> res U) (g : T -> U) l :
  (forall x, In x l -> f x = Ok (g x)) -> mapM f l = Ok (map g l).
Proof.
  induction l as [|x l IH]; simpl; intros H; [reflexivity|].
  rewrite (H x) by auto. simpl. rewrite IH by auto. reflexivity.
Qed.

Lemma mapM_ext {T U} (f g : T -> res U) l :
  (forall x, In x l -> f x = g x) -> mapM f l = mapM g l.
Proof.
  induction l as [|x l IH]; simpl; intros H; [reflexivity|].
  rewrite (H x) by auto. rewrite IH by auto. reflexivity.
Qed.

Lemma mapM_length {T U} (f : T -> res U) l r : mapM f l = Ok r -> length r = length l.
Proof.
  revert r; induction l as [|x l IH]; simpl; intros r H.
  - injection H as <-; reflexivity.
  - apply rbind_ok in H as (y & _ & H). apply rbind_ok in H as (ys & H2 & H).
    injection H as <-. simpl. f_equal. eauto.
Qed.

Lemma mapM_inv {T U} (f : T -> res U) l r :
  mapM f l = Ok r -> Forall2 (fun x y => f x = Ok y) l r.
Proof.
  revert r; induction l as [|x l IH]; simpl; intros r H.
  - injection H as <-; constructor.
  - apply rbind_ok in H as (y & H1 & H). apply rbind_ok in H as (ys & H2 & H).
    injection H as <-. constructor; auto.
Qed.

Lemma mapM_map {T U V} (f : U -> res V) (g : T -> U) l :
  mapM f (map g l) = mapM (fun x => f (g x)) l.
Proof. induction l; simpl; [reflexivity|]. rewrite IHl; reflexivity. Qed.

Lemma mapM_app {T U} (f : T -> res U) l l' :
  mapM f (l ++ l') = (do a <- mapM f l; do b <- mapM f l'; Ok (a ++ b)).
Proof.
  induction l as [|x l IH]; simpl.
  - destruct (mapM f l'); reflexivity.
  - destruct (f x); simpl; auto. rewrite IH.
    destruct (mapM f l); simpl; auto. destruct (mapM f l'); reflexivity.
Qed.

(** [mapM] fails as soon as one element panics and no element errs. *)
Lemma mapM_panic {T U} (f : T -> res U) l x :
  In x l -> f x = Panic -> (forall y m, In y l -> f y <> Err m) -> mapM f l = Panic.
Proof.
  induction l as [|y l IH]; simpl; intros Hin Hp He; [contradiction|].
  destruct Hin as [->|Hin].
  - rewrite Hp; reflexivity.
  - destruct (f y) eqn:E; simpl; auto.
    + rewrite IH; auto.
    + exfalso; apply (He y m); auto.
Qed.

Lemma foldM_ok {T U} (f : U -> T -> res U) (g : U -> T -> U) l u :
  (forall u x, In x l -> f u x = Ok (g u x)) -> foldM f l u = Ok (fold_left g l u).
Proof.
  revert u; induction l as [|x l IH]; simpl; intros u H; [reflexivity|].
  rewrite H by auto. simpl. apply IH; auto.
Qed.

Lemma foldM_app {T U} (f : U -> T -> res U) l l' u :
  foldM f (l ++ l') u = (do v <- foldM f l u; foldM f l' v).
Proof.
  revert u; induction l as [|x l IH]; simpl; intros u; [reflexivity|].
  destruct (f u x); simpl; auto.
Qed.

(** ** Membership, position, count *)

Lemma mem_In c l : mem c l = true <-> In c l.
Proof.
  unfold mem; rewrite existsb_exists; split.
  - intros (x & H & E); apply N.eqb_eq in E; subst; auto.
  - intros H; exists c; split; auto. apply N.eqb_refl.
Qed.

Lemma mem_false c l : mem c l = false <-> ~ In c l.
Proof.
  rewrite <- mem_In. destruct (mem c l); split; intros; try congruence; tauto.
Qed.

Lemma position_In c l : In c l -> exists n, position c l = Some n.
Proof.
  induction l as [|x l IH]; simpl; intros H; [contradiction|].
  destruct (N.eqb x c) eqn:E; [eauto|].
  destruct H as [->|H]; [rewrite N.eqb_refl in E; discriminate|].
  destruct (IH H) as (n & ->); simpl; eauto.
Qed.

Lemma position_None c l : position c l = None <-> ~ In c l.
Proof.
  split.
  - intros H Hin. destruct (position_In _ _ Hin) as (n & E). congruence.
  - induction l as [|x l IH]; simpl; intros H; [reflexivity|].
    destruct (N.eqb x c) eqn:E.
    + apply N.eqb_eq in E; subst; tauto.
    + rewrite IH by tauto. reflexivity.
Qed.

Lemma position_nth c l n : position c l = Some n -> n < length l /\ forall d, nth n l d = c.
Proof.
  revert n; induction l as [|x l IH]; simpl; intros n H; [discriminate|].
  destruct (N.eqb x c) eqn:E.
  - injection H as <-. apply N.eqb_eq in E. split; [lia|auto].
  - destruct (position c l); simpl in H; [|discriminate].
    injection H as <-. destruct (IH _ eq_refl). split; [lia|auto].
Qed.

Lemma position_nth_error c l n : position c l = Some n -> nth_error l n = Some c.
Proof.
  intros H. destruct (position_nth _ _ _ H) as [H1 H2].
  rewrite (nth_error_nth' l c H1). f_equal; auto.
Qed.

Lemma position_Some_In c l n : position c l = Some n -> In c l.
Proof. intros H. apply position_nth_error in H. eapply nth_error_In; eauto. Qed.

Lemma position_NoDup c l n :
  NoDup l -> nth_error l n = Some c -> position c l = Some n.
Proof.
  intros Hnd H. assert (Hin : In c l) by (eapply nth_error_In; eauto).
  destruct (position_In _ _ Hin) as (m & E). rewrite E. f_equal.
  rewrite NoDup_nth_error in Hnd. apply Hnd.
  - apply position_nth in E; tauto.
  - apply position_nth_error in E. congruence.
Qed.

Lemma position_nth_NoDup l n d : NoDup l -> n < length l -> position (nth n l d) l = Some n.
Proof. intros H1 H2. apply position_NoDup; auto. apply nth_error_nth'; auto. Qed.

Lemma count_In c l : In c l <-> 0 < count c l.
Proof. unfold count. rewrite (count_occ_In char_eq_dec l c). lia. Qed.

Lemma count_nil c l : ~ In c l <-> count c l = 0.
Proof. unfold count. rewrite (count_occ_not_In char_eq_dec). tauto. Qed.

Lemma count_NoDup l : NoDup l <-> forall c, count c l <= 1.
Proof. unfold count. apply (NoDup_count_occ char_eq_dec). Qed.

(** ** distinct *)

Lemma distinct_In c l : In c (distinct l) <-> In c l.
Proof. apply nodup_In. Qed.

Lemma distinct_NoDup l : NoDup (distinct l).
Proof. apply NoDup_nodup. Qed.

Lemma distinct_fixed l : NoDup l -> distinct l = l.
Proof. apply nodup_fixed_point. Qed.

Lemma distinct_length_le l : length (distinct l) <= length l.
Proof.
  unfold distinct. induction l; simpl; [lia|].
  destruct (in_dec _ _ _); simpl; lia.
Qed.

Lemma distinct_length_eq l : length (distinct l) = length l <-> NoDup l.
Proof.
  split.
  - induction l as [|c l IH]; simpl; intros H; [constructor|].
    destruct (in_dec char_eq_dec c l) as [Hi|Hn]; simpl in H.
    + pose proof (distinct_length_le l). unfold distinct in *. lia.
    + constructor; auto.
  - intros H. rewrite distinct_fixed; auto.
Qed.

Lemma NoDup_filter_char (f : char -> bool) l : NoDup l -> NoDup (filter f l).
Proof. apply NoDup_filter. Qed.

Lemma incl_length_NoDup (l m : list char) : NoDup l -> incl l m -> length l <= length (distinct m).
Proof.
  intros H1 H2. apply NoDup_incl_length; auto.
  intros c Hc. apply distinct_In. auto.
Qed.

Lemma same_set_perm (l m : list char) :
  NoDup l -> NoDup m -> (forall c, In c l <-> In c m) -> Permutation l m.
Proof. intros; apply NoDup_Permutation; auto. Qed.

(** ** Hash order *)

Lemma hash_In h k l c : hash_ok h -> (In c (h k l) <-> In c l).
Proof.
  intros H. split; intros Hi.
  - eapply Permutation_in; [apply Permutation_sym, H|exact Hi].
  - eapply Permutation_in; [apply H|exact Hi].
Qed.

Lemma hash_NoDup h k l : hash_ok h -> NoDup l -> NoDup (h k l).
Proof. intros H Hn. eapply Permutation_NoDup; [apply H|auto]. Qed.

(** ** Sorting *)

Lemma insert_char_perm c l : Permutation (c :: l) (insert_char c l).
Proof.
  induction l as [|x l IH]; simpl; [apply Permutation_refl|].
  destruct (N.leb c x); [apply Permutation_refl|].
  eapply Permutation_trans; [apply perm_swap|]. apply perm_skip; auto.
Qed.

Lemma sort_chars_perm l : Permutation l (sort_chars l).
Proof.
  induction l as [|c l IH]; simpl; [apply Permutation_refl|].
  eapply Permutation_trans; [apply perm_skip, IH|]. apply insert_char_perm.
Qed.

Lemma insert_char_sorted c l :
  StronglySorted N.le l -> StronglySorted N.le (insert_char c l).
Proof.
  induction 1 as [|x l Hs IH Hf]; simpl.
  - repeat constructor.
  - destruct (N.leb c x) eqn:E.
    + apply N.leb_le in E. constructor; [constructor; auto|].
      constructor; auto. eapply Forall_impl; [|exact Hf]. simpl; intros; lia.
    + apply N.leb_gt in E. constructor; auto.
      apply Forall_forall. intros y Hy.
      apply (Permutation_in _ (Permutation_sym (insert_char_perm c l))) in Hy.
      simpl in Hy. destruct Hy as [->|Hy]; [lia|].
      rewrite Forall_forall in Hf; auto.
Qed.

Lemma sort_chars_sorted l : StronglySorted N.le (sort_chars l).
Proof. induction l; simpl; [constructor|]. apply insert_char_sorted; auto. Qed.

Lemma sorted_le_lt (l : list N) : StronglySorted N.le l -> NoDup l -> StronglySorted N.lt l.
Proof.
  induction 1 as [|x l Hs IH Hf]; intros Hn; [constructor|].
  inversion Hn; subst. constructor; auto.
  apply Forall_forall. intros y Hy. rewrite Forall_forall in Hf. specialize (Hf y Hy).
  assert (x <> y) by (intros ->; auto). lia.
Qed.

Lemma sort_chars_lt l : NoDup l -> StronglySorted N.lt (sort_chars l).
Proof.
  intros H. apply sorted_le_lt; [apply sort_chars_sorted|].
  eapply Permutation_NoDup; [apply sort_chars_perm|auto].
Qed.

Lemma sorted_lt_NoDup (l : list N) : StronglySorted N.lt l -> NoDup l.
Proof.
  induction 1 as [|x l Hs IH Hf]; constructor; auto.
  intros Hi. rewrite Forall_forall in Hf. specialize (Hf _ Hi). lia.
Qed.

Lemma sorted_lt_unique (l m : list N) :
  StronglySorted N.lt l -> StronglySorted N.lt m -> (forall c, In c l <-> In c m) -> l = m.
Proof.
  intros Hl; revert m. induction Hl as [|x l Hs IH Hf]; intros m Hm H.
  - destruct m as [|y m]; auto. exfalso. apply (H y); simpl; auto.
  - destruct Hm as [|y m Hsm Hfm]; [exfalso; apply (H x); simpl; auto|].
    rewrite Forall_forall in Hf, Hfm.
    assert (x = y).
    { destruct (proj1 (H x) (or_introl eq_refl)) as [E|E]; auto.
      destruct (proj2 (H y) (or_introl eq_refl)) as [E'|E']; auto.
      apply Hfm in E. apply Hf in E'. lia. }
    subst y. f_equal. apply IH; auto.
    intros c. specialize (H c); simpl in H. split; intros Hc.
    + destruct (proj1 H (or_intror Hc)); auto. subst. apply Hf in Hc; lia.
    + destruct (proj2 H (or_intror Hc)); auto. subst. apply Hfm in Hc; lia.
Qed.

Lemma sort_chars_In c l : In c (sort_chars l) <-> In c l.
Proof.
  split; apply Permutation_in; [apply Permutation_sym|]; apply sort_chars_perm.
Qed.

(** Sorting forgets the order: two permutations of the same distinct labels sort alike. *)
Lemma sort_chars_same l m :
  NoDup l -> NoDup m -> (forall c, In c l <-> In c m) -> sort_chars l = sort_chars m.
Proof.
  intros Hl Hm H. apply sorted_lt_unique.
  - apply sort_chars_lt; auto.
  - apply sort_chars_lt; auto.
  - intros c. rewrite !sort_chars_In. auto.
Qed.

(** ** Concatenations without repetition *)

Lemma NoDup_app_intro {T} (l l' : list T) :
  NoDup l -> NoDup l' -> (forall x, In x l -> ~ In x l') -> NoDup (l ++ l').
Proof.
  induction 1 as [|x l Hx Hn IH]; simpl; intros H' Hd; auto. constructor.
  - rewrite in_app_iff. intros [H|H]; [auto|]. apply (Hd x); auto.
  - apply IH; auto.
Qed.

Lemma NoDup_app_elim {T} (l l' : list T) :
  NoDup (l ++ l') -> NoDup l /\ NoDup l' /\ (forall x, In x l -> ~ In x l').
Proof.
  induction l as [|x l IH]; simpl; intros H.
  - repeat split; auto. constructor.
  - inversion H; subst. destruct (IH H3) as (H4 & H5 & H6). repeat split; auto.
    + constructor; auto. intros Hi. apply H2, in_or_app; auto.
    + intros y [->|Hy]; auto. intros Hi. apply H2, in_or_app; auto.
Qed.

Lemma NoDup_app_remove_l {T} (l l' : list T) : NoDup (l ++ l') -> NoDup l'.
Proof. intros H. apply NoDup_app_elim in H. tauto. Qed.

Lemma NoDup_app_remove_r {T} (l l' : list T) : NoDup (l ++ l') -> NoDup l.
Proof. intros H. apply NoDup_app_elim in H. tauto. Qed.

Lemma NoDup_app_disjoint {T} (l l' : list T) x : NoDup (l ++ l') -> In x l -> ~ In x l'.
Proof. intros H. apply NoDup_app_elim in H as (_ & _ & H). auto. Qed.
