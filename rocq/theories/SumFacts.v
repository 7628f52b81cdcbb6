(** Algebra of nested sums over a commutative semiring. *)
From Verif Require Import Base BaseFacts NDArray Spec.
From Coq Require Import Lia.

(** ** Environments *)

(** Two assignments give the same values to the labels [cs]. *)
Definition agree (cs : list char) (e e' : env) : Prop := forall c, In c cs -> e c = e' c.

Definition in_range (size : char -> nat) (cs : list char) (e : env) : Prop :=
  forall c, In c cs -> e c < size c.

(** [F] looks only at the labels [cs]. *)
Definition dep {A} (F : env -> A) (cs : list char) : Prop :=
  forall e e', agree cs e e' -> F e = F e'.

Lemma dep_incl {A} (F : env -> A) cs cs' : incl cs cs' -> dep F cs -> dep F cs'.
Proof. intros Hi H e e' Ha. apply H. intros c Hc. apply Ha; auto. Qed.

Lemma upd_same e c i : upd e c i c = i.
Proof. unfold upd. rewrite N.eqb_refl. auto. Qed.

Lemma upd_other e c i d : d <> c -> upd e c i d = e d.
Proof. intros H. unfold upd. destruct (N.eqb_spec d c); congruence. Qed.

Lemma in_range_upd size cs e c i :
  in_range size cs e -> i < size c -> in_range size (c :: cs) (upd e c i).
Proof.
  intros H Hi d Hd. unfold upd. destruct (N.eqb_spec d c); [subst; auto|].
  destruct Hd as [->|Hd]; [congruence|auto].
Qed.

Lemma in_range_incl size cs cs' e : incl cs cs' -> in_range size cs' e -> in_range size cs e.
Proof. intros H1 H2 c Hc. apply H2; auto. Qed.

Lemma map_agree cs ix e e' : agree cs e e' -> incl ix cs -> map e ix = map e' ix.
Proof. intros Ha Hi. apply map_ext_in. intros c Hc. apply Ha; auto. Qed.

Lemma bind_nth cs idx n d : NoDup cs -> length idx = length cs -> n < length cs ->
  bind cs idx (nth n cs d) = nth n idx 0.
Proof.
  revert idx n; induction cs as [|c cs IH]; intros [|i idx] n Hn Hl Hlt; simpl in *; try lia.
  inversion Hn; subst. destruct n as [|n].
  - apply upd_same.
  - rewrite upd_other; [apply IH; auto; lia|].
    intros E. apply H1. rewrite <- E. apply nth_In. lia.
Qed.

Lemma map_bind cs idx : NoDup cs -> length idx = length cs -> map (bind cs idx) cs = idx.
Proof.
  revert idx; induction cs as [|c cs IH]; intros [|i idx] Hn Hl; simpl in *; try lia; auto.
  inversion Hn; subst. rewrite upd_same. f_equal.
  rewrite <- (IH idx) at 2 by (auto; lia).
  apply map_ext_in. intros d Hd. apply upd_other. intros ->; auto.
Qed.

Lemma bind_map e cs : agree cs (bind cs (map e cs)) e.
Proof.
  induction cs as [|c cs IH]; intros d Hd; simpl in *; [contradiction|].
  unfold upd. destruct (N.eqb_spec d c); [subst; auto|].
  apply IH. destruct Hd; congruence.
Qed.

Lemma bind_out cs idx c : ~ In c cs -> bind cs idx c = 0.
Proof.
  revert idx; induction cs as [|d cs IH]; intros [|i idx] H; simpl in *; auto.
  rewrite upd_other by (intros ->; tauto). apply IH; tauto.
Qed.

Section Sums.
Context {A : Type} {S : Scalar A}.

(** ** No laws needed *)

Lemma sum_n_ext n (f g : nat -> A) : (forall i, i < n -> f i = g i) -> sum_n n f = sum_n n g.
Proof.
  induction n as [|n IH]; simpl; intros H; auto. rewrite IH, H by auto. auto.
Qed.

Lemma fold_left_sum_n n (f : nat -> A) :
  fold_left sadd (map f (seq 0 n)) szero = sum_n n f.
Proof.
  induction n as [|n IH]; auto.
  rewrite seq_S, map_app, fold_left_app, IH. reflexivity.
Qed.

Lemma nested_sum_ext size cs (f g : env -> A) e :
  (forall e', (forall c, ~ In c cs -> e' c = e c) -> in_range size cs e' -> f e' = g e') ->
  nested_sum size cs f e = nested_sum size cs g e.
Proof.
  revert e; induction cs as [|c cs IH]; simpl; intros e H.
  - apply H; auto. intros c [].
  - apply sum_n_ext. intros i Hi. apply IH. intros e' H1 H2.
    destruct (in_dec char_eq_dec c cs) as [Hin|Hnin].
    + apply H.
      * intros d Hd. rewrite H1 by tauto. apply upd_other. intros ->; tauto.
      * intros d [<-|Hd]; auto.
    + apply H.
      * intros d Hd. rewrite H1 by tauto. apply upd_other. intros ->; tauto.
      * intros d [<-|Hd]; auto. rewrite H1 by auto. rewrite upd_same. auto.
Qed.

Lemma nested_sum_ext_all size cs (f g : env -> A) e :
  (forall e', f e' = g e') -> nested_sum size cs f e = nested_sum size cs g e.
Proof. intros H. apply nested_sum_ext. auto. Qed.

(** A nested sum depends only on the labels that are not summed. *)
Lemma nested_sum_agree size cs ds (f : env -> A) e e' :
  dep f ds -> (forall c, In c ds -> ~ In c cs -> e c = e' c) ->
  nested_sum size cs f e = nested_sum size cs f e'.
Proof.
  intros Hd. revert e e'; induction cs as [|c cs IH]; simpl; intros e e' H.
  - apply Hd. intros c Hc. auto.
  - apply sum_n_ext. intros i _. apply IH. intros d Hd1 Hd2. unfold upd.
    destruct (N.eqb_spec d c); auto. apply H; auto. intros [E|E]; [congruence|auto].
Qed.

Lemma nested_sum_dep size cs ds (f : env -> A) :
  dep f ds -> dep (nested_sum size cs f) (filter (fun c => negb (mem c cs)) ds).
Proof.
  intros Hd e e' Ha. apply (nested_sum_agree size cs ds); auto.
  intros c H1 H2. apply Ha. apply filter_In. split; auto.
  apply negb_true_iff, mem_false; auto.
Qed.

Lemma nested_sum_app size a b (f : env -> A) e :
  nested_sum size (a ++ b) f e = nested_sum size a (nested_sum size b f) e.
Proof.
  revert e; induction a as [|c a IH]; simpl; intros e; auto.
  apply sum_n_ext. auto.
Qed.

Lemma nested_sum_size size size' cs (f : env -> A) e :
  (forall c, In c cs -> size c = size' c) ->
  nested_sum size cs f e = nested_sum size' cs f e.
Proof.
  revert e; induction cs as [|c cs IH]; simpl; intros e H; auto.
  rewrite H by auto. apply sum_n_ext. auto.
Qed.

(** ** Semiring laws *)

Hypothesis NS : near_semiring A.

Lemma add_0_r (x : A) : sadd x szero = x.
Proof. rewrite (ns_add_comm NS). apply (ns_add_0_l NS). Qed.

Lemma mul_1_r (x : A) : smul x sone = x.
Proof. rewrite (ns_mul_comm NS). apply (ns_mul_1_l NS). Qed.

Lemma distr_r (x y z : A) : smul x (sadd y z) = sadd (smul x y) (smul x z).
Proof. rewrite (ns_mul_comm NS), (ns_distr_l NS). f_equal; apply (ns_mul_comm NS). Qed.

Lemma add_shuffle (a b c d : A) : sadd (sadd a b) (sadd c d) = sadd (sadd a c) (sadd b d).
Proof.
  rewrite <- !(ns_add_assoc NS). f_equal. rewrite !(ns_add_assoc NS). f_equal. apply (ns_add_comm NS).
Qed.

Lemma mul_swap (a b c : A) : smul a (smul b c) = smul b (smul a c).
Proof. rewrite !(ns_mul_assoc NS). f_equal. apply (ns_mul_comm NS). Qed.

Lemma sum_n_zero n : sum_n n (fun _ => szero) = szero (A:=A).
Proof. induction n as [|n IH]; simpl; auto. rewrite IH. apply (ns_add_0_l NS). Qed.

Lemma sum_n_zero_ext n (f : nat -> A) : (forall i, i < n -> f i = szero) -> sum_n n f = szero.
Proof. intros H. rewrite (sum_n_ext n f (fun _ => szero)) by auto. apply sum_n_zero. Qed.

Lemma sum_n_add n (f g : nat -> A) :
  sum_n n (fun i => sadd (f i) (g i)) = sadd (sum_n n f) (sum_n n g).
Proof.
  induction n as [|n IH]; simpl; [symmetry; apply (ns_add_0_l NS)|]. rewrite IH. apply add_shuffle.
Qed.

Lemma sum_n_mul_l n x (f : nat -> A) : (forall x : A, smul szero x = szero) \/ 0 < n ->
  sum_n n (fun i => smul x (f i)) = smul x (sum_n n f).
Proof.
  intros [H|H].
  - induction n as [|n IH]; simpl; [rewrite (ns_mul_comm NS); auto|]. rewrite IH. symmetry. apply distr_r.
  - destruct n as [|n]; [lia|]. clear H. induction n as [|n IH].
    + simpl. rewrite !(ns_add_0_l NS). auto.
    + change (sadd (sum_n (Datatypes.S n) (fun i => smul x (f i))) (smul x (f (Datatypes.S n)))
              = smul x (sadd (sum_n (Datatypes.S n) f) (f (Datatypes.S n)))).
      rewrite IH. symmetry. apply distr_r.
Qed.

Lemma sum_n_swap n m (f : nat -> nat -> A) :
  sum_n n (fun i => sum_n m (fun j => f i j)) = sum_n m (fun j => sum_n n (fun i => f i j)).
Proof.
  induction n as [|n IH]; simpl.
  - rewrite sum_n_zero; auto.
  - rewrite IH. rewrite <- sum_n_add. auto.
Qed.

(** [n*m] terms in one loop or two. *)
Lemma sum_n_plus n m (f : nat -> A) :
  sum_n (n + m) f = sadd (sum_n n f) (sum_n m (fun i => f (n + i))).
Proof.
  induction m as [|m IH]; simpl.
  - rewrite Nat.add_0_r. symmetry. apply add_0_r.
  - rewrite Nat.add_succ_r. simpl. rewrite IH. symmetry. apply (ns_add_assoc NS).
Qed.

Lemma sum_n_mult n m (f : nat -> A) :
  sum_n (n * m) f = sum_n n (fun i => sum_n m (fun j => f (i * m + j))).
Proof.
  induction n as [|n IH]; simpl; auto.
  rewrite Nat.add_comm, sum_n_plus, IH. auto.
Qed.

Lemma nested_sum_zero size cs e : nested_sum size cs (fun _ => szero) e = szero (A:=A).
Proof.
  revert e; induction cs as [|c cs IH]; simpl; intros e; auto.
  apply sum_n_zero_ext. auto.
Qed.

Lemma nested_sum_add size cs (f g : env -> A) e :
  nested_sum size cs (fun e => sadd (f e) (g e)) e
  = sadd (nested_sum size cs f e) (nested_sum size cs g e).
Proof.
  revert e; induction cs as [|c cs IH]; simpl; intros e; auto.
  rewrite <- sum_n_add. apply sum_n_ext. auto.
Qed.

(** The order of the loops does not matter. *)
Lemma nested_sum_perm size cs cs' ds (f : env -> A) e :
  dep f ds -> NoDup cs -> Permutation cs cs' ->
  nested_sum size cs f e = nested_sum size cs' f e.
Proof.
  intros Hd Hn Hp. revert Hn e; induction Hp as [|c l l' Hp IH|c d l|l l' l'' Hp1 IH1 Hp2 IH2];
    intros Hn e; simpl; auto.
  - inversion Hn; subst. apply sum_n_ext. auto.
  - inversion Hn as [|? ? Hd1 Hn1]; subst. inversion Hn1; subst.
    rewrite sum_n_swap. apply sum_n_ext; intros i _. apply sum_n_ext; intros j _.
    apply (nested_sum_agree size l ds); auto. intros x _ _. unfold upd.
    destruct (N.eqb_spec x c), (N.eqb_spec x d); subst; auto. simpl in Hd1. tauto.
  - rewrite IH1 by auto. apply IH2. eapply Permutation_NoDup; eauto.
Qed.

(** A sum over a label of length zero is zero. *)
Lemma nested_sum_empty size cs (f : env -> A) e c :
  In c cs -> size c = 0 -> nested_sum size cs f e = szero.
Proof.
  revert e; induction cs as [|d cs IH]; simpl; intros e Hc H0; [contradiction|].
  destruct Hc as [->|Hc].
  - rewrite H0. reflexivity.
  - apply sum_n_zero_ext. auto.
Qed.

(** ** Products *)

Lemma product_app l l' : product (l ++ l') = smul (product l) (product (A:=A) l').
Proof.
  unfold product. induction l as [|x l IH]; simpl; [symmetry; apply (ns_mul_1_l NS)|].
  rewrite IH. apply (ns_mul_assoc NS).
Qed.

Lemma product_perm (l l' : list A) : Permutation l l' -> product l = product l'.
Proof.
  unfold product. induction 1; simpl; try congruence. apply mul_swap.
Qed.

End Sums.

Section Products.
Context {A : Type} {Sc : Scalar A} {size : char -> nat}.
Hypothesis SR : summable A size.

(** A factor that does not depend on the summed labels moves out. *)
Lemma nested_sum_mul_l cs ds (f g : env -> A) e :
  dep g ds -> (forall c, In c cs -> ~ In c ds) ->
  nested_sum size cs (fun e => smul (g e) (f e)) e = smul (g e) (nested_sum size cs f e).
Proof.
  intros Hd. revert e; induction cs as [|c cs IH]; simpl; intros e H; auto.
  rewrite <- (sum_n_mul_l SR); [|destruct (summable_zero SR); auto]. apply sum_n_ext. intros i _.
  rewrite IH by auto. f_equal. apply Hd. intros d Hdd. apply upd_other.
  intros ->. eapply H; eauto.
Qed.

Lemma nested_sum_mul_r cs ds (f g : env -> A) e :
  dep g ds -> (forall c, In c cs -> ~ In c ds) ->
  nested_sum size cs (fun e => smul (f e) (g e)) e = smul (nested_sum size cs f e) (g e).
Proof.
  intros Hd H. transitivity (nested_sum size cs (fun e => smul (g e) (f e)) e).
  - apply nested_sum_ext_all. intros; apply (ns_mul_comm SR).
  - rewrite (nested_sum_mul_l cs ds) by auto. apply (ns_mul_comm SR).
Qed.

Lemma nested_sum_scale cs x (f : env -> A) e :
  nested_sum size cs (fun e => smul x (f e)) e = smul x (nested_sum size cs f e).
Proof.
  apply (nested_sum_mul_l cs [] f (fun _ => x)); [intros ? ? ?; auto|auto].
Qed.

(** Distributivity: the sum over [cs] of a product of two sums over private labels. *)
Lemma nested_sum_distrib cs a b dl dr (Fl Fr : env -> A) e :
  dep Fl dl -> dep Fr dr ->
  (forall c, In c a -> ~ In c dr) -> (forall c, In c b -> ~ In c dl) ->
  nested_sum size cs (fun e => smul (nested_sum size a Fl e) (nested_sum size b Fr e)) e
  = nested_sum size (cs ++ a ++ b) (fun e => smul (Fl e) (Fr e)) e.
Proof.
  intros Hl Hr Ha Hb. rewrite nested_sum_app. apply nested_sum_ext_all. intros e1.
  rewrite nested_sum_app.
  rewrite <- (nested_sum_mul_r a (filter (fun c => negb (mem c b)) dr)).
  - apply nested_sum_ext_all. intros e2.
    rewrite (nested_sum_mul_l b dl) by auto. auto.
  - apply nested_sum_dep; auto.
  - intros c Hc Hc'. apply filter_In in Hc' as [Hc' _]. eapply Ha; eauto.
Qed.


End Products.

(** ** Related sums *)

Section SumList.
Context {B : Type} {Sb : Scalar B}.

Lemma sum_list_app (SR : near_semiring B) (l l' : list B) :
  fold_right sadd szero (l ++ l') = sadd (fold_right sadd szero l) (fold_right sadd szero l').
Proof.
  induction l as [|x l IH]; simpl.
  - symmetry. apply (ns_add_0_l SR).
  - rewrite IH. apply (ns_add_assoc SR).
Qed.

Lemma sum_list_perm (SR : near_semiring B) (l l' : list B) : Permutation l l' ->
  fold_right sadd szero l = fold_right sadd szero l'.
Proof.
  induction 1; simpl; try congruence.
  rewrite !(ns_add_assoc SR). f_equal. apply (ns_add_comm SR).
Qed.

Lemma sum_list_n (SR : near_semiring B) n (g : nat -> B) :
  fold_right sadd szero (map g (seq 0 n)) = sum_n n g.
Proof.
  induction n as [|n IH]; auto. rewrite seq_S, map_app, (sum_list_app SR), IH. simpl.
  f_equal. rewrite (ns_add_comm SR). apply (ns_add_0_l SR).
Qed.

End SumList.

(** A sum of terms in any order is related to the sum of the related terms. *)
Section Weak.
Context {A B : Type} {Sa : Scalar A} {Sb : Scalar B} (R : A -> B -> Prop) (Z : A -> Prop).
Hypothesis HR : weak_relation R Z.
Hypothesis SR : near_semiring B.

(** Related to a sum that may be empty. *)
Definition related_sum {T : Type} (l : list T) (x : A) (y : B) : Prop := (l = [] -> Z x) /\ (l <> [] -> R x y).

Lemma related_sum_add {T} (l l' : list T) x y x' y' :
  related_sum l x x' -> related_sum l' y y' -> (l = [] -> x' = szero) -> (l' = [] -> y' = szero) ->
  related_sum (l ++ l') (sadd x y) (sadd x' y').
Proof.
  intros [Hx Hx'] [Hy Hy'] E E'. split.
  - intros [-> ->]%app_eq_nil. apply HR; auto.
  - intros Hn. destruct l as [|a l].
    + rewrite E by auto. rewrite (ns_add_0_l SR). apply (weak_add_zero _ _ HR); auto.
    + destruct l' as [|b l'].
      * rewrite E' by auto. rewrite (ns_add_comm SR), (ns_add_0_l SR).
        apply (weak_add_zero _ _ HR x x' y); auto. apply Hx'. discriminate.
      * apply HR; [apply Hx'|apply Hy']; discriminate.
Qed.

Lemma related_sum_scaled {T} (l : list T) x y : related_sum l x y -> related_sum l (smul sone x) y.
Proof.
  intros [H H']. split; intros Hl; [apply HR; auto|]. rewrite <- (ns_mul_1_l SR y). apply HR; [apply HR|auto].
Qed.

Lemma sums_to_weak (l : list A) x : sums_to l x -> forall l', Forall2 R l l' ->
  related_sum l' x (fold_right sadd szero l').
Proof.
  induction 1 as [| |x|l1 l2 x y H1 IH1 H2 IH2|l x H IH|l1 l2 x Hp H IH]; intros l' Hl.
  - inversion Hl; subst. split; [intros _; apply HR|congruence].
  - inversion Hl; subst. split; [intros _; apply HR|congruence].
  - inversion Hl as [|? y ? ? Hy Ht]; subst. inversion Ht; subst. simpl.
    rewrite (ns_add_comm SR), (ns_add_0_l SR). split; [discriminate|auto].
  - apply Forall2_app_inv_l in Hl as (a & b & Ha & Hb & ->). rewrite (sum_list_app SR).
    apply related_sum_add; auto; intros ->; reflexivity.
  - apply related_sum_scaled; auto.
  - destruct (Permutation_Forall2 (Permutation_sym Hp) Hl) as (m & Hm & Hl').
    rewrite (sum_list_perm SR l' m) by auto. specialize (IH m Hl'). unfold related_sum in *.
    split; intros E; apply IH; [subst l'; apply Permutation_nil; auto|].
    intros ->. apply E, Permutation_nil, Permutation_sym; auto.
Qed.

Lemma sum_n_weak n (f : nat -> A) (g : nat -> B) :
  (forall i, i < n -> R (f i) (g i)) -> related_sum (seq 0 n) (sum_n n f) (sum_n n g).
Proof.
  induction n as [|n IH]; intros H; [split; [intros _; apply HR|simpl; congruence]|].
  rewrite seq_S. cbn [sum_n]. apply related_sum_add; auto.
  - split; [discriminate|auto].
  - destruct n; [auto|discriminate].
  - discriminate.
Qed.

(** A sum of products, whichever of them the fused multiply-add adds. *)
Variable lay : backend A.
Hypothesis Hfu : weak_fused R Z lay.

Lemma dots_to_weak (l : list (A * A)) x : dots_to (fused lay) l x ->
  forall l', Forall2 (fun p p' => R (fst p) (fst p') /\ R (snd p) (snd p')) l l' ->
  related_sum l' x (fold_right sadd szero (map (fun p => smul (fst p) (snd p)) l')).
Proof.
  induction 1 as [| |a b|l1 l2 x y H1 IH1 H2 IH2|a b l x H IH|l1 l2 x y H1 IH1 H2 IH2|l x H IH|l1 l2 x Hp H IH];
    intros l' Hl.
  - inversion Hl; subst. split; [intros _; apply HR|congruence].
  - inversion Hl; subst. split; [intros _; apply HR|congruence].
  - inversion Hl as [|? y ? ? Hy Ht]; subst. inversion Ht; subst. simpl.
    rewrite (ns_add_comm SR), (ns_add_0_l SR). split; [discriminate|intros _]. apply HR; apply Hy.
  - apply Forall2_app_inv_l in Hl as (m & n & Hm & Hn & ->). rewrite map_app, (sum_list_app SR).
    apply related_sum_add; auto; intros ->; reflexivity.
  - inversion Hl as [|? y ? l'' Hy Ht]; subst. split; [discriminate|intros _]. simpl.
    destruct (IH l'' Ht) as [IH1 IH2]. destruct l'' as [|p l''].
    + simpl. rewrite (ns_add_comm SR), (ns_add_0_l SR). apply Hfu; [apply Hy|apply Hy|auto].
    + apply Hfu; [apply Hy|apply Hy|apply IH2; discriminate].
  - apply Forall2_app_inv_l in Hl as (m & n & Hm & Hn & ->). rewrite map_app, (sum_list_app SR).
    specialize (IH1 m Hm). specialize (IH2 n Hn). destruct IH1 as [Zx Rx], IH2 as [Zy Ry]. split.
    + intros [-> ->]%app_eq_nil. apply Hfu; auto.
    + intros Hmn. destruct m as [|p m].
      * cbn [map fold_right]. rewrite (ns_add_0_l SR). apply Hfu; auto.
      * rewrite <- (ns_mul_1_l SR (fold_right _ _ (map _ (p :: m)))). specialize (Rx ltac:(discriminate)).
        destruct n as [|q n].
        -- cbn [map fold_right]. rewrite (ns_add_comm SR), (ns_add_0_l SR). apply Hfu; [apply HR|exact Rx|auto].
        -- apply Hfu; [apply HR|exact Rx|apply Ry; discriminate].
  - apply related_sum_scaled; auto.
  - destruct (Permutation_Forall2 (Permutation_sym Hp) Hl) as (m & Hm & Hl').
    rewrite (sum_list_perm SR _ (map (fun p => smul (fst p) (snd p)) m)) by (apply Permutation_map; auto).
    specialize (IH m Hl'). split; intros E; apply IH; [subst l'; apply Permutation_nil; auto|].
    intros ->. apply E, Permutation_nil, Permutation_sym; auto.
Qed.

(** Sums that are not empty, unless zeros are related to zero. *)
Lemma sums_to_weak_n n (f : nat -> A) (g : nat -> B) x :
  (forall x, Z x -> R x szero) \/ 0 < n ->
  sums_to (map f (seq 0 n)) x -> (forall i, i < n -> R (f i) (g i)) -> R x (sum_n n g).
Proof.
  intros Hn H Hfg. rewrite <- (sum_list_n SR).
  destruct (sums_to_weak _ _ H (map g (seq 0 n))) as [H1 H2].
  - assert (Hi : forall i, In i (seq 0 n) -> R (f i) (g i)) by (intros i Hi; apply in_seq in Hi; apply Hfg; lia).
    revert Hi. generalize (seq 0 n) as l. clear. induction l as [|i l IH]; intros Hi; simpl; constructor; simpl in *; auto.
  - destruct n as [|n].
    + destruct Hn as [Hn|Hn]; [|lia]. apply Hn, H1. reflexivity.
    + apply H2. discriminate.
Qed.

Lemma dots_to_weak_n n (f g : nat -> A) (f' g' : nat -> B) x :
  (forall x, Z x -> R x szero) \/ 0 < n ->
  dots_to (fused lay) (map (fun i => (f i, g i)) (seq 0 n)) x ->
  (forall i, i < n -> R (f i) (f' i) /\ R (g i) (g' i)) ->
  R x (sum_n n (fun i => smul (f' i) (g' i))).
Proof.
  intros Hn H Hfg. rewrite <- (sum_list_n SR).
  replace (map (fun i => smul (f' i) (g' i)) (seq 0 n))
    with (map (fun p => smul (fst p) (snd p)) (map (fun i => (f' i, g' i)) (seq 0 n)))
    by (rewrite map_map; reflexivity).
  destruct (dots_to_weak _ _ H (map (fun i => (f' i, g' i)) (seq 0 n))) as [H1 H2].
  - assert (Hi : forall i, In i (seq 0 n) -> R (f i) (f' i) /\ R (g i) (g' i))
      by (intros i Hi; apply in_seq in Hi; apply Hfg; lia).
    revert Hi. generalize (seq 0 n) as l. clear. induction l as [|i l IH]; intros Hi; simpl; constructor; simpl in *; auto.
  - destruct n as [|n].
    + destruct Hn as [Hn|Hn]; [|lia]. apply Hn, H1. reflexivity.
    + apply H2. discriminate.
Qed.

Lemma sum_n_weak_n n (f : nat -> A) (g : nat -> B) :
  (forall x, Z x -> R x szero) \/ 0 < n ->
  (forall i, i < n -> R (f i) (g i)) -> R (sum_n n f) (sum_n n g).
Proof.
  intros Hn H. destruct (sum_n_weak n f g H) as [H1 H2]. destruct n as [|n].
  - destruct Hn as [Hn|Hn]; [|lia]. apply Hn, H1. reflexivity.
  - apply H2. discriminate.
Qed.

Variable size : char -> nat.
Hypothesis Hz : no_empty_sums R Z size.

Lemma no_empty_prod cs : (forall x, Z x -> R x szero) \/ 0 < prod (map size cs).
Proof.
  destruct Hz as [H|H]; [auto|right]. induction cs as [|c cs IH]; [unfold prod; simpl; lia|].
  change (0 < size c * prod (map size cs)). specialize (H c). apply Nat.mul_pos_pos; auto.
Qed.

Lemma nested_sum_weak cs (f : env -> A) (g : env -> B) e :
  (forall e', (forall c, ~ In c cs -> e' c = e c) -> in_range size cs e' -> R (f e') (g e')) ->
  R (nested_sum size cs f e) (nested_sum size cs g e).
Proof.
  revert e; induction cs as [|c cs IH]; simpl; intros e H.
  - apply H; auto. intros c [].
  - apply sum_n_weak_n; [destruct Hz; auto|]. intros i Hi. apply IH. intros e' H1 H2. apply H.
    + intros d Hd. rewrite H1 by tauto. apply upd_other. intros ->; tauto.
    + intros d [<-|Hd]; auto. destruct (in_dec char_eq_dec c cs) as [Hin|Hnin]; auto.
      rewrite H1, upd_same by auto. auto.
Qed.

End Weak.

(** A relation that holds of zero. *)
Lemma strong_weak {A B} {Sa : Scalar A} {Sb : Scalar B} (R : A -> B -> Prop) :
  scalar_relation R -> near_semiring B -> weak_relation R (fun x => R x szero).
Proof.
  intros HR SR. constructor; try apply HR.
  - rewrite <- (ns_zero_zero SR). apply HR; apply HR.
  - intros x y Hx Hy. rewrite <- (ns_add_0_l SR szero). apply HR; auto.
  - intros x Hx. rewrite <- (ns_mul_1_l SR szero). apply HR; auto. apply HR.
  - intros x x' z Hx Hz. split.
    + rewrite <- (ns_add_0_l SR x'), (ns_add_comm SR). apply HR; auto.
    + rewrite <- (ns_add_0_l SR x'). apply HR; auto.
Qed.
Lemma strong_weak_fused {A B} {Sa : Scalar A} {Sb : Scalar B} (R : A -> B -> Prop) lay :
  scalar_relation R -> near_semiring B -> fused_relation R lay -> weak_fused R (fun x => R x szero) lay.
Proof.
  intros HR SR H. constructor; auto.
  - intros x x' y y' z Hx Hy Hz. rewrite <- (ns_add_0_l SR (smul x' y')), (ns_add_comm SR). apply H; auto.
  - intros x y y' Hx Hy. rewrite <- (ns_add_0_l SR y'), <- (ns_mul_1_l SR szero). apply H; auto. apply HR.
  - intros x y Hx Hy. replace (szero : B) with (sadd (smul sone szero) szero : B); [apply H; auto; apply HR|].
    rewrite (ns_mul_1_l SR). apply (ns_add_0_l SR).
Qed.
Lemma strong_no_empty {A B} {Sb : Scalar B} (R : A -> B -> Prop) size : no_empty_sums R (fun x => R x szero) size.
Proof. left. auto. Qed.

Section Related.
Context {A B : Type} {Sa : Scalar A} {Sb : Scalar B} (R : A -> B -> Prop).
Hypothesis HR : scalar_relation R.

Lemma sum_n_rel n (f : nat -> A) (g : nat -> B) :
  (forall i, i < n -> R (f i) (g i)) -> R (sum_n n f) (sum_n n g).
Proof.
  induction n as [|n IH]; simpl; intros H; [apply HR|]. apply HR; auto.
Qed.

Lemma nested_sum_rel size cs (f : env -> A) (g : env -> B) e :
  (forall e', (forall c, ~ In c cs -> e' c = e c) -> in_range size cs e' -> R (f e') (g e')) ->
  R (nested_sum size cs f e) (nested_sum size cs g e).
Proof.
  revert e; induction cs as [|c cs IH]; simpl; intros e H.
  - apply H; auto. intros c [].
  - apply sum_n_rel. intros i Hi. apply IH. intros e' H1 H2. apply H.
    + intros d Hd. rewrite H1 by tauto. apply upd_other. intros ->; tauto.
    + intros d [<-|Hd]; auto. destruct (in_dec char_eq_dec c cs) as [Hin|Hnin]; auto.
      rewrite H1, upd_same by auto. auto.
Qed.

Lemma sums_to_rel_n (SR : near_semiring B) n (f : nat -> A) (g : nat -> B) x :
  sums_to (map f (seq 0 n)) x -> (forall i, i < n -> R (f i) (g i)) -> R x (sum_n n g).
Proof. apply (sums_to_weak_n R _ (strong_weak R HR SR) SR). left. auto. Qed.

Variable lay : backend A.
Hypothesis Hfu : fused_relation R lay.

Lemma dots_to_rel_n (SR : near_semiring B) n (f g : nat -> A) (f' g' : nat -> B) x :
  dots_to (fused lay) (map (fun i => (f i, g i)) (seq 0 n)) x ->
  (forall i, i < n -> R (f i) (f' i) /\ R (g i) (g' i)) ->
  R x (sum_n n (fun i => smul (f' i) (g' i))).
Proof.
  apply (dots_to_weak_n R _ (strong_weak R HR SR) SR lay (strong_weak_fused R lay HR SR Hfu)). left. auto.
Qed.

End Related.

Lemma eq_relation {A} {Sc : Scalar A} : scalar_relation (@eq A).
Proof. split; auto; intros; subst; auto. Qed.

(** An exact fused multiply-add respects every relation. *)
Lemma fused_exact_rel {A B} {Sa : Scalar A} {Sb : Scalar B} (R : A -> B -> Prop) lay :
  scalar_relation R -> backend_ok lay -> fused_relation R lay.
Proof. intros HR Hlay x x' y y' z z' Hx Hy Hz. rewrite (fused_exact Hlay). apply HR; auto. apply HR; auto. Qed.

Lemma eq_fused {A} {Sc : Scalar A} (lay : backend A) : backend_ok lay -> fused_relation eq lay.
Proof. apply fused_exact_rel, eq_relation. Qed.

Lemma eq_weak {A} {Sc : Scalar A} : near_semiring A -> weak_relation (@eq A) (fun x => x = szero).
Proof. apply strong_weak, eq_relation. Qed.
Lemma eq_weak_fused {A} {Sc : Scalar A} (lay : backend A) : near_semiring A -> backend_ok lay ->
  weak_fused eq (fun x => x = szero) lay.
Proof. intros SR Hlay. apply strong_weak_fused; [apply eq_relation|auto|apply eq_fused; auto]. Qed.
Lemma eq_no_empty {A} {Sc : Scalar A} size : no_empty_sums (@eq A) (fun x => x = szero) size.
Proof. left. auto. Qed.

(** ** Sums of terms over several labels *)

(** The terms of [nested_sum]. *)
Fixpoint terms {A : Type} (size : char -> nat) (cs : list char) (f : env -> A) (e : env) : list A :=
  match cs with
  | [] => [f e]
  | c :: cs' => flat_map (fun i => terms size cs' f (upd e c i)) (seq 0 (size c))
  end.

Lemma Forall2_flip {T U} (P : T -> U -> Prop) l l' : Forall2 P l l' -> Forall2 (fun y x => P x y) l' l.
Proof. induction 1; constructor; auto. Qed.

Lemma Permutation_concat' {T} (l l' : list (list T)) : Permutation l l' -> Permutation (concat l) (concat l').
Proof.
  induction 1 as [|x l l' H IH|x y l|l l' l'' H1 IH1 H2 IH2]; simpl; auto.
  - apply Permutation_app_head; auto.
  - rewrite !app_assoc. apply Permutation_app_tail, Permutation_app_comm.
  - eapply Permutation_trans; eauto.
Qed.

(** Sums of sums. *)
Lemma sums_to_concat {A} {S : Scalar A} (l : list A) x : sums_to l x ->
  forall ls, Forall2 sums_to ls l -> sums_to (concat ls) x.
Proof.
  induction 1 as [| |x|l1 l2 x y H1 IH1 H2 IH2|l x H IH|l1 l2 x Hp H IH]; intros ls Hl.
  - inversion Hl; subst. constructor.
  - inversion Hl; subst. apply sums_zero_zero.
  - inversion Hl as [|m ? ? ? Hm Ht]; subst. inversion Ht; subst. simpl. rewrite app_nil_r. auto.
  - apply Forall2_app_inv_r in Hl as (a & b & Ha & Hb & ->). rewrite concat_app. constructor; auto.
  - constructor; auto.
  - apply Forall2_flip in Hl.
    destruct (Permutation_Forall2 (Permutation_sym Hp) Hl) as (m & Hm & Hl').
    apply sums_permuted with (concat m); [|apply IH; apply Forall2_flip; auto].
    apply Permutation_concat'. apply Permutation_sym; auto.
Qed.

Lemma sums_to_terms {A} {S : Scalar A} size c cs (f g : env -> A) e x :
  sums_to (map (fun i => g (upd e c i)) (seq 0 (size c))) x ->
  (forall i, i < size c -> sums_to (terms size cs f (upd e c i)) (g (upd e c i))) ->
  sums_to (terms size (c :: cs) f e) x.
Proof.
  intros H Hi. cbn [terms]. rewrite flat_map_concat_map. apply (sums_to_concat _ _ H).
  assert (Hi' : forall i, In i (seq 0 (size c)) -> sums_to (terms size cs f (upd e c i)) (g (upd e c i)))
    by (intros i Hi'; apply in_seq in Hi'; apply Hi; lia).
  revert Hi'. generalize (seq 0 (size c)) as l. clear.
  induction l as [|i l IH]; intros Hi; simpl; constructor; simpl in *; auto.
Qed.

Lemma sums_to_nested_weak {A B} {Sa : Scalar A} {Sb : Scalar B} (R : A -> B -> Prop) (Z : A -> Prop)
    (HR : weak_relation R Z) (SR : near_semiring B) size (Hz : no_empty_sums R Z size)
    cs (f : env -> A) (g : env -> B) e x :
  sums_to (terms size cs f e) x ->
  (forall e', (forall c, ~ In c cs -> e' c = e c) -> in_range size cs e' -> R (f e') (g e')) ->
  R x (nested_sum size cs g e).
Proof.
  intros H Hfg.
  assert (E : forall cs (g : env -> B) e, nested_sum size cs g e = fold_right sadd szero (terms size cs g e)).
  { clear - SR. induction cs as [|c cs IH]; intros g e; cbn [nested_sum terms fold_right].
    - rewrite (ns_add_comm SR), (ns_add_0_l SR). auto.
    - rewrite <- (sum_list_n SR). induction (seq 0 (size c)) as [|i l IHl]; auto.
      cbn [map fold_right flat_map]. rewrite (sum_list_app SR), IH, IHl. auto. }
  rewrite E. cut (related_sum R Z (terms size cs g e) x (fold_right sadd szero (terms size cs g e))).
  { intros [H1 H2]. destruct Hz as [Hz'|Hp].
    - destruct (terms size cs g e) eqn:Et; [apply Hz', H1; auto|apply H2; discriminate].
    - apply H2. clear - Hp. revert e. induction cs as [|c cs IH]; intros e; cbn [terms]; [discriminate|].
      specialize (Hp c). destruct (size c) as [|n]; [lia|]. cbn [seq flat_map].
      intros Ht%app_eq_nil. apply (IH (upd e c 0)), Ht. }
  apply (sums_to_weak R Z HR SR _ _ H). clear - Hfg.
  revert e Hfg. induction cs as [|c cs IH]; intros e Hfg; cbn [terms].
  - constructor; auto. apply Hfg; auto. intros c [].
  - assert (Hi : forall i, In i (seq 0 (size c)) -> i < size c) by (intros i Hi; apply in_seq in Hi; lia).
    revert Hi. generalize (seq 0 (size c)) as l. induction l as [|i l IHl]; intros Hi; cbn [flat_map]; [constructor|].
    apply Forall2_app; [|apply IHl; intros j Hj; apply Hi; simpl; auto].
    apply IH. intros e' H1 H2. apply Hfg.
    + intros d Hd. simpl in Hd. rewrite H1 by tauto. apply upd_other. intros ->; tauto.
    + intros d [<-|Hd]; auto. destruct (in_dec char_eq_dec c cs) as [Hin|Hnin]; auto.
      rewrite H1, upd_same by auto. apply Hi; simpl; auto.
Qed.

Lemma sums_to_nested_rel {A B} {Sa : Scalar A} {Sb : Scalar B} (R : A -> B -> Prop) (HR : scalar_relation R)
    (SR : near_semiring B) size cs (f : env -> A) (g : env -> B) e x :
  sums_to (terms size cs f e) x ->
  (forall e', (forall c, ~ In c cs -> e' c = e c) -> in_range size cs e' -> R (f e') (g e')) ->
  R x (nested_sum size cs g e).
Proof. apply (sums_to_nested_weak R _ (strong_weak R HR SR) SR size (strong_no_empty R size)). Qed.

(** ** A backend *)

(** Every allocated array is row-major, and terms are added up from first to last. *)
Definition in_order {A} {S : Scalar A} (l : list A) : A := fold_left sadd l szero.
Lemma in_order_ok {A} {S : Scalar A} (l : list A) : sums_to l (in_order l).
Proof.
  assert (H : forall l' x, sums_to l' x -> sums_to (l' ++ l) (fold_left sadd l x)).
  { induction l as [|y l IH]; intros l' x Hx; simpl; [rewrite app_nil_r; auto|].
    replace (l' ++ y :: l) with ((l' ++ [y]) ++ l) by (rewrite <- app_assoc; auto).
    apply IH. constructor; auto. constructor. }
  apply (H [] szero). constructor.
Qed.

Definition plain_backend {A} {S : Scalar A} : backend A := mkBackend (fun _ _ a => a)
  (fun _ _ _ l => in_order l)
  (fun a b c => sadd (smul a b) c)
  (fun _ _ _ l => sadd (smul szero szero) (smul sone (in_order (map (fun p => smul (fst p) (snd p)) l)))).

(** A sum of the products is a sum of products. *)
Lemma sums_dots {A} {S : Scalar A} fma (l : list A) x : sums_to l x ->
  forall ps, l = map (fun p => smul (fst p) (snd p)) ps -> dots_to fma ps x.
Proof.
  induction 1 as [| |x|l1 l2 x y H1 IH1 H2 IH2|l x H IH|l1 l2 x Hp H IH]; intros ps E.
  - destruct ps; [constructor|discriminate].
  - destruct ps; [constructor|discriminate].
  - destruct ps as [|[a b] [|? ?]]; try discriminate. injection E as ->. constructor.
  - symmetry in E. apply map_eq_app in E as (p1 & p2 & -> & E1 & E2). constructor; auto.
  - constructor; auto.
  - rewrite E in Hp. destruct (Permutation_map_inv _ _ Hp) as (qs & E' & Hq).
    apply dots_permuted with qs; [apply Permutation_sym; auto|auto].
Qed.

Lemma plain_backend_ok {A} {S : Scalar A} : backend_ok (plain_backend (A := A)).
Proof.
  constructor; [constructor|]; auto; simpl.
  - intros _ _ _ l. apply in_order_ok.
  - intros _ _ _ l. change l with ([] ++ l) at 1. constructor; [apply dots_zero_zero|]. constructor.
    eapply sums_dots; [apply in_order_ok|reflexivity].
Qed.

(** ** The trivial semiring *)

Definition unit_scalar : Scalar unit := {| szero := tt; sone := tt; sadd := fun _ _ => tt; smul := fun _ _ => tt |}.
Lemma unit_semiring : @semiring unit unit_scalar.
Proof. constructor; intros; repeat match goal with x : unit |- _ => destruct x end; reflexivity. Qed.
