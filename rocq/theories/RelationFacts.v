(** Two runs over related scalars: arrays mapped by a function, closed sets, homomorphisms. *)
From Verif Require Import Base BaseFacts NDArray Validation Optimizers Path Api Spec
  ValidationMain SumFacts ArrayFacts PathFacts EinsumMain EinsumProps.
From Coq Require Import Lia.

Definition rmap {A B} (f : A -> B) (x : res A) : res B :=
  match x with Ok a => Ok (f a) | Err m => Err m | Panic => Panic end.

Lemma a_get_amap {A B} (f : A -> B) (a : arr A) idx : a_get (amap f a) idx = rmap f (a_get a idx).
Proof.
  unfold a_get. cbn [amap a_shape a_data a_off a_strides].
  destruct (in_bounds (a_shape a) idx); auto.
  unfold znth. destruct (_ <? 0)%Z; auto. rewrite nth_error_map.
  destruct (nth_error (a_data a) _); auto.
Qed.

Lemma wf_amap {A B} (f : A -> B) (a : arr A) : wf a -> wf (amap f a).
Proof. intros [H1 H2]. split; auto. cbn [amap a_data]. rewrite map_length. auto. Qed.

Lemma wfs_amap {A B} (f : A -> B) (l : list (arr A)) : Forall wf l -> Forall wf (map (amap f) l).
Proof. intros H. induction H; simpl; constructor; auto using wf_amap. Qed.

Lemma shapes_amap {A B} (f : A -> B) (l : list (arr A)) :
  map (@a_shape B) (map (amap f) l) = map (@a_shape A) l.
Proof. rewrite map_map. apply map_ext. auto. Qed.

Lemma related_amap {A B} (R : A -> B -> Prop) (f : A -> B) (a : arr A) :
  (forall x, R x (f x)) -> wf a -> related_arrays R a (amap f a).
Proof.
  intros Hf Hw. split; auto. intros idx Hi. apply wf_readable in Hw as [_ Hw].
  destruct (Hw idx Hi) as (x & Ex). exists x, (f x). split; auto. rewrite a_get_amap, Ex. auto.
Qed.

Lemma relateds_amap {A B} (R : A -> B -> Prop) (f : A -> B) (l : list (arr A)) :
  (forall x, R x (f x)) -> Forall wf l -> Forall2 (related_arrays R) l (map (amap f) l).
Proof. intros Hf H. induction H; simpl; constructor; auto using related_amap. Qed.

(** Einstein sums of related operands are related. *)
Lemma einsum_value_rel {A B} {Sa : Scalar A} {Sb : Scalar B} (R : A -> B -> Prop) (HR : scalar_relation R)
    size (arrays : list (arr A)) (arrays' : list (arr B)) ops out o :
  Forall2 (fun a b => forall idx, R (elem a idx) (elem b idx)) arrays arrays' ->
  R (einsum_value size arrays ops out o) (einsum_value size arrays' ops out o).
Proof.
  intros H. unfold einsum_value. apply (nested_sum_rel R HR). intros e _ _. unfold term, product.
  revert ops. induction H as [|a b arrays arrays' Hab H IH]; intros ops; [apply rel_one; auto|].
  destruct ops as [|ix ops]; [apply rel_one; auto|]. cbn [combine map fold_right fst snd].
  apply rel_mul; auto.
Qed.

Lemma elem_amap {A B} {Sa : Scalar A} {Sb : Scalar B} (R : A -> B -> Prop) (HR : scalar_relation R)
    (f : A -> B) (a : arr A) idx : (forall x, R x (f x)) -> R (elem a idx) (elem (amap f a) idx).
Proof.
  intros Hf. unfold elem. rewrite a_get_amap. destruct (a_get a idx); cbn [rmap]; auto; apply rel_zero; auto.
Qed.

Lemma einsum_value_amap {A B} {Sa : Scalar A} {Sb : Scalar B} (R : A -> B -> Prop) (HR : scalar_relation R)
    (f : A -> B) size (arrays : list (arr A)) ops out o : (forall x, R x (f x)) ->
  R (einsum_value size arrays ops out o) (einsum_value size (map (amap f) arrays) ops out o).
Proof.
  intros Hf. apply (einsum_value_rel R HR). induction arrays as [|a arrays IH]; simpl; constructor; auto.
  intros idx. apply (elem_amap R HR); auto.
Qed.

Lemma blocked_amap {A B} (f : A -> B) size (a : arr A) ix o :
  blocked size (amap f a) ix o <-> blocked size a ix o.
Proof. unfold blocked, is_contiguous. reflexivity. Qed.

Lemma blocked_in_amap {A B} (f : A -> B) size (arrays : list (arr A)) ops out :
  blocked_in size (combine (map (amap f) arrays) ops) out <-> blocked_in size (combine arrays ops) out.
Proof.
  assert (E : combine (map (amap f) arrays) ops
              = map (fun p => (amap f (fst p), snd p)) (combine arrays ops)).
  { revert ops. induction arrays as [|a arrays IH]; intros [|ix ops]; simpl; auto. f_equal. auto. }
  rewrite E. generalize (combine arrays ops) as z. clear. intros z.
  assert (M : forall l : list (arr A * list char),
            map snd (map (fun p => (amap f (fst p), snd p)) l) = map snd l).
  { intros l. rewrite map_map. auto. }
  split; intros (l1 & a & ix & l2 & Ez & Hb).
  - apply map_eq_app in Ez as (z1 & z2 & -> & <- & Ez).
    destruct z2 as [|[b jx] z2]; [discriminate|]. cbn [map fst snd] in Ez. injection Ez as <- <- <-.
    exists z1, b, jx, z2. split; auto. rewrite <- map_app, M in Hb. exact Hb.
  - subst z. rewrite map_app. cbn [map fst snd].
    eexists _, _, _, _. split; [reflexivity|]. rewrite <- map_app, M. exact Hb.
Qed.

(** ** Closed sets *)

Definition closed_set {A} {Sc : Scalar A} (P : A -> Prop) : Prop :=
  P szero /\ P sone /\ (forall x y, P x -> P y -> P (sadd x y)) /\ (forall x y, P x -> P y -> P (smul x y)).

Definition all_elements {A} (P : A -> Prop) (a : arr A) : Prop :=
  forall idx x, a_get a idx = Ok x -> P x.

Lemma closed_relation {A} {Sc : Scalar A} (P : A -> Prop) : closed_set P ->
  @scalar_relation A unit Sc unit_scalar (fun x _ => P x).
Proof. intros (H0 & H1 & H2 & H3). constructor; auto. Qed.

Lemma closed_related {A} (P : A -> Prop) (arrays : list (arr A)) : Forall wf arrays ->
  Forall (all_elements P) arrays ->
  Forall2 (related_arrays (fun x (_ : unit) => P x)) arrays (map (amap (fun _ => tt)) arrays).
Proof.
  intros Hw Hp. induction Hw as [|a arrays Wa Hw IH]; simpl; constructor; inversion Hp; subst; auto.
  split; auto. intros idx Hi. pose proof Wa as Wa'. apply wf_readable in Wa as [_ Wa].
  destruct (Wa idx Hi) as (x & Ex). exists x, tt. rewrite a_get_amap, Ex. eauto.
Qed.

Lemma a_get_in_bounds {A} (a : arr A) idx x : a_get a idx = Ok x -> in_bounds (a_shape a) idx = true.
Proof. unfold a_get. destruct (in_bounds (a_shape a) idx); [auto|discriminate]. Qed.

Lemma closed_result {A} {Sc : Scalar A} (P : A -> Prop) x size (arrays : list (arr A)) ops out r :
  @outcome_related A unit unit_scalar (fun x _ => P x) x size arrays (map (amap (fun _ => tt)) arrays) ops out ->
  x = Ok r -> all_elements P r.
Proof.
  intros [[H _]|[_ (r' & f & E & (S1 & S2 & H3) & Hp)]] Er; [congruence|].
  assert (r' = r) by congruence. subst r'. intros idx y Ey.
  assert (Hi := a_get_in_bounds r idx y Ey). rewrite S1 in Hi. rewrite H3 in Ey by auto.
  injection Ey as <-. apply Hp; auto.
Qed.

(** ** Homomorphisms *)

Definition homomorphism {A B} {Sa : Scalar A} {Sb : Scalar B} (f : A -> B) : Prop :=
  f szero = szero /\ f sone = sone
  /\ (forall x y, f (sadd x y) = sadd (f x) (f y)) /\ (forall x y, f (smul x y) = smul (f x) (f y)).

(** The fused multiply-add of a backend is mapped to a multiplication followed by an addition. *)
Definition maps_fused {A B} {Sb : Scalar B} (f : A -> B) (lay : backend A) : Prop :=
  forall x y z, f (fused lay x y z) = sadd (smul (f x) (f y)) (f z).

(** Two runs end the same way, the second array being the image of the first. *)
Definition mapped_outcome {A B} (f : A -> B) (x : res (arr A)) (y : res (arr B)) : Prop :=
  match x, y with
  | Ok a, Ok b => a_shape b = a_shape a /\ forall idx, a_get b idx = rmap f (a_get a idx)
  | Err _, Err _ => True
  | Panic, Panic => True
  | _, _ => False
  end.

Lemma homomorphism_relation {A B} {Sa : Scalar A} {Sb : Scalar B} (f : A -> B) :
  homomorphism f -> scalar_relation (fun x y => f x = y).
Proof. intros (H0 & H1 & H2 & H3). constructor; intros; subst; auto. Qed.

Lemma mapped_ok {A B} {Sa : Scalar A} {Sb : Scalar B} (f : A -> B) size (arrays : list (arr A)) ops out x y :
  outcome_related (fun x y => f x = y) x size arrays (map (amap f) arrays) ops out ->
  outcome_is y size (map (amap f) arrays) ops out -> mapped_outcome f x y.
Proof.
  intros [[-> Hb]|[Hb (r & g & -> & (S1 & L1 & G1) & Hg)]] [[-> Hb']|[Hb' (r' & -> & (S2 & L2 & G2))]]; cbn; auto.
  - apply Hb'. apply (blocked_in_amap f). auto.
  - apply Hb. apply (blocked_in_amap f) in Hb'. auto.
  - split; [congruence|]. intros idx. destruct (in_bounds (map size out) idx) eqn:E.
    + rewrite G1, G2 by auto. cbn. rewrite Hg; auto.
    + unfold a_get. rewrite S1, S2, E. auto.
Qed.

Lemma hom_einsum {A B} {Sa : Scalar A} {Sb : Scalar B} (f : A -> B) : homomorphism f -> semiring B ->
  forall h h' lay lay', hash_ok h -> hash_ok h' -> backend_runs lay -> maps_fused f lay -> backend_ok lay' ->
  forall s arrays, Forall wf arrays ->
    mapped_outcome f (einsum h lay s arrays) (einsum h' lay' s (map (amap f) arrays)).
Proof.
  intros Hf SR h h' lay lay' Hh Hh' Hl Hm Hl' s arrays Hw.
  destruct (accepted_dec h Hh s (map (@a_shape A) arrays)) as [(ops & out & size & Hc)|Hn].
  - apply (mapped_ok f size arrays ops out).
    + apply (einsum_related _ (homomorphism_relation f Hf) SR h lay Hh Hl); auto.
      * intros x x' y y' z z' <- <- <-. apply Hm.
      * apply relateds_amap; auto.
    + apply (einsum_outcome SR h' lay' Hh' Hl'); auto using wfs_amap. rewrite shapes_amap. auto.
  - pose proof Hn as Hn'. rewrite <- (shapes_amap f) in Hn'.
    apply (einsum_rejects h lay Hh) in Hn as (m & ->). apply (einsum_rejects h' lay' Hh') in Hn' as (m' & ->).
    cbn. auto.
Qed.
