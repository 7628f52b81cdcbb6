(** The algebra of [tensordot] (C81): the order of the pairs of axes and the operands' order do not matter, it is linear
    in both operands, and products of three can be formed in either order. *)
From Verif Require Import Base BaseFacts NDArray Validation Optimizers Path Api Spec ParserFacts ValidationMain SumFacts
  ArrayFacts PathFacts EinsumMain EinsumProps AlgebraFacts StagedFacts TensordotMain AdjointFacts UniqueFacts DotAlgebra
  Examples PropsTensordot.
From Coq Require Import Lia ZArith.
Local Open Scope list_scope.
Local Open Scope nat_scope.

(** The hypotheses on the axes of a call: what lib.rs:282 asserts and what the call relies on [lib.rs:269-294]. *)
Definition axes_fit {A} (a b : arr A) (la ra : list nat) : Prop :=
  length la = length ra /\ axes_ok (length (a_shape a)) la /\ axes_ok (length (a_shape b)) ra
  /\ axis_lengths (a_shape a) la = axis_lengths (a_shape b) ra.

(** The shape of the result: the lengths of the axes kept [lib.rs:285]. *)
Definition dot_shape {A} (a b : arr A) (la ra : list nat) : list nat :=
  axis_lengths (a_shape a) (free_axes (length (a_shape a)) la) ++ axis_lengths (a_shape b) (free_axes (length (a_shape b)) ra).

(** ** The order of the pairs of axes *)

Lemma free_axes_same n l l' : (forall k, In k l <-> In k l') -> free_axes n l = free_axes n l'.
Proof.
  intros H. unfold free_axes. apply filter_ext. intros k. f_equal. apply Bool.eq_iff_eq_true. rewrite !existsb_axes. apply H.
Qed.

Lemma map_fst_combine {T U} (l : list T) (m : list U) : length l = length m -> map fst (combine l m) = l.
Proof. revert m; induction l as [|x l IH]; intros [|y m] H; cbn in *; try discriminate; auto. f_equal. auto. Qed.
Lemma map_snd_combine {T U} (l : list T) (m : list U) : length l = length m -> map snd (combine l m) = m.
Proof. revert m; induction l as [|x l IH]; intros [|y m] H; cbn in *; try discriminate; auto. f_equal. auto. Qed.

Lemma map_pairs {T U V} (f : T -> V) (g : U -> V) l m : length l = length m ->
  (map f l = map g m <-> forall p, In p (combine l m) -> f (fst p) = g (snd p)).
Proof.
  revert m; induction l as [|x l IH]; intros [|y m] L; cbn in *; try discriminate; [split; auto; contradiction|].
  injection L as L. specialize (IH m L). split.
  - intros E. injection E as E1 E2. intros p [<-|Hp]; auto. apply IH; auto.
  - intros H. f_equal; [apply (H (x, y)); auto|apply IH; auto].
Qed.

(** Listing the pairs of contracted axes in another order gives the same array. *)
Theorem tensordot_ignores_the_order_of_pairs :
  forall (A : Type) (Sc : Scalar A), semiring A ->
  forall lay lay' (a b : arr A) la ra la' ra', backend_ok lay -> backend_ok lay' -> wf a -> wf b -> axes_fit a b la ra ->
    length la' = length ra' -> Permutation (combine la ra) (combine la' ra') ->
    exists r r', tensordot lay a b la ra = Ok r /\ tensordot lay' a b la' ra' = Ok r' /\ same_array r r'.
Proof.
  intros A Sc SR lay lay' a b la ra la' ra' Hl Hl' Wa Wb (Hn & Ha & Hb & He) Hn' Hp.
  assert (Pl : Permutation la la') by (rewrite <- (map_fst_combine la ra), <- (map_fst_combine la' ra') by auto; apply Permutation_map; auto).
  assert (Pr : Permutation ra ra') by (rewrite <- (map_snd_combine la ra), <- (map_snd_combine la' ra') by auto; apply Permutation_map; auto).
  set (sa := a_shape a) in *. set (sb := a_shape b) in *. set (size := code_size sa sb []).
  set (u := labels 0 (length sa) la ra). set (v := map (code 1) (seq 0 (length sb))).
  assert (Lu : length u = length sa) by apply labels_length.
  assert (Lv : length v = length sb) by (unfold v; rewrite map_length, seq_length; auto).
  assert (Nr : NoDup ra) by apply Hb.
  assert (Vx : forall axes, Forall (fun k => k < length sb) axes -> axis_labels v axes = map (code 1) axes).
  { intros axes Hx. unfold axis_labels. apply map_ext_in. intros k Hk. rewrite Forall_forall in Hx. unfold v.
    rewrite nth_indep with (d' := code 1 0) by (rewrite map_length, seq_length; auto). rewrite map_nth, seq_nth; auto. }
  assert (Ok' : axes_ok (length sa) la' /\ axes_ok (length sb) ra').
  { destruct Ha as [A1 A2], Hb as [B1 B2]. split; split; try (eapply Permutation_NoDup; eauto; fail); eapply Permutation_Forall; eauto. }
  destruct Ok' as [Ha' Hb'].
  assert (Ul : axis_labels u la = axis_labels v ra) by (unfold u; rewrite labels_axes, Vx by (auto; apply Hb); auto).
  assert (Ul' : axis_labels u la' = axis_labels v ra').
  { apply map_pairs; auto. intros p Hi. apply (map_pairs (fun k => nth k u 0%N) (fun k => nth k v 0%N) la ra); auto.
    apply (Permutation_in _ (Permutation_sym Hp)). auto. }
  assert (Sa : sa = map size u).
  { apply (labels_shape 0 size sa sb); auto; intros k; [apply size_code_0|apply size_code_1]. }
  assert (Sb : sb = map size v).
  { unfold v. rewrite map_map. rewrite <- (map_nth_seq sb 0) at 1. apply map_ext. intros k. symmetry. apply size_code_1. }
  assert (Nu : NoDup u) by (apply labels_NoDup; auto).
  assert (Nv : NoDup v) by (apply NoDup_code; auto; apply seq_NoDup).
  assert (No : NoDup (axis_labels u (free_axes (length u) la) ++ axis_labels v (free_axes (length v) ra))).
  { rewrite Lu, Lv, Vx by apply free_axes_bound. unfold u. rewrite labels_free. apply NoDup_app_intro.
    - apply NoDup_code; auto. apply NoDup_filter, seq_NoDup.
    - apply NoDup_code; auto. apply NoDup_filter, seq_NoDup.
    - intros c H1 H2. apply In_code in H1 as (k & _ & ->). apply In_code in H2 as (k' & _ & H2). apply code_inj in H2; lia. }
  destruct (dot_as_einsum SR lay a b u v la ra size) as (r & E & Hr); auto; try (rewrite ?Lu, ?Lv; auto; fail).
  rewrite (free_axes_same (length u) la la'), (free_axes_same (length v) ra ra') in No, Hr.
  2,3,4,5: intros k; split; apply Permutation_in; auto using Permutation_sym.
  destruct (dot_as_einsum SR lay' a b u v la' ra' size) as (r' & E' & Hr'); auto; try (rewrite ?Lu, ?Lv; auto; fail).
  exists r, r'. split; auto. split; auto. eapply same_array_holds; eauto.
Qed.
Print Assumptions tensordot_ignores_the_order_of_pairs.

(** Axis 2 with axis 1 and axis 1 with axis 2, named in both orders. *)
Example order_of_pairs_case :
  let a := zarr [2; 3; 2] [1; 2; 3; 4; 5; 6; 7; 8; 9; 10; 11; 12]%Z in
  let b := zarr [2; 2; 3] [1; 0; 2; -1; 3; 1; 0; 0; 1; 4; 5; -2]%Z in
  axes_fit a b [2; 1] [1; 2] /\ Permutation (combine [2; 1] [1; 2]) (combine [1; 2] [2; 1])
  /\ (do r <- tensordot c_backend a b [2; 1] [1; 2]; a_iter r) = Ok [27; 21; 63; 69]%Z
  /\ (do r <- tensordot c_backend a b [1; 2] [2; 1]; a_iter r) = Ok [27; 21; 63; 69]%Z.
Proof.
  cbv zeta. split; [split; [reflexivity|split; [axes_tac|split; [axes_tac|reflexivity]]]|].
  split; [apply perm_swap|]. split; reflexivity.
Qed.

(** ** The order of the operands *)

(** With the operands and their axes swapped, the axes of the result are in the other order. *)
Theorem tensordot_of_swapped_operands :
  forall (A : Type) (Sc : Scalar A), semiring A ->
  forall lay lay' (a b : arr A) la ra, backend_ok lay -> backend_ok lay' -> wf a -> wf b -> axes_fit a b la ra ->
    exists r r', tensordot lay a b la ra = Ok r /\ tensordot lay' b a ra la = Ok r'
      /\ a_shape r = dot_shape a b la ra /\ a_shape r' = dot_shape b a ra la
      /\ forall x y, in_bounds (axis_lengths (a_shape a) (free_axes (length (a_shape a)) la)) x = true ->
           in_bounds (axis_lengths (a_shape b) (free_axes (length (a_shape b)) ra)) y = true ->
           a_get r' (y ++ x) = a_get r (x ++ y).
Proof.
  intros A Sc SR lay lay' a b la ra Hl Hl' Wa Wb (Hn & Ha & Hb & He).
  destruct (tensordot_is_correct A Sc SR lay a b la ra) as (r & E & Hr); auto.
  destruct (tensordot_is_correct A Sc SR lay' b a ra la) as (r' & E' & Hr'); auto.
  exists r, r'. split; auto. split; auto. split; [apply Hr|]. split; [apply Hr'|]. intros x y Hx Hy.
  destruct Hr as (_ & _ & Hr), Hr' as (_ & _ & Hr').
  rewrite Hr by (apply in_bounds_app; auto). rewrite Hr' by (apply in_bounds_app; auto). f_equal.
  unfold tensordot_value. rewrite <- He. apply in_bounds_length in Hx, Hy.
  unfold axis_lengths in Hx, Hy. rewrite map_length in Hx, Hy. rewrite <- Hx, <- Hy.
  assert (F : forall p q : list nat, firstn (length p) (p ++ q) = p /\ skipn (length p) (p ++ q) = q).
  { intros p q. rewrite firstn_app, skipn_app, firstn_all, skipn_all, Nat.sub_diag, firstn_O, skipn_O, app_nil_r. auto. }
  destruct (F x y) as [-> ->], (F y x) as [-> ->]. apply sum_over_ext. intros z _. apply (SRmul_comm SR).
Qed.
Print Assumptions tensordot_of_swapped_operands.

(** The product of a 2x3 and a 3x2 matrix, and with the operands swapped its transpose. *)
Example swapped_operands_case :
  let a := zarr [2; 3] [1; 2; 3; 4; 5; 6]%Z in
  let b := zarr [3; 2] [1; 0; 2; -1; 3; 1]%Z in
  axes_fit a b [1] [0]
  /\ (do r <- tensordot c_backend a b [1] [0]; a_iter r) = Ok [14; 1; 32; 1]%Z
  /\ (do r <- tensordot c_backend b a [0] [1]; a_iter r) = Ok [14; 32; 1; 1]%Z.
Proof.
  cbv zeta. split; [split; [reflexivity|split; [axes_tac|split; [axes_tac|reflexivity]]]|]. split; reflexivity.
Qed.

(** ** Linearity *)

(** [z] is [c] times [x] plus [d] times [y]. *)
Definition combines {A} {Sc : Scalar A} (c d : A) (x y z : arr A) : Prop :=
  a_shape x = a_shape z /\ a_shape y = a_shape z
  /\ forall i, in_bounds (a_shape z) i = true -> elem z i = sadd (smul c (elem x i)) (smul d (elem y i)).

Theorem tensordot_is_linear :
  forall (A : Type) (Sc : Scalar A), semiring A ->
  forall lay (a a' a'' b b' b'' : arr A) la ra c d, backend_ok lay -> wf a -> wf a' -> wf a'' -> wf b -> wf b' -> wf b'' ->
    axes_fit a b la ra ->
    (combines c d a' a'' a -> exists r r' r'', tensordot lay a b la ra = Ok r /\ tensordot lay a' b la ra = Ok r'
       /\ tensordot lay a'' b la ra = Ok r'' /\ combines c d r' r'' r)
    /\ (combines c d b' b'' b -> exists r r' r'', tensordot lay a b la ra = Ok r /\ tensordot lay a b' la ra = Ok r'
       /\ tensordot lay a b'' la ra = Ok r'' /\ combines c d r' r'' r).
Proof.
  intros A Sc SR lay a a' a'' b b' b'' la ra c d Hl Wa Wa' Wa'' Wb Wb' Wb'' (Hn & Ha & Hb & He).
  destruct (tensordot_is_correct A Sc SR lay a b la ra) as (r & E & Hr); auto. split; intros (S1 & S2 & Hz).
  - destruct (tensordot_is_correct A Sc SR lay a' b la ra) as (r' & E' & Hr'); try (rewrite ?S1; auto; fail).
    destruct (tensordot_is_correct A Sc SR lay a'' b la ra) as (r'' & E'' & Hr''); try (rewrite ?S2; auto; fail).
    exists r, r', r''. split; auto. split; auto. split; auto. rewrite S1 in Hr'. rewrite S2 in Hr''.
    split; [transitivity (dot_shape a b la ra); [apply Hr'|symmetry; apply Hr]|].
    split; [transitivity (dot_shape a b la ra); [apply Hr''|symmetry; apply Hr]|].
    intros o Ho. rewrite (proj1 Hr) in Ho.
    rewrite (holds_elem _ _ _ _ Hr Ho), (holds_elem _ _ _ _ Hr' Ho), (holds_elem _ _ _ _ Hr'' Ho).
    apply (tensordot_linear SR la ra (a_shape a) (a_shape b) o Ha Hb He Ho [] [b] a' a'' a c d); auto. constructor; [exact Wb|constructor].
  - destruct (tensordot_is_correct A Sc SR lay a b' la ra) as (r' & E' & Hr'); try (rewrite ?S1; auto; fail).
    destruct (tensordot_is_correct A Sc SR lay a b'' la ra) as (r'' & E'' & Hr''); try (rewrite ?S2; auto; fail).
    exists r, r', r''. split; auto. split; auto. split; auto. rewrite S1 in Hr'. rewrite S2 in Hr''.
    split; [transitivity (dot_shape a b la ra); [apply Hr'|symmetry; apply Hr]|].
    split; [transitivity (dot_shape a b la ra); [apply Hr''|symmetry; apply Hr]|].
    intros o Ho. rewrite (proj1 Hr) in Ho.
    rewrite (holds_elem _ _ _ _ Hr Ho), (holds_elem _ _ _ _ Hr' Ho), (holds_elem _ _ _ _ Hr'' Ho).
    apply (tensordot_linear SR la ra (a_shape a) (a_shape b) o Ha Hb He Ho [a] [] b' b'' b c d); auto. constructor; [exact Wa|constructor].
Qed.
Print Assumptions tensordot_is_linear.

(** 2 times [1; 2] plus 3 times [5; -1] is [17; 1]. *)
Example linear_case :
  combines 2%Z 3%Z (zarr [2] [1; 2]%Z) (zarr [2] [5; -1]%Z) (zarr [2] [17; 1]%Z)
  /\ (do r <- tensordot c_backend (zarr [2] [17; 1]%Z) (zarr [2] [4; 7]%Z) [0] [0]; a_iter r) = Ok [75]%Z
  /\ (do r <- tensordot c_backend (zarr [2] [1; 2]%Z) (zarr [2] [4; 7]%Z) [0] [0]; a_iter r) = Ok [18]%Z
  /\ (do r <- tensordot c_backend (zarr [2] [5; -1]%Z) (zarr [2] [4; 7]%Z) [0] [0]; a_iter r) = Ok [13]%Z.
Proof.
  split; [|repeat split]. split; [reflexivity|]. split; [reflexivity|].
  intros i Hi. assert (Hin : In i (indices [2])) by (apply indices_In; exact Hi).
  vm_compute in Hin. repeat destruct Hin as [<-|Hin]; try contradiction; reflexivity.
Qed.

(** ** Products of three *)

(** Where the axes of a tensor dot product come from [lib.rs:285]: [inl k] is axis [k] of the left operand, [inr k] of the right. *)
Definition origins (rank rank' : nat) (la ra : list nat) : list (nat + nat) :=
  map inl (free_axes rank la) ++ map inr (free_axes rank' ra).

(** In the product, the axes [axes] are those that come from [names]. *)
Definition come_from (os : list (nat + nat)) (axes : list nat) (names : list (nat + nat)) : Prop :=
  map (nth_error os) axes = map Some names.

Lemma come_from_bound os axes names : come_from os axes names -> Forall (fun k => k < length os) axes.
Proof.
  unfold come_from. revert names; induction axes as [|k axes IH]; intros [|n names] H; try discriminate; constructor.
  - cbn in H. injection H as H _. apply nth_error_Some. congruence.
  - cbn in H. injection H as _ H. eauto.
Qed.

Lemma come_from_NoDup os axes names : come_from os axes names -> NoDup names -> NoDup axes.
Proof.
  intros H Hn. apply (NoDup_map_inv (nth_error os)). rewrite H. apply FinFun.Injective_map_NoDup; auto. intros x y E. congruence.
Qed.

Lemma come_from_labels os axes names (f : nat + nat -> char) : come_from os axes names -> axis_labels (map f os) axes = map f names.
Proof.
  unfold come_from, axis_labels. revert names; induction axes as [|k axes IH]; intros [|n names] H; try discriminate; auto.
  cbn [map] in *. injection H as H1 H2. f_equal; auto. apply nth_error_nth. rewrite nth_error_map, H1. reflexivity.
Qed.

Lemma filter_twice {T} (f g : T -> bool) l : filter f (filter g l) = filter (fun x => g x && f x) l.
Proof. induction l as [|x l IH]; cbn; auto. destruct (g x); cbn; [destruct (f x); congruence|auto]. Qed.

(** The codes of the axes in the products of the first two and of the last two of three operands. *)
Definition left_code (s : nat + nat) : char := match s with inl k => code 0 k | inr k => code 1 k end.
Definition right_code (s : nat + nat) : char := match s with inl k => code 1 k | inr k => code 2 k end.

(** [b] is contracted with [a] along its axes [ra] and with [c] along its other axes [lb]: it does not matter which of
    the two comes first. [lb'] are the axes of the product of [a] and [b] that come from the axes [lb] of [b], and
    [ra'] those of the product of [b] and [c] that come from the axes [ra] of [b]. *)
Theorem tensordot_associates :
  forall (A : Type) (Sc : Scalar A), semiring A ->
  forall lay (a b c ab bc : arr A) la ra lb rc lb' ra', backend_ok lay -> wf a -> wf b -> wf c ->
    axes_fit a b la ra -> axes_fit b c lb rc -> (forall k, In k ra -> ~ In k lb) ->
    tensordot lay a b la ra = Ok ab -> tensordot lay b c lb rc = Ok bc ->
    come_from (origins (length (a_shape a)) (length (a_shape b)) la ra) lb' (map inr lb) ->
    come_from (origins (length (a_shape b)) (length (a_shape c)) lb rc) ra' (map inl ra) ->
    exists r r', tensordot lay ab c lb' rc = Ok r /\ tensordot lay a bc la ra' = Ok r' /\ same_array r r'.
Proof.
  intros A Sc SR lay a b c ab bc la ra lb rc lb' ra' Hl Wa Wb Wc (Hn & Ha & Hb & He) (Hn2 & Hb2 & Hc & He2) Dis Eab Ebc Clb Cra.
  set (sa := a_shape a) in *. set (sb := a_shape b) in *. set (sc := a_shape c) in *. set (size := code_size sa sb sc).
  set (u := labels 0 (length sa) la ra). set (v := map (code 1) (seq 0 (length sb))). set (w := labels 2 (length sc) rc lb).
  assert (Lu : length u = length sa) by apply labels_length.
  assert (Lv : length v = length sb) by (unfold v; rewrite map_length, seq_length; auto).
  assert (Lw : length w = length sc) by apply labels_length.
  assert (Nra : NoDup ra) by apply Hb. assert (Nlb : NoDup lb) by apply Hb2.
  assert (Vx : forall axes, Forall (fun k => k < length sb) axes -> axis_labels v axes = map (code 1) axes).
  { intros axes Hx. unfold axis_labels. apply map_ext_in. intros k Hk. rewrite Forall_forall in Hx. unfold v.
    rewrite nth_indep with (d' := code 1 0) by (rewrite map_length, seq_length; auto). rewrite map_nth, seq_nth; auto. }
  assert (Ula : axis_labels u la = map (code 1) ra) by (apply labels_axes; auto).
  assert (Wrc : axis_labels w rc = map (code 1) lb) by (apply labels_axes; auto).
  assert (Vra : axis_labels v ra = map (code 1) ra) by (apply Vx; apply Hb).
  assert (Vlb : axis_labels v lb = map (code 1) lb) by (apply Vx; apply Hb2).
  assert (Sa : sa = map size u).
  { apply (labels_shape 0 size sa sb); auto; intros k; [apply size_code_0|apply size_code_1]. }
  assert (Sb : sb = map size v).
  { unfold v. rewrite map_map. rewrite <- (map_nth_seq sb 0) at 1. apply map_ext. intros k. symmetry. apply size_code_1. }
  assert (Sc' : sc = map size w).
  { apply (labels_shape 2 size sc sb); auto; intros k; [apply size_code_2|apply size_code_1]. }
  assert (Nu : NoDup u) by (apply labels_NoDup; auto).
  assert (Nv : NoDup v) by (apply NoDup_code; auto; apply seq_NoDup).
  assert (Nw : NoDup w) by (apply labels_NoDup; auto).
  set (fa := free_axes (length sa) la) in *. set (fb := free_axes (length sb) ra) in *.
  set (gb := free_axes (length sb) lb) in *. set (gc := free_axes (length sc) rc) in *.
  assert (Ufa : axis_labels u fa = map (code 0) fa) by apply labels_free.
  assert (Wgc : axis_labels w gc = map (code 2) gc) by apply labels_free.
  assert (Vfb : axis_labels v fb = map (code 1) fb) by (apply Vx, free_axes_bound).
  assert (Vgb : axis_labels v gb = map (code 1) gb) by (apply Vx, free_axes_bound).
  assert (Nf : forall n l, NoDup (free_axes n l)) by (intros; apply NoDup_filter, seq_NoDup).
  assert (NA : forall t t' l m, t < 3 -> t' < 3 -> t <> t' -> NoDup l -> NoDup m -> NoDup (map (code t) l ++ map (code t') m)).
  { intros t t' l m Ht Ht' Hne Hl0 Hm0. apply NoDup_app_intro; try apply NoDup_code; auto.
    intros x H1 H2. apply In_code in H1 as (k & _ & ->). apply In_code in H2 as (k' & _ & H2). apply code_inj in H2; lia. }
  set (out1 := map (code 0) fa ++ map (code 1) fb). set (out2 := map (code 1) gb ++ map (code 2) gc).
  assert (N1 : NoDup out1) by (apply NA; auto; apply Nf). assert (N2 : NoDup out2) by (apply NA; auto; apply Nf).
  assert (O1 : out1 = map left_code (origins (length sa) (length sb) la ra)).
  { unfold origins, out1. rewrite map_app, !map_map. reflexivity. }
  assert (O2 : out2 = map right_code (origins (length sb) (length sc) lb rc)).
  { unfold origins, out2. rewrite map_app, !map_map. reflexivity. }
  assert (Alb : axis_labels out1 lb' = map (code 1) lb) by (rewrite O1, (come_from_labels _ _ _ left_code Clb), map_map; auto).
  assert (Ara : axis_labels out2 ra' = map (code 1) ra) by (rewrite O2, (come_from_labels _ _ _ right_code Cra), map_map; auto).
  assert (Klb : axes_ok (length out1) lb').
  { split; [eapply come_from_NoDup; [exact Clb|]; apply FinFun.Injective_map_NoDup; auto; intros x y E; congruence|].
    rewrite O1, map_length. eapply come_from_bound; eauto. }
  assert (Kra : axes_ok (length out2) ra').
  { split; [eapply come_from_NoDup; [exact Cra|]; apply FinFun.Injective_map_NoDup; auto; intros x y E; congruence|].
    rewrite O2, map_length. eapply come_from_bound; eauto. }
  (* the two products *)
  destruct (dot_as_einsum SR lay a b u v la ra size) as (x & Ex & Hab); auto; try (rewrite ?Lu, ?Lv; auto; congruence).
  { rewrite Lu, Lv. fold fa fb. rewrite Ufa, Vfb. auto. }
  rewrite Lu, Lv in Hab. fold fa fb in Hab. rewrite Ufa, Vfb in Hab. fold out1 in Hab.
  assert (x = ab) by congruence. subst x.
  destruct (dot_as_einsum SR lay b c v w lb rc size) as (x & Ex' & Hbc); auto; try (rewrite ?Lv, ?Lw; auto; congruence).
  { rewrite Lv, Lw. fold gb gc. rewrite Vgb, Wgc. auto. }
  rewrite Lv, Lw in Hbc. fold gb gc in Hbc. rewrite Vgb, Wgc in Hbc. fold out2 in Hbc.
  assert (x = bc) by congruence. subst x.
  (* what is left in the end *)
  set (mid := filter (fun k => negb (existsb (Nat.eqb k) lb)) fb).
  set (out := map (code 0) fa ++ map (code 1) mid ++ map (code 2) gc).
  assert (OL : axis_labels out1 (free_axes (length out1) lb') ++ axis_labels w (free_axes (length w) rc) = out).
  { rewrite (free_labels out1 lb') by (auto; apply Klb). rewrite Alb, Lw. fold gc. rewrite Wgc. unfold out1. rewrite filter_app.
    rewrite filter_code_1, filter_code_other by lia. unfold out, mid. rewrite <- app_assoc. auto. }
  assert (OR : axis_labels u (free_axes (length u) la) ++ axis_labels out2 (free_axes (length out2) ra') = out).
  { rewrite (free_labels out2 ra') by (auto; apply Kra). rewrite Ara, Lu. fold fa. rewrite Ufa. unfold out2. rewrite filter_app.
    rewrite filter_code_1, filter_code_other by lia. unfold out, mid, gb, fb, free_axes. do 3 f_equal.
    rewrite !filter_twice. apply filter_ext. intros k. apply andb_comm. }
  assert (Mid : forall k, In k mid <-> In k fb /\ ~ In k lb).
  { intros k. unfold mid. rewrite filter_In, negb_true_iff, <- not_true_iff_false, existsb_axes. tauto. }
  assert (No : NoDup out).
  { unfold out. apply NoDup_app_intro; [apply NoDup_code; auto; apply Nf|apply NA; auto; try apply Nf; apply NoDup_filter, Nf|].
    intros y H1 H2. apply In_code in H1 as (k & _ & ->).
    apply in_app_or in H2 as [H2|H2]; apply In_code in H2 as (k' & _ & H2); apply code_inj in H2; lia. }
  (* where labels occur *)
  assert (Iu : forall y, In y u <-> In y (map (code 0) fa) \/ In y (map (code 1) ra)) by (intros y; apply labels_In; auto).
  assert (Iw : forall y, In y w <-> In y (map (code 2) gc) \/ In y (map (code 1) lb)) by (intros y; apply labels_In; auto).
  assert (Ifb : forall k, In k fb <-> k < length sb /\ ~ In k ra) by (intros k; apply free_axes_In).
  assert (Igb : forall k, In k gb <-> k < length sb /\ ~ In k lb) by (intros k; apply free_axes_In).
  assert (Bra : forall k, In k ra -> k < length sb) by (apply Forall_forall, Hb).
  assert (Blb : forall k, In k lb -> k < length sb) by (apply Forall_forall, Hb2).
  assert (C0 : forall l k, In (code 0 k) (map (code 0) l) <-> In k l)
    by (intros l k; rewrite In_code; split; [intros (k' & H & E); apply code_inj in E as [_ ->]; auto|eauto]).
  assert (C1 : forall l k, In (code 1 k) (map (code 1) l) <-> In k l)
    by (intros l k; rewrite In_code; split; [intros (k' & H & E); apply code_inj in E as [_ ->]; auto|eauto]).
  assert (C2 : forall l k, In (code 2 k) (map (code 2) l) <-> In k l)
    by (intros l k; rewrite In_code; split; [intros (k' & H & E); apply code_inj in E as [_ ->]; auto|eauto]).
  assert (CX : forall t t' l k, t < 3 -> t' < 3 -> t <> t' -> (In (code t k) (map (code t') l) <-> False))
    by (intros t t' l k H1 H2 H3; rewrite In_code; split; [intros (k' & _ & E); apply code_inj in E; lia|tauto]).
  assert (Cases : forall y, In y (concat [u; v; w]) \/ In y out \/ In y out1 \/ In y out2 -> exists t k, t < 3 /\ y = code t k).
  { intros y H. unfold out, out1, out2 in H. cbn [concat] in H. rewrite !in_app_iff, Iu, Iw in H. unfold v in H. rewrite !In_code in H.
    cbn [In] in H. clear - H.
    repeat match type of H with _ \/ _ => destruct H as [H|H] end; try contradiction;
      destruct H as (k & _ & ->); (eexists _, k; split; [|reflexivity]; lia). }
  assert (K1 : kept [u; v] [w] out out1).
  { split; auto. intros y. cbn [concat]. rewrite !app_nil_r. split.
    - intros H. destruct (Cases y) as (t & k & Ht & ->); auto. unfold out1 in H. unfold out, v. rewrite !in_app_iff, Iu, Iw in *.
      destruct t as [|[|[|t]]]; [| | |lia]; rewrite ?C0, ?C1, ?C2, ?Mid, ?Ifb, ?in_seq, ?(CX 0), ?(CX 1), ?(CX 2) in * by lia;
        destruct (in_dec Nat.eq_dec k lb); intuition lia.
    - intros [H H']. destruct (Cases y) as (t & k & Ht & ->); [left; cbn [concat]; rewrite !in_app_iff in *; tauto|].
      unfold out1. unfold out, v in *. rewrite !in_app_iff, Iu, Iw in *.
      destruct t as [|[|[|t]]]; [| | |lia]; rewrite ?C0, ?C1, ?C2, ?Mid, ?Ifb, ?in_seq, ?(CX 0), ?(CX 1), ?(CX 2) in * by lia;
        intuition (try lia; eauto). }
  assert (K2 : kept [v; w] [u] out out2).
  { split; auto. intros y. cbn [concat]. rewrite !app_nil_r. split.
    - intros H. destruct (Cases y) as (t & k & Ht & ->); auto. unfold out2 in H. unfold out, v. rewrite !in_app_iff, Iu, Iw in *.
      destruct t as [|[|[|t]]]; [| | |lia]; rewrite ?C0, ?C1, ?C2, ?Mid, ?Ifb, ?Igb, ?in_seq, ?(CX 0), ?(CX 1), ?(CX 2) in * by lia;
        destruct (in_dec Nat.eq_dec k ra); intuition lia.
    - intros [H H']. destruct (Cases y) as (t & k & Ht & ->); [left; cbn [concat]; rewrite !in_app_iff in *; tauto|].
      unfold out2. unfold out, v in *. rewrite !in_app_iff, Iu, Iw in *.
      destruct t as [|[|[|t]]]; [| | |lia]; rewrite ?C0, ?C1, ?C2, ?Mid, ?Ifb, ?Igb, ?in_seq, ?(CX 0), ?(CX 1), ?(CX 2) in * by lia;
        intuition (try lia; eauto). }
  (* the two ways *)
  destruct (dot_as_einsum SR lay ab c out1 w lb' rc size) as (r & Er & Hr); auto; try (rewrite ?Lw; auto; congruence).
  { eapply holds_wf; eauto. }
  { apply Hab. }
  rewrite OL in Hr.
  destruct (dot_as_einsum SR lay a bc u out2 la ra' size) as (r' & Er' & Hr'); auto; try (rewrite ?Lu; auto; congruence).
  { eapply holds_wf; eauto. }
  { apply Hbc. }
  rewrite OR in Hr'.
  exists r, r'. split; auto. split; auto.
  apply same_array_holds with (1 := Hr). eapply ArrayFacts.holds_ext; [|exact Hr']. intros o Ho.
  rewrite (staged_value SR size [a; b] [c] ab [u; v] [w] out out1 o K1 No eq_refl Ho Hab).
  pose proof (einsum_value_perm SR size [(a, u); (bc, out2)] [(bc, out2); (a, u)] out o (perm_swap _ _ _)) as P1. cbn [map fst snd] in P1.
  rewrite P1, (staged_value SR size [b; c] [a] bc [v; w] [u] out out2 o K2 No eq_refl Ho Hbc).
  apply (einsum_value_perm SR size [(b, v); (c, w); (a, u)] [(a, u); (b, v); (c, w)]).
  apply (Permutation_app_comm [(b, v); (c, w)] [(a, u)]).
Qed.
Print Assumptions tensordot_associates.

(** A 2x2 matrix, a 2x2x3 array and a vector: the second axis of the array is contracted with the matrix, the third with
    the vector. *)
Example associates_case :
  let a := zarr [2; 2] [1; 2; 3; 4]%Z in
  let b := zarr [2; 2; 3] [1; 0; 2; -1; 3; 1; 0; 0; 1; 4; 5; -2]%Z in
  let c := zarr [3] [2; 1; -1]%Z in
  axes_fit a b [1] [1] /\ axes_fit b c [2] [0]
  /\ come_from (origins 2 3 [1] [1]) [2] (map inr [2]) /\ come_from (origins 3 1 [2] [0]) [1] (map inl [1])
  /\ (do ab <- tensordot c_backend a b [1] [1]; do r <- tensordot c_backend ab c [2] [0]; a_iter r) = Ok [0; 29; 0; 57]%Z
  /\ (do bc <- tensordot c_backend b c [2] [0]; do r <- tensordot c_backend a bc [1] [1]; a_iter r) = Ok [0; 29; 0; 57]%Z.
Proof.
  cbv zeta. split; [split; [reflexivity|split; [axes_tac|split; [axes_tac|reflexivity]]]|].
  split; [split; [reflexivity|split; [axes_tac|split; [axes_tac|reflexivity]]]|].
  split; [reflexivity|]. split; [reflexivity|]. split; vm_compute; reflexivity.
Qed.
