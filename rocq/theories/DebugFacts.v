(** The text of a legible tree determines the tree. *)
From Verif Require Import Base BaseFacts Validation Serde DebugSpec.
From Coq Require Import Lia.
From Coq Require DecimalString DecimalFacts DecimalNat.
Local Open Scope list_scope.

(** ** Induction over trees *)

Section Induction.
Variable P : tree -> Prop.
Hypothesis Hnum : forall n, P (TNum n).
Hypothesis Hchar : forall c, P (TChar c).
Hypothesis Hstr : forall s, P (TStr s).
Hypothesis Hnode : forall name parts, Forall (fun p => P (snd p)) parts -> P (TNode name parts).
Hypothesis Hwrap : forall name t, P t -> P (TWrap name t).
Hypothesis Hseq : forall l, Forall P l -> P (TSeq l).
Hypothesis Hmap : forall l, Forall (fun p => P (fst p) /\ P (snd p)) l -> P (TMap l).
Fixpoint tree_induction (t : tree) : P t :=
  match t with
  | TNum n => Hnum n
  | TChar c => Hchar c
  | TStr s => Hstr s
  | TNode name parts =>
      Hnode name parts ((fix go l : Forall (fun p => P (snd p)) l :=
        match l with [] => Forall_nil _ | p :: l' => Forall_cons p (tree_induction (snd p)) (go l') end) parts)
  | TWrap name t => Hwrap name t (tree_induction t)
  | TSeq l =>
      Hseq l ((fix go l : Forall P l :=
        match l with [] => Forall_nil _ | t :: l' => Forall_cons t (tree_induction t) (go l') end) l)
  | TMap l =>
      Hmap l ((fix go l : Forall (fun p => P (fst p) /\ P (snd p)) l :=
        match l with
        | [] => Forall_nil _
        | p :: l' => Forall_cons p (conj (tree_induction (fst p)) (tree_induction (snd p))) (go l')
        end) l)
  end.
End Induction.

(** ** Runs of characters *)

(** The longest prefix of characters of a kind ends where it has to. *)
Definition stops (f : char -> bool) (r : list char) : Prop := match r with [] => True | c :: _ => f c = false end.

Lemma run_unique f a : forall b r1 r2, forallb f a = true -> forallb f b = true -> stops f r1 -> stops f r2 ->
  a ++ r1 = b ++ r2 -> a = b /\ r1 = r2.
Proof.
  induction a as [|x a IH]; intros [|y b] r1 r2 Ha Hb H1 H2 E; cbn [app] in E; auto.
  - subst r1. cbn in H1, Hb. rewrite H1 in Hb. discriminate.
  - subst r2. cbn in H2, Ha. rewrite H2 in Ha. discriminate.
  - injection E as -> E. cbn in Ha, Hb. apply andb_prop in Ha as [_ Ha]. apply andb_prop in Hb as [_ Hb].
    destruct (IH b r1 r2 Ha Hb H1 H2 E) as [-> ->]. auto.
Qed.

(** What may follow a value: the end, one of [,])}:] or a blank and a closing brace. *)
Definition ends (r : list char) : Prop :=
  match r with
  | [] => True
  | c :: r' => c = 44%N \/ c = 93%N \/ c = 41%N \/ c = 125%N \/ c = 58%N
               \/ (c = 32%N /\ exists r'', r' = 125%N :: r'')
  end.
Definition no_comma (r : list char) : Prop := match r with [] => True | c :: _ => c <> 44%N end.

Lemma ends_letter r : ends r -> stops letter r.
Proof.
  destruct r as [|c r]; cbn; auto.
  intros [->|[->|[->|[->|[->|[-> _]]]]]]; reflexivity.
Qed.

(** ** Numbers *)

Definition digit (c : char) : bool := N.leb 48 c && N.leb c 57.
Lemma ends_digit r : ends r -> stops digit r.
Proof. destruct r as [|c r]; cbn; auto. intros [->|[->|[->|[->|[->|[-> _]]]]]]; reflexivity. Qed.

Lemma uint_digits u : forallb digit (chars (DecimalString.NilEmpty.string_of_uint u)) = true.
Proof. induction u; simpl; auto. Qed.
Lemma decimal_digits n : forallb digit (decimal n) = true.
Proof.
  unfold decimal, DecimalString.NilZero.string_of_uint. destruct (Nat.to_uint n) eqn:E; [reflexivity|..]; apply uint_digits.
Qed.
Lemma uint_first u : u <> Decimal.Nil -> exists c s, chars (DecimalString.NilEmpty.string_of_uint u) = c :: s.
Proof. destruct u; intros H; try congruence; cbn; eauto. Qed.
Lemma decimal_first n : exists c s, decimal n = c :: s /\ digit c = true.
Proof.
  pose proof (decimal_digits n) as H. unfold decimal, DecimalString.NilZero.string_of_uint in *.
  destruct (Nat.to_uint n) eqn:E; [exists 48%N, []; split; reflexivity|..];
    match goal with |- context [DecimalString.NilEmpty.string_of_uint ?u] =>
      destruct (uint_first u) as (c & s & E1); [discriminate|]; rewrite E1 in *; exists c, s end;
    cbn in H; apply andb_prop in H as [H _]; auto.
Qed.

Lemma chars_inj a : forall b, chars a = chars b -> a = b.
Proof.
  unfold chars. induction a as [|x a IH]; intros [|y b] E; cbn in E; try discriminate; auto.
  injection E as E1 E. rewrite (IH b E). f_equal.
  apply (f_equal Ascii.ascii_of_N) in E1. rewrite !Ascii.ascii_N_embedding in E1. auto.
Qed.
Lemma to_uint_nonnil n : Nat.to_uint n <> Decimal.Nil.
Proof.
  rewrite <- (DecimalNat.Unsigned.of_to n) at 1. rewrite DecimalNat.Unsigned.to_of. apply DecimalFacts.unorm_nonnil.
Qed.
Lemma decimal_inj n m : decimal n = decimal m -> n = m.
Proof.
  unfold decimal. intros E. apply chars_inj in E.
  apply (f_equal DecimalString.NilZero.uint_of_string) in E.
  rewrite !DecimalString.NilZero.usu in E by apply to_uint_nonnil. injection E as E.
  apply DecimalNat.Unsigned.to_uint_inj. auto.
Qed.

(** ** Lists *)

(** What may follow a list. *)
Definition closes (r : list char) : Prop :=
  ends r /\ exists c r', r = c :: r' /\ (c = 93%N \/ c = 125%N \/ c = 32%N).
Definition opens_item (s : list char) : Prop := exists c s', s = c :: s' /\ c <> 93%N /\ c <> 125%N /\ c <> 32%N.

Definition tail_of (l : list (list char)) : list char :=
  match l with [] => [] | _ => [44; 32]%N ++ separated l end.
Lemma separated_cons x l : separated (x :: l) = x ++ tail_of l.
Proof. destruct l; cbn [separated tail_of]; auto. rewrite app_nil_r. auto. Qed.
Lemma tail_ends l r : closes r -> ends (tail_of l ++ r).
Proof. intros [H _]. destruct l; auto. cbn. auto. Qed.

Lemma separated_unique {T} (f : T -> list char) (ok : T -> Prop) l1 :
  (forall x, ok x -> opens_item (f x)) ->
  Forall (fun x => forall y r1 r2, ok x -> ok y -> ends r1 -> ends r2 -> f x ++ r1 = f y ++ r2 -> x = y /\ r1 = r2) l1 ->
  forall l2 r1 r2, Forall ok l1 -> Forall ok l2 -> closes r1 -> closes r2 ->
  separated (map f l1) ++ r1 = separated (map f l2) ++ r2 -> l1 = l2 /\ r1 = r2.
Proof.
  intros Hs. induction l1 as [|x l1 IH]; intros Hu [|y l2] r1 r2 H1 H2 C1 C2 E.
  - auto.
  - exfalso. inversion H2; subst. destruct (Hs y) as (c & s & Ey & Hc); auto.
    cbn [map] in E. rewrite separated_cons, Ey in E. destruct C1 as (_ & d & r' & -> & Hd). cbn in E.
    injection E as -> _. intuition congruence.
  - exfalso. inversion H1; subst. destruct (Hs x) as (c & s & Ex & Hc); auto.
    cbn [map] in E. rewrite separated_cons, Ex in E. destruct C2 as (_ & d & r' & -> & Hd). cbn in E.
    injection E as -> _. intuition congruence.
  - inversion Hu as [|? ? Hx Hu']; subst. inversion H1; subst. inversion H2; subst. cbn [map] in E.
    rewrite !separated_cons, <- !app_assoc in E.
    apply Hx in E as [-> E]; auto using tail_ends.
    assert (Hsep : forall l (r r' : list char), closes r -> tail_of (map f l) ++ r' = r -> l = []).
    { intros l r r' (_ & d & q & -> & Hd) Et. destruct l; auto. exfalso. cbn in Et. injection Et as <- _.
      intuition congruence. }
    destruct l1 as [|x' l1], l2 as [|y' l2].
    + auto.
    + exfalso. cbn [map tail_of app] in E. symmetry in E. apply (Hsep (y' :: l2)) in E; auto. discriminate.
    + exfalso. apply (Hsep (x' :: l1)) in E; auto. discriminate.
    + cbn [map tail_of] in E. rewrite <- !app_assoc in E. apply app_inv_head in E.
      destruct (IH Hu' (y' :: l2) r1 r2) as [E1 E2]; auto. rewrite E1. auto.
Qed.

(** ** Trees *)

Definition kind (c : char) : nat :=
  if digit c then 0 else if capital c then 1 else if N.eqb c 39 then 2 else if N.eqb c 34 then 3
  else if N.eqb c 91 then 4 else if N.eqb c 123 then 5 else 6.
Definition tree_kind (t : tree) : nat :=
  match t with
  | TNum _ => 0 | TNode _ _ | TWrap _ _ => 1 | TChar _ => 2 | TStr _ => 3 | TSeq _ => 4 | TMap _ => 5
  end.

Lemma capital_kind c : capital c = true -> kind c = 1.
Proof.
  intros H. unfold kind. assert (digit c = false) as ->; [|rewrite H; auto].
  unfold capital, digit in *. apply andb_prop in H as [H1 H2]. apply N.leb_le in H1, H2.
  rewrite (proj2 (N.leb_gt c 57)) by lia. apply andb_false_r.
Qed.

Lemma show_kind t : legible t = true -> exists c s, show t = c :: s /\ kind c = tree_kind t.
Proof.
  assert (Hn : forall name, type_name name = true -> exists c s, name = c :: s /\ kind c = 1).
  { intros [|c s] H; [discriminate|]. cbn in H. apply andb_prop in H as [H _]. eauto using capital_kind. }
  destruct t as [n|c|s|name parts|name t|l|l]; cbn [legible show tree_kind]; intros H; eauto.
  - destruct (decimal_first n) as (c & s & -> & Hd). exists c, s. unfold kind. rewrite Hd. auto.
  - apply andb_prop in H as [H _]. destruct (Hn name H) as (c & s & -> & Hk).
    destruct parts; cbn [app]; eauto.
  - apply andb_prop in H as [H _]. destruct (Hn name H) as (c & s & -> & Hk). cbn [app]. eauto.
Qed.

Lemma show_opens t : legible t = true -> opens_item (show t).
Proof.
  intros H. destruct (show_kind t H) as (c & s & E & Hk). exists c, s. split; auto.
  assert (Hne : tree_kind t <> 6) by (destruct t; discriminate).
  split; [|split]; intros ->; cbn in Hk; congruence.
Qed.

Lemma type_letters s : type_name s = true -> forallb letter s = true.
Proof.
  destruct s as [|c s]; cbn; [discriminate|]. intros H. apply andb_prop in H as [H1 H2]. rewrite H2.
  unfold capital in H1. unfold letter. rewrite H1. rewrite !orb_true_r. auto.
Qed.

Definition part (p : list char * tree) : list char := fst p ++ [58; 32]%N ++ show (snd p).
Definition entry (p : tree * tree) : list char := show (fst p) ++ [58; 32]%N ++ show (snd p).
Definition part_ok (p : list char * tree) : Prop := forallb letter (fst p) = true /\ legible (snd p) = true.
Definition entry_ok (p : tree * tree) : Prop := legible (fst p) = true /\ legible (snd p) = true.

Lemma part_opens p : part_ok p -> opens_item (part p).
Proof.
  intros [H _]. unfold part. destruct p as [[|c name] t]; cbn [fst snd] in *.
  - exists 58%N. eexists. split; [reflexivity|]. repeat split; discriminate.
  - cbn in H. apply andb_prop in H as [H _]. exists c. eexists. split; [reflexivity|].
    split; [|split]; intros ->; discriminate.
Qed.
Lemma entry_opens p : entry_ok p -> opens_item (entry p).
Proof.
  intros [H _]. destruct (show_opens _ H) as (c & s & E & Hc). unfold entry. rewrite E. cbn [app]. eexists. eauto.
Qed.

Lemma parts_ok parts : forallb (fun p => forallb letter (fst p) && legible (snd p)) parts = true -> Forall part_ok parts.
Proof. intros H. apply Forall_forall. intros p Hp. rewrite forallb_forall in H. apply andb_prop. apply (H p Hp). Qed.
Lemma entries_ok l : forallb (fun p => legible (fst p) && legible (snd p)) l = true -> Forall entry_ok l.
Proof. intros H. apply Forall_forall. intros p Hp. rewrite forallb_forall in H. apply andb_prop. apply (H p Hp). Qed.
Lemma all_legible l : forallb legible l = true -> Forall (fun t => legible t = true) l.
Proof. intros H. apply Forall_forall. rewrite forallb_forall in H. auto. Qed.

Lemma closes_char c r : c = 93%N \/ c = 125%N -> closes (c :: r).
Proof. intros H. split; [cbn; intuition|]. exists c, r. intuition. Qed.
Lemma closes_blank r : closes ([32; 125]%N ++ r).
Proof. split; [|exists 32%N; eexists; split; [reflexivity|auto]]. cbn. do 5 right. eauto. Qed.

Lemma show_parts name p parts :
  show (TNode name (p :: parts)) = name ++ [32; 123; 32]%N ++ separated (map part (p :: parts)) ++ [32; 125]%N.
Proof. reflexivity. Qed.
Lemma show_map l : show (TMap l) = 123%N :: separated (map entry l) ++ [125%N].
Proof. reflexivity. Qed.

Definition unique (t : tree) : Prop :=
  forall t' r1 r2, legible t = true -> legible t' = true -> ends r1 -> ends r2 ->
    show t ++ r1 = show t' ++ r2 -> t = t' /\ r1 = r2.

Lemma same_kind t t' (r1 r2 : list char) : legible t = true -> legible t' = true -> show t ++ r1 = show t' ++ r2 ->
  tree_kind t = tree_kind t'.
Proof.
  intros H H' E. destruct (show_kind t H) as (c & s & E1 & <-). destruct (show_kind t' H') as (c' & s' & E2 & <-).
  rewrite E1, E2 in E. cbn in E. congruence.
Qed.

(** What follows the name of a node. *)
Definition after_name (t : tree) : list char :=
  match t with
  | TNode _ (p :: parts) => [32; 123; 32]%N ++ separated (map part (p :: parts)) ++ [32; 125]%N
  | TWrap _ t => 40%N :: show t ++ [41%N]
  | _ => []
  end.
Definition name_of (t : tree) : list char := match t with TNode n _ | TWrap n _ => n | _ => [] end.
Lemma show_name t : tree_kind t = 1 -> show t = name_of t ++ after_name t.
Proof. destruct t as [| | |name [|p parts]| | |]; try discriminate; intros _; cbn [name_of after_name]; auto.
  cbn. rewrite app_nil_r. auto. Qed.
Lemma after_stops t r : tree_kind t = 1 -> ends r -> stops letter (after_name t ++ r).
Proof.
  destruct t as [| | |name [|p parts]| | |]; try discriminate; intros _ Hr; cbn [after_name]; [|reflexivity..].
  apply ends_letter. auto.
Qed.
Lemma name_letters t : tree_kind t = 1 -> legible t = true -> forallb letter (name_of t) = true.
Proof.
  destruct t; try discriminate; intros _ H; cbn in H; apply andb_prop in H as [H _]; apply type_letters; auto.
Qed.

Lemma names_unique t t' r1 r2 : tree_kind t = 1 -> tree_kind t' = 1 -> legible t = true -> legible t' = true ->
  ends r1 -> ends r2 -> show t ++ r1 = show t' ++ r2 ->
  name_of t = name_of t' /\ after_name t ++ r1 = after_name t' ++ r2.
Proof.
  intros K K' H H' R1 R2 E. rewrite (show_name t), (show_name t') in E by auto. rewrite <- !app_assoc in E.
  apply (run_unique letter) in E; auto using name_letters, after_stops.
Qed.

Lemma ends_not c r : ends (c :: r) -> c <> 32%N -> c <> 40%N.
Proof. cbn. intuition congruence. Qed.

Lemma show_unique t : unique t.
Proof.
  induction t as [n|c|s|name parts IH|name t IH|l IH|l IH] using tree_induction;
    intros t' r1 r2 H H' R1 R2 E; pose proof (same_kind _ _ _ _ H H' E) as K.
  - destruct t' as [m| | | | | |]; try discriminate. cbn [show] in E.
    apply (run_unique digit) in E as [E ->]; auto using decimal_digits, ends_digit. apply decimal_inj in E. subst. auto.
  - destruct t'; try discriminate. cbn in E. injection E as -> ->. auto.
  - destruct t' as [| |s'| | | |]; try discriminate. cbn [show] in E. injection E as E. rewrite <- !app_assoc in E.
    apply (run_unique (fun c => negb (N.eqb c 34))) in E as [-> E]; auto; try reflexivity.
    injection E as ->. auto.
  - destruct (names_unique _ _ r1 r2 (eq_refl : tree_kind (TNode name parts) = 1) (eq_sym K) H H' R1 R2 E) as [En Ea].
    destruct t' as [| | |name' parts'|name' t'| |]; try discriminate; cbn [name_of] in En; subst name'.
    + cbn [legible] in H, H'. apply andb_prop in H as [_ H]. apply andb_prop in H' as [_ H'].
      apply parts_ok in H, H'.
      destruct parts as [|p parts], parts' as [|p' parts']; cbn [after_name] in Ea; [cbn [app] in Ea..|].
      * subst. auto.
      * subst r1. cbn in R1. exfalso.
        destruct R1 as [R|[R|[R|[R|[R|[_ (q & R)]]]]]]; discriminate.
      * subst r2. cbn in R2. exfalso.
        destruct R2 as [R|[R|[R|[R|[R|[_ (q & R)]]]]]]; discriminate.
      * rewrite <- !app_assoc in Ea. apply app_inv_head in Ea.
        apply (separated_unique part part_ok) in Ea as [-> Ea]; auto using closes_blank, part_opens.
        -- injection Ea as ->. auto.
        -- eapply Forall_impl; [|exact IH]. intros [n v] Hu [n' v'] q1 q2 [A1 A2] [B1 B2] Q1 Q2 Eq.
           unfold part in Eq. cbn [fst snd] in *. rewrite <- !app_assoc in Eq.
           apply (run_unique letter) in Eq as [-> Eq]; auto; try reflexivity. injection Eq as Eq.
           apply Hu in Eq as [-> ->]; auto.
    + destruct parts as [|p parts]; cbn [after_name app] in Ea.
      * subst r1. exfalso. cbn in R1. intuition congruence.
      * discriminate.
  - destruct (names_unique _ _ r1 r2 (eq_refl : tree_kind (TWrap name t) = 1) (eq_sym K) H H' R1 R2 E) as [En Ea].
    destruct t' as [| | |name' parts'|name' t'| |]; try discriminate; cbn [name_of] in En; subst name'.
    + destruct parts' as [|p parts']; cbn [after_name app] in Ea.
      * subst r2. exfalso. cbn in R2. intuition congruence.
      * discriminate.
    + cbn [after_name app] in Ea. injection Ea as Ea. rewrite <- !app_assoc in Ea.
      cbn [legible] in H, H'. apply andb_prop in H as [_ H]. apply andb_prop in H' as [_ H'].
      apply IH in Ea as [-> Ea]; auto; try (cbn; intuition; fail). injection Ea as ->. auto.
  - destruct t' as [| | | | |l'|]; try discriminate. cbn [show legible] in *. apply all_legible in H, H'.
    cbn [app] in E. injection E as E. rewrite <- !app_assoc in E.
    apply (separated_unique show (fun t => legible t = true)) in E as [-> E];
      auto using show_opens; try (apply closes_char; auto; fail).
    injection E as ->. auto.
  - destruct t' as [| | | | | |l']; try discriminate. rewrite !show_map in E. cbn [legible] in *. apply entries_ok in H, H'.
    cbn [app] in E. injection E as E. rewrite <- !app_assoc in E.
    apply (separated_unique entry entry_ok) in E as [-> E]; auto using entry_opens;
      try (apply closes_char; auto; fail).
    + injection E as ->. auto.
    + eapply Forall_impl; [|exact IH]. intros [a b] [Ua Ub] [a' b'] q1 q2 [A1 A2] [B1 B2] Q1 Q2 Eq.
      unfold entry in Eq. cbn [fst snd] in *. rewrite <- !app_assoc in Eq.
      apply Ua in Eq as [-> Eq]; auto; try (cbn; intuition; fail). injection Eq as Eq.
      apply Ub in Eq as [-> ->]; auto.
Qed.

Lemma show_inj t t' : legible t = true -> legible t' = true -> show t = show t' -> t = t'.
Proof.
  intros H H' E. destruct (show_unique t t' [] [] H H') as [-> _]; cbn; auto. rewrite !app_nil_r. auto.
Qed.

(** A known number of parts may be followed by another comma. *)
Lemma parts_unique l1 : forall l2 r1 r2, length l1 = length l2 -> Forall part_ok l1 -> Forall part_ok l2 ->
  ends r1 -> ends r2 -> separated (map part l1) ++ r1 = separated (map part l2) ++ r2 -> l1 = l2 /\ r1 = r2.
Proof.
  induction l1 as [|[n v] l1 IH]; intros [|[n' v'] l2] r1 r2 Hl H1 H2 R1 R2 E; try discriminate; auto.
  inversion H1 as [|? ? [A1 A2] H1']; subst. inversion H2 as [|? ? [B1 B2] H2']; subst. cbn [fst snd] in *.
  cbn [map] in E. rewrite !separated_cons in E. unfold part at 1 3 in E. cbn [fst snd] in E. rewrite <- !app_assoc in E.
  apply (run_unique letter) in E as [-> E]; auto; try reflexivity. apply app_inv_head in E.
  assert (T : forall (l : list (list char * tree)) r, ends r -> ends (tail_of (map part l) ++ r)).
  { intros [|p l] r Hr; auto. cbn. auto. }
  apply show_unique in E as [-> E]; auto.
  destruct l1 as [|x l1], l2 as [|y l2]; try discriminate; auto.
  cbn [map tail_of] in E. rewrite <- !app_assoc in E. apply app_inv_head in E.
  cbn [length] in Hl. destruct (IH (y :: l2) r1 r2) as [-> ->]; auto.
Qed.
