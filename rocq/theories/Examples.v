(** Concrete scalars, arrays and oracles, used by the examples beside the theorems. *)
From Verif Require Import Base NDArray Validation Path Api Spec BaseFacts ParserFacts ValidationFacts ValidationMain SumFacts.
From Coq Require Import Lia.

(** Integers. *)
Global Instance Z_scalar : Scalar Z := {| szero := 0%Z; sone := 1%Z; sadd := Z.add; smul := Z.mul |}.
Lemma Z_semiring : semiring Z.
Proof. constructor; intros; cbv [szero sone sadd smul Z_scalar]; ring. Qed.

(** Integers modulo nothing at all: a scalar type that satisfies no law. *)
Definition odd_scalar : Scalar Z :=
  {| szero := 7%Z; sone := 3%Z; sadd := fun x y => (x - 2 * y)%Z; smul := fun x y => (x * x + y)%Z |}.

(** Every allocated array is row-major, and terms are added up from first to last. *)
Definition c_backend : backend Z := plain_backend.
Lemma c_backend_ok : backend_ok c_backend.
Proof. apply plain_backend_ok. Qed.

Definition id_hash : hash_order := fun _ l => l.
Definition rev_hash : hash_order := fun _ l => rev l.
Lemma id_hash_ok' : hash_ok id_hash. Proof. exact id_hash_ok. Qed.
Lemma rev_hash_ok' : hash_ok rev_hash. Proof. exact rev_hash_ok. Qed.

(** A row-major array with a given shape and given elements. *)
Definition zarr (sh : list nat) (l : list Z) : arr Z := mk_c sh l.

(** Checking well-formedness by computation. *)
Definition wf_b {A} (a : arr A) : bool :=
  Nat.eqb (length (a_strides a)) (length (a_shape a))
  && forallb (fun idx => let o := (a_off a + dot_off idx (a_strides a))%Z in
                         Z.leb 0 o && Z.ltb o (Z.of_nat (length (a_data a))))
       (indices (a_shape a)).

Lemma indices_complete sh idx : in_bounds sh idx = true -> In idx (indices sh).
Proof.
  revert idx; induction sh as [|d sh IH]; intros [|i idx]; simpl; try discriminate; auto.
  intros H. apply andb_prop in H as [H1 H2]. apply Nat.ltb_lt in H1.
  apply in_flat_map. exists i. split; [apply in_seq; lia|]. apply in_map; auto.
Qed.

Lemma wf_b_ok {A} (a : arr A) : wf_b a = true -> wf a.
Proof.
  intros H. apply andb_prop in H as [H1 H2]. split; [apply Nat.eqb_eq; auto|].
  intros idx Hi. rewrite forallb_forall in H2. apply indices_complete in Hi.
  apply H2 in Hi. apply andb_prop in Hi as [Ha Hb]. apply Z.leb_le in Ha. apply Z.ltb_lt in Hb. lia.
Qed.

Lemma wfs_b_ok {A} (l : list (arr A)) : forallb wf_b l = true -> Forall wf l.
Proof. intros H. apply Forall_forall. intros a Ha. apply wf_b_ok. rewrite forallb_forall in H. auto. Qed.

(** Well-formed calls by computation. *)
Definition size_fn (l : list (char * nat)) : char -> nat :=
  fun c => match find (fun p => N.eqb (fst p) c) l with Some p => snd p | None => 0 end.

(** A call validation accepts, with the labels and lengths it finds, is well formed. *)
Definition check_call (s : list char) (shapes : list (list nat)) (ops : list (list char))
    (out : list char) (size : char -> nat) : Prop :=
  match from_string_and_shapes id_hash [] s shapes with
  | Ok sc => operand_indices (sc_contraction sc) = ops
             /\ output_indices (sc_contraction sc) = out
             /\ forall c, In c (concat ops) -> lookup c (sc_output_size sc) = Some (size c)
  | _ => False
  end.

Lemma check_call_ok s shapes ops out size : check_call s shapes ops out size -> call_ok s shapes ops out size.
Proof.
  unfold check_call. destruct (from_string_and_shapes id_hash [] s shapes) as [sc|m|] eqn:E; try contradiction.
  intros (H1 & H2 & H3).
  destruct (from_string_inv _ _ _ _ _ id_hash_ok E) as (ops' & out' & size' & (Hm & Ho & Hs) & (Hc & _ & Hl)).
  rewrite Hc in H1, H2. simpl in H1, H2. subst ops' out'.
  split; auto. split; auto.
  assert (Heq : forall c, In c (concat ops) -> size c = size' c).
  { intros c Hi. specialize (H3 c Hi). rewrite Hl in H3. rewrite (proj2 (mem_In _ _) Hi) in H3. congruence. }
  clear - Hs Heq. induction Hs as [|ix sh ops shapes E Hs IH]; constructor.
  - subst sh. apply map_ext_in. intros c Hc. symmetry. apply Heq. simpl. apply in_or_app; auto.
  - apply IH. intros c Hc. apply Heq. simpl. apply in_or_app; auto.
Qed.

(** Checking [NoDup] and [no_empty_diagonal] by computation. *)
Definition nodup_b (l : list char) : bool := Nat.eqb (length (nodup N.eq_dec l)) (length l).
Lemma nodup_len (l : list char) : length (nodup N.eq_dec l) <= length l.
Proof. induction l as [|c l IH]; simpl; auto. destruct (in_dec N.eq_dec c l); simpl; lia. Qed.
Lemma nodup_b_ok l : nodup_b l = true -> NoDup l.
Proof.
  unfold nodup_b. rewrite Nat.eqb_eq. induction l as [|c l IH]; simpl; [constructor|].
  destruct (in_dec N.eq_dec c l) as [Hi|Hn]; simpl; intros H.
  - pose proof (nodup_len l). lia.
  - constructor; auto.
Qed.

Definition no_empty_b (size : char -> nat) (ops : list (list char)) : bool :=
  forallb (fun ix => nodup_b ix || forallb (fun c => negb (Nat.eqb (size c) 0)) ix) ops.
Lemma no_empty_b_ok size ops : no_empty_b size ops = true -> no_empty_diagonal size ops.
Proof.
  unfold no_empty_b, no_empty_diagonal. rewrite forallb_forall. intros H. apply Forall_forall.
  intros ix Hi. apply H in Hi. apply orb_prop in Hi as [Hi|Hi]; [left; apply nodup_b_ok; auto|right].
  rewrite forallb_forall in Hi. apply Forall_forall. intros c Hc E. apply Hi in Hc. rewrite E in Hc. discriminate.
Qed.

Ltac check_call_tac :=
  vm_compute; split; [reflexivity|split; [reflexivity|]];
  intros c Hc; repeat (destruct Hc as [<-|Hc]; [reflexivity|]); contradiction.
