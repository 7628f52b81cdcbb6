(** The [Debug] output of compiled paths (C43): whether its brackets match. *)
From Verif Require Import Base NDArray Validation Optimizers Strategies Singleton Pair Path Api Spec ParserFacts
  ValidationMain SumFacts PathFacts EinsumMain PlanFacts Debug Examples.
From Coq Require Import Lia.
From Coq Require String DecimalString Decimal.
Import String.StringSyntax.
Local Open Scope string_scope.
Local Open Scope list_scope.

(** ** Matching brackets *)

(** The closing bracket of an opening one, and whether a character is a closing bracket. *)
Definition closer (c : char) : option char :=
  if N.eqb c 40 then Some 41%N else if N.eqb c 91 then Some 93%N else if N.eqb c 123 then Some 125%N else None.
Definition closing (c : char) : bool := N.eqb c 41 || N.eqb c 93 || N.eqb c 125.

(** Reading a text with the closing brackets still due; [None] on a closing bracket that is not. *)
Fixpoint scan (due s : list char) : option (list char) :=
  match s with
  | [] => Some due
  | c :: s' =>
      match closer c with
      | Some d => scan (d :: due) s'
      | None => if closing c
                then match due with d :: due' => if N.eqb c d then scan due' s' else None | [] => None end
                else scan due s'
      end
  end.
Definition brackets_match (s : list char) : Prop := scan [] s = Some [].

Definition neutral (s : list char) : Prop := forall due rest, scan due (s ++ rest) = scan due rest.

Lemma neutral_nil : neutral [].
Proof. intros due rest. reflexivity. Qed.
Lemma neutral_app a b : neutral a -> neutral b -> neutral (a ++ b).
Proof. intros Ha Hb due rest. rewrite <- app_assoc, Ha, Hb. reflexivity. Qed.

(** A text without brackets. *)
Definition plain (c : char) : bool := match closer c with Some _ => false | None => negb (closing c) end.
Lemma neutral_plain s : forallb plain s = true -> neutral s.
Proof.
  induction s as [|c s IH]; intros H due rest; [reflexivity|].
  simpl in H. apply andb_prop in H as [H1 H2]. simpl. unfold plain in H1.
  destruct (closer c); [discriminate|]. apply negb_true_iff in H1. rewrite H1. apply IH. auto.
Qed.
Lemma neutral_wrap o c s : closer o = Some c -> closing c = true -> closer c = None ->
  neutral s -> neutral ([o] ++ s ++ [c]).
Proof.
  intros H1 H2 H3 Hs due rest. simpl. rewrite H1. rewrite <- app_assoc, Hs. simpl. rewrite H3, H2, N.eqb_refl.
  reflexivity.
Qed.
Lemma neutral_chars s : forallb plain (chars s) = true -> neutral (chars s).
Proof. apply neutral_plain. Qed.

Lemma plain_uint u : forallb plain (chars (DecimalString.NilEmpty.string_of_uint u)) = true.
Proof. induction u; simpl; auto. Qed.
Lemma neutral_nat n : neutral (dbg_nat n).
Proof.
  apply neutral_plain. unfold dbg_nat, DecimalString.NilZero.string_of_uint.
  destruct (Nat.to_uint n) as [|u|u|u|u|u|u|u|u|u|u] eqn:E; [reflexivity|..]; apply plain_uint.
Qed.

Lemma neutral_commas l : Forall neutral l -> neutral (commas l).
Proof.
  induction 1 as [|x l Hx Hl IH]; [apply neutral_nil|]. destruct l as [|y l']; [exact Hx|].
  change (commas (x :: y :: l')) with (x ++ chars ", " ++ commas (y :: l')).
  apply neutral_app; [exact Hx|]. apply neutral_app; [apply neutral_chars; reflexivity|exact IH].
Qed.
Lemma neutral_list {T} (f : T -> list char) l : Forall (fun x => neutral (f x)) l -> neutral (dbg_list f l).
Proof.
  intros H. unfold dbg_list. apply (neutral_wrap 91%N 93%N); try reflexivity. apply neutral_commas.
  rewrite Forall_map. auto.
Qed.
Lemma neutral_option {T} (f : T -> list char) o : (forall x, o = Some x -> neutral (f x)) -> neutral (dbg_option f o).
Proof.
  destruct o as [x|]; intros H; cbn [dbg_option]; [|apply neutral_chars; reflexivity].
  change (chars "Some(") with (chars "Some" ++ [40%N]). rewrite <- app_assoc.
  apply neutral_app; [apply neutral_chars; reflexivity|]. apply (neutral_wrap 40%N 41%N); try reflexivity. auto.
Qed.
Lemma neutral_nats l : neutral (dbg_nats l).
Proof. apply neutral_list. induction l; auto using neutral_nat. Qed.

Lemma neutral_struct name fields : forallb plain (chars name) = true ->
  Forall (fun nv => forallb plain (chars (fst nv)) = true /\ neutral (snd nv)) fields ->
  neutral (dbg_struct name fields).
Proof.
  intros Hn Hf. assert (H : neutral (commas (map (fun nv => chars (fst nv) ++ chars ": " ++ snd nv) fields))).
  { apply neutral_commas. rewrite Forall_map. eapply Forall_impl; [|exact Hf].
    intros [n v] [H1 H2]. cbn [fst snd] in *. apply neutral_app; [apply neutral_plain; auto|].
    apply neutral_app; [apply neutral_chars; reflexivity|exact H2]. }
  unfold dbg_struct. destruct fields; [apply neutral_plain; auto|].
  apply neutral_app; [apply neutral_plain; auto|].
  change (chars " { ") with (chars " " ++ [123%N] ++ chars " "). change (chars " }") with (chars " " ++ [125%N]).
  rewrite <- !app_assoc. apply neutral_app; [apply neutral_chars; reflexivity|].
  rewrite (app_assoc (commas _) (chars " ")), (app_assoc (chars " ")).
  apply (neutral_wrap 123%N 125%N); try reflexivity. apply neutral_app; [apply neutral_chars; reflexivity|].
  apply neutral_app; [exact H|apply neutral_chars; reflexivity].
Qed.

Ltac struct := apply neutral_struct; [reflexivity|repeat constructor; cbn [fst snd]; auto using neutral_nats, neutral_nat].

Lemma neutral_permutation p : neutral (dbg_permutation p).
Proof. struct. Qed.
Lemma neutral_summation p : neutral (dbg_summation p).
Proof. struct. Qed.
Lemma neutral_diagonalization p : neutral (dbg_diagonalization p).
Proof. struct. Qed.
Lemma neutral_tfp t : neutral (dbg_tfp t).
Proof. struct. Qed.
Lemma neutral_empty name : forallb plain (chars name) = true -> neutral (dbg_struct name []).
Proof. intros H. apply neutral_struct; auto. Qed.

Lemma neutral_singleton_op op : neutral (dbg_singleton_op op).
Proof.
  destruct op; cbn [dbg_singleton_op]; auto using neutral_permutation, neutral_summation, neutral_diagonalization;
    struct; auto using neutral_permutation, neutral_summation, neutral_diagonalization.
Qed.
Lemma neutral_pair_op op : neutral (dbg_pair_op op).
Proof.
  destruct op; cbn [dbg_pair_op]; auto using neutral_tfp; struct;
    auto using neutral_permutation, neutral_tfp; apply neutral_empty; reflexivity.
Qed.
Lemma neutral_singleton_method m : neutral (dbg_singleton_method m).
Proof. destruct m; apply neutral_chars; reflexivity. Qed.
Lemma neutral_pair_method m : neutral (dbg_pair_method m).
Proof. destruct m; apply neutral_chars; reflexivity. Qed.

Lemma neutral_braces name s : forallb plain (chars name) = true -> neutral s ->
  neutral (chars name ++ [123%N] ++ s ++ [125%N]).
Proof. intros Hn Hs. apply neutral_app; [apply neutral_plain; auto|]. apply (neutral_wrap 123%N 125%N); auto. Qed.

Lemma neutral_singleton_contraction c : neutral (dbg_singleton_contraction c).
Proof.
  unfold dbg_singleton_contraction.
  change (chars "SingletonContraction { method: ")
    with (chars "SingletonContraction " ++ [123%N] ++ chars " method: ").
  change (chars " }") with (chars " " ++ [125%N]).
  replace ((chars "SingletonContraction " ++ [123%N] ++ chars " method: ") ++ dbg_singleton_method (sgl_method c)
           ++ chars ", op: " ++ dbg_singleton_op (sgl_op c) ++ chars " " ++ [125%N])
    with (chars "SingletonContraction " ++ [123%N]
          ++ (chars " method: " ++ dbg_singleton_method (sgl_method c) ++ chars ", op: " ++ dbg_singleton_op (sgl_op c)
              ++ chars " ") ++ [125%N]) by (rewrite <- !app_assoc; reflexivity).
  apply neutral_braces; [reflexivity|].
  repeat apply neutral_app; auto using neutral_singleton_method, neutral_singleton_op; apply neutral_chars; reflexivity.
Qed.

Theorem singleton_debug_brackets_match :
  forall p c, path_steps p = StepsSingleton c -> brackets_match (dbg_path p).
Proof.
  intros p c E. unfold brackets_match, dbg_path. rewrite E.
  rewrite <- (app_nil_r (chars _ ++ _)).
  rewrite (neutral_app (chars "only_step: ") (dbg_singleton_contraction c)); auto.
  - apply neutral_chars. reflexivity.
  - apply neutral_singleton_contraction.
Qed.
Print Assumptions singleton_debug_brackets_match.

Example singleton_debug_case :
  exists p c, einsum_path_fn id_hash (chars "iij->i") [zarr [2; 2; 3] (repeat 0%Z 12)] Naive = Ok p
    /\ path_steps p = StepsSingleton c
    /\ dbg_path p = chars "only_step: SingletonContraction { method: DiagonalizationAndSummation, op: DiagonalizationAndSummation { diagonalization: Diagonalization { input_to_output_mapping: [0, 0, 1], output_shape: [2, 3] }, summation: Summation { orig_axis_list: [1], adjusted_axis_list: [1] } } }".
Proof. eexists. eexists. split; [vm_compute; reflexivity|]. split; [reflexivity|]. vm_compute. reflexivity. Qed.

(** ** Paths of pair contractions *)

Lemma lower_plain c : lower c -> plain c = true.
Proof.
  intros [H1 H2]. unfold plain, closer, closing.
  repeat match goal with |- context [N.eqb c ?k] => destruct (N.eqb_spec c k); [lia|] end. reflexivity.
Qed.
Lemma lower_run_plain s : lower_run s -> forallb plain s = true.
Proof. intros H. apply forallb_forall. intros c Hc. apply lower_plain. unfold lower_run in H. rewrite Forall_forall in H. auto. Qed.

Lemma neutral_string s : forallb plain s = true -> neutral (dbg_string s).
Proof. intros H. apply neutral_plain. unfold dbg_string. rewrite !forallb_app, H. reflexivity. Qed.

Lemma neutral_simplification s used this kept : lower_run this -> simplification_plan (Some s) this used kept ->
  neutral (dbg_simplification s).
Proof.
  intros Hl (_ & Hk & _ & Hi & Hs & _).
  assert (Hkl : lower_run kept).
  { apply Forall_forall. intros c Hc. apply Hk in Hc as [Hc _]. unfold lower_run in Hl. rewrite Forall_forall in Hl. auto. }
  unfold dbg_simplification. rewrite Hi, Hs.
  assert (Nx : neutral (dbg_list dbg_char kept)).
  { apply neutral_list. eapply Forall_impl; [|exact Hkl]. intros c Hc. apply neutral_plain. unfold dbg_char.
    rewrite !forallb_app. simpl. rewrite lower_plain by auto. reflexivity. }
  assert (Ny : neutral (dbg_string (this ++ arrow ++ kept))).
  { apply neutral_string. rewrite !forallb_app. repeat (apply andb_true_intro; split); auto using lower_run_plain. }
  pose proof (neutral_singleton_method (simpl_method s)) as Nm. pose proof (neutral_singleton_op (simpl_op s)) as No.
  set (m := dbg_singleton_method _) in *. set (o := dbg_singleton_op _) in *. set (x := dbg_list dbg_char kept) in *.
  set (y := dbg_string _) in *. clearbody m o x y.
  replace (chars "SingletonContraction { method: " ++ m ++ chars ", op: " ++ o ++ chars ", new_indices: " ++ x
           ++ chars ", einsum_string: " ++ y ++ chars " }")
    with (chars "SingletonContraction " ++ [123%N]
          ++ (chars " method: " ++ m ++ chars ", op: " ++ o ++ chars ", new_indices: " ++ x
              ++ chars ", einsum_string: " ++ y ++ chars " ") ++ [125%N])
    by (rewrite <- !app_assoc; reflexivity).
  apply neutral_braces; [reflexivity|].
  repeat (apply neutral_app; [first [assumption|apply neutral_chars; reflexivity]|]).
  apply neutral_chars. reflexivity.
Qed.

(** A step leaves its opening brace open. *)
Definition opens (s : list char) : Prop := forall due rest, scan due (s ++ rest) = scan (125%N :: due) rest.

Lemma opens_pair lhs rhs out p : lower_run lhs -> lower_run rhs -> lower_run out -> pair_plan lhs rhs out p ->
  opens (dbg_pair_contraction p).
Proof.
  intros Hl Hr Ho (lk & rk & Pl & Pr & _ & _ & Hs) due rest. unfold dbg_pair_contraction. rewrite Hs.
  assert (Nl : neutral (dbg_option dbg_simplification (pc_lhs_simplification p))).
  { apply neutral_option. intros s E. rewrite E in Pl. exact (neutral_simplification s _ _ _ Hl Pl). }
  assert (Nr : neutral (dbg_option dbg_simplification (pc_rhs_simplification p))).
  { apply neutral_option. intros s E. rewrite E in Pr. exact (neutral_simplification s _ _ _ Hr Pr). }
  assert (Lk : lower_run lk).
  { destruct Pl as (_ & H & _). apply Forall_forall. intros c Hc. apply H in Hc as [Hc _].
    unfold lower_run in Hl. rewrite Forall_forall in Hl. auto. }
  assert (Rk : lower_run rk).
  { destruct Pr as (_ & H & _). apply Forall_forall. intros c Hc. apply H in Hc as [Hc _].
    unfold lower_run in Hr. rewrite Forall_forall in Hr. auto. }
  assert (Ns : neutral (dbg_string (lk ++ [c_comma] ++ rk ++ arrow ++ out))).
  { apply neutral_string. rewrite !forallb_app. repeat (apply andb_true_intro; split); auto using lower_run_plain. }
  set (x := dbg_option _ _) in *. set (y := dbg_option _ _) in *. set (z := dbg_string _) in *.
  pose proof (neutral_pair_method (pc_method p)) as Nm. pose proof (neutral_pair_op (pc_op p)) as Np.
  set (m := dbg_pair_method _) in *. set (o := dbg_pair_op _) in *.
  change (chars "PairContraction { lhs_simplification: ")
    with (chars "PairContraction " ++ [123%N] ++ chars " lhs_simplification: ").
  rewrite <- !app_assoc.
  rewrite (neutral_chars "PairContraction ") by reflexivity.
  change (scan due ([123%N] ++ ?r)) with (scan (125%N :: due) r).
  rewrite (neutral_chars " lhs_simplification: ") by reflexivity. rewrite Nl.
  rewrite (neutral_chars ", rhs_simplification: ") by reflexivity. rewrite Nr.
  rewrite (neutral_chars ", method: ") by reflexivity. rewrite Nm.
  rewrite (neutral_chars ", op: ") by reflexivity. rewrite Np.
  rewrite (neutral_chars ", simplified_einsum_string: ") by reflexivity. apply Ns.
Qed.

Lemma scan_opens l : Forall opens l -> l <> [] -> forall due,
  exists due', scan due (commas l ++ chars "]") = scan (125%N :: due') (chars "]").
Proof.
  induction 1 as [|x l Hx Hl IH]; intros Hn due; [congruence|]. destruct l as [|y l'].
  - exists due. cbn [commas]. apply Hx.
  - change (commas (x :: y :: l')) with (x ++ chars ", " ++ commas (y :: l')). rewrite <- !app_assoc, Hx.
    rewrite (neutral_chars ", ") by reflexivity. apply IH. discriminate.
Qed.

(** The output for two or more operands never has matching brackets: a step's brace stays open. *)
Theorem pair_debug_brackets_never_match :
  forall (A : Type) h s (arrays : list (arr A)) strategy p l, hash_ok h ->
    einsum_path_fn h s arrays strategy = Ok p -> path_steps p = StepsPairs l ->
    ~ brackets_match (dbg_path p).
Proof.
  intros A h s arrays strategy p l Hh E Es.
  destruct (accepted_dec h Hh s (map (@a_shape A) arrays)) as [(ops & out & size & Hc)|Hn].
  2:{ apply (path_rejects h Hh s arrays strategy) in Hn as (m & Em). congruence. }
  pose proof (call_plan h Hh _ _ _ _ _ _ _ Hc E) as Hp. pose proof (call_lower h Hh _ _ _ _ _ _ _ Hc E) as Hl.
  unfold path_plan in Hp. unfold path_lower in Hl. rewrite Es in Hp.
  destruct (path_order p) as [sc|steps]; [contradiction|]. destruct Hl as [Hne Hl].
  assert (Ho : Forall opens (map dbg_pair_contraction l) /\ l <> []).
  { split; [|intros ->; inversion Hp; subst; congruence]. clear - Hp Hl. rewrite Forall_map.
    induction Hp as [|st c steps l (lhs & rhs & E & P) Hp IH]; [constructor|]. inversion Hl as [|? ? [H1 H2] H3]; subst.
    constructor; auto. rewrite E in H1. inversion H1 as [|? ? Hlr H4]; subst.
    inversion H4 as [|? ? Hrr _]; subst. exact (opens_pair _ _ _ _ Hlr Hrr H2 P). }
  destruct Ho as [Ho Hn]. unfold brackets_match, dbg_path. rewrite Es.
  rewrite (neutral_chars "steps: ") by reflexivity. unfold dbg_list.
  change (scan [] (chars "[" ++ ?r)) with (scan [93%N] r).
  destruct (scan_opens (map dbg_pair_contraction l) Ho) with (due := [93%N]) as (due' & ->).
  - destruct l; [congruence|discriminate].
  - discriminate.
Qed.
Print Assumptions pair_debug_brackets_never_match.

Definition pair_arrays : list (arr Z) := [zarr [2; 3] (repeat 0%Z 6); zarr [3; 3] (repeat 0%Z 9)].

Example pair_debug_case :
  exists p l, einsum_path_fn id_hash (chars "ij,jj->i") pair_arrays Naive = Ok p /\ path_steps p = StepsPairs l
    /\ dbg_path p = chars "steps: [PairContraction { lhs_simplification: None, rhs_simplification: Some(SingletonContraction { method: Diagonalization, op: Diagonalization { input_to_output_mapping: [0, 0], output_shape: [3] }, new_indices: ['j'], einsum_string: ""jj->j"" }), method: TensordotGeneral, op: TensordotGeneral { lhs_permutation: Permutation { permutation: [0, 1] }, rhs_permutation: Permutation { permutation: [0] }, tensordot_fixed_position: TensordotFixedPosition { len_uncontracted_lhs: 2, len_uncontracted_rhs: 1, len_contracted_axes: 3, output_shape: [2] }, output_permutation: Permutation { permutation: [0] } }, simplified_einsum_string: ""ij,j->i""]".
Proof. eexists. eexists. split; [vm_compute; reflexivity|]. split; [reflexivity|]. vm_compute. reflexivity. Qed.

(** So the brackets of the output do not match in general. *)
Theorem debug_brackets_match_refuted :
  ~ (forall (A : Type) h s (arrays : list (arr A)) strategy p, hash_ok h ->
       einsum_path_fn h s arrays strategy = Ok p -> brackets_match (dbg_path p)).
Proof.
  intros H. destruct pair_debug_case as (p & l & E & Es & _).
  apply (pair_debug_brackets_never_match Z id_hash (chars "ij,jj->i") pair_arrays Naive p l id_hash_ok' E Es).
  eapply H; eauto using id_hash_ok'.
Qed.
Print Assumptions debug_brackets_match_refuted.
