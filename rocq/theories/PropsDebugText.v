(** What the [Debug] texts show (C66). *)
From Verif Require Import Base BaseFacts NDArray Validation Optimizers Strategies Singleton Pair Path Api Spec ParserFacts
  ValidationMain SumFacts PathFacts EinsumMain PlanFacts Serde SerdeFacts Debug DebugSpec DebugFacts PropsDebug Examples.
From Coq Require Import Lia.
From Coq Require String.
Import String.StringSyntax.
Local Open Scope string_scope.
Local Open Scope list_scope.

(** ** The text of a legible tree determines the tree *)

Theorem legible_texts_are_read_uniquely :
  forall t t', legible t = true -> legible t' = true -> show t = show t' -> t = t'.
Proof. exact show_inj. Qed.
Print Assumptions legible_texts_are_read_uniquely.

Example legible_case :
  let t := TNode (chars "Summation") [(chars "orig_axis_list", TSeq [TNum 1; TNum 23])] in
  legible t = true /\ show t = chars "Summation { orig_axis_list: [1, 23] }".
Proof. split; reflexivity. Qed.

(** ** Derived implementations *)

(** The boxed contractors; Serde.v leaves them out of a path but stores each by itself. *)
Definition stored_singleton_op (op : singleton_op) : data :=
  match op with
  | OpIdentity => ser_empty "Identity" tt
  | OpPermutation p => ser_permutation p
  | OpSummation s => ser_summation s
  | OpDiagonalization d => ser_diagonalization d
  | OpPermutationAndSummation p s => ser_perm_and_sum (p, s)
  | OpDiagonalizationAndSummation d s => ser_diag_and_sum (d, s)
  end.
Definition stored_pair_op (op : pair_op) : data :=
  match op with
  | OpHadamardProduct => ser_empty "HadamardProduct" tt
  | OpHadamardProductGeneral pl pr => ser_hadamard_general (pl, pr)
  | OpScalarMatrixProduct => ser_empty "ScalarMatrixProduct" tt
  | OpScalarMatrixProductGeneral p => ser_scalar_general p
  | OpMatrixScalarProduct => ser_empty "MatrixScalarProduct" tt
  | OpMatrixScalarProductGeneral p => ser_matrix_general p
  | OpTensordotFixedPosition t => ser_tfp t
  | OpTensordotGeneral t => ser_tg t
  | OpBroadcastProductGeneral b => ser_broadcast b
  | OpStackedTensordotGeneral s => ser_stacked s
  end.

(** The text of the stored form. *)
Definition text (d : data) : list char := show (picture d).

Lemma commas_separated l : commas l = separated l.
Proof. induction l as [|x [|y l] IH]; reflexivity || (cbn in *; rewrite IH; reflexivity). Qed.

Lemma struct_text name (fs : list (String.string * list char)) (ds : list (String.string * data)) :
  map fst fs = map fst ds -> map snd fs = map (fun nd => text (snd nd)) ds ->
  dbg_struct name fs = text (ser_struct name ds).
Proof.
  intros E1 E2. assert (E : map (fun nv => chars (fst nv) ++ chars ": " ++ snd nv) fs
                            = map part (map (fun p => (fst p, picture (snd p))) (map (fun nd => (chars (fst nd), snd nd)) ds))).
  { revert ds E1 E2. induction fs as [|[n v] fs IH]; intros [|[m d] ds] E1 E2; try discriminate; auto.
    cbn [map fst snd] in *. injection E1 as -> E1. injection E2 as -> E2. rewrite (IH ds) by auto. reflexivity. }
  destruct fs as [|f fs], ds as [|d ds]; try discriminate; auto.
  unfold dbg_struct. rewrite E, commas_separated. unfold text, ser_struct. cbn [picture].
  cbn [map]. rewrite show_parts. reflexivity.
Qed.

Lemma list_text {T} (f : T -> list char) (g : T -> data) l : (forall x, f x = text (g x)) -> dbg_list f l = text (ser_vec g l).
Proof.
  intros H. unfold dbg_list, text, ser_vec. cbn [picture show]. rewrite commas_separated, !map_map.
  rewrite (map_ext _ _ H). reflexivity.
Qed.
Lemma option_text {T} (f : T -> list char) (g : T -> data) o : (forall x, f x = text (g x)) ->
  dbg_option f o = text (ser_option g o).
Proof. intros H. destruct o as [x|]; [|reflexivity]. cbn. rewrite H. reflexivity. Qed.
Lemma nat_text n : dbg_nat n = text (ser_num n).
Proof. reflexivity. Qed.
Lemma char_text c : dbg_char c = text (ser_char c).
Proof. reflexivity. Qed.
Lemma string_text s : dbg_string s = text (ser_string s).
Proof. reflexivity. Qed.
Lemma variant_text enum i v f d : f = text d -> dbg_variant v f = text (ser_variant enum i v (Some d)).
Proof. intros ->. reflexivity. Qed.
Lemma nats_text l : dbg_nats l = text (ser_vec ser_num l).
Proof. apply list_text, nat_text. Qed.
Lemma chars_text l : dbg_list dbg_char l = text (ser_vec ser_char l).
Proof. apply list_text, char_text. Qed.

Lemma cons_eq {T} (x y : T) l l' : x = y -> l = l' -> x :: l = y :: l'.
Proof. congruence. Qed.
Ltac by_fields lems :=
  apply struct_text; [reflexivity|]; cbn [map fst snd combine];
  repeat (apply cons_eq; [solve [lems]|]); reflexivity.

Lemma contraction_text c : dbg_contraction c = text (ser_contraction c).
Proof. by_fields ltac:(first [apply chars_text|apply list_text; intros; apply chars_text]). Qed.
Lemma map_text h k m :
  dbg_map (flat_map (fun c => match lookup c m with Some n => [(dbg_char c, dbg_nat n)] | None => [] end)
             (h k (distinct (map fst m)))) = text (ser_map h k m).
Proof.
  unfold dbg_map, text, ser_map. cbn [picture]. rewrite show_map. rewrite commas_separated.
  match goal with |- _ = 123%N :: separated ?x ++ _ =>
    match goal with |- chars "{" ++ separated ?y ++ _ = _ => assert (E : y = x); [|rewrite E; reflexivity] end end.
  induction (h k (distinct (map fst m))) as [|c l IH]; [reflexivity|]. cbn [flat_map].
  rewrite !map_app, IH. destruct (lookup c m); reflexivity.
Qed.
Lemma sized_text h k sc : dbg_sized h k sc = text (ser_sized h k sc).
Proof. by_fields ltac:(first [apply contraction_text|apply map_text]). Qed.
Lemma operand_number_text o : dbg_operand_number o = text (ser_operand_number o).
Proof. destruct o; apply variant_text; reflexivity. Qed.
Lemma operand_pair_text lr : dbg_operand_pair lr = text (ser_operand_pair lr).
Proof. by_fields ltac:(apply operand_number_text). Qed.
Lemma pair_step_text h k p : dbg_pair_step h k p = text (ser_pair h k p).
Proof. by_fields ltac:(first [apply sized_text|apply operand_pair_text]). Qed.
Lemma order_text h k o : dbg_order h k o = text (ser_order h k o).
Proof.
  destruct o as [sc|steps]; apply variant_text; [apply sized_text|]. apply list_text. intros [i p]. apply pair_step_text.
Qed.
Lemma optimization_text m : dbg_optimization m = text (ser_optimization m).
Proof. destruct m; reflexivity. Qed.
Lemma singleton_method_text m : dbg_singleton_method m = text (ser_singleton_method m).
Proof. destruct m; reflexivity. Qed.
Lemma pair_method_text m : dbg_pair_method m = text (ser_pair_method m).
Proof. destruct m; reflexivity. Qed.
Lemma singleton_summary_text s : dbg_singleton_summary s = text (ser_singleton_summary s).
Proof. by_fields ltac:(reflexivity). Qed.
Lemma pair_summary_text s : dbg_pair_summary s = text (ser_pair_summary s).
Proof. by_fields ltac:(reflexivity). Qed.
Lemma permutation_text p : dbg_permutation p = text (ser_permutation p).
Proof. by_fields ltac:(apply nats_text). Qed.
Lemma summation_text s : dbg_summation s = text (ser_summation s).
Proof. by_fields ltac:(apply nats_text). Qed.
Lemma diagonalization_text d : dbg_diagonalization d = text (ser_diagonalization d).
Proof. by_fields ltac:(apply nats_text). Qed.
Lemma tfp_text t : dbg_tfp t = text (ser_tfp t).
Proof. by_fields ltac:(first [apply nats_text|apply nat_text]). Qed.
Lemma empty_text name : dbg_struct name [] = text (ser_empty name tt).
Proof. reflexivity. Qed.
Ltac by_op := by_fields ltac:(first [apply permutation_text|apply summation_text|apply diagonalization_text|apply nats_text
  |apply tfp_text|apply empty_text]).
Lemma singleton_op_text op : dbg_singleton_op op = text (stored_singleton_op op).
Proof.
  destruct op; cbn [dbg_singleton_op stored_singleton_op];
    auto using permutation_text, summation_text, diagonalization_text, empty_text; by_op.
Qed.
Lemma pair_op_text op : dbg_pair_op op = text (stored_pair_op op).
Proof. destruct op; cbn [dbg_pair_op stored_pair_op]; auto using empty_text, tfp_text; by_op. Qed.

(** Every derived implementation shows the names, the parts and the order of the stored form (C48). *)
Theorem debug_shows_the_stored_form :
  (forall c, dbg_contraction c = text (ser_contraction c))
  /\ (forall h k sc, dbg_sized h k sc = text (ser_sized h k sc))
  /\ (forall o, dbg_operand_number o = text (ser_operand_number o))
  /\ (forall lr, dbg_operand_pair lr = text (ser_operand_pair lr))
  /\ (forall h k p, dbg_pair_step h k p = text (ser_pair h k p))
  /\ (forall h k o, dbg_order h k o = text (ser_order h k o))
  /\ (forall m, dbg_optimization m = text (ser_optimization m))
  /\ (forall m, dbg_singleton_method m = text (ser_singleton_method m))
  /\ (forall s, dbg_singleton_summary s = text (ser_singleton_summary s))
  /\ (forall m, dbg_pair_method m = text (ser_pair_method m))
  /\ (forall s, dbg_pair_summary s = text (ser_pair_summary s))
  /\ (forall op, dbg_singleton_op op = text (stored_singleton_op op))
  /\ (forall op, dbg_pair_op op = text (stored_pair_op op)).
Proof.
  repeat (split; [auto using contraction_text, sized_text, operand_number_text, operand_pair_text, pair_step_text,
    order_text, optimization_text, singleton_method_text, singleton_summary_text, pair_method_text, pair_summary_text,
    singleton_op_text|]). exact pair_op_text.
Qed.
Print Assumptions debug_shows_the_stored_form.

(** ** Equal texts, equal values *)

Lemma nums_legible l : legible (picture (ser_vec ser_num l)) = true.
Proof. cbn. apply forallb_forall. intros t Ht. rewrite map_map in Ht. apply in_map_iff in Ht as (n & <- & _). reflexivity. Qed.
Lemma chars_legible l : legible (picture (ser_vec ser_char l)) = true.
Proof. cbn. apply forallb_forall. intros t Ht. rewrite map_map in Ht. apply in_map_iff in Ht as (n & <- & _). reflexivity. Qed.
Lemma nums_inj l : forall l', picture (ser_vec ser_num l) = picture (ser_vec ser_num l') -> l = l'.
Proof.
  cbn. induction l as [|x l IH]; intros [|y l'] E; cbn in E; try discriminate; auto.
  injection E as -> E. f_equal. apply IH. cbn. congruence.
Qed.
Lemma labels_inj l : forall l', picture (ser_vec ser_char l) = picture (ser_vec ser_char l') -> l = l'.
Proof.
  cbn. induction l as [|x l IH]; intros [|y l'] E; cbn in E; try discriminate; auto.
  injection E as -> E. f_equal. apply IH. cbn. congruence.
Qed.

(** A struct is legible if its parts are. *)
Lemma struct_legible name ds : type_name (chars name) = true ->
  Forall (fun nd => forallb letter (chars (fst nd)) = true /\ legible (picture (snd nd)) = true) ds ->
  legible (picture (ser_struct name ds)) = true.
Proof.
  intros Hn H. unfold ser_struct. cbn [picture legible]. rewrite Hn. cbn [andb].
  induction H as [|[n d] ds [H1 H2] H IH]; auto. cbn [map forallb fst snd] in *. rewrite H1, H2. exact IH.
Qed.
Ltac by_parts lems :=
  apply struct_legible; [reflexivity|];
  cbn [combine fst snd permutation_fields summation_fields diagonalization_fields perm_and_sum_fields
       diag_and_sum_fields tfp_fields tg_fields hadamard_general_fields scalar_general_fields matrix_general_fields
       broadcast_fields stacked_fields contraction_fields sized_fields pair_fields operand_pair_fields];
  repeat (apply Forall_cons; [split; [reflexivity|]; cbn [snd]; solve [lems]|]); apply Forall_nil.
(** Equal structs of the same type have equal parts. *)
Lemma struct_inj name ds ds' : picture (ser_struct name ds) = picture (ser_struct name ds') ->
  map (fun nd => picture (snd nd)) ds = map (fun nd => picture (snd nd)) ds'.
Proof.
  unfold ser_struct. cbn [picture]. intros E. injection E as E. apply (f_equal (map snd)) in E.
  rewrite !map_map in E. exact E.
Qed.
Lemma names_differ n n' ds ds' : picture (ser_struct n ds) = picture (ser_struct n' ds') -> n = n'.
Proof. unfold ser_struct. cbn [picture]. intros E. injection E as E _. apply chars_inj. auto. Qed.


Lemma cons_inj {T} (x y : T) l l' : x :: l = y :: l' -> x = y /\ l = l'.
Proof. intros E. injection E. auto. Qed.
(** The equations between the parts. *)
Ltac parts E :=
  apply struct_inj in E;
  cbn [map combine snd fst permutation_fields summation_fields diagonalization_fields perm_and_sum_fields
       diag_and_sum_fields tfp_fields tg_fields hadamard_general_fields scalar_general_fields matrix_general_fields
       broadcast_fields stacked_fields contraction_fields sized_fields pair_fields operand_pair_fields] in E;
  repeat match type of E with _ :: _ = _ :: _ => let H := fresh "P" in apply cons_inj in E as [H E] end; clear E.
Lemma num_inj n m : picture (ser_num n) = picture (ser_num m) -> n = m.
Proof. intros E. injection E. auto. Qed.

Lemma permutation_legible p : legible (picture (ser_permutation p)) = true.
Proof. by_parts ltac:(apply nums_legible). Qed.
Lemma permutation_inj p p' : picture (ser_permutation p) = picture (ser_permutation p') -> p = p'.
Proof. intros E. parts E. apply nums_inj. auto. Qed.
Lemma summation_legible s : legible (picture (ser_summation s)) = true.
Proof. by_parts ltac:(apply nums_legible). Qed.
Lemma summation_inj s s' : picture (ser_summation s) = picture (ser_summation s') -> s = s'.
Proof. intros E. parts E. destruct s, s'. f_equal; apply nums_inj; auto. Qed.
Lemma diagonalization_legible s : legible (picture (ser_diagonalization s)) = true.
Proof. by_parts ltac:(apply nums_legible). Qed.
Lemma diagonalization_inj s s' : picture (ser_diagonalization s) = picture (ser_diagonalization s') -> s = s'.
Proof. intros E. parts E. destruct s, s'. f_equal; apply nums_inj; auto. Qed.
Lemma tfp_legible t : legible (picture (ser_tfp t)) = true.
Proof. by_parts ltac:(first [apply nums_legible|reflexivity]). Qed.
Lemma tfp_inj t t' : picture (ser_tfp t) = picture (ser_tfp t') -> t = t'.
Proof. intros E. parts E. destruct t, t'. f_equal; first [apply nums_inj|apply num_inj]; auto. Qed.

Ltac leaf :=
  lazymatch goal with
  | |- legible (picture (ser_permutation _)) = true => apply permutation_legible
  | |- legible (picture (ser_summation _)) = true => apply summation_legible
  | |- legible (picture (ser_diagonalization _)) = true => apply diagonalization_legible
  | |- legible (picture (ser_tfp _)) = true => apply tfp_legible
  | |- legible (picture (ser_vec ser_num _)) = true => apply nums_legible
  | |- legible (picture (ser_empty _ _)) = true => reflexivity
  end.
Lemma singleton_op_legible op : legible (picture (stored_singleton_op op)) = true.
Proof. destruct op; cbn [stored_singleton_op]; first [leaf|by_parts ltac:(idtac; leaf)]. Qed.
Lemma pair_op_legible op : legible (picture (stored_pair_op op)) = true.
Proof. destruct op; cbn [stored_pair_op]; first [leaf|by_parts ltac:(idtac; leaf)]. Qed.
Lemma singleton_op_inj op op' : picture (stored_singleton_op op) = picture (stored_singleton_op op') -> op = op'.
Proof.
  destruct op, op'; cbn [stored_singleton_op]; intros E; try (apply names_differ in E; discriminate E); try reflexivity;
    [f_equal; apply permutation_inj; auto|f_equal; apply summation_inj; auto|f_equal; apply diagonalization_inj; auto|..];
    parts E; f_equal; auto using permutation_inj, summation_inj, diagonalization_inj.
Qed.
Lemma pair_op_inj op op' : picture (stored_pair_op op) = picture (stored_pair_op op') -> op = op'.
Proof.
  destruct op, op'; cbn [stored_pair_op]; intros E; try (apply names_differ in E; discriminate E); try reflexivity.
  - parts E. f_equal; apply permutation_inj; auto.
  - parts E. f_equal; apply permutation_inj; auto.
  - parts E. f_equal; apply permutation_inj; auto.
  - f_equal. apply tfp_inj. auto.
  - parts E. destruct t, t0. do 2 f_equal; first [apply permutation_inj|apply tfp_inj]; auto.
  - parts E. destruct b, b0. do 2 f_equal; first [apply permutation_inj; assumption|apply nums_inj; assumption].
  - parts E. destruct s, s0. do 2 f_equal;
      first [apply permutation_inj; assumption|apply nums_inj; assumption|apply tfp_inj; assumption].
Qed.

Lemma op_texts_inj op op' : dbg_singleton_op op = dbg_singleton_op op' -> op = op'.
Proof.
  rewrite !singleton_op_text. intros E. apply singleton_op_inj, show_inj; auto using singleton_op_legible.
Qed.
Lemma pair_op_texts_inj op op' : dbg_pair_op op = dbg_pair_op op' -> op = op'.
Proof. rewrite !pair_op_text. intros E. apply pair_op_inj, show_inj; auto using pair_op_legible. Qed.

Lemma vec_legible {T} (f : T -> data) l : (forall x, legible (picture (f x)) = true) -> legible (picture (ser_vec f l)) = true.
Proof.
  intros H. cbn. apply forallb_forall. intros t Ht. rewrite map_map in Ht. apply in_map_iff in Ht as (x & <- & _). auto.
Qed.
Lemma vec_inj {T} (f : T -> data) l : (forall x y, picture (f x) = picture (f y) -> x = y) -> forall l',
  picture (ser_vec f l) = picture (ser_vec f l') -> l = l'.
Proof.
  intros H. cbn. induction l as [|x l IH]; intros [|y l'] E; cbn in E; try discriminate; auto.
  injection E as E1 E. apply H in E1 as ->. f_equal. apply IH. cbn. congruence.
Qed.

Lemma contraction_legible c : legible (picture (ser_contraction c)) = true.
Proof. by_parts ltac:(first [apply chars_legible|apply vec_legible; intros; apply chars_legible]). Qed.
Lemma contraction_inj c c' : picture (ser_contraction c) = picture (ser_contraction c') -> c = c'.
Proof.
  intros E. parts E. destruct c as [a b d], c' as [a' b' d']. cbn [operand_indices output_indices summation_indices] in *.
  f_equal; try (apply labels_inj; assumption). apply (vec_inj (ser_vec ser_char)); auto. apply labels_inj.
Qed.
Lemma map_legible h k m : legible (picture (ser_map h k m)) = true.
Proof.
  unfold ser_map. cbn [picture legible]. apply forallb_forall. intros p Hp. apply in_map_iff in Hp as (q & <- & Hq).
  apply in_flat_map in Hq as (c & _ & Hq). destruct (lookup c m); [|destruct Hq]. destruct Hq as [<-|[]]. reflexivity.
Qed.
Lemma map_lookup h k m c n : hash_ok h -> lookup c m = Some n <-> exists l, picture (ser_map h k m) = TMap l /\ In (TChar c, TNum n) l.
Proof.
  intros Hh. unfold ser_map. cbn [picture]. split.
  - intros E. eexists. split; [reflexivity|]. apply in_map_iff. exists (ser_char c, ser_num n). split; [reflexivity|].
    apply in_flat_map. exists c. rewrite E. split; [|simpl; auto]. rewrite hash_In by auto. rewrite distinct_In.
    apply lookup_In in E. apply (in_map fst) in E. exact E.
  - intros (l & E & Hi). injection E as <-. apply in_map_iff in Hi as (q & Eq & Hq).
    apply in_flat_map in Hq as (c' & _ & Hq). destruct (lookup c' m) eqn:E; [|destruct Hq]. destruct Hq as [<-|[]].
    cbn in Eq. injection Eq as -> ->. auto.
Qed.
Lemma map_inj h k m h' k' m' : hash_ok h -> hash_ok h' -> picture (ser_map h k m) = picture (ser_map h' k' m') ->
  forall c, lookup c m = lookup c m'.
Proof.
  intros Hh Hh' E c. destruct (lookup c m) as [n|] eqn:E1.
  - apply (map_lookup h k m) in E1; auto. rewrite E in E1. apply (map_lookup h' k' m') in E1; auto.
  - destruct (lookup c m') as [n|] eqn:E2; auto.
    apply (map_lookup h' k' m') in E2; auto. rewrite <- E in E2. apply (map_lookup h k m) in E2; auto. congruence.
Qed.
Lemma sized_legible h k sc : legible (picture (ser_sized h k sc)) = true.
Proof. by_parts ltac:(first [apply contraction_legible|apply map_legible]). Qed.
Lemma sized_inj h k sc h' k' sc' : hash_ok h -> hash_ok h' -> picture (ser_sized h k sc) = picture (ser_sized h' k' sc') ->
  same_sized sc sc'.
Proof.
  intros Hh Hh' E. parts E. split; [apply contraction_inj; assumption|].
  exact (map_inj h k _ h' k' _ Hh Hh' P0).
Qed.
Lemma operand_pair_legible lr : legible (picture (ser_operand_pair lr)) = true.
Proof. destruct lr as [[|] [|]]; reflexivity. Qed.
Lemma operand_number_inj o o' : picture (ser_operand_number o) = picture (ser_operand_number o') -> o = o'.
Proof. destruct o, o'; cbn; intros E; injection E as E; try discriminate; subst; auto. Qed.
Lemma pair_step_legible h k p : legible (picture (ser_pair h k p)) = true.
Proof.
  by_parts ltac:(idtac; lazymatch goal with
                        | |- legible (picture (ser_sized _ _ _)) = true => apply sized_legible
                        | |- _ => apply operand_pair_legible
                        end).
Qed.
Lemma pair_step_inj h k p h' k' p' : hash_ok h -> hash_ok h' -> picture (ser_pair h k p) = picture (ser_pair h' k' p') ->
  same_step p p'.
Proof.
  intros Hh Hh' E. parts E. parts P0. split; [exact (sized_inj h k _ h' k' _ Hh Hh' P)|]. split; apply operand_number_inj; auto.
Qed.

Lemma steps_inj h k h' k' : hash_ok h -> hash_ok h' -> forall steps i steps' j,
  picture (ser_vec (fun ip => ser_pair h (fst ip :: k) (snd ip)) (combine (seq i (length steps)) steps))
  = picture (ser_vec (fun ip => ser_pair h' (fst ip :: k') (snd ip)) (combine (seq j (length steps')) steps')) ->
  Forall2 same_step steps steps'.
Proof.
  intros Hh Hh'. induction steps as [|p steps IH]; intros i [|p' steps'] j E; try discriminate; [constructor|].
  unfold ser_vec in E. cbn [length seq combine map picture] in E.
  apply (f_equal (fun t => match t with TSeq l => l | _ => [] end)) in E. apply cons_inj in E as [E1 E].
  constructor.
  - eapply pair_step_inj; [exact Hh|exact Hh'|exact E1].
  - apply (IH (S i) steps' (S j)). unfold ser_vec. cbn [picture]. f_equal. exact E.
Qed.

(** ** Equal texts of contractors, contractions and orders *)

Theorem debug_determines_values :
  (forall op op', dbg_singleton_op op = dbg_singleton_op op' -> op = op')
  /\ (forall op op', dbg_pair_op op = dbg_pair_op op' -> op = op')
  /\ (forall c c', dbg_contraction c = dbg_contraction c' -> c = c')
  /\ (forall h k o h' k' o', hash_ok h -> hash_ok h' -> dbg_order h k o = dbg_order h' k' o' -> same_order o o').
Proof.
  split; [exact op_texts_inj|]. split; [exact pair_op_texts_inj|]. split.
  - intros c c'. rewrite !contraction_text. intros E. apply contraction_inj, show_inj; auto using contraction_legible.
  - intros h k o h' k' o' Hh Hh'. rewrite !order_text. intros E.
    assert (Hl : forall h k o, legible (picture (ser_order h k o)) = true).
    { clear. intros h k [sc|steps].
      - apply (sized_legible h k sc).
      - apply (vec_legible (fun ip => ser_pair h (fst ip :: k) (snd ip))). intros x. apply pair_step_legible. }
    apply show_inj in E; auto. destruct o as [sc|steps], o' as [sc'|steps'].
    + apply (sized_inj h k _ h' k' _ Hh Hh'). exact (f_equal (fun t => match t with TWrap _ t' => t' | _ => t end) E).
    + discriminate.
    + discriminate.
    + apply (steps_inj h k h' k' Hh Hh' steps 0 steps' 0).
      exact (f_equal (fun t => match t with TWrap _ t' => t' | _ => t end) E).
Qed.
Print Assumptions debug_determines_values.

(** The same contraction with its lengths in two orders: two texts. *)
Example determines_case :
  let sc := mkSized (mkContraction [[105; 106]]%N [105%N] [106%N]) [(105%N, 2); (106%N, 30)] in
  dbg_order id_hash [] (Singleton sc)
    = chars "Singleton(SizedContraction { contraction: Contraction { operand_indices: [['i', 'j']], output_indices: ['i'], summation_indices: ['j'] }, output_size: {'i': 2, 'j': 30} })"
  /\ dbg_order rev_hash [] (Singleton sc)
    = chars "Singleton(SizedContraction { contraction: Contraction { operand_indices: [['i', 'j']], output_indices: ['i'], summation_indices: ['j'] }, output_size: {'j': 30, 'i': 2} })".
Proof. split; vm_compute; reflexivity. Qed.

(** ** Hand-written implementations *)

Definition method_and_op (m : singleton_method) (op : singleton_op) : list (list char * tree) :=
  [(chars "method", picture (ser_singleton_method m)); (chars "op", picture (stored_singleton_op op))].
Definition contraction_tree (c : singleton_contraction) : tree :=
  TNode (chars "SingletonContraction") (method_and_op (sgl_method c) (sgl_op c)).
Definition simplification_tree (s : simplification) : tree :=
  TNode (chars "SingletonContraction")
    (method_and_op (simpl_method s) (simpl_op s)
     ++ [(chars "new_indices", TSeq (map TChar (simpl_new_indices s))); (chars "einsum_string", TStr (simpl_einsum_string s))]).
Definition optional (o : option tree) : tree :=
  match o with Some t => TWrap (chars "Some") t | None => TNode (chars "None") [] end.
Definition step_parts (p : pair_contraction) : list (list char * tree) :=
  [(chars "lhs_simplification", optional (option_map simplification_tree (pc_lhs_simplification p)));
   (chars "rhs_simplification", optional (option_map simplification_tree (pc_rhs_simplification p)));
   (chars "method", picture (ser_pair_method (pc_method p))); (chars "op", picture (stored_pair_op (pc_op p)));
   (chars "simplified_einsum_string", TStr (pc_string p))].

Lemma contraction_tree_text c : dbg_singleton_contraction c = show (contraction_tree c).
Proof.
  unfold dbg_singleton_contraction, contraction_tree, method_and_op. rewrite singleton_method_text, singleton_op_text.
  rewrite show_parts. cbn [map separated part fst snd]. unfold part. cbn [fst snd]. fold (text (ser_singleton_method (sgl_method c))).
  fold (text (stored_singleton_op (sgl_op c))).
  set (a := text _). set (b := text _). clearbody a b. rewrite <- !app_assoc. reflexivity.
Qed.
Lemma simplification_tree_text s : dbg_simplification s = show (simplification_tree s).
Proof.
  unfold dbg_simplification, simplification_tree, method_and_op. rewrite singleton_method_text, singleton_op_text.
  cbn [app]. rewrite show_parts. cbn [map separated]. unfold part. cbn [fst snd].
  fold (text (ser_singleton_method (simpl_method s))). fold (text (stored_singleton_op (simpl_op s))).
  assert (E : show (TSeq (map TChar (simpl_new_indices s))) = dbg_list dbg_char (simpl_new_indices s)).
  { rewrite chars_text. unfold text, ser_vec. cbn [picture]. rewrite map_map. reflexivity. }
  rewrite E. change (show (TStr ?x)) with (dbg_string x).
  set (a := text _). set (b := text _). set (d := dbg_list _ _). set (e := dbg_string _). clearbody a b d e.
  rewrite <- !app_assoc. reflexivity.
Qed.
Lemma optional_text o : dbg_option dbg_simplification o = show (optional (option_map simplification_tree o)).
Proof. destruct o as [s|]; [|reflexivity]. cbn [dbg_option option_map optional]. rewrite simplification_tree_text. reflexivity. Qed.
Lemma step_text p : dbg_pair_contraction p = chars "PairContraction { " ++ separated (map part (step_parts p)).
Proof.
  unfold dbg_pair_contraction, step_parts. rewrite pair_method_text, pair_op_text, !optional_text.
  cbn [map separated]. unfold part. cbn [fst snd].
  fold (text (ser_pair_method (pc_method p))). fold (text (stored_pair_op (pc_op p))). change (show (TStr ?x)) with (dbg_string x).
  set (a := text _). set (b := text _). set (d := show _). set (e := show _). set (f := dbg_string _). clearbody a b d e f.
  rewrite <- !app_assoc. reflexivity.
Qed.

(** The texts of a single-operand step and of a simplification are those of legible trees, and so is that of
    a pair step once its closing brace is added; a simplification is called a contraction. *)
Theorem debug_shows_the_steps :
  (forall c, dbg_singleton_contraction c = show (contraction_tree c))
  /\ (forall s, dbg_simplification s = show (simplification_tree s))
  /\ (forall p, dbg_pair_contraction p ++ chars " }" = show (TNode (chars "PairContraction") (step_parts p)))
  /\ (forall c, dbg_steps (StepsSingleton c) = show (TWrap (chars "SingletonContraction") (contraction_tree c)))
  /\ (forall p, dbg_parse p = show (TNode (chars "EinsumParse")
       [(chars "operand_indices", TSeq (map TStr (p_operand_indices p)));
        (chars "output_indices", optional (option_map TStr (p_output_indices p)))])).
Proof.
  split; [exact contraction_tree_text|]. split; [exact simplification_tree_text|]. split; [|split].
  - intros p. rewrite step_text. rewrite <- app_assoc. reflexivity.
  - intros c. cbn [dbg_steps]. rewrite contraction_tree_text. reflexivity.
  - intros [ops out]. rewrite show_parts. unfold dbg_parse. cbn [p_operand_indices p_output_indices].
    rewrite (list_text dbg_string ser_string), (option_text dbg_string ser_string) by reflexivity.
    assert (E1 : text (ser_vec ser_string ops) = show (TSeq (map TStr ops))).
    { unfold text, ser_vec. cbn [picture]. rewrite map_map. reflexivity. }
    assert (E2 : text (ser_option ser_string out) = show (optional (option_map TStr out))) by (destruct out; reflexivity).
    rewrite E1, E2. reflexivity.
Qed.
Print Assumptions debug_shows_the_steps.

(** ** Equal texts of paths *)

Lemma method_legible m : legible (picture (ser_singleton_method m)) = true.
Proof. destruct m; reflexivity. Qed.
Lemma pair_method_legible m : legible (picture (ser_pair_method m)) = true.
Proof. destruct m; reflexivity. Qed.
Lemma method_inj m m' : picture (ser_singleton_method m) = picture (ser_singleton_method m') -> m = m'.
Proof. destruct m, m'; intros E; try reflexivity; vm_compute in E; discriminate E. Qed.
Lemma pair_method_inj m m' : picture (ser_pair_method m) = picture (ser_pair_method m') -> m = m'.
Proof. destruct m, m'; intros E; try reflexivity; vm_compute in E; discriminate E. Qed.

Lemma contraction_tree_legible c : legible (contraction_tree c) = true.
Proof.
  unfold contraction_tree, method_and_op. cbn [legible forallb fst snd].
  rewrite method_legible, singleton_op_legible. reflexivity.
Qed.
Lemma tree_parts n n' l l' : TNode n l = TNode n' l' -> map snd l = map snd l'.
Proof. congruence. Qed.
Lemma contraction_tree_inj c c' : contraction_tree c = contraction_tree c' -> c = c'.
Proof.
  unfold contraction_tree, method_and_op. intros E. apply tree_parts in E. cbn [map snd] in E.
  apply cons_inj in E as [E1 E]. apply cons_inj in E as [E2 _].
  apply method_inj in E1. apply singleton_op_inj in E2. destruct c, c'. cbn in *. congruence.
Qed.

Definition unquoted (s : list char) : Prop := forallb (fun c => negb (N.eqb c 34)) s = true.
Definition simplification_unquoted (s : option simplification) : Prop :=
  match s with Some s => unquoted (simpl_einsum_string s) | None => True end.
Definition step_unquoted (p : pair_contraction) : Prop :=
  simplification_unquoted (pc_lhs_simplification p) /\ simplification_unquoted (pc_rhs_simplification p) /\ unquoted (pc_string p).

Lemma simplification_legible s : simplification_unquoted s -> legible (optional (option_map simplification_tree s)) = true.
Proof.
  destruct s as [s|]; [|reflexivity]. cbn [simplification_unquoted]. intros H.
  unfold simplification_tree, method_and_op. cbn [option_map optional legible forallb app fst snd].
  rewrite method_legible, singleton_op_legible. unfold unquoted in H. rewrite H.
  assert (E : forallb legible (map TChar (simpl_new_indices s)) = true) by (induction (simpl_new_indices s); auto).
  rewrite E. reflexivity.
Qed.
Lemma labels_map_inj l : forall l', map TChar l = map TChar l' -> l = l'.
Proof. induction l as [|x l IH]; intros [|y l'] E; try discriminate; auto. injection E as -> E. f_equal. auto. Qed.
Lemma simplification_tree_inj s s' :
  optional (option_map simplification_tree s) = optional (option_map simplification_tree s') -> s = s'.
Proof.
  destruct s as [s|], s' as [s'|]; try discriminate; auto. cbn [option_map optional]. intros E.
  apply (f_equal (fun t => match t with TWrap _ u => u | _ => t end)) in E.
  unfold simplification_tree, method_and_op in E. apply tree_parts in E. cbn [map snd app] in E.
  apply cons_inj in E as [E1 E]. apply cons_inj in E as [E2 E]. apply cons_inj in E as [E3 E]. apply cons_inj in E as [E4 _].
  apply method_inj in E1. apply singleton_op_inj in E2. injection E3 as E3. apply labels_map_inj in E3. injection E4 as E4.
  destruct s, s'. cbn in *. congruence.
Qed.

Lemma step_parts_ok p : step_unquoted p -> Forall part_ok (step_parts p).
Proof.
  intros (H1 & H2 & H3). unfold step_parts.
  repeat (apply Forall_cons; [split; [reflexivity|]; cbn [snd];
    auto using simplification_legible, pair_method_legible, pair_op_legible|]). apply Forall_nil.
Qed.
Lemma step_parts_inj p p' : step_parts p = step_parts p' -> p = p'.
Proof.
  unfold step_parts. intros E. apply (f_equal (map snd)) in E. cbn [map snd] in E.
  apply cons_inj in E as [E1 E]. apply cons_inj in E as [E2 E]. apply cons_inj in E as [E3 E].
  apply cons_inj in E as [E4 E]. apply cons_inj in E as [E5 _].
  apply simplification_tree_inj in E1, E2. apply pair_method_inj in E3. apply pair_op_inj in E4. injection E5 as E5.
  destruct p, p'. cbn in *. congruence.
Qed.

Lemma steps_unique l l' : Forall step_unquoted l -> Forall step_unquoted l' ->
  dbg_list dbg_pair_contraction l = dbg_list dbg_pair_contraction l' -> l = l'.
Proof.
  intros H H' E. unfold dbg_list in E. apply app_inv_head in E. rewrite !commas_separated in E.
  apply (separated_unique dbg_pair_contraction step_unquoted) in E as [-> _]; auto.
  - intros p _. rewrite step_text. exists 80%N. eexists. split; [reflexivity|]. repeat split; discriminate.
  - apply Forall_forall. intros p _ p' r1 r2 Hp Hp' R1 R2 Eq. rewrite !step_text, <- !app_assoc in Eq.
    apply app_inv_head in Eq. apply parts_unique in Eq as [Eq ->]; auto using step_parts_ok.
    apply step_parts_inj in Eq. auto.
  - apply closes_char. auto.
  - apply closes_char. auto.
Qed.

Lemma lower_unquoted s : lower_run s -> unquoted s.
Proof.
  intros H. apply forallb_forall. intros c Hc. unfold lower_run in H. rewrite Forall_forall in H.
  destruct (H c Hc) as [H1 H2]. destruct (N.eqb_spec c 34); [subst; vm_compute in H1; congruence|reflexivity].
Qed.
Lemma app_unquoted a b : unquoted a -> unquoted b -> unquoted (a ++ b).
Proof. unfold unquoted. intros Ha Hb. rewrite forallb_app. apply andb_true_intro. auto. Qed.
Lemma kept_lower this used kept : lower_run this -> (forall c, In c kept <-> In c this /\ In c used) -> lower_run kept.
Proof.
  intros H Hk. apply Forall_forall. intros c Hc. apply Hk in Hc as [Hc _]. unfold lower_run in H.
  rewrite Forall_forall in H. auto.
Qed.
Lemma plan_unquoted lhs rhs out p : lower_run lhs -> lower_run rhs -> lower_run out -> pair_plan lhs rhs out p -> step_unquoted p.
Proof.
  assert (Hs : forall s this used kept, lower_run this -> simplification_plan s this used kept -> simplification_unquoted s).
  { intros [s|] this used kept Hl (_ & Hk & Hr); cbn; auto. destruct Hr as (_ & _ & -> & _).
    repeat apply app_unquoted; eauto using lower_unquoted, kept_lower. reflexivity. }
  intros Hl Hr Ho (lk & rk & Pl & Pr & _ & _ & Es). split; [|split]; eauto. rewrite Es.
  destruct Pl as (_ & Kl & _). destruct Pr as (_ & Kr & _).
  repeat apply app_unquoted; eauto using lower_unquoted, kept_lower; reflexivity.
Qed.

Lemma compiled_unquoted {A} h s (arrays : list (arr A)) strategy p l : hash_ok h ->
  einsum_path_fn h s arrays strategy = Ok p -> path_steps p = StepsPairs l -> Forall step_unquoted l.
Proof.
  intros Hh E Es. destruct (accepted_dec h Hh s (map (@a_shape A) arrays)) as [(ops & out & size & Hc)|Hn].
  2:{ apply (path_rejects h Hh s arrays strategy) in Hn as (m & Em). congruence. }
  pose proof (call_plan h Hh _ _ _ _ _ _ _ Hc E) as Hp. pose proof (call_lower h Hh _ _ _ _ _ _ _ Hc E) as Hl.
  unfold path_plan in Hp. unfold path_lower in Hl. rewrite Es in Hp.
  destruct (path_order p) as [sc|steps]; [contradiction|]. destruct Hl as [_ Hl]. clear - Hp Hl.
  induction Hp as [|st c steps l (lhs & rhs & E & P) Hp IH]; [constructor|]. inversion Hl as [|? ? [H1 H2] H3]; subst.
  constructor; auto. rewrite E in H1. inversion H1 as [|? ? Hlr H4]; subst.
  inversion H4 as [|? ? Hrr _]; subst. exact (plan_unquoted _ _ _ _ Hlr Hrr H2 P).
Qed.

(** Though its brackets do not match (C43), the text of a path determines its steps: methods, contractors
    with all their numbers, simplifications and strings. So does the derived text of the steps alone. The
    case below has two paths with one text. *)
Theorem debug_determines_the_steps :
  forall (A B : Type) h s (arrays : list (arr A)) strategy p h' s' (arrays' : list (arr B)) strategy' p',
    hash_ok h -> hash_ok h' ->
    einsum_path_fn h s arrays strategy = Ok p -> einsum_path_fn h' s' arrays' strategy' = Ok p' ->
    dbg_path p = dbg_path p' \/ dbg_steps (path_steps p) = dbg_steps (path_steps p') -> path_steps p = path_steps p'.
Proof.
  intros A B h s arrays strategy p h' s' arrays' strategy' p' Hh Hh' E E' Ed. unfold dbg_path in Ed.
  destruct (path_steps p) as [c|l] eqn:Es, (path_steps p') as [c'|l'] eqn:Es'; try (destruct Ed; discriminate).
  - assert (Ec : dbg_singleton_contraction c = dbg_singleton_contraction c').
    { destruct Ed as [Ed|Ed]; [apply app_inv_head in Ed; exact Ed|]. cbn [dbg_steps] in Ed. unfold dbg_variant in Ed.
      apply app_inv_head, app_inv_head, app_inv_tail in Ed. exact Ed. }
    rewrite !contraction_tree_text in Ec.
    apply show_inj in Ec; auto using contraction_tree_legible. apply contraction_tree_inj in Ec. congruence.
  - f_equal. apply steps_unique; [..|destruct Ed as [Ed|Ed]; [apply app_inv_head in Ed; exact Ed|];
      cbn [dbg_steps] in Ed; unfold dbg_variant in Ed; apply app_inv_head, app_inv_head, app_inv_tail in Ed; exact Ed].
    + exact (compiled_unquoted h s arrays strategy p l Hh E Es).
    + exact (compiled_unquoted h' s' arrays' strategy' p' l' Hh' E' Es').
Qed.
Print Assumptions debug_determines_the_steps.

(** ** What the texts leave out *)

(** The operands of the steps are not shown: a chain of three products, read from the left and from the
    right, has the same text but multiplies other operands. *)
Definition square (a b c d : Z) : arr Z := zarr [2; 2] [a; b; c; d].
Definition three : list (arr Z) := [square 1 1 0 1; square 2 0 0 1; square 1 0 1 1].

Example same_text_case :
  exists p q r t, einsum_path_fn id_hash (chars "ij,jk,kl->il") three Naive = Ok p
    /\ einsum_path_fn id_hash (chars "kl,jk,ij->il") three Reverse = Ok q
    /\ dbg_path p = dbg_path q
    /\ contract_operands c_backend p three = Ok r /\ contract_operands c_backend q three = Ok t
    /\ a_data r <> a_data t.
Proof.
  do 4 eexists. split; [vm_compute; reflexivity|]. split; [vm_compute; reflexivity|].
  split; [vm_compute; reflexivity|]. split; [vm_compute; reflexivity|]. split; [vm_compute; reflexivity|].
  vm_compute. discriminate.
Qed.

Theorem debug_determines_results_refuted :
  ~ (forall h s s' (arrays : list (arr Z)) strategy strategy' p p', hash_ok h ->
       einsum_path_fn h s arrays strategy = Ok p -> einsum_path_fn h s' arrays strategy' = Ok p' ->
       dbg_path p = dbg_path p' -> contract_operands c_backend p arrays = contract_operands c_backend p' arrays).
Proof.
  intros H. destruct same_text_case as (p & q & r & t & E1 & E2 & E3 & E4 & E5 & E6).
  specialize (H id_hash _ _ _ _ _ _ _ id_hash_ok' E1 E2 E3). rewrite E4, E5 in H. congruence.
Qed.
Print Assumptions debug_determines_results_refuted.

(** The labels a simplification keeps come from a hash set, so two runs may print different texts for the
    same call. *)
Theorem debug_is_reproducible_refuted :
  ~ (forall h h' s (arrays : list (arr Z)) strategy p p', hash_ok h -> hash_ok h' ->
       einsum_path_fn h s arrays strategy = Ok p -> einsum_path_fn h' s arrays strategy = Ok p' ->
       dbg_path p = dbg_path p').
Proof.
  intros H.
  assert (E : exists p p',
    einsum_path_fn id_hash (chars "ijk,ij->ij") [zarr [1; 1; 1] [1%Z]; zarr [1; 1] [1%Z]] Naive = Ok p
    /\ einsum_path_fn rev_hash (chars "ijk,ij->ij") [zarr [1; 1; 1] [1%Z]; zarr [1; 1] [1%Z]] Naive = Ok p'
    /\ chars_eqb (dbg_path p) (dbg_path p') = false).
  { do 2 eexists. split; [vm_compute; reflexivity|]. split; vm_compute; reflexivity. }
  destruct E as (p & p' & E1 & E2 & E3). rewrite (H _ _ _ _ _ _ _ id_hash_ok' rev_hash_ok' E1 E2) in E3.
  rewrite chars_eqb_refl in E3. discriminate.
Qed.
Print Assumptions debug_is_reproducible_refuted.
