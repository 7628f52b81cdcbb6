(** Series of calls (C88): straight-line programs whose calls use given arrays and earlier results any number of times. *)
From Verif Require Import Base BaseFacts NDArray Validation Optimizers Path Api Spec ParserFacts ValidationFacts ValidationMain SumFacts
  ArrayFacts PathFacts EinsumMain EinsumProps RelationFacts AlgebraFacts TensordotMain RoundFacts RangeFacts FloatFacts FloatMain
  BackwardFacts AdjointFacts UniqueFacts DotAlgebra Examples PropsTensordot PropsRounding PropsFloat PropsBackward PropsBackwardDot
  PropsSpread PropsDotAlgebra PropsDotNest PropsChain.
From Coq Require Import Lia QArith Qcanon Qcabs.
From Coq Require String.
Import String.StringSyntax.
Local Open Scope string_scope.
Local Open Scope list_scope.
Local Open Scope nat_scope.

(** ** Programs *)

(** One call [lib.rs:209-227,269-294]. Arrays are named by their positions in the list of the given arrays and the results so
    far. An einsum carries what its string means, the labels' lengths and whether it is run by [einsum] or through a compiled
    path with a strategy; all but the last are for the specification only. *)
Inductive call : Type :=
| CallEinsum (s : list char) (ops : list (list char)) (out : list char) (size : char -> nat) (how : option optimization_method) (xs : list nat)
| CallDot (x y : nat) (la ra : list nat).

Definition pick {T} (l : list T) (x : nat) : res T :=
  match nth_error l x with Some t => Ok t | None => Panic end.
Fixpoint pick_all {T} (l : list T) (xs : list nat) : res (list T) :=
  match xs with
  | [] => Ok []
  | x :: xs => do t <- pick l x; do ts <- pick_all l xs; Ok (t :: ts)
  end.

(** What is done with an einsum and a tensordot in a call. *)
Definition on_call {T} (sum : list char -> list (list char) -> list char -> (char -> nat) -> option optimization_method -> list T -> res T)
    (dot : T -> T -> list nat -> list nat -> res T) (env : list T) (i : call) : res T :=
  match i with
  | CallEinsum s ops out size how xs => do l <- pick_all env xs; sum s ops out size how l
  | CallDot x y la ra => do a <- pick env x; do b <- pick env y; dot a b la ra
  end.
Fixpoint on_calls {T} (f : nat -> list T -> call -> res T) (k : nat) (env : list T) (p : list call) : res (list T) :=
  match p with
  | [] => Ok env
  | i :: p => do r <- f k env i; on_calls f (S k) (env ++ [r]) p
  end.

(** Running a program: each call has its own hash order [lib.rs:209-227,269-294]. *)
Definition run_einsum {F} {Sf : Scalar F} (h : hash_order) (lay : backend F) s (how : option optimization_method) (l : list (arr F)) : res (arr F) :=
  match how with
  | None => einsum h lay s l
  | Some strategy => do p <- einsum_path_fn h s l strategy; contract_operands lay p l
  end.
Definition run_call {F} {Sf : Scalar F} (h : nat -> hash_order) (lay : backend F) (k : nat) : list (arr F) -> call -> res (arr F) :=
  on_call (fun s _ _ _ how l => run_einsum (h k) lay s how l) (tensordot lay).
Definition run_calls {F} {Sf : Scalar F} (h : nat -> hash_order) (lay : backend F) : list (arr F) -> list call -> res (list (arr F)) :=
  on_calls (run_call h lay) 0.

(** The shapes of the results. *)
Definition shape_calls : list (list nat) -> list call -> res (list (list nat)) :=
  on_calls (fun _ => on_call (fun _ _ out size _ _ => Ok (map size out))
    (fun sx sy la ra => Ok (axis_lengths sx (free_axes (length sx) la) ++ axis_lengths sy (free_axes (length sy) ra)))) 0.

(** The exact values: Einstein sums and tensor dot products. *)
Definition exact_calls {B} {Sb : Scalar B} : list (arr B) -> list call -> res (list (arr B)) :=
  on_calls (fun _ => on_call (fun _ ops out size _ l => Ok (array_of (map size out) (einsum_value size l ops out)))
    (fun a b la ra => Ok (array_of (dot_shape a b la ra) (tensordot_value a b la ra)))) 0.

(** What the results approximate, as in C86. *)
Definition estimate_calls : list estimate -> list call -> res (list estimate) :=
  on_calls (fun _ => on_call (fun _ ops out size _ l => Ok (estimated_sum size l ops out)) (fun t u la ra => Ok (estimated_dot t u la ra))) 0.

(** A call fits the shapes of the arrays so far. *)
Definition call_fits (shapes : list (list nat)) (i : call) : Prop :=
  match i with
  | CallEinsum s ops out size how xs =>
      exists shs, pick_all shapes xs = Ok shs /\ call_ok s shs ops out size /\ no_empty_diagonal size ops
        /\ (how = None \/ how = Some Naive \/ how = Some Reverse)
  | CallDot x y la ra =>
      exists sx sy, pick shapes x = Ok sx /\ pick shapes y = Ok sy /\ length la = length ra
        /\ axes_ok (length sx) la /\ axes_ok (length sy) ra /\ axis_lengths sx la = axis_lengths sy ra
  end.
Fixpoint calls_fit (shapes : list (list nat)) (p : list call) : Prop :=
  match p with
  | [] => True
  | i :: p => call_fits shapes i
      /\ exists sh, on_call (fun _ _ out size _ _ => Ok (map size out))
           (fun sx sy la ra => Ok (axis_lengths sx (free_axes (length sx) la) ++ axis_lengths sy (free_axes (length sy) ra))) shapes i = Ok sh
         /\ calls_fit (shapes ++ [sh]) p
  end.

(** ** Picking *)

Lemma pick_rel {T U} (P : T -> U -> Prop) l m x t : Forall2 P l m -> pick l x = Ok t -> exists u, pick m x = Ok u /\ P t u.
Proof.
  intros H. unfold pick. revert x. induction H as [|a b l m Hab H IH]; intros [|x]; cbn; try discriminate; auto.
  intros E. injection E as <-. eauto.
Qed.

Lemma pick_all_rel {T U} (P : T -> U -> Prop) l m xs ts : Forall2 P l m -> pick_all l xs = Ok ts ->
  exists us, pick_all m xs = Ok us /\ Forall2 P ts us.
Proof.
  intros H. revert ts. induction xs as [|x xs IH]; cbn [pick_all]; intros ts E; [injection E as <-; eauto|].
  destruct (pick l x) as [t| |] eqn:Et; cbn [rbind] in E; try discriminate.
  destruct (pick_all l xs) as [us| |] eqn:Eu; cbn [rbind] in E; try discriminate. injection E as <-.
  destruct (pick_rel P l m x t H Et) as (u & -> & Hu). destruct (IH us eq_refl) as (vs & -> & Hv). cbn [rbind]. eauto.
Qed.

(** ** Programs step by step *)

(** If the arrays so far satisfy [P] with what stands for them, and [wf], and each call keeps it so, then so does the program. *)
Lemma on_calls_rel {F T} (P : arr F -> T -> Prop) (f : nat -> list (arr F) -> call -> res (arr F)) (g : nat -> list T -> call -> res T) :
  (forall k env ts i, Forall wf env -> Forall2 P env ts -> call_fits (map (@a_shape F) env) i ->
     forall sh, on_call (fun _ _ out size _ _ => Ok (map size out))
           (fun sx sy la ra => Ok (axis_lengths sx (free_axes (length sx) la) ++ axis_lengths sy (free_axes (length sy) ra)))
           (map (@a_shape F) env) i = Ok sh ->
     exists r t, f k env i = Ok r /\ g k ts i = Ok t /\ wf r /\ a_shape r = sh /\ P r t) ->
  forall p k env ts, Forall wf env -> Forall2 P env ts -> calls_fit (map (@a_shape F) env) p ->
  exists rs us, on_calls f k env p = Ok rs /\ on_calls g k ts p = Ok us /\ Forall wf rs /\ Forall2 P rs us
    /\ on_calls (fun _ => on_call (fun _ _ out size _ _ => Ok (map size out))
         (fun sx sy la ra => Ok (axis_lengths sx (free_axes (length sx) la) ++ axis_lengths sy (free_axes (length sy) ra)))) k
         (map (@a_shape F) env) p = Ok (map (@a_shape F) rs).
Proof.
  intros Hstep. induction p as [|i p IH]; intros k env ts W H Hfit; cbn [on_calls].
  { exists env, ts. auto. }
  destruct Hfit as (Hi & sh & Es & Hp). destruct (Hstep k env ts i W H Hi sh Es) as (r & t & Er & Et & Wr & Sr & Hr).
  rewrite Er, Et, Es. cbn [rbind].
  destruct (IH (S k) (env ++ [r]) (ts ++ [t])) as (rs & us & E1 & E2 & W' & H' & E3).
  - apply Forall_app. auto.
  - apply Forall2_app; auto.
  - rewrite map_app. cbn [map]. rewrite Sr. auto.
  - exists rs, us. rewrite map_app in E3. cbn [map] in E3. rewrite Sr in E3. auto.
Qed.

(** The operands of a call with what stands for them. *)
Lemma picked {F T} (P : arr F -> T -> Prop) env ts xs shs : Forall wf env -> Forall2 P env ts -> pick_all (map (@a_shape F) env) xs = Ok shs ->
  exists l us, pick_all env xs = Ok l /\ pick_all ts xs = Ok us /\ shs = map (@a_shape F) l /\ Forall wf l /\ Forall2 P l us.
Proof.
  intros W H E.
  assert (H0 : Forall2 (fun sh a => sh = a_shape a /\ wf a) (map (@a_shape F) env) env).
  { clear - W. induction W; cbn [map]; constructor; auto. }
  destruct (pick_all_rel _ _ _ xs shs H0 E) as (l & El & Hl). destruct (pick_all_rel P env ts xs l H El) as (us & Eu & Hu).
  exists l, us. split; auto. split; auto. split; [|split; auto].
  - clear - Hl. induction Hl as [|? ? ? ? [-> _] Hl IH]; cbn [map]; congruence.
  - clear - Hl. induction Hl as [|? ? ? ? [_ ?] Hl IH]; constructor; auto.
Qed.
Lemma picked_one {F T} (P : arr F -> T -> Prop) env ts x sh : Forall wf env -> Forall2 P env ts -> pick (map (@a_shape F) env) x = Ok sh ->
  exists a u, pick env x = Ok a /\ pick ts x = Ok u /\ sh = a_shape a /\ wf a /\ P a u.
Proof.
  intros W H E. destruct (picked P env ts [x] [sh] W H) as (l & us & El & Eu & Es & Wl & Hl).
  { cbn [pick_all]. rewrite E. reflexivity. }
  cbn [pick_all] in El, Eu. destruct (pick env x) as [a| |]; cbn [rbind] in El; try discriminate.
  destruct (pick ts x) as [u| |]; cbn [rbind] in Eu; try discriminate. injection El as <-. injection Eu as <-.
  injection Es as Es. inversion Wl; inversion Hl; subst. eauto 8.
Qed.

(** ** Related arithmetics *)

(** Programs that fit return arrays of the shapes inferred, whatever the arithmetic; and the elements are related to those of the exact
    results in any arithmetic with the usual laws that the operations are related to. *)
Theorem programs_respect_relations :
  forall (F B : Type) (Sf : Scalar F) (Sb : Scalar B) (R : F -> B -> Prop), scalar_relation R -> semiring B ->
  forall h lay env env' p, (forall k, hash_ok (h k)) -> backend_runs lay -> fused_relation R lay ->
    Forall wf env -> Forall2 (related_arrays R) env env' -> calls_fit (map (@a_shape F) env) p ->
    exists rs rs', run_calls h lay env p = Ok rs /\ exact_calls env' p = Ok rs' /\ Forall wf rs
      /\ shape_calls (map (@a_shape F) env) p = Ok (map (@a_shape F) rs) /\ Forall2 (related_arrays R) rs rs'.
Proof.
  intros F B Sf Sb R HR SR h lay env env' p Hh Hl Hfu W H Hfit.
  destruct (on_calls_rel (related_arrays R) (run_call h lay)
    (fun _ => on_call (fun _ ops out size _ l => Ok (array_of (map size out) (einsum_value size l ops out)))
      (fun a b la ra => Ok (array_of (dot_shape a b la ra) (tensordot_value a b la ra))))) with (p := p) (k := 0) (env := env) (ts := env')
    as (rs & us & E1 & E2 & W' & H' & E3); auto.
  2:{ exists rs, us. auto. }
  clear p env env' W H Hfit. intros k env env' i W H Hi sh Es. unfold run_call.
  destruct i as [s ops out size how xs|x y la ra]; cbn [on_call call_fits] in *.
  - destruct Hi as (shs & Ep & Hc & Hn & How). rewrite Ep in Es. cbn [rbind] in Es. injection Es as <-.
    destruct (picked _ env env' xs shs W H Ep) as (l & us & El & Eu & -> & Wl & Hlu). rewrite El, Eu. cbn [rbind].
    assert (Ho : outcome_related R (run_einsum (h k) lay s how l) size l us ops out).
    { unfold run_einsum. destruct How as [->|[->| ->]].
      - apply (einsum_related R HR SR (h k) lay (Hh k) Hl Hfu); auto.
      - apply (compile_and_run_related R HR SR (h k) lay (Hh k) Hl Hfu); auto.
      - apply (compile_and_run_related R HR SR (h k) lay (Hh k) Hl Hfu); auto. }
    destruct Ho as [[_ Hb]|[_ (r & w & E & Hr & Hw)]]; [exfalso; revert Hb; apply no_empty_not_blocked; auto|].
    exists r. eexists. split; auto. split; [reflexivity|]. split; [eapply holds_wf; eauto|]. split; [apply Hr|].
    split; [rewrite array_of_shape; apply Hr|]. intros o Ho. rewrite (proj1 Hr) in Ho. exists (w o). eexists. split; [apply Hr; auto|].
    split; [apply (holds_mk_c (map size out)); auto|]. auto.
  - destruct Hi as (sx & sy & Ex & Ey & Hn & Ha & Hb & He). rewrite Ex, Ey in Es. cbn [rbind] in Es. injection Es as <-.
    destruct (picked_one _ env env' x sx W H Ex) as (a & a' & -> & -> & -> & Wa & Ra).
    destruct (picked_one _ env env' y sy W H Ey) as (b & b' & -> & -> & -> & Wb & Rb). cbn [rbind].
    destruct (tensordot_related lay Hl R HR SR Hfu a b a' b' la ra Wa Wb Ra Rb) as (r & w & E & Hr & Hw); auto.
    { rewrite He. auto. }
    exists r. eexists. split; auto. split; [reflexivity|]. split; [eapply holds_wf; eauto|]. split; [apply Hr|].
    assert (Es : dot_shape a' b' la ra = axis_lengths (a_shape a) (free_axes (length (a_shape a)) la) ++ axis_lengths (a_shape b) (free_axes (length (a_shape b)) ra)).
    { unfold dot_shape. rewrite <- (proj1 Ra), <- (proj1 Rb). reflexivity. }
    rewrite Es. split; [rewrite array_of_shape; apply Hr|]. intros o Ho. rewrite (proj1 Hr) in Ho. exists (w o). eexists. split; [apply Hr; auto|].
    split; [apply (holds_mk_c (axis_lengths _ _ ++ axis_lengths _ _)); auto|].
    rewrite <- (paired_value_sum SR); rewrite <- ?(proj1 Ra), <- ?(proj1 Rb); auto.
Qed.
Print Assumptions programs_respect_relations.

(** In arithmetic with the usual laws the results are the exact ones. *)
Theorem programs_compute :
  forall (A : Type) (Sc : Scalar A), semiring A ->
  forall h lay env p, (forall k, hash_ok (h k)) -> backend_ok lay -> Forall wf env -> calls_fit (map (@a_shape A) env) p ->
    exists rs rs', run_calls h lay env p = Ok rs /\ exact_calls env p = Ok rs' /\ Forall2 same_array rs rs'.
Proof.
  intros A Sc SR h lay env p Hh Hl W Hfit.
  destruct (programs_respect_relations A A Sc Sc eq eq_relation SR h lay env env p Hh Hl (eq_fused lay Hl) W) as (rs & rs' & E & E' & _ & _ & H); auto.
  { clear - W. induction W as [|a l Wa W IH]; constructor; auto. split; auto. intros o Ho. apply wf_readable in Wa as [_ Wg].
    destruct (Wg o Ho) as (x & Ex). eauto. }
  exists rs, rs'. split; auto. split; auto. clear - H. induction H as [|a b l l' [Hs H] _ IH]; constructor; auto. split; auto.
  intros o Ho. destruct (H o Ho) as (x & y & -> & -> & ->). reflexivity.
Qed.
Print Assumptions programs_compute.

(** A program that squares a matrix, multiplies the square by itself, and by a vector along each axis. *)
Definition ij_size : char -> nat := size_fn (combine (chars "ijk") [2; 2; 2]).
Definition powers : list call :=
  [ CallEinsum (chars "ij,jk->ik") [chars "ij"; chars "jk"] (chars "ik") ij_size None [0; 0];
    CallDot 2 2 [1] [0];
    CallEinsum (chars "i,ij,j->") [chars "i"; chars "ij"; chars "j"] [] ij_size (Some Reverse) [1; 3; 1] ].
Ltac calls_tac := cbn [calls_fit powers map]; repeat match goal with
  | |- True => exact I
  | |- _ /\ _ => split
  | |- call_fits _ (CallEinsum _ _ _ _ _ _) => eexists; split; [reflexivity|split; [apply check_call_ok; check_call_tac|split; [|auto]]];
      repeat (constructor; [left; apply nodup_b_ok; reflexivity|]); constructor
  | |- call_fits _ (CallDot _ _ _ _) => eexists _, _; split; [reflexivity|split; [reflexivity|split; [reflexivity|split; [axes_tac|split; [axes_tac|reflexivity]]]]]
  | |- exists sh, _ => eexists; split; [reflexivity|cbn [app]]
  end.
Example programs_case :
  let env := [zarr [2; 2] [1; 2; 3; 4]%Z; zarr [2] [1; -1]%Z] in
  Forall wf env /\ calls_fit (map (@a_shape Z) env) powers
  /\ shape_calls (map (@a_shape Z) env) powers = Ok [[2; 2]; [2]; [2; 2]; [2; 2]; []]
  /\ (do rs <- run_calls (fun _ => id_hash) c_backend env powers; do a <- pick rs 3; a_iter a) = Ok [199; 290; 435; 634]%Z
  /\ (do rs <- run_calls (fun _ => id_hash) c_backend env powers; do a <- pick rs 4; a_iter a) = Ok [108]%Z.
Proof.
  cbv zeta. split; [repeat (constructor; [apply wf_b_ok; reflexivity|]); constructor|]. split; [calls_tac|].
  split; [reflexivity|]. split; vm_compute; reflexivity.
Qed.

(** ** What does not matter *)

(** Programs that fit the shapes return, with whatever scalars. *)
Theorem programs_return :
  forall (F : Type) (Sf : Scalar F) h lay env p, (forall k, hash_ok (h k)) -> backend_runs lay -> Forall wf env ->
    calls_fit (map (@a_shape F) env) p ->
    exists rs, run_calls h lay env p = Ok rs /\ Forall wf rs /\ shape_calls (map (@a_shape F) env) p = Ok (map (@a_shape F) rs).
Proof.
  intros F Sf h lay env p Hh Hl W Hfit.
  destruct (@programs_respect_relations F unit Sf unit_scalar (fun _ _ => True) ltac:(constructor; auto) unit_semiring h lay env
    (map (amap (fun _ => tt)) env) p Hh Hl) as (rs & _ & E & _ & Wr & Es & _); eauto.
  { constructor; intros; auto. }
  apply relateds_amap; auto.
Qed.
Print Assumptions programs_return.

(** Floating-point numbers satisfy no laws. *)
Example programs_return_case :
  let env := [farr tiny [2; 2] [1; 2; 3; 4]%Z; farr tiny [2] [1; -1]%Z] in
  Forall wf env /\ calls_fit (map (@a_shape (float tiny)) env) powers
  /\ (do rs <- run_calls (fun _ => rev_hash) (plain_backend (A := float tiny)) env powers; Ok (map (@a_shape _) rs))
     = Ok [[2; 2]; [2]; [2; 2]; [2; 2]; []].
Proof.
  cbv zeta. split; [repeat (constructor; [apply wf_b_ok; reflexivity|]); constructor|]. split; [calls_tac|]. vm_compute. reflexivity.
Qed.

(** Two programs that differ in how the einsums are run only. *)
Definition forget (i : call) : call :=
  match i with CallEinsum s ops out size _ xs => CallEinsum s ops out size None xs | CallDot x y la ra => CallDot x y la ra end.

Lemma exact_forget {B} {Sb : Scalar B} (env : list (arr B)) p : exact_calls env (map forget p) = exact_calls env p.
Proof.
  unfold exact_calls. generalize 0 as k. revert env. induction p as [|i p IH]; intros env k; cbn [map on_calls]; auto.
  destruct i; cbn [forget on_call]; [destruct (pick_all env xs); cbn [rbind]; auto|destruct (pick env x), (pick env y); cbn [rbind]; auto].
Qed.
Lemma estimate_forget env p : estimate_calls env (map forget p) = estimate_calls env p.
Proof.
  unfold estimate_calls. generalize 0 as k. revert env. induction p as [|i p IH]; intros env k; cbn [map on_calls]; auto.
  destruct i; cbn [forget on_call]; [destruct (pick_all env xs); cbn [rbind]; auto|destruct (pick env x), (pick env y); cbn [rbind]; auto].
Qed.

(** Over a commutative semiring neither the strategies nor the hash orders nor the array library show. *)
Theorem programs_agree :
  forall (A : Type) (Sc : Scalar A), semiring A ->
  forall h h' lay lay' env p p', (forall k, hash_ok (h k)) -> (forall k, hash_ok (h' k)) -> backend_ok lay -> backend_ok lay' ->
    Forall wf env -> calls_fit (map (@a_shape A) env) p -> calls_fit (map (@a_shape A) env) p' -> map forget p = map forget p' ->
    exists rs rs', run_calls h lay env p = Ok rs /\ run_calls h' lay' env p' = Ok rs' /\ Forall2 same_array rs rs'.
Proof.
  intros A Sc SR h h' lay lay' env p p' Hh Hh' Hl Hl' W Hp Hp' E.
  destruct (programs_compute A Sc SR h lay env p Hh Hl W Hp) as (rs & xs & E1 & E2 & H).
  destruct (programs_compute A Sc SR h' lay' env p' Hh' Hl' W Hp') as (rs' & xs' & E1' & E2' & H').
  rewrite <- exact_forget, E, exact_forget, E2' in E2. injection E2 as <-. exists rs, rs'. split; auto. split; auto.
  clear - H H'. revert rs' H'. induction H as [|a b l m Hab H IH]; intros rs' H'; inversion H' as [|c b' l' m' Hcb H'']; subst; constructor; auto.
  split; [rewrite (proj1 Hab), (proj1 Hcb); auto|]. intros o Ho. rewrite (same_get _ _ o Hab), (same_get _ _ o Hcb). auto.
Qed.
Print Assumptions programs_agree.

Example programs_agree_case :
  let env := [zarr [2; 2] [1; 2; 3; 4]%Z; zarr [2] [1; -1]%Z] in
  calls_fit (map (@a_shape Z) env) (map forget powers) /\ map forget (map forget powers) = map forget powers
  /\ (do rs <- run_calls (fun _ => rev_hash) c_backend env (map forget powers); do a <- pick rs 4; a_iter a) = Ok [108]%Z.
Proof. cbv zeta. split; [cbn [forget map powers]; calls_tac|]. split; [reflexivity|]. vm_compute. reflexivity. Qed.

(** ** Rounding *)

(** Each result approximates what its estimate says: the roundings of a result are those of the operands it is computed from,
    counted each time they are used, and its own. *)
Theorem programs_rounding_error :
  forall (F : Type) (Sf : Scalar F) (v : F -> option Qc) (eps eta : Qc), rounding v eps eta ->
  forall h lay env ts p, (forall k, hash_ok (h k)) -> backend_runs lay -> fused_rounds v eps eta lay ->
    Forall wf env -> Forall2 (approximates v eps eta) env ts -> calls_fit (map (@a_shape F) env) p ->
    exists rs us, run_calls h lay env p = Ok rs /\ estimate_calls ts p = Ok us /\ Forall2 (approximates v eps eta) rs us.
Proof.
  intros F Sf v eps eta HF h lay env ts p Hh Hl Hfu W H Hfit.
  destruct (on_calls_rel (approximates v eps eta) (run_call h lay)
    (fun _ => on_call (fun _ ops out size _ l => Ok (estimated_sum size l ops out)) (fun t u la ra => Ok (estimated_dot t u la ra))))
    with (p := p) (k := 0) (env := env) (ts := ts) as (rs & us & E1 & E2 & W' & H' & E3); auto.
  2:{ exists rs, us. auto. }
  clear p env ts W H Hfit. intros k env ts i W H Hi sh Es. unfold run_call.
  destruct i as [s ops out size how xs|x y la ra]; cbn [on_call call_fits] in *.
  - destruct Hi as (shs & Ep & Hc & Hn & How). rewrite Ep in Es. cbn [rbind] in Es. injection Es as <-.
    destruct (picked _ env ts xs shs W H Ep) as (l & us & El & Eu & -> & Wl & Hlu). rewrite El, Eu. cbn [rbind].
    destruct (einsum_of_approximations F Sf v eps eta HF (h k) lay s l us ops out size (Hh k) Hl Hfu Hc Wl Hlu) as [O1 O2].
    assert (Ho : exists r, run_einsum (h k) lay s how l = Ok r /\ wf r /\ approximates v eps eta r (estimated_sum size us ops out)).
    { assert (Nb : ~ blocked_in size (combine l ops) out) by (apply no_empty_not_blocked; auto).
      unfold run_einsum. destruct How as [->|[->| ->]]; [destruct O1 as [[_ Hb]|[_ O]]|destruct (O2 Naive) as [[_ Hb]|[_ O]]|
        destruct (O2 Reverse) as [[_ Hb]|[_ O]]]; auto; contradiction. }
    destruct Ho as (r & E & Wr & Ar). exists r. eexists. split; auto. split; [reflexivity|]. split; auto. split; auto.
    destruct Ar as (Sr & _). unfold estimated_sum in Sr. cbn [es_value] in Sr. rewrite array_of_shape in Sr. auto.
  - destruct Hi as (sx & sy & Ex & Ey & Hn & Ha & Hb & He). rewrite Ex, Ey in Es. cbn [rbind] in Es. injection Es as <-.
    destruct (picked_one _ env ts x sx W H Ex) as (a & a' & -> & -> & -> & Wa & Ra).
    destruct (picked_one _ env ts y sy W H Ey) as (b & b' & -> & -> & -> & Wb & Rb). cbn [rbind].
    destruct (tensordot_of_approximations F Sf v eps eta HF lay a b a' b' la ra Hl Hfu Wa Wb) as (r & E & Wr & Ar); auto.
    { repeat split; auto; try apply Ha; apply Hb. }
    exists r. eexists. split; auto. split; [reflexivity|]. split; auto. split; auto.
    destruct Ar as (Sr & _). unfold estimated_dot in Sr. cbn [es_value] in Sr. rewrite array_of_shape in Sr. unfold dot_shape in Sr.
    rewrite (proj1 Ra), (proj1 Rb) in Sr. auto.
Qed.
Print Assumptions programs_rounding_error.

(** The square takes two roundings, its square six, because the square is used twice, and the last result eleven. *)
Example programs_rounding_case :
  let env := [farr tiny [2; 2] [1; 2; 3; 4]%Z; farr tiny [2] [1; -1]%Z] in
  Forall2 (approximates f_value (f_eps tiny) (f_eta tiny)) env (map (as_given f_value) env)
  /\ (do us <- estimate_calls (map (as_given f_value) env) powers; Ok (map es_roundings us)) = Ok [0; 0; 2; 6; 11].
Proof.
  cbv zeta. split; [|reflexivity].
  repeat (constructor; [apply arrays_approximate_themselves, wf_b_ok; reflexivity|]). constructor.
Qed.

(** Two runs of a program, with other strategies, hash orders or libraries: the results are no further apart than twice the bound. *)
Theorem program_runs_differ_by_at_most :
  forall (F : Type) (Sf : Scalar F) (v : F -> option Qc) (eps eta : Qc), rounding v eps eta ->
  forall h h' lay lay' env ts p p', (forall k, hash_ok (h k)) -> (forall k, hash_ok (h' k)) ->
    backend_runs lay -> backend_runs lay' -> fused_rounds v eps eta lay -> fused_rounds v eps eta lay' ->
    Forall wf env -> Forall2 (approximates v eps eta) env ts ->
    calls_fit (map (@a_shape F) env) p -> calls_fit (map (@a_shape F) env) p' -> map forget p = map forget p' ->
    exists rs rs' us, run_calls h lay env p = Ok rs /\ run_calls h' lay' env p' = Ok rs' /\ estimate_calls ts p = Ok us
      /\ forall n r r' u o q q', nth_error rs n = Some r -> nth_error rs' n = Some r' -> nth_error us n = Some u ->
           in_bounds (a_shape r) o = true -> v (elem r o) = Some q -> v (elem r' o) = Some q' ->
           (Qcabs (q - q') <= (1 + 1) * moved_by eps eta (es_roundings u) (elem (es_size u) o) (elem (es_padded u) o))%Qc.
Proof.
  intros F Sf v eps eta HF h h' lay lay' env ts p p' Hh Hh' Hl Hl' Hfu Hfu' W H Hp Hp' E.
  destruct (programs_rounding_error F Sf v eps eta HF h lay env ts p Hh Hl Hfu W H Hp) as (rs & us & E1 & E2 & H1).
  destruct (programs_rounding_error F Sf v eps eta HF h' lay' env ts p' Hh' Hl' Hfu' W H Hp') as (rs' & us' & E1' & E2' & H1').
  rewrite <- estimate_forget, <- E, estimate_forget, E2 in E2'. injection E2' as <-. exists rs, rs', us.
  split; auto. split; auto. split; auto. intros n r r' u o q q' Er Er' Eu Ho Hq Hq'.
  assert (N : forall xs n x, Forall2 (approximates v eps eta) xs us -> nth_error xs n = Some x -> nth_error us n = Some u -> approximates v eps eta x u).
  { clear. intros xs n x H. revert n. induction H as [|a b l m Hab H IH]; intros [|n]; cbn; try discriminate; eauto. intros. congruence. }
  destruct (N rs n r H1 Er Eu) as (S1 & _ & _ & A1). destruct (N rs' n r' H1' Er' Eu) as (S2 & _ & _ & A2).
  assert (Ho' : in_bounds (a_shape r') o = true) by (rewrite <- S2, S1; auto).
  destruct (A1 o Ho) as [_ [B1|(x & Ex & B1)]]; [congruence|]. destruct (A2 o Ho') as [_ [B2|(x' & Ex' & B2)]]; [congruence|].
  assert (x = q) by congruence. assert (x' = q') by congruence. subst x x'. set (y := elem (es_value u) o) in *. clearbody y.
  set (m := moved_by _ _ _ _ _) in *. clearbody m. replace (q - q')%Qc with ((q - y) + - (q' - y))%Qc by ring.
  eapply Qcle_trans; [apply Qcabs_triangle|]. rewrite Qcabs_opp. replace ((1 + 1) * m)%Qc with (m + m)%Qc by ring. apply Qcplus_le_compat; auto.
Qed.
Print Assumptions program_runs_differ_by_at_most.

(** ** Floating-point numbers *)

Theorem float_programs_rounding_error :
  forall f h (lay : backend (float f)) env p, (forall k, hash_ok (h k)) -> float_backend lay ->
    Forall wf env -> calls_fit (map (@a_shape (float f)) env) p ->
    exists rs us, run_calls h lay env p = Ok rs /\ estimate_calls (map (as_given f_value) env) p = Ok us
      /\ Forall2 (approximates f_value (f_eps f) (f_eta f)) rs us.
Proof.
  intros f h lay env p Hh Hl W Hp.
  apply (programs_rounding_error (float f) (float_scalar f) f_value (f_eps f) (f_eta f) (float_rounding f)); auto.
  - apply Hl.
  - apply float_fused_rounds; auto.
  - clear - W. induction W; cbn [map]; constructor; auto. apply arrays_approximate_themselves. auto.
Qed.
Print Assumptions float_programs_rounding_error.
