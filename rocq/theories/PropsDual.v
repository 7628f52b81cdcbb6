(** Derivatives of Einstein sums by running over dual numbers, and runs over complex numbers (C67). *)
From Verif Require Import Base NDArray Validation Optimizers Path Api Spec ParserFacts ValidationMain SumFacts
  EinsumMain EinsumProps RelationFacts TensordotMain PropsEinsum PropsRelation DualFacts Examples.
From Coq Require Import Lia.
From Coq Require String.
Import String.StringSyntax.
Local Open Scope string_scope.
Local Open Scope list_scope.

(** A run over dual numbers returns the Einstein sum of the values and its derivative in the direction of the
    slopes; it panics exactly where every run panics. *)
Theorem dual_runs_differentiate :
  forall (A : Type) (Sc : Scalar A), semiring A ->
  forall h (lay : backend (dual A)) s (arrays : list (arr (dual A))) ops out size,
    hash_ok h -> @backend_ok _ dual_scalar lay ->
    call_ok s (map (@a_shape _) arrays) ops out size -> Forall wf arrays ->
    let described (x : res (arr (dual A))) :=
      (x = Panic /\ blocked_in size (combine arrays ops) out)
      \/ (~ blocked_in size (combine arrays ops) out
          /\ exists r, x = Ok r
             /\ holds r (map size out) (fun o =>
                  (einsum_value size (map (amap fst) arrays) ops out o,
                   derivative size (map (amap fst) arrays) (map (amap snd) arrays) ops out o))) in
    described (@einsum _ dual_scalar h lay s arrays)
    /\ forall strategy, strategy = Naive \/ strategy = Reverse ->
         described (do p <- einsum_path_fn h s arrays strategy; @contract_operands _ dual_scalar lay p arrays).
Proof.
  intros A Sc SR h lay s arrays ops out size Hh Hl Hc Hw described.
  assert (Hn : length arrays = length ops).
  { destruct Hc as (_ & _ & Hs). apply ArrayFacts.Forall2_len in Hs. rewrite map_length in Hs. auto. }
  assert (D : forall x, @outcome_is _ dual_scalar x size arrays ops out -> described x).
  { intros x [H|[H (r & E & Hr)]]; [left; auto|right]. split; auto. exists r. split; auto.
    eapply ArrayFacts.holds_ext; [|exact Hr]. intros o Ho. apply (dual_value SR). auto. }
  split.
  - apply D. apply (@einsum_outcome _ dual_scalar (dual_semiring SR) h lay Hh Hl); auto.
  - intros strategy Hst. apply D. apply (@compile_and_run_outcome _ dual_scalar (dual_semiring SR) h lay Hh Hl); auto.
Qed.
Print Assumptions dual_runs_differentiate.

(** That is the derivative: moving the operands by [t] along the slopes, up to multiples of [t * t], moves the
    result of a run by [t] times it, up to a multiple of [t * t]. *)
Theorem runs_move_by_the_derivative :
  forall (A : Type) (Sc : Scalar A), semiring A ->
  forall (t : A) h lay s (moved : list (arr A)) (arrays : list (arr (dual A))) ops out size,
    hash_ok h -> backend_ok lay ->
    call_ok s (map (@a_shape A) moved) ops out size -> Forall wf moved ->
    Forall2 (related_arrays (expands t)) moved arrays ->
    let described (x : res (arr A)) :=
      (x = Panic /\ blocked_in size (combine moved ops) out)
      \/ (~ blocked_in size (combine moved ops) out
          /\ exists r f, x = Ok r /\ holds r (map size out) f
             /\ forall o, in_bounds (map size out) o = true -> exists q,
                  f o = sadd (sadd (einsum_value size (map (amap fst) arrays) ops out o)
                                   (smul t (derivative size (map (amap fst) arrays) (map (amap snd) arrays) ops out o)))
                             (smul (smul t t) q)) in
    described (einsum h lay s moved)
    /\ forall strategy, strategy = Naive \/ strategy = Reverse ->
         described (do p <- einsum_path_fn h s moved strategy; contract_operands lay p moved).
Proof.
  intros A Sc SR t h lay s moved arrays ops out size Hh Hl Hc Hw Hr described.
  assert (Hn : length arrays = length ops).
  { destruct Hc as (_ & _ & Hs). apply ArrayFacts.Forall2_len in Hs. apply ArrayFacts.Forall2_len in Hr. rewrite map_length in Hs. congruence. }
  assert (D : forall x, @outcome_related _ _ dual_scalar (expands t) x size moved arrays ops out -> described x).
  { intros x [H|[H (r & f & E & Hf & Hv)]]; [left; auto|right]. split; auto. exists r, f. split; auto. split; auto.
    intros o Ho. specialize (Hv o Ho). rewrite (dual_value SR) in Hv by auto. exact Hv. }
  destruct (einsum_respects_relations A (dual A) Sc dual_scalar (expands t) (expands_relation SR t) (dual_semiring SR)
              h lay s moved arrays ops out size Hh Hl) as [H1 H2]; auto.
  apply (@fused_exact_rel _ _ Sc dual_scalar (expands t)); auto. apply expands_relation; auto.
Qed.
Print Assumptions runs_move_by_the_derivative.

(** [tensordot] over dual numbers: the product rule. *)
Theorem dual_tensordot_differentiates :
  forall (A : Type) (Sc : Scalar A), semiring A ->
  forall (lay : backend (dual A)) (a b : arr (dual A)) la ra, @backend_ok _ dual_scalar lay -> wf a -> wf b ->
    length la = length ra -> axes_ok (length (a_shape a)) la -> axes_ok (length (a_shape b)) ra ->
    axis_lengths (a_shape a) la = axis_lengths (a_shape b) ra ->
    let kept := axis_lengths (a_shape a) (free_axes (length (a_shape a)) la)
                ++ axis_lengths (a_shape b) (free_axes (length (a_shape b)) ra) in
    exists r, tensordot lay a b la ra = Ok r
      /\ holds r kept (fun o =>
           (tensordot_value (amap fst a) (amap fst b) la ra o,
            sadd (tensordot_value (amap fst a) (amap snd b) la ra o)
                 (tensordot_value (amap snd a) (amap fst b) la ra o))).
Proof.
  intros A Sc SR lay a b la ra Hl Wa Wb Hn Ha Hb He kept.
  destruct (tensordot_respects_relations (dual A) (dual A) dual_scalar dual_scalar eq eq_relation (dual_semiring SR)
              lay a b a b la ra) as (r & f & E & Hr & Hf); auto.
  { apply (@eq_fused _ dual_scalar); auto. }
  { pose proof (eq_related [a] ltac:(auto)) as H. inversion H; auto. }
  { pose proof (eq_related [b] ltac:(auto)) as H. inversion H; auto. }
  exists r. split; auto. eapply ArrayFacts.holds_ext; [|exact Hr]. intros o Ho. rewrite Hf by auto.
  apply (dual_tensordot_value SR).
Qed.
Print Assumptions dual_tensordot_differentiates.

(** A cube of a matrix with a slope: "ij,jk,kl->il" over integers. *)
Definition dual_m : arr (dual Z) := mk_c [2; 2] [(1, 0); (2, 1); (0, -1); (3, 0)]%Z.
Example dual_case :
  let size := size_fn (combine (chars "ijkl") [2; 2; 2; 2]) in
  let ops := [chars "ij"; chars "jk"; chars "kl"] in
  call_ok (chars "ij,jk,kl->il") (map (@a_shape _) [dual_m; dual_m; dual_m]) ops (chars "il") size
  /\ Forall wf [dual_m; dual_m; dual_m]
  /\ @backend_ok _ dual_scalar (@plain_backend _ dual_scalar)
  /\ (do r <- @einsum _ dual_scalar id_hash (@plain_backend _ dual_scalar) (chars "ij,jk,kl->il") [dual_m; dual_m; dual_m];
      a_iter r) = Ok [(1, -10); (26, 9); (0, -13); (27, -14)]%Z
  /\ map (derivative size (map (amap fst) [dual_m; dual_m; dual_m]) (map (amap snd) [dual_m; dual_m; dual_m]) ops (chars "il"))
       (indices [2; 2]) = [-10; 9; -13; -14]%Z.
Proof.
  split; [apply check_call_ok; check_call_tac|]. split; [apply wfs_b_ok; reflexivity|].
  split; [apply plain_backend_ok|]. split; vm_compute; reflexivity.
Qed.

(** The operands moved by ten: the result differs from value + 10 * slope by a multiple of a hundred. *)
Definition moved_m : arr Z := zarr [2; 2] [1; 12; -10; 3]%Z.
Example moved_case :
  Forall2 (related_arrays (expands 10%Z)) [moved_m; moved_m; moved_m] [dual_m; dual_m; dual_m]
  /\ (do r <- einsum id_hash c_backend (chars "ij,jk,kl->il") [moved_m; moved_m; moved_m]; a_iter r)
     = Ok [1 + 10 * -10 + 100 * -5; 26 + 10 * 9 + 100 * -14; 0 + 10 * -13 + 100 * 12; 27 + 10 * -14 + 100 * -7]%Z.
Proof.
  split; [|vm_compute; reflexivity].
  assert (related_arrays (expands 10%Z) moved_m dual_m).
  { split; [reflexivity|]. intros idx Hi. apply indices_complete in Hi. cbv in Hi.
    destruct Hi as [<-|[<-|[<-|[<-|[]]]]]; (do 2 eexists; split; [reflexivity|split; [reflexivity|]]); exists 0%Z; reflexivity. }
  do 3 (constructor; [assumption|]). constructor.
Qed.

Example dual_tensordot_case :
  wf dual_m /\ axes_ok 2 [1] /\ axes_ok 2 [0] /\ axis_lengths (a_shape dual_m) [1] = axis_lengths (a_shape dual_m) [0]
  /\ (do r <- tensordot (@plain_backend _ dual_scalar) dual_m dual_m [1] [0]; a_iter r)
     = Ok [(1, -2); (8, 4); (0, -4); (9, -2)]%Z.
Proof.
  split; [apply wf_b_ok; reflexivity|]. split; [split; [repeat constructor; simpl; lia|repeat constructor; simpl; tauto]|].
  split; [split; [repeat constructor; simpl; lia|repeat constructor; simpl; tauto]|]. split; vm_compute; reflexivity.
Qed.

(** ** Complex numbers *)

(** Over the complex numbers of any commutative ring: conjugating the operands conjugates the result, and
    real operands give a real result, the one a run over the ring itself returns. *)
Theorem complex_runs :
  forall (A : Type) (Sc : Scalar A) (neg : A -> A),
  ring_theory szero sone sadd smul (fun x y => sadd x (neg y)) neg (@eq A) ->
  forall h h' (lay lay' : backend (A * A)), hash_ok h -> hash_ok h' ->
    @backend_ok _ (complex_scalar neg) lay -> @backend_ok _ (complex_scalar neg) lay' ->
  (forall s arrays, Forall wf arrays ->
     mapped_outcome (conjugate neg) (@einsum _ (complex_scalar neg) h lay s arrays)
       (@einsum _ (complex_scalar neg) h' lay' s (map (amap (conjugate neg)) arrays)))
  /\ (forall (layr : backend A), backend_ok layr -> forall s arrays, Forall wf arrays ->
       mapped_outcome (fun x => (x, szero)) (einsum h layr s arrays)
         (@einsum _ (complex_scalar neg) h' lay' s (map (amap (fun x => (x, szero))) arrays))).
Proof.
  intros A Sc neg RT h h' lay lay' Hh Hh' Hl Hl'. split.
  - intros s arrays Hw.
    apply (@einsum_commutes_with_homomorphisms _ _ (complex_scalar neg) (complex_scalar neg) (conjugate neg)); auto.
    + apply conjugate_homomorphism; auto.
    + apply complex_semiring; auto.
    + intros x y z. rewrite (@fused_exact _ _ lay Hl). destruct (conjugate_homomorphism neg RT) as (_ & _ & H1 & H2).
      rewrite H1, H2. auto.
  - intros layr Hr s arrays Hw.
    apply (@einsum_commutes_with_homomorphisms _ _ Sc (complex_scalar neg) (fun x => (x, szero))); auto.
    + apply real_homomorphism; auto.
    + apply complex_semiring; auto.
    + intros x y z. rewrite (@fused_exact _ _ layr Hr). destruct (real_homomorphism neg RT) as (_ & _ & H1 & H2).
      rewrite H1, H2. auto.
Qed.
Print Assumptions complex_runs.

Example complex_case :
  let cs := complex_scalar Z.opp in
  let a : arr (Z * Z) := mk_c [2; 2] [(1, 2); (0, 1); (3, -1); (2, 0)]%Z in
  let b : arr (Z * Z) := mk_c [2] [(1, 1); (0, -4)]%Z in
  ring_theory szero sone sadd smul (fun x y => sadd x (Z.opp y)) Z.opp (@eq Z)
  /\ @backend_ok _ cs (@plain_backend _ cs) /\ Forall wf [a; b]
  /\ (do r <- @einsum _ cs id_hash (@plain_backend _ cs) (chars "ij,j->i") [a; b]; a_iter r) = Ok [(3, 3); (4, -6)]%Z
  /\ (do r <- @einsum _ cs rev_hash (@plain_backend _ cs) (chars "ij,j->i") (map (amap (conjugate Z.opp)) [a; b]); a_iter r)
     = Ok [(3, -3); (4, 6)]%Z.
Proof.
  split; [exact InitialRing.Zth|]. split; [apply plain_backend_ok|]. split; [apply wfs_b_ok; reflexivity|].
  split; vm_compute; reflexivity.
Qed.
