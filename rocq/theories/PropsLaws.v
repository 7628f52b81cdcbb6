(** Algebraic laws and special cases of [einsum]: C16, C22, C23, C24, C33, C34, C36. Each theorem
    is closed by a lemma proved elsewhere and is followed by a concrete case that meets its
    hypotheses. *)
From Verif Require Import Base NDArray Validation Path Api Spec ParserFacts SumFacts EinsumMain EinsumProps
  AlgebraFacts StagedFacts WrapFacts SpecialCases Examples.
From Coq Require Import Lia.
From Coq Require String.
Import String.StringSyntax.
Local Open Scope string_scope.
Local Open Scope list_scope.

(** ** C16: rearrangements *)

(** One operand, all of whose labels are in the output: every element of the result is the
    operand's element at the selected position. No law of the scalar operations is assumed. *)
Theorem rearrangement_is_exact :
  forall (A : Type) (Sc : Scalar A) h lay s ix out size (a : arr A), hash_ok h -> backend_runs lay ->
    call_ok s [a_shape a] [ix] out size -> wf a -> incl ix out ->
    NoDup ix \/ Forall (fun c => size c <> 0) ix ->
    exists r, einsum h lay s [a] = Ok r
      /\ a_shape r = map size out
      /\ forall o, in_bounds (map size out) o = true ->
           a_get r o = a_get a (map (bind out o) ix).
Proof. exact @rearrangement. Qed.
Print Assumptions rearrangement_is_exact.

(** With scalars that satisfy no law at all. *)
Example rearrangement_case :
  let a := mkArr [1; 2; 3; 4; 5; 6; 7; 8; 9; 10; 11; 12]%Z 0%Z [2; 3; 2] [1; 4; 2]%Z in
  call_ok (chars "iji->ji") [a_shape a] [chars "iji"] (chars "ji") (size_fn (combine (chars "ij") [2; 3]))
  /\ wf a /\ incl (chars "iji") (chars "ji")
  /\ (do r <- @einsum Z odd_scalar rev_hash c_backend (chars "iji->ji") [a]; @a_iter Z r)
     = Ok [1; 4; 5; 8; 9; 12]%Z.
Proof.
  split; [apply check_call_ok; check_call_tac|]. split; [apply wf_b_ok; reflexivity|].
  split; [|reflexivity]. intros c Hc. simpl in *. tauto.
Qed.

(** ** C22: operand order *)

(** The operands are given with their labels; the second call lists them in another order. *)
Theorem operand_order_is_irrelevant :
  forall (A : Type) (Sc : Scalar A), semiring A ->
  forall h h' lay lay' s s' (zs zs' : list (arr A * list char)) out,
    hash_ok h -> hash_ok h' -> backend_ok lay -> backend_ok lay' ->
    Forall wf (map fst zs) -> Permutation zs zs' ->
    grammar s (map snd zs) (Some out) -> grammar s' (map snd zs') (Some out) ->
    same_outcome (einsum h lay s (map fst zs)) (einsum h' lay' s' (map fst zs')).
Proof. intros A Sc. exact operand_order. Qed.
Print Assumptions operand_order_is_irrelevant.

Example operand_order_case :
  let a := zarr [2; 3] [1; 2; 3; 4; 5; 6]%Z in
  let b := zarr [3; 2] [1; 0; 0; 1; 1; 1]%Z in
  let c := zarr [2] [5; 7]%Z in
  let zs := [(a, chars "ij"); (b, chars "jk"); (c, chars "i")] in
  let zs' := [(c, chars "i"); (a, chars "ij"); (b, chars "jk")] in
  Permutation zs zs' /\ Forall wf (map fst zs)
  /\ grammar (chars "ij,jk,i->k") (map snd zs) (Some (chars "k"))
  /\ grammar (chars "i,ij,jk->k") (map snd zs') (Some (chars "k")).
Proof.
  split; [|split; [apply wfs_b_ok; reflexivity|split; apply parse_iff; reflexivity]].
  apply Permutation_sym.
  apply (Permutation_cons_app [(zarr [2; 3] [1; 2; 3; 4; 5; 6]%Z, chars "ij");
                               (zarr [3; 2] [1; 0; 0; 1; 1; 1]%Z, chars "jk")] []).
  apply Permutation_refl.
Qed.

(** ** C23: label names *)

(** [f] renames the labels of the call injectively. *)
Theorem label_names_are_irrelevant :
  forall (A : Type) (Sc : Scalar A), semiring A ->
  forall h h' lay lay' s s' (f : char -> char) (arrays : list (arr A)) ops out,
    hash_ok h -> hash_ok h' -> backend_ok lay -> backend_ok lay' -> Forall wf arrays ->
    (forall c d, In c (concat ops ++ out) -> In d (concat ops ++ out) -> f c = f d -> c = d) ->
    grammar s ops (Some out) -> grammar s' (map (map f) ops) (Some (map f out)) ->
    same_outcome (einsum h lay s arrays) (einsum h' lay' s' arrays).
Proof. intros A Sc. exact label_names. Qed.
Print Assumptions label_names_are_irrelevant.

Example label_names_case :
  let f := fun c : char => (219 - c)%N in
  grammar (chars "ij,jk->ik") [chars "ij"; chars "jk"] (Some (chars "ik"))
  /\ grammar (chars "rq,qp->rp") (map (map f) [chars "ij"; chars "jk"]) (Some (map f (chars "ik")))
  /\ (forall c d, In c (chars "ijjkik") -> In d (chars "ijjkik") -> f c = f d -> c = d).
Proof.
  split; [apply parse_iff; reflexivity|]. split; [apply parse_iff; reflexivity|].
  intros c d Hc Hd. simpl in Hc, Hd. intuition; subst; auto; discriminate.
Qed.

(** ** C24: multilinearity *)

(** Adding two values of one operand adds the results ... *)
Theorem einsum_is_additive_in_each_operand :
  forall (A : Type) (Sc : Scalar A), semiring A ->
  forall h lay s (pre post : list (arr A)) (x y z : arr A) rx ry rz,
    hash_ok h -> backend_ok lay -> Forall wf (pre ++ post) -> wf x -> wf y -> wf z ->
    a_shape x = a_shape z -> a_shape y = a_shape z ->
    (forall idx, in_bounds (a_shape z) idx = true -> elem z idx = sadd (elem x idx) (elem y idx)) ->
    einsum h lay s (pre ++ x :: post) = Ok rx -> einsum h lay s (pre ++ y :: post) = Ok ry ->
    einsum h lay s (pre ++ z :: post) = Ok rz ->
    a_shape rx = a_shape rz /\ a_shape ry = a_shape rz
    /\ forall o, in_bounds (a_shape rz) o = true -> elem rz o = sadd (elem rx o) (elem ry o).
Proof. intros A Sc. exact additive. Qed.
Print Assumptions einsum_is_additive_in_each_operand.

(** ... and scaling one operand scales the result. *)
Theorem einsum_is_homogeneous_in_each_operand :
  forall (A : Type) (Sc : Scalar A), semiring A ->
  forall h lay s (pre post : list (arr A)) (x z : arr A) k rx rz,
    hash_ok h -> backend_ok lay -> Forall wf (pre ++ post) -> wf x -> wf z ->
    a_shape x = a_shape z ->
    (forall idx, in_bounds (a_shape z) idx = true -> elem z idx = smul k (elem x idx)) ->
    einsum h lay s (pre ++ x :: post) = Ok rx -> einsum h lay s (pre ++ z :: post) = Ok rz ->
    a_shape rx = a_shape rz
    /\ forall o, in_bounds (a_shape rz) o = true -> elem rz o = smul k (elem rx o).
Proof. intros A Sc. exact homogeneous. Qed.
Print Assumptions einsum_is_homogeneous_in_each_operand.

Example multilinear_case :
  let b := zarr [3; 2] [1; 0; 0; 1; 1; 1]%Z in
  let x := zarr [2; 3] [1; 2; 3; 4; 5; 6]%Z in
  let y := mkArr [9; 8; 7; 6; 5; 4]%Z 0%Z [2; 3] [1; 2]%Z in
  let z := zarr [2; 3] [10; 9; 8; 12; 11; 10]%Z in
  let run w := (do r <- einsum id_hash c_backend (chars "jk,ij->k") [b; w]; a_iter r) in
  (forall idx, in_bounds (a_shape z) idx = true -> elem z idx = (elem x idx + elem y idx)%Z)
  /\ run x = Ok [14; 16]%Z /\ run y = Ok [26; 22]%Z /\ run z = Ok [40; 38]%Z.
Proof.
  split; [|repeat split; reflexivity].
  intros idx Hi. apply indices_complete in Hi. simpl in Hi.
  repeat (destruct Hi as [<-|Hi]; [reflexivity|]). contradiction.
Qed.

(** ** C33: wrap-around integers *)

(** For every width: the result is the integer Einstein sum of the operands' values, wrapped. *)
Theorem wrapping_integers :
  forall (w : Z) (norm : Z -> Z) (Hn : wraps (2 ^ w) norm) h (lay : backend (wint norm))
         s arrays ops out size,
    hash_ok h -> @backend_ok _ (wint_scalar (2 ^ w) norm Hn) lay ->
    call_ok s (map (@a_shape (wint norm)) arrays) ops out size -> Forall wf arrays ->
    no_empty_diagonal size ops ->
    exists r, @einsum (wint norm) (wint_scalar (2 ^ w) norm Hn) h lay s arrays = Ok r
      /\ a_shape r = map size out
      /\ forall o, in_bounds (map size out) o = true ->
           exists x, a_get r o = Ok x
             /\ proj1_sig x = norm (einsum_value size (map (amap (@proj1_sig _ _)) arrays) ops out o).
Proof. intros w norm Hn. exact (wrapped_value (2 ^ w) norm Hn). Qed.
Print Assumptions wrapping_integers.

(** Unsigned and two's complement registers are instances. *)
Theorem machine_integers_wrap :
  (forall w, (0 <= w)%Z -> wraps (2 ^ w) (unsigned_wrap w))
  /\ (forall w, (0 < w)%Z -> wraps (2 ^ w) (signed_wrap w))
  /\ (forall w z, (0 <= w)%Z -> (0 <= unsigned_wrap w z < 2 ^ w)%Z)
  /\ (forall w z, (0 < w)%Z -> (- 2 ^ (w - 1) <= signed_wrap w z < 2 ^ (w - 1))%Z).
Proof. exact registers_wrap. Qed.
Print Assumptions machine_integers_wrap.

Example wrapping_case :
  let H8 := signed_wraps 8 eq_refl in
  let i8 := wrap (2 ^ 8) (signed_wrap 8) H8 in
  let a := mk_c [2; 2] (map i8 [100; 100; -128; 127]%Z) in
  let b := mk_c [2] (map i8 [3; 5]%Z) in
  match @einsum _ (wint_scalar (2 ^ 8) (signed_wrap 8) H8) id_hash (@plain_backend _ (wint_scalar (2 ^ 8) (signed_wrap 8) H8)) (chars "ij,j->i") [a; b] with
  | Ok r => map (@proj1_sig _ _) (a_data r) = [32; -5]%Z
  | _ => False
  end.
Proof. reflexivity. Qed.

(** ** C34: staged evaluation *)

(** [ops1] are contracted first, keeping the labels [mid] that [ops2] or the output use. If the
    one-call version is well formed, both versions end in the same way; and whenever the staged
    version returns an array, so does the one call, with the same elements. *)
Theorem staged_evaluation :
  forall (A : Type) (Sc : Scalar A), semiring A ->
  forall h1 h2 h3 lay1 lay2 lay3 s s1 s2 (a1 a2 : list (arr A)) ops1 ops2 out mid,
    hash_ok h1 -> hash_ok h2 -> hash_ok h3 -> backend_ok lay1 -> backend_ok lay2 -> backend_ok lay3 ->
    Forall wf a1 -> Forall wf a2 -> length a1 = length ops1 ->
    NoDup mid /\ (forall c, In c mid <-> In c (concat ops1) /\ (In c (concat ops2) \/ In c out)) ->
    grammar s (ops1 ++ ops2) (Some out) -> grammar s1 ops1 (Some mid) ->
    grammar s2 (mid :: ops2) (Some out) ->
    (accepted s (map (@a_shape A) (a1 ++ a2)) ->
     same_outcome (do t <- einsum h1 lay1 s1 a1; einsum h2 lay2 s2 (t :: a2))
                  (einsum h3 lay3 s (a1 ++ a2)))
    /\ (forall r, (do t <- einsum h1 lay1 s1 a1; einsum h2 lay2 s2 (t :: a2)) = Ok r ->
        exists r', einsum h3 lay3 s (a1 ++ a2) = Ok r' /\ same_array r r').
Proof. intros A Sc. exact staged_outcome. Qed.
Print Assumptions staged_evaluation.

Example staged_case :
  let a := zarr [2; 3] [1; 2; 3; 4; 5; 6]%Z in
  let b := zarr [3; 2] [1; 0; 0; 1; 1; 1]%Z in
  let c := zarr [2] [5; 7]%Z in
  (NoDup (chars "ki") /\ forall x, In x (chars "ki") <->
     In x (concat [chars "ij"; chars "jk"]) /\ (In x (concat [chars "i"]) \/ In x (chars "k")))
  /\ grammar (chars "ij,jk,i->k") ([chars "ij"; chars "jk"] ++ [chars "i"]) (Some (chars "k"))
  /\ grammar (chars "ij,jk->ki") [chars "ij"; chars "jk"] (Some (chars "ki"))
  /\ grammar (chars "ki,i->k") (chars "ki" :: [chars "i"]) (Some (chars "k"))
  /\ (do t <- einsum id_hash c_backend (chars "ij,jk->ki") [a; b];
      do r <- einsum id_hash c_backend (chars "ki,i->k") [t; c]; a_iter r) = Ok [90; 102]%Z
  /\ (do r <- einsum id_hash c_backend (chars "ij,jk,i->k") [a; b; c]; a_iter r) = Ok [90; 102]%Z.
Proof.
  split; [split; [apply nodup_b_ok; reflexivity|]|
    split; [apply parse_iff; reflexivity|split; [apply parse_iff; reflexivity|
      split; [apply parse_iff; reflexivity|split; reflexivity]]]].
  intros x. simpl. intuition; subst; try discriminate; auto.
Qed.

(** ** C36: special cases *)

Section Special.
Variables (A : Type) (Sc : Scalar A) (h : hash_order) (lay : backend A).

Definition returns (s : list char) (arrays : list (arr A)) (sh : list nat) (f : list nat -> A) : Prop :=
  exists r, einsum h lay s arrays = Ok r /\ holds r sh f.

End Special.
Arguments returns {A Sc} h lay s arrays sh f.

Theorem special_cases :
  forall (A : Type) (Sc : Scalar A), semiring A ->
  forall h lay, hash_ok h -> backend_ok lay ->
  forall (a b : arr A) n m k p, wf a -> wf b ->
    (* trace *)
    (n <> 0 -> a_shape a = [n; n] ->
       returns h lay (chars "ii->") [a] [] (fun _ => sum_n n (fun i => elem a [i; i]))
       /\ returns h lay (chars "ii") [a] [] (fun _ => sum_n n (fun i => elem a [i; i]))) /\
    (* diagonal *)
    (n <> 0 -> a_shape a = [n; n] ->
       returns h lay (chars "ii->i") [a] [n] (fun o => elem a [nth 0 o 0; nth 0 o 0])) /\
    (* transpose *)
    (a_shape a = [n; m] ->
       returns h lay (chars "ij->ji") [a] [m; n] (fun o => elem a [nth 1 o 0; nth 0 o 0])
       /\ returns h lay (chars "ji") [a] [m; n] (fun o => elem a [nth 1 o 0; nth 0 o 0])) /\
    (* row sums *)
    (a_shape a = [n; m] ->
       returns h lay (chars "ij->i") [a] [n] (fun o => sum_n m (fun j => elem a [nth 0 o 0; j]))) /\
    (* matrix product *)
    (a_shape a = [n; m] -> a_shape b = [m; k] ->
       returns h lay (chars "ij,jk->ik") [a; b] [n; k]
         (fun o => sum_n m (fun j => smul (elem a [nth 0 o 0; j]) (elem b [j; nth 1 o 0])))) /\
    (* outer product *)
    (a_shape a = [n] -> a_shape b = [m] ->
       returns h lay (chars "i,j->ij") [a; b] [n; m]
         (fun o => smul (elem a [nth 0 o 0]) (elem b [nth 1 o 0]))) /\
    (* element-wise product *)
    (a_shape a = [n; m] -> a_shape b = [n; m] ->
       returns h lay (chars "ij,ij->ij") [a; b] [n; m] (fun o => smul (elem a o) (elem b o))) /\
    (* batched matrix product *)
    (a_shape a = [p; n; m] -> a_shape b = [p; m; k] ->
       returns h lay (chars "bij,bjk->bik") [a; b] [p; n; k]
         (fun o => sum_n m (fun j => smul (elem a [nth 0 o 0; nth 1 o 0; j])
                                          (elem b [nth 0 o 0; j; nth 2 o 0])))) /\
    (* dot product *)
    (a_shape a = [n] -> a_shape b = [n] ->
       returns h lay (chars "i,i->") [a; b] []
         (fun _ => sum_n n (fun i => smul (elem a [i]) (elem b [i])))).
Proof. exact special_cases_hold. Qed.
Print Assumptions special_cases.

Example special_case_runs :
  let a := mkArr [1; 2; 3; 4]%Z 0%Z [2; 2] [1; 2]%Z in
  map (fun s => do r <- einsum id_hash c_backend (chars s) [a]; a_iter r)
      ["ii"; "ii->i"; "ij->ji"; "ji"; "ij->i"]
  = [Ok [5]; Ok [1; 4]; Ok [1; 2; 3; 4]; Ok [1; 2; 3; 4]; Ok [4; 6]]%Z.
Proof. reflexivity. Qed.
