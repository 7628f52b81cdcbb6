(** C57, C58 and C59: adjoints, blocks, and operands that can be left out. *)
From Verif Require Import Base BaseFacts NDArray Validation Optimizers Strategies Singleton Pair Path
  Api Spec ValidationFacts SumFacts ArrayFacts EinsumMain EinsumProps AlgebraFacts ParserFacts AdjointFacts
  BlockFacts UnitFacts Examples.
From Coq Require Import Lia.
From Coq Require String.
Import String.StringSyntax.
Local Open Scope string_scope.
Local Open Scope list_scope.

(** ** C57: adjoints *)

(** [x], with labels [ix], is one of the operands of a call that returned [r], and [z] is an array of
    the shape of [r]. Putting [z] in the place of [x] and asking for the labels of [x] gives the
    adjoint: the sum of the products of [z] and [r] is that of [x] and [g]. Every label of [x] has to
    occur once in it, and in another operand or the output. *)
Theorem adjoint_is_an_einsum :
  forall (A : Type) (Sc : Scalar A), semiring A ->
  forall h h' lay lay' s s' (pre post : list (arr A)) (x z r : arr A) pops ix qops out,
    hash_ok h -> hash_ok h' -> backend_ok lay -> backend_ok lay' ->
    Forall wf (pre ++ post) -> wf x -> wf z -> length pre = length pops ->
    NoDup ix -> incl ix (concat (pops ++ qops) ++ out) ->
    grammar s (pops ++ ix :: qops) (Some out) -> grammar s' (pops ++ out :: qops) (Some ix) ->
    einsum h lay s (pre ++ x :: post) = Ok r -> a_shape z = a_shape r ->
    exists g, einsum h' lay' s' (pre ++ z :: post) = Ok g /\ a_shape g = a_shape x
      /\ sum_over (a_shape r) (fun o => smul (elem z o) (elem r o))
         = sum_over (a_shape x) (fun i => smul (elem x i) (elem g i)).
Proof. intros A Sc. exact adjoint_call. Qed.
Print Assumptions adjoint_is_an_einsum.

(** So [g] is the gradient of the sum of the products of [z] and the result: adding [dx] to [x] adds
    the sum of the products of [dx] and [g], exactly. *)
Theorem gradient_is_an_einsum :
  forall (A : Type) (Sc : Scalar A), semiring A ->
  forall h h' lay lay' s s' (pre post : list (arr A)) (x dx x' z r r' g : arr A) pops ix qops out,
    hash_ok h -> hash_ok h' -> backend_ok lay -> backend_ok lay' ->
    Forall wf (pre ++ post) -> wf x -> wf x' -> wf z -> length pre = length pops ->
    NoDup ix -> incl ix (concat (pops ++ qops) ++ out) ->
    grammar s (pops ++ ix :: qops) (Some out) -> grammar s' (pops ++ out :: qops) (Some ix) ->
    a_shape x' = a_shape x ->
    (forall i, in_bounds (a_shape x) i = true -> elem x' i = sadd (elem x i) (elem dx i)) ->
    einsum h lay s (pre ++ x :: post) = Ok r -> einsum h lay s (pre ++ x' :: post) = Ok r' ->
    a_shape z = a_shape r -> einsum h' lay' s' (pre ++ z :: post) = Ok g ->
    sum_over (a_shape r') (fun o => smul (elem z o) (elem r' o))
    = sadd (sum_over (a_shape r) (fun o => smul (elem z o) (elem r o)))
           (sum_over (a_shape x) (fun i => smul (elem dx i) (elem g i))).
Proof.
  intros A Sc SR h h' lay lay' s s' pre post x dx x' z r r' g pops ix qops out Hh Hh' Hl Hl' Hw Wx Wx' Wz Hlen
    Ni Ii G G' Sx Hx E E' Sz Eg.
  assert (Wmid : forall w, wf w -> Forall wf (pre ++ w :: post)).
  { intros w Ww. apply Forall_app in Hw as [P1 P2]. apply Forall_app. auto. }
  assert (Sr : a_shape r' = a_shape r).
  { destruct (einsum_ok_inv SR h lay Hh Hl s _ r (Wmid x Wx) E) as (o1 & u1 & size & Hc & _ & Hr).
    pose proof (ok_value SR h lay s (pre ++ x' :: post) o1 u1 size r' Hh Hl (Wmid x' Wx')) as Hr'.
    rewrite map_app in Hr', Hc. cbn [map] in Hr', Hc. rewrite Sx in Hr'. specialize (Hr' Hc E').
    destruct Hr as (-> & _). destruct Hr' as (-> & _). auto. }
  destruct (adjoint_call SR h h' lay lay' s s' pre post x z r pops ix qops out) as (g1 & E1 & _ & V1); auto.
  destruct (adjoint_call SR h h' lay lay' s s' pre post x' z r' pops ix qops out) as (g2 & E2 & _ & V2); auto;
    [congruence|].
  assert (g1 = g) by congruence. assert (g2 = g) by congruence. subst g1 g2. apply (gradient_call SR x dx x' z r r' g); auto.
Qed.
Print Assumptions gradient_is_an_einsum.

Example adjoint_case :
  let a := zarr [2; 3] [1; 2; 3; 4; 5; 6]%Z in
  let x := zarr [3; 2] [1; 0; 0; 1; 1; 1]%Z in
  let c := zarr [2] [5; 7]%Z in
  let z := mkArr [2; 9; -3; 9]%Z 0%Z [2] [2]%Z in
  NoDup (chars "jk") /\ incl (chars "jk") (concat ([chars "ij"] ++ [chars "i"]) ++ chars "k")
  /\ grammar (chars "ij,jk,i->k") ([chars "ij"] ++ chars "jk" :: [chars "i"]) (Some (chars "k"))
  /\ grammar (chars "ij,k,i->jk") ([chars "ij"] ++ chars "k" :: [chars "i"]) (Some (chars "jk"))
  /\ (do r <- einsum id_hash c_backend (chars "ij,jk,i->k") [a; x; c]; a_iter r) = Ok [90; 102]%Z
  /\ (do g <- einsum id_hash c_backend (chars "ij,k,i->jk") [a; z; c]; a_iter g) = Ok [66; -99; 90; -135; 114; -171]%Z
  /\ (2 * 90 + -3 * 102 = 1 * 66 + 0 * -99 + 0 * 90 + 1 * -135 + 1 * 114 + 1 * -171)%Z.
Proof.
  split; [apply nodup_b_ok; reflexivity|]. split; [intros y; vm_compute; tauto|].
  split; [apply parse_iff; reflexivity|]. split; [apply parse_iff; reflexivity|]. repeat split; reflexivity.
Qed.

(** ** C58: blocks *)

(** Restricting an output label to a range in every operand gives that range of the result. *)
Theorem kept_labels_in_blocks :
  forall (A : Type) (Sc : Scalar A), semiring A ->
  forall h h' lay lay' s (arrays bs : list (arr A)) ops out size c off len,
    hash_ok h -> hash_ok h' -> backend_ok lay -> backend_ok lay' ->
    call_ok s (map (@a_shape A) arrays) ops out size -> Forall wf arrays -> Forall wf bs ->
    In c out -> off + len <= size c ->
    Forall2 (fun p b => part size c off len (snd p) (fst p) b) (combine arrays ops) bs ->
    no_empty_diagonal (upd size c len) ops ->
    exists r r', einsum h lay s arrays = Ok r /\ einsum h' lay' s bs = Ok r' /\ part size c off len out r r'.
Proof. intros A Sc. exact kept_block. Qed.
Print Assumptions kept_labels_in_blocks.

(** Cutting the range of a summed label into blocks in every operand cuts the result into summands. *)
Theorem summed_labels_in_blocks :
  forall (A : Type) (Sc : Scalar A), semiring A ->
  forall h lay s (arrays : list (arr A)) ops out size c r (lens : list nat) (bs : nat -> list (arr A))
         (rs : nat -> arr A),
    hash_ok h -> backend_ok lay ->
    call_ok s (map (@a_shape A) arrays) ops out size -> Forall wf arrays ->
    In c (concat ops) -> ~ In c out -> list_sum lens = size c ->
    einsum h lay s arrays = Ok r ->
    (forall k, k < length lens -> Forall wf (bs k)
       /\ Forall2 (fun p b => part size c (list_sum (firstn k lens)) (nth k lens 0) (snd p) (fst p) b)
            (combine arrays ops) (bs k)
       /\ exists h' lay', hash_ok h' /\ backend_ok lay' /\ einsum h' lay' s (bs k) = Ok (rs k)) ->
    (forall k, k < length lens -> a_shape (rs k) = a_shape r)
    /\ forall o, in_bounds (a_shape r) o = true -> elem r o = sum_n (length lens) (fun k => elem (rs k) o).
Proof. intros A Sc. exact summed_blocks. Qed.
Print Assumptions summed_labels_in_blocks.

(** Two labels that occur together may be merged into one. *)
Theorem merged_labels :
  forall (A : Type) (Sc : Scalar A), semiring A ->
  forall h h' lay lay' s s' (arrays bs : list (arr A)) ops out size c d,
    hash_ok h -> hash_ok h' -> backend_ok lay -> backend_ok lay' ->
    call_ok s (map (@a_shape A) arrays) ops out size -> Forall wf arrays -> Forall wf bs ->
    no_empty_diagonal size ops ->
    c <> d -> Forall (fun ix => In c ix <-> In d ix) ops -> (In c out <-> In d out) -> In c (concat ops) ->
    grammar s' (map (drop_label d) ops) (Some (drop_label d out)) ->
    Forall2 (fun p b => merged size c d (snd p) (fst p) b) (combine arrays ops) bs ->
    exists r r', einsum h lay s arrays = Ok r /\ einsum h' lay' s' bs = Ok r' /\ merged size c d out r r'.
Proof. intros A Sc. exact merged_call. Qed.
Print Assumptions merged_labels.

(** It is enough to check every position. *)
Lemma part_check size c off len ix (a b : arr Z) :
  a_shape b = map (upd size c len) ix ->
  Forall (fun i => elem b i = elem a (map (upd (bind ix i) c (off + bind ix i c)) ix)) (indices (a_shape b)) ->
  part size c off len ix a b.
Proof.
  intros S H. split; auto. intros e He. rewrite Forall_forall in H.
  rewrite (H (map e ix)) by (apply indices_complete; auto). f_equal. apply map_ext_in. intros x Hx. unfold upd.
  destruct (N.eqb_spec x c) as [->|]; rewrite bind_map by auto; auto.
Qed.

Example blocks_case :
  let size := size_fn (combine (chars "ijk") [2; 3; 2]) in
  let a := zarr [2; 3] [1; 2; 3; 4; 5; 6]%Z in
  let b := zarr [3; 2] [1; 0; 0; 1; 1; 1]%Z in
  let lo := [mkArr [1; 2; 3; 4; 5; 6]%Z 0%Z [2; 2] [3; 1]%Z; zarr [2; 2] [1; 0; 0; 1]%Z] in
  let hi := [mkArr [1; 2; 3; 4; 5; 6]%Z 2%Z [2; 1] [3; 1]%Z; zarr [1; 2] [1; 1]%Z] in
  let run l := (do r <- einsum id_hash c_backend (chars "ij,jk->ik") l; a_iter r) in
  call_ok (chars "ij,jk->ik") [a_shape a; a_shape b] [chars "ij"; chars "jk"] (chars "ik") size
  /\ Forall2 (fun p b => part size 106%N 0 2 (snd p) (fst p) b) (combine [a; b] [chars "ij"; chars "jk"]) lo
  /\ Forall2 (fun p b => part size 106%N 2 1 (snd p) (fst p) b) (combine [a; b] [chars "ij"; chars "jk"]) hi
  /\ run lo = Ok [1; 2; 4; 5]%Z /\ run hi = Ok [3; 3; 6; 6]%Z /\ run [a; b] = Ok [4; 5; 10; 11]%Z
  (* the second row *)
  /\ Forall2 (fun p b => part size 105%N 1 1 (snd p) (fst p) b) (combine [a; b] [chars "ij"; chars "jk"])
       [zarr [1; 3] [4; 5; 6]%Z; b]
  /\ run [zarr [1; 3] [4; 5; 6]%Z; b] = Ok [10; 11]%Z.
Proof.
  split; [apply check_call_ok; check_call_tac|].
  split; [|split; [|split; [reflexivity|split; [reflexivity|split; [reflexivity|split; [|reflexivity]]]]]];
  repeat (apply Forall2_cons; [apply part_check; [reflexivity|repeat constructor]|]);
  apply Forall2_nil.
Qed.

(** "ijk,jk->i" on a 2x3x2 and a 3x2 array is "ij,j->i" on the same buffers as 2x6 and 6. *)
Example merged_case :
  let size := size_fn (combine (chars "ijk") [2; 3; 2]) in
  let a := zarr [2; 3; 2] [1; 2; 3; 4; 5; 6; 7; 8; 9; 10; 11; 12]%Z in
  let b := zarr [3; 2] [1; 0; 0; 1; 1; 1]%Z in
  let a' := zarr [2; 6] [1; 2; 3; 4; 5; 6; 7; 8; 9; 10; 11; 12]%Z in
  let b' := zarr [6] [1; 0; 0; 1; 1; 1]%Z in
  merged size 106%N 107%N (chars "ijk") a a' /\ merged size 106%N 107%N (chars "jk") b b'
  /\ (do r <- einsum id_hash c_backend (chars "ijk,jk->i") [a; b]; a_iter r) = Ok [16; 40]%Z
  /\ (do r <- einsum id_hash c_backend (chars "ij,j->i") [a'; b']; a_iter r) = Ok [16; 40]%Z.
Proof.
  split; [|split; [|split; reflexivity]]; (split; [reflexivity|]); intros e He;
    apply indices_complete in He; simpl in He;
    repeat (destruct He as [He|He]; [injection He; intros; simpl; cbv [upd N.eqb Pos.eqb];
      repeat match goal with H : _ = e _ |- _ => rewrite <- H; clear H end; reflexivity|]); contradiction.
Qed.

(** ** C59: operands that can be left out *)

(** An operand of ones may be left out, along with the output labels that only it has; the result is
    constant along those. *)
Theorem operands_of_ones :
  forall (A : Type) (Sc : Scalar A), semiring A ->
  forall h h' lay lay' s s' (pre post : list (arr A)) (x : arr A) pops ix qops out size,
    hash_ok h -> hash_ok h' -> backend_ok lay -> backend_ok lay' -> length pre = length pops ->
    call_ok s (map (@a_shape A) (pre ++ x :: post)) (pops ++ ix :: qops) out size ->
    Forall wf (pre ++ x :: post) -> no_empty_diagonal size (pops ++ ix :: qops) ->
    incl ix (concat (pops ++ qops) ++ out) ->
    (forall i, in_bounds (a_shape x) i = true -> elem x i = sone) ->
    grammar s' (pops ++ qops) (Some (out_of (pops ++ qops) out)) ->
    exists r r', einsum h lay s (pre ++ x :: post) = Ok r /\ einsum h' lay' s' (pre ++ post) = Ok r'
      /\ a_shape r = map size out
      /\ forall e : env, in_bounds (a_shape r) (map e out) = true ->
           elem r (map e out) = elem r' (map e (out_of (pops ++ qops) out)).
Proof. intros A Sc. exact ones_call. Qed.
Print Assumptions operands_of_ones.

Theorem operands_of_zeros :
  forall (A : Type) (Sc : Scalar A), semiring A ->
  forall h lay s (pre post : list (arr A)) (x r : arr A),
    hash_ok h -> backend_ok lay -> Forall wf (pre ++ x :: post) ->
    (forall i, in_bounds (a_shape x) i = true -> elem x i = szero) ->
    einsum h lay s (pre ++ x :: post) = Ok r ->
    forall o, in_bounds (a_shape r) o = true -> elem r o = szero.
Proof. intros A Sc. exact zeros_call. Qed.
Print Assumptions operands_of_zeros.

(** An identity matrix with labels [c] and [d], of which [c] is summed, may be left out if [c] is
    renamed to [d] in the other operands. If [d] occurs in one of them that has [c], this takes a
    diagonal. *)
Theorem identity_matrices :
  forall (A : Type) (Sc : Scalar A), semiring A ->
  forall h h' lay lay' s s' (pre post : list (arr A)) (x : arr A) pops c d qops out size,
    hash_ok h -> hash_ok h' -> backend_ok lay -> backend_ok lay' -> length pre = length pops ->
    call_ok s (map (@a_shape A) (pre ++ x :: post)) (pops ++ [c; d] :: qops) out size ->
    Forall wf (pre ++ x :: post) ->
    c <> d -> size c = size d -> ~ In c out -> In c (concat (pops ++ qops)) ->
    no_empty_diagonal size (map (map (replace c d)) (pops ++ qops)) ->
    (forall i j, i < size c -> j < size c -> elem x [i; j] = if Nat.eqb i j then sone else szero) ->
    grammar s' (map (map (replace c d)) (pops ++ qops)) (Some out) ->
    exists r r', einsum h lay s (pre ++ x :: post) = Ok r /\ einsum h' lay' s' (pre ++ post) = Ok r'
      /\ same_array r r'.
Proof. intros A Sc. exact identity_call. Qed.
Print Assumptions identity_matrices.

Example units_case :
  let a := zarr [2; 2] [1; 2; 3; 4]%Z in
  let eye := zarr [2; 2] [1; 0; 0; 1]%Z in
  let ones := zarr [3] [1; 1; 1]%Z in
  let run s l := (do r <- einsum id_hash c_backend (chars s) l; a_iter r) in
  (* the trace and the transpose by means of an identity matrix *)
  call_ok (chars "ij,ij->") [a_shape a; a_shape eye] ([chars "ij"] ++ [105; 106]%N :: []) (chars "")
    (size_fn (combine (chars "ij") [2; 2]))
  /\ (forall i j, i < 2 -> j < 2 -> elem eye [i; j] = if Nat.eqb i j then 1%Z else 0%Z)
  /\ map (map (replace 105%N 106%N)) [chars "ij"] = [chars "jj"]
  /\ run "ij,ij->" [a; eye] = Ok [5]%Z /\ run "jj->" [a] = Ok [5]%Z
  /\ run "ij,jk->ki" [a; eye] = Ok [1; 3; 2; 4]%Z /\ run "ik->ki" [a] = Ok [1; 3; 2; 4]%Z
  (* the row sums, repeated along another axis *)
  /\ call_ok (chars "ij,b->bi") [a_shape a; a_shape ones] ([chars "ij"] ++ chars "b" :: []) (chars "bi")
       (size_fn (combine (chars "bij") [3; 2; 2]))
  /\ incl (chars "b") (concat ([chars "ij"] ++ []) ++ chars "bi")
  /\ out_of [chars "ij"] (chars "bi") = chars "i"
  /\ run "ij,b->bi" [a; ones] = Ok [3; 7; 3; 7; 3; 7]%Z /\ run "ij->i" [a] = Ok [3; 7]%Z.
Proof.
  split; [apply check_call_ok; check_call_tac|].
  split; [intros i j Hi Hj; destruct i as [|[|i]], j as [|[|j]]; try lia; reflexivity|].
  do 5 (split; [reflexivity|]). split; [apply check_call_ok; check_call_tac|].
  split; [intros y; vm_compute; tauto|]. repeat split; reflexivity.
Qed.
