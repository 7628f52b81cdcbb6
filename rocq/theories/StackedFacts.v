(** StackedTensordotGeneral. *)
From Verif Require Import Base BaseFacts NDArray Validation Strategies Singleton Pair Path Spec
  ValidationFacts SumFacts ArrayFacts TensordotFacts DiagFacts SingletonFacts PairFacts.
From Coq Require Import Lia.

(** ** Compilation *)

(** Position of a label, 0 if absent. *)
Definition pos (ls : list char) (c : char) : nat :=
  match position c ls with Some n => n | None => 0 end.

Lemma pos_positions ls L : incl L ls ->
  Forall2 (fun o k => position o ls = Some k) L (map (pos ls) L).
Proof.
  induction L as [|c L IH]; intros H; simpl; constructor.
  - unfold pos. destruct (position_In c ls) as (n & E); [apply H; simpl; auto|]. rewrite E. auto.
  - apply IH. intros d Hd. apply H; simpl; auto.
Qed.

Definition both (lhs rhs : list char) c := mem c lhs && mem c rhs.
Definition only (lhs rhs : list char) c := mem c lhs && negb (mem c rhs).

Lemma position_mem c l : match position c l with Some _ => true | None => false end = mem c l.
Proof.
  destruct (position c l) eqn:E.
  - apply position_Some_In, mem_In in E. auto.
  - apply position_None, mem_false in E. auto.
Qed.

Section Compile.
Variables (sc : sized_contraction) (lhs rhs out0 : list char) (size : char -> nat).
Hypothesis HS : sized sc [lhs; rhs] out0 size.
Let m := sc_output_size sc.

Lemma size_of_pair c : In c lhs \/ In c rhs -> size_of m c = Ok (size c).
Proof.
  intros H. unfold m. eapply size_of_ok; eauto. simpl. rewrite app_nil_r. apply in_app_iff; auto.
Qed.

Lemma stack_fold out : forall a, (forall c, In c out -> In c lhs \/ In c rhs) ->
  let S := filter (both lhs rhs) out in
  let U := filter (only lhs rhs) out in
  let V := filter (only rhs lhs) out in
  foldM (stack_step m)
    (combine (combine (map (fun o => position o lhs) out) (map (fun o => position o rhs) out)) out) a
  = Ok (mkSA (sa_lhs_stack_axes a ++ map (pos lhs) S) (sa_rhs_stack_axes a ++ map (pos rhs) S)
             (sa_stack_indices a ++ S)
             (sa_lhs_outer_axes a ++ map (pos lhs) U) (sa_lhs_outer_indices a ++ U)
             (sa_rhs_outer_axes a ++ map (pos rhs) V) (sa_rhs_outer_indices a ++ V)
             (sa_lhs_uncontracted_shape a ++ map size U) (sa_rhs_uncontracted_shape a ++ map size V)
             (sa_lhs_stack_len a * prod (map size S)) (sa_rhs_stack_len a * prod (map size S))).
Proof.
  induction out as [|c out IH]; intros a Hout.
  - simpl. rewrite !app_nil_r, !Nat.mul_1_r. destruct a; reflexivity.
  - assert (Hc := Hout c (or_introl eq_refl)).
    assert (Hout' : forall c, In c out -> In c lhs \/ In c rhs) by (intros; apply Hout; simpl; auto).
    cbn [map combine foldM filter].
    assert (Hsz : size_of m c = Ok (size c)) by (apply size_of_pair; auto).
    unfold stack_step at 1.
    assert (Eb : both lhs rhs c = match position c lhs with Some _ => true | None => false end
                   && match position c rhs with Some _ => true | None => false end)
      by (rewrite !position_mem; auto).
    assert (E1 : only lhs rhs c = match position c lhs with Some _ => true | None => false end
                   && negb match position c rhs with Some _ => true | None => false end)
      by (rewrite !position_mem; auto).
    assert (E2 : only rhs lhs c = match position c rhs with Some _ => true | None => false end
                   && negb match position c lhs with Some _ => true | None => false end)
      by (rewrite !position_mem; auto).
    rewrite Eb, E1, E2. clear Eb E1 E2.
    destruct (position c lhs) as [lp|] eqn:El; destruct (position c rhs) as [rp|] eqn:Er; cbn [andb negb].
    + rewrite Hsz. cbn [rbind]. rewrite IH by auto.
      cbn [sa_lhs_stack_axes sa_rhs_stack_axes sa_stack_indices sa_lhs_outer_axes
        sa_lhs_outer_indices sa_rhs_outer_axes sa_rhs_outer_indices sa_lhs_uncontracted_shape
        sa_rhs_uncontracted_shape sa_lhs_stack_len sa_rhs_stack_len map].
      rewrite !prod_cons, <- !app_assoc, !Nat.mul_assoc. 
      replace (pos lhs c) with lp by (unfold pos; rewrite El; auto).
      replace (pos rhs c) with rp by (unfold pos; rewrite Er; auto). reflexivity.
    + rewrite Hsz. cbn [rbind]. rewrite IH by auto.
      cbn [sa_lhs_stack_axes sa_rhs_stack_axes sa_stack_indices sa_lhs_outer_axes
        sa_lhs_outer_indices sa_rhs_outer_axes sa_rhs_outer_indices sa_lhs_uncontracted_shape
        sa_rhs_uncontracted_shape sa_lhs_stack_len sa_rhs_stack_len map].
      rewrite <- !app_assoc. replace (pos lhs c) with lp by (unfold pos; rewrite El; auto). reflexivity.
    + rewrite Hsz. cbn [rbind]. rewrite IH by auto.
      cbn [sa_lhs_stack_axes sa_rhs_stack_axes sa_stack_indices sa_lhs_outer_axes
        sa_lhs_outer_indices sa_rhs_outer_axes sa_rhs_outer_indices sa_lhs_uncontracted_shape
        sa_rhs_uncontracted_shape sa_lhs_stack_len sa_rhs_stack_len map].
      rewrite <- !app_assoc. replace (pos rhs c) with rp by (unfold pos; rewrite Er; auto). reflexivity.
    + apply position_None in El, Er. tauto.
Qed.

Lemma contracted_fold out l : forall la ra sh,
  (forall ic, In ic l -> In (snd ic) lhs /\ (In (snd ic) rhs \/ In (snd ic) out)) ->
  let X := filter (fun ic => negb (mem (snd ic) out)) l in
  foldM (contracted_step m rhs out) l (la, ra, sh)
  = Ok (la ++ map fst X, ra ++ map (fun ic => pos rhs (snd ic)) X, sh ++ map (fun ic => size (snd ic)) X).
Proof.
  induction l as [|[i c] l IH]; intros la ra sh H.
  - simpl. rewrite !app_nil_r. reflexivity.
  - destruct (H (i, c) (or_introl eq_refl)) as [Hl Hr]. cbn [snd] in Hl, Hr.
    assert (H' : forall ic, In ic l -> In (snd ic) lhs /\ (In (snd ic) rhs \/ In (snd ic) out))
      by (intros; apply H; simpl; auto).
    cbn [foldM filter snd]. unfold contracted_step at 1. rewrite <- (position_mem c out).
    destruct (position c out) as [p|] eqn:E; cbn [negb rbind].
    + apply IH; auto.
    + apply position_None in E. destruct Hr as [Hr|Hr]; [|contradiction].
      destruct (position_In c rhs Hr) as (rp & Erp). rewrite Erp. cbn [unwrap rbind].
      rewrite size_of_pair by auto. cbn [rbind]. rewrite IH by auto.
      cbn [map fst snd]. rewrite <- !app_assoc. 
      replace (pos rhs c) with rp by (unfold pos; rewrite Erp; auto). reflexivity.
Qed.

End Compile.

(** ** Execution *)

(** Collapsing the leading axes [ss] into one. *)
Lemma refold_collapse {A} (ss rest : list nat) (f : list nat -> A) i idx :
  i < prod ss -> in_bounds rest idx = true ->
  refold (ss ++ rest) (prod ss :: rest) f (i :: idx) = f (unflat ss i ++ idx).
Proof.
  intros Hi Hb. unfold refold. f_equal.
  pose proof (flat_lt _ _ Hb) as Hlt.
  change (flat (prod ss :: rest) (i :: idx)) with (i * prod rest + flat rest idx).
  rewrite unflat_app by auto. f_equal. apply unflat_flat; auto.
Qed.

(** Expanding them again. *)
Lemma refold_expand {A} (ss rest : list nat) (f : list nat -> A) s idx :
  in_bounds ss s = true -> in_bounds rest idx = true ->
  refold (prod ss :: rest) (ss ++ rest) f (s ++ idx) = f (flat ss s :: idx).
Proof.
  intros Hs Hb. unfold refold. f_equal.
  pose proof (flat_lt _ _ Hb) as Hlt. pose proof (flat_lt _ _ Hs) as Hlts.
  assert (B : in_bounds (prod ss :: rest) (flat ss s :: idx) = true).
  { simpl. rewrite (proj2 (Nat.ltb_lt _ _) Hlts). auto. }
  rewrite flat_app by (apply in_bounds_length; auto).
  change (flat ss s * prod rest + flat rest idx) with (flat (prod ss :: rest) (flat ss s :: idx)).
  apply unflat_flat; auto.
Qed.

Section Run.
Context {A : Type} {Sc : Scalar A}.
Variable lay : backend A.

Lemma outer_iter_holds (a : arr A) d sh f :
  holds a (d :: sh) f ->
  exists l, outer_iter a = Ok l /\ length l = d
    /\ forall i, i < d -> exists r, nth_error l i = Some r /\ holds r sh (fun idx => f (i :: idx)).
Proof.
  intros H. unfold outer_iter. assert (E : a_shape a = d :: sh) by apply H. rewrite E.
  unfold index at 1. cbn [nth_error unwrap rbind].
  assert (Hg : forall i, i < d -> exists r, index_axis a 0 i = Ok r /\ holds r sh (fun idx => f (i :: idx))).
  { intros i Hi. destruct (index_axis_holds a d sh f i H Hi) as (r & E1 & H1 & _). eauto. }
  set (g i := match index_axis a 0 i with Ok r => r | _ => a end).
  rewrite (mapM_ok _ g).
  2:{ intros i Hi. apply in_seq in Hi. destruct (Hg i) as (r & Er & _); [lia|]. unfold g. rewrite Er. auto. }
  eexists. split; [reflexivity|]. rewrite map_length, seq_length. split; auto.
  intros i Hi. destruct (Hg i Hi) as (r & Er & Hr). exists r. split; auto.
  rewrite nth_error_map, (nth_error_nth' _ 0) by (rewrite seq_length; auto).
  rewrite seq_nth by auto. simpl. unfold g. rewrite Er. auto.
Qed.

Lemma nth_error_set_nth_same {T} n (x : T) l : n < length l -> nth_error (set_nth n x l) n = Some x.
Proof. revert l; induction n as [|n IH]; intros [|y l] H; simpl in *; try lia; auto. apply IH; lia. Qed.

Lemma nth_error_set_nth_other {T} n n' (x : T) l : n <> n' -> nth_error (set_nth n x l) n' = nth_error l n'.
Proof.
  revert n' l; induction n as [|n IH]; intros [|n'] [|y l] H; simpl; auto; lia.
Qed.

Lemma set_nth_length {T} n (x : T) l : length (set_nth n x l) = length l.
Proof. revert n; induction l as [|y l IH]; intros [|n]; simpl; auto. Qed.

(** Writing an array into a row-major window of a buffer. *)
Lemma assign_fold (src : arr A) sh f o st : holds src sh f ->
  (forall idx, in_bounds sh idx = true -> dot_off idx st = Z.of_nat (flat sh idx)) ->
  forall l data, Forall (fun idx => in_bounds sh idx = true) l -> o + prod sh <= length data ->
  exists data', foldM (fun d idx => do x <- a_get src idx; a_set d idx x) l
                  (mkArr data (Z.of_nat o) sh st)
                = Ok (mkArr data' (Z.of_nat o) sh st)
    /\ length data' = length data
    /\ (forall n, (forall idx, In idx l -> o + flat sh idx <> n) -> nth_error data' n = nth_error data n)
    /\ (forall idx, In idx l -> nth_error data' (o + flat sh idx) = Some (f idx)).
Proof.
  intros (H1 & H2 & H3) Hst. induction l as [|idx l IH]; intros data Hl Hlen.
  - exists data. simpl. repeat split; auto. intros idx [].
  - inversion Hl; subst. cbn [foldM]. rewrite H3 by auto. cbn [rbind].
    unfold a_set at 1. cbn [a_shape a_off a_strides a_data].
    rewrite H4, Hst by auto. pose proof (flat_lt _ _ H4) as Hlt.
    rewrite <- Nat2Z.inj_add.
    destruct (Z.leb_spec 0 (Z.of_nat (o + flat (a_shape src) idx))); [|lia].
    destruct (Z.ltb_spec (Z.of_nat (o + flat (a_shape src) idx)) (Z.of_nat (length data))); [|lia].
    cbn [andb rbind]. rewrite Nat2Z.id.
    destruct (IH (set_nth (o + flat (a_shape src) idx) (f idx) data)) as (data' & E & L & N1 & N2); auto.
    { rewrite set_nth_length. auto. }
    exists data'. rewrite set_nth_length in L. repeat split; auto.
    + intros n Hn. rewrite N1 by (intros; apply Hn; simpl; auto).
      apply nth_error_set_nth_other. apply Hn. simpl; auto.
    + intros idx' [<-|Hi]; auto.
      destruct (in_dec (list_eq_dec Nat.eq_dec) idx l) as [Hi|Hi]; auto.
      rewrite N1.
      * apply nth_error_set_nth_same. lia.
      * intros idx' Hi' E'. apply Hi. replace idx with idx'; auto.
        apply (flat_inj (a_shape src)); auto; [|lia].
        rewrite Forall_forall in H5. auto.
Qed.

(** The buffer after [k] iterations. *)
Definition partial_value (k : nat) (val : nat -> list nat -> A) (idx : list nat) : A :=
  match idx with
  | i :: y => if Nat.ltb i k then val i y else szero
  | [] => szero
  end.

Definition buffer (n : nat) (sh : list nat) (data : list A) : arr A :=
  mkArr data 0 (n :: sh) (default_strides (n :: sh)).

Lemma buffer_step t lsubs rsubs n sh data k val x l r :
  length data = n * prod sh ->
  holds (buffer n sh data) (n :: sh) (partial_value k val) ->
  k < n -> nth_error lsubs k = Some l -> nth_error rsubs k = Some r ->
  run_tfp lay t l r = Ok x -> holds x sh (val k) ->
  exists data', stacked_iteration lay t lsubs rsubs (buffer n sh data) k = Ok (buffer n sh data')
    /\ length data' = length data
    /\ holds (buffer n sh data') (n :: sh) (partial_value (S k) val).
Proof.
  intros Hlen Hb Hk El Er Ex Hx. unfold stacked_iteration.
  destruct (index_axis_holds _ n sh _ k Hb Hk) as (o & Eo & Ho & Do & Oo & So).
  rewrite Eo. cbn [rbind]. rewrite (index_some _ _ _ El), (index_some _ _ _ Er). cbn [rbind].
  unfold contract_and_assign_pair. rewrite Ex. cbn [rbind]. unfold assign.
  assert (Eos : a_shape o = sh) by apply Ho. assert (Exs : a_shape x = sh) by apply Hx.
  rewrite Eos, Exs, (proj2 (list_nat_eqb_eq sh sh) eq_refl). cbn [rbind].
  destruct o as [od oo os ost]. cbn [a_data a_off a_shape a_strides buffer] in *. subst od os.
  destruct (Nat.eq_dec (prod sh) 0) as [Hz|Hz].
  - (* nothing to write *)
    assert (Ei : indices sh = []).
    { destruct (indices sh) as [|i0 l0] eqn:E; auto.
      pose proof (indices_length sh) as HL. rewrite E, Hz in HL. discriminate. }
    rewrite Ei. cbn [foldM rbind a_data]. exists data. split; [reflexivity|]. split; auto.
    destruct Hb as (B1 & B2 & B3). split; [|split]; auto.
    intros idx Hi. exfalso. apply in_bounds_nonempty in Hi. rewrite prod_cons in Hi. nia.
  - assert (Hne : is_empty_shape (n :: sh) = false).
    { apply is_empty_false. rewrite prod_cons. nia. }
    assert (Hst : default_strides (n :: sh) = Z.of_nat (prod sh) :: c_strides sh)
      by (unfold default_strides; rewrite Hne; reflexivity).
    rewrite Hst in *. cbn [nth tl] in *. subst ost.
    assert (Eoo : oo = Z.of_nat (k * prod sh)) by lia. clear Oo. subst oo.
    destruct (assign_fold x sh (val k) (k * prod sh) (c_strides sh) Hx) with
        (l := indices sh) (data := data) as (data' & E & L & N1 & N2).
    + intros idx Hi. apply dot_off_c. apply in_bounds_length; auto.
    + apply Forall_forall. intros idx Hi. apply indices_In; auto.
    + nia.
    + rewrite E. cbn [rbind a_data]. exists data'. unfold buffer. rewrite Hst.
      split; [reflexivity|]. split; auto.
      destruct Hb as (B1 & B2 & B3). split; [reflexivity|].
      split; [cbn [a_strides length]; rewrite c_strides_length; reflexivity|].
      intros idx Hi. specialize (B3 idx Hi).
      assert (Hsh : exists i y, idx = i :: y /\ i < n /\ in_bounds sh y = true).
      { destruct idx as [|i y]; [discriminate|]. simpl in Hi.
        apply andb_true_iff in Hi as [Hi1 Hi2]. apply Nat.ltb_lt in Hi1. eauto. }
      destruct Hsh as (i & y & -> & Hin & Hy). pose proof (flat_lt _ _ Hy) as Hlt.
      assert (Ed : (0 + dot_off (i :: y) (Z.of_nat (prod sh) :: c_strides sh))%Z
                   = Z.of_nat (i * prod sh + flat sh y)).
      { cbn [dot_off]. rewrite dot_off_c by (apply in_bounds_length; auto). lia. }
      unfold a_get in *. cbn [a_shape a_data a_off a_strides buffer] in *.
      rewrite Hst in B3. rewrite Hi in *. rewrite Ed, znth_nat in *.
      cbn [partial_value] in *. destruct (Nat.eq_dec i k) as [->|Hik].
      * destruct (Nat.ltb_spec k (S k)); [|lia].
        rewrite N2 by (apply indices_In; auto). auto.
      * rewrite N1.
        -- rewrite B3. destruct (Nat.ltb_spec i k), (Nat.ltb_spec i (S k)); auto; lia.
        -- intros y' Hy' Ee. apply indices_In in Hy'. pose proof (flat_lt _ _ Hy') as Hlt'.
           apply Hik. clear - Ee Hlt Hlt'. nia.
Qed.

Lemma buffer_loop t lsubs rsubs n sh val :
  (forall k, k < n -> exists l r x, nth_error lsubs k = Some l /\ nth_error rsubs k = Some r
     /\ run_tfp lay t l r = Ok x /\ holds x sh (val k)) ->
  forall m k data, k + m = n -> length data = n * prod sh ->
  holds (buffer n sh data) (n :: sh) (partial_value k val) ->
  exists data', foldM (stacked_iteration lay t lsubs rsubs) (seq k m) (buffer n sh data)
                = Ok (buffer n sh data')
    /\ holds (buffer n sh data') (n :: sh) (partial_value n val).
Proof.
  intros Hv. induction m as [|m IH]; intros k data Hk Hl Hb.
  - exists data. split; auto. replace n with k by lia. replace n with k in Hb by lia. auto.
  - destruct (Hv k) as (l & r & x & E1 & E2 & E3 & E4); [lia|].
    destruct (buffer_step t lsubs rsubs n sh data k val x l r) as (d1 & Es & L1 & H1); auto; [lia|].
    cbn [seq foldM]. rewrite Es. cbn [rbind].
    apply (IH (S k) d1); auto; lia.
Qed.

Lemma zeros_holds n sh val :
  holds (buffer n sh (repeat szero (prod (n :: sh)))) (n :: sh) (partial_value 0 val).
Proof.
  assert (E : repeat szero (prod (n :: sh)) = map (fun _ => szero) (indices (n :: sh))).
  { rewrite <- indices_length. clear. induction (indices (n :: sh)) as [|x l IH]; simpl; auto.
    f_equal; auto. }
  rewrite E. eapply holds_ext; [|apply holds_mk_c].
  intros [|i y] _; reflexivity.
Qed.

End Run.

Section Labelled.
Context {A B : Type} {Sc : Scalar A} {Sb : Scalar B}.
Variable size : char -> nat.
Variable R : A -> B -> Prop.
Variable Z : A -> Prop.
Hypothesis HR : weak_relation R Z.
Hypothesis Hemp : no_empty_sums R Z size.
Variable lay : backend A.
Hypothesis Hlay : backend_runs lay.
Hypothesis Hfu : weak_fused R Z lay.
Hypothesis SR : near_semiring B.

Lemma run_stacked_rrep (a b : arr A) lhs rhs S U C V pl pr order out F G :
  NoDup lhs -> NoDup rhs -> NoDup (S ++ U ++ V) ->
  Permutation (S ++ U ++ C) lhs -> Permutation (S ++ C ++ V) rhs ->
  Forall2 (fun o k => position o lhs = Some k) (S ++ U ++ C) pl ->
  Forall2 (fun o k => position o rhs = Some k) (S ++ C ++ V) pr ->
  Permutation out (S ++ U ++ V) ->
  Forall2 (fun o k => position o (S ++ U ++ V) = Some k) out order ->
  rrep size R a lhs F -> rrep size R b rhs G ->
  exists r, run_stacked lay
      (mkST pl pr ([prod (map size S)] ++ map size U ++ map size C)
         ([prod (map size S)] ++ map size C ++ map size V)
         ([prod (map size S)] ++ map size U ++ map size V)
         (tfp_for (map size U) (map size C) (map size V))
         (map size (S ++ U ++ V)) order) a b = Ok r
    /\ rrep size R r out (nested_sum size C (fun e => smul (F e) (G e))).
Proof.
  intros Hl Hr Hn Pl Pr Fl Fr Po Fo (F0 & Ha & Rf) (G0 & Hb & Rg).
  assert (NL : NoDup (S ++ U ++ C)) by (eapply Permutation_NoDup; [apply Permutation_sym|]; eauto).
  assert (NR : NoDup (S ++ C ++ V)) by (eapply Permutation_NoDup; [apply Permutation_sym|]; eauto).
  unfold run_stacked, permutation_view.
  cbn [st_lhs_permutation st_rhs_permutation st_lhs_output_shape st_rhs_output_shape
    st_intermediate_shape st_fixed st_output_shape st_output_permutation].
  destruct (permuted_lrep size a lhs (S ++ U ++ C) F0 pl) as (l & El & Hpl); auto.
  destruct (permuted_lrep size b rhs (S ++ C ++ V) G0 pr) as (r & Er & Hpr); auto.
  rewrite El, Er. cbn [rbind].
  pose proof (lrep_holds size l _ F0 NL Hpl) as HLh. pose proof (lrep_holds size r _ G0 NR Hpr) as HRh.
  rewrite !map_app in HLh, HRh.
  set (ss := map size S) in *. set (su := map size U) in *.
  set (sc := map size C) in *. set (sv := map size V) in *.
  set (f := fun idx => F0 (bind (S ++ U ++ C) idx)) in *.
  set (g := fun idx => G0 (bind (S ++ C ++ V) idx)) in *.
  rewrite (holds_iter _ _ _ HLh), (holds_iter _ _ _ HRh). cbn [rbind].
  rewrite !from_shape_vec_ok
    by (cbn [app]; rewrite prod_cons, !prod_app, ?Nat.mul_assoc; reflexivity).
  cbn [rbind app].
  assert (HL2 : holds (mk_c (prod ss :: su ++ sc) (map f (indices (ss ++ su ++ sc))))
                  (prod ss :: su ++ sc) (refold (ss ++ su ++ sc) (prod ss :: su ++ sc) f)).
  { apply holds_reshape_copy. rewrite prod_cons, !prod_app, ?Nat.mul_assoc; reflexivity. }
  assert (HR2 : holds (mk_c (prod ss :: sc ++ sv) (map g (indices (ss ++ sc ++ sv))))
                  (prod ss :: sc ++ sv) (refold (ss ++ sc ++ sv) (prod ss :: sc ++ sv) g)).
  { apply holds_reshape_copy. rewrite prod_cons, !prod_app, ?Nat.mul_assoc; reflexivity. }
  destruct (outer_iter_holds _ _ _ _ HL2) as (lsubs & ELs & LLs & HLs).
  destruct (outer_iter_holds _ _ _ _ HR2) as (rsubs & ERs & LRs & HRs).
  rewrite ELs, ERs. cbn [rbind]. unfold zeros, mk_c at 1. cbn [a_shape].
  unfold index at 1. cbn [nth_error unwrap rbind].
  set (val := fun (k : nat) (idx : list nat) =>
    match nth_error lsubs k, nth_error rsubs k with
    | Some l, Some r => match run_tfp lay (tfp_for su sc sv) l r with Ok x => elem x idx | _ => szero end
    | _, _ => szero
    end).
  assert (Hval : forall k, k < prod ss -> exists l r x, nth_error lsubs k = Some l
     /\ nth_error rsubs k = Some r
     /\ run_tfp lay (tfp_for su sc sv) l r = Ok x /\ holds x (su ++ sv) (val k)
     /\ forall idx, in_bounds (su ++ sv) idx = true ->
          dots_to (fused lay) (tfp_terms su sc (fun y => f (unflat ss k ++ y)) (fun y => g (unflat ss k ++ y)) idx) (val k idx)).
  { intros k Hk. destruct (HLs k Hk) as (lk & E1 & H1). destruct (HRs k Hk) as (rk & E2 & H2).
    assert (H1' : holds lk (su ++ sc) (fun y => f (unflat ss k ++ y))).
    { eapply holds_ext; [|exact H1]. intros idx Hi. apply refold_collapse; auto. }
    assert (H2' : holds rk (sc ++ sv) (fun y => g (unflat ss k ++ y))).
    { eapply holds_ext; [|exact H2]. intros idx Hi. apply refold_collapse; auto. }
    destruct (run_tfp_holds lay Hlay lk rk su sc sv _ _ H1' H2') as (x & v & Ex & Hx & Hs & _).
    assert (Hv : forall idx, in_bounds (su ++ sv) idx = true -> v idx = val k idx).
    { intros idx Hi. unfold val. rewrite E1, E2, Ex. unfold elem. destruct Hx as (_ & _ & Hx).
      rewrite Hx by auto. auto. }
    exists lk, rk, x. split; auto. split; auto. split; auto. split.
    - eapply holds_ext; [|exact Hx]. auto.
    - intros idx Hi. rewrite <- Hv by auto. auto. }
  destruct (buffer_loop lay (tfp_for su sc sv) lsubs rsubs (prod ss) (su ++ sv) val)
    with (m := prod ss) (k := 0) (data := repeat (szero (A := A)) (prod (prod ss :: su ++ sv)))
    as (data' & Eb & Hbuf); auto.
  { intros k Hk. destruct (Hval k Hk) as (lk & rk & x & E1 & E2 & E3 & E4 & _).
    exists lk, rk, x. auto. }
  { rewrite repeat_length, prod_cons. auto. }
  { apply zeros_holds. }
  change (mk_c (prod ss :: su ++ sv) (repeat (szero (A := A)) (prod (prod ss :: su ++ sv))))
    with (buffer (prod ss) (su ++ sv) (repeat (szero (A := A)) (prod (prod ss :: su ++ sv)))).
  rewrite Eb. cbn [rbind].
  destruct (into_shape_standard _ _ (map size (S ++ U ++ V)) _ Hbuf) as (rs & Ers & Hrs & _).
  { apply default_standard. }
  { rewrite prod_cons, !map_app, !prod_app, ?Nat.mul_assoc. reflexivity. }
  rewrite Ers. cbn [rbind].
  apply (permutation_contract_rrep size R lay Hlay) with (ls := S ++ U ++ V); auto.
  apply holds_lrep in Hrs. eexists. split; [exact Hrs|].
  intros e He. cbn beta. rewrite !map_app. fold ss su sv.
  assert (Re : forall L, incl L (S ++ U ++ V) -> in_bounds (map size L) (map e L) = true).
  { intros L HL'. apply in_bounds_map. eapply in_range_incl; eauto. }
  rewrite refold_expand.
  2:{ apply Re. intros c Hc. apply in_or_app; auto. }
  2:{ unfold su, sv. rewrite <- !map_app. apply Re. intros c Hc. apply in_or_app; auto. }
  assert (BS : in_bounds ss (map e S) = true) by (apply Re; intros c Hc; apply in_or_app; auto).
  pose proof (flat_lt _ _ BS) as Hlt.
  cbn [partial_value]. destruct (Nat.ltb_spec (flat ss (map e S)) (prod ss)); [|lia].
  destruct (Hval _ Hlt) as (_ & _ & _ & _ & _ & _ & _ & Hs).
  specialize (Hs (map e U ++ map e V)). rewrite (unflat_flat _ _ BS) in Hs.
  rewrite nested_sum_idx. fold sc.
  eapply (tfp_terms_rel R Z HR lay Hfu SR) with (p := fun z => F (over C z e)) (q := fun z => G (over C z e)); [eapply no_empty_prod; eauto| | |apply Hs].
  3:{ unfold su, sv. rewrite <- !map_app. apply Re. intros c Hc. apply in_or_app; auto. }
  { apply Re. intros c Hc. rewrite !in_app_iff. auto. }
  intros z Hz. pose proof (contract_value size R l r (S ++ U) [] S V C F0 G0 F G e) as Hv.
  cbn [map] in Hv. rewrite !app_nil_r, <- !app_assoc in Hv.
  unshelve epose proof (Hv _ _ _ _ _ _ _ z Hz) as Hv'; auto.
  - intros e' He'. apply Rf. eapply in_range_incl; [|exact He']. intros c. apply Permutation_in, Permutation_sym; auto.
  - intros e' He'. apply Rg. eapply in_range_incl; [|exact He']. intros c. apply Permutation_in, Permutation_sym; auto.
  - eapply in_range_incl; [|exact He]. intros c. cbn [app]. rewrite !in_app_iff. tauto.
  - rewrite map_app, <- app_assoc, app_nil_r in Hv'. exact Hv'.
Qed.

(** The labels of a simplified pair, by kind. *)
Lemma filter_perm_set (l m : list char) : NoDup l -> NoDup m -> (forall c, In c l <-> In c m) -> Permutation l m.
Proof. intros. apply NoDup_Permutation; auto. Qed.

(** What is compiled: the labels of both operands and the output, of one operand and the output, and
    of both operands only. *)
Lemma stacked_compiles sc lhs rhs out :
  sized sc [lhs; rhs] out size -> simplified lhs rhs out ->
  let S := filter (both lhs rhs) out in let U := filter (only lhs rhs) out in
  let V := filter (only rhs lhs) out in let C := filter (fun c => negb (mem c out)) lhs in
  exists pl pr order,
    stacked_new sc
    = Ok (mkST pl pr ([prod (map size S)] ++ map size U ++ map size C)
         ([prod (map size S)] ++ map size C ++ map size V)
         ([prod (map size S)] ++ map size U ++ map size V)
         (tfp_for (map size U) (map size C) (map size V))
         (map size (S ++ U ++ V)) order)
    /\ NoDup (S ++ U ++ V) /\ Permutation (S ++ U ++ C) lhs /\ Permutation (S ++ C ++ V) rhs
    /\ Forall2 (fun o k => position o lhs = Some k) (S ++ U ++ C) pl
    /\ Forall2 (fun o k => position o rhs = Some k) (S ++ C ++ V) pr
    /\ Permutation out (S ++ U ++ V)
    /\ Forall2 (fun o k => position o (S ++ U ++ V) = Some k) out order
    /\ NoDup C /\ forall c, In c C <-> (In c lhs \/ In c rhs) /\ ~ In c out.
Proof.
  intros HS [Hl Hr Ho Hi Ul Ur].
  pose proof HS as (Ec & _ & _).
  set (S := filter (both lhs rhs) out). set (U := filter (only lhs rhs) out).
  set (V := filter (only rhs lhs) out). set (C := filter (fun c => negb (mem c out)) lhs).
  assert (IS : forall c, In c S <-> In c out /\ In c lhs /\ In c rhs).
  { intros c. unfold S, both. rewrite filter_In, andb_true_iff, !mem_In. tauto. }
  assert (IU : forall c, In c U <-> In c out /\ In c lhs /\ ~ In c rhs).
  { intros c. unfold U, only. rewrite filter_In, andb_true_iff, negb_true_iff, mem_In, mem_false. tauto. }
  assert (IV : forall c, In c V <-> In c out /\ In c rhs /\ ~ In c lhs).
  { intros c. unfold V, only. rewrite filter_In, andb_true_iff, negb_true_iff, mem_In, mem_false. tauto. }
  assert (IC : forall c, In c C <-> In c lhs /\ ~ In c out).
  { intros c. unfold C. rewrite filter_In, negb_true_iff, mem_false. tauto. }
  assert (NS : NoDup S) by (apply NoDup_filter; auto).
  assert (NU : NoDup U) by (apply NoDup_filter; auto).
  assert (NV : NoDup V) by (apply NoDup_filter; auto).
  assert (NC : NoDup C) by (apply NoDup_filter; auto).
  assert (Hout : forall c, In c out -> In c lhs \/ In c rhs) by (intros c Hc; apply in_app_iff, Hi; auto).
  assert (N1 : NoDup (S ++ U ++ C)).
  { apply NoDup_app_intro; auto; [apply NoDup_app_intro; auto|].
    - intros c. rewrite IU, IC. tauto.
    - intros c. rewrite in_app_iff, IS, IU, IC. tauto. }
  assert (N2 : NoDup (S ++ C ++ V)).
  { apply NoDup_app_intro; auto; [apply NoDup_app_intro; auto|].
    - intros c. rewrite IV, IC. tauto.
    - intros c. rewrite in_app_iff, IS, IV, IC. tauto. }
  assert (N3 : NoDup (S ++ U ++ V)).
  { apply NoDup_app_intro; auto; [apply NoDup_app_intro; auto|].
    - intros c. rewrite IV, IU. tauto.
    - intros c. rewrite in_app_iff, IS, IV, IU. tauto. }
  assert (P1 : Permutation (S ++ U ++ C) lhs).
  { apply NoDup_Permutation; auto. intros c. rewrite !in_app_iff, IS, IU, IC.
    destruct (in_dec N.eq_dec c out), (in_dec N.eq_dec c rhs); tauto. }
  assert (P2 : Permutation (S ++ C ++ V) rhs).
  { apply NoDup_Permutation; auto. intros c. rewrite !in_app_iff, IS, IV, IC.
    specialize (Ul c). specialize (Ur c).
    destruct (in_dec N.eq_dec c out), (in_dec N.eq_dec c lhs); tauto. }
  assert (P3 : Permutation out (S ++ U ++ V)).
  { apply NoDup_Permutation; auto. intros c. rewrite !in_app_iff, IS, IU, IV. specialize (Hout c).
    destruct (in_dec N.eq_dec c lhs), (in_dec N.eq_dec c rhs); tauto. }
  assert (I1 : forall c, In c C -> In c rhs).
  { intros c Hc. apply IC in Hc as [H1 H2]. destruct (Ul c H1); tauto. }
  (* compile *)
  unfold stacked_new. rewrite Ec. cbn [contraction_of operand_indices output_indices length Nat.eqb rassert rbind].
  unfold index. cbn [nth_error unwrap rbind].
  rewrite !maybe_find_ok by auto. cbn [rbind].
  rewrite (stack_fold sc lhs rhs out size HS out) by auto. fold S U V.
  cbn [rbind].
  rewrite (contracted_fold sc lhs rhs out size HS out).
  2:{ intros [i c] Hic. apply in_combine_r in Hic. cbn [snd]. auto. }
  set (X := filter (fun ic => negb (mem (snd ic) out)) (combine (seq 0 (length lhs)) lhs)).
  pose proof (filter_positions (fun c => negb (mem c out)) lhs Hl) as FC. fold X C in FC.
  assert (XC : map snd X = C).
  { unfold X, C. clear. generalize 0. induction lhs as [|c l IH]; intros k; auto.
    cbn [length seq combine filter snd]. destruct (negb (mem c out)); cbn [map snd]; rewrite IH; auto. }
  assert (XR : map (fun ic => pos rhs (snd ic)) X = map (pos rhs) C) by (rewrite <- XC, map_map; auto).
  assert (XS : map (fun ic => size (snd ic)) X = map size C) by (rewrite <- XC, map_map; auto).
  rewrite XR, XS. cbn [app rbind sa_lhs_stack_axes sa_rhs_stack_axes sa_stack_indices
    sa_lhs_outer_axes sa_lhs_outer_indices sa_rhs_outer_axes sa_rhs_outer_indices
    sa_lhs_uncontracted_shape sa_rhs_uncontracted_shape sa_lhs_stack_len sa_rhs_stack_len].
  rewrite Nat.mul_1_l, Nat.eqb_refl. cbn [rassert rbind].
  assert (Hsz : forall L, incl L (lhs ++ rhs) -> mapM (size_of (sc_output_size sc)) L = Ok (map size L)).
  { intros L HL. eapply sizes_ok; eauto. simpl. rewrite app_nil_r. auto. }
  rewrite (Hsz U) by (intros c Hc; apply IU in Hc; apply in_or_app; tauto).
  rewrite (Hsz V) by (intros c Hc; apply IV in Hc; apply in_or_app; tauto). cbn [rbind].
  destruct (find_ok out (S ++ U ++ V)) as (order & Eo & Fo); auto.
  { intros c Hc. apply (Permutation_in c P3); auto. }
  rewrite Eo. cbn [rbind].
  rewrite (Hsz (S ++ U ++ V)).
  2:{ intros c Hc. apply (Permutation_in c (Permutation_sym P3)) in Hc. auto. }
  cbn [rbind skipn].
  assert (Lx : length (map fst X) = length (map size C))
    by (rewrite !map_length, <- XC, map_length; auto).
  rewrite Lx, tfp_from_shapes_ok. cbn [rbind].
  exists (map (pos lhs) S ++ map (pos lhs) U ++ map fst X),
    (map (pos rhs) S ++ map (pos rhs) C ++ map (pos rhs) V), order.
  split; [reflexivity|]. split; [auto|]. split; [auto|]. split; [auto|]. split; [|split; [|split; [auto|split; [auto|split; [auto|]]]]].
  - apply Forall2_app; [|apply Forall2_app]; auto; apply pos_positions; intros c Hc.
    + apply IS in Hc. tauto.
    + apply IU in Hc. tauto.
  - apply Forall2_app; [|apply Forall2_app]; auto; apply pos_positions; intros c Hc.
    + apply IS in Hc. tauto.
    + auto.
    + apply IV in Hc. tauto.
  - intros c. rewrite IC. split; [tauto|].
    intros [[H|H] Hc]; [auto|]. destruct (Ur c H); tauto.
Qed.

Theorem stacked_ok sc lhs rhs out :
  sized sc [lhs; rhs] out size -> simplified lhs rhs out ->
  exists s, stacked_new sc = Ok s /\ computes2 size R (run_stacked lay s) lhs rhs out.
Proof.
  intros HS Hsm. pose proof Hsm as [Hl Hr _ _ _ _].
  destruct (stacked_compiles sc lhs rhs out HS Hsm) as (pl & pr & order & E & N3 & P1 & P2 & F1 & F2 & P3 & F3 & NC & IC).
  rewrite E. eexists. split; [reflexivity|].
  intros a b F G Ha Hb.
  edestruct (run_stacked_rrep a b lhs rhs) as (r & Er & Hrr); eauto.
  eexists r, _. split; [exact Er|]. split; [|exact Hrr]. apply summed2_perm; auto.
Qed.

End Labelled.
