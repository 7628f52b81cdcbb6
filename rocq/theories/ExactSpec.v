(** The specification of reduced operands (C75): how labels are summed one after the other, in arithmetic
    without laws. No proofs in this file, and nothing of the model. *)
From Verif Require Import Base Spec.

(** The labels of [this] that [out] lacks, each where it is met first. *)
Fixpoint seen_first (this out : list char) : list char :=
  match this with
  | [] => []
  | c :: this' => if in_dec N.eq_dec c out then seen_first this' out else c :: seen_first this' (c :: out)
  end.

(** One label after the other is summed, the first one first; [way l x] if [x] is a sum of [l]. *)
Inductive axis_sums {A : Type} (way : list A -> A -> Prop) (size : char -> nat)
  : list char -> (env -> A) -> (env -> A) -> Prop :=
| no_sums : forall F, axis_sums way size [] F F
| sum_over : forall c cs F G V, (forall e, way (map (fun i => F (upd e c i)) (seq 0 (size c))) (G e)) ->
    axis_sums way size cs G V -> axis_sums way size (c :: cs) F V.

(** An array with labels [this] and elements [F] is reduced to one with labels [L] and elements [G]: of its
    labels only those in [used] are kept, each once, and the others are summed. *)
Definition reduces {A : Type} (way : list A -> A -> Prop) (size : char -> nat) (this used : list char)
    (F : env -> A) (L : list char) (G : env -> A) : Prop :=
  NoDup L /\ (forall c, In c L <-> In c this /\ In c used)
  /\ (NoDup this -> incl this used -> L = this)
  /\ axis_sums way size (seen_first this used) F G.
