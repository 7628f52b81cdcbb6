(** What a [Debug] text should show: a tree of named nodes, and the text of a tree. Independent of the model
    of the implementations in Debug.v. *)
From Verif Require Import Base Validation Serde.
From Coq Require String DecimalString.
Import String.StringSyntax.
Local Open Scope string_scope.
Local Open Scope list_scope.

(** A number, a character, a string, a node with named parts, a name with one part in parentheses, a list
    and a table. *)
Inductive tree :=
| TNum (n : nat)
| TChar (c : char)
| TStr (s : list char)
| TNode (name : list char) (parts : list (list char * tree))
| TWrap (name : list char) (t : tree)
| TSeq (l : list tree)
| TMap (l : list (tree * tree)).

Fixpoint separated (l : list (list char)) : list char :=
  match l with
  | [] => []
  | x :: l' => match l' with [] => x | _ => x ++ [44; 32]%N ++ separated l' end
  end.

Definition decimal (n : nat) : list char := chars (DecimalString.NilZero.string_of_uint (Nat.to_uint n)).

(** The text of a tree. A node without parts is its name. *)
Fixpoint show (t : tree) : list char :=
  match t with
  | TNum n => decimal n
  | TChar c => [39; c; 39]%N
  | TStr s => 34%N :: s ++ [34%N]
  | TNode name [] => name
  | TNode name parts =>
      name ++ [32; 123; 32]%N ++ separated (map (fun p => fst p ++ [58; 32]%N ++ show (snd p)) parts) ++ [32; 125]%N
  | TWrap name t => name ++ 40%N :: show t ++ [41%N]
  | TSeq l => 91%N :: separated (map show l) ++ [93%N]
  | TMap l => 123%N :: separated (map (fun p => show (fst p) ++ [58; 32]%N ++ show (snd p)) l) ++ [125%N]
  end.

(** What a stored value (C48) looks like. The name of an enum and the number of a variant are not shown. *)
Fixpoint picture (d : data) : tree :=
  match d with
  | DNum n => TNum n
  | DChar c => TChar c
  | DStr s => TStr s
  | DOption None => TNode (chars "None") []
  | DOption (Some d) => TWrap (chars "Some") (picture d)
  | DSeq l => TSeq (map picture l)
  | DMap l => TMap (map (fun p => (picture (fst p), picture (snd p))) l)
  | DStruct name fields => TNode name (map (fun p => (fst p, picture (snd p))) fields)
  | DVariant _ _ v None => TNode v []
  | DVariant _ _ v (Some d) => TWrap v (picture d)
  end.

(** Names as in Rust: letters, digits and underscores; the name of a node begins with a capital letter. *)
Definition letter (c : char) : bool :=
  (N.leb 97 c && N.leb c 122) || (N.leb 65 c && N.leb c 90) || (N.leb 48 c && N.leb c 57) || N.eqb c 95.
Definition capital (c : char) : bool := N.leb 65 c && N.leb c 90.
Definition type_name (s : list char) : bool :=
  match s with c :: s' => capital c && forallb letter s' | [] => false end.

(** Trees that [show] writes legibly: proper names, and no quotation mark inside a string. *)
Fixpoint legible (t : tree) : bool :=
  match t with
  | TNum _ | TChar _ => true
  | TStr s => forallb (fun c => negb (N.eqb c 34)) s
  | TNode name parts => type_name name && forallb (fun p => forallb letter (fst p) && legible (snd p)) parts
  | TWrap name t => type_name name && legible t
  | TSeq l => forallb legible l
  | TMap l => forallb (fun p => legible (fst p) && legible (snd p)) l
  end.
