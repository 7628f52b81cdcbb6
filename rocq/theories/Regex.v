(** The regular expression of validation.rs:400-406, read from its text, and what it matches. The
    syntax and its meaning are those the regex crate documents, for the constructs the pattern uses.
    No proofs in this file. *)
From Verif Require Import Base Validation.
From Coq Require String Ascii.
Import String.StringSyntax.
Local Open Scope string_scope.
Local Open Scope list_scope.

(** The syntax of patterns, as much of it as the pattern of validation.rs:400-406 uses. *)
Inductive regex : Type :=
| RStart                                     (* ^ *)
| REnd                                       (* $ *)
| RClass (lo hi : char)                      (* [a-z] *)
| RLit (c : char)                            (* any other character *)
| REmpty
| RSeq (r1 r2 : regex)
| RStar (r : regex)                          (* r* *)
| RPlus (r : regex)                          (* r+ *)
| ROpt (r : regex)                           (* r? *)
| RGroup (name : list char) (r : regex).     (* (?P<name>r) *)

(** ** Reading a pattern *)

(** White space, which the flag [x] lets one write anywhere in a pattern
    [validation.rs:400-406]. *)
Definition is_space (c : char) : bool := (N.eqb c 32 || N.eqb c 10)%N.

(** The characters up to [stop], and what follows it [validation.rs:400-406]. *)

Fixpoint upto (stop : char) (s : list char) : option (list char * list char) :=
  match s with
  | [] => None
  | c :: s' => if N.eqb c stop then Some ([], s')
               else match upto stop s' with Some (m, r) => Some (c :: m, r) | None => None end
  end.

(** What follows a given start, to read the parts of the pattern [validation.rs:400-406]. *)
Fixpoint strip (p s : list char) : option (list char) :=
  match p, s with
  | [], _ => Some s
  | a :: p', b :: s' => if N.eqb a b then strip p' s' else None
  | _, [] => None
  end.

(** The repetition operators after an atom [validation.rs:400-406]. *)
Fixpoint read_postfix (r : regex) (s : list char) : regex * list char :=
  match s with
  | c :: s' =>
      if N.eqb c 42 then read_postfix (RStar r) s'
      else if N.eqb c 43 then read_postfix (RPlus r) s'
      else if N.eqb c 63 then read_postfix (ROpt r) s'
      else (r, s)
  | [] => (r, [])
  end%N.

(** A sequence of atoms, up to a closing parenthesis or the end [validation.rs:400-406]. *)
Fixpoint read_seq (fuel : nat) (s : list char) : option (regex * list char) :=
  match fuel with
  | O => None
  | S fuel =>
      let continue r s' :=
        let '(r', s'') := read_postfix r s' in
        match read_seq fuel s'' with Some (q, rest) => Some (RSeq r' q, rest) | None => None end in
      let closed wrap s' :=
        match read_seq fuel s' with
        | Some (q, c :: rest) => if N.eqb c 41 then continue (wrap q) rest else None
        | _ => None
        end in
      match s with
      | [] => Some (REmpty, [])
      | c :: s' =>
          if N.eqb c 41 then Some (REmpty, s)
          else if N.eqb c 94 then continue RStart s'
          else if N.eqb c 36 then continue REnd s'
          else if N.eqb c 91 then
            match s' with
            | lo :: d :: hi :: e :: rest =>
                if N.eqb d 45 && N.eqb e 93 then continue (RClass lo hi) rest else None
            | _ => None
            end
          else if N.eqb c 40 then
            match strip (chars "?:") s' with
            | Some rest => closed (fun q => q) rest
            | None =>
                match strip (chars "?P<") s' with
                | Some rest => match upto 62 rest with
                               | Some (name, rest') => closed (RGroup name) rest'
                               | None => None
                               end
                | None => None
                end
            end
          else continue (RLit c) s'
      end
  end%N.

(** A pattern in verbose mode, [(?x)] [validation.rs:400-406]. *)
Definition read_pattern (s : list char) : option regex :=
  match strip (chars "(?x)") s with
  | Some s' => let s'' := filter (fun c => negb (is_space c)) s' in
               match read_seq (S (length s'')) s'' with Some (r, []) => Some r | _ => None end
  | None => None
  end.

(** validation.rs:400-406, the argument of [Regex::new]. *)
Definition einsum_pattern : list char := chars "(?x)
            ^
            (?P<first_operand>[a-z]+)
            (?P<more_operands>(?:,[a-z]+)*)
            (?:->(?P<output>[a-z]*))?
            $
            ".

(** ** What a pattern matches *)

(** The named groups of a match and what they hold [validation.rs:408-413]. *)
Definition groups := list (list char * list char).

(** [matches r pre w post g g']: in the text [pre ++ w ++ post], [r] can match [w], adding to the
    captured groups [g]. Which of several matches is preferred is not said; the pattern has only one
    [validation.rs:400-406]. *)
Inductive matches : regex -> list char -> list char -> list char -> groups -> groups -> Prop :=
| m_start post g : matches RStart [] [] post g g
| m_end pre g : matches REnd pre [] [] g g
| m_class lo hi c pre post g : (lo <= c)%N -> (c <= hi)%N -> matches (RClass lo hi) pre [c] post g g
| m_lit c pre post g : matches (RLit c) pre [c] post g g
| m_empty pre post g : matches REmpty pre [] post g g
| m_seq r1 r2 pre w1 w2 post g g1 g2 :
    matches r1 pre w1 (w2 ++ post) g g1 -> matches r2 (pre ++ w1) w2 post g1 g2 ->
    matches (RSeq r1 r2) pre (w1 ++ w2) post g g2
| m_star_none r pre post g : matches (RStar r) pre [] post g g
| m_star_more r pre w1 w2 post g g1 g2 :
    matches r pre w1 (w2 ++ post) g g1 -> matches (RStar r) (pre ++ w1) w2 post g1 g2 ->
    matches (RStar r) pre (w1 ++ w2) post g g2
| m_plus r pre w1 w2 post g g1 g2 :
    matches r pre w1 (w2 ++ post) g g1 -> matches (RStar r) (pre ++ w1) w2 post g1 g2 ->
    matches (RPlus r) pre (w1 ++ w2) post g g2
| m_opt_none r pre post g : matches (ROpt r) pre [] post g g
| m_opt_some r pre w post g g1 : matches r pre w post g g1 -> matches (ROpt r) pre w post g g1
| m_group name r pre w post g g1 :
    matches r pre w post g g1 -> matches (RGroup name r) pre w post g ((name, w) :: g1).

(** The groups captured by some match anywhere in the text: [Regex::captures]
    [validation.rs:408]. *)
Definition finds (r : regex) (s : list char) (g : groups) : Prop :=
  exists pre w post, s = pre ++ w ++ post /\ matches r pre w post [] g.

(** [captures.name(name)] [validation.rs:410]. *)
Definition group_named (name : list char) (g : groups) : option (list char) :=
  option_map snd (find (fun p => if list_eq_dec N.eq_dec (fst p) name then true else false) g).
