(** Model of /repo/src/validation.rs. No proofs in this file. *)
From Verif Require Import Base.
From Coq Require String Ascii.
Import String.StringSyntax.
Local Open Scope string_scope.
Local Open Scope list_scope.
Local Open Scope N_scope.

(** A Coq string literal as a list of code points, for examples and literals
    [validation.rs:400-413]. *)

Definition chars (s : String.string) : list char :=
  map Ascii.N_of_ascii (String.list_ascii_of_string s).

(** The separator of operands [validation.rs:382,400-413]. *)

Definition c_comma : char := 44.   (* ',' *)

(** The first character of the arrow [validation.rs:386,400-406]. *)

Definition c_minus : char := 45.   (* '-' *)

(** The second character of the arrow [validation.rs:386,400-406]. *)
Definition c_gt : char := 62.      (* '>' *)

(** The character class [a-z] [validation.rs:400-406]. *)
Definition is_lower (c : char) : bool := (97 <=? c) && (c <=? 122).

(** validation.rs:37-41 [struct EinsumParse]. *)
Record einsum_parse := mkParse {
  p_operand_indices : list (list char);
  p_output_indices : option (list char)
}.

(** validation.rs:57-71 [struct Contraction]. *)
Record contraction := mkContraction {
  operand_indices : list (list char);
  output_indices : list char;
  summation_indices : list char
}.

(** validation.rs:159 [type OutputSize = HashMap<char, usize>]: an association list with at
    most one entry per label. *)

Definition output_size_map := list (char * nat).

(** [output_size.get(&c)] and [output_size[&c]] [validation.rs:183-196,256-261]. *)
Fixpoint lookup (c : char) (m : output_size_map) : option nat :=
  match m with
  | [] => None
  | (d, n) :: m' => if N.eqb d c then Some n else lookup c m'
  end.

(** [output_size[c]]: panics when the key is absent [validation.rs:256-261]. *)
Definition size_of (m : output_size_map) (c : char) : res nat := unwrap (lookup c m).

(** validation.rs:211-216 [struct SizedContraction]. *)
Record sized_contraction := mkSized {
  sc_contraction : contraction;
  sc_output_size : output_size_map
}.

(** ** Parsing: validation.rs:395-421 [parse_einsum_string]

    The regex of validation.rs:400-406 (lower-case run, then comma and lower-case run any number
    of times, then optionally an arrow and a possibly empty lower-case run) is modelled by a
    scanner that computes the three capture groups. [Regex.v] has the pattern itself and what it
    matches, and [RegexFacts.v] proves the scanner computes exactly its match. *)

(** The longest prefix of characters a-z, and the rest: groups [first_operand] and [output]
    [validation.rs:400-406]. *)
Fixpoint scan_lower (s : list char) : list char * list char :=
  match s with
  | c :: s' =>
      if is_lower c then let '(m, r) := scan_lower s' in (c :: m, r) else ([], s)
  | [] => ([], [])
  end.

(** Started just after a maximal run of a-z: the longest prefix matching (comma, lower-case run) repeated, and
    the rest: group [more_operands] [validation.rs:400-406]. *)
Fixpoint scan_more (s : list char) : list char * list char :=
  match s with
  | c :: s' =>
      if is_lower c
         || (N.eqb c c_comma && match s' with d :: _ => is_lower d | [] => false end)
      then let '(m, r) := scan_more s' in (c :: m, r)
      else ([], s)
  | [] => ([], [])
  end.

(** validation.rs:408 [RE.captures(input_string)]: (first_operand, more_operands, output). *)
Definition captures (s : list char) : option (list char * list char * option (list char)) :=
  let '(first_operand, rest1) := scan_lower s in
  match first_operand with
  | [] => None
  | _ =>
      let '(more_operands, rest2) := scan_more rest1 in
      match rest2 with
      | [] => Some (first_operand, more_operands, None)
      | a :: b :: rest3 =>
          if N.eqb a c_minus && N.eqb b c_gt then
            let '(output, rest4) := scan_lower rest3 in
            match rest4 with
            | [] => Some (first_operand, more_operands, Some output)
            | _ => None
            end
          else None
      | _ => None
      end
  end.

(** [str::split(sep)]: always at least one piece [validation.rs:413]. *)
Fixpoint split_on (sep : char) (s : list char) : list (list char) :=
  match s with
  | [] => [[]]
  | c :: s' =>
      if N.eqb c sep then [] :: split_on sep s'
      else match split_on sep s' with
           | p :: ps => (c :: p) :: ps
           | [] => [[c]]
           end
  end.

(** validation.rs:396-421 [parse_einsum_string]. *)
Definition parse_einsum_string (s : list char) : option einsum_parse :=
  match captures s with
  | None => None
  | Some (first_operand, more_operands, output) =>
      Some (mkParse (first_operand :: skipn 1 (split_on c_comma more_operands)) output)
  end.

(** ** Contraction *)

(** The error of validation.rs:76. *)

Definition msg_invalid : String.string := "Invalid string".

(** The error of validation.rs:131. *)

Definition msg_dup : String.string := "Requested output has duplicate index".

(** The error of validation.rs:136. *)

Definition msg_unknown : String.string := "Requested output contains an index not found in inputs".

(** The error of validation.rs:176. *)

Definition msg_num_operands : String.string :=
  "number of operands in contraction does not match number of operands supplied".

(** The error of validation.rs:186. *)

Definition msg_num_indices : String.string :=
  "number of indices in one or more operands does not match dimensions of operand".

(** The error of validation.rs:196. *)

Definition msg_size : String.string := "repeated index with different size".

(** The error of validation.rs:249. *)
Definition msg_subset : String.string :=
  "Character found in new_operand_indices but not in self.output_size".

(** validation.rs:128-138: the loop over [distinct_output_indices.iter()], in hash order. *)
Fixpoint check_output (inputs output : list char) (order : list char) : res unit :=
  match order with
  | [] => Ok tt
  | c :: order' =>
      if Nat.ltb 1 (count c output) then Err msg_dup
      else if negb (mem c inputs) then Err msg_unknown
      else check_output inputs output order'
  end.

(** validation.rs:115-154 [Contraction::from_indices]. The HashMap [distinct_output_indices]
    has key [0 :: k], the HashMap [input_char_counts] has key [1 :: k]. *)
Definition from_indices (h : hash_order) (k : key)
    (operands : list (list char)) (output : list char) : res contraction :=
  let inputs := concat operands in
  do _ <- check_output inputs output (h (0%nat :: k) (distinct output));
  let summation :=
    sort_chars (filter (fun c => negb (mem c output)) (h (1%nat :: k) (distinct inputs))) in
  Ok (mkContraction operands output summation).

(** validation.rs:85-111 [Contraction::from_parse]. The HashMap [input_indices] has key [2 :: k]. *)
Definition from_parse (h : hash_order) (k : key) (p : einsum_parse) : res contraction :=
  let inputs := concat (p_operand_indices p) in
  let requested :=
    match p_output_indices p with
    | Some s => s
    | None =>
        sort_chars
          (filter (fun c => Nat.eqb (count c inputs) 1) (h (2%nat :: k) (distinct inputs)))
    end in
  from_indices h k (p_operand_indices p) requested.

(** validation.rs:75-78 [Contraction::new]. *)
Definition contraction_new (h : hash_order) (k : key) (s : list char) : res contraction :=
  match parse_einsum_string s with
  | None => Err msg_invalid
  | Some p => from_parse h k p
  end.

(** validation.rs:424-426 [validate]. *)
Definition validate (h : hash_order) (k : key) (s : list char) : res contraction :=
  contraction_new h k s.

(** ** Sizes *)

(** validation.rs:193-198: one axis. [entry(c).or_insert(n)] then compare. *)
Definition add_axis (m : output_size_map) (cn : char * nat) : res output_size_map :=
  let '(c, n) := cn in
  match lookup c m with
  | Some e => if Nat.eqb e n then Ok m else Err msg_size
  | None => Ok ((c, n) :: m)
  end.

(** validation.rs:183-199: one operand. *)
Definition add_operand (m : output_size_map) (op : list char * list nat) : res output_size_map :=
  let '(ixs, sh) := op in
  if Nat.eqb (length ixs) (length sh) then foldM add_axis (combine ixs sh) m
  else Err msg_num_indices.

(** validation.rs:170-202 [OutputSize::from_contraction_and_shapes]. *)
Definition output_size_from (c : contraction) (shapes : list (list nat)) : res output_size_map :=
  if Nat.eqb (length (operand_indices c)) (length shapes)
  then foldM add_operand (combine (operand_indices c) shapes) []
  else Err msg_num_operands.

(** validation.rs:269-279 [SizedContraction::from_contraction_and_shapes]; with
    validation.rs:294-301 [from_contraction_and_operands], which only extracts the shapes. *)
Definition sized_from_contraction (c : contraction) (shapes : list (list nat))
  : res sized_contraction :=
  do m <- output_size_from c shapes; Ok (mkSized c m).

(** validation.rs:316-322 [SizedContraction::from_string_and_shapes]; with validation.rs:337-344
    [SizedContraction::new] and 437-442 [validate_and_size], which only extract the shapes. *)
Definition from_string_and_shapes (h : hash_order) (k : key) (s : list char)
    (shapes : list (list nat)) : res sized_contraction :=
  do c <- validate h k s; sized_from_contraction c shapes.

(** validation.rs:234-267 [SizedContraction::subset]. *)
Definition subset (h : hash_order) (k : key) (sc : sized_contraction)
    (new_operands : list (list char)) (new_output : list char) : res sized_contraction :=
  let all := distinct (concat new_operands) in
  if existsb (fun c => match lookup c (sc_output_size sc) with None => true | Some _ => false end) all
  then Err msg_subset
  else
    do c <- from_indices h k new_operands new_output;
    Ok (mkSized c (filter (fun cn => mem (fst cn) all) (sc_output_size sc))).

(** validation.rs:375-392 [SizedContraction::as_einsum_string]. *)
Definition as_einsum_string (sc : sized_contraction) : res (list char) :=
  match operand_indices (sc_contraction sc) with
  | [] => Panic
  | op0 :: ops =>
      Ok (op0 ++ flat_map (fun op => c_comma :: op) ops
          ++ [c_minus; c_gt] ++ output_indices (sc_contraction sc))
  end.
