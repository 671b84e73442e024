(** Model of the bootstrap parser of grammar files, lapex-input-bootstrap/src/lib.rs, on the bytes of the text.

    The parser combinators of the external crate nom 7.1.1 are modelled from their documentation; a failure carries no message,
    as [alt], [opt], [many1] and [separated_list1] ignore it and parse_lapex_file (333) unwraps it. *)
From Coq Require Import String Ascii List Arith NArith Bool.
From Verif Require Import Base InputModel.
Import ListNotations.
Local Open Scope nat_scope.
Local Open Scope list_scope.

(** lib.rs 12, [nom::IResult]: [IResult]: a value and the remaining input, or [nom::Err::Error].  [Starved] is the fuel of the model running out. *)
Inductive parsed (A : Type) : Type :=
| Done (a : A) (rest : list N)
| Fail
| Starved.
Arguments Done {A} a rest.
Arguments Fail {A}.
Arguments Starved {A}.

(** The type of the functions of lib.rs 17-321. *)
Definition parser (A : Type) : Type := list N -> parsed A.

(** lib.rs 18-320, the lines [let (input, x) = p(input)?; k]. *)
Definition andthen {A B} (r : parsed A) (k : A -> parser B) : parsed B :=
  match r with
  | Done a rest => k a rest
  | Fail => Fail
  | Starved => Starved
  end.
Notation "'take' ( x , i ) <- r ; k" := (andthen r (fun x i => k)) (at level 200, x name, i name, r at level 100, k at level 200, right associativity).

(** lib.rs 38-292, the arguments of [tag]. The bytes of a literal, and the code of a byte literal. *)
Definition bytes (s : string) : list N := map N_of_ascii (list_ascii_of_string s).
(** lib.rs 19-31 and 285, the byte literals. *)
Definition code (a : ascii) : N := N_of_ascii a.

(** [std::str::from_utf8(name).unwrap()] for a name of ASCII bytes (198, 210, 277, 296). *)
Definition name_of (bs : list N) : string := string_of_list_ascii (map ascii_of_N bs).

(** lib.rs 10 and 38-292; nom: [tag]. *)
Fixpoint tag (t : list N) (input : list N) : parsed unit :=
  match t with
  | [] => Done tt input
  | c :: t' =>
    match input with
    | [] => Fail
    | d :: input' => if (c =? d)%N then tag t' input' else Fail
    end
  end.

(** nom: [take(1)]. *)
Definition take_one : parser N := fun input => match input with [] => Fail | c :: rest => Done c rest end.

(** lib.rs 10; used for the functions of nom below. The longest prefix of bytes with a property. *)
Fixpoint span (f : N -> bool) (input : list N) : list N * list N :=
  match input with
  | [] => ([], [])
  | c :: rest => if f c then (let '(a, b) := span f rest in (c :: a, b)) else ([], input)
  end.

(** nom: [take_while1], [space1], [multispace0], [multispace1]. *)
Definition take_while1 (f : N -> bool) : parser (list N) := fun input =>
  match span f input with
  | ([], _) => Fail
  | (a, rest) => Done a rest
  end.
(** lib.rs 11, the bytes of [space1]. *)
Definition is_space (c : N) : bool := (c =? 32)%N || (c =? 9)%N.
(** lib.rs 7, the bytes of [multispace0] and [multispace1]. *)
Definition is_multispace (c : N) : bool := (c =? 32)%N || (c =? 9)%N || (c =? 13)%N || (c =? 10)%N.
(** lib.rs 11 and 188-290. *)
Definition space1 : parser (list N) := take_while1 is_space.
(** lib.rs 7 and 318. *)
Definition multispace1 : parser (list N) := take_while1 is_multispace.
(** lib.rs 7, 317 and 319. *)
Definition multispace0 : parser (list N) := fun input => let '(a, rest) := span is_multispace input in Done a rest.

(** lib.rs 10, 18 and 49; nom: [take_while_m_n]: as many of the first [n] bytes as have the property, at least [m]. *)
Definition take_while_m_n (m n : nat) (f : N -> bool) : parser (list N) := fun input =>
  let a := fst (span f (firstn n input)) in
  if m <=? length a then Done a (skipn (length a) input) else Fail.

(** lib.rs 77-312; nom: [alt], [opt], [map]. *)
Definition orelse {A} (p q : parser A) : parser A := fun input =>
  match p input with
  | Fail => q input
  | r => r
  end.
(** lib.rs 98 and 231; nom: [opt]. *)
Definition opt {A} (p : parser A) : parser (option A) := fun input =>
  match p input with
  | Done a rest => Done (Some a) rest
  | Fail => Done None input
  | Starved => Starved
  end.
(** lib.rs 89-312; nom: [map]. *)
Definition pmap {A B} (p : parser A) (f : A -> B) : parser B := fun input => take (a, rest) <- p input; Done (f a) rest.

(** nom: the loop of [many1], with its check for parsers which do not consume. *)
Fixpoint many_loop {A} (fuel : nat) (f : parser A) (input : list N) (acc : list A) : parsed (list A) :=
  match fuel with
  | O => Starved
  | S fuel' =>
    match f input with
    | Fail => Done acc input
    | Starved => Starved
    | Done a rest => if length rest =? length input then Fail else many_loop fuel' f rest (acc ++ [a])
    end
  end.
(** lib.rs 13, 100 and 159; nom: [many1]. *)
Definition many1 {A} (fuel : nat) (f : parser A) : parser (list A) := fun input =>
  take (a, rest) <- f input; many_loop fuel f rest [a].

(** nom: the loop of [separated_list1]; a separator without a following element is not consumed. *)
Fixpoint separated_loop {A B} (fuel : nat) (sep : parser B) (f : parser A) (input : list N) (acc : list A) : parsed (list A) :=
  match fuel with
  | O => Starved
  | S fuel' =>
    match sep input with
    | Fail => Done acc input
    | Starved => Starved
    | Done _ rest =>
      if length rest =? length input then Fail
      else
        match f rest with
        | Fail => Done acc input
        | Starved => Starved
        | Done a rest' => separated_loop fuel' sep f rest' (acc ++ [a])
        end
    end
  end.
(** lib.rs 13, 107, 217, 261 and 318; nom: [separated_list1]. *)
Definition separated_list1 {A B} (fuel : nat) (sep : parser B) (f : parser A) : parser (list A) := fun input =>
  take (a, rest) <- f input; separated_loop fuel sep f rest [a].

(** 18-32, the bytes which stand for themselves. *)
Definition stands_for_itself (c : N) : bool :=
  (c <? 128)%N && negb (existsb (N.eqb c) (map code ["]"; "/"; "\"; ")"; "|"; "+"; "*"; "?"; "009"; "013"; "010"]%char)).

(** 17-35, [parse_char_unescaped]. *)
Definition parse_char_unescaped : parser char := fun input =>
  take (ch, input) <- take_while_m_n 1 1 stands_for_itself input;
  Done (hd 0%N ch) input.

(** 49-52, the digits of [from_str_radix(_, 16)]. *)
Definition in_range (c : N) (a b : ascii) : bool := (code a <=? c)%N && (c <=? code b)%N.
(** lib.rs 49-52, [is_ascii_hexdigit]. *)
Definition is_hex (c : N) : bool := in_range c "0" "9" || in_range c "a" "f" || in_range c "A" "F".
(** lib.rs 55, the value of a digit. *)
Definition hex_digit (c : N) : N :=
  if in_range c "0" "9" then (c - code "0")%N
  else if in_range c "a" "f" then (c - code "a" + 10)%N
  else (c - code "A" + 10)%N.

(** 55, [u32::from_str_radix]; at most six digits, hence no overflow. *)
Definition from_radix_16 (ds : list N) : N := fold_left (fun v d => (v * 16 + hex_digit d)%N) ds 0%N.

(** 56, [std::char::from_u32]. *)
Definition from_u32 (n : N) : option char :=
  if (n <? 0xD800)%N || ((0xDFFF <? n)%N && (n <=? CHAR_MAX)%N) then Some n else None.

(** 37-74, [parse_char_escaped]. *)
Definition parse_char_escaped : parser char := fun input =>
  take (u, input) <- tag (bytes "\") input;
  take (ch, input) <- take_one input;
  if (ch =? code "n")%N then Done 10%N input
  else if (ch =? code "r")%N then Done 13%N input
  else if (ch =? code "t")%N then Done 9%N input
  else if (ch =? code "\")%N then Done (code "\") input
  else if (ch =? code "/")%N then Done (code "/") input
  else if (ch =? code "u")%N then
    take (u, input) <- tag (bytes "{") input;
    take (ds, input) <- take_while_m_n 4 6 is_hex input;
    take (u, input) <- tag (bytes "}") input;
    match from_u32 (from_radix_16 ds) with
    | Some c => Done c input
    | None => Fail
    end
  else Fail.

(** 76-78, [parse_char]. *)
Definition parse_char : parser char := orelse parse_char_unescaped parse_char_escaped.

(** 80-85, [parse_char_range]. *)
Definition parse_char_range : parser (char * char) := fun input =>
  take (c1, input) <- parse_char input;
  take (u, input) <- tag (bytes "-") input;
  take (c2, input) <- parse_char input;
  Done (c1, c2) input.

(** 87-94, [parse_char_or_range]. *)
Definition parse_char_or_range : parser characters :=
  orelse (pmap parse_char_range (fun r => CRange (fst r) (snd r))) (pmap parse_char Single).

(** 96-103, [parse_char_set]. *)
Definition parse_char_set (fuel : nat) : parser pattern := fun input =>
  take (u, input) <- tag (bytes "[") input;
  take (neg, input) <- opt (tag (bytes "^")) input;
  take (chars, input) <- many1 fuel parse_char_or_range input;
  take (u, input) <- tag (bytes "]") input;
  Done (PSet chars (match neg with Some _ => true | None => false end)) input.

(** 230-236, [parse_repetition_kind]. *)
Definition parse_repetition_kind : parser (option N) :=
  opt (orelse (pmap (tag (bytes "*")) (fun _ => 0%N))
      (orelse (pmap (tag (bytes "+")) (fun _ => 1%N)) (pmap (tag (bytes "?")) (fun _ => 2%N)))).

(** 105-161: the four functions are mutually recursive; here [sequence] is the recursive call of [parse_regex_sequence].
    [parse_regex_group]: *)
Definition parse_regex_group (fuel : nat) (sequence : parser pattern) : parser pattern := fun input =>
  take (u, input) <- tag (bytes "(") input;
  take (seqs, input) <- separated_list1 fuel (tag (bytes "|")) sequence input;
  take (u, input) <- tag (bytes ")") input;
  Done (match seqs with [s] => s | _ => PAlt seqs end) input.

(** 116-128, [parse_regex_element]. *)
Definition parse_regex_element (fuel : nat) (sequence : parser pattern) : parser pattern :=
  orelse (parse_regex_group fuel sequence)
  (orelse (parse_char_set fuel)
  (orelse (pmap (tag (bytes ".")) (fun _ => PSet [] true))
          (pmap parse_char (fun ch => PChar (Single ch))))).

(** 130-156, [parse_regex_repetition]; the [unreachable!] arm is for kinds other than 0, 1, 2, which
    [parse_repetition_kind] does not produce. *)
Definition parse_regex_repetition (fuel : nat) (sequence : parser pattern) : parser pattern := fun input =>
  take (inner, input) <- parse_regex_element fuel sequence input;
  take (rep_kind, input) <- parse_repetition_kind input;
  Done (match rep_kind with
        | Some 0%N => PRep 0 None inner
        | Some 1%N => PRep 1 None inner
        | Some _ => PRep 0 (Some 1%N) inner
        | None => inner
        end) input.

(** 158-161, [parse_regex_sequence]. *)
Fixpoint parse_regex_sequence (fuel : nat) (input : list N) : parsed pattern :=
  match fuel with
  | O => Starved
  | S fuel' =>
    take (elements, input) <- many1 fuel' (parse_regex_repetition fuel' (parse_regex_sequence fuel')) input;
    Done (PSeq elements) input
  end.

(** 163-168, [parse_regex_pattern]. *)
Definition parse_regex_pattern (fuel : nat) : parser token_pattern := fun input =>
  take (u, input) <- tag (bytes "/") input;
  take (seq, input) <- parse_regex_sequence fuel input;
  take (u, input) <- tag (bytes "/") input;
  Done (TPattern seq) input.

(** 170-179, [parse_literal_pattern]. *)
Definition in_literal (c : N) : bool := negb (c =? 34)%N && (c <? 128)%N.
(** 170-179, [parse_literal_pattern]. *)
Definition parse_literal_pattern : parser token_pattern := fun input =>
  take (u, input) <- tag [34%N] input;
  take (chars, input) <- take_while1 in_literal input;
  take (u, input) <- tag [34%N] input;
  Done (TLiteral chars) input.

(** 181-184, [parse_pattern]. *)
Definition parse_pattern (fuel : nat) : parser token_pattern := orelse parse_literal_pattern (parse_regex_pattern fuel).

(** 284-286, [parse_symbol_name]. *)
Definition in_name (c : N) : bool := in_range c "a" "z" || in_range c "A" "Z" || (c =? code "_")%N.
(** 284-286, [parse_symbol_name]. *)
Definition parse_symbol_name : parser (list N) := take_while1 in_name.

(** 186-203, [parse_token_rule]. *)
Definition parse_token_rule (fuel : nat) : parser token_rule := fun input =>
  take (u, input) <- tag (bytes "token") input;
  take (u, input) <- space1 input;
  take (name, input) <- parse_symbol_name input;
  take (u, input) <- space1 input;
  take (u, input) <- tag (bytes "=") input;
  take (u, input) <- space1 input;
  take (pat, input) <- parse_pattern fuel input;
  take (u, input) <- tag (bytes ";") input;
  Done (mkTokenRule (name_of name) None pat) input.

(** 205-213, [parse_rule_name]. *)
Definition parse_rule_name : parser prod_pattern := pmap parse_symbol_name (fun name => QRule (name_of name)).

(** 215-263, mutually recursive as for regular expressions.  [parse_production_group]: *)
Definition parse_production_group (fuel : nat) (pat : parser prod_pattern) : parser prod_pattern := fun input =>
  take (u, input) <- tag (bytes "(") input;
  take (seqs, input) <- separated_list1 fuel (tag (bytes " | ")) pat input;
  take (u, input) <- tag (bytes ")") input;
  Done (match seqs with [s] => s | _ => QAlt seqs end) input.

(** 226-228, [parse_production_element]. *)
Definition parse_production_element (fuel : nat) (pat : parser prod_pattern) : parser prod_pattern :=
  orelse (parse_production_group fuel pat) parse_rule_name.

(** 238-258, [parse_production_regex_repetition]. *)
Definition parse_production_repetition (fuel : nat) (pat : parser prod_pattern) : parser prod_pattern := fun input =>
  take (inner, input) <- parse_production_element fuel pat input;
  take (rep_kind, input) <- parse_repetition_kind input;
  Done (match rep_kind with
        | Some 0%N => QStar inner
        | Some 1%N => QPlus inner
        | Some _ => QOpt inner
        | None => inner
        end) input.

(** 260-263, [parse_production_pattern]. *)
Fixpoint parse_production_pattern (fuel : nat) (input : list N) : parsed prod_pattern :=
  match fuel with
  | O => Starved
  | S fuel' =>
    take (elements, input) <- separated_list1 fuel' space1 (parse_production_repetition fuel' (parse_production_pattern fuel')) input;
    Done (QSeq elements) input
  end.

(** 265-282, [parse_production_rule]. *)
Definition parse_production_rule (fuel : nat) : parser prod_rule := fun input =>
  take (u, input) <- tag (bytes "prod") input;
  take (u, input) <- space1 input;
  take (name, input) <- parse_symbol_name input;
  take (u, input) <- space1 input;
  take (u, input) <- tag (bytes "=") input;
  take (u, input) <- space1 input;
  take (pat, input) <- parse_production_pattern fuel input;
  take (u, input) <- tag (bytes ";") input;
  Done (mkProdRule (name_of name) None pat) input.

(** 288-299, [parse_entry_rule]. *)
Definition parse_entry_rule : parser string := fun input =>
  take (u, input) <- tag (bytes "entry") input;
  take (u, input) <- space1 input;
  take (name, input) <- parse_symbol_name input;
  take (u, input) <- tag (bytes ";") input;
  Done (name_of name) input.

(** 301-306, [Rule]. *)
Inductive file_rule : Type :=
| FToken (r : token_rule)
| FProd (r : prod_rule)
| FEntry (name : string).

(** 308-314, [parse_rule]. *)
Definition parse_rule (fuel : nat) : parser file_rule :=
  orelse (pmap (parse_token_rule fuel) FToken)
  (orelse (pmap (parse_production_rule fuel) FProd) (pmap parse_entry_rule FEntry)).

(** 316-321, [parse_lapex_file_raw]. *)
Definition parse_lapex_file_raw (fuel : nat) : parser (list file_rule) := fun input =>
  take (u, input) <- multispace0 input;
  take (rules, input) <- separated_list1 fuel multispace1 (parse_rule fuel) input;
  take (u, input) <- multispace0 input;
  Done rules input.

(** lapex-input/src/lib.rs 223-228, [LapexParsingError].  The remaining text of [IncompleteParsing] is kept as bytes. *)
Inductive parsing_error : Type :=
| NoEntryRule
| TooManyEntryRules
| IncompleteParsing (rest : list N).

(** 342-348. *)
Definition tokens_of (rules : list file_rule) : list token_rule := flat_map (fun r => match r with FToken t => [t] | _ => [] end) rules.
(** 342-348, the production rules. *)
Definition prods_of (rules : list file_rule) : list prod_rule := flat_map (fun r => match r with FProd t => [t] | _ => [] end) rules.
(** 342-348, the entry rules. *)
Definition entries_of (rules : list file_rule) : list string := flat_map (fun r => match r with FEntry t => [t] | _ => [] end) rules.

(** 332-361, [parse_lapex_file].  One fuel for the whole file; [bootstrap_total] shows that it suffices. *)
Definition parse_lapex_file (input : list N) : res parsing_error rule_set :=
  match parse_lapex_file_raw (S (length input)) input with
  | Starved => OutOfFuel
  | Fail => Panic
  | Done rules [] =>
    match entries_of rules with
    | [] => Err NoEntryRule
    | [e] => Ok (mkRuleSet e (tokens_of rules) (prods_of rules))
    | _ => Err TooManyEntryRules
    end
  | Done _ remaining => Err (IncompleteParsing remaining)
  end.
