(** Model of the names in emitted parsers: lapex-rust-codegen/src/lib.rs, and the visitor methods of
    lapex-rust-codegen/src/lr_parser/mod.rs and lapex-cpp-codegen/src/lr_parser/mod.rs.  A Rust string is the list of its
    UTF-8 bytes.  The emitted text between the names is not modelled. *)
From Coq Require Import String Ascii List Arith NArith Bool DecimalString.
From Verif Require Import Base InputModel GrammarModel.
Import ListNotations.
Local Open Scope nat_scope.
Local Open Scope list_scope.

Inductive name_err : Type := NoNameError.

(** lib.rs 79: the upper-case ASCII letters. *)
Definition is_upper (c : ascii) : bool := (65 <=? N_of_ascii c)%N && (N_of_ascii c <=? 90)%N.
(** lib.rs 79: the lower-case ASCII letters. *)
Definition is_lower (c : ascii) : bool := (97 <=? N_of_ascii c)%N && (N_of_ascii c <=? 122)%N.
(** lib.rs 79, [to_ascii_uppercase], [to_ascii_lowercase] of one byte. *)
Definition ascii_upper (c : ascii) : ascii := if is_lower c then ascii_of_N (N_of_ascii c - 32) else c.
(** lib.rs 79, [to_ascii_lowercase] of one byte. *)
Definition ascii_lower (c : ascii) : ascii := if is_upper c then ascii_of_N (N_of_ascii c + 32) else c.
(** lib.rs 79: a function on every byte. *)
Fixpoint string_map (f : ascii -> ascii) (s : string) : string :=
  match s with EmptyString => EmptyString | String c s' => String (f c) (string_map f s') end.

(** lib.rs 76, [str::split('_')]. *)
Fixpoint split_underscore (s : string) : list string :=
  match s with
  | EmptyString => [EmptyString]
  | String c s' =>
    match split_underscore s' with
    | [] => []
    | seg :: segs => if Ascii.eqb c "_" then EmptyString :: seg :: segs else String c seg :: segs
    end
  end.

(** [str::split_at(1)]: panics unless 1 is a character boundary, that is the length of the string or the index of a byte
    which is not a continuation byte. *)
Definition continuation (c : ascii) : bool := (128 <=? N_of_ascii c)%N && (N_of_ascii c <? 192)%N.
(** lib.rs 78, [split_at(1)]. *)
Definition split_at_1 (s : string) : res name_err (ascii * string) :=
  match s with
  | EmptyString => Panic
  | String c EmptyString => Ok (c, EmptyString)
  | String c (String c' s') => if continuation c' then Panic else Ok (c, String c' s')
  end.

(** lapex-rust-codegen/src/lib.rs 75-83, [convert_snake_to_upper_camel]. *)
Definition camel_segment (s : string) : res name_err string :=
  do (head, tail) <- split_at_1 s; Ok (String (ascii_upper head) (string_map ascii_lower tail)).
(** lib.rs 75-83, [convert_snake_to_upper_camel]. *)
Definition convert_snake_to_upper_camel (name : string) : res name_err string :=
  do segs <- res_list (map camel_segment (split_underscore name)); Ok (fold_right append EmptyString segs).

(** lib.rs 59-61, [get_token_enum_name]. *)
Definition get_token_enum_name (name : string) : res name_err string :=
  do s <- convert_snake_to_upper_camel name; Ok ("Tk" ++ s)%string.

(** lib.rs 68, rust lr_parser/mod.rs 67-76, cpp lr_parser/mod.rs 70, 100 and 118: [format!("{}", n)] of a number. *)
Definition decimal (n : N) : string := NilEmpty.string_of_uint (N.to_uint n).

(** lapex-parser/src/grammar.rs 194-204, [get_production_name]. *)
Definition get_production_name (g : grammar) (nt : symbol) : option string :=
  match nt with NonTerminal _ => map_get nt (g_prods g) | _ => None end.

(** lib.rs 63-73, [get_non_terminal_enum_name]. *)
Definition get_non_terminal_enum_name (g : grammar) (nt : symbol) : res name_err string :=
  match get_production_name g nt with
  | Some name => do s <- convert_snake_to_upper_camel name; Ok ("Nt" ++ s)%string
  | None => match nt with NonTerminal i => Ok ("NtAnon" ++ decimal i)%string | _ => Panic end
  end.

(** rust lr_parser/mod.rs 336-344 and 355-357: the variants of [NonTerminalType]. *)
Definition rust_non_terminal_variants (g : grammar) : res name_err (list string) :=
  res_list (map (get_non_terminal_enum_name g) (non_terminals g)).

(** rust lexer/mod.rs 27-34: the variants of [TokenType]. *)
Definition rust_token_variants (names : list string) : res name_err (list string) :=
  do l <- res_list (map get_token_enum_name names); Ok ("EndOfFile"%string :: l).

(** cpp lr_parser/mod.rs 61-76, [write_non_terminal_enum_name].  [to_uppercase] is that of ASCII: names in grammar
    files are ASCII identifiers. *)
Definition cpp_non_terminal_enum_name (g : grammar) (nt : symbol) : res name_err string :=
  match get_production_name g nt with
  | Some name => Ok ("NT_" ++ string_map ascii_upper name)%string
  | None => match nt with NonTerminal i => Ok ("NT_ANON" ++ decimal i)%string | _ => Panic end
  end.
(** cpp lr_parser/mod.rs 78-84, [write_non_terminal_enum_variants]. *)
Definition cpp_non_terminal_variants (g : grammar) : res name_err (list string) :=
  res_list (map (cpp_non_terminal_enum_name g) (non_terminals g)).

(** ** Visitor methods *)

(** rust lr_parser/mod.rs 46-59 = cpp lr_parser/mod.rs 111-124, [get_non_terminal_name]. *)
Definition get_non_terminal_name (g : grammar) (nt : symbol) : res name_err string :=
  match get_production_name g nt with
  | Some name => Ok name
  | None => match nt with NonTerminal i => Ok ("anon" ++ decimal i)%string | _ => Panic end
  end.

(** rust lr_parser/mod.rs 21-29 = cpp lr_parser/mod.rs 34-42: the rules of each non-terminal, in order; a reference to a
    rule is its index in [g_rules] with the rule. *)
Definition add_rule (m : list (symbol * list (nat * rule))) (e : nat * rule) : list (symbol * list (nat * rule)) :=
  match r_lhs (snd e) with
  | None => m
  | Some i => map_insert (NonTerminal i) (match map_get (NonTerminal i) m with Some l => l ++ [e] | None => [e] end) m
  end.
(** rust lr_parser/mod.rs 21-29, cpp lr_parser/mod.rs 34-42: the map [rules_by_non_terminal]. *)
Definition rules_by_non_terminal (g : grammar) : list (symbol * list (nat * rule)) := fold_left add_rule (enumerate (g_rules g)) [].

(** rust lr_parser/mod.rs 67-76 and 299-307: the name of the method of the [i]-th of several rules. *)
Definition method_of (name : string) (i : nat) (r : rule) : string :=
  match pr_tag (r_prod r) with
  | Some tag => ("reduce_" ++ name ++ "_" ++ tag)%string
  | None => ("reduce_" ++ name ++ "_" ++ decimal (N.of_nat (i + 1)))%string
  end.

(** rust lr_parser/mod.rs 61-103, [write_visitor]: the methods of the trait for one non-terminal ... *)
Definition visitor_methods_of (g : grammar) (e : symbol * list (nat * rule)) : res name_err (list string) :=
  let '(nt, rules) := e in
  do name <- get_non_terminal_name g nt;
  if negb (length rules =? 1) then Ok (map (fun ir => method_of name (fst ir) (snd (snd ir))) (enumerate rules))
  else match rules with
       | [] => Panic
       | _ :: _ => Ok [("reduce_" ++ name)%string]
       end.
(** rust lr_parser/mod.rs 61-103, ... and for all. *)
Definition visitor_methods (g : grammar) : res name_err (list string) :=
  do l <- res_list (map (visitor_methods_of g) (rules_by_non_terminal g)); Ok (concat l).

(** rust lr_parser/mod.rs 293-325, [make_rule_visits]: the rule and the method called for it. *)
Definition rule_visits_of (g : grammar) (e : symbol * list (nat * rule)) : res name_err (list (nat * string)) :=
  let '(nt, rules) := e in
  do name <- get_non_terminal_name g nt;
  if negb (length rules =? 1) then Ok (map (fun ir => (fst (snd ir), method_of name (fst ir) (snd (snd ir)))) (enumerate rules))
  else match rules with
       | [] => Panic
       | r :: _ => Ok [(fst r, ("reduce_" ++ name)%string)]
       end.
(** rust lr_parser/mod.rs 293-325, [make_rule_visits]. *)
Definition rule_visits (g : grammar) : res name_err (list (nat * string)) :=
  do l <- res_list (map (rule_visits_of g) (rules_by_non_terminal g)); Ok (concat l).

(** cpp lr_parser/mod.rs 90-109, [write_visitor_methods]: tags are not used. *)
Definition cpp_method_of (name : string) (i : nat) : string := ("reduce_" ++ name ++ "_" ++ decimal (N.of_nat (i + 1)))%string.
(** cpp lr_parser/mod.rs 91-107: the methods of a non-terminal. *)
Definition cpp_visitor_methods_of (g : grammar) (e : symbol * list (nat * rule)) : res name_err (list string) :=
  let '(nt, rules) := e in
  do name <- get_non_terminal_name g nt;
  if negb (length rules =? 1) then Ok (map (fun ir => cpp_method_of name (fst ir)) (enumerate rules))
  else match rules with
       | [] => Panic
       | _ :: _ => Ok [("reduce_" ++ name)%string]
       end.
(** cpp lr_parser/mod.rs 90-109, [write_visitor_methods]. *)
Definition cpp_visitor_methods (g : grammar) : res name_err (list string) :=
  do l <- res_list (map (cpp_visitor_methods_of g) (rules_by_non_terminal g)); Ok (concat l).

(** cpp lr_parser/mod.rs 181-184, [position] by pointer equality. *)
Definition rule_position (k : nat) (rules : list (nat * rule)) : option nat := find_index (fun e => fst e =? k) rules.

(** cpp lr_parser/mod.rs 170-201, [write_visitor_reduce_switch]: one case for each rule; [rule_index_map] is sorted by
    the addresses of the rules, that is by index. *)
Definition cpp_rule_visit (g : grammar) (e : nat * rule) : res name_err (nat * option string) :=
  let '(k, r) := e in
  match r_lhs r with
  | None => Ok (k, None)
  | Some i =>
    match map_get (NonTerminal i) (rules_by_non_terminal g) with
    | None => Panic
    | Some rules =>
      do name <- get_non_terminal_name g (NonTerminal i);
      if length rules =? 1 then Ok (k, Some ("reduce_" ++ name)%string)
      else match rule_position k rules with
           | None => Panic
           | Some i => Ok (k, Some (cpp_method_of name i))
           end
    end
  end.
(** cpp lr_parser/mod.rs 170-201, [write_visitor_reduce_switch]. *)
Definition cpp_rule_visits (g : grammar) : res name_err (list (nat * option string)) :=
  res_list (map (cpp_rule_visit g) (enumerate (g_rules g))).
