(** Model of the text written by lapex-cpp-codegen/src/lexer/mod.rs: the two switches of lexer.cpp, the enumerators of tokens.h, the switch of tokens.cpp,
    and the files made of them with the templates of TemplateFiles.v.  A text is the list of its code points; names are ASCII strings. *)
From Coq Require Import String List Arith NArith Bool.
From Verif Require Import Base InputModel LexerModel NamesModel CppLexerModel TemplateModel TemplateFiles.
Import ListNotations.
Local Open Scope string_scope.
Local Open Scope list_scope.

(** mod.rs 38-52 and others, [writeln!]: the line and a newline. *)
Definition line (s : string) : text := chars s ++ [10%N].
(** mod.rs 38-40, 50-52 and others: several lines. *)
Definition lines (l : list string) : text := concat (map line l).
(** mod.rs 47, 59, 68, 70: [{}] of a number. *)
Definition number_text (n : nat) : string := decimal (N.of_nat n).

(** mod.rs 42-48: the cases of [write_alphabet_switch]. *)
Definition alphabet_case (i : nat) (range : N * N) : text :=
  lines [if (fst range =? snd range)%N then "case " ++ decimal (fst range) ++ ":" else "case " ++ decimal (fst range) ++ " ... " ++ decimal (snd range) ++ ":";
         "i = " ++ number_text i ++ ";";
         "break;"]%string.
(** mod.rs 41-49: the loop of [write_alphabet_switch]. *)
Fixpoint alphabet_cases (i : nat) (al : alphabet) : text :=
  match al with
  | [] => []
  | range :: al => alphabet_case i range ++ alphabet_cases (S i) al
  end.
(** mod.rs 34-53, [write_alphabet_switch]. *)
Definition write_alphabet_switch (al : alphabet) : text :=
  lines ["uint32_t i;"; "switch (ch)"; "{"]%string ++ alphabet_cases 0 al ++ lines ["default:"; "return TokenType::TK_ERR;"; "}"]%string.

(** mod.rs 67-72: a transition. *)
Definition transition_case (tv : nat * nat) : text :=
  if Nat.eqb (fst tv) 0 then []
  else lines ["case " ++ number_text (fst tv) ++ ": "; "this->ch = -1;"; "state = " ++ number_text (snd tv) ++ ";"; "break;"]%string.
(** mod.rs 74-81: the default case of a state; [debug] is the [Debug] text of a token rule. *)
Definition state_default (debug : token_rule -> text) (node : astate token_rule) : text :=
  line "default:" ++
  match node with
  | Accepting r => (chars "// ACCEPT: " ++ debug r ++ [10%N]) ++ lines ["this->end_pos = this->position;"; "return TokenType::" ++ enumerator (tr_name r) ++ ";"]%string
  | Intermediate _ => line "return TokenType::TK_ERR;"
  end.
(** mod.rs 59-83: a state. *)
Definition state_case (debug : token_rule -> text) (d : dfa token_rule) (index : nat) (node : astate token_rule) : text :=
  lines ["case " ++ number_text index ++ ":"; "switch (i)"; "{"]%string ++
  (if Nat.eqb index 0 then lines ["case 0: "; "return TokenType::TK_EOF;"]%string else []) ++
  concat (map transition_case (transitions_from d index)) ++
  state_default debug node ++
  lines ["}"; "break;"]%string.
(** mod.rs 58-84: the loop over the states. *)
Fixpoint state_cases (debug : token_rule -> text) (d : dfa token_rule) (index : nat) (nodes : list (astate token_rule)) : text :=
  match nodes with
  | [] => []
  | node :: nodes => state_case debug d index node ++ state_cases debug d (S index) nodes
  end.
(** mod.rs 55-89, [write_state_machine_switch]. *)
Definition write_state_machine_switch (debug : token_rule -> text) (d : dfa token_rule) : text :=
  lines ["switch (state)"; "{"]%string ++ state_cases debug d 0 (dfa_nodes d) ++ lines ["default:"; "return TokenType::TK_ERR;"; "}"]%string.

(** templating.rs 79-92: a template written with substitutions that succeed; [length template] is more than the number of placeholders. *)
Definition fill (calls : list (string * text)) (template : text) : text :=
  fst (template_write (S (length template)) (fold_left (fun subs c => substitute (chars (fst c)) (snd c, true) subs) calls []) template).
(** mod.rs 95-100, [write_impl]: the file lexer.cpp. *)
Definition lexer_cpp_text (debug : token_rule -> text) (al : alphabet) (d : dfa token_rule) : text :=
  fill [("alphabet_switch", write_alphabet_switch al); ("automaton_switch", write_state_machine_switch debug d)] lexer_cpp.

(** mod.rs 120-125, [write_token_enum_variants]. *)
Definition write_token_enum_variants (names : list string) : text := lines (map (fun name => enumerator name ++ ",")%string names).
(** mod.rs 136-139: a token of [write_get_token_name_function]. *)
Definition token_name_case (name : string) : text :=
  lines ["case TokenType::" ++ enumerator name ++ ":"; "return """ ++ name ++ """;"]%string.
(** mod.rs 127-143, [write_get_token_name_function]. *)
Definition write_get_token_name_function (names : list string) : text :=
  lines ["switch (tk_type) {"; "case TokenType::TK_ERR:"; "return ""<ERR>"";"; "case TokenType::TK_EOF:"; "return ""<EOF>"";"]%string ++
  concat (map token_name_case names) ++
  lines ["default:"; "return nullptr;"; "}"]%string.
(** mod.rs 153-157, [write_tokens_header]: the file tokens.h. *)
Definition tokens_h_text (names : list string) : text := fill [("token_enum_variants", write_token_enum_variants names)] tokens_h.
(** mod.rs 145-151, [write_tokens_impl]: the file tokens.cpp. *)
Definition tokens_cpp_text (names : list string) : text := fill [("get_token_name_function", write_get_token_name_function names)] tokens_cpp.
