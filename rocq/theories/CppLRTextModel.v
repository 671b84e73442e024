(** Model of the text written by lapex-cpp-codegen/src/lr_parser: the switches of parser.cpp, the enumerators and the visitor switch of parser_impl.h, and the files
    made of them with the templates of TemplateFiles.v.  Which labels, numbers and names are written is modelled by [cpp_write] in CppLRModel.v and by
    [cpp_rule_visits] in NamesModel.v; here they are turned into text. *)
From Coq Require Import String List Arith NArith Bool.
From Verif Require Import Base InputModel GrammarModel LRModel NamesModel CppLexerModel CppLRModel TemplateModel TemplateFiles CppTextModel.
Import ListNotations.
Local Open Scope string_scope.
Local Open Scope list_scope.

(** action_goto.rs 43-55 and 153-173: the line of a label. *)
Definition label_text (l : label) : string :=
  match l with
  | CaseNt n => "NonTerminalType::" ++ n
  | CaseTk n => "lexer::TokenType::" ++ n
  | CaseEmpty => ""
  end%string.
(** action_goto.rs 43, 55, 153 and 173: [case] and the colon around a label. *)
Definition case_line (l : label) : text := line ("case " ++ label_text l ++ ":")%string.

(** action_goto.rs 62-80, [write_goto_case_body]. *)
Definition goto_body_text (t : transition) : text :=
  lines (["{"; if snd t then "Transition transition{0, true};" else "Transition transition{" ++ number_text (fst t) ++ ", false};"; "return transition;"; "}"])%string.
(** action_goto.rs 11-33, [write_goto_cases]. *)
Definition goto_cases_text (cases : list (label * transition)) : text :=
  concat (map (fun c => case_line (fst c) ++ goto_body_text (snd c)) cases) ++
  lines ["default:"; "// Entered state where top of stack doesn't produce a valid transition."; "std::terminate();"]%string.
(** action_goto.rs 195-234: a state of [write_goto_table]. *)
Definition goto_state_text (e : nat * (list (label * transition) * list (label * transition))) : text :=
  lines ["case " ++ number_text (fst e) ++ ": {"; "if (current_symbol.kind == SymbolKind::Terminal) {"; "switch (static_cast<lexer::TokenType>(current_symbol.identifier)) {"]%string ++
  goto_cases_text (fst (snd e)) ++
  lines ["}"; "} else if (current_symbol.kind == SymbolKind::NonTerminal) {"; "switch (static_cast<parser::NonTerminalType>(current_symbol.identifier)) {"]%string ++
  goto_cases_text (snd (snd e)) ++
  lines ["}"; "} else {"; "// There was a state atop the stack when there should have been a symbol."; "std::terminate();"; "}"; "}"; "break;"]%string.
(** action_goto.rs 191-242, [write_goto_table]. *)
Definition goto_table_text (c : cpp_lr) : text :=
  line "switch (state) {" ++ concat (map goto_state_text (cx_gotos c)) ++
  lines ["default:"; "// Encountered a parser state that does not exist."; "std::terminate();"; "}"]%string.

(** action_goto.rs 123-143, [write_action_case_body]. *)
Definition action_body_text (a : lr_action) : text :=
  lines (["{"; match a with ActShift => "Action act{ActionType::Shift, 0};" | ActReduce k => "Action act{ActionType::Reduce, " ++ number_text k ++ "};" end; "return act;"; "}"])%string.
(** action_goto.rs 82-121, [write_action_cases]; [expected] is what [expected_list] makes of the names. *)
Definition action_cases_text (cases : list (label * lr_action)) (expected : string) : text :=
  concat (map (fun c => case_line (fst c) ++ action_body_text (snd c)) cases) ++
  lines ["default:"; "throw_unexpected_token_error(""" ++ expected ++ """, lookahead_token);"]%string.
(** action_goto.rs 247-256: a state of [write_action_table]. *)
Definition action_state_text (e : nat * (list (label * lr_action) * string)) : text :=
  lines ["case " ++ number_text (fst e) ++ ": {"; "switch (lookahead_token) {"]%string ++ action_cases_text (fst (snd e)) (snd (snd e)) ++ lines ["}"; "}"; "break;"]%string.
(** action_goto.rs 244-264, [write_action_table]. *)
Definition action_table_text (c : cpp_lr) : text :=
  line "switch (state) {" ++ concat (map action_state_text (cx_actions c)) ++
  lines ["default:"; "// Encountered a parser state that does not exist."; "std::terminate();"; "}"]%string.

(** mod.rs 129-152: a rule of [write_stack_reduce_table]. *)
Definition reduction_text (e : nat * (nat * string)) : text :=
  line ("case " ++ number_text (fst e) ++ ": {")%string ++
  (if Nat.ltb 0 (fst (snd e)) then
     lines ["for (size_t i = 0; i < " ++ number_text (fst (snd e)) ++ "; i++) {"; "parse_stack.pop_back();"; "Symbol reduced_symbol = parse_stack.back();";
            "rev_reduced_symbols.push_back(reduced_symbol);"; "parse_stack.pop_back();"; "}"]%string
   else []) ++
  lines ["Symbol reduced_non_terminal{SymbolKind::NonTerminal, static_cast<uint32_t>(NonTerminalType::" ++ snd (snd e) ++ ")};";
         "parse_stack.push_back(reduced_non_terminal);"; "return;"; "}"]%string.
(** mod.rs 126-159, [write_stack_reduce_table]. *)
Definition stack_reduce_text (c : cpp_lr) : text :=
  line "switch(rule) {" ++ concat (map reduction_text (cx_reductions c)) ++
  lines ["default:"; "// Tried reducing non-existent rule."; "std::terminate();"; "}"]%string.

(** mod.rs 172-195: a rule of [write_visitor_reduce_switch]. *)
Definition visit_text (e : nat * option string) : text :=
  line ("case " ++ number_text (fst e) ++ ": {")%string ++
  match snd e with Some m => line ("visitor." ++ m ++ "();")%string | None => [] end ++ lines ["return;"; "}"]%string.
(** mod.rs 170-201, [write_visitor_reduce_switch]. *)
Definition visitor_reduce_text (visits : list (nat * option string)) : text :=
  line "switch(rule) {" ++ concat (map visit_text visits) ++
  lines ["default:"; "// Tried reducing non-existent rule."; "std::terminate();"; "}"]%string.
(** mod.rs 78-84, [write_non_terminal_enum_variants]. *)
Definition non_terminal_variants_text (nts : list string) : text := lines (map (fun n => n ++ ",")%string nts).

(** mod.rs 162-168, [write_impl]: the file parser.cpp. *)
Definition parser_cpp_text (c : cpp_lr) : text :=
  fill [("action_table", action_table_text c); ("goto_table", goto_table_text c); ("stack_reduce_table", stack_reduce_text c)] lr_parser_cpp.
(** mod.rs 203-218, [write_impl_header]: the file parser_impl.h. *)
Definition parser_impl_h_text (c : cpp_lr) (visits : list (nat * option string)) : text :=
  fill [("non_terminal_enum_variants", non_terminal_variants_text (cx_nts c)); ("visitor_reduce_switch", visitor_reduce_text visits);
        ("entry_state", chars (number_text (cx_entry c)))] lr_parser_impl_h.
