(** Model of the file that lapex-rust-codegen/src/lr_parser/mod.rs writes, parser.rs, as token trees.  The code in the macro calls is copied from there; [quote!] is that of RustQuoteModel.v.
    Definitions only.  A [quote!] that cannot be expanded would not compile; it is a panic here. *)
From Coq Require Import String List Arith NArith Bool.
From Verif Require Import Base InputModel TemplateModel TemplateFiles GrammarModel LRModel NamesModel CppLRModel TableModel RustTokenSpec RustQuoteModel RustLexTextModel.
Import ListNotations.
Local Open Scope string_scope.
Local Open Scope list_scope.

(** A call of the macro for longer code (lr_parser/mod.rs 348-484); the fuel is more than the number of tokens. *)
Definition quote_file (code : list tree) (env : list (string * hole)) : option (list tree) := quote 1000 env code.

(** ** The visitor *)

(** 79-80 and 90-91: a method of the trait. *)
Definition method_code : list tree := Eval vm_compute in quoted "
                        #comment
                        fn #function (&mut self);
".
(** 97-100: the trait. *)
Definition visitor_code : list tree := Eval vm_compute in quoted "
            pub trait Visitor<T> {
                fn shift(&mut self, token: TokenType, data: T);
                #(#reduce_functions)*
            }
".
(** 493: the import. *)
Definition use_code : list tree := Eval vm_compute in quoted "
                use super::tokens::TokenType;
".
(** ** The parser *)

(** 144 and 153: the pattern of a goto. *)
Definition terminal_code : list tree := Eval vm_compute in quoted "
                    (#state, StackSymbol::Terminal { token: TokenType::#token })
".
(** 153. *)
Definition non_terminal_code : list tree := Eval vm_compute in quoted "
                    (#state, StackSymbol::NonTerminal { non_terminal: NonTerminalType::#token })
".
(** 162: a goto to a state. *)
Definition goto_state_code : list tree := Eval vm_compute in quoted "
                        #condition => Goto::State { state_id: #target },
".
(** 167: the last goto. *)
Definition goto_accept_code : list tree := Eval vm_compute in quoted "
                        #condition => Goto::Accept,
".
(** 199: the end of the file as an expected token. *)
Definition eof_expected_code : list tree := Eval vm_compute in quoted "EndOfFile".
(** 204: the arm for any other token. *)
Definition unexpected_code : list tree := Eval vm_compute in quoted "
                (#state, _) => Err(ParserError::UnexpectedToken { got: next_token, expected: vec![#(TokenType::#expected),*] }),
".
(** 224: the pattern of an action. *)
Definition on_token_code : list tree := Eval vm_compute in quoted "
                    (#state, TokenType::#token)
".
(** 228: the pattern of an action at the end of the file. *)
Definition on_end_code : list tree := Eval vm_compute in quoted "
                (#state, TokenType::EndOfFile)
".
(** 236: a shift. *)
Definition shift_code : list tree := Eval vm_compute in quoted "
                        #condition => Ok(Action::Shift),
".
(** 244: a reduction. *)
Definition reduce_code : list tree := Eval vm_compute in quoted "
                        #condition => Ok(Action::Reduce { rule: ReducedRule::#rule_name }),
".
(** 287: what a rule pops and pushes. *)
Definition reduction_code : list tree := Eval vm_compute in quoted "
                ReducedRule::#rule_name => (#symbols_to_reduce, StackSymbol::NonTerminal { non_terminal: NonTerminalType::#non_terminal })
".
(** 310 and 320: the method that is called for a rule. *)
Definition visit_code : list tree := Eval vm_compute in quoted "
                        ReducedRule::#rule_name => self.visitor.#function ()
".
(** 349-483: the parser. *)
Definition parser_code : list tree := Eval vm_compute in quoted "
            pub struct Parser<T, F: FnMut() -> (TokenType, T), V: Visitor<T>> {
                token_function: F,
                visitor: V,
            }

            #[derive(Debug, Clone, Copy)]
            enum NonTerminalType {
                #(#non_terminals),*
            }

            #[derive(Debug, Clone, Copy)]
            enum StackSymbol {
                Terminal { token: TokenType },
                NonTerminal { non_terminal: NonTerminalType },
                State { state_id: usize },
            }

            #[derive(Clone, Copy)]
            enum ReducedRule {
                #(#rules),*
            }

            enum Action {
                Shift,
                Reduce { rule: ReducedRule }
            }

            enum Goto {
                Accept,
                State { state_id: usize }
            }

            #[derive(Debug)]
            pub enum ParserError {
                UnexpectedToken {
                    got: TokenType,
                    expected: Vec<TokenType>
                }
            }

            impl std::error::Error for ParserError {}

            impl std::fmt::Display for ParserError {
                fn fmt(&self, f: &mut std::fmt::Formatter) -> std::fmt::Result {
                    match self {
                        ParserError::UnexpectedToken { got, expected } => write!(
                            f,
                            ""Unexpected token {:?}, expected one of: {:?}"",
                            got, expected
                        ),
                    }
                }
            }

            impl<T, F: FnMut() -> (TokenType, T), V: Visitor<T>> Parser<T, F, V> {
                pub fn new(token_function: F, visitor: V) -> Self {
                    Parser {
                        token_function,
                        visitor,
                    }
                }

                fn next_action(&self, state: usize, next_token: TokenType) -> Result<Action, ParserError> {
                    match (state, next_token) {
                        #(#actions)*
                        (_, _) => unreachable!()
                    }
                }

                fn next_goto(&self, state: usize, symbol: StackSymbol) -> Goto {
                    match (state, symbol) {
                        #(#gotos)*
                        (_, _) => unreachable!()
                    }
                }

                fn reduce_stack_and_visit(&mut self, rule: ReducedRule, stack: &mut Vec<StackSymbol>) {
                    let (to_pop, reduced) = match rule {
                        #(#rule_reductions),*
                    };
                    for _ in 0..to_pop {
                        stack.pop().unwrap();
                        stack.pop().unwrap();
                    }
                    stack.push(reduced);
                    match rule {
                        #(#rule_visits),*
                    }
                }

                pub fn parse(&mut self) -> Result<(), ParserError> {
                    let mut lookahead = std::collections::VecDeque::new();
                    lookahead.push_back((self.token_function)());

                    let mut stack = Vec::new();
                    stack.push(StackSymbol::State { state_id: #entry });

                    while !stack.is_empty() {
                        let (next_token, _) = lookahead.front().unwrap();
                        let state = match stack.last().unwrap() {
                            StackSymbol::State { state_id } => *state_id,
                            _ => unreachable!()
                        };
                        let action = self.next_action(state, *next_token)?;
                        match action {
                            Action::Shift => {
                                let (next_token, next_data) = lookahead.pop_front().unwrap();
                                stack.push(StackSymbol::Terminal { token: next_token });
                                self.visitor.shift(next_token, next_data);

                                lookahead.push_back((self.token_function)());
                            }
                            Action::Reduce { rule: reduced_rule } => {
                                self.reduce_stack_and_visit(reduced_rule, &mut stack);
                            }
                        }
                        let current_symbol = stack.last().unwrap();
                        let state = match &stack[stack.len() - 2] {
                            StackSymbol::State { state_id } => *state_id,
                            _ => unreachable!()
                        };
                        let goto = self.next_goto(state, *current_symbol);
                        match goto {
                            Goto::Accept => {
                                stack.pop();
                                stack.pop();
                            }
                            Goto::State { state_id } => {
                                stack.push(StackSymbol::State { state_id })
                            }
                        }
                    }
                    Ok(())
                }
            }
".

(** ** Names *)

(** 139-142, 195-197 and 219-222: the variant of a token. *)
Definition token_stream (g : grammar) (t : N) : res name_err (list tree) :=
  do name <- grammar_token_name g t; do s <- get_token_enum_name name; expanded (stream_of s).
(** 148-151, 281-284 and 340-342: the variant of a non-terminal. *)
Definition non_terminal_stream (g : grammar) (nt : symbol) : res name_err (list tree) := do s <- get_non_terminal_enum_name g nt; expanded (stream_of s).
(** 242, 285, 301, 316 and 334: the variant of a rule. *)
Definition rule_stream (k : nat) : res name_err (list tree) := expanded (stream_of ("Rule" ++ decimal (N.of_nat k))).
(** 68-70 and 84-86: [format!("///{}", ..).parse()], a documentation comment, which is an attribute.  With a slash in front of the text it is a comment like any other; texts of several lines, of
    which the others would be code, are not modelled. *)
Definition doc_comment (d : string) : option (list tree) :=
  if existsb (fun c => (c =? 10) || (c =? 13))%N (chars d) then None
  else match chars d with
       | 47%N :: _ => Some []
       | _ => Some [TPunct "#"; TGroup Bracket [TId "doc"; TPunct "="; TStr d]]
       end.

(** ** The functions of [CodeWriter] *)

(** 64-94: the rules and methods of a non-terminal. *)
Definition visitor_functions_of (g : grammar) (e : symbol * list (nat * rule)) : res name_err (list (rule * string)) :=
  let '(nt, rules) := e in
  do name <- get_non_terminal_name g nt;
  if negb (Nat.eqb (List.length rules) 1) then Ok (map (fun ir => (snd (snd ir), method_of name (fst ir) (snd (snd ir)))) (enumerate rules))
  else match rules with
       | [] => Panic
       | r :: _ => Ok [(snd r, ("reduce_" ++ name)%string)]
       end.
(** 68-81 and 84-92: the method of a rule. *)
Definition method_tokens (g : grammar) (e : rule * string) : res name_err (list tree) :=
  do d <- rule_text g (fst e); do comment <- expanded (doc_comment d); do function <- expanded (stream_of (snd e));
  expanded (quote_of method_code [("comment", One comment); ("function", One function)]).
(** 61-103, [write_visitor]. *)
Definition visitor_tokens (g : grammar) : res name_err (list tree) :=
  do l <- res_list (map (visitor_functions_of g) (rules_by_non_terminal g)); do reduce_functions <- res_list (map (method_tokens g) (concat l));
  expanded (quote_of visitor_code [("reduce_functions", Many reduce_functions)]).

(** 137-157: the pattern of a goto; [make_goto] makes none for other symbols. *)
Definition goto_condition (g : grammar) (state : nat) (x : symbol) : res name_err (list tree) :=
  match x with
  | Terminal t => do token <- token_stream g t; expanded (quote_of terminal_code [("state", usize_token state); ("token", One token)])
  | NonTerminal _ => do token <- non_terminal_stream g x; expanded (quote_of non_terminal_code [("state", usize_token state); ("token", One token)])
  | _ => Panic
  end.
(** 130-173, [make_goto]; which of the arms there are is [make_gotos] of LRModel.v. *)
Definition goto_tokens (g : grammar) (e : (nat * symbol) * lr_goto) : res name_err (list tree) :=
  let '((state, x), go) := e in
  do condition <- goto_condition g state x;
  match go with
  | GotoState target => expanded (quote_of goto_state_code [("condition", One condition); ("target", usize_token target)])
  | GotoAccept => expanded (quote_of goto_accept_code [("condition", One condition)])
  end.
(** 217-231: the pattern of an action. *)
Definition action_condition (g : grammar) (state : nat) (t : token) : res name_err (list tree) :=
  match t with
  | Some t => do token <- token_stream g t; expanded (quote_of on_token_code [("state", usize_token state); ("token", One token)])
  | None => expanded (quote_of on_end_code [("state", usize_token state)])
  end.
(** 191-202: an expected token. *)
Definition expected_tokens (g : grammar) (t : token) : res name_err (list tree) :=
  match t with
  | Some t => token_stream g t
  | None => expanded (quote_of eof_expected_code [])
  end.
(** 175-250, [make_actions] and [make_action]; which of the arms there are is [make_actions] of LRModel.v. *)
Definition action_tokens (g : grammar) (a : action_arm) : res name_err (list tree) :=
  match a with
  | OnToken state t ActShift => do condition <- action_condition g state t; expanded (quote_of shift_code [("condition", One condition)])
  | OnToken state t (ActReduce k) =>
    do condition <- action_condition g state t; do rule_name <- rule_stream k;
    expanded (quote_of reduce_code [("condition", One condition); ("rule_name", One rule_name)])
  | OnOther state expected =>
    do expected <- res_list (map (expected_tokens g) expected);
    expanded (quote_of unexpected_code [("state", usize_token state); ("expected", Many expected)])
  end.
(** 272-291, [make_rule_reductions]: the arm of a rule. *)
Definition reduction_tokens (g : grammar) (e : nat * (nat * symbol)) : res name_err (list tree) :=
  let '(k, (n, nt)) := e in
  do non_terminal <- non_terminal_stream g nt; do rule_name <- rule_stream k;
  expanded (quote_of reduction_code [("rule_name", One rule_name); ("symbols_to_reduce", usize_token n); ("non_terminal", One non_terminal)]).
(** 293-325, [make_rule_visits]: the arm of a rule. *)
Definition visit_tokens (e : nat * string) : res name_err (list tree) :=
  do rule_name <- rule_stream (fst e); do function <- expanded (stream_of (snd e));
  expanded (quote_of visit_code [("rule_name", One rule_name); ("function", One function)]).
(** 327-486, [write_parser]; the tables are those of LRModel.v. *)
Definition parser_tokens (g : grammar) (p : lr_parser) : res name_err (list tree) :=
  do actions <- res_list (map (action_tokens g) (lp_actions p));
  do gotos <- res_list (map (goto_tokens g) (lp_gotos p));
  do rules <- res_list (map (fun e => rule_stream (fst e)) (enumerate (g_rules g)));
  do non_terminals <- res_list (map (non_terminal_stream g) (non_terminals g));
  do rule_reductions <- res_list (map (reduction_tokens g) (enumerate (lp_reductions p)));
  do visits <- rule_visits g;
  do rule_visits <- res_list (map visit_tokens visits);
  expanded (quote_file parser_code [("entry", usize_token (lp_entry p)); ("actions", Many actions); ("gotos", Many gotos); ("rules", Many rules); ("non_terminals", Many non_terminals);
    ("rule_reductions", Many rule_reductions); ("rule_visits", Many rule_visits)]).
(** 488-499, [write_visitor_and_parser]. *)
Definition parser_rs (g : grammar) (p : lr_parser) : res name_err (list tree) :=
  do import <- expanded (quote_of use_code []); do visitor <- visitor_tokens g; do parser <- parser_tokens g p; Ok (import ++ visitor ++ parser).
