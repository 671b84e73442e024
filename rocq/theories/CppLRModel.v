(** The LR parser emitted by lapex-cpp-codegen (src/lr_parser). *)
From Coq Require Import String List Arith NArith Bool.
From Verif Require Import Base InputModel GrammarModel LLModel LRModel NamesModel CppLexerModel.
Import ListNotations.
Local Open Scope nat_scope.
Local Open Scope list_scope.

(** ** Code generation *)

(** action_goto.rs 43-55 and 153-172: a [case] label: [NonTerminalType::NT_..], [lexer::TokenType::TK_..], or nothing between [case] and the colon. *)
Inductive label : Type :=
| CaseNt (name : string)
| CaseTk (name : string)
| CaseEmpty.

(** parser_impl.h.tpl 41-45, [Transition]: next state and whether the input is accepted. *)
Definition transition : Type := (nat * bool)%type.

(** grammar.rs 187-192, [get_token_name]. *)
Definition grammar_token_name (g : grammar) (t : N) : res name_err string :=
  match map_get (Terminal t) (g_tokens g) with Some name => Ok name | None => Panic end.

(** lapex-parser/src/lr_parser/mod.rs 433-445, [state_has_shift]. *)
Definition is_shift (e : table_entry) : bool := match e with Shift _ => true | _ => false end.
(** lapex-parser/src/lr_parser/mod.rs 433-445, [state_has_shift]. *)
Definition state_has_shift (tb : lr_table) (g : grammar) (state : nat) : bool :=
  existsb (fun c => match snd c with Some l => existsb is_shift l | None => false end)
          (iter_state_non_terminals tb g state ++ iter_state_terminals tb g state).

(** action_goto.rs 43-55: the label written by [write_goto_case_header]. *)
Definition goto_label (g : grammar) (s : symbol) : res name_err label :=
  match s with
  | NonTerminal _ => do n <- cpp_non_terminal_enum_name g s; Ok (CaseNt n)
  | Terminal t => do n <- grammar_token_name g t; Ok (CaseTk (enumerator n))
  | _ => Ok CaseEmpty
  end.

(** action_goto.rs 35-80, [write_goto_case_header] and [write_goto_case_body]. *)
Definition goto_case (g : grammar) (s : symbol) (e : table_entry) : res name_err (list (label * transition)) :=
  match e with
  | Shift target => do l <- goto_label g s; Ok [(l, (target, false))]
  | Accept => do l <- goto_label g s; Ok [(l, (0, true))]
  | _ => Ok []
  end.

(** action_goto.rs 179-189, [translate_vecs_to_elements]. *)
Definition the_entry (c : option (list table_entry)) : res name_err (option table_entry) :=
  match c with
  | None => Ok None
  | Some [e] => Ok (Some e)
  | Some _ => Panic
  end.

(** action_goto.rs 11-33, [write_goto_cases]. *)
Definition write_goto_cases (g : grammar) (cells : list (symbol * option (list table_entry))) : res name_err (list (label * transition)) :=
  foldM (fun acc c => do e <- the_entry (snd c);
                      match e with
                      | Some e => do l <- goto_case g (fst c) e; Ok (acc ++ l)
                      | None => Ok acc
                      end) cells [].

(** action_goto.rs 191-242, [write_goto_table]: the switches on terminals and on non-terminals for every state with a shift. *)
Definition write_goto_table (g : grammar) (tb : lr_table) : res name_err (list (nat * (list (label * transition) * list (label * transition)))) :=
  foldM (fun acc state =>
    if state_has_shift tb g state then
      do ts <- write_goto_cases g (iter_state_terminals tb g state);
      do nts <- write_goto_cases g (iter_state_non_terminals tb g state);
      Ok (acc ++ [(state, (ts, nts))])
    else Ok acc) (seq 0 (tb_states tb)) [].

(** action_goto.rs 153-172: the label written by [write_action_case_header]. *)
Definition action_label (g : grammar) (s : symbol) : res name_err label :=
  match s with
  | NonTerminal _ => do n <- cpp_non_terminal_enum_name g s; Ok (CaseNt n)
  | Terminal t => do n <- grammar_token_name g t; Ok (CaseTk (enumerator n))
  | End => Ok (CaseTk tk_eof)
  | Epsilon => Ok CaseEmpty
  end.

(** action_goto.rs 123-177, [write_action_case_header] and [write_action_case_body]; [rule_index_map.get(..).unwrap()]
    fails for the entry rule. *)
Definition action_case (g : grammar) (s : symbol) (e : table_entry) : res name_err (list (label * lr_action)) :=
  match e with
  | Shift _ => do l <- action_label g s; Ok [(l, ActShift)]
  | Reduce (Some k) => do l <- action_label g s; Ok [(l, ActReduce k)]
  | Reduce None => do _ <- action_label g s; Panic
  | _ => Ok []
  end.

(** action_goto.rs 94-98 and 104-112: the names of the expected tokens of a case. *)
Definition expected_name (g : grammar) (s : symbol) : res name_err (list string) :=
  match s with
  | Terminal t => do n <- grammar_token_name g t; Ok [n]
  | End => Ok ["<EOF>"%string]
  | _ => Ok []
  end.

(** action_goto.rs 82-121, [write_action_cases]: the cases, and the names of the expected tokens for the default case. *)
Definition write_action_cases (g : grammar) (cells : list (symbol * option (list table_entry)))
  : res name_err (list (label * lr_action) * list string) :=
  foldM (fun acc c => do e <- the_entry (snd c);
                      match e with
                      | Some e =>
                        do l <- action_case g (fst c) e;
                        match l with
                        | [] => Ok acc
                        | _ => do x <- expected_name g (fst c); Ok (fst acc ++ l, snd acc ++ x)
                        end
                      | None => Ok acc
                      end) cells ([], []).

(** action_goto.rs 113-119: the argument of [throw_unexpected_token_error]. *)
Definition expected_list (names : list string) : string := String.concat ", "%string (map (fun n => "'" ++ n ++ "'")%string names).

(** action_goto.rs 244-264, [write_action_table]. *)
Definition write_action_table (g : grammar) (tb : lr_table) : res name_err (list (nat * (list (label * lr_action) * string))) :=
  foldM (fun acc state =>
    do (cases, expected) <- write_action_cases g (iter_state_terminals tb g state);
    Ok (acc ++ [(state, (cases, expected_list expected))])) (seq 0 (tb_states tb)) [].

(** mod.rs 126-160, [write_stack_reduce_table]: how many symbols are popped and the enumerator of the one pushed.
    [rule_index_map] is sorted by the addresses of the rules, that is by index. *)
Definition write_stack_reduce (g : grammar) (e : nat * rule) : res name_err (nat * (nat * string)) :=
  match r_lhs (snd e) with
  | Some i =>
    do n <- cpp_non_terminal_enum_name g (NonTerminal i);
    Ok (fst e, (length (filter not_epsilon (r_rhs (snd e))), n))
  | None => Panic
  end.

(** mod.rs 233-252: the emitted program. *)
Record cpp_lr : Type := mkCppLR {
  cx_names : list string;      (* the token rules, in the order in which tokens.h lists them *)
  cx_nts : list string;        (* the enumerators of NonTerminalType *)
  cx_entry : nat;
  cx_actions : list (nat * (list (label * lr_action) * string));
  cx_gotos : list (nat * (list (label * transition) * list (label * transition)));
  cx_reductions : list (nat * (nat * string))
}.

(** mod.rs 162-168, 203-219 and 233-252, [generate_code]; [names] are those of the lexer's rules.  The visitor methods are
    modelled in NamesModel.v. *)
Definition cpp_write (names : list string) (g : grammar) (tb : lr_table) : res name_err cpp_lr :=
  do actions <- write_action_table g tb;
  do gotos <- write_goto_table g tb;
  do reductions <- res_list (map (write_stack_reduce g) (enumerate (g_rules g)));
  do nts <- cpp_non_terminal_variants g;
  Ok (mkCppLR names nts (tb_entry tb) actions gotos reductions).

(** ** What a C++ compiler checks *)

(** tokens.h.tpl 7-12, parser_impl.h.tpl 24-27: value of an enumerator. *)
Definition enum_value (enum : list string) (name : string) : option N := option_map N.of_nat (find_index (String.eqb name) enum).

(** action_goto.rs 200-203 and 248: value of a label in a switch over [TokenType] or over [NonTerminalType]. *)
Definition token_label (c : cpp_lr) (l : label) : option N := match l with CaseTk n => enum_value (enumerators (cx_names c)) n | _ => None end.
(** action_goto.rs 215-218: value of a label in a switch over [NonTerminalType]. *)
Definition nt_label (c : cpp_lr) (l : label) : option N := match l with CaseNt n => enum_value (cx_nts c) n | _ => None end.

(** action_goto.rs 191-264: the labels of a switch exist, have its type and differ. *)
Definition switch_ok {A} (value : label -> option N) (cases : list (label * A)) : Prop :=
  (forall l a, In (l, a) cases -> value l <> None) /\ NoDup (map (fun c => value (fst c)) cases).

(** parser_impl.h.tpl 34-38: [Action act{ActionType::Reduce, k}] is a narrowing conversion unless [k] fits [uint16_t]. *)
Definition action_fits (a : lr_action) : Prop := match a with ActShift => True | ActReduce k => (N.of_nat k < 65536)%N end.

(** mod.rs 233-252: the emitted program is well-formed C++: no enumerator twice in an enum, no wrong label, no narrowing.  Of the emitted
    text only these parts depend on the grammar (apart from the visitor methods). *)
Record cpp_compiles (c : cpp_lr) : Prop := {
  cc_tokens : NoDup (enumerators (cx_names c));
  cc_nts : NoDup (cx_nts c);
  cc_action_states : NoDup (map fst (cx_actions c));
  cc_actions : forall q cases ex, In (q, (cases, ex)) (cx_actions c) -> switch_ok (token_label c) cases /\ forall l a, In (l, a) cases -> action_fits a;
  cc_goto_states : NoDup (map fst (cx_gotos c));
  cc_gotos : forall q ts nts, In (q, (ts, nts)) (cx_gotos c) -> switch_ok (token_label c) ts /\ switch_ok (nt_label c) nts;
  cc_reductions : NoDup (map fst (cx_reductions c)) /\ forall k n s, In (k, (n, s)) (cx_reductions c) -> enum_value (cx_nts c) s <> None
}.

(** ** Running the program *)

(** parser_impl.h.tpl 11-22, [SymbolKind] and [Symbol]. *)
Inductive sym_kind : Type := KindTerminal | KindNonTerminal | KindState.
(** parser_impl.h.tpl 18-22, [Symbol]. *)
Record csym : Type := mkSym { sy_kind : sym_kind; sy_ident : N }.

(** parser.cpp.tpl 10, action_goto.rs 31, 231, 239 and 261, parser_impl.h.tpl 95: how the program can end other than by returning: an exception with its message, [std::terminate], the exception of
    [std::vector::at], undefined behaviour. *)
Inductive cpp_error : Type :=
| Throw (message : string)
| Terminated
| OutOfRange
| Undefined.

(** parser.cpp.tpl 7-11, [throw_unexpected_token_error]; a null pointer must not be written to a stream. *)
Definition throw_unexpected_token_error (c : cpp_lr) (expected : string) (got : N) : cpp_error :=
  match nth_error (enumerators (cx_names c)) (N.to_nat got) with
  | Some tk =>
    match CppLexerModel.get_token_name (cx_names c) tk with
    | Some name => Throw ("Unexpected token '" ++ name ++ "', expected one of: " ++ expected)%string
    | None => Undefined
    end
  | None => Undefined
  end.

(** action_goto.rs 200-225 and 248-255: the case taken by a switch. *)
Fixpoint switch {A} (value : label -> option N) (cases : list (label * A)) (v : N) : option A :=
  match cases with
  | [] => None
  | (l, a) :: cases => if eqc (value l) (Some v) then Some a else switch value cases v
  end.

(** action_goto.rs 192-240 and 245-262, mod.rs 127-158: the case of a switch over numbers. *)
Fixpoint numbered {A} (cases : list (nat * A)) (v : N) : option A :=
  match cases with
  | [] => None
  | (q, a) :: cases => if N.eqb (N.of_nat q) v then Some a else numbered cases v
  end.

(** parser.cpp.tpl 13-16, [determine_action]. *)
Definition determine_action (c : cpp_lr) (state tk : N) : res cpp_error lr_action :=
  match numbered (cx_actions c) state with
  | None => Err Terminated
  | Some (cases, expected) =>
    match switch (token_label c) cases tk with
    | Some a => Ok a
    | None => Err (throw_unexpected_token_error c expected tk)
    end
  end.

(** parser.cpp.tpl 23-26, [retrieve_next_state]. *)
Definition retrieve_next_state (c : cpp_lr) (state : N) (current : csym) : res cpp_error transition :=
  match numbered (cx_gotos c) state with
  | None => Err Terminated
  | Some (ts, nts) =>
    match (match sy_kind current with
           | KindTerminal => switch (token_label c) ts (sy_ident current)
           | KindNonTerminal => switch (nt_label c) nts (sy_ident current)
           | KindState => None
           end) with
    | Some t => Ok t
    | None => Err Terminated
    end
  end.

(** mod.rs 137-147: the emitted loop which pops a state and a symbol. *)
Fixpoint pop_symbols (n : nat) (stack : list csym) : res cpp_error (list csym) :=
  match n with
  | O => Ok stack
  | S n => match stack with _ :: _ :: stack => pop_symbols n stack | _ => Err Undefined end
  end.

(** parser.cpp.tpl 18-21, [reduce_stack]. *)
Definition cpp_reduce_stack (c : cpp_lr) (rule : nat) (stack : list csym) : res cpp_error (list csym) :=
  match numbered (cx_reductions c) (N.of_nat rule) with
  | None => Err Terminated
  | Some (n, name) =>
    match enum_value (cx_nts c) name with
    | Some v => do stack <- pop_symbols n stack; Ok (mkSym KindNonTerminal v :: stack)
    | None => Err Undefined
    end
  end.

(** parser_impl.h.tpl 84 and 92: calls of the visitor, which also takes the data of the token; the method of a rule is identified by the rule. *)
Inductive cpp_event : Type := CShift (tk : N) | CReduce (rule : nat).

(** parser_impl.h.tpl 66, 74 and 86: the next token: [tokens] and then [TK_EOF] for ever. *)
Definition cpp_peek (tokens : list N) : N := match tokens with t :: _ => t | [] => 1%N end.

(** parser_impl.h.tpl 74-93: action and visitor call. *)
Definition cpp_act (c : cpp_lr) (stack : list csym) (tokens : list N) : list cpp_event * res cpp_error (list csym * list N) :=
  match stack with
  | [] => ([], Err Undefined)
  | top :: _ =>
    let tk := cpp_peek tokens in
    match determine_action c (sy_ident top) tk with
    | Ok ActShift => ([CShift tk], Ok (mkSym KindTerminal tk :: stack, tl tokens))
    | Ok (ActReduce rule) =>
      match cpp_reduce_stack c rule stack with
      | Ok stack => ([CReduce rule], Ok (stack, tokens))
      | Err e => ([], Err e)
      | Panic => ([], Panic)
      | OutOfFuel => ([], OutOfFuel)
      end
    | Err e => ([], Err e)
    | Panic => ([], Panic)
    | OutOfFuel => ([], OutOfFuel)
    end
  end.

(** parser_impl.h.tpl 94-106: transition. *)
Definition cpp_goto (c : cpp_lr) (stack : list csym) : res cpp_error (list csym) :=
  match stack with
  | [] => Err Undefined
  | [_] => Err OutOfRange
  | current :: below :: rest =>
    do (next, accepting) <- retrieve_next_state c (sy_ident below) current;
    Ok (if accepting : bool then rest else mkSym KindState (N.of_nat next) :: stack)
  end.

(** parser_impl.h.tpl 72-107, the loop of [parse]; on success the tokens which were not shifted. *)
Fixpoint cpp_lr_loop (fuel : nat) (c : cpp_lr) (stack : list csym) (tokens : list N) : list cpp_event * res cpp_error (list N) :=
  match fuel with
  | O => ([], OutOfFuel)
  | S fuel =>
    match stack with
    | [] => ([], Ok tokens)
    | _ =>
      let '(ev, r) := cpp_act c stack tokens in
      match r with
      | Ok (stack, tokens) =>
        match cpp_goto c stack with
        | Ok stack => let '(ev', r) := cpp_lr_loop fuel c stack tokens in (ev ++ ev', r)
        | Err e => (ev, Err e)
        | Panic => (ev, Panic)
        | OutOfFuel => (ev, OutOfFuel)
        end
      | Err e => (ev, Err e)
      | Panic => (ev, Panic)
      | OutOfFuel => (ev, OutOfFuel)
      end
    end
  end.

(** parser_impl.h.tpl 62-70: the stack starts with the entry state. *)
Definition cpp_parse (fuel : nat) (c : cpp_lr) (tokens : list N) : list cpp_event * res cpp_error (list N) :=
  cpp_lr_loop fuel c [mkSym KindState (N.of_nat (cx_entry c))] tokens.
