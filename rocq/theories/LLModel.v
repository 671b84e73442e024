(** Model of lapex-parser/src/util.rs and lapex-parser/src/ll_parser/mod.rs: FIRST and FOLLOW sets and
    LL(1) tables; and of the parser loop of lapex-cpp-codegen/src/ll_parser.  Definitions only. *)
From Coq Require Import String List Arith NArith Bool.
From Verif Require Import Base InputModel GrammarModel.
Import ListNotations.

(** util.rs 7, [BTreeMap<Symbol, BTreeSet<Symbol>>]. *)
Definition symbol_sets := list (symbol * list symbol).

(** ll_parser/mod.rs 76-86, [LLParserError] (grammar errors are not produced here). *)
Inductive ll_error : Type :=
| InvalidParserTableEntry
| ParserTableConflict (non_terminal terminal : symbol) (production existing_production : list symbol).

(** util.rs 28, [first_sets.get(&symbol).unwrap()]. *)
Definition get_set {E} (s : symbol) (fs : symbol_sets) : res E (list symbol) :=
  match map_get s fs with Some set => Ok set | None => Panic end.

(** util.rs 32, ll_parser/mod.rs 27: [!= Symbol::Epsilon]. *)
Definition not_epsilon (s : symbol) : bool := negb (eqc s Epsilon).

(** util.rs 5-47, [get_first_terminals_of_sequence]; [acc] is [result_set]. *)
Fixpoint first_of_seq_acc {E} (sequence : list symbol) (fs : symbol_sets) (acc : list symbol) : res E (list symbol) :=
  match sequence with
  | [] => Ok acc
  | s :: rest =>
    match s with
    | End | Terminal _ => Ok (set_insert s acc)
    | Epsilon | NonTerminal _ =>
      do set <- (if eqc s Epsilon then Ok [Epsilon] else get_set s fs);
      let acc := set_union acc (filter not_epsilon set) in
      if set_mem Epsilon set
      then first_of_seq_acc rest fs (match rest with [] => set_insert Epsilon acc | _ => acc end)
      else Ok acc
    end
  end.
(** util.rs 5-47, [get_first_terminals_of_sequence]. *)
Definition first_of_seq {E} (sequence : list symbol) (fs : symbol_sets) : res E (list symbol) :=
  first_of_seq_acc sequence fs [].

(** util.rs 61-64, ll_parser/mod.rs 61-65: inserting one by one, noting whether anything was new. *)
Definition insert_one (st : list symbol * bool) (s : symbol) : list symbol * bool :=
  let '(set, any) := st in (set_insert s set, any || negb (set_mem s set)).
(** util.rs 61-64, ll_parser/mod.rs 61-64: the loop. *)
Definition insert_all (set new : list symbol) (any : bool) : list symbol * bool := fold_left insert_one new (set, any).

(** util.rs 51-54, ll_parser/mod.rs 40-43. *)
Definition init_sets (g : grammar) : symbol_sets := fold_left (fun m nt => map_insert nt [] m) (non_terminals g) [].

(** util.rs 60, ll_parser/mod.rs 190, [rule.lhs().unwrap()]. *)
Definition rule_lhs {E} (r : rule) : res E symbol :=
  match r_lhs r with Some i => Ok (NonTerminal i) | None => Panic end.

(** util.rs 58-65: one rule of a FIRST round. *)
Definition first_step {E} (st : symbol_sets * bool) (r : rule) : res E (symbol_sets * bool) :=
  let '(fs, any) := st in
  do new <- first_of_seq (r_rhs r) fs;
  do lhs <- rule_lhs r;
  do set <- get_set lhs fs;
  let '(set', any') := insert_all set new any in
  Ok (map_insert lhs set' fs, any').

(** util.rs 56-70: rounds until nothing is inserted. *)
Fixpoint first_loop {E} (fuel : nat) (g : grammar) (fs : symbol_sets) : res E symbol_sets :=
  match fuel with
  | O => OutOfFuel
  | S fuel =>
    do (fs', any) <- foldM first_step (g_rules g) (fs, false);
    if any then first_loop fuel g fs' else Ok fs'
  end.

(** util.rs 49-73, [compute_first_sets]. *)
Definition compute_first_sets {E} (fuel : nat) (g : grammar) : res E symbol_sets := first_loop fuel g (init_sets g).

(** ll_parser/mod.rs 12-33, [get_follow_symbols_of_remainder]. *)
Definition follow_of_remainder {E} (lhs : option symbol) (remainder : list symbol) (first follow : symbol_sets) : res E (list symbol) :=
  do rf <- first_of_seq remainder first;
  do base <- (if set_mem Epsilon rf || match remainder with [] => true | _ => false end
              then match lhs with Some l => get_set l follow | None => Panic end
              else Ok []);
  Ok (set_union (set_union [] base) (filter not_epsilon rf)).

(** ll_parser/mod.rs 54-69: the positions of one right-hand side. *)
Fixpoint follow_seq {E} (lhs : option symbol) (sequence : list symbol) (first : symbol_sets) (st : symbol_sets * bool)
  : res E (symbol_sets * bool) :=
  match sequence with
  | [] => Ok st
  | s :: remainder =>
    do st' <-
      match s with
      | NonTerminal _ =>
        let '(follow, any) := st in
        do new <- follow_of_remainder lhs remainder first follow;
        do set <- get_set s follow;
        let '(set', any') := insert_all set new any in
        Ok (map_insert s set' follow, any')
      | _ => Ok st
      end;
    follow_seq lhs remainder first st'
  end.

(** ll_parser/mod.rs 45-52: right-hand sides of one FOLLOW round, the terminated entry point first. *)
Definition follow_rules {E} (g : grammar) : res E (list (option symbol * list symbol)) :=
  do rules <- foldM (fun acc r => do l <- rule_lhs r; Ok (acc ++ [(Some l, r_rhs r)])) (g_rules g) [];
  Ok ((None, [g_entry g; End]) :: rules).

(** ll_parser/mod.rs 46-71. *)
Fixpoint follow_loop {E} (fuel : nat) (rules : list (option symbol * list symbol)) (first follow : symbol_sets) : res E symbol_sets :=
  match fuel with
  | O => OutOfFuel
  | S fuel =>
    do (follow', any) <- foldM (fun st e => follow_seq (fst e) (snd e) first st) rules (follow, false);
    if any then follow_loop fuel rules first follow' else Ok follow'
  end.

(** ll_parser/mod.rs 35-74, [compute_follow_sets]. *)
Definition compute_follow_sets {E} (fuel : nat) (g : grammar) (first : symbol_sets) : res E symbol_sets :=
  do rules <- follow_rules g;
  follow_loop fuel rules first (init_sets g).

(** ll_parser/mod.rs 102-105, [LLParserTable]. *)
Definition ll_table := list ((N * option N) * list symbol).

(** [terminal_index + 1] in u16; overflow panics. *)
Definition succ_u16 {E} (t : N) : res E N := if (t + 1 <? 65536)%N then Ok (t + 1)%N else Panic.

(** ll_parser/mod.rs 114-129, [get_production]. *)
Definition get_production {E} (tb : ll_table) (non_terminal terminal : symbol) : res E (option (list symbol)) :=
  match non_terminal, terminal with
  | NonTerminal i, Terminal t => do k <- succ_u16 t; Ok (map_get (i, Some k) tb)
  | NonTerminal i, End => Ok (map_get (i, None) tb)
  | _, _ => Ok None
  end.

(** ll_parser/mod.rs 131-152, [check_for_conflict_and_insert]. *)
Definition check_and_insert (tb : ll_table) (i : N) (k : option N) (production : list symbol) : res ll_error ll_table :=
  match map_get (i, k) tb with
  | Some prev =>
    Err (ParserTableConflict (NonTerminal i) (match k with Some k => Terminal (k - 1) | None => End end) production prev)
  | None => Ok (map_insert (i, k) production tb)
  end.

(** ll_parser/mod.rs 154-178, [insert]. *)
Definition table_insert (tb : ll_table) (non_terminal terminal : symbol) (production : list symbol) : res ll_error ll_table :=
  match non_terminal, terminal with
  | NonTerminal i, Terminal t => do k <- succ_u16 t; check_and_insert tb i (Some k) production
  | NonTerminal i, End => check_and_insert tb i None production
  | _, _ => Err InvalidParserTableEntry
  end.

(** ll_parser/mod.rs 187-194, 197-204: the entries of one rule for the symbols of a set. *)
Definition insert_symbol (lhs : symbol) (production : list symbol) (tb : ll_table) (s : symbol) : res ll_error ll_table :=
  match s with
  | End | Terminal _ => table_insert tb lhs s production
  | _ => Ok tb
  end.

(** ll_parser/mod.rs 185-206: the entries of one rule. *)
Definition insert_rule (first follow : symbol_sets) (tb : ll_table) (r : rule) : res ll_error ll_table :=
  do fr <- first_of_seq (r_rhs r) first;
  do tb1 <- foldM (fun tb s => do lhs <- (match s with End | Terminal _ => rule_lhs r | _ => Ok Epsilon end);
                               insert_symbol lhs (r_rhs r) tb s) fr tb;
  if set_mem Epsilon fr then
    do lhs <- rule_lhs r;
    do fo <- get_set lhs follow;
    foldM (insert_symbol lhs (r_rhs r)) fo tb1
  else Ok tb1.

(** ll_parser/mod.rs 181-208, [generate_table]. *)
Definition ll_generate_table (fuel : nat) (g : grammar) : res ll_error ll_table :=
  do first <- compute_first_sets fuel g;
  do follow <- compute_follow_sets fuel g first;
  foldM (insert_rule first follow) (g_rules g) [].

(** ** The parser loop, lapex-cpp-codegen/src/ll_parser/parser_impl.h.tpl 48-88. *)

(** parser_impl.h.tpl 11-22, [Symbol]: [SEnd] is the terminal [TK_EOF]. *)
Inductive ll_sym : Type :=
| STerm (t : N)
| SEnd
| SNonTerm (i : N)
| SExit (i : N).

(** ll_parser/mod.rs (codegen) 37-67, parser_impl.h.tpl 68, 75 and 83: calls of the visitor. *)
Inductive ll_event : Type :=
| Token (t : N)
| TokenEof
| Enter (i : N)
| Exit (i : N).

(** ll_parser/mod.rs (codegen) 129-151, parser.cpp.tpl 11-15: why parsing stops (both are [throw std::runtime_error]). *)
Inductive ll_parse_error : Type :=
| UnknownLookahead (i : N) (lookahead : option N)
| UnexpectedToken (expected : option N) (got : option N).

(** ll_parser/mod.rs (codegen) 94-127, [write_push_symbol_sequence]: what is pushed for a production,
    top of stack first. *)
Definition push_symbol (s : symbol) : list ll_sym :=
  match s with
  | NonTerminal i => [SNonTerm i]
  | Terminal t => [STerm t]
  | Epsilon | End => []
  end.
(** ll_parser/mod.rs (codegen) 94-127, [write_push_symbol_sequence]. *)
Definition push_sequence (l : list symbol) : list ll_sym := flat_map push_symbol l.

(** parser.cpp.tpl 6-8, [push_production_from_table]: result of looking up a table cell: the symbols to push, or the [throw] of the default case. *)
Definition ll_lookup := N -> option N -> option (list ll_sym).

(** parser_impl.h.tpl 60-87: the loop; the input is the token stream up to [TK_EOF], the lookahead is its
    head ([None] = [TK_EOF]); past the end the token function keeps returning [TK_EOF]. *)
Fixpoint ll_run (fuel : nat) (look : ll_lookup) (stack : list ll_sym) (input : list N) : res ll_parse_error (list ll_event) :=
  match fuel with
  | O => OutOfFuel
  | S fuel =>
    match stack with
    | [] => Ok []
    | SExit i :: stack => do ev <- ll_run fuel look stack input; Ok (Exit i :: ev)
    | SNonTerm i :: stack =>
      match look i (hd_error input) with
      | None => Err (UnknownLookahead i (hd_error input))
      | Some l => do ev <- ll_run fuel look (l ++ SExit i :: stack) input; Ok (Enter i :: ev)
      end
    | STerm t :: stack =>
      match input with
      | t' :: input' =>
        if (t =? t')%N then do ev <- ll_run fuel look stack input'; Ok (Token t :: ev)
        else Err (UnexpectedToken (Some t) (Some t'))
      | [] => Err (UnexpectedToken (Some t) None)
      end
    | SEnd :: stack =>
      match input with
      | t' :: _ => Err (UnexpectedToken None (Some t'))
      | [] => do ev <- ll_run fuel look stack []; Ok (TokenEof :: ev)
      end
    end
  end.

(** parser_impl.h.tpl 51-58 with the entry placeholder filled in as intended. *)
Definition ll_parse (fuel : nat) (look : ll_lookup) (entry : N) (input : list N) : res ll_parse_error (list ll_event) :=
  ll_run fuel look [SNonTerm entry; SEnd] input.

(** ll_parser/mod.rs 114-129: the table as intended: [get_production]. *)
Definition table_lookup (tb : ll_table) : ll_lookup := fun i la =>
  match @get_production ll_error tb (NonTerminal i) (match la with Some t => Terminal t | None => End end) with
  | Ok (Some production) => Some (push_sequence production)
  | _ => None
  end.

(** ll_parser/mod.rs (codegen) 153-190, [write_table_switch], with 86-92 (enum) and 94-127: the table as
    emitted.  Non-terminals on the stack are positions in the enum (order of [non_terminals]), the outer
    [case] labels are symbol indices; the inner switch has cases for terminals only; an identifier without
    outer case pushes nothing. *)
Fixpoint position_of (s : symbol) (l : list symbol) : option nat :=
  match l with
  | [] => None
  | x :: l => if eqc s x then Some O else option_map S (position_of s l)
  end.
(** ll_parser/mod.rs (codegen) 86-92: the value of an enumerator of [NonTerminalType]. *)
Definition enum_position (g : grammar) (s : symbol) : N :=
  match position_of s (non_terminals g) with Some k => N.of_nat k | None => 0 end.
(** ll_parser/mod.rs (codegen) 100-124. *)
Definition push_symbol_cpp (g : grammar) (s : symbol) : list ll_sym :=
  match s with
  | NonTerminal i => [SNonTerm (enum_position g s)]
  | Terminal t => [STerm t]
  | Epsilon | End => []
  end.
(** ll_parser/mod.rs (codegen) 153-190, [write_table_switch]. *)
Definition cpp_lookup (g : grammar) (tb : ll_table) : ll_lookup := fun ident la =>
  if existsb (eqc (NonTerminal ident)) (non_terminals g) then
    match la with
    | Some t =>
      if existsb (eqc (Terminal t)) (terminals g) then
        match @get_production ll_error tb (NonTerminal ident) (Terminal t) with
        | Ok (Some production) => Some (flat_map (push_symbol_cpp g) production)
        | _ => None
        end
      else None
    | None => None
    end
  else Some [].
(** parser_impl.h.tpl 48-88, with the placeholder of line 57 filled as intended by ll_parser/mod.rs (codegen) 216-220. *)
Definition cpp_ll_parse (fuel : nat) (g : grammar) (tb : ll_table) (input : list N) : res ll_parse_error (list ll_event) :=
  ll_parse fuel (cpp_lookup g tb) (enum_position g (g_entry g)) input.
