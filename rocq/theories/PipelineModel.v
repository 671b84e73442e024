(** Model of the generator as a whole: lapex/src/lib.rs, with the error reports of lapex/src/errors.rs, the files written by way of
    lapex-codegen/src/lib.rs 35-51, and the command [generate] of lapex-cli/src/main.rs 51-72.  Line numbers are those of lapex/src/lib.rs unless
    another file is named.  Definitions only. *)
From Coq Require Import String Ascii List Arith NArith Bool.
From Verif Require Import Base InputModel LexerModel GrammarModel LLModel LRModel GLRModel NamesModel CppLexerModel CppLRModel BootModel PositionModel InputGenModel TableModel.
Import ListNotations.
Local Open Scope nat_scope.
Local Open Scope string_scope.
Local Open Scope list_scope.

(** 22-29, [ParsingAlgorithm]. *)
Inductive algorithm : Type := LL1 | LR0 | LR1 | LALR | GLR.
(** 47-51, [Language]. *)
Inductive language : Type := Rust | Cpp.

(** ** Reports: lapex/src/errors.rs *)

(** errors.rs 28-33, [Location] without the name of the file. *)
Record location : Type := mkLocation { lc_pos : source_pos; lc_text : list N }.

(** errors.rs 50-69, [LapexErrorType].  The reason of an I/O error is left out, and so is the severity (15-18), of which there is one. *)
Inductive report : Type :=
| IoReport
| ShiftReduceReport (state : nat) (symbol_name : string) (where_ : location) (item : string)
| ReduceReduceReport (state : nat) (items : list (location * string))
| PrecedenceReport (rules : list (location * string)).

(** 130, 151, 154, errors.rs 100, 115 and 141: [expect] and [unwrap]. *)
Definition expect {E F A} (r : res E A) : res F A :=
  match r with Ok a => Ok a | OutOfFuel => OutOfFuel | _ => Panic end.

(** errors.rs 35-41, [Location::from_span], with the [unwrap] of its callers. *)
Definition location_of {F} (contents : list N) (span : source_span) : res F location :=
  do text <- expect (location_text span contents); Ok (mkLocation (ss_start span) text).

(** *** Spans.  The model of the grammar and of the lexer works on rules without spans.  The following functions find the span of the rule to which
    a reference points. *)

(** lapex-parser/src/grammar_builder.rs 98-120: for each rule of the grammar the position of the production it is made from
    (grammar.rs 48, [rule]). *)
Fixpoint rule_origins (j : nat) (prods : list prod_rule) (b : builder) : res grammar_error (list nat) :=
  match prods with
  | [] => Ok []
  | p :: prods =>
    do b' <- add_production_rule b p;
    do rest <- rule_origins (S j) prods b';
    Ok (repeat j (length (b_rules b') - length (b_rules b)) ++ rest)
  end.

(** lapex-parser/src/lr_parser/item.rs, [production] (grammar.rs 61-63): the span of the production of an item's rule; the entry rule points to the first
    production of the entry symbol (grammar_builder.rs 102-117). *)
Definition item_span (sr : spanned_rules) (it : item) : res grammar_error source_span :=
  match it_rule it with
  | None => match find (fun p => eqc (pr_name (snd p)) (snd (sr_entry sr))) (sr_prods sr) with Some p => Ok (fst p) | None => Panic end
  | Some k =>
    do b <- builder_from_rule_set (unspanned sr);
    do origins <- rule_origins 0 (map snd (sr_prods sr)) b;
    match nth_error origins k with
    | Some j => match nth_error (sr_prods sr) j with Some p => Ok (fst p) | None => Panic end
    | None => Panic
    end
  end.

(** Equality of token rules (the [derive]s in lapex-input/src/lib.rs 85-152). *)
Definition characters_eqb (a b : characters) : bool :=
  match a, b with
  | Single c, Single c' => N.eqb c c'
  | CRange c d, CRange c' d' => N.eqb c c' && N.eqb d d'
  | _, _ => false
  end.
(** lapex-input/src/lib.rs 85-152: equality of lists and options of comparable values. *)
Definition list_eqb {A} (eqb : A -> A -> bool) : list A -> list A -> bool :=
  fix go l m :=
    match l, m with
    | [], [] => true
    | a :: l, b :: m => eqb a b && go l m
    | _, _ => false
    end.
(** lapex-input/src/lib.rs 91-111 and 147-152: equality of optional numbers. *)
Definition option_eqb (a b : option N) : bool :=
  match a, b with Some a, Some b => N.eqb a b | None, None => true | _, _ => false end.
(** lapex-input/src/lib.rs 91-111: equality of patterns. *)
Fixpoint pattern_eqb (p q : pattern) : bool :=
  match p, q with
  | PSeq l, PSeq m => list_eqb pattern_eqb l m
  | PAlt l, PAlt m => list_eqb pattern_eqb l m
  | PRep a b p, PRep a' b' q => N.eqb a a' && option_eqb b b' && pattern_eqb p q
  | PSet l n, PSet m n' => list_eqb characters_eqb l m && Bool.eqb n n'
  | PChar c, PChar d => characters_eqb c d
  | _, _ => false
  end.
(** lapex-input/src/lib.rs 141-152: equality of token rules. *)
Definition token_rule_eqb (a b : token_rule) : bool :=
  String.eqb (tr_name a) (tr_name b) && option_eqb (tr_prec a) (tr_prec b) &&
  match tr_pattern a, tr_pattern b with
  | TLiteral l, TLiteral m => list_eqb N.eqb l m
  | TPattern p, TPattern q => pattern_eqb p q
  | _, _ => false
  end.

(** lapex-lexer/src/lib.rs 30-36: the spans of the rules named in a [PrecedenceError].  The rules are listed in the order of the rule set,
    and the lexer generator treats equal rules alike, so that the first rule equal to the one looked for, behind those already found, is the one. *)
Fixpoint tied_spans (tied : list token_rule) (rules : list (spanned token_rule)) : list (source_span * string) :=
  match rules with
  | [] => []
  | (span, r) :: rules =>
    match tied with
    | [] => []
    | t :: tied' => if token_rule_eqb t r then (span, tr_name r) :: tied_spans tied' rules else tied_spans tied rules
    end
  end.

(** errors.rs 79-84: the name of a symbol which can be shifted. *)
Definition shift_name (g : grammar) (s : symbol) : res name_err string :=
  match s with Terminal t => grammar_token_name g t | _ => get_symbol_name g s end.

(** errors.rs 108-116: location and text of an item. *)
Definition report_item {F} (sr : spanned_rules) (g : grammar) (contents : list N) (it : item) : res F (location * string) :=
  do text <- expect (item_text g it);
  do span <- expect (item_span sr it);
  do where_ <- location_of contents span;
  Ok (where_, text).

(** errors.rs 72-123, [LapexError::conflicts]. *)
Definition report_conflict {F} (sr : spanned_rules) (g : grammar) (contents : list N) (c : conflict) : res F report :=
  match c with
  | ShiftReduce state it s =>
    do name <- expect (shift_name g s);
    do (where_, text) <- report_item sr g contents it;
    Ok (ShiftReduceReport state name where_ text)
  | ReduceReduce state items =>
    do l <- res_list (map (report_item sr g contents) items);
    Ok (ReduceReduceReport state l)
  end.
(** errors.rs 72-123, [LapexError::conflicts]. *)
Definition report_conflicts {F} (sr : spanned_rules) (g : grammar) (contents : list N) (cs : list conflict) : res F (list report) :=
  res_list (map (report_conflict sr g contents) cs).

(** errors.rs 132-147, [LapexError::precedence]. *)
Definition report_precedence {F} (sr : spanned_rules) (contents : list N) (e : lex_err) : res F (list report) :=
  match e with
  | PrecedenceError tied _ =>
    do l <- res_list (map (fun t => do where_ <- location_of contents (fst t); Ok (where_, snd t)) (tied_spans tied (sr_tokens sr)));
    Ok [PrecedenceReport l]
  end.

(** ** Files *)

(** Contents of a file, as far as they depend on the input: the parts modelled in the other files. *)
Inductive artifact : Type :=
| RustTokens (variants : list string)
| CppTokens (enum : list string)
| CppTokenNames (names : list string)
| RustLexer (al : alphabet) (d : dfa token_rule)
| CppLexer (al : alphabet) (d : dfa token_rule)
| TableText (text : string)
| RustParser (p : lr_parser) (non_terminals methods : list string) (visits : list (nat * string))
| RustGlrParser (p : glr_parser) (non_terminals methods : list string) (visits : list (nat * string))
| CppParser (c : cpp_lr)
| CppVisits (visits : list (nat * option string))
| CppLLParser (tb : ll_table)
| CppLLEnum (non_terminals : list string)
| CppMethods (methods : list string)
| Fixed.

(** A file written by this run.  A file is created before its contents are computed: if that panics, the file is there, with
    unspecified contents ([None]). *)
Definition file : Type := (string * option artifact)%type.

(** Results together with the files written so far. *)
Definition io (A : Type) : Type := list file -> list file * res (list report) A.
(** 109-231: the next step, unless the one before has failed. *)
Definition io_bind {A B} (m : io A) (f : A -> io B) : io B := fun files =>
  match m files with
  | (files, Ok a) => f a files
  | (files, Err e) => (files, Err e)
  | (files, Panic) => (files, Panic)
  | (files, OutOfFuel) => (files, OutOfFuel)
  end.
(** 109-231: a step which writes no file. *)
Definition pure {A} (r : res (list report) A) : io A := fun files => (files, r).

Section Generate.
(** [std::fs::File::create] (137) and the writes to the file: whether they succeed for a file name.  Errors of the last flush, when the [BufWriter] is dropped, are ignored. *)
Variable create : string -> bool.

(** lapex-codegen/src/lib.rs 40-51, [generate_code], with the [unwrap] of all its callers. *)
Definition emit (f : string * res name_err artifact) : io unit := fun files =>
  if create (fst f) then
    match snd f with
    | Ok a => (files ++ [(fst f, Some a)], Ok tt)
    | OutOfFuel => (files, OutOfFuel)
    | _ => (files ++ [(fst f, None)], Panic)
    end
  else (files, Panic).
(** lapex-rust-codegen and lapex-cpp-codegen: several files one after the other. *)
Fixpoint emit_all (l : list (string * res name_err artifact)) : io unit :=
  match l with
  | [] => pure (Ok tt)
  | f :: l => io_bind (emit f) (fun _ => emit_all l)
  end.

(** *** The code generators of the two languages, as lists of files *)

(** lapex-rust-codegen/src/lexer/mod.rs 204-208, lapex-cpp-codegen/src/lexer/mod.rs 175-181, [generate_tokens]. *)
Definition tokens_files (lang : language) (names : list string) : list (string * res name_err artifact) :=
  match lang with
  | Rust => [("tokens.rs", do v <- rust_token_variants names; Ok (RustTokens v))]
  | Cpp => [("tokens.h", Ok (CppTokens (enumerators names))); ("tokens.cpp", Ok (CppTokenNames names))]
  end.

(** lapex-rust-codegen/src/lexer/mod.rs 78: the name of the variant of an accepting state. *)
Definition accepted_name (s : astate token_rule) : res name_err string :=
  match s with Accepting r => get_token_enum_name (tr_name r) | Intermediate _ => Ok EmptyString end.
(** lapex-rust-codegen/src/lexer/mod.rs 192-202, lapex-cpp-codegen/src/lexer/mod.rs 161-173, [generate_lexer]. *)
Definition lexer_files (lang : language) (al : alphabet) (d : dfa token_rule) : list (string * res name_err artifact) :=
  match lang with
  | Rust => [("lexer.rs", do _ <- res_list (map accepted_name (dfa_nodes d)); Ok (RustLexer al d))]
  | Cpp => [("lexer.h", Ok Fixed); ("lexer.cpp", Ok (CppLexer al d))]
  end.

(** 170-175, 197-202 and 221-226: the table. *)
Definition table_files (generate_table : bool) (g : grammar) (tb : lr_table) : list (string * res name_err artifact) :=
  if generate_table then [("table", do t <- output_table g tb; Ok (TableText t))] else [].

(** lapex-rust-codegen/src/lr_parser/mod.rs 509-521, lapex-cpp-codegen/src/lr_parser/mod.rs 232-252, [generate_code]. *)
Definition lr_files (lang : language) (names : list string) (g : grammar) (tb : lr_table) : list (string * res name_err artifact) :=
  match lang with
  | Rust =>
    [("parser.rs", do methods <- visitor_methods g; do p <- expect (write_parser g tb); do nts <- rust_non_terminal_variants g; do visits <- rule_visits g;
                   Ok (RustParser p nts methods visits))]
  | Cpp =>
    [("parser.h", Ok Fixed); ("parser.cpp", do c <- cpp_write names g tb; Ok (CppParser c));
     ("parser_impl.h", do visits <- cpp_rule_visits g; Ok (CppVisits visits)); ("visitor.h", do methods <- cpp_visitor_methods g; Ok (CppMethods methods))]
  end.

(** lapex-rust-codegen/src/glr_parser/mod.rs 837-849; lapex-cpp-codegen/src/glr_parser/mod.rs 13 is [todo!()], here [None]. *)
Definition glr_files (lang : language) (g : grammar) (tb : lr_table) : option (list (string * res name_err artifact)) :=
  match lang with
  | Rust =>
    Some [("parser.rs", do methods <- visitor_methods g; do p <- expect (glr_write_parser g tb); do nts <- rust_non_terminal_variants g; do visits <- rule_visits g;
                        Ok (RustGlrParser p nts methods visits))]
  | Cpp => None
  end.

(** lapex-cpp-codegen/src/ll_parser/mod.rs 39-47: the methods of the visitor. *)
Definition ll_methods (g : grammar) : list string :=
  flat_map (fun s => match get_production_name g s with Some n => ["enter_" ++ n; "exit_" ++ n]%string | None => [] end) (non_terminals g).
(** lapex-cpp-codegen/src/ll_parser/mod.rs 162-201, [write_table_switch]: every cell is looked up. *)
Definition ll_cells (g : grammar) (tb : ll_table) : res name_err unit :=
  do _ <- res_list (map (fun c => get_production tb (fst c) (snd c)) (list_prod (non_terminals g) (terminals g))); Ok tt.
(** lapex-cpp-codegen/src/ll_parser/mod.rs 235-255; lapex-rust-codegen/src/ll_parser/mod.rs 13 is [todo!()], here [None]. *)
Definition ll_files (lang : language) (g : grammar) (tb : ll_table) : option (list (string * res name_err artifact)) :=
  match lang with
  | Rust => None
  | Cpp =>
    Some [("parser.h", Ok Fixed); ("parser.cpp", do _ <- ll_cells g tb; Ok (CppLLParser tb));
          ("parser_impl.h", do nts <- cpp_non_terminal_variants g; Ok (CppLLEnum nts)); ("visitor.h", Ok (CppMethods (ll_methods g)))]
  end.

(** [todo!()]. *)
Definition emit_or_todo (l : option (list (string * res name_err artifact))) : io unit :=
  match l with Some l => emit_all l | None => pure Panic end.

(** *** The steps *)

(** 142-149: the lexer. *)
Definition lexer_step (fuel : nat) (lang : language) (contents : list N) (sr : spanned_rules) : io unit :=
  match generate_lexer fuel (map snd (sr_tokens sr)) with
  | Ok (al, d) => emit_all (lexer_files lang al d)
  | Err e => pure (do l <- report_precedence sr contents e; Err l)
  | Panic => pure Panic
  | OutOfFuel => pure OutOfFuel
  end.

(** 157-205: tables in which conflicts are errors; a result other than the two is [unreachable!()]. *)
Definition lr_step (fuel : nat) (lang : language) (lookahead : nat) (lalr table : bool) (contents : list N) (sr : spanned_rules) (g : grammar) : io unit :=
  match generate_table fuel g lookahead false lalr with
  | Ok (NoConflicts tb) => io_bind (emit_all (table_files table g tb)) (fun _ => emit_all (lr_files lang (map tr_name (map snd (sr_tokens sr))) g tb))
  | Ok (BadConflicts cs) => pure (do l <- report_conflicts sr g contents cs; Err l)
  | OutOfFuel => pure OutOfFuel
  | _ => pure Panic
  end.

(** 153-229: the parser. *)
Definition parser_step (fuel : nat) (lang : language) (alg : algorithm) (table : bool) (contents : list N) (sr : spanned_rules) (g : grammar) : io unit :=
  match alg with
  | LL1 =>
    match ll_generate_table fuel g with
    | Ok tb => emit_or_todo (ll_files lang g tb)
    | OutOfFuel => pure OutOfFuel
    | _ => pure Panic
    end
  | LR0 => lr_step fuel lang 0 false table contents sr g
  | LR1 => lr_step fuel lang 1 false table contents sr g
  | LALR => lr_step fuel lang 1 true table contents sr g
  | GLR =>
    match generate_table fuel g 1 true true with
    | Ok (NoConflicts tb) | Ok (AllowedConflicts tb _) => io_bind (emit_all (table_files table g tb)) (fun _ => emit_or_todo (glr_files lang g tb))
    | OutOfFuel => pure OutOfFuel
    | _ => pure Panic
    end
  end.

(** 109-232, [generate_lexer_and_parser], and 234-266, [generate].  [contents] is what [std::fs::read_to_string] (128) gives, [read] the input parser. *)
Definition generate (fuel : nat) (read : list N -> res lex_err spanned_rules) (lexer : bool) (alg : algorithm) (table : bool) (lang : language) (contents : option (list N))
  : list file * res (list report) unit :=
  match contents with
  | None => ([], Err [IoReport])
  | Some contents =>
    io_bind (pure (expect (read contents))) (fun sr =>
    io_bind (emit_all (tokens_files lang (map tr_name (map snd (sr_tokens sr))))) (fun _ =>
    io_bind (if lexer then lexer_step fuel lang contents sr else pure (Ok tt)) (fun _ =>
    io_bind (pure (expect (from_rule_set (unspanned sr)))) (fun g =>
    parser_step fuel lang alg table contents sr g)))) []
  end.
End Generate.

(** lapex-input-bootstrap/src/lib.rs 343-358, used by lapex-input-gen/build.rs: the bootstrap parser gives all rules the zero span. *)
Definition bootstrap_read (contents : list N) : res lex_err spanned_rules :=
  do rs <- expect (parse_lapex_file contents);
  Ok (mkSpannedRules (zero_span, rs_entry rs) (map (pair zero_span) (rs_tokens rs)) (map (pair zero_span) (rs_prods rs))).

(** lapex-cli/src/main.rs 51-72: the command [generate]; [None] if the process does not end.  Reports are printed; the exit status is that of a main function which returns, or that of a
    panic. *)
Definition exit_status {A} (r : res (list report) A) : option N :=
  match r with
  | Ok _ => Some 0%N
  | Err _ => Some 0%N
  | Panic => Some 101%N
  | OutOfFuel => None
  end.
