(** Model of the generated parser of grammar files: lapex-input-gen/src/lib.rs, and its build script
    lapex-input-gen/build.rs.  Line numbers are those of src/lib.rs unless another file is named.  Definitions only.

    Every failure of this parser is a panic ([unwrap], [expect], [assert_eq!], [panic!]), so the order in which the lexer, the
    parser and the visitor fail is not modelled: the tokens are computed first, then the calls of the visitor, then their effect. *)
From Coq Require Import String Ascii List Arith NArith Bool.
From Verif Require Import Base InputModel GrammarModel LexerModel PositionModel LRModel NamesModel BootModel.
Import ListNotations.
Local Open Scope nat_scope.
Local Open Scope string_scope.
Local Open Scope list_scope.

(** ** Regular expressions *)

(** [HirKind] of the external crate regex-syntax 0.7.4: a literal is a sequence of bytes, a class a list of ranges.  The kind of a
    look-around assertion and the index and name of a capture are not used (111, 124) and left out. *)
Inductive hir : Type :=
| HEmpty
| HLiteral (bytes : list N)
| HUnicode (ranges : list (N * N))
| HBytes (ranges : list (N * N))
| HLook
| HRepetition (min : N) (max : option N) (greedy : bool) (sub : hir)
| HCapture (sub : hir)
| HConcat (subs : list hir)
| HAlternation (subs : list hir).

(** 55-63, [RegexConversionError].  The errors of regex-syntax and of [from_utf8] are not described further. *)
Inductive regex_error : Type := LazyRepetition | Lookaround | EmptyRegex | RegexSyntax | Utf8Conversion | ByteClass.

(** Continuation bytes of UTF-8, and the character encoded by a byte and continuation bytes. *)
Definition continues (b : N) : bool := ((128 <=? b) && (b <? 192))%N.
(** 91, [std::str::from_utf8]: the values of a [char]. *)
Definition valid_scalar (c : N) : bool := ((c <? 55296) || ((57344 <=? c) && (c <=? 1114111)))%N.

(** [std::str::from_utf8] and [chars] (91-94): the characters of a sequence of bytes, unless it is not well-formed UTF-8. *)
Fixpoint from_utf8 (bs : list N) : option (list N) :=
  match bs with
  | [] => Some []
  | b :: bs =>
    if (b <? 128)%N then option_map (cons b) (from_utf8 bs)
    else if ((192 <=? b) && (b <? 224))%N then
      match bs with
      | b1 :: bs =>
        let c := ((b - 192) * 64 + (b1 - 128))%N in
        if continues b1 && (128 <=? c)%N then option_map (cons c) (from_utf8 bs) else None
      | _ => None
      end
    else if ((224 <=? b) && (b <? 240))%N then
      match bs with
      | b1 :: b2 :: bs =>
        let c := (((b - 224) * 64 + (b1 - 128)) * 64 + (b2 - 128))%N in
        if continues b1 && continues b2 && (2048 <=? c)%N && valid_scalar c then option_map (cons c) (from_utf8 bs) else None
      | _ => None
      end
    else if ((240 <=? b) && (b <? 248))%N then
      match bs with
      | b1 :: b2 :: b3 :: bs =>
        let c := ((((b - 240) * 64 + (b1 - 128)) * 64 + (b2 - 128)) * 64 + (b3 - 128))%N in
        if continues b1 && continues b2 && continues b3 && (65536 <=? c)%N && valid_scalar c then option_map (cons c) (from_utf8 bs) else None
      | _ => None
      end
    else None
  end.

(** 85-138, [make_pattern_from_hir].  [collect] into a [Result] stops at the first error. *)
Fixpoint make_pattern_from_hir (h : hir) : res regex_error pattern :=
  match h with
  | HEmpty => Err EmptyRegex
  | HLiteral bs =>
    match from_utf8 bs with
    | Some cs => Ok (PSeq (map (fun c => PChar (Single c)) cs))
    | None => Err Utf8Conversion
    end
  | HUnicode ranges => Ok (PSet (map (fun r => CRange (fst r) (snd r)) ranges) false)
  | HBytes _ => Err ByteClass
  | HLook => Err Lookaround
  | HRepetition mn mx greedy sub => if greedy then do p <- make_pattern_from_hir sub; Ok (PRep mn mx p) else Err LazyRepetition
  | HCapture sub => make_pattern_from_hir sub
  | HConcat subs => do ps <- res_list (map make_pattern_from_hir subs); Ok (PSeq ps)
  | HAlternation subs => do ps <- res_list (map make_pattern_from_hir subs); Ok (PAlt ps)
  end.

(** ** The visitor *)

(** lapex-input/src/lib.rs 45-49, [Spanned]. *)
Definition spanned (A : Type) : Type := (source_span * A)%type.

(** 21-25, [TokenData]. *)
Record token_data : Type := mkData { td_text : list N; td_span : source_span }.

(** 34-42, [Ast]; [Rule] (27-32) is the type of the same name of the bootstrap parser.  Texts are characters; names become strings
    where they enter a rule ([name_of]: names are ASCII, as the lexer makes them). *)
Inductive ast : Type :=
| AToken (text : list N)
| ARule (r : file_rule)
| ATag (tag : option string)
| APattern (p : prod_pattern)
| ARules (rules : list (spanned file_rule))
| APrecedence (prec : option N).

(** 44-46, [LapexAstVisitor]: the stack, top first. *)
Definition ast_stack : Type := list (spanned ast).

(** 168-494, [self.stack.pop().unwrap()]. *)
Definition pop (s : ast_stack) : res lex_err (spanned ast * ast_stack) := match s with [] => Panic | x :: s => Ok (x, s) end.

(** 180-184, 285-300, 344-348, 465-469 and 488-492, [if let Some(Ast::Token(..)) = self.stack.pop() .. else panic!], and the same for the other variants. *)
Definition pop_token (s : ast_stack) : res lex_err (source_span * list N * ast_stack) :=
  match s with (span, AToken t) :: s => Ok (span, t, s) | _ => Panic end.
(** 169-173, 199-207, 230-234, 252-260, 324-332, 359-367 and 390-398: the same for patterns. *)
Definition pop_pattern (s : ast_stack) : res lex_err (source_span * prod_pattern * ast_stack) :=
  match s with (span, APattern p) :: s => Ok (span, p, s) | _ => Panic end.
(** 175-179: the same for tags. *)
Definition pop_tag (s : ast_stack) : res lex_err (option string * ast_stack) :=
  match s with (_, ATag t) :: s => Ok (t, s) | _ => Panic end.
(** 291-295: the same for precedences. *)
Definition pop_precedence (s : ast_stack) : res lex_err (option N * ast_stack) :=
  match s with (_, APrecedence p) :: s => Ok (p, s) | _ => Panic end.
(** 424-432 and 442-450: the same for rules. *)
Definition pop_rule (s : ast_stack) : res lex_err (source_span * file_rule * ast_stack) :=
  match s with (span, ARule r) :: s => Ok (span, r, s) | _ => Panic end.
(** 437-441: the same for lists of rules. *)
Definition pop_rules (s : ast_stack) : res lex_err (list (spanned file_rule) * ast_stack) :=
  match s with (_, ARules r) :: s => Ok (r, s) | _ => Panic end.

(** 48-53, [get_unescaped_chars]: the first and the last character are dropped, nothing else happens. *)
Definition get_unescaped_chars (text : list N) : list N := removelast (tl text).

(** [str::parse::<u16>] (466): an optional plus sign and at least one decimal digit; [None] is the error, also on overflow. *)
Definition decimal_digit (c : N) : bool := ((48 <=? c) && (c <=? 57))%N.
(** 466, [str::parse::<u16>]: the value of the digits. *)
Definition digits_value (cs : list N) : N := fold_left (fun n c => 10 * n + (c - 48))%N cs 0%N.
(** 466, [str::parse::<u16>]. *)
Definition parse_u16 (text : list N) : option N :=
  let digits := match text with c :: text' => if (c =? 43)%N then text' else text | [] => [] end in
  match digits with
  | [] => None
  | _ => if forallb decimal_digit digits && (digits_value digits <? 65536)%N then Some (digits_value digits) else None
  end.

Section Visitor.
(** [regex_syntax::parse] (141) of the external crate regex-syntax; [None] is its error. *)
Variable regex_parse : list N -> option hir.

(** 140-143, [get_regex_pattern]; the slice panics if it is out of order or splits a character. *)
Definition get_regex_pattern (text : list N) : res regex_error pattern :=
  match byte_slice text 1 (byte_len text - 1) with
  | Ok inner => match regex_parse inner with Some h => make_pattern_from_hir h | None => Err RegexSyntax end
  | _ => Panic
  end.

(** 302-310: the pattern of a token rule; [unreachable!] and [unwrap] panic. *)
Definition token_pattern_of (rhs : list N) : res lex_err token_pattern :=
  match rhs with
  | c :: _ =>
    if (c =? 34)%N then Ok (TLiteral (get_unescaped_chars rhs))
    else if (c =? 47)%N then match get_regex_pattern rhs with Ok p => Ok (TPattern p) | _ => Panic end
    else Panic
  | [] => Panic
  end.

(** 151-165, 269-275, 407-421, 455-461, 478-480, 498-500: methods without effect. *)
Definition reduce_noop (s : ast_stack) : res lex_err ast_stack := Ok s.

(** 167-195. *)
Definition reduce_prod_rule (s : ast_stack) : res lex_err ast_stack :=
  do (semi, s) <- pop s;
  do (_, rhs, s) <- pop_pattern s;
  let s := tl s in
  do (tag, s) <- pop_tag s;
  do (_, name, s) <- pop_token s;
  do (prod, s) <- pop s;
  Ok ((between_span (fst prod) (fst semi), ARule (FProd (mkProdRule (name_of name) tag rhs))) :: s).

(** 197-215, 322-340, 357-375: [reduce_repetition_zero], [reduce_option], [reduce_repetition_one]. *)
Definition reduce_suffix (f : prod_pattern -> prod_pattern) (s : ast_stack) : res lex_err ast_stack :=
  do (suffix, s) <- pop s;
  do (span, p, s) <- pop_pattern s;
  Ok ((between_span span (fst suffix), APattern (f p)) :: s).
(** 197-215. *)
Definition reduce_repetition_zero : ast_stack -> res lex_err ast_stack := reduce_suffix QStar.
(** 322-340. *)
Definition reduce_option : ast_stack -> res lex_err ast_stack := reduce_suffix QOpt.
(** 357-375. *)
Definition reduce_repetition_one : ast_stack -> res lex_err ast_stack := reduce_suffix QPlus.

(** 217-226. *)
Definition reduce_item_1 (s : ast_stack) : res lex_err ast_stack :=
  do (span, name, s) <- pop_token s;
  Ok ((span, APattern (QRule (name_of name))) :: s).

(** 228-238. *)
Definition reduce_item_2 (s : ast_stack) : res lex_err ast_stack :=
  do (end_, s) <- pop s;
  do (_, p, s) <- pop_pattern s;
  do (start, s) <- pop s;
  Ok ((between_span (fst start) (fst end_), APattern p) :: s).

(** 240-267. *)
Definition reduce_concatenation_1 (s : ast_stack) : res lex_err ast_stack :=
  do (concat_span, q, s) <- pop_pattern s;
  let elements := match q with QSeq elements => elements | p => [p] end in
  do (unary_span, p, s) <- pop_pattern s;
  Ok ((between_span unary_span concat_span, APattern (QSeq (p :: elements))) :: s).

(** 277-281. *)
Definition reduce_pattern_2 (s : ast_stack) : res lex_err ast_stack :=
  do (x, s) <- pop s;
  Ok ((fst x, APattern QEps) :: s).

(** 283-320. *)
Definition reduce_token_rule (s : ast_stack) : res lex_err ast_stack :=
  do (semi, s) <- pop s;
  do (_, rhs, s) <- pop_token s;
  let s := tl s in
  do (prec, s) <- pop_precedence s;
  do (_, name, s) <- pop_token s;
  do (tok, s) <- pop s;
  do p <- token_pattern_of rhs;
  Ok ((between_span (fst tok) (fst semi), ARule (FToken (mkTokenRule (name_of name) prec p))) :: s).

(** 342-355. *)
Definition reduce_entry_rule (s : ast_stack) : res lex_err ast_stack :=
  do (semi, s) <- pop s;
  do (_, name, s) <- pop_token s;
  do (entry, s) <- pop s;
  Ok ((between_span (fst entry) (fst semi), ARule (FEntry (name_of name))) :: s).

(** 377-405. *)
Definition reduce_alternative_1 (s : ast_stack) : res lex_err ast_stack :=
  do (alt_span, q, s) <- pop_pattern s;
  let elements := match q with QAlt elements => elements | p => [p] end in
  let s := tl s in
  do (concat_span, p, s) <- pop_pattern s;
  Ok ((between_span concat_span alt_span, APattern (QAlt (elements ++ [p]))) :: s).

(** 423-434. *)
Definition reduce_rules_1 (s : ast_stack) : res lex_err ast_stack :=
  do (span, r, s) <- pop_rule s;
  Ok ((zero_span, ARules [(span, r)]) :: s).

(** 436-453. *)
Definition reduce_rules_2 (s : ast_stack) : res lex_err ast_stack :=
  do (rules, s) <- pop_rules s;
  do (span, r, s) <- pop_rule s;
  Ok ((zero_span, ARules (rules ++ [(span, r)])) :: s).

(** 463-476. *)
Definition reduce_precedence (s : ast_stack) : res lex_err ast_stack :=
  do (end_, s) <- pop s;
  do (_, digit, s) <- pop_token s;
  match parse_u16 digit with
  | None => Panic
  | Some n =>
    do (start, s) <- pop s;
    Ok ((between_span (fst start) (fst end_), APrecedence (Some n)) :: s)
  end.

(** 482-484. *)
Definition reduce_anon27_2 (s : ast_stack) : res lex_err ast_stack := Ok ((zero_span, APrecedence None) :: s).

(** 486-496. *)
Definition reduce_tag (s : ast_stack) : res lex_err ast_stack :=
  do (end_, s) <- pop s;
  do (_, name, s) <- pop_token s;
  do (start, s) <- pop s;
  Ok ((between_span (fst start) (fst end_), ATag (Some (name_of name))) :: s).

(** 502-504. *)
Definition reduce_anon26_2 (s : ast_stack) : res lex_err ast_stack := Ok ((zero_span, ATag None) :: s).

(** 145-505: the methods of [LapexAstVisitor] by name, in the order of the file. *)
Definition visitor_impl : list (string * (ast_stack -> res lex_err ast_stack)) :=
  [("reduce_unary_1", reduce_noop); ("reduce_unary_2", reduce_noop); ("reduce_unary_3", reduce_noop); ("reduce_unary_4", reduce_noop);
   ("reduce_prod_rule", reduce_prod_rule); ("reduce_repetition_zero", reduce_repetition_zero);
   ("reduce_item_1", reduce_item_1); ("reduce_item_2", reduce_item_2);
   ("reduce_concatenation_1", reduce_concatenation_1); ("reduce_concatenation_2", reduce_noop);
   ("reduce_pattern_1", reduce_noop); ("reduce_pattern_2", reduce_pattern_2);
   ("reduce_token_rule", reduce_token_rule); ("reduce_option", reduce_option); ("reduce_entry_rule", reduce_entry_rule);
   ("reduce_repetition_one", reduce_repetition_one);
   ("reduce_alternative_1", reduce_alternative_1); ("reduce_alternative_2", reduce_noop);
   ("reduce_rule_1", reduce_noop); ("reduce_rule_2", reduce_noop); ("reduce_rule_3", reduce_noop);
   ("reduce_rules_1", reduce_rules_1); ("reduce_rules_2", reduce_rules_2);
   ("reduce_string_or_regex_1", reduce_noop); ("reduce_string_or_regex_2", reduce_noop);
   ("reduce_precedence", reduce_precedence); ("reduce_anon27_1", reduce_noop); ("reduce_anon27_2", reduce_anon27_2);
   ("reduce_tag", reduce_tag); ("reduce_anon26_1", reduce_noop); ("reduce_anon26_2", reduce_anon26_2)].

(** 145-505: the method of a name; a call of a method which does not exist does not compile, here it panics. *)
Definition call_method (name : string) (s : ast_stack) : res lex_err ast_stack :=
  match find (fun e => String.eqb (fst e) name) visitor_impl with
  | Some (_, f) => f s
  | None => Panic
  end.

(** The effect of a call of the visitor: [shift] (146-149) takes the data of the next token, where [eof] is the data of the tokens
    after the last; a reduction calls the method which the emitted parser calls for the rule ([visits], see [rule_visits]). *)
Definition visit (visits : list (nat * string)) (eof : token_data) (st : ast_stack * list token_data) (e : lr_event)
  : res lex_err (ast_stack * list token_data) :=
  let '(s, data) := st in
  match e with
  | EShift _ => let d := hd eof data in Ok ((td_span d, AToken (td_text d)) :: s, tl data)
  | EReduce k =>
    match find (fun v => Nat.eqb (fst v) k) visits with
    | Some (_, name) => do s <- call_method name s; Ok (s, data)
    | None => Panic
    end
  end.

(** ** The parser *)

(** lapex-input/src/lib.rs 202-207, [RuleSet] with the spans of its rules. *)
Record spanned_rules : Type := mkSpannedRules {
  sr_entry : spanned string;
  sr_tokens : list (spanned token_rule);
  sr_prods : list (spanned prod_rule)
}.

(** lapex-input/src/lib.rs 46-49 and 203-207: the rule set without spans, which is what the rest of the model works on. *)
Definition unspanned (r : spanned_rules) : rule_set := mkRuleSet (snd (sr_entry r)) (map snd (sr_tokens r)) (map snd (sr_prods r)).

(** 559-574: the rules are sorted by kind; there must be one entry rule. *)
Definition sort_rules (rules : list (spanned file_rule)) : res lex_err spanned_rules :=
  let tokens := flat_map (fun r => match snd r with FToken t => [(fst r, t)] | _ => [] end) rules in
  let prods := flat_map (fun r => match snd r with FProd t => [(fst r, t)] | _ => [] end) rules in
  match flat_map (fun r => match snd r with FEntry t => [(fst r, t)] | _ => [] end) rules with
  | [entry] => Ok (mkSpannedRules entry tokens prods)
  | _ => Panic
  end.

(** build.rs 10-19: what the build script generates: lexer, parser, the calls of the visitor by rule, and the numbers of the token types. *)
Record generated : Type := mkGenerated {
  gn_alphabet : alphabet;
  gn_dfa : dfa token_rule;
  gn_parser : lr_parser;
  gn_visits : list (nat * string);
  gn_tokens : list (symbol * string)
}.

(** lapex-input-gen/build.rs: [generate(true, LR1, false, "src/lapex.lapex", Rust, BootstrapLapexInputParser)]; lapex/src/lib.rs. *)
Definition build_input_parser (fuel : nat) (grammar_file : list N) : option generated :=
  match parse_lapex_file grammar_file with
  | Ok rules =>
    match from_rule_set rules, generate_lexer fuel (rs_tokens rules) with
    | Ok g, Ok (al, d) =>
      match generate_table fuel g 1 false false with
      | Ok (NoConflicts tb) =>
        match write_parser g tb, rule_visits g with
        | Ok p, Ok v => Some (mkGenerated al d p v (g_tokens g))
        | _, _ => None
        end
      | _ => None
      end
    | _, _ => None
    end
  | _ => None
  end.

(** 551-574: parsing; [parser.parse().expect(..)], [assert_eq!(stack.len(), 1)]. *)
Definition parse_tokens (gn : generated) (fuel : nat) (tokens : list (N * token_data)) (eof : token_data) : res lex_err spanned_rules :=
  let '(calls, r) := lr_parse fuel (gn_parser gn) (map fst tokens) in
  match r with
  | Ok _ =>
    do (stack, _) <- foldM (visit (gn_visits gn) eof) calls ([], map snd tokens);
    match stack with
    | [(_, ARules rules)] => sort_rules rules
    | _ => Panic
    end
  | OutOfFuel => OutOfFuel
  | _ => Panic
  end.

(** lapex-rust-codegen/src/lexer/mod.rs 16-35: the number of a token type. *)
Definition token_number (gn : generated) (name : string) : option N :=
  match find (fun e => String.eqb (snd e) name) (gn_tokens gn) with
  | Some (Terminal t, _) => Some t
  | _ => None
  end.

(** Successive calls of [lexer.next()] up to the end of the input, with [lexer.slice()]; errors are unwrapped (520, 524, 530). *)
Fixpoint lex_file (gn : generated) (fuel : nat) (lx : lexer) : res lex_err (list (string * list N)) :=
  match fuel with
  | O => OutOfFuel
  | S fuel =>
    do (lx, r) <- lexer_next (gn_alphabet gn) (gn_dfa gn) lx;
    match r with
    | inl (Tk t) => do s <- lexer_slice lx; do rest <- lex_file gn fuel lx; Ok ((tr_name t, s) :: rest)
    | inl EndOfFile => Ok []
    | inr _ => Panic
    end
  end.

(** 519-550, [token_fun], for all tokens up to the end of the input; the second result is the data of the end of the input. *)
Fixpoint place_tokens (gn : generated) (raw : list (string * list N)) (line col : N) : res lex_err (list (N * token_data) * token_data) :=
  match raw with
  | [] => Ok ([], mkData [] (mkSpan (mkPos line col) (mkPos line col)))
  | (name, text) :: raw =>
    if String.eqb name "NEWLINE" then do line <- add_u16 line 1; place_tokens gn raw line 1
    else if String.eqb name "WHITESPACE" then do col <- add_u16 col (slice_width text); place_tokens gn raw line col
    else
      do col' <- add_u16 col (slice_width text);
      match token_number gn name with
      | None => Panic
      | Some t =>
        do (rest, eof) <- place_tokens gn raw line col';
        Ok ((t, mkData text (mkSpan (mkPos line col) (mkPos line col'))) :: rest, eof)
      end
  end.

(** 510-575, [parse_lapex]. *)
Definition parse_lapex (gn : generated) (fuel : nat) (source : list N) : res lex_err spanned_rules :=
  do raw <- lex_file gn fuel (lexer_new source);
  do (tokens, eof) <- place_tokens gn raw 1 1;
  parse_tokens gn fuel tokens eof.
End Visitor.
