# Design: a Coq model of lapex

Target: rehwinkel/lapex (`/repo`), a lexer and parser generator.  The model is written in
Coq 8.16.1 with the standard library only, under `rocq/theories` (logical prefix `Verif`).

## 1. Conventions

* One Gallina function per Rust function.  Each carries a comment with file and lines, and every
  simplification is noted there.
* `panic!`, `unwrap` on `None`, `unreachable!`, index out of bounds and `assert!` are an explicit
  `Panic` value.  `Result` stays data (`Err e`).  Non-structural loops and recursions take fuel and
  return `OutOfFuel`; theorems about results never count `OutOfFuel` as success, and a separate
  theorem shows that some fuel always suffices where the Rust code terminates.
* `BTreeSet`/`BTreeMap` are strictly sorted lists (same iteration order). `petgraph` graphs are a
  list of node weights plus a list of edges; `edges_directed` iterates most recently added first.
* Characters are code points (`N`), strings are lists of code points; byte lengths are computed by
  `len_utf8`.  Symbol indices are `N` with explicit `u16` wrap-around/overflow where the code has it.
  `usize`/`u32` arithmetic is unbounded unless a property is about it.
* Files: `*Model.v` (definitions only), `*Spec.v` (independent specification: regular-expression
  matching, derivations, parse trees...), `*Proof.v` (lemmas), `*Properties.v` (property theorems only,
  each `exact lemma`, each followed by a concrete Example and `Print Assumptions`).
* Properties which are false for the code are stated, and refuted with a computed witness
  (`..._refuted`), and the strongest true variant is proved.

## 2. What is modelled, property by property

| Id | Model | How it is proved |
|----|-------|------------------|
| C01 | `generate_alphabet`, `get_chars_from_pattern`, `find_range` on sorted lists | invariant of the gap-filling fold; binary search specified by its result and proved on sorted lists |
| C02 | `build_nfa_from_pattern` etc. on an explicit graph | each call adds a fragment whose only contact with the old graph is start/end; induction on the pattern; path decomposition |
| C03 | same, with `Panic` | induction on the pattern, both directions |
| C04 | `epsilon_closure`, `add_powerset_to_dfa`, `convert_powerset_to_dfa` | graph-search invariants; measure = number of unvisited subsets |
| C05 | `resolve_precedence`, `apply_precedence_to_dfa` | case analysis plus reachability of every DFA state |
| C06-C10 | generated Rust `Lexer` as a state machine over the DFA, remaining characters, byte offsets | induction on the input; spec uses only regular-expression matching |
| C11-C13 | `GrammarBuilder` | invariant relating each generated symbol to the EBNF pattern it stands for; derivations both ways |
| C14-C15 | FIRST/FOLLOW fixpoints | soundness by invariant, completeness by fixpoint + induction on derivations; termination by counting |
| C16-C17 | `generate_table` (LL), predictive parser | table = predict sets; soundness/completeness by induction on derivations |
| C18 | C++ LL tables as emitted | witnesses by computation; soundness under index agreement |
| C19-C26 | `lr_parser` generation, table, conflicts; generated driver | invariants on the state graph and the stack |
| C27 | emitted GLR tables; graph-structured stack with a heap of shared mutable nodes; `parse`, `apply_reduces`, `unwind_stacks` | simulation of the heap by a list of linear stacks, level by level; the levels are the runs of the non-deterministic automaton of C19-C26 |
| C28 | `SourcePos::offset`, `SourceSpan::substring`, byte slices of strings, the span arithmetic of the generated input parser's token stream | induction on the text; the position of a prefix as a function; invariant of the token loop: line and column are the position of the text read so far |
| C29 | `utf8_decode` with its tables and bit operations, on a byte stream | single bytes by enumeration of the 256 values, words by bit lemmas turning `or` of shifted fields into sums, then arithmetic |
| C39 | emitted C++ `Lexer::next`, alphabet and automaton switches, `TokenType` enumerators, `get_token_name` | simulation of the Rust lexer loop of C06-C10 by the C++ loop: cached character and bytes encode the remaining characters |
| C30, C34 | `convert_snake_to_upper_camel`, enum variants, `rules_by_non_terminal`, visitor methods and the calls of the reduce switch (Rust and C++), as strings | camel case as a two-state automaton and its inverse; the map of rules by induction on the fold; decimal numerals are injective and have no underscore |
| C31 | `TemplateWriter` with the leftmost lazy match of its regular expression, `GeneratedCodeWriter`; the text of all twelve C++ templates | induction on the template; uniqueness of the division into pieces; the templates by computation |
| C32 | all functions of the bootstrap parser over bytes, with nom's `tag`, `take_while1`, `take_while_m_n`, `alt`, `opt`, `many1`, `separated_list1` | concrete syntax as inductive relations between rules and bytes; soundness combinator by combinator; completeness by mutual induction on spellings with the set of bytes that may follow; fuel by input length; existence of spellings by induction on patterns |
| C33 | the build script as a function from the text of lapex.lapex to lexer, parser and visitor calls; the 31 methods of `LapexAstVisitor` on a stack; sorting of rules; lexing and positions | grammar-file syntax as mutual inductive relations over tokens; soundness by induction over parse trees with an invariant per non-terminal, completeness by constructing the tree; then C19–C21 for the generated table; equality of languages by a denotation of patterns over levels of unfolding |
| C40 | `make_pattern_from_hir`, `std::str::from_utf8` | induction on expressions; byte arithmetic |
| C41 | as C33: `lex_file` (the generated lexer called until the end), `place_tokens` (`token_fun`), `parse_lapex` | lexemes of the grammar language and divisions of a text as inductive relations; the token rules of lapex.lapex are shown to have these languages, then C06-C10 (longest match) for the generated lexer give the division by induction on the text; with `input_decides` (C33) the whole parser decides `reads_file`; tokens which differ only in positions are read alike, so a part of the file reads as the rule it spells |
| C43 | `RunModel.v`: the token function (`pull`), the LR loop fetching a token behind each shift, the GLR loop fetching one between reductions and shifts | `tokenised` divides a text into longest lexemes; the tokens delivered by the lexer are such a division or end in an error (induction on the remaining text, C06-C10); a run which fetches tokens lazily is the run on the list of tokens (C19-C24, C27) or ends where the lexer fails; with the consumption theorems of C21 and C27 this gives the language of the rule set (C11) |
| C42 | `PipelineModel.v`: `generate` of lapex/src/lib.rs with the file system as a predicate (which files can be created) and a list of written files, `generate_tokens`/`generate_lexer`/`generate_code_*` of both languages, error construction of errors.rs, the exit status of main.rs, build.rs; `TableModel.v`: `output_table` | invariants over the sequence of writes (`begun`/`finished` of the expected file list); success by inversion of each stage, using the exact success conditions of C05, C12, C16, C26 and C30; reports by the precedence theorem (C05), the conflict theorem (C22) and the span theorems (C28, C41); termination from the fuel bounds of each stage |
| C44 | `TableModel.v`: `get_symbol_name`, `Rule::display`, `Item::display`, `output_table` as strings | names contain no parenthesis, words no space, cells no bar: each text can be cut at the first such character; induction on symbols, columns and states |
| C46 | `LRModel.v` against `CanonSpec.v` (items valid for a sequence of symbols as two inductive relations) | items in the closure of the node reached on a path are the valid items of the path; paths with the same item sets (cores) lead to the same node; the table is read off the node |
| C47 | the same | conflicts as clashes of valid items, which are comparable between the kinds; states as classes of paths, so that an injection of classes bounds their number |
| C48 | `LLModel.v` and `LRModel.v` | for a token, the valid items that may start with it form one chain of predictions from a single kernel item; two complete or shifting items would be two ends of the chain. Where non-terminals derive words that are not empty, the kernel does not depend on the token |
| C49 | `CppRunModel.v`: the token function of main.cpp and the C++ LR loop fetching one token at a time | `holds` splits bytes into text and malformed rest, totally and uniquely by the decoder theorems of C39; the C++ lexer follows the Rust lexer (C39), the lazy C++ loop follows the C++ loop on a list of tokens, which follows the Rust parser (C35); then C43, with places of lexemes carried along |
| C50 | `LRHashModel.v`: table generation again, with rules ordered by address, hash sets iterated in an arbitrary order each time, and the cache of item sets | simulation of the run by a run of `LRModel`: sets have the same elements, and are equal lists unless they contain the item of the entry rule, which has no transition and is never reduced; cached sets are those that would be computed; conflicts and cells are determined by the states, whatever the order of visits |
| C51 | the models of C43 and C49 run beside each other | a sealed table without a conflict makes the grammar unambiguous, so that an accepted text has one parse tree, whose post-order both visitors are told; rejection follows because all of them terminate (C43); Rust and C++ parsers of one table: both go through the steps of the parser on the tokens of the text (C35) |
| C52 | the bootstrap parser of C32 beside the generated parser of C41 | the text of every rule the bootstrap parser reads is divided into lexemes from its end to its beginning (the longest lexeme is decided by the next character), which gives tokens that spell the same rule; positions fit because the file is short; the meaning of patterns is compared as in C33 |
| C53 | `CppTextModel.v`: the functions that write lexer.cpp, tokens.h and tokens.cpp, as lists of code points; `CppTextSpec.v`: C++ as far as it occurs in the text — comments with joined lines, tokens, statements, switches and their labels, integers of fixed size with promotions, members of the object | the scanner of a concatenation is the concatenation of scans in the state reached; by induction over ranges, states and transitions the text of each switch has known tokens, which the parser takes to a known statement; its execution follows the model of C39 step by step, with bounds that keep the 32-bit and 64-bit numbers from wrapping; generated tables meet the conditions (labels of the powerset automaton are distinct) |
| C56 | the text of `utf8_decode` and of the constructor; `CppBitsSpec.v`: arrays, pointers, casts and operators of C++ with their precedence, undefined steps have no result; `CppClassSpec.v`: members of a class and their initialisers | the list of steps is computed from the text once, since it is the same in front of every table; its run by rewriting with one lemma per operator (no operand leaves 32 bits), to the function of C29, whose theorems then apply |
| C57 | `write_visitor_methods` and visitor.h as text; `CppVisitorSpec.v`: abstract methods of a class, and a message written to a stream and thrown | scanned line by line: a rule in a comment has no line end and no backslash at its end, a method is one word since names are plain; the methods are those of C34, whose theorems then apply; the error function is the same in front of every table, `get_token_name` runs as in C53 |
| C58 | the `quote!` calls of lexer/mod.rs copied and expanded (`RustLexTextModel.v`); `RustTokenSpec.v`: token trees of a text; `RustSpec.v`: a parser and an evaluator for the Rust that occurs | the expanded file is a fixed file around three lists of arms, expanded with arms as variables; every arm is parsed by itself, lists of arms by induction; the arms select what `select_case`, `find_index` and `nth_error` select; the loop by induction on the characters; at most one body per function since parsers are functions |
| C59 | the `quote!` calls of lr_parser/mod.rs copied and expanded (`RustLRTextModel.v`); `RustPullModel.v`: the loop of `parse` with a token function that hands out data; `RustLRTextSpec.v`: values of symbols, stacks, actions and errors, what the five functions are to do | the file is a fixed file around six lists; arms are parsed one by one; the arms of `next_action` and `next_goto` select what the model selects because variants are injective; `reduce_stack_and_visit` by the arms of both matches; the loop of `parse` by induction on the rounds; `fits` for generated tables from the proofs of C19; with the lexer, the token function of C58's code is `pull` of C43, and C43 applies |
| C60 | the files of C58 and C59; `RustMessageSpec.v`: how `impl Display` and `#[derive]` are found, how `write!` formats | the `impl` has no holes, so it is found in the file with the lists as variables and its arms are parsed once for all depths; the message is computed with the names as variables, the list by induction; with the run of C59 and the exact list of expected tokens of C37 |
| C61 | `ReportModel.v`: `Display` of errors, `write_section`, `str::lines`, the loop of main.rs; `ReportSpec.v`: a report as a list of lines | the lines of a joined text are the pieces of its parts, by induction over the text; reading back: lines without ends of lines are told apart, a line with a place is no line with a margin because the colour does not begin with a space, what is said has a length given by the title, so that the text of the place is what is left; names are identifiers by the division of the file into lexemes (C41), so are the parts of items |
| C62 | `GrammarTextModel.v`: `Display` of `Grammar`; `GrammarTextSpec.v`: its lines | joining the lines gives the text, by induction over the rules; the text is cut at its ends of lines, every line into the names of symbols (as in C44), these tell the symbols by their numbers; then the rules are the same, so are derivations, and the names of the terminals in them, hence the languages (C11); names in a file are identifiers by its division into lexemes (C41) |
| C54 | `CppLRTextModel.v`: the functions that write the switches of parser.cpp and parser_impl.h, as lists of code points; `CppLRTextSpec.v`: where the functions are, values of the types of the parser, which enumerations the text declares | as for C53: tokens of each piece, one statement for each switch, execution of a switch with distinct labels by its first matching case; the checks are evaluated for the written statement and reduce, label by label, to the conditions of C35 |
| C55 | the text of `parse` of parser_impl.h.tpl with the functions of C54 and a token function given from outside; for the whole, `token_function` runs the texts of `next`, `start` and `end` of C53 | the loop follows `pull_parse` (`CppPullModel.v`, the loop of C35 over any token function) round by round, by induction on the number of rounds; the lexer as a token function by C53; then C49 says what the model does on bytes |
| C45 | composition of the models of C41, C42 and C43 | composition of the theorems of C41 (rules read from the file), C42 (files written), C43 and C49 (lexer and parser on a text) |
| C37 | the parsers of C19–C27 | every symbol stack of a run is the front of some item, and items are reached through symbols that derive something, so the yield of the stack starts a sentence; for canonical LR(1) the lookahead of every applicable item starts a continuation; a wrong continuation would be an accepting run where the deterministic run is stuck |
| C38 | the parsers of C19–C27 | the size of a tree is bounded by its leaves if there is no cycle; the stack holds boundedly many entries between two that cover tokens if there is no hidden left recursion; so the calls of any run of the automaton are bounded by an explicit function of the input's length. Conversely hidden left recursion or a cycle gives sentences whose trees force runs of different lengths on one input, against the determinism of conflict-free tables |
| C35 | C++ LR code generator: `determine_action`, `retrieve_next_state`, `reduce_stack` as switches with symbolic labels, enumerators and their values, what the compiler checks; the template's `parse` loop | the emitted switches as functions of the table's cells; distinct labels select the cell of the token; step-by-step simulation of the Rust driver of C19-C26 |
| C36 | `BidiMap` | induction on histories |

## 3. Trusted base

### 3.1 Tools and reading

* The Coq kernel, `coqc` 8.16.1, including its virtual machine (`vm_compute` is used for concrete
  examples, refutations and the facts about `lapex.lapex`). `coqchk` re-checks all files.
* No axioms: every theorem of MANIFEST.json is closed under the global context (section 5).
* The reading of the Rust, C++ and template sources by the author of the model.  `/repo` is not built
  or run.  Every definition cites the lines it stands for, so the reading can be checked line by line.

### 3.2 Assumptions about code outside the repository

* `BTreeSet`, `BTreeMap`, `Vec`, `VecDeque`, `String`: as documented; iteration in key order.
* `HashSet`: an iteration gives every element once, in any order (C50). `HashMap`: only looked up, in all
  of the repository.
* `petgraph::Graph`: node and edge indices in order of insertion; `edges_directed` most recent first;
  `find_edge`/`update_edge` as documented.
* `nom` 7 combinators used by the bootstrap parser are modelled as functions (C32).
* `regex`/`regex-syntax`: the parser for regular expressions is an arbitrary function `regex` from
  texts to expressions or errors: theorems hold for every such function; its result (the HIR) is
  modelled, and so is its conversion (C40).
* Rust's overflow checks: `u16` arithmetic on positions and symbols panics (debug build) where a
  property speaks about it; `as u16` wraps.
* `quote!`/`proc_macro2`/rustc and the C++ compiler: the emitted program is modelled as the data it
  contains (tables, automaton, names) interpreted by the model of the emitted fixed code.  Not modelled:
  spacing and syntax of the emitted text, apart from C53-C60; that it compiles is only covered as far as names clash (C30,
  C34, C39, C35) and literals are too large (C35).
* The code of C58, C59 and C60 is a list of token trees: `quote!` (crate quote) is modelled in `RustQuoteModel.v`, literals get the suffix of their type; that the printed text is read back as these trees is
  a property of crate proc_macro2. `RustSpec.v` is the part of Rust that occurs: syntax with precedence, patterns, places, first fitting arm, shadowing, `return`, panics, methods of `Option`, `Vec` and
  iterators over characters; integers carry their type and are unbounded; a value of which the types do not fit has no meaning; `write!` in C60 is given its meaning by `RustMessageSpec.v` (format strings, `{}` of integers, `{:?}` of integers, vectors, options, inclusive ranges and derived enums; that of a character is a parameter).
* The meaning of the C++ text of C53-C57 is that of `CppTextSpec.v`, `CppBitsSpec.v`, `CppClassSpec.v` and `CppVisitorSpec.v`: the part of C++ that occurs, with `case a ... b:` as in GNU C++;
  `int` has 32 bits, `size_t` 64. The first tokens of a definition are looked for in the file (`defines`); what is around it
  (includes, namespaces) is not interpreted. `istream::read` stores as many of the bytes as there are and leaves the rest of the
  buffer as it is. In C54 and C55 `throw_unexpected_token_error` and the methods of the visitor are calls with a given
  meaning (`outside`), C57 shows that the text of the former has this meaning, a visitor records the calls; `std::vector` is a list, `back()` and `pop_back()` of an empty one have no meaning.
  Passing the checks (`checks`, `types_in`) means: no duplicate labels or enumerators, all names declared, no narrowing, no more.
* `owo_colors` and `str::lines` (C61): a style writes a text in front and one behind what is painted, both without line breaks, the first not beginning with a space (the ANSI sequences are an example);
  `lines` is modelled. In printed reports names and items are bytes, the texts of places code points; file name and reason of an I/O error are given.
* The file system: a predicate that says which files can be created (C42). Writing to a created file
  always succeeds (errors of `BufWriter` on drop are ignored by the code as well).

### 3.3 What is modelled

| Source | Lines | Model | Not modelled |
|---|---|---|---|
| `lapex-input/src/lib.rs` | all data types, `SourcePos`, `SourceSpan`, `unescape_chars` as far as used | `InputModel`, `PositionModel` | `Display` of patterns |
| `lapex-lexer/src/alphabet.rs`, `nfa/mod.rs`, `lib.rs` | all | `LexerModel` | debug printing |
| `lapex-automaton/src/lib.rs` | all except the `Debug` graph output | `LexerModel` | `dot` output |
| `lapex-parser/src/grammar_builder.rs`, `grammar.rs` | all | `GrammarModel`, `NamesModel`, `GrammarTextModel` | |
| `lapex-parser/src/util.rs`, `ll_parser/mod.rs` | all | `LLModel` | |
| `lapex-parser/src/lr_parser/{mod,item,bidimap}.rs` | all, `output_table` included; hash sets, addresses and the cache for C50 | `LRModel`, `TableModel`, `LRHashModel` | |
| `lapex-rust-codegen/src/lexer/mod.rs` | emitted lexer, token enum; the token trees of lexer.rs and tokens.rs for C58 and C60 | `LexerModel`, `NamesModel`, `RustLexTextModel` | |
| `lapex-rust-codegen/src/lr_parser/mod.rs` | emitted tables, driver, visitor calls, names | `LRModel`, `NamesModel`, `RunModel`, `RustLRTextModel`, `RustPullModel` | |
| `lapex-rust-codegen/src/glr_parser/mod.rs` | the same for GLR, with a heap for `Rc<RefCell<..>>` | `GLRModel`, `RunModel` | text of the emitted code |
| `lapex-rust-codegen/src/ll_parser/mod.rs`, `lapex-cpp-codegen/src/glr_parser/mod.rs` | `todo!()` | `PipelineModel` (panic) | |
| `lapex-cpp-codegen/src/lexer/*` | emitted lexer, decoder, enumerators; the text of the files for C53, C56 | `CppLexerModel`, `CppTextModel` | `Debug` of token rules (a parameter) |
| `lapex-cpp-codegen/src/lr_parser/*` | switches, narrowing checks, `parse` loop; the text of parser.cpp, parser_impl.h and visitor.h for C54, C55, C57 | `CppLRModel`, `CppRunModel`, `CppLRTextModel`, `CppVisitorModel` | meaning of the text of parser.h |
| `main.cpp` | the token function (73-77) and the call of `parse` | `CppRunModel` | the printing visitor, the reading of the file |
| `lapex-cpp-codegen/src/ll_parser/*` | emitted tables, `parse` loop | `LLModel` | the same |
| `lapex-codegen/src/templating.rs`, `lib.rs` | all; all twelve templates | `TemplateModel` | |
| `lapex-input-bootstrap/src/lib.rs` | all | `BootModel` | text of nom's error values |
| `lapex-input-gen/build.rs`, `src/lib.rs`, `src/lapex.lapex` | all | `InputGenModel`, `InputGenLapex` | |
| `lapex/src/lib.rs` | all | `PipelineModel` | |
| `lapex/src/errors.rs` | all | `PipelineModel`, `PositionModel`, `ReportModel` | |
| `lapex-cli/src/main.rs` | `generate`, what it prints and its exit status, token function of the debug programs | `PipelineModel`, `ReportModel`, `RunModel` | command line, the temporary cargo project of `debug` |

## 4. Findings

Each of these is proved in the model with a computed witness or an exact characterisation (property in
parentheses); those marked (reading) were found while reading and are not part of a theorem.

Lexer
* Maximal munch is not what the generated lexers do: there is no backing up to the last accepting state,
  so `a` and `abc` on `abx` gives an error (C07).
* A NUL character in the input is the end of the input (C09, C41, C43).
* A token rule which matches the empty text makes the lexer return it for ever (C10, C43).
* `{n,m}` with `m <= n` panics, also the legal `{3}` and `{3,3}` (C03).
* The empty literal matches nothing (C02); a range with its ends swapped matches nothing.
* C++ lexer: the token directly in front of malformed bytes is lost, and every later call returns `TK_ERR`, so that a valid source followed by a stray byte is rejected (C39, C49);
  tokens named `ERR` or `EOF` give duplicate enumerators (C39, C53).
* C++ lexer: ranges are written as `case a ... b:`, which is an extension of GNU C++ and not standard C++ (C53).

Grammar and names
* More than 65536 tokens wrap around; `TooManyRules` is never produced; an empty rule set panics (C12, C13).
* `A_1` and `A1` give the same variant; `a__b` and `a_` panic; a production named `anon2` collides with a
  generated one; tagged alternatives share a method; C++ ignores tags and upper-cases names (C30, C34).

LL
* FIRST of an empty right-hand side lacks epsilon; FOLLOW takes unreachable rules into account (C14, C15).
* C++ LL(1) parsers: the placeholder for the entry symbol is never filled in, symbols are looked up by position
  instead of index, and the column for the end of the input is missing (C18, C31).

LR and GLR
* The parsers accept on the entry rule without checking that the input is at its end, unless the lookahead does
  (C21); with a lexer behind, a text with an unlexable tail is accepted (C43).
* Epsilon in the middle of a right-hand side makes generation or parsing fail (C20); a right-hand side of 256 or
  more symbols, and the LR(0) parser for `prod s = !;`, panic the generator (C24).
* `a = a | A` has a conflict-free table although it is ambiguous (C23).
* Expected tokens of LALR parsers are neither sound nor complete (C25, C37).
* GLR parsers panic on ambiguous sentences, do not stop on cyclic or hidden left recursive grammars, and forget the
  expected tokens of stacks which got stuck earlier (C27, C38).
* C++ LR parsers: an entry state without a shift terminates the program; names that differ only in case, and rule
  numbers from 65536, do not compile (C35).

Grammar files
* The bootstrap parser accepts an unclosed `(` or `[`, panics on `/(a|(b)/` and on an unreadable beginning, wants
  exactly one space around `|`, and knows no digits in names (C32). It is exponential in nesting (reading).
* The generated parser gives the rules and the alternatives in reverse order, does not unescape literals, flattens a
  parenthesised last part, and panics on every error: precedence above 65535, bad regular expression, no or two entry
  rules, lexical and syntax errors, more than 65535 lines (C33, C41).
* The generated parser does not read what the bootstrap parser reads if there is a carriage return, a name with an
  underscore in front or equal to a keyword, or a literal with a newline or a final backslash. A dot means any character to
  the one and any character but newline to the other (regex-syntax), so that a generated parser made with the
  generated instead of the bootstrap parser would read strings with escaped newlines no more (C52).
* Spans behind an escaped newline or a non-ASCII character are wrong, and may panic when reported (C28, C41).

Whole runs
* The exit status is 0 also when errors are reported; token (and lexer) files are overwritten before the errors are
  found, parser files of an earlier run remain (C42).
* With the bootstrap parser every report panics, because its rules carry no positions (C42).
* The underline of a report has as many tildes as the text has bytes: it is too long for non-ASCII texts, and a rule on several lines gets one underline for all of them (C61).
* `lapex debug` with LR(0), LR(1) or LALR writes a program that does not compile (no `DebugVisitor`, token function
  of the wrong type), and LL(1) ends in `todo!()` (reading).

## 5. Assumptions per theorem

Output of `Print Assumptions` (written by `tools/assumptions.py`).

| Property | File | Theorem | Assumptions |
|---|---|---|---|
| C01 | `LexerProperties.v` | `alphabet_partition` | Closed under the global context |
| C01 | `LexerProperties.v` | `alphabet_classes` | Closed under the global context |
| C02 | `LexerProperties.v` | `nfa_language` | Closed under the global context |
| C02 | `LexerProperties.v` | `norm_identity` | Closed under the global context |
| C02 | `LexerProperties.v` | `empty_literal_refuted` | Closed under the global context |
| C03 | `LexerProperties.v` | `nfa_panics_iff` | Closed under the global context |
| C04 | `LexerProperties.v` | `powerset_exact` | Closed under the global context |
| C05 | `LexerProperties.v` | `precedence_relabels` | Closed under the global context |
| C05 | `LexerProperties.v` | `generation_exact` | Closed under the global context |
| C06 | `LexerProperties.v` | `next_exact` | Closed under the global context |
| C07 | `LexerProperties.v` | `next_longest` | Closed under the global context |
| C07 | `LexerProperties.v` | `maximal_munch_refuted` | Closed under the global context |
| C08 | `LexerProperties.v` | `spans_tile` | Closed under the global context |
| C09 | `LexerProperties.v` | `eof_iff` | Closed under the global context |
| C09 | `LexerProperties.v` | `eof_forever` | Closed under the global context |
| C10 | `LexerProperties.v` | `progress` | Closed under the global context |
| C10 | `LexerProperties.v` | `empty_token_refuted` | Closed under the global context |
| C11 | `GrammarProperties.v` | `grammar_language` | Closed under the global context |
| C11 | `GrammarProperties.v` | `rule_provenance` | Closed under the global context |
| C11 | `GrammarProperties.v` | `rule_names` | Closed under the global context |
| C12 | `GrammarProperties.v` | `clash_reported` | Closed under the global context |
| C12 | `GrammarProperties.v` | `construction_succeeds` | Closed under the global context |
| C12 | `GrammarProperties.v` | `missing_reported` | Closed under the global context |
| C12 | `GrammarProperties.v` | `exhaustion_panics` | Closed under the global context |
| C12 | `GrammarProperties.v` | `construction_outcomes` | Closed under the global context |
| C12 | `GrammarProperties.v` | `empty_rule_set_panics` | Closed under the global context |
| C13 | `GrammarProperties.v` | `tokens_numbered` | Closed under the global context |
| C13 | `GrammarProperties.v` | `productions_numbered` | Closed under the global context |
| C13 | `GrammarProperties.v` | `anonymous_fresh` | Closed under the global context |
| C13 | `GrammarProperties.v` | `grammar_well_formed` | Closed under the global context |
| C13 | `GrammarProperties.v` | `shared_terminal_refuted` | Closed under the global context |
| C14 | `LLProperties.v` | `first_sets_terminate` | Closed under the global context |
| C14 | `LLProperties.v` | `first_sets_exact` | Closed under the global context |
| C14 | `LLProperties.v` | `first_of_sequence_exact` | Closed under the global context |
| C14 | `LLProperties.v` | `rule_sets_have_no_empty_rhs` | Closed under the global context |
| C14 | `LLProperties.v` | `first_sets_refuted` | Closed under the global context |
| C15 | `LLProperties.v` | `follow_sets_terminate` | Closed under the global context |
| C15 | `LLProperties.v` | `follow_sets_exact` | Closed under the global context |
| C15 | `LLProperties.v` | `follow_sets_exact_reachable` | Closed under the global context |
| C15 | `LLProperties.v` | `follow_entry_refuted` | Closed under the global context |
| C16 | `LLProperties.v` | `ll_table_exact` | Closed under the global context |
| C16 | `LLProperties.v` | `ll_table_unique` | Closed under the global context |
| C16 | `LLProperties.v` | `ll_generation_outcome` | Closed under the global context |
| C16 | `LLProperties.v` | `ll_conflict_reported` | Closed under the global context |
| C16 | `LLProperties.v` | `rule_sets_terminals_fit` | Closed under the global context |
| C16 | `LLProperties.v` | `ll_generation_panic_refuted` | Closed under the global context |
| C17 | `LLProperties.v` | `ll_parser_halts` | Closed under the global context |
| C17 | `LLProperties.v` | `ll_parser_correct` | Closed under the global context |
| C17 | `LLProperties.v` | `ll_parser_language` | Closed under the global context |
| C17 | `LLProperties.v` | `ll_tables_unambiguous` | Closed under the global context |
| C18 | `LLProperties.v` | `cpp_ll_sound` | Closed under the global context |
| C18 | `LLProperties.v` | `cpp_ll_exact` | Closed under the global context |
| C18 | `LLProperties.v` | `cpp_ll_end_refuted` | Closed under the global context |
| C18 | `LLProperties.v` | `cpp_ll_gap_refuted` | Closed under the global context |
| C19 | `LRProperties.v` | `lr_accepts_derivations` | Closed under the global context |
| C20 | `LRProperties.v` | `lr_accepts_sentences` | Closed under the global context |
| C20 | `LRProperties.v` | `lr_parses_trees` | Closed under the global context |
| C20 | `LRProperties.v` | `rule_sets_epsilon_in_front` | Closed under the global context |
| C20 | `LRProperties.v` | `lr_accepts_sentences_refuted` | Closed under the global context |
| C20 | `LRProperties.v` | `lr_parses_trees_refuted` | Closed under the global context |
| C21 | `LRProperties.v` | `lr1_consumes_input` | Closed under the global context |
| C21 | `LRProperties.v` | `fresh_entry_consumes_input` | Closed under the global context |
| C21 | `LRProperties.v` | `lr_accepted_language` | Closed under the global context |
| C21 | `LRProperties.v` | `lalr_accepted_language_refuted` | Closed under the global context |
| C21 | `LRProperties.v` | `lr0_accepted_language_refuted` | Closed under the global context |
| C21 | `LRProperties.v` | `lr1_consumes_input_refuted` | Closed under the global context |
| C22 | `LRProperties.v` | `conflict_free_single_entries` | Closed under the global context |
| C22 | `LRProperties.v` | `conflict_free_lr0_entry_cell` | Closed under the global context |
| C22 | `LRProperties.v` | `conflict_free_code_generation` | Closed under the global context |
| C22 | `LRProperties.v` | `conflicts_exact` | Closed under the global context |
| C22 | `LRProperties.v` | `conflicts_allowed_or_not` | Closed under the global context |
| C22 | `LRProperties.v` | `conflict_free_code_generation_refuted` | Closed under the global context |
| C23 | `LRProperties.v` | `conflict_free_is_unambiguous` | Closed under the global context |
| C23 | `LRProperties.v` | `conflict_free_is_unambiguous_refuted` | Closed under the global context |
| C24 | `LRProperties.v` | `lr_parser_never_panics` | Closed under the global context |
| C25 | `LRProperties.v` | `lr_error_reports` | Closed under the global context |
| C26 | `LRProperties.v` | `lr_generation_terminates` | Closed under the global context |
| C26 | `LRProperties.v` | `lr_generation_succeeds` | Closed under the global context |
| C26 | `LRProperties.v` | `rule_sets_rhs_fit` | Closed under the global context |
| C26 | `LRProperties.v` | `lr_generation_succeeds_refuted` | Closed under the global context |
| C36 | `LRProperties.v` | `bidi_map_histories` | Closed under the global context |
| C36 | `LRProperties.v` | `bidi_map_histories_refuted` | Closed under the global context |
| C27 | `GLRProperties.v` | `glr_parser_written` | Closed under the global context |
| C27 | `GLRProperties.v` | `glr_accepts_derivations` | Closed under the global context |
| C27 | `GLRProperties.v` | `glr_parses_exactly` | Closed under the global context |
| C27 | `GLRProperties.v` | `glr_errors_are_errors` | Closed under the global context |
| C27 | `GLRProperties.v` | `glr_comes_to_an_end` | Closed under the global context |
| C27 | `GLRProperties.v` | `glr_agrees_with_lr` | Closed under the global context |
| C27 | `GLRProperties.v` | `glr_agrees_with_lr_on_errors` | Closed under the global context |
| C27 | `GLRProperties.v` | `glr_conflict_free_no_panic` | Closed under the global context |
| C27 | `GLRProperties.v` | `glr_conflict_free_ends` | Closed under the global context |
| C27 | `GLRProperties.v` | `glr_accepts_sentences_only_refuted` | Closed under the global context |
| C27 | `GLRProperties.v` | `glr_panics_if_ambiguous_only_refuted` | Closed under the global context |
| C27 | `GLRProperties.v` | `glr_parses_ambiguous_refuted` | Closed under the global context |
| C27 | `GLRProperties.v` | `glr_errors_name_continuations_refuted` | Closed under the global context |
| C27 | `GLRProperties.v` | `glr_cyclic_ends_refuted` | Closed under the global context |
| C27 | `GLRProperties.v` | `glr_empty_rule_ends_refuted` | Closed under the global context |
| C28 | `PositionProperties.v` | `position_offset_exact` | Closed under the global context |
| C28 | `PositionProperties.v` | `position_offset_none` | Closed under the global context |
| C28 | `PositionProperties.v` | `positions_exist` | Closed under the global context |
| C28 | `PositionProperties.v` | `positions_distinct` | Closed under the global context |
| C28 | `PositionProperties.v` | `span_substring_exact` | Closed under the global context |
| C28 | `PositionProperties.v` | `span_substring_outcomes` | Closed under the global context |
| C28 | `PositionProperties.v` | `token_spans_correct` | Closed under the global context |
| C28 | `PositionProperties.v` | `rule_spans_correct` | Closed under the global context |
| C28 | `PositionProperties.v` | `position_offset_total_refuted` | Closed under the global context |
| C28 | `PositionProperties.v` | `token_spans_non_ascii_refuted` | Closed under the global context |
| C28 | `PositionProperties.v` | `token_spans_newline_refuted` | Closed under the global context |
| C29 | `CppLexerProperties.v` | `utf8_encodings` | Closed under the global context |
| C29 | `CppLexerProperties.v` | `utf8_decoder_complete` | Closed under the global context |
| C29 | `CppLexerProperties.v` | `utf8_decoder_sound` | Closed under the global context |
| C29 | `CppLexerProperties.v` | `utf8_decoder_errors` | Closed under the global context |
| C39 | `CppLexerProperties.v` | `cpp_lexer_agrees` | Closed under the global context |
| C39 | `CppLexerProperties.v` | `cpp_token_enumerators` | Closed under the global context |
| C39 | `CppLexerProperties.v` | `cpp_token_names` | Closed under the global context |
| C39 | `CppLexerProperties.v` | `cpp_token_before_malformed_refuted` | Closed under the global context |
| C39 | `CppLexerProperties.v` | `cpp_end_in_order_refuted` | Closed under the global context |
| C39 | `CppLexerProperties.v` | `cpp_token_enumerators_refuted` | Closed under the global context |
| C30 | `NamesProperties.v` | `camel_case_panics` | Closed under the global context |
| C30 | `NamesProperties.v` | `camel_case_collides` | Closed under the global context |
| C30 | `NamesProperties.v` | `rust_token_variants_distinct` | Closed under the global context |
| C30 | `NamesProperties.v` | `rust_non_terminal_variants_distinct` | Closed under the global context |
| C30 | `NamesProperties.v` | `cpp_non_terminal_variants_distinct` | Closed under the global context |
| C30 | `NamesProperties.v` | `rust_token_variants_distinct_refuted` | Closed under the global context |
| C30 | `NamesProperties.v` | `rust_non_terminal_variants_distinct_refuted` | Closed under the global context |
| C34 | `NamesProperties.v` | `rust_visits_match_methods` | Closed under the global context |
| C34 | `NamesProperties.v` | `cpp_visits_match_methods` | Closed under the global context |
| C34 | `NamesProperties.v` | `rust_methods_distinct_iff` | Closed under the global context |
| C34 | `NamesProperties.v` | `cpp_methods_distinct_iff` | Closed under the global context |
| C34 | `NamesProperties.v` | `plain_names_distinct` | Closed under the global context |
| C34 | `NamesProperties.v` | `tagged_methods_refuted` | Closed under the global context |
| C34 | `NamesProperties.v` | `numbered_methods_refuted` | Closed under the global context |
| C34 | `NamesProperties.v` | `anon_methods_refuted` | Closed under the global context |
| C31 | `TemplateProperties.v` | `template_written` | Closed under the global context |
| C31 | `TemplateProperties.v` | `substitution_last` | Closed under the global context |
| C31 | `TemplateProperties.v` | `keys_trimmed` | Closed under the global context |
| C31 | `TemplateProperties.v` | `template_panics` | Closed under the global context |
| C31 | `TemplateProperties.v` | `template_round_trip` | Closed under the global context |
| C31 | `TemplateProperties.v` | `cpp_templates_filled` | Closed under the global context |
| C31 | `TemplateProperties.v` | `cpp_templates_used` | Closed under the global context |
| C31 | `TemplateProperties.v` | `generated_code_targets` | Closed under the global context |
| C31 | `TemplateProperties.v` | `cpp_ll_entry_filled_refuted` | Closed under the global context |
| C35 | `CppLRProperties.v` | `cpp_lr_written` | Closed under the global context |
| C35 | `CppLRProperties.v` | `cpp_lr_compiles_iff` | Closed under the global context |
| C35 | `CppLRProperties.v` | `cpp_lr_rules_fit` | Closed under the global context |
| C35 | `CppLRProperties.v` | `cpp_lr_agrees` | Closed under the global context |
| C35 | `CppLRProperties.v` | `cpp_lr_terminates` | Closed under the global context |
| C35 | `CppLRProperties.v` | `cpp_lr_compiles_refuted` | Closed under the global context |
| C35 | `CppLRProperties.v` | `cpp_lr_agrees_refuted` | Closed under the global context |
| C32 | `BootProperties.v` | `bootstrap_reads` | Closed under the global context |
| C32 | `BootProperties.v` | `bootstrap_sound` | Closed under the global context |
| C32 | `BootProperties.v` | `bootstrap_panics` | Closed under the global context |
| C32 | `BootProperties.v` | `bootstrap_image` | Closed under the global context |
| C32 | `BootProperties.v` | `bootstrap_round_trip` | Closed under the global context |
| C32 | `BootProperties.v` | `bootstrap_strict_refuted` | Closed under the global context |
| C32 | `BootProperties.v` | `bootstrap_loose_refuted` | Closed under the global context |
| C33 | `InputGenProperties.v` | `input_visitor_complete` | Closed under the global context |
| C33 | `InputGenProperties.v` | `input_reads` | Closed under the global context |
| C33 | `InputGenProperties.v` | `input_sound` | Closed under the global context |
| C33 | `InputGenProperties.v` | `input_decides` | Closed under the global context |
| C33 | `InputGenProperties.v` | `input_unambiguous` | Closed under the global context |
| C33 | `InputGenProperties.v` | `input_meaning` | Closed under the global context |
| C33 | `InputGenProperties.v` | `input_readings` | Closed under the global context |
| C33 | `InputGenProperties.v` | `input_image` | Closed under the global context |
| C33 | `InputGenProperties.v` | `input_round_trip` | Closed under the global context |
| C33 | `InputGenProperties.v` | `input_reads_itself` | Closed under the global context |
| C33 | `InputGenProperties.v` | `input_order_refuted` | Closed under the global context |
| C33 | `InputGenProperties.v` | `input_escapes_refuted` | Closed under the global context |
| C40 | `InputGenProperties.v` | `hir_conversion_language` | Closed under the global context |
| C40 | `InputGenProperties.v` | `hir_conversion_succeeds` | Closed under the global context |
| C40 | `InputGenProperties.v` | `hir_conversion_reports` | Closed under the global context |
| C40 | `InputGenProperties.v` | `from_utf8_decodes` | Closed under the global context |
| C38 | `LRTermProperties.v` | `lr_comes_to_an_end` | Closed under the global context |
| C38 | `LRTermProperties.v` | `conflict_free_no_hidden_recursion` | Closed under the global context |
| C38 | `LRTermProperties.v` | `conflict_free_left_recursive_refuted` | Closed under the global context |
| C38 | `LRTermProperties.v` | `conflict_free_unproductive_refuted` | Closed under the global context |
| C38 | `LRTermProperties.v` | `lr_productive_comes_to_an_end` | Closed under the global context |
| C38 | `LRTermProperties.v` | `lr_decides` | Closed under the global context |
| C38 | `LRTermProperties.v` | `glr_settles_without_loops` | Closed under the global context |
| C38 | `LRTermProperties.v` | `glr_cycle_ends_refuted` | Closed under the global context |
| C38 | `LRTermProperties.v` | `glr_hidden_recursion_ends_refuted` | Closed under the global context |
| C37 | `LRErrorProperties.v` | `lr_errors_are_errors` | Closed under the global context |
| C37 | `LRErrorProperties.v` | `lr_error_prefix_viable` | Closed under the global context |
| C37 | `LRErrorProperties.v` | `lr_error_prefix_viable_refuted` | Closed under the global context |
| C37 | `LRErrorProperties.v` | `lr1_expected_tokens_exact` | Closed under the global context |
| C37 | `LRErrorProperties.v` | `lalr_expected_tokens_sound_refuted` | Closed under the global context |
| C37 | `LRErrorProperties.v` | `lalr_expected_tokens_complete_refuted` | Closed under the global context |
| C37 | `LRErrorProperties.v` | `glr_error_at_first_wrong_token` | Closed under the global context |
| C41 | `InputTextProperties.v` | `text_decides` | Closed under the global context |
| C41 | `InputTextProperties.v` | `text_unambiguous` | Closed under the global context |
| C41 | `InputTextProperties.v` | `text_spans` | Closed under the global context |
| C41 | `InputTextProperties.v` | `text_spans_newline_refuted` | Closed under the global context |
| C41 | `InputTextProperties.v` | `text_spans_unicode_refuted` | Closed under the global context |
| C41 | `InputTextProperties.v` | `text_layout_irrelevant` | Closed under the global context |
| C41 | `InputTextProperties.v` | `text_round_trip` | Closed under the global context |
| C41 | `InputTextProperties.v` | `text_after_nul_ignored` | Closed under the global context |
| C41 | `InputTextProperties.v` | `text_lines_limit` | Closed under the global context |
| C43 | `RunProperties.v` | `division_unique` | Closed under the global context |
| C43 | `RunProperties.v` | `text_parse_exact` | Closed under the global context |
| C43 | `RunProperties.v` | `text_parse_complete` | Closed under the global context |
| C43 | `RunProperties.v` | `text_parse_ends` | Closed under the global context |
| C43 | `RunProperties.v` | `glr_text_parse_exact` | Closed under the global context |
| C43 | `RunProperties.v` | `glr_text_parse_ends` | Closed under the global context |
| C43 | `RunProperties.v` | `text_parse_exact_refuted` | Closed under the global context |
| C43 | `RunProperties.v` | `text_parse_ends_refuted` | Closed under the global context |
| C42 | `PipelineProperties.v` | `run_files` | Closed under the global context |
| C42 | `PipelineProperties.v` | `run_succeeds` | Closed under the global context |
| C42 | `PipelineProperties.v` | `run_settles` | Closed under the global context |
| C42 | `PipelineProperties.v` | `run_reports_right` | Closed under the global context |
| C42 | `PipelineProperties.v` | `run_reports_ties` | Closed under the global context |
| C42 | `PipelineProperties.v` | `run_reports_conflicts` | Closed under the global context |
| C42 | `PipelineProperties.v` | `bootstrap_reports_nothing` | Closed under the global context |
| C42 | `PipelineProperties.v` | `exit_status_tells_refuted` | Closed under the global context |
| C42 | `PipelineProperties.v` | `build_script_runs` | Closed under the global context |
| C42 | `CppRunProperties.v` | `cpp_run_files` | Closed under the global context |
| C42 | `CppRunProperties.v` | `cpp_ll_run_files` | Closed under the global context |
| C45 | `PipelineProperties.v` | `file_to_parser` | Closed under the global context |
| C45 | `PipelineProperties.v` | `file_to_glr_parser` | Closed under the global context |
| C45 | `CppRunProperties.v` | `file_to_cpp_parser` | Closed under the global context |
| C44 | `TableProperties.v` | `symbol_names_tell` | Closed under the global context |
| C44 | `TableProperties.v` | `rule_texts_tell` | Closed under the global context |
| C44 | `TableProperties.v` | `item_texts_tell` | Closed under the global context |
| C44 | `TableProperties.v` | `table_file_tells` | Closed under the global context |
| C44 | `TableProperties.v` | `table_file_tells_parser` | Closed under the global context |
| C44 | `TableProperties.v` | `conflict_mark_refuted` | Closed under the global context |
| C46 | `CanonProperties.v` | `table_canonical` | Closed under the global context |
| C46 | `CanonProperties.v` | `table_canonical_refuted` | Closed under the global context |
| C46 | `CanonProperties.v` | `states_reached` | Closed under the global context |
| C46 | `CanonProperties.v` | `states_reached_left_recursion_refuted` | Closed under the global context |
| C46 | `CanonProperties.v` | `states_reached_epsilon_refuted` | Closed under the global context |
| C46 | `LRProperties.v` | `conflicts_exact` | Closed under the global context |
| C46 | `CanonProperties.v` | `conflicts_exact_refuted` | Closed under the global context |
| C47 | `HierarchyProperties.v` | `lr0_within_lalr` | Closed under the global context |
| C47 | `HierarchyProperties.v` | `lalr_within_lr0_refuted` | Closed under the global context |
| C47 | `HierarchyProperties.v` | `lalr_within_lr1` | Closed under the global context |
| C47 | `HierarchyProperties.v` | `lr1_within_lalr_refuted` | Closed under the global context |
| C47 | `HierarchyProperties.v` | `merging_adds_no_shift_reduce` | Closed under the global context |
| C47 | `HierarchyProperties.v` | `lalr_no_more_states` | Closed under the global context |
| C47 | `HierarchyProperties.v` | `lalr_states_of_lr0` | Closed under the global context |
| C47 | `HierarchyProperties.v` | `lalr_states_of_lr0_refuted` | Closed under the global context |
| C48 | `HierarchyProperties.v` | `ll1_within_lr1` | Closed under the global context |
| C48 | `HierarchyProperties.v` | `ll1_within_lr1_unproductive_refuted` | Closed under the global context |
| C48 | `HierarchyProperties.v` | `lr1_within_ll1_refuted` | Closed under the global context |
| C48 | `HierarchyProperties.v` | `ll1_within_lalr` | Closed under the global context |
| C48 | `HierarchyProperties.v` | `ll1_within_lalr_refuted` | Closed under the global context |
| C48 | `HierarchyProperties.v` | `ll1_within_lr0` | Closed under the global context |
| C48 | `HierarchyProperties.v` | `ll1_within_lr0_refuted` | Closed under the global context |
| C49 | `CppRunProperties.v` | `bytes_read_once` | Closed under the global context |
| C49 | `CppRunProperties.v` | `lexemes_once` | Closed under the global context |
| C49 | `CppRunProperties.v` | `cpp_text_exact` | Closed under the global context |
| C49 | `CppRunProperties.v` | `cpp_text_complete` | Closed under the global context |
| C49 | `CppRunProperties.v` | `cpp_text_ends` | Closed under the global context |
| C49 | `CppRunProperties.v` | `cpp_text_terminates` | Closed under the global context |
| C49 | `CppRunProperties.v` | `cpp_text_stray_refuted` | Closed under the global context |
| C49 | `CppRunProperties.v` | `cpp_text_exact_refuted` | Closed under the global context |
| C49 | `CppRunProperties.v` | `file_to_cpp_parser` | Closed under the global context |
| C50 | `LRHashProperties.v` | `tables_independent` | Closed under the global context |
| C50 | `LRHashProperties.v` | `runs_agree` | Closed under the global context |
| C50 | `LRHashProperties.v` | `tables_independent_refuted` | Closed under the global context |
| C51 | `AgreeProperties.v` | `kinds_accept_alike` | Closed under the global context |
| C51 | `AgreeProperties.v` | `kinds_reject_alike` | Closed under the global context |
| C51 | `AgreeProperties.v` | `kinds_alike_refuted` | Closed under the global context |
| C51 | `AgreeProperties.v` | `glr_accepts_alike` | Closed under the global context |
| C51 | `AgreeProperties.v` | `glr_rejects_alike` | Closed under the global context |
| C51 | `AgreeProperties.v` | `rust_and_cpp_in_step` | Closed under the global context |
| C51 | `AgreeProperties.v` | `rust_and_cpp_accept_alike` | Closed under the global context |
| C51 | `AgreeProperties.v` | `rust_and_cpp_reject_alike` | Closed under the global context |
| C51 | `AgreeProperties.v` | `rust_and_cpp_stray_refuted` | Closed under the global context |
| C51 | `AgreeProperties.v` | `rust_and_cpp_empty_refuted` | Closed under the global context |
| C52 | `BothProperties.v` | `reads_bootstrap_files` | Closed under the global context |
| C52 | `BothProperties.v` | `reads_alike` | Closed under the global context |
| C52 | `BothProperties.v` | `reads_itself_refuted` | Closed under the global context |
| C52 | `BothProperties.v` | `reads_names_refuted` | Closed under the global context |
| C52 | `BothProperties.v` | `reads_return_refuted` | Closed under the global context |
| C52 | `BothProperties.v` | `reads_nul_refuted` | Closed under the global context |
| C52 | `BothProperties.v` | `reads_literals_refuted` | Closed under the global context |
| C53 | `CppLexTextProperties.v` | `lexer_text_runs` | Closed under the global context |
| C53 | `CppLexTextProperties.v` | `generated_lexer_text` | Closed under the global context |
| C53 | `CppLexTextProperties.v` | `comment_text_refuted` | Closed under the global context |
| C53 | `CppLexTextProperties.v` | `overlap_text_refuted` | Closed under the global context |
| C53 | `CppLexTextProperties.v` | `token_enum_text` | Closed under the global context |
| C53 | `CppLexTextProperties.v` | `token_name_text` | Closed under the global context |
| C54 | `CppLRTextProperties.v` | `lr_text_checks` | Closed under the global context |
| C54 | `CppLRTextProperties.v` | `lr_text_once` | Closed under the global context |
| C54 | `CppLRTextProperties.v` | `lr_text_case_refuted` | Closed under the global context |
| C54 | `CppLRTextProperties.v` | `lr_text_tables` | Closed under the global context |
| C55 | `CppLRTextProperties.v` | `parse_text_runs` | Closed under the global context |
| C55 | `CppLRTextProperties.v` | `parser_text_exact` | Closed under the global context |
| C55 | `CppLRTextProperties.v` | `parser_text_once` | Closed under the global context |
| C55 | `CppLRTextProperties.v` | `parser_text_terminate_refuted` | Closed under the global context |
| C56 | `CppDecodeProperties.v` | `decoder_text_exact` | Closed under the global context |
| C56 | `CppDecodeProperties.v` | `decoder_text_once` | Closed under the global context |
| C56 | `CppDecodeProperties.v` | `constructor_text_new` | Closed under the global context |
| C57 | `CppVisitorProperties.v` | `visitor_text_exact` | Closed under the global context |
| C57 | `CppVisitorProperties.v` | `visitor_text_distinct` | Closed under the global context |
| C57 | `CppVisitorProperties.v` | `visitor_text_twice_refuted` | Closed under the global context |
| C57 | `CppVisitorProperties.v` | `error_text_exact` | Closed under the global context |
| C58 | `RustLexTextProperties.v` | `rust_lexer_text_exact` | Closed under the global context |
| C58 | `RustLexTextProperties.v` | `rust_tokens_text_exact` | Closed under the global context |
| C58 | `RustLexTextProperties.v` | `rust_lexer_text_panics` | Closed under the global context |
| C58 | `RustLexTextProperties.v` | `generated_rust_lexer_text` | Closed under the global context |
| C59 | `RustLRTextProperties.v` | `rust_lr_text_exact` | Closed under the global context |
| C59 | `RustLRTextProperties.v` | `rust_lr_tables_fit` | Closed under the global context |
| C59 | `RustLRTextProperties.v` | `rust_code_exact` | Closed under the global context |
| C59 | `RustLRTextProperties.v` | `rust_token_function` | Closed under the global context |
| C59 | `RustLRTextProperties.v` | `rust_code_complete` | Closed under the global context |
| C59 | `RustLRTextProperties.v` | `rust_lr_text_case_refuted` | Closed under the global context |
| C60 | `RustMessageProperties.v` | `rust_parser_message` | Closed under the global context |
| C60 | `RustMessageProperties.v` | `rust_lexer_message` | Closed under the global context |
| C60 | `RustMessageProperties.v` | `rust_tokens_derive` | Closed under the global context |
| C60 | `RustMessageProperties.v` | `rust_code_message` | Closed under the global context |
| C60 | `RustMessageProperties.v` | `rust_code_message_lalr_refuted` | Closed under the global context |
| C61 | `ReportProperties.v` | `reports_layout` | Closed under the global context |
| C61 | `ReportProperties.v` | `lines_of_text` | Closed under the global context |
| C61 | `ReportProperties.v` | `reports_told` | Closed under the global context |
| C61 | `ReportProperties.v` | `reports_told_refuted` | Closed under the global context |
| C61 | `ReportProperties.v` | `underline_width` | Closed under the global context |
| C61 | `ReportProperties.v` | `reports_readable` | Closed under the global context |
| C62 | `GrammarTextProperties.v` | `grammar_displayed` | Closed under the global context |
| C62 | `GrammarTextProperties.v` | `grammar_layout` | Closed under the global context |
| C62 | `GrammarTextProperties.v` | `grammar_display_tells` | Closed under the global context |
| C62 | `GrammarTextProperties.v` | `grammar_display_tells_refuted` | Closed under the global context |
| C62 | `GrammarTextProperties.v` | `file_names_plain` | Closed under the global context |
| C62 | `GrammarTextProperties.v` | `files_displayed_alike` | Closed under the global context |

322 theorems, 322 closed under the global context.
