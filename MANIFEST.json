{
 "claims": [
  {
   "property": "C01",
   "status": "proved",
   "theorems": [
    "alphabet_partition",
    "alphabet_classes"
   ],
   "note": "Rules whose characters are code points (always so in Rust). alphabet_classes adds that characters of one range are interchangeable in every rule."
  },
  {
   "property": "C02",
   "status": "proved",
   "theorems": [
    "nfa_language",
    "norm_identity",
    "empty_literal_refuted"
   ],
   "note": "Texts range over all code points. norm replaces empty sequences by the empty alternative; it is the identity on patterns without empty sequences."
  },
  {
   "property": "C03",
   "status": "proved",
   "theorems": [
    "nfa_panics_iff"
   ],
   "note": "Both directions; the example shows /a{3}/."
  },
  {
   "property": "C04",
   "status": "proved",
   "theorems": [
    "powerset_exact"
   ],
   "note": "Any NFA over any label type whose edges join existing states; includes termination."
  },
  {
   "property": "C05",
   "status": "proved",
   "theorems": [
    "precedence_relabels",
    "generation_exact"
   ],
   "note": "generation_exact covers the whole pipeline; hypotheses: no empty sequence, no repetition with max<=min, every rule has a precedence (no empty alternative)."
  },
  {
   "property": "C06",
   "status": "proved",
   "theorems": [
    "next_exact"
   ],
   "note": "Rules in which every part can match something (proper_rules)."
  },
  {
   "property": "C07",
   "status": "proved",
   "theorems": [
    "next_longest",
    "maximal_munch_refuted"
   ],
   "note": "Longest match holds for returned tokens; maximal munch is refuted."
  },
  {
   "property": "C08",
   "status": "proved",
   "theorems": [
    "spans_tile"
   ],
   "note": "Any number of calls, including calls after errors."
  },
  {
   "property": "C09",
   "status": "proved",
   "theorems": [
    "eof_iff",
    "eof_forever"
   ],
   "note": ""
  },
  {
   "property": "C10",
   "status": "proved",
   "theorems": [
    "progress",
    "empty_token_refuted"
   ],
   "note": ""
  },
  {
   "property": "C11",
   "status": "proved",
   "theorems": [
    "grammar_language",
    "rule_provenance",
    "rule_names"
   ],
   "note": "At most 65536 tokens and productions (hypothesis small); shared_terminal_refuted shows the hypothesis is needed."
  },
  {
   "property": "C12",
   "status": "proved",
   "theorems": [
    "clash_reported",
    "construction_succeeds",
    "missing_reported",
    "exhaustion_panics",
    "construction_outcomes",
    "empty_rule_set_panics"
   ],
   "note": "u16 overflow counts as a panic (debug arithmetic). When a name is missing and indices are exhausted as well, the outcome is one of the two, whichever is met first."
  },
  {
   "property": "C13",
   "status": "proved",
   "theorems": [
    "tokens_numbered",
    "productions_numbered",
    "anonymous_fresh",
    "grammar_well_formed",
    "shared_terminal_refuted"
   ],
   "note": ""
  },
  {
   "property": "C14",
   "status": "proved",
   "theorems": [
    "first_sets_terminate",
    "first_sets_exact",
    "first_of_sequence_exact",
    "rule_sets_have_no_empty_rhs",
    "first_sets_refuted"
   ],
   "note": "For grammars without an empty right-hand side (a rule set without empty sequences gives such a grammar); first_sets_refuted shows the hypothesis is needed."
  },
  {
   "property": "C15",
   "status": "proved",
   "theorems": [
    "follow_sets_terminate",
    "follow_sets_exact",
    "follow_sets_exact_reachable",
    "follow_entry_refuted"
   ],
   "note": "Exact with respect to forms derived from any non-terminal; equals the usual FOLLOW when all non-terminals are reachable; follow_entry_refuted shows the difference."
  },
  {
   "property": "C16",
   "status": "proved",
   "theorems": [
    "ll_table_exact",
    "ll_table_unique",
    "ll_generation_outcome",
    "ll_conflict_reported",
    "rule_sets_terminals_fit",
    "ll_generation_panic_refuted"
   ],
   "note": "No empty right-hand side, terminal numbers below 65535; ll_generation_panic_refuted shows the second hypothesis is needed."
  },
  {
   "property": "C17",
   "status": "proved",
   "theorems": [
    "ll_parser_halts",
    "ll_parser_correct",
    "ll_parser_language",
    "ll_tables_unambiguous"
   ],
   "note": "The driver is the loop of parser_impl.h.tpl run on get_production."
  },
  {
   "property": "C18",
   "status": "proved",
   "theorems": [
    "cpp_ll_sound",
    "cpp_ll_exact",
    "cpp_ll_end_refuted",
    "cpp_ll_gap_refuted"
   ],
   "note": "The emitted table and stack identifiers. The uninstantiated entry placeholder is taken as the entry symbol, since otherwise the emitted text does not compile."
  },
  {
   "property": "C19",
   "status": "proved",
   "theorems": [
    "lr_accepts_derivations"
   ],
   "note": "All three table kinds, any amount of fuel."
  },
  {
   "property": "C20",
   "status": "proved",
   "theorems": [
    "lr_accepts_sentences",
    "lr_parses_trees",
    "rule_sets_epsilon_in_front",
    "lr_accepts_sentences_refuted",
    "lr_parses_trees_refuted"
   ],
   "note": "All three table kinds; no empty right-hand side (rule sets without empty sequences), Epsilon only in front (decidable on the rule set by rule_sets_epsilon_in_front). Both hypotheses on Epsilon and left recursion are shown to be needed."
  },
  {
   "property": "C21",
   "status": "proved",
   "theorems": [
    "lr1_consumes_input",
    "fresh_entry_consumes_input",
    "lr_accepted_language",
    "lalr_accepted_language_refuted",
    "lr0_accepted_language_refuted",
    "lr1_consumes_input_refuted"
   ],
   "note": "The property holds in the stated cases and is refuted in the others."
  },
  {
   "property": "C22",
   "status": "proved",
   "theorems": [
    "conflict_free_single_entries",
    "conflict_free_lr0_entry_cell",
    "conflict_free_code_generation",
    "conflicts_exact",
    "conflicts_allowed_or_not",
    "conflict_free_code_generation_refuted"
   ],
   "note": "Exact characterisation, including the LR(0) exception."
  },
  {
   "property": "C23",
   "status": "proved",
   "theorems": [
    "conflict_free_is_unambiguous",
    "conflict_free_is_unambiguous_refuted"
   ],
   "note": "The refutation (a = a | A) shows that the hypothesis on left recursion is needed."
  },
  {
   "property": "C24",
   "status": "proved",
   "theorems": [
    "lr_parser_never_panics"
   ],
   "note": ""
  },
  {
   "property": "C25",
   "status": "proved",
   "theorems": [
    "lr_error_reports"
   ],
   "note": "reaches is the small-step relation of the driver loop in LRSpec.v."
  },
  {
   "property": "C26",
   "status": "proved",
   "theorems": [
    "lr_generation_terminates",
    "lr_generation_succeeds",
    "rule_sets_rhs_fit",
    "lr_generation_succeeds_refuted"
   ],
   "note": ""
  },
  {
   "property": "C36",
   "status": "proved",
   "theorems": [
    "bidi_map_histories",
    "bidi_map_histories_refuted"
   ],
   "note": "Any key types with a total order."
  },
  {
   "property": "C27",
   "status": "proved",
   "theorems": [
    "glr_parser_written",
    "glr_accepts_derivations",
    "glr_parses_exactly",
    "glr_errors_are_errors",
    "glr_comes_to_an_end",
    "glr_agrees_with_lr",
    "glr_agrees_with_lr_on_errors",
    "glr_conflict_free_no_panic",
    "glr_conflict_free_ends",
    "glr_accepts_sentences_only_refuted",
    "glr_panics_if_ambiguous_only_refuted",
    "glr_parses_ambiguous_refuted",
    "glr_errors_name_continuations_refuted",
    "glr_cyclic_ends_refuted",
    "glr_empty_rule_ends_refuted"
   ],
   "note": "All table kinds, with and without conflicts. The graph-structured stack is modelled with a mutable heap. Each hypothesis (fresh entry, no empty rules, no cycles) has a refutation without it."
  },
  {
   "property": "C28",
   "status": "proved",
   "theorems": [
    "position_offset_exact",
    "position_offset_none",
    "positions_exist",
    "positions_distinct",
    "span_substring_exact",
    "span_substring_outcomes",
    "token_spans_correct",
    "rule_spans_correct",
    "position_offset_total_refuted",
    "token_spans_non_ascii_refuted",
    "token_spans_newline_refuted"
   ],
   "note": "Texts whose lines and columns fit 16 bits; ASCII files without newlines in tokens for the token spans. Each condition has a refutation without it."
  },
  {
   "property": "C29",
   "status": "proved",
   "theorems": [
    "utf8_encodings",
    "utf8_decoder_complete",
    "utf8_decoder_sound",
    "utf8_decoder_errors"
   ],
   "note": "For every byte stream. The specification of UTF-8 is the relation utf8 in CppLexerSpec.v."
  },
  {
   "property": "C39",
   "status": "proved",
   "theorems": [
    "cpp_lexer_agrees",
    "cpp_token_enumerators",
    "cpp_token_names",
    "cpp_token_before_malformed_refuted",
    "cpp_end_in_order_refuted",
    "cpp_token_enumerators_refuted"
   ],
   "note": "Rule sets without empty sequences accepted by the generator. The refutations show what goes wrong in front of malformed bytes, with end() after errors, and with a token named EOF."
  },
  {
   "property": "C30",
   "status": "proved",
   "theorems": [
    "camel_case_panics",
    "camel_case_collides",
    "rust_token_variants_distinct",
    "rust_non_terminal_variants_distinct",
    "cpp_non_terminal_variants_distinct",
    "rust_token_variants_distinct_refuted",
    "rust_non_terminal_variants_distinct_refuted"
   ],
   "note": "ASCII names, which is all that grammar files allow."
  },
  {
   "property": "C34",
   "status": "proved",
   "theorems": [
    "rust_visits_match_methods",
    "cpp_visits_match_methods",
    "rust_methods_distinct_iff",
    "cpp_methods_distinct_iff",
    "plain_names_distinct",
    "tagged_methods_refuted",
    "numbered_methods_refuted",
    "anon_methods_refuted"
   ],
   "note": "The exact conditions assume that non-terminals have distinct names and tags have no underscores; plain_names_distinct assumes neither."
  },
  {
   "property": "C31",
   "status": "proved",
   "theorems": [
    "template_written",
    "substitution_last",
    "keys_trimmed",
    "template_panics",
    "template_round_trip",
    "cpp_templates_filled",
    "cpp_templates_used",
    "generated_code_targets",
    "cpp_ll_entry_filled_refuted"
   ],
   "note": "The regular expression is modelled by its leftmost, lazy matching. Writers are buffers in memory."
  },
  {
   "property": "C35",
   "status": "proved",
   "theorems": [
    "cpp_lr_written",
    "cpp_lr_compiles_iff",
    "cpp_lr_rules_fit",
    "cpp_lr_agrees",
    "cpp_lr_terminates",
    "cpp_lr_compiles_refuted",
    "cpp_lr_agrees_refuted"
   ],
   "note": "All table kinds. Of the rules of C++ only those which the emitted tables can violate are modelled (duplicate enumerators and labels, missing labels, narrowing)."
  },
  {
   "property": "C32",
   "status": "proved",
   "theorems": [
    "bootstrap_reads",
    "bootstrap_sound",
    "bootstrap_panics",
    "bootstrap_image",
    "bootstrap_round_trip",
    "bootstrap_strict_refuted",
    "bootstrap_loose_refuted"
   ],
   "note": "The combinators of nom are modelled from their documentation. Texts are byte sequences (a superset of UTF-8). Strict spellings are read completely, accepted texts are spelled loosely; the gap between the two is shown not to be empty on either side. lapex.lapex itself is read in the example."
  },
  {
   "property": "C33",
   "status": "proved",
   "theorems": [
    "input_visitor_complete",
    "input_reads",
    "input_sound",
    "input_decides",
    "input_unambiguous",
    "input_meaning",
    "input_readings",
    "input_image",
    "input_round_trip",
    "input_reads_itself",
    "input_order_refuted",
    "input_escapes_refuted"
   ],
   "note": "On the level of tokens, for the parser which the model of the build script computes from lapex.lapex (LR(1), 3000 steps of fuel suffice). regex_syntax::parse is a parameter of the theorems. The lexer and the positions are modelled and run in the examples; the theorems about tokens assume only that numbers, strings and regular expressions have texts of the right form."
  },
  {
   "property": "C40",
   "status": "proved",
   "theorems": [
    "hir_conversion_language",
    "hir_conversion_succeeds",
    "hir_conversion_reports",
    "from_utf8_decodes"
   ],
   "note": "Hir of regex-syntax as a data type; its parser is not modelled. The language of a look-around or byte class is left empty in the specification, since such expressions are not converted."
  },
  {
   "property": "C38",
   "status": "proved",
   "theorems": [
    "lr_comes_to_an_end",
    "conflict_free_no_hidden_recursion",
    "conflict_free_left_recursive_refuted",
    "conflict_free_unproductive_refuted",
    "lr_productive_comes_to_an_end",
    "lr_decides",
    "glr_settles_without_loops",
    "glr_cycle_ends_refuted",
    "glr_hidden_recursion_ends_refuted"
   ],
   "note": "Needed conditions are refuted separately; the bound on the length of runs is explicit in LRTermProof.run_bound."
  },
  {
   "property": "C37",
   "status": "proved",
   "theorems": [
    "lr_errors_are_errors",
    "lr_error_prefix_viable",
    "lr_error_prefix_viable_refuted",
    "lr1_expected_tokens_exact",
    "lalr_expected_tokens_sound_refuted",
    "lalr_expected_tokens_complete_refuted",
    "glr_error_at_first_wrong_token"
   ],
   "note": "The exactness of the expected tokens is for canonical LR(1); for LALR both directions are refuted."
  },
  {
   "property": "C41",
   "status": "proved",
   "theorems": [
    "text_decides",
    "text_unambiguous",
    "text_spans",
    "text_spans_newline_refuted",
    "text_spans_unicode_refuted",
    "text_layout_irrelevant",
    "text_round_trip",
    "text_after_nul_ignored",
    "text_lines_limit"
   ],
   "note": "From the characters of the file to the rules with their spans. regex_syntax::parse is a parameter. Arithmetic on u16 panics on overflow, as in a debug build."
  },
  {
   "property": "C43",
   "status": "proved",
   "theorems": [
    "division_unique",
    "text_parse_exact",
    "text_parse_complete",
    "text_parse_ends",
    "glr_text_parse_exact",
    "glr_text_parse_ends",
    "text_parse_exact_refuted",
    "text_parse_ends_refuted"
   ],
   "note": "The token function unwraps errors of the lexer (lapex-cli/src/main.rs), so a lexer error is a panic. Token names are assumed to give distinct variants (C30)."
  },
  {
   "property": "C42",
   "status": "proved",
   "theorems": [
    "run_files",
    "run_succeeds",
    "run_settles",
    "run_reports_right",
    "run_reports_ties",
    "run_reports_conflicts",
    "bootstrap_reports_nothing",
    "exit_status_tells_refuted",
    "build_script_runs",
    "cpp_run_files",
    "cpp_ll_run_files"
   ],
   "note": "What is written into a file is its structured contents (tokens, automaton, parser tables, visitor methods), not its characters; the text of the table file is modelled. Colours and layout of the printed errors are not modelled."
  },
  {
   "property": "C45",
   "status": "proved",
   "theorems": [
    "file_to_parser",
    "file_to_glr_parser",
    "file_to_cpp_parser"
   ],
   "note": "C++ code with LR(0), LR(1) and LALR tables only: there is no C++ GLR parser, and C++ LL(1) parsers do not work (C18, C31)."
  },
  {
   "property": "C44",
   "status": "proved",
   "theorems": [
    "symbol_names_tell",
    "rule_texts_tell",
    "item_texts_tell",
    "table_file_tells",
    "table_file_tells_parser",
    "conflict_mark_refuted"
   ],
   "note": "For a fixed grammar: names alone do not tell tokens from productions, but no name is both (C12)."
  },
  {
   "property": "C46",
   "status": "proved",
   "theorems": [
    "table_canonical",
    "table_canonical_refuted",
    "states_reached",
    "states_reached_left_recursion_refuted",
    "states_reached_epsilon_refuted",
    "conflicts_exact",
    "conflicts_exact_refuted"
   ],
   "note": "The textbook construction is taken with the conventions of the code: no augmented entry item is advanced, and new items start behind leading epsilons."
  },
  {
   "property": "C47",
   "status": "proved",
   "theorems": [
    "lr0_within_lalr",
    "lalr_within_lr0_refuted",
    "lalr_within_lr1",
    "lr1_within_lalr_refuted",
    "merging_adds_no_shift_reduce",
    "lalr_no_more_states",
    "lalr_states_of_lr0",
    "lalr_states_of_lr0_refuted"
   ],
   "note": ""
  },
  {
   "property": "C48",
   "status": "proved",
   "theorems": [
    "ll1_within_lr1",
    "ll1_within_lr1_unproductive_refuted",
    "lr1_within_ll1_refuted",
    "ll1_within_lalr",
    "ll1_within_lalr_refuted",
    "ll1_within_lr0",
    "ll1_within_lr0_refuted"
   ],
   "note": ""
  },
  {
   "property": "C49",
   "status": "proved",
   "theorems": [
    "bytes_read_once",
    "lexemes_once",
    "cpp_text_exact",
    "cpp_text_complete",
    "cpp_text_ends",
    "cpp_text_terminates",
    "cpp_text_stray_refuted",
    "cpp_text_exact_refuted",
    "file_to_cpp_parser"
   ],
   "note": "The token function is the one of main.cpp; the reader delivers the bytes of a source. Conditions under which the code compiles are exact (C35)."
  },
  {
   "property": "C50",
   "status": "proved",
   "theorems": [
    "tables_independent",
    "runs_agree",
    "tables_independent_refuted"
   ],
   "note": "Hash sets are iterated in any order, given by a function of the number of the iteration and of the elements. Keys of hash maps are only looked up, never iterated."
  },
  {
   "property": "C51",
   "status": "proved",
   "theorems": [
    "kinds_accept_alike",
    "kinds_reject_alike",
    "kinds_alike_refuted",
    "glr_accepts_alike",
    "glr_rejects_alike",
    "rust_and_cpp_in_step",
    "rust_and_cpp_accept_alike",
    "rust_and_cpp_reject_alike",
    "rust_and_cpp_stray_refuted",
    "rust_and_cpp_empty_refuted"
   ],
   "note": "Generated programs are as in C43 and C49. The refuted theorems show that sealing of the table, absence of malformed bytes and a first token are needed."
  },
  {
   "property": "C52",
   "status": "proved",
   "theorems": [
    "reads_bootstrap_files",
    "reads_alike",
    "reads_itself_refuted",
    "reads_names_refuted",
    "reads_return_refuted",
    "reads_nul_refuted",
    "reads_literals_refuted"
   ],
   "note": "The function from regular expressions to their descriptions (regex-syntax) is a parameter; the condition on lengths is sufficient, not necessary (C41 shows the limit of 65535 lines)."
  },
  {
   "property": "C53",
   "status": "proved",
   "theorems": [
    "lexer_text_runs",
    "generated_lexer_text",
    "comment_text_refuted",
    "overlap_text_refuted",
    "token_enum_text",
    "token_name_text"
   ],
   "note": "The scanner, parser and semantics of the part of C++ that occurs in the text are specified in CppTextSpec.v, for utf8_decode in CppBitsSpec.v."
  },
  {
   "property": "C54",
   "status": "proved",
   "theorems": [
    "lr_text_checks",
    "lr_text_once",
    "lr_text_case_refuted",
    "lr_text_tables"
   ],
   "note": "The scanner, parser, checks and semantics are those of CppTextSpec.v; throw_unexpected_token_error throws the message that its text throws (C57)."
  },
  {
   "property": "C55",
   "status": "proved",
   "theorems": [
    "parse_text_runs",
    "parser_text_exact",
    "parser_text_once",
    "parser_text_terminate_refuted"
   ],
   "note": "Whether the run ends within a number of rounds is the question of C49; the entry production must not be empty, parser_text_terminate_refuted shows why."
  },
  {
   "property": "C56",
   "status": "proved",
   "theorems": [
    "decoder_text_exact",
    "decoder_text_once",
    "constructor_text_new"
   ],
   "note": "Meaning of arrays, pointers, casts and operators: CppBitsSpec.v; istream::read takes as many bytes as there are and leaves the rest of the buffer as it is."
  },
  {
   "property": "C57",
   "status": "proved",
   "theorems": [
    "visitor_text_exact",
    "visitor_text_distinct",
    "visitor_text_twice_refuted",
    "error_text_exact"
   ],
   "note": "The parts of C++ are those of CppVisitorSpec.v: virtual methods of a class, and a stream that a message is written to."
  },
  {
   "property": "C58",
   "status": "proved",
   "theorems": [
    "rust_lexer_text_exact",
    "rust_tokens_text_exact",
    "rust_lexer_text_panics",
    "generated_rust_lexer_text"
   ],
   "note": "The files are taken as token trees; that their printed text is read back as these trees is left to crate proc_macro2. quote! is modelled in RustQuoteModel.v, the part of Rust that occurs in RustSpec.v. Arithmetic on usize is unbounded."
  },
  {
   "property": "C59",
   "status": "proved",
   "theorems": [
    "rust_lr_text_exact",
    "rust_lr_tables_fit",
    "rust_code_exact",
    "rust_token_function",
    "rust_code_complete",
    "rust_lr_text_case_refuted"
   ],
   "note": "The file is taken as token trees, as in C58. The methods of the visitor are any functions of its state that return; the token function is any function of its state. Without names that give distinct variants the file need not compile (rust_lr_text_case_refuted)."
  },
  {
   "property": "C60",
   "status": "proved",
   "theorems": [
    "rust_parser_message",
    "rust_lexer_message",
    "rust_tokens_derive",
    "rust_code_message",
    "rust_code_message_lalr_refuted"
   ],
   "note": "How Debug writes a single character is a parameter of the statements. That the list of expected tokens is exact holds for canonical LR(1) tables only (rust_code_message_lalr_refuted)."
  },
  {
   "property": "C61",
   "status": "proved",
   "theorems": [
    "reports_layout",
    "lines_of_text",
    "reports_told",
    "reports_told_refuted",
    "underline_width",
    "reports_readable"
   ],
   "note": "The crate owo-colors is a parameter: a style is a text in front and a text behind, without line breaks, and the one in front does not begin with a space. That the hypothesis on carriage returns is needed is shown by a witness."
  },
  {
   "property": "C62",
   "status": "proved",
   "theorems": [
    "grammar_displayed",
    "grammar_layout",
    "grammar_display_tells",
    "grammar_display_tells_refuted",
    "file_names_plain",
    "files_displayed_alike"
   ],
   "note": "Necessity of the hypothesis on names is refuted by a witness; names read from a file are identifiers."
  }
 ]
}
