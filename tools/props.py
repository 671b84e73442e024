# generates /verif/properties.jsonl  (kept so that the list stays one well-formed object per line)
import json
P=[]
def p(id,title,statement,quantifier,why,anchors):
    P.append(dict(id=id,title=title,statement=statement,quantifier=quantifier,why_tests_cant=why,anchors=anchors))
L='lapex-lexer/src/'
p('C01','Alphabet partitions the code points',
 'For any list of token rules, generate_alphabet returns ranges that start at 0, end at 0x10FFFF, are non-empty, adjacent and increasing, so every code point lies in exactly one range; every character mentioned in a rule is a one-element range; find_range(c) returns the index of the range containing c and never panics for c <= 0x10FFFF.',
 'every list of token rules (any patterns, any number of characters) and every code point',
 'the number of rule sets is unbounded and boundary errors show up only for particular adjacent characters',
 [L+'alphabet.rs: generate_alphabet, get_chars_from_pattern, Alphabet::find_range'])
p('C02','The NFA recognises exactly the regex',
 'Whenever generate_nfa returns, a text w drives the automaton from its entry to the accepting state of a token rule iff w matches the pattern of that rule in the usual regular-expression sense (sequence, alternative, bounded/unbounded repetition, ranges, negated sets), for patterns without an empty sequence; a rule whose literal is empty matches nothing at all.',
 'every token rule list, every rule in it and every text of any length',
 'regular languages are infinite; nesting of repetitions is unbounded',
 [L+'nfa/mod.rs: build_nfa_from_pattern, chain_pattern_iterator, chain_pattern_times, generate_nfa','lapex-input/src/lib.rs: Pattern::from_chars'])
p('C03','NFA generation panics exactly on repetitions with max <= min',
 'generate_nfa (with the alphabet of the same rules) panics iff some token pattern contains a bounded repetition whose upper bound is not strictly larger than its lower bound; so a valid regex such as /a{3}/ crashes the generator, and every other rule set is processed.',
 'every list of token rules', 'panic freedom is a claim about all rule sets',
 [L+'nfa/mod.rs: chain_pattern_iterator, build_nfa_from_pattern'])
p('C04','Powerset construction preserves the rule matches',
 'Powerset construction terminates for every NFA; the resulting DFA has at most one transition per state and symbol, and after reading any word from state 0 it is in a state whose accept list is exactly the list of accepting labels of the NFA states reachable by that word (in state order), and it is stuck iff no NFA state is reachable.',
 'every NFA (any graph, including epsilon cycles), every entry state and every word',
 'the subset space is exponential and the recursion is over partially built graphs',
 ['lapex-automaton/src/lib.rs: epsilon_closure, add_powerset_to_dfa, convert_powerset_to_dfa, powerset_construction'])
p('C05','Precedence resolution',
 'apply_precedence_to_dfa returns an error iff for some text the highest precedence among the rules matching it is shared by two or more of them; otherwise every accepting DFA state is labelled with the unique rule of highest precedence among the rules matching the texts leading there, and states and transitions are otherwise unchanged. Explicit precedence overrides the computed one; a literal of n characters has precedence 2n.',
 'every rule list and every text', 'quantifies over all texts reaching a state',
 [L+'lib.rs: resolve_precedence, apply_precedence_to_dfa','lapex-input/src/lib.rs: TokenRule::precedence, Pattern::precedence'])
p('C06','Exact behaviour of the generated lexer',
 'For the generated Rust lexer: let w be the longest NUL-free prefix of the remaining input that can still be extended to a match of some rule. next() returns EndOfFile if w is empty and the input is exhausted or continues with NUL; otherwise it returns the highest-precedence rule matching w, having consumed exactly w, if some rule matches w; otherwise it returns UnexpectedAlphabet with the alphabet range of the next character (NUL range at end of input). InvalidChar never occurs and no unwrap panics.',
 'every conflict-free rule list and every input string and lexer position',
 'all inputs and all rule sets', ['lapex-rust-codegen/src/lexer/mod.rs: LexerCodeWriter::write_lexer'])
p('C07','Longest match',
 'A token returned by next() is the longest prefix of the remaining (NUL-free) input matched by any rule, and the rule of strictly highest precedence for it. The converse (if some prefix matches then a token is returned, i.e. maximal munch with backtracking) does not hold: with tokens "a", "b" and "abc", the input "ab" is an error.',
 'every rule list and input','quantifies over all longer prefixes',['lapex-rust-codegen/src/lexer/mod.rs: Lexer::next'])
p('C08','Token spans tile the input',
 'After any number of successful next() calls the spans are consecutive (each starts where the previous one ended, the first at 0), lie on character boundaries within the source, slice() never panics and returns exactly the characters consumed, so the concatenation of all slices is a prefix of the source, and it is the entire source when EndOfFile is reached on NUL-free input.',
 'every source string and every number of calls','unbounded histories of calls and multi-byte characters',['lapex-rust-codegen/src/lexer/mod.rs: Lexer::next, span, slice'])
p('C09','End of file reporting',
 'next() returns EndOfFile only when the remaining input is empty or begins with NUL, consumes nothing then, and every later call returns EndOfFile again. At the end of the input it always returns EndOfFile, even if a rule matches the empty text. A NUL character inside the input is reported as end of file, and a rule matching NUL can never consume it.',
 'every rule list and input','requires all histories after EOF',['lapex-rust-codegen/src/lexer/mod.rs: Lexer::next'])
p('C10','Lexer progress',
 'If no rule matches the empty text, every successful non-EOF next() consumes at least one character, so the token stream of any input is finite. If some rule matches the empty text, next() can return the same empty token forever.',
 'every rule list and input','liveness over unbounded runs',['lapex-rust-codegen/src/lexer/mod.rs: Lexer::next'])
p('C11','The grammar derives exactly the language of the productions',
 'If Grammar::from_rule_set succeeds (fewer than 65536 rules), a sequence of tokens is derivable from the entry symbol of the resulting context-free grammar iff it matches the entry production under the EBNF reading of the productions (sequence, alternative, +, *, ?, epsilon, recursion, several productions of the same name as alternatives).',
 'every rule set and every token sequence','both languages are infinite and recursion is unbounded',
 ['lapex-parser/src/grammar_builder.rs: from_rule_set, build, transform_pattern, get_temp_symbol','lapex-parser/src/grammar.rs: Grammar, Rule'])
p('C12','Grammar construction errors',
 'from_rule_set reports ConflictingRules iff two token rules share a name or a production has the name of a token; MissingSymbol iff there is no such conflict and a production refers to an undefined name or the entry name is not a production; it panics iff there are no rules at all or symbol indices are exhausted; otherwise it succeeds.',
 'every rule set','claims about every rule set, with an iff',['lapex-parser/src/grammar_builder.rs'])
p('C13','Symbol numbering is injective',
 'Different token names get different terminals, different production names different non-terminals, and anonymous non-terminals are fresh, provided there are at most 65536 token rules and 65536 production rules; with more token rules two different tokens silently share a terminal and no TooManyRules error is reported.',
 'every rule set of any size','needs more than 65536 rules to show',['lapex-parser/src/grammar_builder.rs: from_rule_set, get_temp_symbol'])
p('C14','FIRST sets are exact',
 'compute_first_sets terminates on every grammar; if no rule has an empty right-hand side (an explicit Epsilon is allowed), a terminal t is in the set of non-terminal A iff A derives some sentential form beginning with t, and Epsilon is in the set iff A derives the empty sequence; the same holds for get_first_terminals_of_sequence on non-empty sequences. With an empty right-hand side (an empty sequence pattern) the sets are wrong.',
 'every grammar, non-terminal and symbol sequence','derivations are unbounded',['lapex-parser/src/util.rs'])
p('C15','FOLLOW sets are exact',
 'The FOLLOW sets used for LL(1) tables: computation terminates, and a terminal (or End) is in the set of A iff it can appear immediately after A in a sentential form derived from the entry symbol followed by End or from any non-terminal, reachable or not; if all non-terminals are reachable this is the usual FOLLOW set, otherwise it can be larger.',
 'every grammar and non-terminal','derivations are unbounded',['lapex-parser/src/ll_parser/mod.rs: compute_follow_sets, get_follow_symbols_of_remainder'])
p('C16','LL(1) table generation is exact',
 'For grammars with fewer than 65536 terminals, ll_parser::generate_table terminates, never panics and never returns InvalidParserTableEntry; it returns ParserTableConflict iff two rules of one non-terminal share a predict symbol, and otherwise get_production(A,t) is the right-hand side of the unique rule of A whose predict set contains t, or None. Terminal number 65535 makes it panic.',
 'every grammar','all grammars',['lapex-parser/src/ll_parser/mod.rs: generate_table, LLParserTable'])
p('C17','LL(1) tables drive a correct predictive parser',
 'If LL(1) table generation succeeds, the predictive parser that expands non-terminals with get_production terminates on every token sequence and accepts exactly the sentences of the grammar; its visitor calls are the traversal of the unique parse tree.',
 'every grammar with a table and every token sequence','infinite language',['lapex-parser/src/ll_parser/mod.rs','lapex-cpp-codegen/src/ll_parser/parser_impl.h.tpl: Parser::parse'])
p('C18','The generated C++ LL(1) parser',
 'The parser emitted by the C++ LL backend accepts exactly the sentences. This fails: table cells for end of input are never emitted, switch cases are labelled with symbol indices while the stack holds enum positions, and the entry placeholder is not a placeholder. Where indices and positions agree, whatever it accepts is a sentence; if moreover no rule is erasable it accepts exactly the sentences.',
 'every grammar with an LL(1) table and every token sequence','infinite language',['lapex-cpp-codegen/src/ll_parser/mod.rs: write_table_switch','lapex-cpp-codegen/src/ll_parser/parser_impl.h.tpl'])
p('C19','LR parser: accepted runs are derivations',
 'For LR(0), LR(1) and LALR tables: if the generated parser returns Ok, the sequence of visitor calls (shift, reduce) is the post-order traversal of a parse tree of the grammar rooted at the entry symbol whose leaves are exactly the shifted tokens, in order, which form a prefix of the token stream.',
 'every grammar, table kind and token stream','all runs',['lapex-rust-codegen/src/lr_parser/mod.rs: Parser::parse','lapex-parser/src/lr_parser/mod.rs: generate_table'])
p('C20','LR parser: every sentence is accepted',
 'If LR(0), LR(1) or LALR generation reports no conflict (and Epsilon appears only at the front of right-hand sides), the generated parser returns Ok on every sentence of the grammar; if moreover the entry symbol is not left-recursive it consumes the entire sentence and its visitor calls are the post-order of its parse tree. A right-hand side with Epsilon after another symbol makes the parser reject sentences.',
 'every conflict-free grammar and every sentence','infinite language',['lapex-parser/src/lr_parser/mod.rs','lapex-rust-codegen/src/lr_parser/mod.rs'])
p('C21','LR parser: only sentences are accepted',
 'For canonical LR(1) with a non-left-recursive entry symbol, Ok implies that the whole token stream up to end of file was consumed and is a sentence; the same holds for LALR if the entry symbol occurs in no right-hand side. Because acceptance never checks for end of input this is false for LALR in general, for LR(0) and for left-recursive entry symbols: the parser returns Ok with tokens left over.',
 'every grammar and token stream','infinite language',['lapex-parser/src/lr_parser/mod.rs: build_table','lapex-rust-codegen/src/lr_parser/mod.rs: Parser::parse'])
p('C22','Conflict reporting is exact',
 'If generation reports no conflicts, every cell of the action/goto table holds exactly one entry, so code generation for a deterministic parser cannot panic with "Multiple transitions"; the one exception is the goto cell of the entry symbol in the start state of an LR(0) table, which holds reduce and accept exactly if the entry symbol has only an empty rule. Otherwise the cells holding several entries are exactly those concerned by a reported conflict. Allowing conflicts changes the verdict only.',
 'every grammar','all grammars',['lapex-parser/src/lr_parser/mod.rs: find_conflicts, build_table, generate_table'])
p('C23','No conflicts implies unambiguous',
 'If LR(0), LR(1) or LALR table generation reports no conflicts (Epsilon only at the front of right-hand sides, entry not left-recursive), the grammar is unambiguous: every token sequence has at most one parse tree.',
 'every grammar and token sequence','ambiguity is undecidable in general; all trees',['lapex-parser/src/lr_parser/mod.rs: generate_table'])
p('C24','The generated LR parser never panics',
 'With a table of single-entry cells, the generated LR parser never reaches unreachable!(), never pops an empty stack and never indexes outside the stack, whatever the token stream.',
 'every grammar and token stream','all reachable parser configurations',['lapex-rust-codegen/src/lr_parser/mod.rs: next_action, next_goto, reduce_stack_and_visit, parse'])
p('C25','Expected-token lists',
 'When the LR parser returns UnexpectedToken{got, expected}, got is the token that has no shift/reduce entry in the current state and expected lists exactly the tokens (and EndOfFile) which do, each once.',
 'every table, state and token','all states of all tables',['lapex-rust-codegen/src/lr_parser/mod.rs: make_actions, extract_expected_symbols'])
p('C26','LR table generation terminates',
 'LR(0), LR(1) and LALR table generation terminates on every grammar; it does not panic if no Epsilon occurs after another symbol in a right-hand side and right-hand sides have at most 255 symbols, and it does panic (unreachable, u8 overflow) for some grammars where either condition fails.',
 'every grammar','termination',['lapex-parser/src/lr_parser/mod.rs: expand_item, generate_parser_graph, determine_lookaheads_to_expand','lapex-parser/src/lr_parser/item.rs'])
p('C27','GLR parser',
 'If the generated GLR parser returns Ok, its visitor calls are the post-order of a parse tree whose leaves are a prefix of the tokens. If the entry symbol occurs in no right-hand side (or the table is LR(1) and the entry symbol is not left-recursive), Ok means that the whole input has exactly one parse tree, an error that it is no sentence, and a panic that it is an ambiguous sentence. An error names the first token which no sentence can have there, but not necessarily all tokens which could follow. The parser terminates for grammars without empty rules and unit cycles, and diverges for some others. For conflict-free tables it agrees with the LR parser.',
 'every grammar and token stream','all runs of a non-deterministic parser',['lapex-rust-codegen/src/glr_parser/mod.rs'])
p('C28','Source positions and spans',
 'For any text whose lines and columns fit 16 bits, offset() maps a position to n exactly if it is the line and column (in characters) of the end of a prefix of n bytes, and to nothing exactly if there is no such prefix; substring() returns exactly the text between two positions, nothing if one is outside the text, and panics exactly if they are in the wrong order. The spans the generated input parser gives to the tokens of a grammar file in ASCII, without newlines inside tokens, denote exactly the text of the token, and the span between two tokens the text from the first to the second; outside of these conditions the error message panics.',
 'every text, position, span and token sequence','all texts, multi-byte characters',['lapex-input/src/lib.rs: SourcePos::offset, SourceSpan::substring','lapex-input-gen/src/lib.rs: next_token'])
p('C29','C++ UTF-8 decoder',
 'The C++ lexer\'s decoder maps the UTF-8 encoding of every Unicode scalar value back to that value with no error flag, consuming exactly its bytes, and when it reports no error on any byte stream the bytes consumed are the unique UTF-8 encoding of the returned scalar value (at the end of the stream it returns 0 without error).',
 'every scalar value and every byte stream','2^32 byte combinations; boundary values',['lapex-cpp-codegen/src/lexer/lexer.cpp.tpl: utf8_decode'])
p('C30','Generated identifier names',
 'For ASCII names the conversion to camel case panics exactly if the name has an empty segment (it starts or ends with an underscore, has two in a row, or is empty), and two names get the same identifier exactly if they agree after lower-casing and dropping every underscore that is not in front of a letter. Hence the variants of the emitted Rust TokenType and NonTerminalType are distinct exactly if no two (token, production or anonymous) names agree in this sense, and those of the C++ NonTerminalType exactly if no two names agree up to case. Distinct names are not enough (A_1 and A1; a production called anon2).',
 'every list of token names and every rule set accepted by the grammar builder','all names and grammars, of any length',['lapex-rust-codegen/src/lib.rs: convert_snake_to_upper_camel, get_token_enum_name, get_non_terminal_enum_name','lapex-rust-codegen/src/lr_parser/mod.rs: write_non_terminal_enum','lapex-cpp-codegen/src/lr_parser/mod.rs: write_non_terminal_enum_name'])
p('C31','Template expansion and output targets',
 'Every template has exactly one division into text and placeholders (leftmost, shortest key, no newline in a key), and TemplateWriter::write outputs the text unchanged and in order with every placeholder replaced by the last substitution supplied for its trimmed key, up to the first substitution which fails; it panics exactly if a placeholder has no substitution. Every C++ template has all substitutions whatever the generators write, and every supplied substitution is used except grammar_entry_non_terminal of the LL parser, whose placeholder is left in the output. generate_code appends to the target of its name or makes a file of that name.',
 'every template, every sequence of substitutions, every sequence of generate_code calls','all templates',['lapex-codegen/src/templating.rs: replace_all_streaming, insert_substitution, write','lapex-codegen/src/lib.rs: GeneratedCodeWriter','lapex-cpp-codegen/src: *.tpl and the substitute calls'])
p('C32','Bootstrap grammar parser',
 'For every text, the bootstrap parser terminates. A text which spells a list of rules strictly (every special character of regular expressions used as itself is escaped) is read as exactly these rules, and the entry-rule errors are reported exactly when there is no or more than one entry rule; whatever is read is spelled by the text when special characters may stand for themselves; a panic happens only if the text does not begin with a rule, and always if it cannot be read as beginning with one. The rule sets that can be read are exactly those of an explicit form, each of which has a strict spelling that is read back. False: that only strict spellings are accepted (an unclosed parenthesis becomes a character), that all others are.',
 'every byte sequence; every rule set; unbounded nesting and length','all texts and rule sets, unbounded nesting of groups; backtracking over group/character choices makes untested inputs behave differently',
 ['lapex-input-bootstrap/src/lib.rs: parse_char_unescaped..parse_lapex_file','lapex-input-gen/src/lapex.lapex'])
p('C33','Grammar files read by the generated parser',
 'The generated parser of grammar files stops on every token sequence. The build script makes an LR(1) parser of lapex.lapex whose rules call exactly the methods of the visitor. For every sequence of tokens (with texts of their kind) the parser and the visitor return a rule set exactly if the tokens spell a list of rules with exactly one entry rule, and panic otherwise; the reading is unique. The rule set has every rule of the file once, with its name, tag or precedence, and extent, in reverse order, and the same sentences for every pattern as the naive reading (alternatives reversed, sequences and choices in parentheses at the end dissolved). The rule sets that can be read are exactly those of an explicit form. False: that rules keep their order, and that escapes in strings are resolved.',
 'every sequence of tokens and spans; every rule set; every function in the place of regex_syntax::parse','all grammar files, unbounded nesting; the reading of a file is spread over 31 visitor methods and a generated LR(1) table',
 ['lapex-input-gen/src/lib.rs: LapexAstVisitor, parse_lapex','lapex-input-gen/src/lapex.lapex','lapex-input-gen/build.rs'])
p('C34','Visitor method names',
 'The emitted Rust and C++ LR parsers have exactly one visitor call for each rule of the grammar, and these calls use exactly the declared visitor methods; the method of a rule is named after its non-terminal and, if that has several rules, its tag or position. The methods are distinct exactly if the labels of the rules of each non-terminal are distinct and no non-terminal with a single rule is called like another one followed by an underscore and one of its labels. Without tags, names ending in an underscore and a number, and names of the form anon and a number they are distinct; each of these conditions is needed.',
 'every rule set accepted by the grammar builder','all grammars',['lapex-rust-codegen/src/lr_parser/mod.rs: write_visitor, make_rule_visits, get_rules_by_non_terminal','lapex-cpp-codegen/src/lr_parser/mod.rs: write_visitor_methods, write_visitor_reduce_switch'])
p('C35','C++ and Rust LR parsers agree',
 'For every conflict-free table the C++ code generator writes a parser. It is well-formed C++ exactly if the names of tokens and non-terminals give distinct enumerators and no reduction is by a rule whose index needs more than 16 bits. If some rule of the entry symbol begins with another symbol (leading empty symbols aside), the C++ parser does on every token stream what the Rust parser does: the same visitor calls, the same remaining tokens, and an exception whose message names the same unexpected and expected tokens. Otherwise it ends in std::terminate whenever the Rust parser accepts, and does the same in all other cases.',
 'every rule set, conflict-free table (LR(0), LR(1), LALR(1)), token stream and number of steps','all grammars and all runs',['lapex-cpp-codegen/src/lr_parser/mod.rs','lapex-cpp-codegen/src/lr_parser/action_goto.rs','lapex-cpp-codegen/src/lr_parser/parser_impl.h.tpl','lapex-cpp-codegen/src/lr_parser/parser.cpp.tpl'])
p('C36','Bidirectional map',
 'In any history of inserts and removals that never inserts an already present key on either side, the two directions of the map stay inverse to each other, lookups return the latest association, and remove_by_b removes it in both directions.',
 'every operation history','histories',['lapex-parser/src/lr_parser/bidimap.rs'])
p('C39','C++ and Rust lexers agree',
 'On the UTF-8 encoding of any text, followed by nothing or by malformed bytes, the emitted C++ lexer returns call by call the token that the emitted Rust lexer returns on the text, with start and end counted in characters instead of bytes, as long as the Rust lexer has not reached the end of the text; from there on it reports end of file, or errors for ever if malformed bytes follow (a token directly in front of malformed bytes is lost). The enumerators of TokenType are distinct exactly if the token names are distinct and none is ERR or EOF, and get_token_name is then their inverse.',
 'every rule set accepted by the generator, every text and every number of calls','all texts and byte streams',['lapex-cpp-codegen/src/lexer/mod.rs','lapex-cpp-codegen/src/lexer/lexer.cpp.tpl: Lexer::next','lapex-cpp-codegen/src/lexer/tokens.h.tpl'])
p('C40','Conversion of regular expressions',
 'Of a regular expression (Hir of regex-syntax) a pattern is made exactly if no part of it is empty, a look-around, a byte class, a lazy repetition or a literal that is not UTF-8, and otherwise the error names the kind of some such part. The pattern has the language of the expression, with literals decoded as UTF-8.',
 'every expression, unbounded nesting; every byte sequence','all expressions, all byte sequences and the languages of both sides',['lapex-input-gen/src/lib.rs: make_pattern_from_hir'])
p('C38','LR and GLR parsers stop',
 'If the grammar has neither hidden left recursion (a reachable A = alpha B beta with alpha nullable but not empty, where B can lead back to A at the front) nor cycles (A deriving itself), every LR parser written for a conflict-free table and every GLR parser, with or without conflicts, stops on every token sequence. Conflict-free LR(0), LR(1) and LALR tables exist only for such grammars if all reachable non-terminals derive something, no Epsilon stands behind another symbol and the entry symbol is not left-recursive. So canonical LR(1) parsers of these grammars, and LALR parsers if in addition the entry symbol occurs in no rule, decide the language: they stop with the visitor calls of the parse tree on sentences and with an error on everything else. The GLR parser runs for ever on some grammars with a cycle and on some with hidden left recursion.',
 'every grammar, every token sequence','non-termination: a test can only observe that a run has not ended yet, and only on the inputs tried',['lapex-rust-codegen/src/lr_parser/mod.rs','lapex-rust-codegen/src/glr_parser/mod.rs','lapex-parser/src/lr_parser/mod.rs'])
p('C37','LR and GLR parsers report the first wrong token, and LR(1) parsers exactly the tokens that could follow',
 'If a parser of a conflict-free LR(0), LR(1) or LALR table stops with an error, the error names the token behind the tokens read (or the end of the input); no sentence starts with the tokens read followed by that token. If all non-terminals of the grammar derive something, the tokens read start a sentence, so the token named is the first wrong one; the same holds for GLR parsers, with or without conflicts. The tokens a canonical LR(1) parser says it expected are then exactly those which can follow the tokens read in a sentence, each named once. LALR parsers may name tokens which cannot follow and leave out tokens which can; without productivity the tokens read need not start a sentence.',
 'every grammar, every token sequence','that no continuation at all is a sentence, and that each expected token does have one, quantify over infinitely many sentences per error',['lapex-rust-codegen/src/lr_parser/mod.rs','lapex-rust-codegen/src/glr_parser/mod.rs','lapex-parser/src/lr_parser/mod.rs'])
p('C41','The grammar-file parser on the text of a file',
 'The parser generated from lapex.lapex stops on every file. It reads a file exactly if the text up to the first NUL can be divided into lexemes of the grammar language, each as long as possible, lines and columns stay below 65536, and the remaining tokens spell rules of which one is an entry rule; in all other cases it panics, in particular on more than 65535 lines. The division and the rules read are unique. Blanks and newlines do not change the rules. Every rule set of moderate size, with identifiers as names and delimitable literals and expressions, is read from some file. In an ASCII file without escaped newlines whose positions fit, the span of every rule denotes a part of the file which spells exactly this rule; behind an escaped newline or a non-ASCII character spans denote nothing or something else.',
 'every file (sequence of characters), unbounded length','all files: lexer, parser, visitor and positions together on unbounded input',['lapex-input-gen/src/lib.rs','lapex-input-gen/src/lapex.lapex','lapex-input-gen/build.rs','lapex-input/src/lib.rs'])
p('C43','Generated lexer and generated parser together on a text',
 'Let the token rules be usable (code points, every part matches something, no rule matches the empty text) and let the grammar be conflict-free with an entry symbol that seals the input (canonical LR(1) without left recursion of the entry symbol, or LR(1)/LALR(1) with an entry symbol occurring in no right-hand side). Then the generated Rust lexer feeding the generated Rust LR parser, one token at a time, accepts a text exactly if the text up to the first NUL can be divided into longest lexemes whose names are a sentence of the entry symbol; the division is unique, the visitor calls are the post-order of the parse tree and the text is read to its end. A parser error means that the text is not in the language, a panic that the text cannot be divided into lexemes. If all non-terminals are productive the run ends on every text. The same holds for GLR parsers of conflicting grammars, with a panic on ambiguous sentences as the only further outcome. Without a sealed entry a text is accepted which cannot be divided into lexemes; with a token matching the empty text the run may go on for ever.',
 'every rule set, every generated lexer and parser, every text of any length','all texts and all grammars; the composition of lexer and parser is not covered by the tests of either part',['lapex-rust-codegen/src/lexer/mod.rs','lapex-rust-codegen/src/lr_parser/mod.rs','lapex-rust-codegen/src/glr_parser/mod.rs','lapex-cli/src/main.rs'])
p('C42','Whole runs of the generator: files, reports and exit status',
 'A run of the generator that succeeds has written exactly the files of the language, lexer, table and algorithm asked for, in order and completely; a run that reports errors has written nothing (file not readable), the token files (tie between token rules) or these and the lexer files (conflicts), never a parser or table file, so those of an earlier run stay. A run succeeds exactly if all its files can be created, the names give identifiers, there is no tie, the grammar can be built and there is a conflict-free table (GLR: a table). Every run ends. For an ASCII grammar file every report is right (it names a tie, or all conflicts, with the item texts, the places and the source text of the rules), every tie and every conflict is reported. With the bootstrap parser nothing is ever reported: the run panics instead. The exit status is 0 also with reports (refuted expectation). What lapex-input-gen/build.rs writes is what such a run gives.',
 'every grammar file, algorithm, language, flag combination and set of creatable files','all grammar files and all faults of the file system; the order of writing and checking matters only in failing runs',['lapex/src/lib.rs','lapex/src/errors.rs','lapex-cli/src/main.rs','lapex-input-gen/build.rs','lapex-codegen/src/lib.rs','lapex-parser/src/lr_parser/mod.rs'])
p('C45','From the text of a grammar file to the language of the generated parser',
 'If a run with the generated grammar-file parser on a file succeeds with LR(0), LR(1) or LALR, then the lexer and the parser it has written accept exactly the texts of the language described by the file (text up to the first NUL divided into longest lexemes whose names form a sentence), and the visitor calls are those of a parse tree of that sentence; with GLR the same holds except that ambiguous sentences panic. (Usable tokens, small rule set, epsilon only in front, sealed entry symbol.)',
 'every grammar file, every text given to the generated parser','composition of all stages of the program on unbounded input: reading, building, table generation, lexing and parsing',['lapex/src/lib.rs','lapex-input-gen/src/lib.rs','lapex-rust-codegen/src/lib.rs','lapex-rust-codegen/src/lexer/mod.rs','lapex-rust-codegen/src/lr_parser/mod.rs','lapex-rust-codegen/src/glr_parser/mod.rs'])
p('C44','Texts of symbols, rules, items and tables tell what they show',
 'In a grammar built from a rule set whose names consist of letters, digits and underscores, different symbols are written differently; the line of a rule tells its two sides, and the text of an item in a conflict report tells left-hand side, right-hand side and position of the dot. For every generated table the table file can be written (no panic), and its text tells the number of states and every cell that does not hold several entries; so two tables of a grammar with the same table file give the same Rust parser. (Refuted: the mark c means a reported conflict; the LR(0) table of an empty entry symbol has it without one.)',
 'every rule set, item, rule and generated table','injectivity over all names, numbers and tables',['lapex-parser/src/grammar.rs','lapex-parser/src/lr_parser/item.rs','lapex-parser/src/lr_parser/mod.rs'])
LRA=['lapex-parser/src/lr_parser/mod.rs','lapex-parser/src/lr_parser/item.rs']
p('C46','LR tables are the textbook tables',
 'In every table that is generated, the state reached on a sequence of symbols contains exactly what the textbook item sets of this sequence say (closure and goto, defined without states, graphs and merging): a reduction in front of the lookaheads of each complete item (LR(0): everywhere; LALR(1): united over all sequences whose item sets have the same core), a shift for each symbol behind a dot, acceptance for the entry symbol at the beginning, an error elsewhere; and two sequences reach the same state iff their item sets (LALR(1): their cores) agree. Every state is reached by some sequence. A table without conflicts is generated iff the grammar is LR(0), LALR(1) or LR(1) in the textbook sense. (Refuted without the hypotheses: empty right-hand sides make items and conflicts disappear; left recursion of the entry rule and an epsilon within a right-hand side leave states unreachable.)',
 'every well-formed grammar, kind of table and sequence of symbols','the item sets of all sequences of symbols, for all grammars',LRA)
p('C47','LR(0), LALR(1) and LR(1) tables of one grammar',
 'A grammar with a conflict-free LR(0) table has a conflict-free LALR(1) table, and one with a conflict-free LALR(1) table has a conflict-free LR(1) table; neither holds the other way round. If the LR(1) table has no conflicts, the LALR(1) table has no shift-reduce conflicts. An LALR(1) table has at most as many states as the LR(1) table, and as many as the LR(0) table if every non-terminal derives a word (fewer are possible if not).',
 'every well-formed grammar','comparison of tables over all grammars',LRA)
p('C48','LL(1) and LR tables of one grammar',
 'If an LL(1) table can be generated and every non-terminal derives a word, the LR(1) table has no conflicts; if every non-terminal derives a word which is not empty, the LALR(1) table has none; if none derives the empty word, not even the LR(0) table has any. Each hypothesis is needed, and there are LR(1) grammars without an LL(1) table.',
 'every well-formed grammar','comparison of tables over all grammars',LRA+['lapex-parser/src/ll_parser/mod.rs'])
p('C49','Generated C++ lexer and generated C++ parser together on the bytes of a source',
 'The bytes of a source can be read in exactly one way as the UTF-8 encoding of a text followed by a malformed rest. Under the conditions of C43, and if the C++ code compiles and some rule of the entry symbol begins with another symbol, the generated C++ lexer feeding the generated C++ LR parser accepts the bytes exactly if the text is a text of the language and nothing malformed follows (or only behind a NUL); the visitor is told of the shifts and reductions of the parse tree in order, each token with its number and its first and last position in characters. Otherwise an exception is thrown; undefined behaviour and std::terminate do not occur. If all rules of the entry symbol are empty or begin with it, the program ends in std::terminate on every text of the language instead. If every non-terminal is productive, the run ends on all bytes. A successful run of the generator on a grammar file writes such a lexer and parser. (Refuted: a stray byte behind a text of the language does not matter, its last token is lost; without a sealed entry symbol, a source may be accepted which cannot be divided into lexemes.)',
 'every rule set, every generated C++ lexer and parser, every sequence of bytes','all byte sequences, malformed ones included, and all grammars; the two languages never meet in a test',['main.cpp','lapex-cpp-codegen/src/lr_parser/parser_impl.h.tpl','lapex-cpp-codegen/src/lr_parser/parser.h.tpl','lapex-cpp-codegen/src/lr_parser/mod.rs','lapex-cpp-codegen/src/lexer/lexer.cpp.tpl','lapex-cpp-codegen/src/lexer/mod.rs','lapex-cpp-codegen/src/lexer/tokens.h.tpl'])
p('C50','LR tables do not depend on hash seeds, addresses or the cache of item sets',
 'Generation of LR(0), LR(1) and LALR(1) tables with hash sets of items iterated in any order (another one every time), rules ordered by address with the entry rule anywhere outside the vector of rules, and item sets taken from a cache ends in the very same way as generation with sets ordered by position and without a cache: same numbers of states, same entries in the same order in every cell, same conflicts in the same order, or the same panic. Hence two runs on one grammar give the same output. That the other rules lie in one vector is needed.',
 'every well-formed grammar, every table kind, every family of iteration orders, every placement of the entry rule','seeds of hash sets and addresses change from run to run and are not under the control of a test',['lapex-parser/src/lr_parser/mod.rs','lapex-parser/src/lr_parser/item.rs','lapex-parser/src/lr_parser/bidimap.rs'])
p('C51','Parsers generated from one rule set agree',
 'Two Rust LR parsers made from one rule set with different algorithms, both without a conflict, accept the same texts with the same calls of the visitor and fail on the same texts. A GLR parser made from a table with or without conflicts accepts the same texts with the same calls as an LR parser whose table has no conflict, and fails on the same texts. The Rust and the C++ parser made from one table run in step: at every step both run, both have succeeded or both have failed, the C++ one with the message for the token at which the Rust one failed, and the visitors have been told the same. Reading to the end of the text, absence of malformed bytes and a first token of every text are needed.',
 'every rule set, every pair of algorithms, every text and every source of bytes, runs of every length','tests compare the parsers on a few texts of a few grammars; the Rust and C++ parsers have no common test',['lapex-parser/src/lr_parser/mod.rs','lapex-rust-codegen/src/lr_parser/mod.rs','lapex-rust-codegen/src/glr_parser/mod.rs','lapex-cpp-codegen/src/lr_parser/mod.rs','lapex-cpp-codegen/src/lr_parser/parser_impl.h.tpl'])

p('C52','The two parsers of grammar files agree',
 'A file which the bootstrap parser reads is read by the parser generated from lapex.lapex as the same rules, each kind in reverse: same entry, names, tags and literals, productions of the same meaning, regular expressions with the meaning regex-syntax gives them; if that is the meaning the bootstrap parser gives them, all rules mean the same. Needed: fewer than 65535 bytes, no NUL, no carriage return, names which begin with a letter and are not keywords, literals without a newline or a final backslash. Each of the last conditions is necessary, and with the dot of regex-syntax the generated parser reads lapex.lapex, its own grammar, differently.',
 'every file the bootstrap parser reads, every function from regular expressions to their descriptions','the two parsers are never run on the same file by the tests',['lapex-input-bootstrap/src/lib.rs','lapex-input-gen/src/lib.rs','lapex-input-gen/src/lapex.lapex','lapex-input-gen/build.rs'])

p('C53','The text of emitted C++ lexers',
 'The file lexer.cpp, made of the template and the two switches the generator writes, is a sequence of C++ tokens in which Lexer::next() has a body whose switches have no two labels for one value and whose enumerators exist; executing that body, statement by statement with the integer conversions of C++, and with it the text of utf8_decode where it is called, does to the members of the object what the model of the C++ lexer does, so that on the UTF-8 encoding of any text its calls return what the Rust lexer returns. tokens.h defines the enumeration TokenType exactly if the token names are distinct and none is ERR or EOF, numbered from zero; the function of tokens.cpp returns for each enumerator its name and a null pointer otherwise. Needed: names of letters, digits and underscores; the Debug text of a rule stays in its comment (no newline, no final backslash), which is necessary; ranges that do not overlap, which is necessary and holds for generated tables.',
 'every rule list, every table, every stream of bytes below 2^64','the repository has no test that compiles or runs the C++ text; a wrong label or a missing break would show only for particular characters',['lapex-cpp-codegen/src/lexer/mod.rs','lapex-cpp-codegen/src/lexer/lexer.cpp.tpl','lapex-cpp-codegen/src/lexer/tokens.h.tpl','lapex-cpp-codegen/src/lexer/tokens.cpp.tpl'])

p('C54','The text of emitted C++ LR tables',
 'The files parser.cpp and parser_impl.h, made of the templates and the switches the generator writes, are sequences of C++ tokens in which determine_action, reduce_stack, retrieve_next_state, reduce_visitor and parse each have exactly one body. These bodies, and the enumerations they use, pass the checks of a compiler for duplicate labels, unknown enumerators, undeclared names and narrowing literals exactly if the emitted tables are those C35 calls compiling and no rule number has two visitor methods; a grammar with productions NUM and Num is written without complaint and does not pass. Executing the first four bodies, statement by statement with the integer conversions of C++, gives for every state, symbol, stack and rule what the model of the emitted tables gives, including which exception is thrown with which message, and reduce_visitor calls the one method of the rule. Needed: names of letters, digits and underscores, numbers below 2^32.',
 'every table, every list of visitor methods, every state, token, symbol, rule and stack','the repository has no test that compiles or runs the C++ text; a label or brace missing in a template would show only when a particular table is compiled',['lapex-cpp-codegen/src/lr_parser/mod.rs','lapex-cpp-codegen/src/lr_parser/action_goto.rs','lapex-cpp-codegen/src/lr_parser/parser.cpp.tpl','lapex-cpp-codegen/src/lr_parser/parser_impl.h.tpl'])
p('C55','What the text of an emitted C++ lexer and parser does on a stream of bytes',
 'For every grammar without LR conflict, the texts of lexer.cpp, parser.cpp and parser_impl.h together, with the token function of main.cpp that runs the texts of next(), start() and end(): they pass the checks of a compiler, and if executing the text of parse() ends, it ends normally only if the bytes are read to the end of a text of the language, and then the calls of the visitor are those of its parse tree, bottom up, with the places of its lexemes; it ends with an exception only if there is no such text; it ends in one way only. For any token function at all, executing parse() is what the model of the loop does. A grammar with an empty entry production ends in std::terminate on a source of the language, which is why the entry must not be empty.',
 'every grammar, every stream of bytes below 2^64, every token function','the composition of four emitted functions, two files and an input stream cannot be covered by examples, and no test compiles them',['lapex-cpp-codegen/src/lr_parser/parser_impl.h.tpl:61','lapex-cpp-codegen/src/lr_parser/parser.cpp.tpl','lapex-cpp-codegen/src/lexer/lexer.cpp.tpl','main.cpp:73'])

p('C56','The text of the UTF-8 decoder and of the constructor of emitted C++ lexers',
 'The text of utf8_decode in lexer.cpp is one list of declarations and assignments; executing it on any stream of bytes, with the arrays, pointers, casts, shifts and integer types of C++, never takes an undefined or implementation-defined step (no index out of bounds, no shift of a negative number or by too much, no signed overflow), whatever the two results held before. It sets error flags exactly if the bytes do not begin with the encoding of a Unicode scalar value; without flags it returns the character whose encoding it has read, leaving the rest of the stream, or zero at the end of the stream. The constructor in lexer.cpp initialises each member of the class of lexer.h once, and the values converted to the types of the class are those of the new lexer of C39.',
 'every table around the function, every stream of bytes, every earlier value of the results','there are more than four thousand million sequences of four bytes, and no test compiles the C++ text; undefined steps do not show in tests at all',['lapex-cpp-codegen/src/lexer/lexer.cpp.tpl:5','lapex-cpp-codegen/src/lexer/lexer.cpp.tpl:8','lapex-cpp-codegen/src/lexer/lexer.h.tpl'])

p('C57','The text of visitor.h and of the error function of emitted C++ LR parsers',
 'For every grammar with plain names the text of visitor.h is read as a class with the method shift(lexer::TokenType tk_type, T data), then one method without parameters for every rule, and nothing else (comments with the rules hide no line); the calls in the text of reduce_visitor are the calls of these methods, each of them once. No method is declared twice exactly if no production with a single rule has the name of one with several, an underscore and the number of one of its rules; there are grammars for which one is. The text of throw_unexpected_token_error in parser.cpp, executed with the text of get_token_name in tokens.cpp, throws the message which C54 and C55 take it to throw, for every token and every list of expected tokens, and has no meaning for values that are no token.',
 'every grammar with plain names, every list of token names, every token and expected text','tests look at single outputs and never compile them; a comment that swallows a line or a method that is missing shows only for certain names',['lapex-cpp-codegen/src/lr_parser/mod.rs:90','lapex-cpp-codegen/src/lr_parser/visitor.h.tpl:1','lapex-cpp-codegen/src/lr_parser/parser.cpp.tpl:7'])

p('C58','The code of emitted Rust lexers',
 'For every alphabet and automaton whose token names are words without empty parts, the token trees that lexer.rs consists of, read with the syntax of Rust, contain exactly one Lexer::new, get_alphabet_index, get_alphabet_range, next, span and slice, and executing them as Rust code (first fitting match arm, usize and u32 literals, shadowing, early return, Option and iterator methods, byte slices) does for every object what the model of the lexer of C01-C10 does: the new object, the next token or error or the panic, the place, the text at it. tokens.rs declares EndOfFile and one variant for every rule. For the tables of any rules, any number of calls of the code on any text return what the model returns, without a panic, and their tokens are declared variants. The files cannot be written exactly if a name has an empty part between underscores.',
 'every alphabet and automaton, every list of names, every lexer object; every rule set, every text, every number of calls','the emitted code is compiled for one grammar of an example; a wrong arm, a wrong order of arms or an arm that shadows another shows only for certain automata and texts',['lapex-rust-codegen/src/lexer/mod.rs:16','lapex-rust-codegen/src/lexer/mod.rs:43','lapex-rust-codegen/src/lexer/mod.rs:96','lapex-rust-codegen/src/lib.rs:59'])

p('C59','The code of emitted Rust LR parsers',
 'For every grammar whose names are words giving distinct enum variants, and any tables that speak of its symbols and rules, the token trees that parser.rs consists of, read with the syntax of Rust, declare one variant of ReducedRule per rule, the variants of NonTerminalType and a Visitor trait with shift and one method per rule, and contain exactly one Parser::new, next_action, next_goto, reduce_stack_and_visit and parse. Executing them as Rust code does, for every state, token, stack symbol, stack, token function, visitor and number of rounds of the loop, what the model of the LR parser of C19-C23 does: the action or the error with its list of expected tokens, the next state, the popped and pushed stack, the calls of the visitor in order. The generated tables satisfy the hypothesis. The code of lexer.rs and the code of parser.rs together, connected by a token function that unwraps what next returns, return Ok only on texts of the language, with the visitor called for the parse tree and the text read to its end, an error only on other texts, and panic only on texts that cannot be divided into lexemes; every text of the language is accepted.',
 'every rule set, every table, every token function, visitor, stack and number of rounds; every text','the emitted code is compiled for one grammar of an example; a wrong arm, a wrong number of pops or a method called for the wrong rule shows only for certain grammars and texts',['lapex-rust-codegen/src/lr_parser/mod.rs:105','lapex-rust-codegen/src/lr_parser/mod.rs:175','lapex-rust-codegen/src/lr_parser/mod.rs:272','lapex-rust-codegen/src/lr_parser/mod.rs:327'])

p('C60','Messages of errors of emitted Rust lexers and parsers',
 'In every emitted lexer.rs and parser.rs the error type implements std::error::Error, derives Debug, and implements Display by a function fmt whose code, read with the syntax of Rust and run with the meaning of write! and of the placeholders {} and {:?}, gives exactly one text for every error: "Unexpected token T, expected one of: [A, B]" with the names of the variants of TokenType in the order of the list, and for a lexer the code point with the character it stands for (None for code points that are no characters) or the two ends of the range. TokenType derives Clone, Copy and Debug. If the code of a generated LR(1) parser for a grammar all of whose symbols are productive ends with an error on a text that can be divided into lexemes, then the message of this error names the first token at which the text stops being the start of a sentence, and exactly the tokens that can follow what is in front of it, each once.',
 'every grammar with usable names and every table; every lexer; every error value; every text and number of rounds','no test of the project reads a message; swapped arguments, a wrong placeholder or a list with a missing token are not found by any parse that succeeds',['lapex-rust-codegen/src/lexer/mod.rs:108','lapex-rust-codegen/src/lexer/mod.rs:28','lapex-rust-codegen/src/lr_parser/mod.rs:389'])

p('C61','Layout of printed reports',
 'What lapex prints about errors consists, line by line, of: a title by the kind of the report; for every place a line with file, line and column, and behind a margin an empty line, the lines of the text there, as many tildes as this text has bytes, an empty line, what is said (the state, the token, the item or the rule), and an empty line; and an empty line between two reports. So what is printed tells the reports: different lists of reports are printed differently, whatever the colours are, if their texts are without carriage returns and their names without line breaks and every report has a place; this is so for all reports of a run on an ASCII file without carriage returns. With carriage returns different reports may be printed alike. The tildes are as many as the characters of the text exactly if the text is ASCII.',
 'every list of reports, every file name without a line break, every way of colouring that puts sequences without line breaks around a text; every ASCII file','no test of the project prints an error; that no text can be mistaken for another part of the report is a statement about all texts, among them those with several lines, with margins or with arrows in them',['lapex/src/errors.rs:219','lapex/src/errors.rs:162','lapex/src/errors.rs:245','lapex-cli/src/main.rs:61'])

p('C62','Displayed grammars',
 'Every grammar that has been built can be displayed without a panic, as a line with its entry, its rules in their order, one in a line behind a tab, and a closing brace. The text tells the grammar: if two grammars are displayed alike, their entries are the same, their rules are the same in the same order, and their rule sets have the same language, if the names consist of letters, digits and underscores; all names in a file that has been read do, so files whose grammars are displayed alike have the same language. For other names, which the types allow, grammars of different languages may be displayed alike.',
 'every two rule sets with at most 65536 tokens and production rules, with patterns of any depth','no test of the project displays a grammar; that no two different grammars have the same text is a statement about all pairs of them',['lapex-parser/src/grammar.rs:240','lapex-parser/src/grammar.rs:248'])

if __name__=='__main__':
    with open('/verif/properties.jsonl','w') as f:
        for x in P: f.write(json.dumps(x)+'\n')
    print(len(P))
