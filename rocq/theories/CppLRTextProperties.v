(** Property theorems about the text of emitted C++ LR parsers (C54, C55). *)
From Coq Require Import String List Arith NArith ZArith Bool Lia.
From Verif Require Import Base InputModel LexerSpec LexerModel GrammarModel GrammarSpec LLModel LLSpec LLExample LRModel LRSpec LRExample LRTermSpec LRTermExample GLRSpec NamesModel RunModel RunSpec RunExample CppLexerModel CppLexerSpec CppLRModel CppLRSpec CppLRProof CppLRExample
  CppRunModel CppRunSpec CppRunProof CppRunExample TemplateModel TemplateFiles CppTextModel CppTextSpec CppTextProof CppLexTextSpec CppLexTextExample CppLRTextModel CppPullModel CppLRTextSpec CppLRGenTextProof CppEndTextProof CppLRTextExample.
Import ListNotations.
Local Open Scope string_scope.
Local Open Scope list_scope.

(** C54.  For any tables that can be written, the texts of parser.cpp and parser_impl.h define the functions of a parser, and they pass the checks of a compiler, together with
    tokens.h, exactly if the tables are those of a program that compiles in the sense of C35 and no rule has two methods. *)
Theorem lr_text_checks : forall c visits, writable_lr c -> writable_visits visits ->
  exists fs parse, parser_functions (parser_cpp_text c) (parser_impl_h_text c visits) fs /\ defines (parser_impl_h_text c visits) parse_head parse /\
  let P := lr_program (enumerators (cx_names c)) (cx_nts c) fs in
  (types_in [tokens_h_text (cx_names c); parser_impl_h_text c visits] P /\ (forall f, In f (functions P) -> checks P (snd (snd f)) = true) /\ checks P parse = true <-> cpp_compiles c /\ NoDup (map fst visits)).
Proof. exact text_checks. Qed.
Example lr_text_checks_case : writable_lr lr1_c /\ writable_visits sum_visits /\ cpp_compiles lr1_c /\ NoDup (map fst sum_visits) /\ writable_lr case_c /\ writable_visits case_visits /\ ~ cpp_compiles case_c.
Proof.
  split; [exact sum_writable|]. split; [exact sum_writable_visits|]. split; [exact lr1_c_compiles|]. split; [repeat constructor; cbn; intuition discriminate|]. split; [exact case_writable|]. split; [exact case_writable_visits|exact case_c_not].
Qed.
Print Assumptions lr_text_checks.

(** C54.  The functions are the only ones, so that what is said of some is said of all. *)
Theorem lr_text_once : forall c visits fs fs' parse parse', writable_lr c -> writable_visits visits -> parser_functions (parser_cpp_text c) (parser_impl_h_text c visits) fs -> parser_functions (parser_cpp_text c) (parser_impl_h_text c visits) fs' ->
  defines (parser_impl_h_text c visits) parse_head parse -> defines (parser_impl_h_text c visits) parse_head parse' -> fs = fs' /\ parse = parse'.
Proof. exact texts_once. Qed.
Example lr_text_once_case : exists fs parse, parser_functions (parser_cpp_text lr1_c) (parser_impl_h_text lr1_c sum_visits) fs /\ defines (parser_impl_h_text lr1_c sum_visits) parse_head parse.
Proof. destruct (lr_text_checks lr1_c sum_visits sum_writable sum_writable_visits) as (fs & parse & A & B & _). exists fs, parse. split; [exact A|exact B]. Qed.
Print Assumptions lr_text_once.

(** C54.  Productions whose names differ by case: the text can be read, but does not pass. *)
Theorem lr_text_case_refuted : exists rs g tb c visits, small rs /\ from_rule_set rs = Ok g /\ generates KindLR1 100 g false = Ok (NoConflicts tb) /\ cpp_write (token_names rs) g tb = Ok c /\ cpp_rule_visits g = Ok visits /\
  exists fs parse, parser_functions (parser_cpp_text c) (parser_impl_h_text c visits) fs /\ defines (parser_impl_h_text c visits) parse_head parse /\
  let P := lr_program (enumerators (cx_names c)) (cx_nts c) fs in
  ~ (types_in [tokens_h_text (cx_names c); parser_impl_h_text c visits] P /\ (forall f, In f (functions P) -> checks P (snd (snd f)) = true) /\ checks P parse = true).
Proof.
  exists case_rules, case_g, case_tb, case_c, case_visits. split; [exact case_small|]. split; [exact case_built|]. split; [exact case_tb_ok|]. split; [exact case_c_ok|]. split; [exact case_visits_ok|].
  destruct (lr_text_checks case_c case_visits case_writable case_writable_visits) as (fs & parse & A & B & I). exists fs, parse. split; [exact A|]. split; [exact B|]. intros P H. apply case_c_not. exact (proj1 (proj1 I H)).
Qed.
Print Assumptions lr_text_case_refuted.

(** C54.  Running the functions of the text is what the functions of CppLRModel.v do, with the exceptions that they throw. *)
Theorem lr_text_tables : forall c visits fs, writable_lr c -> writable_visits visits -> cpp_compiles c -> parser_functions (parser_cpp_text c) (parser_impl_h_text c visits) fs ->
  let P := lr_program (enumerators (cx_names c)) (cx_nts c) fs in
  exists fa fr fg fv, fs = [fa; fr; fg; fv] /\ forall source m, let ext := outside P (cx_names c) source in
  (forall state tk r, ending (fun a => Some (action_value a)) (determine_action c state tk) = Some r ->
     let st := mkStore [("state", VInt U32 (Z.of_N state)); ("lookahead_token", VEnum "TokenType" (Z.of_N tk))] m in does P ext st (snd (snd fa)) st r) /\
  (forall rule stack moved r, ending (fun _ => None) (cpp_reduce_stack c rule stack) = Some r ->
     let st l moved := mkStore [("rule", VInt U32 (Z.of_nat rule)); ("parse_stack", stack_value l); ("rev_reduced_symbols", stack_value moved)] m in
     does P ext (st stack moved) (snd (snd fr)) (match cpp_reduce_stack c rule stack, numbered (cx_reductions c) (N.of_nat rule) with Ok l, Some (n, _) => st l (popped n stack moved) | _, _ => st stack moved end) r) /\
  (forall state sym r, (sy_ident sym < 2 ^ 32)%N -> ending (fun t => Some (transition_value t)) (retrieve_next_state c state sym) = Some r ->
     let st := mkStore [("state", VInt U32 (Z.of_N state)); ("current_symbol", symbol_value sym)] m in does P ext st (snd (snd fg)) st r) /\
  (forall rule method moved log, numbered visits (N.of_nat rule) = Some method ->
     let st log := mkStore [("visitor", visitor_value log); ("rev_reduced_symbols", VVec moved); ("rule", VInt U32 (Z.of_nat rule))] m in
     does P ext (st log) (snd (snd fv)) (st (match method with Some name => reduce_call name :: log | None => log end)) (RReturn None)).
Proof. exact text_tables. Qed.
(** The tables of the grammar of sums: what is done in the entry state with a number and with the end, a reduction of a term, and the state behind it. *)
Example lr_text_tables_case : determine_action lr1_c 0 2 = Ok ActShift /\ determine_action lr1_c 0 1 = Err (Throw "Unexpected token '<EOF>', expected one of: 'NUM', 'LPAR'") /\
  cpp_reduce_stack lr1_c 3 [mkSym KindState 4; mkSym KindTerminal 2; mkSym KindState 0] = Ok [mkSym KindNonTerminal 1; mkSym KindState 0] /\ (exists q, retrieve_next_state lr1_c 0 (mkSym KindNonTerminal 1) = Ok (q, false)) /\ retrieve_next_state lr1_c 1 (mkSym KindTerminal 2) = Err Terminated /\
  numbered sum_visits 3 = Some (Some "reduce_term_1").
Proof. vm_compute. repeat split; try reflexivity. eexists. reflexivity. Qed.
Print Assumptions lr_text_tables.

(** C55.  Running the text of [parse], for any tables that can be written and any token function, is what the model does, with the same calls of the visitor. *)
Theorem parse_text_runs : forall A D c visits (pull : token_source A D) fits state data source fs parse, writable_lr c -> writable_visits visits -> cpp_compiles c -> (forall k, In k (map fst (cx_reductions c)) -> In k (map fst visits)) ->
  pulls pull fits state data source -> parser_functions (parser_cpp_text c) (parser_impl_h_text c visits) fs -> defines (parser_impl_h_text c visits) parse_head parse ->
  let P := lr_program (enumerators (cx_names c)) (cx_nts c) fs in
  forall fuel s log ev x r, fits (S fuel) s -> (Z.of_nat fuel < 9223372036854775807)%Z -> pull_parse pull fuel c s = (ev, x) -> void_ending x = Some r ->
  exists final, does P (outside P (cx_names c) source) (mkStore [] (parser_members (state s) log)) parse (mkStore [] (parser_members final (rev (flat_map (call_value data visits) ev) ++ log))) r /\
    match x with Ok s' => final = state s' | _ => True end.
Proof. exact parse_text. Qed.
(** The tokens of "1+(2)", in a list. *)
Example parse_text_runs_case : writable_lr lr1_c /\ writable_visits sum_visits /\ cpp_compiles lr1_c /\ (forall k, In k (map fst (cx_reductions lr1_c)) -> In k (map fst sum_visits)) /\
  pulls list_pull list_fits list_state number_value list_source /\ list_fits 21 list_tokens /\ exists ev, pull_parse list_pull 20 lr1_c list_tokens = (ev, Ok []) /\ List.length ev = 13%nat.
Proof.
  split; [exact sum_writable|]. split; [exact sum_writable_visits|]. split; [exact lr1_c_compiles|]. split; [exact sum_covered|]. split; [exact list_pulls|]. split; [exact list_tokens_fit|]. eexists. vm_compute. split; reflexivity.
Qed.
Print Assumptions parse_text_runs.

(** C55.  What lexer.cpp, parser.cpp and parser_impl.h of a grammar do, as texts: they can be read and pass the checks, and running [parse] with a token function that runs [next], [start] and [end] ends without an
    exception only if the bytes are read to the end of a text of the language, with the calls of the visitor for its parse tree and the places of its lexemes, and with an exception only if there is no such text. *)
Theorem parser_text_exact : forall rs g lfuel al d debug, small rs -> from_rule_set rs = Ok g -> usable_tokens (rs_tokens rs) -> generate_lexer lfuel (rs_tokens rs) = Ok (al, d) ->
  (forall r, In r (rs_tokens rs) -> plain_name (tr_name r) /\ one_line (debug r)) -> (forall p, In p (rs_prods rs) -> plain_name (pr_name p)) -> (N.of_nat (List.length (dfa_nodes d)) <= 2 ^ 32)%N ->
  forall k m allow tb c visits, generates k m g allow = Ok (NoConflicts tb) -> cpp_write (token_names rs) g tb = Ok c -> cpp_rule_visits g = Ok visits -> cpp_compiles c -> word_sized g tb ->
  epsilon_in_front g -> no_empty_rhs g -> sealed k g -> entry_starts g ->
  exists code fs parse, lexer_code_in (lexer_cpp_text debug al d) code /\ parser_functions (parser_cpp_text c) (parser_impl_h_text c visits) fs /\ defines (parser_impl_h_text c visits) parse_head parse /\
  let names := token_names rs in let P := lr_program (enumerators names) (cx_nts c) fs in
  code_checks (token_program names) code = true /\ types_in [tokens_h_text names; parser_impl_h_text c visits] P /\ (forall f, In f (functions P) -> checks P (snd (snd f)) = true) /\ checks P parse = true /\
  forall fuel bytes text junk, Forall is_byte bytes -> (Z.of_nat (List.length bytes) + 2 < 18446744073709551616)%Z -> (Z.of_nat fuel < 9223372036854775807)%Z -> holds bytes text junk ->
  snd (cpp_text_parse fuel al d c bytes) = OutOfFuel \/
  exists calls r, parser_does P names code parse (lexer_value (cpp_new bytes)) (rev (flat_map (seen_call visits) calls)) r /\
    match r with
    | RNext => readable text junk /\ exists ls tr, lexemes (rs_tokens rs) text ls /\ parse_tree g tr /\ Forall2 (token_named g) (iyield tr) (map (fun l => tr_name (snd l)) ls) /\ told names (post_order tr) (places 0 (map fst ls)) calls
    | RThrow _ => ~ (readable text junk /\ text_of_language rs text)
    | _ => False
    end.
Proof. exact end_exact. Qed.
(** The sums of CppRunExample.v on ["1→20"] and on ["1→"]: the calls of the visitor, and the end of the run. *)
Example parser_text_exact_case : small wide_rules /\ from_rule_set wide_rules = Ok ll_g /\ usable_tokens (rs_tokens wide_rules) /\ generate_lexer 100 (rs_tokens wide_rules) = Ok (wide_al, wide_dfa) /\
  (forall r, In r (rs_tokens wide_rules) -> plain_name (tr_name r) /\ one_line (by_name r)) /\ (forall p, In p (rs_prods wide_rules) -> plain_name (pr_name p)) /\ (N.of_nat (List.length (dfa_nodes wide_dfa)) <= 2 ^ 32)%N /\
  generates KindLR1 100 ll_g false = Ok (NoConflicts lr1_tb) /\ cpp_write (token_names wide_rules) ll_g lr1_tb = Ok lr1_c /\ cpp_rule_visits ll_g = Ok sum_visits /\ cpp_compiles lr1_c /\ word_sized ll_g lr1_tb /\
  epsilon_in_front ll_g /\ no_empty_rhs ll_g /\ sealed KindLR1 ll_g /\ entry_starts ll_g /\ holds wide_bytes wide_text [] /\
  exists code fs parse, lexer_code_in (lexer_cpp_text by_name wide_al wide_dfa) code /\ parser_functions (parser_cpp_text lr1_c) (parser_impl_h_text lr1_c sum_visits) fs /\ defines (parser_impl_h_text lr1_c sum_visits) parse_head parse /\
  let P := lr_program (enumerators (token_names wide_rules)) (cx_nts lr1_c) fs in
  parser_does P (token_names wide_rules) code parse (lexer_value (cpp_new wide_bytes)) (rev wide_log) RNext /\
  parser_does P (token_names wide_rules) code parse (lexer_value (cpp_new (firstn 4 wide_bytes))) (rev (firstn 3 wide_log)) (RThrow "Unexpected token '<EOF>', expected one of: 'NUM', 'LPAR'").
Proof. exact wide_texts. Qed.
Print Assumptions parser_text_exact.

(** C55.  There is only one way in which a run can end. *)
Theorem parser_text_once : forall P names code parse lexer log log' r r', parser_does P names code parse lexer log r -> parser_does P names code parse lexer log' r' -> log = log' /\ r = r'.
Proof. exact parser_once. Qed.
Example parser_text_once_case : exists P code parse, parser_does P (token_names wide_rules) code parse (lexer_value (cpp_new wide_bytes)) (rev wide_log) RNext.
Proof. destruct wide_texts as (_ & _ & _ & _ & _ & _ & _ & _ & _ & _ & _ & _ & _ & _ & _ & _ & _ & code & fs & parse & _ & _ & _ & R & _). eexists. exists code, parse. exact R. Qed.
Print Assumptions parser_text_once.

(** C55.  If the entry production is empty, the text of [parse] ends with [std::terminate] on a source of the language. *)
Theorem parser_text_terminate_refuted : exists rs g al d tb c visits, small rs /\ from_rule_set rs = Ok g /\ generate_lexer 100 (rs_tokens rs) = Ok (al, d) /\ generates KindLR1 100 g false = Ok (NoConflicts tb) /\ cpp_write (token_names rs) g tb = Ok c /\ cpp_rule_visits g = Ok visits /\ cpp_compiles c /\
  text_of_language rs [] /\ holds [] [] [] /\
  exists code fs parse, lexer_code_in (lexer_cpp_text by_name al d) code /\ parser_functions (parser_cpp_text c) (parser_impl_h_text c visits) fs /\ defines (parser_impl_h_text c visits) parse_head parse /\
  exists log, parser_does (lr_program (enumerators (token_names rs)) (cx_nts c) fs) (token_names rs) code parse (lexer_value (cpp_new [])) log RTerminate.
Proof. exact empty_terminates. Qed.
Print Assumptions parser_text_terminate_refuted.
