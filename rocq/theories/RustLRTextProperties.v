(** Property theorems about the code of emitted Rust LR parsers (C59). *)
From Coq Require Import String List Arith NArith Bool.
From Verif Require Import Base InputModel LexerSpec LexerModel GrammarModel GrammarSpec LLModel LLSpec LLExample LRModel LRSpec LRExample LRTermSpec LRTermExample GLRSpec NamesModel NamesVisitProof RunModel RunSpec RunExample CppLRExample
  TemplateModel TemplateFiles RustTokenSpec RustQuoteModel RustSpec RustLexTextModel RustLexTextSpec RustLRTextModel RustPullModel RustLRTextSpec RustLREndSpec RustLRGenProof RustLRTextExample.
Import ListNotations.
Local Open Scope string_scope.
Local Open Scope list_scope.

(** C59.  For any tables that speak of a grammar with usable names, parser.rs can be written.  It declares a variant for every rule and every non-terminal, a visitor with a method for every rule, and exactly one set
    of the five functions.  Running them, as Rust code, is what the model of the Rust parser does, with any token function, any visitor and any number of rounds. *)
Theorem rust_lr_text_exact : forall rs g p, from_rule_set rs = Ok g -> usable_names g -> fits g p ->
  exists file visits nts, parser_rs g p = Ok file /\ rule_visits g = Ok visits /\ rust_non_terminal_variants g = Ok nts /\
  enum_of "ReducedRule" file = Some (map rule_variant (seq 0 (List.length (g_rules g)))) /\ enum_of "NonTerminalType" file = Some nts /\
  trait_of "Visitor" file = Some (("shift", [("self", true); ("token", false); ("data", false)]) :: map (fun m => (m, [("self", true)])) (map snd visits)) /\
  types_declared file parser_types /\ exists F, parser_functions_in file F /\ (forall F', parser_functions_in file F' -> F' = F) /\ parser_does g p visits F.
Proof. exact rust_lr_text_exact_proof. Qed.
(** The grammar of sums. *)
Example rust_lr_text_exact_case : from_rule_set sum_rules = Ok ll_g /\ usable_names ll_g /\ fits ll_g lr1_p /\
  sum_items = Some (["Rule0"; "Rule1"; "Rule2"; "Rule3"; "Rule4"], ["NtExpr"; "NtTerm"; "NtAnon4"], ["shift"; "reduce_expr"; "reduce_term_1"; "reduce_term_2"; "reduce_anon4_1"; "reduce_anon4_2"]).
Proof. split; [exact sum_built|]. split; [exact sum_names|]. split; [exact sum_fits|]. vm_compute. reflexivity. Qed.
Print Assumptions rust_lr_text_exact.

(** C59.  The tables that are generated speak of the grammar. *)
Theorem rust_lr_tables_fit : forall rs k m g allow tb p, from_rule_set rs = Ok g -> generates k m g allow = Ok (NoConflicts tb) -> write_parser g tb = Ok p -> fits g p.
Proof. intros rs k m g allow tb p H. exact (generated_fits k m g allow tb p (GrammarFactsProof.grammar_wf rs g H)). Qed.
Example rust_lr_tables_fit_case : from_rule_set sum_rules = Ok ll_g /\ generates KindLR1 100 ll_g false = Ok (NoConflicts lr1_tb) /\ write_parser ll_g lr1_tb = Ok lr1_p.
Proof. split; [exact sum_built|]. split; [exact lr1_tb_ok|exact lr1_p_ok]. Qed.
Print Assumptions rust_lr_tables_fit.

(** C59.  What lexer.rs and parser.rs of a grammar do, as code: running [parse] with a token function that unwraps what [next] of the lexer returns ends with [Ok] only if the text is read to the end of a text of the
    language, with the calls of the visitor for its parse tree; with an error only if it is no such text; with a panic only if it cannot be divided into lexemes. *)
Theorem rust_code_exact : forall rs g lfuel al d, small rs -> from_rule_set rs = Ok g -> usable_tokens (rs_tokens rs) -> generate_lexer lfuel (rs_tokens rs) = Ok (al, d) -> usable_names g ->
  forall k m allow tb p, generates k m g allow = Ok (NoConflicts tb) -> write_parser g tb = Ok p -> epsilon_in_front g -> no_empty_rhs g -> sealed k g ->
  exists lfile pfile LF PF visits, lexer_rs al d = Ok lfile /\ functions_in lfile LF /\ parser_rs g p = Ok pfile /\ parser_functions_in pfile PF /\ rule_visits g = Ok visits /\
  forall data source visit rounds text v, token_function LF data source -> Forall valid_char text ->
  match run_function (parser_outer rounds visit source PF) rounds (f_parse PF) [parser_value (lexer_value (lexer_new text)) v] with
  | Some ([self], Val v') =>
    (v' = VOk VUnit /\ exists lx calls ts tr, self = parser_value (lexer_value lx) (fold_left (visited g visits (fun x => x) visit) calls v) /\ at_end (lx_iter lx) /\
       tokenised (rs_tokens rs) text ts /\ parse_tree g tr /\ Forall2 (token_named g) (iyield tr) (map tr_name ts) /\ map event_of calls = post_order tr) \/
    ((exists e, v' = VErr (parser_error_value g e)) /\ ~ text_of_language rs text)
  | Some ([_], Panics) => ~ exists ts, tokenised (rs_tokens rs) text ts
  | Some _ => False
  | None => snd (text_parse rounds (mkRustLexer al d (g_tokens g)) p text) = OutOfFuel
  end.
Proof. intros rs g lfuel al d A B C D E k m allow tb p F G H I J. exact (rust_code_exact_proof rs g lfuel al d A B C D E k m allow tb p F G H I J). Qed.
(** The sums: the code of the two files, run on ["1+20"], ["1+"] and ["1+x"], with the place of a lexeme as data. *)
Example rust_code_exact_case : small sum_rules /\ from_rule_set sum_rules = Ok ll_g /\ usable_tokens (rs_tokens sum_rules) /\ generate_lexer 100 (rs_tokens sum_rules) = Ok (sum_al, sum_dfa) /\ usable_names ll_g /\
  generates KindLR1 100 ll_g false = Ok (NoConflicts lr1_tb) /\ write_parser ll_g lr1_tb = Ok lr1_p /\ epsilon_in_front ll_g /\ no_empty_rhs ll_g /\ sealed KindLR1 ll_g /\
  forall lfile pfile LF PF, lexer_rs sum_al sum_dfa = Ok lfile -> functions_in lfile LF -> parser_rs ll_g lr1_p = Ok pfile -> parser_functions_in pfile PF ->
  sum_run LF PF sum_text = Some ([parser_value (lexer_value (mkLexer sum_text [] 4 4)) (VVec sum_calls)], Val (VOk VUnit)) /\
  (exists self, sum_run LF PF short_text = Some ([self], Val (VErr (parser_error_value ll_g (UnexpectedTok None [Some 0%N; Some 2%N]))))) /\
  exists self, sum_run LF PF alien_text = Some ([self], Panics).
Proof.
  split; [exact sum_small|]. split; [exact sum_built|]. split; [exact sum_usable|]. split; [exact sum_lexer|]. split; [exact sum_names|]. split; [exact lr1_tb_ok|]. split; [exact lr1_p_ok|].
  split; [exact ll_g_front|]. split; [exact ll_g_ne|]. split; [exact sum_sealed|exact sum_code].
Qed.
Print Assumptions rust_code_exact.

(** C59.  There is such a token function for the code of every lexer. *)
Theorem rust_token_function : forall al d file F data, (forall node, In node (dfa_nodes d) -> named_node node) -> lexer_rs al d = Ok file -> functions_in file F -> token_function F data (calling_next F data).
Proof. exact calling_next_ok. Qed.
Example rust_token_function_case : (forall node, In node (dfa_nodes sum_dfa) -> named_node node) /\ exists file F, lexer_rs sum_al sum_dfa = Ok file /\ functions_in file F.
Proof.
  split; [exact (nodes_named sum_rules ll_g 100 sum_al sum_dfa sum_small sum_built sum_usable sum_lexer sum_names)|].
  destruct (rust_code_exact sum_rules ll_g 100 sum_al sum_dfa sum_small sum_built sum_usable sum_lexer sum_names KindLR1 100 false lr1_tb lr1_p lr1_tb_ok lr1_p_ok ll_g_front ll_g_ne sum_sealed) as (file & _ & F & _ & _ & A & B & _).
  exists file, F. split; [exact A|exact B].
Qed.
Print Assumptions rust_token_function.

(** C59.  The code accepts every text of the language, and if every non-terminal derives something, it comes to an end on every text. *)
Theorem rust_code_complete : forall rs g lfuel al d, small rs -> from_rule_set rs = Ok g -> usable_tokens (rs_tokens rs) -> generate_lexer lfuel (rs_tokens rs) = Ok (al, d) -> usable_names g ->
  forall k m allow tb p, generates k m g allow = Ok (NoConflicts tb) -> write_parser g tb = Ok p -> epsilon_in_front g -> no_empty_rhs g ->
  forall lfile pfile LF PF, lexer_rs al d = Ok lfile -> functions_in lfile LF -> parser_rs g p = Ok pfile -> parser_functions_in pfile PF ->
  forall data source visit text v, token_function LF data source -> Forall valid_char text ->
  let run rounds := run_function (parser_outer rounds visit source PF) rounds (f_parse PF) [parser_value (lexer_value (lexer_new text)) v] in
  (text_of_language rs text -> exists n, forall rounds, (n <= rounds)%nat -> exists self, run rounds = Some ([self], Val (VOk VUnit))) /\
  (sealed k g -> all_productive g -> exists n, forall rounds, (n <= rounds)%nat -> run rounds <> None).
Proof. intros rs g lfuel al d A B C D E k m allow tb p F G H I. exact (rust_code_complete_proof rs g lfuel al d A B C D E k m allow tb p F G H I). Qed.
Example rust_code_complete_case : text_of_language sum_rules sum_text /\ Forall valid_char sum_text /\ all_productive ll_g /\ sealed KindLR1 ll_g /\ usable_names ll_g.
Proof. split; [exact sum_in_language|]. split; [apply texts_valid|]. split; [exact ll_productive|]. split; [exact sum_sealed|exact sum_names]. Qed.
Print Assumptions rust_code_complete.

(** C59.  Without [usable_names] the code that is written need not compile: productions [s] and [S] give an enum with two variants of the same name. *)
Theorem rust_lr_text_case_refuted : exists rs g tb p file vs, small rs /\ from_rule_set rs = Ok g /\ generates KindLR1 100 g false = Ok (NoConflicts tb) /\ write_parser g tb = Ok p /\ fits g p /\
  parser_rs g p = Ok file /\ enum_of "NonTerminalType" file = Some vs /\ ~ NoDup vs.
Proof.
  pose proof case_twice as T. unfold case_items in T. destruct (parser_rs case_g case_p) as [file|e| |] eqn:E; try discriminate.
  exists case_rules, case_g, case_tb, case_p, file, ["NtS"; "NtS"]. split; [exact case_small|]. split; [exact case_built|]. split; [exact case_tb_ok|]. split; [exact case_p_ok|].
  split; [exact (rust_lr_tables_fit _ _ _ _ _ _ _ case_built case_tb_ok case_p_ok)|]. split; [exact E|]. split; [exact T|]. intros N. inversion N as [|? ? A _]; subst. apply A. left. reflexivity.
Qed.
Print Assumptions rust_lr_text_case_refuted.
