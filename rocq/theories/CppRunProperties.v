(** Property theorems for generated C++ lexers and parsers working together, and for runs of the generator which write C++ (C49, C45, C42). *)
From Coq Require Import String List Arith NArith Bool Lia.
From Verif Require Import Base InputModel LexerSpec LexerModel BootModel BootExample PositionModel InputGenModel InputGenSpec InputGenLapex InputGenFactsProof InputTextSpec InputTextWriteProof InputTextFactsProof NamesModel GrammarModel GrammarSpec LLModel LLSpec LLExample LRModel LRSpec LRExample LRTermSpec LRTermExample
  GLRSpec RunModel RunSpec RunProof RunExample CppLexerModel CppLexerSpec CppLexerProof CppLRModel CppLRSpec CppLRProof CppLRExample CppRunModel CppRunSpec CppRunProof PipelineModel PipelineSpec PipelineProof PipelineExample CppEndProof CppRunExample.
Import ListNotations.
Local Open Scope string_scope.
Local Open Scope nat_scope.
Local Open Scope list_scope.

(** C49.  The bytes of a source can be read in exactly one way as a text and a malformed rest. *)
Theorem bytes_read_once : forall bytes, Forall is_byte bytes -> exists text junk, holds bytes text junk /\ forall text' junk', holds bytes text' junk' -> text' = text /\ junk' = junk.
Proof. exact holds_once. Qed.
Example bytes_read_once_case : Forall is_byte (wide_bytes ++ [255%N]) /\ holds (wide_bytes ++ [255%N]) wide_text [255%N].
Proof. split; [apply wide_are_bytes|exact stray_holds]. Qed.
Print Assumptions bytes_read_once.

(** C49.  A text can be divided into lexemes in one way only, and its tokens are those of C43. *)
Theorem lexemes_once : forall rules text ls ls', Forall valid_char text -> lexemes rules text ls -> lexemes rules text ls' -> ls = ls' /\ tokenised rules text (map snd ls).
Proof. exact lexemes_once_proof. Qed.
Example lexemes_once_case : Forall valid_char wide_text /\ exists ls, lexemes (rs_tokens wide_rules) wide_text ls /\ map fst ls = [[49]; [8594]; [50; 48]]%N.
Proof. exact wide_lexemes. Qed.
Print Assumptions lexemes_once.

(** C49.  A generated C++ lexer feeding a generated C++ LR parser: success means that the bytes are read to the end of a text of the language; the visitor is told of the shifts and reductions of its
    parse tree, with the places of the lexemes in characters.  An exception means that there is no such text.  Undefined behaviour and [std::terminate] do not occur. *)
Theorem cpp_text_exact : forall rs g lfuel al d, small rs -> from_rule_set rs = Ok g -> usable_tokens (rs_tokens rs) -> generate_lexer lfuel (rs_tokens rs) = Ok (al, d) ->
  forall k m allow tb c, generates k m g allow = Ok (NoConflicts tb) -> cpp_write (token_names rs) g tb = Ok c -> cpp_compiles c -> epsilon_in_front g -> no_empty_rhs g -> sealed k g -> entry_starts g ->
  forall fuel bytes text junk, Forall is_byte bytes -> holds bytes text junk ->
  match cpp_text_parse fuel al d c bytes with
  | (calls, Ok _) => readable text junk /\ exists ls tr, lexemes (rs_tokens rs) text ls /\ parse_tree g tr /\ Forall2 (token_named g) (iyield tr) (map (fun l => tr_name (snd l)) ls) /\
      told (token_names rs) (post_order tr) (places 0 (map fst ls)) calls
  | (_, Err (Throw _)) => ~ (readable text junk /\ text_of_language rs text)
  | (_, OutOfFuel) => True
  | _ => False
  end.
Proof. exact exact_bytes. Qed.
Example cpp_text_exact_case : small wide_rules /\ from_rule_set wide_rules = Ok ll_g /\ usable_tokens (rs_tokens wide_rules) /\ generate_lexer 100 (rs_tokens wide_rules) = Ok (wide_al, wide_dfa) /\
  generates KindLR1 100 ll_g false = Ok (NoConflicts lr1_tb) /\ cpp_write (token_names wide_rules) ll_g lr1_tb = Ok lr1_c /\ cpp_compiles lr1_c /\ epsilon_in_front ll_g /\ no_empty_rhs ll_g /\ sealed KindLR1 ll_g /\ entry_starts ll_g /\
  (holds wide_bytes wide_text [] /\ exists lx, cpp_text_parse 12 wide_al wide_dfa lr1_c wide_bytes = (wide_calls, Ok lx)) /\
  cpp_text_parse 12 wide_al wide_dfa lr1_c (firstn 4 wide_bytes) = (firstn 3 wide_calls, Err (Throw "Unexpected token '<EOF>', expected one of: 'NUM', 'LPAR'")) /\
  holds [49; 0; 255]%N [49; 0]%N [255%N] /\ exists calls lx, cpp_text_parse 12 wide_al wide_dfa lr1_c [49; 0; 255]%N = (calls, Ok lx).
Proof.
  split; [exact wide_small|]. split; [exact wide_built|]. split; [exact wide_usable|]. split; [exact wide_lexer|]. split; [exact lr1_tb_ok|]. split; [exact wide_c_ok|]. split; [exact lr1_c_compiles|].
  split; [exact ll_g_front|]. split; [exact ll_g_ne|]. split; [exact sum_sealed|]. split; [exact ll_starts|]. split; [split; [exact wide_holds|exact wide_run]|]. split; [exact short_run|]. split; [exact nul_holds|exact nul_run].
Qed.
Print Assumptions cpp_text_exact.

(** C49.  Every text of the language is accepted, if nothing malformed follows, or follows behind a NUL only. *)
Theorem cpp_text_complete : forall rs g lfuel al d, small rs -> from_rule_set rs = Ok g -> usable_tokens (rs_tokens rs) -> generate_lexer lfuel (rs_tokens rs) = Ok (al, d) ->
  forall k m allow tb c, generates k m g allow = Ok (NoConflicts tb) -> cpp_write (token_names rs) g tb = Ok c -> cpp_compiles c -> epsilon_in_front g -> no_empty_rhs g -> entry_starts g ->
  forall bytes text junk, Forall is_byte bytes -> holds bytes text junk -> readable text junk -> text_of_language rs text ->
  exists n, forall fuel, n <= fuel -> exists calls lx, cpp_text_parse fuel al d c bytes = (calls, Ok lx).
Proof. exact accepted_bytes. Qed.
Example cpp_text_complete_case : Forall is_byte wide_bytes /\ holds wide_bytes wide_text [] /\ readable wide_text [] /\ text_of_language wide_rules wide_text.
Proof. split; [apply wide_are_bytes|]. split; [exact wide_holds|]. split; [left; reflexivity|exact wide_in_language]. Qed.
Print Assumptions cpp_text_complete.

(** C49.  If every non-terminal derives something, lexer and parser come to an end on every sequence of bytes. *)
Theorem cpp_text_ends : forall rs g lfuel al d, small rs -> from_rule_set rs = Ok g -> usable_tokens (rs_tokens rs) -> generate_lexer lfuel (rs_tokens rs) = Ok (al, d) ->
  forall k m allow tb c, generates k m g allow = Ok (NoConflicts tb) -> cpp_write (token_names rs) g tb = Ok c -> cpp_compiles c -> epsilon_in_front g -> no_empty_rhs g -> sealed k g -> all_productive g ->
  forall bytes, Forall is_byte bytes -> exists n, forall fuel, n <= fuel -> snd (cpp_text_parse fuel al d c bytes) <> OutOfFuel.
Proof. exact settled_bytes. Qed.
Example cpp_text_ends_case : all_productive ll_g /\ Forall is_byte (wide_bytes ++ [255%N]) /\ snd (cpp_text_parse 2 wide_al wide_dfa lr1_c (wide_bytes ++ [255%N])) = OutOfFuel /\
  exists message, cpp_text_parse 12 wide_al wide_dfa lr1_c (wide_bytes ++ [255%N]) = (firstn 3 wide_calls, Err (Throw message)).
Proof. split; [exact ll_productive|]. split; [apply wide_are_bytes|]. split; [vm_compute; reflexivity|exact stray_run]. Qed.
Print Assumptions cpp_text_ends.

(** C49.  If all rules of the entry symbol are empty or begin with it, the program ends in [std::terminate] on every text of the language. *)
Theorem cpp_text_terminates : forall rs g lfuel al d, small rs -> from_rule_set rs = Ok g -> usable_tokens (rs_tokens rs) -> generate_lexer lfuel (rs_tokens rs) = Ok (al, d) ->
  forall k m allow tb c, generates k m g allow = Ok (NoConflicts tb) -> cpp_write (token_names rs) g tb = Ok c -> cpp_compiles c -> epsilon_in_front g -> no_empty_rhs g -> sealed k g -> ~ entry_starts g ->
  forall fuel bytes text junk, 2 <= fuel -> Forall is_byte bytes -> holds bytes text junk ->
  match cpp_text_parse fuel al d c bytes with
  | (calls, Err Terminated) => readable text junk /\ exists ls tr, lexemes (rs_tokens rs) text ls /\ parse_tree g tr /\ Forall2 (token_named g) (iyield tr) (map (fun l => tr_name (snd l)) ls) /\
      told (token_names rs) (post_order tr) (places 0 (map fst ls)) calls
  | (_, Err (Throw _)) => ~ (readable text junk /\ text_of_language rs text)
  | (_, OutOfFuel) => True
  | _ => False
  end.
Proof. exact terminate_bytes. Qed.
(** s = ! *)
Example cpp_text_terminates_case : small empty_rules /\ from_rule_set empty_rules = Ok empty_g /\ usable_tokens (rs_tokens empty_rules) /\ generate_lexer 100 (rs_tokens empty_rules) = Ok (empty_al, empty_dfa) /\
  generates KindLR1 100 empty_g false = Ok (NoConflicts empty1_tb) /\ cpp_write (token_names empty_rules) empty_g empty1_tb = Ok empty1_c /\ cpp_compiles empty1_c /\ epsilon_in_front empty_g /\ no_empty_rhs empty_g /\
  sealed KindLR1 empty_g /\ ~ entry_starts empty_g /\ holds [] [] [] /\ snd (cpp_text_parse 9 empty_al empty_dfa empty1_c []) = Err Terminated /\
  exists message, snd (cpp_text_parse 9 empty_al empty_dfa empty1_c [97%N]) = Err (Throw message).
Proof.
  split; [exact empty_small|]. split; [exact empty_built|]. split; [exact empty_usable|]. split; [exact empty_lexer|]. split; [exact empty1_tb_ok|]. split; [exact empty1_c_ok|]. split; [exact empty1_c_compiles|].
  split; [exact empty_front|]. split; [exact empty_ne|]. split; [exact empty_sealed|]. split; [exact empty_no_start|]. split; [exact empty_holds|exact empty_runs].
Qed.
Print Assumptions cpp_text_terminates.

(** C49.  A text of the language is not accepted if a stray byte follows: its last token is lost ("1→20" and the byte FF). *)
Theorem cpp_text_stray_refuted : exists rs g lfuel al d m tb c fuel bytes text calls message, small rs /\ from_rule_set rs = Ok g /\ usable_tokens (rs_tokens rs) /\ generate_lexer lfuel (rs_tokens rs) = Ok (al, d) /\
  generates KindLR1 m g false = Ok (NoConflicts tb) /\ cpp_write (token_names rs) g tb = Ok c /\ cpp_compiles c /\ epsilon_in_front g /\ no_empty_rhs g /\ sealed KindLR1 g /\ entry_starts g /\
  holds (bytes ++ [255%N]) text [255%N] /\ text_of_language rs text /\ cpp_text_parse fuel al d c (bytes ++ [255%N]) = (calls, Err (Throw message)) /\ length calls = 3.
Proof.
  destruct stray_run as [message R]. exists wide_rules, ll_g, 100, wide_al, wide_dfa, 100, lr1_tb, lr1_c, 12, wide_bytes, wide_text, (firstn 3 wide_calls), message.
  split; [exact wide_small|]. split; [exact wide_built|]. split; [exact wide_usable|]. split; [exact wide_lexer|]. split; [exact lr1_tb_ok|]. split; [exact wide_c_ok|]. split; [exact lr1_c_compiles|].
  split; [exact ll_g_front|]. split; [exact ll_g_ne|]. split; [exact sum_sealed|]. split; [exact ll_starts|]. split; [exact stray_holds|]. split; [exact wide_in_language|]. split; [exact R|reflexivity].
Qed.
Print Assumptions cpp_text_stray_refuted.

(** C49.  Without [sealed] a source is accepted which cannot even be divided into lexemes (s = LPAR s RPAR | A, LALR, the source "a)#"). *)
Theorem cpp_text_exact_refuted : exists rs g lfuel al d m tb c fuel bytes text calls lx, small rs /\ from_rule_set rs = Ok g /\ usable_tokens (rs_tokens rs) /\ generate_lexer lfuel (rs_tokens rs) = Ok (al, d) /\
  generates KindLALR m g false = Ok (NoConflicts tb) /\ cpp_write (token_names rs) g tb = Ok c /\ cpp_compiles c /\ epsilon_in_front g /\ no_empty_rhs g /\ entry_starts g /\ holds bytes text [] /\
  cpp_text_parse fuel al d c bytes = (calls, Ok lx) /\ ~ exists ts, tokenised (rs_tokens rs) text ts.
Proof.
  destruct paren_cpp_run as (calls & lx & R). exists paren_text_rules, paren_g, 100, paren_al, paren_dfa, 100, paren_lalr_tb, paren_c, 10, [97; 41; 35]%N, [97; 41; 35]%N, calls, lx.
  split; [exact paren_text_small|]. split; [exact paren_text_built|]. split; [exact paren_usable|]. split; [exact paren_lexer|]. split; [exact paren_lalr_tb_ok|]. split; [exact paren_c_ok|]. split; [exact paren_c_compiles|].
  split; [exact paren_front|]. split; [exact paren_ne|]. split; [exact paren_starts|]. split; [exact paren_holds|]. split; [exact R|exact paren_text_bad].
Qed.
Print Assumptions cpp_text_exact_refuted.

(** C45, C49.  From the text of a grammar file to the language of the C++ parser: a successful run with LR(0), LR(1) or LALR writes a lexer and a parser which accept exactly the encodings of texts
    of the language described by the file. *)
Theorem file_to_cpp_parser : forall create regex gn n fuel alg k table file files, build_input_parser 3000 (bytes lapex_text) = Some gn -> Forall valid_char file -> strict_kind alg = Some k ->
  generate create fuel (parse_lapex regex gn n) true alg table Cpp (Some file) = (files, Ok tt) ->
  exists sr g al d c, reads_file regex file sr /\ from_rule_set (unspanned sr) = Ok g /\
    In ("lexer.cpp", Some (CppLexer al d)) files /\ In ("parser.cpp", Some (CppParser c)) files /\
    (small (unspanned sr) -> usable_tokens (rs_tokens (unspanned sr)) -> cpp_compiles c -> epsilon_in_front g -> no_empty_rhs g -> sealed k g -> entry_starts g ->
     forall bytes text junk, Forall is_byte bytes -> holds bytes text junk ->
     (readable text junk /\ text_of_language (unspanned sr) text <-> exists m, forall pf, m <= pf -> exists calls lx, cpp_text_parse pf al d c bytes = (calls, Ok lx)) /\
     (forall pf calls lx, cpp_text_parse pf al d c bytes = (calls, Ok lx) ->
        exists ls tr, lexemes (rs_tokens (unspanned sr)) text ls /\ parse_tree g tr /\ Forall2 (token_named g) (iyield tr) (map (fun l => tr_name (snd l)) ls) /\ told (token_names (unspanned sr)) (post_order tr) (places 0 (map fst ls)) calls)).
Proof. exact end_cpp. Qed.
Example file_to_cpp_parser_case : Forall valid_char good_file /\ generate every_file 100 read_file true LR1 true Cpp (Some good_file) = (good_cpp LR1, Ok tt) /\
  from_rule_set (unspanned good_sr) = Ok good_g /\ small (unspanned good_sr) /\ usable_tokens (rs_tokens (unspanned good_sr)) /\ epsilon_in_front good_g /\ no_empty_rhs good_g /\ sealed KindLR1 good_g /\ entry_starts good_g /\
  exists c, In ("parser.cpp", Some (CppParser c)) (good_cpp LR1) /\ cpp_compiles c.
Proof.
  split; [apply ascii_valid; apply file_ascii|]. split; [apply good_cpp_runs; auto|]. split; [exact good_built|]. split; [exact good_small|]. split; [exact good_usable|]. split; [exact good_front|]. split; [exact good_ne|].
  split; [apply good_sealed|]. split; [exact good_starts|exact good_cpp_compiles].
Qed.
Print Assumptions file_to_cpp_parser.

(** C42.  The files of a successful run with C++ and a strict table: each is the one described by the property of its generator (C35, C36, C38, C39). *)
Theorem cpp_run_files : forall create fuel read alg k table source files, strict_kind alg = Some k -> generate create fuel read true alg table Cpp (Some source) = (files, Ok tt) ->
  exists sr g al d tb c visits methods, read source = Ok sr /\ from_rule_set (unspanned sr) = Ok g /\ generate_lexer fuel (map snd (sr_tokens sr)) = Ok (al, d) /\
    generates k fuel g false = Ok (NoConflicts tb) /\ cpp_write (token_names (unspanned sr)) g tb = Ok c /\ cpp_rule_visits g = Ok visits /\ cpp_visitor_methods g = Ok methods /\
    exists t, (table = false -> t = []) /\
    files = [("tokens.h", Some (CppTokens (enumerators (token_names (unspanned sr))))); ("tokens.cpp", Some (CppTokenNames (token_names (unspanned sr)))); ("lexer.h", Some Fixed); ("lexer.cpp", Some (CppLexer al d))] ++ t ++
            [("parser.h", Some Fixed); ("parser.cpp", Some (CppParser c)); ("parser_impl.h", Some (CppVisits visits)); ("visitor.h", Some (CppMethods methods))].
Proof. exact run_writes_cpp. Qed.
Example cpp_run_files_case : generate every_file 100 read_file true LR1 true Cpp (Some good_file) = (good_cpp LR1, Ok tt) /\
  map fst (good_cpp LR1) = ["tokens.h"; "tokens.cpp"; "lexer.h"; "lexer.cpp"; "table"; "parser.h"; "parser.cpp"; "parser_impl.h"; "visitor.h"].
Proof. split; [apply good_cpp_runs; auto|vm_compute; reflexivity]. Qed.
Print Assumptions cpp_run_files.

(** C42.  The files of a successful run with LL(1): the parser has the LL(1) table, and the visitor has a method for the beginning and a method for the end of every production, by its name. *)
Theorem cpp_ll_run_files : forall create fuel read table source files, generate create fuel read true LL1 table Cpp (Some source) = (files, Ok tt) ->
  exists sr g al d tb nts methods, read source = Ok sr /\ from_rule_set (unspanned sr) = Ok g /\ generate_lexer fuel (map snd (sr_tokens sr)) = Ok (al, d) /\
    ll_generate_table fuel g = Ok tb /\ cpp_non_terminal_variants g = Ok nts /\
    files = [("tokens.h", Some (CppTokens (enumerators (token_names (unspanned sr))))); ("tokens.cpp", Some (CppTokenNames (token_names (unspanned sr)))); ("lexer.h", Some Fixed); ("lexer.cpp", Some (CppLexer al d));
             ("parser.h", Some Fixed); ("parser.cpp", Some (CppLLParser tb)); ("parser_impl.h", Some (CppLLEnum nts)); ("visitor.h", Some (CppMethods methods))] /\
    (small (unspanned sr) -> exists names, NoDup names /\ (forall n, In n names <-> exists p, In p (map snd (sr_prods sr)) /\ pr_name p = n) /\ methods = flat_map (fun n => ["enter_" ++ n; "exit_" ++ n]%string) names).
Proof. exact run_writes_ll. Qed.
Example cpp_ll_run_files_case : generate every_file 100 read_file true LL1 true Cpp (Some good_file) = (good_cpp LL1, Ok tt) /\ small (unspanned good_sr) /\
  In ("visitor.h", Some (CppMethods ["enter_s"; "exit_s"])) (good_cpp LL1).
Proof. split; [apply good_cpp_runs; auto|]. split; [exact good_small|]. vm_compute. tauto. Qed.
Print Assumptions cpp_ll_run_files.
