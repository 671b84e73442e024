(** Property theorems for the agreement of parsers generated from one rule set (C51). *)
From Coq Require Import String List Arith NArith Bool Lia.
From Verif Require Import Base InputModel LexerSpec LexerModel GrammarModel GrammarSpec LLModel LLSpec LLExample LRModel LRSpec LRExample LRTermSpec LRTermExample GLRModel GLRSpec HierarchyExample
  RunModel RunSpec RunExample CppLexerModel CppLexerSpec CppLRModel CppLRSpec CppLRExample CppRunModel CppRunSpec CppRunExample AgreeSpec AgreeProof AgreeExample.
Import ListNotations.
Local Open Scope string_scope.
Local Open Scope nat_scope.
Local Open Scope list_scope.

(** C51.  Two Rust parsers of one rule set, made with different algorithms whose tables have no conflict, accept the same texts and call their visitors alike. *)
Theorem kinds_accept_alike : forall rs g lfuel al d, small rs -> from_rule_set rs = Ok g -> usable_tokens (rs_tokens rs) -> generate_lexer lfuel (rs_tokens rs) = Ok (al, d) -> epsilon_in_front g -> no_empty_rhs g ->
  forall k m allow tb p, generates k m g allow = Ok (NoConflicts tb) -> write_parser g tb = Ok p -> sealed k g ->
  forall k' m' allow' tb' p', generates k' m' g allow' = Ok (NoConflicts tb') -> write_parser g tb' = Ok p' -> sealed k' g ->
  forall text, Forall valid_char text -> forall ev,
  comes_to (fun fuel => text_parse fuel (mkRustLexer al d (g_tokens g)) p text) (succeeds ev) <-> comes_to (fun fuel => text_parse fuel (mkRustLexer al d (g_tokens g)) p' text) (succeeds ev).
Proof. exact pair_accept. Qed.
Example kinds_accept_alike_case : small wrap_rules /\ from_rule_set wrap_rules = Ok wrap_g /\ usable_tokens (rs_tokens wrap_rules) /\ generate_lexer 100 (rs_tokens wrap_rules) = Ok (abc_al, abc_dfa) /\
  epsilon_in_front wrap_g /\ no_empty_rhs wrap_g /\
  generates KindLR1 100 wrap_g false = Ok (NoConflicts wrap1_tb) /\ write_parser wrap_g wrap1_tb = Ok wrap1_p /\ sealed KindLR1 wrap_g /\
  generates KindLALR 100 wrap_g false = Ok (NoConflicts wrapa_tb) /\ write_parser wrap_g wrapa_tb = Ok wrapa_p /\ sealed KindLALR wrap_g /\ length (lp_actions wrapa_p) < length (lp_actions wrap1_p) /\
  Forall valid_char [97; 99; 98]%N /\
  (exists lx, text_parse 9 (abc_rx wrap_g) wrap1_p [97; 99; 98]%N = (wrap_events, Ok lx)) /\ exists lx, text_parse 9 (abc_rx wrap_g) wrapa_p [97; 99; 98]%N = (wrap_events, Ok lx).
Proof.
  split; [exact wrap_small|]. split; [exact wrap_built|]. split; [exact abc_usable|]. split; [exact abc_lexer|]. split; [exact wrap_front|]. split; [exact wrap_ne|]. split; [exact wrap1_tb_ok|]. split; [exact wrap1_p_ok|].
  split; [apply wrap_sealed; discriminate|]. split; [exact wrapa_tb_ok|]. split; [exact wrapa_p_ok|]. split; [apply wrap_sealed; discriminate|]. split; [exact wrap_states|]. split; [apply abc_valid|]. split; apply wrap_runs.
Qed.
Print Assumptions kinds_accept_alike.

(** C51.  They fail on the same texts, if every non-terminal derives something. *)
Theorem kinds_reject_alike : forall rs g lfuel al d, small rs -> from_rule_set rs = Ok g -> usable_tokens (rs_tokens rs) -> generate_lexer lfuel (rs_tokens rs) = Ok (al, d) -> epsilon_in_front g -> no_empty_rhs g ->
  forall k m allow tb p, generates k m g allow = Ok (NoConflicts tb) -> write_parser g tb = Ok p -> sealed k g ->
  forall k' m' allow' tb' p', generates k' m' g allow' = Ok (NoConflicts tb') -> write_parser g tb' = Ok p' -> sealed k' g -> all_productive g ->
  forall text, Forall valid_char text ->
  comes_to (fun fuel => text_parse fuel (mkRustLexer al d (g_tokens g)) p text) fails <-> comes_to (fun fuel => text_parse fuel (mkRustLexer al d (g_tokens g)) p' text) fails.
Proof. exact pair_reject. Qed.
Example kinds_reject_alike_case : all_productive wrap_g /\ Forall valid_char [97; 99]%N /\
  text_parse 9 (abc_rx wrap_g) wrap1_p [97; 99]%N = (firstn 2 wrap_events, Err (UnexpectedTok None [Some 1%N])) /\
  text_parse 9 (abc_rx wrap_g) wrapa_p [97; 99]%N = (firstn 3 wrap_events, Err (UnexpectedTok None [Some 1%N])).
Proof. split; [exact wrap_productive|]. split; [apply abc_valid|]. split; apply wrap_runs. Qed.
Print Assumptions kinds_reject_alike.

(** C51, necessity of [sealed]: s = LPAR s RPAR | A.  The LALR(1) parser accepts the text "a)", the LR(1) parser does not. *)
Theorem kinds_alike_refuted : exists rs g al d tb p tb' p' text ev, small rs /\ from_rule_set rs = Ok g /\ usable_tokens (rs_tokens rs) /\ generate_lexer 100 (rs_tokens rs) = Ok (al, d) /\ epsilon_in_front g /\ no_empty_rhs g /\
  all_productive g /\ generates KindLALR 100 g false = Ok (NoConflicts tb) /\ write_parser g tb = Ok p /\ generates KindLR1 100 g false = Ok (NoConflicts tb') /\ write_parser g tb' = Ok p' /\ sealed KindLR1 g /\
  Forall valid_char text /\ comes_to (fun fuel => text_parse fuel (mkRustLexer al d (g_tokens g)) p text) (succeeds ev) /\ comes_to (fun fuel => text_parse fuel (mkRustLexer al d (g_tokens g)) p' text) fails.
Proof.
  destruct paren_disagree as [[ev A] B]. exists paren_text_rules, paren_g, paren_al, paren_dfa, paren_lalr_tb, paren_lalr_p, paren1_tb, paren1_p, [97; 41]%N, ev.
  split; [exact paren_text_small|]. split; [exact paren_text_built|]. split; [exact paren_usable|]. split; [exact paren_lexer|]. split; [exact paren_front|]. split; [exact paren_ne|]. split; [exact paren_productive|].
  split; [exact paren_lalr_tb_ok|]. split; [exact paren_lalr_p_ok|]. split; [exact paren1_tb_ok|]. split; [exact paren1_p_ok|]. split; [exact paren1_sealed|]. split; [exact paren_short_valid|]. split; [exact A|exact B].
Qed.
Print Assumptions kinds_alike_refuted.

(** C51.  If some algorithm makes a table without a conflict, the GLR parser made from the table of another algorithm, conflicts included, accepts the same texts with the same calls of the visitor, and fails on the same texts. *)
Theorem glr_accepts_alike : forall rs g lfuel al d, small rs -> from_rule_set rs = Ok g -> usable_tokens (rs_tokens rs) -> generate_lexer lfuel (rs_tokens rs) = Ok (al, d) -> epsilon_in_front g -> no_empty_rhs g ->
  forall k m allow tb p, generates k m g allow = Ok (NoConflicts tb) -> write_parser g tb = Ok p -> sealed k g ->
  forall k' m' allow' r tb' gp, generates k' m' g allow' = Ok r -> table_of_result r tb' -> glr_write_parser g tb' = Ok gp -> sealed k' g -> all_productive g ->
  forall text, Forall valid_char text -> forall ev,
  comes_to (fun fuel => text_parse fuel (mkRustLexer al d (g_tokens g)) p text) (succeeds ev) <-> comes_to (fun fuel => glr_text_parse fuel (mkRustLexer al d (g_tokens g)) gp text) (succeeds ev).
Proof. exact glr_pair_accept. Qed.
Example glr_accepts_alike_case : small abc_rules /\ from_rule_set abc_rules = Ok cross_g /\ usable_tokens (rs_tokens abc_rules) /\ generate_lexer 100 (rs_tokens abc_rules) = Ok (abc_al, abc_dfa) /\
  epsilon_in_front cross_g /\ no_empty_rhs cross_g /\ generates KindLR1 100 cross_g false = Ok (NoConflicts abc_tb) /\ write_parser cross_g abc_tb = Ok abc_p /\ sealed KindLR1 cross_g /\
  generates KindLALR 100 cross_g true = Ok (AllowedConflicts (fst abc_all) (snd abc_all)) /\ table_of_result (AllowedConflicts (fst abc_all) (snd abc_all)) (fst abc_all) /\ snd abc_all <> [] /\
  glr_write_parser cross_g (fst abc_all) = Ok abc_gp /\ sealed KindLALR cross_g /\ all_productive cross_g /\ Forall valid_char [97; 99; 98]%N /\
  exists ev lx lx', text_parse 9 (abc_rx cross_g) abc_p [97; 99; 98]%N = (ev, Ok lx) /\ glr_text_parse 9 (abc_rx cross_g) abc_gp [97; 99; 98]%N = (ev, Ok lx') /\ length ev = 6.
Proof.
  split; [exact abc_small|]. split; [exact abc_built|]. split; [exact abc_usable|]. split; [exact abc_lexer|]. split; [exact abc_front|]. split; [exact cross_ne|]. split; [exact abc_tb_ok|]. split; [exact abc_p_ok|].
  split; [apply abc_sealed; discriminate|]. split; [exact abc_all_ok|]. split; [right; eexists; reflexivity|]. split; [discriminate|]. split; [exact abc_gp_ok|]. split; [apply abc_sealed; discriminate|].
  split; [exact cross_productive|]. split; [apply abc_valid|]. apply abc_runs.
Qed.
Print Assumptions glr_accepts_alike.

Theorem glr_rejects_alike : forall rs g lfuel al d, small rs -> from_rule_set rs = Ok g -> usable_tokens (rs_tokens rs) -> generate_lexer lfuel (rs_tokens rs) = Ok (al, d) -> epsilon_in_front g -> no_empty_rhs g ->
  forall k m allow tb p, generates k m g allow = Ok (NoConflicts tb) -> write_parser g tb = Ok p -> sealed k g ->
  forall k' m' allow' r tb' gp, generates k' m' g allow' = Ok r -> table_of_result r tb' -> glr_write_parser g tb' = Ok gp -> sealed k' g -> all_productive g ->
  forall text, Forall valid_char text ->
  comes_to (fun fuel => text_parse fuel (mkRustLexer al d (g_tokens g)) p text) fails <-> comes_to (fun fuel => glr_text_parse fuel (mkRustLexer al d (g_tokens g)) gp text) fails.
Proof. exact glr_pair_reject. Qed.
Example glr_rejects_alike_case : Forall valid_char [97; 99; 99]%N /\ (exists e, snd (text_parse 9 (abc_rx cross_g) abc_p [97; 99; 99]%N) = Err e) /\ exists e, snd (glr_text_parse 9 (abc_rx cross_g) abc_gp [97; 99; 99]%N) = Err e.
Proof. split; [apply abc_valid|]. split; apply abc_runs. Qed.
Print Assumptions glr_rejects_alike.

(** C51.  The Rust and the C++ parser made from the same table run in step: after any number of steps on a text which divides into lexemes, both are still running, both have succeeded, or both have failed,
    the C++ parser with the message for the token at which the Rust parser failed; and the C++ visitor has been told what the Rust visitor has been told. *)
Theorem rust_and_cpp_in_step : forall rs g lfuel al d, small rs -> from_rule_set rs = Ok g -> usable_tokens (rs_tokens rs) -> generate_lexer lfuel (rs_tokens rs) = Ok (al, d) ->
  forall k m allow tb p c, generates k m g allow = Ok (NoConflicts tb) -> write_parser g tb = Ok p -> cpp_write (token_names rs) g tb = Ok c -> cpp_compiles c -> entry_starts g ->
  forall fuel bytes text junk ls, Forall is_byte bytes -> holds bytes text junk -> readable text junk -> lexemes (rs_tokens rs) text ls ->
  match text_parse fuel (mkRustLexer al d (g_tokens g)) p text, cpp_text_parse fuel al d c bytes with
  | (ev, Ok _), (calls, Ok _) => told_first (token_names rs) ev (places 0 (map fst ls)) calls
  | (ev, Err (UnexpectedTok got expected)), (calls, Err (Throw text)) => text = message (token_names rs) got expected /\ told_first (token_names rs) ev (places 0 (map fst ls)) calls
  | (ev, OutOfFuel), (calls, OutOfFuel) => told_first (token_names rs) ev (places 0 (map fst ls)) calls
  | _, _ => False
  end.
Proof. exact lockstep. Qed.
Example rust_and_cpp_in_step_case : small wide_rules /\ from_rule_set wide_rules = Ok ll_g /\ usable_tokens (rs_tokens wide_rules) /\ generate_lexer 100 (rs_tokens wide_rules) = Ok (wide_al, wide_dfa) /\
  generates KindLR1 100 ll_g false = Ok (NoConflicts lr1_tb) /\ write_parser ll_g lr1_tb = Ok lr1_p /\ cpp_write (token_names wide_rules) ll_g lr1_tb = Ok lr1_c /\ cpp_compiles lr1_c /\ entry_starts ll_g /\
  Forall is_byte wide_bytes /\ holds wide_bytes wide_text [] /\ readable wide_text [] /\ (exists ls, lexemes (rs_tokens wide_rules) wide_text ls /\ map fst ls = [[49]; [8594]; [50; 48]]%N) /\
  (exists lx, text_parse 12 wide_rx lr1_p wide_text = (wide_events, Ok lx)) /\ exists lx, cpp_text_parse 12 wide_al wide_dfa lr1_c wide_bytes = (wide_calls, Ok lx).
Proof.
  split; [exact wide_small|]. split; [exact wide_built|]. split; [exact wide_usable|]. split; [exact wide_lexer|]. split; [exact lr1_tb_ok|]. split; [exact lr1_p_ok|]. split; [exact wide_c_ok|]. split; [exact lr1_c_compiles|].
  split; [exact ll_starts|]. split; [apply wide_are_bytes|]. split; [exact wide_holds|]. split; [left; reflexivity|]. split; [apply wide_lexemes|]. split; [exact wide_rust|exact wide_run].
Qed.
Print Assumptions rust_and_cpp_in_step.

(** C51.  The Rust parser accepts the text of a source exactly if the C++ parser accepts the source, and the calls of the visitors correspond; the C++ visitor is told also the places of all lexemes. *)
Theorem rust_and_cpp_accept_alike : forall rs g lfuel al d, small rs -> from_rule_set rs = Ok g -> usable_tokens (rs_tokens rs) -> generate_lexer lfuel (rs_tokens rs) = Ok (al, d) -> epsilon_in_front g -> no_empty_rhs g ->
  forall k m allow tb p c, generates k m g allow = Ok (NoConflicts tb) -> write_parser g tb = Ok p -> cpp_write (token_names rs) g tb = Ok c -> cpp_compiles c -> entry_starts g -> sealed k g ->
  forall bytes text junk, Forall is_byte bytes -> holds bytes text junk -> readable text junk -> forall ev,
  comes_to (fun fuel => text_parse fuel (mkRustLexer al d (g_tokens g)) p text) (succeeds ev) <->
  exists ls calls, lexemes (rs_tokens rs) text ls /\ told (token_names rs) ev (places 0 (map fst ls)) calls /\ comes_to (fun fuel => cpp_text_parse fuel al d c bytes) (returns calls).
Proof. exact both_accept. Qed.
Example rust_and_cpp_accept_alike_case : epsilon_in_front ll_g /\ no_empty_rhs ll_g /\ sealed KindLR1 ll_g /\
  comes_to (fun fuel => text_parse fuel wide_rx lr1_p wide_text) (succeeds wide_events) /\ comes_to (fun fuel => cpp_text_parse fuel wide_al wide_dfa lr1_c wide_bytes) (returns wide_calls).
Proof. split; [exact ll_g_front|]. split; [exact ll_g_ne|]. split; [exact sum_sealed|]. split; apply wide_comes. Qed.
Print Assumptions rust_and_cpp_accept_alike.

(** C51.  If every non-terminal derives something, the Rust parser fails on the text exactly if the C++ parser throws an exception on the source. *)
Theorem rust_and_cpp_reject_alike : forall rs g lfuel al d, small rs -> from_rule_set rs = Ok g -> usable_tokens (rs_tokens rs) -> generate_lexer lfuel (rs_tokens rs) = Ok (al, d) -> epsilon_in_front g -> no_empty_rhs g ->
  forall k m allow tb p c, generates k m g allow = Ok (NoConflicts tb) -> write_parser g tb = Ok p -> cpp_write (token_names rs) g tb = Ok c -> cpp_compiles c -> entry_starts g -> sealed k g -> all_productive g ->
  forall bytes text junk, Forall is_byte bytes -> holds bytes text junk -> readable text junk ->
  comes_to (fun fuel => text_parse fuel (mkRustLexer al d (g_tokens g)) p text) fails <-> comes_to (fun fuel => cpp_text_parse fuel al d c bytes) throws.
Proof. exact both_reject. Qed.
Example rust_and_cpp_reject_alike_case : all_productive ll_g /\ Forall is_byte (firstn 4 wide_bytes) /\ holds (firstn 4 wide_bytes) (firstn 2 wide_text) [] /\
  comes_to (fun fuel => text_parse fuel wide_rx lr1_p (firstn 2 wide_text)) fails /\ comes_to (fun fuel => cpp_text_parse fuel wide_al wide_dfa lr1_c (firstn 4 wide_bytes)) throws.
Proof. split; [exact ll_productive|]. split; [apply wide_short_holds|]. split; [apply wide_short_holds|]. split; apply wide_comes. Qed.
Print Assumptions rust_and_cpp_reject_alike.

(** C51, necessity of [readable]: with a malformed byte behind it, the C++ parser throws on the bytes of a text which the Rust parser accepts. *)
Theorem rust_and_cpp_stray_refuted : exists rs g al d tb p c bytes text junk ev, small rs /\ from_rule_set rs = Ok g /\ usable_tokens (rs_tokens rs) /\ generate_lexer 100 (rs_tokens rs) = Ok (al, d) /\
  epsilon_in_front g /\ no_empty_rhs g /\ generates KindLR1 100 g false = Ok (NoConflicts tb) /\ write_parser g tb = Ok p /\ cpp_write (token_names rs) g tb = Ok c /\ cpp_compiles c /\ entry_starts g /\ sealed KindLR1 g /\
  all_productive g /\ Forall is_byte bytes /\ holds bytes text junk /\
  comes_to (fun fuel => text_parse fuel (mkRustLexer al d (g_tokens g)) p text) (succeeds ev) /\ comes_to (fun fuel => cpp_text_parse fuel al d c bytes) throws.
Proof.
  exists wide_rules, ll_g, wide_al, wide_dfa, lr1_tb, lr1_p, lr1_c, (wide_bytes ++ [255%N]), wide_text, [255%N], wide_events.
  split; [exact wide_small|]. split; [exact wide_built|]. split; [exact wide_usable|]. split; [exact wide_lexer|]. split; [exact ll_g_front|]. split; [exact ll_g_ne|]. split; [exact lr1_tb_ok|]. split; [exact lr1_p_ok|].
  split; [exact wide_c_ok|]. split; [exact lr1_c_compiles|]. split; [exact ll_starts|]. split; [exact sum_sealed|]. split; [exact ll_productive|]. split; [apply wide_are_bytes|]. split; [exact stray_holds|]. split; apply wide_comes.
Qed.
Print Assumptions rust_and_cpp_stray_refuted.

(** C51, necessity of [entry_starts]: s = !.  The Rust parser accepts the empty text, the C++ parser ends by [std::terminate] on the empty source. *)
Theorem rust_and_cpp_empty_refuted : exists rs g al d tb p c ev, small rs /\ from_rule_set rs = Ok g /\ usable_tokens (rs_tokens rs) /\ generate_lexer 100 (rs_tokens rs) = Ok (al, d) /\
  epsilon_in_front g /\ no_empty_rhs g /\ generates KindLR1 100 g false = Ok (NoConflicts tb) /\ write_parser g tb = Ok p /\ cpp_write (token_names rs) g tb = Ok c /\ cpp_compiles c /\ sealed KindLR1 g /\ holds [] [] [] /\
  comes_to (fun fuel => text_parse fuel (mkRustLexer al d (g_tokens g)) p []) (succeeds ev) /\ comes_to (fun fuel => cpp_text_parse fuel al d c []) (fun r => snd r = Err Terminated).
Proof.
  destruct empty_comes as [[ev A] B]. exists empty_rules, empty_g, empty_al, empty_dfa, empty1_tb, empty1_p, empty1_c, ev.
  split; [exact empty_small|]. split; [exact empty_built|]. split; [exact empty_usable|]. split; [exact empty_lexer|]. split; [exact empty_front|]. split; [exact empty_ne|]. split; [exact empty1_tb_ok|]. split; [exact empty1_p_ok|].
  split; [exact empty1_c_ok|]. split; [exact empty1_c_compiles|]. split; [exact empty_sealed|]. split; [exact empty_holds|]. split; [exact A|exact B].
Qed.
Print Assumptions rust_and_cpp_empty_refuted.
