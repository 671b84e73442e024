(** Property theorems about the messages of errors in the emitted Rust code (C60). *)
From Coq Require Import String List Arith NArith Bool.
From Verif Require Import CppLexTextExample.
From Verif Require Import Base InputModel LexerSpec LexerModel GrammarModel GrammarSpec LLModel LLSpec LLExample LRModel LRSpec LRExample LRTermSpec LRTermExample LRErrorExample GLRSpec NamesModel NamesVisitProof RunModel RunSpec RunExample
  RustTokenSpec RustSpec RustLexTextModel RustLexTextSpec RustLexTextExample RustLRTextModel RustLRTextSpec RustLREndSpec RustLRTextExample RustMessageSpec RustMessageProof RustMessageExample.
Import ListNotations.
Local Open Scope string_scope.
Local Open Scope list_scope.

(** C60.  The message of a [ParserError] names the variant of the token and those of the expected ones, in their order. *)
Theorem rust_parser_message : forall rs g p file, from_rule_set rs = Ok g -> usable_names g -> fits g p -> parser_rs g p = Ok file ->
  has_derive file "ParserError" "Debug" /\ implements_error "ParserError" file = true /\
  forall dc got expected s, shows dc file "ParserError" (parser_error_value g (UnexpectedTok got expected)) s <-> s = unexpected_message g got expected.
Proof. exact rust_parser_message_proof. Qed.
Example rust_parser_message_case : from_rule_set sum_rules = Ok ll_g /\ usable_names ll_g /\ fits ll_g lr1_p /\
  shown (parser_rs ll_g lr1_p) "ParserError" (parser_error_value ll_g (UnexpectedTok None [Some 0%N; Some 2%N])) = Some "Unexpected token EndOfFile, expected one of: [TkNum, TkLpar]" /\
  shown (parser_rs ll_g lr1_p) "ParserError" (parser_error_value ll_g (UnexpectedTok (Some 1%N) [])) = Some "Unexpected token TkAdd, expected one of: []".
Proof. split; [exact sum_built|]. split; [exact sum_names|]. split; [exact sum_fits|]. split; vm_compute; reflexivity. Qed.
Print Assumptions rust_parser_message.

(** C60.  The messages of a [LexerError]; [dc] is how [Debug] writes a character. *)
Theorem rust_lexer_message : forall al d file, (forall node, In node (dfa_nodes d) -> named_node node) -> lexer_rs al d = Ok file ->
  has_derive file "LexerError" "Debug" /\ implements_error "LexerError" file = true /\ forall dc e s, shows dc file "LexerError" (error_value e) s <-> s = lexer_message dc e.
Proof. exact rust_lexer_message_proof. Qed.
Example rust_lexer_message_case : (forall node, In node (dfa_nodes one_dfa) -> named_node node) /\
  shown (lexer_rs one_al one_dfa) "LexerError" (error_value (InvalidChar 120)) = Some "Lexer got strange codepoint 120, char value is 'Some('x')'" /\
  shown (lexer_rs one_al one_dfa) "LexerError" (error_value (InvalidChar 1114112)) = Some "Lexer got strange codepoint 1114112, char value is 'None'" /\
  shown (lexer_rs one_al one_dfa) "LexerError" (error_value (UnexpectedAlphabet (48, 57)%N)) = Some "Lexer got char in unexpected range: 48..=57".
Proof. split; [exact one_named|]. split; [vm_compute; reflexivity|]. split; vm_compute; reflexivity. Qed.
Print Assumptions rust_lexer_message.

(** C60.  [TokenType] can be copied and written with [Debug], which the messages and the parser need. *)
Theorem rust_tokens_derive : forall ns file, (forall n, In n ns -> spelled n) -> tokens_rs ns = Ok file -> derived "TokenType" file = Some ["Clone"; "Copy"; "Debug"].
Proof. exact rust_tokens_derive_proof. Qed.
Example rust_tokens_derive_case : (forall n, In n ["KW_IF"; "ident"] -> spelled n) /\ match tokens_rs ["KW_IF"; "ident"] with Ok file => derived "TokenType" file = Some ["Clone"; "Copy"; "Debug"] | _ => False end.
Proof. split; [intros n [<-|[<-|[]]]; apply spelledb_ok; reflexivity|]. vm_compute. reflexivity. Qed.
Print Assumptions rust_tokens_derive.

(** C60.  If the code of a generated LR(1) parser ends with an error on a text that can be divided into lexemes, then the message of that error names the first wrong token, and exactly the tokens that
    can follow those in front of it, each once. *)
Theorem rust_code_message : forall rs g lfuel al d, small rs -> from_rule_set rs = Ok g -> usable_tokens (rs_tokens rs) -> generate_lexer lfuel (rs_tokens rs) = Ok (al, d) -> usable_names g ->
  forall k m allow tb p, generates k m g allow = Ok (NoConflicts tb) -> write_parser g tb = Ok p -> epsilon_in_front g -> no_empty_rhs g -> all_productive g -> k = KindLR1 ->
  forall lfile pfile LF PF, lexer_rs al d = Ok lfile -> functions_in lfile LF -> parser_rs g p = Ok pfile -> parser_functions_in pfile PF ->
  forall data source visit rounds text v self e, token_function LF data source -> Forall valid_char text -> (exists ts, tokenised (rs_tokens rs) text ts) ->
  run_function (parser_outer rounds visit source PF) rounds (f_parse PF) [parser_value (lexer_value (lexer_new text)) v] = Some (self, Val (VErr e)) ->
  exists ts consumed rest expected, tokenised (rs_tokens rs) text ts /\ Forall2 (token_named g) (consumed ++ rest) (map tr_name ts) /\
    (forall dc s, shows dc pfile "ParserError" e s <-> s = unexpected_message g (hd_error rest) expected) /\ NoDup expected /\
    (forall t, In t expected <-> exists w, derives (g_rules g) [g_entry g] (consumed ++ w) /\ hd_error w = t).
Proof. intros rs g lfuel al d A B C D E k m allow tb p F G H I J K. exact (rust_code_message_proof rs g lfuel al d A B C D E k m allow tb p F G H I J K). Qed.
(** The code of the sums, run on ["1+"]. *)
Example rust_code_message_case : small sum_rules /\ from_rule_set sum_rules = Ok ll_g /\ usable_tokens (rs_tokens sum_rules) /\ generate_lexer 100 (rs_tokens sum_rules) = Ok (sum_al, sum_dfa) /\ usable_names ll_g /\
  generates KindLR1 100 ll_g false = Ok (NoConflicts lr1_tb) /\ write_parser ll_g lr1_tb = Ok lr1_p /\ epsilon_in_front ll_g /\ no_empty_rhs ll_g /\ all_productive ll_g /\
  Forall valid_char short_text /\ (exists ts, tokenised (rs_tokens sum_rules) short_text ts) /\
  forall lfile pfile LF PF, lexer_rs sum_al sum_dfa = Ok lfile -> functions_in lfile LF -> parser_rs ll_g lr1_p = Ok pfile -> parser_functions_in pfile PF ->
  exists self e, sum_run LF PF short_text = Some ([self], Val (VErr e)) /\ shown (parser_rs ll_g lr1_p) "ParserError" e = Some "Unexpected token EndOfFile, expected one of: [TkNum, TkLpar]".
Proof.
  split; [exact sum_small|]. split; [exact sum_built|]. split; [exact sum_usable|]. split; [exact sum_lexer|]. split; [exact sum_names|]. split; [exact lr1_tb_ok|]. split; [exact lr1_p_ok|].
  split; [exact ll_g_front|]. split; [exact ll_g_ne|]. split; [exact ll_productive|]. split; [exact (proj1 (proj2 texts_valid))|]. split; [exact short_tokens|]. intros lfile pfile LF PF A B C D.
  destruct (proj1 (proj2 (sum_code lfile pfile LF PF A B C D))) as (self & R). exists self, (parser_error_value ll_g (UnexpectedTok None [Some 0%N; Some 2%N])). split; [exact R|]. vm_compute. reflexivity.
Qed.
Print Assumptions rust_code_message.

(** C60.  With LALR tables the message can name a token that cannot follow (s = A e X | B e Y; e = C, the text ACC: Y does not follow A C). *)
Theorem rust_code_message_lalr_refuted : exists rs g lfuel al d tb p, small rs /\ from_rule_set rs = Ok g /\ usable_tokens (rs_tokens rs) /\ generate_lexer lfuel (rs_tokens rs) = Ok (al, d) /\ usable_names g /\
  generates KindLALR 100 g false = Ok (NoConflicts tb) /\ write_parser g tb = Ok p /\ epsilon_in_front g /\ no_empty_rhs g /\ all_productive g /\
  exists lfile pfile LF PF self text e t, lexer_rs al d = Ok lfile /\ functions_in lfile LF /\ parser_rs g p = Ok pfile /\ parser_functions_in pfile PF /\ Forall valid_char text /\
  sum_run LF PF text = Some ([self], Val (VErr e)) /\ (forall dc, shows dc pfile "ParserError" e "Unexpected token TkC, expected one of: [TkX, TkY]") /\
  token_variant g (Some t) = "TkY" /\ token_variant g (Some 0%N) = "TkA" /\ token_variant g (Some 2%N) = "TkC" /\ forall w, ~ derives (g_rules g) [g_entry g] ([0; 2] ++ t :: w)%N.
Proof.
  exists letter_rules, merge_g, 100%nat, letter_al, letter_dfa, merge_tb, merge_p. split; [exact letter_small|]. split; [exact letter_built|]. split; [exact letter_usable|]. split; [exact letter_lexer|]. split; [exact letter_names|].
  split; [exact merge_tb_ok|]. split; [exact merge_p_ok|]. split; [apply merge_front|]. split; [apply merge_front|]. split; [exact merge_productive|]. destruct letter_code as (lfile & pfile & LF & PF & self & A & B & C & D & E & F).
  exists lfile, pfile, LF, PF, self, letter_text, letter_error, 4%N. split; [exact A|]. split; [exact B|]. split; [exact C|]. split; [exact D|]. split; [exact letter_valid|]. split; [exact E|]. split; [exact F|].
  split; [reflexivity|]. split; [reflexivity|]. split; [reflexivity|exact merge_no_ACY].
Qed.
Print Assumptions rust_code_message_lalr_refuted.
