(** Property theorems for generated lexers and parsers working together (C43). *)
From Coq Require Import String List Arith NArith Bool Lia.
From Verif Require Import Base InputModel LexerSpec LexerModel LexerExample GrammarModel GrammarSpec LLSpec LLExample LRModel LRSpec LRExample LRTermSpec LRTermExample
  GLRModel GLRSpec GLRExample RunModel RunSpec RunProof RunExample.
Import ListNotations.
Local Open Scope string_scope.
Local Open Scope nat_scope.
Local Open Scope list_scope.

(** C43.  A text can be divided into lexemes in one way only. *)
Theorem division_unique : forall rules text ts ts', Forall valid_char text -> tokenised rules text ts -> tokenised rules text ts' -> ts = ts'.
Proof. intros rules text ts ts' V H H'. exact (tokenised_unique rules text ts V H ts' H'). Qed.
Example division_unique_case : Forall valid_char sum_text /\ exists ts, tokenised (rs_tokens sum_rules) sum_text ts /\ map tr_name ts = ["NUM"; "ADD"; "NUM"].
Proof. split; [apply texts_valid|exact sum_text_tokens]. Qed.
Print Assumptions division_unique.

(** C43.  A generated lexer feeding a generated LR parser: success means that the text is a text of the language, read to its end, and the visitor calls
    are those of the parse tree; an error of the parser means that it is none; a panic means that the text cannot be divided into lexemes. *)
Theorem text_parse_exact : forall rs g lfuel al d, small rs -> from_rule_set rs = Ok g -> usable_tokens (rs_tokens rs) -> generate_lexer lfuel (rs_tokens rs) = Ok (al, d) ->
  forall k m allow tb p, generates k m g allow = Ok (NoConflicts tb) -> write_parser g tb = Ok p -> epsilon_in_front g -> no_empty_rhs g -> sealed k g ->
  forall fuel source, Forall valid_char source ->
  match text_parse fuel (mkRustLexer al d (g_tokens g)) p source with
  | (ev, Ok lx) => at_end (lx_iter lx) /\ exists ts tr, tokenised (rs_tokens rs) source ts /\ parse_tree g tr /\ Forall2 (token_named g) (iyield tr) (map tr_name ts) /\ ev = post_order tr
  | (_, Err _) => ~ text_of_language rs source
  | (_, Panic) => ~ exists ts, tokenised (rs_tokens rs) source ts
  | (_, OutOfFuel) => True
  end.
Proof. exact text_exact. Qed.
Example text_parse_exact_case : small sum_rules /\ from_rule_set sum_rules = Ok ll_g /\ usable_tokens (rs_tokens sum_rules) /\ generate_lexer 100 (rs_tokens sum_rules) = Ok (sum_al, sum_dfa) /\
  generates KindLR1 100 ll_g false = Ok (NoConflicts lr1_tb) /\ write_parser ll_g lr1_tb = Ok lr1_p /\ epsilon_in_front ll_g /\ no_empty_rhs ll_g /\ sealed KindLR1 ll_g /\
  text_parse 9 sum_rx lr1_p sum_text = (post_order sum_tree, Ok (mkLexer sum_text [] 4 4)) /\
  text_parse 9 sum_rx lr1_p short_text = ([EShift (Some 0%N); EReduce 3; EShift (Some 1%N)], Err (UnexpectedTok None [Some 0%N; Some 2%N])) /\
  snd (text_parse 9 sum_rx lr1_p alien_text) = Panic.
Proof.
  split; [exact sum_small|]. split; [exact sum_built|]. split; [exact sum_usable|]. split; [exact sum_lexer|]. split; [exact lr1_tb_ok|]. split; [exact lr1_p_ok|].
  split; [exact ll_g_front|]. split; [exact ll_g_ne|]. split; [exact sum_sealed|]. split; [exact sum_text_run|]. split; [exact short_text_run|exact alien_text_run].
Qed.
Print Assumptions text_parse_exact.

(** C43.  Every text of the language is accepted. *)
Theorem text_parse_complete : forall rs g lfuel al d, small rs -> from_rule_set rs = Ok g -> usable_tokens (rs_tokens rs) -> generate_lexer lfuel (rs_tokens rs) = Ok (al, d) ->
  forall k m allow tb p, generates k m g allow = Ok (NoConflicts tb) -> write_parser g tb = Ok p -> epsilon_in_front g -> no_empty_rhs g ->
  forall source, Forall valid_char source -> text_of_language rs source ->
  exists ev n, forall fuel, n <= fuel -> exists lx, text_parse fuel (mkRustLexer al d (g_tokens g)) p source = (ev, Ok lx).
Proof. exact text_accepts. Qed.
Example text_parse_complete_case : text_of_language sum_rules sum_text /\ Forall valid_char sum_text /\ exists lx, text_parse 20 sum_rx lr1_p sum_text = (post_order sum_tree, Ok lx).
Proof. split; [exact sum_in_language|]. split; [apply texts_valid|]. eexists. vm_compute. reflexivity. Qed.
Print Assumptions text_parse_complete.

(** C43.  If every non-terminal derives something, lexer and parser come to an end on every text. *)
Theorem text_parse_ends : forall rs g lfuel al d, small rs -> from_rule_set rs = Ok g -> usable_tokens (rs_tokens rs) -> generate_lexer lfuel (rs_tokens rs) = Ok (al, d) ->
  forall k m allow tb p, generates k m g allow = Ok (NoConflicts tb) -> write_parser g tb = Ok p -> epsilon_in_front g -> no_empty_rhs g -> sealed k g -> all_productive g ->
  forall source, Forall valid_char source -> exists n, forall fuel, n <= fuel -> snd (text_parse fuel (mkRustLexer al d (g_tokens g)) p source) <> OutOfFuel.
Proof. exact text_settles. Qed.
Example text_parse_ends_case : all_productive ll_g /\ sealed KindLR1 ll_g /\ snd (text_parse 8 sum_rx lr1_p sum_text) = OutOfFuel /\ snd (text_parse 9 sum_rx lr1_p sum_text) <> OutOfFuel.
Proof. split; [exact ll_productive|]. split; [exact sum_sealed|]. split; [vm_compute; reflexivity|]. rewrite sum_text_run. discriminate. Qed.
Print Assumptions text_parse_ends.

(** C43.  A generated lexer feeding a generated GLR parser, for grammars with or without conflicts. *)
Theorem glr_text_parse_exact : forall rs g lfuel al d, small rs -> from_rule_set rs = Ok g -> usable_tokens (rs_tokens rs) -> generate_lexer lfuel (rs_tokens rs) = Ok (al, d) ->
  forall k m allow r tb p, generates k m g allow = Ok r -> table_of_result r tb -> glr_write_parser g tb = Ok p -> epsilon_in_front g -> no_empty_rhs g -> sealed k g ->
  forall fuel source, Forall valid_char source ->
  match glr_text_parse fuel (mkRustLexer al d (g_tokens g)) p source with
  | (ev, Ok lx) => exists ts tr, tokenised (rs_tokens rs) source ts /\ parse_tree g tr /\ Forall2 (token_named g) (iyield tr) (map tr_name ts) /\ ev = post_order tr /\
      forall tr', parse_tree g tr' -> iyield tr' = iyield tr -> tr' = tr
  | (_, Err _) => ~ text_of_language rs source
  | (_, Panic) => (~ exists ts, tokenised (rs_tokens rs) source ts) \/
      exists ts w, tokenised (rs_tokens rs) source ts /\ Forall2 (token_named g) w (map tr_name ts) /\ ambiguous_sentence g w
  | (_, OutOfFuel) => True
  end.
Proof. exact glr_text_exact. Qed.
Example glr_text_parse_exact_case : small plus_rules /\ from_rule_set plus_rules = Ok amb_g /\ usable_tokens (rs_tokens plus_rules) /\ generate_lexer 100 (rs_tokens plus_rules) = Ok (plus_al, plus_dfa) /\
  generates KindLALR 100 amb_g true = Ok (AllowedConflicts amb_tb amb_cs) /\ glr_write_parser amb_g amb_tb = Ok amb_p /\ epsilon_in_front amb_g /\ no_empty_rhs amb_g /\ sealed KindLALR amb_g /\
  glr_text_parse 20 plus_rx amb_p sum_text = (post_order amb_tree, Ok (mkLexer sum_text [] 4 4)) /\
  snd (glr_text_parse 20 plus_rx amb_p short_text) = Err (GUnexpectedToken None [Some 0%N]) /\ snd (glr_text_parse 20 plus_rx amb_p alien_text) = Panic /\
  snd (glr_text_parse 20 plus_rx amb_p [49; 43; 49; 43; 49]%N) = Panic.
Proof.
  split; [exact plus_small|]. split; [exact plus_built|]. split; [exact plus_usable|]. split; [exact plus_lexer|]. split; [exact amb_tb_ok|]. split; [exact amb_p_ok|].
  split; [exact amb_front|]. split; [exact amb_ne|]. split; [exact amb_sealed|exact plus_runs].
Qed.
Print Assumptions glr_text_parse_exact.

(** C43.  It comes to an end on every text if the grammar has neither hidden left recursion nor cycles. *)
Theorem glr_text_parse_ends : forall rs g lfuel al d, small rs -> from_rule_set rs = Ok g -> usable_tokens (rs_tokens rs) -> generate_lexer lfuel (rs_tokens rs) = Ok (al, d) ->
  forall k m allow r tb p, generates k m g allow = Ok r -> table_of_result r tb -> glr_write_parser g tb = Ok p -> ~ hidden_left_recursive g -> ~ cyclic g ->
  forall source, Forall valid_char source -> exists n, forall fuel, n <= fuel -> snd (glr_text_parse fuel (mkRustLexer al d (g_tokens g)) p source) <> OutOfFuel.
Proof. exact glr_text_settles. Qed.
Example glr_text_parse_ends_case : ~ hidden_left_recursive amb_g /\ ~ cyclic amb_g /\ table_of_result (AllowedConflicts amb_tb amb_cs) amb_tb /\
  snd (glr_text_parse 1 plus_rx amb_p sum_text) = OutOfFuel /\ snd (glr_text_parse 20 plus_rx amb_p sum_text) <> OutOfFuel.
Proof.
  split; [exact amb_unhidden|]. split; [exact amb_uncyclic|]. split; [constructor|].
  split; [vm_compute; reflexivity|]. rewrite (proj1 plus_runs). discriminate.
Qed.
Print Assumptions glr_text_parse_ends.

(** C43.  Without [sealed] a text is accepted which cannot even be divided into lexemes (s = LPAR s RPAR | A, LALR, the text "a)#"). *)
Theorem text_parse_exact_refuted : exists rs g lfuel al d m tb p fuel source ev lx, small rs /\ from_rule_set rs = Ok g /\ usable_tokens (rs_tokens rs) /\ generate_lexer lfuel (rs_tokens rs) = Ok (al, d) /\
  generates KindLALR m g false = Ok (NoConflicts tb) /\ write_parser g tb = Ok p /\ epsilon_in_front g /\ no_empty_rhs g /\ ~ entry_left_recursive g /\ Forall valid_char source /\
  text_parse fuel (mkRustLexer al d (g_tokens g)) p source = (ev, Ok lx) /\ ~ exists ts, tokenised (rs_tokens rs) source ts.
Proof.
  destruct paren_text_run as (ev & lx & R & _). exists paren_text_rules, paren_g, 100, paren_al, paren_dfa, 100, paren_lalr_tb, paren_lalr_p, 10, [97; 41; 35]%N, ev, lx.
  split; [apply GrammarFactsProof.smallb_ok; reflexivity|]. split; [exact paren_text_built|]. split; [exact paren_usable|]. split; [exact paren_lexer|]. split; [exact paren_lalr_tb_ok|].
  split; [exact paren_lalr_p_ok|]. split; [exact paren_front|]. split; [exact paren_ne|]. split; [exact paren_nl|].
  split; [repeat constructor; unfold valid_char, CHAR_MAX; lia|]. split; [exact R|exact paren_text_bad].
Qed.
Print Assumptions text_parse_exact_refuted.

(** C43.  With a token which matches the empty text, lexer and parser may run for ever (XS = /x*/, s = XS*, the text "y"). *)
Theorem text_parse_ends_refuted : exists rs g lfuel al d m tb p, small rs /\ from_rule_set rs = Ok g /\ valid_rules (rs_tokens rs) /\ proper_rules (rs_tokens rs) /\
  generate_lexer lfuel (rs_tokens rs) = Ok (al, d) /\ generates KindLR1 m g false = Ok (NoConflicts tb) /\ write_parser g tb = Ok p /\
  forall fuel, snd (text_parse fuel (mkRustLexer al d (g_tokens g)) p [121%N]) = OutOfFuel.
Proof.
  exists star_rules, star_g, 100, star_al, star_dfa, 100, star_tb, star_p. split; [apply GrammarFactsProof.smallb_ok; reflexivity|]. split; [exact star_built|].
  split; [apply star_valid|]. split; [apply star_valid|]. split; [exact star_lexer|]. split; [exact star_tb_ok|]. split; [exact star_p_ok|exact star_forever].
Qed.
Print Assumptions text_parse_ends_refuted.
