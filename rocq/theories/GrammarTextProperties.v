(** Property theorems about the displayed text of a grammar (C62). *)
From Coq Require Import String List Arith NArith Bool.
From Verif Require Import Base InputModel BootModel BootExample InputGenModel InputGenSpec InputGenLapex InputGenExample InputTextSpec GrammarModel GrammarSpec LRModel LRExample NamesModel NamesSpec TableModel TableSpec PipelineModel PipelineSpec PipelineExample
  GrammarTextModel GrammarTextSpec GrammarTextProof GrammarTextLayoutProof GrammarTextFileProof GrammarTextExample GrammarTextFileExample.
Import ListNotations.
Local Open Scope string_scope.
Local Open Scope list_scope.

(** C62.  Every grammar that has been built can be displayed. *)
Theorem grammar_displayed : forall rs g, from_rule_set rs = Ok g -> exists text, grammar_text g = Ok text.
Proof. exact grammar_text_total_proof. Qed.
Example grammar_displayed_case : from_rule_set amb_rules = Ok amb_g /\ grammar_text amb_g = Ok amb_text.
Proof. split; [exact amb_built|exact (proj1 amb_displayed)]. Qed.
Print Assumptions grammar_displayed.

(** C62.  The text consists of a line with the entry, the rules in their order, one in a line behind a tab, and a closing brace. *)
Theorem grammar_layout : forall rs g text, from_rule_set rs = Ok g -> (grammar_text g = Ok text <->
  exists entry rules, shown g (g_entry g) entry /\ Forall2 (shown_rule g) (g_rules g) rules /\ text = String.concat end_of_line (grammar_lines entry rules)).
Proof. exact grammar_layout_proof. Qed.
Example grammar_layout_case : from_rule_set amb_rules = Ok amb_g /\ grammar_text amb_g = Ok (String.concat end_of_line (grammar_lines "s(0)" ["s(0) -> e(1)"; "e(1) -> e(1) ADD(1) e(1)"; "e(1) -> NUM(0)"])).
Proof. split; [exact amb_built|exact (proj1 amb_displayed)]. Qed.
Print Assumptions grammar_layout.

(** C62.  The text tells the entry, the rules in their order, and the language of the rule set. *)
Theorem grammar_display_tells : forall rs rs' g g' text, from_rule_set rs = Ok g -> from_rule_set rs' = Ok g' -> small rs -> small rs' -> plain_names rs -> plain_names rs' -> grammar_text g = Ok text -> grammar_text g' = Ok text ->
  g_entry g = g_entry g' /\ map (fun r => (r_lhs r, r_rhs r)) (g_rules g) = map (fun r => (r_lhs r, r_rhs r)) (g_rules g') /\ forall ts, ebnf rs (QRule (rs_entry rs)) ts <-> ebnf rs' (QRule (rs_entry rs')) ts.
Proof. exact grammar_told_proof. Qed.
Example grammar_display_tells_case : from_rule_set amb_rules = Ok amb_g /\ from_rule_set tagged_rules = Ok tagged_g /\ small amb_rules /\ small tagged_rules /\ plain_names amb_rules /\ plain_names tagged_rules /\
  grammar_text amb_g = Ok amb_text /\ grammar_text tagged_g = Ok amb_text /\ rs_tokens amb_rules <> rs_tokens tagged_rules.
Proof. split; [exact amb_built|]. split; [exact tagged_built|]. split; [exact amb_small|]. split; [exact tagged_small|]. split; [exact amb_plain|]. split; [exact tagged_plain|]. split; [exact (proj1 amb_displayed)|]. split; [exact (proj2 amb_displayed)|discriminate]. Qed.
Print Assumptions grammar_display_tells.

(** C62.  Not so for names with parentheses and spaces, which the types allow: grammars of different languages are displayed alike. *)
Theorem grammar_display_tells_refuted : exists rs rs' g g', from_rule_set rs = Ok g /\ from_rule_set rs' = Ok g' /\ small rs /\ small rs' /\ grammar_text g = grammar_text g' /\
  exists ts, ebnf rs (QRule (rs_entry rs)) ts /\ ~ ebnf rs' (QRule (rs_entry rs')) ts.
Proof.
  exists two_rules, one_rules, two_g, one_g. split; [exact two_built|]. split; [exact one_built|]. split; [split; discriminate|]. split; [split; discriminate|]. split; [exact one_two_displayed|]. exists ["A"; "B"]. split; [exact two_sentence|exact one_sentence].
Qed.
Print Assumptions grammar_display_tells_refuted.

(** C62.  The names in a file that has been read are such names. *)
Theorem file_names_plain : forall regex gn n source sr, build_input_parser 3000 (bytes lapex_text) = Some gn -> Forall valid_char source -> parse_lapex regex gn n source = Ok sr -> plain_names (unspanned sr).
Proof. exact file_plain_proof. Qed.
Example file_names_plain_case : build_input_parser 3000 (bytes lapex_text) = Some lapex_gen /\ Forall valid_char clash_file /\ parse_lapex no_regex lapex_gen 300 clash_file = Ok clash_sr /\ map tr_name (rs_tokens (unspanned clash_sr)) = ["ADD"; "NUM"].
Proof. split; [exact lapex_gen_built|]. split; [exact clash_valid|]. split; [exact clash_parsed|reflexivity]. Qed.
Print Assumptions file_names_plain.

(** C62.  So files whose grammars are displayed alike have the same language. *)
Theorem files_displayed_alike : forall regex gn n source source' sr sr' g g' text, build_input_parser 3000 (bytes lapex_text) = Some gn -> Forall valid_char source -> Forall valid_char source' ->
  parse_lapex regex gn n source = Ok sr -> parse_lapex regex gn n source' = Ok sr' -> small (unspanned sr) -> small (unspanned sr') -> from_rule_set (unspanned sr) = Ok g -> from_rule_set (unspanned sr') = Ok g' ->
  grammar_text g = Ok text -> grammar_text g' = Ok text ->
  forall ts, ebnf (unspanned sr) (QRule (snd (sr_entry sr))) ts <-> ebnf (unspanned sr') (QRule (snd (sr_entry sr'))) ts.
Proof. exact files_told_proof. Qed.
Example files_displayed_alike_case : build_input_parser 3000 (bytes lapex_text) = Some lapex_gen /\ Forall valid_char clash_file /\ Forall valid_char line_file /\ parse_lapex no_regex lapex_gen 300 clash_file = Ok clash_sr /\ parse_lapex no_regex lapex_gen 300 line_file = Ok line_sr /\
  small (unspanned clash_sr) /\ small (unspanned line_sr) /\ from_rule_set (unspanned clash_sr) = Ok clash_g /\ from_rule_set (unspanned line_sr) = Ok line_g /\ grammar_text clash_g = Ok clash_display /\ grammar_text line_g = Ok clash_display /\ clash_file <> line_file.
Proof.
  split; [exact lapex_gen_built|]. split; [exact clash_valid|]. split; [exact line_valid|]. split; [exact clash_parsed|]. split; [exact line_parsed|]. split; [split; discriminate|]. split; [split; discriminate|]. split; [exact clash_built|]. split; [exact line_built|].
  split; [exact (proj1 both_displayed)|]. split; [exact (proj2 both_displayed)|discriminate].
Qed.
Print Assumptions files_displayed_alike.
