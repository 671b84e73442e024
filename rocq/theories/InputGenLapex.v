(** The parser generated for lapex-input-gen/src/lapex.lapex, computed by the model. *)
From Coq Require Import String Ascii List Arith NArith Bool Lia.
From Verif Require Import Base InputModel GrammarModel GrammarSpec GrammarFactsProof LexerModel LexerExample LLExample LLSpec LRModel LRSpec ShapesProof LRExample NamesModel BootModel BootExample InputGenModel.
Import ListNotations.
Local Open Scope nat_scope.
Local Open Scope list_scope.

Definition lapex_g : grammar := Eval vm_compute in of_rules lapex_rules.
Lemma lapex_g_built : from_rule_set lapex_rules = Ok lapex_g.
Proof. vm_compute. reflexivity. Qed.
Lemma lapex_g_wf : wf_grammar lapex_g.
Proof. exact (grammar_wf _ _ lapex_g_built). Qed.
Lemma lapex_g_front : epsilon_in_front lapex_g.
Proof. apply (built_epsilon_in_front _ _ lapex_g_built). reflexivity. Qed.
Lemma lapex_g_ne : no_empty_rhs lapex_g.
Proof. apply (built_no_empty _ _ lapex_g_built). reflexivity. Qed.
Lemma lapex_g_nl : ~ entry_left_recursive lapex_g.
Proof.
  apply (not_left_recursive _ 0%N [2; 5; 6; 7]%N); [reflexivity|vm_compute; intros x H; repeat (destruct H as [<-|H]; [tauto|]); destruct H| |].
  - intros j H. repeat (destruct H as [<-|H]; [vm_compute; intros x Hx; repeat (destruct Hx as [<-|Hx]; [tauto|]); destruct Hx|]). destruct H.
  - intros H. repeat (destruct H as [H|H]; [discriminate|]). destruct H.
Qed.

Definition lapex_tb : lr_table := Eval vm_compute in table_from (generates KindLR1 3000 lapex_g false).
Lemma lapex_tb_ok : generates KindLR1 3000 lapex_g false = Ok (NoConflicts lapex_tb).
Proof. vm_compute. reflexivity. Qed.
Definition lapex_p : lr_parser := Eval vm_compute in parser_from lapex_g lapex_tb.
Lemma lapex_p_ok : write_parser lapex_g lapex_tb = Ok lapex_p.
Proof. vm_compute. reflexivity. Qed.

Definition lapex_visits : list (nat * string) := Eval vm_compute in match rule_visits lapex_g with Ok v => v | _ => [] end.
Lemma lapex_visits_ok : rule_visits lapex_g = Ok lapex_visits.
Proof. vm_compute. reflexivity. Qed.

Definition lapex_lexer_result : res lex_err (alphabet * dfa token_rule) := Eval vm_compute in generate_lexer 3000 (rs_tokens lapex_rules).
Definition lapex_al : alphabet := Eval vm_compute in match lapex_lexer_result with Ok (al, _) => al | _ => [] end.
Definition lapex_dfa : dfa token_rule := Eval vm_compute in match lapex_lexer_result with Ok (_, d) => d | _ => mkDfa [] [] 0 end.
Lemma lapex_lexer_ok : generate_lexer 3000 (rs_tokens lapex_rules) = Ok (lapex_al, lapex_dfa).
Proof. vm_compute. reflexivity. Qed.

Definition lapex_gen : generated := mkGenerated lapex_al lapex_dfa lapex_p lapex_visits (g_tokens lapex_g).
Lemma build_ok : forall fuel text rules g al d tb p v, parse_lapex_file text = Ok rules -> from_rule_set rules = Ok g -> generate_lexer fuel (rs_tokens rules) = Ok (al, d) ->
  generates KindLR1 fuel g false = Ok (NoConflicts tb) -> write_parser g tb = Ok p -> rule_visits g = Ok v ->
  build_input_parser fuel text = Some (mkGenerated al d p v (g_tokens g)).
Proof.
  intros fuel text rules g al d tb p v H1 H2 H3 H4 H5 H6. unfold generates in H4. cbn [kind_n kind_lalr] in H4. unfold build_input_parser. rewrite H1, H2, H3, H4, H5, H6. reflexivity.
Qed.
Lemma lapex_gen_built : build_input_parser 3000 (bytes lapex_text) = Some lapex_gen.
Proof. exact (build_ok 3000 (bytes lapex_text) lapex_rules lapex_g lapex_al lapex_dfa lapex_tb lapex_p lapex_visits lapex_read lapex_g_built lapex_lexer_ok lapex_tb_ok lapex_p_ok lapex_visits_ok). Qed.
