(** Property theorems for the emitted GLR parser (C27). *)
From Coq Require Import String List Arith NArith Bool Lia.
From Verif Require Import Base InputModel GrammarModel GrammarSpec GrammarProperties LLModel LLSpec LLExample LRModel LRSpec LRExample GLRModel GLRSpec GLRFactsProof GLRExample.
Import ListNotations.
Local Open Scope string_scope.
Local Open Scope nat_scope.
Local Open Scope list_scope.

(** C27.  A parser is written for every table, with or without conflicts. *)
Theorem glr_parser_written : forall k m g allow r tb, wf_grammar g -> generates k m g allow = Ok r -> table_of_result r tb -> exists p, glr_write_parser g tb = Ok p.
Proof. exact glr_writes. Qed.
Example glr_parser_written_case : wf_grammar amb_g /\ generates KindLALR 100 amb_g true = Ok (AllowedConflicts amb_tb amb_cs) /\ length amb_cs = 1 /\
  table_of_result (AllowedConflicts amb_tb amb_cs) amb_tb /\ glr_write_parser amb_g amb_tb = Ok amb_p.
Proof. split; [exact amb_wf|]. split; [exact amb_tb_ok|]. split; [reflexivity|]. split; [constructor|exact amb_p_ok]. Qed.
Print Assumptions glr_parser_written.

(** C27.  An accepting run makes the visitor calls of a parse tree, whose leaves are a prefix of the tokens. *)
Theorem glr_accepts_derivations : forall k m g allow r tb, wf_grammar g -> generates k m g allow = Ok r -> table_of_result r tb -> forall p, glr_write_parser g tb = Ok p ->
  forall fuel w ev out, glr_parse fuel p w = (ev, Ok out) -> exists tr rest, parse_tree g tr /\ ev = post_order tr /\ w = iyield tr ++ rest /\ out = tl rest.
Proof. exact glr_sound. Qed.
Example glr_accepts_derivations_case : generates KindLALR 100 look_g true = Ok (AllowedConflicts look_tb look_cs) /\ length look_cs = 1 /\ glr_write_parser look_g look_tb = Ok look_p /\
  (exists ev, glr_parse 20 look_p [0; 0; 0]%N = (ev, Ok []) /\ ev = post_order (INode 0 [INode 2 [ILeaf 0]; ILeaf 0; ILeaf 0])) /\
  exists ev, glr_parse 20 look_p [0; 0; 1]%N = (ev, Ok []) /\ ev = post_order (INode 1 [INode 3 [ILeaf 0]; ILeaf 0; ILeaf 1]).
Proof.
  split; [exact look_tb_ok|]. split; [reflexivity|]. split; [exact look_p_ok|].
  split; (eexists; split; [vm_compute; reflexivity|reflexivity]).
Qed.
Print Assumptions glr_accepts_derivations.

(** C27.  For a fresh entry symbol, or LR(1) and an entry symbol which is not left-recursive: success means
    exactly one parse tree, whose visitor calls are made; a sentence is never rejected; the parser panics on
    ambiguous sentences only. *)
Theorem glr_parses_exactly : forall k m g allow r tb, wf_grammar g -> generates k m g allow = Ok r -> table_of_result r tb -> forall p, glr_write_parser g tb = Ok p ->
  epsilon_in_front g -> no_empty_rhs g -> sealed k g -> forall fuel w,
  match glr_parse fuel p w with
  | (ev, Ok out) => out = [] /\ exists tr, parse_tree g tr /\ iyield tr = w /\ ev = post_order tr /\ forall tr', parse_tree g tr' -> iyield tr' = w -> tr' = tr
  | (_, Err _) => ~ derives (g_rules g) [g_entry g] w
  | (_, Panic) => ambiguous_sentence g w
  | (_, OutOfFuel) => True
  end.
Proof. exact glr_exact. Qed.
Example glr_parses_exactly_case : epsilon_in_front amb_g /\ no_empty_rhs amb_g /\ sealed KindLALR amb_g /\
  glr_parse 20 amb_p [0; 1; 0]%N = (post_order amb_tree, Ok []) /\ parse_tree amb_g amb_tree /\
  snd (glr_parse 20 amb_p [0; 1; 1]%N) = Err (GUnexpectedToken (Some 1%N) [Some 0%N]) /\
  snd (glr_parse 20 amb_p [0; 1; 0; 1; 0]%N) = Panic /\ ambiguous_sentence amb_g [0; 1; 0; 1; 0]%N.
Proof.
  split; [exact amb_front|]. split; [exact amb_ne|]. split; [exact amb_sealed|]. split; [exact amb_run|]. split; [apply amb_tree_ok|].
  split; [exact amb_error|]. split; [exact amb_panics|exact amb_sentence].
Qed.
Print Assumptions glr_parses_exactly.

(** C27.  Without these conditions on the entry symbol other sequences are accepted (s = LPAR s RPAR | A, A RPAR). *)
Theorem glr_accepts_sentences_only_refuted : exists rs g r tb p w ev, from_rule_set rs = Ok g /\ generates KindLALR 100 g false = Ok r /\ table_of_result r tb /\ glr_write_parser g tb = Ok p /\
  epsilon_in_front g /\ no_empty_rhs g /\ ~ entry_left_recursive g /\ glr_parse 10 p w = (ev, Ok []) /\ ~ derives (g_rules g) [g_entry g] w.
Proof.
  exists paren_rules, paren_g, (NoConflicts paren_lalr_tb), paren_lalr_tb, paren_glr, [2; 1]%N, [EShift (Some 2%N); EReduce 1].
  split; [exact paren_built|]. split; [exact paren_lalr_tb_ok|]. split; [constructor|]. split; [exact paren_glr_ok|]. split; [exact paren_front|]. split; [exact paren_ne|]. split; [exact paren_nl|]. exact paren_premature.
Qed.
Print Assumptions glr_accepts_sentences_only_refuted.

(** C27.  Nor is a panic then a sign of an ambiguous sentence (s = LPAR s RPAR | A | A RPAR RPAR, A RPAR RPAR). *)
Theorem glr_panics_if_ambiguous_only_refuted : exists rs g r tb p tr, from_rule_set rs = Ok g /\ generates KindLALR 100 g true = Ok r /\ table_of_result r tb /\ glr_write_parser g tb = Ok p /\
  epsilon_in_front g /\ no_empty_rhs g /\ ~ entry_left_recursive g /\ parse_tree g tr /\ ~ ambiguous_sentence g (iyield tr) /\ snd (glr_parse 20 p (iyield tr)) = Panic.
Proof.
  destruct early_tb_ok as (r & A & B). exists early_rules, early_g, r, early_tb, early_p, (INode 2 [ILeaf 2; ILeaf 1; ILeaf 1]).
  split; [exact early_built|]. split; [exact A|]. split; [exact B|]. split; [exact early_p_ok|]. split; [exact early_front|]. split; [exact early_ne|]. split; [exact early_nl|].
  split; [exact early_tree|]. split; [exact early_one_tree|exact early_panics].
Qed.
Print Assumptions glr_panics_if_ambiguous_only_refuted.

(** C27.  A GLR parser does not parse all sentences of an ambiguous grammar: it panics if there are two trees. *)
Theorem glr_parses_ambiguous_refuted : exists rs g r tb p tr, from_rule_set rs = Ok g /\ generates KindLALR 100 g true = Ok r /\ table_of_result r tb /\ glr_write_parser g tb = Ok p /\
  epsilon_in_front g /\ no_empty_rhs g /\ entry_fresh g /\ parse_tree g tr /\ snd (glr_parse 20 p (iyield tr)) = Panic.
Proof.
  exists amb_rules, amb_g, (AllowedConflicts amb_tb amb_cs), amb_tb, amb_p, amb_left.
  split; [exact amb_built|]. split; [exact amb_tb_ok|]. split; [constructor|]. split; [exact amb_p_ok|]. split; [exact amb_front|]. split; [exact amb_ne|]. split; [exact amb_entry|].
  split; [|exact amb_panics]. unfold parse_tree; simpl; tree.
Qed.
Print Assumptions glr_parses_ambiguous_refuted.

(** C27.  An error is reported at a token behind which no continuation is a sentence: no sentence starts with
    the tokens before it, followed by that token (or by the end of the input). *)
Theorem glr_errors_are_errors : forall k m g allow r tb, wf_grammar g -> generates k m g allow = Ok r -> table_of_result r tb -> forall p, glr_write_parser g tb = Ok p ->
  epsilon_in_front g -> no_empty_rhs g -> forall fuel w ev e, glr_parse fuel p w = (ev, Err e) ->
  exists consumed rest, w = consumed ++ rest /\ errors e <> [] /\ (forall got expected, In (got, expected) (errors e) -> got = hd_error rest) /\
    forall rest', hd_error rest' = hd_error rest -> ~ derives (g_rules g) [g_entry g] (consumed ++ rest').
Proof. exact glr_error_sound. Qed.
Example glr_errors_are_errors_case : epsilon_in_front amb_g /\ no_empty_rhs amb_g /\
  glr_parse 20 amb_p [0; 1; 1; 0]%N = ([EShift (Some 0); EReduce 2; EShift (Some 1)]%N, Err (GUnexpectedToken (Some 1%N) [Some 0%N])).
Proof. split; [exact amb_front|]. split; [exact amb_ne|]. vm_compute. reflexivity. Qed.
Print Assumptions glr_errors_are_errors.

(** C27.  The tokens named in an error need not be all tokens which could follow: a stack which cannot go on is
    dropped while another one is still reduced (s = A N B | x n C | L n D; x = A; n = N, the input A N D). *)
Theorem glr_errors_name_continuations_refuted : exists rs g r tb p, from_rule_set rs = Ok g /\ generates KindLALR 100 g true = Ok r /\ table_of_result r tb /\ glr_write_parser g tb = Ok p /\
  exists consumed t t' ev e tr, glr_parse 20 p (consumed ++ [t]) = (ev, Err e) /\ (forall got expected, In (got, expected) (errors e) -> got = Some t) /\
    parse_tree g tr /\ iyield tr = consumed ++ [t'] /\ forall got expected, In (got, expected) (errors e) -> ~ In (Some t') expected.
Proof.
  destruct drop_tb_ok as (r & A & B). exists drop_rules, drop_g, r, drop_tb, drop_p. split; [exact drop_built|]. split; [exact A|]. split; [exact B|]. split; [exact drop_p_ok|].
  exists [0; 5]%N, 3%N, 1%N, [EShift (Some 0%N)], (GUnexpectedToken (Some 3%N) [Some 2%N]), (INode 0 [ILeaf 0; ILeaf 5; ILeaf 1]). split; [exact drop_error|].
  split; [intros got expected [X|[]]; congruence|]. split; [exact drop_sentence|]. split; [reflexivity|]. intros got expected [X|[]]. injection X as <- <-. intros [Y|[]]. discriminate.
Qed.
Print Assumptions glr_errors_name_continuations_refuted.

(** C27.  Without empty rules and cycles of unit rules the parser comes to an end, in a number of steps linear in the input. *)
Theorem glr_comes_to_an_end : forall k m g allow r tb, wf_grammar g -> generates k m g allow = Ok r -> table_of_result r tb -> forall p, glr_write_parser g tb = Ok p ->
  no_empty_rules g -> acyclic g -> forall fuel w, glr_bound g w <= fuel -> snd (glr_parse fuel p w) <> OutOfFuel.
Proof. exact glr_terminates. Qed.
Example glr_comes_to_an_end_case : no_empty_rules amb_g /\ acyclic amb_g /\ glr_bound amb_g [0; 1; 0]%N = 30 /\ glr_parse 30 amb_p [0; 1; 0]%N = (post_order amb_tree, Ok []).
Proof. split; [exact amb_nonempty|]. split; [exact amb_acyclic|]. split; [reflexivity|]. vm_compute. reflexivity. Qed.
Print Assumptions glr_comes_to_an_end.

(** C27.  With a cycle (s = e B; e = e | A) it does not come to an end on a sentence. *)
Theorem glr_cyclic_ends_refuted : exists rs g r tb p tr, from_rule_set rs = Ok g /\ generates KindLALR 100 g true = Ok r /\ table_of_result r tb /\ glr_write_parser g tb = Ok p /\
  no_empty_rules g /\ parse_tree g tr /\ forall fuel, snd (glr_parse fuel p (iyield tr)) = OutOfFuel.
Proof.
  destruct spin_tb_ok as (r & A & B). exists spin_rules, spin_g, r, spin_tb, spin_p, (INode 0 [INode 2 [ILeaf 0]; ILeaf 1]).
  split; [exact spin_built|]. split; [exact A|]. split; [exact B|]. split; [exact spin_p_ok|]. split; [exact spin_nonempty|]. split; [exact spin_sentence|exact spin_diverges].
Qed.
Print Assumptions glr_cyclic_ends_refuted.

(** C27.  Nor with an empty rule (s = e s A | A; e = !). *)
Theorem glr_empty_rule_ends_refuted : exists rs g r tb p tr, from_rule_set rs = Ok g /\ generates KindLALR 100 g true = Ok r /\ table_of_result r tb /\ glr_write_parser g tb = Ok p /\
  acyclic g /\ parse_tree g tr /\ forall fuel, snd (glr_parse fuel p (iyield tr)) = OutOfFuel.
Proof.
  destruct hidden_tb_ok as (r & A & B). exists hidden_rules, hidden_g, r, hidden_tb, hidden_p, (INode 1 [ILeaf 0]).
  split; [exact hidden_built|]. split; [exact A|]. split; [exact B|]. split; [exact hidden_p_ok|]. split; [exact hidden_acyclic|]. split; [exact hidden_sentence|exact hidden_diverges].
Qed.
Print Assumptions glr_empty_rule_ends_refuted.

(** C27.  For a table without conflicts the GLR parser does what the LR parser does: the same calls on success
    (the token looked at last is dropped from the rest) ... *)
Theorem glr_agrees_with_lr : forall k m g allow tb lp gp, wf_grammar g -> generates k m g allow = Ok (NoConflicts tb) -> write_parser g tb = Ok lp -> glr_write_parser g tb = Ok gp ->
  forall fuel w ev rest, lr_parse fuel lp w = (ev, Ok rest) -> forall fuel', length w + length ev + 3 <= fuel' -> glr_parse fuel' gp w = (ev, Ok (tl rest)).
Proof. exact glr_agrees_ok. Qed.
Example glr_agrees_with_lr_case : generates KindLALR 100 fresh_g false = Ok (NoConflicts fresh_tb) /\ write_parser fresh_g fresh_tb = Ok fresh_p /\ glr_write_parser fresh_g fresh_tb = Ok fresh_glr /\
  exists ev, length ev = 6 /\ lr_parse 20 fresh_p [0; 1; 0]%N = (ev, Ok []) /\ glr_parse 12 fresh_glr [0; 1; 0]%N = (ev, Ok []).
Proof. split; [exact fresh_tb_ok|]. split; [exact fresh_p_ok|]. split; [exact fresh_glr_ok|]. eexists. split; [|split; vm_compute; reflexivity]. reflexivity. Qed.
Print Assumptions glr_agrees_with_lr.

(** ... the same token and the same set of expected tokens in an error, where the reductions made with the
    offending token in view are not passed to the visitor ... *)
Theorem glr_agrees_with_lr_on_errors : forall k m g allow tb lp gp, wf_grammar g -> generates k m g allow = Ok (NoConflicts tb) -> write_parser g tb = Ok lp -> glr_write_parser g tb = Ok gp ->
  forall fuel w ev got expected, lr_parse fuel lp w = (ev, Err (UnexpectedTok got expected)) -> forall fuel', length w + length ev + 3 <= fuel' ->
  exists ev1 ev2 expected', glr_parse fuel' gp w = (ev1, Err (GUnexpectedToken got expected')) /\ ev = ev1 ++ ev2 /\ Forall is_reduction ev2 /\ (ev1 = [] \/ exists l t, ev1 = l ++ [EShift t]) /\
    forall t, In t expected' <-> In t expected.
Proof. exact glr_agrees_err. Qed.
Example glr_agrees_with_lr_on_errors_case : lr_parse 20 paren_lalr_p [0; 2; 0]%N = ([EShift (Some 0); EShift (Some 2)]%N, Err (UnexpectedTok (Some 0%N) [Some 1%N; None])) /\
  glr_parse 20 paren_glr [0; 2; 0]%N = ([EShift (Some 0); EShift (Some 2)]%N, Err (GUnexpectedToken (Some 0%N) [None; Some 1%N])).
Proof. split; vm_compute; reflexivity. Qed.
Print Assumptions glr_agrees_with_lr_on_errors.

(** ... it never panics, and when it comes to an end, so does the LR parser. *)
Theorem glr_conflict_free_no_panic : forall k m g allow tb lp gp, wf_grammar g -> generates k m g allow = Ok (NoConflicts tb) -> write_parser g tb = Ok lp -> glr_write_parser g tb = Ok gp ->
  forall fuel w, snd (glr_parse fuel gp w) <> Panic.
Proof. exact glr_agrees_panic. Qed.
Example glr_conflict_free_no_panic_case : generates KindLALR 100 paren_g false = Ok (NoConflicts paren_lalr_tb) /\ write_parser paren_g paren_lalr_tb = Ok paren_lalr_p /\
  glr_write_parser paren_g paren_lalr_tb = Ok paren_glr /\ snd (glr_parse 20 paren_glr [0; 2; 1]%N) = Ok [].
Proof. split; [exact paren_lalr_tb_ok|]. split; [exact paren_lalr_p_ok|]. split; [exact paren_glr_ok|]. vm_compute. reflexivity. Qed.
Print Assumptions glr_conflict_free_no_panic.

Theorem glr_conflict_free_ends : forall k m g allow tb lp gp, wf_grammar g -> generates k m g allow = Ok (NoConflicts tb) -> write_parser g tb = Ok lp -> glr_write_parser g tb = Ok gp ->
  forall fuel w, snd (glr_parse fuel gp w) <> OutOfFuel -> exists fuel', snd (lr_parse fuel' lp w) <> OutOfFuel.
Proof. exact glr_agrees_halt. Qed.
Example glr_conflict_free_ends_case : snd (glr_parse 20 paren_glr [0; 2; 0]%N) <> OutOfFuel /\ snd (lr_parse 20 paren_lalr_p [0; 2; 0]%N) <> OutOfFuel.
Proof. split; vm_compute; discriminate. Qed.
Print Assumptions glr_conflict_free_ends.
