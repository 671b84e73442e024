(** Property theorems for the termination of LR and GLR parsers (C38). *)
From Coq Require Import String List Arith NArith Bool Lia.
From Verif Require Import Base InputModel GrammarModel GrammarSpec GrammarFactsProof GrammarProperties LLModel LLSpec LLExample LRModel LRSpec LRFactsProof LRExample
  GLRModel GLRSpec GLRFactsProof GLRExample LRTermSpec LRTermFactsProof LRTermExample.
Import ListNotations.
Local Open Scope string_scope.
Local Open Scope nat_scope.
Local Open Scope list_scope.

(** C38.  If the grammar has neither hidden left recursion nor cycles, the parser stops on every input, sentence or not. *)
Theorem lr_comes_to_an_end : forall k m g allow tb p, wf_grammar g -> generates k m g allow = Ok (NoConflicts tb) -> write_parser g tb = Ok p ->
  ~ hidden_left_recursive g -> ~ cyclic g -> forall w, settles (fun fuel => lr_parse fuel p w).
Proof. exact lr_settles. Qed.
Example lr_comes_to_an_end_case : wf_grammar ll_g /\ generates KindLALR 100 ll_g false = Ok (NoConflicts lalr_tb) /\ write_parser ll_g lalr_tb = Ok lalr_p /\
  ~ hidden_left_recursive ll_g /\ ~ cyclic ll_g /\ ~ no_empty_rules ll_g /\ lr_parse 8 lalr_p [0; 1; 0]%N <> (sum_run, Ok []) /\
  lr_parse 9 lalr_p [0; 1; 0]%N = (sum_run, Ok []) /\ exists ev e, lr_parse 9 lalr_p [0; 1; 1]%N = (ev, Err e).
Proof.
  split; [exact (grammar_wf _ _ ll_g_built)|]. split; [exact lalr_tb_ok|]. split; [exact lalr_p_ok|]. split; [exact ll_unhidden|]. split; [exact ll_uncyclic|]. split; [exact ll_has_empty|].
  split; [vm_compute; discriminate|]. split; [vm_compute; reflexivity|]. eexists. eexists. vm_compute. reflexivity.
Qed.
Print Assumptions lr_comes_to_an_end.

(** C38.  Tables without conflicts exist only for such grammars, provided every non-terminal derives something. *)
Theorem conflict_free_no_hidden_recursion : forall k m g allow tb p, wf_grammar g -> generates k m g allow = Ok (NoConflicts tb) -> write_parser g tb = Ok p ->
  epsilon_in_front g -> no_empty_rhs g -> ~ entry_left_recursive g -> all_productive g -> ~ hidden_left_recursive g /\ ~ cyclic g.
Proof. exact conflict_free_shape. Qed.
Example conflict_free_no_hidden_recursion_case : generates KindLR1 100 ll_g false = Ok (NoConflicts lr1_tb) /\ write_parser ll_g lr1_tb = Ok lr1_p /\
  epsilon_in_front ll_g /\ no_empty_rhs ll_g /\ ~ entry_left_recursive ll_g /\ all_productive ll_g.
Proof. split; [exact lr1_tb_ok|]. split; [exact lr1_p_ok|]. split; [exact ll_g_front|]. split; [exact ll_g_ne|]. split; [exact ll_g_nl|exact ll_productive]. Qed.
Print Assumptions conflict_free_no_hidden_recursion.

(** C38.  A left-recursive entry symbol hides a cycle from the conflict check (a = a | A). *)
Theorem conflict_free_left_recursive_refuted : exists rs g tb p, from_rule_set rs = Ok g /\ generates KindLR1 100 g false = Ok (NoConflicts tb) /\ write_parser g tb = Ok p /\
  epsilon_in_front g /\ no_empty_rhs g /\ all_productive g /\ cyclic g.
Proof.
  exists cyclic_rules, cyclic_g, cyclic_tb, cyclic_p. split; [exact cyclic_built|]. split; [exact cyclic_tb_ok|]. split; [exact cyclic_p_ok|]. split; [apply cyclic_front|].
  split; [apply cyclic_front|]. split; [exact cyclic_productive|exact cyclic_cyclic].
Qed.
Print Assumptions conflict_free_left_recursive_refuted.

(** C38.  So does a non-terminal which derives nothing (s = e s, e = !). *)
Theorem conflict_free_unproductive_refuted : exists rs g tb p, from_rule_set rs = Ok g /\ generates KindLR1 100 g false = Ok (NoConflicts tb) /\ write_parser g tb = Ok p /\
  epsilon_in_front g /\ no_empty_rhs g /\ ~ entry_left_recursive g /\ hidden_left_recursive g.
Proof.
  exists loop_rules, loop_g, loop_tb, loop_p. split; [exact loop_built|]. split; [exact loop_tb_ok|]. split; [exact loop_p_ok|]. split; [apply loop_front|].
  split; [apply loop_front|]. split; [exact loop_nl|exact loop_hidden].
Qed.
Print Assumptions conflict_free_unproductive_refuted.

(** C38.  So the parser of a conflict-free table stops on every input. *)
Theorem lr_productive_comes_to_an_end : forall k m g allow tb p, wf_grammar g -> generates k m g allow = Ok (NoConflicts tb) -> write_parser g tb = Ok p ->
  epsilon_in_front g -> no_empty_rhs g -> ~ entry_left_recursive g -> all_productive g -> forall w, settles (fun fuel => lr_parse fuel p w).
Proof. exact productive_settles. Qed.
Example lr_productive_comes_to_an_end_case : generates KindLALR 100 ll_g false = Ok (NoConflicts lalr_tb) /\ write_parser ll_g lalr_tb = Ok lalr_p /\ all_productive ll_g /\
  (exists ev e, lr_parse 9 lalr_p [0; 1; 1]%N = (ev, Err e)) /\ snd (lr_parse 20 lalr_p [2; 2; 0; 3; 3]%N) = Ok [].
Proof. split; [exact lalr_tb_ok|]. split; [exact lalr_p_ok|]. split; [exact ll_productive|]. split; [eexists; eexists|]; vm_compute; reflexivity. Qed.
Print Assumptions lr_productive_comes_to_an_end.

(** C38.  Canonical LR(1) parsers, and LALR(1) parsers of grammars which do not use the entry symbol, decide the
    language: the run ends, with the parse tree's calls if there is one and with an error if there is none. *)
Theorem lr_decides : forall k m g allow tb p, wf_grammar g -> generates k m g allow = Ok (NoConflicts tb) -> write_parser g tb = Ok p ->
  epsilon_in_front g -> no_empty_rhs g -> ~ entry_left_recursive g -> all_productive g -> k = KindLR1 \/ k <> KindLR0 /\ entry_fresh g ->
  forall w, exists n, forall fuel, n <= fuel ->
  match lr_parse fuel p w with
  | (ev, Ok rest) => rest = [] /\ exists tr, parse_tree g tr /\ iyield tr = w /\ ev = post_order tr
  | (_, Err _) => ~ derives (g_rules g) [g_entry g] w
  | _ => False
  end.
Proof. exact parser_decides. Qed.
Example lr_decides_case : all_productive ll_g /\ generates KindLR1 100 ll_g false = Ok (NoConflicts lr1_tb) /\ write_parser ll_g lr1_tb = Ok lr1_p /\
  lr_parse 9 lr1_p [0; 1; 0]%N = (sum_run, Ok []) /\ (exists ev e, lr_parse 9 lr1_p [0; 1; 0; 3]%N = (ev, Err e)) /\
  entry_fresh fresh_g /\ all_productive fresh_g /\ generates KindLALR 100 fresh_g false = Ok (NoConflicts fresh_tb).
Proof.
  split; [exact ll_productive|]. split; [exact lr1_tb_ok|]. split; [exact lr1_p_ok|]. split; [vm_compute; reflexivity|]. split; [eexists; eexists; vm_compute; reflexivity|].
  split; [exact fresh_entry|]. split; [apply productiveb_ok; [exact fresh_wf|vm_compute; reflexivity]|exact fresh_tb_ok].
Qed.
Print Assumptions lr_decides.

(** C38.  The GLR parser stops on every input if the grammar, ambiguous or not, has neither hidden left recursion nor cycles. *)
Theorem glr_settles_without_loops : forall k m g allow r tb, wf_grammar g -> generates k m g allow = Ok r -> table_of_result r tb -> forall p, glr_write_parser g tb = Ok p ->
  ~ hidden_left_recursive g -> ~ cyclic g -> forall w, exists n, forall fuel, n <= fuel -> snd (glr_parse fuel p w) <> OutOfFuel.
Proof. exact glr_settles. Qed.
Example glr_settles_without_loops_case : wf_grammar opt_g /\ (exists r, generates KindLALR 100 opt_g true = Ok r /\ table_of_result r opt_tb) /\ glr_write_parser opt_g opt_tb = Ok opt_p /\
  ~ hidden_left_recursive opt_g /\ ~ cyclic opt_g /\ snd (glr_parse 50 opt_p [0; 1; 0]%N) = Ok [] /\ snd (glr_parse 50 opt_p [0; 0]%N) = Ok [] /\
  (exists e, snd (glr_parse 50 opt_p [0; 1; 1]%N) = Err e).
Proof.
  split; [exact (grammar_wf _ _ opt_built)|]. split; [exact opt_tb_ok|]. split; [exact opt_p_ok|]. split; [exact opt_unhidden|]. split; [exact opt_uncyclic|].
  split; [vm_compute; reflexivity|]. split; [vm_compute; reflexivity|]. eexists. vm_compute. reflexivity.
Qed.
Print Assumptions glr_settles_without_loops.

(** C38.  It runs for ever on a sentence of a grammar with a cycle (s = a B, a = a | A, the sentence A B) ... *)
Theorem glr_cycle_ends_refuted : exists rs g r tb p tr, from_rule_set rs = Ok g /\ generates KindLALR 100 g true = Ok r /\ table_of_result r tb /\ glr_write_parser g tb = Ok p /\
  ~ hidden_left_recursive g /\ parse_tree g tr /\ forall fuel, snd (glr_parse fuel p (iyield tr)) = OutOfFuel.
Proof.
  destruct spin_tb_ok as (r & A & B). exists spin_rules, spin_g, r, spin_tb, spin_p, (INode 0 [INode 2 [ILeaf 0]; ILeaf 1]).
  split; [exact spin_built|]. split; [exact A|]. split; [exact B|]. split; [exact spin_p_ok|]. split; [exact spin_unhidden|]. split; [exact spin_sentence|exact spin_diverges].
Qed.
Print Assumptions glr_cycle_ends_refuted.

(** C38.  ... and of a grammar with hidden left recursion (s = e s A | A, e = !, the sentence A). *)
Theorem glr_hidden_recursion_ends_refuted : exists rs g r tb p tr, from_rule_set rs = Ok g /\ generates KindLALR 100 g true = Ok r /\ table_of_result r tb /\ glr_write_parser g tb = Ok p /\
  ~ cyclic g /\ parse_tree g tr /\ forall fuel, snd (glr_parse fuel p (iyield tr)) = OutOfFuel.
Proof.
  destruct hidden_tb_ok as (r & A & B). exists hidden_rules, hidden_g, r, hidden_tb, hidden_p, (INode 1 [ILeaf 0]).
  split; [exact hidden_built|]. split; [exact A|]. split; [exact B|]. split; [exact hidden_p_ok|]. split; [exact hidden_uncyclic|]. split; [exact hidden_sentence|exact hidden_diverges].
Qed.
Print Assumptions glr_hidden_recursion_ends_refuted.
