(** C46. *)
From Coq Require Import String List Arith NArith Bool Lia.
From Verif Require Import Base InputModel GrammarModel GrammarSpec GrammarFactsProof GrammarProperties LLModel LLSpec LLExample LRModel LRSpec LRExample ShapesProof GLRModel GLRSpec GLRExample
  CanonSpec CanonProof CanonFactsProof HierarchyExample.
Import ListNotations.
Local Open Scope nat_scope.
Local Open Scope list_scope.

(** C46.  The state which a table reaches on a sequence of symbols contains what the textbook item sets of that sequence (closure and goto, without states) say: the reductions of the complete items,
    the shifts of the symbols behind a dot, acceptance, errors elsewhere; two sequences reach the same state iff their item sets agree (LALR(1): but for the lookaheads). *)
Theorem table_canonical : forall kind m g allow r tb ga q, wf_grammar g -> no_empty_rhs g -> generates kind m g allow = Ok r -> table_of_result r tb -> after tb ga q ->
  canonical_at kind g tb ga q.
Proof. exact generated_canonical. Qed.
Example table_canonical_case : wf_grammar amb_g /\ no_empty_rhs amb_g /\ (exists r, generates KindLALR 100 amb_g true = Ok r /\ table_of_result r amb_tb) /\
  after amb_tb [NonTerminal 1; Terminal 1; NonTerminal 1]%N 4 /\ entries amb_tb 4 (Terminal 1) = [Reduce (Some 1); Shift 3] /\ completes KindLALR amb_g [NonTerminal 1; Terminal 1; NonTerminal 1]%N (Some 1) (Terminal 1).
Proof.
  assert (wf_grammar amb_g) as W by exact (grammar_wf _ _ amb_built). assert (no_empty_rhs amb_g) as N by (apply (built_no_empty _ _ amb_built); reflexivity).
  assert (exists r, generates KindLALR 100 amb_g true = Ok r /\ table_of_result r amb_tb) as (r & G & T) by (eexists; split; [exact amb_tb_ok|constructor]).
  assert (after amb_tb [NonTerminal 1; Terminal 1; NonTerminal 1]%N 4) as A.
  { apply (af_snoc amb_tb [NonTerminal 1; Terminal 1]%N 3); [|cbn; auto]. apply (af_snoc amb_tb [NonTerminal 1]%N 1); [|cbn; auto]. apply (af_snoc amb_tb [] 0); [|cbn; auto]. apply (af_nil amb_tb). }
  split; [exact W|]. split; [exact N|]. split; [eauto|]. split; [exact A|]. split; [reflexivity|].
  apply (ca_reduce _ _ _ _ _ (generated_canonical _ _ _ _ _ _ _ _ W N G T A)). cbn. auto.
Qed.
Print Assumptions table_canonical.

(** C46.  Without the hypothesis on empty right-hand sides it is false: after [s = x t A | y t A; x = B; y = B; t = ()] the first state does not shift B. *)
Theorem table_canonical_refuted : exists rs g tb, from_rule_set rs = Ok g /\ wf_grammar g /\ generates KindLR1 100 g false = Ok (NoConflicts tb) /\ after tb [] 0 /\ ~ canonical_at KindLR1 g tb [] 0.
Proof.
  exists blind_rules, blind_g, blind_tb. split; [exact blind_built|]. split; [exact (grammar_wf _ _ blind_built)|]. split; [exact blind_tb_ok|]. split; [apply (af_nil blind_tb)|exact blind_not_canonical].
Qed.
Print Assumptions table_canonical_refuted.

(** C46.  Every state is reached on some sequence of symbols, so that the description above covers the whole table ... *)
Theorem states_reached : forall kind m g allow r tb q, wf_grammar g -> epsilon_in_front g -> ~ entry_left_recursive g -> generates kind m g allow = Ok r -> table_of_result r tb ->
  q < tb_states tb -> exists ga, after tb ga q.
Proof. exact generated_reached. Qed.
Example states_reached_case : wf_grammar ll_g /\ epsilon_in_front ll_g /\ ~ entry_left_recursive ll_g /\ generates KindLR1 100 ll_g false = Ok (NoConflicts lr1_tb) /\ 3 < tb_states lr1_tb /\
  after lr1_tb [Terminal 2]%N 3.
Proof.
  split; [exact ll_g_wf|]. split; [exact ll_g_front|]. split; [exact ll_g_nl|]. split; [exact lr1_tb_ok|]. split; [vm_compute; lia|]. apply (af_snoc lr1_tb [] 0); [apply (af_nil lr1_tb)|cbn; auto].
Qed.
Print Assumptions states_reached.

(** C46.  ... unless the entry rule is left-recursive (the shift of the entry symbol in the first state is replaced by acceptance) ... *)
Theorem states_reached_left_recursion_refuted : exists rs g tb q, from_rule_set rs = Ok g /\ epsilon_in_front g /\ generates KindLR1 100 g false = Ok (NoConflicts tb) /\ q < tb_states tb /\
  forall ga, ~ after tb ga q.
Proof.
  exists leftrec_rules, leftrec_g, leftrec_tb, 1. split; [exact leftrec_built|]. split; [apply leftrec_front|]. split; [exact leftrec_tb_ok|]. split; [vm_compute; lia|exact leftrec_unreached].
Qed.
Print Assumptions states_reached_left_recursion_refuted.

(** C46.  ... or an Epsilon stands within a right-hand side (states behind it exist, the shift to them does not). *)
Theorem states_reached_epsilon_refuted : exists rs g tb q, from_rule_set rs = Ok g /\ ~ entry_left_recursive g /\ generates KindLR1 100 g false = Ok (NoConflicts tb) /\ q < tb_states tb /\
  forall ga, ~ after tb ga q.
Proof.
  exists mid_rules, mid_g, mid_tb, 2. split; [exact mid_built|]. split; [exact mid_nl|]. split; [exact mid_tb_ok|]. split; [vm_compute; lia|exact mid_unreached].
Qed.
Print Assumptions states_reached_epsilon_refuted.

(** C46.  A table is generated without conflicts iff the grammar is LR(0), LALR(1) or LR(1) by the textbook: after no sequence is a rule complete where another one is complete or a symbol may come. *)
Theorem conflicts_exact : forall kind m g allow r, wf_grammar g -> no_empty_rhs g -> generates kind m g allow = Ok r -> (conflict_free r <-> clash_free kind g).
Proof. exact generated_clash. Qed.
Example conflicts_exact_case : wf_grammar amb_g /\ no_empty_rhs amb_g /\ (exists cs, generates KindLR1 100 amb_g false = Ok (BadConflicts cs)) /\ ~ clash_free KindLR1 amb_g /\
  clash_free KindLR1 ll_g.
Proof.
  assert (wf_grammar amb_g) as W by exact (grammar_wf _ _ amb_built). assert (no_empty_rhs amb_g) as N by (apply (built_no_empty _ _ amb_built); reflexivity).
  assert (exists cs, generates KindLR1 100 amb_g false = Ok (BadConflicts cs)) as (cs & G) by (eexists; vm_compute; reflexivity).
  split; [exact W|]. split; [exact N|]. split; [eauto|]. split.
  - intros C. apply (generated_clash _ _ _ _ _ W N G) in C. destruct C as (tb & C). discriminate C.
  - apply (generated_clash _ _ _ _ _ ll_g_wf ll_g_ne lr1_tb_ok). eexists. reflexivity.
Qed.
Print Assumptions conflicts_exact.

(** C46.  Without the hypothesis on empty right-hand sides conflicts may go unnoticed. *)
Theorem conflicts_exact_refuted : exists rs g tb, from_rule_set rs = Ok g /\ wf_grammar g /\ generates KindLR1 100 g false = Ok (NoConflicts tb) /\ ~ clash_free KindLR1 g.
Proof. exists blind_rules, blind_g, blind_tb. split; [exact blind_built|]. split; [exact (grammar_wf _ _ blind_built)|]. split; [exact blind_tb_ok|exact blind_clash]. Qed.
Print Assumptions conflicts_exact_refuted.
