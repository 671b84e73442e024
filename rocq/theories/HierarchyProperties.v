(** C47, C48. *)
From Coq Require Import String List Arith NArith Bool Lia.
From Verif Require Import Base InputModel GrammarModel GrammarSpec GrammarFactsProof GrammarProperties LLModel LLSpec LLExample LRModel LRSpec LRExample ShapesProof GLRModel GLRSpec GLRExample
  LRTermSpec LRTermExample CanonSpec HierarchySpec HierarchyFactsProof HierarchyExample.
Import ListNotations.
Local Open Scope nat_scope.
Local Open Scope list_scope.

(** C47.  A grammar which has an LR(0) table without conflicts has an LALR(1) table without conflicts ... *)
Theorem lr0_within_lalr : forall g m m' allow allow' r r', wf_grammar g -> no_empty_rhs g -> generates KindLR0 m g allow = Ok r -> generates KindLALR m' g allow' = Ok r' ->
  conflict_free r -> conflict_free r'.
Proof. exact lr0_then_lalr. Qed.
Example lr0_within_lalr_case : from_rule_set simple_rules = Ok simple_g /\ no_empty_rhs simple_g /\ (exists tb, generates KindLR0 100 simple_g false = Ok (NoConflicts tb)) /\
  exists tb, generates KindLALR 100 simple_g true = Ok (NoConflicts tb).
Proof. split; [exact simple_built|]. split; [exact simple_ne|]. split; eexists; vm_compute; reflexivity. Qed.
Print Assumptions lr0_within_lalr.

(** C47.  ... but not the other way round. *)
Theorem lalr_within_lr0_refuted : exists rs g cs tb, from_rule_set rs = Ok g /\ no_empty_rhs g /\ all_productive g /\ generates KindLR0 100 g false = Ok (BadConflicts cs) /\
  generates KindLALR 100 g false = Ok (NoConflicts tb).
Proof.
  exists ll_expr, ll_g. eexists. exists lalr_tb. split; [exact ll_g_built|]. split; [exact ll_g_ne|]. split; [exact ll_productive|]. split; [vm_compute; reflexivity|exact lalr_tb_ok].
Qed.
Print Assumptions lalr_within_lr0_refuted.

(** C47.  A grammar which has an LALR(1) table without conflicts has an LR(1) table without conflicts ... *)
Theorem lalr_within_lr1 : forall g m m' allow allow' r r', wf_grammar g -> no_empty_rhs g -> generates KindLALR m g allow = Ok r -> generates KindLR1 m' g allow' = Ok r' ->
  conflict_free r -> conflict_free r'.
Proof. exact lalr_then_lr1. Qed.
Example lalr_within_lr1_case : from_rule_set ll_expr = Ok ll_g /\ no_empty_rhs ll_g /\ generates KindLALR 100 ll_g false = Ok (NoConflicts lalr_tb) /\ generates KindLR1 100 ll_g false = Ok (NoConflicts lr1_tb).
Proof. split; [exact ll_g_built|]. split; [exact ll_g_ne|]. split; [exact lalr_tb_ok|exact lr1_tb_ok]. Qed.
Print Assumptions lalr_within_lr1.

(** C47.  ... but not the other way round: the LALR(1) table of [s = A e A | B e B | A f B | B f A; e = C; f = C] has a conflict, its LR(1) table has none ... *)
Theorem lr1_within_lalr_refuted : exists rs g cs tb, from_rule_set rs = Ok g /\ no_empty_rhs g /\ all_productive g /\ generates KindLALR 100 g false = Ok (BadConflicts cs) /\
  generates KindLR1 100 g false = Ok (NoConflicts tb).
Proof.
  exists cross_rules, cross_g. eexists. eexists. split; [exact cross_built|]. split; [exact cross_ne|]. split; [exact cross_productive|]. split; vm_compute; reflexivity.
Qed.
Print Assumptions lr1_within_lalr_refuted.

(** C47.  ... and then the conflicts are between reductions only: merging LR(1) states adds no conflict with a shift. *)
Theorem merging_adds_no_shift_reduce : forall g m m' allow allow' r r', wf_grammar g -> no_empty_rhs g -> generates KindLR1 m g allow = Ok r -> generates KindLALR m' g allow' = Ok r' ->
  conflict_free r -> forall c, In c (reported r') -> ~ is_shift_reduce c.
Proof. exact lr1_then_no_shift_reduce. Qed.
Example merging_adds_no_shift_reduce_case : from_rule_set cross_rules = Ok cross_g /\ no_empty_rhs cross_g /\ (exists tb, generates KindLR1 100 cross_g false = Ok (NoConflicts tb)) /\
  generates KindLALR 100 cross_g false = Ok (BadConflicts [ReduceReduce 6 [mkItem (Some 5) 1 []; mkItem (Some 6) 1 []]]).
Proof. split; [exact cross_built|]. split; [exact cross_ne|]. split; [eexists; vm_compute; reflexivity|vm_compute; reflexivity]. Qed.
Print Assumptions merging_adds_no_shift_reduce.

(** C47.  An LALR(1) table has at most as many states as the LR(1) table ... *)
Theorem lalr_no_more_states : forall g m m' a a' r r' tb tb', wf_grammar g -> no_empty_rhs g -> generates KindLALR m g a = Ok r -> generates KindLR1 m' g a' = Ok r' ->
  table_of_result r tb -> table_of_result r' tb' -> tb_states tb <= tb_states tb'.
Proof. exact lalr_states_le. Qed.
Example lalr_no_more_states_case : from_rule_set ll_expr = Ok ll_g /\ no_empty_rhs ll_g /\ generates KindLALR 100 ll_g false = Ok (NoConflicts lalr_tb) /\ generates KindLR1 100 ll_g false = Ok (NoConflicts lr1_tb) /\
  tb_states lalr_tb = 10 /\ tb_states lr1_tb = 19.
Proof. split; [exact ll_g_built|]. split; [exact ll_g_ne|]. split; [exact lalr_tb_ok|]. split; [exact lr1_tb_ok|]. split; reflexivity. Qed.
Print Assumptions lalr_no_more_states.

(** C47.  ... and as many as the LR(0) table if every non-terminal derives some word ... *)
Theorem lalr_states_of_lr0 : forall g m m' a a' r r' tb tb', wf_grammar g -> no_empty_rhs g -> all_productive g -> generates KindLR0 m g a = Ok r -> generates KindLALR m' g a' = Ok r' ->
  table_of_result r tb -> table_of_result r' tb' -> tb_states tb = tb_states tb'.
Proof. exact lr0_states_eq. Qed.
Example lalr_states_of_lr0_case : from_rule_set ll_expr = Ok ll_g /\ no_empty_rhs ll_g /\ all_productive ll_g /\ generates KindLALR 100 ll_g false = Ok (NoConflicts lalr_tb) /\
  exists r tb, generates KindLR0 100 ll_g true = Ok r /\ table_of_result r tb /\ tb_states tb = 10.
Proof.
  split; [exact ll_g_built|]. split; [exact ll_g_ne|]. split; [exact ll_productive|]. split; [exact lalr_tb_ok|]. eexists. eexists. split; [vm_compute; reflexivity|]. split; [constructor|reflexivity].
Qed.
Print Assumptions lalr_states_of_lr0.

(** C47.  ... but fewer if not ([s = y u | A; y = B; u = u]). *)
Theorem lalr_states_of_lr0_refuted : exists rs g r r' tb tb', from_rule_set rs = Ok g /\ no_empty_rhs g /\ generates KindLR0 100 g true = Ok r /\ generates KindLALR 100 g true = Ok r' /\
  table_of_result r tb /\ table_of_result r' tb' /\ tb_states tb' < tb_states tb.
Proof.
  exists dead_rules, dead_g. do 4 eexists. split; [exact dead_built|]. split; [exact dead_ne|]. split; [vm_compute; reflexivity|]. split; [vm_compute; reflexivity|].
  split; [constructor|]. split; [constructor|]. apply Nat.ltb_lt. reflexivity.
Qed.
Print Assumptions lalr_states_of_lr0_refuted.

(** C48.  If an LL(1) table is generated for a grammar whose non-terminals derive words, its LR(1) table has no conflicts ... *)
Theorem ll1_within_lr1 : forall g m m' tb allow r, wf_grammar g -> no_empty_rhs g -> terminals_fit g -> all_productive g ->
  ll_generate_table m g = Ok tb -> generates KindLR1 m' g allow = Ok r -> conflict_free r.
Proof. exact ll1_then_lr1. Qed.
Example ll1_within_lr1_case : from_rule_set lonely_rules = Ok lonely_g /\ no_empty_rhs lonely_g /\ terminals_fit lonely_g /\ all_productive lonely_g /\ (exists tb, ll_generate_table 100 lonely_g = Ok tb) /\
  exists tb, generates KindLR1 100 lonely_g false = Ok (NoConflicts tb).
Proof. split; [exact lonely_built|]. split; [exact lonely_ne|]. split; [exact lonely_fit|]. split; [exact lonely_productive|]. split; eexists; vm_compute; reflexivity. Qed.
Print Assumptions ll1_within_lr1.

(** C48.  ... which is false for [s = x C | x D; x = x] ... *)
Theorem ll1_within_lr1_unproductive_refuted : exists rs g tb cs, from_rule_set rs = Ok g /\ no_empty_rhs g /\ terminals_fit g /\ ll_generate_table 100 g = Ok tb /\
  generates KindLR1 100 g false = Ok (BadConflicts cs).
Proof. exists barren_rules, barren_g. eexists. eexists. split; [exact barren_built|]. split; [exact barren_ne|]. split; [exact barren_fit|]. split; vm_compute; reflexivity. Qed.
Print Assumptions ll1_within_lr1_unproductive_refuted.

(** C48.  ... and there are LR(1) grammars which are not LL(1). *)
Theorem lr1_within_ll1_refuted : exists rs g tb e, from_rule_set rs = Ok g /\ no_empty_rhs g /\ all_productive g /\ generates KindLR1 100 g false = Ok (NoConflicts tb) /\ ll_generate_table 100 g = Err e.
Proof. exists cross_rules, cross_g. eexists. eexists. split; [exact cross_built|]. split; [exact cross_ne|]. split; [exact cross_productive|]. split; vm_compute; reflexivity. Qed.
Print Assumptions lr1_within_ll1_refuted.

(** C48.  The LALR(1) table has no conflicts, either, if every non-terminal derives a word which is not empty ... *)
Theorem ll1_within_lalr : forall g m m' tb allow r, wf_grammar g -> no_empty_rhs g -> terminals_fit g -> some_word g ->
  ll_generate_table m g = Ok tb -> generates KindLALR m' g allow = Ok r -> conflict_free r.
Proof. exact ll1_then_lalr. Qed.
Example ll1_within_lalr_case : from_rule_set ll_expr = Ok ll_g /\ no_empty_rhs ll_g /\ terminals_fit ll_g /\ some_word ll_g /\ (exists tb, ll_generate_table 100 ll_g = Ok tb) /\
  generates KindLALR 100 ll_g false = Ok (NoConflicts lalr_tb).
Proof. split; [exact ll_g_built|]. split; [exact ll_g_ne|]. split; [exact ll_g_fit|]. split; [exact ll_words|]. split; [eexists; vm_compute; reflexivity|exact lalr_tb_ok]. Qed.
Print Assumptions ll1_within_lalr.

(** C48.  ... but not in general ([s = P x | e R | f Q; x = e Q | f R; e = a; f = a; a = !]) ... *)
Theorem ll1_within_lalr_refuted : exists rs g tb cs, from_rule_set rs = Ok g /\ no_empty_rhs g /\ terminals_fit g /\ all_productive g /\ ll_generate_table 100 g = Ok tb /\
  generates KindLALR 100 g false = Ok (BadConflicts cs).
Proof. exists lonely_rules, lonely_g. eexists. eexists. split; [exact lonely_built|]. split; [exact lonely_ne|]. split; [exact lonely_fit|]. split; [exact lonely_productive|]. split; vm_compute; reflexivity. Qed.
Print Assumptions ll1_within_lalr_refuted.

(** C48.  ... and if no non-terminal derives the empty word, not even the LR(0) table has conflicts ... *)
Theorem ll1_within_lr0 : forall g m m' tb allow r, wf_grammar g -> no_empty_rhs g -> terminals_fit g -> all_productive g -> no_empty_word g ->
  ll_generate_table m g = Ok tb -> generates KindLR0 m' g allow = Ok r -> conflict_free r.
Proof. exact ll1_then_lr0. Qed.
Example ll1_within_lr0_case : from_rule_set simple_rules = Ok simple_g /\ no_empty_rhs simple_g /\ terminals_fit simple_g /\ all_productive simple_g /\ no_empty_word simple_g /\
  (exists tb, ll_generate_table 100 simple_g = Ok tb) /\ exists tb, generates KindLR0 100 simple_g false = Ok (NoConflicts tb).
Proof.
  split; [exact simple_built|]. split; [exact simple_ne|]. split; [exact simple_fit|]. split; [exact simple_productive|]. split; [exact simple_words|]. split; eexists; vm_compute; reflexivity.
Qed.
Print Assumptions ll1_within_lr0.

(** C48.  ... which again needs the hypothesis (expr = term (ADD term)* is LL(1), not LR(0)). *)
Theorem ll1_within_lr0_refuted : exists rs g tb cs, from_rule_set rs = Ok g /\ no_empty_rhs g /\ terminals_fit g /\ some_word g /\ ll_generate_table 100 g = Ok tb /\
  generates KindLR0 100 g false = Ok (BadConflicts cs).
Proof. exists ll_expr, ll_g. eexists. eexists. split; [exact ll_g_built|]. split; [exact ll_g_ne|]. split; [exact ll_g_fit|]. split; [exact ll_words|]. split; vm_compute; reflexivity. Qed.
Print Assumptions ll1_within_lr0_refuted.
