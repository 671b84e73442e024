(** C50: generated LR tables and reported conflicts do not depend on hash seeds, on addresses or on the cache of item sets. *)
From Coq Require Import List Arith NArith Bool Permutation.
From Verif Require Import Base InputModel GrammarModel GrammarSpec LLModel LLSpec LRModel LRSpec LRExample LRHashModel LRHashSpec LRHashProof LRHashExample.
Import ListNotations.
Local Open Scope nat_scope.
Local Open Scope list_scope.

(** C50.  Whatever the order in which hash sets are iterated (another one every time) and wherever the entry rule and the vector of rules lie in memory: generation with
    hash sets, pointers and cache ends in the very same way (table, entries of cells in order, conflicts in order, panic, lack of fuel) as generation with sets
    ordered by position and without a cache. *)
Theorem tables_independent : forall L order fuel g kind allow, wf_grammar g -> in_a_vector L -> iterates order ->
  h_generate_table L order fuel g (kind_n kind) allow (kind_lalr kind) = generates kind fuel g allow.
Proof. exact generates_any_order. Qed.
Example tables_independent_case : wf_grammar late_g /\ in_a_vector behind /\ iterates seesaw /\
  visits (generate_parser_graph 100 late_g 1 true late_fs) = [0; 1; 3; 2] /\ visits (h_generate_parser_graph behind seesaw 100 late_g 1 true late_fs) = [1; 3; 0; 2] /\
  exists tb, h_generate_table behind seesaw 100 late_g 1 false true = Ok (NoConflicts tb) /\ tb_states tb = 4.
Proof.
  split; [exact late_wf|]. split; [exact behind_vector|]. split; [exact seesaw_iterates|]. split; [exact (proj1 late_visits)|]. split; [exact (proj2 late_visits)|].
  eexists. split; [vm_compute; reflexivity|reflexivity].
Qed.
Print Assumptions tables_independent.

(** C50.  Two runs on the same grammar give the same table, entry for entry, or report the same conflicts in the same order. *)
Theorem runs_agree : forall L L' order order' fuel g kind allow, wf_grammar g -> in_a_vector L -> in_a_vector L' -> iterates order -> iterates order' ->
  h_generate_table L order fuel g (kind_n kind) allow (kind_lalr kind) = h_generate_table L' order' fuel g (kind_n kind) allow (kind_lalr kind).
Proof. exact two_runs. Qed.
Example runs_agree_case : wf_grammar twice_g /\ in_a_vector behind /\ iterates seesaw /\
  exists c, h_generate_table behind seesaw 100 twice_g 1 false true = Ok (BadConflicts [c]).
Proof. split; [exact twice_wf|]. split; [exact behind_vector|]. split; [exact seesaw_iterates|]. eexists. vm_compute. reflexivity. Qed.
Print Assumptions runs_agree.

(** C50.  Rules must lie in one vector: if the first two rules changed places in memory, a conflict would be reported in another way. *)
Theorem tables_independent_refuted : exists rs g L order, from_rule_set rs = Ok g /\ wf_grammar g /\ iterates order /\ ~ in_a_vector L /\
  h_generate_table L order 100 g (kind_n KindLALR) false (kind_lalr KindLALR) <> generates KindLALR 100 g false.
Proof.
  exists twice_rules, twice_g, swapped, seesaw. split; [exact twice_built|]. split; [exact twice_wf|]. split; [exact seesaw_iterates|]. split; [|vm_compute; discriminate].
  intros H. specialize (H 0 1 (le_n 1)). discriminate H.
Qed.
Print Assumptions tables_independent_refuted.
