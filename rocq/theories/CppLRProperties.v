(** Property theorems for the emitted C++ LR parser (C35). *)
From Coq Require Import String List Arith NArith Bool Lia.
From Verif Require Import Base InputModel GrammarModel GrammarSpec LLExample LRModel LRSpec LRExample NamesModel NamesSpec CppLexerModel CppLRModel CppLRSpec CppLRProof CppLRExample.
Import ListNotations.
Local Open Scope nat_scope.
Local Open Scope list_scope.

(** C35.  A C++ parser is written for every table without conflicts. *)
Theorem cpp_lr_written : forall rs g, small rs -> from_rule_set rs = Ok g -> forall k m allow tb, generates k m g allow = Ok (NoConflicts tb) ->
  exists c, cpp_write (token_names rs) g tb = Ok c.
Proof. exact cpp_writes. Qed.
(** Also for the table for which no Rust parser is written (s = ! with LR(0)). *)
Example cpp_lr_written_case : small empty_rules /\ from_rule_set empty_rules = Ok empty_g /\ generates KindLR0 100 empty_g false = Ok (NoConflicts empty_tb) /\
  cpp_write (token_names empty_rules) empty_g empty_tb = Ok empty0_c /\ write_parser empty_g empty_tb = Panic.
Proof. split; [exact empty_small|]. split; [exact empty_built|]. split; [exact empty_tb_ok|]. split; [exact empty0_c_ok|exact empty_panics]. Qed.
Print Assumptions cpp_lr_written.

(** C35.  It is accepted by a C++ compiler exactly if the names of tokens and of non-terminals give distinct enumerators and
    no reduction is by a rule whose number has more than 16 bits. *)
Theorem cpp_lr_compiles_iff : forall rs g, small rs -> from_rule_set rs = Ok g -> forall k m allow tb, generates k m g allow = Ok (NoConflicts tb) ->
  forall c, cpp_write (token_names rs) g tb = Ok c -> (cpp_compiles c <-> names_distinct rs g /\ few_rules g tb).
Proof. exact compiles_iff. Qed.
Example cpp_lr_compiles_iff_case : small ll_expr /\ from_rule_set ll_expr = Ok ll_g /\ generates KindLR1 100 ll_g false = Ok (NoConflicts lr1_tb) /\
  cpp_write (token_names ll_expr) ll_g lr1_tb = Ok lr1_c /\ names_distinct ll_expr ll_g /\ few_rules ll_g lr1_tb.
Proof. split; [exact ll_small|]. split; [exact ll_g_built|]. split; [exact lr1_tb_ok|]. split; [exact lr1_c_ok|]. split; [exact ll_distinct|exact ll_few]. Qed.
Print Assumptions cpp_lr_compiles_iff.

(** C35.  This is so for at most 65536 rules. *)
Theorem cpp_lr_rules_fit : forall g k m allow tb, wf_grammar g -> generates k m g allow = Ok (NoConflicts tb) -> (N.of_nat (length (g_rules g)) <= 65536)%N -> few_rules g tb.
Proof. exact rules_fit. Qed.
Example cpp_lr_rules_fit_case : wf_grammar ll_g /\ generates KindLALR 100 ll_g false = Ok (NoConflicts lalr_tb) /\ (N.of_nat (length (g_rules ll_g)) <= 65536)%N.
Proof. split; [exact ll_g_wf|]. split; [exact lalr_tb_ok|]. vm_compute. discriminate. Qed.
Print Assumptions cpp_lr_rules_fit.

(** C35.  Without distinct names a parser which works in Rust does not compile in C++ (s = S; S = A). *)
Theorem cpp_lr_compiles_refuted : exists rs g tb p c, small rs /\ from_rule_set rs = Ok g /\ generates KindLR1 100 g false = Ok (NoConflicts tb) /\
  write_parser g tb = Ok p /\ lr_parse 10 p [0%N] = ([EShift (Some 0%N); EReduce 1; EReduce 0], Ok []) /\ cpp_write (token_names rs) g tb = Ok c /\ ~ cpp_compiles c.
Proof.
  exists case_rules, case_g, case_tb, case_p, case_c. split; [exact case_small|]. split; [exact case_built|]. split; [exact case_tb_ok|]. split; [exact case_p_ok|].
  split; [vm_compute; reflexivity|]. split; [exact case_c_ok|exact case_c_not].
Qed.
Print Assumptions cpp_lr_compiles_refuted.

(** C35.  If some rule of the entry symbol begins with another symbol, the C++ parser does what the Rust parser does on every
    token stream: the same visitor calls, the same remaining tokens, the same error. *)
Theorem cpp_lr_agrees : forall rs g, small rs -> from_rule_set rs = Ok g -> forall k m allow tb, generates k m g allow = Ok (NoConflicts tb) ->
  forall c, cpp_write (token_names rs) g tb = Ok c -> forall p, write_parser g tb = Ok p -> cpp_compiles c -> entry_starts g ->
  forall fuel w, same_run (token_names rs) (lr_parse fuel p w) (cpp_parse fuel c (map (fun t => cpp_token (token_names rs) (Some t)) w)).
Proof. exact (fun rs g sm Hg k m allow tb gen c wrc p wrt comp st fuel w => proj1 (run_cases rs g sm Hg k m allow tb gen c wrc p wrt comp fuel w) st). Qed.
(** NUM ADD NUM, and the error for NUM NUM. *)
Example cpp_lr_agrees_case : cpp_compiles lr1_c /\ entry_starts ll_g /\
  cpp_parse 9 lr1_c [2; 3; 2]%N = (map (cpp_event_of (token_names ll_expr)) sum_run, Ok []) /\
  cpp_parse 9 lr1_c [2; 2]%N = ([CShift 2], Err (Throw "Unexpected token 'NUM', expected one of: 'ADD', '<EOF>'")).
Proof. split; [exact lr1_c_compiles|]. split; [exact ll_starts|]. split; vm_compute; reflexivity. Qed.
Print Assumptions cpp_lr_agrees.

(** C35.  Otherwise the C++ parser ends in [std::terminate] whenever the Rust parser accepts, and does the same in all other cases. *)
Theorem cpp_lr_terminates : forall rs g, small rs -> from_rule_set rs = Ok g -> forall k m allow tb, generates k m g allow = Ok (NoConflicts tb) ->
  forall c, cpp_write (token_names rs) g tb = Ok c -> forall p, write_parser g tb = Ok p -> cpp_compiles c -> ~ entry_starts g ->
  forall fuel w, 2 <= fuel -> same_but_terminates (token_names rs) (lr_parse fuel p w) (cpp_parse fuel c (map (fun t => cpp_token (token_names rs) (Some t)) w)).
Proof. exact (fun rs g sm Hg k m allow tb gen c wrc p wrt comp st fuel w => proj2 (run_cases rs g sm Hg k m allow tb gen c wrc p wrt comp fuel w) st). Qed.
(** s = ! with the empty input and with A. *)
Example cpp_lr_terminates_case : cpp_compiles empty1_c /\ ~ entry_starts empty_g /\ write_parser empty_g empty1_tb = Ok empty1_p /\
  cpp_parse 5 empty1_c [] = ([CReduce 0], Err Terminated) /\ cpp_parse 5 empty1_c [2]%N = ([], Err (Throw "Unexpected token 'A', expected one of: '<EOF>'")).
Proof. split; [exact empty1_c_compiles|]. split; [exact empty_no_start|]. split; [exact empty1_p_ok|]. split; vm_compute; reflexivity. Qed.
Print Assumptions cpp_lr_terminates.

(** C35.  So without the condition on the entry symbol the parsers differ. *)
Theorem cpp_lr_agrees_refuted : exists rs g tb c p, small rs /\ from_rule_set rs = Ok g /\ generates KindLR1 100 g false = Ok (NoConflicts tb) /\ cpp_write (token_names rs) g tb = Ok c /\
  write_parser g tb = Ok p /\ cpp_compiles c /\ lr_parse 5 p [] = ([EReduce 0], Ok []) /\ cpp_parse 5 c [] = ([CReduce 0], Err Terminated).
Proof.
  exists empty_rules, empty_g, empty1_tb, empty1_c, empty1_p. split; [exact empty_small|]. split; [exact empty_built|]. split; [exact empty1_tb_ok|]. split; [exact empty1_c_ok|].
  split; [exact empty1_p_ok|]. split; [exact empty1_c_compiles|]. split; vm_compute; reflexivity.
Qed.
Print Assumptions cpp_lr_agrees_refuted.
