(** Property theorems for the errors which LR and GLR parsers report (C37). *)
From Coq Require Import String List Arith NArith Bool Lia.
From Verif Require Import Base InputModel GrammarModel GrammarSpec GrammarFactsProof GrammarProperties LLModel LLSpec LLExample LRModel LRSpec LRFactsProof LRExample
  GLRModel GLRSpec GLRFactsProof GLRExample LRTermSpec LRTermFactsProof LRTermExample LRErrorSpec LRErrorFactsProof LRErrorExample.
Import ListNotations.
Local Open Scope string_scope.
Local Open Scope nat_scope.
Local Open Scope list_scope.

(** C37.  The token named in an error is the one behind the tokens read, and it is wrong: no sentence starts with the
    tokens read, followed by that token (or ends there, if the error is at the end of the input). *)
Theorem lr_errors_are_errors : forall k m g allow tb p, wf_grammar g -> generates k m g allow = Ok (NoConflicts tb) -> write_parser g tb = Ok p ->
  epsilon_in_front g -> no_empty_rhs g -> forall fuel w ev e, lr_parse fuel p w = (ev, Err e) ->
  exists consumed rest expected, w = consumed ++ rest /\ shifts ev = consumed /\ e = UnexpectedTok (hd_error rest) expected /\
    forall rest', hd_error rest' = hd_error rest -> ~ derives (g_rules g) [g_entry g] (consumed ++ rest').
Proof. exact error_sound. Qed.
Example lr_errors_are_errors_case : generates KindLALR 100 merge_g false = Ok (NoConflicts merge_tb) /\ write_parser merge_g merge_tb = Ok merge_p /\ epsilon_in_front merge_g /\ no_empty_rhs merge_g /\
  lr_parse 20 merge_p [0; 2; 4; 3]%N = ([EShift (Some 0); EShift (Some 2); EReduce 3]%N, Err (UnexpectedTok (Some 4%N) [Some 3%N])) /\
  shifts [EShift (Some 0); EShift (Some 2); EReduce 3]%N = [0; 2]%N.
Proof. split; [exact merge_tb_ok|]. split; [exact merge_p_ok|]. split; [apply merge_front|]. split; [apply merge_front|]. split; vm_compute; reflexivity. Qed.
Print Assumptions lr_errors_are_errors.

(** C37.  And it is the first wrong token: the tokens read start a sentence, if every non-terminal derives something. *)
Theorem lr_error_prefix_viable : forall k m g allow tb p, wf_grammar g -> generates k m g allow = Ok (NoConflicts tb) -> write_parser g tb = Ok p ->
  all_productive g -> forall fuel w ev e, lr_parse fuel p w = (ev, Err e) -> exists v, derives (g_rules g) [g_entry g] (shifts ev ++ v).
Proof. exact error_viable. Qed.
Example lr_error_prefix_viable_case : all_productive merge_g /\ exists e, lr_parse 20 merge_p [0; 2; 2]%N = ([EShift (Some 0); EShift (Some 2)]%N, Err e).
Proof. split; [exact merge_productive|]. eexists. vm_compute. reflexivity. Qed.
Print Assumptions lr_error_prefix_viable.

(** C37.  Without that, the parser may read tokens which start no sentence (s = A u | B; u = C u, the input A B). *)
Theorem lr_error_prefix_viable_refuted : exists rs g tb p w ev e, from_rule_set rs = Ok g /\ generates KindLR1 100 g false = Ok (NoConflicts tb) /\ write_parser g tb = Ok p /\
  epsilon_in_front g /\ no_empty_rhs g /\ lr_parse 20 p w = (ev, Err e) /\ forall v, ~ derives (g_rules g) [g_entry g] (shifts ev ++ v).
Proof.
  exists barren_rules, barren_g, barren_tb, barren_p, [0; 1]%N, [EShift (Some 0%N)], (UnexpectedTok (Some 1%N) [Some 2%N]). split; [exact barren_built|]. split; [exact barren_tb_ok|].
  split; [exact barren_p_ok|]. split; [apply barren_front|]. split; [apply barren_front|]. split; [vm_compute; reflexivity|exact barren_no_A].
Qed.
Print Assumptions lr_error_prefix_viable_refuted.

(** C37.  The tokens which a canonical LR(1) parser says it expected are exactly those which can follow the tokens
    read in a sentence (the end of the input among them if the tokens read are a sentence), each named once. *)
Theorem lr1_expected_tokens_exact : forall k m g allow tb p, wf_grammar g -> generates k m g allow = Ok (NoConflicts tb) -> write_parser g tb = Ok p ->
  all_productive g -> epsilon_in_front g -> no_empty_rhs g -> k = KindLR1 -> forall fuel w ev e, lr_parse fuel p w = (ev, Err e) ->
  exists consumed rest expected, w = consumed ++ rest /\ shifts ev = consumed /\ e = UnexpectedTok (hd_error rest) expected /\ NoDup expected /\
    forall t, In t expected <-> exists v, derives (g_rules g) [g_entry g] (consumed ++ v) /\ hd_error v = t.
Proof. exact expected_exact. Qed.
Example lr1_expected_tokens_exact_case : generates KindLR1 100 ll_g false = Ok (NoConflicts lr1_tb) /\ write_parser ll_g lr1_tb = Ok lr1_p /\ all_productive ll_g /\ epsilon_in_front ll_g /\ no_empty_rhs ll_g /\
  lr_parse 20 lr1_p [0; 0]%N = ([EShift (Some 0%N)], Err (UnexpectedTok (Some 0%N) [Some 1%N; None])).
Proof. split; [exact lr1_tb_ok|]. split; [exact lr1_p_ok|]. split; [exact ll_productive|]. split; [exact ll_g_front|]. split; [exact ll_g_ne|]. vm_compute. reflexivity. Qed.
Print Assumptions lr1_expected_tokens_exact.

(** C37.  An LALR(1) parser may name a token which cannot follow (s = A e X | B e Y; e = C: after A C it expects X or Y) ... *)
Theorem lalr_expected_tokens_sound_refuted : exists rs g tb p, from_rule_set rs = Ok g /\ generates KindLALR 100 g false = Ok (NoConflicts tb) /\ write_parser g tb = Ok p /\
  all_productive g /\ epsilon_in_front g /\ no_empty_rhs g /\
  exists w ev got expected t, lr_parse 20 p w = (ev, Err (UnexpectedTok got expected)) /\ In (Some t) expected /\ forall v, ~ derives (g_rules g) [g_entry g] (shifts ev ++ t :: v).
Proof.
  exists merge_rules, merge_g, merge_tb, merge_p. split; [exact merge_built|]. split; [exact merge_tb_ok|]. split; [exact merge_p_ok|]. split; [exact merge_productive|]. split; [apply merge_front|].
  split; [apply merge_front|]. exists [0; 2; 2]%N, [EShift (Some 0%N); EShift (Some 2%N)], (Some 2%N), [Some 3%N; Some 4%N], 4%N. split; [vm_compute; reflexivity|]. split; [cbn; auto|exact merge_no_ACY].
Qed.
Print Assumptions lalr_expected_tokens_sound_refuted.

(** C37.  ... and leave out one which can (s = A f X | B f Y; f = e | C Q; e = C: on A C Y it expects X only, though A C Q X is a sentence). *)
Theorem lalr_expected_tokens_complete_refuted : exists rs g tb p, from_rule_set rs = Ok g /\ generates KindLALR 100 g false = Ok (NoConflicts tb) /\ write_parser g tb = Ok p /\
  all_productive g /\ epsilon_in_front g /\ no_empty_rhs g /\
  exists w ev got expected t v, lr_parse 20 p w = (ev, Err (UnexpectedTok got expected)) /\ ~ In (Some t) expected /\ derives (g_rules g) [g_entry g] (shifts ev ++ t :: v).
Proof.
  exists lost_rules, lost_g, lost_tb, lost_p. split; [exact lost_built|]. split; [exact lost_tb_ok|]. split; [exact lost_p_ok|]. split; [exact lost_productive|]. split; [apply lost_front|].
  split; [apply lost_front|]. exists [0; 2; 5]%N, [EShift (Some 0%N); EShift (Some 2%N); EReduce 6; EReduce 3; EReduce 5], (Some 5%N), [Some 4%N], 3%N, [4%N]. split; [vm_compute; reflexivity|].
  split; [intros [X|[]]; discriminate|exact lost_sentence].
Qed.
Print Assumptions lalr_expected_tokens_complete_refuted.

(** C37.  A GLR parser reports its errors at the first wrong token, too: the tokens before it start a sentence, with it they do not. *)
Theorem glr_error_at_first_wrong_token : forall k m g allow r tb, wf_grammar g -> generates k m g allow = Ok r -> table_of_result r tb -> forall p, glr_write_parser g tb = Ok p ->
  epsilon_in_front g -> no_empty_rhs g -> all_productive g -> forall fuel w ev e, glr_parse fuel p w = (ev, Err e) ->
  exists consumed rest, w = consumed ++ rest /\ errors e <> [] /\ (forall got expected, In (got, expected) (errors e) -> got = hd_error rest) /\
    (exists v, derives (g_rules g) [g_entry g] (consumed ++ v)) /\ forall rest', hd_error rest' = hd_error rest -> ~ derives (g_rules g) [g_entry g] (consumed ++ rest').
Proof. exact glr_error_exact. Qed.
Example glr_error_at_first_wrong_token_case : epsilon_in_front amb_g /\ no_empty_rhs amb_g /\ all_productive amb_g /\
  glr_parse 20 amb_p [0; 1; 1; 0]%N = ([EShift (Some 0); EReduce 2; EShift (Some 1)]%N, Err (GUnexpectedToken (Some 1%N) [Some 0%N])).
Proof. split; [exact amb_front|]. split; [exact amb_ne|]. split; [exact amb_productive|]. vm_compute. reflexivity. Qed.
Print Assumptions glr_error_at_first_wrong_token.
