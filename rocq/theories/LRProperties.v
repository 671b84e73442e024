(** Property theorems for LR(0), LR(1) and LALR(1) tables, the emitted parser and the two-way map
    (C19-C26, C36). *)
From Coq Require Import String List Arith NArith Bool Lia.
From Verif Require Import Base InputModel GrammarModel GrammarSpec GrammarProperties LLModel LLSpec LLExample LRModel LRSpec LRFactsProof LRExample ShapesProof.
Import ListNotations.
Local Open Scope string_scope.
Local Open Scope nat_scope.
Local Open Scope list_scope.

(** The grammar conditions used below, in terms of rule sets. *)
Theorem rule_sets_epsilon_in_front : forall rs g, from_rule_set rs = Ok g -> (epsilon_in_front g <-> forallb front (rule_shapes rs) = true).
Proof. exact built_epsilon_in_front. Qed.
Example rule_sets_epsilon_in_front_case : rule_shapes ll_expr = [[true]; [false; false; false]; [false; false]; [false]; [false; false; false]] /\
  forallb front (rule_shapes ll_expr) = true /\ forallb front (rule_shapes mid_rules) = false.
Proof. split; [|split]; reflexivity. Qed.
Print Assumptions rule_sets_epsilon_in_front.

Theorem rule_sets_rhs_fit : forall rs g, from_rule_set rs = Ok g -> (rhs_fit g <-> forallb (fun l => length l <=? 255) (rule_shapes rs) = true).
Proof. exact built_rhs_fit. Qed.
Example rule_sets_rhs_fit_case : from_rule_set ll_expr = Ok ll_g /\ forallb (fun l => length l <=? 255) (rule_shapes ll_expr) = true.
Proof. split; [exact ll_g_built|reflexivity]. Qed.
Print Assumptions rule_sets_rhs_fit.

(** C19.  An accepting run makes the visitor calls of a parse tree, whose leaves are the tokens consumed. *)
Theorem lr_accepts_derivations : forall k m g allow tb p, wf_grammar g -> generates k m g allow = Ok (NoConflicts tb) -> write_parser g tb = Ok p ->
  forall fuel w ev rest, lr_parse fuel p w = (ev, Ok rest) -> exists tr, parse_tree g tr /\ ev = post_order tr /\ w = iyield tr ++ rest.
Proof. exact accepts_tree. Qed.
Example lr_accepts_derivations_case : generates KindLALR 100 ll_g false = Ok (NoConflicts lalr_tb) /\ write_parser ll_g lalr_tb = Ok lalr_p /\
  lr_parse 9 lalr_p [0; 1; 0]%N = (sum_run, Ok []) /\ parse_tree ll_g sum_tree /\ sum_run = post_order sum_tree /\ [0; 1; 0]%N = iyield sum_tree ++ [].
Proof. split; [exact lalr_tb_ok|]. split; [exact lalr_p_ok|]. split; [vm_compute; reflexivity|]. split; [apply sum_tree_ok|]. split; reflexivity. Qed.
Print Assumptions lr_accepts_derivations.

(** C20.  Every sentence is accepted. *)
Theorem lr_accepts_sentences : forall k m g allow tb p, wf_grammar g -> generates k m g allow = Ok (NoConflicts tb) -> write_parser g tb = Ok p ->
  epsilon_in_front g -> no_empty_rhs g ->
  forall w, derives (g_rules g) [g_entry g] w -> exists ev rest, forall fuel, length ev < fuel -> lr_parse fuel p w = (ev, Ok rest).
Proof. exact complete_accepts. Qed.
Example lr_accepts_sentences_case : generates KindLR1 100 ll_g false = Ok (NoConflicts lr1_tb) /\ write_parser ll_g lr1_tb = Ok lr1_p /\
  epsilon_in_front ll_g /\ no_empty_rhs ll_g /\ lr_parse 9 lr1_p [0; 1; 0]%N = (sum_run, Ok []).
Proof. split; [exact lr1_tb_ok|]. split; [exact lr1_p_ok|]. split; [exact ll_g_front|]. split; [exact ll_g_ne|]. vm_compute. reflexivity. Qed.
Print Assumptions lr_accepts_sentences.

(** C20.  If the entry symbol is not left-recursive, the run on a sentence consumes all of it and makes the
    visitor calls of its parse tree, within as many steps as there are calls. *)
Theorem lr_parses_trees : forall k m g allow tb p, wf_grammar g -> generates k m g allow = Ok (NoConflicts tb) -> write_parser g tb = Ok p ->
  epsilon_in_front g -> no_empty_rhs g -> ~ entry_left_recursive g ->
  forall tr, parse_tree g tr -> forall fuel, length (post_order tr) < fuel -> lr_parse fuel p (iyield tr) = (post_order tr, Ok []).
Proof. exact complete_whole. Qed.
Example lr_parses_trees_case : ~ entry_left_recursive ll_g /\ parse_tree ll_g sum_tree /\ length (post_order sum_tree) = 8 /\
  lr_parse 9 lr1_p (iyield sum_tree) = (post_order sum_tree, Ok []).
Proof. split; [exact ll_g_nl|]. split; [apply sum_tree_ok|]. split; [reflexivity|]. vm_compute. reflexivity. Qed.
Print Assumptions lr_parses_trees.

(** C20.  With [Epsilon] behind another symbol sentences are rejected (s = A ! B, the sentence A B). *)
Theorem lr_accepts_sentences_refuted : exists rs g tb p tr ev e, from_rule_set rs = Ok g /\ generates KindLR1 100 g false = Ok (NoConflicts tb) /\ write_parser g tb = Ok p /\
  no_empty_rhs g /\ ~ entry_left_recursive g /\ parse_tree g tr /\ lr_parse 10 p (iyield tr) = (ev, Err e).
Proof.
  exists mid_rules, mid_g, mid_tb, mid_p, (INode 0 [ILeaf 0; ILeaf 1]), [EShift (Some 0%N)], (UnexpectedTok (Some 1%N) []).
  split; [exact mid_built|]. split; [exact mid_tb_ok|]. split; [exact mid_p_ok|]. split; [apply (built_no_empty _ _ mid_built); reflexivity|]. split; [exact mid_nl|]. exact mid_rejects.
Qed.
Print Assumptions lr_accepts_sentences_refuted.

(** C20.  With a left-recursive entry symbol a sentence is not consumed completely (a = a A | A, the sentence A A). *)
Theorem lr_parses_trees_refuted : exists rs g tb p tr ev rest, from_rule_set rs = Ok g /\ generates KindLR1 100 g false = Ok (NoConflicts tb) /\ write_parser g tb = Ok p /\
  epsilon_in_front g /\ no_empty_rhs g /\ parse_tree g tr /\ lr_parse 10 p (iyield tr) = (ev, Ok rest) /\ rest <> [].
Proof.
  exists leftrec_rules, leftrec_g, leftrec_tb, leftrec_p, (INode 0 [INode 1 [ILeaf 0]; ILeaf 0]), [EShift (Some 0%N); EReduce 1], [0%N].
  split; [exact leftrec_built|]. split; [exact leftrec_tb_ok|]. split; [exact leftrec_p_ok|]. split; [apply leftrec_front|]. split; [apply leftrec_front|].
  split; [apply leftrec_premature|]. split; [apply leftrec_premature|discriminate].
Qed.
Print Assumptions lr_parses_trees_refuted.

(** C21.  A canonical LR(1) parser accepts at the end of the input only. *)
Theorem lr1_consumes_input : forall k m g allow tb p, wf_grammar g -> generates k m g allow = Ok (NoConflicts tb) -> write_parser g tb = Ok p ->
  k = KindLR1 -> ~ entry_left_recursive g -> forall fuel w ev rest, lr_parse fuel p w = (ev, Ok rest) -> rest = [].
Proof. exact lr1_whole. Qed.
Example lr1_consumes_input_case : generates KindLR1 100 ll_g false = Ok (NoConflicts lr1_tb) /\ write_parser ll_g lr1_tb = Ok lr1_p /\ ~ entry_left_recursive ll_g /\
  lr_parse 9 lr1_p [0; 1; 0]%N = (sum_run, Ok []).
Proof. split; [exact lr1_tb_ok|]. split; [exact lr1_p_ok|]. split; [exact ll_g_nl|]. vm_compute. reflexivity. Qed.
Print Assumptions lr1_consumes_input.

(** C21.  So does an LALR(1) or LR(1) parser if the entry symbol occurs in no right-hand side. *)
Theorem fresh_entry_consumes_input : forall k m g allow tb p, wf_grammar g -> generates k m g allow = Ok (NoConflicts tb) -> write_parser g tb = Ok p ->
  k <> KindLR0 -> entry_fresh g -> forall fuel w ev rest, lr_parse fuel p w = (ev, Ok rest) -> rest = [].
Proof. exact fresh_whole. Qed.
Example fresh_entry_consumes_input_case : generates KindLALR 100 fresh_g false = Ok (NoConflicts fresh_tb) /\ write_parser fresh_g fresh_tb = Ok fresh_p /\ entry_fresh fresh_g /\
  (exists ev, lr_parse 20 fresh_p [0; 1; 0]%N = (ev, Ok [])) /\ exists ev e, lr_parse 20 fresh_p [0; 1; 0; 0]%N = (ev, Err e).
Proof.
  split; [exact fresh_tb_ok|]. split; [exact fresh_p_ok|]. split; [exact fresh_entry|].
  split; [eexists; vm_compute; reflexivity|]. eexists. eexists. vm_compute. reflexivity.
Qed.
Print Assumptions fresh_entry_consumes_input.

(** C21.  Under these conditions the accepted token sequences are exactly the sentences. *)
Theorem lr_accepted_language : forall k m g allow tb p, wf_grammar g -> generates k m g allow = Ok (NoConflicts tb) -> write_parser g tb = Ok p ->
  (k = KindLR1 /\ ~ entry_left_recursive g) \/ (k <> KindLR0 /\ entry_fresh g /\ ~ entry_left_recursive g) -> epsilon_in_front g -> no_empty_rhs g ->
  forall w, (exists fuel ev rest, lr_parse fuel p w = (ev, Ok rest)) <-> derives (g_rules g) [g_entry g] w.
Proof. exact accepted_language. Qed.
Example lr_accepted_language_case : entry_fresh fresh_g /\ ~ entry_left_recursive fresh_g /\ epsilon_in_front fresh_g /\ no_empty_rhs fresh_g /\
  write_parser fresh_g fresh_tb = Ok fresh_p.
Proof. split; [exact fresh_entry|]. split; [exact fresh_nl|]. split; [exact fresh_front|]. split; [exact fresh_ne|exact fresh_p_ok]. Qed.
Print Assumptions lr_accepted_language.

(** C21.  LALR(1) and LR(0) parsers accept A RPAR for s = LPAR s RPAR | A. *)
Theorem lalr_accepted_language_refuted : exists rs g tb p w ev rest, from_rule_set rs = Ok g /\ generates KindLALR 100 g false = Ok (NoConflicts tb) /\ write_parser g tb = Ok p /\
  epsilon_in_front g /\ no_empty_rhs g /\ ~ entry_left_recursive g /\ lr_parse 10 p w = (ev, Ok rest) /\ rest <> [] /\ ~ derives (g_rules g) [g_entry g] w.
Proof.
  exists paren_rules, paren_g, paren_lalr_tb, paren_lalr_p, [2; 1]%N, [EShift (Some 2%N); EReduce 1], [1%N].
  split; [exact paren_built|]. split; [exact paren_lalr_tb_ok|]. split; [exact paren_lalr_p_ok|]. split; [exact paren_front|]. split; [exact paren_ne|]. split; [exact paren_nl|].
  split; [apply lalr_premature|]. split; [discriminate|apply lalr_premature].
Qed.
Print Assumptions lalr_accepted_language_refuted.

Theorem lr0_accepted_language_refuted : exists rs g tb p w ev rest, from_rule_set rs = Ok g /\ generates KindLR0 100 g false = Ok (NoConflicts tb) /\ write_parser g tb = Ok p /\
  epsilon_in_front g /\ no_empty_rhs g /\ ~ entry_left_recursive g /\ lr_parse 10 p w = (ev, Ok rest) /\ rest <> [] /\ ~ derives (g_rules g) [g_entry g] w.
Proof.
  exists paren_rules, paren_g, paren_lr0_tb, paren_lr0_p, [2; 1]%N, [EShift (Some 2%N); EReduce 1], [1%N].
  split; [exact paren_built|]. split; [exact paren_lr0_tb_ok|]. split; [exact paren_lr0_p_ok|]. split; [exact paren_front|]. split; [exact paren_ne|]. split; [exact paren_nl|].
  split; [apply lr0_premature|]. split; [discriminate|apply lr0_premature].
Qed.
Print Assumptions lr0_accepted_language_refuted.

(** C21.  The same for LR(1) with a left-recursive entry symbol. *)
Theorem lr1_consumes_input_refuted : exists rs g tb p w ev rest, from_rule_set rs = Ok g /\ generates KindLR1 100 g false = Ok (NoConflicts tb) /\ write_parser g tb = Ok p /\
  entry_left_recursive g /\ lr_parse 10 p w = (ev, Ok rest) /\ rest <> [].
Proof.
  exists leftrec_rules, leftrec_g, leftrec_tb, leftrec_p, [0; 0]%N, [EShift (Some 0%N); EReduce 1], [0%N].
  split; [exact leftrec_built|]. split; [exact leftrec_tb_ok|]. split; [exact leftrec_p_ok|]. split; [exact leftrec_lr|]. split; [apply leftrec_premature|discriminate].
Qed.
Print Assumptions lr1_consumes_input_refuted.

(** C22.  Without reported conflicts every cell of a symbol holds one entry, and that of the end marker at
    most one; the only exception is the cell of the entry symbol in the entry state of an LR(0) table. *)
Theorem conflict_free_single_entries : forall k m g, wf_grammar g -> forall allow tb, generates k m g allow = Ok (NoConflicts tb) ->
  forall q s, q < tb_states tb -> ~ (k = KindLR0 /\ q = 0 /\ s = g_entry g) ->
  (In s (all_symbols g) -> length (entries tb q s) = 1) /\ length (entries tb q s) <= 1.
Proof. exact conflict_free_cells. Qed.
Example conflict_free_single_entries_case : wf_grammar ll_g /\ tb_states lr1_tb = 19 /\ entries lr1_tb 0 (Terminal 0) = [Shift 2] /\ entries lr1_tb 0 End = [].
Proof. split; [exact ll_g_wf|]. split; [reflexivity|]. split; reflexivity. Qed.
Print Assumptions conflict_free_single_entries.

(** C22.  The exceptional cell holds two entries exactly if the entry symbol has only an empty rule. *)
Theorem conflict_free_lr0_entry_cell : forall k m g, wf_grammar g -> forall allow tb, k = KindLR0 -> generates k m g allow = Ok (NoConflicts tb) ->
  length (entries tb 0 (g_entry g)) = 2 /\ only_empty_entry g \/ length (entries tb 0 (g_entry g)) = 1 /\ ~ only_empty_entry g.
Proof. exact conflict_free_entry_cell. Qed.
Example conflict_free_lr0_entry_cell_case : generates KindLR0 100 empty_g false = Ok (NoConflicts empty_tb) /\ entries empty_tb 0 (g_entry empty_g) = [Reduce (Some 0); Accept] /\
  generates KindLR0 100 paren_g false = Ok (NoConflicts paren_lr0_tb) /\ entries paren_lr0_tb 0 (g_entry paren_g) = [Accept].
Proof. split; [exact empty_tb_ok|]. split; [reflexivity|]. split; [exact paren_lr0_tb_ok|reflexivity]. Qed.
Print Assumptions conflict_free_lr0_entry_cell.

(** C22.  Code generation for conflict-free tables succeeds, but for that exception. *)
Theorem conflict_free_code_generation : forall k m g, wf_grammar g -> forall allow tb, generates k m g allow = Ok (NoConflicts tb) ->
  (k = KindLR0 -> ~ only_empty_entry g) -> exists p, write_parser g tb = Ok p.
Proof. exact conflict_free_writes. Qed.
Example conflict_free_code_generation_case : generates KindLR1 100 ll_g false = Ok (NoConflicts lr1_tb) /\ write_parser ll_g lr1_tb = Ok lr1_p.
Proof. split; [exact lr1_tb_ok|exact lr1_p_ok]. Qed.
Print Assumptions conflict_free_code_generation.

Theorem conflict_free_code_generation_refuted : exists rs g tb, from_rule_set rs = Ok g /\ generates KindLR0 100 g false = Ok (NoConflicts tb) /\ write_parser g tb = Panic.
Proof. exists empty_rules, empty_g, empty_tb. split; [exact empty_built|]. split; [exact empty_tb_ok|exact empty_panics]. Qed.
Print Assumptions conflict_free_code_generation_refuted.

(** C22.  Reported conflicts are exactly the cells with several entries: each such cell is concerned by a
    conflict, a cell concerned by a conflict holds several entries, each conflict concerns some cell and
    names complete items; a parser cannot be written. *)
Theorem conflicts_exact : forall k m g, wf_grammar g -> forall tb cs, generates k m g true = Ok (AllowedConflicts tb cs) ->
  cs <> [] /\ NoDup cs /\
  (forall q s, ~ (k = KindLR0 /\ q = 0 /\ s = g_entry g) -> q < tb_states tb -> (2 <= length (entries tb q s) <-> exists c, In c cs /\ concerns tb q s c)) /\
  (forall c it, In c cs -> In it (conflict_items c) -> it_la it = [] /\ symbol_after_dot g it = None) /\
  ((k = KindLR0 -> epsilon_in_front g) -> (forall c, In c cs -> exists q s, q < tb_states tb /\ In s (all_symbols g ++ [End]) /\ concerns tb q s c) /\ forall p, write_parser g tb <> Ok p).
Proof. exact allowed_exact. Qed.
Example conflicts_exact_case : generates KindLALR 100 amb_g true = Ok (AllowedConflicts amb_tb amb_cs) /\
  amb_cs = [ShiftReduce 4 (mkItem (Some 1) 3 []) (Terminal 1)] /\ entries amb_tb 4 (Terminal 1) = [Reduce (Some 1); Shift 3].
Proof. split; [exact amb_tb_ok|]. split; reflexivity. Qed.
Print Assumptions conflicts_exact.

(** C22.  Whether conflicts are allowed changes nothing but the verdict. *)
Theorem conflicts_allowed_or_not : forall k m g, wf_grammar g ->
  (forall tb, generates k m g false = Ok (NoConflicts tb) <-> generates k m g true = Ok (NoConflicts tb)) /\
  (forall cs, generates k m g false = Ok (BadConflicts cs) <-> exists tb, generates k m g true = Ok (AllowedConflicts tb cs)) /\
  (forall tb cs, generates k m g false <> Ok (AllowedConflicts tb cs)) /\ (forall cs, generates k m g true <> Ok (BadConflicts cs)).
Proof. exact allow_irrelevant. Qed.
Example conflicts_allowed_or_not_case : generates KindLALR 100 amb_g false = Ok (BadConflicts amb_cs) /\ generates KindLALR 100 amb_g true = Ok (AllowedConflicts amb_tb amb_cs).
Proof. split; [vm_compute; reflexivity|exact amb_tb_ok]. Qed.
Print Assumptions conflicts_allowed_or_not.

(** C23.  Grammars without conflicts are unambiguous. *)
Theorem conflict_free_is_unambiguous : forall k m g allow tb p, wf_grammar g -> generates k m g allow = Ok (NoConflicts tb) -> write_parser g tb = Ok p ->
  epsilon_in_front g -> no_empty_rhs g -> ~ entry_left_recursive g -> unambiguous g.
Proof. exact conflict_free_unambiguous. Qed.
Example conflict_free_is_unambiguous_case : generates KindLR1 100 ll_g false = Ok (NoConflicts lr1_tb) /\ write_parser ll_g lr1_tb = Ok lr1_p /\ epsilon_in_front ll_g /\
  no_empty_rhs ll_g /\ ~ entry_left_recursive ll_g /\ parse_tree ll_g sum_tree.
Proof. split; [exact lr1_tb_ok|]. split; [exact lr1_p_ok|]. split; [exact ll_g_front|]. split; [exact ll_g_ne|]. split; [exact ll_g_nl|apply sum_tree_ok]. Qed.
Print Assumptions conflict_free_is_unambiguous.

(** C23.  The cyclic grammar a = a | A is ambiguous, but reported free of conflicts. *)
Theorem conflict_free_is_unambiguous_refuted : exists rs g tb, from_rule_set rs = Ok g /\ generates KindLR1 100 g false = Ok (NoConflicts tb) /\ epsilon_in_front g /\ no_empty_rhs g /\ ~ unambiguous g.
Proof.
  exists cyclic_rules, cyclic_g, cyclic_tb. split; [exact cyclic_built|]. split; [exact cyclic_tb_ok|]. split; [apply cyclic_front|]. split; [apply cyclic_front|exact cyclic_ambiguous].
Qed.
Print Assumptions conflict_free_is_unambiguous_refuted.

(** C24.  The emitted parser does not panic. *)
Theorem lr_parser_never_panics : forall k m g allow tb p, wf_grammar g -> generates k m g allow = Ok (NoConflicts tb) -> write_parser g tb = Ok p ->
  forall fuel w, snd (lr_parse fuel p w) <> Panic.
Proof. exact never_panics. Qed.
Example lr_parser_never_panics_case : generates KindLR0 100 paren_g false = Ok (NoConflicts paren_lr0_tb) /\ write_parser paren_g paren_lr0_tb = Ok paren_lr0_p /\
  snd (lr_parse 20 paren_lr0_p [0; 0; 2; 1; 7]%N) = Err (UnexpectedTok (Some 7%N) [Some 0%N; Some 1%N; Some 2%N; None]).
Proof. split; [exact paren_lr0_tb_ok|]. split; [exact paren_lr0_p_ok|]. vm_compute. reflexivity. Qed.
Print Assumptions lr_parser_never_panics.

(** C25.  An error names the token in front of the parser, which has no action in the current state, and
    lists exactly the tokens which have one, each once. *)
Theorem lr_error_reports : forall k m g allow tb p, wf_grammar g -> generates k m g allow = Ok (NoConflicts tb) -> write_parser g tb = Ok p ->
  forall fuel w ev e, lr_parse fuel p w = (ev, Err e) ->
  exists stack q shifted rest expected, reaches p w ev (KState q :: stack) rest /\ q < tb_states tb /\ w = shifted ++ rest /\ e = UnexpectedTok (hd_error rest) expected /\
    ~ (is_token g (hd_error rest) /\ exists x, In x (entries tb q (column (hd_error rest))) /\ acts x) /\
    NoDup expected /\ forall t, In t expected <-> is_token g t /\ exists x, In x (entries tb q (column t)) /\ acts x.
Proof. exact error_report. Qed.
Example lr_error_reports_case : lr_parse 20 lr1_p [0; 0]%N = ([EShift (Some 0%N)], Err (UnexpectedTok (Some 0%N) [Some 1%N; None])) /\
  lr_parse 20 lr1_p [2; 0]%N = ([EShift (Some 2%N); EShift (Some 0%N)], Err (UnexpectedTok None [Some 1%N; Some 3%N])).
Proof. split; vm_compute; reflexivity. Qed.
Print Assumptions lr_error_reports.

(** C26.  Table generation terminates. *)
Theorem lr_generation_terminates : forall k g, wf_grammar g -> exists fuel, forall fuel' allow, fuel <= fuel' -> generates k fuel' g allow <> OutOfFuel.
Proof. exact generation_terminates. Qed.
Example lr_generation_terminates_case : wf_grammar ll_g /\ generates KindLR1 100 ll_g false = Ok (NoConflicts lr1_tb).
Proof. split; [exact ll_g_wf|exact lr1_tb_ok]. Qed.
Print Assumptions lr_generation_terminates.

(** C26.  It does not panic if [Epsilon] occurs only in front and right-hand sides have at most 255 symbols. *)
Theorem lr_generation_succeeds : forall k g, wf_grammar g -> epsilon_in_front g -> rhs_fit g ->
  exists fuel, forall fuel' allow, fuel <= fuel' -> exists r, generates k fuel' g allow = Ok r.
Proof. exact generation_total. Qed.
Example lr_generation_succeeds_case : wf_grammar ll_g /\ epsilon_in_front ll_g /\ rhs_fit ll_g /\ generates KindLALR 100 ll_g false = Ok (NoConflicts lalr_tb).
Proof. split; [exact ll_g_wf|]. split; [exact ll_g_front|]. split; [exact ll_g_rhs_fit|exact lalr_tb_ok]. Qed.
Print Assumptions lr_generation_succeeds.

(** C26.  Otherwise it may: s = x ! B, and a right-hand side of 256 symbols. *)
Theorem lr_generation_succeeds_refuted : (exists rs g, from_rule_set rs = Ok g /\ generates KindLR1 100 g false = Panic /\ rhs_fit g) /\
  exists rs g, from_rule_set rs = Ok g /\ generates KindLR0 1000 g false = Panic /\ generates KindLR1 1000 g false = Panic /\ generates KindLALR 1000 g false = Panic /\ epsilon_in_front g.
Proof.
  split; [exists mid_nt_rules, mid_nt_g|exists long_rules, long_g].
  - split; [exact mid_nt_built|]. split; [apply mid_nt_panics|]. apply (built_rhs_fit _ _ mid_nt_built). reflexivity.
  - split; [exact long_built|]. split; [apply long_panics|]. split; [apply long_panics|]. split; [apply long_panics|exact long_front].
Qed.
Print Assumptions lr_generation_succeeds_refuted.

(** C36.  The two-way map holds what its history left. *)
Theorem bidi_map_histories : forall E A B (CA : Cmp A) (CB : Cmp B) h live, history h live -> exists m, foldM (@bidi_apply E A B CA CB) h bidi_new = Ok m /\
  (forall a b, bidi_get_a_to_b a m = Some b <-> In (a, b) live) /\ (forall a b, bidi_get_b_to_a b m = Some a <-> In (a, b) live) /\
  NoDup (bidi_iter m) /\ (forall a b, In (a, b) (bidi_iter m) <-> In (a, b) live) /\
  forall b, exists o m', @bidi_remove_by_b E A B CA CB b m = Ok (o, m') /\ forall a b', o = Some (a, b') <-> b' = b /\ In (a, b) live.
Proof. intros E A B CA CB. exact history_map. Qed.
Example bidi_map_histories_case : history [BInsert 3 7; BInsert 1 9; BRemove 7; BInsert 3 8] [(3, 8); (1, 9)] /\
  exists m, foldM (@bidi_apply unit nat nat _ _) [BInsert 3 7; BInsert 1 9; BRemove 7; BInsert 3 8] bidi_new = Ok m /\ bidi_iter m = [(1, 9); (3, 8)].
Proof.
  split; [|eexists; split; reflexivity].
  apply (hs_insert [BInsert 3 7; BInsert 1 9; BRemove 7] [(1, 9)]); [|simpl; intuition discriminate|simpl; intuition discriminate].
  change (history ([BInsert 3 7; BInsert 1 9] ++ [BRemove 7]) (filter (fun p => negb (eqc (snd p) 7)) [(1, 9); (3, 7)])).
  apply hs_remove. apply (hs_insert [BInsert 3 7] [(3, 7)]); [|simpl; intuition discriminate|simpl; intuition discriminate].
  apply (hs_insert [] []); [constructor|intros []|intros []].
Qed.
Print Assumptions bidi_map_histories.

(** C36.  Inserting a key again breaks the map: a removal panics. *)
Theorem bidi_map_histories_refuted : exists h, @foldM unit (bidi nat nat) (bidi_op nat nat) bidi_apply h bidi_new = Panic.
Proof. exists [BInsert 1 2; BInsert 1 3; BRemove 2]. reflexivity. Qed.
Print Assumptions bidi_map_histories_refuted.
