(** Property theorems for FIRST, FOLLOW, LL(1) tables and predictive parsers (C14-C18). *)
From Coq Require Import String List Arith NArith Bool Lia.
From Verif Require Import Base InputModel GrammarModel GrammarSpec LLModel LLSpec LLFactsProof LLExample SententialProof.
Import ListNotations.
Local Open Scope string_scope.
Local Open Scope nat_scope.
Local Open Scope list_scope.

(** Grammars built from rule sets meet the hypotheses used below. *)
Theorem rule_sets_have_no_empty_rhs : forall rs g, from_rule_set rs = Ok g ->
  (forall p, In p (rs_prods rs) -> no_empty_seq (pr_pattern p) = true) -> no_empty_rhs g.
Proof. exact built_no_empty_rhs. Qed.
Example rule_sets_have_no_empty_rhs_case : from_rule_set ll_expr = Ok ll_g /\ no_empty_rhs ll_g /\ length (g_rules ll_g) = 5.
Proof. split; [exact ll_g_built|]. split; [exact ll_g_ne|reflexivity]. Qed.
Print Assumptions rule_sets_have_no_empty_rhs.

Theorem rule_sets_terminals_fit : forall rs g, from_rule_set rs = Ok g -> small rs -> (N.of_nat (length (rs_tokens rs)) < 65536)%N -> terminals_fit g.
Proof. exact built_terminals_fit. Qed.
Example rule_sets_terminals_fit_case : small ll_expr /\ from_rule_set ll_expr = Ok ll_g /\ terminals_fit ll_g.
Proof. split; [apply GrammarFactsProof.smallb_ok; reflexivity|]. split; [exact ll_g_built|exact ll_g_fit]. Qed.
Print Assumptions rule_sets_terminals_fit.

(** C14.  The FIRST computation terminates. *)
Theorem first_sets_terminate : forall E g, wf_grammar g -> exists n, forall fuel, n <= fuel -> exists fs, @compute_first_sets E fuel g = Ok fs.
Proof. exact first_terminates. Qed.
Example first_sets_terminate_case : wf_grammar ll_g /\ @compute_first_sets unit 50 ll_g = Ok ll_first.
Proof. split; [exact ll_g_wf|exact ll_first_ok]. Qed.
Print Assumptions first_sets_terminate.

(** C14.  Every non-terminal has a FIRST set, and it holds exactly the symbols beginning derived forms,
    and [Epsilon] exactly for erasable non-terminals. *)
Theorem first_sets_exact : forall E g fuel fs, wf_grammar g -> no_empty_rhs g -> @compute_first_sets E fuel g = Ok fs ->
  (forall i, In (NonTerminal i) (non_terminals g) -> exists set, map_get (NonTerminal i) fs = Some set) /\
  forall i x, (exists set, map_get (NonTerminal i) fs = Some set /\ In x set) <->
    begins (g_rules g) [NonTerminal i] x \/ (x = Epsilon /\ erasable (g_rules g) [NonTerminal i]).
Proof. exact first_exact. Qed.
Example first_sets_exact_case : @compute_first_sets unit 50 ll_g = Ok ll_first /\ map_get (NonTerminal 0) ll_first = Some [Terminal 0; Terminal 2] /\
  map_get (NonTerminal 4) ll_first = Some [Epsilon; Terminal 1].
Proof. split; [exact ll_first_ok|]. split; reflexivity. Qed.
Print Assumptions first_sets_exact.

(** C14.  The same for non-empty sequences of symbols. *)
Theorem first_of_sequence_exact : forall E g fuel fs, wf_grammar g -> no_empty_rhs g -> @compute_first_sets E fuel g = Ok fs ->
  forall al, al <> [] -> (forall s, In s al -> known g s \/ s = End) ->
  exists set, @first_of_seq E al fs = Ok set /\ forall x, In x set <-> begins (g_rules g) al x \/ (x = Epsilon /\ erasable (g_rules g) al).
Proof. exact first_seq_exact. Qed.
Example first_of_sequence_exact_case : @first_of_seq unit [NonTerminal 4; Epsilon; Terminal 3] ll_first = Ok [Terminal 1; Terminal 3] /\
  @first_of_seq unit [NonTerminal 4; Epsilon; NonTerminal 4] ll_first = Ok [Epsilon; Terminal 1].
Proof. split; reflexivity. Qed.
Print Assumptions first_of_sequence_exact.

(** C14.  The hypothesis on empty right-hand sides is needed: for s = t A with t an empty sequence, s
    derives A but the FIRST set of s is empty. *)
Theorem first_sets_refuted : exists rs g fs, from_rule_set rs = Ok g /\ @compute_first_sets unit 10 g = Ok fs /\
  begins (g_rules g) [NonTerminal 0] (Terminal 0) /\ map_get (NonTerminal 0) fs = Some [].
Proof. exists empty_seq_rules. exact empty_seq_first. Qed.
Print Assumptions first_sets_refuted.

(** C15.  The FOLLOW computation terminates. *)
Theorem follow_sets_terminate : forall E g fs m, wf_grammar g -> @compute_first_sets E m g = Ok fs ->
  exists n, forall fuel, n <= fuel -> exists fo, @compute_follow_sets E fuel g fs = Ok fo.
Proof. exact follow_terminates. Qed.
Example follow_sets_terminate_case : @compute_first_sets unit 50 ll_g = Ok ll_first /\ @compute_follow_sets unit 50 ll_g ll_first = Ok ll_follow.
Proof. split; [exact ll_first_ok|exact ll_follow_ok]. Qed.
Print Assumptions follow_sets_terminate.

(** C15.  Every non-terminal has a FOLLOW set, and it holds exactly the symbols which can come next in a
    form derived from the terminated entry symbol or from any non-terminal. *)
Theorem follow_sets_exact : forall E g m fs fuel fo, wf_grammar g -> no_empty_rhs g ->
  @compute_first_sets E m g = Ok fs -> @compute_follow_sets E fuel g fs = Ok fo ->
  (forall i, In (NonTerminal i) (non_terminals g) -> exists set, map_get (NonTerminal i) fo = Some set) /\
  forall i x, (exists set, map_get (NonTerminal i) fo = Some set /\ In x set) <-> follows g i x.
Proof. exact follow_exact. Qed.
Example follow_sets_exact_case : @compute_follow_sets unit 50 ll_g ll_first = Ok ll_follow /\
  map_get (NonTerminal 0) ll_follow = Some [End; Terminal 3] /\ map_get (NonTerminal 1) ll_follow = Some [End; Terminal 1; Terminal 3] /\
  map_get (NonTerminal 4) ll_follow = Some [End; Terminal 3].
Proof. split; [exact ll_follow_ok|]. split; [reflexivity|]. split; reflexivity. Qed.
Print Assumptions follow_sets_exact.

(** C15.  If every non-terminal can be reached from the entry, this is the usual FOLLOW. *)
Theorem follow_sets_exact_reachable : forall E g m fs fuel fo, wf_grammar g -> no_empty_rhs g -> all_reachable g ->
  @compute_first_sets E m g = Ok fs -> @compute_follow_sets E fuel g fs = Ok fo ->
  forall i x, (exists set, map_get (NonTerminal i) fo = Some set /\ In x set) <-> follows_entry g i x.
Proof. exact follow_exact_reachable. Qed.
Example follow_sets_exact_reachable_case : all_reachable end_g /\ no_empty_rhs end_g /\ from_rule_set end_rules = Ok end_g.
Proof.
  split; [|split; [|exact end_built]].
  - intros i Hi. simpl in Hi. destruct Hi as [[= <-]|[[= <-]|[]]].
    + exists [], [End]. constructor.
    + exists [Terminal 0], [End]. eapply ss_trans; [|constructor].
      eapply (ss_rule (g_rules end_g) [] [End] (nth 0 (g_rules end_g) (mkRule None [] (mkProdRule "" None QEps))) 0); [simpl; auto|reflexivity].
  - apply (built_no_empty_rhs _ _ end_built). simpl. intros p [<-|[<-|[<-|[]]]]; reflexivity.
Qed.
Print Assumptions follow_sets_exact_reachable.

(** C15.  With an unreachable production the FOLLOW set holds more than the usual FOLLOW: for s = A,
    u = s B the FOLLOW set of s holds B although no sentential form of s contains B. *)
Theorem follow_entry_refuted : exists rs g fs fo set, from_rule_set rs = Ok g /\ @compute_first_sets unit 10 g = Ok fs /\ @compute_follow_sets unit 10 g fs = Ok fo /\
  map_get (NonTerminal 0) fo = Some set /\ In (Terminal 1) set /\ ~ follows_entry g 0 (Terminal 1).
Proof. exists unreach_rules, unreach_g. destruct unreach_follow as (fs & fo & set & H). exists fs, fo, set. split; [exact unreach_built|exact H]. Qed.
Print Assumptions follow_entry_refuted.

(** C16.  A generated table holds in each cell the right-hand side of the rule predicting it, and nothing else. *)
Theorem ll_table_exact : forall g fuel tb, wf_grammar g -> no_empty_rhs g -> terminals_fit g -> ll_generate_table fuel g = Ok tb ->
  forall i x, lookahead x -> (forall t, x = Terminal t -> (t < 65535)%N) ->
  exists c, @get_production ll_error tb (NonTerminal i) x = Ok c /\
    forall p, c = Some p <-> exists r, In r (g_rules g) /\ r_lhs r = Some i /\ r_rhs r = p /\ predicts g r x.
Proof. exact table_exact. Qed.
Example ll_table_exact_case : wf_grammar ll_g /\ no_empty_rhs ll_g /\ terminals_fit ll_g /\ ll_generate_table 50 ll_g = Ok ll_tb /\
  @get_production ll_error ll_tb (NonTerminal 1) (Terminal 2) = Ok (Some [Terminal 2; NonTerminal 0; Terminal 3]) /\
  @get_production ll_error ll_tb (NonTerminal 4) End = Ok (Some [Epsilon]) /\ @get_production ll_error ll_tb (NonTerminal 1) End = Ok None.
Proof. split; [exact ll_g_wf|]. split; [exact ll_g_ne|]. split; [exact ll_g_fit|]. split; [exact ll_tb_ok|]. split; [reflexivity|]. split; reflexivity. Qed.
Print Assumptions ll_table_exact.

(** C16.  The predicted rule is unique. *)
Theorem ll_table_unique : forall g fuel tb, wf_grammar g -> no_empty_rhs g -> terminals_fit g -> ll_generate_table fuel g = Ok tb ->
  forall r r' i x, In r (g_rules g) -> In r' (g_rules g) -> r_lhs r = Some i -> r_lhs r' = Some i -> predicts g r x -> predicts g r' x -> r = r'.
Proof. exact table_unique. Qed.
Example ll_table_unique_case : ll_generate_table 50 ll_g = Ok ll_tb /\ exists r, In r (g_rules ll_g) /\ r_lhs r = Some 1%N /\ predicts ll_g r (Terminal 0).
Proof.
  split; [exact ll_tb_ok|]. exists (nth 3 (g_rules ll_g) (mkRule None [] (mkProdRule "" None QEps))). split; [simpl; auto 10|]. split; [reflexivity|].
  left. split; [right; eauto|]. exists []. constructor.
Qed.
Print Assumptions ll_table_unique.

(** C16.  Generation terminates, and either succeeds, exactly when no two rules of a non-terminal share a
    predict symbol, or reports an error; it never panics. *)
Theorem ll_generation_outcome : forall g, wf_grammar g -> no_empty_rhs g -> terminals_fit g -> exists n, forall fuel, n <= fuel ->
  ((exists tb, ll_generate_table fuel g = Ok tb) /\ (forall j k x, ~ ll1_conflict g j k x)) \/
  ((exists e, ll_generate_table fuel g = Err e) /\ (exists j k x, ll1_conflict g j k x)).
Proof. exact table_outcome. Qed.
Example ll_generation_outcome_case : exists rs g p q, from_rule_set rs = Ok g /\
  (forall p, In p (rs_prods rs) -> no_empty_seq (pr_pattern p) = true) /\
  ll_generate_table 50 g = Err (ParserTableConflict (NonTerminal 2) (Terminal 0) p q).
Proof.
  exists (mkRuleSet "s" [GrammarProperties.ex_tok "A"; GrammarProperties.ex_tok "B"]
    [mkProdRule "s" None (QSeq [QOpt (QRule "A"); QRule "A"]); mkProdRule "s" None (QSeq [QRule "A"; QRule "B"])]).
  do 3 eexists. split; [vm_compute; reflexivity|]. split; [|vm_compute; reflexivity]. simpl. intros p [<-|[<-|[]]]; reflexivity.
Qed.
Print Assumptions ll_generation_outcome.

(** C16.  The error names a real conflict: the symbol it names is predicted by the right-hand sides it
    names and by two different rules of one non-terminal. *)
Theorem ll_conflict_reported : forall g fuel e, wf_grammar g -> no_empty_rhs g -> terminals_fit g -> ll_generate_table fuel g = Err e ->
  exists i x r r' j k, e = ParserTableConflict (NonTerminal i) x (r_rhs r) (r_rhs r') /\ In r (g_rules g) /\ In r' (g_rules g) /\
    r_lhs r = Some i /\ r_lhs r' = Some i /\ predicts g r x /\ predicts g r' x /\ ll1_conflict g j k x.
Proof. intros g fuel e wf ne fit. exact (LLTableProof.generate_err g wf ne fit fuel e). Qed.
Example ll_conflict_reported_case : exists rs g e, from_rule_set rs = Ok g /\
  (forall p, In p (rs_prods rs) -> no_empty_seq (pr_pattern p) = true) /\ ll_generate_table 50 g = Err e.
Proof.
  exists (mkRuleSet "s" [GrammarProperties.ex_tok "A"] [mkProdRule "s" None (QStar (QOpt (QRule "A")))]).
  do 2 eexists. split; [vm_compute; reflexivity|]. split; [|vm_compute; reflexivity]. simpl. intros p [<-|[]]; reflexivity.
Qed.
Print Assumptions ll_conflict_reported.

(** C16.  With a terminal numbered 65535 generation panics. *)
Theorem ll_generation_panic_refuted : exists g, wf_grammar g /\ no_empty_rhs g /\ ll_generate_table 10 g = Panic.
Proof. exists last_terminal_g. split; [exact last_terminal_wf|]. split; [exact last_terminal_ne|exact last_terminal_panics]. Qed.
Print Assumptions ll_generation_panic_refuted.

(** C17.  The parser loop with a generated table halts on every input, with a result or an error. *)
Theorem ll_parser_halts : forall g fuel tb i input, wf_grammar g -> no_empty_rhs g -> terminals_fit g -> ll_generate_table fuel g = Ok tb ->
  exists n, (exists ev, forall f, n <= f -> ll_parse f (table_lookup tb) i input = Ok ev) \/
            (exists e, forall f, n <= f -> ll_parse f (table_lookup tb) i input = Err e).
Proof. exact table_halts. Qed.
Example ll_parser_halts_case : ll_generate_table 50 ll_g = Ok ll_tb /\ ll_parse 100 (table_lookup ll_tb) 0 [0; 1; 1]%N = Err (UnknownLookahead 1 (Some 1%N)).
Proof. split; [exact ll_tb_ok|reflexivity]. Qed.
Print Assumptions ll_parser_halts.

(** C17.  It accepts an input exactly if the input has a parse tree, and the visitor calls are the
    traversal of that tree. *)
Theorem ll_parser_correct : forall g fuel tb i, wf_grammar g -> no_empty_rhs g -> terminals_fit g -> ll_generate_table fuel g = Ok tb ->
  g_entry g = NonTerminal i -> forall input ev,
  (exists f, ll_parse f (table_lookup tb) i input = Ok ev) <->
  exists tr, parses (g_rules g) [g_entry g] [tr] /\ yield tr = input /\ ev = ll_events tr ++ [TokenEof].
Proof. exact table_parses. Qed.
Example ll_parser_correct_case : ll_parse 100 (table_lookup ll_tb) 0 [0; 1; 0]%N =
  Ok [Enter 0; Enter 1; Token 0; Exit 1; Enter 4; Token 1; Enter 1; Token 0; Exit 1; Enter 4; Exit 4; Exit 4; Exit 0; TokenEof]%N.
Proof. reflexivity. Qed.
Print Assumptions ll_parser_correct.

(** C17.  It accepts exactly the sentences of the grammar. *)
Theorem ll_parser_language : forall g fuel tb i, wf_grammar g -> no_empty_rhs g -> terminals_fit g -> ll_generate_table fuel g = Ok tb ->
  g_entry g = NonTerminal i -> forall input,
  (exists f ev, ll_parse f (table_lookup tb) i input = Ok ev) <-> derives (g_rules g) [g_entry g] input.
Proof. exact table_language. Qed.
Example ll_parser_language_case : g_entry ll_g = NonTerminal 0 /\ exists ev, ll_parse 100 (table_lookup ll_tb) 0 [2; 0; 1; 0; 3]%N = Ok ev.
Proof. split; [reflexivity|]. eexists. vm_compute. reflexivity. Qed.
Print Assumptions ll_parser_language.

(** C17.  A grammar with an LL(1) table is unambiguous. *)
Theorem ll_tables_unambiguous : forall g fuel tb, wf_grammar g -> no_empty_rhs g -> terminals_fit g -> ll_generate_table fuel g = Ok tb ->
  forall tr tr', parses (g_rules g) [g_entry g] [tr] -> parses (g_rules g) [g_entry g] [tr'] -> yield tr = yield tr' -> tr = tr'.
Proof. exact ll1_unambiguous. Qed.
Example ll_tables_unambiguous_case : exists tr, parses (g_rules end_g) [g_entry end_g] [tr] /\ yield tr = [0%N].
Proof.
  destruct (LLParseProof.derives_parses _ _ _ end_good) as (ts & A & B). simpl in A. inversion A as [| | |r j al cs ts' Hr Hj H1 H2]; subst. inversion H2; subst.
  exists (Node r cs). split; auto. unfold yields in B. simpl in B. rewrite app_nil_r in B. exact B.
Qed.
Print Assumptions ll_tables_unambiguous.

(** C18.  Where the non-terminals are numbered by position, what the C++ parser accepts is a sentence. *)
Theorem cpp_ll_sound : forall g fuel tb, wf_grammar g -> no_empty_rhs g -> terminals_fit g -> ll_generate_table fuel g = Ok tb -> aligned g ->
  forall f input ev, cpp_ll_parse f g tb input = Ok ev ->
  exists tr, parses (g_rules g) [g_entry g] [tr] /\ yield tr = input /\ ev = ll_events tr ++ [TokenEof].
Proof. exact cpp_sound. Qed.
Example cpp_ll_sound_case : aligned end_g /\ from_rule_set end_rules = Ok end_g /\ ll_generate_table 50 end_g = Ok end_tb /\ exists ev, cpp_ll_parse 50 end_g end_tb [0; 1]%N = Ok ev.
Proof. split; [exact end_aligned|]. split; [exact end_built|]. split; [exact end_tb_ok|]. eexists. vm_compute. reflexivity. Qed.
Print Assumptions cpp_ll_sound.

(** C18.  If moreover no rule is erasable it accepts exactly the sentences. *)
Theorem cpp_ll_exact : forall g fuel tb, wf_grammar g -> no_empty_rhs g -> terminals_fit g -> ll_generate_table fuel g = Ok tb -> aligned g -> no_erasable g ->
  forall input ev, (exists f, cpp_ll_parse f g tb input = Ok ev) <->
  exists tr, parses (g_rules g) [g_entry g] [tr] /\ yield tr = input /\ ev = ll_events tr ++ [TokenEof].
Proof. exact cpp_exact. Qed.
Example cpp_ll_exact_case : aligned plain_g /\ no_erasable plain_g /\ from_rule_set plain_rules = Ok plain_g /\ ll_generate_table 50 plain_g = Ok plain_tb /\
  exists ev, cpp_ll_parse 50 plain_g plain_tb [0; 0; 2; 1]%N = Ok ev.
Proof. split; [exact plain_aligned|]. split; [exact plain_no_erasable|]. split; [exact plain_built|]. split; [exact plain_tb_ok|]. eexists. vm_compute. reflexivity. Qed.
Print Assumptions cpp_ll_exact.

(** C18.  Cells for the end of input are not emitted: for s = A t, t = B | epsilon the sentence A is rejected. *)
Theorem cpp_ll_end_refuted : exists rs g tb w, from_rule_set rs = Ok g /\ ll_generate_table 50 g = Ok tb /\ aligned g /\
  derives (g_rules g) [g_entry g] w /\ (exists ev, ll_parse 50 (table_lookup tb) 0 w = Ok ev) /\ forall f ev, cpp_ll_parse f g tb w <> Ok ev.
Proof.
  exists end_rules, end_g, end_tb, [0%N]. split; [exact end_built|]. split; [exact end_tb_ok|]. split; [exact end_aligned|]. split; [exact end_good|].
  split; [eexists; vm_compute; reflexivity|].
  intros f ev. do 4 (destruct f as [|f]; [discriminate|]). cbn. discriminate.
Qed.
Print Assumptions cpp_ll_end_refuted.

(** C18.  With a gap in the numbering (a non-terminal with several rules) the C++ parser accepts what is
    not a sentence and rejects sentences: s = A t | B, t = B. *)
Theorem cpp_ll_gap_refuted : exists rs g tb, from_rule_set rs = Ok g /\ ll_generate_table 50 g = Ok tb /\
  (exists w ev, cpp_ll_parse 50 g tb w = Ok ev /\ ~ derives (g_rules g) [g_entry g] w) /\
  (exists w, derives (g_rules g) [g_entry g] w /\ forall f ev, cpp_ll_parse f g tb w <> Ok ev).
Proof.
  exists gap_rules, gap_g, gap_tb. split; [exact gap_built|]. split; [exact gap_tb_ok|]. split.
  - exists [0%N]. eexists. split; [vm_compute; reflexivity|exact gap_bad].
  - exists [0; 1]%N. split; [exact gap_good|]. intros f ev. do 8 (destruct f as [|f]; [discriminate|]). cbn. discriminate.
Qed.
Print Assumptions cpp_ll_gap_refuted.
