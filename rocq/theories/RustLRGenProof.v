(** Proofs about the code of generated Rust LR parsers, alone and with the code of the lexer. *)
From Coq Require Import String List Arith NArith Bool Lia.
From Verif Require PipelineFactsProof.
From Verif Require Import Base InputModel LexerModel LexerSpec LexerFactsProof GrammarModel GrammarSpec GrammarFactsProof LLModel LLSpec LRModel LRSpec LRItemsProof LRGraphProof AutomatonProof LRTableProof LRGenProof LRConflictProof LRWriteProof LRRunProof LRFactsProof LRTermSpec GLRSpec RunModel RunSpec RunProof
  TemplateModel TemplateFiles NamesModel NamesSpec NamesProof NamesVisitProof RustTokenSpec RustQuoteModel RustSpec RustLexTextModel RustLexTextSpec RustLexTextProof RustLexRunProof RustLexGenProof
  RustLRTextModel RustPullModel RustLRTextSpec RustLRTextProof RustLRParseProof RustLRRunProof RustLREndSpec.
Import ListNotations.
Local Open Scope string_scope.
Local Open Scope list_scope.

Lemma parser_functions_unique : forall file x y, parser_functions_in file x -> parser_functions_in file y -> x = y.
Proof.
  intros file [a b c d e] [a' b' c' d' e'] (A & B & C & D & E) (A' & B' & C' & D' & E'). cbn in *.
  rewrite (function_unique _ _ _ _ _ A A'), (function_unique _ _ _ _ _ B B'), (function_unique _ _ _ _ _ C C'), (function_unique _ _ _ _ _ D D'), (function_unique _ _ _ _ _ E E'). reflexivity.
Qed.
Lemma rust_lr_text_exact_proof : forall rs g p, from_rule_set rs = Ok g -> usable_names g -> fits g p ->
  exists file visits nts, parser_rs g p = Ok file /\ rule_visits g = Ok visits /\ rust_non_terminal_variants g = Ok nts /\
  enum_of "ReducedRule" file = Some (map rule_variant (seq 0 (List.length (g_rules g)))) /\ enum_of "NonTerminalType" file = Some nts /\
  trait_of "Visitor" file = Some (("shift", [("self", true); ("token", false); ("data", false)]) :: map (fun m => (m, [("self", true)])) (map snd visits)) /\
  types_declared file parser_types /\ exists F, parser_functions_in file F /\ (forall F', parser_functions_in file F' -> F' = F) /\ parser_does g p visits F.
Proof.
  intros rs g p Hg U Fp. exists (parser_trees g p), (all_visits true g), (map (non_terminal_variant g) (non_terminals g)). split; [exact (parser_written rs g Hg U p Fp)|]. split; [exact (proj1 (rust_visits g))|].
  split; [exact (variants_named rs g Hg U)|]. split; [apply enum_rules|]. split; [apply enum_non_terminals|]. split; [exact (trait_methods rs g Hg U p)|]. split; [apply parser_types_declared|].
  exists (the_parser g p). split; [apply the_parser_in|]. split; [|exact (parser_does_so rs g Hg U p Fp)]. intros F' X. exact (parser_functions_unique _ _ _ X (the_parser_in g p)).
Qed.

(** ** Generated tables *)
Lemma generated_fits : forall k m g allow tb p, wf_grammar g -> generates k m g allow = Ok (NoConflicts tb) -> write_parser g tb = Ok p -> fits g p.
Proof.
  intros k m g allow tb p wf gen wrt. destruct (setup_ex k m g allow tb p wf gen wrt) as (fs & pg & su & wr & E0). pose proof (su_tb _ _ _ _ _ su) as tf. pose proof (su_au _ _ _ _ _ su) as au.
  pose proof wrt as W. unfold write_parser in W. apply bind_Ok in W. destruct W as (arms & Ha & W). apply bind_Ok in W. destruct W as (gs & Hgs & W). apply bind_Ok in W. destruct W as (rds & Hr & W). injection W as <-.
  destruct (make_actions_spec g wf tb (tf_ok _ _ _ _ tf) arms Ha) as [EA _]. destruct (make_gotos_spec g tb (tf_ok _ _ _ _ tf) gs Hgs) as [EG _].
  destruct (make_rule_reductions_spec g wf) as (l & ER & IR). assert (l = rds) as -> by congruence.
  assert (TC : forall s t, In s (token_columns g) -> column_token s = Some t -> known g t).
  { intros s t Hs Et. apply column_token_inv in Et. subst s. destruct t as [t|]; [|exact Logic.I]. apply in_app_or in Hs. destruct Hs as [Hs|[Hs|[]]]; [exact Hs|discriminate]. }
  split; cbn [lp_actions lp_gotos lp_reductions].
  - intros s t a H. rewrite EA in H. apply in_flat_map in H. destruct H as (q & Hq & H). apply in_app_or in H. destruct H as [H|[H|[]]]; [|discriminate].
    apply in_flat_map in H. destruct H as (x & Hx & H). unfold cell_arms in H. destruct (column_token x) as [t'|] eqn:Et; [|destruct H]. destruct (cell_action (cell tb q x)) as [a'|] eqn:Ec; [|destruct H]. destruct H as [H|[]].
    injection H as <- -> ->. split; [exact (TC x t Hx Et)|]. intros j ->. apply in_seq in Hq.
    assert (Q : In (Reduce (Some j)) (cell tb q x)). { destruct (cell tb q x) as [|e [|]]; try discriminate; destruct e as [|[i|]| |]; try discriminate. injection Ec as ->. left. reflexivity. }
    pose proof (au_inv _ _ _ _ _ au) as gi. assert (Hq' : (q < tb_states tb)%nat) by lia. rewrite (tf_states _ _ _ _ tf) in Hq'. apply (gi_nodes _ _ _ _ _ gi) in Hq'. destruct Hq' as [S0 HS0].
    assert (Hc : In x (columns g)). { apply column_token_inv in Et. subst x. apply (token_columns_in g wf), Hx. }
    apply (cell_reduce g _ (kind_n_le k) fs _ pg au tb tf q S0 x (Some j) HS0 Hc) in Q. destruct Q as (it & RD & Ei).
    destruct RD as (Hin & _). destruct (ik_rule _ _ _ (state_ok _ _ _ _ _ au _ _ _ HS0 Hin)) as (r & Er). rewrite Ei in Er. cbn in Er. apply nth_error_Some. congruence.
  - intros s ex H. rewrite EA in H. apply in_flat_map in H. destruct H as (q & Hq & H). apply in_app_or in H. destruct H as [H|[H|[]]].
    + apply in_flat_map in H. destruct H as (x & Hx & H). unfold cell_arms in H. destruct (column_token x); [|destruct H]. destruct (cell_action (cell tb q x)); [|destruct H]. destruct H as [H|[]]. discriminate.
    + injection H as <- <-. apply Forall_forall. intros t H. apply in_flat_map in H. destruct H as (x & Hx & H). destruct (cell tb q x) as [|e [|]]; try destruct H.
      assert (H1 : In t (match column_token x with Some t => [t] | None => [] end)) by (destruct e; try exact H; destruct H). destruct (column_token x) as [t'|] eqn:Et; [|destruct H1]. destruct H1 as [<-|[]]. exact (TC x t' Hx Et).
  - intros s x go H. rewrite EG in H. apply in_flat_map in H. destruct H as (q & Hq & H). apply in_flat_map in H. destruct H as (y & Hy & H).
    assert (y = x /\ match x with Terminal _ | NonTerminal _ => True | _ => False end) as (-> & K).
    { unfold cell_gotos in H. destruct y; try (destruct H; fail); (destruct (cell_goto _); [|destruct H]); destruct H as [H|[]]; injection H as <- <- <-; split; auto. }
    split; [|exact K]. unfold goto_columns in Hy. apply in_app_or in Hy. destruct Hy as [Hy|Hy]; [|apply in_or_app; right; exact Hy]. apply in_app_or in Hy. destruct Hy as [Hy|[<-|[]]]; [apply in_or_app; left; exact Hy|destruct K].
  - apply Nat.le_antisymm; apply nth_error_None.
    + rewrite IR. rewrite (proj2 (nth_error_None (g_rules g) (List.length (g_rules g))) (Nat.le_refl _)). reflexivity.
    + destruct (nth_error (g_rules g) (List.length rds)) as [r|] eqn:E; [|reflexivity]. exfalso. specialize (IR (List.length rds)). rewrite E in IR.
      destruct (wf_lhs g wf r (nth_error_In _ _ E)) as (i & Ei & _). rewrite Ei in IR. rewrite (proj2 (nth_error_None rds (List.length rds)) (Nat.le_refl _)) in IR. discriminate.
  - intros n x H. apply In_nth_error in H. destruct H as (j & H). rewrite IR in H. destruct (nth_error (g_rules g) j) as [r|] eqn:E; [|discriminate]. destruct (wf_lhs g wf r (nth_error_In _ _ E)) as (i & Ei & Hi). rewrite Ei in H. injection H as <- <-.
    exists i. split; [reflexivity|exact Hi].
Qed.

(** ** With the code of the lexer *)
Lemma next_soon : forall al d, (forall node, In node (dfa_nodes d) -> named_node node) -> forall lx, exists l o, forall m, (List.length (lx_iter lx) < m)%nat ->
  run_function (lexer_outer m (the_functions al d)) m (f_next (the_functions al d)) [lexer_value lx] = Some (l, o).
Proof.
  intros al d names lx.
  assert (X : forall rounds, (List.length (lx_iter lx) < rounds)%nat -> _) by (intros rounds L; exact (RustLexRunProof.loop_run (o_call (lexer_outer rounds (the_functions al d))) (o_method (lexer_outer rounds (the_functions al d))) rounds al (outer_index al d rounds) (outer_range al d rounds) (automaton_cases d) (automaton_lexed d) (lx_src lx) (lx_position lx) (automaton_good d) eq_refl (case_rules d names) (lx_iter lx) (lx_position lx) 0%nat rounds L)).
  assert (Y : forall rounds, run_function (lexer_outer rounds (the_functions al d)) rounds (f_next (the_functions al d)) [lexer_value lx] = _) by (intros rounds; exact (RustLexRunProof.run_next (o_call (lexer_outer rounds (the_functions al d))) (o_method (lexer_outer rounds (the_functions al d))) rounds (automaton_lexed d) lx)).
  destruct (lexer_loop al (automaton_cases d) (lx_iter lx) (lx_position lx) 0) as [((iter, pos), r)| | |].
  - destruct (X (S (List.length (lx_iter lx))) (Nat.lt_succ_diag_r _)) as (w & _ & R & _). exists [lexer_value (mkLexer (lx_src lx) iter (lx_position lx) pos)], (Val w). intros m L. destruct (X m L) as (w' & state' & R' & E). rewrite Y, E, (next_unique _ _ _ R R'). reflexivity.
  - destruct (stopped al (automaton_cases d) (lx_iter lx) (lx_position lx) 0) as ((iter', pos'), state'). exists [lexer_value (mkLexer (lx_src lx) iter' (lx_position lx) pos')], Panics. intros m L. rewrite Y, (X m L). reflexivity.
  - destruct (stopped al (automaton_cases d) (lx_iter lx) (lx_position lx) 0) as ((iter', pos'), state'). exists [lexer_value (mkLexer (lx_src lx) iter' (lx_position lx) pos')], Panics. intros m L. rewrite Y, (X m L). reflexivity.
  - destruct (stopped al (automaton_cases d) (lx_iter lx) (lx_position lx) 0) as ((iter', pos'), state'). exists [lexer_value (mkLexer (lx_src lx) iter' (lx_position lx) pos')], Panics. intros m L. rewrite Y, (X m L). reflexivity.
Qed.
Lemma calling_next_ok : forall al d file F data, (forall node, In node (dfa_nodes d) -> named_node node) -> lexer_rs al d = Ok file -> functions_in file F -> token_function F data (calling_next F data).
Proof.
  intros al d file F data names W FI. assert (F = the_functions al d) as ->.
  { pose proof (lexer_written al d names) as W'. assert (file = lexer_tokens al d) as -> by congruence. exact (functions_unique _ _ _ FI (the_functions_in al d)). }
  intros lx self o (n & R). destruct (next_soon al d names lx) as (l & o' & Q). assert (E : l = [self] /\ o' = o).
  { specialize (R (n + S (List.length (lx_iter lx)))%nat ltac:(lia)). rewrite (Q (n + S (List.length (lx_iter lx)))%nat ltac:(lia)) in R. inversion R. auto. }
  destruct E as (-> & ->). unfold calling_next. cbn [lexer_value chars_value]. rewrite map_length. fold (chars_value (lx_src lx)). fold (chars_value (lx_iter lx)). fold (lexer_value lx). rewrite (Q _ (Nat.lt_succ_diag_r _)).
  reflexivity.
Qed.
Section End.
Variables (rs : rule_set) (g : grammar) (lfuel : nat) (al : alphabet) (d : dfa token_rule).
Hypothesis sm : small rs.
Hypothesis built : from_rule_set rs = Ok g.
Hypothesis us : usable_tokens (rs_tokens rs).
Hypothesis gen : generate_lexer lfuel (rs_tokens rs) = Ok (al, d).
Hypothesis U : usable_names g.
Let rx := mkRustLexer al d (g_tokens g).

Lemma rule_variant_known : forall r, In r (rs_tokens rs) -> exists t n, variant_number (g_tokens g) (tr_name r) = Some t /\ known g (Some t) /\ get_token_enum_name (tr_name r) = Ok n /\ token_value g (Some t) = variant n /\ spelled (tr_name r).
Proof.
  intros r H. destruct (rule_named rs g sm built r H) as (t & TN & V). assert (K : In (Terminal t) (terminals g)) by (unfold terminals; apply in_map_iff; exists (Terminal t, tr_name r); split; [reflexivity|exact TN]).
  destruct (token_written rs g built U t K) as (n & x & A & _ & B & _ & C). assert (E : n = tr_name r).
  { apply (token_numbers rs g sm built) in TN, A. destruct TN as (i & E1 & r1 & T1 & N1), A as (j & E2 & r2 & T2 & N2). assert (i = j) by (apply Nat2N.inj; congruence). congruence. }
  subst n. exists t, ("Tk" ++ x)%string. split; [exact V|]. split; [exact K|]. split; [exact B|]. split; [unfold token_value; rewrite C; reflexivity|]. exact (un_tokens _ U _ _ TN).
Qed.
Lemma accepted_rule : forall r, In (Accepting r) (dfa_nodes d) -> In r (rs_tokens rs).
Proof. intros r X. destruct us as [uv up ug]. exact (PipelineFactsProof.accepting_rules _ _ _ _ _ uv (proper_no_empty _ up) gen X). Qed.
Lemma nodes_named : forall node, In node (dfa_nodes d) -> named_node node.
Proof. intros [r|r] X; [|exact Logic.I]. destruct (rule_variant_known r (accepted_rule r X)) as (t & n & _ & _ & E & _ & P). split; [exact P|]. exists n. exact E. Qed.

Definition code_pull (data : value -> value) : token_source lexer value := fun lx => match pull rx lx with Ok (t, lx') => Some (t, data (lexer_value lx'), lx') | _ => None end.
Lemma code_pulls : forall F data source, lexer_does al d F -> token_function F data source -> pulls g (code_pull data) lexer_value (fun v => v) source.
Proof.
  intros F data source (_ & N & _) T lx. specialize (N lx). unfold code_pull, pull. cbn [rx rx_alphabet rx_dfa rx_tokens].
  destruct (lexer_next al d lx) as [(lx', r)|e| |] eqn:E; cbn [bind]; try (destruct N as (self & R); exists self; rewrite (T _ _ _ R); reflexivity).
  destruct N as (v & NR & R). specialize (T _ _ _ R). destruct r as [[|r]|e].
  - destruct NR as (w & W & ->). cbn in W. subst w. split; [exact Logic.I|]. exact T.
  - destruct NR as (w & (n & En & ->) & ->). assert (A : In (Accepting r) (dfa_nodes d)).
    { unfold lexer_next in E. destruct (lexer_loop al (automaton_cases d) (lx_iter lx) (lx_position lx) 0) as [((iter, pos), x)| | |] eqn:LL; cbn [bind] in E; try discriminate. inversion E; subst. exact (loop_accepts _ _ _ _ _ _ _ _ LL). }
    destruct (rule_variant_known r (accepted_rule r A)) as (t & n' & V & K & En' & EV & _). rewrite V. split; [exact K|]. rewrite EV. assert (n' = n) as -> by congruence. exact T.
  - cbn in NR. subst v. exists (lexer_value lx'). exact T.
Qed.
Lemma erased : forall data p fuel stack tk x lx,
  let '(calls, r) := pull_run lexer value (code_pull data) fuel p stack (tk, x, lx) in text_run fuel rx p stack tk lx = (map event_of calls, r).
Proof.
  intros data p. induction fuel as [|fuel IH]; intros stack tk x lx; [reflexivity|]. cbn [pull_run text_run]. destruct stack as [|y stack]; [reflexivity|]. cbn [fst snd]. unfold pull_act, text_act. destruct y as [t|i|q]; try reflexivity.
  destruct (next_action (lp_actions p) q tk) as [[|rule]|e| |]; try reflexivity.
  - unfold code_pull at 1. destruct (pull rx lx) as [(tk', lx')|e| |]; try reflexivity. destruct (lr_goto_step p _) as [stack'|e| |]; try reflexivity.
    specialize (IH stack' tk' (data (lexer_value lx')) lx'). destruct (pull_run lexer value (code_pull data) fuel p stack' (tk', data (lexer_value lx'), lx')) as (calls, r). rewrite IH. reflexivity.
  - destruct (reduce_stack p rule (KState q :: stack)) as [stack'|e| |]; try reflexivity. destruct (lr_goto_step p stack') as [stack''|e| |]; try reflexivity.
    specialize (IH stack'' tk x lx). destruct (pull_run lexer value (code_pull data) fuel p stack'' (tk, x, lx)) as (calls, r). rewrite IH. reflexivity.
Qed.
Lemma erased_parse : forall data p fuel text, let '(calls, r) := pull_parse lexer value (code_pull data) fuel p (lexer_new text) in text_parse fuel rx p text = (map event_of calls, r).
Proof.
  intros data p fuel text. unfold pull_parse, text_parse. unfold code_pull at 1. destruct (pull rx (lexer_new text)) as [(tk, lx)|e| |]; try reflexivity. apply erased.
Qed.

Variables (k : table_kind) (m : nat) (allow : bool) (tb : lr_table) (p : lr_parser).
Hypothesis tgen : generates k m g allow = Ok (NoConflicts tb).
Hypothesis wrt : write_parser g tb = Ok p.
Hypothesis front : epsilon_in_front g.
Hypothesis ne : no_empty_rhs g.

(** A run of the code is one of [text_parse]. *)
Lemma code_runs : forall LF PF visits data source visit rounds text v, lexer_does al d LF -> parser_does g p visits PF -> token_function LF data source ->
  let run := run_function (parser_outer rounds visit source PF) rounds (f_parse PF) [parser_value (lexer_value (lexer_new text)) v] in
  exists calls : list (visitor_call value), fst (text_parse rounds rx p text) = map event_of calls /\
  let v' := fold_left (visited g visits (fun x => x) visit) calls v in
  match snd (text_parse rounds rx p text) with
  | Ok lx => run = Some ([parser_value (lexer_value lx) v'], Val (VOk VUnit))
  | Err e => exists source', run = Some ([parser_value source' v'], Val (VErr (parser_error_value g e)))
  | Panic => exists source', run = Some ([parser_value source' v'], Panics)
  | OutOfFuel => run = None
  end.
Proof.
  intros LF PF visits data source visit rounds text v L P T run. pose proof (pd_parse _ _ _ _ P lexer value (code_pull data) lexer_value (fun x => x) source visit rounds (lexer_new text) v (code_pulls LF data source L T)) as R. cbv zeta in R.
  pose proof (erased_parse data p rounds text) as E. fold run in R. destruct (pull_parse lexer value (code_pull data) rounds p (lexer_new text)) as (calls, r). exists calls. rewrite E. split; [reflexivity|exact R].
Qed.

Lemma rust_code_exact_proof : sealed k g ->
  exists lfile pfile LF PF visits, lexer_rs al d = Ok lfile /\ functions_in lfile LF /\ parser_rs g p = Ok pfile /\ parser_functions_in pfile PF /\ rule_visits g = Ok visits /\
  forall data source visit rounds text v, token_function LF data source -> Forall valid_char text ->
  match run_function (parser_outer rounds visit source PF) rounds (f_parse PF) [parser_value (lexer_value (lexer_new text)) v] with
  | Some ([self], Val v') =>
    (v' = VOk VUnit /\ exists lx calls ts tr, self = parser_value (lexer_value lx) (fold_left (visited g visits (fun x => x) visit) calls v) /\ at_end (lx_iter lx) /\
       tokenised (rs_tokens rs) text ts /\ parse_tree g tr /\ Forall2 (token_named g) (iyield tr) (map tr_name ts) /\ map event_of calls = post_order tr) \/
    ((exists e, v' = VErr (parser_error_value g e)) /\ ~ text_of_language rs text)
  | Some ([_], Panics) => ~ exists ts, tokenised (rs_tokens rs) text ts
  | Some _ => False
  | None => snd (text_parse rounds rx p text) = OutOfFuel
  end.
Proof.
  intros SK. destruct (rust_lexer_text_exact_proof al d nodes_named) as (lfile & LW & _ & LF & LI & _ & LD). destruct (rust_lr_text_exact_proof rs g p built U (generated_fits k m g allow tb p (grammar_wf rs g built) tgen wrt)) as (pfile & visits & nts & PW & PV & _ & _ & _ & _ & _ & PF & PI & _ & PD).
  exists lfile, pfile, LF, PF, visits. repeat (split; [assumption|]). intros data source visit rounds text v T V.
  destruct (code_runs LF PF visits data source visit rounds text v LD PD T) as (calls & E & R). pose proof (text_exact rs g lfuel al d sm built us gen k m allow tb p tgen wrt front ne SK rounds text V) as X. fold rx in X.
  destruct (text_parse rounds rx p text) as (ev, r). cbn [fst snd] in E, R. cbn [snd]. subst ev. destruct r as [lx|e| |]; cbv zeta in R.
  - rewrite R. left. split; [reflexivity|]. destruct X as (A & ts & tr & B & C & D & F). exists lx, calls, ts, tr. auto 10.
  - destruct R as (source' & ->). right. split; [exists e; reflexivity|exact X].
  - destruct R as (source' & ->). exact X.
  - rewrite R. reflexivity.
Qed.
Lemma rust_code_complete_proof : forall lfile pfile LF PF, lexer_rs al d = Ok lfile -> functions_in lfile LF -> parser_rs g p = Ok pfile -> parser_functions_in pfile PF ->
  forall data source visit text v, token_function LF data source -> Forall valid_char text ->
  let run rounds := run_function (parser_outer rounds visit source PF) rounds (f_parse PF) [parser_value (lexer_value (lexer_new text)) v] in
  (text_of_language rs text -> exists n, forall rounds, (n <= rounds)%nat -> exists self, run rounds = Some ([self], Val (VOk VUnit))) /\
  (sealed k g -> all_productive g -> exists n, forall rounds, (n <= rounds)%nat -> run rounds <> None).
Proof.
  intros lfile pfile LF PF LW LI PW PI data source visit text v T V run.
  destruct (rust_lexer_text_exact_proof al d nodes_named) as (lfile' & LW' & _ & LF' & LI' & LQ & LD). assert (lfile' = lfile) as -> by congruence. rewrite <- (LQ LF LI) in LD.
  destruct (rust_lr_text_exact_proof rs g p built U (generated_fits k m g allow tb p (grammar_wf rs g built) tgen wrt)) as (pfile' & visits & nts & PW' & PV & _ & _ & _ & _ & _ & PF' & PI' & PQ & PD).
  assert (pfile' = pfile) as -> by congruence. rewrite <- (PQ PF PI) in PD. split.
  - intros L. destruct (text_accepts rs g lfuel al d sm built us gen k m allow tb p tgen wrt front ne text V L) as (ev & n & X). exists n. intros rounds Hr. destruct (X rounds Hr) as (lx & E).
    destruct (code_runs LF PF visits data source visit rounds text v LD PD T) as (calls & _ & R). unfold rx in R. rewrite E in R. cbn in R. eexists. exact R.
  - intros SK AP. destruct (text_settles rs g lfuel al d sm built us gen k m allow tb p tgen wrt front ne SK AP text V) as (n & X). exists n. intros rounds Hr. specialize (X rounds Hr).
    destruct (code_runs LF PF visits data source visit rounds text v LD PD T) as (calls & _ & R). unfold rx in R. unfold run. destruct (snd (text_parse rounds _ p text)) as [lx|e| |]; [| | |congruence]; cbv zeta in R.
    + rewrite R. discriminate.
    + destruct R as (s' & ->). discriminate.
    + destruct R as (s' & ->). discriminate.
Qed.
End End.
