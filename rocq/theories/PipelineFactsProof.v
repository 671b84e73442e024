(** Whole runs: when they succeed, that they end, and what the written lexers and parsers do. *)
From Coq Require Import String List Arith NArith Bool Lia.
From Verif Require Import Base InputModel LexerSpec LexerModel LexerProof LexerFactsProof BootModel PositionModel PositionSpec InputGenModel InputGenSpec InputTextSpec InputTextFactsProof NamesModel NamesSpec NamesProof NamesVisitProof
  GrammarModel GrammarSpec GrammarFactsProof LLModel LLSpec LLFactsProof LRModel LRSpec LRGraphProof LRGenProof LRTableProof LRItemsProof AutomatonProof LRFactsProof GLRModel GLRSpec GLRFactsProof CppLRModel CppLRSpec CppLRProof TableModel PipelineModel PipelineSpec PipelineProof PipelineReportProof.
Import ListNotations.
Local Open Scope nat_scope.
Local Open Scope list_scope.

Lemma list_ok : forall E A B (f : A -> res E B) l ps, res_list (map f l) = Ok ps -> Forall2 (fun a n => f a = Ok n) l ps.
Proof.
  induction l as [|a l IH]; intros ps H; cbn [map res_list] in H; [injection H as <-; constructor|]. inv_bind H. inv_bind H. injection H as <-. constructor; auto.
Qed.
Lemma list_total : forall E A B (f : A -> res E B) l, (forall a, In a l -> exists n, f a = Ok n) -> exists ps, res_list (map f l) = Ok ps.
Proof.
  induction l as [|a l IH]; intros H; cbn [map res_list]; eauto. destruct (H a (or_introl eq_refl)) as [n ->]. destruct IH as [ps ->]; [intros; apply H; right; auto|]. cbn [bind]. eauto.
Qed.

(** ** The table file can always be written *)

Lemma cells_no_entry : forall g n fs lalr pg tb q s e, wf_grammar g -> n <= 1 -> automaton g n fs lalr pg -> table_of g n pg tb -> In e (cell tb q s) -> e <> Reduce None.
Proof.
  intros g n fs lalr pg tb q s e wf Hn au tf He. destruct (st pg q) as [S|] eqn:ES.
  - rewrite (tf_cell _ _ _ _ tf q S s ES) in He. unfold cell_list in He. apply in_app_or in He. destruct He as [He|He].
    + unfold reduces in He. apply in_flat_map in He. destruct He as (it & Hit & He). unfold red1 in He. destruct (symbol_after_dot g it) as [x|] eqn:Ex; [contradiction|].
      assert (e = Reduce (it_rule it)) as ->.
      { destruct (n =? 0); [destruct (sym_in s (columns g))|destruct (cmp_dec (it_la it) [s])]; cbn [In] in He; try contradiction; destruct He as [He|[]]; auto. }
      intros X. injection X as X. destruct (AutomatonProof.entry_rule_item g wf n fs lalr pg au q S it ES Hit X) as [_ ->].
      unfold symbol_after_dot, rhs_of in Ex. cbn [entry_item it_rule it_dot item_rule] in Ex. rewrite (proj2 (wf_entry_rule g wf)) in Ex. discriminate.
    + unfold column_tail in He. destruct (sym_in s (all_symbols g)); [|contradiction]. destruct (eqc s (g_entry g) && (q =? 0)); [destruct He as [<-|[]]; discriminate|].
      destruct (target_of pg q s); [destruct He as [<-|[]]; discriminate|]. destruct (reduces g n S s); [destruct He as [<-|[]]; discriminate|contradiction].
  - assert (lg_nodes pg <= q) as Hq.
    { destruct (le_lt_dec (lg_nodes pg) q) as [|L]; auto. apply (gi_nodes _ _ _ _ _ (au_inv _ _ _ _ _ au)) in L. destruct L as [S L]. congruence. }
    rewrite (tf_none _ _ _ _ tf q s Hq) in He. contradiction.
Qed.

Lemma table_written : forall rs g k m allow r tb, from_rule_set rs = Ok g -> generates k m g allow = Ok r -> table_of_result r tb -> exists text, output_table g tb = Ok text.
Proof.
  intros rs g k m allow r tb Hg H Ht. pose proof (grammar_wf _ _ Hg) as wf. pose proof (tokens_sorted _ _ Hg) as ts. pose proof (prods_sorted _ _ Hg) as ps.
  destruct (generate_inv g wf m (kind_n k) allow (kind_lalr k) _ (kind_n_le k) H) as (fs & pg & cs & A & au & C & D).
  assert (table_of g (kind_n k) pg tb) as tf by (destruct Ht; inversion D; auto).
  assert (forall l, (forall s, In s l -> known g s \/ s = End) -> exists names, res_list (map (get_symbol_name g) l) = Ok names /\ length names = length l) as names.
  { intros l Hl. destruct (list_total _ _ _ (get_symbol_name g) l) as [ns Hns].
    - intros s Hs. destruct (Hl s Hs) as [K|E]; [|subst s; eexists; reflexivity]. destruct (known_shown g ps s K) as [n Hn]. exists n. apply symbol_name_shown; auto.
    - exists ns. split; auto. apply list_ok in Hns. clear -Hns. revert Hns. generalize l. induction ns as [|n ns IH]; intros l0 H; inversion H; subst; cbn [length]; auto. }
  assert (exists l, res_list (map (rule_line g) (enumerate (g_rules g))) = Ok l) as [rules Hrules].
  { apply list_total. intros [j r'] Hin. unfold rule_line, rule_text, symbol_names. cbn [fst snd].
    assert (In r' (g_rules g)) as Hr. { rewrite enumerate_combine in Hin. eapply in_combine_r; eauto. }
    destruct (names (r_rhs r')) as (ns & Ens & _); [intros s Hs; left; eapply wf_rhs; eauto|]. rewrite Ens. cbn [bind].
    destruct (wf_lhs g wf r' Hr) as (i & Ei & Hi). rewrite Ei. destruct (known_shown g ps (NonTerminal i) Hi) as [n Hn]. apply symbol_name_shown in Hn; auto. rewrite Hn. cbn [bind]. eexists. reflexivity. }
  destruct (names (table_columns g)) as (cols & Ecols & _).
  { intros s Hs. unfold table_columns in Hs. apply in_app_or in Hs. destruct Hs as [Hs|[<-|[]]]; auto. left. unfold all_symbols in Hs. apply in_app_or in Hs.
    destruct Hs as [Hs|Hs]; [destruct (wf_ts g wf s Hs) as [t ->]|destruct (wf_nts g wf s Hs) as [i ->]]; exact Hs. }
  unfold output_table. rewrite Hrules. cbn [bind]. rewrite Ecols. cbn [bind].
  destruct (list_total _ _ _ (table_line tb (String.length (decimal (N.of_nat (tb_states tb)))) (combine (table_columns g) cols)) (seq 0 (tb_states tb))) as [lines Hlines]; [|rewrite Hlines; eexists; reflexivity].
  intros q _. unfold table_line. destruct (list_total _ _ _ (table_cell tb q) (combine (table_columns g) cols)) as [cells Hcells]; [|rewrite Hcells; eexists; reflexivity].
  intros [s n] _. unfold table_cell. cbn [fst snd]. assert (exists t, cell_text (get_entry tb q s) = Ok t) as [t Et]; [|rewrite Et; eexists; reflexivity].
  destruct (get_entry tb q s) as [[|e [|e' l]]|] eqn:Eg; try (eexists; reflexivity); [|destruct e as [?|[?|]| |]; eexists; reflexivity].
  destruct e as [?|[?|]| |]; try (eexists; reflexivity). exfalso. apply (cells_no_entry g _ fs _ pg tb q s (Reduce None) wf (kind_n_le k) au tf); auto.
  unfold cell, get_or_empty. unfold get_entry in Eg. rewrite Eg. left. auto.
Qed.

(** ** When a run succeeds *)

Lemma made_iff : forall create l, (exists new, made create l new) <-> forall f, In f l -> create (fst f) = true /\ exists a, snd f = Ok a.
Proof.
  intros create l. split; [|apply made_ex]. intros (new & H). induction H as [|f e l new (A & B & a & C & D) H IH]; intros f0 []; subst; eauto.
Qed.

Lemma accepting_rules : forall fuel rules al d r, valid_rules rules -> no_empty_sequence rules -> generate_lexer fuel rules = Ok (al, d) -> In (Accepting r) (dfa_nodes d) -> In r rules.
Proof.
  intros fuel rules al d r V N H Hin. pose proof (generate_lexer_facts _ _ _ _ V N H) as F. apply In_nth_error in Hin. destruct Hin as [k Hk].
  destruct (lf_reach _ _ _ F k) as (u & Hu & Hr); [apply nth_error_Some; congruence|]. destruct (lf_label _ _ _ F u k Hu Hr) as [(m & X & _)|(r' & X & B)]; [congruence|].
  assert (r' = r) as -> by congruence. destruct B as (b & c & -> & _). apply in_or_app. right. left. auto.
Qed.

Section Success.
Variable create : string -> bool.
Variable l : language.

Lemma tokens_made_iff : forall names, (forall n, In n names -> ascii_name n) ->
  ((exists tf, made create (tokens_files l names) tf) <-> (forall f, In f (token_outputs l) -> create f = true) /\ forall n, In n names -> well_named l n).
Proof.
  intros names Ha. rewrite made_iff. destruct (token_variants names Ha) as [P Q]. split.
  - intros H. split.
    + intros f Hf. rewrite <- (tokens_names l names) in Hf. apply in_map_iff in Hf. destruct Hf as (x & <- & Hx). apply H; auto.
    + intros n Hn El Hs. subst l. destruct (H _ (or_introl eq_refl)) as [_ [a X]]. cbn [snd] in X. apply bind_Ok in X. destruct X as (v & X & _).
      rewrite (proj2 P) in X; [discriminate|]. eauto.
  - intros [H1 H2] f Hf. split; [apply H1; rewrite <- (tokens_names l names); apply in_map; auto|]. destruct l; cbn [tokens_files In] in Hf.
    + destruct Hf as [<-|[]]. cbn [snd]. destruct Q as (vs & -> & _); [intros n Hn; apply H2; auto|]. cbn [bind]. eauto.
    + destruct Hf as [<-|[<-|[]]]; cbn [snd]; eauto.
Qed.

Lemma lexer_made_iff : forall fuel rules al d, valid_rules rules -> no_empty_sequence rules -> generate_lexer fuel rules = Ok (al, d) ->
  (forall r, In r rules -> ascii_name (tr_name r) /\ well_named l (tr_name r)) ->
  ((exists lf, made create (lexer_files l al d) lf) <-> forall f, In f (lexer_outputs l) -> create f = true).
Proof.
  intros fuel rules al d V N G Hn. rewrite made_iff. split.
  - intros H f Hf. rewrite <- (lexer_names l al d) in Hf. apply in_map_iff in Hf. destruct Hf as (x & <- & Hx). apply H; auto.
  - intros H f Hf. split; [apply H; rewrite <- (lexer_names l al d); apply in_map; auto|]. destruct l; cbn [lexer_files In] in Hf.
    + destruct Hf as [<-|[]]. cbn [snd]. destruct (list_total _ _ _ accepted_name (dfa_nodes d)) as [ns ->]; [|cbn [bind]; eauto].
      intros [r|r] Hr; cbn [accepted_name]; eauto. apply (accepting_rules fuel rules al d r V N G) in Hr. destruct (Hn r Hr) as [A B].
      destruct (camel_panics (tr_name r) A) as [_ X]. destruct (proj1 X (B eq_refl)) as [x Ex]. unfold get_token_enum_name. rewrite Ex. cbn [bind]. eauto.
    + destruct Hf as [<-|[<-|[]]]; cbn [snd]; eauto.
Qed.

Lemma table_made_iff : forall table rs g k m tb, from_rule_set rs = Ok g -> forall r allow, generates k m g allow = Ok r -> table_of_result r tb ->
  ((exists fs, made create (table_files table g tb) fs) <-> (table = true -> create "table"%string = true)).
Proof.
  intros table rs g k m tb Hg r allow H Ht. rewrite made_iff. destruct (table_written rs g k m _ _ tb Hg H Ht) as [text X]. unfold table_files. destruct table.
  - split; [intros Y _; apply (Y _ (or_introl eq_refl))|]. intros Y f [<-|[]]. cbn [fst snd]. rewrite X. cbn [bind]. split; [auto|eauto].
  - split; [intros _ ?; discriminate|]. intros _ f [].
Qed.

Lemma rust_variants_iff : forall rs g, from_rule_set rs = Ok g -> (forall p, In p (rs_prods rs) -> ascii_name (pr_name p)) ->
  ((exists vs, rust_non_terminal_variants g = Ok vs) <-> forall i n, In (NonTerminal i, n) (g_prods g) -> ~ empty_segment n).
Proof.
  intros rs g Hg Ha. destruct (non_terminal_variants rs g Hg Ha) as [A B]. split.
  - intros (vs & H) i n Hi Hs. rewrite (proj2 A) in H; [discriminate|eauto].
  - intros H. destruct (B H) as (vs & X & _). eauto.
Qed.

Lemma lr_made_iff : forall sr g k m tb, from_rule_set (unspanned sr) = Ok g -> (forall p, In p (map snd (sr_prods sr)) -> ascii_name (pr_name p)) -> (l = Cpp -> small (unspanned sr)) ->
  generates k m g false = Ok (NoConflicts tb) ->
  ((exists fs, made create (lr_files l (names_of sr) g tb) fs) <->
   (forall f, In f (parser_outputs l) -> create f = true) /\ (forall i n, In (NonTerminal i, n) (g_prods g) -> well_named l n) /\ (l = Rust -> k = KindLR0 -> ~ only_empty_entry g)).
Proof.
  intros sr g k m tb Hg Ha Hs H. rewrite made_iff. pose proof (grammar_wf _ _ Hg) as wf. assert (map fst (lr_files l (names_of sr) g tb) = parser_outputs l) as En by (destruct l; reflexivity). split.
  - intros X. split; [|split].
    + intros f Hf. rewrite <- En in Hf. apply in_map_iff in Hf. destruct Hf as (x & <- & Hx). apply X; auto.
    + intros i n Hi El. subst l. destruct (X _ (or_introl eq_refl)) as [_ [a Y]]. cbn [snd] in Y. apply bind_Ok in Y. destruct Y as (v1 & _ & Y). apply bind_Ok in Y. destruct Y as (v2 & _ & Y).
      apply bind_Ok in Y. destruct Y as (vs & Y & _). eapply (proj1 (rust_variants_iff _ _ Hg Ha)); eauto.
    + intros El Ek O. subst l. destruct (X _ (or_introl eq_refl)) as [_ [a Y]]. cbn [snd] in Y. apply bind_Ok in Y. destruct Y as (v1 & _ & Y). apply bind_Ok in Y. destruct Y as (v2 & Y & _).
      destruct (expect_cases _ name_err _ (write_parser g tb)) as [(p & Y1 & Y2)|[[_ Y2]|[_ [_ Y2]]]]; try congruence.
      eapply (conflict_free_writes_not k m g wf); eauto.
  - intros (X1 & X2 & X3) f Hf. split; [apply X1; rewrite <- En; apply in_map; auto|]. destruct l; cbn [lr_files In] in Hf.
    + destruct Hf as [<-|[]]. cbn [snd]. destruct (rust_visits g) as [R1 R2]. rewrite R2. cbn [bind].
      destruct (conflict_free_writes k m g wf _ _ H (X3 eq_refl)) as [p Hp]. rewrite Hp. cbn [expect bind].
      destruct (proj2 (rust_variants_iff _ _ Hg Ha)) as [vs Hv]; [intros i n Hi; apply (X2 i n Hi eq_refl)|]. rewrite Hv. cbn [bind]. rewrite R1. cbn [bind]. eauto.
    + destruct (cpp_writes _ _ (Hs eq_refl) Hg _ _ _ _ H) as [c Hc]. destruct (cpp_visits _ _ Hg) as (vs & Hv & _).
      destruct Hf as [<-|[<-|[<-|[<-|[]]]]]; cbn [snd].
      * eauto.
      * change (names_of sr) with (token_names (unspanned sr)). rewrite Hc. cbn [bind]. eauto.
      * rewrite Hv. cbn [bind]. eauto.
      * rewrite cpp_methods. cbn [bind]. eauto.
Qed.

Lemma glr_made_iff : forall sr g m r tb x, from_rule_set (unspanned sr) = Ok g -> (forall p, In p (map snd (sr_prods sr)) -> ascii_name (pr_name p)) ->
  generates KindLALR m g true = Ok r -> table_of_result r tb -> glr_files l g tb = Some x ->
  ((exists fs, made create x fs) <-> (forall f, In f (parser_outputs l) -> create f = true) /\ (forall i n, In (NonTerminal i, n) (g_prods g) -> well_named l n)).
Proof.
  intros sr g m r tb x Hg Ha H Ht Hx. rewrite made_iff. pose proof (grammar_wf _ _ Hg) as wf. destruct l; [|discriminate]. injection Hx as <-. split.
  - intros X. split.
    + intros f [<-|[]]. apply (X _ (or_introl eq_refl)).
    + intros i n Hi _. destruct (X _ (or_introl eq_refl)) as [_ [a Y]]. cbn [snd] in Y. apply bind_Ok in Y. destruct Y as (v1 & _ & Y). apply bind_Ok in Y. destruct Y as (v2 & _ & Y).
      apply bind_Ok in Y. destruct Y as (vs & Y & _). eapply (proj1 (rust_variants_iff _ _ Hg Ha)); eauto.
  - intros (X1 & X2) f [<-|[]]. split; [apply X1; left; auto|]. cbn [snd]. destruct (rust_visits g) as [R1 R2]. rewrite R2. cbn [bind].
    destruct (glr_writes _ _ _ _ _ _ wf H Ht) as [p Hp]. rewrite Hp. cbn [expect bind].
    destruct (proj2 (rust_variants_iff _ _ Hg Ha)) as [vs Hv]; [intros i n Hi; apply (X2 i n Hi eq_refl)|]. rewrite Hv. cbn [bind]. rewrite R1. cbn [bind]. eauto.
Qed.

Lemma ll_made_iff : forall sr g tb x, from_rule_set (unspanned sr) = Ok g -> terminals_fit g -> ll_files l g tb = Some x ->
  ((exists fs, made create x fs) <-> forall f, In f (parser_outputs l) -> create f = true).
Proof.
  intros sr g tb x Hg Ht Hx. rewrite made_iff. destruct l; [discriminate|]. injection Hx as <-. split.
  - intros X f Hf. cbn [parser_outputs In] in Hf. destruct Hf as [<-|[<-|[<-|[<-|[]]]]].
    + apply (X ("parser.h"%string, Ok Fixed)). cbn [In]. auto.
    + apply (X ("parser.cpp"%string, do _ <- ll_cells g tb; Ok (CppLLParser tb))). cbn [In]. auto.
    + apply (X ("parser_impl.h"%string, do nts <- cpp_non_terminal_variants g; Ok (CppLLEnum nts))). cbn [In]. auto.
    + apply (X ("visitor.h"%string, Ok (CppMethods (ll_methods g)))). cbn [In]. auto 6.
  - intros X f Hf. cbn [In] in Hf. destruct Hf as [<-|[<-|[<-|[<-|[]]]]]; cbn [fst snd]; (split; [apply X; cbn [parser_outputs In]; auto 6|]).
    + eauto.
    + unfold ll_cells. destruct (list_total _ _ _ (fun c => @get_production name_err tb (fst c) (snd c)) (list_prod (non_terminals g) (terminals g))) as [cs Hc]; [|rewrite Hc; cbn [bind]; eauto].
      intros [s t] Hin. apply in_prod_iff in Hin. destruct Hin as [_ H]. destruct (wf_ts _ (grammar_wf _ _ Hg) t H) as [t' ->]. cbn [fst snd]. destruct s; cbn [get_production]; eauto.
      unfold succ_u16. pose proof (Ht _ H) as L. destruct (t' + 1 <? 65536)%N eqn:E; [cbn [bind]; eauto|]. apply N.ltb_ge in E. lia.
    + destruct (cpp_variants _ _ Hg) as (vs & -> & _). cbn [bind]. eauto.
    + eauto.
Qed.

Section Late.
Variable fuel : nat.
Variable alg : algorithm.
Variable table : bool.
Variable sr : spanned_rules.
Variable g : grammar.
Hypothesis built_g : from_rule_set (unspanned sr) = Ok g.
Hypothesis prods_ascii : forall p, In p (map snd (sr_prods sr)) -> ascii_name (pr_name p).
Hypothesis cpp_small : l = Cpp -> small (unspanned sr) /\ (N.of_nat (length (sr_tokens sr)) < 65536)%N.

Lemma late_step : forall source x fs, late fuel alg table l sr g x -> parser_step create fuel l alg table source sr g fs = emit_all create x fs.
Proof.
  intros source x fs H. destruct H as [tb x -> A B|k tb A B|r tb x -> A B C].
  - unfold parser_step. rewrite A, B. reflexivity.
  - rewrite (strict_step _ _ _ _ _ _ _ _ _ _ A), B. reflexivity.
  - unfold parser_step, generates in *. cbn [kind_n kind_lalr] in A. rewrite A. destruct B as [->|[cs ->]]; rewrite C; apply emit_all_app.
Qed.

Lemma late_ex : (exists x, late fuel alg table l sr g x /\ exists new, made create x new) <->
  (forall f, In f (late_outputs l alg table) -> create f = true) /\ tabled l alg fuel g /\ (alg <> LL1 -> forall i n, In (NonTerminal i, n) (g_prods g) -> well_named l n).
Proof.
  assert (forall (x y : list (string * res name_err artifact)), (exists new, made create (x ++ y) new) <-> (exists new, made create x new) /\ exists new, made create y new) as Happ.
  { intros x y. rewrite !made_iff. split; [intros H; split; intros f Hf; apply H; apply in_or_app; auto|]. intros [H1 H2] f Hf. apply in_app_or in Hf. destruct Hf; auto. }
  assert (forall a b : list string, (forall f, In f (a ++ b) -> create f = true) <-> (forall f, In f a -> create f = true) /\ forall f, In f b -> create f = true) as Hin.
  { intros a b. split; [intros H; split; intros f Hf; apply H; apply in_or_app; auto|]. intros [H1 H2] f Hf. apply in_app_or in Hf. destruct Hf; auto. }
  assert ((table = true -> create "table"%string = true) <-> forall f, In f (if table then ["table"%string] else []) -> create f = true) as Htab.
  { destruct table; split; intros H; [intros f [<-|[]]; auto|intros _; apply H; left; auto|intros f []|discriminate]. }
  split.
  - intros (x & [tb x0 -> A B|k tb A B|r tb x0 -> A B C] & M).
    + split; [|split; [|congruence]].
      * cbn [late_outputs app]. apply (proj1 (ll_made_iff sr g tb x0 built_g (built_terminals_fit _ _ built_g (proj1 (cpp_small ltac:(destruct l; [discriminate B|reflexivity]))) ltac:(cbn [unspanned rs_tokens]; rewrite map_length; apply cpp_small; destruct l; [discriminate B|reflexivity])) B) M).
      * cbn [tabled]. split; [destruct l; [discriminate B|reflexivity]|eauto].
    + apply Happ in M. destruct M as [M1 M2]. pose proof (proj1 (table_made_iff table _ g k fuel tb built_g _ _ B (tr_none tb)) M1) as M0. apply (lr_made_iff sr g k fuel tb built_g prods_ascii (fun E => proj1 (cpp_small E)) B) in M2. destruct M2 as (M2 & M3 & M4).
      assert (late_outputs l alg table = (if table then ["table"%string] else []) ++ parser_outputs l) as El by (destruct alg; try discriminate; reflexivity).
      split; [rewrite El; apply Hin; split; [apply Htab; exact M0|exact M2]|]. split; [|auto]. destruct alg; try discriminate; exists k, tb; auto.
    + apply Happ in M. destruct M as [M1 M2]. assert (table_of_result r tb) as Tr by (destruct B as [->|[cs ->]]; constructor).
      pose proof (proj1 (table_made_iff table _ g KindLALR fuel tb built_g _ _ A Tr) M1) as M0. apply (glr_made_iff sr g fuel r tb x0 built_g prods_ascii A Tr C) in M2. destruct M2 as (M2 & M3).
      split; [cbn [late_outputs]; apply Hin; split; [apply Htab; exact M0|exact M2]|]. split; [|auto]. cbn [tabled]. split; [destruct l; [reflexivity|discriminate C]|]. exists r, tb. auto.
  - intros (C & T & W). destruct alg; cbn [tabled late_outputs] in *.
    1: { destruct T as [El [tb T]]. destruct (ll_files l g tb) as [x|] eqn:Ex; [|rewrite El in Ex; discriminate]. exists x. split; [apply (lt_ll _ _ _ _ _ _ tb); auto|].
         apply (ll_made_iff sr g tb x built_g (built_terminals_fit _ _ built_g (proj1 (cpp_small El)) ltac:(cbn [unspanned rs_tokens]; rewrite map_length; apply cpp_small; exact El)) Ex). apply C. }
    4: { destruct T as (El & r & tb & T1 & T2). destruct (glr_files l g tb) as [x|] eqn:Ex; [|rewrite El in Ex; discriminate]. exists (table_files table g tb ++ x).
         split; [apply (lt_glr _ _ _ _ _ _ r tb x); auto; inversion T2; eauto|]. apply Happ. apply Hin in C. destruct C as [C1 C2]. split.
         - apply (proj2 (table_made_iff table _ g KindLALR fuel tb built_g _ _ T1 T2)). apply Htab. auto.
         - apply (glr_made_iff sr g fuel r tb x built_g prods_ascii T1 T2 Ex). split; auto. apply W. discriminate. }
    all: destruct T as (k & tb & T1 & T2 & T3); exists (table_files table g tb ++ lr_files l (names_of sr) g tb); (split; [apply (lt_lr _ _ _ _ _ _ k tb); auto|]); apply Happ; apply Hin in C; destruct C as [C1 C2];
      (split; [apply (proj2 (table_made_iff table _ g k fuel tb built_g _ _ T2 (tr_none tb))); apply Htab; auto|]);
      apply (lr_made_iff sr g k fuel tb built_g prods_ascii (fun E => proj1 (cpp_small E)) T2); (split; [auto|split; [apply W; discriminate|auto]]).
Qed.
End Late.

Lemma run_success : forall fuel read lexer alg table source sr, read source = Ok sr ->
  (lexer = true -> valid_rules (map snd (sr_tokens sr)) /\ no_empty_sequence (map snd (sr_tokens sr))) ->
  (forall n, In n (names_of sr) -> ascii_name n) -> (forall p, In p (map snd (sr_prods sr)) -> ascii_name (pr_name p)) -> (l = Cpp -> small (unspanned sr) /\ (N.of_nat (length (sr_tokens sr)) < 65536)%N) ->
  (snd (generate create fuel read lexer alg table l (Some source)) = Ok tt <->
   (forall f, In f (early_outputs l lexer ++ late_outputs l alg table) -> create f = true) /\
   (forall n, In n (names_of sr) -> well_named l n) /\
   (lexer = true -> exists al d, generate_lexer fuel (map snd (sr_tokens sr)) = Ok (al, d)) /\
   exists g, from_rule_set (unspanned sr) = Ok g /\ tabled l alg fuel g /\ (alg <> LL1 -> forall i n, In (NonTerminal i, n) (g_prods g) -> well_named l n)).
Proof.
  intros fuel read lexer alg table source sr Hr Hv Hn Hp Hs. split.
  - intros H. destruct (generate create fuel read lexer alg table l (Some source)) as [files r] eqn:E. cbn [snd] in H. subst r. apply generate_stages in E.
    destruct E as [E|(sr' & g & fs & Hr' & He & Hg & E)].
    + exfalso. inversion E; subst; try contradiction; try discriminate. pose proof (no_err_precedence (list report) sr0 source (PrecedenceError tied h)) as X.
      destruct (report_precedence sr0 source (PrecedenceError tied h)); cbn [bind] in *; congruence.
    + assert (sr' = sr) as -> by congruence. apply parser_step_cases in E. destruct E as [(x & new & Lx & Em & ->)|[(tb & new & r0 & _ & _ & _ & _ & X)|[_ X]]].
      2: { destruct r0; discriminate. }
      2: { exfalso. inversion X as [k cs r A B C| |]; subst. pose proof (no_err_conflicts (list report) sr g source cs) as Y. destruct (report_conflicts sr g source cs); cbn [bind] in *; congruence. }
      apply emit_all_ok in Em. destruct Em as (new' & -> & M). destruct He as (tf & lf & Mt & -> & Ml).
      destruct (proj1 (tokens_made_iff (names_of sr) Hn)) as [T1 T2]; [eauto|].
      destruct (proj1 (late_ex fuel alg table sr g Hg Hp Hs)) as (L1 & L2 & L3); [exists x; split; [exact Lx|eauto]|].
      split; [|split; [exact T2|split]].
      * intros f Hf. unfold early_outputs in Hf. apply in_app_or in Hf. destruct Hf as [Hf|Hf]; auto. apply in_app_or in Hf; destruct Hf as [Hf|Hf]; auto.
        destruct lexer; [|destruct Hf]. destruct Ml as (al & d & Gl & Ml). destruct (Hv eq_refl) as [V1 V2].
        apply (proj1 (lexer_made_iff fuel _ al d V1 V2 Gl (fun r Hr => conj (Hn _ (in_map tr_name _ _ Hr)) (T2 _ (in_map tr_name _ _ Hr)))) (ex_intro _ _ Ml) f Hf).
      * intros El'. rewrite El' in Ml. destruct Ml as (al & d & Gl & _). eauto.
      * exists g. auto.
  - intros (C & T & Lx & g & Hg & Ht & Hnt). unfold early_outputs in C.
    destruct (proj2 (tokens_made_iff (names_of sr) Hn)) as [tf Mt]; [split; [|exact T]; intros f Hf; apply C; apply in_or_app; left; apply in_or_app; auto|].
    assert (exists lf, if lexer then exists al d, generate_lexer fuel (map snd (sr_tokens sr)) = Ok (al, d) /\ made create (lexer_files l al d) lf else lf = []) as [lf Ml].
    { destruct lexer; [|eauto]. destruct (Lx eq_refl) as (al & d & Gl). destruct (Hv eq_refl) as [V1 V2]. destruct (proj2 (lexer_made_iff fuel _ al d V1 V2 Gl (fun r Hr => conj (Hn _ (in_map tr_name _ _ Hr)) (T _ (in_map tr_name _ _ Hr))))) as [lf M].
      - intros f Hf. apply C. apply in_or_app. left. apply in_or_app. auto.
      - exists lf, al, d. auto. }
    destruct (proj2 (late_ex fuel alg table sr g Hg Hp Hs)) as (x & Lt & new & M); [split; [intros f Hf; apply C; apply in_or_app; auto|auto]|].
    rewrite (generate_reaches create fuel read lexer alg table l source sr g (tf ++ lf) Hr); [|exists tf, lf; auto|exact Hg].
    rewrite (late_step fuel alg table sr g source x _ Lt). rewrite (emit_all_made create _ (tf ++ lf) new M). reflexivity.
Qed.
End Success.
