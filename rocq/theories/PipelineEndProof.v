(** From the text of a grammar file to what the generated parser does with a text. *)
From Coq Require Import String List Arith NArith Bool Lia.
From Verif Require Import Base InputModel LexerSpec LexerModel BootModel PositionModel PositionSpec InputGenModel InputGenSpec InputGenFactsProof InputTextSpec InputTextFactsProof NamesModel NamesSpec
  GrammarModel GrammarSpec GrammarFactsProof LLSpec LRModel LRSpec LRCompleteProof LRFactsProof GLRModel GLRSpec RunModel RunSpec RunProof PipelineModel PipelineSpec PipelineProof PipelineFactsProof PipelineTermProof.
Import ListNotations.
Local Open Scope nat_scope.
Local Open Scope list_scope.

Lemma end_lr : forall create regex gn n fuel alg k table file files, built gn -> Forall valid_char file -> strict_kind alg = Some k ->
  generate create fuel (parse_lapex regex gn n) true alg table Rust (Some file) = (files, Ok tt) ->
  exists sr g al d p nts methods visits, reads_file regex file sr /\ from_rule_set (unspanned sr) = Ok g /\
    In ("lexer.rs"%string, Some (RustLexer al d)) files /\ In ("parser.rs"%string, Some (RustParser p nts methods visits)) files /\
    (small (unspanned sr) -> usable_tokens (rs_tokens (unspanned sr)) -> epsilon_in_front g -> no_empty_rhs g -> sealed k g ->
     forall text, Forall valid_char text ->
     (text_of_language (unspanned sr) text <-> exists m, forall pf, m <= pf -> exists ev lx, text_parse pf (mkRustLexer al d (g_tokens g)) p text = (ev, Ok lx)) /\
     (forall pf ev lx, text_parse pf (mkRustLexer al d (g_tokens g)) p text = (ev, Ok lx) ->
        exists ts tr, tokenised (rs_tokens (unspanned sr)) text ts /\ parse_tree g tr /\ Forall2 (token_named g) (iyield tr) (map tr_name ts) /\ ev = post_order tr)).
Proof.
  intros create regex gn n fuel alg k table file files B V Hk H. apply (run_writes_lr _ _ _ _ _ _ _ _ Hk) in H.
  destruct H as (sr & g & al & d & tb & p & v & nts & methods & visits & Hr & Hg & Hl & Ht & Hp & _ & _ & _ & _ & t & _ & ->).
  exists sr, g, al, d, p, nts, methods, visits. split; [eapply text_reads; eauto|]. split; [exact Hg|]. split; [right; left; reflexivity|]. split; [apply in_or_app; right; apply in_or_app; right; left; reflexivity|].
  intros Hs Hu Hf He Hse text Vt.
  assert (forall pf ev lx, text_parse pf (mkRustLexer al d (g_tokens g)) p text = (ev, Ok lx) ->
        exists ts tr, tokenised (rs_tokens (unspanned sr)) text ts /\ parse_tree g tr /\ Forall2 (token_named g) (iyield tr) (map tr_name ts) /\ ev = post_order tr) as X.
  { intros pf ev lx E. pose proof (text_exact (unspanned sr) g fuel al d Hs Hg Hu Hl k fuel false tb p Ht Hp Hf He Hse pf text Vt) as X. rewrite E in X. apply X. }
  split; [|exact X]. split.
  - intros L. destruct (text_accepts (unspanned sr) g fuel al d Hs Hg Hu Hl k fuel false tb p Ht Hp Hf He text Vt L) as (ev & m & Hm). exists m. intros pf Hpf. destruct (Hm pf Hpf) as [lx E]. eauto.
  - intros (m & Hm). destruct (Hm m (le_n _)) as (ev & lx & E). destruct (X _ _ _ E) as (ts & tr & T1 & T2 & T3 & _).
    apply (text_language (unspanned sr) g Hs Hg text ts _ Vt T1 T3). apply (parse_tree_derives g _ (grammar_wf _ _ Hg)). eauto.
Qed.

Lemma end_glr : forall create regex gn n fuel table file files, built gn -> Forall valid_char file ->
  generate create fuel (parse_lapex regex gn n) true GLR table Rust (Some file) = (files, Ok tt) ->
  exists sr g al d p nts methods visits, reads_file regex file sr /\ from_rule_set (unspanned sr) = Ok g /\
    In ("lexer.rs"%string, Some (RustLexer al d)) files /\ In ("parser.rs"%string, Some (RustGlrParser p nts methods visits)) files /\
    (small (unspanned sr) -> usable_tokens (rs_tokens (unspanned sr)) -> epsilon_in_front g -> no_empty_rhs g -> sealed KindLALR g ->
     forall text, Forall valid_char text -> forall pf,
     match glr_text_parse pf (mkRustLexer al d (g_tokens g)) p text with
     | (ev, Ok _) => text_of_language (unspanned sr) text /\ exists ts tr, tokenised (rs_tokens (unspanned sr)) text ts /\ parse_tree g tr /\ Forall2 (token_named g) (iyield tr) (map tr_name ts) /\ ev = post_order tr /\
         forall tr', parse_tree g tr' -> iyield tr' = iyield tr -> tr' = tr
     | (_, Err _) => ~ text_of_language (unspanned sr) text
     | (_, Panic) => (~ exists ts, tokenised (rs_tokens (unspanned sr)) text ts) \/
         exists ts w, tokenised (rs_tokens (unspanned sr)) text ts /\ Forall2 (token_named g) w (map tr_name ts) /\ ambiguous_sentence g w
     | (_, OutOfFuel) => True
     end).
Proof.
  intros create regex gn n fuel table file files B V H. apply run_writes_glr in H.
  destruct H as (sr & g & al & d & r & tb & p & v & nts & methods & visits & Hr & Hg & Hl & Ht & Hrt & Hp & _ & _ & _ & _ & t & _ & ->).
  exists sr, g, al, d, p, nts, methods, visits. split; [eapply text_reads; eauto|]. split; [exact Hg|]. split; [right; left; reflexivity|]. split; [apply in_or_app; right; apply in_or_app; right; left; reflexivity|].
  intros Hs Hu Hf He Hse text Vt pf. pose proof (glr_text_exact (unspanned sr) g fuel al d Hs Hg Hu Hl KindLALR fuel true r tb p Ht Hrt Hp Hf He Hse pf text Vt) as X.
  destruct (glr_text_parse pf (mkRustLexer al d (g_tokens g)) p text) as [ev [lx|e| |]]; auto. split; [|exact X]. destruct X as (ts & tr & T1 & T2 & T3 & _).
  apply (text_language (unspanned sr) g Hs Hg text ts _ Vt T1 T3). apply (parse_tree_derives g _ (grammar_wf _ _ Hg)). eauto.
Qed.

(** ** Reports about the text of a file *)

Lemma text_reports_sound : forall regex gn n source sr, built gn -> parse_lapex regex gn n source = Ok sr -> Forall (fun c => (c < 128)%N) source -> unbroken source -> positions_fit source ->
  forall create fuel lexer alg table l rs, (lexer = true -> lexable (map snd (sr_tokens sr))) -> snd (generate create fuel (parse_lapex regex gn n) lexer alg table l (Some source)) = Err rs ->
  (lexer = true /\ tie_reported regex source (sr_tokens sr) rs) \/
  (exists k g cs, strict_kind alg = Some k /\ from_rule_set (unspanned sr) = Ok g /\ generates k fuel g false = Ok (BadConflicts cs) /\ cs <> [] /\ Forall2 (reported regex source sr g) cs rs).
Proof.
  intros regex gn n source sr B P A U F create fuel lexer alg table l rs. apply (reports_sound regex source sr (parse_lapex regex gn n) P F). eapply text_spans_ok; eauto.
Qed.

Lemma text_ties_complete : forall regex gn n source sr, built gn -> parse_lapex regex gn n source = Ok sr -> Forall (fun c => (c < 128)%N) source -> unbroken source -> positions_fit source ->
  forall create alg table l u h tied, lexable (map snd (sr_tokens sr)) -> (forall t, In t (map snd (sr_tokens sr)) -> ascii_name (tr_name t) /\ well_named l (tr_name t)) ->
  Forall valid_char u -> tie (map snd (sr_tokens sr)) u h tied -> (forall f, In f (token_outputs l) -> create f = true) ->
  exists m, forall fuel, m <= fuel -> exists files rs, generate create fuel (parse_lapex regex gn n) true alg table l (Some source) = (files, Err rs) /\ finished (token_outputs l) files /\ tie_reported regex source (sr_tokens sr) rs.
Proof.
  intros regex gn n source sr B P A U F create alg table l u h tied L Hn Hu Ht Hc.
  apply (ties_complete regex source sr (parse_lapex regex gn n) P F (text_spans_ok _ _ _ _ _ B P A U F) create true alg table l u h tied eq_refl L); auto.
  - intros x Hx. unfold names_of in Hx. apply in_map_iff in Hx. destruct Hx as (t & <- & Hx). apply Hn. exact Hx.
  - intros x Hx. unfold names_of in Hx. apply in_map_iff in Hx. destruct Hx as (t & <- & Hx). apply Hn. exact Hx.
Qed.

Lemma text_conflicts_complete : forall regex gn n source sr, built gn -> parse_lapex regex gn n source = Ok sr -> Forall (fun c => (c < 128)%N) source -> unbroken source -> positions_fit source ->
  forall create fuel lexer alg k table l g cs, (lexer = true -> lexable (map snd (sr_tokens sr)) /\ exists al d, generate_lexer fuel (map snd (sr_tokens sr)) = Ok (al, d)) ->
  (forall t, In t (map snd (sr_tokens sr)) -> ascii_name (tr_name t) /\ well_named l (tr_name t)) -> strict_kind alg = Some k -> from_rule_set (unspanned sr) = Ok g -> generates k fuel g false = Ok (BadConflicts cs) ->
  (forall f, In f (early_outputs l lexer) -> create f = true) ->
  exists files rs, generate create fuel (parse_lapex regex gn n) lexer alg table l (Some source) = (files, Err rs) /\ finished (early_outputs l lexer) files /\ Forall2 (reported regex source sr g) cs rs.
Proof.
  intros regex gn n source sr B P A U F create fuel lexer alg k table l g cs L Hn Hk Hg Hcs Hc.
  apply (conflicts_complete regex source sr (parse_lapex regex gn n) P F (text_spans_ok _ _ _ _ _ B P A U F) create lexer alg table l fuel k g cs); auto.
  - intros E. destruct (L E) as [[L1 L2 _ _] L5]. auto.
  - intros x Hx. unfold names_of in Hx. apply in_map_iff in Hx. destruct Hx as (t & <- & Hx). apply Hn. exact Hx.
  - intros x Hx. unfold names_of in Hx. apply in_map_iff in Hx. destruct Hx as (t & <- & Hx). apply Hn. exact Hx.
Qed.
