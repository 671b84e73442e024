(** Runs of the generator which write C++, and what the C++ parsers for a grammar file do with the bytes of a source. *)
From Coq Require Import String List Arith NArith Bool Lia.
From Verif Require Import Base InputModel LexerSpec LexerModel BootModel PositionModel PositionSpec InputGenModel InputGenSpec InputGenFactsProof InputTextSpec InputTextFactsProof NamesModel NamesSpec NamesVisitProof
  GrammarModel GrammarSpec GrammarFactsProof LLModel LLSpec LRModel LRSpec LRTermSpec LRCompleteProof LRFactsProof GLRModel GLRSpec RunModel RunSpec RunProof CppLexerModel CppLexerSpec CppLexerProof CppLRModel CppLRSpec CppLRProof CppRunModel CppRunSpec CppRunProof
  PipelineModel PipelineSpec PipelineProof PipelineFactsProof PipelineTermProof.
Import ListNotations.
Local Open Scope nat_scope.
Local Open Scope list_scope.

(** ** The Rust parser needed in the proofs is there. *)

Lemma starts_not_empty : forall g, entry_starts g -> ~ only_empty_entry g.
Proof.
  intros g (r & i & m & s & al & Hr & Hl & He & Hs & Hne & _) (i' & k & r' & m' & Ee & Hk & Hr' & U).
  rewrite Ee in He. injection He as ->. apply In_nth_error in Hr. destruct Hr as [k' Hk']. pose proof (proj1 (U k' r Hk') Hl) as ->. rewrite Hk in Hk'. injection Hk' as ->.
  rewrite Hs in Hr'. assert (In s (repeat Epsilon m')) as X by (rewrite <- Hr'; apply in_or_app; right; left; reflexivity). apply repeat_spec in X. congruence.
Qed.

Section Bytes.
Variable rs : rule_set.
Variable g : grammar.
Variable lfuel : nat.
Variable al : alphabet.
Variable d : dfa token_rule.
Hypothesis sm : small rs.
Hypothesis built : from_rule_set rs = Ok g.
Hypothesis us : usable_tokens (rs_tokens rs).
Hypothesis gen : generate_lexer lfuel (rs_tokens rs) = Ok (al, d).
Variable k : table_kind.
Variable m : nat.
Variable allow : bool.
Variable tb : lr_table.
Variable c : cpp_lr.
Hypothesis tgen : generates k m g allow = Ok (NoConflicts tb).
Hypothesis wrc : cpp_write (token_names rs) g tb = Ok c.
Hypothesis comp : cpp_compiles c.
Hypothesis front : epsilon_in_front g.
Hypothesis ne : no_empty_rhs g.

Lemma sealed_written : sealed k g -> exists p, write_parser g tb = Ok p.
Proof.
  intros [[-> _]|[Hk _]]; (apply (conflict_free_writes _ m g (grammar_wf _ _ built) allow tb tgen)); [discriminate|congruence].
Qed.
Lemma starts_written : entry_starts g -> exists p, write_parser g tb = Ok p.
Proof. intros Hs. apply (conflict_free_writes k m g (grammar_wf _ _ built) allow tb tgen). intros _. apply starts_not_empty, Hs. Qed.

Lemma exact_bytes : sealed k g -> entry_starts g -> forall fuel bytes text junk, Forall is_byte bytes -> holds bytes text junk ->
  match cpp_text_parse fuel al d c bytes with
  | (calls, Ok _) => readable text junk /\ exists ls tr, lexemes (rs_tokens rs) text ls /\ parse_tree g tr /\ Forall2 (token_named g) (iyield tr) (map (fun l => tr_name (snd l)) ls) /\
      told (token_names rs) (post_order tr) (places 0 (map fst ls)) calls
  | (_, Err (Throw _)) => ~ (readable text junk /\ text_of_language rs text)
  | (_, OutOfFuel) => True
  | _ => False
  end.
Proof. intros Hse Hst. destruct (sealed_written Hse) as [p Hp]. exact (bytes_exact rs g lfuel al d sm built us gen k m allow tb p c tgen Hp wrc comp front ne Hse Hst). Qed.

Lemma terminate_bytes : sealed k g -> ~ entry_starts g -> forall fuel bytes text junk, 2 <= fuel -> Forall is_byte bytes -> holds bytes text junk ->
  match cpp_text_parse fuel al d c bytes with
  | (calls, Err Terminated) => readable text junk /\ exists ls tr, lexemes (rs_tokens rs) text ls /\ parse_tree g tr /\ Forall2 (token_named g) (iyield tr) (map (fun l => tr_name (snd l)) ls) /\
      told (token_names rs) (post_order tr) (places 0 (map fst ls)) calls
  | (_, Err (Throw _)) => ~ (readable text junk /\ text_of_language rs text)
  | (_, OutOfFuel) => True
  | _ => False
  end.
Proof.
  intros Hse Hst fuel bytes text junk Hf Hb Hh. destruct (sealed_written Hse) as [p Hp]. pose proof (bytes_terminate rs g lfuel al d sm built us gen k m allow tb p c tgen Hp wrc comp front ne Hse Hst fuel bytes text junk Hf Hb Hh) as X.
  destruct (cpp_text_parse fuel al d c bytes) as [calls [lx|[]| |]]; exact X.
Qed.

Lemma accepted_bytes : entry_starts g -> forall bytes text junk, Forall is_byte bytes -> holds bytes text junk -> readable text junk -> text_of_language rs text ->
  exists n, forall fuel, n <= fuel -> exists calls lx, cpp_text_parse fuel al d c bytes = (calls, Ok lx).
Proof. intros Hst. destruct (starts_written Hst) as [p Hp]. exact (bytes_accepted rs g lfuel al d sm built us gen k m allow tb p c tgen Hp wrc comp front ne Hst). Qed.

Lemma language_bytes : sealed k g -> entry_starts g -> forall fuel bytes text junk calls lx, Forall is_byte bytes -> holds bytes text junk -> cpp_text_parse fuel al d c bytes = (calls, Ok lx) ->
  readable text junk /\ text_of_language rs text.
Proof.
  intros Hse Hst fuel bytes text junk calls lx Hb Hh E. pose proof (exact_bytes Hse Hst fuel bytes text junk Hb Hh) as X. rewrite E in X. destruct X as (R & ls & tr & T1 & T2 & T3 & _). split; [exact R|].
  assert (Forall valid_char text) as Vt by (destruct Hh as (enc & _ & T & _); exact (utf8_text_chars _ _ T)).
  apply (text_language rs g sm built text (map snd ls) (iyield tr) Vt (lexemes_tokenised _ _ _ T1)); [rewrite map_map; exact T3|]. apply (parse_tree_derives g _ (grammar_wf _ _ built)). eauto.
Qed.

Lemma settled_bytes : sealed k g -> all_productive g -> forall bytes, Forall is_byte bytes -> exists n, forall fuel, n <= fuel -> snd (cpp_text_parse fuel al d c bytes) <> OutOfFuel.
Proof. intros Hse. destruct (sealed_written Hse) as [p Hp]. exact (bytes_settle rs g lfuel al d sm built us gen k m allow tb p c tgen Hp wrc comp front ne Hse). Qed.
End Bytes.

Lemma holds_once : forall bytes, Forall is_byte bytes -> exists text junk, holds bytes text junk /\ forall text' junk', holds bytes text' junk' -> text' = text /\ junk' = junk.
Proof.
  intros bytes B. destruct (holds_total bytes B) as (text & junk & H). exists text, junk. split; [exact H|]. intros text' junk' H'. apply (holds_unique bytes text' junk' text junk B H' H).
Qed.
Lemma lexemes_once_proof : forall rules text ls ls', Forall valid_char text -> lexemes rules text ls -> lexemes rules text ls' -> ls = ls' /\ tokenised rules text (map snd ls).
Proof. intros rules text ls ls' V H H'. split; [apply (lexemes_unique rules text ls V H ls' H')|apply lexemes_tokenised, H]. Qed.

(** ** The files of a run *)

Lemma made_cons : forall create f x new, made create (f :: x) new -> exists a new', snd f = Ok a /\ new = (fst f, Some a) :: new' /\ made create x new'.
Proof.
  intros create f x new H. inversion H as [|? e ? new' (A & B & a & C & D) H']; subst. exists a, new'. split; [exact C|]. split; [|exact H']. destruct e. cbn [fst snd] in *. subst. reflexivity.
Qed.
Lemma made_nil : forall create new, made create [] new -> new = [].
Proof. intros create new H. inversion H; reflexivity. Qed.

Lemma made_cpp_tokens : forall create ns tf, made create (tokens_files Cpp ns) tf -> tf = [("tokens.h", Some (CppTokens (enumerators ns))); ("tokens.cpp", Some (CppTokenNames ns))]%string.
Proof.
  intros create ns tf H. apply made_cons in H. destruct H as (a & new & E & -> & H). apply made_cons in H. destruct H as (b & new' & E' & -> & H). apply made_nil in H. subst. cbn in E, E'. injection E as <-. injection E' as <-. reflexivity.
Qed.
Lemma made_cpp_lexer : forall create al d lf, made create (lexer_files Cpp al d) lf -> lf = [("lexer.h", Some Fixed); ("lexer.cpp", Some (CppLexer al d))]%string.
Proof.
  intros create al d tf H. apply made_cons in H. destruct H as (a & new & E & -> & H). apply made_cons in H. destruct H as (b & new' & E' & -> & H). apply made_nil in H. subst. cbn in E, E'. injection E as <-. injection E' as <-. reflexivity.
Qed.

Lemma run_writes_cpp : forall create fuel read alg k table source files, strict_kind alg = Some k -> generate create fuel read true alg table Cpp (Some source) = (files, Ok tt) ->
  exists sr g al d tb c visits methods, read source = Ok sr /\ from_rule_set (unspanned sr) = Ok g /\ generate_lexer fuel (map snd (sr_tokens sr)) = Ok (al, d) /\
    generates k fuel g false = Ok (NoConflicts tb) /\ cpp_write (token_names (unspanned sr)) g tb = Ok c /\ cpp_rule_visits g = Ok visits /\ cpp_visitor_methods g = Ok methods /\
    exists t, (table = false -> t = []) /\
    files = [("tokens.h", Some (CppTokens (enumerators (token_names (unspanned sr))))); ("tokens.cpp", Some (CppTokenNames (token_names (unspanned sr)))); ("lexer.h", Some Fixed); ("lexer.cpp", Some (CppLexer al d))]%string ++ t ++
            [("parser.h", Some Fixed); ("parser.cpp", Some (CppParser c)); ("parser_impl.h", Some (CppVisits visits)); ("visitor.h", Some (CppMethods methods))]%string.
Proof.
  intros create fuel read alg k table source files Hk H. apply run_inv in H. destruct H as (sr & g & fs & x & new & Hr & Hg & (tf & lf & Mt & -> & al & d & Hl & Ml) & Lx & M & ->).
  apply made_cpp_tokens in Mt. subst tf. apply made_cpp_lexer in Ml. subst lf.
  destruct Lx as [tb x Ha _ _|k' tb Hk' Ht|r tb x Ha _ _ _]; try (subst alg; discriminate). assert (k' = k) as -> by congruence.
  apply Forall2_app_inv_l in M. destruct M as (t & pn & M1 & M2 & ->). unfold lr_files in M2.
  apply made_cons in M2. destruct M2 as (a1 & n1 & E1 & -> & M2). apply made_cons in M2. destruct M2 as (a2 & n2 & E2 & -> & M2). apply made_cons in M2. destruct M2 as (a3 & n3 & E3 & -> & M2).
  apply made_cons in M2. destruct M2 as (a4 & n4 & E4 & -> & M2). apply made_nil in M2. subst n4. cbn [fst snd] in *. injection E1 as <-. inv_bind E2. injection E2 as <-. inv_bind E3. injection E3 as <-. inv_bind E4. injection E4 as <-.
  exists sr, g, al, d, tb, a, a0, a1. repeat (split; [assumption|]). exists t. split.
  - intros ->. inversion M1; auto.
  - reflexivity.
Qed.

Lemma ll_names : forall rs g, small rs -> from_rule_set rs = Ok g -> ll_methods g = flat_map (fun n => ["enter_" ++ n; "exit_" ++ n]%string) (map snd (g_prods g)).
Proof.
  intros rs g Hs H. unfold ll_methods, non_terminals. rewrite flat_map_app.
  pose proof (prods_sorted _ _ H) as Hm. assert (forall l, incl l (g_prods g) -> flat_map (fun s => match get_production_name g s with Some n => ["enter_" ++ n; "exit_" ++ n]%string | None => [] end) (map fst l) =
    flat_map (fun n => ["enter_" ++ n; "exit_" ++ n]%string) (map snd l)) as X.
  { induction l as [|[s n] l IH]; intros I; [reflexivity|]. cbn [map flat_map fst snd]. rewrite IH by (intros e He; apply I; right; exact He).
    assert (In (s, n) (g_prods g)) as Hin by (apply I; left; reflexivity). assert (exists j, s = NonTerminal j) as [j ->].
    { apply (wf_nts g (grammar_wf _ _ H)). unfold non_terminals. apply in_or_app. left. apply (in_map fst) in Hin. exact Hin. }
    unfold get_production_name. apply (map_get_In _ _ _ Hm) in Hin. rewrite Hin. reflexivity. }
  rewrite X by apply incl_refl. clear X.
  assert (flat_map (fun s => match get_production_name g s with Some n => ["enter_" ++ n; "exit_" ++ n]%string | None => [] end) (g_anon g) = []) as X; [|rewrite X; apply app_nil_r].
  pose proof (proj2 (proj2 (anon_fresh _ _ H))) as A. induction (g_anon g) as [|s l IH]; [reflexivity|]. cbn [flat_map]. rewrite IH by (intros e He; apply A; right; exact He). rewrite app_nil_r.
  unfold get_production_name. destruct s as [| |j|j]; auto. destruct (map_get (NonTerminal j) (g_prods g)) as [n|] eqn:E; auto.
  apply (map_get_In _ _ _ Hm) in E. apply (in_map fst) in E. destruct (A _ (or_introl eq_refl) E).
Qed.

Lemma first_or_earlier : forall rs i name, first_prod_at rs i name \/ ~ prod_at rs i name \/ exists j, j < i /\ prod_at rs j name.
Proof.
  intros rs i name. assert (forall j, prod_at rs j name \/ ~ prod_at rs j name) as D.
  { intros j. unfold prod_at. destruct (nth_error (rs_prods rs) j) as [r|]; [|right; intros (r & E & _); discriminate].
    destruct (string_dec (pr_name r) name) as [E|E]; [left; eauto|right; intros (r' & E1 & E2); congruence]. }
  destruct (D i) as [A|A]; auto. assert ((exists j, j < i /\ prod_at rs j name) \/ forall j, j < i -> ~ prod_at rs j name) as [X|X]; auto.
  { clear A. induction i as [|i [(j & Hj & X)|X]]; [right; lia|left; exists j; auto|]. destruct (D i) as [Y|Y]; [left; exists i; auto|]. right. intros j Hj. destruct (Nat.eq_dec j i) as [->|]; auto. apply X. lia. }
  left. split; auto.
Qed.
Lemma first_of : forall rs i name, prod_at rs i name -> exists j, first_prod_at rs j name.
Proof.
  intros rs i name. induction i as [i IH] using (well_founded_induction lt_wf). intros H. destruct (first_or_earlier rs i name) as [X|[X|(j & Hj & X)]]; eauto. contradiction.
Qed.

Lemma run_writes_ll : forall create fuel read table source files, generate create fuel read true LL1 table Cpp (Some source) = (files, Ok tt) ->
  exists sr g al d tb nts methods, read source = Ok sr /\ from_rule_set (unspanned sr) = Ok g /\ generate_lexer fuel (map snd (sr_tokens sr)) = Ok (al, d) /\
    ll_generate_table fuel g = Ok tb /\ cpp_non_terminal_variants g = Ok nts /\
    files = [("tokens.h", Some (CppTokens (enumerators (token_names (unspanned sr))))); ("tokens.cpp", Some (CppTokenNames (token_names (unspanned sr)))); ("lexer.h", Some Fixed); ("lexer.cpp", Some (CppLexer al d));
             ("parser.h", Some Fixed); ("parser.cpp", Some (CppLLParser tb)); ("parser_impl.h", Some (CppLLEnum nts)); ("visitor.h", Some (CppMethods methods))]%string /\
    (small (unspanned sr) -> exists names, NoDup names /\ (forall n, In n names <-> exists p, In p (map snd (sr_prods sr)) /\ pr_name p = n) /\ methods = flat_map (fun n => ["enter_" ++ n; "exit_" ++ n]%string) names).
Proof.
  intros create fuel read table source files H. apply run_inv in H. destruct H as (sr & g & fs & x & new & Hr & Hg & (tf & lf & Mt & -> & al & d & Hl & Ml) & Lx & M & ->).
  apply made_cpp_tokens in Mt. subst tf. apply made_cpp_lexer in Ml. subst lf.
  destruct Lx as [tb x _ Ht Hx|k' tb Hk' Ht|r tb x Ha _ _ _]; try discriminate. injection Hx as <-.
  apply made_cons in M. destruct M as (a1 & n1 & E1 & -> & M). apply made_cons in M. destruct M as (a2 & n2 & E2 & -> & M). apply made_cons in M. destruct M as (a3 & n3 & E3 & -> & M).
  apply made_cons in M. destruct M as (a4 & n4 & E4 & -> & M). apply made_nil in M. subst n4. cbn [fst snd] in *. injection E1 as <-. inv_bind E2. injection E2 as <-. inv_bind E3. injection E3 as <-. injection E4 as <-.
  exists sr, g, al, d, tb, a0, (ll_methods g). repeat (split; [assumption|]). split; [reflexivity|]. intros Hs.
  exists (map snd (g_prods g)). split; [|split; [|apply (ll_names _ _ Hs Hg)]].
  - pose proof (sorted_NoDup _ (prods_sorted _ _ Hg)) as ND. assert (forall s s' n, In (s, n) (g_prods g) -> In (s', n) (g_prods g) -> s = s') as U.
    { intros s s' n A B. assert (forall q n, In (q, n) (g_prods g) -> exists j, q = NonTerminal j) as W.
      { intros q n0 Hq. apply (wf_nts g (grammar_wf _ _ Hg)). unfold non_terminals. apply in_or_app. left. apply (in_map fst) in Hq. exact Hq. }
      destruct (W _ _ A) as [i ->]. destruct (W _ _ B) as [j ->]. pose proof (proj1 (production_numbers _ _ Hs Hg _ _) A) as (x & -> & X1 & X2). pose proof (proj1 (production_numbers _ _ Hs Hg _ _) B) as (y & -> & Y1 & Y2).
      destruct (Nat.lt_trichotomy x y) as [L|[L|L]]; [destruct (Y2 x L X1)|subst; reflexivity|destruct (X2 y L Y1)]. }
    revert ND U. induction (g_prods g) as [|[s n] l IH]; intros ND U; cbn; constructor.
    + intros X. apply in_map_iff in X. destruct X as ([s' n'] & E & X). cbn in E. subst n'. assert (s = s') as <- by (apply (U s s' n); [left; reflexivity|right; exact X]). inversion ND as [|? ? Y]; subst. apply Y. apply (in_map fst) in X. exact X.
    + apply IH; [inversion ND; auto|]. intros s1 s2 n1 A B. apply (U s1 s2 n1); right; auto.
  - intros n. split.
    + intros X. apply in_map_iff in X. destruct X as ([s n'] & E & X). cbn in E. subst n'. apply (prod_named _ _ Hg _ _ X).
    + intros (p & Hp & <-). apply In_nth_error in Hp. destruct Hp as [i Hi].
      destruct (first_of (unspanned sr) i (pr_name p)) as [j Hj]; [exists p; auto|].
      apply in_map_iff. exists (NonTerminal (N.of_nat j), pr_name p). split; [reflexivity|]. apply (production_numbers _ _ Hs Hg). eauto.
Qed.

(** ** From a grammar file to the C++ parser *)

Lemma end_cpp : forall create regex gn n fuel alg k table file files, built gn -> Forall valid_char file -> strict_kind alg = Some k ->
  generate create fuel (parse_lapex regex gn n) true alg table Cpp (Some file) = (files, Ok tt) ->
  exists sr g al d c, reads_file regex file sr /\ from_rule_set (unspanned sr) = Ok g /\
    In ("lexer.cpp"%string, Some (CppLexer al d)) files /\ In ("parser.cpp"%string, Some (CppParser c)) files /\
    (small (unspanned sr) -> usable_tokens (rs_tokens (unspanned sr)) -> cpp_compiles c -> epsilon_in_front g -> no_empty_rhs g -> sealed k g -> entry_starts g ->
     forall bytes text junk, Forall is_byte bytes -> holds bytes text junk ->
     (readable text junk /\ text_of_language (unspanned sr) text <-> exists m, forall pf, m <= pf -> exists calls lx, cpp_text_parse pf al d c bytes = (calls, Ok lx)) /\
     (forall pf calls lx, cpp_text_parse pf al d c bytes = (calls, Ok lx) ->
        exists ls tr, lexemes (rs_tokens (unspanned sr)) text ls /\ parse_tree g tr /\ Forall2 (token_named g) (iyield tr) (map (fun l => tr_name (snd l)) ls) /\ told (token_names (unspanned sr)) (post_order tr) (places 0 (map fst ls)) calls)).
Proof.
  intros create regex gn n fuel alg k table file files B V Hk H. apply (run_writes_cpp _ _ _ _ _ _ _ _ Hk) in H.
  destruct H as (sr & g & al & d & tb & c & visits & methods & Hr & Hg & Hl & Ht & Hc & _ & _ & t & _ & ->).
  exists sr, g, al, d, c. split; [eapply text_reads; eauto|]. split; [exact Hg|]. split; [right; right; right; left; reflexivity|]. split; [apply in_or_app; right; apply in_or_app; right; right; left; reflexivity|].
  intros Hs Hu Hco Hf He Hse Hst bytes text junk Hb Hh.
  pose proof (fun pf => exact_bytes (unspanned sr) g fuel al d Hs Hg Hu Hl k fuel false tb c Ht Hc Hco Hf He Hse Hst pf bytes text junk Hb Hh) as X. split.
  - split.
    + intros [R L]. apply (accepted_bytes (unspanned sr) g fuel al d Hs Hg Hu Hl k fuel false tb c Ht Hc Hco Hf He Hst bytes text junk Hb Hh R L).
    + intros (m & Hm). destruct (Hm m (le_n _)) as (calls & lx & E).
      apply (language_bytes (unspanned sr) g fuel al d Hs Hg Hu Hl k fuel false tb c Ht Hc Hco Hf He Hse Hst m bytes text junk calls lx Hb Hh E).
  - intros pf calls lx E. specialize (X pf). rewrite E in X. apply X.
Qed.
