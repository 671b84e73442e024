(** Property theorems for whole runs of the generator (C42, C45). *)
From Coq Require Import String List Arith NArith Bool Lia.
From Verif Require Import Base InputModel LexerSpec LexerModel BootModel BootExample PositionModel PositionSpec InputGenModel InputGenSpec InputGenLapex InputGenFactsProof InputGenExample InputTextSpec InputTextWriteProof InputTextFactsProof NamesModel NamesSpec
  GrammarModel GrammarSpec LLSpec LRModel LRSpec GLRModel GLRSpec RunModel RunSpec TableModel PipelineModel PipelineSpec PipelineProof PipelineFactsProof PipelineTermProof PipelineEndProof PipelineExample.
Import ListNotations.
Local Open Scope nat_scope.
Local Open Scope string_scope.
Local Open Scope list_scope.

(** In the examples [read_file] is [parse_lapex no_regex lapex_gen 300], and [run alg] a run with it, writing a lexer, a table and Rust code. *)

(** C42.  The files of a run.  A successful run has written all its files.  A run with reports has written nothing, or the token files, or these and those of the lexer: the parser files of
    an earlier run stay as they are. *)
Theorem run_files : forall create fuel read lexer alg table l contents,
  match generate create fuel read lexer alg table l contents with
  | (files, Ok _) => finished (early_outputs l lexer ++ late_outputs l alg table) files /\ supported l alg
  | (files, Err reports) =>
      (contents = None /\ files = [] /\ reports = [IoReport]) \/
      (lexer = true /\ finished (token_outputs l) files /\ exists ties, reports = [PrecedenceReport ties]) \/
      (finished (early_outputs l lexer) files /\ strict_kind alg <> None /\ Forall conflict_report reports)
  | (files, _) => begun (early_outputs l lexer ++ late_outputs l alg table) files
  end.
Proof. exact files_ok. Qed.
Example run_files_case : run LR1 good_file = (good_files, Ok tt) /\ map fst good_files = ["tokens.rs"; "lexer.rs"; "table"; "parser.rs"] /\
  generate (all_but "parser.rs") 100 read_file true LR1 true Rust (Some good_file) = (firstn 3 good_files, Panic) /\
  (exists files reports, run LR1 clash_file = (files, Err reports) /\ map fst files = ["tokens.rs"; "lexer.rs"]) /\ (exists files reports, run LR1 tie_file = (files, Err reports) /\ map fst files = ["tokens.rs"]).
Proof.
  split; [exact good_run|]. split; [exact good_names|]. split; [exact halted_run|]. split; [destruct clash_run as (files & H & E); eauto|]. rewrite tie_run. eauto.
Qed.
Print Assumptions run_files.

(** C42.  When a run succeeds: files can be created, the names allow identifiers, there is no tie, the grammar can be built, and there is a table without conflicts (GLR: a table). *)
Theorem run_succeeds : forall create l fuel read lexer alg table source sr, read source = Ok sr ->
  (lexer = true -> valid_rules (map snd (sr_tokens sr)) /\ no_empty_sequence (map snd (sr_tokens sr))) ->
  (forall n, In n (map tr_name (map snd (sr_tokens sr))) -> ascii_name n) -> (forall p, In p (map snd (sr_prods sr)) -> ascii_name (pr_name p)) -> (l = Cpp -> small (unspanned sr) /\ (N.of_nat (length (sr_tokens sr)) < 65536)%N) ->
  (snd (generate create fuel read lexer alg table l (Some source)) = Ok tt <->
   (forall f, In f (early_outputs l lexer ++ late_outputs l alg table) -> create f = true) /\
   (forall n, In n (map tr_name (map snd (sr_tokens sr))) -> well_named l n) /\
   (lexer = true -> exists al d, generate_lexer fuel (map snd (sr_tokens sr)) = Ok (al, d)) /\
   exists g, from_rule_set (unspanned sr) = Ok g /\ tabled l alg fuel g /\ (alg <> LL1 -> forall i n, In (NonTerminal i, n) (g_prods g) -> well_named l n)).
Proof. exact run_success. Qed.
Example run_succeeds_case : read_file good_file = Ok good_sr /\ snd (run LR1 good_file) = Ok tt /\ read_file clash_file = Ok clash_sr /\ snd (run LR1 clash_file) <> Ok tt /\
  (forall n, In n (map tr_name (map snd (sr_tokens good_sr))) -> ascii_name n) /\ (forall p, In p (map snd (sr_prods good_sr)) -> ascii_name (pr_name p)).
Proof.
  split; [exact good_parsed|]. split; [rewrite good_run; reflexivity|]. split; [exact clash_parsed|]. split; [destruct clash_run as (files & -> & _); discriminate|].
  split; [cbn; intros n [<-|[<-|[]]]; cbn; repeat split; reflexivity|cbn; intros p [<-|[]]; cbn; repeat split; reflexivity].
Qed.
Print Assumptions run_succeeds.

(** C42.  A run comes to an end. *)
Theorem run_settles : forall create read lexer alg table l source, read source <> OutOfFuel -> (forall sr, read source = Ok sr -> lexer = true -> lexable (map snd (sr_tokens sr))) ->
  exists n, forall fuel, n <= fuel -> snd (generate create fuel read lexer alg table l (Some source)) <> OutOfFuel.
Proof. exact run_ends. Qed.
Example run_settles_case : (forall sr, read_file clash_file = Ok sr -> true = true -> lexable (map snd (sr_tokens sr))) /\ snd (run LR1 clash_file) <> OutOfFuel.
Proof. split; [intros sr E _; rewrite clash_parsed in E; injection E as <-; apply all_lexable|]. destruct clash_run as (files & -> & _). discriminate. Qed.
Print Assumptions run_settles.

(** C42.  Reports on an ASCII file are right: they stem from a tie or from all conflicts of the table, and name rules, items and places in the file. *)
Theorem run_reports_right : forall regex gn n source sr, build_input_parser 3000 (bytes lapex_text) = Some gn -> parse_lapex regex gn n source = Ok sr -> Forall (fun c => (c < 128)%N) source -> unbroken source -> positions_fit source ->
  forall create fuel lexer alg table l rs, (lexer = true -> lexable (map snd (sr_tokens sr))) -> snd (generate create fuel (parse_lapex regex gn n) lexer alg table l (Some source)) = Err rs ->
  (lexer = true /\ tie_reported regex source (sr_tokens sr) rs) \/
  (exists k g cs, strict_kind alg = Some k /\ from_rule_set (unspanned sr) = Ok g /\ generates k fuel g false = Ok (BadConflicts cs) /\ cs <> [] /\ Forall2 (reported regex source sr g) cs rs).
Proof. exact text_reports_sound. Qed.
Example run_reports_right_case : read_file clash_file = Ok clash_sr /\ Forall (fun c => (c < 128)%N) clash_file /\ unbroken clash_file /\ positions_fit clash_file /\ lexable (map snd (sr_tokens clash_sr)) /\
  snd (run LR1 clash_file) = Err [ShiftReduceReport 5 "ADD" (mkLocation (mkPos 4 1) clash_text) ("<anon>(2) -> e(0) ADD(0) e(0) " ++ bullet ++ " ")] /\
  snd (run LR1 tie_file) = Err [PrecedenceReport [(mkLocation (mkPos 3 1) tie_b, "B"); (mkLocation (mkPos 2 1) tie_a, "A")]].
Proof.
  split; [exact clash_parsed|]. split; [apply file_ascii|]. split; [apply file_unbroken|]. split; [apply file_fits|]. split; [apply all_lexable|].
  split; [destruct clash_run as (files & -> & _); reflexivity|rewrite tie_run; reflexivity].
Qed.
Print Assumptions run_reports_right.

(** C42.  Every tie is reported, before anything but the token files is written. *)
Theorem run_reports_ties : forall regex gn n source sr, build_input_parser 3000 (bytes lapex_text) = Some gn -> parse_lapex regex gn n source = Ok sr -> Forall (fun c => (c < 128)%N) source -> unbroken source -> positions_fit source ->
  forall create alg table l u h tied, lexable (map snd (sr_tokens sr)) -> (forall t, In t (map snd (sr_tokens sr)) -> ascii_name (tr_name t) /\ well_named l (tr_name t)) ->
  Forall valid_char u -> tie (map snd (sr_tokens sr)) u h tied -> (forall f, In f (token_outputs l) -> create f = true) ->
  exists m, forall fuel, m <= fuel -> exists files rs, generate create fuel (parse_lapex regex gn n) true alg table l (Some source) = (files, Err rs) /\ finished (token_outputs l) files /\ tie_reported regex source (sr_tokens sr) rs.
Proof. exact text_ties_complete. Qed.
Example run_reports_ties_case : read_file tie_file = Ok tie_sr /\ lexable (map snd (sr_tokens tie_sr)) /\ Forall valid_char [120%N] /\
  tie (map snd (sr_tokens tie_sr)) [120%N] 2 (map snd (sr_tokens tie_sr)) /\ exists rs, snd (run LR1 tie_file) = Err rs.
Proof.
  split; [exact tie_parsed|]. split; [apply all_lexable|]. split; [repeat constructor; vm_compute; intuition discriminate|]. split; [exact tie_there|]. rewrite tie_run. eexists. reflexivity.
Qed.
Print Assumptions run_reports_ties.

(** C42.  All conflicts are reported, one report for each, before any file of the parser is written. *)
Theorem run_reports_conflicts : forall regex gn n source sr, build_input_parser 3000 (bytes lapex_text) = Some gn -> parse_lapex regex gn n source = Ok sr -> Forall (fun c => (c < 128)%N) source -> unbroken source -> positions_fit source ->
  forall create fuel lexer alg k table l g cs, (lexer = true -> lexable (map snd (sr_tokens sr)) /\ exists al d, generate_lexer fuel (map snd (sr_tokens sr)) = Ok (al, d)) ->
  (forall t, In t (map snd (sr_tokens sr)) -> ascii_name (tr_name t) /\ well_named l (tr_name t)) -> strict_kind alg = Some k -> from_rule_set (unspanned sr) = Ok g -> generates k fuel g false = Ok (BadConflicts cs) ->
  (forall f, In f (early_outputs l lexer) -> create f = true) ->
  exists files rs, generate create fuel (parse_lapex regex gn n) lexer alg table l (Some source) = (files, Err rs) /\ finished (early_outputs l lexer) files /\ Forall2 (reported regex source sr g) cs rs.
Proof. exact text_conflicts_complete. Qed.
Example run_reports_conflicts_case : from_rule_set (unspanned clash_sr) = Ok clash_g /\ generates KindLR1 100 clash_g false = Ok (BadConflicts clash_cs) /\ length clash_cs = 1 /\
  (forall t, In t (map snd (sr_tokens clash_sr)) -> ascii_name (tr_name t) /\ well_named Rust (tr_name t)).
Proof.
  split; [exact clash_built|]. split; [exact clash_conflicts|]. split; [reflexivity|].
  exact clash_named.
Qed.
Print Assumptions run_reports_conflicts.

(** C42.  With the bootstrap parser, whose rules have no spans, nothing is ever reported: where there is something to report, the run panics. *)
Theorem bootstrap_reports_nothing : forall create fuel lexer alg table l source, (forall sr, bootstrap_read source = Ok sr -> lexer = true -> lexable (map snd (sr_tokens sr))) ->
  forall rs, snd (generate create fuel bootstrap_read lexer alg table l (Some source)) <> Err rs.
Proof. exact bootstrap_never_reports. Qed.
Example bootstrap_reports_nothing_case : snd (generate every_file 100 bootstrap_read true LR1 true Rust (Some clash_file)) = Panic /\
  exists files, generate every_file 100 bootstrap_read true LR1 false Rust (Some good_file) = (files, Ok tt).
Proof. split; [exact bootstrap_run|]. destruct bootstrap_good as (files & H & _). eauto. Qed.
Print Assumptions bootstrap_reports_nothing.

(** C42.  The exit status does not tell whether a parser has been written. *)
Theorem exit_status_tells_refuted : exists create fuel read lexer alg table l source files rs,
  generate create fuel read lexer alg table l (Some source) = (files, Err rs) /\ rs <> [] /\ ~ In "parser.rs" (map fst files) /\ exit_status (@Err (list report) unit rs) = Some 0%N.
Proof.
  destruct clash_run as (files & H & E). exists every_file, 100, read_file, true, LR1, true, Rust, clash_file, files. eexists. split; [exact (eq_trans (eq_sym (run_is LR1 clash_file)) H)|]. split; [discriminate|]. split; [rewrite E; intros [X|[X|[]]]; discriminate|reflexivity].
Qed.
Print Assumptions exit_status_tells_refuted.

(** C42.  The build script of lapex-input-gen is such a run: what it writes is what [build_input_parser] (C33, C40, C41) gives. *)
Theorem build_script_runs : forall create fuel source files, generate create fuel bootstrap_read true LR1 false Rust (Some source) = (files, Ok tt) ->
  exists gn v nts methods, build_input_parser fuel source = Some gn /\
    files = [("tokens.rs", Some (RustTokens v)); ("lexer.rs", Some (RustLexer (gn_alphabet gn) (gn_dfa gn))); ("parser.rs", Some (RustParser (gn_parser gn) nts methods (gn_visits gn)))].
Proof. exact build_runs. Qed.
Example build_script_runs_case : exists files, generate every_file 100 bootstrap_read true LR1 false Rust (Some good_file) = (files, Ok tt) /\ map fst files = ["tokens.rs"; "lexer.rs"; "parser.rs"].
Proof. exact bootstrap_good. Qed.
Print Assumptions build_script_runs.

(** C45.  From the text of a grammar file to the language of the parser: a successful run with LR(0), LR(1) or LALR writes a lexer and a parser which accept exactly the texts of the language
    described by the file, with the visitor calls of a parse tree. *)
Theorem file_to_parser : forall create regex gn n fuel alg k table file files, build_input_parser 3000 (bytes lapex_text) = Some gn -> Forall valid_char file -> strict_kind alg = Some k ->
  generate create fuel (parse_lapex regex gn n) true alg table Rust (Some file) = (files, Ok tt) ->
  exists sr g al d p nts methods visits, reads_file regex file sr /\ from_rule_set (unspanned sr) = Ok g /\
    In ("lexer.rs", Some (RustLexer al d)) files /\ In ("parser.rs", Some (RustParser p nts methods visits)) files /\
    (small (unspanned sr) -> usable_tokens (rs_tokens (unspanned sr)) -> epsilon_in_front g -> no_empty_rhs g -> sealed k g ->
     forall text, Forall valid_char text ->
     (text_of_language (unspanned sr) text <-> exists m, forall pf, m <= pf -> exists ev lx, text_parse pf (mkRustLexer al d (g_tokens g)) p text = (ev, Ok lx)) /\
     (forall pf ev lx, text_parse pf (mkRustLexer al d (g_tokens g)) p text = (ev, Ok lx) ->
        exists ts tr, tokenised (rs_tokens (unspanned sr)) text ts /\ parse_tree g tr /\ Forall2 (token_named g) (iyield tr) (map tr_name ts) /\ ev = post_order tr)).
Proof. exact end_lr. Qed.
Example file_to_parser_case : Forall valid_char good_file /\ run LR1 good_file = (good_files, Ok tt) /\
  from_rule_set (unspanned good_sr) = Ok good_g /\ small (unspanned good_sr) /\ usable_tokens (rs_tokens (unspanned good_sr)) /\ epsilon_in_front good_g /\ no_empty_rhs good_g /\ sealed KindLR1 good_g.
Proof.
  split; [apply ascii_valid; apply file_ascii|]. split; [exact good_run|]. split; [exact good_built|]. split; [exact good_small|]. split; [exact good_usable|]. split; [exact good_front|]. split; [exact good_ne|apply good_sealed].
Qed.
Print Assumptions file_to_parser.

(** C45.  The same for GLR parsers, which panic on ambiguous sentences. *)
Theorem file_to_glr_parser : forall create regex gn n fuel table file files, build_input_parser 3000 (bytes lapex_text) = Some gn -> Forall valid_char file ->
  generate create fuel (parse_lapex regex gn n) true GLR table Rust (Some file) = (files, Ok tt) ->
  exists sr g al d p nts methods visits, reads_file regex file sr /\ from_rule_set (unspanned sr) = Ok g /\
    In ("lexer.rs", Some (RustLexer al d)) files /\ In ("parser.rs", Some (RustGlrParser p nts methods visits)) files /\
    (small (unspanned sr) -> usable_tokens (rs_tokens (unspanned sr)) -> epsilon_in_front g -> no_empty_rhs g -> sealed KindLALR g ->
     forall text, Forall valid_char text -> forall pf,
     match glr_text_parse pf (mkRustLexer al d (g_tokens g)) p text with
     | (ev, Ok _) => text_of_language (unspanned sr) text /\ exists ts tr, tokenised (rs_tokens (unspanned sr)) text ts /\ parse_tree g tr /\ Forall2 (token_named g) (iyield tr) (map tr_name ts) /\ ev = post_order tr /\
         forall tr', parse_tree g tr' -> iyield tr' = iyield tr -> tr' = tr
     | (_, Err _) => ~ text_of_language (unspanned sr) text
     | (_, Panic) => (~ exists ts, tokenised (rs_tokens (unspanned sr)) text ts) \/
         exists ts w, tokenised (rs_tokens (unspanned sr)) text ts /\ Forall2 (token_named g) w (map tr_name ts) /\ ambiguous_sentence g w
     | (_, OutOfFuel) => True
     end).
Proof. exact end_glr. Qed.
Example file_to_glr_parser_case : exists files, run GLR good_file = (files, Ok tt) /\ sealed KindLALR good_g.
Proof. destruct good_glr as (files & H & _). exists files. split; [exact H|apply good_sealed]. Qed.
Print Assumptions file_to_glr_parser.
