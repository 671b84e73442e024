(** Concrete grammar files for the examples of PipelineProperties. *)
From Coq Require Import String Ascii List Arith NArith Bool Lia.
From Verif Require Import Base InputModel LexerSpec LexerModel LexerFactsProof LexerExample PrecedenceProof BootModel BootExample PositionModel PositionSpec PositionProof InputGenModel InputGenSpec InputGenLapex InputGenFactsProof InputGenExample
  InputTextSpec InputTextFactsProof InputTextExample NamesModel NamesSpec NamesProof GrammarModel GrammarSpec GrammarFactsProof LLSpec LLFactsProof LLExample LRModel LRSpec LRExample GLRModel GLRSpec ShapesProof RunModel RunSpec RunExample TableModel PipelineModel PipelineSpec.
Import ListNotations.
Local Open Scope string_scope.
Local Open Scope nat_scope.
Local Open Scope list_scope.

Definition newline_string : string := String (ascii_of_nat 10) EmptyString.
Definition lines (l : list string) : string := String.concat newline_string l.

Definition every_file (f : string) : bool := true.
Definition all_but (name f : string) : bool := negb (String.eqb name f).
Definition read_file : list N -> res lex_err spanned_rules := parse_lapex no_regex lapex_gen 300.
Definition nothing_read : spanned_rules := mkSpannedRules (zero_span, "") [] [].
Definition rules_in (source : list N) : spanned_rules := match read_file source with Ok sr => sr | _ => nothing_read end.

(** A file for which every step succeeds. *)
Definition good_file : list N := Eval vm_compute in bytes (lines ["entry s;"; "token NUM = ""n"";"; "token ADD = ""+"";"; "prod s = NUM ADD NUM;"]).
Definition good_sr : spanned_rules := Eval vm_compute in rules_in good_file.
Lemma good_parsed : read_file good_file = Ok good_sr.
Proof. vm_compute. reflexivity. Qed.

(** One with conflicts. *)
Definition clash_file : list N := Eval vm_compute in bytes (lines ["entry e;"; "token NUM = ""n"";"; "token ADD = ""+"";"; "prod e = e ADD e | NUM;"]).
Definition clash_sr : spanned_rules := Eval vm_compute in rules_in clash_file.
Lemma clash_parsed : read_file clash_file = Ok clash_sr.
Proof. vm_compute. reflexivity. Qed.

(** One with a tie. *)
Definition tie_file : list N := Eval vm_compute in bytes (lines ["entry s;"; "token A = ""x"";"; "token B = ""x"";"; "prod s = A B;"]).
Definition tie_sr : spanned_rules := Eval vm_compute in rules_in tie_file.
Lemma tie_parsed : read_file tie_file = Ok tie_sr.
Proof. vm_compute. reflexivity. Qed.

Definition run (alg : algorithm) (source : list N) : list file * res (list report) unit := generate every_file 100 read_file true alg true Rust (Some source).
Lemma run_is : forall alg source, run alg source = generate every_file 100 read_file true alg true Rust (Some source).
Proof. reflexivity. Qed.

Lemma run_of : forall create fuel read lexer alg table l source r, read source = r ->
  generate create fuel read lexer alg table l (Some source) = generate create fuel (fun _ => r) lexer alg table l (Some source).
Proof. intros. subst r. reflexivity. Qed.

Definition clash_text : list N := Eval vm_compute in bytes "prod e = e ADD e | NUM;".
Lemma clash_run : exists files, run LR1 clash_file = (files, Err [ShiftReduceReport 5 "ADD" (mkLocation (mkPos 4 1) clash_text) ("<anon>(2) -> e(0) ADD(0) e(0) " ++ bullet ++ " ")]) /\ map fst files = ["tokens.rs"; "lexer.rs"].
Proof. eexists. split; [etransitivity; [exact (run_of every_file 100 read_file true LR1 true Rust clash_file (Ok clash_sr) clash_parsed)|vm_compute; reflexivity]|reflexivity]. Qed.

Definition tie_b : list N := Eval vm_compute in bytes "token B = ""x"";".
Definition tie_a : list N := Eval vm_compute in bytes "token A = ""x"";".
Lemma tie_run : run LR1 tie_file =
  ([("tokens.rs", Some (RustTokens ["EndOfFile"; "TkB"; "TkA"]))], Err [PrecedenceReport [(mkLocation (mkPos 3 1) tie_b, "B"); (mkLocation (mkPos 2 1) tie_a, "A")]]).
Proof. etransitivity; [exact (run_of every_file 100 read_file true LR1 true Rust tie_file (Ok tie_sr) tie_parsed)|vm_compute; reflexivity]. Qed.

Definition good_files : list file := Eval vm_compute in fst (run LR1 good_file).
Lemma good_run : run LR1 good_file = (good_files, Ok tt).
Proof. etransitivity; [exact (run_of every_file 100 read_file true LR1 true Rust good_file (Ok good_sr) good_parsed)|vm_compute; reflexivity]. Qed.
Lemma good_names : map fst good_files = ["tokens.rs"; "lexer.rs"; "table"; "parser.rs"].
Proof. reflexivity. Qed.
Lemma halted_run : generate (all_but "parser.rs") 100 read_file true LR1 true Rust (Some good_file) = (firstn 3 good_files, Panic).
Proof. etransitivity; [exact (run_of (all_but "parser.rs") 100 read_file true LR1 true Rust good_file (Ok good_sr) good_parsed)|vm_compute; reflexivity]. Qed.
Lemma good_glr : exists files, run GLR good_file = (files, Ok tt) /\ map fst files = ["tokens.rs"; "lexer.rs"; "table"; "parser.rs"].
Proof. eexists. split; [etransitivity; [exact (run_of every_file 100 read_file true GLR true Rust good_file (Ok good_sr) good_parsed)|vm_compute; reflexivity]|reflexivity]. Qed.
Lemma bootstrap_run : snd (generate every_file 100 bootstrap_read true LR1 true Rust (Some clash_file)) = Panic.
Proof. vm_compute. reflexivity. Qed.
Lemma bootstrap_good : exists files, generate every_file 100 bootstrap_read true LR1 false Rust (Some good_file) = (files, Ok tt) /\ map fst files = ["tokens.rs"; "lexer.rs"; "parser.rs"].
Proof. eexists. split; vm_compute; reflexivity. Qed.

(** What is needed to apply the theorems. *)
Definition lexableb (rules : list token_rule) : bool :=
  valid_rulesb rules && no_empty_sequenceb rules && forallb (fun r => forallb good_repb (parts (rule_pattern r))) rules && forallb (fun r => match @rule_precedence unit r with Ok _ => true | _ => false end) rules.
Lemma lexableb_ok : forall rules, lexableb rules = true -> lexable rules.
Proof.
  intros rules H. unfold lexableb in H. apply andb_true_iff in H. destruct H as [H H4]. apply andb_true_iff in H. destruct H as [H H3]. apply andb_true_iff in H. destruct H as [H1 H2]. constructor.
  - apply valid_rulesb_ok; auto.
  - apply no_empty_sequenceb_ok; auto.
  - apply good_repb_ok; auto.
  - intros r Hr. rewrite forallb_forall in H4. specialize (H4 r Hr). destruct (@rule_precedence unit r) as [n| | |] eqn:E; try discriminate. exists n. apply (prec_iff unit). exact E.
Qed.
Lemma all_lexable : lexable (map snd (sr_tokens good_sr)) /\ lexable (map snd (sr_tokens clash_sr)) /\ lexable (map snd (sr_tokens tie_sr)).
Proof. split; [|split]; apply lexableb_ok; reflexivity. Qed.

Lemma file_ascii : Forall (fun c => (c < 128)%N) good_file /\ Forall (fun c => (c < 128)%N) clash_file /\ Forall (fun c => (c < 128)%N) tie_file.
Proof. split; [|split]; apply ascii_ok; reflexivity. Qed.
Lemma file_unbroken : unbroken good_file /\ unbroken clash_file /\ unbroken tie_file.
Proof. split; [|split]; apply unbroken_ok; reflexivity. Qed.
Lemma file_fits : positions_fit good_file /\ positions_fit clash_file /\ positions_fit tie_file.
Proof. split; [|split]; apply short_fits; reflexivity. Qed.

Definition clash_g : grammar := Eval vm_compute in match from_rule_set (unspanned clash_sr) with Ok g => g | _ => ll_g end.
Lemma clash_built : from_rule_set (unspanned clash_sr) = Ok clash_g.
Proof. vm_compute. reflexivity. Qed.
Definition clash_cs : list conflict := Eval vm_compute in match generates KindLR1 100 clash_g false with Ok (BadConflicts cs) => cs | _ => [] end.
Lemma clash_conflicts : generates KindLR1 100 clash_g false = Ok (BadConflicts clash_cs).
Proof. vm_compute. reflexivity. Qed.
Lemma tie_there : tie (map snd (sr_tokens tie_sr)) [120%N] 2 (map snd (sr_tokens tie_sr)).
Proof.
  assert (forall r, In r (map snd (sr_tokens tie_sr)) -> rule_matches r [120%N] /\ has_precedence r 2) as X.
  { cbn. intros r [<-|[<-|[]]]; (split; [|reflexivity]); exists [120%N], []; (split; [reflexivity|split; [|reflexivity]]); exists 120%N; split; reflexivity. }
  split; [|split; [cbn; lia|]].
  - revert X. generalize (map snd (sr_tokens tie_sr)). induction l as [|r l IH]; intros X; constructor; [apply X; left; auto|apply IH; intros r' Hr'; apply X; right; auto].
  - intros r Hr _. exists 2%N. split; [apply X; auto|lia].
Qed.

Definition good_g : grammar := Eval vm_compute in match from_rule_set (unspanned good_sr) with Ok g => g | _ => ll_g end.
Lemma good_built : from_rule_set (unspanned good_sr) = Ok good_g.
Proof. vm_compute. reflexivity. Qed.
Lemma good_small : small (unspanned good_sr).
Proof. apply smallb_ok. reflexivity. Qed.
Lemma good_usable : usable_tokens (rs_tokens (unspanned good_sr)).
Proof. apply usable_ok; vm_compute; reflexivity. Qed.
Lemma good_front : epsilon_in_front good_g.
Proof. apply (built_epsilon_in_front _ _ good_built). reflexivity. Qed.
Lemma good_ne : no_empty_rhs good_g.
Proof. apply (built_no_empty_rhs _ _ good_built). simpl. intros p [<-|[]]; reflexivity. Qed.
Lemma good_fresh : entry_fresh good_g.
Proof. intros r H. simpl in H. destruct H as [<-|[]]; simpl; intros X; repeat (destruct X as [X|X]; [discriminate|]); destruct X. Qed.
Lemma good_sealed : sealed KindLR1 good_g /\ sealed KindLALR good_g.
Proof. split; right; (split; [discriminate|exact good_fresh]). Qed.
Definition good_input : list N := Eval vm_compute in bytes "n+n".

Lemma camel_named : forall l name s, ascii_name name -> convert_snake_to_upper_camel name = Ok s -> well_named l name.
Proof. intros l name s A E _ X. pose proof (proj2 (proj1 (camel_panics name A)) X) as Y. rewrite E in Y. discriminate. Qed.
Lemma clash_named : forall t, In t (map snd (sr_tokens clash_sr)) -> ascii_name (tr_name t) /\ well_named Rust (tr_name t).
Proof.
  cbn. intros t [<-|[<-|[]]]; (split; [cbn; repeat split; reflexivity|eapply camel_named; [cbn; repeat split; reflexivity|cbn [tr_name]; vm_compute; reflexivity]]).
Qed.
