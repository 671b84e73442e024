(** Property theorems for the generated parser of grammar files: what it reads (C33) and regular expressions (C40). *)
From Coq Require Import String List Arith NArith Bool Lia Permutation.
From Verif Require Import Base InputModel GrammarModel GrammarSpec LexerSpec LexerModel CppLexerSpec PositionModel LRModel NamesModel BootModel BootExample
  InputGenModel InputGenSpec InputGenLapex InputGenProof InputGenMeaningProof InputGenHirProof InputGenFactsProof InputGenEndProof InputGenExample.
Import ListNotations.
Local Open Scope nat_scope.
Local Open Scope string_scope.
Local Open Scope list_scope.

(** C33.  The bootstrap parser, the grammar builder and the generators make a parser of lapex-input-gen/src/lapex.lapex; each of its
    rules calls one method of the visitor, and all methods are called. *)
Theorem input_visitor_complete : forall regex gn, build_input_parser 3000 (bytes lapex_text) = Some gn ->
  NoDup (map fst (visitor_impl regex)) /\ NoDup (map fst (gn_visits gn)) /\ Permutation (map snd (gn_visits gn)) (map fst (visitor_impl regex)).
Proof. exact visitor_complete. Qed.
Example input_visitor_complete_case : build_input_parser 3000 (bytes lapex_text) = Some lapex_gen /\ length (visitor_impl no_regex) = 31.
Proof. split; [exact lapex_gen_built|reflexivity]. Qed.
Print Assumptions input_visitor_complete.

(** C33.  Tokens which spell some rules are read as these rules in reverse order, where sequences and choices in parentheses at the
    end of another one are dissolved and alternatives are reversed; unless there is exactly one entry rule the parser panics. *)
Theorem input_reads : forall regex gn eof rules ts, build_input_parser 3000 (bytes lapex_text) = Some gn ->
  file_tokens joined_sequence joined_choice regex rules ts ->
  exists n, forall fuel, n < fuel ->
  (forall out, parse_tokens regex gn fuel ts eof = Ok out <-> consists_of out (rev rules)) /\
  (length (filter (fun r => match snd r with FEntry _ => true | _ => false end) rules) <> 1 -> parse_tokens regex gn fuel ts eof = Panic).
Proof. exact built_reads. Qed.
Example input_reads_case : (exists rules, file_tokens joined_sequence joined_choice no_regex rules in_tokens) /\ parse_tokens no_regex lapex_gen 300 in_tokens in_eof = Ok in_out.
Proof. split; [apply readings; exists in_plain; exact in_plain_spelled|exact in_read]. Qed.
Print Assumptions input_reads.

(** C33.  Conversely whatever is read is spelled by the tokens (whose texts are those of numbers, strings and regular expressions, as
    the lexer makes them).  The parser returns no error: it panics on everything else. *)
Theorem input_sound : forall regex gn eof fuel ts, build_input_parser 3000 (bytes lapex_text) = Some gn -> Forall fitting ts ->
  match parse_tokens regex gn fuel ts eof with
  | Ok out => exists rules, file_tokens joined_sequence joined_choice regex rules ts /\ consists_of out (rev rules)
  | Err _ => False
  | _ => True
  end.
Proof. exact built_sound. Qed.
Example input_sound_case : Forall fitting in_tokens /\ parse_tokens no_regex lapex_gen 300 in_tokens in_eof = Ok in_out.
Proof. split; [exact in_fitting|exact in_read]. Qed.
Print Assumptions input_sound.

(** C33.  The parser stops on every sequence of tokens, and reads exactly those which spell rules of which one is an entry rule. *)
Theorem input_decides : forall regex gn eof ts, build_input_parser 3000 (bytes lapex_text) = Some gn -> Forall fitting ts ->
  exists n, forall fuel, n <= fuel ->
  match parse_tokens regex gn fuel ts eof with
  | Ok out => exists rules, file_tokens joined_sequence joined_choice regex rules ts /\ consists_of out (rev rules)
  | Panic => ~ exists rules out, file_tokens joined_sequence joined_choice regex rules ts /\ consists_of out (rev rules)
  | _ => False
  end.
Proof. exact built_decides. Qed.
Example input_decides_case : Forall fitting in_tokens /\ parse_tokens no_regex lapex_gen 300 in_tokens in_eof = Ok in_out /\
  parse_tokens no_regex lapex_gen 300 (tl in_tokens) in_eof = Panic.
Proof. split; [exact in_fitting|]. split; [exact in_read|vm_compute; reflexivity]. Qed.
Print Assumptions input_decides.

(** C33.  No tokens spell two lists of rules. *)
Theorem input_unambiguous : forall regex rules rules' ts, file_tokens joined_sequence joined_choice regex rules ts ->
  file_tokens joined_sequence joined_choice regex rules' ts -> rules = rules'.
Proof. exact (fun regex => rules_unique regex in_eof). Qed.
Example input_unambiguous_case : exists rules, file_tokens joined_sequence joined_choice no_regex rules in_tokens.
Proof. apply readings. exists in_plain. exact in_plain_spelled. Qed.
Print Assumptions input_unambiguous.

(** C33.  What is read means the same as the rules read naively, in their order and with every sequence and choice kept: each rule
    appears once, with its name, tag or precedence, and extent, and the patterns have the same sentences. *)
Theorem input_meaning : forall regex gn fuel eof ts plain outp out, build_input_parser 3000 (bytes lapex_text) = Some gn ->
  file_tokens QSeq QAlt regex plain ts -> consists_of outp plain -> parse_tokens regex gn fuel ts eof = Ok out ->
  sr_entry out = sr_entry outp /\ sr_tokens out = rev (sr_tokens outp) /\
  Forall2 (fun q p => fst q = fst p /\ pr_name (snd q) = pr_name (snd p) /\ pr_tag (snd q) = pr_tag (snd p)) (sr_prods out) (rev (sr_prods outp)) /\
  forall p w, ebnf (unspanned out) p w <-> ebnf (unspanned outp) p w.
Proof. exact built_meaning. Qed.
Example input_meaning_case : file_tokens QSeq QAlt no_regex in_plain in_tokens /\ consists_of in_plain_out in_plain /\ parse_tokens no_regex lapex_gen 300 in_tokens in_eof = Ok in_out.
Proof. split; [exact in_plain_spelled|]. split; [exact in_plain_consists|exact in_read]. Qed.
Print Assumptions input_meaning.

Theorem input_readings : forall regex ts, (exists rules, file_tokens joined_sequence joined_choice regex rules ts) <-> exists rules, file_tokens QSeq QAlt regex rules ts.
Proof. exact readings. Qed.
Example input_readings_case : file_tokens QSeq QAlt no_regex in_plain in_tokens.
Proof. exact in_plain_spelled. Qed.
Print Assumptions input_readings.

(** C33.  The rule sets which can be read: their patterns are of the given form ... *)
Theorem input_image : forall regex gn eof fuel ts out, build_input_parser 3000 (bytes lapex_text) = Some gn -> Forall fitting ts -> parse_tokens regex gn fuel ts eof = Ok out ->
  Forall (fun p => readable (pr_pattern p)) (rs_prods (unspanned out)) /\ Forall (spellable_token regex) (rs_tokens (unspanned out)).
Proof. exact built_readable. Qed.
Example input_image_case : Forall fitting in_tokens /\ parse_tokens no_regex lapex_gen 300 in_tokens in_eof = Ok in_out /\ rs_prods (unspanned in_out) <> [].
Proof. split; [exact in_fitting|]. split; [exact in_read|]. rewrite in_out_rules. discriminate. Qed.
Print Assumptions input_image.

(** C33.  ... and each of them is read from some tokens. *)
Theorem input_round_trip : forall regex gn eof rs, build_input_parser 3000 (bytes lapex_text) = Some gn ->
  Forall (fun p => readable (pr_pattern p)) (rs_prods rs) -> Forall (spellable_token regex) (rs_tokens rs) ->
  exists ts n, Forall fitting ts /\ forall fuel, n < fuel -> exists out, parse_tokens regex gn fuel ts eof = Ok out /\ unspanned out = rs.
Proof. exact built_round_trip. Qed.
Example input_round_trip_case : Forall (fun p => readable (pr_pattern p)) (rs_prods (unspanned in_out)) /\ Forall (spellable_token no_regex) (rs_tokens (unspanned in_out)) /\ rs_prods (unspanned in_out) <> [].
Proof.
  split; [exact (proj1 (built_readable _ _ _ _ _ _ lapex_gen_built in_fitting in_read))|]. split; [exact (proj2 (built_readable _ _ _ _ _ _ lapex_gen_built in_fitting in_read))|].
  rewrite in_out_rules. discriminate.
Qed.
Print Assumptions input_round_trip.

(** C33.  The parser reads the grammar it was generated from. *)
Theorem input_reads_itself : exists gn out, build_input_parser 3000 (bytes lapex_text) = Some gn /\ parse_lapex lapex_regex gn 3000 (bytes lapex_text) = Ok out /\
  rs_entry (unspanned out) = rs_entry lapex_rules /\ map tr_name (rs_tokens (unspanned out)) = rev (map tr_name (rs_tokens lapex_rules)) /\
  map pr_name (rs_prods (unspanned out)) = rev (map pr_name (rs_prods lapex_rules)).
Proof. exists lapex_gen, self_out. split; [exact lapex_gen_built|]. split; [exact self_read|exact self_names]. Qed.
Print Assumptions input_reads_itself.

(** C33.  The order of the file is not kept: rules come out in reverse, so that positions count from the end (of the rules of a
    non-terminal in names of visitor methods, of token rules among those with equal precedence). *)
Theorem input_order_refuted : exists text gn out, build_input_parser 3000 (bytes lapex_text) = Some gn /\
  bytes text = bytes "entry s; prod s = A; prod s = B; token A = ""a""; token B = ""b"";" /\ parse_lapex no_regex gn 100 (bytes text) = Ok out /\
  map (fun p => pr_pattern (snd p)) (sr_prods out) = [QRule "B"; QRule "A"] /\ map (fun p => tr_name (snd p)) (sr_tokens out) = ["B"; "A"].
Proof. destruct order_read as (out & A & B). exists order_text, lapex_gen, out. split; [exact lapex_gen_built|]. split; [reflexivity|]. split; [exact A|exact B]. Qed.
Print Assumptions input_order_refuted.

(** C33.  Escapes in strings stay: the string of one quotation mark, written with a backslash, is read as two characters. *)
Theorem input_escapes_refuted : exists gn ts eof out t, build_input_parser 3000 (bytes lapex_text) = Some gn /\ Forall fitting ts /\ parse_tokens no_regex gn 300 ts eof = Ok out /\
  In t (rs_tokens (unspanned out)) /\ tr_pattern t = TLiteral [92; 34]%N.
Proof.
  exists lapex_gen, in_tokens, in_eof, in_out, (mkTokenRule "B" None (TLiteral (bytes "\"""))). split; [exact lapex_gen_built|]. split; [exact in_fitting|]. split; [exact in_read|].
  rewrite in_out_rules. split; [left; reflexivity|reflexivity].
Qed.
Print Assumptions input_escapes_refuted.

(** C40.  The pattern made of a regular expression has the same language. *)
Theorem hir_conversion_language : forall h p, make_pattern_from_hir h = Ok p -> forall w, matches p w <-> hir_matches h w.
Proof. exact conversion_language. Qed.
Example hir_conversion_language_case : exists p, make_pattern_from_hir (HConcat [HLiteral [195; 164]; HRepetition 0 None true (HCapture (HAlternation [HLiteral [98]; HUnicode [(48, 57)]]))])%N = Ok p /\
  hir_matches (HConcat [HLiteral [195; 164]; HRepetition 0 None true (HCapture (HAlternation [HLiteral [98]; HUnicode [(48, 57)]]))])%N [228; 98; 53]%N.
Proof.
  eexists. split; [reflexivity|]. exists [228]%N, [98; 53]%N. split; [reflexivity|]. split.
  - apply (utf8_cons 228 [195; 164]%N [] []); [apply (utf8_2 3 36); reflexivity || discriminate|constructor].
  - exists [98; 53]%N, []. split; [reflexivity|]. split; [|reflexivity]. exists 2. split; [discriminate|]. split; [exact I|].
    exists [98]%N, [53]%N. split; [reflexivity|]. split; [left; apply (utf8_cons 98 [98]%N [] []); [apply utf8_1; reflexivity|constructor]|]. exists [53]%N, []. split; [reflexivity|]. split; [|reflexivity].
    right. left. exists 53%N, 48%N, 57%N. split; [reflexivity|]. split; [left; reflexivity|]. lia.
Qed.
Print Assumptions hir_conversion_language.

(** C40.  A pattern is made exactly if nothing in the expression is unsupported; otherwise something unsupported is reported. *)
Theorem hir_conversion_succeeds : forall h, (exists p, make_pattern_from_hir h = Ok p) <-> forall e s, subhir s h -> ~ unsupported e s.
Proof. exact conversion_succeeds. Qed.
Example hir_conversion_succeeds_case : exists p, make_pattern_from_hir (HCapture (HUnicode [(97, 122)]%N)) = Ok p.
Proof. eexists. reflexivity. Qed.
Print Assumptions hir_conversion_succeeds.

Theorem hir_conversion_reports : forall h, (exists p, make_pattern_from_hir h = Ok p) \/ exists e s, make_pattern_from_hir h = Err e /\ subhir s h /\ unsupported e s.
Proof. exact conversion_outcome. Qed.
Example hir_conversion_reports_case : make_pattern_from_hir (HConcat [HUnicode [(97, 122)]; HRepetition 0 None false HEmpty])%N = Err LazyRepetition /\
  unsupported LazyRepetition (HRepetition 0%N None false HEmpty).
Proof. split; [reflexivity|constructor]. Qed.
Print Assumptions hir_conversion_reports.

(** C40.  Literals are decoded as UTF-8. *)
Theorem from_utf8_decodes : forall bs cs, from_utf8 bs = Some cs <-> utf8_text cs bs.
Proof. exact from_utf8_iff. Qed.
Example from_utf8_decodes_case : from_utf8 [226; 130; 172; 97]%N = Some [8364; 97]%N /\ from_utf8 [237; 160; 128]%N = None /\ from_utf8 [192; 128]%N = None.
Proof. split; [|split]; reflexivity. Qed.
Print Assumptions from_utf8_decodes.
