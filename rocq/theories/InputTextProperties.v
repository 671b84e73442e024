(** Property theorems for the generated parser of grammar files on the text of a file (C41). *)
From Coq Require Import String List Arith NArith Bool.
From Verif Require Import Base InputModel LexerModel BootModel BootExample PositionModel PositionSpec PositionProof InputGenModel InputGenSpec InputGenLapex InputGenExample
  InputTextSpec InputTextDivideProof InputTextFileProof InputTextWriteProof InputTextFactsProof InputTextExample.
Import ListNotations.
Local Open Scope string_scope.
Local Open Scope N_scope.
Local Open Scope list_scope.

(** C41.  The parser made of lapex.lapex stops on every file.  It reads exactly those files whose text can be divided into the longest
    possible lexemes, placed in lines and columns below 65536, and whose tokens spell rules; on all others it panics. *)
Theorem text_decides : forall regex gn source, build_input_parser 3000 (bytes lapex_text) = Some gn -> Forall valid_char source ->
  exists n, forall fuel, (n <= fuel)%nat ->
  match parse_lapex regex gn fuel source with
  | Ok out => reads_file regex source out
  | Panic => forall out, ~ reads_file regex source out
  | _ => False
  end.
Proof. exact built_reads_file. Qed.
Example text_decides_case : Forall valid_char tx_source /\ reads_file no_regex tx_source in_out /\ parse_lapex no_regex lapex_gen 300 (tl tx_source) = Panic.
Proof. split; [exact tx_valid|]. split; [exact tx_reads|vm_compute; reflexivity]. Qed.
Print Assumptions text_decides.

(** C41.  A file has at most one division, and says one thing. *)
Theorem text_unambiguous : forall regex source,
  (forall l l', division source l -> division source l' -> l = l') /\ forall out out', reads_file regex source out -> reads_file regex source out' -> out = out'.
Proof. exact (fun regex source => conj (division_unique source) (reads_file_unique regex source)). Qed.
Example text_unambiguous_case : division tx_source tx_text_lexemes /\ length tx_text_lexemes = 58%nat /\ reads_file no_regex tx_source in_out.
Proof. split; [exact tx_divided|]. split; [reflexivity|exact tx_reads]. Qed.
Print Assumptions text_unambiguous.

(** C41.  In an ASCII file without newlines in literals, whose lines and columns fit into 16 bits, the span of every rule denotes a
    part of the file which spells just this rule. *)
Theorem text_spans : forall regex gn fuel source out, build_input_parser 3000 (bytes lapex_text) = Some gn -> parse_lapex regex gn fuel source = Ok out ->
  Forall (fun c => c < 128) source -> unbroken source -> positions_fit source ->
  forall r, In r (rules_of out) -> exists t, span_substring (fst r) source = Ok (Some t) /\ spells_rule regex t (snd r).
Proof. exact text_spans_ok. Qed.
Example text_spans_case : parse_lapex no_regex lapex_gen 300 tx_source = Ok in_out /\ Forall (fun c => c < 128) tx_source /\ unbroken tx_source /\ positions_fit tx_source /\ length (rules_of in_out) = 4%nat.
Proof. split; [exact tx_parsed|]. split; [exact tx_ascii|]. split; [exact tx_unbroken|]. split; [exact tx_fits|reflexivity]. Qed.
Print Assumptions text_spans.

(** C41.  Behind a newline in a literal the spans denote nothing. *)
Theorem text_spans_newline_refuted : exists source out, parse_lapex no_regex lapex_gen 300 source = Ok out /\ Forall (fun c => c < 128) source /\ positions_fit source /\
  exists r, In r (rules_of out) /\ span_substring (fst r) source = Ok None.
Proof. exact (ex_intro _ tx_newline (ex_intro _ tx_newline_out (conj tx_newline_parsed (conj (ascii_ok tx_newline eq_refl) (conj (short_fits tx_newline eq_refl) tx_newline_wrong))))). Qed.
Print Assumptions text_spans_newline_refuted.

(** C41.  Behind a character which is not ASCII they denote something else. *)
Theorem text_spans_unicode_refuted : exists source out, parse_lapex no_regex lapex_gen 300 source = Ok out /\ unbroken source /\ positions_fit source /\
  exists r t, In r (rules_of out) /\ span_substring (fst r) source = Ok (Some t) /\ ~ spells_rule no_regex t (snd r).
Proof. exact (ex_intro _ tx_unicode (ex_intro _ tx_unicode_out (conj tx_unicode_parsed (conj (unbroken_ok tx_unicode eq_refl) (conj (short_fits tx_unicode eq_refl) tx_unicode_wrong))))). Qed.
Print Assumptions text_spans_unicode_refuted.

(** C41.  Blanks do not matter: a file with the same lexemes except for blanks and newlines is read as the same rules, provided that
    its lines and columns fit. *)
Theorem text_layout_irrelevant : forall regex gn fuel source source' text text' l l' ts' out, build_input_parser 3000 (bytes lapex_text) = Some gn ->
  Forall valid_char source -> Forall valid_char source' -> parse_lapex regex gn fuel source = Ok out ->
  up_to_nul source text -> division text l -> up_to_nul source' text' -> division text' l' -> seen l = seen l' -> placed 1 1 l' ts' ->
  exists n out', unspanned out' = unspanned out /\ forall fuel', (n <= fuel')%nat -> parse_lapex regex gn fuel' source' = Ok out'.
Proof. exact text_layout. Qed.
Example text_layout_irrelevant_case : parse_lapex no_regex lapex_gen 300 tx_source = Ok in_out /\ division tx_source tx_text_lexemes /\ division tx_other tx_other_lexemes /\
  seen tx_text_lexemes = seen tx_other_lexemes /\ (exists ts, placed 1 1 tx_other_lexemes ts) /\ tx_source <> tx_other.
Proof. split; [exact tx_parsed|]. split; [exact tx_divided|]. split; [exact tx_other_divided|]. split; [vm_compute; reflexivity|]. split; [exact tx_other_placed|discriminate]. Qed.
Print Assumptions text_layout_irrelevant.

(** C41.  Every rule set of moderate size, whose names are identifiers other than keywords and whose literals and regular expressions
    can stand between their delimiters, is read from some file. *)
Theorem text_round_trip : forall regex gn rs, build_input_parser 3000 (bytes lapex_text) = Some gn ->
  identifier (rs_entry rs) -> Forall (writable_token regex) (rs_tokens rs) -> Forall writable_prod (rs_prods rs) -> N.of_nat (file_size rs) < 65535 ->
  exists source n out, Forall valid_char source /\ unspanned out = rs /\ forall fuel, (n <= fuel)%nat -> parse_lapex regex gn fuel source = Ok out.
Proof. exact text_round_trip_ok. Qed.
Example text_round_trip_case : identifier (rs_entry tx_rules) /\ Forall (writable_token no_regex) (rs_tokens tx_rules) /\ Forall writable_prod (rs_prods tx_rules) /\ N.of_nat (file_size tx_rules) < 65535.
Proof. destruct tx_rules_writable as (A & B & C). split; [exact A|]. split; [exact B|]. split; [exact C|reflexivity]. Qed.
Print Assumptions text_round_trip.

(** C41.  Whatever follows a NUL is ignored. *)
Theorem text_after_nul_ignored : forall regex text rest out, ~ In 0 text -> (reads_file regex (text ++ 0 :: rest) out <-> reads_file regex text out).
Proof. exact nul_ignored. Qed.
Example text_after_nul_ignored_case : ~ In 0 tx_source /\ parse_lapex no_regex lapex_gen 300 (tx_source ++ 0 :: bytes "nonsense )") = Ok in_out.
Proof. split; [exact tx_nul|vm_compute; reflexivity]. Qed.
Print Assumptions text_after_nul_ignored.

(** C41.  A file of more than 65535 lines makes the parser panic. *)
Theorem text_lines_limit : forall regex gn source text l, build_input_parser 3000 (bytes lapex_text) = Some gn -> Forall valid_char source -> up_to_nul source text -> division text l ->
  65535 <= N.of_nat (length (filter (fun e => String.eqb (fst e) "NEWLINE") l)) -> exists n, forall fuel, (n <= fuel)%nat -> parse_lapex regex gn fuel source = Panic.
Proof. exact lines_limit. Qed.
Example text_lines_limit_case : exists source l, Forall valid_char source /\ up_to_nul source source /\ division source l /\ 65535 <= N.of_nat (length (filter (fun e => String.eqb (fst e) "NEWLINE") l)).
Proof.
  exists (tx_blank (N.to_nat 65535)), (repeat ("NEWLINE", [10]) (N.to_nat 65535)). destruct (tx_blank_valid (N.to_nat 65535)) as [A B]. split; [exact A|]. split; [exact (un_all _ B)|].
  split; [apply tx_blank_divided|]. rewrite tx_blank_count, N2Nat.id. apply N.le_refl.
Qed.
Print Assumptions text_lines_limit.
