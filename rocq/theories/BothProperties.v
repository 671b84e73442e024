(** Property theorems for the agreement of the two parsers of grammar files (C52). *)
From Coq Require Import String List Arith NArith Bool.
From Verif Require Import Base InputModel GrammarSpec LexerSpec BootModel BootSpec BootExample PositionModel InputGenModel InputGenSpec InputGenLapex InputTextSpec BothSpec BothProof BothExample.
Import ListNotations.
Local Open Scope string_scope.
Local Open Scope N_scope.
Local Open Scope list_scope.

(** C52.  A file which the bootstrap parser reads is read by the parser generated from lapex.lapex, provided that it is short, without
    NUL and carriage return, its names are identifiers, its literals have the form of the token STRING, and its regular expressions
    are known to regex-syntax and convertible.  The result has the same rules in reverse, literals are the same, the productions have
    the same meaning, and regular expressions mean what they mean for regex-syntax. *)
Theorem reads_bootstrap_files : forall regex gn text rs, build_input_parser 3000 (bytes lapex_text) = Some gn -> parse_lapex_file text = Ok rs ->
  N.of_nat (length text) < 65535 -> ~ In 0 text -> ~ In 13 text -> names_plain rs -> literals_plain rs -> regexes_convert regex rs text ->
  exists out n, reversed (token_read regex text) rs (unspanned out) /\ forall fuel, (n <= fuel)%nat -> parse_lapex regex gn fuel text = Ok out.
Proof. exact reads_bootstrap_ok. Qed.
(** The grammar of grammar files itself. *)
Example reads_bootstrap_files_case : build_input_parser 3000 (bytes lapex_text) = Some lapex_gen /\ parse_lapex_file (bytes lapex_text) = Ok lapex_rules /\
  N.of_nat (length (bytes lapex_text)) < 65535 /\ ~ In 0 (bytes lapex_text) /\ ~ In 13 (bytes lapex_text) /\ names_plain lapex_rules /\ literals_plain lapex_rules /\ regexes_convert dot_line lapex_rules (bytes lapex_text).
Proof.
  split; [exact lapex_gen_built|]. split; [exact lapex_read|]. split; [exact lapex_short|]. split; [exact lapex_no_nul|]. split; [exact lapex_no_return|]. split; [exact lapex_plain|]. split; [exact lapex_literals|exact dot_line_converts].
Qed.
Print Assumptions reads_bootstrap_files.

(** C52.  If moreover the regular expressions mean the same to both, so do all rules. *)
Theorem reads_alike : forall regex gn text rs, build_input_parser 3000 (bytes lapex_text) = Some gn -> parse_lapex_file text = Ok rs ->
  N.of_nat (length text) < 65535 -> ~ In 0 text -> ~ In 13 text -> names_plain rs -> literals_plain rs -> regexes_convert regex rs text -> regexes_agree regex rs text ->
  exists out n, reversed same_token rs (unspanned out) /\ forall fuel, (n <= fuel)%nat -> parse_lapex regex gn fuel text = Ok out.
Proof. exact reads_alike_ok. Qed.
Example reads_alike_case : parse_lapex_file (bytes lapex_text) = Ok lapex_rules /\ names_plain lapex_rules /\ literals_plain lapex_rules /\
  regexes_convert dot_all lapex_rules (bytes lapex_text) /\ regexes_agree dot_all lapex_rules (bytes lapex_text) /\ length (lapex_pairs (bytes lapex_text) lapex_rules) = 6%nat.
Proof. split; [exact lapex_read|]. split; [exact lapex_plain|]. split; [exact lapex_literals|]. split; [exact dot_all_converts|]. split; [exact dot_all_agrees|]. rewrite lapex_pairs_are. reflexivity. Qed.
Print Assumptions reads_alike.

(** C52.  With the dot of regex-syntax, which does not match a newline, the generated parser reads its own grammar in another way than
    the bootstrap parser: for the latter a STRING may contain a backslash in front of a newline. *)
Theorem reads_itself_refuted : exists text rs out n, text = bytes lapex_text /\ parse_lapex_file text = Ok rs /\ (forall fuel, (n <= fuel)%nat -> parse_lapex dot_line lapex_gen fuel text = Ok out) /\
  exists p q w, In (mkTokenRule "STRING" None (TPattern p)) (rs_tokens rs) /\ In (mkTokenRule "STRING" None (TPattern q)) (rs_tokens (unspanned out)) /\ matches p w /\ ~ matches q w.
Proof. destruct self_differs as (out & n & H & p & q & X). exact (ex_intro _ _ (ex_intro _ lapex_rules (ex_intro _ out (ex_intro _ n (conj eq_refl (conj lapex_read (conj H (ex_intro _ p (ex_intro _ q (ex_intro _ broken_string X)))))))))). Qed.
Example reads_itself_refuted_case : dot_line (bytes "[ \t]+") = dot_all (bytes "[ \t]+") /\ dot_line (bytes "\/([^\/\\\n]|\\.)*\/") <> dot_all (bytes "\/([^\/\\\n]|\\.)*\/") /\ broken_string = bytes """\" ++ [10] ++ bytes """".
Proof. split; [vm_compute; reflexivity|]. split; [vm_compute; discriminate|vm_compute; reflexivity]. Qed.
Print Assumptions reads_itself_refuted.

(** C52.  Names with an underscore in front, and keywords as names, are read by the bootstrap parser only, ... *)
Theorem reads_names_refuted : exists text rs text' rs', parse_lapex_file text = Ok rs /\ rs_entry rs = "_s" /\ parse_lapex_file text' = Ok rs' /\ rs_entry rs' = "prod" /\
  ~ In 0 text /\ ~ In 13 text /\ ~ In 0 text' /\ ~ In 13 text' /\
  forall regex, literals_plain rs /\ regexes_convert regex rs text /\ parse_lapex regex lapex_gen 300 text = Panic /\ literals_plain rs' /\ regexes_convert regex rs' text' /\ parse_lapex regex lapex_gen 300 text' = Panic.
Proof.
  exists underscore_text, (bare "_s"), keyword_text, (bare "prod"). split; [vm_compute; reflexivity|]. split; [reflexivity|]. split; [vm_compute; reflexivity|]. split; [reflexivity|].
  split; [apply absent_ok; reflexivity|]. split; [apply absent_ok; reflexivity|]. split; [apply absent_ok; reflexivity|]. split; [apply absent_ok; reflexivity|]. intros regex.
  split; [apply bare_literals|]. split; [apply bare_convert|]. split; [vm_compute; reflexivity|]. split; [apply bare_literals|]. split; [apply bare_convert|vm_compute; reflexivity].
Qed.
Print Assumptions reads_names_refuted.

(** C52.  ... likewise a file with carriage returns, ... *)
Theorem reads_return_refuted : exists text rs, parse_lapex_file text = Ok rs /\ ~ In 0 text /\ In 13 text /\ names_plain rs /\ literals_plain rs /\ forall regex, regexes_convert regex rs text /\ parse_lapex regex lapex_gen 300 text = Panic.
Proof.
  exists return_text, (bare "s"). split; [vm_compute; reflexivity|]. split; [apply absent_ok; reflexivity|]. split; [vm_compute; tauto|]. split; [exact bare_names|]. split; [apply bare_literals|]. intros regex. split; [apply bare_convert|vm_compute; reflexivity].
Qed.
Print Assumptions reads_return_refuted.

(** C52.  ... with a NUL in a literal, ... *)
Theorem reads_nul_refuted : exists text rs, parse_lapex_file text = Ok rs /\ In 0 text /\ ~ In 13 text /\ names_plain rs /\ literals_plain rs /\ forall regex, regexes_convert regex rs text /\ parse_lapex regex lapex_gen 300 text = Panic.
Proof.
  exists nul_text, (one_literal [0]). split; [vm_compute; reflexivity|]. split; [vm_compute; tauto|]. split; [apply absent_ok; reflexivity|]. split; [apply one_literal_names|]. split; [apply literalsb_ok; reflexivity|].
  intros regex. split; [apply one_literal_convert|vm_compute; reflexivity].
Qed.
Print Assumptions reads_nul_refuted.

(** C52.  ... with a literal which ends with a backslash, or contains a newline. *)
Theorem reads_literals_refuted : exists text rs text' rs', parse_lapex_file text = Ok rs /\ rs = one_literal [92] /\ parse_lapex_file text' = Ok rs' /\ rs' = one_literal [10] /\
  ~ In 0 text /\ ~ In 13 text /\ ~ In 0 text' /\ ~ In 13 text' /\
  forall regex, names_plain rs /\ regexes_convert regex rs text /\ parse_lapex regex lapex_gen 300 text = Panic /\ names_plain rs' /\ regexes_convert regex rs' text' /\ parse_lapex regex lapex_gen 300 text' = Panic.
Proof.
  exists backslash_text, (one_literal [92]), newline_text, (one_literal [10]). split; [vm_compute; reflexivity|]. split; [reflexivity|]. split; [vm_compute; reflexivity|]. split; [reflexivity|].
  split; [apply absent_ok; reflexivity|]. split; [apply absent_ok; reflexivity|]. split; [apply absent_ok; reflexivity|]. split; [apply absent_ok; reflexivity|]. intros regex.
  split; [apply one_literal_names|]. split; [apply one_literal_convert|]. split; [vm_compute; reflexivity|]. split; [apply one_literal_names|]. split; [apply one_literal_convert|vm_compute; reflexivity].
Qed.
Print Assumptions reads_literals_refuted.
