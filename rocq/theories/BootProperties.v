(** Property theorems for the bootstrap parser of grammar files (C32). *)
From Coq Require Import String List Arith NArith Bool Lia.
From Verif Require Import Base InputModel BootModel BootSpec BootFactsProof BootExample.
Import ListNotations.
Local Open Scope nat_scope.
Local Open Scope list_scope.

(** C32.  A text which spells some rules strictly is read as these rules: with one entry rule as the rule set made of them,
    otherwise with the error for no or for too many entry rules. *)
Theorem bootstrap_reads : forall rules text, spells_file true rules text ->
  (forall rs, made_of rs rules -> parse_lapex_file text = Ok rs) /\
  (entry_count rules = 0 -> parse_lapex_file text = Err NoEntryRule) /\
  (2 <= entry_count rules -> parse_lapex_file text = Err TooManyEntryRules).
Proof. exact bootstrap_reads_thm. Qed.
Example bootstrap_reads_case : spells_file true small_rules (bytes small_text) /\ made_of small_set small_rules /\ parse_lapex_file (bytes small_text) = Ok small_set.
Proof. split; [exact small_spelled|]. split; [exact small_made|]. vm_compute. reflexivity. Qed.
Print Assumptions bootstrap_reads.

(** C32.  Conversely whatever is read is spelled by the text, where characters with a meaning may also stand for
    themselves.  The parser always comes to an end; it panics only if the text does not begin with a rule. *)
Theorem bootstrap_sound : forall text,
  match parse_lapex_file text with
  | Ok rs => exists rules, spells_file false rules text /\ made_of rs rules
  | Err NoEntryRule => exists rules, spells_file false rules text /\ entry_count rules = 0
  | Err TooManyEntryRules => exists rules, spells_file false rules text /\ 2 <= entry_count rules
  | Err (IncompleteParsing rest) => rest <> [] /\ (forall c r, rest = c :: r -> ~ white [c]) /\ exists rules start, text = start ++ rest /\ spells_file false rules start
  | Panic => forall w bs rest r, text = w ++ bs ++ rest -> white w -> ~ spells_rule true r bs
  | OutOfFuel => False
  end.
Proof. exact bootstrap_sound_thm. Qed.
(** The grammar of grammar files is read; after it the two other errors and the panic. *)
Example bootstrap_sound_case : parse_lapex_file (bytes lapex_text) = Ok lapex_rules /\
  parse_lapex_file (bytes "prod s = A;") = Err NoEntryRule /\
  parse_lapex_file (bytes "entry s; entry t;") = Err TooManyEntryRules /\
  parse_lapex_file (bytes "entry s; prod s = a |b;") = Err (IncompleteParsing (bytes "prod s = a |b;")) /\
  parse_lapex_file (bytes "tokens A;") = Panic.
Proof. split; [exact lapex_read|]. vm_compute. auto. Qed.
Print Assumptions bootstrap_sound.

(** C32.  It does panic if no rule at all can be read at the beginning. *)
Theorem bootstrap_panics : forall text, (forall w bs rest r, text = w ++ bs ++ rest -> white w -> ~ spells_rule false r bs) -> parse_lapex_file text = Panic.
Proof. exact bootstrap_panics_thm. Qed.
Example bootstrap_panics_case : forall w bs rest r, bytes "tokens A;" = w ++ bs ++ rest -> white w -> ~ spells_rule false r bs.
Proof. exact no_rule. Qed.
Print Assumptions bootstrap_panics.

(** C32.  The rule sets which can be read are those of the given form ... *)
Theorem bootstrap_image : forall rs, (exists text, parse_lapex_file text = Ok rs) <-> writable rs.
Proof. exact bootstrap_image_thm. Qed.
Example bootstrap_image_case : writable small_set /\ ~ writable (mkRuleSet "s" [] [mkProdRule "s" None QEps]).
Proof. split; [exact small_writable|]. intros (_ & _ & H). inversion H as [|? ? H1 _]; subst. cbn in H1. tauto. Qed.
Print Assumptions bootstrap_image.

(** C32.  ... and each of them has a strict spelling, which is read back. *)
Theorem bootstrap_round_trip : forall rs, writable rs -> exists rules text, made_of rs rules /\ spells_file true rules text /\ parse_lapex_file text = Ok rs.
Proof. exact bootstrap_round_trip_thm. Qed.
Example bootstrap_round_trip_case : writable small_set /\ writable lapex_rules.
Proof. split; [exact small_writable|]. apply bootstrap_image_thm. exists (bytes lapex_text). exact lapex_read. Qed.
Print Assumptions bootstrap_round_trip.

(** C32.  Not only strict spellings are accepted: a parenthesis which is never closed is taken as a character. *)
Theorem bootstrap_strict_refuted : exists text rs, parse_lapex_file text = Ok rs /\
  rs_tokens rs = [mkTokenRule "A" None (TPattern (PSeq [PChar (Single 40); PChar (Single 97)]%N))] /\ forall rules, ~ spells_file true rules text.
Proof. exists (bytes open_text), open_set. split; [exact open_read|]. split; [reflexivity|exact open_not_strict]. Qed.
Example bootstrap_strict_refuted_case : bytes open_text = bytes "token A = /(a/; entry s;".
Proof. reflexivity. Qed.
Print Assumptions bootstrap_strict_refuted.

(** C32.  And not all of the others are: with such a parenthesis in a choice the parser panics. *)
Theorem bootstrap_loose_refuted : exists rules text, spells_file false rules text /\ entry_count rules = 1 /\ parse_lapex_file text = Panic.
Proof. exists choice_rules, (bytes choice_text). split; [exact choice_spelled|]. split; [reflexivity|]. vm_compute. reflexivity. Qed.
Example bootstrap_loose_refuted_case : bytes choice_text = bytes "token A = /(a|(b)/; entry s;".
Proof. reflexivity. Qed.
Print Assumptions bootstrap_loose_refuted.
