(** Specification for reading texts with a generated lexer and a generated parser. *)
From Coq Require Import String List Arith NArith.
From Verif Require Import Base InputModel LexerSpec GrammarModel GrammarSpec.
Import ListNotations.
Local Open Scope list_scope.

(** [w] is the lexeme the text [w ++ rest] starts with: it is read as far as the text is the beginning of some lexeme, and it is a lexeme itself,
    of the rule [t] in the first place. *)
Definition first_lexeme (rules : list token_rule) (w rest : list N) (t : token_rule) : Prop :=
  w <> [] /\ ~ In 0%N w /\ best_rule rules w t /\ (at_end rest \/ ~ viable rules (w ++ [head_char rest])).

(** Division of a text into lexemes; NUL is the end. *)
Inductive tokenised (rules : list token_rule) : list N -> list token_rule -> Prop :=
| tz_end : forall rest, at_end rest -> tokenised rules rest []
| tz_next : forall w rest t ts, first_lexeme rules w rest t -> tokenised rules rest ts -> tokenised rules (w ++ rest) (t :: ts).

(** A text of the language described by a rule set: it can be divided into lexemes whose names are a sentence of the entry symbol. *)
Definition text_of_language (rs : rule_set) (text : list N) : Prop :=
  exists ts, tokenised (rs_tokens rs) text ts /\ ebnf rs (QRule (rs_entry rs)) (map tr_name ts).

(** Token rules a lexer can be generated from which makes progress. *)
Record usable_tokens (rules : list token_rule) : Prop := {
  ut_valid : valid_rules rules;
  ut_proper : proper_rules rules;
  ut_progress : forall r, In r rules -> ~ rule_matches r []
}.
