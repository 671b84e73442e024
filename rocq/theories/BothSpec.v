(** Specification for the comparison of the two parsers of grammar files, the one of lapex-input-bootstrap and the generated one of
    lapex-input-gen: when a file means the same to both. *)
From Coq Require Import String List Arith NArith.
From Verif Require Import Base InputModel GrammarModel GrammarSpec LexerSpec BootModel BootSpec PositionModel InputGenModel InputGenSpec InputTextSpec.
Import ListNotations.
Local Open Scope N_scope.
Local Open Scope list_scope.

(** All names are identifiers: they begin with a letter and are not keywords. *)
Definition names_plain (rs : rule_set) : Prop :=
  identifier (rs_entry rs) /\ Forall (fun t => identifier (tr_name t)) (rs_tokens rs) /\ Forall (fun p => identifier (pr_name p) /\ named (pr_pattern p)) (rs_prods rs).

(** A backslash in a literal stands in front of a character, a newline behind a backslash. *)
Definition literals_plain (rs : rule_set) : Prop := forall t cs, In t (rs_tokens rs) -> tr_pattern t = TLiteral cs -> body 34 cs.

(** The file has a rule for the token [name] with the regular expression [bs]. *)
Definition written_regex (text : list N) (name : string) (bs : list N) : Prop :=
  exists a b1 b2 b3 b, blank b1 /\ blank b2 /\ blank b3 /\ text = a ++ bytes "token" ++ b1 ++ bytes name ++ b2 ++ bytes "=" ++ b3 ++ [47] ++ bs ++ [47] ++ bytes ";" ++ b.

(** Each regular expression of the file is one of regex-syntax, with a counterpart in the patterns of lapex. *)
Definition regexes_convert (regex : list N -> option hir) (rs : rule_set) (text : list N) : Prop :=
  forall t p bs, In t (rs_tokens rs) -> tr_pattern t = TPattern p -> written_regex text (tr_name t) bs -> spells_token_pattern false (TPattern p) ([47] ++ bs ++ [47]) ->
  exists h q, regex bs = Some h /\ make_pattern_from_hir h = Ok q.

(** Its meaning for regex-syntax is the one it has for the bootstrap parser. *)
Definition regexes_agree (regex : list N -> option hir) (rs : rule_set) (text : list N) : Prop :=
  forall t p bs h, In t (rs_tokens rs) -> tr_pattern t = TPattern p -> written_regex text (tr_name t) bs -> spells_token_pattern false (TPattern p) ([47] ++ bs ++ [47]) ->
  regex bs = Some h -> forall w, Forall scalar w -> (hir_matches h w <-> matches p w).

(** [t] is the token rule [u] of the bootstrap parser, where a regular expression means what it means for regex-syntax. *)
Definition token_read (regex : list N -> option hir) (text : list N) (t u : token_rule) : Prop :=
  tr_name t = tr_name u /\ tr_prec t = tr_prec u /\
  match tr_pattern t, tr_pattern u with
  | TLiteral cs, TLiteral ds => cs = ds
  | TPattern p, TPattern q => exists bs h, written_regex text (tr_name u) bs /\ spells_token_pattern false (TPattern q) ([47] ++ bs ++ [47]) /\ regex bs = Some h /\ forall w, matches p w <-> hir_matches h w
  | _, _ => False
  end.

(** Two token rules with the same meaning. *)
Definition same_token (t u : token_rule) : Prop :=
  tr_name t = tr_name u /\ tr_prec t = tr_prec u /\
  match tr_pattern t, tr_pattern u with
  | TLiteral cs, TLiteral ds => cs = ds
  | TPattern p, TPattern q => forall w, Forall scalar w -> (matches p w <-> matches q w)
  | _, _ => False
  end.

(** Two rule sets with the same meaning as grammars, the rules of each kind in opposite orders; token rules are compared by [same]. *)
Definition reversed (same : token_rule -> token_rule -> Prop) (rs rs' : rule_set) : Prop :=
  rs_entry rs' = rs_entry rs /\ Forall2 same (rs_tokens rs') (rev (rs_tokens rs)) /\
  Forall2 (fun p q => pr_name p = pr_name q /\ pr_tag p = pr_tag q) (rs_prods rs') (rev (rs_prods rs)) /\
  forall p w, ebnf rs' p w <-> ebnf rs p w.
