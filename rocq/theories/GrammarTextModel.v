(** Model of how a grammar is displayed: lapex-parser/src/grammar.rs 240-254.  A Rust string is the list of its UTF-8 bytes, as in TableModel.v.  Definitions only. *)
From Coq Require Import String Ascii List Arith NArith.
From Verif Require Import Base InputModel GrammarModel LRModel NamesModel CppLRModel TableModel.
Import ListNotations.
Local Open Scope string_scope.
Local Open Scope list_scope.

(** grammar.rs 242-249: the end of a line, and the tab in front of a rule. *)
Definition line_end : string := String "010" EmptyString.
(** grammar.rs 249. *)
Definition tab : string := String "009" EmptyString.
(** grammar.rs 248-250: the rules, one in a line. *)
Definition rule_line (text : string) : string := (tab ++ text ++ line_end)%string.
(** grammar.rs 240-254, [Grammar::fmt]. *)
Definition grammar_text (g : grammar) : res name_err string :=
  do entry <- get_symbol_name g (g_entry g);
  do rules <- res_list (map (rule_text g) (g_rules g));
  Ok ("Grammar (entry: " ++ entry ++ ") {" ++ line_end ++ String.concat "" (map rule_line rules) ++ "}")%string.
