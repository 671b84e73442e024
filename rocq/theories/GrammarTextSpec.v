(** Specification vocabulary for displayed grammars. *)
From Coq Require Import String Ascii List NArith.
From Verif Require Import InputModel GrammarModel PipelineSpec.
Import ListNotations.
Local Open Scope string_scope.

(** A rule: left-hand side, arrow, and the right-hand side with spaces between the symbols. *)
Definition shown_rule (g : grammar) (r : rule) (text : string) : Prop :=
  exists i lhs rhs, r_lhs r = Some i /\ shown g (NonTerminal i) lhs /\ Forall2 (shown g) (r_rhs r) rhs /\ text = lhs ++ " -> " ++ String.concat " " rhs.
(** The lines of a grammar: a head with the entry, the rules behind tabs, and a closing brace. *)
Definition grammar_lines (entry : string) (rules : list string) : list string :=
  ("Grammar (entry: " ++ entry ++ ") {") :: (map (fun r => "	" ++ r)%string rules ++ ["}"])%list.
Definition end_of_line : string := "
".
