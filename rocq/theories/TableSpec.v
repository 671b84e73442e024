(** Specification vocabulary for the texts of symbols, rules, items and tables. *)
From Coq Require Import String Ascii List Arith NArith Bool.
From Verif Require Import InputModel GrammarModel LRModel NamesSpec.
Import ListNotations.
Local Open Scope string_scope.

(** Names as they occur in grammar files: letters, digits and underscores. *)
Definition plain_char (c : ascii) : Prop := letter c = true \/ digit c \/ c = "_"%char.
Definition plain_name (s : string) : Prop := all_chars plain_char s.
Definition plain_names (rs : rule_set) : Prop :=
  (forall t, In t (rs_tokens rs) -> plain_name (tr_name t)) /\ (forall p, In p (rs_prods rs) -> plain_name (pr_name p)).

(** A cell with several entries. *)
Definition crowded (cell : option (list table_entry)) : Prop := exists l, cell = Some l /\ length l <> 1%nat.
