(** Conditions on grammars under which LL(1) tables have LALR(1) and LR(0) counterparts. *)
From Coq Require Import List NArith.
From Verif Require Import Base GrammarModel GrammarSpec LRSpec LRTermSpec.
Import ListNotations.
Local Open Scope list_scope.

(** Every non-terminal derives a word which is not empty. *)
Definition some_word (g : grammar) : Prop := forall i, reachable g i -> exists t w, derives (g_rules g) [NonTerminal i] (t :: w).

(** No non-terminal derives the empty word. *)
Definition no_empty_word (g : grammar) : Prop := forall i, reachable g i -> ~ derives (g_rules g) [NonTerminal i] [].
