(** Specification for the termination of LR and GLR parsers: grammars without hidden left recursion and cycles. *)
From Coq Require Import String List Arith NArith Relations.
From Verif Require Import Base InputModel GrammarModel GrammarSpec LRModel LRSpec.
Import ListNotations.
Local Open Scope nat_scope.
Local Open Scope list_scope.

(** A rule of [i] mentions [j]. *)
Definition occurs (g : grammar) (i j : N) : Prop := exists r, In r (g_rules g) /\ r_lhs r = Some i /\ In (NonTerminal j) (r_rhs r).
Definition reachable (g : grammar) (j : N) : Prop := exists i, g_entry g = NonTerminal i /\ clos_refl_trans N (occurs g) i j.

(** [i] derives some sequence of tokens. *)
Definition productive (g : grammar) (i : N) : Prop := exists w, derives (g_rules g) [NonTerminal i] w.

Definition nullable (g : grammar) (al : list symbol) : Prop := derives (g_rules g) al [].

(** The reachable non-terminal [i] has a rule [i = al j be]. *)
Definition rule_step (g : grammar) (i : N) (al : list symbol) (j : N) (be : list symbol) : Prop :=
  reachable g i /\ exists r, In r (g_rules g) /\ r_lhs r = Some i /\ r_rhs r = al ++ NonTerminal j :: be.

(** [j] can stand in front of what [i] derives; it is hidden there if symbols which derive nothing precede it. *)
Definition left_step (g : grammar) (i j : N) : Prop := exists al be, rule_step g i al j be /\ nullable g al.
Definition hidden_step (g : grammar) (i j : N) : Prop := exists al be, rule_step g i al j be /\ nullable g al /\ exists s, In s al /\ s <> Epsilon.
Definition hidden_left_recursive (g : grammar) : Prop := exists i j, hidden_step g i j /\ clos_refl_trans N (left_step g) j i.

(** [j] can be all of what [i] derives. *)
Definition whole_step (g : grammar) (i j : N) : Prop := exists al be, rule_step g i al j be /\ nullable g al /\ nullable g be.
Definition cyclic (g : grammar) : Prop := exists i, clos_trans N (whole_step g) i i.

(** Every non-terminal which can occur in a parse derives something. *)
Definition all_productive (g : grammar) : Prop := forall i, reachable g i -> productive g i.

(** From some amount of fuel on, the result is always the same. *)
Definition settles {A B} (f : nat -> A * res B (list N)) : Prop := exists n a r, r <> OutOfFuel /\ forall fuel, n <= fuel -> f fuel = (a, r).
