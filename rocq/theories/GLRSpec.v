(** Specification for GLR parsing: results, and grammars whose parse trees are bounded by their leaves. *)
From Coq Require Import String List Arith NArith Relations.
From Verif Require Import Base InputModel GrammarModel GrammarSpec LRModel LRSpec GLRModel.
Import ListNotations.
Local Open Scope nat_scope.
Local Open Scope list_scope.

(** The table of a generation result, with or without conflicts. *)
Inductive table_of_result : generation_result -> lr_table -> Prop :=
| tr_none : forall tb, table_of_result (NoConflicts tb) tb
| tr_allowed : forall tb cs, table_of_result (AllowedConflicts tb cs) tb.

(** The single errors, as pairs of the token found and the tokens expected. *)
Definition errors (e : glr_error) : list (token * list token) := match e with GUnexpectedToken got expected => [(got, expected)] | GUnexpectedTokens l => l end.

Definition is_reduction (e : lr_event) : Prop := exists k, e = EReduce k.

(** Two different parse trees of [w]. *)
Definition ambiguous_sentence (g : grammar) (w : list N) : Prop :=
  exists tr1 tr2, parse_tree g tr1 /\ parse_tree g tr2 /\ iyield tr1 = w /\ iyield tr2 = w /\ tr1 <> tr2.

(** Every rule derives at least one symbol. *)
Definition no_empty_rules (g : grammar) : Prop := forall r, In r (g_rules g) -> exists s, In s (r_rhs r) /\ s <> Epsilon.

(** [i] has a rule which consists of the non-terminal [j], apart from [Epsilon]s. *)
Definition unit_rule (g : grammar) (i j : N) : Prop :=
  exists r, In r (g_rules g) /\ r_lhs r = Some i /\ filter (fun s => match s with Epsilon => false | _ => true end) (r_rhs r) = [NonTerminal j].
Definition acyclic (g : grammar) : Prop := forall i, ~ clos_trans N (unit_rule g) i i.

(** Number of rules times two bounds the visitor calls per token. *)
Definition glr_bound (g : grammar) (w : list N) : nat := 2 * (length (g_rules g) + 1) * length w + length w + 3.

(** Kinds and grammars for which a parser accepts at the end of the input only. *)
Definition sealed (k : table_kind) (g : grammar) : Prop := (k = KindLR1 /\ ~ entry_left_recursive g) \/ (k <> KindLR0 /\ entry_fresh g).
