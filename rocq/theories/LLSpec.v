(** Specification for FIRST, FOLLOW, LL(1) tables and predictive parsing, by rewriting of sentential
    forms and by parse trees. *)
From Coq Require Import String List Arith NArith.
From Verif Require Import Base InputModel GrammarModel GrammarSpec LLModel.
Import ListNotations.

(** ** Sentential forms *)

(** One rewriting step: expand a non-terminal by a rule, or drop an [Epsilon]. *)
Inductive sstep (R : list rule) : list symbol -> list symbol -> Prop :=
| ss_rule : forall u v r i, In r R -> r_lhs r = Some i -> sstep R (u ++ NonTerminal i :: v) (u ++ r_rhs r ++ v)
| ss_eps : forall u v, sstep R (u ++ Epsilon :: v) (u ++ v).

Inductive ssteps (R : list rule) : list symbol -> list symbol -> Prop :=
| ss_refl : forall a, ssteps R a a
| ss_trans : forall a b c, sstep R a b -> ssteps R b c -> ssteps R a c.

Definition lookahead (x : symbol) : Prop := x = End \/ exists t, x = Terminal t.

(** [al] derives a sentential form beginning with [x]. *)
Definition begins (R : list rule) (al : list symbol) (x : symbol) : Prop := lookahead x /\ exists be, ssteps R al (x :: be).

(** [al] derives the empty sequence. *)
Definition erasable (R : list rule) (al : list symbol) : Prop := ssteps R al [].

(** Forms from which FOLLOW is read off: the entry symbol followed by [End], or any non-terminal. *)
Definition start_form (g : grammar) (s : list symbol) : Prop :=
  s = [g_entry g; End] \/ exists i, In (NonTerminal i) (non_terminals g) /\ s = [NonTerminal i].

Definition follows (g : grammar) (i : N) (x : symbol) : Prop :=
  lookahead x /\ exists s al be, start_form g s /\ ssteps (g_rules g) s (al ++ NonTerminal i :: x :: be).

(** The usual definition: forms derived from the entry symbol only. *)
Definition follows_entry (g : grammar) (i : N) (x : symbol) : Prop :=
  lookahead x /\ exists al be, ssteps (g_rules g) [g_entry g; End] (al ++ NonTerminal i :: x :: be).

Definition all_reachable (g : grammar) : Prop := forall i, In (NonTerminal i) (non_terminals g) ->
  exists al be, ssteps (g_rules g) [g_entry g; End] (al ++ NonTerminal i :: be).

(** ** Predict sets and LL(1) conflicts *)

Definition predicts (g : grammar) (r : rule) (x : symbol) : Prop :=
  begins (g_rules g) (r_rhs r) x \/
  (erasable (g_rules g) (r_rhs r) /\ exists i, r_lhs r = Some i /\ follows g i x).

(** Two different rules of one non-terminal with a common predict symbol. *)
Definition ll1_conflict (g : grammar) (j k : nat) (x : symbol) : Prop :=
  j <> k /\ exists r1 r2 i, nth_error (g_rules g) j = Some r1 /\ nth_error (g_rules g) k = Some r2 /\
    r_lhs r1 = Some i /\ r_lhs r2 = Some i /\ predicts g r1 x /\ predicts g r2 x.

(** No rule has an empty right-hand side (the empty word is written [Epsilon]). *)
Definition no_empty_rhs (g : grammar) : Prop := forall r, In r (g_rules g) -> r_rhs r <> [].

(** Terminal numbers leave room for [terminal_index + 1]. *)
Definition terminals_fit (g : grammar) : Prop := forall t, In (Terminal t) (terminals g) -> (t < 65535)%N.

(** ** Parse trees *)

Inductive tree : Type :=
| Leaf (t : N)
| Node (r : rule) (children : list tree).

(** Trees for a sequence of symbols; [Epsilon] has no tree. *)
Inductive parses (R : list rule) : list symbol -> list tree -> Prop :=
| p_nil : parses R [] []
| p_eps : forall al ts, parses R al ts -> parses R (Epsilon :: al) ts
| p_term : forall t al ts, parses R al ts -> parses R (Terminal t :: al) (Leaf t :: ts)
| p_nt : forall r i al cs ts, In r R -> r_lhs r = Some i -> parses R (r_rhs r) cs -> parses R al ts ->
    parses R (NonTerminal i :: al) (Node r cs :: ts).

Fixpoint yield (tr : tree) : list N :=
  match tr with
  | Leaf t => [t]
  | Node _ cs => concat (map yield cs)
  end.
Definition yields (ts : list tree) : list N := concat (map yield ts).

(** Visitor calls for a tree: enter, children, exit. *)
Fixpoint ll_events (tr : tree) : list ll_event :=
  match tr with
  | Leaf t => [Token t]
  | Node r cs =>
    match r_lhs r with
    | Some i => Enter i :: concat (map ll_events cs) ++ [Exit i]
    | None => []
    end
  end.

(** ** Rule sets *)

(** No sequence pattern is empty. *)
Fixpoint no_empty_seq (p : prod_pattern) : bool :=
  match p with
  | QSeq l => match l with [] => false | _ => forallb no_empty_seq l end
  | QAlt l => forallb no_empty_seq l
  | QPlus q | QStar q | QOpt q => no_empty_seq q
  | QRule _ | QEps => true
  end.

(** ** The C++ backend *)

(** The k-th non-terminal listed has number k. *)
Definition aligned (g : grammar) : Prop := forall k s, nth_error (non_terminals g) k = Some s -> s = NonTerminal (N.of_nat k).

Definition no_erasable (g : grammar) : Prop := forall r, In r (g_rules g) -> ~ erasable (g_rules g) (r_rhs r).
