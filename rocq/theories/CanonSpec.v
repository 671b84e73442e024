(** Specification of LR tables by the items which are valid for a sequence of symbols: the item sets of the textbook construction (closure and goto),
    without states, graphs or merging. *)
From Coq Require Import String List Arith NArith.
From Verif Require Import Base InputModel GrammarModel GrammarSpec LLModel LLSpec LRModel LRSpec.
Import ListNotations.
Local Open Scope nat_scope.
Local Open Scope list_scope.

(** ** Valid items *)

(** Right-hand side of a rule; [None] is the rule which derives the entry symbol. *)
Definition right_side (g : grammar) (k : option nat) : list symbol :=
  match k with
  | None => [g_entry g]
  | Some k => match nth_error (g_rules g) k with Some r => r_rhs r | None => [] end
  end.

(** The dot of a new item stands behind the [Epsilon]s at the front. *)
Fixpoint first_dot (al : list symbol) : nat := match al with Epsilon :: al => S (first_dot al) | _ => 0 end.

(** [valid0 g ga k d]: when [ga] has been read, the rule [k] may be in progress, [d] symbols of its right-hand side being part of [ga].
    The rule of the entry symbol is not moved on: reading the entry symbol in the first state is acceptance. *)
Inductive valid0 (g : grammar) : list symbol -> option nat -> nat -> Prop :=
| v0_entry : valid0 g [] None 0
| v0_expand : forall ga k d i k' r, valid0 g ga k d -> nth_error (right_side g k) d = Some (NonTerminal i) ->
    nth_error (g_rules g) k' = Some r -> r_lhs r = Some i -> valid0 g ga (Some k') (first_dot (r_rhs r))
| v0_move : forall ga k d s, valid0 g ga (Some k) d -> nth_error (right_side g (Some k)) d = Some s -> valid0 g (ga ++ [s]) (Some k) (S d).

(** The same with the symbol which comes after the rule. *)
Inductive valid1 (g : grammar) : list symbol -> option nat -> nat -> symbol -> Prop :=
| v1_entry : valid1 g [] None 0 End
| v1_expand : forall ga k d a i k' r b, valid1 g ga k d a -> nth_error (right_side g k) d = Some (NonTerminal i) ->
    nth_error (g_rules g) k' = Some r -> r_lhs r = Some i -> begins (g_rules g) (skipn (S d) (right_side g k) ++ [a]) b ->
    valid1 g ga (Some k') (first_dot (r_rhs r)) b
| v1_move : forall ga k d a s, valid1 g ga (Some k) d a -> nth_error (right_side g (Some k)) d = Some s -> valid1 g (ga ++ [s]) (Some k) (S d) a.

(** ** States *)

(** The sequences of symbols for which a table has one state. *)
Definition same_state (kind : table_kind) (g : grammar) (ga de : list symbol) : Prop :=
  match kind with
  | KindLR0 => forall k d, valid0 g ga k d <-> valid0 g de k d
  | KindLR1 => forall k d a, valid1 g ga k d a <-> valid1 g de k d a
  | KindLALR => forall k d, (exists a, valid1 g ga k d a) <-> exists a, valid1 g de k d a
  end.

(** The rule [k] is complete after [ga] and may be reduced in front of [s] (LR(0): in front of everything). *)
Definition completes (kind : table_kind) (g : grammar) (ga : list symbol) (k : option nat) (s : symbol) : Prop :=
  match kind with
  | KindLR0 => valid0 g ga k (length (right_side g k))
  | KindLR1 => valid1 g ga k (length (right_side g k)) s
  | KindLALR => exists de, same_state KindLALR g ga de /\ valid1 g de k (length (right_side g k)) s
  end.

(** The symbol [s] may come next after [ga]. *)
Definition shifts_at (kind : table_kind) (g : grammar) (ga : list symbol) (s : symbol) : Prop :=
  exists k d, nth_error (right_side g (Some k)) d = Some s /\
    match kind with KindLR0 => valid0 g ga (Some k) d | _ => exists a, valid1 g ga (Some k) d a end.

(** ** Tables *)

(** The state of a table after a sequence of symbols. *)
Inductive after (tb : lr_table) : list symbol -> nat -> Prop :=
| af_nil : after tb [] (tb_entry tb)
| af_snoc : forall ga q s t, after tb ga q -> In (Shift t) (entries tb q s) -> after tb (ga ++ [s]) t.

(** What the state after [ga] contains. *)
Record canonical_at (kind : table_kind) (g : grammar) (tb : lr_table) (ga : list symbol) (q : nat) : Prop := {
  ca_state : q < tb_states tb;
  ca_reduce : forall k s, In (Reduce k) (entries tb q s) <-> In s (all_symbols g ++ [End]) /\ completes kind g ga k s;
  ca_accept : forall s, In Accept (entries tb q s) <-> ga = [] /\ s = g_entry g;
  ca_shift : forall s, (exists t, In (Shift t) (entries tb q s)) <-> shifts_at kind g ga s /\ s <> Epsilon /\ ~ (ga = [] /\ s = g_entry g);
  ca_shift_one : forall s t t', In (Shift t) (entries tb q s) -> In (Shift t') (entries tb q s) -> t = t';
  ca_error : forall s, In Error (entries tb q s) <-> In s (all_symbols g) /\ (forall k, ~ completes kind g ga k s) /\ ~ shifts_at kind g ga s /\ ~ (ga = [] /\ s = g_entry g);
  ca_same : forall de q', after tb de q' -> (q = q' <-> same_state kind g ga de)
}.

(** ** Conflicts *)

Definition conflict_free (r : generation_result) : Prop := exists tb, r = NoConflicts tb.
Definition reported (r : generation_result) : list conflict := match r with NoConflicts _ => [] | AllowedConflicts _ cs | BadConflicts cs => cs end.
Definition is_shift_reduce (c : conflict) : Prop := exists q it s, c = ShiftReduce q it s.

(** No rule is complete where another one is complete or a symbol may come. *)
Definition clash_free (kind : table_kind) (g : grammar) : Prop :=
  forall ga s k, completes kind g ga k s -> (forall k', completes kind g ga k' s -> k = k') /\ ~ shifts_at kind g ga s.
