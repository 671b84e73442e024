(** Specification for LR parsing: parse trees labelled by rule positions, their post-order traversal, and
    the grammar conditions used in the theorems. *)
From Coq Require Import String List Arith NArith Relations.
From Verif Require Import Base InputModel GrammarModel GrammarSpec LRModel.
Import ListNotations.
Local Open Scope nat_scope.
Local Open Scope list_scope.

(** ** Parse trees; nodes carry the position of their rule. *)

Inductive itree : Type :=
| ILeaf (t : N)
| INode (k : nat) (children : list itree).

(** Trees for a sequence of symbols; [Epsilon] has no tree. *)
Inductive iparses (R : list rule) : list symbol -> list itree -> Prop :=
| ip_nil : iparses R [] []
| ip_eps : forall al ts, iparses R al ts -> iparses R (Epsilon :: al) ts
| ip_term : forall t al ts, iparses R al ts -> iparses R (Terminal t :: al) (ILeaf t :: ts)
| ip_nt : forall k r i al cs ts, nth_error R k = Some r -> r_lhs r = Some i -> iparses R (r_rhs r) cs -> iparses R al ts ->
    iparses R (NonTerminal i :: al) (INode k cs :: ts).

(** [tr] is a parse tree of the grammar. *)
Definition parse_tree (g : grammar) (tr : itree) : Prop := iparses (g_rules g) [g_entry g] [tr].

Fixpoint iyield (tr : itree) : list N :=
  match tr with
  | ILeaf t => [t]
  | INode _ cs => concat (map iyield cs)
  end.
Definition iyields (ts : list itree) : list N := concat (map iyield ts).

(** Visitor calls of a bottom-up parser: children first, then the rule. *)
Fixpoint post_order (tr : itree) : list lr_event :=
  match tr with
  | ILeaf t => [EShift (Some t)]
  | INode k cs => concat (map post_order cs) ++ [EReduce k]
  end.
Definition post_orders (ts : list itree) : list lr_event := concat (map post_order ts).

Definition unambiguous (g : grammar) : Prop := forall tr tr', parse_tree g tr -> parse_tree g tr' -> iyield tr = iyield tr' -> tr = tr'.

(** ** Grammar conditions *)

(** [Epsilon] occurs only at the front of right-hand sides. *)
Definition epsilon_in_front (g : grammar) : Prop := forall r, In r (g_rules g) -> exists m al, r_rhs r = repeat Epsilon m ++ al /\ ~ In Epsilon al.

(** Right-hand sides are short enough for a dot position in a [u8]. *)
Definition rhs_fit (g : grammar) : Prop := forall r, In r (g_rules g) -> length (r_rhs r) <= 255.

(** Non-terminal [j] is the first symbol, apart from [Epsilon]s, of a rule of [i]. *)
Definition left_corner (g : grammar) (i j : N) : Prop :=
  exists r m al, In r (g_rules g) /\ r_lhs r = Some i /\ r_rhs r = repeat Epsilon m ++ NonTerminal j :: al.

Definition entry_left_recursive (g : grammar) : Prop := exists i, g_entry g = NonTerminal i /\ clos_trans N (left_corner g) i i.

(** Table kinds used by lapex: LR(0), LR(1) and LALR(1). *)
Inductive table_kind : Type := KindLR0 | KindLR1 | KindLALR.
Definition kind_n (k : table_kind) : nat := match k with KindLR0 => 0 | _ => 1 end.
Definition kind_lalr (k : table_kind) : bool := match k with KindLALR => true | _ => false end.
Definition generates (k : table_kind) (fuel : nat) (g : grammar) (allow : bool) : lres generation_result :=
  generate_table fuel g (kind_n k) allow (kind_lalr k).

(** ** Tables *)

(** Entries of a cell. *)
Definition entries (tb : lr_table) (q : nat) (s : symbol) : list table_entry :=
  match get_entry tb q s with Some l => l | None => [] end.
Definition is_reduce (e : table_entry) : bool := match e with Reduce _ => true | _ => false end.

(** The conflict [c] is about the cell of state [q] and symbol [s]: it names a reduction of the cell and the symbol [s]
    which can be shifted as well, or all (two or more) reductions of the cell. *)
Inductive concerns (tb : lr_table) (q : nat) (s : symbol) : conflict -> Prop :=
| cn_shift : forall it e, In (Reduce (it_rule it)) (entries tb q s) -> In e (entries tb q s) -> is_reduce e = false ->
    concerns tb q s (ShiftReduce q it s)
| cn_reduce : forall items, 2 <= length items -> filter is_reduce (entries tb q s) = map (fun it => Reduce (it_rule it)) items ->
    concerns tb q s (ReduceReduce q items).

(** The entry symbol has one rule, and it is empty. *)
Definition only_empty_entry (g : grammar) : Prop :=
  exists i k r m, g_entry g = NonTerminal i /\ nth_error (g_rules g) k = Some r /\ r_rhs r = repeat Epsilon m /\
    forall k' r', nth_error (g_rules g) k' = Some r' -> (r_lhs r' = Some i <-> k' = k).

(** The items named by a conflict report. *)
Definition conflict_items (c : conflict) : list item := match c with ShiftReduce _ it _ => [it] | ReduceReduce _ items => items end.

(** The entry symbol occurs in no right-hand side. *)
Definition entry_fresh (g : grammar) : Prop := forall r, In r (g_rules g) -> ~ In (g_entry g) (r_rhs r).

(** ** Runs *)

(** After the visitor calls [ev] the parser has the stack [stack] and the tokens [rest] are left. *)
Definition reaches (p : lr_parser) (w : list N) (ev : list lr_event) (stack : list stack_symbol) (rest : list N) : Prop :=
  forall fuel, lr_run (length ev + fuel) p [KState (lp_entry p)] w = (ev ++ fst (lr_run fuel p stack rest), snd (lr_run fuel p stack rest)).

(** Column of the table for a token; [None] is the end of the file. *)
Definition column (t : token) : symbol := match t with Some t => Terminal t | None => End end.
Definition is_token (g : grammar) (t : token) : Prop := t = None \/ exists i, t = Some i /\ In (Terminal i) (terminals g).
Definition acts (e : table_entry) : Prop := match e with Shift _ | Reduce _ => True | _ => False end.

(** ** Histories of the two-way map *)

Inductive bidi_op (A B : Type) : Type := BInsert (a : A) (b : B) | BRemove (b : B).
Arguments BInsert {A B}.
Arguments BRemove {A B}.

(** [history h live]: [h] never inserts a value present on its side; [live] is what it leaves behind. *)
Inductive history {A B} `{Cmp B} : list (bidi_op A B) -> list (A * B) -> Prop :=
| hs_nil : history [] []
| hs_insert : forall h live a b, history h live -> ~ In a (map fst live) -> ~ In b (map snd live) -> history (h ++ [BInsert a b]) ((a, b) :: live)
| hs_remove : forall h live b, history h live -> history (h ++ [BRemove b]) (filter (fun p => negb (eqc (snd p) b)) live).

Definition bidi_apply {E A B} `{Cmp A} `{Cmp B} (m : bidi A B) (op : bidi_op A B) : res E (bidi A B) :=
  match op with
  | BInsert a b => Ok (bidi_insert a b m)
  | BRemove b => do (_, m') <- bidi_remove_by_b b m; Ok m'
  end.

(** ** Right-hand sides of rule sets *)

(** The right-hand sides a rule set is turned into, as lists of marks: [true] for [Epsilon]. *)
Fixpoint flat (p : prod_pattern) : list bool :=
  match p with
  | QSeq l => flat_map flat l
  | QEps => [true]
  | _ => [false]
  end.
Fixpoint shapes (p : prod_pattern) : list (list bool) :=
  match p with
  | QSeq l => flat_map shapes l
  | QAlt l => flat_map (fun q => shapes q ++ [flat q]) l
  | QPlus q => shapes q ++ [flat q; flat q ++ [false]]
  | QStar q => shapes q ++ [[true]; flat q ++ [false]]
  | QOpt q => shapes q ++ [flat q; [true]]
  | QRule _ | QEps => []
  end.
Definition rule_shapes (rs : rule_set) : list (list bool) := flat_map (fun p => shapes (pr_pattern p) ++ [flat (pr_pattern p)]) (rs_prods rs).

(** No [true] after a [false]. *)
Fixpoint front (l : list bool) : bool :=
  match l with
  | [] => true
  | true :: l => front l
  | false :: l => forallb negb l
  end.
