(** Specification of grammar construction: the language of an EBNF rule set, derivations of a
    context-free grammar, and which rule sets are erroneous.  Independent of the builder. *)
From Coq Require Import String List Arith NArith.
From Verif Require Import Base InputModel GrammarModel.
Import ListNotations.

(** ** EBNF reading of the productions; sentences are lists of token names. *)

Definition is_token (rs : rule_set) (name : string) : Prop := exists r, In r (rs_tokens rs) /\ tr_name r = name.

Inductive ebnf (rs : rule_set) : prod_pattern -> list string -> Prop :=
| e_seq_nil : ebnf rs (QSeq []) []
| e_seq_cons : forall p l ts ts', ebnf rs p ts -> ebnf rs (QSeq l) ts' -> ebnf rs (QSeq (p :: l)) (ts ++ ts')
| e_alt : forall p l ts, In p l -> ebnf rs p ts -> ebnf rs (QAlt l) ts
| e_plus_one : forall p ts, ebnf rs p ts -> ebnf rs (QPlus p) ts
| e_plus_more : forall p ts ts', ebnf rs p ts -> ebnf rs (QPlus p) ts' -> ebnf rs (QPlus p) (ts ++ ts')
| e_star_none : forall p, ebnf rs (QStar p) []
| e_star_more : forall p ts ts', ebnf rs p ts -> ebnf rs (QStar p) ts' -> ebnf rs (QStar p) (ts ++ ts')
| e_opt_none : forall p, ebnf rs (QOpt p) []
| e_opt_some : forall p ts, ebnf rs p ts -> ebnf rs (QOpt p) ts
| e_token : forall name, is_token rs name -> ebnf rs (QRule name) [name]
| e_prod : forall p ts, In p (rs_prods rs) -> ebnf rs (pr_pattern p) ts -> ebnf rs (QRule (pr_name p)) ts
| e_eps : ebnf rs QEps [].

(** ** Derivations: [derives R alpha w] if the symbols [alpha] derive the terminals [w]. *)

Inductive derives (R : list rule) : list symbol -> list N -> Prop :=
| d_nil : derives R [] []
| d_eps : forall al w, derives R al w -> derives R (Epsilon :: al) w
| d_term : forall t al w, derives R al w -> derives R (Terminal t :: al) (t :: w)
| d_nt : forall r i al u w, In r R -> r_lhs r = Some i ->
    derives R (r_rhs r) u -> derives R al w -> derives R (NonTerminal i :: al) (u ++ w).

(** Terminal number [t] is the token called [name]. *)
Definition token_named (g : grammar) (t : N) (name : string) : Prop := In (Terminal t, name) (g_tokens g).

(** ** Names and references. *)

Definition token_at (rs : rule_set) (i : nat) (name : string) : Prop :=
  exists r, nth_error (rs_tokens rs) i = Some r /\ tr_name r = name.
Definition prod_at (rs : rule_set) (i : nat) (name : string) : Prop :=
  exists r, nth_error (rs_prods rs) i = Some r /\ pr_name r = name.
(** The first production with its name. *)
Definition first_prod_at (rs : rule_set) (i : nat) (name : string) : Prop :=
  prod_at rs i name /\ forall j, (j < i)%nat -> ~ prod_at rs j name.

(** Two rules whose names clash (several productions of one name are alternatives, not a clash). *)
Definition clash (rs : rule_set) (a b : rule_id) : Prop :=
  match a, b with
  | TokenAt i, TokenAt j => (i < j)%nat /\ exists name, token_at rs i name /\ token_at rs j name
  | TokenAt i, ProdAt j => exists name, token_at rs i name /\ prod_at rs j name
  | _, _ => False
  end.

Definition defined (rs : rule_set) (name : string) : Prop :=
  (exists i, token_at rs i name) \/ (exists i, prod_at rs i name).

Fixpoint mentions (p : prod_pattern) (name : string) : Prop :=
  match p with
  | QSeq l | QAlt l => fold_right or False (map (fun q => mentions q name) l)
  | QPlus q | QStar q | QOpt q => mentions q name
  | QRule n => n = name
  | QEps => False
  end.

(** A name that is needed but missing: used in a production and undefined, or the entry without a production. *)
Definition missing (rs : rule_set) (name : string) : Prop :=
  (exists p, In p (rs_prods rs) /\ mentions (pr_pattern p) name /\ ~ defined rs name) \/
  (name = rs_entry rs /\ forall i, ~ prod_at rs i name).

(** Number of operators that need an anonymous non-terminal. *)
Fixpoint operators (p : prod_pattern) : N :=
  match p with
  | QSeq l => fold_right N.add 0%N (map operators l)
  | QAlt l => 1 + fold_right N.add 0%N (map operators l)
  | QPlus q | QStar q | QOpt q => 1 + operators q
  | QRule _ | QEps => 0
  end%N.
Definition total_operators (rs : rule_set) : N := fold_right N.add 0%N (map (fun p => operators (pr_pattern p)) (rs_prods rs)).

(** Position [i] of a rule that introduces a symbol. *)
Definition introduces (rs : rule_set) (i : nat) : Prop :=
  (exists name, token_at rs i name) \/ (exists name, first_prod_at rs i name).

(** All symbol indices fit into 16 bits (indices of named symbols are positions modulo 65536). *)
Definition enough_indices (rs : rule_set) : Prop :=
  forall i, introduces rs i -> (N.of_nat i mod 65536 + total_operators rs <= 65535)%N.

Definition small (rs : rule_set) : Prop :=
  (N.of_nat (length (rs_tokens rs)) <= 65536 /\ N.of_nat (length (rs_prods rs)) <= 65536)%N.

(** ** Well-formed grammars: what the parser generators may assume. *)

Definition known (g : grammar) (s : symbol) : Prop :=
  match s with
  | Epsilon => True
  | End => False
  | NonTerminal _ => In s (non_terminals g)
  | Terminal _ => In s (terminals g)
  end.

Record wf_grammar (g : grammar) : Prop := {
  wf_entry : exists i, g_entry g = NonTerminal i /\ In (NonTerminal i) (non_terminals g);
  wf_entry_rule : r_lhs (g_entry_rule g) = None /\ r_rhs (g_entry_rule g) = [g_entry g];
  wf_lhs : forall r, In r (g_rules g) -> exists i, r_lhs r = Some i /\ In (NonTerminal i) (non_terminals g);
  wf_rhs : forall r s, In r (g_rules g) -> In s (r_rhs r) -> known g s;
  wf_symbols : NoDup (all_symbols g);
  wf_nts : forall s, In s (non_terminals g) -> exists i, s = NonTerminal i;
  wf_ts : forall s, In s (terminals g) -> exists t, s = Terminal t;
  wf_u16 : forall s, In s (all_symbols g) -> (symbol_index s < 65536)%N
}.

(** Rules of a named (not anonymous) non-terminal. *)
Definition named_rule (g : grammar) (r : rule) : bool :=
  match r_lhs r with Some i => map_mem (NonTerminal i) (g_prods g) | None => false end.
