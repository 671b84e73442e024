(** Model of lapex-parser/src/grammar.rs and grammar_builder.rs.  Definitions only. *)
From Coq Require Import String Ascii List Arith NArith Bool Lia.
From Verif Require Import Base InputModel.
Import ListNotations.
Open Scope N_scope.

(** grammar_builder.rs 9-13 (maps keyed by names): order on names (Rust [str]: lexicographic on bytes). *)
Definition string_key (s : string) : list N := map N_of_ascii (list_ascii_of_string s).
Lemma string_key_inj : forall s t, string_key s = string_key t -> s = t.
Proof.
  induction s as [|a s IH]; intros [|b t] H; unfold string_key in *; simpl in H; try discriminate; auto.
  injection H as H1 H2. f_equal; auto. rewrite <- (ascii_N_embedding a), <- (ascii_N_embedding b). congruence.
Qed.
#[export] Instance CmpString : Cmp string.
Proof.
  refine {| cmp := fun s t => cmp (string_key s) (string_key t) |}.
  - intros a b. rewrite cmp_eq. split; [apply string_key_inj|congruence].
  - intros a b. apply cmp_opp.
  - intros a b c. apply cmp_trans.
Defined.

(** grammar.rs 36-42, [Symbol], with the derived order. *)
Inductive symbol : Type :=
| Epsilon
| End
| NonTerminal (i : N)
| Terminal (i : N).

(** grammar.rs 36-42: the derived order of [Symbol], by variant and then by index. *)
Definition symbol_key (s : symbol) : N * N :=
  match s with Epsilon => (0, 0) | End => (1, 0) | NonTerminal i => (2, i) | Terminal i => (3, i) end.
#[export] Instance CmpSymbol : Cmp symbol.
Proof.
  refine {| cmp := fun s t => cmp (symbol_key s) (symbol_key t) |}.
  - intros a b. rewrite cmp_eq. split; [|congruence]. destruct a, b; simpl; congruence.
  - intros a b. apply cmp_opp.
  - intros a b c. apply cmp_trans.
Defined.

(** [i as SymbolIdx] (u16 truncation); grammar_builder.rs 24, 30. *)
Definition as_u16 (n : N) : N := n mod 65536.

(** grammar.rs 14-20: where a rule stands in the rule set; replaces its source span in errors. *)
Inductive rule_id : Type := TokenAt (i : nat) | ProdAt (i : nat).

(** grammar.rs 14-20, [GrammarError]; spans are replaced by [rule_id]s. *)
Inductive grammar_error : Type :=
| TooManyRules
| MissingSymbol (name : string)
| ConflictingRules (rules : list rule_id)
| RuleWithTerminalLeftHandSide.

(** grammar.rs 44-49, [Rule]. *)
Record rule : Type := mkRule {
  r_lhs : option N;
  r_rhs : list symbol;
  r_prod : prod_rule
}.

(** grammar.rs 51-58, [Rule::entry]. *)
Definition rule_entry (s : symbol) (p : prod_rule) : rule := mkRule None [s] p.

(** grammar.rs 71-89, [Rule::new]. *)
Definition rule_new (lhs : symbol) (rhs : list symbol) (p : prod_rule) : res grammar_error rule :=
  match lhs with
  | NonTerminal i => Ok (mkRule (Some i) rhs p)
  | _ => Err RuleWithTerminalLeftHandSide
  end.

(** grammar.rs 131-159, [Grammar]. *)
Record grammar : Type := mkGrammar {
  g_entry : symbol;
  g_entry_rule : rule;
  g_rules : list rule;
  g_tokens : list (symbol * string);
  g_prods : list (symbol * string);
  g_anon : list symbol
}.

(** grammar.rs 166-179: iterators over the symbols. *)
Definition non_terminals (g : grammar) : list symbol := map fst (g_prods g) ++ g_anon g.
(** grammar.rs 173-175, [terminals]. *)
Definition terminals (g : grammar) : list symbol := map fst (g_tokens g).
(** grammar.rs 177-179, [symbols]. *)
Definition all_symbols (g : grammar) : list symbol := terminals g ++ non_terminals g.

(** grammar_builder.rs 7-16, [GrammarBuilder] (without the rule set). *)
Record builder : Type := mkBuilder {
  b_temp : N;
  b_symbols : list (string * symbol);
  b_max : N;
  b_anon : list symbol;
  b_tokens : list (symbol * string);
  b_prods : list (symbol * string);
  b_rules : list rule
}.

(** grammar_builder.rs 20-31: [enumerate], starting at a number. *)
Fixpoint enumerate_from {A} (i : nat) (l : list A) : list (nat * A) :=
  match l with [] => [] | a :: l' => (i, a) :: enumerate_from (S i) l' end.
(** grammar_builder.rs 20-31: [Iterator::enumerate]. *)
Definition enumerate {A} (l : list A) : list (nat * A) := enumerate_from 0 l.

(** grammar_builder.rs 32-53: [BTreeMap<&str, (Symbol, SourceSpan)>]. *)
Definition span_map := list (string * (symbol * rule_id)).

(** grammar_builder.rs 36-44 with 20-25: registering the token rules. *)
Definition add_token (st : span_map * list (symbol * string)) (e : nat * token_rule)
  : res grammar_error (span_map * list (symbol * string)) :=
  let '(syms, tokens) := st in
  let '(i, r) := e in
  let s := Terminal (as_u16 (N.of_nat i)) in
  match map_get (tr_name r) syms with
  | Some (_, prev) => Err (ConflictingRules [prev; TokenAt i])
  | None => Ok (map_insert (tr_name r) (s, TokenAt i) syms, map_insert s (tr_name r) tokens)
  end.

(** grammar_builder.rs 45-56 with 26-31: registering the production names. *)
Definition add_production (tokens : list (symbol * string)) (st : span_map * list (symbol * string)) (e : nat * prod_rule)
  : res grammar_error (span_map * list (symbol * string)) :=
  let '(syms, prods) := st in
  let '(i, r) := e in
  let s := NonTerminal (as_u16 (N.of_nat i)) in
  match map_get (pr_name r) syms with
  | Some (existing, span) =>
    if map_mem existing tokens then Err (ConflictingRules [span; ProdAt i]) else Ok (syms, prods)
  | None => Ok (map_insert (pr_name r) (s, ProdAt i) syms, map_insert s (pr_name r) prods)
  end.

(** grammar_builder.rs 64-69. *)
Definition symbol_index (s : symbol) : N :=
  match s with Epsilon => 0 | End => 0 | NonTerminal i => i | Terminal i => i end.

(** grammar_builder.rs 62-71: [max().unwrap()]. *)
Definition max_index (syms : span_map) : res grammar_error N :=
  match map (fun e => symbol_index (fst (snd e))) syms with
  | [] => Panic
  | i :: l => Ok (fold_left N.max l i)
  end.

(** grammar_builder.rs 19-80, [GrammarBuilder::from_rule_set]. *)
Definition builder_from_rule_set (rs : rule_set) : res grammar_error builder :=
  do (syms, tokens) <- foldM add_token (enumerate (rs_tokens rs)) ([], []);
  do (syms, prods) <- foldM (add_production tokens) (enumerate (rs_prods rs)) (syms, []);
  do mx <- max_index syms;
  Ok (mkBuilder 0 (map (fun e => (fst e, fst (snd e))) syms) mx [] tokens prods []).

(** u16 addition; overflow panics (debug arithmetic, and [checked_add().unwrap()]). *)
Definition add_u16 (a b : N) : res grammar_error N := if a + b <? 65536 then Ok (a + b) else Panic.

(** grammar_builder.rs 82-87, [get_temp_symbol]. *)
Definition get_temp_symbol (b : builder) : res grammar_error (symbol * builder) :=
  do s <- add_u16 (b_temp b) (b_max b);
  do i <- add_u16 s 1;
  do t <- add_u16 (b_temp b) 1;
  Ok (NonTerminal i, mkBuilder t (b_symbols b) (b_max b) (b_anon b ++ [NonTerminal i]) (b_tokens b) (b_prods b) (b_rules b)).

(** grammar_builder.rs 89-96, [get_symbol_by_name]. *)
Definition get_symbol_by_name (b : builder) (name : string) : res grammar_error symbol :=
  match map_get name (b_symbols b) with Some s => Ok s | None => Err (MissingSymbol name) end.

(** grammar_builder.rs 130, 152-153, 160-164, 171-174 and 180-183: [self.rules.push(Rule::new(lhs, rhs, parent)?)]. *)
Definition push_rule (b : builder) (lhs : symbol) (rhs : list symbol) (parent : prod_rule) : res grammar_error builder :=
  do r <- rule_new lhs rhs parent;
  Ok (mkBuilder (b_temp b) (b_symbols b) (b_max b) (b_anon b) (b_tokens b) (b_prods b) (b_rules b ++ [r])).

(** grammar_builder.rs 134-139: a call of [transform_pattern] with pattern and parent rule fixed. *)
Definition transformer := builder -> res grammar_error (list symbol * builder).

(** grammar_builder.rs 141-146: transform the elements of a sequence and concatenate. *)
Fixpoint transform_seq (ts : list transformer) (b : builder) : res grammar_error (list symbol * builder) :=
  match ts with
  | [] => Ok ([], b)
  | t :: rest =>
    do (ss, b1) <- t b;
    do (ss', b2) <- transform_seq rest b1;
    Ok (ss ++ ss', b2)
  end.

(** grammar_builder.rs 150-154: one rule per element of an alternative. *)
Fixpoint transform_alts (ts : list transformer) (alt : symbol) (parent : prod_rule) (b : builder) : res grammar_error builder :=
  match ts with
  | [] => Ok b
  | t :: rest =>
    do (ss, b1) <- t b;
    do b2 <- push_rule b1 alt ss parent;
    transform_alts rest alt parent b2
  end.

(** grammar_builder.rs 134-189, [transform_pattern]. *)
Fixpoint transform_pattern (parent : prod_rule) (p : prod_pattern) (b : builder) {struct p}
  : res grammar_error (list symbol * builder) :=
  match p with
  | QSeq l => transform_seq (map (transform_pattern parent) l) b
  | QAlt l =>
    do (alt, b1) <- get_temp_symbol b;
    do b2 <- transform_alts (map (transform_pattern parent) l) alt parent b1;
    Ok ([alt], b2)
  | QPlus q =>
    do (rep, b1) <- get_temp_symbol b;
    do (inner, b2) <- transform_pattern parent q b1;
    do b3 <- push_rule b2 rep inner parent;
    do b4 <- push_rule b3 rep (inner ++ [rep]) parent;
    Ok ([rep], b4)
  | QStar q =>
    do (rep, b1) <- get_temp_symbol b;
    do (inner, b2) <- transform_pattern parent q b1;
    do b3 <- push_rule b2 rep [Epsilon] parent;
    do b4 <- push_rule b3 rep (inner ++ [rep]) parent;
    Ok ([rep], b4)
  | QOpt q =>
    do (s, b1) <- get_temp_symbol b;
    do (inner, b2) <- transform_pattern parent q b1;
    do b3 <- push_rule b2 s inner parent;
    do b4 <- push_rule b3 s [Epsilon] parent;
    Ok ([s], b4)
  | QRule name =>
    do s <- get_symbol_by_name b name;
    Ok ([s], b)
  | QEps => Ok ([Epsilon], b)
  end.

(** grammar_builder.rs 124-132, [add_production_rule]. *)
Definition add_production_rule (b : builder) (p : prod_rule) : res grammar_error builder :=
  do s <- get_symbol_by_name b (pr_name p);
  do (produces, b1) <- transform_pattern p (pr_pattern p) b;
  push_rule b1 s produces p.

(** grammar_builder.rs 98-120, [build]. *)
Definition build (rs : rule_set) (b : builder) : res grammar_error grammar :=
  do b <- foldM add_production_rule (rs_prods rs) b;
  do entry <- get_symbol_by_name b (rs_entry rs);
  match find (fun r => eqc (pr_name r) (rs_entry rs)) (rs_prods rs) with
  | None => Err (MissingSymbol (rs_entry rs))
  | Some p =>
    Ok (mkGrammar entry (rule_entry entry p) (b_rules b) (b_tokens b) (b_prods b) (b_anon b))
  end.

(** grammar.rs 162-164, [Grammar::from_rule_set]. *)
Definition from_rule_set (rs : rule_set) : res grammar_error grammar :=
  do b <- builder_from_rule_set rs;
  build rs b.
