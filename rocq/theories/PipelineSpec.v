(** Specification of whole runs of the generator: the files written, and what is reported. *)
From Coq Require Import String List Arith NArith.
From Verif Require Import Base InputModel LexerSpec LexerModel BootModel PositionModel PositionSpec InputGenModel InputGenSpec InputTextSpec GrammarModel GrammarSpec LLModel LRModel LRSpec GLRSpec NamesModel NamesSpec PipelineModel.
Import ListNotations.
Local Open Scope nat_scope.
Local Open Scope string_scope.
Local Open Scope list_scope.

(** ** Files *)

(** The files of a run, in the order in which they are written. *)
Definition token_outputs (l : language) : list string := match l with Rust => ["tokens.rs"] | Cpp => ["tokens.h"; "tokens.cpp"] end.
Definition lexer_outputs (l : language) : list string := match l with Rust => ["lexer.rs"] | Cpp => ["lexer.h"; "lexer.cpp"] end.
Definition parser_outputs (l : language) : list string := match l with Rust => ["parser.rs"] | Cpp => ["parser.h"; "parser.cpp"; "parser_impl.h"; "visitor.h"] end.
Definition early_outputs (l : language) (lexer : bool) : list string := token_outputs l ++ if lexer then lexer_outputs l else [].
Definition late_outputs (l : language) (alg : algorithm) (table : bool) : list string :=
  match alg with LL1 => [] | _ => if table then ["table"] else [] end ++ parser_outputs l.

(** All files of the list are there, with contents. *)
Definition finished (names : list string) (files : list file) : Prop := map fst files = names /\ Forall (fun f => snd f <> None) files.
(** Some files of the list are there, from the front; at most the last one lacks its contents. *)
Definition begun (names : list string) (files : list file) : Prop :=
  exists rest, names = map fst files ++ rest /\ forall a f b, files = a ++ f :: b -> b <> [] -> snd f <> None.

(** Combinations for which there is a code generator. *)
Definition supported (l : language) (alg : algorithm) : Prop := ~ (l = Rust /\ alg = LL1) /\ ~ (l = Cpp /\ alg = GLR).

(** Names for which identifiers of the language can be made. *)
Definition well_named (l : language) (name : string) : Prop := l = Rust -> ~ empty_segment name.

(** The tables in which conflicts are errors. *)
Definition strict_kind (alg : algorithm) : option table_kind :=
  match alg with LR0 => Some KindLR0 | LR1 => Some KindLR1 | LALR => Some KindLALR | _ => None end.

(** Whether there is a table from which a parser can be written. *)
Definition tabled (l : language) (alg : algorithm) (fuel : nat) (g : grammar) : Prop :=
  match alg with
  | LL1 => l = Cpp /\ exists tb, ll_generate_table fuel g = Ok tb
  | GLR => l = Rust /\ exists r tb, generates KindLALR fuel g true = Ok r /\ table_of_result r tb
  | _ => exists k tb, strict_kind alg = Some k /\ generates k fuel g false = Ok (NoConflicts tb) /\ (l = Rust -> k = KindLR0 -> ~ only_empty_entry g)
  end.

(** ** Reports *)

Definition conflict_report (r : report) : Prop := match r with ShiftReduceReport _ _ _ _ | ReduceReduceReport _ _ => True | _ => False end.

(** The location denotes a place in the file where the rule [r] is written. *)
Definition located (regex : list N -> option hir) (source : list N) (loc : location) (r : file_rule) : Prop :=
  exists before after, source = before ++ lc_text loc ++ after /\ at_pos before (lc_pos loc) /\ spells_rule regex (lc_text loc) r.

(** The number of the production the rule number [k] of the grammar comes from: the named rules are those of the productions, in
    order, and each is preceded by the anonymous ones for its parts. *)
Definition origin (g : grammar) (k : nat) : nat := length (filter (named_rule g) (firstn k (g_rules g))).
Definition item_production (rs : rule_set) (g : grammar) (it : item) (j : nat) : Prop :=
  match it_rule it with
  | Some k => k < length (g_rules g) /\ j = origin g k
  | None => (exists p, nth_error (rs_prods rs) j = Some p /\ pr_name p = rs_entry rs) /\ forall i p, i < j -> nth_error (rs_prods rs) i = Some p -> pr_name p <> rs_entry rs
  end.

(** How symbols are written. *)
Inductive shown (g : grammar) : symbol -> string -> Prop :=
| sh_terminal t name : In (Terminal t, name) (g_tokens g) -> shown g (Terminal t) (name ++ "(" ++ decimal t ++ ")")
| sh_named i name : In (NonTerminal i, name) (g_prods g) -> shown g (NonTerminal i) (name ++ "(" ++ decimal i ++ ")")
| sh_anonymous i : (forall name, ~ In (NonTerminal i, name) (g_prods g)) -> shown g (NonTerminal i) ("<anon>(" ++ decimal i ++ ")")
| sh_epsilon : shown g Epsilon "<eps>"
| sh_end : shown g End "<end>".
(** The symbol one could shift: tokens without their number. *)
Definition shown_shift (g : grammar) (s : symbol) (name : string) : Prop :=
  match s with Terminal _ => In (s, name) (g_tokens g) | _ => shown g s name end.

(** An item: left-hand side, arrow, and the right-hand side with a bullet at the dot. *)
Definition shown_item (g : grammar) (it : item) (text : string) : Prop :=
  exists before after pre post, rhs_of g (it_rule it) = before ++ after /\ length before = it_dot it /\ Forall2 (shown g) before pre /\ Forall2 (shown g) after post /\
  let dotted := (String.concat " " pre ++ " " ++ TableModel.bullet ++ " " ++ String.concat " " post)%string in
  match lhs_of g (it_rule it) with
  | Some i => exists lhs, shown g (NonTerminal i) lhs /\ text = (lhs ++ " -> " ++ dotted)%string
  | None => text = dotted
  end.

(** What is said about an item: where its production stands in the file, and the item. *)
Definition reported_item (regex : list N -> option hir) (source : list N) (sr : spanned_rules) (g : grammar) (it : item) (r : location * string) : Prop :=
  shown_item g it (snd r) /\
  exists j span p, item_production (unspanned sr) g it j /\ nth_error (sr_prods sr) j = Some (span, p) /\ lc_pos (fst r) = ss_start span /\ located regex source (fst r) (FProd p).

Inductive reported (regex : list N -> option hir) (source : list N) (sr : spanned_rules) (g : grammar) : conflict -> report -> Prop :=
| rp_shift q it s name loc text : shown_shift g s name -> reported_item regex source sr g it (loc, text) -> reported regex source sr g (ShiftReduce q it s) (ShiftReduceReport q name loc text)
| rp_reduce q its l : Forall2 (reported_item regex source sr g) its l -> reported regex source sr g (ReduceReduce q its) (ReduceReduceReport q l).

(** What is said about a token rule of a tie. *)
Definition reported_token (regex : list N -> option hir) (source : list N) (t : spanned token_rule) (r : location * string) : Prop :=
  snd r = tr_name (snd t) /\ lc_pos (fst r) = ss_start (fst t) /\ located regex source (fst r) (FToken (snd t)).

(** The report of a tie: a text matched by several rules of highest precedence, which are all rules named, in their order. *)
Definition tie_reported (regex : list N -> option hir) (source : list N) (tokens : list (spanned token_rule)) (rs : list report) : Prop :=
  exists u h rules locs, Forall valid_char u /\ tie (map snd tokens) u h (map snd rules) /\ filtered (fun t => rule_matches (snd t) u /\ has_precedence (snd t) h) tokens rules /\
    Forall2 (reported_token regex source) rules locs /\ rs = [PrecedenceReport locs].

(** Rules a lexer can be generated from, or which have a tie. *)
Record lexable (rules : list token_rule) : Prop := {
  lb_valid : valid_rules rules;
  lb_sequences : no_empty_sequence rules;
  lb_repetitions : forall r, In r rules -> ~ bad_repetition (rule_pattern r);
  lb_precedence : forall r, In r rules -> exists n, has_precedence r n
}.
