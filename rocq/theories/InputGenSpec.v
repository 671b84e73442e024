(** Specification for the generated parser of grammar files: the syntax of grammar files on the level of tokens, and the
    languages of regular expressions in the form of regex-syntax. *)
From Coq Require Import String List Arith NArith.
From Verif Require Import Base InputModel GrammarModel GrammarSpec LexerSpec CppLexerSpec PositionModel BootModel InputGenModel.
Import ListNotations.
Local Open Scope nat_scope.
Local Open Scope list_scope.

(** ** Tokens: number, text and span.  The numbers are the positions of the token rules in lapex.lapex. *)

Definition tok : Type := (N * token_data)%type.
Definition KW_TOKEN : N := 0.
Definition KW_ENTRY : N := 1.
Definition KW_PROD : N := 2.
Definition EQUALS : N := 3.
Definition SEMI : N := 4.
Definition LPAR : N := 5.
Definition RPAR : N := 6.
Definition LBRACK : N := 7.
Definition RBRACK : N := 8.
Definition DIGIT : N := 9.
Definition QUESTION : N := 10.
Definition NOTHING : N := 11.
Definition ASTERISK : N := 12.
Definition PLUS : N := 13.
Definition PIPE : N := 14.
Definition IDENT : N := 15.
Definition STRING : N := 16.
Definition REGEX : N := 17.

(** Decimal numerals and their values. *)
Inductive decimal : list N -> N -> Prop :=
| dec_one d : (d < 10)%N -> decimal [48 + d]%N d
| dec_more cs n d : decimal cs n -> (d < 10)%N -> decimal (cs ++ [48 + d]%N) (10 * n + d).

(** Texts which a token of a kind may have, as far as they are looked at. *)
Definition fitting (t : tok) : Prop :=
  (fst t = DIGIT -> exists n, decimal (td_text (snd t)) n) /\
  (fst t = STRING -> exists cs, td_text (snd t) = [34%N] ++ cs ++ [34%N]) /\
  (fst t = REGEX -> exists cs, td_text (snd t) = [47%N] ++ cs ++ [47%N]).

(** ** Syntax of patterns.  [sequence] and [choice] say what becomes of several units, or several alternatives, in a row. *)

Section Syntax.
Variable sequence : list prod_pattern -> prod_pattern.
Variable choice : list prod_pattern -> prod_pattern.

Inductive item : prod_pattern -> list tok -> Prop :=
| it_name d : item (QRule (name_of (td_text d))) [(IDENT, d)]
| it_group p ts a b : alternatives p ts -> item p ([(LPAR, a)] ++ ts ++ [(RPAR, b)])
with unary : prod_pattern -> list tok -> Prop :=
| un_once p ts : item p ts -> unary p ts
| un_option p ts d : item p ts -> unary (QOpt p) (ts ++ [(QUESTION, d)])
| un_star p ts d : item p ts -> unary (QStar p) (ts ++ [(ASTERISK, d)])
| un_plus p ts d : item p ts -> unary (QPlus p) (ts ++ [(PLUS, d)])
with units : list prod_pattern -> list tok -> Prop :=
| us_one p ts : unary p ts -> units [p] ts
| us_more p ts ps ts' : unary p ts -> units ps ts' -> units (p :: ps) (ts ++ ts')
with choices : list prod_pattern -> list tok -> Prop :=
| ch_one ps ts : units ps ts -> choices [sequence ps] ts
| ch_more ps ts d qs ts' : units ps ts -> choices qs ts' -> choices (sequence ps :: qs) (ts ++ [(PIPE, d)] ++ ts')
with alternatives : prod_pattern -> list tok -> Prop :=
| al_nothing d : alternatives QEps [(NOTHING, d)]
| al_choice qs ts : choices qs ts -> alternatives (choice qs) ts.

(** ** Syntax of rules *)

Inductive tagged : option string -> list tok -> Prop :=
| tg_none : tagged None []
| tg_some a d b : tagged (Some (name_of (td_text d))) [(LBRACK, a); (IDENT, d); (RBRACK, b)].

Inductive prioritised : option N -> list tok -> Prop :=
| pr_none : prioritised None []
| pr_some a d b n : decimal (td_text d) n -> (n < 65536)%N -> prioritised (Some n) [(LBRACK, a); (DIGIT, d); (RBRACK, b)].

Variable regex_parse : list N -> option hir.

(** Literals are taken as they are written, with backslashes. *)
Inductive token_text : token_pattern -> tok -> Prop :=
| tt_literal cs d : td_text d = [34%N] ++ cs ++ [34%N] -> token_text (TLiteral cs) (STRING, d)
| tt_regex cs h p d : td_text d = [47%N] ++ cs ++ [47%N] -> regex_parse cs = Some h -> make_pattern_from_hir h = Ok p -> token_text (TPattern p) (REGEX, d).

(** A rule extends from the beginning of its first to the end of its last token. *)
Definition extent (a b : token_data) : source_span := mkSpan (ss_start (td_span a)) (ss_end (td_span b)).

Inductive rule_tokens : spanned file_rule -> list tok -> Prop :=
| rt_entry a d b : rule_tokens (extent a b, FEntry (name_of (td_text d))) [(KW_ENTRY, a); (IDENT, d); (SEMI, b)]
| rt_prod a d e b tag ts p ts' : tagged tag ts -> alternatives p ts' ->
    rule_tokens (extent a b, FProd (mkProdRule (name_of (td_text d)) tag p)) ([(KW_PROD, a); (IDENT, d)] ++ ts ++ [(EQUALS, e)] ++ ts' ++ [(SEMI, b)])
| rt_token a d e b prec ts p t : prioritised prec ts -> token_text p t ->
    rule_tokens (extent a b, FToken (mkTokenRule (name_of (td_text d)) prec p)) ([(KW_TOKEN, a); (IDENT, d)] ++ ts ++ [(EQUALS, e); t; (SEMI, b)]).

Inductive file_tokens : list (spanned file_rule) -> list tok -> Prop :=
| ft_one r ts : rule_tokens r ts -> file_tokens [r] ts
| ft_more r ts rs ts' : rule_tokens r ts -> file_tokens rs ts' -> file_tokens (r :: rs) (ts ++ ts').
End Syntax.

(** What the parser makes of several units: a sequence, where the last unit may be a sequence in parentheses, which is dissolved;
    of several alternatives: a choice in reverse order, where the last alternative may be a choice in parentheses, which is
    dissolved as well. *)
Definition joined_sequence (ps : list prod_pattern) : prod_pattern :=
  match ps with
  | [p] => p
  | _ => QSeq (removelast ps ++ match last ps QEps with QSeq l => l | p => [p] end)
  end.
Definition joined_choice (qs : list prod_pattern) : prod_pattern :=
  match qs with
  | [q] => q
  | _ => QAlt (match last qs QEps with QAlt l => l | q => [q] end ++ rev (removelast qs))
  end.

(** The rules of a result, each kind in the order of [rules]. *)
Inductive consists_of (out : spanned_rules) (rules : list (spanned file_rule)) : Prop :=
| co : map (fun t => (fst t, FToken (snd t))) (sr_tokens out) = filter (fun r => match snd r with FToken _ => true | _ => false end) rules ->
    map (fun t => (fst t, FProd (snd t))) (sr_prods out) = filter (fun r => match snd r with FProd _ => true | _ => false end) rules ->
    [(fst (sr_entry out), FEntry (snd (sr_entry out)))] = filter (fun r => match snd r with FEntry _ => true | _ => false end) rules ->
    consists_of out rules.

(** ** Regular expressions *)

(** The language of a regular expression of regex-syntax without look-around and byte classes; literals are encoded texts. *)
Fixpoint hir_matches (h : hir) : lang N :=
  match h with
  | HEmpty => fun w => w = []
  | HLiteral bs => fun w => utf8_text w bs
  | HUnicode ranges => fun w => exists c a b, w = [c] /\ In (a, b) ranges /\ (a <= c <= b)%N
  | HBytes _ | HLook => fun _ => False
  | HRepetition mn mx _ sub => lrep mn mx (hir_matches sub)
  | HCapture sub => hir_matches sub
  | HConcat subs => lseq (map hir_matches subs)
  | HAlternation subs => lunion (map hir_matches subs)
  end.

(** [s] occurs in [h]. *)
Inductive subhir (s : hir) : hir -> Prop :=
| sh_refl : subhir s s
| sh_rep : forall mn mx gr h, subhir s h -> subhir s (HRepetition mn mx gr h)
| sh_capture : forall h, subhir s h -> subhir s (HCapture h)
| sh_concat : forall h l, In h l -> subhir s h -> subhir s (HConcat l)
| sh_alt : forall h l, In h l -> subhir s h -> subhir s (HAlternation l).

(** What has no counterpart in the patterns of lapex, and how it is reported. *)
Inductive unsupported : regex_error -> hir -> Prop :=
| us_empty : unsupported EmptyRegex HEmpty
| us_literal bs : (forall cs, ~ utf8_text cs bs) -> unsupported Utf8Conversion (HLiteral bs)
| us_bytes l : unsupported ByteClass (HBytes l)
| us_look : unsupported Lookaround HLook
| us_lazy mn mx h : unsupported LazyRepetition (HRepetition mn mx false h).

(** ** Patterns which can be read *)

(** Sequences and choices have at least two parts; the last part of a sequence is no sequence, the first part of a choice (the last
    one of the file) no choice. *)
Definition is_seq (p : prod_pattern) : Prop := exists l, p = QSeq l.
Definition is_alt (p : prod_pattern) : Prop := exists l, p = QAlt l.
Inductive readable : prod_pattern -> Prop :=
| rd_rule n : readable (QRule n)
| rd_eps : readable QEps
| rd_opt p : readable p -> readable (QOpt p)
| rd_star p : readable p -> readable (QStar p)
| rd_plus p : readable p -> readable (QPlus p)
| rd_seq l p : l <> [] -> Forall readable l -> readable p -> ~ is_seq p -> readable (QSeq (l ++ [p]))
| rd_alt l p : l <> [] -> Forall readable l -> readable p -> ~ is_alt p -> readable (QAlt (p :: l)).

(** Token rules which can be read. *)
Definition spellable_token (regex : list N -> option hir) (t : token_rule) : Prop :=
  (forall n, tr_prec t = Some n -> (n < 65536)%N) /\
  match tr_pattern t with TLiteral _ => True | TPattern p => exists cs h, regex cs = Some h /\ make_pattern_from_hir h = Ok p end.
