(** Specification for the text of grammar files: their lexemes, and the division of a text into lexemes. *)
From Coq Require Import String List Arith NArith.
From Verif Require Import Base InputModel LexerModel BootModel PositionModel InputGenModel InputGenSpec.
Import ListNotations.
Local Open Scope N_scope.
Local Open Scope string_scope.
Local Open Scope list_scope.

Definition letter (c : N) : Prop := 97 <= c <= 122 \/ 65 <= c <= 90.
Definition digit (c : N) : Prop := 48 <= c <= 57.
Definition word_char (c : N) : Prop := letter c \/ digit c \/ c = 95.

(** What may stand between two delimiters [q]: a delimiter, a backslash or a newline only behind a backslash. *)
Inductive body (q : N) : list N -> Prop :=
| body_nil : body q []
| body_char c b : c <> q -> c <> 92 -> c <> 10 -> body q b -> body q (c :: b)
| body_escape c b : body q b -> body q (92 :: c :: b).

(** Keywords and punctuation. *)
Definition keywords : list (string * string) := [("KW_TOKEN", "token"); ("KW_ENTRY", "entry"); ("KW_PROD", "prod")].
Definition marks : list (string * N) :=
  [("EQUALS", 61); ("SEMI", 59); ("LPAR", 40); ("RPAR", 41); ("LBRACK", 91); ("RBRACK", 93); ("QUESTION", 63); ("NOTHING", 33); ("ASTERISK", 42); ("PLUS", 43); ("PIPE", 124)].

(** The lexemes by kind. *)
Inductive lexeme : string -> list N -> Prop :=
| lx_keyword name word : In (name, word) keywords -> lexeme name (bytes word)
| lx_mark name c : In (name, c) marks -> lexeme name [c]
| lx_zero : lexeme "DIGIT" [48]
| lx_number c cs : 49 <= c <= 57 -> Forall digit cs -> lexeme "DIGIT" (c :: cs)
| lx_ident c cs : letter c -> Forall word_char cs -> (forall name word, In (name, word) keywords -> c :: cs <> bytes word) -> lexeme "IDENT" (c :: cs)
| lx_string b : body 34 b -> lexeme "STRING" (34 :: b ++ [34])
| lx_regex b : body 47 b -> lexeme "REGEX" (47 :: b ++ [47])
| lx_blank c cs : Forall (fun c => c = 32 \/ c = 9) (c :: cs) -> lexeme "WHITESPACE" (c :: cs)
| lx_newline : lexeme "NEWLINE" [10].

(** Division of a text into lexemes, each as long as possible. *)
Inductive division : list N -> list (string * list N) -> Prop :=
| dv_end : division [] []
| dv_next name text rest l : lexeme name text ->
    (forall name' text' rest', lexeme name' text' -> text ++ rest = text' ++ rest' -> (length text' <= length text)%nat) ->
    division rest l -> division (text ++ rest) ((name, text) :: l).

(** The part of a file in front of its first NUL. *)
Inductive up_to_nul : list N -> list N -> Prop :=
| un_all text : ~ In 0 text -> up_to_nul text text
| un_cut text rest : ~ In 0 text -> up_to_nul (text ++ 0 :: rest) text.

(** ** Positions *)

(** The numbers of the kinds of lexemes which are passed to the parser. *)
Definition kinds : list (string * N) :=
  [("KW_TOKEN", KW_TOKEN); ("KW_ENTRY", KW_ENTRY); ("KW_PROD", KW_PROD); ("EQUALS", EQUALS); ("SEMI", SEMI); ("LPAR", LPAR); ("RPAR", RPAR); ("LBRACK", LBRACK); ("RBRACK", RBRACK); ("DIGIT", DIGIT);
   ("QUESTION", QUESTION); ("NOTHING", NOTHING); ("ASTERISK", ASTERISK); ("PLUS", PLUS); ("PIPE", PIPE); ("IDENT", IDENT); ("STRING", STRING); ("REGEX", REGEX)].

(** Lines are counted by newline lexemes, columns in bytes modulo 65536; both must stay below 65536. *)
Definition width (text : list N) : N := byte_len text mod 65536.
Inductive placed : N -> N -> list (string * list N) -> list tok -> Prop :=
| pl_end line col : placed line col [] []
| pl_newline line col text l ts : line + 1 < 65536 -> placed (line + 1) 1 l ts -> placed line col (("NEWLINE", text) :: l) ts
| pl_blank line col text l ts : col + width text < 65536 -> placed line (col + width text) l ts -> placed line col (("WHITESPACE", text) :: l) ts
| pl_token line col name t text l ts : In (name, t) kinds -> col + width text < 65536 -> placed line (col + width text) l ts ->
    placed line col ((name, text) :: l) ((t, mkData text (mkSpan (mkPos line col) (mkPos line (col + width text)))) :: ts).

(** ** Files *)

(** [out] is what the file [source] says: its text up to the first NUL is divided into lexemes, these are placed, and the tokens
    spell rules, which come out in reverse. *)
Definition reads_file (regex : list N -> option hir) (source : list N) (out : spanned_rules) : Prop :=
  exists text lexemes ts rules, up_to_nul source text /\ division text lexemes /\ placed 1 1 lexemes ts /\
    file_tokens joined_sequence joined_choice regex rules ts /\ consists_of out (rev rules).

(** ** Layout *)

(** The lexemes which are passed to the parser. *)
Definition seen (l : list (string * list N)) : list (string * list N) := filter (fun e => negb (String.eqb (fst e) "NEWLINE" || String.eqb (fst e) "WHITESPACE")) l.

(** No newline behind a backslash. *)
Definition unbroken (text : list N) : Prop := forall a b, text <> a ++ [92; 10] ++ b.

(** A text which, taken for itself, spells one rule. *)
Definition spells_rule (regex : list N -> option hir) (text : list N) (r : file_rule) : Prop :=
  exists lexemes ts span, division text lexemes /\ placed 1 1 lexemes ts /\ rule_tokens joined_sequence joined_choice regex (span, r) ts.

(** ** Rule sets which can be written down *)

Definition identifier (n : string) : Prop := lexeme "IDENT" (bytes n) /\ byte_len (bytes n) < 65535.
Inductive named : prod_pattern -> Prop :=
| nm_rule n : identifier n -> named (QRule n)
| nm_eps : named QEps
| nm_opt p : named p -> named (QOpt p)
| nm_star p : named p -> named (QStar p)
| nm_plus p : named p -> named (QPlus p)
| nm_seq l : Forall named l -> named (QSeq l)
| nm_alt l : Forall named l -> named (QAlt l).

(** Text between delimiters. *)
Definition writable (q : N) (cs : list N) : Prop := body q cs /\ ~ In 0 cs /\ Forall valid_char cs /\ byte_len cs < 65533.
Definition writable_token (regex : list N -> option hir) (t : token_rule) : Prop :=
  identifier (tr_name t) /\ (forall n, tr_prec t = Some n -> n < 65536) /\
  match tr_pattern t with
  | TLiteral cs => writable 34 cs
  | TPattern p => exists cs h, writable 47 cs /\ regex cs = Some h /\ make_pattern_from_hir h = Ok p
  end.
Definition writable_prod (p : prod_rule) : Prop :=
  identifier (pr_name p) /\ (forall t, pr_tag p = Some t -> identifier t) /\ named (pr_pattern p) /\ readable (pr_pattern p).

(** The number of tokens needed at most, one on each line. *)
Fixpoint pattern_size (p : prod_pattern) : nat :=
  match p with
  | QRule _ | QEps => 1
  | QOpt p | QStar p | QPlus p => 3 + pattern_size p
  | QSeq l | QAlt l => fold_right (fun p n => 3 + pattern_size p + n)%nat 0%nat l
  end.
Definition file_size (rs : rule_set) : nat :=
  (3 + 8 * length (rs_tokens rs) + fold_right (fun p n => 7 + pattern_size (pr_pattern p) + n) 0 (rs_prods rs))%nat.

(** All rules of a result. *)
Definition rules_of (out : spanned_rules) : list (spanned file_rule) :=
  [(fst (sr_entry out), FEntry (snd (sr_entry out)))] ++ map (fun t => (fst t, FToken (snd t))) (sr_tokens out) ++ map (fun p => (fst p, FProd (snd p))) (sr_prods out).
