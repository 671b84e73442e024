(** Model of the data types of the [lapex-input] crate (lapex-input/src/lib.rs). *)
From Coq Require Import String List Arith NArith Bool.
From Verif Require Import Base.
Import ListNotations.
Open Scope N_scope.

(** A Rust [char] as its code point.  Simplification: surrogates (0xD800..=0xDFFF) are not excluded,
    so texts of the model are a superset of Rust strings. *)
Definition char := N.

(** [char::MAX]; lapex-lexer/src/alphabet.rs 92. *)
Definition CHAR_MAX : N := 1114111.

(** lapex-input/src/lib.rs 85-89: the range of a [char]. *)
Definition valid_char (c : char) : Prop := c <= CHAR_MAX.

(** lapex-input/src/lib.rs 85-89, [Characters]. *)
Inductive characters : Type :=
| Single (c : char)
| CRange (c1 c2 : char).

(** lapex-input/src/lib.rs 91-111, [Pattern]. [u32] bounds are unbounded [N]. *)
Inductive pattern : Type :=
| PSeq (elements : list pattern)
| PAlt (elements : list pattern)
| PRep (min : N) (max : option N) (inner : pattern)
| PSet (chars : list characters) (negated : bool)
| PChar (chars : characters).

(** Induction over [Pattern] (lapex-input/src/lib.rs 91-111). Induction principle for the nested type. *)
Section PatternInd.
Variable P : pattern -> Prop.
Hypothesis Hseq : forall l, Forall P l -> P (PSeq l).
Hypothesis Halt : forall l, Forall P l -> P (PAlt l).
Hypothesis Hrep : forall mn mx p, P p -> P (PRep mn mx p).
Hypothesis Hset : forall cs b, P (PSet cs b).
Hypothesis Hchar : forall c, P (PChar c).
Fixpoint pattern_ind' (p : pattern) : P p :=
  let fix go (l : list pattern) : Forall P l :=
    match l with
    | [] => Forall_nil P
    | p :: l' => Forall_cons p (pattern_ind' p) (go l')
    end in
  match p with
  | PSeq l => Hseq l (go l)
  | PAlt l => Halt l (go l)
  | PRep mn mx q => Hrep mn mx q (pattern_ind' q)
  | PSet cs b => Hset cs b
  | PChar c => Hchar c
  end.
End PatternInd.

(** lapex-input/src/lib.rs 114-123, [Pattern::from_chars]. *)
Definition from_chars (cs : list char) : pattern := PSeq (map (fun c => PChar (Single c)) cs).

(** lapex-input/src/lib.rs 141-145, [TokenPattern]. *)
Inductive token_pattern : Type :=
| TLiteral (cs : list char)
| TPattern (p : pattern).

(** lapex-input/src/lib.rs 147-152, [TokenRule].  Simplification: the [Spanned] wrapper is dropped
    (spans are only used in error messages). *)
Record token_rule : Type := mkTokenRule {
  tr_name : string;
  tr_prec : option N;
  tr_pattern : token_pattern
}.

(** The pattern a token rule stands for: the argument of [build_nfa_from_pattern] and
    [get_chars_from_pattern] (lapex-lexer/src/nfa/mod.rs 191-202, alphabet.rs 84-89). *)
Definition rule_pattern (r : token_rule) : pattern :=
  match tr_pattern r with
  | TLiteral cs => from_chars cs
  | TPattern p => p
  end.

Section Precedence.
Context {E : Type}.

(** lapex-input/src/lib.rs 127-129: sum / minimum over a list of possibly panicking values ([Iterator::sum], [Iterator::min]). *)
Fixpoint res_list {A} (l : list (res E A)) : res E (list A) :=
  match l with
  | [] => Ok []
  | m :: l' => do a <- m; do r <- res_list l'; Ok (a :: r)
  end.

(** lapex-input/src/lib.rs 129, [Iterator::min]. *)
Definition list_min (l : list N) : option N :=
  match l with
  | [] => None
  | a :: l' => Some (fold_left N.min l' a)
  end.

(** lapex-input/src/lib.rs 125-138, [Pattern::precedence]; [min().unwrap()] panics on an empty
    alternative.  [usize] is unbounded. *)
Fixpoint pattern_precedence (p : pattern) : res E N :=
  match p with
  | PSeq l => do ps <- res_list (map pattern_precedence l); Ok (fold_right N.add 0 ps)
  | PAlt l => do ps <- res_list (map pattern_precedence l);
              match list_min ps with Some m => Ok m | None => Panic end
  | PRep mn _ q => do n <- pattern_precedence q; Ok (mn * n)
  | PSet _ _ => Ok 1
  | PChar _ => Ok 1
  end.

(** lapex-input/src/lib.rs 155-164, [TokenRule::precedence]. *)
Definition rule_precedence (r : token_rule) : res E N :=
  match tr_prec r with
  | Some n => Ok n
  | None =>
    match tr_pattern r with
    | TLiteral cs => Ok (N.of_nat (length cs) * 2)
    | TPattern p => pattern_precedence p
    end
  end.
End Precedence.

(** lapex-input/src/lib.rs 179-200, [ProductionPattern]. *)
Inductive prod_pattern : Type :=
| QSeq (elements : list prod_pattern)
| QAlt (elements : list prod_pattern)
| QPlus (inner : prod_pattern)       (* OneOrMany *)
| QStar (inner : prod_pattern)       (* ZeroOrMany *)
| QOpt (inner : prod_pattern)        (* Optional *)
| QRule (rule_name : string)
| QEps.

Section ProdPatternInd.
Variable P : prod_pattern -> Prop.
Hypothesis Hseq : forall l, Forall P l -> P (QSeq l).
Hypothesis Halt : forall l, Forall P l -> P (QAlt l).
Hypothesis Hplus : forall p, P p -> P (QPlus p).
Hypothesis Hstar : forall p, P p -> P (QStar p).
Hypothesis Hopt : forall p, P p -> P (QOpt p).
Hypothesis Hrule : forall s, P (QRule s).
Hypothesis Heps : P QEps.
(** Induction over [ProductionPattern] (lapex-input/src/lib.rs 179-200). *)
Fixpoint prod_pattern_ind' (p : prod_pattern) : P p :=
  let fix go (l : list prod_pattern) : Forall P l :=
    match l with
    | [] => Forall_nil P
    | p :: l' => Forall_cons p (prod_pattern_ind' p) (go l')
    end in
  match p with
  | QSeq l => Hseq l (go l)
  | QAlt l => Halt l (go l)
  | QPlus q => Hplus q (prod_pattern_ind' q)
  | QStar q => Hstar q (prod_pattern_ind' q)
  | QOpt q => Hopt q (prod_pattern_ind' q)
  | QRule s => Hrule s
  | QEps => Heps
  end.
End ProdPatternInd.

(** lapex-input/src/lib.rs 167-172, [ProductionRule] (span dropped). *)
Record prod_rule : Type := mkProdRule {
  pr_name : string;
  pr_tag : option string;
  pr_pattern : prod_pattern
}.

(** lapex-input/src/lib.rs 202-207, [RuleSet] (spans dropped; [EntryRule] is its name). *)
Record rule_set : Type := mkRuleSet {
  rs_entry : string;
  rs_tokens : list token_rule;
  rs_prods : list prod_rule
}.
