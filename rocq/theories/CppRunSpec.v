(** Specification for C++ lexers and parsers working together: how bytes are read as a text, lexemes with their places, and what a visitor is told. *)
From Coq Require Import String List Arith NArith.
From Verif Require Import Base InputModel LexerSpec LexerModel GrammarModel LRModel RunSpec CppLexerModel CppLexerSpec CppLRModel CppLRSpec CppRunModel.
Import ListNotations.
Local Open Scope nat_scope.
Local Open Scope list_scope.

(** Bytes which are the encoding of a text, followed by bytes [junk] which encode nothing. *)
Definition holds (bytes text junk : list N) : Prop := exists enc, bytes = enc ++ junk /\ utf8_text text enc /\ (junk = [] \/ malformed junk).

(** Nothing is left behind the text, or the text ends before (NUL is the end). *)
Definition readable (text junk : list N) : Prop := junk = [] \/ In 0%N text.

(** Division of a text into lexemes. *)
Inductive lexemes (rules : list token_rule) : list N -> list (list N * token_rule) -> Prop :=
| lz_end : forall rest, at_end rest -> lexemes rules rest []
| lz_next : forall w rest t ls, first_lexeme rules w rest t -> lexemes rules rest ls -> lexemes rules (w ++ rest) ((w, t) :: ls).

(** First and last place of lexemes which follow each other, in characters. *)
Fixpoint places (from : nat) (ws : list (list N)) : list (nat * nat) :=
  match ws with
  | [] => []
  | w :: ws => (from, from + length w) :: places (from + length w) ws
  end.

(** The calls of the visitor for [ev], when the shifted tokens are at the places [ps]. *)
Inductive told (names : list string) : list lr_event -> list (nat * nat) -> list cpp_call -> Prop :=
| told_nil : told names [] [] []
| told_shift : forall t s e ev ps calls, told names ev ps calls -> told names (EShift t :: ev) ((s, e) :: ps) (VShift (mkTok (cpp_token names t) s e) :: calls)
| told_reduce : forall k ev ps calls, told names ev ps calls -> told names (EReduce k :: ev) ps (VReduce k :: calls).
