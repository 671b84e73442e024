(** Model of a generated C++ lexer driving a generated C++ LR parser: the token function in main.cpp 73-77, together with the loop of
    lapex-cpp-codegen/src/lr_parser/parser_impl.h.tpl 62-108, which asks for one token at a time.  Definitions only. *)
From Coq Require Import String List Arith NArith Bool.
From Verif Require Import Base InputModel LexerModel LRModel CppLexerModel CppLRModel.
Import ListNotations.
Local Open Scope nat_scope.
Local Open Scope list_scope.

(** lr_parser/parser.h.tpl 11-12 and main.cpp 5-8 and 75: a token with its data, which are the results of [start] and [end]. *)
Record cpp_tok : Type := mkTok { ct_type : N; ct_start : nat; ct_end : nat }.

(** main.cpp 73-77: one call of the token function; [names] are the token rules in the order in which tokens.h.tpl 7-12 lists them.  What [next] returns is
    always an enumerator, so that [Panic] does not occur. *)
Definition cpp_pull (al : alphabet) (d : dfa token_rule) (names : list string) (lx : cpp_lexer) : res lex_err (cpp_tok * cpp_lexer) :=
  do (lx, tk) <- cpp_next al d lx;
  match enum_value (enumerators names) tk with
  | Some v => Ok (mkTok v (cl_start lx) (cl_end lx), lx)
  | None => Panic
  end.

(** parser_impl.h.tpl 84 and 92: calls of the visitor. *)
Inductive cpp_call : Type := VShift (t : cpp_tok) | VReduce (rule : nat).

(** parser_impl.h.tpl 74-93: action and visitor call; behind a shift the next token is fetched. *)
Definition cpp_text_act (al : alphabet) (d : dfa token_rule) (c : cpp_lr) (stack : list csym) (tk : cpp_tok) (lx : cpp_lexer)
  : list cpp_call * res cpp_error (list csym * cpp_tok * cpp_lexer) :=
  match stack with
  | [] => ([], Err Undefined)
  | top :: _ =>
    match determine_action c (sy_ident top) (ct_type tk) with
    | Ok ActShift =>
      match cpp_pull al d (cx_names c) lx with
      | Ok (tk', lx) => ([VShift tk], Ok (mkSym KindTerminal (ct_type tk) :: stack, tk', lx))
      | _ => ([VShift tk], Panic)
      end
    | Ok (ActReduce rule) =>
      match cpp_reduce_stack c rule stack with
      | Ok stack => ([VReduce rule], Ok (stack, tk, lx))
      | Err e => ([], Err e)
      | Panic => ([], Panic)
      | OutOfFuel => ([], OutOfFuel)
      end
    | Err e => ([], Err e)
    | Panic => ([], Panic)
    | OutOfFuel => ([], OutOfFuel)
    end
  end.

(** parser_impl.h.tpl 72-107, the loop of [parse]; on success the state of the lexer. *)
Fixpoint cpp_text_run (fuel : nat) (al : alphabet) (d : dfa token_rule) (c : cpp_lr) (stack : list csym) (tk : cpp_tok) (lx : cpp_lexer)
  : list cpp_call * res cpp_error cpp_lexer :=
  match fuel with
  | O => ([], OutOfFuel)
  | S fuel =>
    match stack with
    | [] => ([], Ok lx)
    | _ =>
      let '(ev, r) := cpp_text_act al d c stack tk lx in
      match r with
      | Ok (stack, tk, lx) =>
        match cpp_goto c stack with
        | Ok stack => let '(ev', r) := cpp_text_run fuel al d c stack tk lx in (ev ++ ev', r)
        | Err e => (ev, Err e)
        | Panic => (ev, Panic)
        | OutOfFuel => (ev, OutOfFuel)
        end
      | Err e => (ev, Err e)
      | Panic => (ev, Panic)
      | OutOfFuel => (ev, OutOfFuel)
      end
    end
  end.

(** main.cpp 69-81 and parser_impl.h.tpl 62-108: [parse], applied to the bytes of the standard input. *)
Definition cpp_text_parse (fuel : nat) (al : alphabet) (d : dfa token_rule) (c : cpp_lr) (bytes : list N) : list cpp_call * res cpp_error cpp_lexer :=
  match cpp_pull al d (cx_names c) (cpp_new bytes) with
  | Ok (tk, lx) => cpp_text_run fuel al d c [mkSym KindState (N.of_nat (cx_entry c))] tk lx
  | _ => ([], Panic)
  end.
