(** Model of [parse] of an emitted C++ LR parser with any token function: lapex-cpp-codegen/src/lr_parser/parser_impl.h.tpl 62-108.  The token function is a parameter, as it is
    one of the constructor of [Parser] (parser_impl.h.tpl 58-59).  Definitions only. *)
From Coq Require Import String List Arith NArith Bool.
From Verif Require Import Base LRModel CppLRModel.
Import ListNotations.
Local Open Scope nat_scope.
Local Open Scope list_scope.

(** parser_impl.h.tpl 58-59: [token_function], which makes a token, its data and a new state of a state; [None] if it does not return. *)
Definition token_source (S D : Type) : Type := S -> option (N * D * S).

(** parser_impl.h.tpl 84 and 92: calls of the visitor; the method of a rule is identified by the rule. *)
Inductive visitor_call (D : Type) : Type := CallShift (tk : N) (data : D) | CallReduce (rule : nat).
Arguments CallShift {D}.
Arguments CallReduce {D}.

(** parser_impl.h.tpl 74-93: action and visitor call; behind a shift the next token is fetched. *)
Definition pull_act {S D} (pull : token_source S D) (c : cpp_lr) (stack : list csym) (tk : N * D) (s : S) : list (visitor_call D) * res cpp_error (list csym * (N * D) * S) :=
  match stack with
  | [] => ([], Err Undefined)
  | top :: _ =>
    match determine_action c (sy_ident top) (fst tk) with
    | Ok ActShift =>
      match pull s with
      | Some (tk', s) => ([CallShift (fst tk) (snd tk)], Ok (mkSym KindTerminal (fst tk) :: stack, tk', s))
      | None => ([CallShift (fst tk) (snd tk)], Panic)
      end
    | Ok (ActReduce rule) =>
      match cpp_reduce_stack c rule stack with
      | Ok stack => ([CallReduce rule], Ok (stack, tk, s))
      | Err e => ([], Err e)
      | Panic => ([], Panic)
      | OutOfFuel => ([], OutOfFuel)
      end
    | Err e => ([], Err e)
    | Panic => ([], Panic)
    | OutOfFuel => ([], OutOfFuel)
    end
  end.

(** parser_impl.h.tpl 72-107, the loop of [parse]; on success the state of the token function. *)
Fixpoint pull_run {S D} (pull : token_source S D) (fuel : nat) (c : cpp_lr) (stack : list csym) (tk : N * D) (s : S) : list (visitor_call D) * res cpp_error S :=
  match fuel with
  | O => ([], OutOfFuel)
  | Datatypes.S fuel =>
    match stack with
    | [] => ([], Ok s)
    | _ =>
      let '(ev, r) := pull_act pull c stack tk s in
      match r with
      | Ok (stack, tk, s) =>
        match cpp_goto c stack with
        | Ok stack => let '(ev', r) := pull_run pull fuel c stack tk s in (ev ++ ev', r)
        | Err e => (ev, Err e)
        | Panic => (ev, Panic)
        | OutOfFuel => (ev, OutOfFuel)
        end
      | Err e => (ev, Err e)
      | Panic => (ev, Panic)
      | OutOfFuel => (ev, OutOfFuel)
      end
    end
  end.

(** parser_impl.h.tpl 62-108, [parse]. *)
Definition pull_parse {S D} (pull : token_source S D) (fuel : nat) (c : cpp_lr) (s : S) : list (visitor_call D) * res cpp_error S :=
  match pull s with
  | Some (tk, s) => pull_run pull fuel c [mkSym KindState (N.of_nat (cx_entry c))] tk s
  | None => ([], Panic)
  end.
