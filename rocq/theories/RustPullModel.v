(** Model of the parser that lapex-rust-codegen/src/lr_parser/mod.rs emits, on any function that it gets its tokens and their data from.  Definitions only. *)
From Coq Require Import List Arith NArith Bool.
From Verif Require Import Base GrammarModel LRModel.
Import ListNotations.
Local Open Scope list_scope.

(** 349-352: a token function, with its state; [None] is a panic. *)
Definition token_source (S D : Type) : Type := S -> option (token * D * S).
(** 434-436 and 457: calls of the visitor, with the data of tokens. *)
Inductive visitor_call (D : Type) : Type := CallShift (t : token) (d : D) | CallReduce (rule : nat).
Arguments CallShift {D} t d.
Arguments CallReduce {D} rule.

Section Pull.
Variables S D : Type.
Variable pull : token_source S D.

(** 447-464: action and visitor call; behind a shift the next token is fetched. *)
Definition pull_act (p : lr_parser) (stack : list stack_symbol) (tk : token) (d : D) (s : S) : list (visitor_call D) * res lr_error (list stack_symbol * (token * D * S)) :=
  match stack with
  | KState state :: _ =>
    match next_action (lp_actions p) state tk with
    | Ok ActShift =>
      match pull s with
      | Some next => ([CallShift tk d], Ok (KTerminal tk :: stack, next))
      | None => ([CallShift tk d], Panic)
      end
    | Ok (ActReduce rule) =>
      match reduce_stack p rule stack with
      | Ok stack => ([CallReduce rule], Ok (stack, (tk, d, s)))
      | Err e => ([], Err e)
      | Panic => ([], Panic)
      | OutOfFuel => ([], OutOfFuel)
      end
    | Err e => ([], Err e)
    | Panic => ([], Panic)
    | OutOfFuel => ([], OutOfFuel)
    end
  | _ => ([], Panic)
  end.
(** 446-481: the loop of [parse]; on success the state of the token function. *)
Fixpoint pull_run (fuel : nat) (p : lr_parser) (stack : list stack_symbol) (next : token * D * S) : list (visitor_call D) * res lr_error S :=
  match fuel with
  | O => ([], OutOfFuel)
  | Datatypes.S fuel =>
    match stack with
    | [] => ([], Ok (snd next))
    | _ =>
      let '(ev, r) := pull_act p stack (fst (fst next)) (snd (fst next)) (snd next) in
      match r with
      | Ok (stack, next) =>
        match lr_goto_step p stack with
        | Ok stack => let '(ev', r) := pull_run fuel p stack next in (ev ++ ev', r)
        | Err e => (ev, Err e)
        | Panic => (ev, Panic)
        | OutOfFuel => (ev, OutOfFuel)
        end
      | Err e => (ev, Err e)
      | Panic => (ev, Panic)
      | OutOfFuel => (ev, OutOfFuel)
      end
    end
  end.
(** 439-482, [parse]. *)
Definition pull_parse (fuel : nat) (p : lr_parser) (s : S) : list (visitor_call D) * res lr_error S :=
  match pull s with
  | Some next => pull_run fuel p [KState (lp_entry p)] next
  | None => ([], Panic)
  end.
End Pull.
