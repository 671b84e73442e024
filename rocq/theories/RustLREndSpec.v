(** What the code of an emitted Rust lexer and of an emitted Rust LR parser are required to do together. *)
From Coq Require Import String List Arith NArith Bool.
From Verif Require Import Base InputModel LexerModel GrammarModel LRModel RustSpec RustLexTextSpec RustPullModel.
Import ListNotations.
Local Open Scope string_scope.
Local Open Scope list_scope.

(** A token function that calls [next] of the lexer, unwraps the result, and adds data, which may depend on the lexer. *)
Definition token_function (F : lexer_functions) (data : value -> value) (source : value -> option (value * outcome)) : Prop :=
  forall lx self o, runs_lexer F f_next [lexer_value lx] [self] o ->
    source (lexer_value lx) = Some (self, match o with Val (VCon ["Ok"] [("0", t)]) => Val (VTuple [t; data self]) | _ => Panics end).
(** A call of the visitor without the data. *)
Definition event_of {D} (c : visitor_call D) : lr_event := match c with CallShift t _ => EShift t | CallReduce k => EReduce k end.
(** One such function: it runs [next], with as many rounds of its loop as there are characters. *)
Definition calling_next (F : lexer_functions) (data : value -> value) (self : value) : option (value * outcome) :=
  let rounds := match self with VCon _ [_; (_, VVec l); _; _] => S (List.length l) | _ => O end in
  match run_function (lexer_outer rounds F) rounds (f_next F) [self] with
  | Some ([self'], o) => Some (self', match o with Val (VCon ["Ok"] [("0", t)]) => Val (VTuple [t; data self']) | _ => Panics end)
  | _ => None
  end.
