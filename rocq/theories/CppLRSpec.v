(** Specification for the C++ LR parser: how it should correspond to the Rust LR parser. *)
From Coq Require Import String List Arith NArith Bool.
From Verif Require Import Base InputModel GrammarModel LRModel LRSpec NamesModel NamesSpec CppLexerModel CppLRModel.
Import ListNotations.
Local Open Scope nat_scope.
Local Open Scope list_scope.

Definition token_names (rs : rule_set) : list string := map tr_name (rs_tokens rs).

(** The number C++ has for a token: 1 is the end of the file; what is not a token of the grammar is the lexer's error token 0. *)
Definition cpp_token (names : list string) (t : token) : N :=
  match t with
  | None => 1
  | Some i => if (i <? N.of_nat (length names))%N then i + 2 else 0
  end.

(** The name of a token in messages. *)
Definition token_text (names : list string) (t : token) : string :=
  match t with
  | None => "<EOF>"
  | Some i => nth (N.to_nat i) names "<ERR>"%string
  end.

Definition message (names : list string) (got : token) (expected : list token) : string :=
  ("Unexpected token '" ++ token_text names got ++ "', expected one of: " ++ String.concat ", " (map (fun t => "'" ++ token_text names t ++ "'") expected))%string.

Definition cpp_event_of (names : list string) (e : lr_event) : cpp_event :=
  match e with EShift t => CShift (cpp_token names t) | EReduce k => CReduce k end.

Definition cpp_result_of (names : list string) (r : res lr_error (list N)) : res cpp_error (list N) :=
  match r with
  | Ok rest => Ok (map (fun t => cpp_token names (Some t)) rest)
  | Err (UnexpectedTok got expected) => Err (Throw (message names got expected))
  | Panic => Panic
  | OutOfFuel => OutOfFuel
  end.

(** The C++ parser does what the Rust parser does. *)
Definition same_run (names : list string) (rust : list lr_event * res lr_error (list N)) (cpp : list cpp_event * res cpp_error (list N)) : Prop :=
  fst cpp = map (cpp_event_of names) (fst rust) /\ snd cpp = cpp_result_of names (snd rust).

(** It does so, except that the process is terminated instead of accepting. *)
Definition same_but_terminates (names : list string) (rust : list lr_event * res lr_error (list N)) (cpp : list cpp_event * res cpp_error (list N)) : Prop :=
  fst cpp = map (cpp_event_of names) (fst rust) /\
  snd cpp = match snd rust with Ok _ => Err Terminated | r => cpp_result_of names r end.

(** Some rule of the entry symbol begins with another symbol. *)
Definition entry_starts (g : grammar) : Prop :=
  exists r i m s al, In r (g_rules g) /\ r_lhs r = Some i /\ NonTerminal i = g_entry g /\ r_rhs r = repeat Epsilon m ++ s :: al /\ s <> Epsilon /\ s <> g_entry g.

(** Every reduction of the table is by one of the first 65536 rules. *)
Definition few_rules (g : grammar) (tb : lr_table) : Prop :=
  forall q t k, is_token g t -> In (Reduce (Some k)) (entries tb q (column t)) -> (N.of_nat k < 65536)%N.

(** The enumerators of tokens and of non-terminals are distinct: no two tokens have the same name, none is called ERR or EOF,
    and the names of two non-terminals differ by more than case. *)
Definition names_distinct (rs : rule_set) (g : grammar) : Prop :=
  (NoDup (token_names rs) /\ ~ In "ERR"%string (token_names rs) /\ ~ In "EOF"%string (token_names rs)) /\
  forall i j n m, In (NonTerminal i) (non_terminals g) -> In (NonTerminal j) (non_terminals g) -> named g i n -> named g j m ->
    string_map ascii_lower n = string_map ascii_lower m -> i = j.
