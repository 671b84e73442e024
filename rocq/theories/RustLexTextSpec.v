(** What the code of an emitted Rust lexer is required to do. *)
From Coq Require Import String List Arith NArith Bool.
From Verif Require Import Base InputModel LexerModel TemplateModel TemplateFiles NamesModel RustTokenSpec RustSpec.
Import ListNotations.
Local Open Scope string_scope.
Local Open Scope list_scope.

(** An object of type [Lexer], and results of [next].  Variants of [TokenType] have the names of [get_token_enum_name]. *)
Definition chars_value (l : list N) : value := VVec (map VChar l).
Definition usize_value (n : N) : value := VInt n "usize".
Definition lexer_value (lx : lexer) : value :=
  VCon ["Lexer"] [("src", chars_value (lx_src lx)); ("char_iter", chars_value (lx_iter lx)); ("start", usize_value (lx_start lx)); ("position", usize_value (lx_position lx))].
Definition variant (s : string) : value := VCon ["TokenType"; s] [].
Definition token_result (t : token_type) (v : value) : Prop :=
  match t with
  | EndOfFile => v = variant "EndOfFile"
  | Tk r => exists n, get_token_enum_name (tr_name r) = Ok n /\ v = variant n
  end.
Definition range_value (r : N * N) : value := VCon ["RangeInclusive"] [("start", VInt (fst r) "u32"); ("end", VInt (snd r) "u32")].
Definition error_value (e : lexer_error) : value :=
  match e with
  | InvalidChar c => VCon ["LexerError"; "InvalidChar"] [("bad_ch", VInt c "u32")]
  | UnexpectedAlphabet r => VCon ["LexerError"; "UnexpectedAlphabet"] [("range", range_value r)]
  end.
Definition next_result (r : token_type + lexer_error) (v : value) : Prop :=
  match r with
  | inl t => exists w, token_result t w /\ v = VOk w
  | inr e => v = VErr (error_value e)
  end.

(** The functions of the [impl] of [Lexer]. *)
Record lexer_functions : Type := mkFunctions { f_new : function; f_index : function; f_range : function; f_next : function; f_span : function; f_slice : function }.
Definition functions_in (file : list tree) (F : lexer_functions) : Prop :=
  has_function file "Lexer" "new" (f_new F) /\ has_function file "Lexer" "get_alphabet_index" (f_index F) /\ has_function file "Lexer" "get_alphabet_range" (f_range F) /\
  has_function file "Lexer" "next" (f_next F) /\ has_function file "Lexer" "span" (f_span F) /\ has_function file "Lexer" "slice" (f_slice F).
(** Fields with an integer type. *)
Definition lexer_types : list (list string * string * string) :=
  [(["Lexer"], "start", "usize"); (["Lexer"], "position", "usize"); (["LexerError"; "InvalidChar"], "bad_ch", "u32")].
Definition types_declared (file : list tree) (l : list (list string * string * string)) : Prop := forall p f t, In (p, f, t) l -> field_type file p f = Some t.
(** The functions of the alphabet and [span] call nothing outside of them; [next] and [slice] call those. *)
Definition alone (types : list (list string * string * string)) : outer := mkOuter types (fun _ _ => None) (fun _ _ _ => None) (fun _ => None).
Definition result_of (r : option (list value * outcome)) : option outcome := match r with Some (_, o) => Some o | None => None end.
Definition lexer_outer (rounds : nat) (F : lexer_functions) : outer :=
  mkOuter lexer_types
    (fun p args =>
       match p with
       | ["Lexer"; "get_alphabet_index"] => result_of (run_function (alone lexer_types) rounds (f_index F) args)
       | ["Lexer"; "get_alphabet_range"] => result_of (run_function (alone lexer_types) rounds (f_range F) args)
       | _ => None
       end)
    (fun m v args =>
       match m with
       | "span" => match run_function (alone lexer_types) rounds (f_span F) (v :: args) with Some (v :: args, o) => Some (v, args, o) | _ => None end
       | _ => None
       end)
    (fun _ => None).
Definition runs_lexer (F : lexer_functions) (fn : lexer_functions -> function) (args : list value) (args' : list value) (o : outcome) : Prop :=
  eventually (fun rounds => run_function (lexer_outer rounds F) rounds (fn F) args = Some (args', o)).
(** All of it. *)
Definition lexer_does (al : alphabet) (d : dfa token_rule) (F : lexer_functions) : Prop :=
  (forall src, runs_lexer F f_new [chars_value src] [chars_value src] (Val (lexer_value (lexer_new src)))) /\
  (forall lx, match lexer_next al d lx with
              | Ok (lx', r) => exists v, next_result r v /\ runs_lexer F f_next [lexer_value lx] [lexer_value lx'] (Val v)
              | _ => exists self, runs_lexer F f_next [lexer_value lx] [self] Panics
              end) /\
  (forall lx, runs_lexer F f_span [lexer_value lx] [lexer_value lx] (Val (VCon ["Range"] [("start", usize_value (fst (lexer_span lx))); ("end", usize_value (snd (lexer_span lx)))]))) /\
  (forall lx, runs_lexer F f_slice [lexer_value lx] [lexer_value lx] (match lexer_slice lx with Ok w => Val (chars_value w) | _ => Panics end)).
(** A name of which a token can be made. *)
Definition name_char (c : N) : bool := is_letter c || is_digit c.
Definition named_node (node : astate token_rule) : Prop :=
  match node with
  | Accepting r => (forall c, In c (chars (tr_name r)) -> name_char c = true) /\ exists n, get_token_enum_name (tr_name r) = Ok n
  | Intermediate _ => True
  end.
(** Characters of names. *)
Definition spelled (s : string) : Prop := forall c, In c (chars s) -> name_char c = true.
(** Calls of [next] on one object: the object afterwards and the result of every call. *)
Inductive next_calls (F : lexer_functions) : value -> list (value * value) -> Prop :=
| calls_end : forall self, next_calls F self []
| calls_next : forall self self' v l, runs_lexer F f_next [self] [self'] (Val v) -> next_calls F self' l -> next_calls F self ((self', v) :: l).
(** A result of the Rust lexer of the model, and one of the code, whose token is a variant of the enum. *)
Definition same_call (variants : list string) (a : lexer * (token_type + lexer_error)) (b : value * value) : Prop :=
  fst b = lexer_value (fst a) /\ next_result (snd a) (snd b) /\ forall s, snd b = VOk (variant s) -> In s variants.
