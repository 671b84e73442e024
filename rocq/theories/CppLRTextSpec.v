(** Specification of the text of emitted C++ LR parsers: the values, the enumerations and structures and the functions that are called, in terms of the C++ of
    CppTextSpec.v, and which tables and names can be written. *)
From Coq Require Import String List Arith NArith ZArith Bool.
From Verif Require Import Base GrammarModel LRModel NamesModel CppLexerModel CppLRModel CppRunModel CppPullModel TemplateModel TemplateFiles CppTextSpec CppLexTextSpec.
Import ListNotations.
Local Open Scope string_scope.
Local Open Scope list_scope.

(** ** Functions *)

Definition action_head : text := chars "Action determine_action(uint32_t state, const lexer::TokenType &lookahead_token)".
Definition reduce_head : text := chars "void reduce_stack(uint32_t rule, std::vector<Symbol> &parse_stack, std::vector<Symbol> &rev_reduced_symbols)".
Definition goto_head : text := chars "Transition retrieve_next_state(uint32_t state, const Symbol &current_symbol)".
Definition visit_head : text := chars "void reduce_visitor(Visitor<T> &visitor, const std::vector<Symbol> &rev_reduced_symbols, uint32_t rule)".
Definition parse_head : text := chars "void Parser<T>::parse()".

(** The enumerations and structures; only two of the enumerations depend on the grammar. *)
Definition lr_program (tks nts : list string) (fs : list (string * (list param * stmt))) : program :=
  mkProgram [("TokenType", counted tks); ("SymbolKind", [("Terminal", 0); ("NonTerminal", 1); ("State", 2)]); ("NonTerminalType", counted nts); ("ActionType", [("Shift", 0); ("Reduce", 1)])]%Z
            [("Symbol", [("SymbolKind", "kind"); ("uint32_t", "identifier")]); ("Action", [("ActionType", "action_type"); ("uint16_t", "reduced_rule")]);
             ("Transition", [("uint32_t", "next_state"); ("bool", "is_accepting")])] fs.
(** A function of a text, with the parameters that its first line has. *)
Definition function_in (t h : text) (f : string * (list param * stmt)) : Prop := signature h = Some (fst f, fst (snd f)) /\ defines t h (snd (snd f)).

(** ** Values *)

Definition kind_value (k : sym_kind) : value := VEnum "SymbolKind" (match k with KindTerminal => 0 | KindNonTerminal => 1 | KindState => 2 end).
Definition symbol_value (s : csym) : value := VRec "Symbol" [("kind", kind_value (sy_kind s)); ("identifier", VInt U32 (Z.of_N (sy_ident s)))].
Definition stack_value (l : list csym) : value := VVec (map symbol_value l).
Definition action_value (a : lr_action) : value :=
  VRec "Action" [("action_type", VEnum "ActionType" (match a with ActShift => 0 | ActReduce _ => 1 end)); ("reduced_rule", VInt U16 (match a with ActShift => 0 | ActReduce k => Z.of_nat k end))].
Definition transition_value (t : transition) : value :=
  VRec "Transition" [("next_state", VInt U32 (if snd t then 0 else Z.of_nat (fst t))); ("is_accepting", VInt Bool (if snd t then 1 else 0))].
(** What a function of the model returns, as the end of a run; there is none for undefined behaviour. *)
Definition ending {A} (value_of : A -> option value) (r : res cpp_error A) : option result :=
  match r with
  | Ok a => Some (RReturn (value_of a))
  | Err (Throw m) => Some (RThrow m)
  | Err Terminated => Some RTerminate
  | _ => None
  end.

(** The symbols between the states on top of a stack, as a reduction moves them: the one on top first, so that it is the last one here. *)
Fixpoint popped (n : nat) (stack moved : list csym) : list csym :=
  match n, stack with
  | S n, _ :: s :: stack => popped n stack (s :: moved)
  | _, _ => moved
  end.

(** ** What is called *)

(** The names that [get_token_name] returns. *)
Definition token_word (names : list string) (z : Z) : option string := if (z <? 0)%Z then None else nth_error ("<ERR>" :: "<EOF>" :: names) (Z.to_nat z).
(** A visitor is a list of the calls of its methods, the last one first. *)
Definition visitor_value (log : list value) : value := VRec "Visitor" [("log", VVec log)].
Definition logged (v e : value) : option value :=
  match v with VRec t [(l, VVec log)] => Some (VRec t [(l, VVec (e :: log))]) | _ => None end.
Definition shift_call (tk data : value) : value := VRec "shift" [("token", tk); ("data", data)].
Definition reduce_call (m : string) : value := VStr m.
(** Functions outside the text: the one that throws, the methods of the visitor, and the function that the parser gets its tokens from; [pull] makes a token
    and a new state of a state of it. *)
Definition outside (P : program) (names : list string) (pull : value -> option (value * value)) : externals := fun st f args =>
  match f, args with
  | EName ["throw_unexpected_token_error"], [EStr expected; a] =>
    match eval P st a with
    | Some (VEnum e z) =>
      if String.eqb e "TokenType" then
        match token_word names z with
        | Some name => Some (st, RThrow ("Unexpected token '" ++ name ++ "', expected one of: " ++ expected)%string)
        | None => None
        end
      else None
    | _ => None
    end
  | EArrow EThis "token_function", [] =>
    match find_name "token_function" (members st) with
    | Some v => match pull v with Some (t, v) => Some (mkStore (locals st) (set_name "token_function" v (members st)), RReturn (Some t)) | None => None end
    | None => None
    end
  | EField (EArrow EThis "visitor") m, [a; b] =>
    if String.eqb m "shift" then
      match eval P st a, eval P st b, find_name "visitor" (members st) with
      | Some x, Some y, Some v => match logged v (shift_call x y) with Some v => Some (mkStore (locals st) (set_name "visitor" v (members st)), RReturn None) | None => None end
      | _, _, _ => None
      end
    else None
  | EField (EName ["visitor"]) m, [] =>
    match find_name "visitor" (locals st) with
    | Some v => match logged v (reduce_call m) with Some v => Some (mkStore (set_name "visitor" v (locals st)) (members st), RReturn None) | None => None end
    | None => None
    end
  | _, _ => None
  end.

(** The end of a function without a result that has no return statement. *)
Definition void_ending {A} (r : res cpp_error A) : option result :=
  match r with
  | Ok _ => Some RNext
  | Err (Throw m) => Some (RThrow m)
  | Err Terminated => Some RTerminate
  | _ => None
  end.
(** A token with its data, and what the visitor sees; a rule without a non-terminal has no method. *)
Definition pair_value (tk : N) (data : value) : value := VRec "pair" [("first", VEnum "TokenType" (Z.of_N tk)); ("second", data)].
Definition call_value {D} (data : D -> value) (visits : list (nat * option string)) (e : visitor_call D) : list value :=
  match e with
  | CallShift tk d => [shift_call (VEnum "TokenType" (Z.of_N tk)) (data d)]
  | CallReduce rule => match numbered visits (N.of_nat rule) with Some (Some m) => [reduce_call m] | _ => [] end
  end.
(** What the members of a parser are: the token function in a state, and the visitor. *)
Definition parser_members (source : value) (log : list value) : list (string * value) := [("token_function", source); ("visitor", visitor_value log)].
(** A token function, as a function of values; in a state for which [fits n] holds it can be called [n] times. *)
Definition pulls {S D} (pull : token_source S D) (fits : nat -> S -> Prop) (state : S -> value) (data : D -> value) (source : value -> option (value * value)) : Prop :=
  (forall n s, fits (Datatypes.S n) s -> fits n s) /\
  forall n s, fits (Datatypes.S n) s -> match pull s with
                                        | Some (tk, d, s') => source (state s) = Some (pair_value tk (data d), state s') /\ (tk < 2 ^ 32)%N /\ fits n s'
                                        | None => True
                                        end.

(** ** What can be written *)

(** A name that C++ reads as one. *)
Definition identifier (s : string) : Prop := plain_name s /\ s <> "" /\ word_token s = Word s.
(** What can stand between double quotes as it is. *)
Definition quotable (s : string) : Prop := forall c, In c (chars s) -> (c <> 34 /\ c <> 10 /\ c <> 92 /\ c < 128)%N.
Definition token_case (l : label) : Prop := match l with CaseTk n => identifier n | _ => False end.
Definition nt_case (l : label) : Prop := match l with CaseNt n => identifier n | _ => False end.
Definition in_word (n : nat) : Prop := (N.of_nat n < 2 ^ 32)%N.
Record writable_lr (c : cpp_lr) : Prop := {
  wl_names : Forall plain_name (cx_names c);
  wl_nts : Forall identifier (cx_nts c);
  wl_sizes : (N.of_nat (List.length (cx_names c)) + 2 <= 2 ^ 32)%N /\ (N.of_nat (List.length (cx_nts c)) <= 2 ^ 32)%N /\ in_word (cx_entry c);
  wl_actions : forall q cases ex, In (q, (cases, ex)) (cx_actions c) -> in_word q /\ quotable ex /\ forall l a, In (l, a) cases -> token_case l;
  wl_gotos : forall q ts nts, In (q, (ts, nts)) (cx_gotos c) -> in_word q /\ (forall l t, In (l, t) ts -> token_case l /\ in_word (fst t)) /\ (forall l t, In (l, t) nts -> nt_case l /\ in_word (fst t));
  wl_reductions : forall k n s, In (k, (n, s)) (cx_reductions c) -> in_word k /\ in_word n /\ identifier s
}.
(** The methods of the visitor. *)
Definition writable_visits (visits : list (nat * option string)) : Prop :=
  forall k m, In (k, m) visits -> in_word k /\ match m with Some m => exists s, m = ("reduce_" ++ s)%string /\ plain_name s | None => True end.

(** What of a grammar and its table is numbered in 32 bits. *)
Definition word_sized (g : grammar) (tb : lr_table) : Prop :=
  (N.of_nat (tb_states tb) <= 2 ^ 32)%N /\ (N.of_nat (List.length (g_rules g)) <= 2 ^ 32)%N /\ forall r, In r (g_rules g) -> in_word (List.length (r_rhs r)).

(** ** The texts of a parser *)

(** The functions that the text of a parser defines: three in parser.cpp, one in parser_impl.h. *)
Definition parser_functions (cpp impl : text) (fs : list (string * (list param * stmt))) : Prop :=
  exists fa fr fg fv, fs = [fa; fr; fg; fv] /\ function_in cpp action_head fa /\ function_in cpp reduce_head fr /\ function_in cpp goto_head fg /\ function_in impl visit_head fv.
(** The enumerations and structures of a program are those of texts. *)
Definition types_in (texts : list text) (P : program) : Prop :=
  (forall e l, In (e, l) (enums P) -> exists t base, In t texts /\ enum_in t e base l) /\ (forall s l, In (s, l) (structs P) -> exists t, In t texts /\ struct_in t s l).

(** ** Lexer and parser together *)

(** What the visitor sees of the calls of CppRunModel.v, with the places of tokens as in main.cpp 5-8 and 75. *)
Definition place_value (p : nat * nat) : value := VRec "TokenData" [("start", VInt U64 (Z.of_nat (fst p))); ("end", VInt U64 (Z.of_nat (snd p)))].
Definition seen_call (visits : list (nat * option string)) (e : cpp_call) : list value :=
  match e with
  | VShift t => [shift_call (VEnum "TokenType" (Z.of_N (ct_type t))) (place_value (ct_start t, ct_end t))]
  | VReduce rule => match numbered visits (N.of_nat rule) with Some (Some m) => [reduce_call m] | _ => [] end
  end.
(** main.cpp 73-77: the token function runs [next] on the members of a lexer, and returns the token together with the results of [start] and [end]; [fuel] bounds the
    runs. *)
Definition token_function (names : list string) (code : lexer_code) (fuel : nat) (v : value) : option (value * value) :=
  match v with
  | VRec lexer ms =>
    let run ms body := exec fuel (token_program names) (decoder (code_decode code)) (mkStore [] ms) body in
    match run ms (code_next code) with
    | Some (st, RReturn (Some tk)) =>
      match run (members st) (code_start code) with
      | Some (st, RReturn (Some a)) =>
        match run (members st) (code_end code) with
        | Some (st, RReturn (Some b)) => Some (VRec "pair" [("first", tk); ("second", VRec "TokenData" [("start", a); ("end", b)])], VRec lexer (members st))
        | _ => None
        end
      | _ => None
      end
    | _ => None
    end
  | _ => None
  end.
Definition lexer_value (lx : cpp_lexer) : value := VRec "Lexer" (members (lexer_object lx)).
(** Running [parse] for a new visitor, with the token function that runs the functions of a lexer, ends so, with these calls of the visitor, the last one first; the
    runs of those may need any number of steps. *)
Definition parser_does (P : program) (names : list string) (code : lexer_code) (parse : stmt) (lexer : value) (log : list value) (r : result) : Prop :=
  exists n, forall fuel, (n <= fuel)%nat -> exists lexer', does P (outside P names (token_function names code fuel)) (mkStore [] (parser_members lexer [])) parse (mkStore [] (parser_members lexer' log)) r.
