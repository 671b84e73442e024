(** What the code of an emitted Rust LR parser is required to do. *)
From Coq Require Import String List Arith NArith Bool.
From Verif Require Import Base InputModel GrammarModel LRModel NamesModel CppLRModel RustTokenSpec RustSpec RustLexTextSpec RustPullModel.
Import ListNotations.
Local Open Scope string_scope.
Local Open Scope list_scope.

(** ** Names *)

(** The variants of a token, a non-terminal and a rule. *)
Definition token_variant (g : grammar) (t : token) : string :=
  match t with
  | None => "EndOfFile"
  | Some i => match grammar_token_name g i with Ok n => match get_token_enum_name n with Ok s => s | _ => "" end | _ => "" end
  end.
Definition non_terminal_variant (g : grammar) (nt : symbol) : string := match get_non_terminal_enum_name g nt with Ok s => s | _ => "" end.
Definition rule_variant (k : nat) : string := "Rule" ++ decimal (N.of_nat k).
(** Tokens of the grammar, and symbols that can be on the stack. *)
Definition known (g : grammar) (t : token) : Prop := match t with Some i => In (Terminal i) (terminals g) | None => True end.
Definition known_symbol (g : grammar) (k : stack_symbol) : Prop :=
  match k with
  | KTerminal t => known g t
  | KNonTerminal i => In (NonTerminal i) (non_terminals g)
  | KState _ => True
  end.
(** Grammars whose names can be written, and whose variants differ. *)
Record usable_names (g : grammar) : Prop := {
  un_tokens : forall s n, In (s, n) (g_tokens g) -> spelled n;
  un_prods : forall s n, In (s, n) (g_prods g) -> spelled n;
  un_tags : forall r t, In r (g_rules g) -> pr_tag (r_prod r) = Some t -> spelled t;
  un_token_variants : exists vs, rust_token_variants (map snd (g_tokens g)) = Ok vs /\ NoDup vs;
  un_non_terminals : exists vs, rust_non_terminal_variants g = Ok vs /\ NoDup vs
}.
(** Tables that speak of the grammar. *)
Record fits (g : grammar) (p : lr_parser) : Prop := {
  ft_on : forall s t a, In (OnToken s t a) (lp_actions p) -> known g t /\ forall k, a = ActReduce k -> (k < List.length (g_rules g))%nat;
  ft_other : forall s ex, In (OnOther s ex) (lp_actions p) -> Forall (known g) ex;
  ft_gotos : forall s x go, In ((s, x), go) (lp_gotos p) -> In x (terminals g ++ non_terminals g) /\ match x with Terminal _ | NonTerminal _ => True | _ => False end;
  ft_reductions : List.length (lp_reductions p) = List.length (g_rules g);
  ft_symbols : forall n x, In (n, x) (lp_reductions p) -> exists i, x = NonTerminal i /\ In x (non_terminals g)
}.

(** ** Values *)

Definition token_value (g : grammar) (t : token) : value := variant (token_variant g t).
Definition symbol_value (g : grammar) (k : stack_symbol) : value :=
  match k with
  | KTerminal t => VCon ["StackSymbol"; "Terminal"] [("token", token_value g t)]
  | KNonTerminal i => VCon ["StackSymbol"; "NonTerminal"] [("non_terminal", VCon ["NonTerminalType"; non_terminal_variant g (NonTerminal i)] [])]
  | KState s => VCon ["StackSymbol"; "State"] [("state_id", usize_value (N.of_nat s))]
  end.
(** The top of the stack is the end of the vector. *)
Definition stack_value (g : grammar) (l : list stack_symbol) : value := VVec (rev (map (symbol_value g) l)).
Definition rule_value (k : nat) : value := VCon ["ReducedRule"; rule_variant k] [].
Definition action_value (a : lr_action) : value :=
  match a with
  | ActShift => VCon ["Action"; "Shift"] []
  | ActReduce k => VCon ["Action"; "Reduce"] [("rule", rule_value k)]
  end.
Definition goto_value (go : lr_goto) : value :=
  match go with
  | GotoAccept => VCon ["Goto"; "Accept"] []
  | GotoState s => VCon ["Goto"; "State"] [("state_id", usize_value (N.of_nat s))]
  end.
Definition parser_error_value (g : grammar) (e : lr_error) : value :=
  let '(UnexpectedTok t expected) := e in VCon ["ParserError"; "UnexpectedToken"] [("got", token_value g t); ("expected", VVec (map (token_value g) expected))].
(** A visitor in a state, and a parser with a token function. *)
Definition visitor_value (v : value) : value := VCon ["Visitor"] [("state", v)].
Definition parser_value (source v : value) : value := VCon ["Parser"] [("token_function", source); ("visitor", visitor_value v)].

(** ** Functions *)

Record parser_functions : Type := mkParserFunctions { f_new_parser : function; f_action : function; f_goto : function; f_reduce : function; f_parse : function }.
Definition parser_functions_in (file : list tree) (F : parser_functions) : Prop :=
  has_function file "Parser" "new" (f_new_parser F) /\ has_function file "Parser" "next_action" (f_action F) /\ has_function file "Parser" "next_goto" (f_goto F) /\
  has_function file "Parser" "reduce_stack_and_visit" (f_reduce F) /\ has_function file "Parser" "parse" (f_parse F).
(** Fields with an integer type. *)
Definition parser_types : list (list string * string * string) := [(["StackSymbol"; "State"], "state_id", "usize"); (["Goto"; "State"], "state_id", "usize")].
(** A visitor is any value and what its methods make of it; they return. *)
Definition visits_type : Type := value -> string -> list value -> value.
Definition visiting (visit : visits_type) (m : string) (v : value) (args : list value) : option (value * list value * outcome) :=
  match v with
  | VCon ["Visitor"] [("state", s)] => Some (visitor_value (visit s m args), args, Val VUnit)
  | _ => None
  end.
Definition visitor_outer (visit : visits_type) : outer := mkOuter parser_types (fun _ _ => None) (visiting visit) (fun _ => None).
(** [parse] calls the other functions of the parser, and the token function. *)
Definition parser_outer (rounds : nat) (visit : visits_type) (source : value -> option (value * outcome)) (F : parser_functions) : outer :=
  mkOuter parser_types (fun _ _ => None)
    (fun m v args =>
       match v with
       | VCon ["Parser"] _ =>
         let run fn := match run_function (visitor_outer visit) rounds fn (v :: args) with Some (v :: args, o) => Some (v, args, o) | _ => None end in
         match m with
         | "next_action" => run (f_action F)
         | "next_goto" => run (f_goto F)
         | "reduce_stack_and_visit" => run (f_reduce F)
         | _ => None
         end
       | _ => visiting visit m v args
       end)
    source.
(** The methods of the visitor: for every rule its method, in the order of the calls. *)
Definition rule_method (visits : list (nat * string)) (k : nat) : string := match find (fun e => Nat.eqb (fst e) k) visits with Some (_, m) => m | None => "" end.
Definition visited {D} (g : grammar) (visits : list (nat * string)) (data : D -> value) (visit : visits_type) (v : value) (c : visitor_call D) : value :=
  match c with
  | CallShift t d => visit v "shift" [token_value g t; data d]
  | CallReduce k => visit v (rule_method visits k) []
  end.
(** The declarations of a trait. *)
Fixpoint signatures (l : list tree) : option (list (string * list (string * bool))) :=
  match l with
  | [] => Some []
  | TPunct "#" :: TGroup Bracket _ :: r => signatures r
  | TId "fn" :: TId m :: TGroup Paren ps :: TPunct ";" :: r => get ps <- parameters (List.length ps) ps; get l <- signatures r; Some ((m, ps) :: l)
  | _ => None
  end.
Definition trait_of (name : string) (file : list tree) : option (list (string * list (string * bool))) := get g <- item_of "trait" name file; signatures g.

(** ** What they do *)

(** A token function, as a function of values. *)
Definition pulls {S D} (g : grammar) (pull : token_source S D) (state : S -> value) (data : D -> value) (source : value -> option (value * outcome)) : Prop :=
  forall s, match pull s with
            | Some (t, d, s') => known g t /\ source (state s) = Some (state s', Val (VTuple [token_value g t; data d]))
            | None => exists v, source (state s) = Some (v, Panics)
            end.
(** The functions behind [parse], and [parse] itself, for any number of rounds of its loop. *)
Record parser_does (g : grammar) (p : lr_parser) (visits : list (nat * string)) (F : parser_functions) : Prop := {
  pd_new : forall visit rounds source v, run_function (visitor_outer visit) rounds (f_new_parser F) [source; visitor_value v] = Some ([source; visitor_value v], Val (parser_value source v));
  pd_action : forall visit rounds self state t, known g t ->
    run_function (visitor_outer visit) rounds (f_action F) [self; usize_value (N.of_nat state); token_value g t] =
    Some ([self; usize_value (N.of_nat state); token_value g t],
          match next_action (lp_actions p) state t with Ok a => Val (VOk (action_value a)) | Err e => Val (VErr (parser_error_value g e)) | _ => Panics end);
  pd_goto : forall visit rounds self state k, known_symbol g k ->
    run_function (visitor_outer visit) rounds (f_goto F) [self; usize_value (N.of_nat state); symbol_value g k] =
    Some ([self; usize_value (N.of_nat state); symbol_value g k], match next_goto (lp_gotos p) state k with Ok go => Val (goto_value go) | _ => Panics end);
  pd_reduce : forall visit rounds source v rule stack, (rule < List.length (g_rules g))%nat ->
    match reduce_stack p rule stack with
    | Ok stack' => run_function (visitor_outer visit) rounds (f_reduce F) [parser_value source v; rule_value rule; stack_value g stack] =
        Some ([parser_value source (visit v (rule_method visits rule) []); rule_value rule; stack_value g stack'], Val VUnit)
    | _ => exists l, run_function (visitor_outer visit) rounds (f_reduce F) [parser_value source v; rule_value rule; stack_value g stack] = Some ([parser_value source v; rule_value rule; l], Panics)
    end;
  pd_parse : forall S D (pull : token_source S D) state data source visit rounds s v, pulls g pull state data source ->
    let run := run_function (parser_outer rounds visit source F) rounds (f_parse F) [parser_value (state s) v] in
    let '(calls, r) := pull_parse S D pull rounds p s in
    let v' := fold_left (visited g visits data visit) calls v in
    match r with
    | Ok s' => run = Some ([parser_value (state s') v'], Val (VOk VUnit))
    | Err e => exists source', run = Some ([parser_value source' v'], Val (VErr (parser_error_value g e)))
    | Panic => exists source', run = Some ([parser_value source' v'], Panics)
    | OutOfFuel => run = None
    end
}.
