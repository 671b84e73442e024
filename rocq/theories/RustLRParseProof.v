(** Proofs about the code of emitted Rust LR parsers: the functions. *)
From Coq Require Import String Ascii List Arith NArith Bool Lia.
From Verif Require Import Base InputModel GrammarModel GrammarSpec GrammarBuildProof LLModel LLSpec LRModel NamesModel NamesVisitProof RustTokenSpec RustQuoteModel RustSpec RustLexTextModel RustLexTextSpec RustLexTextProof RustLexRunProof RustLRTextModel RustPullModel RustLRTextSpec RustLRTextProof.
Import ListNotations.
Local Open Scope string_scope.
Local Open Scope list_scope.

(** ** Lists with separators *)

Lemma listed_separated : forall {A T} (one : list tree -> parsed A) (x : T -> list tree) (a : T -> A) l, (forall t, x t <> []) -> (forall t, one (x t) = Some (a t, [])) -> (forall t r, one (x t ++ TPunct "," :: r) = Some (a t, TPunct "," :: r)) ->
  forall fuel, (List.length l <= fuel)%nat -> listed fuel one (separated [TPunct ","] (map x l)) = Some (map a l).
Proof.
  intros A T one x a l N E C. induction l as [|t l IH]; intros fuel L; [destruct fuel; reflexivity|]. cbn [List.length] in L. destruct fuel as [|fuel]; [lia|]. destruct l as [|u l].
  - cbn [map separated]. pose proof (N t) as Nt. pose proof (E t) as Et. destruct (x t) as [|y z]; [congruence|]. cbn [listed]. rewrite Et. reflexivity.
  - change (separated [TPunct ","] (map x (t :: u :: l))) with (x t ++ TPunct "," :: separated [TPunct ","] (map x (u :: l))). specialize (IH fuel ltac:(lia)). pose proof (C t (separated [TPunct ","] (map x (u :: l)))) as Ct.
    revert IH Ct. generalize (separated [TPunct ","] (map x (u :: l))). intros r IH Ct. pose proof (N t) as Nt. destruct (x t) as [|y z]; [congruence|]. cbn [app listed] in *. rewrite Ct, IH. reflexivity.
Qed.
Lemma separated_length : forall {T} (x : T -> list tree) l, (forall t, x t <> []) -> (List.length l <= List.length (separated [TPunct ","] (map x l)))%nat.
Proof.
  intros T x l N. induction l as [|t l IH]; [apply le_n|]. pose proof (N t) as Nt. destruct l as [|u l]; [cbn [map separated List.length]; destruct (x t); [congruence|cbn; lia]|].
  change (separated [TPunct ","] (map x (t :: u :: l))) with (x t ++ TPunct "," :: separated [TPunct ","] (map x (u :: l))). rewrite app_length. cbn [List.length] in *. lia.
Qed.
Lemma arms_separated : forall P {T} (x : T -> list tree) (pe : T -> pat * expr) l, (forall t, an_arm P (x t) (fst (pe t)) (snd (pe t))) -> (forall t fuel, parse_arms P (S fuel) (x t) = Some (ACons (fst (pe t)) (snd (pe t)) ANil)) ->
  forall fuel, (List.length l <= fuel)%nat -> parse_arms P fuel (separated [TPunct ","] (map x l)) = Some (arms_before (map pe l) ANil).
Proof.
  intros P T x pe l C E. induction l as [|t l IH]; intros fuel L; [destruct fuel; reflexivity|]. cbn [List.length] in L. destruct fuel as [|fuel]; [lia|]. destruct l as [|u l].
  - cbn [map separated arms_before]. rewrite E. destruct (pe t); reflexivity.
  - change (separated [TPunct ","] (map x (t :: u :: l))) with (x t ++ [TPunct ","] ++ separated [TPunct ","] (map x (u :: l))). rewrite app_assoc. change (x t ++ [TPunct ","]) with (comma (x t)). rewrite C, IH by lia. cbn [map arms_before]. destruct (pe t); reflexivity.
Qed.
Lemma arm_last : forall P xp xe p e, (forall rest, p_pat P (xp ++ TPunct "=>" :: rest) = Some (p, TPunct "=>" :: rest)) -> p_expr P false xe = Some (e, []) -> no_block xe = true -> forall fuel, parse_arms P (S fuel) (xp ++ TPunct "=>" :: xe) = Some (ACons p e ANil).
Proof.
  intros P xp xe p e HP HE HN fuel. specialize (HP xe). assert (B : match xe with TGroup Brace _ :: _ => true | _ => false end = false) by (destruct xe as [|[]]; try discriminate; try reflexivity; destruct d; try discriminate; reflexivity).
  destruct xp as [|t xp]; cbn [app parse_arms] in *; rewrite HP; cbv zeta; rewrite B, HE; reflexivity.
Qed.

(** ** The arms *)

Definition usize_expr (n : nat) : expr := EInt (N.of_nat n) "usize".
Definition unexpected_expr (v : exprs) : expr := ECall (EPath ["Err"]) (XCons (EStruct ["ParserError"; "UnexpectedToken"] ["got"; "expected"] (XCons (EPath ["next_token"]) (XCons (EMacro "vec" v) XNil))) XNil).
Definition expected_exprs (g : grammar) (ex : list token) : exprs := exprs_of (map (fun t => EPath ["TokenType"; token_variant g t]) ex).
Definition action_ast (g : grammar) (a : action_arm) : pat * expr :=
  match a with
  | OnToken s t ActShift => (PTuple [PLit (N.of_nat s) "usize"; PPath ["TokenType"; token_variant g t]], ECall (EPath ["Ok"]) (XCons (EPath ["Action"; "Shift"]) XNil))
  | OnToken s t (ActReduce k) =>
    (PTuple [PLit (N.of_nat s) "usize"; PPath ["TokenType"; token_variant g t]], ECall (EPath ["Ok"]) (XCons (EStruct ["Action"; "Reduce"] ["rule"] (XCons (EPath ["ReducedRule"; rule_variant k]) XNil)) XNil))
  | OnOther s ex => (PTuple [PLit (N.of_nat s) "usize"; PWild], unexpected_expr (expected_exprs g ex))
  end.
Definition symbol_pat (g : grammar) (x : symbol) : pat :=
  match x with
  | Terminal t => PFields ["StackSymbol"; "Terminal"] [("token", PPath ["TokenType"; token_variant g (Some t)])]
  | _ => PFields ["StackSymbol"; "NonTerminal"] [("non_terminal", PPath ["NonTerminalType"; non_terminal_variant g x])]
  end.
Definition goto_ast (g : grammar) (e : (nat * symbol) * lr_goto) : pat * expr :=
  let '((s, x), go) := e in
  (PTuple [PLit (N.of_nat s) "usize"; symbol_pat g x], match go with GotoState q => EStruct ["Goto"; "State"] ["state_id"] (XCons (usize_expr q) XNil) | GotoAccept => EPath ["Goto"; "Accept"] end).
Definition reduction_ast (g : grammar) (e : nat * (nat * symbol)) : pat * expr :=
  let '(k, (n, x)) := e in
  (PPath ["ReducedRule"; rule_variant k], ETuple (XCons (usize_expr n) (XCons (EStruct ["StackSymbol"; "NonTerminal"] ["non_terminal"] (XCons (EPath ["NonTerminalType"; non_terminal_variant g x]) XNil)) XNil))).
Definition visit_ast (e : nat * string) : pat * expr := (PPath ["ReducedRule"; rule_variant (fst e)], EMethod (EField (EPath ["self"]) "visitor") (snd e) XNil).

Lemma macro_step : forall P G v, parse_args (more_parsers P) G = Some v -> p_expr (more_parsers (more_parsers P)) false [TId "vec"; TPunct "!"; TGroup Bracket G] = Some (EMacro "vec" v, []).
Proof. intros P G v H. set (Q := more_parsers P) in *. assert (A : forall e, p_post Q e [] = Some (e, [])) by reflexivity. clearbody Q. cbn -[parse_args]. rewrite H, A. reflexivity. Qed.
Definition got_tokens (x : list tree) : list tree := TId "got" :: TPunct ":" :: TId "next_token" :: TPunct "," :: TId "expected" :: TPunct ":" :: x.
Lemma fields_step : forall Q t x m, p_expr Q false (t :: x) = Some (m, []) -> (forall r, p_expr Q false (TId "next_token" :: TPunct "," :: r) = Some (EPath ["next_token"], TPunct "," :: r)) ->
  listed (List.length (got_tokens (t :: x))) (parse_field Q) (got_tokens (t :: x)) = Some [("got", EPath ["next_token"]); ("expected", m)].
Proof.
  intros Q t x m M N. unfold got_tokens. cbn. rewrite N.
  assert (E : parse_field Q (TId "expected" :: TPunct ":" :: t :: x) = Some (("expected", m), [])) by (unfold parse_field; rewrite M; reflexivity). rewrite E. reflexivity.
Qed.
Lemma struct_step : forall P B v, listed (List.length B) (parse_field (more_parsers P)) B = Some v -> p_expr (more_parsers (more_parsers P)) false (path2 "ParserError" "UnexpectedToken" ++ [TGroup Brace B]) = Some (EStruct ["ParserError"; "UnexpectedToken"] (map fst v) (exprs_of (map snd v)), []).
Proof. intros P B v H. set (Q := more_parsers P) in *. assert (A : forall e, p_post Q e [] = Some (e, [])) by reflexivity. clearbody Q. cbn -[listed List.length]. rewrite H, A. reflexivity. Qed.
Lemma args_one : forall Q t A e, p_expr Q false (t :: A) = Some (e, []) -> parse_args Q (t :: A) = Some (XCons e XNil).
Proof. intros Q t A e H. unfold parse_args. cbn [List.length listed]. rewrite H. reflexivity. Qed.
Lemma call_step : forall P A v rest, parse_args (more_parsers P) A = Some v -> p_expr (more_parsers (more_parsers (more_parsers P))) false (TId "Err" :: TGroup Paren A :: TPunct "," :: rest) = Some (ECall (EPath ["Err"]) v, TPunct "," :: rest).
Proof. intros P A v rest H. set (Q := more_parsers P) in *. assert (E : forall e, p_post Q e (TPunct "," :: rest) = Some (e, TPunct "," :: rest)) by reflexivity. clearbody Q. cbn -[parse_args]. rewrite H, E. reflexivity. Qed.
Lemma unexpected_parsed : forall n G v rest, parse_args (rust_parsers (S n)) G = Some v ->
  p_expr (rust_parsers (5 + n)) false ([TId "Err"; TGroup Paren (path2 "ParserError" "UnexpectedToken" ++ [TGroup Brace (got_tokens [TId "vec"; TPunct "!"; TGroup Bracket G])])] ++ TPunct "," :: rest) = Some (unexpected_expr v, TPunct "," :: rest).
Proof.
  intros n G v rest H. apply (macro_step (rust_parsers n)) in H. apply (fields_step _ _ _ _) in H; [|reflexivity]. apply struct_step in H. cbn [map fst snd exprs_of] in H.
  cbn [path2 app] in *. apply args_one in H. exact (call_step (rust_parsers (2 + n)) _ _ rest H).
Qed.
Section Arms.
Variable g : grammar.
Lemma expected_parsed : forall n ex, parse_args (rust_parsers (3 + n)) (expected_list g ex) = Some (expected_exprs g ex).
Proof.
  intros n ex. unfold parse_args, expected_list, expected_exprs. rewrite (listed_separated _ _ (fun t => EPath ["TokenType"; token_variant g t])); try reflexivity; [discriminate|]. apply separated_length. discriminate.
Qed.
Lemma action_parsed : forall n a, an_arm (rust_parsers (10 + n)) (action_trees g a) (fst (action_ast g a)) (snd (action_ast g a)).
Proof.
  intros n [s t [|k]|s ex]; cbn [action_trees action_ast fst snd].
  - apply (arm_expr _ [TGroup Paren (usize_tree s :: TPunct "," :: path2 "TokenType" (token_variant g t))] [TId "Ok"; TGroup Paren (path2 "Action" "Shift")]); reflexivity.
  - apply (arm_expr _ [TGroup Paren (usize_tree s :: TPunct "," :: path2 "TokenType" (token_variant g t))] [TId "Ok"; TGroup Paren (path2 "Action" "Reduce" ++ [TGroup Brace (TId "rule" :: TPunct ":" :: path2 "ReducedRule" (rule_variant k))])]); reflexivity.
  - pose proof (expected_parsed (3 + n) ex) as H. revert H. generalize (expected_exprs g ex), (expected_list g ex). intros v G H.
    apply (arm_expr _ [TGroup Paren [usize_tree s; TPunct ","; TId "_"]] [TId "Err"; TGroup Paren (path2 "ParserError" "UnexpectedToken" ++ [TGroup Brace (got_tokens [TId "vec"; TPunct "!"; TGroup Bracket G])])]); [reflexivity| |reflexivity].
    intros rest. exact (unexpected_parsed (5 + n) G v rest H).
Qed.
Lemma goto_parsed : forall n e, an_arm (rust_parsers (10 + n)) (goto_trees g e) (fst (goto_ast g e)) (snd (goto_ast g e)).
Proof.
  intros n ((s, x), go). unfold goto_trees, goto_ast. cbn [fst snd].
  apply (arm_expr _ [TGroup Paren (usize_tree s :: TPunct "," :: goto_symbol g x)] (match go with GotoState q => path2 "Goto" "State" ++ [TGroup Brace [TId "state_id"; TPunct ":"; usize_tree q]] | GotoAccept => path2 "Goto" "Accept" end)).
  - intros rest. destruct x; reflexivity.
  - intros rest. destruct go; reflexivity.
  - destruct go; reflexivity.
Qed.
Lemma reduction_parsed : forall n e, an_arm (rust_parsers (10 + n)) (reduction_trees g e) (fst (reduction_ast g e)) (snd (reduction_ast g e)) /\ forall fuel, parse_arms (rust_parsers (10 + n)) (S fuel) (reduction_trees g e) = Some (ACons (fst (reduction_ast g e)) (snd (reduction_ast g e)) ANil).
Proof.
  intros n (k, (m, x)). unfold reduction_trees, reduction_ast. cbn [fst snd]. split; [apply (arm_expr _ (path2 "ReducedRule" (rule_variant k)))|apply (arm_last _ (path2 "ReducedRule" (rule_variant k)))]; reflexivity.
Qed.
Lemma visit_parsed : forall n e, an_arm (rust_parsers (10 + n)) (visit_trees e) (fst (visit_ast e)) (snd (visit_ast e)) /\ forall fuel, parse_arms (rust_parsers (10 + n)) (S fuel) (visit_trees e) = Some (ACons (fst (visit_ast e)) (snd (visit_ast e)) ANil).
Proof. intros n (k, m). unfold visit_trees, visit_ast. cbn [fst snd]. split; [apply (arm_expr _ (path2 "ReducedRule" (rule_variant k)))|apply (arm_last _ (path2 "ReducedRule" (rule_variant k)))]; reflexivity. Qed.

Definition actions_ast (p : lr_parser) : arms := arms_before (map (action_ast g) (lp_actions p)) (ACons (PTuple [PWild; PWild]) (EMacro "unreachable" XNil) ANil).
Definition gotos_ast (p : lr_parser) : arms := arms_before (map (goto_ast g) (lp_gotos p)) (ACons (PTuple [PWild; PWild]) (EMacro "unreachable" XNil) ANil).
Definition reductions_ast (p : lr_parser) : arms := arms_before (map (reduction_ast g) (enumerate (lp_reductions p))) ANil.
Definition visits_ast : arms := arms_before (map visit_ast (all_visits true g)) ANil.
Lemma actions_parsed : forall p n, p_arms (rust_parsers (11 + n)) (in_arms (map (action_trees g) (lp_actions p)) ++ unreachable_end) = Some (actions_ast p).
Proof.
  intros p n. change (parse_arms (rust_parsers (10 + n)) (List.length (in_arms (map (action_trees g) (lp_actions p)) ++ unreachable_end)) (in_arms (map (action_trees g) (lp_actions p)) ++ unreachable_end) = Some (actions_ast p)).
  apply (arms_parsed (rust_parsers (10 + n)) (action_trees g) (action_ast g) (lp_actions p)); [intros c _; apply action_parsed|reflexivity|]. rewrite <- (map_length (action_trees g)). apply in_arms_length. cbn. lia.
Qed.
Lemma gotos_parsed : forall p n, p_arms (rust_parsers (11 + n)) (in_arms (map (goto_trees g) (lp_gotos p)) ++ unreachable_end) = Some (gotos_ast p).
Proof.
  intros p n. change (parse_arms (rust_parsers (10 + n)) (List.length (in_arms (map (goto_trees g) (lp_gotos p)) ++ unreachable_end)) (in_arms (map (goto_trees g) (lp_gotos p)) ++ unreachable_end) = Some (gotos_ast p)).
  apply (arms_parsed (rust_parsers (10 + n)) (goto_trees g) (goto_ast g) (lp_gotos p)); [intros c _; apply goto_parsed|reflexivity|]. rewrite <- (map_length (goto_trees g)). apply in_arms_length. cbn. lia.
Qed.
Lemma reductions_parsed : forall p n, p_arms (rust_parsers (11 + n)) (separated [TPunct ","] (map (reduction_trees g) (enumerate (lp_reductions p)))) = Some (reductions_ast p).
Proof.
  intros p n. match goal with |- p_arms _ ?x = _ => change (parse_arms (rust_parsers (10 + n)) (List.length x) x = Some (reductions_ast p)) end.
  apply (arms_separated _ (reduction_trees g) (reduction_ast g)); [intros t; apply reduction_parsed|intros t; apply reduction_parsed|]. apply separated_length. intros (k, (m, x)). discriminate.
Qed.
Lemma visits_parsed : forall n, p_arms (rust_parsers (11 + n)) (separated [TPunct ","] (map visit_trees (all_visits true g))) = Some visits_ast.
Proof.
  intros n. match goal with |- p_arms _ ?x = _ => change (parse_arms (rust_parsers (10 + n)) (List.length x) x = Some visits_ast) end.
  apply (arms_separated _ visit_trees visit_ast); [intros t; apply visit_parsed|intros t; apply visit_parsed|]. apply separated_length. intros (k, m). discriminate.
Qed.
End Arms.

(** ** The functions *)

Definition method0 (e : expr) (m : string) : expr := EMethod e m XNil.
Definition state_arms : arms := ACons (PFields ["StackSymbol"; "State"] [("state_id", PBind "state_id")]) (EDeref (EPath ["state_id"])) (ACons PWild (EMacro "unreachable" XNil) ANil).
Definition fetch : expr := EMethod (EPath ["lookahead"]) "push_back" (XCons (ECall (EField (EPath ["self"]) "token_function") XNil) XNil).
Definition push_state (e : expr) : expr := EMethod (EPath ["stack"]) "push" (XCons (EStruct ["StackSymbol"; "State"] ["state_id"] (XCons e XNil)) XNil).
Definition shift_block : block :=
  BLet (PTuple [PBind "next_token"; PBind "next_data"]) None (method0 (method0 (EPath ["lookahead"]) "pop_front") "unwrap")
    (BStmt (EMethod (EPath ["stack"]) "push" (XCons (EStruct ["StackSymbol"; "Terminal"] ["token"] (XCons (EPath ["next_token"]) XNil)) XNil))
       (BStmt (EMethod (EField (EPath ["self"]) "visitor") "shift" (XCons (EPath ["next_token"]) (XCons (EPath ["next_data"]) XNil))) (BStmt fetch BNil))).
Definition reduce_call : block := BStmt (EMethod (EPath ["self"]) "reduce_stack_and_visit" (XCons (EPath ["reduced_rule"]) (XCons (ERef true (EPath ["stack"])) XNil))) BNil.
Definition act_match : expr := EMatch (EPath ["action"]) (ACons (PPath ["Action"; "Shift"]) (EBlock shift_block) (ACons (PFields ["Action"; "Reduce"] [("rule", PBind "reduced_rule")]) (EBlock reduce_call) ANil)).
Definition goto_match : expr :=
  EMatch (EPath ["goto"]) (ACons (PPath ["Goto"; "Accept"]) (EBlock (BStmt (method0 (EPath ["stack"]) "pop") (BStmt (method0 (EPath ["stack"]) "pop") BNil)))
    (ACons (PFields ["Goto"; "State"] [("state_id", PBind "state_id")]) (EBlock (BTail (push_state (EPath ["state_id"])))) ANil)).
Definition goto_part : block :=
  BLet (PBind "current_symbol") None (method0 (method0 (EPath ["stack"]) "last") "unwrap")
    (BLet (PBind "state") None (EMatch (ERef false (EIndex (EPath ["stack"]) (EMinus (method0 (EPath ["stack"]) "len") (EInt 2 "")))) state_arms)
       (BLet (PBind "goto") None (EMethod (EPath ["self"]) "next_goto" (XCons (EPath ["state"]) (XCons (EDeref (EPath ["current_symbol"])) XNil))) (BTail goto_match))).
Definition loop_body : block :=
  BLet (PTuple [PBind "next_token"; PWild]) None (method0 (method0 (EPath ["lookahead"]) "front") "unwrap")
    (BLet (PBind "state") None (EMatch (method0 (method0 (EPath ["stack"]) "last") "unwrap") state_arms)
       (BLet (PBind "action") None (ETry (EMethod (EPath ["self"]) "next_action" (XCons (EPath ["state"]) (XCons (EDeref (EPath ["next_token"])) XNil)))) (BStmt act_match goto_part))).
Definition parse_loop : expr := EWhile (ENot (method0 (EPath ["stack"]) "is_empty")) loop_body.
Definition parse_body (entry : nat) : block :=
  BLet (PBind "lookahead") None (ECall (EPath ["std"; "collections"; "VecDeque"; "new"]) XNil)
    (BStmt fetch (BLet (PBind "stack") None (ECall (EPath ["Vec"; "new"]) XNil) (BStmt (push_state (usize_expr entry)) (BStmt parse_loop (BTail (ECall (EPath ["Ok"]) (XCons (ETuple XNil) XNil))))))).
Definition pop_unwrap : expr := method0 (method0 (EPath ["stack"]) "pop") "unwrap".
Definition pop_loop : expr := EFor PWild (ERange false (EInt 0 "") (EPath ["to_pop"])) (BStmt pop_unwrap (BStmt pop_unwrap BNil)).
Definition push_reduced : expr := EMethod (EPath ["stack"]) "push" (XCons (EPath ["reduced"]) XNil).
Definition reduce_body (r v : arms) : block :=
  BLet (PTuple [PBind "to_pop"; PBind "reduced"]) None (EMatch (EPath ["rule"]) r) (BStmt pop_loop (BStmt push_reduced (BTail (EMatch (EPath ["rule"]) v)))).
Definition new_parser_body : block := BTail (EStruct ["Parser"] ["token_function"; "visitor"] (XCons (EPath ["token_function"]) (XCons (EPath ["visitor"]) XNil))).
Definition the_parser (g : grammar) (p : lr_parser) : parser_functions :=
  mkParserFunctions (mkFunction [("token_function", false); ("visitor", false)] new_parser_body)
    (mkFunction [("self", false); ("state", false); ("next_token", false)] (BTail (EMatch (ETuple (XCons (EPath ["state"]) (XCons (EPath ["next_token"]) XNil))) (actions_ast g p))))
    (mkFunction [("self", false); ("state", false); ("symbol", false)] (BTail (EMatch (ETuple (XCons (EPath ["state"]) (XCons (EPath ["symbol"]) XNil))) (gotos_ast g p))))
    (mkFunction [("self", true); ("rule", false); ("stack", true)] (reduce_body (reductions_ast g p) (visits_ast g)))
    (mkFunction [("self", true)] (parse_body (lp_entry p))).

Lemma pair_parsed : forall n x g v, (x = "next_token" \/ x = "symbol") -> p_arms (rust_parsers (11 + n)) g = Some v ->
  p_block (rust_parsers (12 + n)) [TId "match"; TGroup Paren [TId "state"; TPunct ","; TId x]; TGroup Brace g] = Some (BTail (EMatch (ETuple (XCons (EPath ["state"]) (XCons (EPath [x]) XNil))) v)).
Proof.
  intros n x g v X H. match goal with |- p_block _ ?l = Some ?b => change (parse_block (rust_parsers (11 + n)) 3 l = Some b) end. apply block_match with (g := g); [|exact H]. destruct X as [->| ->]; reflexivity.
Qed.
Definition reduce_tokens (a b : list tree) : list tree :=
  [TId "let"; TGroup Paren [TId "to_pop"; TPunct ","; TId "reduced"]; TPunct "="; TId "match"; TId "rule"; TGroup Brace a; TPunct ";"; TId "for"; TId "_"; TId "in"; TInt 0 ""; TPunct ".."; TId "to_pop";
   TGroup Brace [TId "stack"; TPunct "."; TId "pop"; TGroup Paren []; TPunct "."; TId "unwrap"; TGroup Paren []; TPunct ";"; TId "stack"; TPunct "."; TId "pop"; TGroup Paren []; TPunct "."; TId "unwrap"; TGroup Paren []; TPunct ";"];
   TId "stack"; TPunct "."; TId "push"; TGroup Paren [TId "reduced"]; TPunct ";"; TId "match"; TId "rule"; TGroup Brace b].
Lemma expr_match : forall P x a v rest, p_expr P true (TId x :: TGroup Brace a :: TPunct ";" :: rest) = Some (EPath [x], TGroup Brace a :: TPunct ";" :: rest) -> p_arms P a = Some v -> (forall e, p_post P e (TPunct ";" :: rest) = Some (e, TPunct ";" :: rest)) ->
  p_expr (more_parsers P) false (TId "match" :: TId x :: TGroup Brace a :: TPunct ";" :: rest) = Some (EMatch (EPath [x]) v, TPunct ";" :: rest).
Proof. intros P x a v rest A B C. cbn [p_expr more_parsers parse_expr parse_unary parse_primary blocklike existsb orb]. cbn -[p_expr]. rewrite A, B, C. reflexivity. Qed.
Lemma block_for : forall P fuel l e t r, parse_blocklike P (TId "for" :: l) = Some (e, TId t :: r) -> parse_block P (S fuel) (TId "for" :: l) = match parse_block P fuel (TId t :: r) with Some b => Some (BStmt e b) | None => None end.
Proof.
  intros P fuel l e t r A. change (match parse_blocklike P (TId "for" :: l) with
    | Some (e, r) => match r with TPunct ";" :: r => match parse_block P fuel r with Some b => Some (BStmt e b) | None => None end | [] => Some (BTail e) | TPunct _ :: _ => None | _ => match parse_block P fuel r with Some b => Some (BStmt e b) | None => None end end | None => None end = match parse_block P fuel (TId t :: r) with Some b => Some (BStmt e b) | None => None end).
  rewrite A. reflexivity.
Qed.
Lemma block_stack : forall P fuel l e r, p_expr P false (TId "stack" :: l) = Some (e, TPunct ";" :: r) -> parse_block P (S fuel) (TId "stack" :: l) = match parse_block P fuel r with Some b => Some (BStmt e b) | None => None end.
Proof.
  intros P fuel l e r A. change (match p_expr P false (TId "stack" :: l) with
    | Some (e, r) => match r with TPunct ";" :: r => match parse_block P fuel r with Some b => Some (BStmt e b) | None => None end | [] => Some (BTail e) | TPunct _ :: _ => None | _ => None end | None => None end = match parse_block P fuel r with Some b => Some (BStmt e b) | None => None end).
  rewrite A. reflexivity.
Qed.
Lemma reduce_parsed : forall n a b r v, p_arms (rust_parsers (11 + n)) a = Some r -> p_arms (rust_parsers (12 + n)) b = Some v -> p_block (rust_parsers (13 + n)) (reduce_tokens a b) = Some (reduce_body r v).
Proof.
  intros n a b r v A B. change (parse_block (rust_parsers (12 + n)) (S (S (S (S 18)))) (reduce_tokens a b) = Some (reduce_body r v)). unfold reduce_tokens.
  erewrite block_let; [|reflexivity|reflexivity|reflexivity|apply (expr_match (rust_parsers (11 + n))); [reflexivity|exact A|reflexivity]].
  erewrite block_for; [|reflexivity]. erewrite block_stack; [|reflexivity]. erewrite block_match; [|reflexivity|exact B]. reflexivity.
Qed.
Definition parser_impl : list tree -> tree -> list tree -> list tree -> list tree -> list tree -> list tree -> list tree -> list tree :=
  Eval vm_compute in fun m en a b c d e f => match impl_of "Parser" (whole_file m en a b c d e f) with Some g => g | None => [] end.
Lemma parser_impl_of : forall m en a b c d e f, impl_of "Parser" (whole_file m en a b c d e f) = Some (parser_impl m en a b c d e f). Proof. reflexivity. Qed.
Lemma the_parser_in : forall g p, parser_functions_in (parser_trees g p) (the_parser g p).
Proof.
  intros g p. unfold parser_functions_in, parser_trees, usize_tree. pose proof (actions_parsed g p) as A. pose proof (gotos_parsed g p) as B. pose proof (reductions_parsed g p) as C. pose proof (visits_parsed g) as D. revert A B C D.
  generalize (in_arms (map (action_trees g) (lp_actions p))) as a, (in_arms (map (goto_trees g) (lp_gotos p))) as b, (separated [TPunct ","] (map (reduction_trees g) (enumerate (lp_reductions p)))) as e, (separated [TPunct ","] (map visit_trees (all_visits true g))) as f.
  generalize (the_methods g) as m, (the_tokens (map rule_variant (seq 0 (List.length (g_rules g))))) as c, (the_tokens (map (non_terminal_variant g) (non_terminals g))) as d. intros m c d a b e f A B C D.
  repeat split; eexists _, _, _; (split; [apply parser_impl_of|]); (split; [reflexivity|]); (split; [reflexivity|]).
  - apply (block_from 20). reflexivity.
  - apply (block_from 12). intros n. exact (pair_parsed n _ _ _ (or_introl eq_refl) (A n)).
  - apply (block_from 12). intros n. exact (pair_parsed n _ _ _ (or_intror eq_refl) (B n)).
  - apply (block_from 13). intros n. specialize (C n). specialize (D (S n)). rewrite <- (app_nil_r e) in C. rewrite <- (app_nil_r f) in D. exact (reduce_parsed n _ _ _ _ C D).
  - apply (block_from 30). reflexivity.
Qed.
