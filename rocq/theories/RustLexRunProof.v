(** Proofs about the functions of emitted Rust lexers: parsing and running them. *)
From Coq Require Import String Ascii List Arith NArith Bool Lia.
From Verif Require Import Base InputModel LexerModel TemplateModel TemplateFiles GrammarModel LRModel NamesModel RustTokenSpec RustQuoteModel RustSpec RustLexTextModel RustLexTextSpec RustLexTextProof.
Import ListNotations.
Local Open Scope string_scope.
Local Open Scope list_scope.

(** The functions. *)
Definition index_lexed (al : alphabet) : arms := arms_before (map index_arm (enumerate al)) (ACons PWild (EPath ["None"]) ANil).
Definition reverse_lexed (al : alphabet) : arms := arms_before (map reverse_arm (enumerate al)) (ACons PWild (EPath ["None"]) ANil).
Definition automaton_lexed (d : dfa token_rule) : arms := arms_before (map case_arm (automaton_cases d)) (ACons (PTuple [PWild; PWild]) (EMacro "unreachable" XNil) ANil).
Definition wild_end : list tree := [TId "_"; TPunct "=>"; TId "None"].
Definition unreachable_end : list tree := [TGroup Paren [TId "_"; TPunct ","; TId "_"]; TPunct "=>"; TId "unreachable"; TPunct "!"; TGroup Paren []].
Lemma enumerate_length : forall {A} (l : list A), List.length (enumerate l) = List.length l.
Proof. intros A l. unfold enumerate. generalize 0%nat. induction l as [|a l IH]; intros i; [reflexivity|]. cbn. rewrite IH. reflexivity. Qed.
Lemma index_parsed : forall al n, p_arms (rust_parsers (11 + n)) (in_arms (index_lists al) ++ wild_end) = Some (index_lexed al).
Proof.
  intros al n. change (parse_arms (rust_parsers (10 + n)) (List.length (in_arms (index_lists al) ++ wild_end)) (in_arms (index_lists al) ++ wild_end) = Some (index_lexed al)).
  apply (arms_parsed (rust_parsers (10 + n)) (fun ir => index_tokens (fst ir) (snd ir)) index_arm (enumerate al)); [intros ir _; apply index_arm_parsed|reflexivity|]. rewrite <- (map_length (fun ir => index_tokens (fst ir) (snd ir))). apply in_arms_length. cbn. lia.
Qed.
Lemma reverse_parsed : forall al n, p_arms (rust_parsers (11 + n)) (in_arms (reverse_lists al) ++ wild_end) = Some (reverse_lexed al).
Proof.
  intros al n. change (parse_arms (rust_parsers (10 + n)) (List.length (in_arms (reverse_lists al) ++ wild_end)) (in_arms (reverse_lists al) ++ wild_end) = Some (reverse_lexed al)).
  apply (arms_parsed (rust_parsers (10 + n)) (fun ir => reverse_tokens (fst ir) (snd ir)) reverse_arm (enumerate al)); [intros ir _; apply reverse_arm_parsed|reflexivity|]. rewrite <- (map_length (fun ir => reverse_tokens (fst ir) (snd ir))). apply in_arms_length. cbn. lia.
Qed.
Lemma automaton_parsed : forall d n, p_arms (rust_parsers (17 + n)) (in_arms (map case_tokens (automaton_cases d)) ++ unreachable_end) = Some (automaton_lexed d).
Proof.
  intros d n. change (parse_arms (rust_parsers (16 + n)) (List.length (in_arms (map case_tokens (automaton_cases d)) ++ unreachable_end)) (in_arms (map case_tokens (automaton_cases d)) ++ unreachable_end) = Some (automaton_lexed d)).
  apply (arms_parsed (rust_parsers (16 + n)) case_tokens case_arm (automaton_cases d)); [intros c _; apply case_arm_parsed|reflexivity|]. rewrite <- (map_length case_tokens). apply in_arms_length. cbn. lia.
Qed.
Lemma block_let : forall P fuel r p r1 ty r0 e r2, p_pat P r = Some (p, r1) -> match r1 with TPunct ":" :: TId t :: TPunct "=" :: _ => Some t | _ => None end = ty ->
  match r1 with TPunct ":" :: r => skip_type r | _ => r1 end = TPunct "=" :: r0 -> p_expr P false r0 = Some (e, TPunct ";" :: r2) ->
  parse_block P (S fuel) (TId "let" :: r) = match parse_block P fuel r2 with Some b => Some (BLet p ty e b) | None => None end.
Proof. intros P fuel r p r1 ty r0 e r2 A B C D. cbn [parse_block]. rewrite A. cbv zeta. rewrite B, C, D. reflexivity. Qed.
Lemma block_match : forall P fuel l e g v, p_expr P true l = Some (e, [TGroup Brace g]) -> p_arms P g = Some v -> parse_block P (S fuel) (TId "match" :: l) = Some (BTail (EMatch e v)).
Proof.
  intros P fuel l e g v A B. change (match match p_expr P true l with Some (e, r) => match r with TGroup Brace g :: r => match p_arms P g with Some v => Some (EMatch e v, r) | None => None end | _ => None end | None => None end with
    | Some (e, r) => match r with TPunct ";" :: r => match parse_block P fuel r with Some b => Some (BStmt e b) | None => None end | [] => Some (BTail e) | TPunct _ :: _ => None | _ => match parse_block P fuel r with Some b => Some (BStmt e b) | None => None end end | None => None end = Some (BTail (EMatch e v))).
  rewrite A, B. reflexivity.
Qed.
Lemma block_loop : forall P fuel g b, p_block P g = Some b -> parse_block P (S fuel) [TId "loop"; TGroup Brace g] = Some (BTail (ELoop b)).
Proof.
  intros P fuel g b A. change (match match p_block P g with Some b => Some (ELoop b, []) | None => None end with
    | Some (e, r) => match r with TPunct ";" :: r => match parse_block P fuel r with Some b => Some (BStmt e b) | None => None end | [] => Some (BTail e) | TPunct _ :: _ => None | _ => match parse_block P fuel r with Some b => Some (BStmt e b) | None => None end end | None => None end = Some (BTail (ELoop b))).
  rewrite A. reflexivity.
Qed.
Lemma block_self : forall P fuel l e r, p_expr P false (TId "self" :: l) = Some (e, TPunct ";" :: r) -> parse_block P (S fuel) (TId "self" :: l) = match parse_block P fuel r with Some b => Some (BStmt e b) | None => None end.
Proof.
  intros P fuel l e r A. change (match p_expr P false (TId "self" :: l) with
    | Some (e, r) => match r with TPunct ";" :: r => match parse_block P fuel r with Some b => Some (BStmt e b) | None => None end | [] => Some (BTail e) | TPunct _ :: _ => None | _ => None end | None => None end = match parse_block P fuel r with Some b => Some (BStmt e b) | None => None end).
  rewrite A. reflexivity.
Qed.
Lemma match_parsed : forall n g v, p_arms (rust_parsers (11 + n)) g = Some v -> p_block (rust_parsers (12 + n)) [TId "match"; TId "c"; TGroup Brace g] = Some (BTail (EMatch (EPath ["c"]) v)).
Proof.
  intros n g v H. change (parse_block (rust_parsers (11 + n)) 3 [TId "match"; TId "c"; TGroup Brace g] = Some (BTail (EMatch (EPath ["c"]) v))). apply block_match with (g := g); [reflexivity|exact H].
Qed.
Definition next_loop (v : arms) : block :=
  BLet (PBind "next_ch") None (EMethod (EMethod (EMethod (EMethod (EField (EPath ["self"]) "char_iter") "peek" XNil) "copied" XNil) "map" (XCons (EClosure "c" (ECast (EPath ["c"]) "u32")) XNil)) "unwrap_or" (XCons (EInt 0 "") XNil))
    (BLet (PBind "symbol") None
       (EIfLet (PCon ["Some"] [PBind "symbol"]) (ECall (EPath ["Lexer"; "get_alphabet_index"]) (XCons (EPath ["next_ch"]) XNil)) (BTail (EPath ["symbol"]))
          (BStmt (EReturn (ECall (EPath ["Err"]) (XCons (EStruct ["LexerError"; "InvalidChar"] ["bad_ch"] (XCons (EPath ["next_ch"]) XNil)) XNil))) BNil))
       (BTail (EMatch (ETuple (XCons (EPath ["state"]) (XCons (EPath ["symbol"]) XNil))) v))).
Definition next_body (v : arms) : block :=
  BLet (PBind "state") (Some "usize") (EInt 0 "") (BStmt (EAssign (EField (EPath ["self"]) "start") (EField (EPath ["self"]) "position")) (BTail (ELoop (next_loop v)))).
Definition peek_tokens : list tree :=
  [TId "self"; TPunct "."; TId "char_iter"; TPunct "."; TId "peek"; TGroup Paren []; TPunct "."; TId "copied"; TGroup Paren []; TPunct "."; TId "map"; TGroup Paren [TPunct "|"; TId "c"; TPunct "|"; TId "c"; TId "as"; TId "u32"]; TPunct "."; TId "unwrap_or"; TGroup Paren [TInt 0 ""]].
Definition symbol_tokens : list tree :=
  [TId "if"; TId "let"; TId "Some"; TGroup Paren [TId "symbol"]; TPunct "="; TId "Lexer"; TPunct "::"; TId "get_alphabet_index"; TGroup Paren [TId "next_ch"]; TGroup Brace [TId "symbol"]; TId "else";
   TGroup Brace [TId "return"; TId "Err"; TGroup Paren [TId "LexerError"; TPunct "::"; TId "InvalidChar"; TGroup Brace [TId "bad_ch"; TPunct ":"; TId "next_ch"]]; TPunct ";"]].
Definition loop_tokens (g : list tree) : list tree :=
  TId "let" :: TId "next_ch" :: TPunct "=" :: peek_tokens ++ TPunct ";" :: TId "let" :: TId "symbol" :: TPunct "=" :: symbol_tokens ++ TPunct ";" :: [TId "match"; TGroup Paren [TId "state"; TPunct ","; TId "symbol"]; TGroup Brace g].
Definition next_tokens (g : list tree) : list tree :=
  [TId "let"; TId "mut"; TId "state"; TPunct ":"; TId "usize"; TPunct "="; TInt 0 ""; TPunct ";"; TId "self"; TPunct "."; TId "start"; TPunct "="; TId "self"; TPunct "."; TId "position"; TPunct ";"; TId "loop"; TGroup Brace (loop_tokens g)].
Lemma loop_parsed : forall n g v, p_arms (rust_parsers (17 + n)) g = Some v -> p_block (rust_parsers (18 + n)) (loop_tokens g) = Some (next_loop v).
Proof.
  intros n g v H. change (parse_block (rust_parsers (17 + n)) (3 + (List.length (loop_tokens g) - 3)) (loop_tokens g) = Some (next_loop v)). generalize (List.length (loop_tokens g) - 3)%nat. intros fuel. cbn [Nat.add]. unfold loop_tokens.
  erewrite block_let; [|reflexivity|reflexivity|reflexivity|reflexivity]. erewrite block_let; [|reflexivity|reflexivity|reflexivity|reflexivity]. erewrite block_match; [|reflexivity|exact H]. reflexivity.
Qed.
Lemma next_parsed : forall n g v, p_arms (rust_parsers (17 + n)) g = Some v -> p_block (rust_parsers (19 + n)) (next_tokens g) = Some (next_body v).
Proof.
  intros n g v H. change (parse_block (rust_parsers (18 + n)) (3 + (List.length (next_tokens g) - 3)) (next_tokens g) = Some (next_body v)). generalize (List.length (next_tokens g) - 3)%nat. intros fuel. cbn [Nat.add]. unfold next_tokens.
  pose proof (loop_parsed n g v H) as L. revert L. generalize (loop_tokens g). intros t L.
  erewrite block_let; [|reflexivity|reflexivity|reflexivity|reflexivity]. erewrite block_self; [|reflexivity]. rewrite (block_loop _ _ _ _ L). reflexivity.
Qed.
Definition new_body : block :=
  BLet (PBind "char_iter") None (EMethod (EMethod (EPath ["src"]) "chars" XNil) "peekable" XNil) (BTail (EStruct ["Lexer"] ["src"; "char_iter"; "start"; "position"] (XCons (EPath ["src"]) (XCons (EPath ["char_iter"]) (XCons (EInt 0 "") (XCons (EInt 0 "") XNil)))))).
Definition span_body : block := BTail (ERange false (EField (EPath ["self"]) "start") (EField (EPath ["self"]) "position")).
Definition slice_body : block := BTail (ERef false (EIndex (EField (EPath ["self"]) "src") (EMethod (EPath ["self"]) "span" XNil))).
Definition the_functions (al : alphabet) (d : dfa token_rule) : lexer_functions :=
  mkFunctions (mkFunction [("src", false)] new_body) (mkFunction [("c", false)] (BTail (EMatch (EPath ["c"]) (index_lexed al)))) (mkFunction [("c", false)] (BTail (EMatch (EPath ["c"]) (reverse_lexed al))))
    (mkFunction [("self", true)] (next_body (automaton_lexed d))) (mkFunction [("self", false)] span_body) (mkFunction [("self", false)] slice_body).
Definition the_impl : list tree -> list tree -> list tree -> list tree := Eval vm_compute in fun a b c => match impl_of "Lexer" (lexer_file a b c) with Some g => g | None => [] end.
Lemma the_impl_of : forall a b c, impl_of "Lexer" (lexer_file a b c) = Some (the_impl a b c). Proof. reflexivity. Qed.
Lemma block_from : forall k g b, (forall n, p_block (rust_parsers (k + n)) g = Some b) -> is_block g b.
Proof. intros k g b H. exists k. intros m L. replace m with (k + (m - k))%nat by lia. apply H. Qed.
Lemma the_functions_in : forall al d, functions_in (lexer_tokens al d) (the_functions al d).
Proof.
  intros al d. unfold functions_in, lexer_tokens. pose proof (index_parsed al) as A. pose proof (reverse_parsed al) as B. pose proof (automaton_parsed d) as C. revert A B C.
  generalize (in_arms (index_lists al)) as a, (in_arms (reverse_lists al)) as b, (in_arms (map case_tokens (automaton_cases d))) as c. intros a b c A B C.
  repeat split; eexists _, _, _; (split; [apply the_impl_of|]); (split; [reflexivity|]); (split; [reflexivity|]).
  - apply (block_from 20). reflexivity.
  - apply (block_from 12). intros n. exact (match_parsed n _ _ (A n)).
  - apply (block_from 12). intros n. exact (match_parsed n _ _ (B n)).
  - apply (block_from 19). intros n. exact (next_parsed n _ _ (C n)).
  - apply (block_from 20). reflexivity.
  - apply (block_from 20). reflexivity.
Qed.
Lemma the_types : forall al d, types_declared (lexer_tokens al d) lexer_types.
Proof. intros al d p f t [X|[X|[X|[]]]]; inversion X; subst; reflexivity. Qed.

(** ** Running *)

Lemma leave_same : forall st, leave st st = st. Proof. intros st. unfold leave. rewrite Nat.sub_diag. reflexivity. Qed.
Section Running.
Variable call : list string -> list value -> option outcome.
Variable method : string -> value -> list value -> option (value * list value * outcome).
Variable rounds : nat.
Let O : outer := mkOuter lexer_types call method (fun _ => None).

Lemma run_new : forall src, run_function O rounds (mkFunction [("src", false)] new_body) [chars_value src] = Some ([chars_value src], Val (lexer_value (lexer_new src))).
Proof. reflexivity. Qed.
Lemma run_span : forall lx, run_function O rounds (mkFunction [("self", false)] span_body) [lexer_value lx] = Some ([lexer_value lx], Val (VCon ["Range"] [("start", usize_value (lx_start lx)); ("end", usize_value (lx_position lx))])).
Proof. reflexivity. Qed.
Lemma arms_step : forall p e l v st, eval_arms O rounds (ACons p e l) v st = match matches p v with Some (Some vars) => scoped vars st (eval O rounds e) | Some None => eval_arms O rounds l v st | None => None end.
Proof. reflexivity. Qed.
Lemma matches_lit : forall n s m t u, join s t = Some u -> matches (PLit n s) (VInt m t) = Some (if (n =? m)%N then Some [] else None).
Proof. intros n s m t u H. cbn [matches]. rewrite H. reflexivity. Qed.
Lemma matches_between : forall a b s m t u, join s t = Some u -> matches (PBetween a b s) (VInt m t) = Some (if ((a <=? m) && (m <=? b))%N then Some [] else None).
Proof. intros a b s m t u H. cbn [matches]. rewrite H. reflexivity. Qed.
Lemma scoped_none : forall st k o, k st = Some (st, o) -> scoped [] st k = Some (st, o).
Proof. intros st k o H. unfold scoped. cbn [app]. rewrite H, leave_same. reflexivity. Qed.
Lemma eval_none : forall st, look "None" st = None -> eval O rounds (EPath ["None"]) st = Some (st, Val VNone).
Proof. intros st L. change (match look "None" st with Some v => Some (st, Val v) | None => Some (st, Val VNone) end = Some (st, Val VNone)). rewrite L. reflexivity. Qed.
Lemma index_run : forall al k c ty st, join "u32" ty = Some "u32" -> look "None" st = None ->
  eval_arms O rounds (arms_before (map index_arm (enumerate_from k al)) (ACons PWild (EPath ["None"]) ANil)) (VInt c ty) st =
  Some (st, Val (option_value (option_map (fun i => VInt (N.of_nat (k + i)) "usize") (get_alphabet_index al c)))).
Proof.
  intros al k c ty st J L. revert k. induction al as [|(a, b) al IH]; intros k.
  - cbn [enumerate_from map arms_before]. rewrite arms_step. cbn [matches]. apply scoped_none. exact (eval_none st L).
  - cbn [enumerate_from map arms_before]. unfold index_arm at 1. cbn [fst snd]. rewrite arms_step.
    assert (E : matches (if (a =? b)%N then PLit a "u32" else PBetween a b "u32") (VInt c ty) = Some (if ((a <=? c) && (c <=? b))%N then Some [] else None)).
    { destruct (N.eqb_spec a b) as [->|D]; [rewrite (matches_lit _ _ _ _ _ J)|apply (matches_between _ _ _ _ _ _ J)]. destruct (N.eqb_spec b c) as [->|D]; [rewrite N.leb_refl; reflexivity|].
      destruct (N.leb_spec b c), (N.leb_spec c b); try reflexivity. lia. }
    rewrite E. unfold get_alphabet_index. cbn [find_index fst snd]. destruct ((a <=? c) && (c <=? b))%N.
    + cbn [option_map option_value]. rewrite Nat.add_0_r. apply scoped_none. reflexivity.
    + rewrite IH. unfold get_alphabet_index. destruct (find_index _ al) as [i|]; cbn [option_map]; [|reflexivity]. rewrite Nat.add_succ_r. reflexivity.
Qed.
Lemma reverse_run : forall al k i st, look "None" st = None -> eval_arms O rounds (arms_before (map reverse_arm (enumerate_from k al)) (ACons PWild (EPath ["None"]) ANil)) (VInt (N.of_nat (k + i)) "usize") st =
  Some (st, Val (option_value (option_map range_value (get_alphabet_range al i)))).
Proof.
  intros al k i st L. revert k i. induction al as [|(a, b) al IH]; intros k i.
  - cbn [enumerate_from map arms_before]. rewrite arms_step. cbn [matches]. destruct i; apply scoped_none; exact (eval_none st L).
  - cbn [enumerate_from map arms_before]. unfold reverse_arm at 1. cbn [fst snd]. rewrite arms_step, (matches_lit _ "usize" _ "usize" "usize" eq_refl). destruct i as [|i].
    + rewrite Nat.add_0_r, N.eqb_refl. apply scoped_none. reflexivity.
    + destruct (N.eqb_spec (N.of_nat k) (N.of_nat (k + S i))) as [X|_]; [apply Nnat.Nat2N.inj in X; lia|]. replace (k + S i)%nat with (S k + i)%nat by lia. rewrite IH. reflexivity.
Qed.
Lemma run_index : forall al c ty, join "u32" ty = Some "u32" -> run_function O rounds (mkFunction [("c", false)] (BTail (EMatch (EPath ["c"]) (index_lexed al)))) [VInt c ty] =
  Some ([VInt c ty], Val (option_value (option_map (fun i => usize_value (N.of_nat i)) (get_alphabet_index al c)))).
Proof.
  intros al c ty J. unfold run_function. cbn [List.length fn_parameters Nat.eqb map fst combine fn_body].
  assert (E : eval_block O rounds (BTail (EMatch (EPath ["c"]) (index_lexed al))) [("c", VInt c ty)] = eval_arms O rounds (index_lexed al) (VInt c ty) [("c", VInt c ty)]) by reflexivity.
  rewrite (scoped_none _ _ (Val (option_value (option_map (fun i => usize_value (N.of_nat i)) (get_alphabet_index al c))))); [reflexivity|]. rewrite E. apply (index_run al 0 c ty); [exact J|reflexivity].
Qed.
Lemma run_range : forall al i, run_function O rounds (mkFunction [("c", false)] (BTail (EMatch (EPath ["c"]) (reverse_lexed al)))) [usize_value (N.of_nat i)] =
  Some ([usize_value (N.of_nat i)], Val (option_value (option_map range_value (get_alphabet_range al i)))).
Proof.
  intros al i. unfold run_function. cbn [List.length fn_parameters Nat.eqb map fst combine fn_body].
  assert (E : forall v, eval_block O rounds (BTail (EMatch (EPath ["c"]) (reverse_lexed al))) [("c", v)] = eval_arms O rounds (reverse_lexed al) v [("c", v)]) by reflexivity.
  rewrite (scoped_none _ _ (Val (option_value (option_map range_value (get_alphabet_range al i))))); [reflexivity|]. rewrite E. apply (reverse_run al 0 i). reflexivity.
Qed.

(** [next]. *)
Definition good_case (c : lex_case) : Prop := match c with (_, t, ActEof) => t = Some 0%nat | (_, t, ActUnexpected) => t = None | _ => True end.
Lemma automaton_good : forall d c, In c (automaton_cases d) -> good_case c.
Proof.
  intros d c. unfold automaton_cases. generalize 0%nat. induction (dfa_nodes d) as [|node l IH]; intros j H; [destruct H|]. cbn [automaton_cases_from] in H. apply in_app_or in H. destruct H as [H|H]; [|exact (IH _ H)].
  unfold state_cases in H. apply in_app_or in H. destruct H as [H|H]; [destruct (Nat.eqb j 0); [destruct H as [<-|[]]; reflexivity|destruct H]|]. apply in_app_or in H. destruct H as [H|H].
  - apply in_flat_map in H. destruct H as ((t, v) & _ & H). destruct (Nat.eqb t 0); [destruct H|destruct H as [<-|[]]; exact I].
  - destruct node; destruct H as [<-|[]]; reflexivity.
Qed.
Definition bound (a : lex_action) (symbol : nat) : store := match a with ActUnexpected => [("transition", usize_value (N.of_nat symbol))] | _ => [] end.
Lemma usize_same : forall a b, (N.of_nat a =? N.of_nat b)%N = Nat.eqb a b.
Proof. intros a b. destruct (Nat.eqb_spec a b) as [->|D]; [apply N.eqb_refl|]. apply N.eqb_neq. intros X. apply Nnat.Nat2N.inj in X. contradiction. Qed.
Lemma pair_matches : forall p q v w a b, matches p v = Some a -> matches q w = Some b -> matches (PTuple [p; q]) (VTuple [v; w]) = Some (match a, b with Some a, Some b => Some (a ++ b) | _, _ => None end).
Proof. intros p q v w a b A B. cbn [matches]. rewrite A, B. destruct a as [a|], b as [b|]; try reflexivity. rewrite app_nil_r. reflexivity. Qed.
Lemma case_matches : forall c state symbol, good_case c -> matches (case_pat c) (VTuple [usize_value (N.of_nat state); usize_value (N.of_nat symbol)]) =
  Some (if (let '(s, t, _) := c in Nat.eqb s state && match t with Some t => Nat.eqb t symbol | None => true end) then Some (bound (snd c) symbol) else None).
Proof.
  intros ((s, t), a) state symbol H. cbn [snd]. unfold case_pat.
  rewrite (pair_matches _ _ _ _ _ (if match t with Some t => Nat.eqb t symbol | None => true end then Some (bound a symbol) else None) (matches_lit (N.of_nat s) "usize" (N.of_nat state) "usize" "usize" eq_refl)).
  - rewrite usize_same. destruct (Nat.eqb s state); [|reflexivity]. destruct t as [t|]; [destruct (Nat.eqb t symbol)|]; reflexivity.
  - destruct a; cbn [good_case] in H; try subst t; try (destruct t as [t|]; [|reflexivity]).
    + refine (eq_trans (matches_lit 0 "" (N.of_nat symbol) "usize" "usize" eq_refl) _). change 0%N with (N.of_nat 0) at 1. rewrite usize_same. destruct (Nat.eqb 0 symbol); reflexivity.
    + refine (eq_trans (matches_lit (N.of_nat t) "usize" (N.of_nat symbol) "usize" "usize" eq_refl) _). rewrite usize_same. destruct (Nat.eqb t symbol); reflexivity.
    + refine (eq_trans (matches_lit (N.of_nat t) "usize" (N.of_nat symbol) "usize" "usize" eq_refl) _). rewrite usize_same. destruct (Nat.eqb t symbol); reflexivity.
    + reflexivity.
Qed.
Lemma automaton_run : forall cases state symbol st, (forall c, In c cases -> good_case c) ->
  eval_arms O rounds (arms_before (map case_arm cases) (ACons (PTuple [PWild; PWild]) (EMacro "unreachable" XNil) ANil)) (VTuple [usize_value (N.of_nat state); usize_value (N.of_nat symbol)]) st =
  match select_case cases state symbol with Some a => scoped (bound a symbol) st (eval O rounds (EBlock (action_block a))) | None => Some (st, Panics) end.
Proof.
  intros cases state symbol st H. induction cases as [|c cases IH].
  - cbn [map arms_before]. rewrite arms_step. change (scoped [] st (fun st => Some (st, Panics)) = Some (st, Panics)). apply scoped_none. reflexivity.
  - cbn [map arms_before]. unfold case_arm at 1. rewrite arms_step, (case_matches c state symbol (H c (or_introl eq_refl))). unfold select_case. cbn [find]. destruct c as ((s, t), a). destruct (Nat.eqb s state && _)%bool; [reflexivity|]. rewrite IH by (intros x X; apply H; right; exact X). reflexivity.
Qed.

Section Next.
Variable al : alphabet.
Hypothesis call_index : forall c ty, join "u32" ty = Some "u32" -> call ["Lexer"; "get_alphabet_index"] [VInt c ty] = Some (Val (option_value (option_map (fun i => usize_value (N.of_nat i)) (get_alphabet_index al c)))).
Hypothesis call_range : forall i, call ["Lexer"; "get_alphabet_range"] [usize_value (N.of_nat i)] = Some (Val (option_value (option_map range_value (get_alphabet_range al i)))).
Definition lex_self (src iter : list N) (start pos : N) : value := VCon ["Lexer"] [("src", chars_value src); ("char_iter", chars_value iter); ("start", usize_value start); ("position", usize_value pos)].
Definition lex_store (src iter : list N) (start pos : N) (state : nat) : store := [("state", usize_value (N.of_nat state)); ("self", lex_self src iter start pos)].
Definition peeked (iter : list N) : N := match iter with [] => 0%N | c :: _ => c end.
Definition peeked_value (iter : list N) : value := match iter with [] => VInt 0 "" | c :: _ => VInt c "u32" end.
Lemma block_let_run : forall p ty e b st, eval_block O rounds (BLet p ty e b) st =
  then_value (eval O rounds e st) (fun st v => match typed ty v with Some v => match matches p v with Some (Some vars) => eval_block O rounds b (vars ++ st) | _ => None end | None => None end).
Proof. reflexivity. Qed.
Lemma peek_run : forall src iter start pos state, eval O rounds (EMethod (EMethod (EMethod (EMethod (EField (EPath ["self"]) "char_iter") "peek" XNil) "copied" XNil) "map" (XCons (EClosure "c" (ECast (EPath ["c"]) "u32")) XNil)) "unwrap_or" (XCons (EInt 0 "") XNil)) (lex_store src iter start pos state) =
  Some (lex_store src iter start pos state, Val (peeked_value iter)).
Proof. intros src [|c iter] start pos state; reflexivity. Qed.
Lemma symbol_run : forall src iter start pos state, let st := ("next_ch", peeked_value iter) :: lex_store src iter start pos state in
  eval O rounds (EIfLet (PCon ["Some"] [PBind "symbol"]) (ECall (EPath ["Lexer"; "get_alphabet_index"]) (XCons (EPath ["next_ch"]) XNil)) (BTail (EPath ["symbol"]))
          (BStmt (EReturn (ECall (EPath ["Err"]) (XCons (EStruct ["LexerError"; "InvalidChar"] ["bad_ch"] (XCons (EPath ["next_ch"]) XNil)) XNil))) BNil)) st =
  Some (st, match get_alphabet_index al (peeked iter) with Some i => Val (usize_value (N.of_nat i)) | None => Ret (VErr (error_value (InvalidChar (peeked iter)))) end).
Proof.
  intros src iter start pos state st. 
  assert (E : eval O rounds (ECall (EPath ["Lexer"; "get_alphabet_index"]) (XCons (EPath ["next_ch"]) XNil)) st = match call ["Lexer"; "get_alphabet_index"] [peeked_value iter] with Some o => Some (st, o) | None => None end) by reflexivity.
  replace (call ["Lexer"; "get_alphabet_index"] [peeked_value iter]) with (Some (Val (option_value (option_map (fun i => usize_value (N.of_nat i)) (get_alphabet_index al (peeked iter)))))) in E.
  - set (e := ECall _ (XCons (EPath ["next_ch"]) XNil)) in *. set (a := BTail (EPath ["symbol"])). set (b := BStmt _ BNil).
    change (then_value (eval O rounds e st) (fun st v => match matches (PCon ["Some"] [PBind "symbol"]) v with Some (Some vars) => scoped vars st (eval_block O rounds a) | Some None => scoped [] st (eval_block O rounds b) | None => None end) =
      Some (st, match get_alphabet_index al (peeked iter) with Some i => Val (usize_value (N.of_nat i)) | None => Ret (VErr (error_value (InvalidChar (peeked iter)))) end)).
    rewrite E. destruct (get_alphabet_index al (peeked iter)) as [i|]; [reflexivity|]. destruct iter as [|c iter]; reflexivity.
  - symmetry. destruct iter as [|c iter]; apply call_index; reflexivity.
Qed.
Lemma body_run : forall v src iter start pos state, let st := lex_store src iter start pos state in
  scoped [] st (eval_block O rounds (next_loop v)) =
  match get_alphabet_index al (peeked iter) with
  | Some i =>
    match eval_arms O rounds v (VTuple [usize_value (N.of_nat state); usize_value (N.of_nat i)]) (("symbol", usize_value (N.of_nat i)) :: ("next_ch", peeked_value iter) :: st) with
    | Some (st', o) => Some (leave st st', o)
    | None => None
    end
  | None => Some (st, Ret (VErr (error_value (InvalidChar (peeked iter)))))
  end.
Proof.
  intros v src iter start pos state st. unfold scoped, next_loop. cbn [app]. rewrite block_let_run. unfold st. rewrite peek_run. cbn [then_value typed]. rewrite <- (app_nil_l [_]). 
  replace (typed None (peeked_value iter)) with (Some (peeked_value iter)) by reflexivity. cbn [matches app].
  rewrite block_let_run. rewrite symbol_run. destruct (get_alphabet_index al (peeked iter)) as [i|]; reflexivity.
Qed.
Lemma action_run : forall a i src iter start pos state, let st := lex_store src iter start pos state in
  match scoped (bound a i) (("symbol", usize_value (N.of_nat i)) :: ("next_ch", peeked_value iter) :: st) (eval O rounds (EBlock (action_block a))) with Some (st', o) => Some (leave st st', o) | None => None end =
  match a with
  | ActEof => Some (st, Ret (VOk (variant "EndOfFile")))
  | ActToken r => Some (st, Ret (VOk (variant (enum_name r))))
  | ActUnexpected => Some (st, match get_alphabet_range al i with Some r => Ret (VErr (error_value (UnexpectedAlphabet r))) | None => Panics end)
  | ActMove t => match iter with [] => Some (st, Panics) | c :: iter => Some (lex_store src iter start (pos + LexerModel.len_utf8 c) t, Val VUnit) end
  end.
Proof.
  intros a i src iter start pos state st. destruct a as [|t|r|].
  - reflexivity.
  - destruct iter as [|c iter]; reflexivity.
  - reflexivity.
  - set (st1 := ("transition", usize_value (N.of_nat i)) :: ("symbol", usize_value (N.of_nat i)) :: ("next_ch", peeked_value iter) :: st).
    assert (E : eval O rounds (EMethod (ECall (EPath ["Lexer"; "get_alphabet_range"]) (XCons (EPath ["transition"]) XNil)) "unwrap" XNil) st1 = Some (st1, match get_alphabet_range al i with Some r => Val (range_value r) | None => Panics end)).
    { transitivity (then_value (match call ["Lexer"; "get_alphabet_range"] [usize_value (N.of_nat i)] with Some o => Some (st1, o) | None => None end)
        (fun st v => match call_method O "unwrap" v [] with Some (_, vs, o) => Some (st, o) | None => None end)).
      - change (then_value (match call ["Lexer"; "get_alphabet_range"] [usize_value (N.of_nat i)] with Some o => Some (st1, o) | None => None end)
          (fun st v => match call_method O "unwrap" v [] with Some (_, vs, o) => match write_back XNil vs st with Some st => Some (st, o) | None => None end | None => None end) = then_value (match call ["Lexer"; "get_alphabet_range"] [usize_value (N.of_nat i)] with Some o => Some (st1, o) | None => None end)
          (fun st v => match call_method O "unwrap" v [] with Some (_, vs, o) => Some (st, o) | None => None end)). rewrite call_range. destruct (get_alphabet_range al i) as [r|]; reflexivity.
      - rewrite call_range. destruct (get_alphabet_range al i) as [r|]; reflexivity. }
    cbn [bound app action_block]. unfold scoped. cbn [app]. fold st1. set (e := EMethod _ "unwrap" XNil) in *.
    assert (B : eval O rounds (EBlock (BStmt (EReturn (ECall (EPath ["Err"]) (XCons (EStruct ["LexerError"; "UnexpectedAlphabet"] ["range"] (XCons e XNil)) XNil))) BNil)) st1 =
      scoped [] st1 (fun st => then_value (then_value (then_value (then_value (eval O rounds e st) (fun st v => match fields_typed O ["LexerError"; "UnexpectedAlphabet"] ["range"] [v] with Some fs => Some (st, Val (VCon ["LexerError"; "UnexpectedAlphabet"] fs)) | None => None end)) (fun st v => Some (st, Val (VErr v)))) (fun st v => Some (st, Ret v))) (fun st _ => Some (st, Val VUnit)))) by reflexivity.
    rewrite B. clear B. unfold scoped. cbn [app]. rewrite E. destruct (get_alphabet_range al i) as [r|]; reflexivity.
Qed.
(** Where the loop panics. *)
Fixpoint stopped (cases : list lex_case) (iter : list N) (pos : N) (state : nat) : list N * N * nat :=
  match iter with
  | [] => ([], pos, state)
  | c :: rest =>
    match get_alphabet_index al c with
    | Some i => match select_case cases state i with Some (ActMove t) => stopped cases rest (pos + LexerModel.len_utf8 c) t | _ => (iter, pos, state) end
    | None => (iter, pos, state)
    end
  end.
Lemma loop_run : forall cases v src start, (forall c, In c cases -> good_case c) -> v = arms_before (map case_arm cases) (ACons (PTuple [PWild; PWild]) (EMacro "unreachable" XNil) ANil) ->
  (forall c r, In c cases -> snd c = ActToken r -> get_token_enum_name (tr_name r) = Ok (enum_name r)) ->
  forall iter pos state n, (List.length iter < n)%nat ->
  match lexer_loop al cases iter pos state with
  | Ok (iter', pos', r) => exists w state', next_result r w /\ repeat_body n (fun st => scoped [] st (eval_block O rounds (next_loop v))) (lex_store src iter start pos state) = Some (lex_store src iter' start pos' state', Ret w)
  | _ => let '(iter', pos', state') := stopped cases iter pos state in repeat_body n (fun st => scoped [] st (eval_block O rounds (next_loop v))) (lex_store src iter start pos state) = Some (lex_store src iter' start pos' state', Panics)
  end.
Proof.
  intros cases v src start G V T. set (body := fun st => scoped [] st (eval_block O rounds (next_loop v))). 
  assert (R : forall iter pos state n st o, body (lex_store src iter start pos state) = Some (st, o) -> (forall w, o <> Val w) -> repeat_body (S n) body (lex_store src iter start pos state) = Some (st, o)).
  { intros iter pos state n st o E D. cbn [repeat_body]. rewrite E. destruct o as [w| |]; [destruct (D w eq_refl)|reflexivity|reflexivity]. }
  assert (U : forall iter pos state, exists K, body (lex_store src iter start pos state) = K /\ K = match get_alphabet_index al (peeked iter) with
    | Some i => match select_case cases state i with
       | Some a => match a with
         | ActEof => Some (lex_store src iter start pos state, Ret (VOk (variant "EndOfFile")))
         | ActToken r => Some (lex_store src iter start pos state, Ret (VOk (variant (enum_name r))))
         | ActUnexpected => Some (lex_store src iter start pos state, match get_alphabet_range al i with Some r => Ret (VErr (error_value (UnexpectedAlphabet r))) | None => Panics end)
         | ActMove t => match iter with [] => Some (lex_store src iter start pos state, Panics) | c :: iter => Some (lex_store src iter start (pos + LexerModel.len_utf8 c) t, Val VUnit) end
         end
       | None => Some (lex_store src iter start pos state, Panics)
       end
    | None => Some (lex_store src iter start pos state, Ret (VErr (error_value (InvalidChar (peeked iter)))))
    end).
  { intros iter pos state. eexists. split; [reflexivity|]. unfold body. rewrite body_run. destruct (get_alphabet_index al (peeked iter)) as [i|]; [|reflexivity]. rewrite V, (automaton_run cases state i _ G). destruct (select_case cases state i) as [a|]; [|reflexivity]. apply action_run. }
  assert (TS : forall state i r, select_case cases state i = Some (ActToken r) -> get_token_enum_name (tr_name r) = Ok (enum_name r)).
  { intros state i r SC. unfold select_case in SC. match type of SC with option_map _ (find ?f _) = _ => destruct (find f cases) as [x|] eqn:F end; [|discriminate]. cbn in SC. inversion SC. apply (T x r); [eapply find_some; exact F|assumption]. }
  induction iter as [|c iter IH]; intros pos state n L; (destruct n as [|n]; [lia|]); cbn [lexer_loop stopped].
  - destruct (U [] pos state) as (K & UK & EK). cbn [peeked] in EK. destruct (get_alphabet_index al 0) as [i|]; [|eexists _, state; split; [|apply R; [rewrite UK, EK; reflexivity|discriminate]]; reflexivity].
    destruct (select_case cases state i) as [a|] eqn:SC; [|apply R; [rewrite UK, EK; reflexivity|discriminate]].
    destruct a as [|t|r|].
    + eexists _, state. split; [|apply R; [rewrite UK, EK; reflexivity|discriminate]]. eexists. split; reflexivity.
    + apply R; [rewrite UK, EK; reflexivity|discriminate].
    + eexists _, state. split; [|apply R; [rewrite UK, EK; reflexivity|discriminate]]. eexists. split; [|reflexivity]. eexists. split; [|reflexivity].
      exact (TS state i r SC).
    + destruct (get_alphabet_range al i) as [r|]; [eexists _, state; split; [|apply R; [rewrite UK, EK; reflexivity|discriminate]]; reflexivity|apply R; [rewrite UK, EK; reflexivity|discriminate]].
  - destruct (U (c :: iter) pos state) as (K & UK & EK). cbn [peeked] in EK. destruct (get_alphabet_index al c) as [i|]; [|eexists _, state; split; [|apply R; [rewrite UK, EK; reflexivity|discriminate]]; reflexivity].
    destruct (select_case cases state i) as [a|] eqn:SC; [|apply R; [rewrite UK, EK; reflexivity|discriminate]].
    destruct a as [|t|r|].
    + eexists _, state. split; [|apply R; [rewrite UK, EK; reflexivity|discriminate]]. eexists. split; reflexivity.
    + cbn [List.length] in L. specialize (IH (pos + LexerModel.len_utf8 c)%N t n ltac:(lia)).
      assert (E : repeat_body (S n) body (lex_store src (c :: iter) start pos state) = repeat_body n body (lex_store src iter start (pos + LexerModel.len_utf8 c) t)) by (cbn [repeat_body]; rewrite UK, EK; reflexivity).
      rewrite E. exact IH.
    + eexists _, state. split; [|apply R; [rewrite UK, EK; reflexivity|discriminate]]. eexists. split; [|reflexivity]. eexists. split; [|reflexivity].
      exact (TS state i r SC).
    + destruct (get_alphabet_range al i) as [r|]; [eexists _, state; split; [|apply R; [rewrite UK, EK; reflexivity|discriminate]]; reflexivity|apply R; [rewrite UK, EK; reflexivity|discriminate]].
Qed.
End Next.
Lemma characters_chars : forall l, characters (map VChar l) = Some l.
Proof. induction l as [|c l IH]; [reflexivity|]. cbn. rewrite IH. reflexivity. Qed.
Lemma drop_at : forall l n, drop_bytes l n = match at_byte l n with Some i => Ok (skipn i l) | None => Panic end.
Proof.
  induction l as [|c l IH]; intros n; cbn [drop_bytes at_byte].
  - destruct (n =? 0)%N; reflexivity.
  - destruct (n =? 0)%N; [reflexivity|]. change (RustSpec.len_utf8 c) with (LexerModel.len_utf8 c). destruct (n <? LexerModel.len_utf8 c)%N; [reflexivity|]. rewrite IH. destruct (at_byte l (n - LexerModel.len_utf8 c)); reflexivity.
Qed.
Lemma take_at : forall l n, take_bytes l n = match at_byte l n with Some i => Ok (firstn i l) | None => Panic end.
Proof.
  induction l as [|c l IH]; intros n; cbn [take_bytes at_byte].
  - destruct (n =? 0)%N; reflexivity.
  - destruct (n =? 0)%N; [reflexivity|]. change (RustSpec.len_utf8 c) with (LexerModel.len_utf8 c). destruct (n <? LexerModel.len_utf8 c)%N; [reflexivity|]. rewrite IH. destruct (at_byte l (n - LexerModel.len_utf8 c)); reflexivity.
Qed.
Lemma len_positive : forall c, (1 <= LexerModel.len_utf8 c)%N.
Proof. intros c. unfold LexerModel.len_utf8. destruct (c <? 128)%N; [lia|]. destruct (c <? 2048)%N; [lia|]. destruct (c <? 65536)%N; lia. Qed.
Lemma at_later : forall l a b i, (a <= b)%N -> at_byte l a = Some i -> at_byte l b = option_map (Nat.add i) (at_byte (skipn i l) (b - a)).
Proof.
  induction l as [|c l IH]; intros a b i L E; cbn [at_byte] in E.
  - destruct (N.eqb_spec a 0) as [->|]; [|discriminate]. inversion E; subst i. rewrite N.sub_0_r. cbn [skipn]. destruct (at_byte [] b); reflexivity.
  - destruct (N.eqb_spec a 0) as [->|D]; [inversion E; subst i; rewrite N.sub_0_r; cbn [skipn]; destruct (at_byte (c :: l) b); reflexivity|].
    change (RustSpec.len_utf8 c) with (LexerModel.len_utf8 c) in E. destruct (N.ltb_spec a (LexerModel.len_utf8 c)) as [|L']; [discriminate|]. destruct (at_byte l (a - LexerModel.len_utf8 c)) as [k|] eqn:K; [|discriminate]. cbn in E. inversion E; subst i.
    cbn [at_byte]. change (RustSpec.len_utf8 c) with (LexerModel.len_utf8 c). destruct (N.eqb_spec b 0) as [|_]; [lia|]. destruct (N.ltb_spec b (LexerModel.len_utf8 c)) as [|_]; [lia|].
    rewrite (IH (a - LexerModel.len_utf8 c) (b - LexerModel.len_utf8 c) k)%N; [|lia|exact K]. cbn [skipn]. replace (b - LexerModel.len_utf8 c - (a - LexerModel.len_utf8 c))%N with (b - a)%N by lia. destruct (at_byte (skipn k l) (b - a)); reflexivity.
Qed.
Lemma slice_same : forall l a b, byte_slice l a b = match slice_bytes l a b with Some w => Ok w | None => Panic end.
Proof.
  intros l a b. unfold byte_slice, slice_bytes. destruct (N.ltb_spec b a) as [|L]; [reflexivity|]. rewrite drop_at. destruct (at_byte l a) as [i|] eqn:A; [|reflexivity]. cbn [bind]. rewrite take_at, (at_later l a b i L A).
  destruct (at_byte (skipn i l) (b - a)) as [j|]; [|reflexivity]. cbn [option_map]. replace (i + j - i)%nat with j by lia. reflexivity.
Qed.
Lemma run_slice : forall lx, (forall v, method "span" v [] = match run_function O rounds (mkFunction [("self", false)] span_body) [v] with Some (v :: args, o) => Some (v, args, o) | _ => None end) ->
  run_function O rounds (mkFunction [("self", false)] slice_body) [lexer_value lx] = Some ([lexer_value lx], match lexer_slice lx with Ok w => Val (chars_value w) | _ => Panics end).
Proof.
  intros lx M. unfold lexer_slice. rewrite slice_same. set (st := [("self", lexer_value lx)]). set (sp := VCon ["Range"] [("start", usize_value (lx_start lx)); ("end", usize_value (lx_position lx))]).
  assert (S : eval O rounds (EMethod (EPath ["self"]) "span" XNil) st = Some (st, Val sp)).
  { change (match method "span" (lexer_value lx) [] with Some (v, vs, o) => match write_place st ("self", []) v with Some st => match write_back XNil vs st with Some st => Some (st, o) | None => None end | None => None end | None => None end = Some (st, Val sp)).
    rewrite M, run_span. reflexivity. }
  assert (E : eval_block O rounds slice_body st = Some (st, match slice_bytes (lx_src lx) (lx_start lx) (lx_position lx) with Some w => Val (chars_value w) | None => Panics end)).
  { unfold slice_body. set (e := EMethod _ "span" XNil) in *. change (then_value (eval O rounds e st) (fun st w => match w with
      | VInt n _ => match nth_error (map VChar (lx_src lx)) (N.to_nat n) with Some a => Some (st, Val a) | None => Some (st, Panics) end
      | VCon ["Range"] [(_, VInt a _); (_, VInt b _)] => match characters (map VChar (lx_src lx)) with Some l => match slice_bytes l a b with Some w => Some (st, Val (VVec (map VChar w))) | None => Some (st, Panics) end | None => None end
      | _ => None end) = Some (st, match slice_bytes (lx_src lx) (lx_start lx) (lx_position lx) with Some w => Val (chars_value w) | None => Panics end)).
    rewrite S, characters_chars. cbn [then_value sp usize_value]. destruct (slice_bytes (lx_src lx) (lx_start lx) (lx_position lx)); reflexivity. }
  unfold run_function. cbn [List.length fn_parameters Nat.eqb map fst combine fn_body]. fold st. rewrite (scoped_none _ _ _ E). destruct (slice_bytes (lx_src lx) (lx_start lx) (lx_position lx)); reflexivity.
Qed.
Lemma run_next : forall v lx, run_function O rounds (mkFunction [("self", true)] (next_body v)) [lexer_value lx] =
  match match repeat_body rounds (fun st => scoped [] st (eval_block O rounds (next_loop v))) (lex_store (lx_src lx) (lx_iter lx) (lx_position lx) (lx_position lx) 0) with Some (st, o) => Some (leave [("self", lexer_value lx)] st, o) | None => None end with
  | Some (st, Val v) | Some (st, Ret v) => Some (map snd st, Val v)
  | Some (st, Panics) => Some (map snd st, Panics)
  | None => None
  end.
Proof. intros v lx. unfold next_body. generalize (next_loop v). intros b. reflexivity. Qed.
End Running.

(** ** The theorems *)

Section Theorems.
Variable al : alphabet.
Variable d : dfa token_rule.
Hypothesis names : forall node, In node (dfa_nodes d) -> named_node node.
Let F : lexer_functions := the_functions al d.
Lemma outer_index : forall rounds c ty, join "u32" ty = Some "u32" -> o_call (lexer_outer rounds F) ["Lexer"; "get_alphabet_index"] [VInt c ty] = Some (Val (option_value (option_map (fun i => usize_value (N.of_nat i)) (get_alphabet_index al c)))).
Proof.
  intros rounds c ty J. change (result_of (run_function (alone lexer_types) rounds (f_index F) [VInt c ty]) = Some (Val (option_value (option_map (fun i => usize_value (N.of_nat i)) (get_alphabet_index al c))))).
  unfold F, alone. cbn [f_index the_functions]. rewrite run_index by exact J. reflexivity.
Qed.
Lemma outer_range : forall rounds i, o_call (lexer_outer rounds F) ["Lexer"; "get_alphabet_range"] [usize_value (N.of_nat i)] = Some (Val (option_value (option_map range_value (get_alphabet_range al i)))).
Proof.
  intros rounds i. change (result_of (run_function (alone lexer_types) rounds (f_range F) [usize_value (N.of_nat i)]) = Some (Val (option_value (option_map range_value (get_alphabet_range al i))))).
  unfold F, alone. cbn [f_range the_functions]. rewrite run_range. reflexivity.
Qed.
Lemma case_rules : forall c r, In c (automaton_cases d) -> snd c = ActToken r -> get_token_enum_name (tr_name r) = Ok (enum_name r).
Proof.
  intros c r. unfold automaton_cases. generalize 0%nat. revert names. induction (dfa_nodes d) as [|node l IH]; intros HN j H E; [destruct H|]. cbn [automaton_cases_from] in H. apply in_app_or in H. destruct H as [H|H]; [|exact (IH (fun n X => HN n (or_intror X)) _ H E)].
  unfold state_cases in H. apply in_app_or in H. destruct H as [H|H]; [destruct (Nat.eqb j 0); [destruct H as [<-|[]]; discriminate|destruct H]|]. apply in_app_or in H. destruct H as [H|H].
  - apply in_flat_map in H. destruct H as ((t, v) & _ & H). destruct (Nat.eqb t 0); [destruct H|destruct H as [<-|[]]; discriminate].
  - destruct node as [q|q]; destruct H as [<-|[]]; [|discriminate]. cbn in E. inversion E; subst q. destruct (HN (Accepting r) (or_introl eq_refl)) as (_ & n & X). unfold enum_name. rewrite X. reflexivity.
Qed.
Lemma next_unique : forall r v w, next_result r v -> next_result r w -> v = w.
Proof.
  intros [[|t]|e] v w A B; cbn in A, B.
  - destruct A as (a & -> & ->), B as (b & -> & ->). reflexivity.
  - destruct A as (a & (n & A & ->) & ->), B as (b & (m & B & ->) & ->). rewrite A in B. inversion B. reflexivity.
  - congruence.
Qed.
Lemma the_functions_do : lexer_does al d F.
Proof.
  split; [|split; [|split]].
  - intros src. exists 0%nat. intros m _. apply run_new.
  - intros lx. unfold lexer_next, runs_lexer.
    assert (X : forall rounds, (List.length (lx_iter lx) < rounds)%nat -> _) by (intros rounds L; exact (loop_run (o_call (lexer_outer rounds F)) (o_method (lexer_outer rounds F)) rounds al (outer_index rounds) (outer_range rounds) (automaton_cases d) (automaton_lexed d) (lx_src lx) (lx_position lx) (automaton_good d) eq_refl case_rules (lx_iter lx) (lx_position lx) 0%nat rounds L)).
    assert (Y : forall rounds, run_function (lexer_outer rounds F) rounds (f_next F) [lexer_value lx] = _) by (intros rounds; exact (run_next (o_call (lexer_outer rounds F)) (o_method (lexer_outer rounds F)) rounds (automaton_lexed d) lx)).
    destruct (lexer_loop al (automaton_cases d) (lx_iter lx) (lx_position lx) 0) as [((iter, pos), r)| | |]; cbn [bind].
    + destruct (X (S (List.length (lx_iter lx))) (Nat.lt_succ_diag_r _)) as (w & _ & R & _). exists w. split; [exact R|]. exists (S (List.length (lx_iter lx))). intros m L. destruct (X m L) as (w' & state' & R' & E). rewrite Y, E, (next_unique _ _ _ R R'). reflexivity.
    + destruct (stopped al (automaton_cases d) (lx_iter lx) (lx_position lx) 0) as ((iter', pos'), state'). eexists. exists (S (List.length (lx_iter lx))). intros m L. rewrite Y, (X m L). reflexivity.
    + destruct (stopped al (automaton_cases d) (lx_iter lx) (lx_position lx) 0) as ((iter', pos'), state'). eexists. exists (S (List.length (lx_iter lx))). intros m L. rewrite Y, (X m L). reflexivity.
    + destruct (stopped al (automaton_cases d) (lx_iter lx) (lx_position lx) 0) as ((iter', pos'), state'). eexists. exists (S (List.length (lx_iter lx))). intros m L. rewrite Y, (X m L). reflexivity.
  - intros lx. exists 0%nat. intros m _. apply run_span.
  - intros lx. exists 0%nat. intros m _. apply run_slice. intros v. reflexivity.
Qed.
End Theorems.
Lemma block_unique : forall g b b', is_block g b -> is_block g b' -> b = b'.
Proof. intros g b b' (n & A) (m & B). specialize (A (n + m)%nat ltac:(lia)). specialize (B (n + m)%nat ltac:(lia)). congruence. Qed.
Lemma function_unique : forall file ty f x y, has_function file ty f x -> has_function file ty f y -> x = y.
Proof.
  intros file ty f [px bx] [py by_] (g & ps & b & A & B & C & D) (g' & ps' & b' & A' & B' & C' & D'). rewrite A in A'. inversion A'; subst g'. rewrite B in B'. inversion B'; subst ps' b'. cbn in *.
  rewrite C in C'. inversion C'. rewrite (block_unique _ _ _ D D'). reflexivity.
Qed.
Lemma functions_unique : forall file x y, functions_in file x -> functions_in file y -> x = y.
Proof.
  intros file [a b c d e f] [a' b' c' d' e' f'] (A & B & C & D & E & G) (A' & B' & C' & D' & E' & G'). cbn in *.
  rewrite (function_unique _ _ _ _ _ A A'), (function_unique _ _ _ _ _ B B'), (function_unique _ _ _ _ _ C C'), (function_unique _ _ _ _ _ D D'), (function_unique _ _ _ _ _ E E'), (function_unique _ _ _ _ _ G G'). reflexivity.
Qed.
Lemma rust_lexer_text_exact_proof : forall al d, (forall node, In node (dfa_nodes d) -> named_node node) ->
  exists file, lexer_rs al d = Ok file /\ types_declared file lexer_types /\ exists F, functions_in file F /\ (forall F', functions_in file F' -> F' = F) /\ lexer_does al d F.
Proof.
  intros al d H. exists (lexer_tokens al d). split; [exact (lexer_written al d H)|]. split; [apply the_types|]. exists (the_functions al d). split; [apply the_functions_in|]. split; [|exact (the_functions_do al d H)].
  intros F' X. exact (functions_unique _ _ _ X (the_functions_in al d)).
Qed.
