(** Proofs about the text of emitted C++ LR parsers: the tokens and the statements. *)
From Coq Require Import String Ascii List Arith NArith ZArith Bool Lia.
From Verif Require Import Base GrammarModel LRModel NamesModel CppLexerModel CppLRModel TemplateModel TemplateFiles CppTextModel CppTextSpec CppTextProof CppLexTextSpec CppLexTextProof CppLRTextModel CppLRTextSpec CppCaseProof.
Import ListNotations.
Local Open Scope string_scope.
Local Open Scope list_scope.

(** ** Lines *)

Lemma plain_nonempty : forall s, identifier s -> wordy s = true /\ s <> "" /\ word_token s = Word s.
Proof. intros s (A & B & C). split; [apply plain_wordy; exact A|]. split; assumption. Qed.
Lemma after_scope : forall s, identifier s -> scan (InMark "::") (chars s) = Some ([Mark Scope], InWord s).
Proof. intros s H. destruct (plain_nonempty s H) as (A & B & _). apply scan_scope; assumption. Qed.
Lemma number_token : forall k, word_token (number_text k) = Num (Z.of_nat k).
Proof. intros k. unfold number_text. rewrite decimal_token, nat_N_Z. reflexivity. Qed.
Lemma number_blank : forall k, scan Blank (chars (number_text k)) = Some ([], InWord (number_text k)).
Proof. intros k. apply scan_start; [apply decimal_wordy|apply decimal_nonempty]. Qed.
Lemma number_brace : forall k, scan (InMark "{") (chars (number_text k)) = Some ([Mark LBrace], InWord (number_text k)).
Proof. intros k. apply (scan_mark "{"); [reflexivity|reflexivity|apply decimal_wordy|apply decimal_nonempty]. Qed.
Lemma number_paren : forall k, scan (InMark "(") (chars (number_text k)) = Some ([Mark LParen], InWord (number_text k)).
Proof. intros k. apply (scan_mark "("); [reflexivity|reflexivity|apply decimal_wordy|apply decimal_nonempty]. Qed.

Definition label_tokens (l : label) : list tok :=
  match l with
  | CaseNt n => [Word "NonTerminalType"; Mark Scope; Word n]
  | CaseTk n => [Word "lexer"; Mark Scope; Word "TokenType"; Mark Scope; Word n]
  | CaseEmpty => []
  end.
Lemma case_token : forall l, token_case l \/ nt_case l -> scans (case_line l) (Key Case :: label_tokens l ++ [Mark Colon]).
Proof.
  intros [n|n|] H; cbn [token_case nt_case] in H; try (destruct H; contradiction).
  - assert (J : identifier n) by (destruct H; [contradiction|assumption]). unfold case_line, label_text. cbn [label_tokens Datatypes.app]. change ("case " ++ ("NonTerminalType::" ++ n) ++ ":")%string with ("case NonTerminalType::" ++ n ++ ":")%string.
    rewrite <- (proj2 (proj2 J)). exact (line_word "case NonTerminalType::" [Key Case; Word "NonTerminalType"] (InMark "::") n [Mark Scope] ":" [word_token n; Mark Colon] eq_refl (after_scope n J) eq_refl).
  - assert (J : identifier n) by (destruct H; [assumption|contradiction]). unfold case_line, label_text. cbn [label_tokens Datatypes.app]. change ("case " ++ ("lexer::TokenType::" ++ n) ++ ":")%string with ("case lexer::TokenType::" ++ n ++ ":")%string.
    rewrite <- (proj2 (proj2 J)). exact (line_word "case lexer::TokenType::" [Key Case; Word "lexer"; Mark Scope; Word "TokenType"] (InMark "::") n [Mark Scope] ":" [word_token n; Mark Colon] eq_refl (after_scope n J) eq_refl).
Qed.
Lemma state_line : forall q, scans (line ("case " ++ number_text q ++ ": {")) [Key Case; Num (Z.of_nat q); Mark Colon; Mark LBrace].
Proof. intros q. rewrite <- number_token. exact (line_word "case " [Key Case] Blank (number_text q) [] ": {" [word_token (number_text q); Mark Colon; Mark LBrace] eq_refl (number_blank q) eq_refl). Qed.

(** ** Actions *)

Definition action_tokens (a : lr_action) : list tok :=
  [Mark LBrace; Word "Action"; Word "act"; Mark LBrace; Word "ActionType"; Mark Scope] ++
  match a with ActShift => [Word "Shift"; Mark Comma; Num 0] | ActReduce k => [Word "Reduce"; Mark Comma; Num (Z.of_nat k)] end ++
  [Mark RBrace; Mark Semi; Key Return; Word "act"; Mark Semi; Mark RBrace].
Lemma action_scans : forall a, scans (action_body_text a) (action_tokens a).
Proof.
  intros [|k]; [reflexivity|]. unfold action_body_text, action_tokens. rewrite !lines_cons. change (lines []) with (@nil N). apply (scans_app _ _ [Mark LBrace]); [reflexivity|].
  apply (scans_app _ _ [Word "Action"; Word "act"; Mark LBrace; Word "ActionType"; Mark Scope; Word "Reduce"; Mark Comma; Num (Z.of_nat k); Mark RBrace; Mark Semi] [Key Return; Word "act"; Mark Semi; Mark RBrace]); [|reflexivity].
  rewrite <- number_token.
  exact (line_word "Action act{ActionType::Reduce, " [Word "Action"; Word "act"; Mark LBrace; Word "ActionType"; Mark Scope; Word "Reduce"; Mark Comma] Blank (number_text k) [] "};" [word_token (number_text k); Mark RBrace; Mark Semi] eq_refl (number_blank k) eq_refl).
Qed.
Definition throw_tokens (ex : string) : list tok := [Word "throw_unexpected_token_error"; Mark LParen; Quoted ex; Mark Comma; Word "lookahead_token"; Mark RParen; Mark Semi].
Lemma throw_scans : forall ex, quotable ex -> scans (line ("throw_unexpected_token_error(""" ++ ex ++ """, lookahead_token);")) (throw_tokens ex).
Proof.
  intros ex Q. scan_pieces. unfold scans. apply (scan_app (chars "throw_unexpected_token_error(""") _ _ [Word "throw_unexpected_token_error"; Mark LParen] (InQuote "") [Quoted ex; Mark Comma; Word "lookahead_token"; Mark RParen; Mark Semi]); [reflexivity|].
  apply (scan_app _ _ _ [] _ [Quoted ex; Mark Comma; Word "lookahead_token"; Mark RParen; Mark Semi] _ (scan_quoted ex "" Q)). reflexivity.
Qed.
Definition action_piece (x : label * lr_action) : list tok * list tok := (label_tokens (fst x), action_tokens (snd x)).
Lemma piece_split : forall l b, Key Case :: l ++ Mark Colon :: b = (Key Case :: l ++ [Mark Colon]) ++ b.
Proof. intros l b. cbn. rewrite <- app_assoc. reflexivity. Qed.
Definition action_cases_tokens (cases : list (label * lr_action)) (ex : string) : list tok :=
  concat (map piece_tokens (map action_piece cases)) ++ [Key Default; Mark Colon] ++ throw_tokens ex.
Lemma action_cases_scans : forall cases ex, (forall l a, In (l, a) cases -> token_case l) -> quotable ex -> scans (action_cases_text cases ex) (action_cases_tokens cases ex).
Proof.
  intros cases ex T Q. unfold action_cases_text, action_cases_tokens. apply scans_app.
  - rewrite map_map. apply scans_concat. intros (l, a) J. unfold piece_tokens, action_piece. cbn [fst snd]. rewrite piece_split. apply scans_app; [apply case_token; left; exact (T l a J)|apply action_scans].
  - rewrite !lines_cons. change (lines []) with (@nil N). rewrite app_nil_r. apply scans_app; [reflexivity|apply throw_scans; exact Q].
Qed.
Definition action_state_piece (e : nat * (list (label * lr_action) * string)) : list tok * list tok :=
  ([Num (Z.of_nat (fst e))], [Mark LBrace; Key Switch; Mark LParen; Word "lookahead_token"; Mark RParen; Mark LBrace] ++ action_cases_tokens (fst (snd e)) (snd (snd e)) ++ [Mark RBrace; Mark RBrace; Key Break; Mark Semi]).
Definition terminate_tokens : list tok := [Word "std"; Mark Scope; Word "terminate"; Mark LParen; Mark RParen; Mark Semi].
Definition action_table_tokens (c : cpp_lr) : list tok :=
  [Key Switch; Mark LParen; Word "state"; Mark RParen; Mark LBrace] ++ concat (map piece_tokens (map action_state_piece (cx_actions c))) ++ [Key Default; Mark Colon] ++ terminate_tokens ++ [Mark RBrace].
Lemma action_table_scans : forall c, writable_lr c -> scans (action_table_text c) (action_table_tokens c).
Proof.
  intros c W. unfold action_table_text, action_table_tokens. apply scans_app; [reflexivity|]. apply scans_app; [|reflexivity]. rewrite map_map. apply scans_concat. intros (q, (cases, ex)) J.
  destruct (wl_actions c W q cases ex J) as (_ & Q & T). unfold action_state_text, piece_tokens, action_state_piece. cbn [fst snd]. rewrite !lines_cons. change (lines []) with (@nil N). rewrite app_nil_r, <- app_assoc.
  apply (scans_app _ _ [Key Case; Num (Z.of_nat q); Mark Colon; Mark LBrace] ([Key Switch; Mark LParen; Word "lookahead_token"; Mark RParen; Mark LBrace] ++ action_cases_tokens cases ex ++ [Mark RBrace; Mark RBrace; Key Break; Mark Semi]) (state_line q)).
  apply scans_app; [reflexivity|]. apply scans_app; [apply action_cases_scans; assumption|reflexivity].
Qed.

(** ** Transitions *)

Definition goto_tokens (t : transition) : list tok :=
  [Mark LBrace; Word "Transition"; Word "transition"; Mark LBrace] ++ (if snd t then [Num 0; Mark Comma; Key True_] else [Num (Z.of_nat (fst t)); Mark Comma; Key False_]) ++
  [Mark RBrace; Mark Semi; Key Return; Word "transition"; Mark Semi; Mark RBrace].
Lemma goto_scans : forall t, scans (goto_body_text t) (goto_tokens t).
Proof.
  intros (k, [|]); [reflexivity|]. unfold goto_body_text, goto_tokens. cbn [fst snd]. rewrite !lines_cons. change (lines []) with (@nil N). apply (scans_app _ _ [Mark LBrace]); [reflexivity|].
  apply (scans_app _ _ [Word "Transition"; Word "transition"; Mark LBrace; Num (Z.of_nat k); Mark Comma; Key False_; Mark RBrace; Mark Semi] [Key Return; Word "transition"; Mark Semi; Mark RBrace]); [|reflexivity].
  rewrite <- number_token.
  exact (line_word "Transition transition{" [Word "Transition"; Word "transition"] (InMark "{") (number_text k) [Mark LBrace] ", false};" [word_token (number_text k); Mark Comma; Key False_; Mark RBrace; Mark Semi] eq_refl (number_brace k) eq_refl).
Qed.
Definition goto_piece (x : label * transition) : list tok * list tok := (label_tokens (fst x), goto_tokens (snd x)).
Definition goto_cases_tokens (cases : list (label * transition)) : list tok := concat (map piece_tokens (map goto_piece cases)) ++ [Key Default; Mark Colon] ++ terminate_tokens.
Lemma goto_cases_scans : forall cases, (forall l t, In (l, t) cases -> token_case l \/ nt_case l) -> scans (goto_cases_text cases) (goto_cases_tokens cases).
Proof.
  intros cases T. unfold goto_cases_text, goto_cases_tokens. apply scans_app; [|reflexivity]. rewrite map_map. apply scans_concat. intros (l, a) J. unfold piece_tokens, goto_piece. cbn [fst snd]. rewrite piece_split.
  apply scans_app; [apply case_token; exact (T l a J)|apply goto_scans].
Qed.
Definition kind_tokens (k : string) : list tok := [Key If; Mark LParen; Word "current_symbol"; Mark Dot; Word "kind"; Mark Equals; Word "SymbolKind"; Mark Scope; Word k; Mark RParen; Mark LBrace].
Definition cast_tokens (ns t : string) : list tok :=
  [Key Switch; Mark LParen; Key StaticCast; Mark Less; Word ns; Mark Scope; Word t; Mark Greater; Mark LParen; Word "current_symbol"; Mark Dot; Word "identifier"; Mark RParen; Mark RParen; Mark LBrace].
Definition goto_state_piece (e : nat * (list (label * transition) * list (label * transition))) : list tok * list tok :=
  ([Num (Z.of_nat (fst e))],
   [Mark LBrace] ++ (kind_tokens "Terminal" ++ cast_tokens "lexer" "TokenType") ++ goto_cases_tokens (fst (snd e)) ++ ([Mark RBrace; Mark RBrace; Key Else] ++ kind_tokens "NonTerminal" ++ cast_tokens "parser" "NonTerminalType") ++
   goto_cases_tokens (snd (snd e)) ++ [Mark RBrace; Mark RBrace; Key Else; Mark LBrace] ++ terminate_tokens ++ [Mark RBrace; Mark RBrace; Key Break; Mark Semi]).
Definition goto_table_tokens (c : cpp_lr) : list tok :=
  [Key Switch; Mark LParen; Word "state"; Mark RParen; Mark LBrace] ++ concat (map piece_tokens (map goto_state_piece (cx_gotos c))) ++ [Key Default; Mark Colon] ++ terminate_tokens ++ [Mark RBrace].
Lemma goto_table_scans : forall c, writable_lr c -> scans (goto_table_text c) (goto_table_tokens c).
Proof.
  intros c W. unfold goto_table_text, goto_table_tokens. apply scans_app; [reflexivity|]. apply scans_app; [|reflexivity]. rewrite map_map. apply scans_concat. intros (q, (ts, nts)) J.
  destruct (wl_gotos c W q ts nts J) as (_ & T & NT). unfold goto_state_text, piece_tokens, goto_state_piece. cbn [fst snd]. rewrite lines_cons. rewrite <- app_assoc.
  apply (scans_app _ _ [Key Case; Num (Z.of_nat q); Mark Colon; Mark LBrace] ((kind_tokens "Terminal" ++ cast_tokens "lexer" "TokenType") ++ goto_cases_tokens ts ++ ([Mark RBrace; Mark RBrace; Key Else] ++ kind_tokens "NonTerminal" ++ cast_tokens "parser" "NonTerminalType") ++
   goto_cases_tokens nts ++ [Mark RBrace; Mark RBrace; Key Else; Mark LBrace] ++ terminate_tokens ++ [Mark RBrace; Mark RBrace; Key Break; Mark Semi]) (state_line q)).
  apply scans_app; [reflexivity|]. apply scans_app; [apply goto_cases_scans; intros l t I; left; exact (proj1 (T l t I))|]. apply scans_app; [reflexivity|]. apply scans_app; [apply goto_cases_scans; intros l t I; right; exact (proj1 (NT l t I))|reflexivity].
Qed.

(** ** Reductions *)

Definition loop_tokens (n : nat) : list tok :=
  [Key For; Mark LParen; Word "size_t"; Word "i"; Mark Assign; Num 0; Mark Semi; Word "i"; Mark Less; Num (Z.of_nat n); Mark Semi; Word "i"; Mark Incr; Mark RParen; Mark LBrace;
   Word "parse_stack"; Mark Dot; Word "pop_back"; Mark LParen; Mark RParen; Mark Semi;
   Word "Symbol"; Word "reduced_symbol"; Mark Assign; Word "parse_stack"; Mark Dot; Word "back"; Mark LParen; Mark RParen; Mark Semi;
   Word "rev_reduced_symbols"; Mark Dot; Word "push_back"; Mark LParen; Word "reduced_symbol"; Mark RParen; Mark Semi;
   Word "parse_stack"; Mark Dot; Word "pop_back"; Mark LParen; Mark RParen; Mark Semi; Mark RBrace].
Definition push_tokens (s : string) : list tok :=
  [Word "Symbol"; Word "reduced_non_terminal"; Mark LBrace; Word "SymbolKind"; Mark Scope; Word "NonTerminal"; Mark Comma; Key StaticCast; Mark Less; Word "uint32_t"; Mark Greater; Mark LParen;
   Word "NonTerminalType"; Mark Scope; Word s; Mark RParen; Mark RBrace; Mark Semi;
   Word "parse_stack"; Mark Dot; Word "push_back"; Mark LParen; Word "reduced_non_terminal"; Mark RParen; Mark Semi; Key Return; Mark Semi].
Definition reduction_piece (e : nat * (nat * string)) : list tok * list tok :=
  ([Num (Z.of_nat (fst e))], [Mark LBrace] ++ (if Nat.ltb 0 (fst (snd e)) then loop_tokens (fst (snd e)) else []) ++ push_tokens (snd (snd e)) ++ [Mark RBrace]).
Definition stack_reduce_tokens (c : cpp_lr) : list tok :=
  [Key Switch; Mark LParen; Word "rule"; Mark RParen; Mark LBrace] ++ concat (map piece_tokens (map reduction_piece (cx_reductions c))) ++ [Key Default; Mark Colon] ++ terminate_tokens ++ [Mark RBrace].
Lemma stack_reduce_scans : forall c, writable_lr c -> scans (stack_reduce_text c) (stack_reduce_tokens c).
Proof.
  intros c W. unfold stack_reduce_text, stack_reduce_tokens. apply scans_app; [reflexivity|]. apply scans_app; [|reflexivity]. rewrite map_map. apply scans_concat. intros (k, (n, s)) J.
  destruct (wl_reductions c W k n s J) as (_ & _ & M). unfold reduction_text, piece_tokens, reduction_piece. cbn [fst snd].
  apply (scans_app _ _ [Key Case; Num (Z.of_nat k); Mark Colon; Mark LBrace] ((if Nat.ltb 0 n then loop_tokens n else []) ++ push_tokens s ++ [Mark RBrace]) (state_line k)). apply scans_app.
  - destruct (Nat.ltb 0 n); [|exact scans_nil]. rewrite lines_cons. unfold loop_tokens.
    change [Key For; Mark LParen; Word "size_t"; Word "i"; Mark Assign; Num 0; Mark Semi; Word "i"; Mark Less; Num (Z.of_nat n); Mark Semi; Word "i"; Mark Incr; Mark RParen; Mark LBrace;
   Word "parse_stack"; Mark Dot; Word "pop_back"; Mark LParen; Mark RParen; Mark Semi;
   Word "Symbol"; Word "reduced_symbol"; Mark Assign; Word "parse_stack"; Mark Dot; Word "back"; Mark LParen; Mark RParen; Mark Semi;
   Word "rev_reduced_symbols"; Mark Dot; Word "push_back"; Mark LParen; Word "reduced_symbol"; Mark RParen; Mark Semi;
   Word "parse_stack"; Mark Dot; Word "pop_back"; Mark LParen; Mark RParen; Mark Semi; Mark RBrace]
    with ([Key For; Mark LParen; Word "size_t"; Word "i"; Mark Assign; Num 0; Mark Semi; Word "i"; Mark Less; Num (Z.of_nat n); Mark Semi; Word "i"; Mark Incr; Mark RParen; Mark LBrace] ++
   [Word "parse_stack"; Mark Dot; Word "pop_back"; Mark LParen; Mark RParen; Mark Semi;
   Word "Symbol"; Word "reduced_symbol"; Mark Assign; Word "parse_stack"; Mark Dot; Word "back"; Mark LParen; Mark RParen; Mark Semi;
   Word "rev_reduced_symbols"; Mark Dot; Word "push_back"; Mark LParen; Word "reduced_symbol"; Mark RParen; Mark Semi;
   Word "parse_stack"; Mark Dot; Word "pop_back"; Mark LParen; Mark RParen; Mark Semi; Mark RBrace]).
    apply scans_app; [|reflexivity]. rewrite <- number_token.
    exact (line_word "for (size_t i = 0; i < " [Key For; Mark LParen; Word "size_t"; Word "i"; Mark Assign; Num 0; Mark Semi; Word "i"; Mark Less] Blank (number_text n) [] "; i++) {"
      [word_token (number_text n); Mark Semi; Word "i"; Mark Incr; Mark RParen; Mark LBrace] eq_refl (number_blank n) eq_refl).
  - rewrite lines_cons. unfold push_tokens.
    apply (scans_app _ _ [Word "Symbol"; Word "reduced_non_terminal"; Mark LBrace; Word "SymbolKind"; Mark Scope; Word "NonTerminal"; Mark Comma; Key StaticCast; Mark Less; Word "uint32_t"; Mark Greater; Mark LParen;
      Word "NonTerminalType"; Mark Scope; Word s; Mark RParen; Mark RBrace; Mark Semi] [Word "parse_stack"; Mark Dot; Word "push_back"; Mark LParen; Word "reduced_non_terminal"; Mark RParen; Mark Semi; Key Return; Mark Semi; Mark RBrace]); [|reflexivity].
    rewrite <- (proj2 (proj2 M)).
    exact (line_word "Symbol reduced_non_terminal{SymbolKind::NonTerminal, static_cast<uint32_t>(NonTerminalType::"
      [Word "Symbol"; Word "reduced_non_terminal"; Mark LBrace; Word "SymbolKind"; Mark Scope; Word "NonTerminal"; Mark Comma; Key StaticCast; Mark Less; Word "uint32_t"; Mark Greater; Mark LParen; Word "NonTerminalType"]
      (InMark "::") s [Mark Scope] ")};" [word_token s; Mark RParen; Mark RBrace; Mark Semi] eq_refl (after_scope s M) eq_refl).
Qed.

(** ** Visits *)

Definition visit_piece (e : nat * option string) : list tok * list tok :=
  ([Num (Z.of_nat (fst e))], [Mark LBrace] ++ match snd e with Some m => [Word "visitor"; Mark Dot; Word m; Mark LParen; Mark RParen; Mark Semi] | None => [] end ++ [Key Return; Mark Semi; Mark RBrace]).
Definition visitor_tokens (visits : list (nat * option string)) : list tok :=
  [Key Switch; Mark LParen; Word "rule"; Mark RParen; Mark LBrace] ++ concat (map piece_tokens (map visit_piece visits)) ++ [Key Default; Mark Colon] ++ terminate_tokens ++ [Mark RBrace].
Lemma visitor_scans : forall visits, writable_visits visits -> scans (visitor_reduce_text visits) (visitor_tokens visits).
Proof.
  intros visits W. unfold visitor_reduce_text, visitor_tokens. apply scans_app; [reflexivity|]. apply scans_app; [|reflexivity]. rewrite map_map. apply scans_concat. intros (k, m) J.
  destruct (W k m J) as (_ & M). unfold visit_text, piece_tokens, visit_piece. cbn [fst snd].
  apply (scans_app _ _ [Key Case; Num (Z.of_nat k); Mark Colon; Mark LBrace] (match m with Some m => [Word "visitor"; Mark Dot; Word m; Mark LParen; Mark RParen; Mark Semi] | None => [] end ++ [Key Return; Mark Semi; Mark RBrace]) (state_line k)).
  apply scans_app; [|reflexivity]. destruct m as [m|]; [|exact scans_nil]. destruct M as (s & -> & H).
  change ("visitor." ++ ("reduce_" ++ s) ++ "();")%string with ("visitor.reduce_" ++ s ++ "();")%string. change (Word ("reduce_" ++ s)) with (word_token ("reduce_" ++ s)).
  unfold line. rewrite !chars_app, <- !app_assoc. unfold scans.
  apply (scan_app (chars "visitor.reduce_") _ _ [Word "visitor"; Mark Dot] (InWord "reduce_") [word_token ("reduce_" ++ s); Mark LParen; Mark RParen; Mark Semi]); [reflexivity|].
  apply (scan_app _ _ _ [] _ [word_token ("reduce_" ++ s); Mark LParen; Mark RParen; Mark Semi] _ (scan_word s "reduce_" (plain_wordy s H))). reflexivity.
Qed.
Definition nts_tokens (nts : list string) : list tok := concat (map (fun n => [Word n; Mark Comma]) nts).
Lemma nts_scans : forall nts, Forall identifier nts -> scans (non_terminal_variants_text nts) (nts_tokens nts).
Proof.
  intros nts F. unfold non_terminal_variants_text, nts_tokens, lines. rewrite map_map. apply scans_concat. intros n J. rewrite Forall_forall in F. specialize (F n J). destruct (plain_nonempty n F) as (A & B & C).
  rewrite <- C. exact (line_word "" [] Blank n [] "," [word_token n; Mark Comma] eq_refl (scan_start n A B) eq_refl).
Qed.

(** ** Statements *)

Definition label_expr (l : label) : expr :=
  match l with
  | CaseNt n => EName ["NonTerminalType"; n]
  | CaseTk n => EName ["lexer"; "TokenType"; n]
  | CaseEmpty => EThis
  end.
Definition block (l : list stmt) : stmt := SBlock (stmts l INil).
Definition give (x : string) : stmt := SReturn (Some (EName [x])).
Definition terminate : stmt := SExpr (ECall (EName ["std"; "terminate"]) []).
Definition or_terminate : items := IDefault (IStmt terminate INil).
Definition action_stmt (a : lr_action) : stmt :=
  block [SInit ["Action"] "act" match a with ActShift => [EName ["ActionType"; "Shift"]; ENum 0] | ActReduce k => [EName ["ActionType"; "Reduce"]; ENum (Z.of_nat k)] end; give "act"].
Definition throw_stmt (ex : string) : stmt := SExpr (ECall (EName ["throw_unexpected_token_error"]) [EStr ex; EName ["lookahead_token"]]).
Definition action_case_of (x : label * lr_action) : expr * list stmt := (label_expr (fst x), [action_stmt (snd x)]).
Definition action_switch (cases : list (label * lr_action)) (ex : string) : stmt :=
  SSwitch (EName ["lookahead_token"]) (case_items (map action_case_of cases) (IDefault (IStmt (throw_stmt ex) INil))).
Definition action_state_of (e : nat * (list (label * lr_action) * string)) : expr * list stmt :=
  (ENum (Z.of_nat (fst e)), [block [action_switch (fst (snd e)) (snd (snd e))]; SBreak]).
Definition action_body (c : cpp_lr) : stmt := block [SSwitch (EName ["state"]) (case_items (map action_state_of (cx_actions c)) or_terminate)].

Lemma parses_terminate : forall r, parses_items ([Key Default; Mark Colon] ++ terminate_tokens ++ Mark RBrace :: r) or_terminate (Mark RBrace :: r).
Proof. intros r. apply parses_default; [exact I|]. eapply parses_cons; [exact I|apply (ev_const _ 10); intros n; reflexivity|]. apply parses_end. Qed.
Lemma parses_case_label : forall l r, token_case l \/ nt_case l -> eventually (fun fuel => parse_expr fuel (label_tokens l ++ Mark Colon :: r) = Some (label_expr l, Mark Colon :: r)).
Proof. intros [n|n|] r H; cbn in H; try (destruct H; contradiction); apply (ev_const _ 10); intros k; reflexivity. Qed.
Lemma parses_number_label : forall z r, eventually (fun fuel => parse_expr fuel ([Num z] ++ Mark Colon :: r) = Some (ENum z, Mark Colon :: r)).
Proof. intros z r. apply (ev_const _ 10). intros n. reflexivity. Qed.
Lemma Forall2_maps : forall {A B C} (R : B -> C -> Prop) (f : A -> B) (g : A -> C) l, (forall a, In a l -> R (f a) (g a)) -> Forall2 R (map f l) (map g l).
Proof. intros A B C R f g. induction l as [|a l IH]; intros H; [constructor|]. cbn. constructor; [apply H; left; reflexivity|]. apply IH. intros b J. apply H. right. exact J. Qed.
Lemma one_stmt : forall ts s, starts ts -> (forall r, parses_stmt (ts ++ r) s r) -> forall r b r', parses_items r b r' -> parses_items (ts ++ r) (stmts [s] b) r'.
Proof. intros ts s S H r b r' K. cbn [stmts fold_right]. eapply parses_cons; [|apply H|exact K]. destruct ts; [destruct S|exact S]. Qed.

Lemma parses_action : forall a r, parses_stmt (action_tokens a ++ r) (action_stmt a) r.
Proof. intros [|k] r; apply (ev_const _ 25); intros n; reflexivity. Qed.
Lemma parses_action_cases : forall cases ex r, (forall l a, In (l, a) cases -> token_case l) ->
  parses_items (action_cases_tokens cases ex ++ Mark RBrace :: r) (case_items (map action_case_of cases) (IDefault (IStmt (throw_stmt ex) INil))) (Mark RBrace :: r).
Proof.
  intros cases ex r T. unfold action_cases_tokens. rewrite <- !app_assoc. apply parses_cases.
  - apply Forall2_maps. intros (l, a) J. split; [|split].
    + intros r0. apply parses_case_label. left. exact (T l a J).
    + cbn [action_piece action_case_of fst snd]. apply one_stmt; [exact I|apply parses_action].
    + exact I.
  - apply parses_default; [exact I|]. eapply parses_cons; [exact I|apply (ev_const _ 15); intros n; reflexivity|]. apply parses_end.
Qed.
Lemma parses_action_table : forall c r, writable_lr c -> parses_stmt (action_table_tokens c ++ r) (SSwitch (EName ["state"]) (case_items (map action_state_of (cx_actions c)) or_terminate)) r.
Proof.
  intros c r W. unfold action_table_tokens. rewrite <- !app_assoc. eapply parses_switch; [apply (ev_const _ 5); intros n; reflexivity|]. apply parses_cases; [|apply parses_terminate].
  apply Forall2_maps. intros (q, (cases, ex)) J. destruct (wl_actions c W q cases ex J) as (_ & _ & T). split; [|split].
  - intros r0. apply parses_number_label.
  - intros r0 b r' K. cbn [action_state_piece action_state_of fst snd stmts fold_right]. rewrite <- !app_assoc. eapply (parses_cons _ _ ([Key Break; Mark Semi] ++ r0)); [exact I| |].
    + apply parses_block. eapply (parses_cons _ _ ([Mark RBrace; Key Break; Mark Semi] ++ r0)); [exact I| |apply parses_end].
      eapply parses_switch; [apply (ev_const _ 5); intros n; reflexivity|]. apply parses_action_cases. exact T.
    + eapply parses_cons; [exact I|apply (ev_const _ 1); intros n; reflexivity|exact K].
  - exact I.
Qed.

Definition goto_stmt (t : transition) : stmt :=
  block [SInit ["Transition"] "transition" (if snd t then [ENum 0; EBool true] else [ENum (Z.of_nat (fst t)); EBool false]); give "transition"].
Definition goto_case_of (x : label * transition) : expr * list stmt := (label_expr (fst x), [goto_stmt (snd x)]).
Definition goto_switch (ns t : string) (cases : list (label * transition)) : stmt :=
  SSwitch (ECast [ns; t] (EField (EName ["current_symbol"]) "identifier")) (case_items (map goto_case_of cases) or_terminate).
Definition kind_is (k : string) : expr := EEq (EField (EName ["current_symbol"]) "kind") (EName ["SymbolKind"; k]).
Definition goto_choice (ts nts : list (label * transition)) : stmt :=
  SIf (kind_is "Terminal") (block [goto_switch "lexer" "TokenType" ts]) (Some (SIf (kind_is "NonTerminal") (block [goto_switch "parser" "NonTerminalType" nts]) (Some (block [terminate])))).
Definition goto_state_of (e : nat * (list (label * transition) * list (label * transition))) : expr * list stmt :=
  (ENum (Z.of_nat (fst e)), [block [goto_choice (fst (snd e)) (snd (snd e))]; SBreak]).
Definition goto_body (c : cpp_lr) : stmt := block [SSwitch (EName ["state"]) (case_items (map goto_state_of (cx_gotos c)) or_terminate)].
Lemma parses_goto : forall t r, parses_stmt (goto_tokens t ++ r) (goto_stmt t) r.
Proof. intros (k, [|]) r; apply (ev_const _ 25); intros n; reflexivity. Qed.
Lemma parses_goto_cases : forall cases r, (forall l t, In (l, t) cases -> token_case l \/ nt_case l) ->
  parses_items (goto_cases_tokens cases ++ Mark RBrace :: r) (case_items (map goto_case_of cases) or_terminate) (Mark RBrace :: r).
Proof.
  intros cases r T. unfold goto_cases_tokens. rewrite <- !app_assoc. apply parses_cases; [|apply parses_terminate].
  apply Forall2_maps. intros (l, a) J. split; [|split].
  - intros r0. apply parses_case_label. exact (T l a J).
  - cbn [goto_piece goto_case_of fst snd]. apply one_stmt; [exact I|apply parses_goto].
  - exact I.
Qed.
Lemma parses_goto_table : forall c r, writable_lr c -> parses_stmt (goto_table_tokens c ++ r) (SSwitch (EName ["state"]) (case_items (map goto_state_of (cx_gotos c)) or_terminate)) r.
Proof.
  intros c r W. unfold goto_table_tokens. rewrite <- !app_assoc. eapply parses_switch; [apply (ev_const _ 5); intros n; reflexivity|]. apply parses_cases; [|apply parses_terminate].
  apply Forall2_maps. intros (q, (ts, nts)) J. destruct (wl_gotos c W q ts nts J) as (_ & T & NT). split; [|split].
  - intros r0. apply parses_number_label.
  - intros r0 b r' K. cbn [goto_state_piece goto_state_of fst snd stmts fold_right]. rewrite <- !app_assoc. eapply (parses_cons _ _ ([Key Break; Mark Semi] ++ r0)); [exact I| |].
    + apply parses_block. eapply (parses_cons _ _ ([Mark RBrace; Key Break; Mark Semi] ++ r0)); [exact I| |apply parses_end].
      eapply parses_if_else; [apply (ev_const _ 15); intros n; reflexivity| |].
      * apply parses_block. eapply (parses_cons _ _ (Mark RBrace :: Key Else :: _)); [exact I| |apply parses_end]. eapply parses_switch; [apply (ev_const _ 15); intros n; reflexivity|].
        apply parses_goto_cases. intros l t X. left. exact (proj1 (T l t X)).
      * eapply parses_if_else; [apply (ev_const _ 15); intros n; reflexivity| |].
        -- apply parses_block. eapply (parses_cons _ _ (Mark RBrace :: Key Else :: _)); [exact I| |apply parses_end]. eapply parses_switch; [apply (ev_const _ 15); intros n; reflexivity|].
           apply parses_goto_cases. intros l t X. right. exact (proj1 (NT l t X)).
        -- apply (ev_const _ 15). intros n. reflexivity.
    + eapply parses_cons; [exact I|apply (ev_const _ 1); intros n; reflexivity|exact K].
  - exact I.
Qed.

Definition pop_stmt : stmt := SExpr (ECall (EField (EName ["parse_stack"]) "pop_back") []).
Definition loop_stmt (n : nat) : stmt :=
  SFor ["size_t"] "i" (ENum 0) (ELess (EName ["i"]) (ENum (Z.of_nat n))) (EInc (EName ["i"]))
    (block [pop_stmt; SLet ["Symbol"] "reduced_symbol" (ECall (EField (EName ["parse_stack"]) "back") []);
            SExpr (ECall (EField (EName ["rev_reduced_symbols"]) "push_back") [EName ["reduced_symbol"]]); pop_stmt]).
Definition push_stmts (s : string) : list stmt :=
  [SInit ["Symbol"] "reduced_non_terminal" [EName ["SymbolKind"; "NonTerminal"]; ECast ["uint32_t"] (EName ["NonTerminalType"; s])];
   SExpr (ECall (EField (EName ["parse_stack"]) "push_back") [EName ["reduced_non_terminal"]]); SReturn None].
Definition reduction_of (e : nat * (nat * string)) : expr * list stmt :=
  (ENum (Z.of_nat (fst e)), [block ((if Nat.ltb 0 (fst (snd e)) then [loop_stmt (fst (snd e))] else []) ++ push_stmts (snd (snd e)))]).
Definition reduce_body (c : cpp_lr) : stmt := block [SSwitch (EName ["rule"]) (case_items (map reduction_of (cx_reductions c)) or_terminate)].
Lemma parses_stack_reduce : forall c r, parses_stmt (stack_reduce_tokens c ++ r) (SSwitch (EName ["rule"]) (case_items (map reduction_of (cx_reductions c)) or_terminate)) r.
Proof.
  intros c r. unfold stack_reduce_tokens. rewrite <- !app_assoc. eapply parses_switch; [apply (ev_const _ 5); intros n; reflexivity|]. apply parses_cases; [|apply parses_terminate].
  apply Forall2_maps. intros (k, (n, s)) J. split; [|split].
  - intros r0. apply parses_number_label.
  - cbn [reduction_piece reduction_of fst snd]. apply one_stmt; [exact I|]. intros r0. destruct (Nat.ltb 0 n); apply (ev_const _ 45); intros m; reflexivity.
  - exact I.
Qed.

Definition visit_stmts (m : option string) : list stmt := match m with Some m => [SExpr (ECall (EField (EName ["visitor"]) m) [])] | None => [] end.
Definition visit_of (e : nat * option string) : expr * list stmt := (ENum (Z.of_nat (fst e)), [block (visit_stmts (snd e) ++ [SReturn None])]).
Definition visit_body (visits : list (nat * option string)) : stmt := block [SSwitch (EName ["rule"]) (case_items (map visit_of visits) or_terminate)].
Lemma parses_visitor : forall visits r, parses_stmt (visitor_tokens visits ++ r) (SSwitch (EName ["rule"]) (case_items (map visit_of visits) or_terminate)) r.
Proof.
  intros visits r. unfold visitor_tokens. rewrite <- !app_assoc. eapply parses_switch; [apply (ev_const _ 5); intros n; reflexivity|]. apply parses_cases; [|apply parses_terminate].
  apply Forall2_maps. intros (k, m) J. split; [|split].
  - intros r0. apply parses_number_label.
  - cbn [visit_piece visit_of fst snd]. apply one_stmt; [exact I|]. intros r0. destruct m; apply (ev_const _ 25); intros n; reflexivity.
  - exact I.
Qed.

(** ** The files *)

Definition cpp_1 : text := Eval vm_compute in fst (cut lr_parser_cpp).
Definition cpp_2 : text := Eval vm_compute in fst (cut (snd (cut lr_parser_cpp))).
Definition cpp_3 : text := Eval vm_compute in fst (cut (snd (cut (snd (cut lr_parser_cpp))))).
Definition cpp_4 : text := Eval vm_compute in snd (cut (snd (cut (snd (cut lr_parser_cpp))))).
Lemma cpp_file : forall c, parser_cpp_text c = cpp_1 ++ action_table_text c ++ cpp_2 ++ stack_reduce_text c ++ cpp_3 ++ goto_table_text c ++ cpp_4.
Proof. intros c. unfold parser_cpp_text. generalize (action_table_text c) (goto_table_text c) (stack_reduce_text c). intros A B C. vm_compute. reflexivity. Qed.
Definition cpp_1_tokens : list tok := Eval vm_compute in match scan Blank cpp_1 with Some (l, _) => l | None => [] end.
Definition cpp_2_tokens : list tok := Eval vm_compute in match scan Blank cpp_2 with Some (l, _) => l | None => [] end.
Definition cpp_3_tokens : list tok := Eval vm_compute in match scan Blank cpp_3 with Some (l, _) => l | None => [] end.
Definition cpp_4_tokens : list tok := Eval vm_compute in match tokens cpp_4 with Some l => l | None => [] end.
Lemma cpp_tokens : forall c, writable_lr c ->
  tokens (parser_cpp_text c) = Some (cpp_1_tokens ++ action_table_tokens c ++ cpp_2_tokens ++ stack_reduce_tokens c ++ cpp_3_tokens ++ goto_table_tokens c ++ cpp_4_tokens).
Proof.
  intros c W. rewrite cpp_file. apply scans_then; [vm_compute; reflexivity|]. apply scans_then; [apply action_table_scans; exact W|]. apply scans_then; [vm_compute; reflexivity|].
  apply scans_then; [apply stack_reduce_scans; exact W|]. apply scans_then; [vm_compute; reflexivity|]. apply scans_then; [apply goto_table_scans; exact W|]. vm_compute. reflexivity.
Qed.

(** ** Searching *)

Fixpoint clash (p s : list tok) : bool := match p, s with x :: p, y :: s => if tok_eq x y then clash p s else true | _, _ => false end.
Fixpoint misses (p a : list tok) : bool := match a with [] => true | t :: a' => clash p a && misses p a' end.
Lemma clash_strip : forall p s b, clash p s = true -> strip_tokens p (s ++ b) = None.
Proof. induction p as [|x p IH]; intros [|y s] b H; try discriminate. cbn [clash strip_tokens Datatypes.app] in *. destruct (tok_eq x y); [apply IH; exact H|reflexivity]. Qed.
Lemma behind_skip : forall p a b, misses p a = true -> behind p (a ++ b) = behind p b.
Proof.
  induction a as [|t a IH]; intros b H; [reflexivity|]. cbn [misses] in H. apply andb_true_iff in H. destruct H as (H & K). change ((t :: a) ++ b) with (t :: (a ++ b)). cbn [behind]. change (t :: (a ++ b)) with ((t :: a) ++ b).
  rewrite (clash_strip _ _ b H). apply IH. exact K.
Qed.
(** Nowhere the word [v] in front of a word. *)
Fixpoint quiet (v : string) (prev : bool) (ts : list tok) : option bool :=
  match ts with
  | [] => Some prev
  | Word w :: ts => if prev then None else quiet v (String.eqb w v) ts
  | _ :: ts => quiet v false ts
  end.
Lemma quiet_app : forall v a b s t u, quiet v s a = Some t -> quiet v t b = Some u -> quiet v s (a ++ b) = Some u.
Proof.
  intros v. induction a as [|x a IH]; intros b s t u H K; [cbn in H; injection H as <-; exact K|]. destruct x; cbn [quiet Datatypes.app] in *; try (eapply IH; [exact H|exact K]).
  destruct s; [discriminate|]. eapply IH; [exact H|exact K].
Qed.
Lemma quiet_concat : forall {A} v (f : A -> list tok) l, (forall a, In a l -> quiet v false (f a) = Some false) -> quiet v false (concat (map f l)) = Some false.
Proof. intros A v f. induction l as [|a l IH]; intros H; [reflexivity|]. cbn [map concat]. eapply quiet_app; [apply H; left; reflexivity|]. apply IH. intros b J. apply H. right. exact J. Qed.
Lemma behind_quiet : forall v w p a s b, quiet v s a = Some false -> behind (Word v :: Word w :: p) (a ++ b) = behind (Word v :: Word w :: p) b.
Proof.
  intros v w p. induction a as [|t a IH]; intros s b H; [reflexivity|]. change ((t :: a) ++ b) with (t :: (a ++ b)). cbn [behind].
  assert (X : strip_tokens (Word v :: Word w :: p) (t :: (a ++ b)) = None).
  { cbn [strip_tokens]. destruct t as [u| | | | |]; try reflexivity. cbn [tok_eq]. rewrite String.eqb_sym. cbn [quiet] in H. destruct s; [discriminate|]. destruct (String.eqb u v); [|reflexivity].
    destruct a as [|t a]; [discriminate H|]. cbn [Datatypes.app]. destruct t; try reflexivity. cbn [quiet] in H. discriminate H. }
  rewrite X. destruct t; cbn [quiet] in H; try (eapply IH; exact H). destruct s; [discriminate|]. eapply IH. exact H.
Qed.
Lemma behind_differ : forall x p a b, forallb (fun t => negb (tok_eq x t)) a = true -> behind (x :: p) (a ++ b) = behind (x :: p) b.
Proof.
  intros x p. induction a as [|t a IH]; intros b H; [reflexivity|]. cbn [forallb] in H. apply andb_true_iff in H. destruct H as (H & K). change ((t :: a) ++ b) with (t :: (a ++ b)). cbn [behind strip_tokens].
  apply negb_true_iff in H. rewrite H. apply IH. exact K.
Qed.

Lemma action_table_quiet : forall c v, In v ["void"; "Transition"] -> writable_lr c -> quiet v false (action_table_tokens c) = Some false.
Proof.
  intros c v V W. unfold action_table_tokens. eapply (quiet_app _ _ _ _ false); [reflexivity|]. eapply (quiet_app _ _ _ _ false); [|destruct V as [<-|[<-|[]]]; reflexivity].
  rewrite map_map. apply quiet_concat. intros (q, (cases, ex)) J. destruct (wl_actions c W q cases ex J) as (_ & _ & T). unfold piece_tokens, action_state_piece, action_cases_tokens. cbn [fst snd]. rewrite <- !app_assoc.
  change (Key Case :: [Num (Z.of_nat q)] ++ Mark Colon :: [Mark LBrace; Key Switch; Mark LParen; Word "lookahead_token"; Mark RParen; Mark LBrace] ++ ?x) with ([Key Case; Num (Z.of_nat q); Mark Colon; Mark LBrace; Key Switch; Mark LParen; Word "lookahead_token"; Mark RParen; Mark LBrace] ++ x).
  eapply (quiet_app v [Key Case; Num (Z.of_nat q); Mark Colon; Mark LBrace; Key Switch; Mark LParen; Word "lookahead_token"; Mark RParen; Mark LBrace] _ _ false); [reflexivity|].
  eapply (quiet_app _ _ _ _ false); [|destruct V as [<-|[<-|[]]]; reflexivity]. rewrite map_map. apply quiet_concat. intros (l, a) K. specialize (T l a K). destruct l as [n|n|]; try destruct T. destruct V as [<-|[<-|[]]]; destruct a; reflexivity.
Qed.
Lemma stack_reduce_quiet : forall c, quiet "Transition" false (stack_reduce_tokens c) = Some false.
Proof.
  intros c. unfold stack_reduce_tokens. eapply (quiet_app _ _ _ _ false); [reflexivity|]. eapply (quiet_app _ _ _ _ false); [|reflexivity].
  rewrite map_map. apply quiet_concat. intros (k, (n, s)) J. unfold piece_tokens, reduction_piece. cbn [fst snd]. destruct (Nat.ltb 0 n); reflexivity.
Qed.
Lemma visitor_quiet : forall visits, quiet "void" false (visitor_tokens visits) = Some false.
Proof.
  intros visits. unfold visitor_tokens. eapply (quiet_app _ _ _ _ false); [reflexivity|]. eapply (quiet_app _ _ _ _ false); [|reflexivity].
  rewrite map_map. apply quiet_concat. intros (k, m) J. unfold piece_tokens, visit_piece. cbn [fst snd]. destruct m; reflexivity.
Qed.
Lemma nts_quiet : forall v nts, quiet v false (nts_tokens nts) = Some false.
Proof. intros v nts. unfold nts_tokens. apply quiet_concat. intros n J. reflexivity. Qed.

(** ** The functions of parser.cpp *)

Definition head_tokens (h : text) : list tok := match tokens h with Some l => l | None => [] end.
Definition action_header : list tok := Eval vm_compute in head_tokens action_head.
Definition reduce_header : list tok := Eval vm_compute in head_tokens reduce_head.
Definition goto_header : list tok := Eval vm_compute in head_tokens goto_head.
Definition visit_header : list tok := Eval vm_compute in head_tokens visit_head.
Definition parse_header : list tok := Eval vm_compute in head_tokens parse_head.
Lemma defines_at : forall t h ts hs r b r', tokens t = Some ts -> tokens h = Some hs -> behind hs ts = Some r -> parses_stmt r b r' -> defines t h b.
Proof. intros t h ts hs r b r' A B C (n & D). exists ts, hs, r. split; [exact A|]. split; [exact B|]. split; [exact C|]. exists n. intros fuel L. exists r'. apply D. exact L. Qed.
Lemma parses_wrapped : forall ts s r, starts ts -> parses_stmt (ts ++ Mark RBrace :: r) s (Mark RBrace :: r) -> parses_stmt (Mark LBrace :: ts ++ Mark RBrace :: r) (block [s]) r.
Proof. intros ts s r S H. apply parses_block. cbn [stmts fold_right]. eapply parses_cons; [|exact H|apply parses_end]. destruct ts; [destruct S|exact S]. Qed.
Lemma action_defined : forall c, writable_lr c -> defines (parser_cpp_text c) action_head (action_body c).
Proof.
  intros c W. eapply defines_at; [apply cpp_tokens; exact W|instantiate (1 := action_header); vm_compute; reflexivity|apply behind_app; vm_compute; reflexivity|].
  apply (parses_wrapped (action_table_tokens c) _ (tl cpp_2_tokens ++ stack_reduce_tokens c ++ cpp_3_tokens ++ goto_table_tokens c ++ cpp_4_tokens)); [exact I|]. apply parses_action_table. exact W.
Qed.
Lemma reduce_defined : forall c, writable_lr c -> defines (parser_cpp_text c) reduce_head (reduce_body c).
Proof.
  intros c W. eapply defines_at; [apply cpp_tokens; exact W|instantiate (1 := reduce_header); vm_compute; reflexivity| |].
  - rewrite behind_skip by (vm_compute; reflexivity). unfold reduce_header. rewrite (behind_quiet "void" "reduce_stack" _ _ false) by (apply action_table_quiet; [left; reflexivity|exact W]). apply behind_app. vm_compute. reflexivity.
  - apply (parses_wrapped (stack_reduce_tokens c) _ (tl cpp_3_tokens ++ goto_table_tokens c ++ cpp_4_tokens)); [exact I|]. apply parses_stack_reduce.
Qed.
Lemma goto_defined : forall c, writable_lr c -> defines (parser_cpp_text c) goto_head (goto_body c).
Proof.
  intros c W. eapply defines_at; [apply cpp_tokens; exact W|instantiate (1 := goto_header); vm_compute; reflexivity| |].
  - rewrite behind_skip by (vm_compute; reflexivity). unfold goto_header. rewrite (behind_quiet "Transition" "retrieve_next_state" _ _ false) by (apply action_table_quiet; [right; left; reflexivity|exact W]).
    rewrite behind_skip by (vm_compute; reflexivity). rewrite (behind_quiet "Transition" "retrieve_next_state" _ _ false) by apply stack_reduce_quiet. apply behind_app. vm_compute. reflexivity.
  - apply (parses_wrapped (goto_table_tokens c) _ (tl cpp_4_tokens)); [exact I|]. apply parses_goto_table. exact W.
Qed.

(** ** parser_impl.h *)

Definition impl_1 : text := Eval vm_compute in fst (cut lr_parser_impl_h).
Definition impl_2 : text := Eval vm_compute in fst (cut (snd (cut lr_parser_impl_h))).
Definition impl_3 : text := Eval vm_compute in fst (cut (snd (cut (snd (cut lr_parser_impl_h))))).
Definition impl_4 : text := Eval vm_compute in snd (cut (snd (cut (snd (cut lr_parser_impl_h))))).
Lemma impl_file : forall c visits, parser_impl_h_text c visits = impl_1 ++ non_terminal_variants_text (cx_nts c) ++ impl_2 ++ visitor_reduce_text visits ++ impl_3 ++ chars (number_text (cx_entry c)) ++ impl_4.
Proof. intros c visits. unfold parser_impl_h_text. generalize (non_terminal_variants_text (cx_nts c)) (visitor_reduce_text visits) (chars (number_text (cx_entry c))). intros A B C. vm_compute. reflexivity. Qed.
Definition impl_1_tokens : list tok := Eval vm_compute in match scan Blank impl_1 with Some (l, _) => l | None => [] end.
Definition impl_2_tokens : list tok := Eval vm_compute in match scan Blank impl_2 with Some (l, _) => l | None => [] end.
Definition impl_3_tokens : list tok := Eval vm_compute in match scan Blank impl_3 with Some (l, _) => l | None => [] end.
Definition impl_4_tokens : list tok := Eval vm_compute in match tokens (tl impl_4) with Some l => l | None => [] end.
Lemma entry_tokens : forall k, tokens (impl_3 ++ chars (number_text k) ++ impl_4) = Some (impl_3_tokens ++ [Mark LParen; Num (Z.of_nat k); Mark RParen] ++ impl_4_tokens).
Proof.
  intros k. unfold tokens.
  assert (A : scan Blank impl_3 = Some (impl_3_tokens, InMark "(")) by (vm_compute; reflexivity).
  pose proof (number_paren k) as B.
  assert (C : scan (InWord (number_text k)) [41%N] = Some ([word_token (number_text k)], InMark ")")) by reflexivity.
  assert (D : exists l m, scan (InMark ")") (tl impl_4) = Some (l, m) /\ match m with Blank | InLine _ => Some l | InWord w => Some (l ++ [word_token w]) | InMark w => Some (l ++ [mark_token w]) | _ => None end = Some (Mark RParen :: impl_4_tokens)).
  { eexists. eexists. split; vm_compute; reflexivity. }
  destruct D as (l & m & D & E). change impl_4 with ([41%N] ++ tl impl_4).
  rewrite (scan_app _ _ _ _ _ _ _ A (scan_app _ _ _ _ _ _ _ B (scan_app _ _ _ _ _ _ _ C D))). rewrite number_token in *.
  destruct m; try discriminate E; injection E as E; subst; try rewrite E; cbn [Datatypes.app]; rewrite <- ?app_assoc; cbn [Datatypes.app]; rewrite ?E; reflexivity.
Qed.
Lemma impl_tokens : forall c visits, writable_lr c -> writable_visits visits ->
  tokens (parser_impl_h_text c visits) = Some (impl_1_tokens ++ nts_tokens (cx_nts c) ++ impl_2_tokens ++ visitor_tokens visits ++ impl_3_tokens ++ [Mark LParen; Num (Z.of_nat (cx_entry c)); Mark RParen] ++ impl_4_tokens).
Proof.
  intros c visits W V. rewrite impl_file. apply scans_then; [vm_compute; reflexivity|]. apply scans_then; [apply nts_scans; exact (wl_nts c W)|]. apply scans_then; [vm_compute; reflexivity|].
  apply scans_then; [apply visitor_scans; exact V|]. apply entry_tokens.
Qed.
Lemma visit_defined : forall c visits, writable_lr c -> writable_visits visits -> defines (parser_impl_h_text c visits) visit_head (visit_body visits).
Proof.
  intros c visits W V. eapply defines_at; [apply impl_tokens; assumption|instantiate (1 := visit_header); vm_compute; reflexivity| |].
  - rewrite behind_skip by (vm_compute; reflexivity). unfold visit_header. rewrite (behind_quiet "void" "reduce_visitor" _ _ false) by apply nts_quiet. apply behind_app. vm_compute. reflexivity.
  - apply (parses_wrapped (visitor_tokens visits) _ (tl impl_3_tokens ++ [Mark LParen; Num (Z.of_nat (cx_entry c)); Mark RParen] ++ impl_4_tokens)); [exact I|]. apply parses_visitor.
Qed.

(** The enumerations and structures. *)
Lemma nts_parse : forall nts k r, parse_enumerators (Z.of_nat k) (nts_tokens nts ++ Mark RBrace :: Mark Semi :: r) = Some (counted_from k nts).
Proof.
  induction nts as [|s nts IH]; intros k r; [reflexivity|]. unfold nts_tokens in *. cbn [map concat Datatypes.app parse_enumerators]. unfold counted_from. cbn [List.length seq map combine].
  replace (Z.of_nat k + 1)%Z with (Z.of_nat (S k)) by lia. rewrite IH. reflexivity.
Qed.
Lemma nts_key : forall k nts, forallb (fun t => negb (tok_eq (Key k) t)) (nts_tokens nts) = true.
Proof. intros k. induction nts as [|s nts IH]; [reflexivity|]. unfold nts_tokens in *. cbn [map concat Datatypes.app forallb]. rewrite IH. reflexivity. Qed.
Lemma counted_fst : forall l k, map fst (counted_from k l) = l.
Proof. induction l as [|a l IH]; intros k; [reflexivity|]. unfold counted_from. cbn. f_equal. apply IH. Qed.
Lemma counted_values : forall l z, (N.of_nat (List.length l) <= 2 ^ 32)%N -> In z (map snd (counted l)) -> (0 <= z < 4294967296)%Z.
Proof.
  intros l z L J. apply in_map_iff in J. destruct J as ((s, z') & E & J). cbn [snd] in E. subst z'. unfold counted in J. apply in_combine_r in J. apply in_map_iff in J. destruct J as (k & <- & K). apply in_seq in K. lia.
Qed.
Lemma nts_enum : forall c visits, writable_lr c -> writable_visits visits -> NoDup (cx_nts c) -> enum_in (parser_impl_h_text c visits) "NonTerminalType" "uint32_t" (counted (cx_nts c)).
Proof.
  intros c visits W V D. eexists. eexists. split; [apply impl_tokens; assumption|]. split; [apply behind_app; vm_compute; reflexivity|]. split; [|split; [|exists U32; split; [reflexivity|]]].
  - exact (nts_parse (cx_nts c) 0 (tl (tl impl_2_tokens) ++ visitor_tokens visits ++ impl_3_tokens ++ [Mark LParen; Num (Z.of_nat (cx_entry c)); Mark RParen] ++ impl_4_tokens)).
  - change (counted (cx_nts c)) with (counted_from 0 (cx_nts c)). rewrite counted_fst. exact D.
  - intros z J. apply Z.mod_small. apply (counted_values (cx_nts c)); [exact (proj1 (proj2 (wl_sizes c W)))|exact J].
Qed.
Lemma nts_enum_only : forall c visits l, writable_lr c -> writable_visits visits -> enum_in (parser_impl_h_text c visits) "NonTerminalType" "uint32_t" l -> l = counted (cx_nts c) /\ NoDup (cx_nts c).
Proof.
  intros c visits l W V (ts & r & A & B & C & D & _). rewrite (impl_tokens c visits W V) in A. injection A as <-.
  assert (B' : behind [Key Enum; Key Class; Word "NonTerminalType"; Mark Colon; Word "uint32_t"; Mark LBrace] (impl_1_tokens ++ nts_tokens (cx_nts c) ++ impl_2_tokens ++ visitor_tokens visits ++ impl_3_tokens ++ [Mark LParen; Num (Z.of_nat (cx_entry c)); Mark RParen] ++ impl_4_tokens)
    = Some ([] ++ nts_tokens (cx_nts c) ++ impl_2_tokens ++ visitor_tokens visits ++ impl_3_tokens ++ [Mark LParen; Num (Z.of_nat (cx_entry c)); Mark RParen] ++ impl_4_tokens)) by (apply behind_app; vm_compute; reflexivity).
  pose proof (eq_trans (eq_sym B) B') as E. injection E as ->. 
  pose proof (nts_parse (cx_nts c) 0 (tl (tl impl_2_tokens) ++ visitor_tokens visits ++ impl_3_tokens ++ [Mark LParen; Num (Z.of_nat (cx_entry c)); Mark RParen] ++ impl_4_tokens)) as X.
  pose proof (eq_trans (eq_sym C) X) as E. injection E as ->. split; [reflexivity|]. rewrite counted_fst in D. exact D.
Qed.
Ltac fixed_enum tac :=
  eexists; eexists; split; [apply impl_tokens; assumption|];
  split; [tac|split; [reflexivity|split; [|exists U8; split; [reflexivity|intros z J; cbn in J; repeat (destruct J as [<-|J]; [reflexivity|]); destruct J]]]].
Lemma kind_enum : forall c visits, writable_lr c -> writable_visits visits -> enum_in (parser_impl_h_text c visits) "SymbolKind" "uint8_t" [("Terminal", 0); ("NonTerminal", 1); ("State", 2)]%Z.
Proof.
  intros c visits W V. fixed_enum ltac:(apply behind_app; vm_compute; reflexivity). repeat constructor; cbn; intros J; repeat (destruct J as [J|J]; [discriminate J|]); destruct J.
Qed.
Lemma action_enum : forall c visits, writable_lr c -> writable_visits visits -> enum_in (parser_impl_h_text c visits) "ActionType" "uint8_t" [("Shift", 0); ("Reduce", 1)]%Z.
Proof.
  intros c visits W V. fixed_enum ltac:(rewrite behind_skip by (vm_compute; reflexivity); rewrite behind_differ by apply nts_key; apply behind_app; vm_compute; reflexivity).
  repeat constructor; cbn; intros J; repeat (destruct J as [J|J]; [discriminate J|]); destruct J.
Qed.
Lemma symbol_struct : forall c visits, writable_lr c -> writable_visits visits -> struct_in (parser_impl_h_text c visits) "Symbol" [("SymbolKind", "kind"); ("uint32_t", "identifier")].
Proof. intros c visits W V. eexists. eexists. split; [apply impl_tokens; assumption|]. split; [apply behind_app; vm_compute; reflexivity|reflexivity]. Qed.
Lemma action_struct : forall c visits, writable_lr c -> writable_visits visits -> struct_in (parser_impl_h_text c visits) "Action" [("ActionType", "action_type"); ("uint16_t", "reduced_rule")].
Proof.
  intros c visits W V. eexists. eexists. split; [apply impl_tokens; assumption|]. split; [rewrite behind_skip by (vm_compute; reflexivity); rewrite behind_differ by apply nts_key; apply behind_app; vm_compute; reflexivity|reflexivity].
Qed.
Lemma transition_struct : forall c visits, writable_lr c -> writable_visits visits -> struct_in (parser_impl_h_text c visits) "Transition" [("uint32_t", "next_state"); ("bool", "is_accepting")].
Proof.
  intros c visits W V. eexists. eexists. split; [apply impl_tokens; assumption|]. split; [rewrite behind_skip by (vm_compute; reflexivity); rewrite behind_differ by apply nts_key; apply behind_app; vm_compute; reflexivity|reflexivity].
Qed.

(** The function [parse]. *)
Definition call (x f : string) (args : list expr) : expr := ECall (EField (EName [x]) f) args.
Definition fetch : stmt := SExpr (call "lookahead" "push" [ECall (EArrow EThis "token_function") []]).
Definition shift_stmts : list stmt :=
  [SExpr (call "parse_stack" "push_back" [EName ["next_symbol"]]);
   SExpr (ECall (EField (EArrow EThis "visitor") "shift") [EName ["next_tk"]; EField (EName ["next_token_and_data"]) "second"]);
   SExpr (call "lookahead" "pop" []); fetch].
Definition reduce_stmts : list stmt :=
  [SDecl ["std"; "vector"] "rev_reduced_symbols";
   SExpr (ECall (EName ["reduce_stack"]) [EField (EName ["action"]) "reduced_rule"; EName ["parse_stack"]; EName ["rev_reduced_symbols"]]);
   SExpr (ECall (EName ["reduce_visitor"]) [EArrow EThis "visitor"; EName ["rev_reduced_symbols"]; EField (EName ["action"]) "reduced_rule"])].
Definition action_is (a : string) : expr := EEq (EField (EName ["action"]) "action_type") (EName ["ActionType"; a]).
Definition look_stmts : list stmt :=
  [SLet ["auto"] "next_token_and_data" (call "lookahead" "front" []); SLet ["lexer"; "TokenType"] "next_tk" (EField (EName ["next_token_and_data"]) "first");
   SInit ["Symbol"] "next_symbol" [EName ["SymbolKind"; "Terminal"]; ECast ["uint32_t"] (EName ["next_tk"])]; SLet ["uint32_t"] "state" (EField (call "parse_stack" "back" []) "identifier");
   SLet ["Action"] "action" (ECall (EName ["determine_action"]) [EName ["state"]; EName ["next_tk"]])].
Definition act_stmt : stmt := SIf (action_is "Shift") (block shift_stmts) (Some (SIf (action_is "Reduce") (block reduce_stmts) None)).
Definition next_stmts : list stmt :=
  [SLet ["Symbol"] "current_symbol" (call "parse_stack" "back" []);
   SLet ["uint32_t"] "stack_state" (EField (call "parse_stack" "at" [ESub (call "parse_stack" "size" []) (ENum 2)]) "identifier");
   SLet ["Transition"] "transition" (ECall (EName ["retrieve_next_state"]) [EName ["stack_state"]; EName ["current_symbol"]])].
Definition move_stmt : stmt :=
  SIf (EField (EName ["transition"]) "is_accepting") (block [pop_stmt; pop_stmt])
    (Some (block [SInit ["Symbol"] "next_state_symbol" [EName ["SymbolKind"; "State"]; EField (EName ["transition"]) "next_state"]; SExpr (call "parse_stack" "push_back" [EName ["next_state_symbol"]])])).
Definition round : stmt := block (look_stmts ++ act_stmt :: next_stmts ++ [move_stmt]).
Definition some_left : expr := ELess (ENum 0) (call "parse_stack" "size" []).
Definition parse_body (entry : nat) : stmt :=
  block [SDecl ["std"; "queue"] "lookahead"; fetch; SDecl ["std"; "vector"] "parse_stack";
         SInit ["Symbol"] "entry_symbol" [EName ["SymbolKind"; "State"]; ECast ["uint32_t"] (ENum (Z.of_nat entry))]; SExpr (call "parse_stack" "push_back" [EName ["entry_symbol"]]); SWhile some_left round].
Lemma parse_defined : forall c visits, writable_lr c -> writable_visits visits -> defines (parser_impl_h_text c visits) parse_head (parse_body (cx_entry c)).
Proof.
  intros c visits W V. eapply defines_at; [apply impl_tokens; assumption|instantiate (1 := parse_header); vm_compute; reflexivity| |].
  - rewrite behind_skip by (vm_compute; reflexivity). unfold parse_header. rewrite (behind_quiet "void" "Parser" _ _ false) by apply nts_quiet.
    rewrite behind_skip by (vm_compute; reflexivity). rewrite (behind_quiet "void" "Parser" _ _ false) by apply visitor_quiet. apply behind_app. vm_compute. reflexivity.
  - apply (ev_const _ 60). intros n. 
    instantiate (1 := [Mark RBrace]). reflexivity.
Qed.
