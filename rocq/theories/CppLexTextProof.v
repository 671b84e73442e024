(** Proofs about the text of emitted C++ lexers. *)
From Coq Require Import String Ascii List Arith NArith ZArith Bool Lia.
From Verif Require Import Base InputModel LexerSpec LexerModel NamesModel CppLexerModel CppLexerSpec CppLexerProof TemplateModel TemplateFiles CppTextModel CppTextSpec CppTextProof CppLexTextSpec.
Import ListNotations.
Local Open Scope string_scope.
Local Open Scope list_scope.

Lemma plain_wordy : forall s, plain_name s -> wordy s = true.
Proof.
  induction s as [|c s IH]; intros H; [reflexivity|]. cbn. apply andb_true_iff. split; [apply H; left; reflexivity|]. apply IH. intros x X. apply H. right. exact X.
Qed.
Lemma enumerator_wordy : forall s, plain_name s -> wordy (enumerator s) = true.
Proof. intros s H. unfold enumerator. rewrite wordy_app, (plain_wordy _ H). reflexivity. Qed.
Lemma enumerator_nonempty : forall s, enumerator s <> "". Proof. intros s. discriminate. Qed.

(** ** Tokens of lines *)

Ltac scan_pieces := unfold line; repeat rewrite chars_app; repeat rewrite <- app_assoc.

Lemma line_case : forall n, scans (line ("case " ++ decimal n ++ ":")) [Key Case; Num (Z.of_N n); Mark Colon].
Proof.
  intros n. scan_pieces. unfold scans. apply (scan_app (chars "case ") _ Blank [Key Case] Blank [Num (Z.of_N n); Mark Colon]); [reflexivity|].
  rewrite <- (decimal_token n). apply (scan_app _ _ Blank [] _ _ _ (scan_start _ (decimal_wordy n) (decimal_nonempty n))). reflexivity.
Qed.
Lemma line_case_ : forall n, scans (line ("case " ++ decimal n ++ ": ")) [Key Case; Num (Z.of_N n); Mark Colon].
Proof.
  intros n. scan_pieces. unfold scans. apply (scan_app (chars "case ") _ Blank [Key Case] Blank [Num (Z.of_N n); Mark Colon]); [reflexivity|].
  rewrite <- (decimal_token n). apply (scan_app _ _ Blank [] _ _ _ (scan_start _ (decimal_wordy n) (decimal_nonempty n))). reflexivity.
Qed.
Lemma line_range : forall n m, scans (line ("case " ++ decimal n ++ " ... " ++ decimal m ++ ":")) [Key Case; Num (Z.of_N n); Mark Dots; Num (Z.of_N m); Mark Colon].
Proof.
  intros n m. scan_pieces. unfold scans. apply (scan_app (chars "case ") _ Blank [Key Case] Blank [Num (Z.of_N n); Mark Dots; Num (Z.of_N m); Mark Colon]); [reflexivity|].
  rewrite <- (decimal_token n), <- (decimal_token m). apply (scan_app _ _ Blank [] _ _ _ (scan_start _ (decimal_wordy n) (decimal_nonempty n))).
  apply (scan_app (chars " ... ") _ _ [word_token (decimal n); Mark Dots] Blank [word_token (decimal m); Mark Colon]); [reflexivity|].
  apply (scan_app _ _ Blank [] _ _ _ (scan_start _ (decimal_wordy m) (decimal_nonempty m))). reflexivity.
Qed.
Lemma line_number : forall pre l n, scan Blank (chars pre) = Some (l, Blank) -> scans (line (pre ++ decimal n ++ ";")) (l ++ [Num (Z.of_N n); Mark Semi]).
Proof.
  intros pre l n H. scan_pieces. unfold scans. apply (scan_app _ _ _ l Blank [Num (Z.of_N n); Mark Semi] _ H).
  rewrite <- (decimal_token n). apply (scan_app _ _ Blank [] _ _ _ (scan_start _ (decimal_wordy n) (decimal_nonempty n))). reflexivity.
Qed.
Lemma line_return : forall s, plain_name s -> scans (line ("return TokenType::" ++ enumerator s ++ ";")) [Key Return; Word "TokenType"; Mark Scope; Word (enumerator s); Mark Semi].
Proof.
  intros s H. scan_pieces. unfold scans. apply (scan_app (chars "return TokenType::") _ _ [Key Return; Word "TokenType"] (InMark "::") [Mark Scope; Word (enumerator s); Mark Semi]); [reflexivity|].
  apply (scan_app _ _ _ [Mark Scope] _ [Word (enumerator s); Mark Semi] _ (scan_scope _ (enumerator_wordy s H) (enumerator_nonempty s))). reflexivity.
Qed.
Lemma line_comment : forall t, one_line t -> scans (chars "// ACCEPT: " ++ t ++ [10%N]) [].
Proof.
  intros t (N & L). unfold scans. apply (scan_app (chars "// ACCEPT: ") _ Blank [] (InLine false) []); [reflexivity|]. apply (scan_app _ _ _ [] _ [] _ (scan_line t N false)).
  destruct t; [reflexivity|]. apply N.eqb_neq in L. rewrite L. reflexivity.
Qed.

(** ** The alphabet *)

Definition alpha_tokens (i : nat) (x : N * N) : list tok :=
  Key Case :: Num (Z.of_N (fst x)) :: (if (fst x =? snd x)%N then [] else [Mark Dots; Num (Z.of_N (snd x))]) ++
  [Mark Colon; Word "i"; Mark Assign; Num (Z.of_nat i); Mark Semi; Key Break; Mark Semi].
Fixpoint alphas_tokens (i : nat) (al : alphabet) : list tok := match al with [] => [] | x :: al => alpha_tokens i x ++ alphas_tokens (S i) al end.
Lemma alpha_scans : forall i x, scans (alphabet_case i x) (alpha_tokens i x).
Proof.
  intros i (a, b). unfold alphabet_case, alpha_tokens. cbn [fst snd]. rewrite !lines_cons. change (lines []) with (@nil N).
  assert (T : scans (line ("i = " ++ number_text i ++ ";") ++ line "break;" ++ []) [Word "i"; Mark Assign; Num (Z.of_nat i); Mark Semi; Key Break; Mark Semi]).
  { unfold number_text. rewrite <- nat_N_Z. apply (scans_app _ _ [Word "i"; Mark Assign; Num (Z.of_N (N.of_nat i)); Mark Semi] [Key Break; Mark Semi]); [exact (line_number "i = " [Word "i"; Mark Assign] _ eq_refl)|reflexivity]. }
  destruct (a =? b)%N.
  - exact (scans_app _ _ _ _ (line_case a) T).
  - exact (scans_app _ _ _ _ (line_range a b) T).
Qed.
Lemma alphas_scans : forall al i, scans (alphabet_cases i al) (alphas_tokens i al).
Proof. induction al as [|x al IH]; intros i; [exact scans_nil|]. cbn [alphabet_cases alphas_tokens]. apply scans_app; [apply alpha_scans|apply IH]. Qed.

Definition token_expr (s : string) : expr := EName ["TokenType"; s].
Definition return_token (s : string) : stmt := SReturn (Some (token_expr s)).
Definition return_tokens (s : string) : list tok := [Key Return; Word "TokenType"; Mark Scope; Word s; Mark Semi].
Definition alphabet_tokens (al : alphabet) : list tok :=
  [Word "uint32_t"; Word "i"; Mark Semi; Key Switch; Mark LParen; Word "ch"; Mark RParen; Mark LBrace] ++ alphas_tokens 0 al ++ [Key Default; Mark Colon] ++ return_tokens "TK_ERR" ++ [Mark RBrace].
Lemma alphabet_scans : forall al, scans (write_alphabet_switch al) (alphabet_tokens al).
Proof. intros al. unfold write_alphabet_switch, alphabet_tokens. apply scans_app; [reflexivity|]. apply scans_app; [apply alphas_scans|reflexivity]. Qed.

Fixpoint alpha_items (i : nat) (al : alphabet) (b : items) : items :=
  match al with
  | [] => b
  | x :: al => ICase (ENum (Z.of_N (fst x))) (ENum (Z.of_N (snd x))) (IStmt (SAssign (EName ["i"]) (ENum (Z.of_nat i))) (IStmt SBreak (alpha_items (S i) al b)))
  end.
Definition error_default : items := IDefault (IStmt (return_token "TK_ERR") INil).
Definition alphabet_stmt (al : alphabet) : stmt := SSwitch (EName ["ch"]) (alpha_items 0 al error_default).

Lemma parses_return : forall s r, parses_stmt (return_tokens s ++ r) (return_token s) r.
Proof. intros s r. apply (ev_const _ 5). intros n. reflexivity. Qed.
Lemma parses_error_default : forall r, parses_items ([Key Default; Mark Colon] ++ return_tokens "TK_ERR" ++ Mark RBrace :: r) error_default (Mark RBrace :: r).
Proof. intros r. apply parses_default; [exact I|]. eapply parses_cons; [exact I|apply parses_return|]. apply parses_end. Qed.
Lemma parses_alphas : forall al i ts b r, parses_items ts b r -> parses_items (alphas_tokens i al ++ ts) (alpha_items i al b) r.
Proof.
  induction al as [|(x, y) al IH]; intros i ts b r H; [exact H|]. cbn [alphas_tokens alpha_items fst snd]. rewrite <- app_assoc. specialize (IH (S i) ts b r H). remember (alphas_tokens (S i) al ++ ts) as rest.
  assert (T : parses_items ([Word "i"; Mark Assign; Num (Z.of_nat i); Mark Semi; Key Break; Mark Semi] ++ rest) (IStmt (SAssign (EName ["i"]) (ENum (Z.of_nat i))) (IStmt SBreak (alpha_items (S i) al b))) r).
  { eapply parses_cons; [exact I|apply (ev_const _ 5); intros n; reflexivity|]. eapply parses_cons; [exact I|apply (ev_const _ 1); intros n; reflexivity|]. exact IH. }
  unfold alpha_tokens. cbn [fst snd]. destruct (N.eqb_spec x y) as [->|NE].
  - refine (parses_label _ _ _ _ _ _ _ T); [|exact I]. apply (ev_const _ 3). intros n. reflexivity.
  - refine (parses_range _ _ _ _ _ _ _ _ _ _ T); [| |exact I]; apply (ev_const _ 3); intros n; reflexivity.
Qed.

(** ** The automaton *)

Section Automaton.
Variables (debug : token_rule -> text) (d : dfa token_rule).

Definition move_tokens (tv : nat * nat) : list tok :=
  if Nat.eqb (fst tv) 0 then []
  else [Key Case; Num (Z.of_nat (fst tv)); Mark Colon; Key This; Mark Arrow; Word "ch"; Mark Assign; Mark Minus; Num 1; Mark Semi; Word "state"; Mark Assign; Num (Z.of_nat (snd tv)); Mark Semi; Key Break; Mark Semi].
Lemma move_scans : forall tv, scans (transition_case tv) (move_tokens tv).
Proof.
  intros (t, v). unfold transition_case, move_tokens. cbn [fst snd]. destruct (Nat.eqb t 0); [exact scans_nil|]. rewrite !lines_cons. change (lines []) with (@nil N). unfold number_text. rewrite <- !nat_N_Z.
  apply (scans_app _ _ _ [Key This; Mark Arrow; Word "ch"; Mark Assign; Mark Minus; Num 1; Mark Semi; Word "state"; Mark Assign; Num (Z.of_N (N.of_nat v)); Mark Semi; Key Break; Mark Semi] (line_case_ (N.of_nat t))).
  apply (scans_app _ _ [Key This; Mark Arrow; Word "ch"; Mark Assign; Mark Minus; Num 1; Mark Semi] [Word "state"; Mark Assign; Num (Z.of_N (N.of_nat v)); Mark Semi; Key Break; Mark Semi]); [reflexivity|].
  apply (scans_app _ _ [Word "state"; Mark Assign; Num (Z.of_N (N.of_nat v)); Mark Semi] [Key Break; Mark Semi] (line_number "state = " [Word "state"; Mark Assign] _ eq_refl)). reflexivity.
Qed.
Definition default_tokens (node : astate token_rule) : list tok :=
  [Key Default; Mark Colon] ++
  match node with
  | Accepting r => [Key This; Mark Arrow; Word "end_pos"; Mark Assign; Key This; Mark Arrow; Word "position"; Mark Semi] ++ return_tokens (enumerator (tr_name r))
  | Intermediate _ => return_tokens "TK_ERR"
  end.
Lemma default_scans : forall node, writable_node debug node -> scans (state_default debug node) (default_tokens node).
Proof.
  intros node NN. unfold state_default, default_tokens. apply scans_app; [reflexivity|]. destruct node as [r|k]; [|reflexivity].
  apply (scans_app _ _ [] _ (line_comment _ (proj2 NN))). rewrite !lines_cons. change (lines []) with (@nil N).
  apply (scans_app _ _ [Key This; Mark Arrow; Word "end_pos"; Mark Assign; Key This; Mark Arrow; Word "position"; Mark Semi] (return_tokens (enumerator (tr_name r)))); [reflexivity|].
  rewrite <- (app_nil_r (return_tokens _)). apply scans_app; [exact (line_return _ (proj1 NN))|exact scans_nil].
Qed.
Definition state_tokens (index : nat) (node : astate token_rule) : list tok :=
  [Key Case; Num (Z.of_nat index); Mark Colon; Key Switch; Mark LParen; Word "i"; Mark RParen; Mark LBrace] ++
  (if Nat.eqb index 0 then [Key Case; Num 0; Mark Colon] ++ return_tokens "TK_EOF" else []) ++
  concat (map move_tokens (transitions_from d index)) ++ default_tokens node ++ [Mark RBrace; Key Break; Mark Semi].
Lemma state_scans : forall index node, writable_node debug node -> scans (state_case debug d index node) (state_tokens index node).
Proof.
  intros index node N. unfold state_case, state_tokens. apply scans_app.
  - rewrite !lines_cons. unfold number_text. rewrite <- nat_N_Z. apply (scans_app _ _ [Key Case; Num (Z.of_N (N.of_nat index)); Mark Colon] [Key Switch; Mark LParen; Word "i"; Mark RParen; Mark LBrace] (line_case _)). reflexivity.
  - apply scans_app; [destruct (Nat.eqb index 0); reflexivity|]. apply scans_app; [apply scans_concat; intros tv _; apply move_scans|]. apply scans_app; [apply default_scans; exact N|reflexivity].
Qed.
Fixpoint states_tokens (index : nat) (nodes : list (astate token_rule)) : list tok := match nodes with [] => [] | node :: nodes => state_tokens index node ++ states_tokens (S index) nodes end.
Lemma states_scans : forall nodes index, (forall node, In node nodes -> writable_node debug node) -> scans (state_cases debug d index nodes) (states_tokens index nodes).
Proof.
  induction nodes as [|node nodes IH]; intros index N; [exact scans_nil|]. cbn [state_cases states_tokens]. apply scans_app; [apply state_scans; apply N; left; reflexivity|].
  apply IH. intros n I. apply N. right. exact I.
Qed.
Definition automaton_tokens : list tok :=
  [Key Switch; Mark LParen; Word "state"; Mark RParen; Mark LBrace] ++ states_tokens 0 (dfa_nodes d) ++ [Key Default; Mark Colon] ++ return_tokens "TK_ERR" ++ [Mark RBrace].
Lemma automaton_scans : (forall node, In node (dfa_nodes d) -> writable_node debug node) -> scans (write_state_machine_switch debug d) automaton_tokens.
Proof. intros N. unfold write_state_machine_switch, automaton_tokens. apply scans_app; [reflexivity|]. apply scans_app; [apply states_scans; exact N|reflexivity]. Qed.

Definition this (f : string) : expr := EArrow EThis f.
Fixpoint move_items (l : list (nat * nat)) (b : items) : items :=
  match l with
  | [] => b
  | (t, v) :: l =>
    if Nat.eqb t 0 then move_items l b
    else ICase (ENum (Z.of_nat t)) (ENum (Z.of_nat t))
           (IStmt (SAssign (this "ch") (ENeg (ENum 1))) (IStmt (SAssign (EName ["state"]) (ENum (Z.of_nat v))) (IStmt SBreak (move_items l b))))
  end.
Definition default_items (node : astate token_rule) : items :=
  IDefault (match node with
            | Accepting r => IStmt (SAssign (this "end_pos") (this "position")) (IStmt (return_token (enumerator (tr_name r))) INil)
            | Intermediate _ => IStmt (return_token "TK_ERR") INil
            end).
Definition inner_items (index : nat) (node : astate token_rule) : items :=
  let b := move_items (transitions_from d index) (default_items node) in
  if Nat.eqb index 0 then ICase (ENum 0) (ENum 0) (IStmt (return_token "TK_EOF") b) else b.
Fixpoint state_items (index : nat) (nodes : list (astate token_rule)) (b : items) : items :=
  match nodes with
  | [] => b
  | node :: nodes => ICase (ENum (Z.of_nat index)) (ENum (Z.of_nat index)) (IStmt (SSwitch (EName ["i"]) (inner_items index node)) (IStmt SBreak (state_items (S index) nodes b)))
  end.
Definition automaton_stmt : stmt := SSwitch (EName ["state"]) (state_items 0 (dfa_nodes d) error_default).

Lemma parses_moves : forall l ts b r, match ts with Mark RBrace :: _ => False | _ => True end -> parses_items ts b r -> parses_items (concat (map move_tokens l) ++ ts) (move_items l b) r.
Proof.
  induction l as [|(t, v) l IH]; intros ts b r F H; [exact H|]. cbn [map concat move_items]. unfold move_tokens at 1. cbn [fst snd]. destruct (Nat.eqb t 0); [apply IH; assumption|].
  rewrite <- app_assoc. specialize (IH ts b r F H). remember (concat (map move_tokens l) ++ ts) as rest.
  refine (parses_label _ _ _ _ _ _ _ _); [apply (ev_const _ 3); intros n; reflexivity|exact I|].
  eapply parses_cons; [exact I|apply (ev_const _ 6); intros n; reflexivity|]. eapply parses_cons; [exact I|apply (ev_const _ 5); intros n; reflexivity|].
  eapply parses_cons; [exact I|apply (ev_const _ 1); intros n; reflexivity|]. exact IH.
Qed.
Lemma parses_node : forall node r, parses_items (default_tokens node ++ Mark RBrace :: r) (default_items node) (Mark RBrace :: r).
Proof.
  intros node r. unfold default_tokens, default_items. destruct node as [a|k]; [|apply parses_error_default].
  apply parses_default; [exact I|]. eapply parses_cons; [exact I|apply (ev_const _ 6); intros n; reflexivity|]. eapply parses_cons; [exact I|apply parses_return|]. apply parses_end.
Qed.
Lemma parses_states : forall nodes index ts b r, parses_items ts b r -> parses_items (states_tokens index nodes ++ ts) (state_items index nodes b) r.
Proof.
  induction nodes as [|node nodes IH]; intros index ts b r H; [exact H|]. cbn [states_tokens state_items]. unfold state_tokens. rewrite <- !app_assoc. specialize (IH (S index) ts b r H).
  remember (states_tokens (S index) nodes ++ ts) as rest.
  refine (parses_label _ _ _ _ _ _ _ _); [apply (ev_const _ 3); intros n; reflexivity|exact I|].
  eapply parses_cons; [exact I| |].
  - eapply parses_switch; [apply (ev_const _ 3); intros n; reflexivity|]. unfold inner_items. cbv zeta.
    assert (M : parses_items (concat (map move_tokens (transitions_from d index)) ++ default_tokens node ++ [Mark RBrace; Key Break; Mark Semi] ++ rest)
                (move_items (transitions_from d index) (default_items node)) ([Mark RBrace; Key Break; Mark Semi] ++ rest)).
    { apply parses_moves; [exact I|]. apply (parses_node node ([Key Break; Mark Semi] ++ rest)). }
    destruct (Nat.eqb index 0).
    + rewrite <- !app_assoc. refine (parses_label _ _ _ _ _ _ _ _); [apply (ev_const _ 3); intros n; reflexivity|exact I|].
      eapply parses_cons; [exact I|apply parses_return|]. exact M.
    + exact M.
  - eapply parses_cons; [exact I|apply (ev_const _ 1); intros n; reflexivity|]. exact IH.
Qed.
Lemma parses_automaton : forall r, parses_stmt (automaton_tokens ++ r) automaton_stmt r.
Proof.
  intros r. unfold automaton_tokens, automaton_stmt. rewrite <- !app_assoc. eapply parses_switch; [apply (ev_const _ 3); intros n; reflexivity|]. apply parses_states. apply (parses_error_default r).
Qed.
End Automaton.

Lemma parses_alphabet : forall al r, exists r0, alphabet_tokens al ++ r = [Word "uint32_t"; Word "i"; Mark Semi] ++ r0 /\ parses_stmt r0 (alphabet_stmt al) r.
Proof.
  intros al r. unfold alphabet_tokens, alphabet_stmt. rewrite <- !app_assoc. eexists. split; [reflexivity|]. eapply parses_switch; [apply (ev_const _ 3); intros n; reflexivity|]. apply parses_alphas. apply (parses_error_default r).
Qed.

(** ** The file *)

Definition cut (t : text) : text * text := match find_match t with Some (p, _, r) => (p, r) | None => (t, []) end.
Definition lexer_front : text := Eval vm_compute in fst (cut lexer_cpp).
Definition lexer_middle : text := Eval vm_compute in fst (cut (snd (cut lexer_cpp))).
Definition lexer_back : text := Eval vm_compute in snd (cut (snd (cut lexer_cpp))).
Lemma lexer_file : forall debug al d, lexer_cpp_text debug al d = lexer_front ++ write_alphabet_switch al ++ lexer_middle ++ write_state_machine_switch debug d ++ lexer_back.
Proof.
  intros debug al d. unfold lexer_cpp_text. generalize (write_alphabet_switch al) (write_state_machine_switch debug d). intros A B. vm_compute. reflexivity.
Qed.

Definition front_tokens : list tok := Eval vm_compute in match scan Blank lexer_front with Some (l, _) => l | None => [] end.
Definition back_tokens : list tok := Eval vm_compute in match tokens lexer_back with Some l => l | None => [] end.
Lemma front_scans : scans lexer_front front_tokens. Proof. vm_compute. reflexivity. Qed.
Lemma middle_scans : scans lexer_middle []. Proof. reflexivity. Qed.
Lemma scans_then : forall a b l m, scans a l -> tokens b = Some m -> tokens (a ++ b) = Some (l ++ m).
Proof.
  intros a b l m H K. unfold tokens in *. destruct (scan Blank b) as [[l' m']|] eqn:E; [|discriminate]. rewrite (scan_app _ _ _ _ _ _ _ H E). destruct m'; try discriminate; injection K as <-; rewrite ?app_assoc; reflexivity.
Qed.
Lemma lexer_tokens : forall debug al d, (forall node, In node (dfa_nodes d) -> writable_node debug node) ->
  tokens (lexer_cpp_text debug al d) = Some (front_tokens ++ alphabet_tokens al ++ automaton_tokens d ++ back_tokens).
Proof.
  intros debug al d N. rewrite lexer_file. apply scans_then; [exact front_scans|]. apply scans_then; [apply alphabet_scans|]. apply (scans_then _ _ [] (automaton_tokens d ++ back_tokens) middle_scans).
  apply scans_then; [apply automaton_scans; assumption|]. vm_compute. reflexivity.
Qed.
Definition next_header : list tok := [Word "TokenType"; Word "Lexer"; Mark Scope; Word "next"; Mark LParen; Mark RParen].
Definition front_rest : list tok := Eval vm_compute in match behind next_header front_tokens with Some l => l | None => [] end.
Lemma front_behind : behind next_header front_tokens = Some front_rest. Proof. vm_compute. reflexivity. Qed.

Definition turn (al : alphabet) (d : dfa token_rule) : items :=
  IStmt (SIf (EEq (this "ch") (ENeg (ENum 1))) (SBlock (IStmt (SExpr (ECall (EName ["utf8_decode"]) [this "in_chars"; EAddr (this "ch"); EAddr (this "err")])) INil)) None)
  (IStmt (SIf (this "err") (SBlock (IStmt (return_token "TK_ERR") INil)) None)
  (IStmt (SDecl ["uint32_t"] "i") (IStmt (alphabet_stmt al) (IStmt (automaton_stmt d) (IStmt (SAdd (this "position") (ENum 1)) INil))))).
Definition next_body (al : alphabet) (d : dfa token_rule) : stmt :=
  SBlock (IStmt (SLet ["uint32_t"] "state" (ENum 0)) (IStmt (SAssign (this "start_pos") (EName ["position"]))
  (IStmt (SWhile (ENum 1) (SBlock (turn al d))) (IStmt (return_token "TK_ERR") INil)))).
Lemma parses_next : forall al d, parses_stmt (front_rest ++ alphabet_tokens al ++ automaton_tokens d ++ back_tokens) (next_body al d) [Mark RBrace].
Proof.
  intros al d. destruct (parses_alphabet al (automaton_tokens d ++ back_tokens)) as (r0 & E & PA). rewrite E. pose proof (parses_automaton d back_tokens) as PB.
  assert (T : parses_items ([Word "uint32_t"; Word "i"; Mark Semi] ++ r0) (IStmt (SDecl ["uint32_t"] "i") (IStmt (alphabet_stmt al) (IStmt (automaton_stmt d) (IStmt (SAdd (this "position") (ENum 1)) INil))))
                ([Mark RBrace] ++ return_tokens "TK_ERR" ++ [Mark RBrace; Mark RBrace])).
  { eapply parses_cons; [exact I|apply (ev_const _ 5); intros n; reflexivity|]. 
    assert (S1 : starts r0).
    { destruct al; unfold alphabet_tokens in E; injection E as <-; exact I. }
    eapply parses_cons; [exact S1|exact PA|]. eapply parses_cons; [exact I|exact PB|]. eapply parses_cons; [exact I|apply (ev_const _ 6); intros n; reflexivity|]. apply parses_end. }
  apply parses_block. eapply parses_cons; [exact I|apply (ev_const _ 6); intros n; reflexivity|]. eapply parses_cons; [exact I|apply (ev_const _ 6); intros n; reflexivity|].
  eapply parses_cons; [exact I| |].
  - eapply parses_while; [apply (ev_const _ 3); intros n; reflexivity|]. apply parses_block. eapply parses_cons; [exact I|apply (ev_const _ 25); intros n; reflexivity|].
    eapply parses_cons; [exact I|apply (ev_const _ 25); intros n; reflexivity|]. exact T.
  - eapply parses_cons; [exact I|apply parses_return|]. apply parses_end.
Qed.
Lemma lexer_defines : forall debug al d, (forall node, In node (dfa_nodes d) -> writable_node debug node) ->
  defines (lexer_cpp_text debug al d) (chars "TokenType Lexer::next()") (next_body al d).
Proof.
  intros debug al d N. eexists. exists next_header. eexists. split; [apply lexer_tokens; assumption|]. split; [reflexivity|]. split; [apply behind_app; exact front_behind|].
  destruct (parses_next al d) as (n & H). exists n. intros fuel L. eexists. apply H. exact L.
Qed.

(** ** Values *)

Definition counted_from (k : nat) (l : list string) : list (string * Z) := combine l (map Z.of_nat (seq k (List.length l))).
Lemma counted_find_from : forall s l k, find_name s (counted_from k l) = option_map (fun i => Z.of_nat (k + i)) (find_index (String.eqb s) l).
Proof.
  intros s. induction l as [|a l IH]; intros k; [reflexivity|]. unfold counted_from. cbn [List.length seq map combine find_name find_index]. destruct (String.eqb s a); [cbn; rewrite Nat.add_0_r; reflexivity|].
  fold (counted_from (S k) l). rewrite IH. destruct (find_index (String.eqb s) l); [|reflexivity]. cbn [option_map]. rewrite Nat.add_succ_r. reflexivity.
Qed.
Lemma counted_find : forall s l, find_name s (counted l) = option_map Z.of_nat (find_index (String.eqb s) l).
Proof. intros s l. exact (counted_find_from s l 0). Qed.
Lemma literal_int : forall n, exists t, literal n = VInt t n.
Proof. intros n. unfold literal. destruct (n <? 2147483648)%Z; eexists; reflexivity. Qed.

Section Values.
Variable names : list string.
Notation P := (token_program names).

Lemma token_eval : forall st s, eval P st (token_expr s) = option_map (fun k => token_value k) (find_index (String.eqb s) (enumerators names)).
Proof.
  intros st s. unfold token_expr. change (eval P st (EName ["TokenType"; s])) with (match find_name s (counted (enumerators names)) with Some z => Some (VEnum "TokenType" z) | None => None end).
  rewrite counted_find. destruct (find_index (String.eqb s) (enumerators names)); reflexivity.
Qed.
Lemma label_number : forall a b, (0 <= a <= b)%Z -> (b < 4294967296)%Z -> label_bounds P (ENum a) (ENum b) = Some (Between None a b).
Proof.
  intros a b L H. unfold label_bounds. cbn [eval]. destruct (literal_int a) as (t & ->). destruct (literal_int b) as (t' & ->).
  replace ((0 <=? a) && (a <=? b) && (b <? 4294967296))%Z with true; [reflexivity|]. symmetry. rewrite !andb_true_iff, !Z.leb_le, Z.ltb_lt. lia.
Qed.
Lemma in_number : forall t z a b, (0 <= a <= b)%Z -> (b < 4294967296)%Z -> in_label P (VInt t z) (ENum a) (ENum b) = Some ((a <=? z) && (z <=? b))%Z.
Proof. intros t z a b L H. unfold in_label. rewrite (label_number a b L H). reflexivity. Qed.

(** ** The checks of a compiler *)

Definition range_bounds (x : N * N) : bounds := Between None (Z.of_N (fst x)) (Z.of_N (snd x)).
Lemma apart_sym_ranges : forall x y : N * N, (snd x < fst y \/ snd y < fst x)%N -> apart (range_bounds x) (range_bounds y) = true.
Proof. intros (a, b) (c, e) H. cbn in *. apply orb_true_iff. rewrite !Z.ltb_lt. lia. Qed.
Lemma alpha_labels : forall al i, (forall a b, In (a, b) al -> (a <= b < 2 ^ 32)%N) -> ForallOrdPairs (fun x y => (snd x < fst y \/ snd y < fst x)%N) al ->
  labels P (alpha_items i al error_default) = Some (map range_bounds al, 1).
Proof.
  induction al as [|(a, b) al IH]; intros i R D; [reflexivity|]. cbn [alpha_items labels fst snd]. specialize (R a b (or_introl eq_refl)) as R0. rewrite label_number; [|lia|lia].
  rewrite IH; [|intros x y I; apply R; right; exact I|inversion D; assumption]. replace (forallb (apart (Between None (Z.of_N a) (Z.of_N b))) (map range_bounds al)) with true; [reflexivity|].
  symmetry. apply forallb_forall. intros x X. apply in_map_iff in X. destruct X as (y & <- & Y). apply (apart_sym_ranges (a, b) y). inversion D as [|? ? F _]. subst. rewrite Forall_forall in F. exact (F y Y).
Qed.
Lemma alpha_no_decls : forall al i b, no_decls b = true -> no_decls (alpha_items i al b) = true.
Proof. induction al as [|x al IH]; intros i b H; [exact H|]. cbn. apply IH. exact H. Qed.
Lemma alpha_checks : forall al i b, checks_items P b = true -> checks_items P (alpha_items i al b) = true.
Proof. induction al as [|x al IH]; intros i b H; [exact H|]. cbn. apply IH. exact H. Qed.
Lemma token_ok : forall s, In s (enumerators names) -> names_ok P (token_expr s) = true.
Proof.
  intros s H. pose proof (token_eval (mkStore [] []) s) as E. unfold token_expr in *. cbn [names_ok eval] in *.
  assert (F : find_index (String.eqb s) (enumerators names) <> None).
  { intros X. revert X H. generalize (enumerators names). induction l as [|a l IH]; intros X H; [destruct H|]. cbn [find_index] in X. destruct (String.eqb s a) eqn:Q; [discriminate|].
    destruct H as [->|H]; [rewrite String.eqb_refl in Q; discriminate|]. destruct (find_index (String.eqb s) l); [discriminate|]. apply IH; [reflexivity|exact H]. }
  destruct (find_index (String.eqb s) (enumerators names)); [|congruence]. cbn [option_map] in E.
  change (match enumerator_value P ["TokenType"; s] with Some _ => true | None => false end = true). rewrite E. reflexivity.
Qed.

Lemma err_in : In "TK_ERR" (enumerators names). Proof. left. reflexivity. Qed.
Lemma eof_in : In "TK_EOF" (enumerators names). Proof. right. left. reflexivity. Qed.
Lemma error_checks : checks_items P error_default = true.
Proof. cbn [error_default checks_items checks return_token]. rewrite (token_ok "TK_ERR" err_in). reflexivity. Qed.
Lemma alphabet_checks : forall al, ranges_fit al -> checks P (alphabet_stmt al) = true.
Proof.
  intros al (R & D & _). unfold alphabet_stmt. cbn [checks names_ok]. rewrite (alpha_labels al 0 R D), alpha_no_decls by reflexivity. rewrite alpha_checks by exact error_checks. reflexivity.
Qed.

Definition node_known (node : astate token_rule) : Prop := match node with Accepting r => In (tr_name r) names | _ => True end.
Lemma move_labels : forall l node, NoDup (map fst l) -> (forall t v, In (t, v) l -> (N.of_nat t < 2 ^ 32)%N) ->
  labels P (move_items l (default_items node)) = Some (map (fun t => Between None (Z.of_nat t) (Z.of_nat t)) (filter (fun t => negb (Nat.eqb t 0)) (map fst l)), 1).
Proof.
  induction l as [|(t, v) l IH]; intros node D F; [destruct node; reflexivity|]. cbn [map fst] in *. inversion D as [|? ? NI D']. subst. specialize (IH node D' (fun t v I => F t v (or_intror I))).
  cbn [move_items filter]. destruct (Nat.eqb t 0) eqn:T; [exact IH|]. cbn [negb labels map]. specialize (F t v (or_introl eq_refl)). rewrite label_number; [|lia|lia]. rewrite IH.
  match goal with |- context [forallb ?f ?x] => replace (forallb f x) with true; [reflexivity|] end. symmetry. apply forallb_forall. intros x X. apply in_map_iff in X. destruct X as (u & <- & U).
  apply filter_In in U. destruct U as (U & _). assert (t <> u) by (intros ->; exact (NI U)). cbn. apply orb_true_iff. rewrite !Z.ltb_lt. lia.
Qed.
Lemma move_no_decls : forall l node, no_decls (move_items l (default_items node)) = true.
Proof. induction l as [|(t, v) l IH]; intros node; [destruct node; reflexivity|]. cbn [move_items]. destruct (Nat.eqb t 0); [apply IH|]. cbn. apply IH. Qed.
Lemma move_checks : forall l node, node_known node -> checks_items P (move_items l (default_items node)) = true.
Proof.
  induction l as [|(t, v) l IH]; intros node K.
  - destruct node as [r|k]; cbn [move_items default_items checks_items checks return_token this names_ok andb]; rewrite token_ok; try reflexivity; [|exact err_in]. do 2 right. apply in_map_iff. exists (tr_name r). split; [reflexivity|exact K].
  - cbn [move_items]. destruct (Nat.eqb t 0); [apply IH; exact K|]. cbn. apply IH. exact K.
Qed.
Lemma inner_checks : forall d index node, automaton_fits d -> index < List.length (dfa_nodes d) -> node_known node -> checks P (SSwitch (EName ["i"]) (inner_items d index node)) = true.
Proof.
  intros d index node (_ & F) L K. destruct (F index L) as (D & T). unfold inner_items. cbv zeta. pose proof (move_labels (transitions_from d index) node D (fun t v I => proj1 (T t v I))) as ML.
  pose proof (move_no_decls (transitions_from d index) node) as MN. pose proof (move_checks (transitions_from d index) node K) as MC. cbn [checks names_ok]. destruct (Nat.eqb index 0).
  - cbn [no_decls checks_items labels checks return_token]. rewrite MN, MC, ML, (token_ok "TK_EOF" eof_in). rewrite label_number by lia.
    match goal with |- context [forallb ?f ?x] => replace (forallb f x) with true; [reflexivity|] end. symmetry. apply forallb_forall. intros x X. apply in_map_iff in X. destruct X as (u & <- & U).
    apply filter_In in U. destruct U as (_ & U). apply negb_true_iff in U. apply Nat.eqb_neq in U. cbn. apply orb_true_iff. rewrite !Z.ltb_lt. lia.
  - rewrite MN, MC, ML. reflexivity.
Qed.
Lemma state_labels : forall nodes d index, (N.of_nat (index + List.length nodes) <= 2 ^ 32)%N ->
  labels P (state_items d index nodes error_default) = Some (map (fun k => Between None (Z.of_nat k) (Z.of_nat k)) (seq index (List.length nodes)), 1).
Proof.
  induction nodes as [|node nodes IH]; intros d index L; [reflexivity|]. cbn [List.length] in L. cbn [state_items labels List.length seq map]. rewrite label_number; [|lia|lia]. rewrite IH by lia.
  match goal with |- context [forallb ?f ?x] => replace (forallb f x) with true; [reflexivity|] end. symmetry. apply forallb_forall. intros x X. apply in_map_iff in X. destruct X as (u & <- & U).
  apply in_seq in U. cbn. apply orb_true_iff. rewrite !Z.ltb_lt. lia.
Qed.
Lemma state_no_decls : forall nodes d index, no_decls (state_items d index nodes error_default) = true.
Proof. induction nodes as [|node nodes IH]; intros d index; [reflexivity|]. cbn. apply IH. Qed.
Lemma state_checks : forall nodes d index, automaton_fits d -> index + List.length nodes <= List.length (dfa_nodes d) -> (forall node, In node nodes -> node_known node) ->
  checks_items P (state_items d index nodes error_default) = true.
Proof.
  induction nodes as [|node nodes IH]; intros d index F L K; [exact error_checks|]. cbn [List.length] in L. cbn [state_items]. change (checks P (SSwitch (EName ["i"]) (inner_items d index node)) && (checks P SBreak && checks_items P (state_items d (S index) nodes error_default)) = true).
  rewrite inner_checks; [|exact F|lia|apply K; left; reflexivity]. rewrite IH; [reflexivity|exact F|lia|intros x X; apply K; right; exact X].
Qed.
Lemma automaton_checks : forall d, automaton_fits d -> (forall node, In node (dfa_nodes d) -> node_known node) -> checks P (automaton_stmt d) = true.
Proof.
  intros d F K. unfold automaton_stmt. cbn [checks names_ok]. rewrite state_no_decls, state_labels, (state_checks _ _ _ F); [reflexivity|lia|exact K|]. destruct F as (L & _). exact L.
Qed.
Lemma next_checks : forall al d, ranges_fit al -> automaton_fits d -> (forall node, In node (dfa_nodes d) -> node_known node) -> checks P (next_body al d) = true.
Proof.
  intros al d R F K. unfold next_body, turn.
  assert (E : checks P (return_token "TK_ERR") = true) by exact (token_ok "TK_ERR" err_in).
  pose proof (alphabet_checks al R) as A. pose proof (automaton_checks d F K) as B. remember (alphabet_stmt al) as sa eqn:Ea. remember (automaton_stmt d) as sb eqn:Eb. remember (return_token "TK_ERR") as e eqn:Ee.
  cbn [checks checks_items labels]. rewrite A, B, E. reflexivity.
Qed.
End Values.
