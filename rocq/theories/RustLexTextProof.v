(** Proofs about the code of emitted Rust lexers. *)
From Coq Require Import String Ascii List Arith NArith Bool Lia.
From Verif Require Import Base InputModel LexerModel TemplateModel TemplateFiles GrammarModel LRModel NamesModel NamesSpec NamesProof NamesVisitProof RustTokenSpec RustQuoteModel RustSpec RustLexTextModel RustLexTextSpec.
Import ListNotations.
Local Open Scope string_scope.
Local Open Scope list_scope.

(** ** Expanding *)

Definition comma (e : list tree) : list tree := e ++ [TPunct ","].
Definition in_arms (l : list (list tree)) : list tree := concat (map comma l).
Fixpoint unrepeated (fuel : nat) (l : list tree) : list tree :=
  match fuel with
  | O => []
  | S fuel =>
    match l with
    | TPunct "#" :: TGroup Paren [TPunct "#"; TId x; TPunct ","] :: TPunct "*" :: r => TPunct "#" :: TId x :: unrepeated fuel r
    | TGroup d g :: r => TGroup d (unrepeated fuel g) :: unrepeated fuel r
    | t :: r => t :: unrepeated fuel r
    | [] => []
    end
  end.
Definition lexer_file : list tree -> list tree -> list tree -> list tree := Eval vm_compute in fun a b c =>
  match quote_of (unrepeated 400 lexer_code) [("alphabet_cases", One a); ("alphabet_reverse_cases", One b); ("automaton_cases", One c)] with Some l => l | None => [] end.
Lemma separated_concat : forall l, separated [] l = concat l.
Proof. induction l as [|x [|y l] IH]; [reflexivity|cbn; rewrite app_nil_r; reflexivity|]. change (separated [] (x :: y :: l)) with (x ++ separated [] (y :: l)). rewrite IH. reflexivity. Qed.
Lemma lexer_quoted : forall a b c, quote_of lexer_code [("alphabet_cases", Many a); ("alphabet_reverse_cases", Many b); ("automaton_cases", Many c)] = Some (lexer_file (in_arms a) (in_arms b) (in_arms c)).
Proof.
  intros a b c. unfold quote_of, lexer_code, lexer_file. cbv -[fold_right app separated in_arms].
  repeat match goal with |- context [fold_right ?f (Some []) ?l] => replace (fold_right f (Some []) l) with (Some (map comma l)) by (symmetry; induction l as [|e l IH]; [reflexivity|cbn [fold_right]; rewrite IH; reflexivity]) end.
  rewrite !separated_concat. reflexivity.
Qed.

(** The arms as tokens. *)
Definition usize_tree (n : nat) : tree := TInt (N.of_nat n) "usize".
Definition index_tokens (i : nat) (r : N * N) : list tree :=
  (if (fst r =? snd r)%N then [TInt (fst r) "u32"] else [TInt (fst r) "u32"; TPunct "..="; TInt (snd r) "u32"]) ++ [TPunct "=>"; TId "Some"; TGroup Paren [usize_tree i]].
Definition reverse_tokens (i : nat) (r : N * N) : list tree :=
  [usize_tree i; TPunct "=>"; TId "Some"; TGroup Paren [TInt (fst r) "u32"; TPunct "..="; TInt (snd r) "u32"]].
Definition enum_name (r : token_rule) : string := match get_token_enum_name (tr_name r) with Ok n => n | _ => "" end.
Definition action_tokens (a : lex_action) : list tree :=
  match a with
  | ActEof => [TId "return"; TId "Ok"; TGroup Paren [TId "TokenType"; TPunct "::"; TId "EndOfFile"]; TPunct ";"]
  | ActToken r => [TId "return"; TId "Ok"; TGroup Paren [TId "TokenType"; TPunct "::"; TId (enum_name r)]; TPunct ";"]
  | ActMove v =>
    [TId "let"; TId "next_ch"; TPunct "="; TId "self"; TPunct "."; TId "char_iter"; TPunct "."; TId "next"; TGroup Paren []; TPunct "."; TId "unwrap"; TGroup Paren []; TPunct ";";
     TId "self"; TPunct "."; TId "position"; TPunct "+="; TId "next_ch"; TPunct "."; TId "len_utf8"; TGroup Paren []; TPunct ";"; TId "state"; TPunct "="; usize_tree v; TPunct ";"]
  | ActUnexpected =>
    [TId "return"; TId "Err"; TGroup Paren [TId "LexerError"; TPunct "::"; TId "UnexpectedAlphabet"; TGroup Brace
      [TId "range"; TPunct ":"; TId "Lexer"; TPunct "::"; TId "get_alphabet_range"; TGroup Paren [TId "transition"]; TPunct "."; TId "unwrap"; TGroup Paren []]]; TPunct ";"]
  end.
Definition symbol_token (t : option nat) (a : lex_action) : tree :=
  match t, a with
  | _, ActEof => TInt 0 ""
  | Some t, _ => usize_tree t
  | None, ActUnexpected => TId "transition"
  | None, _ => TId "_"
  end.
Definition case_tokens (c : lex_case) : list tree :=
  let '(s, t, a) := c in [TGroup Paren [usize_tree s; TPunct ","; symbol_token t a]; TPunct "=>"; TGroup Brace (action_tokens a)].

Lemma res_list_ok : forall {A B E} (f : A -> res E B) (g : A -> B) l, (forall a, In a l -> f a = Ok (g a)) -> res_list (map f l) = Ok (map g l).
Proof. intros A B E f g l H. induction l as [|a l IH]; [reflexivity|]. cbn [map res_list]. rewrite (H a (or_introl eq_refl)). cbn [bind]. rewrite IH; [reflexivity|]. intros x X. apply H. right. exact X. Qed.
Definition index_lists (al : alphabet) : list (list tree) := map (fun ir => index_tokens (fst ir) (snd ir)) (enumerate al).
Definition reverse_lists (al : alphabet) : list (list tree) := map (fun ir => reverse_tokens (fst ir) (snd ir)) (enumerate al).
Lemma alphabet_written : forall al, alphabet_arms al = Ok (index_lists al, reverse_lists al).
Proof.
  intros al. unfold alphabet_arms, index_lists, reverse_lists. rewrite (res_list_ok _ (fun ir => index_tokens (fst ir) (snd ir))).
  - cbn [bind]. rewrite (res_list_ok _ (fun ir => reverse_tokens (fst ir) (snd ir))); [reflexivity|]. intros (i, (a, b)) _. reflexivity.
  - intros (i, (a, b)) _. unfold alphabet_case, index_tokens. cbn [fst snd]. destruct (a =? b)%N; reflexivity.
Qed.

(** ** Names *)

Definition named (s : string) : Prop := forall c, In c (chars s) -> name_char c = true.
Lemma add_char_ascii : forall s c, add_char s (N_of_ascii c) = String.append s (String c EmptyString).
Proof. intros s c. unfold add_char. rewrite ascii_N_embedding. reflexivity. Qed.
Lemma append_assoc : forall a b c : string, String.append (String.append a b) c = String.append a (String.append b c).
Proof. induction a as [|x a IH]; intros b c; [reflexivity|]. cbn. rewrite IH. reflexivity. Qed.
Lemma append_nil : forall a : string, String.append a "" = a. Proof. induction a as [|x a IH]; [reflexivity|]. cbn. rewrite IH. reflexivity. Qed.
Lemma scan_named : forall s v t, named s -> scan_tokens (AWord v) (chars s ++ t) = scan_tokens (AWord (String.append v s)) t.
Proof.
  induction s as [|c s IH]; intros v t H.
  - cbn. rewrite append_nil. reflexivity.
  - change (chars (String c s) ++ t) with (N_of_ascii c :: chars s ++ t). cbn [scan_tokens next_token_char]. assert (E : is_letter (N_of_ascii c) || is_digit (N_of_ascii c) = true) by (apply H; left; reflexivity). rewrite E.
    rewrite IH by (intros x X; apply H; right; exact X). rewrite add_char_ascii, append_assoc. cbn [String.append]. destruct (scan_tokens _ t); reflexivity.
Qed.
Lemma stream_named : forall s, named s -> stream_of ("Tk" ++ s) = Some [TId ("Tk" ++ s)].
Proof.
  intros s H. unfold stream_of, trees. change (chars ("Tk" ++ s)) with (chars "Tk" ++ chars s). rewrite <- (app_nil_r (chars s)).
  assert (E : scan_tokens Between (chars "Tk" ++ chars s ++ []) = scan_tokens (AWord "Tk") (chars s ++ [])). { cbn. destruct (scan_tokens (AWord "Tk") (chars s ++ [])); reflexivity. }
  rewrite E, scan_named by exact H. reflexivity.
Qed.

Lemma named_cons : forall c s, named (String c s) <-> name_char (N_of_ascii c) = true /\ named s.
Proof. intros c s. unfold named. cbn [chars list_ascii_of_string map]. split; [intros H; split; [apply H; left; reflexivity|intros x X; apply H; right; exact X]|]. intros [A B] x [<-|X]; auto. Qed.
Lemma named_upper : forall c, name_char (N_of_ascii c) = true -> name_char (N_of_ascii (ascii_upper c)) = true.
Proof. intros [[] [] [] [] [] [] [] []]; vm_compute; auto. Qed.
Lemma named_lower : forall c, name_char (N_of_ascii c) = true -> name_char (N_of_ascii (ascii_lower c)) = true.
Proof. intros [[] [] [] [] [] [] [] []]; vm_compute; auto. Qed.
Lemma named_ascii : forall s, named s -> ascii_name s.
Proof.
  induction s as [|c s IH]; intros H; [exact I|]. apply named_cons in H. destruct H as [A B]. split; [|exact (IH B)]. unfold name_char, is_letter, is_digit in A.
  repeat rewrite ?orb_true_iff, ?andb_true_iff, ?N.leb_le, ?N.eqb_eq in A. lia.
Qed.
Lemma named_camel : forall s b x, named s -> camel_from b s = Some x -> named x.
Proof.
  induction s as [|c s IH]; intros b x H E; cbn [camel_from] in E.
  - destruct b; inversion E. intros ? [].
  - apply named_cons in H. destruct H as [A B]. destruct b; destruct (Ascii.eqb c "_"); try discriminate; [|exact (IH _ _ B E)|]; (destruct (camel_from false s) as [y|] eqn:Y; inversion E; subst x); apply named_cons; split; auto using named_upper, named_lower; exact (IH _ _ B Y).
Qed.
(** The token of a name, and the other cases. *)
Lemma enum_named : forall s n, named s -> get_token_enum_name s = Ok n -> exists x, n = ("Tk" ++ x)%string /\ named x.
Proof.
  intros s n H E. unfold get_token_enum_name in E. rewrite (proj2 (camel_auto s (named_ascii s H))) in E. destruct (camel_from true s) as [x|] eqn:X; [|discriminate]. cbn in E. inversion E; subst n. exists x. split; [reflexivity|exact (named_camel _ _ _ H X)].
Qed.
Lemma scan_line : forall s t, named s -> scan_tokens Between (chars (("Tk" ++ s) ++ ",
")%string ++ t) = option_map (fun l => FTok (TId ("Tk" ++ s)%string) :: FTok (TPunct ",") :: l) (scan_tokens Between t).
Proof.
  intros s t H. replace (chars (("Tk" ++ s) ++ ",
")%string ++ t) with (chars "Tk" ++ chars s ++ chars ",
" ++ t).
  - assert (E : forall r, scan_tokens Between (chars "Tk" ++ r) = scan_tokens (AWord "Tk") r). { intros r. cbn. destruct (scan_tokens (AWord "Tk") r); reflexivity. }
    rewrite E, scan_named by exact H. cbn. destruct (scan_tokens Between t); reflexivity.
  - unfold chars. assert (A : forall a b : string, list_ascii_of_string (a ++ b)%string = list_ascii_of_string a ++ list_ascii_of_string b). { induction a as [|c a IH]; intros b; [reflexivity|]. cbn. rewrite IH. reflexivity. }
    rewrite !A, !map_app, <- !app_assoc. reflexivity.
Qed.
Definition variant_tokens (l : list string) : list tree := concat (map (fun n => [TId n; TPunct ","]) l).
Lemma chars_append : forall a b : string, chars (a ++ b)%string = chars a ++ chars b.
Proof. intros a b. unfold chars. rewrite <- map_app. f_equal. induction a as [|c a IH]; [reflexivity|]. cbn. rewrite IH. reflexivity. Qed.
Lemma group_plain : forall l acc, group_tokens (map FTok l) acc [] = Some (rev acc ++ l).
Proof. induction l as [|t l IH]; intros acc; cbn [map group_tokens]; [rewrite app_nil_r; reflexivity|]. rewrite IH. cbn [rev]. rewrite <- app_assoc. reflexivity. Qed.
Lemma stream_variants : forall l, (forall n, In n l -> exists x, n = ("Tk" ++ x)%string /\ named x) -> stream_of (fold_right String.append "" (map (fun n => n ++ ",
")%string l)) = Some (variant_tokens l).
Proof.
  intros l H. unfold stream_of, trees. assert (E : scan_tokens Between (chars (fold_right String.append "" (map (fun n => (n ++ ",
")%string) l))) = Some (map FTok (variant_tokens l))).
  - induction l as [|n l IH]; [reflexivity|]. cbn [map fold_right]. rewrite chars_append. destruct (H n (or_introl eq_refl)) as (x & -> & X). rewrite scan_line by exact X.
    rewrite IH by (intros m M; apply H; right; exact M). reflexivity.
  - rewrite E. exact (group_plain _ []).
Qed.
Definition tokens_file (l : list tree) : list tree := Eval vm_compute in match quote_of tokens_code [("other_tokens", One l)] with Some l => l | None => [] end.
Lemma tokens_written : forall names ns, (forall n, In n names -> named n) -> res_list (map get_token_enum_name names) = Ok ns -> tokens_rs names = Ok (tokens_file (variant_tokens ns)).
Proof.
  intros names ns H E. unfold tokens_rs, other_tokens. rewrite E. cbn [bind]. rewrite stream_variants; [reflexivity|]. clear -H E. revert ns E. induction names as [|a l IH]; intros ns E; cbn [map res_list] in E.
  - inversion E. intros n [].
  - destruct (get_token_enum_name a) as [x| | |] eqn:X; cbn [bind] in E; try discriminate. destruct (res_list (map get_token_enum_name l)) as [y| | |]; cbn [bind] in E; try discriminate. inversion E; subst ns. intros n [<-|Y].
    + exact (enum_named _ _ (H a (or_introl eq_refl)) X).
    + exact (IH (fun m M => H m (or_intror M)) _ eq_refl n Y).
Qed.
Lemma listed_variants : forall l fuel, (2 * List.length l <= fuel)%nat -> listed fuel parse_variant (variant_tokens l) = Some l.
Proof.
  induction l as [|n l IH]; intros fuel H; [destruct fuel; reflexivity|]. cbn [List.length] in H. destruct fuel as [|fuel]; [lia|]. cbn [variant_tokens map concat app listed parse_variant].
  change (concat (map (fun n0 => [TId n0; TPunct ","]) l)) with (variant_tokens l). rewrite IH by lia. reflexivity.
Qed.
Lemma tokens_enum : forall l, enum_of "TokenType" (tokens_file (variant_tokens l)) = Some ("EndOfFile" :: l).
Proof.
  intros l. assert (E : forall t, enum_of "TokenType" (tokens_file t) = listed (S (S (List.length t))) parse_variant (TId "EndOfFile" :: TPunct "," :: t)). { intros t. rewrite <- (app_nil_r t) at 2 3. reflexivity. }
  rewrite E. assert (S : forall fuel n r, listed (Datatypes.S fuel) parse_variant (TId n :: TPunct "," :: r) = match listed fuel parse_variant r with Some v => Some (n :: v) | None => None end) by reflexivity.
  rewrite S, listed_variants; [reflexivity|]. clear. assert (List.length (variant_tokens l) = 2 * List.length l)%nat by (induction l as [|n l IH]; [reflexivity|]; cbn [List.length variant_tokens map concat app]; change (concat (map (fun n0 => [TId n0; TPunct ","]) l)) with (variant_tokens l); lia). lia.
Qed.

(** ** The arms *)

Lemma res_list_app : forall {A E} (l l' : list (res E A)) a b, res_list l = Ok a -> res_list l' = Ok b -> res_list (l ++ l') = Ok (a ++ b).
Proof.
  intros A E l. induction l as [|x l IH]; intros l' a b X Y; cbn [app res_list] in *; [inversion X; exact Y|]. destruct x as [x| | |]; cbn [bind] in *; try discriminate.
  destruct (res_list l) as [v| | |] eqn:V; cbn [bind] in X; try discriminate. inversion X; subst a. rewrite (IH l' v b eq_refl Y). reflexivity.
Qed.
Lemma moves_written : forall j tr, res_list (map (@expanded) (concat (map (move_cases j) tr))) = Ok (map case_tokens (flat_map (fun tv => let '(t, v) := tv in if Nat.eqb t 0 then [] else [(j, Some t, ActMove v)]) tr)).
Proof.
  induction tr as [|(t, v) tr IH]; [reflexivity|]. cbn [map concat flat_map]. rewrite !map_app. apply res_list_app; [|exact IH]. unfold move_cases. cbn [fst snd]. destruct (Nat.eqb t 0); reflexivity.
Qed.

Lemma state_written : forall d j node, named_node node -> rust_state_cases d j node = Ok (map case_tokens (state_cases d j node)).
Proof.
  intros d j node H. unfold rust_state_cases, state_cases. rewrite map_app. set (moves := flat_map _ (transitions_from d j)).
  assert (E : res_list (map expanded (if Nat.eqb j 0 then [quote_of eof_code [("state_id", usize_token j)]] else [])) = Ok (map case_tokens (if Nat.eqb j 0 then [(j, Some O, ActEof)] else []))) by (destruct (Nat.eqb j 0); reflexivity).
  rewrite (res_list_app _ _ _ _ E (moves_written j (transitions_from d j))). cbn [bind]. fold moves. rewrite !map_app.
  assert (D : default_case j node = Ok (case_tokens (j, None, match node with Accepting r => ActToken r | Intermediate _ => ActUnexpected end))).
  - destruct node as [r|r]; cbn [named_node default_case] in *; [|reflexivity]. destruct H as (H & n & En). unfold case_tokens, action_tokens, enum_name. rewrite En. cbn [bind]. destruct (enum_named _ _ H En) as (x & -> & X). rewrite (stream_named x X). reflexivity.
  - rewrite D. cbn [bind]. rewrite <- app_assoc. destruct node; reflexivity.
Qed.
Lemma automaton_written : forall d, (forall node, In node (dfa_nodes d) -> named_node node) -> automaton_arms d = Ok (map case_tokens (automaton_cases d)).
Proof.
  intros d H. unfold automaton_arms, automaton_cases, enumerate. assert (E : forall l j, (forall node, In node l -> named_node node) ->
    res_list (map (fun jn => rust_state_cases d (fst jn) (snd jn)) (enumerate_from j l)) = Ok (map (fun jn => map case_tokens (state_cases d (fst jn) (snd jn))) (enumerate_from j l)) /\ concat (map (fun jn => map case_tokens (state_cases d (fst jn) (snd jn))) (enumerate_from j l)) = map case_tokens (automaton_cases_from d j l)).
  - induction l as [|node l IH]; intros j HN; [split; reflexivity|]. destruct (IH (S j) (fun n X => HN n (or_intror X))) as [A B]. cbn [enumerate_from map res_list fst snd automaton_cases_from concat]. rewrite A, B, (state_written d j node (HN node (or_introl eq_refl))), map_app. split; reflexivity.
  - destruct (E _ 0%nat H) as [A B]. rewrite A. cbn [bind]. rewrite B. reflexivity.
Qed.
Definition lexer_tokens (al : alphabet) (d : dfa token_rule) : list tree := lexer_file (in_arms (index_lists al)) (in_arms (reverse_lists al)) (in_arms (map case_tokens (automaton_cases d))).
Lemma lexer_written : forall al d, (forall node, In node (dfa_nodes d) -> named_node node) -> lexer_rs al d = Ok (lexer_tokens al d).
Proof. intros al d H. unfold lexer_rs. rewrite alphabet_written. cbn [bind]. rewrite (automaton_written d H). cbn [bind]. rewrite lexer_quoted. reflexivity. Qed.

(** ** Parsing *)

Definition an_arm (P : parsers) (x : list tree) (p : pat) (e : expr) : Prop :=
  forall fuel rest, parse_arms P (S fuel) (comma x ++ rest) = match parse_arms P fuel rest with Some v => Some (ACons p e v) | None => None end.
Fixpoint arms_before (l : list (pat * expr)) (v : arms) : arms := match l with [] => v | (p, e) :: l => ACons p e (arms_before l v) end.
Lemma arms_parsed : forall P {A} (x : A -> list tree) (pe : A -> pat * expr) l end_ v, (forall a, In a l -> an_arm P (x a) (fst (pe a)) (snd (pe a))) -> (forall fuel, parse_arms P (S fuel) end_ = Some v) ->
  forall fuel, (List.length l < fuel)%nat -> parse_arms P fuel (in_arms (map x l) ++ end_) = Some (arms_before (map pe l) v).
Proof.
  intros P A x pe l end_ v. induction l as [|a l IH]; intros H E fuel L; cbn [List.length] in L; (destruct fuel as [|fuel]; [lia|]).
  - exact (E fuel).
  - unfold in_arms. cbn [map concat]. rewrite <- app_assoc. rewrite (H a (or_introl eq_refl)). change (concat (map comma (map x l))) with (in_arms (map x l)). rewrite IH; [|intros b B; apply H; right; exact B|exact E|lia]. cbn [arms_before]. destruct (pe a); reflexivity.
Qed.
Lemma in_arms_length : forall l end_, (0 < List.length end_ -> List.length l < List.length (in_arms l ++ end_))%nat.
Proof. intros l end_ E. induction l as [|x l IH]; [exact E|]. unfold in_arms in *. cbn [map concat List.length]. rewrite <- app_assoc, app_length. unfold comma at 1. rewrite app_length. cbn [List.length]. lia. Qed.

Definition index_arm (ir : nat * (N * N)) : pat * expr :=
  ((if (fst (snd ir) =? snd (snd ir))%N then PLit (fst (snd ir)) "u32" else PBetween (fst (snd ir)) (snd (snd ir)) "u32"), ECall (EPath ["Some"]) (XCons (EInt (N.of_nat (fst ir)) "usize") XNil)).
Definition reverse_arm (ir : nat * (N * N)) : pat * expr :=
  (PLit (N.of_nat (fst ir)) "usize", ECall (EPath ["Some"]) (XCons (ERange true (EInt (fst (snd ir)) "u32") (EInt (snd (snd ir)) "u32")) XNil)).
Definition case_pat (c : lex_case) : pat :=
  let '(s, t, a) := c in
  PTuple [PLit (N.of_nat s) "usize"; match t, a with _, ActEof => PLit 0 "" | Some t, _ => PLit (N.of_nat t) "usize" | None, ActUnexpected => PBind "transition" | None, _ => PWild end].
Definition action_block (a : lex_action) : block :=
  match a with
  | ActEof => BStmt (EReturn (ECall (EPath ["Ok"]) (XCons (EPath ["TokenType"; "EndOfFile"]) XNil))) BNil
  | ActToken r => BStmt (EReturn (ECall (EPath ["Ok"]) (XCons (EPath ["TokenType"; enum_name r]) XNil))) BNil
  | ActMove v =>
    BLet (PBind "next_ch") None (EMethod (EMethod (EField (EPath ["self"]) "char_iter") "next" XNil) "unwrap" XNil)
      (BStmt (EAddAssign (EField (EPath ["self"]) "position") (EMethod (EPath ["next_ch"]) "len_utf8" XNil)) (BStmt (EAssign (EPath ["state"]) (EInt (N.of_nat v) "usize")) BNil))
  | ActUnexpected =>
    BStmt (EReturn (ECall (EPath ["Err"]) (XCons (EStruct ["LexerError"; "UnexpectedAlphabet"] ["range"] (XCons (EMethod (ECall (EPath ["Lexer"; "get_alphabet_range"]) (XCons (EPath ["transition"]) XNil)) "unwrap" XNil) XNil)) XNil))) BNil
  end.
Definition case_arm (c : lex_case) : pat * expr := (case_pat c, EBlock (action_block (snd c))).
Lemma arm_block : forall P xp g p b, (forall rest, p_pat P (xp ++ TPunct "=>" :: rest) = Some (p, TPunct "=>" :: rest)) -> p_block P g = Some b -> an_arm P (xp ++ [TPunct "=>"; TGroup Brace g]) p (EBlock b).
Proof.
  intros P xp g p b HP HB fuel rest. unfold comma. rewrite <- !app_assoc. cbn [app]. specialize (HP (TGroup Brace g :: TPunct "," :: rest)). destruct xp as [|t xp].
  - cbn [app parse_arms] in *. rewrite HP. cbn [parse_blocklike]. rewrite HB. reflexivity.
  - cbn [app parse_arms] in *. rewrite HP. cbn [parse_blocklike]. rewrite HB. reflexivity.
Qed.
Definition no_block (l : list tree) : bool := match l with TGroup Brace _ :: _ => false | [] => false | _ => true end.
Lemma arm_expr : forall P xp xe p e, (forall rest, p_pat P (xp ++ TPunct "=>" :: rest) = Some (p, TPunct "=>" :: rest)) -> (forall rest, p_expr P false (xe ++ TPunct "," :: rest) = Some (e, TPunct "," :: rest)) -> no_block xe = true ->
  an_arm P (xp ++ TPunct "=>" :: xe) p e.
Proof.
  intros P xp xe p e HP HE HN fuel rest. unfold comma. rewrite <- !app_assoc. cbn [app]. specialize (HP (xe ++ TPunct "," :: rest)). specialize (HE rest).
  assert (B : match xe ++ TPunct "," :: rest with TGroup Brace _ :: _ => true | _ => false end = false) by (destruct xe as [|[]]; try discriminate; try reflexivity; destruct d; try discriminate; reflexivity).
  destruct xp as [|t xp]; cbn [app parse_arms] in *; rewrite HP; cbv zeta; rewrite B, HE; reflexivity.
Qed.
Lemma index_arm_parsed : forall n ir, an_arm (rust_parsers (10 + n)) (index_tokens (fst ir) (snd ir)) (fst (index_arm ir)) (snd (index_arm ir)).
Proof.
  intros n (i, (a, b)). unfold index_tokens, index_arm. cbn [fst snd]. apply (arm_expr _ _ [TId "Some"; TGroup Paren [usize_tree i]]); [|reflexivity|reflexivity]. intros rest. destruct (a =? b)%N; reflexivity.
Qed.
Lemma reverse_arm_parsed : forall n ir, an_arm (rust_parsers (10 + n)) (reverse_tokens (fst ir) (snd ir)) (fst (reverse_arm ir)) (snd (reverse_arm ir)).
Proof. intros n (i, (a, b)). apply (arm_expr _ [usize_tree i] [TId "Some"; TGroup Paren [TInt a "u32"; TPunct "..="; TInt b "u32"]]); reflexivity. Qed.
Lemma action_parsed : forall n a, p_block (rust_parsers (16 + n)) (action_tokens a) = Some (action_block a).
Proof. intros n a. destruct a; reflexivity. Qed.
Lemma case_arm_parsed : forall n c, an_arm (rust_parsers (16 + n)) (case_tokens c) (fst (case_arm c)) (snd (case_arm c)).
Proof. intros n ((s, t), a). apply (arm_block _ [TGroup Paren [usize_tree s; TPunct ","; symbol_token t a]]); [|apply action_parsed]. intros rest. destruct a, t; reflexivity. Qed.
