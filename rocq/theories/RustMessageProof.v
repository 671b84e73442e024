(** Proofs about the messages of errors in the emitted Rust code. *)
From Coq Require Import String Ascii List Arith NArith Bool Lia.
From Verif Require CppTextProof.
From Verif Require Import Base InputModel LexerModel LexerSpec LexerFactsProof GrammarModel GrammarSpec GrammarFactsProof LLModel LLSpec LRModel LRSpec LRTermSpec LRErrorSpec LRErrorFactsProof GLRSpec RunModel RunSpec RunProof
  TemplateModel TemplateFiles NamesModel NamesSpec NamesProof NamesVisitProof RustTokenSpec RustQuoteModel RustSpec RustLexTextModel RustLexTextSpec RustLexTextProof RustLexRunProof RustLexGenProof
  RustLRTextModel RustPullModel RustLRTextSpec RustLRTextProof RustLRParseProof RustLRRunProof RustLREndSpec RustLRGenProof RustMessageSpec.
Import ListNotations.
Local Open Scope string_scope.
Local Open Scope list_scope.

(** The message is unique. *)
Lemma shows_unique : forall dc file ty v s s', shows dc file ty v s -> shows dc file ty v s' -> s' = s.
Proof.
  intros dc file ty v s s' (g & ps & f & b & A & B & C & n & D) (g' & ps' & f' & b' & A' & B' & C' & n' & D'). assert (g' = g) as -> by congruence. assert (E : (ps', b') = (ps, b)) by congruence. injection E as -> ->.
  assert (f' = f) as -> by congruence. specialize (D (n + n')%nat ltac:(lia)). specialize (D' (n + n')%nat ltac:(lia)). congruence.
Qed.
Lemma shows_exact : forall dc file ty v s, shows dc file ty v s -> forall s', shows dc file ty v s' <-> s' = s.
Proof. intros dc file ty v s H s'. split; [exact (shows_unique dc file ty v s s' H)|intros ->; exact H]. Qed.

(** ** Parsers *)

Lemma debug_tokens : forall dc g l, debug dc (VVec (map (token_value g) l)) = Some ("[" ++ String.concat ", " (map (token_variant g) l) ++ "]")%string.
Proof.
  intros dc g l. cbn [debug]. assert (E : options (map (debug dc) (map (token_value g) l)) = Some (map (token_variant g) l)).
  { induction l as [|a l IH]; [reflexivity|]. cbn [map options]. rewrite IH. reflexivity. }
  rewrite E. reflexivity.
Qed.

(** The arms of [fmt] in parser.rs. *)
Definition parser_arms : list (pat * string * exprs) :=
  [(PFields ["ParserError"; "UnexpectedToken"] [("got", PBind "got"); ("expected", PBind "expected")], "Unexpected token {:?}, expected one of: {:?}", XCons (EPath ["got"]) (XCons (EPath ["expected"]) XNil))].
Definition parser_format : list tree := Eval vm_compute in match display_of "ParserError" (parser_file (TInt 0 "") [] [] [] [] [] []) with Some g => g | None => [] end.
Definition parser_body : list tree := Eval vm_compute in match function_of "fmt" parser_format with Some (_, [_; _; TGroup Brace g]) => g | _ => [] end.
Lemma parser_messages : forall m, parse_messages (rust_parsers (8 + m)) "f" (List.length parser_body) parser_body = Some parser_arms.
Proof. intros m. vm_compute. reflexivity. Qed.
Lemma parser_display : forall g p, display_of "ParserError" (parser_trees g p) = Some parser_format.
Proof. intros g p. assert (E : forall m en a b c d e f, display_of "ParserError" (whole_file m en a b c d e f) = Some parser_format) by (intros; reflexivity). apply E. Qed.
Lemma parser_shows : forall dc g p got expected, shows dc (parser_trees g p) "ParserError" (parser_error_value g (UnexpectedTok got expected)) (unexpected_message g got expected).
Proof.
  intros dc g p got expected. exists parser_format. eexists. exists "f", parser_body. split; [apply parser_display|]. split; [reflexivity|]. split; [reflexivity|]. exists 8%nat. intros n L.
  replace n with (8 + (n - 8))%nat by lia. unfold message. rewrite parser_messages.
  assert (E : message_of dc parser_arms (parser_error_value g (UnexpectedTok got expected)) = formatted dc "Unexpected token {:?}, expected one of: {:?}" [token_value g got; VVec (map (token_value g) expected)]) by reflexivity.
  rewrite E. assert (F : forall v l x y, debug dc v = Some x -> debug dc l = Some y -> formatted dc "Unexpected token {:?}, expected one of: {:?}" [v; l] = Some ("Unexpected token " ++ x ++ ", expected one of: " ++ y ++ "")%string).
  { intros v l x y X Y. cbn [formatted]. rewrite X, Y. reflexivity. }
  rewrite (F (token_value g got) (VVec (map (token_value g) expected)) (token_variant g got) _ ltac:(reflexivity) (debug_tokens dc g expected)). unfold unexpected_message. rewrite CppTextProof.append_nil. reflexivity.
Qed.
Lemma parser_derives : forall g p, has_derive (parser_trees g p) "ParserError" "Debug" /\ implements_error "ParserError" (parser_trees g p) = true.
Proof.
  intros g p. split.
  - exists ["Debug"]. split; [|left; reflexivity]. assert (E : forall m en a b c d e f, derived "ParserError" (whole_file m en a b c d e f) = Some ["Debug"]) by (intros; reflexivity). apply E.
  - assert (E : forall m en a b c d e f, implements_error "ParserError" (whole_file m en a b c d e f) = true) by (intros; reflexivity). apply E.
Qed.

(** The arms of [fmt] in lexer.rs. *)
Definition lexer_arms : list (pat * string * exprs) :=
  [(PFields ["LexerError"; "InvalidChar"] [("bad_ch", PBind "bad_ch")], "Lexer got strange codepoint {}, char value is '{:?}'",
    XCons (EPath ["bad_ch"]) (XCons (ECall (EPath ["std"; "char"; "from_u32"]) (XCons (EDeref (EPath ["bad_ch"])) XNil)) XNil));
   (PFields ["LexerError"; "UnexpectedAlphabet"] [("range", PBind "range")], "Lexer got char in unexpected range: {:?}", XCons (EPath ["range"]) XNil)].
Definition lexer_format : list tree := Eval vm_compute in match display_of "LexerError" (lexer_file [] [] []) with Some g => g | None => [] end.
Definition lexer_body : list tree := Eval vm_compute in match function_of "fmt" lexer_format with Some (_, [_; _; TGroup Brace g]) => g | _ => [] end.
Lemma lexer_messages : forall m, parse_messages (rust_parsers (8 + m)) "f" (List.length lexer_body) lexer_body = Some lexer_arms.
Proof. intros m. vm_compute. reflexivity. Qed.
Lemma lexer_display : forall al d, display_of "LexerError" (lexer_tokens al d) = Some lexer_format.
Proof. intros al d. assert (E : forall a b c, display_of "LexerError" (lexer_file a b c) = Some lexer_format) by (intros; reflexivity). apply E. Qed.
Lemma lexer_shows : forall dc al d e, shows dc (lexer_tokens al d) "LexerError" (error_value e) (lexer_message dc e).
Proof.
  intros dc al d e. exists lexer_format. eexists. exists "f", lexer_body. split; [apply lexer_display|]. split; [reflexivity|]. split; [reflexivity|]. exists 8%nat. intros n L.
  replace n with (8 + (n - 8))%nat by lia. unfold message. rewrite lexer_messages. destruct e as [c|(a, b)].
  - assert (E : message_of dc lexer_arms (error_value (InvalidChar c)) = formatted dc "Lexer got strange codepoint {}, char value is '{:?}'" [VInt c "u32"; if scalar c then VSome (VChar c) else VNone]) by reflexivity.
    rewrite E. unfold lexer_message. destruct (scalar c); reflexivity.
  - assert (E : message_of dc lexer_arms (error_value (UnexpectedAlphabet (a, b))) = formatted dc "Lexer got char in unexpected range: {:?}" [range_value (a, b)]) by reflexivity.
    rewrite E. assert (F : formatted dc "Lexer got char in unexpected range: {:?}" [range_value (a, b)] = Some ("Lexer got char in unexpected range: " ++ (decimal a ++ "..=" ++ decimal b) ++ "")%string) by reflexivity.
    rewrite F, CppTextProof.append_nil. reflexivity.
Qed.
Lemma lexer_derives : forall al d, has_derive (lexer_tokens al d) "LexerError" "Debug" /\ implements_error "LexerError" (lexer_tokens al d) = true.
Proof.
  intros al d. split.
  - exists ["Debug"]. split; [|left; reflexivity]. assert (E : forall a b c, derived "LexerError" (lexer_file a b c) = Some ["Debug"]) by (intros; reflexivity). apply E.
  - assert (E : forall a b c, implements_error "LexerError" (lexer_file a b c) = true) by (intros; reflexivity). apply E.
Qed.

(** ** Files *)

Lemma rust_parser_message_proof : forall rs g p file, from_rule_set rs = Ok g -> usable_names g -> fits g p -> parser_rs g p = Ok file ->
  has_derive file "ParserError" "Debug" /\ implements_error "ParserError" file = true /\
  forall dc got expected s, shows dc file "ParserError" (parser_error_value g (UnexpectedTok got expected)) s <-> s = unexpected_message g got expected.
Proof.
  intros rs g p file B U F W. rewrite (parser_written rs g B U p F) in W. injection W as <-. split; [apply parser_derives|]. split; [apply parser_derives|]. intros dc got expected. apply shows_exact, parser_shows.
Qed.
Lemma rust_lexer_message_proof : forall al d file, (forall node, In node (dfa_nodes d) -> named_node node) -> lexer_rs al d = Ok file ->
  has_derive file "LexerError" "Debug" /\ implements_error "LexerError" file = true /\ forall dc e s, shows dc file "LexerError" (error_value e) s <-> s = lexer_message dc e.
Proof. intros al d file N W. rewrite (lexer_written al d N) in W. injection W as <-. split; [apply lexer_derives|]. split; [apply lexer_derives|]. intros dc e. apply shows_exact, lexer_shows. Qed.
Lemma rust_tokens_derive_proof : forall ns file, (forall n, In n ns -> spelled n) -> tokens_rs ns = Ok file -> derived "TokenType" file = Some ["Clone"; "Copy"; "Debug"].
Proof.
  intros ns file S W. assert (E : exists vs, res_list (map get_token_enum_name ns) = Ok vs). { unfold tokens_rs, other_tokens in W. destruct (res_list (map get_token_enum_name ns)) as [vs|e| |]; try discriminate. exists vs. reflexivity. }
  destruct E as (vs & E). rewrite (tokens_written ns vs S E) in W. injection W as <-. assert (X : forall l, derived "TokenType" (tokens_file l) = Some ["Clone"; "Copy"; "Debug"]) by (intros; reflexivity). apply X.
Qed.

(** ** Texts *)

Section End.
Variables (rs : rule_set) (g : grammar) (lfuel : nat) (al : alphabet) (d : dfa token_rule).
Hypothesis sm : small rs.
Hypothesis built : from_rule_set rs = Ok g.
Hypothesis us : usable_tokens (rs_tokens rs).
Hypothesis gen : generate_lexer lfuel (rs_tokens rs) = Ok (al, d).
Hypothesis U : usable_names g.
Variables (k : table_kind) (m : nat) (allow : bool) (tb : lr_table) (p : lr_parser).
Hypothesis tgen : generates k m g allow = Ok (NoConflicts tb).
Hypothesis wrt : write_parser g tb = Ok p.
Hypothesis front : epsilon_in_front g.
Hypothesis ne : no_empty_rhs g.
Hypothesis prod : all_productive g.
Hypothesis lr1 : k = KindLR1.

Lemma rust_code_message_proof : forall lfile pfile LF PF, lexer_rs al d = Ok lfile -> functions_in lfile LF -> parser_rs g p = Ok pfile -> parser_functions_in pfile PF ->
  forall data source visit rounds text v self e, token_function LF data source -> Forall valid_char text -> (exists ts, tokenised (rs_tokens rs) text ts) ->
  run_function (parser_outer rounds visit source PF) rounds (f_parse PF) [parser_value (lexer_value (lexer_new text)) v] = Some (self, Val (VErr e)) ->
  exists ts consumed rest expected, tokenised (rs_tokens rs) text ts /\ Forall2 (token_named g) (consumed ++ rest) (map tr_name ts) /\
    (forall dc s, shows dc pfile "ParserError" e s <-> s = unexpected_message g (hd_error rest) expected) /\ NoDup expected /\
    (forall t, In t expected <-> exists w, derives (g_rules g) [g_entry g] (consumed ++ w) /\ hd_error w = t).
Proof.
  intros lfile pfile LF PF LW LI PW PI data source visit rounds text v self e T V Tk R.
  destruct (rust_lexer_text_exact_proof al d (nodes_named rs g lfuel al d sm built us gen U)) as (lfile' & LW' & _ & LF' & LI' & LQ & LD). assert (lfile' = lfile) as -> by congruence. rewrite <- (LQ LF LI) in LD.
  pose proof (generated_fits k m g allow tb p (grammar_wf rs g built) tgen wrt) as Fi.
  destruct (rust_lr_text_exact_proof rs g p built U Fi) as (pfile' & visits & nts & PW' & PV & _ & _ & _ & _ & _ & PF' & PI' & PQ & PD). assert (pfile' = pfile) as -> by congruence. rewrite <- (PQ PF PI) in PD.
  destruct (code_runs rs g lfuel al d sm built us gen U p LF PF visits data source visit rounds text v LD PD T) as (calls & _ & X). cbv zeta in X.
  destruct (source_stream rs g lfuel al d sm built us gen text V) as (ws & b & Sm & Hb). pose proof (text_parse_sim _ p rounds text ws b Sm) as L.
  destruct (text_parse rounds _ p text) as [ev [lx|x| |]] eqn:TP; cbn [snd lazily] in X, L.
  - rewrite R in X. discriminate.
  - destruct X as (source' & X). rewrite R in X. injection X as _ ->. destruct b; [|contradiction]. destruct Hb as (ts & Ht & F).
    destruct (expected_exact k m g allow tb p (grammar_wf rs g built) tgen wrt prod front ne lr1 rounds ws ev x L) as (consumed & rest & expected & -> & _ & -> & ND & EX). exists ts, consumed, rest, expected.
    split; [exact Ht|]. split; [exact F|]. split; [|split; [exact ND|exact EX]]. intros dc s. exact (proj2 (proj2 (rust_parser_message_proof rs g p pfile built U Fi PW)) dc _ _ s).
  - destruct X as (source' & X). rewrite R in X. discriminate.
  - rewrite R in X. discriminate.
Qed.
End End.
