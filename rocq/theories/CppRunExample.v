(** Sources for the examples of CppRunProperties. *)
From Coq Require Import String List Arith NArith Bool Lia.
From Verif Require Import Base InputModel LexerSpec LexerModel LexerFactsProof LexerExample GrammarModel GrammarSpec GrammarFactsProof LLModel LLSpec LLExample
  LRModel LRSpec LRExample LRTermSpec GLRSpec ShapesProof RunModel RunSpec RunProof RunExample CppLexerModel CppLexerSpec CppLexerProof CppLRModel CppLRSpec CppLRProof CppLRExample CppRunModel CppRunSpec CppRunProof CppEndProof
  InputGenModel PipelineModel PipelineSpec PipelineExample.
Import ListNotations.
Local Open Scope string_scope.
Local Open Scope nat_scope.
Local Open Scope list_scope.

(** The grammar of sums with an arrow (U+2192) as its operator: NUM = /[0-9]+/, ADD = "→", LPAR = "(", RPAR = ")". *)
Definition wide_tokens : list token_rule :=
  [mkTokenRule "NUM" None (TPattern (PRep 1 None (PSet [CRange 48%N 57%N] false))); mkTokenRule "ADD" None (TLiteral [8594%N]);
   mkTokenRule "LPAR" None (TLiteral [40%N]); mkTokenRule "RPAR" None (TLiteral [41%N])].
Definition wide_rules : rule_set := mkRuleSet "expr" wide_tokens (rs_prods ll_expr).
Lemma wide_built : from_rule_set wide_rules = Ok ll_g.
Proof. vm_compute. reflexivity. Qed.
Lemma wide_small : small wide_rules.
Proof. apply smallb_ok. reflexivity. Qed.
Lemma wide_usable : usable_tokens (rs_tokens wide_rules).
Proof. apply usable_ok; vm_compute; reflexivity. Qed.
Definition wide_al : alphabet := Eval vm_compute in fst (lexer_of wide_tokens).
Definition wide_dfa : dfa token_rule := Eval vm_compute in snd (lexer_of wide_tokens).
Lemma wide_lexer : generate_lexer 100 (rs_tokens wide_rules) = Ok (wide_al, wide_dfa).
Proof. vm_compute. reflexivity. Qed.
Lemma wide_c_ok : cpp_write (token_names wide_rules) ll_g lr1_tb = Ok lr1_c.
Proof. vm_compute. reflexivity. Qed.

(** The source "1→20". *)
Definition wide_text : list N := [49; 8594; 50; 48]%N.
Definition wide_bytes : list N := [49; 226; 134; 146; 50; 48]%N.
Definition wide_calls : list cpp_call :=
  [VShift (mkTok 2 0 1); VReduce 3; VShift (mkTok 3 1 2); VShift (mkTok 2 2 4); VReduce 3; VReduce 0; VReduce 1; VReduce 2].

Lemma ff_malformed : malformed [255%N].
Proof. apply (decode_error_iff [255%N] ltac:(repeat constructor) _ _ _ eq_refl); discriminate. Qed.
Lemma wide_encoded : utf8_text wide_text wide_bytes.
Proof.
  apply (utf8_cons _ [_]); [constructor; reflexivity|]. apply (utf8_cons 8594 [_; _; _]); [apply (utf8_3 2 6 18); try reflexivity; [discriminate|left; reflexivity]|].
  repeat apply (utf8_cons _ [_]); constructor; reflexivity.
Qed.
Lemma wide_holds : holds wide_bytes wide_text [].
Proof. exists wide_bytes. split; [rewrite app_nil_r; reflexivity|]. split; [exact wide_encoded|auto]. Qed.
Lemma stray_holds : holds (wide_bytes ++ [255%N]) wide_text [255%N].
Proof. exists wide_bytes. split; [reflexivity|]. split; [exact wide_encoded|]. right. exact ff_malformed. Qed.
Lemma nul_holds : holds [49; 0; 255]%N [49; 0]%N [255%N].
Proof. exists [49; 0]%N. split; [reflexivity|]. split; [repeat apply (utf8_cons _ [_]); constructor; reflexivity|]. right. exact ff_malformed. Qed.
Lemma wide_are_bytes : Forall is_byte wide_bytes /\ Forall is_byte (wide_bytes ++ [255%N]) /\ Forall is_byte [49; 0; 255]%N.
Proof. repeat split; repeat constructor. Qed.

Lemma wide_run : exists lx, cpp_text_parse 12 wide_al wide_dfa lr1_c wide_bytes = (wide_calls, Ok lx).
Proof. eexists. vm_compute. reflexivity. Qed.
Lemma short_run : cpp_text_parse 12 wide_al wide_dfa lr1_c (firstn 4 wide_bytes) = (firstn 3 wide_calls, Err (Throw "Unexpected token '<EOF>', expected one of: 'NUM', 'LPAR'")).
Proof. vm_compute. reflexivity. Qed.
Lemma stray_run : exists message, cpp_text_parse 12 wide_al wide_dfa lr1_c (wide_bytes ++ [255%N]) = (firstn 3 wide_calls, Err (Throw message)).
Proof. eexists. vm_compute. reflexivity. Qed.
Lemma nul_run : exists calls lx, cpp_text_parse 12 wide_al wide_dfa lr1_c [49; 0; 255]%N = (calls, Ok lx).
Proof. eexists. eexists. vm_compute. reflexivity. Qed.

Lemma wide_in_language : text_of_language wide_rules wide_text.
Proof.
  destruct wide_run as [lx E].
  apply (language_bytes wide_rules ll_g 100 wide_al wide_dfa wide_small wide_built wide_usable wide_lexer KindLR1 100 false lr1_tb lr1_c lr1_tb_ok wide_c_ok lr1_c_compiles ll_g_front ll_g_ne sum_sealed ll_starts
    12 wide_bytes wide_text [] wide_calls lx (proj1 wide_are_bytes) wide_holds E).
Qed.

Lemma told_places : forall names ev ps calls, told names ev ps calls -> ps = flat_map (fun c => match c with VShift t => [(ct_start t, ct_end t)] | VReduce _ => [] end) calls.
Proof. intros names ev ps calls H. induction H as [|t s e ev ps calls H IH|k ev ps calls H IH]; cbn; congruence. Qed.
Lemma lexemes_text : forall rules text ls, lexemes rules text ls -> exists rest, text = concat (map fst ls) ++ rest.
Proof. intros rules text ls H. induction H as [rest _|w rest t ls _ _ [r IH]]; [exists rest; reflexivity|]. exists r. cbn [map fst concat]. rewrite <- app_assoc, <- IH. reflexivity. Qed.
Lemma wide_lexemes : Forall valid_char wide_text /\ exists ls, lexemes (rs_tokens wide_rules) wide_text ls /\ map fst ls = [[49]; [8594]; [50; 48]]%N.
Proof.
  split; [repeat constructor; unfold valid_char, CHAR_MAX; lia|]. destruct wide_run as [lx E].
  pose proof (exact_bytes wide_rules ll_g 100 wide_al wide_dfa wide_small wide_built wide_usable wide_lexer KindLR1 100 false lr1_tb lr1_c lr1_tb_ok wide_c_ok lr1_c_compiles ll_g_front ll_g_ne sum_sealed ll_starts
    12 wide_bytes wide_text [] (proj1 wide_are_bytes) wide_holds) as X. rewrite E in X. destruct X as (_ & ls & tr & L & _ & _ & T). exists ls. split; [exact L|]. apply told_places in T. cbn in T.
  destruct (lexemes_text _ _ _ L) as [rest Et]. destruct ls as [|[a ta] [|[b tb] [|[c tc] [|? ?]]]]; try discriminate T. cbn in T. injection T as T. cbn [map fst] in *.
  assert (length a = 1 /\ length b = 1 /\ length c = 2) as (Ha & Hb & Hc) by (cbn in *; lia). clear - Et Ha Hb Hc.
  destruct a as [|a0 [|? ?]]; try discriminate Ha. destruct b as [|b0 [|? ?]]; try discriminate Hb. destruct c as [|c0 [|c1 [|? ?]]]; try discriminate Hc.
  unfold wide_text in Et. cbn in Et. injection Et. intros. subst. reflexivity.
Qed.

(** s = LPAR s RPAR | A with LALR: the source "a)#". *)
Definition paren_c : cpp_lr := Eval vm_compute in cpp_from paren_text_rules paren_g paren_lalr_tb.
Lemma paren_c_ok : cpp_write (token_names paren_text_rules) paren_g paren_lalr_tb = Ok paren_c.
Proof. vm_compute. reflexivity. Qed.
Lemma paren_text_small : small paren_text_rules.
Proof. apply smallb_ok. reflexivity. Qed.
Lemma paren_c_compiles : cpp_compiles paren_c.
Proof.
  apply (compiles_iff _ _ paren_text_small paren_text_built _ _ _ _ paren_lalr_tb_ok _ paren_c_ok). split; [apply (distinctb_ok _ _ paren_text_built); vm_compute; reflexivity|].
  apply (rules_fit _ _ _ _ _ (grammar_wf _ _ paren_text_built) paren_lalr_tb_ok). vm_compute. discriminate.
Qed.
Lemma paren_starts : entry_starts paren_g.
Proof. do 2 eexists. exists 0. do 2 eexists. split; [left; reflexivity|]. split; [reflexivity|]. split; [reflexivity|]. split; [reflexivity|]. split; discriminate. Qed.
Lemma paren_cpp_run : exists calls lx, cpp_text_parse 10 paren_al paren_dfa paren_c [97; 41; 35]%N = (calls, Ok lx).
Proof. eexists. eexists. vm_compute. reflexivity. Qed.
Lemma paren_holds : holds [97; 41; 35]%N [97; 41; 35]%N [].
Proof. exists [97; 41; 35]%N. split; [rewrite app_nil_r; reflexivity|]. split; [repeat apply (utf8_cons _ [_]); constructor; reflexivity|auto]. Qed.

(** s = !: the empty source, and the source "a". *)
Definition empty_al : alphabet := Eval vm_compute in fst (lexer_of (rs_tokens empty_rules)).
Definition empty_dfa : dfa token_rule := Eval vm_compute in snd (lexer_of (rs_tokens empty_rules)).
Lemma empty_lexer : generate_lexer 100 (rs_tokens empty_rules) = Ok (empty_al, empty_dfa).
Proof. vm_compute. reflexivity. Qed.
Lemma empty_usable : usable_tokens (rs_tokens empty_rules).
Proof. apply usable_ok; vm_compute; reflexivity. Qed.
Lemma empty_runs : snd (cpp_text_parse 9 empty_al empty_dfa empty1_c []) = Err Terminated /\ exists m, snd (cpp_text_parse 9 empty_al empty_dfa empty1_c [97%N]) = Err (Throw m).
Proof. split; [vm_compute; reflexivity|]. eexists. vm_compute. reflexivity. Qed.
Lemma empty_holds : holds [] [] [].
Proof. exists []. split; [reflexivity|]. split; [constructor|auto]. Qed.
Lemma empty_sealed : sealed KindLR1 empty_g.
Proof. right. split; [discriminate|]. intros r Hr X. cbn in Hr. repeat (destruct Hr as [<-|Hr]; [cbn in X; intuition discriminate|]). destruct Hr. Qed.
Lemma empty_front : epsilon_in_front empty_g.
Proof. apply (built_epsilon_in_front _ _ empty_built). reflexivity. Qed.
Lemma empty_ne : no_empty_rhs empty_g.
Proof. apply (built_no_empty _ _ empty_built). reflexivity. Qed.

(** The grammar file of PipelineExample, with C++ as its target. *)
Definition good_cpp (alg : algorithm) : list file := fst (generate every_file 100 (fun _ => Ok good_sr) true alg true Cpp (Some good_file)).
Lemma good_cpp_runs : forall alg, alg = LR1 \/ alg = LL1 -> generate every_file 100 read_file true alg true Cpp (Some good_file) = (good_cpp alg, Ok tt).
Proof.
  intros alg H. etransitivity; [exact (run_of every_file 100 read_file true alg true Cpp good_file (Ok good_sr) good_parsed)|].
  unfold good_cpp. destruct H as [-> | ->]; vm_compute; reflexivity.
Qed.
Lemma good_starts : entry_starts good_g.
Proof. do 2 eexists. exists 0. do 2 eexists. split; [left; reflexivity|]. split; [reflexivity|]. split; [reflexivity|]. split; [reflexivity|]. split; discriminate. Qed.
Definition good_tb : lr_table := Eval vm_compute in table_from (generates KindLR1 100 good_g false).
Lemma good_tb_ok : generates KindLR1 100 good_g false = Ok (NoConflicts good_tb).
Proof. vm_compute. reflexivity. Qed.
Definition good_c : cpp_lr := Eval vm_compute in cpp_from (unspanned good_sr) good_g good_tb.
Lemma good_c_ok : cpp_write (token_names (unspanned good_sr)) good_g good_tb = Ok good_c.
Proof. vm_compute. reflexivity. Qed.
Lemma good_cpp_compiles : exists c, In ("parser.cpp", Some (CppParser c)) (good_cpp LR1) /\ cpp_compiles c.
Proof.
  exists good_c. split; [vm_compute; tauto|]. apply (compiles_iff _ _ good_small good_built _ _ _ _ good_tb_ok _ good_c_ok). split; [apply (distinctb_ok _ _ good_built); vm_compute; reflexivity|].
  apply (rules_fit _ _ _ _ _ (grammar_wf _ _ good_built) good_tb_ok). vm_compute. discriminate.
Qed.
