(** Concrete parsers for the examples of AgreeProperties. *)
From Coq Require Import String List Arith NArith Bool Lia.
From Verif Require Import Base InputModel LexerSpec LexerModel LexerExample GrammarModel GrammarSpec GrammarFactsProof LLModel LLSpec LLExample LRModel LRSpec LRExample LRFactsProof LRTermSpec LRTermFactsProof LRTermExample
  ShapesProof GLRModel GLRSpec GLRExample HierarchyExample RunModel RunSpec RunProof RunExample CppLexerModel CppLexerSpec CppLRModel CppLRSpec CppLRExample CppRunModel CppRunSpec CppRunExample AgreeSpec AgreeProof.
Import ListNotations.
Local Open Scope string_scope.
Local Open Scope nat_scope.
Local Open Scope list_scope.

(** s = A x B | x; x = C, with LR(1) and LALR(1) tables; A = "a", B = "b", C = "c".  The LALR(1) table has fewer states. *)
Definition abc_tokens : list token_rule := [mkTokenRule "A" None (TLiteral [97%N]); mkTokenRule "B" None (TLiteral [98%N]); mkTokenRule "C" None (TLiteral [99%N])].
Definition abc_al : alphabet := Eval vm_compute in fst (lexer_of abc_tokens).
Definition abc_dfa : dfa token_rule := Eval vm_compute in snd (lexer_of abc_tokens).
Lemma abc_lexer : generate_lexer 100 abc_tokens = Ok (abc_al, abc_dfa).
Proof. vm_compute. reflexivity. Qed.
Lemma abc_usable : usable_tokens abc_tokens.
Proof. apply usable_ok; vm_compute; reflexivity. Qed.

Definition wrap_rules : rule_set := mkRuleSet "s" abc_tokens [mkProdRule "s" None (QAlt [QSeq [QRule "A"; QRule "x"; QRule "B"]; QRule "x"]); mkProdRule "x" None (QRule "C")].
Definition wrap_g : grammar := Eval vm_compute in of_rules wrap_rules.
Lemma wrap_built : from_rule_set wrap_rules = Ok wrap_g.
Proof. vm_compute. reflexivity. Qed.
Lemma wrap_small : small wrap_rules.
Proof. apply smallb_ok. reflexivity. Qed.
Lemma wrap_front : epsilon_in_front wrap_g.
Proof. apply (built_epsilon_in_front _ _ wrap_built). reflexivity. Qed.
Lemma wrap_ne : no_empty_rhs wrap_g.
Proof. apply (built_no_empty _ _ wrap_built). reflexivity. Qed.
Lemma wrap_productive : all_productive wrap_g.
Proof. apply productiveb_ok; [exact (grammar_wf _ _ wrap_built)|vm_compute; reflexivity]. Qed.
Lemma wrap_sealed : forall k, k <> KindLR0 -> sealed k wrap_g.
Proof. intros k H. right. split; [exact H|]. intros r Hr. simpl in Hr. repeat (destruct Hr as [<-|Hr]; [cbn; intuition discriminate|]). destruct Hr. Qed.
Definition wrap1_tb : lr_table := Eval vm_compute in table_from (generates KindLR1 100 wrap_g false).
Lemma wrap1_tb_ok : generates KindLR1 100 wrap_g false = Ok (NoConflicts wrap1_tb).
Proof. vm_compute. reflexivity. Qed.
Definition wrap1_p : lr_parser := Eval vm_compute in parser_from wrap_g wrap1_tb.
Lemma wrap1_p_ok : write_parser wrap_g wrap1_tb = Ok wrap1_p.
Proof. vm_compute. reflexivity. Qed.
Definition wrapa_tb : lr_table := Eval vm_compute in table_from (generates KindLALR 100 wrap_g false).
Lemma wrapa_tb_ok : generates KindLALR 100 wrap_g false = Ok (NoConflicts wrapa_tb).
Proof. vm_compute. reflexivity. Qed.
Definition wrapa_p : lr_parser := Eval vm_compute in parser_from wrap_g wrapa_tb.
Lemma wrapa_p_ok : write_parser wrap_g wrapa_tb = Ok wrapa_p.
Proof. vm_compute. reflexivity. Qed.
Lemma wrap_states : length (lp_actions wrapa_p) < length (lp_actions wrap1_p).
Proof. vm_compute. lia. Qed.
(** The texts "acb" and "ac"; on the second the LALR(1) parser reduces by x = C before it fails, the LR(1) parser does not. *)
Definition abc_rx (g : grammar) : rust_lexer := mkRustLexer abc_al abc_dfa (g_tokens g).
Definition wrap_events : list lr_event := [EShift (Some 0%N); EShift (Some 2%N); EReduce 3; EShift (Some 1%N); EReduce 0; EReduce 2].
Lemma wrap_runs : (exists lx, text_parse 9 (abc_rx wrap_g) wrap1_p [97; 99; 98]%N = (wrap_events, Ok lx)) /\ (exists lx, text_parse 9 (abc_rx wrap_g) wrapa_p [97; 99; 98]%N = (wrap_events, Ok lx)) /\
  text_parse 9 (abc_rx wrap_g) wrap1_p [97; 99]%N = (firstn 2 wrap_events, Err (UnexpectedTok None [Some 1%N])) /\
  text_parse 9 (abc_rx wrap_g) wrapa_p [97; 99]%N = (firstn 3 wrap_events, Err (UnexpectedTok None [Some 1%N])).
Proof. split; [eexists; vm_compute; reflexivity|]. split; [eexists; vm_compute; reflexivity|]. split; vm_compute; reflexivity. Qed.

(** s = A e A | B e B | A f B | B f A; e = C; f = C: the LALR(1) table has a conflict, which a GLR parser resolves; the LR(1) table has none. *)
Definition abc_rules : rule_set := mkRuleSet "s" abc_tokens (rs_prods cross_rules).
Lemma abc_built : from_rule_set abc_rules = Ok cross_g.
Proof. vm_compute. reflexivity. Qed.
Lemma abc_small : small abc_rules.
Proof. apply smallb_ok. reflexivity. Qed.
Lemma abc_front : epsilon_in_front cross_g.
Proof. apply (built_epsilon_in_front _ _ abc_built). reflexivity. Qed.
Lemma abc_fresh : entry_fresh cross_g.
Proof. intros r H. simpl in H. repeat (destruct H as [<-|H]; [cbn; intuition discriminate|]). destruct H. Qed.
Lemma abc_sealed : forall k, k <> KindLR0 -> sealed k cross_g.
Proof. intros k H. right. split; [exact H|exact abc_fresh]. Qed.
Definition abc_tb : lr_table := Eval vm_compute in table_from (generates KindLR1 100 cross_g false).
Lemma abc_tb_ok : generates KindLR1 100 cross_g false = Ok (NoConflicts abc_tb).
Proof. vm_compute. reflexivity. Qed.
Definition abc_p : lr_parser := Eval vm_compute in parser_from cross_g abc_tb.
Lemma abc_p_ok : write_parser cross_g abc_tb = Ok abc_p.
Proof. vm_compute. reflexivity. Qed.
Definition abc_all : lr_table * list conflict := Eval vm_compute in match generates KindLALR 100 cross_g true with Ok (AllowedConflicts tb cs) => (tb, cs) | _ => (abc_tb, []) end.
Lemma abc_all_ok : generates KindLALR 100 cross_g true = Ok (AllowedConflicts (fst abc_all) (snd abc_all)).
Proof. vm_compute. reflexivity. Qed.
Definition abc_gp : glr_parser := Eval vm_compute in glr_from cross_g (fst abc_all).
Lemma abc_gp_ok : glr_write_parser cross_g (fst abc_all) = Ok abc_gp.
Proof. vm_compute. reflexivity. Qed.
(** The texts "acb" and "acc". *)
Lemma abc_runs : (exists ev lx lx', text_parse 9 (abc_rx cross_g) abc_p [97; 99; 98]%N = (ev, Ok lx) /\ glr_text_parse 9 (abc_rx cross_g) abc_gp [97; 99; 98]%N = (ev, Ok lx') /\ length ev = 6) /\
  (exists e, snd (text_parse 9 (abc_rx cross_g) abc_p [97; 99; 99]%N) = Err e) /\ (exists e, snd (glr_text_parse 9 (abc_rx cross_g) abc_gp [97; 99; 99]%N) = Err e).
Proof. split; [do 3 eexists; split; [vm_compute; reflexivity|split; [vm_compute; reflexivity|reflexivity]]|split; eexists; vm_compute; reflexivity]. Qed.

(** s = LPAR s RPAR | A with LR(1): the text "a)#" is rejected. *)
Definition paren1_tb : lr_table := Eval vm_compute in table_from (generates KindLR1 100 paren_g false).
Lemma paren1_tb_ok : generates KindLR1 100 paren_g false = Ok (NoConflicts paren1_tb).
Proof. vm_compute. reflexivity. Qed.
Definition paren1_p : lr_parser := Eval vm_compute in parser_from paren_g paren1_tb.
Lemma paren1_p_ok : write_parser paren_g paren1_tb = Ok paren1_p.
Proof. vm_compute. reflexivity. Qed.
Definition paren_rx : rust_lexer := mkRustLexer paren_al paren_dfa (g_tokens paren_g).
Lemma paren_productive : all_productive paren_g.
Proof. apply productiveb_ok; [exact (grammar_wf _ _ paren_text_built)|vm_compute; reflexivity]. Qed.
Lemma paren1_sealed : sealed KindLR1 paren_g.
Proof. left. split; [reflexivity|exact paren_nl]. Qed.
Lemma paren_disagree : (exists ev, comes_to (fun fuel => text_parse fuel paren_rx paren_lalr_p [97; 41]%N) (succeeds ev)) /\ comes_to (fun fuel => text_parse fuel paren_rx paren1_p [97; 41]%N) fails.
Proof.
  split.
  - assert (X : exists ev lx, text_parse 9 paren_rx paren_lalr_p [97; 41]%N = (ev, Ok lx)) by (do 2 eexists; vm_compute; reflexivity). destruct X as (ev & lx & E). exists ev, 9. intros fuel Hf. exists lx.
    apply (text_more _ _ _ _ _ _ E); [discriminate|exact Hf].
  - assert (X : exists ev e, text_parse 9 paren_rx paren1_p [97; 41]%N = (ev, Err e)) by (do 2 eexists; vm_compute; reflexivity). destruct X as (ev & e & E). exists 9. intros fuel Hf.
    rewrite (text_more _ _ _ _ _ _ E ltac:(discriminate) fuel Hf). exact I.
Qed.

(** The source "1→20" in Rust, and in C++ without and with a byte FF behind it. *)
Definition wide_rx : rust_lexer := mkRustLexer wide_al wide_dfa (g_tokens ll_g).
Definition wide_events : list lr_event := map (fun c => match c with VShift t => EShift (Some (ct_type t - 2)%N) | VReduce k => EReduce k end) wide_calls.
Lemma wide_rust : exists lx, text_parse 12 wide_rx lr1_p wide_text = (wide_events, Ok lx).
Proof. eexists. vm_compute. reflexivity. Qed.
Lemma wide_rust_short : text_parse 12 wide_rx lr1_p (firstn 2 wide_text) = (firstn 3 wide_events, Err (UnexpectedTok None [Some 0%N; Some 2%N])).
Proof. vm_compute. reflexivity. Qed.
Lemma wide_short_holds : Forall is_byte (firstn 4 wide_bytes) /\ holds (firstn 4 wide_bytes) (firstn 2 wide_text) [].
Proof.
  split; [repeat constructor|]. exists (firstn 4 wide_bytes). split; [reflexivity|]. split; [|auto].
  apply (utf8_cons _ [_]); [constructor; reflexivity|]. apply (utf8_cons 8594 [_; _; _]); [apply (utf8_3 2 6 18); try reflexivity; [discriminate|left; reflexivity]|]. constructor.
Qed.
Lemma wide_comes : comes_to (fun fuel => text_parse fuel wide_rx lr1_p wide_text) (succeeds wide_events) /\ comes_to (fun fuel => cpp_text_parse fuel wide_al wide_dfa lr1_c wide_bytes) (returns wide_calls) /\
  comes_to (fun fuel => text_parse fuel wide_rx lr1_p (firstn 2 wide_text)) fails /\ comes_to (fun fuel => cpp_text_parse fuel wide_al wide_dfa lr1_c (firstn 4 wide_bytes)) throws /\
  comes_to (fun fuel => cpp_text_parse fuel wide_al wide_dfa lr1_c (wide_bytes ++ [255%N])) throws.
Proof.
  split; [destruct wide_rust as [lx E]; exists 12; intros fuel L; exists lx; apply (text_more _ _ _ _ _ _ E); [discriminate|exact L]|].
  split; [destruct wide_run as [lx E]; exists 12; intros fuel L; exists lx; apply (cpp_more _ _ _ _ _ _ _ E); [discriminate|exact L]|].
  split; [exists 12; intros fuel L; rewrite (text_more _ _ _ _ _ _ wide_rust_short ltac:(discriminate) fuel L); exact I|].
  split; [exists 12; intros fuel L; do 2 eexists; apply (cpp_more _ _ _ _ _ _ _ short_run); [discriminate|exact L]|].
  destruct stray_run as [text E]. exists 12. intros fuel L. do 2 eexists. apply (cpp_more _ _ _ _ _ _ _ E); [discriminate|exact L].
Qed.

(** s = !: the Rust parser accepts the empty text, the C++ parser is terminated by the empty source. *)
Definition empty_rx : rust_lexer := mkRustLexer empty_al empty_dfa (g_tokens empty_g).
Lemma empty_comes : (exists ev, comes_to (fun fuel => text_parse fuel empty_rx empty1_p []) (succeeds ev)) /\ comes_to (fun fuel => cpp_text_parse fuel empty_al empty_dfa empty1_c []) (fun r => snd r = Err Terminated).
Proof.
  split.
  - assert (X : exists ev lx, text_parse 9 empty_rx empty1_p [] = (ev, Ok lx)) by (do 2 eexists; vm_compute; reflexivity). destruct X as (ev & lx & E). exists ev, 9. intros fuel L. exists lx.
    apply (text_more _ _ _ _ _ _ E); [discriminate|exact L].
  - exists 9. intros fuel L. destruct (cpp_text_parse 9 empty_al empty_dfa empty1_c []) as [calls r] eqn:E. pose proof (proj1 empty_runs) as R. rewrite E in R. cbn in R. subst r.
    rewrite (cpp_more _ _ _ _ _ _ _ E ltac:(discriminate) fuel L). reflexivity.
Qed.

Lemma paren_short_valid : Forall valid_char [97; 41]%N.
Proof. repeat constructor; unfold valid_char, CHAR_MAX; lia. Qed.
Lemma abc_valid : Forall valid_char [97; 99; 98]%N /\ Forall valid_char [97; 99; 99]%N /\ Forall valid_char [97; 99]%N.
Proof. split; [|split]; repeat constructor; unfold valid_char, CHAR_MAX; lia. Qed.
