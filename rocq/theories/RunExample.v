(** Concrete texts, lexers and parsers for the examples of RunProperties. *)
From Coq Require Import String List Arith NArith Bool Lia.
From Verif Require Import Base InputModel LexerSpec LexerModel LexerFactsProof LexerExample GrammarModel GrammarSpec GrammarFactsProof AlphabetProof LLModel LLSpec LLExample
  LRModel LRSpec LRExample LRTermSpec LRTermFactsProof LRTermExample GLRModel GLRSpec GLRExample ShapesProof RunModel RunSpec RunProof.
Import ListNotations.
Local Open Scope string_scope.
Local Open Scope nat_scope.
Local Open Scope list_scope.

(** Patterns which match the empty text. *)
Fixpoint nullable (p : pattern) : bool :=
  match p with
  | PSeq l => forallb nullable l
  | PAlt l => existsb nullable l
  | PRep mn _ q => (mn =? 0)%N || nullable q
  | PSet _ _ | PChar _ => false
  end.

Lemma lpow_nil : forall (L : lang N) k, lpow L k [] -> k = 0 \/ L [].
Proof. intros L [|k] H; auto. right. destruct H as (a & b & E & H & _). symmetry in E. apply app_eq_nil in E. destruct E as [-> _]. exact H. Qed.

Lemma nullable_ok : forall p, matches p [] -> nullable p = true.
Proof.
  induction p as [l IH|l IH|mn mx p IH|cs b|c] using pattern_ind'; intros H.
  - induction IH as [|p l Hp Hl IHl]; auto. destruct H as (a & b & E & H1 & H2). symmetry in E. apply app_eq_nil in E. destruct E as [-> ->].
    cbn. rewrite (Hp H1). apply IHl. exact H2.
  - induction IH as [|p l Hp Hl IHl]; [destruct H|]. cbn. destruct H as [H|H]; [rewrite (Hp H); auto|]. apply orb_true_iff. right. apply IHl. exact H.
  - destruct H as (k & H1 & _ & H3). cbn. apply orb_true_iff. apply lpow_nil in H3. destruct H3 as [->|H3]; [left; apply N.eqb_eq; lia|right; auto].
  - destruct H as (c & H & _). discriminate.
  - destruct H as (x & H & _). discriminate.
Qed.

Lemma usable_ok : forall rules, valid_rulesb rules = true -> forallb (fun r => simple (rule_pattern r)) rules = true ->
  forallb (fun r => negb (nullable (rule_pattern r))) rules = true -> usable_tokens rules.
Proof.
  intros rules H1 H2 H3. constructor; [apply valid_rulesb_ok; auto|apply simple_proper; auto|]. intros r Hr M. rewrite forallb_forall in H3. apply H3 in Hr.
  rewrite (nullable_ok _ M) in Hr. discriminate.
Qed.

(** The grammar of sums, with tokens which can be read: NUM = /[0-9]+/, ADD = "+", LPAR = "(", RPAR = ")". *)
Definition sum_tokens : list token_rule :=
  [mkTokenRule "NUM" None (TPattern (PRep 1 None (PSet [CRange 48%N 57%N] false))); mkTokenRule "ADD" None (TLiteral [43%N]);
   mkTokenRule "LPAR" None (TLiteral [40%N]); mkTokenRule "RPAR" None (TLiteral [41%N])].
Definition sum_rules : rule_set := mkRuleSet "expr" sum_tokens (rs_prods ll_expr).
Lemma sum_built : from_rule_set sum_rules = Ok ll_g.
Proof. vm_compute. reflexivity. Qed.
Lemma sum_small : small sum_rules.
Proof. apply smallb_ok. reflexivity. Qed.
Lemma sum_usable : usable_tokens (rs_tokens sum_rules).
Proof. apply usable_ok; vm_compute; reflexivity. Qed.
Definition sum_al : alphabet := Eval vm_compute in fst (lexer_of sum_tokens).
Definition sum_dfa : dfa token_rule := Eval vm_compute in snd (lexer_of sum_tokens).
Lemma sum_lexer : generate_lexer 100 (rs_tokens sum_rules) = Ok (sum_al, sum_dfa).
Proof. vm_compute. reflexivity. Qed.
Definition sum_rx : rust_lexer := mkRustLexer sum_al sum_dfa (g_tokens ll_g).
Lemma sum_sealed : sealed KindLR1 ll_g.
Proof. left. split; [reflexivity|exact ll_g_nl]. Qed.

(** The texts "1+20", "1+" and "1+x". *)
Definition sum_text : list N := [49; 43; 50; 48]%N.
Definition short_text : list N := [49; 43]%N.
Definition alien_text : list N := [49; 43; 120]%N.
Lemma texts_valid : Forall valid_char sum_text /\ Forall valid_char short_text /\ Forall valid_char alien_text.
Proof. repeat split; repeat constructor; unfold valid_char, CHAR_MAX; lia. Qed.

Lemma sum_text_run : text_parse 9 sum_rx lr1_p sum_text = (post_order sum_tree, Ok (mkLexer sum_text [] 4 4)).
Proof. vm_compute. reflexivity. Qed.
Lemma short_text_run : text_parse 9 sum_rx lr1_p short_text = ([EShift (Some 0%N); EReduce 3; EShift (Some 1%N)], Err (UnexpectedTok None [Some 0%N; Some 2%N])).
Proof. vm_compute. reflexivity. Qed.
Lemma alien_text_run : snd (text_parse 9 sum_rx lr1_p alien_text) = Panic.
Proof. vm_compute. reflexivity. Qed.

Lemma sum_text_tokens : exists ts, tokenised (rs_tokens sum_rules) sum_text ts /\ map tr_name ts = ["NUM"; "ADD"; "NUM"].
Proof.
  pose proof (text_exact sum_rules ll_g 100 sum_al sum_dfa sum_small sum_built sum_usable sum_lexer KindLR1 100 false lr1_tb lr1_p lr1_tb_ok lr1_p_ok ll_g_front ll_g_ne sum_sealed 9 sum_text
    (proj1 texts_valid)) as H.
  change (mkRustLexer sum_al sum_dfa (g_tokens ll_g)) with sum_rx in H. rewrite sum_text_run in H. destruct H as (_ & ts & tr & T & P & F & E). exists ts. split; auto.
  assert (Y : iyield tr = [0; 1; 0]%N).
  { assert (X : forall tr, filter (fun e => match e with EShift _ => true | _ => false end) (post_order tr) = map (fun t => EShift (Some t)) (iyield tr)).
    { fix IH 1. intros [t|k cs]; [reflexivity|]. cbn. rewrite filter_app. cbn. rewrite app_nil_r. induction cs as [|c cs IHc]; [reflexivity|].
      cbn. rewrite filter_app, map_app, IHc. f_equal. apply IH. }
    specialize (X tr). rewrite <- E in X. cbn in X. destruct (iyield tr) as [|a [|b [|c [|? ?]]]]; try discriminate X. injection X as <- <- <-. reflexivity. }
  rewrite Y in F. assert (N3 : forall t n, token_named ll_g t n -> nth_error ["NUM"; "ADD"; "LPAR"; "RPAR"] (N.to_nat t) = Some n).
  { intros t n H. unfold token_named in H. cbn in H. destruct H as [H|[H|[H|[H|[]]]]]; injection H as <- <-; reflexivity. }
  destruct ts as [|a [|b [|c [|? ?]]]]; cbn in F; repeat match goal with H : Forall2 _ _ _ |- _ => inversion H; clear H; subst end; try discriminate.
  repeat match goal with H : token_named _ _ _ |- _ => apply N3 in H; cbn in H; injection H as H end. cbn. congruence.
Qed.

Lemma sum_in_language : text_of_language sum_rules sum_text.
Proof.
  destruct sum_text_tokens as (ts & T & E). exists ts. split; auto. rewrite E. apply (language_ok sum_rules ll_g sum_small sum_built). exists [0; 1; 0]%N. split.
  - apply (LRCompleteProof.parse_tree_derives ll_g [0; 1; 0]%N ll_g_wf). exists sum_tree. exact sum_tree_ok.
  - repeat (apply Forall2_cons; [unfold token_named; cbn; auto|]). apply Forall2_nil.
Qed.

(** The ambiguous grammar of sums, with the same tokens. *)
Definition plus_rules : rule_set := mkRuleSet "s" (firstn 2 sum_tokens) (rs_prods amb_rules).
Lemma plus_built : from_rule_set plus_rules = Ok amb_g.
Proof. vm_compute. reflexivity. Qed.
Lemma plus_small : small plus_rules.
Proof. apply smallb_ok. reflexivity. Qed.
Lemma plus_usable : usable_tokens (rs_tokens plus_rules).
Proof. apply usable_ok; vm_compute; reflexivity. Qed.
Definition plus_al : alphabet := Eval vm_compute in fst (lexer_of (firstn 2 sum_tokens)).
Definition plus_dfa : dfa token_rule := Eval vm_compute in snd (lexer_of (firstn 2 sum_tokens)).
Lemma plus_lexer : generate_lexer 100 (rs_tokens plus_rules) = Ok (plus_al, plus_dfa).
Proof. vm_compute. reflexivity. Qed.
Definition plus_rx : rust_lexer := mkRustLexer plus_al plus_dfa (g_tokens amb_g).
Lemma plus_runs : glr_text_parse 20 plus_rx amb_p sum_text = (post_order amb_tree, Ok (mkLexer sum_text [] 4 4)) /\
  snd (glr_text_parse 20 plus_rx amb_p short_text) = Err (GUnexpectedToken None [Some 0%N]) /\ snd (glr_text_parse 20 plus_rx amb_p alien_text) = Panic /\
  snd (glr_text_parse 20 plus_rx amb_p [49; 43; 49; 43; 49]%N) = Panic.
Proof. split; [|split; [|split]]; vm_compute; reflexivity. Qed.

Lemma amb_unhidden : ~ hidden_left_recursive amb_g.
Proof. apply (unhiddenb_ok _ []%N (fun i => if (i =? 0)%N then 1 else 0)); vm_compute; reflexivity. Qed.
Lemma amb_uncyclic : ~ cyclic amb_g.
Proof. apply (acyclicb_ok _ []%N (fun i => if (i =? 0)%N then 1 else 0)); vm_compute; reflexivity. Qed.

(** s = LPAR s RPAR | A: the text "a)#", of which "#" is in no lexeme. *)
Definition paren_tokens : list token_rule := [mkTokenRule "LPAR" None (TLiteral [40%N]); mkTokenRule "RPAR" None (TLiteral [41%N]); mkTokenRule "A" None (TLiteral [97%N])].
Definition paren_text_rules : rule_set := mkRuleSet "s" paren_tokens (rs_prods paren_rules).
Lemma paren_text_built : from_rule_set paren_text_rules = Ok paren_g.
Proof. vm_compute. reflexivity. Qed.
Lemma paren_usable : usable_tokens paren_tokens.
Proof. apply usable_ok; vm_compute; reflexivity. Qed.
Definition paren_al : alphabet := Eval vm_compute in fst (lexer_of paren_tokens).
Definition paren_dfa : dfa token_rule := Eval vm_compute in snd (lexer_of paren_tokens).
Lemma paren_lexer : generate_lexer 100 (rs_tokens paren_text_rules) = Ok (paren_al, paren_dfa).
Proof. vm_compute. reflexivity. Qed.
Lemma paren_text_run : exists ev lx, text_parse 10 (mkRustLexer paren_al paren_dfa (g_tokens paren_g)) paren_lalr_p [97; 41; 35]%N = (ev, Ok lx) /\ lx_iter lx = [35%N].
Proof. eexists. eexists. split; [vm_compute; reflexivity|reflexivity]. Qed.
Lemma paren_text_bad : ~ exists ts, tokenised paren_tokens [97; 41; 35]%N ts.
Proof.
  destruct (source_stream paren_text_rules paren_g 100 paren_al paren_dfa ltac:(apply smallb_ok; reflexivity) paren_text_built paren_usable paren_lexer [97; 41; 35]%N) as (ws & b & S & H).
  { repeat constructor; unfold valid_char, CHAR_MAX; lia. }
  destruct b; [|exact H]. exfalso. clear H.
  repeat match goal with
  | S : stream _ _ _ true |- _ => let P := fresh "P" in inversion S as [? ? P ?|? P|? ? ? ? ? P ?]; subst; clear S; vm_compute in P; try discriminate; injection P; intros; subst; clear P
  end.
Qed.

(** XS = /x*/, s = XS*: the text "y". *)
Definition star_rules : rule_set := mkRuleSet "s" [ex_star] [mkProdRule "s" None (QStar (QRule "XS"))].
Definition star_g : grammar := Eval vm_compute in of_rules star_rules.
Lemma star_built : from_rule_set star_rules = Ok star_g.
Proof. vm_compute. reflexivity. Qed.
Definition star_tb : lr_table := Eval vm_compute in table_from (generates KindLR1 100 star_g false).
Lemma star_tb_ok : generates KindLR1 100 star_g false = Ok (NoConflicts star_tb).
Proof. vm_compute. reflexivity. Qed.
Definition star_p : lr_parser := Eval vm_compute in parser_from star_g star_tb.
Lemma star_p_ok : write_parser star_g star_tb = Ok star_p.
Proof. vm_compute. reflexivity. Qed.
Definition star_al : alphabet := Eval vm_compute in fst (lexer_of [ex_star]).
Definition star_dfa : dfa token_rule := Eval vm_compute in snd (lexer_of [ex_star]).
Lemma star_lexer : generate_lexer 100 (rs_tokens star_rules) = Ok (star_al, star_dfa).
Proof. vm_compute. reflexivity. Qed.
Definition star_rx : rust_lexer := mkRustLexer star_al star_dfa (g_tokens star_g).

Lemma star_loops : forall fuel stack, snd (text_run fuel star_rx star_p (KState 2 :: stack) (Some 0%N) (mkLexer [121%N] [121%N] 0 0)) = OutOfFuel.
Proof.
  induction fuel as [|fuel IH]; intros stack; [reflexivity|]. cbn [text_run text_act].
  assert (A : next_action (lp_actions star_p) 2 (Some 0%N) = Ok ActShift) by (vm_compute; reflexivity). rewrite A.
  assert (P : pull star_rx (mkLexer [121%N] [121%N] 0 0) = Ok (Some 0%N, mkLexer [121%N] [121%N] 0 0)) by (vm_compute; reflexivity). rewrite P.
  unfold lr_goto_step. assert (G : next_goto (lp_gotos star_p) 2 (KTerminal (Some 0%N)) = Ok (GotoState 2)) by (vm_compute; reflexivity). rewrite G. cbn [bind].
  specialize (IH (KTerminal (Some 0%N) :: KState 2 :: stack)). destruct (text_run fuel star_rx star_p _ _ _) as [ev r]. exact IH.
Qed.
Lemma star_forever : forall fuel, snd (text_parse fuel star_rx star_p [121%N]) = OutOfFuel.
Proof.
  intros fuel. unfold text_parse. assert (P : pull star_rx (lexer_new [121%N]) = Ok (Some 0%N, mkLexer [121%N] [121%N] 0 0)) by (vm_compute; reflexivity). rewrite P.
  destruct fuel as [|fuel]; [reflexivity|]. cbn [text_run text_act].
  assert (A : next_action (lp_actions star_p) (lp_entry star_p) (Some 0%N) = Ok ActShift) by (vm_compute; reflexivity). rewrite A.
  assert (P' : pull star_rx (mkLexer [121%N] [121%N] 0 0) = Ok (Some 0%N, mkLexer [121%N] [121%N] 0 0)) by (vm_compute; reflexivity). rewrite P'.
  unfold lr_goto_step. assert (G : next_goto (lp_gotos star_p) (lp_entry star_p) (KTerminal (Some 0%N)) = Ok (GotoState 2)) by (vm_compute; reflexivity). rewrite G. cbn [bind].
  pose proof (star_loops fuel [KTerminal (Some 0%N); KState (lp_entry star_p)]) as H. destruct (text_run fuel star_rx star_p _ _ _) as [ev r]. exact H.
Qed.
Lemma star_valid : valid_rules (rs_tokens star_rules) /\ proper_rules (rs_tokens star_rules).
Proof. split; [apply valid_rulesb_ok; reflexivity|apply simple_proper; reflexivity]. Qed.
