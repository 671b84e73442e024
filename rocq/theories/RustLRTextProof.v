(** Proofs about the code of emitted Rust LR parsers: the tokens that are written, and what they are parsed as. *)
From Coq Require Import String Ascii List Arith NArith Bool Lia Permutation.
From Verif Require Import Base InputModel TemplateModel TemplateFiles GrammarModel GrammarSpec GrammarProof GrammarNamesProof GrammarBuildProof GrammarFactsProof LLModel LLSpec LRModel NamesModel NamesSpec NamesProof NamesVisitProof TableModel
  CppLexerModel CppLexerSpec CppLexerProof CppLRModel CppLRSpec CppLRProof CppTextSpec CppLexTextSpec CppLRTextSpec CppLRTextProof CppLRGenTextProof CppVisitorProof PipelineReportProof
  RustTokenSpec RustQuoteModel RustSpec RustLexTextModel RustLexTextSpec RustLexTextProof RustLexRunProof RustLRTextModel RustPullModel RustLRTextSpec.
Import ListNotations.
Local Open Scope string_scope.
Local Open Scope list_scope.
Notation named := RustLexTextProof.named.
Notation known := RustLRTextSpec.known.

(** ** Names *)

Lemma word_same : forall c, word_char c = RustLexTextSpec.name_char c.
Proof. intros c. unfold word_char, RustLexTextSpec.name_char, RustTokenSpec.is_letter, RustTokenSpec.is_digit. destruct ((48 <=? c) && (c <=? 57))%N, ((65 <=? c) && (c <=? 90))%N, ((97 <=? c) && (c <=? 122))%N, (c =? 95)%N; reflexivity. Qed.
Lemma named_plain : forall s, named s <-> plain_name s.
Proof. intros s. unfold named, plain_name. split; intros H c C; [rewrite word_same|rewrite <- word_same]; auto. Qed.
Lemma named_decimal : forall n, named (decimal n). Proof. intros n. apply named_plain, plain_decimal. Qed.
Lemma named_app : forall a b, named a -> named b -> named (a ++ b)%string.
Proof. intros a b A B c C. rewrite chars_append in C. apply in_app_or in C. destruct C; auto. Qed.
Lemma stream_prefixed : forall pre s, (forall r, scan_tokens Between (chars pre ++ r) = scan_tokens (AWord pre) r) -> named s -> stream_of (pre ++ s)%string = Some [TId (pre ++ s)%string].
Proof. intros pre s E H. unfold stream_of, trees. rewrite chars_append, <- (app_nil_r (chars s)), E, scan_named by exact H. reflexivity. Qed.
Lemma stream_nt : forall s, named s -> stream_of ("Nt" ++ s) = Some [TId ("Nt" ++ s)].
Proof. intros s. apply stream_prefixed. intros r. cbn. destruct (scan_tokens (AWord "Nt") r); reflexivity. Qed.
Lemma stream_rule : forall s, named s -> stream_of ("Rule" ++ s) = Some [TId ("Rule" ++ s)].
Proof. intros s. apply stream_prefixed. intros r. cbn. destruct (scan_tokens (AWord "Rule") r); reflexivity. Qed.
Lemma stream_method : forall s, named s -> stream_of ("reduce_" ++ s) = Some [TId ("reduce_" ++ s)].
Proof. intros s. apply stream_prefixed. intros r. cbn. destruct (scan_tokens (AWord "reduce_") r); reflexivity. Qed.
Lemma res_list_inj : forall {A B E} (f : A -> res E B) l ns, res_list (map f l) = Ok ns -> NoDup ns -> forall a b x, In a l -> In b l -> f a = Ok x -> f b = Ok x -> a = b.
Proof.
  intros A B E f l. assert (K : forall l ns a x, res_list (map f l) = Ok ns -> In a l -> f a = Ok x -> In x ns).
  { clear l. induction l as [|c l IH]; intros ns a x R I F; [destruct I|]. cbn [map res_list] in R. destruct (f c) as [y| | |] eqn:Y; cbn [bind] in R; try discriminate. destruct (res_list (map f l)) as [v| | |] eqn:V; cbn [bind] in R; try discriminate.
    inversion R; subst ns. destruct I as [->|I]; [left; congruence|right; exact (IH _ _ _ eq_refl I F)]. }
  induction l as [|c l IH]; intros ns R D a b x I J F G; [destruct I|]. cbn [map res_list] in R. destruct (f c) as [y| | |] eqn:Y; cbn [bind] in R; try discriminate. destruct (res_list (map f l)) as [v| | |] eqn:V; cbn [bind] in R; try discriminate.
  inversion R; subst ns. inversion D as [|? ? N D']; subst. destruct I as [->|I], J as [->|J]; [reflexivity| | |exact (IH _ eq_refl D' a b x I J F G)].
  - destruct N. assert (x = y) as <- by congruence. exact (K _ _ _ _ V J G).
  - destruct N. assert (x = y) as <- by congruence. exact (K _ _ _ _ V I F).
Qed.
Lemma res_list_each : forall {A B E} (f : A -> res E B) l ns, res_list (map f l) = Ok ns -> forall a, In a l -> exists x, f a = Ok x.
Proof.
  induction l as [|c l IH]; intros ns R a I; [destruct I|]. cbn [map res_list] in R. destruct (f c) as [y| | |] eqn:Y; cbn [bind] in R; try discriminate. destruct (res_list (map f l)) as [v| | |] eqn:V; cbn [bind] in R; try discriminate.
  destruct I as [<-|I]; [eauto|eauto].
Qed.

Section Grammar.
Variables (rs : rule_set) (g : grammar).
Hypothesis sm : small rs.
Hypothesis Hg : from_rule_set rs = Ok g.
Hypothesis U : usable_names g.
Let wf := grammar_wf rs g Hg.

Lemma token_written : forall t, In (Terminal t) (terminals g) -> exists n x, In (Terminal t, n) (g_tokens g) /\ grammar_token_name g t = Ok n /\ get_token_enum_name n = Ok ("Tk" ++ x)%string /\ named x /\ token_variant g (Some t) = ("Tk" ++ x)%string.
Proof.
  intros t K. unfold terminals in K. apply in_map_iff in K. destruct K as ((s, n) & E & K). cbn in E. subst s. destruct (un_token_variants _ U) as (vs & V & _). unfold rust_token_variants in V. rewrite map_map in V.
  destruct (res_list (map (fun x => get_token_enum_name (snd x)) (g_tokens g))) as [l| | |] eqn:L; cbn [bind] in V; try discriminate. destruct (res_list_each _ _ _ L (Terminal t, n) K) as (v & F). cbn [snd] in F.
  assert (G : grammar_token_name g t = Ok n). { unfold grammar_token_name. rewrite (proj2 (map_get_In _ _ _ (tokens_sorted _ _ Hg)) K). reflexivity. }
  destruct (enum_named n v (un_tokens _ U _ _ K) F) as (x & -> & X). exists n, x. repeat split; auto. unfold token_variant. rewrite G, F. reflexivity.
Qed.
Lemma token_stream_ok : forall t, In (Terminal t) (terminals g) -> token_stream g t = Ok [TId (token_variant g (Some t))].
Proof. intros t K. destruct (token_written t K) as (n & x & _ & G & F & X & ->). unfold token_stream. rewrite G. cbn [bind]. rewrite F. cbn [bind]. rewrite (stream_named x X). reflexivity. Qed.
Lemma token_variant_inj : forall a b, known g a -> known g b -> token_variant g a = token_variant g b -> a = b.
Proof.
  assert (N : forall t, In (Terminal t) (terminals g) -> token_variant g (Some t) <> "EndOfFile"). { intros t K. destruct (token_written t K) as (n & x & _ & _ & _ & _ & ->). discriminate. }
  intros [a|] [b|] A B E; cbn [RustLRTextSpec.known] in *; [|destruct (N a A E)|destruct (N b B (eq_sym E))|reflexivity].
  destruct (token_written a A) as (n & x & I & _ & F & _ & E1). destruct (token_written b B) as (m & y & J & _ & G & _ & E2). destruct (un_token_variants _ U) as (vs & V & D). unfold rust_token_variants in V. rewrite map_map in V.
  destruct (res_list (map (fun x => get_token_enum_name (snd x)) (g_tokens g))) as [l| | |] eqn:L; cbn [bind] in V; try discriminate. inversion V; subst vs. inversion D as [|? ? _ D']; subst.
  rewrite E1, E2 in E. pose proof (res_list_inj _ _ _ L D' (Terminal a, n) (Terminal b, m) ("Tk" ++ x)%string I J F) as K. rewrite E in K. specialize (K G). congruence.
Qed.
Lemma non_terminal_written : forall i, In (NonTerminal i) (non_terminals g) -> exists x, get_non_terminal_enum_name g (NonTerminal i) = Ok ("Nt" ++ x)%string /\ named x /\ non_terminal_variant g (NonTerminal i) = ("Nt" ++ x)%string.
Proof.
  intros i K. destruct (un_non_terminals _ U) as (vs & V & _). destruct (res_list_each _ _ _ V _ K) as (v & F). assert (E : exists x, v = ("Nt" ++ x)%string /\ named x).
  - unfold get_non_terminal_enum_name, get_production_name in F. destruct (map_get (NonTerminal i) (g_prods g)) as [n|] eqn:M.
    + apply (proj1 (map_get_In _ _ _ (prods_sorted _ _ Hg))) in M. pose proof (un_prods _ U _ _ M) as S. rewrite (proj2 (camel_auto n (named_ascii n S))) in F. destruct (camel_from true n) as [x|] eqn:X; [|discriminate]. cbn in F. inversion F. exists x. split; [reflexivity|exact (named_camel _ _ _ S X)].
    + inversion F. exists ("Anon" ++ decimal i)%string. split; [reflexivity|]. apply named_app; [intros c C; vm_compute in C; intuition (subst; reflexivity)|apply named_decimal].
  - destruct E as (x & -> & X). exists x. repeat split; auto. unfold non_terminal_variant. rewrite F. reflexivity.
Qed.
Lemma non_terminal_stream_ok : forall i, In (NonTerminal i) (non_terminals g) -> non_terminal_stream g (NonTerminal i) = Ok [TId (non_terminal_variant g (NonTerminal i))].
Proof. intros i K. destruct (non_terminal_written i K) as (x & F & X & ->). unfold non_terminal_stream. rewrite F. cbn [bind]. rewrite (stream_nt x X). reflexivity. Qed.
Lemma non_terminal_variant_inj : forall i j, In (NonTerminal i) (non_terminals g) -> In (NonTerminal j) (non_terminals g) -> non_terminal_variant g (NonTerminal i) = non_terminal_variant g (NonTerminal j) -> i = j.
Proof.
  intros i j A B E. destruct (non_terminal_written i A) as (x & F & _ & E1). destruct (non_terminal_written j B) as (y & G & _ & E2). destruct (un_non_terminals _ U) as (vs & V & D).
  rewrite E1, E2 in E. pose proof (res_list_inj _ _ _ V D _ _ _ A B F) as K. rewrite E in K. specialize (K G). congruence.
Qed.
Lemma rule_stream_ok : forall k, rule_stream k = Ok [TId (rule_variant k)].
Proof. intros k. unfold rule_stream. rewrite stream_rule by apply named_decimal. reflexivity. Qed.

(** Methods. *)
Lemma nm_named : forall i, named (nm g (NonTerminal i)).
Proof.
  intros i. unfold nm. destruct (map_get (NonTerminal i) (g_prods g)) as [n|] eqn:M; [|apply named_app; [intros c C; vm_compute in C; intuition (subst; reflexivity)|apply named_decimal]].
  apply (proj1 (map_get_In _ _ _ (prods_sorted _ _ Hg))) in M. exact (un_prods _ U _ _ M).
Qed.
Lemma suffix_named : forall i l, In l (suffixes true (rules_of g i)) -> named l.
Proof.
  intros i l H. unfold suffixes in H. apply in_map_iff in H. destruct H as ((j, (k, r)) & E & H). cbn [fst snd] in E. apply in_combine_r in H. apply rules_of_In in H. destruct H as [H _]. apply nth_error_In in H.
  destruct (pr_tag (r_prod r)) as [t|] eqn:T; subst l; [exact (un_tags _ U _ _ H T)|apply named_decimal].
Qed.
Lemma method_named : forall k m, In (k, m) (all_visits true g) -> exists x, m = ("reduce_" ++ x)%string /\ named x.
Proof.
  intros k m H. apply visits_In in H. destruct H as (i & [(r & _ & ->)|(_ & l & H & ->)]).
  - eexists. split; [reflexivity|apply nm_named].
  - eexists. split; [reflexivity|]. apply named_app; [apply nm_named|]. apply named_app; [intros c C; vm_compute in C; intuition (subst; reflexivity)|]. apply in_combine_r in H. exact (suffix_named i l H).
Qed.
Lemma visits_cover : forall k, (k < List.length (g_rules g))%nat <-> In k (map fst (all_visits true g)).
Proof.
  intros k. pose proof (visits_once rs g true Hg) as P. split; intros H.
  - apply (Permutation_in k (Permutation_sym P)). apply in_seq. lia.
  - apply (Permutation_in k P) in H. apply in_seq in H. lia.
Qed.

(** ** The trait *)

Definition functions_of (e : symbol * list (nat * rule)) : list (rule * string) := combine (map snd (snd e)) (map (append "reduce_") (base_names true g e)).
Lemma functions_written : forall i rules, rules <> [] -> visitor_functions_of g (NonTerminal i, rules) = Ok (functions_of (NonTerminal i, rules)).
Proof.
  intros i rules Hr. unfold visitor_functions_of, functions_of, base_names. rewrite name_nm. cbn [bind fst snd]. destruct (Nat.eqb_spec (List.length rules) 1) as [E|E]; cbn [negb].
  - destruct rules as [|r [|]]; try discriminate. reflexivity.
  - unfold suffixes. rewrite combine_seq_S, enumerate_combine. set (L := combine (seq 0 (List.length rules)) rules).
    assert (X : map snd rules = map (fun ir => snd (snd ir)) L). { unfold L. transitivity (map snd (map snd (combine (seq 0 (List.length rules)) rules))); [rewrite map_snd_combine; [reflexivity|apply seq_length]|apply map_map]. }
    rewrite X, !map_map, combine_map_map. f_equal. apply map_ext. intros [p [k r]]; cbn [fst snd]; unfold method_of; rewrite Nat.add_1_r; destruct (pr_tag (r_prod r)); reflexivity.
Qed.
Definition all_functions : list (rule * string) := concat (map functions_of (rules_by_non_terminal g)).
Lemma all_functions_ok : res_list (map (visitor_functions_of g) (rules_by_non_terminal g)) = Ok (map functions_of (rules_by_non_terminal g)).
Proof. destruct (rules_by_spec g) as (_ & _ & R). apply res_list_ok. intros [k l] X. apply R in X. destruct X as (i & -> & _ & X). apply functions_written. exact X. Qed.
Lemma functions_methods : map snd all_functions = map snd (all_visits true g).
Proof.
  unfold all_functions, all_visits. rewrite !concat_map_map. f_equal. apply map_ext. intros e. unfold functions_of, visits_of. rewrite !map_snd_combine; [reflexivity| |]; rewrite !map_length, base_length; reflexivity.
Qed.
Lemma functions_rules : forall r m, In (r, m) all_functions -> In r (g_rules g).
Proof.
  intros r m H. unfold all_functions in H. apply in_concat in H. destruct H as (l & A & B). apply in_map_iff in A. destruct A as ((s, e) & <- & A). destruct (rules_by_spec g) as (_ & _ & R). apply R in A. destruct A as (i & -> & -> & _).
  unfold functions_of in B. apply in_combine_l in B. cbn [snd] in B. apply in_map_iff in B. destruct B as ((k, r') & <- & B). apply rules_of_In in B. destruct B as [B _]. exact (nth_error_In _ _ B).
Qed.
End Grammar.

(** ** What is written *)

Definition the_tokens (l : list string) : list tree := separated [TPunct ","] (map (fun n => [TId n]) l).
Fixpoint unlooped (fuel : nat) (l : list tree) : list tree :=
  match fuel with
  | O => []
  | S fuel =>
    match l with
    | TPunct "#" :: TGroup Paren [TPunct "#"; TId x] :: TPunct "*" :: r => TPunct "#" :: TId x :: unlooped fuel r
    | TPunct "#" :: TGroup Paren [TPunct "#"; TId x] :: TPunct "," :: TPunct "*" :: r => TPunct "#" :: TId x :: unlooped fuel r
    | TGroup d g :: r => TGroup d (unlooped fuel g) :: unlooped fuel r
    | t :: r => t :: unlooped fuel r
    | [] => []
    end
  end.
Definition parser_file : tree -> list tree -> list tree -> list tree -> list tree -> list tree -> list tree -> list tree := Eval vm_compute in fun en a b c d e f =>
  match quote_file (unlooped 1000 parser_code) [("entry", One [en]); ("actions", One a); ("gotos", One b); ("rules", One c); ("non_terminals", One d); ("rule_reductions", One e); ("rule_visits", One f)] with Some l => l | None => [] end.
Lemma plain_map : forall l : list (list tree), map (fun e => e ++ []) l = l.
Proof. intros l. induction l as [|x l IH]; [reflexivity|]. cbn [map]. rewrite IH, app_nil_r. reflexivity. Qed.
Lemma parser_quoted : forall en a b c d e f, quote_file parser_code [("entry", One [en]); ("actions", Many a); ("gotos", Many b); ("rules", Many c); ("non_terminals", Many d); ("rule_reductions", Many e); ("rule_visits", Many f)] =
  Some (parser_file en (concat a) (concat b) (separated [TPunct ","] c) (separated [TPunct ","] d) (separated [TPunct ","] e) (separated [TPunct ","] f)).
Proof.
  intros en a b c d e f. unfold quote_file, parser_code, parser_file. cbv -[fold_right app separated concat].
  repeat match goal with |- context [fold_right ?f (Some []) ?l] => replace (fold_right f (Some []) l) with (Some (map (fun e => e ++ []) l)) by (symmetry; clear; induction l as [|x0 l0 IH0]; [reflexivity|cbn [fold_right]; rewrite IH0; reflexivity]) end.
  cbv beta iota. rewrite !separated_concat, !plain_map. reflexivity.
Qed.
Definition visitor_file : list tree -> list tree := Eval vm_compute in fun a => match quote_of (unlooped 1000 visitor_code) [("reduce_functions", One a)] with Some l => l | None => [] end.
Lemma visitor_quoted : forall a, quote_of visitor_code [("reduce_functions", Many a)] = Some (visitor_file (concat a)).
Proof.
  intros a. unfold quote_of, visitor_code, visitor_file. cbv -[fold_right app separated concat].
  repeat match goal with |- context [fold_right ?f (Some []) ?l] => replace (fold_right f (Some []) l) with (Some (map (fun e => e ++ []) l)) by (symmetry; clear; induction l as [|x0 l0 IH0]; [reflexivity|cbn [fold_right]; rewrite IH0; reflexivity]) end.
  cbv beta iota. rewrite !separated_concat, !plain_map. reflexivity.
Qed.
Definition use_file : list tree := Eval vm_compute in match quote_of use_code [] with Some l => l | None => [] end.
Definition whole_file (m : list tree) (en : tree) (a b c d e f : list tree) : list tree := use_file ++ visitor_file m ++ parser_file en a b c d e f.

(** The arms. *)
Definition path2 (a b : string) : list tree := [TId a; TPunct "::"; TId b].
Definition expected_list (g : grammar) (l : list token) : list tree := separated [TPunct ","] (map (fun t => path2 "TokenType" (token_variant g t)) l).
Definition action_trees (g : grammar) (a : action_arm) : list tree :=
  match a with
  | OnToken s t ActShift => [TGroup Paren (usize_tree s :: TPunct "," :: path2 "TokenType" (token_variant g t)); TPunct "=>"; TId "Ok"; TGroup Paren (path2 "Action" "Shift")]
  | OnToken s t (ActReduce k) =>
    [TGroup Paren (usize_tree s :: TPunct "," :: path2 "TokenType" (token_variant g t)); TPunct "=>"; TId "Ok"; TGroup Paren (path2 "Action" "Reduce" ++ [TGroup Brace (TId "rule" :: TPunct ":" :: path2 "ReducedRule" (rule_variant k))])]
  | OnOther s ex =>
    [TGroup Paren [usize_tree s; TPunct ","; TId "_"]; TPunct "=>"; TId "Err";
     TGroup Paren (path2 "ParserError" "UnexpectedToken" ++ [TGroup Brace [TId "got"; TPunct ":"; TId "next_token"; TPunct ","; TId "expected"; TPunct ":"; TId "vec"; TPunct "!"; TGroup Bracket (expected_list g ex)]])]
  end.
Definition goto_symbol (g : grammar) (x : symbol) : list tree :=
  match x with
  | Terminal t => path2 "StackSymbol" "Terminal" ++ [TGroup Brace (TId "token" :: TPunct ":" :: path2 "TokenType" (token_variant g (Some t)))]
  | _ => path2 "StackSymbol" "NonTerminal" ++ [TGroup Brace (TId "non_terminal" :: TPunct ":" :: path2 "NonTerminalType" (non_terminal_variant g x))]
  end.
Definition goto_trees (g : grammar) (e : (nat * symbol) * lr_goto) : list tree :=
  let '((s, x), go) := e in
  [TGroup Paren (usize_tree s :: TPunct "," :: goto_symbol g x); TPunct "=>"] ++
  match go with
  | GotoState q => path2 "Goto" "State" ++ [TGroup Brace [TId "state_id"; TPunct ":"; usize_tree q]]
  | GotoAccept => path2 "Goto" "Accept"
  end.
Definition reduction_trees (g : grammar) (e : nat * (nat * symbol)) : list tree :=
  let '(k, (n, x)) := e in
  path2 "ReducedRule" (rule_variant k) ++ [TPunct "=>"; TGroup Paren (usize_tree n :: TPunct "," :: path2 "StackSymbol" "NonTerminal" ++ [TGroup Brace (TId "non_terminal" :: TPunct ":" :: path2 "NonTerminalType" (non_terminal_variant g x))])].
Definition visit_trees (e : nat * string) : list tree := path2 "ReducedRule" (rule_variant (fst e)) ++ [TPunct "=>"; TId "self"; TPunct "."; TId "visitor"; TPunct "."; TId (snd e); TGroup Paren []].
Definition method_trees (comment : list tree) (m : string) : list tree := comment ++ [TId "fn"; TId m; TGroup Paren [TPunct "&"; TId "mut"; TId "self"]; TPunct ";"].

Section Written.
Variables (rs : rule_set) (g : grammar).
Hypothesis sm : small rs.
Hypothesis Hg : from_rule_set rs = Ok g.
Hypothesis U : usable_names g.
Let wf := grammar_wf rs g Hg.

Lemma expected_written : forall ex, Forall (known g) ex -> res_list (map (expected_tokens g) ex) = Ok (map (fun t => [TId (token_variant g t)]) ex).
Proof. intros ex H. apply res_list_ok. intros [t|] I; [|reflexivity]. apply (token_stream_ok rs g Hg U). exact (proj1 (Forall_forall _ _) H _ I). Qed.
Lemma unexpected_quoted : forall s l, quote_of unexpected_code [("state", usize_token s); ("expected", Many l)] =
  Some ([TGroup Paren [usize_tree s; TPunct ","; TId "_"]; TPunct "=>"; TId "Err";
     TGroup Paren (path2 "ParserError" "UnexpectedToken" ++ [TGroup Brace [TId "got"; TPunct ":"; TId "next_token"; TPunct ","; TId "expected"; TPunct ":"; TId "vec"; TPunct "!"; TGroup Bracket (separated [TPunct ","] (map (fun e => [TId "TokenType"; TPunct "::"] ++ e) l))]])] ++ [TPunct ","]).
Proof.
  intros s l. unfold quote_of, unexpected_code, usize_tree. cbv -[fold_right app separated N.of_nat map].
  repeat match goal with |- context [fold_right ?f (Some []) ?l] => replace (fold_right f (Some []) l) with (Some (map (fun e => [TId "TokenType"; TPunct "::"] ++ e ++ []) l)) by (symmetry; clear; induction l as [|x0 l0 IH0]; [reflexivity|cbn [fold_right]; rewrite IH0; reflexivity]) end.
  cbv beta iota. rewrite app_nil_r. replace (map (fun e => [TId "TokenType"; TPunct "::"] ++ e ++ []) l) with (map (fun e => [TId "TokenType"; TPunct "::"] ++ e) l); [reflexivity|]. apply map_ext. intros e. rewrite app_nil_r. reflexivity.
Qed.
Lemma actions_written : forall p, fits g p -> res_list (map (RustLRTextModel.action_tokens g) (lp_actions p)) = Ok (map comma (map (action_trees g) (lp_actions p))).
Proof.
  intros p F. rewrite map_map. apply res_list_ok. intros a I.
  assert (C : forall s t, known g t -> action_condition g s t = Ok [TGroup Paren (usize_tree s :: TPunct "," :: path2 "TokenType" (token_variant g t))]).
  { intros s [t|] K; [|reflexivity]. unfold action_condition. rewrite (token_stream_ok rs g Hg U t K). reflexivity. }
  destruct a as [s t [|k]|s ex]; unfold RustLRTextModel.action_tokens.
  - rewrite (C s t (proj1 (ft_on _ _ F _ _ _ I))). reflexivity.
  - rewrite (C s t (proj1 (ft_on _ _ F _ _ _ I))), rule_stream_ok. reflexivity.
  - rewrite (expected_written ex (ft_other _ _ F _ _ I)). cbn [bind]. rewrite unexpected_quoted, map_map. reflexivity.
Qed.
Lemma gotos_written : forall p, fits g p -> res_list (map (goto_tokens g) (lp_gotos p)) = Ok (map comma (map (goto_trees g) (lp_gotos p))).
Proof.
  intros p F. rewrite map_map. apply res_list_ok. intros ((s, x), go) I. destruct (ft_gotos _ _ F _ _ _ I) as (K & T).
  assert (C : goto_condition g s x = Ok [TGroup Paren (usize_tree s :: TPunct "," :: goto_symbol g x)]).
  { destruct x as [| |i|t]; try contradiction; unfold goto_condition.
    - rewrite (non_terminal_stream_ok rs g Hg U i); [reflexivity|]. apply in_app_or in K. destruct K as [K|K]; [|exact K]. destruct (wf_ts g wf _ K) as (? & X). discriminate.
    - rewrite (token_stream_ok rs g Hg U t); [reflexivity|]. apply in_app_or in K. destruct K as [K|K]; [exact K|]. destruct (wf_nts g wf _ K) as (? & X). discriminate. }
  unfold goto_tokens. rewrite C. destruct go; reflexivity.
Qed.
Lemma rules_written : res_list (map (fun e : nat * rule => rule_stream (fst e)) (enumerate (g_rules g))) = Ok (map (fun n => [TId n]) (map rule_variant (seq 0 (List.length (g_rules g))))).
Proof.
  rewrite (res_list_ok _ (fun e => [TId (rule_variant (fst e))])); [|intros e _; apply rule_stream_ok]. f_equal. rewrite map_map. unfold enumerate. generalize 0%nat. generalize (g_rules g). induction l as [|r l IH]; intros k; [reflexivity|]. cbn. rewrite IH. reflexivity.
Qed.
Lemma non_terminals_written : res_list (map (non_terminal_stream g) (non_terminals g)) = Ok (map (fun n => [TId n]) (map (non_terminal_variant g) (non_terminals g))).
Proof. rewrite map_map. apply res_list_ok. intros x I. destruct (wf_nts g wf _ I) as (i & ->). exact (non_terminal_stream_ok rs g Hg U i I). Qed.
Lemma enumerate_in : forall {A} (l : list A) j k a, In (k, a) (enumerate_from j l) -> In a l.
Proof. induction l as [|b l IH]; intros j k a H; [destruct H|]. cbn in H. destruct H as [H|H]; [inversion H; left; reflexivity|right; exact (IH _ _ _ H)]. Qed.
Lemma reductions_written : forall p, fits g p -> res_list (map (reduction_tokens g) (enumerate (lp_reductions p))) = Ok (map (reduction_trees g) (enumerate (lp_reductions p))).
Proof.
  intros p F. apply res_list_ok. intros (k, (n, x)) I. apply enumerate_in in I. destruct (ft_symbols _ _ F _ _ I) as (i & -> & K). unfold reduction_tokens. rewrite (non_terminal_stream_ok rs g Hg U i K), rule_stream_ok. reflexivity.
Qed.
Lemma visits_written : res_list (map visit_tokens (all_visits true g)) = Ok (map visit_trees (all_visits true g)).
Proof. apply res_list_ok. intros (k, m) I. destruct (method_named rs g Hg U k m I) as (x & -> & X). unfold visit_tokens. cbn [fst snd]. rewrite rule_stream_ok, (stream_method x X). reflexivity. Qed.
Definition comment_of (r : rule) : list tree := match rule_text g r with Ok d => match doc_comment d with Some l => l | None => [] end | _ => [] end.
Definition lined (s : string) : Prop := forall c, In c (chars s) -> (c <> 10 /\ c <> 13)%N.
Lemma lined_app : forall a b, lined a -> lined b -> lined (a ++ b)%string.
Proof. intros a b A B c C. rewrite chars_append in C. apply in_app_or in C. destruct C; auto. Qed.
Lemma lined_named : forall s, named s -> lined s.
Proof. intros s H c C. specialize (H c C). unfold RustLexTextSpec.name_char, RustTokenSpec.is_letter, RustTokenSpec.is_digit in H. repeat rewrite ?orb_true_iff, ?andb_true_iff, ?N.leb_le, ?N.eqb_eq in H. lia. Qed.
Ltac constant_lined := intros c C; vm_compute in C; intuition (subst; discriminate).
Lemma symbol_lined : forall s, GrammarSpec.known g s -> exists n, get_symbol_name g s = Ok n /\ lined n.
Proof.
  intros [| |i|t] K; try contradiction.
  - eexists. split; [reflexivity|]. constant_lined.
  - unfold get_symbol_name. destruct (map_get (NonTerminal i) (g_prods g)) as [n|] eqn:E.
    + eexists. split; [reflexivity|]. apply (proj1 (map_get_In _ _ _ (prods_sorted _ _ Hg))) in E. apply lined_app; [apply lined_named, (un_prods _ U _ _ E)|]. apply lined_app; [constant_lined|]. apply lined_app; [apply lined_named, named_decimal|constant_lined].
    + eexists. split; [reflexivity|]. apply lined_app; [constant_lined|]. apply lined_app; [apply lined_named, named_decimal|constant_lined].
  - destruct (token_written rs g Hg U t K) as (n & x & I & G & _). unfold get_symbol_name. rewrite G. cbn [bind]. eexists. split; [reflexivity|].
    apply lined_app; [apply lined_named, (un_tokens _ U _ _ I)|]. apply lined_app; [constant_lined|]. apply lined_app; [apply lined_named, named_decimal|constant_lined].
Qed.
Lemma symbols_lined : forall l, (forall s, In s l -> GrammarSpec.known g s) -> exists n, symbol_names g l = Ok n /\ lined n.
Proof.
  intros l K. unfold symbol_names. assert (X : exists ns, res_list (map (get_symbol_name g) l) = Ok ns /\ Forall lined ns).
  { induction l as [|s l IH]; [exists []; split; [reflexivity|constructor]|]. destruct (symbol_lined s (K s (or_introl eq_refl))) as (n & E & Q). destruct (IH (fun x J => K x (or_intror J))) as (ns & E' & Q').
    exists (n :: ns). cbn [map res_list]. rewrite E. cbn [bind]. rewrite E'. cbn [bind]. split; [reflexivity|constructor; assumption]. }
  destruct X as (ns & E & Q). rewrite E. cbn [bind]. eexists. split; [reflexivity|]. clear E. induction Q as [|x l' Hx Hl IH]; [intros c []|]. destruct l' as [|y l']; [exact Hx|]. change (String.concat " " (x :: y :: l')) with (x ++ " " ++ String.concat " " (y :: l'))%string.
  apply lined_app; [exact Hx|]. apply lined_app; [constant_lined|exact IH].
Qed.
Lemma comment_ok : forall r, In r (g_rules g) -> exists d, rule_text g r = Ok d /\ doc_comment d = Some (comment_of r) /\ (comment_of r = [] \/ exists t, comment_of r = [TPunct "#"; TGroup Bracket t]).
Proof.
  intros r Hr. assert (X : exists d, rule_text g r = Ok d /\ lined d).
  { unfold rule_text. destruct (symbols_lined (r_rhs r)) as (n & E & Q); [intros s Hs; eapply wf_rhs; eauto|]. rewrite E. cbn [bind].
    destruct (wf_lhs g wf r Hr) as (i & -> & Hi). destruct (symbol_lined (NonTerminal i) Hi) as (l & -> & QL). cbn [bind]. eexists. split; [reflexivity|]. apply lined_app; [exact QL|]. apply lined_app; [constant_lined|exact Q]. }
  destruct X as (d & E & L). exists d. split; [exact E|]. unfold comment_of. rewrite E. unfold doc_comment.
  assert (B : existsb (fun c => (c =? 10) || (c =? 13))%N (chars d) = false).
  { apply not_true_is_false. intros B. apply existsb_exists in B. destruct B as (c & C & B). destruct (L c C) as [X Y]. apply orb_true_iff in B. rewrite !N.eqb_eq in B. tauto. }
  rewrite B. destruct (chars d) as [|c l]; [split; [reflexivity|right; eexists; reflexivity]|]. destruct (N.eqb_spec c 47) as [->|D]; [split; [reflexivity|left; reflexivity]|].
  assert (Z : forall A (x y : A), match c with 47%N => x | _ => y end = y).
  { intros A x y. destruct c as [|c]; [reflexivity|]. do 6 (destruct c as [c|c|]; try reflexivity). congruence. }
  rewrite Z. split; [reflexivity|right; eexists; reflexivity].
Qed.
Definition the_methods : list tree := concat (map (fun e => method_trees (comment_of (fst e)) (snd e)) (all_functions g)).
Lemma visitor_written : visitor_tokens g = Ok (visitor_file the_methods).
Proof.
  unfold visitor_tokens. rewrite (all_functions_ok g). cbn [bind]. fold (all_functions g). rewrite (res_list_ok _ (fun e => method_trees (comment_of (fst e)) (snd e))).
  - cbn [bind]. rewrite visitor_quoted. reflexivity.
  - intros (r, m) I. destruct (comment_ok r (functions_rules g r m I)) as (d & E & D & _). unfold method_tokens. cbn [fst snd]. rewrite E. cbn [bind]. rewrite D. cbn [expanded bind].
    assert (M : In m (map snd (all_visits true g))) by (rewrite <- (functions_methods g); apply in_map_iff; exists (r, m); auto). apply in_map_iff in M. destruct M as ((k, m') & E' & M). cbn in E'. subst m'.
    destruct (method_named rs g Hg U k m M) as (x & -> & X). rewrite (stream_method x X). reflexivity.
Qed.
Definition parser_trees (p : lr_parser) : list tree :=
  whole_file the_methods (usize_tree (lp_entry p)) (in_arms (map (action_trees g) (lp_actions p))) (in_arms (map (goto_trees g) (lp_gotos p))) (the_tokens (map rule_variant (seq 0 (List.length (g_rules g)))))
    (the_tokens (map (non_terminal_variant g) (non_terminals g))) (separated [TPunct ","] (map (reduction_trees g) (enumerate (lp_reductions p)))) (separated [TPunct ","] (map visit_trees (all_visits true g))).
Lemma parser_written : forall p, fits g p -> parser_rs g p = Ok (parser_trees p).
Proof.
  intros p F. unfold parser_rs. change (quote_of use_code []) with (Some use_file). cbn [expanded bind]. rewrite visitor_written. cbn [bind]. unfold parser_tokens.
  rewrite (actions_written p F), (gotos_written p F), rules_written, non_terminals_written, (reductions_written p F). cbn [bind]. rewrite (proj1 (rust_visits g)). cbn [bind]. rewrite visits_written. cbn [bind].
  unfold usize_token. rewrite parser_quoted. reflexivity.
Qed.

(** ** The declarations *)

Lemma listed_tokens : forall l fuel, (List.length l <= fuel)%nat -> listed fuel parse_variant (the_tokens l) = Some l.
Proof.
  induction l as [|a l IH]; intros fuel L; [destruct fuel; reflexivity|]. cbn [List.length] in L. destruct fuel as [|fuel]; [lia|]. destruct l as [|b l]; [reflexivity|].
  change (the_tokens (a :: b :: l)) with (TId a :: TPunct "," :: the_tokens (b :: l)). cbn [listed parse_variant]. rewrite IH by lia. reflexivity.
Qed.
Lemma tokens_length : forall l, (List.length l <= List.length (the_tokens l))%nat.
Proof. induction l as [|a l IH]; [apply le_n|]. destruct l as [|b l]; [apply le_n|]. change (the_tokens (a :: b :: l)) with (TId a :: TPunct "," :: the_tokens (b :: l)). cbn [List.length] in *. lia. Qed.
Lemma enum_rules : forall p, enum_of "ReducedRule" (parser_trees p) = Some (map rule_variant (seq 0 (List.length (g_rules g)))).
Proof.
  intros p. assert (E : forall m en a b c d e f, enum_of "ReducedRule" (whole_file m en a b c d e f) = listed (List.length c) parse_variant c) by (intros; rewrite <- (app_nil_r c) at 2 3; reflexivity).
  unfold parser_trees. rewrite E. apply listed_tokens, tokens_length.
Qed.
Lemma enum_non_terminals : forall p, enum_of "NonTerminalType" (parser_trees p) = Some (map (non_terminal_variant g) (non_terminals g)).
Proof.
  intros p. assert (E : forall m en a b c d e f, enum_of "NonTerminalType" (whole_file m en a b c d e f) = listed (List.length d) parse_variant d) by (intros; rewrite <- (app_nil_r d) at 2 3; reflexivity).
  unfold parser_trees. rewrite E. apply listed_tokens, tokens_length.
Qed.
Lemma variants_named : rust_non_terminal_variants g = Ok (map (non_terminal_variant g) (non_terminals g)).
Proof. unfold rust_non_terminal_variants. apply res_list_ok. intros x I. destruct (wf_nts g wf _ I) as (i & ->). destruct (non_terminal_written rs g Hg U i I) as (x & E & _ & ->). exact E. Qed.
Lemma trait_methods : forall p, trait_of "Visitor" (parser_trees p) = Some (("shift", [("self", true); ("token", false); ("data", false)]) :: map (fun m => (m, [("self", true)])) (map snd (all_visits true g))).
Proof.
  intros p. assert (E : forall m en a b c d e f, trait_of "Visitor" (whole_file m en a b c d e f) = match signatures m with Some l => Some (("shift", [("self", true); ("token", false); ("data", false)]) :: l) | None => None end) by (intros; rewrite <- (app_nil_r m) at 2; reflexivity).
  unfold parser_trees. rewrite E, <- (functions_methods g). assert (S : signatures the_methods = Some (map (fun m => (m, [("self", true)])) (map snd (all_functions g)))); [|rewrite S; reflexivity].
  unfold the_methods. assert (K : forall r m, In (r, m) (all_functions g) -> comment_of r = [] \/ exists t, comment_of r = [TPunct "#"; TGroup Bracket t]).
  { intros r m I. destruct (comment_ok r (functions_rules g r m I)) as (d & _ & _ & C). exact C. }
  revert K. generalize (all_functions g). induction l as [|(r, m) l IH]; intros K; [reflexivity|]. cbn [map concat fst snd]. unfold method_trees at 1.
  assert (Q : forall rest, signatures (([TId "fn"; TId m; TGroup Paren [TPunct "&"; TId "mut"; TId "self"]; TPunct ";"]) ++ rest) = match signatures rest with Some l => Some ((m, [("self", true)]) :: l) | None => None end) by reflexivity.
  rewrite <- app_assoc. destruct (K r m (or_introl eq_refl)) as [->|(t & ->)].
  - cbn [app]. refine (eq_trans (Q _) _). rewrite IH; [reflexivity|]. intros r' m' I. apply (K r' m'). right. exact I.
  - assert (C : forall rest, signatures ([TPunct "#"; TGroup Bracket t] ++ rest) = signatures rest) by reflexivity. rewrite C. refine (eq_trans (Q _) _). rewrite IH; [reflexivity|]. intros r' m' I. apply (K r' m'). right. exact I.
Qed.
Lemma parser_types_declared : forall p, types_declared (parser_trees p) parser_types.
Proof. intros p q f t [X|[X|[]]]; inversion X; subst; reflexivity. Qed.
End Written.
