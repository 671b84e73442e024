(** Property theorems C11-C13 about lapex-parser's grammar construction. *)
From Coq Require Import String List Arith NArith Bool Lia.
From Verif Require Import Base InputModel GrammarModel GrammarSpec GrammarFactsProof.
Import ListNotations.
Open Scope string_scope.

(** Running example: s = A (t | B)* C?;  t = A+;  t = !; *)
Definition ex_tok (n : string) : token_rule := mkTokenRule n None (TLiteral [97%N]).
Definition ex_gram : rule_set :=
  mkRuleSet "s" [ex_tok "A"; ex_tok "B"; ex_tok "C"]
    [mkProdRule "s" None (QSeq [QRule "A"; QStar (QAlt [QRule "t"; QRule "B"]); QOpt (QRule "C")]);
     mkProdRule "t" (Some "many") (QPlus (QRule "A"));
     mkProdRule "t" None QEps].

(** C11.  The grammar derives exactly the token sequences described by the entry production. *)
Theorem grammar_language : forall rs g, small rs -> from_rule_set rs = Ok g ->
  forall ts, ebnf rs (QRule (rs_entry rs)) ts <->
    exists w, derives (g_rules g) [g_entry g] w /\ Forall2 (token_named g) w ts.
Proof. exact language_ok. Qed.
Example grammar_language_case : small ex_gram /\ (exists g, from_rule_set ex_gram = Ok g) /\
  ebnf ex_gram (QRule "s") ["A"; "B"; "A"; "A"; "C"].
Proof.
  split; [apply smallb_ok; reflexivity|]. split; [eexists; vm_compute; reflexivity|].
  set (p := mkProdRule "s" None (QSeq [QRule "A"; QStar (QAlt [QRule "t"; QRule "B"]); QOpt (QRule "C")])).
  set (q := mkProdRule "t" (Some "many") (QPlus (QRule "A"))).
  assert (T : forall n, In n ["A"; "B"; "C"] -> ebnf ex_gram (QRule n) [n]).
  { intros n H. apply e_token. simpl in H. destruct H as [<-|[<-|[<-|[]]]]; [exists (ex_tok "A")|exists (ex_tok "B")|exists (ex_tok "C")]; simpl; auto. }
  apply (e_prod ex_gram p); [simpl; auto|]. simpl.
  apply (e_seq_cons ex_gram _ _ ["A"] ["B"; "A"; "A"; "C"]); [apply T; simpl; auto|].
  apply (e_seq_cons ex_gram _ _ ["B"; "A"; "A"] ["C"]).
  - apply (e_star_more ex_gram _ ["B"] ["A"; "A"]).
    + apply (e_alt ex_gram (QRule "B")); [simpl; auto|apply T; simpl; auto].
    + apply (e_star_more ex_gram _ ["A"; "A"] []); [|constructor].
      apply (e_alt ex_gram (QRule "t")); [simpl; auto|]. apply (e_prod ex_gram q); [simpl; auto|]. simpl.
      apply (e_plus_more ex_gram _ ["A"] ["A"]); [apply T; simpl; auto|]. apply e_plus_one. apply T; simpl; auto.
  - apply (e_seq_cons ex_gram _ _ ["C"] []); [|constructor]. apply e_opt_some. apply T; simpl; auto.
Qed.
Print Assumptions grammar_language.

(** C11.  Every rule remembers its production, and the named rules are the productions in source order. *)
Theorem rule_provenance : forall rs g, from_rule_set rs = Ok g ->
  map r_prod (filter (named_rule g) (g_rules g)) = rs_prods rs /\
  (forall r, In r (g_rules g) -> In (r_prod r) (rs_prods rs)).
Proof. exact provenance. Qed.
Example rule_provenance_case : exists g, from_rule_set ex_gram = Ok g /\
  map r_prod (filter (named_rule g) (g_rules g)) = rs_prods ex_gram /\ length (g_rules g) = 11%nat.
Proof. eexists. split; [vm_compute; reflexivity|]. split; vm_compute; reflexivity. Qed.
Print Assumptions rule_provenance.

(** C11.  A named rule belongs to the non-terminal of its production's name. *)
Theorem rule_names : forall rs g, small rs -> from_rule_set rs = Ok g ->
  forall r, In r (g_rules g) -> named_rule g r = true ->
  exists i, r_lhs r = Some i /\ In (NonTerminal i, pr_name (r_prod r)) (g_prods g).
Proof. exact named_lhs. Qed.
Example rule_names_case : exists g r, from_rule_set ex_gram = Ok g /\ In r (g_rules g) /\ named_rule g r = true /\ pr_name (r_prod r) = "t".
Proof.
  eexists. eexists. split; [vm_compute; reflexivity|]. split; [|split].
  - cbn [g_rules]. do 9 right. left. reflexivity.
  - reflexivity.
  - reflexivity.
Qed.
Print Assumptions rule_names.

(** C12.  Name clashes are reported, and only name clashes are. *)
Theorem clash_reported : forall rs, (exists x y, clash rs x y) <->
  exists x y, clash rs x y /\ from_rule_set rs = Err (ConflictingRules [x; y]).
Proof. exact conflict_iff. Qed.
Example clash_reported_case : clash (mkRuleSet "A" [ex_tok "B"; ex_tok "A"] [mkProdRule "s" None QEps; mkProdRule "A" None QEps]) (TokenAt 1) (ProdAt 1).
Proof. exists "A". split; eexists; split; reflexivity. Qed.
Print Assumptions clash_reported.

(** C12.  Construction succeeds iff no names clash, none is missing and the indices fit into 16 bits. *)
Theorem construction_succeeds : forall rs, (exists g, from_rule_set rs = Ok g) <->
  (forall x y, ~ clash rs x y) /\ (forall n, ~ missing rs n) /\ enough_indices rs.
Proof. exact ok_iff. Qed.
Example construction_succeeds_case : exists g, from_rule_set ex_gram = Ok g /\ length (g_anon g) = 4%nat.
Proof. eexists. split; vm_compute; reflexivity. Qed.
Print Assumptions construction_succeeds.

(** C12.  Without a clash and with enough indices, a missing name is reported. *)
Theorem missing_reported : forall rs, (forall x y, ~ clash rs x y) -> (rs_tokens rs <> [] \/ rs_prods rs <> []) ->
  enough_indices rs -> (exists n, missing rs n) -> exists n, missing rs n /\ from_rule_set rs = Err (MissingSymbol n).
Proof. exact missing_error. Qed.
Example missing_reported_case : let rs := mkRuleSet "s" [ex_tok "A"] [mkProdRule "s" None (QSeq [QRule "A"; QRule "x"])] in
  missing rs "x" /\ from_rule_set rs = Err (MissingSymbol "x").
Proof.
  split; [|reflexivity]. left. eexists. split; [left; reflexivity|]. split; [simpl; auto|].
  intros [(i & r & Hr & Hn)|(i & r & Hr & Hn)]; destruct i as [|[|i]]; simpl in Hr; try discriminate; injection Hr as <-; discriminate.
Qed.
Print Assumptions missing_reported.

(** C12.  With nothing else wrong, running out of indices panics. *)
Theorem exhaustion_panics : forall rs, (forall x y, ~ clash rs x y) -> (forall n, ~ missing rs n) -> ~ enough_indices rs ->
  from_rule_set rs = Panic.
Proof. exact panic_cases. Qed.
Example exhaustion_panics_case : let rs := many_options (N.to_nat 65536) in
  ~ enough_indices rs /\ (forall x y, ~ clash rs x y) /\ (forall n, ~ missing rs n).
Proof. apply many_options_exhaust. rewrite N2Nat.id. apply N.le_refl. Qed.
Print Assumptions exhaustion_panics.

(** C12.  No other outcome is possible; in particular [TooManyRules] and
    [RuleWithTerminalLeftHandSide] are never returned. *)
Theorem construction_outcomes : forall rs,
  match from_rule_set rs with
  | Ok _ => True
  | Err (ConflictingRules l) => exists x y, l = [x; y] /\ clash rs x y
  | Err (MissingSymbol n) => missing rs n
  | Err _ => False
  | Panic => (rs_tokens rs = [] /\ rs_prods rs = []) \/ ~ enough_indices rs
  | OutOfFuel => False
  end.
Proof. exact outcome_only. Qed.
Example construction_outcomes_case : from_rule_set (mkRuleSet "s" [] []) = Panic.
Proof. reflexivity. Qed.
Print Assumptions construction_outcomes.

(** C12.  A rule set without any rule panics instead of reporting the missing entry. *)
Theorem empty_rule_set_panics : forall rs, rs_tokens rs = [] -> rs_prods rs = [] -> from_rule_set rs = Panic.
Proof. exact empty_panics. Qed.
Example empty_rule_set_panics_case : missing (mkRuleSet "s" [] []) "s".
Proof. right. split; auto. intros i (r & Hr & _). destruct i; discriminate. Qed.
Print Assumptions empty_rule_set_panics.

(** C13.  Terminals are numbered by position, one per token name. *)
Theorem tokens_numbered : forall rs g, small rs -> from_rule_set rs = Ok g ->
  (forall t name, token_named g t name <-> exists i, t = N.of_nat i /\ token_at rs i name) /\
  (forall i j name, token_at rs i name -> token_at rs j name -> i = j).
Proof. intros rs g Hs H. split; [exact (token_numbers rs g Hs H)|exact (token_unique rs g H)]. Qed.
Example tokens_numbered_case : exists g, from_rule_set ex_gram = Ok g /\ token_named g 2 "C".
Proof. eexists. split; [vm_compute; reflexivity|]. unfold token_named; simpl; auto. Qed.
Print Assumptions tokens_numbered.

(** C13.  A production name is numbered by its first production. *)
Theorem productions_numbered : forall rs g, small rs -> from_rule_set rs = Ok g -> forall j name,
  In (NonTerminal j, name) (g_prods g) <-> exists i, j = N.of_nat i /\ first_prod_at rs i name.
Proof. exact production_numbers. Qed.
Example productions_numbered_case : exists g, from_rule_set ex_gram = Ok g /\ g_prods g = [(NonTerminal 0, "s"); (NonTerminal 1, "t")].
Proof. eexists. split; vm_compute; reflexivity. Qed.
Print Assumptions productions_numbered.

(** C13.  Anonymous non-terminals are distinct and fresh, one per operator. *)
Theorem anonymous_fresh : forall rs g, from_rule_set rs = Ok g ->
  NoDup (g_anon g) /\ N.of_nat (length (g_anon g)) = total_operators rs /\
  forall s, In s (g_anon g) -> ~ In s (map fst (g_prods g)).
Proof. exact anon_fresh. Qed.
Example anonymous_fresh_case : exists g, from_rule_set ex_gram = Ok g /\ g_anon g = [NonTerminal 3; NonTerminal 4; NonTerminal 5; NonTerminal 6].
Proof. eexists. split; vm_compute; reflexivity. Qed.
Print Assumptions anonymous_fresh.

(** C13.  Every grammar built is well formed: the basis of all parser generator properties. *)
Theorem grammar_well_formed : forall rs g, from_rule_set rs = Ok g -> wf_grammar g.
Proof. exact grammar_wf. Qed.
Example grammar_well_formed_case : exists g, from_rule_set ex_gram = Ok g /\ g_entry g = NonTerminal 0.
Proof. eexists. split; vm_compute; reflexivity. Qed.
Print Assumptions grammar_well_formed.

(** C13.  With 65537 tokens two different tokens silently become the same terminal: the productions
    s = a and u = b derive the same terminal. *)
Theorem shared_terminal_refuted : exists rs g a b, from_rule_set rs = Ok g /\ is_token rs a /\ is_token rs b /\ a <> b /\
  rs_prods rs = [mkProdRule "s" None (QRule a); mkProdRule "u" None (QRule b)] /\
  In (NonTerminal 0, "s") (g_prods g) /\ In (NonTerminal 1, "u") (g_prods g) /\
  forall w, (derives (g_rules g) [NonTerminal 0] w <-> w = [0%N]) /\ (derives (g_rules g) [NonTerminal 1] w <-> w = [0%N]).
Proof. exact wrap_shares. Qed.
Print Assumptions shared_terminal_refuted.
