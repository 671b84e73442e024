(** Concrete parsers used as witnesses beside the theorems about the text of C++ LR parsers. *)
From Coq Require Import String List Arith NArith ZArith Bool Lia.
From Verif Require Import Base InputModel LexerSpec LexerModel GrammarModel GrammarSpec LLModel LLSpec LLExample LRModel LRSpec LRExample LRTermSpec LRTermExample GLRSpec NamesModel RunModel RunSpec RunExample CppLexerModel CppLexerSpec CppLRModel CppLRSpec CppLRProof CppLRExample
  CppRunModel CppRunSpec CppRunProof CppRunExample TemplateModel TemplateFiles CppTextModel CppTextSpec CppTextProof CppLexTextSpec CppLexTextExample CppLRTextModel CppPullModel CppLRTextSpec CppLRGenTextProof CppEndTextProof.
Import ListNotations.
Local Open Scope string_scope.
Local Open Scope list_scope.

(** ** The grammar of sums *)
Definition sum_visits : list (nat * option string) := Eval vm_compute in match cpp_rule_visits ll_g with Ok v => v | _ => [] end.
Lemma sum_visits_ok : cpp_rule_visits ll_g = Ok sum_visits. Proof. vm_compute. reflexivity. Qed.
Lemma wide_named : forall r, In r (rs_tokens wide_rules) -> plain_name (tr_name r) /\ one_line (by_name r).
Proof. intros r I. cbn in I. decompose [or] I; subst; try contradiction; (split; [apply plainb_ok; reflexivity|apply one_lineb_ok; reflexivity]). Qed.
Lemma sum_prods_named : forall p, In p (rs_prods wide_rules) -> plain_name (pr_name p).
Proof. intros p I. cbn in I. decompose [or] I; subst; try contradiction; apply plainb_ok; reflexivity. Qed.
Lemma wide_nodes : (N.of_nat (List.length (dfa_nodes wide_dfa)) <= 2 ^ 32)%N. Proof. vm_compute. discriminate. Qed.
Definition sizedb (g : grammar) (tb : lr_table) : bool :=
  (N.of_nat (tb_states tb) <=? 2 ^ 32)%N && (N.of_nat (List.length (g_rules g)) <=? 2 ^ 32)%N && forallb (fun r => (N.of_nat (List.length (r_rhs r)) <? 2 ^ 32)%N) (g_rules g).
Lemma sizedb_ok : forall g tb, sizedb g tb = true -> word_sized g tb.
Proof.
  intros g tb H. unfold sizedb in H. apply andb_true_iff in H. destruct H as (H & C). apply andb_true_iff in H. destruct H as (A & B). apply N.leb_le in A, B. split; [exact A|]. split; [exact B|].
  intros r I. rewrite forallb_forall in C. apply N.ltb_lt. exact (C r I).
Qed.
Lemma sum_sized : word_sized ll_g lr1_tb. Proof. apply sizedb_ok. vm_compute. reflexivity. Qed.
Lemma wide_names : Forall plain_name (token_names wide_rules). Proof. repeat constructor; apply plainb_ok; reflexivity. Qed.
Lemma sum_writable : writable_lr lr1_c.
Proof. exact (generated_writable _ _ wide_small wide_built _ _ _ _ _ lr1_tb_ok wide_c_ok wide_names sum_prods_named sum_sized). Qed.
Lemma sum_writable_visits : writable_visits sum_visits.
Proof. exact (proj1 (generated_visits _ _ wide_small wide_built _ _ _ _ _ lr1_tb_ok wide_c_ok sum_prods_named sum_sized _ sum_visits_ok)). Qed.

(** What the visitor is told about ["1→20"], in order. *)
Definition token_at (z a b : Z) : value := shift_call (VEnum "TokenType" z) (VRec "TokenData" [("start", VInt U64 a); ("end", VInt U64 b)]).
Definition wide_log : list value :=
  [token_at 2 0 1; reduce_call "reduce_term_1"; token_at 3 1 2; token_at 2 2 4; reduce_call "reduce_term_1"; reduce_call "reduce_anon4_1"; reduce_call "reduce_anon4_2"; reduce_call "reduce_expr"].
Lemma wide_logged : flat_map (seen_call sum_visits) wide_calls = wide_log. Proof. vm_compute. reflexivity. Qed.

(** ** Two productions whose names differ by case *)
Definition case_visits : list (nat * option string) := Eval vm_compute in match cpp_rule_visits case_g with Ok v => v | _ => [] end.
Lemma case_visits_ok : cpp_rule_visits case_g = Ok case_visits. Proof. vm_compute. reflexivity. Qed.
Lemma case_names : Forall plain_name (token_names case_rules). Proof. repeat constructor; apply plainb_ok; reflexivity. Qed.
Lemma case_prods_named : forall p, In p (rs_prods case_rules) -> plain_name (pr_name p).
Proof. intros p I. cbn in I. decompose [or] I; subst; try contradiction; apply plainb_ok; reflexivity. Qed.
Lemma case_sized : word_sized case_g case_tb. Proof. apply sizedb_ok. vm_compute. reflexivity. Qed.
Lemma case_writable : writable_lr case_c.
Proof. exact (generated_writable _ _ case_small case_built _ _ _ _ _ case_tb_ok case_c_ok case_names case_prods_named case_sized). Qed.
Lemma case_writable_visits : writable_visits case_visits.
Proof. exact (proj1 (generated_visits _ _ case_small case_built _ _ _ _ _ case_tb_ok case_c_ok case_prods_named case_sized _ case_visits_ok)). Qed.

(** ** An entry production that is empty *)
Definition empty_visits : list (nat * option string) := Eval vm_compute in match cpp_rule_visits empty_g with Ok v => v | _ => [] end.
Lemma empty_visits_ok : cpp_rule_visits empty_g = Ok empty_visits. Proof. vm_compute. reflexivity. Qed.
Lemma empty_named : forall r, In r (rs_tokens empty_rules) -> plain_name (tr_name r) /\ one_line (by_name r).
Proof. intros r I. cbn in I. decompose [or] I; subst; try contradiction; (split; [apply plainb_ok; reflexivity|apply one_lineb_ok; reflexivity]). Qed.
Lemma empty_prods_named : forall p, In p (rs_prods empty_rules) -> plain_name (pr_name p).
Proof. intros p I. cbn in I. decompose [or] I; subst; try contradiction; apply plainb_ok; reflexivity. Qed.
Lemma empty_sized : word_sized empty_g empty1_tb. Proof. apply sizedb_ok. vm_compute. reflexivity. Qed.
Lemma empty_nodes : (N.of_nat (List.length (dfa_nodes empty_dfa)) <= 2 ^ 32)%N. Proof. vm_compute. discriminate. Qed.

(** ** Tokens in a list, with numbers as data *)
Definition list_pull : token_source (list (N * Z)) Z := fun l => match l with [] => None | (t, p) :: l => Some (t, p, l) end.
Definition number_value (z : Z) : value := VInt I64 z.
Definition list_state (l : list (N * Z)) : value := VVec (map (fun x => pair_value (fst x) (number_value (snd x))) l).
Definition list_source (v : value) : option (value * value) := match v with VVec (x :: l) => Some (x, VVec l) | _ => None end.
Definition list_fits (n : nat) (l : list (N * Z)) : Prop := Forall (fun x => (fst x < 2 ^ 32)%N) l.
Lemma list_pulls : pulls list_pull list_fits list_state number_value list_source.
Proof. split; [intros n s H; exact H|]. intros n [|(t, p) l] H; [exact I|]. inversion H as [|? ? A B]; subst. split; [reflexivity|]. split; [exact A|exact B]. Qed.
(** The tokens of "1+(2)". *)
Definition list_tokens : list (N * Z) := [(2, 10%Z); (3, 11%Z); (4, 12%Z); (2, 13%Z); (5, 14%Z); (1, 15%Z)]%N.
Lemma list_tokens_fit : list_fits 21 list_tokens. Proof. repeat constructor. Qed.
Lemma sum_covered : forall k, In k (map fst (cx_reductions lr1_c)) -> In k (map fst sum_visits).
Proof. exact (proj2 (generated_visits _ _ wide_small wide_built _ _ _ _ _ lr1_tb_ok wide_c_ok sum_prods_named sum_sized _ sum_visits_ok)). Qed.

(** ** Runs of texts *)
Lemma wide_texts : small wide_rules /\ from_rule_set wide_rules = Ok ll_g /\ usable_tokens (rs_tokens wide_rules) /\ generate_lexer 100 (rs_tokens wide_rules) = Ok (wide_al, wide_dfa) /\
  (forall r, In r (rs_tokens wide_rules) -> plain_name (tr_name r) /\ one_line (by_name r)) /\ (forall p, In p (rs_prods wide_rules) -> plain_name (pr_name p)) /\ (N.of_nat (List.length (dfa_nodes wide_dfa)) <= 2 ^ 32)%N /\
  generates KindLR1 100 ll_g false = Ok (NoConflicts lr1_tb) /\ cpp_write (token_names wide_rules) ll_g lr1_tb = Ok lr1_c /\ cpp_rule_visits ll_g = Ok sum_visits /\ cpp_compiles lr1_c /\ word_sized ll_g lr1_tb /\
  epsilon_in_front ll_g /\ no_empty_rhs ll_g /\ sealed KindLR1 ll_g /\ entry_starts ll_g /\ holds wide_bytes wide_text [] /\
  exists code fs parse, lexer_code_in (lexer_cpp_text by_name wide_al wide_dfa) code /\ parser_functions (parser_cpp_text lr1_c) (parser_impl_h_text lr1_c sum_visits) fs /\ defines (parser_impl_h_text lr1_c sum_visits) parse_head parse /\
  let P := lr_program (enumerators (token_names wide_rules)) (cx_nts lr1_c) fs in
  parser_does P (token_names wide_rules) code parse (lexer_value (cpp_new wide_bytes)) (rev wide_log) RNext /\
  parser_does P (token_names wide_rules) code parse (lexer_value (cpp_new (firstn 4 wide_bytes))) (rev (firstn 3 wide_log)) (RThrow "Unexpected token '<EOF>', expected one of: 'NUM', 'LPAR'").
Proof.
  split; [exact wide_small|]. split; [exact wide_built|]. split; [exact wide_usable|]. split; [exact wide_lexer|]. split; [exact wide_named|]. split; [exact sum_prods_named|]. split; [exact wide_nodes|]. split; [exact lr1_tb_ok|]. split; [exact wide_c_ok|].
  split; [exact sum_visits_ok|]. split; [exact lr1_c_compiles|]. split; [exact sum_sized|]. split; [exact ll_g_front|]. split; [exact ll_g_ne|]. split; [exact sum_sealed|]. split; [exact ll_starts|]. split; [exact wide_holds|].
  destruct (end_text wide_rules ll_g 100 wide_al wide_dfa by_name wide_small wide_built wide_usable wide_lexer wide_named sum_prods_named wide_nodes _ _ _ _ _ _ lr1_tb_ok wide_c_ok sum_visits_ok lr1_c_compiles sum_sized) as (code & fs & parse & A & B & C & _ & _ & _ & _ & R).
  exists code, fs, parse. split; [exact A|]. split; [exact B|]. split; [exact C|]. intros P. split.
  - destruct wide_run as (lx & E). rewrite <- wide_logged. apply (R 12%nat wide_bytes wide_calls (Ok lx) RNext); [apply wide_are_bytes|cbn; lia|lia|exact E|reflexivity].
  - assert (W : flat_map (seen_call sum_visits) (firstn 3 wide_calls) = firstn 3 wide_log) by (vm_compute; reflexivity). rewrite <- W. eapply (R 12%nat); [repeat constructor|cbn; lia|lia|exact short_run|reflexivity].
Qed.

Lemma empty_terminates : exists rs g al d tb c visits, small rs /\ from_rule_set rs = Ok g /\ generate_lexer 100 (rs_tokens rs) = Ok (al, d) /\ generates KindLR1 100 g false = Ok (NoConflicts tb) /\ cpp_write (token_names rs) g tb = Ok c /\ cpp_rule_visits g = Ok visits /\ cpp_compiles c /\
  text_of_language rs [] /\ holds [] [] [] /\
  exists code fs parse, lexer_code_in (lexer_cpp_text by_name al d) code /\ parser_functions (parser_cpp_text c) (parser_impl_h_text c visits) fs /\ defines (parser_impl_h_text c visits) parse_head parse /\
  exists log, parser_does (lr_program (enumerators (token_names rs)) (cx_nts c) fs) (token_names rs) code parse (lexer_value (cpp_new [])) log RTerminate.
Proof.
  exists empty_rules, empty_g, empty_al, empty_dfa, empty1_tb, empty1_c, empty_visits. split; [exact empty_small|]. split; [exact empty_built|]. split; [exact empty_lexer|]. split; [exact empty1_tb_ok|]. split; [exact empty1_c_ok|]. split; [exact empty_visits_ok|]. split; [exact empty1_c_compiles|].
  split; [exists []; split; [apply tz_end; exact I|]; apply (e_prod empty_rules (mkProdRule "s" None QEps)); [left; reflexivity|cbn; repeat constructor]|]. split; [exact empty_holds|].
  destruct (end_text empty_rules empty_g 100 empty_al empty_dfa by_name empty_small empty_built empty_usable empty_lexer empty_named empty_prods_named empty_nodes _ _ _ _ _ _ empty1_tb_ok empty1_c_ok empty_visits_ok empty1_c_compiles empty_sized) as (code & fs & parse & A & B & C & _ & _ & _ & _ & R).
  exists code, fs, parse. split; [exact A|]. split; [exact B|]. split; [exact C|]. destruct empty_runs as (E & _). destruct (cpp_text_parse 9 empty_al empty_dfa empty1_c []) as [calls x] eqn:Q. cbn [snd] in E. subst x.
  eexists. apply (R 9%nat [] calls (Err Terminated) RTerminate); [constructor|cbn; lia|lia|exact Q|reflexivity].
Qed.
