(** Programs used by the examples and refutations about the C++ LR parser. *)
From Coq Require Import String List Arith NArith Bool Lia.
From Verif Require Import Base InputModel GrammarModel GrammarSpec GrammarFactsProof GrammarProperties LLModel LLSpec LLExample LRModel LRSpec LRFactsProof LRExample NamesModel NamesSpec NamesVisitProof CppLexerModel CppLRModel CppLRSpec CppLRProof.
Import ListNotations.
Local Open Scope nat_scope.
Local Open Scope string_scope.
Local Open Scope list_scope.

Definition cpp_from (rs : rule_set) (g : grammar) (tb : lr_table) : cpp_lr := match cpp_write (token_names rs) g tb with Ok c => c | _ => mkCppLR [] [] 0 [] [] [] end.

Fixpoint nodupb (l : list string) : bool := match l with [] => true | s :: l => negb (existsb (String.eqb s) l) && nodupb l end.
Lemma absent_ok : forall s l, negb (existsb (String.eqb s) l) = true -> ~ In s l.
Proof. intros s l E I. apply negb_true_iff in E. assert (existsb (String.eqb s) l = true) by (apply existsb_exists; exists s; split; auto; apply String.eqb_refl). congruence. Qed.
Lemma nodupb_ok : forall l, nodupb l = true -> NoDup l.
Proof. induction l as [|s l IH]; intros H; constructor; cbn in H; apply andb_prop in H; destruct H as [H1 H2]; [apply absent_ok; exact H1|auto]. Qed.

Definition distinctb (rs : rule_set) (g : grammar) : bool :=
  nodupb ("ERR" :: "EOF" :: token_names rs) && nodupb (map (fun s => string_map ascii_lower (nm g s)) (non_terminals g)).

Lemma distinctb_ok : forall rs g, from_rule_set rs = Ok g -> distinctb rs g = true -> names_distinct rs g.
Proof.
  intros rs g Hg H. apply andb_prop in H. destruct H as [H1 H2]. apply nodupb_ok in H1. apply nodupb_ok in H2. inversion H1 as [|? ? A1 A2]; subst. inversion A2 as [|? ? B1 B2]; subst.
  split; [split; [exact B2|]; split; [intros X; apply A1; right; exact X|exact B1]|]. intros i j n m Hi Hj Hn Hm E. apply (named_nm _ _ Hg) in Hn. apply (named_nm _ _ Hg) in Hm. subst n m.
  assert (NonTerminal i = NonTerminal j) by (apply (proj1 (nodup_map_inj _ _ _ _ (nts_nodup _ _ Hg)) H2); auto). congruence.
Qed.

(** expr = term (ADD term)*;  term = NUM | LPAR expr RPAR *)
Definition lr1_c : cpp_lr := Eval vm_compute in cpp_from ll_expr ll_g lr1_tb.
Lemma lr1_c_ok : cpp_write (token_names ll_expr) ll_g lr1_tb = Ok lr1_c.
Proof. vm_compute. reflexivity. Qed.
Lemma ll_small : small ll_expr.
Proof. apply smallb_ok. reflexivity. Qed.
Lemma ll_distinct : names_distinct ll_expr ll_g.
Proof. apply (distinctb_ok _ _ ll_g_built). vm_compute. reflexivity. Qed.
Lemma ll_few : few_rules ll_g lr1_tb.
Proof. apply (rules_fit _ _ _ _ _ ll_g_wf lr1_tb_ok). vm_compute. discriminate. Qed.
Lemma ll_starts : entry_starts ll_g.
Proof. do 2 eexists. exists 0. do 2 eexists. split; [right; right; left; reflexivity|]. split; [reflexivity|]. split; [reflexivity|]. split; [reflexivity|]. split; discriminate. Qed.
Lemma lr1_c_compiles : cpp_compiles lr1_c.
Proof. apply (compiles_iff _ _ ll_small ll_g_built _ _ _ _ lr1_tb_ok _ lr1_c_ok). split; [exact ll_distinct|exact ll_few]. Qed.

(** s = ! *)
Lemma empty_small : small empty_rules.
Proof. apply smallb_ok. reflexivity. Qed.
Lemma empty_distinct : names_distinct empty_rules empty_g.
Proof. apply (distinctb_ok _ _ empty_built). vm_compute. reflexivity. Qed.
Lemma empty_no_start : ~ entry_starts empty_g.
Proof. apply empty_entry_not. exact empty_only. Qed.
Definition empty0_c : cpp_lr := Eval vm_compute in cpp_from empty_rules empty_g empty_tb.
Lemma empty0_c_ok : cpp_write (token_names empty_rules) empty_g empty_tb = Ok empty0_c.
Proof. vm_compute. reflexivity. Qed.
Definition empty1_tb : lr_table := Eval vm_compute in table_from (generates KindLR1 100 empty_g false).
Lemma empty1_tb_ok : generates KindLR1 100 empty_g false = Ok (NoConflicts empty1_tb).
Proof. vm_compute. reflexivity. Qed.
Definition empty1_p : lr_parser := Eval vm_compute in parser_from empty_g empty1_tb.
Lemma empty1_p_ok : write_parser empty_g empty1_tb = Ok empty1_p.
Proof. vm_compute. reflexivity. Qed.
Definition empty1_c : cpp_lr := Eval vm_compute in cpp_from empty_rules empty_g empty1_tb.
Lemma empty1_c_ok : cpp_write (token_names empty_rules) empty_g empty1_tb = Ok empty1_c.
Proof. vm_compute. reflexivity. Qed.
Lemma empty1_c_compiles : cpp_compiles empty1_c.
Proof.
  apply (compiles_iff _ _ empty_small empty_built _ _ _ _ empty1_tb_ok _ empty1_c_ok). split; [exact empty_distinct|].
  apply (rules_fit _ _ _ _ _ (grammar_wf _ _ empty_built) empty1_tb_ok). vm_compute. discriminate.
Qed.

(** Two non-terminals whose names differ in case only: s = S;  S = A. *)
Definition case_rules : rule_set := mkRuleSet "s" [ex_tok "A"] [mkProdRule "s" None (QRule "S"); mkProdRule "S" None (QRule "A")].
Definition case_g : grammar := Eval vm_compute in of_rules case_rules.
Lemma case_built : from_rule_set case_rules = Ok case_g.
Proof. vm_compute. reflexivity. Qed.
Lemma case_small : small case_rules.
Proof. apply smallb_ok. reflexivity. Qed.
Definition case_tb : lr_table := Eval vm_compute in table_from (generates KindLR1 100 case_g false).
Lemma case_tb_ok : generates KindLR1 100 case_g false = Ok (NoConflicts case_tb).
Proof. vm_compute. reflexivity. Qed.
Definition case_p : lr_parser := Eval vm_compute in parser_from case_g case_tb.
Lemma case_p_ok : write_parser case_g case_tb = Ok case_p.
Proof. vm_compute. reflexivity. Qed.
Definition case_c : cpp_lr := Eval vm_compute in cpp_from case_rules case_g case_tb.
Lemma case_c_ok : cpp_write (token_names case_rules) case_g case_tb = Ok case_c.
Proof. vm_compute. reflexivity. Qed.
Lemma case_c_not : ~ cpp_compiles case_c.
Proof. intros [_ H _ _ _ _ _]. vm_compute in H. inversion H as [|? ? X _]. apply X. left. reflexivity. Qed.
