(** Concrete grammars used by the examples about errors of LR parsers. *)
From Coq Require Import String List Arith NArith Bool Lia Relations.
From Verif Require Import Base InputModel GrammarModel GrammarSpec GrammarFactsProof GrammarProperties LLModel LLSpec LLExample LRModel LRSpec LRCompleteProof LRFactsProof LRExample ShapesProof
  GLRModel GLRSpec GLRFactsProof GLRExample LRTermSpec LRTermFactsProof LRTermExample LRErrorSpec LRErrorFactsProof.
Import ListNotations.
Local Open Scope nat_scope.
Local Open Scope string_scope.
Local Open Scope list_scope.

(** ** s = A e X | B e Y; e = C *)

Definition merge_rules : rule_set :=
  mkRuleSet "s" [ex_tok "A"; ex_tok "B"; ex_tok "C"; ex_tok "X"; ex_tok "Y"]
    [mkProdRule "s" None (QAlt [QSeq [QRule "A"; QRule "e"; QRule "X"]; QSeq [QRule "B"; QRule "e"; QRule "Y"]]); mkProdRule "e" None (QRule "C")].
Definition merge_g : grammar := Eval vm_compute in of_rules merge_rules.
Lemma merge_built : from_rule_set merge_rules = Ok merge_g.
Proof. vm_compute. reflexivity. Qed.
Definition merge_tb : lr_table := Eval vm_compute in table_from (generates KindLALR 100 merge_g false).
Lemma merge_tb_ok : generates KindLALR 100 merge_g false = Ok (NoConflicts merge_tb).
Proof. vm_compute. reflexivity. Qed.
Definition merge_p : lr_parser := Eval vm_compute in parser_from merge_g merge_tb.
Lemma merge_p_ok : write_parser merge_g merge_tb = Ok merge_p.
Proof. vm_compute. reflexivity. Qed.
Lemma merge_front : epsilon_in_front merge_g /\ no_empty_rhs merge_g.
Proof. split; [apply (built_epsilon_in_front _ _ merge_built)|apply (built_no_empty _ _ merge_built)]; reflexivity. Qed.
Lemma merge_productive : all_productive merge_g.
Proof. apply productiveb_ok; [exact (grammar_wf _ _ merge_built)|vm_compute; reflexivity]. Qed.

(** ** s = A f X | B f Y; f = e | C Q; e = C *)

Definition lost_rules : rule_set :=
  mkRuleSet "s" [ex_tok "A"; ex_tok "B"; ex_tok "C"; ex_tok "Q"; ex_tok "X"; ex_tok "Y"]
    [mkProdRule "s" None (QAlt [QSeq [QRule "A"; QRule "f"; QRule "X"]; QSeq [QRule "B"; QRule "f"; QRule "Y"]]);
     mkProdRule "f" None (QAlt [QRule "e"; QSeq [QRule "C"; QRule "Q"]]); mkProdRule "e" None (QRule "C")].
Definition lost_g : grammar := Eval vm_compute in of_rules lost_rules.
Lemma lost_built : from_rule_set lost_rules = Ok lost_g.
Proof. vm_compute. reflexivity. Qed.
Definition lost_tb : lr_table := Eval vm_compute in table_from (generates KindLALR 100 lost_g false).
Lemma lost_tb_ok : generates KindLALR 100 lost_g false = Ok (NoConflicts lost_tb).
Proof. vm_compute. reflexivity. Qed.
Definition lost_p : lr_parser := Eval vm_compute in parser_from lost_g lost_tb.
Lemma lost_p_ok : write_parser lost_g lost_tb = Ok lost_p.
Proof. vm_compute. reflexivity. Qed.
Lemma lost_front : epsilon_in_front lost_g /\ no_empty_rhs lost_g.
Proof. split; [apply (built_epsilon_in_front _ _ lost_built)|apply (built_no_empty _ _ lost_built)]; reflexivity. Qed.
Lemma lost_productive : all_productive lost_g.
Proof. apply productiveb_ok; [exact (grammar_wf _ _ lost_built)|vm_compute; reflexivity]. Qed.

(** ** s = A u | B; u = C u *)

Definition barren_rules : rule_set :=
  mkRuleSet "s" [ex_tok "A"; ex_tok "B"; ex_tok "C"]
    [mkProdRule "s" None (QAlt [QSeq [QRule "A"; QRule "u"]; QRule "B"]); mkProdRule "u" None (QSeq [QRule "C"; QRule "u"])].
Definition barren_g : grammar := Eval vm_compute in of_rules barren_rules.
Lemma barren_built : from_rule_set barren_rules = Ok barren_g.
Proof. vm_compute. reflexivity. Qed.
Definition barren_tb : lr_table := Eval vm_compute in table_from (generates KindLR1 100 barren_g false).
Lemma barren_tb_ok : generates KindLR1 100 barren_g false = Ok (NoConflicts barren_tb).
Proof. vm_compute. reflexivity. Qed.
Definition barren_p : lr_parser := Eval vm_compute in parser_from barren_g barren_tb.
Lemma barren_p_ok : write_parser barren_g barren_tb = Ok barren_p.
Proof. vm_compute. reflexivity. Qed.
Lemma barren_front : epsilon_in_front barren_g /\ no_empty_rhs barren_g.
Proof. split; [apply (built_epsilon_in_front _ _ barren_built)|apply (built_no_empty _ _ barren_built)]; reflexivity. Qed.

Lemma barren_no_u : forall al w, derives (g_rules barren_g) al w -> ~ In (NonTerminal 1) al.
Proof.
  intros al w H. induction H as [|al w H IH|t al w H IH|r i al u w Hr Hi Hu IHu Hw IHw].
  - intros [].
  - intros [X|X]; [discriminate|auto].
  - intros [X|X]; [discriminate|auto].
  - intros [X|X]; [|auto]. injection X as ->. apply IHu. vm_compute in Hr. destruct Hr as [<-|[<-|[<-|[<-|[]]]]]; try discriminate Hi. cbn. auto.
Qed.

Lemma barren_no_A : forall v, ~ derives (g_rules barren_g) [g_entry barren_g] (0%N :: v).
Proof.
  intros v H. change [g_entry barren_g] with [NonTerminal 0] in H. inversion H as [| | |r i al u w Hr Hi Hu Hw Eal Ew]. subst i al. vm_compute in Hr. inversion Hw. subst w. rewrite app_nil_r in Ew. subst u.
  destruct Hr as [<-|[<-|[<-|[<-|[]]]]]; try discriminate Hi. cbn [r_rhs] in Hu. inversion Hu as [| | |r' i' al' u' w' Hr' Hi' Hu' Hw' Eal' Ew']. subst i' al'. vm_compute in Hr'. inversion Hw'. subst w'. rewrite app_nil_r in Ew'. subst u'.
  destruct Hr' as [<-|[<-|[<-|[<-|[]]]]]; try discriminate Hi'; cbn [r_rhs] in Hu'.
  - apply (barren_no_u _ _ Hu'). cbn. auto.
  - inversion Hu'.
Qed.

(** No sentence starts with A C Y, by the parser's error on that input. *)
Lemma merge_no_ACY : forall v, ~ derives (g_rules merge_g) [g_entry merge_g] ([0; 2] ++ 4 :: v)%N.
Proof.
  intros v H. destruct (error_sound KindLALR 100 merge_g false merge_tb merge_p (grammar_wf _ _ merge_built) merge_tb_ok merge_p_ok (proj1 merge_front) (proj2 merge_front)
    20 [0; 2; 4]%N [EShift (Some 0%N); EShift (Some 2%N); EReduce 3] (UnexpectedTok (Some 4%N) [Some 3%N]) eq_refl) as (consumed & rest & ex & Ew & Es & _ & X).
  cbn in Es. subst consumed. destruct rest as [|t [|]]; try discriminate. injection Ew as <-. exact (X (4%N :: v) eq_refl H).
Qed.

Lemma lost_sentence : derives (g_rules lost_g) [g_entry lost_g] [0; 2; 3; 4]%N.
Proof.
  apply (parse_tree_derives lost_g _ (grammar_wf _ _ lost_built)). exists (INode 2 [INode 0 [ILeaf 0; INode 5 [INode 4 [ILeaf 2; ILeaf 3]]; ILeaf 4]]).
  split; [unfold parse_tree; simpl; tree|reflexivity].
Qed.

Lemma amb_productive : all_productive amb_g.
Proof. apply productiveb_ok; [exact amb_wf|vm_compute; reflexivity]. Qed.
