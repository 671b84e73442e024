(** Displayed grammars. *)
From Coq Require Import String Ascii List Arith NArith Bool.
From Verif Require Import Base InputModel GrammarModel GrammarSpec GrammarFactsProof LRModel LRSpec LLExample LRExample NamesModel NamesSpec TableModel TableSpec PipelineFactsProof GrammarTextModel.
Import ListNotations.
Local Open Scope string_scope.
Local Open Scope list_scope.

Definition any_token (n : string) : token_rule := mkTokenRule n None (TLiteral [98%N]).
(** The same grammar with another token at the end, other patterns and a tag. *)
Definition tagged_rules : rule_set :=
  mkRuleSet "s" [any_token "NUM"; any_token "ADD"; any_token "SUB"]
    [mkProdRule "s" (Some "start") (QRule "e"); mkProdRule "e" None (QSeq [QRule "e"; QRule "ADD"; QRule "e"]); mkProdRule "e" None (QRule "NUM")].
Definition tagged_g : grammar := Eval vm_compute in of_rules tagged_rules.
Lemma tagged_built : from_rule_set tagged_rules = Ok tagged_g. Proof. vm_compute. reflexivity. Qed.
Lemma amb_small : small amb_rules. Proof. split; discriminate. Qed.
Lemma tagged_small : small tagged_rules. Proof. split; discriminate. Qed.
Lemma amb_plain : plain_names amb_rules.
Proof.
  split.
  - intros t [<-|[<-|[]]]; cbn; unfold plain_char; repeat split; auto.
  - intros p [<-|[<-|[<-|[]]]]; cbn; unfold plain_char; repeat split; auto.
Qed.
Lemma tagged_plain : plain_names tagged_rules.
Proof.
  split.
  - intros t [<-|[<-|[<-|[]]]]; cbn; unfold plain_char; repeat split; auto.
  - intros p [<-|[<-|[<-|[]]]]; cbn; unfold plain_char; repeat split; auto.
Qed.
Definition amb_text : string := "Grammar (entry: s(0)) {
	s(0) -> e(1)
	e(1) -> e(1) ADD(1) e(1)
	e(1) -> NUM(0)
}".
Lemma amb_displayed : grammar_text amb_g = Ok amb_text /\ grammar_text tagged_g = Ok amb_text. Proof. split; vm_compute; reflexivity. Qed.

(** Two tokens, and one token with the text of both. *)
Definition two_rules : rule_set := mkRuleSet "s" [any_token "A"; any_token "B"] [mkProdRule "s" None (QSeq [QRule "A"; QRule "B"])].
Definition one_rules : rule_set := mkRuleSet "s" [any_token "X"; any_token "A(0) B"] [mkProdRule "s" None (QRule "A(0) B")].
Definition two_g : grammar := Eval vm_compute in of_rules two_rules.
Definition one_g : grammar := Eval vm_compute in of_rules one_rules.
Lemma two_built : from_rule_set two_rules = Ok two_g. Proof. vm_compute. reflexivity. Qed.
Lemma one_built : from_rule_set one_rules = Ok one_g. Proof. vm_compute. reflexivity. Qed.
Lemma two_sentence : ebnf two_rules (QRule "s") ["A"; "B"].
Proof.
  apply (e_prod two_rules (mkProdRule "s" None (QSeq [QRule "A"; QRule "B"]))); [left; reflexivity|]. apply (e_seq_cons two_rules _ _ ["A"] ["B"]); [apply e_token; exists (any_token "A"); cbn; auto|].
  apply (e_seq_cons two_rules _ _ ["B"] []); [apply e_token; exists (any_token "B"); cbn; auto|constructor].
Qed.
Lemma one_sentence : ~ ebnf one_rules (QRule "s") ["A"; "B"].
Proof.
  intros H. apply (language_ok one_rules one_g) in H; [|split; discriminate|exact one_built]. destruct H as (w & _ & F). inversion F as [|t n ? ? T]; subst. cbn in T. destruct T as [T|[T|[]]]; discriminate.
Qed.
Lemma one_two_displayed : grammar_text two_g = grammar_text one_g. Proof. vm_compute. reflexivity. Qed.
