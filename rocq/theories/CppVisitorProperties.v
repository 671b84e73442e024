(** Property theorems about the texts of visitor.h and of the function of parser.cpp that reports unexpected tokens (C57). *)
From Coq Require Import String List Arith NArith ZArith Bool Lia Permutation.
From Verif Require Import Base InputModel GrammarModel GrammarSpec GrammarProof LRModel NamesModel NamesSpec NamesVisitProof NamesExample CppLexerModel CppLexerSpec CppLRModel CppLRSpec TemplateModel TemplateFiles CppTextModel CppTextSpec CppLexTextSpec CppLRTextModel
  CppLRTextSpec CppVisitorModel CppVisitorSpec CppVisitorProof CppLexTextExample CppLRTextExample LLExample CppRunExample CppLRExample GrammarFactsProof.
Import ListNotations.
Local Open Scope string_scope.
Local Open Scope list_scope.

(** C57.  The class of visitor.h declares [shift], then one method without parameters for every rule, and nothing else; the calls in parser_impl.h are the calls of these methods, one each. *)
Theorem visitor_text_exact : forall rs g, small rs -> from_rule_set rs = Ok g -> Forall plain_name (token_names rs) -> (forall p, In p (rs_prods rs) -> plain_name (pr_name p)) ->
  exists t ms vs, visitor_h_text g = Ok t /\ cpp_visitor_methods g = Ok ms /\ cpp_rule_visits g = Ok vs /\
  (forall l, methods_in t "Visitor" l <-> l = ("shift", [mkParam ["lexer"; "TokenType"] "tk_type" false; mkParam ["T"] "data" false]) :: map (fun m => (m, [])) ms) /\
  Permutation (map snd vs) (map Some ms).
Proof. exact visitor_exact. Qed.
Example visitor_text_exact_case : small wide_rules /\ from_rule_set wide_rules = Ok ll_g /\ Forall plain_name (token_names wide_rules) /\ (forall p, In p (rs_prods wide_rules) -> plain_name (pr_name p)) /\
  visitor_h_text numbered_g = Ok (chars "#pragma once

#include ""tokens.h""

namespace parser
{
    template <class T>
    class Visitor
    {
    public:
        virtual void shift(lexer::TokenType tk_type, T data) = 0;
        // a(0) -> A(0) a_1(2)
virtual void reduce_a_1() = 0;
// a(0) -> B(1)
virtual void reduce_a_2() = 0;
// a_1(2) -> C(2)
virtual void reduce_a_1() = 0;

    };
}").
Proof.
  split; [apply smallb_ok; reflexivity|]. split; [vm_compute; reflexivity|]. split; [exact wide_names|]. split; [exact sum_prods_named|]. vm_compute. reflexivity.
Qed.
Print Assumptions visitor_text_exact.

(** C57.  No method is declared twice, which a C++ compiler does not accept, exactly under the condition of C34. *)
Theorem visitor_text_distinct : forall rs g, small rs -> from_rule_set rs = Ok g -> Forall plain_name (token_names rs) -> (forall p, In p (rs_prods rs) -> plain_name (pr_name p)) ->
  (forall i j n, In (NonTerminal i) (non_terminals g) -> In (NonTerminal j) (non_terminals g) -> named g i n -> named g j n -> i = j) ->
  exists t l, visitor_h_text g = Ok t /\ methods_in t "Visitor" l /\
  (NoDup (map fst l) <->
   forall i j n m p, (1 < List.length (rules_of g i))%nat -> List.length (rules_of g j) = 1%nat -> named g i n -> named g j m -> (1 <= p <= List.length (rules_of g i))%nat -> m <> (n ++ "_" ++ decimal (N.of_nat p))%string).
Proof. exact declared_distinct. Qed.
Example visitor_text_distinct_case : small numbered_rules /\ from_rule_set numbered_rules = Ok numbered_g /\ Forall plain_name (token_names numbered_rules) /\ (forall p, In p (rs_prods numbered_rules) -> plain_name (pr_name p)) /\
  (forall i j n, named numbered_g i n -> named numbered_g j n -> i = j).
Proof.
  split; [apply smallb_ok; reflexivity|]. split; [exact numbered_g_built|]. split; [repeat constructor; apply plainb_ok; reflexivity|]. split; [intros p H; repeat destruct H as [<-|H]; try destruct H; apply plainb_ok; reflexivity|].
  apply (NamesVisitProof.names_distinct numbered_rules); [apply smallb_ok; reflexivity|exact numbered_g_built|]. intros p k H E. repeat destruct H as [<-|H]; try destruct H; discriminate.
Qed.
Print Assumptions visitor_text_distinct.

(** C57.  There are files for which the class declares one method twice. *)
Theorem visitor_text_twice_refuted : exists rs g t l, small rs /\ from_rule_set rs = Ok g /\ Forall plain_name (token_names rs) /\ (forall p, In p (rs_prods rs) -> plain_name (pr_name p)) /\
  visitor_h_text g = Ok t /\ methods_in t "Visitor" l /\ ~ NoDup (map fst l).
Proof. exact visitor_twice. Qed.
Print Assumptions visitor_text_twice_refuted.

(** C57.  The text of [throw_unexpected_token_error] in parser.cpp, with the text of [get_token_name] in tokens.cpp, throws the message that C54 and C55 take it to throw, and is undefined for the
    values that they leave undefined. *)
Theorem error_text_exact : forall c names, writable_lr c -> Forall plain_name names -> NoDup names -> ~ In "ERR" names -> ~ In "EOF" names ->
  exists body naming, (forall l, has_message (parser_cpp_text c) (chars "void throw_unexpected_token_error(const char* expected, lexer::TokenType got)") l <-> l = body) /\
  defines (tokens_cpp_text names) (chars "const char *get_token_name(TokenType tk_type)") naming /\
  forall P pull st expected a z, eval P st a = Some (VEnum "TokenType" z) ->
    eventually (fun fuel => run_message (naming_call fuel names naming) [] [("expected", VStr expected); ("got", VEnum "TokenType" z)] body =
      option_map snd (outside P names pull st (EName ["throw_unexpected_token_error"]) [EStr expected; a])).
Proof. exact message_exact. Qed.
Example error_text_exact_case : writable_lr lr1_c /\ Forall plain_name (token_names wide_rules) /\ NoDup (token_names wide_rules) /\ ~ In "ERR" (token_names wide_rules) /\ ~ In "EOF" (token_names wide_rules) /\
  eval (lr_program [] [] []) (mkStore [("t", VEnum "TokenType" 1)] []) (EName ["t"]) = Some (VEnum "TokenType" 1) /\
  option_map snd (outside (lr_program [] [] []) (token_names wide_rules) (fun _ => None) (mkStore [("t", VEnum "TokenType" 1)] []) (EName ["throw_unexpected_token_error"]) [EStr "NUM"; EName ["t"]]) =
    Some (RThrow "Unexpected token '<EOF>', expected one of: NUM").
Proof.
  split; [exact sum_writable|]. split; [exact wide_names|]. split; [repeat constructor; cbn; intuition discriminate|]. split; [cbn; intuition discriminate|]. split; [cbn; intuition discriminate|]. split; vm_compute; reflexivity.
Qed.
Print Assumptions error_text_exact.
